(** The model field has no sources: C123. *)
From Coq Require Import Reals Lra Psatz List Arith Lia Bool.
From Coquelicot Require Import Coquelicot.
From Verif Require Import Scalar RSum Trig Geo3 Wgs84Model WmmModel WmmData WmmSpec WmmLegendre WmmProofs WmmProps WmmFieldProps WmmGradProps.
Local Open Scope R_scope.

(** ** Specification *)
(** a vector field given by its upward, northward and eastward components at geocentric radius, latitude and longitude *)
Record vector_field := mkField { upc : R -> R -> R -> R; northc : R -> R -> R -> R; eastc : R -> R -> R -> R }.
Definition field_value (B : vector_field) (r phi lam : R) : V3 :=
  Vadd (Vscale (upc B r phi lam) (upward phi lam))
    (Vadd (Vscale (northc B r phi lam) (north phi lam)) (Vscale (eastc B r phi lam) (east lam))).
(** divergence in spherical coordinates *)
Definition divergence (B : vector_field) (r phi lam d : R) : Prop :=
  exists d1 d2 d3,
    is_derive (fun u => u ^ 2 * upc B u phi lam) r d1 /\
    is_derive (fun u => cos u * northc B r u lam) phi d2 /\
    is_derive (fun u => eastc B r phi u) lam d3 /\
    d = d1 / r ^ 2 + d2 / (r * cos phi) + d3 / (r * cos phi).
(** the three components of the curl (up, north, east), times r *)
Definition curl_free (B : vector_field) (r phi lam : R) : Prop :=
  exists a b c d e f,
    is_derive (fun u => eastc B r u lam * cos u) phi a /\ is_derive (fun u => northc B r phi u) lam b /\ a = b /\
    is_derive (fun u => upc B r phi u) lam c /\ is_derive (fun u => u * eastc B u phi lam) r d /\ c = d * cos phi /\
    is_derive (fun u => u * northc B u phi lam) r e /\ is_derive (fun u => upc B r u lam) phi f /\ e = f.

Lemma is_derive_extR (f g : R -> R) (t l : R) : (forall u : R, f u = g u :> R) -> is_derive f t l -> is_derive g t l.
Proof. intros H. apply is_derive_ext. exact H. Qed.

(** ** Legendre's equation *)
Lemma LD_ode n m x :
  (1 - x * x) * LD n (S (S m)) x - 2 * (INR m + 1) * x * LD n (S m) x + (INR n * (INR n + 1) - INR m * (INR m + 1)) * LD n m x = 0.
Proof.
  destruct n as [|n].
  - rewrite !(LD_zero 0 (S _)) by lia. destruct m; cbn [INR LD]; ring.
  - destruct (CD n x) as [HC HD].
    pose proof (HC (S m)) as C1. pose proof (HD (S m)) as D1. pose proof (HD m) as D0.
    unfold C_, D_ in C1, D1, D0. rewrite !S_INR in *.
    set (a := LD (S n) (S (S m)) x) in *. set (b := LD (S n) (S m) x) in *. set (c := LD (S n) m x) in *.
    set (u := LD n (S (S m)) x) in *. set (v := LD n (S m) x) in *. set (N := INR n) in *. set (M := INR m) in *.
    assert (E1 : u = x * a - (N + 1 - (M + 1)) * b) by lra.
    assert (E2 : v = x * b - (N + 1 - M) * c) by lra.
    rewrite E1, E2 in C1.
    assert (E3 : (1 - x * x) * a = - x * ((N + 1 - (M + 1)) * b) + (N + 1 + (M + 1)) * (x * b - (N + 1 - M) * c)) by lra.
    rewrite E3. ring.
Qed.

(** the derivative of the associated function and of cos times it *)
Definition dA (n m : nat) (phi : R) : R :=
  - INR m * sin phi * cos phi ^ pred m * LD n m (sin phi) + cos phi ^ S m * LD n (S m) (sin phi).
Lemma A_derive n m phi : is_derive (fun u => cos u ^ m * LD n m (sin u)) phi (dA n m phi).
Proof.
  eapply is_derive_eq.
  - apply (is_derive_mult (fun phi => cos phi ^ m) (fun phi => LD n m (sin phi))); [| |intros; apply Rmult_comm].
    + apply is_derive_pow. apply is_derive_cos.
    + apply (is_derive_comp (LD n m) sin). apply LD_derive. apply is_derive_sin.
  - unfold dA, plus, mult, scal; cbn. unfold mult; cbn. ring.
Qed.
Lemma dA_dT n m phi : pole_eps < Rabs (cos phi) -> dT (sin phi) (cos phi) n m = dA n m phi.
Proof.
  intros H. rewrite <- (is_derive_unique _ _ _ (assoc_derive n m phi H)). apply is_derive_unique.
  apply (is_derive_extR (fun u => cos u ^ m * LD n m (sin u))); [intros t; rewrite <- T_assoc; reflexivity|apply A_derive].
Qed.
(** cos phi A'(phi) without the negative power *)
Lemma cosdA n m phi : cos phi * dA n m phi = - INR m * sin phi * cos phi ^ m * LD n m (sin phi) + cos phi ^ S (S m) * LD n (S m) (sin phi).
Proof. unfold dA. destruct m; cbn [pred pow INR]; ring. Qed.
Lemma cosdA_derive n m phi : cos phi <> 0 ->
  is_derive (fun u => cos u * dA n m u) phi
    (cos phi * (INR m ^ 2 / cos phi ^ 2 - INR n * (INR n + 1)) * (cos phi ^ m * LD n m (sin phi))).
Proof.
  intros Nc.
  apply (is_derive_extR (fun u => - INR m * (sin u * (cos u ^ m * LD n m (sin u))) + cos u ^ S (S m) * LD n (S m) (sin u))).
  { intros u. rewrite cosdA. ring. }
  eapply is_derive_eq.
  - apply (is_derive_plus (fun u => - INR m * (sin u * (cos u ^ m * LD n m (sin u)))) (fun u => cos u ^ S (S m) * LD n (S m) (sin u))).
    + apply is_derive_scal. apply (is_derive_mult sin (fun u => cos u ^ m * LD n m (sin u))); [apply is_derive_sin|apply A_derive|intros; apply Rmult_comm].
    + apply (is_derive_mult (fun phi => cos phi ^ S (S m)) (fun phi => LD n (S m) (sin phi))); [| |intros; apply Rmult_comm].
      * apply is_derive_pow. apply is_derive_cos.
      * apply (is_derive_comp (LD n (S m)) sin). apply LD_derive. apply is_derive_sin.
  - unfold plus, mult, scal; cbn -[pow INR LD]. unfold mult; cbn -[pow INR LD].
    pose proof (LD_ode n m (sin phi)) as O. pose proof (sincos2 phi) as SC.
    assert (S1 : 1 - sin phi * sin phi = cos phi * cos phi) by lra. rewrite S1 in O.
    assert (E2 : cos phi * cos phi * LD n (S (S m)) (sin phi)
      = 2 * (INR m + 1) * sin phi * LD n (S m) (sin phi) - (INR n * (INR n + 1) - INR m * (INR m + 1)) * LD n m (sin phi)) by lra.
    unfold dA. set (c := cos phi) in *. set (s := sin phi) in *.
    assert (P : c ^ pred m * INR m = c ^ m * INR m / c) by (destruct m; cbn [pred INR pow]; field; auto).
    replace (pred (S (S m))) with (S m) by reflexivity. rewrite !S_INR.
    transitivity (- INR m * (c * (c ^ m * LD n m s) + s * (- (c ^ pred m * INR m) * s * LD n m s + c ^ S m * LD n (S m) s))
      + (- (INR m + 1 + 1) * s * c ^ S m * LD n (S m) s + c * c ^ m * (c * c * LD n (S (S m)) s))).
    { cbn [pow]. ring. }
    rewrite E2, P. replace (s * (- (c ^ m * INR m / c) * s * LD n m s + c ^ S m * LD n (S m) s))
      with (- (s * s) * (c ^ m * INR m / c) * LD n m s + s * c ^ S m * LD n (S m) s) by ring.
    replace (s * s) with (1 - c * c) by lra. cbn [pow]. field. auto.
Qed.

(** ** The field in closed form *)
Definition K (g h : nat -> nat -> R) (lam : R) (n m : nat) : R := g n m * cos (INR m * lam) + h n m * sin (INR m * lam).
Definition Kq (g h : nat -> nat -> R) (lam : R) (n m : nat) : R := INR m * (g n m * sin (INR m * lam) - h n m * cos (INR m * lam)).
Definition SA (n m : nat) (phi : R) : R := schmidt n m * (cos phi ^ m * LD n m (sin phi)).
Definition model_field (g h : nat -> nat -> R) (N : nat) (a : R) : vector_field :=
  mkField (fun r phi lam => hsum N (a / r) (fun n m => (INR n + 1) * K g h lam n m * SA n m phi))
          (fun r phi lam => - hsum N (a / r) (fun n m => K g h lam n m * (schmidt n m * dA n m phi)))
          (fun r phi lam => / cos phi * hsum N (a / r) (fun n m => Kq g h lam n m * SA n m phi)).

Lemma K_derive g h lam n m : is_derive (fun l => K g h l n m) lam (- Kq g h lam n m).
Proof. unfold K, Kq. auto_derive; auto. ring. Qed.
Lemma Kq_derive g h lam n m : is_derive (fun l => Kq g h l n m) lam (INR m ^ 2 * K g h lam n m).
Proof. unfold K, Kq. auto_derive; auto. ring. Qed.
Lemma SA_SL n m phi : SA n m phi = schmidt_legendre n m phi.
Proof. unfold SA, schmidt_legendre. rewrite <- T_assoc. reflexivity. Qed.

Lemma hsum_derive N q (f : nat -> nat -> R -> R) (f' : nat -> nat -> R) t :
  (forall n m, is_derive (f n m) t (f' n m)) -> is_derive (fun u => hsum N q (fun n m => f n m u)) t (hsum N q f').
Proof.
  intros H. unfold hsum. apply is_derive_sum. intros i Hi. apply is_derive_scal. apply is_derive_sum. intros m Hm. apply H.
Qed.
(** derivative of u^k times a sum in the radius, k = 0, 1, 2 *)
Lemma radial_derive N a (k : nat) f r : 0 < r -> (k <= 2)%nat ->
  is_derive (fun u => u ^ k * hsum N (a / u) f) r (hsum N (a / r) (fun n m => (INR k - INR n - 2) * f n m) * r ^ k / r).
Proof.
  intros Hr Hk. apply (is_derive_extR (fun u => sum N (fun i => (u ^ k * (a / u) ^ (i + 3)) * sum (i + 2) (f (S i))))).
  { intros u. unfold hsum. rewrite <- sum_scal. apply sum_ext. intros i Hi. ring. }
  eapply is_derive_eq.
  - apply (is_derive_sum N (fun i u => (u ^ k * (a / u) ^ (i + 3)) * sum (i + 2) (f (S i)))
      (fun i => ((INR k - INR i - 3) * (r ^ k * (a / r) ^ (i + 3)) / r) * sum (i + 2) (f (S i)))).
    intros i Hi.
    apply (is_derive_extR (fun u => sum (i + 2) (f (S i)) * (u ^ k * (a / u) ^ (i + 3)))); [intros; apply Rmult_comm|].
    eapply is_derive_eq; [apply is_derive_scal|apply Rmult_comm].
    eapply is_derive_eq.
    + apply (is_derive_mult (fun u => u ^ k) (fun u => (a / u) ^ (i + 3)) r (INR k * r ^ pred k) (- (INR i + 3) * (a / r) ^ (i + 3) / r)); [| |intros; apply Rmult_comm].
      * eapply is_derive_eq; [apply (is_derive_pow (fun u => u) k r 1), (is_derive_id (K := R_AbsRing))|ring].
      * eapply is_derive_eq.
        -- apply (is_derive_pow (fun u => a / u) (i + 3) r (- a / (r * r))). auto_derive; [lra|field; lra].
        -- replace (pred (i + 3)) with (i + 2)%nat by lia. rewrite plus_INR. replace (i + 3)%nat with (S (i + 2)) by lia. cbn [INR pow]. field. lra.
    + unfold plus, mult; cbn -[pow INR]. destruct k; [cbn [pred pow INR]; field; lra|].
      cbn [pred pow]. rewrite S_INR. field. lra.
  - unfold hsum. unfold Rdiv. rewrite !Rmult_assoc, <- sum_scal_r. apply sum_ext. intros i Hi.
    rewrite (sum_scal (i + 2) _ (f (S i))), S_INR. ring.
Qed.

Lemma model_divergence g h N a r phi lam : 0 < r -> cos phi <> 0 -> divergence (model_field g h N a) r phi lam 0.
Proof.
  intros Hr Nc. unfold divergence, model_field. cbn [upc northc eastc].
  eexists _, _, _. split; [apply (radial_derive N a 2); auto|]. split; [|split].
  - apply (is_derive_extR (fun u => - hsum N (a / r) (fun n m => K g h lam n m * (schmidt n m * (cos u * dA n m u))))).
    { intros u. rewrite Ropp_mult_distr_r_reverse. f_equal. rewrite <- hsum_scal. apply hsum_ext. intros. ring. }
    apply (is_derive_opp (fun u => hsum N (a / r) (fun n m => K g h lam n m * (schmidt n m * (cos u * dA n m u))))).
    apply (hsum_derive N (a / r) (fun n m u => K g h lam n m * (schmidt n m * (cos u * dA n m u)))).
    intros n m. apply is_derive_scal, is_derive_scal, cosdA_derive; auto.
  - apply is_derive_scal. apply (hsum_derive N (a / r) (fun n m u => Kq g h u n m * SA n m phi)).
    intros n m. apply (is_derive_extR (fun u => SA n m phi * Kq g h u n m)); [intros; apply Rmult_comm|]. apply is_derive_scal, Kq_derive.
  - unfold opp; cbn -[pow INR hsum].
    set (q := a / r).
    transitivity (/ r * (hsum N q (fun n m => (INR 2 - INR n - 2) * ((INR n + 1) * K g h lam n m * SA n m phi))
      + (- / cos phi) * hsum N q (fun n m => K g h lam n m * (schmidt n m * (cos phi * (INR m ^ 2 / cos phi ^ 2 - INR n * (INR n + 1)) * (cos phi ^ m * LD n m (sin phi)))))
      + / cos phi ^ 2 * hsum N q (fun n m => SA n m phi * (INR m ^ 2 * K g h lam n m)))).
    2: { field. split; auto. lra. }
    rewrite <- !hsum_scal, <- !hsum_plus.
    rewrite (hsum_ext N q _ (fun n m => 0 * 0)).
    + rewrite hsum_scal. ring.
    + intros n m _ _. unfold SA. cbn [INR]. field. auto.
Qed.

Lemma model_curl g h N a r phi lam : 0 < r -> cos phi <> 0 -> curl_free (model_field g h N a) r phi lam.
Proof.
  intros Hr Nc. unfold curl_free, model_field. cbn [upc northc eastc].
  assert (DS : forall n m, is_derive (fun u => SA n m u) phi (schmidt n m * dA n m phi)).
  { intros n m. unfold SA. apply is_derive_scal, A_derive. }
  eexists _, _, _, _, _, _.
  split; [|split; [|split; [|split; [|split; [|split; [|split; [|split]]]]]]].
  - apply (is_derive_ext_loc (fun u => hsum N (a / r) (fun n m => Kq g h lam n m * SA n m u))).
    + assert (C : continuous cos phi) by (apply (ex_derive_continuous (V := R_NormedModule)); eexists; apply is_derive_cos).
      assert (O : locally (cos phi) (fun y => y <> 0)) by (apply (open_neq 0); auto).
      specialize (C _ O). unfold filtermap in C. revert C. apply filter_imp. intros u Hu. cbn in Hu. change (hsum N (a / r) (fun n m => Kq g h lam n m * SA n m u) = / cos u * hsum N (a / r) (fun n m => Kq g h lam n m * SA n m u) * cos u). field. auto.
    + apply (hsum_derive N (a / r) (fun n m u => Kq g h lam n m * SA n m u)). intros n m. apply is_derive_scal, DS.
  - apply (is_derive_opp (fun u => hsum N (a / r) (fun n m => K g h u n m * (schmidt n m * dA n m phi)))).
    apply (hsum_derive N (a / r) (fun n m u => K g h u n m * (schmidt n m * dA n m phi))).
    intros n m. apply (is_derive_extR (fun u => (schmidt n m * dA n m phi) * K g h u n m)); [intros; apply Rmult_comm|]. apply is_derive_scal, K_derive.
  - unfold opp; cbn -[hsum]. transitivity (-1 * hsum N (a / r) (fun n m => schmidt n m * dA n m phi * - Kq g h lam n m)); [|ring].
    rewrite <- hsum_scal. apply hsum_ext. intros. ring.
  - apply (hsum_derive N (a / r) (fun n m u => (INR n + 1) * K g h u n m * SA n m phi)).
    intros n m. apply (is_derive_extR (fun u => ((INR n + 1) * SA n m phi) * K g h u n m)); [intros; ring|]. apply is_derive_scal, K_derive.
  - apply (is_derive_extR (fun u => / cos phi * (u ^ 1 * hsum N (a / u) (fun n m => Kq g h lam n m * SA n m phi)))); [intros; ring|].
    apply is_derive_scal. apply (radial_derive N a 1); auto.
  - transitivity (hsum N (a / r) (fun n m => (INR 1 - INR n - 2) * (Kq g h lam n m * SA n m phi))).
    + apply hsum_ext. intros. cbn [INR]. ring.
    + match goal with |- ?x = ?y => change (@eq R x y) end. field. split; auto. lra.
  - apply (is_derive_extR (fun u => - (u ^ 1 * hsum N (a / u) (fun n m => K g h lam n m * (schmidt n m * dA n m phi))))); [intros; ring|].
    apply (is_derive_opp (fun u => u ^ 1 * hsum N (a / u) (fun n m => K g h lam n m * (schmidt n m * dA n m phi)))). apply (radial_derive N a 1); auto.
  - apply (hsum_derive N (a / r) (fun n m u => (INR n + 1) * K g h lam n m * SA n m u)).
    intros n m. apply is_derive_scal, DS.
  - unfold opp; cbn -[hsum pow INR].
    transitivity (-1 * hsum N (a / r) (fun n m => (INR 1 - INR n - 2) * (K g h lam n m * (schmidt n m * dA n m phi)))).
    + match goal with |- ?x = ?y => change (@eq R x y) end. field. lra.
    + match goal with |- ?x = ?y => change (@eq R x y) end. rewrite <- hsum_scal. apply hsum_ext. intros. cbn [INR]. ring.
Qed.

(** ** The calls *)
Lemma field_identity co gc la : (c_max co <= wmm_max_degree)%nat -> pole_eps < Rabs (cos (gc_lat gc)) ->
  from_ned la (gc_lon gc) (turn (gc_lat gc - la) (a_x (acc_at co gc)) (a_y (acc_at co gc)) (a_z (acc_at co gc)))
  = field_value (model_field (co_g co) (co_h co) (c_max co) wmm_reference_radius_m) (gc_radius gc) (gc_lat gc) (gc_lon gc).
Proof.
  intros HN Hc. destruct (acc_at_vals co gc HN) as (AX & AY & AZ). rewrite AX, AY, AZ.
  set (ph := gc_lat gc) in *. set (lm := gc_lon gc) in *. set (q := wmm_reference_radius_m / gc_radius gc) in *.
  assert (EX : hsum (c_max co) q (fun n m => (co_g co n m * cos (INR m * lm) + co_h co n m * sin (INR m * lm)) * dSL n m ph)
     = hsum (c_max co) q (fun n m => K (co_g co) (co_h co) lm n m * (schmidt n m * dA n m ph))).
  { apply hsum_ext. intros n m _ _. unfold K, dSL. rewrite dA_dT by auto. reflexivity. }
  assert (EY : hsum (c_max co) q (fun n m => INR m * (co_g co n m * sin (INR m * lm) - co_h co n m * cos (INR m * lm)) * schmidt_legendre n m ph)
     = hsum (c_max co) q (fun n m => Kq (co_g co) (co_h co) lm n m * SA n m ph)).
  { apply hsum_ext. intros n m _ _. rewrite SA_SL. reflexivity. }
  assert (EZ : hsum (c_max co) q (fun n m => (INR n + 1) * (co_g co n m * cos (INR m * lm) + co_h co n m * sin (INR m * lm)) * schmidt_legendre n m ph)
     = hsum (c_max co) q (fun n m => (INR n + 1) * K (co_g co) (co_h co) lm n m * SA n m ph)).
  { apply hsum_ext. intros n m _ _. rewrite SA_SL. reflexivity. }
  rewrite EX, EY, EZ. unfold field_value, model_field. cbn [upc northc eastc]. fold q.
  generalize (hsum (c_max co) q (fun n m => K (co_g co) (co_h co) lm n m * (schmidt n m * dA n m ph))).
  generalize (hsum (c_max co) q (fun n m => Kq (co_g co) (co_h co) lm n m * SA n m ph)).
  generalize (hsum (c_max co) q (fun n m => (INR n + 1) * K (co_g co) (co_h co) lm n m * SA n m ph)).
  intros SZ SY SX.
  assert (Q1 : cos la * cos (ph - la) - sin la * sin (ph - la) = cos ph) by (rewrite <- cos_plus; f_equal; ring).
  assert (Q2 : sin la * cos (ph - la) + cos la * sin (ph - la) = sin ph) by (rewrite <- sin_plus; f_equal; ring).
  unfold from_ned, turn, north, east, upward, Vadd, Vscale. cbn [vx vy vz].
  apply V3_eq; cbn [vx vy vz]; rewrite <- Q1, <- Q2; ring.
Qed.

Transparent acc_at.
(** the same coefficients with the yearly changes in place of the values *)
Definition rates_of (co : coeffs) : coeffs := mkCo (c_year co) (c_max co) (c_gd co) (c_hd co) (c_gd co) (c_hd co).
Lemma acc_rates co gc : a_xd (acc_at co gc) = a_x (acc_at (rates_of co) gc) /\ a_yd (acc_at co gc) = a_y (acc_at (rates_of co) gc) /\
  a_zd (acc_at co gc) = a_z (acc_at (rates_of co) gc).
Proof. split; [|split]; reflexivity. Qed.
Opaque acc_at.

(** There is one vector field, depending on the coefficients only, whose value at the place of every
    successful call is the field vector the call returned, turned into Earth-fixed axes; its divergence
    is zero everywhere off the polar axis, and so is its curl.  A second one does the same for the
    yearly change of the field. *)
Theorem C123_no_sources co : exists B Bdot,
  (forall p e, evaluate_with_coefficients co p = Ok e ->
     let r := gc_radius (e_gc e) in let phi := gc_lat (e_gc e) in let lam := gc_lon (e_gc e) in
     from_ned (gd_lat p) (gd_lon p) (e_field e) = field_value B r phi lam /\
     from_ned (gd_lat p) (gd_lon p) (e_secular e) = field_value Bdot r phi lam) /\
  (forall r phi lam, 0 < r -> cos phi <> 0 ->
     divergence B r phi lam 0 /\ curl_free B r phi lam /\ divergence Bdot r phi lam 0 /\ curl_free Bdot r phi lam).
Proof.
  exists (model_field (co_g co) (co_h co) (c_max co) wmm_reference_radius_m),
         (model_field (co_gd co) (co_hd co) (c_max co) wmm_reference_radius_m).
  split.
  - intros p e H. rewrite eval_form in H. destruct (Rleb _ _) eqn:L; [discriminate|].
    destruct (Nat.ltb_spec wmm_max_degree (c_max co)) as [|HN]; [discriminate|]. cbv zeta in H.
    destruct (finish_ok _ _ _ _ _ H) as (_ & _ & Ev & Es & Eg & _). rewrite Ev, Es, Eg. clear H Ev Es Eg e.
    set (gc := geodetic_to_geocentric p) in *.
    assert (Hc : pole_eps < Rabs (cos (gc_lat gc))).
    { apply Rnot_le_lt. intros Q. rewrite (proj2 (Rleb_true _ _) Q) in L. discriminate. }
    change (gd_lon p) with (gc_lon gc). split.
    + apply field_identity; auto.
    + destruct (acc_rates co gc) as (E1 & E2 & E3). rewrite E1, E2, E3. apply (field_identity (rates_of co)); auto.
  - intros r phi lam Hr Nc. split; [apply model_divergence|split; [apply model_curl|split; [apply model_divergence|apply model_curl]]]; auto.
Qed.

(** every point off the polar axis is the place of some call *)
Theorem C123_every_place r phi lam : 0 < r -> - PI / 2 < phi < PI / 2 ->
  exists lat h, - PI / 2 < lat < PI / 2 /\ geodetic_to_geocentric (mkGd lat lam h) = mkGc r phi lam.
Proof.
  intros Hr Hp. pose proof PI_RGT_0. pose proof flattening_bounds as HF.
  set (e2 := wgs84_flattening * (2 - wgs84_flattening)).
  assert (He : 0 < e2 < / 50) by (unfold e2; nra).
  assert (Hc : 0 < cos phi) by (apply cos_gt_0; lra).
  assert (Hd : forall l, 0 < 1 - e2 * sin l * sin l).
  { intros l. pose proof (sincos2 l) as SC. pose proof (Rle_0_sqr (sin l)) as S1. pose proof (Rle_0_sqr (cos l)) as S2. unfold Rsqr in *.
    assert (sin l * sin l <= 1) by lra. nra. }
  set (Nf := fun l => w84_a / sqrt (1 - e2 * sin l * sin l)).
  set (F := fun l => r * cos phi * sin l - r * sin phi * cos l - e2 * Nf l * sin l * cos l).
  assert (CF : continuity F).
  { intros l. apply derivable_continuous_pt. apply ex_derive_Reals_0. unfold F, Nf.
    pose proof (Hd l) as D. assert (0 < sqrt (1 - e2 * sin l * sin l)) by (apply sqrt_lt_R0; auto).
    auto_derive. replace (1 + - (e2 * sin l * sin l)) with (1 - e2 * sin l * sin l) by ring. repeat split; auto; try lra. }
  destruct (IVT F (- PI / 2) (PI / 2) CF) as (l & Hl & E); [lra| | |].
  - unfold F. replace (- PI / 2) with (- (PI / 2)) by lra. rewrite sin_neg, cos_neg, sin_PI2, cos_PI2. pose proof (Rmult_lt_0_compat _ _ Hr Hc). lra.
  - unfold F. rewrite sin_PI2, cos_PI2. pose proof (Rmult_lt_0_compat _ _ Hr Hc). lra.
  - assert (Rc : 0 < r * cos phi) by (apply Rmult_lt_0_compat; auto).
    assert (Hl' : - PI / 2 < l < PI / 2).
    { split.
      - destruct (Rle_lt_or_eq_dec _ _ (proj1 Hl)) as [|Q]; auto. exfalso. subst l. unfold F in E.
        replace (- PI / 2) with (- (PI / 2)) in E by lra. rewrite sin_neg, cos_neg, sin_PI2, cos_PI2 in E. lra.
      - destruct (Rle_lt_or_eq_dec _ _ (proj2 Hl)) as [|Q]; auto. exfalso. subst l. unfold F in E. rewrite sin_PI2, cos_PI2 in E. lra. }
    assert (Cl : 0 < cos l) by (apply cos_gt_0; lra).
    exists l, (r * cos phi / cos l - Nf l). split; auto.
    unfold geodetic_to_geocentric. cbn [gd_lat gd_lon gd_height]. fold e2. fold (Nf l).
    replace ((Nf l + (r * cos phi / cos l - Nf l)) * cos l) with (r * cos phi) by (field; lra).
    replace ((Nf l * (1 - e2) + (r * cos phi / cos l - Nf l)) * sin l) with (r * sin phi).
    2: { apply Rmult_eq_reg_r with (cos l); [|lra]. unfold F in E.
         replace ((Nf l * (1 - e2) + (r * cos phi / cos l - Nf l)) * sin l * cos l) with (r * cos phi * sin l - e2 * Nf l * sin l * cos l) by (field; lra). lra. }
    pose proof (sincos2 phi) as SC.
    replace (r * cos phi * (r * cos phi) + r * sin phi * (r * sin phi)) with (r * r * (sin phi * sin phi + cos phi * cos phi)) by ring.
    rewrite SC, Rmult_1_r, sqrt_square by lra.
    replace (r * sin phi / r) with (sin phi) by (field; lra). rewrite asin_sin by lra. reflexivity.
Qed.

(** a whole number of turns in longitude changes nothing but the longitude written back *)
Theorem C123_full_turn co p (k : nat) :
  evaluate_with_coefficients co (mkGd (gd_lat p) (gd_lon p + 2 * INR k * PI) (gd_height p)) =
  match evaluate_with_coefficients co p with
  | Ok e => Ok (mkEl (mkGc (gc_radius (e_gc e)) (gc_lat (e_gc e)) (gd_lon p + 2 * INR k * PI)) (e_year e) (e_field e) (e_secular e)
      (e_H e) (e_F e) (e_D e) (e_I e) (e_grid e) (e_Hd e) (e_Fd e) (e_Dd e) (e_Id e))
  | o => o
  end.
Proof.
  destruct p as [la lo h]. cbn [gd_lat gd_lon gd_height]. unfold evaluate_with_coefficients.
  set (gc := geodetic_to_geocentric (mkGd la lo h)).
  change (geodetic_to_geocentric (mkGd la (lo + 2 * INR k * PI) h)) with (mkGc (gc_radius gc) (gc_lat gc) (lo + 2 * INR k * PI)).
  cbn [gc_radius gc_lat gd_lat gd_lon]. destruct (Rleb _ _); auto.
  destruct (schmidt_semi_normalized_legendre wmm_max_degree (sin (gc_lat gc)) (cos (gc_lat gc))) as [pb dpb].
  assert (EL : longitude_harmonics wmm_max_degree (lo + 2 * INR k * PI) = longitude_harmonics wmm_max_degree lo).
  { unfold longitude_harmonics. rewrite cos_period, sin_period. reflexivity. }
  rewrite EL. destruct (longitude_harmonics wmm_max_degree lo) as [cm sm].
  destruct (harmonic_sum co _ _ pb dpb cm sm) as [a|]; auto. cbv zeta. destruct (Reqb _ 0); auto.
Qed.

(** the hypotheses are met: the truncated 2025 model at latitude and longitude 0 has a successful call,
    and there its field is not zero, so the vector field of the theorem is not the zero field *)
Example C123_nontrivial : exists co e B, coefficients_at wmm_dipole 2025 = Some co /\ evaluate_with_coefficients co (mkGd 0 0 0) = Ok e /\
  0 < gc_radius (e_gc e) /\ field_value B (gc_radius (e_gc e)) (gc_lat (e_gc e)) (gc_lon (e_gc e)) <> V0 /\
  divergence B (gc_radius (e_gc e)) 0 0 0.
Proof.
  destruct C64_nontrivial as (_ & e & He & Hr & Hx). unfold evaluate in He.
  destruct (coefficients_at wmm_dipole 2025) as [co|] eqn:Ec; [|discriminate].
  destruct (C123_no_sources co) as (B & Bd & HB & HD). exists co, e, B. split; auto. split; auto. split; auto. split.
  - destruct (HB _ _ He) as [Q _]. rewrite <- Q. intros Z. apply (f_equal vz) in Z. revert Z.
    cbn [gd_lat gd_lon]. unfold from_ned, V0, Vadd, Vscale, north, east, upward. cbn [vx vy vz]. rewrite sin_0, cos_0. lra.
  - destruct (HD (gc_radius (e_gc e)) 0 0 Hr) as [D _]; [rewrite cos_0; lra|exact D].
Qed.
