(** The reported field is minus the gradient of the potential: C92. *)
From Coq Require Import Reals Lra Psatz List Arith Lia Bool.
From Coquelicot Require Import Coquelicot.
From Verif Require Import Scalar RSum Trig Geo3 Wgs84Model WmmModel WmmData WmmSpec WmmLegendre WmmProofs WmmProps WmmFieldProps.
Local Open Scope R_scope.

Lemma is_derive_sum N (f : nat -> R -> R) (f' : nat -> R) (t : R) :
  (forall i, (i < N)%nat -> is_derive (f i) t (f' i)) -> is_derive (fun u => sum N (fun i => f i u)) t (sum N f').
Proof.
  induction N; intros H; cbn [sum].
  - apply (is_derive_const (V := R_NormedModule)).
  - apply (is_derive_plus (fun u => sum N (fun i => f i u)) (f N)); [apply IHN; intros; apply H; lia|apply H; lia].
Qed.

Definition dSL (n m : nat) (phi : R) : R := schmidt n m * dT (sin phi) (cos phi) n m.
Lemma SL_derive n m phi : pole_eps < Rabs (cos phi) -> is_derive (schmidt_legendre n m) phi (dSL n m phi).
Proof. intros H. apply (is_derive_scal (fun phi => assoc_legendre n m phi)), assoc_derive; auto. Qed.

(** derivative of one term along a path *)
Lemma term_derive (r phi lam : R -> R) (t r' phi' lam' a g h : R) (n m : nat) :
  is_derive r t r' -> is_derive phi t phi' -> is_derive lam t lam' -> 0 < r t -> pole_eps < Rabs (cos (phi t)) ->
  is_derive (fun u => (a / r u) ^ (n + 1) * ((g * cos (INR m * lam u) + h * sin (INR m * lam u)) * schmidt_legendre n m (phi u))) t
   ((a / r t) ^ (n + 1) *
     (- (INR n + 1) * r' / r t * ((g * cos (INR m * lam t) + h * sin (INR m * lam t)) * schmidt_legendre n m (phi t))
      + phi' * ((g * cos (INR m * lam t) + h * sin (INR m * lam t)) * dSL n m (phi t))
      - lam' * (INR m * (g * sin (INR m * lam t) - h * cos (INR m * lam t)) * schmidt_legendre n m (phi t)))).
Proof.
  intros Dr Dp Dl Hr Hc.
  assert (D1 : is_derive (fun u => (a / r u) ^ (n + 1)) t ((a / r t) ^ (n + 1) * (- (INR n + 1) * r' / r t))).
  { eapply is_derive_eq.
    - apply (is_derive_pow (fun u => a / r u) (n + 1) t (- a * r' / (r t * r t))).
      assert (Dr0 : is_derive (fun u => r u) t r') by exact Dr.
      auto_derive; [split; [eexists; eauto|split; [lra|auto]]|].
      change (Derive (fun x => r x) t) with (Derive r t). rewrite (is_derive_unique _ _ _ Dr). field. lra.
    - replace (pred (n + 1)) with n by lia. rewrite plus_INR. replace (n + 1)%nat with (S n) by lia. cbn [INR pow]. field. lra. }
  assert (D2 : is_derive (fun u => g * cos (INR m * lam u) + h * sin (INR m * lam u)) t
     (- lam' * (INR m * (g * sin (INR m * lam t) - h * cos (INR m * lam t))))).
  { auto_derive; [repeat split; eexists; eauto|]. change (Derive (fun x => lam x) t) with (Derive lam t). rewrite (is_derive_unique _ _ _ Dl). ring. }
  assert (D3 : is_derive (fun u => schmidt_legendre n m (phi u)) t (phi' * dSL n m (phi t))).
  { apply (is_derive_comp (schmidt_legendre n m) phi); auto. apply SL_derive; auto. }
  eapply is_derive_eq.
  - apply (is_derive_mult (fun u => (a / r u) ^ (n + 1)) (fun u => (g * cos (INR m * lam u) + h * sin (INR m * lam u)) * schmidt_legendre n m (phi u)));
      [exact D1| |intros; apply Rmult_comm].
    apply (is_derive_mult (fun u => g * cos (INR m * lam u) + h * sin (INR m * lam u)) (fun u => schmidt_legendre n m (phi u))); [exact D2|exact D3|intros; apply Rmult_comm].
  - unfold plus, mult; cbn. unfold Rdiv. ring.
Qed.

Lemma potential_derive g h N a (r phi lam : R -> R) (t r' phi' lam' : R) :
  is_derive r t r' -> is_derive phi t phi' -> is_derive lam t lam' -> 0 < r t -> 0 < a -> pole_eps < Rabs (cos (phi t)) ->
  let K := fun n m => g n m * cos (INR m * lam t) + h n m * sin (INR m * lam t) in
  let q := a / r t in
  is_derive (fun u => potential g h N a (r u) (phi u) (lam u)) t
    (- r' * hsum N q (fun n m => (INR n + 1) * K n m * schmidt_legendre n m (phi t))
     + phi' * r t * hsum N q (fun n m => K n m * dSL n m (phi t))
     - lam' * r t * hsum N q (fun n m => INR m * (g n m * sin (INR m * lam t) - h n m * cos (INR m * lam t)) * schmidt_legendre n m (phi t))).
Proof.
  intros Dr Dp Dl Hr Ha Hc K q. unfold potential. cbv zeta.
  apply (is_derive_ext (fun u => a * sum N (fun i => sum (S i + 1) (fun m =>
      (a / r u) ^ (S i + 1) * ((g (S i) m * cos (INR m * lam u) + h (S i) m * sin (INR m * lam u)) * schmidt_legendre (S i) m (phi u)))))).
  { intros u. f_equal. apply sum_ext. intros i Hi. apply sum_scal. }
  eapply is_derive_eq.
  - apply is_derive_scal. apply is_derive_sum. intros i Hi. apply is_derive_sum. intros m Hm.
    apply (term_derive r phi lam t r' phi' lam'); auto.
  - unfold hsum. rewrite <- !sum_scal, <- sum_plus, <- sum_minus. apply sum_ext. intros i Hi.
    replace (S i + 1)%nat with (i + 2)%nat by lia.
    rewrite <- !sum_scal, <- sum_plus, <- sum_minus. apply sum_ext. intros m Hm. fold q. unfold K.
    replace (q ^ (i + 3)) with (q * q ^ (i + 2)) by (replace (i + 3)%nat with (S (i + 2)) by lia; reflexivity).
    replace a with (q * r t) by (unfold q; field; lra). field. lra.
Qed.

Transparent acc_at.
Lemma acc_of_vals co r phi lam pb dpb cm sm N :
  (forall n m, (m <= n <= N)%nat -> pb n m = schmidt_legendre n m phi) -> (forall n m, (m <= n <= N)%nat -> dpb n m = dSL n m phi) ->
  (forall m, (m <= N)%nat -> cm m = cos (INR m * lam)) -> (forall m, (m <= N)%nat -> sm m = sin (INR m * lam)) ->
  let a := acc_of co r (cos phi) pb dpb cm sm N in
  let q := wmm_reference_radius_m / r in
  let K := fun n m => co_g co n m * cos (INR m * lam) + co_h co n m * sin (INR m * lam) in
  a_x a = - hsum N q (fun n m => K n m * dSL n m phi) /\
  a_y a = / cos phi * hsum N q (fun n m => INR m * (co_g co n m * sin (INR m * lam) - co_h co n m * cos (INR m * lam)) * schmidt_legendre n m phi) /\
  a_z a = - hsum N q (fun n m => (INR n + 1) * K n m * schmidt_legendre n m phi).
Proof.
  intros Hp Hd Hc Hs. cbv zeta. unfold acc_of. cbv zeta. cbn [a_x a_y a_z]. split; [|split].
  - f_equal. apply hsum_ext. intros n m Hn Hm. unfold comb. rewrite Hd, Hc, Hs by lia. reflexivity.
  - rewrite <- hsum_scal. apply hsum_ext. intros n m Hn Hm. unfold azim. rewrite Hp, Hc, Hs by lia. unfold Rdiv. ring.
  - f_equal. apply hsum_ext. intros n m Hn Hm. unfold comb. rewrite Hp, Hc, Hs by lia. reflexivity.
Qed.
Lemma acc_at_vals co gc : (c_max co <= wmm_max_degree)%nat ->
  let N := c_max co in let phi := gc_lat gc in let lam := gc_lon gc in
  let q := wmm_reference_radius_m / gc_radius gc in
  let K := fun n m => co_g co n m * cos (INR m * lam) + co_h co n m * sin (INR m * lam) in
  a_x (acc_at co gc) = - hsum N q (fun n m => K n m * dSL n m phi) /\
  a_y (acc_at co gc) = / cos phi * hsum N q (fun n m => INR m * (co_g co n m * sin (INR m * lam) - co_h co n m * cos (INR m * lam)) * schmidt_legendre n m phi) /\
  a_z (acc_at co gc) = - hsum N q (fun n m => (INR n + 1) * K n m * schmidt_legendre n m phi).
Proof.
  intros H. unfold acc_at. apply (acc_of_vals co (gc_radius gc) (gc_lat gc) (gc_lon gc)).
  - intros n m Hn. apply C65_legendre. lia.
  - intros n m Hn. apply tables_ok. lia.
  - intros m Hm. apply longitude_ok. lia.
  - intros m Hm. apply longitude_ok. lia.
Qed.
Opaque acc_at.

(** The field the caller gets, turned back into Earth-fixed axes, is minus the gradient of the
    potential at the point: along every path through the point the potential falls at the rate given
    by the field component along the path. *)
Theorem C92_gradient co p e (r phi lam : R -> R) (t : R) (x' : V3) r' phi' lam' :
  evaluate_with_coefficients co p = Ok e -> 0 < gc_radius (e_gc e) ->
  is_derive r t r' -> is_derive phi t phi' -> is_derive lam t lam' ->
  r t = gc_radius (e_gc e) -> phi t = gc_lat (e_gc e) -> lam t = gc_lon (e_gc e) ->
  let P := fun u => spherical (r u) (phi u) (lam u) in
  is_derive (fun u => vx (P u)) t (vx x') -> is_derive (fun u => vy (P u)) t (vy x') -> is_derive (fun u => vz (P u)) t (vz x') ->
  is_derive (fun u => potential (co_g co) (co_h co) (c_max co) wmm_reference_radius_m (r u) (phi u) (lam u)) t
    (- Dot (from_ned (gd_lat p) (gd_lon p) (e_field e)) x').
Proof.
  intros H Hr Dr Dp Dl Er Ep El P Px Py Pz.
  rewrite eval_form in H. destruct (Rleb _ _) eqn:L; [discriminate|].
  destruct (Nat.ltb_spec wmm_max_degree (c_max co)) as [|HN]; [discriminate|]. cbv zeta in H.
  destruct (finish_ok _ _ _ _ _ H) as (_ & _ & Ev & _ & Eg & _). rewrite Ev. rewrite Eg in Hr, Er, Ep, El. clear H Ev Eg e.
  set (gc := geodetic_to_geocentric p) in *.
  assert (Hc : pole_eps < Rabs (cos (phi t))).
  { rewrite Ep. apply Rnot_le_lt. intros Q. rewrite (proj2 (Rleb_true _ _) Q) in L. discriminate. }
  assert (Nc : cos (phi t) <> 0) by (intros E; rewrite E, Rabs_R0 in Hc; pose proof pole_eps_pos; lra).
  assert (Ha : 0 < wmm_reference_radius_m) by (unfold wmm_reference_radius_m; lra).
  assert (Hrt : 0 < r t) by (rewrite Er; auto).
  (* the three sums *)
  set (K := fun n m => co_g co n m * cos (INR m * lam t) + co_h co n m * sin (INR m * lam t)).
  set (q := wmm_reference_radius_m / r t).
  destruct (acc_at_vals co gc HN) as (AX & AY & AZ). rewrite <- Er, <- Ep, <- El in AX, AY, AZ.
  (* the velocity of the path *)
  assert (Vx : vx x' = r' * (cos (phi t) * cos (lam t)) + r t * (- sin (phi t) * phi' * cos (lam t) - cos (phi t) * sin (lam t) * lam')).
  { rewrite <- (is_derive_unique _ _ _ Px). apply is_derive_unique. unfold P; cbn.
    auto_derive; [repeat split; eexists; eauto|].
    change (Derive (fun x => r x) t) with (Derive r t). change (Derive (fun x => phi x) t) with (Derive phi t). change (Derive (fun x => lam x) t) with (Derive lam t).
    rewrite (is_derive_unique _ _ _ Dr), (is_derive_unique _ _ _ Dp), (is_derive_unique _ _ _ Dl). ring. }
  assert (Vy : vy x' = r' * (cos (phi t) * sin (lam t)) + r t * (- sin (phi t) * phi' * sin (lam t) + cos (phi t) * cos (lam t) * lam')).
  { rewrite <- (is_derive_unique _ _ _ Py). apply is_derive_unique. unfold P; cbn.
    auto_derive; [repeat split; eexists; eauto|].
    change (Derive (fun x => r x) t) with (Derive r t). change (Derive (fun x => phi x) t) with (Derive phi t). change (Derive (fun x => lam x) t) with (Derive lam t).
    rewrite (is_derive_unique _ _ _ Dr), (is_derive_unique _ _ _ Dp), (is_derive_unique _ _ _ Dl). ring. }
  assert (Vz : vz x' = r' * sin (phi t) + r t * cos (phi t) * phi').
  { rewrite <- (is_derive_unique _ _ _ Pz). apply is_derive_unique. unfold P; cbn.
    auto_derive; [repeat split; eexists; eauto|].
    change (Derive (fun x => r x) t) with (Derive r t). change (Derive (fun x => phi x) t) with (Derive phi t).
    rewrite (is_derive_unique _ _ _ Dr), (is_derive_unique _ _ _ Dp). ring. }
  eapply is_derive_eq; [apply (potential_derive (co_g co) (co_h co) (c_max co) wmm_reference_radius_m r phi lam t r' phi' lam'); auto|].
  fold K. fold q.
  set (SX := hsum (c_max co) q (fun n m => K n m * dSL n m (phi t))) in *.
  set (SZ := hsum (c_max co) q (fun n m => (INR n + 1) * K n m * schmidt_legendre n m (phi t))) in *.
  set (SY := hsum (c_max co) q (fun n m => INR m * (co_g co n m * sin (INR m * lam t) - co_h co n m * cos (INR m * lam t)) * schmidt_legendre n m (phi t))) in *.
  change (a_x (acc_at co gc) = - SX) in AX. change (a_y (acc_at co gc) = / cos (phi t) * SY) in AY. change (a_z (acc_at co gc) = - SZ) in AZ.
  rewrite AX, AY, AZ. rewrite <- Ep.
  assert (Gl : gd_lon p = lam t) by (rewrite El; reflexivity). rewrite Gl.
  set (la := gd_lat p). set (ph := phi t) in *. set (lm := lam t) in *.
  assert (B : from_ned la lm (turn (ph - la) (- SX) (/ cos ph * SY) (- SZ))
     = Vadd (Vscale (- SX) (north ph lm)) (Vadd (Vscale (/ cos ph * SY) (east lm)) (Vscale SZ (upward ph lm)))).
  { assert (Q1 : cos la * cos (ph - la) - sin la * sin (ph - la) = cos ph).
    { rewrite <- cos_plus. f_equal. ring. }
    assert (Q2 : sin la * cos (ph - la) + cos la * sin (ph - la) = sin ph).
    { rewrite <- sin_plus. f_equal. ring. }
    unfold from_ned, turn, north, east, upward, Vadd, Vscale. cbn [vx vy vz].
    apply V3_eq; cbn [vx vy vz]; rewrite <- Q1, <- Q2; ring. }
  rewrite B. unfold Dot, Vadd, Vscale, north, east, upward. cbn [vx vy vz]. rewrite Vx, Vy, Vz.
  pose proof (sincos2 ph) as Q1. pose proof (sincos2 lm) as Q2.
  assert (R1 : sin ph * sin ph = 1 - cos ph * cos ph) by lra. assert (R2 : sin lm * sin lm = 1 - cos lm * cos lm) by lra.
  match goal with |- ?l = - ?rhs => replace rhs with
    (r' * SZ * ((cos ph * cos ph) * (sin lm * sin lm + cos lm * cos lm) + sin ph * sin ph)
     - r t * phi' * SX * ((sin ph * sin ph) * (sin lm * sin lm + cos lm * cos lm) + cos ph * cos ph)
     + r t * lam' * SY * (sin lm * sin lm + cos lm * cos lm)
     + r t * phi' * SZ * ((cos ph * sin ph) * (1 - (sin lm * sin lm + cos lm * cos lm)))
     + r' * SX * ((sin ph * cos ph) * ((sin lm * sin lm + cos lm * cos lm) - 1))) by (field; auto) end.
  rewrite Q2, !Rmult_1_r, Q1. rewrite (Rplus_comm (cos ph * cos ph)), Q1. ring.
Qed.

(** a path in every direction exists, so the statement above fixes all three components: moving in
    longitude at unit angular speed *)
Example C92_path r0 p0 l0 : let P := fun u => spherical r0 p0 (l0 + u) in
  is_derive (fun u => vx (P u)) 0 (vx (Vscale (r0 * cos p0) (east l0))) /\
  is_derive (fun u => vy (P u)) 0 (vy (Vscale (r0 * cos p0) (east l0))) /\
  is_derive (fun u => vz (P u)) 0 (vz (Vscale (r0 * cos p0) (east l0))).
Proof.
  cbn. split; [|split]; auto_derive; auto; rewrite ?Rplus_0_r; ring.
Qed.

Lemma flattening_bounds : 0 < wgs84_flattening < / 100.
Proof. unfold wgs84_flattening. split; lra. Qed.

(** the geocentric point is the geodetic one, for every place more than 378 km from the centre *)
Theorem C92_position p : - PI / 2 <= gd_lat p <= PI / 2 -> - 6000000 <= gd_height p ->
  let gc := geodetic_to_geocentric p in
  0 < gc_radius gc /\ - PI / 2 <= gc_lat gc <= PI / 2 /\
  spherical (gc_radius gc) (gc_lat gc) (gc_lon gc) = geodetic w84_a wgs84_flattening (gd_lat p) (gd_lon p) (gd_height p).
Proof.
  intros Hl Hh gc. pose proof PI_RGT_0. pose proof flattening_bounds as HF.
  set (e2 := wgs84_flattening * (2 - wgs84_flattening)).
  assert (He : 0 < e2 < / 50) by (unfold e2; nra).
  set (s := sin (gd_lat p)). set (c := cos (gd_lat p)). pose proof (sincos2 (gd_lat p)) as SC. fold s c in SC.
  assert (Hc : 0 <= c) by (apply cos_ge_0; lra).
  assert (Hs : 0 <= s * s <= 1) by (pose proof (Rle_0_sqr s); pose proof (Rle_0_sqr c); unfold Rsqr in *; lra).
  assert (Hd : 0 < 1 - e2 * (s * s) <= 1) by (split; nra).
  assert (Hq : 0 < sqrt (1 - e2 * (s * s)) <= 1).
  { split; [apply sqrt_lt_R0; lra|]. pose proof (sqrt_le_1 (1 - e2 * (s * s)) 1 ltac:(lra) ltac:(lra) ltac:(lra)) as Q. rewrite sqrt_1 in Q. exact Q. }
  set (n := w84_a / sqrt (1 - e2 * (s * s))).
  assert (Hn : 6378137 <= n).
  { unfold n, w84_a. apply Rmult_le_reg_r with (sqrt (1 - e2 * (s * s))); [lra|].
    replace (6378137 / sqrt (1 - e2 * (s * s)) * sqrt (1 - e2 * (s * s))) with 6378137 by (field; lra). nra. }
  set (a := n + gd_height p). set (b := n * (1 - e2) + gd_height p).
  assert (Ha : 0 < a) by (unfold a; lra). assert (Hb : 0 < b) by (unfold b; nra).
  set (R_ := sqrt (a * c * (a * c) + b * s * (b * s))).
  assert (Gr : gc_radius gc = R_).
  { unfold gc, geodetic_to_geocentric. cbn [gc_radius]. fold s c e2. unfold R_, a, b, n.
    replace (1 - e2 * s * s) with (1 - e2 * (s * s)) by ring. reflexivity. }
  assert (Gl : gc_lat gc = asin (b * s / R_)).
  { unfold gc, geodetic_to_geocentric. cbn [gc_lat]. fold s c e2. unfold R_, a, b, n.
    replace (1 - e2 * s * s) with (1 - e2 * (s * s)) by ring. reflexivity. }
  assert (Q1 : 0 <= a * c * (a * c)) by (apply Rle_0_sqr). assert (Q2 : 0 <= b * s * (b * s)) by (apply Rle_0_sqr).
  assert (Q : 0 < a * c * (a * c) + b * s * (b * s)).
  { destruct (Req_dec c 0) as [E|E].
    - assert (s <> 0) by (intros F; rewrite E, F in SC; lra).
      assert (b * s <> 0) by (apply Rmult_integral_contrapositive; split; lra).
      pose proof (Rsqr_pos_lt (b * s) H1). unfold Rsqr in *. lra.
    - assert (Z : a * c <> 0) by (apply Rmult_integral_contrapositive; split; lra).
      pose proof (Rsqr_pos_lt (a * c) Z). unfold Rsqr in *. lra. }
  assert (Rp : 0 < R_) by (apply sqrt_lt_R0; auto).
  assert (RR : R_ * R_ = a * c * (a * c) + b * s * (b * s)) by (apply sqrt_sqrt; lra).
  assert (Bd : -1 <= b * s / R_ <= 1).
  { assert (A : Rabs (b * s) <= R_).
    { rewrite <- (Rabs_pos_eq R_) by lra. apply Rsqr_le_abs_0. unfold Rsqr. lra. }
    apply Rabs_le_between in A. split; apply Rmult_le_reg_r with R_; auto;
      replace (b * s / R_ * R_) with (b * s) by (field; lra); lra. }
  split; [rewrite Gr; auto|]. split; [rewrite Gl; pose proof (asin_bound (b * s / R_)); lra|].
  rewrite Gr, Gl. unfold spherical, upward, Vscale, geodetic. cbn [vx vy vz]. rewrite sin_asin by auto.
  assert (Cc : R_ * cos (asin (b * s / R_)) = a * c).
  { rewrite cos_asin by auto. replace (1 - (b * s / R_)²) with ((a * c / R_) * (a * c / R_)).
    - rewrite sqrt_square.
      + field. lra.
      + apply Rmult_le_pos; [apply Rmult_le_pos; lra|]. apply Rlt_le, Rinv_0_lt_compat; auto.
    - unfold Rsqr. apply Rmult_eq_reg_r with (R_ * R_); [|apply Rgt_not_eq, Rmult_lt_0_compat; auto].
      replace ((1 - b * s / R_ * (b * s / R_)) * (R_ * R_)) with (R_ * R_ - b * s * (b * s)) by (field; lra).
      rewrite RR. rewrite <- RR at 1. field_simplify; [ring|lra]. }
  change (gc_lon gc) with (gd_lon p). fold s c e2 n a b.
  apply V3_eq; cbn [vx vy vz].
  - rewrite <- Rmult_assoc, Cc. reflexivity.
  - rewrite <- Rmult_assoc, Cc. reflexivity.
  - field. lra.
Qed.

(** the hypotheses of the C64 and C92 theorems are met by the embedded 2025 model truncated to degree
    1 at latitude and longitude 0 *)
Definition wmm_dipole : model := mkWmm 2025 1 (m_records wmm_2025) (m_g wmm_2025) (m_h wmm_2025) (m_gd wmm_2025) (m_hd wmm_2025).
Example C64_nontrivial : well_formed wmm_dipole /\
  exists e, evaluate wmm_dipole 2025 (mkGd 0 0 0) = Ok e /\ 0 < gc_radius (e_gc e) /\ 0 < vx (e_field e).
Proof.
  assert (W : well_formed wmm_dipole).
  { destruct C63_embedded as (_ & H1 & H2). split; [cbn; unfold wmm_max_degree; lia|]. split; auto. }
  split; auto.
  destruct (C63_linear wmm_dipole 2025 W) as (co & E & Y & M & L & G & _).
  unfold evaluate. rewrite E, eval_form. cbv zeta. set (p := mkGd 0 0 0). pose proof PI_RGT_0.
  destruct (C92_position p) as (Hr & Hl & _); [cbn; lra|cbn; lra|]. set (gc := geodetic_to_geocentric p) in *.
  assert (Gl : gc_lat gc = 0).
  { unfold gc, geodetic_to_geocentric. cbn [gc_lat gd_lat gd_height p]. rewrite sin_0, Rmult_0_r. unfold Rdiv at 1. rewrite Rmult_0_l. apply asin_0. }
  rewrite Gl, cos_0, Rabs_R1.
  assert (Hp : pole_eps < 1) by (pose proof (proj2 (C65_nontrivial 0)) as Q; rewrite cos_0, Rabs_R1 in Q; exact Q).
  destruct (Rleb 1 pole_eps) eqn:Q; [apply Rleb_true in Q; lra|]. rewrite M. cbn [m_max wmm_dipole].
  change (wmm_max_degree <? 1)%nat with false. cbv iota.
  destruct (acc_at_vals co gc) as (AX & _ & _); [rewrite M; cbn; unfold wmm_max_degree; lia|].
  rewrite M, Gl in AX. cbn [m_max wmm_dipole] in AX. unfold hsum in AX. cbn [sum Nat.add] in AX.
  change (gc_lon gc) with 0 in AX.
  assert (D0 : dSL 1 0 0 = 1).
  { unfold dSL, dT, schmidt. rewrite sin_0, cos_0, Rabs_R1. rewrite Q. unfold T. cbn. field. }
  assert (D1 : dSL 1 1 0 = 0).
  { unfold dSL, dT. rewrite sin_0, cos_0, Rabs_R1. rewrite Q. unfold T. cbn. field. }
  rewrite D0, D1 in AX. cbn [INR] in AX. rewrite Rmult_0_l, cos_0, sin_0 in AX.
  assert (G10 : co_g co 1 0 = IZR (-293518) / 10).
  { rewrite (proj1 (L 1%nat 0%nat (le_n 1))). cbn [m_g m_epoch wmm_dipole wmm_2025]. rewrite tri_get_table by (unfold wmm_max_degree; lia).
    cbn [tri_index Nat.mul Nat.add Nat.div Nat.divmod fst nth wmm_g_z]. unfold tenths. lra. }
  rewrite G10 in AX.
  set (q := wmm_reference_radius_m / gc_radius gc) in *.
  assert (Hq : 0 < q ^ 3).
  { apply pow_lt. unfold q, wmm_reference_radius_m. apply Rmult_lt_0_compat; [lra|]. apply Rinv_0_lt_compat; auto. }
  assert (Xp : 0 < a_x (acc_at co gc)) by (rewrite AX; lra).
  change (gd_lat p) with 0. rewrite Rminus_0_r.
  destruct (finish_eq gc (c_year co) (turn 0 (a_x (acc_at co gc)) (a_y (acc_at co gc)) (a_z (acc_at co gc)))
     (turn 0 (a_xd (acc_at co gc)) (a_yd (acc_at co gc)) (a_zd (acc_at co gc)))) as (e & F & Ev & _).
  { left. unfold turn. cbn [vx]. rewrite cos_0, sin_0. lra. }
  exists e. split; [exact F|]. apply finish_ok in F. destruct F as (_ & _ & _ & _ & Eg & _). rewrite Ev, Eg. split; auto.
  unfold turn. cbn [vx]. rewrite cos_0, sin_0. lra.
Qed.
