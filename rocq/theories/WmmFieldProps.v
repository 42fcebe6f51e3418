(** Magnetic field elements: C64 and C92. *)
From Coq Require Import Reals Lra Psatz List Arith Lia Bool.
From Coquelicot Require Import Coquelicot.
From Verif Require Import Scalar RSum Trig Geo3 Wgs84Model WmmModel WmmData WmmSpec WmmLegendre WmmProofs WmmProps.
Local Open Scope R_scope.

(** the last step of evaluate: elements from the field and its rate *)
Definition finish (gc : geocentric_point) (yr : R) (v s : V3) : outcome :=
  let hi := sqrt (vx v * vx v + vy v * vy v) in
  if Reqb hi 0 then UndefinedHorizontalField else
  let ti := sqrt (hi * hi + vz v * vz v) in
  let hr := (vx v * vx s + vy v * vy s) / hi in
  Ok (mkEl gc yr v s hi ti (atan2 (vy v) (vx v)) (atan2 (vz v) hi) (atan2 (vy v) (vx v)) hr
    ((vx v * vx s + vy v * vy s + vz v * vz s) / ti)
    ((vx v * vy s - vy v * vx s) / (hi * hi)) ((hi * vz s - vz v * hr) / (ti * ti))).
Definition turn (d x y z : R) : V3 := mkV (x * cos d - z * sin d) y (x * sin d + z * cos d).

Definition acc_at (co : coeffs) (gc : geocentric_point) : acc :=
  let P := schmidt_semi_normalized_legendre wmm_max_degree (sin (gc_lat gc)) (cos (gc_lat gc)) in
  let L := longitude_harmonics wmm_max_degree (gc_lon gc) in
  acc_of co (gc_radius gc) (cos (gc_lat gc)) (fst P) (snd P) (fst L) (snd L) (c_max co).

Lemma eval_form co p : let gc := geodetic_to_geocentric p in
  evaluate_with_coefficients co p =
  if Rleb (Rabs (cos (gc_lat gc))) pole_eps then PoleSingularity (gc_lat gc) else
  if (wmm_max_degree <? c_max co)%nat then Panic else
  let a := acc_at co gc in
  let d := gc_lat gc - gd_lat p in
  finish gc (c_year co) (turn d (a_x a) (a_y a) (a_z a)) (turn d (a_xd a) (a_yd a) (a_zd a)).
Proof.
  intros gc. unfold evaluate_with_coefficients. fold gc. destruct (Rleb _ _); auto.
  unfold acc_at. cbv zeta. change (gc_lon gc) with (gd_lon p).
  destruct (schmidt_semi_normalized_legendre wmm_max_degree (sin (gc_lat gc)) (cos (gc_lat gc))) as [pb dpb].
  destruct (longitude_harmonics wmm_max_degree (gd_lon p)) as [cm sm]. cbn [fst snd].
  destruct (Nat.ltb_spec wmm_max_degree (c_max co)).
  - rewrite harmonic_none by auto. reflexivity.
  - rewrite harmonic_ok by auto. reflexivity.
Qed.

Lemma finish_ok gc yr v s e : finish gc yr v s = Ok e ->
  0 < sqrt (vx v * vx v + vy v * vy v) /\ (vx v <> 0 \/ vy v <> 0) /\ e_field e = v /\ e_secular e = s /\ e_gc e = gc /\ e_year e = yr.
Proof.
  unfold finish. destruct (Reqb _ 0) eqn:E; [discriminate|]. intros H. injection H as <-. cbn.
  assert (Q : sqrt (vx v * vx v + vy v * vy v) <> 0) by (intros F; rewrite (proj2 (Reqb_true _ _) F) in E; discriminate).
  repeat split; auto.
  - pose proof (sqrt_pos (vx v * vx v + vy v * vy v)). lra.
  - destruct (Req_dec (vx v) 0) as [E1|]; auto. destruct (Req_dec (vy v) 0) as [E2|]; auto.
    exfalso. apply Q. rewrite E1, E2. replace (0 * 0 + 0 * 0) with 0 by ring. apply sqrt_0.
Qed.

Lemma finish_elements gc yr v s e : finish gc yr v s = Ok e ->
  vx v = e_H e * cos (e_D e) /\ vy v = e_H e * sin (e_D e) /\
  vz v = e_F e * sin (e_I e) /\ e_H e = e_F e * cos (e_I e) /\
  e_F e * e_F e = Dot v v /\ 0 < e_H e <= e_F e /\
  - PI < e_D e <= PI /\ - PI / 2 < e_I e < PI / 2 /\ e_grid e = e_D e.
Proof.
  intros H. destruct (finish_ok _ _ _ _ _ H) as (Hp & _). unfold finish in H.
  destruct (Reqb _ 0) eqn:E; [discriminate|]. injection H as <-. cbn [e_H e_F e_D e_I e_grid].
  set (h := sqrt (vx v * vx v + vy v * vy v)) in *.
  assert (Hh : h * h = vx v * vx v + vy v * vy v).
  { apply sqrt_sqrt. pose proof (Rle_0_sqr (vx v)). pose proof (Rle_0_sqr (vy v)). unfold Rsqr in *. lra. }
  assert (Hf : sqrt (h * h + vz v * vz v) * sqrt (h * h + vz v * vz v) = h * h + vz v * vz v).
  { apply sqrt_sqrt. pose proof (Rle_0_sqr h). pose proof (Rle_0_sqr (vz v)). unfold Rsqr in *. lra. }
  repeat split.
  - symmetry. apply atan2_cos.
  - symmetry. apply atan2_sin.
  - symmetry. apply atan2_sin.
  - symmetry. apply atan2_cos.
  - unfold Dot. rewrite Hf, Hh. reflexivity.
  - auto.
  - apply Rsqr_incr_0_var; [|apply sqrt_pos]. unfold Rsqr. rewrite Hf. pose proof (Rle_0_sqr (vz v)). unfold Rsqr in *. lra.
  - apply atan2_bound.
  - apply atan2_bound.
  - unfold atan2. destruct (Rltb 0 h) eqn:L; [|exfalso; rewrite (proj2 (Rltb_true _ _) Hp) in L; discriminate].
    pose proof (atan_bound (vz v / h)). lra.
  - unfold atan2. destruct (Rltb 0 h) eqn:L; [|exfalso; rewrite (proj2 (Rltb_true _ _) Hp) in L; discriminate].
    pose proof (atan_bound (vz v / h)). lra.
Qed.

Theorem C64_elements co p e : evaluate_with_coefficients co p = Ok e ->
  let v := e_field e in
  vx v = e_H e * cos (e_D e) /\ vy v = e_H e * sin (e_D e) /\
  vz v = e_F e * sin (e_I e) /\ e_H e = e_F e * cos (e_I e) /\
  e_F e * e_F e = Dot v v /\ 0 < e_H e <= e_F e /\
  - PI < e_D e <= PI /\ - PI / 2 < e_I e < PI / 2 /\ e_grid e = e_D e.
Proof.
  rewrite eval_form. destruct (Rleb _ _); [discriminate|]. destruct (_ <? _)%nat; [discriminate|].
  intros H v. pose proof (finish_ok _ _ _ _ _ H) as (_ & _ & Ev & _). subst v. rewrite Ev.
  eapply finish_elements. exact H.
Qed.

(** exactly when each failure is reported *)
Theorem C64_outcome co p : let gc := geodetic_to_geocentric p in
  let pole := Rabs (cos (gc_lat gc)) <= pole_eps in
  (evaluate_with_coefficients co p = Panic <-> ~ pole /\ (wmm_max_degree < c_max co)%nat) /\
  ((exists l, evaluate_with_coefficients co p = PoleSingularity l) <-> pole) /\
  (forall e, evaluate_with_coefficients co p = Ok e -> ~ pole /\ e_gc e = gc /\ e_year e = c_year co).
Proof.
  cbv zeta. rewrite eval_form. destruct (Rleb _ _) eqn:L.
  - apply Rleb_true in L. split; [|split].
    + split; [discriminate|tauto].
    + split; auto. intros _. eexists; reflexivity.
    + intros e; discriminate.
  - assert (NL : ~ Rabs (cos (gc_lat (geodetic_to_geocentric p))) <= pole_eps).
    { intros Q. rewrite (proj2 (Rleb_true _ _) Q) in L. discriminate. }
    destruct (Nat.ltb_spec wmm_max_degree (c_max co)) as [M|M].
    + split; [|split]; [tauto|split; [intros [l Q]; discriminate|tauto]|intros e; discriminate].
    + split; [|split].
      * split; [|lia]. unfold finish. destruct (Reqb _ _); discriminate.
      * split; [|tauto]. intros [l Q]. unfold finish in Q. destruct (Reqb _ _); discriminate.
      * intros e H. apply finish_ok in H. tauto.
Qed.

(** ** Time derivatives *)
Lemma atan2_top y x : 0 < y -> atan2 y x = PI / 2 - atan (x / y).
Proof.
  intros Hy. pose proof (atan_bound (x / y)) as B. pose proof PI_RGT_0.
  assert (Hr : 0 < sqrt (x * x + y * y)) by (apply hyp_pos; right; lra).
  assert (C : cos (atan (x / y)) * sqrt (x * x + y * y) = y).
  { rewrite cos_atan. rewrite sqrt_ratio by lra. rewrite Rabs_pos_eq by lra. rewrite (Rplus_comm (y * y)). field. split; lra. }
  assert (S : sin (atan (x / y)) * sqrt (x * x + y * y) = x).
  { rewrite sin_atan. rewrite sqrt_ratio by lra. rewrite Rabs_pos_eq by lra. rewrite (Rplus_comm (y * y)). field. split; lra. }
  rewrite <- (atan2_polar (sqrt (x * x + y * y)) (PI / 2 - atan (x / y))) by (auto; lra).
  rewrite sin_shift, cos_shift. rewrite Rmult_comm, C, Rmult_comm, S. reflexivity.
Qed.
Lemma atan2_bottom y x : y < 0 -> atan2 y x = - PI / 2 - atan (x / y).
Proof.
  intros Hy. pose proof (atan_bound (x / y)) as B. pose proof PI_RGT_0.
  assert (Hr : 0 < sqrt (x * x + y * y)) by (apply hyp_pos; right; lra).
  assert (C : cos (atan (x / y)) * sqrt (x * x + y * y) = - y).
  { rewrite cos_atan. rewrite sqrt_ratio by lra. rewrite Rabs_left by lra. rewrite (Rplus_comm (y * y)). field. split; lra. }
  assert (S : sin (atan (x / y)) * sqrt (x * x + y * y) = - x).
  { rewrite sin_atan. rewrite sqrt_ratio by lra. rewrite Rabs_left by lra. rewrite (Rplus_comm (y * y)). field. split; lra. }
  rewrite <- (atan2_polar (sqrt (x * x + y * y)) (- PI / 2 - atan (x / y))) by (auto; lra).
  replace (- PI / 2 - atan (x / y)) with (- (PI / 2 + atan (x / y))) by lra.
  rewrite sin_neg, cos_neg. rewrite <- cos_sin.
  replace (cos (PI / 2 + atan (x / y))) with (- sin (atan (x / y))) by (rewrite sin_cos; ring).
  replace (sqrt (x * x + y * y) * - cos (atan (x / y))) with y by lra.
  replace (sqrt (x * x + y * y) * - sin (atan (x / y))) with x by lra. reflexivity.
Qed.
Lemma atan2_right y x : 0 < x -> atan2 y x = atan (y / x).
Proof. intros H. unfold atan2. rewrite (proj2 (Rltb_true _ _) H). reflexivity. Qed.

Lemma is_derive_locally (f g : R -> R) (t l d : R) : 0 < d -> (forall u, Rabs (u - t) < d -> f u = g u) ->
  is_derive g t l -> is_derive f t l.
Proof.
  intros Hd H D. apply (is_derive_ext_loc g); auto. exists (mkposreal d Hd). intros u Hu. symmetry. apply H. exact Hu.
Qed.
Lemma stays_pos (f : R -> R) (t l : R) : is_derive f t l -> 0 < f t -> exists d, 0 < d /\ forall u, Rabs (u - t) < d -> 0 < f u.
Proof.
  intros D Hf. assert (C : continuous f t) by (apply (ex_derive_continuous f); eexists; eauto).
  destruct (C (fun z => 0 < z)) as [eps He].
  - exists (mkposreal (f t) Hf). intros z Hz. change (Rabs (z - f t) < f t) in Hz. apply Rabs_def2 in Hz. lra.
  - exists eps. split; [apply cond_pos|]. intros u Hu. apply He. exact Hu.
Qed.

Lemma atan2_derive (x y : R -> R) (t x' y' : R) : is_derive x t x' -> is_derive y t y' ->
  (0 < x t \/ y t <> 0) ->
  is_derive (fun u => atan2 (y u) (x u)) t ((x t * y' - y t * x') / (x t * x t + y t * y t)).
Proof.
  intros X Y H.
  assert (P : forall a b : R, a <> 0 -> a * a + b * b <> 0 /\ 1 + (b / a) * (b / a) <> 0).
  { intros a b Ha. pose proof (Rsqr_pos_lt a Ha). pose proof (Rle_0_sqr b). pose proof (Rle_0_sqr (b / a)). unfold Rsqr in *. split; lra. }
  assert (Gx : is_derive (fun u => x u) t x') by exact X. assert (Gy : is_derive (fun u => y u) t y') by exact Y.
  assert (Dv : forall (n d : R -> R) n' d', is_derive n t n' -> is_derive d t d' -> d t <> 0 ->
     is_derive (fun u => atan (n u / d u)) t ((n' * d t - n t * d') / (d t * d t + n t * n t))).
  { intros n d n' d' N D Hd. destruct (P _ (n t) Hd) as [P1 P2].
    auto_derive.
    - split; [eexists; eauto|]. split; [eexists; eauto|]. auto.
    - change (Derive (fun u => n u) t) with (Derive n t). change (Derive (fun u => d u) t) with (Derive d t).
      rewrite (is_derive_unique _ _ _ N), (is_derive_unique _ _ _ D). unfold Rsqr. field.
      auto. }
  destruct (Rlt_le_dec 0 (y t)) as [Hy|Hy]; [|destruct (Rlt_le_dec (y t) 0) as [Hy'|Hy']].
  - destruct (stays_pos y t y' Y Hy) as (d & Hd & Hp).
    apply (is_derive_locally _ (fun u => PI / 2 - atan (x u / y u)) _ _ d Hd).
    + intros u Hu. apply atan2_top. auto.
    + eapply is_derive_eq.
      * apply (is_derive_minus (fun _ => PI / 2) (fun u => atan (x u / y u))); [apply (is_derive_const (V := R_NormedModule))|].
        apply (Dv x y x' y'); auto. lra.
      * unfold minus, plus, opp, zero; cbn. destruct (P (y t) (x t)) as [P1 _]; [lra|]. field. lra.
  - destruct (stays_pos (fun u => - y u) t (- y')) as (d & Hd & Hp).
    { apply (is_derive_opp y t y' Y). } { lra. }
    apply (is_derive_locally _ (fun u => - PI / 2 - atan (x u / y u)) _ _ d Hd).
    + intros u Hu. apply atan2_bottom. specialize (Hp u Hu). lra.
    + eapply is_derive_eq.
      * apply (is_derive_minus (fun _ => - PI / 2) (fun u => atan (x u / y u))); [apply (is_derive_const (V := R_NormedModule))|].
        apply (Dv x y x' y'); auto. lra.
      * unfold minus, plus, opp, zero; cbn. destruct (P (y t) (x t)) as [P1 _]; [lra|]. field. lra.
  - assert (Hx : 0 < x t) by (destruct H; auto; lra).
    destruct (stays_pos x t x' X Hx) as (d & Hd & Hp).
    apply (is_derive_locally _ (fun u => atan (y u / x u)) _ _ d Hd).
    + intros u Hu. apply atan2_right. auto.
    + eapply is_derive_eq; [apply (Dv y x y' x'); auto; lra|].
      destruct (P (x t) (y t)) as [P1 _]; [lra|]. field. auto.
Qed.

Lemma hsum_ext N q t t' : (forall n m, (1 <= n <= N)%nat -> (m <= n)%nat -> t n m = t' n m) -> hsum N q t = hsum N q t'.
Proof. intros H. unfold hsum. apply sum_ext. intros i Hi. f_equal. apply sum_ext. intros m Hm. apply H; lia. Qed.
Lemma hsum_plus N q t t' : hsum N q (fun n m => t n m + t' n m) = hsum N q t + hsum N q t'.
Proof. unfold hsum. rewrite <- sum_plus. apply sum_ext. intros i Hi. rewrite sum_plus. ring. Qed.
Lemma hsum_scal N q k t : hsum N q (fun n m => k * t n m) = k * hsum N q t.
Proof. unfold hsum. rewrite <- sum_scal. apply sum_ext. intros i Hi. rewrite sum_scal. ring. Qed.
Lemma hsum_lin N q k t t1 t2 : (forall n m, (1 <= n)%nat -> t n m = t1 n m + k * t2 n m) -> hsum N q t = hsum N q t1 + k * hsum N q t2.
Proof. intros H. rewrite <- hsum_scal, <- hsum_plus. apply hsum_ext. intros. apply H. lia. Qed.

Lemma acc_of_linear co co0 k r c pb dpb cm sm N :
  (forall n j, co_gd co n j = co_gd co0 n j) -> (forall n j, co_hd co n j = co_hd co0 n j) ->
  (forall n j, (1 <= n)%nat -> co_g co n j = co_g co0 n j + k * co_gd co0 n j) ->
  (forall n j, (1 <= n)%nat -> co_h co n j = co_h co0 n j + k * co_hd co0 n j) ->
  let a := acc_of co r c pb dpb cm sm N in let b := acc_of co0 r c pb dpb cm sm N in
  a_x a = a_x b + k * a_xd b /\ a_y a = a_y b + k * a_yd b /\ a_z a = a_z b + k * a_zd b /\
  a_xd a = a_xd b /\ a_yd a = a_yd b /\ a_zd a = a_zd b.
Proof.
  intros Gg Gh Lg Lh. unfold acc_of. cbv zeta. cbn [a_x a_y a_z a_xd a_yd a_zd].
  split; [|split; [|split; [|split; [|split]]]].
  - rewrite <- Ropp_mult_distr_r, <- Ropp_plus_distr. f_equal. apply hsum_lin. intros n j Hn.
    unfold comb, combd. rewrite Lg, Lh by auto. ring.
  - apply hsum_lin. intros n j Hn. unfold azim, azimd. rewrite Lg, Lh by auto. unfold Rdiv. ring.
  - rewrite <- Ropp_mult_distr_r, <- Ropp_plus_distr. f_equal. apply hsum_lin. intros n j Hn.
    unfold comb, combd. rewrite Lg, Lh by auto. ring.
  - f_equal. apply hsum_ext. intros n j _ _. unfold combd. rewrite Gg, Gh. reflexivity.
  - apply hsum_ext. intros n j _ _. unfold azimd. rewrite Gg, Gh. reflexivity.
  - f_equal. apply hsum_ext. intros n j _ _. unfold combd. rewrite Gg, Gh. reflexivity.
Qed.

(** the field at time t is the field at the epoch plus elapsed time times a constant *)
Lemma acc_linear m t co co0 gc : well_formed m -> coefficients_at m t = Some co -> coefficients_at m (m_epoch m) = Some co0 ->
  a_x (acc_at co gc) = a_x (acc_at co0 gc) + (t - m_epoch m) * a_xd (acc_at co0 gc) /\
  a_y (acc_at co gc) = a_y (acc_at co0 gc) + (t - m_epoch m) * a_yd (acc_at co0 gc) /\
  a_z (acc_at co gc) = a_z (acc_at co0 gc) + (t - m_epoch m) * a_zd (acc_at co0 gc) /\
  a_xd (acc_at co gc) = a_xd (acc_at co0 gc) /\ a_yd (acc_at co gc) = a_yd (acc_at co0 gc) /\ a_zd (acc_at co gc) = a_zd (acc_at co0 gc).
Proof.
  intros W E E0. destruct (C63_linear m t W) as (co' & Q & _ & M & L & G & _). rewrite E in Q. injection Q as <-.
  destruct (C63_linear m (m_epoch m) W) as (co' & Q & _ & M0 & L0 & G0 & _). rewrite E0 in Q. injection Q as <-.
  unfold acc_at. rewrite M, M0. apply acc_of_linear.
  - intros n j; rewrite (proj1 (G n j)), (proj1 (G0 n j)); auto.
  - intros n j; rewrite (proj2 (G n j)), (proj2 (G0 n j)); auto.
  - intros n j Hn. rewrite (proj1 (L n j Hn)), (proj1 (L0 n j Hn)), (proj1 (G n j)), (proj1 (G0 n j)). ring.
  - intros n j Hn. rewrite (proj2 (L n j Hn)), (proj2 (L0 n j Hn)), (proj2 (G n j)), (proj2 (G0 n j)). ring.
Qed.
Global Opaque acc_at.

Lemma eval_linear m p t e : well_formed m -> evaluate m t p = Ok e ->
  exists v s, e_field e = v /\ e_secular e = s /\
    forall u, evaluate m u p = finish (e_gc e) u (Vadd v (Vscale (u - t) s)) s.
Proof.
  intros W H. exists (e_field e), (e_secular e). split; auto. split; auto. intros u.
  pose proof (proj1 W) as Wm.
  destruct (C63_linear m t W) as (co & E & Y & M & _). destruct (C63_linear m u W) as (co' & E' & Y' & M' & _).
  destruct (C63_linear m (m_epoch m) W) as (co0 & E0 & _ & M0 & _).
  unfold evaluate in H |- *. rewrite E in H. rewrite E'. rewrite eval_form in H |- *.
  destruct (Rleb _ _); [discriminate|]. rewrite M in H. rewrite M'.
  destruct (Nat.ltb_spec wmm_max_degree (m_max m)); [lia|]. cbv zeta in H |- *.
  set (gc := geodetic_to_geocentric p) in *. set (d := gc_lat gc - gd_lat p) in *.
  destruct (finish_ok _ _ _ _ _ H) as (_ & _ & Ev & Es & Eg & _). rewrite Ev, Es, Eg, Y'. clear Ev Es Eg.
  destruct (acc_linear m t co co0 gc W E E0) as (X1 & X2 & X3 & X4 & X5 & X6).
  destruct (acc_linear m u co' co0 gc W E' E0) as (U1 & U2 & U3 & U4 & U5 & U6).
  rewrite U1, U2, U3, U4, U5, U6, X1, X2, X3, X4, X5, X6. f_equal.
  apply V3_eq; cbn; ring.
Qed.

(** the quantity a caller reads from the result of evaluate, as a function of the year *)
Definition reported (m : model) (p : geodetic_point) (f : elements -> R) (t : R) : R :=
  match evaluate m t p with Ok e => f e | _ => 0 end.

Lemma finish_eq gc yr v s : vx v <> 0 \/ vy v <> 0 -> exists e, finish gc yr v s = Ok e /\ e_field e = v /\
   e_H e = sqrt (vx v * vx v + vy v * vy v) /\ e_F e = sqrt (vx v * vx v + vy v * vy v + vz v * vz v) /\
   e_D e = atan2 (vy v) (vx v) /\ e_I e = atan2 (vz v) (sqrt (vx v * vx v + vy v * vy v)) /\
   e_Hd e = (vx v * vx s + vy v * vy s) / e_H e /\
   e_Fd e = (vx v * vx s + vy v * vy s + vz v * vz s) / e_F e /\
   e_Dd e = (vx v * vy s - vy v * vx s) / (e_H e * e_H e) /\
   e_Id e = (e_H e * vz s - vz v * e_Hd e) / (e_F e * e_F e).
Proof.
  intros H. pose proof (hyp_pos _ _ H) as Hp. unfold finish.
  destruct (Reqb _ 0) eqn:E; [apply Reqb_true in E; lra|].
  eexists. split; [reflexivity|]. cbn [e_field e_H e_F e_D e_I e_Hd e_Fd e_Dd e_Id].
  rewrite (sqrt_sqrt (vx v * vx v + vy v * vy v)); [tauto|].
  pose proof (Rle_0_sqr (vx v)). pose proof (Rle_0_sqr (vy v)). unfold Rsqr in *. lra.
Qed.

Theorem C64_rates m p t e : well_formed m -> evaluate m t p = Ok e ->
  (exists d, 0 < d /\ forall u, Rabs (u - t) < d -> exists e', evaluate m u p = Ok e') /\
  is_derive (reported m p (fun e => vx (e_field e))) t (vx (e_secular e)) /\
  is_derive (reported m p (fun e => vy (e_field e))) t (vy (e_secular e)) /\
  is_derive (reported m p (fun e => vz (e_field e))) t (vz (e_secular e)) /\
  is_derive (reported m p e_H) t (e_Hd e) /\
  is_derive (reported m p e_F) t (e_Fd e) /\
  is_derive (reported m p e_I) t (e_Id e) /\
  (~ (vy (e_field e) = 0 /\ vx (e_field e) < 0) -> is_derive (reported m p e_D) t (e_Dd e)).
Proof.
  intros W H. destruct (eval_linear m p t e W H) as (v & s & Ev & Es & L). rewrite Ev, Es.
  set (w := fun u => Vadd v (Vscale (u - t) s)).
  assert (Wt : w t = v) by (apply V3_eq; cbn; ring).
  pose proof (L t) as Lt. fold (w t) in Lt. rewrite Wt, H in Lt. symmetry in Lt.
  destruct (finish_ok _ _ _ _ _ Lt) as (Hp & Hn & _).
  assert (Dx : is_derive (fun u => vx (w u)) t (vx s)) by (unfold w; cbn; auto_derive; auto; ring).
  assert (Dy : is_derive (fun u => vy (w u)) t (vy s)) by (unfold w; cbn; auto_derive; auto; ring).
  assert (Dz : is_derive (fun u => vz (w u)) t (vz s)) by (unfold w; cbn; auto_derive; auto; ring).
  assert (Q : 0 < vx v * vx v + vy v * vy v).
  { pose proof (Rle_0_sqr (vx v)) as A1. pose proof (Rle_0_sqr (vy v)) as A2. unfold Rsqr in *.
    destruct Hn as [Hn|Hn]; pose proof (Rsqr_pos_lt _ Hn) as A; unfold Rsqr in A; lra. }
  assert (D2 : is_derive (fun u => vx (w u) * vx (w u) + vy (w u) * vy (w u)) t (2 * (vx v * vx s + vy v * vy s))).
  { unfold w; cbn. auto_derive; auto. ring. }
  assert (D3 : is_derive (fun u => vx (w u) * vx (w u) + vy (w u) * vy (w u) + vz (w u) * vz (w u)) t (2 * (vx v * vx s + vy v * vy s + vz v * vz s))).
  { unfold w; cbn. auto_derive; auto. ring. }
  destruct (stays_pos _ _ _ D2) as (d & Hd & Near); [rewrite Wt; auto|].
  assert (Nz : forall u, Rabs (u - t) < d -> vx (w u) <> 0 \/ vy (w u) <> 0).
  { intros u Hu. specialize (Near u Hu). destruct (Req_dec (vx (w u)) 0) as [E1|]; auto. destruct (Req_dec (vy (w u)) 0) as [E2|]; auto.
    rewrite E1, E2 in Near. lra. }
  assert (Ok_ : forall u, Rabs (u - t) < d -> exists e', evaluate m u p = Ok e' /\ finish (e_gc e) u (w u) s = Ok e').
  { intros u Hu. destruct (finish_eq (e_gc e) u (w u) s (Nz u Hu)) as (e' & F & _). exists e'. rewrite L. fold (w u). auto. }
  destruct (finish_eq (e_gc e) t v s Hn) as (e0 & F0 & E1 & E2 & E3 & E4 & E5 & E6 & E7 & E8 & E9). rewrite Lt in F0. injection F0 as <-.
  assert (Rep : forall (f : elements -> R) (g : R -> R) l,
     (forall u e', Rabs (u - t) < d -> finish (e_gc e) u (w u) s = Ok e' -> f e' = g u) ->
     is_derive g t l -> is_derive (reported m p f) t l).
  { intros f g l Hf Dg. apply (is_derive_locally _ g _ _ d Hd); auto. intros u Hu. unfold reported.
    destruct (Ok_ u Hu) as (e' & -> & Fe). apply (Hf u e'); auto. }
  assert (Fe : forall u e', Rabs (u - t) < d -> finish (e_gc e) u (w u) s = Ok e' ->
     e_field e' = w u /\ e_H e' = sqrt (vx (w u) * vx (w u) + vy (w u) * vy (w u)) /\
     e_F e' = sqrt (vx (w u) * vx (w u) + vy (w u) * vy (w u) + vz (w u) * vz (w u)) /\
     e_D e' = atan2 (vy (w u)) (vx (w u)) /\ e_I e' = atan2 (vz (w u)) (sqrt (vx (w u) * vx (w u) + vy (w u) * vy (w u)))).
  { intros u e' Hu F. destruct (finish_eq (e_gc e) u (w u) s (Nz u Hu)) as (e1 & F1 & R). rewrite F in F1. injection F1 as <-. tauto. }
  assert (DH : is_derive (fun u => sqrt (vx (w u) * vx (w u) + vy (w u) * vy (w u))) t (e_Hd e)).
  { eapply is_derive_eq.
    - apply (is_derive_comp sqrt (fun u => vx (w u) * vx (w u) + vy (w u) * vy (w u))); [|exact D2].
      apply is_derive_Reals, derivable_pt_lim_sqrt. rewrite Wt. exact Q.
    - unfold scal; cbn; unfold mult; cbn. change (vx v + (t - t) * vx s) with (vx (w t)). change (vy v + (t - t) * vy s) with (vy (w t)).
      rewrite Wt, E6, E2. field. apply Rgt_not_eq. exact Hp. }
  assert (Hf : 0 < e_F e).
  { rewrite E3. apply sqrt_lt_R0. pose proof (Rle_0_sqr (vz v)). unfold Rsqr in *. lra. }
  assert (Hh : 0 < e_H e) by (rewrite E2; exact Hp).
  assert (Hff : e_F e * e_F e = e_H e * e_H e + vz v * vz v).
  { rewrite E3, E2, !sqrt_sqrt; auto; [lra|]. pose proof (Rle_0_sqr (vz v)). unfold Rsqr in *. lra. }
  assert (Hhh : e_H e * e_H e = vx v * vx v + vy v * vy v) by (rewrite E2; apply sqrt_sqrt; lra).
  split; [|split; [|split; [|split; [|split; [|split; [|split]]]]]].
  - exists d. split; auto. intros u Hu. destruct (Ok_ u Hu) as (e' & E & _). eauto.
  - apply (Rep _ (fun u => vx (w u))); auto. intros u e' Hu F. destruct (Fe u e' Hu F) as (-> & _). reflexivity.
  - apply (Rep _ (fun u => vy (w u))); auto. intros u e' Hu F. destruct (Fe u e' Hu F) as (-> & _). reflexivity.
  - apply (Rep _ (fun u => vz (w u))); auto. intros u e' Hu F. destruct (Fe u e' Hu F) as (-> & _). reflexivity.
  - apply (Rep _ _ _ (fun u e' Hu F => proj1 (proj2 (Fe u e' Hu F))) DH).
  - apply (Rep _ _ _ (fun u e' Hu F => proj1 (proj2 (proj2 (Fe u e' Hu F))))).
    eapply is_derive_eq.
    + apply (is_derive_comp sqrt (fun u => vx (w u) * vx (w u) + vy (w u) * vy (w u) + vz (w u) * vz (w u))); [|exact D3].
      apply is_derive_Reals, derivable_pt_lim_sqrt. rewrite Wt. pose proof (Rle_0_sqr (vz v)). unfold Rsqr in *. lra.
    + unfold scal; cbn; unfold mult; cbn. change (vx v + (t - t) * vx s) with (vx (w t)). change (vy v + (t - t) * vy s) with (vy (w t)).
      change (vz v + (t - t) * vz s) with (vz (w t)).
      rewrite Wt, E7, E3. field. rewrite <- E3. lra.
  - apply (Rep _ _ _ (fun u e' Hu F => proj2 (proj2 (proj2 (proj2 (Fe u e' Hu F)))))).
    eapply is_derive_eq; [apply atan2_derive; [exact DH|exact Dz|left; cbv beta; rewrite Wt; exact Hp]|].
    cbv beta. rewrite Wt, <- E2, E9, Hff. reflexivity.
  - intros Hc. apply (Rep _ _ _ (fun u e' Hu F => proj1 (proj2 (proj2 (proj2 (Fe u e' Hu F)))))).
    eapply is_derive_eq; [apply atan2_derive; [exact Dx|exact Dy|]|].
    + rewrite Wt. destruct (Req_dec (vy v) 0) as [E0|]; auto. left.
      destruct Hn as [Hn|Hn]; [|contradiction]. destruct (Rlt_le_dec 0 (vx v)); auto. exfalso. apply Hc. split; auto. lra.
    + cbv beta. rewrite Wt, E8, Hhh. reflexivity.
Qed.
