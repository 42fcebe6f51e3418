(** The fixed-point iteration of ecef_to_geocentric. *)
From Coq Require Import Reals Lra Psatz List Arith Bool Lia.
From Coquelicot Require Import Coquelicot.
From Verif Require Import Scalar Trig Geo3 StatsModel Wgs84Model.
Local Open Scope R_scope.

Lemma lip_of_derive (f f' : R -> R) (L x y : R) :
  (forall t, Rmin x y <= t <= Rmax x y -> is_derive f t (f' t)) ->
  (forall t, Rmin x y <= t <= Rmax x y -> Rabs (f' t) <= L) ->
  Rabs (f x - f y) <= L * Rabs (x - y).
Proof.
  intros D B.
  destruct (MVT_gen f y x f') as (c & Hc & E).
  - intros t Ht. apply D. rewrite Rmin_comm, Rmax_comm. lra.
  - intros t Ht. apply continuity_pt_filterlim. apply (ex_derive_continuous f t).
    exists (f' t). apply D. rewrite Rmin_comm, Rmax_comm. auto.
  - rewrite E, Rabs_mult. apply Rmult_le_compat_r; [apply Rabs_pos|].
    apply B. rewrite Rmin_comm, Rmax_comm. auto.
Qed.

(** the side of zero and the size on which the iteration stays *)
Definition beyond (z w : R) : Prop := (0 <= z /\ z <= w) \/ (z <= 0 /\ w <= z).

Lemma beyond_sq z w : beyond z w -> z * z <= w * w.
Proof. intros [[? ?]|[? ?]]; nra. Qed.
Lemma beyond_between z w1 w2 t : beyond z w1 -> beyond z w2 -> Rmin w1 w2 <= t <= Rmax w1 w2 -> beyond z t.
Proof.
  intros B1 B2 [L U]. unfold beyond in *.
  unfold Rmin, Rmax in *; destruct (Rle_dec w1 w2), (Rle_dec w2 w1); destruct B1 as [[? ?]|[? ?]], B2 as [[? ?]|[? ?]];
  destruct (Rle_dec z t); ((left; split; lra) || (right; split; lra)).
Qed.

Definition Sk (k rho2 w : R) : R := w / sqrt (rho2 + k * (w * w)).

Lemma Sk_lip k rho2 z w1 w2 r : 0 < k <= 1 -> 0 <= rho2 -> 0 < r -> r * r <= rho2 + z * z ->
  beyond z w1 -> beyond z w2 ->
  Rabs (Sk k rho2 w1 - Sk k rho2 w2) <= 1 / (sqrt k * r) * Rabs (w1 - w2).
Proof.
  intros K H0 Hr Hz B1 B2.
  assert (sk : 0 < sqrt k) by (apply sqrt_lt_R0; lra).
  assert (P : forall t, beyond z t -> (sqrt k * r) * (sqrt k * r) <= rho2 + k * (t * t)).
  { intros t Ht. apply beyond_sq in Ht. replace (sqrt k * r * (sqrt k * r)) with ((sqrt k * sqrt k) * (r * r)) by ring.
    rewrite sqrt_sqrt by lra. assert (r * r <= rho2 + t * t) by lra. nra. }
  assert (P0 : forall t, beyond z t -> 0 < rho2 + k * (t * t)).
  { intros t Ht. specialize (P t Ht). assert (0 < sqrt k * r) by (apply Rmult_lt_0_compat; lra). nra. }
  apply (lip_of_derive (Sk k rho2) (fun t => rho2 / ((rho2 + k * (t * t)) * sqrt (rho2 + k * (t * t))))).
  - intros t Ht. pose proof (P0 t (beyond_between z w1 w2 t B1 B2 Ht)) as Q.
    pose proof (sqrt_lt_R0 _ Q) as Q'. pose proof (sqrt_sqrt (rho2 + k * (t * t)) (Rlt_le _ _ Q)) as Q2.
    unfold Sk. auto_derive. { repeat split; auto. lra. }
    set (d := sqrt (rho2 + k * (t * t))) in *. clearbody d.
    rewrite <- Q2. replace (rho2) with (d * d - k * (t * t)) by lra. field. lra.
  - intros t Ht. pose proof (beyond_between z w1 w2 t B1 B2 Ht) as Bt.
    pose proof (P0 t Bt) as Q. specialize (P t Bt).
    pose proof (sqrt_lt_R0 _ Q) as Q'. pose proof (sqrt_sqrt (rho2 + k * (t * t)) (Rlt_le _ _ Q)) as Q2.
    set (d := sqrt (rho2 + k * (t * t))) in *.
    assert (sqrt k * r <= d). { apply Rsqr_incr_0_var; [unfold Rsqr; lra|lra]. }
    assert (0 < sqrt k * r) by (apply Rmult_lt_0_compat; lra).
    rewrite Rabs_pos_eq.
    2:{ apply Rmult_le_pos; [lra|]. apply Rlt_le, Rinv_0_lt_compat. apply Rmult_lt_0_compat; lra. }
    apply Rle_trans with (1 / d).
    + apply Rmult_le_reg_r with ((rho2 + k * (t * t)) * d); [apply Rmult_lt_0_compat; lra|].
      field_simplify; [|lra|split; lra]. assert (0 <= k * t ^ 2). { apply Rmult_le_pos; [lra|apply pow2_ge_0]. } lra.
    + unfold Rdiv. rewrite !Rmult_1_l. apply Rinv_le_contravar; lra.
Qed.

Section Fix.
Local Notation a := w84_a.
Local Notation e2 := w84_e2.
Definition kap := 1 - w84_e2.
Lemma e2_pos : 0 < e2. Proof. unfold w84_e2. lra. Qed.
Lemma kap_bd : 0.9933 < kap < 0.9934. Proof. unfold kap, w84_e2. lra. Qed.
Lemma sqrt_kap : 0.9966 < sqrt kap < 0.9968.
Proof.
  pose proof kap_bd as [A B]. split.
  - rewrite <- (sqrt_Rsqr 0.9966) by lra. apply sqrt_lt_1_alt. unfold Rsqr. lra.
  - rewrite <- (sqrt_Rsqr 0.9968) by lra. apply sqrt_lt_1_alt. unfold Rsqr. lra.
Qed.

(** what one pass computes *)
Definition Nn (rho2 w : R) : R := a * sqrt (rho2 + w * w) / sqrt (rho2 + kap * (w * w)).
Definition Fz (rho2 w : R) : R := a * e2 * Sk kap rho2 w.

Lemma body_n rho2 w : 0 <= rho2 -> 0 < rho2 + w * w ->
  let s := w / sqrt (rho2 + w * w) in
  a / sqrt (1 - e2 * s * s) = Nn rho2 w /\ Nn rho2 w * e2 * s = Fz rho2 w /\ 1 - e2 * s * s = (rho2 + kap * (w * w)) / (rho2 + w * w).
Proof.
  intros H0 Q s. pose proof kap_bd as K.
  assert (0 < rho2 + kap * (w * w)).
  { assert (0 <= w * w) by nra. destruct (Req_dec (w * w) 0). - nra. - assert (0 < w * w) by lra. nra. }
  pose proof (sqrt_lt_R0 _ Q) as Q'. pose proof (sqrt_sqrt (rho2 + w * w) (Rlt_le _ _ Q)) as Q2.
  assert (E : 1 - e2 * s * s = (rho2 + kap * (w * w)) / (rho2 + w * w)).
  { unfold s, kap. rewrite <- Q2 at 3. set (d := sqrt (rho2 + w * w)) in *.
    apply Rmult_eq_reg_r with (d * d); [|nra]. field_simplify; [|lra|lra]. replace (d ^ 2) with (rho2 + w * w) by (rewrite <- Q2; ring). ring. }
  pose proof (sqrt_lt_R0 _ H) as H'.
  repeat split; auto.
  - rewrite E. rewrite sqrt_div_alt by auto. unfold Nn. field. split; lra.
  - unfold Nn, Fz, Sk, s. field. split; lra.
Qed.

Lemma Fz_bound rho2 w : 0 <= rho2 -> Rabs (Fz rho2 w) <= 43000.
Proof.
  intros H0. pose proof kap_bd as K. pose proof sqrt_kap as SK. unfold Fz. rewrite Rabs_mult.
  assert (Rabs (Sk kap rho2 w) <= 1 / sqrt kap).
  { unfold Sk. destruct (Req_dec w 0) as [->|W].
    { unfold Rdiv. rewrite Rmult_0_l, Rabs_R0. rewrite Rmult_1_l. apply Rlt_le, Rinv_0_lt_compat. lra. }
    assert (Wp : 0 < w * w) by nra.
    assert (D : 0 < sqrt (rho2 + kap * (w * w))) by (apply sqrt_lt_R0; nra).
    unfold Rdiv. rewrite Rabs_mult, Rabs_inv, (Rabs_pos_eq (sqrt _)) by lra.
    assert (sqrt kap * Rabs w <= sqrt (rho2 + kap * (w * w))).
    { replace (Rabs w) with (sqrt (w * w)) by (apply sqrt_Rsqr_abs). rewrite <- sqrt_mult by lra. apply sqrt_le_1_alt. lra. }
    apply Rmult_le_reg_r with (sqrt (rho2 + kap * (w * w)) * sqrt kap); [apply Rmult_lt_0_compat; lra|].
    field_simplify; lra. }
  assert (A : Rabs (a * e2) = a * e2) by (apply Rabs_pos_eq; unfold w84_a, w84_e2; lra).
  rewrite A. assert (1 / sqrt kap <= 1.0035).
  { apply Rmult_le_reg_r with (sqrt kap); [lra|]. field_simplify; lra. }
  assert (0 <= a * e2 <= 42698) by (unfold w84_a, w84_e2; lra).
  pose proof (Rabs_pos (Sk kap rho2 w)). nra.
Qed.

Lemma Fz_sign rho2 w : 0 <= rho2 -> (0 <= w -> 0 <= Fz rho2 w) /\ (w <= 0 -> Fz rho2 w <= 0).
Proof.
  intros H0. pose proof e2_pos. unfold Fz, Sk. assert (0 < a * e2) by (unfold w84_a; lra).
  assert (D : 0 <= / sqrt (rho2 + kap * (w * w))).
  { destruct (Req_dec (sqrt (rho2 + kap * (w * w))) 0) as [->|N]; [rewrite Rinv_0; lra|].
    pose proof (sqrt_pos (rho2 + kap * (w * w))). apply Rlt_le, Rinv_0_lt_compat. lra. }
  split; intros W; unfold Rdiv.
  - assert (0 <= w * / sqrt (rho2 + kap * (w * w))) by (apply Rmult_le_pos; lra). nra.
  - assert (w * / sqrt (rho2 + kap * (w * w)) <= 0) by nra. nra.
Qed.

Lemma beyond_step rho2 z w : 0 <= rho2 -> beyond z w -> beyond z (z + Fz rho2 w).
Proof.
  intros H0 [[A B]|[A B]]; destruct (Fz_sign rho2 w H0) as [P N].
  - left. split; auto. specialize (P ltac:(lra)). lra.
  - right. split; auto. specialize (N ltac:(lra)). lra.
Qed.

Definition r0 : R := 335000.

Lemma Fz_contract rho2 z w1 w2 : 0 <= rho2 -> r0 * r0 <= rho2 + z * z -> beyond z w1 -> beyond z w2 ->
  Rabs (Fz rho2 w1 - Fz rho2 w2) <= / 7 * Rabs (w1 - w2).
Proof.
  intros H0 Hz B1 B2. pose proof kap_bd as K. pose proof sqrt_kap as SK.
  pose proof (Sk_lip kap rho2 z w1 w2 r0 ltac:(lra) H0 ltac:(unfold r0; lra) Hz B1 B2) as L.
  unfold Fz. replace (a * e2 * Sk kap rho2 w1 - a * e2 * Sk kap rho2 w2) with (a * e2 * (Sk kap rho2 w1 - Sk kap rho2 w2)) by ring.
  rewrite Rabs_mult, (Rabs_pos_eq (a * e2)) by (unfold w84_a, w84_e2; lra).
  assert (1 / (sqrt kap * r0) <= / 300000).
  { unfold Rdiv. rewrite Rmult_1_l. apply Rinv_le_contravar; unfold r0; lra. }
  pose proof (Rabs_pos (w1 - w2)). assert (0 <= a * e2 <= 42698) by (unfold w84_a, w84_e2; lra).
  apply Rle_trans with (a * e2 * (/ 300000 * Rabs (w1 - w2))); [|nra].
  apply Rmult_le_compat_l; [lra|]. eapply Rle_trans; [exact L|]. nra.
Qed.

Lemma dist_pos rho2 z w : 0 <= rho2 -> r0 * r0 <= rho2 + z * z -> beyond z w -> 0 < rho2 + w * w.
Proof. intros H0 Hz B. apply beyond_sq in B. unfold r0 in *. lra. Qed.

Lemma loop_step fuel rho2 z dz n : 0 <= rho2 -> 0 < rho2 + (z + dz) * (z + dz) ->
  geodetic_loop (S fuel) rho2 z dz n
  = if Rltb (Rabs (dz - Fz rho2 (z + dz))) (eps * 100) then (dz, Nn rho2 (z + dz), true)
    else geodetic_loop fuel rho2 z (Fz rho2 (z + dz)) (Nn rho2 (z + dz)).
Proof.
  intros H0 Q. destruct (body_n rho2 (z + dz) H0 Q) as (E1 & E2 & _). cbn [geodetic_loop].
  rewrite E1, E2. reflexivity.
Qed.

Lemma eps_val : 2.22 / 10 ^ 16 < eps < 2.221 / 10 ^ 16.
Proof. unfold eps. split; apply Rmult_lt_reg_r with (2 ^ 52); try lra; rewrite Rinv_l by lra; lra. Qed.

(** the loop ends by its test, at a near fixed point, when the first difference is small enough *)
Lemma loop_ends : forall fuel rho2 z dz n, 0 <= rho2 -> r0 * r0 <= rho2 + z * z -> beyond z (z + dz) ->
  Rabs (dz - Fz rho2 (z + dz)) < 7 ^ fuel * (eps * 100) ->
  exists dz', geodetic_loop (S fuel) rho2 z dz n = (dz', Nn rho2 (z + dz'), true) /\
    beyond z (z + dz') /\ Rabs (dz' - Fz rho2 (z + dz')) < eps * 100.
Proof.
  induction fuel; intros rho2 z dz n H0 Hz B Hd;
    rewrite loop_step by (auto; eapply dist_pos; eauto).
  - rewrite (proj2 (Rltb_true _ _)) by lra. exists dz. repeat split; auto. lra.
  - destruct (Rltb _ _) eqn:E; [apply Rltb_true in E; exists dz; auto|].
    apply IHfuel; auto.
    + apply beyond_step; auto.
    + pose proof (Fz_contract rho2 z (z + dz) (z + Fz rho2 (z + dz)) H0 Hz B (beyond_step _ _ _ H0 B)) as C.
      replace (z + dz - (z + Fz rho2 (z + dz))) with (dz - Fz rho2 (z + dz)) in C by ring.
      cbn [pow] in Hd. rewrite Rmult_assoc in Hd. lra.
Qed.

Lemma loop_101 rho2 z n : 0 <= rho2 -> r0 * r0 <= rho2 + z * z ->
  exists dz', geodetic_loop 101 rho2 z (e2 * z) n = (dz', Nn rho2 (z + dz'), true) /\
    beyond z (z + dz') /\ Rabs (dz' - Fz rho2 (z + dz')) < eps * 100.
Proof.
  intros H0 Hz. pose proof e2_pos as E2. pose proof eps_val as EV.
  assert (B0 : beyond z (z + e2 * z)).
  { destruct (Rle_dec 0 z); [left|right]; split; nra. }
  rewrite loop_step by (auto; eapply dist_pos; eauto).
  destruct (Rltb _ _) eqn:E; [apply Rltb_true in E; exists (e2 * z); auto|].
  apply loop_ends; auto. { apply beyond_step; auto. }
  eapply Rle_lt_trans with 86000.
  - unfold Rminus. eapply Rle_trans; [apply Rabs_triang|]. rewrite Rabs_Ropp.
    pose proof (Fz_bound rho2 (z + e2 * z) H0). pose proof (Fz_bound rho2 (z + Fz rho2 (z + e2 * z)) H0). lra.
  - replace 99%nat with (24 + 75)%nat by reflexivity. rewrite pow_add.
    assert (1 <= 7 ^ 75) by (apply pow_R1_Rle; lra). assert (10 ^ 20 < 7 ^ 24) by lra.
    assert (10 ^ 20 <= 7 ^ 24 * 7 ^ 75) by nra. nra.
Qed.

(** a point within the tolerance of being fixed is near the fixed point *)
Lemma near_fixed rho2 z d1 d2 : 0 <= rho2 -> r0 * r0 <= rho2 + z * z -> beyond z (z + d1) -> beyond z (z + d2) ->
  Rabs (d1 - Fz rho2 (z + d1)) < eps * 100 -> d2 = Fz rho2 (z + d2) -> Rabs (d1 - d2) <= eps * 120.
Proof.
  intros H0 Hz B1 B2 H1 H2. pose proof (Fz_contract rho2 z _ _ H0 Hz B1 B2) as C.
  replace (z + d1 - (z + d2)) with (d1 - d2) in C by ring. rewrite <- H2 in C.
  replace (d1 - d2) with ((d1 - Fz rho2 (z + d1)) + (Fz rho2 (z + d1) - d2)) at 1 by ring.
  pose proof (Rabs_triang (d1 - Fz rho2 (z + d1)) (Fz rho2 (z + d1) - d2)) as T.
  replace (d1 - Fz rho2 (z + d1) + (Fz rho2 (z + d1) - d2)) with (d1 - d2) in T |- * by ring.
  pose proof eps_val. lra.
Qed.

(** the error this makes in the other outputs *)
Lemma sqrt_lip rho2 z w1 w2 : 0 <= rho2 -> r0 * r0 <= rho2 + z * z -> beyond z w1 -> beyond z w2 ->
  Rabs (sqrt (rho2 + w1 * w1) - sqrt (rho2 + w2 * w2)) <= Rabs (w1 - w2).
Proof.
  intros H0 Hz B1 B2.
  assert (L : forall w, beyond z w -> 0 < sqrt (rho2 + w * w) /\ Rabs w <= sqrt (rho2 + w * w)).
  { intros w B. split; [apply sqrt_lt_R0; eapply dist_pos; eauto|].
    replace (Rabs w) with (sqrt (w * w)) by apply sqrt_Rsqr_abs. apply sqrt_le_1_alt. lra. }
  destruct (L _ B1) as [P1 A1], (L _ B2) as [P2 A2].
  pose proof (dist_pos rho2 z w1 H0 Hz B1). pose proof (dist_pos rho2 z w2 H0 Hz B2).
  pose proof (sqrt_sqrt (rho2 + w1 * w1) ltac:(lra)). pose proof (sqrt_sqrt (rho2 + w2 * w2) ltac:(lra)).
  set (x := sqrt (rho2 + w1 * w1)) in *. set (y := sqrt (rho2 + w2 * w2)) in *.
  apply Rmult_le_reg_r with (x + y); [lra|].
  rewrite <- (Rabs_pos_eq (x + y)) at 1 by lra. rewrite <- Rabs_mult.
  replace ((x - y) * (x + y)) with ((w1 - w2) * (w1 + w2)) by lra.
  rewrite Rabs_mult. apply Rmult_le_compat_l; [apply Rabs_pos|].
  eapply Rle_trans; [apply Rabs_triang|]. lra.
Qed.

Lemma Nn_lip rho2 z w1 w2 : 0 <= rho2 -> r0 * r0 <= rho2 + z * z -> beyond z w1 -> beyond z w2 ->
  Rabs (Nn rho2 w1 - Nn rho2 w2) <= / 4 * Rabs (w1 - w2).
Proof.
  intros H0 Hz B1 B2. pose proof kap_bd as K. pose proof sqrt_kap as SK. pose proof e2_pos as E2.
  pose proof (dist_pos rho2 z w1 H0 Hz B1) as D1. pose proof (dist_pos rho2 z w2 H0 Hz B2) as D2.
  destruct (body_n rho2 w1 H0 D1) as (N1 & _ & Q1). destruct (body_n rho2 w2 H0 D2) as (N2 & _ & Q2).
  pose proof (Sk_lip 1 rho2 z w1 w2 r0 ltac:(lra) H0 ltac:(unfold r0; lra) Hz B1 B2) as L.
  unfold Sk in L. rewrite !Rmult_1_l, sqrt_1, Rmult_1_l in L.
  assert (S1 : forall w, 0 < rho2 + w * w -> Rabs (w / sqrt (rho2 + w * w)) <= 1).
  { intros w D. pose proof (sqrt_lt_R0 _ D). unfold Rdiv. rewrite Rabs_mult, Rabs_inv, (Rabs_pos_eq (sqrt _)) by lra.
    apply Rmult_le_reg_r with (sqrt (rho2 + w * w)); [lra|]. rewrite Rmult_assoc, Rinv_l by lra.
    rewrite Rmult_1_r, Rmult_1_l. replace (Rabs w) with (sqrt (w * w)) by apply sqrt_Rsqr_abs. apply sqrt_le_1_alt. lra. }
  pose proof (S1 w1 D1) as A1. pose proof (S1 w2 D2) as A2. clear S1.
  set (s1 := w1 / sqrt (rho2 + w1 * w1)) in *. set (s2 := w2 / sqrt (rho2 + w2 * w2)) in *.
  rewrite <- N1, <- N2. clear N1 N2 Q1 Q2.
  assert (X : forall s, Rabs s <= 1 -> 0.99 < 1 - e2 * s * s /\ 0.99 < sqrt (1 - e2 * s * s)).
  { intros s A. assert (s * s <= 1). { apply Rabs_le_between in A. nra. }
    assert (kap <= 1 - e2 * s * s) by (unfold kap; nra). split; [lra|].
    apply Rlt_le_trans with (sqrt kap); [lra|apply sqrt_le_1_alt; lra]. }
  destruct (X s1 A1) as [p1 x1], (X s2 A2) as [p2 x2].
  pose proof (sqrt_sqrt (1 - e2 * s1 * s1) ltac:(lra)) as q1. pose proof (sqrt_sqrt (1 - e2 * s2 * s2) ltac:(lra)) as q2.
  set (x := sqrt (1 - e2 * s1 * s1)) in *. set (y := sqrt (1 - e2 * s2 * s2)) in *.
  replace (a / x - a / y) with (a * e2 * (s1 + s2) * (s1 - s2) * / (x * y * (x + y))).
  2:{ assert (e2 * ((s1 + s2) * (s1 - s2)) = (y - x) * (y + x)) by lra.
      replace (a * e2 * (s1 + s2) * (s1 - s2)) with (a * (e2 * ((s1 + s2) * (s1 - s2)))) by ring. rewrite H. field. repeat split; lra. }
  rewrite !Rabs_mult.
  assert (I : Rabs (/ (x * y * (x + y))) <= 0.6).
  { assert (1.9 < x * y * (x + y)) by (assert (0.98 < x * y) by nra; nra).
    rewrite Rabs_pos_eq by (apply Rlt_le, Rinv_0_lt_compat; lra).
    apply Rle_trans with (/ 1.9); [apply Rinv_le_contravar; lra|lra]. }
  assert (T : Rabs (s1 + s2) <= 2) by (eapply Rle_trans; [apply Rabs_triang|]; lra).
  assert (AE : Rabs a * Rabs e2 <= 42698) by (rewrite !Rabs_pos_eq; unfold w84_a, w84_e2; lra).
  assert (L' : Rabs (s1 - s2) <= / 335000 * Rabs (w1 - w2)) by (unfold r0 in L; lra).
  pose proof (Rabs_pos a). pose proof (Rabs_pos e2). pose proof (Rabs_pos (s1 + s2)). pose proof (Rabs_pos (s1 - s2)).
  pose proof (Rabs_pos (/ (x * y * (x + y)))). pose proof (Rabs_pos (w1 - w2)).
  assert (0 <= Rabs a * Rabs e2) by (apply Rmult_le_pos; auto).
  assert (Rabs a * Rabs e2 * Rabs (s1 + s2) <= 85396) by nra.
  assert (0 <= Rabs a * Rabs e2 * Rabs (s1 + s2)) by (apply Rmult_le_pos; auto).
  assert (Rabs a * Rabs e2 * Rabs (s1 + s2) * Rabs (s1 - s2) <= 85396 * (/ 335000 * Rabs (w1 - w2))).
  { apply Rmult_le_compat; auto. }
  assert (0 <= Rabs a * Rabs e2 * Rabs (s1 + s2) * Rabs (s1 - s2)) by (apply Rmult_le_pos; auto).
  apply Rle_trans with (85396 * (/ 335000 * Rabs (w1 - w2)) * 0.6); [apply Rmult_le_compat; auto|lra].
Qed.

Lemma atan_lip rho z w1 w2 : 0 < rho -> r0 * r0 <= rho * rho + z * z -> beyond z w1 -> beyond z w2 ->
  Rabs (atan (w1 / rho) - atan (w2 / rho)) <= / r0 * Rabs (w1 - w2).
Proof.
  intros H0 Hz B1 B2.
  apply (lip_of_derive (fun t => atan (t / rho)) (fun t => rho / (rho * rho + t * t))).
  - intros t _. auto_derive; auto. unfold Rsqr. field. split; [nra|lra].
  - intros t Ht. pose proof (beyond_between z w1 w2 t B1 B2 Ht) as Bt. apply beyond_sq in Bt.
    assert (P : 0 < rho * rho + t * t) by nra. assert (Hr : 0 < r0) by (unfold r0; lra).
    rewrite Rabs_pos_eq by (apply Rlt_le, Rdiv_lt_0_compat; lra).
    apply Rmult_le_reg_r with ((rho * rho + t * t) * r0); [nra|]. unfold Rdiv. field_simplify; [|lra|lra].
    destruct (Rle_dec r0 rho); [nra|]. assert (r0 * r0 <= rho * rho + t * t) by lra. nra.
Qed.
End Fix.
