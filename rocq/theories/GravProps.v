(** C61, C89: normal gravity. *)
From Coq Require Import Reals Lra Psatz List Arith Bool Lia.
From Coquelicot Require Import Coquelicot.
From Verif Require Import Scalar LinModel Trig Geo3 StatsModel Wgs84Model Wgs84Spec Wgs84Proofs.
Local Open Scope R_scope.

(** [sin (sin lat)] is zero only on the equator *)
Lemma sin_sin_zero lat : - (PI / 2) <= lat <= PI / 2 -> sin (sin lat) = 0 -> lat = 0.
Proof.
  intros Hl H. pose proof PI2_1 as P1. unfold PI2 in P1. pose proof (SIN_bound lat) as B.
  assert (S0 : sin lat = 0).
  { destruct (Rtotal_order (sin lat) 0) as [L|[E|G]]; auto; exfalso.
    - assert (0 < sin (- sin lat)) by (apply sin_gt_0; lra). rewrite sin_neg in *. lra.
    - assert (0 < sin (sin lat)) by (apply sin_gt_0; lra). lra. }
  destruct (Rtotal_order lat 0) as [L|[E|G]]; auto; exfalso.
  - assert (0 < sin (- lat)) by (apply sin_gt_0; lra). rewrite sin_neg in *. lra.
  - assert (0 < sin lat) by (apply sin_gt_0; lra). lra.
Qed.

Lemma sin_sin_neg lat : - (PI / 2) <= lat < 0 -> -1 < sin (sin lat) < 0.
Proof.
  intros Hl. pose proof PI2_1 as P1. unfold PI2 in P1. pose proof (SIN_bound lat) as B.
  assert (0 < sin (- lat)) by (apply sin_gt_0; lra). rewrite sin_neg in *.
  assert (0 < sin (- sin lat)) by (apply sin_gt_0; lra).
  assert (sin (- sin lat) < - sin lat) by (apply sin_lt_x; lra). rewrite sin_neg in *. lra.
Qed.

(** On the equator the value is the equatorial normal gravity, as in Somigliana's formula. *)
Theorem C61_equator_partial : gravity_normal 0 = somigliana w84_g_e w84_k w84_e2 0 /\ gravity_normal 0 = w84_g_e.
Proof.
  unfold gravity_normal, somigliana. rewrite !sin_0, !Rmult_0_r, Rminus_0_r, sqrt_1, Rplus_0_r. split; field.
Qed.

(** Mirror symmetry holds on the equator only. *)
Theorem C61_symmetric_iff_partial lat : - (PI / 2) <= lat <= PI / 2 ->
  (gravity_normal (- lat) = gravity_normal lat <-> lat = 0).
Proof.
  intros Hl. split; [|intros ->; rewrite Ropp_0; reflexivity].
  intros E. apply sin_sin_zero; auto. unfold gravity_normal in E. rewrite !sin_neg in E.
  pose proof (SIN_bound (sin lat)) as B. set (u := sin (sin lat)) in *. clearbody u.
  apply Rmult_eq_compat_r with (r := (1 - w84_e2 * u) * (1 - w84_e2 * - u) / w84_g_e) in E.
  assert (D1 : 1 - w84_e2 * u <> 0) by (unfold w84_e2; lra). assert (D2 : 1 - w84_e2 * - u <> 0) by (unfold w84_e2; lra).
  assert (Dg : w84_g_e <> 0) by (unfold w84_g_e; lra).
  replace (w84_g_e * (1 + w84_k * - u) / (1 - w84_e2 * - u) * ((1 - w84_e2 * u) * (1 - w84_e2 * - u) / w84_g_e))
    with ((1 + w84_k * - u) * (1 - w84_e2 * u)) in E by (field; auto).
  replace (w84_g_e * (1 + w84_k * u) / (1 - w84_e2 * u) * ((1 - w84_e2 * u) * (1 - w84_e2 * - u) / w84_g_e))
    with ((1 + w84_k * u) * (1 - w84_e2 * - u)) in E by (field; auto).
  assert (2 * (w84_k + w84_e2) * u = 0) by lra. unfold w84_k, w84_e2 in *. lra.
Qed.

Theorem C61_symmetric_refuted : exists lat, - (PI / 2) <= lat <= PI / 2 /\ gravity_normal (- lat) <> gravity_normal lat.
Proof.
  pose proof PI_RGT_0. exists (PI / 4). split; [lra|]. rewrite C61_symmetric_iff_partial; lra.
Qed.

(** At the poles Somigliana's formula with the code's constants gives the published polar gravity, 9.8321849378 m/s2, within
    1e-8; the code exceeds it by more than 0.006 m/s2 at the north pole and falls short by more than 0.1 m/s2 at the south pole. *)
Theorem C61_pole_refuted : Rabs (somigliana w84_g_e w84_k w84_e2 (PI / 2) - 9.8321849378) <= 1e-8 /\
  gravity_normal (PI / 2) > 9.839 /\ gravity_normal (- (PI / 2)) < 9.725.
Proof.
  pose proof PI_RGT_0 as PP. pose proof PI_4 as P4. pose proof PI2_3_2 as P2. unfold PI2 in P2.
  assert (S1 : 7 / 10 < sin 1 < 1).
  { split; [|pose proof (sin_increasing_1 1 (PI / 2)) as K; rewrite sin_PI2 in K; apply K; lra].
    destruct (Req_dec (PI / 4) 1) as [E|N].
    - rewrite <- E, sin_PI4. assert (Q : sqrt 2 <= 142 / 100) by (rewrite <- (sqrt_square (142 / 100)) by lra; apply sqrt_le_1_alt; lra). pose proof (sqrt_lt_R0 2 ltac:(lra)).
      apply (Rmult_lt_reg_r (sqrt 2)); [lra|]. unfold Rdiv at 2. rewrite Rmult_assoc, Rinv_l by lra. lra.
    - apply Rlt_trans with (sin (PI / 4)); [|apply sin_increasing_1; lra]. rewrite sin_PI4. assert (Q : sqrt 2 <= 142 / 100) by (rewrite <- (sqrt_square (142 / 100)) by lra; apply sqrt_le_1_alt; lra). pose proof (sqrt_lt_R0 2 ltac:(lra)).
      apply (Rmult_lt_reg_r (sqrt 2)); [lra|]. unfold Rdiv at 2. rewrite Rmult_assoc, Rinv_l by lra. lra. }
  split; [|split].
  - unfold somigliana. rewrite sin_PI2, !Rmult_1_r. set (d := sqrt (1 - w84_e2)). assert (D : 0.996647189335 <= d <= 0.996647189336).
    { unfold d. split; [rewrite <- (sqrt_square 0.996647189335) by lra|rewrite <- (sqrt_square 0.996647189336) by lra]; apply sqrt_le_1_alt; unfold w84_e2; lra. }
    assert (Pd : 0 < d) by lra. clearbody d. apply Rabs_le. split; apply (Rmult_le_reg_r d); try lra; unfold Rdiv, Rminus; rewrite Rmult_plus_distr_r, Rmult_assoc, Rinv_l by lra; unfold w84_g_e, w84_k; lra.
  - unfold gravity_normal. rewrite sin_PI2. apply Rlt_gt, (Rmult_lt_reg_r (1 - w84_e2 * sin 1)); [unfold w84_e2; lra|]. unfold Rdiv. rewrite Rmult_assoc, Rinv_l by (unfold w84_e2; lra). unfold w84_g_e, w84_k, w84_e2. lra.
  - unfold gravity_normal. rewrite sin_neg, sin_PI2, sin_neg. apply (Rmult_lt_reg_r (1 - w84_e2 * - sin 1)); [unfold w84_e2; lra|]. unfold Rdiv. rewrite Rmult_assoc, Rinv_l by (unfold w84_e2; lra). unfold w84_g_e, w84_k, w84_e2. lra.
Qed.

(** Everywhere south of the equator gravity comes out below its equatorial value, while Somigliana's
    formula puts it above. *)
Theorem C61_somigliana_refuted lat : - (PI / 2) <= lat < 0 ->
  gravity_normal lat < w84_g_e < somigliana w84_g_e w84_k w84_e2 lat.
Proof.
  intros Hl. pose proof (sin_sin_neg lat Hl) as B. pose proof PI_RGT_0.
  assert (S : 0 < sin (- lat)) by (apply sin_gt_0; lra). rewrite sin_neg in S. pose proof (SIN_bound lat) as SB.
  split.
  - unfold gravity_normal. set (u := sin (sin lat)) in *. clearbody u.
    apply Rmult_lt_reg_r with (1 - w84_e2 * u); [unfold w84_e2; lra|].
    unfold Rdiv. rewrite Rmult_assoc, Rinv_l, Rmult_1_r by (unfold w84_e2; lra).
    unfold w84_g_e, w84_k, w84_e2. lra.
  - unfold somigliana. set (v := sin lat * sin lat). assert (V : 0 < v <= 1) by (unfold v; nra). clearbody v.
    assert (Q : 0 < 1 - w84_e2 * v < 1) by (unfold w84_e2; lra).
    assert (Q' : 0 < sqrt (1 - w84_e2 * v) <= 1).
    { split; [apply sqrt_lt_R0; lra|]. rewrite <- sqrt_1 at 2. apply sqrt_le_1_alt. lra. }
    assert (Hg : 0 < w84_g_e) by (unfold w84_g_e; lra). assert (Hk : 0 < w84_k * v) by (unfold w84_k; lra).
    apply Rmult_lt_reg_r with (sqrt (1 - w84_e2 * v)); [lra|].
    unfold Rdiv. rewrite Rmult_assoc, Rinv_l, Rmult_1_r by lra. nra.
Qed.

Example C61_nontrivial : - (PI / 2) <= -1 < 0.
Proof. pose proof PI2_1 as P. unfold PI2 in P. lra. Qed.

(** ** C89: the gravity vector *)

Lemma ferrari_long x y z : vy (ecef_to_geocentric_ferrari x y z) = atan2 y x.
Proof. reflexivity. Qed.

(** Turning the point about the polar axis turns the vector with it. *)
Theorem C89_axisymmetric t p : vx p <> 0 \/ vy p <> 0 ->
  let q := turn t p in
  gravity_rectangular (vx q) (vy q) (vz q) = turn t (gravity_rectangular (vx p) (vy p) (vz p)).
Proof.
  intros Hp q. pose proof (sincos2 t) as T.
  assert (R2 : vx q * vx q + vy q * vy q = vx p * vx p + vy p * vy p).
  { unfold q, turn. cbn [vx vy vz]. transitivity ((vx p * vx p + vy p * vy p) * (sin t * sin t + cos t * cos t)); [ring|rewrite T; ring]. }
  assert (R2' : vx q ^ 2 + vy q ^ 2 = vx p ^ 2 + vy p ^ 2) by (cbn [pow]; lra).
  assert (Zq : vz q = vz p) by reflexivity.
  assert (U : ellipsoidal_height (vx q) (vy q) (vz q) = ellipsoidal_height (vx p) (vy p) (vz p)).
  { unfold ellipsoidal_height. rewrite Zq. rewrite R2'. reflexivity. }
  assert (B : forall u, ellipsoidal_beta (vx q) (vy q) (vz q) u = ellipsoidal_beta (vx p) (vy p) (vz p) u).
  { intros u. unfold ellipsoidal_beta. rewrite Zq, R2'. reflexivity. }
  assert (Gr : gravity_ellipsoidal (vx q) (vy q) (vz q) = gravity_ellipsoidal (vx p) (vy p) (vz p)).
  { unfold gravity_ellipsoidal. rewrite U. rewrite B. reflexivity. }
  pose proof (hyp_pos _ _ Hp) as P.
  assert (C1 : cos (atan2 (vy q) (vx q)) = cos t * cos (atan2 (vy p) (vx p)) - sin t * sin (atan2 (vy p) (vx p))).
  { apply Rmult_eq_reg_l with (sqrt (vx p * vx p + vy p * vy p)); [|lra].
    rewrite <- R2 at 1. rewrite atan2_cos.
    pose proof (atan2_cos (vx p) (vy p)). pose proof (atan2_sin (vx p) (vy p)). unfold q, turn; cbn [vx vy]. nra. }
  assert (S1 : sin (atan2 (vy q) (vx q)) = sin t * cos (atan2 (vy p) (vx p)) + cos t * sin (atan2 (vy p) (vx p))).
  { apply Rmult_eq_reg_l with (sqrt (vx p * vx p + vy p * vy p)); [|lra].
    rewrite <- R2 at 1. rewrite atan2_sin.
    pose proof (atan2_cos (vx p) (vy p)). pose proof (atan2_sin (vx p) (vy p)). unfold q, turn; cbn [vx vy]. nra. }
  unfold gravity_rectangular. rewrite U, B, Gr, !ferrari_long, C1, S1.
  rewrite !app3. unfold App, turn. cbn [vx vy vz m00 m01 m02 m10 m11 m12 m20 m21 m22].
  f_equal; ring.
Qed.

Lemma atan_ge x : 0 <= x -> x - x ^ 3 / 3 + x ^ 5 / 5 - x ^ 7 / 7 <= atan x.
Proof.
  intros Hx. destruct (Req_dec x 0) as [->|N]; [rewrite atan_0; lra|].
  destruct (MVT_gen (fun t => atan t - (t - t ^ 3 / 3 + t ^ 5 / 5 - t ^ 7 / 7)) 0 x
     (fun t => / (1 + t * t) - (1 - t ^ 2 + t ^ 4 - t ^ 6))) as (c & Hc & E).
  - intros t _. auto_derive; auto. unfold Rsqr. field. nra.
  - intros t _. apply continuity_pt_filterlim. apply (ex_derive_continuous (fun t => atan t - (t - t ^ 3 / 3 + t ^ 5 / 5 - t ^ 7 / 7)) t). auto_derive; auto.
  - rewrite atan_0 in E. rewrite Rmin_left, Rmax_right in Hc by lra.
    assert (0 <= / (1 + c * c) - (1 - c ^ 2 + c ^ 4 - c ^ 6)).
    { replace (/ (1 + c * c) - (1 - c ^ 2 + c ^ 4 - c ^ 6)) with (c ^ 8 / (1 + c * c)) by (field; nra).
      apply Rmult_le_pos; [apply pow_le; lra|apply Rlt_le, Rinv_0_lt_compat; nra]. }
    assert (0 <= (/ (1 + c * c) - (1 - c ^ 2 + c ^ 4 - c ^ 6)) * (x - 0)) by (apply Rmult_le_pos; lra).
    lra.
Qed.

Lemma sin_half_ge x : 0 <= x -> x - x ^ 3 / 6 <= sin x.
Proof.
  intros Hx.
  destruct (MVT_gen (fun t => sin t - (t - t ^ 3 / 6)) 0 x (fun t => cos t - (1 - t ^ 2 / 2))) as (c & Hc & E).
  - intros t _. auto_derive; auto. field.
  - intros t _. apply continuity_pt_filterlim. apply (ex_derive_continuous (fun t => sin t - (t - t ^ 3 / 6)) t). auto_derive; auto.
  - rewrite sin_0 in E. rewrite Rmin_left, Rmax_right in Hc by lra.
    assert (1 - c ^ 2 / 2 <= cos c).
    { replace c with (2 * (c / 2)) at 2 by field. rewrite cos_2a_sin.
      assert (Rabs (sin (c / 2)) <= Rabs (c / 2)).
      { destruct (Req_dec c 0) as [->|N]; [unfold Rdiv; rewrite Rmult_0_l, sin_0; lra|]. rewrite (Rabs_pos_eq (c / 2)) by lra.
        pose proof (SIN_bound (c / 2)). destruct (Rle_dec 1 (c / 2)); [apply Rabs_le; lra|].
        pose proof PI2_1 as P. unfold PI2 in P.
        rewrite Rabs_pos_eq by (apply sin_ge_0; lra). left. apply sin_lt_x. lra. }
      pose proof (Rsqr_le_abs_1 _ _ H). unfold Rsqr in *. nra. }
    assert (0 <= (cos c - (1 - c ^ 2 / 2)) * (x - 0)) by (apply Rmult_le_pos; lra). lra.
Qed.
Lemma cos_1_le : cos 1 <= 0.55.
Proof.
  replace 1 with (2 * (1 / 2)) by field. rewrite cos_2a_sin.
  pose proof (sin_half_ge (1 / 2) ltac:(lra)) as S. assert (0.479 <= sin (1 / 2)) by lra. nra.
Qed.

(** On the equator, on the surface, the vector should have the size of the equatorial normal gravity
    9.7803253359.  It is at least a hundredth too large: the centrifugal part carries a factor
    cos (cos 0) where cos^2 0 is meant. *)
Theorem C89_equator_refuted :
  let g := gravity_rectangular w84_a 0 0 in vy g = 0 /\ vz g = 0 /\ vx g < - (w84_g_e + 0.01).
Proof.
  assert (Ha : 0 < w84_a) by (unfold w84_a; lra). assert (HE : 0 < w84_E) by (unfold w84_E; lra).
  set (u := sqrt (w84_a ^ 2 - w84_E ^ 2)).
  assert (U2 : u * u = w84_a ^ 2 - w84_E ^ 2) by (unfold u; apply sqrt_sqrt; unfold w84_a, w84_E; lra).
  assert (UB : 6356752 < u < 6356753).
  { unfold u. split.
    - rewrite <- (sqrt_square 6356752) by lra. apply sqrt_lt_1_alt. unfold w84_a, w84_E. lra.
    - rewrite <- (sqrt_square 6356753) by lra. apply sqrt_lt_1_alt. unfold w84_a, w84_E. lra. }
  clearbody u.
  assert (H : ellipsoidal_height w84_a 0 0 = u).
  { unfold ellipsoidal_height. replace (w84_a ^ 2 + 0 ^ 2 + 0 ^ 2 - w84_E ^ 2) with (u * u) by (rewrite U2; ring).
    replace (4 * w84_E ^ 2 * 0 ^ 2 / (u * u) ^ 2) with 0 by (unfold Rdiv; ring).
    rewrite Rplus_0_r, sqrt_1. replace (1 / 2 * (u * u) * (1 + 1)) with (u * u) by field. apply sqrt_square. lra. }
  assert (Bt : ellipsoidal_beta w84_a 0 0 u = 0).
  { unfold ellipsoidal_beta. unfold Rdiv. rewrite !Rmult_0_l. apply atan_0. }
  assert (R2 : u ^ 2 + w84_E ^ 2 = w84_a * w84_a) by (replace (u ^ 2) with (u * u) by ring; rewrite U2; ring).
  assert (W : ellipsoidal_w u 0 = u / w84_a).
  { unfold ellipsoidal_w. rewrite !sin_0, Rmult_0_r, Rplus_0_r, R2.
    replace (u ^ 2 / (w84_a * w84_a)) with (u / w84_a * (u / w84_a)) by (field; lra).
    apply sqrt_square. apply Rmult_le_pos; [lra|apply Rlt_le, Rinv_0_lt_compat; lra]. }
  assert (L : atan2 0 w84_a = 0).
  { unfold atan2. rewrite (proj2 (Rltb_true _ _)) by auto. unfold Rdiv. rewrite Rmult_0_l. apply atan_0. }
  cbv zeta. unfold gravity_rectangular, gravity_ellipsoidal. rewrite app3, H, Bt, W, ferrari_long, L.
  rewrite R2, sqrt_square by lra. rewrite !sin_0, !cos_0, !Rmult_0_r.
  unfold App. cbn [vx vy vz m00 m01 m02 m10 m11 m12 m20 m21 m22].
  split; [|split].
  - unfold Rdiv. ring.
  - unfold Rdiv. ring.
  - set (y := w84_E / u). set (x := w84_E / w84_b).
    replace (3 * u ^ 2 / w84_E ^ 2) with (3 / (y * y)) by (unfold y; field; lra).
    assert (YB : 0.08209 < y < 0.0821).
    { unfold y. split; apply Rmult_lt_reg_r with u; try lra; unfold Rdiv; rewrite Rmult_assoc, Rinv_l by lra; unfold w84_E; lra. }
    assert (XB : 0.08209 < x < 0.0821) by (unfold x, w84_E, w84_b; lra).
    set (q0 := 1 / 2 * ((1 + 3 * w84_b ^ 2 / w84_E ^ 2) * atan x - 3 * w84_b / w84_E)).
    assert (Q0 : 7 / 10 ^ 5 < q0).
    { unfold q0. replace (3 * w84_b ^ 2 / w84_E ^ 2) with (3 / (x * x)) by (unfold x, w84_E, w84_b; field).
      replace (3 * w84_b / w84_E) with (3 / x) by (unfold x, w84_E, w84_b; field).
      pose proof (atan_ge x ltac:(lra)) as A. clearbody x. clear q0.
      assert (P : 0 < 1 + 3 / (x * x)). { assert (0 < 3 / (x * x)) by (apply Rdiv_lt_0_compat; nra). lra. }
      apply Rlt_le_trans with (1 / 2 * ((1 + 3 / (x * x)) * (x - x ^ 3 / 3 + x ^ 5 / 5 - x ^ 7 / 7) - 3 / x)).
      - replace (1 / 2 * ((1 + 3 / (x * x)) * (x - x ^ 3 / 3 + x ^ 5 / 5 - x ^ 7 / 7) - 3 / x))
          with (x * x * x * (2 / 15 - 4 / 35 * (x * x) - 1 / 14 * (x * x * (x * x)))) by (field; lra).
        assert (X2 : 0.006738 < x * x < 0.00675) by (split; nra). assert (X3 : 0.000553 < x * x * x) by nra.
        assert (x * x * (x * x) < 0.0001) by nra. nra.
      - assert ((1 + 3 / (x * x)) * (x - x ^ 3 / 3 + x ^ 5 / 5 - x ^ 7 / 7) <= (1 + 3 / (x * x)) * atan x) by (apply Rmult_le_compat_l; lra). lra. }
    replace (u ^ 2 / w84_E ^ 2) with (1 / (y * y)) by (unfold y; field; lra).
    replace (u / w84_E * atan y) with (atan y / y) by (unfold y; field; lra).
    set (qp := 3 * (1 + 1 / (y * y)) * (1 - atan y / y) - 1).
    assert (QP : qp < 0.00271).
    { unfold qp. pose proof (atan_ge y ltac:(lra)) as A. clear qp. clearbody y.
      assert (P : 0 < 3 * (1 + 1 / (y * y))). { assert (0 < 1 / (y * y)) by (apply Rdiv_lt_0_compat; nra). lra. }
      assert (A' : 1 - y ^ 2 / 3 + y ^ 4 / 5 - y ^ 6 / 7 <= atan y / y).
      { apply Rmult_le_reg_r with y; [lra|]. unfold Rdiv at 4. rewrite Rmult_assoc, Rinv_l by lra. rewrite Rmult_1_r. eapply Rle_trans; [|exact A]. right. field. }
      apply Rle_lt_trans with (3 * (1 + 1 / (y * y)) * (1 - (1 - y ^ 2 / 3 + y ^ 4 / 5 - y ^ 6 / 7)) - 1).
      - assert (3 * (1 + 1 / (y * y)) * (1 - atan y / y) <= 3 * (1 + 1 / (y * y)) * (1 - (1 - y ^ 2 / 3 + y ^ 4 / 5 - y ^ 6 / 7))) by (apply Rmult_le_compat_l; lra). lra.
      - replace (3 * (1 + 1 / (y * y)) * (1 - (1 - y ^ 2 / 3 + y ^ 4 / 5 - y ^ 6 / 7)) - 1)
          with (2 / 5 * (y * y) - 6 / 35 * (y * y * (y * y)) + 3 / 7 * (y * y * (y * y) * (y * y))) by (field; lra).
        assert (Y2 : 0.006738 < y * y < 0.006741) by (split; nra). assert (Y4 : 0.000045 < y * y * (y * y) < 0.00005) by (split; nra). nra. }
    assert (QR : qp / q0 < 39).
    { apply Rmult_lt_reg_r with q0; [lra|]. unfold Rdiv. rewrite Rmult_assoc, Rinv_l by lra. lra. }
    set (ratio := qp / q0) in *. clearbody ratio. clear QP Q0. clearbody q0 qp. clear q0 qp.
    pose proof cos_1_le as C1.
    set (w2 := w84_w ^ 2).
    assert (WB : 5.3174 / 10 ^ 9 < w2 < 5.3175 / 10 ^ 9) by (unfold w2, w84_w; lra).
    match goal with |- ?l < _ => replace l with
      (- (w84_GM / (w84_a * u)) + w2 * w84_a * (w84_E / u) * ratio * (1 / 6) + w2 * w84_a * cos 1) by (field; lra) end.
    fold y.
    assert (G1 : 9.831 < w84_GM / (w84_a * u)).
    { apply Rmult_lt_reg_r with (w84_a * u); [nra|]. unfold Rdiv. rewrite Rmult_assoc, Rinv_l by nra. unfold w84_GM, w84_a in *. lra. }
    assert (WA : 0 < w2 * w84_a < 0.033917) by (unfold w84_a; lra).
    assert (w2 * w84_a * y < 0.033917 * 0.0821) by nra.
    assert (0 < w2 * w84_a * y) by nra.
    assert (w2 * w84_a * y * ratio < 0.033917 * 0.0821 * 39) by nra.
    assert (w2 * w84_a * cos 1 <= 0.033917 * 0.55) by nra.
    unfold w84_g_e. lra.
Qed.

(** [u] and [beta] are the ellipsoidal coordinates of the point: semi-axis of the confocal ellipsoid through it and reduced latitude *)
Theorem C89_coordinates x y z : w84_E ^ 2 < x ^ 2 + y ^ 2 + z ^ 2 -> 0 < x ^ 2 + y ^ 2 ->
  let u := ellipsoidal_height x y z in let beta := ellipsoidal_beta x y z u in
  0 < u /\ sqrt (x ^ 2 + y ^ 2) = sqrt (u ^ 2 + w84_E ^ 2) * cos beta /\ z = u * sin beta.
Proof.
  intros H1 H2 u beta. assert (HE : 0 < w84_E ^ 2) by (unfold w84_E; lra). set (E2 := w84_E ^ 2) in *. set (r2 := x ^ 2 + y ^ 2) in *.
  pose (t := r2 + z ^ 2 - E2). assert (Ht : 0 < t) by (unfold t; lra). assert (Z2 : 0 <= z ^ 2) by nra.
  pose (k := sqrt (1 + 4 * E2 * z ^ 2 / t ^ 2)).
  assert (K0 : 0 <= 4 * E2 * z ^ 2 / t ^ 2) by (apply Rmult_le_pos; [nra|left; apply Rinv_0_lt_compat, pow_lt, Ht]).
  assert (K2 : k * k = 1 + 4 * E2 * z ^ 2 / t ^ 2) by (apply sqrt_sqrt; lra). assert (K1 : 1 <= k) by (unfold k; rewrite <- sqrt_1 at 1; apply sqrt_le_1_alt; lra).
  assert (U2 : u * u = 1 / 2 * t * (1 + k)) by (unfold u, ellipsoidal_height; fold E2 r2 t k; apply sqrt_sqrt; nra).
  assert (Pu : 0 < u) by (unfold u, ellipsoidal_height; fold E2 r2 t k; apply sqrt_lt_R0; nra).
  assert (Q : u * u * (u * u) = t * (u * u) + E2 * z ^ 2).
  { rewrite U2. transitivity (/ 4 * t ^ 2 * (1 + 2 * k + k * k)); [field|]. rewrite K2. field. lra. }
  split; [exact Pu|]. set (r := sqrt r2). assert (R2 : r * r = r2) by (apply sqrt_sqrt; lra). assert (Pr : 0 < r) by (apply sqrt_lt_R0; exact H2).
  replace (u ^ 2 + E2) with (u * u + E2) by ring. set (v := sqrt (u * u + E2)). assert (V2 : v * v = u * u + E2) by (apply sqrt_sqrt; nra). assert (Pv : 0 < v) by (apply sqrt_lt_R0; nra).
  assert (B : beta = atan (z * v / (u * r))) by (unfold beta, ellipsoidal_beta; fold E2 r2 r; replace (u ^ 2 + E2) with (u * u + E2) by ring; reflexivity).
  (* the ellipse *)
  assert (El : r * r * (u * u) + z * z * (v * v) = u * u * (v * v)) by (rewrite R2, V2; unfold t in Q; nra).
  assert (C : 1 + Rsqr (z * v / (u * r)) = Rsqr (v / r)).
  { unfold Rsqr. apply (Rmult_eq_reg_r (u * u * (r * r))); [|apply Rgt_not_eq; repeat apply Rmult_lt_0_compat; assumption].
    transitivity (r * r * (u * u) + z * z * (v * v)); [field; lra|]. rewrite El. field. lra. }
  assert (Pvr : 0 < v / r) by (apply Rdiv_lt_0_compat; assumption).
  assert (S : sqrt (1 + Rsqr (z * v / (u * r))) = v / r) by (rewrite C; apply sqrt_Rsqr; lra).
  rewrite B, cos_atan, sin_atan, S. split; field; lra.
Qed.
(** the scale factor of these coordinates is one on the axis and the same north and south; the computed one is neither *)
Theorem C89_scale_refuted u : w84_E <= u ->
  ellipsoidal_w u 0 = u / sqrt (u ^ 2 + w84_E ^ 2) /\ ellipsoidal_w u (PI / 2) < 1 /\
  (forall beta, 0 < beta <= PI / 2 -> ellipsoidal_w u (- beta) < ellipsoidal_w u beta).
Proof.
  intros Hu'. assert (H0 : 0 < w84_E) by (unfold w84_E; lra). assert (Hu : 0 < u) by lra. assert (HE : 0 < w84_E ^ 2) by (unfold w84_E; lra).
  assert (UE : w84_E ^ 2 <= u ^ 2) by (apply pow_incr; lra). unfold ellipsoidal_w. set (E2 := w84_E ^ 2) in *.
  assert (U2 : 0 < u ^ 2) by (apply pow_lt, Hu). pose proof PI_RGT_0 as PP. pose proof PI2_3_2 as P2. 
  split; [|split].
  - rewrite sin_0, sin_0, Rmult_0_r, Rplus_0_r. rewrite sqrt_div_alt by (apply Rplus_lt_0_compat; assumption). f_equal. replace (u ^ 2) with (u * u) by ring. apply sqrt_square. lra.
  - rewrite sin_PI2. rewrite <- sqrt_1 at 2. apply sqrt_lt_1_alt. assert (S : 0 < sin 1 < 1).
    { split; [apply sin_gt_0; unfold PI2 in *; lra|]. pose proof (sin_increasing_1 1 (PI / 2)) as K. rewrite sin_PI2 in K. unfold PI2 in *. apply K; lra. }
    split; [apply Rmult_le_pos; [nra|left; apply Rinv_0_lt_compat; lra]|]. apply (Rmult_lt_reg_r (u ^ 2 + E2)); [lra|]. unfold Rdiv. rewrite Rmult_assoc, Rinv_l by lra. nra.
  - intros beta Hb. rewrite !sin_neg. assert (S : 0 < sin beta <= 1) by (split; [apply sin_gt_0; lra|apply SIN_bound]).
    assert (S2 : 0 < sin (sin beta)) by (apply sin_gt_0; lra).
    pose proof (SIN_bound (sin beta)) as S3. apply sqrt_lt_1_alt. split; [apply Rmult_le_pos; [nra|left; apply Rinv_0_lt_compat; lra]|].
    apply Rmult_lt_compat_r; [apply Rinv_0_lt_compat; lra|nra].
Qed.

(** On the reference ellipsoid normal gravity is perpendicular to the surface: its component along the meridian is zero.  The computed
    one is not: nearly the whole centrifugal term is left, about 0.017 m/s2 at 45 degrees. *)
Theorem C89_tangential_refuted : forall beta, 0 < beta < PI / 2 ->
  vy (gravity_ellipsoidal (sqrt (w84_b ^ 2 + w84_E ^ 2) * cos beta) 0 (w84_b * sin beta)) <= - (0.0339 * (sin beta * cos beta)).
Proof.
  intros beta Hb. assert (S : 0 < sin beta) by (apply sin_gt_0; lra). assert (C : 0 < cos beta) by (apply cos_gt_0; lra).
  pose proof (sin2_cos2 beta) as SC. unfold Rsqr in SC. set (s := sin beta) in *. set (c := cos beta) in *. clearbody s c. clear Hb beta.
  assert (s1 : s <= 1) by nra. assert (c1 : c <= 1) by nra. assert (ss : s * s <= 1) by nra.
  set (A := sqrt (w84_b ^ 2 + w84_E ^ 2)).
  assert (A2 : A * A = w84_b ^ 2 + w84_E ^ 2) by (apply sqrt_sqrt; unfold w84_b, w84_E; lra).
  assert (BA : 6378136 <= A <= 6378138).
  { unfold A. split; [rewrite <- (sqrt_square 6378136) by lra|rewrite <- (sqrt_square 6378138) by lra]; apply sqrt_le_1_alt; unfold w84_b, w84_E; lra. }
  assert (Eb : 0 < w84_E ^ 2 < w84_b ^ 2 / 100) by (unfold w84_E, w84_b; lra).
  assert (X2 : (A * c) ^ 2 = (w84_b ^ 2 + w84_E ^ 2) * (c * c)) by (transitivity (A * A * (c * c)); [ring|rewrite A2; reflexivity]).
  assert (T : (A * c) ^ 2 + 0 ^ 2 + (w84_b * s) ^ 2 - w84_E ^ 2 = w84_b ^ 2 - w84_E ^ 2 * (s * s)).
  { rewrite X2. replace (c * c) with (1 - s * s) by lra. ring. }
  assert (Pt : 0 < w84_b ^ 2 - w84_E ^ 2 * (s * s)) by nra.
  assert (Pb : 0 < w84_b) by (unfold w84_b; lra).
  assert (U : ellipsoidal_height (A * c) 0 (w84_b * s) = w84_b).
  { unfold ellipsoidal_height. rewrite T. set (t := w84_b ^ 2 - w84_E ^ 2 * (s * s)) in *. set (k := w84_b ^ 2 + w84_E ^ 2 * (s * s)).
    replace (1 + 4 * w84_E ^ 2 * (w84_b * s) ^ 2 / t ^ 2) with ((k / t) * (k / t)).
    - assert (Pk : 0 <= k) by (unfold k; nra). rewrite sqrt_square by (apply Rmult_le_pos; [exact Pk|left; apply Rinv_0_lt_compat, Pt]).
      replace (1 / 2 * t * (1 + k / t)) with (w84_b * w84_b); [apply sqrt_square; lra|]. transitivity ((t + k) / 2); [unfold t, k; field|field; lra].
    - apply (Rmult_eq_reg_r (t * t)); [|nra]. transitivity (k * k); [field; lra|]. transitivity (t * t + 4 * w84_E ^ 2 * (w84_b * s) ^ 2); [unfold k, t; ring|field; lra]. }
  assert (H1 : w84_E ^ 2 < (A * c) ^ 2 + 0 ^ 2 + (w84_b * s) ^ 2) by lra.
  assert (H2 : 0 < (A * c) ^ 2 + 0 ^ 2) by (rewrite X2; assert (0 < c * c) by nra; nra).
  destruct (C89_coordinates (A * c) 0 (w84_b * s) H1 H2) as (_ & K1 & K2). rewrite U in K1, K2. fold A in K1.
  unfold gravity_ellipsoidal. rewrite U. fold A. set (be := ellipsoidal_beta (A * c) 0 (w84_b * s) w84_b) in *.
  assert (Es : sin be = s) by (apply (Rmult_eq_reg_l w84_b); lra).
  assert (Ec : cos be = c).
  { apply (Rmult_eq_reg_l A); [|lra]. rewrite <- K1. replace ((A * c) ^ 2 + 0 ^ 2) with ((A * c) * (A * c)) by ring. apply sqrt_square. nra. }
  cbn [vy]. rewrite Es, Ec. set (w := ellipsoidal_w w84_b be).
  assert (W : 0 < w <= 1).
  { unfold w, ellipsoidal_w. rewrite Es. assert (Q : 0 < sin s <= 1) by (split; [apply sin_gt_0; pose proof PI2_3_2; unfold PI2 in *; lra|apply SIN_bound]). split.
    - apply sqrt_lt_R0. apply Rdiv_lt_0_compat; nra.
    - rewrite <- sqrt_1. apply sqrt_le_1_alt. apply (Rmult_le_reg_r (w84_b ^ 2 + w84_E ^ 2)); [lra|]. unfold Rdiv. rewrite Rmult_assoc, Rinv_l by lra. nra. }
  set (q := 1 / 2 * ((1 + 3 * w84_b ^ 2 / w84_E ^ 2) * atan (w84_E / w84_b) - 3 * w84_b / w84_E)).
  assert (Q : q * / q <= 1) by (destruct (Req_dec q 0) as [-> | N]; [rewrite Rmult_0_l; lra|rewrite Rinv_r by exact N; lra]).
  set (v := 1 / w). assert (V : 1 <= v) by (unfold v; apply (Rmult_le_reg_r w); [lra|]; unfold Rdiv; rewrite Rmult_assoc, Rinv_l by lra; lra).
  assert (F : w84_a ^ 2 / (w84_b ^ 2 + w84_E ^ 2) <= 2) by (unfold w84_a, w84_b, w84_E; apply (Rmult_le_reg_r ((63567523142 / 10 ^ 4) ^ 2 + (52185400842339 / 10 ^ 8) ^ 2)); [lra|]; unfold Rdiv at 1; rewrite Rmult_assoc, Rinv_l by lra; lra).
  assert (F0 : 0 < w84_a ^ 2 / (w84_b ^ 2 + w84_E ^ 2)) by (apply Rdiv_lt_0_compat; unfold w84_a; lra).
  replace (v * (w84_w ^ 2 * w84_a ^ 2 / (w84_b ^ 2 + w84_E ^ 2)) * q / q * s * c - v * w84_w ^ 2 * A * s * c)
    with (v * w84_w ^ 2 * (s * c) * (w84_a ^ 2 / (w84_b ^ 2 + w84_E ^ 2) * (q * / q) - A)) by (unfold Rdiv; ring).
  assert (SCp : 0 < s * c) by nra. assert (L : w84_a ^ 2 / (w84_b ^ 2 + w84_E ^ 2) * (q * / q) <= 2).
  { apply Rle_trans with (w84_a ^ 2 / (w84_b ^ 2 + w84_E ^ 2) * 1); [apply Rmult_le_compat_l; lra|lra]. }
  set (z := w84_a ^ 2 / (w84_b ^ 2 + w84_E ^ 2) * (q * / q)) in *. clearbody z.
  assert (G : 0.0339 * (s * c) <= v * w84_w ^ 2 * (s * c) * (A - z)).
  { apply Rle_trans with (1 * w84_w ^ 2 * (s * c) * 6378134); [unfold w84_w; lra|].
    apply Rmult_le_compat; [unfold w84_w; nra|lra| |lra]. apply Rmult_le_compat_r; [lra|]. apply Rmult_le_compat_r; [unfold w84_w; lra|exact V]. }
  lra.
Qed.
Example C89_nontrivial : (vx (mkV 3 0 4) <> 0 \/ vy (mkV 3 0 4) <> 0) /\ w84_E ^ 2 < w84_a ^ 2 + 0 ^ 2 + 1 ^ 2 /\ 0 < w84_a ^ 2 + 0 ^ 2.
Proof. split; [left; cbn; lra|]. unfold w84_E, w84_a. lra. Qed.
