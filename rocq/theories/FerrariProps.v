(** C60: the closed-form inverse. *)
From Coq Require Import Reals Lra Psatz List Arith Bool Lia.
From Verif Require Import Scalar Trig Geo3 StatsModel Wgs84Model Wgs84Spec Wgs84Proofs.
Local Open Scope R_scope.

Lemma ab_pos : 0 < w84_b < w84_a. Proof. unfold w84_a, w84_b. lra. Qed.
Lemma f_e2 : 2 * ((w84_a - w84_b) / w84_a) - (w84_a - w84_b) / w84_a * ((w84_a - w84_b) / w84_a)
  = 1 - w84_b * w84_b / (w84_a * w84_a).
Proof. pose proof ab_pos. field. lra. Qed.
Lemma Rpower_1_base x : Rpower 1 x = 1.
Proof. unfold Rpower. rewrite ln_1, Rmult_0_r. apply exp_0. Qed.

(** the intermediate results, named *)
Lemma ferrari_by x y z r e g c s pp q t r0 u v :
  r = sqrt (x * x + y * y) -> e = 1 - w84_b * w84_b / (w84_a * w84_a) ->
  g = r * r + (1 - e) * (z * z) - e * (w84_a * w84_a - w84_b * w84_b) ->
  c = e ^ 2 * (54 * (w84_b * w84_b) * (z * z)) * (r * r) / g ^ 3 ->
  s = Rpower (1 + c + (c ^ 2 + 2 * c)) (1 / 3) ->
  pp = 54 * (w84_b * w84_b) * (z * z) / (3 * (s + 1 / s + 1) ^ 2 * g ^ 2) ->
  q = sqrt (1 + 2 * e ^ 2 * pp) ->
  t = 1 / 2 * (w84_a * w84_a) * (1 + 1 / q) - (pp * (1 - e) * (z * z)) / (q * (1 + q)) - 1 / 2 * pp * (r * r) ->
  r0 = - pp * e * r / (1 + q) + sqrt (Rmax 0 t) ->
  u = sqrt ((r - e * r0) ^ 2 + z * z) -> v = sqrt ((r - e * r0) ^ 2 + (1 - e) * (z * z)) ->
  ecef_to_geocentric_ferrari x y z =
  mkV (atan2 (z + sqrt (w84_a * w84_a / (w84_b * w84_b) - 1) * sqrt (w84_a * w84_a / (w84_b * w84_b) - 1) * (w84_b * w84_b * z / (w84_a * v))) r)
      (atan2 y x) (u * (1 - (w84_b * w84_b / (w84_a * v)))).
Proof.
  intros Hr He Hg Hc Hs Hp Hq Ht H0 Hu Hv. unfold ecef_to_geocentric_ferrari. rewrite f_e2.
  rewrite <- Hr, <- He. cbv zeta. rewrite <- Hg. rewrite <- Hc. rewrite <- Hs. rewrite <- Hp. rewrite <- Hq. rewrite <- Ht.
  replace (if negb (Rltb 0 t) then 0 else t) with (Rmax 0 t).
  2:{ unfold Rmax, Rltb. destruct (Rle_dec 0 t), (Rlt_dec 0 t); cbn [negb]; lra. }
  rewrite <- H0, <- Hu, <- Hv. reflexivity.
Qed.

(** Exact in the equatorial plane, outside the circle of radius e^2 a (43 km) around the centre. *)
Theorem C60_ferrari_equator x y : 43000 < sqrt (x * x + y * y) ->
  ecef_to_geocentric_ferrari x y 0 = mkV 0 (atan2 y x) (sqrt (x * x + y * y) - w84_a).
Proof.
  intros Hr. pose proof ab_pos as AB.
  assert (He : (1 - w84_b * w84_b / (w84_a * w84_a)) * w84_a < 43000).
  { apply Rmult_lt_reg_r with w84_a; [lra|]. replace ((1 - w84_b * w84_b / (w84_a * w84_a)) * w84_a * w84_a) with (w84_a * w84_a - w84_b * w84_b) by (field; lra).
    unfold w84_a, w84_b. lra. }
  set (e := 1 - w84_b * w84_b / (w84_a * w84_a)) in *. set (r := sqrt (x * x + y * y)) in *.
  rewrite (ferrari_by x y 0 r e (r * r - e * (w84_a * w84_a - w84_b * w84_b)) 0 1 0 1 (w84_a * w84_a) w84_a (r - e * w84_a) (r - e * w84_a)).
  - f_equal.
    + replace (w84_b * w84_b * 0 / (w84_a * (r - e * w84_a))) with 0 by (unfold Rdiv; ring). rewrite Rmult_0_r, Rplus_0_r.
      unfold atan2. rewrite (proj2 (Rltb_true 0 r)) by lra. unfold Rdiv. rewrite Rmult_0_l. apply atan_0.
    + replace ((r - e * w84_a) * (1 - w84_b * w84_b / (w84_a * (r - e * w84_a)))) with (r - e * w84_a - w84_b * w84_b / w84_a) by (field; lra).
      unfold e. field. lra.
  - reflexivity.
  - reflexivity.
  - ring.
  - unfold Rdiv. ring.
  - replace (1 + 0 + (0 ^ 2 + 2 * 0)) with 1 by ring. rewrite Rpower_1_base. reflexivity.
  - unfold Rdiv. ring.
  - rewrite Rmult_0_r, Rplus_0_r, sqrt_1. reflexivity.
  - field.
  - rewrite Rmax_right by nra. rewrite sqrt_square by lra. field.
  - rewrite Rmult_0_r, Rplus_0_r. replace ((r - e * w84_a) ^ 2) with ((r - e * w84_a) * (r - e * w84_a)) by ring. rewrite sqrt_square; lra.
  - rewrite !Rmult_0_r, Rplus_0_r. replace ((r - e * w84_a) ^ 2) with ((r - e * w84_a) * (r - e * w84_a)) by ring. rewrite sqrt_square; lra.
Qed.

(** Exact on the polar axis, farther than 43 km from the centre. *)
Theorem C60_ferrari_poles z : 43000 < Rabs z ->
  ecef_to_geocentric_ferrari 0 0 z = mkV (if Rlt_dec 0 z then PI / 2 else - (PI / 2)) 0 (Rabs z - w84_b).
Proof.
  intros Hz. pose proof ab_pos as AB.
  assert (Q1 : w84_b * w84_b / (w84_a * w84_a) < 1).
  { apply Rmult_lt_reg_r with (w84_a * w84_a); [nra|]. field_simplify; [nra|lra]. }
  assert (Q0 : 0 < w84_b * w84_b / (w84_a * w84_a)) by (apply Rdiv_lt_0_compat; nra).
  remember (w84_b * w84_b / (w84_a * w84_a)) as k eqn:Hk.
  assert (Hb : w84_b * w84_b = k * (w84_a * w84_a)) by (rewrite Hk; field; lra).
  assert (zz : z * z = Rabs z * Rabs z) by (rewrite <- Rabs_mult; rewrite Rabs_pos_eq; nra).
  assert (Z2 : 43000 * 43000 < z * z) by (rewrite zz; nra).
  assert (G : 0 < k * (z * z) - (1 - k) * (1 - k) * (w84_a * w84_a)).
  { assert (0.99 < k). { rewrite Hk. apply Rmult_lt_reg_r with (w84_a * w84_a); [nra|]. replace (w84_b * w84_b / (w84_a * w84_a) * (w84_a * w84_a)) with (w84_b * w84_b) by (field; lra). unfold w84_a, w84_b; lra. }
    assert ((1 - k) * w84_a < 42698).
    { replace ((1 - k) * w84_a) with ((w84_a * w84_a - w84_b * w84_b) / w84_a) by (rewrite Hb; field; lra).
      apply Rmult_lt_reg_r with w84_a; [lra|]. replace ((w84_a * w84_a - w84_b * w84_b) / w84_a * w84_a) with (w84_a * w84_a - w84_b * w84_b) by (field; lra). unfold w84_a, w84_b; lra. }
    assert (0.9933 < k). { rewrite Hk. apply Rmult_lt_reg_r with (w84_a * w84_a); [nra|]. replace (w84_b * w84_b / (w84_a * w84_a) * (w84_a * w84_a)) with (w84_b * w84_b) by (field; lra). unfold w84_a, w84_b; lra. }
    assert (0 <= (1 - k) * w84_a) by nra.
    assert ((1 - k) * w84_a * ((1 - k) * w84_a) <= 42698 * 42698) by nra.
    replace ((1 - k) * (1 - k) * (w84_a * w84_a)) with ((1 - k) * w84_a * ((1 - k) * w84_a)) by ring.
    assert (0.9933 * (43000 * 43000) < k * (z * z)) by nra. lra. }
  set (A := w84_a * w84_a) in *. assert (Ap : 0 < A) by (unfold A; nra).
  set (g := k * (z * z) - (1 - k) * (1 - k) * A) in *.
  set (h := k * (z * z) + (1 - k) * (1 - k) * A).
  assert (Hh : 0 < h) by (assert (0 <= (1 - k) * (1 - k) * A) by (apply Rmult_le_pos; [apply Rle_0_sqr|lra]); unfold h, g in *; lra).
  assert (Hq : 0 < h / g) by (apply Rdiv_lt_0_compat; lra).
  assert (HG : h + g = 2 * (k * (z * z))) by (unfold h, g; ring).
  assert (BA : 0 < w84_b / w84_a) by (apply Rdiv_lt_0_compat; lra).
  rewrite (ferrari_by 0 0 z 0 (1 - k) g 0 1 (2 * (k * A) * (z * z) / (g * g)) (h / g) 0 0 (Rabs z) (w84_b / w84_a * Rabs z)).
  - f_equal.
    + fold A. rewrite Hb.
      assert (EP : 0 <= sqrt (A / (k * A) - 1) * sqrt (A / (k * A) - 1)) by (apply Rle_0_sqr).
      set (ep2 := sqrt (A / (k * A) - 1) * sqrt (A / (k * A) - 1)) in *. clearbody ep2.
      set (d := w84_a * (w84_b / w84_a * Rabs z)). assert (Hd : 0 < d) by (unfold d; apply Rmult_lt_0_compat; [lra|apply Rmult_lt_0_compat; lra]).
      assert (P : 0 < ep2 * (k * A / d) + 1). { assert (0 < k * A / d) by (apply Rdiv_lt_0_compat; [apply Rmult_lt_0_compat; lra|lra]). assert (0 <= ep2 * (k * A / d)) by (apply Rmult_le_pos; lra). lra. }
      replace (z + ep2 * (k * A * z / d)) with (z * (ep2 * (k * A / d) + 1)) by (field; lra).
      unfold atan2. rewrite (proj2 (Rltb_false 0 0)) by lra.
      destruct (Rlt_dec 0 z) as [L|L].
      * rewrite (proj2 (Rltb_true _ _)) by nra. reflexivity.
      * assert (z < 0) by (destruct (Req_dec z 0) as [->|]; [rewrite Rabs_R0 in Hz; lra|lra]).
        rewrite (proj2 (Rltb_false _ _)) by nra. rewrite (proj2 (Rltb_true _ _)) by nra. reflexivity.
    + apply atan2_0_0.
    + field. lra.
  - rewrite Rmult_0_l, Rplus_0_l, sqrt_0. reflexivity.
  - fold A. rewrite Hk. reflexivity.
  - fold A. rewrite Hb. unfold g. ring.
  - rewrite !Rmult_0_r. unfold Rdiv. ring.
  - replace (1 + 0 + (0 ^ 2 + 2 * 0)) with 1 by ring. rewrite Rpower_1_base. reflexivity.
  - rewrite Hb. field. lra.
  - replace (1 + 2 * (1 - k) ^ 2 * (2 * (k * A) * (z * z) / (g * g))) with ((h / g) * (h / g)); [rewrite sqrt_square; lra|].
    apply Rmult_eq_reg_r with (g * g); [|nra]. replace (h / g * (h / g) * (g * g)) with (h * h) by (field; lra).
    replace ((1 + 2 * (1 - k) ^ 2 * (2 * (k * A) * (z * z) / (g * g))) * (g * g)) with (g * g + 4 * (1 - k) ^ 2 * (k * A) * (z * z)) by (field; lra).
    unfold h, g. ring.
  - fold A. apply Rmult_eq_reg_r with (h * (h + g)); [|nra]. rewrite Rmult_0_l.
    transitivity (1 / 2 * A * (h + g) * (h + g) - 2 * (k * A) * (z * z) * k * (z * z)); [rewrite HG; field|field; repeat split; lra].
  - rewrite Rmax_right by lra. rewrite sqrt_0, Rmult_0_r. unfold Rdiv. ring.
  - replace ((0 - (1 - k) * 0) ^ 2 + z * z) with (Rabs z * Rabs z) by (rewrite <- zz; ring). rewrite sqrt_square; lra.
  - replace ((0 - (1 - k) * 0) ^ 2 + (1 - (1 - k)) * (z * z)) with ((w84_b / w84_a * Rabs z) * (w84_b / w84_a * Rabs z)).
    + rewrite sqrt_square; [reflexivity|apply Rmult_le_pos; lra].
    + replace (w84_b / w84_a * Rabs z * (w84_b / w84_a * Rabs z)) with (k * (Rabs z * Rabs z)) by (rewrite Hk; unfold A; field; lra). rewrite <- zz. ring.
Qed.

Lemma e_bounds : 0.00669438000 < 1 - w84_b * w84_b / (w84_a * w84_a) < 0.00669438001.
Proof.
  pose proof ab_pos as AB. assert (P : 0 < w84_a * w84_a) by (apply Rmult_lt_0_compat; lra).
  split; apply Rmult_lt_reg_r with (w84_a * w84_a); auto;
    replace ((1 - w84_b * w84_b / (w84_a * w84_a)) * (w84_a * w84_a)) with (w84_a * w84_a - w84_b * w84_b) by (field; lra);
    unfold w84_a, w84_b; lra.
Qed.

(** the bad intermediate value: r0 comes out too small halfway between equator and pole *)
Lemma ferrari_core e pp q : 0.00669438000 < e < 0.00669438001 -> 0 <= pp ->
  1.00004485 <= pp -> q = sqrt (1 + 2 * e ^ 2 * pp) ->
  1 / 2 * (1 + 1 / q) - pp * (1 - e) * ((1 - e) / 2) / (q * (1 + q)) - 1 / 2 * pp * (1 / 2)
  < 1 / 2 * ((1 + pp * e / (1 + q)) * (1 + pp * e / (1 + q))).
Proof.
  intros He Hp0 Hp Hq.
  assert (E2 : 0 < e ^ 2) by (apply pow_lt; lra).
  assert (Q2 : q * q = 1 + 2 * e ^ 2 * pp) by (rewrite Hq; apply sqrt_sqrt; nra).
  assert (Q0 : 0 <= q) by (rewrite Hq; apply sqrt_pos).
  set (d := q - 1). assert (Dq : q = 1 + d) by (unfold d; ring).
  assert (DD : d * (2 + d) = 2 * e ^ 2 * pp) by (unfold d; lra).
  assert (0.0000448147 < e ^ 2 < 0.0000448148) by (split; nra).
  assert (D1 : 0.000044814 <= d).
  { assert (0.000044814 * (2 + 0.000044814) <= d * (2 + d)) by (rewrite DD; nra).
    apply Rnot_lt_le. intros C. assert (0 <= 1 + d) by lra. nra. }
  assert (Hpp : pp = d * (2 + d) / (2 * e ^ 2)) by (rewrite DD; field; lra).
  rewrite Dq, Hpp. clear Hq Q2 Q0 Hp Hp0 Hpp DD Dq. clearbody d.
  assert (P1 : 0 < 1 + d) by lra. assert (P2 : 0 < 8 * e ^ 2 * (1 + d)) by (apply Rmult_lt_0_compat; lra).
  apply Rmult_lt_reg_r with (8 * e ^ 2 * (1 + d)); auto.
  apply Rle_lt_trans with (4 * e ^ 2 * (2 + d) - 2 * d * ((1 - e) * (1 - e)) - d * (2 + d) * (1 + d)).
  { right. field. split; [lra|lra]. }
  apply Rlt_le_trans with ((1 + d) * ((2 * e + d) * (2 * e + d))).
  2:{ right. field. split; lra. }
  assert (A1 : 0.98665 < (1 - e) * (1 - e)) by nra.
  assert (DDp : 0.000044814 * 0.000044814 <= d * d) by nra.
  assert (0 <= d * d * d) by (apply Rmult_le_pos; nra).
  assert (DE : 0.026777 * d <= 4 * e * d) by nra.
  assert (DK : 0.98665 * d <= d * ((1 - e) * (1 - e))) by nra.
  assert (DDE : 0 <= e * (d * d)) by (apply Rmult_le_pos; lra).
  replace (d * (2 + d) * (1 + d)) with (2 * d + 3 * (d * d) + d * d * d) by ring.
  replace ((1 + d) * ((2 * e + d) * (2 * e + d)))
    with (4 * e ^ 2 + 4 * e ^ 2 * d + 4 * e * d + 4 * (e * (d * d)) + d * d + d * d * d) by ring.
  lra.
Qed.

(** Elsewhere the closed form is wrong (the square root in Ferrari's s is missing): a point of the
    reference ellipsoid itself, 45 degrees from equator and pole, is given a positive altitude. *)
Theorem C60_ferrari_refuted : exists x y z,
  (x * x + y * y) / (w84_a * w84_a) + z * z / (w84_b * w84_b) = 1 /\
  0 < vz (ecef_to_geocentric_ferrari x y z).
Proof.
  pose proof ab_pos as AB. pose proof e_bounds as EB.
  assert (S2 : 0 < sqrt (1 / 2)) by (apply sqrt_lt_R0; lra).
  pose proof (sqrt_sqrt (1 / 2) ltac:(lra)) as SS. set (h := sqrt (1 / 2)) in *. clearbody h.
  exists (w84_a * h), 0, (w84_b * h).
  split. { transitivity (h * h + h * h); [field; lra|lra]. }
  remember (1 - w84_b * w84_b / (w84_a * w84_a)) as e eqn:He.
  assert (Hb : w84_b * w84_b = (1 - e) * (w84_a * w84_a)) by (rewrite He; field; lra).
  set (A := w84_a * w84_a) in *. assert (Ap : 0 < A) by (unfold A; apply Rmult_lt_0_compat; lra).
  assert (Z2 : w84_b * h * (w84_b * h) = (1 - e) * A / 2) by (transitivity ((w84_b * w84_b) * (h * h)); [ring|rewrite Hb, SS; field]).
  assert (R2 : w84_a * h * (w84_a * h) = A / 2) by (transitivity (A * (h * h)); [unfold A; ring|rewrite SS; field]).
  set (G := 1 / 2 + (1 - e) * (1 - e) / 2 - e * e).
  assert (GB : 0.99328 < G < 0.99329) by (unfold G; split; nra).
  set (c := 27 / 2 * (e * e) * ((1 - e) * (1 - e)) / (G * G * G)).
  assert (CB : 0 < c < 0.00061).
  { assert (0.9799 < G * G * G) by (assert (0.9866 < G * G) by nra; nra).
    assert (N : 0 < 27 / 2 * (e * e) * ((1 - e) * (1 - e)) < 0.000597).
    { assert (0 < e * e < 0.0000448148) by (split; nra). assert (0.98 < (1 - e) * (1 - e) < 0.98666) by (split; nra). split; [repeat apply Rmult_lt_0_compat; lra|nra]. }
    unfold c. split; [apply Rdiv_lt_0_compat; lra|].
    apply Rmult_lt_reg_r with (G * G * G); [lra|]. unfold Rdiv. rewrite Rmult_assoc, Rinv_l by lra. lra. }
  set (s := Rpower (1 + c + (c ^ 2 + 2 * c)) (1 / 3)).
  assert (Sp : 0 < s) by (unfold s, Rpower; apply exp_pos).
  assert (S3 : s * s * s = 1 + 3 * c + c * c).
  { replace (s * s * s) with (Rpower (1 + c + (c ^ 2 + 2 * c)) 1).
    - rewrite Rpower_1; [ring|nra].
    - unfold s. rewrite <- !Rpower_plus. f_equal. field. }
  assert (SB : 1 <= s <= 1.000611).
  { split; apply Rnot_lt_le; intros C; [assert (s * s * s < 1) by (assert (s * s < 1) by nra; nra); nra|].
    assert (1.000611 * 1.000611 * 1.000611 < s * s * s) by (assert (1.000611 * 1.000611 < s * s) by nra; nra).
    nra. }
  assert (KB : 3 <= s + 1 / s + 1 <= 3 + 4 / 10 ^ 7).
  { assert (KE : s + 1 / s + 1 = 3 + (s - 1) * (s - 1) / s) by (field; lra). rewrite KE.
    assert (0 <= (s - 1) * (s - 1) <= 3.8 / 10 ^ 7) by (split; nra).
    assert (0 <= (s - 1) * (s - 1) / s).
    { apply Rmult_le_pos; [lra|]. apply Rlt_le, Rinv_0_lt_compat. lra. }
    assert ((s - 1) * (s - 1) / s <= (s - 1) * (s - 1)).
    { apply Rmult_le_reg_r with s; [lra|]. unfold Rdiv. rewrite Rmult_assoc, Rinv_l by lra. nra. }
    lra. }
  set (K := s + 1 / s + 1) in *.
  set (pp := 9 * ((1 - e) * (1 - e)) / (K * K * (G * G))).
  assert (PB : 1.00004485 <= pp).
  { assert (K * K <= (3 + 4 / 10 ^ 7) * (3 + 4 / 10 ^ 7)) by nra. assert (9 <= K * K) by nra.
    assert (GG : G <= 0.99328321266) by (unfold G; nra).
    assert (G * G <= 0.99328321266 * 0.99328321266) by nra. assert (0.98 < G * G) by nra.
    assert (K * K * (G * G) <= (3 + 4 / 10 ^ 7) * (3 + 4 / 10 ^ 7) * (0.99328321266 * 0.99328321266)) by (apply Rmult_le_compat; lra).
    assert (0.9866560537 <= (1 - e) * (1 - e)) by nra.
    assert (0 < K * K * (G * G)) by (apply Rmult_lt_0_compat; lra).
    unfold pp. apply Rmult_le_reg_r with (K * K * (G * G)); [auto|].
    replace (9 * ((1 - e) * (1 - e)) / (K * K * (G * G)) * (K * K * (G * G))) with (9 * ((1 - e) * (1 - e))) by (field; split; lra). lra. }
  set (q := sqrt (1 + 2 * e ^ 2 * pp)).
  pose proof (ferrari_core e pp q EB ltac:(lra) PB eq_refl) as FC.
  assert (Qp : 0 < q) by (unfold q; apply sqrt_lt_R0; assert (0 <= e ^ 2) by (apply pow2_ge_0); nra).
  set (T := 1 / 2 * (1 + 1 / q) - pp * (1 - e) * ((1 - e) / 2) / (q * (1 + q)) - 1 / 2 * pp * (1 / 2)) in *.
  set (r := w84_a * h). assert (Rp : 0 < r) by (unfold r; apply Rmult_lt_0_compat; lra).
  set (m := 1 + pp * e / (1 + q)) in *.
  assert (Mp : 1 < m). { assert (0 < pp * e / (1 + q)) by (apply Rdiv_lt_0_compat; [apply Rmult_lt_0_compat; lra|lra]). unfold m. lra. }
  assert (RT : sqrt (Rmax 0 (A * T)) < r * m).
  { rewrite <- (sqrt_square (r * m)) by (apply Rmult_le_pos; lra). apply sqrt_lt_1_alt.
    replace (r * m * (r * m)) with (A * (1 / 2 * (m * m))) by (transitivity ((r * r) * (m * m)); [unfold r; rewrite R2; field|ring]).
    split; [apply Rmax_l|]. unfold Rmax. destruct (Rle_dec 0 (A * T)); [apply Rmult_lt_compat_l; auto|].
    apply Rmult_lt_0_compat; nra. }
  set (r0 := - pp * e * r / (1 + q) + sqrt (Rmax 0 (A * T))).
  assert (R0 : r0 < r).
  { unfold r0. replace (- pp * e * r / (1 + q)) with (r - r * m) by (unfold m; field; lra). lra. }
  rewrite (ferrari_by r 0 (w84_b * h) r e (A * G) c s pp q (A * T) r0
     (sqrt ((r - e * r0) ^ 2 + w84_b * h * (w84_b * h))) (sqrt ((r - e * r0) ^ 2 + (1 - e) * (w84_b * h * (w84_b * h))))); try reflexivity.
  - cbn [vz].
    set (v := sqrt ((r - e * r0) ^ 2 + (1 - e) * (w84_b * h * (w84_b * h)))).
    assert (Rk : r * (1 - e) < r - e * r0) by nra. assert (0 < r * (1 - e)) by (apply Rmult_lt_0_compat; lra).
    assert (VB : (1 - e) * w84_a < v).
    { unfold v. rewrite <- (sqrt_square ((1 - e) * w84_a)) by (apply Rmult_le_pos; lra). apply sqrt_lt_1_alt. split; [nra|].
      rewrite Z2. replace ((1 - e) * w84_a * ((1 - e) * w84_a)) with ((r * (1 - e)) ^ 2 + (1 - e) * ((1 - e) * A / 2)).
      - assert ((r * (1 - e)) ^ 2 < (r - e * r0) ^ 2) by (cbn [pow]; nra). lra.
      - transitivity ((r * r) * ((1 - e) * (1 - e)) + (1 - e) * ((1 - e) * A / 2)); [ring|]. unfold r. rewrite R2. unfold A. field. }
    assert (Vp : 0 < v) by nra.
    apply Rmult_lt_0_compat.
    + apply sqrt_lt_R0. rewrite Z2. assert (0 <= (r - e * r0) ^ 2) by apply pow2_ge_0. assert (0 < (1 - e) * A / 2) by nra. lra.
    + assert (w84_b * w84_b / (w84_a * v) < 1); [|lra].
      assert (0 < w84_a * v) by (apply Rmult_lt_0_compat; lra).
      apply Rmult_lt_reg_r with (w84_a * v); [auto|]. unfold Rdiv. rewrite Rmult_assoc, Rinv_l by lra. rewrite Hb. unfold A. nra.
  - unfold r. rewrite Rmult_0_r, Rplus_0_r. rewrite sqrt_square; [reflexivity|fold r; lra].
  - exact He.
  - rewrite Z2. unfold r. rewrite R2. fold A. rewrite Hb. unfold G. field.
  - rewrite Z2, Hb. unfold r. rewrite R2. unfold c. field. split; lra.
  - rewrite Z2, Hb. fold K. unfold pp. field. repeat split; lra.
  - rewrite Z2. unfold r. rewrite R2. fold A. unfold T. field. lra.
Qed.

Example C60_nontrivial :
  (- (PI / 2) < PI / 4 < PI / 2) /\ (- PI < 1 <= PI) /\ (-6000000 <= 8848) /\
  335000 * 335000 <= 4000000 * 4000000 + 3000000 * 3000000 + 4000000 * 4000000 /\
  43000 < sqrt (7000000 * 7000000 + 0 * 0) /\ 43000 < Rabs (-6400000).
Proof.
  pose proof PI2_1 as P. unfold PI2 in P. repeat split; try lra.
  - rewrite Rmult_0_r, Rplus_0_r, sqrt_square; lra.
  - rewrite Rabs_left; lra.
Qed.
