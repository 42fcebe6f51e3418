(** C133: geodetic positions in floating point.  C134: attitudes from angles in floating point. *)
From Coq Require Import ZArith QArith Qreals Reals Lra Lia Bool Arith List Psatz.
From Verif Require Import Scalar RSum LinModel LinSpec LinProofs Trig Geo3 AttModel AttProofs Wgs84Model OptSpec OptProps QuatFloatModel GeoFloatModel.
From Flocq Require Import Core BinarySingleNaN.
From Verif Require Import FloatModel RoundProps StatsFloatProps InterpFloatProps DcmRoundProps Apx.
Import ListNotations.
Local Open Scope R_scope.

(** ** Specification *)
(** the sine and cosine of the scalar type are within [s] of the real ones at every finite argument *)
Definition accurate {prec emax} (t : trig (binary_float prec emax)) (s : R) : Prop := forall x, is_finite x = true ->
  apx (sinf t x) (sin (B2R x)) s /\ apx (cosf t x) (cos (B2R x)) s.

(** the model is the code of [Wgs84Model] and [AttModel] *)
Definition Rtrig : trig R := mkTrig sin cos.
Theorem C133_same_code : forall lat lon alt,
  g_geocentric_to_ecef Rops Rtrig lat lon alt =
  let p := geocentric_to_ecef lat lon alt in mkGV (vx p) (vy p) (vz p).
Proof.
  intros. unfold g_geocentric_to_ecef, geocentric_to_ecef, g_a, g_e2. cbn [Rops add sub mul div sqrtf one lit Rtrig sinf cosf vx vy vz].
  replace (Q2R 6378137) with w84_a by (unfold Q2R, w84_a; cbn; lra).
  replace (Q2R (6694379990141 # 1000000000000000)) with w84_e2 by (unfold Q2R, w84_e2; cbn; lra). reflexivity.
Qed.
Definition same3 (A B : nat -> nat -> R) : Prop := forall i j, (i < 3)%nat -> (j < 3)%nat -> A i j = B i j.
Ltac three := intros i j Hi Hj; destruct i as [|[|[|i]]]; try lia; destruct j as [|[|[|j]]]; try lia; clear Hi Hj.
Lemma same_x a : same3 (g_rotate_x Rops Rtrig a) (mfun (rotate_x a)). Proof. three; reflexivity. Qed.
Lemma same_y a : same3 (g_rotate_y Rops Rtrig a) (mfun (rotate_y a)). Proof. three; reflexivity. Qed.
Lemma same_z a : same3 (g_rotate_z Rops Rtrig a) (mfun (rotate_z a)). Proof. three; reflexivity. Qed.
Lemma same_itrf time w : same3 (g_icrf_to_itrf Rops Rtrig time (vz w)) (mfun (icrf_to_itrf time w)). Proof. three; reflexivity. Qed.
Lemma same_icrf time w : same3 (g_itrf_to_icrf Rops Rtrig time (vz w)) (mfun (itrf_to_icrf time w)). Proof. three; reflexivity. Qed.
Lemma product_Mul A B : same3 (product 3 (mfun A) (mfun B)) (mfun (Mul A B)).
Proof. three; unfold product; cbn [sum mfun Mul m00 m01 m02 m10 m11 m12 m20 m21 m22]; ring. Qed.
Lemma same_product A B A' B' : same3 A (mfun A') -> same3 B (mfun B') -> same3 (mul_small Rops 3 3 3 A B) (mfun (Mul A' B')).
Proof.
  intros HA HB i j Hi Hj. rewrite (mul_small_spec Rops 3 3 3 A B i j Hi Hj). rewrite <- (product_Mul A' B' i j Hi Hj). unfold product. cbn [sum].
  rewrite <- !HA, <- !HB by lia. cbn. reflexivity.
Qed.
Lemma same_euler a b c : same3 (g_dcm_of_euler Rops Rtrig a b c) (mfun (dcm_of_euler (mkV a b c))).
Proof.
  unfold g_dcm_of_euler, dcm_of_euler. rewrite !dcm_mul_eq. apply same_product; [|apply same_z]. apply same_product; [apply same_x|apply same_y].
Qed.
Theorem C134_same_code : forall a b c time w,
  same3 (g_dcm_of_euler Rops Rtrig a b c) (mfun (dcm_of_euler (mkV a b c))) /\
  same3 (g_icrf_to_itrf Rops Rtrig time (vz w)) (mfun (icrf_to_itrf time w)) /\
  same3 (g_itrf_to_icrf Rops Rtrig time (vz w)) (mfun (itrf_to_icrf time w)) /\
  g_quat_of_euler Rops Rtrig a b c = let q := quat_of_euler (mkV a b c) in mkG (qw q) (qi q) (qj q) (qk q).
Proof. intros. split; [apply same_euler|]. split; [apply same_itrf|]. split; [apply same_icrf|reflexivity]. Qed.

Section Width.
Context (prec emax : Z) {P : Prec_gt_0 prec} {M : Prec_lt_emax prec emax}.
Context (Hp : (24 <= prec)%Z) (He : (64 <= emax)%Z).
Local Notation fl := (binary_float prec emax).
Local Notation u := (unit prec).
Local Notation eta := (tiny prec emax).
Local Notation o := (float_ops prec emax).

Lemma u24 : u <= / 16777216.
Proof. unfold unit. replace (/ 16777216) with (bpow radix2 (-24)) by (cbn; lra). apply bpow_le. lia. Qed.
Lemma eta_u : eta <= / 10 ^ 9 * u.
Proof.
  unfold tiny, unit. replace (3 - emax - prec)%Z with ((3 - emax) + - prec)%Z by lia. rewrite bpow_plus.
  assert (B : bpow radix2 (3 - emax) <= bpow radix2 (-61)) by (apply bpow_le; lia).
  assert (C : bpow radix2 (-61) <= / 10 ^ 9) by (cbn; lra). pose proof (bpow_gt_0 radix2 (-prec)). nra.
Qed.
Lemma largest63 : 9 * 10 ^ 18 <= largest prec emax.
Proof.
  unfold largest. assert (B : bpow radix2 (emax - prec) <= bpow radix2 (emax - 1)) by (apply bpow_le; lia).
  assert (C : bpow radix2 emax = 2 * bpow radix2 (emax - 1)) by (replace emax with (1 + (emax - 1))%Z at 1 by lia; rewrite bpow_plus; reflexivity).
  assert (D : bpow radix2 63 <= bpow radix2 (emax - 1)) by (apply bpow_le; lia). assert (E : bpow radix2 63 = 9223372036854775808) by (cbn; lra). lra.
Qed.
Lemma int_exact z : (Z.abs z <= 2 ^ 23)%Z -> apx (binary_normalize prec emax P M mode_NE z 0 false) (IZR z) 0.
Proof.
  intros L. pose proof largest63 as G. pose proof (binary_normalize_correct prec emax P M mode_NE z 0 false) as C. cbv zeta in C. cbn [round_mode] in C.
  assert (Lz : Rabs (IZR z) <= 8388608) by (rewrite <- abs_IZR; apply IZR_le; exact L).
  assert (E : F2R (Float radix2 z 0) = IZR z) by (unfold F2R; cbn [Fnum Fexp]; cbn; ring). rewrite E in C. rewrite (no_over prec emax) in C by lra.
  destruct C as (C & F & _). split; [exact F|]. rewrite C. rewrite round_generic; [rewrite Rminus_diag_eq, Rabs_R0 by reflexivity; lra|apply valid_rnd_N|].
  rewrite <- E. apply generic_format_FLT. eapply (FLT_spec radix2 (3 - emax - prec) prec _ (Float radix2 z 0)); cbn [Fnum Fexp]; [reflexivity| |unfold Prec_gt_0, Prec_lt_emax in *; lia].
  apply Z.le_lt_trans with (1 := L). change (radix2 ^ prec)%Z with (2 ^ prec)%Z. apply Z.pow_lt_mono_r; lia.
Qed.
Lemma one_apx : apx (one o : fl) 1 0.
Proof. split; [apply is_finite_Bone|]. cbn [one float_ops]. rewrite Bone_correct. rewrite Rminus_diag_eq, Rabs_R0 by reflexivity. lra. Qed.
Lemma a_apx : apx (g_a o : fl) w84_a 0.
Proof.
  unfold g_a. cbn [lit float_ops Qnum Qden]. pose proof (int_exact 6378137 ltac:(lia)) as [Fa Va]. pose proof (int_exact 1 ltac:(lia)) as [_ V1].
  pose proof largest63 as G.
  assert (Ea : B2R (binary_normalize prec emax P M mode_NE 6378137 0 false) = 6378137) by (apply Rabs_le_inv in Va; lra).
  assert (E1 : B2R (binary_normalize prec emax P M mode_NE 1 0 false) = 1) by (apply Rabs_le_inv in V1; lra).
  set (na := binary_normalize prec emax P M mode_NE 6378137 0 false) in *. set (n1 := binary_normalize prec emax P M mode_NE 1 0 false) in *.
  assert (F : is_finite (div o na n1) = true).
  { apply (div_ok prec emax); [rewrite E1; lra|exact Fa|]. rewrite Ea, E1. rewrite Rabs_pos_eq; lra. }
  split; [exact F|]. destruct (StatsFloatProps.div_fin prec emax na n1 ltac:(rewrite E1; lra) F) as (_ & V). cbn [div float_ops] in V. rewrite V.
  rewrite E1. replace (B2R na / 1) with (B2R na) by lra. rewrite (rd_id prec emax). rewrite Ea. unfold w84_a. rewrite Rminus_diag_eq, Rabs_R0 by reflexivity. lra.
Qed.
Lemma e2_apx : apx (g_e2 o : fl) w84_e2 (204 / 10000 * u).
Proof.
  pose proof (u_pos prec) as Pu. pose proof u24 as U. pose proof eta_u as Eu. pose proof (eta_pos prec emax) as Pe. pose proof largest63 as G.
  assert (UU : u * u <= / 16777216 * u) by (apply Rmult_le_compat_r; lra).
  unfold g_e2. cbn [lit float_ops Qnum Qden].
  pose proof (apx_int prec emax 6694379990141 ltac:(rewrite Rabs_pos_eq; lra)) as A. pose proof (apx_int prec emax 1000000000000000 ltac:(rewrite Rabs_pos_eq; lra)) as B.
  rewrite Rabs_pos_eq in A, B by lra.
  assert (K : apx (div o (binary_normalize prec emax P M mode_NE 6694379990141 0 false) (binary_normalize prec emax P M mode_NE 1000000000000000 0 false)) (6694379990141 / 1000000000000000) (204 / 10000 * u)).
  { eapply apx_weak; [eapply (apx_div prec emax) with (m := 1000000000000000) (b := 66944 / 10000000) (ex := 6694379990142 * u) (ey := 1000000000000001 * u)|].
    - eapply apx_weak; [exact A|lra].
    - eapply apx_weak; [exact B|lra].
    - lra.
    - rewrite Rabs_pos_eq; lra.
    - rewrite Rabs_pos_eq; lra.
    - apply Rle_trans with (1 + 1); [|lra]. apply Rplus_le_compat; [lra|]. apply (Rmult_le_reg_r (1000000000000000 - 1000000000000001 * u)); [lra|]. unfold Rdiv. rewrite Rmult_assoc, Rinv_l by lra. lra.
    - assert (Q : (6694379990142 * u + 66944 / 10000000 * (1000000000000001 * u)) / (1000000000000000 - 1000000000000001 * u) <= 134 / 10000 * u).
      { apply (Rmult_le_reg_r (1000000000000000 - 1000000000000001 * u)); [lra|]. unfold Rdiv at 1. rewrite Rmult_assoc, Rinv_l by lra. nra. }
      assert (Q' := Q). apply (Rmult_le_compat_l u) in Q'; lra. }
  cbn [div float_ops] in K. replace w84_e2 with (6694379990141 / 1000000000000000) by (unfold w84_e2; lra). exact K.
Qed.

Lemma sin1 x : Rabs (sin x) <= 1. Proof. apply Rabs_le, SIN_bound. Qed.
Lemma cos1 x : Rabs (cos x) <= 1. Proof. apply Rabs_le, COS_bound. Qed.
Lemma prod1 x y b c : Rabs x <= b -> Rabs y <= c -> Rabs (x * y) <= b * c.
Proof. intros. rewrite Rabs_mult. apply Rmult_le_compat; try apply Rabs_pos; assumption. Qed.

Theorem C133_position : forall (t : trig fl) (lat lon alt : fl), accurate t (2 * u) ->
  is_finite lat = true -> is_finite lon = true -> is_finite alt = true -> Rabs (B2R alt) <= 10 ^ 12 ->
  let p := g_geocentric_to_ecef o t lat lon alt in let q := geocentric_to_ecef (B2R lat) (B2R lon) (B2R alt) in
  let e := 11 * (6400000 + Rabs (B2R alt)) * u in
  apx (gx p) (vx q) e /\ apx (gy p) (vy q) e /\ apx (gz p) (vz q) e.
Proof.
  intros t lat lon alt T Fa Fo Fh Bh p q e.
  pose proof (u_pos prec) as Pu. pose proof u24 as U. pose proof eta_u as Eu. pose proof (eta_pos prec emax) as Pe. pose proof largest63 as G.
  assert (UU : 0 <= u * u <= / 16777216 * u) by (split; [apply Rmult_le_pos; lra|apply Rmult_le_compat_r; lra]).
  assert (UUU : u * u * u <= / 16777216 * (u * u)) by (rewrite Rmult_comm; apply Rmult_le_compat_r; lra).
  destruct (T lat Fa) as [Sa Ca]. destruct (T lon Fo) as [So Co].
  pose proof (sin1 (B2R lat)) as Bsa. pose proof (cos1 (B2R lat)) as Bca. pose proof (sin1 (B2R lon)) as Bso. pose proof (cos1 (B2R lon)) as Bco.
  unfold p, q, g_geocentric_to_ecef, geocentric_to_ecef. cbn [gx gy gz vx vy vz].
  set (sa := sinf t lat) in *. set (ca := cosf t lat) in *. set (so := sinf t lon) in *. set (co := cosf t lon) in *.
  set (s := sin (B2R lat)) in *. set (c := cos (B2R lat)) in *. set (s' := sin (B2R lon)) in *. set (c' := cos (B2R lon)) in *.
  pose proof e2_apx as E. pose proof one_apx as I. pose proof a_apx as A. pose proof (apx_exact prec emax alt Fh) as H.
  assert (BE : Rabs w84_e2 <= 67 / 10000) by (unfold w84_e2; rewrite Rabs_pos_eq; lra). assert (PE : 66 / 10000 <= w84_e2 <= 67 / 10000) by (unfold w84_e2; lra).
  assert (ss : 0 <= s * s <= 1) by (apply Rabs_le_inv in Bsa; split; nra).
  assert (K1 : apx (mul o (g_e2 o) sa) (w84_e2 * s) (41 / 1000 * u)).
  { eapply apx_weak; [apply (apx_mul prec emax) with (bx := 67 / 10000) (by_ := 1) (1 := E) (2 := Sa); [exact BE|exact Bsa|lra]|lra]. }
  assert (B1 : Rabs (w84_e2 * s) <= 67 / 10000) by (pose proof (prod1 _ _ _ _ BE Bsa); lra).
  assert (K2 : apx (mul o (mul o (g_e2 o) sa) sa) (w84_e2 * s * s) (62 / 1000 * u)).
  { eapply apx_weak; [apply (apx_mul prec emax) with (bx := 67 / 10000) (by_ := 1) (1 := K1) (2 := Sa); [exact B1|exact Bsa|lra]|lra]. }
  assert (PD : 9933 / 10000 <= 1 - w84_e2 * s * s <= 1) by nra.
  assert (K3 : apx (sub o (one o) (mul o (mul o (g_e2 o) sa) sa)) (1 - w84_e2 * s * s) (1063 / 1000 * u)).
  { eapply apx_weak; [apply (apx_sub prec emax) with (b := 1) (1 := I) (2 := K2); [rewrite Rabs_pos_eq; lra|lra]|lra]. }
  assert (SD : 9966 / 10000 <= sqrt (1 - w84_e2 * s * s) <= 1).
  { split; [|rewrite <- sqrt_1 at 2; apply sqrt_le_1_alt; lra]. rewrite <- (sqrt_square (9966 / 10000)) by lra. apply sqrt_le_1_alt. lra. }
  assert (K4 : apx (sqrtf o (sub o (one o) (mul o (mul o (g_e2 o) sa) sa))) (sqrt (1 - w84_e2 * s * s)) (207 / 100 * u)).
  { eapply apx_weak; [apply (apx_sqrt prec emax) with (s := 9966 / 10000) (b := 1) (1 := K3); lra|]. 
    replace (1063 / 1000 * u / (9966 / 10000)) with (10630 / 9966 * u) by lra. lra. }
  set (n := div o (g_a o) (sqrtf o (sub o (one o) (mul o (mul o (g_e2 o) sa) sa)))) in *.
  set (N := w84_a / sqrt (1 - w84_e2 * s * s)).
  assert (BN : 0 < N <= 6400000).
  { unfold N, Rdiv, w84_a. split; [apply Rmult_lt_0_compat; [lra|apply Rinv_0_lt_compat; lra]|]. apply (Rmult_le_reg_r (sqrt (1 - w84_e2 * s * s))); [lra|]. rewrite Rmult_assoc, Rinv_l by lra. lra. }
  assert (AN : Rabs N <= 6400000) by (rewrite Rabs_pos_eq; lra).
  assert (K5 : apx n N (309 / 100 * 6400000 * u)).
  { assert (Q : (0 + 6400000 * (207 / 100 * u)) / (9966 / 10000 - 207 / 100 * u) <= 2081 / 1000 * 6400000 * u).
    { apply (Rmult_le_reg_r (9966 / 10000 - 207 / 100 * u)); [lra|]. unfold Rdiv at 1. rewrite Rmult_assoc, Rinv_l by lra. lra. }
    assert (Q' := Q). apply (Rmult_le_compat_l u) in Q'; [|lra].
    eapply apx_weak; [apply (apx_div prec emax) with (m := 9966 / 10000) (b := 6400000) (1 := A) (2 := K4)|].
    - lra.
    - rewrite Rabs_pos_eq; lra.
    - exact AN.
    - lra.
    - lra. }
  clear K1 K2 K3 K4. clearbody n N. set (h := B2R alt) in *. pose proof (Rabs_pos h) as Ph.
  set (W := 6400000 + Rabs h) in *. assert (PW : 6400000 <= W <= 2 * 10 ^ 12) by (unfold W; lra).
  assert (WU : 6400000 * u <= W * u) by (apply Rmult_le_compat_r; lra). assert (PWU : 0 <= W * u) by (apply Rmult_le_pos; lra).
  assert (WUU : 0 <= W * u * u <= / 16777216 * (W * u)) by (split; [apply Rmult_le_pos; lra|rewrite Rmult_comm; apply Rmult_le_compat_r; lra]).
  assert (WUUU : W * u * u * u <= / 16777216 * (W * u * u)) by (rewrite Rmult_comm; apply Rmult_le_compat_r; lra).
  assert (WUL : W * u <= 2 * 10 ^ 12 * u) by (apply Rmult_le_compat_r; lra).
  assert (BH : Rabs (N + h) <= W) by (unfold W; eapply Rle_trans; [apply Rabs_triang|]; lra).
  assert (K6 : apx (add o n alt) (N + h) (4095 / 1000 * (W * u))).
  { eapply apx_weak; [apply (apx_add prec emax) with (b := W) (1 := K5) (2 := H); [exact BH|lra]|lra]. }
  assert (K7 : apx (mul o (add o n alt) ca) ((N + h) * c) (71 / 10 * (W * u))).
  { eapply apx_weak; [apply (apx_mul prec emax) with (bx := W) (by_ := 1) (1 := K6) (2 := Ca); [exact BH|exact Bca|lra]|lra]. }
  assert (BC : Rabs ((N + h) * c) <= W) by (pose proof (prod1 _ _ _ _ BH Bca); lra).
  assert (K8 : apx (sub o (one o) (g_e2 o)) (1 - w84_e2) (1022 / 1000 * u)).
  { eapply apx_weak; [apply (apx_sub prec emax) with (b := 1) (1 := I) (2 := E); [rewrite Rabs_pos_eq; lra|lra]|lra]. }
  assert (B8 : Rabs (1 - w84_e2) <= 1) by (rewrite Rabs_pos_eq; lra).
  assert (K9 : apx (mul o n (sub o (one o) (g_e2 o))) (N * (1 - w84_e2)) (513 / 100 * 6400000 * u)).
  { eapply apx_weak; [apply (apx_mul prec emax) with (bx := 6400000) (by_ := 1) (1 := K5) (2 := K8); [exact AN|exact B8|lra]|lra]. }
  assert (B9 : Rabs (N * (1 - w84_e2) + h) <= W) by (unfold W; eapply Rle_trans; [apply Rabs_triang|]; pose proof (prod1 _ _ _ _ AN B8); lra).
  assert (K10 : apx (add o (mul o n (sub o (one o) (g_e2 o))) alt) (N * (1 - w84_e2) + h) (614 / 100 * (W * u))).
  { eapply apx_weak; [apply (apx_add prec emax) with (b := W) (1 := K9) (2 := H); [exact B9|lra]|lra]. }
  unfold e. split; [|split].
  - eapply apx_weak; [apply (apx_mul prec emax) with (bx := W) (by_ := 1) (1 := K7) (2 := Co); [exact BC|exact Bco|lra]|lra].
  - eapply apx_weak; [apply (apx_mul prec emax) with (bx := W) (by_ := 1) (1 := K7) (2 := So); [exact BC|exact Bso|lra]|lra].
  - eapply apx_weak; [apply (apx_mul prec emax) with (bx := W) (by_ := 1) (1 := K10) (2 := Sa); [exact B9|exact Bsa|lra]|lra].
Qed.
End Width.

Section Width.
Context (prec emax : Z) {P : Prec_gt_0 prec} {M : Prec_lt_emax prec emax}.
Local Notation fl := (binary_float prec emax).
Local Notation u := (unit prec).
Local Notation eta := (tiny prec emax).
Local Notation o := (float_ops prec emax).

(** two matrices whose entries differ in at most four places, by at most [s] there *)
Lemma gap3 A B s (k : nat -> nat -> R) : 0 <= s -> (forall i j, (i < 3)%nat -> (j < 3)%nat -> k i j = 0 \/ k i j = 1) ->
  sum 3 (fun i => sum 3 (k i)) <= 4 -> (forall i j, (i < 3)%nat -> (j < 3)%nat -> Rabs (A i j - B i j) <= s * k i j) -> gap 3 A B <= 2 * s.
Proof.
  intros Hs Hk S H. unfold gap. pose proof (size_pos 3 (fun i j => A i j - B i j)) as Z. pose proof (size_sq 3 (fun i j => A i j - B i j)) as Q.
  apply Rsqr_incr_0; [|exact Z|lra]. unfold Rsqr. rewrite Q. clear Q Z.
  apply Rle_trans with (sum 3 (fun i => sum 3 (fun j => s * s * k i j))).
  - apply sum_le. intros i Hi. apply sum_le. intros j Hj. specialize (H i j Hi Hj). set (d := A i j - B i j) in *. apply Rabs_le_inv in H.
    destruct (Hk i j Hi Hj) as [E | E]; rewrite E in *; nra.
  - rewrite (sum_ext 3 _ (fun i => s * s * sum 3 (k i))) by (intros; apply sum_scal). rewrite sum_scal. nra.
Qed.
Definition block (a : nat) : nat -> nat -> R := fun i j => if (i =? a)%nat || (j =? a)%nat then 0 else 1.
Lemma block_sum a : (a < 3)%nat -> sum 3 (fun i => sum 3 (block a i)) <= 4.
Proof. intros H. destruct a as [|[|[|a]]]; try lia; cbn; lra. Qed.
Lemma block_01 a i j : block a i j = 0 \/ block a i j = 1. Proof. unfold block. destruct (_ || _); auto. Qed.
Lemma gap_block a A B s : (a < 3)%nat -> 0 <= s -> (forall i j, (i < 3)%nat -> (j < 3)%nat -> Rabs (A i j - B i j) <= s * block a i j) -> gap 3 A B <= 2 * s.
Proof. intros Ha Hs H. apply (gap3 A B s (block a)); [exact Hs|intros; apply block_01|apply block_sum, Ha|exact H]. Qed.
Lemma zero_diff s : Rabs (B2R (zero o : fl) - 0) <= s * 0.
Proof. cbn. rewrite Rminus_diag_eq, Rabs_R0 by reflexivity. lra. Qed.
Lemma one_diff s : Rabs (B2R (one o : fl) - 1) <= s * 0.
Proof. cbn [one float_ops]. rewrite Bone_correct, Rminus_diag_eq, Rabs_R0 by reflexivity. lra. Qed.
Lemma zero_finite : is_finite (zero o : fl) = true. Proof. reflexivity. Qed.
Lemma one_finite : is_finite (one o : fl) = true. Proof. apply is_finite_Bone. Qed.

Lemma orthogonal_of_rotation m : rotation m -> orthogonal 3 (mfun m).
Proof.
  intros H. pose proof (rotation_right m H) as E1. destruct H as [E2 _].
  assert (K : forall a b, Mul a b = Id3 -> forall i j, (i < 3)%nat -> (j < 3)%nat -> sum 3 (fun k => mfun a i k * mfun b k j) = delta i j).
  { intros a b E i j Hi Hj. change (product 3 (mfun a) (mfun b) i j = delta i j). rewrite (product_Mul a b i j Hi Hj), E.
    destruct i as [|[|[|i]]]; try lia; destruct j as [|[|[|j]]]; try lia; reflexivity. }
  assert (T : forall i k, mfun (Tr m) i k = mfun m k i) by (intros [|[|i]] [|[|k]]; reflexivity).
  split; intros i j Hi Hj.
  - rewrite <- (K _ _ E1 i j Hi Hj). apply sum_ext. intros k _. rewrite T. reflexivity.
  - rewrite <- (K _ _ E2 i j Hi Hj). apply sum_ext. intros k _. rewrite T. reflexivity.
Qed.

Ltac entry := cbn [values g_rotate_x g_rotate_y g_rotate_z g_icrf_to_itrf g_itrf_to_icrf g_mat mfun rotate_x rotate_y rotate_z icrf_to_itrf itrf_to_icrf m00 m01 m02 m10 m11 m12 m20 m21 m22 block Nat.eqb orb].
(** the elementary matrices *)
Theorem C134_elementary : forall (t : trig fl) s a, accurate t s -> is_finite a = true ->
  (finite_matrix prec emax 3 (g_rotate_x o t a) /\ gap 3 (values (g_rotate_x o t a)) (mfun (rotate_x (B2R a))) <= 2 * s) /\
  (finite_matrix prec emax 3 (g_rotate_y o t a) /\ gap 3 (values (g_rotate_y o t a)) (mfun (rotate_y (B2R a))) <= 2 * s) /\
  (finite_matrix prec emax 3 (g_rotate_z o t a) /\ gap 3 (values (g_rotate_z o t a)) (mfun (rotate_z (B2R a))) <= 2 * s).
Proof.
  intros t s a T Fa. destruct (T a Fa) as [S C]. pose proof (apx_neg prec emax _ _ _ S) as N. pose proof (apx_pos prec emax _ _ _ S) as Hs.
  destruct S as [FS DS], C as [FC DC], N as [FN DN]. pose proof zero_finite as F0. pose proof one_finite as F1. pose proof (zero_diff s) as D0. pose proof (one_diff s) as D1.
  split; [|split]; (split; [intros i j Hi Hj; destruct i as [|[|[|i]]]; try lia; destruct j as [|[|[|j]]]; try lia; assumption|]).
  - apply (gap_block 0); [lia|exact Hs|]. three; unfold values; entry; try rewrite Rmult_1_r; assumption.
  - apply (gap_block 1); [lia|exact Hs|]. three; unfold values; entry; try rewrite Rmult_1_r; assumption.
  - apply (gap_block 2); [lia|exact Hs|]. three; unfold values; entry; try rewrite Rmult_1_r; assumption.
Qed.

Lemma sin_lip x y : Rabs (sin x - sin y) <= Rabs (x - y).
Proof.
  destruct (MVT_abs sin cos y x) as (c & E & _); [intros; apply derivable_pt_lim_sin|]. rewrite E. pose proof (Rabs_pos (x - y)). pose proof (cos1 c). nra.
Qed.
Lemma cos_lip x y : Rabs (cos x - cos y) <= Rabs (x - y).
Proof.
  destruct (MVT_abs cos (fun z => - sin z) y x) as (c & E & _); [intros; apply derivable_pt_lim_cos|]. rewrite E, Rabs_Ropp. pose proof (Rabs_pos (x - y)). pose proof (sin1 c). nra.
Qed.
(** sine and cosine at an angle that is itself within [a] *)
Lemma angle_apx (t : trig fl) s x X a : accurate t s -> apx x X a -> apx (sinf t x) (sin X) (s + a) /\ apx (cosf t x) (cos X) (s + a).
Proof.
  intros T [F D]. destruct (T x F) as [[FS DS] [FC DC]]. pose proof (sin_lip (B2R x) X). pose proof (cos_lip (B2R x) X).
  split; (split; [assumption|]).
  - replace (B2R (sinf t x) - sin X) with ((B2R (sinf t x) - sin (B2R x)) + (sin (B2R x) - sin X)) by ring. eapply Rle_trans; [apply Rabs_triang|]. lra.
  - replace (B2R (cosf t x) - cos X) with ((B2R (cosf t x) - cos (B2R x)) + (cos (B2R x) - cos X)) by ring. eapply Rle_trans; [apply Rabs_triang|]. lra.
Qed.
Lemma mul_apx (x y : fl) : is_finite x = true -> is_finite y = true -> Rabs (B2R x * B2R y) <= largest prec emax ->
  apx (mul o x y) (B2R x * B2R y) (u * Rabs (B2R x * B2R y) + eta).
Proof.
  intros Fx Fy L. eapply apx_weak; [apply (apx_mul prec emax) with (1 := apx_exact prec emax x Fx) (2 := apx_exact prec emax y Fy) (bx := Rabs (B2R x)) (by_ := Rabs (B2R y)); try lra|].
  - rewrite !Rplus_0_r, <- Rabs_mult. exact L.
  - rewrite !Rplus_0_r, <- Rabs_mult. lra.
Qed.
(** the rotation of the earth: the angle itself is rounded, so the error grows with the time *)
Theorem C134_earth : forall (t : trig fl) s time (w : V3) wz, accurate t s -> is_finite time = true -> is_finite wz = true -> B2R wz = vz w ->
  Rabs (vz w * B2R time) <= largest prec emax -> let e := 2 * (s + (u * Rabs (vz w * B2R time) + eta)) in
  (finite_matrix prec emax 3 (g_icrf_to_itrf o t time wz) /\ gap 3 (values (g_icrf_to_itrf o t time wz)) (mfun (icrf_to_itrf (B2R time) w)) <= e) /\
  (finite_matrix prec emax 3 (g_itrf_to_icrf o t time wz) /\ gap 3 (values (g_itrf_to_icrf o t time wz)) (mfun (itrf_to_icrf (B2R time) w)) <= e).
Proof.
  intros t s time w wz T Ft Fw Ew L e. unfold e. rewrite <- Ew in *. set (a := u * Rabs (B2R wz * B2R time) + eta) in *.
  assert (A1 : apx (mul o wz time) (B2R wz * B2R time) a) by (apply mul_apx; assumption).
  assert (A2 : apx (mul o (neg o wz) time) (- B2R wz * B2R time) a).
  { assert (E : B2R (neg o wz) = - B2R wz) by (cbn [neg float_ops]; apply B2R_Bopp). assert (R : Rabs (- B2R wz * B2R time) = Rabs (B2R wz * B2R time)) by (rewrite <- Rabs_Ropp; f_equal; ring).
    pose proof (mul_apx (neg o wz) time) as K. rewrite E, R in K. apply K; [cbn [neg float_ops]; rewrite is_finite_Bopp; exact Fw|exact Ft|exact L]. }
  destruct (angle_apx t s _ _ a T A1) as [S C]. destruct (angle_apx t s _ _ a T A2) as [N _]. pose proof (apx_pos prec emax _ _ _ S) as Hs. set (s' := s + a) in *.
  destruct S as [FS DS], C as [FC DC], N as [FN DN]. pose proof zero_finite as F0. pose proof one_finite as F1. pose proof (zero_diff s') as D0. pose proof (one_diff s') as D1.
  split; (split; [intros i j Hi Hj; destruct i as [|[|[|i]]]; try lia; destruct j as [|[|[|j]]]; try lia; assumption|]);
  (apply (gap_block 2); [lia|exact Hs|]; three; unfold values; entry; try rewrite <- Ew; try rewrite Rmult_1_r; assumption).
Qed.

Context (Hp : (24 <= prec)%Z) (He : (64 <= emax)%Z).
Lemma gam3' : gam prec 3 <= 3001 / 1000 * u.
Proof. unfold gam. pose proof (u_pos prec). pose proof (u24 prec Hp). assert (u * u <= / 16777216 * u) by (apply Rmult_le_compat_r; lra). assert (u * u * u <= / 16777216 * (u * u)) by (rewrite Rmult_comm; apply Rmult_le_compat_r; nra). lra. Qed.
Lemma low3' : low prec emax 3 <= / 10 ^ 8 * u.
Proof.
  unfold low. pose proof (u_pos prec) as Pu. pose proof (u24 prec Hp) as U. pose proof (eta_u prec emax He) as E. pose proof (eta_pos prec emax) as Pe. pose proof gam3' as G. unfold gam in G. pose proof (pow1 prec 3) as P1.
  replace (INR 3) with 3 by (cbn; ring). apply Rle_trans with (3 * eta * (4 / 3)); [apply Rmult_le_compat_l; lra|lra].
Qed.
(** Euler angles to a matrix *)
Theorem C134_euler : forall (t : trig fl) phi theta psi, accurate t (2 * u) -> is_finite phi = true -> is_finite theta = true -> is_finite psi = true ->
  finite_matrix prec emax 3 (g_dcm_of_euler o t phi theta psi) /\
  gap 3 (values (g_dcm_of_euler o t phi theta psi)) (mfun (dcm_of_euler (mkV (B2R phi) (B2R theta) (B2R psi)))) <= 31 * u.
Proof.
  intros t a b c T Fa Fb Fc. pose proof (u_pos prec) as Pu. pose proof (u24 prec Hp) as U. pose proof (largest63 prec emax Hp He) as G.
  assert (UU : 0 <= u * u <= / 16777216 * u) by (split; [apply Rmult_le_pos; lra|apply Rmult_le_compat_r; lra]).
  pose proof gam3' as G3. pose proof (gam_pos prec 3) as G0. pose proof low3' as L3. pose proof (low_pos prec emax 3) as L0. pose proof sqrt3 as S3.
  assert (Hr : forall d e, 0 <= d <= 1 / 1000 -> 0 <= e <= 1 / 1000 -> (sqrt (INR 3) + d) * (sqrt (INR 3) + e) <= 301 / 100 /\ 0 <= (sqrt (INR 3) + d) * (sqrt (INR 3) + e)).
  { intros d e Hd Hee. split; [|apply Rmult_le_pos; lra]. apply Rle_trans with (1734 / 1000 * (1734 / 1000)); [apply Rmult_le_compat; lra|lra]. }
  assert (Rm : forall d e, 0 <= d <= 1 / 1000 -> 0 <= e <= 1 / 1000 -> room prec emax 3 (sqrt (INR 3) + d) (sqrt (INR 3) + e)).
  { intros d e Hd Hee. unfold room. destruct (Hr d e Hd Hee) as [H1 H2]. apply Rle_trans with (2 * (301 / 100) + 1); [|lra]. apply Rplus_le_compat; [apply Rmult_le_compat; lra|lra]. }
  destruct (C134_elementary t _ a T Fa) as ([FX GX] & _ & _). destruct (C134_elementary t _ b T Fb) as (_ & [FY GY] & _). destruct (C134_elementary t _ c T Fc) as (_ & _ & [FZ GZ]).
  pose proof (orthogonal_of_rotation _ (rot_x (B2R a))) as OX. pose proof (orthogonal_of_rotation _ (rot_y (B2R b))) as OY. pose proof (orthogonal_of_rotation _ (rot_z (B2R c))) as OZ.
  destruct (C132_step prec emax 3 _ _ _ _ _ _ OX OY FX FY GX GY ltac:(apply Rm; lra)) as [F1 G1].
  assert (K1 : gap 3 (values (mul_small o 3 3 3 (g_rotate_x o t a) (g_rotate_y o t b))) (mfun (Mul (rotate_x (B2R a)) (rotate_y (B2R b)))) <= 171 / 10 * u).
  { replace (gap 3 _ _) with (gap 3 (values (mul_small o 3 3 3 (g_rotate_x o t a) (g_rotate_y o t b))) (product 3 (mfun (rotate_x (B2R a))) (mfun (rotate_y (B2R b))))).
    - eapply Rle_trans; [exact G1|]. destruct (Hr (2 * (2 * u)) (2 * (2 * u)) ltac:(lra) ltac:(lra)) as [H1 H2]. replace (INR 3) with 3 in * by (cbn; ring).
      assert (gam prec 3 * ((sqrt 3 + 2 * (2 * u)) * (sqrt 3 + 2 * (2 * u))) <= 3001 / 1000 * u * (301 / 100)) by (apply Rmult_le_compat; assumption). lra.
    - unfold gap. apply size_ext. intros i j Hi Hj. rewrite product_Mul by assumption. reflexivity. }
  assert (OXY : orthogonal 3 (mfun (Mul (rotate_x (B2R a)) (rotate_y (B2R b))))) by (apply orthogonal_of_rotation, rotation_Mul; [apply rot_x|apply rot_y]).
  destruct (C132_step prec emax 3 _ _ _ _ _ _ OXY OZ F1 FZ K1 GZ ltac:(apply Rm; lra)) as [F2 G2].
  split; [exact F2|]. unfold g_dcm_of_euler, dcm_of_euler. rewrite !dcm_mul_eq. cbn [vx vy vz].
  replace (gap 3 _ _) with (gap 3 (values (mul_small o 3 3 3 (mul_small o 3 3 3 (g_rotate_x o t a) (g_rotate_y o t b)) (g_rotate_z o t c))) (product 3 (mfun (Mul (rotate_x (B2R a)) (rotate_y (B2R b)))) (mfun (rotate_z (B2R c))))).
  - eapply Rle_trans; [exact G2|]. destruct (Hr (171 / 10 * u) (2 * (2 * u)) ltac:(lra) ltac:(lra)) as [H1 H2]. replace (INR 3) with 3 in * by (cbn; ring).
    assert (gam prec 3 * ((sqrt 3 + 171 / 10 * u) * (sqrt 3 + 2 * (2 * u))) <= 3001 / 1000 * u * (301 / 100)) by (apply Rmult_le_compat; assumption). lra.
  - unfold gap. apply size_ext. intros i j Hi Hj. rewrite product_Mul by assumption. reflexivity.
Qed.

(** halving is exact but for underflow *)
Local Notation rd := (round radix2 (SpecFloat.fexp prec emax) ZnearestE).
Lemma bpow_fmt e : (- 20 <= e <= 1)%Z -> rd (bpow radix2 e) = bpow radix2 e.
Proof. intros H. apply round_generic; [apply valid_rnd_N|]. apply generic_format_bpow. unfold SpecFloat.fexp, SpecFloat.emin. lia. Qed.
Lemma half_value : is_finite (div o (one o) (add o (one o) (one o))) = true /\ B2R (div o (one o) (add o (one o) (one o))) = / 2.
Proof.
  pose proof (largest63 prec emax Hp He) as G. pose proof one_finite as F1. assert (V1 : B2R (one o : fl) = 1) by (cbn [one float_ops]; apply Bone_correct).
  assert (F2 : is_finite (add o (one o) (one o)) = true) by (apply (add_ok prec emax); try exact F1; rewrite V1, Rabs_pos_eq; lra).
  destruct (add_fin prec emax _ _ F2) as (_ & _ & V2). rewrite V1 in V2. replace (1 + 1) with (bpow radix2 1) in V2 by (cbn; lra). rewrite bpow_fmt in V2 by lia. change (bpow radix2 1) with 2 in V2.
  assert (F3 : is_finite (div o (one o) (add o (one o) (one o))) = true).
  { apply (div_ok prec emax); [rewrite V2; lra|exact F1|]. rewrite V1, V2, Rabs_pos_eq; lra. }
  split; [exact F3|]. destruct (StatsFloatProps.div_fin prec emax _ _ ltac:(rewrite V2; lra) F3) as (_ & ->). rewrite V1, V2.
  replace (1 / 2) with (bpow radix2 (-1)) by (cbn; lra). rewrite bpow_fmt by lia. cbn. lra.
Qed.
Lemma half_apx (x : fl) : is_finite x = true -> apx (mul o x (div o (one o) (add o (one o) (one o)))) (B2R x * (1 / (1 + 1))) eta.
Proof.
  intros Fx. destruct half_value as [Fh Vh]. set (h := div o (one o) (add o (one o) (one o))) in *.
  assert (L : Rabs (B2R x) <= largest prec emax).
  { apply (abs_B2R_le_emax_minus_prec prec emax). exact P. }
  assert (F : is_finite (mul o x h) = true).
  { apply (mul_ok prec emax); [exact Fx|exact Fh|]. rewrite Vh, Rabs_mult, (Rabs_pos_eq (/ 2)) by lra. pose proof (Rabs_pos (B2R x)). lra. }
  split; [exact F|]. destruct (mul_fin prec emax _ _ F) as (_ & _ & ->). rewrite Vh. replace (1 / (1 + 1)) with (/ 2) by lra.
  pose proof (generic_format_B2R prec emax x) as GF. apply FLT_format_generic in GF; [|exact P]. destruct GF as [f E1 E2 E3]. unfold SpecFloat.emin in E3.
  assert (Ex : B2R x * / 2 = IZR (Fnum f) * bpow radix2 (Fexp f - 1)).
  { rewrite E1. unfold F2R. unfold Zminus. rewrite bpow_plus. change (bpow radix2 (- (1))) with (/ 2). ring. }
  destruct (Z.eq_dec (Fexp f) (3 - emax - prec)) as [Eq|Ne].
  - assert (V : Valid_exp (SpecFloat.fexp prec emax)) by exact (fexp_correct prec emax P).
    eapply Rle_trans; [apply error_le_half_ulp; exact V|]. unfold tiny. apply Rmult_le_compat_l; [lra|].
    destruct (Req_dec (B2R x * / 2) 0) as [Z|NZ].
    + rewrite Z. unfold ulp. rewrite Req_bool_true by reflexivity. destruct (negligible_exp_spec (SpecFloat.fexp prec emax)) as [Q|n Q]; [apply bpow_ge_0|].
      apply bpow_le. unfold SpecFloat.fexp, SpecFloat.emin in *. lia.
    + rewrite ulp_neq_0 by exact NZ. apply bpow_le. unfold cexp. assert (Hm : (mag radix2 (B2R x * / 2) <= 3 - emax)%Z).
      { apply mag_le_bpow; [exact NZ|]. rewrite Ex, Rabs_mult, (Rabs_pos_eq (bpow _ _)) by apply bpow_ge_0. rewrite <- abs_IZR.
        replace (3 - emax)%Z with (prec + (3 - emax - prec))%Z by lia. rewrite bpow_plus. apply IZR_lt in E2. rewrite IZR_Zpower in E2 by lia.
        rewrite Eq. assert (bpow radix2 (3 - emax - prec - 1) < bpow radix2 (3 - emax - prec)) by (apply bpow_lt; lia). pose proof (bpow_gt_0 radix2 (3 - emax - prec - 1)).
        apply Rmult_le_0_lt_compat; try assumption; [apply IZR_le; lia|lra]. }
      unfold SpecFloat.fexp, SpecFloat.emin. lia.
  - rewrite round_generic; [rewrite Rminus_diag_eq, Rabs_R0 by reflexivity; pose proof (eta_pos prec emax); lra|apply valid_rnd_N|].
    rewrite Ex. apply generic_format_FLT. apply (FLT_spec radix2 (3 - emax - prec) prec _ (Float radix2 (Fnum f) (Fexp f - 1))); cbn [Fnum Fexp]; [reflexivity|exact E2|lia].
Qed.
(** Euler angles to a quaternion *)
Theorem C134_quaternion : forall (t : trig fl) a b c, accurate t (2 * u) -> is_finite a = true -> is_finite b = true -> is_finite c = true ->
  let p := g_quat_of_euler o t a b c in let q := quat_of_euler (mkV (B2R a) (B2R b) (B2R c)) in
  apx (gw p) (qw q) (19 * u) /\ apx (gi p) (qi q) (19 * u) /\ apx (gj p) (qj q) (19 * u) /\ apx (gk p) (qk q) (19 * u).
Proof.
  intros t a b c T Fa Fb Fc p q. pose proof (u_pos prec) as Pu. pose proof (u24 prec Hp) as U. pose proof (largest63 prec emax Hp He) as G.
  pose proof (eta_u prec emax He) as E. pose proof (eta_pos prec emax) as Pe.
  assert (UU : 0 <= u * u <= / 16777216 * u) by (split; [apply Rmult_le_pos; lra|apply Rmult_le_compat_r; lra]).
  assert (UUU : u * u * u <= / 16777216 * (u * u)) by (rewrite Rmult_comm; apply Rmult_le_compat_r; lra).
  assert (K : forall x, is_finite x = true -> let h := mul o x (div o (one o) (add o (one o) (one o))) in let X := B2R x * (1 / (1 + 1)) in
    apx (sinf t h) (sin X) (2001 / 1000 * u) /\ apx (cosf t h) (cos X) (2001 / 1000 * u)).
  { intros x Fx h X. destruct (angle_apx t _ h X eta T (half_apx x Fx)) as [A B]. split; (eapply apx_weak; [eassumption|lra]). }
  assert (Tri : forall x y z X Y Z, apx x X (2001 / 1000 * u) -> apx y Y (2001 / 1000 * u) -> apx z Z (2001 / 1000 * u) -> Rabs X <= 1 -> Rabs Y <= 1 -> Rabs Z <= 1 ->
    apx (mul o (mul o x y) z) (X * Y * Z) (802 / 100 * u) /\ Rabs (X * Y * Z) <= 1).
  { intros x y z X Y Z Ax Ay Az Bx By Bz. pose proof (prod1 _ _ _ _ Bx By) as Bxy.
    assert (Axy : apx (mul o x y) (X * Y) (501 / 100 * u)) by (eapply apx_weak; [apply (apx_mul prec emax) with (bx := 1) (by_ := 1) (1 := Ax) (2 := Ay); [exact Bx|exact By|lra]|lra]).
    pose proof (prod1 _ _ _ _ Bxy Bz) as Bxyz. split; [|lra].
    eapply apx_weak; [apply (apx_mul prec emax) with (bx := 1) (by_ := 1) (1 := Axy) (2 := Az); [lra|exact Bz|lra]|lra]. }
  destruct (K a Fa) as [Sa Ca], (K b Fb) as [Sb Cb], (K c Fc) as [Sc Cc].
  unfold p, q, g_quat_of_euler, quat_of_euler. cbn [gw gi gj gk qw qi qj qk vx vy vz].
  set (X := B2R a * (1 / (1 + 1))) in *. set (Y := B2R b * (1 / (1 + 1))) in *. set (Z := B2R c * (1 / (1 + 1))) in *.
  assert (Add : forall x y X Y, apx x X (802 / 100 * u) /\ Rabs X <= 1 -> apx y Y (802 / 100 * u) /\ Rabs Y <= 1 -> apx (add o x y) (X + Y) (19 * u)).
  { intros x y X' Y' [Ax Bx] [Ay By]. eapply apx_weak; [apply (apx_add prec emax) with (b := 2) (1 := Ax) (2 := Ay); [eapply Rle_trans; [apply Rabs_triang|]; lra|lra]|lra]. }
  assert (Sub : forall x y X Y, apx x X (802 / 100 * u) /\ Rabs X <= 1 -> apx y Y (802 / 100 * u) /\ Rabs Y <= 1 -> apx (sub o x y) (X - Y) (19 * u)).
  { intros x y X' Y' [Ax Bx] [Ay By]. eapply apx_weak; [apply (apx_sub prec emax) with (b := 2) (1 := Ax) (2 := Ay); [eapply Rle_trans; [apply Rabs_triang|]; rewrite Rabs_Ropp; lra|lra]|lra]. }
  split; [|split; [|split]]; (apply Add || apply Sub); apply Tri; (assumption || apply sin1 || apply cos1).
Qed.

(** some sine and cosine are that accurate *)
Definition nearest_trig : trig fl := mkTrig (fun x => nearest_float prec emax (sin (B2R x))) (fun x => nearest_float prec emax (cos (B2R x))).
Lemma nearest_accurate : accurate nearest_trig (2 * u).
Proof.
  pose proof (u_pos prec) as Pu. pose proof (u24 prec Hp) as U. pose proof (largest63 prec emax Hp He) as G.
  pose proof (eta_u prec emax He) as E. pose proof (eta_pos prec emax) as Pe.
  assert (K : forall r, Rabs r <= 1 -> apx (nearest_float prec emax r) r (2 * u)).
  { intros r Hr. destruct (nearest_float_value prec emax r ltac:(lra)) as [F V]. split; [exact F|]. rewrite V.
    pose proof (rd_apx prec emax r r 0 1) as Q. rewrite Rminus_diag_eq, Rabs_R0 in Q by reflexivity. specialize (Q (Rle_refl 0) Hr). lra. }
  intros x _. split; apply K; [apply sin1|apply cos1].
Qed.
End Width.
Local Instance p53 : Prec_gt_0 53 := eq_refl. Local Instance e53 : Prec_lt_emax 53 1024 := eq_refl.
Local Instance p24 : Prec_gt_0 24 := eq_refl. Local Instance e24 : Prec_lt_emax 24 128 := eq_refl.
(** up to a thousand kilometres of altitude: ten nanometres in f64, five metres in f32 *)
Theorem C133_f64 : forall (t : trig (binary_float 53 1024)) lat lon alt, accurate t (2 * unit 53) ->
  is_finite lat = true -> is_finite lon = true -> is_finite alt = true -> Rabs (B2R alt) <= 10 ^ 6 ->
  let p := g_geocentric_to_ecef (float_ops 53 1024) t lat lon alt in let q := geocentric_to_ecef (B2R lat) (B2R lon) (B2R alt) in
  apx (gx p) (vx q) (/ 10 ^ 8) /\ apx (gy p) (vy q) (/ 10 ^ 8) /\ apx (gz p) (vz q) (/ 10 ^ 8).
Proof.
  intros t lat lon alt T Fa Fo Fh Bh p q. destruct (C133_position 53 1024 ltac:(lia) ltac:(lia) t lat lon alt T Fa Fo Fh ltac:(lra)) as (A & B & C).
  rewrite unit53 in A, B, C. unfold u64 in A, B, C. split; [|split]; (eapply apx_weak; [eassumption|lra]).
Qed.
Theorem C133_f32 : forall (t : trig (binary_float 24 128)) lat lon alt, accurate t (2 * unit 24) ->
  is_finite lat = true -> is_finite lon = true -> is_finite alt = true -> Rabs (B2R alt) <= 10 ^ 6 ->
  let p := g_geocentric_to_ecef (float_ops 24 128) t lat lon alt in let q := geocentric_to_ecef (B2R lat) (B2R lon) (B2R alt) in
  apx (gx p) (vx q) 5 /\ apx (gy p) (vy q) 5 /\ apx (gz p) (vz q) 5.
Proof.
  intros t lat lon alt T Fa Fo Fh Bh p q. destruct (C133_position 24 128 ltac:(lia) ltac:(lia) t lat lon alt T Fa Fo Fh ltac:(lra)) as (A & B & C).
  assert (U : unit 24 = / 16777216) by (unfold unit; cbn; lra). rewrite U in A, B, C. split; [|split]; (eapply apx_weak; [eassumption|lra]).
Qed.
Example C133_nontrivial : exists t : trig (binary_float 53 1024), accurate t (2 * unit 53) /\
  let p := g_geocentric_to_ecef (float_ops 53 1024) t Bone Bone Bone in apx (gz p) (vz (geocentric_to_ecef 1 1 1)) (/ 10 ^ 8) /\ 10 ^ 6 <= B2R (gz p).
Proof.
  exists (nearest_trig 53 1024). assert (T : accurate (nearest_trig 53 1024) (2 * unit 53)) by (apply nearest_accurate; lia).
  split; [exact T|]. intros p. assert (E : B2R (@Bone 53 1024 p53 e53) = 1) by apply Bone_correct.
  pose proof (C133_f64 _ Bone Bone Bone T eq_refl eq_refl eq_refl) as K. rewrite E in K. destruct (K ltac:(rewrite Rabs_pos_eq; lra)) as (_ & _ & C). fold p in C.
  split; [exact C|]. destruct C as [_ D]. apply Rabs_le_inv in D. cbn [geocentric_to_ecef vz] in D.
  assert (S : 1 / 2 <= sin 1).
  { assert (P6 : PI / 6 < 1) by (pose proof PI_4; lra). rewrite <- sin_PI6. left. apply sin_increasing_1; pose proof PI2_1; pose proof PI2_3_2; lra. }
  pose proof (SIN_bound 1) as S1. assert (D1 : 9 / 10 <= 1 - w84_e2 * sin 1 * sin 1 <= 1) by (unfold w84_e2; nra).
  assert (D2 : 0 < sqrt (1 - w84_e2 * sin 1 * sin 1) <= 1) by (split; [apply sqrt_lt_R0; lra|eapply Rle_trans; [apply sqrt_le_1_alt, (proj2 D1)|rewrite sqrt_1; lra]]).
  assert (N : w84_a <= w84_a / sqrt (1 - w84_e2 * sin 1 * sin 1)).
  { unfold Rdiv. rewrite <- (Rmult_1_r w84_a) at 1. apply Rmult_le_compat_l; [unfold w84_a; lra|]. rewrite <- Rinv_1 at 1. apply Rinv_le_contravar; lra. }
  set (n := w84_a / sqrt (1 - w84_e2 * sin 1 * sin 1)) in *. unfold w84_a, w84_e2 in *. nra.
Qed.
Example C134_nontrivial : exists t : trig (binary_float 53 1024), accurate t (2 * unit 53) /\
  gap 3 (values (g_dcm_of_euler (float_ops 53 1024) t Bone Bone Bone)) (mfun (dcm_of_euler (mkV 1 1 1))) <= 31 * unit 53 /\
  apx (gw (g_quat_of_euler (float_ops 53 1024) t Bone Bone Bone)) (qw (quat_of_euler (mkV 1 1 1))) (19 * unit 53).
Proof.
  exists (nearest_trig 53 1024). assert (T : accurate (nearest_trig 53 1024) (2 * unit 53)) by (apply nearest_accurate; lia).
  assert (E : B2R (@Bone 53 1024 p53 e53) = 1) by apply Bone_correct. split; [exact T|]. split.
  - pose proof (C134_euler 53 1024 ltac:(lia) ltac:(lia) _ Bone Bone Bone T eq_refl eq_refl eq_refl) as [_ K]. rewrite E in K. exact K.
  - pose proof (C134_quaternion 53 1024 ltac:(lia) ltac:(lia) _ Bone Bone Bone T eq_refl eq_refl eq_refl) as [K _]. rewrite E in K. exact K.
Qed.
