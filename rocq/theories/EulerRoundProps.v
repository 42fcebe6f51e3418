(** C138: Euler angles read back from attitudes in floating point. *)
From Coq Require Import ZArith QArith Qreals Reals Lra Lia Bool Arith List Psatz.
From Verif Require Import Scalar LinModel Trig Geo3 AttModel QuatFloatModel GeoFloatModel CoordFloatModel.
From Verif Require AttProofs OptProps OptSpec.
From Flocq Require Import Core BinarySingleNaN.
From Verif Require Import FloatModel RoundProps StatsFloatProps InterpFloatProps Apx.
From Verif Require GeoFloatProps DcmRoundProps RealAngleProps.
From Verif Require Import CoordRoundProps.
Import ListNotations.
Local Open Scope R_scope.

(** ** Specification *)
(** [E] is [roll, pitch, yaw] up to [s] in the sine of the pitch and [k] in the directions of roll and yaw, weighted with the
    cosine of the pitch: at gimbal lock, where it vanishes, roll and yaw are not determined *)
Definition near_angles {prec emax} (E : gvec (binary_float prec emax)) (roll pitch yaw s k : R) : Prop :=
  finite3 prec emax E /\ Rabs (sin (B2R (gy E)) - sin pitch) <= s /\
  cos pitch * Rabs (cos (B2R (gx E)) - cos roll) <= k /\ cos pitch * Rabs (sin (B2R (gx E)) - sin roll) <= k /\
  cos pitch * Rabs (cos (B2R (gz E)) - cos yaw) <= k /\ cos pitch * Rabs (sin (B2R (gz E)) - sin yaw) <= k.
(** f32::signum and FRAC_PI_2 *)
Definition sign_and_quarter {prec emax} (signum : binary_float prec emax -> binary_float prec emax) (half_pi : binary_float prec emax) : Prop :=
  (forall x, is_finite x = true -> is_finite (signum x) = true /\ (0 < B2R x -> B2R (signum x) = 1) /\ (B2R x < 0 -> B2R (signum x) = -1)) /\
  apx half_pi (PI / 2) (2 * unit prec).

(** the model is the code of [AttModel] *)
Theorem C138_same_code : forall m q,
  V (g_euler_of_dcm Rops Rangles (mfun m)) = euler_of_dcm m /\
  V (g_euler_of_quat Rops Rangles signum (PI / 2) (mkG (qw q) (qi q) (qj q) (qk q))) = euler_of_quat q /\
  forall i j, (i < 3)%nat -> (j < 3)%nat -> g_dcm_of_quat Rops (fun x => x * x) (mkG (qw q) (qi q) (qj q) (qk q)) i j = mfun (dcm_of_quat q) i j.
Proof. intros m q. split; [reflexivity|]. split; [reflexivity|]. intros i j Hi Hj. destruct i as [|[|[|i]]]; try lia; destruct j as [|[|[|j]]]; try lia; reflexivity. Qed.

(** the entries the angles are read from *)
Lemma euler_entries roll pitch yaw : let m := dcm_of_euler (mkV roll pitch yaw) in
  m00 m = cos pitch * cos yaw /\ m01 m = cos pitch * sin yaw /\ m02 m = - sin pitch /\ m12 m = cos pitch * sin roll /\ m22 m = cos pitch * cos roll.
Proof. cbv zeta. rewrite AttProofs.dcm_of_euler_eq. cbn [Mul rotate_x rotate_y rotate_z vx vy vz m00 m01 m02 m10 m11 m12 m20 m21 m22]. repeat split; ring. Qed.

(** the length of a nearby vector is near *)
Lemma length_near x y X Y e : Rabs (x - X) <= e -> Rabs (y - Y) <= e -> sqrt (x * x + y * y) <= sqrt (X * X + Y * Y) + 2 * e.
Proof.
  intros Hx Hy. pose proof (Rabs_pos (x - X)) as P0. pose proof (sqrt_pos (X * X + Y * Y)) as Pr. pose proof (Rle_0_sqr X) as SX. pose proof (Rle_0_sqr Y) as SY. unfold Rsqr in *.
  pose proof (sqrt_sqrt (X * X + Y * Y) ltac:(lra)) as Er. set (r := sqrt (X * X + Y * Y)) in *. rewrite <- (sqrt_square (r + 2 * e)) by lra. apply sqrt_le_1_alt.
  assert (LX : Rabs X <= r) by (apply Rabs_le; split; apply Rnot_lt_le; intros K; nra). assert (LY : Rabs Y <= r) by (apply Rabs_le; split; apply Rnot_lt_le; intros K; nra).
  assert (Q : forall w W, Rabs (w - W) <= e -> Rabs W <= r -> w * w <= W * W + 2 * e * r + e * e).
  { intros w W Hw HW. replace (w * w) with (W * W + 2 * ((w - W) * W) + (w - W) * (w - W)) by ring.
    assert ((w - W) * W <= e * r) by (eapply Rle_trans; [apply Rle_abs|]; rewrite Rabs_mult; apply Rmult_le_compat; try apply Rabs_pos; assumption).
    assert ((w - W) * (w - W) <= e * e) by (eapply Rle_trans; [apply Rle_abs|]; rewrite Rabs_mult; apply Rmult_le_compat; try apply Rabs_pos; assumption). lra. }
  pose proof (Q x X Hx LX). pose proof (Q y Y Hy LY). assert (0 <= e * e) by (apply Rmult_le_pos; lra). lra.
Qed.
Lemma direction {prec emax} (a : angles (binary_float prec emax)) s y x C phi e : accurate_angles a s -> 0 <= s -> is_finite y = true -> is_finite x = true -> 0 <= C <= 1 ->
  Rabs (B2R x - C * cos phi) <= e -> Rabs (B2R y - C * sin phi) <= e -> let th := B2R (atan2f a y x) in let k := 3 * e + s * (1 + 2 * e) in
  is_finite (atan2f a y x) = true /\ C * Rabs (cos th - cos phi) <= k /\ C * Rabs (sin th - sin phi) <= k.
Proof.
  intros (A & _) Ps Fy Fx HC Hx Hy th k. destruct (A y x Fy Fx) as (F & Ax & Ay). split; [exact F|]. fold th in Ax, Ay. cbv zeta in Ax, Ay.
  set (r := sqrt (B2R x * B2R x + B2R y * B2R y)) in *.
  assert (EC : sqrt (C * cos phi * (C * cos phi) + C * sin phi * (C * sin phi)) = C).
  { replace (C * cos phi * (C * cos phi) + C * sin phi * (C * sin phi)) with (C * C) by (pose proof (sin2_cos2 phi) as S; unfold Rsqr in S; replace (C * C) with (C * C * (sin phi * sin phi + cos phi * cos phi)) by (rewrite S; ring); ring).
    apply sqrt_square. lra. }
  pose proof (length_near _ _ _ _ e Hx Hy) as L1. rewrite EC in L1. fold r in L1.
  assert (L2 : C <= r + 2 * e).
  { rewrite <- EC. unfold r. apply length_near; rewrite Rabs_minus_sym; assumption. }
  assert (Pr : 0 <= r) by apply sqrt_pos. assert (Lr : s * r <= s * (1 + 2 * e)) by (apply Rmult_le_compat_l; lra).
  assert (LCr : Rabs (C - r) <= 2 * e) by (apply Rabs_le; lra).
  assert (K : forall c, Rabs c <= 1 -> Rabs ((C - r) * c) <= 2 * e).
  { intros c Hc. rewrite Rabs_mult, <- (Rmult_1_r (2 * e)). apply Rmult_le_compat; try apply Rabs_pos; assumption. }
  assert (Hc : Rabs (cos th) <= 1) by (apply Rabs_le; pose proof (COS_bound th); lra). assert (Hs : Rabs (sin th) <= 1) by (apply Rabs_le; pose proof (SIN_bound th); lra).
  rewrite <- (Rabs_pos_eq C) at 1 2 by lra. rewrite <- !Rabs_mult, !Rmult_minus_distr_l. unfold k. split.
  - replace (C * cos th - C * cos phi) with ((C - r) * cos th + (r * cos th - B2R x) + (B2R x - C * cos phi)) by ring.
    eapply Rle_trans; [apply Rabs_triang|]. pose proof (Rabs_triang ((C - r) * cos th) (r * cos th - B2R x)). pose proof (K _ Hc). lra.
  - replace (C * sin th - C * sin phi) with ((C - r) * sin th + (r * sin th - B2R y) + (B2R y - C * sin phi)) by ring.
    eapply Rle_trans; [apply Rabs_triang|]. pose proof (Rabs_triang ((C - r) * sin th) (r * sin th - B2R y)). pose proof (K _ Hs). lra.
Qed.

Section Width.
Context (prec emax : Z) {P : Prec_gt_0 prec} {M : Prec_lt_emax prec emax}.
Context (Hp : (24 <= prec)%Z) (He : (64 <= emax)%Z).
Local Notation fl := (binary_float prec emax).
Local Notation u := (unit prec).
Local Notation eta := (tiny prec emax).
Local Notation o := (float_ops prec emax).
Local Notation rd := (round radix2 (SpecFloat.fexp prec emax) ZnearestE).
Local Notation u24 := (GeoFloatProps.u24 prec Hp).
Local Notation eta_u := (GeoFloatProps.eta_u prec emax He).
Local Notation largest63 := (GeoFloatProps.largest63 prec emax Hp He).
Local Notation accurate := GeoFloatProps.accurate.
Ltac base := pose proof (u_pos prec) as Pu; pose proof u24 as U; pose proof (eta_pos prec emax) as Pe; pose proof eta_u as Eu; pose proof largest63 as G;
  assert (UU : 0 <= u * u <= / 16777216 * u) by (split; [apply Rmult_le_pos; lra|apply Rmult_le_compat_r; lra]).

(** *** From matrices *)
(** A finite matrix within [e] of that of the angles, whose corner does not exceed one, gives the angles back. *)
Theorem C138_from_matrix : forall (a : angles fl) m roll pitch yaw e, accurate_angles a (4 * u) -> DcmRoundProps.finite_matrix prec emax 3 m ->
  (forall i j, (i < 3)%nat -> (j < 3)%nat -> Rabs (B2R (m i j) - mfun (dcm_of_euler (mkV roll pitch yaw)) i j) <= e) ->
  Rabs (B2R (m 0%nat 2%nat)) <= 1 -> 0 <= cos pitch ->
  near_angles (g_euler_of_dcm o a m) roll pitch yaw (e + 4 * u) (3 * e + 4 * u * (1 + 2 * e)).
Proof.
  intros a m roll pitch yaw e A F H L C. base. destruct (euler_entries roll pitch yaw) as (E00 & E01 & E02 & E12 & E22).
  pose proof (H 0 0 ltac:(lia) ltac:(lia))%nat as H00. pose proof (H 0 1 ltac:(lia) ltac:(lia))%nat as H01. pose proof (H 0 2 ltac:(lia) ltac:(lia))%nat as H02.
  pose proof (H 1 2 ltac:(lia) ltac:(lia))%nat as H12. pose proof (H 2 2 ltac:(lia) ltac:(lia))%nat as H22. cbn [mfun] in *. rewrite E00 in H00. rewrite E01 in H01. rewrite E02 in H02. rewrite E12 in H12. rewrite E22 in H22.
  assert (C1 : 0 <= cos pitch <= 1) by (pose proof (COS_bound pitch); lra).
  destruct (direction a (4 * u) (m 0 1)%nat (m 0 0)%nat (cos pitch) yaw e A ltac:(lra) (F 0 1 ltac:(lia) ltac:(lia))%nat (F 0 0 ltac:(lia) ltac:(lia))%nat C1 H00 H01) as (Y0 & Y1 & Y2).
  destruct (direction a (4 * u) (m 1 2)%nat (m 2 2)%nat (cos pitch) roll e A ltac:(lra) (F 1 2 ltac:(lia) ltac:(lia))%nat (F 2 2 ltac:(lia) ltac:(lia))%nat C1 H22 H12) as (R0 & R1 & R2).
  destruct A as (_ & A & _). destruct (A (m 0 2)%nat (F 0 2 ltac:(lia) ltac:(lia))%nat L) as [_ [PF PH]].
  unfold near_angles, g_euler_of_dcm, finite3. cbn [gx gy gz neg float_ops]. rewrite is_finite_Bopp, B2R_Bopp. split; [auto|]. split; [|auto].
  rewrite sin_neg. replace (- sin (B2R (asinf a (m 0%nat 2%nat))) - sin pitch) with (- ((sin (B2R (asinf a (m 0%nat 2%nat))) - sin (asin (B2R (m 0%nat 2%nat)))) + (B2R (m 0%nat 2%nat) - - sin pitch))).
  - rewrite Rabs_Ropp. eapply Rle_trans; [apply Rabs_triang|]. pose proof (sin_lip (B2R (asinf a (m 0%nat 2%nat))) (asin (B2R (m 0%nat 2%nat)))). lra.
  - rewrite sin_asin by (apply Rabs_le_inv in L; lra). ring.
Qed.

(** *** Out to a matrix and back *)
Lemma mul_one_r (x : fl) : is_finite x = true -> Rabs (B2R x) <= largest prec emax -> is_finite (mul o x (one o)) = true /\ B2R (mul o x (one o)) = B2R x.
Proof.
  intros F L. assert (E1 : B2R (one o) = 1) by apply Bone_correct. assert (F1 : is_finite (one o) = true) by apply is_finite_Bone.
  assert (F2 : is_finite (mul o x (one o)) = true) by (apply mul_ok; [exact F|exact F1|rewrite E1, Rmult_1_r; exact L]). split; [exact F2|].
  destruct (mul_fin prec emax _ _ F2) as (_ & _ & ->). rewrite E1, Rmult_1_r. apply rd_id.
Qed.
Lemma mul_one_l (x : fl) : is_finite x = true -> Rabs (B2R x) <= largest prec emax -> is_finite (mul o (one o) x) = true /\ B2R (mul o (one o) x) = B2R x.
Proof.
  intros F L. assert (E1 : B2R (one o) = 1) by apply Bone_correct. assert (F1 : is_finite (one o) = true) by apply is_finite_Bone.
  assert (F2 : is_finite (mul o (one o) x) = true) by (apply mul_ok; [exact F1|exact F|rewrite E1, Rmult_1_l; exact L]). split; [exact F2|].
  destruct (mul_fin prec emax _ _ F2) as (_ & _ & ->). rewrite E1, Rmult_1_l. apply rd_id.
Qed.
Lemma mul_zero (x y : fl) : is_finite x = true -> is_finite y = true -> B2R x = 0 \/ B2R y = 0 -> is_finite (mul o x y) = true /\ B2R (mul o x y) = 0.
Proof.
  intros Fx Fy H. assert (Z : B2R x * B2R y = 0) by (destruct H as [-> | ->]; ring).
  assert (F2 : is_finite (mul o x y) = true) by (apply mul_ok; [exact Fx|exact Fy|rewrite Z, Rabs_R0; pose proof largest63; lra]). split; [exact F2|].
  destruct (mul_fin prec emax _ _ F2) as (_ & _ & ->). rewrite Z. apply round_0, valid_rnd_N.
Qed.
Lemma add_zero (x y : fl) v : is_finite x = true -> is_finite y = true -> B2R x = 0 -> B2R y = v -> Rabs v <= largest prec emax ->
  (is_finite (add o x y) = true /\ B2R (add o x y) = v) /\ (is_finite (add o y x) = true /\ B2R (add o y x) = v).
Proof.
  intros Fx Fy Zx <- L. split.
  - assert (F2 : is_finite (add o x y) = true) by (apply add_ok; [exact Fx|exact Fy|rewrite Zx, Rplus_0_l; exact L]). split; [exact F2|].
    destruct (add_fin prec emax _ _ F2) as (_ & _ & ->). rewrite Zx, Rplus_0_l. apply rd_id.
  - assert (F2 : is_finite (add o y x) = true) by (apply add_ok; [exact Fy|exact Fx|rewrite Zx, Rplus_0_r; exact L]). split; [exact F2|].
    destruct (add_fin prec emax _ _ F2) as (_ & _ & ->). rewrite Zx, Rplus_0_r. apply rd_id.
Qed.
(** the corner of the computed matrix is the negated sine, without any rounding *)
Lemma corner (t : trig fl) phi theta psi : accurate t (2 * u) -> is_finite phi = true -> is_finite theta = true -> is_finite psi = true ->
  B2R (g_dcm_of_euler o t phi theta psi 0%nat 2%nat) = - B2R (sinf t theta).
Proof.
  intros T Fa Fb Fc. base. destruct (T theta Fb) as [[FS HS] [FC HC]].
  assert (SS : Rabs (- B2R (sinf t theta)) <= largest prec emax).
  { rewrite Rabs_Ropp. pose proof (apx_size prec emax _ _ _ (conj FS HS)) as K. assert (Rabs (sin (B2R theta)) <= 1) by (apply Rabs_le; pose proof (SIN_bound (B2R theta)); lra). lra. }
  assert (CC : Rabs (B2R (cosf t theta)) <= largest prec emax).
  { pose proof (apx_size prec emax _ _ _ (conj FC HC)) as K. assert (Rabs (cos (B2R theta)) <= 1) by (apply Rabs_le; pose proof (COS_bound (B2R theta)); lra). lra. }
  unfold g_dcm_of_euler. set (S := neg o (sinf t theta)). set (D := cosf t theta).
  assert (FSn : is_finite S = true) by (unfold S; cbn [neg float_ops]; rewrite is_finite_Bopp; exact FS).
  assert (ES : B2R S = - B2R (sinf t theta)) by (unfold S; cbn [neg float_ops]; apply B2R_Bopp). rewrite <- ES in SS |- *. fold D in FC, CC.
  pose proof (GeoFloatProps.zero_finite prec emax) as F0. pose proof (GeoFloatProps.one_finite prec emax) as F1. assert (Z0 : B2R (zero o : fl) = 0) by reflexivity.
  set (A := mul_small o 3 3 3 (g_rotate_x o t phi) (g_rotate_y o t theta)).
  assert (E : mul_small o 3 3 3 A (g_rotate_z o t psi) 0%nat 2%nat = add o (add o (add o (zero o) (mul o (A 0%nat 0%nat) (zero o))) (mul o (A 0%nat 1%nat) (zero o))) (mul o (A 0%nat 2%nat) (one o))) by reflexivity.
  rewrite E. clear E.
  assert (A0 : A 0%nat 0%nat = add o (add o (add o (zero o) (mul o (one o) D)) (mul o (zero o) (zero o))) (mul o (zero o) (sinf t theta))) by reflexivity.
  assert (A1 : A 0%nat 1%nat = add o (add o (add o (zero o) (mul o (one o) (zero o))) (mul o (zero o) (one o))) (mul o (zero o) (zero o))) by reflexivity.
  assert (A2 : A 0%nat 2%nat = add o (add o (add o (zero o) (mul o (one o) S)) (mul o (zero o) (zero o))) (mul o (zero o) D)) by reflexivity.
  assert (K0 : is_finite (A 0%nat 0%nat) = true).
  { rewrite A0. destruct (mul_one_l D FC CC) as [F2 V2]. destruct (add_zero (zero o) _ _ F0 F2 Z0 V2 CC) as [[F3 V3] _].
    destruct (mul_zero (zero o) (zero o) F0 F0 (or_introl Z0)) as [F4 V4]. destruct (add_zero _ _ _ F4 F3 V4 V3 CC) as [_ [F5 V5]].
    destruct (mul_zero (zero o) (sinf t theta) F0 FS (or_introl Z0)) as [F6 V6]. apply (add_zero _ _ _ F6 F5 V6 V5 CC). }
  assert (K1 : is_finite (A 0%nat 1%nat) = true).
  { rewrite A1. assert (LZ : Rabs 0 <= largest prec emax) by (rewrite Rabs_R0; lra). destruct (mul_zero (one o) (zero o) F1 F0 (or_intror Z0)) as [F2 V2].
    destruct (add_zero (zero o) _ _ F0 F2 Z0 V2 LZ) as [[F3 V3] _]. destruct (mul_zero (zero o) (one o) F0 F1 (or_introl Z0)) as [F4 V4].
    destruct (add_zero _ _ _ F4 F3 V4 V3 LZ) as [_ [F5 V5]]. destruct (mul_zero (zero o) (zero o) F0 F0 (or_introl Z0)) as [F6 V6]. apply (add_zero _ _ _ F6 F5 V6 V5 LZ). }
  assert (K2 : is_finite (A 0%nat 2%nat) = true /\ B2R (A 0%nat 2%nat) = B2R S).
  { rewrite A2. destruct (mul_one_l S FSn SS) as [F2 V2]. destruct (add_zero (zero o) _ _ F0 F2 Z0 V2 SS) as [[F3 V3] _].
    destruct (mul_zero (zero o) (zero o) F0 F0 (or_introl Z0)) as [F4 V4]. destruct (add_zero _ _ _ F4 F3 V4 V3 SS) as [_ [F5 V5]].
    destruct (mul_zero (zero o) D F0 FC (or_introl Z0)) as [F6 V6]. apply (add_zero _ _ _ F6 F5 V6 V5 SS). }
  destruct K2 as [K2 V2]. assert (LZ : Rabs 0 <= largest prec emax) by (rewrite Rabs_R0; lra).
  destruct (mul_zero (A 0%nat 0%nat) (zero o) K0 F0 (or_intror Z0)) as [G2 W2]. destruct (add_zero (zero o) _ _ F0 G2 Z0 W2 LZ) as [[G3 W3] _].
  destruct (mul_zero (A 0%nat 1%nat) (zero o) K1 F0 (or_intror Z0)) as [G4 W4]. destruct (add_zero _ _ _ G3 G4 W3 W4 LZ) as [[G5 W5] _].
  assert (SS2 : Rabs (B2R (A 0%nat 2%nat)) <= largest prec emax) by (rewrite V2; exact SS).
  destruct (mul_one_r (A 0%nat 2%nat) K2 SS2) as [G6 W6]. rewrite V2 in W6. apply (add_zero _ _ _ G5 G6 W5 W6 SS).
Qed.
Lemma entry_gap (A B : nat -> nat -> R) i j : (i < 3)%nat -> (j < 3)%nat -> Rabs (A i j - B i j) <= DcmRoundProps.gap 3 A B.
Proof.
  intros Hi Hj. unfold DcmRoundProps.gap. eapply Rle_trans; [|apply (DcmRoundProps.row_le 3 (fun i j => A i j - B i j) i Hi)].
  pose proof (OptProps.length2_pos 3 (fun j => A i j - B i j)) as L0. pose proof (OptProps.length2_sq 3 (fun j => A i j - B i j)) as L2.
  apply Rsqr_incr_0_var; [|exact L0]. rewrite <- Rsqr_abs. unfold Rsqr. rewrite L2.
  apply (DcmRoundProps.one_le 3 (fun j => (A i j - B i j) * (A i j - B i j)) j Hj). intros k _. apply Rle_0_sqr.
Qed.
(** angles to matrix to angles, with a sine that does not exceed one *)
Theorem C138_matrix_round_trip : forall (t : trig fl) (a : angles fl) roll pitch yaw, accurate t (2 * u) -> (forall x, is_finite x = true -> Rabs (B2R (sinf t x)) <= 1) ->
  accurate_angles a (4 * u) -> is_finite roll = true -> is_finite pitch = true -> is_finite yaw = true -> 0 <= cos (B2R pitch) ->
  near_angles (g_euler_of_dcm o a (g_dcm_of_euler o t roll pitch yaw)) (B2R roll) (B2R pitch) (B2R yaw) (35 * u) (98 * u).
Proof.
  intros t a roll pitch yaw T S A Fr Fp Fy C. base. destruct (GeoFloatProps.C134_euler prec emax Hp He t roll pitch yaw T Fr Fp Fy) as [F K].
  assert (N : near_angles (g_euler_of_dcm o a (g_dcm_of_euler o t roll pitch yaw)) (B2R roll) (B2R pitch) (B2R yaw) (31 * u + 4 * u) (3 * (31 * u) + 4 * u * (1 + 2 * (31 * u)))).
  { apply C138_from_matrix; try assumption.
    - intros i j Hi Hj. eapply Rle_trans; [|exact K]. apply (entry_gap (DcmRoundProps.values (g_dcm_of_euler o t roll pitch yaw))); assumption.
    - rewrite corner by assumption. rewrite Rabs_Ropp. apply S, Fp. }
  destruct N as (N0 & N1 & N2 & N3 & N4 & N5). split; [exact N0|]. repeat split; lra.
Qed.

(** *** From quaternions *)
Lemma small_product (x y : fl) X Y e : apx x X e -> apx y Y e -> Rabs X <= 1 -> Rabs Y <= 1 -> e <= / 1000 -> apx (mul o x y) (X * Y) (2001 / 1000 * e + 101 / 100 * u).
Proof.
  intros Ax Ay HX HY Le. base. pose proof (apx_pos prec emax _ _ _ Ax) as Pp.
  assert (E2 : e * e <= / 1000 * e) by (apply Rmult_le_compat_r; lra). assert (UE : 0 <= u * e <= / 16777216 * e) by (split; [apply Rmult_le_pos; lra|apply Rmult_le_compat_r; lra]).
  assert (UEE : u * (e * e) <= u * (/ 1000 * / 1000)) by (apply Rmult_le_compat_l; [lra|apply Rmult_le_compat; lra]). assert (UEL : u * e <= u * / 1000) by (apply Rmult_le_compat_l; lra).
  assert (EE : 0 <= e * e <= / 1000 * / 1000) by (split; [apply Rmult_le_pos; lra|apply Rmult_le_compat; lra]).
  eapply apx_weak; [apply (apx_mul prec emax _ _ _ _ _ _ 1 1 Ax Ay HX HY)|].
  - replace ((1 + e) * (1 + e)) with (1 + 2 * e + e * e) by ring. lra.
  - replace ((1 + e) * (1 + e)) with (1 + 2 * e + e * e) by ring. lra.
Qed.
Lemma two_apx : apx (add o (one o) (one o)) 2 (2 * u).
Proof.
  base. pose proof (apx_exact prec emax (one o) (is_finite_Bone _ _ _ _)) as A1. assert (E1 : B2R (one o) = 1) by apply Bone_correct. rewrite E1 in A1.
  replace 2 with (1 + 1) at 1 by ring. eapply apx_weak; [apply (apx_add prec emax _ _ _ _ _ _ 2 A1 A1); [rewrite Rabs_pos_eq; lra|lra]|lra].
Qed.
Lemma doubled (x : fl) X e : apx x X (4003 / 1000 * e + 41 / 10 * u) -> 0 <= e <= / 1000 -> Rabs X <= 2 -> apx (mul o (add o (one o) (one o)) x) (2 * X) (801 / 100 * e + 165 / 10 * u).
Proof.
  intros Ax Le HX. base. assert (UE : 0 <= u * e <= / 1000 * u) by (split; [apply Rmult_le_pos; lra|rewrite (Rmult_comm (/ 1000)); apply Rmult_le_compat_l; lra]).
  assert (UEU : 0 <= u * e * u <= / 1000 * (/ 16777216 * u)) by (replace (u * e * u) with (e * (u * u)) by ring; split; [apply Rmult_le_pos; lra|apply Rmult_le_compat; lra]).
  assert (UUU : 0 <= u * (u * u) <= / 16777216 * (/ 16777216 * u)) by (split; [apply Rmult_le_pos; lra|apply Rmult_le_compat; lra]).
  eapply apx_weak; [apply (apx_mul prec emax _ _ _ _ _ _ 2 2 two_apx Ax); [rewrite Rabs_pos_eq; lra|exact HX|]|].
  - replace ((2 + 2 * u) * (2 + (4003 / 1000 * e + 41 / 10 * u))) with (4 + 2 * (4003 / 1000 * e + 41 / 10 * u) + 4 * u + 2 * (4003 / 1000 * (u * e) + 41 / 10 * (u * u))) by ring. lra.
  - replace (u * ((2 + 2 * u) * (2 + (4003 / 1000 * e + 41 / 10 * u)))) with (4 * u + 2 * (4003 / 1000 * (u * e) + 41 / 10 * (u * u)) + 4 * (u * u) + 2 * (4003 / 1000 * (u * e * u) + 41 / 10 * (u * (u * u)))) by ring.
    replace (2 * u * (4003 / 1000 * e + 41 / 10 * u)) with (2 * (4003 / 1000 * (u * e) + 41 / 10 * (u * u))) by ring. lra.
Qed.
Lemma pair_sum (a b c d : fl) A B C D e : apx a A e -> apx b B e -> apx c C e -> apx d D e -> Rabs A <= 1 -> Rabs B <= 1 -> Rabs C <= 1 -> Rabs D <= 1 -> e <= / 1000 ->
  apx (mul o (add o (one o) (one o)) (add o (mul o a b) (mul o c d))) (2 * (A * B + C * D)) (801 / 100 * e + 165 / 10 * u) /\
  apx (mul o (add o (one o) (one o)) (sub o (mul o a b) (mul o c d))) (2 * (A * B - C * D)) (801 / 100 * e + 165 / 10 * u).
Proof.
  intros Aa Ab Ac Ad HA HB HC HD Le. base. pose proof (apx_pos prec emax _ _ _ Aa) as Pp.
  pose proof (small_product a b A B e Aa Ab HA HB Le) as P1. pose proof (small_product c d C D e Ac Ad HC HD Le) as P2.
  assert (K : forall X Y, Rabs X <= 1 -> Rabs Y <= 1 -> Rabs (X * Y) <= 1) by (intros X Y HX HY; rewrite Rabs_mult, <- (Rmult_1_r 1); apply Rmult_le_compat; try apply Rabs_pos; assumption).
  assert (UE : 0 <= u * e <= / 16777216 * e) by (split; [apply Rmult_le_pos; lra|apply Rmult_le_compat_r; lra]).
  assert (SA : Rabs (A * B + C * D) <= 2) by (eapply Rle_trans; [apply Rabs_triang|]; pose proof (K A B HA HB); pose proof (K C D HC HD); lra).
  assert (SS : Rabs (A * B - C * D) <= 2) by (unfold Rminus; eapply Rle_trans; [apply Rabs_triang|]; rewrite Rabs_Ropp; pose proof (K A B HA HB); pose proof (K C D HC HD); lra).
  split; (apply doubled; [|lra|assumption]).
  - eapply apx_weak; [apply (apx_add prec emax _ _ _ _ _ _ 2 P1 P2 SA); lra|lra].
  - eapply apx_weak; [apply (apx_sub prec emax _ _ _ _ _ _ 2 P1 P2 SS); lra|lra].
Qed.
Lemma from_one (x : fl) X e : apx x X (801 / 100 * e + 165 / 10 * u) -> 0 <= e <= / 1000 -> Rabs (1 - X) <= 1 -> apx (sub o (one o) x) (1 - X) (802 / 100 * e + 18 * u).
Proof.
  intros Ax Le HX. base. pose proof (apx_exact prec emax (one o) (is_finite_Bone _ _ _ _)) as A1. assert (E1 : B2R (one o) = 1) by apply Bone_correct. rewrite E1 in A1.
  assert (UE : 0 <= u * e <= / 16777216 * e) by (split; [apply Rmult_le_pos; lra|apply Rmult_le_compat_r; lra]).
  eapply apx_weak; [apply (apx_sub prec emax _ _ _ _ _ _ 1 A1 Ax HX); lra|lra].
Qed.
(** what the code computes from the quaternion of the angles *)
Lemma quat_entries roll pitch yaw : let q := quat_of_euler (mkV roll pitch yaw) in let w := qw q in let x := qi q in let y := qj q in let z := qk q in
  2 * (w * x + y * z) = cos pitch * sin roll /\ 1 - 2 * (x * x + y * y) = cos pitch * cos roll /\ 2 * (w * y - z * x) = sin pitch /\
  2 * (w * z + x * y) = cos pitch * sin yaw /\ 1 - 2 * (y * y + z * z) = cos pitch * cos yaw /\ Rabs w <= 1 /\ Rabs x <= 1 /\ Rabs y <= 1 /\ Rabs z <= 1.
Proof.
  cbv zeta. destruct (euler_entries roll pitch yaw) as (E00 & E01 & E02 & E12 & E22). rewrite <- AttProofs.euler_quat_dcm in *.
  pose proof (AttProofs.quat_of_euler_unit (mkV roll pitch yaw)) as N. unfold AttProofs.unit_quat, AttProofs.Qnorm2 in N. set (q := quat_of_euler (mkV roll pitch yaw)) in *.
  cbn [dcm_of_quat m00 m01 m02 m10 m11 m12 m20 m21 m22] in *. set (w := qw q) in *. set (x := qi q) in *. set (y := qj q) in *. set (z := qk q) in *. clearbody w x y z.
  split; [rewrite <- E12; ring|]. split; [rewrite <- E22; lra|]. split; [lra|]. split; [rewrite <- E01; ring|]. split; [rewrite <- E00; lra|].
  assert (K : forall v r, v * v + r = 1 -> 0 <= r -> Rabs v <= 1) by (intros v r H1 H2; apply Rabs_le; split; apply Rnot_lt_le; intros Q; nra).
  pose proof (Rle_0_sqr w) as S1. pose proof (Rle_0_sqr x) as S2. pose proof (Rle_0_sqr y) as S3. pose proof (Rle_0_sqr z) as S4. unfold Rsqr in *.
  split; [apply (K w (x * x + y * y + z * z)); lra|]. split; [apply (K x (w * w + y * y + z * z)); lra|]. split; [apply (K y (w * w + x * x + z * z)); lra|apply (K z (w * w + x * x + y * y)); lra].
Qed.
(** A quaternion within [e] of that of the angles gives them back, whatever the rounding: the guard keeps the arc sine defined. *)
Theorem C138_from_quaternion : forall (a : angles fl) signum half_pi q roll pitch yaw e, accurate_angles a (4 * u) -> sign_and_quarter signum half_pi ->
  let Q := quat_of_euler (mkV roll pitch yaw) in apx (gw q) (qw Q) e -> apx (gi q) (qi Q) e -> apx (gj q) (qj Q) e -> apx (gk q) (qk Q) e -> e <= / 1000 -> 0 <= cos pitch ->
  near_angles (g_euler_of_quat o a signum half_pi q) roll pitch yaw (81 / 10 * e + 22 * u) (25 * e + 60 * u).
Proof.
  intros a signum half_pi q roll pitch yaw e A (SG & HP) Q Aw Ai Aj Ak Le C. base. pose proof (apx_pos prec emax _ _ _ Aw) as Pp.
  destruct (quat_entries roll pitch yaw) as (ER & ER' & EP & EY & EY' & B1 & B2 & B3 & B4). fold Q in ER, ER', EP, EY, EY', B1, B2, B3, B4.
  pose proof (proj1 (pair_sum _ _ _ _ _ _ _ _ e Aw Ai Aj Ak B1 B2 B3 B4 Le)) as X1. rewrite ER in X1.
  pose proof (proj1 (pair_sum _ _ _ _ _ _ _ _ e Ai Ai Aj Aj B2 B2 B3 B3 Le)) as X2.
  pose proof (proj2 (pair_sum _ _ _ _ _ _ _ _ e Aw Aj Ak Ai B1 B3 B4 B2 Le)) as X3. rewrite EP in X3.
  pose proof (proj1 (pair_sum _ _ _ _ _ _ _ _ e Aw Ak Ai Aj B1 B4 B2 B3 Le)) as X4. rewrite EY in X4.
  pose proof (proj1 (pair_sum _ _ _ _ _ _ _ _ e Aj Aj Ak Ak B3 B3 B4 B4 Le)) as X5.
  assert (C1 : 0 <= cos pitch <= 1) by (pose proof (COS_bound pitch); lra).
  assert (CB : forall f, Rabs (cos pitch * cos f) <= 1).
  { intros f. rewrite Rabs_mult, <- (Rmult_1_r 1). apply Rmult_le_compat; try apply Rabs_pos; apply Rabs_le; [lra|pose proof (COS_bound f); lra]. }
  apply from_one in X2; [|lra|rewrite ER'; apply CB]. apply from_one in X5; [|lra|rewrite EY'; apply CB]. rewrite ER' in X2. rewrite EY' in X5.
  set (d := 802 / 100 * e + 18 * u) in *. apply (apx_weak _ _ _ _ _ d) in X1; [|unfold d; lra]. apply (apx_weak _ _ _ _ _ d) in X4; [|unfold d; lra].
  assert (UE : 0 <= u * e <= / 16777216 * e) by (split; [apply Rmult_le_pos; lra|apply Rmult_le_compat_r; lra]).
  assert (Kd : 3 * d + 4 * u * (1 + 2 * d) <= 25 * e + 60 * u) by (replace (4 * u * (1 + 2 * d)) with (4 * u + 8 * (802 / 100 * (u * e) + 18 * (u * u))) by (unfold d; ring); unfold d; lra).
  unfold g_euler_of_quat. set (sr := mul o _ (add o (mul o (gw q) (gi q)) _)) in *. set (cr := sub o (one o) (mul o _ (add o (mul o (gi q) (gi q)) _))) in *.
  set (sp := mul o _ (sub o (mul o (gw q) (gj q)) _)) in *. set (sy := mul o _ (add o (mul o (gw q) (gk q)) _)) in *. set (cy := sub o (one o) (mul o _ (add o (mul o (gj q) (gj q)) _))) in *.
  destruct (direction a (4 * u) sr cr (cos pitch) roll d A ltac:(lra) (proj1 X1) (proj1 X2) C1 (proj2 X2) (proj2 X1)) as (R0 & R1 & R2).
  destruct (direction a (4 * u) sy cy (cos pitch) yaw d A ltac:(lra) (proj1 X4) (proj1 X5) C1 (proj2 X5) (proj2 X4)) as (Y0 & Y1 & Y2).
  destruct X3 as [FS HS]. assert (E1 : B2R (one o) = 1) by apply Bone_correct.
  assert (PI3 : is_finite (if leb o (one o) (absf o sp) then mul o half_pi (signum sp) else asinf a sp) = true /\
    Rabs (sin (B2R (if leb o (one o) (absf o sp) then mul o half_pi (signum sp) else asinf a sp)) - sin pitch) <= 81 / 10 * e + 22 * u).
  { assert (EL : leb o (one o) (absf o sp) = Rle_bool 1 (Rabs (B2R sp))).
    { rewrite <- E1, <- (B2R_Babs prec emax sp). apply (Bleb_correct prec emax Bone (Babs sp)); [apply is_finite_Bone|rewrite is_finite_Babs; exact FS]. }
    rewrite EL. destruct (Rle_bool_spec 1 (Rabs (B2R sp))) as [L|L].
    - destruct (SG sp FS) as (FG & GP & GN). assert (H2 : 3 / 2 < PI / 2 < 16 / 10) by (pose proof RealAngleProps.pi_bounds; lra). pose proof (SIN_bound pitch) as SB.
      assert (V : exists g, (g = 1 \/ g = -1) /\ B2R (signum sp) = g /\ Rabs (g - sin pitch) <= 801 / 100 * e + 165 / 10 * u).
      { apply Rabs_le_inv in HS. destruct (Rle_lt_dec 0 (B2R sp)) as [S|S].
        - rewrite Rabs_pos_eq in L by exact S. exists 1. split; [auto|]. split; [apply GP; lra|]. apply Rabs_le. lra.
        - rewrite Rabs_left in L by exact S. exists (-1). split; [auto|]. split; [apply GN; lra|]. apply Rabs_le. lra. }
      destruct V as (g & G1 & GV & GS). pose proof (apx_exact prec emax (signum sp) FG) as AG. rewrite GV in AG.
      assert (Ag : Rabs g <= 1) by (destruct G1 as [-> | ->]; apply Rabs_le; lra).
      destruct (apx_mul prec emax half_pi (signum sp) (PI / 2) g (2 * u) 0 (16 / 10) 1 HP AG ltac:(rewrite Rabs_pos_eq; lra) Ag ltac:(lra)) as [F H].
      split; [exact F|]. assert (Sg : sin (PI / 2 * g) = g).
      { destruct G1 as [-> | ->]; [rewrite Rmult_1_r; apply sin_PI2|]. replace (PI / 2 * -1) with (- (PI / 2)) by ring. rewrite sin_neg, sin_PI2. ring. }
      pose proof (sin_lip (B2R (mul o half_pi (signum sp))) (PI / 2 * g)) as SL. rewrite Sg in SL.
      set (v := sin (B2R (mul o half_pi (signum sp)))) in *. change (Rabs (v - sin pitch) <= 81 / 10 * e + 22 * u).
      replace (v - sin pitch) with ((v - g) + (g - sin pitch)) by ring. eapply Rle_trans; [apply Rabs_triang|]. lra.
    - destruct A as (_ & A & _). destruct (A sp FS ltac:(lra)) as [_ [F H]]. split; [exact F|].
      pose proof (sin_lip (B2R (asinf a sp)) (asin (B2R sp))) as SL. rewrite sin_asin in SL by (apply Rabs_lt_inv in L; lra).
      replace (sin (B2R (asinf a sp)) - sin pitch) with ((sin (B2R (asinf a sp)) - B2R sp) + (B2R sp - sin pitch)) by ring. eapply Rle_trans; [apply Rabs_triang|]. lra. }
  unfold near_angles, finite3. cbn [gx gy gz]. destruct PI3 as [P3 P4]. split; [auto|]. split; [exact P4|]. repeat split; lra.
Qed.
(** angles to quaternion to angles *)
Theorem C138_quaternion_round_trip : forall (t : trig fl) (a : angles fl) signum half_pi roll pitch yaw, accurate t (2 * u) -> accurate_angles a (4 * u) -> sign_and_quarter signum half_pi ->
  is_finite roll = true -> is_finite pitch = true -> is_finite yaw = true -> 0 <= cos (B2R pitch) ->
  near_angles (g_euler_of_quat o a signum half_pi (g_quat_of_euler o t roll pitch yaw)) (B2R roll) (B2R pitch) (B2R yaw) (176 * u) (535 * u).
Proof.
  intros t a signum half_pi roll pitch yaw T A S Fr Fp Fy C. base. destruct (GeoFloatProps.C134_quaternion prec emax Hp He t roll pitch yaw T Fr Fp Fy) as (Q1 & Q2 & Q3 & Q4).
  destruct (C138_from_quaternion a signum half_pi _ _ _ _ (19 * u) A S Q1 Q2 Q3 Q4 ltac:(lra) C) as (N0 & N1 & N2 & N3 & N4 & N5). split; [exact N0|]. repeat split; lra.
Qed.

(** such functions exist *)
Definition float_sign (x : fl) : fl := if Bsign x then Bopp Bone else Bone.
Lemma sign_exists : sign_and_quarter float_sign (nearest_float prec emax (PI / 2)).
Proof.
  base. assert (E1 : B2R (@Bone prec emax _ _) = 1) by apply Bone_correct. split.
  - intros x F. unfold float_sign. split; [destruct (Bsign x); rewrite ?is_finite_Bopp; apply is_finite_Bone|]. split; intros S.
    + destruct (Bsign x) eqn:B; [exfalso|exact E1]. destruct x as [s|s| |s m e b]; cbn in S, B; try lra; subst. pose proof (F2R_le_0 radix2 (Float radix2 (Z.neg m) e)) as K. cbn in K. specialize (K ltac:(lia)). cbn in S. lra.
    + destruct (Bsign x) eqn:B; [rewrite B2R_Bopp, E1; ring|exfalso]. destruct x as [s|s| |s m e b]; cbn in S, B; try lra; subst. pose proof (F2R_ge_0 radix2 (Float radix2 (Z.pos m) e)) as K. cbn in K. specialize (K ltac:(lia)). cbn in S. lra.
  - assert (H2 : 0 < PI / 2 < 16 / 10) by (pose proof RealAngleProps.pi_bounds; lra). destruct (nearest_float_value prec emax (PI / 2)) as [F Vv]; [rewrite Rabs_pos_eq; lra|].
    split; [exact F|]. rewrite Vv. pose proof (rd_apx prec emax (PI / 2) (PI / 2) 0 (16 / 10)) as Q. rewrite Rminus_diag_eq, Rabs_R0 in Q by reflexivity. specialize (Q (Rle_refl 0) ltac:(rewrite Rabs_pos_eq; lra)). lra.
Qed.
Lemma nearest_sine x : is_finite x = true -> Rabs (B2R (sinf (GeoFloatProps.nearest_trig prec emax) x)) <= 1.
Proof.
  intros _. base. cbn [sinf GeoFloatProps.nearest_trig]. assert (S : Rabs (sin (B2R x)) <= 1) by (apply Rabs_le; pose proof (SIN_bound (B2R x)); lra).
  destruct (nearest_float_value prec emax (sin (B2R x))) as [_ ->]; [lra|]. assert (E1 : B2R (@Bone prec emax _ _) = 1) by apply Bone_correct.
  apply Rabs_le_inv in S. apply Rabs_le. rewrite <- E1. split.
  - rewrite <- B2R_Bopp, <- (rd_id prec emax (Bopp Bone)). apply rd_mono; [exact P|]. rewrite B2R_Bopp, E1. lra.
  - rewrite <- (rd_id prec emax Bone). apply rd_mono; [exact P|]. rewrite E1. lra.
Qed.
End Width.

(** through a matrix the pitch may be lost: a quaternion at a pitch of 90 degrees, each component correctly rounded, has a matrix whose corner exceeds one *)
Definition near_unit {prec emax} (q : gquat (binary_float prec emax)) : Prop :=
  let w := B2R (gw q) in let x := B2R (gi q) in let y := B2R (gj q) in let z := B2R (gk q) in Rabs (w * w + x * x + y * y + z * z - 1) <= 2 * unit prec.
Definition a64 : binary_float 53 1024 := @B754_finite 53 1024 false 6369051672525773 (-53) eq_refl.
Definition s32 : binary_float 24 128 := @B754_finite 24 128 false 11862993 (-24) eq_refl.
Definition i32 : binary_float 24 128 := @B754_finite 24 128 false 10629415 (-31) eq_refl.
Theorem C138_gimbal_refuted :
  (exists q : gquat (binary_float 53 1024), near_unit q /\ forall sq a s, accurate_angles a s -> gy (g_euler_of_dcm o64 a (g_dcm_of_quat o64 sq q)) = B754_nan) /\
  (exists q : gquat (binary_float 24 128), near_unit q /\ forall sq a s, accurate_angles a s -> gy (g_euler_of_dcm o32 a (g_dcm_of_quat o32 sq q)) = B754_nan).
Proof.
  split.
  - exists (mkG a64 (f64 0 0) a64 (f64 0 0)). split.
    + unfold near_unit. cbn [gw gi gj gk]. assert (Z : B2R (f64 0 0) = 0) by reflexivity. assert (A : B2R a64 = 6369051672525773 / 9007199254740992) by (unfold a64, B2R, F2R; cbn; lra).
      rewrite Z, A, DcmRoundProps.unit53. unfold DcmRoundProps.u64. apply Rabs_le. lra.
    + intros sq a s (_ & _ & N). unfold g_euler_of_dcm. cbn [gy]. set (m := g_dcm_of_quat o64 sq _ 0%nat 2%nat).
      assert (E : m = mul o64 (add o64 (one o64) (one o64)) (sub o64 (mul o64 (f64 0 0) (f64 0 0)) (mul o64 a64 a64))) by reflexivity. rewrite E.
      destruct (N (mul o64 (add o64 (one o64) (one o64)) (sub o64 (mul o64 (f64 0 0) (f64 0 0)) (mul o64 a64 a64)))) as [_ K]; [vm_compute; reflexivity| |rewrite K; reflexivity].
      rewrite <- Rabs_Ropp, <- B2R_Bopp. apply above_one64; vm_compute; reflexivity.
  - exists (mkG s32 i32 s32 (Bopp i32)). split.
    + unfold near_unit. cbn [gw gi gj gk]. rewrite B2R_Bopp. assert (I : B2R i32 = 10629415 / 2147483648) by (unfold i32, B2R, F2R; cbn; lra). assert (A : B2R s32 = 11862993 / 16777216) by (unfold s32, B2R, F2R; cbn; lra).
      rewrite I, A. replace (unit 24) with (/ 16777216) by (unfold unit; cbn; lra). apply Rabs_le. lra.
    + intros sq a s (_ & _ & N). unfold g_euler_of_dcm. cbn [gy]. set (m := g_dcm_of_quat o32 sq _ 0%nat 2%nat).
      assert (E : m = mul o32 (add o32 (one o32) (one o32)) (sub o32 (mul o32 i32 (Bopp i32)) (mul o32 s32 s32))) by reflexivity. rewrite E.
      destruct (N (mul o32 (add o32 (one o32) (one o32)) (sub o32 (mul o32 i32 (Bopp i32)) (mul o32 s32 s32)))) as [_ K]; [vm_compute; reflexivity| |rewrite K; reflexivity].
      rewrite <- Rabs_Ropp, <- B2R_Bopp. apply above_one32; vm_compute; reflexivity.
Qed.
Example C138_nontrivial : exists t a signum half_pi, GeoFloatProps.accurate t (2 * unit 53) /\ accurate_angles a (4 * unit 53) /\ sign_and_quarter signum half_pi /\
  near_angles (g_euler_of_dcm o64 a (g_dcm_of_euler o64 t Bone Bone Bone)) 1 1 1 (35 * unit 53) (98 * unit 53) /\
  near_angles (g_euler_of_quat o64 a signum half_pi (g_quat_of_euler o64 t Bone Bone Bone)) 1 1 1 (176 * unit 53) (535 * unit 53).
Proof.
  exists (GeoFloatProps.nearest_trig 53 1024), (nearest_angles 53 1024), (float_sign 53 1024), (nearest_float 53 1024 (PI / 2)).
  assert (T : GeoFloatProps.accurate (GeoFloatProps.nearest_trig 53 1024) (2 * unit 53)) by (apply GeoFloatProps.nearest_accurate; lia).
  assert (A : accurate_angles (nearest_angles 53 1024) (4 * unit 53)) by (apply nearest_angles_accurate; lia).
  assert (S : sign_and_quarter (float_sign 53 1024) (nearest_float 53 1024 (PI / 2))) by (apply sign_exists; lia).
  assert (E1 : B2R (@Bone 53 1024 p53 e53) = 1) by apply Bone_correct. assert (C : 0 <= cos (B2R (@Bone 53 1024 p53 e53))) by (rewrite E1; apply cos_ge_0; pose proof RealAngleProps.pi_bounds; lra).
  split; [exact T|]. split; [exact A|]. split; [exact S|]. split.
  - pose proof (C138_matrix_round_trip 53 1024 ltac:(lia) ltac:(lia) _ _ (@Bone 53 1024 p53 e53) (@Bone 53 1024 p53 e53) (@Bone 53 1024 p53 e53) T (nearest_sine 53 1024 ltac:(lia) ltac:(lia)) A eq_refl eq_refl eq_refl C) as K. rewrite E1 in K. exact K.
  - pose proof (C138_quaternion_round_trip 53 1024 ltac:(lia) ltac:(lia) _ _ _ _ (@Bone 53 1024 p53 e53) (@Bone 53 1024 p53 e53) (@Bone 53 1024 p53 e53) T A S eq_refl eq_refl eq_refl C) as K. rewrite E1 in K. exact K.
Qed.
