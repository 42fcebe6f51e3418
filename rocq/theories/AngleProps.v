(** C74: angle conversions, in exact arithmetic and in f64. *)
From Coq Require Import ZArith QArith Qreals Reals Lra Lia List Machin Ratan.
From Coquelicot Require Import Rbar.
From Flocq Require Import Core Relative BinarySingleNaN.
From Verif Require Import Scalar F64 TankModel NumModel.
Import ListNotations.
Local Open Scope R_scope.

Notation radR := (to_radians Rops PI).
Notation degR := (to_degrees Rops PI).
Lemma lit180 : lit Rops (180 # 1) = 180. Proof. cbn [lit Rops]. unfold Q2R. cbn. lra. Qed.
Theorem C74_exact : forall x,
  degR (radR x) = x /\ radR (degR x) = x /\ radR 180 = PI /\
  (forall y, radR (x + y) = radR x + radR y /\ degR (x + y) = degR x + degR y) /\
  (forall y, (x < y <-> radR x < radR y) /\ (x < y <-> degR x < degR y)) /\
  radR (x + 360) = radR x + 2 * PI /\ sin (radR (x + 360)) = sin (radR x) /\ cos (radR (x + 360)) = cos (radR x).
Proof.
  intros x. pose proof PI_RGT_0 as P. unfold to_radians, to_degrees. rewrite lit180. cbn [mul div Rops].
  assert (E : (x + 360) * PI / 180 = x * PI / 180 + 2 * PI) by field.
  split; [field; lra|]. split; [field; lra|]. split; [field|]. split; [intros y; split; field; lra|]. split; [|split; [exact E|]].
  - intros y. assert (0 < / PI) by (apply Rinv_0_lt_compat; auto). unfold Rdiv.
    assert (C : forall k, 0 < k -> (x < y <-> x * k < y * k)).
    { intros k K. split; intros L; [apply Rmult_lt_compat_r; auto|apply (Rmult_lt_reg_r k); auto]. }
    rewrite !Rmult_assoc. split; apply C; nra.
  - rewrite E. pose proof (sin_period (x * PI / 180) 1) as A. pose proof (cos_period (x * PI / 180) 1) as B. cbn [INR] in A, B. rewrite Rmult_1_r in A, B. split; assumption.
Qed.

(** Arrays are converted element by element, for any scalar type. *)
Theorem C74_arrays : forall F (o : ops F) pi l,
  length (array_to_radians o pi l) = length l /\ length (array_to_degrees o pi l) = length l /\
  (forall i d, nth i (array_to_radians o pi l) (to_radians o pi d) = to_radians o pi (nth i l d)) /\
  (forall i d, nth i (array_to_degrees o pi l) (to_degrees o pi d) = to_degrees o pi (nth i l d)).
Proof. intros F o pi l. unfold array_to_radians, array_to_degrees. split; [apply map_length|]. split; [apply map_length|]. split; intros i d; apply map_nth. Qed.

(** * f64 *)
Notation rad64 := (to_radians f64_ops pi64).
Notation deg64 := (to_degrees f64_ops pi64).
Definition c180 : f64 := lit f64_ops (180 # 1).
Lemma c180_val : is_finite c180 = true /\ B2R c180 = 180.
Proof.
  assert (E : B2SF c180 = SpecFloat.S754_finite false 6333186975989760 (-45)) by reflexivity.
  destruct c180 as [s|s| |s m e H]; try discriminate. cbn in E. injection E as -> -> ->. split; [reflexivity|].
  cbn [B2R]. unfold F2R. cbn [Fnum Fexp SpecFloat.cond_Zopp]. change (bpow radix2 (-45)) with (/ IZR 35184372088832). lra.
Qed.
Lemma pi64_val : B2R pi64 = 7074237752028440 / 2251799813685248.
Proof. unfold pi64. cbn [B2R]. unfold F2R. cbn [Fnum Fexp SpecFloat.cond_Zopp]. change (bpow radix2 (-51)) with (/ IZR 2251799813685248). lra. Qed.
Lemma c180_pos : fpos c180. Proof. destruct c180_val as [A B]. split; auto. rewrite B. lra. Qed.
Lemma pi64_pos : fpos pi64. Proof. split; [reflexivity|]. rewrite pi64_val. lra. Qed.

(** Conversions keep order for every f64: rounding, underflow and overflow included. *)
Definition le (x y : f64) : Prop := leb f64_ops x y = true.
Theorem C74_monotone_f64 : forall x y, le x y -> le (rad64 x) (rad64 y) /\ le (deg64 x) (deg64 y).
Proof.
  intros x y L. unfold le in *. cbn [leb f64_ops] in *. destruct (leb_number x y L) as [Nx Ny]. apply f64_leb in L; auto.
  unfold to_radians, to_degrees. fold c180. cbn [mul div f64_ops].
  pose proof c180_pos. pose proof pi64_pos. split; apply f64_leb; auto using mul_pos_number, div_pos_number, mul_pos_mono, div_pos_mono.
Qed.

(** The constant is pi, to within half a unit in the last place. *)
Definition qterm (n : nat) : Q :=
  let k := (2 * n + 1)%nat in
  Qred ((if Nat.even n then 1 else -1)%Z # 1) * (2 * (1 # Pos.of_nat k * 3 ^ Pos.of_nat k) + (1 # Pos.of_nat k * 7 ^ Pos.of_nat k)).
Fixpoint qsum (n : nat) : Q := match n with O => qterm 0 | S m => Qred (qsum m + qterm n) end.
Lemma pos_pow_IZR b k : IZR (Z.pos (b ^ Pos.of_nat (S k))) = IZR (Z.pos b) ^ S k.
Proof. rewrite Pos2Z.inj_pow. rewrite pow_IZR. f_equal. f_equal. lia. Qed.
Lemma ratan_q b k : Q2R (1 # Pos.of_nat (2 * k + 1) * b ^ Pos.of_nat (2 * k + 1)) = Ratan_seq (/ IZR (Z.pos b)) k.
Proof.
  unfold Ratan_seq, Q2R. cbn [Qnum Qden]. replace (2 * k + 1)%nat with (S (2 * k)) by lia. rewrite Pos2Z.inj_mul, mult_IZR, pos_pow_IZR.
  rewrite INR_IZR_INZ. replace (IZR (Z.pos (Pos.of_nat (S (2 * k))))) with (IZR (Z.of_nat (S (2 * k)))) by (f_equal; lia).
  rewrite pow_inv. assert (IZR (Z.of_nat (S (2 * k))) <> 0) by (apply not_0_IZR; lia). assert (IZR (Z.pos b) ^ S (2 * k) <> 0) by (apply pow_nonzero, not_0_IZR; lia).
  field. split; auto.
Qed.
Lemma qterm_eq n : Q2R (qterm n) = tg_alt PI_2_3_7_tg n.
Proof.
  unfold qterm. cbv zeta. rewrite Q2R_mult, Q2R_plus, Q2R_mult, !ratan_q. unfold tg_alt, PI_2_3_7_tg. f_equal.
  - rewrite (Qeq_eqR _ _ (Qred_correct _)).
    unfold Q2R. cbn [Qnum Qden]. destruct (Nat.even n) eqn:E.
    + apply Nat.even_spec in E. destruct E as [m ->]. rewrite pow_1_even. lra.
    + assert (O : Nat.odd n = true) by (unfold Nat.odd; rewrite E; reflexivity). apply Nat.odd_spec in O. destruct O as [m ->].
      rewrite Nat.add_1_r, pow_1_odd. lra.
  - unfold Q2R at 1. cbn. lra.
Qed.
Lemma qsum_eq n : Q2R (qsum n) = sum_f_R0 (tg_alt PI_2_3_7_tg) n.
Proof. induction n as [|n IH]; [apply qterm_eq|]. cbn [qsum sum_f_R0]. rewrite (Qeq_eqR _ _ (Qred_correct _)), Q2R_plus, IH, qterm_eq. reflexivity. Qed.
Lemma pi_error : Rabs (B2R pi64 - PI) <= bpow radix2 (-52).
Proof.
  pose proof (PI_2_3_7_ineq 8) as [L U]. change (S (2 * 8)) with 17%nat in L. change (2 * 8)%nat with 16%nat in U. rewrite <- qsum_eq in L, U.
  assert (A : Q2R ((7074237752028440 # 9007199254740992) - (1 # 18014398509481984)) <= Q2R (qsum 17)) by (apply Qle_Rle, Qle_bool_iff; vm_compute; reflexivity).
  assert (B : Q2R (qsum 16) <= Q2R ((7074237752028440 # 9007199254740992) + (1 # 18014398509481984))) by (apply Qle_Rle, Qle_bool_iff; vm_compute; reflexivity).
  rewrite Q2R_minus in A. rewrite Q2R_plus in B. unfold Q2R in A, B. cbn [Qnum Qden] in A, B.
  rewrite pi64_val. change (bpow radix2 (-52)) with (/ IZR 4503599627370496). apply Rabs_le. unfold Q2R in L, U. lra.
Qed.

(** One rounding, away from the ends of the range. *)
Definition lo : R := bpow radix2 (-1000).
Definition hi : R := bpow radix2 1000.
Lemma lo_pos : 0 < lo. Proof. apply bpow_gt_0. Qed.
Lemma hi_pos : 0 < hi. Proof. apply bpow_gt_0. Qed.
Lemma tiny_lo : tiny * 4194304 = lo.
Proof. unfold tiny, lo. change (IZR 4194304) with (bpow radix2 22). rewrite <- bpow_plus. reflexivity. Qed.
Lemma top_hi : top = hi * 16777216.
Proof. unfold top, hi. change (IZR 16777216) with (bpow radix2 24). rewrite <- bpow_plus. reflexivity. Qed.
Lemma u64_val : u64 = / IZR 9007199254740992. Proof. reflexivity. Qed.
Definition mid (r : R) : Prop := lo <= Rabs r * 262144 /\ Rabs r <= hi * 262144.
Lemma sxrnd_mid r : mid r -> exists e, Rabs e <= u64 /\ sxrnd r = Finite (r * (1 + e)).
Proof.
  intros [L H]. pose proof tiny_lo as TL. pose proof top_hi as TH. pose proof lo_pos as LP. pose proof hi_pos as HP. pose proof u64_val as U.
  assert (T : tiny <= Rabs r) by lra. assert (N : r <> 0). { intros ->. rewrite Rabs_R0 in L. lra. }
  pose proof (rnd_rel r T) as E. exists (rnd r / r - 1). split.
  - replace (rnd r / r - 1) with ((rnd r - r) * / r) by (field; auto). rewrite Rabs_mult, Rabs_inv.
    apply (Rmult_le_reg_r (Rabs r)); [apply Rabs_pos_lt; auto|]. rewrite Rmult_assoc, Rinv_l by (apply Rabs_no_R0; auto). lra.
  - unfold sxrnd. replace (r * (1 + (rnd r / r - 1))) with (rnd r) by (field; auto). rewrite Rlt_bool_true; auto.
    pose proof (Rabs_triang (rnd r - r) r) as TR. replace (rnd r - r + r) with (rnd r) in TR by ring.
    assert (u64 * Rabs r <= 1 * Rabs r) by (apply Rmult_le_compat_r; [apply Rabs_pos|rewrite U; lra]). lra.
Qed.
Lemma of_val (x : f64) r : is_number x -> xval x = Finite r -> is_finite x = true /\ B2R x = r.
Proof. destruct x as [s|[]| |s m e H]; intros N E; try discriminate; cbn in *; injection E as <-; auto. Qed.
Lemma mul_mid x k : is_finite x = true -> fpos k -> mid (B2R x * B2R k) ->
  exists e, Rabs e <= u64 /\ is_finite (f64_mul x k) = true /\ B2R (f64_mul x k) = B2R x * B2R k * (1 + e).
Proof. intros F K M. destruct (sxrnd_mid _ M) as (e & E & V). destruct (mul_pos x k F K) as [N X]. rewrite V in X. exists e. split; auto. apply of_val; auto. Qed.
Lemma div_mid x k : is_finite x = true -> fpos k -> mid (B2R x / B2R k) ->
  exists e, Rabs e <= u64 /\ is_finite (f64_div x k) = true /\ B2R (f64_div x k) = B2R x / B2R k * (1 + e).
Proof. intros F K M. destruct (sxrnd_mid _ M) as (e & E & V). destruct (div_pos x k F K) as [N X]. rewrite V in X. exists e. split; auto. apply of_val; auto. Qed.
(** a value of ordinary size times a factor of ordinary size *)
Lemma mid_of x c : lo <= Rabs x <= hi -> / 262144 <= Rabs c <= 262144 -> mid (x * c).
Proof.
  intros [L H] [A B]. unfold mid. rewrite Rabs_mult. pose proof lo_pos. pose proof hi_pos. pose proof (Rabs_pos x). split.
  - apply Rle_trans with (lo * 1); [lra|]. rewrite Rmult_assoc. apply Rmult_le_compat; lra.
  - apply Rmult_le_compat; lra.
Qed.
Lemma one_e e : Rabs e <= u64 -> 0.999999 <= 1 + e <= 1.000001.
Proof. intros E. apply Rabs_le_inv in E. rewrite u64_val in E. lra. Qed.

Lemma rad_err x : is_finite x = true -> lo <= Rabs (B2R x) <= hi -> exists a b, Rabs a <= u64 /\ Rabs b <= u64 /\ is_finite (rad64 x) = true /\ B2R (rad64 x) = B2R x * B2R pi64 / 180 * (1 + a) * (1 + b).
Proof.
  intros F R. unfold to_radians. fold c180. cbn [mul div f64_ops]. destruct c180_val as [_ CV].
  destruct (mul_mid x pi64 F pi64_pos) as (a & A & G & V). { apply mid_of; auto. rewrite pi64_val. rewrite Rabs_pos_eq; lra. }
  destruct (div_mid (f64_mul x pi64) c180 G c180_pos) as (b & B & H & W).
  { rewrite V, CV. pose proof (one_e a A). replace (B2R x * B2R pi64 * (1 + a) / 180) with (B2R x * (B2R pi64 * (1 + a) / 180)) by field.
    apply mid_of; auto. rewrite pi64_val. rewrite Rabs_pos_eq; lra. }
  exists a, b. split; [auto|]. split; [auto|]. split; [auto|]. rewrite W, V, CV. field.
Qed.
Lemma deg_err x c : is_finite x = true -> / 100 <= c <= 100 -> (exists y, lo <= Rabs y <= hi /\ B2R x = y * c) ->
  exists a b, Rabs a <= u64 /\ Rabs b <= u64 /\ is_finite (deg64 x) = true /\ B2R (deg64 x) = B2R x * 180 / B2R pi64 * (1 + a) * (1 + b).
Proof.
  intros F R (y & Y & E). unfold to_degrees. fold c180. cbn [mul div f64_ops]. destruct c180_val as [_ CV].
  destruct (mul_mid x c180 F c180_pos) as (a & A & G & V). { rewrite CV, E, Rmult_assoc. apply mid_of; auto. rewrite Rabs_pos_eq; lra. }
  destruct (div_mid (f64_mul x c180) pi64 G pi64_pos) as (b & B & H & W).
  { rewrite V, CV, E. pose proof (one_e a A). replace (y * c * 180 * (1 + a) / B2R pi64) with (y * (c * 180 * (1 + a) * / B2R pi64)) by (field; rewrite pi64_val; lra).
    apply mid_of; auto. rewrite pi64_val. rewrite Rabs_pos_eq; [|nra]. split; nra. }
  exists a, b. split; [auto|]. split; [auto|]. split; [auto|]. rewrite W, V, CV. field. rewrite pi64_val. lra.
Qed.

Lemma errs2 a b : Rabs a <= u64 -> Rabs b <= u64 -> Rabs ((1 + a) * (1 + b) - 1) <= 2.1 * u64.
Proof.
  intros A B. replace ((1 + a) * (1 + b) - 1) with (a + b + a * b) by ring. pose proof (Rabs_triang (a + b) (a * b)) as T. pose proof (Rabs_triang a b) as T2.
  rewrite Rabs_mult in T. assert (Rabs a * Rabs b <= u64 * u64) by (apply Rmult_le_compat; auto using Rabs_pos).
  assert (u64 * u64 <= u64 * 0.01) by (apply Rmult_le_compat_l; rewrite u64_val; lra). assert (0 < u64) by (rewrite u64_val; lra). lra.
Qed.
Lemma errs c d m n : Rabs (c - 1) <= m * u64 -> Rabs (d - 1) <= n * u64 -> 0 <= m <= 5 -> 0 <= n <= 5 -> Rabs (c * d - 1) <= (m + n + 0.1) * u64.
Proof.
  intros C D M N. replace (c * d - 1) with ((c - 1) + (d - 1) + (c - 1) * (d - 1)) by ring.
  pose proof (Rabs_triang (c - 1 + (d - 1)) ((c - 1) * (d - 1))) as T. pose proof (Rabs_triang (c - 1) (d - 1)) as T2. rewrite Rabs_mult in T.
  assert (P : 0 < u64) by (rewrite u64_val; lra).
  assert (Rabs (c - 1) * Rabs (d - 1) <= (5 * u64) * (5 * u64)) by (apply Rmult_le_compat; try apply Rabs_pos; eapply Rle_trans; try eassumption; apply Rmult_le_compat_r; lra).
  assert (u64 * (25 * u64) <= u64 * 0.1) by (apply Rmult_le_compat_l; rewrite u64_val; lra). lra.
Qed.
Lemma pi_rel : Rabs (B2R pi64 / PI - 1) <= 1 * u64 /\ Rabs (PI / B2R pi64 - 1) <= 1 * u64.
Proof.
  pose proof pi_error as E. pose proof pi64_val as V. assert (P : 3 < PI).
  { apply Rabs_le_inv in E. change (bpow radix2 (-52)) with (/ IZR 4503599627370496) in E. rewrite V in E. lra. }
  assert (W : 3 < B2R pi64) by (rewrite V; lra).
  assert (G : forall p q, 3 < q -> Rabs (p - q) <= bpow radix2 (-52) -> Rabs (p / q - 1) <= 1 * u64).
  { intros p q Q D. replace (p / q - 1) with ((p - q) * / q) by (field; lra). rewrite Rabs_mult, Rabs_inv, (Rabs_pos_eq q) by lra.
    apply (Rmult_le_reg_r q); [lra|]. rewrite Rmult_assoc, Rinv_l by lra. rewrite u64_val. change (bpow radix2 (-52)) with (/ IZR 4503599627370496) in D. lra. }
  split; apply G; auto. rewrite Rabs_minus_sym. exact E.
Qed.
Lemma scaled e c k : Rabs (e - 1) <= k * u64 -> Rabs (c * e - c) <= k * u64 * Rabs c.
Proof. intros E. replace (c * e - c) with ((e - 1) * c) by ring. rewrite Rabs_mult. apply Rmult_le_compat_r; auto using Rabs_pos. Qed.

(** Both conversions are accurate to four roundings for every f64 of magnitude 2^-1000 to 2^1000, and never overflow there. *)
Theorem C74_accuracy_f64 : forall x : f64, is_finite x = true -> bpow radix2 (-1000) <= Rabs (B2R x) <= bpow radix2 1000 ->
  is_finite (rad64 x) = true /\ is_finite (deg64 x) = true /\
  Rabs (B2R (rad64 x) - B2R x * PI / 180) <= 4 * bpow radix2 (-53) * Rabs (B2R x * PI / 180) /\
  Rabs (B2R (deg64 x) - B2R x * 180 / PI) <= 4 * bpow radix2 (-53) * Rabs (B2R x * 180 / PI).
Proof.
  intros x F R. fold u64. pose proof pi_rel as [P Q]. pose proof PI_RGT_0 as PP. assert (0 < B2R pi64) by (rewrite pi64_val; lra).
  destruct (rad_err x F R) as (a & b & A & B & G & V). destruct (deg_err x 1 F) as (c & d & C & D & H2 & W); [lra|exists (B2R x); split; [auto|ring]|].
  assert (U : 0 < u64) by (rewrite u64_val; lra).
  split; [auto|]. split; [auto|]. split.
  - rewrite V. replace (B2R x * B2R pi64 / 180 * (1 + a) * (1 + b)) with (B2R x * PI / 180 * ((1 + a) * (1 + b) * (B2R pi64 / PI))) by (field; lra).
    apply scaled. apply Rle_trans with ((2.1 + 1 + 0.1) * u64); [|apply Rmult_le_compat_r; lra]. apply errs; auto using errs2; lra.
  - rewrite W. replace (B2R x * 180 / B2R pi64 * (1 + c) * (1 + d)) with (B2R x * 180 / PI * ((1 + c) * (1 + d) * (PI / B2R pi64))) by (field; lra).
    apply scaled. apply Rle_trans with ((2.1 + 1 + 0.1) * u64); [|apply Rmult_le_compat_r; lra]. apply errs; auto using errs2; lra.
Qed.
(** Converting there and back returns the angle to within five roundings. *)
Theorem C74_round_trip_f64_partial : forall x : f64, is_finite x = true -> bpow radix2 (-1000) <= Rabs (B2R x) <= bpow radix2 1000 ->
  is_finite (deg64 (rad64 x)) = true /\ Rabs (B2R (deg64 (rad64 x)) - B2R x) <= 5 * bpow radix2 (-53) * Rabs (B2R x).
Proof.
  intros x F R. fold u64. destruct (rad_err x F R) as (a & b & A & B & G & V). assert (0 < B2R pi64) by (rewrite pi64_val; lra). assert (U : 0 < u64) by (rewrite u64_val; lra).
  pose proof (one_e a A). pose proof (one_e b B).
  destruct (deg_err (rad64 x) (B2R pi64 / 180 * ((1 + a) * (1 + b))) G) as (c & d & C & D & H2 & W).
  { rewrite pi64_val. assert (0.99 <= (1 + a) * (1 + b) <= 1.01) by nra. lra. }
  { exists (B2R x). split; auto. rewrite V. field. }
  split; auto. rewrite W, V. replace (B2R x * B2R pi64 / 180 * (1 + a) * (1 + b) * 180 / B2R pi64 * (1 + c) * (1 + d)) with (B2R x * ((1 + a) * (1 + b) * ((1 + c) * (1 + d)))) by (field; lra).
  apply scaled. apply Rle_trans with ((2.1 + 2.1 + 0.1) * u64); [|apply Rmult_le_compat_r; lra]. apply errs; auto using errs2; lra.
Qed.
(** It does not return it exactly: eleven degrees comes back as 10.999999999999998. *)
Theorem C74_round_trip_f64_refuted : exists x : f64, B2R x = 11 /\ B2R (deg64 (rad64 x)) < 11.
Proof.
  exists (f64_of_Z 11). assert (E : B2SF (f64_of_Z 11) = SpecFloat.S754_finite false 6192449487634432 (-49)) by reflexivity.
  assert (G : B2SF (deg64 (rad64 (f64_of_Z 11))) = SpecFloat.S754_finite false 6192449487634431 (-49)) by reflexivity.
  rewrite <- !SF2R_B2SF, E, G. cbn [SF2R]. unfold F2R. cbn [Fnum Fexp SpecFloat.cond_Zopp]. change (bpow radix2 (-49)) with (/ IZR 562949953421312). lra.
Qed.
Example C74_nontrivial : radR 90 = PI / 2 /\ le (f64_of_Z 11) (f64_of_Z 12) /\
  is_finite (f64_of_Z 11) = true /\ bpow radix2 (-1000) <= Rabs (B2R (f64_of_Z 11)) <= bpow radix2 1000.
Proof.
  assert (E : B2SF (f64_of_Z 11) = SpecFloat.S754_finite false 6192449487634432 (-49)) by reflexivity.
  split. { unfold to_radians. rewrite lit180. cbn [mul div Rops]. field. }
  split; [reflexivity|]. split; [rewrite <- is_finite_SF_B2SF, E; reflexivity|].
  assert (V : B2R (f64_of_Z 11) = 11). { rewrite <- SF2R_B2SF, E. cbn [SF2R]. unfold F2R. cbn [Fnum Fexp SpecFloat.cond_Zopp]. change (bpow radix2 (-49)) with (/ IZR 562949953421312). lra. }
  rewrite V, Rabs_pos_eq by lra. split.
  - apply Rle_trans with (bpow radix2 0); [apply bpow_le; lia|cbn; lra].
  - apply Rle_trans with (bpow radix2 4); [cbn; lra|apply bpow_le; lia].
Qed.
