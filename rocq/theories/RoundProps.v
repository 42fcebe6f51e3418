(** C105: the rounding error of dot products, matrix products and the vector kernels, for f32, f64 and every other width. *)
From Coq Require Import ZArith Reals Lra Lia Bool Arith List.
From Flocq Require Import Core Relative Plus_error BinarySingleNaN.
From Verif Require Import Scalar RSum LinModel LinSpec LinProofs SimdModel SimdProofs SimdProps FloatModel.
Local Open Scope R_scope.

(** * Specification *)
(** half a unit in the last place of 1, and half the smallest positive number *)
Definition unit (prec : Z) : R := bpow radix2 (- prec).
Definition tiny (prec emax : Z) : R := / 2 * bpow radix2 (3 - emax - prec).
(** the largest number of the format *)
Definition largest (prec emax : Z) : R := bpow radix2 emax - bpow radix2 (emax - prec).
(** [x] is the result of a computation of [X] whose terms have absolute values summing to [T]:
    at most [n] roundings in a row, [c] of which may underflow *)
Definition close (prec emax : Z) (n c : nat) (x X T : R) : Prop :=
  Rabs (x - X) <= ((1 + unit prec) ^ n - 1) * T + INR c * tiny prec emax * (1 + unit prec) ^ n.

Section Width.
Context (prec emax : Z) {P : Prec_gt_0 prec} {M : Prec_lt_emax prec emax}.
Local Notation fl := (binary_float prec emax).
Local Notation u := (unit prec).
Local Notation eta := (tiny prec emax).
Local Notation o := (float_ops prec emax).
Local Notation rd := (round radix2 (SpecFloat.fexp prec emax) ZnearestE).
Local Instance vexp : Valid_exp (SpecFloat.fexp prec emax) := fexp_correct prec emax P.

Lemma u_pos : 0 < u. Proof. apply bpow_gt_0. Qed.
Lemma eta_pos : 0 < eta. Proof. unfold tiny. pose proof (bpow_gt_0 radix2 (3 - emax - prec)). lra. Qed.
Lemma pow1 n : 1 <= (1 + u) ^ n. Proof. apply pow_R1_Rle. pose proof u_pos. lra. Qed.
Lemma pow_mono n m : (n <= m)%nat -> (1 + u) ^ n <= (1 + u) ^ m.
Proof. intros L. apply Rle_pow; [pose proof u_pos; lra|exact L]. Qed.
Lemma uro : u_ro radix2 prec = u.
Proof. unfold u_ro, unit. rewrite bpow_plus. change (bpow radix2 1) with 2. lra. Qed.
(** one rounding *)
Lemma rd_err r : exists e d, Rabs e <= u /\ Rabs d <= eta /\ rd r = r * (1 + e) + d.
Proof.
  destruct (error_N_FLT radix2 (3 - emax - prec) prec P (fun z => negb (Z.even z)) r) as (e & d & A & B & _ & D).
  exists e, d. split; [|split; [exact B|exact D]]. replace u with (/ 2 * bpow radix2 (- prec + 1)); [exact A|].
  unfold unit. rewrite bpow_plus. change (bpow radix2 1) with 2. lra.
Qed.
Lemma rd_sum (x y : fl) : exists e, Rabs e <= u /\ rd (B2R x + B2R y) = (B2R x + B2R y) * (1 + e).
Proof.
  destruct (FLT_plus_error_N_ex radix2 (3 - emax - prec) prec (fun z => negb (Z.even z)) (B2R x) (B2R y)) as (e & A & B).
  - exact (generic_format_B2R prec emax x).
  - exact (generic_format_B2R prec emax y).
  - exists e. split; [|exact B]. rewrite uro in A. pose proof u_pos. eapply Rle_trans; [exact A|].
    apply Rmult_le_reg_r with (1 + u); [lra|]. unfold Rdiv. rewrite Rmult_assoc, Rinv_l by lra. nra.
Qed.
Lemma rd_id (x : fl) : rd (B2R x) = B2R x.
Proof. apply round_generic; [apply valid_rnd_N|apply generic_format_B2R]. Qed.
(** a real of magnitude at most [largest] does not overflow *)
Lemma largest_fmt : generic_format radix2 (SpecFloat.fexp prec emax) (largest prec emax).
Proof.
  pose proof P as Pp. unfold Prec_gt_0 in Pp. pose proof M as Me. unfold Prec_lt_emax in Me.
  replace (largest prec emax) with (F2R (Float radix2 (2 ^ prec - 1) (emax - prec))).
  - apply generic_format_FLT. eapply (FLT_spec radix2 (3 - emax - prec) prec _ (Float radix2 (2 ^ prec - 1) (emax - prec))); cbn [Fnum Fexp radix_val radix2]; [reflexivity| |unfold Prec_lt_emax in *; lia].
    pose proof (Z.pow_pos_nonneg 2 prec ltac:(lia) ltac:(lia)). lia.
  - unfold F2R, largest. cbn [Fnum Fexp]. rewrite minus_IZR. change 2%Z with (radix_val radix2) at 1. rewrite IZR_Zpower by lia.
    rewrite Rmult_minus_distr_r, <- bpow_plus. replace (prec + (emax - prec))%Z with emax by lia. ring.
Qed.
Lemma no_over r : Rabs r <= largest prec emax -> Rlt_bool (Rabs (rd r)) (bpow radix2 emax) = true.
Proof.
  intros L. apply Rlt_bool_true. apply Rle_lt_trans with (largest prec emax).
  - apply abs_round_le_generic; [apply vexp|apply valid_rnd_N|apply largest_fmt|exact L].
  - unfold largest. pose proof (bpow_gt_0 radix2 (emax - prec)). lra.
Qed.

(** * A finite result has finite operands and is the rounded exact result *)
Lemma sf_over (z : fl) b : B2SF z = binary_overflow prec emax mode_NE b -> is_finite z = false.
Proof. destruct z; cbn; intros H; try discriminate; reflexivity. Qed.
Lemma add_fin (x y : fl) : is_finite (add o x y) = true -> is_finite x = true /\ is_finite y = true /\ B2R (add o x y) = rd (B2R x + B2R y).
Proof.
  cbn [add float_ops]. intros H. assert (is_finite x = true /\ is_finite y = true) as [Fx Fy].
  { destruct x as [s|s| |s m e B], y as [s'|s'| |s' m' e' B']; cbn in H; auto; try discriminate; destruct (Bool.eqb s s'); discriminate. }
  split; [exact Fx|split; [exact Fy|]]. pose proof (Bplus_correct prec emax _ _ mode_NE x y Fx Fy) as C. cbn [round_mode] in C.
  destruct (Rlt_bool _ _); [apply C|]. destruct C as [C _]. apply sf_over in C. congruence.
Qed.
Lemma mul_fin (x y : fl) : is_finite (mul o x y) = true -> is_finite x = true /\ is_finite y = true /\ B2R (mul o x y) = rd (B2R x * B2R y).
Proof.
  cbn [mul float_ops]. intros H. assert (is_finite x = true /\ is_finite y = true) as [Fx Fy].
  { destruct x as [s|s| |s m e B], y as [s'|s'| |s' m' e' B']; cbn in H; auto; discriminate. }
  split; [exact Fx|split; [exact Fy|]]. pose proof (Bmult_correct prec emax _ _ mode_NE x y) as C. cbn [round_mode] in C.
  destruct (Rlt_bool _ _); [apply C|]. apply sf_over in C. congruence.
Qed.
Lemma fma_fin (x y z : fl) : is_finite (fma o x y z) = true ->
  is_finite x = true /\ is_finite y = true /\ is_finite z = true /\ B2R (fma o x y z) = rd (B2R x * B2R y + B2R z).
Proof.
  cbn [fma float_ops]. intros H. assert (is_finite x = true /\ is_finite y = true /\ is_finite z = true) as (Fx & Fy & Fz).
  { destruct x as [s|s| |s m e B], y as [s'|s'| |s' m' e' B'], z as [s2|s2| |s2 m2 e2 B2]; cbn in H; auto; try discriminate;
      match type of H with context [if ?b then _ else _] => destruct b end; discriminate. }
  split; [exact Fx|split; [exact Fy|split; [exact Fz|]]]. pose proof (Bfma_correct prec emax _ _ mode_NE x y z Fx Fy Fz) as C. cbv zeta in C. cbn [round_mode] in C.
  destruct (Rlt_bool _ _); [apply C|]. apply sf_over in C. congruence.
Qed.
Lemma add_ok (x y : fl) : is_finite x = true -> is_finite y = true -> Rabs (B2R x + B2R y) <= largest prec emax -> is_finite (add o x y) = true.
Proof.
  intros Fx Fy L. cbn [add float_ops]. pose proof (Bplus_correct prec emax _ _ mode_NE x y Fx Fy) as C. cbn [round_mode] in C. rewrite (no_over _ L) in C. apply C.
Qed.
Lemma mul_ok (x y : fl) : is_finite x = true -> is_finite y = true -> Rabs (B2R x * B2R y) <= largest prec emax -> is_finite (mul o x y) = true.
Proof.
  intros Fx Fy L. cbn [mul float_ops]. pose proof (Bmult_correct prec emax _ _ mode_NE x y) as C. cbn [round_mode] in C. rewrite (no_over _ L), Fx, Fy in C. apply C.
Qed.
Lemma fma_ok (x y z : fl) : is_finite x = true -> is_finite y = true -> is_finite z = true -> Rabs (B2R x * B2R y + B2R z) <= largest prec emax -> is_finite (fma o x y z) = true.
Proof.
  intros Fx Fy Fz L. cbn [fma float_ops]. pose proof (Bfma_correct prec emax _ _ mode_NE x y z Fx Fy Fz) as C. cbv zeta in C. cbn [round_mode] in C. rewrite (no_over _ L) in C. apply C.
Qed.

(** * How the error grows *)
Local Notation close := (close prec emax).
Definition good (n c : nat) (x : fl) (X T : R) : Prop := is_finite x = true /\ close n c (B2R x) X T.
Lemma close_mono n c n' c' x X T : (n <= n')%nat -> (c <= c')%nat -> 0 <= T -> close n c x X T -> close n' c' x X T.
Proof.
  unfold RoundProps.close. intros Ln Lc HT H. eapply Rle_trans; [exact H|]. pose proof (pow_mono n n' Ln). pose proof (pow1 n). pose proof eta_pos. apply le_INR in Lc. pose proof (pos_INR c).
  apply Rplus_le_compat; [apply Rmult_le_compat_r; lra|]. apply Rmult_le_compat; try lra; [apply Rmult_le_pos; lra|apply Rmult_le_compat_r; lra].
Qed.
Lemma close_exact x T : 0 <= T -> close 0 0 x x T.
Proof. intros H. unfold RoundProps.close. rewrite Rminus_diag_eq by reflexivity. rewrite Rabs_R0. cbn. lra. Qed.
Lemma close_mul (x y : fl) : is_finite (mul o x y) = true -> close 1 1 (B2R (mul o x y)) (B2R x * B2R y) (Rabs (B2R x * B2R y)).
Proof.
  intros H. destruct (mul_fin x y H) as (_ & _ & E). rewrite E. destruct (rd_err (B2R x * B2R y)) as (e & d & A & B & ->). unfold RoundProps.close.
  set (r := B2R x * B2R y). replace (r * (1 + e) + d - r) with (e * r + d) by ring. pose proof u_pos. pose proof eta_pos.
  eapply Rle_trans; [apply Rabs_triang|]. rewrite Rabs_mult. pose proof (Rabs_pos r). cbn [pow INR]. nra.
Qed.
Lemma close_add n c m d (x y : fl) X Y T U : is_finite (add o x y) = true -> Rabs X <= T -> Rabs Y <= U ->
  close n c (B2R x) X T -> close m d (B2R y) Y U -> close (S (Nat.max n m)) (c + d) (B2R (add o x y)) (X + Y) (T + U).
Proof.
  intros H HX HY Cx Cy. destruct (add_fin x y H) as (_ & _ & E). rewrite E. destruct (rd_sum x y) as (e & A & ->).
  pose proof (Rabs_pos X). pose proof (Rabs_pos Y).
  apply (close_mono n c (Nat.max n m) c) in Cx; [|lia|lia|lra]. apply (close_mono m d (Nat.max n m) d) in Cy; [|lia|lia|lra].
  set (k := Nat.max n m) in *. unfold RoundProps.close in *. rewrite plus_INR. cbn [pow]. pose proof (pow1 k) as Pk. set (q := (1 + u) ^ k) in *.
  pose proof u_pos as Hu. pose proof eta_pos as He. pose proof (pos_INR c). pose proof (pos_INR d).
  replace ((B2R x + B2R y) * (1 + e) - (X + Y)) with ((B2R x - X) * (1 + e) + ((B2R y - Y) * (1 + e) + (X + Y) * e)) by ring.
  assert (A1 : Rabs (1 + e) <= 1 + u) by (eapply Rle_trans; [apply Rabs_triang|]; rewrite Rabs_R1; lra).
  eapply Rle_trans; [apply Rabs_triang|]. eapply Rle_trans; [apply Rplus_le_compat_l, Rabs_triang|]. rewrite !Rabs_mult.
  assert (B1 : Rabs (B2R x - X) * Rabs (1 + e) <= ((q - 1) * T + INR c * eta * q) * (1 + u)) by (apply Rmult_le_compat; auto using Rabs_pos).
  assert (B2 : Rabs (B2R y - Y) * Rabs (1 + e) <= ((q - 1) * U + INR d * eta * q) * (1 + u)) by (apply Rmult_le_compat; auto using Rabs_pos).
  assert (B3 : Rabs (X + Y) * Rabs e <= (T + U) * u).
  { apply Rmult_le_compat; auto using Rabs_pos. eapply Rle_trans; [apply Rabs_triang|]. lra. }
  lra.
Qed.
Lemma close_fma n c (x y z : fl) Z T : is_finite (fma o x y z) = true -> Rabs Z <= T ->
  close n c (B2R z) Z T -> close (S n) (S c) (B2R (fma o x y z)) (B2R x * B2R y + Z) (Rabs (B2R x * B2R y) + T).
Proof.
  intros H HZ Cz. destruct (fma_fin x y z H) as (_ & _ & _ & E). rewrite E. destruct (rd_err (B2R x * B2R y + B2R z)) as (e & d & A & B & ->).
  set (r := B2R x * B2R y). unfold RoundProps.close in *. rewrite S_INR. cbn [pow]. pose proof (pow1 n) as Pk. set (q := (1 + u) ^ n) in *.
  pose proof u_pos as Hu. pose proof eta_pos as He. pose proof (pos_INR c). pose proof (Rabs_pos Z). pose proof (Rabs_pos r).
  replace ((r + B2R z) * (1 + e) + d - (r + Z)) with ((B2R z - Z) * (1 + e) + ((r + Z) * e + d)) by ring.
  assert (A1 : Rabs (1 + e) <= 1 + u) by (eapply Rle_trans; [apply Rabs_triang|]; rewrite Rabs_R1; lra).
  eapply Rle_trans; [apply Rabs_triang|]. eapply Rle_trans; [apply Rplus_le_compat_l, Rabs_triang|]. rewrite !Rabs_mult.
  assert (B1 : Rabs (B2R z - Z) * Rabs (1 + e) <= ((q - 1) * T + INR c * eta * q) * (1 + u)) by (apply Rmult_le_compat; auto using Rabs_pos).
  assert (B3 : Rabs (r + Z) * Rabs e <= (Rabs r + T) * u).
  { apply Rmult_le_compat; auto using Rabs_pos. eapply Rle_trans; [apply Rabs_triang|]. lra. }
  assert (q * (1 + u) - 1 >= u) by nra. assert (0 <= eta * ((1 + u) * q - 1)) by nra. assert (0 <= Rabs r * ((1 + u) * q - 1 - u)) by (apply Rmult_le_pos; nra). lra.
Qed.
(** adding zero is exact *)
Lemma add_zero (x : fl) : is_finite (add o (zero o) x) = true -> is_finite x = true /\ B2R (add o (zero o) x) = B2R x.
Proof. intros H. destruct (add_fin _ _ H) as (_ & F & E). split; [exact F|]. rewrite E. cbn [zero float_ops B2R]. rewrite Rplus_0_l. apply rd_id. Qed.
Lemma size n c x X T : Rabs X <= T -> close n c x X T -> Rabs x <= (1 + u) ^ n * T + INR c * eta * (1 + u) ^ n.
Proof. unfold RoundProps.close. intros H C. replace x with (x - X + X) by ring. eapply Rle_trans; [apply Rabs_triang|]. lra. Qed.
Definition absdot n (x y : nat -> fl) : R := sum n (fun k => Rabs (B2R (x k) * B2R (y k))).
Definition exdot n (x y : nat -> fl) : R := sum n (fun k => B2R (x k) * B2R (y k)).
Lemma exdot_le n x y : Rabs (exdot n x y) <= absdot n x y. Proof. apply sum_Rabs. Qed.
Lemma absdot_pos n x y : 0 <= absdot n x y. Proof. apply sum_pos. intros. apply Rabs_pos. Qed.

(** one more term, fused or not, in either order of the factors *)
Inductive step (x y z : fl) : fl -> Prop :=
| Unfused : step x y z (add o z (mul o x y))
| Fused : step x y z (fma o x y z)
| FusedSwapped : step x y z (fma o y x z).
Lemma chain n (x y : nat -> fl) (s : nat -> fl) : s 0%nat = zero o -> (forall k, (k < n)%nat -> step (x k) (y k) (s k) (s (S k))) ->
  is_finite (s n) = true -> close n n (B2R (s n)) (exdot n x y) (absdot n x y).
Proof.
  intros S0. induction n as [|n IH]; intros St F.
  - rewrite S0. cbn [B2R zero float_ops]. apply close_exact, absdot_pos.
  - assert (Fn : is_finite (s n) = true). { pose proof (St n ltac:(lia)) as Q. remember (s (S n)) as w eqn:Ew; clear Ew; destruct Q; [apply add_fin in F; tauto|apply fma_fin in F; tauto|apply fma_fin in F; tauto]. }
    assert (C : close n n (B2R (s n)) (exdot n x y) (absdot n x y)) by (apply IH; auto).
    pose proof (St n ltac:(lia)) as Q. unfold exdot, absdot. cbn [sum]. fold (exdot n x y) (absdot n x y). clear St IH. remember (s (S n)) as w eqn:Ew; clear Ew; destruct Q.
    + destruct n as [|n].
      * rewrite S0 in F |- *. destruct (add_zero _ F) as [Fm ->]. cbn [sum exdot absdot]. rewrite !Rplus_0_l. apply close_mul, Fm.
      * destruct (add_fin _ _ F) as (_ & Fm & _). pose proof (close_add (S n) (S n) 1 1 _ _ _ _ _ _ F (exdot_le _ _ _) (Rle_refl _) C (close_mul _ _ Fm)) as R.
        replace (S (Nat.max (S n) 1)) with (S (S n)) in R by lia. replace (S n + 1)%nat with (S (S n)) in R by lia. exact R.
    + rewrite (Rplus_comm (exdot n x y)), (Rplus_comm (absdot n x y)). apply close_fma; [exact F|apply exdot_le|exact C].
    + rewrite (Rplus_comm (exdot n x y)), (Rplus_comm (absdot n x y)), (Rmult_comm (B2R (x n))). apply close_fma; [exact F|apply exdot_le|exact C].
Qed.
(** no overflow when the bound on the result is within range *)
Definition bound n (x y : nat -> fl) : R := (1 + u) ^ n * absdot n x y + INR n * eta * (1 + u) ^ n.
Lemma bound_mono n x y : bound n x y <= bound (S n) x y.
Proof.
  unfold bound. pose proof (pow_mono n (S n) ltac:(lia)). pose proof (pow1 n). pose proof eta_pos. pose proof (absdot_pos n x y). pose proof (pos_INR n).
  assert (absdot n x y <= absdot (S n) x y) by (unfold absdot at 2; cbn [sum]; fold (absdot n x y); pose proof (Rabs_pos (B2R (x n) * B2R (y n))); lra).
  rewrite S_INR. apply Rplus_le_compat; apply Rmult_le_compat; try lra. apply Rmult_le_pos; lra.
Qed.
Lemma chain_fin n (x y : nat -> fl) (s : nat -> fl) : s 0%nat = zero o -> (forall k, (k < n)%nat -> step (x k) (y k) (s k) (s (S k))) ->
  (forall k, (k < n)%nat -> is_finite (x k) = true /\ is_finite (y k) = true) -> bound n x y <= largest prec emax -> is_finite (s n) = true.
Proof.
  intros S0. induction n as [|n IH]; intros St Fi B.
  - rewrite S0. reflexivity.
  - assert (Fn : is_finite (s n) = true) by (apply IH; auto; eapply Rle_trans; [apply bound_mono|exact B]).
    assert (C : close n n (B2R (s n)) (exdot n x y) (absdot n x y)) by (apply chain; auto).
    destruct (Fi n ltac:(lia)) as [Fx Fy]. pose proof (size _ _ _ _ _ (exdot_le n x y) C) as Sz.
    pose proof (absdot_pos n x y) as Ta. set (p := B2R (x n) * B2R (y n)). pose proof (Rabs_pos p) as Pp.
    assert (Bn : bound (S n) x y = (1 + u) * (1 + u) ^ n * (absdot n x y + Rabs p) + (INR n + 1) * eta * ((1 + u) * (1 + u) ^ n)) by (unfold bound; rewrite S_INR; reflexivity).
    pose proof u_pos as Hu. pose proof eta_pos as He. pose proof (pow1 n) as Pk. pose proof (pos_INR n) as In. set (q := (1 + u) ^ n) in *.
    assert (Q1 : q <= (1 + u) * q) by nra. assert (Q2 : 1 + u <= (1 + u) * q) by nra.
    assert (T1 : q * absdot n x y <= (1 + u) * q * absdot n x y) by (apply Rmult_le_compat_r; lra).
    assert (T2 : INR n * eta * q <= INR n * eta * ((1 + u) * q)) by (apply Rmult_le_compat_l; [apply Rmult_le_pos; lra|lra]).
    assert (T3 : (1 + u) * Rabs p <= (1 + u) * q * Rabs p) by (apply Rmult_le_compat_r; lra).
    assert (T4 : eta <= eta * ((1 + u) * q)) by nra.
    pose proof (St n ltac:(lia)) as Q. clear St IH. remember (s (S n)) as w eqn:Ew; clear Ew; destruct Q.
    + assert (Fm : is_finite (mul o (x n) (y n)) = true) by (apply mul_ok; auto; fold p; pose proof (Rmult_le_pos _ _ (Rlt_le _ _ Hu) Pp); assert (0 <= (1 + u) * q * absdot n x y) by (apply Rmult_le_pos; nra); assert (0 <= INR n * eta * ((1 + u) * q)) by (apply Rmult_le_pos; [apply Rmult_le_pos; lra|lra]); lra).
      apply add_ok; auto. destruct (mul_fin _ _ Fm) as (_ & _ & Em). fold p in Em. rewrite Em. destruct (rd_err p) as (e & d & A & D & ->).
      eapply Rle_trans; [apply Rabs_triang|]. assert (Rabs (p * (1 + e) + d) <= Rabs p * (1 + u) + eta).
      { eapply Rle_trans; [apply Rabs_triang|]. rewrite Rabs_mult. assert (Rabs (1 + e) <= 1 + u) by (eapply Rle_trans; [apply Rabs_triang|]; rewrite Rabs_R1; lra).
        apply Rplus_le_compat; [apply Rmult_le_compat_l; lra|lra]. }
      lra.
    + apply fma_ok; auto. fold p. eapply Rle_trans; [apply Rabs_triang|]. nra.
    + apply fma_ok; auto. rewrite (Rmult_comm (B2R (y n))). fold p. eapply Rle_trans; [apply Rabs_triang|]. nra.
Qed.
(** ** Accumulations *)
Lemma accum_close n g (x y : nat -> fl) : (forall k z, (k < n)%nat -> step (x k) (y k) z (g k z)) -> is_finite (accum o n g) = true ->
  close n n (B2R (accum o n g)) (exdot n x y) (absdot n x y).
Proof. intros St F. apply (chain n x y (fun k => accum o k g)); [reflexivity|intros k L; apply St, L|exact F]. Qed.
Lemma accum_fin n g (x y : nat -> fl) : (forall k z, (k < n)%nat -> step (x k) (y k) z (g k z)) ->
  (forall k, (k < n)%nat -> is_finite (x k) = true /\ is_finite (y k) = true) -> bound n x y <= largest prec emax -> is_finite (accum o n g) = true.
Proof. intros St Fi B. apply (chain_fin n x y (fun k => accum o k g)); [reflexivity|intros k L; apply St, L|exact Fi|exact B]. Qed.
(** ** Expressions *)
Inductive ev : nat -> nat -> fl -> R -> R -> Prop :=
| ev_zero : ev 0 0 (zero o) 0 0
| ev_mul x y : ev 1 1 (mul o x y) (B2R x * B2R y) (Rabs (B2R x * B2R y))
| ev_add n c m d x y X Y T U : ev n c x X T -> ev m d y Y U -> ev (S (Nat.max n m)) (c + d) (add o x y) (X + Y) (T + U)
| ev_fma n c x y z Z T : ev n c z Z T -> ev (S n) (S c) (fma o x y z) (B2R x * B2R y + Z) (Rabs (B2R x * B2R y) + T).
Lemma ev_le n c x X T : ev n c x X T -> Rabs X <= T.
Proof.
  induction 1; [rewrite Rabs_R0; lra|lra|eapply Rle_trans; [apply Rabs_triang|]; lra|eapply Rle_trans; [apply Rabs_triang|]; lra].
Qed.
Lemma ev_close n c x X T : ev n c x X T -> is_finite x = true -> close n c (B2R x) X T.
Proof.
  induction 1; intros F.
  - apply close_exact. lra.
  - apply close_mul, F.
  - destruct (add_fin _ _ F) as (F1 & F2 & _). apply close_add; auto; eapply ev_le; eassumption.
  - destruct (fma_fin _ _ _ F) as (_ & _ & F2 & _). apply close_fma; auto; eapply ev_le; eassumption.
Qed.
(** [res] is a dot product of n terms computed with error at most that of n roundings *)
Definition dot_close (n : nat) (x y : nat -> fl) (res : fl) : Prop :=
  is_finite res = true ->
  Rabs (B2R res - sum n (fun k => B2R (x k) * B2R (y k))) <=
  ((1 + u) ^ n - 1) * sum n (fun k => Rabs (B2R (x k) * B2R (y k))) + INR n * eta * (1 + u) ^ n.
(** nothing overflows when the terms, slightly enlarged, fit *)
Definition fits (n : nat) (x y : nat -> fl) : Prop :=
  (forall k, (k < n)%nat -> is_finite (x k) = true /\ is_finite (y k) = true) /\
  (1 + u) ^ n * sum n (fun k => Rabs (B2R (x k) * B2R (y k))) + INR n * eta * (1 + u) ^ n <= largest prec emax.

Lemma accum_dot n g (x y : nat -> fl) : (forall k z, (k < n)%nat -> step (x k) (y k) z (g k z)) ->
  dot_close n x y (accum o n g) /\ (fits n x y -> is_finite (accum o n g) = true).
Proof. intros St. split; [intros F; apply accum_close; assumption|intros [A B]; apply (accum_fin n g x y); assumption]. Qed.
Lemma left_dot n (x y : nat -> fl) :
  dot_close n x y (left_sum o n (fun k => mul o (x k) (y k))) /\ (fits n x y -> is_finite (left_sum o n (fun k => mul o (x k) (y k))) = true).
Proof. rewrite <- accum_left_sum. apply accum_dot. intros k z _. apply Unfused. Qed.

(** dot, the matrix-vector product and the matrix product, every size *)
Theorem C105_dot n x y : dot_close n x y (dot o n x y) /\ (fits n x y -> is_finite (dot o n x y) = true).
Proof.
  replace (dot o n x y) with (left_sum o n (fun k => mul o (x k) (y k))); [apply left_dot|]. unfold dot. symmetry.
  induction n as [|n IH]; [reflexivity|]. cbn [left_sum]. rewrite <- IH. unfold for_. rewrite !Nat.sub_0_r, seq_S, fold_left_app. reflexivity.
Qed.
Theorem C105_matrix_vector m n (a : nat -> nat -> fl) v i : (i < m)%nat ->
  dot_close n (a i) v (mul_vector_unrolled o m n a v i) /\ (fits n (a i) v -> is_finite (mul_vector_unrolled o m n a v i) = true).
Proof. intros L. rewrite mul_vector_spec by exact L. apply left_dot. Qed.
Theorem C105_matrix_product m n p (a b : nat -> nat -> fl) : exists r, mul_matrix_strided o m n p a b = Some r /\
  forall i j, (i < m)%nat -> (j < p)%nat ->
  dot_close n (a i) (fun k => b k j) (r i j) /\ (fits n (a i) (fun k => b k j) -> is_finite (r i j) = true).
Proof.
  destruct (mul_matrix_spec o m n p a b) as (r & E & H). exists r. split; [exact E|]. intros i j Hi Hj. rewrite H by assumption. apply (left_dot n (a i) (fun k => b k j)).
Qed.
(** the SIMD matrix products, fused or not, have the same bound *)
Theorem C105_simd_products w m n p (a b : nat -> nat -> fl) : (0 < w)%nat -> exists r1 r2 r3 r4,
  mul_matrix_avx o w m n p a b = Some r1 /\ mul_matrix_avx_fma o w m n p a b = Some r2 /\
  mul_matrix_neon_f32 o m n p a b = Some r3 /\ mul_matrix_neon_f64 o m n p a b = Some r4 /\
  forall r, In r (r1 :: r2 :: r3 :: r4 :: nil) -> forall i j, (i < m)%nat -> (j < p)%nat ->
  dot_close n (a i) (fun k => b k j) (r i j) /\ (fits n (a i) (fun k => b k j) -> is_finite (r i j) = true).
Proof.
  intros Hw. destruct (lanes_spec o w _ _ m n p a b Hw (avx_lanewise o w)) as (r1 & E1 & R1).
  destruct (C27_avx_fma_entries o w m n p a b Hw) as (r2 & E2 & R2). destruct (C27_neon_f32_entries o m n p a b) as (r3 & E3 & R3).
  destruct (C27_neon_f64_entries o m n p a b) as (r4 & E4 & R4). exists r1, r2, r3, r4. split; [exact E1|split; [exact E2|split; [exact E3|split; [exact E4|]]]].
  intros r [<-|[<-|[<-|[<-|[]]]]] i j Hi Hj; rewrite ?R1, ?R2, ?R3, ?R4 by assumption; apply accum_dot; intros k z Hk; destruct (j <? _)%nat; constructor.
Qed.
Lemma mul_comm (x y : fl) : mul o x y = mul o y x.
Proof.
  cbn [mul float_ops]. destruct x as [s|s| |s m e B], y as [s'|s'| |s' m' e' B']; cbn; try reflexivity; try (rewrite xorb_comm; reflexivity).
  apply B2SF_inj. rewrite !B2SF_SF2B, (xorb_comm s'), (Z.add_comm e'), (Pos.mul_comm m'). reflexivity.
Qed.
Theorem C105_neon_fixed (a b : nat -> nat -> fl) :
  (forall r i j, mul_mat3_neon_f32 o a b = Some r \/ mul_mat3_neon_f64 o a b = Some r -> (i < 3)%nat -> (j < 3)%nat -> dot_close 3 (a i) (fun k => b k j) (r i j)) /\
  (forall r i j, mul_mat4_neon_f32 o a b = Some r \/ mul_mat4_neon_f64 o a b = Some r -> (i < 4)%nat -> (j < 4)%nat -> dot_close 4 (a i) (fun k => b k j) (r i j)) /\
  (forall r i j, mul_mat6_neon_f32 o a b = Some r \/ mul_mat6_neon_f64 o a b = Some r -> (i < 6)%nat -> (j < 6)%nat -> dot_close 6 (a i) (fun k => b k j) (r i j)).
Proof.
  destruct (C27_neon_fixed_f64 o a b) as (s3 & s4 & s6 & F3 & G3 & F4 & G4 & F6 & G6).
  destruct (C27_neon_fixed_f32 o mul_comm a b) as (t3 & t4 & t6 & K3 & L3 & K4 & L4 & K6 & L6).
  split; [|split]; intros r i j [E|E] Hi Hj; rewrite ?F3, ?F4, ?F6, ?K3, ?K4, ?K6 in E; injection E as <-; rewrite ?G3, ?G4, ?G6, ?L3, ?L4, ?L6 by assumption;
    first [apply (left_dot _ (a i) (fun k => b k j))|apply accum_dot; intros; constructor].
Qed.
(** the row kernels of the vector products, whatever their order of additions *)
Lemma ev_dot N n c res (v r : nat -> fl) X T : ev n c res X T -> (n <= N)%nat -> (c <= N)%nat ->
  X = sum N (fun k => B2R (r k) * B2R (v k)) -> T = sum N (fun k => Rabs (B2R (r k) * B2R (v k))) -> dot_close N r v res.
Proof.
  intros E Ln Lc EX ET F. subst X T. apply (close_mono n c N N); auto; [apply sum_pos; intros; apply Rabs_pos|apply ev_close; assumption].
Qed.
Theorem C105_row_kernels (v r : nat -> fl) res :
  (In (Some res) (vec4_scalar o v r :: vec4_mul o v r :: vec4_fma o v r :: vec4_neon_f32 o v r :: vec4_neon_f64 o v r :: nil) -> dot_close 4 r v res) /\
  (In (Some res) (vec6_scalar o v r :: vec6_avx_fma_f64 o v r :: vec6_avx_f64 o v r :: vec6_fma128_f64 o v r :: vec6_sse2_f64 o v r ::
     vec6_avx_fma_f32 o v r :: vec6_avx_f32 o v r :: vec6_fma128_f32 o v r :: vec6_sse_f32 o v r :: vec6_neon_f32 o v r :: vec6_neon_f64 o v r :: nil) ->
   dot_close 6 r v res).
Proof.
  split; cbn [In]; intros H.
  - repeat destruct H as [H|H]; try contradiction; injection H as <-;
      (eapply ev_dot; [repeat (apply ev_add || apply ev_fma || apply ev_mul || apply ev_zero)|cbn; lia|cbn; lia|cbn [sum]; ring|cbn [sum]; ring]).
  - repeat destruct H as [H|H]; try contradiction; injection H as <-;
      (eapply ev_dot; [repeat (apply ev_add || apply ev_fma || apply ev_mul || apply ev_zero)|cbn; lia|cbn; lia|cbn [sum]; ring|cbn [sum]; ring]).
Qed.
(** the growth factor is the usual gamma *)
Theorem C105_gamma n : INR n * u < 1 -> (1 + u) ^ n - 1 <= INR n * u / (1 - INR n * u).
Proof.
  intros H. pose proof u_pos as Hu. assert (K : forall k, (k <= n)%nat -> (1 + u) ^ k * (1 - INR k * u) <= 1).
  { induction k as [|k IH]; intros L; [cbn; lra|]. specialize (IH ltac:(lia)). rewrite S_INR. cbn [pow]. pose proof (pow1 k). pose proof (pos_INR k).
    apply Rle_trans with ((1 + u) ^ k * (1 - INR k * u)); [|exact IH]. replace ((1 + u) * (1 + u) ^ k * (1 - (INR k + 1) * u)) with ((1 + u) ^ k * ((1 + u) * (1 - (INR k + 1) * u))) by ring.
    apply Rmult_le_compat_l; [lra|]. assert (0 <= INR k * (u * u)) by (apply Rmult_le_pos; [lra|nra]). nra. }
  specialize (K n (le_n n)). apply Rmult_le_reg_r with (1 - INR n * u); [lra|]. unfold Rdiv. rewrite Rmult_assoc, Rinv_l by lra. lra.
Qed.
End Width.

(** three ones in f32 and in f64 *)
Local Instance p24 : Prec_gt_0 24 := eq_refl.
Local Instance e24 : Prec_lt_emax 24 128 := eq_refl.
Local Instance p53 : Prec_gt_0 53 := eq_refl.
Local Instance e53 : Prec_lt_emax 53 1024 := eq_refl.
Example C105_nontrivial :
  fits 24 128 3 (fun _ => Bone) (fun _ => Bone) /\ fits 53 1024 3 (fun _ => Bone) (fun _ => Bone) /\
  is_finite (dot (float_ops 53 1024) 3 (fun _ => Bone) (fun _ => Bone)) = true.
Proof.
  assert (K : forall prec emax (P : Prec_gt_0 prec) (M : Prec_lt_emax prec emax), (8 <= emax)%Z -> (1 < prec)%Z -> fits prec emax 3 (fun _ => Bone) (fun _ => Bone)).
  { intros prec emax P M L1 L2. split; [intros; split; apply is_finite_Bone|]. cbn [sum pow INR]. rewrite !(Bone_correct prec emax). replace (Rabs (1 * 1)) with 1 by (rewrite Rmult_1_r, Rabs_R1; reflexivity).
    assert (U : unit prec <= / 2) by (unfold unit; apply Rle_trans with (bpow radix2 (-1)); [apply bpow_le; lia|cbn; lra]).
    assert (E : tiny prec emax <= 1) by (unfold tiny; assert (bpow radix2 (3 - emax - prec) <= bpow radix2 0) by (apply bpow_le; lia); change (bpow radix2 0) with 1 in *; lra).
    assert (B : 128 <= largest prec emax).
    { unfold largest. assert (bpow radix2 (emax - prec) <= bpow radix2 (emax - 1)) by (apply bpow_le; lia).
      assert (bpow radix2 7 <= bpow radix2 (emax - 1)) by (apply bpow_le; lia).
      replace (bpow radix2 emax) with (2 * bpow radix2 (emax - 1)) by (change 2 with (bpow radix2 1); rewrite <- bpow_plus; f_equal; lia). change (bpow radix2 7) with 128 in *. lra. }
    pose proof (u_pos prec). pose proof (eta_pos prec emax). set (q := 1 + unit prec). assert (0 < q <= 3 / 2) by (unfold q; lra).
    assert (0 < q * q <= 9 / 4) by nra. assert (q * (q * (q * 1)) <= 4) by nra. nra. }
  split; [apply K; lia|]. assert (F : fits 53 1024 3 (fun _ => Bone) (fun _ => Bone)) by (apply K; lia). split; [exact F|]. apply C105_dot, F.
Qed.
