(** Signed f64 arithmetic: every finite operation rounds the exact result, overflowing to an infinity of its sign,
    and its relative error. *)
From Coq Require Import ZArith Reals Lra Lia Bool.
From Coquelicot Require Import Rbar.
From Flocq Require Import Core Relative Plus_error BinarySingleNaN.
From Verif Require Import Scalar F64.
Local Open Scope R_scope.
Local Existing Instance F64.prec_gt_0_53.
Local Existing Instance F64.prec_lt_emax_53.

Lemma sign_ge (x : f64) : is_finite x = true -> Bsign x = false -> 0 <= B2R x.
Proof.
  intros F S. destruct (Req_dec (B2R x) 0) as [E|N]; [lra|]. rewrite (sign_neg x F N) in S.
  destruct (Rlt_bool_spec (B2R x) 0); [discriminate|lra].
Qed.
Lemma sign_le (x : f64) : is_finite x = true -> Bsign x = true -> B2R x <= 0.
Proof.
  intros F S. destruct (Req_dec (B2R x) 0) as [E|N]; [lra|]. rewrite (sign_neg x F N) in S.
  destruct (Rlt_bool_spec (B2R x) 0); [lra|discriminate].
Qed.
Lemma top_pos : 0 < top. Proof. apply bpow_gt_0. Qed.
Lemma over_nz r : Rlt_bool (Rabs (rnd r)) top = false -> r <> 0.
Proof. intros E Z. rewrite Z, rnd_0, Rabs_R0, Rlt_bool_true in E; [discriminate|apply top_pos]. Qed.
Lemma over_val (z : f64) s r : B2SF z = SpecFloat.S754_infinity s -> (s = true -> r < 0) -> (s = false -> 0 <= r) ->
  is_number z /\ xval z = if Rlt_bool r 0 then m_infty else p_infty.
Proof.
  intros H A B. apply sf_inf in H. rewrite H. split; [reflexivity|]. rewrite inf_val.
  destruct s; [rewrite Rlt_bool_true by auto|rewrite Rlt_bool_false by auto]; reflexivity.
Qed.
Lemma add_s x y : is_finite x = true -> is_finite y = true -> is_number (f64_add x y) /\ xval (f64_add x y) = sxrnd (B2R x + B2R y).
Proof.
  intros Fx Fy. pose proof (Bplus_correct 53 1024 _ _ mode_NE x y Fx Fy) as H. fold (f64_add x y) in H.
  change (round radix2 (SpecFloat.fexp 53 1024) (round_mode mode_NE) (B2R x + B2R y)) with (rnd (B2R x + B2R y)) in H.
  fold top in H. unfold sxrnd. destruct (Rlt_bool (Rabs (rnd (B2R x + B2R y))) top) eqn:E.
  - destruct H as (H1 & H2 & _). split; [apply finite_number, H2|]. rewrite xval_finite by auto. rewrite H1. reflexivity.
  - apply over_nz in E. destruct H as (H1 & H2). cbn in H1. apply (over_val _ _ _ H1).
    + intros S. pose proof (sign_le x Fx S). rewrite H2 in S. pose proof (sign_le y Fy S). lra.
    + intros S. pose proof (sign_ge x Fx S). rewrite H2 in S. pose proof (sign_ge y Fy S). lra.
Qed.
Lemma sub_s x y : is_finite x = true -> is_finite y = true -> is_number (f64_sub x y) /\ xval (f64_sub x y) = sxrnd (B2R x - B2R y).
Proof.
  intros Fx Fy. pose proof (Bminus_correct 53 1024 _ _ mode_NE x y Fx Fy) as H. fold (f64_sub x y) in H.
  change (round radix2 (SpecFloat.fexp 53 1024) (round_mode mode_NE) (B2R x - B2R y)) with (rnd (B2R x - B2R y)) in H.
  fold top in H. unfold sxrnd. destruct (Rlt_bool (Rabs (rnd (B2R x - B2R y))) top) eqn:E.
  - destruct H as (H1 & H2 & _). split; [apply finite_number, H2|]. rewrite xval_finite by auto. rewrite H1. reflexivity.
  - apply over_nz in E. destruct H as (H1 & H2). cbn in H1. apply (over_val _ _ _ H1).
    + intros S. pose proof (sign_le x Fx S). rewrite H2 in S. apply negb_true_iff in S. pose proof (sign_ge y Fy S). lra.
    + intros S. pose proof (sign_ge x Fx S). rewrite H2 in S. apply negb_false_iff in S. pose proof (sign_le y Fy S). lra.
Qed.
Lemma mul_s x y : is_finite x = true -> is_finite y = true -> is_number (f64_mul x y) /\ xval (f64_mul x y) = sxrnd (B2R x * B2R y).
Proof.
  intros Fx Fy. pose proof (Bmult_correct 53 1024 _ _ mode_NE x y) as H. fold (f64_mul x y) in H.
  change (round radix2 (SpecFloat.fexp 53 1024) (round_mode mode_NE) (B2R x * B2R y)) with (rnd (B2R x * B2R y)) in H.
  fold top in H. unfold sxrnd. destruct (Rlt_bool (Rabs (rnd (B2R x * B2R y))) top) eqn:E.
  - destruct H as (H1 & H2 & _). rewrite Fx, Fy in H2. cbn in H2. split; [apply finite_number, H2|]. rewrite xval_finite by auto. rewrite H1. reflexivity.
  - apply over_nz in E. cbn in H. apply (over_val _ _ _ H).
    + intros S. destruct (Bsign x) eqn:Sx, (Bsign y) eqn:Sy; try discriminate; repeat match goal with H : Bsign _ = true |- _ => apply sign_le in H; auto | H : Bsign _ = false |- _ => apply sign_ge in H; auto end; nra.
    + intros S. destruct (Bsign x) eqn:Sx, (Bsign y) eqn:Sy; try discriminate; repeat match goal with H : Bsign _ = true |- _ => apply sign_le in H; auto | H : Bsign _ = false |- _ => apply sign_ge in H; auto end; nra.
Qed.

(** additions and subtractions have a relative error of at most 2^-53, subnormal results included *)
Lemma u_small : 0 < u64 < / 1000000.
Proof. split; [apply bpow_gt_0|]. unfold u64. apply Rlt_trans with (bpow radix2 (-20)); [apply bpow_lt; lia|]. cbn. lra. Qed.
Lemma u_ro_eq : u_ro radix2 53 = u64.
Proof. unfold u_ro, u64. change (-(53) + 1)%Z with (-53 + 1)%Z. rewrite bpow_plus. change (bpow radix2 1) with 2. lra. Qed.
Lemma fma_s x y z : is_finite x = true -> is_finite y = true -> is_finite z = true ->
  is_number (Bfma mode_NE x y z : f64) /\ xval (Bfma mode_NE x y z) = sxrnd (B2R x * B2R y + B2R z).
Proof.
  intros Fx Fy Fz. pose proof (Bfma_correct 53 1024 _ _ mode_NE x y z Fx Fy Fz) as H. cbv zeta in H.
  change (round radix2 (SpecFloat.fexp 53 1024) (round_mode mode_NE) (B2R x * B2R y + B2R z)) with (rnd (B2R x * B2R y + B2R z)) in H.
  fold top in H. unfold sxrnd. destruct (Rlt_bool (Rabs (rnd (B2R x * B2R y + B2R z))) top) eqn:E.
  - destruct H as (H1 & H2 & _). split; [apply finite_number, H2|]. rewrite xval_finite by auto. rewrite H1. reflexivity.
  - cbn in H. apply (over_val _ _ _ H); intros S; destruct (Rlt_bool_spec (B2R x * B2R y + B2R z) 0); auto; discriminate.
Qed.
Lemma rnd_sum (x y : f64) : exists e, Rabs e <= u64 /\ rnd (B2R x + B2R y) = (B2R x + B2R y) * (1 + e).
Proof.
  destruct (FLT_plus_error_N_ex radix2 (-1074) 53 (fun z => negb (Z.even z)) (B2R x) (B2R y)) as (e & H1 & H2); auto using generic_format_B2R; try reflexivity.
  - exact (generic_format_B2R 53 1024 x).
  - exact (generic_format_B2R 53 1024 y).
  - exists e. split; [|exact H2]. rewrite u_ro_eq in H1. pose proof u_small. eapply Rle_trans; [exact H1|].
    apply Rmult_le_reg_r with (1 + u64); [lra|]. unfold Rdiv. rewrite Rmult_assoc, Rinv_l by lra. nra.
Qed.
Lemma B2R_opp (y : f64) : B2R (Bopp y) = - B2R y. Proof. apply B2R_Bopp. Qed.
Lemma rnd_diff (x y : f64) : exists e, Rabs e <= u64 /\ rnd (B2R x - B2R y) = (B2R x - B2R y) * (1 + e).
Proof. destruct (rnd_sum x (Bopp y)) as (e & H1 & H2). rewrite B2R_opp in H2. exists e. split; auto. Qed.
