(** C118: over one full period the draws are equidistributed. *)
From Coq Require Import NArith ZArith Reals Lra Lia Bool List.
From Verif Require Import RandModel RandProofs Floats RandRealModel RandProps.
Import ListNotations.
Open Scope N_scope.

(** ** Specification *)
(** exactly [n] of the draws of a full period, numbered from 0, satisfy [P] *)
Definition times_per_period (n : N) (P : N -> Prop) : Prop :=
  exists l : list N, NoDup l /\ N.of_nat (length l) = n /\ forall k, In k l <-> k < 2 ^ 64 - 1 /\ P k.

Lemma times_ext n (P Q : N -> Prop) : (forall k, P k <-> Q k) -> times_per_period n P -> times_per_period n Q.
Proof.
  intros H (l & A & B & C). exists l. split; [exact A|]. split; [exact B|]. intros k. rewrite C, H. reflexivity.
Qed.
Lemma times_unique n m P : times_per_period n P -> times_per_period m P -> n = m.
Proof.
  intros (l & A & <- & C) (l' & A' & <- & C'). f_equal. apply Nat.le_antisymm; apply NoDup_incl_length; auto; intros k Hk.
  - apply C', C, Hk.
  - apply C, C', Hk.
Qed.

(** every interval of words that leaves out 0 is hit as often as it has members *)
Theorem C118_words : forall seed lo hi, seed < 2 ^ 64 -> 0 < lo -> lo <= hi -> hi <= 2 ^ 64 ->
  times_per_period (hi - lo) (fun k => lo <= draw seed k < hi).
Proof.
  intros seed lo hi Hs Hlo Hle Hhi. replace hi with (lo + (hi - lo)) in * by lia.
  generalize (hi - lo) Hhi. clear hi Hle Hhi. intros n. rewrite N.add_sub_swap, N.sub_diag, N.add_0_l by lia.
  induction n as [|n IH] using N.peano_ind; intros Hn.
  - exists []. split; [constructor|]. split; [reflexivity|]. intros k. split; [intros []|lia].
  - destruct (IH ltac:(lia)) as (l & A & B & C).
    destruct (C19_every_output_once seed (lo + n) Hs ltac:(lia)) as (k0 & [K1 K2] & K3).
    exists (k0 :: l). split; [|split].
    + constructor; [|exact A]. intros I. apply C in I. lia.
    + cbn [length]. rewrite Nat2N.inj_succ, B. reflexivity.
    + intros k. cbn [In]. rewrite C. split.
      * intros [<-|I]; lia.
      * intros [I1 I2]. destruct (N.eq_dec (draw seed k) (lo + n)) as [E|E]; [left; apply K3; auto|right; lia].
Qed.

(** ... and an interval that starts at 0 once less *)
Theorem C118_words_from_zero : forall seed hi, seed < 2 ^ 64 -> 0 < hi -> hi <= 2 ^ 64 ->
  times_per_period (hi - 1) (fun k => draw seed k < hi).
Proof.
  intros seed hi Hs H0 Hhi. eapply times_ext; [|apply (C118_words seed 1 hi Hs ltac:(lia) ltac:(lia) Hhi)].
  intros k. pose proof (C19_zero_never_output seed k Hs). cbv beta. lia.
Qed.

Lemma numerator_draw seed k : next_numerator (state_after seed k) = draw seed k / 2 ^ 11.
Proof. unfold next_numerator. rewrite N.shiftr_div_pow2. reflexivity. Qed.

Lemma block w v : (w / 2048 < v <-> w < v * 2048) /\ (v <= w / 2048 <-> v * 2048 <= w).
Proof.
  pose proof (N.div_mod w 2048 ltac:(discriminate)) as D. pose proof (N.mod_lt w 2048 ltac:(discriminate)) as M.
  generalize dependent (w / 2048). generalize dependent (w mod 2048). intros r M q ->. split; split; intros; nia.
Qed.

Lemma numerator_value seed k v :
  (next_real_f64 (state_after seed k) < IZR (Z.of_N v) / IZR (2 ^ 53))%R <-> draw seed k < v * 2 ^ 11.
Proof.
  rewrite next_real_f64_eq, numerator_draw.
  assert (P : (0 < / IZR (2 ^ 53))%R) by (apply Rinv_0_lt_compat, IZR_lt; lia).
  assert (E : (IZR (Z.of_N (draw seed k / 2 ^ 11)) / IZR (2 ^ 53) < IZR (Z.of_N v) / IZR (2 ^ 53))%R <-> draw seed k / 2 ^ 11 < v).
  { unfold Rdiv. split; intros H.
    - apply Rmult_lt_reg_r in H; [|exact P]. apply lt_IZR in H. lia.
    - apply Rmult_lt_compat_r; [exact P|]. apply IZR_lt. lia. }
  rewrite E. change (2 ^ 11) with 2048. apply block.
Qed.

(** The distribution function: of the 2^64 - 1 draws of a period, v * 2^11 - 1 are below v/2^53.
    So the share of draws in [0, x) differs from x by less than 2^-53. *)
Theorem C118_f64_below : forall seed v, seed < 2 ^ 64 -> 0 < v -> v <= 2 ^ 53 ->
  times_per_period (v * 2 ^ 11 - 1) (fun k => (next_real_f64 (state_after seed k) < IZR (Z.of_N v) / IZR (2 ^ 53))%R).
Proof.
  intros seed v Hs H0 Hv. eapply times_ext; [|apply (C118_words_from_zero seed (v * 2 ^ 11) Hs)].
  - intros k. cbv beta. symmetry. apply numerator_value.
  - change (2 ^ 11) with 2048. lia.
  - change (2 ^ 64) with (2 ^ 53 * 2 ^ 11). apply N.mul_le_mono_r, Hv.
Qed.

(** Every attainable value other than 0 is returned exactly 2^11 times, and 0 once less. *)
Theorem C118_f64_equal_counts : forall seed v, seed < 2 ^ 64 -> v < 2 ^ 53 ->
  times_per_period (if v =? 0 then 2 ^ 11 - 1 else 2 ^ 11)
    (fun k => next_real_f64 (state_after seed k) = (IZR (Z.of_N v) / IZR (2 ^ 53))%R).
Proof.
  intros seed v Hs Hv.
  assert (Q : forall k, v * 2 ^ 11 <= draw seed k < (v + 1) * 2 ^ 11 <->
                next_real_f64 (state_after seed k) = (IZR (Z.of_N v) / IZR (2 ^ 53))%R).
  { intros k. pose proof (numerator_value seed k v) as A. rewrite next_real_f64_eq, numerator_draw in *.
    assert (P : (0 < / IZR (2 ^ 53))%R) by (apply Rinv_0_lt_compat, IZR_lt; lia).
    change (2 ^ 11) with 2048 in *. destruct (block (draw seed k) v) as [_ B1]. destruct (block (draw seed k) (v + 1)) as [B2 _].
    rewrite <- B1, <- B2. generalize dependent (draw seed k / 2048). intros q A _ _. split; intros H.
    - replace q with v by lia. reflexivity.
    - unfold Rdiv in H. apply Rmult_eq_reg_r in H; [|lra]. apply eq_IZR in H. lia. }
  destruct (N.eqb_spec v 0) as [->|Nz].
  - eapply times_ext; [exact Q|]. eapply times_ext; [|apply (C118_words_from_zero seed (2 ^ 11) Hs); [reflexivity|discriminate]].
    intros k. cbv beta. change (2 ^ 11) with 2048. lia.
  - eapply times_ext; [exact Q|]. replace (2 ^ 11) with ((v + 1) * 2 ^ 11 - v * 2 ^ 11) at 1 by lia.
    apply C118_words; [exact Hs|lia|lia|]. change (2 ^ 64) with (2 ^ 53 * 2 ^ 11). apply N.mul_le_mono_r. lia.
Qed.

(** In single precision 2^39 draws of a period, one in about 2^25, return 1. *)
Theorem C118_f32_ones : forall seed, seed < 2 ^ 64 ->
  times_per_period (2 ^ 39) (fun k => next_real_f32 (state_after seed k) = 1%R).
Proof.
  intros seed Hs. eapply times_ext; [|apply (C118_words seed (2 ^ 64 - 2 ^ 39) (2 ^ 64) Hs); [reflexivity|discriminate|lia]].
  intros k. cbv beta. rewrite C20_f32_one_iff_partial, numerator_draw.
  pose proof (C19_zero_never_output seed k Hs) as [_ L].
  assert (E : (2 ^ 53 - 2 ^ 28 <= Z.of_N (draw seed k / 2 ^ 11))%Z <-> 2 ^ 53 - 2 ^ 28 <= draw seed k / 2 ^ 11) by lia.
  rewrite E. change (2 ^ 11) with 2048. rewrite (proj2 (block (draw seed k) (2 ^ 53 - 2 ^ 28))).
  change ((2 ^ 53 - 2 ^ 28) * 2048) with (2 ^ 64 - 2 ^ 39). tauto.
Qed.

(** No other count fits: the numbers above are not just lower bounds. *)
Example C118_nontrivial :
  times_per_period (2 ^ 11) (fun k => next_real_f64 (state_after 1 k) = (IZR 2529537253518747 / IZR (2 ^ 53))%R) /\
  ~ times_per_period 7 (fun k => next_real_f64 (state_after 1 k) = (IZR 2529537253518747 / IZR (2 ^ 53))%R).
Proof.
  pose proof (C118_f64_equal_counts 1 2529537253518747 ltac:(reflexivity) ltac:(reflexivity)) as H.
  split; [exact H|]. intros H'. pose proof (times_unique _ _ _ H H') as E. discriminate E.
Qed.
