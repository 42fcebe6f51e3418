(** C111, continued: the counter read as joules *)
From Coq Require DecimalN DecimalPos.
From Coq Require Import Ascii String Reals Lra NArith ZArith List Bool Lia.
From Flocq Require Import Core BinarySingleNaN.
From Verif Require Import Text F64 RealModel RealProps BenchModel BenchEnergyModel.
Import ListNotations.

(** * Digits *)
Fixpoint value (s : str) (acc : N) : N := match s with [] => acc | c :: s => value s (acc * 10 + (c - 48))%N end.
Lemma value_le s : forall acc, (acc <= value s acc)%N.
Proof. induction s as [|c s IH]; intros acc; cbn [value]; [lia|]. specialize (IH (acc * 10 + (c - 48))%N). lia. Qed.
Definition digit (c : N) : Prop := (48 <= c <= 57)%N.
Lemma parse_digits_ok s : forall acc, Forall digit s -> (value s acc < 2 ^ 64)%N -> parse_digits s acc = Some (value s acc).
Proof.
  induction s as [|c s IH]; intros acc H L; cbn [parse_digits value] in *; [reflexivity|]. inversion H as [|? ? Hc Hs]; subst. destruct Hc as (H1 & H2).
  apply N.leb_le in H1, H2. rewrite H1, H2. cbn [andb]. pose proof (value_le s (acc * 10 + (c - 48))). replace (2 ^ 64 <=? acc * 10 + (c - 48))%N with false by (symmetry; apply N.leb_gt; lia). apply IH; assumption.
Qed.
(** soundness: what is accepted is a string of digits standing for that number *)
Lemma parse_digits_sound s : forall acc n, (acc < 2 ^ 64)%N -> parse_digits s acc = Some n -> Forall digit s /\ n = value s acc /\ (n < 2 ^ 64)%N.
Proof.
  induction s as [|c s IH]; intros acc n La H; cbn [parse_digits value] in *; [injection H as <-; repeat split; [constructor|exact La]|].
  destruct (48 <=? c)%N eqn:E1; [|discriminate]. destruct (c <=? 57)%N eqn:E2; [|discriminate]. cbn [andb] in H. destruct (2 ^ 64 <=? acc * 10 + (c - 48))%N eqn:E3; [discriminate|]. apply N.leb_gt in E3. apply N.leb_le in E1, E2.
  destruct (IH _ _ E3 H) as (A & B & C). repeat split; auto. constructor; [split; assumption|assumption].
Qed.
Lemma digits_digit d : Forall digit (digits_of d).
Proof. induction d; cbn [digits_of]; constructor; try assumption; unfold digit; lia. Qed.
Lemma value_pos d : forall p, value (digits_of d) (Npos p) = Npos (Pos.of_uint_acc d p).
Proof.
  induction d as [| | | | | | | | | |]; intros p; cbn [digits_of value Pos.of_uint_acc]; [reflexivity|..]; rewrite <- IHd; f_equal; lia.
Qed.
Lemma value_uint d : value (digits_of d) 0 = N.of_uint d.
Proof.
  unfold N.of_uint. induction d; cbn [digits_of value Pos.of_uint]; try reflexivity; try apply IHd; change (0 * 10 + (49 - 48))%N with 1%N || change (0 * 10 + (50 - 48))%N with 2%N || change (0 * 10 + (51 - 48))%N with 3%N || change (0 * 10 + (52 - 48))%N with 4%N || change (0 * 10 + (53 - 48))%N with 5%N || change (0 * 10 + (54 - 48))%N with 6%N || change (0 * 10 + (55 - 48))%N with 7%N || change (0 * 10 + (56 - 48))%N with 8%N || change (0 * 10 + (57 - 48))%N with 9%N; apply value_pos.
Qed.
Lemma show_value n : value (show_u64 n) 0 = n. Proof. unfold show_u64. rewrite value_uint. apply DecimalN.Unsigned.of_to. Qed.
Lemma show_nonempty n : show_u64 n <> [].
Proof. intros E. unfold show_u64 in E. destruct (N.to_uint n) eqn:Eu; try discriminate. destruct n as [|p]; [discriminate|]. cbn in Eu. revert Eu. apply DecimalPos.Unsigned.to_uint_nonnil. Qed.
Lemma digit_not_ws c : digit c -> is_ws c = false.
Proof. intros (A & B). unfold is_ws. repeat match goal with |- context [(?a <=? ?b)%N] => destruct (N.leb_spec a b); try lia | |- context [(?a =? ?b)%N] => destruct (N.eqb_spec a b); try lia end; reflexivity. Qed.
Lemma trim_digits s ws : s <> [] -> Forall digit s -> Forall (fun c => is_ws c = true) ws -> trim (s ++ ws) = s.
Proof.
  intros Ne H W. assert (T : forall a b, Forall (fun c => is_ws c = true) a -> trim_start (a ++ b) = trim_start b). { induction a as [|x a IH]; intros b Ha; cbn; [reflexivity|]. inversion Ha; subst. rewrite H2. apply IH. assumption. }
  assert (K : forall a b, a <> [] -> Forall digit a -> trim_start (a ++ b) = a ++ b). { intros [|x a] b Na Ha; [contradiction|]. inversion Ha; subst. cbn. rewrite digit_not_ws by assumption. reflexivity. }
  unfold trim. rewrite K by assumption. rewrite rev_app_distr, T by (apply Forall_rev; exact W). pose proof (K (rev s) []) as Kr. rewrite app_nil_r in Kr. rewrite Kr; [apply rev_involutive| |apply Forall_rev, H]. intros E. apply Ne. rewrite <- (rev_involutive s), E. reflexivity.
Qed.
Lemma parse_show n : (n < 2 ^ 64)%N -> parse_u64 (show_u64 n) = Some n.
Proof.
  intros H. pose proof (show_nonempty n) as Ne. pose proof (show_value n) as V. pose proof (digits_digit (N.to_uint n)) as D. fold (show_u64 n) in D. unfold parse_u64. destruct (show_u64 n) as [|c r] eqn:E; [contradiction|].
  pose proof (Forall_inv D) as Hc. replace (c =? 43)%N with false by (symmetry; apply N.eqb_neq; destruct Hc; lia). rewrite parse_digits_ok; [rewrite V; reflexivity|exact D|rewrite V; exact H].
Qed.

(** * The value in joules *)
Local Open Scope R_scope.
Local Instance p53 : Prec_gt_0 53 := eq_refl.
Local Instance e53 : Prec_lt_emax 53 1024 := eq_refl.
Notation float64 := (binary_float 53 1024).
Lemma of_int_round k : (0 <= k < 2 ^ 64)%Z -> is_finite (of_int k : float64) = true /\ B2R (of_int k : float64) = rnd (IZR k).
Proof.
  intros Hk. pose proof (binary_normalize_correct 53 1024 _ _ mode_NE k 0 false) as C. cbn zeta in C. fold (@of_int 53 1024 _ _ k) in C. replace (F2R (Float radix2 k 0)) with (IZR k) in C by (unfold F2R; cbn; ring).
  rewrite Rlt_bool_true in C; [split; apply C|]. apply Rle_lt_trans with (bpow radix2 64); [|apply bpow_lt; lia].
  apply abs_round_le_generic; [apply fexp_correct; reflexivity|auto with typeclass_instances|apply generic_format_bpow; unfold SpecFloat.fexp, SpecFloat.emin; lia|].
  rewrite <- abs_IZR, <- IZR_Zpower by lia. apply IZR_le. cbn. lia.
Qed.
Lemma million : is_finite (of_int 1000000 : float64) = true /\ B2R (of_int 1000000 : float64) = 1000000.
Proof. apply C104_ints_exact. lia. Qed.
Lemma million_pos : fpos (of_int 1000000). Proof. destruct million as (A & B). split; [exact A|]. rewrite B. lra. Qed.
Definition joules (n : N) : f64 := f64_div (of_int (Z.of_N n)) (of_int 1000000).

Theorem C111_energy : forall n ws, (n < 2 ^ 64)%N -> Forall (fun c => is_ws c = true) ws ->
  exists x : f64, read_total_j (Some (show_u64 n ++ ws)) = Some x /\ is_finite x = true /\
  Rabs (B2R x - IZR (Z.of_N n) / 1000000) <= 3 * bpow radix2 (-53) * (IZR (Z.of_N n) / 1000000).
Proof.
  intros n ws Hn Hws. exists (joules n). unfold read_total_j. rewrite trim_digits; [|apply show_nonempty|apply digits_digit|exact Hws]. rewrite parse_show by exact Hn. split; [reflexivity|].
  destruct (of_int_round (Z.of_N n)) as (F1 & V1); [lia|]. destruct million as (F2 & V2). set (x := of_int (Z.of_N n) : float64) in *. set (N := IZR (Z.of_N n)) in *.
  assert (N0 : 0 <= N) by (apply IZR_le; lia). assert (NB : N <= bpow radix2 64). { rewrite <- IZR_Zpower by lia. apply IZR_le. cbn. lia. }
  destruct (Req_dec N 0) as [Z|Nz].
  - assert (X0 : B2R x = 0) by (rewrite V1, Z; unfold rnd; apply round_0; auto with typeclass_instances). pose proof (Bdiv_correct 53 1024 _ _ mode_NE x (of_int 1000000) ltac:(rewrite V2; lra)) as C. rewrite X0 in C. unfold Rdiv in C at 1. rewrite Rmult_0_l in C. rewrite round_0 in C by auto with typeclass_instances. rewrite Rabs_R0, Rlt_bool_true in C by apply bpow_gt_0.
    fold (f64_div x (of_int 1000000)) in C. fold (joules n) in C. unfold joules. fold x. destruct C as (C1 & C2 & _). unfold Rdiv in C1. rewrite Rmult_0_l, round_0 in C1 by auto with typeclass_instances. split; [change (is_finite (f64_div x (of_int 1000000)) = true); rewrite <- F1; exact C2|]. change (f64_div x (of_int 1000000)) with (Bdiv mode_NE x (of_int 1000000)). rewrite C1, Z. replace (0 - 0 / 1000000) with 0 by field. rewrite Rabs_R0. lra.
  - assert (N1 : 1 <= N). { apply IZR_le. assert (Z.of_N n <> 0)%Z by (intros E; apply Nz; unfold N; rewrite E; reflexivity). lia. }
    assert (T1 : tiny <= 1) by (unfold tiny; change 1 with (bpow radix2 0); apply bpow_le; lia). pose proof (rnd_rel N) as R1. rewrite (Rabs_pos_eq N N0) in R1. specialize (R1 ltac:(lra)). rewrite <- V1 in R1.
    assert (Us : 0 < u64 <= / 1000000). { split; [apply bpow_gt_0|]. unfold u64. apply Rle_trans with (bpow radix2 (-20)); [apply bpow_le; lia|]. cbn. lra. }
    set (q := B2R x / 1000000) in *. apply Rabs_le_inv in R1. assert (uN : u64 * N <= / 1000000 * N) by (apply Rmult_le_compat_r; lra).
    assert (Q1 : / 2000000 <= q) by (unfold q; lra). assert (Q2 : q <= N) by (unfold q; lra).
    assert (T2 : tiny <= / 2000000). { unfold tiny. apply Rle_trans with (bpow radix2 (-30)); [apply bpow_le; lia|]. cbn. lra. }
    pose proof (rnd_rel q) as R2. rewrite (Rabs_pos_eq q) in R2 by lra. specialize (R2 ltac:(lra)).
    pose proof (Bdiv_correct 53 1024 _ _ mode_NE x (of_int 1000000) ltac:(rewrite V2; lra)) as C. rewrite V2 in C. fold q in C. change (round radix2 (SpecFloat.fexp 53 1024) (round_mode mode_NE) q) with (rnd q) in C.
    assert (uq : u64 * q <= / 1000000 * q) by (apply Rmult_le_compat_r; lra).
    rewrite Rlt_bool_true in C. 2:{ apply Rabs_le_inv in R2. rewrite Rabs_pos_eq by lra. apply Rle_lt_trans with (bpow radix2 65); [|apply bpow_lt; lia]. change 65%Z with (64 + 1)%Z. rewrite bpow_plus. change (bpow radix2 1) with 2. lra. }
    destruct C as (C1 & C2 & _). split; [change (is_finite (Bdiv mode_NE x (of_int 1000000)) = true); rewrite C2; exact F1|]. unfold joules. fold x. change (f64_div x (of_int 1000000)) with (Bdiv mode_NE x (of_int 1000000)). rewrite C1. fold u64.
    apply Rabs_le_inv in R2. apply Rabs_le. fold (u64). change (bpow radix2 (-53)) with u64. assert (Bq : q <= N / 1000000 * (1 + u64)) by (unfold q; lra). assert (u64 * q <= u64 * (N / 1000000 * (1 + u64))) by (apply Rmult_le_compat_l; lra).
    assert (u64 * (N / 1000000 * u64) <= / 1000000 * (N / 1000000 * u64)). { apply Rmult_le_compat_r; [|lra]. apply Rmult_le_pos; lra. } split; unfold q in *; lra.
Qed.
(** a counter that has grown is not reported smaller; anything but digits (and a plus sign) is refused *)
Theorem C111_energy_monotone : forall n m, (n <= m)%N -> (m < 2 ^ 64)%N -> Bleb (joules n) (joules m) = true.
Proof.
  intros n m H Hm. pose proof (C104_ints_monotone_partial (Z.of_N n) (Z.of_N m) ltac:(lia) ltac:(lia)) as L. destruct (leb_number _ _ L) as (N1 & N2). apply f64_leb in L; auto.
  apply f64_leb; unfold joules; auto using div_pos_number, million_pos, div_pos_mono.
Qed.
Theorem C111_energy_refuses : forall s x, read_total_j (Some s) = Some x ->
  exists d, (trim s = d \/ trim s = 43%N :: d) /\ d <> [] /\ Forall digit d /\ (value d 0 < 2 ^ 64)%N /\ x = joules (value d 0).
Proof.
  intros s x H. unfold read_total_j, parse_u64 in H. destruct (trim s) as [|c r] eqn:E; [discriminate|]. destruct (N.eqb_spec c 43) as [->|Nc].
  - destruct r as [|c' r]; [discriminate|]. destruct (parse_digits (c' :: r) 0) as [n|] eqn:Ep; [|discriminate]. injection H as <-. destruct (parse_digits_sound _ 0%N _ eq_refl Ep) as (A & -> & B). exists (c' :: r). repeat split; auto. discriminate.
  - destruct (parse_digits (c :: r) 0) as [n|] eqn:Ep; [|discriminate]. injection H as <-. destruct (parse_digits_sound _ 0%N _ eq_refl Ep) as (A & -> & B). exists (c :: r). repeat split; auto. discriminate.
Qed.
Example C111_energy_nontrivial : exists x, read_total_j (Some (text "123456789" ++ [NL])) = Some x /\ 123 < B2R x < 124 /\ read_total_j (Some (text "-5")) = None.
Proof.
  destruct (C111_energy 123456789 [NL]) as (x & E & _ & B); [reflexivity|repeat constructor|]. exists x. split; [exact E|]. split; [|reflexivity]. cbn [Z.of_N] in B. change (bpow radix2 (-53)) with (/ 9007199254740992) in B. apply Rabs_le_inv in B. lra.
Qed.
