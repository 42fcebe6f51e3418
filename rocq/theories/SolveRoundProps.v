(** C106: the dense solvers in floating point.  The computed factors and solutions satisfy the equations up to the standard
    backward error, for f32, f64 and every other width. *)
From Coq Require Import ZArith Reals Lra Lia Bool Arith List.
From Flocq Require Import Core Relative Plus_error BinarySingleNaN.
From Verif Require Import Scalar RSum LinModel LinSpec SolveModel LuProofs TriProofs FloatModel RoundProps.
Local Open Scope R_scope.

(** three approximate equations b = L y, y = U x, A = L U give an approximate b = A x *)
Lemma combine N (L U A : nat -> nat -> R) (x y b : nat -> R) g e (c d : nat -> R) (k : nat -> nat -> R) i : (i < N)%nat -> 0 <= g -> 0 <= e ->
  (forall t, (t < N)%nat -> 0 <= d t) ->
  Rabs (b i - sum N (fun t => L i t * y t)) <= g * sum N (fun t => Rabs (L i t * y t)) + c i * e ->
  (forall t, (t < N)%nat -> Rabs (y t - sum N (fun j => U t j * x j)) <= g * sum N (fun j => Rabs (U t j * x j)) + d t * e) ->
  (forall j, (j < N)%nat -> Rabs (A i j - sum N (fun t => L i t * U t j)) <= g * sum N (fun t => Rabs (L i t * U t j)) + k i j * e) ->
  Rabs (b i - sum N (fun j => A i j * x j)) <=
  (3 * g + g * g) * sum N (fun t => sum N (fun j => Rabs (L i t) * Rabs (U t j) * Rabs (x j))) +
  e * (c i + (1 + g) * sum N (fun t => Rabs (L i t) * d t) + sum N (fun j => k i j * Rabs (x j))).
Proof.
  intros Hi Hg He Hd H1 H2 H3. set (W := sum N (fun t => sum N (fun j => Rabs (L i t) * Rabs (U t j) * Rabs (x j)))). set (D := sum N (fun t => Rabs (L i t) * d t)).
  set (r2 := fun t => y t - sum N (fun j => U t j * x j)). set (r3 := fun j => A i j - sum N (fun t => L i t * U t j)).
  assert (W1 : W = sum N (fun t => Rabs (L i t) * sum N (fun j => Rabs (U t j * x j)))).
  { apply sum_ext. intros t Ht. rewrite <- sum_scal. apply sum_ext. intros j Hj. rewrite Rabs_mult. ring. }
  assert (W2 : W = sum N (fun j => sum N (fun t => Rabs (L i t * U t j)) * Rabs (x j))).
  { unfold W. rewrite sum_swap. apply sum_ext. intros j Hj. rewrite <- sum_scal_r. apply sum_ext. intros t Ht. rewrite Rabs_mult. ring. }
  assert (Y : sum N (fun t => Rabs (L i t * y t)) <= (1 + g) * W + D * e).
  { rewrite W1. unfold D. rewrite <- sum_scal, <- sum_scal_r, <- sum_plus. apply sum_le. intros t Ht. rewrite Rabs_mult. pose proof (Rabs_pos (L i t)) as PL. specialize (H2 t Ht).
    assert (Rabs (y t) <= (1 + g) * sum N (fun j => Rabs (U t j * x j)) + d t * e).
    { replace (y t) with (r2 t + sum N (fun j => U t j * x j)) by (unfold r2; ring). eapply Rle_trans; [apply Rabs_triang|]. pose proof (sum_Rabs N (fun j => U t j * x j)). unfold r2. lra. }
    eapply Rle_trans; [apply Rmult_le_compat_l; [exact PL|exact H]|]. lra. }
  assert (R2 : Rabs (sum N (fun t => L i t * r2 t)) <= g * W + D * e).
  { eapply Rle_trans; [apply sum_Rabs|]. rewrite W1. unfold D. rewrite <- sum_scal, <- sum_scal_r, <- sum_plus. apply sum_le. intros t Ht. rewrite Rabs_mult. pose proof (Rabs_pos (L i t)) as PL.
    eapply Rle_trans; [apply Rmult_le_compat_l; [exact PL|exact (H2 t Ht)]|]. lra. }
  assert (R3 : Rabs (sum N (fun j => r3 j * x j)) <= g * W + e * sum N (fun j => k i j * Rabs (x j))).
  { eapply Rle_trans; [apply sum_Rabs|]. rewrite W2. rewrite <- !sum_scal, <- sum_plus. apply sum_le. intros j Hj. rewrite Rabs_mult. pose proof (Rabs_pos (x j)) as Px.
    eapply Rle_trans; [apply Rmult_le_compat_r; [exact Px|exact (H3 j Hj)]|]. lra. }
  assert (E : b i - sum N (fun j => A i j * x j) = (b i - sum N (fun t => L i t * y t)) + (sum N (fun t => L i t * r2 t) + - sum N (fun j => r3 j * x j))).
  { unfold r2, r3. rewrite (sum_ext N (fun t => L i t * (y t - sum N (fun j => U t j * x j))) (fun t => L i t * y t - sum N (fun j => L i t * U t j * x j))).
    - rewrite (sum_ext N (fun j => (A i j - sum N (fun t => L i t * U t j)) * x j) (fun j => A i j * x j - sum N (fun t => L i t * U t j * x j))).
      + rewrite !sum_minus. rewrite (sum_swap N N (fun t j => L i t * U t j * x j)). ring.
      + intros j Hj. rewrite Rmult_minus_distr_r, sum_scal_r. reflexivity.
    - intros t Ht. rewrite Rmult_minus_distr_l. f_equal. rewrite <- sum_scal. apply sum_ext. intros j Hj. ring. }
  rewrite E. eapply Rle_trans; [apply Rabs_triang|]. eapply Rle_trans; [apply Rplus_le_compat_l, Rabs_triang|]. rewrite Rabs_Ropp.
  assert (g * sum N (fun t => Rabs (L i t * y t)) <= g * ((1 + g) * W + D * e)) by (apply Rmult_le_compat_l; assumption). lra.
Qed.

Section Width.
Context (prec emax : Z) {P : Prec_gt_0 prec} {M : Prec_lt_emax prec emax}.
Local Notation fl := (binary_float prec emax).
Local Notation u := (unit prec).
Local Notation eta := (tiny prec emax).
Local Notation o := (float_ops prec emax).
Local Notation rd := (round radix2 (SpecFloat.fexp prec emax) ZnearestE).
Local Instance vexp : Valid_exp (SpecFloat.fexp prec emax) := fexp_correct prec emax P.
Local Notation up := (u_pos prec).
Local Notation ep := (eta_pos prec emax).
Local Notation pow1 := (pow1 prec).
Local Notation pow_mono := (pow_mono prec).

Lemma sf_over (z : fl) b : B2SF z = binary_overflow prec emax mode_NE b -> is_finite z = false.
Proof. destruct z; cbn; intros H; try discriminate; reflexivity. Qed.
Lemma sub_fin (x y : fl) : is_finite (sub o x y) = true -> is_finite x = true /\ is_finite y = true /\ B2R (sub o x y) = rd (B2R x - B2R y).
Proof.
  cbn [sub float_ops]. intros H. assert (is_finite x = true /\ is_finite y = true) as [Fx Fy].
  { destruct x as [s|s| |s m e B], y as [s'|s'| |s' m' e' B']; cbn in H; auto; try discriminate; destruct (Bool.eqb s (negb s')); discriminate. }
  split; [exact Fx|split; [exact Fy|]]. pose proof (Bminus_correct prec emax _ _ mode_NE x y Fx Fy) as C. cbn [round_mode] in C.
  destruct (Rlt_bool _ _); [apply C|]. destruct C as [C _]. apply sf_over in C. congruence.
Qed.
Lemma div_fin (x y : fl) : is_finite (div o x y) = true -> is_finite y = true -> is_finite x = true /\ B2R y <> 0 /\ B2R (div o x y) = rd (B2R x / B2R y).
Proof.
  cbn [div float_ops]. intros H Fy. assert (Ny : B2R y <> 0).
  { intros Z. destruct y as [s'|s'| |s' m' e' B']; try discriminate; [destruct x; cbn in H; discriminate|].
    apply (eq_0_F2R radix2) in Z. destruct s'; discriminate. }
  pose proof (Bdiv_correct prec emax _ _ mode_NE x y Ny) as C. cbn [round_mode] in C. destruct (Rlt_bool _ _).
  - destruct C as (C1 & C2 & _). rewrite H in C2. auto.
  - apply sf_over in C. congruence.
Qed.
(** roundings bounded by their result *)
Lemma back_sub (x y : fl) : Rabs (rd (B2R x - B2R y) - (B2R x - B2R y)) <= u * Rabs (rd (B2R x - B2R y)).
Proof.
  destruct (FLT_plus_error_N_round_ex radix2 (3 - emax - prec) prec (fun z => negb (Z.even z)) (B2R x) (- B2R y)) as (e & A & B).
  - exact (generic_format_B2R prec emax x).
  - apply generic_format_opp. exact (generic_format_B2R prec emax y).
  - rewrite uro in A. change (round radix2 (FLT_exp (3 - emax - prec) prec) ZnearestE (B2R x + - B2R y)) with (rd (B2R x - B2R y)) in B.
    replace (B2R x + - B2R y) with (B2R x - B2R y) in B by ring. set (r := rd (B2R x - B2R y)) in *. rewrite B. replace (r - r * (1 + e)) with (- (e * r)) by ring.
    rewrite Rabs_Ropp, Rabs_mult. apply Rmult_le_compat_r; [apply Rabs_pos|exact A].
Qed.
Lemma back_any r : Rabs (rd r - r) <= u * Rabs (rd r) + eta.
Proof.
  pose proof up. pose proof ep. pose proof (Rabs_pos (rd r)). pose proof P as Pp. unfold Prec_gt_0 in Pp.
  destruct (Rle_or_lt (bpow radix2 (3 - emax - prec + prec - 1)) (Rabs r)) as [L|L].
  - pose proof (relative_error_N_FLT_round radix2 (3 - emax - prec) prec Pp (fun z => negb (Z.even z)) r L) as Q.
    change (round radix2 (FLT_exp (3 - emax - prec) prec) ZnearestE r) with (rd r) in Q. replace (/ 2 * bpow radix2 (- prec + 1)) with u in Q; [lra|].
    unfold unit. rewrite bpow_plus. change (bpow radix2 1) with 2. lra.
  - pose proof (error_le_half_ulp radix2 (SpecFloat.fexp prec emax) (fun z => negb (Z.even z)) r) as Q.
    assert (E : ulp radix2 (SpecFloat.fexp prec emax) r = bpow radix2 (3 - emax - prec)).
    { apply (ulp_FLT_small radix2 (3 - emax - prec) prec r). eapply Rlt_trans; [exact L|]. apply bpow_lt. lia. }
    rewrite E in Q. unfold tiny. pose proof (Rmult_le_pos u (Rabs (rd r))). lra.
Qed.
(** the square root of a number does not underflow *)
Lemma sqrt_big (x : fl) : 0 < B2R x -> bpow radix2 (3 - emax - prec + prec - 1) <= Rabs (sqrt (B2R x)).
Proof.
  intros Hx. pose proof P as Pp. unfold Prec_gt_0 in Pp. pose proof M as Me. unfold Prec_lt_emax in Me. set (e0 := (3 - emax - prec)%Z).
  rewrite Rabs_pos_eq by apply sqrt_pos. set (k := (e0 + prec - 1)%Z). rewrite <- (sqrt_square (bpow radix2 k)) by apply bpow_ge_0. rewrite <- bpow_plus.
  apply sqrt_le_1_alt. apply Rle_trans with (bpow radix2 e0); [apply bpow_le; unfold k, e0; lia|].
  destruct x as [s|s| |s m e B]; cbn in Hx; try lra. unfold B2R. destruct s.
  - exfalso. revert Hx. apply Rle_not_lt. apply F2R_le_0. cbn. lia.
  - assert (Be : (e0 <= e)%Z).
    { unfold SpecFloat.bounded in B. apply andb_prop in B. destruct B as [B _]. unfold SpecFloat.canonical_mantissa in B. apply Zeq_bool_eq in B. unfold SpecFloat.fexp, SpecFloat.emin in B. unfold e0. lia. }
    apply Rle_trans with (bpow radix2 e); [apply bpow_le, Be|]. unfold F2R. cbn [Fnum Fexp cond_Zopp]. rewrite <- (Rmult_1_l (bpow radix2 e)) at 1.
    apply Rmult_le_compat_r; [apply bpow_ge_0|]. apply IZR_le. lia.
Qed.
Lemma half_unit : / 2 * bpow radix2 (- prec + 1) = u.
Proof. unfold unit. rewrite bpow_plus. change (bpow radix2 1) with 2. lra. Qed.
Lemma back_sqrt (x : fl) : 0 < B2R x -> Rabs (rd (sqrt (B2R x)) - sqrt (B2R x)) <= u * Rabs (rd (sqrt (B2R x))).
Proof. intros Hx. rewrite <- half_unit. exact (relative_error_N_FLT_round radix2 (3 - emax - prec) prec P (fun z => negb (Z.even z)) _ (sqrt_big x Hx)). Qed.
Lemma forth_sqrt (x : fl) : 0 < B2R x -> Rabs (rd (sqrt (B2R x)) - sqrt (B2R x)) <= u * Rabs (sqrt (B2R x)).
Proof. intros Hx. rewrite <- half_unit. exact (relative_error_N_FLT radix2 (3 - emax - prec) prec P (fun z => negb (Z.even z)) _ (sqrt_big x Hx)). Qed.

(** * Chains of subtractions *)
Definition part lo hi (f x : nat -> fl) : R := sum (hi - lo) (fun k => B2R (f (lo + k)%nat) * B2R (x (lo + k)%nat)).
Definition apart lo hi (f x : nat -> fl) : R := sum (hi - lo) (fun k => Rabs (B2R (f (lo + k)%nat) * B2R (x (lo + k)%nat))).
Lemma apart_pos lo hi f x : 0 <= apart lo hi f x. Proof. apply sum_pos. intros. apply Rabs_pos. Qed.
Lemma subs_S lo n f x s : subs o lo (lo + S n) f x s = sub o (subs o lo (lo + n) f x s) (mul o (f (lo + n)%nat) (x (lo + n)%nat)).
Proof. unfold subs. rewrite Nat.add_succ_r, for_S by lia. reflexivity. Qed.
Lemma subs_back lo n f x s : is_finite (subs o lo (lo + n) f x s) = true ->
  is_finite s = true /\
  Rabs (B2R s - B2R (subs o lo (lo + n) f x s) - part lo (lo + n) f x) <=
  ((1 + u) ^ n - 1) * (Rabs (B2R (subs o lo (lo + n) f x s)) + apart lo (lo + n) f x) + INR n * eta * (1 + u) ^ n.
Proof.
  unfold part, apart. replace (lo + n - lo)%nat with n by lia. induction n as [|n IH]; intros F.
  - rewrite Nat.add_0_r in *. unfold subs in *. rewrite for_empty in * by lia. split; [exact F|]. cbn [sum pow INR]. rewrite !Rminus_0_r, Rminus_diag_eq, Rabs_R0 by reflexivity. lra.
  - rewrite subs_S in *. destruct (sub_fin _ _ F) as (F1 & F2 & E). destruct (mul_fin _ _ _ _ F2) as (_ & _ & Em). specialize (IH F1). destruct IH as [Fs IH]. split; [exact Fs|].
    set (t := subs o lo (lo + n) f x s) in *. set (m := mul o (f (lo + n)%nat) (x (lo + n)%nat)) in *. set (w := sub o t m) in *.
    pose proof (back_sub t m) as Bk. rewrite <- E in Bk. destruct (rd_err prec emax (B2R (f (lo + n)%nat) * B2R (x (lo + n)%nat))) as (e & d & Ae & Ad & Er). rewrite Er in Em.
    cbn [sum]. set (p := B2R (f (lo + n)%nat) * B2R (x (lo + n)%nat)) in *.
    set (Sp := sum n _) in *. set (Sa := sum n (fun k => Rabs _)) in *. assert (0 <= Sa) by (apply sum_pos; intros; apply Rabs_pos).
    pose proof up as Hu. pose proof ep as He. rewrite S_INR. cbn [pow]. pose proof (pow1 n) as Pk. set (q := (1 + u) ^ n) in *. pose proof (pos_INR n) as In.
    pose proof (Rabs_pos p) as Pp. pose proof (Rabs_pos (B2R w)) as Pw.
    assert (Ap : Rabs (p * e + d) <= u * Rabs p + eta).
    { eapply Rle_trans; [apply Rabs_triang|]. rewrite Rabs_mult. apply Rplus_le_compat; [|exact Ad]. rewrite Rmult_comm. apply Rmult_le_compat_r; assumption. }
    assert (Tt : Rabs (B2R t) <= Rabs (B2R w) * (1 + u) + Rabs p * (1 + u) + eta).
    { replace (B2R t) with (- (B2R w - (B2R t - B2R m)) + (B2R w + (p + (p * e + d)))) by (rewrite Em; ring).
      eapply Rle_trans; [apply Rabs_triang|]. rewrite Rabs_Ropp. eapply Rle_trans; [apply Rplus_le_compat_l; eapply Rle_trans; [apply Rabs_triang|apply Rplus_le_compat_l, Rabs_triang]|]. lra. }
    replace (B2R s - B2R w - (Sp + p)) with ((B2R s - B2R t - Sp) + (- (B2R w - (B2R t - B2R m)) + (p * e + d))) by (rewrite Em; ring).
    eapply Rle_trans; [apply Rabs_triang|]. eapply Rle_trans; [apply Rplus_le_compat; [exact IH|eapply Rle_trans; [apply Rabs_triang|]]; apply Rplus_le_compat; [rewrite Rabs_Ropp; exact Bk|exact Ap]|].
    assert (Q1 : (q - 1) * (Rabs (B2R t) + Sa) <= (q - 1) * (Rabs (B2R w) * (1 + u) + Rabs p * (1 + u) + eta + Sa)) by (apply Rmult_le_compat_l; lra).
    assert (Q2 : (q - 1) * Sa <= ((1 + u) * q - 1) * Sa) by (apply Rmult_le_compat_r; nra).
    assert (Q3 : INR n * eta * q <= INR n * eta * ((1 + u) * q)) by (apply Rmult_le_compat_l; [apply Rmult_le_pos; lra|nra]).
    assert (Q4 : eta * q <= eta * ((1 + u) * q)) by (apply Rmult_le_compat_l; nra). nra.
Qed.
(** a chain divided by [l] *)
Lemma div_back lo n f x s l : is_finite (div o (subs o lo (lo + n) f x s) l) = true -> is_finite l = true ->
  let r := B2R (div o (subs o lo (lo + n) f x s) l) in
  is_finite s = true /\ B2R l <> 0 /\
  Rabs (B2R s - B2R l * r - part lo (lo + n) f x) <=
  ((1 + u) ^ S n - 1) * (Rabs (B2R l * r) + apart lo (lo + n) f x) + (INR n + Rabs (B2R l)) * eta * (1 + u) ^ n.
Proof.
  intros F Fl. cbv zeta. destruct (div_fin _ _ F Fl) as (Ft & Nl & E). destruct (subs_back lo n f x s Ft) as [Fs H]. split; [exact Fs|split; [exact Nl|]].
  set (t := subs o lo (lo + n) f x s) in *. set (r := div o t l) in *. pose proof (back_any (B2R t / B2R l)) as Bk. rewrite <- E in Bk.
  assert (D : Rabs (B2R t - B2R l * B2R r) <= u * Rabs (B2R l * B2R r) + Rabs (B2R l) * eta).
  { replace (B2R t - B2R l * B2R r) with (- (B2R l * (B2R r - B2R t / B2R l))) by (field; exact Nl). rewrite Rabs_Ropp, Rabs_mult.
    eapply Rle_trans; [apply Rmult_le_compat_l; [apply Rabs_pos|exact Bk]|]. rewrite Rabs_mult. lra. }
  set (v := B2R l * B2R r) in *. set (Sp := part lo (lo + n) f x) in *. pose proof (apart_pos lo (lo + n) f x) as Pa. set (Sa := apart lo (lo + n) f x) in *.
  pose proof up as Hu. pose proof ep as He. cbn [pow]. pose proof (pow1 n) as Pk. set (q := (1 + u) ^ n) in *. pose proof (pos_INR n) as In. pose proof (Rabs_pos v) as Pv. pose proof (Rabs_pos (B2R l)) as Pl.
  assert (Tt : Rabs (B2R t) <= Rabs v * (1 + u) + Rabs (B2R l) * eta) by (replace (B2R t) with (B2R t - v + v) by ring; eapply Rle_trans; [apply Rabs_triang|]; lra).
  replace (B2R s - v - Sp) with ((B2R s - B2R t - Sp) + (B2R t - v)) by ring. eapply Rle_trans; [apply Rabs_triang|]. eapply Rle_trans; [apply Rplus_le_compat; [exact H|exact D]|].
  assert (Q1 : (q - 1) * (Rabs (B2R t) + Sa) <= (q - 1) * (Rabs v * (1 + u) + Rabs (B2R l) * eta + Sa)) by (apply Rmult_le_compat_l; lra).
  assert (Q2 : (q - 1) * Sa <= ((1 + u) * q - 1) * Sa) by (apply Rmult_le_compat_r; nra). nra.
Qed.

(** * Triangular systems *)
Lemma upper_sum N i (h : nat -> R) : (i < N)%nat -> sum N (fun j => if (i <=? j)%nat then h j else 0) = h i + sum (N - S i) (fun k => h (S i + k)%nat).
Proof.
  intros Hi. rewrite (sum_split N i) by lia. rewrite sum_0.
  - replace (N - i)%nat with (S (N - S i)) by lia. rewrite sum_S_first, Nat.add_0_r, Nat.leb_refl, Rplus_0_l. f_equal. apply sum_ext. intros k Hk.
    rewrite (proj2 (Nat.leb_le i (i + S k))) by lia. f_equal. lia.
  - intros j Hj. rewrite (proj2 (Nat.leb_gt i j)) by lia. reflexivity.
Qed.
(** L y = b with the diagonal of L *)
Theorem C106_forward N (l : nat -> nat -> fl) (b : nat -> fl) i : let y := forward o N l b in
  (i < N)%nat -> is_finite (y i) = true -> is_finite (l i i) = true ->
  Rabs (B2R (b i) - sum (S i) (fun j => B2R (l i j) * B2R (y j))) <=
  ((1 + u) ^ S i - 1) * sum (S i) (fun j => Rabs (B2R (l i j) * B2R (y j))) + (INR i + Rabs (B2R (l i i))) * eta * (1 + u) ^ i.
Proof.
  cbv zeta. intros Hi F Fl. pose proof (forward_eq o N l b i Hi) as E. cbv zeta in E. rewrite E in F. change i with (0 + i)%nat in F at 1.
  destruct (div_back 0 i (l i) (forward o N l b) (b i) (l i i) F Fl) as (_ & _ & D). cbn [Nat.add] in D. rewrite <- E in D. unfold part, apart in D. rewrite Nat.sub_0_r in D. cbn [sum Nat.add] in *.
  match goal with |- Rabs (?a - (?s + ?v)) <= _ * (?s' + ?v') + _ => replace (a - (s + v)) with (a - v - s) by ring; rewrite (Rplus_comm s' v') end. exact D.
Qed.
(** L y = b with a unit diagonal *)
Theorem C106_forward_unit N (l : nat -> nat -> fl) (b : nat -> fl) i : let y := forward_unit o N l b in
  (i < N)%nat -> is_finite (y i) = true ->
  Rabs (B2R (b i) - (sum i (fun j => B2R (l i j) * B2R (y j)) + B2R (y i))) <=
  ((1 + u) ^ i - 1) * (sum i (fun j => Rabs (B2R (l i j) * B2R (y j))) + Rabs (B2R (y i))) + INR i * eta * (1 + u) ^ i.
Proof.
  cbv zeta. intros Hi F. pose proof (forward_unit_eq o N l b i Hi) as E. cbv zeta in E. rewrite E in F. change i with (0 + i)%nat in F at 1.
  destruct (subs_back 0 i (l i) (forward_unit o N l b) (b i) F) as (_ & D). cbn [Nat.add] in D. rewrite <- E in D. unfold part, apart in D. rewrite Nat.sub_0_r in D. cbn [Nat.add] in *.
  match goal with |- Rabs (?a - (?s + ?v)) <= _ * (?s' + ?v') + _ => replace (a - (s + v)) with (a - v - s) by ring; rewrite (Rplus_comm s' v') end. exact D.
Qed.
(** U x = b *)
Theorem C106_backward N (w : nat -> nat -> fl) (b : nat -> fl) i : let x := backward o N w b in
  (i < N)%nat -> is_finite (x i) = true -> is_finite (w i i) = true ->
  is_finite (b i) = true /\ B2R (w i i) <> 0 /\
  Rabs (B2R (b i) - sum N (fun j => if (i <=? j)%nat then B2R (w i j) * B2R (x j) else 0)) <=
  ((1 + u) ^ (N - i) - 1) * sum N (fun j => if (i <=? j)%nat then Rabs (B2R (w i j) * B2R (x j)) else 0) +
  (INR (N - S i) + Rabs (B2R (w i i))) * eta * (1 + u) ^ (N - S i).
Proof.
  cbv zeta. intros Hi F Fl. pose proof (backward_eq o N w b i Hi) as E. cbv zeta in E. rewrite E in F. replace N with (S i + (N - S i))%nat in F at 1 by lia.
  destruct (div_back (S i) (N - S i) (w i) (backward o N w b) (b i) (w i i) F Fl) as (Fb & Nz & D). replace (S i + (N - S i))%nat with N in D by lia. rewrite <- E in D.
  split; [exact Fb|split; [exact Nz|]].
  rewrite (upper_sum N i (fun j => B2R (w i j) * B2R (backward o N w b j)) Hi), (upper_sum N i (fun j => Rabs (B2R (w i j) * B2R (backward o N w b j))) Hi). unfold part, apart in D.
  replace (S (N - S i)) with (N - i)%nat in D by lia. match goal with |- Rabs (?a - (?v + ?s)) <= _ => replace (a - (v + s)) with (a - v - s) by ring end. exact D.
Qed.

(** * The factors *)
Lemma widen n N T X k e : (n <= N)%nat -> 0 <= T -> 0 <= k -> 0 <= e -> X <= ((1 + u) ^ n - 1) * T + k * e * (1 + u) ^ n -> X <= ((1 + u) ^ N - 1) * T + k * (e * (1 + u) ^ N).
Proof.
  intros L HT Hk He H. eapply Rle_trans; [exact H|]. pose proof (pow_mono n N L). rewrite <- Rmult_assoc. apply Rplus_le_compat; [apply Rmult_le_compat_r; lra|]. apply Rmult_le_compat_l; [apply Rmult_le_pos; assumption|assumption].
Qed.
Lemma widen2 n m N T X k k' e : (n <= N)%nat -> (m <= N)%nat -> 0 <= T -> 0 <= k <= k' -> 0 <= e -> X <= ((1 + u) ^ n - 1) * T + k * e * (1 + u) ^ m -> X <= ((1 + u) ^ N - 1) * T + k' * (e * (1 + u) ^ N).
Proof.
  intros L L' HT Hk He H. eapply Rle_trans; [exact H|]. pose proof (pow_mono n N L). pose proof (pow_mono m N L'). pose proof (pow1 m). apply Rplus_le_compat; [apply Rmult_le_compat_r; lra|].
  rewrite Rmult_assoc. apply Rmult_le_compat; try lra; [apply Rmult_le_pos; lra|apply Rmult_le_compat_l; lra].
Qed.
Lemma lu_sum (h : R -> R) N (w : nat -> nat -> R) i j : h 0 = 0 -> (i < N)%nat -> (j < N)%nat ->
  sum N (fun t => h (lower_of w i t * upper_of w t j)) =
  sum (Nat.min i j) (fun t => h (w i t * w t j)) + (if (j <? i)%nat then h (w i j * w j j) else h (w i j)).
Proof.
  intros H0 Hi Hj. rewrite (sum_trunc N (S (Nat.min i j))); [|lia|].
  - cbn [sum]. f_equal.
    + apply sum_ext. intros t Ht. unfold lower_of, upper_of. rewrite (proj2 (Nat.ltb_lt t i)), (proj2 (Nat.leb_le t j)) by lia. reflexivity.
    + unfold lower_of, upper_of. destruct (Nat.ltb_spec j i) as [L|L].
      * rewrite Nat.min_r by lia. rewrite (proj2 (Nat.ltb_lt j i)), Nat.leb_refl by lia. reflexivity.
      * rewrite Nat.min_l by lia. rewrite (proj2 (Nat.ltb_ge i i)), Nat.eqb_refl, (proj2 (Nat.leb_le i j)) by lia. rewrite Rmult_1_l. reflexivity.
  - intros t Ht. unfold lower_of, upper_of. destruct (Nat.leb_spec t j) as [L|L]; [|rewrite Rmult_0_r; exact H0].
    rewrite (proj2 (Nat.ltb_ge t i)), (proj2 (Nat.eqb_neq t i)) by lia. rewrite Rmult_0_l. exact H0.
Qed.
Definition val (a : nat -> nat -> fl) (i j : nat) : R := B2R (a i j).
Local Notation g N := ((1 + u) ^ N - 1).
Local Notation e N := (eta * (1 + u) ^ N).
(** row [piv i] of the matrix is row i of L U, L unit lower and U upper triangular *)
Theorem C106_lu_factors eps N (a : nat -> nat -> fl) d : lu_decompose o eps N a = Some d ->
  (forall i j, (i < N)%nat -> (j < N)%nat -> is_finite (lu d i j) = true) ->
  let L := lower_of (val (lu d)) in let U := upper_of (val (lu d)) in
  forall i j, (i < N)%nat -> (j < N)%nat ->
  Rabs (val a (piv d i) j - sum N (fun t => L i t * U t j)) <=
  g N * sum N (fun t => Rabs (L i t * U t j)) + (INR N + Rabs (U j j)) * e N.
Proof.
  intros H F. cbv zeta. intros i j Hi Hj. pose proof (lu_eq o eps N a d H i j Hi Hj) as E. unfold lu_entry in E. rewrite (proj2 (Nat.ltb_lt j N)) in E by lia. cbn [andb] in E.
  rewrite (lu_sum (fun z => z)) by auto. rewrite (lu_sum Rabs) by (auto using Rabs_R0). set (w := lu d) in *.
  pose proof ep. pose proof (Rabs_pos (upper_of (val w) j j)). assert (EU : upper_of (val w) j j = B2R (w j j)) by (unfold upper_of; rewrite Nat.leb_refl; reflexivity). rewrite EU in *.
  destruct (Nat.ltb_spec j i) as [Lji|Lji].
  - pose proof (F i j Hi Hj) as Fij. rewrite E in Fij. change j with (0 + j)%nat in Fij at 1. destruct (div_back 0 j (w i) (fun t => w t j) (a (piv d i) j) (w j j) Fij (F j j Hj Hj)) as (_ & _ & D).
    cbn [Nat.add] in D. rewrite <- E in D. unfold part, apart in D. rewrite Nat.sub_0_r in D. cbn [Nat.add] in D. rewrite Nat.min_r by lia. unfold val in *.
    apply (widen2 (S j) j N _ _ (INR j + Rabs (B2R (w j j)))); try lia; try lra.
    + apply Rplus_le_le_0_compat; [apply sum_pos; intros; apply Rabs_pos|apply Rabs_pos].
    + pose proof (pos_INR j). assert (INR j <= INR N) by (apply le_INR; lia). lra.
    + rewrite (Rmult_comm (B2R (w i j))). match goal with |- Rabs (?a - (?s + ?v)) <= _ * (?s' + ?v') + _ => replace (a - (s + v)) with (a - v - s) by ring; rewrite (Rplus_comm s' v') end. exact D.
  - rewrite Nat.min_r in E by lia. pose proof (F i j Hi Hj) as Fij. rewrite E in Fij. change i with (0 + i)%nat in Fij at 1. destruct (subs_back 0 i (w i) (fun t => w t j) (a (piv d i) j) Fij) as (_ & D).
    cbn [Nat.add] in D. rewrite <- E in D. unfold part, apart in D. rewrite Nat.sub_0_r in D. cbn [Nat.add] in D. rewrite Nat.min_l by lia. unfold val in *.
    apply (widen2 i i N _ _ (INR i)); try lia; try lra.
    + apply Rplus_le_le_0_compat; [apply sum_pos; intros; apply Rabs_pos|apply Rabs_pos].
    + pose proof (pos_INR i). assert (INR i <= INR N) by (apply le_INR; lia). lra.
    + match goal with |- Rabs (?a - (?s + ?v)) <= _ * (?s' + ?v') + _ => replace (a - (s + v)) with (a - v - s) by ring; rewrite (Rplus_comm s' v') end. exact D.
Qed.
(** the solution: the residual is small against |L| |U| |x| *)
Theorem C106_lu_solve eps N (a : nat -> nat -> fl) d (b : nat -> fl) : lu_decompose o eps N a = Some d ->
  (forall i j, (i < N)%nat -> (j < N)%nat -> is_finite (lu d i j) = true) ->
  let x := lu_solve o N d b in (forall i, (i < N)%nat -> is_finite (x i) = true) ->
  let L := lower_of (val (lu d)) in let U := upper_of (val (lu d)) in
  forall i, (i < N)%nat ->
  Rabs (B2R (b (piv d i)) - sum N (fun j => val a (piv d i) j * B2R (x j))) <=
  (3 * g N + g N * g N) * sum N (fun t => sum N (fun j => Rabs (L i t) * Rabs (U t j) * Rabs (B2R (x j)))) +
  e N * (INR N + (1 + g N) * sum N (fun t => Rabs (L i t) * (INR N + Rabs (U t t))) + sum N (fun j => (INR N + Rabs (U j j)) * Rabs (B2R (x j)))).
Proof.
  intros H F x Fx. cbv zeta. intros i Hi. set (w := lu d) in *. pose proof up as Hu. pose proof ep as He. pose proof (pow1 N) as Pn. pose proof (pos_INR N) as In.
  set (bp := for_ 0 N (fun i x => upd x i (b (piv d i))) (fun _ => zero o)).
  assert (Bp : forall t, (t < N)%nat -> bp t = b (piv d t)).
  { intros t Ht. unfold bp. apply (for_ind (fun n s => forall t, (t < n)%nat -> s t = b (piv d t)) 0 N); [lia|intros; lia| |exact Ht].
    intros k s Hk Is r Hr. unfold upd. destruct (Nat.eqb_spec r k) as [->|]; [reflexivity|apply Is; lia]. }
  set (y := forward_unit o N w bp). assert (Ex : x = backward o N w y) by reflexivity.
  assert (Bk : forall t, (t < N)%nat -> _) by (intros t Ht; exact (C106_backward N w y t Ht (eq_ind _ (fun z => is_finite (z t) = true) (Fx t Ht) _ Ex) (F t t Ht Ht))). rewrite <- Ex in Bk.
  rewrite <- (Bp i Hi).
  apply (combine N (lower_of (val w)) (upper_of (val w)) (fun i j => val a (piv d i) j) (fun j => B2R (x j)) (fun t => B2R (y t)) (fun t => B2R (bp t)) (g N) (e N) (fun _ => INR N) (fun t => INR N + Rabs (upper_of (val w) t t)) (fun _ j => INR N + Rabs (upper_of (val w) j j)) i Hi); try lra.
  - apply Rmult_le_pos; lra.
  - intros t Ht. pose proof (Rabs_pos (upper_of (val w) t t)). lra.
  - destruct (Bk i Hi) as (Fy & _). pose proof (C106_forward_unit N w bp i Hi Fy) as D. fold y in D.
    assert (Lo : forall h : R -> R, h 0 = 0 -> sum N (fun t => h (lower_of (val w) i t * B2R (y t))) = sum i (fun t => h (B2R (w i t) * B2R (y t))) + h (B2R (y i))).
    { intros h H0. rewrite (sum_trunc N (S i)); [|lia|].
      - cbn [sum]. unfold lower_of at 2. rewrite (proj2 (Nat.ltb_ge i i)), Nat.eqb_refl, Rmult_1_l by lia. f_equal. apply sum_ext. intros t Ht. unfold lower_of. rewrite (proj2 (Nat.ltb_lt t i)) by lia. reflexivity.
      - intros t Ht. unfold lower_of. rewrite (proj2 (Nat.ltb_ge t i)), (proj2 (Nat.eqb_neq t i)) by lia. rewrite Rmult_0_l. exact H0. }
    rewrite (Lo (fun z => z) eq_refl), (Lo Rabs Rabs_R0). apply (widen2 i i N _ _ (INR i)); try lia; try lra.
    + apply Rplus_le_le_0_compat; [apply sum_pos; intros; apply Rabs_pos|apply Rabs_pos].
    + pose proof (pos_INR i). assert (INR i <= INR N) by (apply le_INR; lia). lra.
  - intros t Ht. destruct (Bk t Ht) as (_ & _ & D).
    assert (Up : forall h : R -> R, h 0 = 0 -> sum N (fun j => h (upper_of (val w) t j * B2R (x j))) = sum N (fun j => if (t <=? j)%nat then h (B2R (w t j) * B2R (x j)) else 0)).
    { intros h H0. apply sum_ext. intros j Hj. unfold upper_of, val. destruct (t <=? j)%nat; [reflexivity|]. rewrite Rmult_0_l. exact H0. }
    rewrite (Up (fun z => z) eq_refl), (Up Rabs Rabs_R0). unfold upper_of at 1. rewrite Nat.leb_refl. fold (val w t t) in D.
    apply (widen2 (N - t) (N - S t) N _ _ (INR (N - S t) + Rabs (val w t t))); try lia; try lra.
    + apply sum_pos. intros j Hj. destruct (t <=? j)%nat; [apply Rabs_pos|lra].
    + pose proof (pos_INR (N - S t)). pose proof (Rabs_pos (val w t t)). assert (INR (N - S t) <= INR N) by (apply le_INR; lia). lra.
  - intros j Hj. apply (C106_lu_factors eps N a d H F i j Hi Hj).
Qed.

(** * Cholesky *)
Lemma sqrt_fin (x : fl) : leb o x (zero o) = false -> is_finite (sqrtf o x) = true -> is_finite x = true /\ 0 < B2R x /\ B2R (sqrtf o x) = rd (sqrt (B2R x)).
Proof.
  cbn [sqrtf leb zero float_ops]. intros L F. pose proof (Bsqrt_correct prec emax _ _ mode_NE x) as (C1 & C2 & _). rewrite F in C2. split; [destruct x; cbn in *; auto; discriminate|]. split; [|exact C1].
  destruct x as [s|s| |s m ex B]; try discriminate. destruct s; [discriminate|]. unfold B2R. apply F2R_gt_0. reflexivity.
Qed.
(** the norm of a vector: its square is the sum of squares with two more roundings *)
Theorem C105_norm N (a : nat -> fl) : is_finite (norm o N a) = true ->
  let D := sum N (fun k => B2R (a k) * B2R (a k)) in let r := B2R (norm o N a) in
  0 <= r /\ Rabs (r * r - D) <= ((1 + u) ^ (N + 2) - 1) * D + INR N * eta * (1 + u) ^ (N + 2).
Proof.
  intros F. cbv zeta. change (norm o N a) with (sqrtf o (dot o N a a)) in *. set (s := dot o N a a) in *.
  pose proof (Bsqrt_correct prec emax _ _ mode_NE s) as (C1 & C2 & _). change (is_finite (Bsqrt mode_NE s)) with (is_finite (sqrtf o s)) in C2. rewrite F in C2. cbn [round_mode] in C1.
  change (Bsqrt mode_NE s) with (sqrtf o s) in C1. rewrite C1. assert (Fs : is_finite s = true) by (destruct s; cbn in *; auto; discriminate).
  assert (Sg : 0 <= B2R s) by (destruct s as [z|z| |z m ex B]; try discriminate; [cbn; lra|destruct z; [discriminate|]; apply F2R_ge_0; cbn; lia]).
  split; [apply round_ge_generic; [apply vexp|apply valid_rnd_N|apply generic_format_0|apply sqrt_pos]|].
  destruct (C105_dot prec emax N a a) as [K _]. specialize (K Fs). set (D := sum N (fun k => B2R (a k) * B2R (a k))) in *.
  assert (Ds : sum N (fun k => Rabs (B2R (a k) * B2R (a k))) = D) by (apply sum_ext; intros; apply Rabs_pos_eq; apply Rle_0_sqr). rewrite Ds in K. fold s in K.
  assert (PD : 0 <= D) by (apply sum_pos; intros; apply Rle_0_sqr).
  pose proof up as Hu. pose proof ep as He. pose proof (pow1 N) as Pn. pose proof (pos_INR N) as In. rewrite pow_add. set (q := (1 + u) ^ N) in *. set (r := rd (sqrt (B2R s))) in *.
  assert (S2 : Rabs (r * r - B2R s) <= (2 * u + u * u) * B2R s).
  { destruct (Req_dec (B2R s) 0) as [Z|Z].
    - unfold r. rewrite Z, sqrt_0, round_0 by apply valid_rnd_N. rewrite Rmult_0_l, Rminus_0_r, Rabs_R0. lra.
    - pose proof (forth_sqrt s ltac:(lra)) as Bk. fold r in Bk. set (w := sqrt (B2R s)) in *. assert (W2 : w * w = B2R s) by (apply sqrt_sqrt; exact Sg). assert (Pw : 0 <= w) by apply sqrt_pos.
      rewrite <- W2. replace (r * r - w * w) with ((r - w) * (r + w)) by ring. rewrite Rabs_mult. rewrite (Rabs_pos_eq w) in Bk by exact Pw.
      assert (Rabs (r + w) <= (2 + u) * w). { replace (r + w) with (r - w + 2 * w) by ring. eapply Rle_trans; [apply Rabs_triang|]. rewrite (Rabs_pos_eq (2 * w)) by lra. lra. }
      eapply Rle_trans; [apply Rmult_le_compat; [apply Rabs_pos|apply Rabs_pos|exact Bk|exact H]|]. lra. }
  assert (Sb : B2R s <= q * D + INR N * eta * q). { pose proof (Rle_abs (B2R s - D)). lra. }
  replace (r * r - D) with (r * r - B2R s + (B2R s - D)) by ring. eapply Rle_trans; [apply Rabs_triang|]. eapply Rle_trans; [apply Rplus_le_compat; [exact S2|exact K]|].
  assert ((2 * u + u * u) * B2R s <= (2 * u + u * u) * (q * D + INR N * eta * q)) by (apply Rmult_le_compat_l; nra). cbn [pow]. lra.
Qed.
(** the lower triangle of the matrix is that of L L^T *)
Theorem C106_cholesky_factor N (a l : nat -> nat -> fl) : cholesky_lower o N a = Some l ->
  forall i j, (i < N)%nat -> (j <= i)%nat -> is_finite (l i j) = true -> is_finite (l j j) = true ->
  Rabs (val a i j - sum (S j) (fun t => val l i t * val l j t)) <=
  g (S N) * sum (S j) (fun t => Rabs (val l i t * val l j t)) + (INR N + Rabs (val l j j)) * e (S N).
Proof.
  intros H i j Hi Hj Fij Fjj. pose proof (chol_eq o N a l H i j Hi Hj) as E. unfold chol_at in E. cbv zeta in E. pose proof ep as He. pose proof up as Hu. pose proof (Rabs_pos (val l j j)).
  assert (Pa : 0 <= sum (S j) (fun t => Rabs (val l i t * val l j t))) by (apply sum_pos; intros; apply Rabs_pos).
  assert (Ij : 0 <= INR j <= INR N) by (split; [apply pos_INR|apply le_INR; lia]).
  destruct (Nat.eqb_spec i j) as [->|Ne].
  - destruct E as [El E]. rewrite E in Fij. destruct (sqrt_fin _ El Fij) as (Fs & Ps & Es). change j with (0 + j)%nat in Fs at 1. destruct (subs_back 0 j (l j) (l j) (a j j) Fs) as (_ & D).
    cbn [Nat.add] in D. set (s := subs o 0 j (l j) (l j) (a j j)) in *. pose proof (back_sqrt s Ps) as Bk. rewrite <- Es, <- E in Bk. unfold part, apart in D. rewrite Nat.sub_0_r in D. cbn [Nat.add] in D.
    apply (widen2 (S (S j)) j (S N) _ _ (INR j)); try lia; try lra. cbn [sum]. unfold val in *. set (Sp := sum j _) in *. set (Sa := sum j (fun t => Rabs _)) in *.
    set (v := B2R (l j j)) in *. set (q := sqrt (B2R s)) in *. assert (Q2 : q * q = B2R s) by (apply sqrt_sqrt; lra). pose proof (pow1 j) as Pj.
    assert (Sv : Rabs (B2R s - v * v) <= (2 * u + u * u) * Rabs (v * v)).
    { rewrite <- Q2. replace (q * q - v * v) with (- (v - q) * (q + v)) by ring. rewrite Rabs_mult, Rabs_Ropp, Rabs_mult.
      assert (Rabs (q + v) <= (2 + u) * Rabs v). { replace (q + v) with (- (v - q) + (v + v)) by ring. eapply Rle_trans; [apply Rabs_triang|]. rewrite Rabs_Ropp. pose proof (Rabs_triang v v). lra. }
      eapply Rle_trans; [apply Rmult_le_compat; [apply Rabs_pos|apply Rabs_pos|exact Bk|exact H1]|]. lra. }
    assert (Ss : Rabs (B2R s) <= (1 + 2 * u + u * u) * Rabs (v * v)) by (replace (B2R s) with (B2R s - v * v + v * v) by ring; eapply Rle_trans; [apply Rabs_triang|]; lra).
    replace (B2R (a j j) - (Sp + v * v)) with (B2R (a j j) - B2R s - Sp + (B2R s - v * v)) by ring. eapply Rle_trans; [apply Rabs_triang|].
    eapply Rle_trans; [apply Rplus_le_compat; [exact D|exact Sv]|]. assert (0 <= Sa) by (apply sum_pos; intros; apply Rabs_pos). pose proof (Rabs_pos (v * v)).
    cbn [pow]. set (pw := (1 + u) ^ j) in *. assert ((pw - 1) * (Rabs (B2R s) + Sa) <= (pw - 1) * ((1 + 2 * u + u * u) * Rabs (v * v) + Sa)) by (apply Rmult_le_compat_l; lra).
    assert ((pw - 1) * Sa <= ((1 + u) * ((1 + u) * pw) - 1) * Sa) by (apply Rmult_le_compat_r; nra). nra.
  - rewrite E in Fij. change j with (0 + j)%nat in Fij at 1. destruct (div_back 0 j (l i) (l j) (a i j) (l j j) Fij Fjj) as (_ & _ & D).
    cbn [Nat.add] in D. rewrite <- E in D. unfold part, apart in D. rewrite Nat.sub_0_r in D. cbn [Nat.add] in D. unfold val in *.
    apply (widen2 (S j) j (S N) _ _ (INR j + Rabs (B2R (l j j)))); try lia; try lra. cbn [sum]. rewrite (Rmult_comm (B2R (l i j))).
    match goal with |- Rabs (?a - (?s + ?v)) <= _ * (?s' + ?v') + _ => replace (a - (s + v)) with (a - v - s) by ring; rewrite (Rplus_comm s' v') end. exact D.
Qed.
(** the solution for a symmetric matrix *)
Definition low (l : nat -> nat -> fl) (i j : nat) : R := if (j <=? i)%nat then B2R (l i j) else 0.
Theorem C106_cholesky_solve N (a l : nat -> nat -> fl) (b : nat -> fl) : cholesky_lower o N a = Some l ->
  (forall i j, (i < N)%nat -> (j < N)%nat -> val a i j = val a j i) ->
  (forall i j, (i < N)%nat -> (j <= i)%nat -> is_finite (l i j) = true) ->
  let x := chol_solve o N l b in (forall i, (i < N)%nat -> is_finite (x i) = true) ->
  forall i, (i < N)%nat ->
  Rabs (B2R (b i) - sum N (fun j => val a i j * B2R (x j))) <=
  (3 * g (S N) + g (S N) * g (S N)) * sum N (fun t => sum N (fun j => Rabs (low l i t) * Rabs (low l j t) * Rabs (B2R (x j)))) +
  e (S N) * (INR N + Rabs (val l i i) + (1 + g (S N)) * sum N (fun t => Rabs (low l i t) * (INR N + Rabs (val l t t))) +
             sum N (fun j => (INR N + Rabs (val l i i) + Rabs (val l j j)) * Rabs (B2R (x j)))).
Proof.
  intros H Sy F x Fx i Hi. pose proof up as Hu. pose proof ep as He. pose proof (pow1 (S N)) as Pn. pose proof (pos_INR N) as In.
  set (y := forward o N l b). assert (Ex : x = backward_t o N l y) by reflexivity.
  assert (Bk : forall t, (t < N)%nat -> _) by (intros t Ht; exact (C106_backward N (fun i j => l j i) y t Ht (eq_ind _ (fun z => is_finite (z t) = true) (Fx t Ht) _ Ex) (F t t Ht (le_n t)))).
  change (backward o N (fun i j => l j i) y) with (backward_t o N l y) in Bk. rewrite <- Ex in Bk.
  apply (combine N (low l) (fun t j => low l j t) (val a) (fun j => B2R (x j)) (fun t => B2R (y t)) (fun t => B2R (b t)) (g (S N)) (e (S N))
    (fun t => INR N + Rabs (val l t t)) (fun t => INR N + Rabs (val l t t)) (fun i j => INR N + Rabs (val l i i) + Rabs (val l j j)) i Hi); try lra.
  - apply Rmult_le_pos; lra.
  - intros t Ht. pose proof (Rabs_pos (val l t t)). lra.
  - destruct (Bk i Hi) as (Fy & _). pose proof (C106_forward N l b i Hi Fy (F i i Hi (le_n i))) as D. fold y in D.
    assert (Lo : forall h : R -> R, h 0 = 0 -> sum N (fun t => h (low l i t * B2R (y t))) = sum (S i) (fun t => h (B2R (l i t) * B2R (y t)))).
    { intros h H0. rewrite (sum_trunc N (S i)); [|lia|].
      - apply sum_ext. intros t Ht. unfold low. rewrite (proj2 (Nat.leb_le t i)) by lia. reflexivity.
      - intros t Ht. unfold low. rewrite (proj2 (Nat.leb_gt t i)) by lia. rewrite Rmult_0_l. exact H0. }
    rewrite (Lo (fun z => z) eq_refl), (Lo Rabs Rabs_R0). unfold val. apply (widen2 (S i) i (S N) _ _ (INR i + Rabs (B2R (l i i)))); try lia; try lra.
    + apply sum_pos. intros. apply Rabs_pos.
    + pose proof (pos_INR i). pose proof (Rabs_pos (B2R (l i i))). assert (INR i <= INR N) by (apply le_INR; lia). lra.
  - intros t Ht. destruct (Bk t Ht) as (_ & _ & D).
    assert (Up : forall h : R -> R, h 0 = 0 -> sum N (fun j => h (low l j t * B2R (x j))) = sum N (fun j => if (t <=? j)%nat then h (B2R (l j t) * B2R (x j)) else 0)).
    { intros h H0. apply sum_ext. intros j Hj. unfold low. destruct (t <=? j)%nat; [reflexivity|]. rewrite Rmult_0_l. exact H0. }
    rewrite (Up (fun z => z) eq_refl), (Up Rabs Rabs_R0). unfold val.
    apply (widen2 (N - t) (N - S t) (S N) _ _ (INR (N - S t) + Rabs (B2R (l t t)))); try lia; try lra.
    + apply sum_pos. intros j Hj. destruct (t <=? j)%nat; [apply Rabs_pos|lra].
    + pose proof (pos_INR (N - S t)). pose proof (Rabs_pos (B2R (l t t))). assert (INR (N - S t) <= INR N) by (apply le_INR; lia). lra.
  - intros j Hj.
    assert (K : forall i j, (i < N)%nat -> (j <= i)%nat -> Rabs (val a i j - sum N (fun t => low l i t * low l j t)) <= g (S N) * sum N (fun t => Rabs (low l i t * low l j t)) + (INR N + Rabs (val l j j)) * e (S N)).
    { clear i Hi j Hj. intros i j Hi Hj. pose proof (C106_cholesky_factor N a l H i j Hi Hj (F i j Hi Hj) (F j j ltac:(lia) (le_n j))) as D.
      assert (Pr : forall h : R -> R, h 0 = 0 -> sum N (fun t => h (low l i t * low l j t)) = sum (S j) (fun t => h (val l i t * val l j t))).
      { intros h H0. rewrite (sum_trunc N (S j)); [|lia|].
        - apply sum_ext. intros t Ht. unfold low. rewrite (proj2 (Nat.leb_le t i)), (proj2 (Nat.leb_le t j)) by lia. reflexivity.
        - intros t Ht. unfold low. rewrite (proj2 (Nat.leb_gt t j)) by lia. rewrite Rmult_0_r. exact H0. }
      rewrite (Pr (fun z => z) eq_refl), (Pr Rabs Rabs_R0). exact D. }
    assert (Ep : 0 <= e (S N)) by (apply Rmult_le_pos; lra). pose proof (Rabs_pos (val l i i)). pose proof (Rabs_pos (val l j j)).
    destruct (Nat.le_gt_cases j i) as [L|L].
    + eapply Rle_trans; [apply (K i j Hi L)|]. apply Rplus_le_compat_l. apply Rmult_le_compat_r; lra.
    + rewrite Sy by assumption. assert (Cm : forall h : R -> R, sum N (fun t => h (low l i t * low l j t)) = sum N (fun t => h (low l j t * low l i t))) by (intros h; apply sum_ext; intros; f_equal; ring).
      rewrite (Cm (fun z => z)), (Cm Rabs). eapply Rle_trans; [apply (K j i Hj ltac:(lia))|]. apply Rplus_le_compat_l. apply Rmult_le_compat_r; lra.
Qed.
End Width.
(** in f64: 1 x1 + 3 x2 = 5, 2 x1 + x2 = 4 (rows are exchanged), factored and solved *)
Local Instance p53 : Prec_gt_0 53 := eq_refl.
Local Instance e53 : Prec_lt_emax 53 1024 := eq_refl.
Definition ex_num (z : Z) : binary_float 53 1024 := binary_normalize 53 1024 _ _ mode_NE z 0 false.
Definition ex_a (i j : nat) : binary_float 53 1024 := match i, j with 0, 0 => ex_num 1 | 0, _ => ex_num 3 | _, 0 => ex_num 2 | _, _ => ex_num 1 end%nat.
Definition ex_b (i : nat) : binary_float 53 1024 := match i with 0 => ex_num 5 | _ => ex_num 4 end%nat.
Example C106_nontrivial :
  match lu_decompose (float_ops 53 1024) (ex_num 0) 2 ex_a with
  | Some d => piv d 0%nat = 1%nat /\
      forallb (fun i => forallb (fun j => is_finite (lu d i j)) (0 :: 1 :: nil)%nat) (0 :: 1 :: nil)%nat = true /\
      forallb (fun i => is_finite (lu_solve (float_ops 53 1024) 2 d ex_b i)) (0 :: 1 :: nil)%nat = true
  | None => False
  end.
Proof. vm_compute. repeat split. Qed.
