(** C127: the interpolators in floating point, for f64 and every other width. *)
From Coq Require Import ZArith QArith Qreals Reals Lra Lia Bool Arith List.
From Flocq Require Import Core Relative Plus_error BinarySingleNaN.
From Verif Require Import Scalar RSum InterpModel InterpSpec InterpProofs FloatModel RoundProps StatsSpec StatsFloatModel StatsFloatProps InterpFloatModel.
Import ListNotations.
Local Open Scope R_scope.

(** * Specification *)
(** the polynomial that is 1 at the i-th of n nodes and 0 at the others *)
Fixpoint basis (n i : nat) (xs : nat -> R) (x : R) : R :=
  match n with
  | O => 1
  | S m => if (m =? i)%nat then basis m i xs x else basis m i xs x * ((x - xs m) / (xs i - xs m))
  end.

(** * Over the exact reals this is the program of C45, C46 and C47 *)
Lemma lit2 : lit Rops 2 = 2. Proof. cbn. unfold Q2R. cbn. lra. Qed.
Lemma lit6 : lit Rops 6 = 6. Proof. cbn. unfold Q2R. cbn. lra. Qed.
Theorem C127_same_program : forall a b t value out_a out_b n xs ys x,
  g_lerp Rops a b t = lerp a b t /\ g_inverse_lerp Rops eps a b value = inverse_lerp a b value /\
  g_remap Rops eps value a b out_a out_b = remap value a b out_a out_b /\
  match g_poly_new Rops eps n xs ys, poly_new n xs ys with
  | Some p, Some q => g_poly_eval Rops eps p x = poly_eval q x
  | None, None => True | _, _ => False
  end /\
  match g_spline_new Rops n xs ys, spline_new n xs ys with
  | Some p, Some q => g_spline_eval Rops p x = spline_eval q x
  | None, None => True | _, _ => False
  end.
Proof.
  intros. split; [reflexivity|]. split; [reflexivity|]. split; [reflexivity|]. split.
  - unfold g_poly_new, poly_new. destruct (n =? 0)%nat; [exact I|]. cbn [leb Rops absf sub div one].
    match goal with |- match match ?F with _ => _ end with _ => _ end => destruct F as [w|] end; [|exact I]. reflexivity.
  - unfold g_spline_new, spline_new. destruct (n <? 2)%nat; [exact I|]. cbn [leb Rops].
    match goal with |- match match ?F with _ => _ end with _ => _ end => destruct F as [w|] end; [|exact I].
    replace (for_ 1 (n - 1) (g_sweep Rops xs ys) (fun _ => Scalar.zero Rops, fun _ => Scalar.zero Rops)) with (for_ 1 (n - 1) (sweep xs ys) (fun _ => 0, fun _ => 0)).
    + destruct (for_ 1 (n - 1) (sweep xs ys) (fun _ => 0, fun _ => 0)) as [sd u].
      unfold g_spline_eval, spline_eval. change (g_segment Rops (mkGSpline xs ys (g_back Rops n sd u)) x) with (@segment_index n (mkSpline xs ys (back n sd u)) x).
      destruct (segment_index _ x); [|reflexivity]. cbn [option_map]. f_equal. unfold g_cubic, segment_value. rewrite lit6. reflexivity.
    + apply for_ext. intros i [sd u] _. unfold sweep, g_sweep. rewrite lit2, lit6. reflexivity.
Qed.

(** * The loops, any arithmetic *)
Section Generic.
Context {F : Type} (o : ops F) (epsilon : F).
(** one over the product of the differences, one division at a time *)
Fixpoint weight (xs : nat -> F) (j m : nat) : F :=
  match m with
  | O => one o
  | S k => if (k =? j)%nat then weight xs j k else div o (weight xs j k) (sub o (xs j) (xs k))
  end.
Definition separate (n : nat) (xs : nat -> F) : Prop :=
  forall i j, (i < n)%nat -> (j < n)%nat -> i <> j -> leb o (absf o (sub o (xs i) (xs j))) epsilon = false.
Lemma g_poly_new_some n xs ys p : g_poly_new o epsilon n xs ys = Some p ->
  (0 < n)%nat /\ separate n xs /\ gp_xs p = xs /\ gp_ys p = ys /\ forall j, (j < n)%nat -> gp_w p j = weight xs j n.
Proof.
  unfold g_poly_new. destruct (Nat.eqb_spec n 0) as [|Hn]; [discriminate|].
  match goal with |- match ?F with _ => _ end = _ -> _ => destruct F as [w|] eqn:E end; [|discriminate].
  intros H. injection H as <-. cbn [gp_xs gp_ys gp_w]. split; [lia|].
  pose (P := fun (m : nat) (w : nat -> F) => (forall i, (i < m)%nat -> w i = weight xs i n /\ forall k, (k < n)%nat -> k <> i -> leb o (absf o (sub o (xs i) (xs k))) epsilon = false) /\
    (forall i, (m <= i)%nat -> w i = one o)).
  assert (K : P n w).
  { refine (forM_some_ind P 0 n _ _ _ _ _ E _); [lia|split; [intros; lia|reflexivity]|].
    intros j s s' Hj [P1 P2] Es.
    pose (Q := fun (m : nat) (t : nat -> F) => t j = weight xs j m /\ (forall i, i <> j -> t i = s i) /\
      forall k, (k < m)%nat -> k <> j -> leb o (absf o (sub o (xs j) (xs k))) epsilon = false).
    assert (KQ : Q n s').
    { refine (forM_some_ind Q 0 n _ _ _ _ _ Es _); [lia|split; [apply P2; lia|split; [reflexivity|intros; lia]]|].
      intros k t t' Hk (Q1 & Q2 & Q3) Et. cbv zeta in Et. unfold Q. cbn [weight]. rewrite (Nat.eqb_sym k j). destruct (Nat.eqb_spec j k) as [->|N].
      - injection Et as <-. split; [exact Q1|split; [exact Q2|]]. intros q Hq Nq. apply Q3; lia.
      - destruct (leb o _ epsilon) eqn:L in Et; [discriminate|]. injection Et as <-. split; [rewrite upd_same, Q1; reflexivity|]. split.
        + intros i Ni. rewrite upd_other by exact Ni. apply Q2, Ni.
        + intros q Hq Nq. destruct (Nat.eq_dec q k) as [->|]; [exact L|]. apply Q3; [lia|exact Nq]. }
    destruct KQ as (Q1 & Q2 & Q3). split.
    - intros i Hi. destruct (Nat.eq_dec i j) as [->|N]; [split; [exact Q1|exact Q3]|]. rewrite Q2 by exact N. apply P1. lia.
    - intros i Hi. rewrite Q2 by lia. apply P2. lia. }
  destruct K as [K _]. split; [intros i j Hi Hj N; apply (proj2 (K i Hi)); auto|]. split; [reflexivity|]. split; [reflexivity|]. intros j Hj. apply (K j Hj).
Qed.
Lemma g_poly_new_ok n xs ys : (0 < n)%nat -> separate n xs -> exists p, g_poly_new o epsilon n xs ys = Some p.
Proof.
  intros Hn Hs. unfold g_poly_new. destruct (Nat.eqb_spec n 0); [lia|].
  match goal with |- exists p, match ?F with _ => _ end = _ => assert (K : exists w, F = Some w /\ True) end; [|destruct K as (w & -> & _); eexists; reflexivity].
  apply (forM_ind (fun _ _ => True)); [lia|exact I|]. intros j s Hj _.
  match goal with |- exists s', ?F = _ /\ _ => assert (K : exists w, F = Some w /\ True) end; [|exact K].
  apply (forM_ind (fun _ _ => True)); [lia|exact I|]. intros k t Hk _. destruct (Nat.eqb_spec j k); [eexists; split; [reflexivity|exact I]|].
  cbv zeta. rewrite Hs by lia. eexists; split; [reflexivity|exact I].
Qed.
Lemma g_sums n (w xs ys : nat -> F) x :
  for_ 0 n (fun i (s : F * F) => let term := div o (w i) (sub o x (xs i)) in (add o (fst s) (mul o term (ys i)), add o (snd s) term)) (zero o, zero o)
  = (fold_left (add o) (map (fun i => mul o (div o (w i) (sub o x (xs i))) (ys i)) (seq 0 n)) (zero o),
     fold_left (add o) (map (fun i => div o (w i) (sub o x (xs i))) (seq 0 n)) (zero o)).
Proof.
  induction n as [|n IH]; [reflexivity|]. rewrite for_S by lia. rewrite IH. cbv zeta. cbn [fst snd]. rewrite seq_S, !map_app, !fold_left_app. reflexivity.
Qed.
Lemma g_near_none {n} (p : g_poly n) x : (forall i, (i < n)%nat -> leb o (absf o (sub o x (gp_xs p i))) epsilon = false) -> g_near o epsilon p x = None.
Proof.
  intros H. unfold g_near. destruct (find _ (seq 0 n)) as [i|] eqn:E; [|reflexivity]. apply find_some in E. destruct E as [I L]. apply in_seq in I. rewrite H in L by lia. discriminate.
Qed.
Lemma g_near_node {n} (p : g_poly n) i : (i < n)%nat -> leb o (absf o (sub o (gp_xs p i) (gp_xs p i))) epsilon = true ->
  separate n (gp_xs p) -> g_near o epsilon p (gp_xs p i) = Some i.
Proof.
  intros Hi L S. unfold g_near. destruct (find _ (seq 0 n)) as [j|] eqn:E.
  - apply find_some in E. destruct E as [I Lj]. apply in_seq in I. destruct (Nat.eq_dec i j) as [->|N]; [reflexivity|]. rewrite S in Lj by lia. discriminate.
  - pose proof (find_none _ _ E i ltac:(apply in_seq; lia)) as K. cbv beta in K. congruence.
Qed.
End Generic.

Section Width.
Context (prec emax : Z) {P : Prec_gt_0 prec} {M : Prec_lt_emax prec emax}.
Local Notation fl := (binary_float prec emax).
Local Notation u := (unit prec).
Local Notation eta := (tiny prec emax).
Local Notation o := (float_ops prec emax).
Local Notation rd := (round radix2 (SpecFloat.fexp prec emax) ZnearestE).
Local Notation epsilon := (float_epsilon prec emax).
Local Instance vexp3 : Valid_exp (SpecFloat.fexp prec emax) := fexp_correct prec emax P.

(** ** Factors between 1/(1+u)^m and (1+u)^m *)
Definition rel (m : nat) (a b : R) : Prop := exists f, / (1 + u) ^ m <= f <= (1 + u) ^ m /\ a = b * f.
Lemma pw m : 0 < (1 + u) ^ m. Proof. pose proof (pow1 prec m). lra. Qed.
Lemma rel_refl m a : rel m a a.
Proof. exists 1. pose proof (pow1 prec m). split; [|ring]. split; [|lra]. apply Rle_trans with (/ 1); [apply Rinv_le_contravar; lra|lra]. Qed.
Lemma rel_trans m k a b c : rel m a b -> rel k b c -> rel (m + k) a c.
Proof.
  intros (f & [F1 F2] & ->) (g & [G1 G2] & ->). exists (f * g). pose proof (pw m). pose proof (pw k). pose proof (Rinv_0_lt_compat _ (pw m)). pose proof (Rinv_0_lt_compat _ (pw k)).
  split; [|ring]. rewrite pow_add, Rinv_mult_distr by lra. split; apply Rmult_le_compat; lra.
Qed.
Lemma rel_mul m k a b c d : rel m a b -> rel k c d -> rel (m + k) (a * c) (b * d).
Proof.
  intros (f & [F1 F2] & ->) (g & [G1 G2] & ->). exists (f * g). pose proof (pw m). pose proof (pw k). pose proof (Rinv_0_lt_compat _ (pw m)). pose proof (Rinv_0_lt_compat _ (pw k)).
  split; [|ring]. rewrite pow_add, Rinv_mult_distr by lra. split; apply Rmult_le_compat; lra.
Qed.
Lemma rel_inv k c d : rel k c d -> d <> 0 -> rel k (/ c) (/ d).
Proof.
  intros (g & [G1 G2] & ->) N. pose proof (pw k). pose proof (Rinv_0_lt_compat _ (pw k)). exists (/ g). split; [|apply Rinv_mult_distr; lra].
  split; [apply Rinv_le_contravar; lra|]. rewrite <- (Rinv_involutive ((1 + u) ^ k)) by lra. apply Rinv_le_contravar; lra.
Qed.
Lemma rel_div m k a b c d : rel m a b -> rel k c d -> d <> 0 -> rel (m + k) (a / c) (b / d).
Proof. intros A B N. apply rel_mul; [exact A|apply rel_inv; assumption]. Qed.
Lemma rel_mono m k a b : (m <= k)%nat -> rel m a b -> rel k a b.
Proof.
  intros L (f & [F1 F2] & ->). exists f. split; [|reflexivity]. pose proof (pow_mono prec m k L). pose proof (pw m). split; [|lra].
  eapply Rle_trans; [|exact F1]. apply Rinv_le_contravar; lra.
Qed.
Lemma rel_err m a b : rel m a b -> Rabs (a - b) <= ((1 + u) ^ m - 1) * Rabs b.
Proof.
  intros (f & [F1 F2] & ->). replace (b * f - b) with ((f - 1) * b) by ring. rewrite Rabs_mult. apply Rmult_le_compat_r; [apply Rabs_pos|].
  pose proof (pow1 prec m) as Q. set (q := (1 + u) ^ m) in *. apply Rabs_le. split; [|lra]. assert (2 - q <= / q); [|lra].
  apply Rmult_le_reg_r with q; [lra|]. rewrite Rinv_l by lra. nra.
Qed.
Lemma rel_size m a b : rel m a b -> / (1 + u) ^ m * Rabs b <= Rabs a <= (1 + u) ^ m * Rabs b.
Proof.
  intros (f & [F1 F2] & ->). pose proof (Rinv_0_lt_compat _ (pw m)). rewrite Rabs_mult, (Rabs_pos_eq f) by lra. pose proof (Rabs_pos b). rewrite (Rmult_comm (Rabs b)). split; apply Rmult_le_compat_r; lra.
Qed.
Lemma small_factor e : Rabs e <= u / (1 + u) -> / (1 + u) <= 1 + e <= 1 + u.
Proof.
  intros A. apply Rabs_le_inv in A. pose proof (u_pos prec) as U. assert (E : u / (1 + u) = 1 - / (1 + u)) by (field; lra).
  assert (u / (1 + u) <= u); [|lra]. apply Rmult_le_reg_r with (1 + u); [lra|]. unfold Rdiv. rewrite Rmult_assoc, Rinv_l by lra. nra.
Qed.
Lemma rd_rel r : bpow radix2 (2 - emax) <= Rabs r -> rel 1 (rd r) r.
Proof.
  intros H. destruct (relative_error_N_FLX'_ex radix2 prec P (fun z => negb (Z.even z)) r) as (e & A & B). rewrite uro in A.
  exists (1 + e). rewrite pow_1. split; [apply small_factor, A|]. rewrite <- B.
  apply (round_FLT_FLX radix2 (3 - emax - prec) prec). eapply Rle_trans; [|exact H]. apply bpow_le. lia.
Qed.
Lemma sub_rel (x y : fl) : is_finite (sub o x y) = true -> rel 1 (B2R (sub o x y)) (B2R x - B2R y).
Proof.
  intros H. assert (is_finite x = true /\ is_finite y = true) as [Fx Fy] by (destruct (sub_fin prec emax x y H) as (A & B & _); auto).
  cbn [sub float_ops] in *. pose proof (Bminus_correct prec emax _ _ mode_NE x y Fx Fy) as C. cbn [round_mode] in C.
  destruct (Rlt_bool _ _); [|destruct C as [C _]; apply sf_over in C; congruence]. destruct C as [C _]. rewrite C.
  destruct (FLT_plus_error_N_ex radix2 (3 - emax - prec) prec (fun z => negb (Z.even z)) (B2R x) (B2R (Bopp y))) as (e & A & B).
  - exact (generic_format_B2R prec emax x).
  - exact (generic_format_B2R prec emax (Bopp y)).
  - rewrite uro in A. rewrite B2R_Bopp in B. exists (1 + e). rewrite pow_1. split; [apply small_factor, A|exact B].
Qed.
Lemma sub_ok (x y : fl) : is_finite x = true -> is_finite y = true -> Rabs (B2R x - B2R y) <= largest prec emax -> is_finite (sub o x y) = true.
Proof.
  intros Fx Fy L. cbn [sub float_ops]. pose proof (Bminus_correct prec emax _ _ mode_NE x y Fx Fy) as C. cbn [round_mode] in C. rewrite (no_over prec emax _ L) in C. apply C.
Qed.
Lemma largest_bpow k : (k <= emax - 1)%Z -> bpow radix2 k <= largest prec emax.
Proof.
  intros L. unfold largest. pose proof P as Pp. unfold Prec_gt_0 in Pp. assert (bpow radix2 (emax - prec) <= bpow radix2 (emax - 1)) by (apply bpow_le; lia).
  assert (bpow radix2 k <= bpow radix2 (emax - 1)) by (apply bpow_le; lia). replace (bpow radix2 emax) with (2 * bpow radix2 (emax - 1)) by (change 2 with (bpow radix2 1); rewrite <- bpow_plus; f_equal; lia). lra.
Qed.
(** a quotient of numbers of moderate size is computed with one more rounding and stays moderate *)
Definition between (m : Z) (r : R) : Prop := bpow radix2 (- m) <= Rabs r <= bpow radix2 m.
Lemma between_nz m r : between m r -> r <> 0.
Proof. intros [A _] ->. rewrite Rabs_R0 in A. pose proof (bpow_gt_0 radix2 (- m)). lra. Qed.
Lemma between_mul m k a b : between m a -> between k b -> between (m + k) (a * b).
Proof.
  intros [A1 A2] [B1 B2]. unfold between. rewrite Rabs_mult, Z.opp_add_distr, !bpow_plus. pose proof (bpow_gt_0 radix2 (- m)). pose proof (bpow_gt_0 radix2 (- k)). split; apply Rmult_le_compat; lra.
Qed.
Lemma between_inv k b : between k b -> between k (/ b).
Proof.
  intros B. pose proof (between_nz _ _ B) as N. destruct B as [B1 B2]. unfold between. rewrite Rabs_Rinv by exact N. pose proof (bpow_gt_0 radix2 (- k)). pose proof (bpow_gt_0 radix2 k). split.
  - rewrite bpow_opp. apply Rinv_le_contravar; lra.
  - rewrite <- (Z.opp_involutive k), bpow_opp. apply Rinv_le_contravar; lra.
Qed.
Lemma between_rel m k a b : (1 + u) ^ m <= 2 -> rel m a b -> between k b -> between (k + 1) a.
Proof.
  intros Q R [B1 B2]. apply rel_size in R. unfold between. replace (- (k + 1))%Z with (- (1) + - k)%Z by ring. rewrite !bpow_plus. change (bpow radix2 (- (1))) with (/ 2). change (bpow radix2 1) with 2.
  pose proof (bpow_gt_0 radix2 (- k)). pose proof (pow1 prec m). assert (/ 2 <= / (1 + u) ^ m) by (apply Rinv_le_contravar; lra). pose proof (Rabs_pos b). split.
  - eapply Rle_trans; [|exact (proj1 R)]. apply Rmult_le_compat; lra.
  - eapply Rle_trans; [exact (proj2 R)|]. rewrite (Rmult_comm (bpow radix2 k)). apply Rmult_le_compat; lra.
Qed.
Lemma div_rel m k (x y : fl) X Y : (k + 2 <= emax - 1)%Z -> (1 + u) ^ S m <= 2 -> is_finite x = true -> Y <> 0 ->
  rel m (B2R x / B2R y) (X / Y) -> B2R y <> 0 -> between k (X / Y) ->
  is_finite (div o x y) = true /\ rel (S m) (B2R (div o x y)) (X / Y).
Proof.
  intros K Q Fx NY R Ny B. assert (Qm : (1 + u) ^ m <= 2) by (pose proof (pow_mono prec m (S m) ltac:(lia)); lra).
  pose proof (between_rel _ _ _ _ Qm R B) as [L1 L2]. assert (Fd : is_finite (div o x y) = true).
  { apply (div_ok prec emax); [exact Ny|exact Fx|]. eapply Rle_trans; [exact L2|]. apply largest_bpow. lia. }
  split; [exact Fd|]. destruct (div_fin prec emax x y Ny Fd) as [_ E]. rewrite E. change (S m) with (1 + m)%nat. eapply rel_trans; [|exact R]. apply rd_rel.
  eapply Rle_trans; [|exact L1]. apply bpow_le. lia.
Qed.
Lemma between_mono m k r : (m <= k)%Z -> between m r -> between k r.
Proof. intros L [A B]. split; [eapply Rle_trans; [|exact A]|eapply Rle_trans; [exact B|]]; apply bpow_le; lia. Qed.
Definition cnt (j m : nat) : nat := if (j <? m)%nat then (m - 1)%nat else m.
Lemma weight_rel n (xs : nat -> fl) k j : (0 <= k)%Z -> (k * Z.of_nat n + 3 <= emax)%Z -> (1 <= n)%nat -> (1 + u) ^ (2 * n) <= 2 -> (j < n)%nat ->
  (forall i, (i < n)%nat -> is_finite (xs i) = true) ->
  (forall i, (i < n)%nat -> i <> j -> between k (B2R (xs j) - B2R (xs i))) -> forall m, (m <= n)%nat ->
  is_finite (weight o xs j m) = true /\ rel (2 * cnt j m) (B2R (weight o xs j m)) (/ pe j m (fun i => B2R (xs j) - B2R (xs i))) /\
  between (k * Z.of_nat m) (/ pe j m (fun i => B2R (xs j) - B2R (xs i))).
Proof.
  intros K0 K1 N1 Q Hj Fi B. induction m as [|m IH]; intros Hm.
  - cbn [weight pe]. rewrite Rinv_1. split; [cbn [one float_ops]; apply is_finite_Bone|]. assert (One : B2R (one o) = 1) by (cbn [one float_ops]; apply Bone_correct). rewrite One. split; [apply rel_refl|].
    unfold between. rewrite Rabs_R1, Z.mul_0_r. cbn. lra.
  - destruct (IH ltac:(lia)) as (F & R & Bt). cbn [weight pe]. destruct (Nat.eqb_spec m j) as [->|Nm].
    + split; [exact F|]. split; [|eapply between_mono; [|exact Bt]; nia]. eapply rel_mono; [|exact R]. unfold cnt. destruct (Nat.ltb_spec j j); [lia|]. destruct (Nat.ltb_spec j (S j)); lia.
    + set (d := fun i => B2R (xs j) - B2R (xs i)) in *. pose proof (B m ltac:(lia) Nm) as Bm. change (B2R (xs j) - B2R (xs m)) with (d m) in Bm. pose proof (between_nz _ _ Bm) as Nd.
      assert (Np : pe j m d <> 0) by (apply between_nz in Bt; intros Z; rewrite Z, Rinv_0 in Bt; congruence).
      assert (Kn : (k * Z.of_nat (S m) <= k * Z.of_nat n)%Z) by nia. assert (Ke : (k * Z.of_nat (S m) = k * Z.of_nat m + k)%Z) by lia.
      assert (Km : (0 <= k * Z.of_nat m)%Z) by nia.
      assert (Fs : is_finite (sub o (xs j) (xs m)) = true).
      { apply sub_ok; [apply Fi; lia|apply Fi; lia|]. eapply Rle_trans; [exact (proj2 Bm)|]. apply largest_bpow. lia. }
      pose proof (sub_rel _ _ Fs) as Rs. change (B2R (xs j) - B2R (xs m)) with (d m) in Rs.
      assert (Ns : B2R (sub o (xs j) (xs m)) <> 0).
      { apply (between_nz (k + 1)). apply (between_rel 1 k _ (d m)); [|exact Rs|exact Bm]. pose proof (pow_mono prec 1 (2 * n) ltac:(lia)). lra. }
      assert (Cn : (S (2 * cnt j m + 1) = 2 * cnt j (S m))%nat) by (unfold cnt; destruct (Nat.ltb_spec j m); destruct (Nat.ltb_spec j (S m)); lia).
      assert (Cl : (2 * cnt j (S m) <= 2 * n)%nat) by (unfold cnt; destruct (Nat.ltb_spec j (S m)); lia).
      assert (E : / (pe j m d * d m) = / pe j m d / d m) by (field; auto). change (B2R (xs j) - B2R (xs m)) with (d m). rewrite E.
      assert (Bq : between (k * Z.of_nat (S m)) (/ pe j m d / d m)) by (rewrite Ke; apply between_mul; [exact Bt|apply between_inv, Bm]).
      destruct (div_rel (2 * cnt j m + 1) (k * Z.of_nat (S m)) (weight o xs j m) (sub o (xs j) (xs m)) (/ pe j m d) (d m)) as [Fd Rd]; auto.
      * lia.
      * rewrite Cn. pose proof (pow_mono prec _ _ Cl). lra.
      * apply rel_div; auto.
      * rewrite Cn in Rd. auto.
Qed.
Lemma basis_pe n i xs x : (forall k, (k < n)%nat -> k <> i -> xs i <> xs k) -> basis n i xs x = pe i n (fun k => x - xs k) * / pe i n (fun k => xs i - xs k).
Proof.
  induction n as [|n IH]; intros D; cbn [basis pe]; [field|]. destruct (Nat.eqb_spec n i) as [->|N]; [apply IH; intros; apply D; lia|].
  rewrite IH by (intros; apply D; lia). assert (pe i n (fun k => xs i - xs k) <> 0) by (apply pe_nz; intros k Hk Nk; assert (xs i <> xs k) by (apply D; lia); lra).
  assert (xs i <> xs n) by (apply D; lia). field. split; [lra|assumption].
Qed.
Lemma map_sum n (f : nat -> R) : total (map f (seq 0 n)) = sum n f.
Proof. induction n as [|n IH]; [reflexivity|]. rewrite seq_S, map_app, total_app, IH. cbn. lra. Qed.
(** a sum of terms each known up to m roundings *)
Lemma sum_rel n m (t : nat -> fl) (T : nat -> R) : (forall i, (i < n)%nat -> rel m (B2R (t i)) (T i)) ->
  is_finite (fold_left (add o) (map t (seq 0 n)) (zero o)) = true ->
  Rabs (B2R (fold_left (add o) (map t (seq 0 n)) (zero o)) - sum n T) <= ((1 + u) ^ (m + (n - 1)) - 1) * sum n (fun i => Rabs (T i)).
Proof.
  intros R F. pose proof (sum_close prec emax _ F) as C. rewrite map_length, seq_length in C. unfold RoundProps.close, vals, sizes in C. rewrite !map_map, !map_sum in C. cbn [INR] in C. rewrite !Rmult_0_l, Rplus_0_r in C.
  replace (Nat.pred n) with (n - 1)%nat in C by lia. set (S := B2R (fold_left (add o) (map t (seq 0 n)) (zero o))) in *.
  assert (D1 : Rabs (sum n (fun i => B2R (t i)) - sum n T) <= ((1 + u) ^ m - 1) * sum n (fun i => Rabs (T i))).
  { rewrite <- sum_minus, <- sum_scal. eapply Rle_trans; [apply sum_Rabs|]. apply sum_le. intros i Hi. apply rel_err, R, Hi. }
  assert (D2 : sum n (fun i => Rabs (B2R (t i))) <= (1 + u) ^ m * sum n (fun i => Rabs (T i))).
  { rewrite <- sum_scal. apply sum_le. intros i Hi. apply (rel_size m _ _ (R i Hi)). }
  rewrite pow_add. pose proof (pow1 prec (n - 1)) as Q. set (q := (1 + u) ^ (n - 1)) in *. set (r := (1 + u) ^ m) in *. set (A := sum n (fun i => Rabs (T i))) in *.
  replace (S - sum n T) with ((S - sum n (fun i => B2R (t i))) + (sum n (fun i => B2R (t i)) - sum n T)) by ring. eapply Rle_trans; [apply Rabs_triang|].
  apply (Rmult_le_compat_l (q - 1)) in D2; [|lra]. lra.
Qed.
Lemma sum_moderate n m k (t : nat -> fl) (T : nat -> R) : (1 <= n)%nat -> (forall i, (i < n)%nat -> is_finite (t i) = true /\ rel m (B2R (t i)) (T i) /\ Rabs (T i) <= bpow radix2 k) ->
  (1 + u) ^ (m + n) <= 2 -> INR n * 2 * bpow radix2 k <= largest prec emax ->
  is_finite (fold_left (add o) (map t (seq 0 n)) (zero o)) = true.
Proof.
  intros N1 H Q L. apply (sum_ok prec emax).
  - intros x Hx. apply in_map_iff in Hx. destruct Hx as (i & <- & Hi). apply in_seq in Hi. apply H. lia.
  - rewrite map_length, seq_length. unfold sizes. rewrite map_map, map_sum. eapply Rle_trans; [|exact L]. rewrite <- sum_scal.
    replace (INR n * 2 * bpow radix2 k) with (sum n (fun _ => 2 * bpow radix2 k)) by (rewrite sum_const; ring). apply sum_le. intros i Hi. destruct (H i Hi) as (_ & R & B).
    apply rel_size in R. destruct R as [_ R]. pose proof (pw n) as Pn. apply (Rmult_le_compat_l ((1 + u) ^ n)) in R; [|lra]. eapply Rle_trans; [exact R|]. rewrite <- Rmult_assoc, <- pow_add, Nat.add_comm.
    apply Rmult_le_compat; [left; apply pw|apply Rabs_pos|exact Q|exact B].
Qed.
Lemma epsilon_pos : (1 < emax)%Z -> 0 < B2R epsilon.
Proof. intros W. destruct (epsilon_value prec emax W) as (-> & _). apply bpow_gt_0. Qed.
Lemma abs_fin (x : fl) : is_finite (absf o x) = is_finite x. Proof. cbn [absf float_ops]. apply is_finite_Babs. Qed.
Lemma abs_val (x : fl) : B2R (absf o x) = Rabs (B2R x). Proof. cbn [absf float_ops]. apply B2R_Babs. Qed.
(** ** Polynomials *)
(** The nodes differ from one another and from x by factors between 2^-k and 2^k, the values are zero or in the same range, and
    2^(k(n+3)) fits in the format.  Then the computed value is off by the roundings of 3n operations, multiplied by the sizes of
    the basis polynomials at x. *)
Theorem C127_polynomial_error : forall n xs ys p f (x : fl) k, g_poly_new o epsilon n xs ys = Some p ->
  is_poly n f -> (forall i, (i < n)%nat -> f (B2R (xs i)) = B2R (ys i)) ->
  (0 <= k)%Z -> (k * (Z.of_nat n + 3) + 3 <= emax)%Z -> INR n <= bpow radix2 k -> (1 + u) ^ (3 * n + 1) <= 2 ->
  is_finite x = true -> (forall i, (i < n)%nat -> is_finite (xs i) = true /\ is_finite (ys i) = true) ->
  (forall i j, (i < n)%nat -> (j < n)%nat -> i <> j -> between k (B2R (xs i) - B2R (xs j))) ->
  (forall i, (i < n)%nat -> between k (B2R x - B2R (xs i)) /\ (1 + u) * bpow radix2 (1 - prec) < Rabs (B2R x - B2R (xs i))) ->
  (forall i, (i < n)%nat -> B2R (ys i) = 0 \/ between k (B2R (ys i))) ->
  let g := (1 + u) ^ (3 * n) - 1 in
  let b i := basis n i (fun j => B2R (xs j)) (B2R x) in
  let lebesgue := sum n (fun i => Rabs (b i)) in
  let size := sum n (fun i => Rabs (b i * B2R (ys i))) in
  let spread := g * (size + lebesgue * Rabs (f (B2R x))) / (1 - g * lebesgue) in
  g * lebesgue < 1 -> Rabs (f (B2R x)) + spread <= largest prec emax ->
  is_finite (g_poly_eval o epsilon p x) = true /\
  Rabs (B2R (g_poly_eval o epsilon p x) - f (B2R x)) <= (1 + u) * spread + u * Rabs (f (B2R x)) + eta.
Proof.
  intros n xs ys p f x k Hp Hf Hy K0 K1 Nk Q' Fx Fi Bx Be By g b lebesgue size spread Gl Lr.
  assert (Q : (1 + u) ^ (3 * n) <= 2) by (pose proof (pow_mono prec (3 * n) (3 * n + 1) ltac:(lia)); lra).
  destruct (g_poly_new_some o epsilon n xs ys p Hp) as (N1 & Sep & Ex & Ey & Ew).
  pose proof M as Me. unfold Prec_lt_emax in Me. pose proof P as Pp. unfold Prec_gt_0 in Pp. assert (W : (1 < emax)%Z) by lia.
  destruct (epsilon_value prec emax W) as (Ev & Ef & _). set (X := fun i => B2R (xs i)) in *. set (Y := fun i => B2R (ys i)) in *. set (z := B2R x) in *.
  assert (K2 : (k * Z.of_nat n + 3 * k + 3 <= emax)%Z) by lia. assert (K3 : (0 <= k * Z.of_nat n)%Z) by nia.
  (* no node is near *)
  assert (Fs : forall i, (i < n)%nat -> is_finite (sub o x (xs i)) = true).
  { intros i Hi. apply sub_ok; [exact Fx|apply Fi, Hi|]. eapply Rle_trans; [exact (proj2 (proj1 (Be i Hi)))|]. apply largest_bpow. lia. }
  assert (Q1 : (1 + u) ^ 1 <= 2) by (pose proof (pow_mono prec 1 (3 * n) ltac:(lia)); lra).
  assert (Nr : g_near o epsilon p x = None).
  { apply g_near_none. intros i Hi. rewrite Ex. cbn [leb float_ops]. rewrite Bleb_correct; [|rewrite abs_fin; auto|exact Ef]. apply Rle_bool_false. rewrite abs_val, Ev.
    pose proof (rel_size _ _ _ (sub_rel _ _ (Fs i Hi))) as [L _]. rewrite pow_1 in L. eapply Rlt_le_trans; [|exact L]. pose proof (u_pos prec) as U. destruct (Be i Hi) as [_ G].
    apply Rmult_lt_reg_l with (1 + u); [lra|]. rewrite <- Rmult_assoc, Rinv_r, Rmult_1_l by lra. exact G. }
  unfold g_poly_eval. rewrite Nr. cbv zeta. rewrite g_sums. cbn [fst snd]. rewrite Ex, Ey.
  set (t := fun i => div o (gp_w p i) (sub o x (xs i))) in *. set (v := fun i => mul o (t i) (ys i)) in *.
  change (map (fun i => div o (gp_w p i) (sub o x (xs i))) (seq 0 n)) with (map t (seq 0 n)) in *.
  change (map (fun i => mul o (div o (gp_w p i) (sub o x (xs i))) (ys i)) (seq 0 n)) with (map v (seq 0 n)) in *.
  set (T := fun i => / pe i n (fun j => X i - X j) / (z - X i)).
  assert (HT : forall i, (i < n)%nat -> is_finite (t i) = true /\ rel (2 * n) (B2R (t i)) (T i) /\ between (k * (Z.of_nat n + 1)) (T i)).
  { intros i Hi. unfold t. rewrite (Ew i Hi).
    destruct (weight_rel n xs k i K0 ltac:(lia) N1 ltac:(pose proof (pow_mono prec (2 * n) (3 * n) ltac:(lia)); lra) Hi ltac:(intros; apply Fi; assumption) ltac:(intros; apply Bx; auto) n (le_n n)) as (Fw & Rw & Bw).
    fold (X i) in Rw, Bw. change (fun j => X i - B2R (xs j)) with (fun j => X i - X j) in *. unfold cnt in Rw. rewrite (proj2 (Nat.ltb_lt i n) Hi) in Rw.
    destruct (Be i Hi) as [Bz _]. fold (X i) in Bz. pose proof (sub_rel _ _ (Fs i Hi)) as Rs. fold z (X i) in Rs. pose proof (between_nz _ _ Bz) as Nz.
    assert (Bt : between (k * (Z.of_nat n + 1)) (T i)) by (unfold T; replace (k * (Z.of_nat n + 1))%Z with (k * Z.of_nat n + k)%Z by ring; apply between_mul; [exact Bw|apply between_inv, Bz]).
    destruct (div_rel (2 * (n - 1) + 1) (k * (Z.of_nat n + 1)) (weight o xs i n) (sub o x (xs i)) (/ pe i n (fun j => X i - X j)) (z - X i)) as [Fd Rd]; auto.
    - lia.
    - replace (S (2 * (n - 1) + 1)) with (2 * n)%nat by lia. pose proof (pow_mono prec (2 * n) (3 * n) ltac:(lia)). lra.
    - apply rel_div; auto.
    - apply (between_nz (k + 1)). eapply between_rel; [exact Q1|exact Rs|exact Bz].
    - split; [exact Fd|]. split; [|exact Bt]. replace (2 * n)%nat with (S (2 * (n - 1) + 1)) by lia. exact Rd. }
  assert (HV : forall i, (i < n)%nat -> is_finite (v i) = true /\ rel (2 * n + 1) (B2R (v i)) (T i * Y i) /\ Rabs (T i * Y i) <= bpow radix2 (k * (Z.of_nat n + 2))).
  { intros i Hi. destruct (HT i Hi) as (Ft & Rt & Bt). destruct (Fi i Hi) as [_ Fy]. assert (Rr : rel (2 * n) (B2R (t i) * B2R (ys i)) (T i * Y i)).
    { replace (2 * n)%nat with (2 * n + 0)%nat by lia. apply rel_mul; [exact Rt|apply rel_refl]. }
    destruct (By i Hi) as [Z0|Bv].
    - assert (Yz : Y i = 0) by exact Z0. assert (Fv : is_finite (v i) = true) by (unfold v; apply mul_ok; [exact Ft|exact Fy|]; rewrite Z0, Rmult_0_r, Rabs_R0; eapply Rle_trans; [apply (bpow_ge_0 radix2 0)|apply largest_bpow; lia]).
      split; [exact Fv|]. rewrite Yz, Rmult_0_r. split.
      + destruct (mul_fin prec emax _ _ Fv) as (_ & _ & E). unfold v at 1. rewrite E, Z0, Rmult_0_r, round_0 by apply valid_rnd_N. apply rel_refl.
      + rewrite Rabs_R0. apply bpow_ge_0.
    - fold (Y i) in Bv. assert (Bm : between (k * (Z.of_nat n + 2)) (T i * Y i)) by (replace (k * (Z.of_nat n + 2))%Z with (k * (Z.of_nat n + 1) + k)%Z by ring; apply between_mul; assumption).
      pose proof (between_rel (2 * n) _ _ _ ltac:(pose proof (pow_mono prec (2 * n) (3 * n) ltac:(lia)); lra) Rr Bm) as [L1 L2].
      assert (Fv : is_finite (v i) = true) by (unfold v; apply mul_ok; [exact Ft|exact Fy|]; eapply Rle_trans; [exact L2|apply largest_bpow; lia]).
      split; [exact Fv|]. split; [|exact (proj2 Bm)]. destruct (mul_fin prec emax _ _ Fv) as (_ & _ & E). unfold v at 1. rewrite E. rewrite Nat.add_comm. eapply rel_trans; [|exact Rr]. apply rd_rel. eapply Rle_trans; [|exact L1]. apply bpow_le. lia. }
  (* the two sums *)
  assert (NB : forall m, (m <= k * (Z.of_nat n + 2))%Z -> INR n * 2 * bpow radix2 m <= largest prec emax).
  { intros m Hm. apply Rle_trans with (bpow radix2 (k + 1 + m)); [|apply largest_bpow; lia]. rewrite !bpow_plus. change (bpow radix2 1) with 2. pose proof (bpow_gt_0 radix2 m). apply Rmult_le_compat_r; lra. }
  assert (FN : is_finite (fold_left (add o) (map v (seq 0 n)) (zero o)) = true).
  { apply (sum_moderate n (2 * n + 1) (k * (Z.of_nat n + 2)) v (fun i => T i * Y i) N1 HV); [replace (2 * n + 1 + n)%nat with (3 * n + 1)%nat by lia; exact Q'|apply NB; lia]. }
  assert (FD : is_finite (fold_left (add o) (map t (seq 0 n)) (zero o)) = true).
  { apply (sum_moderate n (2 * n) (k * (Z.of_nat n + 1)) t T N1).
    - intros i Hi. destruct (HT i Hi) as (A1 & A2 & [_ A3]). auto.
    - replace (2 * n + n)%nat with (3 * n)%nat by lia. exact Q.
    - apply NB. nia. }
  pose proof (sum_rel n (2 * n + 1) v (fun i => T i * Y i) ltac:(intros i Hi; apply (HV i Hi)) FN) as EN. replace (2 * n + 1 + (n - 1))%nat with (3 * n)%nat in EN by lia. fold g in EN.
  pose proof (sum_rel n (2 * n) t T ltac:(intros i Hi; apply (HT i Hi)) FD) as ED.
  assert (G0 : (1 + u) ^ (2 * n + (n - 1)) - 1 <= g) by (unfold g; pose proof (pow_mono prec (2 * n + (n - 1)) (3 * n) ltac:(lia)); lra).
  assert (Gp : 0 <= g) by (unfold g; pose proof (pow1 prec (3 * n)); lra).
  assert (ED' : Rabs (B2R (fold_left (add o) (map t (seq 0 n)) (zero o)) - sum n T) <= g * sum n (fun i => Rabs (T i))).
  { eapply Rle_trans; [exact ED|]. apply Rmult_le_compat_r; [apply sum_pos; intros; apply Rabs_pos|exact G0]. }
  clear ED G0. set (SN := fold_left (add o) (map v (seq 0 n)) (zero o)) in *. set (SD := fold_left (add o) (map t (seq 0 n)) (zero o)) in *.
  (* their exact values *)
  assert (Dx : distinct n X) by (intros i j Hi Hj Nij E; pose proof (between_nz _ _ (Bx i j Hi Hj Nij)); unfold X in E; lra).
  assert (Nz : forall i, (i < n)%nat -> z <> X i) by (intros i Hi E; pose proof (between_nz _ _ (proj1 (Be i Hi))); unfold X in E; lra).
  set (w := fun i => / pe i n (fun j => X i - X j)). set (A := pa n (fun j => z - X j)). assert (An : A <> 0) by (apply pa_nz; intros i Hi; pose proof (Nz i Hi); lra).
  assert (SY : sum n (fun i => T i * Y i) = f z / A).
  { unfold A. rewrite <- (lagrange n X w f z); [|intros j Hj; reflexivity|exact Dx|exact Hf|exact Nz]. apply sum_ext. intros i Hi. unfold T, w. f_equal. symmetry. apply Hy, Hi. }
  assert (S1 : sum n T = / A).
  { destruct n as [|n']; [lia|]. replace (/ A) with (1 / A) by (unfold Rdiv; ring). unfold A. rewrite <- (lagrange (S n') X w (fun _ => 1) z); [|intros j Hj; reflexivity|exact Dx|apply poly_const|exact Nz]. apply sum_ext. intros i Hi. unfold T, w. ring. }
  assert (Tb : forall i, (i < n)%nat -> T i = b i * / A).
  { intros i Hi. unfold b. rewrite basis_pe by (intros j Hj Nj; apply Dx; auto). unfold A. rewrite (pe_pa i n (fun j => z - X j) Hi). unfold T.
    assert (pe i n (fun j => X i - X j) <> 0) by (apply pe_nz; intros j Hj Nj; assert (X i <> X j) by (apply Dx; auto); lra).
    assert (pe i n (fun j => z - X j) <> 0) by (apply pe_nz; intros j Hj Nj; pose proof (Nz j Hj); lra). pose proof (Nz i Hi). field. repeat split; try assumption; lra. }
  assert (ZN : sum n (fun i => Rabs (T i * Y i)) = size * Rabs (/ A)).
  { unfold size. rewrite <- sum_scal_r. apply sum_ext. intros i Hi. rewrite (Tb i Hi), <- Rabs_mult. f_equal. unfold Y. ring. }
  assert (ZD : sum n (fun i => Rabs (T i)) = lebesgue * Rabs (/ A)).
  { unfold lebesgue. rewrite <- sum_scal_r. apply sum_ext. intros i Hi. rewrite (Tb i Hi), <- Rabs_mult. reflexivity. }
  rewrite SY, ZN in EN. rewrite S1, ZD in ED'. assert (Ap : 0 < Rabs A) by (apply Rabs_pos_lt, An).
  set (E1 := B2R SN * A - f z). set (E2 := B2R SD * A - 1).
  assert (H1 : Rabs E1 <= g * size).
  { unfold E1. replace (B2R SN * A - f z) with ((B2R SN - f z / A) * A) by (field; exact An). rewrite Rabs_mult. apply (Rmult_le_compat_r (Rabs A)) in EN; [|lra]. eapply Rle_trans; [exact EN|].
    rewrite Rabs_Rinv by exact An. right. field. lra. }
  assert (H2 : Rabs E2 <= g * lebesgue).
  { unfold E2. replace (B2R SD * A - 1) with ((B2R SD - / A) * A) by (field; exact An). rewrite Rabs_mult. apply (Rmult_le_compat_r (Rabs A)) in ED'; [|lra]. eapply Rle_trans; [exact ED'|].
    rewrite Rabs_Rinv by exact An. right. field. lra. }
  assert (H3 : 0 < 1 - g * lebesgue <= 1 + E2) by (apply Rabs_le_inv in H2; lra).
  assert (Nd : B2R SD <> 0) by (intros Z; unfold E2 in H3; rewrite Z in H3; lra).
  set (r := B2R SN / B2R SD). assert (Er : r - f z = (E1 - f z * E2) / (1 + E2)).
  { unfold r. replace (B2R SN) with ((f z + E1) / A) by (unfold E1; field; exact An). replace (B2R SD) with ((1 + E2) / A) by (unfold E2; field; exact An). field. split; lra. }
  assert (H4 : Rabs (r - f z) <= spread).
  { rewrite Er. unfold spread, Rdiv. rewrite Rabs_mult, Rabs_Rinv, (Rabs_pos_eq (1 + E2)) by lra. apply Rmult_le_compat; [apply Rabs_pos|left; apply Rinv_0_lt_compat; lra| |apply Rinv_le_contravar; lra].
    eapply Rle_trans; [apply Rabs_triang|]. rewrite Rabs_Ropp, Rabs_mult. pose proof (Rabs_pos (f z)). apply (Rmult_le_compat_l (Rabs (f z))) in H2; [|lra]. lra. }
  assert (Fr : is_finite (div o SN SD) = true).
  { apply (div_ok prec emax); [exact Nd|exact FN|]. fold r. replace r with (r - f z + f z) by ring. eapply Rle_trans; [apply Rabs_triang|]. lra. }
  split; [exact Fr|]. destruct (div_fin prec emax SN SD Nd Fr) as [_ E]. rewrite E. destruct (rd_err prec emax (B2R SN / B2R SD)) as (e & d & Ae & Ad & ->). fold r.
  replace (r * (1 + e) + d - f z) with ((r - f z) * (1 + e) + (f z * e + d)) by ring. eapply Rle_trans; [apply Rabs_triang|]. rewrite Rabs_mult.
  assert (A1 : Rabs (1 + e) <= 1 + u) by (eapply Rle_trans; [apply Rabs_triang|]; rewrite Rabs_R1; lra).
  assert (A2 : Rabs (f z * e + d) <= u * Rabs (f z) + eta) by (eapply Rle_trans; [apply Rabs_triang|]; rewrite Rabs_mult, (Rmult_comm u); pose proof (Rabs_pos (f z)); apply Rplus_le_compat; [apply Rmult_le_compat_l; lra|lra]).
  assert (A3 : Rabs (r - f z) * Rabs (1 + e) <= (1 + u) * spread).
  { rewrite (Rmult_comm (1 + u)). apply Rmult_le_compat; auto using Rabs_pos. }
  lra.
Qed.
(** at a node the stored value comes back, bit for bit *)
Theorem C127_polynomial_nodes : forall n xs ys p i, (1 < emax)%Z -> g_poly_new o epsilon n xs ys = Some p -> (i < n)%nat -> is_finite (xs i) = true ->
  g_poly_eval o epsilon p (xs i) = ys i.
Proof.
  intros n xs ys p i W Hp Hi Fi. destruct (g_poly_new_some o epsilon n xs ys p Hp) as (_ & Sep & Ex & Ey & _). unfold g_poly_eval.
  destruct (epsilon_value prec emax W) as (Ev & Ef & _). rewrite <- Ex. rewrite g_near_node; [rewrite Ey; reflexivity|exact Hi| |rewrite Ex; exact Sep].
  rewrite Ex. assert (Fs : is_finite (sub o (xs i) (xs i)) = true).
  { apply sub_ok; [exact Fi|exact Fi|]. rewrite Rminus_diag_eq, Rabs_R0 by reflexivity. eapply Rle_trans; [apply (bpow_ge_0 radix2 0)|apply largest_bpow; lia]. }
  cbn [leb float_ops]. rewrite Bleb_correct; [|rewrite abs_fin; exact Fs|exact Ef]. apply Rle_bool_true. rewrite abs_val, Ev.
  destruct (sub_rel _ _ Fs) as (q & _ & ->). rewrite Rminus_diag_eq, Rmult_0_l, Rabs_R0 by reflexivity. apply bpow_ge_0.
Qed.
Lemma rd_mono x y : x <= y -> rd x <= rd y. Proof. apply round_le; [apply vexp3|apply valid_rnd_N]. Qed.
Lemma rd_zero : rd 0 = 0. Proof. apply round_0, valid_rnd_N. Qed.
Lemma one_fmt : rd 1 = 1.
Proof. pose proof (Bone_correct prec emax _ _) as E. rewrite <- E. apply round_generic; [apply valid_rnd_N|apply generic_format_B2R]. Qed.
Lemma sub_value (x y : fl) : is_finite (sub o x y) = true -> B2R (sub o x y) = rd (B2R x - B2R y).
Proof.
  intros H. assert (is_finite x = true /\ is_finite y = true) as [Fx Fy] by (destruct (sub_fin prec emax x y H) as (A & B & _); auto).
  cbn [sub float_ops] in *. pose proof (Bminus_correct prec emax _ _ mode_NE x y Fx Fy) as C. cbn [round_mode] in C.
  destruct (Rlt_bool _ _); [|destruct C as [C _]; apply sf_over in C; congruence]. destruct C as [C _]. exact C.
Qed.
Lemma not_finite_above (x : fl) : (1 < emax)%Z -> is_finite x = false -> leb o (absf o x) epsilon = false.
Proof.
  intros W H. destruct (epsilon_value prec emax W) as (_ & Ef & _). cbn [leb absf float_ops]. destruct x as [s|s| |s m e Bd]; try discriminate; destruct epsilon; try discriminate; reflexivity.
Qed.
(** construction from finite nodes succeeds when they are further apart than EPSILON, but for one rounding *)
Theorem C127_polynomial_construction : forall n xs ys, (1 < emax)%Z -> (forall i, (i < n)%nat -> is_finite (xs i) = true) ->
  ((0 < n)%nat -> (forall i j, (i < n)%nat -> (j < n)%nat -> i <> j -> (1 + u) * bpow radix2 (1 - prec) < Rabs (B2R (xs i) - B2R (xs j))) ->
    exists p, g_poly_new o epsilon n xs ys = Some p) /\
  ((exists p, g_poly_new o epsilon n xs ys = Some p) -> (0 < n)%nat /\
    forall i j, (i < n)%nat -> (j < n)%nat -> i <> j -> bpow radix2 (1 - prec) < Rabs (B2R (xs i) - B2R (xs j))).
Proof.
  intros n xs ys W Fi. destruct (epsilon_value prec emax W) as (Ev & Ef & _). split.
  - intros N1 H. apply g_poly_new_ok; [exact N1|]. intros i j Hi Hj Nij. destruct (is_finite (sub o (xs i) (xs j))) eqn:Fs; [|apply not_finite_above; assumption].
    cbn [leb float_ops]. rewrite Bleb_correct; [|rewrite abs_fin; exact Fs|exact Ef]. apply Rle_bool_false. rewrite abs_val, Ev.
    pose proof (rel_size _ _ _ (sub_rel _ _ Fs)) as [L _]. rewrite pow_1 in L. eapply Rlt_le_trans; [|exact L]. pose proof (u_pos prec) as U.
    apply Rmult_lt_reg_l with (1 + u); [lra|]. rewrite <- Rmult_assoc, Rinv_r, Rmult_1_l by lra. apply H; assumption.
  - intros (p & Hp). destruct (g_poly_new_some o epsilon n xs ys p Hp) as (N1 & Sep & _). split; [exact N1|]. intros i j Hi Hj Nij. apply Rnot_le_lt. intros L.
    assert (Le : bpow radix2 (1 - prec) <= largest prec emax) by (apply largest_bpow; pose proof P as Pp; unfold Prec_gt_0 in Pp; lia).
    assert (Fs : is_finite (sub o (xs i) (xs j)) = true) by (apply sub_ok; auto; lra). pose proof (Sep i j Hi Hj Nij) as K. cbn [leb float_ops] in K.
    rewrite Bleb_correct in K; [|rewrite abs_fin; exact Fs|exact Ef]. rewrite abs_val, Ev in K. rewrite Rle_bool_true in K; [discriminate|].
    rewrite (sub_value _ _ Fs).
    apply abs_round_le_generic; [apply vexp3|apply valid_rnd_N|rewrite <- Ev; apply generic_format_B2R|exact L].
Qed.
(** but it also accepts nodes that are not numbers *)
Theorem C127_polynomial_construction_refuted : (1 < emax)%Z -> exists (xs ys : nat -> fl) p, g_poly_new o epsilon 2 xs ys = Some p /\ is_nan (xs 0%nat) = true.
Proof.
  intros W. set (xs := fun i => match i with O => B754_nan | _ => one o end : fl). destruct (g_poly_new_ok o epsilon 2 xs (fun _ => zero o)) as (p & E); [lia| |exists xs, (fun _ => zero o), p; split; [exact E|reflexivity]].
  intros i j Hi Hj N. apply not_finite_above; [exact W|]. unfold xs. assert ((i = 0 /\ j = 1) \/ (i = 1 /\ j = 0))%nat as [[-> ->]|[-> ->]] by lia; [reflexivity|]. cbn [sub one float_ops]. destruct Bone; reflexivity.
Qed.

(** ** Linear interpolation *)
Lemma lerp_fin (a b t : fl) : is_finite (g_lerp o a b t) = true ->
  is_finite a = true /\ is_finite b = true /\ is_finite t = true /\ B2R (g_lerp o a b t) = rd (B2R a + rd (rd (B2R b - B2R a) * B2R t)).
Proof.
  unfold g_lerp. intros H. destruct (add_fin prec emax _ _ H) as (Fa & Fm & E). destruct (mul_fin prec emax _ _ Fm) as (Fs & Ft & Em). destruct (sub_fin prec emax _ _ Fs) as (Fb & _ & _).
  rewrite E, Em, (sub_value _ _ Fs). auto.
Qed.
Lemma prod_err f m e : Rabs e <= u -> Rabs (f - 1) <= (1 + u) ^ m - 1 -> Rabs (f * (1 + e) - 1) <= (1 + u) ^ S m - 1.
Proof.
  intros A F. replace (f * (1 + e) - 1) with ((f - 1) * (1 + e) + e) by ring. eapply Rle_trans; [apply Rabs_triang|]. rewrite Rabs_mult.
  assert (A1 : Rabs (1 + e) <= 1 + u) by (eapply Rle_trans; [apply Rabs_triang|]; rewrite Rabs_R1; lra).
  assert (Rabs (f - 1) * Rabs (1 + e) <= ((1 + u) ^ m - 1) * (1 + u)) by (apply Rmult_le_compat; auto using Rabs_pos). cbn [pow]. lra.
Qed.
(** three roundings *)
Theorem C127_lerp_error : forall a b t, is_finite (g_lerp o a b t) = true ->
  let A := B2R a in let B := B2R b in let T := B2R t in
  Rabs (B2R (g_lerp o a b t) - (A + (B - A) * T)) <= ((1 + u) ^ 3 - 1) * (Rabs A + Rabs ((B - A) * T)) + (1 + u) * eta.
Proof.
  intros a b t H A B T. unfold g_lerp in *. destruct (add_fin prec emax _ _ H) as (Fa & Fm & E). destruct (mul_fin prec emax _ _ Fm) as (Fs & Ft & Em). destruct (sub_fin prec emax _ _ Fs) as (_ & _ & e1 & A1 & Es).
  rewrite E. destruct (rd_sum prec emax a (mul o (sub o b a) t)) as (e3 & A3 & ->). rewrite Em, Es. destruct (rd_err prec emax ((B2R b - B2R a) * (1 + e1) * B2R t)) as (e2 & d & A2 & Ad & ->).
  fold A B T. set (m := (B - A) * T). replace ((B - A) * (1 + e1) * T) with (m * (1 + e1)) by (unfold m; ring).
  replace ((A + (m * (1 + e1) * (1 + e2) + d)) * (1 + e3) - (A + m)) with (A * e3 + (m * ((1 + e1) * (1 + e2) * (1 + e3) - 1) + d * (1 + e3))) by ring.
  pose proof (u_pos prec) as U. pose proof (eta_pos prec emax) as Et. pose proof (Rabs_pos A). pose proof (Rabs_pos m). pose proof (Rabs_pos e1). pose proof (Rabs_pos e2). pose proof (Rabs_pos e3).
  assert (F : Rabs ((1 + e1) * (1 + e2) * (1 + e3) - 1) <= (1 + u) ^ 3 - 1).
  { assert (F1 : Rabs ((1 + e1) - 1) <= (1 + u) ^ 1 - 1) by (replace (1 + e1 - 1) with e1 by ring; rewrite pow_1; lra). apply (prod_err _ 1 e2 A2) in F1. apply (prod_err _ 2 e3 A3) in F1. exact F1. }
  eapply Rle_trans; [apply Rabs_triang|]. eapply Rle_trans; [apply Rplus_le_compat_l, Rabs_triang|]. rewrite !Rabs_mult.
  assert (B1 : Rabs A * Rabs e3 <= ((1 + u) ^ 3 - 1) * Rabs A).
  { rewrite (Rmult_comm (Rabs A)). apply Rmult_le_compat_r; [lra|]. pose proof (pow_mono prec 1 3 ltac:(lia)). rewrite pow_1 in *. lra. }
  assert (B2 : Rabs m * Rabs ((1 + e1) * (1 + e2) * (1 + e3) - 1) <= ((1 + u) ^ 3 - 1) * Rabs m) by (rewrite (Rmult_comm (Rabs m)); apply Rmult_le_compat_r; lra).
  assert (B3 : Rabs d * Rabs (1 + e3) <= eta * (1 + u)).
  { apply Rmult_le_compat; try apply Rabs_pos; [exact Ad|]. eapply Rle_trans; [apply Rabs_triang|]. rewrite Rabs_R1. lra. }
  lra.
Qed.
(** the start is exact, equal ends give that value, and the result moves in one direction as t grows *)
Theorem C127_lerp_start : forall a b t, is_finite (g_lerp o a b t) = true -> B2R t = 0 \/ B2R a = B2R b -> B2R (g_lerp o a b t) = B2R a.
Proof.
  intros a b t H C. destruct (lerp_fin a b t H) as (_ & _ & _ & E). rewrite E. assert (Z : rd (B2R b - B2R a) * B2R t = 0).
  { destruct C as [->| ->]; [ring|]. rewrite Rminus_diag_eq, rd_zero by reflexivity. ring. }
  rewrite Z, rd_zero, Rplus_0_r. apply rd_id.
Qed.
Theorem C127_lerp_monotone : forall a b s t, is_finite (g_lerp o a b s) = true -> is_finite (g_lerp o a b t) = true -> B2R s <= B2R t ->
  (B2R a <= B2R b -> B2R (g_lerp o a b s) <= B2R (g_lerp o a b t)) /\ (B2R b <= B2R a -> B2R (g_lerp o a b t) <= B2R (g_lerp o a b s)).
Proof.
  intros a b s t Hs Ht L. destruct (lerp_fin a b s Hs) as (_ & _ & _ & Es). destruct (lerp_fin a b t Ht) as (_ & _ & _ & E'). rewrite Es, E'. split; intros D.
  - apply rd_mono, Rplus_le_compat_l, rd_mono. apply Rmult_le_compat_l; [|exact L]. rewrite <- rd_zero. apply rd_mono. lra.
  - apply rd_mono, Rplus_le_compat_l, rd_mono. assert (rd (B2R b - B2R a) <= 0) by (rewrite <- rd_zero; apply rd_mono; lra). nra.
Qed.
(** at and between the ends of a usable range the parameter is 0, 1 and in order between them *)
Lemma inverse_value (a b v : fl) : (1 < emax)%Z -> is_finite a = true -> is_finite b = true -> is_finite v = true ->
  leb o (absf o (sub o b a)) epsilon = false -> B2R a <= B2R v <= B2R b -> is_finite (sub o b a) = true ->
  g_inverse_lerp o epsilon a b v = div o (sub o v a) (sub o b a) /\ is_finite (g_inverse_lerp o epsilon a b v) = true /\ 0 < B2R (sub o b a) /\
  B2R (g_inverse_lerp o epsilon a b v) = rd (rd (B2R v - B2R a) / rd (B2R b - B2R a)).
Proof.
  intros W Fa Fb Fv L B Fs. assert (E : g_inverse_lerp o epsilon a b v = div o (sub o v a) (sub o b a)) by (unfold g_inverse_lerp; cbv zeta; rewrite L; reflexivity). rewrite E.
  destruct (epsilon_value prec emax W) as (Ev & Ef & _). apply (leb_false prec emax) in L; [|rewrite abs_fin; exact Fs|exact Ef]. rewrite abs_val, Ev in L. pose proof (bpow_gt_0 radix2 (1 - prec)) as Ep.
  assert (Sv : B2R (sub o b a) = rd (B2R b - B2R a)) by (apply sub_value, Fs). assert (S0 : 0 <= B2R (sub o b a)) by (rewrite Sv, <- rd_zero; apply rd_mono; lra). rewrite Rabs_pos_eq in L by exact S0.
  assert (Fva : is_finite (sub o v a) = true).
  { cbn [sub float_ops]. pose proof (Bminus_correct prec emax _ _ mode_NE v a Fv Fa) as C. cbn [round_mode] in C. rewrite Rlt_bool_true in C; [apply C|].
    pose proof (abs_B2R_lt_emax _ _ (sub o b a)) as Lt. rewrite Sv in Lt. assert (0 <= rd (B2R v - B2R a)) by (rewrite <- rd_zero; apply rd_mono; lra). assert (rd (B2R v - B2R a) <= rd (B2R b - B2R a)) by (apply rd_mono; lra).
    rewrite Rabs_pos_eq by assumption. apply Rabs_lt_inv in Lt. apply Rle_lt_trans with (rd (B2R b - B2R a)); [assumption|]. apply Lt. }
  split; [reflexivity|]. assert (Vv : B2R (sub o v a) = rd (B2R v - B2R a)) by (apply sub_value, Fva).
  assert (V0 : 0 <= B2R (sub o v a) <= B2R (sub o b a)) by (rewrite Vv, Sv; split; [rewrite <- rd_zero; apply rd_mono; lra|apply rd_mono; lra]).
  assert (Fd : is_finite (div o (sub o v a) (sub o b a)) = true).
  { apply (div_ok prec emax); [lra|exact Fva|]. rewrite Rabs_pos_eq by (apply Rmult_le_pos; [lra|left; apply Rinv_0_lt_compat; lra]). apply Rle_trans with (bpow radix2 0); [|apply largest_bpow; lia].
    change (bpow radix2 0) with 1. apply Rmult_le_reg_r with (B2R (sub o b a)); [lra|]. unfold Rdiv. rewrite Rmult_assoc, Rinv_l by lra. lra. }
  split; [exact Fd|]. split; [lra|]. assert (Nz : B2R (sub o b a) <> 0) by lra. destruct (div_fin prec emax _ _ Nz Fd) as [_ ->]. rewrite Vv, Sv. reflexivity.
Qed.
Theorem C127_inverse_lerp : forall a b, (1 < emax)%Z -> is_finite a = true -> is_finite b = true -> is_finite (sub o b a) = true ->
  leb o (absf o (sub o b a)) epsilon = false -> B2R a <= B2R b ->
  B2R (g_inverse_lerp o epsilon a b a) = 0 /\ B2R (g_inverse_lerp o epsilon a b b) = 1 /\
  (forall v w, is_finite v = true -> is_finite w = true -> B2R a <= B2R v -> B2R v <= B2R w -> B2R w <= B2R b ->
    0 <= B2R (g_inverse_lerp o epsilon a b v) <= B2R (g_inverse_lerp o epsilon a b w) /\ B2R (g_inverse_lerp o epsilon a b w) <= 1).
Proof.
  intros a b W Fa Fb Fs L AB. pose proof (fun v Fv B => inverse_value a b v W Fa Fb Fv L B Fs) as I.
  assert (D0 : 0 < rd (B2R b - B2R a)) by (destruct (I a Fa ltac:(lra)) as (_ & _ & D & _); rewrite sub_value in D by exact Fs; exact D).
  assert (Ia : B2R (g_inverse_lerp o epsilon a b a) = 0).
  { destruct (I a Fa ltac:(lra)) as (_ & _ & _ & ->). rewrite Rminus_diag_eq, rd_zero by reflexivity. unfold Rdiv. rewrite Rmult_0_l. apply rd_zero. }
  assert (Ib : B2R (g_inverse_lerp o epsilon a b b) = 1).
  { destruct (I b Fb ltac:(lra)) as (_ & _ & _ & ->). replace (rd (B2R b - B2R a) / rd (B2R b - B2R a)) with 1 by (field; lra). apply one_fmt. }
  assert (Mo : forall v w, is_finite v = true -> is_finite w = true -> B2R a <= B2R v -> B2R v <= B2R w -> B2R w <= B2R b -> B2R (g_inverse_lerp o epsilon a b v) <= B2R (g_inverse_lerp o epsilon a b w)).
  { intros v w Fv Fw L1 L2 L3. destruct (I v Fv ltac:(lra)) as (_ & _ & _ & ->). destruct (I w Fw ltac:(lra)) as (_ & _ & _ & ->). apply rd_mono. apply Rmult_le_compat_r; [left; apply Rinv_0_lt_compat, D0|]. apply rd_mono. lra. }
  split; [exact Ia|]. split; [exact Ib|]. intros v w Fv Fw L1 L2 L3. split; [split|].
  - apply Rle_trans with (1 := Req_le _ _ (eq_sym Ia)). apply Mo; auto; lra.
  - apply Mo; assumption.
  - apply Rle_trans with (2 := Req_le _ _ Ib). apply Mo; auto; lra.
Qed.
(** the start of a range is remapped exactly *)
Theorem C127_remap_start : forall in_a in_b out_a out_b, is_finite (g_remap o epsilon in_a in_a in_b out_a out_b) = true -> (1 < emax)%Z ->
  is_finite in_a = true -> is_finite in_b = true -> is_finite (sub o in_b in_a) = true ->
  B2R (g_remap o epsilon in_a in_a in_b out_a out_b) = B2R out_a.
Proof.
  intros ia ib oa ob H W Fa Fb Fs. unfold g_remap in *. apply C127_lerp_start; [exact H|left]. unfold g_inverse_lerp in *. cbv zeta in *. destruct (leb o (absf o (sub o ib ia)) epsilon) eqn:L; [reflexivity|].
  destruct (lerp_fin _ _ _ H) as (_ & _ & Fd & _). assert (Nz : B2R (sub o ib ia) <> 0).
  { destruct (epsilon_value prec emax W) as (Ev & Ef & _). apply (leb_false prec emax) in L; [|rewrite abs_fin; exact Fs|exact Ef]. rewrite abs_val, Ev in L. intros Z. rewrite Z, Rabs_R0 in L. pose proof (bpow_gt_0 radix2 (1 - prec)). lra. }
  destruct (div_fin prec emax _ _ Nz Fd) as [Fn E]. rewrite E, (sub_value _ _ Fn), Rminus_diag_eq, rd_zero by reflexivity. unfold Rdiv. rewrite Rmult_0_l. apply rd_zero.
Qed.
End Width.
(** the line through (1, 1) and (2, 3), evaluated at 4 in f64 *)
Example C127_polynomial_nontrivial : let ou := float_of_usize 53 1024 (P := eq_refl) (M := eq_refl) in
  exists p, g_poly_new (float_ops 53 1024 (P := eq_refl) (M := eq_refl)) (float_epsilon 53 1024 (P := eq_refl) (M := eq_refl)) 2 (fun i => ou (i + 1)%nat) (fun i => ou (2 * i + 1)%nat) = Some p /\
  let r := g_poly_eval (float_ops 53 1024 (P := eq_refl) (M := eq_refl)) (float_epsilon 53 1024 (P := eq_refl) (M := eq_refl)) p (ou 4%nat) in
  is_finite r = true /\ Rabs (B2R r - 7) < / 1000.
Proof.
  intros ou. set (P := eq_refl : Prec_gt_0 53). set (M := eq_refl : Prec_lt_emax 53 1024).
  assert (U : 0 < unit 53 <= / 1000000000) by (split; [apply bpow_gt_0|unfold unit; cbn; lra]).
  assert (V : forall i, (i <= 4)%nat -> B2R (ou i) = INR i /\ is_finite (ou i) = true).
  { intros i Hi. apply (usize_exact 53 1024). apply le_INR in Hi. eapply Rle_trans; [exact Hi|]. cbn. lra. }
  assert (D : forall i j, (i < 2)%nat -> (j < 2)%nat -> i <> j -> Rabs (B2R (ou (i + 1)%nat) - B2R (ou (j + 1)%nat)) = 1).
  { intros i j Hi Hj N. rewrite !(fun n H => proj1 (V n H)) by lia. assert ((i = 0 /\ j = 1) \/ (i = 1 /\ j = 0))%nat as [[-> ->]|[-> ->]] by lia; cbn; [rewrite Rabs_left|rewrite Rabs_pos_eq]; lra. }
  assert (W : (1 < 1024)%Z) by lia.
  destruct (proj1 (C127_polynomial_construction 53 1024 2 (fun i => ou (i + 1)%nat) (fun i => ou (2 * i + 1)%nat) W (fun i Hi => proj2 (V (i + 1)%nat ltac:(lia)))) ltac:(lia)) as (p & Hp).
  { intros i j Hi Hj N. rewrite D by assumption. cbn. lra. }
  exists p. split; [exact Hp|]. set (z := B2R (ou 4%nat)). assert (Z : z = 4) by (unfold z; rewrite (proj1 (V 4%nat ltac:(lia))); cbn; lra).
  assert (G : (1 + unit 53) ^ 7 <= 1 + / 10000000).
  { apply Rle_trans with ((1 + / 1000000000) ^ 7); [apply pow_incr; lra|]. cbn. lra. }
  pose proof (C127_polynomial_error 53 1024 2 (fun i => ou (i + 1)%nat) (fun i => ou (2 * i + 1)%nat) p (fun t => 2 * t - 1) (ou 4%nat) 2 Hp) as T. cbv beta zeta in T.
  assert (B0 : basis 2 0 (fun j => B2R (ou (j + 1)%nat)) (B2R (ou 4%nat)) = - 2).
  { cbn [basis Nat.eqb]. fold z. rewrite Z, (proj1 (V (1 + 1)%nat ltac:(lia))), (proj1 (V (0 + 1)%nat ltac:(lia))). cbn. field. }
  assert (B1 : basis 2 1 (fun j => B2R (ou (j + 1)%nat)) (B2R (ou 4%nat)) = 3).
  { cbn [basis Nat.eqb]. fold z. rewrite Z, (proj1 (V (1 + 1)%nat ltac:(lia))), (proj1 (V (0 + 1)%nat ltac:(lia))). cbn. field. }
  assert (SL : sum 2 (fun i => Rabs (basis 2 i (fun j => B2R (ou (j + 1)%nat)) (B2R (ou 4%nat)))) = 5).
  { cbn [sum]. rewrite B0, B1, Rabs_left, Rabs_pos_eq; lra. }
  assert (SS : sum 2 (fun i => Rabs (basis 2 i (fun j => B2R (ou (j + 1)%nat)) (B2R (ou 4%nat)) * B2R (ou (2 * i + 1)%nat))) = 11).
  { cbn [sum]. rewrite B0, B1, (proj1 (V (2 * 1 + 1)%nat ltac:(lia))), (proj1 (V (2 * 0 + 1)%nat ltac:(lia))). cbn. rewrite Rabs_left, Rabs_pos_eq; lra. }
  rewrite SL, SS in T. change (B2R (ou 4%nat)) with z in T. rewrite Z in T. replace (2 * 4 - 1) with 7 in T by lra. rewrite (Rabs_pos_eq 7) in T by lra.
  change (3 * 2)%nat with 6%nat in T. pose proof (pow1 53 6) as G1. pose proof (pow_mono 53 6 7 ltac:(lia)) as G2. set (g := (1 + unit 53) ^ 6) in *.
  assert (Sp : 0 <= (g - 1) * (11 + 5 * 7) / (1 - (g - 1) * 5) <= / 10000).
  { assert (Hg : 0 <= g - 1 <= / 10000000) by lra. clearbody g. split; [apply Rmult_le_pos; [lra|left; apply Rinv_0_lt_compat; lra]|]. apply Rmult_le_reg_r with (1 - (g - 1) * 5); [lra|]. unfold Rdiv. rewrite Rmult_assoc, Rinv_l by lra. lra. }
  assert (La : 8 <= largest 53 1024).
  { apply Rle_trans with (bpow radix2 3); [cbn; lra|]. apply (largest_bpow 53 1024). apply Z.leb_le. reflexivity. }
  assert (Et : 0 < tiny 53 1024 <= / 100000).
  { split; [apply eta_pos|]. unfold tiny. assert (bpow radix2 (3 - 1024 - 53) <= bpow radix2 (-30)) by (apply bpow_le; lia). cbn in H |- *. lra. }
  assert (Bt : forall r, / 4 <= Rabs r <= 4 -> between 2 r) by (intros r Hr; unfold between; cbn; lra).
  destruct T as [T1 T2].
  - exists (-1), (fun _ => 2). split; [exists 2, (fun _ => 0); split; [cbn; intros; reflexivity|intros; ring]|intros; ring].
  - intros i Hi. rewrite !(fun n H => proj1 (V n H)) by lia. rewrite !plus_INR, mult_INR. cbn. ring.
  - lia.
  - lia.
  - cbn. lra.
  - change (6 + 1)%nat with 7%nat. lra.
  - apply V; lia.
  - intros i Hi. split; apply V; lia.
  - intros i j Hi Hj N. apply Bt. rewrite D by assumption. lra.
  - intros i Hi. assert (E : Rabs (4 - B2R (ou (i + 1)%nat)) = 3 - INR i).
    { rewrite (proj1 (V (i + 1)%nat ltac:(lia))), plus_INR. assert (INR i <= 1) by (change 1 with (INR 1); apply le_INR; lia). rewrite Rabs_pos_eq; cbn; lra. }
    assert (0 <= INR i <= 1) by (split; [apply pos_INR|change 1 with (INR 1); apply le_INR; lia]).
    split; [apply Bt; rewrite E; lra|]. rewrite E. cbn. lra.
  - intros i Hi. right. apply Bt. rewrite (proj1 (V (2 * i + 1)%nat ltac:(lia))), Rabs_pos_eq by apply pos_INR. rewrite plus_INR, mult_INR. assert (0 <= INR i <= 1) by (split; [apply pos_INR|change 1 with (INR 1); apply le_INR; lia]). cbn. lra.
  - lra.
  - lra.
  - split; [exact T1|]. eapply Rle_lt_trans; [exact T2|]. set (sp := (g - 1) * (11 + 5 * 7) / (1 - (g - 1) * 5)) in *. assert (unit 53 * sp <= 1 * sp) by (apply Rmult_le_compat_r; lra). lra.
Qed.
