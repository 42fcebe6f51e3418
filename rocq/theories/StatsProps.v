(** Statistics: the theorems for properties C48, C49, C82 and C83. *)
From Coq Require Import NArith ZArith QArith Qreals Classical Reals List Arith Bool Lra Lia Permutation.
From Coquelicot Require Import Coquelicot.
From Verif Require Import Scalar RSum LinModel LinSpec LinProofs LinProps SolveModel DetSpec CholProofs SolveProofs
  LuProofs GaussProofs SolveProps RandModel RandRealModel RandProps StatsModel StatsSpec StatsProofs.
Import ListNotations.
Open Scope R_scope.

(** * C48 *)
(* fewer than two samples are refused, everything else is accepted *)
Theorem C48_when_defined : forall N samples,
  (length samples = 0%nat -> sample_covariance N samples = Err EmptySamples) /\
  (length samples = 1%nat -> sample_covariance N samples = Err InsufficientSamples) /\
  ((2 <= length samples)%nat -> exists C, sample_covariance N samples = Ok C).
Proof.
  intros N samples. unfold sample_covariance. destruct samples as [|s0 [|s1 r]] eqn:E; cbn [length].
  - split; [reflexivity|]. split; intros; lia.
  - split; [intros; lia|]. split; [reflexivity|intros; lia].
  - split; [intros; lia|]. split; [intros; lia|]. intros _.
    destruct (mean_ok N (s0 :: s1 :: r) ltac:(discriminate)) as (m & ->).
    cbn [Nat.ltb Nat.leb]. eexists; reflexivity.
Qed.

(* every entry is the textbook sample covariance of two coordinates *)
Theorem C48_entries : forall N samples C a b, sample_covariance N samples = Ok C -> (a < N)%nat -> (b < N)%nat ->
  C a b = sample_cov (column a samples) (column b samples).
Proof.
  intros N samples C a b H Ha Hb. destruct (cov_value N samples C H) as (_ & V). rewrite (V a b Ha Hb).
  unfold sample_cov. f_equal; [|f_equal; f_equal; unfold column; rewrite map_length; reflexivity].
  set (ma := average (column a samples)). set (mb := average (column b samples)). clearbody ma mb. clear.
  induction samples as [|s r IH]; cbn; [reflexivity|]. rewrite IH. reflexivity.
Qed.
Theorem C48_diagonal_is_variance : forall N samples C a, sample_covariance N samples = Ok C -> (a < N)%nat ->
  C a a = sample_var (column a samples).
Proof.
  intros N samples C a H Ha. destruct (cov_value N samples C H) as (_ & V). rewrite (V a a Ha Ha).
  unfold sample_var. f_equal; [|f_equal; f_equal; unfold column; rewrite map_length; reflexivity].
  set (ma := average (column a samples)). unfold column. rewrite map_map. apply total_map_ext. intros s _. ring.
Qed.
Theorem C48_symmetric : forall N samples C a b, sample_covariance N samples = Ok C -> (a < N)%nat -> (b < N)%nat ->
  C a b = C b a.
Proof.
  intros N samples C a b H Ha Hb. destruct (cov_value N samples C H) as (_ & V).
  rewrite (V a b Ha Hb), (V b a Hb Ha). f_equal. apply total_map_ext. intros s _. ring.
Qed.
Theorem C48_positive_semidefinite : forall N samples C v, sample_covariance N samples = Ok C ->
  0 <= sum N (fun a => sum N (fun b => v a * C a b * v b)).
Proof.
  intros N samples C v H. destruct (cov_value N samples C H) as (Hl & V).
  set (w := fun (s : nat -> R) a => s a - average (column a samples)).
  assert (Pn : 0 < INR (length samples) - 1).
  { apply (lt_INR 1) in Hl. cbn [INR] in Hl. lra. }
  replace (sum N (fun a => sum N (fun b => v a * C a b * v b)))
    with (total (map (fun s => Rsqr (sum N (fun a => v a * w s a))) samples) / (INR (length samples) - 1)).
  - apply Rmult_le_pos; [|left; apply Rinv_0_lt_compat; exact Pn].
    apply total_map_pos. intros s. apply Rle_0_sqr.
  - transitivity (total (map (fun s => sum N (fun a => sum N (fun b => v a * (w s a * w s b) * v b))) samples)
                   / (INR (length samples) - 1)).
    + f_equal. apply total_map_ext. intros s _. unfold Rsqr. rewrite <- sum_scal_r. apply sum_ext. intros a Ha.
      rewrite <- sum_scal. apply sum_ext. intros b Hb. ring.
    + rewrite total_sum, <- sum_div. apply sum_ext. intros a Ha.
      rewrite (total_sum samples N (fun s b => v a * (w s a * w s b) * v b)), <- sum_div.
      apply sum_ext. intros b Hb. rewrite (V a b Ha Hb). unfold Rdiv.
      rewrite <- !Rmult_assoc.
      rewrite (total_map_ext samples _ (fun s => (v a * v b) * (w s a * w s b))) by (intros; ring).
      rewrite total_map_scal. unfold w. ring.
Qed.
Theorem C48_order_of_samples_irrelevant : forall N l l' C C' a b, Permutation l l' ->
  sample_covariance N l = Ok C -> sample_covariance N l' = Ok C' -> (a < N)%nat -> (b < N)%nat -> C a b = C' a b.
Proof.
  intros N l l' C C' a b P H H' Ha Hb.
  destruct (cov_value N l C H) as (_ & V). destruct (cov_value N l' C' H') as (_ & V').
  rewrite (V a b Ha Hb), (V' a b Ha Hb).
  assert (E : forall c, average (column c l) = average (column c l')).
  { intros c. unfold average, column. rewrite (total_perm _ _ (Permutation_map _ P)).
    rewrite !map_length, (Permutation_length P). reflexivity. }
  rewrite !E, (Permutation_length P). f_equal. apply total_perm, Permutation_map, P.
Qed.

(* cross covariance: textbook value, transposed when the arguments are exchanged, and the
   covariance of a data set with itself *)
Theorem C48_cross : forall N M xs ys,
  (length xs <> length ys -> sample_cross_covariance N M xs ys = Err SampleCountMismatch) /\
  (length xs = length ys -> (2 <= length xs)%nat -> exists C, sample_cross_covariance N M xs ys = Ok C) /\
  (forall C a b, sample_cross_covariance N M xs ys = Ok C -> (a < N)%nat -> (b < M)%nat ->
     C a b = sample_cov (column a xs) (column b ys)).
Proof.
  intros N M xs ys. split; [|split].
  - intros H. unfold sample_cross_covariance. rewrite (proj2 (Nat.eqb_neq _ _) H). reflexivity.
  - intros E H. unfold sample_cross_covariance. rewrite (proj2 (Nat.eqb_eq _ _) E). cbn [negb].
    destruct xs as [|x xs']; [cbn in H; lia|]. destruct ys as [|y ys']; [cbn in E; lia|].
    destruct (mean_ok N (x :: xs') ltac:(discriminate)) as (mx & ->).
    destruct (mean_ok M (y :: ys') ltac:(discriminate)) as (my & ->).
    destruct (Nat.ltb_spec (length (x :: xs')) 2); [lia|]. eexists; reflexivity.
  - intros C a b H Ha Hb. destruct (cross_value N M xs ys C H) as (_ & El & V). rewrite (V a b Ha Hb).
    unfold sample_cov. f_equal; [|f_equal; f_equal; unfold column; rewrite map_length; reflexivity].
    set (ma := average (column a xs)). set (mb := average (column b ys)). clearbody ma mb. clear - El.
    revert ys El. induction xs as [|x xs IH]; intros [|y ys] El; cbn in *; try lia; [reflexivity|].
    rewrite IH by lia. reflexivity.
Qed.
Theorem C48_cross_with_itself : forall N xs C D a b, sample_cross_covariance N N xs xs = Ok C ->
  sample_covariance N xs = Ok D -> (a < N)%nat -> (b < N)%nat -> C a b = D a b.
Proof.
  intros N xs C D a b H K Ha Hb. rewrite (C48_entries N xs D a b K Ha Hb).
  apply (C48_cross N N xs xs); auto.
Qed.

(* positive semidefinite, as for every sample covariance *)
Definition semidefinite (N : nat) (C : nat -> nat -> R) : Prop :=
  (forall a b, (a < N)%nat -> (b < N)%nat -> C a b = C b a) /\
  forall v, 0 <= sum N (fun a => sum N (fun b => v a * C a b * v b)).

Lemma semidefinite_pair N C a b s t : semidefinite N C -> (a < N)%nat -> (b < N)%nat -> a <> b ->
  0 <= s * s * C a a + 2 * s * t * C a b + t * t * C b b.
Proof.
  intros (Sy & P) Ha Hb Hab.
  remember (fun k => if (k =? a)%nat then s else if (k =? b)%nat then t else 0) as w eqn:Ew.
  specialize (P w).
  assert (E : forall f, sum N (fun k => w k * f k) = s * f a + t * f b).
  { intros f. rewrite (DetSpec.sum_two N a b (fun k => w k * f k)) by auto.
    rewrite (sum_0 N (fun i => if (i =? a)%nat || (i =? b)%nat then 0 else w i * f i)).
    - rewrite Ew, !Nat.eqb_refl, (proj2 (Nat.eqb_neq b a)) by auto. ring.
    - intros k Hk. rewrite Ew. destruct (Nat.eqb_spec k a); destruct (Nat.eqb_spec k b); cbn [orb]; auto; ring. }
  clear Ew.
  replace (sum N (fun a => sum N (fun b => w a * C a b * w b))) with (sum N (fun k => w k * (s * C k a + t * C k b))) in P.
  - rewrite E in P. rewrite (Sy b a Hb Ha) in P. lra.
  - apply sum_ext. intros k Hk. rewrite <- (E (fun j => C k j)), <- sum_scal. apply sum_ext. intros; ring.
Qed.

Theorem C48_correlation : forall N C, semidefinite N C ->
  ((forall i, (i < N)%nat -> / 2 ^ 52 < C i i) -> exists R0, correlation_from_covariance N C = Ok R0) /\
  forall R0, correlation_from_covariance N C = Ok R0 ->
    (forall i, (i < N)%nat -> / 2 ^ 52 < C i i) /\
    (forall i, (i < N)%nat -> R0 i i = 1) /\
    (forall i j, (i < N)%nat -> (j < N)%nat -> R0 i j = R0 j i /\ -1 <= R0 i j <= 1).
Proof.
  intros N C HC. split.
  - intros H. destruct (sd_ok N C H) as (sd & E). unfold correlation_from_covariance. rewrite E. eexists; reflexivity.
  - intros R0 H. unfold correlation_from_covariance in H.
    destruct (standard_deviations N C) as [sd|] eqn:E; [|discriminate]. inversion H; subst R0; clear H.
    assert (V := sd_value N C sd E).
    assert (Pe : 0 < eps) by (unfold eps; apply Rinv_0_lt_compat, pow_lt; lra).
    assert (Psd : forall i, (i < N)%nat -> 0 < sd i /\ sd i * sd i = C i i).
    { intros i Hi. destruct (V i Hi) as (A & ->). split; [apply sqrt_lt_R0; lra|apply sqrt_sqrt; lra]. }
    split; [intros i Hi; apply V; auto|]. split.
    + intros i Hi. rewrite grid_in by auto. destruct (Psd i Hi) as (P & S). rewrite S. field. nra.
    + intros i j Hi Hj. rewrite !grid_in by auto.
      destruct (Psd i Hi) as (Pi & Si). destruct (Psd j Hj) as (Pj & Sj).
      destruct (Nat.eq_dec i j) as [->|Nij].
      * split; [reflexivity|]. rewrite Sj. replace (C j j / C j j) with 1 by (field; nra). lra.
      * split; [rewrite (proj1 HC i j Hi Hj); f_equal; ring|].
        assert (Pp : 0 < sd i * sd j) by (apply Rmult_lt_0_compat; auto).
        assert (Q1 := semidefinite_pair N C i j (sd j) (sd i) HC Hi Hj Nij).
        assert (Q2 := semidefinite_pair N C i j (sd j) (- sd i) HC Hi Hj Nij).
        rewrite <- Si, <- Sj in Q1, Q2.
        assert (B1 : - (sd i * sd j) <= C i j).
        { apply (Rmult_le_reg_l (sd i * sd j)); auto. nra. }
        assert (B2 : C i j <= sd i * sd j).
        { apply (Rmult_le_reg_l (sd i * sd j)); auto. nra. }
        split; apply (Rmult_le_reg_r (sd i * sd j)); auto; unfold Rdiv; rewrite Rmult_assoc, Rinv_l by lra; lra.
Qed.

(* the two conversions undo each other *)
Theorem C48_round_trip : forall N C sd R0, standard_deviations N C = Ok sd ->
  correlation_from_covariance N C = Ok R0 ->
  forall i j, (i < N)%nat -> (j < N)%nat -> covariance_from_correlation N R0 sd i j = C i j.
Proof.
  intros N C sd R0 E H i j Hi Hj. unfold correlation_from_covariance in H. rewrite E in H.
  inversion H; subst R0; clear H. unfold covariance_from_correlation. rewrite !grid_in by auto.
  assert (V := sd_value N C sd E).
  assert (Pe : 0 < eps) by (unfold eps; apply Rinv_0_lt_compat, pow_lt; lra).
  assert (P : forall k, (k < N)%nat -> 0 < sd k).
  { intros k Hk. destruct (V k Hk) as (A & ->). apply sqrt_lt_R0. lra. }
  assert (A := P i Hi). assert (B := P j Hj). field. lra.
Qed.
Theorem C48_round_trip_back : forall N R0 sd R1,
  (forall i, (i < N)%nat -> 0 < sd i /\ R0 i i = 1) ->
  correlation_from_covariance N (covariance_from_correlation N R0 sd) = Ok R1 ->
  forall i j, (i < N)%nat -> (j < N)%nat -> R1 i j = R0 i j.
Proof.
  intros N R0 sd R1 P H i j Hi Hj. unfold correlation_from_covariance in H.
  destruct (standard_deviations _ _) as [sd'|] eqn:E; [|discriminate]. inversion H; subst R1; clear H.
  assert (V := sd_value _ _ _ E). rewrite grid_in by auto.
  assert (S : forall k, (k < N)%nat -> sd' k = sd k).
  { intros k Hk. destruct (V k Hk) as (_ & ->). unfold covariance_from_correlation. rewrite grid_in by auto.
    destruct (P k Hk) as (A & ->). rewrite Rmult_1_l. apply sqrt_square. lra. }
  rewrite !S by auto. unfold covariance_from_correlation. rewrite grid_in by auto.
  destruct (P i Hi) as (A & _). destruct (P j Hj) as (B & _). field. lra.
Qed.

(* what is reported for an axis without spread *)
Theorem C48_flat_axis_is_refused : forall N C i, (i < N)%nat -> C i i <= / 2 ^ 52 ->
  correlation_from_covariance N C = Err ZeroVarianceAxis.
Proof.
  intros N C i Hi H. unfold correlation_from_covariance.
  destruct (standard_deviations N C) as [sd|e] eqn:E.
  - destruct (sd_value N C sd E i Hi) as (A & _). unfold eps in A. lra.
  - unfold standard_deviations in E. destruct (forM _ _ _ _); [discriminate|]. inversion E. reflexivity.
Qed.

Example C48_nontrivial : exists C, sample_covariance 2
    [fun i => INR i; fun i => 2 - INR i; fun i => 4 + 3 * INR i] = Ok C /\ C 0%nat 1%nat = 6 /\
  semidefinite 2 C.
Proof.
  destruct (proj2 (proj2 (C48_when_defined 2 [fun i => INR i; fun i => 2 - INR i; fun i => 4 + 3 * INR i]))) as (C & E).
  { cbn; lia. }
  exists C. split; [exact E|]. split.
  - rewrite (C48_entries _ _ _ 0 1 E) by lia. unfold sample_cov, average, column. cbn. field.
  - split.
    + intros a b Ha Hb. exact (C48_symmetric _ _ _ a b E Ha Hb).
    + intros v. exact (C48_positive_semidefinite _ _ _ v E).
Qed.

(** * C49 *)
Theorem C49_categorical_outside : forall probs k, (length probs <= k)%nat -> categorical_pmf probs k = 0.
Proof. intros probs k H. unfold categorical_pmf. rewrite (proj2 (Nat.ltb_ge k (length probs))) by exact H. reflexivity. Qed.

(* the fitted probabilities are the relative frequencies: non-negative and adding up to one *)
Theorem C49_categorical_fit : forall counts, (exists c, In c counts /\ c <> 0%nat) ->
  let p := categorical_fit counts in
  length p = length counts /\
  (forall k, categorical_pmf p k = INR (nth k counts 0%nat) / total (map INR counts)) /\
  (forall k, 0 <= categorical_pmf p k <= 1) /\
  total p = 1.
Proof.
  intros counts (c & Hc & Nc) p.
  assert (T : (0 < fold_left Nat.add counts 0)%nat).
  { clear p. induction counts as [|x l IH]; [contradiction|]. cbn [fold_left]. rewrite fold_add_acc.
    destruct Hc as [->|Hc]; [lia|]. specialize (IH Hc). lia. }
  assert (Et : INR (Nat.max (fold_left Nat.add counts 0%nat) 1) = total (map INR counts)).
  { rewrite Nat.max_l by lia. apply INR_fold_add. }
  assert (Pt : 0 < total (map INR counts)) by (rewrite <- INR_fold_add; apply lt_0_INR; exact T).
  assert (L : length p = length counts) by (unfold p, categorical_fit; apply map_length).
  assert (K : forall k, categorical_pmf p k = INR (nth k counts 0%nat) / total (map INR counts)).
  { intros k. unfold categorical_pmf. destruct (Nat.ltb_spec k (length p)) as [H|H].
    - unfold p, categorical_fit. rewrite Et.
      rewrite (nth_indep _ 0 (INR 0 / total (map INR counts))) by (rewrite map_length; rewrite L in H; exact H).
      exact (map_nth (fun c => INR c / total (map INR counts)) counts 0%nat k).
    - rewrite nth_overflow by lia. cbn [INR]. unfold Rdiv. ring. }
  split; [exact L|]. split; [exact K|]. split.
  - intros k. rewrite K. split.
    + apply Rmult_le_pos; [apply pos_INR|]. left. apply Rinv_0_lt_compat, Pt.
    + apply (Rmult_le_reg_r (total (map INR counts))); [exact Pt|].
      unfold Rdiv. rewrite Rmult_assoc, Rinv_l by lra. rewrite Rmult_1_r, Rmult_1_l.
      clear. revert k. induction counts as [|x l IH]; intros [|k]; cbn [nth map total INR].
      * lra.
      * lra.
      * assert (0 <= total (map INR l)) by (apply total_map_pos; apply pos_INR). lra.
      * specialize (IH k). pose proof (pos_INR x). lra.
  - unfold p, categorical_fit. rewrite Et. unfold Rdiv.
    rewrite (total_map_ext counts _ (fun c => / total (map INR counts) * INR c)) by (intros; ring).
    rewrite total_map_scal. apply Rinv_l. lra.
Qed.

(* the likelihood of a list of counts under category probabilities q *)
Definition likelihood (q : list R) (counts : list nat) : R :=
  product (map (fun p => fst p ^ snd p) (combine q counts)).
(* maximum likelihood: no other probability vector explains the counts better *)
Theorem C49_categorical_fit_is_mle : forall counts q, (exists c, In c counts /\ c <> 0%nat) ->
  length q = length counts -> (forall x, In x q -> 0 <= x) -> total q <= 1 ->
  likelihood q counts <= likelihood (categorical_fit counts) counts.
Proof.
  intros counts q Hc Hl Hq Ht.
  assert (T : (0 < fold_left Nat.add counts 0)%nat).
  { destruct Hc as (c & Hc & Nc). clear - Hc Nc. induction counts as [|x l IH]; [contradiction|].
    cbn [fold_left]. rewrite fold_add_acc. destruct Hc as [->|Hc]; [lia|]. specialize (IH Hc). lia. }
  unfold categorical_fit. rewrite Nat.max_l by lia.
  remember (fold_left Nat.add counts 0%nat) as n eqn:En.
  assert (K : 0 <= likelihood (map (fun c => INR c / INR n) counts) counts /\
     likelihood q counts <= likelihood (map (fun c => INR c / INR n) counts) counts
                            * exp (INR n * total q - total (map INR counts))).
  { clear - Hl Hq T. revert q Hl Hq. induction counts as [|c l IH]; intros [|x q] Hl Hq; cbn in Hl; try lia.
    - unfold likelihood. cbn. rewrite Rmult_0_r, Rminus_0_r, exp_0. lra.
    - destruct (IH q) as (A & B); [lia|intros; apply Hq; right; auto|].
      unfold likelihood in *. cbn [map combine product fst snd total].
      assert (Hx : 0 <= x) by (apply Hq; left; reflexivity).
      assert (L := likelihood_term c n x T Hx).
      assert (P : 0 <= (INR c / INR n) ^ c).
      { apply pow_le. apply Rmult_le_pos; [apply pos_INR|]. left. apply Rinv_0_lt_compat, lt_0_INR, T. }
      split; [apply Rmult_le_pos; auto|].
      replace (INR n * (x + total q) - (INR c + total (map INR l)))
        with ((INR n * x - INR c) + (INR n * total q - total (map INR l))) by ring.
      rewrite exp_plus.
      eapply Rle_trans; [apply Rmult_le_compat; [apply pow_le; exact Hx| |exact L|exact B]|].
      + clear - Hq Hl. assert (Hq' : forall y, In y q -> 0 <= y) by (intros; apply Hq; right; auto).
        assert (Hl' : length q = length l) by lia. clear Hq Hl. revert l Hl'.
        induction q as [|y q IH]; intros [|c l] Hl; cbn in *; try lia; [lra|].
        apply Rmult_le_pos; [apply pow_le; apply Hq'; left; reflexivity|].
        apply IH; [intros; apply Hq'; right; auto|lia].
      + right. ring. }
  destruct K as (A & B). eapply Rle_trans; [exact B|].
  rewrite <- Rmult_1_r. apply Rmult_le_compat_l; [exact A|].
  rewrite <- exp_0. assert (E : INR n = total (map INR counts)) by (rewrite En; apply INR_fold_add).
  rewrite <- E. assert (0 < INR n) by (apply lt_0_INR, T).
  destruct (Rle_lt_or_eq_dec (INR n * total q - INR n) 0) as [L|L]; [nra|left; apply exp_increasing; exact L|].
  rewrite L. right. reflexivity.
Qed.
(* without any count there is no distribution: all probabilities are zero *)
Theorem C49_categorical_no_data : forall counts, (forall c, In c counts -> c = 0%nat) ->
  forall k, categorical_pmf (categorical_fit counts) k = 0.
Proof.
  intros counts H k. unfold categorical_pmf, categorical_fit. rewrite map_length.
  destruct (Nat.ltb_spec k (length counts)) as [L|L]; [|reflexivity].
  set (t := INR (Nat.max _ 1)).
  rewrite (nth_indep _ 0 (INR 0 / t)) by (rewrite map_length; exact L).
  rewrite (map_nth (fun c => INR c / t)). rewrite (H (nth k counts 0%nat)) by (apply nth_In; exact L).
  cbn [INR]. unfold Rdiv. ring.
Qed.

Definition bits (l : list nat) : Prop := forall x, In x l -> x = 0%nat \/ x = 1%nat.
Theorem C49_bernoulli_pmf : forall p, 0 <= p <= 1 ->
  bernoulli_pmf p 0 + bernoulli_pmf p 1 = 1 /\
  forall x, 0 <= bernoulli_pmf p x <= 1 /\ ((2 <= x)%nat -> bernoulli_pmf p x = 0).
Proof.
  intros p Hp. split; [cbn; ring|]. intros [|[|x]]; cbn; split; try lra; intros; lia.
Qed.
(* for 0/1 data the fit is the fraction of ones, and no other p explains the data better *)
Theorem C49_bernoulli_fit : forall l, l <> [] -> bits l ->
  bernoulli_fit l = INR (count_occ Nat.eq_dec l 1%nat) / INR (length l) /\
  0 <= bernoulli_fit l <= 1 /\
  forall q, 0 <= q <= 1 -> product (map (bernoulli_pmf q) l) <= product (map (bernoulli_pmf (bernoulli_fit l)) l).
Proof.
  intros l Nl Hl.
  assert (C : forall l, bits l -> fold_left Nat.add l 0%nat = count_occ Nat.eq_dec l 1%nat).
  { clear. induction l as [|x l IH]; intros H; [reflexivity|]. cbn [fold_left]. rewrite fold_add_acc.
    rewrite IH by (intros y Hy; apply H; right; exact Hy).
    destruct (H x (or_introl eq_refl)) as [->| ->]; cbn; reflexivity. }
  assert (D : forall l, bits l -> (count_occ Nat.eq_dec l 0 + count_occ Nat.eq_dec l 1 = length l)%nat).
  { clear. induction l as [|x l IH]; intros H; [reflexivity|].
    specialize (IH ltac:(intros y Hy; apply H; right; exact Hy)).
    destruct (H x (or_introl eq_refl)) as [->| ->]; cbn; lia. }
  assert (PR : forall q l, bits l -> product (map (bernoulli_pmf q) l)
            = (1 - q) ^ count_occ Nat.eq_dec l 0%nat * q ^ count_occ Nat.eq_dec l 1%nat).
  { clear. intros q. induction l as [|x l IH]; intros H; [cbn; ring|].
    specialize (IH ltac:(intros y Hy; apply H; right; exact Hy)).
    destruct (H x (or_introl eq_refl)) as [->| ->]; cbn [map product bernoulli_pmf]; rewrite IH;
      [rewrite count_occ_cons_eq, count_occ_cons_neq by congruence|
       rewrite count_occ_cons_neq, count_occ_cons_eq by congruence]; cbn [pow]; ring. }
  assert (Ln : (0 < length l)%nat) by (destruct l; [congruence|cbn; lia]).
  assert (E : bernoulli_fit l = INR (count_occ Nat.eq_dec l 1%nat) / INR (length l)).
  { unfold bernoulli_fit. rewrite C by exact Hl. rewrite Nat.max_l by lia. reflexivity. }
  split; [exact E|].
  set (k1 := count_occ Nat.eq_dec l 1%nat) in *. set (n := length l) in *.
  assert (Dl := D l Hl). fold k1 n in Dl. set (k0 := count_occ Nat.eq_dec l 0%nat) in *.
  assert (Pn : 0 < INR n) by (apply lt_0_INR; exact Ln).
  assert (En : INR k0 + INR k1 = INR n) by (rewrite <- plus_INR, Dl; reflexivity).
  assert (B : 0 <= INR k1 / INR n <= 1).
  { pose proof (pos_INR k0). pose proof (pos_INR k1). split.
    - apply Rmult_le_pos; [auto|left; apply Rinv_0_lt_compat; auto].
    - apply (Rmult_le_reg_r (INR n)); auto. unfold Rdiv. rewrite Rmult_assoc, Rinv_l by lra. lra. }
  split; [rewrite E; exact B|].
  intros q Hq. rewrite !PR by exact Hl. fold k0 k1. rewrite E.
  assert (T0 := likelihood_term k0 n (1 - q) Ln ltac:(lra)).
  assert (T1 := likelihood_term k1 n q Ln ltac:(lra)).
  replace (1 - INR k1 / INR n) with (INR k0 / INR n) by (rewrite <- En; field; lra).
  eapply Rle_trans; [apply Rmult_le_compat; [apply pow_le; lra|apply pow_le; lra|exact T0|exact T1]|].
  right.
  transitivity ((INR k0 / INR n) ^ k0 * (INR k1 / INR n) ^ k1
     * (exp (INR n * (1 - q) - INR k0) * exp (INR n * q - INR k1))); [ring|].
  rewrite <- exp_plus.
  replace ((INR n * (1 - q) - INR k0) + (INR n * q - INR k1)) with 0 by (rewrite <- En; ring).
  rewrite exp_0. ring.
Qed.
Example C49_nontrivial : (exists c, In c [2; 3; 5]%nat /\ c <> 0%nat) /\ bits [1; 0; 1]%nat /\
  categorical_pmf (categorical_fit [2; 3; 5]%nat) 1 = 3 / 10 /\ bernoulli_fit [1; 0; 1]%nat = 2 / 3.
Proof.
  split; [exists 2%nat; split; [left; reflexivity|lia]|]. split.
  - intros x [<-|[<-|[<-|[]]]]; auto.
  - split; [unfold categorical_pmf, categorical_fit|unfold bernoulli_fit]; cbn; field.
Qed.

(** * C82 *)
Lemma var_max s : 0 < s -> Rmax (s * s) 0 = s * s.
Proof. intros H. apply Rmax_left. nra. Qed.
Lemma pdf_eq g x : 0 < sigma g ->
  gaussian_pdf g x = / (sqrt (2 * PI) * sigma g) * exp (- ((x - mu g) ^ 2 / (2 * sigma g ^ 2))).
Proof.
  intros H. unfold gaussian_pdf. cbv zeta. rewrite var_max by exact H.
  assert (PI_pos := PI_RGT_0).
  replace ((1 + 1) * PI * (sigma g * sigma g)) with ((2 * PI) * (sigma g * sigma g)) by ring.
  rewrite sqrt_mult by nra. rewrite sqrt_square by lra.
  assert (0 < sqrt (2 * PI)) by (apply sqrt_lt_R0; lra).
  f_equal; [field; lra|]. f_equal. field. lra.
Qed.

(* the density is the textbook formula; it is positive, symmetric about the mean and largest there *)
Theorem C82_density : forall m s x, 0 < s ->
  gaussian_pdf (mkG m s) x = / (s * sqrt (2 * PI)) * exp (- ((x - m) ^ 2 / (2 * s ^ 2))) /\
  0 < gaussian_pdf (mkG m s) x <= gaussian_pdf (mkG m s) m /\
  gaussian_pdf (mkG m s) (m + x) = gaussian_pdf (mkG m s) (m - x).
Proof.
  intros m s x Hs. assert (PI_pos := PI_RGT_0).
  assert (Hq : 0 < sqrt (2 * PI)) by (apply sqrt_lt_R0; lra).
  assert (Hc : 0 < / (sqrt (2 * PI) * s)) by (apply Rinv_0_lt_compat, Rmult_lt_0_compat; auto).
  rewrite !pdf_eq by exact Hs. cbn [mu sigma].
  split; [f_equal; f_equal; ring|]. split; [split|].
  - apply Rmult_lt_0_compat; [exact Hc|apply exp_pos].
  - apply Rmult_le_compat_l; [lra|].
    assert (0 <= (x - m) ^ 2 / (2 * s ^ 2)).
    { apply Rmult_le_pos; [apply pow2_ge_0|]. left. apply Rinv_0_lt_compat. nra. }
    replace (- ((m - m) ^ 2 / (2 * s ^ 2))) with 0 by (field; lra).
    destruct (Req_dec ((x - m) ^ 2 / (2 * s ^ 2)) 0) as [E|E]; [rewrite E; right; f_equal; ring|].
    left. apply exp_increasing. lra.
  - f_equal. f_equal. f_equal. f_equal. ring.
Qed.
(* its shape: the density solves p' = - (x - mu) / sigma^2 p, the equation that with the total
   mass characterises the normal law *)
Theorem C82_density_derivative : forall m s x, 0 < s ->
  is_derive (gaussian_pdf (mkG m s)) x (- ((x - m) / s ^ 2) * gaussian_pdf (mkG m s) x).
Proof.
  intros m s x Hs. assert (PI_pos := PI_RGT_0).
  assert (Hq : 0 < sqrt (2 * PI)) by (apply sqrt_lt_R0; lra).
  apply is_derive_ext with (fun x => / (sqrt (2 * PI) * s) * exp (- ((x - m) ^ 2 / (2 * s ^ 2)))).
  - intros t. symmetry. exact (pdf_eq (mkG m s) t Hs).
  - rewrite (pdf_eq (mkG m s) x Hs). cbn [mu sigma]. auto_derive; [exact I|].
    replace (- ((x + - m) * ((x + - m) * 1) * / (2 * (s * (s * 1))))) with (- ((x - m) ^ 2 / (2 * s ^ 2)))
      by (unfold Rdiv; cbn [pow]; ring).
    set (e := exp _). field. split; [lra|]. apply Rgt_not_eq, Hq.
Qed.

(* fitting: mean and root mean squared deviation *)
Theorem C82_fit_values : forall l, l <> [] ->
  mu (gaussian_fit l) = average l /\
  sigma (gaussian_fit l) = Rmax (sqrt (total (map (fun x => (x - average l) ^ 2) l) / INR (length l))) (/ 2 ^ 52).
Proof.
  intros l Nl. destruct l as [|x0 r] eqn:E; [congruence|]. rewrite <- E. clear Nl.
  unfold gaussian_fit. rewrite E. rewrite <- E. cbn [mu sigma]. cbv zeta.
  rewrite fold_plus_total, Rplus_0_l. fold (average l). split; [reflexivity|].
  rewrite (fold_plus_map (fun s => (s - average l) * (s - average l))), Rplus_0_l.
  unfold eps. f_equal. f_equal. f_equal. apply total_map_ext. intros; ring.
Qed.

(* and these are the maximum likelihood estimates whenever the floor on sigma is not active *)
Definition glikelihood (g : gaussian) (l : list R) : R := product (map (gaussian_pdf g) l).
Lemma glikelihood_eq g l : 0 < sigma g ->
  glikelihood g l = (/ (sqrt (2 * PI) * sigma g)) ^ length l
     * exp (- (total (map (fun x => (x - mu g) ^ 2) l) / (2 * sigma g ^ 2))).
Proof.
  intros H. unfold glikelihood. induction l as [|x l IH].
  - cbn. replace (- (0 / (2 * (sigma g * (sigma g * 1))))) with 0 by (field; lra). rewrite exp_0. ring.
  - cbn [map product length total]. rewrite IH, pdf_eq by exact H. rewrite <- (tech_pow_Rmult (/ (sqrt (2 * PI) * sigma g))).
    replace (- (((x - mu g) ^ 2 + total (map (fun x => (x - mu g) ^ 2) l)) / (2 * sigma g ^ 2)))
      with (- ((x - mu g) ^ 2 / (2 * sigma g ^ 2)) + - (total (map (fun x => (x - mu g) ^ 2) l) / (2 * sigma g ^ 2)))
      by (field; lra).
    rewrite exp_plus. ring.
Qed.
Lemma deviation_split l m : l <> [] ->
  total (map (fun x => (x - m) ^ 2) l)
  = total (map (fun x => (x - average l) ^ 2) l) + INR (length l) * (average l - m) ^ 2.
Proof.
  intros Nl. assert (P : INR (length l) <> 0) by (apply not_0_INR; destruct l; [congruence|cbn; lia]).
  set (a := average l).
  rewrite (total_map_ext l (fun x => (x - m) ^ 2)
    (fun x => (x - a) ^ 2 + (2 * (a - m) * x + ((a - m) ^ 2 - 2 * (a - m) * a)))) by (intros; ring).
  rewrite total_map_plus, total_map_plus, total_map_scal, total_map_const.
  assert (E : total (map (fun x => x) l) = INR (length l) * a).
  { rewrite map_id. unfold a, average. field. exact P. }
  rewrite E. ring.
Qed.
Theorem C82_fit_is_mle_partial : forall l m s, 0 < s ->
  / 2 ^ 52 <= sqrt (total (map (fun x => (x - average l) ^ 2) l) / INR (length l)) ->
  glikelihood (mkG m s) l <= glikelihood (gaussian_fit l) l.
Proof.
  intros l m s Hs Hv.
  assert (Pe : 0 < / 2 ^ 52) by (apply Rinv_0_lt_compat, pow_lt; lra).
  destruct l as [|x0 r] eqn:El.
  { unfold glikelihood. cbn. lra. }
  rewrite <- El in *. assert (Nl : l <> []) by (rewrite El; discriminate). clear x0 r El.
  destruct (C82_fit_values l Nl) as (Em & Es). rewrite Rmax_left in Es by exact Hv.
  set (S := total (map (fun x => (x - average l) ^ 2) l)) in *.
  set (n := length l) in *.
  assert (Pn : 0 < INR n) by (apply lt_0_INR; unfold n; destruct l; [congruence|cbn; lia]).
  set (t := sigma (gaussian_fit l)) in *.
  assert (Pt : 0 < t) by (rewrite Es; lra).
  assert (ES : S = INR n * t ^ 2).
  { rewrite Es. cbn [pow]. rewrite Rmult_1_r, sqrt_sqrt; [field; lra|].
    destruct (Rle_dec 0 (S / INR n)); [auto|]. rewrite sqrt_neg_0 in Hv by lra. lra. }
  rewrite !glikelihood_eq by (cbn [sigma]; auto). cbn [mu sigma]. fold t n. rewrite Em. fold S.
  rewrite (deviation_split l m Nl). fold n S.
  set (d := INR n * (average l - m) ^ 2).
  assert (Pd : 0 <= d) by (apply Rmult_le_pos; [lra|apply pow2_ge_0]).
  rewrite ES.
  replace (- (INR n * t ^ 2 / (2 * t ^ 2))) with (INR n * (- / 2)) by (field; lra).
  apply Rle_trans with ((/ (sqrt (2 * PI) * s)) ^ n * exp (INR n * (- (t ^ 2 / (2 * s ^ 2))))).
  - apply Rmult_le_compat_l.
    + apply pow_le. left. apply Rinv_0_lt_compat, Rmult_lt_0_compat; [|exact Hs].
      apply sqrt_lt_R0. pose proof PI_RGT_0. lra.
    + assert (0 <= d / (2 * s ^ 2)) by (apply Rmult_le_pos; [auto|left; apply Rinv_0_lt_compat; nra]).
      replace (- ((INR n * t ^ 2 + d) / (2 * s ^ 2))) with (INR n * (- (t ^ 2 / (2 * s ^ 2))) - d / (2 * s ^ 2)) by (field; lra).
      destruct (Req_dec (d / (2 * s ^ 2)) 0) as [E|E]; [rewrite E; right; f_equal; ring|].
      left. apply exp_increasing. lra.
  - rewrite <- !exp_pow, <- !Rpow_mult_distr. apply pow_incr.
    assert (Hq : 0 < sqrt (2 * PI)) by (apply sqrt_lt_R0; pose proof PI_RGT_0; lra).
    split.
    + apply Rmult_le_pos; [left; apply Rinv_0_lt_compat, Rmult_lt_0_compat; auto|left; apply exp_pos].
    + (* with u = t/s: u exp(-u^2/2) <= exp(-1/2) *)
      set (u := t / s). assert (Pu : 0 < u) by (apply Rdiv_lt_0_compat; auto).
      replace (- (t ^ 2 / (2 * s ^ 2))) with (- (u * u) / 2) by (unfold u; field; lra).
      replace (/ (sqrt (2 * PI) * s)) with (/ (sqrt (2 * PI) * t) * u) by (unfold u; field; lra).
      rewrite Rmult_assoc. apply Rmult_le_compat_l.
      { left. apply Rinv_0_lt_compat, Rmult_lt_0_compat; auto. }
      assert (K : u * u <= exp (u * u - 1)) by apply exp_tangent.
      assert (K2 : u <= exp ((u * u - 1) / 2)).
      { apply Rsqr_incr_0_var; [|left; apply exp_pos]. unfold Rsqr.
        rewrite <- exp_plus. replace ((u * u - 1) / 2 + (u * u - 1) / 2) with (u * u - 1) by field. exact K. }
      apply Rle_trans with (exp ((u * u - 1) / 2) * exp (- (u * u) / 2)).
      { apply Rmult_le_compat_r; [left; apply exp_pos|exact K2]. }
      rewrite <- exp_plus. right. f_equal. field.
Qed.
Example C82_nontrivial : / 2 ^ 52 <= sqrt (total (map (fun x => (x - average [0; 2]) ^ 2) [0; 2]) / INR (length [0; 2])).
Proof.
  unfold average. cbn [total map length INR].
  replace (((0 - (0 + (2 + 0)) / (1 + 1)) ^ 2 + ((2 - (0 + (2 + 0)) / (1 + 1)) ^ 2 + 0)) / (1 + 1)) with 1 by field.
  rewrite sqrt_1. rewrite <- Rinv_1. apply Rinv_le_contravar; [lra|]. apply pow_R1_Rle. lra.
Qed.
Lemma squares_pos a l : 0 <= total (map (fun x => (x - a) ^ 2) l).
Proof. induction l as [|x l IH]; cbn [map total]; [lra|]. pose proof (pow2_ge_0 (x - a)). lra. Qed.
(* among the deviations the fit can return, nothing does better: with the floor active as well as without *)
Theorem C82_fit_above_floor : forall l m s, / 2 ^ 52 <= s -> glikelihood (mkG m s) l <= glikelihood (gaussian_fit l) l.
Proof.
  intros l m s Hs0. assert (Pe : 0 < / 2 ^ 52) by (apply Rinv_0_lt_compat, pow_lt; lra). assert (Hs : 0 < s) by lra.
  destruct (Rle_dec (/ 2 ^ 52) (sqrt (total (map (fun x => (x - average l) ^ 2) l) / INR (length l)))) as [Hv|Hv]; [apply C82_fit_is_mle_partial; assumption|].
  apply Rnot_le_lt in Hv. destruct l as [|x0 r] eqn:El.
  { unfold glikelihood. cbn. lra. }
  rewrite <- El in *. assert (Nl : l <> []) by (rewrite El; discriminate). clear x0 r El.
  destruct (C82_fit_values l Nl) as (Em & Es). rewrite Rmax_right in Es by lra.
  set (S := total (map (fun x => (x - average l) ^ 2) l)) in *. set (n := length l) in *.
  assert (Pn : 0 < INR n) by (apply lt_0_INR; unfold n; destruct l; [congruence|cbn; lia]).
  set (t := / 2 ^ 52) in *. assert (S0 : 0 <= S) by (unfold S; apply squares_pos).
  set (w := S / INR n / t ^ 2). assert (W : 0 <= w <= 1).
  { assert (Q : 0 <= S / INR n) by (apply Rmult_le_pos; [exact S0|left; apply Rinv_0_lt_compat, Pn]). unfold w. split; [apply Rmult_le_pos; [exact Q|left; apply Rinv_0_lt_compat, pow_lt, Pe]|].
    apply Rmult_le_reg_r with (t ^ 2); [apply pow_lt, Pe|]. unfold Rdiv at 1. rewrite Rmult_assoc, Rinv_l, Rmult_1_r, Rmult_1_l by (apply pow_nonzero; lra).
    rewrite <- (sqrt_sqrt (S / INR n)) by exact Q. cbn [pow]. rewrite Rmult_1_r. apply Rmult_le_compat; try apply sqrt_pos; lra. }
  rewrite !glikelihood_eq by (cbn [sigma]; try rewrite Es; auto). rewrite Em, Es. cbn [mu sigma]. fold n. fold S.
  rewrite (deviation_split l m Nl). fold n S. assert (ES : S = INR n * (w * t ^ 2)) by (unfold w; field; lra).
  set (d := INR n * (average l - m) ^ 2). assert (Pd : 0 <= d) by (apply Rmult_le_pos; [lra|apply pow2_ge_0]).
  assert (Hq : 0 < sqrt (2 * PI)) by (apply sqrt_lt_R0; pose proof PI_RGT_0; lra).
  replace (- (S / (2 * t ^ 2))) with (INR n * (- (w / 2))) by (rewrite ES; field; lra).
  apply Rle_trans with ((/ (sqrt (2 * PI) * s)) ^ n * exp (INR n * (- (w * t ^ 2 / (2 * s ^ 2))))).
  - apply Rmult_le_compat_l; [apply pow_le; left; apply Rinv_0_lt_compat, Rmult_lt_0_compat; assumption|].
    assert (0 <= d / (2 * s ^ 2)) by (apply Rmult_le_pos; [auto|left; apply Rinv_0_lt_compat; nra]).
    replace (- ((S + d) / (2 * s ^ 2))) with (INR n * (- (w * t ^ 2 / (2 * s ^ 2))) - d / (2 * s ^ 2)) by (rewrite ES; field; lra).
    destruct (Req_dec (d / (2 * s ^ 2)) 0) as [E|E]; [rewrite E; right; f_equal; ring|]. left. apply exp_increasing. lra.
  - rewrite <- !exp_pow, <- !Rpow_mult_distr. apply pow_incr. split; [apply Rmult_le_pos; [left; apply Rinv_0_lt_compat, Rmult_lt_0_compat; auto|left; apply exp_pos]|].
    set (u := t / s). assert (Pu : 0 < u) by (apply Rdiv_lt_0_compat; auto). assert (Pu1 : u <= 1) by (unfold u; apply Rmult_le_reg_r with s; [exact Hs|]; unfold Rdiv; rewrite Rmult_assoc, Rinv_l by lra; lra).
    replace (- (w * t ^ 2 / (2 * s ^ 2))) with (- (w * (u * u)) / 2) by (unfold u; field; lra).
    replace (/ (sqrt (2 * PI) * s)) with (/ (sqrt (2 * PI) * t) * u) by (unfold u; field; lra).
    rewrite Rmult_assoc. apply Rmult_le_compat_l; [left; apply Rinv_0_lt_compat, Rmult_lt_0_compat; auto|].
    assert (K : u * u <= exp (u * u - 1)) by apply exp_tangent.
    assert (K2 : u <= exp ((u * u - 1) / 2)).
    { apply Rsqr_incr_0_var; [|left; apply exp_pos]. unfold Rsqr. rewrite <- exp_plus. replace ((u * u - 1) / 2 + (u * u - 1) / 2) with (u * u - 1) by field. exact K. }
    assert (K3 : exp ((u * u - 1) / 2) <= exp (w * (u * u - 1) / 2)).
    { assert (Q : (u * u - 1) / 2 <= w * (u * u - 1) / 2) by (assert (U1 : u * u <= 1) by (apply Rle_trans with (1 * 1); [apply Rmult_le_compat; lra|lra]); pose proof (Rmult_le_pos (1 - w) (1 - u * u) ltac:(lra) ltac:(lra)); lra). destruct (Rle_lt_or_eq_dec _ _ Q) as [Q'|Q']; [left; apply exp_increasing, Q'|rewrite Q'; lra]. }
    apply Rle_trans with (exp (w * (u * u - 1) / 2) * exp (- (w * (u * u)) / 2)); [apply Rmult_le_compat_r; [left; apply exp_pos|lra]|].
    rewrite <- exp_plus. right. f_equal. field.
Qed.
(* without that restriction it is not the maximum: a single sample is fitted better by half the floor *)
Theorem C82_mle_refuted : exists l m s, l <> [] /\ 0 < s /\ glikelihood (gaussian_fit l) l < glikelihood (mkG m s) l.
Proof.
  exists [0], 0, (/ 2 ^ 52 / 2). assert (Pe : 0 < / 2 ^ 52) by (apply Rinv_0_lt_compat, pow_lt; lra). split; [discriminate|]. split; [lra|].
  destruct (C82_fit_values [0] ltac:(discriminate)) as [Em Es].
  replace (sqrt (total (map (fun x => (x - average [0]) ^ 2) [0]) / INR (length [0]))) with 0 in Es by (unfold average; cbn [total map length INR]; replace (((0 - (0 + 0) / 1) ^ 2 + 0) / 1) with 0 by field; rewrite sqrt_0; reflexivity).
  rewrite Rmax_right in Es by lra. set (t := / 2 ^ 52) in *.
  assert (Hq : 0 < sqrt (2 * PI)) by (apply sqrt_lt_R0; pose proof PI_RGT_0; lra).
  rewrite !glikelihood_eq by (cbn [sigma]; try rewrite Es; lra). rewrite Em, Es. unfold average. cbn [total map length INR mu sigma]. rewrite !pow_1.
  replace (- (((0 - (0 + 0) / 1) ^ 2 + 0) / (2 * t ^ 2))) with 0 by (field; lra). replace (- (((0 - 0) ^ 2 + 0) / (2 * (t / 2) ^ 2))) with 0 by (field; lra). rewrite exp_0, !Rmult_1_r.
  apply Rinv_lt_contravar; [apply Rmult_lt_0_compat; apply Rmult_lt_0_compat; lra|]. apply Rmult_lt_compat_l; lra.
Qed.
(* identical samples get sigma = EPSILON instead of the (unattained) supremum at 0 *)
Theorem C82_identical_samples : forall x n, (0 < n)%nat ->
  gaussian_fit (repeat x n) = mkG x (/ 2 ^ 52).
Proof.
  intros x n Hn. assert (Pe : 0 < / 2 ^ 52) by (apply Rinv_0_lt_compat, pow_lt; lra).
  destruct (C82_fit_values (repeat x n)) as (A & B); [destruct n; [lia|discriminate]|].
  assert (Pn : 0 < INR n) by (apply lt_0_INR; exact Hn).
  assert (E : average (repeat x n) = x).
  { unfold average. rewrite repeat_length.
    replace (total (repeat x n)) with (INR n * x); [field; lra|].
    clear. induction n as [|n IH]; [cbn; ring|]. rewrite S_INR. cbn [repeat total]. rewrite <- IH. ring. }
  rewrite E in *. replace (total (map (fun x0 => (x0 - x) ^ 2) (repeat x n))) with 0 in B.
  - unfold Rdiv in B. rewrite Rmult_0_l, sqrt_0, Rmax_right in B by lra.
    destruct (gaussian_fit (repeat x n)). cbn in A, B. subst. reflexivity.
  - clear. induction n as [|n IH]; cbn [repeat map total]; [reflexivity|]. rewrite <- IH. ring.
Qed.
Theorem C82_fit_no_samples : gaussian_fit [] = mkG 0 1.
Proof. reflexivity. Qed.

(* sampling: always defined, and within sigma * sqrt (106 ln 2) of the mean *)
Theorem C82_sample_bounded : forall g x, 0 <= sigma g ->
  Rabs (gaussian_sample g x - mu g) <= sigma g * sqrt (106 * ln 2).
Proof.
  intros g x Hs.
  assert (E : gaussian_sample g x = sigma g * normal01 (/ IZR (2 ^ 52)) x + mu g).
  { unfold gaussian_sample, normal01, normal01_radius2. cbv zeta.
    assert (Ee : eps = / IZR (2 ^ 52)).
    { unfold eps. f_equal. rewrite pow_IZR. reflexivity. }
    rewrite Ee. unfold Rleb. 
    assert (K : forall a b, sqrt (-2 * a) * cos (2 * PI * b) = sqrt (- ((1 + 1) * a)) * cos ((1 + 1) * PI * b)).
    { intros a b. f_equal; f_equal; ring. }
    destruct (Rle_dec (next_real_f64 x) 0); rewrite K; reflexivity. }
  rewrite E. replace (sigma g * normal01 (/ IZR (2 ^ 52)) x + mu g - mu g)
    with (sigma g * normal01 (/ IZR (2 ^ 52)) x) by ring.
  rewrite Rabs_mult, (Rabs_right (sigma g)) by lra.
  apply Rmult_le_compat_l; [exact Hs|]. exact (proj2 (C75_normal_is_defined_and_bounded x)).
Qed.

(** * C83 *)
Lemma mvn_pdf_some N d x p : mvn_pdf N d x = Some p ->
  exists inv, inverse_of N (mvn_cov d) inv /\
    p = exp (- / 2 * sum N (fun i => (x i - mvn_mean d i) * sum N (fun j => inv i j * (x j - mvn_mean d j))))
        / sqrt ((2 * PI) ^ N * determinant Rops N (mvn_cov d)).
Proof.
  unfold mvn_pdf. destruct (inverse_gauss_jordan Rops N (mvn_cov d)) as [inv|] eqn:E; [|discriminate].
  intros H. inversion H; subst p; clear H. exists inv. split; [apply C32_inverse, E|].
  assert (D : forall i, (i < N)%nat -> for_ 0 N (fun i diff => upd diff i (diff i - mvn_mean d i)) x i = x i - mvn_mean d i).
  { intros i Hi.
    pose (P := fun (n : nat) (s : nat -> R) => s i = if (i <? n)%nat then x i - mvn_mean d i else x i).
    enough (K : P N (for_ 0 N (fun i diff => upd diff i (diff i - mvn_mean d i)) x)).
    { unfold P in K. rewrite K, (proj2 (Nat.ltb_lt i N)) by exact Hi. reflexivity. }
    apply (for_ind P); [lia|reflexivity|]. intros k s Hk HP. unfold P in *.
    destruct (Nat.eq_dec i k) as [->|].
    - rewrite upd_same, HP, (proj2 (Nat.ltb_ge k k)), (proj2 (Nat.ltb_lt k (S k))) by lia. reflexivity.
    - rewrite upd_other, HP by auto. destruct (Nat.ltb_spec i k); destruct (Nat.ltb_spec i (S k)); auto; lia. }
  f_equal.
  - f_equal. f_equal. rewrite dot_R. apply sum_ext. intros i Hi. rewrite D by exact Hi. f_equal.
    rewrite (mul_vector_spec Rops N N) by exact Hi. rewrite left_sum_R. apply sum_ext. intros j Hj.
    cbn [mul Rops]. rewrite D by exact Hj. reflexivity.
  - f_equal. f_equal. rewrite Rpower_pow; [f_equal; ring|]. pose proof PI_RGT_0. lra.
Qed.

(* the inverse is unique, so it may be any inverse of the covariance *)
Lemma inverse_unique N a b c : inverse_of N a b -> inverse_of N a c -> eqm N N b c.
Proof.
  intros (_ & Lb) (Rc & _) i j Hi Hj.
  assert (A : sum N (fun k => sum N (fun l => b i l * a l k) * c k j) = c i j).
  { rewrite (sum_ext N _ (fun k => delta i k * c k j)) by (intros k Hk; rewrite <- (Lb i k Hi Hk); reflexivity).
    rewrite (sum_one N i) by (auto; intros k Hk Nk; unfold delta; rewrite (proj2 (Nat.eqb_neq i k)) by auto; ring).
    unfold delta. rewrite Nat.eqb_refl. ring. }
  assert (B : sum N (fun l => b i l * sum N (fun k => a l k * c k j)) = b i j).
  { rewrite (sum_ext N _ (fun l => b i l * delta l j)) by (intros l Hl; rewrite <- (Rc l j Hl Hj); reflexivity).
    rewrite (sum_one N j) by (auto; intros k Hk Nk; unfold delta; rewrite (proj2 (Nat.eqb_neq k j)) by auto; ring).
    unfold delta. rewrite Nat.eqb_refl. ring. }
  rewrite <- A, <- B.
  rewrite (sum_ext N (fun l => b i l * sum N (fun k => a l k * c k j))
            (fun l => sum N (fun k => b i l * a l k * c k j)))
    by (intros l Hl; rewrite <- sum_scal; apply sum_ext; intros; ring).
  rewrite sum_swap. apply sum_ext. intros k Hk. rewrite sum_scal_r. reflexivity.
Qed.

(* the documented density; [det] is the Laplace determinant of DetSpec.v *)
Theorem C83_density : forall N m C x p inv, mvn_pdf N (mkMvn m C) x = Some p ->
  determinant Rops N C <> 0 -> inverse_of N C inv ->
  p = exp (- / 2 * sum N (fun i => (x i - m i) * sum N (fun j => inv i j * (x j - m j))))
      / sqrt ((2 * PI) ^ N * det N C).
Proof.
  intros N m C x p inv H Hd Hi. destruct (mvn_pdf_some _ _ _ _ H) as (inv' & Hi' & ->). cbn [mvn_cov mvn_mean] in *.
  rewrite (proj1 (C33_nonzero_only_if_invertible N C Hd)). f_equal. f_equal. f_equal.
  apply sum_ext. intros i Hl. f_equal. apply sum_ext. intros j Hj.
  rewrite (inverse_unique N C inv' inv Hi' Hi i j Hl Hj). reflexivity.
Qed.
Theorem C83_singular_panics : forall N m C x, singular N C -> mvn_pdf N (mkMvn m C) x = None.
Proof.
  intros N m C x H. unfold mvn_pdf. cbn [mvn_cov mvn_mean].
  rewrite (C32_singular_is_rejected N C H). reflexivity.
Qed.
Theorem C83_symmetric : forall N m C d, mvn_pdf N (mkMvn m C) (fun i => m i + d i) = mvn_pdf N (mkMvn m C) (fun i => m i - d i).
Proof.
  intros N m C d.
  destruct (mvn_pdf N (mkMvn m C) (fun i => m i + d i)) as [p|] eqn:E1;
  destruct (mvn_pdf N (mkMvn m C) (fun i => m i - d i)) as [q|] eqn:E2.
  - destruct (mvn_pdf_some _ _ _ _ E1) as (i1 & I1 & ->). destruct (mvn_pdf_some _ _ _ _ E2) as (i2 & I2 & ->).
    cbn [mvn_cov mvn_mean] in *. f_equal. f_equal. f_equal. f_equal. apply sum_ext. intros i Hi.
    transitivity (- (m i - d i - m i) * - sum N (fun j => i2 i j * (m j - d j - m j))); [|ring].
    f_equal; [ring|]. rewrite <- sum_opp. apply sum_ext. intros j Hj.
    rewrite (inverse_unique N C i1 i2 I1 I2 i j Hi Hj). ring.
  - unfold mvn_pdf in E1, E2. cbn [mvn_cov] in *. destruct (inverse_gauss_jordan Rops N C); discriminate.
  - unfold mvn_pdf in E1, E2. cbn [mvn_cov] in *. destruct (inverse_gauss_jordan Rops N C); discriminate.
  - reflexivity.
Qed.
(* positive, and largest at the mean *)
Theorem C83_peak : forall N m C x p q, posdef N C -> 0 < determinant Rops N C ->
  mvn_pdf N (mkMvn m C) x = Some p -> mvn_pdf N (mkMvn m C) m = Some q -> 0 < p <= q.
Proof.
  intros N m C x p q Hp Hd E1 E2.
  destruct (mvn_pdf_some _ _ _ _ E1) as (i1 & I1 & ->). destruct (mvn_pdf_some _ _ _ _ E2) as (i2 & I2 & ->).
  cbn [mvn_cov mvn_mean] in *. pose proof PI_RGT_0.
  assert (Hs : 0 < sqrt ((2 * PI) ^ N * determinant Rops N C)).
  { apply sqrt_lt_R0, Rmult_lt_0_compat; [apply pow_lt; lra|exact Hd]. }
  split; [apply Rdiv_lt_0_compat; [apply exp_pos|exact Hs]|].
  apply Rmult_le_compat_r; [left; apply Rinv_0_lt_compat; exact Hs|].
  rewrite (sum_0 N (fun i => (m i - m i) * _)) by (intros; ring). rewrite Rmult_0_r.
  set (y := fun i => sum N (fun j => i1 i j * (x j - m j))).
  assert (D : forall i, (i < N)%nat -> sum N (fun j => C i j * y j) = x i - m i).
  { intros i Hi. unfold y.
    rewrite (sum_ext N _ (fun j => sum N (fun k => C i j * i1 j k * (x k - m k))))
      by (intros j Hj; rewrite <- sum_scal; apply sum_ext; intros; ring).
    rewrite sum_swap.
    rewrite (sum_ext N _ (fun k => delta i k * (x k - m k)))
      by (intros k Hk; rewrite sum_scal_r; f_equal; apply (proj1 I1); auto).
    rewrite (sum_one N i) by (auto; intros k Hk Nk; unfold delta; rewrite (proj2 (Nat.eqb_neq i k)) by auto; ring).
    unfold delta. rewrite Nat.eqb_refl. ring. }
  assert (Q : 0 <= sum N (fun i => (x i - m i) * y i)).
  { rewrite (sum_ext N _ (fun i => sum N (fun j => y i * C i j * y j))).
    - destruct (classic (exists i, (i < N)%nat /\ y i <> 0)) as [K|K].
      + left. apply Hp, K.
      + right. symmetry. apply sum_0. intros i Hi. apply sum_0. intros j Hj.
        assert (y i = 0). { apply NNPP. intros Z. apply K. exists i. auto. }
        rewrite H0. ring.
    - intros i Hi. rewrite <- (D i Hi). rewrite <- sum_scal_r. apply sum_ext. intros; ring. }
  change (sum N (fun i => (x i - m i) * sum N (fun j => i1 i j * (x j - m j)))) with (sum N (fun i => (x i - m i) * y i)).
  destruct (Req_dec (sum N (fun i => (x i - m i) * y i)) 0) as [Z|Z]; [rewrite Z; right; f_equal; ring|].
  left. apply exp_increasing. lra.
Qed.
(* independent components: with a diagonal covariance the density is the product of the
   one-dimensional densities *)
Theorem C83_independent : forall N m s C x p, (forall i, (i < N)%nat -> 0 < s i) ->
  (forall i j, (i < N)%nat -> (j < N)%nat -> C i j = if (i =? j)%nat then s i ^ 2 else 0) ->
  determinant Rops N C <> 0 -> mvn_pdf N (mkMvn m C) x = Some p ->
  p = prodR N (fun i => gaussian_pdf (mkG (m i) (s i)) (x i)).
Proof.
  intros N m s C x p Hs HC Hd H. pose proof PI_RGT_0.
  assert (Hi : inverse_of N C (fun i j => if (i =? j)%nat then / s i ^ 2 else 0)).
  { split; intros i j Hi Hj; unfold Mprod.
    - rewrite (sum_one N i).
      + rewrite HC, Nat.eqb_refl by auto. unfold delta. assert (Z := Hs i Hi).
        destruct (Nat.eqb_spec i j); [field; lra|ring].
      + auto.
      + intros k Hk Nk. rewrite HC by auto. rewrite (proj2 (Nat.eqb_neq i k)) by auto. ring.
    - rewrite (sum_one N j).
      + rewrite HC, Nat.eqb_refl by auto. unfold delta. assert (Z := Hs j Hj).
        destruct (Nat.eqb_spec i j) as [->|]; [field; lra|ring].
      + auto.
      + intros k Hk Nk. rewrite (HC k j) by auto. rewrite (proj2 (Nat.eqb_neq k j)) by auto. ring. }
  rewrite (C83_density N m C x p _ H Hd Hi). clear H Hi.
  rewrite (sum_ext N _ (fun i => (x i - m i) ^ 2 / s i ^ 2)).
  2:{ intros i Hi. rewrite (sum_one N i).
      - rewrite Nat.eqb_refl. unfold Rdiv. ring.
      - exact Hi.
      - intros k Hk Nk. rewrite (proj2 (Nat.eqb_neq i k)) by auto. ring. }
  rewrite det_upper.
  2:{ intros i j Hi Hj. rewrite HC by lia. rewrite (proj2 (Nat.eqb_neq i j)) by lia. reflexivity. }
  assert (E : prodR N (fun i => C i i) = prodR N (fun i => s i ^ 2)).
  { assert (L : forall M, (M <= N)%nat -> prodR M (fun i => C i i) = prodR M (fun i => s i ^ 2)).
    { induction M as [|M IH]; intros L; [reflexivity|]. cbn [prodR]. rewrite IH by lia. rewrite HC by lia.
      rewrite Nat.eqb_refl. reflexivity. }
    apply L. lia. }
  rewrite E. clear E Hd HC.
  assert (P : forall M, (M <= N)%nat -> 0 < prodR M (fun i => s i ^ 2)).
  { induction M as [|M IH]; intros L; cbn [prodR]; [lra|]. apply Rmult_lt_0_compat; [apply IH; lia|].
    apply pow_lt, Hs. lia. }
  assert (K : forall M, (M <= N)%nat ->
    exp (- / 2 * sum M (fun i => (x i - m i) ^ 2 / s i ^ 2)) / sqrt ((2 * PI) ^ M * prodR M (fun i => s i ^ 2))
    = prodR M (fun i => gaussian_pdf (mkG (m i) (s i)) (x i))).
  { induction M as [|M IH]; intros L.
    - cbn [sum pow prodR]. rewrite Rmult_0_r, exp_0, Rmult_1_r, sqrt_1. field.
    - cbn [sum prodR]. rewrite <- IH by lia. rewrite pdf_eq by (cbn [sigma]; apply Hs; lia). cbn [mu sigma].
      assert (Z := Hs M ltac:(lia)). assert (PM := P M ltac:(lia)).
      assert (Hq : 0 < sqrt (2 * PI)) by (apply sqrt_lt_R0; lra).
      rewrite <- (tech_pow_Rmult (2 * PI) M).
      replace (2 * PI * (2 * PI) ^ M * (prodR M (fun i => s i ^ 2) * s M ^ 2))
        with (((2 * PI) ^ M * prodR M (fun i => s i ^ 2)) * ((2 * PI) * (s M * s M))) by ring.
      assert (PP : 0 < (2 * PI) ^ M * prodR M (fun i => s i ^ 2)) by (apply Rmult_lt_0_compat; [apply pow_lt; lra|exact PM]).
      rewrite (sqrt_mult _ ((2 * PI) * (s M * s M))) by (try lra; apply Rmult_le_pos; nra).
      rewrite (sqrt_mult (2 * PI)) by nra. rewrite sqrt_square by lra.
      assert (0 < sqrt ((2 * PI) ^ M * prodR M (fun i => s i ^ 2))) by (apply sqrt_lt_R0, PP).
      replace (- / 2 * (sum M (fun i => (x i - m i) ^ 2 / s i ^ 2) + (x M - m M) ^ 2 / s M ^ 2))
        with (- / 2 * sum M (fun i => (x i - m i) ^ 2 / s i ^ 2) + - ((x M - m M) ^ 2 / (2 * s M ^ 2))) by (field; lra).
      rewrite exp_plus. set (e1 := exp _). set (e2 := exp _). field. repeat split; lra. }
  apply K. lia.
Qed.
(* in one dimension nothing is left out: any variance above the solver's threshold works *)
Theorem C83_one_dimension : forall m s x, 0 < s -> / 1000000000000 < s ^ 2 ->
  mvn_pdf 1 (mkMvn (fun _ => m) (fun _ _ => s ^ 2)) (fun _ => x) = Some (gaussian_pdf (mkG m s) x).
Proof.
  intros m s x Hs Ht.
  assert (Ee : eps12 Rops = / 1000000000000) by (unfold eps12; cbn [lit Rops]; unfold Q2R; cbn; lra).
  assert (Ab : Rabs (s ^ 2) = s ^ 2) by (apply Rabs_right; nra).
  destruct (mvn_pdf 1 (mkMvn (fun _ => m) (fun _ _ => s ^ 2)) (fun _ => x)) as [p|] eqn:E.
  - f_equal. rewrite (C83_independent 1 (fun _ => m) (fun _ => s) (fun _ _ => s ^ 2) (fun _ => x) p).
    + cbn [prodR]. ring.
    + auto.
    + intros i j Hi Hj. replace j with i by lia. rewrite Nat.eqb_refl. reflexivity.
    + intros Z.
      destruct (C33_determinant 1 (fun _ _ => s ^ 2)) as [D|(D & a' & Ha & (v & (i & Hi & Nv) & Hv))].
      * rewrite Z, det_1 in D. nra.
      * specialize (Ha 0%nat 0%nat ltac:(lia) ltac:(lia)). specialize (Hv 0%nat ltac:(lia)).
        destruct i; [|lia]. unfold Mvec in Hv. cbn [sum] in Hv. rewrite Rplus_0_l in Hv.
        apply Rmult_integral in Hv. destruct Hv as [Hv|Hv]; [|contradiction]. rewrite Hv in Ha.
        rewrite Rminus_0_l, Rabs_Ropp, Ab in Ha. lra.
    + exact E.
  - exfalso. unfold mvn_pdf in E. cbn [mvn_cov] in E.
    destruct (inverse_gauss_jordan Rops 1 (fun _ _ => s ^ 2)) as [b|] eqn:Ei; [discriminate|]. revert Ei.
    unfold inverse_gauss_jordan, gj_step, find_pivot, forM, for_. cbn -[Rltb Rleb Rabs Reqb eps12 pow].
    rewrite Ab, Ee. rewrite Rleb_gt by exact Ht. discriminate.
Qed.
Example C83_nontrivial : exists p, mvn_pdf 1 (mkMvn (fun _ => 3) (fun _ _ => 2 ^ 2)) (fun _ => 5) = Some p /\ 0 < p.
Proof.
  eexists. split; [apply C83_one_dimension; lra|]. apply C82_density. lra.
Qed.
