(** The classifiers do not depend on the order of the samples, on the origin the features are
    measured from, or on their units, except where the code compares against an absolute
    threshold (C122). *)
From Coq Require Import Reals ZArith List Arith Bool Lia Lra Permutation FunctionalExtensionality.
From Verif Require Import Scalar RSum LinModel LinSpec LinProofs DetSpec SolveModel CholProofs SolveProps DetProps MlModel
  StatsSpec StatsModel StatsProofs StatsProps MlSpec MlProofs MlGradProps MlClassProps MlDaProps.
Import ListNotations.
Open Scope R_scope.

(** ** Specification: a sample measured from another origin and in other units *)
Definition rescaled (d t : nat -> R) (x : nat -> R) : nat -> R := fun i => d i * x i + t i.
(** the same sample measured from another origin *)
Definition moved (t : nat -> R) (x : nat -> R) : nat -> R := fun i => x i + t i.

(** ** The order of the samples *)
Lemma fold_left_swap {A B} (f : A -> B -> A) : (forall a x y, f (f a x) y = f (f a y) x) ->
  forall l l', Permutation l l' -> forall a, fold_left f l a = fold_left f l' a.
Proof.
  intros H l l' P. induction P; intros a; cbn [fold_left]; auto.
  - rewrite H. reflexivity.
  - rewrite IHP1. apply IHP2.
Qed.
Lemma upd_loop_fun n (f : nat -> R -> R) (w : nat -> R) :
  for_ 0 n (fun i w => upd w i (f i (w i))) w = fun i => if (i <? n)%nat then f i (w i) else w i.
Proof. apply functional_extensionality. intros i. apply upd_loop. Qed.
Lemma upd2_row_loop n i (v : nat -> R) (u : R) (cov : nat -> nat -> R) a b :
  for_ 0 n (fun j cov => upd2 cov i j (cov i j + u * v j)) cov a b
  = if (a =? i)%nat && (b <? n)%nat then cov a b + u * v b else cov a b.
Proof.
  induction n as [|n IH]; [cbn; rewrite andb_false_r; reflexivity|].
  rewrite for_S by lia. unfold upd2 at 1. destruct (Nat.eqb_spec a i) as [->|Na]; cbn [andb].
  - destruct (Nat.eqb_spec b n) as [->|Nb]; cbn [andb].
    + rewrite IH, (proj2 (Nat.ltb_lt n (S n))) by lia. rewrite (proj2 (Nat.ltb_ge n n)) by lia. rewrite andb_false_r. reflexivity.
    + rewrite IH, ?Nat.eqb_refl. cbn [andb]. destruct (Nat.ltb_spec b n), (Nat.ltb_spec b (S n)); auto; lia.
  - rewrite IH. reflexivity.
Qed.
Lemma outer_loop_fun n (u v : nat -> R) (cov : nat -> nat -> R) :
  for_ 0 n (fun i cov => for_ 0 n (fun j cov => upd2 cov i j (cov i j + u i * v j)) cov) cov
  = fun a b => if (a <? n)%nat && (b <? n)%nat then cov a b + u a * v b else cov a b.
Proof.
  apply functional_extensionality. intros a. apply functional_extensionality. intros b.
  assert (forall m, for_ 0 m (fun i cov => for_ 0 n (fun j cov => upd2 cov i j (cov i j + u i * v j)) cov) cov a b
    = if (a <? m)%nat && (b <? n)%nat then cov a b + u a * v b else cov a b) as A; [|apply A].
  induction m as [|m IH]; [reflexivity|]. rewrite for_S by lia. rewrite upd2_row_loop, IH.
  destruct (Nat.eqb_spec a m) as [->|Na]; cbn [andb].
  - rewrite (proj2 (Nat.ltb_lt m (S m))), (proj2 (Nat.ltb_ge m m)) by lia. reflexivity.
  - destruct (Nat.ltb_spec a m), (Nat.ltb_spec a (S m)); auto; lia.
Qed.
Lemma mat_ext2 (a b : nat -> nat -> R) : (forall i j, a i j = b i j) -> a = b.
Proof. intros H. apply functional_extensionality. intros i. apply functional_extensionality. intros j. apply H. Qed.

Lemma class_sum_perm n c data data' : Permutation data data' -> class_sum n c data = class_sum n c data'.
Proof.
  intros P. apply fold_left_swap; [|exact P]. intros [s q] x y. cbn [fst snd].
  destruct (member c x), (member c y); try reflexivity. cbn [fst snd]. f_equal.
  rewrite (upd_loop_fun n (fun i a => a + fst x i)), (upd_loop_fun n (fun i a => a + fst y i)).
  rewrite (upd_loop_fun n (fun i a => a + fst x i)), (upd_loop_fun n (fun i a => a + fst y i)).
  apply functional_extensionality. intros i. destruct (i <? n)%nat; ring.
Qed.
Lemma class_cov_perm n c data data' mean count : Permutation data data' ->
  class_cov n c data mean count = class_cov n c data' mean count.
Proof.
  intros P. unfold class_cov. cbv zeta.
  set (body := fun (cov : mat) (d : vec * nat) => _).
  assert (forall cov x y, body (body cov x) y = body (body cov y) x) as Sw.
  { intros cov x y. unfold body. destruct (member c x), (member c y); try reflexivity. rewrite !outer_loop_fun.
    apply mat_ext2. intros i j. destruct ((i <? n)%nat && (j <? n)%nat); ring. }
  rewrite (fold_left_swap body Sw data data' P). reflexivity.
Qed.

Lemma for_ext_eq {A} n (f g : nat -> A -> A) s : (forall i a, f i a = g i a) -> for_ 0 n f s = for_ 0 n g s.
Proof.
  intros H. replace f with g; [reflexivity|]. apply functional_extensionality. intros i. apply functional_extensionality. intros a.
  symmetry. apply H.
Qed.

Lemma nb_count_step_swap n k st x y :
  nb_count_step n k (nb_count_step n k st x) y = nb_count_step n k (nb_count_step n k st y) x.
Proof.
  destruct st as [[cnt mean]|]; [|reflexivity]. destruct x as [x a], y as [y b]. cbn [nb_count_step].
  destruct (a <? k)%nat eqn:Ea, (b <? k)%nat eqn:Eb; cbn [nb_count_step]; rewrite ?Ea, ?Eb; try reflexivity.
  f_equal. f_equal; apply functional_extensionality; intros c; unfold upd.
  - destruct (Nat.eqb_spec c a), (Nat.eqb_spec c b), (Nat.eqb_spec a b), (Nat.eqb_spec b a); subst; try congruence; auto.
  - pose proof (upd_loop_fun n (fun i m => m + x i)) as Lx. pose proof (upd_loop_fun n (fun i m => m + y i)) as Ly.
    unfold upd in Lx, Ly. rewrite !Lx, !Ly. apply functional_extensionality. intros i.
    destruct (Nat.eqb_spec c a), (Nat.eqb_spec c b), (Nat.eqb_spec a b), (Nat.eqb_spec b a); subst; try congruence; auto.
    destruct (i <? n)%nat; ring.
Qed.
Lemma nb_var_step_swap n mean st x y :
  nb_var_step n mean (nb_var_step n mean st x) y = nb_var_step n mean (nb_var_step n mean st y) x.
Proof.
  destruct x as [x a], y as [y b]. cbn [nb_var_step]. apply functional_extensionality; intros c.
  pose proof (upd_loop_fun n (fun i m => m + (x i - mean a i) * (x i - mean a i))) as Lx.
  pose proof (upd_loop_fun n (fun i m => m + (y i - mean b i) * (y i - mean b i))) as Ly. cbv zeta.
  unfold upd in *. rewrite !Lx, !Ly. apply functional_extensionality. intros i.
  destruct (Nat.eqb_spec c a), (Nat.eqb_spec c b), (Nat.eqb_spec a b), (Nat.eqb_spec b a); subst; try congruence; auto.
  destruct (i <? n)%nat; ring.
Qed.

(** Feeding the labelled samples in any other order fits the same model. *)
Theorem C122_order : forall n k xs ys xs' ys',
  length xs = length ys -> length xs' = length ys' ->
  Permutation (combine xs ys) (combine xs' ys') ->
  lda_fit n xs ys k = lda_fit n xs' ys' k /\
  qda_fit n xs ys k = qda_fit n xs' ys' k /\
  nb_fit n xs ys k = nb_fit n xs' ys' k.
Proof.
  intros n k xs ys xs' ys' L L' P.
  assert (length xs = length xs') as Hl.
  { pose proof (Permutation_length P) as Q. rewrite !combine_length in Q. lia. }
  split; [|split].
  - unfold lda_fit. cbv zeta. rewrite Hl.
    rewrite (for_ext_eq k _ (fun c st =>
      let '(means, priors, pooled) := st in
      let '(sum, count) := class_sum n c (combine xs' ys') in
      let prior := INR count / INR (length xs') in
      if (count =? 0)%nat then (means ++ [(fun _ => 0) : vec], priors ++ [prior], pooled)
      else
        let mean := vfill n (fun i => sum i / INR count) sum in
        let cov := class_cov n c (combine xs' ys') mean count in
        (means ++ [mean], priors ++ [prior], mat_add Rops n n pooled (mat_scale Rops n n cov prior)))); [reflexivity|].
    intros c [[means priors] pooled]. rewrite (class_sum_perm n c _ _ P). destruct (class_sum n c _) as [s count].
    rewrite (class_cov_perm n c _ _ _ _ P). reflexivity.
  - unfold qda_fit. cbv zeta. rewrite Hl.
    rewrite (for_ext_eq k _ (fun c st =>
      let '(means, priors, covs) := st in
      let '(sum, count) := class_sum n c (combine xs' ys') in
      if (count =? 0)%nat then (means ++ [(fun _ => 0) : vec], priors ++ [0], covs ++ [(fun _ _ => 0) : mat])
      else
        let mean := vfill n (fun i => sum i / INR count) sum in
        (means ++ [mean], priors ++ [INR count / INR (length xs')], covs ++ [class_cov n c (combine xs' ys') mean count])));
      [reflexivity|].
    intros c [[means priors] covs]. rewrite (class_sum_perm n c _ _ P). destruct (class_sum n c _) as [s count].
    rewrite (class_cov_perm n c _ _ _ _ P). reflexivity.
  - unfold nb_fit. cbv zeta. rewrite (fold_left_swap _ (nb_count_step_swap n k) _ _ P).
    destruct (fold_left _ _ _) as [[cnt sums]|]; [|reflexivity].
    rewrite (fold_left_swap _ (nb_var_step_swap n _) _ _ P). reflexivity.
Qed.

(** ** Origin and units: what the fits compute *)
Lemma combine_map_l {A B C} (f : A -> B) (l : list A) (m : list C) :
  combine (map f l) m = map (fun p => (f (fst p), snd p)) (combine l m).
Proof. revert m. induction l as [|x r IH]; intros [|y m]; cbn; auto. rewrite IH. reflexivity. Qed.
Lemma of_class_rescaled f c xs (ys : list nat) :
  of_class c (combine (map f xs) ys) = map f (of_class c (combine xs ys)).
Proof.
  rewrite combine_map_l. induction (combine xs ys) as [|p l IH]; [reflexivity|].
  cbn [map]. rewrite !of_class_cons. cbn [fst snd]. rewrite IH. destruct (snd p =? c)%nat; reflexivity.
Qed.
Lemma column_rescaled d t i l : column i (map (rescaled d t) l) = map (fun v => d i * v + t i) (column i l).
Proof. unfold column. rewrite !map_map. reflexivity. Qed.
Lemma total_affine a b l : total (map (fun v => a * v + b) l) = a * total l + INR (length l) * b.
Proof.
  induction l as [|x r IH]; [cbn; ring|]. cbn [map total length]. rewrite IH, S_INR. ring.
Qed.
Lemma average_affine a b l : l <> [] -> average (map (fun v => a * v + b) l) = a * average l + b.
Proof.
  intros H. unfold average. rewrite total_affine, map_length. field.
  destruct l; [congruence|]. cbn [length]. rewrite S_INR. pose proof (pos_INR (length l)). lra.
Qed.
Lemma average_rescaled d t i l : l <> [] ->
  average (column i (map (rescaled d t) l)) = d i * average (column i l) + t i.
Proof. intros H. rewrite column_rescaled. apply average_affine. destruct l; [congruence|discriminate]. Qed.
Lemma class_covariance_rescaled d t a b l :
  class_covariance a b (map (rescaled d t) l) = d a * d b * class_covariance a b l.
Proof.
  unfold class_covariance. rewrite map_length. destruct (Nat.ltb_spec 1 (length l)) as [H|H]; [|ring].
  assert (l <> []) as Ne by (intros ->; cbn in H; lia).
  rewrite !sample_cov_members, map_length, map_map, !average_rescaled by exact Ne.
  rewrite (total_map_ext l _ (fun x : nat -> R => d a * d b * ((x a - average (column a l)) * (x b - average (column b l)))))
    by (intros; unfold rescaled; ring).
  rewrite total_map_scal. unfold Rdiv. ring.
Qed.
Lemma variance_rescaled d t i l : l <> [] ->
  variance (column i (map (rescaled d t) l)) = d i * d i * variance (column i l).
Proof.
  intros Ne. unfold column. rewrite map_map, !variance_map.
  replace (average (map (fun x : nat -> R => rescaled d t x i) l)) with (d i * average (map (fun s : nat -> R => s i) l) + t i)
    by (pose proof (average_rescaled d t i l Ne) as Q; unfold column in Q; rewrite map_map in Q; symmetry; exact Q).
  set (A := average _).
  rewrite (total_map_ext l _ (fun x : nat -> R => d i * d i * ((x i - A) * (x i - A)))) by (intros; unfold rescaled; ring).
  rewrite total_map_scal. unfold Rdiv. ring.
Qed.

(** ** Scores that differ by a constant choose the same class *)
Definition shifted (z : R) (a b : option ext) : Prop :=
  match a, b with
  | None, None | Some NegInf, Some NegInf => True
  | Some (Fin r), Some (Fin q) => q = r + z
  | _, _ => False
  end.
Lemma argmax_shift k z s s' : (forall c, (c < k)%nat -> shifted z (s c) (s' c)) -> argmax k s = argmax k s'.
Proof.
  intros H. unfold argmax.
  set (f := fun (s : nat -> option ext) (c : nat) (st : nat * ext) => match s c with
                             | None => st
                             | Some v => if ext_gtb v (snd st) then (c, v) else st
                             end).
  assert (forall m, (m <= k)%nat ->
    fst (for_ 0 m (f s) (0%nat, NegInf)) = fst (for_ 0 m (f s') (0%nat, NegInf)) /\
    shifted z (Some (snd (for_ 0 m (f s) (0%nat, NegInf)))) (Some (snd (for_ 0 m (f s') (0%nat, NegInf))))) as A.
  2: { apply (A k). lia. }
  induction m as [|m IH]; intros Hm; [split; [reflexivity|exact I]|]. rewrite !for_S by lia.
  destruct (IH ltac:(lia)) as [I1 I2]. specialize (H m ltac:(lia)).
  destruct (for_ 0 m (f s) _) as [b v], (for_ 0 m (f s') _) as [b' v']. cbn [fst snd] in *. subst b'. unfold f. cbn [fst snd].
  destruct (s m) as [e|], (s' m) as [e'|]; cbn [shifted] in H.
  - assert (ext_gtb e' v' = ext_gtb e v) as ->.
    { destruct e, e', v, v'; cbn in H, I2 |- *; try contradiction; subst; auto.
      unfold Rltb. destruct (Rlt_dec _ _), (Rlt_dec _ _); auto; lra. }
    destruct (ext_gtb e v); cbn [fst snd]; auto.
  - destruct e; contradiction.
  - contradiction.
  - cbn [fst snd]. auto.
Qed.

Lemma prior_cases (a b : nat) : (a <= b)%nat -> a = 0%nat /\ INR a / INR b = 0 \/ (0 < a)%nat /\ 0 < INR a / INR b.
Proof.
  intros H. destruct a as [|a]; [left; split; [reflexivity|cbn; unfold Rdiv; ring]|].
  right. split; [lia|]. apply Rdiv_lt_0_compat; apply lt_0_INR; lia.
Qed.
Lemma of_class_le c xs (ys : list nat) : (length (of_class c (combine xs ys)) <= length xs)%nat.
Proof.
  unfold of_class. rewrite map_length. transitivity (length (combine xs ys)); [|rewrite combine_length; lia].
  induction (combine xs ys) as [|p l IH]; cbn; [lia|]. destruct (snd p =? c)%nat; cbn; lia.
Qed.
Lemma ext_ln_pos x : 0 < x -> ext_ln x = Fin (ln x).
Proof. intros H. unfold ext_ln, Rltb, Reqb. destruct (Rlt_dec x 0); [lra|]. destruct (Req_EM_T x 0); [lra|reflexivity]. Qed.
Lemma ext_ln_zero : ext_ln 0 = NegInf.
Proof. unfold ext_ln, Rltb, Reqb. destruct (Rlt_dec 0 0); [lra|]. destruct (Req_EM_T 0 0); [reflexivity|lra]. Qed.

(** the inverse of a matrix rescaled on both sides *)
Lemma inverse_rescaled n d a b a' b' : (forall i, (i < n)%nat -> d i <> 0) ->
  (forall i j, (i < n)%nat -> (j < n)%nat -> a' i j = d i * d j * a i j) ->
  inverse_of n a b -> inverse_of n a' b' ->
  forall i j, (i < n)%nat -> (j < n)%nat -> b' i j = b i j / (d i * d j).
Proof.
  intros Hd E I I' i j Hi Hj.
  assert (inverse_of n a' (fun i j => b i j / (d i * d j))) as I2.
  { destruct I as [L Rr]. split; intros p q Hp Hq; unfold Mprod.
    - rewrite (sum_ext n _ (fun k => d p / d q * (a p k * b k q))).
      + rewrite sum_scal. pose proof (L p q Hp Hq) as Q. unfold Mprod in Q. rewrite Q. unfold delta.
        destruct (Nat.eqb_spec p q) as [->|]; [field; apply Hd, Hq|ring].
      + intros k Hk. rewrite E by auto. field. split; apply Hd; auto.
    - rewrite (sum_ext n _ (fun k => d q / d p * (b p k * a k q))).
      + rewrite sum_scal. pose proof (Rr p q Hp Hq) as Q. unfold Mprod in Q. rewrite Q. unfold delta.
        destruct (Nat.eqb_spec p q) as [->|]; [field; apply Hd, Hq|ring].
      + intros k Hk. rewrite E by auto. field. split; apply Hd; auto. }
  exact (inverse_unique n a' b' _ I' I2 i j Hi Hj).
Qed.
Lemma quad_rescaled n d b b' v v' : (forall i, (i < n)%nat -> d i <> 0) ->
  (forall i j, (i < n)%nat -> (j < n)%nat -> b' i j = b i j / (d i * d j)) ->
  (forall i, (i < n)%nat -> v' i = d i * v i) -> quad n b' v' = quad n b v.
Proof.
  intros Hd Hb Hv. unfold quad. apply sum_ext. intros i Hi. rewrite Hv by auto.
  rewrite (sum_ext n (fun j => b' i j * v' j) (fun j => / d i * (b i j * v j))).
  - rewrite sum_scal. field. auto.
  - intros j Hj. rewrite Hb, Hv by auto. field. auto.
Qed.

(** the linear score is half the squared distance up to a term the classes share *)
Lemma linear_score n sinv x mu : symmetric n sinv ->
  sum n (fun i => x i * sum n (fun j => sinv i j * mu j)) - / 2 * sum n (fun i => mu i * sum n (fun j => sinv i j * mu j))
  = - / 2 * quad n sinv (fun i => x i - mu i) + / 2 * quad n sinv x.
Proof.
  intros Sy. unfold quad.
  set (S1 := sum n (fun i => x i * sum n (fun j => sinv i j * mu j))).
  set (S2 := sum n (fun i => mu i * sum n (fun j => sinv i j * mu j))).
  set (S3 := sum n (fun i => x i * sum n (fun j => sinv i j * x j))).
  assert (sum n (fun i => mu i * sum n (fun j => sinv i j * x j)) = S1) as Sw.
  { unfold S1. rewrite (sum_ext n _ (fun i => sum n (fun j => mu i * (sinv i j * x j)))) by (intros; rewrite sum_scal; reflexivity).
    rewrite sum_swap. apply sum_ext. intros j Hj. rewrite <- sum_scal. apply sum_ext. intros i Hii. rewrite (Sy i j) by auto. ring. }
  rewrite (sum_ext n (fun i => (x i - mu i) * _) (fun i => x i * sum n (fun j => sinv i j * x j) - x i * sum n (fun j => sinv i j * mu j)
             - mu i * sum n (fun j => sinv i j * x j) + mu i * sum n (fun j => sinv i j * mu j))).
  - rewrite sum_plus, !sum_minus. fold S1 S2 S3. rewrite Sw. lra.
  - intros i Hii. rewrite (sum_ext n _ (fun j => sinv i j * x j - sinv i j * mu j)) by (intros; ring).
    rewrite sum_minus. ring.
Qed.
Lemma lda_score_value n m x c sinv : inverse_gauss_jordan Rops n (lda_cov m) = Some sinv -> symmetric n sinv ->
  lda_score n m x c = Some (ext_add (Fin (- / 2 * quad n sinv (fun i => x i - nth c (lda_means m) (fun _ => 0) i) + / 2 * quad n sinv x))
                             (ext_ln (nth c (lda_priors m) 0))).
Proof.
  intros Hi Sy. unfold lda_score. rewrite Hi. cbv zeta. set (mu := nth c (lda_means m) _). do 3 f_equal.
  rewrite (for_sum n (fun i => x i * _)), (for_sum n (fun i => mu i * _)), !Rplus_0_l. rewrite <- linear_score by exact Sy.
  f_equal; [apply sum_ext; intros i Hii; rewrite mv_R by auto; reflexivity|].
  f_equal. apply sum_ext; intros i Hii; rewrite mv_R by auto; reflexivity.
Qed.

Lemma lda_cov_symmetric n xs ys k : symmetric n (lda_cov (lda_fit n xs ys k)).
Proof.
  destruct (lda_fit_spec n xs ys k) as (_ & _ & _ & Cv). cbv zeta in Cv. intros i j Hi Hj. rewrite !Cv by auto.
  apply sum_ext. intros. rewrite class_covariance_sym. reflexivity.
Qed.
Lemma map_length_xs {A} (f : A -> A) xs : length (map f xs) = length xs.
Proof. apply map_length. Qed.

(** LDA: other units and another origin for training set and query give the same answer,
    whenever the pooled covariance passes the inversion in both units. *)
Theorem C122_lda_units_partial : forall n k d t xs ys x s s',
  (forall i, (i < n)%nat -> d i <> 0) ->
  let m := lda_fit n xs ys k in
  let m' := lda_fit n (map (rescaled d t) xs) ys k in
  inverse_gauss_jordan Rops n (lda_cov m) = Some s ->
  inverse_gauss_jordan Rops n (lda_cov m') = Some s' ->
  lda_predict n m' (rescaled d t x) = lda_predict n m x.
Proof.
  intros n k d t xs ys x s s' Hd m m' Hi Hi'.
  pose proof (C32_inverse n _ _ Hi) as I. pose proof (C32_inverse n _ _ Hi') as I'.
  assert (symmetric n s) as Sy by (apply (inverse_symmetric n (lda_cov m)); [apply lda_cov_symmetric|exact I]).
  assert (symmetric n s') as Sy' by (apply (inverse_symmetric n (lda_cov m')); [apply lda_cov_symmetric|exact I']).
  destruct (lda_fit_spec n xs ys k) as (L1 & _ & E & Cv).
  destruct (lda_fit_spec n (map (rescaled d t) xs) ys k) as (L1' & _ & E' & Cv'). cbv zeta in *. fold m in L1, E, Cv. fold m' in L1', E', Cv'.
  assert (forall i j, (i < n)%nat -> (j < n)%nat -> lda_cov m' i j = d i * d j * lda_cov m i j) as Ec.
  { intros i j Hii Hj. rewrite Cv, Cv' by auto. rewrite <- sum_scal. apply sum_ext. intros c Hc.
    rewrite of_class_rescaled, !map_length, class_covariance_rescaled. ring. }
  pose proof (inverse_rescaled n d _ _ _ _ Hd Ec I I') as Es.
  unfold lda_predict. rewrite L1, L1'. symmetry.
  apply (argmax_shift k (/ 2 * quad n s' (rescaled d t x) - / 2 * quad n s x)).
  intros c Hc. rewrite (lda_score_value n m x c s Hi Sy), (lda_score_value n m' _ c s' Hi' Sy').
  destruct (E c Hc) as [Ep Em]. destruct (E' c Hc) as [Ep' Em']. rewrite of_class_rescaled, !map_length in Ep'. rewrite Ep, Ep'.
  destruct (prior_cases _ _ (of_class_le c xs ys)) as [[Z ->]|[Z P]].
  - rewrite ext_ln_zero. exact Logic.I.
  - rewrite ext_ln_pos by exact P. cbn [ext_add shifted].
    assert (of_class c (combine xs ys) <> []) as Ne by (intros Q; rewrite Q in Z; cbn in Z; lia).
    rewrite (quad_rescaled n d s s' (fun i => x i - nth c (lda_means m) (fun _ => 0) i)); auto; [lra|].
    intros i Hii. rewrite Em, Em'; auto.
    + rewrite of_class_rescaled, average_rescaled by exact Ne. unfold rescaled. ring.
    + rewrite of_class_rescaled. intros Q. apply Ne. destruct (of_class c _); [reflexivity|discriminate].
Qed.

(** ** QDA *)
Lemma det_rows_scaled n (d : nat -> R) a : forall m, (m <= n)%nat ->
  det n (fun i j => (if (i <? m)%nat then d i else 1) * a i j) = prodR m d * det n a.
Proof.
  induction m as [|m IH]; intros Hm.
  - cbn [prodR]. rewrite Rmult_1_l. apply det_ext. intros i j _ _. cbn. ring.
  - rewrite (det_row_linear n m (d m) 0 _ (fun i j => (if (i <? m)%nat then d i else 1) * a i j)
      (fun i j => (if (i <? m)%nat then d i else 1) * a i j)).
    + rewrite IH by lia. cbn [prodR]. ring.
    + lia.
    + intros j Hj. rewrite (proj2 (Nat.ltb_lt m (S m))), (proj2 (Nat.ltb_ge m m)) by lia. ring.
    + intros i j Hi Hj Ne. destruct (Nat.ltb_spec i m), (Nat.ltb_spec i (S m)); auto; lia.
Qed.
Lemma prodR_first n f : prodR (S n) f = f O * prodR n (fun i => f (S i)).
Proof.
  induction n as [|m IH]; [cbn; ring|]. change (prodR (S (S m)) f) with (prodR (S m) f * f (S m)).
  rewrite IH. cbn [prodR]. ring.
Qed.
Lemma det_cols_scaled n : forall (d : nat -> R) a, det n (fun i j => d j * a i j) = prodR n d * det n a.
Proof.
  induction n as [|n IH]; intros d a; [cbn; ring|]. rewrite prodR_first. cbn [det]. rewrite <- sum_scal.
  apply sum_ext. intros i Hi. rewrite (IH (fun j => d (S j)) (fun r c => a (skip i r) (S c))). ring.
Qed.
Lemma det_rescaled n d a a' :
  (forall i j, (i < n)%nat -> (j < n)%nat -> a' i j = d i * d j * a i j) -> det n a' = prodR n d * prodR n d * det n a.
Proof.
  intros H. rewrite (det_ext n a' (fun i j => (if (i <? n)%nat then d i else 1) * (d j * a i j))).
  - rewrite (det_rows_scaled n d (fun i j => d j * a i j) n) by lia. rewrite det_cols_scaled. ring.
  - intros i j Hi Hj. rewrite H, (proj2 (Nat.ltb_lt i n)) by auto. ring.
Qed.
Lemma prodR_nonzero n f : (forall i, (i < n)%nat -> f i <> 0) -> prodR n f <> 0.
Proof. induction n as [|n IH]; intros H; cbn [prodR]; [lra|]. apply Rmult_integral_contrapositive. split; [apply IH; intros; apply H; lia|apply H; lia]. Qed.

Lemma qda_covs_det n xs ys k c ci : (c < k)%nat ->
  let cov := nth c (qda_covs (qda_fit n xs ys k)) (fun _ _ => 0) in
  inverse_gauss_jordan Rops n cov = Some ci -> 0 < det n cov /\ determinant Rops n cov = det n cov.
Proof.
  intros Hc cov Hi. destruct (qda_fit_spec n xs ys k) as (_ & _ & _ & F). cbv zeta in F. destruct (F c Hc) as (_ & _ & Ec). fold cov in Ec.
  assert (symmetric n cov) as Sy by (intros i j Hii Hj; rewrite !Ec by auto; apply class_covariance_sym).
  split.
  - apply C33_positive_definite_determinant; [exact Sy|].
    apply (psd_invertible_posdef n _ ci); [exact Sy|apply C32_inverse, Hi|].
    intros v. pose proof (class_covariance_psd n (of_class c (combine xs ys)) v) as Ps.
    erewrite sum_ext; [exact Ps|]. intros i Hii. cbn beta. apply sum_ext. intros j Hj. rewrite Ec by auto. ring.
  - apply C33_nonzero_only_if_invertible. apply C33_inverse_iff_nonzero_determinant. exists ci. exact Hi.
Qed.
Lemma qda_score_value n xs ys k x c ci : (c < k)%nat ->
  let m := qda_fit n xs ys k in
  let cov := nth c (qda_covs m) (fun _ _ => 0) in
  inverse_gauss_jordan Rops n cov = Some ci ->
  qda_score n m x c = Some (ext_add (Fin (- / 2 * ln (det n cov)
      + - (/ 2 * quad n ci (fun i => x i - nth c (qda_means m) (fun _ => 0) i)))) (ext_ln (nth c (qda_priors m) 0))).
Proof.
  intros Hc m cov Hi. destruct (qda_covs_det n xs ys k c ci Hc Hi) as [Dp De]. fold m in Dp, De. fold cov in Dp, De.
  unfold qda_score. fold cov. rewrite Hi. cbv zeta. rewrite De, (ext_ln_pos (det n cov)) by exact Dp.
  cbn [ext_scale]. do 2 f_equal. cbn [ext_add]. do 4 f_equal.
  rewrite (for_sum n (fun i => vfill n (fun k => x k - nth c (qda_means m) (fun _ => 0) k) (fun _ => 0) i * _)), Rplus_0_l.
  unfold quad. apply sum_ext. intros i Hii. rewrite vfill_in, mv_R by auto. f_equal. apply sum_ext. intros j Hj.
  rewrite vfill_in by auto. reflexivity.
Qed.

Theorem C122_qda_units_partial : forall n k d t xs ys x,
  (forall i, (i < n)%nat -> d i <> 0) ->
  let m := qda_fit n xs ys k in
  let m' := qda_fit n (map (rescaled d t) xs) ys k in
  let inv m c := inverse_gauss_jordan Rops n (nth c (qda_covs m) (fun _ _ => 0)) in
  (forall c, (c < k)%nat -> inv m c = None <-> inv m' c = None) ->
  qda_predict n m' (rescaled d t x) = qda_predict n m x.
Proof.
  intros n k d t xs ys x Hd m m' inv Hn.
  destruct (qda_fit_spec n xs ys k) as (L1 & _ & _ & E).
  destruct (qda_fit_spec n (map (rescaled d t) xs) ys k) as (L1' & _ & _ & E'). cbv zeta in *. fold m in L1, E. fold m' in L1', E'.
  unfold qda_predict. rewrite L1, L1'. symmetry.
  apply (argmax_shift k (- / 2 * ln (prodR n d * prodR n d))).
  intros c Hc. specialize (Hn c Hc). destruct (E c Hc) as (Ep & Em & Ec). destruct (E' c Hc) as (Ep' & Em' & Ec').
  destruct (inv m c) as [s|] eqn:Hi; destruct (inv m' c) as [s'|] eqn:Hi'.
  - pose proof (C32_inverse n _ _ Hi) as I. pose proof (C32_inverse n _ _ Hi') as I'.
    assert (forall i j, (i < n)%nat -> (j < n)%nat -> nth c (qda_covs m') (fun _ _ => 0) i j = d i * d j * nth c (qda_covs m) (fun _ _ => 0) i j) as Er.
    { intros i j Hii Hj. rewrite Ec, Ec' by auto. rewrite of_class_rescaled, class_covariance_rescaled. reflexivity. }
    pose proof (inverse_rescaled n d _ _ _ _ Hd Er I I') as Es.
    pose proof (qda_score_value n xs ys k x c s Hc Hi) as Sv.
    pose proof (qda_score_value n (map (rescaled d t) xs) ys k (rescaled d t x) c s' Hc Hi') as Sv'.
    cbv zeta in Sv, Sv'. fold m in Sv. fold m' in Sv'. rewrite Sv, Sv'.
    rewrite of_class_rescaled, !map_length in Ep'. rewrite Ep, Ep'.
    destruct (prior_cases _ _ (of_class_le c xs ys)) as [[Z ->]|[Z P]].
    + rewrite ext_ln_zero. exact Logic.I.
    + rewrite ext_ln_pos by exact P. cbn [ext_add shifted].
      assert (of_class c (combine xs ys) <> []) as Ne by (intros Q; rewrite Q in Z; cbn in Z; lia).
      rewrite (quad_rescaled n d s s' (fun i => x i - nth c (qda_means m) (fun _ => 0) i)); auto.
      * rewrite (det_rescaled n d _ _ Er).
        assert (0 < prodR n d * prodR n d) by (pose proof (prodR_nonzero n d Hd); nra).
        rewrite ln_mult; [lra|assumption|]. apply (qda_covs_det n xs ys k c s Hc Hi).
      * intros i Hii. rewrite Em, Em'; auto.
        -- rewrite of_class_rescaled, average_rescaled by exact Ne. unfold rescaled. ring.
        -- rewrite of_class_rescaled. intros Q. apply Ne. destruct (of_class c _); [reflexivity|discriminate].
  - exfalso. destruct Hn as [_ Q]. specialize (Q eq_refl). discriminate.
  - exfalso. destruct Hn as [Q _]. specialize (Q eq_refl). discriminate.
  - unfold qda_score. unfold inv in Hi, Hi'. rewrite Hi, Hi'. exact Logic.I.
Qed.

(** ** Naive Bayes *)
Lemma labels_valid_rescaled f k xs (ys : list nat) :
  labels_valid k (combine (map f xs) ys) <-> labels_valid k (combine xs ys).
Proof.
  rewrite combine_map_l. unfold labels_valid. split; intros H x c Q.
  - apply (H (f x) c). apply in_map_iff. exists (x, c). auto.
  - apply in_map_iff in Q. destruct Q as ([y l] & Q & Hin). injection Q as _ <-. exact (H y l Hin).
Qed.
Lemma nb_fit_classes n xs ys k m : nb_fit n xs ys k = Some m -> nb_classes m = k.
Proof. unfold nb_fit. destruct (fold_left _ _ _) as [[? ?]|]; [|discriminate]. intros H. injection H as <-. reflexivity. Qed.

Lemma nb_same n k d t xs ys x :
  (forall i, (i < n)%nat -> d i <> 0) ->
  (forall c i, (c < k)%nat -> (i < n)%nat -> of_class c (combine xs ys) <> [] ->
     let v := variance (column i (of_class c (combine xs ys))) in
     Rmax (d i * d i * v) (/ 10 ^ 12) = d i * d i * Rmax v (/ 10 ^ 12)) ->
  option_map (fun m => nb_predict n m (rescaled d t x)) (nb_fit n (map (rescaled d t) xs) ys k)
  = option_map (fun m => nb_predict n m x) (nb_fit n xs ys k).
Proof.
  intros Hd Hv.
  destruct (C56_naive_bayes_fit n xs ys k) as [F1 F2].
  destruct (C56_naive_bayes_fit n (map (rescaled d t) xs) ys k) as [F1' F2']. rewrite labels_valid_rescaled in F1'.
  destruct (nb_fit n xs ys k) as [m|] eqn:Ef; destruct (nb_fit n (map (rescaled d t) xs) ys k) as [m'|] eqn:Ef'.
  - specialize (F2 m eq_refl). specialize (F2' m' eq_refl). cbv zeta in F2, F2'.
    destruct F2 as (Cn & _ & Pr & St). destruct F2' as (Cn' & _ & Pr' & St'). cbn [option_map]. f_equal.
    unfold nb_predict. rewrite (nb_fit_classes _ _ _ _ _ Ef), (nb_fit_classes _ _ _ _ _ Ef'). symmetry.
    apply (argmax_shift k (sum n (fun i => - / 2 * ln (d i * d i)))). intros c Hc.
    rewrite Cn, Cn', of_class_rescaled, map_length.
    destruct (Nat.eqb_spec (length (of_class c (combine xs ys))) 0) as [Z|Z]; [exact Logic.I|].
    assert (of_class c (combine xs ys) <> []) as Ne by (intros Q; rewrite Q in Z; cbn in Z; lia).
    assert (combine xs ys <> []) as Nd by (intros Q; rewrite Q in Ne; apply Ne; reflexivity).
    assert (length (combine (map (rescaled d t) xs) ys) = length (combine xs ys)) as Le by (rewrite combine_map_l, map_length; reflexivity).
    destruct (Pr Nd) as [P0 _]. destruct (Pr' ltac:(intros Q; rewrite Q in Le; destruct (combine xs ys); [congruence|discriminate])) as [P0' _].
    unfold nb_score. destruct (P0 c) as [_ ->]. destruct (P0' c) as [_ ->]. rewrite of_class_rescaled, map_length, Le.
    assert (0 < INR (length (of_class c (combine xs ys))) / INR (length (combine xs ys))) as P.
    { apply Rdiv_lt_0_compat; apply lt_0_INR; [lia|]. destruct (combine xs ys); [congruence|cbn; lia]. }
    rewrite ext_ln_pos by exact P. cbv zeta. cbn [ext_add shifted].
    rewrite (for_sum n (fun i => - / 2 * (ln (2 * PI * Rmax (nb_var m c i) (/ 10 ^ 12))
              + (x i - nb_mean m c i) * (x i - nb_mean m c i) / Rmax (nb_var m c i) (/ 10 ^ 12)))).
    rewrite (for_sum n (fun i => - / 2 * (ln (2 * PI * Rmax (nb_var m' c i) (/ 10 ^ 12))
              + (rescaled d t x i - nb_mean m' c i) * (rescaled d t x i - nb_mean m' c i) / Rmax (nb_var m' c i) (/ 10 ^ 12)))).
    rewrite !Rplus_0_l, Rplus_assoc, <- sum_plus. f_equal. apply sum_ext. intros i Hi.
    destruct (St c i Hc Ne Hi) as (-> & -> & _).
    assert (of_class c (combine (map (rescaled d t) xs) ys) <> []) as Ne'
      by (rewrite of_class_rescaled; intros Q; apply Ne; destruct (of_class c _); [reflexivity|discriminate]).
    destruct (St' c i Hc Ne' Hi) as (-> & -> & _).
    rewrite of_class_rescaled, average_rescaled, variance_rescaled by exact Ne. specialize (Hv c i Hc Hi Ne). cbv zeta in Hv. rewrite Hv.
    set (A := average _). set (V := Rmax _ _). assert (0 < V) as PV by apply floor_pos.
    assert (0 < d i * d i) as D2 by (pose proof (Hd i Hi); nra).
    replace (2 * PI * (d i * d i * V)) with (2 * PI * V * (d i * d i)) by ring.
    rewrite ln_mult; [|pose proof PI_RGT_0; apply Rmult_lt_0_compat; lra|exact D2].
    unfold rescaled. field. split; [lra|apply Hd, Hi].
  - exfalso. destruct F1 as [F1 _]. destruct F1' as [_ F1']. destruct (F1' (F1 (ex_intro _ m eq_refl))) as [? ?]. discriminate.
  - exfalso. destruct F1' as [F1' _]. destruct F1 as [_ F1]. destruct (F1 (F1' (ex_intro _ m' eq_refl))) as [? ?]. discriminate.
  - reflexivity.
Qed.

(** Naive Bayes: the same whenever no variance is below the floor of 1e-12 in either unit. *)
Theorem C122_naive_bayes_units_partial : forall n k d t xs ys x,
  (forall i, (i < n)%nat -> d i <> 0) ->
  (forall c i, (c < k)%nat -> (i < n)%nat -> of_class c (combine xs ys) <> [] ->
     / 10 ^ 12 <= variance (column i (of_class c (combine xs ys))) /\
     / 10 ^ 12 <= variance (column i (of_class c (combine (map (rescaled d t) xs) ys)))) ->
  option_map (fun m => nb_predict n m (rescaled d t x)) (nb_fit n (map (rescaled d t) xs) ys k)
  = option_map (fun m => nb_predict n m x) (nb_fit n xs ys k).
Proof.
  intros n k d t xs ys x Hd H. apply nb_same; [exact Hd|]. intros c i Hc Hi Ne. cbv zeta. destruct (H c i Hc Hi Ne) as [H1 H2].
  rewrite of_class_rescaled, variance_rescaled in H2 by exact Ne. rewrite !Rmax_left by assumption. reflexivity.
Qed.

(** ** Another origin, same units: always the same answer *)
Lemma class_cov_out n c data mean count a b : ~ ((a < n)%nat /\ (b < n)%nat) -> class_cov n c data mean count a b = 0.
Proof.
  intros H. unfold class_cov. cbv zeta.
  set (body := fun (cov : mat) (d : vec * nat) => _).
  assert (((a <? n)%nat && (b <? n)%nat) = false) as F.
  { destruct (Nat.ltb_spec a n), (Nat.ltb_spec b n); auto; lia. }
  assert (forall cov, fold_left body data cov a b = cov a b) as A.
  { induction data as [|p r IH]; intros cov; cbn [fold_left]; [reflexivity|]. rewrite IH. unfold body.
    destruct (member c p); [|reflexivity]. rewrite outer_loop_fun, F. reflexivity. }
  destruct (1 <? count)%nat; [|apply A]. unfold mat_div. rewrite fill_spec, F. apply A.
Qed.
Lemma lda_cov_out n xs ys k a b : ~ ((a < n)%nat /\ (b < n)%nat) -> lda_cov (lda_fit n xs ys k) a b = 0.
Proof.
  intros H. unfold lda_fit. cbv zeta. set (body := fun (c : nat) (st : list vec * list R * mat) => _).
  assert (((a <? n)%nat && (b <? n)%nat) = false) as F.
  { destruct (Nat.ltb_spec a n), (Nat.ltb_spec b n); auto; lia. }
  assert (snd (for_ 0 k body ([], [], fun _ _ => 0)) a b = 0) as Q.
  { induction k as [|j IH]; [reflexivity|]. rewrite for_S by lia. destruct (for_ 0 j body _) as [[means priors] pooled].
    unfold body. destruct (class_sum n j (combine xs ys)) as [s count]. destruct (count =? 0)%nat; [exact IH|].
    cbn [snd]. unfold mat_add. rewrite fill_spec, F. exact IH. }
  destruct (for_ 0 k body _) as [[means priors] pooled]. exact Q.
Qed.
Lemma qda_covs_out n xs ys k c a b : ~ ((a < n)%nat /\ (b < n)%nat) -> nth c (qda_covs (qda_fit n xs ys k)) (fun _ _ => 0) a b = 0.
Proof.
  intros H. unfold qda_fit. cbv zeta. set (body := fun (c : nat) (st : list vec * list R * list mat) => _).
  assert (forall f, In f (snd (for_ 0 k body ([], [], []))) -> f a b = 0) as Q.
  { induction k as [|j IH]; [intros f []|]. rewrite for_S by lia. destruct (for_ 0 j body _) as [[means priors] covs].
    unfold body. destruct (class_sum n j (combine xs ys)) as [s count]. cbn [snd] in IH.
    destruct (count =? 0)%nat; cbn [snd]; intros f Hf; apply in_app_iff in Hf; destruct Hf as [Hf|[<-|[]]]; auto.
    apply class_cov_out, H. }
  destruct (for_ 0 k body _) as [[means priors] covs]. cbn [qda_covs snd] in *.
  destruct (nth_in_or_default c covs (fun _ _ => 0)) as [Hin| ->]; [apply Q, Hin|reflexivity].
Qed.

Theorem C122_origin : forall n k t xs ys x,
  lda_predict n (lda_fit n (map (moved t) xs) ys k) (moved t x) = lda_predict n (lda_fit n xs ys k) x /\
  qda_predict n (qda_fit n (map (moved t) xs) ys k) (moved t x) = qda_predict n (qda_fit n xs ys k) x /\
  option_map (fun m => nb_predict n m (moved t x)) (nb_fit n (map (moved t) xs) ys k)
  = option_map (fun m => nb_predict n m x) (nb_fit n xs ys k).
Proof.
  intros n k t xs ys x.
  assert (moved t = rescaled (fun _ => 1) t) as ->.
  { apply functional_extensionality. intros y.
    apply functional_extensionality. intros i. unfold moved, rescaled. ring. }
  assert (forall i, (i < n)%nat -> (fun _ : nat => 1) i <> 0) as Hd by (intros; lra).
  split; [|split].
  - destruct (lda_fit_spec n xs ys k) as (L1 & _ & _ & Cv).
    destruct (lda_fit_spec n (map (rescaled (fun _ => 1) t) xs) ys k) as (L1' & _ & _ & Cv'). cbv zeta in *.
    assert (lda_cov (lda_fit n (map (rescaled (fun _ => 1) t) xs) ys k) = lda_cov (lda_fit n xs ys k)) as Ec.
    { apply mat_ext2. intros a b. destruct (lt_dec a n) as [Ha|Ha]; [destruct (lt_dec b n) as [Hb|Hb]|].
      - rewrite Cv, Cv' by auto. apply sum_ext. intros c Hc. rewrite of_class_rescaled, !map_length, class_covariance_rescaled. ring.
      - rewrite !lda_cov_out by tauto. reflexivity.
      - rewrite !lda_cov_out by tauto. reflexivity. }
    destruct (inverse_gauss_jordan Rops n (lda_cov (lda_fit n xs ys k))) as [s|] eqn:Hi.
    + apply (C122_lda_units_partial n k (fun _ => 1) t xs ys x s s Hd); [exact Hi|rewrite Ec; exact Hi].
    + unfold lda_predict. rewrite L1, L1'. apply (argmax_shift k 0). intros c Hc. unfold lda_score. rewrite Ec, Hi. exact Logic.I.
  - apply C122_qda_units_partial; [exact Hd|]. intros c Hc.
    destruct (qda_fit_spec n xs ys k) as (_ & _ & _ & E).
    destruct (qda_fit_spec n (map (rescaled (fun _ => 1) t) xs) ys k) as (_ & _ & _ & E'). cbv zeta in *.
    replace (nth c (qda_covs (qda_fit n (map (rescaled (fun _ => 1) t) xs) ys k)) (fun _ _ => 0))
      with (nth c (qda_covs (qda_fit n xs ys k)) (fun _ _ => 0)); [tauto|].
    destruct (E c Hc) as (_ & _ & Ec). destruct (E' c Hc) as (_ & _ & Ec').
    apply mat_ext2. intros a b. destruct (lt_dec a n) as [Ha|Ha]; [destruct (lt_dec b n) as [Hb|Hb]|].
    + rewrite Ec, Ec' by auto. rewrite of_class_rescaled, class_covariance_rescaled. ring.
    + rewrite !qda_covs_out by tauto. reflexivity.
    + rewrite !qda_covs_out by tauto. reflexivity.
  - apply nb_same; [exact Hd|]. intros c i Hc Hi Ne. cbv zeta. rewrite !Rmult_1_l. reflexivity.
Qed.

(** ** Small units change the answer *)
Lemma inverse_1x1 a : inverse_gauss_jordan Rops 1 a = None <-> Rabs (a 0%nat 0%nat) <= / 1000000000000.
Proof.
  unfold inverse_gauss_jordan, gj_step, find_pivot, forM, for_. cbn -[Rltb Rleb Rabs eps12].
  assert (eps12 Rops = / 1000000000000) as -> by (unfold eps12; cbn [lit Rops]; unfold Q2R; cbn; lra).
  unfold Rleb. destruct (Rle_dec _ _); split; intros; auto; try discriminate; contradiction.
Qed.
Lemma argmax_none k s : (forall c, (c < k)%nat -> s c = None) -> argmax k s = 0%nat.
Proof.
  intros H. rewrite (argmax_shift k 0 s (fun _ => None)) by (intros c Hc; rewrite H by exact Hc; exact I).
  unfold argmax. assert (forall m, for_ 0 m (fun (_ : nat) (st : nat * ext) => st) (0%nat, NegInf) = (0%nat, NegInf)) as E.
  { induction m as [|m IH]; [reflexivity|]. rewrite for_S by lia. exact IH. }
  rewrite E. reflexivity.
Qed.

(** samples at 0 and 2 labelled 0, samples at 10 and 12 labelled 1 *)
Definition two_groups : list (nat -> R) := [fun _ => 0; fun _ => 2; fun _ => 10; fun _ => 12].
Definition two_labels : list nat := [0; 0; 1; 1]%nat.
Definition tiny : nat -> R := fun _ => / 10 ^ 7.

Ltac evaluate_groups := unfold two_groups, two_labels, rescaled, tiny; cbn [combine map];
  unfold of_class; cbn [filter snd fst Nat.eqb map length];
  unfold class_covariance; cbn [length Nat.ltb Nat.leb];
  unfold sample_cov, average, column; cbn [map combine total length fst snd INR].

Lemma two_groups_cov e : forall c, (c < 2)%nat ->
  class_covariance 0 0 (of_class c (combine (map (rescaled (fun _ => e) (fun _ => 0)) two_groups) two_labels)) = 2 * e * e.
Proof. intros [|[|c]] H; try lia; evaluate_groups; field. Qed.
Lemma two_groups_count e : forall c, (c < 2)%nat ->
  length (of_class c (combine (map (rescaled (fun _ => e) (fun _ => 0)) two_groups) two_labels)) = 2%nat.
Proof. intros [|[|c]] H; try lia; reflexivity. Qed.
Lemma two_groups_id : map (rescaled (fun _ => 1) (fun _ => 0)) two_groups = two_groups.
Proof. unfold two_groups. cbn [map]. unfold rescaled. rewrite Rmult_1_l, !Rmult_1_l, Rplus_0_r. repeat f_equal; apply functional_extensionality; intros; ring. Qed.
Lemma two_groups_valid : labels_valid 2 (combine two_groups two_labels).
Proof. intros x c [H|[H|[H|[H|[]]]]]; injection H as _ <-; lia. Qed.
Lemma inverse_1x1_value a s : inverse_gauss_jordan Rops 1 a = Some s -> s 0%nat 0%nat = / a 0%nat 0%nat.
Proof.
  intros H. destruct (C32_inverse 1 a s H) as [L _]. specialize (L 0%nat 0%nat ltac:(lia) ltac:(lia)).
  unfold Mprod, delta in L. cbn in L. assert (a 0%nat 0%nat * s 0%nat 0%nat = 1) as Q by lra.
  assert (a 0%nat 0%nat <> 0) by (intros Z; rewrite Z in Q; lra). apply (Rmult_eq_reg_l (a 0%nat 0%nat)); [|assumption].
  rewrite Q. field. assumption.
Qed.

Theorem C122_lda_small_units_refuted : exists xs ys x d t,
  (forall i, 0 < d i) /\ labels_valid 2 (combine xs ys) /\
  lda_predict 1 (lda_fit 1 (map (rescaled d t) xs) ys 2) (rescaled d t x) <> lda_predict 1 (lda_fit 1 xs ys 2) x.
Proof.
  exists two_groups, two_labels, (fun _ => 11), tiny, (fun _ => 0).
  split; [intros; unfold tiny; apply Rinv_0_lt_compat; lra|]. split; [apply two_groups_valid|].
  set (m := lda_fit 1 two_groups two_labels 2).
  assert (lda_predict 1 m (fun _ => 11) = 1%nat) as ->.
  { destruct (lda_fit_spec 1 two_groups two_labels 2) as (L1 & _ & E & Cv). cbv zeta in *. fold m in L1, E, Cv.
    assert (lda_cov m 0%nat 0%nat = 2) as C2.
    { rewrite Cv by lia. cbn [sum]. rewrite <- two_groups_id, !two_groups_cov, !two_groups_count by lia. cbn. lra. }
    destruct (inverse_gauss_jordan Rops 1 (lda_cov m)) as [s|] eqn:Hi.
    2: { apply inverse_1x1 in Hi. rewrite C2, Rabs_pos_val in Hi; lra. }
    destruct (C56_lda_predict_best 1 two_groups two_labels 2 (fun _ => 11) s) as (B1 & _ & B2); try discriminate; auto using two_groups_valid.
    fold m in B1, B2. destruct (lda_predict 1 m (fun _ => 11)) as [|[|b]]; [exfalso|reflexivity|lia].
    specialize (B2 1%nat ltac:(lia)). unfold lda_weight, quad in B2. cbn [sum] in B2.
    rewrite (inverse_1x1_value _ _ Hi), C2 in B2.
    destruct (E 0%nat ltac:(lia)) as [P0 M0]. destruct (E 1%nat ltac:(lia)) as [P1 M1].
    rewrite P0, P1, (M0 0%nat), (M1 0%nat) in B2; try lia; try (intros Q; apply (f_equal (@length _)) in Q; discriminate).
    unfold of_class, column, average, two_groups, two_labels in B2. cbn in B2.
    match type of B2 with _ * exp ?u <= _ * exp ?v => assert (u = 0) as Eu by field; assert (v = -25) as Ev by field; rewrite Eu, Ev in B2 end.
    assert (exp (-25) < exp 0) by (apply exp_increasing; lra). lra. }
  enough (lda_predict 1 (lda_fit 1 (map (rescaled tiny (fun _ => 0)) two_groups) two_labels 2) (rescaled tiny (fun _ => 0) (fun _ => 11)) = 0%nat) as ->
    by discriminate.
  destruct (lda_fit_spec 1 (map (rescaled tiny (fun _ => 0)) two_groups) two_labels 2) as (L1 & _ & _ & Cv). cbv zeta in *.
  unfold lda_predict. apply argmax_none. intros c Hc. unfold lda_score.
  rewrite (proj2 (inverse_1x1 _)); [reflexivity|]. rewrite Cv by lia. cbn [sum].
  unfold tiny. rewrite !two_groups_cov, !two_groups_count by lia. cbn [length two_groups map]. rewrite Rabs_pos_val; cbn; lra.
Qed.

Theorem C122_qda_small_units_refuted : exists xs ys x d t,
  (forall i, 0 < d i) /\ labels_valid 2 (combine xs ys) /\
  qda_predict 1 (qda_fit 1 (map (rescaled d t) xs) ys 2) (rescaled d t x) <> qda_predict 1 (qda_fit 1 xs ys 2) x.
Proof.
  exists two_groups, two_labels, (fun _ => 11), tiny, (fun _ => 0).
  split; [intros; unfold tiny; apply Rinv_0_lt_compat; lra|]. split; [apply two_groups_valid|].
  set (m := qda_fit 1 two_groups two_labels 2).
  assert (qda_predict 1 m (fun _ => 11) = 1%nat) as ->.
  { destruct (qda_fit_spec 1 two_groups two_labels 2) as (L1 & _ & _ & E). cbv zeta in *. fold m in L1, E.
    assert (forall c, (c < 2)%nat -> nth c (qda_covs m) (fun _ _ => 0) 0%nat 0%nat = 2) as C2.
    { intros c Hc. destruct (E c Hc) as (_ & _ & ->); try lia. rewrite <- two_groups_id, two_groups_cov by lia. ring. }
    assert (forall c, (c < 2)%nat -> exists s, inverse_gauss_jordan Rops 1 (nth c (qda_covs m) (fun _ _ => 0)) = Some s) as Inv.
    { intros c Hc. destruct (inverse_gauss_jordan Rops 1 _) as [s|] eqn:Hi; [eauto|].
      apply inverse_1x1 in Hi. rewrite C2, Rabs_pos_val in Hi; auto; lra. }
    destruct (Inv 1%nat ltac:(lia)) as [s Hs].
    destruct (E 0%nat ltac:(lia)) as (P0 & M0 & _). destruct (E 1%nat ltac:(lia)) as (P1 & M1 & _).
    destruct (C56_qda_predict_best 1 two_groups two_labels 2 (fun _ => 11)) with (c := 1%nat) (cinv := s) as (b & B1 & B2 & _ & B3);
      try discriminate; auto using two_groups_valid.
    { fold m. rewrite P1. unfold of_class. cbn. lra. }
    fold m in B1, B2, B3. destruct (qda_predict 1 m (fun _ => 11)) as [|[|q]]; [exfalso|reflexivity|lia].
    unfold qda_weight, quad in B3. cbn [sum det] in B3.
    rewrite (inverse_1x1_value _ _ Hs), (inverse_1x1_value _ _ B2), !C2 in B3 by lia.
    rewrite P0, P1, (M0 0%nat), (M1 0%nat) in B3; try lia; try (intros Q; apply (f_equal (@length _)) in Q; discriminate).
    unfold of_class, column, average, two_groups, two_labels in B3. cbn in B3.
    match type of B3 with _ * (/ sqrt ?w * exp ?u) <= _ * (_ * exp ?v) =>
      assert (w = 2) as Ew by ring; assert (u = 0) as Eu by field; assert (v = -25) as Ev by field; rewrite Ew, Eu, Ev in B3 end.
    assert (exp (-25) < exp 0) by (apply exp_increasing; lra).
    assert (0 < / sqrt 2) by (apply Rinv_0_lt_compat, sqrt_lt_R0; lra). nra. }
  enough (qda_predict 1 (qda_fit 1 (map (rescaled tiny (fun _ => 0)) two_groups) two_labels 2) (rescaled tiny (fun _ => 0) (fun _ => 11)) = 0%nat) as ->
    by discriminate.
  destruct (qda_fit_spec 1 (map (rescaled tiny (fun _ => 0)) two_groups) two_labels 2) as (L1 & _ & _ & E). cbv zeta in *.
  unfold qda_predict. apply argmax_none. intros c Hc. rewrite L1 in Hc. unfold qda_score.
  rewrite (proj2 (inverse_1x1 _)); [reflexivity|]. destruct (E c Hc) as (_ & _ & ->); try lia.
  unfold tiny. rewrite two_groups_cov by lia. rewrite Rabs_pos_val; cbn; lra.
Qed.

(** samples at -4 and 4 labelled 0, samples at 0 and 2 labelled 1 *)
Definition wide_narrow : list (nat -> R) := [fun _ => -4; fun _ => 4; fun _ => 0; fun _ => 2].

Theorem C122_naive_bayes_small_units_refuted : exists xs ys x d t m m',
  (forall i, 0 < d i) /\ nb_fit 1 xs ys 2 = Some m /\ nb_fit 1 (map (rescaled d t) xs) ys 2 = Some m' /\
  nb_predict 1 m' (rescaled d t x) <> nb_predict 1 m x.
Proof.
  assert (forall l, length l = 4%nat -> labels_valid 2 (combine l two_labels)) as V.
  { intros [|a [|b [|c [|e [|]]]]] Hl; try discriminate. intros x q [H|[H|[H|[H|[]]]]]; injection H as _ <-; lia. }
  destruct (C56_naive_bayes_fit 1 wide_narrow two_labels 2) as [[_ F] G].
  destruct (C56_naive_bayes_fit 1 (map (rescaled tiny (fun _ => 0)) wide_narrow) two_labels 2) as [[_ F'] G'].
  destruct (F (V wide_narrow eq_refl)) as [m Hm]. destruct (F' (V (map (rescaled tiny (fun _ => 0)) wide_narrow) eq_refl)) as [m' Hm'].
  exists wide_narrow, two_labels, (fun _ => 9), tiny, (fun _ => 0), m, m'.
  split; [intros; unfold tiny; apply Rinv_0_lt_compat; lra|]. split; [exact Hm|]. split; [exact Hm'|].
  specialize (G m Hm). specialize (G' m' Hm'). cbv zeta in G, G'.
  destruct G as (_ & _ & Pr & St). destruct G' as (_ & _ & Pr' & St').
  destruct (Pr ltac:(discriminate)) as [P _]. destruct (Pr' ltac:(discriminate)) as [P' _].
  destruct (C56_naive_bayes_predict 1 _ _ 2 m (fun _ => 9) Hm ltac:(discriminate)) as (B1 & _ & B2).
  destruct (C56_naive_bayes_predict 1 _ _ 2 m' (rescaled tiny (fun _ => 0) (fun _ => 9)) Hm' ltac:(discriminate)) as (B1' & _ & B2').
  cbv zeta in *.
  assert (forall c, (c < 2)%nat -> nb_prior m c = / 2 /\ nb_prior m' c = / 2) as Pv.
  { intros c Hc. destruct (P c) as [_ ->]. destruct (P' c) as [_ ->]. destruct c as [|[|c]]; [| |lia]; unfold of_class; cbn; lra. }
  assert (nb_mean m 0%nat 0%nat = 0 /\ nb_var m 0%nat 0%nat = 16 /\ nb_mean m 1%nat 0%nat = 1 /\ nb_var m 1%nat 0%nat = 1) as (M0 & V0 & M1 & V1).
  { destruct (St 0%nat 0%nat) as (-> & -> & _); try lia; [intros Q; apply (f_equal (@length _)) in Q; discriminate|].
    destruct (St 1%nat 0%nat) as (-> & -> & _); try lia; [intros Q; apply (f_equal (@length _)) in Q; discriminate|].
    unfold of_class, column, variance, average, wide_narrow, two_labels. cbn. repeat split; field. }
  assert (nb_mean m' 0%nat 0%nat = 0 /\ nb_var m' 0%nat 0%nat = 16 * (/ 10 ^ 7) * (/ 10 ^ 7) /\ nb_mean m' 1%nat 0%nat = / 10 ^ 7
          /\ nb_var m' 1%nat 0%nat = (/ 10 ^ 7) * (/ 10 ^ 7)) as (M0' & V0' & M1' & V1').
  { destruct (St' 0%nat 0%nat) as (-> & -> & _); try lia; [intros Q; apply (f_equal (@length _)) in Q; discriminate|].
    destruct (St' 1%nat 0%nat) as (-> & -> & _); try lia; [intros Q; apply (f_equal (@length _)) in Q; discriminate|].
    unfold tiny. set (e := / 10 ^ 7). clearbody e.
    unfold of_class, column, variance, average, wide_narrow, two_labels, rescaled. cbn. repeat split; field. }
  assert (nb_predict 1 m (fun _ => 9) = 0%nat) as ->.
  { destruct (nb_predict 1 m (fun _ => 9)) as [|[|b]]; [reflexivity|exfalso|lia].
    specialize (B2 0%nat ltac:(lia)). unfold posterior in B2. cbn [seq map product] in B2.
    destruct (Pv 0%nat ltac:(lia)) as [E0 _]. destruct (Pv 1%nat ltac:(lia)) as [E1 _]. rewrite E0, E1 in B2.
    rewrite M0, M1, V0, V1, !density_ln in B2 by apply floor_pos. rewrite !Rmax_left in B2 by lra.
    match type of B2 with _ * (exp ?u * 1) <= _ * (exp ?v * 1) => assert (v < u) as L; [|pose proof (exp_increasing _ _ L); lra] end.
    replace (2 * PI * 16) with (16 * (2 * PI * 1)) by ring. pose proof PI_RGT_0. rewrite (ln_mult 16) by lra.
    pose proof (exp_ineq1 (ln 16)) as Q. assert (0 < ln 16) as Lp by (rewrite <- ln_1; apply ln_increasing; lra).
    rewrite exp_ln in Q by lra. specialize (Q ltac:(apply Rgt_not_eq; lra)). lra. }
  assert (nb_predict 1 m' (rescaled tiny (fun _ => 0) (fun _ => 9)) = 1%nat) as ->; [|discriminate].
  destruct (nb_predict 1 m' _) as [|[|b]]; [exfalso|reflexivity|lia].
  specialize (B2' 1%nat ltac:(lia)). unfold posterior in B2'. cbn [seq map product] in B2'.
  destruct (Pv 0%nat ltac:(lia)) as [_ E0]. destruct (Pv 1%nat ltac:(lia)) as [_ E1]. rewrite E0, E1 in B2'.
  rewrite M0', M1', V0', V1', !density_ln in B2' by apply floor_pos. rewrite !Rmax_right in B2' by lra.
  match type of B2' with _ * (exp ?u * 1) <= _ * (exp ?v * 1) => assert (v < u) as L; [|pose proof (exp_increasing _ _ L); lra] end.
  unfold rescaled, tiny. lra.
Qed.

(** The unit-change theorems apply: metres to kilometres on the two groups. *)
Example C122_nontrivial :
  let km := rescaled (fun _ => / 1000) (fun _ => 5) in
  let xs := map (fun v : R => fun _ : nat => v) [0; 2000; 10000; 12000] in
  (forall c i, (c < 2)%nat -> (i < 1)%nat -> of_class c (combine xs two_labels) <> [] ->
     / 10 ^ 12 <= variance (column i (of_class c (combine xs two_labels))) /\
     / 10 ^ 12 <= variance (column i (of_class c (combine (map km xs) two_labels)))) /\
  (exists s, inverse_gauss_jordan Rops 1 (lda_cov (lda_fit 1 (map km xs) two_labels 2)) = Some s) /\
  exists s, inverse_gauss_jordan Rops 1 (lda_cov (lda_fit 1 xs two_labels 2)) = Some s.
Proof.
  cbv zeta. split; [|split].
  - intros [|[|c]] i Hc Hi _; [| |lia]; unfold of_class, column, variance, average, two_labels, rescaled; cbn; split; lra.
  - destruct (inverse_gauss_jordan Rops 1 _) as [s|] eqn:E; [eauto|exfalso]. apply inverse_1x1 in E.
    destruct (lda_fit_spec 1 (map (rescaled (fun _ => / 1000) (fun _ => 5)) (map (fun v : R => fun _ : nat => v) [0; 2000; 10000; 12000])) two_labels 2) as (_ & _ & _ & Cv).
    cbv zeta in Cv. rewrite Cv in E by lia. cbn [sum] in E. rewrite !of_class_rescaled, !class_covariance_rescaled in E.
    unfold of_class, class_covariance, sample_cov, column, average, two_labels in E. cbn -[Rabs] in E. rewrite Rabs_pos_val in E; lra.
  - destruct (inverse_gauss_jordan Rops 1 _) as [s|] eqn:E; [eauto|exfalso]. apply inverse_1x1 in E.
    destruct (lda_fit_spec 1 (map (fun v : R => fun _ : nat => v) [0; 2000; 10000; 12000]) two_labels 2) as (_ & _ & _ & Cv).
    cbv zeta in Cv. rewrite Cv in E by lia. cbn [sum] in E.
    unfold of_class, class_covariance, sample_cov, column, average, two_labels in E. cbn -[Rabs] in E. rewrite Rabs_pos_val in E; lra.
Qed.
