(** Linear and quadratic discriminant analysis (C56). *)
From Coq Require Import Reals ZArith List Arith Bool Lia Lra.
From Verif Require Import Scalar RSum LinModel LinSpec LinProofs DetSpec SolveModel CholProofs SolveProps DetProps MlModel
  StatsSpec StatsModel StatsProofs MlSpec MlProofs MlGradProps MlClassProps.
Import ListNotations.
Open Scope R_scope.

(** sample covariance of two features within a class; zero for a single sample *)
Definition class_covariance (a b : nat) (members : list (nat -> R)) : R :=
  if (1 <? length members)%nat then sample_cov (column a members) (column b members) else 0.

Lemma class_sum_spec n c data :
  snd (class_sum n c data) = length (of_class c data) /\
  forall i, (i < n)%nat -> fst (class_sum n c data) i = total (column i (of_class c data)).
Proof.
  unfold class_sum.
  assert (forall st : (nat -> R) * nat,
    let r := fold_left (fun st d => if member c d
       then (for_ 0 n (fun i s => upd s i (s i + fst d i)) (fst st), (snd st + 1)%nat) else st) data st in
    snd r = (snd st + length (of_class c data))%nat /\
    forall i, (i < n)%nat -> fst r i = fst st i + total (column i (of_class c data))) as A.
  { induction data as [|d r IH]; intros st; cbv zeta; cbn [fold_left].
    - split; [cbn; lia|]. intros. cbn. ring.
    - rewrite of_class_cons. unfold member at 2 4. destruct (snd d =? c)%nat.
      + destruct (IH (for_ 0 n (fun i s => upd s i (s i + fst d i)) (fst st), (snd st + 1)%nat)) as [H1 H2].
        cbn [fst snd] in H1, H2. split; [rewrite H1; cbn [length]; lia|]. intros i Hi. rewrite H2 by auto.
        rewrite (upd_loop n (fun i a => a + fst d i)), (proj2 (Nat.ltb_lt i n)) by lia. unfold column. cbn [map total]. ring.
      + apply (IH st). }
  destruct (A ((fun _ => 0), 0%nat)) as [H1 H2]. cbn [fst snd] in *. split; [exact H1|]. intros i Hi. rewrite H2 by auto. ring.
Qed.

Lemma outer_loop n (u v : nat -> R) (cov : nat -> nat -> R) i j : (i < n)%nat -> (j < n)%nat ->
  for_ 0 n (fun i cov => for_ 0 n (fun j cov => upd2 cov i j (cov i j + u i * v j)) cov) cov i j = cov i j + u i * v j.
Proof. intros Hi Hj. pose proof (add_outer_in n n u v cov i j Hi Hj) as H. unfold add_outer in H. exact H. Qed.

Lemma sample_cov_members a b (l : list (nat -> R)) : sample_cov (column a l) (column b l) =
  total (map (fun x : nat -> R => (x a - average (column a l)) * (x b - average (column b l))) l) / (INR (length l) - 1).
Proof.
  unfold sample_cov. set (A := average (column a l)). set (B := average (column b l)). unfold column.
  rewrite map_length. f_equal. clearbody A B. induction l as [|x r IH]; [reflexivity|]. cbn. rewrite IH. reflexivity.
Qed.

Lemma class_cov_spec n c data mean a b : (a < n)%nat -> (b < n)%nat ->
  (forall i, (i < n)%nat -> mean i = average (column i (of_class c data))) ->
  of_class c data <> [] ->
  class_cov n c data mean (length (of_class c data)) a b = class_covariance a b (of_class c data).
Proof.
  intros Ha Hb Hm Hne. unfold class_cov. cbv zeta.
  set (body := fun (cov : nat -> nat -> R) (d : (nat -> R) * nat) => _).
  assert (forall cov, fold_left body data cov a b
    = cov a b + total (map (fun x : nat -> R => (x a - mean a) * (x b - mean b)) (of_class c data))) as A.
  { clear Hm Hne. induction data as [|d r IH]; intros cov; cbn [fold_left]; [cbn; ring|].
    rewrite IH. rewrite of_class_cons. unfold body at 1. unfold member. destruct (snd d =? c)%nat; [|reflexivity].
    rewrite (outer_loop n) by auto. rewrite !vfill_in by auto. cbn [map total]. ring. }
  unfold class_covariance. destruct (Nat.ltb_spec 1 (length (of_class c data))) as [H|H].
  - unfold mat_div. rewrite fill_in by auto. cbn [div Rops]. rewrite A, sample_cov_members, Rplus_0_l, !Hm by auto. reflexivity.
  - rewrite A. destruct (of_class c data) as [|x [|y r]] eqn:E; [congruence| |cbn in H; lia].
    rewrite !Hm by auto. unfold average, column. cbn. field.
Qed.

Lemma class_covariance_sym a b l : class_covariance a b l = class_covariance b a l.
Proof.
  unfold class_covariance. destruct (1 <? length l)%nat; [|reflexivity]. rewrite !sample_cov_members. f_equal.
  apply total_map_ext. intros; ring.
Qed.
Lemma class_covariance_psd n l v : 0 <= sum n (fun i => sum n (fun j => v i * class_covariance i j l * v j)).
Proof.
  unfold class_covariance. destruct (Nat.ltb_spec 1 (length l)) as [H|H].
  - rewrite (sum_ext n _ (fun i => sum n (fun j =>
       total (map (fun x : nat -> R => (v i * (x i - average (column i l))) * (v j * (x j - average (column j l)))) l)) / (INR (length l) - 1))).
    + rewrite sum_div. apply Rmult_le_pos.
      * rewrite (sum_ext n _ (fun i => total (map (fun x : nat -> R =>
           sum n (fun j => (v i * (x i - average (column i l))) * (v j * (x j - average (column j l))))) l))).
        2: { intros i Hi. rewrite total_sum. reflexivity. }
        rewrite <- total_sum. apply total_map_pos. intros x.
        rewrite (sum_ext n _ (fun i => (v i * (x i - average (column i l))) * sum n (fun j => v j * (x j - average (column j l))))).
        2: { intros i Hi. rewrite sum_scal. reflexivity. }
        rewrite sum_scal_r. apply Rle_0_sqr.
      * left. apply Rinv_0_lt_compat. apply lt_INR in H. cbn [INR] in H. lra.
    + intros i Hi. rewrite <- sum_div. apply sum_ext. intros j Hj. rewrite sample_cov_members. unfold Rdiv.
      rewrite (total_map_ext l (fun x : nat -> R => v i * (x i - average (column i l)) * (v j * (x j - average (column j l))))
                 (fun x => (v i * v j) * ((x i - average (column i l)) * (x j - average (column j l))))) by (intros; ring).
      rewrite total_map_scal. ring.
  - rewrite sum_0; [lra|]. intros i Hi. apply sum_0. intros; ring.
Qed.

Lemma argmax_lt k s : (0 < k)%nat -> (argmax k s < k)%nat.
Proof.
  intros Hk. unfold argmax. set (body := fun (c : nat) (st : nat * ext) => _).
  pose (P := fun (j : nat) (st : nat * ext) => (fst st < k)%nat).
  assert (P k (for_ 0 k body (0%nat, NegInf))) as H; [|exact H].
  apply for_ind; [lia|exact Hk|]. intros i [b v] Hi H. unfold body. destruct (s i); [|exact H].
  destruct (ext_gtb _ _); [unfold P; cbn; lia|exact H].
Qed.
Lemma positive_term k f : 0 < sum k f -> exists c, (c < k)%nat /\ 0 < f c.
Proof.
  induction k as [|k IH]; cbn [sum]; intros H; [lra|]. destruct (Rlt_dec 0 (f k)) as [|N]; [exists k; split; [lia|assumption]|].
  destruct IH as (c & Hc & P); [lra|]. exists c. split; [lia|exact P].
Qed.

(** ** LDA *)
Lemma lda_fit_spec n xs ys k :
  let data := combine xs ys in
  let m := lda_fit n xs ys k in
  let members c := of_class c data in
  length (lda_means m) = k /\ length (lda_priors m) = k /\
  (forall c, (c < k)%nat -> nth c (lda_priors m) 0 = INR (length (members c)) / INR (length xs) /\
     forall i, (i < n)%nat -> members c <> [] ->
       nth c (lda_means m) (fun _ => 0) i = average (column i (members c))) /\
  (forall a b, (a < n)%nat -> (b < n)%nat ->
     lda_cov m a b = sum k (fun c => INR (length (members c)) / INR (length xs) * class_covariance a b (members c))).
Proof.
  cbv zeta. unfold lda_fit. set (data := combine xs ys). cbv zeta.
  set (body := fun (c : nat) (st : list vec * list R * mat) => _).
  pose (P := fun (j : nat) (st : list vec * list R * mat) =>
    let '(means, priors, pooled) := st in
    length means = j /\ length priors = j /\
    (forall c, (c < j)%nat -> nth c priors 0 = INR (length (of_class c data)) / INR (length xs) /\
       forall i, (i < n)%nat -> of_class c data <> [] ->
         nth c means (fun _ => 0) i = average (column i (of_class c data))) /\
    (forall a b, (a < n)%nat -> (b < n)%nat ->
       pooled a b = sum j (fun c => INR (length (of_class c data)) / INR (length xs) * class_covariance a b (of_class c data)))).
  assert (P k (for_ 0 k body ([], [], fun _ _ => 0))) as H.
  { apply for_ind; [lia| |].
    - split; [reflexivity|]. split; [reflexivity|]. split; [intros; lia|reflexivity].
    - intros c [[means priors] pooled] Hc (L1 & L2 & E & Pl). unfold body.
      destruct (class_sum_spec n c data) as [Cc Cs]. destruct (class_sum n c data) as [sm count]. cbn [fst snd] in *. subst count.
      assert (forall (means' : list vec) (mn : vec) pooled', means' = means ++ [mn] ->
        (forall i, (i < n)%nat -> of_class c data <> [] -> mn i = average (column i (of_class c data))) ->
        (forall a b, (a < n)%nat -> (b < n)%nat -> pooled' a b = pooled a b
            + INR (length (of_class c data)) / INR (length xs) * class_covariance a b (of_class c data)) ->
        P (S c) (means', priors ++ [INR (length (of_class c data)) / INR (length xs)], pooled')) as Fin.
      { intros means' mn pooled' -> Hmn Hpl. split; [rewrite app_length; cbn; lia|]. split; [rewrite app_length; cbn; lia|]. split.
        - intros c' Hc'. destruct (Nat.eq_dec c' c) as [->|Ne].
          + rewrite !app_nth2 by lia. rewrite L1, L2, Nat.sub_diag. cbn [nth]. split; [reflexivity|]. exact Hmn.
          + rewrite !app_nth1 by lia. apply E. lia.
        - intros a b Ha Hb. rewrite Hpl, Pl by auto. reflexivity. }
      destruct (Nat.eqb_spec (length (of_class c data)) 0) as [Z|Z].
      + apply (Fin _ (fun _ => 0)); [reflexivity| |].
        * intros i Hi Ne. apply length_zero_iff_nil in Z. congruence.
        * intros a b Ha Hb. rewrite Z. cbn [INR]. unfold Rdiv. ring.
      + assert (of_class c data <> []) as Ne by (intros Q; rewrite Q in Z; apply Z; reflexivity).
        set (mn := vfill n (fun i => sm i / INR (length (of_class c data))) sm).
        assert (forall i, (i < n)%nat -> mn i = average (column i (of_class c data))) as Hmn.
        { intros i Hi. unfold mn. rewrite vfill_in, Cs by auto. unfold average, column. rewrite map_length. reflexivity. }
        apply (Fin _ mn); [reflexivity| |].
        * intros i Hi _. apply Hmn, Hi.
        * intros a b Ha Hb. unfold mat_add. rewrite fill_in by auto. unfold mat_scale. rewrite fill_in by auto.
          cbn [add mul Rops]. rewrite class_cov_spec by auto. ring. }
  destruct (for_ 0 k body ([], [], fun _ _ => 0)) as [[means priors] pooled]. cbn [lda_means lda_priors lda_cov]. exact H.
Qed.

(** Fitting: priors are a probability distribution, means are class averages, the pooled
    covariance is the prior-weighted sum of the class covariances and is symmetric and positive
    semidefinite. *)
Theorem C56_lda_fit : forall n xs ys k,
  xs <> [] -> length xs = length ys -> labels_valid k (combine xs ys) ->
  let data := combine xs ys in
  let m := lda_fit n xs ys k in
  let members c := of_class c data in
  let prior c := nth c (lda_priors m) 0 in
  length (lda_means m) = k /\ length (lda_priors m) = k /\
  (forall c, (c < k)%nat -> 0 <= prior c /\ prior c = INR (length (members c)) / INR (length data)) /\
  sum k prior = 1 /\
  (forall c i, (c < k)%nat -> (i < n)%nat -> members c <> [] ->
     nth c (lda_means m) (fun _ => 0) i = average (column i (members c))) /\
  (forall a b, (a < n)%nat -> (b < n)%nat ->
     lda_cov m a b = sum k (fun c => prior c * class_covariance a b (members c)) /\ lda_cov m a b = lda_cov m b a) /\
  forall v, 0 <= quad n (lda_cov m) v.
Proof.
  intros n xs ys k Hx Hl V. cbv zeta. destruct (lda_fit_spec n xs ys k) as (L1 & L2 & E & Pl). cbv zeta in *.
  set (m := lda_fit n xs ys k) in *. set (data := combine xs ys) in *.
  assert (length data = length xs) as Hd by (unfold data; rewrite combine_length; lia).
  assert (0 < INR (length xs)) as Hp by (apply lt_0_INR; destruct xs; [congruence|cbn; lia]).
  split; [exact L1|]. split; [exact L2|]. split; [|split; [|split; [|split]]].
  - intros c Hc. destruct (E c Hc) as [-> _]. rewrite Hd. split; [|reflexivity].
    apply Rmult_le_pos; [apply pos_INR|left; apply Rinv_0_lt_compat, Hp].
  - rewrite (sum_ext k _ (fun c => INR (length (of_class c data)) / INR (length xs))) by (intros c Hc; apply E; auto).
    rewrite sum_div, class_partition, Hd by auto. field. lra.
  - intros c i Hc Hi Hm. apply E; auto.
  - intros a b Ha Hb. rewrite !Pl by auto. split; apply sum_ext; intros c Hc.
    + destruct (E c Hc) as [-> _]. reflexivity.
    + rewrite class_covariance_sym. reflexivity.
  - intros v. unfold quad.
    rewrite (sum_ext n _ (fun i => sum k (fun c => INR (length (of_class c data)) / INR (length xs)
              * sum n (fun j => v i * class_covariance i j (of_class c data) * v j)))).
    + rewrite sum_swap. apply sum_pos. intros c Hc. rewrite sum_scal. apply Rmult_le_pos.
      * apply Rmult_le_pos; [apply pos_INR|left; apply Rinv_0_lt_compat, Hp].
      * apply class_covariance_psd.
    + intros i Hi. rewrite <- sum_scal.
      rewrite (sum_ext n _ (fun j => sum k (fun c => INR (length (of_class c data)) / INR (length xs)
              * (v i * class_covariance i j (of_class c data) * v j)))).
      * rewrite sum_swap. apply sum_ext. intros c Hc. rewrite sum_scal. reflexivity.
      * intros j Hj. rewrite Pl by auto.
        transitivity ((v i * v j) * sum k (fun c => INR (length (of_class c data)) / INR (length xs) * class_covariance i j (of_class c data)));
          [ring|]. rewrite <- sum_scal. apply sum_ext. intros. ring.
Qed.

(** prior times the Gaussian kernel with the shared covariance *)
Definition lda_weight (n : nat) (m : lda) (sinv : nat -> nat -> R) (x : nat -> R) (c : nat) : R :=
  nth c (lda_priors m) 0 * exp (- / 2 * quad n sinv (fun i => x i - nth c (lda_means m) (fun _ => 0) i)).

Lemma mv_R n a v i : (i < n)%nat -> mul_vector_unrolled Rops n n a v i = sum n (fun j => a i j * v j).
Proof. intros Hi. rewrite (mul_vector_spec Rops n n a v i Hi). apply left_sum_R. Qed.

Lemma exp_le_mono a b : a <= b -> exp a <= exp b.
Proof. intros [H| ->]; [left; apply exp_increasing, H|lra]. Qed.

(** a shifted score: maximising score + a class-independent term is maximising the weight *)
Lemma weight_le p q s t z : 0 < p -> 0 < q -> s + ln p <= t + ln q -> p * exp (s + z) <= q * exp (t + z).
Proof.
  intros Hp Hq H. rewrite <- (exp_ln p), <- (exp_ln q), <- !exp_plus by assumption. apply exp_le_mono. lra.
Qed.

(** Prediction is always a valid class; when the pooled covariance inverts it has the largest
    prior-weighted Gaussian kernel. *)
Theorem C56_lda_predict_valid : forall n xs ys k x, (0 < k)%nat -> (lda_predict n (lda_fit n xs ys k) x < k)%nat.
Proof.
  intros n xs ys k x Hk. unfold lda_predict. destruct (lda_fit_spec n xs ys k) as (L1 & _). cbv zeta in L1. rewrite L1.
  apply argmax_lt, Hk.
Qed.

Theorem C56_lda_predict_best : forall n xs ys k x sinv,
  xs <> [] -> length xs = length ys -> labels_valid k (combine xs ys) ->
  let m := lda_fit n xs ys k in
  inverse_gauss_jordan Rops n (lda_cov m) = Some sinv ->
  let b := lda_predict n m x in
  (b < k)%nat /\ 0 < nth b (lda_priors m) 0 /\
  forall c, (c < k)%nat -> lda_weight n m sinv x c <= lda_weight n m sinv x b.
Proof.
  intros n xs ys k x sinv Hx Hl V m Hi b.
  destruct (C56_lda_fit n xs ys k Hx Hl V) as (L1 & L2 & Pr & P1 & _ & Cv & _). cbv zeta in *. fold m in L1, L2, Pr, P1, Cv.
  pose proof (C32_inverse n _ _ Hi) as Inv.
  assert (symmetric n sinv) as Sy.
  { apply (inverse_symmetric n (lda_cov m)); [|exact Inv]. intros i j Hii Hjj. apply Cv; auto. }
  assert (0 < k)%nat as Hk by (destruct k; [cbn in P1; lra|lia]).
  set (mu := fun c => nth c (lda_means m) (fun _ => 0)).
  set (L := fun c => sum n (fun i => x i * sum n (fun j => sinv i j * mu c j))
                     - / 2 * sum n (fun i => mu c i * sum n (fun j => sinv i j * mu c j))).
  assert (forall c, lda_score n m x c = Some (ext_add (Fin (L c)) (ext_ln (nth c (lda_priors m) 0)))) as Sc.
  { intros c. unfold lda_score. rewrite Hi. cbv zeta. fold (mu c). do 3 f_equal.
    rewrite (for_sum n (fun i => x i * _)), (for_sum n (fun i => mu c i * _)), !Rplus_0_l. unfold L.
    f_equal; [apply sum_ext; intros i Hii; rewrite mv_R by auto; reflexivity|].
    f_equal. apply sum_ext; intros i Hii; rewrite mv_R by auto; reflexivity. }
  assert (forall c, 0 < nth c (lda_priors m) 0 -> lda_score n m x c = Some (Fin (L c + ln (nth c (lda_priors m) 0)))) as ScP.
  { intros c Hc. rewrite Sc. unfold ext_ln, Rltb, Reqb. destruct (Rlt_dec _ 0); [lra|]. destruct (Req_EM_T _ 0); [lra|]. reflexivity. }
  assert (forall c, (c < k)%nat -> nth c (lda_priors m) 0 = 0 -> lda_score n m x c = Some NegInf) as ScZ.
  { intros c Hc Hz. rewrite Sc, Hz. unfold ext_ln, Rltb, Reqb. destruct (Rlt_dec 0 0); [lra|]. destruct (Req_EM_T 0 0); [|lra]. reflexivity. }
  assert (forall c, (c < k)%nat -> nth c (lda_priors m) 0 = 0 \/ 0 < nth c (lda_priors m) 0) as Dec.
  { intros c Hc. destruct (Pr c Hc) as [[H|H] _]; [right; exact H|left; symmetry; exact H]. }
  destruct (argmax_spec k (lda_score n m x)) as [B1 B2]; [|exact Hk|].
  { intros c Hc. destruct (Dec c Hc) as [Z|Z]; [rewrite ScZ by auto|rewrite ScP by auto]; discriminate. }
  assert (argmax k (lda_score n m x) = b) as Eb by (unfold b, lda_predict; rewrite L1; reflexivity). rewrite Eb in *.
  assert (exists c, (c < k)%nat /\ 0 < nth c (lda_priors m) 0) as (c0 & H0 & P0).
  { destruct (positive_term k (fun c => nth c (lda_priors m) 0)) as (c & Hc & Hp); [rewrite P1; lra|]. exists c. auto. }
  assert (0 < nth b (lda_priors m) 0) as Hb.
  { destruct (Dec b B1) as [Z|]; [|assumption]. exfalso.
    destruct (B2 c0 _ H0 (ScP c0 P0)) as [Q|(r & Q & _)]; rewrite ScZ in Q by auto; discriminate. }
  split; [exact B1|]. split; [exact Hb|]. intros c Hc. unfold lda_weight. fold (mu c) (mu b).
  destruct (Dec c Hc) as [Z|Z].
  - rewrite Z, Rmult_0_l. apply Rmult_le_pos; [lra|]. left. apply exp_pos.
  - destruct (B2 c _ Hc (ScP c Z)) as [Q|(r & Q & Le)]; rewrite (ScP b Hb) in Q; [discriminate|]. injection Q as <-.
    set (z := - / 2 * sum n (fun i => x i * sum n (fun j => sinv i j * x j))).
    assert (forall c, - / 2 * quad n sinv (fun i => x i - mu c i) = L c + z) as Sq.
    { intros c'. unfold quad, L, z.
      set (S1 := sum n (fun i => x i * sum n (fun j => sinv i j * mu c' j))).
      set (S2 := sum n (fun i => mu c' i * sum n (fun j => sinv i j * mu c' j))).
      set (S3 := sum n (fun i => x i * sum n (fun j => sinv i j * x j))).
      assert (sum n (fun i => mu c' i * sum n (fun j => sinv i j * x j)) = S1) as Sw.
      { unfold S1. rewrite (sum_ext n _ (fun i => sum n (fun j => mu c' i * (sinv i j * x j)))) by (intros; rewrite sum_scal; reflexivity).
        rewrite sum_swap. apply sum_ext. intros j Hj. rewrite <- sum_scal. apply sum_ext. intros i Hii. rewrite (Sy i j) by auto. ring. }
      rewrite (sum_ext n _ (fun i => x i * sum n (fun j => sinv i j * x j) - x i * sum n (fun j => sinv i j * mu c' j)
                 - mu c' i * sum n (fun j => sinv i j * x j) + mu c' i * sum n (fun j => sinv i j * mu c' j))).
      - rewrite sum_plus, !sum_minus. fold S1 S2 S3. rewrite Sw. lra.
      - intros i Hii. rewrite (sum_ext n _ (fun j => sinv i j * x j - sinv i j * mu c' j)) by (intros; ring).
        rewrite sum_minus. ring. }
    rewrite !Sq. apply weight_le; auto.
Qed.

(** ** QDA *)
Lemma qda_fit_spec n xs ys k :
  let data := combine xs ys in
  let m := qda_fit n xs ys k in
  let members c := of_class c data in
  length (qda_means m) = k /\ length (qda_priors m) = k /\ length (qda_covs m) = k /\
  forall c, (c < k)%nat -> nth c (qda_priors m) 0 = INR (length (members c)) / INR (length xs) /\
     (forall i, (i < n)%nat -> members c <> [] ->
       nth c (qda_means m) (fun _ => 0) i = average (column i (members c))) /\
     (forall a b, (a < n)%nat -> (b < n)%nat ->
       nth c (qda_covs m) (fun _ _ => 0) a b = class_covariance a b (members c)).
Proof.
  cbv zeta. unfold qda_fit. set (data := combine xs ys). cbv zeta.
  set (body := fun (c : nat) (st : list vec * list R * list mat) => _).
  pose (P := fun (j : nat) (st : list vec * list R * list mat) =>
    let '(means, priors, covs) := st in
    length means = j /\ length priors = j /\ length covs = j /\
    forall c, (c < j)%nat -> nth c priors 0 = INR (length (of_class c data)) / INR (length xs) /\
     (forall i, (i < n)%nat -> of_class c data <> [] ->
       nth c means (fun _ => 0) i = average (column i (of_class c data))) /\
     (forall a b, (a < n)%nat -> (b < n)%nat ->
       nth c covs (fun _ _ => 0) a b = class_covariance a b (of_class c data))).
  assert (P k (for_ 0 k body ([], [], []))) as H.
  { apply for_ind; [lia| |].
    - do 3 (split; [reflexivity|]). intros; lia.
    - intros c [[means priors] covs] Hc (L1 & L2 & L3 & E). unfold body.
      destruct (class_sum_spec n c data) as [Cc Cs]. destruct (class_sum n c data) as [sm count]. cbn [fst snd] in *. subst count.
      assert (forall (mn : vec) pr (cv : mat), pr = INR (length (of_class c data)) / INR (length xs) ->
        (forall i, (i < n)%nat -> of_class c data <> [] -> mn i = average (column i (of_class c data))) ->
        (forall a b, (a < n)%nat -> (b < n)%nat -> cv a b = class_covariance a b (of_class c data)) ->
        P (S c) (means ++ [mn], priors ++ [pr], covs ++ [cv])) as Fin.
      { intros mn pr cv -> Hmn Hcv. do 3 (split; [rewrite app_length; cbn; lia|]).
        intros c' Hc'. destruct (Nat.eq_dec c' c) as [->|Ne].
        - rewrite !app_nth2 by lia. rewrite L1, L2, L3, Nat.sub_diag. cbn [nth]. split; [reflexivity|]. auto.
        - rewrite !app_nth1 by lia. apply E. lia. }
      destruct (Nat.eqb_spec (length (of_class c data)) 0) as [Z|Z].
      + apply Fin.
        * rewrite Z. cbn [INR]. unfold Rdiv. ring.
        * intros i Hi Ne. apply length_zero_iff_nil in Z. congruence.
        * intros a b Ha Hb. unfold class_covariance. rewrite Z. reflexivity.
      + assert (of_class c data <> []) as Ne by (intros Q; rewrite Q in Z; apply Z; reflexivity).
        set (mn := vfill n (fun i => sm i / INR (length (of_class c data))) sm).
        assert (forall i, (i < n)%nat -> mn i = average (column i (of_class c data))) as Hmn.
        { intros i Hi. unfold mn. rewrite vfill_in, Cs by auto. unfold average, column. rewrite map_length. reflexivity. }
        apply Fin; [reflexivity|auto|]. intros a b Ha Hb. apply class_cov_spec; auto. }
  destruct (for_ 0 k body ([], [], [])) as [[means priors] covs]. cbn [qda_means qda_priors qda_covs]. exact H.
Qed.

Theorem C56_qda_fit : forall n xs ys k,
  xs <> [] -> length xs = length ys -> labels_valid k (combine xs ys) ->
  let data := combine xs ys in
  let m := qda_fit n xs ys k in
  let members c := of_class c data in
  let prior c := nth c (qda_priors m) 0 in
  let cov c := nth c (qda_covs m) (fun _ _ => 0) in
  length (qda_means m) = k /\ length (qda_priors m) = k /\ length (qda_covs m) = k /\
  sum k prior = 1 /\
  forall c, (c < k)%nat ->
    0 <= prior c /\ prior c = INR (length (members c)) / INR (length data) /\
    (forall i, (i < n)%nat -> members c <> [] ->
       nth c (qda_means m) (fun _ => 0) i = average (column i (members c))) /\
    (forall a b, (a < n)%nat -> (b < n)%nat ->
       cov c a b = class_covariance a b (members c) /\ cov c a b = cov c b a) /\
    forall v, 0 <= quad n (cov c) v.
Proof.
  intros n xs ys k Hx Hl V. cbv zeta. destruct (qda_fit_spec n xs ys k) as (L1 & L2 & L3 & E). cbv zeta in *.
  set (m := qda_fit n xs ys k) in *. set (data := combine xs ys) in *.
  assert (length data = length xs) as Hd by (unfold data; rewrite combine_length; lia).
  assert (0 < INR (length xs)) as Hp by (apply lt_0_INR; destruct xs; [congruence|cbn; lia]).
  do 3 (split; [assumption|]). split.
  - rewrite (sum_ext k _ (fun c => INR (length (of_class c data)) / INR (length xs))) by (intros c Hc; apply E; auto).
    rewrite sum_div, class_partition, Hd by auto. field. lra.
  - intros c Hc. destruct (E c Hc) as (-> & Em & Ec). split; [|split; [rewrite Hd; reflexivity|split; [exact Em|split]]].
    + apply Rmult_le_pos; [apply pos_INR|left; apply Rinv_0_lt_compat, Hp].
    + intros a b Ha Hb. rewrite !Ec by auto. split; [reflexivity|apply class_covariance_sym].
    + intros v. unfold quad.
      rewrite (sum_ext n _ (fun i => sum n (fun j => v i * class_covariance i j (of_class c data) * v j))).
      * apply class_covariance_psd.
      * intros i Hi. rewrite <- sum_scal. apply sum_ext. intros j Hj. rewrite Ec by auto. ring.
Qed.

(** prior times the Gaussian density of the class, without the common factor (2 pi)^(-n/2) *)
Definition qda_weight (n : nat) (m : qda) (cinv : nat -> nat -> R) (x : nat -> R) (c : nat) : R :=
  nth c (qda_priors m) 0 * (/ sqrt (det n (nth c (qda_covs m) (fun _ _ => 0)))
    * exp (- / 2 * quad n cinv (fun i => x i - nth c (qda_means m) (fun _ => 0) i))).

Theorem C56_qda_predict_valid : forall n xs ys k x, (0 < k)%nat -> (qda_predict n (qda_fit n xs ys k) x < k)%nat.
Proof.
  intros n xs ys k x Hk. unfold qda_predict. destruct (qda_fit_spec n xs ys k) as (L1 & _). cbv zeta in L1. rewrite L1.
  apply argmax_lt, Hk.
Qed.

(** Among the classes whose covariance inverts (the others are skipped), the predicted one has the
    largest prior-weighted Gaussian density; its determinant is positive and exactly computed. *)
Theorem C56_qda_predict_best : forall n xs ys k x,
  xs <> [] -> length xs = length ys -> labels_valid k (combine xs ys) ->
  let m := qda_fit n xs ys k in
  let inv c := inverse_gauss_jordan Rops n (nth c (qda_covs m) (fun _ _ => 0)) in
  let b := qda_predict n m x in
  forall c cinv, (c < k)%nat -> 0 < nth c (qda_priors m) 0 -> inv c = Some cinv ->
  exists binv, (b < k)%nat /\ inv b = Some binv /\ 0 < nth b (qda_priors m) 0 /\
    qda_weight n m cinv x c <= qda_weight n m binv x b.
Proof.
  intros n xs ys k x Hx Hl V m inv b c cinv Hc Pc Ic.
  destruct (C56_qda_fit n xs ys k Hx Hl V) as (L1 & L2 & L3 & P1 & F). cbv zeta in *. fold m in L1, L2, L3, P1, F.
  set (cov := fun c => nth c (qda_covs m) (fun _ _ => 0)) in *.
  assert (forall c ci, (c < k)%nat -> inv c = Some ci -> 0 < det n (cov c) /\ determinant Rops n (cov c) = det n (cov c)) as Dt.
  { intros c' ci Hc' Hi. destruct (F c' Hc') as (_ & _ & _ & Cv & Ps). split.
    - apply C33_positive_definite_determinant.
      + intros i j Hii Hjj. apply Cv; auto.
      + apply (psd_invertible_posdef n _ ci); [intros i j Hii Hjj; apply Cv; auto|apply C32_inverse, Hi|].
        intros v. specialize (Ps v). unfold quad in Ps. erewrite sum_ext; [exact Ps|]. intros i Hii. cbn beta.
        rewrite <- sum_scal. apply sum_ext. intros. unfold cov. ring.
    - apply C33_nonzero_only_if_invertible. apply C33_inverse_iff_nonzero_determinant. exists ci. exact Hi. }
  set (Q := fun c ci => quad n ci (fun i => x i - nth c (qda_means m) (fun _ => 0) i)).
  assert (forall c ci, (c < k)%nat -> inv c = Some ci -> qda_score n m x c
    = Some (ext_add (Fin (- / 2 * ln (det n (cov c)) + - (/ 2 * Q c ci))) (ext_ln (nth c (qda_priors m) 0)))) as Sc.
  { intros c' ci Hc' Hi. destruct (Dt c' ci Hc' Hi) as [Dp De]. unfold qda_score. unfold inv in Hi. rewrite Hi. cbv zeta.
    fold (cov c'). rewrite De. unfold ext_ln at 1. unfold Rltb at 1, Reqb at 1. destruct (Rlt_dec _ 0); [lra|].
    destruct (Req_EM_T _ 0); [lra|]. cbn [ext_scale]. do 2 f_equal. cbn [ext_add]. do 4 f_equal.
    rewrite (for_sum n (fun i => vfill n (fun k => x k - nth c' (qda_means m) (fun _ => 0) k) (fun _ => 0) i * _)), Rplus_0_l.
    unfold Q, quad. apply sum_ext. intros i Hii. rewrite vfill_in, mv_R by auto. f_equal. apply sum_ext. intros j Hj.
    rewrite vfill_in by auto. reflexivity. }
  assert (forall c, (c < k)%nat -> nth c (qda_priors m) 0 = 0 \/ 0 < nth c (qda_priors m) 0) as Dec.
  { intros c' Hc'. destruct (F c' Hc') as ([H|H] & _); [right; exact H|left; symmetry; exact H]. }
  assert (forall c ci, (c < k)%nat -> inv c = Some ci -> 0 < nth c (qda_priors m) 0 -> qda_score n m x c
    = Some (Fin (- / 2 * ln (det n (cov c)) + - (/ 2 * Q c ci) + ln (nth c (qda_priors m) 0)))) as ScP.
  { intros c' ci Hc' Hi Hp. rewrite (Sc c' ci) by auto. unfold ext_ln, Rltb, Reqb. destruct (Rlt_dec _ 0); [lra|].
    destruct (Req_EM_T _ 0); [lra|]. reflexivity. }
  assert (forall c ci, (c < k)%nat -> inv c = Some ci -> nth c (qda_priors m) 0 = 0 -> qda_score n m x c = Some NegInf) as ScZ.
  { intros c' ci Hc' Hi Hp. rewrite (Sc c' ci), Hp by auto. unfold ext_ln, Rltb, Reqb. destruct (Rlt_dec 0 0); [lra|].
    destruct (Req_EM_T 0 0); [|lra]. reflexivity. }
  assert (forall c, inv c = None -> qda_score n m x c = None) as ScN.
  { intros c' Hn. unfold qda_score. unfold inv in Hn. rewrite Hn. reflexivity. }
  destruct (argmax_spec k (qda_score n m x)) as [B1 B2]; [|lia|].
  { intros c' Hc'. destruct (inv c') as [ci|] eqn:Ei; [|rewrite ScN by auto; discriminate].
    destruct (Dec c' Hc') as [Z|Z]; [rewrite (ScZ c' ci) by auto|rewrite (ScP c' ci) by auto]; discriminate. }
  assert (argmax k (qda_score n m x) = b) as Eb by (unfold b, qda_predict; rewrite L1; reflexivity). rewrite Eb in *.
  destruct (B2 c _ Hc (ScP c cinv Hc Ic Pc)) as [E|(r & E & Le)].
  - exfalso. destruct (inv b) as [ci|] eqn:Ei; [|rewrite ScN in E by auto; discriminate].
    destruct (Dec b B1) as [Z|Z]; [rewrite (ScZ b ci) in E by auto|rewrite (ScP b ci) in E by auto]; discriminate.
  - destruct (inv b) as [ci|] eqn:Ei; [|rewrite ScN in E by auto; discriminate].
    destruct (Dec b B1) as [Z|Z]; [rewrite (ScZ b ci) in E by auto; discriminate|rewrite (ScP b ci) in E by auto].
    injection E as <-. exists ci. split; [exact B1|]. split; [reflexivity|]. split; [exact Z|].
    unfold qda_weight. fold (cov c) (cov b). fold (Q c cinv) (Q b ci).
    destruct (Dt c cinv Hc Ic) as [Dc _]. destruct (Dt b ci B1 Ei) as [Db _].
    assert (forall d q, 0 < d -> / sqrt d * exp (- / 2 * q) = exp (- / 2 * ln d + - (/ 2 * q) + 0)) as Hw.
    { intros d q Hd. replace (- / 2 * ln d + - (/ 2 * q) + 0) with (- ln (sqrt d) + - / 2 * q).
      - rewrite exp_plus, (exp_Ropp (ln _)), exp_ln by (apply sqrt_lt_R0, Hd). reflexivity.
      - assert (ln d = 2 * ln (sqrt d)) as ->; [|lra].
        rewrite <- (sqrt_sqrt d) at 1 by lra. rewrite ln_mult by (apply sqrt_lt_R0, Hd). ring. }
    rewrite !Hw by assumption. apply weight_le; auto.
Qed.

(** Two classes on a line with spread 1 and 2. *)
Example C56_nontrivial :
  let xs := [fun _ => 0; fun _ => 1; fun _ => 10; fun _ => 12] in
  let ys := [0%nat; 0%nat; 1%nat; 1%nat] in
  labels_valid 2 (combine xs ys) /\ length xs = length ys /\
  nth 0 (lda_priors (lda_fit 1 xs ys 2)) 0 = / 2 /\
  exists binv, inverse_gauss_jordan Rops 1 (nth 1 (qda_covs (qda_fit 1 xs ys 2)) (fun _ _ => 0)) = Some binv.
Proof.
  cbv zeta. split; [|split; [reflexivity|split]].
  - intros x c [H|[H|[H|[H|[]]]]]; injection H as _ <-; lia.
  - destruct (lda_fit_spec 1 [fun _ => 0; fun _ => 1; fun _ => 10; fun _ => 12] [0%nat; 0%nat; 1%nat; 1%nat] 2) as (_ & _ & E & _).
    destruct (E 0%nat ltac:(lia)) as [-> _]. cbn. lra.
  - destruct (qda_fit_spec 1 [fun _ => 0; fun _ => 1; fun _ => 10; fun _ => 12] [0%nat; 0%nat; 1%nat; 1%nat] 2) as (_ & _ & _ & E).
    destruct (E 1%nat ltac:(lia)) as (_ & _ & Ec). specialize (Ec 0%nat 0%nat ltac:(lia) ltac:(lia)).
    apply C33_inverse_iff_nonzero_determinant.
    set (a := nth 1 _ _) in *. clearbody a. unfold class_covariance, of_class in Ec. cbn [combine filter snd fst Nat.eqb map length Nat.ltb Nat.leb] in Ec.
    unfold sample_cov, average, column in Ec. cbn [map combine total length fst snd INR] in Ec.
    assert (a 0%nat 0%nat = 2) as E2 by (rewrite Ec; field).
    unfold determinant, forM, det_step, find_pivot, for_. cbn -[Rltb Rleb Rabs eps12 det_eliminate].
    assert (Rleb (Rabs (a 0%nat 0%nat)) (eps12 Rops) = false) as ->.
    { unfold Rleb. destruct (Rle_dec _ _) as [Q|]; [exfalso|reflexivity]. rewrite E2, Rabs_right in Q by lra.
      unfold eps12 in Q. cbn in Q. lra. }
    cbn -[Rltb Rleb Rabs eps12 det_eliminate]. rewrite E2. lra.
Qed.
