(** Predictors and fitted class statistics (C56). *)
From Coq Require Import Reals ZArith List Arith Bool Lia Lra.
From Verif Require Import Scalar RSum LinModel LinSpec LinProofs SolveModel SolveProps MlModel StatsSpec StatsModel StatsProofs
  MlSpec MlProofs MlGradProps.
Import ListNotations.
Open Scope R_scope.

(** ** Logistic regression *)
Theorem C56_logistic_probability : forall n w b x, 0 < predict_probability n w b x < 1.
Proof. intros. apply sigmoid_bounds. Qed.

Theorem C56_logistic_predict : forall n w b x,
  logistic_predict n w b x = if Rlt_dec 0 (affine n w b x) then 1%nat else 0%nat.
Proof.
  intros n w b x. unfold logistic_predict, predict_probability, sigmoid. rewrite score_affine.
  set (s := affine n w b x). pose proof (exp_pos (- s)) as E. unfold Rltb.
  assert (1 / (1 + 1) < 1 / (1 + exp (- s)) <-> 0 < s) as Q.
  { split; intros H.
    - destruct (Rlt_dec 0 s) as [|N]; [assumption|exfalso].
      assert (1 <= exp (- s)) by (rewrite <- exp_0; destruct (Req_dec s 0) as [->|]; [rewrite Ropp_0; lra|left; apply exp_increasing; lra]).
      assert (1 / (1 + exp (- s)) <= 1 / (1 + 1)); [|lra].
      apply Rmult_le_compat_l; [lra|]. apply Rinv_le_contravar; lra.
    - assert (exp (- s) < 1) by (rewrite <- exp_0; apply exp_increasing; lra).
      apply Rmult_lt_compat_l; [lra|]. apply Rinv_lt_contravar; nra. }
  destruct (Rlt_dec _ _); destruct (Rlt_dec _ _); auto; tauto.
Qed.

Lemma some_or_none k (f : nat -> nat) :
  (exists c, (c < k)%nat /\ (0 < f c)%nat) \/ (forall c, (c < k)%nat -> f c = 0%nat).
Proof.
  induction k as [|k [(c & H & P)|IH]]; [right; lia| |].
  - left. exists c. split; [lia|exact P].
  - destruct (f k) eqn:E.
    + right. intros c Hc. destruct (Nat.eq_dec c k) as [->|]; [exact E|apply IH; lia].
    + left. exists k. lia.
Qed.

(** ** Naive Bayes *)
Definition labels_valid (k : nat) (data : list ((nat -> R) * nat)) : Prop :=
  forall x c, In (x, c) data -> (c < k)%nat.

Lemma of_class_cons c d r : of_class c (d :: r) =
  if (snd d =? c)%nat then fst d :: of_class c r else of_class c r.
Proof. unfold of_class. cbn [filter]. destruct (snd d =? c)%nat; reflexivity. Qed.

Lemma nb_count_some n k data : forall st r, fold_left (nb_count_step n k) data (Some st) = Some r ->
  labels_valid k data /\
  (forall c, fst r c = fst st c + length (of_class c data))%nat /\
  (forall c i, (i < n)%nat -> snd r c i = snd st c i + total (column i (of_class c data))).
Proof.
  induction data as [|[x l] d IH]; intros [cnt mean] r H; cbn [fold_left] in H.
  - injection H as <-. split; [intros ? ? []|]. split; intros; cbn; [lia|lra].
  - cbn [nb_count_step] in H. destruct (Nat.ltb_spec l k) as [Hl|Hl].
    + apply IH in H. destruct H as (V & C & M). cbn [fst snd] in C, M. split; [|split].
      * intros y c [Q|Q]; [injection Q as _ <-; exact Hl|exact (V y c Q)].
      * intros c. rewrite C, of_class_cons. cbn [fst snd]. unfold upd. rewrite (Nat.eqb_sym l c).
        destruct (Nat.eqb_spec c l) as [->|]; cbn [length]; lia.
      * intros c i Hi. rewrite (M c i Hi), of_class_cons. cbn [fst snd]. unfold upd at 1. rewrite (Nat.eqb_sym l c).
        destruct (Nat.eqb_spec c l) as [->|]; [|reflexivity].
        rewrite (upd_loop n (fun i a => a + x i)), (proj2 (Nat.ltb_lt i n)) by lia.
        unfold column. cbn [map total]. ring.
    + exfalso. clear IH. induction d; cbn in H; [discriminate|]. apply IHd, H.
Qed.
Lemma nb_count_valid n k data : labels_valid k data -> forall st, exists r,
  fold_left (nb_count_step n k) data (Some st) = Some r.
Proof.
  induction data as [|[x l] d IH]; intros V [cnt mean]; cbn [fold_left]; [eauto|].
  cbn [nb_count_step]. rewrite (proj2 (Nat.ltb_lt l k)) by (apply (V x); left; reflexivity).
  apply IH. intros y c Q. apply (V y c). right. exact Q.
Qed.

Lemma nb_divide_in n k count v c i : (c < k)%nat -> (0 < count c)%nat -> (i < n)%nat ->
  nb_divide n k count v c i = v c i / INR (count c).
Proof.
  intros Hc Hp Hi. unfold nb_divide.
  pose (P := fun (j : nat) (w : nat -> nat -> R) =>
    ((c < j)%nat -> w c i = v c i / INR (count c)) /\ ((j <= c)%nat -> w c = v c)).
  assert (P k (for_ 0 k (fun c v => if (0 <? count c)%nat
      then upd v c (for_ 0 n (fun i m => upd m i (m i / INR (count c))) (v c)) else v) v)) as [A _].
  { apply for_ind; [lia|split; [lia|auto]|]. intros j w Hj [A B]. split; intros H.
    - destruct (Nat.eq_dec c j) as [<-|].
      + rewrite (proj2 (Nat.ltb_lt _ _)) by lia. rewrite upd_same, div_loop by lia. rewrite B by lia. reflexivity.
      + destruct (0 <? count j)%nat; [rewrite upd_other by lia|]; apply A; lia.
    - destruct (0 <? count j)%nat; [rewrite upd_other by lia|]; apply B; lia. }
  apply A. lia.
Qed.

Lemma nb_var_sum n mean data : forall v c i, (i < n)%nat ->
  fold_left (nb_var_step n mean) data v c i
  = v c i + total (map (fun x : nat -> R => (x i - mean c i) * (x i - mean c i)) (of_class c data)).
Proof.
  induction data as [|[x l] d IH]; intros v c i Hi; cbn [fold_left]; [cbn; ring|].
  rewrite IH by lia. rewrite of_class_cons. cbn [nb_var_step fst snd]. unfold upd at 1. rewrite (Nat.eqb_sym l c).
  destruct (Nat.eqb_spec c l) as [->|]; [|reflexivity]. cbn [map total].
  rewrite (upd_loop n (fun i a => a + (x i - mean l i) * (x i - mean l i))), (proj2 (Nat.ltb_lt i n)) by lia. ring.
Qed.

Lemma class_partition k data : labels_valid k data ->
  sum k (fun c => INR (length (of_class c data))) = INR (length data).
Proof.
  induction data as [|[x l] d IH]; intros V.
  - apply sum_0. reflexivity.
  - assert (labels_valid k d) as V' by (intros y c Q; apply (V y c); right; exact Q).
    specialize (IH V'). pose proof (V x l (or_introl eq_refl)) as Hl.
    rewrite (sum_ext k _ (fun c => INR (length (of_class c d)) + (if (c =? l)%nat then 1 else 0))).
    + rewrite sum_plus, IH, (sum_one k l); auto.
      * rewrite Nat.eqb_refl. cbn [length]. rewrite S_INR. reflexivity.
      * intros i Hi Ne. rewrite (proj2 (Nat.eqb_neq i l) Ne). reflexivity.
    + intros c Hc. rewrite of_class_cons. cbn [fst snd]. rewrite (Nat.eqb_sym l c).
      destruct (Nat.eqb_spec c l); cbn [length]; [rewrite S_INR; ring|ring].
Qed.
Lemma sum_total_seq k f : sum k f = total (map f (seq 0 k)).
Proof.
  induction k as [|k IH]; [reflexivity|]. rewrite seq_S, map_app. cbn [sum map plus].
  rewrite IH. generalize (map f (seq 0 k)). induction l; cbn [app total]; lra.
Qed.

Lemma variance_map {A} (f : A -> R) l : variance (map f l)
  = total (map (fun x => (f x - average (map f l)) * (f x - average (map f l))) l) / INR (length l).
Proof.
  unfold variance. set (a := average (map f l)). unfold average. rewrite !map_length, map_map. f_equal.
  apply total_map_ext. intros. ring.
Qed.

(** What fitting returns: every label valid is exactly when it does not panic, and then counts,
    priors, means and variances are the textbook ones. *)
Theorem C56_naive_bayes_fit : forall n xs ys k,
  ((exists m, nb_fit n xs ys k = Some m) <-> labels_valid k (combine xs ys)) /\
  forall m, nb_fit n xs ys k = Some m ->
  let data := combine xs ys in
  let members c := of_class c data in
  (forall c, nb_count m c = length (members c)) /\
  sum k (fun c => INR (nb_count m c)) = INR (length data) /\
  (data <> [] ->
     (forall c, 0 <= nb_prior m c /\ nb_prior m c = INR (length (members c)) / INR (length data)) /\
     sum k (nb_prior m) = 1) /\
  forall c i, (c < k)%nat -> members c <> [] -> (i < n)%nat ->
     nb_mean m c i = average (column i (members c)) /\
     nb_var m c i = variance (column i (members c)) /\
     0 <= nb_var m c i.
Proof.
  intros n xs ys k. unfold nb_fit. split.
  - split.
    + intros [m H]. destruct (fold_left _ _ _) as [[cnt sums]|] eqn:E; [|discriminate].
      apply nb_count_some in E. tauto.
    + intros V. destruct (nb_count_valid n k _ V ((fun _ => 0%nat), (fun _ _ => 0))) as [[cnt sums] ->]. eauto.
  - intros m H. cbv zeta. destruct (fold_left _ _ _) as [[cnt sums]|] eqn:E; [|discriminate].
    injection H as <-. cbn [nb_count nb_prior nb_mean nb_var].
    apply nb_count_some in E. cbn [fst snd] in E. destruct E as (V & C & M).
    set (data := combine xs ys) in *.
    assert (sum k (fun c => INR (cnt c)) = INR (length data)) as T.
    { rewrite <- (class_partition k data V). apply sum_ext. intros c Hc. rewrite C. reflexivity. }
    assert (INR (fold_left Nat.add (map cnt (seq 0 k)) 0%nat) = INR (length data)) as T'.
    { rewrite INR_fold_add, map_map, <- sum_total_seq. exact T. }
    split; [intros; rewrite C; lia|]. split; [exact T|]. rewrite T'. split.
    + intros Hd. assert (0 < INR (length data)) as Hp by (apply lt_0_INR; destruct data; [congruence|cbn; lia]).
      split.
      * intros c. split; [|rewrite C; reflexivity]. apply Rmult_le_pos; [apply pos_INR|]. left. apply Rinv_0_lt_compat, Hp.
      * rewrite sum_div, T. field. lra.
    + intros c i Hc Hm Hi.
      assert (0 < cnt c)%nat as Hcp by (rewrite C; destruct (of_class c data); [congruence|cbn; lia]).
      assert (cnt c = length (of_class c data)) as Ec by (rewrite C; lia).
      assert (forall c, (c < k)%nat -> (0 < cnt c)%nat -> nb_divide n k cnt sums c i = average (column i (of_class c data))) as Hmean.
      { intros c' Hc' Hp'. rewrite nb_divide_in, M by auto. unfold average, column. rewrite map_length, C. f_equal. ring. }
      split; [apply Hmean; auto|].
      assert (nb_divide n k cnt (fold_left (nb_var_step n (nb_divide n k cnt sums)) data (fun _ _ => 0)) c i
              = variance (column i (of_class c data))) as Hv.
      { rewrite nb_divide_in, nb_var_sum, Hmean by auto. unfold column at 3. rewrite variance_map.
        rewrite Ec, Rplus_0_l. reflexivity. }
      split; [exact Hv|]. rewrite Hv. unfold column. rewrite variance_map.
      apply Rmult_le_pos; [apply total_map_pos; intros; apply Rle_0_sqr|]. apply inv_INR_pos.
Qed.

(** what the classifier weighs a class by: prior times the product of the feature densities,
    with variances floored at 1e-12 *)
Definition posterior (n : nat) (m : gnb) (x : nat -> R) (c : nat) : R :=
  nb_prior m c * product (map (fun i => normal_density (nb_mean m c i) (Rmax (nb_var m c i) (/ 10 ^ 12)) (x i)) (seq 0 n)).

Lemma product_app l1 l2 : product (l1 ++ l2) = product l1 * product l2.
Proof. induction l1; cbn; [ring|rewrite IHl1; ring]. Qed.
Lemma floor_pos v : 0 < Rmax v (/ 10 ^ 12).
Proof. apply Rlt_le_trans with (/ 10 ^ 12); [|apply Rmax_r]. apply Rinv_0_lt_compat, pow_lt. lra. Qed.

Lemma density_ln mu var x : 0 < var ->
  normal_density mu var x = exp (- / 2 * (ln (2 * PI * var) + (x - mu) * (x - mu) / var)).
Proof.
  intros Hv. unfold normal_density. pose proof PI_RGT_0.
  assert (0 < 2 * PI * var) as Hp by (apply Rmult_lt_0_compat; lra).
  replace (- / 2 * (ln (2 * PI * var) + (x - mu) * (x - mu) / var))
    with (- ln (sqrt (2 * PI * var)) + - ((x - mu) ^ 2 / (2 * var))).
  - rewrite exp_plus, (exp_Ropp (ln _)), exp_ln; [reflexivity|apply sqrt_lt_R0, Hp].
  - assert (ln (2 * PI * var) = 2 * ln (sqrt (2 * PI * var))) as ->.
    { rewrite <- (sqrt_sqrt (2 * PI * var)) at 1 by lra. rewrite ln_mult by (apply sqrt_lt_R0, Hp). ring. }
    field. lra.
Qed.
Lemma loglik_exp n (f : nat -> R) (g : nat -> R) : (forall i, (i < n)%nat -> g i = exp (f i)) ->
  product (map g (seq 0 n)) = exp (sum n f).
Proof.
  intros H. induction n as [|n IH]; [cbn; symmetry; apply exp_0|].
  rewrite seq_S, map_app, product_app. cbn [map product plus sum].
  rewrite exp_plus, <- H by lia. rewrite IH by (intros; apply H; lia). ring.
Qed.

(** The predicted class is one of the classes seen in training and has the largest posterior. *)
Theorem C56_naive_bayes_predict : forall n xs ys k m x, nb_fit n xs ys k = Some m -> combine xs ys <> [] ->
  let b := nb_predict n m x in
  (b < k)%nat /\ (0 < nb_count m b)%nat /\
  forall c, (c < k)%nat -> posterior n m x c <= posterior n m x b.
Proof.
  intros n xs ys k m x H Hd b.
  destruct (C56_naive_bayes_fit n xs ys k) as [_ F]. specialize (F m H). cbv zeta in F.
  destruct F as (Cn & Ct & Pr & _). destruct (Pr Hd) as [P0 P1].
  assert (nb_classes m = k) as Ek.
  { unfold nb_fit in H. destruct (fold_left _ _ _) as [[? ?]|]; [|discriminate]. injection H as <-. reflexivity. }
  assert (0 < INR (length (combine xs ys))) as Hlen.
  { apply lt_0_INR. destruct (combine xs ys); [congruence|cbn; lia]. }
  set (L := fun c => sum n (fun i => - / 2 * (ln (2 * PI * Rmax (nb_var m c i) (/ 10 ^ 12))
              + (x i - nb_mean m c i) * (x i - nb_mean m c i) / Rmax (nb_var m c i) (/ 10 ^ 12)))).
  assert (forall c, posterior n m x c = nb_prior m c * exp (L c)) as Post.
  { intros c. unfold posterior. f_equal. apply loglik_exp. intros i Hi. rewrite density_ln by apply floor_pos.
    reflexivity. }
  set (s := fun c => if (nb_count m c =? 0)%nat then None else Some (nb_score n m x c)).
  assert (forall c, (0 < nb_count m c)%nat -> 0 < nb_prior m c /\ s c = Some (Fin (ln (nb_prior m c) + L c))) as Sc.
  { intros c Hc.
    assert (0 < nb_prior m c) as Pp.
    { destruct (P0 c) as [_ ->]. apply Rdiv_lt_0_compat; [|exact Hlen]. apply lt_0_INR. rewrite <- Cn. exact Hc. }
    split; [exact Pp|]. unfold s. rewrite (proj2 (Nat.eqb_neq _ _)) by lia. unfold nb_score, ext_ln, Rltb, Reqb.
    destruct (Rlt_dec _ 0); [lra|]. destruct (Req_EM_T _ 0); [lra|]. cbn [ext_add]. do 3 f_equal.
    rewrite (for_sum n (fun i => - / 2 * (ln (2 * PI * Rmax (nb_var m c i) (/ 10 ^ 12))
              + (x i - nb_mean m c i) * (x i - nb_mean m c i) / Rmax (nb_var m c i) (/ 10 ^ 12)))). apply Rplus_0_l. }
  assert (exists c, (c < k)%nat /\ (0 < nb_count m c)%nat) as (c0 & Hc0 & Hp0).
  { destruct (some_or_none k (nb_count m)) as [E|E]; [exact E|].
    exfalso. rewrite sum_0 in Ct; [lra|]. intros i Hi. replace (nb_count m i) with 0%nat by (specialize (E i Hi); lia). reflexivity. }
  destruct (argmax_spec k s) as [B1 B2].
  { intros c Hc. destruct (Nat.eq_dec (nb_count m c) 0) as [E|E].
    - unfold s. rewrite E. discriminate.
    - destruct (Sc c) as [_ ->]; [lia|discriminate]. }
  { lia. }
  assert (argmax k s = b) as Eb by (unfold b, nb_predict; rewrite Ek; reflexivity). rewrite Eb in *.
  assert (0 < nb_count m b)%nat as Hb.
  { destruct (Sc c0 Hp0) as [_ E0]. destruct (Nat.eq_dec (nb_count m b) 0) as [E|E]; [|lia]. exfalso.
    destruct (B2 c0 _ Hc0 E0) as [Q|(r & Q & _)]; unfold s in Q; rewrite E in Q; discriminate. }
  split; [exact B1|]. split; [exact Hb|]. intros c Hc. rewrite !Post.
  destruct (Sc b Hb) as [Pb Eb'].
  destruct (Nat.eq_dec (nb_count m c) 0) as [E|E].
  - destruct (P0 c) as [_ ->]. rewrite <- Cn, E. cbn [INR]. unfold Rdiv. rewrite !Rmult_0_l.
    apply Rmult_le_pos; [lra|]. left. apply exp_pos.
  - destruct (Sc c) as [Pc Ec]; [lia|]. destruct (B2 c _ Hc Ec) as [Q|(r & Q & Le)]; [congruence|].
    rewrite Eb' in Q. injection Q as <-.
    rewrite <- (exp_ln (nb_prior m c)), <- (exp_ln (nb_prior m b)), <- !exp_plus by assumption.
    destruct (Req_dec (ln (nb_prior m c) + L c) (ln (nb_prior m b) + L b)) as [->|]; [lra|].
    left. apply exp_increasing. lra.
Qed.
