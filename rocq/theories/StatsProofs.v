(** Lemmas about sums over samples and the covariance loops. *)
From Coq Require Import Reals List Arith Bool Lra Lia Permutation.
From Verif Require Import Scalar RSum LinModel LinProofs StatsModel StatsSpec.
Import ListNotations.
Open Scope R_scope.

Lemma total_map_ext {A} (l : list A) f g : (forall x, In x l -> f x = g x) -> total (map f l) = total (map g l).
Proof. induction l as [|x l IH]; cbn; intros H; [reflexivity|]. rewrite H, IH by auto. reflexivity. Qed.
Lemma total_map_plus {A} (l : list A) f g : total (map (fun x => f x + g x) l) = total (map f l) + total (map g l).
Proof. induction l as [|x l IH]; cbn; [ring|]. rewrite IH. ring. Qed.
Lemma total_map_scal {A} (l : list A) c f : total (map (fun x => c * f x) l) = c * total (map f l).
Proof. induction l as [|x l IH]; cbn; [ring|]. rewrite IH. ring. Qed.
Lemma total_map_const {A} (l : list A) c : total (map (fun _ => c) l) = INR (length l) * c.
Proof. induction l as [|x l IH]; [cbn; ring|]. cbn [map total length]. rewrite IH, S_INR. ring. Qed.
Lemma total_map_pos {A} (l : list A) f : (forall x, 0 <= f x) -> 0 <= total (map f l).
Proof. intros H. induction l as [|x l IH]; cbn; [lra|]. specialize (H x). lra. Qed.
Lemma total_sum {A} (l : list A) n (f : A -> nat -> R) :
  total (map (fun x => sum n (f x)) l) = sum n (fun i => total (map (fun x => f x i) l)).
Proof.
  induction l as [|x l IH]; cbn [map total].
  - symmetry. apply sum_0. reflexivity.
  - rewrite IH, <- sum_plus. reflexivity.
Qed.
Lemma total_perm l l' : Permutation l l' -> total l = total l'.
Proof. induction 1; cbn; lra. Qed.
Lemma fold_plus_total l : forall a, fold_left Rplus l a = a + total l.
Proof. induction l as [|x l IH]; intros a; cbn; [ring|]. rewrite IH. ring. Qed.
Lemma fold_plus_map {A} (f : A -> R) l : forall a, fold_left (fun s x => s + f x) l a = a + total (map f l).
Proof. induction l as [|x l IH]; intros a; cbn; [ring|]. rewrite IH. ring. Qed.

Lemma mean_value N samples m c : mean N samples = Ok m -> (c < N)%nat -> m c = average (column c samples).
Proof.
  unfold mean. destruct samples as [|s0 r] eqn:E; [discriminate|]. rewrite <- E. clear E s0 r.
  intros H Hc. inversion H; subst m; clear H. unfold vec_div. rewrite vfill_in by auto. cbn [div Rops].
  unfold average, column. rewrite map_length. f_equal.
  enough (K : forall a, fold_left (fun m s => vec_add Rops N m s) samples a c = a c + total (map (fun s => s c) samples))
    by (rewrite K; ring).
  induction samples as [|s r IH]; intros a; cbn [fold_left map total]; [ring|].
  rewrite IH. unfold vec_add. rewrite vfill_in by auto. cbn [add Rops]. ring.
Qed.
Lemma mean_ok N samples : samples <> [] -> exists m, mean N samples = Ok m.
Proof. destruct samples; [congruence|]. intros _. eexists. reflexivity. Qed.

Lemma add_outer_in N M x y cov a b : (a < N)%nat -> (b < M)%nat ->
  add_outer N M x y cov a b = cov a b + x a * y b.
Proof.
  intros Ha Hb. unfold add_outer.
  pose (P := fun (n : nat) (c : mat) => c a b = if (a <? n)%nat then cov a b + x a * y b else cov a b).
  enough (K : P N (for_ 0 N (fun row cov0 => for_ 0 M (fun col cov1 =>
            upd2 cov1 row col (cov1 row col + x row * y col)) cov0) cov)).
  { unfold P in K. rewrite K, (proj2 (Nat.ltb_lt a N)) by auto. reflexivity. }
  apply (for_ind P); [lia|reflexivity|].
  intros row s Hr HP. unfold P in *.
  pose (Q := fun (m : nat) (c : mat) =>
     c a b = if (a =? row)%nat && (b <? m)%nat then s a b + x a * y b else s a b).
  enough (K : Q M (for_ 0 M (fun col cov1 => upd2 cov1 row col (cov1 row col + x row * y col)) s)).
  { unfold Q in K. rewrite K, HP, (proj2 (Nat.ltb_lt b M)), andb_true_r by auto.
    destruct (Nat.eqb_spec a row) as [->|].
    - rewrite (proj2 (Nat.ltb_lt row (S row))), (proj2 (Nat.ltb_ge row row)) by lia. reflexivity.
    - destruct (Nat.ltb_spec a row); destruct (Nat.ltb_spec a (S row)); auto; lia. }
  apply (for_ind Q); [lia| |].
  - unfold Q. rewrite (proj2 (Nat.ltb_ge b 0)), andb_false_r by lia. reflexivity.
  - intros col t Hcol HQ. unfold Q in *.
    destruct (Nat.eq_dec a row) as [->|Na]; [destruct (Nat.eq_dec b col) as [->|Nb]|].
    + rewrite upd2_same. rewrite HQ, Nat.eqb_refl. cbn [andb].
      rewrite (proj2 (Nat.ltb_lt col (S col))), (proj2 (Nat.ltb_ge col col)) by lia. reflexivity.
    + rewrite upd2_other by auto. rewrite HQ. f_equal.
      destruct (Nat.ltb_spec b col); destruct (Nat.ltb_spec b (S col)); auto; lia.
    + rewrite upd2_other by auto. rewrite HQ, (proj2 (Nat.eqb_neq a row)) by auto. reflexivity.
Qed.

Lemma cov_loop {A} (l : list A) N M (fx fy : A -> vec) a b : (a < N)%nat -> (b < M)%nat -> forall cov,
  fold_left (fun cov p => add_outer N M (fx p) (fy p) cov) l cov a b
  = cov a b + total (map (fun p => fx p a * fy p b) l).
Proof.
  intros Ha Hb. induction l as [|p l IH]; intros cov; cbn [fold_left map total]; [ring|].
  rewrite IH, add_outer_in by auto. ring.
Qed.

Lemma INR_pred n : (2 <= n)%nat -> INR (n - 1) = INR n - 1.
Proof. intros H. rewrite minus_INR by lia. reflexivity. Qed.

Lemma cov_value N samples C : sample_covariance N samples = Ok C ->
  (2 <= length samples)%nat /\
  forall a b, (a < N)%nat -> (b < N)%nat ->
    C a b = total (map (fun s => (s a - average (column a samples)) * (s b - average (column b samples))) samples)
            / (INR (length samples) - 1).
Proof.
  unfold sample_covariance. destruct samples as [|s0 r] eqn:E; [discriminate|]. rewrite <- E in *.
  destruct (Nat.ltb_spec (length samples) 2) as [|Hl]; [discriminate|].
  destruct (mean N samples) as [m|] eqn:Em; [|discriminate].
  intros H. inversion H; subst C; clear H. split; [exact Hl|]. intros a b Ha Hb.
  unfold mat_scale. rewrite fill_in by auto. cbn [mul Rops].
  rewrite (cov_loop samples N N (fun s => vec_sub Rops N s m) (fun s => vec_sub Rops N s m) a b Ha Hb).
  rewrite INR_pred by exact Hl. unfold Rdiv. rewrite Rplus_0_l, Rmult_1_l. f_equal.
  apply total_map_ext. intros s _. unfold vec_sub. rewrite !vfill_in by auto. cbn [sub Rops].
  rewrite (mean_value N samples m a Em Ha), (mean_value N samples m b Em Hb). reflexivity.
Qed.

Lemma cross_value N M xs ys C : sample_cross_covariance N M xs ys = Ok C ->
  (2 <= length xs)%nat /\ length xs = length ys /\
  forall a b, (a < N)%nat -> (b < M)%nat ->
    C a b = total (map (fun p => (fst p a - average (column a xs)) * (snd p b - average (column b ys))) (combine xs ys))
            / (INR (length xs) - 1).
Proof.
  unfold sample_cross_covariance. destruct (Nat.eqb_spec (length xs) (length ys)) as [El|]; [|discriminate].
  cbn [negb]. destruct xs as [|s0 r] eqn:E; [discriminate|]. rewrite <- E in *.
  destruct (Nat.ltb_spec (length xs) 2) as [|Hl]; [discriminate|].
  destruct (mean N xs) as [mx|] eqn:Ex; [|discriminate].
  destruct (mean M ys) as [my|] eqn:Ey; [|discriminate].
  intros H. inversion H; subst C; clear H. split; [exact Hl|]. split; [exact El|]. intros a b Ha Hb.
  unfold mat_scale. rewrite fill_in by auto. cbn [mul Rops].
  rewrite (cov_loop (combine xs ys) N M (fun p => vec_sub Rops N (fst p) mx) (fun p => vec_sub Rops M (snd p) my) a b Ha Hb).
  rewrite INR_pred by exact Hl. unfold Rdiv. rewrite Rplus_0_l, Rmult_1_l. f_equal.
  apply total_map_ext. intros p _. unfold vec_sub. rewrite !vfill_in by auto. cbn [sub Rops].
  rewrite (mean_value N xs mx a Ex Ha), (mean_value M ys my b Ey Hb). reflexivity.
Qed.

Lemma grid_in N (f : nat -> nat -> R) (c0 : mat) a b : (a < N)%nat -> (b < N)%nat ->
  for_ 0 N (fun row c => for_ 0 N (fun col c => upd2 c row col (f row col)) c) c0 a b = f a b.
Proof. intros Ha Hb. exact (fill_in N N f c0 a b Ha Hb). Qed.

Lemma sd_value N cov sd : standard_deviations N cov = Ok sd ->
  forall i, (i < N)%nat -> eps < cov i i /\ sd i = sqrt (cov i i).
Proof.
  unfold standard_deviations.
  match goal with |- match ?F with _ => _ end = _ -> _ => destruct F as [s|] eqn:E end; [|discriminate].
  intros H. inversion H; subst s; clear H.
  pose (P := fun (m : nat) (s : vec) => forall i, (i < m)%nat -> eps < cov i i /\ s i = sqrt (cov i i)).
  refine (forM_some_ind P 0 N _ _ _ _ _ E _); [lia|intros i H; lia|].
  intros i s s' Hi HP Es. destruct (Rleb (cov i i) eps) eqn:Z; [discriminate|]. apply Rleb_false in Z.
  inversion Es; subst s'. intros j Hj. destruct (Nat.eq_dec j i) as [->|].
  - rewrite upd_same. auto.
  - rewrite upd_other by auto. apply HP. lia.
Qed.
Lemma sd_ok N cov : (forall i, (i < N)%nat -> eps < cov i i) -> exists sd, standard_deviations N cov = Ok sd.
Proof.
  intros H. unfold standard_deviations.
  destruct (forM_ind (fun _ _ => True) 0 N (fun i sd =>
      let variance := cov i i in
      if Rleb variance eps then None else Some (upd sd i (sqrt variance))) (fun _ => 0)) as (s & E & _); [lia|exact I| |].
  - intros i s Hi _. specialize (H i ltac:(lia)). cbv zeta. destruct (Rleb (cov i i) eps) eqn:Z; [apply Rleb_true in Z; lra|].
    eexists; split; [reflexivity|exact I].
  - cbv zeta in E |- *. rewrite E. eexists; reflexivity.
Qed.

(** the fold over counts *)
Lemma fold_add_acc l : forall a, fold_left Nat.add l a = (a + fold_left Nat.add l 0)%nat.
Proof. induction l as [|x l IH]; intros a; cbn; [lia|]. rewrite IH, (IH x). lia. Qed.
Lemma INR_fold_add l : INR (fold_left Nat.add l 0%nat) = total (map INR l).
Proof.
  induction l as [|x l IH]; cbn [fold_left map total]; [reflexivity|].
  rewrite fold_add_acc, plus_INR, IH. reflexivity.
Qed.

(** x <= exp (x - 1), and its powers *)
Lemma exp_tangent x : x <= exp (x - 1).
Proof. assert (H := exp_ineq1_le (x - 1)). lra. Qed.
Lemma exp_pow x n : exp x ^ n = exp (INR n * x).
Proof.
  induction n as [|n IH]; [cbn; rewrite Rmult_0_l, exp_0; reflexivity|].
  rewrite S_INR. cbn [pow]. rewrite IH, <- exp_plus. f_equal. ring.
Qed.
(* the term of one category with count c out of n against a rival probability q *)
Lemma likelihood_term (c n : nat) q : (0 < n)%nat -> 0 <= q ->
  q ^ c <= (INR c / INR n) ^ c * exp (INR n * q - INR c).
Proof.
  intros Hn Hq. assert (Pn : 0 < INR n) by (apply lt_0_INR; auto).
  destruct c as [|c].
  - cbn [pow INR]. rewrite Rmult_1_l, Rminus_0_r.
    assert (H := exp_ineq1_le (INR n * q)). assert (0 <= INR n * q) by (apply Rmult_le_pos; lra). lra.
  - set (k := S c) in *. assert (Pk : 0 < INR k) by (apply lt_0_INR; unfold k; lia).
    set (p := INR k / INR n). assert (Pp : 0 < p) by (apply Rdiv_lt_0_compat; auto).
    replace q with (p * (q / p)) at 1 by (field; lra).
    rewrite Rpow_mult_distr. apply Rmult_le_compat_l; [apply pow_le; lra|].
    replace (INR n * q - INR k) with (INR k * (q / p - 1)) by (unfold p; field; lra).
    rewrite <- exp_pow. apply pow_incr. split; [|apply exp_tangent].
    apply Rmult_le_pos; [auto|]. left. apply Rinv_0_lt_compat, Pp.
Qed.
