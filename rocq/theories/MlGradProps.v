(** Losses and gradients handed to the optimiser (C55, C84, C85, C86). *)
From Coq Require Import Reals ZArith QArith Qreals List Arith Bool Lia Lra.
From Coquelicot Require Import Coquelicot.
From Verif Require Import Scalar RSum LinModel LinProofs OptModel OptSpec OptProps MlModel StatsSpec StatsProofs
  MlSpec MlProofs.
Import ListNotations.
Open Scope R_scope.

(** the regularised gradients: the mean plus [r i] on the weights *)
Lemma reg_dot n (g r v : nat -> R) m :
  let g1 := for_ 0 n (fun i g => upd g i (g i / m + r i)) g in
  sum (n + 1) (fun j => upd g1 n (g1 n / m) j * v j)
  = sum (n + 1) (fun j => g j * v j) / m + sum n (fun i => r i * v i).
Proof.
  cbv zeta.
  assert (forall i, for_ 0 n (fun i g => upd g i (g i / m + r i)) g i
                    = if (i <? n)%nat then g i / m + r i else g i) as L.
  { intros i. rewrite (upd_loop n (fun i a => a / m + r i)). reflexivity. }
  replace (n + 1)%nat with (S n) by lia. cbn [sum]. rewrite upd_same, L, Nat.ltb_irrefl.
  rewrite (sum_ext n _ (fun i => (g i / m) * v i + r i * v i)).
  - rewrite sum_plus. unfold Rdiv. rewrite Rmult_plus_distr_r, <- sum_scal_r.
    rewrite (sum_ext n (fun i => g i * / m * v i) (fun i => g i * v i * / m)) by (intros; ring). ring.
  - intros i Hi. rewrite upd_other by lia. rewrite L, (proj2 (Nat.ltb_lt i n)) by lia. ring.
Qed.

(** ** C55: the gradient is the derivative of the loss in every direction *)
Theorem C55_linear : forall n xs ys p,
  gradient_at (n + 1) (linear_loss n xs ys) (linear_grad n xs ys p) p.
Proof.
  intros n xs ys p v. unfold linear_grad. rewrite mean_dot.
  apply (is_derive_ext (fun t => total (map (fun d =>
    (fun d s => (s - snd d) * (s - snd d)) d (pscore n (fun i => p i + t * v i) (fst d))) (combine xs ys))
    / INR (length xs))).
  { intros t. unfold linear_loss. rewrite lsum_total. reflexivity. }
  apply (mean_gradient n fst (fun (d : vec * R) s => (s - snd d) * (s - snd d))
           (fun d => Some ((1 + 1) * (pscore n p (fst d) - snd d)))).
  intros d _. cbn [coef]. auto_derive; [auto|]. ring.
Qed.

Theorem C55_ridge : forall n alpha xs ys p,
  gradient_at (n + 1) (ridge_loss n alpha xs ys) (ridge_grad n alpha xs ys p) p.
Proof.
  intros n alpha xs ys p v. unfold ridge_grad. rewrite reg_dot.
  apply (is_derive_ext (fun t => total (map (fun d =>
    (fun d s => (s - snd d) * (s - snd d)) d (pscore n (fun i => p i + t * v i) (fst d))) (combine xs ys))
    / INR (length xs) + (alpha * sum n (fun i => p i * p i) + t * (2 * alpha * sum n (fun i => p i * v i))
                         + t * t * (alpha * sum n (fun i => v i * v i))))).
  { intros t. unfold ridge_loss. rewrite lsum_total. cbv zeta. rewrite for_sum, Rplus_0_l. f_equal.
    rewrite (sum_ext n (fun i => (p i + t * v i) * (p i + t * v i))
               (fun i => p i * p i + 2 * t * (p i * v i) + t * t * (v i * v i))) by (intros; ring).
    rewrite !sum_plus, !sum_scal. ring. }
  apply (is_derive_plus (V := R_NormedModule)).
  - apply (mean_gradient n fst (fun (d : vec * R) s => (s - snd d) * (s - snd d))
             (fun d => Some ((1 + 1) * (pscore n p (fst d) - snd d)))).
    intros d _. cbn [coef]. auto_derive; [auto|]. ring.
  - evar_last; [auto_derive; [auto|reflexivity]|].
    rewrite (sum_ext n (fun i => (1 + 1) * alpha * p i * v i) (fun i => 2 * alpha * (p i * v i))) by (intros; ring).
    rewrite sum_scal. ring.
Qed.

Lemma sigmoid_bounds x : 0 < sigmoid x < 1.
Proof.
  unfold sigmoid. pose proof (exp_pos (- x)). split.
  - apply Rdiv_lt_0_compat; lra.
  - apply (Rmult_lt_reg_r (1 + exp (- x))); [lra|]. field_simplify; lra.
Qed.
Lemma sigmoid_derive x : is_derive sigmoid x (sigmoid x * (1 - sigmoid x)).
Proof.
  unfold sigmoid. pose proof (exp_pos (- x)). auto_derive; [lra|]. field. lra.
Qed.

(** derivative of the guarded cross-entropy of one sample *)
Lemma entropy_derive g y s : 0 <= g ->
  is_derive (fun s => - (y * ln (sigmoid s + g) + (1 - y) * ln (1 - sigmoid s + g))) s
    (- (y / (sigmoid s + g) - (1 - y) / (1 - sigmoid s + g)) * (sigmoid s * (1 - sigmoid s))).
Proof.
  intros Hg. pose proof (sigmoid_bounds s) as B.
  evar_last.
  - apply (is_derive_comp (fun q => - (y * ln (q + g) + (1 - y) * ln (1 - q + g))) sigmoid).
    + instantiate (1 := - (y / (sigmoid s + g) - (1 - y) / (1 - sigmoid s + g))).
      auto_derive; [lra|]. field. lra.
    + apply sigmoid_derive.
  - cbn. ring.
Qed.

(** Logistic regression.  The gradient is the gradient of the textbook cross-entropy (guard 0)... *)
Theorem C55_logistic_partial : forall n xs ys p,
  gradient_at (n + 1) (cross_entropy 0 n xs ys) (logistic_grad n xs ys p) p.
Proof.
  intros n xs ys p v. unfold logistic_grad. rewrite mean_dot.
  apply (is_derive_ext (fun t => total (map (fun d =>
    (fun d s => - (y_f (snd d) * ln (sigmoid s + 0) + (1 - y_f (snd d)) * ln (1 - sigmoid s + 0))) d
      (pscore n (fun i => p i + t * v i) (fst d))) (combine xs ys))
    / INR (length xs))).
  { intros t. unfold cross_entropy. rewrite lsum_total. reflexivity. }
  apply (mean_gradient n fst
    (fun (d : vec * nat) s => - (y_f (snd d) * ln (sigmoid s + 0) + (1 - y_f (snd d)) * ln (1 - sigmoid s + 0)))
    (fun d => Some (sigmoid (pscore n p (fst d)) - y_f (snd d)))).
  intros d _. cbn [coef]. evar_last; [apply entropy_derive; lra|].
  pose proof (sigmoid_bounds (pscore n p (fst d))). field. lra.
Qed.

(** ... but the loss passed along with it adds 1/3 inside the logarithms, so it is not the
    derivative of that loss. *)
Theorem C55_logistic_refuted : exists n xs ys p,
  ~ gradient_at (n + 1) (logistic_loss n xs ys) (logistic_grad n xs ys p) p.
Proof.
  exists 1%nat, [fun _ => 1], [1%nat], (fun _ => 0). intros H.
  specialize (H (fun i => if (i =? 0)%nat then 1 else 0)).
  assert (is_derive (fun t : R => logistic_loss 1 [fun _ => 1] [1%nat] (fun i => 0 + t * (if (i =? 0)%nat then 1 else 0)))
            0 (- (3 / 10))) as D.
  { apply (is_derive_ext (fun t => - (1 * ln (sigmoid t + tiny) + (1 - 1) * ln (1 - sigmoid t + tiny)))).
    - intros t. change R in t. unfold logistic_loss, cross_entropy. rewrite lsum_total. cbn [combine map total length fst snd].
      rewrite !pscore_sum. unfold y_f. cbn [Nat.eqb]. change (1 + 1)%nat with 2%nat. cbn [INR sum]. unfold aug. cbn [Nat.ltb Nat.leb Nat.eqb].
      replace (0 + (0 + t * 1) * 1 + (0 + t * 0) * 1) with t by ring.
      match goal with |- ?a = ?b => change (@eq R a b) end. field.
    - evar_last; [apply entropy_derive; unfold tiny; lra|].
      unfold sigmoid, tiny. rewrite Ropp_0, exp_0. field. }
  pose proof (eq_trans (eq_sym (is_derive_unique _ _ _ D)) (is_derive_unique _ _ _ H)) as U. cbv beta in U.
  unfold logistic_grad in U. rewrite mean_dot in U.
  rewrite gsum_dot in U. cbn [combine map total length fst snd] in U. cbn [coef] in U.
  rewrite !pscore_sum in U. unfold y_f in U. cbn [Nat.eqb] in U.
  change (1 + 1)%nat with 2%nat in U. cbn [INR sum] in U. unfold aug in U. cbn [Nat.ltb Nat.leb Nat.eqb] in U.
  replace (0 + 0 * 1 + 0 * 1) with 0 in U by ring. unfold sigmoid in U. rewrite Ropp_0, exp_0 in U. lra.
Qed.

(** ** C84: hinge losses *)
Lemma mean_subgradient {A} n (x : A -> nat -> R) (phi : A -> R -> R) (e : A -> option R) data m p :
  0 <= / m ->
  (forall d s, In d data -> phi d (pscore n p (x d)) + coef (e d) * (s - pscore n p (x d)) <= phi d s) ->
  forall q, total (map (fun d => phi d (pscore n p (x d))) data) / m
            + sum (n + 1) (fun j => gsum n x e data j * (q j - p j)) / m
            <= total (map (fun d => phi d (pscore n q (x d))) data) / m.
Proof.
  intros Hm H q. rewrite gsum_dot. unfold Rdiv. rewrite <- Rmult_plus_distr_r.
  apply Rmult_le_compat_r; [exact Hm|]. rewrite <- total_map_plus. apply total_map_le. intros d Hd.
  rewrite pscore_minus. apply H, Hd.
Qed.

Lemma inv_INR_pos n : 0 <= / INR n.
Proof.
  destruct n as [|n]; [cbn; rewrite Rinv_0; lra|]. left. apply Rinv_0_lt_compat, lt_0_INR. lia.
Qed.

Theorem C84_perceptron : forall n xs ys p,
  subgradient_at (n + 1) (perceptron_loss n xs ys) (perceptron_grad n xs ys p) p.
Proof.
  intros n xs ys p q. unfold perceptron_loss, perceptron_grad. rewrite mean_dot, !lsum_total.
  apply (mean_subgradient n fst (fun d s => let v := - lab_f (snd d) * s in if Rltb 0 v then v else 0)).
  - apply inv_INR_pos.
  - intros [x l] s _. cbn [fst snd]. cbv zeta. unfold Rltb.
    destruct (Rlt_dec 0 (- lab_f l * pscore n p x)); destruct (Rlt_dec 0 (- lab_f l * s)); cbn [coef]; lra.
Qed.

Theorem C84_svm : forall n c xs ys p, 0 < c ->
  subgradient_at (n + 1) (svm_loss n c xs ys) (svm_grad n c xs ys p) p.
Proof.
  intros n c xs ys p Hc q. unfold svm_loss, svm_grad. rewrite reg_dot, !lsum_total. cbv zeta. rewrite !for_sum.
  pose proof (mean_subgradient n fst (fun d s => let margin := lab_f (snd d) * s in if Rltb margin 1 then 1 - margin else 0)
    (fun d => let margin := lab_f (snd d) * pscore n p (fst d) in if Rltb margin 1 then Some (- lab_f (snd d)) else None)
    (combine xs ys) (INR (length xs)) p (inv_INR_pos _)) as M. cbv zeta in M.
  assert (forall (d : vec * Z) s, In d (combine xs ys) ->
     (if Rltb (lab_f (snd d) * pscore n p (fst d)) 1 then 1 - lab_f (snd d) * pscore n p (fst d) else 0)
     + coef (if Rltb (lab_f (snd d) * pscore n p (fst d)) 1 then Some (- lab_f (snd d)) else None)
       * (s - pscore n p (fst d))
     <= (if Rltb (lab_f (snd d) * s) 1 then 1 - lab_f (snd d) * s else 0)) as H.
  { intros [x l] s _. cbn [fst snd]. unfold Rltb.
    destruct (Rlt_dec (lab_f l * pscore n p x) 1); destruct (Rlt_dec (lab_f l * s) 1); cbn [coef]; lra. }
  specialize (M H q).
  assert (sum n (fun i => p i * p i) / (2 * c) + sum n (fun i => p i / c * (q i - p i)) <= sum n (fun i => q i * q i) / (2 * c)) as Q.
  { assert (0 <= sum n (fun i => (q i - p i) * (q i - p i)) / (2 * c)) as S.
    { apply Rmult_le_pos; [apply (sum_sq_pos n (fun i => q i - p i))|]. left. apply Rinv_0_lt_compat. lra. }
    rewrite (sum_ext n (fun i => (q i - p i) * (q i - p i))
               (fun i => q i * q i - p i * p i - 2 * c * (p i / c * (q i - p i)))) in S by (intros; field; lra).
    rewrite !sum_minus, sum_scal in S.
    match goal with |- ?a / _ + ?b <= ?d / _ =>
      replace ((d - a - 2 * c * b) / (2 * c)) with (d / (2 * c) - a / (2 * c) - b) in S by (field; lra) end. lra. }
  replace (1 + 1) with 2 by ring. rewrite !Rplus_0_l. lra.
Qed.
(** At p = 0 both samples of this set are active and the subgradient is not zero. *)
Example C84_nontrivial : svm_grad 1 1 [fun _ => 1; fun _ => -2] [1; -1]%Z (fun _ => 0) 0%nat = - (3 / 2).
Proof.
  unfold svm_grad. cbv zeta. rewrite upd_other by lia.
  assert (forall g, for_ 0 1 (fun i g => upd g i (g i / INR (length [fun _ : nat => 1; fun _ => -2]) + 0 / 1)) g 0%nat
           = g 0%nat / 2 + 0 / 1) as ->.
  { intros. unfold for_. cbn. unfold upd. cbn. reflexivity. }
  rewrite gsum_value by lia. cbn [combine map total fst snd]. rewrite !pscore_sum. change (1 + 1)%nat with 2%nat. cbn [sum]. unfold aug.
  cbn [Nat.ltb Nat.leb]. unfold lab_f. cbn [Z.leb Z.compare].
  unfold Rltb. repeat (destruct (Rlt_dec _ 1); try lra). cbn [coef]. lra.
Qed.

(** ** C85: least-squares training never makes the fit worse *)
(** the quadratic upper bound, with the curvature of the data *)
Definition curvature (n : nat) (xs : list (nat -> R)) (ys : list R) : R :=
  2 * (total (map (fun d : (nat -> R) * R => sum n (fun i => fst d i * fst d i) + 1) (combine xs ys)) / INR (length xs)).

Lemma linear_exact n xs ys p q :
  linear_loss n xs ys q = linear_loss n xs ys p + sum (n + 1) (fun i => linear_grad n xs ys p i * (q i - p i))
    + total (map (fun d => pscore n (fun i => q i - p i) (fst d) * pscore n (fun i => q i - p i) (fst d)) (combine xs ys))
      / INR (length xs).
Proof.
  unfold linear_loss, linear_grad. rewrite mean_dot, gsum_dot, !lsum_total. unfold Rdiv.
  rewrite <- !Rmult_plus_distr_r. f_equal. rewrite <- !total_map_plus. apply total_map_ext. intros d _.
  rewrite pscore_minus. cbn [coef]. ring.
Qed.

Lemma pscore_sq n v x : pscore n v x * pscore n v x
  <= (sum n (fun i => x i * x i) + 1) * sum (n + 1) (fun i => v i * v i).
Proof.
  rewrite pscore_sum. eapply Rle_trans; [apply cauchy_schwarz|].
  rewrite Rmult_comm. apply Rmult_le_compat_r; [apply sum_sq_pos|]. right.
  replace (n + 1)%nat with (S n) by lia. cbn [sum]. unfold aug at 3 4. rewrite Nat.ltb_irrefl. f_equal; [|ring].
  apply sum_ext. intros i Hi. unfold aug. rewrite (proj2 (Nat.ltb_lt i n)) by lia. reflexivity.
Qed.

Theorem C85_linear_loss_is_smooth : forall n xs ys,
  smooth (n + 1) (linear_loss n xs ys) (linear_grad n xs ys) (curvature n xs ys).
Proof.
  intros n xs ys p q _. rewrite (linear_exact n xs ys p q). apply Rplus_le_compat_l. unfold curvature.
  replace (2 * (total (map (fun d : (nat -> R) * R => sum n (fun i => fst d i * fst d i) + 1) (combine xs ys)) / INR (length xs)) / 2)
    with (total (map (fun d : (nat -> R) * R => sum n (fun i => fst d i * fst d i) + 1) (combine xs ys)) / INR (length xs))
    by lra.
  unfold Rdiv. rewrite Rmult_assoc, (Rmult_comm (/ _)), <- Rmult_assoc.
  apply Rmult_le_compat_r; [apply inv_INR_pos|]. rewrite <- total_map_scal_r. apply total_map_le.
  intros d _. apply pscore_sq.
Qed.

Theorem C85_ridge_loss_is_smooth : forall n alpha xs ys, 0 <= alpha ->
  smooth (n + 1) (ridge_loss n alpha xs ys) (ridge_grad n alpha xs ys) (curvature n xs ys + 2 * alpha).
Proof.
  intros n alpha xs ys Ha p q He. pose proof (C85_linear_loss_is_smooth n xs ys p q He) as L.
  unfold ridge_loss, ridge_grad. rewrite reg_dot. cbv zeta. rewrite !for_sum, !Rplus_0_l.
  unfold linear_loss, linear_grad in L. rewrite mean_dot in L.
  set (D := sum (n + 1) (fun i => (q i - p i) * (q i - p i))) in *.
  assert (alpha * sum n (fun i => q i * q i)
          <= alpha * sum n (fun i => p i * p i) + sum n (fun i => (1 + 1) * alpha * p i * (q i - p i)) + alpha * D) as Q.
  { rewrite (sum_ext n (fun i => (1 + 1) * alpha * p i * (q i - p i)) (fun i => alpha * (2 * (p i * (q i - p i))))) by (intros; ring).
    rewrite sum_scal, <- !Rmult_plus_distr_l. apply Rmult_le_compat_l; [exact Ha|].
    rewrite <- sum_plus. subst D. replace (n + 1)%nat with (S n) by lia. cbn [sum].
    assert (sum n (fun i => q i * q i) <= sum n (fun i => p i * p i + 2 * (p i * (q i - p i))) + sum n (fun i => (q i - p i) * (q i - p i))).
    { rewrite <- sum_plus. right. apply sum_ext. intros. ring. }
    pose proof (Rle_0_sqr (q n - p n)) as Z. unfold Rsqr in Z. lra. }
  lra.
Qed.

(** convexity: no point lies below a tangent, so a zero gradient is a global minimum *)
Theorem C85_stationary_is_optimal : forall n alpha xs ys p, 0 <= alpha ->
  (forall i, (i < n + 1)%nat -> ridge_grad n alpha xs ys p i = 0) ->
  forall q, ridge_loss n alpha xs ys p <= ridge_loss n alpha xs ys q.
Proof.
  intros n alpha xs ys p Ha Hz q.
  assert (sum (n + 1) (fun i => ridge_grad n alpha xs ys p i * (q i - p i)) = 0) as Z.
  { apply sum_0. intros i Hi. rewrite Hz by lia. ring. }
  unfold ridge_grad in Z. rewrite reg_dot in Z.
  pose proof (linear_exact n xs ys p q) as L. unfold linear_loss, linear_grad in L. rewrite mean_dot in L.
  unfold ridge_loss. cbv zeta. rewrite !for_sum, !Rplus_0_l.
  assert (0 <= total (map (fun d : (nat -> R) * R => pscore n (fun i => q i - p i) (fst d) * pscore n (fun i => q i - p i) (fst d)) (combine xs ys))
      / INR (length xs)).
  { apply Rmult_le_pos; [|apply inv_INR_pos]. apply total_map_pos. intros. apply Rle_0_sqr. }
  assert (alpha * sum n (fun i => p i * p i) + sum n (fun i => (1 + 1) * alpha * p i * (q i - p i))
          <= alpha * sum n (fun i => q i * q i)) as Q.
  { rewrite (sum_ext n (fun i => (1 + 1) * alpha * p i * (q i - p i)) (fun i => alpha * (2 * (p i * (q i - p i))))) by (intros; ring).
    rewrite sum_scal, <- !Rmult_plus_distr_l. apply Rmult_le_compat_l; [exact Ha|].
    rewrite <- sum_plus. apply sum_le. intros i Hi. pose proof (Rle_0_sqr (q i - p i)) as W. unfold Rsqr in W. lra. }
  lra.
Qed.

Lemma pscore_pack n w b x : pscore n (pack n w b) x = affine n w b x.
Proof.
  unfold pscore. rewrite score_affine. unfold affine, pack. rewrite upd_same. f_equal.
  apply sum_ext. intros i Hi. rewrite upd_other by lia. rewrite vfill_in by lia. reflexivity.
Qed.

(** mean squared error of a model, and the weight penalty *)
Definition mse (n : nat) (xs : list (nat -> R)) (ys : list R) (w : nat -> R) (b : R) : R :=
  total (map (fun d => (affine n w b (fst d) - snd d) ^ 2) (combine xs ys)) / INR (length xs).
Definition penalty (n : nat) (w : nat -> R) : R := sum n (fun i => w i ^ 2).

Lemma linear_loss_ext n xs ys p q : (forall i, (i <= n)%nat -> p i = q i) -> linear_loss n xs ys p = linear_loss n xs ys q.
Proof.
  intros H. unfold linear_loss. rewrite !lsum_total. f_equal. apply total_map_ext. intros d _.
  rewrite !pscore_sum. rewrite (sum_ext (n + 1) _ (fun j => q j * aug n (fst d) j)); [reflexivity|].
  intros i Hi. rewrite H by lia. reflexivity.
Qed.
Lemma linear_loss_mse n xs ys w b : linear_loss n xs ys (pack n w b) = mse n xs ys w b.
Proof.
  unfold linear_loss, mse. rewrite lsum_total. f_equal. apply total_map_ext. intros d _. rewrite pscore_pack. ring.
Qed.
Lemma ridge_split n alpha xs ys p : ridge_loss n alpha xs ys p = linear_loss n xs ys p + alpha * penalty n p.
Proof.
  unfold ridge_loss, linear_loss, penalty. cbv zeta. rewrite for_sum, Rplus_0_l. do 2 f_equal. apply sum_ext. intros; ring.
Qed.
Lemma pack_again n p w0 i : (i <= n)%nat -> pack n (vfill n p w0) (p n) i = p i.
Proof.
  intros Hi. unfold pack. destruct (Nat.eq_dec i n) as [->|]; [apply upd_same|].
  rewrite upd_other, !vfill_in by lia. reflexivity.
Qed.

(** settings under which the optimiser is guaranteed to descend on an objective of curvature L *)
Definition descending (c : @gd R) (L : R) : Prop :=
  gd_backtracking c = true /\ gd_has_bounds c = false /\ gd_momentum c = 0 /\
  0 < gd_lr c /\ 0 < gd_tau c < 1 /\ 0 <= gd_c1 c < 1 /\ 0 <= gd_tol_grad c /\
  / 10 ^ 20 < gd_tau c * (2 * (1 - gd_c1 c) / L).

Lemma curvature_pos n xs ys : xs <> [] -> length xs = length ys -> 0 < curvature n xs ys.
Proof.
  intros Hx Hl. unfold curvature. apply Rmult_lt_0_compat; [lra|].
  destruct xs as [|x xs]; [congruence|]. destruct ys as [|y ys]; [discriminate|].
  apply Rdiv_lt_0_compat; [|apply lt_0_INR; cbn; lia].
  cbn [combine map total fst].
  pose proof (sum_sq_pos n x).
  assert (0 <= total (map (fun d : (nat -> R) * R => sum n (fun i => fst d i * fst d i) + 1) (combine xs ys))).
  { apply total_map_pos. intros d. pose proof (sum_sq_pos n (fst d)). lra. }
  lra.
Qed.

Theorem C85_linear_fit_never_worse : forall n xs ys opt fuel m m',
  xs <> [] -> length xs = length ys -> descending opt (curvature n xs ys) ->
  linear_fit n xs ys opt fuel m = Some m' ->
  mse n xs ys (l_w m') (l_b m') <= mse n xs ys (l_w m) (l_b m).
Proof.
  intros n xs ys opt fuel m m' Hx Hl (H1 & H2 & H3 & H4 & H5 & H6 & H7 & H8) H.
  unfold linear_fit in H. destruct xs as [|x0 xs0] eqn:Ex; [congruence|]. rewrite <- Ex in *.
  destruct (minimize _ _ _ _ _ _ _) as [[[[p fp] k] ok]|] eqn:Em; [|discriminate]. injection H as <-. cbn [l_w l_b].
  destruct (C51_smooth_never_increases _ _ _ _ _ _ _ _ _ _ _ H1 H2 H3 (C85_linear_loss_is_smooth n xs ys)
              (curvature_pos n xs ys Hx Hl) H4 H5 H6 H7 H8 Em) as [_ Q].
  rewrite <- !linear_loss_mse. eapply Rle_trans; [|exact Q]. right. apply linear_loss_ext.
  intros i Hi. apply pack_again, Hi.
Qed.

Theorem C85_ridge_fit_never_worse : forall n alpha xs ys opt fuel m m',
  xs <> [] -> length xs = length ys -> 0 <= alpha -> descending opt (curvature n xs ys + 2 * alpha) ->
  ridge_fit n alpha xs ys opt fuel m = Some m' ->
  mse n xs ys (l_w m') (l_b m') + alpha * penalty n (l_w m')
  <= mse n xs ys (l_w m) (l_b m) + alpha * penalty n (l_w m).
Proof.
  intros n alpha xs ys opt fuel m m' Hx Hl Ha (H1 & H2 & H3 & H4 & H5 & H6 & H7 & H8) H.
  unfold ridge_fit in H. destruct xs as [|x0 xs0] eqn:Ex; [congruence|]. rewrite <- Ex in *.
  destruct (minimize _ _ _ _ _ _ _) as [[[[p fp] k] ok]|] eqn:Em; [|discriminate]. injection H as <-. cbn [l_w l_b].
  pose proof (curvature_pos n xs ys Hx Hl) as Hc.
  destruct (C51_smooth_never_increases _ _ _ _ _ _ _ _ _ _ _ H1 H2 H3 (C85_ridge_loss_is_smooth n alpha xs ys Ha)
              ltac:(lra) H4 H5 H6 H7 H8 Em) as [_ Q].
  rewrite !ridge_split, linear_loss_mse in Q.
  replace (penalty n (pack n (l_w m) (l_b m))) with (penalty n (l_w m)) in Q.
  2: { apply sum_ext. intros i Hi. unfold pack. rewrite upd_other, vfill_in by lia. reflexivity. }
  rewrite <- linear_loss_mse. eapply Rle_trans; [|exact Q]. right. f_equal.
  - apply linear_loss_ext. intros i Hi. apply pack_again, Hi.
  - f_equal. apply sum_ext. intros i Hi. rewrite vfill_in by lia. reflexivity.
Qed.

(** the default optimiser qualifies for every data set of ordinary size *)
Example C85_nontrivial : forall n xs ys ninf pinf, xs <> [] -> length xs = length ys ->
  curvature n xs ys < 10 ^ 19 -> descending (gd_new Rops ninf pinf) (curvature n xs ys).
Proof.
  intros n xs ys ninf pinf Hx Hl Hc. pose proof (curvature_pos n xs ys Hx Hl) as Hp.
  unfold descending, gd_new. cbn [gd_backtracking gd_has_bounds gd_momentum gd_lr gd_tau gd_c1 gd_tol_grad zero lit Rops].
  assert (forall p q : Q, Q2R p = IZR (Qnum p) / IZR (Zpos (Qden p))) as E by reflexivity.
  rewrite !E by exact 0%Q. cbn [Qnum Qden].
  do 3 (split; [reflexivity|]). do 4 (split; [lra|]).
  apply (Rmult_lt_reg_r (curvature n xs ys)); [exact Hp|].
  replace (1 / 2 * (2 * (1 - 1 / 10000) / curvature n xs ys) * curvature n xs ys) with (1 - 1 / 10000) by (field; lra).
  apply Rlt_trans with (/ 10 ^ 20 * 10 ^ 19); [|lra].
  apply Rmult_lt_compat_l; [|exact Hc]. apply Rinv_0_lt_compat, pow_lt. lra.
Qed.

(** ** C86: one epoch is one step down the gradient of that loss *)
Lemma score_pack n w b x : pscore n (pack n w b) x = score n w b x.
Proof. rewrite pscore_pack, score_affine. reflexivity. Qed.

Lemma gsum_ext {A} n (x : A -> nat -> R) e e' data j : (forall d, In d data -> e d = e' d) ->
  gsum n x e data j = gsum n x e' data j.
Proof.
  intros H. unfold gsum. generalize (fun _ : nat => 0). induction data as [|d r IH]; intros g; [reflexivity|].
  cbn [fold_left]. rewrite (H d) by (left; auto). apply IH. intros. apply H. right. auto.
Qed.

(** parameters after a plain gradient step of size lr *)
Definition gradient_step (n : nat) (lr : R) (g w w' : nat -> R) (b b' : R) : Prop :=
  (forall i, (i < n)%nat -> w' i = w i - lr * g i) /\ b' = b - lr * g n.

Theorem C86_linear : forall n xs ys m, xs <> [] ->
  let m' := linear_epoch n xs ys m in
  gradient_step n (l_lr m) (linear_grad n xs ys (pack n (l_w m) (l_b m))) (l_w m) (l_w m') (l_b m) (l_b m').
Proof.
  intros n xs ys m Hx. cbv zeta. unfold linear_epoch. destruct xs as [|x0 xs0] eqn:Ex; [congruence|]. rewrite <- Ex in *.
  cbn [l_w l_b]. unfold linear_grad.
  assert (forall j, (j < n + 1)%nat ->
    gsum n fst (fun d => Some ((1 + 1) * (pscore n (pack n (l_w m) (l_b m)) (fst d) - snd d))) (combine xs ys) j
    = (1 + 1) * gsum n fst (fun d => Some (score n (l_w m) (l_b m) (fst d) - snd d)) (combine xs ys) j) as G.
  { intros j Hj. rewrite !gsum_value, <- total_map_scal by lia. apply total_map_ext. intros d _. cbn [coef].
    rewrite score_pack. ring. }
  split.
  - intros i Hi. rewrite (upd_loop n (fun i a => a - l_lr m * _)), (proj2 (Nat.ltb_lt i n)) by lia.
    rewrite div_loop, G by lia. reflexivity.
  - rewrite div_loop, G by lia. reflexivity.
Qed.

Theorem C86_logistic : forall n xs ys m, xs <> [] ->
  let m' := logistic_epoch n xs ys m in
  gradient_step n (l_lr m) (logistic_grad n xs ys (pack n (l_w m) (l_b m))) (l_w m) (l_w m') (l_b m) (l_b m').
Proof.
  intros n xs ys m Hx. cbv zeta. unfold logistic_epoch. destruct xs as [|x0 xs0] eqn:Ex; [congruence|]. rewrite <- Ex in *.
  cbn [l_w l_b]. unfold logistic_grad, predict_probability.
  assert (forall j,
    gsum n fst (fun d => Some (sigmoid (pscore n (pack n (l_w m) (l_b m)) (fst d)) - y_f (snd d))) (combine xs ys) j
    = gsum n fst (fun d => Some (sigmoid (score n (l_w m) (l_b m) (fst d)) - y_f (snd d))) (combine xs ys) j) as G.
  { intros j. apply gsum_ext. intros d _. rewrite score_pack. reflexivity. }
  split.
  - intros i Hi. rewrite (upd_loop n (fun i a => a - l_lr m * _)), (proj2 (Nat.ltb_lt i n)) by lia.
    rewrite div_loop, G by lia. reflexivity.
  - rewrite div_loop, G by lia. reflexivity.
Qed.

Lemma reg_value n (g r : nat -> R) m j : (j < n + 1)%nat ->
  let g1 := for_ 0 n (fun i g => upd g i (g i / m + r i)) g in
  upd g1 n (g1 n / m) j = if (j <? n)%nat then g j / m + r j else g j / m.
Proof.
  intros Hj. cbv zeta.
  assert (forall i, for_ 0 n (fun i g => upd g i (g i / m + r i)) g i
                    = if (i <? n)%nat then g i / m + r i else g i) as L.
  { intros i. rewrite (upd_loop n (fun i a => a / m + r i)). reflexivity. }
  unfold upd at 1. rewrite !L, Nat.ltb_irrefl. destruct (Nat.eqb_spec j n) as [->|]; [rewrite Nat.ltb_irrefl; reflexivity|].
  rewrite (proj2 (Nat.ltb_lt j n)) by lia. reflexivity.
Qed.

Theorem C86_ridge : forall n alpha xs ys m, xs <> [] ->
  let m' := ridge_epoch n alpha xs ys m in
  gradient_step n (l_lr m) (ridge_grad n alpha xs ys (pack n (l_w m) (l_b m))) (l_w m) (l_w m') (l_b m) (l_b m').
Proof.
  intros n alpha xs ys m Hx. cbv zeta. unfold ridge_epoch. destruct xs as [|x0 xs0] eqn:Ex; [congruence|]. rewrite <- Ex in *.
  cbn [l_w l_b]. unfold ridge_grad. cbv zeta.
  assert (forall j, (j < n + 1)%nat ->
    gsum n fst (fun d => Some ((1 + 1) * (pscore n (pack n (l_w m) (l_b m)) (fst d) - snd d))) (combine xs ys) j
    = (1 + 1) * gsum n fst (fun d => Some (score n (l_w m) (l_b m) (fst d) - snd d)) (combine xs ys) j) as G.
  { intros j Hj. rewrite !gsum_value, <- total_map_scal by lia. apply total_map_ext. intros d _. cbn [coef].
    rewrite score_pack. ring. }
  split.
  - intros i Hi. rewrite (upd_loop n (fun i a => a - l_lr m * (_ + (1 + 1) * alpha * a))), (proj2 (Nat.ltb_lt i n)) by lia.
    rewrite (reg_value n _ (fun i => (1 + 1) * alpha * pack n (l_w m) (l_b m) i)) by lia.
    rewrite (proj2 (Nat.ltb_lt i n)), G by lia. unfold pack. rewrite upd_other, vfill_in by lia. reflexivity.
  - rewrite (reg_value n _ (fun i => (1 + 1) * alpha * pack n (l_w m) (l_b m) i)) by lia.
    rewrite Nat.ltb_irrefl, G by lia. reflexivity.
Qed.

(** The SVM epoch weighs the regulariser by 2/m relative to the loss handed to the optimiser. *)
Theorem C86_svm_partial : forall n xs ys m, xs <> [] ->
  let m' := svm_epoch n xs ys m in
  let g := svm_grad n (s_c m) xs ys (pack n (s_w m) (s_b m)) in
  (forall i, (i < n)%nat -> s_w m' i = s_w m i
     - s_lr m * (g i - s_w m i / s_c m + 2 / (s_c m * INR (length xs)) * s_w m i)) /\
  s_b m' = s_b m - s_lr m * g n.
Proof.
  intros n xs ys m Hx. cbv zeta. unfold svm_epoch. destruct xs as [|x0 xs0] eqn:Ex; [congruence|]. rewrite <- Ex in *.
  cbn [s_w s_b]. unfold svm_grad. cbv zeta.
  assert (forall j, (j < n + 1)%nat ->
    gsum n fst (fun d => if Rltb (lab_f (snd d) * pscore n (pack n (s_w m) (s_b m)) (fst d)) 1
                         then Some (- lab_f (snd d)) else None) (combine xs ys) j
    = gsum n fst (fun d => if Rleb 1 (lab_f (snd d) * score n (s_w m) (s_b m) (fst d)) then Some 0
                           else Some (- lab_f (snd d))) (combine xs ys) j) as G.
  { intros j Hj. rewrite !gsum_value by lia. apply total_map_ext. intros d _. rewrite score_pack.
    unfold Rltb, Rleb. destruct (Rlt_dec _ 1); destruct (Rle_dec 1 _); cbn [coef]; lra. }
  split.
  - intros i Hi. rewrite (upd_loop n (fun i a => a - s_lr m * (_ + (1 + 1) / (s_c m * INR (length xs)) * a))), (proj2 (Nat.ltb_lt i n)) by lia.
    rewrite (reg_value n _ (fun i => pack n (s_w m) (s_b m) i / s_c m)) by lia.
    rewrite (proj2 (Nat.ltb_lt i n)), G by lia. unfold pack at 1. rewrite upd_other, vfill_in by lia.
    replace (1 + 1) with 2 by ring. ring.
  - rewrite (reg_value n _ (fun i => pack n (s_w m) (s_b m) i / s_c m)) by lia.
    rewrite Nat.ltb_irrefl, G by lia. reflexivity.
Qed.
Theorem C86_svm_refuted : exists n xs ys m, xs <> [] /\
  let m' := svm_epoch n xs ys m in
  ~ gradient_step n (s_lr m) (svm_grad n (s_c m) xs ys (pack n (s_w m) (s_b m))) (s_w m) (s_w m') (s_b m) (s_b m').
Proof.
  exists 1%nat, [fun _ => 0], [1%Z], (mkSvm (fun _ => 1) 0 1 1). split; [discriminate|]. intros m' [H _].
  specialize (H 0%nat ltac:(lia)). pose proof (C86_svm_partial 1 [fun _ => 0] [1%Z] (mkSvm (fun _ => 1) 0 1 1)) as P.
  cbv zeta in P. destruct P as [P _]; [discriminate|]. specialize (P 0%nat ltac:(lia)). subst m'.
  rewrite P in H. cbn [s_lr s_w s_c s_b length INR] in H. lra.
Qed.
