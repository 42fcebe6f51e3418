(** C117: how close least-squares training gets to the best fit. *)
From Coq Require Import QArith Qreals Reals List Arith Lia Lra Psatz Bool.
From Coquelicot Require Import Coquelicot.
From Verif Require Import Scalar RSum LinModel LinProofs OptModel OptSpec OptProofs OptProps MlModel StatsSpec StatsProofs
  MlSpec MlProofs MlGradProps OptRateProps.
Import ListNotations.
Open Scope R_scope.

(** ** Specification *)
(** squared distance of two models *)
Definition model_dist2 (n : nat) (w : nat -> R) (b : R) (w' : nat -> R) (b' : R) : R :=
  sum n (fun i => (w i - w' i) ^ 2) + (b - b') ^ 2.
(** the error of ridge regression; with [alpha = 0] the mean squared error *)
Definition ridge_err (n : nat) (alpha : R) (xs : list (nat -> R)) (ys : list R) (w : nat -> R) (b : R) : R :=
  mse n xs ys w b + alpha * penalty n w.
(** the promise: with [away = ] the squared distance of the start from the competitor plus a multiple of the initial
    excess error, the excess error of the answer is [O(1 / iterations)], unless a tolerance stopped the run *)
Definition excess (c : @gd R) (L away : R) : R :=
  Rmax (away / (2 * least_step c L * INR (gd_max_iters c)))
       (sqrt away * Rmax (gd_tol_grad c) (gd_tol_step c / least_step c L)).

(** ** Both losses are convex *)
Lemma linear_convex n xs ys : convex (n + 1) (linear_loss n xs ys) (linear_grad n xs ys) 0.
Proof.
  intros p q _. rewrite (linear_exact n xs ys p q).
  assert (0 <= total (map (fun d : (nat -> R) * R => pscore n (fun i => q i - p i) (fst d) * pscore n (fun i => q i - p i) (fst d)) (combine xs ys))
      / INR (length xs)).
  { apply Rmult_le_pos; [|apply inv_INR_pos]. apply total_map_pos. intros. apply Rle_0_sqr. }
  lra.
Qed.

Lemma ridge_convex n alpha xs ys : 0 <= alpha -> convex (n + 1) (ridge_loss n alpha xs ys) (ridge_grad n alpha xs ys) 0.
Proof.
  intros Ha p q He. pose proof (linear_convex n xs ys p q He) as L.
  unfold ridge_grad. rewrite reg_dot, !ridge_split. unfold linear_grad in L. rewrite mean_dot in L.
  assert (alpha * penalty n p + sum n (fun i => (1 + 1) * alpha * p i * (q i - p i)) <= alpha * penalty n q) as Q.
  { unfold penalty.
    rewrite (sum_ext n (fun i => (1 + 1) * alpha * p i * (q i - p i)) (fun i => alpha * (2 * (p i * (q i - p i))))) by (intros; ring).
    rewrite sum_scal, <- !Rmult_plus_distr_l. apply Rmult_le_compat_l; [exact Ha|].
    rewrite <- sum_plus. apply sum_le. intros i Hi. pose proof (Rle_0_sqr (q i - p i)) as W. unfold Rsqr in W. lra. }
  lra.
Qed.

Lemma pack_tail n w b w' b' : same_tail (n + 1) (pack n w b) (pack n w' b').
Proof.
  intros i Hi. unfold pack. rewrite !upd_other by lia. rewrite !vfill_spec, (proj2 (Nat.ltb_ge i n)) by lia. reflexivity.
Qed.
Lemma pack_dist n w b w' b' : dist2 (n + 1) (pack n w b) (pack n w' b') = model_dist2 n w b w' b'.
Proof.
  unfold dist2, model_dist2. replace (n + 1)%nat with (S n) by lia. cbn [sum]. f_equal.
  2: { unfold pack. rewrite !upd_same. ring. }
  apply sum_ext. intros i Hi. unfold pack. rewrite !upd_other, !vfill_in by lia. ring.
Qed.
Lemma ridge_loss_pack n alpha xs ys w b : ridge_loss n alpha xs ys (pack n w b) = ridge_err n alpha xs ys w b.
Proof.
  rewrite ridge_split, linear_loss_mse. unfold ridge_err. do 2 f_equal. apply sum_ext.
  intros i Hi. unfold pack. rewrite upd_other, vfill_in by lia. reflexivity.
Qed.

(** ** C117 *)
Theorem C117_linear_fit : forall n xs ys opt fuel m m' w b,
  xs <> [] -> length xs = length ys -> descending opt (curvature n xs ys) ->
  0 < gd_c1 opt -> (0 < gd_max_iters opt)%nat ->
  linear_fit n xs ys opt fuel m = Some m' ->
  mse n xs ys (l_w m') (l_b m') - mse n xs ys w b
  <= excess opt (curvature n xs ys)
       (model_dist2 n (l_w m) (l_b m) w b
        + gd_lr opt / gd_c1 opt * (mse n xs ys (l_w m) (l_b m) - mse n xs ys w b)).
Proof.
  intros n xs ys opt fuel m m' w b Hx Hl (H1 & H2 & H3 & H4 & H5 & H6 & H7 & H8) Hc Hi H.
  unfold linear_fit in H. destruct xs as [|x0 xs0] eqn:Ex; [congruence|]. rewrite <- Ex in *.
  destruct (minimize _ _ _ _ _ _ _) as [[[[p fp] k] ok]|] eqn:Em; [|discriminate]. injection H as <-. cbn [l_w l_b].
  pose proof (C115_search_answer _ _ _ _ _ _ _ (pack n w b) _ _ _ _ H1 H2 H3 (C85_linear_loss_is_smooth n xs ys)
     (linear_convex n xs ys) (curvature_pos n xs ys Hx Hl) H4 H5 (conj Hc (proj2 H6)) H7 H8 Hi (pack_tail n _ _ _ _) Em) as Q.
  cbv zeta in Q. rewrite pack_dist, !linear_loss_mse in Q.
  destruct (C51_smooth_never_increases _ _ _ _ _ _ _ _ _ _ _ H1 H2 H3 (C85_linear_loss_is_smooth n xs ys)
              (curvature_pos n xs ys Hx Hl) H4 H5 H6 H7 H8 Em) as [Ef _]. subst fp.
  unfold excess. rewrite <- (linear_loss_mse n xs ys (vfill n p (l_w m))). 
  rewrite (linear_loss_ext n xs ys _ p) by (intros i Hi'; apply pack_again, Hi'). exact Q.
Qed.

Theorem C117_ridge_fit : forall n alpha xs ys opt fuel m m' w b,
  xs <> [] -> length xs = length ys -> 0 <= alpha -> descending opt (curvature n xs ys + 2 * alpha) ->
  0 < gd_c1 opt -> (0 < gd_max_iters opt)%nat ->
  ridge_fit n alpha xs ys opt fuel m = Some m' ->
  ridge_err n alpha xs ys (l_w m') (l_b m') - ridge_err n alpha xs ys w b
  <= excess opt (curvature n xs ys + 2 * alpha)
       (model_dist2 n (l_w m) (l_b m) w b
        + gd_lr opt / gd_c1 opt * (ridge_err n alpha xs ys (l_w m) (l_b m) - ridge_err n alpha xs ys w b)).
Proof.
  intros n alpha xs ys opt fuel m m' w b Hx Hl Ha (H1 & H2 & H3 & H4 & H5 & H6 & H7 & H8) Hc Hi H.
  unfold ridge_fit in H. destruct xs as [|x0 xs0] eqn:Ex; [congruence|]. rewrite <- Ex in *.
  destruct (minimize _ _ _ _ _ _ _) as [[[[p fp] k] ok]|] eqn:Em; [|discriminate]. injection H as <-. cbn [l_w l_b].
  pose proof (curvature_pos n xs ys Hx Hl) as Hcp. assert (HL : 0 < curvature n xs ys + 2 * alpha) by lra.
  pose proof (C115_search_answer _ _ _ _ _ _ _ (pack n w b) _ _ _ _ H1 H2 H3 (C85_ridge_loss_is_smooth n alpha xs ys Ha)
     (ridge_convex n alpha xs ys Ha) HL H4 H5 (conj Hc (proj2 H6)) H7 H8 Hi (pack_tail n _ _ _ _) Em) as Q.
  cbv zeta in Q. rewrite pack_dist, !ridge_loss_pack in Q.
  destruct (C51_smooth_never_increases _ _ _ _ _ _ _ _ _ _ _ H1 H2 H3 (C85_ridge_loss_is_smooth n alpha xs ys Ha)
              HL H4 H5 H6 H7 H8 Em) as [Ef _]. subst fp.
  unfold excess. rewrite <- (ridge_loss_pack n alpha xs ys (vfill n p (l_w m))).
  replace (ridge_loss n alpha xs ys (pack n (vfill n p (l_w m)) (p n))) with (ridge_loss n alpha xs ys p); [exact Q|].
  rewrite !ridge_split. f_equal; [apply linear_loss_ext; intros i Hi'; symmetry; apply pack_again, Hi'|].
  f_equal. apply sum_ext. intros i Hi'. rewrite pack_again by lia. reflexivity.
Qed.

(** The number of iterations that suffices for an accuracy [eps] is known beforehand, and a run with that
    many returns such a model.  (Zero tolerances: no early stop except at an exact minimum.) *)
Theorem C117_any_accuracy : forall n xs ys opt m w b eps,
  xs <> [] -> length xs = length ys -> descending opt (curvature n xs ys) ->
  0 < gd_c1 opt -> gd_tol_grad opt = 0 -> gd_tol_step opt = 0 -> 0 < eps ->
  exists N, forall K, (N <= K)%nat ->
    exists fuel0, forall fuel, (fuel0 <= fuel)%nat ->
    exists m', linear_fit n xs ys (set_max_iters K opt) fuel m = Some m' /\
      mse n xs ys (l_w m') (l_b m') <= mse n xs ys w b + eps.
Proof.
  intros n xs ys opt m w b eps Hx Hl Hd Hc Hg Hs He.
  pose proof (curvature_pos n xs ys Hx Hl) as HL.
  set (away := model_dist2 n (l_w m) (l_b m) w b + gd_lr opt / gd_c1 opt * (mse n xs ys (l_w m) (l_b m) - mse n xs ys w b)).
  pose proof Hd as (H1 & H2 & H3 & H4 & H5 & H6 & H7 & H8). set (L := curvature n xs ys) in *.
  pose proof (least_step_pos opt L HL H4 (proj1 H5) (proj2 H6)) as Pa. set (a := least_step opt L) in *.
  set (B := Rmax 0 (away / (2 * a * eps))).
  destruct (archimed B) as [Hup _]. assert (PB : 0 <= B) by apply Rmax_l.
  exists (S (Z.to_nat (up B))). intros K HK.
  destruct (C51_line_search_terminates (n + 1) (set_max_iters K opt) H5) as [fuel0 Hf]. exists fuel0. intros fuel Hfu.
  destruct (Hf fuel Hfu (linear_loss n xs ys) (linear_grad n xs ys) (pack n (l_w m) (l_b m))) as [[[[p fp] k] ok] Hr].
  assert (Ef : exists m', linear_fit n xs ys (set_max_iters K opt) fuel m = Some m').
  { unfold linear_fit. destruct xs; [congruence|]. rewrite Hr. eauto. }
  destruct Ef as [m' Em]. exists m'. split; [exact Em|].
  pose proof (C117_linear_fit n xs ys (set_max_iters K opt) fuel m m' w b Hx Hl Hd Hc) as Q.
  specialize (Q ltac:(cbn; lia) Em). unfold excess in Q. fold L in Q.
  change (gd_max_iters (set_max_iters K opt)) with K in Q. change (gd_lr (set_max_iters K opt)) with (gd_lr opt) in Q.
  change (gd_c1 (set_max_iters K opt)) with (gd_c1 opt) in Q. change (gd_tol_grad (set_max_iters K opt)) with (gd_tol_grad opt) in Q.
  change (gd_tol_step (set_max_iters K opt)) with (gd_tol_step opt) in Q. change (least_step (set_max_iters K opt) L) with a in Q.
  fold away in Q. rewrite Hg, Hs in Q. replace (0 / a) with 0 in Q by (field; lra). rewrite (Rmax_left 0 0), Rmult_0_r in Q by lra.
  assert (PK : B < INR K).
  { apply Rlt_le_trans with (IZR (up B)); [exact Hup|].
    assert (0 <= up B)%Z by (apply le_IZR; lra).
    rewrite <- (Z2Nat.id (up B)) by assumption. rewrite <- INR_IZR_INZ. apply le_INR. lia. }
  assert (PE : away / (2 * a * eps) < INR K) by (eapply Rle_lt_trans; [apply Rmax_r|exact PK]).
  assert (away / (2 * a * INR K) <= eps).
  { apply (Rmult_le_reg_r (2 * a * INR K)); [apply Rmult_lt_0_compat; lra|].
    replace (away / (2 * a * INR K) * (2 * a * INR K)) with away by (field; split; lra).
    apply Rlt_le. apply (Rmult_lt_compat_r (2 * a * eps)) in PE; [|apply Rmult_lt_0_compat; lra].
    replace (away / (2 * a * eps) * (2 * a * eps)) with away in PE by (field; split; lra). lra. }
  assert (Rmax (away / (2 * a * INR K)) 0 <= eps) by (apply Rmax_lub; lra). lra.
Qed.

(** ** Training epoch by epoch *)
(** [K] plain gradient steps of a fixed size on a smooth convex function *)
Lemma plain_descent N f g L lr (X : nat -> nat -> R) y :
  smooth N f g L -> convex N f g 0 -> 0 < lr -> lr * L <= 1 ->
  (forall j, same_tail N (X j) y) -> (forall j, same_tail N (X j) (X (S j))) ->
  (forall j i, (i < N)%nat -> X (S j) i = X j i - lr * g (X j) i) ->
  forall K, 2 * lr * INR K * (f (X K) - f y) + dist2 N (X K) y <= dist2 N (X 0%nat) y.
Proof.
  intros Hs Hc Hl HL Ty Tx St.
  assert (One : forall j, 2 * lr * (f (X (S j)) - f y) + dist2 N (X (S j)) y <= dist2 N (X j) y /\ f (X (S j)) <= f (X j)).
  { intros j. set (u := X j) in *. set (G := sum N (fun i => g u i * g u i)).
    assert (PG : 0 <= G) by (apply sum_pos; intros; apply Rle_0_sqr).
    pose proof (Hc u y (Ty j)) as Cv. pose proof (Hs u (X (S j)) (Tx j)) as Sm.
    assert (E1 : sum N (fun i => g u i * (X (S j) i - u i)) = - lr * G).
    { unfold G. rewrite <- sum_scal. apply sum_ext. intros i Hi. rewrite (St j i Hi). fold u. ring. }
    assert (E2 : sum N (fun i => (X (S j) i - u i) * (X (S j) i - u i)) = lr * lr * G).
    { unfold G. rewrite <- sum_scal. apply sum_ext. intros i Hi. rewrite (St j i Hi). fold u. ring. }
    assert (E3 : dist2 N (X (S j)) y = dist2 N u y + 2 * lr * sum N (fun i => g u i * (y i - u i)) + lr * lr * G).
    { unfold dist2, G. rewrite <- !sum_scal, <- !sum_plus. apply sum_ext. intros i Hi. rewrite (St j i Hi). fold u. ring. }
    rewrite E1, E2 in Sm. assert (P1 : 0 <= lr * G) by (apply Rmult_le_pos; lra).
    assert (P2 : lr * L * (lr * G) <= 1 * (lr * G)) by (apply Rmult_le_compat_r; lra).
    assert (D : f (X (S j)) <= f u - lr / 2 * G) by lra.
    assert (C2 : 2 * lr * sum N (fun i => g u i * (y i - u i)) <= 2 * lr * (f y - f u)) by (apply Rmult_le_compat_l; lra).
    assert (C3 : 2 * lr * (f (X (S j)) - f y) <= 2 * lr * (f u - lr / 2 * G - f y)) by (apply Rmult_le_compat_l; lra).
    split; lra. }
  induction K as [|K IH]; [cbn [INR]; lra|]. destruct (One K) as [A B]. rewrite S_INR. pose proof (pos_INR K) as PK.
  assert (2 * lr * INR K * (f (X (S K)) - f y) <= 2 * lr * INR K * (f (X K) - f y)).
  { apply Rmult_le_compat_l; [apply Rmult_le_pos; lra|lra]. }
  lra.
Qed.

Lemma iter_pack n (epoch : linreg -> linreg) g lr m y :
  (forall m, l_lr (epoch m) = l_lr m) -> l_lr m = lr ->
  (forall m, gradient_step n (l_lr m) (g (pack n (l_w m) (l_b m))) (l_w m) (l_w (epoch m)) (l_b m) (l_b (epoch m))) ->
  let X := fun j => let mj := Nat.iter j epoch m in pack n (l_w mj) (l_b mj) in
  (forall j, same_tail (n + 1) (X j) (pack n (fst y) (snd y))) /\ (forall j, same_tail (n + 1) (X j) (X (S j))) /\
  (forall j i, (i < n + 1)%nat -> X (S j) i = X j i - lr * g (X j) i).
Proof.
  intros Hlr E Hst X. assert (El : forall j, l_lr (Nat.iter j epoch m) = lr).
  { induction j as [|j IH]; [exact E|]. cbn [Nat.iter]. change (Nat.iter (S j) epoch m) with (epoch (Nat.iter j epoch m)). rewrite Hlr. exact IH. }
  split; [intros; apply pack_tail|]. split; [intros; apply pack_tail|].
  intros j i Hi. unfold X. change (Nat.iter (S j) epoch m) with (epoch (Nat.iter j epoch m)).
  destruct (Hst (Nat.iter j epoch m)) as [A B]. rewrite El in A, B. unfold pack at 1 2.
  destruct (Nat.eq_dec i n) as [->|Ni]; [rewrite !upd_same; exact B|].
  rewrite !upd_other, !vfill_in by lia. apply A. lia.
Qed.

(** With a learning rate at most 1/curvature, [K] epochs leave an excess error of at most
    distance^2 / (2 lr K) over every model. *)
Theorem C117_linear_epochs : forall n xs ys m w b K,
  xs <> [] -> length xs = length ys -> 0 < l_lr m -> l_lr m * curvature n xs ys <= 1 -> (0 < K)%nat ->
  let m' := Nat.iter K (linear_epoch n xs ys) m in
  mse n xs ys (l_w m') (l_b m') - mse n xs ys w b <= model_dist2 n (l_w m) (l_b m) w b / (2 * l_lr m * INR K).
Proof.
  intros n xs ys m w b K Hx Hl Hr Hc HK m'.
  destruct (iter_pack n (linear_epoch n xs ys) (linear_grad n xs ys) (l_lr m) m (w, b)) as (A & B & C); [|reflexivity| |].
  { intros q. unfold linear_epoch. destruct xs; reflexivity. }
  { intros q. apply C86_linear, Hx. }
  pose proof (plain_descent (n + 1) _ _ _ (l_lr m) _ _ (C85_linear_loss_is_smooth n xs ys) (linear_convex n xs ys) Hr Hc A B C K) as Q.
  cbv zeta in Q. cbn [fst snd] in Q. rewrite !linear_loss_mse, !pack_dist in Q. change (Nat.iter 0 _ m) with m in Q. fold m' in Q.
  assert (0 <= model_dist2 n (l_w m') (l_b m') w b) by (rewrite <- pack_dist; apply dist2_pos).
  pose proof (lt_0_INR _ HK) as PK. assert (P : 0 < 2 * l_lr m * INR K) by (apply Rmult_lt_0_compat; lra).
  apply (Rmult_le_reg_r (2 * l_lr m * INR K)); [exact P|].
  match goal with |- _ <= ?d / ?e * ?e => replace (d / e * e) with d by (field; split; lra) end. lra.
Qed.

Theorem C117_ridge_epochs : forall n alpha xs ys m w b K,
  xs <> [] -> length xs = length ys -> 0 <= alpha -> 0 < l_lr m ->
  l_lr m * (curvature n xs ys + 2 * alpha) <= 1 -> (0 < K)%nat ->
  let m' := Nat.iter K (ridge_epoch n alpha xs ys) m in
  ridge_err n alpha xs ys (l_w m') (l_b m') - ridge_err n alpha xs ys w b
  <= model_dist2 n (l_w m) (l_b m) w b / (2 * l_lr m * INR K).
Proof.
  intros n alpha xs ys m w b K Hx Hl Ha Hr Hc HK m'.
  destruct (iter_pack n (ridge_epoch n alpha xs ys) (ridge_grad n alpha xs ys) (l_lr m) m (w, b)) as (A & B & C); [|reflexivity| |].
  { intros q. unfold ridge_epoch. destruct xs; reflexivity. }
  { intros q. apply C86_ridge, Hx. }
  pose proof (plain_descent (n + 1) _ _ _ (l_lr m) _ _ (C85_ridge_loss_is_smooth n alpha xs ys Ha) (ridge_convex n alpha xs ys Ha) Hr Hc A B C K) as Q.
  cbv zeta in Q. cbn [fst snd] in Q. rewrite !ridge_loss_pack, !pack_dist in Q. change (Nat.iter 0 _ m) with m in Q. fold m' in Q.
  assert (0 <= model_dist2 n (l_w m') (l_b m') w b) by (rewrite <- pack_dist; apply dist2_pos).
  pose proof (lt_0_INR _ HK) as PK. assert (P : 0 < 2 * l_lr m * INR K) by (apply Rmult_lt_0_compat; lra).
  apply (Rmult_le_reg_r (2 * l_lr m * INR K)); [exact P|].
  match goal with |- _ <= ?d / ?e * ?e => replace (d / e * e) with d by (field; split; lra) end. lra.
Qed.

(** ** Logistic regression: the epochs descend on the textbook cross-entropy *)
Definition log_loss (y s : R) : R := - (y * ln (sigmoid s) + (1 - y) * ln (1 - sigmoid s)).
(** mean cross-entropy of the model [(w, b)]; the target of a sample is 1 except for label 0 *)
Definition mean_log_loss (n : nat) (xs : list (nat -> R)) (ys : list nat) (w : nat -> R) (b : R) : R :=
  total (map (fun d => log_loss (if (snd d =? 0)%nat then 0 else 1) (affine n w b (fst d))) (combine xs ys)) / INR (length xs).

Lemma log_loss_derive y s : is_derive (log_loss y) s (sigmoid s - y).
Proof.
  pose proof (sigmoid_bounds s). apply (is_derive_ext (fun s => - (y * ln (sigmoid s + 0) + (1 - y) * ln (1 - sigmoid s + 0)))).
  { intros t. unfold log_loss. rewrite !Rplus_0_r. reflexivity. }
  evar_last; [apply entropy_derive; lra|]. field. lra.
Qed.

Lemma sigmoid_slope a b : a <= b -> 0 <= sigmoid b - sigmoid a <= (b - a) / 4.
Proof.
  intros Hab. destruct (MVT_gen sigmoid a b (fun x => sigmoid x * (1 - sigmoid x))) as (c & Hc & E).
  { intros x _. apply sigmoid_derive. }
  { intros x _. apply continuity_pt_filterlim. apply (ex_derive_continuous (V := R_NormedModule)). eexists. apply sigmoid_derive. }
  rewrite E. pose proof (sigmoid_bounds c) as B. pose proof (Rle_0_sqr (sigmoid c - 1 / 2)) as S. unfold Rsqr in S.
  assert (P : 0 <= sigmoid c * (1 - sigmoid c) <= / 4) by (split; [apply Rmult_le_pos; lra|lra]).
  split; [apply Rmult_le_pos; lra|]. unfold Rdiv. rewrite (Rmult_comm (b - a)). apply Rmult_le_compat_r; lra.
Qed.

Lemma log_loss_below y s t : log_loss y s + (sigmoid s - y) * (t - s) <= log_loss y t.
Proof.
  destruct (MVT_gen (log_loss y) s t (fun x => sigmoid x - y)) as (c & Hc & E).
  { intros x _. apply log_loss_derive. }
  { intros x _. apply continuity_pt_filterlim. apply (ex_derive_continuous (V := R_NormedModule)). eexists. apply log_loss_derive. }
  assert (0 <= (sigmoid c - sigmoid s) * (t - s)); [|lra].
  destruct (Rle_or_lt s t) as [Q|Q].
  - rewrite Rmin_left, Rmax_right in Hc by lra. pose proof (sigmoid_slope s c ltac:(lra)). apply Rmult_le_pos; lra.
  - rewrite Rmin_right, Rmax_left in Hc by lra. pose proof (sigmoid_slope c s ltac:(lra)).
    replace ((sigmoid c - sigmoid s) * (t - s)) with ((sigmoid s - sigmoid c) * (s - t)) by ring. apply Rmult_le_pos; lra.
Qed.

Lemma log_loss_above y s t : log_loss y t <= log_loss y s + (sigmoid s - y) * (t - s) + (t - s) * (t - s) / 8.
Proof.
  assert (D : forall x : R, is_derive (fun x : R => log_loss y x - (x - s) * (x - s) / 8) x (sigmoid x - y - (x - s) / 4)).
  { intros x. evar_last; [apply (is_derive_minus (V := R_NormedModule)); [apply log_loss_derive|auto_derive; [auto|reflexivity]]|].
    cbn. unfold minus, plus, opp; cbn. field. }
  destruct (MVT_gen (fun x => log_loss y x - (x - s) * (x - s) / 8) s t (fun x => sigmoid x - y - (x - s) / 4)) as (c & Hc & E).
  { intros x _. apply D. }
  { intros x _. apply continuity_pt_filterlim. apply (ex_derive_continuous (V := R_NormedModule) (fun x : R => log_loss y x - (x - s) * (x - s) / 8)). eexists. apply D. }
  assert (0 <= ((c - s) / 4 - (sigmoid c - sigmoid s)) * (t - s)); [|lra].
  destruct (Rle_or_lt s t) as [Q|Q].
  - rewrite Rmin_left, Rmax_right in Hc by lra. pose proof (sigmoid_slope s c ltac:(lra)). apply Rmult_le_pos; lra.
  - rewrite Rmin_right, Rmax_left in Hc by lra. pose proof (sigmoid_slope c s ltac:(lra)).
    replace (((c - s) / 4 - (sigmoid c - sigmoid s)) * (t - s)) with (((s - c) / 4 - (sigmoid s - sigmoid c)) * (s - t)) by field. apply Rmult_le_pos; lra.
Qed.

(** a quarter of the mean squared length of the samples, with the constant 1 appended *)
Definition log_curvature (n : nat) (xs : list (nat -> R)) : R :=
  total (map (fun x => sum n (fun i => x i * x i) + 1) xs) / INR (length xs) / 4.

Lemma map_fst_combine {A B C} (f : A -> C) : forall (xs : list A) (ys : list B), length xs = length ys ->
  map (fun d => f (fst d)) (combine xs ys) = map f xs.
Proof.
  induction xs as [|x xs IH]; intros [|y ys] H; try discriminate; [reflexivity|]. cbn. f_equal. apply IH. cbn in H. lia.
Qed.

Lemma cross_entropy_loss n xs ys p :
  cross_entropy 0 n xs ys p = total (map (fun d => log_loss (y_f (snd d)) (pscore n p (fst d))) (combine xs ys)) / INR (length xs).
Proof.
  unfold cross_entropy. rewrite lsum_total. f_equal. apply total_map_ext. intros d _. unfold log_loss. cbv zeta. rewrite !Rplus_0_r. reflexivity.
Qed.

Lemma logistic_convex n xs ys : convex (n + 1) (cross_entropy 0 n xs ys) (logistic_grad n xs ys) 0.
Proof.
  intros p q _. rewrite !cross_entropy_loss. unfold logistic_grad. rewrite mean_dot.
  pose proof (mean_subgradient n fst (fun d => log_loss (y_f (snd d))) (fun d => Some (sigmoid (pscore n p (fst d)) - y_f (snd d)))
     (combine xs ys) (INR (length xs)) p (inv_INR_pos _)) as M.
  specialize (M ltac:(intros d s _; cbn [coef]; apply log_loss_below) q). lra.
Qed.

Lemma logistic_smooth n xs ys : length xs = length ys ->
  smooth (n + 1) (cross_entropy 0 n xs ys) (logistic_grad n xs ys) (log_curvature n xs).
Proof.
  intros Hl p q _. rewrite !cross_entropy_loss. unfold logistic_grad. rewrite mean_dot, gsum_dot.
  unfold log_curvature. rewrite <- (map_fst_combine _ xs ys Hl).
  set (D := sum (n + 1) (fun i => (q i - p i) * (q i - p i))).
  assert (forall a b c e m : R, 0 <= / m -> a <= b + c + e * D / 8 -> a / m <= b / m + c / m + e / m / 4 / 2 * D) as Ar.
  { intros a b c e m Hm H. unfold Rdiv in *. apply (Rmult_le_compat_r (/ m)) in H; [|exact Hm]. lra. }
  apply Ar; [apply inv_INR_pos|]. unfold Rdiv. rewrite Rmult_assoc, <- total_map_scal_r, <- !total_map_plus. apply total_map_le. intros d _.
  cbn [coef]. rewrite pscore_minus.
  pose proof (log_loss_above (y_f (snd d)) (pscore n p (fst d)) (pscore n q (fst d))) as U.
  pose proof (pscore_sq n (fun i => q i - p i) (fst d)) as C. rewrite pscore_minus in C. fold D in C. lra.
Qed.

Lemma cross_entropy_pack n xs ys w b : cross_entropy 0 n xs ys (pack n w b) = mean_log_loss n xs ys w b.
Proof.
  rewrite cross_entropy_loss. unfold mean_log_loss. f_equal. apply total_map_ext. intros d _. rewrite pscore_pack. reflexivity.
Qed.

Theorem C117_logistic_epochs : forall n xs ys m w b K,
  xs <> [] -> length xs = length ys -> 0 < l_lr m -> l_lr m * log_curvature n xs <= 1 -> (0 < K)%nat ->
  let m' := Nat.iter K (logistic_epoch n xs ys) m in
  mean_log_loss n xs ys (l_w m') (l_b m') - mean_log_loss n xs ys w b
  <= model_dist2 n (l_w m) (l_b m) w b / (2 * l_lr m * INR K).
Proof.
  intros n xs ys m w b K Hx Hl Hr Hc HK m'.
  destruct (iter_pack n (logistic_epoch n xs ys) (logistic_grad n xs ys) (l_lr m) m (w, b)) as (A & B & C); [|reflexivity| |].
  { intros q. unfold logistic_epoch. destruct xs; reflexivity. }
  { intros q. apply C86_logistic, Hx. }
  pose proof (plain_descent (n + 1) _ _ _ (l_lr m) _ _ (logistic_smooth n xs ys Hl) (logistic_convex n xs ys) Hr Hc A B C K) as Q.
  cbv zeta in Q. cbn [fst snd] in Q. rewrite !cross_entropy_pack, !pack_dist in Q. change (Nat.iter 0 _ m) with m in Q. fold m' in Q.
  assert (0 <= model_dist2 n (l_w m') (l_b m') w b) by (rewrite <- pack_dist; apply dist2_pos).
  pose proof (lt_0_INR _ HK) as PK. assert (P : 0 < 2 * l_lr m * INR K) by (apply Rmult_lt_0_compat; lra).
  apply (Rmult_le_reg_r (2 * l_lr m * INR K)); [exact P|].
  match goal with |- _ <= ?d / ?e * ?e => replace (d / e * e) with d by (field; split; lra) end. lra.
Qed.

(** Default settings with zero tolerances; three samples on no line, started at zero.  The best fit is the line
    1/3 + x/2, with error 1/18. *)
Example C117_nontrivial :
  let opt := mkGd (1 / 100) true (1 / 10000) (1 / 2) 0 0 0 10000%nat false (fun _ => 0) (fun _ => 0) in
  let xs := [fun _ : nat => 0; fun _ => 1; fun _ => 2] in let ys := [1/2; 1/2; 3/2] in
  xs <> [] /\ length xs = length ys /\ descending opt (curvature 1 xs ys) /\ 0 < gd_c1 opt /\
  mse 1 xs ys (fun _ => 0) 0 = 11 / 12 /\ mse 1 xs ys (fun _ => 1 / 2) (1 / 3) = 1 / 18 /\
  1 / 10 * curvature 1 xs ys <= 1 /\ 1 * log_curvature 1 xs <= 1.
Proof.
  cbv zeta. split; [discriminate|]. split; [reflexivity|]. split; [|split; [cbn; lra|]].
  - unfold descending, curvature. cbn [gd_backtracking gd_has_bounds gd_momentum gd_lr gd_tau gd_c1 gd_tol_grad combine map total length fst sum INR].
    do 3 (split; [reflexivity|]). do 4 (split; [lra|]). replace (10 ^ 20) with 100000000000000000000 by ring. lra.
  - unfold mse, affine. unfold curvature, log_curvature. cbn [combine map total length fst snd sum INR]. repeat split; lra.
Qed.
