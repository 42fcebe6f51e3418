(** Perceptron convergence and training losses (C54, C55, C84, C85). *)
From Coq Require Import Reals ZArith QArith Qreals List Arith Bool Lia Lra.
From Coquelicot Require Import Coquelicot.
From Verif Require Import Scalar RSum LinModel LinProofs OptModel OptSpec OptProps MlModel StatsSpec StatsProofs
  MlSpec MlProofs.
Import ListNotations.
Open Scope R_scope.

(** ** C54 *)

(** Samples the model meets on the wrong side (or on the boundary) while it trains on [data]. *)
Fixpoint mistakes (n : nat) (data : list ((nat -> R) * Z)) (p : perceptron) : nat :=
  match data with
  | [] => 0
  | (x, l) :: r =>
      (if Rle_dec (sign_of l * affine n (p_w p) (p_b p) x) 0 then 1 else 0) +
      mistakes n r (perceptron_step n p (x, l))
  end.
(** the model after k epochs, and the mistakes made in all of them *)
Fixpoint after_epochs (n : nat) xs ys (k : nat) (p : perceptron) : perceptron :=
  match k with O => p | S k => perceptron_epoch n xs ys (after_epochs n xs ys k p) end.
Fixpoint total_mistakes (n : nat) xs ys (k : nat) (p : perceptron) : nat :=
  match k with
  | O => 0
  | S k => total_mistakes n xs ys k p + mistakes n (combine xs ys) (after_epochs n xs ys k p)
  end.

Lemma lab_sign l : lab_f l = sign_of l.
Proof. reflexivity. Qed.
Lemma sign_sq l : sign_of l * sign_of l = 1.
Proof. unfold sign_of. destruct (0 <=? l)%Z; lra. Qed.

Lemma step_cases n p x l :
  (0 < sign_of l * affine n (p_w p) (p_b p) x /\ perceptron_step n p (x, l) = p) \/
  (sign_of l * affine n (p_w p) (p_b p) x <= 0 /\
   exists w, perceptron_step n p (x, l) = mkP w (p_b p + p_lr p * sign_of l) (p_lr p) /\
     forall i, (i < n)%nat -> w i = p_w p i + p_lr p * sign_of l * x i).
Proof.
  unfold perceptron_step. rewrite score_affine. change (lab_f l) with (sign_of l). unfold Rleb.
  destruct (Rle_dec _ 0) as [H|H]; [right|left; split; [lra|reflexivity]].
  split; [exact H|]. eexists. split; [reflexivity|]. intros i Hi.
  rewrite (upd_loop n (fun i a => a + p_lr p * sign_of l * x i)), (proj2 (Nat.ltb_lt i n)) by lia. reflexivity.
Qed.

Definition alignment n (p : perceptron) (w : nat -> R) (b : R) : R := sum n (fun i => p_w p i * w i) + p_b p * b.
Definition size n (p : perceptron) : R := sum n (fun i => p_w p i * p_w p i) + p_b p * p_b p.

Lemma train_bounds n ws bs gamma rad data : separates n ws bs gamma data ->
  (forall x l, In (x, l) data -> sum n (fun i => x i * x i) + 1 <= rad * rad) ->
  forall p, 0 < p_lr p ->
  let q := fold_left (perceptron_step n) data p in
  let K := INR (mistakes n data p) in
  p_lr q = p_lr p /\
  alignment n p ws bs + K * (p_lr p * gamma) <= alignment n q ws bs /\
  size n q <= size n p + K * (p_lr p * p_lr p * (rad * rad)).
Proof.
  intros [Hu Hs] Hr. induction data as [|[x l] r IH]; intros p Hlr; cbv zeta.
  - cbn. lra.
  - cbn [fold_left mistakes]. set (p1 := perceptron_step n p (x, l)) in *.
    assert (p_lr p1 = p_lr p /\
            let k := if Rle_dec (sign_of l * affine n (p_w p) (p_b p) x) 0 then 1 else 0 in
            alignment n p ws bs + k * (p_lr p * gamma) <= alignment n p1 ws bs /\
            size n p1 <= size n p + k * (p_lr p * p_lr p * (rad * rad))) as (L1 & A1 & B1).
    { subst p1. destruct (step_cases n p x l) as [[H ->]|(H & w & -> & Hw)]; (split; [reflexivity|]); cbv zeta;
        destruct (Rle_dec _ 0); try lra.
      cbn [p_w p_b p_lr]. pose proof (Hs x l (or_introl eq_refl)) as M.
      pose proof (Hr x l (or_introl eq_refl)) as B. split.
      - unfold alignment. cbn [p_w p_b].
        rewrite (sum_ext n (fun i => w i * ws i)
                   (fun i => p_w p i * ws i + p_lr p * sign_of l * (ws i * x i))).
        2: { intros i Hi. rewrite Hw by lia. ring. }
        rewrite sum_plus, sum_scal. unfold affine in M.
        set (S1 := sum n (fun i => p_w p i * ws i)) in *. set (S2 := sum n (fun i => ws i * x i)) in *.
        pose proof (Rmult_le_compat_l (p_lr p) _ _ (Rlt_le _ _ Hlr) M). lra.
      - unfold size. cbn [p_w p_b].
        rewrite (sum_ext n (fun i => w i * w i)
                   (fun i => p_w p i * p_w p i + 2 * (p_lr p * sign_of l) * (p_w p i * x i)
                             + p_lr p * p_lr p * (sign_of l * sign_of l) * (x i * x i))).
        2: { intros i Hi. rewrite Hw by lia. ring. }
        rewrite !sum_plus, !sum_scal, sign_sq. unfold affine in H.
        set (S1 := sum n (fun i => p_w p i * p_w p i)) in *. set (S2 := sum n (fun i => p_w p i * x i)) in *.
        set (S3 := sum n (fun i => x i * x i)) in *.
        assert (0 <= p_lr p * p_lr p) by nra.
        pose proof (Rmult_le_compat_l _ _ _ H0 B) as Q1.
        assert (p_lr p * (sign_of l * (S2 + p_b p)) <= 0) as Q2 by nra.
        replace ((p_b p + p_lr p * sign_of l) * (p_b p + p_lr p * sign_of l))
          with (p_b p * p_b p + 2 * p_lr p * sign_of l * p_b p + p_lr p * p_lr p * (sign_of l * sign_of l)) by ring.
        rewrite sign_sq. lra. }
    destruct (IH ltac:(intros; apply Hs; right; auto) ltac:(intros; apply (Hr x0 l0); right; auto)
                 p1 ltac:(lra)) as (L2 & A2 & B2).
    rewrite L1 in *. split; [exact L2|]. rewrite plus_INR.
    replace (INR (if Rle_dec (sign_of l * affine n (p_w p) (p_b p) x) 0 then 1 else 0))
      with (if Rle_dec (sign_of l * affine n (p_w p) (p_b p) x) 0 then 1 else 0)
      by (destruct (Rle_dec _ 0); reflexivity).
    set (k := if Rle_dec _ 0 then 1 else 0) in *. split; lra.
Qed.

Lemma epochs_bounds n ws bs gamma rad xs ys p k : separates n ws bs gamma (combine xs ys) ->
  (forall x l, In (x, l) (combine xs ys) -> sum n (fun i => x i * x i) + 1 <= rad * rad) -> 0 < p_lr p ->
  let q := after_epochs n xs ys k p in
  let K := INR (total_mistakes n xs ys k p) in
  p_lr q = p_lr p /\
  alignment n p ws bs + K * (p_lr p * gamma) <= alignment n q ws bs /\
  size n q <= size n p + K * (p_lr p * p_lr p * (rad * rad)).
Proof.
  intros Hs Hr Hl. cbv zeta. induction k as [|k (L & A & B)]; [cbn; lra|].
  cbn [after_epochs total_mistakes]. unfold perceptron_epoch.
  destruct (train_bounds n ws bs gamma rad _ Hs Hr (after_epochs n xs ys k p) ltac:(lra)) as (L2 & A2 & B2).
  rewrite L in *. split; [exact L2|]. rewrite plus_INR. split; lra.
Qed.

(** Every data set that a vector (ws, bs) of length at most 1 separates with margin gamma, every
    learning rate, any number of epochs from the zero model: at most rad^2 / gamma^2 updates. *)
Theorem C54_mistake_bound : forall n lr xs ys ws bs gamma rad k,
  0 < lr -> 0 < gamma ->
  separates n ws bs gamma (combine xs ys) ->
  (forall x l, In (x, l) (combine xs ys) -> sum n (fun i => x i * x i) + 1 <= rad * rad) ->
  INR (total_mistakes n xs ys k (mkP (fun _ => 0) 0 lr)) <= rad ^ 2 / gamma ^ 2.
Proof.
  intros n lr xs ys ws bs gamma rad k Hlr Hg Hs Hr.
  destruct (epochs_bounds n ws bs gamma rad xs ys (mkP (fun _ => 0) 0 lr) k Hs Hr Hlr) as (_ & A & B).
  set (q := after_epochs n xs ys k _) in *. set (K := INR _) in *. cbn [p_lr] in *.
  assert (alignment n (mkP (fun _ => 0) 0 lr) ws bs = 0) as ZA.
  { unfold alignment. cbn [p_w p_b]. rewrite sum_0 by (intros; ring). ring. }
  assert (size n (mkP (fun _ => 0) 0 lr) = 0) as ZB.
  { unfold size. cbn [p_w p_b]. rewrite sum_0 by (intros; ring). ring. }
  rewrite ZA in A. rewrite ZB in B.
  assert (0 <= K) by apply pos_INR.
  (* Cauchy-Schwarz on the augmented vectors *)
  assert (alignment n q ws bs * alignment n q ws bs <= size n q) as CS.
  { pose proof (cauchy_schwarz (S n) (fun i => if (i <? n)%nat then p_w q i else p_b q)
                  (fun i => if (i <? n)%nat then ws i else bs)) as CS.
    cbn [sum] in CS. rewrite Nat.ltb_irrefl in CS.
    rewrite (sum_ext n (fun i => (if (i <? n)%nat then p_w q i else p_b q) * (if (i <? n)%nat then ws i else bs))
               (fun i => p_w q i * ws i)) in CS
      by (intros i Hi; rewrite (proj2 (Nat.ltb_lt i n)) by lia; reflexivity).
    rewrite (sum_ext n (fun i => (if (i <? n)%nat then p_w q i else p_b q) * (if (i <? n)%nat then p_w q i else p_b q))
               (fun i => p_w q i * p_w q i)) in CS
      by (intros i Hi; rewrite (proj2 (Nat.ltb_lt i n)) by lia; reflexivity).
    rewrite (sum_ext n (fun i => (if (i <? n)%nat then ws i else bs) * (if (i <? n)%nat then ws i else bs))
               (fun i => ws i * ws i)) in CS
      by (intros i Hi; rewrite (proj2 (Nat.ltb_lt i n)) by lia; reflexivity).
    fold (alignment n q ws bs) in CS. fold (size n q) in CS. destruct Hs as [Hu _].
    assert (0 <= size n q) by (unfold size; pose proof (sum_sq_pos n (p_w q)); nra). nra. }
  assert (K * (lr * gamma) * (K * (lr * gamma)) <= K * (lr * lr * (rad * rad))) as Q.
  { assert (0 <= K * (lr * gamma)) by (apply Rmult_le_pos; nra).
    apply Rle_trans with (alignment n q ws bs * alignment n q ws bs); [|lra].
    apply Rmult_le_compat; lra. }
  destruct (Req_dec K 0) as [->|Kz].
  - apply Rmult_le_pos; [apply pow2_ge_0|]. left. apply Rinv_0_lt_compat. nra.
  - apply (Rmult_le_reg_r (gamma ^ 2)); [nra|]. field_simplify; [|lra].
    assert (0 < K) by lra. assert (0 < K * (lr * lr)) by (apply Rmult_lt_0_compat; nra).
    apply (Rmult_le_reg_l (K * (lr * lr))); [assumption|]. lra.
Qed.

Lemma no_mistakes n data p : mistakes n data p = 0%nat ->
  fold_left (perceptron_step n) data p = p /\
  forall x l, In (x, l) data -> 0 < sign_of l * affine n (p_w p) (p_b p) x.
Proof.
  revert p. induction data as [|[x l] r IH]; intros p H; cbn [fold_left mistakes] in *.
  - split; [reflexivity|]. intros ? ? [].
  - destruct (step_cases n p x l) as [[H1 E]|[H1 _]].
    + rewrite E in *. destruct (Rle_dec _ 0) in H; [lra|]. destruct (IH p H) as [A B]. split; [exact A|].
      intros x0 l0 [Q|Q]; [injection Q as <- <-; exact H1|apply B, Q].
    + destruct (Rle_dec _ 0) in H; [discriminate|lra].
Qed.

(** Training therefore reaches an epoch without mistakes after at most rad^2 / gamma^2 epochs;
    from then on the model does not change and classifies every sample as labelled. *)
Theorem C54_training_converges : forall n lr xs ys ws bs gamma rad,
  0 < lr -> 0 < gamma ->
  separates n ws bs gamma (combine xs ys) ->
  (forall x l, In (x, l) (combine xs ys) -> sum n (fun i => x i * x i) + 1 <= rad * rad) ->
  let model k := after_epochs n xs ys k (mkP (fun _ => 0) 0 lr) in
  exists k, INR k <= rad ^ 2 / gamma ^ 2 /\
    (forall j, (k <= j)%nat -> model j = model k) /\
    forall x l, In (x, l) (combine xs ys) -> perceptron_predict n (model k) x = class_of l.
Proof.
  intros n lr xs ys ws bs gamma rad Hlr Hg Hs Hr model.
  assert (forall b, (exists k, (k <= b)%nat /\ mistakes n (combine xs ys) (model k) = 0%nat) \/
                    lt b (total_mistakes n xs ys (S b) (mkP (fun _ => 0) 0 lr))) as D.
  { induction b as [|b [(k & Hk & E)|IH]].
    - destruct (mistakes n (combine xs ys) (model 0%nat)) eqn:E; [left; exists 0%nat; auto|right].
      unfold total_mistakes. cbn [after_epochs]. unfold model in E. cbn [after_epochs] in E. rewrite E. lia.
    - left. exists k. split; [lia|exact E].
    - destruct (mistakes n (combine xs ys) (model (S b))) eqn:E; [left; exists (S b); auto|right].
      change (total_mistakes n xs ys (S (S b)) (mkP (fun _ => 0) 0 lr))
        with (Nat.add (total_mistakes n xs ys (S b) (mkP (fun _ => 0) 0 lr)) (mistakes n (combine xs ys) (model (S b)))).
      rewrite E. lia. }
  assert (exists b : nat, rad ^ 2 / gamma ^ 2 < INR b + 1 /\ INR b <= rad ^ 2 / gamma ^ 2) as (b & Hb & Hb').
  { assert (0 <= rad ^ 2 / gamma ^ 2) as P.
    { apply Rmult_le_pos; [apply pow2_ge_0|]. left. apply Rinv_0_lt_compat. nra. }
    destruct (archimed (rad ^ 2 / gamma ^ 2)) as [U1 U2].
    assert (0 <= up (rad ^ 2 / gamma ^ 2) - 1)%Z as Up.
    { assert (0 < up (rad ^ 2 / gamma ^ 2))%Z; [|lia]. apply lt_IZR. lra. }
    exists (Z.to_nat (up (rad ^ 2 / gamma ^ 2) - 1)). rewrite INR_IZR_INZ, Z2Nat.id, minus_IZR by lia. lra. }
  destruct (D b) as [(k & Hk & E)|E].
  - exists k. split; [apply Rle_trans with (INR b); [apply le_INR, Hk|exact Hb']|].
    apply no_mistakes in E. destruct E as [E C]. split.
    + intros j Hj. induction Hj as [|j Hj IH]; [reflexivity|]. unfold model in *. cbn [after_epochs].
      rewrite IH. exact E.
    + intros x l H. apply C in H. unfold perceptron_predict. rewrite score_affine. unfold Rleb.
      unfold sign_of in H. unfold class_of. destruct (0 <=? l)%Z; destruct (Rle_dec _ _); auto; lra.
  - exfalso. pose proof (C54_mistake_bound n lr xs ys ws bs gamma rad (S b) Hlr Hg Hs Hr) as Q.
    assert (INR (S b) <= INR (total_mistakes n xs ys (S b) (mkP (fun _ => 0) 0 lr))) as Q2 by (apply le_INR; lia).
    rewrite S_INR in Q2. lra.
Qed.

(** three points on a line, separated by w = 3/5, b = -4/5 with margin 2/5 *)
Example C54_nontrivial :
  let xs := [fun _ => 0; fun _ => 2; fun _ => 3] in
  separates 1 (fun _ => 3 / 5) (- (4 / 5)) (2 / 5) (combine xs [-1; 1; 1]%Z) /\
  (forall x l, In (x, l) (combine xs [-1; 1; 1]%Z) -> sum 1 (fun i => x i * x i) + 1 <= 4 * 4) /\
  mistakes 1 (combine xs [-1; 1; 1]%Z) (mkP (fun _ => 0) 0 1) = 2%nat.
Proof.
  cbv zeta. split; [split|split].
  - cbn [sum]. lra.
  - intros x l [H|[H|[H|[]]]]; injection H as <- <-; unfold affine, sign_of; cbn [sum Z.leb Z.compare]; lra.
  - intros x l [H|[H|[H|[]]]]; injection H as <- <-; cbn [sum]; lra.
  - cbn [combine mistakes].
    destruct (step_cases 1 (mkP (fun _ => 0) 0 1) (fun _ => 0) (-1)%Z) as [[H1 E1]|(H1 & w1 & E1 & W1)];
      [unfold affine, sign_of in H1; cbn in H1; lra|].
    rewrite E1. cbn [p_b p_lr p_w] in *.
    specialize (W1 0%nat ltac:(lia)).
    assert (w1 0%nat = 0) as W by (rewrite W1; ring).
    destruct (step_cases 1 (mkP w1 (0 + 1 * sign_of (-1)) 1) (fun _ => 2) 1%Z) as [[H2 E2]|(H2 & w2 & E2 & W2)];
      [unfold affine, sign_of in H2; cbn in H2; lra|].
    rewrite E2. cbn [p_b p_lr p_w] in *. specialize (W2 0%nat ltac:(lia)).
    unfold affine, sign_of. cbn [sum Z.leb Z.compare p_w p_b].
    unfold sign_of in W2, H2. cbn [Z.leb Z.compare] in W2.
    rewrite W in *.
    repeat (destruct (Rle_dec _ 0); try lra). reflexivity.
Qed.
