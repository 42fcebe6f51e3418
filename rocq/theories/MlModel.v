(** Model of crates/aether_ml/src: regression/ (linear.rs, ridge.rs, logistic.rs) and
    classification/ (perceptron.rs, svm.rs, naive_bayes.rs, lda_qda.rs).

    Simplification, everywhere in this file: scalars are exact reals ([from_usize], [exp] and
    [ln] are the exact functions).  A [Vector<F, N>] is a function of the in-range indices, a
    slice is a list, [a.iter().zip(b.iter())] is [combine a b].  An augmented parameter vector
    of fit_with_optimizer holds the weights at 0..N and the bias at N; the assertion M == N+1
    is built in. *)
From Coq Require Import Reals ZArith List Arith Bool.
From Verif Require Import Scalar LinModel SolveModel OptModel.
Import ListNotations.
Open Scope R_scope.
Notation vec := (nat -> R).
Notation mat := (nat -> nat -> R).

(** perceptron.rs:23-29, linear.rs:24-30, ridge.rs:26-32, svm.rs:25-31, logistic.rs:33-36 and
    the inner loops of every loss: bias plus the weighted sum, left to right *)
Definition score (n : nat) (w : vec) (b : R) (x : vec) : R :=
  for_ 0 n (fun i s => s + w i * x i) b.
(** the same with the packed parameters (linear.rs:87-90 and the like) *)
Definition pscore (n : nat) (pv : vec) (x : vec) : R := score n pv (pv n) x.

(** linear.rs:70-77 and the like: [w..., bias] *)
Definition pack (n : nat) (w : vec) (b : R) : vec := upd (vfill n w (fun _ => 0)) n b.

(** ** perceptron.rs *)
(* 8-12 *)
Record perceptron := mkP { p_w : vec; p_b : R; p_lr : R }.
(* 15-21 *)
Definition perceptron_new : perceptron := mkP (fun _ => 0) 0 1.
(* 42, 81, svm.rs:46, 99 *)
Definition lab_f (label : Z) : R := if (0 <=? label)%Z then 1 else -1.
(* 30-36 *)
Definition perceptron_predict (n : nat) (p : perceptron) (x : vec) : Z :=
  if Rleb 0 (score n (p_w p) (p_b p) x) then 1%Z else (-1)%Z.
(* 41-49: one sample *)
Definition perceptron_step (n : nat) (p : perceptron) (s : vec * Z) : perceptron :=
  let '(x, label) := s in
  let pred := score n (p_w p) (p_b p) x in
  let l := lab_f label in
  if Rleb (l * pred) 0 then
    mkP (for_ 0 n (fun i w => upd w i (w i + p_lr p * l * x i)) (p_w p)) (p_b p + p_lr p * l) (p_lr p)
  else p.
(* 39-51 *)
Definition perceptron_epoch (n : nat) (xs : list vec) (ys : list Z) (p : perceptron) : perceptron :=
  fold_left (perceptron_step n) (combine xs ys) p.

(** ** Losses and gradients handed to the optimiser.  [lsum] is the loop
    [loss = loss + t(sample)]; [gsum] the loop that adds [e * x[i]] to grads[i] and [e] to
    grads[N], where [e] may be skipped ([None]). *)
(** the loss loops of linear.rs, logistic.rs:99-112 and svm.rs *)
Definition lsum {A} (t : A -> R) (data : list A) : R := fold_left (fun loss d => loss + t d) data 0.
(** the gradient loops of logistic.rs:114-132 and svm.rs *)
Definition gsum {A} (n : nat) (x : A -> vec) (e : A -> option R) (data : list A) : vec :=
  fold_left (fun g d =>
    match e d with
    | None => g
    | Some e => let g1 := for_ 0 n (fun i g => upd g i (g i + e * x d i)) g in upd g1 n (g1 n + e)
    end) data (fun _ => 0).

(* perceptron.rs:73-88; [m] is x_data.len() *)
Definition perceptron_loss (n : nat) (xs : list vec) (ys : list Z) (pv : vec) : R :=
  lsum (fun d => let v := - lab_f (snd d) * pscore n pv (fst d) in if Rltb 0 v then v else 0) (combine xs ys)
  / INR (length xs).
(* perceptron.rs:90-110 *)
Definition perceptron_grad (n : nat) (xs : list vec) (ys : list Z) (pv : vec) : vec :=
  let g := gsum n fst (fun d => let v := - lab_f (snd d) * pscore n pv (fst d) in
                                if Rltb 0 v then Some (- lab_f (snd d)) else None) (combine xs ys) in
  for_ 0 (n + 1) (fun i g => upd g i (g i / INR (length xs))) g.

(** ** linear.rs *)
(* 83-95 *)
Definition linear_loss (n : nat) (xs : list vec) (ys : list R) (pv : vec) : R :=
  lsum (fun d => let e := pscore n pv (fst d) - snd d in e * e) (combine xs ys) / INR (length xs).
(* 97-114 *)
Definition linear_grad (n : nat) (xs : list vec) (ys : list R) (pv : vec) : vec :=
  let g := gsum n fst (fun d => Some ((1 + 1) * (pscore n pv (fst d) - snd d))) (combine xs ys) in
  for_ 0 (n + 1) (fun i g => upd g i (g i / INR (length xs))) g.
(* 8-12; ridge.rs:8-13 without alpha *)
Record linreg := mkLin { l_w : vec; l_b : R; l_lr : R }.
(* 33-57 *)
Definition linear_epoch (n : nat) (xs : list vec) (ys : list R) (m : linreg) : linreg :=
  match xs with
  | [] => m
  | _ =>
      let g := gsum n fst (fun d => Some (score n (l_w m) (l_b m) (fst d) - snd d)) (combine xs ys) in
      mkLin (for_ 0 n (fun i w => upd w i (w i - l_lr m * ((1 + 1) * g i / INR (length xs)))) (l_w m))
        (l_b m - l_lr m * ((1 + 1) * g n / INR (length xs))) (l_lr m)
  end.
(* 61-121; the caller's optimiser works in n + 1 dimensions; [None]: it does not return *)
Definition linear_fit (n : nat) (xs : list vec) (ys : list R) (opt : @gd R) (fuel : nat) (m : linreg)
  : option linreg :=
  match xs with
  | [] => Some m
  | _ =>
      match minimize Rops (n + 1) opt (linear_loss n xs ys) (linear_grad n xs ys) fuel
              (pack n (l_w m) (l_b m)) with
      | None => None
      | Some (p, _, _, _) => Some (mkLin (vfill n p (l_w m)) (p n) (l_lr m))
      end
  end.

(** ** ridge.rs *)
(* 83-99 *)
Definition ridge_loss (n : nat) (alpha : R) (xs : list vec) (ys : list R) (pv : vec) : R :=
  let loss := lsum (fun d => let e := pscore n pv (fst d) - snd d in e * e) (combine xs ys) in
  let rw := for_ 0 n (fun i rw => rw + pv i * pv i) 0 in
  loss / INR (length xs) + alpha * rw.
(* 101-119 *)
Definition ridge_grad (n : nat) (alpha : R) (xs : list vec) (ys : list R) (pv : vec) : vec :=
  let g := gsum n fst (fun d => Some ((1 + 1) * (pscore n pv (fst d) - snd d))) (combine xs ys) in
  let g1 := for_ 0 n (fun i g => upd g i (g i / INR (length xs) + (1 + 1) * alpha * pv i)) g in
  upd g1 n (g1 n / INR (length xs)).
(* 34-60 *)
Definition ridge_epoch (n : nat) (alpha : R) (xs : list vec) (ys : list R) (m : linreg) : linreg :=
  match xs with
  | [] => m
  | _ =>
      let g := gsum n fst (fun d => Some (score n (l_w m) (l_b m) (fst d) - snd d)) (combine xs ys) in
      mkLin (for_ 0 n (fun i w => upd w i
               (w i - l_lr m * ((1 + 1) * g i / INR (length xs) + (1 + 1) * alpha * w i))) (l_w m))
        (l_b m - l_lr m * ((1 + 1) * g n / INR (length xs))) (l_lr m)
  end.
(* 63-126 *)
Definition ridge_fit (n : nat) (alpha : R) (xs : list vec) (ys : list R) (opt : @gd R) (fuel : nat)
    (m : linreg) : option linreg :=
  match xs with
  | [] => Some m
  | _ =>
      match minimize Rops (n + 1) opt (ridge_loss n alpha xs ys) (ridge_grad n alpha xs ys) fuel
              (pack n (l_w m) (l_b m)) with
      | None => None
      | Some (p, _, _, _) => Some (mkLin (vfill n p (l_w m)) (p n) (l_lr m))
      end
  end.

(** ** logistic.rs *)
(* 27-29 *)
Definition sigmoid (x : R) : R := 1 / (1 + exp (- x)).
(* 32-38 *)
Definition predict_probability (n : nat) (w : vec) (b : R) (x : vec) : R := sigmoid (score n w b x).
(* 41-47 *)
Definition logistic_predict (n : nat) (w : vec) (b : R) (x : vec) : nat :=
  if Rltb (1 / (1 + 1)) (predict_probability n w b x) then 1%nat else 0%nat.
(* 63, 107, 122 *)
Definition y_f (label : nat) : R := if (label =? 0)%nat then 0 else 1.
(* 97 *)
Definition tiny : R := 1 / (1 + (1 + 1)).
(* 99-112, for an arbitrary guard [t]; the code uses [tiny] *)
Definition cross_entropy (t : R) (n : nat) (xs : list vec) (ys : list nat) (pv : vec) : R :=
  lsum (fun d => let p := sigmoid (pscore n pv (fst d)) in
                 - (y_f (snd d) * ln (p + t) + (1 - y_f (snd d)) * ln (1 - p + t))) (combine xs ys)
  / INR (length xs).
(** logistic.rs:97-112 *)
Definition logistic_loss := cross_entropy tiny.
(* 114-132 *)
Definition logistic_grad (n : nat) (xs : list vec) (ys : list nat) (pv : vec) : vec :=
  let g := gsum n fst (fun d => Some (sigmoid (pscore n pv (fst d)) - y_f (snd d))) (combine xs ys) in
  for_ 0 (n + 1) (fun i g => upd g i (g i / INR (length xs))) g.
(* 51-75 *)
Definition logistic_epoch (n : nat) (xs : list vec) (ys : list nat) (m : linreg) : linreg :=
  match xs with
  | [] => m
  | _ =>
      let g := gsum n fst (fun d => Some (predict_probability n (l_w m) (l_b m) (fst d) - y_f (snd d)))
                 (combine xs ys) in
      mkLin (for_ 0 n (fun i w => upd w i (w i - l_lr m * (g i / INR (length xs)))) (l_w m))
        (l_b m - l_lr m * (g n / INR (length xs))) (l_lr m)
  end.

(** ** svm.rs *)
(* 92-112 *)
Definition svm_loss (n : nat) (c : R) (xs : list vec) (ys : list Z) (pv : vec) : R :=
  let loss := lsum (fun d => let margin := lab_f (snd d) * pscore n pv (fst d) in
                             if Rltb margin 1 then 1 - margin else 0) (combine xs ys) in
  let rw := for_ 0 n (fun i rw => rw + pv i * pv i) 0 in
  loss / INR (length xs) + rw / ((1 + 1) * c).
(* 114-135 *)
Definition svm_grad (n : nat) (c : R) (xs : list vec) (ys : list Z) (pv : vec) : vec :=
  let g := gsum n fst (fun d => let margin := lab_f (snd d) * pscore n pv (fst d) in
                                if Rltb margin 1 then Some (- lab_f (snd d)) else None) (combine xs ys) in
  let g1 := for_ 0 n (fun i g => upd g i (g i / INR (length xs) + pv i / c)) g in
  upd g1 n (g1 n / INR (length xs)).
(* 35-69; a sample outside the margin adds zero *)
Record svm := mkSvm { s_w : vec; s_b : R; s_lr : R; s_c : R }.
(** svm.rs:35-69 *)
Definition svm_epoch (n : nat) (xs : list vec) (ys : list Z) (m : svm) : svm :=
  match xs with
  | [] => m
  | _ =>
      let g := gsum n fst (fun d => let margin := lab_f (snd d) * score n (s_w m) (s_b m) (fst d) in
                                    if Rleb 1 margin then Some 0 else Some (- lab_f (snd d))) (combine xs ys) in
      mkSvm (for_ 0 n (fun i w => upd w i
               (w i - s_lr m * (g i / INR (length xs) + (1 + 1) / (s_c m * INR (length xs)) * w i))) (s_w m))
        (s_b m - s_lr m * (g n / INR (length xs))) (s_lr m) (s_c m)
  end.

(** ** naive_bayes.rs *)
(* 5-10 *)
Record gnb := mkNb
  { nb_classes : nat; nb_count : nat -> nat; nb_prior : nat -> R; nb_mean : nat -> vec; nb_var : nat -> vec }.
(* 18-23: [None] is the out-of-range index panic *)
Definition nb_count_step (n k : nat) (st : option ((nat -> nat) * (nat -> vec))) (d : vec * nat) :=
  match st with
  | None => None
  | Some (count, mean) =>
      let '(x, label) := d in
      if (label <? k)%nat then
        Some (upd count label (count label + 1)%nat,
              upd mean label (for_ 0 n (fun i m => upd m i (m i + x i)) (mean label)))
      else None
  end.
(* 24-30, 38-44 *)
Definition nb_divide (n k : nat) (count : nat -> nat) (v : nat -> vec) : nat -> vec :=
  for_ 0 k (fun c v => if (0 <? count c)%nat
                       then upd v c (for_ 0 n (fun i m => upd m i (m i / INR (count c))) (v c)) else v) v.
(* 32-37 *)
Definition nb_var_step (n : nat) (mean : nat -> vec) (var : nat -> vec) (d : vec * nat) : nat -> vec :=
  let '(x, label) := d in
  upd var label (for_ 0 n (fun i v => let df := x i - mean label i in upd v i (v i + df * df)) (var label)).
(* 13-58 *)
Definition nb_fit (n : nat) (xs : list vec) (ys : list nat) (k : nat) : option gnb :=
  let data := combine xs ys in
  match fold_left (nb_count_step n k) data (Some ((fun _ => 0%nat), (fun _ _ => 0))) with
  | None => None
  | Some (count, sums) =>
      let mean := nb_divide n k count sums in
      let var := nb_divide n k count (fold_left (nb_var_step n mean) data (fun _ _ => 0)) in
      let total := fold_left Nat.add (map count (seq 0 k)) 0%nat in
      Some (mkNb k count (fun c => INR (count c) / INR total) mean var)
  end.

(** Scores are f64 values that may be infinite or NaN. *)
Inductive ext := NegInf | Fin (r : R) | PosInf | NaN.
(** naive_bayes.rs:60-81, lda_qda.rs:78-110, 168-195: the comparison of two scores *)
Definition ext_gtb (a b : ext) : bool :=
  match a, b with
  | Fin x, Fin y => Rltb y x
  | Fin _, NegInf | PosInf, NegInf | PosInf, Fin _ => true
  | _, _ => false
  end.
(** naive_bayes.rs:60-81, lda_qda.rs:78-110, 168-195: the sum of two scores *)
Definition ext_add (a b : ext) : ext :=
  match a, b with
  | NaN, _ | _, NaN | NegInf, PosInf | PosInf, NegInf => NaN
  | NegInf, _ | _, NegInf => NegInf
  | PosInf, _ | _, PosInf => PosInf
  | Fin x, Fin y => Fin (x + y)
  end.
(** f64::ln, naive_bayes.rs:60-81, lda_qda.rs:78-110, 168-195 *)
Definition ext_ln (x : R) : ext := if Rltb x 0 then NaN else if Reqb x 0 then NegInf else Fin (ln x).
Definition ext_scale (k : R) (a : ext) : ext :=     (* k < 0 *)
  match a with Fin x => Fin (k * x) | NegInf => PosInf | PosInf => NegInf | NaN => NaN end.

(* naive_bayes.rs:62-80, lda_qda.rs:79-109, 169-194: keep the first strictly best score;
   [None] skips a class *)
Definition argmax (k : nat) (s : nat -> option ext) : nat :=
  fst (for_ 0 k (fun c st => match s c with
                             | None => st
                             | Some v => if ext_gtb v (snd st) then (c, v) else st
                             end) (0%nat, NegInf)).

(* naive_bayes.rs:68-74 *)
Definition nb_score (n : nat) (m : gnb) (x : vec) (c : nat) : ext :=
  ext_add (ext_ln (nb_prior m c))
    (Fin (for_ 0 n (fun i s =>
       let var := Rmax (nb_var m c i) (/ 10 ^ 12) in
       let diff := x i - nb_mean m c i in
       s + (- / 2) * (ln (2 * PI * var) + diff * diff / var)) 0)).
(* naive_bayes.rs:60-81 *)
Definition nb_predict (n : nat) (m : gnb) (x : vec) : nat :=
  argmax (nb_classes m) (fun c => if (nb_count m c =? 0)%nat then None else Some (nb_score n m x c)).

(** ** lda_qda.rs *)
(** lda_qda.rs:29-36, 122-129: y[j] == c *)
Definition member (c : nat) (d : vec * nat) : bool := (snd d =? c)%nat.
(* 29-36, 122-129 *)
Definition class_sum (n c : nat) (data : list (vec * nat)) : vec * nat :=
  fold_left (fun st d => if member c d
                         then (for_ 0 n (fun i s => upd s i (s i + fst d i)) (fst st), (snd st + 1)%nat) else st)
    data ((fun _ => 0), 0%nat).
(* 49-66, 142-158 *)
Definition class_cov (n c : nat) (data : list (vec * nat)) (mean : vec) (count : nat) : mat :=
  let cov := fold_left (fun cov d =>
    if member c d then
      let diff := vfill n (fun i => fst d i - mean i) (fun _ => 0) in
      for_ 0 n (fun i cov => for_ 0 n (fun j cov => upd2 cov i j (cov i j + diff i * diff j)) cov) cov
    else cov) data (fun _ _ => 0) in
  if (1 <? count)%nat then mat_div Rops n n cov (INR count - 1) else cov.
(* 5-9 *)
Record lda := mkLda { lda_means : list vec; lda_priors : list R; lda_cov : mat }.
(* 19-75 *)
Definition lda_fit (n : nat) (xs : list vec) (ys : list nat) (k : nat) : lda :=
  let data := combine xs ys in
  let '(means, priors, pooled) :=
    for_ 0 k (fun c st =>
      let '(means, priors, pooled) := st in
      let '(sum, count) := class_sum n c data in
      let prior := INR count / INR (length xs) in
      if (count =? 0)%nat then (means ++ [(fun _ => 0) : vec], priors ++ [prior], pooled)
      else
        let mean := vfill n (fun i => sum i / INR count) sum in
        let cov := class_cov n c data mean count in
        (means ++ [mean], priors ++ [prior], mat_add Rops n n pooled (mat_scale Rops n n cov prior)))
      ([], [], (fun _ _ => 0)) in
  mkLda means priors pooled.
(* 78-110 *)
Definition lda_score (n : nat) (m : lda) (x : vec) (i : nat) : option ext :=
  match inverse_gauss_jordan Rops n (lda_cov m) with
  | None => None
  | Some sinv =>
      let mu := nth i (lda_means m) (fun _ => 0) in
      let tmp := mul_vector_unrolled Rops n n sinv mu in
      let term1 := for_ 0 n (fun k s => s + x k * tmp k) 0 in
      let term2 := for_ 0 n (fun k s => s + mu k * tmp k) 0 in
      Some (ext_add (Fin (term1 - / 2 * term2)) (ext_ln (nth i (lda_priors m) 0)))
  end.
(** lda_qda.rs:78-110 *)
Definition lda_predict (n : nat) (m : lda) (x : vec) : nat :=
  argmax (length (lda_means m)) (lda_score n m x).

(* 12-16 *)
Record qda := mkQda { qda_means : list vec; qda_priors : list R; qda_covs : list mat }.
(* 114-166 *)
Definition qda_fit (n : nat) (xs : list vec) (ys : list nat) (k : nat) : qda :=
  let data := combine xs ys in
  let '(means, priors, covs) :=
    for_ 0 k (fun c st =>
      let '(means, priors, covs) := st in
      let '(sum, count) := class_sum n c data in
      if (count =? 0)%nat then (means ++ [(fun _ => 0) : vec], priors ++ [0], covs ++ [(fun _ _ => 0) : mat])
      else
        let mean := vfill n (fun i => sum i / INR count) sum in
        (means ++ [mean], priors ++ [INR count / INR (length xs)], covs ++ [class_cov n c data mean count]))
      ([], [], []) in
  mkQda means priors covs.
(* 168-195 *)
Definition qda_score (n : nat) (m : qda) (x : vec) (i : nat) : option ext :=
  let cov := nth i (qda_covs m) (fun _ _ => 0) in
  match inverse_gauss_jordan Rops n cov with
  | None => None
  | Some cinv =>
      let mu := nth i (qda_means m) (fun _ => 0) in
      let det := determinant Rops n cov in
      let diff := vfill n (fun k => x k - mu k) (fun _ => 0) in
      let tmp := mul_vector_unrolled Rops n n cinv diff in
      let quad := for_ 0 n (fun k s => s + diff k * tmp k) 0 in
      Some (ext_add (ext_add (ext_scale (- / 2) (ext_ln det)) (Fin (- (/ 2 * quad))))
              (ext_ln (nth i (qda_priors m) 0)))
  end.
(** lda_qda.rs:168-195 *)
Definition qda_predict (n : nat) (m : qda) (x : vec) : nat :=
  argmax (length (qda_means m)) (qda_score n m x).
