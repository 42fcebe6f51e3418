(** Model of crates/aether_stats/src/covariance.rs and distributions/gaussian.rs (fit_mle) for any scalar type, rounding
    included.  [of_usize] is T::from_usize, [epsilon] is T::EPSILON.  A [Vector<T, N>] or [Matrix] is a function of the
    in-range indices; a slice is a list.  The versions over the exact reals are in StatsModel. *)
From Coq Require Import ZArith List Arith Bool.
From Flocq Require Import Core BinarySingleNaN.
From Verif Require Import Scalar LinModel StatsModel FloatModel.
Import ListNotations.

Section Stats.
Context {F : Type} (o : ops F) (of_usize : nat -> F) (epsilon : F).
Local Notation vec := (nat -> F).
Local Notation mat := (nat -> nat -> F).

(** covariance.rs:14-25 *)
Definition g_mean (N : nat) (samples : list vec) : res vec :=
  match samples with
  | [] => Err EmptySamples
  | _ =>
      let m := fold_left (fun m s => vec_add o N m s) samples (fun _ => zero o) in
      Ok (vec_div o N m (of_usize (length samples)))
  end.

(** covariance.rs:43-47 and 75-79 *)
Definition g_add_outer (N M : nat) (x y : vec) (cov : mat) : mat :=
  for_ 0 N (fun row cov =>
    for_ 0 M (fun col cov => upd2 cov row col (add o (cov row col) (mul o (x row) (y col)))) cov) cov.

(** covariance.rs:27-51 *)
Definition g_sample_covariance (N : nat) (samples : list vec) : res mat :=
  match samples with
  | [] => Err EmptySamples
  | _ =>
      if (length samples <? 2)%nat then Err InsufficientSamples
      else
        match g_mean N samples with
        | Err e => Err e
        | Ok m =>
            let scale := div o (one o) (of_usize (length samples - 1)) in
            let cov := fold_left (fun cov s =>
                         let centered := vec_sub o N s m in
                         g_add_outer N N centered centered cov) samples (fun _ _ => zero o) in
            Ok (mat_scale o N N cov scale)
        end
  end.

(** covariance.rs:53-83 *)
Definition g_sample_cross_covariance (N M : nat) (xs ys : list vec) : res mat :=
  if negb (length xs =? length ys)%nat then Err SampleCountMismatch
  else
    match xs with
    | [] => Err EmptySamples
    | _ =>
        if (length xs <? 2)%nat then Err InsufficientSamples
        else
          match g_mean N xs, g_mean M ys with
          | Ok mx, Ok my =>
              let scale := div o (one o) (of_usize (length xs - 1)) in
              let cov := fold_left (fun cov (p : vec * vec) =>
                           g_add_outer N M (vec_sub o N (fst p) mx) (vec_sub o M (snd p) my) cov)
                         (combine xs ys) (fun _ _ => zero o) in
              Ok (mat_scale o N M cov scale)
          | Err e, _ => Err e
          | _, Err e => Err e
          end
    end.

(** covariance.rs:85-98 *)
Definition g_standard_deviations (N : nat) (cov : mat) : res vec :=
  match
    forM 0 N (fun i sd =>
      let variance := cov i i in
      if leb o variance epsilon then None else Some (upd sd i (sqrtf o variance))) (fun _ => zero o)
  with
  | Some sd => Ok sd
  | None => Err ZeroVarianceAxis
  end.

(** covariance.rs:100-114 *)
Definition g_correlation (N : nat) (cov : mat) : res mat :=
  match g_standard_deviations N cov with
  | Err e => Err e
  | Ok sd =>
      Ok (for_ 0 N (fun row c =>
            for_ 0 N (fun col c => upd2 c row col (div o (cov row col) (mul o (sd row) (sd col)))) c) (fun _ _ => zero o))
  end.

(** covariance.rs:116-131 *)
Definition g_covariance_from_correlation (N : nat) (corr : mat) (sd : vec) : mat :=
  for_ 0 N (fun row c =>
    for_ 0 N (fun col c => upd2 c row col (mul o (mul o (corr row col) (sd row)) (sd col))) c) (fun _ _ => zero o).

(** distributions/gaussian.rs:47-58; [maxf] is Real::max.  The result is the pair (mu, sigma). *)
Definition g_gaussian_fit (maxf : F -> F -> F) (samples : list F) : F * F :=
  let n_f := of_usize (length samples) in
  match samples with
  | [] => (zero o, one o)
  | _ =>
      let sum := fold_left (add o) samples (zero o) in
      let mu := div o sum n_f in
      let s2 := fold_left (fun s2 s => let d := sub o s mu in add o s2 (mul o d d)) samples (zero o) in
      let sigma_squared := div o s2 n_f in
      (mu, maxf (sqrtf o sigma_squared) epsilon)
  end.
End Stats.

(** real/real.rs:194: [x as f32] and [x as f64] round to nearest, ties to even *)
Definition float_of_usize (prec emax : Z) {P : Prec_gt_0 prec} {M : Prec_lt_emax prec emax} (n : nat) : binary_float prec emax :=
  binary_normalize prec emax P M mode_NE (Z.of_nat n) 0 false.
(** real/real.rs:max for f32 and f64: the other operand when one is NaN *)
Definition float_max {prec emax : Z} (x y : binary_float prec emax) : binary_float prec emax :=
  match Bcompare x y with
  | None => match x with B754_nan => y | _ => x end
  | Some Lt => y
  | _ => x
  end.
(** T::EPSILON: 2^(1 - prec), 2^-23 for f32 and 2^-52 for f64 *)
Definition float_epsilon (prec emax : Z) {P : Prec_gt_0 prec} {M : Prec_lt_emax prec emax} : binary_float prec emax :=
  binary_normalize prec emax P M mode_NE 1 (1 - prec) false.
