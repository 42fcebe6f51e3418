(** Model of crates/aether_stats/src: covariance.rs and distributions/.

    Simplification, everywhere in this file: scalars are exact reals, [from_usize] is exact
    and the elementary functions are the exact ones.  A [Vector<T, N>] or [Matrix] is a
    function of the in-range indices; a slice is a list. *)
From Coq Require Import NArith Reals List Arith Bool.
From Verif Require Import Scalar LinModel SolveModel RandModel RandRealModel.
Import ListNotations.
Open Scope R_scope.

Notation vec := (nat -> R).
Notation mat := (nat -> nat -> R).

(** covariance.rs:7-12 *)
Inductive cov_error := EmptySamples | InsufficientSamples | SampleCountMismatch | ZeroVarianceAxis.
(** covariance.rs:14-20: Result<_, CovarianceError> *)
Inductive res (A : Type) := Ok (a : A) | Err (e : cov_error).
Arguments Ok {A}. Arguments Err {A}.

(** T::EPSILON for f64 *)
Definition eps : R := / 2 ^ 52.

(** covariance.rs:14-25 *)
Definition mean (N : nat) (samples : list vec) : res vec :=
  match samples with
  | [] => Err EmptySamples
  | _ =>
      let m := fold_left (fun m s => vec_add Rops N m s) samples (fun _ => 0) in
      Ok (vec_div Rops N m (INR (length samples)))
  end.

(** covariance.rs:43-47 and 75-79: [covariance[row][col] += x[row] * y[col]] *)
Definition add_outer (N M : nat) (x y : vec) (cov : mat) : mat :=
  for_ 0 N (fun row cov =>
    for_ 0 M (fun col cov => upd2 cov row col (cov row col + x row * y col)) cov) cov.

(** covariance.rs:27-51 *)
Definition sample_covariance (N : nat) (samples : list vec) : res mat :=
  match samples with
  | [] => Err EmptySamples
  | _ =>
      if (length samples <? 2)%nat then Err InsufficientSamples
      else
        match mean N samples with
        | Err e => Err e
        | Ok m =>
            let scale := 1 / INR (length samples - 1) in
            let cov := fold_left (fun cov s =>
                         let centered := vec_sub Rops N s m in
                         add_outer N N centered centered cov) samples (fun _ _ => 0) in
            Ok (mat_scale Rops N N cov scale)
        end
  end.

(** covariance.rs:53-83 *)
Definition sample_cross_covariance (N M : nat) (xs ys : list vec) : res mat :=
  if negb (length xs =? length ys)%nat then Err SampleCountMismatch
  else
    match xs with
    | [] => Err EmptySamples
    | _ =>
        if (length xs <? 2)%nat then Err InsufficientSamples
        else
          match mean N xs, mean M ys with
          | Ok mx, Ok my =>
              let scale := 1 / INR (length xs - 1) in
              let cov := fold_left (fun cov (p : vec * vec) =>
                           add_outer N M (vec_sub Rops N (fst p) mx) (vec_sub Rops M (snd p) my) cov)
                         (combine xs ys) (fun _ _ => 0) in
              Ok (mat_scale Rops N M cov scale)
          | Err e, _ => Err e
          | _, Err e => Err e
          end
    end.

(** covariance.rs:85-98 *)
Definition standard_deviations (N : nat) (cov : mat) : res vec :=
  match
    forM 0 N (fun i sd =>
      let variance := cov i i in
      if Rleb variance eps then None else Some (upd sd i (sqrt variance))) (fun _ => 0)
  with
  | Some sd => Ok sd
  | None => Err ZeroVarianceAxis
  end.

(** covariance.rs:100-114 *)
Definition correlation_from_covariance (N : nat) (cov : mat) : res mat :=
  match standard_deviations N cov with
  | Err e => Err e
  | Ok sd =>
      Ok (for_ 0 N (fun row c =>
            for_ 0 N (fun col c => upd2 c row col (cov row col / (sd row * sd col))) c) (fun _ _ => 0))
  end.

(** covariance.rs:116-131 *)
Definition covariance_from_correlation (N : nat) (corr : mat) (sd : vec) : mat :=
  for_ 0 N (fun row c =>
    for_ 0 N (fun col c => upd2 c row col (corr row col * sd row * sd col)) c) (fun _ _ => 0).

(** distributions/bernoulli.rs:17-23; the struct is its field p, a u8 is a nat *)
Definition bernoulli_pmf (p : R) (x : nat) : R :=
  match x with 0%nat => 1 - p | 1%nat => p | _ => 0 end.
(** bernoulli.rs:26-34 *)
Definition bernoulli_fit (samples : list nat) : R :=
  let sum := fold_left Nat.add samples 0%nat in
  let total := Nat.max (length samples) 1 in
  INR sum / INR total.

(** distributions/categorical.rs:17-19 *)
Definition categorical_pmf (probs : list R) (k : nat) : R :=
  if (k <? length probs)%nat then nth k probs 0 else 0.
(** categorical.rs:22-30 *)
Definition categorical_fit (counts : list nat) : list R :=
  let total := fold_left Nat.add counts 0%nat in
  let total_f := INR (Nat.max total 1) in
  map (fun c => INR c / total_f) counts.

(** distributions/gaussian.rs:6-9 *)
Record gaussian := mkG { mu : R; sigma : R }.
(** gaussian.rs:20-32; one call draws twice from the generator (xor_shift.rs next_f64) *)
Definition gaussian_sample (g : gaussian) (x : N) : R :=
  let u1 := next_real_f64 x in
  let u1 := if Rleb u1 0 then eps else u1 in
  let u2 := next_real_f64 (fst (next_u64 x)) in
  let r := sqrt (- 2 * ln u1) in
  let theta := 2 * PI * u2 in
  let z0 := r * cos theta in
  sigma g * z0 + mu g.
(** gaussian.rs:35-44 *)
Definition gaussian_pdf (g : gaussian) (x : R) : R :=
  let two := 1 + 1 in
  let half := 1 / two in
  let var := Rmax (sigma g * sigma g) 0 in
  let coeff := 1 / sqrt (two * PI * var) in
  let diff := x - mu g in
  coeff * exp (- (half * diff * diff / var)).
(** gaussian.rs:47-58 *)
Definition gaussian_fit (samples : list R) : gaussian :=
  let n_f := INR (length samples) in
  match samples with
  | [] => mkG 0 1
  | _ =>
      let sum := fold_left Rplus samples 0 in
      let mu := sum / n_f in
      let s2 := fold_left (fun s2 s => let d := s - mu in s2 + d * d) samples 0 in
      let sigma_squared := s2 / n_f in
      mkG mu (Rmax (sqrt sigma_squared) eps)
  end.

(** distributions/multivariate.rs:6-9 *)
Record mvn := mkMvn { mvn_mean : vec; mvn_cov : mat }.
(** multivariate.rs:16-29; [None] is the panic of [expect] (line 19).  The result is a real
    only where its denominator is not zero. *)
Definition mvn_pdf (N : nat) (d : mvn) (x : vec) : option R :=
  let diff := for_ 0 N (fun i diff => upd diff i (diff i - mvn_mean d i)) x in
  match inverse_gauss_jordan Rops N (mvn_cov d) with
  | None => None
  | Some inv =>
      let tmp := mul_vector_unrolled Rops N N inv diff in
      let quad := dot Rops N diff tmp in
      let det := determinant Rops N (mvn_cov d) in
      let two := 1 + 1 in
      let denom := sqrt (Rpower (two * PI) (INR N) * det) in
      Some (exp ((- / 2) * quad) / denom)
  end.
