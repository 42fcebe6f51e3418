(** Textbook statistics, written without reference to the model. *)
From Coq Require Import Reals List.
Import ListNotations.
Open Scope R_scope.

Fixpoint total (l : list R) : R := match l with [] => 0 | x :: r => x + total r end.
Fixpoint product (l : list R) : R := match l with [] => 1 | x :: r => x * product r end.
Definition average (l : list R) : R := total l / INR (length l).

(** covariance of two lists of numbers, paired by position, with the n - 1 denominator *)
Definition sample_cov (xs ys : list R) : R :=
  total (map (fun p => (fst p - average xs) * (snd p - average ys)) (combine xs ys))
  / (INR (length xs) - 1).
Definition sample_var (xs : list R) : R :=
  total (map (fun x => (x - average xs) ^ 2) xs) / (INR (length xs) - 1).

(** column c of a list of vectors *)
Definition column (c : nat) (samples : list (nat -> R)) : list R := map (fun s => s c) samples.
