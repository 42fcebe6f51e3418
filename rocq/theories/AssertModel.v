(** The assertion helpers users write their tests with: crates/aether_test/src/assert/{matrix,vector,function}.rs.
    They are written for f64, so the model is IEEE binary64.  A panic is the failing answer. *)
From Coq Require Import ZArith List Bool Arith.
From Flocq Require Import Core BinarySingleNaN.
From Verif Require Import Scalar F64 TankModel.
Import ListNotations.

(** [approx::abs_diff_eq!(x, y, epsilon = tol)] of the approx 0.5 crate for f64: [(x - y).abs() <= tol]. *)
Definition abs_diff_eq (x y tol : f64) : bool := Bleb (Babs (f64_sub x y)) tol.

(** a loop that stops at the first error *)
(** no function of its own: the loops with early returns of matrix.rs:69-82, vector.rs:55-66 *)
Fixpoint first_err {A E} (l : list A) (f : A -> option E) : option E :=
  match l with
  | [] => None
  | x :: r => match f x with Some e => Some e | None => first_err r f end
  end.

(** matrix.rs:17-27, MatrixAssertError::ValueMismatch (the shape mismatch cannot occur: both shapes are M, N) *)
Record mismatch := mkMis { mi_row : nat; mi_col : nat; mi_left : f64; mi_right : f64; mi_diff : f64 }.
(** matrix.rs:51-85, matrix_approx_eq; [None] is Ok(()) *)
Definition matrix_approx_eq (M N : nat) (a b : nat -> nat -> f64) (tol : f64) : option mismatch :=
  first_err (seq 0 M) (fun r => first_err (seq 0 N) (fun c =>
    let x := a r c in let y := b r c in
    if negb (abs_diff_eq x y tol) then Some (mkMis r c x y (Babs (f64_sub x y))) else None)).
(** matrix.rs:40-48, assert_matrix_approx_eq: true when it returns, false when it panics *)
Definition assert_matrix_approx_eq M N a b tol : bool :=
  match matrix_approx_eq M N a b tol with Some _ => false | None => true end.
(** vector.rs:46-69, vector_approx_eq (index, left, right, diff) *)
Definition vector_approx_eq (N : nat) (a b : nat -> f64) (tol : f64) : option (nat * f64 * f64 * f64) :=
  first_err (seq 0 N) (fun i =>
    let x := a i in let y := b i in
    if negb (abs_diff_eq x y tol) then Some (i, x, y, Babs (f64_sub x y)) else None).

(** matrix.rs:88-102, matrix_max_abs_diff *)
Definition matrix_max_abs_diff (M N : nat) (a b : nat -> nat -> f64) : f64 :=
  for_ 0 M (fun r maxd => for_ 0 N (fun c maxd =>
    let d := Babs (f64_sub (a r c) (b r c)) in if Bltb maxd d then d else maxd) maxd) (B754_zero false).
(** vector.rs:72-78, vector_max_abs_diff: fold with [f64::max], which ignores a NaN operand ([fmax] of TankModel) *)
Definition vector_max_abs_diff (N : nat) (a b : nat -> f64) : f64 :=
  fold_left (fmax f64_ops) (map (fun i => Babs (f64_sub (a i) (b i))) (seq 0 N)) (B754_zero false).

(** matrix.rs:105-129, matrix_frobenius_norm and matrix_diff_frobenius *)
Definition matrix_frobenius_norm {F} (o : ops F) (M N : nat) (a : nat -> nat -> F) : F :=
  sqrtf o (for_ 0 M (fun r sum => for_ 0 N (fun c sum => let v := a r c in add o sum (mul o v v)) sum) (zero o)).
(** matrix.rs:117-129 *)
Definition matrix_diff_frobenius {F} (o : ops F) (M N : nat) (a b : nat -> nat -> F) : F :=
  sqrtf o (for_ 0 M (fun r sum => for_ 0 N (fun c sum => let d := sub o (a r c) (b r c) in add o sum (mul o d d)) sum) (zero o)).

(** matrix.rs:132-144 and vector.rs:81-90, assert_matrix_finite and assert_vector_finite: the first element that is not
    finite, if any, panics *)
Definition assert_matrix_finite (M N : nat) (a : nat -> nat -> f64) : option (nat * nat) :=
  first_err (seq 0 M) (fun r => first_err (seq 0 N) (fun c => if is_finite (a r c) then None else Some (r, c))).
(** vector.rs:81-90 *)
Definition assert_vector_finite (N : nat) (v : nat -> f64) : option nat :=
  first_err (seq 0 N) (fun i => if is_finite (v i) then None else Some i).
(** matrix.rs:157-175, assert_matrix_symmetric: [None] when it returns *)
Definition assert_matrix_symmetric (N : nat) (a : nat -> nat -> f64) (tol : f64) : option (nat * nat) :=
  first_err (seq 0 N) (fun i => first_err (seq (i + 1) (N - (i + 1))) (fun j =>
    let d := Babs (f64_sub (a i j) (a j i)) in if Bleb d tol then None else Some (i, j))).

(** function.rs:5-38, assert_max_abs_error_on_grid *)
Inductive grid_result := NoSamples | TooLarge (x e : f64) | Passed (x e : f64).
(** function.rs:22-23: the i-th grid point *)
Definition grid_point (a b : f64) (samples i : nat) : f64 :=
  let t := f64_div (f64_of_Z (Z.of_nat i)) (f64_of_Z (Z.of_nat samples)) in
  f64_add a (f64_mul (f64_sub b a) t).
(** function.rs:18-29 *)
Definition grid_loop (f0 f1 : f64 -> f64) (a b : f64) (samples : nat) : f64 * f64 :=
  for_ 0 (samples + 1) (fun i '(worst_x, max_e) =>
    let x := grid_point a b samples i in
    let e := Babs (f64_sub (f1 x) (f0 x)) in
    if Bltb max_e e then (x, e) else (worst_x, max_e)) (a, B754_zero false).
(** function.rs:5-39 *)
Definition assert_max_abs_error_on_grid (f0 f1 : f64 -> f64) (a b : f64) (samples : nat) (tol : f64) : grid_result :=
  if (samples =? 0)%nat then NoSamples
  else let '(worst_x, max_e) := grid_loop f0 f1 a b samples in
       if Bltb tol max_e then TooLarge worst_x max_e else Passed worst_x max_e.
