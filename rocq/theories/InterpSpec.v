(** What the interpolation properties talk about, without reference to the model. *)
From Coq Require Import Reals Lra Lia Arith.
From Coquelicot Require Import Coquelicot.
Open Scope R_scope.

(** [is_poly n f]: f is a polynomial function of degree below n, written in Horner form
    a0 + x (a1 + x (a2 + ...)) with n coefficients. *)
Fixpoint is_poly (n : nat) (f : R -> R) : Prop :=
  match n with
  | O => forall x, f x = 0
  | S m => exists a q, is_poly m q /\ forall x, f x = a + x * q x
  end.

(** The points of a table are pairwise different. *)
Definition distinct (n : nat) (xs : nat -> R) : Prop :=
  forall i j, (i < n)%nat -> (j < n)%nat -> i <> j -> xs i <> xs j.

(** The table is strictly increasing. *)
Definition increasing (n : nat) (xs : nat -> R) : Prop :=
  forall i, (S i < n)%nat -> xs i < xs (S i).

(** [natural_cubic_spline n xs ys f]: f passes through the data, is a polynomial of degree at
    most three between neighbouring knots, is twice differentiable everywhere with a
    continuous second derivative, and that second derivative is zero at the first and the
    last knot. *)
Definition natural_cubic_spline (n : nat) (xs ys : nat -> R) (f : R -> R) : Prop :=
  (forall i, (i < n)%nat -> f (xs i) = ys i) /\
  (forall i, (S i < n)%nat ->
     exists p, is_poly 4 p /\ forall x, xs i <= x <= xs (S i) -> f x = p x) /\
  exists f1 f2 : R -> R,
    (forall x, is_derive f x (f1 x)) /\
    (forall x, is_derive f1 x (f2 x)) /\
    (forall x, continuous f2 x) /\
    f2 (xs 0%nat) = 0 /\ f2 (xs (n - 1)%nat) = 0.
