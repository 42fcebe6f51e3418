(** Linear-algebra specifications. *)
From Coq Require Import Reals List Arith Bool.
From Verif Require Import Scalar RSum.
Import ListNotations.
Local Open Scope nat_scope.

(** ((0 + f 0) + f 1) + ... + f (n-1), with the scalar type's own addition. *)
Fixpoint left_sum {F} (o : ops F) (n : nat) (f : nat -> F) : F :=
  match n with O => zero o | S m => add o (left_sum o m f) (f m) end.

(** Equality on the in-range entries. *)
Definition eqm {F} (M N : nat) (a b : nat -> nat -> F) : Prop :=
  forall i j, i < M -> j < N -> a i j = b i j.
Definition eqv {F} (N : nat) (a b : nat -> F) : Prop := forall i, i < N -> a i = b i.

Local Open Scope R_scope.
(** Textbook product, identity, determinant. *)
Definition Mprod (N : nat) (a b : nat -> nat -> R) : nat -> nat -> R :=
  fun i j => sum N (fun k => a i k * b k j).
Definition Mvec (N : nat) (a : nat -> nat -> R) (v : nat -> R) : nat -> R :=
  fun i => sum N (fun k => a i k * v k).
Definition delta (i j : nat) : R := if (i =? j)%nat then 1 else 0.
Definition Vdot (N : nat) (a b : nat -> R) : R := sum N (fun k => a k * b k).
Definition Vnorm (N : nat) (a : nat -> R) : R := sqrt (sum N (fun k => a k * a k)).

Local Close Scope R_scope.

(** All indices in range. *)
Fixpoint in_range (shape idx : list nat) : Prop :=
  match shape, idx with
  | [], [] => True
  | n :: ns, i :: is => (i < n)%nat /\ in_range ns is
  | _, _ => False
  end.
Fixpoint prod (l : list nat) : nat := match l with [] => 1 | n :: r => n * prod r end.
(** Row-major position: the last index varies fastest. *)
Fixpoint row_major (shape idx : list nat) : nat :=
  match shape, idx with
  | n :: ns, i :: is => i * prod ns + row_major ns is
  | _, _ => 0
  end.
(** D0 planes of D1 rows of D2 elements. *)
Definition is_tensor3 {T} (D0 D1 D2 : nat) (data : list (list (list T))) : Prop :=
  length data = D0 /\ Forall (fun p => length p = D1 /\ Forall (fun r => length r = D2) p) data.
