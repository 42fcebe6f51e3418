(** Vocabulary of the optimiser properties. *)
From Coq Require Import Reals List Arith NArith.
From Verif Require Import Scalar RSum.
Import ListNotations.

(** [x] is not below [lo] and not above [hi] on any axis (for NaN-free scalars: inside). *)
Definition in_box {F} (o : ops F) (n : nat) (lo hi x : nat -> F) : Prop :=
  forall i, i < n -> ltb o (x i) (lo i) = false /\ ltb o (hi i) (x i) = false.
(** min <= max on every axis, with comparable numbers *)
Definition valid_box {F} (o : ops F) (n : nat) (lo hi : nat -> F) : Prop :=
  forall i, i < n -> ltb o (lo i) (lo i) = false /\ ltb o (hi i) (hi i) = false /\
                     ltb o (hi i) (lo i) = false.

(** [f] has gradient [g], Lipschitz with constant [L]: the quadratic upper bound. *)
Definition smooth (n : nat) (f : (nat -> R) -> R) (g : (nat -> R) -> nat -> R) (L : R) : Prop :=
  forall x y : nat -> R,
    (forall i, n <= i -> y i = x i) ->
    (f y <= f x + sum n (fun i => g x i * (y i - x i))
            + L / 2 * sum n (fun i => (y i - x i) * (y i - x i)))%R.

Definition length2 (n : nat) (v : nat -> R) : R := sqrt (sum n (fun i => (v i * v i)%R)).

(** The first [count] samples drawn at [x] from a generator state. *)
Fixpoint samples {V} (sample : V -> N -> V * N) (x : V) (count : nat) (rng : N) : list V :=
  match count with
  | 0 => []
  | S c => let '(g, r) := sample x rng in g :: samples sample x c r
  end.

(** A schedule lets thread [t] run at least [c t] times. *)
Definition completes (threads : nat) (c : nat -> nat) (sched : list nat) : Prop :=
  forall t, t < threads -> c t <= count_occ Nat.eq_dec sched t.
