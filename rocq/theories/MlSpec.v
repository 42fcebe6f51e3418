(** Vocabulary of the learning properties, written without reference to the models' loops. *)
From Coq Require Import Reals ZArith List.
From Coquelicot Require Import Coquelicot.
From Verif Require Import RSum StatsSpec.
Import ListNotations.
Open Scope R_scope.

(** w . x + b *)
Definition affine (n : nat) (w : nat -> R) (b : R) (x : nat -> R) : R := sum n (fun i => w i * x i) + b.
(** the sign a label stands for *)
Definition sign_of (label : Z) : R := if (0 <=? label)%Z then 1 else -1.
Definition class_of (label : Z) : Z := if (0 <=? label)%Z then 1%Z else (-1)%Z.

(** (w, b) has length at most 1 and keeps every sample at distance gamma on its own side. *)
Definition separates (n : nat) (w : nat -> R) (b gamma : R) (data : list ((nat -> R) * Z)) : Prop :=
  sum n (fun i => w i * w i) + b * b <= 1 /\
  forall x l, In (x, l) data -> gamma <= sign_of l * affine n w b x.

(** [g] is the gradient of [f] at [p]: along every direction [v] of R^n the derivative of [f] is
    g . v. *)
Definition gradient_at (n : nat) (f : (nat -> R) -> R) (g : nat -> R) (p : nat -> R) : Prop :=
  forall v, is_derive (fun t => f (fun i => p i + t * v i)) 0 (sum n (fun i => g i * v i)).

(** [g] supports the convex function [f] from below at [p]. *)
Definition subgradient_at (n : nat) (f : (nat -> R) -> R) (g : nat -> R) (p : nat -> R) : Prop :=
  forall q, f p + sum n (fun i => g i * (q i - p i)) <= f q.

(** the samples labelled [c] *)
Definition of_class (c : nat) (data : list ((nat -> R) * nat)) : list (nat -> R) :=
  map fst (filter (fun d => Nat.eqb (snd d) c) data).

(** the normal density with mean mu and variance var *)
Definition normal_density (mu var x : R) : R :=
  / sqrt (2 * PI * var) * exp (- ((x - mu) ^ 2 / (2 * var))).

(** population variance *)
Definition variance (l : list R) : R := average (map (fun x => (x - average l) ^ 2) l).

(** v . (A v) *)
Definition quad (n : nat) (A : nat -> nat -> R) (v : nat -> R) : R :=
  sum n (fun i => v i * sum n (fun j => A i j * v j)).
