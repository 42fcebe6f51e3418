(** The apparent forces of the rotating Earth and the gravity of the Moon with the order of operations of the source, over any
    scalar type, so that f64 is an instance: crates/aether_models/src/terrestrial/earth.rs and lunar/moon.rs.  [Wgs84Model] is the
    same code over the exact reals.  Simplification: the third power, f64::powi(3), is a parameter. *)
From Coq Require Import QArith Arith.
From Verif Require Import Scalar LinModel.

Section Forces.
Context {F : Type} (o : ops F) (cube : F -> F).

(** earth.rs:55-62; [omega] is the field [rotational_velocity] *)
Definition g_coriolis_force (omega velocity : nat -> F) (mass : F) : nat -> F :=
  vec_neg o 3 (vec_scale o 3 (vec_scale o 3 (cross o omega velocity) (lit o (2 # 1))) mass).
(** earth.rs:64-72 *)
Definition g_centrifugal_force (omega position : nat -> F) (mass : F) : nat -> F :=
  vec_neg o 3 (vec_scale o 3 (cross o omega (cross o omega position)) mass).
(** f64::EPSILON, moon.rs:65 *)
Definition g_epsilon : F := lit o (1 # 4503599627370496).
(** moon.rs:60-71; [mu] is the field [gravitational_constant] *)
Definition g_lunar_acceleration (mu : F) (position : nat -> F) : nat -> F :=
  let radius := norm o 3 position in
  if leb o radius g_epsilon then fun _ => zero o
  else vec_scale o 3 position (div o (neg o mu) (cube radius)).
(** moon.rs:73-79 *)
Definition g_lunar_force (mu : F) (position : nat -> F) (mass : F) : nat -> F :=
  vec_scale o 3 (g_lunar_acceleration mu position) mass.
End Forces.
