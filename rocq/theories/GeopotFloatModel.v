(** Gravity and the two altitude conversions of the ICAO atmosphere over any scalar type: crates/aether_models/src/terrestrial/atmospheres/isa.rs.
    [AtmModel] is the same code over the exact reals.  Simplification: powf is a parameter. *)
From Coq Require Import QArith.
From Verif Require Import Scalar AtmFloatModel.

Section Geopot.
Context {F : Type} (o : ops F) (powF : F -> F -> F).
Local Notation "x + y" := (add o x y). Local Notation "x - y" := (sub o x y). Local Notation "x * y" := (mul o x y). Local Notation "x / y" := (div o x y).
(** isa.rs: earth_radius_nominal *)
Definition g_isa_radius : F := lit o (6356766 # 1).
(** isa.rs:123-127 *)
Definition g_isa_gravity (h : F) : F := g_isa_g_0 o * powF (g_isa_radius / (g_isa_radius + h)) (lit o (2 # 1)).
(** isa.rs:128-131 *)
Definition g_isa_geopotential_altitude (h : F) : F := (g_isa_radius * h) / (g_isa_radius + h).
(** isa.rs:132-135 *)
Definition g_isa_geometric_altitude (h : F) : F := (g_isa_radius * h) / (g_isa_radius - h).
End Geopot.
