(** Rectangular prisms over any scalar type: crates/aether_shapes/src/prism.rs.  Spheres and cylinders are in [TankModel]; [SolidModel] is the same code over the exact reals. *)
From Verif Require Import Scalar.

Section Prism.
Context {F : Type} (o : ops F).
Local Notation "x + y" := (add o x y). Local Notation "x * y" := (mul o x y). Local Notation "x / y" := (div o x y).
(** prism.rs:18-20 *)
Definition g_prism_volume (a b c : F) : F := a * b * c.
(** prism.rs:25-36 *)
Definition g_twelve : F := one o + one o + one o + one o + one o + one o + one o + one o + one o + one o + one o + one o.
(** prism.rs:21-42; the unused constant of line 23 is left out *)
Definition g_prism_inertia (a b c m : F) : F * F * F :=
  (m * (b * b + c * c) / g_twelve, m * (a * a + c * c) / g_twelve, m * (a * a + b * b) / g_twelve).
End Prism.
