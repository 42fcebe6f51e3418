(** Propellant tanks (crates/aether_fluids/src/lib.rs), over any scalar type.  The code is written
    for f64 only; the model takes the operations and the constant pi so that the same text can be
    read in IEEE 754 binary64 ([f64_ops], [pi64]) and in exact arithmetic ([Rops], [PI]). *)
From Coq Require Import ZArith QArith Reals List Bool.
From Flocq Require Import Core BinarySingleNaN.
From Verif Require Import Scalar F64.
Import ListNotations.

(** f64::consts::PI: 0x400921FB54442D18 *)
Definition pi64 : f64 := @B754_finite 53 1024 false 7074237752028440 (-51) eq_refl.

Section Tank.
Context {F : Type} (o : ops F) (pi : F).
Local Notation "a +' b" := (add o a b) (at level 50, left associativity).
Local Notation "a *' b" := (mul o a b) (at level 40, left associativity).
Local Notation "a /' b" := (div o a b) (at level 40, left associativity).

(** f64::is_nan, used by f64::max and clamp at lib.rs:27-78 *)
Definition isnan (x : F) : bool := negb (eqb o x x).
(** f64::max: the other operand when one is NaN.  Of two zeros Rust may return either; the model
    returns the first. *)
Definition fmax (x y : F) : F := if isnan x || ltb o x y then y else x.
(** f64::clamp (core): two comparisons, so NaN stays NaN *)
Definition clamp (x lo hi : F) : F :=
  let x := if ltb o x lo then lo else x in if ltb o hi x then hi else x.

(** lib.rs:8-11 *)
Inductive tank_shape := TCyl (radius length : F) | TSph (radius : F).
(** crates/aether_shapes/src/cylinder.rs:16-18 and sphere.rs:15-21 *)
Definition cyl_volume (r h : F) : F := pi *' r *' r *' h.
(** sphere.rs:16-22 *)
Definition sph_volume (r : F) : F :=
  (one o +' one o +' one o +' one o) /' (one o +' one o +' one o) *' pi *' r *' r *' r.
(** lib.rs:14-25 *)
Definition volume (s : tank_shape) : F :=
  match s with TCyl r h => cyl_volume r h | TSph r => sph_volume r end.

(** cylinder.rs:19-37 and sphere.rs:22-27; F::from_f64(1.0) is written [one] *)
Definition cyl_inertia (r h m : F) : F * F * F :=
  let half := one o /' (one o +' one o) in
  let twelve := one o +' one o +' one o +' one o +' one o +' one o +' one o +' one o +' one o +' one o
                +' one o +' one o in
  let r2 := r *' r in
  let h2 := h *' h in
  let iz := m *' r2 *' half in
  let ixy := m *' (one o +' one o +' one o) *' r2 +' m *' h2 in
  (ixy /' twelve, ixy /' twelve, iz).
(** sphere.rs:23-28 *)
Definition sph_inertia (r m : F) : F * F * F :=
  let two_fifths := (one o +' one o) /' (one o +' one o +' one o +' one o +' one o) in
  let i := two_fifths *' m *' r *' r in
  (i, i, i).
(** lib.rs:27-43 *)
Definition inertia (s : tank_shape) (mass : F) : F * F * F :=
  let mass := fmax mass (zero o) in
  match s with
  | TCyl r h => cyl_inertia (absf o r) (absf o h) mass
  | TSph r => sph_inertia (absf o r) mass
  end.

(** lib.rs:47-58 *)
Record tank_spec := mkSpec { t_shape : tank_shape; t_density : F; t_fill : F }.
(** lib.rs:47-58 *)
Record limits_t := mkLim { l_geometric : F; l_usable : F; l_mass : F }.
(** lib.rs:67-78 *)
Definition limits (t : tank_spec) : limits_t :=
  let geometric := fmax (volume (t_shape t)) (zero o) in
  let fill := clamp (t_fill t) (zero o) (one o) in
  let usable := geometric *' fill in
  let mass := usable *' fmax (t_density t) (zero o) in
  mkLim geometric usable mass.

(** lib.rs:60-64 *)
Record tank_state := mkTank { s_shape : tank_shape; s_mass : F }.
(** lib.rs:81-87 *)
Definition total_mass (l : list tank_state) : F :=
  fold_left (fun acc t => acc +' fmax (s_mass t) (zero o)) l (zero o).
(** lib.rs:89-100 *)
Definition total_inertia (l : list tank_state) : F * F * F :=
  fold_left (fun acc t =>
    let '(a, b, c) := acc in
    let '(x, y, z) := inertia (s_shape t) (fmax (s_mass t) (zero o)) in
    (a +' x, b +' y, c +' z)) l (zero o, zero o, zero o).
End Tank.
Arguments tank_shape F : clear implicits.
Arguments tank_spec F : clear implicits.
Arguments tank_state F : clear implicits.
Arguments limits_t F : clear implicits.
