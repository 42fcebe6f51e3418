(** Quaternions over any scalar type: crates/aether_core/src/attitude/quaternion.rs with the order of operations
    of the source, so that f32 and f64 are instances.  [AttModel] is the same code over the exact reals.
    Simplification: the frame type parameters, which exist only at compile time, are dropped. *)
From Verif Require Import Scalar LinModel.

(** quaternion.rs:9-27, 43-46: scalar part first *)
Record gquat (F : Type) := mkG { gw : F; gi : F; gj : F; gk : F }.
Arguments mkG {F}. Arguments gw {F}. Arguments gi {F}. Arguments gj {F}. Arguments gk {F}.
(** math/vector.rs:21-23 with N = 3 *)
Record gvec (F : Type) := mkGV { gx : F; gy : F; gz : F }.
Arguments mkGV {F}. Arguments gx {F}. Arguments gy {F}. Arguments gz {F}.

Section Quat.
Context {F : Type} (o : ops F).
Local Notation "x + y" := (add o x y). Local Notation "x - y" := (sub o x y).
Local Notation "x * y" := (mul o x y). Local Notation "x / y" := (div o x y). Local Notation "- x" := (neg o x).
(** quaternion.rs:13-17, the components by index *)
Definition gfun (q : gquat F) : nat -> F := fun n => match n with 0 => gw q | 1 => gi q | 2 => gj q | _ => gk q end.
(** quaternion.rs:55-57, 60-62 *)
Definition g_norm2 (q : gquat F) : F := dot o 4 (gfun q) (gfun q).
(** quaternion.rs:60-62 *)
Definition g_norm (q : gquat F) : F := sqrtf o (g_norm2 q).
(** quaternion.rs:65-73 *)
Definition g_normalized (q : gquat F) : gquat F := let n := g_norm q in mkG (gw q / n) (gi q / n) (gj q / n) (gk q / n).
(** quaternion.rs:82-89 *)
Definition g_conjugate (q : gquat F) : gquat F := mkG (gw q) (- gi q) (- gj q) (- gk q).
(** quaternion.rs:176-187, 244-259: mul_raw and the Mul impls *)
Definition g_mul (a b : gquat F) : gquat F :=
  mkG (gw a * gw b - gi a * gi b - gj a * gj b - gk a * gk b)
      (gw a * gi b + gi a * gw b + gj a * gk b - gk a * gj b)
      (gw a * gj b - gi a * gk b + gj a * gw b + gk a * gi b)
      (gw a * gk b + gi a * gj b - gj a * gi b + gk a * gw b).
(** quaternion.rs:105-129 *)
Definition g_rotate (self : gquat F) (v : gvec F) : gvec F :=
  let q := g_normalized self in
  let qc := g_conjugate q in
  let px := gx v in let py := gy v in let pz := gz v in
  let aw := - (gi qc * px + gj qc * py + gk qc * pz) in
  let ax := gw qc * px + gj qc * pz - gk qc * py in
  let ay := gw qc * py + gk qc * px - gi qc * pz in
  let az := gw qc * pz + gi qc * py - gj qc * px in
  mkGV (aw * gi q + ax * gw q + ay * gk q - az * gj q)
       (aw * gj q - ax * gk q + ay * gw q + az * gi q)
       (aw * gk q + ax * gj q - ay * gi q + az * gw q).
End Quat.
