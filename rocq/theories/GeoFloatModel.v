(** Positions and attitudes from angles over any scalar type, with the order of operations of the source, so that f32 and
    f64 are instances: crates/aether_models/src/terrestrial/wgs84/transforms/mod.rs, crates/aether_core/src/attitude/dcm.rs
    and quaternion.rs.  [Wgs84Model] and [AttModel] are the same code over the exact reals.
    Simplification: sine and cosine are parameters; frame markers, which carry no data, are dropped. *)
From Coq Require Import QArith.
From Verif Require Import Scalar LinModel QuatFloatModel.

(** real/mod.rs: the [sin] and [cos] of the scalar type *)
Record trig (F : Type) := mkTrig { sinf : F -> F; cosf : F -> F }.
Arguments mkTrig {F}. Arguments sinf {F}. Arguments cosf {F}.

Section Geo.
Context {F : Type} (o : ops F) (t : trig F).
Local Notation "x + y" := (add o x y). Local Notation "x - y" := (sub o x y).
Local Notation "x * y" := (mul o x y). Local Notation "x / y" := (div o x y). Local Notation "- x" := (neg o x).

(** wgs84/constants/mod.rs:2 and 18, through T::from_f64 *)
Definition g_a : F := lit o 6378137.
(** wgs84/constants/mod.rs:18 *)
Definition g_e2 : F := lit o (6694379990141 # 1000000000000000).
(** wgs84/transforms/mod.rs:43-55 *)
Definition g_geocentric_to_ecef (latitude longitude altitude : F) : gvec F :=
  let n := g_a / sqrtf o (one o - g_e2 * sinf t latitude * sinf t latitude) in
  mkGV ((n + altitude) * cosf t latitude * cosf t longitude)
       ((n + altitude) * cosf t latitude * sinf t longitude)
       ((n * (one o - g_e2) + altitude) * sinf t latitude).

(** a 3x3 array literal *)
Definition g_mat (a b c d e f g h i : F) : nat -> nat -> F := fun r k =>
  match r, k with
  | 0, 0 => a | 0, 1 => b | 0, 2 => c | 1, 0 => d | 1, 1 => e | 1, 2 => f | 2, 0 => g | 2, 1 => h | 2, 2 => i | _, _ => zero o
  end%nat.
(** wgs84/transforms/mod.rs:10-25 *)
Definition g_icrf_to_itrf (time wz : F) : nat -> nat -> F :=
  g_mat (cosf t (wz * time)) (sinf t (wz * time)) (zero o)
        (sinf t (- wz * time)) (cosf t (wz * time)) (zero o)
        (zero o) (zero o) (one o).
(** wgs84/transforms/mod.rs:26-41 *)
Definition g_itrf_to_icrf (time wz : F) : nat -> nat -> F :=
  g_mat (cosf t (wz * time)) (sinf t (- wz * time)) (zero o)
        (sinf t (wz * time)) (cosf t (wz * time)) (zero o)
        (zero o) (zero o) (one o).

(** dcm.rs:42-54 *)
Definition g_rotate_x (angle : F) : nat -> nat -> F :=
  let c := cosf t angle in let s := sinf t angle in
  g_mat (one o) (zero o) (zero o) (zero o) c s (zero o) (- s) c.
(** dcm.rs:56-68 *)
Definition g_rotate_y (angle : F) : nat -> nat -> F :=
  let c := cosf t angle in let s := sinf t angle in
  g_mat c (zero o) (- s) (zero o) (one o) (zero o) s (zero o) c.
(** dcm.rs:70-83 *)
Definition g_rotate_z (angle : F) : nat -> nat -> F :=
  let c := cosf t angle in let s := sinf t angle in
  g_mat c s (zero o) (- s) c (zero o) (zero o) (zero o) (one o).
(** dcm.rs:104-117; the product is the small branch of algorithms.rs, since 3 <= 8 *)
Definition g_dcm_of_euler (phi theta psi : F) : nat -> nat -> F :=
  mul_small o 3 3 3 (mul_small o 3 3 3 (g_rotate_x phi) (g_rotate_y theta)) (g_rotate_z psi).
(** quaternion.rs:451-469 *)
Definition g_quat_of_euler (roll pitch yaw : F) : gquat F :=
  let half := one o / (one o + one o) in
  let cr := cosf t (roll * half) in let sr := sinf t (roll * half) in
  let cp := cosf t (pitch * half) in let sp := sinf t (pitch * half) in
  let cy := cosf t (yaw * half) in let sy := sinf t (yaw * half) in
  mkG (cr * cp * cy + sr * sp * sy) (sr * cp * cy - cr * sp * sy)
      (cr * sp * cy + sr * cp * sy) (cr * cp * sy - sr * sp * cy).
End Geo.
