(** Cartesian, cylindrical and spherical coordinates, and Euler angles read back from attitudes, over any scalar type with the
    order of operations of the source, so that f32 and f64 are instances: crates/aether_core/src/coordinate/cylindrical.rs,
    spherical.rs, cartesian.rs and attitude/euler.rs.  [AttModel] is the same code over the exact reals.
    Simplification: the trigonometric functions are parameters; frame markers, which carry no data, are dropped. *)
From Verif Require Import Scalar LinModel QuatFloatModel GeoFloatModel.

(** real/real.rs:43-46: the inverse trigonometric functions of the scalar type; [atan2f y x] is [y.atan2(x)] *)
Record angles (F : Type) := mkAngles { atan2f : F -> F -> F; acosf : F -> F; asinf : F -> F }.
Arguments mkAngles {F}. Arguments atan2f {F}. Arguments acosf {F}. Arguments asinf {F}.

Section Coord.
Context {F : Type} (o : ops F) (t : trig F) (a : angles F).
Local Notation "x + y" := (add o x y). Local Notation "x - y" := (sub o x y).
Local Notation "x * y" := (mul o x y). Local Notation "x / y" := (div o x y). Local Notation "- x" := (neg o x).

(** cylindrical.rs:30-39 *)
Definition g_cyl_of_cart (p : gvec F) : gvec F :=
  let x := gx p in let y := gy p in let z := gz p in
  mkGV (sqrtf o (x * x + y * y)) (atan2f a y x) z.
(** spherical.rs:33-47 *)
Definition g_sph_of_cart (p : gvec F) : gvec F :=
  let x := gx p in let y := gy p in let z := gz p in
  let rho := sqrtf o (x * x + y * y + z * z) in
  mkGV rho (atan2f a y x) (if eqb o rho (zero o) then zero o else acosf a (z / rho)).
(** spherical.rs:49-63 *)
Definition g_sph_of_cyl (c : gvec F) : gvec F :=
  let r := gx c in let z := gz c in
  let rho := sqrtf o (r * r + z * z) in
  mkGV rho (gy c) (if negb (eqb o rho (zero o)) then acosf a (z / rho) else zero o).
(** cylindrical.rs:41-48 *)
Definition g_cyl_of_sph (s : gvec F) : gvec F := mkGV (gx s * sinf t (gz s)) (gy s) (gx s * cosf t (gz s)).
(** cartesian.rs:322-333 *)
Definition g_cart_of_sph (s : gvec F) : gvec F :=
  let sin_theta := sinf t (gz s) in
  mkGV (gx s * sin_theta * cosf t (gy s)) (gx s * sin_theta * sinf t (gy s)) (gx s * cosf t (gz s)).
(** cartesian.rs:335-342 *)
Definition g_cart_of_cyl (c : gvec F) : gvec F := mkGV (gx c * cosf t (gy c)) (gx c * sinf t (gy c)) (gz c).

(** euler.rs:73-87 *)
Definition g_euler_of_dcm (m : nat -> nat -> F) : gvec F :=
  let yaw := atan2f a (m 0 1) (m 0 0) in
  let pitch := - asinf a (m 0 2) in
  let roll := atan2f a (m 1 2) (m 2 2) in
  mkGV roll pitch yaw.
(** euler.rs:38-71; [signum] and [half_pi] are those of the scalar type *)
Definition g_euler_of_quat (signum : F -> F) (half_pi : F) (q : gquat F) : gvec F :=
  let w := gw q in let x := gi q in let y := gj q in let z := gk q in
  let two := one o + one o in
  let sinr_cosp := two * (w * x + y * z) in
  let cosr_cosp := one o - two * (x * x + y * y) in
  let roll := atan2f a sinr_cosp cosr_cosp in
  let sinp := two * (w * y - z * x) in
  let pitch := if leb o (one o) (absf o sinp) then half_pi * signum sinp else asinf a sinp in
  let siny_cosp := two * (w * z + x * y) in
  let cosy_cosp := one o - two * (y * y + z * z) in
  let yaw := atan2f a siny_cosp cosy_cosp in
  mkGV roll pitch yaw.
(** dcm.rs:129-167; [sq x] is [x.powf(two)] *)
Definition g_dcm_of_quat (sq : F -> F) (q : gquat F) : nat -> nat -> F :=
  let s := gw q in let i := gi q in let j := gj q in let k := gk q in
  let two := one o + one o in
  let sp2 := sq s in let ip2 := sq i in let jp2 := sq j in let kp2 := sq k in
  g_mat o (sp2 + ip2 - jp2 - kp2) (two * (i * j + s * k)) (two * (i * k - s * j))
        (two * (i * j - s * k)) (sp2 - ip2 + jp2 - kp2) (two * (j * k + s * i))
        (two * (i * k + s * j)) (two * (j * k - s * i)) (sp2 - ip2 - jp2 + kp2).
End Coord.
