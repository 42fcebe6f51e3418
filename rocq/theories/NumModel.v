(** Integrators (crates/aether_core/src/numerical_methods/integration), Newton's method
    (numerical_methods/solvers/newton.rs) and angle conversions (utils/angle_conversion.rs), over any
    scalar type. *)
From Coq Require Import QArith Reals List.
From Verif Require Import Scalar LinModel.
Import ListNotations.

Section Num.
Context {F : Type} (o : ops F).
Local Notation vec := (nat -> F).

(** T::from_f32(2.0), (6.0), (0.5) *)
Definition c_two : F := lit o (2 # 1).
(** T::from_f32(6.0) in the Runge-Kutta step below *)
Definition c_six : F := lit o (6 # 1).
(** T::from_f32(0.5) in the steps below *)
Definition c_half : F := lit o (1 # 2).

(** euler.rs:10-14; also Cartesian (16-23, N = 3) and Euler angles (25-32, N = 3): the same product *)
Definition integrate_euler (N : nat) (v : vec) (dt : F) : vec := vec_scale o N v dt.

(** trapezoidal.rs:14-19; also 21-29 and 31-41 with N = 3 *)
Definition integrate_trapezoidal (N : nat) (v last : vec) (dt : F) : vec :=
  vec_scale o N (vec_scale o N (vec_add o N v last) c_half) dt.

(** rk4.rs:16-28 *)
Definition rk4_vector (N : nat) (f : vec -> vec) (y : vec) (dt : F) : vec :=
  let k1 := f y in
  let k2 := f (vec_add o N y (vec_scale o N k1 (div o dt c_two))) in
  let k3 := f (vec_add o N y (vec_scale o N k2 (div o dt c_two))) in
  let k4 := f (vec_add o N y (vec_scale o N k3 dt)) in
  let s := vec_add o N (vec_add o N (vec_add o N (vec_add o N (vec_add o N k1 k2) k2) k3) k3) k4 in
  vec_add o N y (vec_scale o N s (div o dt c_six)).
(** rk4.rs:29-53 (N = 3) *)
Definition rk4_cartesian (N : nat) (f : vec -> vec) (y : vec) (dt : F) : vec :=
  let half_dt := div o dt c_two in
  let sixth_dt := div o dt c_six in
  let k1 := f y in
  let k2 := f (vec_add o N y (vec_scale o N k1 half_dt)) in
  let k3 := f (vec_add o N y (vec_scale o N k2 half_dt)) in
  let k4 := f (vec_add o N y (vec_scale o N k3 dt)) in
  vec_add o N y
    (vec_scale o N (vec_add o N (vec_add o N (vec_add o N k1 (vec_scale o N k2 c_two)) (vec_scale o N k3 c_two)) k4)
       sixth_dt).
(** rk4.rs:55-75 (N = 3) *)
Definition rk4_euler_angles (N : nat) (f : vec -> vec) (y : vec) (dt : F) : vec :=
  let half_dt := div o dt c_two in
  let sixth_dt := div o dt c_six in
  let k1 := f y in
  let k2 := f (vec_add o N y (vec_scale o N k1 half_dt)) in
  let k3 := f (vec_add o N y (vec_scale o N k2 half_dt)) in
  let k4 := f (vec_add o N y (vec_scale o N k3 dt)) in
  let sum := vec_add o N (vec_add o N (vec_add o N (vec_add o N (vec_add o N k1 k2) k2) k3) k3) k4 in
  let incr := vec_scale o N sum sixth_dt in
  vec_add o N y incr.

(** newton.rs:15-40.  The two error strings are the two error constructors. *)
Inductive newton_result := Root (x : F) | DerivativeZero | MaxIterations.
(** newton.rs:15-40 *)
Fixpoint newton (tol : F) (max_iterations : nat) (guess : F) (f df : F -> F) : newton_result :=
  match max_iterations with
  | 0%nat => MaxIterations
  | S n =>
      let f_val := f guess in
      let df_val := df guess in
      if eqb o df_val (zero o) then DerivativeZero
      else
        let next_guess := sub o guess (div o f_val df_val) in
        if ltb o (absf o (sub o next_guess guess)) tol then Root next_guess
        else newton tol n next_guess f df
  end.

(** angle_conversion.rs:15-41 and, for arrays, 43-61; [pi] is core::f32/f64::consts::PI *)
Definition to_radians (pi x : F) : F := div o (mul o x pi) (lit o (180 # 1)).
(** angle_conversion.rs:22-27, 36-41 *)
Definition to_degrees (pi x : F) : F := div o (mul o x (lit o (180 # 1))) pi.
(** angle_conversion.rs:43-51 *)
Definition array_to_radians (pi : F) (l : list F) : list F := map (to_radians pi) l.
(** angle_conversion.rs:53-61 *)
Definition array_to_degrees (pi : F) (l : list F) : list F := map (to_degrees pi) l.
End Num.
Arguments newton_result F : clear implicits.
