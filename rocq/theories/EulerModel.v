(** Model of the arithmetic and the unit conversions of crates/aether_core/src/attitude/euler.rs.
    Simplification: exact reals; the frame parameters are dropped (as in AttModel.v).  The by-value,
    by-reference and assigning forms of an operator have one model each, their bodies being the same. *)
From Coq Require Import Reals.
From Verif Require Import Scalar LinModel Geo3 NumModel.
Local Open Scope R_scope.

(** euler.rs:93-138: Add in its four forms and AddAssign in its two *)
Definition euler_add (a b : V3) : V3 := vof (vec_add Rops 3 (vfun a) (vfun b)).
(** euler.rs:140-171: Sub in its four forms *)
Definition euler_sub (a b : V3) : V3 := vof (vec_sub Rops 3 (vfun a) (vfun b)).
(** euler.rs:173-185: Neg *)
Definition euler_neg (a : V3) : V3 := vof (vec_neg Rops 3 (vfun a)).
(** euler.rs:187-203: Mul by a number on the right *)
Definition euler_scale (a : V3) (s : R) : V3 := vof (vec_scale Rops 3 (vfun a) s).
(** euler.rs:205-221: Div by a number *)
Definition euler_div (a : V3) (s : R) : V3 := vof (vec_div Rops 3 (vfun a) s).
(** euler.rs:233-239: from_degrees_vec; Vector::to_radians maps the entries (vector.rs) *)
Definition euler_from_degrees (deg : V3) : V3 :=
  mkV (to_radians Rops PI (vx deg)) (to_radians Rops PI (vy deg)) (to_radians Rops PI (vz deg)).
(** euler.rs:241-243: to_degrees_vec *)
Definition euler_to_degrees (e : V3) : V3 :=
  mkV (to_degrees Rops PI (vx e)) (to_degrees Rops PI (vy e)) (to_degrees Rops PI (vz e)).
