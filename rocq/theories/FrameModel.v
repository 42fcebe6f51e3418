(** The rotating Earth-fixed frame, crates/aether_core/src/reference_frame/itrf.rs, with the trait of traits.rs:13-25.
    Exact arithmetic, as in AttModel; the frame is its epoch. *)
From Coq Require Import Reals.
From Verif Require Import Geo3 AttModel.
Local Open Scope R_scope.

(** itrf.rs:20, 32: the rotation rate in rad/s *)
Definition earth_rate : R := 7.2921150e-5.
(** itrf.rs:18-23 *)
Definition itrf_angular_velocity : V3 := mkV 0 0 earth_rate.
(** itrf.rs:29-44 *)
Definition orientation_at (epoch t : R) : quat :=
  let omega := earth_rate in
  let dtheta := (t - epoch) * omega in
  let half_theta := dtheta * 0.5 in
  mkQ (cos half_theta) 0 0 (sin half_theta).
