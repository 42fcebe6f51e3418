(** Model of crates/aether_models/src/terrestrial/{earth.rs, wgs84/} and of the gravity and orbit
    functions of crates/aether_models/src/lunar/{moon,orbit}.rs.

    Simplification, everywhere in this file: scalars are exact reals, decimal literals are the exact
    decimals, the elementary functions are the exact ones and [powf] with an integer exponent is the
    integer power.  Division by zero is the total division of Coq's reals; every theorem names the
    arguments for which the divisors are not zero. *)
From Coq Require Import Reals List Arith Bool.
From Verif Require Import Scalar LinModel Trig Geo3 StatsModel.
Open Scope R_scope.

(** wgs84/constants/mod.rs:2-21, 31, 34 *)
Definition w84_a : R := 6378137.
(** wgs84/constants/mod.rs:3 *)
Definition w84_GM : R := 3986004418 * 10 ^ 5.
(** wgs84/constants/mod.rs:4 *)
Definition w84_w : R := 7292115 / 10 ^ 11.
(** wgs84/constants/mod.rs:15 *)
Definition w84_b : R := 63567523142 / 10 ^ 4.
(** wgs84/constants/mod.rs:18 *)
Definition w84_e2 : R := 6694379990141 / 10 ^ 15.
(** wgs84/constants/mod.rs:21 *)
Definition w84_E : R := 52185400842339 / 10 ^ 8.
(** wgs84/constants/mod.rs:31 *)
Definition w84_g_e : R := 97803253359 / 10 ^ 10.
(** wgs84/constants/mod.rs:34 *)
Definition w84_k : R := 1931852652458 / 10 ^ 15.

(** ** wgs84/transforms/mod.rs *)

(** wgs84/transforms/mod.rs:43-55 *)
Definition geocentric_to_ecef (latitude longitude altitude : R) : V3 :=
  let n := w84_a / sqrt (1 - w84_e2 * sin latitude * sin latitude) in
  mkV ((n + altitude) * cos latitude * cos longitude)
      ((n + altitude) * cos latitude * sin longitude)
      ((n * (1 - w84_e2) + altitude) * sin latitude).

(** wgs84/transforms/mod.rs:57-94.  [powf(1/3)] is [Rpower], which is the real power for the positive
    bases the theorems establish.  The guard of line 82 also catches NaN, which does not arise in
    exact arithmetic with nonzero divisors. *)
Definition ecef_to_geocentric_ferrari (x y z : R) : V3 :=
  let a2 := w84_a * w84_a in
  let b2 := w84_b * w84_b in
  let f := (w84_a - w84_b) / w84_a in
  let e_2 := 2 * f - f * f in
  let ep := sqrt (a2 / b2 - 1) in
  let z2 := z * z in
  let r := sqrt (x * x + y * y) in
  let r2 := r * r in
  let e2_2 := a2 - b2 in
  let ff := 54 * b2 * z2 in
  let g := r2 + (1 - e_2) * z2 - e_2 * e2_2 in
  let c := e_2 ^ 2 * ff * r2 / g ^ 3 in
  let s := Rpower (1 + c + (c ^ 2 + 2 * c)) (1 / 3) in
  let pp := ff / (3 * (s + 1 / s + 1) ^ 2 * g ^ 2) in
  let q := sqrt (1 + 2 * e_2 ^ 2 * pp) in
  let r0_op := 1 / 2 * a2 * (1 + 1 / q) - (pp * (1 - e_2) * z2) / (q * (1 + q)) - 1 / 2 * pp * r2 in
  let r0_op := if negb (Rltb 0 r0_op) then 0 else r0_op in
  let r0 := - pp * e_2 * r / (1 + q) + sqrt r0_op in
  let u := sqrt ((r - e_2 * r0) ^ 2 + z2) in
  let v := sqrt ((r - e_2 * r0) ^ 2 + (1 - e_2) * z2) in
  let z0 := b2 * z / (w84_a * v) in
  let altitude := u * (1 - (b2 / (w84_a * v))) in
  let latitude := atan2 (z + ep * ep * z0) r in
  let longitude := atan2 y x in
  mkV latitude longitude altitude.

(** wgs84/transforms/mod.rs:108-122: the while loop, with the number of iterations still allowed;
    the third component tells whether the convergence test ended it *)
Fixpoint geodetic_loop (fuel : nat) (rho2 z dz n : R) : R * R * bool :=
  match fuel with
  | O => (dz, n, false)
  | S fuel =>
      let zdz := z + dz in
      let nh := sqrt (rho2 + zdz * zdz) in
      let sinphi := zdz / nh in
      let n := w84_a / sqrt (1 - w84_e2 * sinphi * sinphi) in
      let dz_new := n * w84_e2 * sinphi in
      if Rltb (Rabs (dz - dz_new)) (eps * 100) then (dz, n, true)
      else geodetic_loop fuel rho2 z dz_new n
  end.

(** wgs84/transforms/mod.rs:96-138.  The two branches of the last [if] are the same code. *)
Definition ecef_to_geocentric (x y z : R) : V3 :=
  let rho2 := x * x + y * y in
  let dz := w84_e2 * z in
  let '(dz, n, _) := geodetic_loop 101 rho2 z dz 0 in
  let zdz := z + dz in
  mkV (atan2 zdz (sqrt rho2)) (atan2 y x) (sqrt (rho2 + zdz * zdz) - n).

(** ** wgs84/gravity/mod.rs *)

(** wgs84/gravity/mod.rs:13-15; [latitude.sin().sin()] is the sine of the sine *)
Definition gravity_normal (latitude : R) : R :=
  w84_g_e * (1 + w84_k * sin (sin latitude)) / (1 - w84_e2 * sin (sin latitude)).

(** wgs84/gravity/mod.rs:24-30 *)
Definition ellipsoidal_height (x y z : R) : R :=
  let t_share := x ^ 2 + y ^ 2 + z ^ 2 - w84_E ^ 2 in
  let t1 := 1 / 2 * t_share in
  let t2 := 1 + sqrt (1 + (4 * w84_E ^ 2 * z ^ 2) / (t_share ^ 2)) in
  sqrt (t1 * t2).
(** wgs84/gravity/mod.rs:17-22 *)
Definition ellipsoidal_beta (x y z u : R) : R :=
  atan ((z * sqrt (u ^ 2 + w84_E ^ 2)) / (u * sqrt (x ^ 2 + y ^ 2))).
(** wgs84/gravity/mod.rs:32-36 *)
Definition ellipsoidal_w (u beta : R) : R :=
  sqrt ((u ^ 2 + w84_E ^ 2 * sin (sin beta)) / (u ^ 2 + w84_E ^ 2)).

(** wgs84/gravity/mod.rs:38-68 *)
Definition gravity_ellipsoidal (x y z : R) : V3 :=
  let u := ellipsoidal_height x y z in
  let beta := ellipsoidal_beta x y z u in
  let ellip_w := ellipsoidal_w u beta in
  let q := 1 / 2 * ((1 + 3 * u ^ 2 / w84_E ^ 2) * atan (w84_E / u) - 3 * u / w84_E) in
  let q_0 := 1 / 2 * ((1 + 3 * w84_b ^ 2 / w84_E ^ 2) * atan (w84_E / w84_b) - 3 * w84_b / w84_E) in
  let qprime := 3 * (1 + u ^ 2 / w84_E ^ 2) * (1 - u / w84_E * atan (w84_E / u)) - 1 in
  let g_u := -1 / ellip_w
      * ((w84_GM / (u ^ 2 + w84_E ^ 2))
         + (w84_w ^ 2 * w84_a ^ 2 * w84_E) / (u ^ 2 + w84_E ^ 2) * (qprime / q_0)
           * (1 / 2 * sin (sin beta) - 1 / 6))
      + 1 / ellip_w * w84_w ^ 2 * u * cos (cos beta) in
  let g_b := 1 / ellip_w * (w84_w ^ 2 * w84_a ^ 2 / (u ^ 2 + w84_E ^ 2)) * q / q_0 * sin beta * cos beta
      - 1 / ellip_w * w84_w ^ 2 * sqrt (u ^ 2 + w84_E ^ 2) * sin beta * cos beta in
  mkV g_u g_b 0.

(** wgs84/gravity/mod.rs:69-95 *)
Definition gravity_rectangular (x y z : R) : V3 :=
  let u := ellipsoidal_height x y z in
  let beta := ellipsoidal_beta x y z u in
  let ellip_w := ellipsoidal_w u beta in
  let long := vy (ecef_to_geocentric_ferrari x y z) in
  let low := u / (ellip_w * sqrt (u ^ 2 + w84_E ^ 2)) * cos beta in
  let r1 := mkM (low * cos long) (-1 / ellip_w * sin beta * cos long) (- sin long)
                (low * sin long) (-1 / ellip_w * sin beta * sin long) (cos long)
                (1 / ellip_w * sin beta) low 0 in
  vof (mul_vector_unrolled Rops 3 3 (mfun r1) (vfun (gravity_ellipsoidal x y z))).

(** ** earth.rs *)

(** iers/constants.rs:22 (also wgs84/constants/iers.rs) *)
Definition iers_GM : R := 3986004418 * 10 ^ 5.

(** earth.rs:55-62; [omega] is the field [rotational_velocity] *)
Definition solve_coriolis_force (omega velocity : V3) (mass : R) : V3 :=
  let c := vof (cross Rops (vfun omega) (vfun velocity)) in
  vof (vec_neg Rops 3 (vec_scale Rops 3 (vec_scale Rops 3 (vfun c) 2) mass)).
(** earth.rs:64-72 *)
Definition solve_centrifugal_force (omega position : V3) (mass : R) : V3 :=
  let c := vof (cross Rops (vfun omega) (cross Rops (vfun omega) (vfun position))) in
  vof (vec_neg Rops 3 (vec_scale Rops 3 (vfun c) mass)).
(** earth.rs:74-85 *)
Definition solve_gravitational_force (position : V3) (mass : R) : V3 :=
  vof (vec_scale Rops 3 (vfun (gravity_rectangular (vx position) (vy position) (vz position))) mass).
(** earth.rs:86-97 *)
Definition earth_gravitational_torque (position : V3) (inertia : M3) : V3 :=
  let value := vof (mul_vector_unrolled Rops 3 3 (mfun inertia) (vfun position)) in
  let local := vof (cross Rops (vfun position) (vfun value)) in
  let scalar := (3 * iers_GM) / (norm Rops 3 (vfun position)) ^ 5 in
  vof (vec_scale Rops 3 (vfun local) scalar).

(** ** lunar/moon.rs and lunar/orbit.rs *)

(** moon.rs:60-71; [mu] is the field [gravitational_constant] *)
Definition moon_gravitational_acceleration (mu : R) (position : V3) : V3 :=
  let radius := norm Rops 3 (vfun position) in
  if Rleb radius eps then V0
  else vof (vec_scale Rops 3 (vfun position) (- mu / radius ^ 3)).
(** moon.rs:73-79 *)
Definition moon_gravitational_force (mu : R) (position : V3) (mass : R) : V3 :=
  vof (vec_scale Rops 3 (vfun (moon_gravitational_acceleration mu position)) mass).
(** moon.rs:81-95 *)
Definition moon_gravitational_torque (mu : R) (position : V3) (inertia : M3) : V3 :=
  let radius := norm Rops 3 (vfun position) in
  if Rleb radius eps then V0
  else
    let value := vof (mul_vector_unrolled Rops 3 3 (mfun inertia) (vfun position)) in
    let local := vof (cross Rops (vfun position) (vfun value)) in
    vof (vec_scale Rops 3 (vfun local) ((3 * mu) / radius ^ 5)).

(** orbit.rs:8-15 *)
Record orbit := mkOrbit { o_a : R; o_period : R; o_mu_earth : R; o_mu_moon : R }.
(** orbit.rs:35-37, 39-41, 43-45 *)
Definition mu_total (o : orbit) : R := o_mu_earth o + o_mu_moon o.
(** orbit.rs:39-41 *)
Definition mean_motion (o : orbit) : R := 2 * PI / o_period o.
(** orbit.rs:43-45 *)
Definition keplerian_period (o : orbit) : R := 2 * PI * sqrt (o_a o ^ 3 / mu_total o).
