(** Model of crates/aether_core/src/attitude (quaternion.rs, dcm.rs, euler.rs, rotation.rs),
    reference_frame/transforms.rs, coordinate/*.rs and aether_models/src/lunar/{transforms,moon}.rs.
    Simplification throughout: the scalar type is the exact reals (no rounding, no NaN, no signed
    zero); the frame type parameters, which exist only at compile time, are dropped. *)
From Coq Require Import Reals.
From Verif Require Import Scalar LinModel Geo3 Trig.
Local Open Scope R_scope.

(** quaternion.rs:9-27, 43-46: scalar part first *)
Record quat := mkQ { qw : R; qi : R; qj : R; qk : R }.
(** quaternion.rs:13-17, the components by index *)
Definition qfun (q : quat) : nat -> R :=
  fun n => match n with 0%nat => qw q | 1%nat => qi q | 2%nat => qj q | _ => qk q end.

(** quaternion.rs:30-32 *)
Definition q_identity : quat := mkQ 1 0 0 0.
(** quaternion.rs:55-57 *)
Definition q_norm2 (q : quat) : R := dot Rops 4 (qfun q) (qfun q).
(** quaternion.rs:60-62 *)
Definition q_norm (q : quat) : R := sqrt (q_norm2 q).
(** quaternion.rs:65-73 *)
Definition q_normalized (q : quat) : quat :=
  let n := q_norm q in mkQ (qw q / n) (qi q / n) (qj q / n) (qk q / n).
(** quaternion.rs:35-41 *)
Definition from_axis_angle (axis : V3) (angle : R) : quat :=
  let half := angle * (1 / (1 + 1)) in
  let s := sin half in let c := cos half in
  let a := vof (normalize Rops 3 (vfun axis)) in
  q_normalized (mkQ c (vx a * s) (vy a * s) (vz a * s)).
(** quaternion.rs:50-52 *)
Definition from_parts (w : R) (v : V3) : quat := mkQ w (vx v) (vy v) (vz v).
(** quaternion.rs:82-89 *)
Definition q_conjugate (q : quat) : quat := mkQ (qw q) (- qi q) (- qj q) (- qk q).
(** quaternion.rs:93-101 *)
Definition q_inverse (q : quat) : quat :=
  let n2 := q_norm2 q in mkQ (qw q / n2) (- qi q / n2) (- qj q / n2) (- qk q / n2).
(** quaternion.rs:105-144, 275-316; cartesian.rs:35-43: rotate_vector, rotate_vec,
    rotate_cartesian, Quaternion * Cartesian and Cartesian::transform *)
Definition rotate_vector (self : quat) (v : V3) : V3 :=
  let q := q_normalized self in
  let qc := q_conjugate q in
  let px := vx v in let py := vy v in let pz := vz v in
  let aw := - (qi qc * px + qj qc * py + qk qc * pz) in
  let ax := qw qc * px + qj qc * pz - qk qc * py in
  let ay := qw qc * py + qk qc * px - qi qc * pz in
  let az := qw qc * pz + qi qc * py - qj qc * px in
  mkV (aw * qi q + ax * qw q + ay * qk q - az * qj q)
      (aw * qj q - ax * qk q + ay * qw q + az * qi q)
      (aw * qk q + ax * qj q - ay * qi q + az * qw q).
(** quaternion.rs:147-173 *)
Definition to_dcm (self : quat) : M3 :=
  let q := q_normalized self in
  let w := qw q in let x := qi q in let y := qj q in let z := qk q in
  let two := 1 + 1 in
  mkM (w * w + x * x - y * y - z * z) (two * (x * y - w * z)) (two * (x * z + w * y))
      (two * (x * y + w * z)) (w * w - x * x + y * y - z * z) (two * (y * z - w * x))
      (two * (x * z - w * y)) (two * (y * z + w * x)) (w * w - x * x - y * y + z * z).
(** quaternion.rs:176-195, 244-272: mul_raw and the Mul impls *)
Definition q_mul (a b : quat) : quat :=
  mkQ (qw a * qw b - qi a * qi b - qj a * qj b - qk a * qk b)
      (qw a * qi b + qi a * qw b + qj a * qk b - qk a * qj b)
      (qw a * qj b - qi a * qk b + qj a * qw b + qk a * qi b)
      (qw a * qk b + qi a * qj b - qj a * qi b + qk a * qw b).
(** quaternion.rs:318-386 *)
Definition q_scale (q : quat) (s : R) : quat := mkQ (qw q * s) (qi q * s) (qj q * s) (qk q * s).
(** quaternion.rs:333-344 *)
Definition q_add (a b : quat) : quat := mkQ (qw a + qw b) (qi a + qi b) (qj a + qj b) (qk a + qk b).
(** quaternion.rs:199-230 *)
Definition q_integrate (self : quat) (ang_vel ang_acc : V3) (dt : R) : quat :=
  let q := q_normalized self in
  let one := 1 in let two := one + one in let three := two + one in let four := two + two in
  let nine := three * three in
  let half := one / two in let quarter := one / four in let ninth := one / nine in
  let acc := from_parts one ang_acc in
  let vel := from_parts one ang_vel in
  let q_dot := q_scale (q_mul q vel) half in
  let q_ddot := q_add (q_scale (q_mul (q_mul q vel) vel) quarter) (q_scale (q_mul q acc) half) in
  let q_dddot := q_add (q_add (q_scale (q_mul (q_mul (q_mul q vel) vel) vel) (one / (three + three)))
                              (q_scale (q_mul (q_mul q acc) vel) quarter))
                       (q_scale (q_mul (q_mul q vel) acc) half) in
  let dt2 := dt * dt in let dt3 := dt2 * dt in
  let n1 := q_add q (q_scale q_dot dt) in
  let n2 := q_add n1 (q_scale q_ddot (quarter * dt2)) in
  let n3 := q_add n2 (q_scale q_dddot (ninth * dt3)) in
  q_normalized n3.

(** quaternion.rs:388-449; None is Err(()) *)
Definition quat_try_from (m : M3) : option quat :=
  let one := 1 in let two := one + one in let four := two + two in let k := one / four in
  let c1 := one + m00 m + m11 m + m22 m in
  let c2 := one + m00 m - m11 m - m22 m in
  let c3 := one - m00 m + m11 m - m22 m in
  let c4 := one - m00 m - m11 m + m22 m in
  if Rltb k c1 then
    let qs := sqrt (c1 / four) in let qs4 := qs * four in
    Some (mkQ qs ((m12 m - m21 m) / qs4) ((m20 m - m02 m) / qs4) ((m01 m - m10 m) / qs4))
  else if Rltb k c2 then
    let qi := sqrt (c2 / four) in let qi4 := qi * four in
    Some (mkQ ((m12 m - m21 m) / qi4) qi ((m01 m + m10 m) / qi4) ((m20 m + m02 m) / qi4))
  else if Rltb k c3 then
    let qj := sqrt (c3 / four) in let qj4 := qj * four in
    Some (mkQ ((m20 m - m02 m) / qj4) ((m01 m + m10 m) / qj4) qj ((m12 m + m21 m) / qj4))
  else if Rltb k c4 then
    let qk := sqrt (c4 / four) in let qk4 := qk * four in
    Some (mkQ ((m01 m - m10 m) / qk4) ((m20 m + m02 m) / qk4) ((m12 m + m21 m) / qk4) qk)
  else None.

(** quaternion.rs:451-469 *)
Definition quat_of_euler (e : V3) : quat :=
  let roll := vx e in let pitch := vy e in let yaw := vz e in
  let half := 1 / (1 + 1) in
  let cr := cos (roll * half) in let sr := sin (roll * half) in
  let cp := cos (pitch * half) in let sp := sin (pitch * half) in
  let cy := cos (yaw * half) in let sy := sin (yaw * half) in
  mkQ (cr * cp * cy + sr * sp * sy) (sr * cp * cy - cr * sp * sy)
      (cr * sp * cy + sr * cp * sy) (cr * cp * sy - sr * sp * cy).

(** dcm.rs:42-83 *)
Definition rotate_x (t : R) : M3 := let c := cos t in let s := sin t in mkM 1 0 0 0 c s 0 (- s) c.
(** dcm.rs:56-68 *)
Definition rotate_y (t : R) : M3 := let c := cos t in let s := sin t in mkM c 0 (- s) 0 1 0 s 0 c.
(** dcm.rs:70-83 *)
Definition rotate_z (t : R) : M3 := let c := cos t in let s := sin t in mkM c s 0 (- s) c 0 0 0 1.
(** dcm.rs:86-101: the matrix product of algorithms.rs, small branch since 3 <= 8 *)
Definition dcm_mul (a b : M3) : M3 := mof (mul_small Rops 3 3 3 (mfun a) (mfun b)).
(** dcm.rs:182-232 *)
Definition dcm_apply (m : M3) (v : V3) : V3 := vof (mul_vector_unrolled Rops 3 3 (mfun m) (vfun v)).
(** dcm.rs:263-275 *)
Definition dcm_transpose (m : M3) : M3 :=
  mof (for_ 0 3 (fun i r => for_ 0 3 (fun j r => upd2 r i j (mfun m j i)) r) (zeros Rops)).
(** dcm.rs:104-117 *)
Definition dcm_of_euler (e : V3) : M3 :=
  dcm_mul (dcm_mul (rotate_x (vx e)) (rotate_y (vy e))) (rotate_z (vz e)).
(** dcm.rs:129-167; powf(two) of a real is its square *)
Definition dcm_of_quat (q : quat) : M3 :=
  let s := qw q in let i := qi q in let j := qj q in let k := qk q in
  let two := 1 + 1 in
  let sp2 := s * s in let ip2 := i * i in let jp2 := j * j in let kp2 := k * k in
  mkM (sp2 + ip2 - jp2 - kp2) (two * (i * j + s * k)) (two * (i * k - s * j))
      (two * (i * j - s * k)) (sp2 - ip2 + jp2 - kp2) (two * (j * k + s * i))
      (two * (i * k + s * j)) (two * (j * k - s * i)) (sp2 - ip2 - jp2 + kp2).

(** euler.rs:38-71.  asin outside [-1,1] is NaN in the code; the guard at line 58 excludes it. *)
Definition euler_of_quat (q : quat) : V3 :=
  let w := qw q in let x := qi q in let y := qj q in let z := qk q in
  let two := 1 + 1 in let one := 1 in
  let roll := atan2 (two * (w * x + y * z)) (one - two * (x * x + y * y)) in
  let sinp := two * (w * y - z * x) in
  let pitch := if Rleb one (Rabs sinp) then PI / 2 * signum sinp else asin sinp in
  let yaw := atan2 (two * (w * z + x * y)) (one - two * (y * y + z * z)) in
  mkV roll pitch yaw.
(** euler.rs:73-87.  asin of an entry outside [-1,1] is NaN in the code, and clamped here. *)
Definition euler_of_dcm (m : M3) : V3 :=
  mkV (atan2 (m12 m) (m22 m)) (- asin (m02 m)) (atan2 (m01 m) (m00 m)).

(** rotation.rs:30-35: a Rotation is its quaternion *)
Definition rot_compose (self rhs : quat) : quat := q_mul rhs self.
(** rotation.rs:48-52, 59-61 *)
Definition rot_of_dcm (m : M3) : option quat := quat_try_from m.
(** rotation.rs:59-61 *)
Definition rot_of_quat (q : quat) : quat := q_normalized q.
(** rotation.rs:88-105 *)
Definition from_angular_velocity (omega : V3) (dt : R) : quat :=
  let mag := norm Rops 3 (vfun omega) in
  if Reqb mag 0 then q_identity
  else
    let axis := vof (vec_div Rops 3 (vfun omega) mag) in
    let half := mag * dt * (1 / 2) in
    let s := sin half in
    mkQ (cos half) (vx axis * s) (vy axis * s) (vz axis * s).
(** rotation.rs:74-78 *)
Definition rot_integrate (self : quat) (omega_body : V3) (dt : R) : quat :=
  q_mul (from_angular_velocity omega_body dt) self.

(** transforms.rs:8-15 *)
Definition angular_rate_dcm (roll pitch yaw : R) : M3 :=
  mkM 0 (- yaw) pitch yaw 0 (- roll) (- pitch) roll 0.
(** transforms.rs:17-32 *)
Definition aircraft_wind_to_body (aoa slip : R) : M3 :=
  let t_bs := mkM (cos aoa) 0 (- sin aoa) 0 1 0 (sin aoa) 0 (cos aoa) in
  let t_ws := mkM (cos slip) (sin slip) 0 (- sin slip) (cos slip) 0 0 0 1 in
  dcm_mul t_ws (mof (transpose Rops 3 3 (mfun t_bs))).
(** transforms.rs:34-44 *)
Definition aeroballistic_wind_to_body (aoa roll : R) : M3 :=
  mkM (cos aoa) (sin aoa * sin roll) (sin aoa * cos roll)
      0 (cos roll) (- sin roll)
      (- sin aoa) (cos aoa * sin roll) (cos aoa * cos roll).
(** transforms.rs:46-53 *)
Definition flight_path_to_geographic (heading path : R) : M3 :=
  mkM (cos path * cos heading) (cos path * sin heading) (- sin path)
      (- sin heading) (cos heading) 0
      (sin path * cos heading) (sin path * sin heading) (cos path).
(** transforms.rs:55-71 *)
Definition body_to_ned (phi tht psi : R) : M3 :=
  mkM (cos psi * cos tht) (sin psi * cos tht) (- sin tht)
      (cos psi * sin tht * sin phi - sin psi * cos phi) (sin psi * sin tht * sin phi + cos psi * cos phi) (cos tht * sin phi)
      (cos psi * sin tht * cos phi + sin psi * sin phi) (sin psi * sin tht * cos phi - cos psi * sin phi) (cos tht * cos phi).
(** transforms.rs:73-84 *)
Definition itrf_to_ned (lat lon : R) : M3 :=
  mkM (- sin lat * cos lon) (- sin lat * sin lon) (cos lat)
      (- sin lon) (cos lon) 0
      (- cos lat * cos lon) (- cos lat * sin lon) (- sin lat).
(** transforms.rs:86-101, 102-117 *)
Definition icrf_to_itrf (time : R) (w : V3) : M3 :=
  mkM (cos (vz w * time)) (sin (vz w * time)) 0 (sin (- vz w * time)) (cos (vz w * time)) 0 0 0 1.
(** transforms.rs:102-117 *)
Definition itrf_to_icrf (time : R) (w : V3) : M3 :=
  mkM (cos (vz w * time)) (sin (- vz w * time)) 0 (sin (vz w * time)) (cos (vz w * time)) 0 0 0 1.

(** cylindrical.rs:30-39, spherical.rs:33-47, 49-63, cylindrical.rs:41-48, cartesian.rs:322-342.
    Cylindrical is (r, theta, z); Spherical is (r, azimuth, inclination). *)
Definition cyl_of_cart (p : V3) : V3 :=
  mkV (sqrt (vx p * vx p + vy p * vy p)) (atan2 (vy p) (vx p)) (vz p).
(** spherical.rs:33-47 *)
Definition sph_of_cart (p : V3) : V3 :=
  let rho := sqrt (vx p * vx p + vy p * vy p + vz p * vz p) in
  mkV rho (atan2 (vy p) (vx p)) (if Reqb rho 0 then 0 else acos (vz p / rho)).
(** spherical.rs:49-63 *)
Definition sph_of_cyl (c : V3) : V3 :=
  let rho := sqrt (vx c * vx c + vz c * vz c) in
  mkV rho (vy c) (if Reqb rho 0 then 0 else acos (vz c / rho)).
(** cylindrical.rs:41-48 *)
Definition cyl_of_sph (s : V3) : V3 := mkV (vx s * sin (vz s)) (vy s) (vx s * cos (vz s)).
(** cartesian.rs:322-333 *)
Definition cart_of_sph (s : V3) : V3 :=
  mkV (vx s * sin (vz s) * cos (vy s)) (vx s * sin (vz s) * sin (vy s)) (vx s * cos (vz s)).
(** cartesian.rs:335-342 *)
Definition cart_of_cyl (c : V3) : V3 := mkV (vx c * cos (vy c)) (vx c * sin (vy c)) (vz c).

(** aether_models/src/lunar/transforms.rs:10-76; the rotation rate constant is a parameter here *)
Section Lunar.
Context (rate : R).
(** lunar/transforms.rs:10-16 *)
Definition icrf_to_lirf : M3 := mkM 1 0 0 0 1 0 0 0 1.
(** lunar/transforms.rs:18-24 *)
Definition lirf_to_icrf : M3 := mkM 1 0 0 0 1 0 0 0 1.
(** lunar/transforms.rs:26-39 *)
Definition lirf_to_ltrf (time : R) : M3 :=
  let theta := rate * time in mkM (cos theta) (sin theta) 0 (- sin theta) (cos theta) 0 0 0 1.
(** lunar/transforms.rs:41-54 *)
Definition ltrf_to_lirf (time : R) : M3 :=
  let theta := rate * time in mkM (cos theta) (- sin theta) 0 (sin theta) (cos theta) 0 0 0 1.
(** lunar/transforms.rs:56-58 *)
Definition icrf_to_ltrf (time : R) : M3 := dcm_mul (lirf_to_ltrf time) icrf_to_lirf.
(** lunar/transforms.rs:60-62 *)
Definition ltrf_to_icrf (time : R) : M3 := dcm_mul lirf_to_icrf (ltrf_to_lirf time).
(** lunar/transforms.rs:64-69 *)
Definition icrf_to_ltrf_at_epoch (time : R) (epoch : M3) : M3 := dcm_mul (lirf_to_ltrf time) epoch.
(** lunar/transforms.rs:71-76 *)
Definition ltrf_to_icrf_at_epoch (time : R) (epoch : M3) : M3 :=
  dcm_mul (dcm_transpose epoch) (ltrf_to_lirf time).
(** aether_models/src/lunar/moon.rs:97-119: the methods of a Moon with the given epoch *)
Definition moon_lirf_to_ltrf (time : R) : M3 := lirf_to_ltrf time.
(** moon.rs:101-103 *)
Definition moon_ltrf_to_lirf (time : R) : M3 := ltrf_to_lirf time.
(** moon.rs:105-107 *)
Definition moon_icrf_to_lirf (epoch : M3) : M3 := epoch.
(** moon.rs:109-111 *)
Definition moon_lirf_to_icrf (epoch : M3) : M3 := dcm_transpose epoch.
(** moon.rs:113-115 *)
Definition moon_icrf_to_ltrf (epoch_time : R) (epoch : M3) (time : R) : M3 :=
  icrf_to_ltrf_at_epoch (time - epoch_time) epoch.
(** moon.rs:117-119 *)
Definition moon_ltrf_to_icrf (epoch_time : R) (epoch : M3) (time : R) : M3 :=
  ltrf_to_icrf_at_epoch (time - epoch_time) epoch.
End Lunar.
