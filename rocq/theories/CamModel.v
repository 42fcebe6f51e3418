(** Model of crates/aether_graphics/src/graphics/transforms.rs and cameras/orbit_camera.rs.

    Simplification: scalars are exact reals.  The decimal thresholds are the exact decimals. *)
From Coq Require Import Reals.
From Verif Require Import Scalar LinModel Geo3 Trig AttModel.
Open Scope R_scope.

(** Vector::normalize, math/vector.rs:284-286 *)
Definition vnormalize (v : V3) : V3 := vof (normalize Rops 3 (vfun v)).
(** Vector::cross, math/vector.rs:503-513 *)
Definition vcross (a b : V3) : V3 := vof (cross Rops (vfun a) (vfun b)).
(** Vector::dot, math/vector.rs:276-278 *)
Definition vdot (a b : V3) : R := dot Rops 3 (vfun a) (vfun b).

(** a row of a Matrix<T, 4, 4> literal *)
Definition row4 (a b c d : R) : nat -> R := fun j => match j with 0%nat => a | 1%nat => b | 2%nat => c | _ => d end.
(** a Matrix<T, 4, 4> literal, transforms.rs:15-80 *)
Definition rows4 (a b c d : nat -> R) : nat -> nat -> R := fun i => match i with 0%nat => a | 1%nat => b | 2%nat => c | _ => d end.

(** transforms.rs:7-22 *)
Definition look_at (eye center up : V3) : nat -> nat -> R :=
  let f := vnormalize (Vsub center eye) in
  let r := vnormalize (vcross up f) in
  let u := vcross f r in
  rows4 (row4 (vx r) (vy r) (vz r) (- vdot r eye))
        (row4 (vx u) (vy u) (vz u) (- vdot u eye))
        (row4 (- vx f) (- vy f) (- vz f) (vdot f eye))
        (row4 0 0 0 1).

(** transforms.rs:24-46 *)
Definition perspective (aspect fov_y_rad near far : R) : nat -> nat -> R :=
  let f := 1 / tan (fov_y_rad / 2) in
  let nf := 1 / (near - far) in
  rows4 (row4 (f / aspect) 0 0 0)
        (row4 0 f 0 0)
        (row4 0 0 ((far + near) * nf) (- (1)))
        (row4 0 0 (2 * far * near * nf) 0).

(** transforms.rs:47-59 *)
Definition look_at_perspective (eye center up : V3) (aspect fov near far : R) :=
  (look_at eye center up, perspective aspect fov near far).

(** transforms.rs:61-81 *)
Definition translate (m : nat -> nat -> R) (t : V3) : nat -> nat -> R :=
  let m := upd2 m 0 3 (m 0%nat 0%nat * vx t + m 0%nat 1%nat * vy t + m 0%nat 2%nat * vz t + m 0%nat 3%nat) in
  let m := upd2 m 1 3 (m 1%nat 0%nat * vx t + m 1%nat 1%nat * vy t + m 1%nat 2%nat * vz t + m 1%nat 3%nat) in
  upd2 m 2 3 (m 2%nat 0%nat * vx t + m 2%nat 1%nat * vy t + m 2%nat 2%nat * vz t + m 2%nat 3%nat).

(** orbit_camera.rs:18-29; min_dist, max_dist, pan_sens and zoom_sens are read by no function *)
Record camera := mkCam { target : V3; distance : R; yaw : R; pitch : R; orientation : quat; orbit_sens : R }.
(** orbit_camera.rs:32-45 *)
Definition cam_default : camera := mkCam V0 0 0 0 q_identity (1 / 100).

(** orbit_camera.rs:57 *)
Definition world_up : V3 := mkV 0 0 1.
(** orbit_camera.rs:61 *)
Definition base_forward : V3 := mkV 1 0 0.

(** orbit_camera.rs:63-68, 94-99, 149-161: the right axis of a forward vector, with the fallback *)
Definition right_of (fwd : V3) : V3 :=
  let right := vcross world_up fwd in
  let n2 := vx right * vx right + vy right * vy right + vz right * vz right in
  let right := if Rltb n2 (/ 10 ^ 16) then vcross (mkV 1 0 0) fwd else right in
  vnormalize right.

(** orbit_camera.rs:143-146 *)
Definition forward (c : camera) : V3 := vnormalize (rotate_vector (orientation c) base_forward).
(** orbit_camera.rs:149-161 *)
Definition right (c : camera) : V3 := right_of (forward c).
(** orbit_camera.rs:164-180 *)
Definition cam_up (c : camera) : V3 :=
  let up := vcross (forward c) (right c) in
  let n2 := vx up * vx up + vy up * vy up + vz up * vz up in
  if Rltb n2 (/ 10 ^ 16) then mkV 0 0 1
  else let up_n := vnormalize up in
       if Rltb (vz up_n) 0 then Vscale (- (1)) up_n else up_n.
(** orbit_camera.rs:183-186 *)
Definition position (c : camera) : V3 := Vsub (target c) (Vscale (distance c) (forward c)).

(** orbit_camera.rs:53-72 *)
Definition set_angles (c : camera) (yaw pitch : R) : camera :=
  let q_yaw := from_axis_angle world_up yaw in
  let fwd := vnormalize (rotate_vector q_yaw base_forward) in
  let q_pitch := from_axis_angle (right_of fwd) pitch in
  mkCam (target c) (distance c) yaw pitch (q_normalized (q_mul q_pitch q_yaw)) (orbit_sens c).

(** orbit_camera.rs:105-107, 127-129: yaw and pitch refreshed from the forward vector *)
Definition refresh (c : camera) : camera :=
  let fwd := forward c in
  mkCam (target c) (distance c) (atan2 (vy fwd) (vx fwd)) (asin (Rmin (Rmax (vz fwd) (- (1))) 1)) (orientation c) (orbit_sens c).
(** the assignments to self.orientation, orbit_camera.rs:53-130 *)
Definition set_orientation (c : camera) (q : quat) : camera :=
  mkCam (target c) (distance c) (yaw c) (pitch c) q (orbit_sens c).

(** orbit_camera.rs:84-108 *)
Definition apply_orbit_angles (c : camera) (dyaw dpitch : R) : camera :=
  let q_yaw := from_axis_angle world_up dyaw in
  let tmp := q_normalized (q_mul q_yaw (orientation c)) in
  let fwd_tmp := vnormalize (rotate_vector tmp base_forward) in
  let q_pitch := from_axis_angle (right_of fwd_tmp) dpitch in
  refresh (set_orientation c (q_normalized (q_mul q_pitch tmp))).
(** orbit_camera.rs:78-82 *)
Definition apply_orbit_pixels (c : camera) (dx dy : R) : camera :=
  apply_orbit_angles c (- dx * orbit_sens c) (- dy * orbit_sens c).
(** orbit_camera.rs:115-130 *)
Definition apply_orbit_world_angles (c : camera) (droll_x dpitch_y : R) : camera :=
  let qx := from_axis_angle (mkV 1 0 0) droll_x in
  let qy := from_axis_angle (mkV 0 1 0) dpitch_y in
  let qxy := q_normalized (q_mul qx qy) in
  refresh (set_orientation c (q_normalized (q_mul qxy (orientation c)))).
(** orbit_camera.rs:135-139 *)
Definition apply_orbit_world_pixels (c : camera) (dx dy : R) : camera :=
  apply_orbit_world_angles c (- dy * orbit_sens c) (- dx * orbit_sens c).

(** what a caller can do to a camera: the methods, and assignment to the public fields *)
(** orbit_camera.rs:18-29, 53-139 *)
Inductive cam_step : camera -> camera -> Prop :=
| step_angles c y p : cam_step c (set_angles c y p)
| step_orbit c y p : cam_step c (apply_orbit_angles c y p)
| step_pixels c y p : cam_step c (apply_orbit_pixels c y p)
| step_world c y p : cam_step c (apply_orbit_world_angles c y p)
| step_world_pixels c y p : cam_step c (apply_orbit_world_pixels c y p)
| step_fields c t d y p s : cam_step c (mkCam t d y p (orientation c) s).
(** orbit_camera.rs:18-45, 53-139 *)
Inductive cam_reachable : camera -> Prop :=
| reach_default : cam_reachable cam_default
| reach_step c c' : cam_reachable c -> cam_step c c' -> cam_reachable c'.
