(** C103: the rotating Earth-fixed frame (exact arithmetic). *)
From Coq Require Import Reals Lra.
From Coquelicot Require Import Coquelicot.
From Verif Require Import Scalar LinModel Geo3 Trig AttModel AttProofs AttProps FrameModel.
Local Open Scope R_scope.

Lemma orient_unit e t : unit_quat (orientation_at e t).
Proof. unfold unit_quat, Qnorm2, orientation_at. cbn [qw qi qj qk]. pose proof (sin2_cos2 ((t - e) * earth_rate * 0.5)) as H. unfold Rsqr in H. lra. Qed.
Lemma double a : cos (a * 0.5) * cos (a * 0.5) - sin (a * 0.5) * sin (a * 0.5) = cos a /\ 2 * (sin (a * 0.5) * cos (a * 0.5)) = sin a.
Proof. replace (cos a) with (cos (2 * (a * 0.5))) by (f_equal; lra). replace (sin a) with (sin (2 * (a * 0.5))) by (f_equal; lra). rewrite cos_2a, sin_2a. split; ring. Qed.
(** coordinates at time t of a vector with coordinates v at the epoch *)
Definition turned (a : R) (v : V3) : V3 := mkV (cos a * vx v + sin a * vy v) (- sin a * vx v + cos a * vy v) (vz v).
Lemma orient_acts e t v : rotate_vector (orientation_at e t) v = turned (earth_rate * (t - e)) v.
Proof.
  rewrite C37_rotate_is_dcm by apply orient_unit. rewrite dcm_apply_eq. unfold orientation_at, dcm_of_quat, App, turned. cbn [qw qi qj qk m00 m01 m02 m10 m11 m12 m20 m21 m22].
  replace (earth_rate * (t - e)) with ((t - e) * earth_rate) by ring. destruct (double ((t - e) * earth_rate)) as [C S]. set (c := cos _) in *. set (s := sin _) in *. rewrite <- C, <- S.
  assert (U : c * c + s * s = 1) by (pose proof (orient_unit e t) as U; unfold unit_quat, Qnorm2, orientation_at in U; cbn [qw qi qj qk] in U; fold c s in U; lra).
  apply V3_eq; cbn [vx vy vz]; [ring|ring|]. transitivity ((c * c + s * s) * vz v); [ring|rewrite U; ring].
Qed.
(** the orientation is a unit quaternion, the identity at the epoch, and turns vectors exactly as the direction cosine matrix
    from the inertial frame does for the frame's own angular velocity *)
Theorem C103_orientation e t v : unit_quat (orientation_at e t) /\ orientation_at e e = q_identity /\
  rotate_vector (orientation_at e t) v = dcm_apply (icrf_to_itrf (t - e) itrf_angular_velocity) v.
Proof.
  split; [apply orient_unit|]. split.
  - unfold orientation_at, q_identity. rewrite Rminus_eq_0, !Rmult_0_l, cos_0, sin_0. reflexivity.
  - rewrite orient_acts, dcm_apply_eq. unfold icrf_to_itrf, App, turned, itrf_angular_velocity. cbn [vx vy vz m00 m01 m02 m10 m11 m12 m20 m21 m22].
    replace (- earth_rate * (t - e)) with (- (earth_rate * (t - e))) by ring. rewrite sin_neg. apply V3_eq; cbn [vx vy vz]; ring.
Qed.
(** it is the rotation generated by that angular velocity *)
Theorem C103_generated e t : orientation_at e t = from_angular_velocity itrf_angular_velocity (t - e).
Proof.
  assert (P : 0 < earth_rate) by (unfold earth_rate; lra).
  assert (N : Norm itrf_angular_velocity = earth_rate).
  { unfold Norm, Dot, itrf_angular_velocity. cbn [vx vy vz]. replace (0 * 0 + 0 * 0 + earth_rate * earth_rate) with (earth_rate * earth_rate) by ring. apply sqrt_square; lra. }
  rewrite from_rate_eq by lra. rewrite N. unfold orientation_at, itrf_angular_velocity. cbn [vx vy vz].
  replace ((t - e) * earth_rate * 0.5) with (earth_rate * (t - e) / 2) by lra. f_equal; field; lra.
Qed.
(** turning from the epoch to t1, and from there to t2 with the frame whose epoch is t1, is turning to t2; going back undoes it *)
Theorem C103_composes e t1 t2 v :
  rotate_vector (orientation_at t1 t2) (rotate_vector (orientation_at e t1) v) = rotate_vector (orientation_at e t2) v /\
  q_mul (orientation_at t1 t2) (orientation_at e t1) = orientation_at e t2 /\
  rotate_vector (orientation_at t1 e) (rotate_vector (orientation_at e t1) v) = v.
Proof.
  assert (A : forall a b w, turned b (turned a w) = turned (a + b) w).
  { intros a b w. unfold turned. cbn [vx vy vz]. rewrite cos_plus, sin_plus. apply V3_eq; cbn [vx vy vz]; ring. }
  split; [|split].
  - rewrite !orient_acts, A. f_equal. ring.
  - unfold orientation_at. replace ((t2 - e) * earth_rate * 0.5) with ((t2 - t1) * earth_rate * 0.5 + (t1 - e) * earth_rate * 0.5) by ring.
    rewrite cos_plus, sin_plus. unfold q_mul. cbn [qw qi qj qk]. f_equal; ring.
  - rewrite !orient_acts, A. replace (earth_rate * (t1 - e) + earth_rate * (e - t1)) with 0 by ring. unfold turned. rewrite cos_0, sin_0. apply V3_eq; cbn [vx vy vz]; ring.
Qed.
(** seen from the frame a fixed vector moves with minus the frame's angular velocity: v' = - omega x v *)
Theorem C103_rate e t v :
  let w := Vscale (-1) (Cross itrf_angular_velocity (rotate_vector (orientation_at e t) v)) in
  is_derive (fun t => vx (rotate_vector (orientation_at e t) v)) t (vx w) /\
  is_derive (fun t => vy (rotate_vector (orientation_at e t) v)) t (vy w) /\
  is_derive (fun t => vz (rotate_vector (orientation_at e t) v)) t (vz w).
Proof.
  cbn zeta. rewrite orient_acts. unfold turned, Cross, Vscale, itrf_angular_velocity. cbn [vx vy vz].
  split; [|split].
  - apply is_derive_ext with (f := fun t => cos (earth_rate * (t - e)) * vx v + sin (earth_rate * (t - e)) * vy v); [intros u; rewrite orient_acts; reflexivity|]. auto_derive; auto. unfold Rminus. ring.
  - apply is_derive_ext with (f := fun t => - sin (earth_rate * (t - e)) * vx v + cos (earth_rate * (t - e)) * vy v); [intros u; rewrite orient_acts; reflexivity|]. auto_derive; auto. unfold Rminus. ring.
  - apply is_derive_ext with (f := fun t => vz v); [intros u; rewrite orient_acts; reflexivity|]. auto_derive; auto. unfold Rminus. ring.
Qed.
(** the frame returns after one turn, 2 pi over the rate, and never before: some vector is elsewhere at all other times *)
Theorem C103_period e t : (forall v, rotate_vector (orientation_at e t) v = v) <-> exists k : Z, t = e + IZR k * (2 * PI / earth_rate).
Proof.
  assert (P : 0 < earth_rate) by (unfold earth_rate; lra). split.
  - intros H. pose proof (H (mkV 1 0 0)) as Hx. rewrite orient_acts in Hx. unfold turned in Hx. cbn [vx vy vz] in Hx. injection Hx as C S.
    assert (C' : cos (2 * (earth_rate * (t - e) / 2)) = 1) by (replace (2 * (earth_rate * (t - e) / 2)) with (earth_rate * (t - e)) by field; lra).
    rewrite cos_2a_sin in C'. assert (Z : sin (earth_rate * (t - e) / 2) = 0) by nra.
    apply sin_eq_0_0 in Z. destruct Z as [k Z]. exists k. apply Rmult_eq_reg_l with (earth_rate / 2); [|lra]. 
    replace (earth_rate / 2 * t) with (earth_rate * (t - e) / 2 + earth_rate / 2 * e) by field. rewrite Z. field. lra.
  - intros [k ->] v. rewrite orient_acts. replace (earth_rate * (e + IZR k * (2 * PI / earth_rate) - e)) with (2 * (IZR k * PI)) by (field; lra).
    unfold turned. rewrite cos_2a_sin, sin_2a, sin_eq_0_1 by (exists k; reflexivity). apply V3_eq; cbn [vx vy vz]; ring.
Qed.
(** the quaternion's own matrix conversion, however, gives the opposite turn *)
Theorem C103_matrix_refuted : exists e t v, dcm_apply (to_dcm (orientation_at e t)) v <> dcm_apply (icrf_to_itrf (t - e) itrf_angular_velocity) v.
Proof.
  assert (P : 0 < earth_rate) by (unfold earth_rate; lra).
  exists 0, (PI / 2 / earth_rate), (mkV 1 0 0). rewrite <- (proj2 (proj2 (C103_orientation 0 (PI / 2 / earth_rate) (mkV 1 0 0)))).
  rewrite orient_acts. replace (earth_rate * (PI / 2 / earth_rate - 0)) with (PI / 2) by (field; lra). unfold turned. cbn [vx vy vz]. rewrite sin_PI2, cos_PI2.
  rewrite dcm_apply_eq. intros E. apply (f_equal vy) in E. revert E. unfold to_dcm. rewrite normalized_of_unit by apply orient_unit.
  unfold orientation_at, App. cbn [vx vy vz qw qi qj qk m00 m01 m02 m10 m11 m12 m20 m21 m22].
  replace ((PI / 2 / earth_rate - 0) * earth_rate * 0.5) with (PI / 4) by (replace 0.5 with (/ 2) by lra; field; lra). rewrite sin_PI4, cos_PI4.
  assert (Q : 1 / sqrt 2 * (1 / sqrt 2) = / 2). { assert (sqrt 2 * sqrt 2 = 2) by (apply sqrt_sqrt; lra). assert (sqrt 2 <> 0) by (intros Z; rewrite Z in *; lra). unfold Rdiv. rewrite !Rmult_1_l, <- Rinv_mult by auto. rewrite H. reflexivity. }
  set (h := 1 / sqrt 2) in *. lra.
Qed.
Example C103_nontrivial : exists t v, rotate_vector (orientation_at 0 t) v <> v.
Proof.
  exists (PI / 2 / earth_rate), (mkV 1 0 0). assert (P : 0 < earth_rate) by (unfold earth_rate; lra). rewrite orient_acts. replace (earth_rate * (PI / 2 / earth_rate - 0)) with (PI / 2) by (field; lra).
  unfold turned. cbn [vx vy vz]. rewrite sin_PI2, cos_PI2. intros E. apply (f_equal vx) in E. cbn in E. lra.
Qed.
