(** C37-C44 and C77-C81: attitude, reference frames and coordinates (exact arithmetic). *)
From Coq Require Import Reals Lra.
From Coquelicot Require Import Coquelicot.
From Verif Require Import Scalar LinModel Geo3 Trig AttModel AttProofs.
Local Open Scope R_scope.

(** A concrete unit quaternion used as witness: a 2*atan2(4,3) turn about z. *)
Definition q35 : quat := mkQ (3/5) 0 0 (4/5).
Lemma q35_unit : unit_quat q35. Proof. unfold unit_quat, Qnorm2; cbn; lra. Qed.
Definition q45 : quat := mkQ (3/5) (4/5) 0 0.
Lemma q45_unit : unit_quat q45. Proof. unfold unit_quat, Qnorm2; cbn; lra. Qed.

(** ** C37: rotate_vector *)
Theorem C37_rotate_is_dcm : forall q v, unit_quat q -> rotate_vector q v = dcm_apply (dcm_of_quat q) v.
Proof. intros q v H. rewrite rotate_vector_eq, (normalized_of_unit q H), dcm_apply_eq; reflexivity. Qed.
Theorem C37_rigid : forall q u v c, nonzero_quat q ->
  Dot (rotate_vector q u) (rotate_vector q v) = Dot u v /\
  Norm (rotate_vector q u) = Norm u /\
  Cross (rotate_vector q u) (rotate_vector q v) = rotate_vector q (Cross u v) /\
  rotate_vector q (Vadd u (Vscale c v)) = Vadd (rotate_vector q u) (Vscale c (rotate_vector q v)).
Proof.
  intros q u v c H. pose proof (dcm_of_quat_rotation _ (normalized_unit q H)) as HR.
  rewrite !rotate_vector_eq. repeat split.
  - apply rotation_Dot, HR.
  - apply rotation_Norm, HR.
  - symmetry; apply rotation_Cross, HR.
  - v3; ring.
Qed.
Theorem C37_inverse : forall q v, nonzero_quat q ->
  rotate_vector (q_inverse q) (rotate_vector q v) = v /\ rotate_vector q (rotate_vector (q_inverse q) v) = v /\
  q_mul q (q_inverse q) = q_identity /\ q_mul (q_inverse q) q = q_identity.
Proof.
  intros q v H. pose proof (dcm_of_quat_rotation _ (normalized_unit q H)) as HR.
  rewrite !rotate_vector_eq, (normalized_inverse q H), dcm_of_quat_conj.
  rewrite (rotation_cancel _ _ HR), (rotation_cancel' _ _ HR). unfold nonzero_quat in H.
  assert (N := H). unfold Qnorm2 in N.
  repeat split; unfold q_inverse; rewrite q_norm2_eq; unfold q_identity; q4; unfold Qnorm2; field; exact N.
Qed.
(** The same rotation by the quaternion sandwich q* (0,v) q, and for every nonzero multiple of q. *)
Theorem C37_sandwich : forall q v c, unit_quat q -> c <> 0 ->
  q_mul (q_mul (q_conjugate q) (from_parts 0 v)) q = from_parts 0 (rotate_vector q v) /\
  rotate_vector (q_scale q c) v = rotate_vector q v.
Proof.
  intros q v c H Hc. split.
  - rewrite rotate_vector_eq, (normalized_of_unit q H). unfold from_parts.
    q4; unfold dcm_of_quat; cbn [vx vy vz App m00 m01 m02 m10 m11 m12 m20 m21 m22]; ring.
  - assert (NZ : nonzero_quat (q_scale q c)).
    { unfold nonzero_quat. replace (Qnorm2 (q_scale q c)) with (Qnorm2 q * (c * c)) by (unfold Qnorm2; cbn; ring).
      rewrite H, Rmult_1_l. apply Rmult_integral_contrapositive_currified; exact Hc. }
    rewrite !rotate_vector_eq. f_equal. destruct (Rdichotomy c 0 Hc) as [L|L].
    + replace (q_scale q c) with (q_scale (q_neg q) (- c)) by (unfold q_neg; q4; ring).
      assert (U : unit_quat (q_neg q)) by (unfold unit_quat, Qnorm2, q_neg in *; cbn; lra).
      rewrite normalized_scale by (try lra; apply unit_nonzero; exact U).
      rewrite (normalized_of_unit _ U), (normalized_of_unit q H).
      unfold q_neg, dcm_of_quat; m3; cbn [qw qi qj qk]; ring.
    + rewrite normalized_scale by (try lra; apply unit_nonzero; exact H). reflexivity.
Qed.
Example C37_nontrivial : unit_quat q35 /\ rotate_vector q35 (mkV 1 0 0) = mkV (-7/25) (-24/25) 0.
Proof.
  split; [apply q35_unit|]. rewrite rotate_vector_eq, (normalized_of_unit _ q35_unit).
  v3; unfold dcm_of_quat, q35; cbn; lra.
Qed.

(** ** C38: to_dcm against rotate_vector *)
Theorem C38_to_dcm_agrees_refuted : exists q v, unit_quat q /\ dcm_apply (to_dcm q) v <> rotate_vector q v.
Proof.
  exists q35, (mkV 1 0 0). split; [apply q35_unit|].
  rewrite (proj2 C37_nontrivial), dcm_apply_eq, to_dcm_eq, (normalized_of_unit _ q35_unit).
  intros E. apply (f_equal vy) in E. revert E. unfold dcm_of_quat, q35; cbn; lra.
Qed.
(** What to_dcm is instead: the inverse rotation. *)
Theorem C38_to_dcm_is_inverse_partial : forall q v, nonzero_quat q ->
  rotation (to_dcm q) /\ dcm_apply (to_dcm q) v = rotate_vector (q_inverse q) v /\
  dcm_apply (to_dcm q) (rotate_vector q v) = v.
Proof.
  intros q v H. pose proof (dcm_of_quat_rotation _ (normalized_unit q H)) as HR.
  rewrite !dcm_apply_eq, to_dcm_eq. split; [apply rotation_Tr, HR|].
  rewrite !rotate_vector_eq, (normalized_inverse q H), dcm_of_quat_conj.
  split; [reflexivity|apply rotation_cancel, HR].
Qed.
(** It agrees with rotate_vector exactly for the identity and half turns. *)
Theorem C38_agrees_iff_partial : forall q, unit_quat q ->
  ((forall v, dcm_apply (to_dcm q) v = rotate_vector q v) <->
   qw q = 0 \/ (qi q = 0 /\ qj q = 0 /\ qk q = 0)).
Proof.
  intros q H. split.
  - intros A.
    pose proof (A (mkV 1 0 0)) as A1. pose proof (A (mkV 0 1 0)) as A2. clear A.
    rewrite dcm_apply_eq, to_dcm_eq, rotate_vector_eq, (normalized_of_unit _ H) in A1, A2.
    pose proof (f_equal vy A1) as B1. pose proof (f_equal vz A1) as B2. pose proof (f_equal vz A2) as B3.
    unfold dcm_of_quat in B1, B2, B3; cbn in B1, B2, B3.
    destruct (Req_dec (qw q) 0) as [|Hw]; [left; assumption|right].
    repeat split; apply Rmult_eq_reg_l with (qw q); auto; lra.
  - intros C v. rewrite dcm_apply_eq, to_dcm_eq, rotate_vector_eq, (normalized_of_unit _ H).
    f_equal. unfold dcm_of_quat. destruct C as [C|(C1 & C2 & C3)]; [rewrite C|rewrite C1, C2, C3]; m3; ring.
Qed.
Example C38_nontrivial : nonzero_quat q35 /\ to_dcm q35 <> Id3.
Proof.
  split; [apply unit_nonzero, q35_unit|]. rewrite to_dcm_eq, (normalized_of_unit _ q35_unit).
  intros E; apply (f_equal m00) in E; revert E; unfold dcm_of_quat, q35; cbn; lra.
Qed.

(** ** C39: composition *)
Theorem C39_product_chains_refuted : exists q2 q1 v, unit_quat q2 /\ unit_quat q1 /\
  rotate_vector (q_mul q2 q1) v <> rotate_vector q2 (rotate_vector q1 v).
Proof.
  exists q35, q45, (mkV 1 0 0). split; [apply q35_unit|]. split; [apply q45_unit|].
  rewrite !rotate_vector_eq, normalized_mul by (apply unit_nonzero; first [apply q35_unit|apply q45_unit]).
  rewrite (normalized_of_unit _ q35_unit), (normalized_of_unit _ q45_unit).
  intros E; apply (f_equal vz) in E; revert E; unfold dcm_of_quat, q35, q45; cbn; lra.
Qed.
(** The product rotates in the opposite order. *)
Theorem C39_product_reverses_partial : forall q2 q1 v, nonzero_quat q2 -> nonzero_quat q1 ->
  rotate_vector (q_mul q2 q1) v = rotate_vector q1 (rotate_vector q2 v).
Proof.
  intros q2 q1 v H2 H1. rewrite !rotate_vector_eq, normalized_mul, dcm_of_quat_mul, App_Mul by assumption. reflexivity.
Qed.
(** The documented rule R_ac = R_bc * R_ab holds for the matrices that to_dcm returns. *)
Theorem C39_to_dcm_chains_partial : forall q2 q1, nonzero_quat q2 -> nonzero_quat q1 ->
  to_dcm (q_mul q2 q1) = dcm_mul (to_dcm q2) (to_dcm q1).
Proof.
  intros q2 q1 H2 H1. rewrite dcm_mul_eq, !to_dcm_eq, normalized_mul, dcm_of_quat_mul, Tr_Mul by assumption. reflexivity.
Qed.
(** Two quaternions chain as documented exactly when their rotations commute. *)
Theorem C39_chains_iff_commute_partial : forall q2 q1, nonzero_quat q2 -> nonzero_quat q1 ->
  ((forall v, rotate_vector (q_mul q2 q1) v = rotate_vector q2 (rotate_vector q1 v)) <->
   (forall v, rotate_vector q1 (rotate_vector q2 v) = rotate_vector q2 (rotate_vector q1 v))).
Proof. intros; split; intros A v; [rewrite <- C39_product_reverses_partial|rewrite C39_product_reverses_partial]; auto. Qed.
Theorem C39_group : forall a b c,
  q_mul (q_mul a b) c = q_mul a (q_mul b c) /\ q_mul q_identity a = a /\ q_mul a q_identity = a /\
  q_norm (q_mul a b) = q_norm a * q_norm b.
Proof.
  intros a b c. repeat split; try (unfold q_identity; q4; ring). apply q_norm_mul.
Qed.
(** Rotation::compose is documented as first self, then rhs. *)
Theorem C39_compose_refuted : exists a b v, unit_quat a /\ unit_quat b /\
  rotate_vector (rot_compose a b) v <> rotate_vector b (rotate_vector a v).
Proof.
  destruct C39_product_chains_refuted as (q2 & q1 & v & H2 & H1 & N). exists q1, q2, v.
  split; [exact H1|]. split; [exact H2|]. exact N.
Qed.
Example C39_nontrivial : unit_quat q35 /\ unit_quat q45 /\ q_mul q35 q45 <> q_mul q45 q35.
Proof.
  split; [apply q35_unit|]. split; [apply q45_unit|]. intros E; apply (f_equal qj) in E; revert E; cbn; lra.
Qed.

(** ** C40: DCM to quaternion and back *)
Theorem C40_try_from_total : forall m, rotation m ->
  exists q, quat_try_from m = Some q /\ unit_quat q /\ dcm_of_quat q = m.
Proof.
  intros m H. destruct (try_from_rotation m H) as (q & E & P). exists q. split; [exact E|]. apply products_unit, P.
Qed.
Theorem C40_quaternion_round_trip : forall q, unit_quat q ->
  quat_try_from (dcm_of_quat q) = Some q \/ quat_try_from (dcm_of_quat q) = Some (q_neg q).
Proof.
  intros q H. destruct (C40_try_from_total _ (dcm_of_quat_rotation q H)) as (p & E & Hp & D).
  rewrite E. destruct (same_dcm p q Hp H D) as [->| ->]; auto.
Qed.
(** Both signs give the same matrix, and every other unit quaternion a different one. *)
Theorem C40_double_cover : forall p q, unit_quat p -> unit_quat q ->
  (dcm_of_quat p = dcm_of_quat q <-> p = q \/ p = q_neg q).
Proof.
  intros p q Hp Hq. split; [apply same_dcm; assumption|].
  intros [-> | ->]; [reflexivity|]. unfold dcm_of_quat, q_neg; m3; cbn [qw qi qj qk]; ring.
Qed.
(** Every branch of the conversion is taken by some rotation. *)
Example C40_nontrivial :
  rotation Id3 /\ rotation (mkM 1 0 0 0 (-1) 0 0 0 (-1)) /\ rotation (mkM (-1) 0 0 0 1 0 0 0 (-1)) /\
  rotation (mkM (-1) 0 0 0 (-1) 0 0 0 1).
Proof. repeat split; try (m3; ring); unfold Det; cbn; ring. Qed.

(** ** C41: Euler angles *)
Theorem C41_euler_dcm_entries : forall roll pitch yaw,
  dcm_of_euler (mkV roll pitch yaw) = Mul (rotate_x roll) (Mul (rotate_y pitch) (rotate_z yaw)).
Proof. intros; rewrite dcm_of_euler_eq, Mul_assoc; reflexivity. Qed.
Theorem C41_euler_quaternion_dcm : forall e,
  unit_quat (quat_of_euler e) /\ dcm_of_quat (quat_of_euler e) = dcm_of_euler e /\
  (forall v, rotate_vector (quat_of_euler e) v = dcm_apply (dcm_of_euler e) v).
Proof.
  intros e. split; [apply quat_of_euler_unit|]. split; [apply euler_quat_dcm|].
  intros v. rewrite C37_rotate_is_dcm by apply quat_of_euler_unit. rewrite euler_quat_dcm; reflexivity.
Qed.
Theorem C41_dcm_euler_dcm : forall m, rotation m -> m00 m <> 0 \/ m01 m <> 0 -> dcm_of_euler (euler_of_dcm m) = m.
Proof. exact euler_dcm_dcm. Qed.
Theorem C41_euler_dcm_euler : forall roll pitch yaw, - PI < roll <= PI -> - (PI / 2) < pitch < PI / 2 ->
  - PI < yaw <= PI -> euler_of_dcm (dcm_of_euler (mkV roll pitch yaw)) = mkV roll pitch yaw.
Proof. intros; apply euler_dcm_euler; assumption. Qed.
Theorem C41_quaternion_euler : forall q, unit_quat q ->
  euler_of_quat q = euler_of_dcm (dcm_of_quat q) /\
  (m00 (dcm_of_quat q) <> 0 \/ m01 (dcm_of_quat q) <> 0 -> dcm_of_euler (euler_of_quat q) = dcm_of_quat q).
Proof.
  intros q H. pose proof (euler_quat_via_dcm q H) as E. split; [exact E|].
  intros G. rewrite E. apply euler_dcm_dcm; [apply dcm_of_quat_rotation, H|exact G].
Qed.
(** The angles returned are always in the principal ranges. *)
Theorem C41_ranges : forall m, let e := euler_of_dcm m in
  - PI < vx e <= PI /\ - (PI / 2) <= vy e <= PI / 2 /\ - PI < vz e <= PI.
Proof.
  intros m e. split; [apply atan2_bound|]. split; [|apply atan2_bound].
  unfold e, euler_of_dcm; cbn [vy]. pose proof (asin_bound (m02 m)); lra.
Qed.
(** The condition is needed: in gimbal lock the matrix is not recovered. *)
Theorem C41_gimbal_lock_differs : exists m, rotation m /\ m00 m = 0 /\ m01 m = 0 /\ dcm_of_euler (euler_of_dcm m) <> m.
Proof.
  exists (mkM 0 0 1 1 0 0 0 1 0). split; [split; [m3; ring|unfold Det; cbn; ring]|]. repeat split.
  rewrite dcm_of_euler_eq. unfold euler_of_dcm, rotate_x, rotate_y, rotate_z; cbn [vx vy vz m00 m01 m02 m10 m11 m12 m20 m21 m22].
  rewrite !atan2_0_0, cos_0, sin_0. intros E; apply (f_equal m10) in E; revert E; cbn; lra.
Qed.
Example C41_nontrivial : let m := dcm_of_euler (mkV (PI/2) 0 (PI/2)) in rotation m /\ m <> Id3 /\ (m00 m <> 0 \/ m01 m <> 0).
Proof.
  split; [apply dcm_of_euler_rotation|]. rewrite dcm_of_euler_eq.
  unfold rotate_x, rotate_y, rotate_z; cbn [vx vy vz]. rewrite sin_PI2, cos_PI2, sin_0, cos_0.
  split; [intros E; apply (f_equal m00) in E; revert E; cbn; lra|right; cbn; lra].
Qed.

(** ** C42: rotation matrices *)
Theorem C42_elementary : forall t, rotation (rotate_x t) /\ rotation (rotate_y t) /\ rotation (rotate_z t).
Proof. intros; repeat split; apply rot_x || apply rot_y || apply rot_z. Qed.
(** Passive convention: turning the frame by t about an axis turns coordinates back by t. *)
Theorem C42_elementary_action : forall t, 
  dcm_apply (rotate_x t) (mkV 1 0 0) = mkV 1 0 0 /\ dcm_apply (rotate_x t) (mkV 0 (cos t) (sin t)) = mkV 0 1 0 /\
  dcm_apply (rotate_y t) (mkV 0 1 0) = mkV 0 1 0 /\ dcm_apply (rotate_y t) (mkV (sin t) 0 (cos t)) = mkV 0 0 1 /\
  dcm_apply (rotate_z t) (mkV 0 0 1) = mkV 0 0 1 /\ dcm_apply (rotate_z t) (mkV (cos t) (sin t) 0) = mkV 1 0 0.
Proof.
  intros t. rewrite !dcm_apply_eq. pose proof (cos_sq t) as C.
  repeat split; v3; cbn; ring [C].
Qed.
Theorem C42_closed : forall a b, rotation a -> rotation b -> rotation (dcm_mul a b) /\ rotation (dcm_transpose a).
Proof. intros. rewrite dcm_mul_eq, dcm_transpose_eq. auto using rotation_Mul, rotation_Tr. Qed.
Theorem C42_transpose_is_inverse : forall a u v, rotation a ->
  dcm_mul a (dcm_transpose a) = Id3 /\ dcm_mul (dcm_transpose a) a = Id3 /\
  dcm_apply (dcm_transpose a) (dcm_apply a v) = v /\ Norm (dcm_apply a v) = Norm v /\
  Dot (dcm_apply a u) (dcm_apply a v) = Dot u v.
Proof.
  intros a u v H. rewrite !dcm_mul_eq, !dcm_apply_eq, !dcm_transpose_eq.
  repeat split; auto using rotation_right, rotation_cancel, rotation_Norm, rotation_Dot. apply H.
Qed.
Theorem C42_product_acts_in_order : forall a b v, dcm_apply (dcm_mul a b) v = dcm_apply a (dcm_apply b v).
Proof. intros; rewrite dcm_mul_eq, !dcm_apply_eq, App_Mul; reflexivity. Qed.
Theorem C42_frame_transforms : forall a b c time w,
  rotation (aircraft_wind_to_body a b) /\ rotation (aeroballistic_wind_to_body a b) /\
  rotation (flight_path_to_geographic a b) /\ rotation (body_to_ned a b c) /\ rotation (itrf_to_ned a b) /\
  rotation (icrf_to_itrf time w) /\ rotation (itrf_to_icrf time w) /\ rotation (dcm_of_euler (mkV a b c)).
Proof.
  intros a b c time w. pose proof (cos_sq a) as A. pose proof (cos_sq b) as B. pose proof (cos_sq c) as C.
  pose proof (cos_sq (vz w * time)) as T.
  assert (N : sin (- vz w * time) = - sin (vz w * time)) by (rewrite <- sin_neg; f_equal; ring).
  assert (BN : body_to_ned a b c = dcm_of_euler (mkV a b c)).
  { rewrite dcm_of_euler_eq. unfold body_to_ned, rotate_x, rotate_y, rotate_z. m3; ring. }
  rewrite BN. pose proof (dcm_of_euler_rotation (mkV a b c)) as HE. clear BN.
  repeat match goal with |- _ /\ _ => split; [|] end; try exact HE; clear HE;
   unfold aircraft_wind_to_body, aeroballistic_wind_to_body, flight_path_to_geographic, itrf_to_ned, icrf_to_itrf, itrf_to_icrf;
   rewrite ?dcm_mul_eq, ?tr3, ?N;
   (split; [m3|unfold Det; cbn [m00 m01 m02 m10 m11 m12 m20 m21 m22 Mul Tr]]; ring [A B T]).
Qed.
(** What the matrices map: the wind, flight-path and local-level axes. *)
Theorem C42_axes : forall a b,
  dcm_apply (aircraft_wind_to_body a b) (mkV (cos a * cos b) (sin b) (sin a * cos b)) = mkV 1 0 0 /\
  dcm_apply (flight_path_to_geographic a b) (mkV (cos a * cos b) (sin a * cos b) (- sin b)) = mkV 1 0 0 /\
  dcm_apply (itrf_to_ned a b) (mkV (cos a * cos b) (cos a * sin b) (sin a)) = mkV 0 0 (-1) /\
  dcm_apply (itrf_to_ned a b) (mkV (- sin b) (cos b) 0) = mkV 0 1 0 /\
  dcm_apply (aeroballistic_wind_to_body a b) (mkV (cos a) (sin a * sin b) (sin a * cos b)) = mkV 1 0 0.
Proof.
  intros a b. pose proof (cos_sq a) as A. pose proof (cos_sq b) as B.
  rewrite !dcm_apply_eq. unfold aircraft_wind_to_body; rewrite ?dcm_mul_eq, ?tr3.
  repeat split; v3; cbn; ring [A B].
Qed.
Theorem C42_angular_rate : forall p q r v, dcm_apply (angular_rate_dcm p q r) v = Cross (mkV p q r) v.
Proof. intros; rewrite dcm_apply_eq; v3; cbn; ring. Qed.
Example C42_nontrivial : rotation (rotate_z (PI/2)) /\ dcm_apply (rotate_z (PI/2)) (mkV 0 1 0) = mkV 1 0 0.
Proof.
  split; [apply rot_z|]. pose proof (C42_elementary_action (PI/2)) as H. rewrite sin_PI2, cos_PI2 in H. apply H.
Qed.

(** ** C43: frame transforms over time *)
Lemma neg_arg w t : sin (- w * t) = - sin (w * t). Proof. rewrite <- sin_neg; f_equal; ring. Qed.
Theorem C43_earth : forall t s w,
  dcm_mul (itrf_to_icrf t w) (icrf_to_itrf t w) = Id3 /\ dcm_mul (icrf_to_itrf t w) (itrf_to_icrf t w) = Id3 /\
  icrf_to_itrf 0 w = Id3 /\ itrf_to_icrf 0 w = Id3 /\
  icrf_to_itrf (t + s) w = dcm_mul (icrf_to_itrf s w) (icrf_to_itrf t w) /\
  itrf_to_icrf t w = dcm_transpose (icrf_to_itrf t w).
Proof.
  intros t s w. rewrite !dcm_mul_eq, dcm_transpose_eq. pose proof (cos_sq (vz w * t)) as T.
  unfold icrf_to_itrf, itrf_to_icrf. rewrite !neg_arg, !Rmult_0_r, sin_0, cos_0.
  replace (vz w * (t + s)) with (vz w * t + vz w * s) by ring. rewrite cos_plus, sin_plus.
  repeat split; m3; ring [T].
Qed.
Theorem C43_moon : forall rate t s,
  dcm_mul (ltrf_to_lirf rate t) (lirf_to_ltrf rate t) = Id3 /\ dcm_mul (lirf_to_ltrf rate t) (ltrf_to_lirf rate t) = Id3 /\
  lirf_to_ltrf rate 0 = Id3 /\ ltrf_to_lirf rate 0 = Id3 /\
  lirf_to_ltrf rate (t + s) = dcm_mul (lirf_to_ltrf rate s) (lirf_to_ltrf rate t) /\
  dcm_mul (ltrf_to_icrf rate t) (icrf_to_ltrf rate t) = Id3 /\ dcm_mul (icrf_to_ltrf rate t) (ltrf_to_icrf rate t) = Id3.
Proof.
  intros rate t s. unfold ltrf_to_icrf, icrf_to_ltrf. rewrite !dcm_mul_eq. pose proof (cos_sq (rate * t)) as T.
  unfold lirf_to_ltrf, ltrf_to_lirf, lirf_to_icrf, icrf_to_lirf. rewrite !Rmult_0_r, sin_0, cos_0.
  replace (rate * (t + s)) with (rate * t + rate * s) by ring. rewrite cos_plus, sin_plus.
  repeat split; m3; ring [T].
Qed.
Lemma lirf_rot rate t : rotation (lirf_to_ltrf rate t).
Proof. pose proof (cos_sq (rate * t)) as T. unfold lirf_to_ltrf. split; [m3|unfold Det]; cbn; ring [T]. Qed.
Lemma ltrf_tr rate t : ltrf_to_lirf rate t = Tr (lirf_to_ltrf rate t).
Proof. unfold ltrf_to_lirf, lirf_to_ltrf. m3; ring. Qed.
Theorem C43_moon_epoch : forall rate t0 epoch t, rotation epoch ->
  rotation (moon_icrf_to_ltrf rate t0 epoch t) /\ rotation (moon_ltrf_to_icrf rate t0 epoch t) /\
  dcm_mul (moon_ltrf_to_icrf rate t0 epoch t) (moon_icrf_to_ltrf rate t0 epoch t) = Id3 /\
  dcm_mul (moon_icrf_to_ltrf rate t0 epoch t) (moon_ltrf_to_icrf rate t0 epoch t) = Id3 /\
  moon_icrf_to_ltrf rate t0 epoch t0 = epoch /\
  dcm_mul (moon_lirf_to_icrf epoch) (moon_icrf_to_lirf epoch) = Id3.
Proof.
  intros rate t0 epoch t H.
  unfold moon_icrf_to_ltrf, moon_ltrf_to_icrf, icrf_to_ltrf_at_epoch, ltrf_to_icrf_at_epoch, moon_lirf_to_icrf, moon_icrf_to_lirf.
  rewrite !dcm_mul_eq, !dcm_transpose_eq, !ltrf_tr.
  set (L := lirf_to_ltrf rate (t - t0)). assert (HL : rotation L) by apply lirf_rot.
  assert (HX : rotation (Mul L epoch)) by (apply rotation_Mul; assumption).
  rewrite <- Tr_Mul. repeat match goal with |- _ /\ _ => split end; auto using rotation_Tr, rotation_right.
  - apply HX.
  - replace (t0 - t0) with 0 by ring. destruct (C43_moon rate 0 0) as (_ & _ & E & _). rewrite E, Mul_1_l. reflexivity.
  - apply H.
Qed.
Example C43_nontrivial : rotation (rotate_x 1) /\ moon_icrf_to_ltrf 1 5 (rotate_x 1) (5 + PI / 2) <> rotate_x 1.
Proof.
  split; [apply rot_x|]. unfold moon_icrf_to_ltrf, icrf_to_ltrf_at_epoch, lirf_to_ltrf. rewrite dcm_mul_eq.
  replace (1 * (5 + PI / 2 - 5)) with (PI / 2) by ring. rewrite sin_PI2, cos_PI2.
  intros E; apply (f_equal m00) in E; revert E; cbn; lra.
Qed.

(** ** C77: the three lunar transforms of one Moon chain *)
Theorem C77_moon_chain_refuted : exists rate t0 epoch t, rotation epoch /\
  moon_icrf_to_ltrf rate t0 epoch t <> dcm_mul (moon_lirf_to_ltrf rate t) (moon_icrf_to_lirf epoch).
Proof.
  exists 1, (PI / 2), Id3, (PI / 2). split; [apply rotation_Id|].
  unfold moon_icrf_to_ltrf, moon_lirf_to_ltrf, moon_icrf_to_lirf, icrf_to_ltrf_at_epoch, lirf_to_ltrf.
  rewrite !dcm_mul_eq, !Mul_1_r. replace (1 * (PI / 2 - PI / 2)) with 0 by ring.
  rewrite Rmult_1_l, sin_PI2, cos_PI2, sin_0, cos_0. intros E; apply (f_equal m00) in E; revert E; cbn; lra.
Qed.
(** It chains for every time exactly when the Moon turns a whole number of times from time zero to the epoch. *)
Theorem C77_moon_chain_iff_partial : forall rate t0 epoch, rotation epoch ->
  ((forall t, moon_icrf_to_ltrf rate t0 epoch t = dcm_mul (moon_lirf_to_ltrf rate t) (moon_icrf_to_lirf epoch)) <->
   cos (rate * t0) = 1).
Proof.
  intros rate t0 epoch H.
  unfold moon_icrf_to_ltrf, moon_lirf_to_ltrf, moon_icrf_to_lirf, icrf_to_ltrf_at_epoch.
  assert (D : forall t, lirf_to_ltrf rate t = Mul (lirf_to_ltrf rate t0) (lirf_to_ltrf rate (t - t0))).
  { intros t. destruct (C43_moon rate (t - t0) t0) as (_ & _ & _ & _ & E & _). rewrite dcm_mul_eq in E.
    rewrite <- E. f_equal; ring. }
  split.
  - intros A. specialize (A t0). rewrite !dcm_mul_eq in A. replace (t0 - t0) with 0 in A by ring.
    destruct (C43_moon rate 0 0) as (_ & _ & E & _). rewrite E, Mul_1_l in A.
    assert (X : lirf_to_ltrf rate t0 = Id3).
    { rewrite <- (Mul_1_r (lirf_to_ltrf rate t0)), <- (rotation_right epoch H), <- Mul_assoc, <- A. reflexivity. }
    apply (f_equal m00) in X. exact X.
  - intros C t. rewrite !dcm_mul_eq. rewrite (D t).
    assert (S : sin (rate * t0) = 0).
    { apply Rsqr_0_uniq; unfold Rsqr. pose proof (sincos2 (rate * t0)) as S. rewrite C in S. lra. }
    replace (lirf_to_ltrf rate t0) with Id3; [rewrite Mul_1_l; reflexivity|].
    unfold lirf_to_ltrf; rewrite C, S; m3; ring.
Qed.

(** ** C78: body_to_ned takes body coordinates to north-east-down coordinates *)
Theorem C78_nose_direction_refuted : exists roll pitch yaw,
  dcm_apply (body_to_ned roll pitch yaw) (mkV 1 0 0) <> mkV (cos pitch * cos yaw) (cos pitch * sin yaw) (- sin pitch).
Proof.
  exists 0, 0, (PI / 2). rewrite dcm_apply_eq. unfold body_to_ned. rewrite sin_PI2, cos_PI2, sin_0, cos_0.
  intros E; apply (f_equal vy) in E; revert E; cbn; lra.
Qed.
(** The matrix returned is the transpose: it takes north-east-down to body coordinates. *)
Theorem C78_is_ned_to_body_partial : forall roll pitch yaw v,
  body_to_ned roll pitch yaw = dcm_of_euler (mkV roll pitch yaw) /\
  dcm_apply (body_to_ned roll pitch yaw) (mkV (cos pitch * cos yaw) (cos pitch * sin yaw) (- sin pitch)) = mkV 1 0 0 /\
  dcm_apply (dcm_transpose (body_to_ned roll pitch yaw)) (mkV 1 0 0) = mkV (cos pitch * cos yaw) (cos pitch * sin yaw) (- sin pitch) /\
  dcm_apply (dcm_transpose (body_to_ned roll pitch yaw)) (dcm_apply (body_to_ned roll pitch yaw) v) = v.
Proof.
  intros a b c v. pose proof (cos_sq a) as A. pose proof (cos_sq b) as B. pose proof (cos_sq c) as C.
  rewrite dcm_of_euler_eq, !dcm_apply_eq, dcm_transpose_eq.
  repeat match goal with |- _ /\ _ => split end.
  - unfold body_to_ned, rotate_x, rotate_y, rotate_z. m3; ring.
  - unfold body_to_ned. v3; ring [A B C].
  - unfold body_to_ned. v3; ring.
  - apply rotation_cancel. destruct (C42_frame_transforms a b c 0 V0) as (_ & _ & _ & H & _). exact H.
Qed.

(** ** C44: coordinates *)
Lemma hyp3 x y z : x * x + y * y + z * z = Dot (mkV x y z) (mkV x y z). Proof. reflexivity. Qed.
Theorem C44_cylindrical : forall p, cart_of_cyl (cyl_of_cart p) = p /\
  0 <= vx (cyl_of_cart p) /\ - PI < vy (cyl_of_cart p) <= PI.
Proof.
  intros p. repeat split; try (apply sqrt_pos); try (apply atan2_bound).
  unfold cart_of_cyl, cyl_of_cart; v3; cbn; [apply atan2_cos|apply atan2_sin|reflexivity].
Qed.
Lemma z_ratio r z : 0 < sqrt (r * r + z * z) -> -1 <= z / sqrt (r * r + z * z) <= 1.
Proof.
  intros H. set (n := sqrt _) in *.
  assert (N : n * n = r * r + z * z).
  { apply sqrt_sqrt. pose proof (Rle_0_sqr r); pose proof (Rle_0_sqr z); unfold Rsqr in *; lra. }
  assert (Rabs z <= n).
  { apply Rsqr_incr_0_var; [|lra]. rewrite <- Rsqr_abs. unfold Rsqr. pose proof (Rle_0_sqr r); unfold Rsqr in *; lra. }
  assert (-n <= z <= n) by (unfold Rabs in *; destruct (Rcase_abs z); lra).
  split; apply Rmult_le_reg_r with n; try lra; unfold Rdiv; rewrite Rmult_assoc, Rinv_l by lra; lra.
Qed.
Lemma acos_parts r z : 0 <= r -> 0 < sqrt (r * r + z * z) ->
  sqrt (r * r + z * z) * sin (acos (z / sqrt (r * r + z * z))) = r /\
  sqrt (r * r + z * z) * cos (acos (z / sqrt (r * r + z * z))) = z.
Proof.
  intros Hr H. pose proof (z_ratio r z H) as B. rewrite cos_acos, sin_acos by exact B. set (n := sqrt (r * r + z * z)) in *.
  assert (N : n * n = r * r + z * z).
  { apply sqrt_sqrt. pose proof (Rle_0_sqr r); pose proof (Rle_0_sqr z); unfold Rsqr in *; lra. }
  split; [|field; lra].
  replace (1 - Rsqr (z / n)) with (Rsqr (r / n)).
  - rewrite sqrt_Rsqr; [field; lra|]. apply Rmult_le_pos; [lra|left; apply Rinv_0_lt_compat; lra].
  - unfold Rsqr. transitivity ((r * r + z * z) / (n * n) - z / n * (z / n)); [field; lra|]. rewrite <- N. field; lra.
Qed.
Theorem C44_spherical : forall p, cart_of_sph (sph_of_cart p) = p /\
  vx (sph_of_cart p) = Norm p /\ - PI < vy (sph_of_cart p) <= PI /\ 0 <= vz (sph_of_cart p) <= PI.
Proof.
  intros p.
  assert (ND : vx (sph_of_cart p) = Norm p) by reflexivity.
  assert (R1 : 0 <= vz (sph_of_cart p) <= PI).
  { unfold sph_of_cart; cbn [vz]. destruct (Reqb _ 0); [pose proof PI_RGT_0; lra|apply acos_bound]. }
  split; [|split; [exact ND|split; [apply atan2_bound|exact R1]]].
  unfold sph_of_cart, cart_of_sph; cbn [vx vy vz].
  unfold Reqb. destruct (Req_EM_T (sqrt (vx p * vx p + vy p * vy p + vz p * vz p)) 0) as [E|E].
  - rewrite E. assert (p = V0).
    { apply Dot_zero. change (vx p * vx p + vy p * vy p + vz p * vz p) with (Dot p p) in E.
      apply sqrt_eq_0 in E; [exact E|apply Dot_pos]. }
    subst p. v3; ring.
  - set (h := sqrt (vx p * vx p + vy p * vy p)).
    assert (H0 : h * h = vx p * vx p + vy p * vy p).
    { apply sqrt_sqrt. pose proof (Rle_0_sqr (vx p)); pose proof (Rle_0_sqr (vy p)); unfold Rsqr in *; lra. }
    rewrite <- H0 in *. 
    assert (P : 0 < sqrt (h * h + vz p * vz p)) by (pose proof (sqrt_pos (h * h + vz p * vz p)); lra).
    destruct (acos_parts h (vz p) (sqrt_pos _) P) as [S C].
    v3; [rewrite S; apply atan2_cos|rewrite S; apply atan2_sin|exact C].
Qed.
Theorem C44_between : forall c, 0 <= vx c ->
  cyl_of_sph (sph_of_cyl c) = c /\ cart_of_sph (sph_of_cyl c) = cart_of_cyl c.
Proof.
  intros c Hr.
  assert (E : cyl_of_sph (sph_of_cyl c) = c).
  { unfold cyl_of_sph, sph_of_cyl; cbn [vx vy vz]. unfold Reqb.
    destruct (Req_EM_T (sqrt (vx c * vx c + vz c * vz c)) 0) as [E|E].
    - rewrite E. apply sqrt_eq_0 in E; [|pose proof (Rle_0_sqr (vx c)); pose proof (Rle_0_sqr (vz c)); unfold Rsqr in *; lra].
      pose proof (Rle_0_sqr (vx c)); pose proof (Rle_0_sqr (vz c)); unfold Rsqr in *.
      assert (vx c = 0) by (apply Rsqr_0_uniq; unfold Rsqr; lra). assert (vz c = 0) by (apply Rsqr_0_uniq; unfold Rsqr; lra).
      v3; lra.
    - assert (P : 0 < sqrt (vx c * vx c + vz c * vz c)) by (pose proof (sqrt_pos (vx c * vx c + vz c * vz c)); lra).
      destruct (acos_parts _ _ Hr P) as [S C]. v3; auto. }
  split; [exact E|]. rewrite <- E at 2. unfold cart_of_sph, cart_of_cyl, cyl_of_sph; cbn. reflexivity.
Qed.
Theorem C44_spherical_cylindrical_agree : forall p, cyl_of_sph (sph_of_cart p) = cyl_of_cart p.
Proof.
  intros p. destruct (C44_spherical p) as (E & _ & _ & R). 
  assert (S : 0 <= sin (vz (sph_of_cart p))) by (apply sin_ge_0; apply R).
  pose proof (f_equal vx E) as X. pose proof (f_equal vy E) as Y. pose proof (f_equal vz E) as Z.
  unfold cart_of_sph in X, Y, Z; cbn [vx vy vz] in X, Y, Z.
  unfold cyl_of_sph, cyl_of_cart. v3.
  - assert (NN : 0 <= vx (sph_of_cart p)) by apply sqrt_pos.
    set (e := sph_of_cart p) in *. clearbody e.
    set (r := vx e * sin (vz e)) in *.
    assert (HR : 0 <= r) by (apply Rmult_le_pos; assumption). clearbody r.
    rewrite <- X, <- Y. symmetry. transitivity (sqrt (Rsqr r)); [|apply sqrt_Rsqr, HR]. f_equal.
    unfold Rsqr. pose proof (cos_sq (vy e)) as C. ring [C].
  - reflexivity.
  - exact Z.
Qed.
Example C44_nontrivial : sph_of_cart (mkV 0 0 (-2)) = mkV 2 0 PI /\ cart_of_sph (mkV 2 0 PI) = mkV 0 0 (-2).
Proof.
  split.
  - unfold sph_of_cart; cbn [vx vy vz]. replace (0 * 0 + 0 * 0 + -2 * -2) with (Rsqr 2) by (unfold Rsqr; ring).
    rewrite sqrt_Rsqr by lra. unfold Reqb. destruct (Req_EM_T 2 0); [lra|].
    rewrite atan2_0_0. replace (-2 / 2) with (- (1)) by field. rewrite acos_opp, acos_1. f_equal; ring.
  - unfold cart_of_sph; v3; rewrite ?sin_0, ?cos_0, ?sin_PI, ?cos_PI; ring.
Qed.

(** ** C79: Rotation::integrate *)
Lemma from_rate_eq omega dt : Norm omega <> 0 -> from_angular_velocity omega dt =
  mkQ (cos (Norm omega * dt / 2)) (vx omega / Norm omega * sin (Norm omega * dt / 2))
      (vy omega / Norm omega * sin (Norm omega * dt / 2)) (vz omega / Norm omega * sin (Norm omega * dt / 2)).
Proof.
  intros H. unfold from_angular_velocity. rewrite norm3. unfold Reqb. destruct (Req_EM_T (Norm omega) 0); [contradiction|].
  replace (Norm omega * dt * (1 / 2)) with (Norm omega * dt / 2) by field. q4; reflexivity.
Qed.
Lemma from_rate_zero omega dt : Norm omega = 0 -> from_angular_velocity omega dt = q_identity.
Proof.
  intros H. unfold from_angular_velocity. rewrite norm3, H. unfold Reqb. destruct (Req_EM_T 0 0); [reflexivity|contradiction].
Qed.
Lemma axis_sq omega : Norm omega <> 0 ->
  vx omega / Norm omega * (vx omega / Norm omega) + vy omega / Norm omega * (vy omega / Norm omega) + vz omega / Norm omega * (vz omega / Norm omega) = 1.
Proof. intros H. pose proof (Norm_sq omega) as N. unfold Dot in N. transitivity ((Norm omega * Norm omega) / (Norm omega * Norm omega)); [rewrite N at 1; field|field]; exact H. Qed.
Lemma from_rate_unit omega dt : unit_quat (from_angular_velocity omega dt).
Proof.
  destruct (Req_dec (Norm omega) 0) as [H|H].
  - rewrite from_rate_zero by exact H. unfold unit_quat, Qnorm2, q_identity; cbn; ring.
  - rewrite from_rate_eq by exact H. pose proof (axis_sq omega H) as A. pose proof (sincos2 (Norm omega * dt / 2)) as C.
    unfold unit_quat, Qnorm2; cbn [qw qi qj qk].
    set (s := sin _) in *. set (c := cos _) in *. set (a := vx omega / _) in *. set (b := vy omega / _) in *. set (d := vz omega / _) in *.
    transitivity (c * c + s * s * (a * a + b * b + d * d)); [ring|rewrite A; lra].
Qed.
Theorem C79_stays_unit : forall q omega dt, unit_quat q -> unit_quat (rot_integrate q omega dt).
Proof.
  intros q omega dt H. unfold unit_quat, rot_integrate. rewrite Qnorm2_mul, H, from_rate_unit. ring.
Qed.
(** Integrating over s and then t is integrating over s + t; zero time or zero rate changes nothing. *)
Theorem C79_steps_add : forall q omega s t,
  rot_integrate (rot_integrate q omega s) omega t = rot_integrate q omega (s + t) /\
  rot_integrate q omega 0 = q /\ rot_integrate q V0 t = q.
Proof.
  intros q omega s t.
  assert (I : forall p, q_mul q_identity p = p) by (intros; unfold q_identity; q4; ring).
  split; [|split].
  - unfold rot_integrate. rewrite <- (proj1 (C39_group _ _ _)). f_equal.
    destruct (Req_dec (Norm omega) 0) as [H|H]; [rewrite !from_rate_zero by exact H; apply I|].
    rewrite !from_rate_eq by exact H. pose proof (axis_sq omega H) as A.
    replace (Norm omega * (s + t) / 2) with (Norm omega * s / 2 + Norm omega * t / 2) by field.
    rewrite cos_plus, sin_plus.
    set (a := vx omega / _) in *. set (b := vy omega / _) in *. set (d := vz omega / _) in *.
    assert (A' : a * a = 1 - b * b - d * d) by lra. q4; ring [A'].
  - unfold rot_integrate. destruct (Req_dec (Norm omega) 0) as [H|H]; [rewrite from_rate_zero by exact H; apply I|].
    rewrite from_rate_eq by exact H. replace (Norm omega * 0 / 2) with 0 by field. rewrite sin_0, cos_0. q4; ring.
  - unfold rot_integrate. rewrite from_rate_zero; [apply I|]. unfold Norm, Dot; cbn [vx vy vz V0]. replace (0 * 0 + 0 * 0 + 0 * 0) with 0 by ring. apply sqrt_0.
Qed.
Lemma turn_derive n a b t : is_derive (fun u => a * cos (n * u / 2) + b * sin (n * u / 2)) t
  (n / 2 * (b * cos (n * t / 2) - a * sin (n * t / 2))).
Proof. auto_derive; auto. unfold Rdiv. ring. Qed.
Lemma turn_derive_ext f n a b t d : (forall u, f u = a * cos (n * u / 2) + b * sin (n * u / 2)) ->
  d = n / 2 * (b * cos (n * t / 2) - a * sin (n * t / 2)) -> is_derive f t d.
Proof.
  intros E ->. apply is_derive_ext with (f := fun u => a * cos (n * u / 2) + b * sin (n * u / 2)).
  - intros u; symmetry; apply E.
  - apply turn_derive.
Qed.
(** The documented kinematics: q' = 1/2 (0,omega) q. *)
Theorem C79_kinematics : forall q omega t,
  let q' := q_scale (q_mul (from_parts 0 omega) (rot_integrate q omega t)) (1 / 2) in
  is_derive (fun t => qw (rot_integrate q omega t)) t (qw q') /\ is_derive (fun t => qi (rot_integrate q omega t)) t (qi q') /\
  is_derive (fun t => qj (rot_integrate q omega t)) t (qj q') /\ is_derive (fun t => qk (rot_integrate q omega t)) t (qk q').
Proof.
  intros q omega t q'. unfold q', rot_integrate. destruct (Req_dec (Norm omega) 0) as [H|H].
  - assert (O : omega = V0). { apply Dot_zero. rewrite <- Norm_sq, H; ring. }
    subst omega. assert (E : forall u, q_mul (from_angular_velocity V0 u) q = q).
    { intros u. rewrite from_rate_zero by exact H. unfold q_identity; q4; ring. }
    rewrite E.
    split; [|split; [|split]].
    + apply turn_derive_ext with (n := 0) (a := qw q) (b := 0); [intros u; rewrite E; replace (0 * u / 2) with 0 by field; rewrite cos_0; ring|cbn [qw qi qj qk q_mul q_scale from_parts V0 vx vy vz]; field].
    + apply turn_derive_ext with (n := 0) (a := qi q) (b := 0); [intros u; rewrite E; replace (0 * u / 2) with 0 by field; rewrite cos_0; ring|cbn [qw qi qj qk q_mul q_scale from_parts V0 vx vy vz]; field].
    + apply turn_derive_ext with (n := 0) (a := qj q) (b := 0); [intros u; rewrite E; replace (0 * u / 2) with 0 by field; rewrite cos_0; ring|cbn [qw qi qj qk q_mul q_scale from_parts V0 vx vy vz]; field].
    + apply turn_derive_ext with (n := 0) (a := qk q) (b := 0); [intros u; rewrite E; replace (0 * u / 2) with 0 by field; rewrite cos_0; ring|cbn [qw qi qj qk q_mul q_scale from_parts V0 vx vy vz]; field].
  - pose proof (axis_sq omega H) as A.
    set (n := Norm omega) in *. set (a := vx omega / n) in *. set (b := vy omega / n) in *. set (d := vz omega / n) in *.
    assert (Ex : vx omega = n * a) by (unfold a; field; exact H).
    assert (Ey : vy omega = n * b) by (unfold b; field; exact H).
    assert (Ez : vz omega = n * d) by (unfold d; field; exact H).
    assert (A' : a * a = 1 - b * b - d * d) by lra.
    assert (E : forall u, from_angular_velocity omega u = mkQ (cos (n * u / 2)) (a * sin (n * u / 2)) (b * sin (n * u / 2)) (d * sin (n * u / 2)))
      by (intros u; apply from_rate_eq; exact H).
    rewrite E. clearbody a b d.
    split; [|split; [|split]].
    + apply turn_derive_ext with (n := n) (a := qw q) (b := - (a * qi q + b * qj q + d * qk q)).
      * intros u; rewrite E; cbn [qw qi qj qk q_mul]; ring.
      * cbn [qw qi qj qk q_mul q_scale from_parts]; rewrite Ex, Ey, Ez; field [A'].
    + apply turn_derive_ext with (n := n) (a := qi q) (b := a * qw q + b * qk q - d * qj q).
      * intros u; rewrite E; cbn [qw qi qj qk q_mul]; ring.
      * cbn [qw qi qj qk q_mul q_scale from_parts]; rewrite Ex, Ey, Ez; field [A'].
    + apply turn_derive_ext with (n := n) (a := qj q) (b := - a * qk q + b * qw q + d * qi q).
      * intros u; rewrite E; cbn [qw qi qj qk q_mul]; ring.
      * cbn [qw qi qj qk q_mul q_scale from_parts]; rewrite Ex, Ey, Ez; field [A'].
    + apply turn_derive_ext with (n := n) (a := qk q) (b := a * qj q - b * qi q + d * qw q).
      * intros u; rewrite E; cbn [qw qi qj qk q_mul]; ring.
      * cbn [qw qi qj qk q_mul q_scale from_parts]; rewrite Ex, Ey, Ez; field [A'].
Qed.
(** A body turning about its own axis: the body coordinates of a fixed vector should then turn
    about that body axis, v_body(t) = delta(v_body(0)).  rotate_vector applies delta first instead. *)
Theorem C79_body_rate_refuted : exists q omega dt v, unit_quat q /\
  rotate_vector (rot_integrate q omega dt) v <> rotate_vector (from_angular_velocity omega dt) (rotate_vector q v).
Proof.
  exists q45, (mkV 0 0 1), PI, (mkV 0 1 0). split; [apply q45_unit|].
  assert (N : Norm (mkV 0 0 1) = 1).
  { unfold Norm, Dot; cbn [vx vy vz]. replace (0 * 0 + 0 * 0 + 1 * 1) with 1 by ring. apply sqrt_1. }
  unfold rot_integrate. rewrite !rotate_vector_eq, normalized_mul by (apply unit_nonzero; first [apply from_rate_unit|apply q45_unit]).
  rewrite (normalized_of_unit _ q45_unit), (normalized_of_unit _ (from_rate_unit _ _)).
  rewrite from_rate_eq by lra. rewrite N. replace (1 * PI / 2) with (PI / 2) by field. rewrite sin_PI2, cos_PI2.
  intros E; apply (f_equal vz) in E; revert E; unfold dcm_of_quat, q45; cbn [vx vy vz qw qi qj qk q_mul App m00 m01 m02 m10 m11 m12 m20 m21 m22]; lra.
Qed.
(** What it does instead: the turn is applied in the inertial frame, before q. *)
Theorem C79_inertial_rate_partial : forall q omega dt v, unit_quat q ->
  rotate_vector (rot_integrate q omega dt) v = rotate_vector q (rotate_vector (from_angular_velocity omega dt) v).
Proof.
  intros. unfold rot_integrate. apply C39_product_reverses_partial; apply unit_nonzero; [apply from_rate_unit|assumption].
Qed.
Example C79_nontrivial : unit_quat q45 /\ from_angular_velocity (mkV 0 0 1) PI <> q_identity.
Proof.
  split; [apply q45_unit|].
  assert (N : Norm (mkV 0 0 1) = 1).
  { unfold Norm, Dot; cbn [vx vy vz]. replace (0 * 0 + 0 * 0 + 1 * 1) with 1 by ring. apply sqrt_1. }
  rewrite from_rate_eq by lra. rewrite N. replace (1 * PI / 2) with (PI / 2) by field. rewrite sin_PI2, cos_PI2.
  intros E; apply (f_equal qw) in E; revert E; cbn; lra.
Qed.

(** ** C80: axis and angle *)
Lemma axis_angle_eq axis t : Norm axis <> 0 -> from_axis_angle axis t =
  mkQ (cos (t / 2)) (vx axis / Norm axis * sin (t / 2)) (vy axis / Norm axis * sin (t / 2)) (vz axis / Norm axis * sin (t / 2)).
Proof.
  intros H. unfold from_axis_angle. rewrite normalize3; cbn [vx vy vz].
  replace (t * (1 / (1 + 1))) with (t / 2) by field.
  apply normalized_of_unit. pose proof (axis_sq axis H) as A. pose proof (sincos2 (t / 2)) as C.
  unfold unit_quat, Qnorm2; cbn [qw qi qj qk].
  set (s := sin _) in *. set (c := cos _) in *. set (a := vx axis / _) in *. set (b := vy axis / _) in *. set (d := vz axis / _) in *.
  transitivity (c * c + s * s * (a * a + b * b + d * d)); [ring|rewrite A; lra].
Qed.
Lemma axis_angle_unit axis t : Norm axis <> 0 -> unit_quat (from_axis_angle axis t).
Proof.
  intros H. rewrite axis_angle_eq by exact H. pose proof (axis_sq axis H) as A. pose proof (sincos2 (t / 2)) as C.
  unfold unit_quat, Qnorm2; cbn [qw qi qj qk].
  set (s := sin _) in *. set (c := cos _) in *. set (a := vx axis / _) in *. set (b := vy axis / _) in *. set (d := vz axis / _) in *.
  transitivity (c * c + s * s * (a * a + b * b + d * d)); [ring|rewrite A; lra].
Qed.
(** Rodrigues' formula for a frame turned by t about the unit vector along axis. *)
Theorem C80_rodrigues : forall axis t v, Norm axis <> 0 ->
  let u := Vscale (/ Norm axis) axis in
  unit_quat (from_axis_angle axis t) /\
  rotate_vector (from_axis_angle axis t) v =
    Vadd (Vadd (Vscale (cos t) v) (Vscale (- sin t) (Cross u v))) (Vscale ((1 - cos t) * Dot u v) u).
Proof.
  intros axis t v H u. pose proof (axis_angle_unit axis t H) as U. split; [exact U|].
  rewrite rotate_vector_eq, (normalized_of_unit _ U), axis_angle_eq by exact H.
  pose proof (axis_sq axis H) as A. 
  assert (E1 : cos t = cos (t / 2) * cos (t / 2) - sin (t / 2) * sin (t / 2)) by (replace t with (2 * (t / 2)) at 1 by field; apply cos_2a).
  assert (E2 : sin t = 2 * sin (t / 2) * cos (t / 2)) by (replace t with (2 * (t / 2)) at 1 by field; apply sin_2a).
  rewrite E1, E2. pose proof (cos_sq (t / 2)) as C.
  replace u with (mkV (vx axis / Norm axis) (vy axis / Norm axis) (vz axis / Norm axis)) by (unfold u; v3; field; exact H).
  set (a := vx axis / _) in *. set (b := vy axis / _) in *. set (d := vz axis / _) in *.
  assert (A' : a * a = 1 - b * b - d * d) by lra. clearbody a b d. clear u E1 E2 U.
  v3; unfold dcm_of_quat, Dot; cbn [vx vy vz qw qi qj qk m00 m01 m02 m10 m11 m12 m20 m21 m22]; ring [A' C].
Qed.
Theorem C80_axis_fixed_and_angles_add : forall axis s t v, Norm axis <> 0 ->
  rotate_vector (from_axis_angle axis t) axis = axis /\
  q_mul (from_axis_angle axis s) (from_axis_angle axis t) = from_axis_angle axis (s + t) /\
  rotate_vector (from_axis_angle axis t) (rotate_vector (from_axis_angle axis s) v) = rotate_vector (from_axis_angle axis (s + t)) v /\
  rotate_vector (from_axis_angle axis (- t)) (rotate_vector (from_axis_angle axis t) v) = v /\
  from_axis_angle axis 0 = q_identity.
Proof.
  intros axis s t v H.
  assert (M : forall s t, q_mul (from_axis_angle axis s) (from_axis_angle axis t) = from_axis_angle axis (s + t)).
  { clear s t. intros s t. rewrite !axis_angle_eq by exact H. pose proof (axis_sq axis H) as A.
    replace ((s + t) / 2) with (s / 2 + t / 2) by field. rewrite cos_plus, sin_plus.
    set (a := vx axis / _) in *. set (b := vy axis / _) in *. set (d := vz axis / _) in *.
    assert (A' : a * a = 1 - b * b - d * d) by lra. q4; ring [A']. }
  assert (Z : from_axis_angle axis 0 = q_identity).
  { rewrite axis_angle_eq by exact H. replace (0 / 2) with 0 by field. rewrite sin_0, cos_0. unfold q_identity; q4; ring. }
  split; [|split; [apply M|split; [|split; [|exact Z]]]].
  - destruct (C80_rodrigues axis t axis H) as [_ E]. rewrite E. pose proof (Norm_sq axis) as N. unfold Dot in N.
    v3; unfold Dot; cbn [vx vy vz Vscale].
    + transitivity (cos t * vx axis + (1 - cos t) * (vx axis * (Norm axis * Norm axis)) / (Norm axis * Norm axis)); [rewrite N at 1|]; field; exact H.
    + transitivity (cos t * vy axis + (1 - cos t) * (vy axis * (Norm axis * Norm axis)) / (Norm axis * Norm axis)); [rewrite N at 1|]; field; exact H.
    + transitivity (cos t * vz axis + (1 - cos t) * (vz axis * (Norm axis * Norm axis)) / (Norm axis * Norm axis)); [rewrite N at 1|]; field; exact H.
  - rewrite <- M, C39_product_reverses_partial by (apply unit_nonzero, axis_angle_unit, H). reflexivity.
  - rewrite <- C39_product_reverses_partial by (apply unit_nonzero, axis_angle_unit, H).
    rewrite M. replace (t + - t) with 0 by ring. rewrite Z, rotate_vector_eq.
    rewrite normalized_of_unit by (unfold unit_quat, Qnorm2, q_identity; cbn; ring).
    unfold dcm_of_quat, q_identity; v3; cbn [qw qi qj qk]; ring.
Qed.
Example C80_nontrivial : Norm (mkV 0 0 2) <> 0 /\ rotate_vector (from_axis_angle (mkV 0 0 2) (PI / 2)) (mkV 0 1 0) = mkV 1 0 0.
Proof.
  assert (N : Norm (mkV 0 0 2) = 2).
  { unfold Norm, Dot; cbn [vx vy vz]. replace (0 * 0 + 0 * 0 + 2 * 2) with (Rsqr 2) by (unfold Rsqr; ring). apply sqrt_Rsqr; lra. }
  assert (N0 : Norm (mkV 0 0 2) <> 0) by lra. split; [exact N0|].
  destruct (C80_rodrigues (mkV 0 0 2) (PI / 2) (mkV 0 1 0) N0) as [_ ->]. rewrite N, sin_PI2, cos_PI2.
  v3; unfold Dot; cbn [vx vy vz Vscale]; field.
Qed.

(** ** C81: Quaternion::integrate *)
(** With no rotation the attitude is unchanged, for every forward step. *)
Theorem C81_at_rest : forall q dt, nonzero_quat q -> 0 <= dt -> q_integrate q V0 V0 dt = q_normalized q.
Proof.
  intros q dt H Hdt. unfold q_integrate. pose proof (normalized_unit q H) as U. set (p := q_normalized q) in *.
  assert (D2 : 0 <= dt * dt) by (apply Rmult_le_pos; lra).
  assert (D3 : 0 <= dt * dt * dt) by (apply Rmult_le_pos; lra).
  match goal with |- q_normalized ?e = _ =>
    replace e with (q_scale p (1 + dt / 2 + 3 / 16 * (dt * dt) + 11 / 108 * (dt * dt * dt))) by
      (q4; cbn [vx vy vz V0 from_parts qw qi qj qk]; field) end.
  rewrite normalized_scale; [apply normalized_of_unit, U|lra|apply unit_nonzero, U].
Qed.
(** The polynomial that integrate normalizes, component by component. *)
Definition cubic (a b c d t : R) : R := a + b * t + c * (t * t) + d * (t * t * t).
Lemma cubic_ratio_derive a b c d a0 b0 c0 d0 a1 b1 c1 d1 a2 b2 c2 d2 a3 b3 c3 d3 :
  a0 * a0 + a1 * a1 + a2 * a2 + a3 * a3 = 1 ->
  is_derive (fun t => cubic a b c d t / sqrt (cubic a0 b0 c0 d0 t * cubic a0 b0 c0 d0 t + cubic a1 b1 c1 d1 t * cubic a1 b1 c1 d1 t
     + cubic a2 b2 c2 d2 t * cubic a2 b2 c2 d2 t + cubic a3 b3 c3 d3 t * cubic a3 b3 c3 d3 t)) 0
    (b - a * (a0 * b0 + a1 * b1 + a2 * b2 + a3 * b3)).
Proof.
  intros H. unfold cubic.
  assert (E : forall a b c d : R, a + b * 0 + c * (0 * 0) + d * (0 * 0 * 0) = a) by (intros; ring).
  auto_derive.
  - rewrite !E, H, sqrt_1. repeat split; lra.
  - rewrite !E, H, sqrt_1. field.
Qed.
(** To first order the step is the kinematic equation q' = 1/2 q (0,omega). *)
Theorem C81_first_order : forall q vel acc, nonzero_quat q ->
  let p := q_normalized q in let q' := q_scale (q_mul p (from_parts 0 vel)) (1 / 2) in
  q_integrate q vel acc 0 = p /\
  is_derive (fun dt => qw (q_integrate q vel acc dt)) 0 (qw q') /\ is_derive (fun dt => qi (q_integrate q vel acc dt)) 0 (qi q') /\
  is_derive (fun dt => qj (q_integrate q vel acc dt)) 0 (qj q') /\ is_derive (fun dt => qk (q_integrate q vel acc dt)) 0 (qk q').
Proof.
  intros q vel acc H p q'. pose proof (normalized_unit q H) as U. fold p in U.
  set (V := from_parts 1 vel). set (A := from_parts 1 acc).
  set (B := q_scale (q_mul p V) (1 / 2)).
  set (C := q_scale (q_add (q_scale (q_mul (q_mul p V) V) (1 / 4)) (q_scale (q_mul p A) (1 / 2))) (1 / 4)).
  set (D := q_scale (q_add (q_add (q_scale (q_mul (q_mul (q_mul p V) V) V) (1 / 6)) (q_scale (q_mul (q_mul p A) V) (1 / 4)))
                           (q_scale (q_mul (q_mul p V) A) (1 / 2))) (1 / 9)).
  set (N := fun t => mkQ (cubic (qw p) (qw B) (qw C) (qw D) t) (cubic (qi p) (qi B) (qi C) (qi D) t)
                         (cubic (qj p) (qj B) (qj C) (qj D) t) (cubic (qk p) (qk B) (qk C) (qk D) t)).
  assert (E : forall t, q_integrate q vel acc t = q_normalized (N t)).
  { intros t. unfold q_integrate. fold p V A. f_equal. unfold N, cubic, B, C, D. q4; field. }
  split.
  - rewrite E. replace (N 0) with p by (unfold N, cubic; q4; ring). apply normalized_of_unit, U.
  - assert (G : forall f a b c d r, (forall t, f t = cubic a b c d t / q_norm (N t)) ->
       r = b - a * (qw p * qw B + qi p * qi B + qj p * qj B + qk p * qk B) -> is_derive f 0 r).
    { intros f a b c d r F ->.
      eapply is_derive_ext; [intros t; symmetry; rewrite F; unfold q_norm; rewrite q_norm2_eq; unfold Qnorm2, N; cbn [qw qi qj qk]; reflexivity|].
      apply cubic_ratio_derive. exact U. }
    assert (PB : qw p * qw B + qi p * qi B + qj p * qj B + qk p * qk B = 1 / 2).
    { unfold unit_quat, Qnorm2 in U. unfold B, V; cbn [qw qi qj qk q_mul q_scale from_parts].
      transitivity ((qw p * qw p + qi p * qi p + qj p * qj p + qk p * qk p) * (1 / 2)); [field|rewrite U; field]. }
    rewrite PB in G.
    split; [|split; [|split]]; (eapply G; [intros t; rewrite E; reflexivity|]);
      unfold q', B, V; cbn [qw qi qj qk q_mul q_scale from_parts]; field.
Qed.
Example C81_nontrivial : nonzero_quat q35 /\ q_scale (q_mul q35 (from_parts 0 (mkV 0 0 1))) (1 / 2) <> mkQ 0 0 0 0.
Proof.
  split; [apply unit_nonzero, q35_unit|]. intros E; apply (f_equal qw) in E; revert E; cbn; lra.
Qed.
