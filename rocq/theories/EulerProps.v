(** C116: what the arithmetic on Euler angles does to the angles, and to the rotations they stand for. *)
From Coq Require Import QArith Qreals Reals Lra Lia.
From Coquelicot Require Import Coquelicot.
From Verif Require Import Scalar LinModel Geo3 Trig NumModel AttModel AttProofs AttProps EulerModel.
Local Open Scope R_scope.

Lemma euler_add_eq a b : euler_add a b = Vadd a b. Proof. v3; reflexivity. Qed.
Lemma euler_sub_eq a b : euler_sub a b = Vsub a b. Proof. v3; reflexivity. Qed.
Lemma euler_neg_eq a : euler_neg a = mkV (- vx a) (- vy a) (- vz a). Proof. v3; reflexivity. Qed.
Lemma euler_scale_eq a s : euler_scale a s = mkV (vx a * s) (vy a * s) (vz a * s). Proof. v3; reflexivity. Qed.
Lemma euler_div_eq a s : euler_div a s = mkV (vx a / s) (vy a / s) (vz a / s). Proof. v3; reflexivity. Qed.

(** The operators act on roll, pitch and yaw separately, and degrees convert both ways. *)
Theorem C116_on_angles : forall r p y r' p' y' s,
  euler_add (mkV r p y) (mkV r' p' y') = mkV (r + r') (p + p') (y + y') /\
  euler_sub (mkV r p y) (mkV r' p' y') = mkV (r - r') (p - p') (y - y') /\
  euler_neg (mkV r p y) = mkV (- r) (- p) (- y) /\
  euler_scale (mkV r p y) s = mkV (r * s) (p * s) (y * s) /\
  euler_div (mkV r p y) s = mkV (r / s) (p / s) (y / s) /\
  euler_from_degrees (mkV r p y) = mkV (r * PI / 180) (p * PI / 180) (y * PI / 180) /\
  euler_to_degrees (euler_from_degrees (mkV r p y)) = mkV r p y.
Proof.
  intros. rewrite euler_add_eq, euler_sub_eq, euler_neg_eq, euler_scale_eq, euler_div_eq.
  split; [reflexivity|]. split; [reflexivity|]. split; [reflexivity|]. split; [reflexivity|]. split; [reflexivity|].
  pose proof PI_RGT_0 as P.
  assert (L : lit Rops (180 # 1) = 180) by (cbn [lit Rops]; unfold Q2R; cbn [Qnum Qden]; field).
  unfold euler_to_degrees, euler_from_degrees, to_degrees, to_radians. cbn [vx vy vz]. rewrite L. cbn [mul div Rops].
  split; [reflexivity|]. apply V3_eq; cbn [vx vy vz]; field; lra.
Qed.

Lemma rot_x_add s t : Mul (rotate_x s) (rotate_x t) = rotate_x (s + t).
Proof. unfold rotate_x. rewrite cos_plus, sin_plus. m3; ring. Qed.
Lemma rot_y_add s t : Mul (rotate_y s) (rotate_y t) = rotate_y (s + t).
Proof. unfold rotate_y. rewrite cos_plus, sin_plus. m3; ring. Qed.
Lemma rot_z_add s t : Mul (rotate_z s) (rotate_z t) = rotate_z (s + t).
Proof. unfold rotate_z. rewrite cos_plus, sin_plus. m3; ring. Qed.
Lemma rot_x_0 : rotate_x 0 = Id3. Proof. unfold rotate_x. rewrite cos_0, sin_0. m3; ring. Qed.
Lemma rot_y_0 : rotate_y 0 = Id3. Proof. unfold rotate_y. rewrite cos_0, sin_0. m3; ring. Qed.
Lemma rot_z_0 : rotate_z 0 = Id3. Proof. unfold rotate_z. rewrite cos_0, sin_0. m3; ring. Qed.
Lemma Mul_Id_l m : Mul Id3 m = m. Proof. destruct m; m3; ring. Qed.
Lemma Mul_Id_r m : Mul m Id3 = m. Proof. destruct m; m3; ring. Qed.

(** Adding angles composes rotations in these cases: the first rotation does not turn about the
    last axis of the sequence and the second does not turn about the first; or the first is a pure
    roll; or the second is a pure yaw. *)
Theorem C116_sum_composes_partial : forall a b,
  (vz a = 0 /\ vx b = 0) \/ (vy a = 0 /\ vz a = 0) \/ (vx b = 0 /\ vy b = 0) ->
  dcm_of_euler (euler_add a b) = dcm_mul (dcm_of_euler a) (dcm_of_euler b) /\
  (forall v, dcm_apply (dcm_of_euler (euler_add a b)) v = dcm_apply (dcm_of_euler a) (dcm_apply (dcm_of_euler b) v)) /\
  (forall v, rotate_vector (quat_of_euler (euler_add a b)) v
     = rotate_vector (quat_of_euler a) (rotate_vector (quat_of_euler b) v)).
Proof.
  intros a b H.
  assert (E : dcm_of_euler (euler_add a b) = dcm_mul (dcm_of_euler a) (dcm_of_euler b)).
  { rewrite dcm_mul_eq, euler_add_eq, !dcm_of_euler_eq. cbn [Vadd vx vy vz].
    destruct H as [[-> ->]|[[-> ->]|[-> ->]]].
    - rewrite rot_z_0, rot_x_0, Mul_Id_r, Mul_Id_l, Rplus_0_r, Rplus_0_l, <- rot_y_add, !Mul_assoc. reflexivity.
    - rewrite rot_z_0, rot_y_0, !Mul_Id_r, !Rplus_0_l, <- rot_x_add, !Mul_assoc. reflexivity.
    - rewrite rot_x_0, rot_y_0, !Mul_Id_l, !Rplus_0_r, <- rot_z_add, !Mul_assoc. reflexivity. }
  split; [exact E|].
  assert (A : forall v, dcm_apply (dcm_of_euler (euler_add a b)) v = dcm_apply (dcm_of_euler a) (dcm_apply (dcm_of_euler b) v)).
  { intros v. rewrite E. apply C42_product_acts_in_order. }
  split; [exact A|]. intros v.
  destruct (C41_euler_quaternion_dcm a) as (_ & _ & Ra). destruct (C41_euler_quaternion_dcm b) as (_ & _ & Rb).
  destruct (C41_euler_quaternion_dcm (euler_add a b)) as (_ & _ & Rab). rewrite Rab, Ra, Rb. apply A.
Qed.

(** In general it does not: pitch then roll is not roll and pitch added. *)
Theorem C116_sum_composes_refuted : exists a b,
  dcm_of_euler (euler_add a b) <> dcm_mul (dcm_of_euler a) (dcm_of_euler b).
Proof.
  exists (mkV 0 (PI / 2) 0), (mkV (PI / 2) 0 0). rewrite dcm_mul_eq, euler_add_eq, !dcm_of_euler_eq. cbn [Vadd vx vy vz].
  rewrite !Rplus_0_l, !Rplus_0_r, rot_x_0, rot_y_0, rot_z_0, !Mul_Id_r, Mul_Id_l.
  unfold rotate_x, rotate_y. rewrite sin_PI2, cos_PI2. intros E. apply (f_equal m01) in E. revert E. cbn. lra.
Qed.

(** Negated angles give the inverse rotation when only one of them is non-zero ... *)
Theorem C116_negation_inverts_partial : forall e,
  (vx e = 0 /\ vy e = 0) \/ (vx e = 0 /\ vz e = 0) \/ (vy e = 0 /\ vz e = 0) ->
  dcm_of_euler (euler_neg e) = dcm_transpose (dcm_of_euler e).
Proof.
  intros e H. rewrite dcm_transpose_eq, euler_neg_eq, !dcm_of_euler_eq. cbn [vx vy vz].
  destruct H as [[-> ->]|[[-> ->]|[-> ->]]]; rewrite ?Ropp_0, ?rot_x_0, ?rot_y_0, ?rot_z_0, ?Mul_Id_r, ?Mul_Id_l;
    unfold rotate_x, rotate_y, rotate_z; rewrite cos_neg, sin_neg; m3; ring.
Qed.
(** ... but not in general; the inverse rotation has to be taken through the matrix or quaternion. *)
Theorem C116_negation_inverts_refuted : exists e,
  dcm_of_euler (euler_neg e) <> dcm_transpose (dcm_of_euler e) /\
  exists v, dcm_apply (dcm_of_euler (euler_neg e)) (dcm_apply (dcm_of_euler e) v) <> v.
Proof.
  exists (mkV (PI / 2) (PI / 2) 0). rewrite dcm_transpose_eq, euler_neg_eq, !dcm_of_euler_eq. cbn [vx vy vz].
  rewrite Ropp_0, rot_z_0, !Mul_Id_r. unfold rotate_x, rotate_y. rewrite !cos_neg, !sin_neg, sin_PI2, cos_PI2. split.
  - intros E. apply (f_equal m10) in E. revert E. cbn. lra.
  - exists (mkV 1 0 0). rewrite <- C42_product_acts_in_order, dcm_mul_eq. intros E. apply (f_equal vx) in E. revert E. cbn. lra.
Qed.

(** Exactly when: at least two of the angles are whole turns, or at least two are odd half turns. *)
Definition whole_turn (t : R) : Prop := exists k : Z, t = 2 * PI * IZR k.
Definition odd_half_turn (t : R) : Prop := exists k : Z, t = 2 * PI * IZR k + PI.
Definition two_of (P : R -> Prop) (e : V3) : Prop :=
  (P (vx e) /\ P (vy e)) \/ (P (vy e) /\ P (vz e)) \/ (P (vx e) /\ P (vz e)).

Lemma whole_turn_sin t : whole_turn t <-> sin (t * (1 / 2)) = 0.
Proof.
  split.
  - intros [k ->]. apply sin_eq_0_1. exists k. field.
  - intros H. apply sin_eq_0_0 in H. destruct H as [k H]. exists k. lra.
Qed.
Lemma odd_half_turn_cos t : odd_half_turn t <-> cos (t * (1 / 2)) = 0.
Proof.
  split.
  - intros [k ->]. apply cos_eq_0_1. exists k. field.
  - intros H. apply cos_eq_0_0 in H. destruct H as [k H]. exists k. lra.
Qed.
Lemma two_zero c s d u e v : c * c + s * s = 1 -> d * d + u * u = 1 -> e * e + v * v = 1 ->
  (s * u * v = 0 /\ c * u * v = 0 /\ s * d * v = 0 /\ s * u * e = 0) <->
  (s = 0 /\ u = 0) \/ (u = 0 /\ v = 0) \/ (s = 0 /\ v = 0).
Proof.
  intros C D E. split.
  - intros (A0 & A1 & A2 & A3).
    assert (U : u * v = 0) by (assert ((c * c + s * s) * (u * v) = 0) by (replace ((c * c + s * s) * (u * v)) with (c * (c * u * v) + s * (s * u * v)) by ring; rewrite A0, A1; ring); rewrite C in *; lra).
    assert (V : s * v = 0) by (assert ((d * d + u * u) * (s * v) = 0) by (replace ((d * d + u * u) * (s * v)) with (d * (s * d * v) + u * (s * u * v)) by ring; rewrite A0, A2; ring); rewrite D in *; lra).
    assert (W : s * u = 0) by (assert ((e * e + v * v) * (s * u) = 0) by (replace ((e * e + v * v) * (s * u)) with (e * (s * u * e) + v * (s * u * v)) by ring; rewrite A0, A3; ring); rewrite E in *; lra).
    apply Rmult_integral in U, V, W. tauto.
  - intros [[-> ->]|[[-> ->]|[-> ->]]]; repeat split; ring.
Qed.

Theorem C116_negation_inverts_iff : forall e,
  dcm_of_euler (euler_neg e) = dcm_transpose (dcm_of_euler e) <->
  two_of whole_turn e \/ two_of odd_half_turn e.
Proof.
  intros e. rewrite dcm_transpose_eq, <- !euler_quat_dcm.
  assert (Cj : Tr (dcm_of_quat (quat_of_euler e)) = dcm_of_quat (q_conjugate (quat_of_euler e))).
  { destruct (quat_of_euler e) as [w i j k]. unfold dcm_of_quat, q_conjugate. m3; cbn [qw qi qj qk]; ring. }
  rewrite Cj, C40_double_cover; [|apply quat_of_euler_unit|].
  2:{ pose proof (quat_of_euler_unit e) as U. destruct (quat_of_euler e) as [w i j k]. unfold unit_quat, Qnorm2, q_conjugate in *. cbn [qw qi qj qk] in *. lra. }
  rewrite euler_neg_eq. unfold two_of. rewrite !whole_turn_sin, !odd_half_turn_cos.
  destruct e as [r p y]. unfold quat_of_euler, q_conjugate. cbn [vx vy vz qw qi qj qk]. replace (1 + 1) with 2 by ring.
  rewrite !Ropp_mult_distr_l_reverse, !cos_neg, !sin_neg.
  set (cr := cos (r * (1 / 2))). set (sr := sin (r * (1 / 2))). set (cp := cos (p * (1 / 2))). set (sp := sin (p * (1 / 2))).
  set (cy := cos (y * (1 / 2))). set (sy := sin (y * (1 / 2))).
  assert (Hr : cr * cr + sr * sr = 1) by (pose proof (sin2_cos2 (r * (1 / 2))); unfold Rsqr in *; unfold cr, sr; lra).
  assert (Hp : cp * cp + sp * sp = 1) by (pose proof (sin2_cos2 (p * (1 / 2))); unfold Rsqr in *; unfold cp, sp; lra).
  assert (Hy : cy * cy + sy * sy = 1) by (pose proof (sin2_cos2 (y * (1 / 2))); unfold Rsqr in *; unfold cy, sy; lra).
  pose proof (two_zero cr sr cp sp cy sy Hr Hp Hy) as Z1.
  pose proof (two_zero sr cr sp cp sy cy ltac:(lra) ltac:(lra) ltac:(lra)) as Z2.
  rewrite <- Z1, <- Z2. clear. unfold q_neg. cbn [qw qi qj qk]. split.
  - intros [E|E]; [left|right]; injection E as E0 E1 E2 E3; repeat split; lra.
  - intros [(A & B & C & D)|(A & B & C & D)]; [left|right]; f_equal; lra.
Qed.

(** ** Different angles, same rotation *)
Lemma cos_turns x k : cos (x + 2 * PI * INR k) = cos x.
Proof. replace (x + 2 * PI * INR k) with (x + 2 * INR k * PI) by ring. apply cos_period. Qed.
Lemma sin_turns x k : sin (x + 2 * PI * INR k) = sin x.
Proof. replace (x + 2 * PI * INR k) with (x + 2 * INR k * PI) by ring. apply sin_period. Qed.
Lemma half_turns x k : cos ((x + 2 * PI * INR k) * (1 / 2)) = (-1) ^ k * cos (x * (1 / 2)) /\
                       sin ((x + 2 * PI * INR k) * (1 / 2)) = (-1) ^ k * sin (x * (1 / 2)).
Proof.
  induction k as [|k [C S]].
  - cbn [INR pow]. rewrite Rmult_0_r, Rplus_0_r. split; ring.
  - rewrite S_INR. replace ((x + 2 * PI * (INR k + 1)) * (1 / 2)) with ((x + 2 * PI * INR k) * (1 / 2) + PI) by field.
    rewrite neg_cos, neg_sin, C, S. cbn [pow]. split; ring.
Qed.

(** Whole turns of any angle change nothing in the matrix; in the quaternion every turn flips the
    sign, which stands for the same rotation. *)
Theorem C116_whole_turns : forall r p y a b c,
  let e := mkV r p y in
  let e' := mkV (r + 2 * PI * INR a) (p + 2 * PI * INR b) (y + 2 * PI * INR c) in
  dcm_of_euler e' = dcm_of_euler e /\
  quat_of_euler e' = q_scale (quat_of_euler e) ((-1) ^ (a + b + c)).
Proof.
  intros r p y a b c e e'. unfold e, e'. split.
  - rewrite !dcm_of_euler_eq. cbn [vx vy vz]. unfold rotate_x, rotate_y, rotate_z. rewrite !cos_turns, !sin_turns. reflexivity.
  - unfold quat_of_euler. cbn [vx vy vz]. replace (1 + 1) with 2 by ring.
    destruct (half_turns r a) as [Ca Sa]. destruct (half_turns p b) as [Cb Sb]. destruct (half_turns y c) as [Cc Sc].
    rewrite Ca, Sa, Cb, Sb, Cc, Sc, !pow_add. unfold q_scale. cbn [qw qi qj qk]. f_equal; ring.
Qed.

(** Every rotation has a second set of angles: half a turn of roll and yaw with the pitch mirrored. *)
Theorem C116_second_angles : forall r p y,
  dcm_of_euler (mkV (r + PI) (PI - p) (y + PI)) = dcm_of_euler (mkV r p y).
Proof.
  intros r p y. rewrite !dcm_of_euler_eq. cbn [vx vy vz]. unfold rotate_x, rotate_y, rotate_z.
  assert (cos (PI - p) = - cos p) as C by (rewrite cos_minus, cos_PI, sin_PI; ring).
  assert (sin (PI - p) = sin p) as S by (rewrite sin_minus, cos_PI, sin_PI; ring).
  rewrite !neg_cos, !neg_sin, C, S. m3; ring.
Qed.

(** ** Small angles *)
(** To first order in the angles the rotation is [v - e x v], so there sums do compose and
    negation does invert. *)
Theorem C116_small_angles : forall r p y,
  let m t := dcm_of_euler (euler_scale (mkV r p y) t) in let d := angular_rate_dcm (- r) (- p) (- y) in
  m 0 = Id3 /\
  is_derive (fun t => m00 (m t)) 0 (m00 d) /\ is_derive (fun t => m01 (m t)) 0 (m01 d) /\ is_derive (fun t => m02 (m t)) 0 (m02 d) /\
  is_derive (fun t => m10 (m t)) 0 (m10 d) /\ is_derive (fun t => m11 (m t)) 0 (m11 d) /\ is_derive (fun t => m12 (m t)) 0 (m12 d) /\
  is_derive (fun t => m20 (m t)) 0 (m20 d) /\ is_derive (fun t => m21 (m t)) 0 (m21 d) /\ is_derive (fun t => m22 (m t)) 0 (m22 d) /\
  (forall v, dcm_apply d v = Cross (mkV (- r) (- p) (- y)) v).
Proof.
  intros r p y m d.
  assert (E : forall t, m t = Mul (Mul (rotate_x (r * t)) (rotate_y (p * t))) (rotate_z (y * t))).
  { intros t. unfold m. rewrite euler_scale_eq, dcm_of_euler_eq. reflexivity. }
  split. { rewrite E, !Rmult_0_r, rot_x_0, rot_y_0, rot_z_0, !Mul_Id_l. reflexivity. }
  assert (D : forall (sel : M3 -> R) x, is_derive (fun t => sel (Mul (Mul (rotate_x (r * t)) (rotate_y (p * t))) (rotate_z (y * t)))) 0 x ->
              is_derive (fun t => sel (m t)) 0 x).
  { intros sel x H. apply (is_derive_ext (fun t => sel (Mul (Mul (rotate_x (r * t)) (rotate_y (p * t))) (rotate_z (y * t))))); [|exact H].
    intros t. rewrite E. reflexivity. }
  do 9 (split; [apply D; unfold d, rotate_x, rotate_y, rotate_z, angular_rate_dcm; cbn [Mul m00 m01 m02 m10 m11 m12 m20 m21 m22];
    auto_derive; [exact I|]; rewrite !Rmult_0_r, cos_0, sin_0; ring|]).
  intros v. apply C42_angular_rate.
Qed.

Example C116_nontrivial : let a := mkV (1 / 10) (1 / 5) 0 in let b := mkV 0 (3 / 10) (2 / 5) in
  vz a = 0 /\ vx b = 0 /\ euler_add a b = mkV (1 / 10) (1 / 2) (2 / 5) /\ euler_sub (euler_add a b) b = a.
Proof.
  intros a b. split; [reflexivity|]. split; [reflexivity|]. rewrite euler_sub_eq, euler_add_eq. unfold a, b, Vadd, Vsub. cbn [vx vy vz].
  split; f_equal; field.
Qed.
