(** Lemmas about the attitude model. *)
From Coq Require Import Reals Lra.
From Verif Require Import Scalar LinModel Geo3 Trig AttModel.
Local Open Scope R_scope.

(** A quaternion of norm one, and a nonzero one. *)
Definition Qnorm2 (q : quat) : R := qw q * qw q + qi q * qi q + qj q * qj q + qk q * qk q.
Definition unit_quat (q : quat) : Prop := Qnorm2 q = 1.
Definition nonzero_quat (q : quat) : Prop := Qnorm2 q <> 0.

Lemma dcm_mul_eq a b : dcm_mul a b = Mul a b. Proof. apply mul3. Qed.
Lemma dcm_apply_eq m v : dcm_apply m v = App m v. Proof. apply app3. Qed.
Lemma dcm_transpose_eq m : dcm_transpose m = Tr m. Proof. m3; reflexivity. Qed.
Lemma q_norm2_eq q : q_norm2 q = Qnorm2 q.
Proof. unfold q_norm2, Qnorm2; cbv [dot for_ Rops add mul zero qfun]; cbn; ring. Qed.
Lemma Qnorm2_pos q : 0 <= Qnorm2 q.
Proof.
  unfold Qnorm2. pose proof (Rle_0_sqr (qw q)). pose proof (Rle_0_sqr (qi q)).
  pose proof (Rle_0_sqr (qj q)). pose proof (Rle_0_sqr (qk q)). unfold Rsqr in *. lra.
Qed.
Lemma quat_eq a b : qw a = qw b -> qi a = qi b -> qj a = qj b -> qk a = qk b -> a = b.
Proof. destruct a, b; cbn; intros; subst; reflexivity. Qed.
Ltac q4 := apply quat_eq; cbn [qw qi qj qk q_mul q_scale q_add q_conjugate].

Lemma unit_nonzero q : unit_quat q -> nonzero_quat q.
Proof. unfold unit_quat, nonzero_quat; lra. Qed.
Lemma q_norm_sq q : q_norm q * q_norm q = Qnorm2 q.
Proof. unfold q_norm; rewrite q_norm2_eq; apply sqrt_sqrt, Qnorm2_pos. Qed.
Lemma q_norm_pos q : nonzero_quat q -> 0 < q_norm q.
Proof.
  intros H; unfold q_norm; rewrite q_norm2_eq. apply sqrt_lt_R0.
  pose proof (Qnorm2_pos q); unfold nonzero_quat in H; lra.
Qed.
Lemma unit_norm q : unit_quat q -> q_norm q = 1.
Proof. intros H; unfold q_norm; rewrite q_norm2_eq, H; apply sqrt_1. Qed.
Lemma normalized_unit q : nonzero_quat q -> unit_quat (q_normalized q).
Proof.
  intros H; pose proof (q_norm_pos q H) as P. pose proof (q_norm_sq q) as S.
  unfold unit_quat, Qnorm2, q_normalized; cbn [qw qi qj qk].
  transitivity (Qnorm2 q / (q_norm q * q_norm q)); [unfold Qnorm2; field; lra|rewrite S; field; exact H].
Qed.
Lemma normalized_of_unit q : unit_quat q -> q_normalized q = q.
Proof. intros H; unfold q_normalized; rewrite (unit_norm q H). q4; field. Qed.
Lemma normalized_scale q c : 0 < c -> nonzero_quat q -> q_normalized (q_scale q c) = q_normalized q.
Proof.
  intros Hc Hq.
  assert (E : q_norm (q_scale q c) = q_norm q * c).
  { unfold q_norm. rewrite !q_norm2_eq.
    replace (Qnorm2 (q_scale q c)) with (Qnorm2 q * (c * c)) by (unfold Qnorm2; cbn; ring).
    rewrite sqrt_mult; [|apply Qnorm2_pos|apply Rlt_le, Rmult_lt_0_compat; lra].
    rewrite sqrt_square by lra. reflexivity. }
  pose proof (q_norm_pos q Hq). unfold q_normalized; rewrite E; q4; field; lra.
Qed.

Lemma rotate_vector_eq q v : rotate_vector q v = App (dcm_of_quat (q_normalized q)) v.
Proof. v3; unfold rotate_vector, dcm_of_quat; cbn [vx vy vz qw qi qj qk q_conjugate m00 m01 m02 m10 m11 m12 m20 m21 m22]; ring. Qed.
Lemma to_dcm_eq q : to_dcm q = Tr (dcm_of_quat (q_normalized q)).
Proof. m3; unfold to_dcm, dcm_of_quat; cbn [m00 m01 m02 m10 m11 m12 m20 m21 m22]; ring. Qed.
Lemma dcm_of_quat_rotation q : unit_quat q -> rotation (dcm_of_quat q).
Proof.
  unfold unit_quat, Qnorm2; intros H.
  assert (W : qw q * qw q = 1 - qi q * qi q - qj q * qj q - qk q * qk q) by lra.
  split; [m3|unfold Det]; unfold dcm_of_quat; cbn [m00 m01 m02 m10 m11 m12 m20 m21 m22]; ring [W].
Qed.
Lemma dcm_of_quat_mul a b : dcm_of_quat (q_mul a b) = Mul (dcm_of_quat b) (dcm_of_quat a).
Proof. m3; unfold dcm_of_quat; cbn [m00 m01 m02 m10 m11 m12 m20 m21 m22 qw qi qj qk q_mul]; ring. Qed.
Lemma dcm_of_quat_conj q : dcm_of_quat (q_conjugate q) = Tr (dcm_of_quat q).
Proof. m3; unfold dcm_of_quat; cbn [m00 m01 m02 m10 m11 m12 m20 m21 m22 qw qi qj qk q_conjugate]; ring. Qed.
Lemma Qnorm2_mul a b : Qnorm2 (q_mul a b) = Qnorm2 a * Qnorm2 b.
Proof. unfold Qnorm2; cbn; ring. Qed.
Lemma q_norm_mul a b : q_norm (q_mul a b) = q_norm a * q_norm b.
Proof. unfold q_norm. rewrite !q_norm2_eq, Qnorm2_mul, sqrt_mult; auto using Qnorm2_pos. Qed.
Lemma normalized_mul a b : nonzero_quat a -> nonzero_quat b ->
  q_normalized (q_mul a b) = q_mul (q_normalized a) (q_normalized b).
Proof.
  intros Ha Hb. pose proof (q_norm_pos a Ha). pose proof (q_norm_pos b Hb).
  unfold q_normalized. rewrite q_norm_mul. q4; field; lra.
Qed.
Lemma normalized_inverse q : nonzero_quat q -> q_normalized (q_inverse q) = q_conjugate (q_normalized q).
Proof.
  intros H. pose proof (q_norm_pos q H) as P. pose proof (q_norm_sq q) as S.
  assert (E : q_norm (q_inverse q) = 1 / q_norm q).
  { unfold q_norm at 1. rewrite q_norm2_eq.
    replace (Qnorm2 (q_inverse q)) with (Rsqr (1 / q_norm q)).
    - apply sqrt_Rsqr. apply Rlt_le, Rdiv_lt_0_compat; lra.
    - unfold Qnorm2, q_inverse, Rsqr; cbn [qw qi qj qk]. rewrite q_norm2_eq, <- S.
      transitivity (Qnorm2 q / (q_norm q * q_norm q) / (q_norm q * q_norm q)); [rewrite <- S; field; lra|unfold Qnorm2; field; lra]. }
  unfold q_normalized; rewrite E. unfold q_inverse; rewrite q_norm2_eq, <- S. q4; field; lra.
Qed.

(** All pairwise products of the components of a quaternion, read off its matrix. *)
Definition products_of (q : quat) (m : M3) : Prop :=
  4 * (qw q * qw q) = 1 + m00 m + m11 m + m22 m /\ 4 * (qi q * qi q) = 1 + m00 m - m11 m - m22 m /\
  4 * (qj q * qj q) = 1 - m00 m + m11 m - m22 m /\ 4 * (qk q * qk q) = 1 - m00 m - m11 m + m22 m /\
  4 * (qw q * qi q) = m12 m - m21 m /\ 4 * (qw q * qj q) = m20 m - m02 m /\ 4 * (qw q * qk q) = m01 m - m10 m /\
  4 * (qi q * qj q) = m01 m + m10 m /\ 4 * (qi q * qk q) = m20 m + m02 m /\ 4 * (qj q * qk q) = m12 m + m21 m.
Lemma products_unit q m : products_of q m -> unit_quat q /\ dcm_of_quat q = m.
Proof.
  unfold products_of, unit_quat, Qnorm2. intros H; decompose [and] H; clear H.
  split; [lra|]. m3; unfold dcm_of_quat; cbn [m00 m01 m02 m10 m11 m12 m20 m21 m22]; lra.
Qed.
Lemma unit_products q : unit_quat q -> products_of q (dcm_of_quat q).
Proof.
  unfold products_of, unit_quat, Qnorm2; intros H.
  unfold dcm_of_quat; cbn [m00 m01 m02 m10 m11 m12 m20 m21 m22]. repeat split; lra.
Qed.

Lemma four_products c1 c2 c3 c4 w a b c :
  0 < w -> 4 * (w * w) = c1 -> a * a = c1 * c2 -> b * b = c1 * c3 -> c * c = c1 * c4 ->
  4 * (a / (w * 4) * (a / (w * 4))) = c2 /\ 4 * (b / (w * 4) * (b / (w * 4))) = c3 /\
  4 * (c / (w * 4) * (c / (w * 4))) = c4 /\
  4 * (w * (a / (w * 4))) = a /\ 4 * (w * (b / (w * 4))) = b /\ 4 * (w * (c / (w * 4))) = c.
Proof.
  intros Hw H1 Ha Hb Hc.
  repeat split; try (field; lra).
  - transitivity (a * a / (4 * (w * w))); [field; lra|rewrite Ha, <- H1; field; lra].
  - transitivity (b * b / (4 * (w * w))); [field; lra|rewrite Hb, <- H1; field; lra].
  - transitivity (c * c / (4 * (w * w))); [field; lra|rewrite Hc, <- H1; field; lra].
Qed.
Lemma cross_product c1 w a b d : 0 < w -> 4 * (w * w) = c1 -> a * b = c1 * d ->
  4 * (a / (w * 4) * (b / (w * 4))) = d.
Proof.
  intros Hw H1 H. transitivity (a * b / (4 * (w * w))); [field; lra|rewrite H, <- H1; field; lra].
Qed.

(** Cofactor and orthogonality relations of a rotation, as quadratic identities. *)
Ltac rotation_facts m HR :=
  let A := fresh in let O := fresh in let O' := fresh in
  pose proof (rotation_adj m HR) as A; pose proof (rotation_right m HR) as O';
  pose proof (proj1 HR) as O;
  unfold Adj, Tr in A; unfold Mul, Tr, Id3 in O, O'; cbn [m00 m01 m02 m10 m11 m12 m20 m21 m22] in O, O';
  injection A; intros; injection O; intros; injection O'; intros.

Lemma try_from_rotation m : rotation m -> exists q, quat_try_from m = Some q /\ products_of q m.
Proof.
  intros HR.
  assert (Q : let c1 := 1 + m00 m + m11 m + m22 m in let c2 := 1 + m00 m - m11 m - m22 m in
    let c3 := 1 - m00 m + m11 m - m22 m in let c4 := 1 - m00 m - m11 m + m22 m in
    (m12 m - m21 m) * (m12 m - m21 m) = c1 * c2 /\ (m20 m - m02 m) * (m20 m - m02 m) = c1 * c3 /\
    (m01 m - m10 m) * (m01 m - m10 m) = c1 * c4 /\ (m01 m + m10 m) * (m01 m + m10 m) = c2 * c3 /\
    (m20 m + m02 m) * (m20 m + m02 m) = c2 * c4 /\ (m12 m + m21 m) * (m12 m + m21 m) = c3 * c4 /\
    (m12 m - m21 m) * (m20 m - m02 m) = c1 * (m01 m + m10 m) /\
    (m12 m - m21 m) * (m01 m - m10 m) = c1 * (m20 m + m02 m) /\
    (m20 m - m02 m) * (m01 m - m10 m) = c1 * (m12 m + m21 m) /\
    (m12 m - m21 m) * (m01 m + m10 m) = c2 * (m20 m - m02 m) /\
    (m12 m - m21 m) * (m20 m + m02 m) = c2 * (m01 m - m10 m) /\
    (m01 m + m10 m) * (m20 m + m02 m) = c2 * (m12 m + m21 m) /\
    (m20 m - m02 m) * (m01 m + m10 m) = c3 * (m12 m - m21 m) /\
    (m20 m - m02 m) * (m12 m + m21 m) = c3 * (m01 m - m10 m) /\
    (m01 m + m10 m) * (m12 m + m21 m) = c3 * (m20 m + m02 m) /\
    (m01 m - m10 m) * (m20 m + m02 m) = c4 * (m12 m - m21 m) /\
    (m01 m - m10 m) * (m12 m + m21 m) = c4 * (m20 m - m02 m) /\
    (m20 m + m02 m) * (m12 m + m21 m) = c4 * (m01 m + m10 m)).
  { cbv zeta. rotation_facts m HR. repeat split; lra. }
  cbv zeta in Q. set (c1 := 1 + m00 m + m11 m + m22 m) in *. set (c2 := 1 + m00 m - m11 m - m22 m) in *.
  set (c3 := 1 - m00 m + m11 m - m22 m) in *. set (c4 := 1 - m00 m - m11 m + m22 m) in *.
  assert (S4 : c1 + c2 + c3 + c4 = 4) by (unfold c1, c2, c3, c4; lra).
  destruct Q as (Q1 & Q2 & Q3 & Q4 & Q5 & Q6 & P1 & P2 & P3 & P4 & P5 & P6 & P7 & P8 & P9 & P10 & P11 & P12).
  assert (SQ : forall c, 1 / (1 + 1 + (1 + 1)) < c -> 0 < sqrt (c / (1 + 1 + (1 + 1))) /\
     4 * (sqrt (c / (1 + 1 + (1 + 1))) * sqrt (c / (1 + 1 + (1 + 1)))) = c).
  { intros c Hc. split; [apply sqrt_lt_R0; lra|rewrite sqrt_sqrt by lra; lra]. }
  assert (F4 : forall w, w * (1 + 1 + (1 + 1)) = w * 4) by (intros; ring).
  unfold quat_try_from. fold c1 c2 c3 c4. unfold products_of. fold c1 c2 c3 c4.
  destruct (Rltb_dec (1 / (1 + 1 + (1 + 1))) c1) as [[-> H]|[-> H1]].
  { eexists; split; [reflexivity|]. cbn [qw qi qj qk]. destruct (SQ _ H) as [W1 W2].
    set (w := sqrt _) in *. rewrite !F4.
    pose proof (four_products _ c2 c3 c4 w _ _ _ W1 W2 Q1 Q2 Q3) as (? & ? & ? & ? & ? & ?).
    repeat split; auto; eapply cross_product; eauto. }
  destruct (Rltb_dec (1 / (1 + 1 + (1 + 1))) c2) as [[-> H]|[-> H2]].
  { eexists; split; [reflexivity|]. cbn [qw qi qj qk]. destruct (SQ _ H) as [W1 W2].
    set (w := sqrt _) in *. rewrite !F4.
    rewrite (Rmult_comm c1 c2) in Q1.
    pose proof (four_products _ c1 c3 c4 w _ _ _ W1 W2 Q1 Q4 Q5) as (? & ? & ? & ? & ? & ?).
    repeat split; auto; try (eapply cross_product; now eauto).
    rewrite (Rmult_comm _ w); auto. }
  destruct (Rltb_dec (1 / (1 + 1 + (1 + 1))) c3) as [[-> H]|[-> H3]].
  { eexists; split; [reflexivity|]. cbn [qw qi qj qk]. destruct (SQ _ H) as [W1 W2].
    set (w := sqrt _) in *. rewrite !F4.
    rewrite (Rmult_comm c1 c3) in Q2. rewrite (Rmult_comm c2 c3) in Q4.
    pose proof (four_products _ c1 c2 c4 w _ _ _ W1 W2 Q2 Q4 Q6) as (? & ? & ? & ? & ? & ?).
    repeat split; auto; try (eapply cross_product; now eauto);
      rewrite (Rmult_comm _ w); auto. }
  destruct (Rltb_dec (1 / (1 + 1 + (1 + 1))) c4) as [[-> H]|[-> H4]]; [|exfalso; lra].
  eexists; split; [reflexivity|]. cbn [qw qi qj qk]. destruct (SQ _ H) as [W1 W2].
  set (w := sqrt _) in *. rewrite !F4.
  rewrite (Rmult_comm c1 c4) in Q3. rewrite (Rmult_comm c2 c4) in Q5. rewrite (Rmult_comm c3 c4) in Q6.
  pose proof (four_products _ c1 c2 c3 w _ _ _ W1 W2 Q3 Q5 Q6) as (? & ? & ? & ? & ? & ?).
  repeat split; auto; try (eapply cross_product; now eauto);
    rewrite (Rmult_comm _ w); auto.
Qed.

Definition q_neg (q : quat) : quat := mkQ (- qw q) (- qi q) (- qj q) (- qk q).
Lemma same_dcm p q : unit_quat p -> unit_quat q -> dcm_of_quat p = dcm_of_quat q -> p = q \/ p = q_neg q.
Proof.
  intros Hp Hq E. pose proof (unit_products p Hp) as P. pose proof (unit_products q Hq) as Q.
  rewrite E in P. unfold products_of in P, Q. decompose [and] P; decompose [and] Q; clear P Q.
  unfold unit_quat, Qnorm2 in Hp, Hq.
  set (d := qw p * qw q + qi p * qi q + qj p * qj q + qk p * qk q).
  assert (D : d * d = 1).
  { transitivity ((qw q * qw q + qi q * qi q + qj q * qj q + qk q * qk q) * (qw q * qw q + qi q * qi q + qj q * qj q + qk q * qk q)); [|rewrite Hq; ring].
    unfold d.
    transitivity ((qw p * qw p) * (qw q * qw q) + (qi p * qi p) * (qi q * qi q) + (qj p * qj p) * (qj q * qj q) + (qk p * qk p) * (qk q * qk q)
      + 2 * ((qw p * qi p) * (qw q * qi q)) + 2 * ((qw p * qj p) * (qw q * qj q)) + 2 * ((qw p * qk p) * (qw q * qk q))
      + 2 * ((qi p * qj p) * (qi q * qj q)) + 2 * ((qi p * qk p) * (qi q * qk q)) + 2 * ((qj p * qk p) * (qj q * qk q))); [ring|].
    replace (qw p * qw p) with (qw q * qw q) by lra. replace (qi p * qi p) with (qi q * qi q) by lra.
    replace (qj p * qj p) with (qj q * qj q) by lra. replace (qk p * qk p) with (qk q * qk q) by lra.
    replace (qw p * qi p) with (qw q * qi q) by lra. replace (qw p * qj p) with (qw q * qj q) by lra.
    replace (qw p * qk p) with (qw q * qk q) by lra. replace (qi p * qj p) with (qi q * qj q) by lra.
    replace (qi p * qk p) with (qi q * qk q) by lra. replace (qj p * qk p) with (qj q * qk q) by lra. ring. }
  assert (Z : forall a b c e, a * a + b * b + c * c + e * e = 0 -> a = 0 /\ b = 0 /\ c = 0 /\ e = 0).
  { intros a b c e Z. pose proof (Rle_0_sqr a); pose proof (Rle_0_sqr b); pose proof (Rle_0_sqr c); pose proof (Rle_0_sqr e).
    unfold Rsqr in *. repeat split; apply Rsqr_0_uniq; unfold Rsqr; lra. }
  assert (Hd : d = 1 \/ d = -1).
  { destruct (Req_dec d 1); auto. right. assert ((d - 1) * (d + 1) = 0) by lra.
    apply Rmult_integral in H20 as [?|?]; lra. }
  destruct Hd as [Hd|Hd].
  - left. destruct (Z (qw p - qw q) (qi p - qi q) (qj p - qj q) (qk p - qk q)) as (?&?&?&?); [unfold d in Hd; lra|].
    q4; lra.
  - right. destruct (Z (qw p + qw q) (qi p + qi q) (qj p + qj q) (qk p + qk q)) as (?&?&?&?); [unfold d in Hd; lra|].
    unfold q_neg; q4; lra.
Qed.

(** Euler angles. *)
Lemma dcm_of_euler_eq e : dcm_of_euler e = Mul (Mul (rotate_x (vx e)) (rotate_y (vy e))) (rotate_z (vz e)).
Proof. unfold dcm_of_euler; rewrite !dcm_mul_eq; reflexivity. Qed.
Lemma rot_x t : rotation (rotate_x t).
Proof. pose proof (cos_sq t) as C. split; [m3|unfold Det]; cbn; ring [C]. Qed.
Lemma rot_y t : rotation (rotate_y t).
Proof. pose proof (cos_sq t) as C. split; [m3|unfold Det]; cbn; ring [C]. Qed.
Lemma rot_z t : rotation (rotate_z t).
Proof. pose proof (cos_sq t) as C. split; [m3|unfold Det]; cbn; ring [C]. Qed.
Lemma dcm_of_euler_rotation e : rotation (dcm_of_euler e).
Proof. rewrite dcm_of_euler_eq. apply rotation_Mul; [apply rotation_Mul|]; auto using rot_x, rot_y, rot_z. Qed.

Lemma half_angles t : cos t = cos (t * (1 / (1 + 1))) * cos (t * (1 / (1 + 1))) - sin (t * (1 / (1 + 1))) * sin (t * (1 / (1 + 1)))
  /\ sin t = 2 * sin (t * (1 / (1 + 1))) * cos (t * (1 / (1 + 1))).
Proof.
  set (h := t * (1 / (1 + 1))). replace t with (2 * h) by (unfold h; field).
  split; [apply cos_2a|apply sin_2a].
Qed.
Lemma quat_of_euler_unit e : unit_quat (quat_of_euler e).
Proof.
  unfold unit_quat, Qnorm2, quat_of_euler; cbn [qw qi qj qk].
  pose proof (cos_sq (vx e * (1 / (1 + 1)))) as A. pose proof (cos_sq (vy e * (1 / (1 + 1)))) as B.
  pose proof (cos_sq (vz e * (1 / (1 + 1)))) as C. ring [A B C].
Qed.
Lemma euler_quat_dcm e : dcm_of_quat (quat_of_euler e) = dcm_of_euler e.
Proof.
  rewrite dcm_of_euler_eq. unfold rotate_x, rotate_y, rotate_z.
  destruct (half_angles (vx e)) as [-> ->]. destruct (half_angles (vy e)) as [-> ->].
  destruct (half_angles (vz e)) as [-> ->].
  pose proof (cos_sq (vx e * (1 / (1 + 1)))) as A. pose proof (cos_sq (vy e * (1 / (1 + 1)))) as B.
  pose proof (cos_sq (vz e * (1 / (1 + 1)))) as C.
  m3; unfold dcm_of_quat, quat_of_euler; cbn [qw qi qj qk m00 m01 m02 m10 m11 m12 m20 m21 m22]; ring [A B C].
Qed.

Lemma rotation_m02 m : rotation m -> -1 <= m02 m <= 1.
Proof.
  intros HR. rotation_facts m HR. pose proof (Rle_0_sqr (m00 m)). pose proof (Rle_0_sqr (m01 m)). unfold Rsqr in *.
  assert (m02 m * m02 m <= 1) by lra. split; apply Rnot_lt_le; intros L; nra.
Qed.
Lemma euler_dcm_dcm m : rotation m -> m00 m <> 0 \/ m01 m <> 0 -> dcm_of_euler (euler_of_dcm m) = m.
Proof.
  intros HR HG. pose proof (rotation_m02 m HR) as B.
  rewrite dcm_of_euler_eq. unfold euler_of_dcm, rotate_x, rotate_y, rotate_z; cbn [vx vy vz].
  rewrite cos_neg, sin_neg, cos_asin, sin_asin by exact B.
  set (cp := sqrt (1 - Rsqr (m02 m))).
  rotation_facts m HR.
  assert (E1 : cp = sqrt (m00 m * m00 m + m01 m * m01 m)) by (unfold cp, Rsqr; f_equal; lra).
  assert (E2 : cp = sqrt (m22 m * m22 m + m12 m * m12 m)) by (unfold cp, Rsqr; f_equal; lra).
  assert (P : 0 < cp) by (rewrite E1; apply hyp_pos, HG).
  pose proof (atan2_cos (m00 m) (m01 m)) as CY. pose proof (atan2_sin (m00 m) (m01 m)) as SY. rewrite <- E1 in CY, SY.
  pose proof (atan2_cos (m22 m) (m12 m)) as CR. pose proof (atan2_sin (m22 m) (m12 m)) as SR. rewrite <- E2 in CR, SR.
  set (y := atan2 (m01 m) (m00 m)) in *. set (r := atan2 (m12 m) (m22 m)) in *.
  assert (P2 : cp * cp = 1 - m02 m * m02 m).
  { unfold cp; rewrite sqrt_sqrt; [unfold Rsqr; ring|]. unfold Rsqr.
    pose proof (Rle_0_sqr (m00 m)); pose proof (Rle_0_sqr (m01 m)); unfold Rsqr in *; lra. }
  clearbody cp y r.
  replace (cos y) with (m00 m / cp) by (rewrite <- CY; field; lra).
  replace (sin y) with (m01 m / cp) by (rewrite <- SY; field; lra).
  replace (cos r) with (m22 m / cp) by (rewrite <- CR; field; lra).
  replace (sin r) with (m12 m / cp) by (rewrite <- SR; field; lra).
  assert (NZ : cp <> 0) by lra. assert (NZ2 : cp * cp <> 0) by (apply Rmult_integral_contrapositive_currified; exact NZ).
  m3.
  - field; auto.
  - field; auto.
  - ring.
  - transitivity ((- (m12 m * m02 m * m00 m) - m22 m * m01 m) / (cp * cp)); [field; auto|].
    apply Rmult_eq_reg_r with (cp * cp); [|exact NZ2].
    transitivity (- (m12 m * m02 m * m00 m) - m22 m * m01 m); [field; auto|]. rewrite P2.
    assert (X1 : m10 m = m02 m * m21 m - m01 m * m22 m) by assumption.
    assert (X2 : m21 m = m02 m * m10 m - m00 m * m12 m) by assumption.
    replace (m10 m * (1 - m02 m * m02 m)) with (m10 m - m02 m * (m02 m * m10 m)) by ring.
    replace (m02 m * m10 m) with (m21 m + m00 m * m12 m) by lra. rewrite X1 at 1. ring.
  - transitivity ((- (m12 m * m02 m * m01 m) + m22 m * m00 m) / (cp * cp)); [field; auto|].
    apply Rmult_eq_reg_r with (cp * cp); [|exact NZ2].
    transitivity (- (m12 m * m02 m * m01 m) + m22 m * m00 m); [field; auto|]. rewrite P2.
    assert (X1 : m11 m = m00 m * m22 m - m02 m * m20 m) by assumption.
    assert (X2 : m20 m = m01 m * m12 m - m02 m * m11 m) by assumption.
    replace (m11 m * (1 - m02 m * m02 m)) with (m11 m - m02 m * (m02 m * m11 m)) by ring.
    replace (m02 m * m11 m) with (m01 m * m12 m - m20 m) by lra. rewrite X1 at 1. ring.
  - field; auto.
  - transitivity ((- (m22 m * m02 m * m00 m) + m12 m * m01 m) / (cp * cp)); [field; auto|].
    apply Rmult_eq_reg_r with (cp * cp); [|exact NZ2].
    transitivity (- (m22 m * m02 m * m00 m) + m12 m * m01 m); [field; auto|]. rewrite P2.
    assert (X1 : m20 m = m01 m * m12 m - m02 m * m11 m) by assumption.
    assert (X2 : m11 m = m00 m * m22 m - m02 m * m20 m) by assumption.
    replace (m20 m * (1 - m02 m * m02 m)) with (m20 m - m02 m * (m02 m * m20 m)) by ring.
    replace (m02 m * m20 m) with (m00 m * m22 m - m11 m) by lra. rewrite X1 at 1. ring.
  - transitivity ((- (m22 m * m02 m * m01 m) - m12 m * m00 m) / (cp * cp)); [field; auto|].
    apply Rmult_eq_reg_r with (cp * cp); [|exact NZ2].
    transitivity (- (m22 m * m02 m * m01 m) - m12 m * m00 m); [field; auto|]. rewrite P2.
    assert (X1 : m21 m = m02 m * m10 m - m00 m * m12 m) by assumption.
    assert (X2 : m10 m = m02 m * m21 m - m01 m * m22 m) by assumption.
    replace (m21 m * (1 - m02 m * m02 m)) with (m21 m - m02 m * (m02 m * m21 m)) by ring.
    replace (m02 m * m21 m) with (m10 m + m01 m * m22 m) by lra. rewrite X1 at 1. ring.
  - field; auto.
Qed.
Lemma euler_dcm_euler e : - PI < vx e <= PI -> - (PI / 2) < vy e < PI / 2 -> - PI < vz e <= PI ->
  euler_of_dcm (dcm_of_euler e) = e.
Proof.
  intros Hx Hy Hz. rewrite dcm_of_euler_eq. assert (0 < cos (vy e)) by (apply cos_gt_0; lra).
  v3; unfold euler_of_dcm, Mul, rotate_x, rotate_y, rotate_z; cbn [vx vy vz m00 m01 m02 m10 m11 m12 m20 m21 m22].
  - etransitivity; [|apply (atan2_polar (cos (vy e)) (vx e)); assumption]. f_equal; ring.
  - etransitivity; [|apply (asin_sin (vy e)); lra]. rewrite <- asin_opp. f_equal; ring.
  - etransitivity; [|apply (atan2_polar (cos (vy e)) (vz e)); assumption]. f_equal; ring.
Qed.
Lemma euler_quat_via_dcm q : unit_quat q -> euler_of_quat q = euler_of_dcm (dcm_of_quat q).
Proof.
  intros H. pose proof (rotation_m02 _ (dcm_of_quat_rotation q H)) as B.
  unfold unit_quat, Qnorm2 in H.
  v3; unfold euler_of_quat, euler_of_dcm, dcm_of_quat in *; cbn [vx vy vz m00 m01 m02 m10 m11 m12 m20 m21 m22] in *.
  - f_equal; lra.
  - replace ((1 + 1) * (qi q * qk q - qw q * qj q)) with (- ((1 + 1) * (qw q * qj q - qk q * qi q))) in * by ring.
    rewrite asin_opp, Ropp_involutive. set (s := (1 + 1) * (qw q * qj q - qk q * qi q)) in *.
    unfold Rleb. destruct (Rle_dec 1 (Rabs s)) as [L|L]; [|reflexivity].
    unfold signum. destruct (Rltb_dec s 0) as [[-> Hs]|[-> Hs]].
    + rewrite Rabs_left in L by lra. replace s with (- (1)) by lra. rewrite asin_opp, asin_1. ring.
    + rewrite Rabs_right in L by lra. replace s with 1 by lra. rewrite asin_1. ring.
  - f_equal; lra.
Qed.
