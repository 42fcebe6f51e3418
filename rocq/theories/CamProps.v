(** Cameras: C68, C93. *)
From Coq Require Import Reals Lra Psatz.
From Coquelicot Require Import Coquelicot.
From Verif Require Import Scalar LinModel RSum Geo3 Trig AttModel AttProofs AttProps CamModel.
Local Open Scope R_scope.

(** Specification.  A 4x4 matrix applied to the point p as a column (the library's Matrix * Vector
    convention), and to the point as a row; homogeneous results (x, y, z) and w. *)
Definition col_xyz (m : nat -> nat -> R) (p : V3) : V3 :=
  let f i := m i 0%nat * vx p + m i 1%nat * vy p + m i 2%nat * vz p + m i 3%nat in mkV (f 0%nat) (f 1%nat) (f 2%nat).
Definition col_w (m : nat -> nat -> R) (p : V3) : R := m 3%nat 0%nat * vx p + m 3%nat 1%nat * vy p + m 3%nat 2%nat * vz p + m 3%nat 3%nat.
Definition row_xyz (m : nat -> nat -> R) (p : V3) : V3 := col_xyz (fun i j => m j i) p.
Definition row_w (m : nat -> nat -> R) (p : V3) : R := col_w (fun i j => m j i) p.
Definition linear_part (m : nat -> nat -> R) : M3 := mof m.
Definition translation (t : V3) : nat -> nat -> R := fun i j =>
  if Nat.eqb j 3 then (match i with 0%nat => vx t | 1%nat => vy t | 2%nat => vz t | _ => 1 end) else if Nat.eqb i j then 1 else 0.
Definition mul4 (a b : nat -> nat -> R) : nat -> nat -> R := fun i j => sum 4 (fun k => a i k * b k j).

(** * Vectors *)
Lemma vn u : vnormalize u = mkV (vx u / Norm u) (vy u / Norm u) (vz u / Norm u).
Proof. apply normalize3. Qed.
Lemma vc a b : vcross a b = Cross a b. Proof. apply cross3. Qed.
Lemma vd a b : vdot a b = Dot a b. Proof. apply dot3. Qed.
Lemma Norm_nz u : u <> V0 -> 0 < Norm u.
Proof.
  intros H. pose proof (Norm_pos u). destruct (Req_dec (Norm u) 0) as [E|]; [|lra].
  exfalso. apply H. apply Dot_zero. rewrite <- Norm_sq, E. ring.
Qed.
Lemma vn_unit u : u <> V0 -> Dot (vnormalize u) (vnormalize u) = 1.
Proof.
  intros H. pose proof (Norm_nz u H) as Hp. rewrite vn. unfold Dot at 1. cbn [vx vy vz].
  replace (vx u / Norm u * (vx u / Norm u) + vy u / Norm u * (vy u / Norm u) + vz u / Norm u * (vz u / Norm u))
    with (Dot u u / (Norm u * Norm u)) by (unfold Dot; field; lra). rewrite <- Norm_sq. field. lra.
Qed.
Lemma vn_scale u : u <> V0 -> u = Vscale (Norm u) (vnormalize u).
Proof. intros H. pose proof (Norm_nz u H). rewrite vn. apply V3_eq; cbn; field; lra. Qed.
Lemma vn_of_unit u : Dot u u = 1 -> vnormalize u = u.
Proof. intros H. rewrite vn. unfold Norm. rewrite H, sqrt_1. apply V3_eq; cbn; field. Qed.
Lemma V0_eq u : u = V0 <-> Dot u u = 0.
Proof. split; [intros ->; unfold Dot, V0; cbn; ring|apply Dot_zero]. Qed.
Lemma Norm_unit u : Dot u u = 1 -> Norm u = 1. Proof. intros H. unfold Norm. rewrite H. apply sqrt_1. Qed.

(** an orthonormal triple built from f and up *)
Lemma frame_of f up : Dot f f = 1 -> Cross up f <> V0 ->
  let r := vnormalize (Cross up f) in let u := Cross f r in
  Dot r r = 1 /\ Dot r f = 0 /\ Dot u u = 1 /\ Dot u f = 0 /\ Dot u r = 0 /\ Cross r u = f /\
  0 < Dot u up /\ Dot r up = 0.
Proof.
  intros Hf Hn r u. pose proof (vn_unit _ Hn) as Hr. fold r in Hr. pose proof (vn_scale _ Hn) as Hs. fold r in Hs.
  pose proof (Norm_nz _ Hn) as Hp. set (k := Norm (Cross up f)) in *.
  assert (Rf : Dot r f = 0).
  { apply Rmult_eq_reg_l with k; [|lra]. rewrite Rmult_0_r. transitivity (Dot (Vscale k r) f); [unfold Dot; cbn; ring|].
    rewrite <- Hs. unfold Dot, Cross; cbn; ring. }
  assert (Ru : Dot r up = 0).
  { apply Rmult_eq_reg_l with k; [|lra]. rewrite Rmult_0_r. transitivity (Dot (Vscale k r) up); [unfold Dot; cbn; ring|].
    rewrite <- Hs. unfold Dot, Cross; cbn; ring. }
  assert (Lag : Dot u u = Dot f f * Dot r r - Dot f r * Dot f r) by (unfold u, Dot, Cross; cbn; ring).
  assert (Cu : Cross r u = f).
  { assert (Bac : Cross r u = Vsub (Vscale (Dot r r) f) (Vscale (Dot r f) r)) by (unfold u; apply V3_eq; unfold Dot, Cross; cbn; ring).
    rewrite Bac, Hr, Rf. apply V3_eq; cbn; ring. }
  repeat split; auto.
  - rewrite Lag, Hf, Hr, (Dot_comm f r), Rf. ring.
  - unfold u, Dot, Cross; cbn; ring.
  - unfold u, Dot, Cross; cbn; ring.
  - assert (E : Dot u up = Dot r (Cross up f)) by (unfold u, Dot, Cross; cbn; ring).
    rewrite E, Hs. replace (Dot r (Vscale k r)) with (k * Dot r r) by (unfold Dot; cbn; ring). rewrite Hr. lra.
Qed.

Definition view_ok (eye center up : V3) : Prop := center <> eye /\ Cross up (Vsub center eye) <> V0.

Lemma view_frame eye center up : view_ok eye center up ->
  let f := vnormalize (Vsub center eye) in
  Dot f f = 1 /\ Cross up f <> V0 /\ Vsub center eye = Vscale (Norm (Vsub center eye)) f /\ 0 < Norm (Vsub center eye).
Proof.
  intros [H1 H2] f.
  assert (Nz : Vsub center eye <> V0).
  { intros E. apply H1. apply V3_eq; injection E; intros; lra. }
  pose proof (vn_scale _ Nz) as Hs. fold f in Hs. repeat split; [apply vn_unit; auto| |exact Hs|apply Norm_nz; auto].
  intros E. apply H2. rewrite Hs.
  replace (Cross up (Vscale (Norm (Vsub center eye)) f)) with (Vscale (Norm (Vsub center eye)) (Cross up f)) by (apply V3_eq; cbn; ring).
  rewrite E. apply V3_eq; cbn; ring.
Qed.

(** * look_at *)
(** the view matrix keeps distances, takes the eye to the origin and the centre to the negative z
    axis at its distance, and shows the up direction upwards, not sideways *)
Theorem C68_look_at_rigid eye center up : view_ok eye center up ->
  let m := look_at eye center up in
  (forall p q, Norm (Vsub (col_xyz m p) (col_xyz m q)) = Norm (Vsub p q)) /\
  (forall p, col_w m p = 1) /\
  col_xyz m eye = V0 /\
  col_xyz m center = mkV 0 0 (- Norm (Vsub center eye)) /\
  vx (col_xyz m (Vadd eye up)) = 0 /\ 0 < vy (col_xyz m (Vadd eye up)).
Proof.
  intros Hv m. destruct (view_frame _ _ _ Hv) as (Hf & Hn & Hs & Hp). set (f := vnormalize (Vsub center eye)) in *.
  destruct (frame_of f up Hf Hn) as (Hr & Rf & Hu & Uf & Ur & Cu & Up & Ru).
  set (r := vnormalize (Cross up f)) in *. set (u := Cross f r) in *. cbv zeta in *.
  assert (E : forall p, col_xyz m p = mkV (Dot r (Vsub p eye)) (Dot u (Vsub p eye)) (- Dot f (Vsub p eye))).
  { intros p. unfold m, look_at. fold f. rewrite vc. fold r. rewrite vc. fold u. rewrite !vd. unfold col_xyz, rows4, row4.
    apply V3_eq; unfold Dot; cbn [vx vy vz Vsub]; ring. }
  split; [|split; [|split; [|split; [|split]]]].
  - intros p q. unfold Norm. f_equal. rewrite !E. set (d := Vsub p q).
    transitivity (Dot r d * Dot r d + Dot u d * Dot u d + Dot f d * Dot f d).
    + unfold d, Dot. cbn [vx vy vz Vsub]. ring.
    + rewrite <- Cu. 
      assert (I : forall a b d : V3, Dot a a = 1 -> Dot b b = 1 -> Dot b a = 0 ->
         Dot a d * Dot a d + Dot b d * Dot b d + Dot (Cross a b) d * Dot (Cross a b) d = Dot d d).
      { clear. intros a b d Ha Hb Hab.
        assert (G : Dot (Cross a b) d * Dot (Cross a b) d = (Dot a a * Dot b b - Dot b a * Dot b a) * Dot d d
           - Dot a a * (Dot b d * Dot b d) - Dot b b * (Dot a d * Dot a d) + 2 * (Dot b a * Dot a d * Dot b d))
          by (unfold Dot, Cross; cbn; ring).
        rewrite G, Ha, Hb, Hab. ring. }
      apply I; auto.
  - intros p. unfold m, look_at, col_w, rows4, row4. ring.
  - rewrite E. apply V3_eq; unfold Dot, V0; cbn; ring.
  - rewrite E. set (k := Norm (Vsub center eye)) in *. clearbody k. rewrite Hs.
    apply V3_eq; cbn [vx vy vz].
    + replace (Dot r (Vscale k f)) with (k * Dot r f) by (unfold Dot; cbn; ring). rewrite Rf. ring.
    + replace (Dot u (Vscale k f)) with (k * Dot u f) by (unfold Dot; cbn; ring). rewrite Uf. ring.
    + replace (Dot f (Vscale k f)) with (k * Dot f f) by (unfold Dot; cbn; ring). rewrite Hf. ring.
  - rewrite E. cbn [vx]. rewrite <- Ru. unfold Dot; cbn; ring.
  - rewrite E. cbn [vy]. replace (Dot u (Vsub (Vadd eye up) eye)) with (Dot u up) by (unfold Dot; cbn; ring). auto.
Qed.

(** Missing for the full claim: determinant +1.  The matrix has determinant -1 for every view: it
    shows the scene mirrored left to right. *)
Theorem C68_look_at_mirror_partial eye center up : view_ok eye center up -> Det (linear_part (look_at eye center up)) = -1.
Proof.
  intros Hv. destruct (view_frame _ _ _ Hv) as (Hf & Hn & _). set (f := vnormalize (Vsub center eye)) in *.
  destruct (frame_of f up Hf Hn) as (Hr & Rf & Hu & Uf & Ur & Cu & _).
  set (r := vnormalize (Cross up f)) in *. set (u := Cross f r) in *. cbv zeta in *.
  unfold look_at. fold f. rewrite vc. fold r. rewrite vc. fold u.
  transitivity (- Dot (Cross r u) f); [unfold Det, linear_part, mof, rows4, row4, Dot, Cross; cbn; ring|].
  rewrite Cu, Hf. ring.
Qed.
Example C68_view_ok : view_ok (mkV 5 0 0) V0 (mkV 0 0 1).
Proof. split; [unfold V0; intros E; injection E; lra|]. unfold V0; intros E. injection E. cbn. lra. Qed.
Theorem C68_look_at_refuted : exists eye center up, view_ok eye center up /\ Det (linear_part (look_at eye center up)) <> 1.
Proof. exists (mkV 5 0 0), V0, (mkV 0 0 1). split; [apply C68_view_ok|]. rewrite C68_look_at_mirror_partial by apply C68_view_ok. lra. Qed.

(** * perspective *)
(** Missing for the full claim: the matrix works on points as rows, while look_at and the library's
    products work on points as columns (see the refutation).  As rows: a point in front of the eye is
    inside the clip cube exactly when it is inside the frustum. *)
Theorem C68_perspective_partial aspect fov near far p :
  0 < aspect -> 0 < fov < PI -> 0 < near -> near < far -> vz p < 0 ->
  let c := row_xyz (perspective aspect fov near far) p in
  let w := row_w (perspective aspect fov near far) p in
  let t := tan (fov / 2) in
  w = - vz p /\
  (- w <= vz c <-> near <= - vz p) /\ (vz c <= w <-> - vz p <= far) /\
  (Rabs (vy c) <= w <-> Rabs (vy p) <= t * - vz p) /\
  (Rabs (vx c) <= w <-> Rabs (vx p) <= aspect * t * - vz p) /\
  (vz p = - near -> vz c = - w) /\ (vz p = - far -> vz c = w).
Proof.
  intros Ha Hfov Hn Hf Hz c w t.
  assert (Ht : 0 < t) by (apply tan_gt_0; lra).
  assert (Ew : w = - vz p) by (unfold w, row_w, col_w, perspective, rows4, row4; ring).
  assert (Ex : vx c = vx p / (aspect * t)) by (unfold c, row_xyz, col_xyz, perspective, rows4, row4; cbn; fold t; field; split; lra).
  assert (Ey : vy c = vy p / t) by (unfold c, row_xyz, col_xyz, perspective, rows4, row4; cbn; fold t; field; lra).
  assert (Ez : vz c = ((far + near) * - vz p - 2 * far * near) / (far - near))
    by (unfold c, row_xyz, col_xyz, perspective, rows4, row4; cbn; field; lra).
  set (z := - vz p) in *. assert (Pz : 0 < z) by (unfold z; lra).
  assert (Z1 : vz c + w = 2 * far * (z - near) / (far - near)) by (rewrite Ez, Ew; field; lra).
  assert (Z2 : w - vz c = 2 * near * (far - z) / (far - near)) by (rewrite Ez, Ew; field; lra).
  assert (Sg : forall k x, 0 < k -> (0 <= k * x / (far - near) <-> 0 <= x)).
  { intros k x Hk. split; intros Hx.
    - apply Rnot_lt_le. intros L. assert (k * x / (far - near) < 0); [|lra].
      replace (k * x / (far - near)) with (- (k * (- x) * / (far - near))) by (unfold Rdiv; ring).
      assert (0 < k * - x * / (far - near)); [|lra]. apply Rmult_lt_0_compat; [nra|]. apply Rinv_0_lt_compat. lra.
    - apply Rmult_le_pos; [nra|]. apply Rlt_le, Rinv_0_lt_compat. lra. }
  assert (Ab : forall x k, 0 < k -> (Rabs (x / k) <= z <-> Rabs x <= k * z)).
  { intros x k Hk. rewrite Rabs_div by lra. rewrite (Rabs_pos_eq k) by lra. split; intros H.
    - apply Rmult_le_compat_l with (r := k) in H; [|lra]. replace (k * (Rabs x / k)) with (Rabs x) in H by (field; lra). lra.
    - apply Rmult_le_reg_l with k; auto. replace (k * (Rabs x / k)) with (Rabs x) by (field; lra). lra. }
  split; [exact Ew|]. split; [|split; [|split; [|split; [|split]]]].
  - destruct (Sg (2 * far) (z - near)) as [A B]; [lra|]. split; intros H.
    + assert (0 <= z - near); [apply A; lra|lra].
    + assert (0 <= 2 * far * (z - near) / (far - near)); [apply B; lra|lra].
  - destruct (Sg (2 * near) (far - z)) as [A B]; [lra|]. split; intros H.
    + assert (0 <= far - z); [apply A; lra|lra].
    + assert (0 <= 2 * near * (far - z) / (far - near)); [apply B; lra|lra].
  - rewrite Ew, Ey. apply Ab; auto.
  - rewrite Ew, Ex. rewrite Ab by nra. tauto.
  - intros E. assert (z = near) by (unfold z; lra). subst near. replace (z - z) with 0 in Z1 by ring. lra || (unfold Rdiv in Z1; lra).
  - intros E. assert (z = far) by (unfold z; lra). subst far. replace (z - z) with 0 in Z2 by ring. lra || (unfold Rdiv in Z2; lra).
Qed.

(** in the convention of look_at and Matrix * Vector the near plane does not land on -1: the point
    straight ahead on the near plane of a 1..3 frustum *)
Theorem C68_perspective_refuted : exists aspect fov near far,
  0 < aspect /\ 0 < fov < PI /\ 0 < near /\ near < far /\
  let p := mkV 0 0 (- near) in
  vz (col_xyz (perspective aspect fov near far) p) <> - col_w (perspective aspect fov near far) p.
Proof.
  exists 1, (PI / 2), 1, 3. pose proof PI_RGT_0. repeat split; try lra.
  unfold col_xyz, col_w, perspective, rows4, row4; cbn. lra.
Qed.
Example C68_perspective_nontrivial : 0 < 1 /\ 0 < PI / 2 < PI /\ 0 < 1 < 3 /\ vz (mkV 0 0 (-2)) < 0.
Proof. pose proof PI_RGT_0. cbn. repeat split; lra. Qed.

(** * translate *)
(** Missing for the full claim: matrices whose last row is not orthogonal to the translation *)
Theorem C68_translate_partial m t :
  let r := mul4 m (translation t) in
  (forall i j, (i < 3)%nat -> (j < 4)%nat -> translate m t i j = r i j) /\
  ((forall i j, (i < 4)%nat -> (j < 4)%nat -> translate m t i j = r i j) <->
    m 3%nat 0%nat * vx t + m 3%nat 1%nat * vy t + m 3%nat 2%nat * vz t = 0).
Proof.
  intros r.
  assert (A : forall i j, (i < 3)%nat -> (j < 4)%nat -> translate m t i j = r i j).
  { intros i j Hi Hj. unfold r, mul4, translate, translation.
    destruct i as [|[|[|i]]]; [| | |exfalso; Lia.lia]; (destruct j as [|[|[|[|j]]]]; [| | | |exfalso; Lia.lia]); unfold upd2; cbn; ring. }
  split; auto. split.
  - intros H. specialize (H 3%nat 3%nat ltac:(Lia.lia) ltac:(Lia.lia)). unfold r, mul4, translate, translation, upd2 in H. cbn in H. lra.
  - intros H i j Hi Hj. destruct (Nat.lt_ge_cases i 3) as [L|L]; auto. assert (i = 3%nat) by Lia.lia. subst i.
    unfold r, mul4, translate, translation. destruct j as [|[|[|[|j]]]]; [| | | |exfalso; Lia.lia]; unfold upd2; cbn; lra.
Qed.
(** translating after a view matrix moves the world under the camera *)
Theorem C68_translate_view eye center up t p :
  col_xyz (translate (look_at eye center up) t) p = col_xyz (look_at eye center up) (Vadd p t) /\
  col_w (translate (look_at eye center up) t) p = 1.
Proof.
  unfold translate, col_xyz, col_w, upd2, look_at, rows4, row4; split; [apply V3_eq|]; cbn; ring.
Qed.
Theorem C68_translate_refuted : exists m t i j, (i < 4)%nat /\ (j < 4)%nat /\ translate m t i j <> mul4 m (translation t) i j.
Proof.
  exists (perspective 1 1 1 3), (mkV 0 0 1), 3%nat, 3%nat. split; [Lia.lia|]. split; [Lia.lia|].
  unfold mul4, translate, translation, upd2, perspective, rows4, row4. cbn. lra.
Qed.

(** * The orbit camera *)
Lemma right_of_spec f : Dot f f = 1 ->
  Dot (right_of f) (right_of f) = 1 /\ Dot (right_of f) f = 0 /\
  (/ 10 ^ 16 <= vx f * vx f + vy f * vy f -> vz (right_of f) = 0 /\ 0 < vz (Cross f (right_of f))).
Proof.
  intros Hf. unfold right_of. rewrite !vc.
  set (w := Cross world_up f). set (b := Cross (mkV 1 0 0) f).
  assert (Hw : Dot w w = vx f * vx f + vy f * vy f) by (unfold w, Dot, Cross, world_up; cbn; ring).
  assert (Hb : Dot b b = vy f * vy f + vz f * vz f) by (unfold b, Dot, Cross; cbn; ring).
  assert (O : forall a, Cross a f <> V0 ->
    Dot (vnormalize (Cross a f)) (vnormalize (Cross a f)) = 1 /\ Dot (vnormalize (Cross a f)) f = 0 /\
    Dot (vnormalize (Cross a f)) a = 0 /\ 0 < Dot (Cross f (vnormalize (Cross a f))) a).
  { intros a Ha. destruct (frame_of f a Hf Ha) as (H1 & H2 & _ & _ & _ & _ & H3 & H4). auto. }
  assert (P16 : 0 < / 10 ^ 16) by (apply Rinv_0_lt_compat, pow_lt; lra).
  assert (S16 : / 10 ^ 16 < 1) by (rewrite <- Rinv_1; apply Rinv_lt_contravar; [rewrite Rmult_1_l; apply pow_lt; lra|cbn; lra]).
  change (vx w * vx w + vy w * vy w + vz w * vz w) with (Dot w w). rewrite Hw.
  destruct (Rltb_dec (vx f * vx f + vy f * vy f) (/ 10 ^ 16)) as [[E L]|[E L]]; rewrite E.
  - destruct (O (mkV 1 0 0)) as (H1 & H2 & _).
    { intros Z. assert (Y : Dot b b = 0) by (unfold b; rewrite Z; unfold Dot, V0; cbn; ring). unfold Dot in Hf.
      pose proof (Rle_0_sqr (vx f)) as X1. pose proof (Rle_0_sqr (vy f)) as X2. unfold Rsqr in *. lra. }
    split; [exact H1|]. split; [exact H2|]. intros; lra.
  - destruct (O world_up) as (H1 & H2 & H3 & H4).
    { intros Z. assert (Y : Dot w w = 0) by (unfold w; rewrite Z; unfold Dot, V0; cbn; ring). lra. }
    split; [exact H1|]. split; [exact H2|]. intros _. split.
    + revert H3. unfold Dot, world_up; cbn. lra.
    + revert H4. unfold Dot, world_up. cbn [vx vy vz]. fold w. rewrite !Rmult_0_r, Rmult_1_r, !Rplus_0_l. auto.
Qed.

Lemma Dot_scale_l k u v : Dot (Vscale k u) v = k * Dot u v.
Proof. unfold Dot; cbn; ring. Qed.
Lemma unit_nz v : Dot v v = 1 -> Norm v <> 0.
Proof. intros H. rewrite (Norm_unit v H). lra. Qed.
Lemma world_up_nz : Norm world_up <> 0. Proof. apply unit_nz. unfold Dot; cbn; ring. Qed.
Lemma rot_fwd q : unit_quat q -> vnormalize (rotate_vector q base_forward) = App (dcm_of_quat q) base_forward /\
  Dot (App (dcm_of_quat q) base_forward) (App (dcm_of_quat q) base_forward) = 1.
Proof.
  intros H. rewrite rotate_vector_eq, (normalized_of_unit _ H).
  assert (D : Dot (App (dcm_of_quat q) base_forward) (App (dcm_of_quat q) base_forward) = 1).
  { rewrite rotation_Dot by (apply dcm_of_quat_rotation; auto). unfold Dot; cbn; ring. }
  split; auto. apply vn_of_unit, D.
Qed.
Lemma mul_unit a b : unit_quat a -> unit_quat b -> unit_quat (q_mul a b).
Proof. unfold unit_quat. intros Ha Hb. rewrite Qnorm2_mul, Ha, Hb. ring. Qed.
Lemma mul_unit_n a b : unit_quat a -> unit_quat b -> q_normalized (q_mul a b) = q_mul a b.
Proof. intros. apply normalized_of_unit, mul_unit; auto. Qed.

Lemma set_angles_unit c y p : unit_quat (orientation (set_angles c y p)).
Proof.
  cbn [set_angles orientation]. pose proof (axis_angle_unit world_up y world_up_nz) as U.
  destruct (rot_fwd _ U) as [-> D]. rewrite mul_unit_n; auto using axis_angle_unit, mul_unit.
  - apply mul_unit; auto. apply axis_angle_unit, unit_nz, right_of_spec, D.
  - apply axis_angle_unit, unit_nz, right_of_spec, D.
Qed.
Lemma orbit_unit c y p : unit_quat (orientation c) -> unit_quat (orientation (apply_orbit_angles c y p)).
Proof.
  intros Hc. unfold apply_orbit_angles, refresh, set_orientation. cbn [orientation].
  pose proof (axis_angle_unit world_up y world_up_nz) as U.
  rewrite (mul_unit_n _ _ U Hc). pose proof (mul_unit _ _ U Hc) as U2.
  destruct (rot_fwd _ U2) as [-> D]. pose proof (axis_angle_unit _ p (unit_nz _ (proj1 (right_of_spec _ D)))) as U3.
  rewrite mul_unit_n; auto using mul_unit.
Qed.
Lemma x_nz : Norm (mkV 1 0 0) <> 0. Proof. apply unit_nz. unfold Dot; cbn; ring. Qed.
Lemma y_nz : Norm (mkV 0 1 0) <> 0. Proof. apply unit_nz. unfold Dot; cbn; ring. Qed.
Lemma world_unit c y p : unit_quat (orientation c) -> unit_quat (orientation (apply_orbit_world_angles c y p)).
Proof.
  intros Hc. unfold apply_orbit_world_angles, refresh, set_orientation. cbn [orientation].
  pose proof (axis_angle_unit _ y x_nz) as U. pose proof (axis_angle_unit _ p y_nz) as U2.
  rewrite (mul_unit_n _ _ U U2), mul_unit_n; auto using mul_unit.
Qed.
Lemma reachable_unit c : cam_reachable c -> unit_quat (orientation c).
Proof.
  induction 1 as [|c c' H IH S].
  - unfold unit_quat, Qnorm2; cbn; ring.
  - destruct S; auto using set_angles_unit, orbit_unit, world_unit.
    + apply orbit_unit; auto.
    + apply world_unit; auto.
Qed.

Definition up_of (f r : V3) : V3 :=
  let up := vcross f r in
  let n2 := vx up * vx up + vy up * vy up + vz up * vz up in
  if Rltb n2 (/ 10 ^ 16) then mkV 0 0 1
  else let up_n := vnormalize up in
       if Rltb (vz up_n) 0 then Vscale (- (1)) up_n else up_n.
Lemma up_of_spec f r : Dot f f = 1 -> Dot r r = 1 -> Dot r f = 0 ->
  Dot (up_of f r) (up_of f r) = 1 /\ Dot (up_of f r) f = 0 /\ Dot (up_of f r) r = 0 /\ 0 <= vz (up_of f r) /\
     (0 < vz (Cross f r) -> up_of f r = Cross f r).
Proof.
  intros D R1 R2.
  assert (UU : Dot (Cross f r) (Cross f r) = 1).
  { transitivity (Dot f f * Dot r r - Dot r f * Dot r f); [unfold Dot, Cross; cbn; ring|]. rewrite D, R1, R2. ring. }
  assert (Uf : Dot (Cross f r) f = 0) by (unfold Dot, Cross; cbn; ring).
  assert (Ur : Dot (Cross f r) r = 0) by (unfold Dot, Cross; cbn; ring).
  assert (S16 : ~ 1 < / 10 ^ 16).
  { apply Rle_not_lt. rewrite <- Rinv_1. apply Rinv_le_contravar; cbn; lra. }
  assert (Eu : up_of f r = if Rltb (vz (Cross f r)) 0 then Vscale (- (1)) (Cross f r) else Cross f r).
  { unfold up_of. rewrite vc, (vn_of_unit _ UU). set (u := Cross f r) in *. cbv zeta.
    replace (vx u * vx u + vy u * vy u + vz u * vz u) with 1 by (symmetry; exact UU).
    destruct (Rltb_dec 1 (/ 10 ^ 16)) as [[E L]|[E L]]; rewrite E; [contradiction|reflexivity]. }
  rewrite Eu. clear Eu. set (u := Cross f r) in *. clearbody u. destruct (Rltb_dec (vz u) 0) as [[E L]|[E L]]; rewrite E.
  - repeat split; try (intros; lra).
    + transitivity (Dot u u); [unfold Dot; cbn [vx vy vz Vscale]; ring|exact UU].
    + rewrite Dot_scale_l, Uf. ring.
    + rewrite Dot_scale_l, Ur. ring.
    + unfold Vscale; cbn [vz]; lra.
  - repeat split; auto.
Qed.
(** in every state a caller can reach: the orientation is a unit quaternion; the position is at the
    set distance from the target and looks at it along [forward]; right, up and forward are unit and
    mutually perpendicular; up is never below the horizon; and away from the poles right is
    horizontal and (right, up) is (up_world x forward, forward x right) *)
Theorem C68_orbit c : cam_reachable c ->
  unit_quat (orientation c) /\
  Norm (forward c) = 1 /\ Norm (right c) = 1 /\ Norm (cam_up c) = 1 /\
  Dot (right c) (forward c) = 0 /\ Dot (cam_up c) (forward c) = 0 /\ Dot (cam_up c) (right c) = 0 /\
  0 <= vz (cam_up c) /\
  Norm (Vsub (position c) (target c)) = Rabs (distance c) /\
  Vsub (target c) (position c) = Vscale (distance c) (forward c) /\
  (/ 10 ^ 16 <= vx (forward c) * vx (forward c) + vy (forward c) * vy (forward c) ->
    vz (right c) = 0 /\ 0 < vz (cam_up c) /\ cam_up c = Cross (forward c) (right c)).
Proof.
  intros Hc. pose proof (reachable_unit c Hc) as U. destruct (rot_fwd _ U) as [Ef D]. fold (forward c) in Ef.
  rewrite <- Ef in D. clear Ef. destruct (right_of_spec _ D) as (R1 & R2 & R3). fold (right c) in R1, R2, R3.
  change (cam_up c) with (up_of (forward c) (right c)). unfold position.
  generalize dependent (right c). generalize dependent (forward c). intros f D r R1 R2 R3.
  destruct (up_of_spec f r D R1 R2) as (C1 & C2 & C3 & C4 & C5).
  split; [exact U|]. split; [apply Norm_unit, D|]. split; [apply Norm_unit, R1|]. split; [apply Norm_unit, C1|].
  split; [exact R2|]. split; [exact C2|]. split; [exact C3|]. split; [exact C4|].
  split; [|split].
  - unfold Norm. replace (Dot _ _) with ((distance c * distance c) * Dot f f) by (unfold Dot; cbn; ring).
    rewrite D, Rmult_1_r. apply sqrt_Rsqr_abs.
  - apply V3_eq; cbn; ring.
  - intros L. destruct (R3 L) as [A B]. rewrite (C5 B). auto.
Qed.
Example C68_orbit_nontrivial : cam_reachable (apply_orbit_pixels (set_angles cam_default 1 (1/2)) 30 (-12)).
Proof. apply reach_step with (set_angles cam_default 1 (1/2)); [|apply step_pixels]. apply reach_step with cam_default; constructor. Qed.

(** * C93: what the controls do *)
(** the yaw and pitch fields after an orbit update are the spherical angles of [forward] *)
Lemma refresh_angles c : unit_quat (orientation c) ->
  let c' := refresh c in
  forward c' = mkV (cos (pitch c') * cos (yaw c')) (cos (pitch c') * sin (yaw c')) (sin (pitch c')) /\
  - PI < yaw c' <= PI /\ - (PI / 2) <= pitch c' <= PI / 2.
Proof.
  intros U c'. change (forward c') with (forward c). destruct (rot_fwd _ U) as [Ef D]. fold (forward c) in Ef. rewrite <- Ef in D.
  unfold c', refresh; cbn [yaw pitch]. set (f := forward c) in *. unfold Dot in D.
  assert (B : -1 <= vz f <= 1).
  { pose proof (Rle_0_sqr (vx f)) as X1. pose proof (Rle_0_sqr (vy f)) as X2. unfold Rsqr in *. split; nra. }
  rewrite Rmax_left, Rmin_left by lra.
  assert (Hc : cos (asin (vz f)) = sqrt (vx f * vx f + vy f * vy f)).
  { rewrite cos_asin by lra. f_equal. unfold Rsqr. lra. }
  rewrite Hc, (sin_asin (vz f)) by lra.
  split; [|split; [apply atan2_bound|apply asin_bound]].
  apply V3_eq; cbn [vx vy vz]; [rewrite atan2_cos|rewrite atan2_sin|]; auto.
Qed.
Theorem C93_telemetry c a b : cam_reachable c ->
  forall c', c' = apply_orbit_angles c a b \/ c' = apply_orbit_pixels c a b \/
             c' = apply_orbit_world_angles c a b \/ c' = apply_orbit_world_pixels c a b ->
  forward c' = mkV (cos (pitch c') * cos (yaw c')) (cos (pitch c') * sin (yaw c')) (sin (pitch c')) /\
  - PI < yaw c' <= PI /\ - (PI / 2) <= pitch c' <= PI / 2 /\ target c' = target c /\ distance c' = distance c.
Proof.
  intros Hc. pose proof (reachable_unit c Hc) as U.
  assert (A : forall a b, let c' := apply_orbit_angles c a b in
    forward c' = mkV (cos (pitch c') * cos (yaw c')) (cos (pitch c') * sin (yaw c')) (sin (pitch c')) /\
    - PI < yaw c' <= PI /\ - (PI / 2) <= pitch c' <= PI / 2 /\ target c' = target c /\ distance c' = distance c).
  { intros x y. pose proof (orbit_unit c x y U) as U'. unfold apply_orbit_angles in *. set (o := q_normalized _) in *.
    set (o' := q_normalized _) in *. destruct (refresh_angles (set_orientation c o') U') as (H1 & H2 & H3). auto. }
  assert (B : forall a b, let c' := apply_orbit_world_angles c a b in
    forward c' = mkV (cos (pitch c') * cos (yaw c')) (cos (pitch c') * sin (yaw c')) (sin (pitch c')) /\
    - PI < yaw c' <= PI /\ - (PI / 2) <= pitch c' <= PI / 2 /\ target c' = target c /\ distance c' = distance c).
  { intros x y. pose proof (world_unit c x y U) as U'. unfold apply_orbit_world_angles in *. set (o := q_normalized _) in *.
    set (o' := q_normalized _) in *. destruct (refresh_angles (set_orientation c o') U') as (H1 & H2 & H3). auto. }
  intros c' [->|[->|[->| ->]]]; [apply A|apply A|apply B|apply B].
Qed.

(** the frame the orientation describes *)
Definition own (c : camera) (v : V3) : V3 := App (dcm_of_quat (orientation c)) v.
Lemma forward_own c : unit_quat (orientation c) -> forward c = own c base_forward.
Proof. intros H. apply (rot_fwd _ H). Qed.
Lemma App_Mul a b v : App (Mul a b) v = App a (App b v).
Proof. apply V3_eq; cbn; ring. Qed.
Lemma dcm_axis axis t v : Dot axis axis = 1 ->
  App (dcm_of_quat (from_axis_angle axis t)) v =
    Vadd (Vadd (Vscale (cos t) v) (Vscale (- sin t) (Cross axis v))) (Vscale ((1 - cos t) * Dot axis v) axis).
Proof.
  intros H. destruct (C80_rodrigues axis t v (unit_nz _ H)) as [U E]. rewrite rotate_vector_eq, (normalized_of_unit _ U) in E.
  rewrite E. rewrite (Norm_unit _ H). apply V3_eq; unfold Dot; cbn; field.
Qed.
Lemma up_unit : Dot world_up world_up = 1. Proof. unfold Dot; cbn; ring. Qed.
Lemma zero_angle axis : Dot axis axis = 1 -> from_axis_angle axis 0 = q_identity.
Proof. intros H. apply (C80_axis_fixed_and_angles_add axis 0 0 V0 (unit_nz _ H)). Qed.

(** a yaw of d turns the view about the camera's own up axis; Missing for the full claim: it is the
    world's up axis only when the two agree (next theorem, and the refutations below). *)
Theorem C93_yaw_partial c d : cam_reachable c ->
  forward (apply_orbit_angles c d 0) = Vadd (Vscale (cos d) (forward c)) (Vscale (- sin d) (own c (mkV 0 1 0))) /\
  own (apply_orbit_angles c d 0) world_up = own c world_up /\
  (own c world_up = world_up ->
     vz (forward (apply_orbit_angles c d 0)) = vz (forward c) /\ own (apply_orbit_angles c d 0) world_up = world_up).
Proof.
  intros Hc. pose proof (reachable_unit c Hc) as U.
  pose proof (orbit_unit c d 0 U) as U'. rewrite (forward_own _ U'), (forward_own _ U).
  assert (Eo : orientation (apply_orbit_angles c d 0) = q_mul (from_axis_angle world_up d) (orientation c)).
  { unfold apply_orbit_angles, refresh, set_orientation. cbn [orientation].
    pose proof (axis_angle_unit world_up d world_up_nz) as U1. rewrite (mul_unit_n _ _ U1 U). pose proof (mul_unit _ _ U1 U) as U2.
    destruct (rot_fwd _ U2) as [-> D]. rewrite zero_angle by (apply right_of_spec, D).
    set (q := q_mul _ _) in *. replace (q_mul q_identity q) with q by (apply quat_eq; cbn; ring). apply normalized_of_unit, U2. }
  assert (A : forall v, own (apply_orbit_angles c d 0) v = own c (App (dcm_of_quat (from_axis_angle world_up d)) v)).
  { intros v. unfold own. rewrite Eo, dcm_of_quat_mul. apply App_Mul. }
  rewrite !A, !(dcm_axis _ _ _ up_unit).
  assert (L : forall m a b u v, App m (Vadd (Vscale a u) (Vscale b v)) = Vadd (Vscale a (App m u)) (Vscale b (App m v)))
    by (intros; apply V3_eq; cbn; ring).
  assert (F : own c (Vadd (Vadd (Vscale (cos d) base_forward) (Vscale (- sin d) (Cross world_up base_forward))) (Vscale ((1 - cos d) * Dot world_up base_forward) world_up))
    = Vadd (Vscale (cos d) (own c base_forward)) (Vscale (- sin d) (own c (mkV 0 1 0)))).
  { unfold own. rewrite <- L. f_equal. apply V3_eq; unfold Dot; cbn; ring. }
  assert (Z : Vadd (Vadd (Vscale (cos d) world_up) (Vscale (- sin d) (Cross world_up world_up))) (Vscale ((1 - cos d) * Dot world_up world_up) world_up) = world_up)
    by (apply V3_eq; unfold Dot; cbn; ring).
  rewrite F, Z. split; [reflexivity|]. split; [reflexivity|]. intros E. split; [|exact E].
  assert (P : forall v, vz (own c v) = vz v).
  { intros v. transitivity (Dot (own c v) world_up); [unfold Dot; cbn; ring|]. rewrite <- E at 1. unfold own.
    rewrite rotation_Dot by (apply dcm_of_quat_rotation; auto). unfold Dot; cbn; ring. }
  cbn [vz Vadd Vscale]. rewrite !P. cbn. ring.
Qed.

(** Missing for the full claim: the Z-up spherical mapping, forward = (cos p cos y, cos p sin y, sin p).
    What set_angles gives instead, for all angles: *)
Theorem C93_set_angles_partial c y p :
  forward (set_angles c y p) =
    mkV (cos y * (cos p + 2 * (1 - cos p) * (sin y * sin y)))
        (- sin y * (cos p + (1 - cos p) * (sin y * sin y - cos y * cos y)))
        (sin p * cos y).
Proof.
  pose proof (set_angles_unit c y p) as U. rewrite (forward_own _ U).
  pose proof (axis_angle_unit world_up y world_up_nz) as U1. destruct (rot_fwd _ U1) as [E D].
  assert (F : App (dcm_of_quat (from_axis_angle world_up y)) base_forward = mkV (cos y) (- sin y) 0).
  { rewrite (dcm_axis _ _ _ up_unit). apply V3_eq; unfold Dot; cbn; ring. }
  assert (Rt : right_of (mkV (cos y) (- sin y) 0) = mkV (sin y) (cos y) 0).
  { unfold right_of. rewrite !vc.
    replace (Cross world_up (mkV (cos y) (- sin y) 0)) with (mkV (sin y) (cos y) 0) by (apply V3_eq; cbn; ring).
    cbn [vx vy vz]. pose proof (sincos2 y) as S.
    assert (S16 : / 10 ^ 16 <= 1) by (rewrite <- Rinv_1; apply Rinv_le_contravar; cbn; lra).
    destruct (Rltb_dec (sin y * sin y + cos y * cos y + 0 * 0) (/ 10 ^ 16)) as [[G L]|[G L]]; rewrite G; [lra|].
    apply vn_of_unit. unfold Dot; cbn. lra. }
  unfold own, set_angles. cbn [orientation]. rewrite E, F, Rt.
  assert (Ur : Dot (mkV (sin y) (cos y) 0) (mkV (sin y) (cos y) 0) = 1) by (pose proof (sincos2 y); unfold Dot; cbn; lra).
  rewrite mul_unit_n; auto using axis_angle_unit, unit_nz.
  rewrite dcm_of_quat_mul, App_Mul, (dcm_axis _ p _ Ur), (dcm_axis _ _ _ up_unit).
  pose proof (sincos2 y) as S. assert (C : cos y * cos y = 1 - sin y * sin y) by lra.
  apply V3_eq; unfold Dot; cbn [vx vy vz Vadd Vscale Cross world_up base_forward]; ring [C].
Qed.

(** at zero pitch the heading turns the wrong way: the yaw field read back is the negated yaw set *)
Theorem C93_yaw_sense_partial c y : - PI < y < PI ->
  forward (set_angles c y 0) = mkV (cos y) (- sin y) 0 /\ yaw (refresh (set_angles c y 0)) = - y.
Proof.
  intros Hy. assert (F : forward (set_angles c y 0) = mkV (cos y) (- sin y) 0).
  { rewrite C93_set_angles_partial. rewrite cos_0, sin_0. apply V3_eq; cbn; ring. }
  split; [exact F|]. unfold refresh; cbn [yaw]. rewrite F. cbn [vx vy].
  rewrite <- (cos_neg y), <- sin_neg. replace (cos (- y)) with (1 * cos (- y)) by ring. replace (sin (- y)) with (1 * sin (- y)) by ring.
  apply atan2_polar; lra.
Qed.
Theorem C93_yaw_sense_refuted : exists c y, cam_reachable c /\ - PI < y < PI /\
  yaw (apply_orbit_angles (set_angles c y 0) 0 0) <> y /\
  vy (forward (set_angles c y 0)) <> sin y.
Proof.
  exists cam_default, (PI / 2). pose proof PI_RGT_0 as P. split; [constructor|]. split; [lra|].
  assert (Hr : cam_reachable (set_angles cam_default (PI / 2) 0)) by (apply reach_step with cam_default; constructor).
  destruct (C93_yaw_sense_partial cam_default (PI / 2)) as [F _]; [lra|].
  split; [|rewrite F, sin_PI2; cbn; lra].
  destruct (C93_telemetry _ 0 0 Hr _ (or_introl eq_refl)) as (T & B1 & B2 & _).
  destruct (C93_yaw_partial _ 0 Hr) as (Y & _). rewrite Y in T. clear Y. rewrite F, cos_0, sin_0 in T.
  generalize dependent (apply_orbit_angles (set_angles cam_default (PI / 2) 0) 0 0). intros c' T B1 B2 E. rewrite E, sin_PI2, cos_PI2 in T.
  apply (f_equal vy) in T. cbn [vy Vadd Vscale] in T.
  assert (0 <= cos (pitch c')) by (apply cos_ge_0; lra). lra.
Qed.
(** with the heading at a quarter turn, no pitch raises or lowers the view at all *)
Theorem C93_set_angles_refuted : exists c y, cam_reachable c /\ - PI < y < PI /\
  (forall p, forward (set_angles c y p) = forward (set_angles c y 0)) /\
  (exists p, 0 < p < PI / 2 /\ vz (forward (set_angles c y p)) <> sin p).
Proof.
  exists cam_default, (PI / 2). pose proof PI_RGT_0 as P. split; [constructor|]. split; [lra|]. split.
  - intros p. rewrite !C93_set_angles_partial, sin_PI2, cos_PI2. apply V3_eq; cbn; ring.
  - exists (PI / 6). split; [lra|]. rewrite C93_set_angles_partial, cos_PI2, sin_PI6. cbn. lra.
Qed.
(** yaw is not about the world's up: from a view raised by 30 degrees, a half turn points 30 degrees down *)
Theorem C93_yaw_refuted : exists c, cam_reachable c /\ vz (forward c) = 1 / 2 /\ vz (forward (apply_orbit_angles c PI 0)) = - (1 / 2).
Proof.
  exists (set_angles cam_default 0 (PI / 6)).
  assert (Hr : cam_reachable (set_angles cam_default 0 (PI / 6))) by (apply reach_step with cam_default; constructor).
  assert (F : vz (forward (set_angles cam_default 0 (PI / 6))) = 1 / 2) by (rewrite C93_set_angles_partial, cos_0, sin_PI6; cbn; ring).
  split; [exact Hr|]. split; [exact F|].
  destruct (C93_yaw_partial _ PI Hr) as (-> & _). cbn [vz Vadd Vscale]. rewrite F, cos_PI, sin_PI. ring.
Qed.

(** the first argument of apply_orbit_world_angles, the vertical drag, never moves the view *)
Theorem C93_world_x_partial c a b : cam_reachable c ->
  forward (apply_orbit_world_angles c a b) = forward (apply_orbit_world_angles c 0 b) /\
  position (apply_orbit_world_angles c a b) = position (apply_orbit_world_angles c 0 b) /\
  forward (apply_orbit_world_angles c a b) = Vadd (Vscale (cos b) (forward c)) (Vscale (sin b) (own c world_up)).
Proof.
  intros Hc. pose proof (reachable_unit c Hc) as U.
  assert (G : forall a, forward (apply_orbit_world_angles c a b) = Vadd (Vscale (cos b) (forward c)) (Vscale (sin b) (own c world_up))).
  { clear a. intros a. rewrite (forward_own _ (world_unit c a b U)), (forward_own _ U).
    unfold own. unfold apply_orbit_world_angles, refresh, set_orientation. cbn [orientation].
    pose proof (axis_angle_unit _ a x_nz) as U1. pose proof (axis_angle_unit _ b y_nz) as U2.
    rewrite (mul_unit_n _ _ U1 U2), mul_unit_n by auto using mul_unit. rewrite !dcm_of_quat_mul, !App_Mul.
    rewrite (dcm_axis (mkV 1 0 0)) by (unfold Dot; cbn; ring).
    assert (L : forall m a b u v, App m (Vadd (Vscale a u) (Vscale b v)) = Vadd (Vscale a (App m u)) (Vscale b (App m v)))
      by (intros; apply V3_eq; cbn; ring).
    rewrite <- L. f_equal. rewrite (dcm_axis (mkV 0 1 0)) by (unfold Dot; cbn; ring).
    apply V3_eq; unfold Dot; cbn; ring. }
  rewrite !G. split; [reflexivity|]. split; [|reflexivity]. unfold position. rewrite !G. reflexivity.
Qed.
(** a horizontal drag of dx pixels turns the view by dx times the sensitivity, whatever the vertical drag in the world-axis control.
    Missing for the full claim: see the refutations of the axes above. *)
Theorem C93_drag_partial c dx dy : cam_reachable c -> let t := dx * orbit_sens c in
  forward (apply_orbit_pixels c dx 0) = Vadd (Vscale (cos t) (forward c)) (Vscale (sin t) (own c (mkV 0 1 0))) /\
  own (apply_orbit_pixels c dx 0) world_up = own c world_up /\
  forward (apply_orbit_world_pixels c dx dy) = Vadd (Vscale (cos t) (forward c)) (Vscale (- sin t) (own c world_up)).
Proof.
  intros Hc t. unfold apply_orbit_pixels, apply_orbit_world_pixels. replace (- 0 * orbit_sens c) with 0 by ring. replace (- dx * orbit_sens c) with (- t) by (unfold t; ring).
  destruct (C93_yaw_partial c (- t) Hc) as (E1 & E2 & _). destruct (C93_world_x_partial c (- dy * orbit_sens c) (- t) Hc) as (_ & _ & E3).
  rewrite cos_neg, sin_neg in E1, E3. rewrite Ropp_involutive in E1. split; [exact E1|]. split; [exact E2|exact E3].
Qed.
(** looking along -y, a quarter turn about world x should look straight up or down *)
Theorem C93_world_x_refuted : exists c, cam_reachable c /\ forward c = mkV 0 (-1) 0 /\
  forward (apply_orbit_world_angles c (PI / 2) 0) = mkV 0 (-1) 0.
Proof.
  exists (set_angles cam_default (PI / 2) 0).
  assert (Hr : cam_reachable (set_angles cam_default (PI / 2) 0)) by (apply reach_step with cam_default; constructor).
  assert (F : forward (set_angles cam_default (PI / 2) 0) = mkV 0 (-1) 0).
  { rewrite C93_set_angles_partial, cos_PI2, sin_PI2, cos_0, sin_0. apply V3_eq; cbn; ring. }
  split; [exact Hr|]. split; [exact F|]. destruct (C93_world_x_partial _ (PI / 2) 0 Hr) as (_ & _ & ->).
  rewrite F, cos_0, sin_0. generalize (own (set_angles cam_default (PI / 2) 0) world_up). intros w. apply V3_eq; cbn; ring.
Qed.
Example C93_nontrivial : cam_reachable (apply_orbit_world_pixels (set_angles cam_default 1 (1/2)) 30 (-12)) /\ - PI < PI / 2 < PI.
Proof.
  pose proof PI_RGT_0. split; [|lra]. apply reach_step with (set_angles cam_default 1 (1/2)); [|apply step_world_pixels]. apply reach_step with cam_default; constructor.
Qed.
