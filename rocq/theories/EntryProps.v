(** Entry points that forward to functions proved elsewhere: the planet models, the mission clock in UTC and GPS,
    rotations from matrices and quaternions, cameras, default settings (C07, C40, C43, C50, C51, C54, C57, C68, C69, C89). *)
From Coq Require Import ZArith QArith Qreals Reals Lra Lia List Bool Arith.
From Verif Require Import Scalar.
From Verif Require Machine TimeModel TimeSpec TimeProofs TimeProps AtmModel AtmSpec UssaProps Geo3 AttModel AttProofs AttProps CamModel CamProps
  OptModel OptSpec OptProps MlModel MlSpec MlProps SolidModel SolidSpec SolidProofs SolidProps Wgs84Model Wgs84Spec Wgs84Proofs GravProps.
Import ListNotations.
Local Open Scope R_scope.

(** * Earth as a planet *)
Section Earth.
Import AtmModel AtmSpec UssaProps.
(** below 1000 km the planet's methods answer with the same positive, consistent state of the air *)
Theorem C57_earth_partial : forall h, h < 1000000 ->
  physical (8314.32 / 28.9644) (earth_get_temperature h) (earth_get_pressure h) (earth_get_density h) /\
  exists T, earth_get_temperature h = Val T /\ earth_get_speed_of_sound h = Val (1.4 * (8314.32 / 28.9644) * T).
Proof.
  intros h Hh. destruct (C57_ussa_partial h Hh) as (T & P & D & ET & EP & ED & H).
  unfold earth_get_temperature, earth_get_pressure, earth_get_density, earth_get_speed_of_sound, ussa_speed_of_sound. rewrite ET, EP, ED. cbn [unwrap obind]. split.
  - exists T, P, D. repeat (split; [reflexivity|]). exact H.
  - exists T. split; [reflexivity|]. f_equal. unfold ussa_R_Star, ussa_air_molar_mass. lra.
Qed.
(** from there on every one of them panics *)
Theorem C57_earth_refuted : forall h, 1000000 <= h ->
  earth_get_temperature h = Panics /\ earth_get_pressure h = Panics /\ earth_get_density h = Panics /\ earth_get_speed_of_sound h = Panics.
Proof.
  intros h Hh. destruct (proj1 C57_ussa_refuted h Hh) as (_ & B & C & D & E & F).
  unfold earth_get_pressure, earth_get_density, earth_get_speed_of_sound. rewrite B, C, D. auto.
Qed.
End Earth.

(** * The mission clock *)
Section Clock.
Import Machine TimeModel TimeSpec TimeProofs TimeProps.
Local Open Scope Z_scope.
(** read in TAI, UTC or GPS it is the same instant: start plus the elapsed time *)
Theorem C07_clock_scales : forall l (start : time TAI) ticks0 now tps,
  in_u64 ticks0 -> in_u64 now -> 1 < tps < 2 ^ 64 ->
  exists d a b c, length_ns d = ((now - ticks0) mod 2 ^ 64) * 1000000000 / tps /\
    now_tai start ticks0 tps now = Some a /\ a = time_add start d /\
    now_utc l start ticks0 tps now = Some b /\ now_gps l start ticks0 tps now = Some c /\
    utc_to_tai l b = a /\ gps_to_tai l c = a.
Proof.
  intros l start t0 now tps H0 H1 H2. destruct (C07_elapsed_exact t0 now tps H0 H1 H2) as (d & _ & W & L & _ & E).
  specialize (E start). exists d, (time_add start d), (tai_to_utc l (time_add start d)), (tai_to_gps l (time_add start d)).
  unfold now_utc, now_gps. rewrite E. cbn [bind].
  assert (I : in_i64 (sec (time_add start d))).
  { unfold time_add. destruct (G <=? _); [apply w64_range|]. destruct (_ <? 0); apply w64_range. }
  destruct (C04_round_trips l) as (_ & _ & _ & A & _ & _ & _ & B).
  repeat (split; [first [exact L|reflexivity|exact (A _ I)]|]). exact (B _ I).
Qed.
Example C07_clock_nontrivial : now_utc 27 (mkTime 1000 0) (2 ^ 64 - 1) 10 4 = Some (mkTime 963 500000000).
Proof. vm_compute. reflexivity. Qed.
End Clock.

(** * Rotations *)
Section Attitude.
Import Geo3 AttModel AttProofs AttProps.
(** a rotation made from a rotation matrix is a unit quaternion of that rotation; one made from any nonzero quaternion is
    a unit quaternion of the same direction, so scaling the input by a positive factor changes nothing *)
Theorem C40_rotation_from :
  (forall m, rotation m -> exists q, rot_of_dcm m = Some q /\ unit_quat q /\ dcm_of_quat q = m) /\
  (forall q, nonzero_quat q -> unit_quat (rot_of_quat q) /\ exists k, 0 < k /\ q = q_scale (rot_of_quat q) k) /\
  (forall q c, nonzero_quat q -> 0 < c -> rot_of_quat (q_scale q c) = rot_of_quat q).
Proof.
  split; [exact C40_try_from_total|]. split.
  - intros q H. split; [exact (normalized_unit q H)|]. exists (q_norm q). pose proof (q_norm_pos q H) as P. split; [exact P|].
    unfold rot_of_quat, q_normalized. apply quat_eq; cbn [qw qi qj qk q_scale]; field; lra.
  - intros q c H Hc. exact (normalized_scale q c Hc H).
Qed.
(** the Moon's two rotations undo each other at every time *)
Theorem C43_moon_methods : forall rate t,
  dcm_mul (moon_ltrf_to_lirf rate t) (moon_lirf_to_ltrf rate t) = Id3 /\ dcm_mul (moon_lirf_to_ltrf rate t) (moon_ltrf_to_lirf rate t) = Id3 /\
  rotation (moon_lirf_to_ltrf rate t) /\ moon_ltrf_to_lirf rate t = dcm_transpose (moon_lirf_to_ltrf rate t).
Proof.
  intros rate t. unfold moon_ltrf_to_lirf, moon_lirf_to_ltrf. destruct (C43_moon rate t 0) as (A & B & _).
  split; [exact A|]. split; [exact B|]. split; [apply lirf_rot|]. rewrite dcm_transpose_eq. apply ltrf_tr.
Qed.
End Attitude.

(** * Cameras *)
Section Camera.
Import Geo3 CamModel CamProps.
(** the pair of matrices made together: the eye goes to the origin, and the point looked at is inside the clip cube
    exactly when its distance lies between the two planes (points taken as rows for the projection, see C68) *)
Theorem C68_look_at_perspective_partial : forall eye center up aspect fov near far,
  view_ok eye center up -> 0 < aspect -> 0 < fov < PI -> 0 < near -> near < far ->
  let view := fst (look_at_perspective eye center up aspect fov near far) in
  let proj := snd (look_at_perspective eye center up aspect fov near far) in
  let d := Norm (Vsub center eye) in
  let c := row_xyz proj (col_xyz view center) in let w := row_w proj (col_xyz view center) in
  col_xyz view eye = V0 /\ w = d /\ vx c = 0 /\ vy c = 0 /\ (- w <= vz c <= w <-> near <= d <= far).
Proof.
  intros eye center up aspect fov near far V Ha Hf Hn Hnf view proj d c w.
  destruct (C68_look_at_rigid eye center up V) as (_ & _ & E & C & _). cbv zeta in E, C. fold d in C.
  assert (Hd : 0 < d).
  { unfold d. destruct (view_frame _ _ _ V) as (_ & _ & _ & Hk). exact Hk. }
  split; [exact E|]. unfold c, w, view, proj. cbn [fst snd look_at_perspective]. rewrite C.
  destruct (C68_perspective_partial aspect fov near far (mkV 0 0 (- d)) Ha Hf Hn Hnf) as (P1 & P2 & P3 & P4 & P5 & _); [cbn [vz]; lra|].
  cbn [vx vy vz] in *. rewrite Ropp_involutive in *.
  assert (Ht : 0 < tan (fov / 2)) by (apply tan_gt_0; lra).
  split; [exact P1|]. split; [|split].
  - unfold row_xyz, col_xyz, perspective, rows4, row4; cbn. ring.
  - unfold row_xyz, col_xyz, perspective, rows4, row4; cbn. ring.
  - rewrite <- P2, <- P3. tauto.
Qed.
End Camera.

(** * Settings of the optimisers *)
Section Optimiser.
Import OptModel OptSpec OptProps.
Local Open Scope R_scope.
(** whatever is asked for, the momentum stays in [0, 1) and nothing else changes *)
Theorem C51_momentum_setter : forall c mu,
  0 <= gd_momentum (set_momentum Rops mu c) < 1 /\
  (0 <= mu <= 999999 / 1000000 -> gd_momentum (set_momentum Rops mu c) = mu) /\
  gd_lr (set_momentum Rops mu c) = gd_lr c /\ gd_max_iters (set_momentum Rops mu c) = gd_max_iters c /\
  gd_backtracking (set_momentum Rops mu c) = gd_backtracking c /\ gd_tau (set_momentum Rops mu c) = gd_tau c /\ gd_c1 (set_momentum Rops mu c) = gd_c1 c.
Proof.
  intros c mu. cbn [set_momentum gd_momentum gd_lr gd_max_iters gd_backtracking gd_tau gd_c1 ltb zero lit Rops].
  replace (Q2R (999999 # 1000000)) with (999999 / 1000000) by (unfold Q2R; cbn; lra).
  split; [|split; [|auto]].
  - destruct (Rltb mu 0) eqn:A; [lra|]. rewrite Rltb_niff in A. destruct (Rltb _ mu) eqn:B; [lra|]. rewrite Rltb_niff in B. lra.
  - intros H. destruct (Rltb mu 0) eqn:A; [unfold Rltb in A; destruct (Rlt_dec mu 0); [lra|discriminate]|].
    destruct (Rltb _ mu) eqn:B; [unfold Rltb in B; destruct (Rlt_dec _ mu); [lra|discriminate]|reflexivity].
Qed.
(** after clearing, the box that was set no longer matters: the run is that of an optimiser without one, and a step goes
    where the arithmetic takes it *)
Theorem C50_clear_bounds : forall F (o : ops F) n lo hi c f g fuel x0,
  minimize o n (clear_bounds (set_bounds lo hi c)) f g fuel x0 = minimize o n (clear_bounds c) f g fuel x0 /\
  forall x, gd_project o n (clear_bounds (set_bounds lo hi c)) x = x.
Proof.
  intros F o n lo hi c f g fuel x0. split; [|reflexivity].
  assert (L : forall x fx d sl k st, line_search o n (clear_bounds (set_bounds lo hi c)) f x fx d sl k st = line_search o n (clear_bounds c) f x fx d sl k st).
  { intros x fx d sl. induction k as [|k IH]; intros st; [reflexivity|]. cbn [line_search]. rewrite IH. reflexivity. }
  assert (B : forall s, gd_body o n (clear_bounds (set_bounds lo hi c)) f g fuel s = gd_body o n (clear_bounds c) f g fuel s).
  { intros s. unfold gd_body. change (gd_tol_grad (clear_bounds (set_bounds lo hi c))) with (gd_tol_grad (clear_bounds c)).
    change (gd_backtracking (clear_bounds (set_bounds lo hi c))) with (gd_backtracking (clear_bounds c)).
    destruct (leb o _ _); [reflexivity|]. destruct (gd_backtracking (clear_bounds c)); [|reflexivity].
    destruct (descent_pair o n (clear_bounds c) (g (st_x s)) (st_v s)) as [d sl] eqn:E.
    assert (E1 : descent_pair o n (clear_bounds (set_bounds lo hi c)) (g (st_x s)) (st_v s) = (d, sl)) by exact E.
    rewrite E1, L. reflexivity. }
  unfold minimize. change (gd_max_iters (clear_bounds (set_bounds lo hi c))) with (gd_max_iters (clear_bounds c)).
  assert (O : forall m k s, opt_loop (fun _ => gd_body o n (clear_bounds (set_bounds lo hi c)) f g fuel) m k s = opt_loop (fun _ => gd_body o n (clear_bounds c) f g fuel) m k s).
  { induction m as [|m IH]; intros k s; [reflexivity|]. cbn [opt_loop]. rewrite B. destruct (gd_body _ _ _ _ _ _ _) as [[s' v]|]; [|reflexivity]. destruct v; auto. }
  rewrite O. reflexivity.
Qed.
(** without line search the next point is one step of the learning rate along the direction *)
Theorem C51_no_line_search : forall F (o : ops F) n c f g fuel s,
  let c := clear_bounds (set_backtracking false c) in
  leb o (norm2 o n (g (st_x s))) (gd_tol_grad c) = false ->
  exists s' v, gd_body o n c f g fuel s = Some (s', v) /\ st_f s' = f (st_x s') /\
    forall i, (i < n)%nat -> st_x s' i = add o (st_x s i) (mul o (gd_lr c) (add o (neg o (g (st_x s) i)) (mul o (gd_momentum c) (st_v s i)))).
Proof.
  intros F o n c f g fuel s c' H. unfold gd_body. rewrite H. cbn [c' clear_bounds set_backtracking gd_backtracking].
  eexists. eexists. split; [reflexivity|]. cbn [st_x st_f]. split; [reflexivity|]. intros i Hi.
  unfold gd_project. change (gd_has_bounds c') with false. unfold project. rewrite LinProofs.vfill_in by exact Hi. unfold direction. rewrite LinProofs.vfill_in by exact Hi. reflexivity.
Qed.
(** the stochastic optimisers started from their defaults with a box keep to it *)
Theorem C50_defaults_real : forall n powi lo hi f sample threads seed sched x0 x fx k ok,
  (forall i, (i < n)%nat -> lo i <= hi i) ->
  psgd_minimize Rops n powi (sgd_set_bounds lo hi (psgd_new Rops 0 0)) f sample threads seed sched x0 = Some (x, fx, k, ok) ->
  (forall i, (i < n)%nat -> lo i <= x0 i <= hi i) \/ (1 <= k)%nat ->
  forall i, (i < n)%nat -> lo i <= x i <= hi i.
Proof.
  intros n powi lo hi f sample threads seed sched x0 x fx k ok Hv H Hs i Hi.
  assert (V : valid_box Rops n lo hi).
  { intros j Hj. specialize (Hv j Hj). cbn [Rops ltb]. rewrite !Rltb_niff. lra. }
  pose proof (C50_bounds_parallel R Rops n powi (sgd_set_bounds lo hi (psgd_new Rops 0 0)) f sample threads seed sched x0 x fx k ok eq_refl V H) as B.
  cbn [sgd_set_bounds sg_min sg_max] in B. destruct B with (i := i) as (B1 & B2); auto.
  - destruct Hs as [Hs|Hs]; [left|right; exact Hs]. intros j Hj. cbn [Rops ltb]. rewrite !Rltb_niff. destruct (Hs j Hj). split; auto.
  - cbn [Rops ltb] in B1, B2. rewrite Rltb_niff in B1, B2. split; auto.
Qed.
End Optimiser.

(** * A fresh perceptron *)
Section Perceptron.
Import MlModel MlSpec MlProps.
Local Open Scope R_scope.
(** before training every point is put in the positive class; trained on separable data it makes no mistake *)
Theorem C54_fresh : forall n x, perceptron_predict n perceptron_new x = 1%Z.
Proof.
  intros n x. unfold perceptron_predict. rewrite MlProofs.score_affine. unfold MlSpec.affine. cbn [p_w p_b perceptron_new].
  rewrite RSum.sum_0 by (intros; ring). unfold Rleb. destruct (Rle_dec 0 (0 + 0)); [reflexivity|lra].
Qed.
Theorem C54_fresh_trains : forall n xs ys ws bs gamma rad, 0 < gamma ->
  separates n ws bs gamma (combine xs ys) ->
  (forall x l, In (x, l) (combine xs ys) -> RSum.sum n (fun i => x i * x i) + 1 <= rad * rad) ->
  exists k, INR k <= rad ^ 2 / gamma ^ 2 /\
    forall x l, In (x, l) (combine xs ys) -> perceptron_predict n (after_epochs n xs ys k perceptron_new) x = class_of l.
Proof.
  intros n xs ys ws bs gamma rad Hg Hs Hr. destruct (C54_training_converges n 1 xs ys ws bs gamma rad Rlt_0_1 Hg Hs Hr) as (k & A & _ & B).
  exists k. split; [exact A|exact B].
Qed.
End Perceptron.

(** * Solids where they are built *)
Section Solids.
Import Geo3 SolidModel SolidSpec SolidProofs SolidProps.
Local Open Scope R_scope.
(** a mass model made without a pose is the solid at the origin, unturned *)
Lemma identity_pose : forall s rho, pose_identity (solid_of s) rho = mm_of (mkB s rho Id3 V0).
Proof. reflexivity. Qed.
Theorem C69_identity_sum : forall s t ra rb p,
  mm_add (pose_identity (solid_of s) ra) (pose_identity (solid_of t) rb) = Some p ->
  mp_com p = V0 /\ forall n, moment (mp_inertia p) n = ra * shape_int s (dist2 n V0) + rb * shape_int t (dist2 n V0).
Proof.
  intros s t ra rb p H. rewrite !identity_pose in H.
  destruct (C69_add _ _ _ (rotation_Id : rotation (b_A (mkB s ra Id3 V0))) (rotation_Id : rotation (b_A (mkB t rb Id3 V0))) H) as (_ & _ & _ & C & I & _ & _ & M).
  assert (Z : mp_com p = V0).
  { assert (K : forall n, Dot n (mp_com p) = 0).
    { intros n. specialize (C n). rewrite !mass_int_lin in C. cbn [b_r b_rho b_shape] in C.
      replace (Dot n V0) with 0 in C by (unfold Dot, V0; cbn; ring). apply Rmult_eq_reg_l with (mp_mass p); [|lra]. lra. }
    pose proof (K (mkV 1 0 0)) as X. pose proof (K (mkV 0 1 0)) as Y. pose proof (K (mkV 0 0 1)) as W.
    unfold Dot in X, Y, W. cbn [vx vy vz] in X, Y, W. apply V3_eq; cbn [V0 vx vy vz]; lra. }
  split; [exact Z|]. intros n. rewrite I, Z. unfold mass_int. cbn [b_rho b_shape b_A b_r].
  assert (P : forall v, place Id3 V0 v = v) by (intros v; apply V3_eq; cbn; ring).
  f_equal; f_equal; apply shape_ext; intros v; rewrite P; reflexivity.
Qed.
Example C69_identity_nontrivial : exists p, mm_add (pose_identity (solid_of (Box 2 2 2)) 1) (pose_identity (solid_of (Box 1 1 1)) 3) = Some p.
Proof.
  destruct (mm_add (pose_identity (solid_of (Box 2 2 2)) 1) (pose_identity (solid_of (Box 1 1 1)) 3)) as [p|] eqn:E; [eauto|].
  exfalso. revert E. rewrite !identity_pose. apply C69_some. cbn. lra.
Qed.
End Solids.

(** * Weight *)
Section Weight.
Import Geo3 Wgs84Model Wgs84Spec Wgs84Proofs GravProps.
Local Open Scope R_scope.
(** the force on a mass is the mass times the gravity vector; it turns with the body about the polar axis *)
Theorem C89_force : forall p m,
  solve_gravitational_force p m = Vscale m (gravity_rectangular (vx p) (vy p) (vz p)) /\
  forall t, vx p <> 0 \/ vy p <> 0 -> solve_gravitational_force (turn t p) m = turn t (solve_gravitational_force p m).
Proof.
  assert (E : forall p m, solve_gravitational_force p m = Vscale m (gravity_rectangular (vx p) (vy p) (vz p))).
  { intros p m. unfold solve_gravitational_force. apply scale3. }
  intros p m. split; [apply E|]. intros t H. rewrite !E. rewrite (C89_axisymmetric t p H).
  unfold turn. apply V3_eq; cbn; ring.
Qed.
(** a kilogram on the equator weighs at least a hundredth of a newton too much *)
Theorem C89_force_refuted : vx (solve_gravitational_force (mkV w84_a 0 0) 1) < - (w84_g_e + 0.01).
Proof.
  rewrite (proj1 (C89_force _ _)). destruct C89_equator_refuted as (_ & _ & H). cbn [vx vy vz Vscale]. lra.
Qed.
End Weight.
