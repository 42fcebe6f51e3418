(** Star catalogue: C66 and C67. *)
From Coq Require Import Reals Lra Psatz List Bool.
From Coquelicot Require Import Coquelicot.
From Verif Require Import Scalar Trig Geo3 StarModel.
Local Open Scope R_scope.

(** Specification: the direction at right ascension a and declination d, and the unit vectors of
    increasing a and d there. *)
Definition direction (a d : R) : V3 := mkV (cos d * cos a) (cos d * sin a) (sin d).
Definition toward_ra (a : R) : V3 := mkV (- sin a) (cos a) 0.
Definition toward_de (a d : R) : V3 := mkV (- sin d * cos a) (- sin d * sin a) (cos d).
(** milliarcseconds per year as radians per year *)
Definition mas (x : R) : R := x / 3600000 * (PI / 180).

Lemma direction_unit a d : Dot (direction a d) (direction a d) = 1.
Proof.
  unfold Dot, direction; cbn. pose proof (sincos2 a). pose proof (sincos2 d).
  replace (cos d * cos a * (cos d * cos a) + cos d * sin a * (cos d * sin a) + sin d * sin d)
    with (cos d * cos d * (sin a * sin a + cos a * cos a) + sin d * sin d) by ring. rewrite H. lra.
Qed.

(** the position is the direction, moved linearly from the 2016 direction by the proper motion, times
    the parallax distance (1 AU when the parallax is missing or not positive) *)
Theorem C66_position s t :
  let a := rad (s_ra s) + mas (or0 (s_pmra s)) * (t - 2016) in
  let d := rad (s_de s) + mas (or0 (s_pmde s)) * (t - 2016) in
  let x := sm_position (icrs_sample s t) in
  x = Vscale (distance_au s) (direction a d) /\ Norm x = distance_au s /\ 0 < distance_au s /\
  (forall p, s_plx s = Some p -> 0 < p -> distance_au s * p = 206264806) /\
  ((s_plx s = None \/ exists p, s_plx s = Some p /\ p <= 0) -> distance_au s = 1).
Proof.
  intros a d x.
  assert (Ea : ra_at s t = a) by (unfold ra_at, a, mas, rad; field).
  assert (Ed : de_at s t = d) by (unfold de_at, d, mas, rad; field).
  assert (Ex : x = Vscale (distance_au s) (direction a d)).
  { unfold x, icrs_sample. destruct (propagated_uncertainty _ _ _ _ _ _). cbn [sm_position]. rewrite Ea, Ed.
    apply V3_eq; cbn; ring. }
  assert (Pd : 0 < distance_au s).
  { unfold distance_au. destruct (s_plx s) as [p|]; [|lra]. destruct (Rltb 0 p) eqn:L; [|lra]. apply Rltb_true in L.
    apply Rmult_lt_0_compat; [|lra]. apply Rmult_lt_0_compat; [lra|]. apply Rinv_0_lt_compat. lra. }
  split; [exact Ex|]. split; [|split; [exact Pd|split]].
  - rewrite Ex. unfold Norm. replace (Dot (Vscale (distance_au s) (direction a d)) (Vscale (distance_au s) (direction a d)))
      with (distance_au s * distance_au s * Dot (direction a d) (direction a d)) by (unfold Dot; cbn; ring).
    rewrite direction_unit, Rmult_1_r. apply sqrt_square. lra.
  - intros p Ep Hp. unfold distance_au. rewrite Ep, (proj2 (Rltb_true _ _) Hp). field. lra.
  - unfold distance_au. intros [->|(p & -> & Hp)]; auto. destruct (Rltb 0 p) eqn:L; auto. apply Rltb_true in L. lra.
Qed.

(** the reported velocity is tangential *)
Theorem C66_tangential s t : Dot (sm_velocity (icrs_sample s t)) (sm_position (icrs_sample s t)) = 0.
Proof.
  unfold icrs_sample. destruct (propagated_uncertainty _ _ _ _ _ _). cbn [sm_position sm_velocity].
  destruct (s_plx s) as [plx|], (s_pmra s) as [mr|], (s_pmde s) as [md|]; try (unfold Dot, V0; cbn; ring).
  destruct (Rltb 0 plx); [|unfold Dot, V0; cbn; ring].
  unfold Dot. cbn [vx vy vz]. set (a := ra_at s t). set (d := de_at s t). pose proof (sincos2 a) as Q.
  replace (_ + _) with (474047 / 100000 / plx * md * distance_au s * (sin d * cos d) * (1 - (sin a * sin a + cos a * cos a))) by ring.
  rewrite Q. ring.
Qed.

(** Missing for the full claim: the reported velocity is the time derivative of the position.  What
    holds: for a star with all three data, the derivative and the reported velocity are both
    combinations of the two tangent directions; the reported declination part is 4.74047 times, and the
    reported right-ascension part 4.74047 / cos(declination) times the true one (up to the rounding of
    206264.806). *)
Theorem C66_velocity_partial s t p mr md : s_plx s = Some p -> 0 < p -> s_pmra s = Some mr -> s_pmde s = Some md ->
  let a := ra_at s t in let d := de_at s t in
  let k := 206264806 * PI / (3600000 * 180) in
  exists v, is_derive (fun u => vx (sm_position (icrs_sample s u))) t (vx v) /\
    is_derive (fun u => vy (sm_position (icrs_sample s u))) t (vy v) /\
    is_derive (fun u => vz (sm_position (icrs_sample s u))) t (vz v) /\
    v = Vscale (k / p) (Vadd (Vscale (mr * cos d) (toward_ra a)) (Vscale md (toward_de a d))) /\
    sm_velocity (icrs_sample s t) = Vscale (474047 / 100000 / p) (Vadd (Vscale mr (toward_ra a)) (Vscale md (toward_de a d))).
Proof.
  intros Ep Hp Er Ed a d k.
  exists (Vscale (k / p) (Vadd (Vscale (mr * cos d) (toward_ra a)) (Vscale md (toward_de a d)))).
  assert (Pos : forall u, sm_position (icrs_sample s u) = Vscale (206264806 / p) (direction (ra_at s u) (de_at s u))).
  { intros u. destruct (C66_position s u) as (_ & _ & _ & D & _). specialize (D p Ep Hp).
    unfold icrs_sample. destruct (propagated_uncertainty _ _ _ _ _ _). cbn [sm_position].
    replace (206264806 / p) with (distance_au s) by (rewrite <- D; field; lra).
    apply V3_eq; cbn; ring. }
  assert (Da : is_derive (ra_at s) t (mas mr)).
  { unfold ra_at, mas, rad. rewrite Er. cbn [or0]. auto_derive; auto. field. }
  assert (Dd : is_derive (de_at s) t (mas md)).
  { unfold de_at, mas, rad. rewrite Ed. cbn [or0]. auto_derive; auto. field. }
  assert (Ga : Derive (fun u => ra_at s u) t = mas mr) by (apply is_derive_unique; exact Da).
  assert (Gd : Derive (fun u => de_at s u) t = mas md) by (apply is_derive_unique; exact Dd).
  assert (Xa : ex_derive (fun u => ra_at s u) t) by (eexists; exact Da).
  assert (Xd : ex_derive (fun u => de_at s u) t) by (eexists; exact Dd).
  split; [|split; [|split; [|split]]].
  - apply (is_derive_ext (fun u => 206264806 / p * (cos (de_at s u) * cos (ra_at s u)))); [intros; rewrite Pos; reflexivity|].
    auto_derive; [repeat split; auto|]. rewrite Ga, Gd. unfold k, mas. cbn. fold a d. field. lra.
  - apply (is_derive_ext (fun u => 206264806 / p * (cos (de_at s u) * sin (ra_at s u)))); [intros; rewrite Pos; reflexivity|].
    auto_derive; [repeat split; auto|]. rewrite Ga, Gd. unfold k, mas. cbn. fold a d. field. lra.
  - apply (is_derive_ext (fun u => 206264806 / p * sin (de_at s u))); [intros; rewrite Pos; reflexivity|].
    auto_derive; [repeat split; auto|]. rewrite Gd. unfold k, mas. cbn. fold a d. field. lra.
  - reflexivity.
  - unfold icrs_sample. destruct (propagated_uncertainty _ _ _ _ _ _). cbn [sm_velocity]. rewrite Ep, Er, Ed.
    rewrite (proj2 (Rltb_true _ _) Hp). fold a d. apply V3_eq; cbn; ring.
Qed.

Definition barnard : star := mkStar 270 0 1 1 (Some 0) (Some 10393) (Some 1) (Some 1) (Some 547) false
  (Some 8) (Some 10) (Some 7) (Some 5) (Some 5) (Some 4).

(** a star moving in declination only: the reported AU per year is more than three times the derivative *)
Theorem C66_velocity_refuted : exists s t v,
  is_derive (fun u => vz (sm_position (icrs_sample s u))) t v /\ 0 < v /\ 3 * v < vz (sm_velocity (icrs_sample s t)).
Proof.
  assert (Hp : 0 < 547) by lra.
  destruct (C66_velocity_partial barnard 2016 547 0 10393 eq_refl Hp eq_refl eq_refl) as (v & _ & _ & Dz & Ev & Eu).
  exists barnard, 2016, (vz v). split; [exact Dz|]. rewrite Eu, Ev. cbn [vz Vscale Vadd toward_ra toward_de].
  assert (C : cos (de_at barnard 2016) = 1).
  { rewrite <- cos_0. f_equal. unfold de_at, rad. cbn. field. }
  rewrite C. pose proof PI_RGT_0. pose proof PI_4. split; lra.
Qed.

(** Gaia positions: the uncertainty is defined at every epoch, never below the catalogue value and
    equal to it at 2016 *)
Lemma fsqrt_ge e q : 0 <= e -> 0 <= q -> exists r, fsqrt (e ^ 2 + q) = Some r /\ e <= r.
Proof.
  intros He Hq. unfold fsqrt. assert (0 <= e ^ 2) by (apply pow_le; auto).
  destruct (Rltb (e ^ 2 + q) 0) eqn:L; [apply Rltb_true in L; lra|]. eexists. split; [reflexivity|].
  rewrite <- (sqrt_pow2 e) at 1 by auto. apply sqrt_le_1; lra.
Qed.
Lemma fsqrt_2016 e x : 0 <= e -> fsqrt (e ^ 2 + x ^ 2 * (2016 - 2016) ^ 2) = Some e.
Proof.
  intros He. replace (e ^ 2 + x ^ 2 * (2016 - 2016) ^ 2) with (e ^ 2) by ring. unfold fsqrt.
  destruct (Rltb (e ^ 2) 0) eqn:L; [apply Rltb_true in L; pose proof (pow2_ge_0 e); lra|].
  rewrite sqrt_pow2; auto.
Qed.
Theorem C66_uncertainty_gaia s t : s_gaia s = true -> 0 <= s_e_ra s -> 0 <= s_e_de s ->
  exists a d, sm_e_ra (icrs_sample s t) = Some a /\ sm_e_de (icrs_sample s t) = Some d /\ s_e_ra s <= a /\ s_e_de s <= d /\
    (t = 2016 -> a = s_e_ra s /\ d = s_e_de s).
Proof.
  intros G Ha Hd. unfold icrs_sample, propagated_uncertainty. rewrite G. cbn [sm_e_ra sm_e_de].
  assert (Q : forall x, 0 <= x ^ 2 * (t - 2016) ^ 2) by (intros x; rewrite <- Rpow_mult_distr; apply pow2_ge_0).
  destruct (fsqrt_ge (s_e_ra s) _ Ha (Q (or0 (s_e_pmra s)))) as (a & Ea & La).
  destruct (fsqrt_ge (s_e_de s) _ Hd (Q (or0 (s_e_pmde s)))) as (d & Ed & Ld).
  exists a, d. repeat split; auto.
  - subst t. rewrite fsqrt_2016 in Ea by auto. congruence.
  - subst t. rewrite fsqrt_2016 in Ed by auto. congruence.
Qed.

(** Other positions.  Missing for the full claim: epochs between 1966.5 and 2016 (see the
    refutation). *)
Theorem C66_uncertainty_other_partial s t : s_gaia s = false -> 0 <= s_e_ra s -> 0 <= s_e_de s ->
  (2016 <= t \/ t <= 19665 / 10) ->
  exists a d, sm_e_ra (icrs_sample s t) = Some a /\ sm_e_de (icrs_sample s t) = Some d /\ s_e_ra s <= a /\ s_e_de s <= d.
Proof.
  intros G Ha Hd Ht. unfold icrs_sample, propagated_uncertainty. rewrite G. cbn [sm_e_ra sm_e_de].
  assert (P : 0 <= (t - 199125 / 100) ^ 2 - (2016 - 199125 / 100) ^ 2).
  { replace ((t - 199125 / 100) ^ 2 - (2016 - 199125 / 100) ^ 2) with ((t - 2016) * (t - 19665 / 10)) by field.
    destruct Ht; [apply Rmult_le_pos; lra|]. replace ((t - 2016) * (t - 19665 / 10)) with ((2016 - t) * (19665 / 10 - t)) by ring. apply Rmult_le_pos; lra. }
  assert (Q : forall x, 0 <= x ^ 2 * ((t - 199125 / 100) ^ 2 - (2016 - 199125 / 100) ^ 2)) by (intros x; apply Rmult_le_pos; auto; apply pow2_ge_0).
  destruct (fsqrt_ge (s_e_ra s) _ Ha (Q (or0 (s_e_pmra s)))) as (a & Ea & La).
  destruct (fsqrt_ge (s_e_de s) _ Hd (Q (or0 (s_e_pmde s)))) as (d & Ed & Ld).
  exists a, d. auto.
Qed.

(** in 2000 the uncertainty of a Hipparcos star is not a number *)
Theorem C66_uncertainty_refuted : exists s t, s_e_ra s = 1 /\ s_e_de s = 1 /\ sm_e_ra (icrs_sample s t) = None.
Proof.
  exists barnard, 2000. split; [reflexivity|]. split; [reflexivity|].
  cbn [icrs_sample propagated_uncertainty sm_e_ra s_gaia barnard s_e_pmra or0 s_e_ra]. unfold fsqrt.
  match goal with |- (if Rltb ?x 0 then _ else _) = _ => assert (L : x < 0) by lra; rewrite (proj2 (Rltb_true _ _) L) end. reflexivity.
Qed.

Example C66_nontrivial : s_plx barnard = Some 547 /\ s_gaia barnard = false /\
  distance_au barnard * 547 = 206264806 /\ s_gaia (mkStar 0 0 1 1 None None None None None true None None None None None None) = true.
Proof. repeat split. destruct (C66_position barnard 2016) as (_ & _ & _ & H & _). apply (H 547 eq_refl). lra. Qed.

(** * C67 *)
Lemma clamp_range x lo hi : lo <= hi -> lo <= clamp x lo hi <= hi.
Proof.
  intros H. unfold clamp. destruct (Rltb_dec x lo) as [[-> L]|[-> L]]; [lra|].
  destruct (Rltb_dec hi x) as [[-> M]|[-> M]]; lra.
Qed.
Lemma clamp_mono x y lo hi : lo <= hi -> x <= y -> clamp x lo hi <= clamp y lo hi.
Proof.
  intros H L. unfold clamp.
  repeat match goal with |- context[Rltb ?a ?b] => destruct (Rltb_dec a b) as [[-> ?]|[-> ?]] end; lra.
Qed.
Lemma clamp_lip x y lo hi : lo <= hi -> x <= y -> clamp y lo hi - clamp x lo hi <= y - x.
Proof.
  intros H L. unfold clamp.
  repeat match goal with |- context[Rltb ?a ?b] => destruct (Rltb_dec a b) as [[-> ?]|[-> ?]] end; lra.
Qed.

Lemma Rleb_dec x y : {Rleb x y = true /\ x <= y} + {Rleb x y = false /\ y < x}.
Proof.
  destruct (Rle_lt_dec x y) as [L|L].
  - left. split; auto. apply Rleb_true; auto.
  - right. split; auto. destruct (Rleb x y) eqn:E; auto. apply Rleb_true in E. lra.
Qed.

(** one table segment *)
Lemma windows_bound l : forall x last, (forall p, In p l -> 3000 <= snd p <= 15000) -> 3000 <= last <= 15000 ->
  (forall x0 y0 l', l = (x0, y0) :: l' -> x0 <= x) ->
  (forall a x0 y0 x1 y1 b, l = a ++ (x0, y0) :: (x1, y1) :: b -> x0 < x1) ->
  3000 <= teff_windows x l last <= 15000.
Proof.
  induction l as [|[x0 y0] [|[x1 y1] l] IH]; intros x last Hb Hl Hx Hm; cbn [teff_windows]; auto.
  specialize (Hm nil x0 y0 x1 y1 l eq_refl) as H01. specialize (Hx x0 y0 _ eq_refl) as H0.
  destruct (Rleb_dec x x1) as [[-> L]|[-> L]].
  - assert (B0 := Hb (x0, y0) (or_introl eq_refl)). assert (B1 := Hb (x1, y1) (or_intror (or_introl eq_refl))). cbn in B0, B1.
    set (u := (x - x0) / (x1 - x0)). assert (U : 0 <= u <= 1).
    { unfold u. split; [apply Rmult_le_pos; [lra|apply Rlt_le, Rinv_0_lt_compat; lra]|].
      apply Rmult_le_reg_r with (x1 - x0); [lra|]. replace ((x - x0) / (x1 - x0) * (x1 - x0)) with (x - x0) by (field; lra). lra. }
    replace (y0 + u * (y1 - y0)) with ((1 - u) * y0 + u * y1) by ring. nra.
  - apply (IH x last).
    + intros p Hp. apply Hb. right. exact Hp.
    + exact Hl.
    + intros x0' y0' l' E. injection E as <- <- <-. lra.
    + intros a x0' y0' x1' y1' b E. apply (Hm ((x0, y0) :: a) x0' y0' x1' y1' b). rewrite E. reflexivity.
Qed.

Ltac knot_cases := repeat match goal with |- context[Rleb ?a ?b] => destruct (Rleb_dec a b) as [[-> ?]|[-> ?]] end.

Definition seg (x : R) : R := teff_windows x knots 3000.
Lemma teff_seg b : bp_rp_to_teff b = seg (clamp b (-2/10) 3).
Proof. reflexivity. Qed.

Lemma seg_drop x y : -2/10 <= x -> x <= y -> y <= 3 -> 0 <= seg x - seg y <= 25000 * (y - x).
Proof.
  intros H1 H2 H3. unfold seg, knots, teff_windows.
  repeat match goal with |- context[Rleb x ?b] => destruct (Rleb_dec x b) as [[-> ?]|[-> ?]] end;
  repeat match goal with |- context[Rleb y ?b] => destruct (Rleb_dec y b) as [[-> ?]|[-> ?]]; try lra end; lra.
Qed.

Theorem C67_teff_range b : 3000 <= bp_rp_to_teff b <= 15000.
Proof.
  rewrite teff_seg. pose proof (clamp_range b (-2/10) 3 ltac:(lra)) as C. set (x := clamp b (-2/10) 3) in *.
  pose proof (seg_drop (-2/10) x ltac:(lra) ltac:(lra) ltac:(lra)) as A.
  pose proof (seg_drop x 3 ltac:(lra) ltac:(lra) ltac:(lra)) as B.
  assert (E1 : seg (-2/10) = 15000) by (unfold seg, knots, teff_windows; knot_cases; lra).
  assert (E2 : seg 3 = 3000) by (unfold seg, knots, teff_windows; knot_cases; lra).
  lra.
Qed.

(** non-increasing, and continuous with slope at most 25000 K per magnitude *)
Theorem C67_teff_monotone b c : b <= c -> 0 <= bp_rp_to_teff b - bp_rp_to_teff c <= 25000 * (c - b).
Proof.
  intros H. rewrite !teff_seg.
  pose proof (clamp_range b (-2/10) 3 ltac:(lra)). pose proof (clamp_range c (-2/10) 3 ltac:(lra)).
  pose proof (clamp_mono b c (-2/10) 3 ltac:(lra) H). pose proof (clamp_lip b c (-2/10) 3 ltac:(lra) H).
  pose proof (seg_drop (clamp b (-2/10) 3) (clamp c (-2/10) 3) ltac:(lra) ltac:(lra) ltac:(lra)). lra.
Qed.
Theorem C67_teff_knots x y : In (x, y) knots -> bp_rp_to_teff x = y.
Proof.
  intros H. unfold knots in H. cbn [In] in H.
  repeat destruct H as [H|H]; try contradiction; injection H as <- <-; rewrite teff_seg;
    unfold clamp; repeat match goal with |- context[Rltb ?a ?b] => destruct (Rltb_dec a b) as [[-> ?]|[-> ?]]; try lra end;
    unfold seg, knots, teff_windows; knot_cases; try lra.
Qed.

Definition gamut (c : V3) : Prop := 0 <= vx c <= 1 /\ 0 <= vy c <= 1 /\ 0 <= vz c <= 1.

Lemma maxmin_range x : 0 <= Rmin (Rmax x 0) 255 / 255 <= 1.
Proof. unfold Rmin, Rmax. destruct (Rle_dec x 0); destruct (Rle_dec _ 255); lra. Qed.
Lemma maxmin_mono x y : x <= y -> Rmin (Rmax x 0) 255 / 255 <= Rmin (Rmax y 0) 255 / 255.
Proof.
  intros H. unfold Rmin, Rmax. destruct (Rle_dec x 0), (Rle_dec y 0); repeat destruct (Rle_dec _ 255); lra.
Qed.

Theorem C67_blackbody_gamut T : gamut (blackbody_to_rgb T).
Proof.
  unfold blackbody_to_rgb, gamut. cbn [vx vy vz].
  set (t := clamp T 1000 40000 / 100).
  split; [|split].
  - destruct (Rleb t 66); [lra|]. apply clamp_range; lra.
  - destruct (Rleb t 66); [apply maxmin_range|]. apply clamp_range; lra.
  - destruct (Rleb 66 t); [lra|]. destruct (Rleb t 19); [lra|]. apply maxmin_range.
Qed.

Lemma Rpower_neg_le x y k : 0 < x -> x <= y -> 0 <= k -> Rpower y (- k) <= Rpower x (- k).
Proof.
  intros Hx H Hk. rewrite !Rpower_Ropp. apply Rinv_le_contravar; [unfold Rpower; apply exp_pos|]. apply Rle_Rpower_l; auto. 
Qed.

(** a hotter star is never redder and never less blue *)
Theorem C67_blackbody_order T U : T <= U ->
  vx (blackbody_to_rgb U) <= vx (blackbody_to_rgb T) /\ vz (blackbody_to_rgb T) <= vz (blackbody_to_rgb U).
Proof.
  intros H. pose proof (clamp_mono T U 1000 40000 ltac:(lra) H) as M.
  pose proof (clamp_range T 1000 40000 ltac:(lra)) as RT. pose proof (clamp_range U 1000 40000 ltac:(lra)) as RU.
  pose proof (C67_blackbody_gamut T) as (G1 & _ & G3). pose proof (C67_blackbody_gamut U) as (G1' & _ & G3').
  unfold blackbody_to_rgb in *. cbn [vx vy vz] in *.
  set (t := clamp T 1000 40000 / 100) in *. set (u := clamp U 1000 40000 / 100) in *.
  assert (Ht : 10 <= t <= u) by (unfold t, u; lra). split.
  - destruct (Rleb_dec t 66) as [[Et Lt]|[Et Lt]]; rewrite Et in *; [destruct (Rleb u 66); lra|].
    destruct (Rleb_dec u 66) as [[Eu Lu]|[Eu Lu]]; [lra|]. rewrite Eu in *.
    apply clamp_mono; [lra|].
    pose proof (Rpower_neg_le (t - 60) (u - 60) (1332047592 / 10 ^ 10) ltac:(lra) ltac:(lra) ltac:(lra)). lra.
  - destruct (Rleb_dec 66 u) as [[Eu Lu]|[Eu Lu]]; rewrite Eu in *; [destruct (Rleb 66 t); [lra|destruct (Rleb t 19); lra]|].
    destruct (Rleb_dec 66 t) as [[Et Lt]|[Et Lt]]; [lra|]. rewrite Et in *.
    destruct (Rleb_dec t 19) as [[Et' Lt']|[Et' Lt']]; rewrite Et' in *; [destruct (Rleb u 19); lra|].
    destruct (Rleb_dec u 19) as [[Eu' Lu']|[Eu' Lu']]; [lra|]. rewrite Eu' in *.
    apply maxmin_mono. assert (ln (t - 10) <= ln (u - 10)).
    { destruct (Req_dec t u) as [->|]; [lra|]. apply Rlt_le, ln_increasing; lra. }
    lra.
Qed.

Lemma Rpower_12_5 x : 0 < x -> Rpower x (24 / 10) ^ 5 = x ^ 12.
Proof.
  intros H. rewrite <- Rpower_pow by (unfold Rpower; apply exp_pos). rewrite Rpower_mult.
  replace (24 / 10 * INR 5) with (INR 12) by (cbn; field). apply Rpower_pow; auto.
Qed.
Lemma pow_le_inv x y n : 0 <= x -> 0 <= y -> (0 < n)%nat -> x ^ n <= y ^ n -> x <= y.
Proof.
  intros Hx Hy Hn H. apply Rnot_lt_le. intros L. assert (y ^ n < x ^ n); [|lra].
  clear H. destruct n; [inversion Hn|]. clear Hn. induction n; [cbn; lra|].
  cbn [pow] in *. apply Rmult_le_0_lt_compat; auto. apply Rmult_le_pos; auto. apply pow_le; auto.
Qed.

(** the linear-light conversion is a monotone map of [0,1] to itself fixing 0 and 1 *)
Theorem C67_srgb u v : 0 <= u -> u <= v -> v <= 1 ->
  0 <= srgb_chan u <= srgb_chan v /\ srgb_chan v <= 1 /\ srgb_chan 0 = 0 /\ srgb_chan 1 = 1.
Proof.
  intros H0 Huv H1.
  assert (P : forall x, 0 < Rpower x (24 / 10)) by (intros; unfold Rpower; apply exp_pos).
  assert (Mono : forall x y, 0 <= x -> x <= y -> y <= 1 -> 0 <= srgb_chan x <= srgb_chan y).
  { intros x y Hx Hxy Hy. unfold srgb_chan.
    destruct (Rleb_dec x (4045/100000)) as [[-> Lx]|[-> Lx]], (Rleb_dec y (4045/100000)) as [[-> Ly]|[-> Ly]]; try lra.
    - split; [lra|]. apply Rle_trans with (4045 / 100000 / (1292 / 100)); [lra|].
      apply (pow_le_inv _ _ 5); [lra|apply Rlt_le, P|auto with arith|].
      rewrite Rpower_12_5 by lra.
      apply Rle_trans with (((4045 / 100000 + 55 / 1000) / (1055 / 1000)) ^ 12); [lra|]. apply pow_incr. lra.
    - split; [apply Rlt_le, P|]. apply Rle_Rpower_l; [lra|]. split; [|]; lra. }
  assert (E1 : srgb_chan 1 = 1).
  { unfold srgb_chan. destruct (Rleb_dec 1 (4045/100000)) as [[-> L]|[-> L]]; [lra|].
    replace ((1 + 55 / 1000) / (1055 / 1000)) with 1 by field. unfold Rpower. rewrite ln_1, Rmult_0_r. apply exp_0. }
  assert (E0 : srgb_chan 0 = 0).
  { unfold srgb_chan. destruct (Rleb_dec 0 (4045/100000)) as [[-> L]|[-> L]]; [field|lra]. }
  split; [apply Mono; auto|]. split; [|auto]. pose proof (Mono v 1 ltac:(lra) H1 (Rle_refl 1)) as Q. rewrite E1 in Q. apply Q.
Qed.

Lemma srgb_gamut c : gamut c -> gamut (srgb_to_linear c).
Proof.
  intros (H1 & H2 & H3). unfold gamut, srgb_to_linear. cbn [vx vy vz].
  assert (G : forall u, 0 <= u <= 1 -> 0 <= srgb_chan u <= 1).
  { intros u Hu. destruct (C67_srgb u u (proj1 Hu) (Rle_refl _) (proj2 Hu)) as (A & B & _). lra. }
  split; [|split]; apply G; auto.
Qed.
Theorem C67_rgb_gamut b lin : gamut (bp_rp_to_rgb b lin).
Proof.
  unfold bp_rp_to_rgb. set (c := blackbody_to_rgb (bp_rp_to_teff b)). set (avg := (vx c + vy c + vz c) / 3). cbv zeta.
  assert (G : gamut (mkV (clamp (avg + (vx c - avg) * (115 / 100)) 0 1) (clamp (avg + (vy c - avg) * (115 / 100)) 0 1) (clamp (avg + (vz c - avg) * (115 / 100)) 0 1))).
  { split; [|split]; apply clamp_range; lra. }
  destruct lin; auto. apply srgb_gamut, G.
Qed.
(** a catalogue record has a colour exactly when its three magnitudes are present, and the colour is
    in gamut; the infrared colours too, and a brighter star is never darker *)
Theorem C67_photometric s :
  (photometric_color s = None <-> s_bp s = None \/ s_rp s = None \/ s_g s = None) /\
  (forall g bp rp c, photometric_color s = Some (g, bp, rp, c) ->
     s_g s = Some g /\ s_bp s = Some bp /\ s_rp s = Some rp /\ gamut c).
Proof.
  unfold photometric_color. destruct (s_bp s), (s_rp s), (s_g s); (split; [split; try discriminate; try tauto; intros [Q|[Q|Q]]; discriminate|]);
    intros g bp rp c E; try discriminate. remember (srgb_to_linear (bp_rp_to_rgb (r - r0) false)) as col eqn:Ec. clear - E Ec. injection E as <- <- <- <-. rewrite Ec. split; [reflexivity|split; [reflexivity|split; [reflexivity|]]]. exact (srgb_gamut _ (C67_rgb_gamut _ false)).
Qed.
Theorem C67_infrared s c : photometric_infrared_rgb s = Some c -> gamut c /\
  forall j h k, s_j s = Some j -> s_h s = Some h -> s_k s = Some k ->
    (vx c = 1 <-> k <= 8) /\ (vx c = 0 <-> 16 <= k) /\ (vy c = 1 <-> h <= 8) /\ (vy c = 0 <-> 16 <= h) /\ (vz c = 1 <-> j <= 8) /\ (vz c = 0 <-> 16 <= j).
Proof.
  unfold photometric_infrared_rgb. destruct (s_j s) as [j|], (s_h s) as [h|], (s_k s) as [k|]; try discriminate.
  intros E. injection E as <-. unfold ir_clamp. split; [split; [|split]; apply clamp_range; lra|].
  intros j' h' k' Ej Eh Ek. injection Ej as <-. injection Eh as <-. injection Ek as <-. cbn [vx vy vz].
  assert (G : forall m, (clamp (1 - (m - 8) / 8) 0 1 = 1 <-> m <= 8) /\ (clamp (1 - (m - 8) / 8) 0 1 = 0 <-> 16 <= m)).
  { intros m. unfold clamp. destruct (Rltb_dec (1 - (m - 8) / 8) 0) as [[-> A]|[-> A]]; [split; split; lra|].
    destruct (Rltb_dec 1 (1 - (m - 8) / 8)) as [[-> B]|[-> B]]; split; split; lra. }
  destruct (G k), (G h), (G j). tauto.
Qed.
Theorem C67_infrared_order a b : a <= b -> ir_clamp b <= ir_clamp a.
Proof. intros H. unfold ir_clamp. apply clamp_mono; lra. Qed.

(** the Sun's colour index gives the tabulated 5800 K *)
Example C67_nontrivial : bp_rp_to_teff (65/100) = 5800 /\ exists c, photometric_infrared_rgb barnard = Some c /\ vx c = 1.
Proof.
  split; [apply C67_teff_knots; cbn; tauto|]. eexists. split; [reflexivity|].
  destruct (C67_infrared barnard _ eq_refl) as (_ & H). apply (H 5 5 4); try reflexivity. lra.
Qed.
