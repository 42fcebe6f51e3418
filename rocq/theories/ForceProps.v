(** C62, C90, C91: apparent forces, lunar gravity, orbits. *)
From Coq Require Import Reals Lra Psatz List Arith Bool Lia.
From Coquelicot Require Import Coquelicot.
From Verif Require Import Scalar LinModel Trig Geo3 AttModel StatsModel Wgs84Model Wgs84Spec Wgs84Proofs.
Local Open Scope R_scope.

Lemma neg3 u : vof (vec_neg Rops 3 (vfun u)) = mkV (- vx u) (- vy u) (- vz u).
Proof. reflexivity. Qed.
Lemma coriolis_eq om v m : solve_coriolis_force om v m = Vscale (-2 * m) (Cross om v).
Proof. apply V3_eq; cbn; ring. Qed.
Lemma centrifugal_eq om p m : solve_centrifugal_force om p m = Vscale (- m) (Cross om (Cross om p)).
Proof. apply V3_eq; cbn; ring. Qed.

(** Coriolis: -2 m omega x v; orthogonal to both, so it does no work. *)
Theorem C62_coriolis om v m :
  let f := solve_coriolis_force om v m in
  f = Vscale (-2 * m) (Cross om v) /\ Dot f v = 0 /\ Dot f om = 0 /\
  Norm f * Norm f = 4 * m * m * (Dot om om * Dot v v - Dot om v * Dot om v).
Proof.
  cbv zeta. rewrite coriolis_eq. repeat split; try (unfold Dot, Vscale, Cross; cbn; ring).
  rewrite Norm_sq. unfold Dot, Vscale, Cross; cbn; ring.
Qed.

(** Centrifugal: orthogonal to the axis, and for a polar axis m w^2 times the distance from the
    axis, pointing away from it. *)
Theorem C62_centrifugal om p m :
  let f := solve_centrifugal_force om p m in
  Dot f om = 0 /\
  f = Vsub (Vscale (m * Dot om om) p) (Vscale (m * Dot om p) om) /\
  (0 <= m -> 0 <= Dot f p) /\
  (forall w, om = mkV 0 0 w -> f = Vscale (m * w ^ 2) (mkV (vx p) (vy p) 0)) /\
  (forall w, om = mkV 0 0 w -> 0 <= m -> Norm f = m * w ^ 2 * sqrt (vx p ^ 2 + vy p ^ 2)).
Proof.
  cbv zeta. rewrite centrifugal_eq.
  assert (E : forall w, om = mkV 0 0 w -> Vscale (- m) (Cross om (Cross om p)) = Vscale (m * w ^ 2) (mkV (vx p) (vy p) 0)).
  { intros w ->. unfold Vscale, Cross; cbn. f_equal; ring. }
  split; [|split; [|split; [|split; [exact E|]]]].
  - unfold Dot, Vscale, Cross; cbn; ring.
  - unfold Dot, Vscale, Vsub, Cross; cbn; f_equal; ring.
  - intros Hm. replace (Dot (Vscale (- m) (Cross om (Cross om p))) p) with (m * Dot (Cross om p) (Cross om p)) by (unfold Dot, Vscale, Cross; cbn; ring).
    apply Rmult_le_pos; [auto|apply Dot_pos].
  - intros w Hw Hm. rewrite (E w Hw). unfold Norm, Dot, Vscale. cbn [vx vy vz].
    replace (m * w ^ 2 * vx p * (m * w ^ 2 * vx p) + m * w ^ 2 * vy p * (m * w ^ 2 * vy p) + m * w ^ 2 * 0 * (m * w ^ 2 * 0))
      with ((m * w ^ 2) * (m * w ^ 2) * (vx p ^ 2 + vy p ^ 2)) by ring.
    assert (0 <= m * w ^ 2) by (apply Rmult_le_pos; [auto|apply pow2_ge_0]).
    rewrite sqrt_mult; [|apply Rmult_le_pos; auto|]. 2:{ pose proof (pow2_ge_0 (vx p)). pose proof (pow2_ge_0 (vy p)). lra. }
    rewrite sqrt_square by auto. reflexivity.
Qed.

Lemma norm_pos_of p : eps < Norm p -> 0 < Norm p.
Proof. pose proof eps_val. lra. Qed.

(** Lunar gravity: along -p, of size mu / r^2. *)
Theorem C62_lunar_gravity mu p : 0 <= mu -> eps < Norm p ->
  let a := moon_gravitational_acceleration mu p in
  a = Vscale (- mu / Norm p ^ 3) p /\ Cross a p = V0 /\ Dot a p <= 0 /\ Norm a = mu / Norm p ^ 2.
Proof.
  intros Hmu Hp. pose proof (norm_pos_of p Hp) as P. pose proof (Norm_sq p) as N2. cbv zeta.
  assert (E : moon_gravitational_acceleration mu p = Vscale (- mu / Norm p ^ 3) p).
  { unfold moon_gravitational_acceleration. rewrite norm3, (proj2 (Rleb_false _ _)) by lra. apply scale3. }
  rewrite E. clear E. assert (P3 : 0 < Norm p ^ 3) by (apply pow_lt; lra).
  repeat split.
  - unfold Cross, Vscale, V0; cbn; f_equal; ring.
  - replace (Dot (Vscale (- mu / Norm p ^ 3) p) p) with (- (mu * (Dot p p * / Norm p ^ 3))) by (unfold Dot, Vscale, Rdiv; cbn; ring).
    assert (0 <= mu * (Dot p p * / Norm p ^ 3)); [|lra].
    apply Rmult_le_pos; [auto|]. apply Rmult_le_pos; [apply Dot_pos|apply Rlt_le, Rinv_0_lt_compat; auto].
  - unfold Norm at 1. replace (Dot (Vscale (- mu / Norm p ^ 3) p) (Vscale (- mu / Norm p ^ 3) p)) with ((mu / Norm p ^ 2) * (mu / Norm p ^ 2)).
    + apply sqrt_square. apply Rmult_le_pos; [auto|apply Rlt_le, Rinv_0_lt_compat, pow_lt; auto].
    + transitivity ((mu / Norm p ^ 3) * (mu / Norm p ^ 3) * Dot p p); [rewrite <- N2; field; lra|unfold Dot, Vscale, Rdiv; cbn; ring].
Qed.

(** At (and within 2.2e-16 m of) the centre it is zero, so nothing is divided by zero. *)
Theorem C62_lunar_gravity_centre mu p j : Norm p <= eps ->
  moon_gravitational_acceleration mu p = V0 /\ moon_gravitational_torque mu p j = V0.
Proof.
  intros H. unfold moon_gravitational_acceleration, moon_gravitational_torque. rewrite norm3, (proj2 (Rleb_true _ _)) by lra. auto.
Qed.

Theorem C62_lunar_force mu p m : moon_gravitational_force mu p m = Vscale m (moon_gravitational_acceleration mu p).
Proof. unfold moon_gravitational_force. apply scale3. Qed.

(** Gravity-gradient torque: 3 mu / r^5 p x I p; orthogonal to the position, zero when the position
    is a principal axis, in particular for a spherical inertia. *)
Lemma earth_torque_eq p j : earth_gravitational_torque p j = Vscale (3 * iers_GM / Norm p ^ 5) (Cross p (App j p)).
Proof. unfold earth_gravitational_torque. rewrite app3, cross3, norm3. apply scale3. Qed.

Theorem C62_gravity_gradient_torque mu p j : eps < Norm p ->
  moon_gravitational_torque mu p j = Vscale (3 * mu / Norm p ^ 5) (Cross p (App j p)) /\
  earth_gravitational_torque p j = Vscale (3 * 3.986004418e14 / Norm p ^ 5) (Cross p (App j p)) /\
  (forall t, t = moon_gravitational_torque mu p j \/ t = earth_gravitational_torque p j ->
    Dot t p = 0 /\ Dot t (App j p) = 0 /\ (forall c, App j p = Vscale c p -> t = V0)).
Proof.
  intros Hp. pose proof (norm_pos_of p Hp) as P.
  assert (E1 : moon_gravitational_torque mu p j = Vscale (3 * mu / Norm p ^ 5) (Cross p (App j p))).
  { unfold moon_gravitational_torque. rewrite norm3, (proj2 (Rleb_false _ _)) by lra. rewrite app3, cross3. apply scale3. }
  pose proof (earth_torque_eq p j) as E2. replace iers_GM with 3.986004418e14 in E2 by (unfold iers_GM; lra).
  split; [exact E1|split; [exact E2|]].
  assert (G : forall k, Dot (Vscale k (Cross p (App j p))) p = 0 /\ Dot (Vscale k (Cross p (App j p))) (App j p) = 0 /\
     (forall c, App j p = Vscale c p -> Vscale k (Cross p (App j p)) = V0)).
  { intros k. split; [unfold Dot, Vscale, Cross; cbn; ring|]. split; [set (w := App j p); unfold Dot, Vscale, Cross; cbn; ring|].
    intros c ->. unfold Vscale, Cross, V0; cbn; f_equal; ring. }
  intros t [->| ->]; [rewrite E1|rewrite E2]; apply G.
Qed.

Example C62_nontrivial : eps < Norm (mkV 1737400 0 0) /\ (forall w, mkV 0 0 w = mkV 0 0 w) /\
  App (mkM 2 0 0 0 2 0 0 0 2) (mkV 1 2 3) = Vscale 2 (mkV 1 2 3).
Proof.
  split; [|split; [reflexivity|unfold App, Vscale; cbn; f_equal; ring]].
  unfold Norm, Dot. cbn [vx vy vz]. replace (1737400 * 1737400 + 0 * 0 + 0 * 0) with (1737400 * 1737400) by ring.
  rewrite sqrt_square by lra. pose proof eps_val. lra.
Qed.

(** ** C90: the forces are the ones of the rotating frame *)

(** A particle moving freely (straight, at constant speed) in ICRF, seen in ITRF, accelerates under
    exactly the Coriolis and centrifugal forces the library computes. *)
Definition seen (w : R) (p0 v0 : V3) (t : R) : V3 :=
  App (icrf_to_itrf t (mkV 0 0 w)) (Vadd p0 (Vscale t v0)).

Theorem C90_free_particle w p0 v0 m :
  exists vel acc : R -> V3,
    (forall t, is_derive (fun t => vx (seen w p0 v0 t)) t (vx (vel t)) /\
               is_derive (fun t => vy (seen w p0 v0 t)) t (vy (vel t)) /\
               is_derive (fun t => vz (seen w p0 v0 t)) t (vz (vel t))) /\
    (forall t, is_derive (fun t => vx (vel t)) t (vx (acc t)) /\
               is_derive (fun t => vy (vel t)) t (vy (acc t)) /\
               is_derive (fun t => vz (vel t)) t (vz (acc t))) /\
    (forall t, Vscale m (acc t) =
       Vadd (solve_coriolis_force (mkV 0 0 w) (vel t) m) (solve_centrifugal_force (mkV 0 0 w) (seen w p0 v0 t) m)).
Proof.
  destruct p0 as [x0 y0 z0], v0 as [a b c].
  set (X := fun t => x0 + t * a). set (Y := fun t => y0 + t * b).
  exists (fun t => mkV (- w * sin (w * t) * X t + cos (w * t) * a + w * cos (w * t) * Y t + sin (w * t) * b)
                    (- w * cos (w * t) * X t - sin (w * t) * a - w * sin (w * t) * Y t + cos (w * t) * b) c).
  exists (fun t => mkV (- w * w * cos (w * t) * X t - 2 * w * sin (w * t) * a - w * w * sin (w * t) * Y t + 2 * w * cos (w * t) * b)
                    (w * w * sin (w * t) * X t - 2 * w * cos (w * t) * a - w * w * cos (w * t) * Y t - 2 * w * sin (w * t) * b) 0).
  unfold seen, icrf_to_itrf, App, Vadd, Vscale, X, Y. cbn [vx vy vz m00 m01 m02 m10 m11 m12 m20 m21 m22].
  split; [|split].
  - intros t. split; [|split]; auto_derive; auto;
      rewrite ?Ropp_mult_distr_l_reverse, ?sin_neg, ?cos_neg; ring.
  - intros t. split; [|split]; auto_derive; auto; ring.
  - intros t. rewrite coriolis_eq, centrifugal_eq. unfold Vadd, Vscale, Cross. cbn [vx vy vz].
    rewrite ?Ropp_mult_distr_l_reverse, ?sin_neg, ?cos_neg.
    f_equal; ring.
Qed.

Example C90_nontrivial : seen 1 (mkV 1 2 3) (mkV 4 5 6) 0 = mkV 1 2 3.
Proof.
  unfold seen, icrf_to_itrf, App, Vadd, Vscale. cbn. rewrite !Rmult_0_r, ?Rmult_0_l. rewrite sin_0, cos_0. f_equal; ring.
Qed.

(** The centrifugal force is minus the gradient of -1/2 m |omega x p|^2. *)
Theorem C90_centrifugal_potential om p d m :
  is_derive (fun t => - (1 / 2) * m * Dot (Cross om (Vadd p (Vscale t d))) (Cross om (Vadd p (Vscale t d)))) 0
    (- Dot (solve_centrifugal_force om p m) d).
Proof.
  rewrite centrifugal_eq. destruct om as [o1 o2 o3], p as [x y z], d as [a b c].
  unfold Dot, Cross, Vadd, Vscale. cbn [vx vy vz]. auto_derive; auto. field.
Qed.

(** ** C91: lunar gravity comes from the potential -mu/r, and Kepler's third law *)
Theorem C91_potential mu p d : eps < Norm p ->
  is_derive (fun t => - mu / Norm (Vadd p (Vscale t d))) 0 (- Dot (moon_gravitational_acceleration mu p) d).
Proof.
  intros Hp. pose proof (norm_pos_of p Hp) as P.
  assert (E : moon_gravitational_acceleration mu p = Vscale (- mu / Norm p ^ 3) p).
  { unfold moon_gravitational_acceleration. rewrite norm3, (proj2 (Rleb_false _ _)) by lra. apply scale3. }
  rewrite E. clear E. pose proof (Norm_sq p) as N2. unfold Norm in *. destruct p as [x y z], d as [a b c].
  unfold Dot, Vadd, Vscale in *. cbn [vx vy vz] in *.
  assert (Q : 0 < x * x + y * y + z * z) by (rewrite <- N2; apply Rmult_lt_0_compat; auto).
  auto_derive.
  - rewrite !Rmult_0_l, !Rplus_0_r. repeat split; auto. lra.
  - rewrite !Rmult_0_l, !Rplus_0_r. set (s := sqrt (x * x + y * y + z * z)) in *. clearbody s. field. lra.
Qed.

(** the body on a circle of radius a at the angular speed n *)
Definition circle (a n t : R) : V3 := mkV (a * cos (n * t)) (a * sin (n * t)) 0.

(** The Keplerian period is the period of the circular orbit in the gravity of the total mass. *)
Theorem C91_kepler o : eps < o_a o -> 0 < o_mu_earth o + o_mu_moon o ->
  0 < keplerian_period o /\
  let n := 2 * PI / keplerian_period o in
  (forall t, circle (o_a o) n (t + keplerian_period o) = circle (o_a o) n t) /\
  (forall t, is_derive_n (fun t => vx (circle (o_a o) n t)) 2 t (vx (moon_gravitational_acceleration ((o_mu_earth o + o_mu_moon o)) (circle (o_a o) n t))) /\
             is_derive_n (fun t => vy (circle (o_a o) n t)) 2 t (vy (moon_gravitational_acceleration ((o_mu_earth o + o_mu_moon o)) (circle (o_a o) n t))) /\
             is_derive_n (fun t => vz (circle (o_a o) n t)) 2 t (vz (moon_gravitational_acceleration ((o_mu_earth o + o_mu_moon o)) (circle (o_a o) n t)))).
Proof.
  change (o_mu_earth o + o_mu_moon o) with (mu_total o).
  intros Ha Hmu. pose proof eps_val as EV. assert (A : 0 < o_a o) by lra. pose proof PI_RGT_0 as PP.
  assert (Q : 0 < o_a o ^ 3 / mu_total o) by (apply Rdiv_lt_0_compat; [apply pow_lt|]; auto).
  pose proof (sqrt_lt_R0 _ Q) as Q'. pose proof (sqrt_sqrt _ (Rlt_le _ _ Q)) as Q2.
  assert (K : 0 < keplerian_period o) by (unfold keplerian_period; apply Rmult_lt_0_compat; lra).
  split; auto. set (n := 2 * PI / keplerian_period o). cbv zeta.
  assert (N2 : n * n * (o_a o ^ 3) = mu_total o).
  { assert (Hn : n = / sqrt (o_a o ^ 3 / mu_total o)) by (unfold n, keplerian_period; field; split; lra).
    rewrite Hn. set (s := sqrt (o_a o ^ 3 / mu_total o)) in *.
    assert (o_a o ^ 3 = s * s * mu_total o) by (rewrite Q2; field; lra). rewrite H. field. lra. }
  split.
  - intros t. unfold circle. replace (n * (t + keplerian_period o)) with (n * t + 2 * PI) by (unfold n; field; lra).
    rewrite cos_plus, sin_plus, cos_2PI, sin_2PI. f_equal; ring.
  - intros t.
    assert (NC : Norm (circle (o_a o) n t) = o_a o).
    { unfold Norm, circle, Dot. cbn [vx vy vz]. pose proof (sincos2 (n * t)) as T.
      replace (o_a o * cos (n * t) * (o_a o * cos (n * t)) + o_a o * sin (n * t) * (o_a o * sin (n * t)) + 0 * 0)
        with (o_a o * o_a o * (sin (n * t) * sin (n * t) + cos (n * t) * cos (n * t))) by ring.
      rewrite T, Rmult_1_r. apply sqrt_square. lra. }
    assert (E : moon_gravitational_acceleration (mu_total o) (circle (o_a o) n t) = Vscale (- (n * n)) (circle (o_a o) n t)).
    { unfold moon_gravitational_acceleration. rewrite norm3, NC, (proj2 (Rleb_false _ _)) by lra. rewrite scale3. f_equal.
      rewrite <- N2. field. lra. }
    rewrite E. unfold circle, Vscale. cbn [vx vy vz]. generalize (o_a o). intros a. clearbody n. clear.
    assert (D1 : forall t, Derive (fun t => a * cos (n * t)) t = - a * n * sin (n * t)) by (intros; apply is_derive_unique; auto_derive; auto; ring).
    assert (D2 : forall t, Derive (fun t => a * sin (n * t)) t = a * n * cos (n * t)) by (intros; apply is_derive_unique; auto_derive; auto; ring).
    split; [|split]; cbn [is_derive_n Derive_n].
    + apply (is_derive_ext (fun t => - a * n * sin (n * t))); [intros; symmetry; apply D1|]. auto_derive; auto; ring.
    + apply (is_derive_ext (fun t => a * n * cos (n * t))); [intros; symmetry; apply D2|]. auto_derive; auto; ring.
    + apply (is_derive_ext (fun t => 0)); [intros; symmetry; apply Derive_const|]. auto_derive; auto; ring.
Qed.

(** The mean motion goes once round in the sidereal period. *)
Theorem C91_mean_motion o : o_period o <> 0 -> mean_motion o * o_period o = 2 * PI.
Proof. intros H. unfold mean_motion. field. auto. Qed.

Example C91_nontrivial : let o := mkOrbit 384400000 2360591 (3986004418 * 10 ^ 5) 4902800118000 in
  eps < o_a o /\ 0 < o_mu_earth o + o_mu_moon o /\ o_period o <> 0.
Proof. pose proof eps_val. cbv zeta. cbn [o_a o_period o_mu_earth o_mu_moon]. lra. Qed.
