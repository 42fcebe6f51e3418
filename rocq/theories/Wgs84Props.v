(** C60: geodetic coordinates to Earth-centred coordinates and back. *)
From Coq Require Import Reals Lra Psatz List Arith Bool Lia.
From Coquelicot Require Import Coquelicot.
From Verif Require Import Scalar Trig Geo3 StatsModel Wgs84Model Wgs84Spec Wgs84Proofs.
Local Open Scope R_scope.

Lemma wn_pos lat : 0.99 < 1 - w84_e2 * sin lat * sin lat <= 1.
Proof.
  pose proof (sincos2 lat). pose proof e2_pos. assert (0 <= cos lat * cos lat) by nra. assert (0 <= sin lat * sin lat) by nra.
  rewrite Rmult_assoc. split; [unfold w84_e2; lra|nra].
Qed.

(** geocentric_to_ecef goes to the point at the given height above the ellipsoid, along the normal
    of that latitude and longitude *)
Theorem C60_forward_is_geodetic lat lon alt :
  geodetic lat lon alt (geocentric_to_ecef lat lon alt).
Proof.
  pose proof (wn_pos lat) as W. pose proof (sincos2 lat) as T. pose proof (sincos2 lon) as T'.
  assert (sw : 0 < sqrt (1 - w84_e2 * sin lat * sin lat)) by (apply sqrt_lt_R0; lra).
  pose proof (sqrt_sqrt (1 - w84_e2 * sin lat * sin lat) ltac:(lra)) as Q.
  unfold geocentric_to_ecef, geodetic.
  set (w := sqrt (1 - w84_e2 * sin lat * sin lat)) in *.
  assert (A : wgs_a = w84_a) by reflexivity. assert (B : wgs_b2 = w84_a * w84_a * (1 - w84_e2)) by reflexivity.
  assert (0 < w84_a) by (unfold w84_a; lra). pose proof kap_bd as K. unfold kap in K.
  exists (mkV (w84_a / w * cos lat * cos lon) (w84_a / w * cos lat * sin lon) (w84_a / w * (1 - w84_e2) * sin lat)), (/ (w84_a * w)).
  split; [|split; [|split]].
  - unfold on_ellipsoid. rewrite A, B. cbn [vx vy vz].
    apply Rmult_eq_reg_r with (w * w); [|nra].
    transitivity (cos lat * cos lat * (sin lon * sin lon + cos lon * cos lon) + (1 - w84_e2) * (sin lat * sin lat)).
    { field. lra. }
    rewrite T', Q. lra.
  - apply Rinv_0_lt_compat, Rmult_lt_0_compat; lra.
  - unfold outward, up, Vscale. rewrite A, B. cbn [vx vy vz]. f_equal; field; lra.
  - unfold Vadd, Vscale, up. cbn [vx vy vz]. f_equal; ring.
Qed.

(** the loop of ecef_to_geocentric is left by its convergence test, not by the iteration limit *)
Theorem C60_loop_converges x y z : r0 * r0 <= x * x + y * y + z * z ->
  snd (geodetic_loop 101 (x * x + y * y) z (w84_e2 * z) 0) = true.
Proof.
  intros Hr. destruct (loop_101 (x * x + y * y) z 0 ltac:(nra) Hr) as (d & -> & _). reflexivity.
Qed.

Lemma ecef_eq x y z : r0 * r0 <= x * x + y * y + z * z ->
  exists d, beyond z (z + d) /\ Rabs (d - Fz (x * x + y * y) (z + d)) < eps * 100 /\
    ecef_to_geocentric x y z
    = mkV (atan2 (z + d) (sqrt (x * x + y * y))) (atan2 y x)
          (sqrt (x * x + y * y + (z + d) * (z + d)) - Nn (x * x + y * y) (z + d)).
Proof.
  intros Hr. destruct (loop_101 (x * x + y * y) z 0 ltac:(nra) Hr) as (d & E & B & D).
  exists d. split; [auto|split; auto]. unfold ecef_to_geocentric. rewrite E. reflexivity.
Qed.

(** From Earth-centred coordinates to geodetic and back: x and y are recovered exactly and z to
    within 2.3e-14 m, at every point farther than 335 km from the centre, the poles included. *)
Theorem C60_inverse x y z : 335000 * 335000 <= x * x + y * y + z * z ->
  let g := ecef_to_geocentric x y z in
  let p := geocentric_to_ecef (vx g) (vy g) (vz g) in
  vx p = x /\ vy p = y /\ Rabs (vz p - z) < 23 / 10 ^ 15.
Proof.
  intros Hr. destruct (ecef_eq x y z Hr) as (d & B & D & ->). cbv zeta. cbn [vx vy vz].
  assert (H0 : 0 <= x * x + y * y) by nra.
  set (rho2 := x * x + y * y) in *. set (w := z + d) in *.
  pose proof (dist_pos rho2 z w H0 Hr B) as P.
  pose proof (sqrt_lt_R0 _ P) as P'.
  assert (S1 : sqrt (rho2 + w * w) * sin (atan2 w (sqrt rho2)) = w).
  { pose proof (atan2_sin (sqrt rho2) w) as S. rewrite sqrt_sqrt in S; auto. }
  assert (C1 : sqrt (rho2 + w * w) * cos (atan2 w (sqrt rho2)) = sqrt rho2).
  { pose proof (atan2_cos (sqrt rho2) w) as S. rewrite sqrt_sqrt in S; auto. }
  pose proof (atan2_sin x y) as S2. pose proof (atan2_cos x y) as C2. fold rho2 in S2, C2.
  assert (S1' : sin (atan2 w (sqrt rho2)) = w / sqrt (rho2 + w * w)) by (apply Rmult_eq_reg_l with (sqrt (rho2 + w * w)); [rewrite S1; field; lra|lra]).
  destruct (body_n rho2 w H0 P) as (N & F & _).
  unfold geocentric_to_ecef. rewrite S1'. rewrite N. cbn [vx vy vz].
  replace (Nn rho2 w + (sqrt (rho2 + w * w) - Nn rho2 w)) with (sqrt (rho2 + w * w)) by ring.
  rewrite C1. repeat split; auto.
  replace ((Nn rho2 w * (1 - w84_e2) + (sqrt (rho2 + w * w) - Nn rho2 w)) * (w / sqrt (rho2 + w * w)) - z)
    with (d - Nn rho2 w * w84_e2 * (w / sqrt (rho2 + w * w))).
  2:{ unfold w. field. fold w. lra. }
  rewrite F. pose proof eps_val. lra.
Qed.

Lemma forward_facts lat lon alt : - (PI / 2) <= lat <= PI / 2 -> -6000000 <= alt ->
  exists n, w84_a <= n /\ let p := geocentric_to_ecef lat lon alt in
    let rho2 := vx p * vx p + vy p * vy p in let d := n * w84_e2 * sin lat in
    vx p = (n + alt) * cos lat * cos lon /\ vy p = (n + alt) * cos lat * sin lon /\
    sqrt rho2 = (n + alt) * cos lat /\ vz p + d = (n + alt) * sin lat /\
    r0 * r0 <= rho2 + vz p * vz p /\ beyond (vz p) (vz p + d) /\
    d = Fz rho2 (vz p + d) /\ n = Nn rho2 (vz p + d) /\ sqrt (rho2 + (vz p + d) * (vz p + d)) = n + alt.
Proof.
  intros Hl Ha. pose proof (wn_pos lat) as W. pose proof (sincos2 lat) as T. pose proof (sincos2 lon) as T'.
  assert (sw : 0 < sqrt (1 - w84_e2 * sin lat * sin lat) <= 1).
  { split; [apply sqrt_lt_R0; lra|]. rewrite <- sqrt_1 at 2. apply sqrt_le_1_alt. lra. }
  exists (w84_a / sqrt (1 - w84_e2 * sin lat * sin lat)). unfold geocentric_to_ecef. cbn [vx vy vz].
  remember (w84_a / sqrt (1 - w84_e2 * sin lat * sin lat)) as n eqn:Hn.
  assert (An : w84_a <= n).
  { rewrite Hn. assert (0 < w84_a) by (unfold w84_a; lra). apply Rmult_le_reg_r with (sqrt (1 - w84_e2 * sin lat * sin lat)); [lra|]. field_simplify; nra. }
  split; auto. cbv zeta. pose proof e2_pos as E2. pose proof kap_bd as K. unfold kap in K.
  assert (Z1 : 335000 < n * (1 - w84_e2) + alt) by (unfold w84_a, w84_e2 in *; lra).
  assert (Z2 : n * (1 - w84_e2) + alt <= n + alt) by (assert (0 < n) by (unfold w84_a in *; lra); assert (0 < n * w84_e2) by (apply Rmult_lt_0_compat; lra); lra).
  assert (C0 : 0 <= cos lat) by (apply cos_ge_0; lra).
  assert (R2 : (n + alt) * cos lat * cos lon * ((n + alt) * cos lat * cos lon) + (n + alt) * cos lat * sin lon * ((n + alt) * cos lat * sin lon)
     = ((n + alt) * cos lat) * ((n + alt) * cos lat)).
  { transitivity (((n + alt) * cos lat) * ((n + alt) * cos lat) * (sin lon * sin lon + cos lon * cos lon)); [ring|rewrite T'; ring]. }
  rewrite R2.
  assert (ZD : (n * (1 - w84_e2) + alt) * sin lat + n * w84_e2 * sin lat = (n + alt) * sin lat) by ring.
  rewrite ZD.
  assert (HH : (n + alt) * cos lat * ((n + alt) * cos lat) + (n + alt) * sin lat * ((n + alt) * sin lat) = (n + alt) * (n + alt)).
  { transitivity ((n + alt) * (n + alt) * (sin lat * sin lat + cos lat * cos lat)); [ring|rewrite T; ring]. }
  assert (SH : sqrt ((n + alt) * (n + alt)) = n + alt) by (apply sqrt_square; lra).
  assert (P0 : 0 <= (n + alt) * cos lat * ((n + alt) * cos lat)) by apply Rle_0_sqr.
  destruct (body_n ((n + alt) * cos lat * ((n + alt) * cos lat)) ((n + alt) * sin lat) P0) as (N & F & _).
  { rewrite HH. nra. }
  rewrite HH, SH in N, F.
  replace ((n + alt) * sin lat / (n + alt)) with (sin lat) in N, F by (field; lra).
  rewrite <- Hn in N. rewrite <- N in F.
  split; [reflexivity|]. split; [reflexivity|].
  split; [apply sqrt_square; apply Rmult_le_pos; lra|]. split; [reflexivity|].
  split; [|split; [|split; [|split]]].
  - assert (0 <= sin lat * sin lat) by nra. assert (0 <= cos lat * cos lat) by nra.
    assert (r0 * r0 <= (n * (1 - w84_e2) + alt) * (n * (1 - w84_e2) + alt)) by (unfold r0; nra).
    assert ((n * (1 - w84_e2) + alt) * (n * (1 - w84_e2) + alt) <= (n + alt) * (n + alt)) by nra.
    set (u := (n * (1 - w84_e2) + alt) * (n * (1 - w84_e2) + alt)) in *. set (v := (n + alt) * (n + alt)) in *.
    replace ((n + alt) * cos lat * ((n + alt) * cos lat) + (n * (1 - w84_e2) + alt) * sin lat * ((n * (1 - w84_e2) + alt) * sin lat))
      with (v * (cos lat * cos lat) + u * (sin lat * sin lat)) by (unfold u, v; ring).
    assert (u * (cos lat * cos lat) <= v * (cos lat * cos lat)) by (apply Rmult_le_compat_r; lra).
    assert (u * (sin lat * sin lat + cos lat * cos lat) = u) by (rewrite T; ring). lra.
  - destruct (Rle_dec 0 (sin lat)); [left|right]; split; nra.
  - exact F.
  - exact N.
  - rewrite HH. exact SH.
Qed.

(** From geodetic to Earth-centred coordinates and back: the longitude is recovered exactly, the
    latitude to within 1e-19 rad and the altitude to within 1e-13 m, for every altitude from
    6000 km below the surface upwards. *)
Theorem C60_round_trip lat lon alt :
  - (PI / 2) < lat < PI / 2 -> - PI < lon <= PI -> -6000000 <= alt ->
  let p := geocentric_to_ecef lat lon alt in
  let g := ecef_to_geocentric (vx p) (vy p) (vz p) in
  Rabs (vx g - lat) <= 1 / 10 ^ 19 /\ vy g = lon /\ Rabs (vz g - alt) <= 1 / 10 ^ 13.
Proof.
  intros Hl Ho Ha. destruct (forward_facts lat lon alt ltac:(lra) Ha) as (n & An & HF).
  intros p. fold p in HF. cbv zeta in HF. destruct HF as (X & Y & R & Z & Rr & B & F & N & H).
  destruct (ecef_eq (vx p) (vy p) (vz p) Rr) as (d & B' & D & ->). cbv zeta. cbn [vx vy vz].
  assert (H0 : 0 <= vx p * vx p + vy p * vy p) by nra.
  pose proof (near_fixed _ _ _ _ H0 Rr B' B D F) as NF.
  set (rho2 := vx p * vx p + vy p * vy p) in *.
  pose proof (cos_gt_0 lat ltac:(lra) ltac:(lra)) as C0.
  assert (HP : 0 < n + alt) by (unfold w84_a in *; lra).
  assert (RP : 0 < sqrt rho2) by (rewrite R; apply Rmult_lt_0_compat; lra).
  set (w := vz p + d) in *. set (w' := vz p + n * w84_e2 * sin lat) in *.
  assert (NW : Rabs (w - w') <= eps * 120) by (replace (w - w') with (d - n * w84_e2 * sin lat) by (unfold w, w'; ring); auto).
  pose proof eps_val as EV.
  split; [|split].
  - assert (A1 : forall t, atan2 t (sqrt rho2) = atan (t / sqrt rho2)).
    { intros t. unfold atan2. rewrite (proj2 (Rltb_true _ _)) by auto. reflexivity. }
    assert (A2 : lat = atan (w' / sqrt rho2)).
    { rewrite Z, R. replace ((n + alt) * sin lat / ((n + alt) * cos lat)) with (tan lat) by (unfold tan; field; lra).
      symmetry. apply atan_tan. lra. }
    rewrite A1. rewrite A2 at 1.
    pose proof (atan_lip (sqrt rho2) (vz p) w w' RP) as L.
    rewrite sqrt_sqrt in L by auto. specialize (L Rr B' B). unfold r0 in L. lra.
  - rewrite X, Y. apply atan2_polar; auto. apply Rmult_lt_0_compat; lra.
  - pose proof (sqrt_lip rho2 (vz p) w w' H0 Rr B' B) as L1.
    pose proof (Nn_lip rho2 (vz p) w w' H0 Rr B' B) as L2.
    rewrite H in L1. rewrite <- N in L2.
    replace (sqrt (rho2 + w * w) - Nn rho2 w - alt) with ((sqrt (rho2 + w * w) - (n + alt)) - (Nn rho2 w - n)) by ring.
    unfold Rminus at 1. eapply Rle_trans; [apply Rabs_triang|]. rewrite Rabs_Ropp. lra.
Qed.

(** At the poles the longitude is lost (zero is returned) and the latitude is exact. *)
Theorem C60_round_trip_poles lat lon alt :
  lat = PI / 2 \/ lat = - (PI / 2) -> -6000000 <= alt ->
  let p := geocentric_to_ecef lat lon alt in
  let g := ecef_to_geocentric (vx p) (vy p) (vz p) in
  vx g = lat /\ vy g = 0 /\ Rabs (vz g - alt) <= 1 / 10 ^ 13.
Proof.
  intros Hl Ha. pose proof PI_RGT_0 as PP. destruct (forward_facts lat lon alt ltac:(lra) Ha) as (n & An & HF).
  intros p. fold p in HF. cbv zeta in HF. destruct HF as (X & Y & R & Z & Rr & B & F & N & H).
  destruct (ecef_eq (vx p) (vy p) (vz p) Rr) as (d & B' & D & ->). cbv zeta. cbn [vx vy vz].
  assert (H0 : 0 <= vx p * vx p + vy p * vy p) by nra.
  pose proof (near_fixed _ _ _ _ H0 Rr B' B D F) as NF.
  assert (C0 : cos lat = 0). { destruct Hl as [->| ->]; [|rewrite cos_neg]; apply cos_PI2. }
  assert (HP : 0 < n + alt) by (unfold w84_a in *; lra).
  rewrite C0 in *. rewrite Rmult_0_r in *. rewrite !Rmult_0_l in X, Y.
  set (rho2 := vx p * vx p + vy p * vy p) in *.
  set (w := vz p + d) in *. set (w' := vz p + n * w84_e2 * sin lat) in *.
  assert (NW : Rabs (w - w') <= eps * 120) by (replace (w - w') with (d - n * w84_e2 * sin lat) by (unfold w, w'; ring); auto).
  pose proof eps_val as EV.
  split; [|split].
  - rewrite R. unfold atan2. rewrite (proj2 (Rltb_false _ _)) by lra.
    assert (HH : 335000 < n + alt) by (unfold w84_a in *; lra).
    apply Rabs_le_between in NW. pose proof sin_PI2 as SP.
    destruct Hl as [E|E]; subst lat.
    + rewrite SP in *. rewrite (proj2 (Rltb_true _ _)) by lra. reflexivity.
    + rewrite sin_neg, SP in *. rewrite (proj2 (Rltb_false _ _)) by lra. rewrite (proj2 (Rltb_true _ _)) by lra. reflexivity.
  - rewrite X, Y. apply atan2_0_0.
  - pose proof (sqrt_lip rho2 (vz p) w w' H0 Rr B' B) as L1.
    pose proof (Nn_lip rho2 (vz p) w w' H0 Rr B' B) as L2.
    rewrite H in L1. rewrite <- N in L2.
    replace (sqrt (rho2 + w * w) - Nn rho2 w - alt) with ((sqrt (rho2 + w * w) - (n + alt)) - (Nn rho2 w - n)) by ring.
    unfold Rminus at 1. eapply Rle_trans; [apply Rabs_triang|]. rewrite Rabs_Ropp. lra.
Qed.
