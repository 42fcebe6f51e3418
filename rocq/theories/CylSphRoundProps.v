(** C137, between cylindrical and spherical coordinates: the conversion in floating point, and there and back. *)
From Coq Require Import ZArith QArith Qreals Reals Lra Lia Bool Arith List Psatz.
From Verif Require Import Scalar LinModel Trig Geo3 AttModel QuatFloatModel GeoFloatModel CoordFloatModel.
From Flocq Require Import Core BinarySingleNaN.
From Verif Require Import FloatModel RoundProps StatsFloatProps InterpFloatProps Apx.
From Verif Require GeoFloatProps DcmRoundProps RealAngleProps.
From Verif Require Import CoordRoundProps.
Import ListNotations.
Local Open Scope R_scope.

(** the distance from the origin of a point given by its distance from the axis and its height *)
Definition from_origin {prec emax} (c : gvec (binary_float prec emax)) : R := sqrt (B2R (gx c) * B2R (gx c) + B2R (gz c) * B2R (gz c)).

Section Width.
Context (prec emax : Z) {P : Prec_gt_0 prec} {M : Prec_lt_emax prec emax}.
Context (Hp : (24 <= prec)%Z) (He : (64 <= emax)%Z).
Local Notation fl := (binary_float prec emax).
Local Notation u := (unit prec).
Local Notation eta := (tiny prec emax).
Local Notation o := (float_ops prec emax).
Local Notation rd := (round radix2 (SpecFloat.fexp prec emax) ZnearestE).
Local Notation accurate := GeoFloatProps.accurate.
Local Notation u24 := (GeoFloatProps.u24 prec Hp).
Local Notation eta_u := (GeoFloatProps.eta_u prec emax He).
Local Notation largest63 := (GeoFloatProps.largest63 prec emax Hp He).
Ltac base := pose proof (u_pos prec) as Pu; pose proof u24 as U; pose proof (eta_pos prec emax) as Pe; pose proof largest63 as G;
  assert (UU : 0 <= u * u <= / 16777216 * u) by (split; [apply Rmult_le_pos; lra|apply Rmult_le_compat_r; lra]).
Lemma from_origin_sq (c : gvec fl) : from_origin c * from_origin c = B2R (gx c) * B2R (gx c) + B2R (gz c) * B2R (gz c).
Proof. apply sqrt_sqrt. pose proof (Rle_0_sqr (B2R (gx c))). pose proof (Rle_0_sqr (B2R (gz c))). unfold Rsqr in *. lra. Qed.
Lemma z_from_origin (c : gvec fl) : Rabs (B2R (gz c)) <= from_origin c.
Proof. rewrite <- sqrt_Rsqr_abs. apply sqrt_le_1_alt. pose proof (Rle_0_sqr (B2R (gx c))). unfold Rsqr in *. lra. Qed.

(** the radius, the azimuth unchanged, and the inclination through its cosine: always defined *)
Theorem C137_cylindrical_to_spherical : forall (a : angles fl) c, accurate_angles a (4 * u) -> finite3 prec emax c -> fair prec emax (from_origin c) ->
  let s := g_sph_of_cyl o a c in
  apx (gx s) (from_origin c) (402 / 100 * u * from_origin c) /\ gy s = gy c /\
  is_finite (gz s) = true /\ exists k, Rabs k <= 1 /\ Rabs (k - B2R (gz c) / from_origin c) <= 503 / 100 * u /\ Rabs (B2R (gz s) - acos k) <= 4 * u.
Proof.
  intros a c (_ & AC & _) (Fx & _ & Fz) Fr s. remember (from_origin c) as r eqn:HR.
  pose proof (sum2_apx prec emax Hp He _ _ r Fx Fz ltac:(rewrite HR; apply from_origin_sq) Fr) as W.
  set (w := add o (mul o (gx c) (gx c)) (mul o (gz c) (gz c))) in *.
  pose proof (root_apx prec emax Hp He w r Fr W) as A. unfold s, g_sph_of_cyl. cbn [gx gy gz]. fold w. split; [exact A|]. split; [reflexivity|].
  assert (Zr : Rabs (B2R (gz c)) <= r) by (rewrite HR; apply z_from_origin).
  assert (Pw : 0 < B2R w).
  { destruct Fr as (Pr & _ & _). destruct W as [_ W]. apply Rabs_le_inv in W. base. assert (0 < r * r) by (apply Rmult_lt_0_compat; lra).
    assert (u * (r * r) <= / 16777216 * (r * r)) by (apply Rmult_le_compat_r; lra). lra. }
  assert (Lw : rd (B2R (gz c) * B2R (gz c)) <= B2R w).
  { destruct W as [Fw _]. destruct (add_fin prec emax _ _ Fw) as (F1 & F2 & _). destruct (mul_fin prec emax _ _ F2) as (_ & _ & <-).
    unfold w. apply (rd_sum_ge prec emax); [exact Fw|]. apply (sq_nonneg prec emax), F1. }
  pose proof (at_least prec emax Hp He w (gz c) r Fz (proj1 W) Fr A Pw Lw Zr) as Lz.
  destruct (ratio_apx prec emax Hp He (gz c) (sqrtf o w) r Fz (proj1 Fr) A Zr Lz) as (D & D1).
  assert (Pq : 0 < B2R (sqrtf o w)).
  { destruct Fr as (Pr & _ & _). destruct A as [_ A]. apply Rabs_le_inv in A. base. assert (u * r <= / 16777216 * r) by (apply Rmult_le_compat_r; lra). lra. }
  assert (E0 : eqb o (sqrtf o w) (zero o) = false).
  { cbn [eqb zero float_ops]. rewrite Beqb_correct by (exact (proj1 A) || reflexivity). apply Req_bool_false. cbn [B2R]. lra. }
  rewrite E0. cbn [negb]. destruct (AC _ (proj1 D) D1) as [[F H] _]. split; [exact F|]. exists (B2R (div o (gz c) (sqrtf o w))). split; [exact D1|]. split; [exact (proj2 D)|exact H].
Qed.

Lemma cylindrical_back (t : trig fl) (a : angles fl) c d : accurate t (2 * u) -> accurate_angles a (4 * u) -> finite3 prec emax c -> fair prec emax (from_origin c) ->
  (forall k, Rabs k <= 1 -> Rabs (k - B2R (gz c) / from_origin c) <= 503 / 100 * u -> Rabs (sqrt (1 - k * k) - Rabs (B2R (gx c)) / from_origin c) <= d) -> 0 <= d <= / 1000 ->
  let q := g_cyl_of_sph o t (g_sph_of_cyl o a c) in
  apx (gx q) (Rabs (B2R (gx c))) ((1001 / 1000 * d + 12 * u) * from_origin c) /\ gy q = gy c /\ apx (gz q) (B2R (gz c)) (17 * u * from_origin c).
Proof.
  intros T Aa Fc Fr Hd Pd q. destruct (C137_cylindrical_to_spherical a c Aa Fc Fr) as (A & Ea & Fi & k & C1 & C2 & C3).
  pose proof (eta_fair prec emax He _ Fr) as Er. destruct Fc as (Fx & Fy & Fz). destruct (T _ Fi) as [Si Ci]. base. destruct Fr as (Pr & _ & L).
  pose proof (z_from_origin c) as Zr. unfold q, g_cyl_of_sph. cbn [gx gy gz]. set (s := g_sph_of_cyl o a c) in *.
  assert (Br : Rabs (B2R (gx c)) <= from_origin c) by (rewrite <- sqrt_Rsqr_abs; apply sqrt_le_1_alt; pose proof (Rle_0_sqr (B2R (gz c))); unfold Rsqr in *; lra).
  specialize (Hd k C1 C2). remember (from_origin c) as r eqn:HR. remember (Rabs (B2R (gx c))) as b eqn:HB. assert (Pb : 0 <= b) by (rewrite HB; apply Rabs_pos).
  assert (Ur : 0 <= u * r <= / 16777216 * r) by (split; [apply Rmult_le_pos; lra|apply Rmult_le_compat_r; lra]).
  assert (UUr : 0 <= u * (u * r) <= / 16777216 * (u * r)) by (split; [apply Rmult_le_pos; lra|apply Rmult_le_compat_r; lra]).
  assert (UUUr : u * (u * (u * r)) <= / 16777216 * (u * (u * r))) by (apply Rmult_le_compat_r; lra).
  assert (L3 : 4 * r <= 2 * largest prec emax /\ 3 * r <= largest prec emax /\ r <= largest prec emax / 4) by (destruct (Rle_lt_dec r 4); [lra|assert (4 * r <= r * r) by (apply Rmult_le_compat_r; lra); lra]).
  assert (c11 : -1 <= k <= 1) by (apply Rabs_le_inv in C1; lra).
  assert (Gs : apx (sinf t (gz s)) (b / r) (d + 6 * u)).
  { destruct Si as [F H]. split; [exact F|]. pose proof (sin_lip (B2R (gz s)) (acos k)) as Q. rewrite sin_acos in Q by exact c11. replace (1 - k²) with (1 - k * k) in Q by (unfold Rsqr; ring).
    replace (B2R (sinf t (gz s)) - b / r) with ((B2R (sinf t (gz s)) - sin (B2R (gz s))) + (sin (B2R (gz s)) - sqrt (1 - k * k)) + (sqrt (1 - k * k) - b / r)) by ring.
    eapply Rle_trans; [apply Rabs_triang|]. pose proof (Rabs_triang (B2R (sinf t (gz s)) - sin (B2R (gz s))) (sin (B2R (gz s)) - sqrt (1 - k * k))). lra. }
  assert (Gc : apx (cosf t (gz s)) (B2R (gz c) / r) (1103 / 100 * u)).
  { destruct Ci as [F H]. split; [exact F|]. pose proof (cos_lip (B2R (gz s)) (acos k)) as Q. rewrite cos_acos in Q by exact c11.
    replace (B2R (cosf t (gz s)) - B2R (gz c) / r) with ((B2R (cosf t (gz s)) - cos (B2R (gz s))) + (cos (B2R (gz s)) - k) + (k - B2R (gz c) / r)) by ring.
    eapply Rle_trans; [apply Rabs_triang|]. pose proof (Rabs_triang (B2R (cosf t (gz s)) - cos (B2R (gz s))) (cos (B2R (gz s)) - k)). lra. }
  assert (Bb : Rabs (b / r) <= 1).
  { rewrite Rabs_pos_eq by (apply Rmult_le_pos; [lra|left; apply Rinv_0_lt_compat; lra]). apply (Rmult_le_reg_r r); [lra|]. unfold Rdiv. rewrite Rmult_assoc, Rinv_l by lra. lra. }
  assert (Bz : Rabs (B2R (gz c) / r) <= 1).
  { unfold Rdiv. rewrite Rabs_mult, Rabs_inv, (Rabs_pos_eq r) by lra. apply (Rmult_le_reg_r r); [lra|]. rewrite Rmult_assoc, Rinv_l by lra. lra. }
  assert (Er' : Rabs r <= r) by (rewrite Rabs_pos_eq; lra).
  assert (DR : 0 <= d * r <= / 1000 * r) by (split; [apply Rmult_le_pos; lra|apply Rmult_le_compat_r; lra]).
  assert (DU : 0 <= d * (u * r) <= / 1000 * (u * r)) by (split; [apply Rmult_le_pos; lra|apply Rmult_le_compat_r; lra]).
  assert (DUU : 0 <= d * (u * (u * r)) <= / 1000 * (u * (u * r))) by (split; [apply Rmult_le_pos; lra|apply Rmult_le_compat_r; lra]).
  split; [|split; [exact Ea|]].
  - replace b with (r * (b / r)) by (field; lra). eapply apx_weak; [apply (times_trig prec emax _ _ _ _ _ _ r A Gs Er' Bb); lra|]. lra.
  - replace (B2R (gz c)) with (r * (B2R (gz c) / r)) by (field; lra). eapply apx_weak; [apply (times_trig prec emax _ _ _ _ _ _ r A Gc Er' Bz); lra|]. lra.
Qed.

(** the same point in Cartesian coordinates, on the x axis *)
Definition on_axis (c : gvec fl) : gvec fl := mkGV (gx c) (B754_zero false) (gz c).
Lemma on_axis_radial c : radial prec emax (on_axis c) = from_origin c.
Proof. unfold radial, from_origin, on_axis. cbn [gx gy gz B2R]. f_equal. ring. Qed.
Lemma on_axis_axial c : axial prec emax (on_axis c) = Rabs (B2R (gx c)).
Proof. unfold axial, on_axis. cbn [gx gy gz B2R]. rewrite Rmult_0_l, Rplus_0_r. apply sqrt_Rsqr_abs. Qed.

(** there and back: the height to full precision, the azimuth exactly, the distance from the axis to half the digits at worst *)
Theorem C137_cylindrical_spherical_round_trip : forall (t : trig fl) (a : angles fl) c, accurate t (2 * u) -> accurate_angles a (4 * u) -> finite3 prec emax c ->
  0 <= B2R (gx c) -> fair prec emax (from_origin c) ->
  let q := g_cyl_of_sph o t (g_sph_of_cyl o a c) in
  apx (gx q) (B2R (gx c)) (4 * sqrt u * from_origin c) /\ gy q = gy c /\ apx (gz q) (B2R (gz c)) (17 * u * from_origin c).
Proof.
  intros t a c T Aa Fc Px Fr q. base. pose proof (sqrt_pos u) as Ps. pose proof (sqrt_sqrt u ltac:(lra)) as Es.
  assert (S12 : sqrt u <= / 4096) by (apply Rsqr_incr_0; [unfold Rsqr; lra|lra|lra]). assert (Us : u <= / 4096 * sqrt u) by (rewrite <- Es at 1; apply Rmult_le_compat_r; lra).
  assert (Pr : 0 < from_origin c) by apply Fr.
  assert (S10 : sqrt (1006 / 100 * u) <= 3172 / 1000 * sqrt u).
  { rewrite <- (sqrt_square (3172 / 1000 * sqrt u)) by lra. apply sqrt_le_1_alt. nra. }
  destruct (cylindrical_back t a c (sqrt (1006 / 100 * u)) T Aa Fc Fr) as (X & Y & Z).
  - intros k C1 C2. rewrite <- on_axis_radial in C2, Pr. change (gz c) with (gz (on_axis c)) in C2. destruct (cosine_gap prec emax (on_axis c) k Pr C1 C2) as (N1 & N2 & N3).
    rewrite <- on_axis_radial, <- on_axis_axial. rewrite (proj1 (axial_ratio prec emax (on_axis c) Pr)). eapply Rle_trans; [apply (proj1 (root_gap _ _ N1 N2))|]. apply sqrt_le_1_alt. exact N3.
  - split; [apply sqrt_pos|lra].
  - rewrite Rabs_pos_eq in X by exact Px. split; [|split; [exact Y|exact Z]]. eapply apx_weak; [exact X|]. apply Rmult_le_compat_r; lra.
Qed.
(** away from the poles, to full precision *)
Theorem C137_cylindrical_spherical_round_trip_away : forall (t : trig fl) (a : angles fl) c, accurate t (2 * u) -> accurate_angles a (4 * u) -> finite3 prec emax c ->
  fair prec emax (from_origin c) -> from_origin c <= 1000 * B2R (gx c) ->
  apx (gx (g_cyl_of_sph o t (g_sph_of_cyl o a c))) (B2R (gx c)) (23 * u * from_origin c * (from_origin c / B2R (gx c))).
Proof.
  intros t a c T Aa Fc Fr Aw. base. assert (Pr : 0 < from_origin c) by apply Fr. assert (Pb : 0 < B2R (gx c)) by lra.
  assert (Br : Rabs (B2R (gx c)) <= from_origin c) by (rewrite <- sqrt_Rsqr_abs; apply sqrt_le_1_alt; pose proof (Rle_0_sqr (B2R (gz c))); unfold Rsqr in *; lra). rewrite Rabs_pos_eq in Br by lra.
  remember (from_origin c / B2R (gx c)) as k eqn:HK. assert (K1 : 1 <= k <= 1000).
  { rewrite HK. split; apply (Rmult_le_reg_r (B2R (gx c))); try lra; unfold Rdiv; rewrite Rmult_assoc, Rinv_l by lra; lra. }
  assert (Uk : 0 <= u * k <= / 16777216 * 1000) by (split; [apply Rmult_le_pos; lra|apply Rmult_le_compat; lra]). assert (U1 : u <= u * k) by (rewrite <- (Rmult_1_r u) at 1; apply Rmult_le_compat_l; lra).
  destruct (cylindrical_back t a c (1006 / 100 * (u * k)) T Aa Fc Fr) as (X & _).
  - intros l C1 C2. assert (Pr' := Pr). rewrite <- on_axis_radial in C2, Pr'. change (gz c) with (gz (on_axis c)) in C2. destruct (cosine_gap prec emax (on_axis c) l Pr' C1 C2) as (N1 & N2 & N3).
    pose proof (proj2 (root_gap _ _ N1 N2)) as Q. rewrite <- (proj1 (axial_ratio prec emax (on_axis c) Pr')) in Q. rewrite on_axis_radial, on_axis_axial, (Rabs_pos_eq (B2R (gx c))) in Q by lra. rewrite (Rabs_pos_eq (B2R (gx c))) by lra.
    assert (Pq : 0 < B2R (gx c) / from_origin c) by (apply Rmult_lt_0_compat; [lra|apply Rinv_0_lt_compat; lra]).
    rewrite on_axis_radial in N3. apply (Rmult_le_reg_l (B2R (gx c) / from_origin c)); [exact Pq|]. eapply Rle_trans; [exact Q|]. eapply Rle_trans; [exact N3|]. right. rewrite HK. field. lra.
  - lra.
  - rewrite Rabs_pos_eq in X by lra. eapply apx_weak; [exact X|]. replace (23 * u * from_origin c * k) with (23 * (u * k) * from_origin c) by ring. apply Rmult_le_compat_r; lra.
Qed.
End Width.

(** f64, a distance of one at 45 degrees *)
Example C137_cylindrical_spherical_nontrivial : exists t a, GeoFloatProps.accurate t (2 * unit 53) /\ accurate_angles a (4 * unit 53) /\
  let c := mkGV Bone (B754_zero false) Bone in finite3 53 1024 c /\ fair 53 1024 (from_origin c) /\ from_origin c <= 1000 * B2R (gx c) /\
  apx (gx (g_cyl_of_sph o64 t (g_sph_of_cyl o64 a c))) 1 (46 * unit 53).
Proof.
  exists (GeoFloatProps.nearest_trig 53 1024), (nearest_angles 53 1024).
  assert (T : GeoFloatProps.accurate (GeoFloatProps.nearest_trig 53 1024) (2 * unit 53)) by (apply GeoFloatProps.nearest_accurate; lia).
  assert (A : accurate_angles (nearest_angles 53 1024) (4 * unit 53)) by (apply nearest_angles_accurate; lia).
  split; [exact T|]. split; [exact A|]. cbv zeta.
  assert (E1 : B2R (@Bone 53 1024 p53 e53) = 1) by apply Bone_correct.
  set (c := mkGV (@Bone 53 1024 p53 e53) (B754_zero false) (@Bone 53 1024 p53 e53)).
  assert (Er : from_origin c = sqrt 2) by (unfold from_origin, c; cbn [gx gy gz]; rewrite E1; apply f_equal; lra).
  assert (Q1 : 1 <= sqrt 2) by (rewrite <- sqrt_1 at 1; apply sqrt_le_1_alt; lra).
  assert (Q3 : sqrt 2 <= 2) by (rewrite <- (sqrt_square 2) at 2 by lra; apply sqrt_le_1_alt; lra).
  assert (B1 : bpow radix2 (-500) <= 1) by (change 1 with (bpow radix2 0); apply bpow_le; lia).
  assert (B2 : 2 <= bpow radix2 510) by (replace 2 with (bpow radix2 1) by (cbn; lra); apply bpow_le; lia).
  assert (Fc : finite3 53 1024 c) by (split; [|split]; reflexivity).
  assert (Fr : fair 53 1024 (from_origin c)) by (apply fair64; rewrite Er; lra).
  assert (Aw : from_origin c <= 1000 * B2R (gx c)) by (rewrite Er; unfold c; cbn [gx]; rewrite E1; lra).
  split; [exact Fc|]. split; [exact Fr|]. split; [exact Aw|].
  pose proof (C137_cylindrical_spherical_round_trip_away 53 1024 ltac:(lia) ltac:(lia) _ _ c T A Fc Fr Aw) as X.
  assert (G1 : B2R (gx c) = 1) by exact E1. rewrite G1, Er in X. eapply apx_weak; [exact X|].
  pose proof (sqrt_sqrt 2 ltac:(lra)) as S2. right. unfold Rdiv. rewrite Rinv_1, Rmult_1_r, Rmult_assoc, S2. ring.
Qed.
