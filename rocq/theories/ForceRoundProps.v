(** C140: the apparent forces of the rotating Earth and the gravity of the Moon in floating point. *)
From Coq Require Import ZArith QArith Qreals Reals Lra Lia Bool Arith Psatz.
From Verif Require Import Scalar RSum LinModel Geo3 Wgs84Model ForceFloatModel.
From Flocq Require Import Core BinarySingleNaN.
From Verif Require Import FloatModel RoundProps StatsFloatProps InterpFloatProps Apx AtmRoundProps.
From Verif Require StatsModel ForceProps GeoFloatProps.
Local Open Scope R_scope.

(** ** Specification *)
(** the vector of the values of three floats *)
Definition value3 {prec emax} (a : nat -> binary_float prec emax) : V3 := mkV (B2R (a 0%nat)) (B2R (a 1%nat)) (B2R (a 2%nat)).
(** three finite floats, none larger than [b] *)
Definition sized {prec emax} (a : nat -> binary_float prec emax) (b : R) : Prop := forall i, (i < 3)%nat -> is_finite (a i) = true /\ Rabs (B2R (a i)) <= b.
(** three finite floats, each within [e] of the component of the vector *)
Definition apx3 {prec emax} (a : nat -> binary_float prec emax) (v : V3) (e : R) : Prop :=
  apx (a 0%nat) (vx v) e /\ apx (a 1%nat) (vy v) e /\ apx (a 2%nat) (vz v) e.
(** a third power within three units *)
Definition accurate_cube {prec emax} (f : binary_float prec emax -> binary_float prec emax) : Prop :=
  forall x, is_finite x = true -> / 2 <= B2R x <= 2 * 10 ^ 9 -> near (f x) (B2R x ^ 3) 3.

(** ** The two models are one code *)
Lemma eps_R : g_epsilon Rops = StatsModel.eps.
Proof. unfold g_epsilon. change (lit Rops (1 # 4503599627370496)) with (Q2R (1 # 4503599627370496)). unfold StatsModel.eps, Q2R. cbn [Qnum Qden]. lra. Qed.
Theorem C140_same_code : forall om v p mu m,
  vof (g_coriolis_force Rops (vfun om) (vfun v) m) = solve_coriolis_force om v m /\
  vof (g_centrifugal_force Rops (vfun om) (vfun p) m) = solve_centrifugal_force om p m /\
  vof (g_lunar_acceleration Rops (fun r => r ^ 3) mu (vfun p)) = moon_gravitational_acceleration mu p /\
  vof (g_lunar_force Rops (fun r => r ^ 3) mu (vfun p) m) = moon_gravitational_force mu p m.
Proof.
  intros om v p mu m. assert (A : vof (g_lunar_acceleration Rops (fun r => r ^ 3) mu (vfun p)) = moon_gravitational_acceleration mu p).
  { unfold g_lunar_acceleration, moon_gravitational_acceleration. rewrite eps_R. change (leb Rops) with Rleb. destruct (Rleb _ _); reflexivity. }
  split; [|split; [reflexivity|split; [exact A|]]].
  - unfold solve_coriolis_force, g_coriolis_force. replace (lit Rops (2 # 1)) with 2 by (cbn; unfold Q2R; cbn; lra). reflexivity.
  - unfold g_lunar_force, moon_gravitational_force. rewrite <- A. reflexivity.
Qed.

Section Width.
Context (prec emax : Z) {P : Prec_gt_0 prec} {M : Prec_lt_emax prec emax}.
Context (Hp : (53 <= prec)%Z) (He : (1024 <= emax)%Z).
Local Notation fl := (binary_float prec emax).
Local Notation u := (unit prec).
Local Notation eta := (tiny prec emax).
Local Notation o := (float_ops prec emax).

Lemma largest30 : 10 ^ 30 <= largest prec emax.
Proof.
  unfold largest. assert (B : bpow radix2 (emax - prec) <= bpow radix2 (emax - 1)) by (apply bpow_le; lia).
  assert (C : bpow radix2 emax = 2 * bpow radix2 (emax - 1)) by (replace emax with (1 + (emax - 1))%Z at 1 by lia; rewrite bpow_plus; reflexivity).
  assert (D : bpow radix2 100 <= bpow radix2 (emax - 1)) by (apply bpow_le; lia). assert (E : 10 ^ 30 <= bpow radix2 100) by (cbn; lra). lra.
Qed.
Ltac facts := pose proof (u_pos prec) as Pu; pose proof (u53 prec Hp) as U; pose proof (eta_pos prec emax) as Pe; pose proof (eta_small prec emax He) as Es; pose proof largest30 as G.
Ltac second w := let H := fresh "Sm" in assert (H : 0 <= u * (u * w) <= / 10 ^ 15 * (u * w)) by (split; [apply Rmult_le_pos; [lra|apply Rmult_le_pos; lra]|apply Rmult_le_compat_r; [apply Rmult_le_pos; lra|lra]]).

Lemma cross_comp (a b c d : fl) w v : is_finite a = true -> is_finite c = true -> is_finite b = true -> is_finite d = true ->
  Rabs (B2R a) <= w -> Rabs (B2R c) <= w -> Rabs (B2R b) <= v -> Rabs (B2R d) <= v -> w * v <= 10 ^ 25 ->
  apx (sub o (mul o a b) (mul o c d)) (B2R a * B2R b - B2R c * B2R d) (401 / 100 * (u * (w * v)) + 201 / 100 * eta) /\
  Rabs (B2R a * B2R b - B2R c * B2R d) <= 2 * (w * v).
Proof.
  intros Fa Fc Fb Fd Ha Hc Hb Hd L. facts. pose proof (Rabs_pos (B2R a)). pose proof (Rabs_pos (B2R b)).
  assert (Wv : 0 <= w * v) by (apply Rmult_le_pos; lra).
  pose proof (apx_mul prec emax a b _ _ _ _ w v (apx_exact _ _ a Fa) (apx_exact _ _ b Fb) Ha Hb ltac:(rewrite !Rplus_0_r; lra)) as K1.
  pose proof (apx_mul prec emax c d _ _ _ _ w v (apx_exact _ _ c Fc) (apx_exact _ _ d Fd) Hc Hd ltac:(rewrite !Rplus_0_r; lra)) as K2.
  rewrite !Rplus_0_r, !Rmult_0_r, !Rplus_0_l in K1, K2.
  assert (B1 : Rabs (B2R a * B2R b) <= w * v) by (rewrite Rabs_mult; apply Rmult_le_compat; try apply Rabs_pos; assumption).
  assert (B2 : Rabs (B2R c * B2R d) <= w * v) by (rewrite Rabs_mult; apply Rmult_le_compat; try apply Rabs_pos; assumption).
  assert (B : Rabs (B2R a * B2R b - B2R c * B2R d) <= 2 * (w * v)) by (eapply Rle_trans; [apply Rabs_triang|]; rewrite Rabs_Ropp; lra).
  split; [|exact B]. remember (w * v) as z eqn:Hz. clear Hz.
  assert (Uz : 0 <= u * z <= / 10 ^ 15 * z) by (split; [apply Rmult_le_pos; lra|apply Rmult_le_compat_r; lra]).
  assert (Ue : 0 <= u * eta <= / 10 ^ 15 * eta) by (split; [apply Rmult_le_pos; lra|apply Rmult_le_compat_r; lra]). second z.
  eapply apx_weak; [apply (apx_sub prec emax) with (1 := K1) (2 := K2) (3 := B); lra|]. lra.
Qed.

Lemma two_exact : is_finite (lit o (2 # 1) : fl) = true /\ B2R (lit o (2 # 1) : fl) = 2.
Proof. apply (lit_int prec emax Hp He 2). cbn. lia. Qed.

(** ** Coriolis *)
Theorem C140_coriolis : forall (om v : nat -> fl) (m : fl) W V K, sized om W -> sized v V -> is_finite m = true -> Rabs (B2R m) <= K -> W * V <= 10 ^ 20 -> W * V * K <= 10 ^ 25 -> K <= 10 ^ 25 ->
  apx3 (g_coriolis_force o om v m) (solve_coriolis_force (value3 om) (value3 v) (B2R m)) (17 * u * (W * V * K) + (6 * K + 1) * eta).
Proof.
  intros om v m W V K SO SV Fm Bm L1 L2 L3. facts. pose proof (Rabs_pos (B2R m)) as PK. destruct two_exact as [F2 E2].
  assert (PW : 0 <= W) by (destruct (SO 0%nat) as [_ H]; [lia|]; pose proof (Rabs_pos (B2R (om 0%nat))); lra).
  assert (PV : 0 <= V) by (destruct (SV 0%nat) as [_ H]; [lia|]; pose proof (Rabs_pos (B2R (v 0%nat))); lra).
  assert (PWV : 0 <= W * V) by (apply Rmult_le_pos; assumption).
  assert (G0 : forall (x : fl) X, apx x X (401 / 100 * (u * (W * V)) + 201 / 100 * eta) -> Rabs X <= 2 * (W * V) ->
    apx (neg o (mul o (mul o x (lit o (2 # 1))) m)) (- (X * 2 * B2R m)) (17 * u * (W * V * K) + (6 * K + 1) * eta)).
  { intros x X Ax BX. apply apx_neg. remember (W * V) as z eqn:Hz. clear Hz.
    assert (Uz : 0 <= u * z <= / 10 ^ 15 * z) by (split; [apply Rmult_le_pos; lra|apply Rmult_le_compat_r; lra]).
    assert (Ue : 0 <= u * eta <= / 10 ^ 15 * eta) by (split; [apply Rmult_le_pos; lra|apply Rmult_le_compat_r; lra]). second z.
    pose proof (apx_exact _ _ _ F2) as A2. rewrite E2 in A2.
    assert (A3 : apx (mul o x (lit o (2 # 1))) (X * 2) (1203 / 100 * (u * z) + 503 / 100 * eta)).
    { eapply apx_weak; [apply (apx_mul prec emax) with (1 := Ax) (2 := A2) (3 := BX) (by_ := 2)|]. 
      - rewrite Rabs_pos_eq by lra. lra. 
      - lra.
      - lra. }
    assert (B3 : Rabs (X * 2) <= 4 * z) by (rewrite Rabs_mult, (Rabs_pos_eq 2); lra).
    assert (Hk : 0 <= K * eta) by (apply Rmult_le_pos; lra). assert (Hku : 0 <= u * (K * eta) <= / 10 ^ 15 * (K * eta)) by (split; [apply Rmult_le_pos; lra|apply Rmult_le_compat_r; lra]).
    assert (Hzk : 0 <= z * K) by (apply Rmult_le_pos; lra).
    assert (Huzk : 0 <= u * (z * K) <= / 10 ^ 15 * (z * K)) by (split; [apply Rmult_le_pos; lra|apply Rmult_le_compat_r; lra]). second (z * K).
    assert (Keta : K * eta <= 1) by (apply Rle_trans with (10 ^ 25 * (/ 10 ^ 25 * / 10 ^ 15)); [apply Rmult_le_compat; lra|lra]).
    eapply apx_weak; [apply (apx_mul prec emax) with (1 := A3) (2 := apx_exact _ _ _ Fm) (3 := B3) (4 := Bm)|].
    - rewrite Rplus_0_r. replace ((4 * z + (1203 / 100 * (u * z) + 503 / 100 * eta)) * K) with (4 * (z * K) + 1203 / 100 * (u * (z * K)) + 503 / 100 * (K * eta)) by field. lra.
    - replace (4 * z * 0 + K * (1203 / 100 * (u * z) + 503 / 100 * eta) + (1203 / 100 * (u * z) + 503 / 100 * eta) * 0 + u * ((4 * z + (1203 / 100 * (u * z) + 503 / 100 * eta)) * (K + 0)) + eta)
        with (1603 / 100 * (u * (z * K)) + 1203 / 100 * (u * (u * (z * K))) + 503 / 100 * (K * eta) + 503 / 100 * (u * (K * eta)) + eta) by field. lra. }
  assert (L4 : W * V <= 10 ^ 25) by lra. pose proof (ForceProps.coriolis_eq (value3 om) (value3 v) (B2R m)) as EQ. rewrite EQ.
  unfold apx3, Vscale, Cross, value3. cbn [vx vy vz].
  destruct (SO 0%nat ltac:(lia)) as [Fo0 Bo0]. destruct (SO 1%nat ltac:(lia)) as [Fo1 Bo1]. destruct (SO 2%nat ltac:(lia)) as [Fo2 Bo2].
  destruct (SV 0%nat ltac:(lia)) as [Fv0 Bv0]. destruct (SV 1%nat ltac:(lia)) as [Fv1 Bv1]. destruct (SV 2%nat ltac:(lia)) as [Fv2 Bv2].
  split; [|split].
  - destruct (cross_comp (om 1%nat) (v 2%nat) (om 2%nat) (v 1%nat) W V Fo1 Fo2 Fv2 Fv1 Bo1 Bo2 Bv2 Bv1 L4) as [A B]. specialize (G0 _ _ A B).
    match goal with |- apx _ ?Y _ => replace Y with (- ((B2R (om 1%nat) * B2R (v 2%nat) - B2R (om 2%nat) * B2R (v 1%nat)) * 2 * B2R m)) by ring end. exact G0.
  - destruct (cross_comp (om 2%nat) (v 0%nat) (om 0%nat) (v 2%nat) W V Fo2 Fo0 Fv0 Fv2 Bo2 Bo0 Bv0 Bv2 L4) as [A B]. specialize (G0 _ _ A B).
    match goal with |- apx _ ?Y _ => replace Y with (- ((B2R (om 2%nat) * B2R (v 0%nat) - B2R (om 0%nat) * B2R (v 2%nat)) * 2 * B2R m)) by ring end. exact G0.
  - destruct (cross_comp (om 0%nat) (v 1%nat) (om 1%nat) (v 0%nat) W V Fo0 Fo1 Fv1 Fv0 Bo0 Bo1 Bv1 Bv0 L4) as [A B]. specialize (G0 _ _ A B).
    match goal with |- apx _ ?Y _ => replace Y with (- ((B2R (om 0%nat) * B2R (v 1%nat) - B2R (om 1%nat) * B2R (v 0%nat)) * 2 * B2R m)) by ring end. exact G0.
Qed.

(** Its power is zero up to rounding: the exact force is perpendicular to the velocity. *)
Lemma dot3_small (f : nat -> fl) F e (v : nat -> fl) V : apx3 f F e -> sized v V -> 0 <= V -> Dot F (value3 v) = 0 -> Rabs (Dot (value3 f) (value3 v)) <= 3 * (V * e).
Proof.
  intros (H0 & H1 & H2) SV PV D. destruct H0 as [_ H0]. destruct H1 as [_ H1]. destruct H2 as [_ H2].
  destruct (SV 0%nat ltac:(lia)) as [_ B0]. destruct (SV 1%nat ltac:(lia)) as [_ B1]. destruct (SV 2%nat ltac:(lia)) as [_ B2].
  unfold Dot, value3 in *. cbn [vx vy vz] in *.
  replace (B2R (f 0%nat) * B2R (v 0%nat) + B2R (f 1%nat) * B2R (v 1%nat) + B2R (f 2%nat) * B2R (v 2%nat))
    with ((B2R (f 0%nat) - vx F) * B2R (v 0%nat) + (B2R (f 1%nat) - vy F) * B2R (v 1%nat) + (B2R (f 2%nat) - vz F) * B2R (v 2%nat)) by lra.
  assert (T : forall x y, Rabs x <= e -> Rabs y <= V -> Rabs (x * y) <= V * e) by (intros x y Hx Hy; rewrite Rabs_mult, (Rmult_comm V); apply Rmult_le_compat; try apply Rabs_pos; assumption).
  eapply Rle_trans; [apply Rabs_triang|]. eapply Rle_trans; [apply Rplus_le_compat_r, Rabs_triang|].
  pose proof (T _ _ H0 B0). pose proof (T _ _ H1 B1). pose proof (T _ _ H2 B2). lra.
Qed.
Theorem C140_coriolis_power : forall (om v : nat -> fl) (m : fl) W V K, sized om W -> sized v V -> is_finite m = true -> Rabs (B2R m) <= K -> W * V <= 10 ^ 20 -> W * V * K <= 10 ^ 25 -> K <= 10 ^ 25 ->
  Rabs (Dot (value3 (g_coriolis_force o om v m)) (value3 v)) <= 51 * u * (W * V ^ 2 * K) + 3 * V * (6 * K + 1) * eta.
Proof.
  intros om v m W V K SO SV Fm Bm L1 L2 L3. pose proof (C140_coriolis om v m W V K SO SV Fm Bm L1 L2 L3) as A.
  assert (PV : 0 <= V) by (destruct (SV 0%nat) as [_ H]; [lia|]; pose proof (Rabs_pos (B2R (v 0%nat))); lra).
  eapply Rle_trans; [apply (dot3_small _ _ _ v V A SV PV)|]; [|right; ring].
  rewrite ForceProps.coriolis_eq. unfold Dot, Vscale, Cross. cbn [vx vy vz]. ring.
Qed.

(** ** Centrifugal force *)
Theorem C140_centrifugal : forall (om p : nat -> fl) (m : fl) W L K, sized om W -> sized p L -> is_finite m = true -> Rabs (B2R m) <= K ->
  W <= 10 ^ 5 -> W * L <= 10 ^ 15 -> W * (W * L) <= 10 ^ 15 -> W * (W * L) * K <= 10 ^ 25 -> K <= 10 ^ 20 ->
  apx3 (g_centrifugal_force o om p m) (solve_centrifugal_force (value3 om) (value3 p) (B2R m)) (21 * u * (W * (W * L) * K) + ((5 * W + 3) * K + 1) * eta).
Proof.
  intros om p m W L K SO SP Fm Bm L0 L1 L2 L3 L4. facts. pose proof (Rabs_pos (B2R m)) as PK.
  assert (PW : 0 <= W) by (destruct (SO 0%nat) as [_ H]; [lia|]; pose proof (Rabs_pos (B2R (om 0%nat))); lra).
  assert (PL : 0 <= L) by (destruct (SP 0%nat) as [_ H]; [lia|]; pose proof (Rabs_pos (B2R (p 0%nat))); lra).
  assert (PWL : 0 <= W * L) by (apply Rmult_le_pos; assumption). assert (PWWL : 0 <= W * (W * L)) by (apply Rmult_le_pos; assumption).
  assert (L5 : W * L <= 10 ^ 25) by lra.
  assert (G0 : forall (a b c d : fl) B D, is_finite a = true -> Rabs (B2R a) <= W -> is_finite c = true -> Rabs (B2R c) <= W ->
    apx b B (401 / 100 * (u * (W * L)) + 201 / 100 * eta) -> Rabs B <= 2 * (W * L) -> apx d D (401 / 100 * (u * (W * L)) + 201 / 100 * eta) -> Rabs D <= 2 * (W * L) ->
    apx (neg o (mul o (sub o (mul o a b) (mul o c d)) m)) (- ((B2R a * B - B2R c * D) * B2R m)) (21 * u * (W * (W * L) * K) + ((5 * W + 3) * K + 1) * eta)).
  { intros a b c d B D Fa Ba Fc Bc Ab Bb Ad Bd. apply apx_neg. remember (W * L) as z eqn:Hz. clear Hz. set (e := 401 / 100 * (u * z) + 201 / 100 * eta) in *.
    assert (Uz : 0 <= u * z <= / 10 ^ 15 * z) by (split; [apply Rmult_le_pos; lra|apply Rmult_le_compat_r; lra]).
    assert (WZ : 0 <= u * (W * z) <= / 10 ^ 15 * (W * z)) by (split; [apply Rmult_le_pos; lra|apply Rmult_le_compat_r; lra]). second (W * z).
    assert (We : 0 <= W * eta) by (apply Rmult_le_pos; lra). assert (Wl : W * eta <= 1) by (apply Rle_trans with (10 ^ 5 * / 10 ^ 25); [apply Rmult_le_compat; lra|lra]).
    assert (UWe : 0 <= u * (W * eta) <= / 10 ^ 15 * (W * eta)) by (split; [apply Rmult_le_pos; lra|apply Rmult_le_compat_r; lra]).
    assert (Ue : 0 <= u * eta <= / 10 ^ 15 * eta) by (split; [apply Rmult_le_pos; lra|apply Rmult_le_compat_r; lra]).
    assert (T : forall x y Y, is_finite x = true -> Rabs (B2R x) <= W -> apx y Y e -> Rabs Y <= 2 * z ->
      apx (mul o x y) (B2R x * Y) (602 / 100 * (u * (W * z)) + 202 / 100 * (W * eta) + eta) /\ Rabs (B2R x * Y) <= 2 * (W * z)).
    { intros x y Y Fx Bx Ay By. split.
      - eapply apx_weak; [apply (apx_mul prec emax) with (1 := apx_exact _ _ x Fx) (2 := Ay) (3 := Bx) (4 := By)|]; unfold e.
        + replace ((W + 0) * (2 * z + (401 / 100 * (u * z) + 201 / 100 * eta))) with (2 * (W * z) + 401 / 100 * (u * (W * z)) + 201 / 100 * (W * eta)) by field. lra.
        + replace (W * (401 / 100 * (u * z) + 201 / 100 * eta) + 2 * z * 0 + 0 * (401 / 100 * (u * z) + 201 / 100 * eta) + u * ((W + 0) * (2 * z + (401 / 100 * (u * z) + 201 / 100 * eta))) + eta)
            with (601 / 100 * (u * (W * z)) + 401 / 100 * (u * (u * (W * z))) + 201 / 100 * (W * eta) + 201 / 100 * (u * (W * eta)) + eta) by field. lra.
      - rewrite Rabs_mult. apply Rle_trans with (W * (2 * z)); [apply Rmult_le_compat; try apply Rabs_pos; assumption|lra]. }
    destruct (T a b B Fa Ba Ab Bb) as [T1 B1]. destruct (T c d D Fc Bc Ad Bd) as [T2 B2]. clear T.
    assert (B3 : Rabs (B2R a * B - B2R c * D) <= 4 * (W * z)) by (eapply Rle_trans; [apply Rabs_triang|]; rewrite Rabs_Ropp; lra).
    assert (T3 : apx (sub o (mul o a b) (mul o c d)) (B2R a * B - B2R c * D) (1606 / 100 * (u * (W * z)) + 405 / 100 * (W * eta) + 201 / 100 * eta)).
    { eapply apx_weak; [apply (apx_sub prec emax) with (1 := T1) (2 := T2) (3 := B3); lra|]. lra. }
    remember (W * z) as y eqn:Hy. clear Hy. remember (W * eta) as f eqn:Hf.
    assert (YK : 0 <= u * (y * K) <= / 10 ^ 15 * (y * K)) by (split; [repeat apply Rmult_le_pos; lra|apply Rmult_le_compat_r; [apply Rmult_le_pos; lra|lra]]).
    assert (YK0 : 0 <= y * K) by (apply Rmult_le_pos; lra). second (y * K).
    assert (FK : 0 <= f * K) by (apply Rmult_le_pos; lra). assert (UFK : 0 <= u * (f * K) <= / 10 ^ 15 * (f * K)) by (split; [apply Rmult_le_pos; lra|apply Rmult_le_compat_r; lra]).
    assert (EK : 0 <= K * eta) by (apply Rmult_le_pos; lra). assert (UEK : 0 <= u * (K * eta) <= / 10 ^ 15 * (K * eta)) by (split; [apply Rmult_le_pos; lra|apply Rmult_le_compat_r; lra]).
    assert (FK1 : f * K <= 10 ^ 20) by (apply Rle_trans with (1 * 10 ^ 20); [apply Rmult_le_compat; lra|lra]).
    assert (EK1 : K * eta <= 10 ^ 20) by (apply Rle_trans with (10 ^ 20 * 1); [apply Rmult_le_compat; lra|lra]).
    eapply apx_weak; [apply (apx_mul prec emax) with (1 := T3) (2 := apx_exact _ _ _ Fm) (3 := B3) (4 := Bm)|].
    - rewrite Rplus_0_r. replace ((4 * y + (1606 / 100 * (u * y) + 405 / 100 * f + 201 / 100 * eta)) * K) with (4 * (y * K) + 1606 / 100 * (u * (y * K)) + 405 / 100 * (f * K) + 201 / 100 * (K * eta)) by field. lra.
    - replace (((5 * W + 3) * K + 1) * eta) with (5 * (f * K) + 3 * (K * eta) + eta) by (rewrite Hf; ring).
      replace (4 * y * 0 + K * (1606 / 100 * (u * y) + 405 / 100 * f + 201 / 100 * eta) + (1606 / 100 * (u * y) + 405 / 100 * f + 201 / 100 * eta) * 0 +
        u * ((4 * y + (1606 / 100 * (u * y) + 405 / 100 * f + 201 / 100 * eta)) * (K + 0)) + eta)
        with (2006 / 100 * (u * (y * K)) + 1606 / 100 * (u * (u * (y * K))) + 405 / 100 * (f * K) + 405 / 100 * (u * (f * K)) + 201 / 100 * (K * eta) + 201 / 100 * (u * (K * eta)) + eta) by field. lra. }
  destruct (SO 0%nat ltac:(lia)) as [Fo0 Bo0]. destruct (SO 1%nat ltac:(lia)) as [Fo1 Bo1]. destruct (SO 2%nat ltac:(lia)) as [Fo2 Bo2].
  destruct (SP 0%nat ltac:(lia)) as [Fv0 Bv0]. destruct (SP 1%nat ltac:(lia)) as [Fv1 Bv1]. destruct (SP 2%nat ltac:(lia)) as [Fv2 Bv2].
  destruct (cross_comp (om 1%nat) (p 2%nat) (om 2%nat) (p 1%nat) W L Fo1 Fo2 Fv2 Fv1 Bo1 Bo2 Bv2 Bv1 L5) as [A0 C0].
  destruct (cross_comp (om 2%nat) (p 0%nat) (om 0%nat) (p 2%nat) W L Fo2 Fo0 Fv0 Fv2 Bo2 Bo0 Bv0 Bv2 L5) as [A1 C1].
  destruct (cross_comp (om 0%nat) (p 1%nat) (om 1%nat) (p 0%nat) W L Fo0 Fo1 Fv1 Fv0 Bo0 Bo1 Bv1 Bv0 L5) as [A2 C2].
  split; [|split].
  - exact (G0 _ _ _ _ _ _ Fo1 Bo1 Fo2 Bo2 A2 C2 A1 C1).
  - exact (G0 _ _ _ _ _ _ Fo2 Bo2 Fo0 Bo0 A0 C0 A2 C2).
  - exact (G0 _ _ _ _ _ _ Fo0 Bo0 Fo1 Bo1 A1 C1 A0 C0).
Qed.
(** It has no component along the axis up to rounding. *)
Theorem C140_centrifugal_axis : forall (om p : nat -> fl) (m : fl) W L K, sized om W -> sized p L -> is_finite m = true -> Rabs (B2R m) <= K ->
  W <= 10 ^ 5 -> W * L <= 10 ^ 15 -> W * (W * L) <= 10 ^ 15 -> W * (W * L) * K <= 10 ^ 25 -> K <= 10 ^ 20 ->
  Rabs (Dot (value3 (g_centrifugal_force o om p m)) (value3 om)) <= 63 * u * (W ^ 3 * L * K) + 3 * W * ((5 * W + 3) * K + 1) * eta.
Proof.
  intros om p m W L K SO SP Fm Bm L0 L1 L2 L3 L4. pose proof (C140_centrifugal om p m W L K SO SP Fm Bm L0 L1 L2 L3 L4) as A.
  assert (PW : 0 <= W) by (destruct (SO 0%nat) as [_ H]; [lia|]; pose proof (Rabs_pos (B2R (om 0%nat))); lra).
  eapply Rle_trans; [apply (dot3_small _ _ _ om W A SO PW)|]; [|right; ring].
  unfold Dot, solve_centrifugal_force, value3. cbn. ring.
Qed.

(** ** Gravity of the Moon *)
Lemma radius (p : nat -> fl) : (forall i, (i < 3)%nat -> is_finite (p i) = true) -> 1 <= Norm (value3 p) <= 10 ^ 9 -> near (norm o 3 p) (Norm (value3 p)) (42 / 10).
Proof.
  intros Fp B. facts. set (r := Norm (value3 p)) in *.
  assert (R2 : sum 3 (fun k => B2R (p k) * B2R (p k)) = r * r).
  { unfold r, Norm. rewrite sqrt_sqrt by (unfold Dot; pose proof (Rle_0_sqr (vx (value3 p))); pose proof (Rle_0_sqr (vy (value3 p))); pose proof (Rle_0_sqr (vz (value3 p))); unfold Rsqr in *; lra). unfold Dot, value3. cbn. ring. }
  assert (R3 : sum 3 (fun k => Rabs (B2R (p k) * B2R (p k))) = r * r).
  { rewrite <- R2. cbn. rewrite !(Rabs_pos_eq (B2R (p _) * B2R (p _))) by apply Rle_0_sqr. reflexivity. }
  assert (rr : 1 <= r * r <= 10 ^ 18) by (split; [rewrite <- (Rmult_1_l 1) at 1; apply Rmult_le_compat; lra|apply Rle_trans with (10 ^ 9 * 10 ^ 9); [apply Rmult_le_compat; lra|lra]]).
  assert (U3 : (1 + u) ^ 3 - 1 <= 301 / 100 * u) by (assert (u * u <= / 10 ^ 15 * u) by (apply Rmult_le_compat_r; lra); assert (u * (u * u) <= / 10 ^ 15 * u) by (apply Rle_trans with (u * / 10 ^ 15); [apply Rmult_le_compat_l; [lra|]; apply Rle_trans with (/ 10 ^ 15 * u); lra|lra]); cbn; lra).
  assert (U0 : 1 <= (1 + u) ^ 3) by (apply pow_R1_Rle; lra).
  destruct (C105_dot prec emax 3 p p) as [Cl Fi]. unfold dot_close in Cl. rewrite R2, R3 in Cl. assert (E3 : INR 3 = 3) by (cbn; lra). rewrite E3 in Cl.
  assert (Fd : is_finite (dot o 3 p p) = true).
  { apply Fi. split; [intros k Hk; split; apply Fp, Hk|]. rewrite R3. assert ((1 + u) ^ 3 * (r * r) <= 2 * (r * r)) by (apply Rmult_le_compat_r; lra).
    assert (3 * eta * (1 + u) ^ 3 <= 1 * 2) by (apply Rmult_le_compat; lra). rewrite E3. lra. }
  specialize (Cl Fd). change (norm o 3 p) with (sqrtf o (dot o 3 p p)).
  assert (Cl2 : Rabs (B2R (dot o 3 p p) - r * r) <= 303 / 100 * u * (r * r)).
  { eapply Rle_trans; [exact Cl|]. assert (((1 + u) ^ 3 - 1) * (r * r) <= 301 / 100 * u * (r * r)) by (apply Rmult_le_compat_r; lra).
    assert (3 * eta * (1 + u) ^ 3 <= 6 * eta) by (replace (6 * eta) with (3 * eta * 2) by ring; apply Rmult_le_compat; lra).
    assert (u * 1 <= u * (r * r)) by (apply Rmult_le_compat_l; lra). lra. }
  pose proof (conj Fd Cl2 : apx (dot o 3 p p) (r * r) _) as A. assert (Uq : u * (r * r) <= / 10 ^ 15 * (r * r)) by (apply Rmult_le_compat_r; lra).
  assert (Sq : sqrt (r * r) = r) by (apply sqrt_square; lra).
  pose proof (apx_sqrt prec emax _ _ _ r r A ltac:(lra) ltac:(lra) ltac:(lra) ltac:(lra)) as K. rewrite Sq in K.
  destruct K as [F K]. split; [exact F|]. eapply Rle_trans; [exact K|]. rewrite (Rabs_pos_eq r) by lra.
  replace (303 / 100 * u * (r * r) / r) with (303 / 100 * (u * r)) by (field; lra). assert (u * 1 <= u * r) by (apply Rmult_le_compat_l; lra).
  assert (u * (u * r) <= / 10 ^ 15 * (u * r)) by (apply Rmult_le_compat_r; lra). lra.
Qed.

Lemma leb_small (x y : fl) : is_finite x = true -> is_finite y = true -> B2R y < B2R x -> leb o x y = false.
Proof. intros Fx Fy L. change (leb o x y) with (Bleb x y). rewrite Bleb_correct by assumption. apply Rle_bool_false, L. Qed.

Context (cube : fl -> fl) (Cube : accurate_cube cube).
Theorem C140_lunar_acceleration : forall (mu : fl) (p : nat -> fl), (forall i, (i < 3)%nat -> is_finite (p i) = true) -> is_finite mu = true ->
  1 <= Norm (value3 p) <= 10 ^ 9 -> / 10 ^ 20 <= B2R mu / Norm (value3 p) ^ 3 <= 10 ^ 12 ->
  exists q, is_finite q = true /\ Rabs (B2R q - - B2R mu / Norm (value3 p) ^ 3) <= 17 * u * (B2R mu / Norm (value3 p) ^ 3) /\
    forall i, (i < 3)%nat -> g_lunar_acceleration o cube mu p i = mul o (p i) q /\
      apx (g_lunar_acceleration o cube mu p i) (- B2R mu / Norm (value3 p) ^ 3 * B2R (p i)) (19 * u * (B2R mu / Norm (value3 p) ^ 3 * Rabs (B2R (p i))) + eta).
Proof.
  intros mu p Fp Fm Br Bq. facts. pose proof (radius p Fp Br) as N. set (r := Norm (value3 p)) in *. destruct N as [Fn N]. set (x := norm o 3 p) in *.
  rewrite (Rabs_pos_eq r) in N by lra. assert (Ur : 0 <= u * r <= / 10 ^ 15 * r) by (split; [apply Rmult_le_pos; lra|apply Rmult_le_compat_r; lra]).
  assert (Bx : 99 / 100 * r <= B2R x <= 101 / 100 * r) by (apply Rabs_le_inv in N; lra).
  destruct (Cube x Fn ltac:(lra)) as [Fc Hc].
  assert (r3 : 1 <= r ^ 3) by (apply pow_R1_Rle; lra).
  assert (X3 : Rabs (B2R x ^ 3 - r ^ 3) <= 128 / 10 * u * r ^ 3).
  { set (d := (B2R x - r) / r). assert (Ex : B2R x = r * (1 + d)) by (unfold d; field; lra).
    assert (Hd : Rabs d <= 42 / 10 * u). { unfold d, Rdiv. rewrite Rabs_mult, (Rabs_pos_eq (/ r)) by (left; apply Rinv_0_lt_compat; lra). apply (Rmult_le_reg_r r); [lra|]. rewrite Rmult_assoc, Rinv_l by lra. lra. }
    rewrite Ex. replace ((r * (1 + d)) ^ 3 - r ^ 3) with (d * (3 + 3 * d + d * d) * r ^ 3) by ring. rewrite Rabs_mult, (Rabs_pos_eq (r ^ 3)) by lra. apply Rmult_le_compat_r; [lra|].
    rewrite Rabs_mult. apply Rle_trans with (42 / 10 * u * (304 / 100)); [|lra]. apply Rmult_le_compat; try apply Rabs_pos; [exact Hd|].
    apply Rabs_le_inv in Hd. assert (d * d <= / 100) by nra. apply Rabs_le. split; nra. }
  assert (N3 : near (cube x) (r ^ 3) (159 / 10)).
  { split; [exact Fc|]. rewrite (Rabs_pos_eq (r ^ 3)) by lra. replace (B2R (cube x) - r ^ 3) with ((B2R (cube x) - B2R x ^ 3) + (B2R x ^ 3 - r ^ 3)) by ring. eapply Rle_trans; [apply Rabs_triang|].
    assert (U3 : 0 <= u * r ^ 3 <= / 10 ^ 15 * r ^ 3) by (split; [apply Rmult_le_pos; lra|apply Rmult_le_compat_r; lra]).
    assert (B3 : Rabs (B2R x ^ 3) <= 101 / 100 * r ^ 3) by (apply Rabs_le_inv in X3; apply Rabs_le; lra).
    assert (3 * u * Rabs (B2R x ^ 3) <= 3 * u * (101 / 100 * r ^ 3)) by (apply Rmult_le_compat_l; lra). lra. }
  assert (Nm : near mu (B2R mu) 0) by (split; [exact Fm|rewrite Rminus_diag_eq by reflexivity; rewrite Rabs_R0; lra]).
  apply (near_neg prec emax) in Nm. set (Q := B2R mu / r ^ 3) in *. assert (EQ : - B2R mu / r ^ 3 = - Q) by (unfold Q; field; lra).
  pose proof (near_div prec emax Hp He _ _ _ _ _ _ Nm N3 ltac:(lra) ltac:(lra) ltac:(lra) ltac:(rewrite EQ, Rabs_Ropp, Rabs_pos_eq; lra)) as D. rewrite EQ in D |- *.
  destruct D as [Fq D]. rewrite Rabs_Ropp, (Rabs_pos_eq Q) in D by lra. set (q := div o (neg o mu) (cube x)) in *.
  assert (UQ : 0 <= u * Q <= / 10 ^ 15 * Q) by (split; [apply Rmult_le_pos; lra|apply Rmult_le_compat_r; lra]).
  exists q. split; [exact Fq|]. split; [lra|]. intros i Hi.
  assert (Ge : is_finite (g_epsilon o : fl) = true /\ B2R (g_epsilon o : fl) < / 100).
  { destruct (lit_value prec emax Hp He (1 # 4503599627370496)) as [F E]; [cbn; lia|cbn; lia|]. split; [exact F|]. unfold g_epsilon. rewrite E.
    destruct (rd_err prec emax (Q2R (1 # 4503599627370496))) as (a & d & A & D0 & ->). apply Rabs_le_inv in A. apply Rabs_le_inv in D0.
    assert (V : 0 <= Q2R (1 # 4503599627370496) <= / 10 ^ 15) by (unfold Q2R; cbn [Qnum Qden]; lra).
    assert (Q2R (1 # 4503599627370496) * (1 + a) <= / 10 ^ 15 * 2) by (apply Rmult_le_compat; lra). lra. }
  assert (E : g_lunar_acceleration o cube mu p i = mul o (p i) q).
  { unfold g_lunar_acceleration. fold x. rewrite (leb_small x (g_epsilon o) Fn (proj1 Ge)) by lra. fold q. destruct i as [|[|[|i]]]; [reflexivity|reflexivity|reflexivity|lia]. }
  split; [exact E|]. rewrite E. remember (Rabs (B2R (p i))) as y eqn:Hy. assert (Py : 0 <= y) by (rewrite Hy; apply Rabs_pos).
  assert (yr : y <= r).
  { rewrite Hy. unfold r, Norm. rewrite <- sqrt_Rsqr_abs. apply sqrt_le_1_alt. unfold Dot, value3, Rsqr. cbn [vx vy vz].
    pose proof (Rle_0_sqr (B2R (p 0%nat))). pose proof (Rle_0_sqr (B2R (p 1%nat))). pose proof (Rle_0_sqr (B2R (p 2%nat))). unfold Rsqr in *. destruct i as [|[|[|i]]]; [lra|lra|lra|lia]. }
  rewrite (Rmult_comm (- Q)). assert (QY : 0 <= Q * y <= 10 ^ 21) by (split; [apply Rmult_le_pos; lra|apply Rle_trans with (10 ^ 12 * 10 ^ 9); [apply Rmult_le_compat; lra|lra]]).
  assert (UQY : 0 <= u * (Q * y) <= / 10 ^ 15 * (Q * y)) by (split; [apply Rmult_le_pos; lra|apply Rmult_le_compat_r; lra]). second (Q * y).
  pose proof (conj Fq D : apx q (- Q) _) as Aq.
  eapply apx_weak; [apply (apx_mul prec emax) with (1 := apx_exact _ _ _ (Fp i Hi)) (2 := Aq) (bx := y) (by_ := Q); [rewrite Hy; lra|rewrite Rabs_Ropp, Rabs_pos_eq; lra|]|].
  - replace ((y + 0) * (Q + (0 + 159 / 10 + 101 / 100) * u * Q)) with (Q * y + 1691 / 100 * (u * (Q * y))) by field. lra.
  - replace (y * ((0 + 159 / 10 + 101 / 100) * u * Q) + Q * 0 + 0 * ((0 + 159 / 10 + 101 / 100) * u * Q) + u * ((y + 0) * (Q + (0 + 159 / 10 + 101 / 100) * u * Q)) + eta)
      with (1791 / 100 * (u * (Q * y)) + 1691 / 100 * (u * (u * (Q * y))) + eta) by field. lra.
Qed.

(** The vector against the exact one, whose size is mu / r^2. *)
Theorem C140_lunar : forall (mu m : fl) (p : nat -> fl) K, (forall i, (i < 3)%nat -> is_finite (p i) = true) -> is_finite mu = true -> is_finite m = true -> Rabs (B2R m) <= K -> K <= 10 ^ 8 ->
  1 <= Norm (value3 p) <= 10 ^ 9 -> / 10 ^ 20 <= B2R mu / Norm (value3 p) ^ 3 <= 10 ^ 12 ->
  apx3 (g_lunar_acceleration o cube mu p) (moon_gravitational_acceleration (B2R mu) (value3 p)) (19 * u * (B2R mu / Norm (value3 p) ^ 2) + eta) /\
  apx3 (g_lunar_force o cube mu p m) (moon_gravitational_force (B2R mu) (value3 p) (B2R m)) (21 * u * (B2R mu / Norm (value3 p) ^ 2 * K) + (2 * K + 1) * eta).
Proof.
  intros mu m p K Fp Fm Fk Bk Lk Br Bq. destruct (C140_lunar_acceleration mu p Fp Fm Br Bq) as (q & _ & _ & H). facts.
  set (r := Norm (value3 p)) in *. remember (B2R mu / r ^ 3) as Q eqn:HQ. assert (E2 : B2R mu / r ^ 2 = Q * r) by (rewrite HQ; field; lra). rewrite E2.
  assert (EQ : - B2R mu / r ^ 3 = - Q) by (rewrite HQ; field; lra). rewrite EQ in H. pose proof (Rabs_pos (B2R m)) as PK.
  assert (Qr : 0 <= Q * r <= 10 ^ 21) by (split; [apply Rmult_le_pos; lra|apply Rle_trans with (10 ^ 12 * 10 ^ 9); [apply Rmult_le_compat; lra|lra]]).
  assert (A : moon_gravitational_acceleration (B2R mu) (value3 p) = mkV (- Q * B2R (p 0%nat)) (- Q * B2R (p 1%nat)) (- Q * B2R (p 2%nat))).
  { unfold moon_gravitational_acceleration. rewrite norm3. fold r. rewrite (proj2 (Rleb_false _ _)) by (unfold StatsModel.eps; lra). rewrite scale3. unfold Vscale, value3. cbn [vx vy vz]. rewrite EQ. reflexivity. }
  assert (S : forall i, (i < 3)%nat -> Rabs (B2R (p i)) <= r).
  { intros i Hi. unfold r, Norm. rewrite <- sqrt_Rsqr_abs. apply sqrt_le_1_alt. unfold Dot, value3, Rsqr. cbn [vx vy vz].
    pose proof (Rle_0_sqr (B2R (p 0%nat))). pose proof (Rle_0_sqr (B2R (p 1%nat))). pose proof (Rle_0_sqr (B2R (p 2%nat))). unfold Rsqr in *. destruct i as [|[|[|i]]]; [lra|lra|lra|lia]. }
  assert (U1 : 0 <= u * (Q * r) <= / 10 ^ 15 * (Q * r)) by (split; [apply Rmult_le_pos; lra|apply Rmult_le_compat_r; lra]).
  assert (T : forall i, (i < 3)%nat -> apx (g_lunar_acceleration o cube mu p i) (- Q * B2R (p i)) (19 * u * (Q * r) + eta) /\ Rabs (- Q * B2R (p i)) <= Q * r).
  { intros i Hi. specialize (S i Hi). split.
    - eapply apx_weak; [apply (H i Hi)|]. apply Rplus_le_compat_r. apply Rmult_le_compat_l; [lra|]. apply Rmult_le_compat_l; lra.
    - rewrite Rabs_mult, Rabs_Ropp, (Rabs_pos_eq Q) by lra. apply Rmult_le_compat_l; lra. }
  split; [rewrite A; unfold apx3; cbn [vx vy vz]; split; [|split]; apply T; lia|].
  remember (Q * r) as z eqn:Hz. clear Hz.
  assert (ZK : 0 <= z * K <= 10 ^ 29) by (split; [apply Rmult_le_pos; lra|apply Rle_trans with (10 ^ 21 * 10 ^ 8); [apply Rmult_le_compat; lra|lra]]).
  assert (UZK : 0 <= u * (z * K) <= / 10 ^ 15 * (z * K)) by (split; [apply Rmult_le_pos; lra|apply Rmult_le_compat_r; lra]). second (z * K).
  assert (EK : 0 <= K * eta <= 1) by (split; [apply Rmult_le_pos; lra|apply Rle_trans with (10 ^ 8 * / 10 ^ 25); [apply Rmult_le_compat; lra|lra]]).
  assert (UEK : 0 <= u * (K * eta) <= / 10 ^ 15 * (K * eta)) by (split; [apply Rmult_le_pos; lra|apply Rmult_le_compat_r; lra]).
  assert (W : forall i, (i < 3)%nat -> apx (mul o (g_lunar_acceleration o cube mu p i) m) (- Q * B2R (p i) * B2R m) (21 * u * (z * K) + (2 * K + 1) * eta)).
  { intros i Hi. destruct (T i Hi) as [T1 T2]. eapply apx_weak; [apply (apx_mul prec emax) with (1 := T1) (2 := apx_exact _ _ _ Fk) (3 := T2) (4 := Bk)|].
    - rewrite Rplus_0_r. replace ((z + (19 * u * z + eta)) * K) with (z * K + 19 * (u * (z * K)) + K * eta) by ring. lra.
    - replace (z * 0 + K * (19 * u * z + eta) + (19 * u * z + eta) * 0 + u * ((z + (19 * u * z + eta)) * (K + 0)) + eta)
        with (20 * (u * (z * K)) + 19 * (u * (u * (z * K))) + K * eta + u * (K * eta) + eta) by ring. lra. }
  unfold moon_gravitational_force. rewrite scale3, A. unfold apx3, Vscale. cbn [vx vy vz].
  rewrite !(Rmult_comm (B2R m)). split; [|split]; apply W; lia.
Qed.
End Width.

(** Repeated multiplication is an accurate third power. *)
Lemma product_cube (prec emax : Z) {P : Prec_gt_0 prec} {M : Prec_lt_emax prec emax} : (53 <= prec)%Z -> (1024 <= emax)%Z ->
  accurate_cube (fun x : binary_float prec emax => mul (float_ops prec emax) (mul (float_ops prec emax) x x) x).
Proof.
  intros Hp He x F B. pose proof (u_pos prec) as Pu. pose proof (u53 prec Hp) as U. pose proof (eta_pos prec emax) as Pe. pose proof (eta_small prec emax He) as Es. pose proof (largest30 prec emax Hp He) as G.
  pose proof (apx_exact _ _ x F) as A. remember (B2R x) as y eqn:Hy. assert (By : Rabs y <= y) by (rewrite Rabs_pos_eq; lra).
  assert (yy : / 4 <= y * y <= 4 * 10 ^ 18) by (split; [apply Rle_trans with (/ 2 * / 2); [lra|apply Rmult_le_compat; lra]|apply Rle_trans with (2 * 10 ^ 9 * (2 * 10 ^ 9)); [apply Rmult_le_compat; lra|lra]]).
  assert (A2 : apx (mul (float_ops prec emax) x x) (y * y) (101 / 100 * unit prec * (y * y))).
  { eapply apx_weak; [apply (apx_mul prec emax) with (1 := A) (2 := A) (3 := By) (4 := By); rewrite Rplus_0_r; lra|].
    assert (unit prec * / 4 <= unit prec * (y * y)) by (apply Rmult_le_compat_l; lra). rewrite !Rplus_0_r, !Rmult_0_r. lra. }
  assert (y3 : / 8 <= y * y * y <= 8 * 10 ^ 27) by (split; [apply Rle_trans with (/ 4 * / 2); [lra|apply Rmult_le_compat; lra]|apply Rle_trans with (4 * 10 ^ 18 * (2 * 10 ^ 9)); [apply Rmult_le_compat; lra|lra]]).
  assert (E3 : y ^ 3 = y * y * y) by ring.
  assert (A3 : apx (mul (float_ops prec emax) (mul (float_ops prec emax) x x) x) (y * y * y) (3 * unit prec * Rabs (y * y * y))).
  { rewrite (Rabs_pos_eq (y * y * y)) by lra. assert (B2 : Rabs (y * y) <= y * y) by (rewrite Rabs_pos_eq; lra).
    remember (y * y * y) as c eqn:Hc. assert (Uc : unit prec * / 8 <= unit prec * c) by (apply Rmult_le_compat_l; lra). assert (UUc : 0 <= unit prec * (unit prec * c) <= / 10 ^ 15 * (unit prec * c)) by (split; [apply Rmult_le_pos; lra|apply Rmult_le_compat_r; lra]).
    assert (UcL : unit prec * c <= / 10 ^ 15 * c) by (apply Rmult_le_compat_r; lra). rewrite Hc.
    eapply apx_weak; [apply (apx_mul prec emax) with (1 := A2) (2 := A) (3 := B2) (4 := By)|].
    - replace ((y * y + 101 / 100 * unit prec * (y * y)) * (y + 0)) with (c + 101 / 100 * (unit prec * c)) by (rewrite Hc; ring). lra.
    - replace (y * y * 0 + y * (101 / 100 * unit prec * (y * y)) + 101 / 100 * unit prec * (y * y) * 0 + unit prec * ((y * y + 101 / 100 * unit prec * (y * y)) * (y + 0)) + tiny prec emax)
        with (201 / 100 * (unit prec * c) + 101 / 100 * (unit prec * (unit prec * c)) + tiny prec emax) by (rewrite Hc; field). rewrite <- Hc. lra. }
  rewrite E3. exact A3.
Qed.

(** ** A case: f64, an orbit around the Moon and a body moving over the rotating Earth *)
Local Instance p53 : Prec_gt_0 53 := eq_refl.
Local Instance e53 : Prec_lt_emax 53 1024 := eq_refl.
Definition power (e : Z) (H : SpecFloat.bounded 53 1024 4503599627370496 e = true) : binary_float 53 1024 := B754_finite false 4503599627370496 e H.
Definition turn : nat -> binary_float 53 1024 := fun i => match i with 2%nat => power (-66) eq_refl | _ => B754_zero false end.
Definition far : nat -> binary_float 53 1024 := fun i => match i with 0%nat => power (-31) eq_refl | _ => B754_zero false end.
Lemma power_value e H : is_finite (power e H) = true /\ B2R (power e H) = bpow radix2 (52 + e).
Proof. split; [reflexivity|]. unfold power. cbn [B2R cond_Zopp]. unfold F2R. cbn [Fnum Fexp]. rewrite bpow_plus. reflexivity. Qed.
Example C140_nontrivial :
  sized turn 1 /\ sized far (10 ^ 7) /\ 1 <= Norm (value3 far) <= 10 ^ 9 /\ / 10 ^ 20 <= B2R (power (-10) eq_refl) / Norm (value3 far) ^ 3 <= 10 ^ 12 /\
  B2R (g_coriolis_force (float_ops 53 1024) turn far (power (-52) eq_refl) 1%nat) < 0 /\
  B2R (g_lunar_acceleration (float_ops 53 1024) (fun x => mul (float_ops 53 1024) (mul (float_ops 53 1024) x x) x) (power (-10) eq_refl) far 0%nat) < 0.
Proof.
  assert (V : B2R (far 0%nat) = 2097152) by (unfold far; rewrite (proj2 (power_value _ _)); cbn; lra).
  assert (VT : B2R (turn 2%nat) = / 16384) by (unfold turn; rewrite (proj2 (power_value _ _)); cbn; lra).
  assert (N : Norm (value3 far) = 2097152).
  { unfold Norm, Dot, value3. cbn [vx vy vz]. rewrite V. change (B2R (far 1%nat)) with 0. change (B2R (far 2%nat)) with 0. replace (2097152 * 2097152 + 0 * 0 + 0 * 0) with (2097152 * 2097152) by ring. apply sqrt_square. lra. }
  split; [|split; [|split; [|split; [|split]]]].
  - intros i Hi. destruct i as [|[|[|i]]]; try lia; (split; [reflexivity|]); [change (B2R (turn 0%nat)) with 0; rewrite Rabs_R0; lra|change (B2R (turn 1%nat)) with 0; rewrite Rabs_R0; lra|rewrite VT, Rabs_pos_eq; lra].
  - intros i Hi. destruct i as [|[|[|i]]]; try lia; (split; [reflexivity|]); [rewrite V, Rabs_pos_eq; lra|change (B2R (far 1%nat)) with 0; rewrite Rabs_R0; lra|change (B2R (far 2%nat)) with 0; rewrite Rabs_R0; lra].
  - rewrite N. lra.
  - rewrite N, (proj2 (power_value _ _)). cbn. lra.
  - assert (E : Bltb (g_coriolis_force (float_ops 53 1024) turn far (power (-52) eq_refl) 1%nat) (B754_zero false) = true) by (vm_compute; reflexivity).
    rewrite Bltb_correct in E; [|vm_compute; reflexivity|reflexivity]. destruct (Rlt_bool_spec (B2R (g_coriolis_force (float_ops 53 1024) turn far (power (-52) eq_refl) 1%nat)) (B2R (B754_zero false : binary_float 53 1024))) as [L|L]; [exact L|discriminate].
  - match goal with |- B2R ?a < 0 => assert (E : Bltb a (B754_zero false) = true) by (vm_compute; reflexivity); rewrite Bltb_correct in E; [destruct (Rlt_bool_spec (B2R a) (B2R (B754_zero false : binary_float 53 1024))) as [L|L]; [exact L|discriminate]|vm_compute; reflexivity|reflexivity] end.
Qed.
