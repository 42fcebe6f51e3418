(** C143: gravity and the altitude conversions of the ICAO atmosphere in floating point. *)
From Coq Require Import ZArith QArith Qreals Reals Lra Lia Bool.
From Verif Require Import Scalar AtmModel AtmFloatModel GeopotFloatModel.
From Flocq Require Import Core BinarySingleNaN.
From Verif Require Import FloatModel RoundProps Apx AtmRoundProps.
Local Open Scope R_scope.

Theorem C143_same_code : forall h, g_isa_geopotential_altitude Rops h = isa_geopotential_altitude h /\ g_isa_geometric_altitude Rops h = isa_geometric_altitude h /\
  (- isa_radius < h -> g_isa_gravity Rops Rpower h = isa_gravity h).
Proof.
  intros h. assert (R1 : g_isa_radius Rops = isa_radius) by (unfold g_isa_radius, isa_radius; cbn [lit Rops]; unfold Q2R; cbn [Qnum Qden]; lra).
  assert (G1 : g_isa_g_0 Rops = isa_g_0) by (unfold g_isa_g_0, isa_g_0; cbn [lit Rops]; unfold Q2R; cbn [Qnum Qden]; lra).
  assert (T1 : lit Rops (2 # 1) = INR 2) by (cbn [lit Rops]; unfold Q2R; cbn [Qnum Qden]; cbn; lra).
  unfold g_isa_geopotential_altitude, g_isa_geometric_altitude, g_isa_gravity, isa_gravity, powf2. rewrite R1, G1, T1. split; [reflexivity|]. split; [reflexivity|]. intros L.
  cbn [mul div add Rops]. rewrite Rpower_pow; [cbn [pow]; ring|]. apply Rdiv_lt_0_compat; [unfold isa_radius; lra|lra].
Qed.

Section Width.
Context (prec emax : Z) {P : Prec_gt_0 prec} {M : Prec_lt_emax prec emax}.
Context (Hp : (53 <= prec)%Z) (He : (1024 <= emax)%Z).
Local Notation fl := (binary_float prec emax).
Local Notation u := (unit prec).
Local Notation o := (float_ops prec emax).
Ltac facts := pose proof (u_pos prec) as Pu; pose proof (u53 prec Hp) as U; pose proof (eta_pos prec emax) as Pe; pose proof (eta_small prec emax He) as Es; pose proof (largest18 prec emax Hp He) as G;
  assert (UU : 0 <= u * u <= / 10 ^ 15 * u) by (split; [apply Rmult_le_pos; lra|apply Rmult_le_compat_r; lra]).
Lemma rad : is_finite (g_isa_radius o : fl) = true /\ B2R (g_isa_radius o : fl) = isa_radius.
Proof. destruct (lit_int prec emax Hp He 6356766 ltac:(cbn; lia)) as [F E]. split; [exact F|]. unfold g_isa_radius. rewrite E. reflexivity. Qed.
Lemma near_refl (x : fl) : is_finite x = true -> near x (B2R x) 0.
Proof. intros F. split; [exact F|]. rewrite Rminus_diag_eq, Rabs_R0 by reflexivity. lra. Qed.
Lemma near_rad : near (g_isa_radius o : fl) isa_radius 0. Proof. destruct rad as [F E]. rewrite <- E. apply near_refl, F. Qed.
(** an altitude between a micrometre and a hundred kilometres, above or below sea level *)
Definition altitude_ok (h : fl) : Prop := is_finite h = true /\ / 10 ^ 6 <= Rabs (B2R h) <= 10 ^ 5.

(** the two conversions for an argument that is itself only near *)
Lemma shift (h : fl) H k : near h H k -> 0 <= k <= 4 -> Rabs H <= 104000 ->
  near (add o (g_isa_radius o) h) (isa_radius + H) (12 / 10) /\ near (sub o (g_isa_radius o) h) (isa_radius - H) (12 / 10) /\ 6200000 <= isa_radius + H <= 6500000 /\ 6200000 <= isa_radius - H <= 6500000.
Proof.
  intros N Lk B. facts. apply Rabs_le_inv in B as B'. assert (BR : isa_radius = 6356766) by reflexivity.
  assert (A1 : apx (g_isa_radius o : fl) isa_radius 0) by (eapply apx_weak; [apply near_apx, near_rad|lra]).
  assert (A2 : apx h H (416000 * u)).
  { eapply apx_weak; [apply near_apx, N|]. assert (0 <= k * u) by (apply Rmult_le_pos; lra). apply Rle_trans with (4 * u * 104000); [|lra]. apply Rmult_le_compat; [assumption|apply Rabs_pos| |exact B]. apply Rmult_le_compat_r; lra. }
  split; [|split; [|lra]].
  - eapply apx_near; [apply (apx_add prec emax) with (1 := A1) (2 := A2) (b := isa_radius + H); [rewrite Rabs_pos_eq; lra|lra]|]. rewrite Rabs_pos_eq by lra.
    assert (u * 6200000 <= u * (isa_radius + H)) by (apply Rmult_le_compat_l; lra). lra.
  - eapply apx_near; [apply (apx_sub prec emax) with (1 := A1) (2 := A2) (b := isa_radius - H); [rewrite Rabs_pos_eq; lra|lra]|]. rewrite Rabs_pos_eq by lra.
    assert (u * 6200000 <= u * (isa_radius - H)) by (apply Rmult_le_compat_l; lra). lra.
Qed.
Lemma ratio H D : / 10 ^ 7 <= Rabs H <= 104000 -> 6200000 <= D <= 6500000 -> / 10 ^ 20 <= Rabs (isa_radius * H) <= 10 ^ 12 /\ / 10 ^ 20 <= Rabs (isa_radius * H / D) <= 10 ^ 12 /\ 97 / 100 * Rabs H <= Rabs (isa_radius * H / D) <= 103 / 100 * Rabs H.
Proof.
  intros BH BD. assert (BR : isa_radius = 6356766) by reflexivity. rewrite Rabs_mult, (Rabs_pos_eq isa_radius) by lra.
  assert (Q : 97 / 100 * Rabs H <= Rabs (isa_radius * H / D) <= 103 / 100 * Rabs H).
  { unfold Rdiv at 2 3. rewrite Rabs_mult, Rabs_inv, Rabs_mult, (Rabs_pos_eq isa_radius), (Rabs_pos_eq D) by lra.
    split; apply (Rmult_le_reg_r D); try lra; rewrite ?(Rmult_assoc (isa_radius * Rabs H)), ?Rinv_l by lra; rewrite ?Rmult_1_r, BR.
    - assert (97 / 100 * Rabs H * D <= 97 / 100 * Rabs H * 6500000) by (apply Rmult_le_compat_l; lra). lra.
    - assert (103 / 100 * Rabs H * 6200000 <= 103 / 100 * Rabs H * D) by (apply Rmult_le_compat_l; lra). lra. }
  rewrite BR in *. split; [lra|]. split; [lra|exact Q].
Qed.
Lemma to_geopotential (h : fl) H k : near h H k -> 0 <= k <= 4 -> / 10 ^ 7 <= Rabs H <= 104000 ->
  near (g_isa_geopotential_altitude o h) (isa_geopotential_altitude H) (k + 33 / 10) /\ near (g_isa_geometric_altitude o h) (isa_geometric_altitude H) (k + 33 / 10).
Proof.
  intros N Lk B. facts. destruct (shift h H k N Lk ltac:(lra)) as (N1 & N2 & D1 & D2). unfold g_isa_geopotential_altitude, isa_geopotential_altitude, g_isa_geometric_altitude, isa_geometric_altitude.
  destruct (ratio H _ B D1) as (Q1 & Q2 & _). destruct (ratio H _ B D2) as (_ & Q3 & _).
  pose proof (near_mul prec emax Hp He _ _ _ _ _ _ near_rad N ltac:(lra) ltac:(lra) Q1) as N3.
  split; (eapply (near_weak prec emax); [eapply (near_div prec emax Hp He); [exact N3|first [exact N1|exact N2]|lra|lra|lra|assumption]|lra]).
Qed.
(** both conversions, each from any representable altitude *)
Theorem C143_conversions : forall h, altitude_ok h ->
  near (g_isa_geopotential_altitude o h) (isa_geopotential_altitude (B2R h)) 4 /\ near (g_isa_geometric_altitude o h) (isa_geometric_altitude (B2R h)) 4.
Proof.
  intros h [F B]. destruct (to_geopotential h (B2R h) 0 (near_refl h F) ltac:(lra) ltac:(lra)) as [N1 N2]. split; (eapply (near_weak prec emax); [first [exact N1|exact N2]|lra]).
Qed.
(** there and back *)
Theorem C143_round_trip : forall h, altitude_ok h ->
  near (g_isa_geometric_altitude o (g_isa_geopotential_altitude o h)) (B2R h) 7 /\ near (g_isa_geopotential_altitude o (g_isa_geometric_altitude o h)) (B2R h) 7.
Proof.
  intros h [F B]. facts. assert (BR : isa_radius = 6356766) by reflexivity. destruct (to_geopotential h (B2R h) 0 (near_refl h F) ltac:(lra) ltac:(lra)) as [N1 N2].
  destruct (shift h (B2R h) 0 (near_refl h F) ltac:(lra) ltac:(lra)) as (_ & _ & D1 & D2). destruct (ratio (B2R h) _ ltac:(lra) D1) as (_ & _ & Q1). destruct (ratio (B2R h) _ ltac:(lra) D2) as (_ & _ & Q2).
  fold (isa_geopotential_altitude (B2R h)) in Q1. fold (isa_geometric_altitude (B2R h)) in Q2.
  assert (V1 : isa_geometric_altitude (isa_geopotential_altitude (B2R h)) = B2R h).
  { unfold isa_geometric_altitude, isa_geopotential_altitude. remember isa_radius as r. assert (r - r * B2R h / (r + B2R h) <> 0) by (replace (r - r * B2R h / (r + B2R h)) with (r * r / (r + B2R h)) by (field; lra); apply Rgt_not_eq, Rdiv_lt_0_compat; [apply Rmult_lt_0_compat; lra|lra]).
    field. split; [lra|]. replace (r * (r + B2R h) - r * B2R h) with (r * r) by ring. apply Rgt_not_eq, Rmult_lt_0_compat; lra. }
  assert (V2 : isa_geopotential_altitude (isa_geometric_altitude (B2R h)) = B2R h).
  { unfold isa_geometric_altitude, isa_geopotential_altitude. remember isa_radius as r. field. split; [lra|]. replace (r * (r - B2R h) + r * B2R h) with (r * r) by ring. apply Rgt_not_eq, Rmult_lt_0_compat; lra. }
  split.
  - destruct (to_geopotential _ _ _ N1 ltac:(lra) ltac:(lra)) as [_ K]. rewrite V1 in K. eapply (near_weak prec emax); [exact K|lra].
  - destruct (to_geopotential _ _ _ N2 ltac:(lra) ltac:(lra)) as [K _]. rewrite V2 in K. eapply (near_weak prec emax); [exact K|lra].
Qed.
(** gravity, also at sea level *)
Theorem C143_gravity : forall powF, accurate_pow powF -> forall h : fl, is_finite h = true -> Rabs (B2R h) <= 10 ^ 5 -> near (g_isa_gravity o powF h) (isa_gravity (B2R h)) 9.
Proof.
  intros powF Ap h F B. facts. assert (BR : isa_radius = 6356766) by reflexivity. destruct (shift h (B2R h) 0 (near_refl h F) ltac:(lra) ltac:(lra)) as (N1 & _ & D1 & _).
  assert (BQ : 97 / 100 <= isa_radius / (isa_radius + B2R h) <= 103 / 100).
  { assert (EQ : isa_radius / (isa_radius + B2R h) * (isa_radius + B2R h) = isa_radius) by (field; lra). apply Rabs_le_inv in B.
    split; apply (Rmult_le_reg_r (isa_radius + B2R h)); try lra; rewrite EQ; lra. }
  assert (NQ : near (div o (g_isa_radius o) (add o (g_isa_radius o) h)) (isa_radius / (isa_radius + B2R h)) (222 / 100)).
  { eapply (near_weak prec emax); [apply (near_div prec emax Hp He _ _ _ _ _ _ near_rad N1); [lra|lra|lra|rewrite Rabs_pos_eq; lra]|lra]. }
  unfold g_isa_gravity, isa_gravity, powf2. remember (isa_radius / (isa_radius + B2R h)) as q eqn:Hq. set (x := div o (g_isa_radius o) (add o (g_isa_radius o) h)) in *. clearbody x.
  destruct (lit_int prec emax Hp He 2 ltac:(cbn; lia)) as [F2 E2]. set (y := lit o (2 # 1) : fl) in *. clearbody y.
  destruct NQ as [Fx Hx]. rewrite (Rabs_pos_eq q) in Hx by lra. apply Rabs_le_inv in Hx as Hx'. assert (Ut : 0 <= u * q <= / 10 ^ 15 * q) by (split; [apply Rmult_le_pos; lra|apply Rmult_le_compat_r; lra]).
  pose proof (ln_small (B2R x) ltac:(lra)) as Lx. pose proof (ln_gap (B2R x) q (999 / 1000 * q) ltac:(lra) ltac:(lra) ltac:(lra)) as Lg.
  assert (Lg' : Rabs (ln (B2R x) - ln q) <= 223 / 100 * u).
  { eapply Rle_trans; [exact Lg|]. apply (Rmult_le_reg_r (999 / 1000 * q)); [lra|]. unfold Rdiv at 1. rewrite Rmult_assoc, Rinv_l by lra. lra. }
  assert (Dl : Rabs (B2R y * ln (B2R x) - 2 * ln q) <= 446 / 100 * u).
  { rewrite E2. replace (2 * ln (B2R x) - 2 * ln q) with (2 * (ln (B2R x) - ln q)) by ring. rewrite Rabs_mult, (Rabs_pos_eq 2) by lra. lra. }
  assert (Zy : Rabs (B2R y * ln (B2R x)) <= 14) by (rewrite E2, Rabs_mult, (Rabs_pos_eq 2) by lra; lra).
  pose proof (Ap x y Fx F2 ltac:(lra) Zy) as K. unfold Rpower in K.
  assert (NX : near (powF x y) (q * q) (656 / 100)).
  { replace (q * q) with (exp (2 * ln q)) by (change 2 with (1 + 1); rewrite Rmult_plus_distr_r, Rmult_1_l, exp_plus, exp_ln by lra; reflexivity).
    eapply (near_weak prec emax); [apply (exp_near prec emax Hp He _ _ _ (446 / 100) Dl); [lra|exact K]|lra]. }
  assert (NG : near (g_isa_g_0 o : fl) isa_g_0 (1001 / 1000)).
  { replace isa_g_0 with (Q2R (980665 # 100000)) by (unfold isa_g_0, Q2R; cbn [Qnum Qden]; lra). apply (lit_near prec emax Hp He); [cbn; lia|cbn; lia|unfold Q2R; cbn [Qnum Qden]; rewrite Rabs_pos_eq; lra]. }
  assert (BX : 97 / 100 * (97 / 100) <= q * q <= 103 / 100 * (103 / 100)) by (split; apply Rmult_le_compat; lra).
  eapply (near_weak prec emax); [apply (near_mul prec emax Hp He _ _ _ _ _ _ NG NX); [lra|lra|unfold isa_g_0; rewrite Rabs_pos_eq; lra]|lra].
Qed.
End Width.

Local Instance p53 : Prec_gt_0 53 := eq_refl.
Local Instance e53 : Prec_lt_emax 53 1024 := eq_refl.
(** 10999 m *)
Example C143_nontrivial : let h := @B754_finite 53 1024 false 6046764196954112 (-39) eq_refl in altitude_ok 53 1024 h /\ B2R h = 10999 /\
  near (g_isa_geometric_altitude (float_ops 53 1024) (g_isa_geopotential_altitude (float_ops 53 1024) h)) 10999 7.
Proof.
  intros h. assert (E : B2R h = 10999) by (unfold h, B2R, F2R; cbn; lra). assert (A : altitude_ok 53 1024 h) by (split; [reflexivity|rewrite E, Rabs_pos_eq; lra]).
  split; [exact A|]. split; [exact E|]. destruct (C143_round_trip 53 1024 ltac:(lia) ltac:(lia) h A) as [K _]. rewrite E in K. exact K.
Qed.
