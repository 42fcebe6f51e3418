(** The U.S. standard atmosphere (C57, C58, C87, C88). *)
From Coq Require Import Reals List Arith Bool Lra Lia.
From Coquelicot Require Import Coquelicot.
From Verif Require Import Scalar InterpProofs AtmModel AtmSpec.
Import ListNotations.
Open Scope R_scope.

Lemma ussa_cases h :
  (h < 11019 /\ ussa_base_index (Alt h) = Val 0%nat) \/
  (11019 <= h < 20063 /\ ussa_base_index (Alt h) = Val 1%nat) \/
  (20063 <= h < 32162 /\ ussa_base_index (Alt h) = Val 2%nat) \/
  (32162 <= h < 47350 /\ ussa_base_index (Alt h) = Val 3%nat) \/
  (47350 <= h < 51413 /\ ussa_base_index (Alt h) = Val 4%nat) \/
  (51413 <= h < 71802 /\ ussa_base_index (Alt h) = Val 5%nat) \/
  (71802 <= h < 86000 /\ ussa_base_index (Alt h) = Val 6%nat) \/
  (86000 <= h < 91000 /\ ussa_base_index (Alt h) = Val 7%nat) \/
  (91000 <= h < 110000 /\ ussa_base_index (Alt h) = Val 8%nat) \/
  (110000 <= h < 120000 /\ ussa_base_index (Alt h) = Val 9%nat) \/
  (120000 <= h < 500000 /\ ussa_base_index (Alt h) = Val 10%nat) \/
  (500000 <= h < 1000000 /\ ussa_base_index (Alt h) = Val 11%nat) \/
  (1000000 <= h /\ ussa_base_index (Alt h) = Panics).
Proof.
  unfold ussa_base_index. unfold ussa_heights at 1. cbn [ussa_find alt_lt Nat.add index nth_error ussa_heights obind]. unfold Rltb.
  destruct (Rlt_dec h 11019); [left; split; [assumption|reflexivity]|right].
  destruct (Rlt_dec h 20063); [left; split; [lra|reflexivity]|right].
  destruct (Rlt_dec h 32162); [left; split; [lra|reflexivity]|right].
  destruct (Rlt_dec h 47350); [left; split; [lra|reflexivity]|right].
  destruct (Rlt_dec h 51413); [left; split; [lra|reflexivity]|right].
  destruct (Rlt_dec h 71802); [left; split; [lra|reflexivity]|right].
  destruct (Rlt_dec h 86000); [left; split; [lra|reflexivity]|right].
  destruct (Rlt_dec h 91000); [left; split; [lra|reflexivity]|right].
  destruct (Rlt_dec h 110000); [left; split; [lra|reflexivity]|right].
  destruct (Rlt_dec h 120000); [left; split; [lra|reflexivity]|right].
  destruct (Rlt_dec h 500000); [left; split; [lra|reflexivity]|right].
  destruct (Rlt_dec h 1000000); [left; split; [lra|reflexivity]|right].
  split; [lra|reflexivity].
Qed.
Ltac ussa_split h := let B := fresh "B" in let E := fresh "E" in let C := fresh in
  pose proof (ussa_cases h) as C; repeat (destruct C as [[B E]|C]; [|]); try destruct C as [B E].

(** The branches of the temperature function. *)
Definition linear_T (b T L h : R) : R := T + L * (h - b).
Definition warm_T (h : R) : R :=
  2631905 / 10000 + - (763232 / 10000) * exp (1 - powf2 ((h - 91000) / - (199429 / 10))).
Definition top_T (h : R) : R :=
  1000 - (1000 - 240) * exp (- (1875 / 100000) * ((h - 110000) * (ussa_r_0 + 110000) / (ussa_r_0 + h) * (1 / 1000))).

Lemma ussa_T_low h i b T L : ussa_base_index (Alt h) = Val i -> ussa_gradient_index i = Some i ->
  nth_error ussa_heights i = Some b -> nth_error ussa_temperatures i = Some T -> nth_error ussa_lapse_rates i = Some L ->
  h < 86000 -> ussa_temperature h = Val (linear_T b T L h).
Proof.
  intros E G Eb ET EL Hh. unfold ussa_temperature. rewrite E. cbn [obind unwrap]. rewrite G.
  rewrite (proj2 (Rltb_true _ _) Hh). unfold index. rewrite Eb, ET, EL. reflexivity.
Qed.

Lemma ussa_T_mid h : 86000 <= h < 91000 -> ussa_temperature h = Val (18687 / 100).
Proof.
  intros Hh. ussa_split h; try lra. unfold ussa_temperature. rewrite E. cbn [obind unwrap]. unfold ussa_gradient_index. cbn [length ussa_heights Nat.eqb].
  rewrite (proj2 (Rltb_false _ _)) by lra. rewrite (proj2 (Rltb_true _ _)) by lra. reflexivity.
Qed.
Lemma ussa_T_warm h : 91000 <= h < 110000 -> ussa_temperature h = Val (warm_T h).
Proof.
  intros Hh. ussa_split h; try lra. unfold ussa_temperature. rewrite E. cbn [obind unwrap]. unfold ussa_gradient_index. cbn [length ussa_heights Nat.eqb].
  rewrite (proj2 (Rltb_false h 86000)), (proj2 (Rltb_false h 91000)), (proj2 (Rltb_true h 110000)) by lra. reflexivity.
Qed.
Lemma ussa_T_top h : 110000 <= h < 1000000 -> ussa_temperature h = Val (top_T h).
Proof.
  intros Hh. ussa_split h; try lra; unfold ussa_temperature; rewrite E; cbn [obind unwrap]; unfold ussa_gradient_index; cbn [length ussa_heights Nat.eqb];
  rewrite (proj2 (Rltb_false h 86000)), (proj2 (Rltb_false h 91000)), (proj2 (Rltb_false h 110000)), (proj2 (Rltb_true h 1000000)) by lra; reflexivity.
Qed.

Lemma exp_le_1 x : x <= 0 -> exp x <= 1.
Proof. intros [H| ->]; [left; rewrite <- exp_0; apply exp_increasing, H|rewrite exp_0; lra]. Qed.

Lemma warm_pos h : 30 < warm_T h.
Proof.
  unfold warm_T. assert (exp (1 - powf2 ((h - 91000) / - (199429 / 10))) <= 3).
  { apply Rle_trans with (exp 1); [|apply exp_le_3]. unfold powf2. set (x := (h - 91000) / _). pose proof (Rle_0_sqr x) as Q. unfold Rsqr in Q.
    destruct (Req_dec (x * x) 0) as [->|]; [rewrite Rminus_0_r; lra|]. left. apply exp_increasing. lra. }
  lra.
Qed.
Lemma top_pos h : 110000 <= h -> 240 <= top_T h < 1000.
Proof.
  intros Hh. unfold top_T. set (e := exp _). assert (0 < e) by apply exp_pos. assert (e <= 1).
  { apply exp_le_1. unfold ussa_r_0.
    assert (0 <= (h - 110000) * (6356766 + 110000) / (6356766 + h) * (1 / 1000)).
    { apply Rmult_le_pos; [|lra]. apply Rmult_le_pos; [apply Rmult_le_pos; lra|]. left. apply Rinv_0_lt_compat. lra. }
    lra. }
  lra.
Qed.

(** Every height below 1000 km has a temperature above 30 K. *)
Lemma ussa_T_pos h : h < 1000000 -> exists T, ussa_temperature h = Val T /\ 30 < T.
Proof.
  intros Hh. destruct (Rlt_dec h 86000) as [L|L].
  - ussa_split h; try lra; eexists; (split; [eapply ussa_T_low; [eassumption|reflexivity|reflexivity|reflexivity|reflexivity|exact L]|]);
      unfold linear_T; lra.
  - destruct (Rlt_dec h 91000); [exists (18687 / 100); split; [apply ussa_T_mid; lra|lra]|].
    destruct (Rlt_dec h 110000); [exists (warm_T h); split; [apply ussa_T_warm; lra|apply warm_pos]|].
    exists (top_T h). split; [apply ussa_T_top; lra|]. pose proof (top_pos h). lra.
Qed.

(** The pressure formula of the layer with base (b, T, p) and lapse rate L. *)
Definition ussa_p (b T p L t h : R) : R :=
  if Reqb L 0 then p * exp ((- ussa_g_0 * ussa_air_molar_mass * (h - b)) / (ussa_R_Star * t))
  else p * Rpower (T / t) ((ussa_g_0 * ussa_air_molar_mass) / (ussa_R_Star * L)).
Lemma ussa_P h i b T p L t : ussa_base_index (Alt h) = Val i -> ussa_gradient_index i = Some i ->
  nth_error ussa_heights i = Some b -> nth_error ussa_temperatures i = Some T -> nth_error ussa_pressures i = Some p ->
  nth_error ussa_lapse_rates i = Some L -> ussa_temperature h = Val t -> 0 < T -> 0 < t ->
  ussa_pressure h = Val (ussa_p b T p L t h).
Proof.
  intros E G Eb ET Ep EL Et HT Ht. unfold ussa_pressure. rewrite E. cbn [obind]. rewrite G, Et. unfold index.
  rewrite Eb, ET, Ep, EL. cbn [obind unwrap]. unfold ussa_p. destruct (Reqb L 0); cbn [negb]; [reflexivity|].
  unfold powf. rewrite (proj2 (Rltb_true 0 (T / t))) by (apply Rdiv_lt_0_compat; assumption). reflexivity.
Qed.
Lemma ussa_p_pos b T p L t h : 0 < p -> 0 < ussa_p b T p L t h.
Proof. intros Hp. unfold ussa_p. destruct (Reqb L 0); (apply Rmult_lt_0_compat; [exact Hp|apply exp_pos]). Qed.

Lemma ussa_gas_pos : 0 < ussa_R_Star / ussa_air_molar_mass.
Proof. unfold ussa_R_Star, ussa_air_molar_mass. lra. Qed.

(** Below 1000 km: positive temperature, pressure and density, linked by the ideal gas law... *)
Theorem C57_ussa_partial : forall h, h < 1000000 ->
  physical (8314.32 / 28.9644) (ussa_temperature h) (ussa_pressure h) (ussa_density h).
Proof.
  intros h Hh. replace (8314.32 / 28.9644) with (ussa_R_Star / ussa_air_molar_mass) by (unfold ussa_R_Star, ussa_air_molar_mass; lra).
  destruct (ussa_T_pos h Hh) as (T & ET & HT).
  assert (exists P, ussa_pressure h = Val P /\ 0 < P) as (P & EP & HP).
  { ussa_split h; try lra; eexists;
      (split; [eapply ussa_P; [eassumption|reflexivity|reflexivity|reflexivity|reflexivity|reflexivity|exact ET|lra|lra]|]);
      apply ussa_p_pos; lra. }
  exists T, P, ((P * ussa_air_molar_mass) / (ussa_R_Star * T)).
  split; [exact ET|]. split; [exact EP|]. split; [unfold ussa_density; rewrite ET, EP; reflexivity|].
  assert (0 < ussa_air_molar_mass) by (unfold ussa_air_molar_mass; lra). assert (0 < ussa_R_Star) by (unfold ussa_R_Star; lra).
  split; [lra|]. split; [exact HP|]. split; [apply Rdiv_lt_0_compat; apply Rmult_lt_0_compat; lra|]. field. lra.
Qed.

(** ... but at 1000 km and above, and for a NaN height, every lookup panics. *)
Theorem C57_ussa_refuted :
  (forall h, 1000000 <= h -> ussa_temperature h = Panics /\ ussa_pressure h = Panics /\ ussa_density h = Panics /\
     ussa_speed_of_sound h = Panics /\ earth_get_temperature h = Panics /\ earth_get_density h = Panics) /\
  ussa_temperature_at NaNalt = Panics /\ ussa_pressure_at NaNalt = Panics.
Proof.
  split; [|split; reflexivity].
  intros h Hh. ussa_split h; try lra.
  unfold earth_get_temperature, earth_get_density, ussa_speed_of_sound, ussa_density, ussa_temperature, ussa_pressure. rewrite E.
  repeat split.
Qed.

(** ** Continuity (C58) *)
Lemma jump (A B f : R -> R) x d : 0 < d -> (forall y, x - d <= y < x -> f y = A y) -> f x = B x ->
  continuous A x -> A x <> B x -> ~ continuous f x.
Proof.
  intros Hd HA HB CA Hne Cf. apply continuity_pt_filterlim in CA. apply continuity_pt_filterlim in Cf.
  set (e := Rabs (A x - B x) / 2). assert (0 < e) as He by (unfold e; pose proof (Rabs_pos_lt (A x - B x)); lra).
  destruct (CA e He) as (d1 & P1 & Q1). destruct (Cf e He) as (d2 & P2 & Q2).
  set (y := x - Rmin d (Rmin d1 d2) / 2).
  assert (0 < Rmin d (Rmin d1 d2)) by (repeat apply Rmin_pos; assumption).
  pose proof (Rmin_l d (Rmin d1 d2)). pose proof (Rmin_r d (Rmin d1 d2)). pose proof (Rmin_l d1 d2). pose proof (Rmin_r d1 d2).
  assert (x - d <= y < x) as Hy by (unfold y; lra).
  assert (Rabs (y - x) < Rmin d1 d2) as Hyx by (rewrite Rabs_left1 by lra; unfold y; lra).
  assert (x <> y) as Nxy by lra.
  specialize (Q1 y). specialize (Q2 y). cbn in Q1, Q2. unfold R_dist, D_x, no_cond in *.
  assert (Rabs (A y - A x) < e) as K1 by (apply Q1; repeat split; auto; lra).
  assert (Rabs (f y - f x) < e) as K2 by (apply Q2; repeat split; auto; lra).
  rewrite (HA y Hy), HB in K2.
  assert (Rabs (A x - B x) <= Rabs (A y - A x) + Rabs (A y - B x)) as T.
  { replace (A x - B x) with (- (A y - A x) + (A y - B x)) by ring. eapply Rle_trans; [apply Rabs_triang|]. rewrite Rabs_Ropp. lra. }
  unfold e in *. lra.
Qed.

Lemma linear_cont b T L x : continuous (linear_T b T L) x.
Proof. apply (ex_derive_continuous (linear_T b T L) x). unfold linear_T. auto_derive. exact I. Qed.
Lemma warm_cont x : continuous warm_T x.
Proof. apply (ex_derive_continuous warm_T x). unfold warm_T, powf2. auto_derive. exact I. Qed.
Lemma top_cont x : 110000 <= x -> continuous top_T x.
Proof. intros H. apply (ex_derive_continuous top_T x). unfold top_T, ussa_r_0. auto_derive. lra. Qed.
Lemma const_cont (c : R) x : continuous (fun _ : R => c) x.
Proof. apply continuous_const. Qed.

Definition ussa_jumps : list R := [11019; 32162; 47350; 71802; 86000; 91000; 110000].

(** The temperature is continuous at a height below 1000 km exactly when the height is not one of
    seven layer boundaries. *)
Theorem C58_continuous_iff_partial : forall h, h < 1000000 ->
  (continuous (value_of ussa_temperature) h <-> ~ In h ussa_jumps).
Proof.
  set (f := value_of ussa_temperature).
  assert (forall i b T L lo hi, (forall y, lo <= y < hi -> ussa_base_index (Alt y) = Val i) -> ussa_gradient_index i = Some i ->
    nth_error ussa_heights i = Some b -> nth_error ussa_temperatures i = Some T -> nth_error ussa_lapse_rates i = Some L ->
    hi <= 86000 -> forall y, lo <= y < hi -> f y = linear_T b T L y) as Low.
  { intros i b T L lo hi Ei G Eb ET EL Hh y Hy. unfold f, value_of.
    rewrite (ussa_T_low y i b T L (Ei y Hy) G Eb ET EL) by lra. reflexivity. }
  Ltac idx := intros y Hy; ussa_split y; try lra; assumption.
  assert (forall y, y < 11019 -> f y = linear_T 0 (28815 / 100) (-65 / 10000) y) as F0.
  { intros y Hy. apply (Low 0%nat _ _ _ y 11019); [intros z Hz; ussa_split z; try lra; assumption|reflexivity..|lra|lra]. }
  assert (forall y, 11019 <= y < 20063 -> f y = linear_T 11019 (21665 / 100) 0 y) as F1
    by (apply (Low 1%nat); [idx|reflexivity..|lra]).
  assert (forall y, 20063 <= y < 32162 -> f y = linear_T 20063 (21665 / 100) (1 / 1000) y) as F2
    by (apply (Low 2%nat); [idx|reflexivity..|lra]).
  assert (forall y, 32162 <= y < 47350 -> f y = linear_T 32162 (228650 / 1000) (28 / 10000) y) as F3
    by (apply (Low 3%nat); [idx|reflexivity..|lra]).
  assert (forall y, 47350 <= y < 51413 -> f y = linear_T 47350 (27065 / 100) 0 y) as F4
    by (apply (Low 4%nat); [idx|reflexivity..|lra]).
  assert (forall y, 51413 <= y < 71802 -> f y = linear_T 51413 (27065 / 100) (-28 / 10000) y) as F5
    by (apply (Low 5%nat); [idx|reflexivity..|lra]).
  assert (forall y, 71802 <= y < 86000 -> f y = linear_T 71802 (214650 / 1000) (-2 / 1000) y) as F6
    by (apply (Low 6%nat); [idx|reflexivity..|lra]).
  assert (forall y, 86000 <= y < 91000 -> f y = linear_T 86000 (18687 / 100) 0 y) as F7.
  { intros y Hy. unfold f, value_of. rewrite ussa_T_mid by exact Hy. unfold linear_T. ring. }
  assert (forall y, 91000 <= y < 110000 -> f y = warm_T y) as F8.
  { intros y Hy. unfold f, value_of. rewrite ussa_T_warm by exact Hy. reflexivity. }
  assert (forall y, 110000 <= y < 1000000 -> f y = top_T y) as F9.
  { intros y Hy. unfold f, value_of. rewrite ussa_T_top by exact Hy. reflexivity. }
  clearbody f. clear Low.
  assert (forall (A : R -> R) h lo hi, lo < h < hi -> (forall y, lo <= y < hi -> f y = A y) -> continuous A h -> continuous f h) as Inner.
  { intros A h lo hi Hb HA CA. apply (glue_cont A A f h ((h - lo) / 2) ((hi - h) / 2)); try lra; try assumption; intros y Hy; apply HA; lra. }
  assert (forall (A B : R -> R) h lo hi, lo < h < hi -> (forall y, lo <= y < h -> f y = A y) -> (forall y, h <= y < hi -> f y = B y) ->
    continuous A h -> continuous B h -> (continuous f h <-> A h = B h)) as Knot.
  { intros A B h lo hi Hb HA HB CA CB. split.
    - intros Cf. destruct (Req_dec (A h) (B h)) as [|N]; [assumption|exfalso].
      apply (jump A B f h (h - lo)); try lra; try assumption; [intros y Hy; apply HA; lra|apply HB; lra].
    - intros E. apply (glue_cont A B f h ((h - lo) / 2) ((hi - h) / 2)); try lra; try assumption.
      + intros y Hy. destruct (Req_dec y h) as [->|]; [rewrite E; apply HB; lra|apply HA; lra].
      + intros y Hy. apply HB; lra. }
  assert (forall h, (forall b, In b ussa_jumps -> h <> b) -> ~ In h ussa_jumps) as Out by (intros h H I; exact (H h I eq_refl)).
  intros h Hh.
  assert (forall P : Prop, continuous f h -> ~ In h ussa_jumps -> (continuous f h <-> ~ In h ussa_jumps)) as Yes by tauto.
  assert (~ continuous f h -> In h ussa_jumps -> (continuous f h <-> ~ In h ussa_jumps)) as No by tauto.
  Ltac out := cbn [In ussa_jumps]; lra.
  destruct (Rlt_dec h 11019) as [?|?]; [apply (Yes True); [eapply (Inner _ h (h - 1) 11019); [lra|intros y Hy; apply F0; lra|apply linear_cont]|out]|].
  destruct (Req_dec h 11019) as [?|?]; [apply No; [|out]|].
  { subst h. rewrite (Knot _ _ 11019 0 20063 ltac:(lra) (fun y Hy => F0 y (proj2 Hy)) F1 (linear_cont _ _ _ _) (linear_cont _ _ _ _)). unfold linear_T. lra. }
  destruct (Rlt_dec h 20063) as [?|?]; [apply (Yes True); [eapply (Inner _ h 11019 20063); [lra|exact F1|apply linear_cont]|out]|].
  destruct (Req_dec h 20063) as [?|?]; [apply (Yes True); [|out]|].
  { subst h. rewrite (Knot _ _ 20063 11019 32162 ltac:(lra) F1 F2 (linear_cont _ _ _ _) (linear_cont _ _ _ _)). unfold linear_T. lra. }
  destruct (Rlt_dec h 32162) as [?|?]; [apply (Yes True); [eapply (Inner _ h 20063 32162); [lra|exact F2|apply linear_cont]|out]|].
  destruct (Req_dec h 32162) as [?|?]; [apply No; [|out]|].
  { subst h. rewrite (Knot _ _ 32162 20063 47350 ltac:(lra) F2 F3 (linear_cont _ _ _ _) (linear_cont _ _ _ _)). unfold linear_T. lra. }
  destruct (Rlt_dec h 47350) as [?|?]; [apply (Yes True); [eapply (Inner _ h 32162 47350); [lra|exact F3|apply linear_cont]|out]|].
  destruct (Req_dec h 47350) as [?|?]; [apply No; [|out]|].
  { subst h. rewrite (Knot _ _ 47350 32162 51413 ltac:(lra) F3 F4 (linear_cont _ _ _ _) (linear_cont _ _ _ _)). unfold linear_T. lra. }
  destruct (Rlt_dec h 51413) as [?|?]; [apply (Yes True); [eapply (Inner _ h 47350 51413); [lra|exact F4|apply linear_cont]|out]|].
  destruct (Req_dec h 51413) as [?|?]; [apply (Yes True); [|out]|].
  { subst h. rewrite (Knot _ _ 51413 47350 71802 ltac:(lra) F4 F5 (linear_cont _ _ _ _) (linear_cont _ _ _ _)). unfold linear_T. lra. }
  destruct (Rlt_dec h 71802) as [?|?]; [apply (Yes True); [eapply (Inner _ h 51413 71802); [lra|exact F5|apply linear_cont]|out]|].
  destruct (Req_dec h 71802) as [?|?]; [apply No; [|out]|].
  { subst h. rewrite (Knot _ _ 71802 51413 86000 ltac:(lra) F5 F6 (linear_cont _ _ _ _) (linear_cont _ _ _ _)). unfold linear_T. lra. }
  destruct (Rlt_dec h 86000) as [?|?]; [apply (Yes True); [eapply (Inner _ h 71802 86000); [lra|exact F6|apply linear_cont]|out]|].
  destruct (Req_dec h 86000) as [?|?]; [apply No; [|out]|].
  { subst h. rewrite (Knot _ _ 86000 71802 91000 ltac:(lra) F6 F7 (linear_cont _ _ _ _) (linear_cont _ _ _ _)). unfold linear_T. lra. }
  destruct (Rlt_dec h 91000) as [?|?]; [apply (Yes True); [eapply (Inner _ h 86000 91000); [lra|exact F7|apply linear_cont]|out]|].
  assert (forall x, 0 < x -> 1 < exp x) as E1 by (intros x Hx; rewrite <- exp_0; apply exp_increasing, Hx).
  destruct (Req_dec h 91000) as [?|?]; [apply No; [|out]|].
  { subst h. rewrite (Knot _ _ 91000 86000 110000 ltac:(lra) F7 F8 (linear_cont _ _ _ _) (warm_cont _)).
    unfold linear_T, warm_T, powf2. replace ((91000 - 91000) / - (199429 / 10)) with 0 by (unfold Rdiv; ring).
    rewrite Rmult_0_r, Rminus_0_r. pose proof (exp_ineq1 1 ltac:(lra)). lra. }
  destruct (Rlt_dec h 110000) as [?|?]; [apply (Yes True); [eapply (Inner _ h 91000 110000); [lra|exact F8|apply warm_cont]|out]|].
  destruct (Req_dec h 110000) as [?|?]; [apply No; [|out]|].
  { subst h. rewrite (Knot _ _ 110000 91000 1000000 ltac:(lra) F8 F9 (warm_cont _) (top_cont 110000 ltac:(lra))).
    assert (top_T 110000 = 240) as ->.
    { unfold top_T. replace (- (1875 / 100000) * _) with 0 by (unfold ussa_r_0; field). rewrite exp_0. ring. }
    unfold warm_T, powf2.
    assert (1 < exp (1 - (110000 - 91000) / - (199429 / 10) * ((110000 - 91000) / - (199429 / 10)))) by (apply E1; replace ((110000 - 91000) / - (199429 / 10)) with (- (190000 / 199429)) by field; lra). lra. }
  apply (Yes True); [eapply (Inner _ h 110000 1000000); [lra|exact F9|apply top_cont; lra]|out].
Qed.

(** so the claimed continuity fails, e.g. at 91 km, where the temperature drops by over 100 K *)
Theorem C58_continuous_refuted : exists h, h < 1000000 /\ ~ continuous (value_of ussa_temperature) h.
Proof.
  exists 91000. split; [lra|]. rewrite C58_continuous_iff_partial by lra. cbn. intros H. apply H. lra.
Qed.

(** speed_of_sound returns the square of the speed sqrt(gamma R T)... *)
Theorem C58_speed_of_sound_partial : forall h, h < 1000000 -> exists T a,
  ussa_temperature h = Val T /\ ussa_speed_of_sound h = Val a /\
  a = sqrt (1.4 * (ussa_R_Star / ussa_air_molar_mass) * T) ^ 2.
Proof.
  intros h Hh. destruct (ussa_T_pos h Hh) as (T & ET & HT). exists T. eexists.
  split; [exact ET|]. split; [unfold ussa_speed_of_sound; rewrite ET; reflexivity|].
  rewrite <- Rsqr_pow2. pose proof ussa_gas_pos. rewrite Rsqr_sqrt; [unfold Rdiv; lra|]. apply Rmult_le_pos; lra.
Qed.
(** ... which is never the speed itself. *)
Theorem C58_speed_of_sound_refuted : forall h, h < 1000000 -> exists T,
  ussa_temperature h = Val T /\ ussa_speed_of_sound h <> Val (sqrt (1.4 * (ussa_R_Star / ussa_air_molar_mass) * T)).
Proof.
  intros h Hh. destruct (ussa_T_pos h Hh) as (T & ET & HT). exists T. split; [exact ET|].
  destruct (C58_speed_of_sound_partial h Hh) as (T' & a & ET' & -> & ->). rewrite ET in ET'. injection ET' as <-.
  set (s := sqrt _). assert (1 < s) as Hs.
  { unfold s. rewrite <- sqrt_1. apply sqrt_lt_1; [lra| |]; unfold ussa_R_Star, ussa_air_molar_mass; lra. }
  intros H. injection H as H. nra.
Qed.
Example C58_nontrivial : ussa_temperature 0 = Val 288.15 /\ ussa_temperature 30000 = Val 226.587.
Proof.
  split.
  - ussa_split 0; try lra. rewrite (ussa_T_low 0 _ _ _ _ E eq_refl eq_refl eq_refl eq_refl) by lra. f_equal. unfold linear_T. lra.
  - ussa_split 30000; try lra. rewrite (ussa_T_low 30000 _ _ _ _ E eq_refl eq_refl eq_refl eq_refl) by lra. f_equal. unfold linear_T. lra.
Qed.

(** ** Hydrostatic equilibrium (C87) *)
Lemma ussa_layer_hydrostatic b T p L h : 0 < T -> 0 < linear_T b T L h ->
  is_derive (fun y => ussa_p b T p L (linear_T b T L y) y) h
    (- ussa_g_0 * ussa_p b T p L (linear_T b T L h) h / (ussa_R_Star / ussa_air_molar_mass * linear_T b T L h)).
Proof.
  intros HT Hp. unfold ussa_p, Reqb. assert (0 < ussa_R_Star) as HR by (unfold ussa_R_Star; lra).
  assert (0 < ussa_air_molar_mass) as HM by (unfold ussa_air_molar_mass; lra).
  set (g := ussa_g_0). set (r := ussa_R_Star) in *. set (m := ussa_air_molar_mass) in *. clearbody g r m.
  destruct (Req_EM_T L 0) as [->|N].
  - assert (forall x, linear_T b T 0 x = T) as ET by (intros; unfold linear_T; ring). rewrite ET in *.
    apply (is_derive_ext (fun x => p * exp (- g * m * (x - b) / (r * T)))); [intros t; rewrite ET; reflexivity|].
    auto_derive; [repeat split; nra|]. unfold Rminus. set (e := exp _). clearbody e. field. lra.
  - unfold Rpower, linear_T in *. assert (0 < T / (T + L * (h - b))) by (apply Rdiv_lt_0_compat; assumption).
    auto_derive; [split; [lra|split; [exact H|exact I]]|].
    unfold Rdiv, Rminus in *. set (e := exp _). clearbody e. field. lra.
Qed.

Lemma ussa_hydrostatic : forall h, h < 91000 -> ~ In h ussa_heights \/ h = 0 ->
  hydrostatic ussa_g_0 (ussa_R_Star / ussa_air_molar_mass) (value_of ussa_pressure) (value_of ussa_temperature) h.
Proof.
  intros h Hh Hn. cbn [ussa_heights In] in Hn.
  assert (forall i b T p L lo hi, lo < h < hi ->
    (forall y, lo < y < hi -> ussa_base_index (Alt y) = Val i) -> ussa_gradient_index i = Some i ->
    nth_error ussa_heights i = Some b -> nth_error ussa_temperatures i = Some T -> nth_error ussa_pressures i = Some p ->
    nth_error ussa_lapse_rates i = Some L -> (forall y, lo < y < hi -> ussa_temperature y = Val (linear_T b T L y)) ->
    0 < T -> (forall y, lo < y < hi -> 0 < linear_T b T L y) ->
    hydrostatic ussa_g_0 (ussa_R_Star / ussa_air_molar_mass) (value_of ussa_pressure) (value_of ussa_temperature) h) as A.
  { intros i b T p L lo hi Hb Ei G Eb ET Ep EL Et HT Hp.
    assert (forall y, lo < y < hi -> value_of ussa_temperature y = linear_T b T L y /\
      value_of ussa_pressure y = ussa_p b T p L (linear_T b T L y) y) as V.
    { intros y Hy. unfold value_of. rewrite (ussa_P y i b T p L _ (Ei y Hy) G Eb ET Ep EL (Et y Hy) HT (Hp y Hy)), (Et y Hy). split; reflexivity. }
    unfold hydrostatic. destruct (V h Hb) as [-> ->].
    apply (glue_derive (fun y => ussa_p b T p L (linear_T b T L y) y) (fun y => ussa_p b T p L (linear_T b T L y) y) _ h _ ((h - lo) / 2) ((hi - h) / 2)); try lra;
      try (intros y Hy; apply V; lra); apply ussa_layer_hydrostatic; auto. }
  Ltac ulayer A lo hi := match goal with E : ussa_base_index (Alt ?h) = Val ?i |- _ =>
    eapply (A i _ _ _ _ lo hi) end; [lra|intros y Hy; ussa_split y; try lra; assumption|reflexivity|reflexivity|reflexivity|reflexivity|reflexivity|
      |lra|intros y Hy; unfold linear_T; lra].
  Ltac utemp := intros y Hy; ussa_split y; try lra; (eapply ussa_T_low; [eassumption|reflexivity|reflexivity|reflexivity|reflexivity|lra]).
  destruct (Rlt_dec h 11019); [ussa_split h; try lra; ulayer A (h - 1) 11019; utemp|].
  assert (~ In h ussa_heights) as Hn' by (cbn [ussa_heights In]; lra). cbn [ussa_heights In] in Hn'. clear Hn.
  ussa_split h; try lra.
  - ulayer A 11019 20063. utemp.
  - ulayer A 20063 32162. utemp.
  - ulayer A 32162 47350. utemp.
  - ulayer A 47350 51413. utemp.
  - ulayer A 51413 71802. utemp.
  - ulayer A 71802 86000. utemp.
  - ulayer A 86000 91000. intros y Hy. rewrite ussa_T_mid by lra. f_equal. unfold linear_T. ring.
Qed.

Lemma ussa_gas : ussa_R_Star / ussa_air_molar_mass = 8314.32 / 28.9644. Proof. unfold ussa_R_Star, ussa_air_molar_mass. lra. Qed.
(** Below 91 km the pressure satisfies the equation for a gravity of 9.80655 m/s2... *)
Theorem C87_ussa_hydrostatic_partial : forall h, h < 91000 -> ~ In h ussa_heights \/ h = 0 ->
  hydrostatic 9.80655 (8314.32 / 28.9644) (value_of ussa_pressure) (value_of ussa_temperature) h.
Proof.
  intros h Hh Hn. pose proof (ussa_hydrostatic h Hh Hn) as D. rewrite ussa_gas in D. replace ussa_g_0 with 9.80655 in D by (unfold ussa_g_0; lra). exact D.
Qed.
(** ...which is not standard gravity, 9.80665 m/s2: with that it fails everywhere *)
Theorem C87_ussa_gravity_refuted : forall h, h < 91000 -> ~ In h ussa_heights \/ h = 0 ->
  ~ hydrostatic 9.80665 (8314.32 / 28.9644) (value_of ussa_pressure) (value_of ussa_temperature) h.
Proof.
  intros h Hh Hn D. pose proof (C87_ussa_hydrostatic_partial h Hh Hn) as E. unfold hydrostatic in *.
  pose proof (eq_trans (eq_sym (is_derive_unique _ _ _ D)) (is_derive_unique _ _ _ E)) as Q.
  destruct (C57_ussa_partial h ltac:(lra)) as (T & P & rho & ET & EP & _ & HT & HP & _). unfold value_of in Q. rewrite ET, EP in Q.
  assert (K : 0 < P / (8314.32 / 28.9644 * T)) by (apply Rdiv_lt_0_compat; [|apply Rmult_lt_0_compat]; lra). unfold Rdiv in *. rewrite !Rmult_assoc in *. lra.
Qed.

(** U.S. Standard Atmosphere, 1976: pressure at the tabulated heights; 120 km is left out, where the tabulated temperature is not the computed one *)
Definition ussa_published : list (R * R) :=
  [(0, 101325); (11019, 22632); (20063, 5474.8); (32162, 868.01); (47350, 110.90); (51413, 66.938); (71802, 3.9564);
   (86000, 0.37338); (91000, 0.15381); (110000, 0.0071042); (500000, 0.00030236)].
Theorem C87_ussa_pressure_table : forall h p, In (h, p) ussa_published -> ussa_pressure h = Val p.
Proof.
  assert (A : forall h i b T p L t, ussa_base_index (Alt h) = Val i -> ussa_gradient_index i = Some i ->
    nth_error ussa_heights i = Some b -> nth_error ussa_temperatures i = Some T -> nth_error ussa_pressures i = Some p ->
    nth_error ussa_lapse_rates i = Some L -> ussa_temperature h = Val t -> 0 < T -> 0 < t -> h = b -> L = 0 \/ t = T -> ussa_pressure h = Val p).
  { intros h i b T p L t E G Eb ET Ep EL Et HT Ht -> H. rewrite (ussa_P b i b T p L t E G Eb ET Ep EL Et HT Ht). f_equal. unfold ussa_p, Reqb.
    destruct (Req_EM_T L 0) as [Z|N].
    - rewrite Rminus_diag_eq, Rmult_0_r by reflexivity. unfold Rdiv. rewrite Rmult_0_l, exp_0. ring.
    - destruct H as [H| ->]; [contradiction|]. replace (T / T) with 1 by (field; lra). unfold Rpower. rewrite ln_1, Rmult_0_r, exp_0. ring. }
  assert (Low : forall h p p', h < 86000 -> p' = p -> (exists i b T L, ussa_base_index (Alt h) = Val i /\ ussa_gradient_index i = Some i /\
    nth_error ussa_heights i = Some b /\ nth_error ussa_temperatures i = Some T /\ nth_error ussa_pressures i = Some p' /\
    nth_error ussa_lapse_rates i = Some L /\ 0 < T /\ h = b) -> ussa_pressure h = Val p).
  { intros h p p' Hh <- (i & b & T & L & E & G & Eb & ET & Ep & EL & HT & Hb).
    pose proof (ussa_T_low h i b T L E G Eb ET EL Hh) as Et. assert (Q : linear_T b T L h = T) by (unfold linear_T; rewrite Hb; ring). rewrite Q in Et.
    eapply A; eauto. }
  intros h p H. cbn [In ussa_published] in H.
  repeat match type of H with _ \/ _ => destruct H as [H|H] end; try contradiction; injection H as <- <-;
    match goal with |- ussa_pressure ?h = _ => ussa_split h; try lra end;
    try (eapply Low; [lra| |do 4 eexists; split; [eassumption|repeat split; lra]]; lra).
  - rewrite (A 86000 7%nat _ _ _ _ _ E eq_refl eq_refl eq_refl eq_refl eq_refl (ussa_T_mid 86000 ltac:(lra))) by (try lra; first [left; lra|right; lra]). apply f_equal. lra.
  - pose proof (warm_pos 91000). rewrite (A 91000 8%nat _ _ _ _ _ E eq_refl eq_refl eq_refl eq_refl eq_refl (ussa_T_warm 91000 ltac:(lra))) by (try lra; first [left; lra|right; lra]). apply f_equal. lra.
  - assert (Q : top_T 110000 = 240) by (unfold top_T; rewrite (Rminus_diag_eq 110000 110000) by reflexivity; unfold Rdiv; rewrite !Rmult_0_l, Rmult_0_r, exp_0; lra).
    pose proof (ussa_T_top 110000 ltac:(lra)) as ET. rewrite Q in ET.
    rewrite (A 110000 9%nat _ _ _ _ _ E eq_refl eq_refl eq_refl eq_refl eq_refl ET) by (try lra; first [left; lra|right; lra]). apply f_equal. lra.
  - pose proof (top_pos 500000). rewrite (A 500000 11%nat _ _ _ _ _ E eq_refl eq_refl eq_refl eq_refl eq_refl (ussa_T_top 500000 ltac:(lra))) by (try lra; first [left; lra|right; lra]). apply f_equal. lra.
Qed.

(** Between 91 and 110 km the isothermal formula is used with a varying temperature: the equation
    fails at every height. *)
Theorem C87_ussa_hydrostatic_refuted : forall h, 91000 < h < 110000 ->
  ~ hydrostatic 9.80655 (8314.32 / 28.9644) (value_of ussa_pressure) (value_of ussa_temperature) h.
Proof.
  intros h Hh D. rewrite <- ussa_gas in D. replace 9.80655 with ussa_g_0 in D by (unfold ussa_g_0; lra). unfold hydrostatic in D.
  assert (forall y, 91000 <= y < 110000 -> value_of ussa_temperature y = warm_T y /\
    value_of ussa_pressure y = 15381 / 100000 * exp ((- ussa_g_0 * ussa_air_molar_mass * (y - 91000)) / (ussa_R_Star * warm_T y))) as V.
  { intros y Hy. ussa_split y; try lra. pose proof (ussa_T_warm y Hy) as ET. unfold value_of.
    rewrite (ussa_P y 8 91000 (18687 / 100) (15381 / 100000) 0 _ E eq_refl eq_refl eq_refl eq_refl eq_refl ET) by (try lra; pose proof (warm_pos y); lra).
    rewrite ET. split; [reflexivity|]. unfold ussa_p, Reqb. destruct (Req_EM_T 0 0); [reflexivity|lra]. }
  destruct (V h) as [VT VP]; [lra|]. rewrite VT, VP in D.
  assert (0 < ussa_R_Star) as HR by (unfold ussa_R_Star; lra). assert (0 < ussa_air_molar_mass) as HM by (unfold ussa_air_molar_mass; lra).
  assert (0 < ussa_g_0) as HG by (unfold ussa_g_0; lra).
  set (g := ussa_g_0) in *. set (r := ussa_R_Star) in *. set (m := ussa_air_molar_mass) in *. clearbody g r m.
  set (e1 := exp (1 - powf2 ((h - 91000) / - (199429 / 10)))).
  set (T' := - (763232 / 10000) * e1 * (- (2 * ((h - 91000) / - (199429 / 10)) / - (199429 / 10)))).
  assert (is_derive warm_T h T') as DT.
  { unfold warm_T, powf2, T', e1. auto_derive; [exact I|]. unfold powf2, Rdiv, Rminus. set (e := exp _). clearbody e. field. }
  pose proof (warm_pos h) as HW.
  set (P := 15381 / 100000 * exp (- g * m * (h - 91000) / (r * warm_T h))) in *.
  assert (is_derive (fun y => 15381 / 100000 * exp (- g * m * (y - 91000) / (r * warm_T y))) h
     (P * (- g * m / (r * warm_T h) + g * m * (h - 91000) * T' / (r * (warm_T h * warm_T h))))) as D'.
  { assert (ex_derive warm_T h) by (exists T'; exact DT). pose proof (is_derive_unique _ _ _ DT) as U.
    unfold P. auto_derive; [repeat split; [assumption|nra]|]. unfold Rdiv, Rminus in *. fold warm_T.
    change (Derive (fun x : R => warm_T x) h) with (Derive warm_T h). rewrite U. set (e := exp _). clearbody e. field. lra. }
  assert (is_derive (value_of ussa_pressure) h (P * (- g * m / (r * warm_T h) + g * m * (h - 91000) * T' / (r * (warm_T h * warm_T h))))) as D2.
  { apply (glue_derive (fun y => 15381 / 100000 * exp (- g * m * (y - 91000) / (r * warm_T y))) (fun y => 15381 / 100000 * exp (- g * m * (y - 91000) / (r * warm_T y)))
       _ h _ ((h - 91000) / 2) ((110000 - h) / 2)); try lra; try assumption; intros y Hy; apply V; lra. }
  pose proof (eq_trans (eq_sym (is_derive_unique _ _ _ D)) (is_derive_unique _ _ _ D2)) as Eq.
  assert (0 < P) as HP by (apply Rmult_lt_0_compat; [lra|apply exp_pos]).
  assert (0 < e1) as He by apply exp_pos.
  assert (T' <> 0) as NT.
  { unfold T'. assert (0 < e1 * (h - 91000)) by (apply Rmult_lt_0_compat; lra).
    replace (- (763232 / 10000) * e1 * - (2 * ((h - 91000) / - (199429 / 10)) / - (199429 / 10)))
      with ((763232 / 10000 * 2 * (10 / 199429) * (10 / 199429)) * (e1 * (h - 91000))) by field. lra. }
  assert (P * (g * m * (h - 91000) * T' / (r * (warm_T h * warm_T h))) = 0) as Z.
  { replace (P * (g * m * (h - 91000) * T' / (r * (warm_T h * warm_T h)))) with
     (P * (- g * m / (r * warm_T h) + g * m * (h - 91000) * T' / (r * (warm_T h * warm_T h))) - - g * P / (r / m * warm_T h)) by (field; lra).
    lra. }
  clearbody P T'. revert Z. unfold Rdiv. repeat apply Rmult_integral_contrapositive_currified; try lra.
  apply Rinv_neq_0_compat. repeat apply Rmult_integral_contrapositive_currified; lra.
Qed.

(** ** Viscosity (C88) *)
(** Sutherland's law with S = 110.4 K and beta = 1.458e-6: positive, and larger for hotter air. *)
Theorem C88_sutherland : forall h, h < 1000000 -> exists T, ussa_temperature h = Val T /\
  ussa_dynamic_viscosity h = Val (1.458 / 10 ^ 6 * (T * sqrt T) / (T + 110.4)).
Proof.
  intros h Hh. destruct (ussa_T_pos h Hh) as (T & ET & HT). exists T. split; [exact ET|].
  unfold ussa_dynamic_viscosity. rewrite ET. cbn [unwrap obind]. unfold powf. rewrite (proj2 (Rltb_true 0 T)) by lra. cbn [obind].
  f_equal. replace (15 / 10) with (1 + / 2) by lra. rewrite Rpower_plus, Rpower_1, Rpower_sqrt by lra.
  unfold ussa_viscosity_A, ussa_viscosity_B. replace 1.458 with (1458 / 1000) by lra. replace 110.4 with (1104 / 10) by lra. field. lra.
Qed.
Theorem C88_hotter_air_is_more_viscous : forall h k T T' v v', h < 1000000 -> k < 1000000 ->
  ussa_temperature h = Val T -> ussa_temperature k = Val T' -> T < T' ->
  ussa_dynamic_viscosity h = Val v -> ussa_dynamic_viscosity k = Val v' -> 0 < v < v'.
Proof.
  intros h k T T' v v' Hh Hk ET ET' L Ev Ev'.
  destruct (ussa_T_pos h Hh) as (T1 & E1 & P1). rewrite ET in E1. injection E1 as <-.
  destruct (C88_sutherland h Hh) as (T1 & E1 & S1). destruct (C88_sutherland k Hk) as (T2 & E2 & S2).
  rewrite ET in E1. injection E1 as <-. rewrite ET' in E2. injection E2 as <-.
  assert (v = 1.458 / 10 ^ 6 * (T * sqrt T) / (T + 110.4)) as -> by congruence.
  assert (v' = 1.458 / 10 ^ 6 * (T' * sqrt T') / (T' + 110.4)) as -> by congruence.
  assert (0 < sqrt T) by (apply sqrt_lt_R0; lra). assert (sqrt T < sqrt T') by (apply sqrt_lt_1; lra).
  split; [apply Rdiv_lt_0_compat; [apply Rmult_lt_0_compat; [lra|apply Rmult_lt_0_compat; lra]|lra]|].
  assert (T / (T + 110.4) < T' / (T' + 110.4)).
  { apply Rminus_gt_0_lt. replace (T' / (T' + 110.4) - T / (T + 110.4)) with (110.4 * (T' - T) / ((T' + 110.4) * (T + 110.4))) by (field; lra).
    apply Rdiv_lt_0_compat; apply Rmult_lt_0_compat; lra. }
  assert (0 < T / (T + 110.4)) by (apply Rdiv_lt_0_compat; lra).
  replace (1.458 / 10 ^ 6 * (T * sqrt T) / (T + 110.4)) with (1.458 / 10 ^ 6 * (T / (T + 110.4) * sqrt T)) by (field; lra).
  replace (1.458 / 10 ^ 6 * (T' * sqrt T') / (T' + 110.4)) with (1.458 / 10 ^ 6 * (T' / (T' + 110.4) * sqrt T')) by (field; lra).
  apply Rmult_lt_compat_l; [lra|]. apply Rmult_gt_0_lt_compat; lra.
Qed.
Example C88_nontrivial : exists v v', ussa_dynamic_viscosity 30000 = Val v /\ ussa_dynamic_viscosity 0 = Val v' /\ 0 < v < v'.
Proof.
  destruct C58_nontrivial as [E0 E3].
  destruct (C88_sutherland 0 ltac:(lra)) as (T0 & _ & S0). destruct (C88_sutherland 30000 ltac:(lra)) as (T3 & _ & S3).
  do 2 eexists. split; [exact S3|]. split; [exact S0|].
  refine (C88_hotter_air_is_more_viscous 30000 0 _ _ _ _ _ _ E3 E0 _ S3 S0); lra.
Qed.
