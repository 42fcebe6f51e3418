(** C141: the U.S. standard atmosphere below 86 km in floating point. *)
From Coq Require Import ZArith QArith Qreals Reals Lra Lia Bool Arith List Psatz.
From Verif Require Import Scalar InterpProofs AtmModel AtmSpec AtmFloatModel UssaFloatModel UssaProps.
From Flocq Require Import Core BinarySingleNaN.
From Verif Require Import FloatModel RoundProps StatsFloatProps InterpFloatProps Apx AtmRoundProps.
Import ListNotations.
Local Open Scope R_scope.

(** ** The two models are one code *)
Lemma us_hei : g_ussa_heights Rops = ussa_heights. Proof. unfold g_ussa_heights, ussa_heights. cbn [map lit Rops]. unfold Q2R. cbn [Qnum Qden]. repeat (apply f_equal2; [lra|]). reflexivity. Qed.
Lemma us_tem : g_ussa_temperatures Rops = ussa_temperatures. Proof. unfold g_ussa_temperatures, ussa_temperatures. cbn [map lit Rops]. unfold Q2R. cbn [Qnum Qden]. repeat (apply f_equal2; [lra|]). reflexivity. Qed.
Lemma us_pre : g_ussa_pressures Rops = ussa_pressures. Proof. unfold g_ussa_pressures, ussa_pressures. cbn [map lit Rops]. unfold Q2R. cbn [Qnum Qden]. repeat (apply f_equal2; [lra|]). reflexivity. Qed.
Lemma us_lap : g_ussa_lapse_rates Rops = ussa_lapse_rates. Proof. unfold g_ussa_lapse_rates, ussa_lapse_rates. cbn [map lit Rops]. unfold Q2R. cbn [Qnum Qden]. repeat (apply f_equal2; [lra|]). reflexivity. Qed.
Lemma us_find turns h i : g_ussa_find Rops turns i h = ussa_find turns i (Alt h).
Proof.
  revert i. induction turns as [|v l IH]; intros i; [reflexivity|]. cbn [g_ussa_find ussa_find]. rewrite us_hei. replace (i + 1)%nat with (S i) by lia. unfold g_index, index.
  destruct (nth_error ussa_heights (S i)); [|reflexivity]. cbn [obind alt_lt]. change (ltb Rops) with Rltb. destruct (Rltb h r); [reflexivity|apply IH].
Qed.
(** the real power, extended to the squares of negative numbers *)
Definition real_pow (x y : R) : R := if Req_EM_T y 2 then x * x else Rpower x y.
Lemma real_pow_other x y : y <> 2 -> real_pow x y = Rpower x y. Proof. intros N. unfold real_pow. destruct (Req_EM_T y 2); [contradiction|reflexivity]. Qed.
Theorem C141_same_code : forall h,
  g_ussa_temperature Rops exp real_pow h = ussa_temperature h /\ g_ussa_pressure Rops exp real_pow h = ussa_pressure h /\
  g_ussa_density Rops exp real_pow h = ussa_density h /\ g_ussa_speed_of_sound Rops exp real_pow h = ussa_speed_of_sound h /\ g_ussa_dynamic_viscosity Rops exp real_pow h = ussa_dynamic_viscosity h.
Proof.
  intros h. assert (Ei : g_ussa_base_index Rops h = ussa_base_index (Alt h)) by (unfold g_ussa_base_index; rewrite us_hei; apply us_find).
  assert (C0 : g_ussa_g_0 Rops = ussa_g_0) by (unfold g_ussa_g_0, ussa_g_0; cbn [lit Rops]; unfold Q2R; cbn [Qnum Qden]; lra).
  assert (C1 : g_ussa_R_Star Rops = ussa_R_Star) by (unfold g_ussa_R_Star, ussa_R_Star; cbn [lit Rops]; unfold Q2R; cbn [Qnum Qden]; lra).
  assert (C2 : g_ussa_r_0 Rops = ussa_r_0) by (unfold g_ussa_r_0, ussa_r_0; cbn [lit Rops]; unfold Q2R; cbn [Qnum Qden]; lra).
  assert (C3 : g_ussa_air_molar_mass Rops = ussa_air_molar_mass) by (unfold g_ussa_air_molar_mass, ussa_air_molar_mass; cbn [lit Rops]; unfold Q2R; cbn [Qnum Qden]; lra).
  assert (LZ : forall z, lit Rops (z # 1) = IZR z) by (intros z; cbn [lit Rops]; unfold Q2R; cbn [Qnum Qden]; field).
  assert (LQ : forall z n, lit Rops (z # n) = IZR z / IZR (Z.pos n)) by (intros z n; cbn [lit Rops]; unfold Q2R; reflexivity).
  assert (Et : g_ussa_temperature Rops exp real_pow h = ussa_temperature h).
  { unfold g_ussa_temperature, ussa_temperature. rewrite Ei, !LZ, !LQ, C2, us_hei, us_tem, us_lap.
    change (ltb Rops) with Rltb. change (add Rops) with Rplus. change (sub Rops) with Rminus. change (mul Rops) with Rmult. change (div Rops) with Rdiv. change (neg Rops) with Ropp. change (one Rops) with 1. change (zero Rops) with 0.
    assert (RP : forall x, real_pow x 2 = powf2 x) by (intros x; unfold real_pow, powf2; destruct (Req_EM_T 2 2) as [_|N]; [reflexivity|contradiction N; reflexivity]).
    ussa_split h; rewrite E; cbn [unwrap obind]; try reflexivity; cbn [ussa_gradient_index length ussa_heights Nat.eqb]; unfold g_index, index; cbn [nth_error ussa_temperatures ussa_lapse_rates ussa_heights obind]; rewrite RP; reflexivity. }
  destruct (Rlt_le_dec h 1000000) as [Hh|Hh].
  2:{ assert (E : ussa_base_index (Alt h) = Panics) by (ussa_split h; try lra; exact E). unfold g_ussa_density, ussa_density, g_ussa_speed_of_sound, ussa_speed_of_sound, g_ussa_dynamic_viscosity, ussa_dynamic_viscosity, g_ussa_pressure, ussa_pressure. rewrite Et, Ei. unfold ussa_temperature. rewrite E. repeat split; reflexivity. }
  destruct (ussa_T_pos h Hh) as (T & ET & HT). rewrite ET in Et.
  assert (Ep : g_ussa_pressure Rops exp real_pow h = ussa_pressure h).
  { unfold g_ussa_pressure, ussa_pressure. rewrite Ei, Et, ET, us_hei, us_tem, us_pre, us_lap, C0, C1, C3. cbn [unwrap obind].
    ussa_split h; try lra;
    (rewrite E; cbn [obind ussa_gradient_index length ussa_heights Nat.eqb]; unfold g_index, index; cbn [nth_error ussa_temperatures ussa_pressures ussa_lapse_rates ussa_heights obind];
     change (eqb Rops) with Reqb; change (zero Rops) with 0; match goal with |- context[negb ?b] => destruct (negb b) eqn:N0 end; [|reflexivity];
     unfold powf; rewrite (proj2 (Rltb_true 0 _)); [|apply Rdiv_lt_0_compat; lra]; rewrite real_pow_other; [reflexivity|];
     cbn [mul div Rops]; first [unfold ussa_g_0, ussa_air_molar_mass, ussa_R_Star; lra | exfalso; unfold Reqb in N0; destruct (Req_EM_T 0 0) as [_|N1]; [discriminate N0|apply N1; reflexivity]]). }
  assert (CA : g_ussa_viscosity_A Rops = ussa_viscosity_A) by (unfold g_ussa_viscosity_A, ussa_viscosity_A; rewrite !LQ; reflexivity).
  assert (CB : g_ussa_viscosity_B Rops = ussa_viscosity_B) by (unfold g_ussa_viscosity_B, ussa_viscosity_B; rewrite !LQ; reflexivity).
  split; [rewrite Et, ET; reflexivity|]. split; [exact Ep|]. unfold g_ussa_density, ussa_density, g_ussa_speed_of_sound, ussa_speed_of_sound, g_ussa_dynamic_viscosity, ussa_dynamic_viscosity.
  rewrite Ep, Et, ET, C1, C3, CA, CB, !LQ. split; [reflexivity|]. split; [reflexivity|]. cbn [unwrap obind]. unfold powf. rewrite (proj2 (Rltb_true 0 T)) by lra. rewrite real_pow_other by lra. reflexivity.
Qed.

Lemma exp11 x : x <= 11 -> exp x <= 177147.
Proof.
  intros L. assert (E : exp 11 <= 177147).
  { replace 11 with (1+1+1+1+1+1+1+1+1+1+1) by lra. rewrite !exp_plus. pose proof exp_le_3 as E. pose proof (exp_pos 1) as Pe1.
    replace 177147 with (3*3*3*3*3*3*3*3*3*3*3) by lra. repeat (apply Rmult_le_compat; [repeat apply Rmult_le_pos; lra|lra| |exact E]). exact E. }
  eapply Rle_trans; [|exact E]. destruct (Req_dec x 11) as [->|N]; [lra|]. left. apply exp_increasing. lra.
Qed.
Lemma ln_mono x y : 0 < x -> x <= y -> ln x <= ln y.
Proof. intros Hx [L| ->]; [left; apply ln_increasing; assumption|right; reflexivity]. Qed.
Lemma ln_ratio x : 84 / 100 <= x <= 135 / 100 -> Rabs (ln x) <= 316 / 1000.
Proof.
  intros B. apply Rabs_le. split.
  - pose proof (ln_gap x 1 (84 / 100) ltac:(lra) ltac:(lra) ltac:(lra)) as K. rewrite ln_1, Rminus_0_r in K. apply Rabs_le_inv in K. destruct (Rle_lt_dec 1 x) as [L|L].
    + pose proof (ln_mono 1 x ltac:(lra) L) as K'. rewrite ln_1 in K'. lra.
    + rewrite (Rabs_left1 (x - 1)) in K by lra. lra.
  - assert (E : x <= 11053 / 10000 * (11053 / 10000) * (11053 / 10000)) by lra.
    pose proof (ln_mono x _ ltac:(lra) E) as K. rewrite !ln_mult in K by lra.
    pose proof (ln_gap (11053 / 10000) 1 1 ltac:(lra) ltac:(lra) ltac:(lra)) as K1. rewrite ln_1, Rminus_0_r, (Rabs_pos_eq (11053 / 10000 - 1)) in K1 by lra. apply Rabs_le_inv in K1. lra.
Qed.

Section Width.
Context (prec emax : Z) {P : Prec_gt_0 prec} {M : Prec_lt_emax prec emax}.
Context (Hp : (53 <= prec)%Z) (He : (1024 <= emax)%Z).
Local Notation fl := (binary_float prec emax).
Local Notation u := (unit prec).
Local Notation eta := (tiny prec emax).
Local Notation o := (float_ops prec emax).
Local Notation near_mul := (near_mul prec emax Hp He). Local Notation near_div := (near_div prec emax Hp He). Local Notation lit_near := (lit_near prec emax Hp He). Local Notation lit_int := (lit_int prec emax Hp He).
Ltac facts := pose proof (u_pos prec) as Pu; pose proof (u53 prec Hp) as U; pose proof (eta_pos prec emax) as Pe; pose proof (eta_small prec emax He) as Es; pose proof (largest18 prec emax Hp He) as G;
  assert (UU : 0 <= u * u <= / 10 ^ 15 * u) by (split; [apply Rmult_le_pos; lra|apply Rmult_le_compat_r; lra]);
  assert (UUU : 0 <= u * (u * u) <= / 10 ^ 15 * (u * u)) by (split; [apply Rmult_le_pos; lra|apply Rmult_le_compat_r; lra]);
  assert (UE : u * eta <= / 10 ^ 15 * eta) by (apply Rmult_le_compat_r; lra).

Lemma c_g : near (g_ussa_g_0 o : fl) ussa_g_0 (1001 / 1000).
Proof. replace ussa_g_0 with (Q2R (980655 # 100000)) by (unfold ussa_g_0, Q2R; cbn [Qnum Qden]; lra). apply lit_near; [cbn; lia|cbn; lia|unfold Q2R; cbn [Qnum Qden]; rewrite Rabs_pos_eq; lra]. Qed.
Lemma c_Rs : near (g_ussa_R_Star o : fl) ussa_R_Star (1001 / 1000).
Proof. replace ussa_R_Star with (Q2R (831432 # 100)) by (unfold ussa_R_Star, Q2R; cbn [Qnum Qden]; lra). apply lit_near; [cbn; lia|cbn; lia|unfold Q2R; cbn [Qnum Qden]; rewrite Rabs_pos_eq; lra]. Qed.
Lemma c_M : near (g_ussa_air_molar_mass o : fl) ussa_air_molar_mass (1001 / 1000).
Proof. replace ussa_air_molar_mass with (Q2R (289644 # 10000)) by (unfold ussa_air_molar_mass, Q2R; cbn [Qnum Qden]; lra). apply lit_near; [cbn; lia|cbn; lia|unfold Q2R; cbn [Qnum Qden]; rewrite Rabs_pos_eq; lra]. Qed.
Lemma c_14 : near (lit o (14 # 10) : fl) (14 / 10) (1001 / 1000).
Proof. replace (14 / 10) with (Q2R (14 # 10)) by (unfold Q2R; cbn [Qnum Qden]; lra). apply lit_near; [cbn; lia|cbn; lia|unfold Q2R; cbn [Qnum Qden]; rewrite Rabs_pos_eq; lra]. Qed.

(** what is used of a layer *)
Definition strip_ok (h H T p L : R) : Prop :=
  186 <= T <= 321 /\ 3 <= p <= 101325 /\ Rabs L <= 65 / 10000 /\ Rabs (h - H) <= 20400 /\ 186 <= linear_T H T L h <= 321 /\ 84 / 100 <= T / linear_T H T L h <= 135 / 100.

Lemma strip_temperature (h H T L : fl) Tr p Lr : is_finite h = true -> is_finite H = true -> near T Tr (1001 / 1000) -> apx L Lr (66 / 10000 * u) -> strip_ok (B2R h) (B2R H) Tr p Lr ->
  near (add o T (mul o L (sub o h H))) (linear_T (B2R H) Tr Lr (B2R h)) (57 / 10).
Proof.
  intros Fh FH NT AL (BT & _ & BL & BH & BY & _). facts.
  assert (AD : apx (sub o h H) (B2R h - B2R H) (20400 * u)).
  { eapply apx_weak; [apply (apx_sub prec emax) with (1 := apx_exact prec emax h Fh) (2 := apx_exact prec emax H FH) (b := 20400); [exact BH|lra]|lra]. }
  assert (AM : apx (mul o L (sub o h H)) (Lr * (B2R h - B2R H)) (401 * u)).
  { eapply apx_weak; [apply (apx_mul prec emax) with (1 := AL) (2 := AD) (bx := 65 / 10000) (by_ := 20400); [exact BL|exact BH|lra]|lra]. }
  assert (AT : apx T Tr (3214 / 10 * u)).
  { eapply apx_weak; [apply near_apx, NT|]. rewrite Rabs_pos_eq by lra. assert (u * Tr <= u * 321) by (apply Rmult_le_compat_l; lra). lra. }
  eapply apx_near; [apply (apx_add prec emax) with (1 := AT) (2 := AM) (b := 321); [fold (linear_T (B2R H) Tr Lr (B2R h)); rewrite Rabs_pos_eq; lra|lra]|].
  rewrite Rabs_pos_eq by lra. assert (u * 186 <= u * linear_T (B2R H) Tr Lr (B2R h)) by (apply Rmult_le_compat_l; lra). lra.
Qed.

Lemma strip_power (f : fl -> fl -> fl) (T t L : fl) Tr Tv Lr : accurate_pow f -> near T Tr (1001 / 1000) -> near t Tv (57 / 10) -> near L Lr (1001 / 1000) ->
  186 <= Tr <= 321 -> 186 <= Tv <= 321 -> 84 / 100 <= Tr / Tv <= 135 / 100 -> / 1000 <= Rabs Lr <= 65 / 10000 ->
  let X := Rpower (Tr / Tv) ((ussa_g_0 * ussa_air_molar_mass) / (ussa_R_Star * Lr)) in
  near (f (div o T t) (div o (mul o (g_ussa_g_0 o) (g_ussa_air_molar_mass o)) (mul o (g_ussa_R_Star o) L))) X 364 /\ / 4782969 <= X <= 177147.
Proof.
  intros Af NT Nt NL BT Bt B2 BL X. facts.
  assert (NQ : near (div o T t) (Tr / Tv) (772 / 100)) by (eapply near_weak; [apply (near_div _ _ _ _ _ _ NT Nt); [lra|lra|lra|rewrite Rabs_pos_eq; lra]|lra]).
  pose proof c_g as Cg. pose proof c_M as CM. pose proof c_Rs as CR.
  assert (BG : 284 <= ussa_g_0 * ussa_air_molar_mass <= 28405 / 100) by (unfold ussa_g_0, ussa_air_molar_mass; lra).
  assert (NG : near (mul o (g_ussa_g_0 o) (g_ussa_air_molar_mass o)) (ussa_g_0 * ussa_air_molar_mass) (3012 / 1000)) by (eapply near_weak; [apply (near_mul _ _ _ _ _ _ Cg CM); [lra|lra|rewrite Rabs_pos_eq; lra]|lra]).
  assert (PR : 0 < ussa_R_Star) by (unfold ussa_R_Star; lra).
  assert (BRL : 831 / 100 <= Rabs (ussa_R_Star * Lr) <= 55) by (rewrite Rabs_mult, (Rabs_pos_eq ussa_R_Star) by lra; unfold ussa_R_Star; lra).
  assert (NRL : near (mul o (g_ussa_R_Star o) L) (ussa_R_Star * Lr) (3012 / 1000)) by (eapply near_weak; [apply (near_mul _ _ _ _ _ _ CR NL); lra|lra]).
  assert (NRL0 : ussa_R_Star * Lr <> 0) by (intros E; rewrite E, Rabs_R0 in BRL; lra).
  assert (B3 : 4 <= Rabs (ussa_g_0 * ussa_air_molar_mass / (ussa_R_Star * Lr)) <= 342 / 10).
  { unfold Rdiv. rewrite Rabs_mult, Rabs_inv, (Rabs_pos_eq (ussa_g_0 * ussa_air_molar_mass)) by lra. split; apply (Rmult_le_reg_r (Rabs (ussa_R_Star * Lr))); try lra; rewrite Rmult_assoc, Rinv_l by lra; lra. }
  assert (N3 : near (div o (mul o (g_ussa_g_0 o) (g_ussa_air_molar_mass o)) (mul o (g_ussa_R_Star o) L)) (ussa_g_0 * ussa_air_molar_mass / (ussa_R_Star * Lr)) (704 / 100)).
  { eapply near_weak; [apply (near_div _ _ _ _ _ _ NG NRL); [lra|lra|exact NRL0|lra]|lra]. }
  unfold X. remember (Tr / Tv) as t2 eqn:Ht2. remember (ussa_g_0 * ussa_air_molar_mass / (ussa_R_Star * Lr)) as t3 eqn:Ht3.
  set (x := div o T t) in *. set (y := div o (mul o (g_ussa_g_0 o) (g_ussa_air_molar_mass o)) (mul o (g_ussa_R_Star o) L)) in *.
  destruct NQ as [Fx Hx]. rewrite (Rabs_pos_eq t2) in Hx by lra. destruct N3 as [Fy Hy]. apply Rabs_le_inv in Hx as Hx'.
  assert (Ut : 0 <= u * t2 <= / 10 ^ 15 * t2) by (split; [apply Rmult_le_pos; lra|apply Rmult_le_compat_r; lra]).
  assert (U3 : u * Rabs t3 <= u * (342 / 10)) by (apply Rmult_le_compat_l; lra).
  assert (Hy' : Rabs (B2R y - t3) <= 2408 / 10 * u) by lra.
  assert (Px : 8 / 10 <= B2R x <= 14 / 10) by lra.
  pose proof (ln_small _ Px) as Lx. pose proof (ln_ratio t2 ltac:(lra)) as Lt. pose proof (ln_gap (B2R x) t2 (999 / 1000 * t2) ltac:(lra) ltac:(lra) ltac:(lra)) as Lg.
  assert (Lg' : Rabs (ln (B2R x) - ln t2) <= 773 / 100 * u).
  { eapply Rle_trans; [exact Lg|]. apply (Rmult_le_reg_r (999 / 1000 * t2)); [lra|]. unfold Rdiv at 1. rewrite Rmult_assoc, Rinv_l by lra. lra. }
  assert (Dl : Rabs (B2R y * ln (B2R x) - t3 * ln t2) <= 361 * u).
  { replace (B2R y * ln (B2R x) - t3 * ln t2) with ((B2R y - t3) * ln (B2R x) + t3 * (ln (B2R x) - ln t2)) by ring. eapply Rle_trans; [apply Rabs_triang|]. rewrite !Rabs_mult.
    assert (Rabs (B2R y - t3) * Rabs (ln (B2R x)) <= 2408 / 10 * u * (4 / 10)) by (apply Rmult_le_compat; try apply Rabs_pos; lra).
    assert (Rabs t3 * Rabs (ln (B2R x) - ln t2) <= 342 / 10 * (773 / 100 * u)) by (apply Rmult_le_compat; try apply Rabs_pos; lra). lra. }
  assert (Z : Rabs (t3 * ln t2) <= 11) by (rewrite Rabs_mult; apply Rle_trans with (342 / 10 * (316 / 1000)); [apply Rmult_le_compat; try apply Rabs_pos; lra|lra]).
  split; [|unfold Rpower; split; [apply exp14; lra|apply exp11; apply Rabs_le_inv in Z; lra]].
  assert (Zy : Rabs (B2R y * ln (B2R x)) <= 14).
  { replace (B2R y * ln (B2R x)) with ((B2R y * ln (B2R x) - t3 * ln t2) + t3 * ln t2) by ring. eapply Rle_trans; [apply Rabs_triang|]. lra. }
  pose proof (Af x y Fx Fy ltac:(lra) Zy) as K. unfold Rpower. unfold Rpower in K.
  eapply near_weak; [apply (exp_near prec emax Hp He _ _ _ 361 Dl); [lra|exact K]|lra].
Qed.

Lemma strip_exp (f : fl -> fl) (h H t : fl) Tv : accurate_exp f -> is_finite h = true -> is_finite H = true -> near t Tv (57 / 10) -> 186 <= Tv <= 321 -> Rabs (B2R h - B2R H) <= 20400 ->
  let X := exp ((- ussa_g_0 * ussa_air_molar_mass * (B2R h - B2R H)) / (ussa_R_Star * Tv)) in
  near (f (div o (mul o (mul o (neg o (g_ussa_g_0 o)) (g_ussa_air_molar_mass o)) (sub o h H)) (mul o (g_ussa_R_Star o) t))) X 364 /\ / 4782969 <= X <= 177147.
Proof.
  intros Af Fh FH Nt Bt BH X. facts. pose proof c_g as Cg. pose proof c_M as CM. pose proof c_Rs as CR.
  assert (AD : apx (sub o h H) (B2R h - B2R H) (20400 * u)).
  { eapply apx_weak; [apply (apx_sub prec emax) with (1 := apx_exact prec emax h Fh) (2 := apx_exact prec emax H FH) (b := 20400); [exact BH|lra]|lra]. }
  assert (BG : Rabs (- ussa_g_0 * ussa_air_molar_mass) <= 28405 / 100) by (apply Rabs_le; unfold ussa_g_0, ussa_air_molar_mass; lra).
  assert (BG2 : 284 <= Rabs (- ussa_g_0 * ussa_air_molar_mass)) by (rewrite Rabs_mult, Rabs_Ropp, !Rabs_pos_eq by (unfold ussa_g_0, ussa_air_molar_mass; lra); unfold ussa_g_0, ussa_air_molar_mass; lra).
  assert (NG : near (mul o (neg o (g_ussa_g_0 o)) (g_ussa_air_molar_mass o)) (- ussa_g_0 * ussa_air_molar_mass) (3012 / 1000)).
  { eapply near_weak; [apply (near_mul _ _ _ _ _ _ (near_neg prec emax _ _ _ Cg) CM); [lra|lra|lra]|lra]. }
  assert (AG : apx (mul o (neg o (g_ussa_g_0 o)) (g_ussa_air_molar_mass o)) (- ussa_g_0 * ussa_air_molar_mass) (856 * u)).
  { eapply apx_weak; [apply near_apx, NG|]. assert (u * Rabs (- ussa_g_0 * ussa_air_molar_mass) <= u * (28405 / 100)) by (apply Rmult_le_compat_l; lra). lra. }
  assert (AM : apx (mul o (mul o (neg o (g_ussa_g_0 o)) (g_ussa_air_molar_mass o)) (sub o h H)) (- ussa_g_0 * ussa_air_molar_mass * (B2R h - B2R H)) (29100000 * u)).
  { eapply apx_weak; [apply (apx_mul prec emax) with (1 := AG) (2 := AD) (bx := 28405 / 100) (by_ := 20400); [exact BG|exact BH|lra]|lra]. }
  assert (PR : 0 < ussa_R_Star) by (unfold ussa_R_Star; lra).
  assert (BRT : 1546000 <= ussa_R_Star * Tv <= 2669000) by (unfold ussa_R_Star; lra).
  assert (NRT : near (mul o (g_ussa_R_Star o) t) (ussa_R_Star * Tv) (772 / 100)) by (eapply near_weak; [apply (near_mul _ _ _ _ _ _ CR Nt); [lra|lra|rewrite Rabs_pos_eq; lra]|lra]).
  assert (ART : apx (mul o (g_ussa_R_Star o) t) (ussa_R_Star * Tv) (20700000 * u)).
  { eapply apx_weak; [apply near_apx, NRT|]. rewrite Rabs_pos_eq by lra. assert (u * (ussa_R_Star * Tv) <= u * 2669000) by (apply Rmult_le_compat_l; lra). lra. }
  unfold X. remember (- ussa_g_0 * ussa_air_molar_mass * (B2R h - B2R H)) as n eqn:Hn. remember (ussa_R_Star * Tv) as d eqn:Hd.
  assert (Bn : Rabs n <= 5795000) by (rewrite Hn, Rabs_mult; apply Rle_trans with (28405 / 100 * 20400); [apply Rmult_le_compat; try apply Rabs_pos; lra|lra]).
  assert (Bq : Rabs (n / d) <= 375 / 100).
  { unfold Rdiv. rewrite Rabs_mult, Rabs_inv, (Rabs_pos_eq d) by lra. apply (Rmult_le_reg_r d); [lra|]. rewrite Rmult_assoc, Rinv_l by lra. lra. }
  assert (Eq : (29100000 * u + 375 / 100 * (20700000 * u)) / (1546000 - 20700000 * u) <= 70 * u).
  { apply (Rmult_le_reg_r (1546000 - 20700000 * u)); [lra|]. unfold Rdiv at 1. rewrite Rmult_assoc, Rinv_l by lra. lra. }
  assert (Eq0 : 0 <= (29100000 * u + 375 / 100 * (20700000 * u)) / (1546000 - 20700000 * u)) by (apply Rmult_le_pos; [lra|left; apply Rinv_0_lt_compat; lra]).
  assert (AQ : apx (div o (mul o (mul o (neg o (g_ussa_g_0 o)) (g_ussa_air_molar_mass o)) (sub o h H)) (mul o (g_ussa_R_Star o) t)) (n / d) (75 * u)).
  { eapply apx_weak; [apply (apx_div prec emax) with (1 := AM) (2 := ART) (m := 1546000) (b := 375 / 100); [lra|rewrite Rabs_pos_eq; lra|exact Bq|lra]|].
    remember ((29100000 * u + 375 / 100 * (20700000 * u)) / (1546000 - 20700000 * u)) as z eqn:Hz. assert (u * z <= u * 1) by (apply Rmult_le_compat_l; lra). lra. }
  split; [|split; [apply exp14; lra|apply exp11; apply Rabs_le_inv in Bq; lra]]. destruct AQ as [F D].
  assert (Zy : Rabs (B2R (div o (mul o (mul o (neg o (g_ussa_g_0 o)) (g_ussa_air_molar_mass o)) (sub o h H)) (mul o (g_ussa_R_Star o) t))) <= 14) by (pose proof (apx_size _ _ _ _ _ (conj F D)); lra).
  pose proof (Af _ F Zy) as K. eapply near_weak; [apply (exp_near prec emax Hp He _ _ _ 75 D); [lra|exact K]|lra].
Qed.

(** ** All layers *)
Context (expf : fl -> fl) (powF : fl -> fl -> fl) (Ae : accurate_exp expf) (Ap : accurate_pow powF).
Lemma ltb_int (h : fl) z : is_finite h = true -> (Z.abs z <= 2 ^ 52)%Z -> ltb o h (lit o (z # 1)) = Rltb (B2R h) (IZR z).
Proof.
  intros F L. destruct (lit_int z L) as [Fz Ez]. change (ltb o h (lit o (z # 1))) with (Bltb h (lit o (z # 1))). rewrite Bltb_correct by assumption. rewrite Ez.
  unfold Rltb. destruct (Rlt_dec (B2R h) (IZR z)); [apply Rlt_bool_true; assumption|apply Rlt_bool_false; lra].
Qed.
Lemma us_index_same (h : fl) : is_finite h = true -> g_ussa_base_index o h = ussa_base_index (Alt (B2R h)).
Proof.
  intros F. unfold g_ussa_base_index, ussa_base_index. unfold g_ussa_heights at 1. unfold ussa_heights at 1. cbn [map g_ussa_find ussa_find alt_lt Nat.add g_index index nth_error g_ussa_heights ussa_heights obind].
  unfold g_index. cbn [nth_error g_ussa_heights map obind]. rewrite !ltb_int by (exact F || (cbn; lia)). reflexivity.
Qed.
Lemma one_strip (h : fl) i qH qT qp qL H T p L : is_finite h = true -> B2R h < 86000 -> ussa_base_index (Alt (B2R h)) = Val i -> ussa_gradient_index i = Some i ->
  nth_error (g_ussa_heights o) i = Some (lit o (qH # 1)) -> nth_error (g_ussa_temperatures o) i = Some (lit o qT) -> nth_error (g_ussa_pressures o) i = Some (lit o qp) -> nth_error (g_ussa_lapse_rates o) i = Some (lit o qL) ->
  nth_error ussa_heights i = Some H -> nth_error ussa_temperatures i = Some T -> nth_error ussa_pressures i = Some p -> nth_error ussa_lapse_rates i = Some L ->
  H = IZR qH -> T = Q2R qT -> p = Q2R qp -> L = Q2R qL ->
  (Z.abs qH <= 2 ^ 52)%Z -> (Z.abs (Qnum qT) <= 2 ^ 52)%Z -> (Z.pos (Qden qT) <= 2 ^ 52)%Z -> (Z.abs (Qnum qp) <= 2 ^ 52)%Z -> (Z.pos (Qden qp) <= 2 ^ 52)%Z -> (Z.abs (Qnum qL) <= 2 ^ 52)%Z -> (Z.pos (Qden qL) <= 2 ^ 52)%Z ->
  (qL = 0 # 1 \/ / 1000 <= Rabs L) -> strip_ok (B2R h) H T p L ->
  same_within (g_ussa_temperature o expf powF h) (ussa_temperature (B2R h)) (57 / 10) /\
  same_within (g_ussa_pressure o expf powF h) (ussa_pressure (B2R h)) 367 /\
  same_within (g_ussa_density o expf powF h) (ussa_density (B2R h)) 378 /\
  same_within (g_ussa_speed_of_sound o expf powF h) (ussa_speed_of_sound (B2R h)) 12 /\
  (exists T0 p0, ussa_temperature (B2R h) = Val T0 /\ ussa_pressure (B2R h) = Val p0 /\ 186 <= T0 <= 321 /\ / 10 ^ 7 <= p0 <= 18 * 10 ^ 9).
Proof.
  intros F Hh Ei Eg GH GT Gp GL RH RT Rp RL VH VT Vp VL LH LT1 LT2 Lp1 Lp2 LL1 LL2 CL OK. facts.
  assert (Ef : g_ussa_base_index o h = Val i) by (rewrite us_index_same by exact F; exact Ei).
  pose proof OK as (BT & Bp & BL & BH & BY & B2).
  pose proof (ussa_T_low (B2R h) i H T L Ei Eg RH RT RL Hh) as Et.
  pose proof (ussa_P (B2R h) i H T p L _ Ei Eg RH RT Rp RL Et ltac:(lra) ltac:(lra)) as Ep.
  destruct (lit_int qH LH) as [FH EH]. assert (EH' : B2R (lit o (qH # 1) : fl) = H) by (rewrite EH, VH; reflexivity).
  assert (NT : near (lit o qT : fl) T (1001 / 1000)) by (rewrite VT; apply lit_near; [exact LT1|exact LT2|rewrite <- VT, Rabs_pos_eq; lra]).
  assert (Np : near (lit o qp : fl) p (1001 / 1000)) by (rewrite Vp; apply lit_near; [exact Lp1|exact Lp2|rewrite <- Vp, Rabs_pos_eq; lra]).
  set (fH := lit o (qH # 1) : fl) in *. set (fT := lit o qT : fl) in *. set (fp := lit o qp : fl) in *. set (fL := lit o qL : fl) in *. clearbody fH fT fp. rewrite <- EH' in *.
  assert (AL : apx fL L (66 / 10000 * u)).
  { destruct CL as [-> | CL].
    - destruct (lit_int 0 ltac:(cbn; lia)) as [F0 E0]. split; [exact F0|]. unfold fL. rewrite E0, VL. unfold Q2R. cbn [Qnum Qden]. rewrite Rmult_0_l, Rminus_0_r, Rabs_R0. lra.
    - assert (N : near fL (Q2R qL) (1001 / 1000)) by (apply lit_near; [exact LL1|exact LL2|rewrite <- VL; lra]). rewrite <- VL in N. eapply apx_weak; [apply near_apx, N|].
      assert (u * Rabs L <= u * (65 / 10000)) by (apply Rmult_le_compat_l; lra). lra. }
  pose proof (strip_temperature h fH fT fL T p L F FH NT AL OK) as NTV.
  set (tv := add o fT (mul o fL (sub o h fH))) in *.
  assert (Gt : g_ussa_temperature o expf powF h = Val tv).
  { unfold g_ussa_temperature. rewrite Ef. cbn [obind unwrap]. rewrite Eg. rewrite (ltb_int h 86000 F) by (cbn; lia). rewrite (proj2 (Rltb_true _ _) Hh). unfold g_index. rewrite GT, GL, GH. reflexivity. }
  remember (linear_T (B2R fH) T L (B2R h)) as TV eqn:HTV.
  assert (S1 : same_within (g_ussa_temperature o expf powF h) (ussa_temperature (B2R h)) (57 / 10)) by (exists tv, TV; split; [exact Gt|split; [exact Et|exact NTV]]).
  assert (S2 : exists v X, g_ussa_pressure o expf powF h = Val (mul o fp v) /\ ussa_p (B2R fH) T p L TV (B2R h) = p * X /\ near v X 364 /\ / 4782969 <= X <= 177147).
  { unfold g_ussa_pressure. rewrite Ef. cbn [obind]. rewrite Eg. unfold g_index. rewrite GT, GL, GH, Gp, Gt. cbn [obind unwrap].
    change (eqb o fL (zero o)) with (Beqb fL (B754_zero false)). rewrite Beqb_correct by (exact (proj1 AL) || reflexivity). cbn [B2R]. unfold ussa_p.
    destruct CL as [C0 | CL].
    - assert (L0 : L = 0) by (rewrite VL, C0; unfold Q2R; cbn [Qnum Qden]; lra).
      assert (E0 : B2R fL = 0) by (unfold fL; rewrite C0; apply (lit_int 0); cbn; lia).
      rewrite Req_bool_true by exact E0. cbn [negb]. rewrite L0. unfold Reqb. destruct (Req_EM_T 0 0) as [_|N]; [|contradiction N; reflexivity].
      destruct (strip_exp expf h fH tv TV Ae F FH NTV BY BH) as [K1 K2]. eexists _, _. split; [reflexivity|]. split; [reflexivity|]. split; [exact K1|exact K2].
    - assert (N : near fL L (1001 / 1000)) by (rewrite VL; apply lit_near; [exact LL1|exact LL2|rewrite <- VL; lra]).
      assert (L0 : L <> 0) by (intros E; rewrite E, Rabs_R0 in CL; lra).
      assert (N0 : B2R fL <> 0). { intros E. destruct AL as [_ AL]. rewrite E in AL. replace (0 - L) with (- L) in AL by ring. rewrite Rabs_Ropp in AL. lra. }
      rewrite Req_bool_false by exact N0. cbn [negb]. unfold Reqb. destruct (Req_EM_T L 0) as [E|_]; [contradiction|].
      destruct (strip_power powF fT tv fL T TV L Ap NT NTV N BT BY B2 ltac:(lra)) as [K1 K2]. eexists _, _. split; [reflexivity|]. split; [reflexivity|]. split; [exact K1|exact K2]. }
  destruct S2 as (v & X & GP & EX & NX & BX).
  assert (BPX : / 10 ^ 7 <= p * X <= 18 * 10 ^ 9).
  { split; [apply Rle_trans with (3 * / 4782969); [lra|apply Rmult_le_compat; lra]|apply Rle_trans with (101325 * 177147); [apply Rmult_le_compat; lra|lra]]. }
  assert (NP : near (mul o fp v) (ussa_p (B2R fH) T p L TV (B2R h)) 367).
  { rewrite EX. eapply near_weak; [apply (near_mul _ _ _ _ _ _ Np NX); [lra|lra|rewrite Rabs_pos_eq; lra]|lra]. }
  split; [exact S1|]. split; [exists (mul o fp v), (ussa_p (B2R fH) T p L TV (B2R h)); split; [exact GP|split; [exact Ep|exact NP]]|].
  pose proof c_M as CM. pose proof c_Rs as CR. pose proof c_14 as C14. rewrite EX in *. remember (p * X) as PX eqn:HPX.
  split; [|split; [|exists TV, PX; split; [exact Et|split; [exact Ep|split; [exact BY|exact BPX]]]]].
  - unfold g_ussa_density, ussa_density. rewrite Gt, GP, Et, Ep. cbn [obind unwrap]. do 2 eexists. split; [reflexivity|]. split; [reflexivity|].
    assert (BPM : / 10 ^ 6 <= PX * ussa_air_molar_mass <= 10 ^ 12) by (unfold ussa_air_molar_mass; split; [lra|]; apply Rle_trans with (101325 * 177147 * 289644 / 10000); [|lra]; assert (PX <= 101325 * 177147) by (rewrite HPX; apply Rmult_le_compat; lra); lra).
    assert (NPM : near (mul o (mul o fp v) (g_ussa_air_molar_mass o)) (PX * ussa_air_molar_mass) (36902 / 100)) by (eapply near_weak; [apply (near_mul _ _ _ _ _ _ NP CM); [lra|lra|rewrite Rabs_pos_eq; lra]|lra]).
    assert (BRT : 1546000 <= ussa_R_Star * TV <= 2669000) by (unfold ussa_R_Star; lra).
    assert (NRT : near (mul o (g_ussa_R_Star o) tv) (ussa_R_Star * TV) (772 / 100)) by (eapply near_weak; [apply (near_mul _ _ _ _ _ _ CR NTV); [lra|lra|rewrite Rabs_pos_eq; lra]|lra]).
    eapply near_weak; [apply (near_div _ _ _ _ _ _ NPM NRT); [lra|lra|lra|]|lra].
    assert (I1 : / 2669000 <= / (ussa_R_Star * TV) <= / 1546000) by (split; apply Rinv_le_contravar; lra).
    rewrite Rabs_pos_eq by (apply Rmult_le_pos; lra). unfold Rdiv. split.
    + apply Rle_trans with (/ 10 ^ 6 * / 2669000); [lra|apply Rmult_le_compat; lra].
    + apply Rle_trans with (10 ^ 12 * / 1546000); [apply Rmult_le_compat; lra|lra].
  - unfold g_ussa_speed_of_sound, ussa_speed_of_sound. rewrite Gt, Et. cbn [obind unwrap]. do 2 eexists. split; [reflexivity|]. split; [reflexivity|].
    assert (B1 : 11640 <= 14 / 10 * ussa_R_Star <= 11641) by (unfold ussa_R_Star; lra).
    assert (B3 : 401 <= 14 / 10 * ussa_R_Star / ussa_air_molar_mass <= 402) by (unfold ussa_R_Star, ussa_air_molar_mass; lra).
    assert (N1 : near (mul o (lit o (14 # 10)) (g_ussa_R_Star o)) (14 / 10 * ussa_R_Star) (3012 / 1000)) by (eapply near_weak; [apply (near_mul _ _ _ _ _ _ C14 CR); [lra|lra|rewrite Rabs_pos_eq; lra]|lra]).
    assert (N2 : near (div o (mul o (lit o (14 # 10)) (g_ussa_R_Star o)) (g_ussa_air_molar_mass o)) (14 / 10 * ussa_R_Star / ussa_air_molar_mass) (503 / 100)).
    { eapply near_weak; [apply (near_div _ _ _ _ _ _ N1 CM); [lra|lra|unfold ussa_air_molar_mass; lra|rewrite Rabs_pos_eq; lra]|lra]. }
    assert (B4 : 401 * 186 <= 14 / 10 * ussa_R_Star / ussa_air_molar_mass * TV <= 402 * 321) by (split; apply Rmult_le_compat; lra).
    eapply near_weak; [apply (near_mul _ _ _ _ _ _ N2 NTV); [lra|lra|rewrite Rabs_pos_eq; lra]|lra].
Qed.

Lemma all_strips (h : fl) : is_finite h = true -> -5000 <= B2R h < 86000 ->
  same_within (g_ussa_temperature o expf powF h) (ussa_temperature (B2R h)) (57 / 10) /\
  same_within (g_ussa_pressure o expf powF h) (ussa_pressure (B2R h)) 367 /\
  same_within (g_ussa_density o expf powF h) (ussa_density (B2R h)) 378 /\
  same_within (g_ussa_speed_of_sound o expf powF h) (ussa_speed_of_sound (B2R h)) 12 /\
  (exists T0 p0, ussa_temperature (B2R h) = Val T0 /\ ussa_pressure (B2R h) = Val p0 /\ 186 <= T0 <= 321 /\ / 10 ^ 7 <= p0 <= 18 * 10 ^ 9).
Proof.
  intros F Bh. pose proof (ussa_cases (B2R h)) as C.
  repeat (destruct C as [[B E]|C]; [try lra; eapply (one_strip h); [exact F|lra|exact E|reflexivity|reflexivity|reflexivity|reflexivity|reflexivity|reflexivity|reflexivity|reflexivity|reflexivity| | | | |
    cbn; lia|cbn; lia|cbn; lia|cbn; lia|cbn; lia|cbn; lia|cbn; lia| |];
    [reflexivity|unfold Q2R; cbn [Qnum Qden]; lra|unfold Q2R; cbn [Qnum Qden]; lra|unfold Q2R; cbn [Qnum Qden]; lra|first [left; reflexivity|right; unfold Rabs; destruct (Rcase_abs _); lra]|
     unfold strip_ok, linear_T; split; [lra|]; split; [lra|]; split; [unfold Rabs; destruct (Rcase_abs _); lra|]; split; [apply Rabs_le; lra|]; split; [lra|];
     split; (match goal with |- context[?a / ?b] => apply (Rmult_le_reg_r b); [lra|]; unfold Rdiv; rewrite ?Rmult_assoc; rewrite ?Rinv_l by lra; lra end)]|]). lra.
Qed.
(** the layer is the right one for every height, however close to a boundary *)
Theorem C141_layer : forall h : fl, is_finite h = true -> g_ussa_base_index o h = ussa_base_index (Alt (B2R h)).
Proof. exact us_index_same. Qed.
(** From -5 to 86 km: temperature, pressure, density and the number returned as speed of sound are within 6, 367, 378 and 12 units of relative rounding of the exact ones *)
Theorem C141_accurate : forall h : fl, is_finite h = true -> -5000 <= B2R h < 86000 ->
  same_within (g_ussa_temperature o expf powF h) (ussa_temperature (B2R h)) 6 /\
  same_within (g_ussa_pressure o expf powF h) (ussa_pressure (B2R h)) 367 /\
  same_within (g_ussa_density o expf powF h) (ussa_density (B2R h)) 378 /\
  same_within (g_ussa_speed_of_sound o expf powF h) (ussa_speed_of_sound (B2R h)) 12.
Proof.
  intros h F Bh. destruct (all_strips h F Bh) as ((v & V & E1 & E2 & N) & K2 & K3 & K4 & _).
  split; [exists v, V; split; [exact E1|split; [exact E2|eapply (near_weak prec emax); [exact N|lra]]]|split; [exact K2|split; [exact K3|exact K4]]].
Qed.
(** the computed temperature, pressure and density are positive and satisfy the gas law to within a few roundings; the number returned as speed of sound is gamma R T, the square of the speed *)
Theorem C141_gas_law : forall h : fl, is_finite h = true -> -5000 <= B2R h < 86000 -> exists T p d a,
  g_ussa_temperature o expf powF h = Val T /\ g_ussa_pressure o expf powF h = Val p /\ g_ussa_density o expf powF h = Val d /\ g_ussa_speed_of_sound o expf powF h = Val a /\
  0 < B2R T /\ 0 < B2R p /\ near d (B2R p * 28.9644 / (8314.32 * B2R T)) 6 /\ near a (1.4 * 8314.32 / 28.9644 * B2R T) 7.
Proof.
  intros h F B. facts. destruct (all_strips h F B) as ((T & TV & ET & RT & NT) & (p & PV & Ep & RP & NP) & (d & DV & Ed & _) & (a & AV & Ea & _) & (T0 & p0 & E1 & E2 & BT & BP)).
  rewrite E1 in RT. rewrite E2 in RP. injection RT as <-. injection RP as <-. exists T, p, d, a. do 4 (split; [assumption|]).
  destruct NT as [FT HT']. rewrite (Rabs_pos_eq T0) in HT' by lra. apply Rabs_le_inv in HT'. assert (UT : u * T0 <= / 10 ^ 15 * T0) by (apply Rmult_le_compat_r; lra).
  destruct NP as [Fp HP']. rewrite (Rabs_pos_eq p0) in HP' by lra. apply Rabs_le_inv in HP'. assert (UP : u * p0 <= / 10 ^ 15 * p0) by (apply Rmult_le_compat_r; lra).
  assert (BT' : 180 <= B2R T <= 330) by lra. assert (BP' : / 10 ^ 8 <= B2R p <= 19 * 10 ^ 9) by lra. split; [lra|]. split; [lra|].
  assert (XT : near T (B2R T) 0) by (split; [exact FT|rewrite Rminus_diag_eq, Rabs_R0 by reflexivity; lra]). assert (Xp : near p (B2R p) 0) by (split; [exact Fp|rewrite Rminus_diag_eq, Rabs_R0 by reflexivity; lra]).
  pose proof c_M as CM. pose proof c_Rs as CR. pose proof c_14 as C14.
  replace 28.9644 with ussa_air_molar_mass by (unfold ussa_air_molar_mass; lra). replace 8314.32 with ussa_R_Star by (unfold ussa_R_Star; lra). replace 1.4 with (14 / 10) by lra.
  assert (VM : 28 <= ussa_air_molar_mass <= 29) by (unfold ussa_air_molar_mass; lra). assert (VR : 8314 <= ussa_R_Star <= 8315) by (unfold ussa_R_Star; lra).
  assert (B0 : 401 <= 14 / 10 * ussa_R_Star / ussa_air_molar_mass <= 402) by (unfold ussa_R_Star, ussa_air_molar_mass; lra).
  remember ussa_air_molar_mass as mm eqn:Hmm. remember ussa_R_Star as rs eqn:Hrs. split.
  - assert (B1 : / 10 ^ 8 * 28 <= B2R p * mm <= 19 * 10 ^ 9 * 29) by (split; apply Rmult_le_compat; lra). assert (B2 : 8314 * 180 <= rs * B2R T <= 8315 * 330) by (split; apply Rmult_le_compat; lra).
    assert (N1 : near (mul o p (g_ussa_air_molar_mass o)) (B2R p * mm) (2012 / 1000)) by (eapply near_weak; [apply (near_mul _ _ _ _ _ _ Xp CM); [lra|lra|rewrite Rabs_pos_eq; lra]|lra]).
    assert (N2 : near (mul o (g_ussa_R_Star o) T) (rs * B2R T) (2012 / 1000)) by (eapply near_weak; [apply (near_mul _ _ _ _ _ _ CR XT); [lra|lra|rewrite Rabs_pos_eq; lra]|lra]).
    unfold g_ussa_density in Ed. rewrite ET, Ep in Ed. cbn [obind unwrap] in Ed. injection Ed as <-. eapply near_weak; [apply (near_div _ _ _ _ _ _ N1 N2); [lra|lra|lra|]|lra].
    assert (I1 : / (8315 * 330) <= / (rs * B2R T) <= / (8314 * 180)) by (split; apply Rinv_le_contravar; lra).
    rewrite Rabs_pos_eq by (apply Rmult_le_pos; lra). unfold Rdiv. split; [apply Rle_trans with (/ 10 ^ 8 * 28 * / (8315 * 330)); [lra|apply Rmult_le_compat; lra]|apply Rle_trans with (19 * 10 ^ 9 * 29 * / (8314 * 180)); [apply Rmult_le_compat; lra|lra]].
  - unfold g_ussa_speed_of_sound in Ea. rewrite ET in Ea. cbn [obind unwrap] in Ea. injection Ea as <-.
    assert (N1 : near (mul o (lit o (14 # 10)) (g_ussa_R_Star o)) (14 / 10 * rs) (3012 / 1000)) by (eapply near_weak; [apply (near_mul _ _ _ _ _ _ C14 CR); [lra|lra|rewrite Rabs_pos_eq; lra]|lra]).
    assert (N2 : near (div o (mul o (lit o (14 # 10)) (g_ussa_R_Star o)) (g_ussa_air_molar_mass o)) (14 / 10 * rs / mm) (503 / 100)).
    { eapply near_weak; [apply (near_div _ _ _ _ _ _ N1 CM); [lra|lra|lra|rewrite Rabs_pos_eq; lra]|lra]. }
    assert (B4 : 401 * 180 <= 14 / 10 * rs / mm * B2R T <= 402 * 330) by (split; apply Rmult_le_compat; lra).
    eapply near_weak; [apply (near_mul _ _ _ _ _ _ N2 XT); [lra|lra|rewrite Rabs_pos_eq; lra]|lra].
Qed.
(** the dynamic viscosity *)
Lemma ln_9 x : 186 <= x <= 321 -> Rabs (ln x) <= 9.
Proof.
  intros B. assert (E : 321 <= exp 9).
  { replace 9 with (1+1+1+1+1+1+1+1+1) by lra. rewrite !exp_plus. pose proof (exp_ineq1 1 ltac:(lra)) as E. apply Rle_trans with (2*2*2*2*2*2*2*2*2); [lra|]. repeat (apply Rmult_le_compat; [lra|lra| |lra]). lra. }
  pose proof (ln_mono 1 x ltac:(lra) ltac:(lra)) as K1. rewrite ln_1 in K1. rewrite Rabs_pos_eq by exact K1. rewrite <- (ln_exp 9). apply ln_mono; lra.
Qed.
Theorem C141_viscosity : forall h : fl, is_finite h = true -> -5000 <= B2R h < 86000 -> same_within (g_ussa_dynamic_viscosity o expf powF h) (ussa_dynamic_viscosity (B2R h)) 45.
Proof.
  intros h F B. facts. destruct (all_strips h F B) as ((T & TV & ET & RT & NT) & _ & _ & _ & (T0 & p0 & E1 & _ & BT & _)). rewrite E1 in RT. injection RT as <-.
  unfold g_ussa_dynamic_viscosity, ussa_dynamic_viscosity. rewrite ET, E1. cbn [obind unwrap]. unfold powf. rewrite (proj2 (Rltb_true 0 T0)) by lra. do 2 eexists. split; [reflexivity|]. split; [reflexivity|].
  assert (NA : near (g_ussa_viscosity_A o : fl) ussa_viscosity_A (3012 / 1000)).
  { assert (N1 : near (lit o (1458 # 10) : fl) (1458 / 10) (1001 / 1000)) by (change (1458 / 10) with (Q2R (1458 # 10)); apply lit_near; [cbn; lia|cbn; lia|unfold Q2R; cbn [Qnum Qden]; rewrite Rabs_pos_eq; lra]).
    assert (N2 : near (lit o (1 # 10000000) : fl) (1 / 10000000) (1001 / 1000)) by (change (1 / 10000000) with (Q2R (1 # 10000000)); apply lit_near; [cbn; lia|cbn; lia|unfold Q2R; cbn [Qnum Qden]; rewrite Rabs_pos_eq; lra]).
    eapply near_weak; [apply (near_mul _ _ _ _ _ _ N1 N2); [lra|lra|rewrite Rabs_pos_eq; lra]|lra]. }
  assert (NB : near (g_ussa_viscosity_B o : fl) ussa_viscosity_B (1001 / 1000)) by (change ussa_viscosity_B with (Q2R (1104 # 10)); apply lit_near; [cbn; lia|cbn; lia|unfold Q2R; cbn [Qnum Qden]; rewrite Rabs_pos_eq; lra]).
  assert (N5 : near (lit o (15 # 10) : fl) (15 / 10) (1001 / 1000)) by (change (15 / 10) with (Q2R (15 # 10)); apply lit_near; [cbn; lia|cbn; lia|unfold Q2R; cbn [Qnum Qden]; rewrite Rabs_pos_eq; lra]).
  assert (N01 : near (lit o (1 # 10) : fl) (1 / 10) (1001 / 1000)) by (change (1 / 10) with (Q2R (1 # 10)); apply lit_near; [cbn; lia|cbn; lia|unfold Q2R; cbn [Qnum Qden]; rewrite Rabs_pos_eq; lra]).
  set (y := lit o (15 # 10) : fl) in *. clearbody y.
  assert (VA : / 10 ^ 5 <= ussa_viscosity_A <= 2 * / 10 ^ 5) by (unfold ussa_viscosity_A; lra). assert (VB : ussa_viscosity_B = 1104 / 10) by reflexivity.
  assert (NS : near (add o T (g_ussa_viscosity_B o)) (T0 + ussa_viscosity_B) (81 / 10)).
  { assert (AT : apx T T0 (1831 * u)) by (eapply apx_weak; [apply near_apx, NT|]; rewrite Rabs_pos_eq by lra; assert (u * T0 <= u * 321) by (apply Rmult_le_compat_l; lra); lra).
    assert (AB : apx (g_ussa_viscosity_B o : fl) ussa_viscosity_B (111 * u)) by (eapply apx_weak; [apply near_apx, NB|]; rewrite Rabs_pos_eq by lra; rewrite VB; lra).
    eapply apx_near; [apply (apx_add prec emax) with (1 := AT) (2 := AB) (b := 432); [rewrite Rabs_pos_eq; lra|lra]|]. rewrite Rabs_pos_eq by lra. assert (u * (186 + 1104 / 10) <= u * (T0 + ussa_viscosity_B)) by (apply Rmult_le_compat_l; lra). lra. }
  assert (NP : near (powF T y) (Rpower T0 (15 / 10)) 25 /\ / 4782969 <= Rpower T0 (15 / 10) <= 4782969).
  { destruct NT as [FT HT]. rewrite (Rabs_pos_eq T0) in HT by lra. apply Rabs_le_inv in HT as HT'. destruct N5 as [Fy Hy]. rewrite (Rabs_pos_eq (15 / 10)) in Hy by lra.
    assert (Ut : 0 <= u * T0 <= / 10 ^ 15 * T0) by (split; [apply Rmult_le_pos; lra|apply Rmult_le_compat_r; lra]).
    pose proof (ln_9 T0 BT) as Lt. pose proof (ln_gap (B2R T) T0 (999 / 1000 * T0) ltac:(lra) ltac:(lra) ltac:(lra)) as Lg.
    assert (Lg' : Rabs (ln (B2R T) - ln T0) <= 571 / 100 * u).
    { eapply Rle_trans; [exact Lg|]. apply (Rmult_le_reg_r (999 / 1000 * T0)); [lra|]. unfold Rdiv at 1. rewrite Rmult_assoc, Rinv_l by lra. lra. }
    assert (Hy2 : Rabs (B2R y) <= 151 / 100) by (replace (B2R y) with ((B2R y - 15 / 10) + 15 / 10) by ring; eapply Rle_trans; [apply Rabs_triang|]; rewrite (Rabs_pos_eq (15 / 10)) by lra; lra).
    assert (Dl : Rabs (B2R y * ln (B2R T) - 15 / 10 * ln T0) <= 228 / 10 * u).
    { replace (B2R y * ln (B2R T) - 15 / 10 * ln T0) with ((B2R y - 15 / 10) * ln T0 + B2R y * (ln (B2R T) - ln T0)) by ring. eapply Rle_trans; [apply Rabs_triang|]. rewrite !Rabs_mult.
      assert (Rabs (B2R y - 15 / 10) * Rabs (ln T0) <= 1502 / 1000 * u * 9) by (apply Rmult_le_compat; try apply Rabs_pos; lra).
      assert (Rabs (B2R y) * Rabs (ln (B2R T) - ln T0) <= 151 / 100 * (571 / 100 * u)) by (apply Rmult_le_compat; try apply Rabs_pos; lra). lra. }
    assert (Z : Rabs (15 / 10 * ln T0) <= 135 / 10) by (rewrite Rabs_mult, (Rabs_pos_eq (15 / 10)) by lra; lra).
    split; [|unfold Rpower; apply exp14; lra].
    assert (Zy : Rabs (B2R y * ln (B2R T)) <= 14).
    { replace (B2R y * ln (B2R T)) with ((B2R y * ln (B2R T) - 15 / 10 * ln T0) + 15 / 10 * ln T0) by ring. eapply Rle_trans; [apply Rabs_triang|]. lra. }
    pose proof (Ap T y FT Fy ltac:(lra) Zy) as K. unfold Rpower in *.
    eapply near_weak; [apply (exp_near prec emax Hp He _ _ _ (228 / 10) Dl); [lra|exact K]|lra]. }
  destruct NP as [NP BP]. remember (Rpower T0 (15 / 10)) as X eqn:HX. remember ussa_viscosity_A as A eqn:HA. rewrite VB in *.
  assert (B1 : / 10 ^ 5 * / 4782969 <= A * X <= 2 * / 10 ^ 5 * 4782969) by (split; apply Rmult_le_compat; lra).
  assert (N1 : near (mul o (g_ussa_viscosity_A o) (powF T y)) (A * X) (2903 / 100)) by (eapply near_weak; [apply (near_mul _ _ _ _ _ _ NA NP); [lra|lra|rewrite Rabs_pos_eq; lra]|lra]).
  assert (I1 : / 432 <= / (T0 + 1104 / 10) <= 1) by (split; [apply Rinv_le_contravar; lra|rewrite <- Rinv_1; apply Rinv_le_contravar; lra]).
  assert (B2 : / 10 ^ 15 <= A * X / (T0 + 1104 / 10) <= 10 ^ 3).
  { unfold Rdiv. split; [apply Rle_trans with (/ 10 ^ 5 * / 4782969 * / 432); [lra|apply Rmult_le_compat; lra]|apply Rle_trans with (2 * / 10 ^ 5 * 4782969 * 1); [apply Rmult_le_compat; lra|lra]]. }
  assert (N2 : near (div o (mul o (g_ussa_viscosity_A o) (powF T y)) (add o T (g_ussa_viscosity_B o))) (A * X / (T0 + 1104 / 10)) (3815 / 100)).
  { eapply near_weak; [apply (near_div _ _ _ _ _ _ N1 NS); [lra|lra|lra|rewrite Rabs_pos_eq; lra]|lra]. }
  eapply near_weak; [apply (near_mul _ _ _ _ _ _ N2 N01); [lra|lra|rewrite Rabs_pos_eq; lra]|lra].
Qed.
(** from a thousand kilometres up, for infinity and for NaN, all five queries panic: the search reads past the end of the table *)
Theorem C141_panics : forall h : fl, (is_finite h = true /\ 1000000 <= B2R h) \/ h = B754_infinity false \/ h = B754_nan ->
  g_ussa_temperature o expf powF h = Panics /\ g_ussa_pressure o expf powF h = Panics /\ g_ussa_density o expf powF h = Panics /\ g_ussa_speed_of_sound o expf powF h = Panics /\ g_ussa_dynamic_viscosity o expf powF h = Panics.
Proof.
  intros h C. assert (E : g_ussa_base_index o h = Panics).
  { destruct C as [[F L]|C].
    - rewrite us_index_same by exact F. pose proof (ussa_cases (B2R h)) as D. repeat (destruct D as [[B E]|D]; [lra|]). exact (proj2 D).
    - assert (Z : forall z, (Z.abs z <= 2 ^ 52)%Z -> ltb o h (lit o (z # 1)) = false).
      { intros z Lz. destruct (lit_int z Lz) as [Fz _]. destruct C as [-> | ->]; [|reflexivity]. change (ltb o (B754_infinity false) (lit o (z # 1))) with (Bltb (B754_infinity false : fl) (lit o (z # 1))).
        destruct (lit o (z # 1) : fl) as [s|[|]| |s m e W]; try discriminate Fz; reflexivity. }
      unfold g_ussa_base_index. unfold g_ussa_heights at 1. cbn [map g_ussa_find]. unfold g_index. cbn [nth_error g_ussa_heights map obind]. rewrite !Z by (cbn; lia). reflexivity. }
  unfold g_ussa_density, g_ussa_speed_of_sound, g_ussa_dynamic_viscosity, g_ussa_pressure, g_ussa_temperature. rewrite E. repeat split; reflexivity.
Qed.
End Width.

Local Instance p53 : Prec_gt_0 53 := eq_refl.
Local Instance e53 : Prec_lt_emax 53 1024 := eq_refl.
Example C141_nontrivial : exists expf powF, accurate_exp expf /\ accurate_pow powF /\
  let h := @B754_finite 53 1024 false 6046764196954112 (-39) eq_refl in is_finite h = true /\ B2R h = 10999 /\
  (exists T, g_ussa_temperature (float_ops 53 1024) expf powF h = Val T /\ Rabs (B2R T - 216.6565) <= 1300 * bpow radix2 (-53)) /\
  exists p, g_ussa_pressure (float_ops 53 1024) expf powF h = Val p.
Proof.
  exists (nearest_exp 53 1024), (nearest_pow 53 1024).
  assert (A : accurate_exp (nearest_exp 53 1024)) by (apply nearest_exp_accurate; lia). assert (B : accurate_pow (nearest_pow 53 1024)) by (apply nearest_pow_accurate; lia).
  split; [exact A|]. split; [exact B|]. intros h. assert (E : B2R h = 10999) by (unfold h, B2R, F2R; cbn; lra). split; [reflexivity|]. split; [exact E|].
  destruct (C141_accurate 53 1024 ltac:(lia) ltac:(lia) _ _ A B h eq_refl ltac:(lra)) as ((T & V & E1 & E2 & _ & N) & (p & W & E3 & _) & _).
  split; [|exists p; exact E3]. exists T. split; [exact E1|].
  assert (EV : V = 216.6565).
  { rewrite E in E2. pose proof (ussa_cases 10999) as D. destruct D as [[_ D]|D]; [|lra]. rewrite (ussa_T_low 10999 0 0 288.15 (-65 / 10000) D eq_refl eq_refl) in E2 by (try (cbn; f_equal; lra); lra). injection E2 as <-. unfold linear_T. lra. }
  rewrite EV in N. rewrite (Rabs_pos_eq 216.6565) in N by lra. unfold unit in N. change (- (53))%Z with (-53)%Z in N. pose proof (bpow_gt_0 radix2 (-53)). lra.
Qed.
