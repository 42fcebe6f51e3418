(** C139: the ICAO atmosphere in floating point. *)
From Coq Require Import ZArith QArith Qreals Reals Lra Lia Bool Arith List Psatz.
From Verif Require Import Scalar InterpProofs AtmModel AtmSpec AtmProps AtmFloatModel.
From Flocq Require Import Core BinarySingleNaN.
From Verif Require Import FloatModel RoundProps StatsFloatProps InterpFloatProps Apx.
From Verif Require GeoFloatProps.
Import ListNotations.
Local Open Scope R_scope.

(** ** Specification *)
(** [x] is a finite number within [k] units of relative rounding of [X] *)
Definition near {prec emax} (x : binary_float prec emax) (X k : R) : Prop := is_finite x = true /\ Rabs (B2R x - X) <= k * unit prec * Rabs X.
(** an exponential and a power within two units for results of moderate size *)
Definition accurate_exp {prec emax} (f : binary_float prec emax -> binary_float prec emax) : Prop :=
  forall x, is_finite x = true -> Rabs (B2R x) <= 14 -> near (f x) (exp (B2R x)) 2.
Definition accurate_pow {prec emax} (f : binary_float prec emax -> binary_float prec emax -> binary_float prec emax) : Prop :=
  forall x y, is_finite x = true -> is_finite y = true -> 0 < B2R x -> Rabs (B2R y * ln (B2R x)) <= 14 -> near (f x y) (Rpower (B2R x) (B2R y)) 2.
(** both calls return a number, the first within [k] units of the second *)
Definition same_within {prec emax} (x : out (binary_float prec emax)) (X : out R) (k : R) : Prop :=
  exists v V, x = Val v /\ X = Val V /\ near v V k.

(** ** The two models are one code *)
Lemma obind_val {A B} (x : out A) (f : A -> out B) a : x = Val a -> obind x f = f a. Proof. intros ->. reflexivity. Qed.
Lemma map_Q2R_alt : g_isa_altitudes Rops = isa_altitudes. Proof. unfold g_isa_altitudes, isa_altitudes. cbn [map lit Rops]. unfold Q2R. cbn [Qnum Qden]. repeat (apply f_equal2; [lra|]). reflexivity. Qed.
Lemma map_Q2R_den : g_isa_densities Rops = isa_densities. Proof. unfold g_isa_densities, isa_densities. cbn [map lit Rops]. unfold Q2R. cbn [Qnum Qden]. repeat (apply f_equal2; [lra|]). reflexivity. Qed.
Lemma map_Q2R_tem : g_isa_temperatures Rops = isa_temperatures. Proof. unfold g_isa_temperatures, isa_temperatures. cbn [map lit Rops]. unfold Q2R. cbn [Qnum Qden]. repeat (apply f_equal2; [lra|]). reflexivity. Qed.
Lemma map_Q2R_gra : g_isa_gradients Rops = isa_gradients. Proof. unfold g_isa_gradients, isa_gradients. cbn [map lit Rops]. unfold Q2R. cbn [Qnum Qden]. repeat (apply f_equal2; [lra|]). reflexivity. Qed.
Lemma find_Rops table h i : g_isa_find Rops table i h = isa_find table i (Alt h).
Proof. revert i. induction table as [|v l IH]; intros i; [reflexivity|]. cbn [g_isa_find isa_find alt_le]. change (leb Rops h v) with (Rleb h v). destruct (Rleb h v); [reflexivity|]. rewrite IH. f_equal. lia. Qed.
Theorem C139_same_code : forall h, h <= 80000 ->
  g_isa_temperature Rops h = isa_temperature h /\ g_isa_pressure Rops exp Rpower h = isa_pressure h /\ g_isa_density Rops exp Rpower h = isa_density h.
Proof.
  intros h Hh. assert (Ei : g_isa_base_index Rops h = isa_base_index (Alt h)) by (unfold g_isa_base_index; rewrite map_Q2R_alt; apply find_Rops).
  assert (Et : g_isa_temperature Rops h = isa_temperature h) by (unfold g_isa_temperature, isa_temperature; rewrite Ei, map_Q2R_alt, map_Q2R_tem, map_Q2R_gra; reflexivity).
  assert (C0 : g_isa_g_0 Rops = isa_g_0) by (unfold g_isa_g_0, isa_g_0; cbn [lit Rops]; unfold Q2R; cbn [Qnum Qden]; lra).
  assert (C1 : g_isa_R_Star Rops = isa_R_Star) by (unfold g_isa_R_Star, isa_R_Star; cbn [lit Rops]; unfold Q2R; cbn [Qnum Qden]; lra).
  assert (C2 : g_isa_R Rops = isa_R) by (unfold g_isa_R, isa_R; cbn [lit Rops]; unfold Q2R; cbn [Qnum Qden]; lra).
  assert (C3 : g_isa_air_molar_mass Rops = isa_air_molar_mass) by (unfold g_isa_air_molar_mass, isa_air_molar_mass; cbn [lit Rops]; unfold Q2R; cbn [Qnum Qden]; lra).
  assert (Eb : g_isa_base_pressure Rops h = isa_base_pressure h).
  { unfold g_isa_base_pressure, isa_base_pressure, isa_base_density, isa_base_temperature. rewrite Ei, map_Q2R_den, map_Q2R_tem, C1, C3. destruct (isa_base_index (Alt h)); reflexivity. }
  assert (Ep : g_isa_pressure Rops exp Rpower h = isa_pressure h).
  { unfold g_isa_pressure. rewrite Ei, map_Q2R_alt, map_Q2R_tem, map_Q2R_gra, Eb, Et, C0, C2.
    isa_split h; try lra;
    (unfold isa_pressure; rewrite E; cbn [obind isa_gradient_index length isa_altitudes Nat.eqb Nat.sub]; unfold g_index, index;
     cbn [nth_error isa_temperatures isa_gradients isa_altitudes obind];
     destruct (isa_base_pressure h); try reflexivity; cbn [obind]; destruct (isa_temperature h); try reflexivity; cbn [obind];
     change (eqb Rops) with Reqb; change (zero Rops) with 0; match goal with |- context[negb ?b] => destruct (negb b) eqn:EB end; [|reflexivity];
     unfold powf; rewrite (proj2 (Rltb_true 0 _)); [reflexivity|lra]). }
  split; [exact Et|]. split; [exact Ep|]. unfold g_isa_density, isa_density. rewrite Et, Ep, C1, C3. reflexivity.
Qed.

(** ** Real analysis *)
Lemma exp_gap d : Rabs d <= / 2 -> Rabs (exp d - 1) <= Rabs d + 2 * (Rabs d * Rabs d).
Proof.
  intros L. pose proof (exp_ineq1_le d) as A. pose proof (exp_ineq1_le (- d)) as B. rewrite exp_Ropp in B. pose proof (exp_pos d) as E. pose proof (Rabs_pos d) as Pd.
  apply Rabs_le_inv in L as L'. pose proof (Rle_abs d) as A1. pose proof (Rle_abs (- d)) as A2. rewrite Rabs_Ropp in A2.
  assert (C : exp d * (1 - d) <= 1) by (apply Rle_trans with (exp d * / exp d); [apply Rmult_le_compat_l; lra|right; field; lra]).
  assert (D : exp d - 1 <= Rabs d + 2 * (Rabs d * Rabs d)).
  { assert (S : 0 <= Rabs d * Rabs d) by (apply Rmult_le_pos; lra).
    assert (K : 1 <= (1 + Rabs d + 2 * (Rabs d * Rabs d)) * (1 - d)).
    { apply Rle_trans with ((1 + Rabs d + 2 * (Rabs d * Rabs d)) * (1 - Rabs d)); [|apply Rmult_le_compat_l; lra].
      assert (0 <= (Rabs d * Rabs d) * (1 - 2 * Rabs d)) by (apply Rmult_le_pos; lra). lra. }
    apply (Rmult_le_reg_r (1 - d)); [lra|]. lra. }
  apply Rabs_le. split; [|exact D]. assert (0 <= Rabs d * Rabs d) by (apply Rmult_le_pos; lra). lra.
Qed.
Lemma ln_gap x y m : 0 < m -> m <= x -> m <= y -> Rabs (ln x - ln y) <= Rabs (x - y) / m.
Proof.
  assert (K : forall x y, 0 < m -> m <= x -> m <= y -> ln x - ln y <= Rabs (x - y) / m).
  { intros a b Pm Ma Mb. pose proof (exp_ineq1_le (ln a - ln b)) as E. replace (exp (ln a - ln b)) with (a / b) in E by (unfold Rminus; rewrite exp_plus, exp_Ropp, !exp_ln by lra; reflexivity).
    apply Rle_trans with ((a - b) / b); [replace ((a - b) / b) with (a / b - 1) by (field; lra); lra|].
    apply Rle_trans with (Rabs (a - b) / b); [apply Rmult_le_compat_r; [left; apply Rinv_0_lt_compat; lra|apply Rle_abs]|].
    apply Rmult_le_compat_l; [apply Rabs_pos|]. apply Rinv_le_contravar; lra. }
  intros Pm Mx My. apply Rabs_le. pose proof (K x y Pm Mx My). pose proof (K y x Pm My Mx) as H2. rewrite Rabs_minus_sym in H2. lra.
Qed.
Lemma ln_small x : 8 / 10 <= x <= 14 / 10 -> Rabs (ln x) <= 4 / 10.
Proof.
  intros B. destruct (Rle_lt_dec 1 x) as [L|L].
  - pose proof (ln_gap x 1 1 ltac:(lra) L (Rle_refl _)) as K. rewrite ln_1, Rminus_0_r in K. rewrite (Rabs_pos_eq (x - 1)) in K by lra. lra.
  - pose proof (ln_gap x 1 (8 / 10) ltac:(lra) ltac:(lra) ltac:(lra)) as K. rewrite ln_1, Rminus_0_r in K. rewrite (Rabs_left1 (x - 1)) in K by lra. lra.
Qed.

Section Width.
Context (prec emax : Z) {P : Prec_gt_0 prec} {M : Prec_lt_emax prec emax}.
Context (Hp : (53 <= prec)%Z) (He : (1024 <= emax)%Z).
Local Notation fl := (binary_float prec emax).
Local Notation u := (unit prec).
Local Notation eta := (tiny prec emax).
Local Notation o := (float_ops prec emax).
Local Notation rd := (round radix2 (SpecFloat.fexp prec emax) ZnearestE).

Lemma u53 : u <= / 10 ^ 15.
Proof. unfold unit. apply Rle_trans with (bpow radix2 (-53)); [apply bpow_le; lia|]. cbn. lra. Qed.
Lemma eta_small : eta <= / 10 ^ 25 * u.
Proof.
  unfold tiny, unit. replace (3 - emax - prec)%Z with ((3 - emax) + - prec)%Z by lia. rewrite bpow_plus.
  assert (B : bpow radix2 (3 - emax) <= bpow radix2 (-100)) by (apply bpow_le; lia).
  assert (C : bpow radix2 (-100) <= / 10 ^ 25) by (cbn; lra). pose proof (bpow_gt_0 radix2 (-prec)).
  rewrite <- Rmult_assoc. apply Rmult_le_compat_r; lra.
Qed.
Lemma largest18 : 9 * 10 ^ 18 <= largest prec emax.
Proof. apply GeoFloatProps.largest63; lia. Qed.
Ltac base := pose proof (u_pos prec) as Pu; pose proof u53 as U; pose proof (eta_pos prec emax) as Pe; pose proof eta_small as Es; pose proof largest18 as G.

Lemma near_apx (x : fl) X k : near x X k -> apx x X (k * u * Rabs X).
Proof. intros H. exact H. Qed.
Lemma apx_near (x : fl) X e k : apx x X e -> e <= k * u * Rabs X -> near x X k.
Proof. intros [F H] L. split; [exact F|lra]. Qed.
Lemma near_weak (x : fl) X k k' : near x X k -> k <= k' -> near x X k'.
Proof. intros [F H] L. split; [exact F|]. eapply Rle_trans; [exact H|]. apply Rmult_le_compat_r; [apply Rabs_pos|]. apply Rmult_le_compat_r; [left; apply u_pos|exact L]. Qed.
Lemma near_mul (x y : fl) X Y k l : near x X k -> near y Y l -> 0 <= k <= 1000 -> 0 <= l <= 1000 -> / 10 ^ 20 <= Rabs (X * Y) <= 10 ^ 12 -> near (mul o x y) (X * Y) (k + l + 101 / 100).
Proof.
  intros Hx Hy Lk Ll B. base. pose proof (Rabs_pos X) as PX. pose proof (Rabs_pos Y) as PY. rewrite Rabs_mult in B.
  assert (Ku : 0 <= k * u <= / 10 ^ 11) by (split; [apply Rmult_le_pos; lra|apply Rle_trans with (1000 * / 10 ^ 15); [apply Rmult_le_compat; lra|lra]]).
  assert (Lu : 0 <= l * u <= / 10 ^ 11) by (split; [apply Rmult_le_pos; lra|apply Rle_trans with (1000 * / 10 ^ 15); [apply Rmult_le_compat; lra|lra]]).
  assert (KL : 0 <= (k * u) * l <= / 10 ^ 8) by (split; [apply Rmult_le_pos; lra|apply Rle_trans with (/ 10 ^ 11 * 1000); [apply Rmult_le_compat; lra|lra]]).
  assert (KLu : (k * u) * (l * u) <= / 10 ^ 11 * / 10 ^ 11) by (apply Rmult_le_compat; lra).
  assert (W : (1 + k * u) * (1 + l * u) <= 1001 / 1000) by lra.
  eapply apx_near; [apply (apx_mul prec emax) with (1 := near_apx _ _ _ Hx) (2 := near_apx _ _ _ Hy); [apply Rle_refl|apply Rle_refl|]|].
  - replace ((Rabs X + k * u * Rabs X) * (Rabs Y + l * u * Rabs Y)) with ((1 + k * u) * (1 + l * u) * (Rabs X * Rabs Y)) by ring.
    apply Rle_trans with (1001 / 1000 * (Rabs X * Rabs Y)); [apply Rmult_le_compat_r; lra|lra].
  - rewrite Rabs_mult. remember (Rabs X * Rabs Y) as W0 eqn:HW.
    replace (Rabs X * (l * u * Rabs Y) + Rabs Y * (k * u * Rabs X) + k * u * Rabs X * (l * u * Rabs Y) + u * ((Rabs X + k * u * Rabs X) * (Rabs Y + l * u * Rabs Y)) + eta)
      with ((k + l + (k * u) * l + (1 + k * u) * (1 + l * u)) * (u * W0) + eta) by (rewrite HW; ring).
    assert (UW : / 10 ^ 20 * u <= u * W0) by (rewrite Rmult_comm; apply Rmult_le_compat_l; lra).
    apply Rle_trans with ((k + l + / 10 ^ 8 + 1001 / 1000) * (u * W0) + / 10 ^ 5 * (u * W0)); [apply Rplus_le_compat; [apply Rmult_le_compat_r; lra|lra]|].
    replace ((k + l + 101 / 100) * u * W0) with ((k + l + 101 / 100) * (u * W0)) by ring. rewrite <- Rmult_plus_distr_r. apply Rmult_le_compat_r; lra.
Qed.
Lemma near_div (x y : fl) X Y k l : near x X k -> near y Y l -> 0 <= k <= 1000 -> 0 <= l <= 1000 -> Y <> 0 -> / 10 ^ 20 <= Rabs (X / Y) <= 10 ^ 12 -> near (div o x y) (X / Y) (k + l + 101 / 100).
Proof.
  intros Hx Hy Lk Ll NY B. base. pose proof (Rabs_pos_lt Y NY) as PY.
  assert (EX : Rabs X = Rabs (X / Y) * Rabs Y) by (rewrite <- Rabs_mult; apply f_equal; field; exact NY). remember (Rabs (X / Y)) as q eqn:Hq.
  assert (Lu : 0 <= l * u <= / 10 ^ 11) by (split; [apply Rmult_le_pos; lra|apply Rle_trans with (1000 * / 10 ^ 15); [apply Rmult_le_compat; lra|lra]]).
  pose proof (near_apx _ _ _ Hx) as Ax. pose proof (near_apx _ _ _ Hy) as Ay.
  assert (L1 : l * u * Rabs Y < Rabs Y) by (rewrite <- (Rmult_1_l (Rabs Y)) at 2; apply Rmult_lt_compat_r; lra).
  pose proof (apx_div prec emax x y X Y _ _ (Rabs Y) q Ax Ay L1 (Rle_refl _) ltac:(lra)) as K.
  assert (D : (k * u * Rabs X + q * (l * u * Rabs Y)) / (Rabs Y - l * u * Rabs Y) = (k + l) / (1 - l * u) * (u * q)) by (rewrite EX; field; split; lra).
  rewrite D in K. assert (D1 : 0 <= (k + l) / (1 - l * u) <= k + l + / 1000).
  { split; [apply Rmult_le_pos; [lra|left; apply Rinv_0_lt_compat; lra]|]. apply (Rmult_le_reg_r (1 - l * u)); [lra|]. unfold Rdiv. rewrite Rmult_assoc, Rinv_l by lra.
    assert (0 <= (k + l) * (l * u) <= 2000 * / 10 ^ 11) by (split; [apply Rmult_le_pos; lra|apply Rmult_le_compat; lra]). lra. }
  assert (UQ : / 10 ^ 20 * u <= u * q) by (rewrite Rmult_comm; apply Rmult_le_compat_l; lra).
  assert (Uq : 0 <= u * q) by (apply Rmult_le_pos; lra). assert (UqL : u * q <= / 1000) by (apply Rle_trans with (/ 10 ^ 15 * 10 ^ 12); [apply Rmult_le_compat; lra|lra]).
  assert (T1 : 0 <= (k + l) / (1 - l * u) * (u * q) <= (k + l + / 1000) * (u * q)) by (split; [apply Rmult_le_pos; lra|apply Rmult_le_compat_r; lra]).
  assert (T2 : (k + l + / 1000) * (u * q) <= 2001 * / 1000) by (apply Rmult_le_compat; lra).
  eapply apx_near; [apply K; lra|]. rewrite <- Hq.
  assert (T3 : u * ((k + l) / (1 - l * u) * (u * q)) <= / 1000 * (u * q)).
  { rewrite <- Rmult_assoc. apply Rmult_le_compat_r; [exact Uq|]. apply Rle_trans with (/ 10 ^ 15 * 2001); [apply Rmult_le_compat; lra|lra]. }
  replace ((k + l + 101 / 100) * u * q) with ((k + l + 101 / 100) * (u * q)) by ring. lra.
Qed.
Lemma near_neg (x : fl) X k : near x X k -> near (neg o x) (- X) k.
Proof. intros H. destruct (apx_neg prec emax _ _ _ (near_apx _ _ _ H)) as [F K]. split; [exact F|]. rewrite Rabs_Ropp. exact K. Qed.

(** *** Literals *)
Lemma int_exact z : (Z.abs z <= 2 ^ 52)%Z -> is_finite (binary_normalize prec emax P M mode_NE z 0 false) = true /\ B2R (binary_normalize prec emax P M mode_NE z 0 false) = IZR z.
Proof.
  intros L. pose proof largest18 as G. pose proof (binary_normalize_correct prec emax P M mode_NE z 0 false) as C. cbv zeta in C. cbn [round_mode] in C.
  assert (Lz : Rabs (IZR z) <= 4503599627370496) by (rewrite <- abs_IZR; apply IZR_le; exact L).
  assert (E : F2R (Float radix2 z 0) = IZR z) by (unfold F2R; cbn [Fnum Fexp]; cbn; ring). rewrite E in C. rewrite (no_over prec emax) in C by lra.
  destruct C as (C & F & _). split; [exact F|]. rewrite C. apply round_generic; [apply valid_rnd_N|].
  rewrite <- E. apply generic_format_FLT. eapply (FLT_spec radix2 (3 - emax - prec) prec _ (Float radix2 z 0)); cbn [Fnum Fexp]; [reflexivity| |unfold Prec_gt_0, Prec_lt_emax in *; lia].
  apply Z.le_lt_trans with (1 := L). change (radix2 ^ prec)%Z with (2 ^ prec)%Z. apply Z.pow_lt_mono_r; lia.
Qed.
Lemma lit_value q : (Z.abs (Qnum q) <= 2 ^ 52)%Z -> (Z.pos (Qden q) <= 2 ^ 52)%Z -> is_finite (lit o q : fl) = true /\ B2R (lit o q : fl) = rd (Q2R q).
Proof.
  intros Ln Ld. base. destruct (int_exact (Qnum q) Ln) as [F1 V1]. destruct (int_exact (Z.pos (Qden q)) Ld) as [F2 V2]. cbn [lit float_ops].
  assert (D1 : 1 <= IZR (Z.pos (Qden q))) by (apply IZR_le; lia). assert (N1 : Rabs (IZR (Qnum q)) <= 4503599627370496) by (rewrite <- abs_IZR; apply IZR_le; exact Ln).
  set (a := binary_normalize prec emax P M mode_NE (Qnum q) 0 false) in *. set (b := binary_normalize prec emax P M mode_NE (Z.pos (Qden q)) 0 false) in *.
  assert (Nb : B2R b <> 0) by (rewrite V2; lra).
  assert (F : is_finite (div o a b) = true).
  { apply (div_ok prec emax); [exact Nb|exact F1|]. rewrite V1, V2. unfold Rdiv. rewrite Rabs_mult, Rabs_inv, (Rabs_pos_eq (IZR (Z.pos (Qden q)))) by lra.
    apply Rle_trans with (4503599627370496 * 1); [|lra]. apply Rmult_le_compat; [apply Rabs_pos|left; apply Rinv_0_lt_compat; lra|exact N1|]. rewrite <- Rinv_1. apply Rinv_le_contravar; lra. }
  split; [exact F|]. destruct (StatsFloatProps.div_fin prec emax a b Nb F) as (_ & V). change (Bdiv mode_NE a b) with (div o a b). rewrite V, V1, V2. reflexivity.
Qed.
Lemma lit_near q : (Z.abs (Qnum q) <= 2 ^ 52)%Z -> (Z.pos (Qden q) <= 2 ^ 52)%Z -> / 10 ^ 15 <= Rabs (Q2R q) -> near (lit o q : fl) (Q2R q) (1001 / 1000).
Proof.
  intros Ln Ld B. base. destruct (lit_value q Ln Ld) as [F V]. split; [exact F|]. rewrite V. destruct (rd_err prec emax (Q2R q)) as (a & d & A & D & ->).
  replace (Q2R q * (1 + a) + d - Q2R q) with (a * Q2R q + d) by ring. eapply Rle_trans; [apply Rabs_triang|]. rewrite Rabs_mult.
  assert (Rabs a * Rabs (Q2R q) <= u * Rabs (Q2R q)) by (apply Rmult_le_compat_r; [apply Rabs_pos|exact A]).
  assert (/ 10 ^ 15 * u <= u * Rabs (Q2R q)) by (rewrite Rmult_comm; apply Rmult_le_compat_l; lra). lra.
Qed.
Lemma lit_int z : (Z.abs z <= 2 ^ 52)%Z -> is_finite (lit o (z # 1) : fl) = true /\ B2R (lit o (z # 1) : fl) = IZR z.
Proof.
  intros L. destruct (lit_value (z # 1) L ltac:(cbn; lia)) as [F V]. split; [exact F|]. rewrite V. destruct (int_exact z L) as [_ E].
  replace (Q2R (z # 1)) with (B2R (binary_normalize prec emax P M mode_NE z 0 false)); [rewrite (rd_id prec emax); exact E|]. rewrite E. unfold Q2R. cbn [Qnum Qden]. lra.
Qed.

(** *** One layer *)
Lemma exp14 x : Rabs x <= 14 -> / 4782969 <= exp x <= 4782969.
Proof.
  intros L. apply Rabs_le_inv in L. assert (E : exp 14 <= 4782969).
  { replace 14 with (1+1+1+1+1+1+1+1+1+1+1+1+1+1) by lra. rewrite !exp_plus. pose proof exp_le_3 as E. pose proof (exp_pos 1) as Pe1.
    replace 4782969 with (3*3*3*3*3*3*3*3*3*3*3*3*3*3) by lra. repeat (apply Rmult_le_compat; [repeat apply Rmult_le_pos; lra|lra| |exact E]). exact E. }
  split.
  - rewrite <- (Ropp_involutive x), exp_Ropp. apply Rinv_le_contravar; [apply exp_pos|]. eapply Rle_trans; [|exact E]. destruct (Req_dec (- x) 14) as [->|N]; [lra|]. left. apply exp_increasing. lra.
  - eapply Rle_trans; [|exact E]. destruct (Req_dec x 14) as [->|N]; [lra|]. left. apply exp_increasing. lra.
Qed.
(** nearby exponents give nearby exponentials *)
Lemma exp_near (v : fl) a b k : Rabs (a - b) <= k * u -> 0 <= k <= 500 -> near v (exp a) 2 -> near v (exp b) (k + 21 / 10).
Proof.
  intros D Lk [F H]. base. split; [exact F|]. pose proof (exp_pos b) as Pb. rewrite (Rabs_pos_eq (exp b)) by lra. rewrite (Rabs_pos_eq (exp a)) in H by (left; apply exp_pos).
  assert (Ku : 0 <= k * u <= / 10 ^ 12) by (split; [apply Rmult_le_pos; lra|apply Rle_trans with (500 * / 10 ^ 15); [apply Rmult_le_compat; lra|lra]]).
  pose proof (exp_gap (a - b) ltac:(lra)) as E. pose proof (Rabs_pos (a - b)) as Pd.
  assert (E2 : Rabs (exp (a - b) - 1) <= (k + / 1000) * u).
  { eapply Rle_trans; [exact E|]. assert (Rabs (a - b) * Rabs (a - b) <= (k * u) * (k * u)) by (apply Rmult_le_compat; lra).
    assert ((k * u) * (k * u) <= / 10 ^ 12 * (500 * u)) by (apply Rmult_le_compat; [lra|lra|lra|apply Rmult_le_compat_r; lra]). lra. }
  assert (X : exp a = exp b * exp (a - b)) by (rewrite <- exp_plus; apply f_equal; ring).
  apply Rabs_le_inv in E2 as E3. assert (K1 : (k + / 1000) * u <= / 10 ^ 11) by lra.
  replace (B2R v - exp b) with ((B2R v - exp a) + exp b * (exp (a - b) - 1)) by (rewrite X; ring). eapply Rle_trans; [apply Rabs_triang|]. rewrite Rabs_mult, (Rabs_pos_eq (exp b)) by lra.
  assert (S1 : exp b * Rabs (exp (a - b) - 1) <= exp b * ((k + / 1000) * u)) by (apply Rmult_le_compat_l; lra).
  assert (S2 : 2 * u * exp a <= 2 * u * (exp b * (101 / 100))) by (apply Rmult_le_compat_l; [lra|]; rewrite X; apply Rmult_le_compat_l; lra).
  apply Rle_trans with ((2 * (101 / 100) + (k + / 1000)) * (exp b * u)); [lra|]. replace ((k + 21 / 10) * u * exp b) with ((k + 21 / 10) * (exp b * u)) by ring.
  apply Rmult_le_compat_r; [apply Rmult_le_pos; lra|lra].
Qed.
Lemma c_g0 : near (g_isa_g_0 o : fl) isa_g_0 (1001 / 1000).
Proof. replace isa_g_0 with (Q2R (980665 # 100000)) by (unfold isa_g_0, Q2R; cbn [Qnum Qden]; lra). apply lit_near; [cbn; lia|cbn; lia|unfold Q2R; cbn [Qnum Qden]; rewrite Rabs_pos_eq; lra]. Qed.
Lemma c_R : near (g_isa_R o : fl) isa_R (1001 / 1000).
Proof. replace isa_R with (Q2R (28705287 # 100000)) by (unfold isa_R, Q2R; cbn [Qnum Qden]; lra). apply lit_near; [cbn; lia|cbn; lia|unfold Q2R; cbn [Qnum Qden]; rewrite Rabs_pos_eq; lra]. Qed.
Lemma c_gas : near (div o (g_isa_R_Star o) (g_isa_air_molar_mass o) : fl) (isa_R_Star / isa_air_molar_mass) (3012 / 1000).
Proof.
  assert (A : near (g_isa_R_Star o : fl) isa_R_Star (1001 / 1000)).
  { replace isa_R_Star with (Q2R (831432 # 100)) by (unfold isa_R_Star, Q2R; cbn [Qnum Qden]; lra). apply lit_near; [cbn; lia|cbn; lia|unfold Q2R; cbn [Qnum Qden]; rewrite Rabs_pos_eq; lra]. }
  assert (B : near (g_isa_air_molar_mass o : fl) isa_air_molar_mass (1001 / 1000)).
  { replace isa_air_molar_mass with (Q2R (28964420 # 1000000)) by (unfold isa_air_molar_mass, Q2R; cbn [Qnum Qden]; lra). apply lit_near; [cbn; lia|cbn; lia|unfold Q2R; cbn [Qnum Qden]; rewrite Rabs_pos_eq; lra]. }
  eapply near_weak; [apply (near_div _ _ _ _ _ _ A B); [lra|lra|unfold isa_air_molar_mass; lra|]|lra]. unfold isa_R_Star, isa_air_molar_mass. rewrite Rabs_pos_eq; lra.
Qed.
Lemma gas_value : 287 <= isa_R_Star / isa_air_molar_mass <= 288. Proof. unfold isa_R_Star, isa_air_molar_mass. lra. Qed.

(** what is used of a layer *)
Definition layer_ok (h H T rho L : R) : Prop :=
  196 <= T <= 321 /\ / 10 ^ 5 <= rho <= 2 /\ Rabs L <= 65 / 10000 /\ Rabs (h - H) <= 20000 /\ 196 <= layer_T H T L h <= 321 /\ 84 / 100 <= 1 + L / T * (h - H) <= 135 / 100.

Lemma layer_temperature (h H T L : fl) Tr rho Lr : is_finite h = true -> is_finite H = true -> near T Tr (1001 / 1000) -> apx L Lr (66 / 10000 * u) -> layer_ok (B2R h) (B2R H) Tr rho Lr ->
  near (add o T (mul o L (sub o h H))) (layer_T (B2R H) Tr Lr (B2R h)) (53 / 10).
Proof.
  intros Fh FH NT AL (BT & _ & BL & BH & BY & _). base.
  assert (UU : 0 <= u * u <= / 10 ^ 15 * u) by (split; [apply Rmult_le_pos; lra|apply Rmult_le_compat_r; lra]).
  assert (UUU : 0 <= u * (u * u) <= / 10 ^ 15 * (u * u)) by (split; [apply Rmult_le_pos; lra|apply Rmult_le_compat_r; lra]).
  assert (UE : u * eta <= / 10 ^ 15 * eta) by (apply Rmult_le_compat_r; lra).
  assert (AD : apx (sub o h H) (B2R h - B2R H) (20000 * u)).
  { eapply apx_weak; [apply (apx_sub prec emax) with (1 := apx_exact prec emax h Fh) (2 := apx_exact prec emax H FH) (b := 20000); [exact BH|lra]|lra]. }
  assert (AM : apx (mul o L (sub o h H)) (Lr * (B2R h - B2R H)) (393 * u)).
  { eapply apx_weak; [apply (apx_mul prec emax) with (1 := AL) (2 := AD) (bx := 65 / 10000) (by_ := 20000); [exact BL|exact BH|lra]|lra]. }
  assert (AT : apx T Tr (3214 / 10 * u)).
  { eapply apx_weak; [apply near_apx, NT|]. rewrite Rabs_pos_eq by lra. assert (u * Tr <= u * 321) by (apply Rmult_le_compat_l; lra). lra. }
  eapply apx_near; [apply (apx_add prec emax) with (1 := AT) (2 := AM) (b := 321); [fold (layer_T (B2R H) Tr Lr (B2R h)); rewrite Rabs_pos_eq; lra|lra]|].
  rewrite Rabs_pos_eq by lra. assert (u * 196 <= u * layer_T (B2R H) Tr Lr (B2R h)) by (apply Rmult_le_compat_l; lra). lra.
Qed.

Lemma layer_base (T r : fl) Tr rho : near T Tr (1001 / 1000) -> near r rho (1001 / 1000) -> 196 <= Tr <= 321 -> / 10 ^ 5 <= rho <= 2 ->
  near (mul o (mul o r (div o (g_isa_R_Star o) (g_isa_air_molar_mass o))) T) (rho * (isa_R_Star / isa_air_molar_mass) * Tr) (704 / 100) /\
  / 2 <= rho * (isa_R_Star / isa_air_molar_mass) * Tr <= 190000.
Proof.
  intros NT NR BT BR. pose proof gas_value as Gv. pose proof c_gas as Cg. set (K := isa_R_Star / isa_air_molar_mass) in *.
  assert (B1 : 287 * / 10 ^ 5 <= rho * K <= 2 * 288) by (split; [rewrite Rmult_comm|]; apply Rmult_le_compat; lra).
  assert (B2 : 287 * / 10 ^ 5 * 196 <= rho * K * Tr <= 2 * 288 * 321) by (split; apply Rmult_le_compat; lra).
  split; [|lra]. eapply near_weak; [apply (near_mul _ _ _ _ (1001 / 1000 + 3012 / 1000 + 101 / 100) (1001 / 1000)); [|exact NT|lra|lra|rewrite Rabs_pos_eq; lra]|lra].
  apply (near_mul _ _ _ _ _ _ NR Cg); [lra|lra|rewrite Rabs_pos_eq; lra].
Qed.

Lemma layer_power (f : fl -> fl -> fl) (h H T L : fl) Tr rho Lr : accurate_pow f -> is_finite h = true -> is_finite H = true -> near T Tr (1001 / 1000) -> near L Lr (1001 / 1000) -> / 1000 <= Rabs Lr ->
  layer_ok (B2R h) (B2R H) Tr rho Lr ->
  let X := Rpower (1 + Lr / Tr * (B2R h - B2R H)) (- isa_g_0 / (isa_R * Lr)) in
  near (f (add o (one o) (mul o (div o L T) (sub o h H))) (div o (neg o (g_isa_g_0 o)) (mul o (g_isa_R o) L))) X (2849 / 10) /\ / 4782969 <= X <= 4782969.
Proof.
  intros Af Fh FH NT NL LL (BT & _ & BL & BH & BY & B2) X. base. pose proof (Rabs_pos Lr) as PL.
  assert (UU : 0 <= u * u <= / 10 ^ 15 * u) by (split; [apply Rmult_le_pos; lra|apply Rmult_le_compat_r; lra]).
  assert (UUU : 0 <= u * (u * u) <= / 10 ^ 15 * (u * u)) by (split; [apply Rmult_le_pos; lra|apply Rmult_le_compat_r; lra]).
  assert (UE : u * eta <= / 10 ^ 15 * eta) by (apply Rmult_le_compat_r; lra).
  assert (NL0 : Lr <> 0) by (intros E; rewrite E, Rabs_R0 in LL; lra).
  assert (AD : apx (sub o h H) (B2R h - B2R H) (20000 * u)).
  { eapply apx_weak; [apply (apx_sub prec emax) with (1 := apx_exact prec emax h Fh) (2 := apx_exact prec emax H FH) (b := 20000); [exact BH|lra]|lra]. }
  assert (Bq : / 10 ^ 7 <= Rabs (Lr / Tr) <= 332 / 10 ^ 7).
  { unfold Rdiv at 1 2. rewrite Rabs_mult, Rabs_inv, (Rabs_pos_eq Tr) by lra. split; apply (Rmult_le_reg_r Tr); try lra; rewrite Rmult_assoc, Rinv_l by lra; lra. }
  assert (NQ : near (div o L T) (Lr / Tr) (3012 / 1000)) by (eapply near_weak; [apply (near_div _ _ _ _ _ _ NL NT); lra|lra]).
  assert (AQ : apx (div o L T) (Lr / Tr) (/ 10 ^ 4 * u)).
  { eapply apx_weak; [apply near_apx, NQ|]. assert (u * Rabs (Lr / Tr) <= u * (332 / 10 ^ 7)) by (apply Rmult_le_compat_l; lra). lra. }
  assert (AM : apx (mul o (div o L T) (sub o h H)) (Lr / Tr * (B2R h - B2R H)) (335 / 100 * u)).
  { eapply apx_weak; [apply (apx_mul prec emax) with (1 := AQ) (2 := AD) (bx := 332 / 10 ^ 7) (by_ := 20000); [lra|exact BH|lra]|lra]. }
  assert (A1 : apx (one o : fl) 1 0) by (split; [apply is_finite_Bone|cbn [one float_ops]; rewrite Bone_correct, Rminus_diag_eq, Rabs_R0 by reflexivity; lra]).
  assert (A2 : apx (add o (one o) (mul o (div o L T) (sub o h H))) (1 + Lr / Tr * (B2R h - B2R H)) (5 * u)).
  { eapply apx_weak; [apply (apx_add prec emax) with (1 := A1) (2 := AM) (b := 135 / 100); [rewrite Rabs_pos_eq; lra|lra]|lra]. }
  remember (1 + Lr / Tr * (B2R h - B2R H)) as t2 eqn:Ht2. set (x := add o (one o) (mul o (div o L T) (sub o h H))) in *.
  pose proof c_g0 as C0. pose proof c_R as CR.
  assert (BRL : 28 / 100 <= Rabs (isa_R * Lr) <= 2) by (rewrite Rabs_mult, (Rabs_pos_eq isa_R) by (unfold isa_R; lra); unfold isa_R; lra).
  assert (NRL : near (mul o (g_isa_R o) L) (isa_R * Lr) (3012 / 1000)) by (eapply near_weak; [apply (near_mul _ _ _ _ _ _ CR NL); lra|lra]).
  assert (NRL0 : isa_R * Lr <> 0) by (intros E; rewrite E, Rabs_R0 in BRL; lra).
  assert (B3 : 4 <= Rabs (- isa_g_0 / (isa_R * Lr)) <= 342 / 10).
  { unfold Rdiv. rewrite Rabs_mult, Rabs_inv, Rabs_Ropp, (Rabs_pos_eq isa_g_0), Rabs_mult, (Rabs_pos_eq isa_R) by (unfold isa_g_0, isa_R; lra).
    assert (Pi : 0 < isa_R * Rabs Lr) by (unfold isa_R; lra). split; apply (Rmult_le_reg_r (isa_R * Rabs Lr)); try lra; rewrite Rmult_assoc, Rinv_l by lra; unfold isa_R, isa_g_0; lra. }
  assert (N3 : near (div o (neg o (g_isa_g_0 o)) (mul o (g_isa_R o) L)) (- isa_g_0 / (isa_R * Lr)) (503 / 100)).
  { eapply near_weak; [apply (near_div _ _ _ _ _ _ (near_neg _ _ _ C0) NRL); [lra|lra|exact NRL0|lra]|lra]. }
  remember (- isa_g_0 / (isa_R * Lr)) as t3 eqn:Ht3. set (y := div o (neg o (g_isa_g_0 o)) (mul o (g_isa_R o) L)) in *.
  destruct A2 as [Fx Hx]. destruct N3 as [Fy Hy]. apply Rabs_le_inv in Hx as Hx'.
  assert (U3 : u * Rabs t3 <= u * (342 / 10)) by (apply Rmult_le_compat_l; lra).
  assert (Hy' : Rabs (B2R y - t3) <= 1721 / 10 * u) by lra.
  assert (Px : 8 / 10 <= B2R x <= 14 / 10) by lra. assert (Pt : 8 / 10 <= t2 <= 14 / 10) by lra.
  pose proof (ln_small _ Px) as Lx. pose proof (ln_small _ Pt) as Lt. pose proof (ln_gap (B2R x) t2 (8 / 10) ltac:(lra) ltac:(lra) ltac:(lra)) as Lg.
  assert (Lg' : Rabs (ln (B2R x) - ln t2) <= 625 / 100 * u) by lra.
  assert (Dl : Rabs (B2R y * ln (B2R x) - t3 * ln t2) <= 2827 / 10 * u).
  { replace (B2R y * ln (B2R x) - t3 * ln t2) with ((B2R y - t3) * ln (B2R x) + t3 * (ln (B2R x) - ln t2)) by ring. eapply Rle_trans; [apply Rabs_triang|]. rewrite !Rabs_mult.
    assert (Rabs (B2R y - t3) * Rabs (ln (B2R x)) <= 1721 / 10 * u * (4 / 10)) by (apply Rmult_le_compat; try apply Rabs_pos; lra).
    assert (Rabs t3 * Rabs (ln (B2R x) - ln t2) <= 342 / 10 * (625 / 100 * u)) by (apply Rmult_le_compat; try apply Rabs_pos; lra). lra. }
  assert (Z : Rabs (t3 * ln t2) <= 1368 / 100) by (rewrite Rabs_mult; apply Rle_trans with (342 / 10 * (4 / 10)); [apply Rmult_le_compat; try apply Rabs_pos; lra|lra]).
  split; [|unfold X, Rpower; apply exp14; lra].
  assert (Zy : Rabs (B2R y * ln (B2R x)) <= 14).
  { replace (B2R y * ln (B2R x)) with ((B2R y * ln (B2R x) - t3 * ln t2) + t3 * ln t2) by ring. eapply Rle_trans; [apply Rabs_triang|]. lra. }
  pose proof (Af x y Fx Fy ltac:(lra) Zy) as K. unfold X, Rpower. unfold Rpower in K.
  eapply near_weak; [apply (exp_near _ _ _ (2827 / 10) Dl); [lra|exact K]|lra].
Qed.

Lemma layer_exp (f : fl -> fl) (h H t : fl) Tr rho : accurate_exp f -> is_finite h = true -> is_finite H = true ->
  near t (layer_T (B2R H) Tr 0 (B2R h)) (53 / 10) -> layer_ok (B2R h) (B2R H) Tr rho 0 ->
  let X := exp (- isa_g_0 / (isa_R * layer_T (B2R H) Tr 0 (B2R h)) * (B2R h - B2R H)) in
  near (f (mul o (div o (neg o (g_isa_g_0 o)) (mul o (g_isa_R o) t)) (sub o h H))) X (2849 / 10) /\ / 4782969 <= X <= 4782969.
Proof.
  intros Af Fh FH NT (BT & _ & _ & BH & BY & _) X. base.
  assert (UU : 0 <= u * u <= / 10 ^ 15 * u) by (split; [apply Rmult_le_pos; lra|apply Rmult_le_compat_r; lra]).
  assert (UUU : 0 <= u * (u * u) <= / 10 ^ 15 * (u * u)) by (split; [apply Rmult_le_pos; lra|apply Rmult_le_compat_r; lra]).
  assert (AD : apx (sub o h H) (B2R h - B2R H) (20000 * u)).
  { eapply apx_weak; [apply (apx_sub prec emax) with (1 := apx_exact prec emax h Fh) (2 := apx_exact prec emax H FH) (b := 20000); [exact BH|lra]|lra]. }
  unfold X. remember (layer_T (B2R H) Tr 0 (B2R h)) as Tv eqn:HT. pose proof c_g0 as C0. pose proof c_R as CR.
  assert (BRL : 56000 <= isa_R * Tv <= 93000) by (unfold isa_R; lra).
  assert (NRL : near (mul o (g_isa_R o) t) (isa_R * Tv) (7312 / 1000)) by (eapply near_weak; [apply (near_mul _ _ _ _ _ _ CR NT); [lra|lra|rewrite Rabs_pos_eq; lra]|lra]).
  assert (B3 : / 10 ^ 4 <= Rabs (- isa_g_0 / (isa_R * Tv)) <= 1752 / 10 ^ 7).
  { unfold Rdiv at 1 2. rewrite Rabs_mult, Rabs_inv, Rabs_Ropp, (Rabs_pos_eq isa_g_0), (Rabs_pos_eq (isa_R * Tv)) by (unfold isa_g_0, isa_R; lra).
    split; apply (Rmult_le_reg_r (isa_R * Tv)); try lra; rewrite Rmult_assoc, Rinv_l by lra; unfold isa_g_0; lra. }
  assert (N3 : near (div o (neg o (g_isa_g_0 o)) (mul o (g_isa_R o) t)) (- isa_g_0 / (isa_R * Tv)) (9324 / 1000)).
  { eapply near_weak; [apply (near_div _ _ _ _ _ _ (near_neg _ _ _ C0) NRL); lra|lra]. }
  assert (A3 : apx (div o (neg o (g_isa_g_0 o)) (mul o (g_isa_R o) t)) (- isa_g_0 / (isa_R * Tv)) (164 / 10 ^ 5 * u)).
  { eapply apx_weak; [apply near_apx, N3|]. assert (u * Rabs (- isa_g_0 / (isa_R * Tv)) <= u * (1752 / 10 ^ 7)) by (apply Rmult_le_compat_l; lra). lra. }
  assert (AM : apx (mul o (div o (neg o (g_isa_g_0 o)) (mul o (g_isa_R o) t)) (sub o h H)) (- isa_g_0 / (isa_R * Tv) * (B2R h - B2R H)) (41 * u)).
  { eapply apx_weak; [apply (apx_mul prec emax) with (1 := A3) (2 := AD) (bx := 1752 / 10 ^ 7) (by_ := 20000); [lra|exact BH|lra]|lra]. }
  assert (Z : Rabs (- isa_g_0 / (isa_R * Tv) * (B2R h - B2R H)) <= 3504 / 1000) by (rewrite Rabs_mult; apply Rle_trans with (1752 / 10 ^ 7 * 20000); [apply Rmult_le_compat; try apply Rabs_pos; lra|lra]).
  split; [|apply exp14; lra]. destruct AM as [F D].
  assert (Zy : Rabs (B2R (mul o (div o (neg o (g_isa_g_0 o)) (mul o (g_isa_R o) t)) (sub o h H))) <= 14) by (pose proof (apx_size _ _ _ _ _ (conj F D)); lra).
  pose proof (Af _ F Zy) as K. eapply near_weak; [apply (exp_near _ _ _ 41 D); [lra|exact K]|lra].
Qed.

(** *** All layers *)
Context (expf : fl -> fl) (powF : fl -> fl -> fl) (Ae : accurate_exp expf) (Ap : accurate_pow powF).
Lemma leb_int (h : fl) z : is_finite h = true -> (Z.abs z <= 2 ^ 52)%Z -> leb o h (lit o (z # 1)) = Rleb (B2R h) (IZR z).
Proof.
  intros F L. destruct (lit_int z L) as [Fz Ez]. change (leb o h (lit o (z # 1))) with (Bleb h (lit o (z # 1))). rewrite Bleb_correct by assumption. rewrite Ez.
  unfold Rleb. destruct (Rle_dec (B2R h) (IZR z)); [apply Rle_bool_true; assumption|apply Rle_bool_false; lra].
Qed.
Lemma index_same (h : fl) : is_finite h = true -> g_isa_base_index o h = isa_base_index (Alt (B2R h)).
Proof.
  intros F. unfold g_isa_base_index, g_isa_altitudes, isa_base_index, isa_altitudes. cbn [map g_isa_find isa_find alt_le Nat.add].
  rewrite !leb_int by (exact F || (cbn; lia)). reflexivity.
Qed.
Lemma one_layer (h : fl) i g qH qT qr qL H T rho L : is_finite h = true -> isa_base_index (Alt (B2R h)) = Val i -> isa_gradient_index i = Some g ->
  nth_error (g_isa_altitudes o) i = Some (lit o (qH # 1)) -> nth_error (g_isa_temperatures o) i = Some (lit o qT) -> nth_error (g_isa_densities o) i = Some (lit o qr) -> nth_error (g_isa_gradients o) g = Some (lit o qL) ->
  nth_error isa_altitudes i = Some H -> nth_error isa_temperatures i = Some T -> nth_error isa_densities i = Some rho -> nth_error isa_gradients g = Some L ->
  H = IZR qH -> T = Q2R qT -> rho = Q2R qr -> L = Q2R qL ->
  (Z.abs qH <= 2 ^ 52)%Z -> (Z.abs (Qnum qT) <= 2 ^ 52)%Z -> (Z.pos (Qden qT) <= 2 ^ 52)%Z -> (Z.abs (Qnum qr) <= 2 ^ 52)%Z -> (Z.pos (Qden qr) <= 2 ^ 52)%Z -> (Z.abs (Qnum qL) <= 2 ^ 52)%Z -> (Z.pos (Qden qL) <= 2 ^ 52)%Z ->
  (qL = 0 # 1 \/ / 1000 <= Rabs L) -> layer_ok (B2R h) H T rho L ->
  same_within (g_isa_temperature o h) (isa_temperature (B2R h)) (53 / 10) /\
  same_within (g_isa_pressure o expf powF h) (isa_pressure (B2R h)) 293 /\
  same_within (g_isa_density o expf powF h) (isa_density (B2R h)) 304 /\
  match isa_temperature (B2R h) with Val T => 196 <= T <= 321 | _ => True end /\ match isa_pressure (B2R h) with Val p => / 10 ^ 7 <= p <= 10 ^ 12 | _ => True end.
Proof.
  intros F Ei Eg GH GT Gr GL RH RT Rr RL VH VT Vr VL LH LT1 LT2 Lr1 Lr2 LL1 LL2 CL OK. base.
  assert (Ef : g_isa_base_index o h = Val i) by (rewrite index_same by exact F; exact Ei).
  pose proof OK as (BT & Br & BL & BH & BY & B2).
  destruct (isa_layer (B2R h) i H T rho L g Ei Eg RH RT Rr RL ltac:(lra) ltac:(lra)) as [Et Ep].
  destruct (lit_int qH LH) as [FH EH]. assert (EH' : B2R (lit o (qH # 1) : fl) = H) by (rewrite EH, VH; reflexivity).
  assert (NT : near (lit o qT : fl) T (1001 / 1000)) by (rewrite VT; apply lit_near; [exact LT1|exact LT2|rewrite <- VT, Rabs_pos_eq; lra]).
  assert (Nr : near (lit o qr : fl) rho (1001 / 1000)) by (rewrite Vr; apply lit_near; [exact Lr1|exact Lr2|rewrite <- Vr, Rabs_pos_eq; lra]).
  set (fH := lit o (qH # 1) : fl) in *. set (fT := lit o qT : fl) in *. set (fr := lit o qr : fl) in *. set (fL := lit o qL : fl) in *. clearbody fH fT fr. rewrite <- EH' in *.
  assert (AL : apx fL L (66 / 10000 * u)).
  { destruct CL as [-> | CL].
    - destruct (lit_int 0 ltac:(cbn; lia)) as [F0 E0]. split; [exact F0|]. unfold fL. rewrite E0, VL. unfold Q2R. cbn [Qnum Qden]. rewrite Rmult_0_l, Rminus_0_r, Rabs_R0. lra.
    - assert (N : near fL (Q2R qL) (1001 / 1000)) by (apply lit_near; [exact LL1|exact LL2|rewrite <- VL; lra]). rewrite <- VL in N. eapply apx_weak; [apply near_apx, N|].
      assert (u * Rabs L <= u * (65 / 10000)) by (apply Rmult_le_compat_l; lra). lra. }
  pose proof (layer_temperature h fH fT fL T rho L F FH NT AL OK) as NTV.
  set (tv := add o fT (mul o fL (sub o h fH))) in *.
  assert (Gt : g_isa_temperature o h = Val tv) by (unfold g_isa_temperature; rewrite Ef; cbn [obind]; rewrite Eg; unfold g_index; rewrite GT, GL, GH; reflexivity).
  destruct (layer_base fT fr T rho NT Nr BT Br) as [NB BB].
  set (bp := mul o (mul o fr (div o (g_isa_R_Star o) (g_isa_air_molar_mass o))) fT) in *. remember (rho * (isa_R_Star / isa_air_molar_mass) * T) as bpr eqn:Hb.
  assert (Gb : g_isa_base_pressure o h = Val bp) by (unfold g_isa_base_pressure; rewrite Ef; cbn [obind]; unfold g_index; rewrite Gr, GT; reflexivity).
  assert (S1 : same_within (g_isa_temperature o h) (isa_temperature (B2R h)) (53 / 10)) by (exists tv, (layer_T (B2R fH) T L (B2R h)); split; [exact Gt|split; [exact Et|exact NTV]]).
  assert (S2 : exists v X, g_isa_pressure o expf powF h = Val (mul o bp v) /\ layer_p (B2R fH) T rho L (B2R h) = bpr * X /\ near v X (2849 / 10) /\ / 4782969 <= X <= 4782969).
  { unfold g_isa_pressure. rewrite Ef. cbn [obind]. rewrite Eg. unfold g_index. rewrite GT, GL, GH, Gb, Gt. cbn [obind].
    change (eqb o fL (zero o)) with (Beqb fL (B754_zero false)). rewrite Beqb_correct by (exact (proj1 AL) || reflexivity). cbn [B2R]. unfold layer_p. rewrite <- Hb.
    destruct CL as [C0 | CL].
    - assert (L0 : L = 0) by (rewrite VL, C0; unfold Q2R; cbn [Qnum Qden]; lra).
      assert (E0 : B2R fL = 0) by (unfold fL; rewrite C0; apply (lit_int 0); cbn; lia).
      rewrite Req_bool_true by exact E0. cbn [negb]. rewrite L0 in *. unfold Reqb. destruct (Req_EM_T 0 0) as [_|N]; [|contradiction N; reflexivity].
      destruct (layer_exp expf h fH tv T rho Ae F FH NTV OK) as [K1 K2]. eexists _, _. split; [reflexivity|]. split; [reflexivity|]. split; [exact K1|exact K2].
    - assert (N : near fL L (1001 / 1000)) by (rewrite VL; apply lit_near; [exact LL1|exact LL2|rewrite <- VL; lra]).
      assert (L0 : L <> 0) by (intros E; rewrite E, Rabs_R0 in CL; lra).
      assert (N0 : B2R fL <> 0). { intros E. destruct AL as [_ AL]. rewrite E in AL. replace (0 - L) with (- L) in AL by ring. rewrite Rabs_Ropp in AL. lra. }
      rewrite Req_bool_false by exact N0. cbn [negb]. unfold Reqb. destruct (Req_EM_T L 0) as [E|_]; [contradiction|].
      destruct (layer_power powF h fH fT fL T rho L Ap F FH NT N CL OK) as [K1 K2]. eexists _, _. split; [reflexivity|]. split; [reflexivity|]. split; [exact K1|exact K2]. }
  destruct S2 as (v & X & Gp & EX & NX & BX).
  assert (Bp : / 10 ^ 7 <= bpr * X <= 10 ^ 12).
  { split; [apply Rle_trans with (/ 2 * / 4782969); [lra|apply Rmult_le_compat; lra]|apply Rle_trans with (190000 * 4782969); [apply Rmult_le_compat; lra|lra]]. }
  assert (NP : near (mul o bp v) (layer_p (B2R fH) T rho L (B2R h)) 293).
  { rewrite EX. eapply near_weak; [apply (near_mul _ _ _ _ _ _ NB NX); [lra|lra|rewrite Rabs_pos_eq; lra]|lra]. }
  split; [exact S1|]. split; [exists (mul o bp v), (layer_p (B2R fH) T rho L (B2R h)); split; [exact Gp|split; [exact Ep|exact NP]]|].
  split; [|rewrite Et, Ep, EX; split; lra].
  unfold g_isa_density, isa_density. rewrite Gt, Gp, Et, Ep. cbn [obind]. do 2 eexists. split; [reflexivity|]. split; [reflexivity|].
  pose proof gas_value as Gv. pose proof c_gas as Cg. remember (isa_R_Star / isa_air_molar_mass) as K eqn:HK. remember (layer_T (B2R fH) T L (B2R h)) as TV eqn:HTV.
  assert (BK : 287 * 196 <= K * TV <= 288 * 321) by (split; apply Rmult_le_compat; lra).
  assert (ND : near (mul o (div o (g_isa_R_Star o) (g_isa_air_molar_mass o)) tv) (K * TV) (9322 / 1000)) by (eapply near_weak; [apply (near_mul _ _ _ _ _ _ Cg NTV); [lra|lra|rewrite Rabs_pos_eq; lra]|lra]).
  eapply near_weak; [apply (near_div _ _ _ _ _ _ NP ND); [lra|lra|lra|]|lra]. rewrite EX.
  assert (Pi : 0 < / (K * TV)) by (apply Rinv_0_lt_compat; lra).
  assert (I1 : / (288 * 321) <= / (K * TV) <= / (287 * 196)) by (split; apply Rinv_le_contravar; lra).
  rewrite Rabs_pos_eq by (apply Rmult_le_pos; lra). unfold Rdiv. split.
  - apply Rle_trans with (/ 10 ^ 8 * / (288 * 321)); [lra|apply Rmult_le_compat; lra].
  - apply Rle_trans with (10 ^ 12 * / (287 * 196)); [apply Rmult_le_compat; lra|lra].
Qed.

Lemma all_layers (h : fl) : is_finite h = true -> -5000 <= B2R h <= 80000 ->
  same_within (g_isa_temperature o h) (isa_temperature (B2R h)) (53 / 10) /\
  same_within (g_isa_pressure o expf powF h) (isa_pressure (B2R h)) 293 /\
  same_within (g_isa_density o expf powF h) (isa_density (B2R h)) 304 /\
  match isa_temperature (B2R h) with Val T => 196 <= T <= 321 | _ => True end /\ match isa_pressure (B2R h) with Val p => / 10 ^ 7 <= p <= 10 ^ 12 | _ => True end.
Proof.
  intros F Bh. pose proof (isa_cases (B2R h)) as C.
    repeat (destruct C as [[B E]|C]; [eapply (one_layer h); [exact F|exact E|reflexivity|reflexivity|reflexivity|reflexivity|reflexivity|reflexivity|reflexivity|reflexivity|reflexivity| | | | |
      cbn; lia|cbn; lia|cbn; lia|cbn; lia|cbn; lia|cbn; lia|cbn; lia| |];
      [reflexivity|unfold Q2R; cbn [Qnum Qden]; lra|unfold Q2R; cbn [Qnum Qden]; lra|unfold Q2R; cbn [Qnum Qden]; lra|first [left; reflexivity|right; unfold Rabs; destruct (Rcase_abs _); lra]|
       unfold layer_ok, layer_T; split; [lra|]; split; [lra|]; split; [unfold Rabs; destruct (Rcase_abs _); lra|]; split; [apply Rabs_le; lra|]; split; [lra|lra]]|]). lra.
Qed.
(** From -5 to 80 km: temperature, pressure and density are within 6, 293 and 304 units of relative rounding of the exact ones *)
Theorem C139_accurate : forall h : fl, is_finite h = true -> -5000 <= B2R h <= 80000 ->
  same_within (g_isa_temperature o h) (isa_temperature (B2R h)) 6 /\
  same_within (g_isa_pressure o expf powF h) (isa_pressure (B2R h)) 293 /\
  same_within (g_isa_density o expf powF h) (isa_density (B2R h)) 304.
Proof.
  intros h F Bh. destruct (all_layers h F Bh) as ((v & V & E1 & E2 & N) & K2 & K3 & _).
  split; [exists v, V; split; [exact E1|split; [exact E2|eapply near_weak; [exact N|lra]]]|split; [exact K2|exact K3]].
Qed.
(** at the altitudes of the published table, the published densities *)
Theorem C139_table : forall (h : fl) rho, is_finite h = true -> In (B2R h, rho) icao_densities -> exists d, g_isa_density o expf powF h = Val d /\ near d rho 304.
Proof.
  intros h rho F I. assert (B : -5000 <= B2R h <= 80000) by (cbn [In icao_densities] in I; repeat (destruct I as [I|I]; [injection I as I1 _; lra|]); destruct I).
  destruct (C139_accurate h F B) as (_ & _ & d & D & E1 & E2 & N). rewrite (C87_isa_density_table _ _ I) in E2. injection E2 as <-. exists d. split; [exact E1|exact N].
Qed.
(** the three computed numbers satisfy the gas law to within a few roundings *)
Theorem C139_gas_law : forall h : fl, is_finite h = true -> -5000 <= B2R h <= 80000 -> exists T p d,
  g_isa_temperature o h = Val T /\ g_isa_pressure o expf powF h = Val p /\ g_isa_density o expf powF h = Val d /\ 0 < B2R T /\ 0 < B2R p /\ 0 < B2R d /\
  Rabs (B2R d - B2R p / (8314.32 / 28.96442 * B2R T)) <= 6 * u * B2R d.
Proof.
  intros h F B. base. destruct (C139_accurate h F B) as ((T & TV & ET & RT & NT) & (p & PV & Ep & RP & NP) & (d & DV & Ed & RD & ND)).
  destruct (isa_all (B2R h) (proj2 B)) as (H & T0 & rho & L & E1 & E2 & P1 & P2 & P3). rewrite E1 in RT. rewrite E2 in RP. injection RT as <-. injection RP as <-.
  assert (Bounds : 196 <= layer_T H T0 L (B2R h) <= 321 /\ / 10 ^ 7 <= layer_p H T0 rho L (B2R h) <= 10 ^ 12).
  { destruct (all_layers h F B) as (_ & _ & _ & K1 & K2). rewrite E1 in K1. rewrite E2 in K2. split; assumption. }
  destruct Bounds as [BT BP]. remember (layer_T H T0 L (B2R h)) as TV eqn:HT. remember (layer_p H T0 rho L (B2R h)) as PV eqn:HP.
  exists T, p, d. split; [exact ET|]. split; [exact Ep|]. split; [exact Ed|].
  destruct NT as [FT HT']. rewrite (Rabs_pos_eq TV) in HT' by lra. apply Rabs_le_inv in HT'. assert (UT : u * TV <= / 10 ^ 15 * TV) by (apply Rmult_le_compat_r; lra).
  destruct NP as [Fp HP']. rewrite (Rabs_pos_eq PV) in HP' by lra. apply Rabs_le_inv in HP'. assert (UP : u * PV <= / 10 ^ 15 * PV) by (apply Rmult_le_compat_r; lra).
  assert (BT' : 190 <= B2R T <= 330) by lra. assert (BP' : / 10 ^ 8 <= B2R p <= 2 * 10 ^ 12) by lra. split; [lra|]. split; [lra|].
  pose proof gas_value as Gv. pose proof c_gas as Cg. assert (EK : 8314.32 / 28.96442 = isa_R_Star / isa_air_molar_mass) by (unfold isa_R_Star, isa_air_molar_mass; lra). rewrite EK. remember (isa_R_Star / isa_air_molar_mass) as K eqn:HK.
  assert (XT : near T (B2R T) 0) by (split; [exact FT|rewrite Rminus_diag_eq, Rabs_R0 by reflexivity; lra]). assert (Xp : near p (B2R p) 0) by (split; [exact Fp|rewrite Rminus_diag_eq, Rabs_R0 by reflexivity; lra]).
  assert (BK : 287 * 190 <= K * B2R T <= 288 * 330) by (split; apply Rmult_le_compat; lra).
  assert (N1 : near (mul o (div o (g_isa_R_Star o) (g_isa_air_molar_mass o)) T) (K * B2R T) (4022 / 1000)) by (eapply near_weak; [apply (near_mul _ _ _ _ _ _ Cg XT); [lra|lra|rewrite Rabs_pos_eq; lra]|lra]).
  assert (I1 : / (288 * 330) <= / (K * B2R T) <= / (287 * 190)) by (split; apply Rinv_le_contravar; lra).
  assert (BQ : / 10 ^ 14 <= B2R p / (K * B2R T) <= 10 ^ 12).
  { unfold Rdiv. split; [apply Rle_trans with (/ 10 ^ 8 * / (288 * 330)); [lra|apply Rmult_le_compat; lra]|apply Rle_trans with (2 * 10 ^ 12 * / (287 * 190)); [apply Rmult_le_compat; lra|lra]]. }
  assert (N2 : near d (B2R p / (K * B2R T)) (5033 / 1000)).
  { unfold g_isa_density in Ed. rewrite ET, Ep in Ed. cbn [obind] in Ed. injection Ed as <-. eapply near_weak; [apply (near_div _ _ _ _ _ _ Xp N1); [lra|lra|lra|rewrite Rabs_pos_eq; lra]|lra]. }
  destruct N2 as [_ N2]. remember (B2R p / (K * B2R T)) as q eqn:Hq. rewrite (Rabs_pos_eq q) in N2 by lra. apply Rabs_le_inv in N2 as N3. assert (Uq : u * q <= / 10 ^ 15 * q) by (apply Rmult_le_compat_r; lra).
  assert (Dq : 9 / 10 * q <= B2R d) by lra. split; [lra|]. eapply Rle_trans; [exact N2|].
  assert (u * (q * (999 / 1000)) <= u * B2R d) by (apply Rmult_le_compat_l; lra). lra.
Qed.
(** above the table, for infinity and for NaN the answer is an error, as in exact arithmetic *)
Theorem C139_errors : forall h : fl, (is_finite h = true /\ 80000 < B2R h) \/ h = B754_infinity false \/ h = B754_nan ->
  g_isa_temperature o h = Error /\ g_isa_pressure o expf powF h = Error /\ g_isa_density o expf powF h = Error.
Proof.
  intros h C. assert (E : g_isa_base_index o h = Error).
  { destruct C as [[F L]|C].
    - rewrite index_same by exact F. pose proof (isa_cases (B2R h)) as D. repeat (destruct D as [[B E]|D]; [lra|]). exact (proj2 D).
    - unfold g_isa_base_index, g_isa_altitudes. cbn [map g_isa_find].
      assert (Z : forall z, (Z.abs z <= 2 ^ 52)%Z -> leb o h (lit o (z # 1)) = false).
      { intros z Lz. destruct (lit_int z Lz) as [Fz _]. destruct C as [-> | ->]; [|reflexivity]. change (leb o (B754_infinity false) (lit o (z # 1))) with (Bleb (B754_infinity false : fl) (lit o (z # 1))).
        destruct (lit o (z # 1) : fl) as [s|[|]| |s m e W]; try discriminate Fz; reflexivity. }
      rewrite !Z by (cbn; lia). reflexivity. }
  unfold g_isa_density, g_isa_pressure, g_isa_temperature. rewrite E. split; [|split]; reflexivity.
Qed.
End Width.

(** some functions are that accurate *)
Section Near.
Context (prec emax : Z) {P : Prec_gt_0 prec} {M : Prec_lt_emax prec emax}.
Context (Hp : (53 <= prec)%Z) (He : (1024 <= emax)%Z).
Definition nearest_exp (x : binary_float prec emax) := nearest_float prec emax (exp (B2R x)).
Definition nearest_pow (x y : binary_float prec emax) := nearest_float prec emax (Rpower (B2R x) (B2R y)).
Lemma nearest_near r : / 4782969 <= r <= 4782969 -> near (nearest_float prec emax r) r 2.
Proof.
  intros B. pose proof (u_pos prec) as Pu. pose proof (largest18 prec emax Hp He) as G. pose proof (eta_small prec emax He) as Es.
  destruct (nearest_float_value prec emax r ltac:(rewrite Rabs_pos_eq; lra)) as [F E]. split; [exact F|]. rewrite E. destruct (rd_err prec emax r) as (a & d & A & D & ->).
  replace (r * (1 + a) + d - r) with (a * r + d) by ring. eapply Rle_trans; [apply Rabs_triang|]. rewrite Rabs_mult, (Rabs_pos_eq r) by lra.
  assert (Rabs a * r <= unit prec * r) by (apply Rmult_le_compat_r; lra). assert (/ 4782969 * unit prec <= unit prec * r) by (rewrite Rmult_comm; apply Rmult_le_compat_l; lra). lra.
Qed.
Lemma nearest_exp_accurate : accurate_exp nearest_exp.
Proof. intros x _ L. apply nearest_near, exp14, L. Qed.
Lemma nearest_pow_accurate : accurate_pow nearest_pow.
Proof. intros x y _ _ _ L. apply nearest_near. unfold Rpower. apply exp14, L. Qed.
End Near.

Local Instance p53 : Prec_gt_0 53 := eq_refl. Local Instance e53 : Prec_lt_emax 53 1024 := eq_refl.
(** at the tropopause, in f64 *)
Example C139_nontrivial : exists expf powF, accurate_exp expf /\ accurate_pow powF /\
  let h := @B754_finite 53 1024 false 6046764196954112 (-39) eq_refl in is_finite h = true /\ B2R h = 10999 /\
  (exists T, g_isa_temperature (float_ops 53 1024) h = Val T /\ Rabs (B2R T - 216.6565) <= 1300 * bpow radix2 (-53)) /\
  exists p, g_isa_pressure (float_ops 53 1024) expf powF h = Val p.
Proof.
  exists (nearest_exp 53 1024), (nearest_pow 53 1024).
  assert (A : accurate_exp (nearest_exp 53 1024)) by (apply nearest_exp_accurate; lia). assert (B : accurate_pow (nearest_pow 53 1024)) by (apply nearest_pow_accurate; lia).
  split; [exact A|]. split; [exact B|]. intros h. assert (E : B2R h = 10999) by (unfold h, B2R, F2R; cbn; lra). split; [reflexivity|]. split; [exact E|].
  destruct (C139_accurate 53 1024 ltac:(lia) ltac:(lia) _ _ A B h eq_refl ltac:(lra)) as ((T & V & E1 & E2 & _ & N) & (p & W & E3 & _) & _).
  split; [|exists p; exact E3]. exists T. split; [exact E1|].
  assert (EV : V = 216.6565).
  { rewrite E in E2. rewrite (C57_isa_temperature_profile 1 _ _ 10999 eq_refl eq_refl) in E2 by (cbn; lra). injection E2 as <-. unfold line. cbn [fst snd]. lra. }
  rewrite EV in N. rewrite (Rabs_pos_eq 216.6565) in N by lra. unfold unit in N. change (- (53))%Z with (-53)%Z in N. pose proof (bpow_gt_0 radix2 (-53)). lra.
Qed.
