(** The ICAO atmosphere (C57, C59, C87). *)
From Coq Require Import Reals List Arith Bool Lra Lia.
From Coquelicot Require Import Coquelicot.
From Verif Require Import Scalar InterpProofs AtmModel AtmSpec.
Import ListNotations.
Open Scope R_scope.

Lemma isa_cases h :
  (h <= -5000 /\ isa_base_index (Alt h) = Val 0%nat) \/
  (-5000 < h <= 0 /\ isa_base_index (Alt h) = Val 1%nat) \/
  (0 < h <= 11000 /\ isa_base_index (Alt h) = Val 2%nat) \/
  (11000 < h <= 20000 /\ isa_base_index (Alt h) = Val 3%nat) \/
  (20000 < h <= 32000 /\ isa_base_index (Alt h) = Val 4%nat) \/
  (32000 < h <= 47000 /\ isa_base_index (Alt h) = Val 5%nat) \/
  (47000 < h <= 51000 /\ isa_base_index (Alt h) = Val 6%nat) \/
  (51000 < h <= 71000 /\ isa_base_index (Alt h) = Val 7%nat) \/
  (71000 < h <= 80000 /\ isa_base_index (Alt h) = Val 8%nat) \/
  (80000 < h /\ isa_base_index (Alt h) = Error).
Proof.
  unfold isa_base_index, isa_altitudes. cbn [isa_find alt_le Nat.add]. unfold Rleb.
  destruct (Rle_dec h (-5000)); [left; split; [assumption|reflexivity]|right].
  destruct (Rle_dec h 0); [left; split; [lra|reflexivity]|right].
  destruct (Rle_dec h 11000); [left; split; [lra|reflexivity]|right].
  destruct (Rle_dec h 20000); [left; split; [lra|reflexivity]|right].
  destruct (Rle_dec h 32000); [left; split; [lra|reflexivity]|right].
  destruct (Rle_dec h 47000); [left; split; [lra|reflexivity]|right].
  destruct (Rle_dec h 51000); [left; split; [lra|reflexivity]|right].
  destruct (Rle_dec h 71000); [left; split; [lra|reflexivity]|right].
  destruct (Rle_dec h 80000); [left; split; [lra|reflexivity]|right].
  split; [lra|reflexivity].
Qed.

Ltac isa_split h := let B := fresh "B" in let E := fresh "E" in let C := fresh in
  pose proof (isa_cases h) as C; repeat (destruct C as [[B E]|C]; [|]); try destruct C as [B E].

(** The temperature and pressure formulas of layer i: base (H, T, rho), gradient L. *)
Definition layer_T (H T L h : R) : R := T + L * (h - H).
Definition layer_p (H T rho L h : R) : R :=
  if Reqb L 0 then rho * (isa_R_Star / isa_air_molar_mass) * T * exp (- isa_g_0 / (isa_R * layer_T H T L h) * (h - H))
  else rho * (isa_R_Star / isa_air_molar_mass) * T * Rpower (1 + L / T * (h - H)) (- isa_g_0 / (isa_R * L)).

Lemma isa_layer h i H T rho L g :
  isa_base_index (Alt h) = Val i -> isa_gradient_index i = Some g ->
  nth_error isa_altitudes i = Some H -> nth_error isa_temperatures i = Some T ->
  nth_error isa_densities i = Some rho -> nth_error isa_gradients g = Some L ->
  0 < T -> 0 < layer_T H T L h ->
  isa_temperature h = Val (layer_T H T L h) /\ isa_pressure h = Val (layer_p H T rho L h).
Proof.
  intros Ei Eg EH ET Er EL HT Hp.
  assert (isa_temperature h = Val (layer_T H T L h)) as Et.
  { unfold isa_temperature. rewrite Ei. cbn [obind]. rewrite Eg. unfold index. rewrite ET, EL, EH. reflexivity. }
  split; [exact Et|].
  unfold isa_pressure. rewrite Ei. cbn [obind]. rewrite Eg.
  assert (isa_base_pressure h = Val (rho * (isa_R_Star / isa_air_molar_mass) * T)) as Ep.
  { unfold isa_base_pressure, isa_base_density, isa_base_temperature. rewrite Ei. cbn [obind]. unfold index. rewrite ET, Er. reflexivity. }
  rewrite Ep, Et. unfold index. rewrite ET, EL, EH. cbn [obind]. unfold layer_p.
  destruct (Reqb L 0); cbn [negb]; [reflexivity|].
  unfold powf. assert (0 < 1 + L / T * (h - H)) as Hb.
  { replace (1 + L / T * (h - H)) with (layer_T H T L h / T) by (unfold layer_T; field; lra).
    apply Rdiv_lt_0_compat; assumption. }
  rewrite (proj2 (Rltb_true _ _) Hb). reflexivity.
Qed.

Lemma gas_pos : 0 < isa_R_Star / isa_air_molar_mass.
Proof. unfold isa_R_Star, isa_air_molar_mass. lra. Qed.
Lemma layer_p_pos H T rho L h : 0 < T -> 0 < rho -> 0 < layer_p H T rho L h.
Proof.
  intros HT Hr. unfold layer_p. pose proof gas_pos. destruct (Reqb L 0); (apply Rmult_lt_0_compat;
    [apply Rmult_lt_0_compat; [apply Rmult_lt_0_compat; assumption|assumption]|]).
  - apply exp_pos. - apply exp_pos.
Qed.

(** All the layers at once. *)
Lemma isa_all h : h <= 80000 -> exists H T rho L,
  isa_temperature h = Val (layer_T H T L h) /\ isa_pressure h = Val (layer_p H T rho L h) /\
  0 < T /\ 0 < rho /\ 0 < layer_T H T L h.
Proof.
  intros Hh.
  isa_split h; try lra;
  do 4 eexists;
  (match goal with |- _ /\ _ /\ ?c => enough c as K; [destruct K as (K1 & K2 & K3);
     destruct (isa_layer h _ _ _ _ _ _ E eq_refl eq_refl eq_refl eq_refl eq_refl K1 K3) as [A1 A2];
     split; [exact A1|split; [exact A2|split; [exact K1|split; [exact K2|exact K3]]]]|] end);
  unfold layer_T; repeat split; lra.
Qed.

(** For every argument the three lookups return a value or an error, and a value exactly for the
    reals up to 80 km. *)
Theorem C57_isa_never_fails : forall h,
  safe (isa_temperature_at h) /\ safe (isa_pressure_at h) /\ safe (isa_density_at h).
Proof.
  intros [h|]; [|repeat split].
  cbn [isa_temperature_at isa_pressure_at isa_density_at]. destruct (Rle_dec h 80000) as [L|L].
  - destruct (isa_all h L) as (H & T & rho & G & E1 & E2 & _). unfold isa_density. rewrite E1, E2. repeat split.
  - isa_split h; try lra.
    unfold isa_density, isa_pressure, isa_temperature. rewrite E. repeat split.
Qed.

Theorem C57_isa_physical : forall h, h <= 80000 ->
  physical (8314.32 / 28.96442) (isa_temperature h) (isa_pressure h) (isa_density h).
Proof.
  intros h Hh. replace (8314.32 / 28.96442) with (isa_R_Star / isa_air_molar_mass) by (unfold isa_R_Star, isa_air_molar_mass; lra).
  destruct (isa_all h Hh) as (H & T & rho & L & E1 & E2 & P1 & P2 & P3).
  exists (layer_T H T L h), (layer_p H T rho L h), (layer_p H T rho L h / (isa_R_Star / isa_air_molar_mass * layer_T H T L h)).
  pose proof gas_pos. pose proof (layer_p_pos H T rho L h P1 P2).
  split; [exact E1|]. split; [exact E2|]. split; [unfold isa_density; rewrite E1, E2; reflexivity|].
  split; [exact P3|]. split; [assumption|]. split; [apply Rdiv_lt_0_compat; [assumption|apply Rmult_lt_0_compat; assumption]|].
  set (k := isa_R_Star / isa_air_molar_mass) in *. set (t := layer_T H T L h) in *. set (p := layer_p H T rho L h) in *.
  clearbody k t p. field. split; lra.
Qed.

(** above the table, and for NaN, the answer is an error *)
Theorem C57_isa_nan_is_error :
  isa_temperature_at NaNalt = Error /\ isa_pressure_at NaNalt = Error /\ isa_density_at NaNalt = Error.
Proof. repeat split. Qed.
Theorem C57_isa_above_is_error : forall h, 80000 < h ->
  isa_temperature h = Error /\ isa_pressure h = Error /\ isa_density h = Error.
Proof.
  intros h Hh.
  isa_split h; try lra.
  unfold isa_density, isa_pressure, isa_temperature. rewrite E. repeat split.
Qed.

(** Between consecutive rows of the published table the temperature is the straight line through
    them (so it matches the table at every boundary); below the first row it continues at -6.5 K/km. *)
Theorem C57_isa_temperature_profile : forall i p q h,
  nth_error icao_table i = Some p -> nth_error icao_table (S i) = Some q ->
  fst p <= h <= fst q -> isa_temperature h = Val (line p q h).
Proof.
  intros i p q h Hp Hq Hh.
  assert (forall k H T rho L g, isa_base_index (Alt h) = Val k -> isa_gradient_index k = Some g ->
    nth_error isa_altitudes k = Some H -> nth_error isa_temperatures k = Some T ->
    nth_error isa_densities k = Some rho -> nth_error isa_gradients g = Some L ->
    layer_T H T L h = line p q h -> isa_temperature h = Val (line p q h)) as A.
  { intros k H T rho L g Ei Eg EH ET Er EL <-. unfold isa_temperature. rewrite Ei. cbn [obind]. rewrite Eg.
    unfold index. rewrite ET, EL, EH. reflexivity. }
  do 8 (destruct i as [|i]; [cbn in Hp, Hq; injection Hp as <-; injection Hq as <-; cbn [fst] in Hh;
    isa_split h; try lra;
    (eapply A; [exact E|reflexivity|reflexivity|reflexivity|reflexivity|reflexivity|];
     unfold layer_T, line; cbn [fst snd]; lra)|]).
  cbn in Hq. destruct i; discriminate.
Qed.

Theorem C57_isa_temperature_below : forall h, h <= -5000 -> isa_temperature h = Val (320.65 - 6.5 / 1000 * (h + 5000)).
Proof.
  intros h Hh.
  isa_split h; try lra.
  unfold isa_temperature. rewrite E. cbn. f_equal. lra.
Qed.

Lemma line_cont p q x : continuous (line p q) x.
Proof.
  apply (ex_derive_continuous (line p q) x). unfold line, Rdiv. auto_derive. exact I.
Qed.

Lemma line_ends p q : fst p < fst q -> line p q (fst p) = snd p /\ line p q (fst q) = snd q.
Proof. intros H. unfold line. split; field; lra. Qed.

(** continuity at every altitude below the top of the table *)
Theorem C57_isa_temperature_continuous : forall h, h < 80000 -> continuous (value_of isa_temperature) h.
Proof.
  intros h Hh.
  assert (forall i p q y, nth_error icao_table i = Some p -> nth_error icao_table (S i) = Some q ->
    fst p <= y <= fst q -> value_of isa_temperature y = line p q y) as V.
  { intros i p q y H1 H2 H3. unfold value_of. rewrite (C57_isa_temperature_profile i p q y H1 H2 H3). reflexivity. }
  set (f0 := fun y => 320.65 - 6.5 / 1000 * (y + 5000)).
  assert (forall y, y <= -5000 -> value_of isa_temperature y = f0 y) as V0.
  { intros y Hy. unfold value_of. rewrite (C57_isa_temperature_below y Hy). reflexivity. }
  assert (forall y, continuous f0 y) as C0.
  { intros y. apply (ex_derive_continuous f0 y). unfold f0. auto_derive. exact I. }
  assert (forall i p q, nth_error icao_table i = Some p -> nth_error icao_table (S i) = Some q ->
    fst p < h < fst q -> continuous (value_of isa_temperature) h) as Inner.
  { intros i p q H1 H2 H3. apply (glue_cont (line p q) (line p q) _ h (h - fst p) (fst q - h)); try lra; try apply line_cont;
      intros y Hy; apply (V i p q y H1 H2); lra. }
  assert (forall i p q r, nth_error icao_table i = Some p -> nth_error icao_table (S i) = Some q ->
    nth_error icao_table (S (S i)) = Some r -> fst p < fst q -> fst q < fst r -> h = fst q ->
    continuous (value_of isa_temperature) h) as Knot.
  { intros i p q r H1 H2 H3 L1 L2 ->. apply (glue_cont (line p q) (line q r) _ (fst q) (fst q - fst p) (fst r - fst q)); try lra; try apply line_cont.
    - intros y Hy. apply (V i p q y H1 H2). lra.
    - intros y Hy. apply (V (S i) q r y H2 H3). lra. }
  destruct (Rlt_dec h (-5000)) as [L|L0].
  { apply (glue_cont f0 f0 _ h 1 (-5000 - h)); try lra; auto; intros y Hy; apply V0; lra. }
  destruct (Req_dec h (-5000)) as [->|N0].
  { apply (glue_cont f0 (line (-5000, 320.65) (0, 288.15)) _ (-5000) 1 5000); try lra; auto; [intros; apply V0; lra| |apply line_cont].
    intros y Hy. apply (V 0%nat); [reflexivity|reflexivity|cbn; lra]. }
  destruct (Rlt_dec h 0); [apply (Inner 0%nat _ _ eq_refl eq_refl); cbn; lra|].
  destruct (Req_dec h 0); [apply (Knot 0%nat _ _ _ eq_refl eq_refl eq_refl); cbn; lra|].
  destruct (Rlt_dec h 11000); [apply (Inner 1%nat _ _ eq_refl eq_refl); cbn; lra|].
  destruct (Req_dec h 11000); [apply (Knot 1%nat _ _ _ eq_refl eq_refl eq_refl); cbn; lra|].
  destruct (Rlt_dec h 20000); [apply (Inner 2%nat _ _ eq_refl eq_refl); cbn; lra|].
  destruct (Req_dec h 20000); [apply (Knot 2%nat _ _ _ eq_refl eq_refl eq_refl); cbn; lra|].
  destruct (Rlt_dec h 32000); [apply (Inner 3%nat _ _ eq_refl eq_refl); cbn; lra|].
  destruct (Req_dec h 32000); [apply (Knot 3%nat _ _ _ eq_refl eq_refl eq_refl); cbn; lra|].
  destruct (Rlt_dec h 47000); [apply (Inner 4%nat _ _ eq_refl eq_refl); cbn; lra|].
  destruct (Req_dec h 47000); [apply (Knot 4%nat _ _ _ eq_refl eq_refl eq_refl); cbn; lra|].
  destruct (Rlt_dec h 51000); [apply (Inner 5%nat _ _ eq_refl eq_refl); cbn; lra|].
  destruct (Req_dec h 51000); [apply (Knot 5%nat _ _ _ eq_refl eq_refl eq_refl); cbn; lra|].
  destruct (Rlt_dec h 71000); [apply (Inner 6%nat _ _ eq_refl eq_refl); cbn; lra|].
  destruct (Req_dec h 71000); [apply (Knot 6%nat _ _ _ eq_refl eq_refl eq_refl); cbn; lra|].
  apply (Inner 7%nat _ _ eq_refl eq_refl); cbn; lra.
Qed.

Example C57_nontrivial : isa_temperature 5500 = Val 252.4 /\ isa_temperature 11000 = Val 216.65 /\ isa_temperature 80001 = Error.
Proof.
  split; [|split].
  - rewrite (C57_isa_temperature_profile 1 (0, 288.15) (11000, 216.65) 5500 eq_refl eq_refl); [|cbn; lra].
    f_equal. unfold line; cbn [fst snd]. lra.
  - rewrite (C57_isa_temperature_profile 1 (0, 288.15) (11000, 216.65) 11000 eq_refl eq_refl); [|cbn; lra].
    f_equal. unfold line; cbn [fst snd]. lra.
  - apply C57_isa_above_is_error. lra.
Qed.

(** ** Altitude conversions (C59) *)
Theorem C59_inverse : forall h,
  (h <> - isa_radius -> isa_geometric_altitude (isa_geopotential_altitude h) = h) /\
  (h <> isa_radius -> isa_geopotential_altitude (isa_geometric_altitude h) = h).
Proof.
  intros h. unfold isa_geometric_altitude, isa_geopotential_altitude. assert (0 < isa_radius) by (unfold isa_radius; lra).
  set (r := isa_radius) in *. clearbody r. split; intros Hn.
  - assert (r + h <> 0) by lra. field. split; [assumption|].
    replace (r * (r + h) - r * h) with (r * r) by ring. apply Rmult_integral_contrapositive_currified; lra.
  - assert (r - h <> 0) by lra. field. split; [assumption|].
    replace (r * (r - h) + r * h) with (r * r) by ring. apply Rmult_integral_contrapositive_currified; lra.
Qed.

Theorem C59_increasing : forall h k, h < k ->
  (- isa_radius < h -> isa_geopotential_altitude h < isa_geopotential_altitude k) /\
  (k < isa_radius -> isa_geometric_altitude h < isa_geometric_altitude k).
Proof.
  intros h k L. unfold isa_geometric_altitude, isa_geopotential_altitude. assert (0 < isa_radius) by (unfold isa_radius; lra).
  set (r := isa_radius) in *. clearbody r. split; intros Hn; apply Rminus_gt_0_lt.
  - replace (r * k / (r + k) - r * h / (r + h)) with (r * r * (k - h) / ((r + k) * (r + h))) by (field; lra).
    apply Rdiv_lt_0_compat; repeat apply Rmult_lt_0_compat; lra.
  - replace (r * k / (r - k) - r * h / (r - h)) with (r * r * (k - h) / ((r - k) * (r - h))) by (field; lra).
    apply Rdiv_lt_0_compat; repeat apply Rmult_lt_0_compat; lra.
Qed.

(** Geopotential altitude is the work against gravity: its derivative is g(h)/g_0, and it vanishes
    at sea level. *)
Theorem C59_geopotential_is_work_against_gravity :
  isa_geopotential_altitude 0 = 0 /\
  forall h, h <> - isa_radius -> is_derive isa_geopotential_altitude h (isa_gravity h / isa_g_0).
Proof.
  split; [unfold isa_geopotential_altitude; rewrite Rmult_0_r; unfold Rdiv; apply Rmult_0_l|].
  intros h Hn. unfold isa_geopotential_altitude, isa_gravity, powf2. assert (0 < isa_g_0) by (unfold isa_g_0; lra).
  set (r := isa_radius) in *. clearbody r. auto_derive; [lra|]. field. split; lra.
Qed.
Example C59_nontrivial : isa_geopotential_altitude 6356766 = 3178383 /\ isa_geometric_altitude 3178383 = 6356766.
Proof. unfold isa_geopotential_altitude, isa_geometric_altitude, isa_radius. split; lra. Qed.

(** ** Hydrostatic equilibrium (C87) *)
Lemma layer_hydrostatic H T rho L h : 0 < T -> 0 < layer_T H T L h ->
  hydrostatic isa_g_0 isa_R (layer_p H T rho L) (layer_T H T L) h.
Proof.
  intros HT Hp. unfold hydrostatic, layer_p. unfold Reqb. assert (0 < isa_R) as HR by (unfold isa_R; lra).
  set (k := rho * (isa_R_Star / isa_air_molar_mass) * T). clearbody k.
  set (g := isa_g_0). set (r := isa_R) in *. clearbody g r.
  destruct (Req_EM_T L 0) as [->|N].
  - assert (forall x, layer_T H T 0 x = T) as ET by (intros; unfold layer_T; ring). rewrite ET in *.
    apply (is_derive_ext (fun x => k * exp (- g / (r * T) * (x - H)))); [intros t; rewrite ET; reflexivity|].
    auto_derive; [exact I|]. rewrite <- ?Rminus_def. unfold Rminus. set (e := exp _). clearbody e. field. split; lra.
  - assert (0 < 1 + L / T * (h - H)) as Hb.
    { replace (1 + L / T * (h - H)) with (layer_T H T L h / T) by (unfold layer_T; field; lra). apply Rdiv_lt_0_compat; assumption. }
    unfold Rpower. unfold layer_T in *. auto_derive; [exact Hb|].
    set (e := exp _). field. repeat split; lra.
Qed.

Lemma isa_hydrostatic : forall h, h < 80000 -> ~ In h (map fst icao_table) ->
  hydrostatic isa_g_0 isa_R (value_of isa_pressure) (value_of isa_temperature) h.
Proof.
  intros h Hh Hn. cbn [map fst icao_table In] in Hn.
  assert (forall i H T rho L g lo hi, lo < h < hi ->
    (forall y, lo < y < hi -> isa_base_index (Alt y) = Val i) -> isa_gradient_index i = Some g ->
    nth_error isa_altitudes i = Some H -> nth_error isa_temperatures i = Some T ->
    nth_error isa_densities i = Some rho -> nth_error isa_gradients g = Some L ->
    0 < T -> (forall y, lo < y < hi -> 0 < layer_T H T L y) ->
    hydrostatic isa_g_0 isa_R (value_of isa_pressure) (value_of isa_temperature) h) as A.
  { intros i H T rho L g lo hi Hb Ei Eg EH ET Er EL HT Hp.
    assert (forall y, lo < y < hi -> value_of isa_temperature y = layer_T H T L y /\ value_of isa_pressure y = layer_p H T rho L y) as V.
    { intros y Hy. unfold value_of. destruct (isa_layer y i H T rho L g (Ei y Hy) Eg EH ET Er EL HT (Hp y Hy)) as [-> ->]. split; reflexivity. }
    unfold hydrostatic. destruct (V h Hb) as [-> ->].
    apply (glue_derive (layer_p H T rho L) (layer_p H T rho L) _ h _ ((h - lo) / 2) ((hi - h) / 2)); try lra;
      try (intros y Hy; apply V; lra); apply layer_hydrostatic; auto. }
  Ltac layer A lo hi := match goal with E : isa_base_index (Alt ?h) = Val ?i |- _ =>
    eapply (A i _ _ _ _ _ lo hi) end; [lra|intros y Hy; isa_split y; try lra; assumption|reflexivity|reflexivity|reflexivity|reflexivity|reflexivity|
      lra|intros y Hy; unfold layer_T; lra].
  isa_split h; try lra.
  - layer A (h - 1) (-5000). 
  - layer A (-5000) 0.
  - layer A 0 11000.
  - layer A 11000 20000.
  - layer A 20000 32000.
  - layer A 32000 47000.
  - layer A 47000 51000.
  - layer A 51000 71000.
  - layer A 71000 80000.
Qed.

(** Inside every layer the pressure satisfies the hydrostatic equation, with standard gravity and the gas constant of air. *)
Theorem C87_isa_hydrostatic : forall h, h < 80000 -> ~ In h (map fst icao_table) ->
  hydrostatic 9.80665 287.05287 (value_of isa_pressure) (value_of isa_temperature) h.
Proof.
  intros h Hh Hn. pose proof (isa_hydrostatic h Hh Hn) as D. replace isa_g_0 with 9.80665 in D by (unfold isa_g_0; lra).
  replace isa_R with 287.05287 in D by (unfold isa_R; lra). exact D.
Qed.

(** ICAO Doc 7488: density at the base of each layer *)
Definition icao_densities : list (R * R) :=
  [(-5000, 1.93047); (0, 1.225); (11000, 0.363918); (20000, 0.0880345); (32000, 0.0132249);
   (47000, 0.00142752); (51000, 0.0008616); (71000, 0.0000642105); (80000, 0.0000157004)].
(** At the tabulated altitudes the density is the tabulated one. *)
Lemma isa_density_table : forall i h rho,
  nth_error isa_altitudes i = Some h -> nth_error isa_densities i = Some rho -> isa_density h = Val rho.
Proof.
  intros i h rho Hh Hr.
  assert (forall H T L g, isa_base_index (Alt h) = Val i -> isa_gradient_index i = Some g ->
    nth_error isa_altitudes i = Some H -> nth_error isa_temperatures i = Some T ->
    nth_error isa_gradients g = Some L -> 0 < T -> isa_density h = Val rho) as A.
  { intros H T L g Ei Eg EH ET EL HT. rewrite EH in Hh. injection Hh as ->.
    assert (layer_T h T L h = T) as E0 by (unfold layer_T; ring).
    destruct (isa_layer h i h T rho L g Ei Eg EH ET Hr EL HT) as [E1 E2]; [rewrite E0; exact HT|].
    unfold isa_density. rewrite E1, E2. cbn [obind]. f_equal. rewrite E0.
    assert (layer_p h T rho L h = rho * (isa_R_Star / isa_air_molar_mass) * T) as ->.
    { unfold layer_p. destruct (Reqb L 0); rewrite Rminus_diag_eq, Rmult_0_r by reflexivity.
      - rewrite exp_0. ring. - rewrite Rplus_0_r. unfold Rpower. rewrite ln_1, Rmult_0_r, exp_0. ring. }
    pose proof gas_pos. set (k := isa_R_Star / isa_air_molar_mass) in *. clearbody k. field. split; lra. }
  do 9 (destruct i as [|i]; [cbn in Hh; injection Hh as Eh; isa_split h; try lra;
    eapply A; [assumption|reflexivity|reflexivity|reflexivity|reflexivity|lra]|]).
  destruct i; discriminate.
Qed.
Theorem C87_isa_density_table : forall h rho, In (h, rho) icao_densities -> isa_density h = Val rho.
Proof.
  intros h rho H. cbn [In icao_densities] in H.
  repeat match type of H with _ \/ _ => destruct H as [H|H] end; try contradiction; injection H as <- <-;
    [pose proof (isa_density_table 0 _ _ eq_refl eq_refl) as K|pose proof (isa_density_table 1 _ _ eq_refl eq_refl) as K
    |pose proof (isa_density_table 2 _ _ eq_refl eq_refl) as K|pose proof (isa_density_table 3 _ _ eq_refl eq_refl) as K
    |pose proof (isa_density_table 4 _ _ eq_refl eq_refl) as K|pose proof (isa_density_table 5 _ _ eq_refl eq_refl) as K
    |pose proof (isa_density_table 6 _ _ eq_refl eq_refl) as K|pose proof (isa_density_table 7 _ _ eq_refl eq_refl) as K
    |pose proof (isa_density_table 8 _ _ eq_refl eq_refl) as K]; rewrite K; f_equal; lra.
Qed.
(** At sea level: standard gravity, 288.15 K, 1.225 kg/m3, and standard pressure to within 0.01 Pa. *)
Theorem C87_isa_sea_level : isa_gravity 0 = 9.80665 /\ isa_temperature 0 = Val 288.15 /\ isa_density 0 = Val 1.225 /\
  exists p, isa_pressure 0 = Val p /\ Rabs (p - 101325) <= 1 / 100.
Proof.
  split; [unfold isa_gravity, isa_g_0, isa_radius, powf2; lra|].
  assert (T : isa_temperature 0 = Val 288.15) by (rewrite (C57_isa_temperature_profile 1 _ _ 0 eq_refl eq_refl) by (cbn; lra); f_equal; unfold line; cbn [fst snd]; lra).
  assert (D : isa_density 0 = Val 1.225) by (apply C87_isa_density_table; cbn; auto).
  split; [exact T|]. split; [exact D|]. destruct (C57_isa_physical 0 ltac:(lra)) as (t & p & d & Et & Ep & Ed & _ & _ & _ & E).
  rewrite T in Et. rewrite D in Ed. injection Et as <-. injection Ed as <-. exists p. split; [exact Ep|]. apply Rabs_le. lra.
Qed.
Example C87_nontrivial : isa_density 11000 = Val 0.363918 /\
  hydrostatic 9.80665 287.05287 (value_of isa_pressure) (value_of isa_temperature) 5500.
Proof.
  split; [apply C87_isa_density_table; cbn; auto|].
  apply C87_isa_hydrostatic; [lra|]. cbn. lra.
Qed.
