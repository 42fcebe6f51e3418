(** Properties C18-C21 and C75 (crates/aether_rand).  [state_after seed k] is the state of
    a generator created from [seed] after [k] draws, [draw seed k] the word returned by
    its draw number [k] (counting from 0). *)
From Coq Require Import NArith ZArith Reals Lra Lia Bool List.
From Flocq Require Import Core.
From Verif Require Import RandModel RandProofs Floats RandRealModel.
Open Scope N_scope.

(** *** C18 *)
Theorem C18_state_never_zero : forall seed k,
  seed < 2 ^ 64 -> 0 < state_after seed k < 2 ^ 64.
Proof.
  intros seed k H. destruct (rng_new_ok seed H) as [A B].
  pose proof (iter_nonzero _ k A B). pose proof (iterN_lt64 k _ A) as L.
  unfold state_after. unfold lt64 in L. lia.
Qed.

Theorem C18_step_is_permutation :
  (forall a b, a < 2 ^ 64 -> b < 2 ^ 64 -> fst (next_u64 a) = fst (next_u64 b) -> a = b) /\
  (forall y, 0 < y < 2 ^ 64 -> exists x, 0 < x < 2 ^ 64 /\ fst (next_u64 x) = y).
Proof.
  split.
  - intros a b A B E. apply step_inj; auto.
  - intros y [Y1 Y2].
    assert (lt64 y) as Ly by exact Y2.
    exists (N.iter (18446744073709551614) rng_step y).
    pose proof (iterN_lt64 18446744073709551614 y Ly) as L.
    pose proof (iter_nonzero y 18446744073709551614 Ly ltac:(lia)) as Z0.
    unfold lt64 in L. split; [split; [apply N.neq_0_lt_0; exact Z0|exact L]|].
    cbn [next_u64 fst]. change (fst (next_u64 ?x)) with (rng_step x).
    rewrite <- N.iter_succ. exact (iterN_period y Ly).
Qed.

Example C18_nontrivial : state_after 0 1 = 285734347287933762 /\ state_after 1 1 = 33554433.
Proof. vm_compute. auto. Qed.

(** *** C19 *)
Theorem C19_period_exact : forall seed k, seed < 2 ^ 64 ->
  (state_after seed k = state_after seed 0 <-> N.divide (2 ^ 64 - 1) k).
Proof.
  intros seed k H. destruct (rng_new_ok seed H) as [A B].
  change (2 ^ 64 - 1) with (Npos PERIOD). unfold state_after.
  rewrite iterN_0. apply period_exact; auto.
Qed.

Theorem C19_states_distinct : forall seed i j, seed < 2 ^ 64 ->
  i < 2 ^ 64 - 1 -> j < 2 ^ 64 - 1 -> state_after seed i = state_after seed j -> i = j.
Proof.
  intros seed i j H Hi Hj E. destruct (rng_new_ok seed H) as [A B].
  apply (states_distinct (rng_new seed)); auto.
Qed.

Lemma draw_eq seed k : draw seed k = rng_output (N.iter (N.succ k) rng_step (rng_new seed)).
Proof. unfold draw, next_u64, state_after. cbn [snd]. rewrite N.iter_succ. reflexivity. Qed.

Theorem C19_every_output_once : forall seed y, seed < 2 ^ 64 -> 0 < y < 2 ^ 64 ->
  exists! k, k < 2 ^ 64 - 1 /\ draw seed k = y.
Proof.
  intros seed y H [Y1 Y2]. destruct (rng_new_ok seed H) as [A B].
  destruct (output_surj y Y2) as (w & W1 & W2).
  assert (w <> 0) as Wz.
  { intros ->. unfold rng_output in W2. rewrite N.mul_0_l in W2. vm_compute in W2. lia. }
  set (v1 := rng_step (rng_new seed)).
  assert (lt64 v1) as V1 by (apply step_lt64; auto).
  assert (v1 <> 0) as V2.
  { intros E. apply B. apply step_inj; auto. unfold lt64; reflexivity. }
  assert (forall k, draw seed k = rng_output (N.iter k rng_step v1)) as D.
  { intros k. rewrite draw_eq, N.iter_succ_r. reflexivity. }
  destruct (states_cover v1 w V1 V2 W1 Wz) as (k & K1 & K2).
  exists k. split.
  - split; [exact K1|]. rewrite D, K2. exact W2.
  - intros k' [K1' K2']. rewrite D in K2'.
    apply (states_distinct v1); auto. rewrite K2.
    apply output_inj; auto; [|congruence]. apply iterN_lt64; auto.
Qed.

Theorem C19_zero_never_output : forall seed k, seed < 2 ^ 64 -> 0 < draw seed k < 2 ^ 64.
Proof.
  intros seed k H. destruct (rng_new_ok seed H) as [A B]. rewrite draw_eq.
  set (s := N.iter (N.succ k) rng_step (rng_new seed)).
  assert (lt64 s) as L by (apply iterN_lt64; auto).
  split; [|apply output_lt64].
  destruct (N.eq_dec (rng_output s) 0) as [E|E]; [|apply N.neq_0_lt_0; exact E].
  exfalso. apply (iter_nonzero _ (N.succ k) A B). fold s.
  rewrite <- (output_inv s L), E. reflexivity.
Qed.

Example C19_nontrivial : draw 1 0 = 5180492295206395165 /\ draw 42 2 = 14575455857230217846.
Proof. vm_compute. auto. Qed.

(** *** C20 *)
Open Scope R_scope.
Lemma numerator_bound x : (0 <= Z.of_N (next_numerator x) < 2 ^ 53)%Z.
Proof.
  unfold next_numerator, next_u64. cbn [snd].
  pose proof (output_lt64 (rng_step x)) as L. unfold lt64 in L.
  split; [apply N2Z.is_nonneg|].
  rewrite N.shiftr_div_pow2.
  assert (rng_output (rng_step x) / 2 ^ 11 < 2 ^ 53)%N as H.
  { apply N.div_lt_upper_bound; [discriminate|]. exact L. }
  change (2 ^ 53)%Z with (Z.of_N (2 ^ 53)). apply N2Z.inj_lt. exact H.
Qed.

Lemma next_real_f64_eq x :
  next_real_f64 x = IZR (Z.of_N (next_numerator x)) / IZR (2 ^ 53).
Proof.
  unfold next_real_f64. pose proof (numerator_bound x) as B.
  set (k := Z.of_N (next_numerator x)) in *.
  replace (IZR k) with (IZR k * bpow radix2 0) at 1 by (cbn [bpow]; lra).
  rewrite f64_exact by lia. replace (IZR k * bpow radix2 0) with (IZR k) by (cbn [bpow]; lra).
  replace (IZR k / IZR (2 ^ 53)) with (IZR k * bpow radix2 (-53)).
  - apply f64_exact; lia.
  - cbn [bpow]. unfold Rdiv. do 2 f_equal.
Qed.

Theorem C20_f64_in_unit_interval : forall x, 0 <= next_real_f64 x < 1.
Proof.
  intros x. rewrite next_real_f64_eq. pose proof (numerator_bound x) as [B1 B2].
  apply IZR_le in B1. apply IZR_lt in B2.
  set (k := IZR (Z.of_N (next_numerator x))) in *.
  assert (0 < IZR (2 ^ 53)) by (apply IZR_lt; lia).
  split.
  - apply Rmult_le_pos; [exact B1|]. left. apply Rinv_0_lt_compat; auto.
  - apply Rmult_lt_reg_r with (IZR (2 ^ 53)); auto. unfold Rdiv.
    rewrite Rmult_assoc, Rinv_l by lra. lra.
Qed.

(* the value is exactly k/2^53, k the top 53 bits of the word *)
Theorem C20_f64_exact : forall x,
  next_real_f64 x = IZR (Z.of_N (snd (next_u64 x)) / 2 ^ 11) / IZR (2 ^ 53).
Proof.
  intros x. rewrite next_real_f64_eq. unfold next_numerator. rewrite N.shiftr_div_pow2.
  rewrite N2Z.inj_div. reflexivity.
Qed.

(* what remains true of f32: the closed interval *)
Theorem C20_f32_closed_interval_partial : forall x, 0 <= next_real_f32 x <= 1.
Proof.
  intros x. pose proof (C20_f64_in_unit_interval x) as [A B]. unfold next_real_f32.
  rewrite <- f32_0 at 1. rewrite <- f32_1. split; apply f32_le; lra.
Qed.

Lemma f32_near_one (k : Z) : (2 ^ 53 - 2 ^ 28 <= k < 2 ^ 53)%Z ->
  f32 (IZR k / IZR (2 ^ 53)) = 1.
Proof.
  intros [K1 K2].
  assert (f32 (IZR (2 ^ 53 - 2 ^ 28) / IZR (2 ^ 53)) = 1) as E.
  { unfold f32, round, F2R, scaled_mantissa, cexp.
    assert (IZR (2 ^ 53 - 2 ^ 28) / IZR (2 ^ 53) = 1 - / 33554432) as V.
    { change (2 ^ 53 - 2 ^ 28)%Z with 9007198986305536%Z. change (2 ^ 53)%Z with 9007199254740992%Z. field. }
    rewrite V.
    rewrite (mag_unique radix2 _ 0) by (cbn; rewrite Rabs_pos_eq; lra).
    change (fexp32 0) with (-24)%Z. cbn [Fnum Fexp].
    assert ((1 - / 33554432) * bpow radix2 (- (-24)) = IZR 16777215 + / 2) as ->.
    { cbn [bpow Z.opp]. change (Z.pow_pos radix2 24) with 16777216%Z. field. }
    unfold Znearest.
    assert (Zfloor (IZR 16777215 + / 2) = 16777215%Z) as F.
    { apply Zfloor_imp. rewrite plus_IZR. lra. }
    rewrite F. rewrite Rcompare_Eq by lra.
    change (negb (Z.even 16777215)) with true.
    assert (Zceil (IZR 16777215 + / 2) = 16777216%Z) as ->.
    { apply Zceil_imp. change (16777216 - 1)%Z with 16777215%Z. lra. }
    cbn [bpow Z.opp]. change (Z.pow_pos radix2 24) with 16777216%Z. field. }
  apply Rle_antisym.
  - rewrite <- f32_1. apply f32_le. apply IZR_lt in K2.
    assert (0 < IZR (2 ^ 53)) by (apply IZR_lt; lia).
    apply Rmult_le_reg_r with (IZR (2 ^ 53)); auto. unfold Rdiv.
    rewrite Rmult_assoc, Rinv_l by lra. lra.
  - rewrite <- E. apply f32_le. apply IZR_le in K1.
    assert (0 < IZR (2 ^ 53)) by (apply IZR_lt; lia).
    apply Rmult_le_compat_r; auto. left. apply Rinv_0_lt_compat; auto.
Qed.

(* exactly which draws reach one in f32: those whose top 53 bits are >= 2^53 - 2^28 *)
Theorem C20_f32_one_iff_partial : forall x,
  next_real_f32 x = 1 <-> (2 ^ 53 - 2 ^ 28 <= Z.of_N (next_numerator x))%Z.
Proof.
  intros x. pose proof (numerator_bound x) as [B1 B2].
  unfold next_real_f32. rewrite next_real_f64_eq.
  set (k := Z.of_N (next_numerator x)) in *. split.
  - intros E. destruct (Z.le_gt_cases (2 ^ 53 - 2 ^ 28) k) as [L|L]; [exact L|]. exfalso.
    assert (f32 (IZR 9007198986305535 / IZR (2 ^ 53)) < 1) as F.
    { unfold f32, round, F2R, scaled_mantissa, cexp.
      change (2 ^ 53)%Z with 9007199254740992%Z.
      rewrite (mag_unique radix2 _ 0) by (cbn; rewrite Rabs_pos_eq; lra).
      change (fexp32 0) with (-24)%Z. cbn [Fnum Fexp].
      rewrite (Znearest_imp _ _ 16777215).
      + cbn [bpow]. change (Z.pow_pos radix2 24) with 16777216%Z. lra.
      + cbn [bpow Z.opp]. change (Z.pow_pos radix2 24) with 16777216%Z.
        rewrite Rabs_pos_eq; lra. }
    assert (IZR k / IZR (2 ^ 53) <= IZR 9007198986305535 / IZR (2 ^ 53)) as G.
    { apply Rmult_le_compat_r; [left; apply Rinv_0_lt_compat, IZR_lt; lia|].
      apply IZR_le. change (2 ^ 53 - 2 ^ 28)%Z with 9007198986305536%Z in L. lia. }
    apply f32_le in G. lra.
  - intros L. apply f32_near_one. lia.
Qed.

(* a seed whose very first f32 draw is exactly 1 *)
Theorem C20_f32_below_one_refuted : exists seed, (seed < 2 ^ 64)%N /\
  next_real_f32 (rng_new seed) = 1.
Proof.
  exists 8878570337283525969%N. split; [reflexivity|].
  unfold next_real_f32. rewrite next_real_f64_eq. apply f32_near_one.
  assert (next_numerator (rng_new 8878570337283525969) = 9007199254740991)%N as -> by reflexivity.
  cbn. lia.
Qed.

(* and every seed reaches such a draw *)
Theorem C20_f32_every_stream_refuted : forall seed, (seed < 2 ^ 64)%N ->
  exists k, next_real_f32 (state_after seed k) = 1.
Proof.
  intros seed H.
  destruct (C19_every_output_once seed 18446744073709549568 H ltac:(split; reflexivity))
    as (k & [_ K] & _).
  exists k. unfold next_real_f32. rewrite next_real_f64_eq. apply f32_near_one.
  unfold next_numerator. change (snd (next_u64 (state_after seed k))) with (draw seed k).
  rewrite K. change (N.shiftr 18446744073709549568 11) with 9007199254740991%N. cbn. lia.
Qed.

Example C20_nontrivial : next_numerator (rng_new 1) = 2529537253518747%N.
Proof. reflexivity. Qed.

(** *** C21 *)
Open Scope N_scope.
Theorem C21_streams_stay_apart : forall a b k,
  0 < a < 2 ^ 64 -> 0 < b < 2 ^ 64 -> a <> b ->
  state_after a k <> state_after b k /\ draw a k <> draw b k.
Proof.
  intros a b k [A1 A2] [B1 B2] Hne.
  assert (rng_new a = a) as Ea by (unfold rng_new; destruct (N.eqb_spec a 0); auto; lia).
  assert (rng_new b = b) as Eb by (unfold rng_new; destruct (N.eqb_spec b 0); auto; lia).
  unfold state_after. split.
  - rewrite Ea, Eb. intros E. apply Hne. apply (iter_inj k); auto.
  - rewrite !draw_eq, Ea, Eb. intros E. apply Hne. apply (iter_inj (N.succ k)); auto.
    apply output_inj; auto; apply iterN_lt64; auto.
Qed.

(* all streams are the same cycle, entered at different points *)
Theorem C21_one_cycle : forall a b, a < 2 ^ 64 -> b < 2 ^ 64 ->
  exists shift, shift < 2 ^ 64 - 1 /\ forall k, draw b k = draw a (shift + k).
Proof.
  intros a b A B. destruct (rng_new_ok a A) as [A1 A2]. destruct (rng_new_ok b B) as [B1 B2].
  destruct (states_cover (rng_new a) (rng_new b) A1 A2 B1 B2) as (i & I1 & I2).
  exists i. split; [exact I1|]. intros k.
  unfold draw, state_after. rewrite N.add_comm, iterN_add, I2. reflexivity.
Qed.

(* seed 0 is replaced by a fixed constant and so collides with exactly that seed *)
Theorem C21_seed_zero : forall a k, a < 2 ^ 64 -> a <> 0 ->
  (state_after 0 k = state_after a k <-> a = 11400714819323198485).
Proof.
  intros a k A Hz. destruct (rng_new_ok a A) as [A1 A2].
  assert (rng_new a = a) as Ea by (unfold rng_new; destruct (N.eqb_spec a 0); auto; lia).
  unfold state_after. change (rng_new 0) with 11400714819323198485. rewrite Ea. split.
  - intros E. symmetry. apply (iter_inj k); auto. reflexivity.
  - intros ->. reflexivity.
Qed.

Example C21_nontrivial : state_after 1 2 = 1126174793148417 /\ state_after 2 2 = 2252349586296834.
Proof. vm_compute. auto. Qed.

(** *** C75 *)
Open Scope R_scope.
Theorem C75_normal_is_defined_and_bounded : forall x,
  let eps := / IZR (2 ^ 52) in
  0 <= normal01_radius2 eps (next_real_f64 x) /\
  Rabs (normal01 eps x) <= sqrt (106 * ln 2).
Proof.
  intros x eps.
  assert (0 <= normal01_radius2 eps (next_real_f64 x) <= 106 * ln 2) as [R1 R2].
  { unfold normal01_radius2. cbv zeta.
    pose proof (C20_f64_in_unit_interval x) as [U0 U1].
    assert (0 < IZR (2 ^ 53)) as P53 by (apply IZR_lt; lia).
    assert (ln (IZR (2 ^ 53)) = 53 * ln 2) as L53.
    { replace (IZR (2 ^ 53)) with (2 ^ 53)%R.
      - rewrite ln_pow by lra. replace (INR 53) with 53%R by (cbn [INR]; lra). reflexivity.
      - change (2 ^ 53)%Z with (2 ^ Z.of_nat 53)%Z. rewrite <- pow_IZR. reflexivity. }
    assert (forall u, / IZR (2 ^ 53) <= u <= 1 -> 0 <= - ((1 + 1) * ln u) <= 106 * ln 2) as G.
    { intros u [G1 G2].
      assert (0 < / IZR (2 ^ 53)) by (apply Rinv_0_lt_compat; auto).
      assert (ln u <= 0).
      { rewrite <- ln_1. destruct (Rle_lt_or_eq_dec _ _ G2) as [L|E]; [left; apply ln_increasing; lra|rewrite E; lra]. }
      assert (- (53 * ln 2) <= ln u).
      { rewrite <- L53, <- ln_Rinv by auto.
        destruct (Rle_lt_or_eq_dec _ _ G1) as [L|E]; [left; apply ln_increasing; lra|rewrite E; lra]. }
      lra. }
    destruct (Rle_dec (next_real_f64 x) 0) as [D|D]; apply G.
    - unfold eps. change (2 ^ 53)%Z with 9007199254740992%Z. change (2 ^ 52)%Z with 4503599627370496%Z. lra.
    - split; [|lra]. rewrite next_real_f64_eq in *.
      pose proof (numerator_bound x) as [B1 B2].
      assert (1 <= Z.of_N (next_numerator x))%Z as B3.
      { destruct (Z.eq_dec (Z.of_N (next_numerator x)) 0) as [E|E]; [|lia].
        exfalso. apply D. rewrite E. unfold Rdiv. rewrite Rmult_0_l. lra. }
      apply IZR_le in B3. unfold Rdiv.
      rewrite <- (Rmult_1_l (/ IZR (2 ^ 53))) at 1.
      apply Rmult_le_compat_r; auto. left. apply Rinv_0_lt_compat; auto. }
  split; [exact R1|].
  unfold normal01. rewrite Rabs_mult.
  rewrite (Rabs_pos_eq (sqrt _)) by apply sqrt_pos.
  rewrite <- (Rmult_1_r (sqrt (106 * ln 2))).
  apply Rmult_le_compat; [apply sqrt_pos|apply Rabs_pos|apply sqrt_le_1_alt; exact R2|].
  apply Rabs_le, COS_bound.
Qed.

Example C75_nontrivial : 0 < next_real_f64 (rng_new 1) < 1.
Proof.
  rewrite next_real_f64_eq. change (next_numerator (rng_new 1)) with 2529537253518747%N.
  cbn [Z.of_N]. change (2 ^ 53)%Z with 9007199254740992%Z. lra.
Qed.
