(** C71: unit prefixes. *)
From Coq Require Import ZArith Reals Lra Lia List Bool.
From Coquelicot Require Import Rbar.
From Flocq Require Import Core Relative BinarySingleNaN.
From Verif Require Import Scalar F64 UnitModel.
Import ListNotations.
Local Open Scope R_scope.

(** Specification: the SI meaning of the prefixes, relative to the metre, the second and the kilogram. *)
Definition si_power (p : prefix) : Z :=
  match p with
  | Yocto => -24 | Zepto => -21 | Atto => -18 | Femto => -15 | Pico => -12 | Nano => -9 | Micro => -6
  | Milli => -3 | Centi => -2 | Deci => -1 | Deca => 1 | Hecto => 2 | Kilo => 3 | Mega => 6 | Giga => 9
  | Tera => 12 | Peta => 15 | Exa => 18 | Zetta => 21 | Yotta => 24
  end.
Definition si_factor (fam : family) (p : prefix) : R :=
  powerRZ 10 (match fam with Mass => si_power p - 3 | _ => si_power p end).
(** how far the built-in factor may be off: half, or one, unit in the last place of an f32 *)
Definition si_tol (fam : family) : R := match fam with Mass => / 2 ^ 23 | _ => / 2 ^ 24 end.

(** reducing statements about the table to integers *)
Definition num_of (x : SpecFloat.spec_float) : Z := match x with SpecFloat.S754_finite false m e => (Z.pos m * 2 ^ Z.max 0 e)%Z | _ => 0%Z end.
Definition den_of (x : SpecFloat.spec_float) : Z := match x with SpecFloat.S754_finite false m e => (2 ^ Z.max 0 (- e))%Z | _ => 1%Z end.
Lemma pow_split (b : radix) e : bpow b e = IZR (b ^ Z.max 0 e) / IZR (b ^ Z.max 0 (- e)).
Proof.
  pose proof (radix_gt_0 b). destruct (Z_le_gt_dec 0 e) as [H0|H0].
  - rewrite (Z.max_r 0 e), (Z.max_l 0 (- e)) by lia. rewrite Z.pow_0_r. rewrite IZR_Zpower by auto. field.
  - rewrite (Z.max_l 0 e), (Z.max_r 0 (- e)) by lia. rewrite Z.pow_0_r. rewrite IZR_Zpower by lia. rewrite bpow_opp.
    pose proof (bpow_gt_0 b e). field. lra.
Qed.
Lemma f32_frac (x : f32) : (0 < num_of (B2SF x))%Z -> B2R x = IZR (num_of (B2SF x)) / IZR (den_of (B2SF x)).
Proof.
  destruct x as [s|s| |s m e H]; cbn [B2SF num_of den_of]; try lia. destruct s; [lia|]. intros _. cbn [B2R].
  unfold F2R. cbn [Fnum Fexp SpecFloat.cond_Zopp]. rewrite (pow_split radix2 e), mult_IZR. unfold Rdiv. rewrite Rmult_assoc. reflexivity.
Qed.
Definition radix10 : radix := Build_radix 10 eq_refl.
Lemma ten_frac e : powerRZ 10 e = IZR (10 ^ Z.max 0 e) / IZR (10 ^ Z.max 0 (- e)).
Proof. change 10 with (IZR radix10) at 1. rewrite <- bpow_powerRZ. apply (pow_split radix10). Qed.
Definition exp_of (fam : family) (p : prefix) : Z := match fam with Mass => (si_power p - 3)%Z | _ => si_power p end.
Definition tol_of (fam : family) : Z := match fam with Mass => (2 ^ 23)%Z | _ => (2 ^ 24)%Z end.
Definition check (fam : family) (p : prefix) : bool :=
  let x := B2SF (factor fam p) in let n := num_of x in let d := den_of x in
  let a := (10 ^ Z.max 0 (exp_of fam p))%Z in let b := (10 ^ Z.max 0 (- exp_of fam p))%Z in
  (0 <? n)%Z && (0 <? d)%Z && (Z.abs (n * b - a * d) * tol_of fam <=? a * d)%Z.
Definition same (fam : family) (p : prefix) : bool :=
  let x := B2SF (factor fam p) in let n := num_of x in let d := den_of x in
  let a := (10 ^ Z.max 0 (exp_of fam p))%Z in let b := (10 ^ Z.max 0 (- exp_of fam p))%Z in (n * b =? a * d)%Z.
Lemma check_all fam p : check fam p = true. Proof. destruct fam, p; vm_compute; reflexivity. Qed.
Lemma pow10_pos e : (0 < 10 ^ Z.max 0 e)%Z. Proof. apply Z.pow_pos_nonneg; lia. Qed.
Lemma frac_bound n d a b N : (0 < d)%Z -> (0 < b)%Z -> (0 < N)%Z -> (Z.abs (n * b - a * d) * N <= a * d)%Z ->
  Rabs (IZR n / IZR d - IZR a / IZR b) <= / IZR N * (IZR a / IZR b).
Proof.
  intros Hd Hb HN H. apply IZR_lt in Hd. apply IZR_lt in Hb. apply IZR_lt in HN. apply IZR_le in H.
  rewrite !mult_IZR, abs_IZR, minus_IZR, !mult_IZR in H.
  replace (IZR n / IZR d - IZR a / IZR b) with ((IZR n * IZR b - IZR a * IZR d) * / (IZR d * IZR b)) by (field; lra).
  rewrite Rabs_mult, (Rabs_pos_eq (/ _)) by (left; apply Rinv_0_lt_compat, Rmult_lt_0_compat; auto).
  replace (/ IZR N * (IZR a / IZR b)) with (IZR a * IZR d * / IZR N * / (IZR d * IZR b)) by (field; lra).
  apply Rmult_le_compat_r; [left; apply Rinv_0_lt_compat, Rmult_lt_0_compat; auto|].
  apply (Rmult_le_reg_r (IZR N)); [auto|]. rewrite Rmult_assoc, Rinv_l, Rmult_1_r by lra. exact H.
Qed.
Lemma factor_frac fam p : B2R (factor fam p) = IZR (num_of (B2SF (factor fam p))) / IZR (den_of (B2SF (factor fam p))).
Proof. pose proof (check_all fam p) as H. unfold check in H. apply andb_prop in H. destruct H as [H _]. apply andb_prop in H. destruct H as [H _]. apply f32_frac. apply Z.ltb_lt, H. Qed.
Lemma si_factor_frac fam p : si_factor fam p = IZR (10 ^ Z.max 0 (exp_of fam p)) / IZR (10 ^ Z.max 0 (- exp_of fam p)).
Proof. unfold si_factor. rewrite <- ten_frac. reflexivity. Qed.
Lemma si_factor_pos fam p : 0 < si_factor fam p.
Proof. unfold si_factor. apply powerRZ_lt. lra. Qed.
Lemma si_tol_eq fam : si_tol fam = / IZR (tol_of fam).
Proof. destruct fam; cbn [si_tol tol_of]; f_equal; rewrite <- pow_IZR || idtac; [lra|lra|lra]. Qed.

(** C71 (factors).  Every built-in factor is the SI power of ten to within half a unit in the last
    place of an f32; one unit for masses. *)
Lemma factor_near fam p : Rabs (B2R (factor fam p) - si_factor fam p) <= si_tol fam * si_factor fam p.
Proof.
  pose proof (check_all fam p) as H. unfold check in H. apply andb_prop in H. destruct H as [H H3]. apply andb_prop in H. destruct H as [H1 H2].
  apply Z.ltb_lt in H1. apply Z.ltb_lt in H2. apply Z.leb_le in H3.
  rewrite factor_frac, si_factor_frac, si_tol_eq. apply frac_bound; auto using pow10_pos. destruct fam; reflexivity.
Qed.
Lemma factor_pos fam p : 0 < B2R (factor fam p).
Proof.
  pose proof (factor_near fam p) as H. pose proof (si_factor_pos fam p). apply Rabs_le_inv in H. destruct H as [H _].
  assert (si_tol fam <= / 2) by (destruct fam; cbn [si_tol]; lra). nra.
Qed.

(** In exact arithmetic (every factor used as its exact value). *)
Notation toP := (to_prefixed Rops (B2R : f32 -> R)).
Notation toB := (to_base Rops (B2R : f32 -> R)).
Theorem C71_round_trip : forall fam p x, has_unit fam p ->
  toB (factor fam p) (toP (factor fam p) x) = x /\ toP (factor fam p) (toB (factor fam p) x) = x.
Proof. intros fam p x _. pose proof (factor_pos fam p). unfold to_base, to_prefixed. cbn [mul div Rops]. split; field; lra. Qed.

Theorem C71_factor_partial : forall fam p x, has_unit fam p ->
  Rabs (toB (factor fam p) x - si_factor fam p * x) <= si_tol fam * Rabs (si_factor fam p * x) /\
  Rabs (toP (factor fam p) x - x / si_factor fam p) <= 2 * si_tol fam * Rabs (x / si_factor fam p).
Proof.
  intros fam p x _. pose proof (factor_near fam p) as N. pose proof (factor_pos fam p) as P. pose proof (si_factor_pos fam p) as S.
  unfold to_base, to_prefixed. cbn [mul div Rops].
  assert (T : 0 <= si_tol fam <= / 4) by (destruct fam; cbn [si_tol]; lra).
  revert N P S T. generalize (B2R (factor fam p)), (si_factor fam p), (si_tol fam). intros k s t N P S T. split.
  - replace (x * k - s * x) with ((k - s) * x) by ring. rewrite !Rabs_mult, (Rabs_pos_eq s) by lra. pose proof (Rabs_pos x). nra.
  - replace (x / k - x / s) with ((s - k) * / k * (x / s)) by (field; lra).
    rewrite Rabs_mult. apply Rmult_le_compat_r; [apply Rabs_pos|]. rewrite Rabs_mult, (Rabs_pos_eq (/ k)) by (left; apply Rinv_0_lt_compat; auto).
    rewrite Rabs_minus_sym. apply (Rmult_le_reg_r k); [auto|]. rewrite Rmult_assoc, Rinv_l, Rmult_1_r by lra.
    apply Rabs_le_inv in N as N'. nra.
Qed.

(** The factor is exactly the power of ten for deca, hecto, kilo, mega and giga of metres and seconds,
    and for no other unit. *)
Definition exact_unit (fam : family) (p : prefix) : Prop := fam <> Mass /\ In p [Deca; Hecto; Kilo; Mega; Giga].
Lemma factor_same fam p : B2R (factor fam p) = si_factor fam p <-> same fam p = true.
Proof.
  pose proof (check_all fam p) as H. unfold check in H. apply andb_prop in H. destruct H as [H _]. apply andb_prop in H. destruct H as [_ H2].
  apply Z.ltb_lt in H2. rewrite factor_frac, si_factor_frac. unfold same. cbv zeta. rewrite Z.eqb_eq.
  revert H2. generalize (num_of (B2SF (factor fam p))) (den_of (B2SF (factor fam p))). intros n d H2.
  pose proof (pow10_pos (- exp_of fam p)) as H3. revert H3. generalize (10 ^ Z.max 0 (exp_of fam p))%Z (10 ^ Z.max 0 (- exp_of fam p))%Z.
  intros a b H3. apply IZR_lt in H2. apply IZR_lt in H3. split; intros E.
  - apply eq_IZR. rewrite !mult_IZR. transitivity (IZR n / IZR d * IZR b * IZR d); [field; lra|]. rewrite E. field. lra.
  - apply (f_equal IZR) in E. rewrite !mult_IZR in E. apply (Rmult_eq_reg_r (IZR d * IZR b)); [|nra].
    transitivity (IZR n * IZR b); [field; lra|]. rewrite E. field. lra.
Qed.
Lemma same_iff fam p : has_unit fam p -> same fam p = true <-> exact_unit fam p.
Proof.
  intros H. unfold exact_unit, has_unit in *. destruct fam, p; vm_compute; split; intros A; try (discriminate A); try (exfalso; apply H; reflexivity);
    try (split; [discriminate|tauto]); try reflexivity; exfalso; destruct A as [A1 A2]; try (apply A1; reflexivity); intuition discriminate.
Qed.
Theorem C71_factor_exact : forall fam p x, has_unit fam p -> exact_unit fam p ->
  toB (factor fam p) x = si_factor fam p * x /\ toP (factor fam p) x = x / si_factor fam p.
Proof.
  intros fam p x U E. apply same_iff in E; auto. apply factor_same in E. unfold to_base, to_prefixed. cbn [mul div Rops]. rewrite E. split; [ring|reflexivity].
Qed.
Theorem C71_factor_refuted : forall fam p, has_unit fam p -> ~ exact_unit fam p -> exists x, toB (factor fam p) x <> si_factor fam p * x.
Proof.
  intros fam p U E. exists 1. unfold to_base. cbn [mul Rops]. intros A. apply E. apply same_iff; auto. apply factor_same. lra.
Qed.
(** One tonne is not 1000 kg, even for a program that computes in f32 only. *)
Theorem C71_tonne_refuted : exists kg, to_base f32_ops (fun k => k) (factor Mass Mega) (one f32_ops) = kg /\ B2R kg = 1000 + / 2 ^ 14.
Proof.
  exists (f32_lit 16384001%positive (-14)%Z eq_refl). split; [apply B2SF_inj; vm_compute; reflexivity|].
  unfold f32_lit. cbn [B2R SpecFloat.cond_Zopp]. unfold F2R. cbn [Fnum Fexp]. change (bpow radix2 (-14)) with (/ IZR (Z.pow_pos 2 14)). change (Z.pow_pos 2 14) with 16384%Z. lra.
Qed.

(** Conversions commute with the arithmetic of quantities and keep order. *)
Theorem C71_linear : forall fam p x y s, has_unit fam p ->
  let k := factor fam p in
  toB k (q_add Rops x y) = toB k x + toB k y /\ toP k (q_add Rops x y) = toP k x + toP k y /\
  toB k (q_sub Rops x y) = toB k x - toB k y /\ toP k (q_sub Rops x y) = toP k x - toP k y /\
  toB k (q_mul Rops x s) = toB k x * s /\ toP k (q_mul Rops x s) = toP k x * s /\
  toB k (q_div Rops x s) = toB k x / s /\ toP k (q_div Rops x s) = toP k x / s /\
  toB k (q_neg Rops x) = - toB k x /\ toP k (q_neg Rops x) = - toP k x /\
  (x < y <-> toB k x < toB k y) /\ (x < y <-> toP k x < toP k y).
Proof.
  intros fam p x y s _ k. pose proof (factor_pos fam p) as P. change (factor fam p) with k in P. revert P. clearbody k. unfold to_base, to_prefixed, q_add, q_sub, q_mul, q_div, q_neg.
  cbn [add sub mul div neg Rops]. generalize (B2R k). clear k. intros k P. assert (0 < / k) by (apply Rinv_0_lt_compat; auto). unfold Rdiv.
  repeat match goal with |- _ /\ _ => split end; try ring; split; intros L; nra.
Qed.

(** * f64 *)
(** widening an f32 keeps its value *)
Lemma widen_value (x : f32) : is_finite x = true -> is_finite (f32_to_f64 x) = true /\ B2R (f32_to_f64 x) = B2R x.
Proof.
  destruct x as [s|s| |s m e H]; intros Fx; try discriminate; [split; reflexivity|]. cbn [f32_to_f64].
  pose proof (binary_normalize_correct 53 1024 eq_refl eq_refl mode_NE (SpecFloat.cond_Zopp s (Z.pos m)) e s) as C. cbn zeta in C.
  assert (B := H). unfold SpecFloat.bounded in B. apply andb_prop in B. destruct B as [B1 B2]. apply Zle_bool_imp_le in B2.
  apply Zeq_bool_eq in B1. unfold SpecFloat.fexp, SpecFloat.emin in B1.
  assert (M : (Z.pos (SpecFloat.digits2_pos m) <= 24)%Z) by lia. assert (E0 : (-149 <= e)%Z) by lia.
  assert (D : (Zdigits radix2 (SpecFloat.cond_Zopp s (Z.pos m)) = Z.pos (SpecFloat.digits2_pos m))%Z).
  { rewrite Zpos_digits2_pos. destruct s; reflexivity. }
  assert (NZ : SpecFloat.cond_Zopp s (Z.pos m) <> 0%Z) by (destruct s; discriminate).
  assert (MG : mag radix2 (F2R (Float radix2 (SpecFloat.cond_Zopp s (Z.pos m)) e)) = (Z.pos (SpecFloat.digits2_pos m) + e)%Z :> Z).
  { rewrite mag_F2R_Zdigits by auto. rewrite D. reflexivity. }
  assert (G : rnd (F2R (Float radix2 (SpecFloat.cond_Zopp s (Z.pos m)) e)) = F2R (Float radix2 (SpecFloat.cond_Zopp s (Z.pos m)) e)).
  { apply round_generic; [apply valid_rnd_N|]. apply generic_format_F2R. intros _. unfold cexp. rewrite MG. unfold SpecFloat.fexp, SpecFloat.emin. lia. }
  change (round radix2 (SpecFloat.fexp 53 1024) (round_mode mode_NE) (F2R (Float radix2 (SpecFloat.cond_Zopp s (Z.pos m)) e)))
    with (rnd (F2R (Float radix2 (SpecFloat.cond_Zopp s (Z.pos m)) e))) in C. rewrite G in C.
  rewrite Rlt_bool_true in C.
  - destruct C as (C1 & C2 & _). split; [exact C2|]. rewrite C1. reflexivity.
  - eapply Rlt_le_trans; [apply bpow_mag_gt|]. apply bpow_le. rewrite MG. lia.
Qed.
Lemma factor_finite fam p : is_finite (factor fam p) = true.
Proof. pose proof (factor_pos fam p) as H. destruct (factor fam p); cbn in *; try reflexivity; lra. Qed.
Lemma factor64 fam p : fpos (f32_to_f64 (factor fam p)) /\ B2R (f32_to_f64 (factor fam p)) = B2R (factor fam p).
Proof. destruct (widen_value _ (factor_finite fam p)) as [A B]. split; auto. split; auto. rewrite B. apply factor_pos. Qed.

Notation toP64 := (to_prefixed f64_ops f32_to_f64).
Notation toB64 := (to_base f64_ops f32_to_f64).
(** Rust's [<=] on f64 *)
Definition le (x y : f64) : Prop := leb f64_ops x y = true.
(** Every f64 that is a number converts to a number, and order is kept: rounding, underflow and
    overflow included. *)
Theorem C71_monotone_f64 : forall fam p x y, has_unit fam p -> le x y ->
  le (toP64 (factor fam p) x) (toP64 (factor fam p) y) /\ le (toB64 (factor fam p) x) (toB64 (factor fam p) y).
Proof.
  intros fam p x y _ L. unfold le in *. cbn [leb f64_ops] in *. destruct (leb_number x y L) as [Nx Ny]. apply f64_leb in L; auto.
  destruct (factor64 fam p) as [P _]. unfold to_prefixed, to_base. cbn [mul div f64_ops]. split; apply f64_leb;
    auto using mul_pos_number, div_pos_number, mul_pos_mono, div_pos_mono.
Qed.

(** Away from underflow and overflow a round trip is off by less than three roundings. *)
Theorem C71_round_trip_f64_partial : forall fam p x, has_unit fam p -> is_finite x = true ->
  is_finite (toB64 (factor fam p) (toP64 (factor fam p) x)) = true ->
  2 * tiny <= Rabs (B2R x) -> tiny <= Rabs (B2R x / B2R (factor fam p)) ->
  Rabs (B2R (toB64 (factor fam p) (toP64 (factor fam p) x)) - B2R x) <= 3 * u64 * Rabs (B2R x).
Proof.
  intros fam p x _ Fx Fy T1 T2. destruct (factor64 fam p) as [P E]. unfold to_prefixed, to_base in *. cbn [mul div f64_ops] in *.
  set (k := f32_to_f64 (factor fam p)) in *. assert (Pk : 0 < B2R k) by apply P. rewrite <- E in T2.
  set (y := f64_div x k) in *.
  assert (Fy' : is_finite y = true).
  { destruct (number_dec y (div_pos_number x k (finite_number _ Fx) P)) as [F|[s Hs]]; [exact F|]. rewrite Hs, mul_pos_inf in Fy by exact P. discriminate Fy. }
  destruct (div_pos x k Fx P) as [_ Vy]. fold y in Vy. rewrite (xval_finite y) in Vy by exact Fy'.
  destruct (mul_pos y k Fy' P) as [_ Vz]. rewrite (xval_finite (f64_mul y k)) in Vz by exact Fy.
  assert (Ry : B2R y = rnd (B2R x / B2R k)).
  { unfold sxrnd in Vy. destruct (Rlt_bool _ top); [injection Vy; auto|]. destruct (Rlt_bool _ 0); discriminate. }
  assert (Rz : B2R (f64_mul y k) = rnd (B2R y * B2R k)).
  { unfold sxrnd in Vz. destruct (Rlt_bool _ top); [injection Vz; auto|]. destruct (Rlt_bool _ 0); discriminate. }
  rewrite Rz. pose proof (rnd_rel _ T2) as E1. rewrite <- Ry in E1.
  assert (U : 0 < u64 <= / 4).
  { unfold u64. split; [apply bpow_gt_0|]. change (/ 4) with (/ IZR (2 * 2)). replace (/ IZR (2 * 2)) with (bpow radix2 (-2)) by (cbn; lra). apply bpow_le. lia. }
  pose proof (bpow_gt_0 radix2 (-1022)) as TP. fold tiny in TP.
  revert E1 T1 Pk U TP. generalize (B2R x), (B2R k), (B2R y). intros a b c E1 T1 Pk U TP.
  assert (E2 : Rabs (c * b - a) <= u64 * Rabs a).
  { replace (c * b - a) with ((c - a / b) * b) by (field; lra). rewrite Rabs_mult, (Rabs_pos_eq b) by lra.
    replace (u64 * Rabs a) with (u64 * Rabs (a / b) * b); [apply Rmult_le_compat_r; lra|].
    unfold Rdiv. rewrite Rabs_mult, (Rabs_pos_eq (/ b)) by (left; apply Rinv_0_lt_compat; auto). field. lra. }
  assert (E3 : tiny <= Rabs (c * b)).
  { pose proof (Rabs_triang_inv a (a - c * b)) as Q. replace (a - (a - c * b)) with (c * b) in Q by ring. rewrite (Rabs_minus_sym a) in Q. nra. }
  apply rnd_rel in E3.
  assert (E4 : Rabs (c * b) <= (1 + u64) * Rabs a).
  { replace (c * b) with ((c * b - a) + a) by ring. eapply Rle_trans; [apply Rabs_triang|]. lra. }
  replace (rnd (c * b) - a) with ((rnd (c * b) - c * b) + (c * b - a)) by ring. eapply Rle_trans; [apply Rabs_triang|].
  assert (E5 : u64 * Rabs (c * b) <= u64 * ((1 + u64) * Rabs a)) by (apply Rmult_le_compat_l; lra).
  pose proof (Rmult_le_pos u64 (Rabs a) ltac:(lra) (Rabs_pos a)) as E6. nra.
Qed.
(** but not the identity: 7 m to hectometres and back *)
Theorem C71_round_trip_f64_refuted : exists x, toB64 (factor Length Hecto) (toP64 (factor Length Hecto) x) <> x.
Proof. exists (f64_of_Z 7). intros E. apply (f_equal (fun x => B2SF x)) in E. vm_compute in E. discriminate E. Qed.

Example C71_nontrivial : toB (factor Length Kilo) 3 = 3000 /\ toP (factor Time Mega) 3000000 = 3 /\ has_unit Mass Mega.
Proof.
  split; [|split; [|discriminate]].
  - destruct (C71_factor_exact Length Kilo 3) as [E _]; [discriminate| |rewrite E; change (si_factor Length Kilo) with (10 ^ 3); lra]. split; [discriminate|cbn; tauto].
  - destruct (C71_factor_exact Time Mega 3000000) as [_ E]; [discriminate| |rewrite E; change (si_factor Time Mega) with (10 ^ 6); lra]. split; [discriminate|cbn; tauto].
Qed.
