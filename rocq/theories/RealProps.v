(** C102: the std and no_std numeric back ends agree.  C104: casts between number types. *)
From Coq Require Import ZArith Reals Lra Lia Bool.
From Flocq Require Import Core BinarySingleNaN.
From Verif Require Import RealModel.
Local Open Scope R_scope.

(** * C102 *)
Section Width.
Context {prec emax : Z} {P : Prec_gt_0 prec} {M : Prec_lt_emax prec emax}.
Local Notation fl := (binary_float prec emax).
Local Instance valid_exp : Valid_exp (SpecFloat.fexp prec emax) := fexp_correct prec emax P.
(** for every number but zero, and for NaN, both give the same sign: 1, -1 or NaN *)
Theorem C102_signum_partial (x : fl) : (is_finite x = true -> B2R x <> 0) -> no_std_signum x = std_signum x.
Proof.
  unfold no_std_signum, std_signum, copysign, pzero. intros H. pose proof (Bsign_Bone prec emax P M) as S1. destruct x as [s|s| |s m e B].
  - contradiction (H eq_refl eq_refl).
  - cbn [is_nan Bsign]. rewrite S1. destruct s; reflexivity.
  - reflexivity.
  - cbn [is_nan Bsign]. rewrite S1. destruct s; reflexivity.
Qed.
(** Specification: what the standard library documents for f64::min and f64::max; of two zeros either may be returned *)
Definition min_allowed (x y r : fl) : Prop :=
  (is_nan x = true -> r = y) /\ (is_nan y = true -> is_nan x = false -> r = x) /\
  (is_nan x = false -> is_nan y = false -> (r = x \/ r = y) /\ Bleb r x = true /\ Bleb r y = true).
Definition max_allowed (x y r : fl) : Prop :=
  (is_nan x = true -> r = y) /\ (is_nan y = true -> is_nan x = false -> r = x) /\
  (is_nan x = false -> is_nan y = false -> (r = x \/ r = y) /\ Bleb x r = true /\ Bleb y r = true).
Lemma cmp_some (x y : fl) : is_nan x = false -> is_nan y = false -> exists c, Bcompare x y = Some c.
Proof. destruct x, y; intros; try discriminate; cbn; eauto. Qed.
Lemma leb_refl (x : fl) : is_nan x = false -> Bleb x x = true.
Proof.
  intros N. destruct x as [s|s| |s m e B]; try discriminate; try (destruct s; reflexivity).
  rewrite Bleb_correct by reflexivity. apply Rle_bool_true. lra.
Qed.
Lemma ltb_leb (x y : fl) : Bltb x y = true -> Bleb x y = true.
Proof. unfold Bltb, Bleb, SpecFloat.SFltb, SpecFloat.SFleb. destruct (SpecFloat.SFcompare (B2SF x) (B2SF y)) as [[]|]; auto; discriminate. Qed.
Lemma nltb_leb (x y : fl) : is_nan x = false -> is_nan y = false -> Bltb x y = false -> Bleb y x = true.
Proof.
  intros Nx Ny H. destruct (is_finite x) eqn:Fx, (is_finite y) eqn:Fy.
  - rewrite Bltb_correct in H by auto. rewrite Bleb_correct by auto. destruct (Rlt_bool_spec (B2R x) (B2R y)); [discriminate|]. apply Rle_bool_true; auto.
  - destruct y as [s|s| |s m e B]; try discriminate. destruct x as [s'|s'| |s' m' e' B']; try discriminate; destruct s; try discriminate; destruct s'; reflexivity.
  - destruct x as [s|s| |s m e B]; try discriminate. destruct y as [s'|s'| |s' m' e' B']; try discriminate; destruct s; try discriminate; destruct s'; reflexivity.
  - destruct x as [s|s| |s m e B]; try discriminate. destruct y as [s'|s'| |s' m' e' B']; try discriminate; destruct s, s'; try discriminate; reflexivity.
Qed.
(** without the standard library min and max do what the standard library documents *)
Theorem C102_min_max (x y : fl) : min_allowed x y (no_std_min x y) /\ max_allowed x y (no_std_max x y).
Proof.
  unfold min_allowed, max_allowed, no_std_min, no_std_max. destruct (is_nan x) eqn:Nx; [split; repeat split; congruence|].
  destruct (is_nan y) eqn:Ny; [split; repeat split; congruence|]. cbn [orb].
  split; (split; [congruence|split; [congruence|intros _ _]]).
  - destruct (Bltb x y) eqn:E; [split; auto using leb_refl, ltb_leb|]. split; auto. split; auto using leb_refl, nltb_leb.
  - destruct (Bltb y x) eqn:E; [split; auto using leb_refl, ltb_leb|]. split; auto. split; auto using leb_refl, nltb_leb.
Qed.
End Width.

Definition x0 : float64 := B754_zero false.
(** at zero they differ: 1 with the standard library, 0 without *)
Theorem C102_signum_refuted : exists x : float64, B2R x = 0 /\ B2R (std_signum x) = 1 /\ B2R (no_std_signum x) = 0.
Proof.
  exists x0. split; [reflexivity|]. split; [|reflexivity]. unfold std_signum, x0, copysign. cbn [is_nan Bsign]. rewrite Bsign_Bone. apply Bone_correct.
Qed.

Definition fexp32 := SpecFloat.fexp 24 128.
Lemma pow2_18 : bpow radix2 18 = 262144. Proof. cbn. lra. Qed.
(** the literal of the standard library, rounded to f32, is [pis_in_180] *)
Lemma degrees_literal : round radix2 fexp32 ZnearestE (572957795130823208767981548141051703 / 10 ^ 34) = B2R pis_in_180.
Proof.
  set (x := 572957795130823208767981548141051703 / 10 ^ 34). assert (X : 57.2957 < x < 57.2958) by (unfold x; lra).
  assert (Mg : mag radix2 x = 6%Z :> Z). { apply mag_unique. rewrite Rabs_pos_eq by lra. cbn. lra. }
  assert (Z1 : Znearest (fun n => negb (Z.even n)) (scaled_mantissa radix2 fexp32 x) = 15019745%Z).
  { apply Znearest_imp. unfold scaled_mantissa, cexp. rewrite Mg. replace (- fexp32 6)%Z with 18%Z by reflexivity. rewrite pow2_18. apply Rabs_def1; unfold x; lra. }
  unfold round. rewrite Z1. unfold cexp. rewrite Mg. replace (fexp32 6) with (-18)%Z by reflexivity.
  assert (E : B2SF pis_in_180 = SpecFloat.S754_finite false 15019745 (-18)) by (vm_compute; reflexivity).
  destruct pis_in_180 as [s|s| |s m e B]; cbn in E; try discriminate. injection E as -> -> ->. reflexivity.
Qed.
(** in f32 the two conversions to degrees differ by one unit in the last place already for one radian *)
Theorem C102_degrees_f32_refuted : B2R (std_to_degrees32 Bone) = 15019745 / 262144 /\ B2R (no_std_to_degrees32 Bone) = 15019744 / 262144.
Proof.
  assert (V : forall (z : float32) m, B2SF z = SpecFloat.S754_finite false m (-18) -> B2R z = IZR (Zpos m) / 262144).
  { intros z m E. destruct z as [s|s| |s m' e B]; cbn in E; try discriminate. injection E as -> -> ->. unfold B2R, F2R. cbn [Fnum Fexp cond_Zopp]. change (-18)%Z with (- (18))%Z. rewrite bpow_opp, pow2_18. reflexivity. }
  split; apply V; vm_compute; reflexivity.
Qed.

(** integers up to 2^prec convert exactly *)
Section Ints.
Context {prec emax : Z} {P : Prec_gt_0 prec} {M : Prec_lt_emax prec emax}.
Local Instance valid_exp' : Valid_exp (SpecFloat.fexp prec emax) := fexp_correct prec emax P.
Lemma format_int z : (Z.abs z <= 2 ^ prec)%Z -> generic_format radix2 (SpecFloat.fexp prec emax) (IZR z).
Proof.
  intros H. assert (Hp : (0 < prec)%Z) by exact P. assert (He : (prec < emax)%Z) by exact M.
  destruct (Z.eq_dec (Z.abs z) (2 ^ prec)) as [E|N].
  - assert (G : generic_format radix2 (SpecFloat.fexp prec emax) (IZR (2 ^ prec))).
    { change 2%Z with (radix_val radix2). rewrite IZR_Zpower by lia. apply generic_format_bpow. unfold SpecFloat.fexp, SpecFloat.emin. lia. }
    destruct (Z.abs_spec z) as [[_ A]|[_ A]]; rewrite A in E; [rewrite E; exact G|]. replace z with (- 2 ^ prec)%Z by lia. rewrite opp_IZR. apply generic_format_opp, G.
  - apply (generic_format_FLT radix2 (SpecFloat.emin prec emax) prec). exists (Float radix2 z 0); [unfold F2R; cbn; ring|cbn; lia|cbn; unfold SpecFloat.emin; lia].
Qed.
Lemma of_int_spec z : (Z.abs z <= 2 ^ prec)%Z -> B2R (@of_int prec emax P M z) = IZR z /\ is_finite (@of_int prec emax P M z) = true.
Proof.
  intros H. pose proof (binary_normalize_correct prec emax P M mode_NE z 0 false) as C. cbn zeta in C. fold (@of_int prec emax P M z) in C.
  replace (F2R (Float radix2 z 0)) with (IZR z) in C by (unfold F2R; cbn; ring).
  rewrite round_generic in C by (auto with typeclass_instances; apply format_int, H). rewrite Rlt_bool_true in C; [tauto|].
  assert (Hp : (0 < prec)%Z) by exact P. assert (He : (prec < emax)%Z) by exact M.
  rewrite <- abs_IZR. rewrite <- IZR_Zpower by lia. apply IZR_lt. eapply Z.le_lt_trans; [exact H|]. apply Z.pow_lt_mono_r; cbn; lia.
Qed.
End Ints.
(** in f64 every i32 exponent reaches the power function unchanged *)
Theorem C102_powi_f64 (pow : float64 -> float64 -> float64) x n : (- 2 ^ 31 <= n < 2 ^ 31)%Z ->
  exists y, no_std_powi pow x n = pow x y /\ is_finite y = true /\ B2R y = IZR n.
Proof. intros H. exists (of_int n). destruct (of_int_spec (prec := 53) (emax := 1024) n) as [A B]; [lia|]. auto. Qed.
Theorem C102_powi_f32_partial (pow : float32 -> float32 -> float32) x n : (Z.abs n <= 2 ^ 24)%Z ->
  exists y, no_std_powi pow x n = pow x y /\ is_finite y = true /\ B2R y = IZR n.
Proof. intros H. exists (of_int n). destruct (of_int_spec (prec := 24) (emax := 128) n H) as [A B]. auto. Qed.
(** in f32 a large odd exponent becomes even: with any power function that gives 1 for even powers of -1, an odd power of -1 is 1 *)
Theorem C102_powi_f32_refuted : exists n, (0 < n < 2 ^ 31)%Z /\ Z.Odd n /\
  forall pow : float32 -> float32 -> float32, (forall y k, is_finite y = true -> B2R y = IZR (2 * k) -> pow (Bopp Bone) y = Bone) ->
  no_std_powi pow (Bopp Bone) n = Bone.
Proof.
  exists 16777217%Z. split; [lia|]. split; [exists 8388608%Z; lia|]. intros pow H. unfold no_std_powi.
  assert (E : @of_int 24 128 _ _ 16777217 = of_int 16777216) by (apply B2SF_inj; vm_compute; reflexivity). rewrite E.
  destruct (of_int_spec (prec := 24) (emax := 128) 16777216) as [A B]; [lia|]. apply (H _ 8388608%Z B). exact A.
Qed.
Example C102_nontrivial : (exists x : float64, is_finite x = true /\ B2R x = -3) /\
  (exists pow : float32 -> float32 -> float32, forall y k, is_finite y = true -> B2R y = IZR (2 * k) -> pow (Bopp Bone) y = Bone).
Proof. split; [exists (of_int (-3)); destruct (of_int_spec (prec := 53) (emax := 1024) (-3)) as [A B]; [lia|auto]|]. exists (fun _ _ => Bone). auto. Qed.

(** * C104 *)
(** Specification: order of floats as extended reals, without NaN *)
Section Cast.
Context {p e p' e' : Z} {P' : Prec_gt_0 p'} {M' : Prec_lt_emax p' e'}.
Local Notation src := (binary_float p e).
Local Notation dst := (binary_float p' e').
Local Instance valid_dst : Valid_exp (SpecFloat.fexp p' e') := fexp_correct p' e' P'.
Definition rnd_dst (r : R) : R := round radix2 (SpecFloat.fexp p' e') ZnearestE r.
Lemma cast_finite (x : src) : is_finite x = true ->
  if Rlt_bool (Rabs (rnd_dst (B2R x))) (bpow radix2 e') then B2R (cast x : dst) = rnd_dst (B2R x) /\ is_finite (cast x : dst) = true /\ Bsign (cast x : dst) = Bsign x
  else (cast x : dst) = B754_infinity (Rlt_bool (B2R x) 0).
Proof.
  destruct x as [s|s| |s m ex B]; intros F; try discriminate.
  - cbn [cast B2R Bsign]. unfold rnd_dst. rewrite round_0 by auto with typeclass_instances. rewrite Rabs_R0, Rlt_bool_true by apply bpow_gt_0. auto.
  - pose proof (binary_normalize_correct p' e' P' M' mode_NE (cond_Zopp s (Zpos m)) ex s) as C. cbn zeta in C. cbn [cast]. change (F2R (Float radix2 (cond_Zopp s (Z.pos m)) ex)) with (B2R (B754_finite s m ex B : src)) in C.
    change (round radix2 (SpecFloat.fexp p' e') (round_mode mode_NE) (B2R (B754_finite s m ex B : src))) with (rnd_dst (B2R (B754_finite s m ex B : src))) in C.
    destruct (Rlt_bool (Rabs (rnd_dst (B2R (B754_finite s m ex B : src)))) (bpow radix2 e')).
    + destruct C as (C1 & C2 & C3). split; auto. split; auto. rewrite C3. cbn [Bsign]. destruct s.
      * rewrite Rcompare_Lt; auto. apply F2R_lt_0. reflexivity.
      * rewrite Rcompare_Gt; auto. apply F2R_gt_0. reflexivity.
    + set (z := binary_normalize p' e' P' M' mode_NE (cond_Zopp s (Z.pos m)) ex s) in *. destruct z as [t|t| |t mm ee BB]; cbn in C; try discriminate. injection C as ->. reflexivity.
Qed.
Lemma rnd_dst_le a b : a <= b -> rnd_dst a <= rnd_dst b. Proof. apply round_le; auto with typeclass_instances. Qed.
Lemma rnd_dst_pos a : 0 <= a -> 0 <= rnd_dst a.
Proof. intros H. assert (Z : rnd_dst 0 = 0) by (apply round_0; auto with typeclass_instances). rewrite <- Z. apply rnd_dst_le, H. Qed.
Lemma rnd_dst_neg a : a <= 0 -> rnd_dst a <= 0.
Proof. intros H. assert (Z : rnd_dst 0 = 0) by (apply round_0; auto with typeclass_instances). rewrite <- Z. apply rnd_dst_le, H. Qed.
(** a cast keeps NaN, infinities and the sign, and rounds a finite number to the nearest number of the target format,
    or to infinity when there is none that large *)
Theorem C104_cast_spec (x : src) :
  (is_nan (cast x : dst) = is_nan x) /\ (is_nan x = false -> Bsign (cast x : dst) = Bsign x) /\
  (forall s, x = B754_infinity s -> (cast x : dst) = B754_infinity s) /\
  (is_finite x = true -> is_finite (cast x : dst) = true -> forall y : dst, is_finite y = true -> Rabs (B2R (cast x : dst) - B2R x) <= Rabs (B2R y - B2R x)) /\
  (is_finite x = true -> is_finite (cast x : dst) = false -> forall y : dst, is_finite y = true -> Rabs (B2R y) < Rabs (B2R x)).
Proof.
  split; [|split; [|split; [|split]]].
  - destruct (is_finite x) eqn:F; [|destruct x; try discriminate; reflexivity]. pose proof (cast_finite x F) as C. destruct (Rlt_bool _ _).
    + destruct C as (_ & C & _). destruct x; try discriminate; destruct (cast _); try discriminate; reflexivity.
    + rewrite C. destruct x; try discriminate; reflexivity.
  - intros N. destruct (is_finite x) eqn:F; [|destruct x; try discriminate; reflexivity]. pose proof (cast_finite x F) as C. destruct (Rlt_bool_spec (Rabs (rnd_dst (B2R x))) (bpow radix2 e')); [tauto|].
    rewrite C. cbn [Bsign]. destruct x as [s|s| |s m ex B]; try discriminate.
    cbn [Bsign]. destruct s; [apply Rlt_bool_true, F2R_lt_0|apply Rlt_bool_false, F2R_ge_0]; cbn; lia.
  - intros s ->. reflexivity.
  - intros F Fc y Fy. pose proof (cast_finite x F) as C. destruct (Rlt_bool _ _); [|rewrite C in Fc; discriminate]. destruct C as (-> & _ & _).
    unfold rnd_dst. destruct (round_N_pt radix2 (SpecFloat.fexp p' e') (fun n => negb (Z.even n)) (B2R x)) as [_ Hn]. apply Hn. apply generic_format_B2R.
  - intros F Fc y Fy. pose proof (cast_finite x F) as C. destruct (Rlt_bool_spec (Rabs (rnd_dst (B2R x))) (bpow radix2 e')) as [L|L]; [destruct C as (_ & C & _); congruence|].
    apply Rnot_le_lt. intros K. assert (T : Rabs (rnd_dst (B2R x)) <= Rabs (B2R y)); [|pose proof (abs_B2R_lt_emax p' e' y); lra].
    unfold rnd_dst. apply abs_round_le_generic; auto with typeclass_instances. apply generic_format_abs, generic_format_B2R.
Qed.
(** casts are monotone, rounding and overflow included *)
Theorem C104_cast_monotone (x y : src) : Bleb x y = true -> Bleb (cast x : dst) (cast y : dst) = true.
Proof.
  assert (SN : is_nan (cast (x : src) : dst) = is_nan x) by apply C104_cast_spec. assert (SNy : is_nan (cast (y : src) : dst) = is_nan y) by apply C104_cast_spec.
  intros H. destruct (is_finite x) eqn:Fx, (is_finite y) eqn:Fy.
  - rewrite Bleb_correct in H by auto. destruct (Rle_bool_spec (B2R x) (B2R y)) as [L|]; [|discriminate].
    pose proof (cast_finite x Fx) as Cx. pose proof (cast_finite y Fy) as Cy. pose proof (rnd_dst_le _ _ L) as Lr.
    destruct (Rlt_bool_spec (Rabs (rnd_dst (B2R x))) (bpow radix2 e')) as [Tx|Tx], (Rlt_bool_spec (Rabs (rnd_dst (B2R y))) (bpow radix2 e')) as [Ty|Ty].
    + destruct Cx as (Vx & Gx & _), Cy as (Vy & Gy & _). rewrite Bleb_correct, Vx, Vy by auto. apply Rle_bool_true, Lr.
    + destruct Cx as (Vx & Gx & _). rewrite Cy. destruct (Rlt_bool_spec (B2R y) 0) as [Ny|Py].
      * exfalso. assert (rnd_dst (B2R y) <= 0) by (apply rnd_dst_neg; lra). rewrite Rabs_left1 in Ty by lra. rewrite Rabs_left1 in Tx by lra. lra.
      * destruct (cast x) as [s|s| |s m ex B]; try discriminate; destruct s; reflexivity.
    + destruct Cy as (Vy & Gy & _). rewrite Cx. destruct (Rlt_bool_spec (B2R x) 0) as [Nx|Px].
      * destruct (cast y) as [s|s| |s m ex B]; try discriminate; destruct s; reflexivity.
      * exfalso. assert (0 <= rnd_dst (B2R x)) by (apply rnd_dst_pos; lra). rewrite Rabs_pos_eq in Tx by lra. rewrite Rabs_pos_eq in Ty by lra. lra.
    + rewrite Cx, Cy. destruct (Rlt_bool_spec (B2R x) 0), (Rlt_bool_spec (B2R y) 0); try reflexivity. lra.
  - destruct y as [s|s| |s m ex B]; try discriminate. destruct s; [destruct x as [s'|s'| |s' m' ex' B']; try discriminate; destruct s'; discriminate|].
    assert (N : is_nan (cast x : dst) = false) by (rewrite SN; destruct x; try discriminate; reflexivity). cbn [cast]. destruct (cast x) as [s|s| |s m ex B]; try discriminate; destruct s; reflexivity.
    destruct x as [s'|s'| |s' m' ex' B']; discriminate.
  - destruct x as [s|s| |s m ex B]; try discriminate. destruct s; [|destruct y as [s'|s'| |s' m' ex' B']; try discriminate; destruct s'; discriminate].
    assert (N : is_nan (cast y : dst) = false) by (rewrite SNy; destruct y; try discriminate; reflexivity). cbn [cast]. destruct (cast y) as [s|s| |s m ex B]; try discriminate; destruct s; reflexivity.
  - destruct x as [s|s| |s m ex B]; try discriminate; destruct y as [s'|s'| |s' m' ex' B']; try discriminate; destruct s, s'; try discriminate; reflexivity.
Qed.
End Cast.
Definition widen (x : float32) : float64 := cast x.
Definition narrow (x : float64) : float32 := cast x.
Lemma format_widen (x : float32) : generic_format radix2 (SpecFloat.fexp 53 1024) (B2R x).
Proof.
  apply (generic_inclusion_mag radix2 (SpecFloat.fexp 24 128)); [|apply generic_format_B2R].
  intros N. pose proof (abs_B2R_lt_emax 24 128 x) as T.
  assert (L : (SpecFloat.fexp 24 128 (mag radix2 (B2R x)) <= 104)%Z).
  { assert ((mag radix2 (B2R x) : Z) <= 128)%Z by (apply mag_le_bpow; auto). unfold SpecFloat.fexp, SpecFloat.emin. lia. }
  unfold SpecFloat.fexp, SpecFloat.emin in *. lia.
Qed.
(** widening f32 to f64 changes no value *)
Theorem C104_widen_exact (x : float32) : is_finite x = true -> is_finite (widen x) = true /\ B2R (widen x) = B2R x /\ Bsign (widen x) = Bsign x.
Proof.
  intros F. pose proof (cast_finite (p' := 53) (e' := 1024) x F) as C. unfold widen.
  assert (E : @rnd_dst 53 1024 (B2R x) = B2R x) by (apply round_generic; [auto with typeclass_instances|apply format_widen]). rewrite E in C.
  rewrite Rlt_bool_true in C; [tauto|]. eapply Rlt_trans; [apply abs_B2R_lt_emax|]. apply bpow_lt. lia.
Qed.
(** and narrowing it again gives it back, for every f32 *)
Theorem C104_round_trip (x : float32) : narrow (widen x) = x.
Proof.
  destruct (is_finite x) eqn:F; [|destruct x; try discriminate; reflexivity]. destruct (C104_widen_exact x F) as (Fw & Vw & Sw).
  pose proof (cast_finite (p' := 24) (e' := 128) (widen x) Fw) as C. unfold narrow.
  assert (E : @rnd_dst 24 128 (B2R (widen x)) = B2R x).
  { rewrite Vw. apply round_generic; [auto with typeclass_instances|apply generic_format_B2R]. }
  rewrite E in C. rewrite Rlt_bool_true in C by apply abs_B2R_lt_emax. destruct C as (V & G & S). apply B2R_Bsign_inj; auto. rewrite S, Sw. reflexivity.
Qed.
(** in the other direction values are lost *)
Theorem C104_narrow_refuted : exists x : float64, is_finite x = true /\ widen (narrow x) <> x /\ exists y : float64, is_finite y = true /\ is_finite (narrow y) = false.
Proof.
  exists (of_int 16777217). split; [vm_compute; reflexivity|]. split.
  - intros H. apply (f_equal B2SF) in H. revert H. vm_compute. discriminate.
  - exists (binary_normalize 53 1024 _ _ mode_NE 1 128 false). split; vm_compute; reflexivity.
Qed.
(** every u32 is exact in f64, every usize up to 2^53 *)
Theorem C104_ints_exact n : (0 <= n <= 2 ^ 53)%Z -> is_finite (of_int n : float64) = true /\ B2R (of_int n : float64) = IZR n.
Proof. intros H. destruct (of_int_spec (prec := 53) (emax := 1024) n) as [A B]; [lia|auto]. Qed.
(** of all larger ones only the order survives *)
Theorem C104_ints_monotone_partial n m : (0 <= n <= m)%Z -> (m < 2 ^ 64)%Z -> Bleb (of_int n : float64) (of_int m) = true.
Proof.
  intros H Hm. assert (X : forall k, (0 <= k < 2 ^ 64)%Z -> is_finite (of_int k : float64) = true /\ B2R (of_int k : float64) = @rnd_dst 53 1024 (IZR k)).
  { intros k Hk. pose proof (binary_normalize_correct 53 1024 _ _ mode_NE k 0 false) as C. cbn zeta in C. fold (@of_int 53 1024 _ _ k) in C. replace (F2R (Float radix2 k 0)) with (IZR k) in C by (unfold F2R; cbn; ring).
    rewrite Rlt_bool_true in C; [tauto|]. apply Rle_lt_trans with (bpow radix2 64); [|apply bpow_lt; lia].
    apply abs_round_le_generic; [apply fexp_correct; reflexivity|auto with typeclass_instances|apply generic_format_bpow; unfold SpecFloat.fexp, SpecFloat.emin; lia|].
    rewrite <- abs_IZR, <- IZR_Zpower by lia. apply IZR_le. cbn. lia. }
  destruct (X n) as [F1 V1]; [lia|]. destruct (X m) as [F2 V2]; [lia|]. rewrite Bleb_correct, V1, V2 by auto. apply Rle_bool_true, rnd_dst_le, IZR_le. lia.
Qed.
Theorem C104_usize_refuted : exists n m, (0 <= n < m)%Z /\ (m < 2 ^ 64)%Z /\ (of_int n : float64) = of_int m.
Proof. exists 9007199254740992%Z, 9007199254740993%Z. split; [lia|]. split; [lia|]. apply B2SF_inj; vm_compute; reflexivity. Qed.
Theorem C104_u32_f32_refuted : exists n m, (0 <= n < m)%Z /\ (m < 2 ^ 32)%Z /\ (of_int n : float32) = of_int m.
Proof. exists 16777216%Z, 16777217%Z. split; [lia|]. split; [lia|]. apply B2SF_inj; vm_compute; reflexivity. Qed.
Example C104_nontrivial : exists x y : float64, Bltb x y = true /\ is_finite x = true /\ narrow x = narrow y /\ B2R (narrow x) = 16777216.
Proof.
  exists (of_int 16777216), (of_int 16777217). split; [vm_compute; reflexivity|]. split; [vm_compute; reflexivity|]. split; [apply B2SF_inj; vm_compute; reflexivity|].
  replace (narrow (of_int 16777216)) with (@of_int 24 128 _ _ 16777216) by (apply B2SF_inj; vm_compute; reflexivity).
  apply (of_int_spec (prec := 24) (emax := 128) 16777216). lia.
Qed.
