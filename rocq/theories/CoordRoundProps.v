(** C137: cylindrical and spherical coordinates in floating point. *)
From Coq Require Import ZArith QArith Qreals Reals Lra Lia Bool Arith List Psatz.
From Verif Require Import Scalar LinModel Trig Geo3 AttModel QuatFloatModel GeoFloatModel CoordFloatModel.
From Flocq Require Import Core BinarySingleNaN.
From Verif Require Import FloatModel RoundProps StatsFloatProps InterpFloatProps Apx.
From Verif Require GeoFloatProps DcmRoundProps RealAngleProps.
Import ListNotations.
Local Open Scope R_scope.

(** ** Specification *)
(** [a y x] is an angle whose direction is that of the point (x, y), up to [s] relative to the length (this is also true of the
    -pi that IEEE atan2 returns for y = -0, x < 0); [acosf] and [asinf] are within [s] on [-1, 1] and not a number outside *)
Definition accurate_angles {prec emax} (a : angles (binary_float prec emax)) (s : R) : Prop :=
  (forall y x, is_finite y = true -> is_finite x = true -> is_finite (atan2f a y x) = true /\
     let r := sqrt (B2R x * B2R x + B2R y * B2R y) in
     Rabs (r * cos (B2R (atan2f a y x)) - B2R x) <= s * r /\ Rabs (r * sin (B2R (atan2f a y x)) - B2R y) <= s * r) /\
  (forall x, is_finite x = true -> Rabs (B2R x) <= 1 -> apx (acosf a x) (acos (B2R x)) s /\ apx (asinf a x) (asin (B2R x)) s) /\
  (forall x, is_finite x = true -> 1 < Rabs (B2R x) -> acosf a x = B754_nan /\ asinf a x = B754_nan).
(** the squares of lengths about [r] neither overflow nor underflow *)
Definition fair (prec emax : Z) (r : R) : Prop :=
  0 < r /\ tiny prec emax <= unit prec / 1000 * (r * r) /\ 2 * (r * r) <= largest prec emax.

(** the model is the code of [AttModel] *)
Definition Rangles : angles R := mkAngles atan2 acos asin.
Definition V (p : gvec R) : V3 := mkV (gx p) (gy p) (gz p).
Theorem C137_same_code : forall p,
  V (g_cyl_of_cart Rops Rangles p) = cyl_of_cart (V p) /\ V (g_sph_of_cart Rops Rangles p) = sph_of_cart (V p) /\
  V (g_sph_of_cyl Rops Rangles p) = sph_of_cyl (V p) /\ V (g_cyl_of_sph Rops GeoFloatProps.Rtrig p) = cyl_of_sph (V p) /\
  V (g_cart_of_sph Rops GeoFloatProps.Rtrig p) = cart_of_sph (V p) /\ V (g_cart_of_cyl Rops GeoFloatProps.Rtrig p) = cart_of_cyl (V p).
Proof.
  intros p. split; [reflexivity|]. split; [reflexivity|]. split; [|split; [reflexivity|]; split; reflexivity].
  unfold V, g_sph_of_cyl, sph_of_cyl. cbn [gx gy gz Rops add mul div sqrtf zero eqb Rangles acosf atan2f vx vy vz]. unfold Reqb. destruct (Req_EM_T _ 0); reflexivity.
Qed.

Section Width.
Context (prec emax : Z) {P : Prec_gt_0 prec} {M : Prec_lt_emax prec emax}.
Context (Hp : (24 <= prec)%Z) (He : (64 <= emax)%Z).
Local Notation fl := (binary_float prec emax).
Local Notation u := (unit prec).
Local Notation eta := (tiny prec emax).
Local Notation o := (float_ops prec emax).
Local Notation fexp := (SpecFloat.fexp prec emax).
Local Notation rd := (round radix2 (SpecFloat.fexp prec emax) ZnearestE).
Local Notation u24 := (GeoFloatProps.u24 prec Hp).
Local Notation eta_u := (GeoFloatProps.eta_u prec emax He).
Local Notation largest63 := (GeoFloatProps.largest63 prec emax Hp He).

Lemma vx_ : Valid_exp fexp. Proof. exact (fexp_correct prec emax P). Qed.
Existing Instance vx_.
Lemma eta_fair r : fair prec emax r -> eta <= u / 1000 * r.
Proof.
  intros (P0 & E & _). pose proof eta_u as Eu. pose proof (u_pos prec) as Pu. destruct (Rle_lt_dec 1 r) as [H|H].
  - eapply Rle_trans; [exact Eu|]. apply Rle_trans with (u / 1000 * 1); [lra|]. apply Rmult_le_compat_l; lra.
  - eapply Rle_trans; [exact E|]. apply Rmult_le_compat_l; [lra|]. rewrite <- (Rmult_1_r r) at 3. apply Rmult_le_compat_l; lra.
Qed.
Ltac base := pose proof (u_pos prec) as Pu; pose proof u24 as U; pose proof (eta_pos prec emax) as Pe; pose proof largest63 as G;
  assert (UU : 0 <= u * u <= / 16777216 * u) by (split; [apply Rmult_le_pos; lra|apply Rmult_le_compat_r; lra]).

(** *** Sums of squares and their roots *)
Lemma square_apx (x : fl) : is_finite x = true -> B2R x * B2R x <= largest prec emax -> apx (mul o x x) (B2R x * B2R x) (u * (B2R x * B2R x) + eta).
Proof.
  intros F L. assert (E : Rabs (B2R x) * Rabs (B2R x) = B2R x * B2R x) by (rewrite <- Rabs_mult; apply Rabs_pos_eq, Rle_0_sqr).
  eapply apx_weak; [apply (apx_mul prec emax) with (bx := Rabs (B2R x)) (by_ := Rabs (B2R x)) (1 := apx_exact prec emax x F) (2 := apx_exact prec emax x F); try lra|].
  rewrite !Rplus_0_r, E. lra.
Qed.
Lemma sum2_apx (x y : fl) r : is_finite x = true -> is_finite y = true -> r * r = B2R x * B2R x + B2R y * B2R y -> fair prec emax r ->
  apx (add o (mul o x x) (mul o y y)) (r * r) (301 / 100 * u * (r * r)).
Proof.
  intros Fx Fy E (Pr & L & H). base. pose proof (Rle_0_sqr (B2R x)) as Sx. pose proof (Rle_0_sqr (B2R y)) as Sy. unfold Rsqr in Sx, Sy.
  remember (r * r) as W eqn:EW. assert (PW : 0 <= W) by lra. assert (UW : 0 <= u * W <= / 16777216 * W) by (split; [apply Rmult_le_pos; lra|apply Rmult_le_compat_r; lra]).
  assert (UUW : u * (u * W) <= / 16777216 * (u * W)) by (apply Rmult_le_compat_r; lra).
  assert (UE : u * eta <= / 16777216 * eta) by (apply Rmult_le_compat_r; lra).
  assert (T : u * (B2R x * B2R x) + eta + (u * (B2R y * B2R y) + eta) = u * W + 2 * eta) by (rewrite E; ring).
  pose proof (apx_add prec emax (mul o x x) (mul o y y) _ _ _ _ W (square_apx x Fx ltac:(lra)) (square_apx y Fy ltac:(lra))) as K. rewrite T in K. rewrite <- E in K.
  eapply apx_weak; [apply K; [rewrite Rabs_pos_eq by lra; lra|lra]|lra].
Qed.
Lemma sum3_apx (x y z : fl) r : is_finite x = true -> is_finite y = true -> is_finite z = true -> r * r = B2R x * B2R x + B2R y * B2R y + B2R z * B2R z -> fair prec emax r ->
  apx (add o (add o (mul o x x) (mul o y y)) (mul o z z)) (r * r) (301 / 100 * u * (r * r)).
Proof.
  intros Fx Fy Fz E (Pr & L & H). base. pose proof (Rle_0_sqr (B2R x)) as Sx. pose proof (Rle_0_sqr (B2R y)) as Sy. pose proof (Rle_0_sqr (B2R z)) as Sz. unfold Rsqr in Sx, Sy, Sz.
  remember (r * r) as W eqn:EW. assert (PW : 0 <= W) by lra. assert (UW : 0 <= u * W <= / 16777216 * W) by (split; [apply Rmult_le_pos; lra|apply Rmult_le_compat_r; lra]).
  remember (B2R x * B2R x + B2R y * B2R y) as S eqn:HS. assert (US : u * S <= / 16777216 * S) by (apply Rmult_le_compat_r; lra). assert (PS : 0 <= u * S) by (apply Rmult_le_pos; lra).
  assert (UUS : 0 <= u * (u * S) <= / 16777216 * (u * S)) by (split; [apply Rmult_le_pos; lra|apply Rmult_le_compat_r; lra]).
  assert (UUW : u * (u * W) <= / 16777216 * (u * W)) by (apply Rmult_le_compat_r; lra).
  assert (UE : u * eta <= / 16777216 * eta) by (apply Rmult_le_compat_r; lra). assert (PUE : 0 <= u * eta) by (apply Rmult_le_pos; lra).
  assert (UZ : u * W = u * S + u * (B2R z * B2R z)) by (rewrite E; ring).
  assert (A2 : apx (add o (mul o x x) (mul o y y)) S (2001 / 1000 * (u * S) + 2001 / 1000 * eta)).
  { assert (T : u * (B2R x * B2R x) + eta + (u * (B2R y * B2R y) + eta) = u * S + 2 * eta) by (rewrite HS; ring).
    pose proof (apx_add prec emax (mul o x x) (mul o y y) _ _ _ _ S (square_apx x Fx ltac:(lra)) (square_apx y Fy ltac:(lra))) as K. rewrite T in K. rewrite <- HS in K.
    eapply apx_weak; [apply K; [rewrite Rabs_pos_eq by lra; lra|lra]|lra]. }
  assert (Pzz : 0 <= u * (B2R z * B2R z)) by (apply Rmult_le_pos; lra).
  assert (T : 2001 / 1000 * (u * S) + 2001 / 1000 * eta + (u * (B2R z * B2R z) + eta) <= 2001 / 1000 * (u * W) + 3001 / 1000 * eta) by lra.
  set (T0 := 2001 / 1000 * (u * S) + 2001 / 1000 * eta + (u * (B2R z * B2R z) + eta)) in *.
  assert (UT : u * T0 <= / 16777216 * T0) by (apply Rmult_le_compat_r; unfold T0; lra).
  assert (ES : W = S + B2R z * B2R z) by (rewrite E; reflexivity).
  pose proof (apx_add prec emax _ (mul o z z) _ _ _ _ W A2 (square_apx z Fz ltac:(lra))) as K. fold T0 in K. rewrite <- ES in K.
  eapply apx_weak; [apply K; [rewrite Rabs_pos_eq by lra; lra|lra]|lra].
Qed.
Lemma root_apx (w : fl) r : fair prec emax r -> apx w (r * r) (301 / 100 * u * (r * r)) -> apx (sqrtf o w) r (402 / 100 * u * r).
Proof.
  intros Fr A. pose proof (eta_fair r Fr) as Er. destruct Fr as (Pr & L & H). base.
  assert (Ur : 0 <= u * r) by (apply Rmult_le_pos; lra). assert (UUr : u * (u * r) <= / 16777216 * (u * r)) by (apply Rmult_le_compat_r; lra).
  assert (PW : 0 < r * r) by (apply Rmult_lt_0_compat; lra). assert (UW : u * (r * r) <= / 16777216 * (r * r)) by (apply Rmult_le_compat_r; lra).
  pose proof (apx_sqrt prec emax w (r * r) (301 / 100 * u * (r * r)) r r A ltac:(lra) Pr) as K. rewrite sqrt_square in K by lra.
  specialize (K (Rle_refl _) (Rle_refl _)). eapply apx_weak; [exact K|]. replace (301 / 100 * u * (r * r) / r) with (301 / 100 * (u * r)) by (field; lra). lra.
Qed.

(** *** The computed length is at least each coordinate *)
Lemma rd_mono x y : x <= y -> rd x <= rd y. Proof. intros L. apply round_le; [apply vx_|apply valid_rnd_N|exact L]. Qed.
Lemma root_of_square a : generic_format radix2 fexp a -> 0 < a -> bpow radix2 (3 - emax) <= a * a -> a <= rd (sqrt (rd (a * a))).
Proof.
  intros Fa Pa N. pose proof (u_pos prec) as Pu. pose proof P as Pp. unfold Prec_gt_0 in Pp.
  assert (Ra : Rabs (rd (a * a) - a * a) <= u * (a * a)).
  { destruct (rd_normal prec emax (a * a)) as (d & D & ->).
    - rewrite Rabs_pos_eq by nra. eapply Rle_trans; [|exact N]. apply bpow_le. lia.
    - replace (a * a * (1 + d) - a * a) with (d * (a * a)) by ring. rewrite Rabs_mult, (Rabs_pos_eq (a * a)) by nra. apply Rmult_le_compat_r; [nra|exact D]. }
  assert (Ea : bpow radix2 (mag radix2 a - 1) <= a < bpow radix2 (mag radix2 a)).
  { pose proof (bpow_mag_gt radix2 a) as A1. pose proof (bpow_mag_le radix2 a ltac:(lra)) as A2. rewrite Rabs_pos_eq in A1, A2 by lra. split; assumption. }
  remember (mag_val radix2 a (mag radix2 a)) as e eqn:Em. symmetry in Em.
  set (h := bpow radix2 (e - 1)) in *. assert (E2 : bpow radix2 e = 2 * h) by (unfold h; replace e with (1 + (e - 1))%Z at 1 by lia; rewrite bpow_plus; reflexivity).
  assert (Ph : 0 < h) by apply bpow_gt_0.
  destruct (Rle_lt_or_eq_dec _ _ (proj1 Ea)) as [Lh|Eh].
  2:{ (* a power of two: the square is exact *)
    assert (Ex : rd (a * a) = a * a).
    { apply round_generic; [apply valid_rnd_N|]. rewrite <- Eh. unfold h. rewrite <- bpow_plus. apply generic_format_bpow. unfold fexp.
      assert ((3 - emax < e - 1 + (e - 1) + 1)%Z); [|unfold SpecFloat.fexp, SpecFloat.emin; lia].
      apply (lt_bpow radix2). eapply Rle_lt_trans; [exact N|]. rewrite <- Eh. unfold h. rewrite <- bpow_plus. apply bpow_lt. lia. }
    rewrite Ex, sqrt_square by lra. rewrite round_generic; [lra|apply valid_rnd_N|exact Fa]. }
  assert (En : (3 - emax < e + e)%Z).
  { apply (lt_bpow radix2). eapply Rle_lt_trans; [exact N|]. rewrite bpow_plus. apply Rmult_le_0_lt_compat; lra. }
  assert (Cx : cexp radix2 fexp a = (e - prec)%Z).
  { unfold cexp. rewrite Em. cbn [mag_val]. unfold SpecFloat.fexp, SpecFloat.emin. pose proof M as Mm. unfold Prec_lt_emax in Mm. lia. }
  assert (Ul : ulp radix2 fexp a = 2 * (h * u)).
  { rewrite ulp_neq_0 by lra. rewrite Cx. unfold h, unit. rewrite <- bpow_plus. replace (e - prec)%Z with (1 + (e - 1 + - prec))%Z by lia. rewrite bpow_plus. reflexivity. }
  assert (Up : a <= 2 * h - 2 * (h * u)).
  { rewrite <- E2, <- Ul. replace (ulp radix2 fexp a) with (ulp radix2 fexp (pred radix2 fexp (bpow radix2 e))).
    - apply Rle_trans with (pred radix2 fexp (bpow radix2 e)).
      + apply pred_ge_gt; [apply vx_|exact Fa| |exact (proj2 Ea)]. apply generic_format_bpow. unfold SpecFloat.fexp, SpecFloat.emin. lia.
      + assert (S : succ radix2 fexp (pred radix2 fexp (bpow radix2 e)) = bpow radix2 e).
        { apply succ_pred; [apply vx_|]. apply generic_format_bpow. unfold SpecFloat.fexp, SpecFloat.emin. lia. }
        rewrite <- S at 2. rewrite succ_eq_pos; [lra|]. apply pred_ge_0; [apply vx_|apply bpow_gt_0|]. apply generic_format_bpow. unfold SpecFloat.fexp, SpecFloat.emin. lia.
    - rewrite ulp_neq_0 with (x := a) by lra. rewrite Cx. rewrite pred_bpow, ulp_neq_0.
      + unfold cexp. f_equal. replace (mag_val radix2 _ (mag radix2 (bpow radix2 e - bpow radix2 (fexp e)))) with e; [unfold SpecFloat.fexp, SpecFloat.emin; lia|].
        symmetry. apply mag_unique. assert (Q : bpow radix2 (fexp e) <= h).
        { unfold h. apply bpow_le. unfold SpecFloat.fexp, SpecFloat.emin. lia. }
        pose proof (bpow_gt_0 radix2 (fexp e)). rewrite Rabs_pos_eq by lra. fold h. lra.
      + assert (Q : bpow radix2 (fexp e) <= h) by (unfold h; apply bpow_le; unfold SpecFloat.fexp, SpecFloat.emin; lia). lra. }
  apply round_N_ge_midp; [apply vx_|exact Fa|].
  rewrite pred_eq_pos by lra. unfold pred_pos. rewrite Em. cbn [mag_val]. fold h. rewrite Req_bool_false by lra. rewrite Ul.
  assert (U1 : u <= / 2) by (unfold unit; replace (/ 2) with (bpow radix2 (-1)) by (cbn; lra); apply bpow_le; lia).
  assert (Hu : 0 < h * u) by (apply Rmult_lt_0_compat; lra). assert (Hu2 : h * u <= h * / 2) by (apply Rmult_le_compat_l; lra).
  replace ((a + (a - 2 * (h * u))) / 2) with (a - h * u) by field.
  apply Rabs_le_inv in Ra. assert (Lw : a * a * (1 - u) <= rd (a * a)) by lra.
    rewrite <- (sqrt_square (a - h * u)) by lra. apply sqrt_lt_1_alt. split; [nra|]. eapply Rlt_le_trans; [|exact Lw].
  assert (K : a * a * u + h * u * (h * u) < 2 * a * (h * u)).
  { assert (K1 : a * a + h * (h * u) < 2 * a * h).
    { assert (Q1 : 0 <= (a - h) * (2 * h - 2 * (h * u) - a)) by (apply Rmult_le_pos; lra). assert (Q2 : 0 <= h * (2 * h - 2 * (h * u) - a)) by (apply Rmult_le_pos; lra).
      assert (Q3 : 0 <= h * u * (a - h)) by (apply Rmult_le_pos; lra). assert (Q4 : 0 < h * (h * u)) by (apply Rmult_lt_0_compat; lra). lra. }
    replace (a * a * u + h * u * (h * u)) with (u * (a * a + h * (h * u))) by ring. replace (2 * a * (h * u)) with (u * (2 * a * h)) by ring. apply Rmult_lt_compat_l; lra. }
  nra.
Qed.

(** a computed sum of squares that is at least the computed square of [z] has a computed root of at least |z| *)
Lemma at_least (w z : fl) r : is_finite z = true -> is_finite w = true -> fair prec emax r -> apx (sqrtf o w) r (402 / 100 * u * r) ->
  0 < B2R w -> rd (B2R z * B2R z) <= B2R w -> Rabs (B2R z) <= r -> Rabs (B2R z) <= B2R (sqrtf o w).
Proof.
  intros Fz Fw Fr A Pw Lw Lz. destruct (Rle_lt_dec (r / 2) (Rabs (B2R z))) as [H|H].
  - destruct Fr as (Pr & L & _). rewrite (proj2 (sqrt_value prec emax w Fw Pw)).
    assert (E : Rabs (B2R z) * Rabs (B2R z) = B2R z * B2R z) by (rewrite <- Rabs_mult; apply Rabs_pos_eq, Rle_0_sqr).
    eapply Rle_trans; [apply root_of_square|].
    + apply generic_format_abs, generic_format_B2R.
    + lra.
    + rewrite E. assert (Q : r * r / 4 <= B2R z * B2R z) by (rewrite <- E; replace (r * r / 4) with (r / 2 * (r / 2)) by field; apply Rmult_le_compat; lra).
      eapply Rle_trans; [|exact Q]. pose proof (u_pos prec) as Pu.
      assert (K : bpow radix2 (3 - emax - prec) = bpow radix2 (3 - emax) * u) by (unfold unit; rewrite <- bpow_plus; f_equal; lia).
      unfold tiny in L. rewrite K in L. assert (L' : / 2 * bpow radix2 (3 - emax) <= r * r / 1000) by (apply (Rmult_le_reg_r u); [exact Pu|]; apply Rle_trans with (1 := Req_le _ _ (Rmult_assoc _ _ _)); eapply Rle_trans; [exact L|]; right; field). pose proof (bpow_gt_0 radix2 (3 - emax)). lra.
    + rewrite E. apply rd_mono. apply sqrt_le_1_alt. exact Lw.
  - destruct A as [_ A]. apply Rabs_le_inv in A. destruct Fr as (Pr & _ & _). base. assert (u * r <= / 16777216 * r) by (apply Rmult_le_compat_r; lra). lra.
Qed.
Lemma rd_nonneg x : 0 <= x -> 0 <= rd x.
Proof. intros L. rewrite <- (round_0 radix2 fexp ZnearestE). apply rd_mono, L. Qed.
Lemma rd_sum_ge (x y : fl) : is_finite (add o x y) = true -> 0 <= B2R x -> B2R y <= B2R (add o x y).
Proof. intros F L. destruct (add_fin prec emax x y F) as (_ & _ & ->). rewrite <- (rd_id prec emax y) at 1. apply rd_mono. lra. Qed.
Lemma rd_sum_ge' (x y : fl) : is_finite (add o x y) = true -> 0 <= B2R y -> B2R x <= B2R (add o x y).
Proof. intros F L. destruct (add_fin prec emax x y F) as (_ & _ & ->). rewrite <- (rd_id prec emax x) at 1. apply rd_mono. lra. Qed.
Lemma sq_nonneg (x : fl) : is_finite (mul o x x) = true -> 0 <= B2R (mul o x x).
Proof. intros F. destruct (mul_fin prec emax x x F) as (_ & _ & ->). apply rd_nonneg, Rle_0_sqr. Qed.

(** the quotient whose arc cosine is taken *)
Lemma ratio_apx (z rho : fl) r : is_finite z = true -> 0 < r -> apx rho r (402 / 100 * u * r) -> Rabs (B2R z) <= r -> Rabs (B2R z) <= B2R rho ->
  apx (div o z rho) (B2R z / r) (503 / 100 * u) /\ Rabs (B2R (div o z rho)) <= 1.
Proof.
  intros Fz Pr A Lz Lr. base. pose proof eta_u as Eu. assert (Ur : 0 <= u * r <= / 16777216 * r) by (split; [apply Rmult_le_pos; lra|apply Rmult_le_compat_r; lra]).
  pose proof A as [Fr Hr]. apply Rabs_le_inv in Hr.
  assert (K : (402 / 100 * u * r) / (r - 402 / 100 * u * r) <= 4021 / 1000 * u).
  { apply (Rmult_le_reg_r (r - 402 / 100 * u * r)); [lra|]. unfold Rdiv at 1. rewrite Rmult_assoc, Rinv_l by lra.
    assert (u * (u * r) <= / 16777216 * (u * r)) by (apply Rmult_le_compat_r; lra). lra. }
  assert (Bq : Rabs (B2R z / r) <= 1).
  { unfold Rdiv. rewrite Rabs_mult, Rabs_inv, (Rabs_pos_eq r) by lra. apply (Rmult_le_reg_r r); [lra|]. rewrite Rmult_assoc, Rinv_l by lra. lra. }
  assert (D : apx (div o z rho) (B2R z / r) (503 / 100 * u)).
  { eapply apx_weak; [apply (apx_div prec emax z rho (B2R z) r 0 (402 / 100 * u * r) r 1 (apx_exact prec emax z Fz) A)|].
    - lra.
    - rewrite Rabs_pos_eq; lra.
    - exact Bq.
    - rewrite Rplus_0_l, Rmult_1_l. lra.
    - rewrite Rplus_0_l, Rmult_1_l. assert (u * ((402 / 100 * u * r) / (r - 402 / 100 * u * r)) <= u * (4021 / 1000 * u)) by (apply Rmult_le_compat_l; lra). lra. }
  split; [exact D|]. assert (Pn : 0 < B2R rho) by lra. destruct (StatsFloatProps.div_fin prec emax z rho ltac:(lra) (proj1 D)) as (_ & ->).
  apply abs_round_le_generic; [apply vx_|apply valid_rnd_N| |].
  - change 1 with (bpow radix2 0). apply generic_format_bpow. unfold SpecFloat.fexp, SpecFloat.emin. lia.
  - unfold Rdiv. rewrite Rabs_mult, Rabs_inv, (Rabs_pos_eq (B2R rho)) by lra. apply (Rmult_le_reg_r (B2R rho)); [lra|]. rewrite Rmult_assoc, Rinv_l by lra. lra.
Qed.

(** *** Into cylindrical and spherical coordinates *)
Definition finite3 (p : gvec fl) : Prop := is_finite (gx p) = true /\ is_finite (gy p) = true /\ is_finite (gz p) = true.
(** the distance from the axis and from the origin *)
Definition axial (p : gvec fl) : R := sqrt (B2R (gx p) * B2R (gx p) + B2R (gy p) * B2R (gy p)).
Definition radial (p : gvec fl) : R := sqrt (B2R (gx p) * B2R (gx p) + B2R (gy p) * B2R (gy p) + B2R (gz p) * B2R (gz p)).
Lemma axial_sq p : axial p * axial p = B2R (gx p) * B2R (gx p) + B2R (gy p) * B2R (gy p).
Proof. apply sqrt_sqrt. pose proof (Rle_0_sqr (B2R (gx p))). pose proof (Rle_0_sqr (B2R (gy p))). unfold Rsqr in *. lra. Qed.
Lemma radial_sq p : radial p * radial p = B2R (gx p) * B2R (gx p) + B2R (gy p) * B2R (gy p) + B2R (gz p) * B2R (gz p).
Proof. apply sqrt_sqrt. pose proof (Rle_0_sqr (B2R (gx p))). pose proof (Rle_0_sqr (B2R (gy p))). pose proof (Rle_0_sqr (B2R (gz p))). unfold Rsqr in *. lra. Qed.
Lemma z_radial p : Rabs (B2R (gz p)) <= radial p.
Proof.
  rewrite <- sqrt_Rsqr_abs. apply sqrt_le_1_alt. pose proof (Rle_0_sqr (B2R (gx p))). pose proof (Rle_0_sqr (B2R (gy p))). unfold Rsqr in *. lra.
Qed.
Lemma axial_radial p : 0 <= axial p <= radial p.
Proof. split; [apply sqrt_pos|]. apply sqrt_le_1_alt. pose proof (Rle_0_sqr (B2R (gz p))). unfold Rsqr in *. lra. Qed.

Theorem C137_to_cylindrical : forall (a : angles fl) p, finite3 p -> fair prec emax (axial p) ->
  apx (gx (g_cyl_of_cart o a p)) (axial p) (402 / 100 * u * axial p) /\ gy (g_cyl_of_cart o a p) = atan2f a (gy p) (gx p) /\ gz (g_cyl_of_cart o a p) = gz p.
Proof.
  intros a p (Fx & Fy & Fz) Fr. split; [|split; reflexivity]. cbn [g_cyl_of_cart gx]. apply root_apx; [exact Fr|].
  apply sum2_apx; [exact Fx|exact Fy|apply axial_sq|exact Fr].
Qed.
(** the radius, and the inclination through its cosine: always defined *)
Theorem C137_to_spherical : forall (a : angles fl) p, accurate_angles a (4 * u) -> finite3 p -> fair prec emax (radial p) ->
  let s := g_sph_of_cart o a p in
  apx (gx s) (radial p) (402 / 100 * u * radial p) /\ gy s = atan2f a (gy p) (gx p) /\
  is_finite (gz s) = true /\ exists c, Rabs c <= 1 /\ Rabs (c - B2R (gz p) / radial p) <= 503 / 100 * u /\ Rabs (B2R (gz s) - acos c) <= 4 * u.
Proof.
  intros a p (_ & AC & _) (Fx & Fy & Fz) Fr s.
  pose proof (sum3_apx _ _ _ (radial p) Fx Fy Fz (radial_sq p) Fr) as W.
  set (w := add o (add o (mul o (gx p) (gx p)) (mul o (gy p) (gy p))) (mul o (gz p) (gz p))) in *.
  pose proof (root_apx w (radial p) Fr W) as A. unfold s, g_sph_of_cart. cbn [gx gy gz]. fold w. split; [exact A|]. split; [reflexivity|].
  assert (Pw : 0 < B2R w).
  { destruct Fr as (Pr & _ & _). destruct W as [_ W]. apply Rabs_le_inv in W. base. assert (0 < radial p * radial p) by (apply Rmult_lt_0_compat; lra).
    assert (u * (radial p * radial p) <= / 16777216 * (radial p * radial p)) by (apply Rmult_le_compat_r; lra). lra. }
  assert (Lw : rd (B2R (gz p) * B2R (gz p)) <= B2R w).
  { destruct W as [Fw _]. destruct (add_fin prec emax _ _ Fw) as (F1 & F2 & _). destruct (mul_fin prec emax _ _ F2) as (_ & _ & <-).
    unfold w. apply rd_sum_ge; [exact Fw|]. destruct (add_fin prec emax _ _ F1) as (F3 & F4 & _).
    eapply Rle_trans; [apply (sq_nonneg (gy p)), F4|]. apply rd_sum_ge; [exact F1|]. apply sq_nonneg, F3. }
  pose proof (at_least w (gz p) (radial p) Fz (proj1 W) Fr A Pw Lw (z_radial p)) as Lz.
  destruct (ratio_apx (gz p) (sqrtf o w) (radial p) Fz (proj1 Fr) A (z_radial p) Lz) as (D & D1).
  assert (Pq : 0 < B2R (sqrtf o w)).
  { destruct Fr as (Pr & _ & _). destruct A as [_ A]. apply Rabs_le_inv in A. base. assert (u * radial p <= / 16777216 * radial p) by (apply Rmult_le_compat_r; lra). lra. }
  assert (E0 : eqb o (sqrtf o w) (zero o) = false).
  { cbn [eqb zero float_ops]. rewrite Beqb_correct by (exact (proj1 A) || reflexivity). apply Req_bool_false. cbn [B2R]. lra. }
  rewrite E0. destruct (AC _ (proj1 D) D1) as [[F H] _]. split; [exact F|]. exists (B2R (div o (gz p) (sqrtf o w))). split; [exact D1|]. split; [exact (proj2 D)|exact H].
Qed.

(** *** Back to Cartesian coordinates *)
Local Notation accurate := GeoFloatProps.accurate.
(** [x] approximates a length of at most [b], [y] a sine or cosine *)
Lemma times_trig (x y : fl) X Y ex ey b : apx x X ex -> apx y Y ey -> Rabs X <= b -> Rabs Y <= 1 -> ex <= b -> ey <= / 100 -> 3 * b <= largest prec emax ->
  apx (mul o x y) (X * Y) (ey * b + ex + ex * ey + u * ((b + ex) * (1 + ey)) + eta).
Proof.
  intros Ax Ay BX BY Lx Ly L. pose proof (apx_pos prec emax _ _ _ Ax) as Px. pose proof (apx_pos prec emax _ _ _ Ay) as Py.
  eapply apx_weak; [apply (apx_mul prec emax) with (bx := b) (by_ := 1) (1 := Ax) (2 := Ay); [exact BX|exact BY|]|lra].
  assert ((b + ex) * (1 + ey) <= (b + ex) * (101 / 100)) by (apply Rmult_le_compat_l; lra). lra.
Qed.
Theorem C137_from_cylindrical : forall (t : trig fl) c, accurate t (2 * u) -> finite3 c -> 3 * Rabs (B2R (gx c)) <= largest prec emax ->
  let p := g_cart_of_cyl o t c in let r := B2R (gx c) in let e := 301 / 100 * u * Rabs r + eta in
  apx (gx p) (r * cos (B2R (gy c))) e /\ apx (gy p) (r * sin (B2R (gy c))) e /\ gz p = gz c.
Proof.
  intros t c T (Fr & Fa & _) L p r e. base. pose proof (Rabs_pos r) as Pr. destruct (T _ Fa) as [S C].
  assert (Ur : 0 <= u * Rabs r) by (apply Rmult_le_pos; lra). assert (UUr : u * (u * Rabs r) <= / 16777216 * (u * Rabs r)) by (apply Rmult_le_compat_r; lra).
  split; [|split; [|reflexivity]]; unfold p, g_cart_of_cyl; cbn [gx gy].
  - eapply apx_weak; [apply (times_trig _ _ _ _ _ _ (Rabs r) (apx_exact prec emax _ Fr) C); [fold r; lra|apply GeoFloatProps.cos1|lra|lra|exact L]|unfold e; lra].
  - eapply apx_weak; [apply (times_trig _ _ _ _ _ _ (Rabs r) (apx_exact prec emax _ Fr) S); [fold r; lra|apply GeoFloatProps.sin1|lra|lra|exact L]|unfold e; lra].
Qed.
Theorem C137_from_spherical : forall (t : trig fl) s, accurate t (2 * u) -> finite3 s -> 4 * Rabs (B2R (gx s)) <= largest prec emax ->
  let p := g_cart_of_sph o t s in let c := g_cyl_of_sph o t s in
  let r := B2R (gx s) in let e := 604 / 100 * u * Rabs r + 3 * eta in let q := cart_of_sph (mkV r (B2R (gy s)) (B2R (gz s))) in
  apx (gx p) (vx q) e /\ apx (gy p) (vy q) e /\ apx (gz p) (vz q) e /\
  apx (gx c) (r * sin (B2R (gz s))) e /\ gy c = gy s /\ apx (gz c) (vz q) e.
Proof.
  intros t s T (Fr & Fa & Fi) L p c r e q. base. pose proof (Rabs_pos r) as Pr. destruct (T _ Fa) as [S C]. destruct (T _ Fi) as [Si Ci].
  assert (Ur : 0 <= u * Rabs r <= / 16777216 * Rabs r) by (split; [apply Rmult_le_pos; lra|apply Rmult_le_compat_r; lra]). assert (UUr : 0 <= u * (u * Rabs r) <= / 16777216 * (u * Rabs r)) by (split; [apply Rmult_le_pos; lra|apply Rmult_le_compat_r; lra]).
  pose proof eta_u as Eu. assert (UE : 0 <= u * eta <= / 16777216 * eta) by (split; [apply Rmult_le_pos; lra|apply Rmult_le_compat_r; lra]).
  assert (UUUr : u * (u * (u * Rabs r)) <= / 16777216 * (u * (u * Rabs r))) by (apply Rmult_le_compat_r; lra).
  assert (UUE : u * (u * eta) <= / 16777216 * (u * eta)) by (apply Rmult_le_compat_r; lra).
  assert (Hs : apx (mul o (gx s) (sinf t (gz s))) (r * sin (B2R (gz s))) (301 / 100 * u * Rabs r + eta)).
  { eapply apx_weak; [apply (times_trig _ _ _ _ _ _ (Rabs r) (apx_exact prec emax _ Fr) Si); [fold r; lra|apply GeoFloatProps.sin1|lra|lra|fold r in L; lra]|lra]. }
  assert (Hz : apx (mul o (gx s) (cosf t (gz s))) (r * cos (B2R (gz s))) (301 / 100 * u * Rabs r + eta)).
  { eapply apx_weak; [apply (times_trig _ _ _ _ _ _ (Rabs r) (apx_exact prec emax _ Fr) Ci); [fold r; lra|apply GeoFloatProps.cos1|lra|lra|fold r in L; lra]|lra]. }
  assert (Bs : Rabs (r * sin (B2R (gz s))) <= Rabs r) by (pose proof (GeoFloatProps.prod1 r _ _ _ (Rle_refl _) (GeoFloatProps.sin1 (B2R (gz s)))); lra).
  assert (K : forall y Y, apx y Y (2 * u) -> Rabs Y <= 1 -> apx (mul o (mul o (gx s) (sinf t (gz s))) y) (r * sin (B2R (gz s)) * Y) e).
  { intros y Y Ay By. eapply apx_weak; [apply (apx_mul prec emax) with (bx := Rabs r) (by_ := 1) (1 := Hs) (2 := Ay); [exact Bs|exact By|]|].
    - fold r in L. assert ((Rabs r + (301 / 100 * u * Rabs r + eta)) * (1 + 2 * u) <= (Rabs r + (301 / 100 * u * Rabs r + eta)) * (1 + 2 * / 16777216)) by (apply Rmult_le_compat_l; lra). lra.
    - unfold e. lra. }
  unfold p, c, q, g_cart_of_sph, g_cyl_of_sph, cart_of_sph. cbn [gx gy gz vx vy vz].
  split; [apply K; [exact C|apply GeoFloatProps.cos1]|]. split; [apply K; [exact S|apply GeoFloatProps.sin1]|].
  split; [eapply apx_weak; [exact Hz|unfold e; lra]|]. split; [eapply apx_weak; [exact Hs|unfold e; lra]|]. split; [reflexivity|eapply apx_weak; [exact Hz|unfold e; lra]].
Qed.

(** *** There and back *)
Theorem C137_cylindrical_round_trip : forall (t : trig fl) (a : angles fl) p, accurate t (2 * u) -> accurate_angles a (4 * u) -> finite3 p -> fair prec emax (axial p) ->
  let q := g_cart_of_cyl o t (g_cyl_of_cart o a p) in
  apx (gx q) (B2R (gx p)) (12 * u * axial p) /\ apx (gy q) (B2R (gy p)) (12 * u * axial p) /\ gz q = gz p.
Proof.
  intros t a p T (AT & _) Fp Fr q. destruct (C137_to_cylindrical a p Fp Fr) as (A & _). pose proof (eta_fair _ Fr) as Er. destruct Fp as (Fx & Fy & Fz).
  destruct (AT (gy p) (gx p) Fy Fx) as (Ft & Ac & As). destruct (T _ Ft) as [S C]. base. destruct Fr as (Pr & _ & L). fold (axial p) in Ac, As.
  cbn [g_cyl_of_cart gx] in A. unfold q, g_cart_of_cyl, g_cyl_of_cart. cbn [gx gy gz].
  set (rho := sqrtf o _) in *. set (th := atan2f a (gy p) (gx p)) in *. remember (axial p) as r eqn:HR.
  assert (Ur : 0 <= u * r <= / 16777216 * r) by (split; [apply Rmult_le_pos; lra|apply Rmult_le_compat_r; lra]).
  assert (UUr : 0 <= u * (u * r) <= / 16777216 * (u * r)) by (split; [apply Rmult_le_pos; lra|apply Rmult_le_compat_r; lra]).
  assert (UUUr : u * (u * (u * r)) <= / 16777216 * (u * (u * r))) by (apply Rmult_le_compat_r; lra).
  assert (L3 : 3 * r <= largest prec emax) by (destruct (Rle_lt_dec r 2); [lra|assert (2 * r <= r * r) by (apply Rmult_le_compat_r; lra); lra]).
  assert (K : forall y Y X, apx y Y (2 * u) -> Rabs Y <= 1 -> Rabs (r * Y - X) <= 4 * u * r -> apx (mul o rho y) X (12 * u * r)).
  { intros y Y X Ay By HX. destruct (times_trig rho y r Y _ _ r A Ay ltac:(rewrite Rabs_pos_eq; lra) By ltac:(lra) ltac:(lra) L3) as [F H]. split; [exact F|].
    replace (B2R (mul o rho y) - X) with ((B2R (mul o rho y) - r * Y) + (r * Y - X)) by ring. eapply Rle_trans; [apply Rabs_triang|]. lra. }
  split; [apply (K _ _ _ C (GeoFloatProps.cos1 _) Ac)|]. split; [apply (K _ _ _ S (GeoFloatProps.sin1 _) As)|reflexivity].
Qed.

Lemma cos_lip x y : Rabs (cos x - cos y) <= Rabs (x - y).
Proof.
  destruct (MVT_abs cos (fun x => - sin x) y x) as (c & E & _); [intros; apply derivable_pt_lim_cos|]. rewrite E, Rabs_Ropp.
  rewrite <- (Rmult_1_l (Rabs (x - y))) at 2. apply Rmult_le_compat_r; [apply Rabs_pos|apply GeoFloatProps.sin1].
Qed.
Lemma sin_lip x y : Rabs (sin x - sin y) <= Rabs (x - y).
Proof.
  destruct (MVT_abs sin cos y x) as (c & E & _); [intros; apply derivable_pt_lim_sin|]. rewrite E.
  rewrite <- (Rmult_1_l (Rabs (x - y))) at 2. apply Rmult_le_compat_r; [apply Rabs_pos|apply GeoFloatProps.cos1].
Qed.
(** two ways of bounding the difference of two roots *)
Lemma root_gap x y : 0 <= x -> 0 <= y -> Rabs (sqrt x - sqrt y) <= sqrt (Rabs (x - y)) /\ sqrt y * Rabs (sqrt x - sqrt y) <= Rabs (x - y).
Proof.
  intros Px Py. assert (Q : (sqrt x - sqrt y) * (sqrt x + sqrt y) = x - y) by (replace ((sqrt x - sqrt y) * (sqrt x + sqrt y)) with (sqrt x * sqrt x - sqrt y * sqrt y) by ring; rewrite !sqrt_sqrt by lra; reflexivity).
  pose proof (sqrt_pos x) as Sx. pose proof (sqrt_pos y) as Sy. assert (E : Rabs (x - y) = Rabs (sqrt x - sqrt y) * (sqrt x + sqrt y)) by (rewrite <- Q, Rabs_mult, (Rabs_pos_eq (sqrt x + sqrt y)) by lra; reflexivity).
  pose proof (Rabs_pos (sqrt x - sqrt y)) as Pd. split.
  - rewrite <- (sqrt_square (Rabs (sqrt x - sqrt y))) by exact Pd. apply sqrt_le_1_alt. rewrite E. apply Rmult_le_compat_l; [exact Pd|].
    unfold Rabs. destruct (Rcase_abs (sqrt x - sqrt y)); lra.
  - rewrite E, Rmult_comm. apply Rmult_le_compat_l; [exact Pd|lra].
Qed.
(** along the axis the position comes back to full precision; across it, up to the error [d] of the sine of the inclination *)
Lemma spherical_back (t : trig fl) (a : angles fl) p d : accurate t (2 * u) -> accurate_angles a (4 * u) -> finite3 p -> fair prec emax (radial p) ->
  (forall c, Rabs c <= 1 -> Rabs (c - B2R (gz p) / radial p) <= 503 / 100 * u -> Rabs (sqrt (1 - c * c) - axial p / radial p) <= d) -> 0 <= d <= / 1000 ->
  let q := g_cart_of_sph o t (g_sph_of_cart o a p) in
  apx (gx q) (B2R (gx p)) ((101 / 100 * d + 22 * u) * radial p) /\ apx (gy q) (B2R (gy p)) ((101 / 100 * d + 22 * u) * radial p) /\
  apx (gz q) (B2R (gz p)) (17 * u * radial p).
Proof.
  intros T Aa Fp Fr Hd Pd q. destruct (C137_to_spherical a p Aa Fp Fr) as (A & Ea & Fi & c & C1 & C2 & C3).
  pose proof (eta_fair _ Fr) as Er. destruct Fp as (Fx & Fy & Fz). destruct Aa as (AT & _). destruct (AT (gy p) (gx p) Fy Fx) as (Ft & Ac & As). fold (axial p) in Ac, As.
  destruct (T _ Ft) as [S C]. destruct (T _ Fi) as [Si Ci]. base. destruct Fr as (Pr & _ & L). pose proof (axial_radial p) as AR.
  unfold q, g_cart_of_sph. cbn [gx gy gz]. rewrite Ea. set (s := g_sph_of_cart o a p) in *. set (th := atan2f a (gy p) (gx p)) in *.
  specialize (Hd c C1 C2). remember (radial p) as r eqn:HR. remember (axial p) as b eqn:HB.
  assert (Ur : 0 <= u * r <= / 16777216 * r) by (split; [apply Rmult_le_pos; lra|apply Rmult_le_compat_r; lra]).
  assert (UUr : 0 <= u * (u * r) <= / 16777216 * (u * r)) by (split; [apply Rmult_le_pos; lra|apply Rmult_le_compat_r; lra]).
  assert (UUUr : u * (u * (u * r)) <= / 16777216 * (u * (u * r))) by (apply Rmult_le_compat_r; lra).
  assert (L3 : 4 * r <= 2 * largest prec emax /\ 3 * r <= largest prec emax /\ r <= largest prec emax / 4) by (destruct (Rle_lt_dec r 4); [lra|assert (4 * r <= r * r) by (apply Rmult_le_compat_r; lra); lra]).
  assert (c11 : -1 <= c <= 1) by (apply Rabs_le_inv in C1; lra).
  (* the inclination *)
  assert (Gs : apx (sinf t (gz s)) (b / r) (d + 6 * u)).
  { destruct Si as [F H]. split; [exact F|]. pose proof (sin_lip (B2R (gz s)) (acos c)) as Q. rewrite sin_acos in Q by exact c11. replace (1 - c²) with (1 - c * c) in Q by (unfold Rsqr; ring).
    replace (B2R (sinf t (gz s)) - b / r) with ((B2R (sinf t (gz s)) - sin (B2R (gz s))) + (sin (B2R (gz s)) - sqrt (1 - c * c)) + (sqrt (1 - c * c) - b / r)) by ring.
    eapply Rle_trans; [apply Rabs_triang|]. pose proof (Rabs_triang (B2R (sinf t (gz s)) - sin (B2R (gz s))) (sin (B2R (gz s)) - sqrt (1 - c * c))). lra. }
  assert (Gc : apx (cosf t (gz s)) (B2R (gz p) / r) (1103 / 100 * u)).
  { destruct Ci as [F H]. split; [exact F|]. pose proof (cos_lip (B2R (gz s)) (acos c)) as Q. rewrite cos_acos in Q by exact c11.
    replace (B2R (cosf t (gz s)) - B2R (gz p) / r) with ((B2R (cosf t (gz s)) - cos (B2R (gz s))) + (cos (B2R (gz s)) - c) + (c - B2R (gz p) / r)) by ring.
    eapply Rle_trans; [apply Rabs_triang|]. pose proof (Rabs_triang (B2R (cosf t (gz s)) - cos (B2R (gz s))) (cos (B2R (gz s)) - c)). lra. }
  assert (Bb : Rabs (b / r) <= 1).
  { rewrite Rabs_pos_eq by (apply Rmult_le_pos; [lra|left; apply Rinv_0_lt_compat; lra]). apply (Rmult_le_reg_r r); [lra|]. unfold Rdiv. rewrite Rmult_assoc, Rinv_l by lra. lra. }
  assert (Bz : Rabs (B2R (gz p) / r) <= 1).
  { unfold Rdiv. rewrite Rabs_mult, Rabs_inv, (Rabs_pos_eq r) by lra. apply (Rmult_le_reg_r r); [lra|]. rewrite Rmult_assoc, Rinv_l by lra. pose proof (z_radial p) as Q. rewrite <- HR in Q. lra. }
  assert (Er' : Rabs r <= r) by (rewrite Rabs_pos_eq; lra).
  assert (DR : 0 <= d * r <= / 1000 * r) by (split; [apply Rmult_le_pos; lra|apply Rmult_le_compat_r; lra]).
  assert (DU : 0 <= d * (u * r) <= / 1000 * (u * r)) by (split; [apply Rmult_le_pos; lra|apply Rmult_le_compat_r; lra]).
  assert (DUU : 0 <= d * (u * (u * r)) <= / 1000 * (u * (u * r))) by (split; [apply Rmult_le_pos; lra|apply Rmult_le_compat_r; lra]).
  assert (Gh : apx (mul o (gx s) (sinf t (gz s))) b ((1001 / 1000 * d + 12 * u) * r)).
  { replace b with (r * (b / r)) by (field; lra). eapply apx_weak; [apply (times_trig _ _ _ _ _ _ r A Gs Er' Bb); lra|]. lra. }
  assert (DDU : d * u <= / 1000 * u) by (apply Rmult_le_compat_r; lra).
  assert (K : forall y Y X, apx y Y (2 * u) -> Rabs Y <= 1 -> Rabs (b * Y - X) <= 4 * u * b -> apx (mul o (mul o (gx s) (sinf t (gz s))) y) X ((101 / 100 * d + 22 * u) * r)).
  { intros y Y X Ay By HX.
    destruct (times_trig _ y b Y _ _ r Gh Ay ltac:(rewrite Rabs_pos_eq; lra) By ltac:(lra) ltac:(lra) ltac:(lra)) as [F H]. split; [exact F|].
    replace (B2R (mul o (mul o (gx s) (sinf t (gz s))) y) - X) with ((B2R (mul o (mul o (gx s) (sinf t (gz s))) y) - b * Y) + (b * Y - X)) by ring. eapply Rle_trans; [apply Rabs_triang|].
    assert (u * b <= u * r) by (apply Rmult_le_compat_l; lra). lra. }
  split; [apply (K _ _ _ C (GeoFloatProps.cos1 _) Ac)|]. split; [apply (K _ _ _ S (GeoFloatProps.sin1 _) As)|].
  replace (B2R (gz p)) with (r * (B2R (gz p) / r)) by (field; lra). eapply apx_weak; [apply (times_trig _ _ _ _ _ _ r A Gc Er' Bz); lra|]. lra.
Qed.

Lemma axial_ratio p : 0 < radial p -> axial p / radial p = sqrt (1 - B2R (gz p) / radial p * (B2R (gz p) / radial p)) /\ Rabs (B2R (gz p) / radial p) <= 1.
Proof.
  intros Pr. pose proof (z_radial p) as Zr. pose proof (axial_radial p) as AR.
  assert (B : Rabs (B2R (gz p) / radial p) <= 1).
  { unfold Rdiv. rewrite Rabs_mult, Rabs_inv, (Rabs_pos_eq (radial p)) by lra. apply (Rmult_le_reg_r (radial p)); [lra|]. rewrite Rmult_assoc, Rinv_l by lra. lra. }
  split; [|exact B]. symmetry. replace (1 - _) with (axial p / radial p * (axial p / radial p)).
  - apply sqrt_square. apply Rmult_le_pos; [lra|left; apply Rinv_0_lt_compat; lra].
  - apply (Rmult_eq_reg_r (radial p * radial p)); [|nra]. replace (axial p / radial p * (axial p / radial p) * (radial p * radial p)) with (axial p * axial p) by (field; lra).
    replace ((1 - B2R (gz p) / radial p * (B2R (gz p) / radial p)) * (radial p * radial p)) with (radial p * radial p - B2R (gz p) * B2R (gz p)) by (field; lra). rewrite axial_sq, radial_sq. ring.
Qed.
Lemma cosine_gap p c : 0 < radial p -> Rabs c <= 1 -> Rabs (c - B2R (gz p) / radial p) <= 503 / 100 * u ->
  let k := B2R (gz p) / radial p in 0 <= 1 - c * c /\ 0 <= 1 - k * k /\ Rabs (1 - c * c - (1 - k * k)) <= 1006 / 100 * u.
Proof.
  intros Pr C1 C2 k. destruct (axial_ratio p Pr) as [_ K1]. fold k in C2, K1. pose proof (u_pos prec) as Pu.
  assert (Sq : forall x, Rabs x <= 1 -> 0 <= 1 - x * x) by (intros x Hx; apply Rabs_le_inv in Hx; nra). split; [apply Sq, C1|]. split; [apply Sq, K1|].
  replace (1 - c * c - (1 - k * k)) with (- ((c - k) * (c + k))) by ring. rewrite Rabs_Ropp, Rabs_mult. replace (1006 / 100 * u) with (503 / 100 * u * 2) by field.
  apply Rmult_le_compat; [apply Rabs_pos|apply Rabs_pos|exact C2|]. eapply Rle_trans; [apply Rabs_triang|]. lra.
Qed.
(** the two horizontal coordinates come back to half the digits at worst *)
Theorem C137_spherical_round_trip : forall (t : trig fl) (a : angles fl) p, accurate t (2 * u) -> accurate_angles a (4 * u) -> finite3 p -> fair prec emax (radial p) ->
  let q := g_cart_of_sph o t (g_sph_of_cart o a p) in
  apx (gx q) (B2R (gx p)) (4 * sqrt u * radial p) /\ apx (gy q) (B2R (gy p)) (4 * sqrt u * radial p) /\ apx (gz q) (B2R (gz p)) (17 * u * radial p).
Proof.
  intros t a p T Aa Fp Fr q. base. pose proof (sqrt_pos u) as Ps. pose proof (sqrt_sqrt u ltac:(lra)) as Es.
  assert (S12 : sqrt u <= / 4096) by (apply Rsqr_incr_0; [unfold Rsqr; lra|lra|lra]). assert (Us : u <= / 4096 * sqrt u) by (rewrite <- Es at 1; apply Rmult_le_compat_r; lra).
  assert (Pr : 0 < radial p) by apply Fr.
  assert (S10 : sqrt (1006 / 100 * u) <= 3172 / 1000 * sqrt u).
  { rewrite <- (sqrt_square (3172 / 1000 * sqrt u)) by lra. apply sqrt_le_1_alt. nra. }
  destruct (spherical_back t a p (sqrt (1006 / 100 * u)) T Aa Fp Fr) as (X & Y & Z).
  - intros c C1 C2. destruct (cosine_gap p c Pr C1 C2) as (N1 & N2 & N3). rewrite (proj1 (axial_ratio p Pr)). eapply Rle_trans; [apply (proj1 (root_gap _ _ N1 N2))|]. apply sqrt_le_1_alt. exact N3.
  - split; [apply sqrt_pos|lra].
  - split; [|split; [|exact Z]]; (eapply apx_weak; [eassumption|]; apply Rmult_le_compat_r; lra).
Qed.
(** away from the poles, to full precision *)
Theorem C137_spherical_round_trip_away : forall (t : trig fl) (a : angles fl) p, accurate t (2 * u) -> accurate_angles a (4 * u) -> finite3 p -> fair prec emax (radial p) ->
  radial p <= 1000 * axial p ->
  let q := g_cart_of_sph o t (g_sph_of_cart o a p) in let e := 33 * u * radial p * (radial p / axial p) in
  apx (gx q) (B2R (gx p)) e /\ apx (gy q) (B2R (gy p)) e.
Proof.
  intros t a p T Aa Fp Fr Aw q e. base. assert (Pr : 0 < radial p) by apply Fr. assert (Pb : 0 < axial p) by lra. pose proof (axial_radial p) as AR.
  set (k := radial p / axial p) in *. assert (K1 : 1 <= k <= 1000).
  { unfold k. split; apply (Rmult_le_reg_r (axial p)); try lra; unfold Rdiv; rewrite Rmult_assoc, Rinv_l by lra; lra. }
  assert (Uk : 0 <= u * k <= / 16777216 * 1000) by (split; [apply Rmult_le_pos; lra|apply Rmult_le_compat; lra]). assert (U1 : u <= u * k) by (rewrite <- (Rmult_1_r u) at 1; apply Rmult_le_compat_l; lra).
  destruct (spherical_back t a p (1006 / 100 * (u * k)) T Aa Fp Fr) as (X & Y & _).
  - intros c C1 C2. destruct (cosine_gap p c Pr C1 C2) as (N1 & N2 & N3). pose proof (proj2 (root_gap _ _ N1 N2)) as Q. rewrite <- (proj1 (axial_ratio p Pr)) in Q.
    assert (Pq : 0 < axial p / radial p) by (apply Rmult_lt_0_compat; [lra|apply Rinv_0_lt_compat; lra]).
    apply (Rmult_le_reg_l (axial p / radial p)); [exact Pq|]. eapply Rle_trans; [exact Q|]. eapply Rle_trans; [exact N3|]. right. unfold k. field. lra.
  - lra.
  - assert (Ee : (101 / 100 * (1006 / 100 * (u * k)) + 22 * u) * radial p <= e).
    { unfold e. fold k. replace (33 * u * radial p * k) with (33 * (u * k) * radial p) by ring. apply Rmult_le_compat_r; lra. }
    split; (eapply apx_weak; [eassumption|exact Ee]).
Qed.

(** some functions are that accurate *)
Definition nearest_angles : angles fl :=
  mkAngles (fun y x => nearest_float prec emax (atan2 (B2R y) (B2R x)))
    (fun x => if Rle_dec (Rabs (B2R x)) 1 then nearest_float prec emax (acos (B2R x)) else B754_nan)
    (fun x => if Rle_dec (Rabs (B2R x)) 1 then nearest_float prec emax (asin (B2R x)) else B754_nan).
Lemma nearest_angles_accurate : accurate_angles nearest_angles (4 * u).
Proof.
  base. pose proof eta_u as Eu. pose proof PI_RGT_0 as P0. pose proof PI_4 as P4.
  assert (K : forall r, Rabs r <= 72 / 20 -> apx (nearest_float prec emax r) r (4 * u)).
  { intros r Hr. destruct (nearest_float_value prec emax r ltac:(lra)) as [F Vv]. split; [exact F|]. rewrite Vv.
    pose proof (rd_apx prec emax r r 0 (72 / 20)) as Q. rewrite Rminus_diag_eq, Rabs_R0 in Q by reflexivity. specialize (Q (Rle_refl 0) Hr). lra. }
  assert (P36 : PI <= 72 / 20) by (pose proof RealAngleProps.pi_bounds; lra).
  split; [|split].
  - intros y x Fy Fx. destruct (K (atan2 (B2R y) (B2R x))) as [F H].
    { apply Rabs_le. pose proof (atan2_bound (B2R x) (B2R y)). lra. }
    split; [exact F|]. cbv zeta. cbn [nearest_angles atan2f]. set (th := nearest_float prec emax _) in *. pose proof (sqrt_pos (B2R x * B2R x + B2R y * B2R y)) as Ps.
    set (r := sqrt _) in *. split.
    + replace (r * cos (B2R th) - B2R x) with (r * (cos (B2R th) - cos (atan2 (B2R y) (B2R x)))) by (rewrite Rmult_minus_distr_l; unfold r; rewrite atan2_cos; ring).
      rewrite Rabs_mult, (Rabs_pos_eq r), Rmult_comm by exact Ps. apply Rmult_le_compat_r; [exact Ps|]. eapply Rle_trans; [apply cos_lip|exact H].
    + replace (r * sin (B2R th) - B2R y) with (r * (sin (B2R th) - sin (atan2 (B2R y) (B2R x)))) by (rewrite Rmult_minus_distr_l; unfold r; rewrite atan2_sin; ring).
      rewrite Rabs_mult, (Rabs_pos_eq r), Rmult_comm by exact Ps. apply Rmult_le_compat_r; [exact Ps|]. eapply Rle_trans; [apply sin_lip|exact H].
  - intros x Fx Lx. cbn [nearest_angles acosf asinf]. destruct (Rle_dec (Rabs (B2R x)) 1) as [_|N]; [|contradiction]. split; apply K; apply Rabs_le.
    + pose proof (acos_bound (B2R x)). lra.
    + pose proof (asin_bound (B2R x)). lra.
  - intros x Fx Lx. cbn [nearest_angles acosf asinf]. destruct (Rle_dec (Rabs (B2R x)) 1) as [N|_]; [lra|]. split; reflexivity.
Qed.
End Width.

Local Instance p53 : Prec_gt_0 53 := eq_refl. Local Instance e53 : Prec_lt_emax 53 1024 := eq_refl.
Local Instance p24 : Prec_gt_0 24 := eq_refl. Local Instance e24 : Prec_lt_emax 24 128 := eq_refl.
Definition f64 (m e : Z) : binary_float 53 1024 := binary_normalize 53 1024 p53 e53 mode_NE m e false.
Definition f32 (m e : Z) : binary_float 24 128 := binary_normalize 24 128 p24 e24 mode_NE m e false.
Definition o64 := float_ops 53 1024. Definition o32 := float_ops 24 128.

Lemma lt_float {prec emax} (x y : binary_float prec emax) : is_finite x = true -> is_finite y = true -> Bltb x y = true -> B2R x < B2R y.
Proof. intros Fx Fy H. rewrite Bltb_correct in H by assumption. destruct (Rlt_bool_spec (B2R x) (B2R y)); [assumption|discriminate]. Qed.
Lemma above_one64 x : is_finite x = true -> Bltb (@Bone 53 1024 p53 e53) x = true -> 1 < Rabs (B2R x).
Proof. intros F H. apply (lt_float _ x) in H; [|reflexivity|exact F]. rewrite Bone_correct in H. rewrite Rabs_pos_eq; lra. Qed.
Lemma above_one32 x : is_finite x = true -> Bltb (@Bone 24 128 p24 e24) x = true -> 1 < Rabs (B2R x).
Proof. intros F H. apply (lt_float _ x) in H; [|reflexivity|exact F]. rewrite Bone_correct in H. rewrite Rabs_pos_eq; lra. Qed.
(** for very short vectors the inclination is not a number: the square of the length underflows and the quotient exceeds one *)
Theorem C137_inclination_refuted :
  (exists p : gvec (binary_float 53 1024), finite3 53 1024 p /\ B2R (gz p) > 0 /\
     forall a s, accurate_angles a s -> gz (g_sph_of_cart o64 a p) = B754_nan) /\
  (exists p : gvec (binary_float 24 128), finite3 24 128 p /\ B2R (gz p) > 0 /\
     forall a s, accurate_angles a s -> gz (g_sph_of_cart o32 a p) = B754_nan).
Proof.
  split.
  - exists (mkGV (f64 0 0) (f64 0 0) (f64 9 (-540))). split; [split; [|split]; vm_compute; reflexivity|]. split; [apply Rlt_gt, (lt_float (f64 0 0) (f64 9 (-540))); vm_compute; reflexivity|].
    intros a s (_ & _ & N). unfold g_sph_of_cart. cbn [gx gy gz].
    assert (E : eqb o64 (sqrtf o64 (add o64 (add o64 (mul o64 (f64 0 0) (f64 0 0)) (mul o64 (f64 0 0) (f64 0 0))) (mul o64 (f64 9 (-540)) (f64 9 (-540))))) (zero o64) = false) by (vm_compute; reflexivity).
    rewrite E. apply N; [vm_compute; reflexivity|apply above_one64; vm_compute; reflexivity].
  - exists (mkGV (f32 0 0) (f32 0 0) (f32 13 (-78))). split; [split; [|split]; vm_compute; reflexivity|]. split; [apply Rlt_gt, (lt_float (f32 0 0) (f32 13 (-78))); vm_compute; reflexivity|].
    intros a s (_ & _ & N). unfold g_sph_of_cart. cbn [gx gy gz].
    assert (E : eqb o32 (sqrtf o32 (add o32 (add o32 (mul o32 (f32 0 0) (f32 0 0)) (mul o32 (f32 0 0) (f32 0 0))) (mul o32 (f32 13 (-78)) (f32 13 (-78))))) (zero o32) = false) by (vm_compute; reflexivity).
    rewrite E. apply N; [vm_compute; reflexivity|apply above_one32; vm_compute; reflexivity].
Qed.
(** for others, on the negative axis, it is zero, the opposite pole: the length itself underflows *)
Theorem C137_south_pole_refuted :
  (exists p : gvec (binary_float 53 1024), finite3 53 1024 p /\ B2R (gz p) < 0 /\ forall a, B2R (gz (g_sph_of_cart o64 a p)) = 0) /\
  (exists p : gvec (binary_float 24 128), finite3 24 128 p /\ B2R (gz p) < 0 /\ forall a, B2R (gz (g_sph_of_cart o32 a p)) = 0).
Proof.
  split.
  - exists (mkGV (f64 0 0) (f64 0 0) (f64 (-1) (-540))). split; [split; [|split]; vm_compute; reflexivity|].
    split; [apply (lt_float (f64 (-1) (-540)) (f64 0 0)); vm_compute; reflexivity|].
    intros a. unfold g_sph_of_cart. cbn [gx gy gz].
    assert (E : eqb o64 (sqrtf o64 (add o64 (add o64 (mul o64 (f64 0 0) (f64 0 0)) (mul o64 (f64 0 0) (f64 0 0))) (mul o64 (f64 (-1) (-540)) (f64 (-1) (-540))))) (zero o64) = true) by (vm_compute; reflexivity).
    rewrite E. reflexivity.
  - exists (mkGV (f32 0 0) (f32 0 0) (f32 (-1) (-80))). split; [split; [|split]; vm_compute; reflexivity|].
    split; [apply (lt_float (f32 (-1) (-80)) (f32 0 0)); vm_compute; reflexivity|].
    intros a. unfold g_sph_of_cart. cbn [gx gy gz].
    assert (E : eqb o32 (sqrtf o32 (add o32 (add o32 (mul o32 (f32 0 0) (f32 0 0)) (mul o32 (f32 0 0) (f32 0 0))) (mul o32 (f32 (-1) (-80)) (f32 (-1) (-80))))) (zero o32) = true) by (vm_compute; reflexivity).
    rewrite E. reflexivity.
Qed.

Lemma eq_float {prec emax} (x y : binary_float prec emax) : is_finite x = true -> is_finite y = true -> Beqb x y = true -> B2R x = B2R y.
Proof. intros Fx Fy H. rewrite Beqb_correct in H by assumption. destruct (Req_bool_spec (B2R x) (B2R y)); [assumption|discriminate]. Qed.
(** 2^-27 *)
Definition tilt : binary_float 53 1024 := @B754_finite 53 1024 false 4503599627370496 (-79) eq_refl.
Lemma tilt_value : B2R tilt = / 134217728. Proof. unfold tilt, B2R, F2R. cbn. lra. Qed.
(** beside the pole the square root in the bound is real: of a point 2^-27 off the axis the distance from the axis is lost *)
Theorem C137_near_pole_refuted : exists p : gvec (binary_float 53 1024), finite3 53 1024 p /\ 0 < B2R (gx p) /\ 1 <= radial 53 1024 p <= 2 /\
  forall t a, GeoFloatProps.accurate t (2 * unit 53) -> accurate_angles a (4 * unit 53) ->
  Rabs (B2R (gx (g_cart_of_sph o64 t (g_sph_of_cart o64 a p)))) <= B2R (gx p) / 1000.
Proof.
  exists (mkGV tilt (f64 0 0) Bone). cbn [gx gy gz]. rewrite tilt_value. assert (E1 : B2R (@Bone 53 1024 p53 e53) = 1) by apply Bone_correct.
  assert (E0 : B2R (f64 0 0) = 0) by reflexivity.
  split; [split; [|split]; reflexivity|]. split; [lra|]. split.
  { unfold radial. cbn [gx gy gz]. rewrite tilt_value, E0, E1. split; [rewrite <- sqrt_1 at 1; apply sqrt_le_1_alt; lra|].
    rewrite <- (sqrt_square 2) by lra. apply sqrt_le_1_alt. lra. }
  intros t a T A. remember (g_sph_of_cart o64 a (mkGV tilt (f64 0 0) Bone)) as s eqn:Es.
  assert (R1 : B2R (gx s) = 1 /\ is_finite (gx s) = true).
  { rewrite Es, <- E1. split; [apply eq_float; vm_compute; reflexivity|vm_compute; reflexivity]. }
  assert (Z0 : is_finite (gz s) = true /\ Rabs (B2R (gz s)) <= 4 * unit 53).
  { rewrite Es. unfold g_sph_of_cart. cbn [gx gy gz]. set (rho := sqrtf o64 _).
    assert (Er : eqb o64 rho (zero o64) = false) by (vm_compute; reflexivity). rewrite Er. destruct A as (_ & A & _).
    assert (Q : B2R (div o64 Bone rho) = 1) by (rewrite <- E1; apply eq_float; vm_compute; reflexivity).
    destruct (A (div o64 Bone rho)) as [[F H] _]; [vm_compute; reflexivity|rewrite Q, Rabs_R1; lra|]. split; [exact F|].
    rewrite Q, acos_1, Rminus_0_r in H. exact H. }
  assert (Y0 : is_finite (gy s) = true).
  { rewrite Es. cbn [g_sph_of_cart gy gx]. destruct A as (A & _). apply (A (f64 0 0) tilt); reflexivity. }
  destruct R1 as [R1 F1]. destruct Z0 as [F3 Z0].
  assert (Hl : 4 <= largest 53 1024).
  { unfold largest. replace (bpow radix2 1024) with (bpow radix2 53 * bpow radix2 971) by (rewrite <- bpow_plus; reflexivity).
    change (1024 - 53)%Z with 971%Z. assert (B : 1 <= bpow radix2 971) by (change 1 with (bpow radix2 0); apply bpow_le; lia).
    replace (bpow radix2 53) with 9007199254740992 by (cbn; lra). lra. }
  destruct (C137_from_spherical 53 1024 ltac:(lia) ltac:(lia) t s T) as (X & _).
  { split; [exact F1|split; [exact Y0|exact F3]]. }
  { rewrite R1, Rabs_R1. lra. }
  rewrite R1, Rabs_R1 in X. destruct X as [_ X]. cbn [cart_of_sph vx vy vz] in X.
  assert (U : unit 53 = / 9007199254740992) by exact DcmRoundProps.unit53.
  assert (Et : tiny 53 1024 <= unit 53).
  { unfold tiny, unit. assert (B : bpow radix2 (3 - 1024 - 53) <= bpow radix2 (- (53))) by (apply bpow_le; lia). pose proof (bpow_gt_0 radix2 (3 - 1024 - 53)). lra. }
  assert (S : Rabs (sin (B2R (gz s))) <= 4 * unit 53).
  { pose proof (sin_lip (B2R (gz s)) 0) as L. rewrite sin_0, !Rminus_0_r in L. lra. }
  assert (K : Rabs (1 * sin (B2R (gz s)) * cos (B2R (gy s))) <= 4 * unit 53).
  { rewrite Rmult_1_l, Rabs_mult. rewrite <- (Rmult_1_r (4 * unit 53)). apply Rmult_le_compat; try apply Rabs_pos; [exact S|]. apply Rabs_le. pose proof (COS_bound (B2R (gy s))). lra. }
  apply Rabs_le_inv in X. apply Rabs_le_inv in K. apply Rabs_le. fold o64 in X. rewrite U in *. lra.
Qed.

(** *** The two formats *)
Lemma fair64 r : bpow radix2 (-500) <= r <= bpow radix2 510 -> fair 53 1024 r.
Proof.
  intros [L H]. pose proof (bpow_gt_0 radix2 (-500)) as P0. split; [lra|].
  assert (LL : bpow radix2 (-1000) <= r * r) by (replace (bpow radix2 (-1000)) with (bpow radix2 (-500) * bpow radix2 (-500)) by (rewrite <- bpow_plus; reflexivity); apply Rmult_le_compat; lra).
  assert (HH : r * r <= bpow radix2 1020) by (replace (bpow radix2 1020) with (bpow radix2 510 * bpow radix2 510) by (rewrite <- bpow_plus; reflexivity); apply Rmult_le_compat; lra).
  split.
  - unfold tiny, unit. apply Rle_trans with (bpow radix2 (- (53)) / 1000 * bpow radix2 (-1000)).
    + replace (bpow radix2 (- (53)) / 1000 * bpow radix2 (-1000)) with (bpow radix2 (-1053) / 1000) by (replace (bpow radix2 (-1053)) with (bpow radix2 (- (53)) * bpow radix2 (-1000)) by (rewrite <- bpow_plus; reflexivity); field).
      replace (bpow radix2 (-1053)) with (2097152 * bpow radix2 (3 - 1024 - 53)) by (replace 2097152 with (bpow radix2 21) by (cbn; lra); rewrite <- bpow_plus; reflexivity).
      pose proof (bpow_gt_0 radix2 (3 - 1024 - 53)). lra.
    + apply Rmult_le_compat_l; [|exact LL]. pose proof (bpow_gt_0 radix2 (- (53))). lra.
  - unfold largest. replace (bpow radix2 1024) with (16 * bpow radix2 1020) by (replace 16 with (bpow radix2 4) by (cbn; lra); rewrite <- bpow_plus; reflexivity).
    assert (bpow radix2 (1024 - 53) <= bpow radix2 1020) by (apply bpow_le; lia). pose proof (bpow_gt_0 radix2 1020). lra.
Qed.
Lemma fair32 r : bpow radix2 (-58) <= r <= bpow radix2 62 -> fair 24 128 r.
Proof.
  intros [L H]. pose proof (bpow_gt_0 radix2 (-58)) as P0. split; [lra|].
  assert (LL : bpow radix2 (-116) <= r * r) by (replace (bpow radix2 (-116)) with (bpow radix2 (-58) * bpow radix2 (-58)) by (rewrite <- bpow_plus; reflexivity); apply Rmult_le_compat; lra).
  assert (HH : r * r <= bpow radix2 124) by (replace (bpow radix2 124) with (bpow radix2 62 * bpow radix2 62) by (rewrite <- bpow_plus; reflexivity); apply Rmult_le_compat; lra).
  split.
  - unfold tiny, unit. apply Rle_trans with (bpow radix2 (- (24)) / 1000 * bpow radix2 (-116)).
    + replace (bpow radix2 (- (24)) / 1000 * bpow radix2 (-116)) with (bpow radix2 (-140) / 1000) by (replace (bpow radix2 (-140)) with (bpow radix2 (- (24)) * bpow radix2 (-116)) by (rewrite <- bpow_plus; reflexivity); field).
      replace (bpow radix2 (-140)) with (512 * bpow radix2 (3 - 128 - 24)) by (replace 512 with (bpow radix2 9) by (cbn; lra); rewrite <- bpow_plus; reflexivity).
      pose proof (bpow_gt_0 radix2 (3 - 128 - 24)). lra.
    + apply Rmult_le_compat_l; [|exact LL]. pose proof (bpow_gt_0 radix2 (- (24))). lra.
  - unfold largest. replace (bpow radix2 128) with (16 * bpow radix2 124) by (replace 16 with (bpow radix2 4) by (cbn; lra); rewrite <- bpow_plus; reflexivity).
    assert (bpow radix2 (128 - 24) <= bpow radix2 124) by (apply bpow_le; lia). pose proof (bpow_gt_0 radix2 124). lra.
Qed.
(** f64, from 2^-500 to 2^510: there and back *)
Theorem C137_f64 : forall t a p, GeoFloatProps.accurate t (2 * unit 53) -> accurate_angles a (4 * unit 53) -> finite3 53 1024 p ->
  (bpow radix2 (-500) <= axial 53 1024 p <= bpow radix2 510 ->
   let q := g_cart_of_cyl o64 t (g_cyl_of_cart o64 a p) in let e := 12 * bpow radix2 (-53) * axial 53 1024 p in
   apx (gx q) (B2R (gx p)) e /\ apx (gy q) (B2R (gy p)) e /\ gz q = gz p) /\
  (bpow radix2 (-500) <= radial 53 1024 p <= bpow radix2 510 ->
   let q := g_cart_of_sph o64 t (g_sph_of_cart o64 a p) in let r := radial 53 1024 p in
   apx (gx q) (B2R (gx p)) (4 * sqrt (bpow radix2 (-53)) * r) /\ apx (gy q) (B2R (gy p)) (4 * sqrt (bpow radix2 (-53)) * r) /\ apx (gz q) (B2R (gz p)) (17 * bpow radix2 (-53) * r)).
Proof.
  intros t a p T A Fp. split; intros H; [apply (C137_cylindrical_round_trip 53 1024)|apply (C137_spherical_round_trip 53 1024)]; try lia; try assumption; apply fair64, H.
Qed.
(** f32, from 2^-58 to 2^62 *)
Theorem C137_f32 : forall t a p, GeoFloatProps.accurate t (2 * unit 24) -> accurate_angles a (4 * unit 24) -> finite3 24 128 p ->
  (bpow radix2 (-58) <= axial 24 128 p <= bpow radix2 62 ->
   let q := g_cart_of_cyl o32 t (g_cyl_of_cart o32 a p) in let e := 12 * bpow radix2 (-24) * axial 24 128 p in
   apx (gx q) (B2R (gx p)) e /\ apx (gy q) (B2R (gy p)) e /\ gz q = gz p) /\
  (bpow radix2 (-58) <= radial 24 128 p <= bpow radix2 62 ->
   let q := g_cart_of_sph o32 t (g_sph_of_cart o32 a p) in let r := radial 24 128 p in
   apx (gx q) (B2R (gx p)) (4 * sqrt (bpow radix2 (-24)) * r) /\ apx (gy q) (B2R (gy p)) (4 * sqrt (bpow radix2 (-24)) * r) /\ apx (gz q) (B2R (gz p)) (17 * bpow radix2 (-24) * r)).
Proof.
  intros t a p T A Fp. split; intros H; [apply (C137_cylindrical_round_trip 24 128)|apply (C137_spherical_round_trip 24 128)]; try lia; try assumption; apply fair32, H.
Qed.
Example C137_nontrivial : exists t a, GeoFloatProps.accurate t (2 * unit 53) /\ accurate_angles a (4 * unit 53) /\
  let p := mkGV Bone Bone Bone in finite3 53 1024 p /\ fair 53 1024 (axial 53 1024 p) /\ fair 53 1024 (radial 53 1024 p) /\ radial 53 1024 p <= 1000 * axial 53 1024 p /\
  apx (gx (g_cart_of_sph o64 t (g_sph_of_cart o64 a p))) 1 (66 * unit 53 * sqrt 3).
Proof.
  exists (GeoFloatProps.nearest_trig 53 1024), (nearest_angles 53 1024).
  assert (T : GeoFloatProps.accurate (GeoFloatProps.nearest_trig 53 1024) (2 * unit 53)) by (apply GeoFloatProps.nearest_accurate; lia).
  assert (A : accurate_angles (nearest_angles 53 1024) (4 * unit 53)) by (apply nearest_angles_accurate; lia).
  split; [exact T|]. split; [exact A|]. cbv zeta.
  assert (E1 : B2R (@Bone 53 1024 p53 e53) = 1) by apply Bone_correct.
  assert (Ea : axial 53 1024 (mkGV Bone Bone Bone) = sqrt 2) by (unfold axial; cbn [gx gy gz]; rewrite E1; f_equal; lra).
  assert (Er : radial 53 1024 (mkGV Bone Bone Bone) = sqrt 3) by (unfold radial; cbn [gx gy gz]; rewrite E1; f_equal; lra).
  assert (Q1 : 1 <= sqrt 2) by (rewrite <- sqrt_1 at 1; apply sqrt_le_1_alt; lra). assert (Q2 : sqrt 2 <= sqrt 3) by (apply sqrt_le_1_alt; lra).
  assert (Q3 : sqrt 3 <= 2) by (rewrite <- (sqrt_square 2) by lra; apply sqrt_le_1_alt; lra).
  assert (B1 : bpow radix2 (-500) <= 1) by (change 1 with (bpow radix2 0); apply bpow_le; lia).
  assert (B2 : 2 <= bpow radix2 510) by (replace 2 with (bpow radix2 1) by (cbn; lra); apply bpow_le; lia).
  assert (Fp : finite3 53 1024 (mkGV Bone Bone Bone)) by (split; [|split]; reflexivity).
  assert (Fr : fair 53 1024 (radial 53 1024 (mkGV Bone Bone Bone))) by (apply fair64; rewrite Er; lra).
  assert (Aw : radial 53 1024 (mkGV Bone Bone Bone) <= 1000 * axial 53 1024 (mkGV Bone Bone Bone)) by (rewrite Er, Ea; lra).
  split; [exact Fp|]. split; [apply fair64; rewrite Ea; lra|]. split; [exact Fr|]. split; [exact Aw|].
  destruct (C137_spherical_round_trip_away 53 1024 ltac:(lia) ltac:(lia) _ _ _ T A Fp Fr Aw) as [X _]. cbn [gx] in X. rewrite E1 in X.
  eapply apx_weak; [exact X|]. rewrite Er, Ea. pose proof (u_pos 53) as Pu.
  assert (K : sqrt 3 / sqrt 2 <= 2) by (apply (Rmult_le_reg_r (sqrt 2)); [lra|]; unfold Rdiv; rewrite Rmult_assoc, Rinv_l by lra; lra).
  apply Rle_trans with (33 * unit 53 * sqrt 3 * 2); [apply Rmult_le_compat_l; [apply Rmult_le_pos; lra|exact K]|lra].
Qed.
