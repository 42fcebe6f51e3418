(** IEEE 754 binary64 (Rust's f64) as a scalar type, with Flocq.  The NaN payload is not modelled. *)
From Coq Require Import ZArith QArith Reals Lra Lia Bool.
From Coquelicot Require Import Rbar.
From Flocq Require Import Core Relative BinarySingleNaN.
From Verif Require Import Scalar.
Local Open Scope R_scope.

Local Instance prec_gt_0_53 : Prec_gt_0 53 := eq_refl.
Local Instance prec_lt_emax_53 : Prec_lt_emax 53 1024 := eq_refl.
Definition f64 := binary_float 53 1024.
Definition f64_mul : f64 -> f64 -> f64 := Bmult mode_NE.
Definition f64_add : f64 -> f64 -> f64 := Bplus mode_NE.
Definition f64_sub : f64 -> f64 -> f64 := Bminus mode_NE.
Definition f64_div : f64 -> f64 -> f64 := Bdiv mode_NE.
Definition f64_of_Z (z : Z) : f64 := binary_normalize 53 1024 _ _ mode_NE z 0 false.
(** a literal: the quotient of two integers; correctly rounded when both are below 2^53 *)
Definition f64_lit (q : Q) : f64 := f64_div (f64_of_Z (Qnum q)) (f64_of_Z (Z.pos (Qden q))).
Definition f64_ops : ops f64 :=
  mkOps f64 (B754_zero false) Bone f64_add f64_sub f64_mul f64_div Bopp Babs (Bsqrt mode_NE) (Bfma mode_NE)
    Bltb Bleb Beqb f64_lit.

(** Specification: the extended real a float stands for. *)
Definition xval (x : f64) : Rbar :=
  match x with B754_infinity s => if s then m_infty else p_infty | _ => Finite (B2R x) end.
Definition is_number (x : f64) : Prop := is_nan x = false.

Definition rnd (r : R) : R := round radix2 (SpecFloat.fexp 53 1024) ZnearestE r.
Definition top : R := bpow radix2 1024.
(** rounding a nonnegative real to f64, overflowing to infinity *)
Definition xrnd (r : R) : Rbar := if Rlt_bool (rnd r) top then Finite (rnd r) else p_infty.

Local Instance fexp_valid : Valid_exp (SpecFloat.fexp 53 1024) := fexp_correct 53 1024 eq_refl.
Lemma rnd_le x y : x <= y -> rnd x <= rnd y.
Proof. apply round_le; auto with typeclass_instances. Qed.
Lemma rnd_0 : rnd 0 = 0. Proof. apply round_0; auto with typeclass_instances. Qed.
Lemma rnd_pos x : 0 <= x -> 0 <= rnd x.
Proof. intros H. rewrite <- rnd_0. apply rnd_le, H. Qed.
Lemma rnd_B2R (x : f64) : rnd (B2R x) = B2R x.
Proof. apply round_generic; auto with typeclass_instances. apply generic_format_B2R. Qed.
Lemma B2R_top (x : f64) : B2R x < top.
Proof. pose proof (abs_B2R_lt_emax 53 1024 x) as H. unfold top. pose proof (Rle_abs (B2R x)). lra. Qed.
Lemma le_inf a : Rbar_le a (xval (B754_infinity false)).
Proof. destruct a; exact I. Qed.
Lemma xrnd_le x y : x <= y -> Rbar_le (xrnd x) (xrnd y).
Proof.
  intros H. unfold xrnd. pose proof (rnd_le x y H).
  destruct (Rlt_bool_spec (rnd x) top), (Rlt_bool_spec (rnd y) top); cbn; auto; lra.
Qed.
Lemma xrnd_B2R (x : f64) : xrnd (B2R x) = Finite (B2R x).
Proof. unfold xrnd. rewrite rnd_B2R, Rlt_bool_true; auto. apply B2R_top. Qed.

Lemma xval_finite (x : f64) : is_finite x = true -> xval x = Finite (B2R x).
Proof. destruct x; cbn; intros; try discriminate; reflexivity. Qed.
Lemma finite_number (x : f64) : is_finite x = true -> is_number x.
Proof. destruct x; cbn; intros; try discriminate; reflexivity. Qed.
Lemma number_cases (x : f64) : is_number x -> is_finite x = true \/ x = B754_infinity true \/ x = B754_infinity false.
Proof. unfold is_number. destruct x as [s|s| |s m e H]; cbn; intros; try discriminate; auto. destruct s; auto. Qed.

(** comparisons are comparisons of the extended reals *)
Lemma f64_leb x y : is_number x -> is_number y -> Bleb x y = true <-> Rbar_le (xval x) (xval y).
Proof.
  intros Hx Hy. destruct (number_cases x Hx) as [Fx|[->| ->]], (number_cases y Hy) as [Fy|[->| ->]].
  - rewrite !xval_finite by auto. rewrite Bleb_correct by auto. cbn. destruct (Rle_bool_spec (B2R x) (B2R y)); split; intros; auto; try discriminate; lra.
  - destruct x as [s|s| |s m e H]; try discriminate; cbn; split; try tauto; try discriminate; destruct s; try tauto; try discriminate.
  - destruct x as [s|s| |s m e H]; try discriminate; cbn; split; try tauto; try discriminate; destruct s; try tauto; try discriminate.
  - destruct y as [s|s| |s m e H]; try discriminate; cbn; split; try tauto; try discriminate; destruct s; try tauto; try discriminate.
  - cbn. tauto.
  - cbn. tauto.
  - destruct y as [s|s| |s m e H]; try discriminate; cbn; split; try tauto; try discriminate; destruct s; try tauto; try discriminate.
  - cbn. split; try tauto; discriminate.
  - cbn. tauto.
Qed.
Lemma leb_number x y : Bleb x y = true -> is_number (x : f64) /\ is_number (y : f64).
Proof. unfold is_number. destruct x as [s|s| |s m e H], y as [s'|s'| |s' m' e' H']; cbn; intros; try discriminate; auto; destruct s; discriminate. Qed.
Lemma f64_ltb x y : is_number x -> is_number y -> Bltb x y = true <-> Rbar_lt (xval x) (xval y).
Proof.
  intros Hx Hy. destruct (number_cases x Hx) as [Fx|[->| ->]], (number_cases y Hy) as [Fy|[->| ->]].
  - rewrite !xval_finite by auto. rewrite Bltb_correct by auto. cbn. destruct (Rlt_bool_spec (B2R x) (B2R y)); split; intros; auto; try discriminate; lra.
  - destruct x as [s|s| |s m e H]; try discriminate; cbn; split; try tauto; try discriminate; destruct s; try tauto; try discriminate.
  - destruct x as [s|s| |s m e H]; try discriminate; cbn; split; try tauto; try discriminate; destruct s; try tauto; try discriminate.
  - destruct y as [s|s| |s m e H]; try discriminate; cbn; split; try tauto; try discriminate; destruct s; try tauto; try discriminate.
  - cbn. split; try tauto; discriminate.
  - cbn. tauto.
  - destruct y as [s|s| |s m e H]; try discriminate; cbn; split; try tauto; try discriminate; destruct s; try tauto; try discriminate.
  - cbn. split; try tauto; discriminate.
  - cbn. split; try tauto; discriminate.
Qed.
Lemma ltb_number x y : Bltb x y = true -> is_number (x : f64) /\ is_number (y : f64).
Proof. unfold is_number. destruct x as [s|s| |s m e H], y as [s'|s'| |s' m' e' H']; cbn; intros; try discriminate; auto; destruct s; discriminate. Qed.
Lemma eqb_self (x : f64) : Beqb x x = negb (is_nan x).
Proof. rewrite Beqb_refl. reflexivity. Qed.

(** nonnegative floats: nonnegative finite values (both zeros) and +infinity *)
Definition nonneg (x : f64) : Prop := is_number x /\ Rbar_le (Finite 0) (xval x).
Lemma nonneg_cases x : nonneg x -> (is_finite x = true /\ 0 <= B2R x) \/ x = B754_infinity false.
Proof.
  intros [H1 H2]. destruct (number_cases x H1) as [F|[->| ->]]; auto.
  - left. split; auto. rewrite xval_finite in H2 by auto. exact H2.
  - destruct H2.
Qed.
Lemma nonneg_finite x : is_finite x = true -> 0 <= B2R x -> nonneg x.
Proof. intros F H. split; [apply finite_number, F|rewrite xval_finite by auto; exact H]. Qed.
Lemma nonneg_inf : nonneg (B754_infinity false). Proof. split; [reflexivity|exact I]. Qed.

Lemma inf_of_SF (x : f64) : B2SF x = SpecFloat.S754_infinity false -> x = B754_infinity false.
Proof. destruct x; cbn; intros E; try discriminate; injection E as ->; reflexivity. Qed.
Lemma sign_pos (x : f64) : is_finite x = true -> 0 < B2R x -> Bsign x = false.
Proof.
  destruct x as [s|s| |s m e H]; cbn; intros F P; try discriminate; [lra|]. destruct s; auto.
  exfalso. assert (X : F2R (Float radix2 (Z.neg m) e) < 0) by (apply F2R_lt_0; cbn; lia). cbn in P. lra.
Qed.

Lemma mul_finite x y : is_finite x = true -> is_finite y = true -> 0 <= B2R x -> 0 <= B2R y ->
  is_number (f64_mul x y) /\ xval (f64_mul x y) = xrnd (B2R x * B2R y).
Proof.
  intros Fx Fy Px Py. pose proof (Bmult_correct 53 1024 _ _ mode_NE x y) as H. fold (f64_mul x y) in H.
  change (round radix2 (SpecFloat.fexp 53 1024) (round_mode mode_NE) (B2R x * B2R y)) with (rnd (B2R x * B2R y)) in H.
  assert (P : 0 <= B2R x * B2R y) by (apply Rmult_le_pos; auto). pose proof (rnd_pos _ P) as Pr.
  rewrite Rabs_pos_eq in H by auto. fold top in H. unfold xrnd. destruct (Rlt_bool (rnd (B2R x * B2R y)) top) eqn:E.
  - destruct H as (H1 & H2 & _). rewrite Fx, Fy in H2. cbn in H2. split; [apply finite_number, H2|]. rewrite xval_finite by auto. rewrite H1. reflexivity.
  - assert (Q : B2R x * B2R y <> 0).
    { intros Z. rewrite Z, rnd_0 in E. rewrite Rlt_bool_true in E; [discriminate|]. unfold top. apply bpow_gt_0. }
    assert (0 < B2R x) by (destruct (Req_dec (B2R x) 0) as [Z|]; [rewrite Z in Q; lra|lra]).
    assert (0 < B2R y) by (destruct (Req_dec (B2R y) 0) as [Z|]; [rewrite Z in Q; lra|lra]).
    rewrite !sign_pos in H by auto. cbn in H. apply inf_of_SF in H. rewrite H. split; reflexivity.
Qed.
Lemma add_finite x y : is_finite x = true -> is_finite y = true -> 0 <= B2R x -> 0 <= B2R y ->
  is_number (f64_add x y) /\ xval (f64_add x y) = xrnd (B2R x + B2R y).
Proof.
  intros Fx Fy Px Py. pose proof (Bplus_correct 53 1024 _ _ mode_NE x y Fx Fy) as H. fold (f64_add x y) in H.
  change (round radix2 (SpecFloat.fexp 53 1024) (round_mode mode_NE) (B2R x + B2R y)) with (rnd (B2R x + B2R y)) in H.
  assert (P : 0 <= B2R x + B2R y) by lra. pose proof (rnd_pos _ P) as Pr.
  rewrite Rabs_pos_eq in H by auto. fold top in H. unfold xrnd. destruct (Rlt_bool (rnd (B2R x + B2R y)) top) eqn:E.
  - destruct H as (H1 & H2 & _). split; [apply finite_number, H2|]. rewrite xval_finite by auto. rewrite H1. reflexivity.
  - destruct H as (H1 & H2).
    assert (S : Bsign x = false).
    { destruct (Rle_lt_or_eq_dec _ _ Px) as [L|Z]; [apply sign_pos; auto|].
      destruct (Rle_lt_or_eq_dec _ _ Py) as [L|Z']; [rewrite H2; apply sign_pos; auto|].
      rewrite <- Z, <- Z', Rplus_0_l, rnd_0 in E. rewrite Rlt_bool_true in E; [discriminate|]. unfold top. apply bpow_gt_0. }
    rewrite S in H1. cbn in H1. apply inf_of_SF in H1. rewrite H1. split; reflexivity.
Qed.
Lemma mul_inf_l y : nonneg y -> xval y <> Finite 0 -> f64_mul (B754_infinity false) y = B754_infinity false.
Proof.
  intros H Z. destruct (nonneg_cases y H) as [[F P]| ->]; [|reflexivity]. destruct y as [s|s| |s m e Hy]; try discriminate.
  - exfalso. apply Z. reflexivity.
  - cbn. assert (S : s = false); [|rewrite S; reflexivity]. apply (sign_pos (B754_finite s m e Hy)); auto.
    destruct (Req_dec (B2R (B754_finite s m e Hy : f64)) 0) as [E|]; [|lra]. exfalso. apply Z. rewrite xval_finite by auto. rewrite E. reflexivity.
Qed.
Lemma mul_inf_r y : nonneg y -> xval y <> Finite 0 -> f64_mul y (B754_infinity false) = B754_infinity false.
Proof.
  intros H Z. destruct (nonneg_cases y H) as [[F P]| ->]; [|reflexivity]. destruct y as [s|s| |s m e Hy]; try discriminate.
  - exfalso. apply Z. reflexivity.
  - cbn. assert (S : s = false); [|rewrite S; reflexivity]. apply (sign_pos (B754_finite s m e Hy)); auto.
    destruct (Req_dec (B2R (B754_finite s m e Hy : f64)) 0) as [E|]; [|lra]. exfalso. apply Z. rewrite xval_finite by auto. rewrite E. reflexivity.
Qed.
Lemma add_inf_l y : nonneg y -> f64_add (B754_infinity false) y = B754_infinity false.
Proof. intros H. destruct (nonneg_cases y H) as [[F P]| ->]; [|reflexivity]. destruct y; try discriminate; reflexivity. Qed.
Lemma add_inf_r y : nonneg y -> f64_add y (B754_infinity false) = B754_infinity false.
Proof. intros H. destruct (nonneg_cases y H) as [[F P]| ->]; [|reflexivity]. destruct y; try discriminate; reflexivity. Qed.

(** the product of nonnegative floats, except infinity times zero *)
Definition mul_ok (x y : f64) : Prop :=
  ~ (xval x = p_infty /\ xval y = Finite 0) /\ ~ (xval x = Finite 0 /\ xval y = p_infty).
Lemma xrnd_pos r : 0 <= r -> Rbar_le (Finite 0) (xrnd r).
Proof. intros H. unfold xrnd. destruct (Rlt_bool (rnd r) top); cbn; auto. apply rnd_pos, H. Qed.
Lemma mul_nonneg x y : nonneg x -> nonneg y -> mul_ok x y -> nonneg (f64_mul x y).
Proof.
  intros Hx Hy [O1 O2]. destruct (nonneg_cases x Hx) as [[Fx Px]| ->], (nonneg_cases y Hy) as [[Fy Py]| ->].
  - destruct (mul_finite x y Fx Fy Px Py) as [N E]. split; auto. rewrite E. apply xrnd_pos. apply Rmult_le_pos; auto.
  - rewrite mul_inf_r; auto using nonneg_inf. 
  - rewrite mul_inf_l; auto using nonneg_inf.
  - apply nonneg_inf.
Qed.
Lemma add_nonneg x y : nonneg x -> nonneg y -> nonneg (f64_add x y).
Proof.
  intros Hx Hy. destruct (nonneg_cases x Hx) as [[Fx Px]| ->], (nonneg_cases y Hy) as [[Fy Py]| ->].
  - destruct (add_finite x y Fx Fy Px Py) as [N E]. split; auto. rewrite E. apply xrnd_pos. lra.
  - rewrite add_inf_r; auto using nonneg_inf.
  - rewrite add_inf_l; auto using nonneg_inf.
  - apply nonneg_inf.
Qed.
(** adding a nonnegative number does not lower a nonnegative number *)
Lemma add_ge x y : nonneg x -> nonneg y -> Rbar_le (xval x) (xval (f64_add x y)) /\ Rbar_le (xval y) (xval (f64_add x y)).
Proof.
  intros Hx Hy. destruct (nonneg_cases x Hx) as [[Fx Px]| ->], (nonneg_cases y Hy) as [[Fy Py]| ->].
  - destruct (add_finite x y Fx Fy Px Py) as [N E]. rewrite E, !xval_finite by auto. rewrite <- (xrnd_B2R x), <- (xrnd_B2R y). split; apply xrnd_le; lra.
  - rewrite add_inf_r by auto. rewrite xval_finite by auto. split; exact I.
  - rewrite add_inf_l by auto. rewrite (xval_finite y) by auto. split; exact I.
  - split; exact I.
Qed.
Lemma add_mono x y x' y' : nonneg x -> nonneg y -> nonneg x' -> nonneg y' -> Rbar_le (xval x) (xval x') -> Rbar_le (xval y) (xval y') ->
  Rbar_le (xval (f64_add x y)) (xval (f64_add x' y')).
Proof.
  intros Hx Hy Hx' Hy' Lx Ly.
  destruct (nonneg_cases x' Hx') as [[Fx' Px']| ->]; [|rewrite add_inf_l by auto; apply le_inf].
  destruct (nonneg_cases y' Hy') as [[Fy' Py']| ->]; [|rewrite add_inf_r by auto; apply le_inf].
  destruct (nonneg_cases x Hx) as [[Fx Px]| ->]; [|rewrite (xval_finite x') in Lx by auto; destruct Lx].
  destruct (nonneg_cases y Hy) as [[Fy Py]| ->]; [|rewrite (xval_finite y') in Ly by auto; destruct Ly].
  rewrite !xval_finite in Lx, Ly by auto. cbn in Lx, Ly.
  destruct (add_finite x y Fx Fy Px Py) as [_ ->]. destruct (add_finite x' y' Fx' Fy' Px' Py') as [_ ->]. apply xrnd_le. lra.
Qed.
Lemma mul_mono x y x' y' : nonneg x -> nonneg y -> nonneg x' -> nonneg y' -> mul_ok x y -> mul_ok x' y' ->
  Rbar_le (xval x) (xval x') -> Rbar_le (xval y) (xval y') -> Rbar_le (xval (f64_mul x y)) (xval (f64_mul x' y')).
Proof.
  intros Hx Hy Hx' Hy' O O' Lx Ly.
  destruct (nonneg_cases x' Hx') as [[Fx' Px']| ->].
  2:{ destruct O' as [O1 O2]. rewrite (mul_inf_l y') by auto. apply le_inf. }
  destruct (nonneg_cases y' Hy') as [[Fy' Py']| ->].
  2:{ destruct O' as [O1 O2]. rewrite (mul_inf_r x') by auto. apply le_inf. }
  destruct (nonneg_cases x Hx) as [[Fx Px]| ->]; [|rewrite (xval_finite x') in Lx by auto; destruct Lx].
  destruct (nonneg_cases y Hy) as [[Fy Py]| ->]; [|rewrite (xval_finite y') in Ly by auto; destruct Ly].
  rewrite !xval_finite in Lx, Ly by auto. cbn in Lx, Ly.
  destruct (mul_finite x y Fx Fy Px Py) as [_ ->]. destruct (mul_finite x' y' Fx' Fy' Px' Py') as [_ ->]. apply xrnd_le.
  apply Rmult_le_compat; auto.
Qed.
(** multiplying by at most one does not raise a nonnegative number *)
Lemma mul_le x y : nonneg x -> nonneg y -> mul_ok x y -> Rbar_le (xval y) (Finite 1) -> Rbar_le (xval (f64_mul x y)) (xval x).
Proof.
  intros Hx Hy [O1 O2] L. destruct (nonneg_cases y Hy) as [[Fy Py]| ->]; [|destruct L].
  destruct (nonneg_cases x Hx) as [[Fx Px]| ->].
  - destruct (mul_finite x y Fx Fy Px Py) as [_ ->]. rewrite (xval_finite x) by auto. rewrite <- xrnd_B2R. apply xrnd_le.
    rewrite xval_finite in L by auto. cbn in L. nra.
  - apply le_inf.
Qed.

(** * Signed results: multiplying or dividing by a positive finite number *)
(** rounding a real to f64, overflowing to an infinity of the same sign *)
Definition sxrnd (r : R) : Rbar :=
  if Rlt_bool (Rabs (rnd r)) top then Finite (rnd r) else if Rlt_bool r 0 then m_infty else p_infty.
Lemma sxrnd_le x y : x <= y -> Rbar_le (sxrnd x) (sxrnd y).
Proof.
  intros H. unfold sxrnd. pose proof (rnd_le x y H) as L.
  destruct (Rlt_bool_spec (Rabs (rnd x)) top) as [A|A].
  - apply Rabs_def2 in A. destruct (Rlt_bool_spec (Rabs (rnd y)) top) as [B|B]; [exact L|].
    destruct (Rlt_bool_spec y 0) as [D|D]; [|exact I].
    exfalso. assert (rnd y <= 0) by (rewrite <- rnd_0; apply rnd_le; lra). rewrite Rabs_left1 in B by auto. lra.
  - destruct (Rlt_bool_spec x 0) as [C|C]; [exact I|]. pose proof (rnd_pos x C). rewrite Rabs_pos_eq in A by auto.
    destruct (Rlt_bool_spec (Rabs (rnd y)) top) as [B|B]; [apply Rabs_def2 in B; exfalso; lra|].
    destruct (Rlt_bool_spec y 0) as [D|D]; [exfalso; lra|exact I].
Qed.
Lemma sf_inf (x : f64) s : B2SF x = SpecFloat.S754_infinity s -> x = B754_infinity s.
Proof. destruct x; cbn; intros E; try discriminate; injection E as ->; reflexivity. Qed.
Lemma sign_neg (x : f64) : is_finite x = true -> B2R x <> 0 -> Bsign x = Rlt_bool (B2R x) 0.
Proof.
  intros F N. destruct (Rlt_bool_spec (B2R x) 0) as [L|L]; [|apply sign_pos; auto; lra].
  destruct x as [s|s| |s m e H]; try discriminate; [contradiction N; reflexivity|]. cbn. destruct s; auto.
  exfalso. assert (X : 0 < F2R (Float radix2 (Z.pos m) e)) by (apply F2R_gt_0; cbn; lia). cbn [B2R SpecFloat.cond_Zopp] in L. cbn in L. lra.
Qed.
Definition fpos (k : f64) : Prop := is_finite k = true /\ 0 < B2R k.
Lemma inf_val s : xval (B754_infinity s) = if s then m_infty else p_infty. Proof. reflexivity. Qed.
Lemma mul_pos x k : is_finite x = true -> fpos k -> is_number (f64_mul x k) /\ xval (f64_mul x k) = sxrnd (B2R x * B2R k).
Proof.
  intros Fx [Fk Pk]. pose proof (Bmult_correct 53 1024 _ _ mode_NE x k) as H. fold (f64_mul x k) in H.
  change (round radix2 (SpecFloat.fexp 53 1024) (round_mode mode_NE) (B2R x * B2R k)) with (rnd (B2R x * B2R k)) in H.
  fold top in H. unfold sxrnd. destruct (Rlt_bool (Rabs (rnd (B2R x * B2R k))) top) eqn:E.
  - destruct H as (H1 & H2 & _). rewrite Fx, Fk in H2. cbn in H2. split; [apply finite_number, H2|]. rewrite xval_finite by auto. rewrite H1. reflexivity.
  - assert (Q : B2R x <> 0).
    { intros Z. rewrite Z, Rmult_0_l, rnd_0, Rabs_R0 in E. rewrite Rlt_bool_true in E; [discriminate|]. apply bpow_gt_0. }
    rewrite (sign_pos k Fk Pk), xorb_false_r in H. cbn in H. apply sf_inf in H. rewrite H. split; [reflexivity|]. rewrite inf_val, sign_neg by auto.
    destruct (Rlt_bool_spec (B2R x) 0), (Rlt_bool_spec (B2R x * B2R k) 0); auto; exfalso; nra.
Qed.
Lemma div_pos x k : is_finite x = true -> fpos k -> is_number (f64_div x k) /\ xval (f64_div x k) = sxrnd (B2R x / B2R k).
Proof.
  intros Fx [Fk Pk]. assert (Nk : B2R k <> 0) by lra. pose proof (Bdiv_correct 53 1024 _ _ mode_NE x k Nk) as H. fold (f64_div x k) in H.
  change (round radix2 (SpecFloat.fexp 53 1024) (round_mode mode_NE) (B2R x / B2R k)) with (rnd (B2R x / B2R k)) in H.
  fold top in H. unfold sxrnd. destruct (Rlt_bool (Rabs (rnd (B2R x / B2R k))) top) eqn:E.
  - destruct H as (H1 & H2 & _). rewrite Fx in H2. split; [apply finite_number, H2|]. rewrite xval_finite by auto. rewrite H1. reflexivity.
  - assert (Q : B2R x <> 0).
    { intros Z. rewrite Z in E. unfold Rdiv in E. rewrite Rmult_0_l, rnd_0, Rabs_R0 in E. rewrite Rlt_bool_true in E; [discriminate|]. apply bpow_gt_0. }
    rewrite (sign_pos k Fk Pk), xorb_false_r in H. cbn in H. apply sf_inf in H. rewrite H. split; [reflexivity|]. rewrite inf_val, sign_neg by auto.
    assert (I : 0 < / B2R k) by (apply Rinv_0_lt_compat; auto). unfold Rdiv.
    destruct (Rlt_bool_spec (B2R x) 0), (Rlt_bool_spec (B2R x * / B2R k) 0); auto; exfalso; nra.
Qed.
Lemma mul_pos_inf s k : fpos k -> f64_mul (B754_infinity s) k = B754_infinity s.
Proof.
  intros [F P]. pose proof (sign_pos k F P) as S. destruct k as [s'|s'| |s' m e H]; cbn in *; try discriminate; [lra|]. subst s'. rewrite xorb_false_r. reflexivity.
Qed.
Lemma div_pos_inf s k : fpos k -> f64_div (B754_infinity s) k = B754_infinity s.
Proof.
  intros [F P]. pose proof (sign_pos k F P) as S. destruct k as [s'|s'| |s' m e H]; cbn in *; try discriminate; [lra|]. subst s'. rewrite xorb_false_r. reflexivity.
Qed.
Lemma number_dec (x : f64) : is_number x -> is_finite x = true \/ exists s, x = B754_infinity s.
Proof. intros H. destruct (number_cases x H) as [F|[E|E]]; eauto. Qed.
Lemma mul_pos_number x k : is_number x -> fpos k -> is_number (f64_mul x k).
Proof. intros N P. destruct (number_dec x N) as [F|[s ->]]; [apply mul_pos; auto|rewrite mul_pos_inf by auto; reflexivity]. Qed.
Lemma div_pos_number x k : is_number x -> fpos k -> is_number (f64_div x k).
Proof. intros N P. destruct (number_dec x N) as [F|[s ->]]; [apply div_pos; auto|rewrite div_pos_inf by auto; reflexivity]. Qed.
Lemma inf_ends (s : bool) (a : Rbar) : Rbar_le (xval (B754_infinity s)) a -> s = true \/ a = p_infty.
Proof. destruct s; auto. destruct a; cbn; tauto. Qed.
Lemma inf_ends' (s : bool) (a : Rbar) : Rbar_le a (xval (B754_infinity s)) -> s = false \/ a = m_infty.
Proof. destruct s; auto. destruct a; cbn; tauto. Qed.
Lemma mono_of (f : f64 -> f64) (g : R -> R) :
  (forall x, is_finite x = true -> xval (f x) = sxrnd (g (B2R x))) -> (forall s, f (B754_infinity s) = B754_infinity s) ->
  (forall a b, a <= b -> g a <= g b) ->
  forall x y, is_number x -> is_number y -> Rbar_le (xval x) (xval y) -> Rbar_le (xval (f x)) (xval (f y)).
Proof.
  intros Hf Hi Hg x y Nx Ny L. destruct (number_dec x Nx) as [Fx|[s ->]].
  - destruct (number_dec y Ny) as [Fy|[s' ->]].
    + rewrite !Hf by auto. apply sxrnd_le, Hg. rewrite !xval_finite in L by auto. exact L.
    + rewrite Hi. rewrite xval_finite in L by auto. destruct s'; [destruct L|apply le_inf].
  - rewrite Hi. destruct s; [exact I|]. apply inf_ends in L. destruct L as [L|L]; [discriminate|].
    destruct (number_dec y Ny) as [Fy|[s' ->]]; [rewrite xval_finite in L by auto; discriminate|]. destruct s'; [discriminate|]. rewrite Hi. exact I.
Qed.
Lemma mul_pos_mono k : fpos k -> forall x y, is_number x -> is_number y -> Rbar_le (xval x) (xval y) -> Rbar_le (xval (f64_mul x k)) (xval (f64_mul y k)).
Proof.
  intros P. apply (mono_of (fun x => f64_mul x k) (fun r => r * B2R k)).
  - intros x F. apply mul_pos; auto.
  - intros s. apply mul_pos_inf; auto.
  - intros a b L. destruct P. apply Rmult_le_compat_r; lra.
Qed.
Lemma div_pos_mono k : fpos k -> forall x y, is_number x -> is_number y -> Rbar_le (xval x) (xval y) -> Rbar_le (xval (f64_div x k)) (xval (f64_div y k)).
Proof.
  intros P. apply (mono_of (fun x => f64_div x k) (fun r => r / B2R k)).
  - intros x F. apply div_pos; auto.
  - intros s. apply div_pos_inf; auto.
  - intros a b L. destruct P as [_ P]. apply Rinv_0_lt_compat in P. unfold Rdiv. apply Rmult_le_compat_r; lra.
Qed.

(** relative error of one rounding, above the subnormal range *)
Definition u64 : R := bpow radix2 (-53).
Definition tiny : R := bpow radix2 (-1022).
Lemma rnd_rel x : tiny <= Rabs x -> Rabs (rnd x - x) <= u64 * Rabs x.
Proof.
  intros H. unfold rnd. pose proof (relative_error_N_FLT radix2 (-1074) 53 eq_refl (fun z => negb (Z.even z)) x H) as E.
  replace (/ 2 * bpow radix2 (-(53) + 1)) with u64 in E; [exact E|].
  unfold u64. change (-(53) + 1)%Z with (-53 + 1)%Z. rewrite bpow_plus. change (bpow radix2 1) with 2. field.
Qed.
