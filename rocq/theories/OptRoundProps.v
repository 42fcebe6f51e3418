(** C136: fixed-step gradient descent in floating point.  On a smooth, strongly convex objective it approaches the minimiser
    at the exact rate down to a noise level set by the error of the computed gradient and the rounding of the points. *)
From Coq Require Import ZArith QArith Qreals Reals List Arith Lia Lra Psatz Bool.
From Flocq Require Import Core BinarySingleNaN.
From Verif Require Import Scalar RSum LinModel LinProofs OptModel OptSpec OptProofs OptProps OptRateProps.
From Verif Require Import FloatModel RoundProps SolveRoundProps NormRoundProps StatsFloatProps InterpFloatProps Apx GeoFloatProps.
From Verif Require DcmRoundProps.
Import ListNotations.
Local Open Scope R_scope.

(** ** Specification *)
(** the real numbers in a vector of floats *)
Definition reals {prec emax} (x : nat -> binary_float prec emax) : nat -> R := fun i => B2R (x i).
Definition finite_vec {prec emax} (n : nat) (x : nat -> binary_float prec emax) : Prop := forall i, (i < n)%nat -> is_finite (x i) = true.
(** the same settings over the real numbers *)
Definition exact_settings {prec emax} (c : @gd (binary_float prec emax)) : @gd R :=
  mkGd (B2R (gd_lr c)) (gd_backtracking c) (B2R (gd_c1 c)) (B2R (gd_tau c)) (B2R (gd_momentum c)) (B2R (gd_tol_grad c)) (B2R (gd_tol_step c))
    (gd_max_iters c) (gd_has_bounds c) (reals (gd_min c)) (reals (gd_max c)).
(** a fixed step, no momentum, a box of numbers if there is one *)
Definition plain {prec emax} (n : nat) (c : @gd (binary_float prec emax)) : Prop :=
  gd_backtracking c = false /\ is_finite (gd_lr c) = true /\ is_finite (gd_momentum c) = true /\ B2R (gd_momentum c) = 0 /\
  (gd_has_bounds c = true -> finite_vec n (gd_min c) /\ finite_vec n (gd_max c) /\ forall i, (i < n)%nat -> B2R (gd_min c i) <= B2R (gd_max c i)).
(** the distance of a point of floats from a real point *)
Definition away {prec emax} (n : nat) (x : nat -> binary_float prec emax) (y : nat -> R) : R := length2 n (fun i => B2R (x i) - y i).
(** within [r] of [y] the computed gradient is within [e] of the exact one and at most [m] in size *)
Definition gradient_within {prec emax} (n : nat) (g : (nat -> binary_float prec emax) -> nat -> binary_float prec emax) (G : (nat -> R) -> nat -> R)
    (y : nat -> R) (r e m : R) : Prop :=
  forall x, finite_vec n x -> same_tail n y (reals x) -> away n x y <= r ->
    forall i, (i < n)%nat -> apx (g x i) (G (reals x) i) e /\ Rabs (B2R (g x i)) <= m.
(** error of one coordinate of one step: gradient error, and the roundings of a point of size [b] and a step of size [s] *)
Definition step_error (prec emax : Z) (lr e b s : R) : R := lr * e + unit prec * (b + 3 * s) + 3 * tiny prec emax.
(** a smooth, strongly convex objective [fe] with gradient [G] and minimiser [y] over the box, a step of at most [1/L], a computed
    gradient good enough within [r] of [y], and nothing near overflow; the roundings must not throw the point out of that ball *)
Definition descent_problem {prec emax} (n : nat) (c : @gd (binary_float prec emax)) (fe : (nat -> R) -> R) (G : (nat -> R) -> nat -> R) (L mu : R) (y : nat -> R)
    (g : (nat -> binary_float prec emax) -> nat -> binary_float prec emax) (r e m b : R) : Prop :=
  let lr := B2R (gd_lr c) in
  (0 < n)%nat /\ plain n c /\ smooth n fe G L /\ convex n fe G mu /\ 0 < mu /\ 0 < lr /\ lr * L <= 1 /\ minimiser n (exact_settings c) fe y /\
  gradient_within n g G y r e m /\ 0 <= e /\ 0 <= m /\ (forall i, (i < n)%nat -> Rabs (y i) + r <= b) /\ 4 * (b + lr * m + 1) <= largest prec emax /\
  sqrt (INR n) * step_error prec emax lr e b (lr * m) <= lr * mu / 2 * r.
(** the start: numbers, within [r] of the minimiser *)
Definition good_start {prec emax} (n : nat) (y : nat -> R) (r : R) (x0 : nat -> binary_float prec emax) : Prop :=
  finite_vec n x0 /\ same_tail n y (reals x0) /\ away n x0 y <= r.
(** the distance that rounding and gradient errors leave *)
Definition noise_level (prec emax : Z) (n : nat) (lr mu e b m : R) : R := 2 * sqrt (INR n) * step_error prec emax lr e b (lr * m) / (lr * mu).
(** a length known by its rounded norm [t]; few enough terms for the norm to be accurate *)
Definition measured (prec emax : Z) (n : nat) (t : R) : R := sqrt (3 * (t * t) + 4 * (INR n * tiny prec emax)).
Definition norms_accurate (prec emax : Z) (n : nat) (r m : R) : Prop :=
  (1 + unit prec) ^ (n + 2) <= 3 / 2 /\ 10 * (r * r) + 2 * (INR n * (m * m)) + 2 * (INR n * tiny prec emax) <= largest prec emax.

Section Width.
Context (prec emax : Z) {P : Prec_gt_0 prec} {M : Prec_lt_emax prec emax} (Hp : (24 <= prec)%Z) (He : (64 <= emax)%Z).
Local Notation fl := (binary_float prec emax).
Local Notation o := (float_ops prec emax).
Local Notation u := (unit prec).
Local Notation eta := (tiny prec emax).

Lemma value_leb (x y : fl) : is_finite x = true -> is_finite y = true -> leb o x y = Rleb (B2R x) (B2R y).
Proof. intros. cbn [leb float_ops]. rewrite Bleb_correct by assumption. destruct (Rle_bool_spec (B2R x) (B2R y)) as [A|A]; symmetry; [apply Rleb_iff|apply Rleb_niff]; exact A. Qed.
Lemma value_ltb (x y : fl) : is_finite x = true -> is_finite y = true -> ltb o x y = Rltb (B2R x) (B2R y).
Proof. intros. cbn [ltb float_ops]. rewrite Bltb_correct by assumption. unfold Rltb. destruct (Rlt_bool_spec (B2R x) (B2R y)) as [A|A]; destruct (Rlt_dec _ _); try reflexivity; lra. Qed.

(** ** One coordinate of one step *)
Lemma term_le k (a : nat -> R) i : (i < k)%nat -> (forall j, 0 <= a j) -> a i <= sum k a.
Proof.
  intros Hi Ha. induction k as [|k IH]; [lia|]. cbn [sum]. assert (0 <= sum k a) by (apply sum_pos; auto). destruct (Nat.eq_dec i k) as [->|Ne]; [lra|]. specialize (IH ltac:(lia)). specialize (Ha k). lra.
Qed.
Lemma clamp_value (lo hi z : fl) : is_finite lo = true -> is_finite hi = true -> is_finite z = true ->
  is_finite (clamp1 o lo hi z) = true /\ B2R (clamp1 o lo hi z) = clamp1 Rops (B2R lo) (B2R hi) (B2R z).
Proof.
  intros Fl Fh Fz. unfold clamp1. rewrite !value_ltb by assumption. cbn [ltb Rops]. destruct (Rltb (B2R z) (B2R lo)); [auto|]. destruct (Rltb (B2R hi) (B2R z)); auto.
Qed.
Lemma nearest_lip c i a b : gd_has_bounds c = true -> gd_min c i <= gd_max c i -> Rabs (nearest c i a - nearest c i b) <= Rabs (a - b).
Proof. intros E H. unfold nearest. rewrite E. unfold Rmax, Rmin. repeat destruct (Rle_dec _ _); unfold Rabs; repeat destruct (Rcase_abs _); lra. Qed.
Lemma nearest_lip' n c i a b : box_ok n c -> (i < n)%nat -> Rabs (nearest c i a - nearest c i b) <= Rabs (a - b).
Proof. intros H Hi. destruct (gd_has_bounds c) eqn:E; [apply nearest_lip; auto|]. unfold nearest. rewrite E. lra. Qed.

(** ** The computed norm *)
Lemma squares_pos k (a : nat -> fl) : is_finite (dot o k a a) = true -> 0 <= B2R (dot o k a a).
Proof.
  induction k as [|k IH]; intros F; [cbn; lra|]. unfold dot in *. rewrite for_S in F |- * by lia. destruct (add_fin _ _ _ _ F) as (F1 & F2 & V). rewrite V. destruct (mul_fin _ _ _ _ F2) as (_ & _ & V2).
  assert (P2 : 0 <= B2R (mul o (a k) (a k))) by (rewrite V2; apply round_ge_generic; [apply fexp_correct; exact P|apply valid_rnd_N|apply generic_format_0|apply Rle_0_sqr]).
  apply round_ge_generic; [apply fexp_correct; exact P|apply valid_rnd_N|apply generic_format_0|]. specialize (IH F1). lra.
Qed.
Lemma norm_finite k (a : nat -> fl) : finite_vec k a -> (1 + u) ^ (k + 2) <= 3 / 2 -> 2 * (sum k (fun i => B2R (a i) * B2R (a i)) + INR k * eta) <= largest prec emax ->
  is_finite (norm2 o k a) = true.
Proof.
  intros F W H. pose proof (pow_mono prec k (k + 2) ltac:(lia)) as Wk. pose proof (pow1 prec k) as W1. set (S := sum k (fun i => B2R (a i) * B2R (a i))) in *.
  assert (PS : 0 <= S) by (apply sum_pos; intros; apply Rle_0_sqr). pose proof (eta_pos prec emax) as Pe. pose proof (pos_INR k) as Pk. assert (Pn : 0 <= INR k * eta) by (apply Rmult_le_pos; lra).
  assert (Fd : is_finite (dot o k a a) = true).
  { apply (C105_dot prec emax k a a). split; [intros i Hi; split; apply F, Hi|].
    rewrite (sum_ext k _ (fun i => B2R (a i) * B2R (a i))) by (intros; apply Rabs_pos_eq; apply Rle_0_sqr). fold S. set (w := (1 + u) ^ k) in *.
    assert (w * S <= 3 / 2 * S) by (apply Rmult_le_compat_r; lra). assert (INR k * eta * w <= INR k * eta * (3 / 2)) by (apply Rmult_le_compat_l; lra). lra. }
  change (norm2 o k a) with (sqrtf o (dot o k a a)). pose proof (squares_pos k a Fd) as Z. destruct (Req_dec (B2R (dot o k a a)) 0) as [E|E]; [|apply sqrt_value; [exact Fd|lra]].
  destruct (dot o k a a) as [z|z| |z mm ee bb]; try discriminate Fd; [reflexivity|]. exfalso. apply eq_0_F2R in E. destruct z; discriminate E.
Qed.
Lemma norm_both k (a : nat -> fl) : finite_vec k a -> (1 + u) ^ (k + 2) <= 3 / 2 -> 2 * (sum k (fun i => B2R (a i) * B2R (a i)) + INR k * eta) <= largest prec emax ->
  let S := sum k (fun i => B2R (a i) * B2R (a i)) in let t := B2R (norm2 o k a) in 0 <= t /\ t * t <= 3 / 2 * (S + INR k * eta) /\ S <= 2 * (t * t) + 3 * (INR k * eta).
Proof.
  intros F W H S t. pose proof (norm_finite k a F W H) as Fn. destruct (C105_norm prec emax k a Fn) as [Pt K]. fold S in K. change (B2R (norm o k a)) with t in Pt, K.
  pose proof (eta_pos prec emax) as Pe. pose proof (pos_INR k) as Pk. assert (Pn : 0 <= INR k * eta) by (apply Rmult_le_pos; lra). assert (PS : 0 <= S) by (apply sum_pos; intros; apply Rle_0_sqr).
  split; [exact Pt|]. set (w := (1 + u) ^ (k + 2)) in *. assert ((w - 1) * S <= / 2 * S) by (apply Rmult_le_compat_r; lra). assert (INR k * eta * w <= INR k * eta * (3 / 2)) by (apply Rmult_le_compat_l; lra).
  apply Rabs_le_inv in K. lra.
Qed.

Section Run.
Context (n : nat) (c : @gd fl) (f : (nat -> fl) -> fl) (g : (nat -> fl) -> nat -> fl) (fuel : nat).
Context (fe : (nat -> R) -> R) (G : (nat -> R) -> nat -> R) (L mu : R) (y : nat -> R) (r e b m : R).
Local Notation lr := (B2R (gd_lr c)).
Local Notation C := (exact_settings c).
Local Notation d := (step_error prec emax lr e b (lr * m)).
Context (Pl : plain n c) (Sm : smooth n fe G L) (Cv : convex n fe G mu) (Lr : 0 < lr) (LL : lr * L <= 1) (Mi : minimiser n C fe y).
Context (Gw : gradient_within n g G y r e m) (Pm : 0 <= m) (By : forall i, (i < n)%nat -> Rabs (y i) + r <= b) (Room : 4 * (b + lr * m + 1) <= largest prec emax).

Lemma box : box_ok n C.
Proof. destruct Pl as (_ & _ & _ & _ & B). intros E. apply (B E). Qed.
Lemma coord (x : nat -> fl) i : away n x y <= r -> (i < n)%nat -> Rabs (B2R (x i) - y i) <= r.
Proof.
  intros H Hi. eapply Rle_trans; [|exact H]. unfold away, length2. rewrite <- sqrt_Rsqr_abs. apply sqrt_le_1_alt.
  apply (term_le n (fun i => (B2R (x i) - y i) * (B2R (x i) - y i)) i Hi). intros j. apply Rle_0_sqr.
Qed.

(** the point reached by one exact step from the floats [x] *)
Definition target (x : nat -> fl) : nat -> R := fun i => if (i <? n)%nat then nearest C i (B2R (x i) - lr * G (reals x) i) else B2R (x i).
Lemma toward (x : nat -> fl) : finite_vec n x -> same_tail n y (reals x) -> length2 n (fun i => target x i - y i) <= (1 - lr * mu / 2) * away n x y.
Proof.
  intros F T. assert (T1 : same_tail n (reals x) (target x)) by (intros i Hi; unfold target; destruct (Nat.ltb_spec i n); [lia|reflexivity]).
  assert (T2 : same_tail n (reals x) y) by (intros i Hi; symmetry; apply T; exact Hi). destruct Mi as [Al Min].
  assert (E : forall i, (i < n)%nat -> target x i = nearest C i (reals x i - gd_lr C * G (reals x) i)) by (intros i Hi; unfold target; destruct (Nat.ltb_spec i n); [reflexivity|lia]).
  pose proof (step_inequality n C fe G L mu (reals x) (target x) y Sm Cv Lr LL T1 T2 Al E) as A. change (gd_lr C) with lr in A.
  assert (A2 : fe y <= fe (target x)).
  { apply Min; [intros i Hi; rewrite (T1 i Hi), <- (T i Hi); reflexivity|]. intros Eb i Hi. rewrite E by exact Hi. apply (nearest_in n C (fun i => reals x i - gd_lr C * G (reals x) i) box Eb i Hi). }
  assert (A3 : 0 <= 2 * lr * (fe (target x) - fe y)) by (apply Rmult_le_pos; lra).
  assert (A4 : dist2 n (target x) y <= (1 - lr * mu) * dist2 n (reals x) y) by lra.
  destruct (Nat.eq_dec n 0) as [E0|E0]; [unfold away, length2; rewrite E0; cbn [sum]; rewrite sqrt_0; lra|].
  pose proof (factor_pos n C fe G L mu ltac:(lia) Sm Cv Lr LL) as Q. change (gd_lr C) with lr in Q.
  unfold away, length2. change (sum n (fun i => (target x i - y i) * (target x i - y i))) with (dist2 n (target x) y). change (sum n (fun i => (B2R (x i) - y i) * (B2R (x i) - y i))) with (dist2 n (reals x) y).
  pose proof (dist2_pos n (reals x) y) as PD. eapply Rle_trans; [apply sqrt_le_1_alt, A4|]. rewrite sqrt_mult by lra. apply Rmult_le_compat_r; [apply sqrt_pos|].
  rewrite <- (sqrt_Rsqr (1 - lr * mu / 2)) by lra. apply sqrt_le_1_alt. unfold Rsqr. nra.
Qed.
Definition moved_to (x v : nat -> fl) : nat -> fl :=
  gd_project o n c (vfill n (fun i => add o (x i) (mul o (gd_lr c) (direction o n c (g x) v i))) x).
Lemma moved_coord x v i : finite_vec n x -> finite_vec n v -> same_tail n y (reals x) -> away n x y <= r -> (i < n)%nat ->
  is_finite (moved_to x v i) = true /\ Rabs (B2R (moved_to x v i) - target x i) <= d /\ exists z, B2R (moved_to x v i) = nearest C i z.
Proof.
  intros Fx Fv T A Hi. destruct Pl as (_ & Fl & Fm & Zm & Bx). destruct (Gw x Fx T A i Hi) as [[Fg Eg] Sg]. pose proof (coord x i A Hi) as Kx. specialize (By i Hi).
  assert (Bxi : Rabs (B2R (x i)) <= b) by (replace (B2R (x i)) with ((B2R (x i) - y i) + y i) by ring; eapply Rle_trans; [apply Rabs_triang|]; lra).
  assert (Pb : 0 <= b) by (pose proof (Rabs_pos (B2R (x i))); lra). assert (Plm : 0 <= lr * m) by (apply Rmult_le_pos; lra).
  pose proof (u_pos prec) as Pu. pose proof (u24 prec Hp) as U. pose proof (eta_pos prec emax) as Pe. pose proof (eta_u prec emax He) as Eu.
  set (h := direction o n c (g x) v i). assert (D : is_finite h = true /\ B2R h = - B2R (g x i)).
  { unfold h, direction. rewrite vfill_in by exact Hi.
    assert (F1 : is_finite (mul o (gd_momentum c) (v i)) = true) by (apply mul_ok; auto; rewrite Zm, Rmult_0_l, Rabs_R0; lra).
    destruct (mul_fin _ _ _ _ F1) as (_ & _ & V1). rewrite Zm, Rmult_0_l, round_0 in V1 by apply valid_rnd_N.
    assert (F2 : is_finite (neg o (g x i)) = true) by (cbn [neg float_ops]; rewrite is_finite_Bopp; exact Fg). assert (V2 : B2R (neg o (g x i)) = - B2R (g x i)) by (cbn [neg float_ops]; apply B2R_Bopp).
    assert (F3 : is_finite (add o (neg o (g x i)) (mul o (gd_momentum c) (v i))) = true).
    { apply add_ok; auto. rewrite V1, Rplus_0_r. apply (abs_B2R_le_emax_minus_prec prec emax). exact P. }
    split; [exact F3|]. destruct (add_fin _ _ _ _ F3) as (_ & _ & V3). rewrite V3, V1, Rplus_0_r, (rd_id prec emax). exact V2. }
  destruct D as [Fh Vh]. assert (Sh : Rabs (lr * B2R h) <= lr * m) by (rewrite Vh, Rabs_mult, Rabs_Ropp, (Rabs_pos_eq lr) by lra; apply Rmult_le_compat_l; lra).
  assert (A1 : apx (mul o (gd_lr c) h) (lr * B2R h) (u * (lr * m) + eta)).
  { eapply apx_weak; [apply (apx_mul prec emax) with (1 := apx_exact prec emax _ Fl) (2 := apx_exact prec emax _ Fh) (bx := lr) (by_ := m); [rewrite Rabs_pos_eq; lra|rewrite Vh, Rabs_Ropp; exact Sg|lra]|lra]. }
  assert (LU : 0 <= u * (lr * m) <= / 16777216 * (lr * m)) by (split; [apply Rmult_le_pos; lra|apply Rmult_le_compat_r; lra]).
  assert (LUU : 0 <= u * (u * (lr * m)) <= / 16777216 * (u * (lr * m))) by (split; [apply Rmult_le_pos; lra|apply Rmult_le_compat_r; lra]).
  assert (EU : 0 <= u * eta <= / 16777216 * eta) by (split; [apply Rmult_le_pos; lra|apply Rmult_le_compat_r; lra]).
  assert (A2 : apx (add o (x i) (mul o (gd_lr c) h)) (B2R (x i) + lr * B2R h) (u * (b + 3 * (lr * m)) + 3 * eta)).
  { assert (Bs : Rabs (B2R (x i) + lr * B2R h) <= b + lr * m) by (eapply Rle_trans; [apply Rabs_triang|]; lra).
    eapply apx_weak; [apply (apx_add prec emax) with (1 := apx_exact prec emax _ (Fx i Hi)) (2 := A1) (b := b + lr * m); [exact Bs|lra]|lra]. }
  set (z := add o (x i) (mul o (gd_lr c) h)) in *. destruct A2 as [Fz Ez].
  assert (Et : target x i = nearest C i (B2R (x i) - lr * G (reals x) i)) by (unfold target; destruct (Nat.ltb_spec i n); [reflexivity|lia]).
  assert (Eq : moved_to x v i = if gd_has_bounds c then clamp1 o (gd_min c i) (gd_max c i) z else z) by (unfold moved_to, gd_project; rewrite project_spec by exact Hi; rewrite vfill_in by exact Hi; reflexivity).
  assert (V : is_finite (moved_to x v i) = true /\ B2R (moved_to x v i) = nearest C i (B2R z)).
  { rewrite Eq. rewrite <- (clamp_nearest n C i (B2R z) box Hi). change (gd_has_bounds C) with (gd_has_bounds c). destruct (gd_has_bounds c); [|auto]. destruct (Bx eq_refl) as (F1 & F2 & _). apply clamp_value; auto. }
  destruct V as [Fo Vo]. split; [exact Fo|]. split; [|exists (B2R z); exact Vo]. rewrite Vo, Et. eapply Rle_trans; [apply (nearest_lip' n C i _ _ box Hi)|].
  replace (B2R z - (B2R (x i) - lr * G (reals x) i)) with ((B2R z - (B2R (x i) + lr * B2R h)) + - (lr * (B2R (g x i) - G (reals x) i))) by (rewrite Vh; ring).
  eapply Rle_trans; [apply Rabs_triang|]. rewrite Rabs_Ropp, Rabs_mult, (Rabs_pos_eq lr) by lra. assert (lr * Rabs (B2R (g x i) - G (reals x) i) <= lr * e) by (apply Rmult_le_compat_l; lra). unfold step_error. lra.
Qed.
Lemma moved_away x v : finite_vec n x -> finite_vec n v -> same_tail n y (reals x) -> away n x y <= r ->
  finite_vec n (moved_to x v) /\ same_tail n y (reals (moved_to x v)) /\ away n (moved_to x v) y <= (1 - lr * mu / 2) * away n x y + sqrt (INR n) * d.
Proof.
  intros Fx Fv T A. split; [intros i Hi; apply moved_coord; assumption|]. split.
  - intros i Hi. unfold reals, moved_to, gd_project. rewrite project_out, vfill_spec by exact Hi. destruct (Nat.ltb_spec i n); [lia|]. apply T, Hi.
  - destruct (Nat.eq_dec n 0) as [E0|E0]; [unfold away, length2; rewrite E0; cbn [sum INR]; rewrite sqrt_0; lra|].
    assert (Pd : 0 <= d) by (destruct (moved_coord x v 0 Fx Fv T A ltac:(lia)) as (_ & K & _); eapply Rle_trans; [apply Rabs_pos|exact K]).
    pose proof (toward x Fx T) as K. assert (K2 : length2 n (fun i => B2R (moved_to x v i) - target x i) <= sqrt (INR n) * d).
    { rewrite <- (len_const n d Pd). apply (len_le n (fun i => B2R (moved_to x v i) - target x i) (fun _ => d)). intros i Hi. apply moved_coord; assumption. }
    unfold away in *. pose proof (len_add n (fun i => B2R (moved_to x v i) - target x i) (fun i => target x i - y i)) as K3.
    unfold length2 in *. unfold len in K3. erewrite sum_ext; [eapply Rle_trans; [exact K3|lra]|]. intros i Hi. cbv beta. ring.
Qed.

Context (Pe0 : 0 <= e) (Pmu : 0 < mu) (Noise : sqrt (INR n) * d <= lr * mu / 2 * r).
Local Notation q := (1 - lr * mu / 2).
Local Notation N := (2 * sqrt (INR n) * d / (lr * mu)).
Lemma sub_value (a z : nat -> fl) i : finite_vec n a -> finite_vec n z -> away n a y <= r -> away n z y <= r -> (i < n)%nat ->
  is_finite (sub o (a i) (z i)) = true /\ Rabs (B2R (sub o (a i) (z i))) <= (1 + u) * Rabs (B2R (a i) - B2R (z i)).
Proof.
  intros Fa Fz Aa Az Hi. pose proof (coord a i Aa Hi) as K1. pose proof (coord z i Az Hi) as K2. specialize (By i Hi). apply Rabs_le_inv in K1. apply Rabs_le_inv in K2.
  pose proof (Rabs_pos (y i)) as Py. assert (Plm : 0 <= lr * m) by (apply Rmult_le_pos; lra).
  assert (F : is_finite (sub o (a i) (z i)) = true) by (apply (sub_ok prec emax); auto; apply Rabs_le; lra).
  split; [exact F|]. apply (sub_fin prec emax) in F. destruct F as (_ & _ & t & Ht & ->). rewrite Rabs_mult, Rmult_comm. apply Rmult_le_compat_r; [apply Rabs_pos|]. apply Rabs_le_inv in Ht. apply Rabs_le. pose proof (u24 prec Hp). lra.
Qed.
Definition inv (x0 : nat -> fl) (k : nat) (s : @gd_state fl) : Prop :=
  finite_vec n (st_x s) /\ finite_vec n (st_v s) /\ same_tail n y (reals (st_x s)) /\ away n (st_x s) y <= r /\ away n (st_x s) y <= q ^ k * away n x0 y + N.
Lemma noise_pos : (0 < n)%nat -> 0 <= r -> 0 <= N /\ 0 <= q <= 1 /\ q * N + sqrt (INR n) * d <= N /\ q * r + sqrt (INR n) * d <= r.
Proof.
  intros Hn Hr. pose proof (factor_pos n C fe G L mu Hn Sm Cv Lr LL) as Q. change (gd_lr C) with lr in Q. assert (Pt : 0 < lr * mu) by (apply Rmult_lt_0_compat; lra).
  assert (Pd : 0 <= d).
  { unfold step_error. pose proof (u_pos prec). pose proof (eta_pos prec emax). assert (0 <= lr * m) by (apply Rmult_le_pos; lra). specialize (By 0%nat Hn). pose proof (Rabs_pos (y 0%nat)).
    assert (0 <= lr * e) by (apply Rmult_le_pos; lra). assert (0 <= u * (b + 3 * (lr * m))) by (apply Rmult_le_pos; lra). lra. }
  assert (Ps : 0 <= sqrt (INR n) * d) by (apply Rmult_le_pos; [apply sqrt_pos|exact Pd]).
  assert (EN : lr * mu / 2 * N = sqrt (INR n) * d) by (field; split; [lra|]; apply Rgt_not_eq; exact Lr).
  split; [unfold Rdiv; rewrite (Rmult_assoc 2); apply Rmult_le_pos; [lra|]; left; apply Rinv_0_lt_compat; exact Pt|]. split; [lra|]. split; lra.
Qed.
Lemma away_pos (x z : nat -> fl) : 0 <= away n x y. Proof. apply sqrt_pos. Qed.
Lemma step_inv x0 k s s' v : away n x0 y <= r -> inv x0 k s -> gd_body o n c f g fuel s = Some (s', v) ->
  (v = StopBefore -> s' = s) /\ (v <> StopBefore -> st_x s' = moved_to (st_x s) (st_v s) /\ st_v s' = vfill n (fun i => sub o (st_x s' i) (st_x s i)) (st_v s) /\
    (v = Go -> leb o (norm2 o n (st_v s')) (gd_tol_step c) = false) /\ inv x0 (k + 1) s').
Proof.
  intros A0 (Fx & Fv & T & A & B). unfold gd_body. rewrite (proj1 Pl). destruct (leb o (norm2 o n (g (st_x s))) (gd_tol_grad c)).
  { intros H. injection H as <- <-. split; [reflexivity|congruence]. }
  fold (moved_to (st_x s) (st_v s)). set (x' := moved_to (st_x s) (st_v s)). set (v' := vfill n (fun i => sub o (x' i) (st_x s i)) (st_v s)).
  remember (leb o (norm2 o n v') (gd_tol_step c)) as t eqn:Et. intros H. injection H as <- <-. cbn [st_x st_v]. split; [destruct t; discriminate|]. intros _. split; [reflexivity|]. split; [reflexivity|]. split; [rewrite <- Et; destruct t; [discriminate|reflexivity]|]. clear Et.
  destruct (moved_away (st_x s) (st_v s) Fx Fv T A) as (F' & T' & A'). fold x' in F', T', A'.
  assert (K : away n x' y <= r /\ away n x' y <= q ^ (k + 1) * away n x0 y + N).
  { destruct (Nat.eq_dec n 0) as [E0|E0].
    - assert (Z : forall z : nat -> fl, away n z y = 0) by (intros z; unfold away, length2; rewrite E0; cbn [sum]; apply sqrt_0). rewrite !Z in *. rewrite E0 in *. cbn [INR] in *. rewrite sqrt_0 in *. lra.
    - assert (Hr : 0 <= r) by (eapply Rle_trans; [apply (away_pos x0 x0)|exact A0]). destruct (noise_pos ltac:(lia) Hr) as (N1 & Q1 & N2 & N3). split.
      + eapply Rle_trans; [exact A'|]. assert (q * away n (st_x s) y <= q * r) by (apply Rmult_le_compat_l; lra). lra.
      + eapply Rle_trans; [exact A'|]. assert (q * away n (st_x s) y <= q * (q ^ k * away n x0 y + N)) by (apply Rmult_le_compat_l; lra).
        rewrite Nat.add_1_r. cbn [pow]. lra. }
  destruct K as [K1 K2]. unfold inv. cbn [st_x st_v]. split; [exact F'|]. split; [|split; [exact T'|split; assumption]].
  intros i Hi. unfold v'. rewrite vfill_in by exact Hi. apply (sub_value x' (st_x s) i); assumption.
Qed.
Lemma start x0 : finite_vec n x0 -> same_tail n y (reals x0) -> away n x0 y <= r -> inv x0 0 (mkSt x0 (vzero o) (f x0)).
Proof.
  intros F T A. unfold inv. cbn [st_x st_v pow]. split; [exact F|]. split; [intros i _; reflexivity|]. split; [exact T|]. split; [exact A|].
  destruct (Nat.eq_dec n 0) as [E0|E0]; [rewrite E0; cbn [INR]; rewrite sqrt_0; unfold Rdiv; lra|].
  assert (Hr : 0 <= r) by (eapply Rle_trans; [apply (away_pos x0 x0)|exact A]). destruct (noise_pos ltac:(lia) Hr) as (N1 & _). lra.
Qed.
Lemma run_inv x0 x fx k ok : finite_vec n x0 -> same_tail n y (reals x0) -> away n x0 y <= r -> minimize o n c f g fuel x0 = Some (x, fx, k, ok) ->
  finite_vec n x /\ away n x y <= q ^ k * away n x0 y + N.
Proof.
  intros F T A H. unfold minimize in H. destruct (opt_loop _ _ _ _) as [[[s k'] ok']|] eqn:E; [|discriminate]. injection H as <- <- <- <-.
  apply (opt_loop_inv (fun _ => gd_body o n c f g fuel) (inv x0)) in E; [destruct E as (F' & _ & _ & _ & K); auto|apply start; assumption|].
  intros j s1 s2 v I Hb. destruct (step_inv x0 j s1 s2 v A I Hb) as [K1 K2]. destruct v; [rewrite K1 by reflexivity; exact I|apply K2; discriminate|apply K2; discriminate].
Qed.

(** ** Stopping *)
Context (Hn : (0 < n)%nat) (Pow : (1 + u) ^ (n + 2) <= 3 / 2) (Room2 : 10 * (r * r) + 2 * (INR n * (m * m)) + 2 * (INR n * eta) <= largest prec emax).
Local Notation E := (INR n * eta).
Lemma difference_norm (x x' : nat -> fl) v : finite_vec n x -> finite_vec n x' -> away n x y <= r -> away n x' y <= r ->
  let w := vfill n (fun i => sub o (x' i) (x i)) v in let D := length2 n (fun i => B2R (x' i) - B2R (x i)) in let t := B2R (norm2 o n w) in
  is_finite (norm2 o n w) = true /\ 0 <= t /\ D <= away n x' y + away n x y /\ t * t <= 8 / 5 * (D * D) + 2 * E /\ D * D <= 3 * (t * t) + 4 * E.
Proof.
  intros Fx Fx' Ax Ax' w D t. pose proof (eta_pos prec emax) as Pe. pose proof (pos_INR n) as Pk. assert (Pn : 0 <= E) by (apply Rmult_le_pos; lra). pose proof (u_pos prec) as Pu. pose proof (u24 prec Hp) as U.
  assert (PD : 0 <= D) by apply sqrt_pos. assert (DD : D * D = sum n (fun i => (B2R (x' i) - B2R (x i)) * (B2R (x' i) - B2R (x i)))) by (apply sqrt_sqrt, sum_pos; intros; apply Rle_0_sqr).
  assert (Tr : D <= away n x' y + away n x y).
  { unfold D, away. pose proof (len_add n (fun i => B2R (x' i) - y i) (fun i => - (B2R (x i) - y i))) as K. unfold len in K. unfold length2.
    rewrite (sum_ext n _ (fun i => (B2R (x' i) - y i + - (B2R (x i) - y i)) * (B2R (x' i) - y i + - (B2R (x i) - y i)))) by (intros; ring).
    rewrite (sum_ext n (fun i => - (B2R (x i) - y i) * - (B2R (x i) - y i)) (fun i => (B2R (x i) - y i) * (B2R (x i) - y i))) in K by (intros; ring). exact K. }
  set (S := sum n (fun i => B2R (w i) * B2R (w i))).
  assert (Fw : finite_vec n w) by (intros i Hi; unfold w; rewrite vfill_in by exact Hi; apply (sub_value x' x i); assumption).
  assert (Wi : forall i, (i < n)%nat -> exists q, Rabs q <= u /\ B2R (w i) = (B2R (x' i) - B2R (x i)) * (1 + q)).
  { intros i Hi. specialize (Fw i Hi). unfold w in *. rewrite vfill_in in * by exact Hi. apply (sub_fin prec emax) in Fw. destruct Fw as (_ & _ & K). exact K. }
  assert (S1 : S <= 21 / 20 * (D * D)).
  { unfold S. rewrite DD, <- sum_scal. apply sum_le. intros i Hi. destruct (Wi i Hi) as (p & Hq & ->). apply Rabs_le_inv in Hq. set (z := B2R (x' i) - B2R (x i)).
    replace (z * (1 + p) * (z * (1 + p))) with (((1 + p) * (1 + p)) * (z * z)) by ring. apply Rmult_le_compat_r; [apply Rle_0_sqr|]. nra. }
  assert (S2 : D * D <= 21 / 20 * S).
  { unfold S. rewrite DD, <- sum_scal. apply sum_le. intros i Hi. destruct (Wi i Hi) as (p & Hq & ->). apply Rabs_le_inv in Hq. set (z := B2R (x' i) - B2R (x i)).
    replace (21 / 20 * (z * (1 + p) * (z * (1 + p)))) with ((21 / 20 * ((1 + p) * (1 + p))) * (z * z)) by ring. rewrite <- (Rmult_1_l (z * z)) at 1. apply Rmult_le_compat_r; [apply Rle_0_sqr|]. nra. }
  assert (Dr : D * D <= 4 * (r * r)) by (assert (D <= 2 * r) by lra; replace (4 * (r * r)) with ((2 * r) * (2 * r)) by ring; apply Rmult_le_compat; lra).
  assert (Pm2 : 0 <= INR n * (m * m)) by (apply Rmult_le_pos; [lra|apply Rle_0_sqr]).
  assert (Rm : 2 * (S + E) <= largest prec emax) by lra.
  split; [exact (norm_finite n w Fw Pow Rm)|]. destruct (norm_both n w Fw Pow Rm) as (K1 & K2 & K3). fold S t in K1, K2, K3. split; [exact K1|]. split; [exact Tr|]. pose proof (Rle_0_sqr t) as Z1. pose proof (Rle_0_sqr D) as Z2. unfold Rsqr in Z1, Z2. lra.
Qed.
Lemma last_step x0 s k j : finite_vec n x0 -> same_tail n y (reals x0) -> away n x0 y <= r ->
  opt_loop (fun _ => gd_body o n c f g fuel) (S j) 0 (mkSt x0 (vzero o) (f x0)) = Some (s, k, false) ->
  is_finite (gd_tol_step c) = true -> 0 <= B2R (gd_tol_step c) ->
  B2R (gd_tol_step c) * B2R (gd_tol_step c) < 8 * ((q ^ j * away n x0 y + N) * (q ^ j * away n x0 y + N)) + 2 * E.
Proof.
  intros F T A H Ft Pt. pose proof (opt_loop_false _ _ _ _ _ _ H) as Ek. cbn [Nat.add] in Ek. subst k.
  destruct (opt_loop_prefix (fun _ => gd_body o n c f g fuel) (S j) 0 _ s j H ltac:(lia)) as [s0 H0].
  rewrite (opt_loop_snoc (fun _ => gd_body o n c f g fuel) j 0 _ s0 H0) in H. cbn [Nat.add] in H, H0.
  assert (I : inv x0 j s0).
  { apply (opt_loop_inv (fun _ => gd_body o n c f g fuel) (inv x0)) in H0; [exact H0|apply start; assumption|].
    intros i s1 s2 v I Hb. destruct (step_inv x0 i s1 s2 v A I Hb) as [K1 K2]. destruct v; [rewrite K1 by reflexivity; exact I|apply K2; discriminate|apply K2; discriminate]. }
  destruct (gd_body o n c f g fuel s0) as [[s1 v]|] eqn:Hb; [|discriminate]. destruct v; [discriminate|discriminate|].
  destruct (step_inv x0 j s0 s1 Go A I Hb) as [_ K]. destruct K as (K1 & K2 & K3 & I1); [discriminate|]. specialize (K3 eq_refl). destruct I as (Fx & Fv & Tx & Ax & Bx). destruct I1 as (Fx1 & Fv1 & Tx1 & Ax1 & Bx1).
  destruct (difference_norm (st_x s0) (st_x s1) (st_v s0) Fx Fx1 Ax Ax1) as (Fn & Pn & D1 & D2 & _). rewrite <- K2 in Fn, Pn, D2.
  rewrite value_leb in K3 by assumption. apply Rleb_niff in K3.
  assert (Hr : 0 <= r) by (eapply Rle_trans; [apply (away_pos x0 x0)|exact A]). destruct (noise_pos Hn Hr) as (N1 & Q1 & _).
  pose proof (away_pos x0 x0) as P0. pose proof (pow_le q j (proj1 Q1)) as Pq. assert (Pz : 0 <= q ^ j * away n x0 y) by (apply Rmult_le_pos; assumption).
  assert (Q2 : q ^ (j + 1) * away n x0 y <= q ^ j * away n x0 y) by (apply Rmult_le_compat_r; [exact P0|]; rewrite Nat.add_1_r; cbn [pow]; rewrite <- (Rmult_1_l (q ^ j)) at 2; apply Rmult_le_compat_r; lra).
  assert (Bx2 : away n (st_x s1) y <= q ^ j * away n x0 y + N) by lra. assert (Pz2 : 0 <= q ^ j * away n x0 y + N) by lra.
  set (z := q ^ j * away n x0 y + N) in *. set (D := length2 n (fun i => B2R (st_x s1 i) - B2R (st_x s0 i))) in *. assert (PD : 0 <= D) by apply sqrt_pos.
  assert (DD : D * D <= 4 * (z * z)) by (replace (4 * (z * z)) with ((2 * z) * (2 * z)) by ring; apply Rmult_le_compat; lra).
  assert (B2R (gd_tol_step c) * B2R (gd_tol_step c) < B2R (norm2 o n (st_v s1)) * B2R (norm2 o n (st_v s1))) by (apply Rmult_le_0_lt_compat; assumption).
  assert (0 <= z * z) by apply Rle_0_sqr. lra.
Qed.

Lemma moved_allowed x v : finite_vec n x -> finite_vec n v -> same_tail n y (reals x) -> away n x y <= r -> allowed n C (reals (moved_to x v)).
Proof.
  intros Fx Fv T A Eb i Hi. destruct (moved_coord x v i Fx Fv T A Hi) as (_ & _ & z & Ez). change (reals (moved_to x v) i) with (B2R (moved_to x v i)). rewrite Ez. apply (nearest_in n C (fun _ => z) box Eb i Hi).
Qed.
(** a small gradient or a small step means a small distance *)
Lemma by_gradient x : finite_vec n x -> same_tail n y (reals x) -> away n x y <= r -> allowed n C (reals x) ->
  is_finite (gd_tol_grad c) = true -> leb o (norm2 o n (g x)) (gd_tol_grad c) = true ->
  away n x y <= 2 / mu * (sqrt (3 * (B2R (gd_tol_grad c) * B2R (gd_tol_grad c)) + 4 * E) + sqrt (INR n) * e).
Proof.
  intros Fx T A Al Ft Le. assert (Fg : finite_vec n (g x)) by (intros i Hi; apply (Gw x Fx T A i Hi)).
  pose proof (eta_pos prec emax) as Pe. pose proof (pos_INR n) as Pk. assert (Pn : 0 <= E) by (apply Rmult_le_pos; lra).
  assert (S1 : sum n (fun i => B2R (g x i) * B2R (g x i)) <= INR n * (m * m)).
  { rewrite <- sum_const. apply sum_le. intros i Hi. destruct (Gw x Fx T A i Hi) as [_ K]. rewrite <- (Rabs_pos_eq (B2R (g x i) * B2R (g x i))) by apply Rle_0_sqr. rewrite Rabs_mult. apply Rmult_le_compat; try apply Rabs_pos; exact K. }
  assert (Rm : 2 * (sum n (fun i => B2R (g x i) * B2R (g x i)) + E) <= largest prec emax) by (pose proof (Rle_0_sqr r) as Z; unfold Rsqr in Z; lra).
  pose proof (norm_finite n (g x) Fg Pow Rm) as Fn. destruct (norm_both n (g x) Fg Pow Rm) as (K1 & _ & K3). rewrite value_leb in Le by assumption. apply Rleb_iff in Le.
  set (t := B2R (norm2 o n (g x))) in *. set (tol := B2R (gd_tol_grad c)) in *. assert (tt : t * t <= tol * tol) by (apply Rmult_le_compat; lra).
  assert (L1 : length2 n (fun i => B2R (g x i)) <= sqrt (3 * (tol * tol) + 4 * E)) by (apply sqrt_le_1_alt; pose proof (Rle_0_sqr tol) as Z; unfold Rsqr in Z; lra).
  assert (L2 : length2 n (G (reals x)) <= sqrt (3 * (tol * tol) + 4 * E) + sqrt (INR n) * e).
  { pose proof (len_add n (fun i => B2R (g x i)) (fun i => G (reals x) i - B2R (g x i))) as K.
    assert (K2 : len n (fun i => G (reals x) i - B2R (g x i)) <= sqrt (INR n) * e).
    { rewrite <- (len_const n e Pe0). apply len_le. intros i Hi. destruct (Gw x Fx T A i Hi) as [[_ K4] _]. rewrite Rabs_minus_sym. exact K4. }
    unfold len, length2 in *. rewrite (sum_ext n (fun i => G (reals x) i * G (reals x) i) (fun k => (B2R (g x k) + (G (reals x) k - B2R (g x k))) * (B2R (g x k) + (G (reals x) k - B2R (g x k))))) by (intros; ring). lra. }
  assert (T2 : same_tail n (reals x) y) by (intros i Hi; symmetry; apply T; exact Hi). pose proof (Cv (reals x) y T2) as B. pose proof (proj2 Mi (reals x) T Al) as M1.
  pose proof (cs_len n (G (reals x)) (fun i => - (y i - reals x i))) as CS.
  assert (Ea : length2 n (fun i => - (y i - reals x i)) = away n x y) by (unfold away, length2; f_equal; apply sum_ext; intros; unfold reals; ring).
  assert (Ed : dist2 n y (reals x) = away n x y * away n x y) by (unfold away, length2; rewrite sqrt_sqrt by (apply sum_pos; intros; apply Rle_0_sqr); apply sum_ext; intros; unfold reals; ring).
  assert (Es : sum n (fun i => G (reals x) i * - (y i - reals x i)) = - sum n (fun i => G (reals x) i * (y i - reals x i))) by (rewrite (sum_ext n _ (fun i => (-1) * (G (reals x) i * (y i - reals x i)))) by (intros; ring); rewrite sum_scal; ring).
  cbv beta in CS. rewrite Ea, Es in CS. rewrite Ed in B. pose proof (away_pos x x) as Pa. set (a := away n x y) in *. set (T0 := sqrt (3 * (tol * tol) + 4 * E) + sqrt (INR n) * e) in *.
  assert (Kt : length2 n (G (reals x)) * a <= T0 * a) by (apply Rmult_le_compat_r; lra).
  assert (Q : mu / 2 * a * a <= T0 * a) by lra. destruct (Req_dec a 0) as [Za|Za].
  - rewrite Za. apply Rmult_le_pos; [apply Rlt_le, Rdiv_lt_0_compat; lra|]. unfold T0. apply Rplus_le_le_0_compat; [apply sqrt_pos|apply Rmult_le_pos; [apply sqrt_pos|exact Pe0]].
  - assert (Q2 : mu / 2 * a <= T0) by (apply Rmult_le_reg_r with a; lra). apply Rmult_le_reg_l with (mu / 2); [lra|]. replace (mu / 2 * (2 / mu * T0)) with T0 by (field; lra). exact Q2.
Qed.
Lemma by_step (x x' : nat -> fl) v : finite_vec n x -> finite_vec n x' -> away n x y <= r -> away n x' y <= r -> away n x' y <= q * away n x y + sqrt (INR n) * d ->
  is_finite (gd_tol_step c) = true -> leb o (norm2 o n (vfill n (fun i => sub o (x' i) (x i)) v)) (gd_tol_step c) = true ->
  away n x' y <= 2 / (lr * mu) * (sqrt (3 * (B2R (gd_tol_step c) * B2R (gd_tol_step c)) + 4 * E) + sqrt (INR n) * d).
Proof.
  intros Fx Fx' Ax Ax' St Ft Le. destruct (difference_norm x x' v Fx Fx' Ax Ax') as (Fn & Pn & _ & _ & D2). rewrite value_leb in Le by assumption. apply Rleb_iff in Le.
  set (t := B2R (norm2 o n _)) in *. set (tol := B2R (gd_tol_step c)) in *. assert (tt : t * t <= tol * tol) by (apply Rmult_le_compat; lra).
  set (D := length2 n (fun i => B2R (x' i) - B2R (x i))) in *. assert (PD : 0 <= D) by apply sqrt_pos.
  assert (D3 : D <= sqrt (3 * (tol * tol) + 4 * E)) by (rewrite <- (sqrt_square D PD); apply sqrt_le_1_alt; lra).
  assert (Tr : away n x y <= away n x' y + D).
  { unfold D, away. pose proof (len_add n (fun i => B2R (x' i) - y i) (fun i => - (B2R (x' i) - B2R (x i)))) as K. unfold len in K. unfold length2.
    rewrite (sum_ext n (fun i => (B2R (x i) - y i) * (B2R (x i) - y i)) (fun i => (B2R (x' i) - y i + - (B2R (x' i) - B2R (x i))) * (B2R (x' i) - y i + - (B2R (x' i) - B2R (x i))))) by (intros; ring).
    rewrite (sum_ext n (fun i => - (B2R (x' i) - B2R (x i)) * - (B2R (x' i) - B2R (x i))) (fun i => (B2R (x' i) - B2R (x i)) * (B2R (x' i) - B2R (x i)))) in K by (intros; ring). exact K. }
  assert (Hr : 0 <= r) by (eapply Rle_trans; [apply (away_pos x x)|exact Ax]). destruct (noise_pos Hn Hr) as (_ & Q1 & _). assert (Pt : 0 < lr * mu) by (apply Rmult_lt_0_compat; lra).
  assert (Q2 : q * away n x y <= q * (away n x' y + D)) by (apply Rmult_le_compat_l; lra). assert (Q3 : q * D <= 1 * D) by (apply Rmult_le_compat_r; lra).
  apply Rmult_le_reg_l with (lr * mu / 2); [lra|]. set (T0 := sqrt (3 * (tol * tol) + 4 * E) + sqrt (INR n) * d) in *. replace (lr * mu / 2 * (2 / (lr * mu) * T0)) with T0 by (field; split; apply Rgt_not_eq; assumption). unfold T0. lra.
Qed.
Lemma answer x0 x fx k : finite_vec n x0 -> same_tail n y (reals x0) -> away n x0 y <= r -> allowed n C (reals x0) ->
  is_finite (gd_tol_grad c) = true -> is_finite (gd_tol_step c) = true -> minimize o n c f g fuel x0 = Some (x, fx, k, true) ->
  away n x y <= 2 / mu * (sqrt (3 * (B2R (gd_tol_grad c) * B2R (gd_tol_grad c)) + 4 * E) + sqrt (INR n) * e) \/
  away n x y <= 2 / (lr * mu) * (sqrt (3 * (B2R (gd_tol_step c) * B2R (gd_tol_step c)) + 4 * E) + sqrt (INR n) * d).
Proof.
  intros F T A Al Fg Fs H. unfold minimize in H. destruct (opt_loop _ _ _ _) as [[[s k'] ok']|] eqn:El; [|discriminate]. injection H as <- _ <- ->.
  destruct (opt_loop_true _ _ _ _ _ _ El) as (j & s0 & v & Hj & H0 & Hb & Hv).
  assert (I : inv x0 j s0 /\ allowed n C (reals (st_x s0))).
  { apply (opt_loop_inv (fun _ => gd_body o n c f g fuel) (fun k s => inv x0 k s /\ allowed n C (reals (st_x s)))) in H0; [exact H0|split; [apply start; assumption|exact Al]|].
    intros i s1 s2 w [I Ia] Hw. destruct (step_inv x0 i s1 s2 w A I Hw) as [K1 K2].
    assert (Z : w <> StopBefore -> inv x0 (i + 1) s2 /\ allowed n C (reals (st_x s2))) by (intros Nw; destruct (K2 Nw) as (E1 & _ & _ & I2); split; [exact I2|]; rewrite E1; destruct I as (Fx & Fv & Tx & Ax & _); apply moved_allowed; assumption).
    destruct w; [rewrite K1 by reflexivity; auto|apply Z; discriminate|apply Z; discriminate]. }
  destruct I as [I Ia]. pose proof I as (Fx & Fv & Tx & Ax & _). destruct (gd_body_spec o n c f g fuel s0 s v Hb) as [(-> & -> & Eg)|(Nv & _ & _ & _ & Ev & Es)]; [left; apply by_gradient; assumption|].
  destruct (step_inv x0 j s0 s v A I Hb) as [_ K]. destruct (K Nv) as (E1 & E2 & _ & (Fx1 & _ & _ & Ax1 & _)). destruct Hv as [[-> _]|[-> _]]; [congruence|]. pose proof (proj1 Es eq_refl) as Le. rewrite E2 in Le.
  right. apply (by_step (st_x s0) (st_x s) (st_v s0)); try assumption. rewrite E1. apply moved_away; assumption.
Qed.
End Run.

(** After [k] iterations, for whatever reason they end, every coordinate is a number and the point is within
    [(1 - lr mu / 2)^k] times the initial distance plus the noise level of the minimiser. *)
Theorem C136_distance : forall n c f g fe G L mu y r e m b fuel x0 x fx k ok,
  descent_problem n c fe G L mu y g r e m b -> good_start n y r x0 ->
  minimize o n c f g fuel x0 = Some (x, fx, k, ok) ->
  finite_vec n x /\ away n x y <= (1 - B2R (gd_lr c) * mu / 2) ^ k * away n x0 y + noise_level prec emax n (B2R (gd_lr c)) mu e b m.
Proof.
  intros n c f g fe G L mu y r e m b fuel x0 x fx k ok (H1 & H2 & H3 & H4 & H5 & H6 & H7 & H8 & H9 & H10 & H11 & H12 & H13 & H14) (S1 & S2 & S3) H.
  exact (run_inv n c f g fuel fe G L mu y r e b m H2 H3 H4 H6 H7 H8 H9 H11 H12 H13 H10 H5 H14 x0 x fx k ok S1 S2 S3 H).
Qed.
(** With a step tolerance above five times the noise level and enough iterations the run reports convergence. *)
Theorem C136_stops : forall n c f g fe G L mu y r e m b fuel x0,
  descent_problem n c fe G L mu y g r e m b -> good_start n y r x0 -> norms_accurate prec emax n r m ->
  is_finite (gd_tol_step c) = true -> 0 <= B2R (gd_tol_step c) ->
  (let N := noise_level prec emax n (B2R (gd_lr c)) mu e b m in 20 * (N * N) + 4 * (INR n * eta) < B2R (gd_tol_step c) * B2R (gd_tol_step c)) ->
  exists m0, forall k0, (m0 <= k0)%nat -> exists x fx k, minimize o n (set_max_iters k0 c) f g fuel x0 = Some (x, fx, k, true).
Proof.
  intros n c f g fe G L mu y r e m b fuel x0 (H1 & H2 & H3 & H4 & H5 & H6 & H7 & H8 & H9 & H10 & H11 & H12 & H13 & H14) (S1 & S2 & S3) (A1 & A2) Ft Pt Tol.
  set (t := B2R (gd_tol_step c)) in *. set (N := noise_level prec emax n (B2R (gd_lr c)) mu e b m) in *. cbv zeta in Tol.
  set (q := 1 - B2R (gd_lr c) * mu / 2). set (D := away n x0 y). assert (PD : 0 <= D) by apply sqrt_pos.
  assert (Hr : 0 <= r) by (unfold D in PD; lra).
  pose proof (noise_pos n c fe G L mu y r e b m H3 H4 H6 H7 H11 H12 H10 H5 H14 H1 Hr) as (N1 & Q1 & _). fold q in Q1. fold N in N1.
  assert (Q2 : q < 1) by (unfold q; assert (0 < B2R (gd_lr c) * mu) by (apply Rmult_lt_0_compat; assumption); lra).
  pose proof (eta_pos prec emax) as Pe. pose proof (pos_INR n) as Pk. assert (Pn : 0 <= INR n * eta) by (apply Rmult_le_pos; lra).
  assert (Z : exists m0, forall j, (m0 <= j)%nat -> 8 * ((q ^ j * D + N) * (q ^ j * D + N)) + 2 * (INR n * eta) < t * t).
  { set (w := t * t - (20 * (N * N) + 4 * (INR n * eta))). assert (Pw : 0 < w) by (unfold w; lra). set (z := Rmin 1 (w / (17 * (D + 1)))).
    assert (Pz : 0 < z) by (apply Rmin_glb_lt; [lra|apply Rdiv_lt_0_compat; lra]). 
    destruct (pow_lt_1_zero q ltac:(rewrite Rabs_pos_eq; lra) (z / (D + 1)) ltac:(apply Rdiv_lt_0_compat; lra)) as [m0 Hm0]. exists m0. intros j Hj. specialize (Hm0 j Hj).
    pose proof (pow_le q j (proj1 Q1)) as Pq. rewrite Rabs_pos_eq in Hm0 by exact Pq. assert (K : q ^ j * (D + 1) < z) by (apply Rmult_lt_reg_r with (/ (D + 1)); [apply Rinv_0_lt_compat; lra|]; rewrite Rmult_assoc, Rinv_r by lra; unfold Rdiv in Hm0; lra).
    set (p := q ^ j * D) in *. assert (Pp : 0 <= p) by (apply Rmult_le_pos; lra). assert (Kp : p <= z) by (unfold p; lra). assert (z1 : z <= 1) by apply Rmin_l. assert (z2 : z <= w / (17 * (D + 1))) by apply Rmin_r.
    assert (w17 : w / (17 * (D + 1)) <= w / 17) by (unfold Rdiv; apply Rmult_le_compat_l; [lra|]; apply Rinv_le_contravar; lra).
    assert (pp : p * p <= 1 * z) by (apply Rmult_le_compat; lra). pose proof (Rle_0_sqr (p - N)) as Sq. unfold Rsqr in Sq. pose proof (Rle_0_sqr N) as NN. unfold Rsqr in NN. unfold w in *. lra. }
  destruct Z as [m0 Z]. exists (S m0). intros k0 Hk. destruct k0 as [|j]; [lia|]. set (c' := set_max_iters (S j) c).
  assert (Tot : exists r, minimize o n c' f g fuel x0 = Some r).
  { unfold minimize. destruct (opt_loop_total (fun _ => gd_body o n c' f g fuel) (fun _ => True) (gd_max_iters c') 0%nat (mkSt x0 (vzero o) (f x0)) I) as [r' E'].
    - intros _ s _. unfold gd_body. change (gd_backtracking c') with (gd_backtracking c). rewrite (proj1 H2). destruct (leb _ _ _); eauto.
    - rewrite E'. destruct r' as [[s k] ok]. eauto. }
  destruct Tot as [[[[x fx] k] ok] E]. exists x, fx, k. rewrite E. destruct ok; [reflexivity|exfalso].
  unfold minimize in E. destruct (opt_loop _ _ _ _) as [[[s k'] ok']|] eqn:El; [|discriminate]. injection E as _ _ _ ->. change (gd_max_iters c') with (S j) in El.
  pose proof (last_step n c' f g fuel fe G L mu y r e b m H2 H3 H4 H6 H7 H8 H9 H11 H12 H13 H10 H5 H14 H1 A1 A2 x0 s k' j S1 S2 S3 El Ft Pt) as K.
  change (gd_tol_step c') with (gd_tol_step c) in K. change (gd_lr c') with (gd_lr c) in K. fold t q D in K. specialize (Z j ltac:(lia)). unfold N, noise_level in Z. lra.
Qed.
(** A reported convergence, however early, is near the minimiser: the tolerances measured by the rounded norms, and the errors of
    the gradient or of one step, over the convexity. *)
Theorem C136_answer : forall n c f g fe G L mu y r e m b fuel x0 x fx k,
  descent_problem n c fe G L mu y g r e m b -> good_start n y r x0 -> allowed n (exact_settings c) (reals x0) -> norms_accurate prec emax n r m ->
  is_finite (gd_tol_grad c) = true -> is_finite (gd_tol_step c) = true ->
  minimize o n c f g fuel x0 = Some (x, fx, k, true) ->
  let lr := B2R (gd_lr c) in
  away n x y <= 2 / mu * (measured prec emax n (B2R (gd_tol_grad c)) + sqrt (INR n) * e) \/
  away n x y <= 2 / (lr * mu) * (measured prec emax n (B2R (gd_tol_step c)) + sqrt (INR n) * step_error prec emax lr e b (lr * m)).
Proof.
  intros n c f g fe G L mu y r e m b fuel x0 x fx k (H1 & H2 & H3 & H4 & H5 & H6 & H7 & H8 & H9 & H10 & H11 & H12 & H13 & H14) (S1 & S2 & S3) Al (A1 & A2) Fg Fs H.
  exact (answer n c f g fuel fe G L mu y r e b m H2 H3 H4 H6 H7 H8 H9 H11 H12 H13 H10 H5 H14 H1 A1 A2 x0 x fx k S1 S2 S3 Al Fg Fs H).
Qed.
End Width.

(** The square of one coordinate in [f64] from the start 1 with step one half: the run reports convergence within 10^-5 of the minimum. *)
Local Instance p53 : Prec_gt_0 53 := eq_refl. Local Instance e53 : Prec_lt_emax 53 1024 := eq_refl.
Definition bowl (x : nat -> R) : R := x 0%nat * x 0%nat / 2.
Definition halves : @gd (binary_float 53 1024) :=
  let o := float_ops 53 1024 in
  mkGd (div o (one o) (add o (one o) (one o))) false (zero o) (zero o) (zero o) (zero o) (nearest_float 53 1024 (bpow radix2 (-20))) 1 false (fun _ => zero o) (fun _ => zero o).
Example C136_nontrivial :
  descent_problem 1 halves bowl (fun x => x) 1 1 (fun i => if Nat.eqb i 0 then 0 else 1) (fun x => x) 1 0 1 1 /\
  exists k0 x fx k, minimize (float_ops 53 1024) 1 (set_max_iters k0 halves) (fun x => x 0%nat) (fun x => x) 0 (fun _ => Bone) = Some (x, fx, k, true) /\
    Rabs (B2R (x 0%nat)) <= / 10 ^ 5.
Proof.
  set (y := fun i => if Nat.eqb i 0 then 0 else 1). destruct (half_value 53 1024 ltac:(lia) ltac:(lia)) as [Fh Vh].
  pose proof DcmRoundProps.tiny53 as Ti. unfold DcmRoundProps.u64 in Ti. pose proof (eta_pos 53 1024) as Pe. pose proof (largest63 53 1024 ltac:(lia) ltac:(lia)) as G63. assert (S1 : sqrt (INR 1) = 1) by (cbn [INR]; apply sqrt_1).
  assert (Lr : B2R (gd_lr halves) = / 2) by exact Vh. assert (Sm : smooth 1 bowl (fun x => x) 1) by (intros x z _; unfold bowl; cbn [sum]; lra).
  assert (Cv : convex 1 bowl (fun x => x) 1) by (intros x z _; unfold bowl, dist2; cbn [sum]; lra).
  assert (Aw : forall x : nat -> binary_float 53 1024, away 1 x y = Rabs (B2R (x 0%nat))).
  { intros x. unfold away, length2, y. cbn [sum Nat.eqb]. rewrite Rplus_0_l, Rminus_0_r. apply sqrt_Rsqr_abs. }
  assert (DP : forall k0, descent_problem 1 (set_max_iters k0 halves) bowl (fun x => x) 1 1 y (fun x => x) 1 0 1 1).
  { intros k0. unfold descent_problem. change (gd_lr (set_max_iters k0 halves)) with (gd_lr halves). rewrite Lr, S1. cbv zeta. split; [lia|]. split.
    { split; [reflexivity|]. split; [exact Fh|]. split; [reflexivity|]. split; [reflexivity|]. intros Q. discriminate Q. }
    split; [exact Sm|]. split; [exact Cv|]. split; [lra|]. split; [lra|]. split; [lra|]. split.
    { split; [intros Q; discriminate Q|]. intros z _ _. unfold bowl, y. cbn [Nat.eqb]. pose proof (Rle_0_sqr (z 0%nat)) as Z. unfold Rsqr in Z. lra. }
    split; [|split; [lra|split; [lra|split; [|split; [lra|]]]]].
    - intros x F _ A i Hi. rewrite Aw in A. replace i with 0%nat by lia. split; [apply apx_exact, F; lia|exact A].
    - intros i Hi. unfold y. replace i with 0%nat by lia. cbn [Nat.eqb]. rewrite Rabs_R0. lra.
    - unfold step_error. rewrite DcmRoundProps.unit53. unfold DcmRoundProps.u64. lra. }
  split; [exact (DP 1%nat)|].
  assert (B1 : B2R (@Bone 53 1024 p53 e53) = 1) by apply Bone_correct.
  assert (St : good_start 1 y 1 (fun _ : nat => @Bone 53 1024 p53 e53)).
  { split; [intros i _; reflexivity|]. split; [|rewrite Aw, B1, Rabs_R1; lra]. intros i Hi. unfold reals, y. rewrite B1. destruct i; [lia|reflexivity]. }
  assert (Na : norms_accurate 53 1024 1 1 1).
  { split; [|cbn [INR]; lra]. rewrite DcmRoundProps.unit53. unfold DcmRoundProps.u64. cbn [Nat.add pow]. lra. }
  assert (V : is_finite (gd_tol_step halves) = true /\ B2R (gd_tol_step halves) = / 1048576).
  { destruct (nearest_float_value 53 1024 (bpow radix2 (-20))) as [A B]; [rewrite Rabs_pos_eq by apply bpow_ge_0; cbn; lra|]. split; [exact A|]. change (gd_tol_step halves) with (nearest_float 53 1024 (bpow radix2 (-20))). rewrite B, (bpow_fmt 53 1024 ltac:(lia) ltac:(lia)) by lia. cbn. lra. }
  destruct V as [Ft Vt].
  assert (Nl : 0 <= noise_level 53 1024 1 (/ 2) 1 0 1 1 <= / 10 ^ 12).
  { unfold noise_level, step_error. rewrite S1, DcmRoundProps.unit53. unfold DcmRoundProps.u64. lra. }
  destruct (C136_stops 53 1024 ltac:(lia) ltac:(lia) 1 halves (fun x => x 0%nat) (fun x => x) bowl (fun x => x) 1 1 y 1 0 1 1 0 (fun _ => Bone) (DP 1%nat) St Na Ft) as [m0 K].
  - rewrite Vt. lra.
  - cbv zeta. rewrite Vt, Lr. set (N := noise_level 53 1024 1 (/ 2) 1 0 1 1) in *. assert (N * N <= / 10 ^ 12 * / 10 ^ 12) by (apply Rmult_le_compat; lra). cbn [INR]. lra.
  - destruct (K m0 ltac:(lia)) as (x & fx & k & E). exists m0, x, fx, k. split; [exact E|]. rewrite <- Aw.
    destruct (C136_answer 53 1024 ltac:(lia) ltac:(lia) 1 (set_max_iters m0 halves) (fun x => x 0%nat) (fun x => x) bowl (fun x => x) 1 1 y 1 0 1 1 0 (fun _ => Bone) x fx k (DP m0) St) as [A|A]; try assumption.
    + intros Q. discriminate Q.
    + eapply Rle_trans; [exact A|]. rewrite S1. change (B2R (gd_tol_grad (set_max_iters m0 halves))) with 0. unfold measured. assert (sqrt (3 * (0 * 0) + 4 * (INR 1 * tiny 53 1024)) <= sqrt ((/ 10 ^ 6) * (/ 10 ^ 6))) by (apply sqrt_le_1_alt; cbn [INR]; lra).
      rewrite sqrt_square in H by lra. lra.
    + eapply Rle_trans; [exact A|]. change (gd_lr (set_max_iters m0 halves)) with (gd_lr halves). change (gd_tol_step (set_max_iters m0 halves)) with (gd_tol_step halves). rewrite Lr, Vt, S1. unfold measured, step_error. rewrite DcmRoundProps.unit53. unfold DcmRoundProps.u64.
      assert (sqrt (3 * (/ 1048576 * / 1048576) + 4 * (INR 1 * tiny 53 1024)) <= sqrt ((18 / 10 * / 1048576) * (18 / 10 * / 1048576))) by (apply sqrt_le_1_alt; cbn [INR]; lra).
      rewrite sqrt_square in H by lra. lra.
Qed.
