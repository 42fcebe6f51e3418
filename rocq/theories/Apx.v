(** A calculus of absolute rounding errors: [apx x X e] says that the float [x] is finite and within
    [e] of the real [X]. *)
From Coq Require Import ZArith QArith Qreals Reals Lra Lia Bool Arith Psatz.
From Flocq Require Import Core BinarySingleNaN.
From Verif Require Import Scalar FloatModel RoundProps StatsFloatProps InterpFloatProps.
Local Open Scope R_scope.

Definition apx {prec emax : Z} (x : binary_float prec emax) (X e : R) : Prop := is_finite x = true /\ Rabs (B2R x - X) <= e.

Section Width.
Context (prec emax : Z) {P : Prec_gt_0 prec} {M : Prec_lt_emax prec emax}.
Local Notation fl := (binary_float prec emax).
Local Notation u := (unit prec).
Local Notation eta := (tiny prec emax).
Local Notation o := (float_ops prec emax).
Local Notation rd := (round radix2 (SpecFloat.fexp prec emax) ZnearestE).

Lemma apx_exact (x : fl) : is_finite x = true -> apx x (B2R x) 0.
Proof. intros F. split; [exact F|]. rewrite Rminus_diag_eq by reflexivity. rewrite Rabs_R0. lra. Qed.
Lemma apx_weak (x : fl) X e e' : apx x X e -> e <= e' -> apx x X e'.
Proof. intros [F H] L. split; [exact F|lra]. Qed.
Lemma apx_size (x : fl) X e : apx x X e -> Rabs (B2R x) <= Rabs X + e.
Proof. intros [_ H]. replace (B2R x) with (X + (B2R x - X)) by ring. eapply Rle_trans; [apply Rabs_triang|]. lra. Qed.
Lemma apx_pos (x : fl) X e : apx x X e -> 0 <= e.
Proof. intros [_ H]. pose proof (Rabs_pos (B2R x - X)). lra. Qed.
(** rounding a real within [e] of [X] *)
Lemma rd_apx r X e b : Rabs (r - X) <= e -> Rabs X <= b -> Rabs (rd r - X) <= e + u * (b + e) + eta.
Proof.
  intros H B. destruct (rd_err prec emax r) as (a & d & A & D & ->).
  replace (r * (1 + a) + d - X) with ((r - X) + r * a + d) by ring.
  assert (Rr : Rabs r <= b + e) by (replace r with (X + (r - X)) by ring; eapply Rle_trans; [apply Rabs_triang|]; lra).
  pose proof (Rabs_pos r). pose proof (Rabs_pos a).
  eapply Rle_trans; [apply Rabs_triang|]. apply Rplus_le_compat; [|exact D].
  eapply Rle_trans; [apply Rabs_triang|]. apply Rplus_le_compat; [exact H|]. rewrite Rabs_mult, Rmult_comm. apply Rmult_le_compat; lra.
Qed.
Lemma within r X e b : Rabs (r - X) <= e -> Rabs X <= b -> Rabs r <= b + e.
Proof. intros H B. replace r with (X + (r - X)) by ring. eapply Rle_trans; [apply Rabs_triang|]. lra. Qed.

Lemma apx_add (x y : fl) X Y ex ey b : apx x X ex -> apx y Y ey -> Rabs (X + Y) <= b -> b + (ex + ey) <= largest prec emax ->
  apx (add o x y) (X + Y) (ex + ey + u * (b + (ex + ey))).
Proof.
  intros [Fx Hx] [Fy Hy] B L.
  assert (D : Rabs (B2R x + B2R y - (X + Y)) <= ex + ey).
  { replace (B2R x + B2R y - (X + Y)) with ((B2R x - X) + (B2R y - Y)) by ring. eapply Rle_trans; [apply Rabs_triang|]. lra. }
  pose proof (within _ _ _ _ D B) as W.
  assert (F : is_finite (add o x y) = true) by (apply (add_ok prec emax); [exact Fx|exact Fy|lra]).
  split; [exact F|]. destruct (add_fin prec emax x y F) as (_ & _ & ->). destruct (rd_sum prec emax x y) as (a & A & ->).
  replace ((B2R x + B2R y) * (1 + a) - (X + Y)) with ((B2R x + B2R y - (X + Y)) + a * (B2R x + B2R y)) by ring.
  eapply Rle_trans; [apply Rabs_triang|]. apply Rplus_le_compat; [exact D|]. rewrite Rabs_mult. apply Rmult_le_compat; try apply Rabs_pos; assumption.
Qed.
Lemma apx_sub (x y : fl) X Y ex ey b : apx x X ex -> apx y Y ey -> Rabs (X - Y) <= b -> b + (ex + ey) <= largest prec emax ->
  apx (sub o x y) (X - Y) (ex + ey + u * (b + (ex + ey))).
Proof.
  intros [Fx Hx] [Fy Hy] B L.
  assert (D : Rabs (B2R x - B2R y - (X - Y)) <= ex + ey).
  { replace (B2R x - B2R y - (X - Y)) with ((B2R x - X) - (B2R y - Y)) by ring. eapply Rle_trans; [apply Rabs_triang|]. rewrite Rabs_Ropp. lra. }
  pose proof (within _ _ _ _ D B) as W.
  assert (F : is_finite (sub o x y) = true) by (apply (sub_ok prec emax); [exact Fx|exact Fy|lra]).
  split; [exact F|]. destruct (StatsFloatProps.sub_fin prec emax x y F) as (_ & _ & a & A & ->).
  replace ((B2R x - B2R y) * (1 + a) - (X - Y)) with ((B2R x - B2R y - (X - Y)) + a * (B2R x - B2R y)) by ring.
  eapply Rle_trans; [apply Rabs_triang|]. apply Rplus_le_compat; [exact D|]. rewrite Rabs_mult. apply Rmult_le_compat; try apply Rabs_pos; assumption.
Qed.
Lemma apx_neg (x : fl) X e : apx x X e -> apx (neg o x) (- X) e.
Proof.
  intros [F H]. cbn [neg float_ops]. split; [rewrite is_finite_Bopp; exact F|]. rewrite B2R_Bopp.
  replace (- B2R x - - X) with (- (B2R x - X)) by ring. rewrite Rabs_Ropp. exact H.
Qed.
Lemma apx_mul (x y : fl) X Y ex ey bx by_ : apx x X ex -> apx y Y ey -> Rabs X <= bx -> Rabs Y <= by_ ->
  (bx + ex) * (by_ + ey) <= largest prec emax ->
  apx (mul o x y) (X * Y) (bx * ey + by_ * ex + ex * ey + u * ((bx + ex) * (by_ + ey)) + eta).
Proof.
  intros Ax Ay BX BY L. pose proof Ax as [Fx Hx]. pose proof Ay as [Fy Hy]. pose proof (apx_size _ _ _ Ax) as Sx. pose proof (apx_size _ _ _ Ay) as Sy.
  pose proof (Rabs_pos X). pose proof (Rabs_pos Y). pose proof (Rabs_pos (B2R x)). pose proof (Rabs_pos (B2R y)). pose proof (Rabs_pos (B2R x - X)). pose proof (Rabs_pos (B2R y - Y)).
  assert (D : Rabs (B2R x * B2R y - X * Y) <= bx * ey + by_ * ex + ex * ey).
  { replace (B2R x * B2R y - X * Y) with (X * (B2R y - Y) + Y * (B2R x - X) + (B2R x - X) * (B2R y - Y)) by ring.
    eapply Rle_trans; [apply Rabs_triang|]. apply Rplus_le_compat; [eapply Rle_trans; [apply Rabs_triang|]; apply Rplus_le_compat|]; rewrite Rabs_mult; apply Rmult_le_compat; lra. }
  assert (S : Rabs (B2R x * B2R y) <= (bx + ex) * (by_ + ey)) by (rewrite Rabs_mult; apply Rmult_le_compat; lra).
  assert (F : is_finite (mul o x y) = true) by (apply (mul_ok prec emax); [exact Fx|exact Fy|lra]).
  split; [exact F|]. destruct (mul_fin prec emax x y F) as (_ & _ & ->). destruct (rd_err prec emax (B2R x * B2R y)) as (a & d & A & Dd & ->).
  replace (B2R x * B2R y * (1 + a) + d - X * Y) with ((B2R x * B2R y - X * Y) + a * (B2R x * B2R y) + d) by ring.
  eapply Rle_trans; [apply Rabs_triang|]. apply Rplus_le_compat; [|exact Dd]. eapply Rle_trans; [apply Rabs_triang|].
  apply Rplus_le_compat; [exact D|]. rewrite Rabs_mult. apply Rmult_le_compat; try apply Rabs_pos; assumption.
Qed.
(** [m] is below the divisor, [b] above the quotient *)
Lemma apx_div (x y : fl) X Y ex ey m b : apx x X ex -> apx y Y ey -> ey < m -> m <= Rabs Y -> Rabs (X / Y) <= b ->
  b + (ex + b * ey) / (m - ey) <= largest prec emax ->
  apx (div o x y) (X / Y) ((ex + b * ey) / (m - ey) + u * (b + (ex + b * ey) / (m - ey)) + eta).
Proof.
  intros Ax Ay Hm HY B L. pose proof Ax as [Fx Hx]. pose proof Ay as [Fy Hy].
  pose proof (Rabs_pos (B2R x - X)). pose proof (Rabs_pos (B2R y - Y)). pose proof (Rabs_pos (X / Y)).
  assert (NY : Y <> 0) by (intros E; subst Y; rewrite Rabs_R0 in HY; lra).
  assert (Sy : m - ey <= Rabs (B2R y)).
  { assert (Rabs Y <= Rabs (B2R y) + Rabs (B2R y - Y)); [|lra]. replace Y with (B2R y + - (B2R y - Y)) at 1 by ring. eapply Rle_trans; [apply Rabs_triang|]. rewrite Rabs_Ropp. lra. }
  assert (Ny : B2R y <> 0) by (intros E; rewrite E, Rabs_R0 in Sy; lra).
  assert (D : Rabs (B2R x / B2R y - X / Y) <= (ex + b * ey) / (m - ey)).
  { replace (B2R x / B2R y - X / Y) with (((B2R x - X) - X / Y * (B2R y - Y)) * / B2R y) by (field; split; assumption).
    rewrite Rabs_mult. unfold Rdiv at 2. apply Rmult_le_compat; try apply Rabs_pos.
    - eapply Rle_trans; [apply Rabs_triang|]. rewrite Rabs_Ropp. apply Rplus_le_compat; [exact Hx|]. rewrite Rabs_mult. apply Rmult_le_compat; lra.
    - rewrite Rabs_inv. apply Rinv_le_contravar; lra. }
  pose proof (within _ _ _ _ D B) as W.
  assert (F : is_finite (div o x y) = true) by (apply (div_ok prec emax); [exact Ny|exact Fx|lra]).
  split; [exact F|]. destruct (StatsFloatProps.div_fin prec emax x y Ny F) as (_ & ->). apply rd_apx; assumption.
Qed.
(** [s] is below the square root, [b] above it *)
Lemma apx_sqrt (x : fl) X e s b : apx x X e -> e < X -> 0 < s -> s <= sqrt X -> sqrt X <= b ->
  apx (sqrtf o x) (sqrt X) (e / s + u * (b + e / s) + eta).
Proof.
  intros Ax HX Hs HsX B. pose proof Ax as [Fx Hx]. pose proof (apx_pos _ _ _ Ax) as Pe.
  assert (Px : 0 < B2R x) by (apply Rabs_le_inv in Hx; lra).
  destruct (sqrt_value prec emax x Fx Px) as [F E]. split; [exact F|]. rewrite E.
  assert (D : Rabs (sqrt (B2R x) - sqrt X) <= e / s).
  { assert (Q : (sqrt (B2R x) - sqrt X) * (sqrt (B2R x) + sqrt X) = B2R x - X).
    { replace ((sqrt (B2R x) - sqrt X) * (sqrt (B2R x) + sqrt X)) with (sqrt (B2R x) * sqrt (B2R x) - sqrt X * sqrt X) by ring. rewrite !sqrt_sqrt by lra. reflexivity. }
    assert (Pq : s <= sqrt (B2R x) + sqrt X) by (pose proof (sqrt_pos (B2R x)); lra).
    apply (Rmult_le_reg_r s); [exact Hs|]. replace (e / s * s) with e by (field; lra).
    eapply Rle_trans; [|exact Hx]. rewrite <- Q, Rabs_mult, (Rabs_pos_eq (sqrt (B2R x) + sqrt X)) by lra. apply Rmult_le_compat_l; [apply Rabs_pos|exact Pq]. }
  apply rd_apx; [exact D|]. rewrite Rabs_pos_eq by apply sqrt_pos. exact B.
Qed.

(** literals: numerator and denominator are rounded, then their quotient *)
Lemma apx_int z : Rabs (IZR z) <= largest prec emax -> apx (binary_normalize prec emax P M mode_NE z 0 false) (IZR z) (u * Rabs (IZR z) + eta).
Proof.
  intros L. pose proof (binary_normalize_correct prec emax P M mode_NE z 0 false) as C. cbv zeta in C. cbn [round_mode] in C.
  assert (E : F2R (Float radix2 z 0) = IZR z) by (unfold F2R; cbn [Fnum Fexp]; cbn; ring). rewrite E in C. rewrite (no_over prec emax _ L) in C.
  destruct C as (C & F & _). split; [exact F|]. rewrite C. pose proof (rd_apx (IZR z) (IZR z) 0 (Rabs (IZR z))) as K.
  rewrite Rminus_diag_eq, Rabs_R0 in K by reflexivity. specialize (K (Rle_refl 0) (Rle_refl _)). lra.
Qed.

(** the float nearest to a real: some float-valued function exists within rounding of any bounded real one *)
Definition nearest_float (r : R) : fl :=
  binary_normalize prec emax P M mode_NE (ZnearestE (scaled_mantissa radix2 (SpecFloat.fexp prec emax) r)) (cexp radix2 (SpecFloat.fexp prec emax) r) false.
Lemma nearest_float_value r : Rabs r <= largest prec emax -> is_finite (nearest_float r) = true /\ B2R (nearest_float r) = rd r.
Proof.
  intros L. unfold nearest_float.
  pose proof (binary_normalize_correct prec emax P M mode_NE (ZnearestE (scaled_mantissa radix2 (SpecFloat.fexp prec emax) r)) (cexp radix2 (SpecFloat.fexp prec emax) r) false) as C.
  cbv zeta in C. cbn [round_mode] in C. change (F2R _) with (rd r) in C.
  assert (V : Valid_exp (SpecFloat.fexp prec emax)) by exact (fexp_correct prec emax P).
  rewrite (round_generic radix2 (SpecFloat.fexp prec emax) ZnearestE (rd r)) in C by (apply generic_format_round; [exact V|apply valid_rnd_N]).
  rewrite (no_over prec emax r L) in C. destruct C as (A & F & _). split; [exact F|exact A].
Qed.
End Width.
