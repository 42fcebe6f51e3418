(** Exact-arithmetic meaning of Real::atan2 and Real::signum (real.rs:25-46), and facts about
    sine and cosine. *)
From Coq Require Import Reals Lra Psatz.
From Verif Require Import Scalar.
Local Open Scope R_scope.

(** real.rs:46, std_impl.rs:29,67.  The value of IEEE atan2 for finite arguments, with zeros
    taken as positive: exact reals have no signed zero, so atan2(-0.0, x<0) = -pi of the code
    is pi here. *)
Definition atan2 (y x : R) : R :=
  if Rltb 0 x then atan (y / x)
  else if Rltb x 0 then if Rltb y 0 then atan (y / x) - PI else atan (y / x) + PI
  else if Rltb 0 y then PI / 2 else if Rltb y 0 then - (PI / 2) else 0.

(** std_impl.rs:13,51: std signum is 1 on +0 (and no_std_impl.rs:13,57 is 0 there); only
    used below where the argument is nonzero. *)
Definition signum (x : R) : R := if Rltb x 0 then -1 else 1.

Lemma Rltb_dec x y : {Rltb x y = true /\ x < y} + {Rltb x y = false /\ y <= x}.
Proof. unfold Rltb; destruct (Rlt_dec x y); [left|right]; split; auto; lra. Qed.

Lemma sincos2 t : sin t * sin t + cos t * cos t = 1.
Proof. pose proof (sin2_cos2 t); unfold Rsqr in *; lra. Qed.
Lemma cos_sq t : cos t * cos t = 1 - sin t * sin t.
Proof. pose proof (sincos2 t); lra. Qed.

Lemma sqrt_ratio x y : x <> 0 -> sqrt (1 + Rsqr (y / x)) = sqrt (x * x + y * y) / Rabs x.
Proof.
  intros Hx. assert (0 < Rabs x) by (apply Rabs_pos_lt; auto).
  rewrite <- (sqrt_Rsqr (Rabs x)) by lra. rewrite <- sqrt_div_alt.
  - f_equal. rewrite <- Rsqr_abs. unfold Rsqr. field; auto.
  - rewrite <- Rsqr_abs. apply Rsqr_pos_lt; auto.
Qed.

Lemma hyp_pos x y : x <> 0 \/ y <> 0 -> 0 < sqrt (x * x + y * y).
Proof.
  intros H; apply sqrt_lt_R0. pose proof (Rle_0_sqr x); pose proof (Rle_0_sqr y); unfold Rsqr in *.
  destruct H as [H|H]; pose proof (Rsqr_pos_lt _ H); unfold Rsqr in *; lra.
Qed.

(** Polar coordinates: the point at distance sqrt(x^2+y^2) and direction atan2 y x is (x,y). *)
Lemma atan2_cos x y : sqrt (x * x + y * y) * cos (atan2 y x) = x.
Proof.
  unfold atan2. destruct (Rltb_dec 0 x) as [[-> H]|[-> H]].
  { rewrite cos_atan, sqrt_ratio by lra. rewrite Rabs_right by lra.
    assert (0 < sqrt (x * x + y * y)) by (apply hyp_pos; lra). field; lra. }
  destruct (Rltb_dec x 0) as [[-> Hx]|[-> Hx]].
  { assert (0 < sqrt (x * x + y * y)) by (apply hyp_pos; lra).
    assert (E : cos (atan (y / x)) = - x / sqrt (x * x + y * y)).
    { rewrite cos_atan, sqrt_ratio by lra. rewrite Rabs_left by lra. field; lra. }
    destruct (Rltb_dec y 0) as [[-> Hy]|[-> Hy]].
    - rewrite cos_minus, cos_PI, sin_PI, E. field; lra.
    - rewrite cos_plus, cos_PI, sin_PI, E. field; lra. }
  assert (x = 0) by lra; subst x.
  destruct (Rltb_dec 0 y) as [[-> Hy]|[-> Hy]]; [rewrite cos_PI2; ring|].
  destruct (Rltb_dec y 0) as [[-> Hy']|[-> Hy']]; [rewrite cos_neg, cos_PI2; ring|].
  assert (y = 0) by lra; subst y. rewrite Rmult_0_r, Rplus_0_r, sqrt_0. ring.
Qed.
Lemma atan2_sin x y : sqrt (x * x + y * y) * sin (atan2 y x) = y.
Proof.
  unfold atan2. destruct (Rltb_dec 0 x) as [[-> H]|[-> H]].
  { rewrite sin_atan, sqrt_ratio by lra. rewrite Rabs_right by lra.
    assert (0 < sqrt (x * x + y * y)) by (apply hyp_pos; lra). field; lra. }
  destruct (Rltb_dec x 0) as [[-> Hx]|[-> Hx]].
  { assert (0 < sqrt (x * x + y * y)) by (apply hyp_pos; lra).
    assert (E : sin (atan (y / x)) = - y / sqrt (x * x + y * y)).
    { rewrite sin_atan, sqrt_ratio by lra. rewrite Rabs_left by lra. field; lra. }
    destruct (Rltb_dec y 0) as [[-> Hy]|[-> Hy]].
    - rewrite sin_minus, cos_PI, sin_PI, E. field; lra.
    - rewrite sin_plus, cos_PI, sin_PI, E. field; lra. }
  assert (x = 0) by lra; subst x.
  assert (E0 : 0 * 0 + y * y = Rsqr y) by (unfold Rsqr; ring). rewrite E0, sqrt_Rsqr_abs.
  destruct (Rltb_dec 0 y) as [[-> Hy]|[-> Hy]]; [rewrite sin_PI2, Rabs_right by lra; ring|].
  destruct (Rltb_dec y 0) as [[-> Hy']|[-> Hy']]; [rewrite sin_neg, sin_PI2, Rabs_left by lra; ring|].
  assert (y = 0) by lra; subst y. rewrite Rabs_R0. ring.
Qed.
Lemma atan2_bound x y : - PI < atan2 y x <= PI.
Proof.
  pose proof PI_RGT_0. pose proof (atan_bound (y / x)) as [B1 B2]. unfold atan2.
  destruct (Rltb_dec 0 x) as [[-> H0]|[-> H0]]; [lra|].
  destruct (Rltb_dec x 0) as [[-> Hx]|[-> Hx]].
  - destruct (Rltb_dec y 0) as [[-> Hy]|[-> Hy]].
    + assert (0 < y / x) by (replace (y / x) with ((- y) * / (- x)) by (field; lra);
        apply Rmult_lt_0_compat; [lra|apply Rinv_0_lt_compat; lra]).
      pose proof (atan_increasing 0 (y / x) H1). rewrite atan_0 in *. lra.
    + assert (E : y / x <= 0) by (replace (y / x) with (- (y * / (- x))) by (field; lra);
        assert (0 <= y * / - x) by (apply Rmult_le_pos; [lra|left; apply Rinv_0_lt_compat; lra]); lra).
      assert (atan (y / x) <= 0).
      { destruct E as [E|E]; [pose proof (atan_increasing _ _ E); rewrite atan_0 in *; lra|rewrite E, atan_0; lra]. }
      lra.
  - destruct (Rltb 0 y); [lra|]. destruct (Rltb y 0); lra.
Qed.

(** Angles in (-pi, pi] with the same sine and cosine are equal. *)
Lemma angle_unique a b : - PI < a <= PI -> - PI < b <= PI -> cos a = cos b -> sin a = sin b -> a = b.
Proof.
  intros Ha Hb Hc Hs.
  assert (C : cos (a - b) = 1).
  { rewrite cos_minus, Hc, Hs. pose proof (sincos2 b); lra. }
  pose proof PI_RGT_0.
  assert (S : sin ((a - b) / 2) = 0).
  { replace (a - b) with (2 * ((a - b) / 2)) in C by field. rewrite cos_2a_sin in C.
    apply Rsqr_0_uniq; unfold Rsqr; lra. }
  destruct (Rtotal_order ((a - b) / 2) 0) as [L|[L|L]]; [|lra|].
  - assert (0 < sin (- ((a - b) / 2))) by (apply sin_gt_0; lra). rewrite sin_neg in *; lra.
  - assert (0 < sin ((a - b) / 2)) by (apply sin_gt_0; lra). lra.
Qed.
(** atan2 recovers the angle of a point given in polar form. *)
Lemma atan2_polar r t : 0 < r -> - PI < t <= PI -> atan2 (r * sin t) (r * cos t) = t.
Proof.
  intros Hr Ht.
  assert (E : sqrt (r * cos t * (r * cos t) + r * sin t * (r * sin t)) = r).
  { replace (r * cos t * (r * cos t) + r * sin t * (r * sin t)) with (Rsqr r)
      by (unfold Rsqr; replace (r * cos t * (r * cos t) + r * sin t * (r * sin t))
            with (r * r * (sin t * sin t + cos t * cos t)) by ring; rewrite sincos2; ring).
    apply sqrt_Rsqr; lra. }
  pose proof (atan2_cos (r * cos t) (r * sin t)) as C. pose proof (atan2_sin (r * cos t) (r * sin t)) as S.
  rewrite E in C, S.
  apply angle_unique; [apply atan2_bound|exact Ht| |]; eapply Rmult_eq_reg_l with r; lra.
Qed.
Lemma atan2_0_0 : atan2 0 0 = 0.
Proof. unfold atan2. destruct (Rltb_dec 0 0) as [[_ H]|[-> _]]; [lra|]. reflexivity. Qed.
