(** C131: gradient descent with momentum switched on: a fixed step short enough for the momentum never ends above the
    start, the run ends, the value converges at the rate 1/k, and a reported convergence no longer
    says anything about the distance to the minimiser. *)
From Coq Require Import QArith Qreals Reals List Arith Lia Lra Psatz Bool.
From Verif Require Import Scalar RSum LinModel LinProofs OptModel OptSpec OptProofs OptProps OptRateProps.
Import ListNotations.
Local Open Scope R_scope.

(** ** The energy: the value plus [m/2] times the squared length of the last step *)
Lemma momentum_step n c f g L x xp x' : smooth n f g L -> 0 < gd_lr c -> 0 <= gd_momentum c ->
  same_tail n x x' -> allowed n c x ->
  (forall i, (i < n)%nat -> x' i = nearest c i (x i - gd_lr c * g x i + gd_lr c * gd_momentum c * (x i - xp i))) ->
  f x' + gd_momentum c / 2 * dist2 n x' x + (/ gd_lr c - L / 2 - gd_momentum c) * dist2 n x' x
    <= f x + gd_momentum c / 2 * dist2 n x xp.
Proof.
  intros Hs Hh Hm T Al E. pose proof (Hs x x' T) as A. fold (dist2 n x' x) in A.
  set (h := gd_lr c) in *. set (m := gd_momentum c) in *.
  assert (P : h * sum n (fun i => g x i * (x' i - x i)) <= h * (m / 2 * dist2 n x xp + m / 2 * dist2 n x' x - / h * dist2 n x' x)).
  { replace (h * (m / 2 * dist2 n x xp + m / 2 * dist2 n x' x - / h * dist2 n x' x))
      with (h * m / 2 * dist2 n x xp + (h * m / 2 - 1) * dist2 n x' x) by (field; lra).
    unfold dist2. rewrite <- !sum_scal, <- !sum_plus. apply sum_le. intros i Hi.
    pose proof (nearest_obtuse n c i (x i - h * g x i + h * m * (x i - xp i)) x Al Hi) as O. rewrite <- (E i Hi) in O.
    assert (Q : 0 <= h * m / 2 * (((x i - xp i) - (x' i - x i)) * ((x i - xp i) - (x' i - x i)))).
    { apply Rmult_le_pos; [|apply Rle_0_sqr]. assert (0 <= h * m) by (apply Rmult_le_pos; lra). lra. }
    lra. }
  apply Rmult_le_reg_l in P; [|exact Hh]. lra.
Qed.

(** the energy along the run *)
Lemma momentum_energy n c f g L (X : nat -> nat -> R) k : smooth n f g L -> 0 < gd_lr c -> 0 <= gd_momentum c ->
  box_ok n c -> allowed n c (X 0%nat) ->
  (forall j, (j < k)%nat -> same_tail n (X j) (X (j + 1)%nat) /\
     forall i, (i < n)%nat -> X (j + 1)%nat i =
       nearest c i (X j i - gd_lr c * g (X j) i + gd_lr c * gd_momentum c * (X j i - X (j - 1)%nat i))) ->
  forall j, (j < k)%nat ->
    f (X (S j)) + gd_momentum c / 2 * dist2 n (X (S j)) (X j) + (/ gd_lr c - L / 2 - gd_momentum c) * dist2 n (X (S j)) (X j)
      <= f (X j) + gd_momentum c / 2 * dist2 n (X j) (X (j - 1)%nat).
Proof.
  intros Hs Hh Hm Hbox A0 St j Hj. destruct (St j Hj) as [T E]. rewrite Nat.add_1_r in T, E.
  apply (momentum_step n c f g L); auto.
  destruct j as [|j]; [exact A0|]. destruct (St j ltac:(lia)) as [_ F]. rewrite Nat.add_1_r in F.
  intros Eb i Hi. rewrite (F i Hi).
  apply (nearest_in n c (fun i => X j i - gd_lr c * g (X j) i + gd_lr c * gd_momentum c * (X j i - X (j - 1)%nat i)) Hbox Eb i Hi).
Qed.

Lemma dist2_same n x : dist2 n x x = 0.
Proof. unfold dist2. rewrite (sum_ext n _ (fun _ => 0 * 0)) by (intros; ring). rewrite sum_scal. ring. Qed.

Lemma energy_sum n f m kap (X : nat -> nat -> R) k :
  (forall j, (j < k)%nat -> f (X (S j)) + m / 2 * dist2 n (X (S j)) (X j) + kap * dist2 n (X (S j)) (X j)
      <= f (X j) + m / 2 * dist2 n (X j) (X (j - 1)%nat)) ->
  f (X k) + m / 2 * dist2 n (X k) (X (k - 1)%nat) + kap * sum k (fun j => dist2 n (X (S j)) (X j)) <= f (X 0%nat).
Proof.
  induction k as [|k IH]; intros H.
  - cbn [sum Nat.sub]. rewrite dist2_same. lra.
  - specialize (IH (fun j Hj => H j ltac:(lia))). specialize (H k ltac:(lia)).
    replace (S k - 1)%nat with k by lia. cbn [sum]. lra.
Qed.

Lemma momentum_path n c f g fuel x0 x fx k ok : gd_backtracking c = false -> box_ok n c ->
  minimize Rops n c f g fuel x0 = Some (x, fx, k, ok) ->
  exists X : nat -> nat -> R, X 0%nat = x0 /\ X k = x /\ fx = f x /\
    (forall j, (j <= k)%nat -> same_tail n x0 (X j)) /\
    (forall j, (j < k)%nat -> same_tail n (X j) (X (j + 1)%nat) /\
       forall i, (i < n)%nat -> X (j + 1)%nat i =
          nearest c i (X j i - gd_lr c * g (X j) i + gd_lr c * gd_momentum c * (X j i - X (j - 1)%nat i))) /\
    (forall j, (j + 1 < k)%nat -> gd_tol_step c < length2 n (fun i => X (S j) i - X j i)) /\
    (ok = false -> k = gd_max_iters c /\ forall j, (j < k)%nat -> gd_tol_step c < length2 n (fun i => X (S j) i - X j i)).
Proof.
  intros Hb Hbox H. destruct (C115_path _ _ _ _ _ _ _ _ _ _ Hb Hbox H) as (X & X0 & Xk & Ef & St & Sp & Fin).
  exists X. split; [exact X0|]. split; [exact Xk|]. split; [exact Ef|]. split; [|split; [|split]].
  - induction j as [|j IH]; intros Hj i Hi; [rewrite X0; reflexivity|].
    destruct (St j ltac:(lia)) as (T & _). rewrite Nat.add_1_r in T. rewrite (T i Hi). apply IH; [lia|exact Hi].
  - intros j Hj. destruct (St j Hj) as (A & _ & B). split; assumption.
  - intros j Hj. specialize (Sp j Hj). rewrite Nat.add_1_r in Sp. exact Sp.
  - intros ->. destruct Fin as [Ek F]. split; [exact Ek|]. intros j Hj.
    destruct (Nat.eq_dec (j + 1) k) as [Ej|Nj].
    + specialize (F j ltac:(lia)). replace (S j) with k by lia. rewrite Xk. exact F.
    + specialize (Sp j ltac:(lia)). rewrite Nat.add_1_r in Sp. exact Sp.
Qed.

Lemma steps_total n (X : nat -> nat -> R) t k : 0 <= t ->
  (forall j, (j < k)%nat -> t < length2 n (fun i => X (S j) i - X j i)) ->
  INR k * (t * t) <= sum k (fun j => dist2 n (X (S j)) (X j)).
Proof.
  intros Ht. induction k as [|k IH]; intros H; [cbn [sum INR]; lra|].
  cbn [sum]. rewrite S_INR. specialize (IH (fun j Hj => H j ltac:(lia))). specialize (H k ltac:(lia)).
  pose proof (dist2_len n (X (S k)) (X k)) as E. nra.
Qed.

Lemma steps_pos n (X : nat -> nat -> R) k : 0 <= sum k (fun j => dist2 n (X (S j)) (X j)).
Proof. apply sum_pos. intros. apply dist2_pos. Qed.

(** Any smooth function, with or without a box: if [lr (m + L/2) <= 1] the run never ends above its
    start, and every turn but the last lowers the value by at least [1/lr - L/2 - m] times the
    squared step tolerance on average. *)
Theorem C131_descent : forall n c f g L fuel x0 x fx k ok,
  gd_backtracking c = false -> box_ok n c -> allowed n c x0 ->
  smooth n f g L -> 0 < gd_lr c -> 0 <= gd_momentum c -> gd_lr c * (gd_momentum c + L / 2) <= 1 ->
  0 <= gd_tol_step c ->
  minimize Rops n c f g fuel x0 = Some (x, fx, k, ok) ->
  fx <= f x0 /\
  fx + INR (k - 1) * ((/ gd_lr c - L / 2 - gd_momentum c) * (gd_tol_step c * gd_tol_step c)) <= f x0.
Proof.
  intros n c f g L fuel x0 x fx k ok Hb Hbox Al Hs Hh Hm HL Ht H.
  destruct (momentum_path _ _ _ _ _ _ _ _ _ _ Hb Hbox H) as (X & X0 & Xk & Ef & _ & St & Sp & _).
  rewrite <- X0 in Al.
  pose proof (energy_sum n f (gd_momentum c) (/ gd_lr c - L / 2 - gd_momentum c) X k
    (momentum_energy n c f g L X k Hs Hh Hm Hbox Al St)) as E.
  assert (K : 0 <= / gd_lr c - L / 2 - gd_momentum c).
  { apply (Rmult_le_reg_l (gd_lr c)); [exact Hh|]. replace (gd_lr c * (/ gd_lr c - L / 2 - gd_momentum c)) with (1 - gd_lr c * (gd_momentum c + L / 2)) by (field; lra). lra. }
  set (kap := / gd_lr c - L / 2 - gd_momentum c) in *.
  rewrite Xk, X0 in E. rewrite <- Ef in E.
  pose proof (dist2_pos n x (X (k - 1)%nat)) as P.
  assert (0 <= gd_momentum c / 2 * dist2 n x (X (k - 1)%nat)) by (apply Rmult_le_pos; lra).
  assert (0 <= kap * sum k (fun j => dist2 n (X (S j)) (X j))) by (apply Rmult_le_pos; [exact K|apply steps_pos]).
  split; [lra|].
  destruct k as [|k]; [cbn [Nat.sub INR]; lra|]. replace (S k - 1)%nat with k in * by lia.
  pose proof (steps_total n X (gd_tol_step c) k Ht (fun j Hj => Sp j ltac:(lia))) as Q.
  cbn [sum] in E. pose proof (dist2_pos n (X (S k)) (X k)).
  assert (0 <= kap * dist2 n (X (S k)) (X k)) by (apply Rmult_le_pos; assumption).
  assert (kap * (INR k * (gd_tol_step c * gd_tol_step c)) <= kap * sum k (fun j => dist2 n (X (S j)) (X j))) by (apply Rmult_le_compat_l; assumption).
  lra.
Qed.

(** With a step tolerance and a function bounded below, an iteration limit of more than
    [(f x0 - low) / ((1/lr - L/2 - m) tol^2)] is never used up: the run reports convergence. *)
Theorem C131_converges : forall n c f g L fuel x0 low,
  gd_backtracking c = false -> box_ok n c -> allowed n c x0 ->
  smooth n f g L -> 0 < gd_lr c -> 0 <= gd_momentum c -> gd_lr c * (gd_momentum c + L / 2) <= 1 ->
  0 <= gd_tol_step c -> (forall z, same_tail n x0 z -> allowed n c z -> low <= f z) ->
  f x0 - low < INR (gd_max_iters c) * ((/ gd_lr c - L / 2 - gd_momentum c) * (gd_tol_step c * gd_tol_step c)) ->
  exists x fx k, minimize Rops n c f g fuel x0 = Some (x, fx, k, true).
Proof.
  intros n c f g L fuel x0 low Hb Hbox Al Hs Hh Hm HL Ht Hlow HN.
  destruct (fixed_total n c f g fuel x0 Hb) as [[[[x fx] k] ok] H]. exists x, fx, k. rewrite H.
  destruct ok; [reflexivity|exfalso].
  destruct (momentum_path _ _ _ _ _ _ _ _ _ _ Hb Hbox H) as (X & X0 & Xk & Ef & Ta & St & _ & Fin).
  destruct (Fin eq_refl) as [Ek Sp]. pose proof Al as Al0. rewrite <- X0 in Al.
  pose proof (energy_sum n f (gd_momentum c) (/ gd_lr c - L / 2 - gd_momentum c) X k
    (momentum_energy n c f g L X k Hs Hh Hm Hbox Al St)) as E.
  assert (K : 0 <= / gd_lr c - L / 2 - gd_momentum c).
  { apply (Rmult_le_reg_l (gd_lr c)); [exact Hh|]. replace (gd_lr c * (/ gd_lr c - L / 2 - gd_momentum c)) with (1 - gd_lr c * (gd_momentum c + L / 2)) by (field; lra). lra. }
  set (kap := / gd_lr c - L / 2 - gd_momentum c) in *.
  pose proof (steps_total n X (gd_tol_step c) k Ht Sp) as Q.
  pose proof (dist2_pos n (X k) (X (k - 1)%nat)) as P.
  assert (0 <= gd_momentum c / 2 * dist2 n (X k) (X (k - 1)%nat)) by (apply Rmult_le_pos; lra).
  assert (kap * (INR k * (gd_tol_step c * gd_tol_step c)) <= kap * sum k (fun j => dist2 n (X (S j)) (X j))) by (apply Rmult_le_compat_l; assumption).
  assert (Alk : allowed n c (X k)).
  { destruct k as [|k]; [exact Al|]. destruct (St k ltac:(lia)) as [_ F]. rewrite Nat.add_1_r in F.
    intros Eb i Hi. rewrite (F i Hi).
    apply (nearest_in n c (fun i => X k i - gd_lr c * g (X k) i + gd_lr c * gd_momentum c * (X k i - X (k - 1)%nat i)) Hbox Eb i Hi). }
  pose proof (Hlow (X k) (Ta k ltac:(lia)) Alk) as Lo. rewrite X0 in E. rewrite <- Ek in HN. lra.
Qed.

(** ** The rate on convex functions *)
(** a smooth function's gradient vanishes at a minimiser over the whole space *)
Lemma no_slope n c f g L y : gd_has_bounds c = false -> smooth n f g L -> 0 < L -> minimiser n c f y ->
  sum n (fun i => g y i * g y i) = 0.
Proof.
  intros Hnb Hs HL [_ Hy].
  set (z := fun i => if (i <? n)%nat then y i - / L * g y i else y i).
  assert (T : same_tail n y z) by (intros i Hi; unfold z; destruct (Nat.ltb_spec i n); [lia|reflexivity]).
  assert (A : f y <= f z) by (apply Hy; [exact T|intros Eb; congruence]).
  pose proof (Hs y z T) as B.
  rewrite (sum_ext n (fun i => g y i * (z i - y i)) (fun i => - / L * (g y i * g y i))) in B
    by (intros i Hi; unfold z; destruct (Nat.ltb_spec i n); [ring|lia]).
  rewrite (sum_ext n (fun i => (z i - y i) * (z i - y i)) (fun i => / L * / L * (g y i * g y i))) in B
    by (intros i Hi; unfold z; destruct (Nat.ltb_spec i n); [ring|lia]).
  rewrite !sum_scal in B. set (G := sum n (fun i => g y i * g y i)) in *.
  assert (0 <= G) by (apply sum_pos; intros; apply Rle_0_sqr).
  replace (L / 2 * (/ L * / L * G)) with (/ L * G / 2) in B by (field; lra).
  assert (0 < / L) by (apply Rinv_0_lt_compat; exact HL). nra.
Qed.

Lemma sum_zero_each n (a : nat -> R) : (forall i, (i < n)%nat -> 0 <= a i) -> sum n a = 0 -> forall i, (i < n)%nat -> a i = 0.
Proof.
  induction n as [|n IH]; intros P E i Hi; [lia|]. cbn [sum] in E.
  assert (0 <= sum n a) by (apply sum_pos; intros; apply P; lia). pose proof (P n ltac:(lia)).
  destruct (Nat.eq_dec i n) as [->|Hn]; [lra|]. apply IH; [intros; apply P; lia|lra|lia].
Qed.

(** the tangent at [x] passes below a minimiser's value by the squared slope over [2L] *)
Lemma slope_gap n c f g L x y : gd_has_bounds c = false -> smooth n f g L -> convex n f g 0 -> 0 < L ->
  minimiser n c f y -> same_tail n x y ->
  f x - f y + / (2 * L) * sum n (fun i => g x i * g x i) <= sum n (fun i => g x i * (x i - y i)).
Proof.
  intros Hnb Hs Hc HL Hy T. pose proof (no_slope n c f g L y Hnb Hs HL Hy) as Z.
  assert (Z' : forall i, (i < n)%nat -> g y i = 0).
  { intros i Hi. pose proof (sum_zero_each n (fun i => g y i * g y i) (fun i _ => Rle_0_sqr _) Z i Hi) as W. cbv beta in W. nra. }
  set (z := fun i => if (i <? n)%nat then y i + / L * g x i else y i).
  assert (T1 : same_tail n y z) by (intros i Hi; unfold z; destruct (Nat.ltb_spec i n); [lia|reflexivity]).
  assert (T2 : same_tail n x z) by (intros i Hi; rewrite (T1 i Hi); apply T; exact Hi).
  pose proof (Hs y z T1) as A. pose proof (Hc x z T2) as B.
  rewrite (sum_ext n (fun i => g y i * (z i - y i)) (fun _ => 0 * 0)) in A by (intros i Hi; rewrite (Z' i Hi); ring).
  rewrite (sum_ext n (fun i => (z i - y i) * (z i - y i)) (fun i => / L * / L * (g x i * g x i))) in A
    by (intros i Hi; unfold z; destruct (Nat.ltb_spec i n); [ring|lia]).
  rewrite (sum_ext n (fun i => g x i * (z i - x i)) (fun i => / L * (g x i * g x i) - g x i * (x i - y i))) in B
    by (intros i Hi; unfold z; destruct (Nat.ltb_spec i n); [ring|lia]).
  rewrite !sum_scal in A. rewrite sum_minus, sum_scal in B. set (G := sum n (fun i => g x i * g x i)) in *.
  replace (L / 2 * (/ L * / L * G)) with (/ L * G / 2) in A by (field; lra).
  replace (/ (2 * L) * G) with (/ L * G / 2) by (field; lra). lra.
Qed.

(** the point the momentum aims at, measured against a minimiser *)
Lemma aim_step n c f g L x xp x' y h b : h = gd_lr c -> b = gd_lr c * gd_momentum c ->
  gd_has_bounds c = false -> smooth n f g L -> convex n f g 0 -> 0 < L -> 0 < h -> 0 <= b < 1 -> h * L <= 1 - b ->
  minimiser n c f y -> same_tail n x y -> same_tail n x xp ->
  (forall i, (i < n)%nat -> x' i = nearest c i (x i - gd_lr c * g x i + gd_lr c * gd_momentum c * (x i - xp i))) ->
  2 * h / (1 - b) * (f x - f y) + 2 * h * b / ((1 - b) * (1 - b)) * (f x - f xp)
    + dist2 n (fun i => x' i + b / (1 - b) * (x' i - x i)) y <= dist2 n (fun i => x i + b / (1 - b) * (x i - xp i)) y.
Proof.
  intros -> -> Hnb Hs Hc HL Hh [Hb0 Hb1] HhL Hy T Tp E.
  pose proof (slope_gap n c f g L x y Hnb Hs Hc HL Hy T) as A.
  pose proof (Hc x xp Tp) as B. set (h := gd_lr c) in *. set (b := h * gd_momentum c) in *.
  set (S1 := sum n (fun i => g x i * (x i - y i))) in *. set (G := sum n (fun i => g x i * g x i)) in *.
  set (S2 := sum n (fun i => g x i * (x i - xp i))).
  assert (B' : f x - f xp <= S2).
  { unfold S2. rewrite (sum_ext n (fun i => g x i * (x i - xp i)) (fun i => (-1) * (g x i * (xp i - x i)))) by (intros; ring). rewrite sum_scal. lra. }
  assert (D : dist2 n (fun i => x' i + b / (1 - b) * (x' i - x i)) y =
    dist2 n (fun i => x i + b / (1 - b) * (x i - xp i)) y - 2 * h / (1 - b) * S1 - 2 * h * b / ((1 - b) * (1 - b)) * S2
      + (h / (1 - b)) * (h / (1 - b)) * G).
  { unfold dist2, S1, S2, G. rewrite <- !sum_scal, <- !sum_minus, <- sum_plus. apply sum_ext. intros i Hi. cbv beta.
    rewrite (E i Hi). unfold nearest. rewrite Hnb. fold b. field. lra. }
  rewrite D. set (q := h / (1 - b)) in *.
  assert (Pq : 0 < q) by (apply Rdiv_lt_0_compat; lra).
  assert (PG : 0 <= G) by (apply sum_pos; intros; apply Rle_0_sqr).
  assert (Hq : q <= / L).
  { apply (Rmult_le_reg_r L); [exact HL|]. rewrite Rinv_l by lra. unfold q. apply (Rmult_le_reg_r (1 - b)); [lra|].
    replace (h / (1 - b) * L * (1 - b)) with (h * L) by (field; lra). lra. }
  replace (2 * h / (1 - b)) with (2 * q) by (unfold q; field; lra).
  replace (2 * h * b / ((1 - b) * (1 - b))) with (2 * q * (b / (1 - b))) by (unfold q; field; lra).
  assert (Pb : 0 <= b / (1 - b)) by (apply Rmult_le_pos; [exact Hb0|left; apply Rinv_0_lt_compat; lra]).
  assert (M1 : 2 * q * (f x - f y + / (2 * L) * G) <= 2 * q * S1) by (apply Rmult_le_compat_l; [lra|exact A]).
  assert (M2 : 2 * q * (b / (1 - b)) * (f x - f xp) <= 2 * q * (b / (1 - b)) * S2) by (apply Rmult_le_compat_l; [apply Rmult_le_pos; lra|exact B']).
  assert (M3 : q * q * G <= 2 * q * (/ (2 * L) * G)).
  { replace (2 * q * (/ (2 * L) * G)) with (q * / L * G) by (field; lra). apply Rmult_le_compat_r; [exact PG|]. apply Rmult_le_compat_l; lra. }
  lra.
Qed.

(** Convex and smooth, no box, step at most [(1 - lr m) / L]: after [k] turns the value returned
    exceeds the minimum by at most [1/k] times a constant of the start. Without momentum this is the
    bound of [C115_sublinear]. *)
Theorem C131_sublinear : forall n c f g L fuel x0 y x fx k ok,
  gd_backtracking c = false -> gd_has_bounds c = false ->
  smooth n f g L -> convex n f g 0 -> 0 < L -> 0 < gd_lr c -> 0 <= gd_momentum c ->
  gd_lr c * gd_momentum c < 1 -> gd_lr c * L <= 1 - gd_lr c * gd_momentum c ->
  same_tail n x0 y -> minimiser n c f y ->
  minimize Rops n c f g fuel x0 = Some (x, fx, k, ok) ->
  INR k * (fx - f y) <= (1 - gd_lr c * gd_momentum c) / (2 * gd_lr c) * dist2 n x0 y
     + 2 * (gd_lr c * gd_momentum c / (1 - gd_lr c * gd_momentum c)) * (f x0 - f y).
Proof.
  intros n c f g L fuel x0 y x fx k ok Hb Hnb Hs Hc HL Hh Hm Hb1 HhL T Hy H.
  assert (Hbox : box_ok n c) by (intros Eb; congruence).
  destruct (momentum_path _ _ _ _ _ _ _ _ _ _ Hb Hbox H) as (X & X0 & Xk & Ef & Ta & St & _ & _).
  assert (Al : allowed n c (X 0%nat)) by (intros Eb; congruence).
  pose proof (momentum_energy n c f g L X k Hs Hh Hm Hbox Al St) as En.
  set (h := gd_lr c) in *. set (m := gd_momentum c) in *. set (b := h * m) in *.
  assert (Hb0 : 0 <= b) by (apply Rmult_le_pos; lra).
  set (kap := / h - L / 2 - m) in *.
  assert (K : (1 - b) / (2 * h) <= kap).
  { apply (Rmult_le_reg_l (2 * h)); [lra|]. replace (2 * h * ((1 - b) / (2 * h))) with (1 - b) by (field; lra).
    replace (2 * h * kap) with (2 - h * L - 2 * b) by (unfold kap, b; field; lra). lra. }
  assert (Pk : 0 < (1 - b) / (2 * h)) by (apply Rdiv_lt_0_compat; lra).
  assert (Low : forall j, (j <= k)%nat -> f y <= f (X j)).
  { intros j Hj. apply (proj2 Hy); [exact (same_tail_between _ _ _ _ T (Ta j Hj))|intros Eb; congruence]. }
  (* the sum of the values before the last *)
  assert (S1 : forall t, (t <= k)%nat ->
     2 * h / (1 - b) * sum t (fun j => f (X j) - f y) + 2 * h * b / ((1 - b) * (1 - b)) * (f (X (t - 1)%nat) - f x0)
       + dist2 n (fun i => X t i + b / (1 - b) * (X t i - X (t - 1)%nat i)) y <= dist2 n x0 y).
  { induction t as [|t IH]; intros Ht.
    - cbn [sum Nat.sub]. rewrite X0. unfold dist2. rewrite (sum_ext n _ (fun i => (x0 i - y i) * (x0 i - y i))) by (intros; ring). lra.
    - specialize (IH ltac:(lia)). cbn [sum]. replace (S t - 1)%nat with t by lia.
      destruct (St t ltac:(lia)) as [_ E]. rewrite Nat.add_1_r in E.
      pose proof (aim_step n c f g L (X t) (X (t - 1)%nat) (X (S t)) y h b eq_refl eq_refl Hnb Hs Hc HL Hh (conj Hb0 Hb1) HhL Hy
        (same_tail_between _ _ _ _ (Ta t ltac:(lia)) T) (same_tail_between _ _ _ _ (Ta t ltac:(lia)) (Ta (t - 1)%nat ltac:(lia))) E) as A.
      lra. }
  specialize (S1 k ltac:(lia)).
  set (v := b / (1 - b)) in *.
  assert (Pv : 0 <= v) by (apply Rmult_le_pos; [exact Hb0|left; apply Rinv_0_lt_compat; lra]).
  assert (S2 : sum k (fun j => f (X j) - f y) <= (1 - b) / (2 * h) * dist2 n x0 y + v * (f x0 - f y)).
  { pose proof (dist2_pos n (fun i => X k i + v * (X k i - X (k - 1)%nat i)) y) as P.
    pose proof (Low (k - 1)%nat ltac:(lia)) as Lo.
    assert (Q : 2 * h * b / ((1 - b) * (1 - b)) = 2 * h / (1 - b) * v) by (unfold v; field; lra). rewrite Q in S1.
    assert (C : 0 < 2 * h / (1 - b)) by (apply Rdiv_lt_0_compat; lra).
    apply (Rmult_le_reg_l (2 * h / (1 - b))); [exact C|].
    replace (2 * h / (1 - b) * ((1 - b) / (2 * h) * dist2 n x0 y + v * (f x0 - f y)))
      with (dist2 n x0 y + 2 * h / (1 - b) * v * (f x0 - f y)) by (field; lra).
    assert (0 <= 2 * h / (1 - b) * v * (f (X (k - 1)%nat) - f y)) by (apply Rmult_le_pos; [apply Rmult_le_pos; lra|lra]). lra. }
  (* the energy only falls, so the last value is below the average energy *)
  pose proof (energy_sum n f m kap X k En) as S3.
  assert (Mono : forall j i, (i + j <= k)%nat -> f (X (i + j)%nat) + m / 2 * dist2 n (X (i + j)%nat) (X (i + j - 1)%nat) <= f (X i) + m / 2 * dist2 n (X i) (X (i - 1)%nat)).
  { induction j as [|j IH]; intros i Hj; [rewrite Nat.add_0_r; lra|].
    specialize (IH i ltac:(lia)). specialize (En (i + j)%nat ltac:(lia)).
    replace (i + S j)%nat with (S (i + j)) by lia. replace (S (i + j) - 1)%nat with (i + j)%nat by lia.
    pose proof (dist2_pos n (X (S (i + j))) (X (i + j)%nat)) as P.
    assert (0 <= kap * dist2 n (X (S (i + j))) (X (i + j)%nat)) by (apply Rmult_le_pos; lra). lra. }
  assert (S4 : INR k * (fx - f y) <= sum k (fun j => f (X j) - f y) + m / 2 * sum k (fun j => dist2 n (X j) (X (j - 1)%nat))).
  { rewrite <- sum_scal, <- sum_plus.
    replace (INR k * (fx - f y)) with (sum k (fun _ => fx - f y)) by (clear; induction k as [|k IH]; [cbn [sum INR]; ring|cbn [sum]; rewrite IH, S_INR; ring]).
    apply sum_le. intros j Hj. specialize (Mono (k - j)%nat j ltac:(lia)). replace (j + (k - j))%nat with k in Mono by lia.
    rewrite Xk in Mono. rewrite Ef. pose proof (dist2_pos n x (X (k - 1)%nat)).
    assert (0 <= m / 2 * dist2 n x (X (k - 1)%nat)) by (apply Rmult_le_pos; lra). lra. }
  assert (S5 : sum k (fun j => dist2 n (X j) (X (j - 1)%nat)) <= sum k (fun j => dist2 n (X (S j)) (X j))).
  { clear. destruct k as [|k]; [cbn [sum]; lra|].
    assert (A : forall k, sum (S k) (fun j => dist2 n (X j) (X (j - 1)%nat)) = sum k (fun j => dist2 n (X (S j)) (X j))).
    { clear. induction k as [|k IH]; [cbn [sum Nat.sub]; rewrite dist2_same; ring|].
      cbn [sum] in *. rewrite IH. replace (S k - 1)%nat with k by lia. reflexivity. }
    rewrite A. cbn [sum]. pose proof (dist2_pos n (X (S k)) (X k)). lra. }
  set (D := sum k (fun j => dist2 n (X (S j)) (X j))) in *.
  assert (PD : 0 <= D) by apply steps_pos.
  assert (S6 : m / 2 * D <= v * (f x0 - f y)).
  { pose proof (Low k ltac:(lia)) as Lo. rewrite X0 in S3. pose proof (dist2_pos n (X k) (X (k - 1)%nat)) as P.
    assert (0 <= m / 2 * dist2 n (X k) (X (k - 1)%nat)) by (apply Rmult_le_pos; lra).
    assert ((1 - b) / (2 * h) * D <= kap * D) by (apply Rmult_le_compat_r; assumption).
    assert (W : v * ((1 - b) / (2 * h) * D) <= v * (f x0 - f y)) by (apply Rmult_le_compat_l; [exact Pv|lra]).
    replace (v * ((1 - b) / (2 * h) * D)) with (m / 2 * D) in W by (unfold v, b; field; fold b; lra). exact W. }
  assert (m / 2 * sum k (fun j => dist2 n (X j) (X (j - 1)%nat)) <= m / 2 * D) by (apply Rmult_le_compat_l; [lra|exact S5]).
  lra.
Qed.

(** ** What convergence does not say *)
Lemma length2_one v : length2 1 v = Rabs (v 0%nat).
Proof. unfold length2. cbn [sum]. rewrite Rplus_0_l. apply sqrt_Rsqr_abs. Qed.

(** With momentum the iterates swing back, and a step at the turning point of a swing can be as short
    as you like far from the minimum. On the parabola x^2/2, within every bound on step and momentum
    above, and whatever the tolerances, a run reports convergence as far from the minimum as you like. *)
Theorem C131_accuracy_refuted : forall tol B : R, 0 < tol -> exists (c : @gd R) x0 x fx k,
  let f := fun x : nat -> R => x 0%nat * x 0%nat / 2 in let g := fun (x : nat -> R) (_ : nat) => x 0%nat in
  gd_backtracking c = false /\ gd_has_bounds c = false /\ smooth 1 f g 1 /\ convex 1 f g 1 /\
  0 < gd_lr c /\ 0 < gd_momentum c /\ gd_lr c * (gd_momentum c + 1 / 2) < 1 /\ gd_lr c * 1 <= 1 - gd_lr c * gd_momentum c /\
  gd_tol_grad c = tol /\ gd_tol_step c = tol /\ minimiser 1 c f (fun _ => 0) /\
  minimize Rops 1 c f g 0 x0 = Some (x, fx, k, true) /\ B < Rabs (x 0%nat).
Proof.
  intros tol B Ht. set (t := Rmax (Rabs B) tol + 1).
  pose proof (Rmax_l (Rabs B) tol) as ML. pose proof (Rmax_r (Rabs B) tol) as MR. pose proof (Rle_abs B) as AB.
  assert (Tt : tol < t) by (unfold t; lra).
  set (c := mkGd (13 / 16) false 0 0 (1 / 13) tol tol 10%nat false (fun _ => 0) (fun _ => 0)).
  set (x0 := fun i : nat => if (i <? 1)%nat then 64 * t else 0).
  set (f := fun x : nat -> R => x 0%nat * x 0%nat / 2). set (g := fun (x : nat -> R) (_ : nat) => x 0%nat).
  assert (Hbox : box_ok 1 c) by (intros Eb; discriminate).
  destruct (fixed_total 1 c f g 0 x0 eq_refl) as [[[[x fx] k] ok] E].
  destruct (C115_path 1 c f g 0 x0 x fx k ok eq_refl Hbox E) as (X & X0 & Xk & _ & St & Sp & Fin).
  assert (V0 : X 0%nat 0%nat = 64 * t) by (rewrite X0; reflexivity).
  assert (Rec : forall j, (j < k)%nat -> X (j + 1)%nat 0%nat = X j 0%nat - 13 / 16 * X j 0%nat + 1 / 16 * (X j 0%nat - X (j - 1)%nat 0%nat)).
  { intros j Hj. destruct (St j Hj) as (_ & _ & W). rewrite (W 0%nat ltac:(lia)). unfold nearest, g. cbn [c gd_has_bounds gd_lr gd_momentum]. lra. }
  assert (G : forall j, X j 0%nat = 64 * t \/ X j 0%nat = 12 * t \/ X j 0%nat = - t -> tol < length2 1 (g (X j))).
  { intros j Hv. rewrite length2_one. unfold g. destruct Hv as [-> | [-> | ->]]; [rewrite Rabs_pos_eq; lra|rewrite Rabs_pos_eq; lra|rewrite Rabs_Ropp, Rabs_pos_eq; lra]. }
  assert (K0 : k <> 0%nat).
  { intros ->. destruct ok; [|destruct Fin as [Fk _]; cbn in Fk; lia].
    destruct Fin as [A|(j & Ej & _)]; [|lia]. rewrite <- Xk in A. specialize (G 0%nat (or_introl V0)). cbn [c gd_tol_grad] in A. lra. }
  assert (V1 : X 1%nat 0%nat = 12 * t) by (pose proof (Rec 0%nat ltac:(lia)) as R0; cbn [Nat.add Nat.sub] in R0; lra).
  assert (K1 : k <> 1%nat).
  { intros ->. destruct ok; [|destruct Fin as [Fk _]; cbn in Fk; lia].
    destruct Fin as [A|(j & Ej & A)].
    - rewrite <- Xk in A. specialize (G 1%nat (or_intror (or_introl V1))). cbn [c gd_tol_grad] in A. lra.
    - assert (j = 0)%nat by lia. subst j. rewrite length2_one, <- Xk, V0, V1, Rabs_left in A by lra. cbn [c gd_tol_step] in A. lra. }
  assert (V2 : X 2%nat 0%nat = - t) by (pose proof (Rec 1%nat ltac:(lia)) as R0; cbn [Nat.add Nat.sub] in R0; lra).
  assert (K2 : k <> 2%nat).
  { intros ->. destruct ok; [|destruct Fin as [Fk _]; cbn in Fk; lia].
    destruct Fin as [A|(j & Ej & A)].
    - rewrite <- Xk in A. specialize (G 2%nat (or_intror (or_intror V2))). cbn [c gd_tol_grad] in A. lra.
    - assert (j = 1)%nat by lia. subst j. rewrite length2_one, <- Xk, V1, V2, Rabs_left in A by lra. cbn [c gd_tol_step] in A. lra. }
  assert (V3 : X 3%nat 0%nat = - t) by (pose proof (Rec 2%nat ltac:(lia)) as R0; cbn [Nat.add Nat.sub] in R0; lra).
  assert (K3 : k = 3%nat).
  { destruct (Nat.lt_trichotomy k 3) as [A|[A|A]]; [lia|exact A|exfalso].
    specialize (Sp 2%nat ltac:(lia)). rewrite length2_one in Sp. cbn [Nat.add] in Sp. rewrite V2, V3 in Sp.
    replace (- t - - t) with 0 in Sp by ring. rewrite Rabs_R0 in Sp. cbn [c gd_tol_step] in Sp. lra. }
  subst k. destruct ok; [|destruct Fin as [Fk _]; cbn in Fk; lia].
  exists c, x0, x, fx, 3%nat. cbv zeta.
  split; [reflexivity|]. split; [reflexivity|].
  split; [intros u w _; unfold f, g; cbn [sum]; lra|].
  split; [intros u w _; unfold f, g, dist2; cbn [sum]; lra|].
  cbn [c gd_lr gd_momentum gd_tol_grad gd_tol_step].
  split; [lra|]. split; [lra|]. split; [lra|]. split; [lra|]. split; [reflexivity|]. split; [reflexivity|].
  split; [split; [intros Eb; discriminate|intros z _ _; unfold f; pose proof (Rle_0_sqr (z 0%nat)); unfold Rsqr in *; lra]|].
  split; [exact E|]. rewrite <- Xk, V3, Rabs_Ropp, Rabs_pos_eq by lra. unfold t. lra.
Qed.

(** ** A case that meets every hypothesis: a bowl, with and without a box *)
Example C131_nontrivial :
  let c := mkGd (1 / 4) false 0 0 1 0 (1 / 10) 1000%nat false (fun _ => 0) (fun _ => 0) in
  let d := mkGd (1 / 4) false 0 0 1 0 (1 / 10) 1000%nat true (fun _ => 1) (fun _ => 3) in
  let f := fun x : nat -> R => sum 2 (fun i => x i * x i) in let g := fun (x : nat -> R) i => 2 * x i in
  let x0 := fun i : nat => if (i <? 2)%nat then 3 else 0 in let y := fun _ : nat => 0 in
  gd_backtracking c = false /\ gd_has_bounds c = false /\ smooth 2 f g 2 /\ convex 2 f g 0 /\
  0 < gd_lr c /\ 0 < gd_momentum c /\ gd_lr c * gd_momentum c < 1 /\ gd_lr c * 2 <= 1 - gd_lr c * gd_momentum c /\
  same_tail 2 x0 y /\ minimiser 2 c f y /\ box_ok 2 d /\ allowed 2 d x0 /\ gd_backtracking d = false /\
  gd_lr d * (gd_momentum d + 2 / 2) <= 1 /\ 0 <= gd_tol_step d /\ (forall z, same_tail 2 x0 z -> allowed 2 d z -> 0 <= f z) /\
  f x0 - 0 < INR (gd_max_iters d) * ((/ gd_lr d - 2 / 2 - gd_momentum d) * (gd_tol_step d * gd_tol_step d)).
Proof.
  intros c d f g x0 y.
  split; [reflexivity|]. split; [reflexivity|].
  split; [intros u w _; unfold f, g; cbn [sum]; lra|].
  split; [intros u w _; unfold f, g, dist2; cbn [sum]; pose proof (Rle_0_sqr (w 0%nat - u 0%nat)); pose proof (Rle_0_sqr (w 1%nat - u 1%nat)); unfold Rsqr in *; lra|].
  cbn [c d gd_lr gd_momentum gd_backtracking gd_tol_step gd_max_iters].
  split; [lra|]. split; [lra|]. split; [lra|]. split; [lra|].
  split; [intros i Hi; unfold x0, y; destruct (Nat.ltb_spec i 2); [lia|reflexivity]|].
  assert (Pf : forall z, 0 <= f z) by (intros z; unfold f; apply sum_pos; intros; apply Rle_0_sqr).
  split; [split; [intros Eb; discriminate|intros z _ _; replace (f y) with 0 by (unfold f, y; cbn [sum]; ring); apply Pf]|].
  split; [intros _ i _; cbn; lra|].
  split; [intros _ i Hi; cbn; unfold x0; destruct (Nat.ltb_spec i 2); [lra|lia]|].
  split; [reflexivity|]. split; [lra|]. split; [lra|]. split; [intros; apply Pf|].
  unfold f, x0. cbn [sum]. change (0 <? 2)%nat with true. change (1 <? 2)%nat with true.
  replace (INR 1000) with 1000 by (rewrite INR_IZR_INZ; reflexivity). lra.
Qed.
