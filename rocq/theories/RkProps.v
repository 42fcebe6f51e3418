(** C72: the integrators, in exact arithmetic, for vectors of any length. *)
From Coq Require Import QArith Qreals Reals Lra Lia List Arith Factorial.
From Verif Require Import Scalar LinModel LinProofs RSum NumModel SolidProofs.
From Coquelicot Require Import Coquelicot.
Import ListNotations.
Local Open Scope R_scope.

Notation vecR := (nat -> R).
Notation rk4 := (rk4_vector Rops).
Lemma Rabs_le_inv x y : Rabs x <= y -> - y <= x <= y.
Proof. intros H. apply Rabs_le_between, H. Qed.
(** equality of N-vectors *)
Definition veq (N : nat) (u v : vecR) : Prop := forall i, (i < N)%nat -> u i = v i.
(** a function of N-vectors: it reads only the first N components *)
Definition on_vectors (N : nat) (f : vecR -> vecR) : Prop := forall u v, veq N u v -> veq N (f u) (f v).
Definition vadd (u v : vecR) : vecR := fun i => u i + v i.
Definition vscl (c : R) (u : vecR) : vecR := fun i => c * u i.

Lemma add_in N u v i : (i < N)%nat -> vec_add Rops N u v i = u i + v i.
Proof. intros H. unfold vec_add. rewrite vfill_in by auto. reflexivity. Qed.
Lemma scale_in N u c i : (i < N)%nat -> vec_scale Rops N u c i = u i * c.
Proof. intros H. unfold vec_scale. rewrite vfill_in by auto. reflexivity. Qed.
Lemma lit2 : c_two Rops = 2. Proof. unfold c_two. cbn [lit Rops]. unfold Q2R. cbn. lra. Qed.
Lemma lit6 : c_six Rops = 6. Proof. unfold c_six. cbn [lit Rops]. unfold Q2R. cbn. lra. Qed.
Lemma lith : c_half Rops = / 2. Proof. unfold c_half. cbn [lit Rops]. unfold Q2R. cbn. lra. Qed.

(** the four slopes, and the step, as in the textbook *)
Definition k_1 (f : vecR -> vecR) (y : vecR) : vecR := f y.
Definition k_2 f y h := f (vadd y (vscl (h / 2) (k_1 f y))).
Definition k_3 f y h := f (vadd y (vscl (h / 2) (k_2 f y h))).
Definition k_4 f y h := f (vadd y (vscl h (k_3 f y h))).
Lemma arg_eq N y k k' c : veq N k k' -> veq N (vec_add Rops N y (vec_scale Rops N k c)) (vadd y (vscl c k')).
Proof. intros E i H. rewrite add_in, scale_in by auto. unfold vadd, vscl. rewrite (E i H). ring. Qed.
Lemma veq_refl N u : veq N u u. Proof. intros i _. reflexivity. Qed.

Section Slopes.
Context (N : nat) (f : vecR -> vecR) (Hf : on_vectors N f) (y : vecR) (h : R).
Lemma rk4_eq i : (i < N)%nat -> rk4 N f y h i = y i + h / 6 * (k_1 f y i + 2 * k_2 f y h i + 2 * k_3 f y h i + k_4 f y h i).
Proof.
  intros H. unfold rk4_vector. cbv zeta. rewrite lit2, lit6. cbn [div Rops].
  assert (E2 : veq N (f (vec_add Rops N y (vec_scale Rops N (f y) (h / 2)))) (k_2 f y h)) by (apply Hf, arg_eq, veq_refl).
  assert (E3 : veq N (f (vec_add Rops N y (vec_scale Rops N (f (vec_add Rops N y (vec_scale Rops N (f y) (h / 2)))) (h / 2)))) (k_3 f y h)) by (apply Hf, arg_eq, E2).
  assert (E4 : veq N (f (vec_add Rops N y (vec_scale Rops N (f (vec_add Rops N y (vec_scale Rops N (f (vec_add Rops N y (vec_scale Rops N (f y) (h / 2)))) (h / 2)))) h))) (k_4 f y h))
    by (apply Hf, arg_eq, E3).
  rewrite add_in, scale_in, !add_in by auto. rewrite (E2 i H), (E3 i H), (E4 i H). unfold k_1. field.
Qed.
Lemma rk4_cart_eq i : (i < N)%nat -> rk4_cartesian Rops N f y h i = rk4 N f y h i.
Proof.
  intros H. unfold rk4_cartesian, rk4_vector. cbv zeta. rewrite lit2, lit6. cbn [div Rops].
  rewrite !add_in, !scale_in, !add_in, !scale_in by auto. ring.
Qed.
Lemma rk4_angles_eq i : rk4_euler_angles Rops N f y h i = rk4 N f y h i.
Proof. reflexivity. Qed.
End Slopes.

(** The three implementations take the same step. *)
Theorem C72_rk4_same : forall N f y h, veq N (rk4_cartesian Rops N f y h) (rk4 N f y h) /\ veq N (rk4_euler_angles Rops N f y h) (rk4 N f y h).
Proof. intros N f y h. split; intros i H; [apply rk4_cart_eq, H|apply rk4_angles_eq]. Qed.

(** Constant slope: exact. *)
Theorem C72_rk4_constant : forall N c y h, veq N (rk4 N (fun _ => c) y h) (vadd y (vscl h c)).
Proof. intros N c y h i H. rewrite rk4_eq by (auto; intros u v _; apply veq_refl). unfold k_1, k_2, k_3, k_4, vadd, vscl. field. Qed.
(** An equilibrium is kept. *)
Theorem C72_rk4_equilibrium : forall N f y h, on_vectors N f -> veq N (f y) (fun _ => 0) -> veq N (rk4 N f y h) y.
Proof.
  intros N f y h Hf Z i H. rewrite rk4_eq by auto.
  assert (A : forall c k, veq N k (fun _ => 0) -> veq N (f (vadd y (vscl c k))) (fun _ => 0)).
  { intros c k Ek j Hj. rewrite <- (Z j Hj). apply Hf; auto. intros l Hl. unfold vadd, vscl. rewrite (Ek l Hl). ring. }
  assert (E2 : veq N (k_2 f y h) (fun _ => 0)) by (apply (A (h / 2) (k_1 f y)), Z).
  assert (E3 : veq N (k_3 f y h) (fun _ => 0)) by (apply (A (h / 2) (k_2 f y h)), E2).
  assert (E4 : veq N (k_4 f y h) (fun _ => 0)) by (apply (A h (k_3 f y h)), E3).
  rewrite (E2 i H), (E3 i H), (E4 i H). unfold k_1. rewrite (Z i H). field.
Qed.
(** A weighted sum of the components that the equation keeps, the step keeps. *)
Theorem C72_rk4_linear_invariant : forall N f w y h, on_vectors N f ->
  (forall v, sum N (fun i => w i * f v i) = 0) -> sum N (fun i => w i * rk4 N f y h i) = sum N (fun i => w i * y i).
Proof.
  intros N f w y h Hf W.
  rewrite (sum_ext N _ (fun i => w i * y i + h / 6 * (w i * k_1 f y i + 2 * (w i * k_2 f y h i) + 2 * (w i * k_3 f y h i) + w i * k_4 f y h i))).
  - rewrite sum_plus, sum_scal, !sum_plus, !sum_scal. unfold k_1, k_2, k_3, k_4. rewrite !W. ring.
  - intros i H. rewrite rk4_eq by auto. ring.
Qed.

(** Linear systems: the step is the Taylor expansion of the solution to order four. *)
Definition linear_on (N : nat) (f : vecR -> vecR) : Prop :=
  on_vectors N f /\ forall c u v, veq N (f (vadd u (vscl c v))) (vadd (f u) (vscl c (f v))).
Theorem C72_rk4_linear : forall N f y h, linear_on N f ->
  veq N (rk4 N f y h) (fun i => y i + h * f y i + h ^ 2 / 2 * f (f y) i + h ^ 3 / 6 * f (f (f y)) i + h ^ 4 / 24 * f (f (f (f y))) i).
Proof.
  intros N f y h [Hf L] i H. rewrite rk4_eq by auto.
  assert (E2 : veq N (k_2 f y h) (vadd (f y) (vscl (h / 2) (f (f y))))) by apply L.
  assert (E3 : veq N (k_3 f y h) (vadd (vadd (f y) (vscl (h / 2) (f (f y)))) (vscl (h ^ 2 / 4) (f (f (f y)))))).
  { intros j Hj. transitivity (f y j + h / 2 * f (k_2 f y h) j); [apply (L (h / 2) y (k_2 f y h) j Hj)|].
    rewrite (Hf (k_2 f y h) _ E2 j Hj). pose proof (L (h / 2) (f y) (f (f y)) j Hj) as Q. rewrite Q. unfold vadd, vscl. field. }
  assert (E4 : veq N (k_4 f y h) (fun j => f y j + h * f (f y) j + h ^ 2 / 2 * f (f (f y)) j + h ^ 3 / 4 * f (f (f (f y))) j)).
  { intros j Hj. transitivity (f y j + h * f (k_3 f y h) j); [apply (L h y (k_3 f y h) j Hj)|].
    rewrite (Hf (k_3 f y h) _ E3 j Hj). pose proof (L (h ^ 2 / 4) (vadd (f y) (vscl (h / 2) (f (f y)))) (f (f (f y))) j Hj) as Q.
    pose proof (L (h / 2) (f y) (f (f y)) j Hj) as Q'. rewrite Q. unfold vadd at 1. rewrite Q'. unfold vadd, vscl. field. }
  rewrite (E2 i H), (E3 i H), (E4 i H). unfold k_1, vadd, vscl. field.
Qed.

(** y' = a y: the factor of one step *)
Definition taylor4 (z : R) : R := 1 + z + z ^ 2 / 2 + z ^ 3 / 6 + z ^ 4 / 24.
Lemma vscl_linear N a : linear_on N (vscl a).
Proof.
  split; [intros u v E i H; unfold vscl; rewrite (E i H); reflexivity|]. intros c u v i H. unfold vadd, vscl. ring.
Qed.
Lemma rk4_scalar N a y h : veq N (rk4 N (vscl a) y h) (vscl (taylor4 (a * h)) y).
Proof.
  intros i H. rewrite (C72_rk4_linear N (vscl a) y h (vscl_linear N a) i H). unfold vscl, taylor4. field.
Qed.

(** the exponential against its Taylor polynomials *)
Fixpoint tay (n : nat) (z : R) : R := match n with O => 0 | S m => tay m z + z ^ m / INR (fact m) end.
Lemma fact_pos n : 0 < INR (fact n). Proof. apply lt_0_INR, lt_O_fact. Qed.
Lemma tay_0 n : tay (S n) 0 = 1.
Proof. induction n as [|n IH]; [cbn; lra|]. change (tay (S (S n)) 0) with (tay (S n) 0 + 0 ^ S n / INR (fact (S n))). rewrite IH, pow_i by lia. lra. Qed.
Lemma term_derive n z : is_derive (fun x => x ^ S n / INR (fact (S n))) z (z ^ n / INR (fact n)).
Proof.
  evar_last; [apply (is_derive_scal_l (fun x => x ^ S n) z (INR (S n) * 1 * z ^ n) (/ INR (fact (S n))))|].
  - evar_last; [apply is_derive_pow, is_derive_id|]. cbn [Nat.pred]. change one with 1. ring.
  - change (INR (S n) * 1 * z ^ n * / INR (fact (S n)) = z ^ n / INR (fact n)). rewrite fact_simpl, mult_INR. pose proof (fact_pos n). field. split; [lra|]. apply not_0_INR. lia.
Qed.
Lemma tay_derive n z : is_derive (tay (S n)) z (tay n z).
Proof.
  induction n as [|n IH].
  - apply (is_derive_ext (fun _ => 1)); [intros t; cbn; lra|]. evar_last; [apply (is_derive_const (K := R_AbsRing) (V := R_NormedModule) 1 z)|reflexivity].
  - change (tay (S n) z) with (plus (tay n z) (z ^ n / INR (fact n))).
    apply (is_derive_ext (fun x => plus (tay (S n) x) (x ^ S n / INR (fact (S n))))); [intros; reflexivity|].
    apply (is_derive_plus (tay (S n)) (fun x => x ^ S n / INR (fact (S n)))); [exact IH|apply term_derive].
Qed.
(** a function with nonnegative slope on [0, z] *)
Lemma grow (g g' : R -> R) z : 0 <= z -> (forall t, 0 <= t <= z -> is_derive g t (g' t)) -> (forall t, 0 <= t <= z -> 0 <= g' t) -> g 0 <= g z.
Proof.
  intros Z D P. destruct (MVT_gen g 0 z g') as (c & Hc & E).
  - intros x Hx. rewrite Rmin_left, Rmax_right in Hx by auto. apply D. lra.
  - intros x Hx. rewrite Rmin_left, Rmax_right in Hx by auto. apply continuity_pt_filterlim, (ex_derive_continuous (K := R_AbsRing) (V := R_NormedModule)). exists (g' x). apply D. lra.
  - rewrite Rmin_left, Rmax_right in Hc by auto. pose proof (P c Hc). nra.
Qed.
Lemma exp_upper n : forall z, 0 <= z -> 0 <= exp z - tay n z <= z ^ n / INR (fact n) * exp z.
Proof.
  induction n as [|n IH]; intros z Z.
  - cbn. pose proof (exp_pos z). lra.
  - split.
    + replace 0 with (exp 0 - tay (S n) 0) by (rewrite exp_0, tay_0; ring).
      apply (grow (fun t => exp t - tay (S n) t) (fun t => exp t - tay n t) z Z).
      * intros t _. apply (is_derive_minus exp (tay (S n))); [apply is_derive_exp|apply tay_derive].
      * intros t Ht. apply IH. lra.
    + assert (G : z ^ S n / INR (fact (S n)) * exp z - (exp z - tay (S n) z) >= 0 ^ S n / INR (fact (S n)) * exp 0 - (exp 0 - tay (S n) 0)).
      { apply Rle_ge. apply (grow (fun t => t ^ S n / INR (fact (S n)) * exp t - (exp t - tay (S n) t))
          (fun t => (t ^ n / INR (fact n) * exp t + t ^ S n / INR (fact (S n)) * exp t) - (exp t - tay n t)) z Z).
        - intros t _. apply (is_derive_minus (fun t => t ^ S n / INR (fact (S n)) * exp t) (fun t => exp t - tay (S n) t)).
          + apply (is_derive_mult (fun t => t ^ S n / INR (fact (S n))) exp); [apply term_derive|apply is_derive_exp|apply Rmult_comm].
          + apply (is_derive_minus exp (tay (S n))); [apply is_derive_exp|apply tay_derive].
        - intros t Ht. destruct (IH t ltac:(lra)) as [_ U].
          assert (0 <= t ^ S n / INR (fact (S n)) * exp t); [|lra].
          apply Rmult_le_pos; [|left; apply exp_pos]. apply Rmult_le_pos; [apply pow_le; lra|left; apply Rinv_0_lt_compat, fact_pos]. }
      rewrite exp_0, tay_0, pow_i in G by lia. unfold Rdiv in *. lra.
Qed.
Lemma exp_lower n : forall w, 0 <= w -> Rabs (exp (- w) - tay n (- w)) <= w ^ n / INR (fact n).
Proof.
  induction n as [|n IH]; intros w W.
  - cbn. rewrite Rminus_0_r, Rabs_pos_eq by (left; apply exp_pos). replace (1 / 1) with (exp 0) by (rewrite exp_0; field).
    destruct (Rle_lt_or_eq_dec _ _ W) as [L|L]; [left; apply exp_increasing; lra|rewrite <- L, Ropp_0; lra].
  - assert (D : forall t, is_derive (fun w => exp (- w) - tay (S n) (- w)) t (- (exp (- t) - tay n (- t)))).
    { intros t. evar_last; [apply (is_derive_comp (fun x => exp x - tay (S n) x) Ropp t (exp (- t) - tay n (- t)) (-1))|].
      - apply (is_derive_minus exp (tay (S n))); [apply is_derive_exp|apply tay_derive].
      - auto_derive; auto; ring.
      - change (-1 * (exp (- t) - tay n (- t)) = - (exp (- t) - tay n (- t))). ring. }
    assert (Z0 : exp (- 0) - tay (S n) (- 0) = 0) by (rewrite Ropp_0, exp_0, tay_0; ring).
    assert (P0 : 0 ^ S n / INR (fact (S n)) = 0) by (rewrite pow_i by lia; unfold Rdiv; ring).
    apply Rabs_le. split.
    + assert (G := grow (fun t => (exp (- t) - tay (S n) (- t)) + t ^ S n / INR (fact (S n))) (fun t => - (exp (- t) - tay n (- t)) + t ^ n / INR (fact n)) w W).
      cbv beta in G. rewrite Z0, P0 in G. assert (0 + 0 <= exp (- w) - tay (S n) (- w) + w ^ S n / INR (fact (S n))); [|lra]. apply G.
      * intros t _. apply (is_derive_plus (fun t => exp (- t) - tay (S n) (- t)) (fun t => t ^ S n / INR (fact (S n)))); [apply D|apply term_derive].
      * intros t Ht. pose proof (IH t ltac:(lra)) as B. apply Rabs_le_inv in B. lra.
    + assert (G := grow (fun t => t ^ S n / INR (fact (S n)) - (exp (- t) - tay (S n) (- t))) (fun t => t ^ n / INR (fact n) - - (exp (- t) - tay n (- t))) w W).
      cbv beta in G. rewrite Z0, P0 in G. assert (0 - 0 <= w ^ S n / INR (fact (S n)) - (exp (- w) - tay (S n) (- w))); [|lra]. apply G.
      * intros t _. apply (is_derive_minus (fun t => t ^ S n / INR (fact (S n))) (fun t => exp (- t) - tay (S n) (- t))); [apply term_derive|apply D].
      * intros t Ht. pose proof (IH t ltac:(lra)) as B. apply Rabs_le_inv in B. lra.
Qed.
Lemma taylor4_near z : Rabs (taylor4 z - exp z) <= Rabs z ^ 5 / 120 * exp (Rabs z).
Proof.
  assert (T : taylor4 z = tay 5 z) by (unfold taylor4; cbn; lra). rewrite T, Rabs_minus_sym.
  assert (F5 : INR (fact 5) = 120) by (change (fact 5) with 120%nat; rewrite INR_IZR_INZ; reflexivity).
  destruct (Rle_lt_dec 0 z) as [Z|Z].
  - rewrite (Rabs_pos_eq z) by auto. destruct (exp_upper 5 z Z) as [A B]. rewrite F5 in B. rewrite Rabs_pos_eq; auto.
  - rewrite (Rabs_left z) by auto. assert (W : 0 <= - z) by lra. pose proof (exp_lower 5 (- z) W) as B. rewrite Ropp_involutive, F5 in B.
    eapply Rle_trans; [exact B|]. rewrite <- (Rmult_1_r ((- z) ^ 5 / 120)) at 1. apply Rmult_le_compat_l.
    + apply Rmult_le_pos; [apply pow_le; lra|lra].
    + rewrite <- exp_0. left. apply exp_increasing. lra.
Qed.
(** y' = a y, every component, any number of steps of any one size: each step is within |ah|^5/120 of
    the exact solution, relative to the state; decaying solutions do not grow for steps up to 2/|a|. *)
Theorem C72_rk4_exponential : forall N a y h,
  (forall i, (i < N)%nat -> Rabs (rk4 N (vscl a) y h i - exp (a * h) * y i) <= Rabs (a * h) ^ 5 / 120 * exp (Rabs (a * h)) * Rabs (y i)) /\
  (-2 <= a * h <= 0 -> forall i, (i < N)%nat -> Rabs (rk4 N (vscl a) y h i) <= Rabs (y i)).
Proof.
  intros N a y h. split.
  - intros i H. rewrite (rk4_scalar N a y h i H). unfold vscl. replace (taylor4 (a * h) * y i - exp (a * h) * y i) with ((taylor4 (a * h) - exp (a * h)) * y i) by ring.
    rewrite Rabs_mult. apply Rmult_le_compat_r; [apply Rabs_pos|apply taylor4_near].
  - intros Z i H. rewrite (rk4_scalar N a y h i H). unfold vscl. rewrite Rabs_mult. rewrite <- (Rmult_1_l (Rabs (y i))) at 2.
    apply Rmult_le_compat_r; [apply Rabs_pos|]. revert Z. generalize (a * h). intros z Z. unfold taylor4. apply Rabs_le. split; [|].
    + assert (A : 1 + z + z ^ 2 / 2 + z ^ 3 / 6 + z ^ 4 / 24 = 1 + z + z ^ 2 / 2 * (1 + z / 3 + z ^ 2 / 12)) by field. rewrite A.
      assert (0 <= 1 + z / 3 + z ^ 2 / 12) by nra. assert (0 <= z ^ 2 / 2) by nra. nra.
    + assert (A : 1 + z + z ^ 2 / 2 + z ^ 3 / 6 + z ^ 4 / 24 = 1 + z * (1 + z / 2 + z ^ 2 / 6 + z ^ 3 / 24)) by field. rewrite A.
      assert (0 <= 1 + z / 2 + z ^ 2 / 6 + z ^ 3 / 24); [|nra].
      assert (B : 1 + z / 2 + z ^ 2 / 6 + z ^ 3 / 24 = (1 + z / 2) + z ^ 2 / 6 * (1 + z / 4)) by field. rewrite B.
      assert (0 <= z ^ 2 / 6) by nra. assert (0 <= 1 + z / 4) by lra. nra.
Qed.

(** Quadrature: time as component 0, the others with slopes that are cubic polynomials of time. *)
Definition cubic (a b c d t : R) : R := a + b * t + c * t ^ 2 + d * t ^ 3.
Theorem C72_rk4_cubic : forall N a b c d y h, (0 < N)%nat ->
  let f := fun v : vecR => fun i => match i with O => 1 | S j => cubic (a j) (b j) (c j) (d j) (v 0%nat) end in
  rk4 N f y h 0%nat = y 0%nat + h /\
  forall j, (S j < N)%nat -> rk4 N f y h (S j) = y (S j) + RInt (cubic (a j) (b j) (c j) (d j)) (y 0%nat) (y 0%nat + h).
Proof.
  intros N a b c d y h P f. assert (Hf : on_vectors N f) by (intros u v E [|j] _; cbn; auto; rewrite (E 0%nat P); reflexivity). split.
  - rewrite rk4_eq by auto. unfold k_4, k_3, k_2, k_1, f. field.
  - intros j H. rewrite rk4_eq by auto. unfold k_4, k_3, k_2, k_1, f, vadd, vscl. cbv beta iota.
    rewrite (RInt_anti (fun t => a j * t + b j * t ^ 2 / 2 + c j * t ^ 3 / 3 + d j * t ^ 4 / 4) (cubic (a j) (b j) (c j) (d j))).
    + unfold cubic. field.
    + intros t. unfold cubic. auto_derive; [auto|]. field.
    + intros t. unfold cubic. apply (ex_derive_continuous (K := R_AbsRing) (V := R_NormedModule)). auto_derive. auto.
Qed.

(** Euler: the increments of a constant rate over any sequence of steps add up to rate times time. *)
Theorem C72_euler : forall N c dts i, (i < N)%nat ->
  fold_right (fun dt acc => integrate_euler Rops N c dt i + acc) 0 dts = c i * fold_right Rplus 0 dts.
Proof. intros N c dts i H. induction dts as [|dt l IH]; cbn; [ring|]. rewrite IH. unfold integrate_euler. rewrite scale_in by auto. ring. Qed.

(** Trapezoids: samples of N functions of time at times t 0, ..., t n, in any order and spacing. *)
Definition trap_sum (N : nat) (g : R -> vecR) (t : nat -> R) (n : nat) (i : nat) : R :=
  sum n (fun j => integrate_trapezoidal Rops N (g (t (S j))) (g (t j)) (t (S j) - t j) i).
Lemma trap_eq N u v dt i : (i < N)%nat -> integrate_trapezoidal Rops N u v dt i = (u i + v i) / 2 * dt.
Proof. intros H. unfold integrate_trapezoidal. rewrite lith, !scale_in, add_in by auto. field. Qed.
Theorem C72_trapezoid_linear : forall N p q t n i, (i < N)%nat ->
  trap_sum N (fun x j => p j + q j * x) t n i = RInt (fun x => p i + q i * x) (t 0%nat) (t n).
Proof.
  intros N p q t n i H. rewrite (RInt_anti (fun x => p i * x + q i * x ^ 2 / 2) (fun x => p i + q i * x)).
  - unfold trap_sum. induction n as [|n IH]; cbn [sum]; [ring|]. rewrite IH, trap_eq by auto. field.
  - intros x. auto_derive; [auto|]. field.
  - intros x. apply (ex_derive_continuous (K := R_AbsRing) (V := R_NormedModule)). auto_derive. auto.
Qed.

(** One trapezoid of a function with second derivative at most M: within M h^3 / 12 of the integral. *)
Lemma trap_error (f f1 f2 : R -> R) M a b : a <= b ->
  (forall x, is_derive f x (f1 x)) -> (forall x, is_derive f1 x (f2 x)) -> (forall x, a <= x <= b -> Rabs (f2 x) <= M) ->
  Rabs ((f b + f a) / 2 * (b - a) - RInt f a b) <= M / 12 * (b - a) ^ 3.
Proof.
  intros AB D1 D2 B.
  assert (C : forall x, continuous f x) by (intros x; apply (ex_derive_continuous (K := R_AbsRing) (V := R_NormedModule)); exists (f1 x); apply D1).
  assert (DI : forall x, is_derive (fun x => RInt f a x) x (f x)).
  { intros x. apply (is_derive_RInt f (fun x => RInt f a x) a x); [|apply C]. apply filter_forall. intros y. apply (RInt_correct (V := R_CompleteNormedModule)), (ex_RInt_continuous (V := R_CompleteNormedModule)). intros z _. apply C. }
  set (s := b - a). assert (S0 : 0 <= s) by (unfold s; lra). replace b with (a + s) by (unfold s; ring).
  set (g := fun t => (f (a + t) + f a) / 2 * t - RInt f a (a + t)).
  set (g1 := fun t => t / 2 * f1 (a + t) - (f (a + t) - f a) / 2).
  set (g2 := fun t => t / 2 * f2 (a + t)).
  assert (Sh : forall (F F' : R -> R) t, is_derive F (a + t) (F' (a + t)) -> is_derive (fun t => F (a + t)) t (F' (a + t))).
  { intros F F' t H. evar_last; [apply (is_derive_comp F (fun t => a + t) t (F' (a + t)) 1); [exact H|auto_derive; auto]|]. change (1 * F' (a + t) = F' (a + t)). ring. }
  assert (G1 : forall t, is_derive g t (g1 t)).
  { intros t. unfold g, g1. evar_last.
    - apply (is_derive_minus (fun t => (f (a + t) + f a) / 2 * t) (fun t => RInt f a (a + t))); [|apply (Sh (fun x => RInt f a x) f), DI].
      apply (is_derive_mult (fun t => (f (a + t) + f a) / 2) (fun t => t)); [|apply is_derive_id|apply Rmult_comm].
      apply (is_derive_scal_l (fun t => f (a + t) + f a) t (f1 (a + t)) (/ 2)). evar_last; [apply (is_derive_plus (fun t => f (a + t)) (fun _ => f a)); [apply (Sh f f1), D1|apply is_derive_const]|].
      apply Rplus_0_r.
    - change (f1 (a + t) * / 2 * t + (f (a + t) + f a) / 2 * 1 - f (a + t) = t / 2 * f1 (a + t) - (f (a + t) - f a) / 2). field. }
  assert (G2 : forall t, is_derive g1 t (g2 t)).
  { intros t. unfold g1, g2. evar_last.
    - apply (is_derive_minus (fun t => t / 2 * f1 (a + t)) (fun t => (f (a + t) - f a) / 2)).
      + apply (is_derive_mult (fun t => t / 2) (fun t => f1 (a + t)) t (/ 2)); [|apply (Sh f1 f2), D2|apply Rmult_comm]. auto_derive; auto. field.
      + apply (is_derive_scal_l (fun t => f (a + t) - f a) t (f1 (a + t)) (/ 2)). evar_last; [apply (is_derive_minus (fun t => f (a + t)) (fun _ => f a)); [apply (Sh f f1), D1|apply is_derive_const]|].
        apply Rminus_0_r.
    - change (/ 2 * f1 (a + t) + t / 2 * f2 (a + t) - f1 (a + t) * / 2 = t / 2 * f2 (a + t)). field. }
  assert (B2 : forall t, 0 <= t <= s -> - (M / 2 * t) <= g2 t <= M / 2 * t).
  { intros t Ht. unfold g2. assert (X := B (a + t) ltac:(unfold s in Ht; lra)). apply Rabs_le_inv in X. nra. }
  assert (Z1 : g1 0 = 0) by (unfold g1; rewrite Rplus_0_r; field).
  assert (Z0 : g 0 = 0) by (unfold g; rewrite Rplus_0_r, RInt_point; change zero with 0; ring).
  assert (B1 : forall t, 0 <= t <= s -> - (M / 4 * t ^ 2) <= g1 t <= M / 4 * t ^ 2).
  { intros t Ht. split.
    - assert (X := grow (fun t => g1 t + M / 4 * t ^ 2) (fun t => g2 t + M / 2 * t) t ltac:(lra)). cbv beta in X. rewrite Z1 in X.
      assert (0 + M / 4 * 0 ^ 2 <= g1 t + M / 4 * t ^ 2); [|cbn in *; lra]. apply X.
      + intros x _. apply (is_derive_plus g1 (fun t => M / 4 * t ^ 2)); [apply G2|auto_derive; auto; field].
      + intros x Hx. pose proof (B2 x ltac:(lra)). lra.
    - assert (X := grow (fun t => M / 4 * t ^ 2 - g1 t) (fun t => M / 2 * t - g2 t) t ltac:(lra)). cbv beta in X. rewrite Z1 in X.
      assert (M / 4 * 0 ^ 2 - 0 <= M / 4 * t ^ 2 - g1 t); [|cbn in *; lra]. apply X.
      + intros x _. apply (is_derive_minus (fun t => M / 4 * t ^ 2) g1); [auto_derive; auto; field|apply G2].
      + intros x Hx. pose proof (B2 x ltac:(lra)). lra. }
  assert (B0 : - (M / 12 * s ^ 3) <= g s <= M / 12 * s ^ 3).
  { split.
    - assert (X := grow (fun t => g t + M / 12 * t ^ 3) (fun t => g1 t + M / 4 * t ^ 2) s S0). cbv beta in X. rewrite Z0 in X.
      assert (0 + M / 12 * 0 ^ 3 <= g s + M / 12 * s ^ 3); [|cbn in *; lra]. apply X.
      + intros x _. apply (is_derive_plus g (fun t => M / 12 * t ^ 3)); [apply G1|auto_derive; auto; field].
      + intros x Hx. pose proof (B1 x Hx). lra.
    - assert (X := grow (fun t => M / 12 * t ^ 3 - g t) (fun t => M / 4 * t ^ 2 - g1 t) s S0). cbv beta in X. rewrite Z0 in X.
      assert (M / 12 * 0 ^ 3 - 0 <= M / 12 * s ^ 3 - g s); [|cbn in *; lra]. apply X.
      + intros x _. apply (is_derive_minus (fun t => M / 12 * t ^ 3) g); [auto_derive; auto; field|apply G1].
      + intros x Hx. pose proof (B1 x Hx). lra. }
  replace (a + s - a) with s by ring. apply Rabs_le. exact B0.
Qed.
Theorem C72_trapezoid_error : forall N (g g1 g2 : R -> vecR) M t n i, (i < N)%nat ->
  (forall x, is_derive (fun x => g x i) x (g1 x i)) -> (forall x, is_derive (fun x => g1 x i) x (g2 x i)) ->
  (forall j, (j < n)%nat -> t j <= t (S j)) -> (forall x, t 0%nat <= x <= t n -> Rabs (g2 x i) <= M) ->
  Rabs (trap_sum N g t n i - RInt (fun x => g x i) (t 0%nat) (t n)) <= M / 12 * sum n (fun j => (t (S j) - t j) ^ 3).
Proof.
  intros N g g1 g2 M t n i H D1 D2. unfold trap_sum.
  assert (E : forall a b, ex_RInt (fun x => g x i) a b).
  { intros a b. apply (ex_RInt_continuous (V := R_CompleteNormedModule)). intros z _. apply (ex_derive_continuous (K := R_AbsRing) (V := R_NormedModule)). exists (g1 z i). apply D1. }
  induction n as [|n IH]; intros T B; cbn [sum].
  - rewrite RInt_point. change zero with 0. rewrite Rminus_0_r, Rabs_R0. lra.
  - assert (T0 : forall j, (j <= n)%nat -> t 0%nat <= t j).
    { induction j as [|j IHj]; intros Hj; [lra|]. eapply Rle_trans; [apply IHj; lia|apply T; lia]. }
    assert (Tn := T n ltac:(lia)). assert (T0n := T0 n ltac:(lia)).
    specialize (IH ltac:(intros j Hj; apply T; lia) ltac:(intros x Hx; apply B; lra)).
    rewrite <- (RInt_Chasles (fun x => g x i) (t 0%nat) (t n) (t (S n))) by apply E. change plus with Rplus.
    rewrite trap_eq by auto.
    assert (X := trap_error (fun x => g x i) (fun x => g1 x i) (fun x => g2 x i) M (t n) (t (S n)) Tn D1 D2 ltac:(intros x Hx; apply B; lra)).
    cbv beta in X. match goal with |- Rabs (?a + ?b - (?c + ?d)) <= _ => replace (a + b - (c + d)) with ((a - c) + (b - d)) by ring end.
    eapply Rle_trans; [apply Rabs_triang|]. rewrite Rmult_plus_distr_l. apply Rplus_le_compat; assumption.
Qed.

(** the hypotheses are met: a rotation in the plane is linear, keeps no weighted sum; a transfer between two tanks keeps the total *)
Example C72_nontrivial :
  linear_on 2 (fun v i => match i with O => - v 1%nat | _ => v 0%nat end) /\
  (forall v : vecR, sum 2 (fun i => 1 * (match i with O => - v 0%nat | _ => v 0%nat end)) = 0).
Proof.
  split; [split|].
  - intros u v E [|i] _; [rewrite (E 1%nat); auto|apply E; lia].
  - intros c u v [|i] _; unfold vadd, vscl; ring.
  - intros v. cbn. ring.
Qed.
