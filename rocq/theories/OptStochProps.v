(** C52 for the stochastic optimisers and C53: the parallel optimiser. *)
From Coq Require Import ZArith QArith NArith Reals List Arith Lia Lra Psatz Bool Qreals Znumtheory.
From Verif Require Import Machine Scalar RSum LinModel LinProofs RandModel OptModel OptSpec OptProofs OptProps.
Import ListNotations.
Local Open Scope nat_scope.

(** ** Mini-batches *)
Lemma accumulate_samples {F} (o : ops F) n sample x count rng :
  forall i, i < n -> fst (accumulate o n sample x count rng) i =
    fold_left (fun a g => add o a (g i)) (samples sample x count rng) (zero o).
Proof.
  unfold accumulate, for_. rewrite Nat.sub_0_r.
  assert (forall count a0 (acc : nat -> F) rng i, i < n ->
    fst (fold_left (fun (s : (nat -> F) * N) (_ : nat) =>
           let '(gi, r) := sample x (snd s) in
           (vfill n (fun i => add o (fst s i) (gi i)) (fst s), r)) (seq a0 count) (acc, rng)) i =
    fold_left (fun a g => add o a (g i)) (samples sample x count rng) (acc i)) as H.
  { clear count rng. induction count as [|c IH]; intros a0 acc rng i Hi; cbn [seq fold_left samples fst snd].
    - reflexivity.
    - destruct (sample x rng) as [g r]. rewrite IH by auto. cbn [fold_left].
      rewrite vfill_in by auto. reflexivity. }
  intros i Hi. rewrite H by auto. reflexivity.
Qed.

Lemma samples_length {V} (sample : V -> N -> V * N) x count : forall rng, length (samples sample x count rng) = count.
Proof.
  induction count as [|c IH]; intros rng; cbn; [reflexivity|]. destruct (sample x rng). cbn. rewrite IH. reflexivity.
Qed.

(** The gradient the sequential optimiser uses is the average of exactly batch_size samples. *)
Definition average_of (l : list (nat -> R)) (i : nat) : R :=
  (fold_left (fun a g => a + g i) l 0 / INR (length l))%R.

Lemma of_nat_R k : of_nat Rops k = INR k.
Proof. unfold of_nat. cbn [lit Rops]. unfold Q2R. cbn [Qnum Qden inject_Z]. rewrite INR_IZR_INZ. field. Qed.

Theorem C53_sequential_batch : forall n c sample x rng i, i < n ->
  fst (batch_grad Rops n c sample x rng) i =
    average_of (samples sample x (Nat.max (sg_batch c) 1) rng) i.
Proof.
  intros n c sample x rng i Hi. unfold batch_grad, average_of. rewrite samples_length.
  destruct (accumulate Rops n sample x (Nat.max (sg_batch c) 1) rng) as [g r] eqn:E.
  cbn [fst]. rewrite vfill_in by auto. cbn [mul div Rops one]. rewrite of_nat_R.
  change g with (fst (g, r)). rewrite <- E, accumulate_samples by auto. cbn [add zero Rops].
  field. apply not_0_INR. lia.
Qed.

(** ** C52: the stochastic optimiser *)
Lemma sgd_after_grad_f {F} (o : ops F) n powi c f k s g r s' v :
  sgd_after_grad o n powi c f k s g r = (s', v) -> ss_f s = f (ss_x s) -> ss_f s' = f (ss_x s').
Proof.
  unfold sgd_after_grad. match goal with |- (if ?b then _ else _) = _ -> _ => destruct b end;
    intros H Hf; injection H as <- _; cbn; auto.
Qed.

(** Iterations used, value returned: any scalar type, sequential and parallel. *)
Theorem C52_stochastic_answer : forall F (o : ops F) n powi c f sample seed x0 x fx k ok rng,
  sgd_minimize o n powi c f sample seed x0 = Some (x, fx, k, ok, rng) ->
  k <= sg_max_iters c /\ fx = f x /\ (ok = false -> k = sg_max_iters c).
Proof.
  intros F o n powi c f sample seed x0 x fx k ok rng H. unfold sgd_minimize in H.
  destruct (opt_loop _ _ _ _) as [[[s k'] ok']|] eqn:E; [|discriminate]. injection H as <- <- <- <- <-.
  split; [apply opt_loop_le in E; lia|]. split.
  - refine (opt_loop_inv _ (fun _ s => ss_f s = f (ss_x s)) _ _ _ _ _ _ _ _ E); [reflexivity|].
    intros k1 s1 s' v H1 Eb. cbv beta in Eb.
    destruct (batch_grad o n c sample (ss_x s1) (ss_rng s1)) as [g r]. injection Eb as Eb.
    eapply sgd_after_grad_f; eauto.
  - intros ->. apply opt_loop_false in E. exact E.
Qed.

Theorem C52_parallel_answer : forall F (o : ops F) n powi c f sample threads seed sched x0 x fx k ok,
  psgd_minimize o n powi c f sample threads seed sched x0 = Some (x, fx, k, ok) ->
  k <= sg_max_iters c /\ fx = f x /\ (ok = false -> k = sg_max_iters c).
Proof.
  intros F o n powi c f sample threads seed sched x0 x fx k ok H. unfold psgd_minimize in H.
  destruct (opt_loop _ _ _ _) as [[[s k'] ok']|] eqn:E; [|discriminate]. injection H as <- <- <- <-.
  split; [apply opt_loop_le in E; lia|]. split.
  - refine (opt_loop_inv _ (fun _ s => ss_f s = f (ss_x s)) _ _ _ _ _ _ _ _ E); [reflexivity|].
    intros k1 s1 s' v H1 Eb. cbv beta in Eb.
    destruct (parallel_grad o n c sample _ seed (sched k1) k1 (ss_x s1)) as [g|]; [|discriminate].
    injection Eb as Eb. eapply sgd_after_grad_f; eauto.
  - intros ->. apply opt_loop_false in E. exact E.
Qed.

Local Open Scope R_scope.
(* the invariant behind the bias-corrected average of gradient norms *)
Definition ema_floor (c : @sgd R) (k : nat) (s : @sgd_state R) : Prop :=
  (1 - sg_beta c ^ k) * sg_tol_ema c <= ss_ema s.

Lemma sgd_after_grad_R n c f k s g r s' v :
  sg_bias c = true -> 0 <= sg_beta c < 1 -> (Z.of_nat k + 1 < 2 ^ 31)%Z ->
  sg_tol_ema c < length2 n g -> ema_floor c k s ->
  sgd_after_grad Rops n powerRZ c f k s g r = (s', v) ->
  ema_floor c (k + 1) s' /\
  (v = StopBefore -> ss_x s' = ss_x s /\ ss_f s' = ss_f s /\ ss_f s <= sg_tol_f c /\
                     (sg_tol_f_guarded c = true -> 0 < sg_tol_f c)) /\
  (v = StopAfter -> length2 n (fun i => ss_x s' i - ss_x s i) <= sg_tol_step c).
Proof.
  intros Hb Hbeta Hk Hg Hinv. unfold sgd_after_grad. cbv zeta. rewrite !norm2_R.
  set (ema := add Rops _ _).
  assert ((1 - sg_beta c ^ (k + 1)) * sg_tol_ema c < ema) as Hema.
  { unfold ema. cbn [add mul sub one Rops]. rewrite Nat.add_1_r. cbn [pow]. unfold ema_floor in Hinv.
    assert ((1 - sg_beta c) * sg_tol_ema c < (1 - sg_beta c) * length2 n g)
      by (apply Rmult_lt_compat_l; lra).
    assert (sg_beta c * ((1 - sg_beta c ^ k) * sg_tol_ema c) <= sg_beta c * ss_ema s)
      by (apply Rmult_le_compat_l; lra). nra. }
  assert (0 < 1 - sg_beta c ^ (k + 1)) as Hp.
  { assert (sg_beta c ^ (k + 1) < 1); [|lra]. rewrite Nat.add_1_r. cbn [pow].
    assert (sg_beta c ^ k <= 1) by (rewrite <- (pow1 k); apply pow_incr; lra).
    assert (0 <= sg_beta c ^ k) by (apply pow_le; lra). nra. }
  assert (leb Rops (ema_hat Rops powerRZ c k ema) (sg_tol_ema c) = false) as Hhat.
  { cbn [leb Rops]. apply Rleb_niff. unfold ema_hat. rewrite Hb. cbn [div sub one Rops].
    assert (w32 (w32 (Z.of_nat k) + 1) = Z.of_nat (k + 1)) as ->.
    { rewrite (w32_id (Z.of_nat k)) by (unfold in_i32; lia). rewrite w32_id by (unfold in_i32; lia). lia. }
    rewrite <- pow_powerRZ. apply (Rmult_lt_reg_l (1 - sg_beta c ^ (k + 1))); [exact Hp|].
    replace ((1 - sg_beta c ^ (k + 1)) * (ema / (1 - sg_beta c ^ (k + 1)))) with ema by (field; lra).
    exact Hema. }
  rewrite Hhat. cbn [orb].
  assert (ema_floor c (k + 1) {| ss_x := ss_x s; ss_v := ss_v s; ss_f := ss_f s; ss_ema := ema; ss_rng := r |})
    as Hfl by (unfold ema_floor; cbn [ss_ema]; lra).
  destruct (_ && (_ && _)) eqn:Et.
  - intros H. injection H as <- <-. split; [exact Hfl|]. split; [|discriminate]. intros _. cbn [ss_x ss_f].
    apply andb_prop in Et. destruct Et as [_ Et]. apply andb_prop in Et. destruct Et as [Eg Ef].
    cbn [leb ltb Rops zero] in Ef, Eg. apply Rleb_iff in Ef.
    split; [reflexivity|]. split; [reflexivity|]. split; [exact Ef|].
    intros G. rewrite G in Eg. cbn [negb orb] in Eg. apply Rltb_iff in Eg. exact Eg.
  - intros H. injection H as <- <-. split; [unfold ema_floor; cbn [ss_ema]; lra|].
    match goal with |- context [if ?b then StopAfter else Go] => destruct b eqn:Es end;
      (split; [discriminate|]); [|discriminate]. intros _. cbn [ss_x].
    apply andb_prop in Es. destruct Es as [_ Es]. cbn [leb Rops] in Es. apply Rleb_iff in Es.
    eapply Rle_trans; [|exact Es]. right. unfold length2. f_equal. apply sum_ext. intros i Hi.
    rewrite vfill_in by auto. reflexivity.
Qed.

(** If no mini-batch gradient ever meets the gradient tolerance, the averaged test does not
    fire: a converged answer then comes from the objective tolerance or the step tolerance. *)
Theorem C52_stochastic_converged : forall n c f sample seed x0 x fx k rng,
  sg_bias c = true -> 0 <= sg_beta c < 1 -> (Z.of_nat (sg_max_iters c) < 2 ^ 31)%Z ->
  (forall y r, sg_tol_ema c < length2 n (average_of (samples sample y (Nat.max (sg_batch c) 1) r))) ->
  sgd_minimize Rops n powerRZ c f sample seed x0 = Some (x, fx, k, true, rng) ->
  (f x <= sg_tol_f c /\ (sg_tol_f_guarded c = true -> 0 < sg_tol_f c)) \/
  exists j p fp r, k = (j + 1)%nat /\
    sgd_minimize Rops n powerRZ (sgd_set_max_iters j c) f sample seed x0 = Some (p, fp, j, false, r) /\
    length2 n (fun i => x i - p i) <= sg_tol_step c.
Proof.
  intros n c f sample seed x0 x fx k rng Hb Hbeta Hmax Hg H.
  pose proof (proj1 (proj2 (C52_stochastic_answer _ _ _ _ _ _ _ _ _ _ _ _ _ _ H))) as Hfx.
  unfold sgd_minimize in H.
  destruct (opt_loop _ _ _ _) as [[[s k'] ok']|] eqn:E; [|discriminate]. injection H as <- <- <- -> <-.
  apply opt_loop_true in E. destruct E as (j & s0 & v & Hj & E0 & Eb & Hk). cbn [Nat.add] in E0, Eb, Hk.
  assert (forall m s1 k1 b, (m <= j)%nat -> opt_loop (fun (k : nat) (s : sgd_state) =>
        let '(g, r) := batch_grad Rops n c sample (ss_x s) (ss_rng s) in
        Some (sgd_after_grad Rops n powerRZ c f k s g r)) m 0
       {| ss_x := x0; ss_v := vzero Rops; ss_f := f x0; ss_ema := zero Rops; ss_rng := rng_new seed |}
        = Some (s1, k1, b) -> b = false -> ema_floor c k1 s1) as Inv.
  { induction m as [|m IH]; intros s1 k1 b Hm E1 ->.
    - cbn in E1. injection E1 as <- <-. unfold ema_floor. cbn [ss_ema pow zero Rops]. lra.
    - pose proof (opt_loop_false _ _ _ _ _ _ E1) as Hk1. cbn in Hk1. subst k1.
      destruct (opt_loop_prefix _ (S m) 0 _ _ m E1 ltac:(lia)) as (s2 & E2).
      pose proof (IH _ _ _ ltac:(lia) E2 eq_refl) as I2. cbn [Nat.add] in I2.
      rewrite (opt_loop_snoc _ _ _ _ _ E2) in E1. cbn [Nat.add] in E1.
      destruct (batch_grad Rops n c sample (ss_x s2) (ss_rng s2)) as [g r] eqn:Eg.
      destruct (sgd_after_grad Rops n powerRZ c f m s2 g r) as [s3 v3] eqn:Ea.
      assert (s3 = s1) as -> by (destruct v3; congruence).
      apply (sgd_after_grad_R n) in Ea; auto; [|lia|].
      + destruct Ea as [Ea _]. replace (S m) with (m + 1)%nat by lia. exact Ea.
      + eapply Rlt_le_trans; [apply (Hg (ss_x s2) (ss_rng s2))|]. right. unfold length2. f_equal.
        apply sum_ext. intros i Hi. rewrite <- (C53_sequential_batch n) by auto. rewrite Eg. reflexivity. }
  pose proof (Inv j s0 j false (le_n _) E0 eq_refl) as I0.
  destruct (batch_grad Rops n c sample (ss_x s0) (ss_rng s0)) as [g r] eqn:Eg.
  injection Eb as Eb.
  apply (sgd_after_grad_R n) in Eb; auto; [|lia|].
  2:{ eapply Rlt_le_trans; [apply (Hg (ss_x s0) (ss_rng s0))|]. right. unfold length2. f_equal.
      apply sum_ext. intros i Hi. rewrite <- (C53_sequential_batch n) by auto. rewrite Eg. reflexivity. }
  destruct Eb as (_ & EB & EA). destruct Hk as [[-> ->]|[-> ->]].
  - left. destruct (EB eq_refl) as (A & B & C & D). rewrite <- Hfx, B. split; [exact C|exact D].
  - right. exists j, (ss_x s0), (ss_f s0), (ss_rng s0). split; [lia|]. split.
    + unfold sgd_minimize. cbn [sgd_set_max_iters sg_max_iters].
      erewrite opt_loop_ext; [rewrite E0; reflexivity|]. intros k1 s1. reflexivity.
    + apply EA. reflexivity.
Qed.

(** With the default settings the sequential optimiser tests [f(x) <= 0] as well: any
    objective that is not positive at the start is reported as converged at once, however
    large its gradient. *)
Theorem C52_default_tol_f_refuted :
  exists f : (nat -> R) -> R, exists sample, forall seed m, (0 < m)%nat -> exists x fx rng,
    (forall y r, length2 1 (fst (sample y r)) = 1000) /\
    sgd_minimize Rops 1 powerRZ (sgd_set_max_iters m (sgd_new Rops 0 0)) f sample seed (fun _ => 7)
      = Some (x, fx, 0%nat, true, rng).
Proof.
  exists (fun _ => -1), (fun _ r => ((fun _ => 1000), r)). intros seed [|m] Hm; [lia|].
  unfold sgd_minimize. cbn [sgd_set_max_iters sg_max_iters opt_loop].
  destruct (batch_grad _ _ _ _ _ _) as [g r].
  unfold sgd_after_grad. cbn [ss_f].
  replace (_ && (_ || _)) with true.
  - do 3 eexists. split; [|reflexivity]. intros y r0. cbn [fst]. unfold length2. cbn [sum].
    replace (0 + 1000 * 1000) with (1000 * 1000) by ring. apply sqrt_square. lra.
  - symmetry. apply andb_true_intro. split; [reflexivity|]. apply orb_true_iff. right.
    cbn. apply Rleb_iff. lra.
Qed.
