(** C50-C52: box constraints, descent and convergence of the optimisers. *)
From Coq Require Import ZArith QArith NArith Reals List Arith Lia Lra Psatz Bool Qreals.
From Verif Require Import Machine Scalar RSum LinModel LinProofs RandModel OptModel OptSpec OptProofs.
Import ListNotations.
Local Open Scope nat_scope.

Ltac q2r := unfold Q2R; cbn [Qnum Qden inject_Z].

Lemma norm2_ext {F} (o : ops F) n u v : (forall i, i < n -> u i = v i) -> norm2 o n u = norm2 o n v.
Proof. intros H. unfold norm2. f_equal. apply for_ext. intros i s Hi. rewrite H by lia. reflexivity. Qed.

Lemma norm2_R n v : norm2 Rops n v = length2 n v.
Proof. unfold norm2, length2. cbn [sqrtf Rops]. f_equal. rewrite (sum_loop Rops), left_sum_R. reflexivity. Qed.

Lemma Rltb_iff x y : Rltb x y = true <-> (x < y)%R.
Proof. unfold Rltb. destruct (Rlt_dec x y); split; intros; auto; discriminate. Qed.
Lemma Rltb_niff x y : Rltb x y = false <-> (y <= x)%R.
Proof. unfold Rltb. destruct (Rlt_dec x y); split; intros; try discriminate; auto; lra. Qed.
Lemma Rleb_iff x y : Rleb x y = true <-> (x <= y)%R.
Proof. unfold Rleb. destruct (Rle_dec x y); split; intros; auto; discriminate. Qed.
Lemma Rleb_niff x y : Rleb x y = false <-> (y < x)%R.
Proof. unfold Rleb. destruct (Rle_dec x y); split; intros; try discriminate; auto; lra. Qed.

(** ** C50 *)
Lemma minimize_run {F} (o : ops F) n c f g fuel x0 x fx k ok :
  minimize o n c f g fuel x0 = Some (x, fx, k, ok) ->
  exists s, opt_loop (fun _ => gd_body o n c f g fuel) (gd_max_iters c) 0
              (mkSt x0 (vzero o) (f x0)) = Some (s, k, ok) /\ st_x s = x /\ st_f s = fx.
Proof.
  unfold minimize. destruct (opt_loop _ _ _ _) as [[[s k'] ok']|]; [|discriminate].
  intros H. inversion H; subst. eauto.
Qed.

(** Any scalar type, rounding included: with bounds set, the returned point is inside the box
    as soon as the start was or at least one step was taken. *)
Theorem C50_bounds : forall F (o : ops F) n c f g fuel x0 x fx k ok,
  gd_has_bounds c = true -> valid_box o n (gd_min c) (gd_max c) ->
  minimize o n c f g fuel x0 = Some (x, fx, k, ok) ->
  in_box o n (gd_min c) (gd_max c) x0 \/ 1 <= k ->
  in_box o n (gd_min c) (gd_max c) x.
Proof.
  intros F o n c f g fuel x0 x fx k ok Hb Hv H Hs. apply minimize_run in H.
  destruct H as (s & E & <- & _).
  pose (P := fun (k : nat) s => in_box o n (gd_min c) (gd_max c) x0 \/ 1 <= k ->
                                in_box o n (gd_min c) (gd_max c) (st_x s)).
  assert (P k s) as H; [|exact (H Hs)].
  eapply (opt_loop_inv _ P); [| |exact E].
  - intros [A|A]; [exact A|lia].
  - intros k1 s1 s' v H1 Eb. apply gd_body_spec in Eb.
    destruct Eb as [(-> & -> & _)|(Hn & _ & _ & (d & st & Hx) & _)]; [exact H1|].
    intros _. rewrite Hx. unfold trial_point, gd_project. rewrite Hb. apply project_in_box. exact Hv.
Qed.

(** For real-number bounds this is min <= x <= max. *)
Theorem C50_bounds_real : forall n lo hi c f g fuel x0 x fx k ok,
  (forall i, (i < n)%nat -> (lo i <= hi i)%R) ->
  minimize Rops n (set_bounds lo hi c) f g fuel x0 = Some (x, fx, k, ok) ->
  (forall i, (i < n)%nat -> (lo i <= x0 i <= hi i)%R) \/ 1 <= k ->
  forall i, (i < n)%nat -> (lo i <= x i <= hi i)%R.
Proof.
  intros n lo hi c f g fuel x0 x fx k ok Hv H Hs i Hi.
  assert (valid_box Rops n lo hi) as V.
  { intros j Hj. specialize (Hv j Hj). cbn [Rops ltb]. rewrite !Rltb_niff. lra. }
  pose proof (C50_bounds R Rops n (set_bounds lo hi c) f g fuel x0 x fx k ok eq_refl V H) as B.
  cbn [set_bounds gd_min gd_max] in B. destruct B with (i := i) as (B1 & B2); auto.
  - destruct Hs as [Hs|Hs]; [left|right; exact Hs]. intros j Hj. cbn [Rops ltb].
    rewrite !Rltb_niff. destruct (Hs j Hj). split; auto.
  - cbn [Rops ltb] in B1, B2. rewrite Rltb_niff in B1, B2. split; auto.
Qed.

(** The box is not enforced on the starting point: a start outside it where the gradient is
    already small is returned unchanged and reported as converged. *)
Theorem C50_start_outside_refuted :
  exists lo hi : nat -> R, (forall i, lo i <= hi i)%R /\
  exists f g x0, forall fuel m, (0 < m)%nat -> exists x,
    minimize Rops 1 (set_max_iters m (set_bounds lo hi (gd_new Rops 0%R 0%R))) f g fuel x0
      = Some (x, 0%R, 0, true) /\
    ~ (lo 0%nat <= x 0%nat <= hi 0%nat)%R.
Proof.
  exists (fun _ => 0%R), (fun _ => 1%R). split; [intros; lra|].
  exists (fun _ => 0%R), (fun _ _ => 0%R), (fun _ => 5%R). intros fuel [|m] Hm; [lia|]. exists (fun _ => 5%R).
  split; [|lra]. unfold minimize. cbn [set_max_iters gd_max_iters opt_loop]. unfold gd_body at 1.
  replace (leb Rops (norm2 Rops 1 _) _) with true; [reflexivity|].
  symmetry. cbn [leb Rops]. apply Rleb_iff. rewrite norm2_R. unfold length2. cbn [sum set_max_iters set_bounds gd_new gd_tol_grad lit Rops].
  q2r. replace (0 + 0 * 0)%R with 0%R by ring. rewrite sqrt_0. lra.
Qed.

Lemma sgd_after_grad_box {F} (o : ops F) n powi c f k s g r s' v :
  sg_has_bounds c = true -> valid_box o n (sg_min c) (sg_max c) ->
  sgd_after_grad o n powi c f k s g r = (s', v) ->
  (v = StopBefore /\ ss_x s' = ss_x s) \/ (v <> StopBefore /\ in_box o n (sg_min c) (sg_max c) (ss_x s')).
Proof.
  intros Hb Hv. unfold sgd_after_grad.
  match goal with |- (if ?b then _ else _) = _ -> _ => destruct b end;
    intros H; inversion H; subst; clear H; cbn [ss_x]; [left; auto|right].
  split; [match goal with |- (if ?b then _ else _) <> _ => destruct b; discriminate end|].
  rewrite Hb. apply project_in_box. exact Hv.
Qed.

Theorem C50_bounds_stochastic : forall F (o : ops F) n powi c f sample seed x0 x fx k ok rng,
  sg_has_bounds c = true -> valid_box o n (sg_min c) (sg_max c) ->
  sgd_minimize o n powi c f sample seed x0 = Some (x, fx, k, ok, rng) ->
  in_box o n (sg_min c) (sg_max c) x0 \/ 1 <= k ->
  in_box o n (sg_min c) (sg_max c) x.
Proof.
  intros F o n powi c f sample seed x0 x fx k ok rng Hb Hv H Hs. unfold sgd_minimize in H.
  destruct (opt_loop _ _ _ _) as [[[s k'] ok']|] eqn:E; [|discriminate]. inversion H; subst; clear H.
  pose (P := fun (k : nat) s => in_box o n (sg_min c) (sg_max c) x0 \/ 1 <= k ->
                                in_box o n (sg_min c) (sg_max c) (ss_x s)).
  assert (P k s) as H; [|exact (H Hs)].
  eapply (opt_loop_inv _ P); [| |exact E].
  - intros [A|A]; [exact A|lia].
  - intros k1 s1 s' v H1 Eb. cbv beta in Eb. destruct (batch_grad o n c sample (ss_x s1) (ss_rng s1)) as [g r].
    inversion Eb as [Eb']. apply sgd_after_grad_box in Eb'; auto.
    destruct Eb' as [(-> & Ex)|(Hn & Ex)]; [unfold P; rewrite Ex; exact H1|]. intros _. exact Ex.
Qed.

Theorem C50_bounds_parallel : forall F (o : ops F) n powi c f sample threads seed sched x0 x fx k ok,
  sg_has_bounds c = true -> valid_box o n (sg_min c) (sg_max c) ->
  psgd_minimize o n powi c f sample threads seed sched x0 = Some (x, fx, k, ok) ->
  in_box o n (sg_min c) (sg_max c) x0 \/ 1 <= k ->
  in_box o n (sg_min c) (sg_max c) x.
Proof.
  intros F o n powi c f sample threads seed sched x0 x fx k ok Hb Hv H Hs. unfold psgd_minimize in H.
  destruct (opt_loop _ _ _ _) as [[[s k'] ok']|] eqn:E; [|discriminate]. inversion H; subst; clear H.
  pose (P := fun (k : nat) s => in_box o n (sg_min c) (sg_max c) x0 \/ 1 <= k ->
                                in_box o n (sg_min c) (sg_max c) (ss_x s)).
  assert (P k s) as H; [|exact (H Hs)].
  eapply (opt_loop_inv _ P); [| |exact E].
  - intros [A|A]; [exact A|lia].
  - intros k1 s1 s' v H1 Eb. cbv beta in Eb.
    destruct (parallel_grad o n c sample _ seed (sched k1) k1 (ss_x s1)) as [g|]; [|discriminate].
    inversion Eb as [Eb']. apply sgd_after_grad_box in Eb'; auto.
    destruct Eb' as [(-> & Ex)|(Hn & Ex)]; [unfold P; rewrite Ex; exact H1|]. intros _. exact Ex.
Qed.

Lemma gd_body_max {F} (o : ops F) n c j f g fuel s :
  gd_body o n (set_max_iters j c) f g fuel s = gd_body o n c f g fuel s.
Proof.
  assert (forall x fx d slope fuel step, line_search o n (set_max_iters j c) f x fx d slope fuel step
            = line_search o n c f x fx d slope fuel step) as H.
  { clear fuel. intros x fx d slope fuel.
    induction fuel as [|fuel IH]; intros step; cbn [line_search]; [reflexivity|]. rewrite IH. reflexivity. }
  unfold gd_body. change (gd_backtracking (set_max_iters j c)) with (gd_backtracking c).
  change (descent_pair o n (set_max_iters j c)) with (descent_pair o n c).
  destruct (gd_backtracking c); [|reflexivity].
  destruct (descent_pair o n c (g (st_x s)) (st_v s)) as [d slope]. rewrite H. reflexivity.
Qed.
Lemma minimize_max {F} (o : ops F) n c j f g fuel x0 :
  minimize o n (set_max_iters j c) f g fuel x0 =
  match opt_loop (fun _ => gd_body o n c f g fuel) j 0 (mkSt x0 (vzero o) (f x0)) with
  | Some (s, k, ok) => Some (st_x s, st_f s, k, ok)
  | None => None
  end.
Proof.
  unfold minimize. rewrite (opt_loop_ext _ (fun _ => gd_body o n c f g fuel))
    by (intros; apply gd_body_max). reflexivity.
Qed.

(** ** C52: what the answer means, for any scalar type *)
Theorem C52_converged : forall F (o : ops F) n c f g fuel x0 x fx k,
  minimize o n c f g fuel x0 = Some (x, fx, k, true) ->
  k <= gd_max_iters c /\ fx = f x /\
  ((k < gd_max_iters c /\ leb o (norm2 o n (g x)) (gd_tol_grad c) = true) \/
   (exists j p fp, k = j + 1 /\
      minimize o n (set_max_iters j c) f g fuel x0 = Some (p, fp, j, false) /\
      leb o (norm2 o n (fun i => sub o (x i) (p i))) (gd_tol_step c) = true)).
Proof.
  intros F o n c f g fuel x0 x fx k H. apply minimize_run in H. destruct H as (s & E & <- & <-).
  split; [apply opt_loop_le in E; lia|].
  split.
  { refine (opt_loop_inv _ (fun _ s => st_f s = f (st_x s)) _ _ _ _ _ _ _ _ E); [reflexivity|].
    intros k1 s1 s' v H1 Eb. apply gd_body_spec in Eb.
    destruct Eb as [(_ & -> & _)|(_ & _ & Hf & _)]; auto. }
  apply opt_loop_true in E. destruct E as (j & s0 & v & Hj & E0 & Eb & Hk). cbn [Nat.add] in *.
  apply gd_body_spec in Eb. destruct Hk as [[-> ->]|[-> ->]].
  - destruct Eb as [(_ & -> & Hg)|(Hn & _)]; [|congruence]. left. auto.
  - destruct Eb as [(A & _)|(_ & _ & _ & _ & Hv & Hst)]; [discriminate|]. right.
    exists j, (st_x s0), (st_f s0). split; [reflexivity|]. split.
    + rewrite minimize_max, E0. reflexivity.
    + rewrite <- (proj1 Hst eq_refl). f_equal. apply norm2_ext. intros i Hi. rewrite Hv, vfill_in by auto.
      reflexivity.
Qed.

(** Not converged: all iterations were used, and none of the points visited met the gradient
    tolerance. *)
Theorem C52_not_converged : forall F (o : ops F) n c f g fuel x0 x fx k,
  minimize o n c f g fuel x0 = Some (x, fx, k, false) ->
  k = gd_max_iters c /\ fx = f x /\
  forall j, j < gd_max_iters c -> exists p fp,
    minimize o n (set_max_iters j c) f g fuel x0 = Some (p, fp, j, false) /\
    leb o (norm2 o n (g p)) (gd_tol_grad c) = false.
Proof.
  intros F o n c f g fuel x0 x fx k H. apply minimize_run in H. destruct H as (s & E & <- & <-).
  pose proof (opt_loop_false _ _ _ _ _ _ E) as Hk. cbn in Hk. subst k.
  split; [reflexivity|]. split.
  { refine (opt_loop_inv _ (fun _ s => st_f s = f (st_x s)) _ _ _ _ _ _ _ _ E); [reflexivity|].
    intros k1 s1 s' v H1 Eb. apply gd_body_spec in Eb.
    destruct Eb as [(_ & -> & _)|(_ & _ & Hf & _)]; auto. }
  intros j Hj.
  destruct (opt_loop_prefix _ _ 0 _ _ j E ltac:(lia)) as (s0 & E0).
  destruct (opt_loop_prefix _ _ 0 _ _ (S j) E ltac:(lia)) as (s1 & E1).
  exists (st_x s0), (st_f s0). split.
  - rewrite minimize_max, E0. reflexivity.
  - rewrite (opt_loop_snoc _ _ _ _ _ E0) in E1. cbn [Nat.add] in E1.
    destruct (gd_body o n c f g fuel s0) as [[s2 v]|] eqn:Eb; [|discriminate].
    apply gd_body_spec in Eb. destruct Eb as [(-> & _)|(_ & Hg & _)]; [discriminate|exact Hg].
Qed.

(** ** C51: backtracking, exact arithmetic *)
Local Open Scope R_scope.

Lemma step_at_R (c : gd) s j : step_at Rops c s j = s * gd_tau c ^ j.
Proof. induction j as [|j IH]; cbn [step_at pow]; [ring|]. rewrite IH. cbn [mul Rops]. ring. Qed.

Lemma length2_sq n v : length2 n v * length2 n v = sum n (fun i => v i * v i).
Proof. unfold length2. apply sqrt_sqrt. apply sum_pos. intros. nra. Qed.
Lemma length2_pos n v : 0 <= length2 n v.
Proof. apply sqrt_pos. Qed.

Lemma slope_R n c grad v d slope : descent_pair Rops n c grad v = (d, slope) ->
  slope = sum n (fun i => grad i * d i) /\ (0 < length2 n grad -> slope < 0).
Proof.
  unfold descent_pair. rewrite norm2_R, (sum_loop Rops), left_sum_R. cbn [leb Rops zero].
  destruct (Rleb 0 _) eqn:E; intros H; injection H as <- <-.
  - cbn [mul neg Rops]. split.
    + rewrite (sum_ext n _ (fun i => - (grad i * grad i))).
      * rewrite sum_opp, <- length2_sq. ring.
      * intros i Hi. rewrite vfill_in by auto. cbn [neg Rops]. ring.
    + intros. nra.
  - split; [reflexivity|]. intros _. apply Rleb_niff in E. exact E.
Qed.

(** Where the line search puts the next iterate. *)
Definition moved (c : @gd R) (x d : nat -> R) (step : R) (i : nat) : R :=
  if gd_has_bounds c then clamp1 Rops (gd_min c i) (gd_max c i) (x i + step * d i)
  else x i + step * d i.
Lemma trial_R n c x d step i : (i < n)%nat -> trial_point Rops n c x d step i = moved c x d step i.
Proof.
  intros Hi. unfold trial_point, gd_project, moved. rewrite project_spec by auto.
  rewrite vfill_in by auto. reflexivity.
Qed.
Lemma trial_out n c x d step i : (n <= i)%nat -> trial_point Rops n c x d step i = x i.
Proof.
  intros Hi. unfold trial_point, gd_project. rewrite project_out by auto.
  rewrite vfill_spec. destruct (Nat.ltb_spec i n); [lia|reflexivity].
Qed.

Lemma gd_body_bt n c f g fuel s s' v : gd_backtracking c = true ->
  gd_body Rops n c f g fuel s = Some (s', v) -> v <> StopBefore ->
  gd_tol_grad c < length2 n (g (st_x s)) /\
  exists d slope, descent_pair Rops n c (g (st_x s)) (st_v s) = (d, slope) /\
    line_search Rops n c f (st_x s) (st_f s) d slope fuel (gd_lr c) = Some (st_x s', st_f s').
Proof.
  intros Hb. unfold gd_body. rewrite Hb, norm2_R. cbn [leb Rops].
  destruct (Rleb _ _) eqn:E; [intros H; inversion H; congruence|].
  destruct (descent_pair Rops n c (g (st_x s)) (st_v s)) as [d slope].
  destruct (line_search Rops n c f (st_x s) (st_f s) d slope fuel (gd_lr c)) as [[x' fx']|] eqn:El;
    [|discriminate].
  intros H _. inversion H; subst. cbn [st_x st_f]. apply Rleb_niff in E. split; [exact E|].
  exists d, slope. auto.
Qed.

(** Consecutive iterates: the step goes along a descent direction and either satisfies the
    Armijo condition - so the value does not increase - or was shrunk below 1e-20 / tau. *)
Theorem C51_armijo : forall n c f g fuel x0 j x fx x' fx' ok,
  gd_backtracking c = true -> 0 <= gd_tol_grad c -> 0 <= gd_lr c -> 0 <= gd_tau c -> 0 <= gd_c1 c ->
  minimize Rops n (set_max_iters j c) f g fuel x0 = Some (x, fx, j, false) ->
  minimize Rops n (set_max_iters (j + 1) c) f g fuel x0 = Some (x', fx', (j + 1)%nat, ok) ->
  fx = f x /\ fx' = f x' /\
  exists d m, let step := gd_lr c * gd_tau c ^ m in
    (forall i, (i < n)%nat -> x' i = moved c x d step i) /\
    sum n (fun i => g x i * d i) < 0 /\
    (fx' <= fx + gd_c1 c * step * sum n (fun i => g x i * d i) /\ fx' <= fx \/
     step * gd_tau c <= / 10 ^ 20).
Proof.
  intros n c f g fuel x0 j x fx x' fx' ok Hbt Htg Hlr Htau Hc1 H1 H2.
  assert (forall m k ok y fy, minimize Rops n (set_max_iters m c) f g fuel x0 = Some (y, fy, k, ok) -> fy = f y) as V.
  { intros m k [] y fy H; [apply C52_converged in H|apply C52_not_converged in H]; tauto. }
  split; [eapply V; eauto|]. split; [eapply V; eauto|].
  rewrite minimize_max in H1, H2.
  destruct (opt_loop _ j _ _) as [[[s k1] ok1]|] eqn:E1; [|discriminate].
  destruct (opt_loop _ (j + 1) _ _) as [[[s' k2] ok2]|] eqn:E2; [|discriminate].
  inversion H1; subst; clear H1. inversion H2; subst; clear H2.
  replace (j + 1)%nat with (S j) in E2 by lia.
  rewrite (opt_loop_snoc _ _ _ _ _ E1) in E2. cbn [Nat.add] in E2.
  destruct (gd_body Rops n c f g fuel s) as [[s2 v]|] eqn:Eb; [|discriminate].
  assert (v <> StopBefore /\ s2 = s') as [Hv ->].
  { destruct v; inversion E2; subst; [lia| |]; (split; [discriminate|reflexivity]). }
  destruct (gd_body_bt _ _ _ _ _ _ _ _ Hbt Eb Hv) as (Hg & d & slope & Hd & Hl).
  apply line_search_spec in Hl. destruct Hl as (m & _ & Hx & Hf & _ & Ha).
  destruct (slope_R _ _ _ _ _ _ Hd) as [Hs Hneg].
  rewrite step_at_R in *. exists d, m. cbv zeta.
  assert (slope < 0) as Hsl by (apply Hneg; lra). rewrite Hs in *.
  assert (0 <= gd_lr c * gd_tau c ^ m) as Hst by (apply Rmult_le_pos; [auto|apply pow_le; auto]).
  split; [|split; [exact Hsl|]].
  - intros i Hi. rewrite Hx. apply trial_R. exact Hi.
  - destruct Ha as [Ha|[_ Ha]]; unfold armijo_ok in *; cbn [leb Rops] in Ha; apply Rleb_iff in Ha.
    + left. rewrite Hf, Hx. cbn [add mul Rops] in Ha. split; [exact Ha|].
      assert (gd_c1 c * (gd_lr c * gd_tau c ^ m) * sum n (fun i => g (st_x s) i * d i) <= 0); [|lra].
      assert (0 <= gd_c1 c * (gd_lr c * gd_tau c ^ m)) by (apply Rmult_le_pos; auto). nra.
    + right. rewrite step_at_R in Ha. cbn [pow] in Ha. unfold tiny_step in Ha.
      cbn [lit Rops] in Ha. unfold Q2R in Ha. cbn [Qnum Qden] in Ha.
      replace (10 ^ 20) with 100000000000000000000 by ring. lra.
Qed.

(** The setter keeps the shrink factor strictly between 0 and 1 for every argument ... *)
Theorem C51_armijo_setter : forall c c1 tau, 0 < gd_tau (set_armijo Rops c1 tau c) < 1.
Proof.
  intros c c1 tau. cbn [set_armijo gd_tau leb Rops zero one lit].
  destruct (Rleb tau 0) eqn:E1; [q2r; lra|]. apply Rleb_niff in E1.
  destruct (Rleb 1 tau) eqn:E2; [q2r; lra|]. apply Rleb_niff in E2. lra.
Qed.

(** ... and then every run ends: one bound on the number of shrinks works for all objectives,
    gradients and starting points. *)
Theorem C51_line_search_terminates : forall n c, 0 < gd_tau c < 1 ->
  exists fuel0, forall fuel, (fuel0 <= fuel)%nat -> forall f g x0,
  exists r, minimize Rops n c f g fuel x0 = Some r.
Proof.
  intros n c Ht.
  assert (exists m, gd_lr c * gd_tau c ^ (S m) <= / 10 ^ 20) as (m & Hm).
  { destruct (Rle_lt_dec (gd_lr c) 0) as [L|L].
    - exists 0%nat. cbn [pow]. assert (0 < / 10 ^ 20) by (apply Rinv_0_lt_compat, pow_lt; lra). nra.
    - destruct (pow_lt_1_zero (gd_tau c) ltac:(rewrite Rabs_pos_eq; lra) (/ 10 ^ 20 / gd_lr c)) as (N & HN).
      { apply Rdiv_lt_0_compat; auto. apply Rinv_0_lt_compat, pow_lt. lra. }
      exists N. specialize (HN (S N) ltac:(lia)). rewrite Rabs_pos_eq in HN by (apply pow_le; lra).
      apply Rlt_le. apply (Rmult_lt_compat_l (gd_lr c)) in HN; auto.
      replace (gd_lr c * (/ 10 ^ 20 / gd_lr c)) with (/ 10 ^ 20) in HN by (field; lra). exact HN. }
  exists (S m). intros fuel Hf f g x0.
  assert (exists r, opt_loop (fun _ => gd_body Rops n c f g fuel) (gd_max_iters c) 0
            (mkSt x0 (vzero Rops) (f x0)) = Some r) as ([[s k] ok] & E).
  { apply (opt_loop_total _ (fun _ => True)); auto. intros _ s _. unfold gd_body.
    destruct (leb Rops _ _); [eauto|].
    destruct (gd_backtracking c); [|cbv zeta; eauto].
    destruct (descent_pair Rops n c (g (st_x s)) (st_v s)) as [d slope].
    destruct (line_search Rops n c f (st_x s) (st_f s) d slope fuel (gd_lr c)) as [[x' fx']|] eqn:El;
      [cbv zeta; eauto|].
    exfalso. destruct (line_search_none _ _ _ _ _ _ _ _ _ _ El m ltac:(lia)) as [_ A].
    rewrite step_at_R in A. cbn [leb Rops] in A. apply Rleb_niff in A. unfold tiny_step in A.
    cbn [lit Rops] in A. unfold Q2R in A. cbn [Qnum Qden] in A.
    replace (10 ^ 20) with 100000000000000000000 in Hm by ring. lra. }
  unfold minimize. rewrite E. eauto.
Qed.

(** The fields are public: a shrink factor of 1 written directly makes the search hang. *)
Theorem C51_public_tau_refuted : exists c f g x0, gd_tau c = 1 /\
  forall fuel, minimize Rops 1 c f g fuel x0 = None.
Proof.
  exists (mkGd 1 true (/ 10000) 1 0 (/ 1000000) (/ 1000000) 1 false (fun _ => 0) (fun _ => 0)),
    (fun x => Rabs (x 0%nat)), (fun _ _ => 1), (fun _ => 0).
  split; [reflexivity|]. intros fuel. unfold minimize. cbn [gd_max_iters opt_loop].
  unfold gd_body. cbn [st_x st_f st_v gd_tol_grad gd_backtracking]. rewrite norm2_R.
  assert (length2 1 (fun _ => 1) = 1) as L.
  { unfold length2. cbn [sum]. replace (0 + 1 * 1) with 1 by ring. apply sqrt_1. }
  rewrite L. cbn [leb Rops]. rewrite (proj2 (Rleb_niff 1 _)) by lra.
  destruct (descent_pair Rops 1 _ _ _) as [d slope] eqn:Ed.
  assert (d 0%nat = -1) as D0.
  { unfold descent_pair in Ed. destruct (leb Rops _ _); injection Ed as <- _; unfold direction; rewrite vfill_in by lia;
      cbn [neg add mul Rops gd_momentum]; unfold vzero; cbn [zero Rops]; ring. }
  destruct (slope_R _ _ _ _ _ _ Ed) as [_ Hs]. rewrite L in Hs. specialize (Hs ltac:(lra)).
  destruct (line_search _ _ _ _ _ _ _ _ _ _) as [[y fy]|] eqn:El; [exfalso|reflexivity].
  apply line_search_spec in El. destruct El as (j & _ & _ & _ & _ & Ha). unfold armijo_ok in Ha.
  rewrite !step_at_R in Ha. cbn [gd_tau gd_lr gd_c1 leb Rops] in Ha. rewrite !pow1 in Ha.
  destruct Ha as [Ha|[_ Ha]]; apply Rleb_iff in Ha.
  - rewrite trial_R in Ha by lia. unfold moved in Ha. cbn [gd_has_bounds] in Ha. rewrite D0 in Ha.
    cbn [add mul Rops] in Ha. rewrite Rabs_R0 in Ha.
    replace (Rabs (0 + 1 * 1 * -1)) with 1 in Ha; [lra|].
    replace (0 + 1 * 1 * -1) with (Ropp 1) by ring. rewrite Rabs_Ropp, Rabs_R1. reflexivity.
  - unfold tiny_step in Ha. cbn [lit Rops] in Ha. unfold Q2R in Ha. cbn [Qnum Qden] in Ha. lra.
Qed.

(** ** Smooth objectives: descent at every iteration, and convergence *)
Lemma direction_plain n c grad v i : gd_momentum c = 0 -> (i < n)%nat ->
  direction Rops n c grad v i = - grad i.
Proof.
  intros Hm Hi. unfold direction. rewrite vfill_in by auto. cbn [add mul neg Rops]. rewrite Hm. ring.
Qed.
Lemma descent_plain n c grad v d slope : gd_momentum c = 0 ->
  descent_pair Rops n c grad v = (d, slope) ->
  (forall i, (i < n)%nat -> d i = - grad i) /\ slope = - sum n (fun i => grad i * grad i).
Proof.
  intros Hm Hd.
  assert (forall i, (i < n)%nat -> d i = - grad i) as D.
  { intros i Hi. unfold descent_pair in Hd. destruct (leb Rops _ _); injection Hd as <- _.
    - rewrite vfill_in by auto. reflexivity.
    - apply direction_plain; auto. }
  split; [exact D|]. apply slope_R in Hd. destruct Hd as [-> _].
  rewrite <- sum_opp. apply sum_ext. intros i Hi. rewrite D by auto. ring.
Qed.

(* one iteration on a smooth objective *)
Lemma smooth_step n c f g L fuel s s' v :
  gd_backtracking c = true -> gd_has_bounds c = false -> gd_momentum c = 0 ->
  smooth n f g L -> 0 < L -> 0 < gd_lr c -> 0 < gd_tau c < 1 -> 0 <= gd_c1 c < 1 ->
  0 <= gd_tol_grad c -> / 10 ^ 20 < gd_tau c * (2 * (1 - gd_c1 c) / L) ->
  st_f s = f (st_x s) ->
  gd_body Rops n c f g fuel s = Some (s', v) -> v <> StopBefore ->
  st_f s' = f (st_x s') /\
  st_f s' <= st_f s - gd_c1 c * Rmin (gd_lr c) (gd_tau c * (2 * (1 - gd_c1 c) / L))
                       * (gd_tol_grad c * gd_tol_grad c).
Proof.
  intros Hb Hbd Hm Hsm HL Hlr Ht Hc Htg Htiny Hf Eb Hv.
  destruct (gd_body_bt _ _ _ _ _ _ _ _ Hb Eb Hv) as (Hg & d & slope & Hd & Hl).
  destruct (descent_plain _ _ _ _ _ _ Hm Hd) as [D Hs].
  set (S0 := 2 * (1 - gd_c1 c) / L) in *. set (G := sum n (fun i => g (st_x s) i * g (st_x s) i)) in *.
  assert (gd_tol_grad c * gd_tol_grad c <= G) as HG.
  { unfold G. rewrite <- length2_sq. nra. }
  assert (0 < G) as HG0. { unfold G. rewrite <- length2_sq. nra. }
  assert (0 < S0) as HS0. { unfold S0. apply Rdiv_lt_0_compat; lra. }
  (* short enough steps are accepted *)
  assert (forall t, 0 < t <= S0 ->
            armijo_ok Rops n c f (st_x s) (st_f s) d slope t = true) as Acc.
  { intros t Ht0. unfold armijo_ok. cbn [leb Rops add mul]. apply Rleb_iff. rewrite Hf.
    pose proof (Hsm (st_x s) (trial_point Rops n c (st_x s) d t)) as Q.
    assert (forall i, (i < n)%nat -> trial_point Rops n c (st_x s) d t i - st_x s i = - t * g (st_x s) i) as T.
    { intros i Hi. rewrite trial_R by auto. unfold moved. rewrite Hbd, D by auto. ring. }
    rewrite (sum_ext n (fun i => g (st_x s) i * _) (fun i => - t * (g (st_x s) i * g (st_x s) i))) in Q
      by (intros i Hi; rewrite T by auto; ring).
    rewrite (sum_ext n (fun i => (trial_point Rops n c (st_x s) d t i - st_x s i) * _)
               (fun i => (t * t) * (g (st_x s) i * g (st_x s) i))) in Q
      by (intros i Hi; rewrite T by auto; ring).
    rewrite !sum_scal in Q. fold G in Q. specialize (Q (fun i Hi => trial_out n c _ d t i Hi)).
    rewrite Hs.
    assert (L * t <= 2 * (1 - gd_c1 c)).
    { apply Rle_trans with (L * S0); [apply Rmult_le_compat_l; lra|]. unfold S0. right. field. lra. }
    assert (0 <= t * G * (1 - gd_c1 c - L * t / 2)); [|nra].
    apply Rmult_le_pos; [apply Rmult_le_pos; lra|lra]. }
  apply line_search_spec in Hl. destruct Hl as (j & _ & Hx & Hfx & Hbef & Hacc).
  assert (forall i, 0 < step_at Rops c (gd_lr c) i) as Pos.
  { intros i. rewrite step_at_R. apply Rmult_lt_0_compat; [auto|apply pow_lt; lra]. }
  assert (forall i, armijo_ok Rops n c f (st_x s) (st_f s) d slope (step_at Rops c (gd_lr c) i) = false ->
            gd_tau c * S0 < step_at Rops c (gd_lr c) (S i)) as Big.
  { intros i Hi. cbn [step_at mul Rops]. destruct (Rle_lt_dec (step_at Rops c (gd_lr c) i) S0) as [Le|Gt].
    - rewrite Acc in Hi by (split; auto). discriminate.
    - rewrite Rmult_comm. apply Rmult_lt_compat_r; lra. }
  destruct Hacc as [Hacc|[Hrej Hend]].
  2:{ exfalso. apply Big in Hrej. cbn [leb Rops] in Hend. apply Rleb_iff in Hend. unfold tiny_step in Hend.
      cbn [lit Rops] in Hend. unfold Q2R in Hend. cbn [Qnum Qden] in Hend.
      replace (10 ^ 20) with 100000000000000000000 in Htiny by ring. lra. }
  split; [congruence|].
  assert (Rmin (gd_lr c) (gd_tau c * S0) <= step_at Rops c (gd_lr c) j) as Hmin.
  { destruct j as [|j]; [cbn [step_at]; apply Rmin_l|].
    apply Rle_trans with (gd_tau c * S0); [apply Rmin_r|]. apply Rlt_le, Big. apply Hbef. lia. }
  unfold armijo_ok in Hacc. cbn [leb Rops add mul] in Hacc. apply Rleb_iff in Hacc.
  rewrite <- Hx, <- Hfx, Hs in Hacc.
  assert (gd_c1 c * Rmin (gd_lr c) (gd_tau c * S0) * (gd_tol_grad c * gd_tol_grad c)
          <= gd_c1 c * step_at Rops c (gd_lr c) j * G); [|lra].
  assert (0 <= Rmin (gd_lr c) (gd_tau c * S0)).
  { apply Rmin_glb; [lra|]. apply Rmult_le_pos; lra. }
  apply Rmult_le_compat; [apply Rmult_le_pos; lra|nra| |exact HG].
  apply Rmult_le_compat_l; lra.
Qed.

(** Full descent for objectives with a Lipschitz gradient, no momentum and no box: the value
    returned is never above the value at the start. *)
Theorem C51_smooth_never_increases : forall n c f g L fuel x0 x fx k ok,
  gd_backtracking c = true -> gd_has_bounds c = false -> gd_momentum c = 0 ->
  smooth n f g L -> 0 < L -> 0 < gd_lr c -> 0 < gd_tau c < 1 -> 0 <= gd_c1 c < 1 ->
  0 <= gd_tol_grad c -> / 10 ^ 20 < gd_tau c * (2 * (1 - gd_c1 c) / L) ->
  minimize Rops n c f g fuel x0 = Some (x, fx, k, ok) ->
  fx = f x /\ f x <= f x0.
Proof.
  intros n c f g L fuel x0 x fx k ok Hb Hbd Hm Hsm HL Hlr Ht Hc Htg Htiny H.
  apply minimize_run in H. destruct H as (s & E & <- & <-).
  assert (st_f s = f (st_x s) /\ st_f s <= f x0) as [A B]; [|split; [auto|rewrite <- A; auto]].
  refine (opt_loop_inv _ (fun _ s => st_f s = f (st_x s) /\ st_f s <= f x0) _ _ _ _ _ _ _ _ E).
  - cbn. lra.
  - intros k1 s1 s' v [A B] Eb.
    assert (v = StopBefore \/ v <> StopBefore) as [->|Hv] by (destruct v; [auto|right; discriminate..]).
    + apply gd_body_spec in Eb. destruct Eb as [(_ & -> & _)|(Q & _)]; [auto|congruence].
    + destruct (smooth_step n c f g L fuel s1 s' v) as [A' B']; auto. split; [exact A'|].
      assert (0 <= gd_c1 c * Rmin (gd_lr c) (gd_tau c * (2 * (1 - gd_c1 c) / L))
                       * (gd_tol_grad c * gd_tol_grad c)); [|lra].
      apply Rmult_le_pos; [apply Rmult_le_pos; [lra|]|nra].
      apply Rmin_glb; [lra|]. apply Rmult_le_pos; [lra|]. apply Rlt_le, Rdiv_lt_0_compat; lra.
Qed.

(** Convergence: bounded below, a positive gradient tolerance and enough iterations make the
    run report success, and the gradient at the answer or the last step is within tolerance
    (C52_converged). *)
Theorem C52_smooth_converges : forall n c f g L fmin fuel x0 x fx k ok,
  gd_backtracking c = true -> gd_has_bounds c = false -> gd_momentum c = 0 ->
  smooth n f g L -> 0 < L -> 0 < gd_lr c -> 0 < gd_tau c < 1 -> 0 < gd_c1 c < 1 ->
  0 < gd_tol_grad c -> / 10 ^ 20 < gd_tau c * (2 * (1 - gd_c1 c) / L) ->
  (forall y, fmin <= f y) ->
  f x0 - fmin < INR (gd_max_iters c) * (gd_c1 c * Rmin (gd_lr c) (gd_tau c * (2 * (1 - gd_c1 c) / L))
                       * (gd_tol_grad c * gd_tol_grad c)) ->
  minimize Rops n c f g fuel x0 = Some (x, fx, k, ok) ->
  ok = true.
Proof.
  intros n c f g L fmin fuel x0 x fx k ok Hb Hbd Hm Hsm HL Hlr Ht Hc Htg Htiny Hmin Hit H.
  apply minimize_run in H. destruct H as (s & E & _).
  set (delta := gd_c1 c * Rmin (gd_lr c) (gd_tau c * (2 * (1 - gd_c1 c) / L))
                       * (gd_tol_grad c * gd_tol_grad c)) in *.
  assert (st_f s = f (st_x s) /\ st_f s <= f x0 - INR k * delta) as [A B].
  { refine (opt_loop_inv _ (fun k s => st_f s = f (st_x s) /\ st_f s <= f x0 - INR k * delta) _ _ _ _ _ _ _ _ E).
    - cbn. lra.
    - intros k1 s1 s' v [A B] Eb.
      assert (v = StopBefore \/ v <> StopBefore) as [->|Hv] by (destruct v; [auto|right; discriminate..]).
      + apply gd_body_spec in Eb. destruct Eb as [(_ & -> & _)|(Q & _)]; [auto|congruence].
      + destruct (smooth_step n c f g L fuel s1 s' v) as [A' B']; auto; try lra. fold delta in B'.
        split; [exact A'|].
        assert ((match v with StopBefore => k1 | _ => (k1 + 1)%nat end) = (k1 + 1)%nat) as ->
          by (destruct v; congruence).
        rewrite plus_INR. cbn [INR]. lra. }
  destruct ok; [reflexivity|]. apply opt_loop_false in E. cbn in E. subst k.
  specialize (Hmin (st_x s)). lra.
Qed.

(* the hypotheses are met by a quadratic bowl with the default settings and a minimiser *)
Lemma bowl_smooth n : smooth n (fun x => sum n (fun i => x i * x i)) (fun x i => 2 * x i) 2.
Proof.
  intros x y _. right. rewrite <- sum_scal, <- !sum_plus. apply sum_ext. intros i Hi. field.
Qed.
Example C51_C52_nontrivial :
  let c := set_max_iters 20 (set_tolerances Rops 1 0 (set_learning_rate Rops (1 / 4)
             (set_armijo Rops (1 / 2) (1 / 2) (gd_new Rops 0 0)))) in
  let f := fun x : nat -> R => sum 2 (fun i => x i * x i) in
  smooth 2 f (fun x i => 2 * x i) 2 /\ 0 < gd_lr c /\ 0 < gd_tau c < 1 /\ 0 < gd_c1 c < 1 /\
  0 < gd_tol_grad c /\ / 10 ^ 20 < gd_tau c * (2 * (1 - gd_c1 c) / 2) /\ (forall y, 0 <= f y) /\
  f (fun _ => 1) - 0 < INR (gd_max_iters c) *
     (gd_c1 c * Rmin (gd_lr c) (gd_tau c * (2 * (1 - gd_c1 c) / 2)) * (gd_tol_grad c * gd_tol_grad c)).
Proof.
  cbv zeta. split; [apply bowl_smooth|].
  cbn [set_max_iters set_tolerances set_learning_rate set_armijo gd_new gd_lr gd_tau gd_c1 gd_tol_grad
       gd_max_iters lit leb Rops zero one].
  rewrite (proj2 (Rleb_niff (1 / 4) 0)), (proj2 (Rleb_niff (1 / 2) 0)),
    (proj2 (Rleb_niff 1 (1 / 2))), (proj2 (Rleb_niff 1 0)) by lra.
  replace (1 / 2 * (2 * (1 - 1 / 2) / 2)) with (1 / 4) by field.
  rewrite Rmin_left by lra.
  repeat split; try lra.
  - intros y. apply sum_pos. intros. nra.
  - cbn [sum INR]. lra.
Qed.

(** Without that, the value can rise: on a steep but perfectly smooth bowl the default search
    gives up at a step of about 1e-20, which is still far too long, and moves there anyway. *)
Theorem C51_give_up_refuted :
  let f := fun x : nat -> R => 10 ^ 30 / 2 * (x 0%nat * x 0%nat) in
  let g := fun (x : nat -> R) (_ : nat) => 10 ^ 30 * x 0%nat in
  smooth 1 f g (10 ^ 30) /\
  exists fuel x fx ok,
    minimize Rops 1 (set_max_iters 1 (gd_new Rops 0 0)) f g fuel (fun _ => 1) = Some (x, fx, 1%nat, ok) /\
    fx = f x /\ f (fun _ => 1) < fx.
Proof.
  cbv zeta. split.
  { intros x y _. cbn [sum]. right. field. }
  set (f := fun x : nat -> R => 10 ^ 30 / 2 * (x 0%nat * x 0%nat)).
  set (g := fun (x : nat -> R) (_ : nat) => 10 ^ 30 * x 0%nat).
  set (c := set_max_iters 1 (gd_new Rops 0 0)).
  assert (gd_tau c = 1 / 2) as Ht by (cbn; q2r; lra).
  assert (gd_lr c = 1 / 100) as Hlr by (cbn; q2r; lra).
  destruct (C51_line_search_terminates 1 c ltac:(lra)) as (fuel & Hfu).
  destruct (Hfu fuel (le_n _) f g (fun _ => 1)) as [[[[x fx] k] ok] E]. clear Hfu.
  exists fuel, x, fx, ok.
  assert (length2 1 (g (fun _ => 1)) = 10 ^ 30) as Hg.
  { unfold length2, g. cbn [sum]. replace (0 + 10 ^ 30 * 1 * (10 ^ 30 * 1)) with (10 ^ 30 * 10 ^ 30) by ring.
    apply sqrt_square. apply pow_le. lra. }
  assert (1 < 10 ^ 30) as Hbig. { apply Rlt_pow_R1; [lra|lia]. }
  assert (fx = f x) as V. { destruct ok; [apply C52_converged in E|apply C52_not_converged in E]; tauto. }
  pose proof E as E0. apply minimize_run in E. destruct E as (s & E & <- & <-).
  change (gd_max_iters c) with 1%nat in E. cbn [opt_loop] in E.
  destruct (gd_body Rops 1 c f g fuel _) as [[s1 v]|] eqn:Eb; [|discriminate].
  assert (v <> StopBefore) as Hv.
  { intros ->. apply gd_body_spec in Eb. destruct Eb as [(_ & _ & Q)|(Q & _)]; [|congruence].
    rewrite norm2_R in Q. cbn [leb Rops] in Q. apply Rleb_iff in Q. cbn [st_x] in Q. rewrite Hg in Q.
    cbn in Q. unfold Q2R in Q. cbn [Qnum Qden] in Q. lra. }
  assert (s1 = s /\ k = 1%nat) as [-> ->] by (destruct v; inversion E; subst; try congruence; auto).
  clear E. split; [exact E0|split; [exact V|]].
  destruct (gd_body_bt 1 c f g fuel _ _ _ eq_refl Eb Hv) as (_ & d & slope & Hd & Hl). cbn [st_x st_v st_f] in Hd, Hl.
  destruct (descent_plain 1 c _ _ _ _ eq_refl Hd) as [D _]. specialize (D 0%nat ltac:(lia)).
  apply line_search_spec in Hl. destruct Hl as (j & _ & Hx & _ & Hbef & _).
  set (t := step_at Rops c (gd_lr c) j) in *.
  assert (/ 10 ^ 20 < t) as Hst.
  { unfold t. destruct j as [|j]; [cbn [step_at]; rewrite Hlr; lra|].
    destruct (Hbef j ltac:(lia)) as [_ A]. cbn [leb Rops] in A. apply Rleb_niff in A. unfold tiny_step in A.
    cbn [lit Rops] in A. unfold Q2R in A. cbn [Qnum Qden] in A. lra. }
  rewrite V, Hx. unfold f. rewrite trial_R by lia. unfold moved. change (gd_has_bounds c) with false.
  cbv iota. rewrite D. unfold g.
  assert (2 < t * 10 ^ 30) as Ht2.
  { apply Rlt_trans with (/ 10 ^ 20 * 10 ^ 30); [lra|]. apply Rmult_lt_compat_r; [apply pow_lt; lra|exact Hst]. }
  set (B := 10 ^ 30) in *. set (w := t * B) in *.
  replace (1 + t * - (B * 1)) with (1 - w) by (unfold w; ring).
  apply Rmult_lt_compat_l; [lra|]. nra.
Qed.
