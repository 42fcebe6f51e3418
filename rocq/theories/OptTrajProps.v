(** C109: which points stochastic descent visits: the heavy-ball iteration with learning rate lr0 / (1 + decay k). *)
From Coq Require Import ZArith QArith NArith Reals List Arith Lia Lra Bool Qreals.
From Verif Require Import Machine Scalar RSum LinModel LinProofs RandModel OptModel OptSpec OptProofs OptProps OptStochProps.
Import ListNotations.
Local Open Scope nat_scope.

(** * Specification *)
(** the nearest point of an interval *)
Definition into (bounded : bool) (lo hi x : R) : R := if bounded then (if Rlt_dec x lo then lo else if Rlt_dec hi x then hi else x) else x.
(** the heavy-ball method: X are the points, G the gradients at them; the momentum term is the last displacement *)
Definition heavy_ball (n : nat) (c : sgd) (X G : nat -> nat -> R) (steps : nat) : Prop :=
  forall k i, k < steps -> i < n -> X (S k) i =
    into (sg_has_bounds c) (sg_min c i) (sg_max c i)
      (X k i + sg_lr0 c / (1 + sg_decay c * INR k) * (- G k i + sg_momentum c * (X k i - X (Nat.pred k) i)))%R.
(** the generator after [count] samples *)
Fixpoint rng_after {V} (sample : V -> N -> V * N) (x : V) (count : nat) (rng : N) : N :=
  match count with 0 => rng | S c => rng_after sample x c (snd (sample x rng)) end.

(** * Proof *)
Lemma opt_loop_go {T} (body : nat -> T -> option (T * verdict)) (P : nat -> T -> Prop) m : forall k s r k',
  P k s -> (forall k s s', P k s -> body k s = Some (s', Go) -> P (k + 1) s') -> opt_loop body m k s = Some (r, k', false) -> P k' r.
Proof.
  induction m as [|m IH]; intros k s r k' H0 Hs H; cbn in H; [inversion H; subst; exact H0|].
  destruct (body k s) as [[s1 []]|] eqn:E; try discriminate. exact (IH _ _ _ _ (Hs _ _ _ H0 E) Hs H).
Qed.
Lemma clamp_into (b : bool) (lo hi x : R) : (if b then clamp1 Rops lo hi x else x) = into b lo hi x.
Proof.
  unfold into, clamp1. destruct b; [|reflexivity]. cbn [ltb Rops]. unfold Rltb. destruct (Rlt_dec x lo); [reflexivity|]. destruct (Rlt_dec hi x); reflexivity.
Qed.
Lemma after_grad_step n powi c f k s g r s' v : sgd_after_grad Rops n powi c f k s g r = (s', v) ->
  (v = StopBefore /\ ss_x s' = ss_x s) \/
  (v <> StopBefore /\ ss_rng s' = r /\ forall i, i < n ->
     ss_x s' i = into (sg_has_bounds c) (sg_min c i) (sg_max c i) (ss_x s i + sg_lr0 c / (1 + sg_decay c * INR k) * (- g i + sg_momentum c * ss_v s i))%R /\
     ss_v s' i = (ss_x s' i - ss_x s i)%R).
Proof.
  unfold sgd_after_grad. match goal with |- (if ?b then _ else _) = _ -> _ => destruct b end; intros H; injection H as <- <-; [left; cbn; auto|]. right. cbn [ss_x ss_v ss_rng].
  split; [destruct (_ && _); discriminate|]. split; [reflexivity|]. intros i Hi. split.
  - rewrite project_spec by exact Hi. rewrite vfill_in by exact Hi. unfold lr_at. cbn [add mul div neg one Rops]. change (Q2R (inject_Z (Z.of_nat k))) with (OptModel.of_nat Rops k). rewrite of_nat_R. apply clamp_into.
  - rewrite vfill_in by exact Hi. reflexivity.
Qed.
(** any way of computing gradients *)
Section Run.
Context (n : nat) (powi : R -> Z -> R) (c : sgd (F := R)) (f : (nat -> R) -> R) (grad : nat -> (nat -> R) -> N -> option ((nat -> R) * N)).
Let body k s := match grad k (ss_x s) (ss_rng s) with None => None | Some (g, r) => Some (sgd_after_grad Rops n powi c f k s g r) end.
Definition visited (x0 : nat -> R) (seed : N) (X G : nat -> nat -> R) (Rn : nat -> N) (k : nat) : Prop :=
  X 0 = x0 /\ Rn 0 = seed /\ heavy_ball n c X G k /\ forall j, j < k -> grad j (X j) (Rn j) = Some (G j, Rn (S j)).
Let P x0 seed k (s : sgd_state) := exists X G Rn, visited x0 seed X G Rn k /\ X k = ss_x s /\ Rn k = ss_rng s /\ forall i, i < n -> ss_v s i = (X k i - X (Nat.pred k) i)%R.
Lemma extend {A} (Y : nat -> A) k y : exists Y', (forall j, j <= k -> Y' j = Y j) /\ Y' (S k) = y.
Proof.
  exists (fun j => if j <=? k then Y j else y). split; [intros j Hj; apply Nat.leb_le in Hj; rewrite Hj; reflexivity|].
  destruct (S k <=? k) eqn:E; [apply Nat.leb_le in E; lia|reflexivity].
Qed.
Lemma run_step x0 seed k s s' v : P x0 seed k s -> body k s = Some (s', v) -> v <> StopBefore -> P x0 seed (k + 1) s'.
Proof.
  intros (X & G & Rn & (E0 & R0 & HB & HG) & Ex & Er & Ev) Hb Hv. unfold body in Hb. destruct (grad k (ss_x s) (ss_rng s)) as [[g r]|] eqn:Eg; [|discriminate]. injection Hb as Hb.
  destruct (after_grad_step _ _ _ _ _ _ _ _ _ _ Hb) as [[-> _]|(_ & Er' & Hs)]; [contradiction|].
  destruct (extend X k (ss_x s')) as (X' & XE & XS). destruct (extend Rn k r) as (R' & RE & RS).
  set (G' := fun j => if j <? k then G j else g).
  assert (GE : forall j, j < k -> G' j = G j) by (intros j Hj; unfold G'; apply Nat.ltb_lt in Hj; rewrite Hj; reflexivity). assert (GS : G' k = g) by (unfold G'; rewrite Nat.ltb_irrefl; reflexivity).
  exists X', G', R'. replace (k + 1) with (S k) by lia. split; [split; [rewrite XE by lia; exact E0|]; split; [rewrite RE by lia; exact R0|]; split|].
  - intros j i Hj Hi. destruct (Nat.eq_dec j k) as [->|Hjk].
    + rewrite XS, GS, (XE k), (XE (Nat.pred k)) by lia. rewrite (proj1 (Hs i Hi)), (Ev i Hi), Ex. reflexivity.
    + rewrite (XE (S j)), (XE j), (XE (Nat.pred j)), (GE j) by lia. apply HB; [lia|exact Hi].
  - intros j Hj. destruct (Nat.eq_dec j k) as [->|Hjk].
    + rewrite (XE k), (RE k), GS, RS, Ex, Er by lia. exact Eg.
    + rewrite (XE j), (RE j), (RE (S j)), (GE j) by lia. apply HG. lia.
  - split; [exact XS|]. split; [rewrite RS; symmetry; exact Er'|]. intros i Hi. cbn [Nat.pred]. rewrite XS, (XE k) by lia. rewrite (proj2 (Hs i Hi)), Ex. reflexivity.
Qed.
Lemma run_visits x0 seed m s k ok : opt_loop body m 0 (mkSs x0 (vzero Rops) (f x0) (zero Rops) seed) = Some (s, k, ok) ->
  exists X G Rn, visited x0 seed X G Rn k /\ X k = ss_x s.
Proof.
  intros H. assert (P0 : P x0 seed 0 (mkSs x0 (vzero Rops) (f x0) (zero Rops) seed)).
  { exists (fun _ => x0), (fun _ _ => 0%R), (fun _ => seed). repeat split; [intros j i Hj; lia|intros j Hj; lia|]. intros i Hi. cbn. lra. }
  assert (Go : forall j s0, opt_loop body j 0 (mkSs x0 (vzero Rops) (f x0) (zero Rops) seed) = Some (s0, j, false) -> P x0 seed j s0).
  { intros j s0 Hj. refine (opt_loop_go body (P x0 seed) j 0 _ s0 j P0 _ Hj). intros k1 s1 s2 H1 H2. eapply run_step; [exact H1|exact H2|discriminate]. }
  destruct ok.
  - apply opt_loop_true in H. destruct H as (j & s0 & v & Hj & H0 & Hb & Hk). cbn [Nat.add] in *. specialize (Go j s0 H0).
    destruct Hk as [(-> & ->)|(-> & ->)].
    + destruct Go as (X & G & Rn & V & Ex & _). exists X, G, Rn. split; [exact V|]. rewrite Ex. unfold body in Hb. destruct (grad j (ss_x s0) (ss_rng s0)) as [[g r]|]; [|discriminate]. injection Hb as Hb.
      destruct (after_grad_step _ _ _ _ _ _ _ _ _ _ Hb) as [(_ & E)|(E & _)]; [symmetry; exact E|contradiction].
    + destruct (run_step _ _ _ _ _ _ Go Hb ltac:(discriminate)) as (X & G & Rn & V & Ex & _). exists X, G, Rn. split; [exact V|exact Ex].
  - pose proof (opt_loop_false _ _ _ _ _ _ H) as ->. destruct (Go m s H) as (X & G & Rn & V & Ex & _). exists X, G, Rn. split; [exact V|exact Ex].
Qed.
End Run.

Lemma rng_after_batch n c sample x rng : snd (batch_grad Rops n c sample x rng) = rng_after sample x (Nat.max (sg_batch c) 1) rng.
Proof.
  unfold batch_grad. destruct (accumulate Rops n sample x (Nat.max (sg_batch c) 1) rng) as [g r] eqn:E. cbn [snd]. change r with (snd (g, r)). rewrite <- E. clear g r E. unfold accumulate, for_. rewrite Nat.sub_0_r.
  generalize (Nat.max (sg_batch c) 1). intros m. generalize 0 at 1. generalize (vzero Rops). revert rng. induction m as [|m IH]; intros rng a k; [reflexivity|]. cbn [seq fold_left rng_after]. cbn [fst snd]. destruct (sample x rng) as [gi r]. cbn [snd]. apply IH.
Qed.

(** the sequential optimiser: every point visited, whatever the sampler, the bounds and the reason for stopping *)
Theorem C109_trajectory : forall n powi c f sample seed x0 x fx k ok rng,
  sgd_minimize Rops n powi c f sample seed x0 = Some (x, fx, k, ok, rng) ->
  exists (X G : nat -> nat -> R) (Rn : nat -> N),
    X 0 = x0 /\ X k = x /\ heavy_ball n c X G k /\ Rn 0 = rng_new seed /\
    forall j, j < k -> Rn (S j) = rng_after sample (X j) (Nat.max (sg_batch c) 1) (Rn j) /\
      forall i, i < n -> G j i = average_of (samples sample (X j) (Nat.max (sg_batch c) 1) (Rn j)) i.
Proof.
  intros n powi c f sample seed x0 x fx k ok rng H. unfold sgd_minimize in H.
  destruct (opt_loop _ _ _ _) as [[[s k'] ok']|] eqn:E; [|discriminate]. injection H as <- <- <- <- <-.
  assert (E' : opt_loop (fun k s => match Some (batch_grad Rops n c sample (ss_x s) (ss_rng s)) with None => None | Some (g, r) => Some (sgd_after_grad Rops n powi c f k s g r) end)
     (sg_max_iters c) 0 (mkSs x0 (vzero Rops) (f x0) (zero Rops) (rng_new seed)) = Some (s, k', ok')).
  { rewrite <- E. apply opt_loop_ext. intros k s1. destruct (batch_grad Rops n c sample (ss_x s1) (ss_rng s1)). reflexivity. }
  destruct (run_visits n powi c f (fun _ x r => Some (batch_grad Rops n c sample x r)) x0 (rng_new seed) _ _ _ _ E') as (X & G & Rn & (E0 & R0 & HB & HG) & Ex).
  exists X, G, Rn. repeat (split; [assumption|]). intros j Hj. specialize (HG j Hj). injection HG as HG. split.
  - rewrite <- (rng_after_batch n), HG. reflexivity.
  - intros i Hi. rewrite <- (C53_sequential_batch n c sample (X j) (Rn j) i Hi), HG. reflexivity.
Qed.

(** the parallel one: the same iteration with the gradients of C53 *)
Theorem C109_parallel : forall n powi c f sample threads seed sched x0 x fx k ok,
  psgd_minimize Rops n powi c f sample threads seed sched x0 = Some (x, fx, k, ok) ->
  exists (X G : nat -> nat -> R), X 0 = x0 /\ X k = x /\ heavy_ball n c X G k /\
    forall j, j < k -> parallel_grad Rops n c sample (Nat.max threads 1) seed (sched j) j (X j) = Some (G j).
Proof.
  intros n powi c f sample threads seed sched x0 x fx k ok H. unfold psgd_minimize in H.
  destruct (opt_loop _ _ _ _) as [[[s k'] ok']|] eqn:E; [|discriminate]. injection H as <- <- <- <-.
  set (gr := fun k x (r : N) => match parallel_grad Rops n c sample (Nat.max threads 1) seed (sched k) k x with None => None | Some g => Some (g, r) end).
  assert (E' : opt_loop (fun k s => match gr k (ss_x s) (ss_rng s) with None => None | Some (g, r) => Some (sgd_after_grad Rops n powi c f k s g r) end)
     (sg_max_iters c) 0 (mkSs x0 (vzero Rops) (f x0) (zero Rops) 0%N) = Some (s, k', ok')).
  { rewrite <- E. apply opt_loop_ext. intros k s1. unfold gr. destruct (parallel_grad _ _ _ _ _ _ _ _ _); reflexivity. }
  destruct (run_visits n powi c f gr x0 0%N _ _ _ _ E') as (X & G & Rn & (E0 & R0 & HB & HG) & Ex).
  exists X, G. repeat (split; [assumption|]). intros j Hj. specialize (HG j Hj). unfold gr in HG. destruct (parallel_grad _ _ _ _ _ _ _ _ _) as [g|]; [|discriminate]. injection HG as -> _. reflexivity.
Qed.

(** a closed form: constant gradient, no momentum, no bounds *)
Theorem C109_learning_rate : forall n powi c f g seed x0 x fx k ok rng,
  sg_has_bounds c = false -> sg_momentum c = 0%R ->
  sgd_minimize Rops n powi c f (fun _ r => (g, r)) seed x0 = Some (x, fx, k, ok, rng) ->
  forall i, i < n -> x i = (x0 i - g i * sum k (fun j => sg_lr0 c / (1 + sg_decay c * INR j)))%R.
Proof.
  intros n powi c f g seed x0 x fx k ok rng Hb Hm H i Hi.
  destruct (C109_trajectory _ _ _ _ _ _ _ _ _ _ _ _ H) as (X & G & Rn & E0 & Ek & HB & _ & HG). subst x x0. clear H.
  assert (A : forall m (r : N), 0 < m -> average_of (samples (fun _ r => (g, r)) (X 0) m r) i = g i).
  { intros m r Hm0. unfold average_of. rewrite samples_length. assert (Fd : forall m a, fold_left (fun a (h : nat -> R) => (a + h i)%R) (samples (fun (_ : nat -> R) r => (g, r)) (X 0) m r) a = (a + INR m * g i)%R).
    { clear. intros m. induction m as [|m IH]; intros a; cbn [samples fold_left]; [cbn [INR]; ring|]. rewrite IH, S_INR. ring. }
    rewrite Fd. field. apply not_0_INR. lia. }
  assert (S0 : forall x y m (r : N), samples (fun (_ : nat -> R) r => (g, r)) x m r = samples (fun _ r => (g, r)) y m r). { intros x y m. induction m as [|m IH]; intros r; cbn [samples]; [reflexivity|]. f_equal. apply IH. }
  clear rng ok. induction k as [|k IH]; [cbn [sum]; ring|].
  rewrite (HB k i) by lia. rewrite Hb, Hm. unfold into. rewrite IH; [|intros a b Ha Hb'; apply HB; lia|intros j Hj; apply HG; lia].
  rewrite (proj2 (HG k ltac:(lia)) i Hi), (S0 _ (X 0)), A by lia. cbn [sum]. ring.
Qed.
(** the sequential optimiser always answers *)
Theorem C109_answers : forall n powi c f sample seed x0, exists r, sgd_minimize Rops n powi c f sample seed x0 = Some r.
Proof.
  intros n powi c f sample seed x0. unfold sgd_minimize.
  destruct (opt_loop_total (fun k s => let '(g, r) := batch_grad Rops n c sample (ss_x s) (ss_rng s) in Some (sgd_after_grad Rops n powi c f k s g r)) (fun _ => True) (sg_max_iters c) 0 (mkSs x0 (vzero Rops) (f x0) (zero Rops) (rng_new seed)) I) as (r & E).
  { intros k s _. destruct (batch_grad Rops n c sample (ss_x s) (ss_rng s)) as [g r]. destruct (sgd_after_grad Rops n powi c f k s g r) as [s' v]. eauto. }
  rewrite E. destruct r as [[s k] ok]. eauto.
Qed.
(** two iterations of the default settings, shortened and with early stopping off, against a gradient of 1 *)
Example C109_nontrivial : let c := mkSgd 1%R 1%R 0%R 4 (9 / 10)%R 0%R 0%R 0%R false 2 2 true false (fun _ => 0%R) (fun _ => 0%R) in
  exists x fx k ok rng, sgd_minimize Rops 1 powerRZ c (fun y => y 0) (fun _ r => (fun _ => 1%R, r)) 7%N (fun _ => 5%R) = Some (x, fx, k, ok, rng) /\ k = 2 /\ x 0 = (5 - 1 * (1 + / 2))%R.
Proof.
  intros c. destruct (C109_answers 1 powerRZ c (fun y => y 0) (fun _ r => (fun _ => 1%R, r)) 7%N (fun _ => 5%R)) as ([[[[x fx] k] ok] rng] & E).
  exists x, fx, k, ok, rng. split; [exact E|]. assert (K : k = 2).
  { destruct (C52_stochastic_answer _ _ _ _ _ _ _ _ _ _ _ _ _ _ E) as (Hk & _ & Ho). destruct ok; [|apply Ho; reflexivity]. exfalso. unfold sgd_minimize in E. destruct (opt_loop _ _ _ _) as [[[s k'] ok']|] eqn:El; [|discriminate]. injection E as <- <- <- -> <-.
    apply opt_loop_true in El. destruct El as (j & s0 & v & Hj & _ & Eb & Hv). destruct (batch_grad _ _ _ _ _ _) as [g r]. injection Eb as Eb. cbn [sg_max_iters c] in Hj. cbn [Nat.add] in Eb. unfold sgd_after_grad in Eb. cbn [sg_min_iters c] in Eb.
    replace (2 <=? j) with false in Eb by (symmetry; apply Nat.leb_gt; exact Hj). cbn [andb] in Eb. injection Eb as _ <-. destruct Hv as [(Hv & _)|(Hv & _)]; discriminate. }
  split; [exact K|]. rewrite (C109_learning_rate _ _ c _ _ _ _ _ _ _ _ _ eq_refl eq_refl E 0 ltac:(lia)), K. unfold c. cbn [sum sg_lr0 sg_decay INR]. field.
Qed.
