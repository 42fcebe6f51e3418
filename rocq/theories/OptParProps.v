(** C53: the worker threads of the parallel optimiser. *)
From Coq Require Import ZArith QArith NArith Reals List Arith Lia Lra Psatz Bool.
From Verif Require Import Machine Scalar RSum LinModel LinProofs RandModel OptModel OptSpec OptProofs OptProps OptStochProps.
Import ListNotations.
Local Open Scope nat_scope.

(** ** The chunks *)
Lemma chunk_next bs tu t : chunk_end bs tu t = chunk_start bs tu (S t).
Proof. unfold chunk_end, chunk_start. f_equal. lia. Qed.
Lemma chunk_le bs tu t : chunk_start bs tu t <= chunk_start bs tu (S t).
Proof.
  unfold chunk_start. destruct tu; [cbn; lia|]. apply Nat.div_le_mono; [lia|]. nia.
Qed.
Lemma chunk_0 bs tu : chunk_start bs tu 0 = 0.
Proof. unfold chunk_start. rewrite Nat.mul_0_r. destruct tu; [reflexivity|]. apply Nat.div_0_l. lia. Qed.
Lemma chunk_last bs tu : 0 < tu -> chunk_start bs tu tu = bs.
Proof. intros H. unfold chunk_start. apply Nat.div_mul. lia. Qed.
Lemma chunk_mono bs tu a b : a <= b -> chunk_start bs tu a <= chunk_start bs tu b.
Proof. induction 1; [lia|]. pose proof (chunk_le bs tu m). lia. Qed.

Definition chunk_size (bs tu t : nat) : nat := chunk_end bs tu t - chunk_start bs tu t.

(** The ranges handed to the workers cut 0..batch into consecutive, disjoint pieces: every
    sample number belongs to exactly one worker; sizes differ by at most one and no worker is
    idle; the products computed in usize stay below 2^64. *)
Theorem C53_chunks : forall batch threads, 1 <= batch -> 1 <= threads ->
  let tu := Nat.min threads batch in
  (forall s, s < batch -> exists! t, t < tu /\ chunk_start batch tu t <= s < chunk_end batch tu t) /\
  (forall t, t < tu -> chunk_end batch tu t <= batch) /\
  (forall t t', t < tu -> t' < tu ->
     1 <= chunk_size batch tu t /\ chunk_size batch tu t <= chunk_size batch tu t' + 1) /\
  ((Z.of_nat batch < 2 ^ 32)%Z -> forall t, t < tu -> (Z.of_nat (batch * (t + 1)) < 2 ^ 64)%Z).
Proof.
  intros batch threads Hb Ht tu. assert (1 <= tu <= batch) as Htu by (unfold tu; lia).
  split; [|split; [|split]].
  - intros s Hs.
    assert (forall m, m <= tu -> s < chunk_start batch tu m ->
              exists t, t < m /\ chunk_start batch tu t <= s < chunk_end batch tu t) as Ex.
    { induction m as [|m IH]; intros Hm Hc; [rewrite chunk_0 in Hc; lia|].
      destruct (Nat.lt_ge_cases s (chunk_start batch tu m)) as [L|L].
      - destruct (IH ltac:(lia) L) as (t & A & B). exists t. split; [lia|exact B].
      - exists m. rewrite chunk_next. split; lia. }
    destruct (Ex tu (le_n _)) as (t & A & B). { rewrite chunk_last by lia. exact Hs. }
    exists t. split; [auto|]. intros t' [A' B']. rewrite chunk_next in B, B'.
    destruct (Nat.lt_trichotomy t t') as [L|[L|L]]; [|exact L|].
    + pose proof (chunk_mono batch tu (S t) t' ltac:(lia)). lia.
    + pose proof (chunk_mono batch tu (S t') t ltac:(lia)). lia.
  - intros t Hlt. rewrite chunk_next. pose proof (chunk_mono batch tu (S t) tu ltac:(lia)) as Q.
    rewrite chunk_last in Q by lia. exact Q.
  - assert (forall t, batch / tu <= chunk_size batch tu t <= batch / tu + 1) as Sz.
    { intros t. unfold chunk_size, chunk_end, chunk_start.
      set (a := batch * t). replace (batch * (t + 1)) with (a + batch) by (unfold a; lia).
      pose proof (Nat.div_mod a tu ltac:(lia)). pose proof (Nat.mod_upper_bound a tu ltac:(lia)).
      pose proof (Nat.div_mod batch tu ltac:(lia)). pose proof (Nat.mod_upper_bound batch tu ltac:(lia)).
      pose proof (Nat.div_mod (a + batch) tu ltac:(lia)). pose proof (Nat.mod_upper_bound (a + batch) tu ltac:(lia)).
      set (qa := a / tu) in *. set (qb := batch / tu) in *. set (q := (a + batch) / tu) in *.
      assert (qa + qb <= q) by nia. assert (q <= qa + qb + 1) by nia. lia. }
    intros t t' _ _. pose proof (Sz t). pose proof (Sz t').
    assert (1 <= batch / tu). { apply Nat.div_le_lower_bound; lia. } lia.
  - intros H32 t Hlt. assert (batch * (t + 1) <= batch * batch) by (apply Nat.mul_le_mono_l; lia).
    assert (Z.of_nat (batch * batch) < 2 ^ 64)%Z; [|lia]. rewrite Nat2Z.inj_mul. nia.
Qed.
Example C53_chunks_nontrivial :
  map (fun t => (chunk_start 10 4 t, chunk_end 10 4 t)) [0; 1; 2; 3] = [(0, 2); (2, 5); (5, 7); (7, 10)].
Proof. reflexivity. Qed.

(** ** The schedule does not matter *)
Section Sched.
Context {F : Type} (o : ops F) (n : nat) (sample : (nat -> F) -> N -> (nat -> F) * N) (x : nat -> F).

Lemma iter_comm {A} (f : A -> A) m : forall a, Nat.iter m f (f a) = f (Nat.iter m f a).
Proof. induction m as [|m IH]; intros a; [reflexivity|]. cbn. f_equal. apply IH. Qed.

Lemma run_schedule_at sched : forall ws t,
  run_schedule o n sample x ws sched t =
  Nat.iter (count_occ Nat.eq_dec sched t) (worker_step o n sample x) (ws t).
Proof.
  induction sched as [|u r IH]; intros ws t; [reflexivity|].
  unfold run_schedule in *. cbn [fold_left]. rewrite IH. cbn [count_occ].
  destruct (Nat.eq_dec u t) as [->|Ne].
  - rewrite upd_same, iter_comm. reflexivity.
  - rewrite upd_other by auto. reflexivity.
Qed.

Lemma worker_left m : forall w, w_left (Nat.iter m (worker_step o n sample x) w) = w_left w - m.
Proof.
  induction m as [|m IH]; intros w; cbn [Nat.iter nat_rect]; [lia|].
  change (w_left (worker_step o n sample x (Nat.iter m (worker_step o n sample x) w)) = w_left w - S m).
  specialize (IH w). unfold worker_step at 1. destruct (w_left (Nat.iter m _ w)) as [|l] eqn:E; [lia|].
  destruct (sample x _). cbn. lia.
Qed.

(* a worker that has run to the end holds the sum of its samples *)
Lemma worker_done m : forall w, w_left w <= m ->
  forall i, i < n ->
  w_acc (Nat.iter m (worker_step o n sample x) w) i =
  fold_left (fun a g => add o a (g i)) (samples sample x (w_left w) (w_rng w)) (w_acc w i).
Proof.
  induction m as [|m IH]; intros w Hm i Hi.
  - replace (w_left w) with 0 by lia. reflexivity.
  - change (Nat.iter (S m) ?f ?a) with (f (Nat.iter m f a)). rewrite <- iter_comm.
    unfold worker_step at 2. destruct (w_left w) as [|l] eqn:El.
    + rewrite IH by lia. rewrite El. reflexivity.
    + destruct (sample x (w_rng w)) as [g r] eqn:Es. rewrite IH by (cbn; lia || auto). cbn [w_left w_rng w_acc].
      cbn [samples]. rewrite Es. cbn [fold_left]. rewrite vfill_in by auto. reflexivity.
Qed.

(* and its accumulator is, as a whole array, independent of the extra turns *)
Lemma worker_stable m : forall w, w_left w <= m ->
  Nat.iter m (worker_step o n sample x) w = Nat.iter (w_left w) (worker_step o n sample x) w.
Proof.
  induction m as [|m IH]; intros w Hm; [replace (w_left w) with 0 by lia; reflexivity|].
  change (Nat.iter (S m) ?f ?a) with (f (Nat.iter m f a)).
  destruct (Nat.eq_dec (w_left w) (S m)) as [E|E]; [rewrite E; reflexivity|].
  rewrite IH by lia. unfold worker_step at 1. rewrite worker_left, Nat.sub_diag. reflexivity.
Qed.
End Sched.

Lemma parallel_grad_some {F} (o : ops F) n c sample threads base sched k x :
  let bs := Nat.max (sg_batch c) 1 in let tu := Nat.min threads bs in
  (completes tu (chunk_size bs tu) sched <-> parallel_grad o n c sample threads base sched k x <> None).
Proof.
  intros bs tu. unfold parallel_grad. fold bs. fold tu.
  assert (forall t, w_left (run_schedule o n sample x (worker_init o bs tu base k) sched t)
            = chunk_size bs tu t - count_occ Nat.eq_dec sched t) as L.
  { intros t. rewrite run_schedule_at, worker_left. reflexivity. }
  destruct (forallb _ _) eqn:E.
  - split; [|intros _].
    + intros _. destruct (for_ _ _ _ _). discriminate.
    + intros t Ht. rewrite forallb_forall in E. specialize (E t). rewrite in_seq in E.
      specialize (E ltac:(lia)). apply Nat.eqb_eq in E. rewrite L in E. lia.
  - split; [|congruence]. intros H _. assert (forallb (fun t => w_left (run_schedule o n sample x
         (worker_init o bs tu base k) sched t) =? 0) (seq 0 tu) = true); [|congruence].
    apply forallb_forall. intros t Ht. rewrite in_seq in Ht. apply Nat.eqb_eq. rewrite L.
    specialize (H t ltac:(lia)). lia.
Qed.

Lemma parallel_grad_same {F} (o : ops F) n c sample threads base s1 s2 k x g1 g2 :
  parallel_grad o n c sample threads base s1 k x = Some g1 ->
  parallel_grad o n c sample threads base s2 k x = Some g2 -> g1 = g2.
Proof.
  intros H1 H2. revert H1 H2.
  pose proof (proj2 (parallel_grad_some o n c sample threads base s1 k x)) as C1.
  pose proof (proj2 (parallel_grad_some o n c sample threads base s2 k x)) as C2.
  cbv zeta in C1, C2. intros H1 H2. rewrite H1 in C1. rewrite H2 in C2.
  specialize (C1 ltac:(discriminate)). specialize (C2 ltac:(discriminate)).
  unfold parallel_grad in H1, H2. cbv zeta in H1, H2.
  set (bs := Nat.max (sg_batch c) 1) in *. set (tu := Nat.min threads bs) in *.
  destruct (forallb _ _) in H1; [|discriminate]. destruct (forallb _ _) in H2; [|discriminate].
  assert (forall t, t < tu -> run_schedule o n sample x (worker_init o bs tu base k) s1 t =
                              run_schedule o n sample x (worker_init o bs tu base k) s2 t) as W.
  { intros t Ht. rewrite !run_schedule_at, (worker_stable o n sample x (count_occ Nat.eq_dec s1 t)),
      (worker_stable o n sample x (count_occ Nat.eq_dec s2 t)).
    - reflexivity.
    - apply (C2 t Ht).
    - apply (C1 t Ht). }
  rewrite (for_ext 0 tu _ (fun (t : nat) (a : (nat -> F) * nat) =>
            (vfill n (fun i => add o (fst a i)
              (w_acc (run_schedule o n sample x (worker_init o bs tu base k) s2 t) i)) (fst a),
             snd a + (chunk_end bs tu t - chunk_start bs tu t)))) in H1
    by (intros i s Hi; rewrite W by lia; reflexivity).
  destruct (for_ 0 tu _ _) as [g total]. congruence.
Qed.

Lemma opt_loop_agree {S} (b1 b2 : nat -> S -> option (S * verdict)) m : forall k s r1 r2,
  (forall k s r1 r2, b1 k s = Some r1 -> b2 k s = Some r2 -> r1 = r2) ->
  opt_loop b1 m k s = Some r1 -> opt_loop b2 m k s = Some r2 -> r1 = r2.
Proof.
  induction m as [|m IH]; intros k s r1 r2 H H1 H2; cbn in H1, H2; [congruence|].
  destruct (b1 k s) as [[s1 v1]|] eqn:E1; [|discriminate].
  destruct (b2 k s) as [[s2 v2]|] eqn:E2; [|discriminate].
  pose proof (H _ _ _ _ E1 E2) as Q. inversion Q; subst. destruct v2; try congruence. eapply IH; eauto.
Qed.

(** For a fixed seed and thread count the answer is the same for any two interleavings of the
    workers - any scalar type, so also bit for bit in floating point. *)
Theorem C53_schedule_independent : forall F (o : ops F) n powi c f sample threads seed x0 sched1 sched2 r1 r2,
  psgd_minimize o n powi c f sample threads seed sched1 x0 = Some r1 ->
  psgd_minimize o n powi c f sample threads seed sched2 x0 = Some r2 -> r1 = r2.
Proof.
  intros F o n powi c f sample threads seed x0 sched1 sched2 r1 r2 H1 H2. unfold psgd_minimize in H1, H2.
  destruct (opt_loop _ _ _ _) as [[[s1 k1] ok1]|] eqn:E1 in H1; [|discriminate].
  destruct (opt_loop _ _ _ _) as [[[s2 k2] ok2]|] eqn:E2 in H2; [|discriminate].
  assert ((s1, k1, ok1) = (s2, k2, ok2)) as Q; [|congruence].
  refine (opt_loop_agree _ _ _ _ _ _ _ _ E1 E2). intros k s q1 q2 A B. cbv beta in A, B.
  destruct (parallel_grad o n c sample _ seed (sched1 k) k (ss_x s)) as [g1|] eqn:G1; [|discriminate].
  destruct (parallel_grad o n c sample _ seed (sched2 k) k (ss_x s)) as [g2|] eqn:G2; [|discriminate].
  rewrite (parallel_grad_same _ _ _ _ _ _ _ _ _ _ _ _ G1 G2) in A. congruence.
Qed.

(** Every schedule that lets each worker run often enough gives an answer: no deadlock. *)
Theorem C53_fair_schedules_finish : forall F (o : ops F) n powi c f sample threads seed x0 sched,
  let bs := Nat.max (sg_batch c) 1 in let tu := Nat.min (Nat.max threads 1) bs in
  (forall k, completes tu (chunk_size bs tu) (sched k)) ->
  exists r, psgd_minimize o n powi c f sample threads seed sched x0 = Some r.
Proof.
  intros F o n powi c f sample threads seed x0 sched bs tu H. unfold psgd_minimize.
  destruct (opt_loop_total (fun (k : nat) (s : sgd_state) =>
            match parallel_grad o n c sample (Nat.max threads 1) seed (sched k) k (ss_x s) with
            | None => None
            | Some g => Some (sgd_after_grad o n powi c f k s g (ss_rng s))
            end) (fun _ => True) (sg_max_iters c) 0
       (mkSs x0 (vzero o) (f x0) (zero o) 0%N) I) as ([[s k] ok] & E); [|rewrite E; eauto].
  intros k s _. pose proof (proj1 (parallel_grad_some o n c sample (Nat.max threads 1) seed (sched k) k (ss_x s)) (H k)) as Q.
  destruct (parallel_grad o n c sample (Nat.max threads 1) seed (sched k) k (ss_x s)) as [g|]; [|congruence].
  destruct (sgd_after_grad o n powi c f k s g (ss_rng s)) as [s' v]. eauto.
Qed.

(** Each iteration averages exactly batch_size samples: those worker [t] draws, in order, from
    its own generator. *)
Definition worker_samples (sample : (nat -> R) -> N -> (nat -> R) * N) (bs tu : nat) (base : N)
    (k : nat) (x : nat -> R) : list (nat -> R) :=
  flat_map (fun t => samples sample x (chunk_size bs tu t) (rng_new (thread_seed base k t))) (seq 0 tu).

Lemma fold_add_R i (l : list (nat -> R)) : forall a,
  (fold_left (fun a g => a + g i) l a = a + fold_left (fun a g => a + g i) l 0)%R.
Proof.
  induction l as [|g l IH]; intros a; cbn [fold_left]; [ring|]. rewrite IH, (IH (0 + g i)%R). ring.
Qed.

Theorem C53_batch_average : forall n c sample threads base sched k x g,
  let bs := Nat.max (sg_batch c) 1 in let tu := Nat.min threads bs in
  1 <= threads ->
  parallel_grad Rops n c sample threads base sched k x = Some g ->
  length (worker_samples sample bs tu base k x) = bs /\
  forall i, i < n -> g i = average_of (worker_samples sample bs tu base k x) i.
Proof.
  intros n c sample threads base sched k x g bs tu Ht H.
  assert (forall m, m <= tu -> length (flat_map (fun t => samples sample x (chunk_size bs tu t)
             (rng_new (thread_seed base k t))) (seq 0 m)) = chunk_start bs tu m) as Len.
  { induction m as [|m IH]; intros Hm; [rewrite chunk_0; reflexivity|].
    rewrite seq_S, flat_map_app, app_length, IH by lia. cbn [flat_map Nat.add]. rewrite app_nil_r, samples_length.
    unfold chunk_size. rewrite chunk_next. pose proof (chunk_le bs tu m). lia. }
  assert (length (worker_samples sample bs tu base k x) = bs) as L.
  { unfold worker_samples. rewrite Len by lia. apply chunk_last. unfold tu, bs. lia. }
  split; [exact L|]. intros i Hi. unfold average_of. rewrite L.
  pose proof (proj2 (parallel_grad_some Rops n c sample threads base sched k x)) as C. cbv zeta in C.
  rewrite H in C. specialize (C ltac:(discriminate)). fold bs in C. fold tu in C.
  unfold parallel_grad in H. cbv zeta in H. fold bs in H. fold tu in H.
  destruct (forallb _ _); [|discriminate].
  pose (P := fun (t : nat) (a : (nat -> R) * nat) =>
     fst a i = fold_left (fun a g => a + g i)%R (flat_map (fun t => samples sample x (chunk_size bs tu t)
             (rng_new (thread_seed base k t))) (seq 0 t)) 0%R /\ snd a = chunk_start bs tu t).
  match type of H with (let '(g, total) := for_ 0 tu ?b ?s in _) = _ =>
    assert (P tu (for_ 0 tu b s)) as HP end.
  { apply (for_ind P); [lia| |].
    - split; [reflexivity|]. rewrite chunk_0. reflexivity.
    - intros t a Hti [A B]. split; cbn [fst snd].
      + rewrite vfill_in by auto. rewrite seq_S, flat_map_app, fold_left_app, <- A. cbn [flat_map Nat.add].
        rewrite app_nil_r, fold_add_R. cbn [add Rops]. f_equal.
        rewrite run_schedule_at. rewrite worker_done; auto. apply (C t). lia.
      + rewrite B, chunk_next. pose proof (chunk_le bs tu t). lia. }
  destruct (for_ 0 tu _ _) as [g0 total]. destruct HP as [A B]. cbn [fst snd] in A, B.
  rewrite chunk_last in B by (unfold tu, bs; lia). apply (f_equal (fun v => match v with Some v => v i | None => 0%R end)) in H. cbv beta iota in H.
  rewrite <- H, vfill_in by auto. rewrite A, B. unfold worker_samples. cbn [mul div Rops]. rewrite !of_nat_R.
  cbn [INR]. field. apply not_0_INR. unfold bs. lia.
Qed.

(** ** Every worker gets its own seed *)
Lemma lxor_cancel a b c : N.lxor a b = N.lxor a c -> b = c.
Proof.
  intros H. rewrite <- (N.lxor_0_l b), <- (N.lxor_0_l c), <- (N.lxor_nilpotent a), !N.lxor_assoc, H. reflexivity.
Qed.
Lemma lxor_cancel_r a b c : N.lxor b a = N.lxor c a -> b = c.
Proof. rewrite !(N.lxor_comm _ a). apply lxor_cancel. Qed.

Lemma odd_mul_injective C D a b : ((C * D) mod 2 ^ 64 = 1)%N -> (a < 2 ^ 64)%N -> (b < 2 ^ 64)%N ->
  ((a * C) mod 2 ^ 64 = (b * C) mod 2 ^ 64)%N -> a = b.
Proof.
  intros I Ha Hb H.
  assert (forall t, (t < 2 ^ 64)%N -> (((t * C) mod 2 ^ 64) * D) mod 2 ^ 64 = t)%N as Inv.
  { intros t Ht. rewrite N.mul_mod_idemp_l by discriminate. rewrite <- N.mul_assoc.
    rewrite <- N.mul_mod_idemp_r by discriminate. rewrite I, N.mul_1_r. apply N.mod_small. exact Ht. }
  rewrite <- (Inv a Ha), <- (Inv b Hb), H. reflexivity.
Qed.

Theorem C53_seeds_distinct : forall base k k' t t',
  (N.of_nat k < 2 ^ 32)%N -> (N.of_nat k' < 2 ^ 32)%N -> (N.of_nat t < 2 ^ 64)%N -> (N.of_nat t' < 2 ^ 64)%N ->
  (thread_seed base k t = thread_seed base k t' -> t = t') /\
  (thread_seed base k t = thread_seed base k' t -> k = k').
Proof.
  intros base k k' t t' Hk Hk' Ht Ht'. unfold thread_seed. split; intros H.
  - apply lxor_cancel in H.
    apply (odd_mul_injective _ 10871156337175269513) in H; [lia|reflexivity|exact Ht|exact Ht'].
  - apply lxor_cancel_r, lxor_cancel in H.
    apply (odd_mul_injective _ 17428512612931826493) in H; [lia|reflexivity| |];
      (eapply N.lt_trans; [eassumption|reflexivity]).
Qed.

(** Different seeds give different generator states, except that seed 0 is replaced by a fixed
    constant. *)
Theorem C53_generators_distinct : forall a b, rng_new a = rng_new b ->
  a = b \/ (a = 0%N /\ b = 11400714819323198485%N) \/ (b = 0%N /\ a = 11400714819323198485%N).
Proof.
  intros a b. unfold rng_new. destruct (N.eqb_spec a 0), (N.eqb_spec b 0); subst; auto.
Qed.

(* two workers, three samples: two interleavings *)
Example C53_nontrivial :
  completes 2 (chunk_size 3 2) [1; 0; 1] /\ completes 2 (chunk_size 3 2) [0; 1; 1].
Proof. split; intros t Ht; destruct t as [|[|t]]; cbn; lia. Qed.
