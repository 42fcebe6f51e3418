(** Lemmas about the optimiser model. *)
From Coq Require Import ZArith QArith NArith Reals List Arith Lia Lra Bool.
From Verif Require Import Machine Scalar RSum LinModel LinProofs RandModel OptModel OptSpec.
Import ListNotations.
Local Open Scope nat_scope.

(** ** The main loop *)
Section Loop.
Context {S : Type} (body : nat -> S -> option (S * verdict)).

Lemma opt_loop_false m : forall k s s' k', opt_loop body m k s = Some (s', k', false) -> k' = k + m.
Proof.
  induction m as [|m IH]; intros k s s' k' H; cbn in H.
  - inversion H. lia.
  - destruct (body k s) as [[s1 []]|]; try discriminate. apply IH in H. lia.
Qed.

Lemma opt_loop_snoc m : forall k s s0, opt_loop body m k s = Some (s0, k + m, false) ->
  opt_loop body (Datatypes.S m) k s =
    match body (k + m) s0 with
    | None => None
    | Some (s', StopBefore) => Some (s', k + m, true)
    | Some (s', StopAfter) => Some (s', k + m + 1, true)
    | Some (s', Go) => Some (s', k + m + 1, false)
    end.
Proof.
  induction m as [|m IH]; intros k s s0 H.
  - cbn in H. inversion H as [[H1 H2]]. subst s0. clear H H2. cbn [opt_loop]. rewrite <- !plus_n_O.
    destruct (body k s) as [[s1 []]|]; reflexivity.
  - cbn [opt_loop] in H |- *. destruct (body k s) as [[s1 []]|]; try discriminate.
    replace (k + Datatypes.S m) with (k + 1 + m) in * by lia.
    exact (IH (k + 1) s1 s0 H).
Qed.

Lemma opt_loop_true m : forall k s s' k', opt_loop body m k s = Some (s', k', true) ->
  exists j s0 v, j < m /\ opt_loop body j k s = Some (s0, k + j, false) /\
    body (k + j) s0 = Some (s', v) /\
    ((v = StopBefore /\ k' = k + j) \/ (v = StopAfter /\ k' = k + j + 1)).
Proof.
  induction m as [|m IH]; intros k s s' k' H; cbn in H; [discriminate|].
  destruct (body k s) as [[s1 []]|] eqn:E; try discriminate.
  - inversion H; subst. exists 0, s, StopBefore. cbn. rewrite Nat.add_0_r. repeat split; auto; lia.
  - inversion H; subst. exists 0, s, StopAfter. cbn. rewrite Nat.add_0_r. repeat split; auto; lia.
  - destruct (IH _ _ _ _ H) as (j & s0 & v & Hj & A & B & C).
    exists (Datatypes.S j), s0, v. cbn [opt_loop]. rewrite E.
    replace (k + Datatypes.S j) with (k + 1 + j) by lia. repeat split; auto. lia.
Qed.

(* a finished iteration [k] of a run that did not stop before *)
Lemma opt_loop_prefix m : forall k s r j, opt_loop body m k s = Some (r, k + m, false) -> j <= m ->
  exists s0, opt_loop body j k s = Some (s0, k + j, false).
Proof.
  induction m as [|m IH]; intros k s r j H Hj.
  - replace j with 0 by lia. eauto.
  - destruct j as [|j]; [exists s; cbn; do 2 f_equal; f_equal; lia|].
    cbn [opt_loop] in H |- *. destruct (body k s) as [[s1 []]|]; try discriminate.
    replace (k + Datatypes.S m) with (k + 1 + m) in H by lia.
    destruct (IH _ _ _ j H ltac:(lia)) as (s0 & E).
    exists s0. rewrite E. do 2 f_equal. f_equal. lia.
Qed.

Lemma opt_loop_inv (P : nat -> S -> Prop) m : forall k s r k' ok,
  P k s ->
  (forall k s s' v, P k s -> body k s = Some (s', v) ->
     P (match v with StopBefore => k | _ => k + 1 end) s') ->
  opt_loop body m k s = Some (r, k', ok) -> P k' r.
Proof.
  induction m as [|m IH]; intros k s r k' ok H0 Hs H; cbn in H.
  - inversion H; subst. exact H0.
  - destruct (body k s) as [[s1 v]|] eqn:E; [|discriminate].
    pose proof (Hs _ _ _ _ H0 E) as H1. destruct v.
    + inversion H; subst. exact H1.
    + inversion H; subst. exact H1.
    + eapply IH; eauto.
Qed.

Lemma opt_loop_le m k s r k' ok : opt_loop body m k s = Some (r, k', ok) -> k <= k' <= k + m.
Proof.
  destruct ok; intros H.
  - apply opt_loop_true in H. destruct H as (j & s0 & v & Hj & _ & _ & [[_ ->]|[_ ->]]); lia.
  - apply opt_loop_false in H. lia.
Qed.

Lemma opt_loop_total (P : S -> Prop) m : forall k s,
  P s -> (forall k s, P s -> exists s' v, body k s = Some (s', v) /\ P s') ->
  exists r, opt_loop body m k s = Some r.
Proof.
  induction m as [|m IH]; intros k s H0 Hs; cbn; [eauto|].
  destruct (Hs k s H0) as (s1 & v & E & H1). rewrite E. destruct v; eauto.
Qed.
End Loop.

Lemma opt_loop_ext {S} (b1 b2 : nat -> S -> option (S * verdict)) m : forall k s,
  (forall k s, b1 k s = b2 k s) -> opt_loop b1 m k s = opt_loop b2 m k s.
Proof.
  induction m as [|m IH]; intros k s H; cbn; [reflexivity|]. rewrite H.
  destruct (b2 k s) as [[s1 []]|]; auto.
Qed.

(** ** Projection *)
Section Proj.
Context {F : Type} (o : ops F) (n : nat).

Lemma project_spec b lo hi x i : i < n ->
  project o n b lo hi x i = if b then clamp1 o (lo i) (hi i) (x i) else x i.
Proof.
  intros Hi. unfold project. destruct b; [|reflexivity].
  assert (forall m, m <= n -> forall j, for_ 0 m (fun i x => upd x i (clamp1 o (lo i) (hi i) (x i))) x j
            = if j <? m then clamp1 o (lo j) (hi j) (x j) else x j) as H.
  { intros m Hm j.
    apply (for_ind (fun m s => forall j, s j = if j <? m then clamp1 o (lo j) (hi j) (x j) else x j));
      [lia|reflexivity|].
    intros k s _ E a. unfold upd. destruct (Nat.eqb_spec a k) as [->|Ne].
    - rewrite E, Nat.ltb_irrefl. rewrite (proj2 (Nat.ltb_lt k (Datatypes.S k))) by lia. reflexivity.
    - rewrite E. destruct (Nat.ltb_spec a k), (Nat.ltb_spec a (Datatypes.S k)); auto; lia. }
  rewrite H by lia. rewrite (proj2 (Nat.ltb_lt i n)) by lia. reflexivity.
Qed.

Lemma project_out lo hi x i b : n <= i -> project o n b lo hi x i = x i.
Proof.
  intros Hi. unfold project. destruct b; [|reflexivity].
  apply (for_ind (fun m s => s i = x i)); [lia|reflexivity|].
  intros k s Hk E. rewrite upd_other by lia. exact E.
Qed.

Lemma project_in_box lo hi x : valid_box o n lo hi -> in_box o n lo hi (project o n true lo hi x).
Proof.
  intros H i Hi. rewrite project_spec by auto. destruct (H i Hi) as (A & B & C). unfold clamp1.
  destruct (ltb o (x i) (lo i)) eqn:E1; [auto|]. destruct (ltb o (hi i) (x i)) eqn:E2; auto.
Qed.
End Proj.

(** ** Line search *)
Section LS.
Context {F : Type} (o : ops F) (n : nat).

(* the step it settled on, as a power of tau *)
Fixpoint step_at (c : @gd F) (step : F) (j : nat) : F :=
  match j with 0 => step | S j => mul o (step_at c step j) (gd_tau c) end.
Lemma step_at_S c step j : step_at c (mul o step (gd_tau c)) j = step_at c step (S j).
Proof. induction j as [|j IH]; cbn; [reflexivity|]. rewrite IH. reflexivity. Qed.

Definition armijo_ok (c : @gd F) f x fx d slope step : bool :=
  leb o (f (trial_point o n c x d step)) (add o fx (mul o (mul o (gd_c1 c) step) slope)).

Lemma line_search_spec c f x fx d slope fuel : forall step y fy,
  line_search o n c f x fx d slope fuel step = Some (y, fy) ->
  exists j, j < fuel /\ y = trial_point o n c x d (step_at c step j) /\ fy = f y /\
    (forall i, i < j -> armijo_ok c f x fx d slope (step_at c step i) = false /\
                        leb o (step_at c step (S i)) (tiny_step o) = false) /\
    (armijo_ok c f x fx d slope (step_at c step j) = true \/
     armijo_ok c f x fx d slope (step_at c step j) = false /\
     leb o (step_at c step (S j)) (tiny_step o) = true).
Proof.
  induction fuel as [|fuel IH]; intros step y fy H; cbn [line_search] in H; [discriminate|].
  match type of H with (if ?b then _ else _) = _ => destruct b eqn:E end.
  - inversion H; subst. exists 0. repeat split; auto; lia.
  - match type of H with (if ?b then _ else _) = _ => destruct b eqn:E2 end.
    + inversion H; subst. exists 0. repeat split; auto; lia.
    + destruct (IH _ _ _ H) as (j & Hj & Hy & Hfy & Hb & He). exists (S j).
      rewrite <- (step_at_S c step j), <- (step_at_S c step (S j)).
      split; [lia|]. split; [exact Hy|]. split; [exact Hfy|]. split.
      * intros [|i] Hi; [split; [exact E|exact E2]|]. rewrite <- (step_at_S c step i), <- (step_at_S c step (S i)). apply Hb. lia.
      * exact He.
Qed.

Lemma line_search_none c f x fx d slope fuel : forall step,
  line_search o n c f x fx d slope fuel step = None ->
  forall i, i < fuel -> armijo_ok c f x fx d slope (step_at c step i) = false /\
                        leb o (step_at c step (S i)) (tiny_step o) = false.
Proof.
  induction fuel as [|fuel IH]; intros step H i Hi; cbn [line_search] in H; [lia|].
  match type of H with (if ?b then _ else _) = _ => destruct b eqn:E; [discriminate|] end.
  match type of H with (if ?b then _ else _) = _ => destruct b eqn:E2; [discriminate|] end.
  destruct i as [|i]; [split; [exact E|exact E2]|]. rewrite <- (step_at_S c step i), <- (step_at_S c step (S i)). apply IH; auto. lia.
Qed.

(* what one turn of the main loop can do *)
Lemma gd_body_spec c f g fuel s s' v : gd_body o n c f g fuel s = Some (s', v) ->
  (v = StopBefore /\ s' = s /\ leb o (norm2 o n (g (st_x s))) (gd_tol_grad c) = true) \/
  (v <> StopBefore /\ leb o (norm2 o n (g (st_x s))) (gd_tol_grad c) = false /\
   st_f s' = f (st_x s') /\
   (exists d step, st_x s' = trial_point o n c (st_x s) d step) /\
   st_v s' = vfill n (fun i => sub o (st_x s' i) (st_x s i)) (st_v s) /\
   (v = StopAfter <-> leb o (norm2 o n (st_v s')) (gd_tol_step c) = true)).
Proof.
  unfold gd_body. destruct (leb o (norm2 o n (g (st_x s))) (gd_tol_grad c)) eqn:Eg.
  - intros H. inversion H; subst. left. auto.
  - intros H. right.
    assert (forall x' fx', (exists d step, x' = trial_point o n c (st_x s) d step) -> fx' = f x' ->
      Some ({| st_x := x'; st_v := vfill n (fun i => sub o (x' i) (st_x s i)) (st_v s); st_f := fx' |},
       if leb o (norm2 o n (vfill n (fun i => sub o (x' i) (st_x s i)) (st_v s))) (gd_tol_step c)
       then StopAfter else Go) = Some (s', v) ->
      v <> StopBefore /\ false = false /\
      st_f s' = f (st_x s') /\
   (exists d step, st_x s' = trial_point o n c (st_x s) d step) /\
   st_v s' = vfill n (fun i => sub o (st_x s' i) (st_x s i)) (st_v s) /\
   (v = StopAfter <-> leb o (norm2 o n (st_v s')) (gd_tol_step c) = true)) as Fin.
    { intros x' fx' Hx Hf E. inversion E; subst; clear E. cbn [st_x st_v st_f].
      destruct (leb o (norm2 o n _) (gd_tol_step c)) eqn:Es;
        (split; [discriminate|]; split; [reflexivity|]; split; [reflexivity|]; split; [exact Hx|];
         split; [reflexivity|]); split; congruence. }
    destruct (gd_backtracking c).
    + destruct (descent_pair o n c (g (st_x s)) (st_v s)) as [d slope] eqn:Ed.
      destruct (line_search o n c f (st_x s) (st_f s) d slope fuel (gd_lr c)) as [[x' fx']|] eqn:El;
        [|discriminate].
      apply line_search_spec in El. destruct El as (j & _ & Hx & Hf & _).
      apply (Fin x' fx'); auto. eauto.
    + revert H. apply Fin; [|reflexivity].
      exists (direction o n c (g (st_x s)) (st_v s)), (gd_lr c). reflexivity.
Qed.
End LS.
