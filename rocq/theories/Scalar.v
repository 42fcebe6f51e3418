(** The numeric trait [Real] (crates/aether_core/src/real/real.rs:4-57) as a record of
    operations, and Rust's loops as combinators.  A definition that takes [ops F] makes no
    assumption on the arithmetic, so it covers f32 and f64 with NaN, infinities and
    rounding.  [Rops] is exact real arithmetic. *)
From Coq Require Import ZArith QArith Qreals Reals List Arith Lia Lra Bool.
Import ListNotations.
Open Scope nat_scope.

Record ops (F : Type) := mkOps
  { zero : F; one : F;
    add : F -> F -> F; sub : F -> F -> F; mul : F -> F -> F; div : F -> F -> F;
    neg : F -> F; absf : F -> F; sqrtf : F -> F;
    fma : F -> F -> F -> F;          (* fma a b c: a * b + c with one rounding *)
    ltb : F -> F -> bool; leb : F -> F -> bool; eqb : F -> F -> bool;
    lit : Q -> F }.                  (* T::from_f64 of a literal *)
Arguments zero {F}. Arguments one {F}. Arguments add {F}. Arguments sub {F}.
Arguments mul {F}. Arguments div {F}. Arguments neg {F}. Arguments absf {F}.
Arguments sqrtf {F}. Arguments fma {F}. Arguments ltb {F}. Arguments leb {F}.
Arguments eqb {F}. Arguments lit {F}.

(** Exact arithmetic. *)
Definition Rltb (x y : R) : bool := if Rlt_dec x y then true else false.
Definition Rleb (x y : R) : bool := if Rle_dec x y then true else false.
Definition Reqb (x y : R) : bool := if Req_EM_T x y then true else false.
Definition Rops : ops R :=
  mkOps R 0%R 1%R Rplus Rminus Rmult Rdiv Ropp Rabs sqrt (fun a b c => (a * b + c)%R)
    Rltb Rleb Reqb Q2R.

(** Loops.  [for_ lo hi body] is [for i in lo..hi]; [forM] is the same with a body that can
    stop ([None]: panic, early error or undefined behaviour); [while_] carries fuel and
    answers [None] when the fuel runs out. *)
Definition for_ {S} (lo hi : nat) (body : nat -> S -> S) (s : S) : S :=
  fold_left (fun s i => body i s) (seq lo (hi - lo)) s.

Fixpoint forL {S} (l : list nat) (body : nat -> S -> option S) (s : S) : option S :=
  match l with
  | [] => Some s
  | i :: r => match body i s with Some s' => forL r body s' | None => None end
  end.
Definition forM {S} (lo hi : nat) (body : nat -> S -> option S) (s : S) : option S :=
  forL (seq lo (hi - lo)) body s.

Fixpoint while_ {S} (fuel : nat) (c : S -> bool) (b : S -> option S) (s : S) : option S :=
  if c s then
    match fuel with
    | 0 => None
    | S f => match b s with Some s' => while_ f c b s' | None => None end
    end
  else Some s.

(** Arrays [T; N] and [[T; N]; M] as functions of in-range indices. *)
Definition upd {F} (v : nat -> F) (i : nat) (x : F) : nat -> F :=
  fun a => if a =? i then x else v a.
Definition upd2 {F} (m : nat -> nat -> F) (i j : nat) (x : F) : nat -> nat -> F :=
  fun a b => if (a =? i) && (b =? j) then x else m a b.

Lemma upd_same {F} (v : nat -> F) i x : upd v i x i = x.
Proof. unfold upd. rewrite Nat.eqb_refl. reflexivity. Qed.
Lemma upd_other {F} (v : nat -> F) i x a : a <> i -> upd v i x a = v a.
Proof. intros H. unfold upd. rewrite (proj2 (Nat.eqb_neq a i) H). reflexivity. Qed.
Lemma upd2_same {F} (m : nat -> nat -> F) i j x : upd2 m i j x i j = x.
Proof. unfold upd2. rewrite !Nat.eqb_refl. reflexivity. Qed.
Lemma upd2_other {F} (m : nat -> nat -> F) i j x a b : a <> i \/ b <> j -> upd2 m i j x a b = m a b.
Proof.
  intros H. unfold upd2. destruct (Nat.eqb_spec a i); destruct (Nat.eqb_spec b j); cbn; auto. lia.
Qed.

(** Loop rules *)
Lemma for_empty {S} lo hi body (s : S) : hi <= lo -> for_ lo hi body s = s.
Proof. intros H. unfold for_. replace (hi - lo) with 0 by lia. reflexivity. Qed.

Lemma for_ind {S} (P : nat -> S -> Prop) lo hi body : forall s,
  lo <= hi -> P lo s ->
  (forall i s, lo <= i < hi -> P i s -> P (Datatypes.S i) (body i s)) ->
  P hi (for_ lo hi body s).
Proof.
  unfold for_. remember (hi - lo) as n eqn:E. revert lo E.
  induction n as [|n IH]; intros lo E s Hl H0 Hs; cbn [seq fold_left].
  - replace hi with lo by lia. exact H0.
  - apply IH; try lia; [apply Hs; auto; lia|]. intros. apply Hs; auto; lia.
Qed.

Lemma for_S {S} lo hi body (s : S) : lo <= hi ->
  for_ lo (Datatypes.S hi) body s = body hi (for_ lo hi body s).
Proof.
  intros H. unfold for_. replace (Datatypes.S hi - lo) with (Datatypes.S (hi - lo)) by lia.
  rewrite seq_S, fold_left_app. cbn. f_equal. lia.
Qed.

Lemma for_ext {S} lo hi b1 b2 (s : S) : (forall i s, lo <= i < hi -> b1 i s = b2 i s) ->
  for_ lo hi b1 s = for_ lo hi b2 s.
Proof.
  unfold for_. remember (hi - lo) as n eqn:E. revert lo E s.
  induction n as [|n IH]; intros lo E s H; cbn [seq fold_left]; [reflexivity|].
  rewrite H by lia. apply IH; [lia|]. intros. apply H. lia.
Qed.

Lemma forM_ind {S} (P : nat -> S -> Prop) lo hi body : forall s,
  lo <= hi -> P lo s ->
  (forall i s, lo <= i < hi -> P i s -> exists s', body i s = Some s' /\ P (Datatypes.S i) s') ->
  exists s', forM lo hi body s = Some s' /\ P hi s'.
Proof.
  unfold forM. remember (hi - lo) as n eqn:E. revert lo E.
  induction n as [|n IH]; intros lo E s Hl H0 Hs; cbn [seq forL].
  - exists s. replace hi with lo by lia. auto.
  - destruct (Hs lo s ltac:(lia) H0) as (s' & Es & Hs'). rewrite Es.
    apply IH; auto; try lia. intros. apply Hs; auto; lia.
Qed.

(* what a loop that ended normally went through *)
Lemma forM_some_ind {S} (P : nat -> S -> Prop) lo hi body : forall s r,
  lo <= hi -> P lo s -> forM lo hi body s = Some r ->
  (forall i s s', lo <= i < hi -> P i s -> body i s = Some s' -> P (Datatypes.S i) s') ->
  P hi r.
Proof.
  unfold forM. remember (hi - lo) as n eqn:E. revert lo E.
  induction n as [|n IH]; intros lo E s r Hl H0 Hr Hs; cbn [seq forL] in Hr.
  - inversion Hr; subst. replace hi with lo by lia. exact H0.
  - destruct (body lo s) as [s'|] eqn:Eb; [|discriminate].
    apply (IH (Datatypes.S lo) ltac:(lia) s' r); auto; try lia.
    + eapply Hs; eauto. lia.
    + intros. eapply Hs; eauto. lia.
Qed.

(* where a loop that stopped early stopped *)
Lemma forM_none_ind {S} (P : nat -> S -> Prop) lo hi body : forall s,
  P lo s -> forM lo hi body s = None ->
  (forall i s s', lo <= i < hi -> P i s -> body i s = Some s' -> P (Datatypes.S i) s') ->
  exists i s', lo <= i < hi /\ P i s' /\ body i s' = None.
Proof.
  unfold forM. remember (hi - lo) as n eqn:E. revert lo E.
  induction n as [|n IH]; intros lo E s H0 Hr Hs; cbn [seq forL] in Hr; [discriminate|].
  destruct (body lo s) as [s'|] eqn:Eb.
  - destruct (IH (Datatypes.S lo) ltac:(lia) s') as (i & t & A & B & C); auto.
    + eapply Hs; eauto. lia.
    + intros. eapply Hs; eauto. lia.
    + exists i, t. repeat split; auto; lia.
  - exists lo, s. repeat split; auto; lia.
Qed.

Lemma while_ind {S} (P : S -> Prop) (m : S -> nat) fuel c b : forall s,
  P s -> m s <= fuel ->
  (forall s, P s -> c s = true -> exists s', b s = Some s' /\ P s' /\ m s' < m s) ->
  exists s', while_ fuel c b s = Some s' /\ P s' /\ c s' = false.
Proof.
  induction fuel as [|f IH]; intros s H0 Hm Hs; cbn [while_]; destruct (c s) eqn:C;
    try (exists s; auto; fail).
  - destruct (Hs s H0 C) as (s' & _ & _ & L). lia.
  - destruct (Hs s H0 C) as (s' & E & P' & L). rewrite E. apply IH; auto. lia.
Qed.

Lemma Rltb_true x y : Rltb x y = true <-> (x < y)%R.
Proof. unfold Rltb. destruct (Rlt_dec x y); split; auto; congruence. Qed.
Lemma Rltb_false x y : Rltb x y = false <-> (y <= x)%R.
Proof. unfold Rltb. destruct (Rlt_dec x y); split; auto; try congruence; lra. Qed.
Lemma Rleb_true x y : Rleb x y = true <-> (x <= y)%R.
Proof. unfold Rleb. destruct (Rle_dec x y); split; auto; congruence. Qed.
Lemma Rleb_false x y : Rleb x y = false <-> (y < x)%R.
Proof. unfold Rleb. destruct (Rle_dec x y); split; auto; try congruence; lra. Qed.
Lemma Reqb_true x y : Reqb x y = true <-> x = y.
Proof. unfold Reqb. destruct (Req_EM_T x y); split; auto; congruence. Qed.
Lemma Reqb_false x y : Reqb x y = false <-> x <> y.
Proof. unfold Reqb. destruct (Req_EM_T x y); split; auto; congruence. Qed.
