(** The determinant of an n x n real matrix by expansion along the first column, with its
    defining row properties. *)
From Coq Require Import Reals Arith Lia Lra Bool.
From Verif Require Import Scalar RSum LinSpec.
Local Open Scope R_scope.

(** Row r of the matrix without row i. *)
Definition skip (i r : nat) : nat := if (r <? i)%nat then r else S r.
Fixpoint det (n : nat) (a : nat -> nat -> R) : R :=
  match n with
  | O => 1
  | S m => sum (S m) (fun i => (-1) ^ i * a i O * det m (fun r c => a (skip i r) (S c)))
  end.
Fixpoint prodR (n : nat) (f : nat -> R) : R := match n with O => 1 | S m => prodR m f * f m end.

Lemma skip_lt i r n : (i <= n)%nat -> (r < n)%nat -> (skip i r < S n)%nat.
Proof. unfold skip. destruct (Nat.ltb_spec r i); lia. Qed.
Lemma skip_ne i r : skip i r <> i.
Proof. unfold skip. destruct (Nat.ltb_spec r i); lia. Qed.

Lemma det_ext n : forall a b, eqm n n a b -> det n a = det n b.
Proof.
  induction n as [|n IH]; intros a b H; cbn [det]; auto. apply sum_ext. intros i Hi.
  rewrite (H i O) by lia. f_equal. apply IH. intros r c Hr Hc. apply H; [apply skip_lt|]; lia.
Qed.

(** position of row r in the matrix without row i, r <> i *)
Definition pos (i r : nat) : nat := if (r <? i)%nat then r else pred r.
Lemma skip_pos i r : r <> i -> skip i (pos i r) = r.
Proof. intros H. unfold skip, pos. destruct (Nat.ltb_spec r i); destruct (Nat.ltb_spec (pred r) i);
  try (destruct (Nat.ltb_spec r i)); lia. Qed.
Lemma pos_skip i r : pos i (skip i r) = r.
Proof. unfold skip, pos. destruct (Nat.ltb_spec r i).
  - rewrite (proj2 (Nat.ltb_lt r i)) by lia. reflexivity.
  - rewrite (proj2 (Nat.ltb_ge (S r) i)) by lia. reflexivity. Qed.
Lemma pos_lt i r n : (i <= n)%nat -> (r < S n)%nat -> r <> i -> (pos i r < n)%nat.
Proof. unfold pos. destruct (Nat.ltb_spec r i); lia. Qed.
Lemma skip_inj i r s : skip i r = skip i s -> r = s.
Proof. intros H. rewrite <- (pos_skip i r), <- (pos_skip i s), H. reflexivity. Qed.

(** linear in each row *)
Lemma det_row_linear n : forall r al be a b c, (r < n)%nat ->
  (forall j, (j < n)%nat -> a r j = al * b r j + be * c r j) ->
  (forall i j, (i < n)%nat -> (j < n)%nat -> i <> r -> a i j = b i j /\ a i j = c i j) ->
  det n a = al * det n b + be * det n c.
Proof.
  induction n as [|n IH]; intros r al be a b c Hr H1 H2; [lia|]. cbn [det].
  rewrite <- !sum_scal, <- sum_plus. apply sum_ext. intros i Hi.
  destruct (Nat.eq_dec i r) as [->|Ne].
  - rewrite H1 by lia.
    rewrite (det_ext n _ (fun r0 c0 => b (skip r r0) (S c0)))
      by (intros x y Hx Hy; apply H2; try lia; [apply skip_lt; lia|apply skip_ne]).
    rewrite (det_ext n (fun r0 c0 => c (skip r r0) (S c0)) (fun r0 c0 => b (skip r r0) (S c0))).
    + ring.
    + intros x y Hx Hy. destruct (H2 (skip r x) (S y)) as [E1 E2]; try lia; [apply skip_lt; lia|apply skip_ne|].
      congruence.
  - destruct (H2 i O ltac:(lia) ltac:(lia) Ne) as [E1 E2]. rewrite <- E1, <- E2.
    rewrite (IH (pos i r) al be _ (fun r0 c0 => b (skip i r0) (S c0)) (fun r0 c0 => c (skip i r0) (S c0))).
    + ring.
    + apply pos_lt; lia.
    + intros j Hj. rewrite skip_pos by lia. apply H1. lia.
    + intros x y Hx Hy Nx. apply H2; try lia; [apply skip_lt; lia|].
      intros E. apply Nx. rewrite <- E. symmetry. apply pos_skip.
Qed.

Lemma sum_two n p q f : (p < n)%nat -> (q < n)%nat -> p <> q ->
  sum n f = f p + f q + sum n (fun i => if (i =? p)%nat || (i =? q)%nat then 0 else f i).
Proof.
  intros Hp Hq Ne.
  rewrite (sum_ext n f (fun i => (if (i =? p)%nat then f p else 0) + (if (i =? q)%nat then f q else 0)
     + (if (i =? p)%nat || (i =? q)%nat then 0 else f i))).
  - rewrite !sum_plus. f_equal. f_equal.
    + rewrite (sum_one n p) by (auto; intros i Hi Ni; rewrite (proj2 (Nat.eqb_neq i p) Ni); auto).
      rewrite Nat.eqb_refl. reflexivity.
    + rewrite (sum_one n q) by (auto; intros i Hi Ni; rewrite (proj2 (Nat.eqb_neq i q) Ni); auto).
      rewrite Nat.eqb_refl. reflexivity.
  - intros i Hi. destruct (Nat.eqb_spec i p); destruct (Nat.eqb_spec i q); subst; cbn; try lia; ring.
Qed.

(** rows p and q exchanged *)
Definition tr (p q i : nat) : nat := if (i =? p)%nat then q else if (i =? q)%nat then p else i.

Lemma det_swap_adj n : forall r a, (S r < n)%nat ->
  det n (fun i j => a (tr r (S r) i) j) = - det n a.
Proof.
  induction n as [|n IH]; intros r a Hr; [lia|]. cbn [det].
  set (tb := fun i => (-1) ^ i * a (tr r (S r) i) O * det n (fun r0 c => a (tr r (S r) (skip i r0)) (S c))).
  set (ta := fun i => (-1) ^ i * a i O * det n (fun r0 c => a (skip i r0) (S c))).
  change (sum (S n) tb = - sum (S n) ta).
  rewrite (sum_two (S n) r (S r) tb), (sum_two (S n) r (S r) ta) by lia.
  assert (forall x, tr r (S r) (skip r x) = skip (S r) x) as E1.
  { intros x. unfold tr, skip.
    destruct (Nat.ltb_spec x r); destruct (Nat.ltb_spec x (S r)); try lia;
    repeat (match goal with |- context [(?u =? ?v)%nat] => destruct (Nat.eqb_spec u v) end); try lia. }
  assert (forall x, tr r (S r) (skip (S r) x) = skip r x) as E2.
  { intros x. unfold tr, skip.
    destruct (Nat.ltb_spec x r); destruct (Nat.ltb_spec x (S r)); try lia;
    repeat (match goal with |- context [(?u =? ?v)%nat] => destruct (Nat.eqb_spec u v) end); try lia. }
  assert (tb r = - ta (S r)) as T1.
  { unfold ta, tb. rewrite (det_ext n _ (fun r0 c => a (skip (S r) r0) (S c)))
      by (intros x y _ _; rewrite E1; reflexivity).
    unfold tr at 1. rewrite Nat.eqb_refl. cbn [pow]. ring. }
  assert (tb (S r) = - ta r) as T2.
  { unfold ta, tb. rewrite (det_ext n _ (fun r0 c => a (skip r r0) (S c)))
      by (intros x y _ _; rewrite E2; reflexivity).
    unfold tr at 1. rewrite Nat.eqb_refl. rewrite (proj2 (Nat.eqb_neq (S r) r)) by lia. cbn [pow]. ring. }
  rewrite T1, T2.
  assert (sum (S n) (fun i => if (i =? r)%nat || (i =? S r)%nat then 0 else tb i) =
    - sum (S n) (fun i => if (i =? r)%nat || (i =? S r)%nat then 0 else ta i)) as T3.
  { rewrite <- sum_opp. apply sum_ext. intros i Hi.
    destruct (Nat.eqb_spec i r); cbn [orb]; [ring|]. destruct (Nat.eqb_spec i (S r)); cbn [orb]; [ring|].
    unfold ta, tb. assert (tr r (S r) i = i) as -> by (unfold tr; rewrite !(proj2 (Nat.eqb_neq _ _)) by lia; auto).
    rewrite (det_ext n _ (fun r0 c => a (skip i (tr (pos i r) (S (pos i r)) r0)) (S c))).
    - rewrite (IH (pos i r) (fun x y => a (skip i x) (S y))); [ring|].
      unfold pos. destruct (Nat.ltb_spec r i); lia.
    - intros x y Hx Hy. f_equal. unfold tr, skip, pos.
      destruct (Nat.ltb_spec x i); destruct (Nat.ltb_spec r i); try lia;
      repeat (match goal with
        | |- context [(?u =? ?v)%nat] => destruct (Nat.eqb_spec u v)
        | |- context [(?u <? ?v)%nat] => destruct (Nat.ltb_spec u v) end); try lia. }
  rewrite T3. ring.
Qed.

Lemma det_swap n : forall d p a, (p + S d < n)%nat ->
  det n (fun i j => a (tr p (p + S d) i) j) = - det n a.
Proof.
  induction d as [|d IH]; intros p a H.
  - replace (p + 1)%nat with (S p) by lia. apply det_swap_adj. lia.
  - rewrite (det_ext n _ (fun i j => a (tr p (S p) (tr (S p) (S p + S d) (tr p (S p) i))) j)).
    + rewrite (det_swap_adj n p (fun i j => a (tr p (S p) (tr (S p) (S p + S d) i)) j)) by lia.
      rewrite (IH (S p) (fun i j => a (tr p (S p) i) j)) by lia.
      rewrite det_swap_adj by lia. ring.
    + intros i j _ _. f_equal. unfold tr.
      repeat (match goal with |- context [(?u =? ?v)%nat] =>
        lazymatch u with context [if _ then _ else _] => fail | _ => destruct (Nat.eqb_spec u v) end end); lia.
Qed.

Lemma det_swap_rows n p q a : (p < n)%nat -> (q < n)%nat -> p <> q ->
  det n (fun i j => a (tr p q i) j) = - det n a.
Proof.
  intros Hp Hq Ne. destruct (Nat.lt_ge_cases p q) as [L|L].
  - replace q with (p + S (q - p - 1))%nat by lia. apply det_swap. lia.
  - rewrite (det_ext n _ (fun i j => a (tr q (q + S (p - q - 1)) i) j)).
    + apply det_swap. lia.
    + intros i j _ _. f_equal. replace (q + S (p - q - 1))%nat with p by lia. unfold tr.
      destruct (Nat.eqb_spec i p); destruct (Nat.eqb_spec i q); lia.
Qed.

Lemma det_equal_rows n p q a : (p < n)%nat -> (q < n)%nat -> p <> q ->
  (forall j, (j < n)%nat -> a p j = a q j) -> det n a = 0.
Proof.
  intros Hp Hq Ne H. pose proof (det_swap_rows n p q a Hp Hq Ne) as S.
  rewrite (det_ext n _ a) in S; [lra|]. intros i j Hi Hj. unfold tr.
  destruct (Nat.eqb_spec i p) as [->|]; [symmetry; auto|].
  destruct (Nat.eqb_spec i q) as [->|]; auto.
Qed.

Lemma det_add_row n r k f a b : (r < n)%nat -> (k < n)%nat -> r <> k ->
  (forall j, (j < n)%nat -> b r j = a r j + f * a k j) ->
  (forall i j, (i < n)%nat -> (j < n)%nat -> i <> r -> b i j = a i j) ->
  det n b = det n a.
Proof.
  intros Hr Hk Ne H1 H2.
  rewrite (det_row_linear n r 1 f b a (fun i j => if (i =? r)%nat then a k j else a i j)); auto.
  - rewrite (det_equal_rows n r k (fun i j => if (i =? r)%nat then a k j else a i j)); auto; [ring|].
    intros j Hj. rewrite Nat.eqb_refl. rewrite (proj2 (Nat.eqb_neq k r)) by lia. reflexivity.
  - intros j Hj. rewrite Nat.eqb_refl, H1 by auto. ring.
  - intros i j Hi Hj Ni. rewrite (proj2 (Nat.eqb_neq i r) Ni). split; apply H2; auto.
Qed.

Lemma det_upper n : forall a, (forall i j, (i < n)%nat -> (j < i)%nat -> a i j = 0) ->
  det n a = prodR n (fun i => a i i).
Proof.
  assert (forall n f, prodR (S n) f = f O * prodR n (fun i => f (S i))) as PS.
  { induction n0 as [|m IH]; intros f; [cbn; ring|]. change (prodR (S (S m)) f) with (prodR (S m) f * f (S m)).
    rewrite IH. cbn [prodR]. ring. }
  induction n as [|n IH]; intros a H; [reflexivity|]. rewrite PS. cbn [det].
  rewrite (sum_one (S n) O); [|lia|].
  - rewrite IH.
    + cbn [pow]. rewrite Rmult_1_l. f_equal.
    + intros i j Hi Hj. unfold skip. cbn. apply H; lia.
  - intros i Hi Ni. rewrite H by lia. ring.
Qed.

Lemma det_1 a : det 1 a = a O O.
Proof. cbn. ring. Qed.
(** Leibniz formulas *)
Lemma det_2 a : det 2 a = a 0%nat 0%nat * a 1%nat 1%nat - a 0%nat 1%nat * a 1%nat 0%nat.
Proof. unfold det, sum, skip. cbn. ring. Qed.
Lemma det_3 a : det 3 a =
    a 0%nat 0%nat * a 1%nat 1%nat * a 2%nat 2%nat + a 0%nat 1%nat * a 1%nat 2%nat * a 2%nat 0%nat
  + a 0%nat 2%nat * a 1%nat 0%nat * a 2%nat 1%nat - a 0%nat 2%nat * a 1%nat 1%nat * a 2%nat 0%nat
  - a 0%nat 1%nat * a 1%nat 0%nat * a 2%nat 2%nat - a 0%nat 0%nat * a 1%nat 2%nat * a 2%nat 1%nat.
Proof. unfold det, sum, skip. cbn. ring. Qed.
