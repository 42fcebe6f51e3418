(** Proofs about the solvers: loops, triangular systems, elimination. *)
From Coq Require Import Reals QArith List Arith Lia Lra Bool.
From Verif Require Import Scalar RSum LinModel LinSpec LinProofs DetSpec SolveModel.
Import ListNotations.
Local Open Scope nat_scope.

Section Gen.
Context {F : Type} (o : ops F).
Notation mat := (nat -> nat -> F).
Notation vec := (nat -> F).

Lemma swap_rows_spec N k p (a : mat) r c :
  swap_rows N k p a r c = if c <? N then a (tr k p r) c else a r c.
Proof.
  unfold swap_rows.
  assert (forall n, for_ 0 n (fun c a => let t := a k c in upd2 (upd2 a k c (a p c)) p c t) a r c
    = if c <? n then a (tr k p r) c else a r c) as G.
  { intros n. apply (for_ind (fun n s => forall r, s r c = if c <? n then a (tr k p r) c else a r c)); [lia|reflexivity|].
    clear r. intros j s Hj E r. cbv zeta. unfold upd2. rewrite !E.
    destruct (Nat.eqb_spec c j) as [->|Nc].
    - rewrite (proj2 (Nat.ltb_ge j j)), (proj2 (Nat.ltb_lt j (S j))) by lia. rewrite !andb_true_r. unfold tr.
      destruct (Nat.eqb_spec r p); destruct (Nat.eqb_spec r k); subst; rewrite ?E, ?(proj2 (Nat.ltb_ge j j)) by lia; auto.
    - rewrite !andb_false_r. destruct (Nat.ltb_spec c j); destruct (Nat.ltb_spec c (S j)); auto; lia. }
  apply G.
Qed.

Lemma swap_nat_tr (q : nat -> nat) k p i : swap_nat q k p i = q (tr k p i).
Proof. unfold swap_nat, tr. destruct (i =? k); auto. destruct (i =? p); auto. Qed.

Lemma det_eliminate_spec N k (a : mat) r c : k < N ->
  det_eliminate o N k a r c =
  if (k <? r) && (r <? N) && (k <? c) && (c <? N)
  then sub o (a r c) (mul o (div o (a r k) (a k k)) (a k c)) else a r c.
Proof.
  intros Hk. unfold det_eliminate. cbv zeta. set (pivot := a k k).
  apply (for_ind (fun n s => forall r c, s r c = if (k <? r) && (r <? n) && (k <? c) && (c <? N)
     then sub o (a r c) (mul o (div o (a r k) pivot) (a k c)) else a r c)); [lia| |].
  - intros x y. destruct (Nat.ltb_spec k x); destruct (Nat.ltb_spec x (S k)); cbn; auto; lia.
  - clear r c. intros i s Hi E r c.
    assert (s i k = a i k) as Ek.
    { rewrite E, (proj2 (Nat.ltb_ge k k)) by lia. rewrite andb_false_r. reflexivity. }
    rewrite Ek. set (f := div o (a i k) pivot).
    assert (forall j, s k j = a k j) as Er.
    { intros j. rewrite E, (proj2 (Nat.ltb_ge k k)) by lia. reflexivity. }
    assert (for_ (S k) N (fun c a => upd2 a i c (sub o (a i c) (mul o f (a k c)))) s r c =
      if (r =? i) && (k <? c) && (c <? N) then sub o (a i c) (mul o f (a k c)) else s r c) as G.
    { apply (for_ind (fun n t => forall r c, t r c = if (r =? i) && (k <? c) && (c <? n)
        then sub o (a i c) (mul o f (a k c)) else s r c)); [lia| |].
      - intros x y. destruct (Nat.ltb_spec k y); destruct (Nat.ltb_spec y (S k)); try lia;
          rewrite ?andb_false_r; cbn [andb]; rewrite ?andb_false_r; reflexivity.
      - clear r c. intros j t Hj Et r c. unfold upd2. rewrite !Et.
        rewrite Nat.eqb_refl. rewrite (proj2 (Nat.eqb_neq k i)) by lia. cbn [andb]. rewrite Er.
        rewrite (proj2 (Nat.ltb_ge j j)) by lia. rewrite andb_false_r.
        assert (s i j = a i j) as -> by (rewrite E, (proj2 (Nat.ltb_ge i i)) by lia; rewrite andb_false_r; reflexivity).
        destruct (Nat.eqb_spec r i) as [->|]; cbn [andb]; [|reflexivity].
        destruct (Nat.eqb_spec c j) as [->|].
        + rewrite (proj2 (Nat.ltb_lt k j)), (proj2 (Nat.ltb_lt j (S j))) by lia. reflexivity.
        + destruct (Nat.ltb_spec k c); cbn [andb]; auto.
          destruct (Nat.ltb_spec c j); destruct (Nat.ltb_spec c (S j)); auto; lia. }
    rewrite G, E. destruct (Nat.eqb_spec r i) as [->|].
    + rewrite (proj2 (Nat.ltb_lt k i)), (proj2 (Nat.ltb_lt i (S i))), (proj2 (Nat.ltb_ge i i)) by lia.
      cbn [andb]. reflexivity.
    + cbn [andb]. destruct (Nat.ltb_spec r i); destruct (Nat.ltb_spec r (S i)); auto; lia.
Qed.

Lemma lu_eliminate_spec N k (a : mat) r c : k < N ->
  lu_eliminate o N k a r c =
  if (k <? r) && (r <? N)
  then (if c =? k then div o (a r k) (a k k)
        else if (k <? c) && (c <? N) then sub o (a r c) (mul o (div o (a r k) (a k k)) (a k c)) else a r c)
  else a r c.
Proof.
  intros Hk. unfold lu_eliminate. cbv zeta. set (pivot := a k k).
  set (T := fun r c => if c =? k then div o (a r k) pivot
        else if (k <? c) && (c <? N) then sub o (a r c) (mul o (div o (a r k) pivot) (a k c)) else a r c).
  apply (for_ind (fun n s => forall r c, s r c = if (k <? r) && (r <? n) then T r c else a r c)); [lia| |].
  - intros x y. destruct (Nat.ltb_spec k x); destruct (Nat.ltb_spec x (S k)); cbn; auto; lia.
  - clear r c. intros i s Hi E r c.
    assert (forall j, s i j = a i j) as Ei.
    { intros j. rewrite E, (proj2 (Nat.ltb_ge i i)) by lia. rewrite andb_false_r. reflexivity. }
    assert (forall j, s k j = a k j) as Er.
    { intros j. rewrite E, (proj2 (Nat.ltb_ge k k)) by lia. reflexivity. }
    rewrite upd2_same. rewrite Ei. set (f := div o (a i k) pivot).
    set (s1 := upd2 s i k f).
    assert (for_ (S k) N (fun c a => upd2 a i c (sub o (a i c) (mul o f (a k c)))) s1 r c =
      if (r =? i) && (k <? c) && (c <? N) then sub o (a i c) (mul o f (a k c)) else s1 r c) as G.
    { apply (for_ind (fun n t => forall r c, t r c = if (r =? i) && (k <? c) && (c <? n)
        then sub o (a i c) (mul o f (a k c)) else s1 r c)); [lia| |].
      - intros x y. destruct (Nat.ltb_spec k y); destruct (Nat.ltb_spec y (S k)); try lia;
          rewrite ?andb_false_r; cbn [andb]; rewrite ?andb_false_r; reflexivity.
      - clear r c. intros j t Hj Et r c. unfold upd2 at 1. rewrite !Et.
        rewrite Nat.eqb_refl. rewrite (proj2 (Nat.eqb_neq k i)) by lia. cbn [andb].
        rewrite (proj2 (Nat.ltb_ge j j)) by lia. rewrite andb_false_r.
        assert (s1 k j = a k j) as -> by (unfold s1; rewrite upd2_other by lia; apply Er).
        assert (s1 i j = a i j) as -> by (unfold s1; rewrite upd2_other by lia; apply Ei).
        destruct (Nat.eqb_spec r i) as [->|]; cbn [andb]; [|reflexivity].
        destruct (Nat.eqb_spec c j) as [->|].
        + rewrite (proj2 (Nat.ltb_lt k j)), (proj2 (Nat.ltb_lt j (S j))) by lia. reflexivity.
        + destruct (Nat.ltb_spec k c); cbn [andb]; auto.
          destruct (Nat.ltb_spec c j); destruct (Nat.ltb_spec c (S j)); auto; lia. }
    rewrite G. unfold s1, upd2. destruct (Nat.eqb_spec r i) as [->|].
    + rewrite (proj2 (Nat.ltb_lt k i)), (proj2 (Nat.ltb_lt i (S i))) by lia. cbn [andb]. unfold T. fold f.
      rewrite Ei. destruct (Nat.eqb_spec c k) as [->|].
      * rewrite (proj2 (Nat.ltb_ge k k)) by lia. reflexivity.
      * reflexivity.
    + cbn [andb]. rewrite E. destruct (Nat.ltb_spec r i); destruct (Nat.ltb_spec r (S i)); auto; lia.
Qed.
End Gen.

Local Open Scope R_scope.
Notation mat := (nat -> nat -> R).
Notation vec := (nat -> R).

Lemma find_pivot_spec N k (a : mat) : (k < N)%nat ->
  let '(p, v) := find_pivot Rops N k a in
  (k <= p < N)%nat /\ v = Rabs (a p k) /\ forall r, (k <= r < N)%nat -> Rabs (a r k) <= v.
Proof.
  intros Hk. unfold find_pivot.
  match goal with |- context [for_ _ _ ?b ?s] =>
    assert ((fun n (st : nat * R) => (k <= fst st < N)%nat /\ snd st = Rabs (a (fst st) k) /\
      forall r, (k <= r < n)%nat -> Rabs (a r k) <= snd st) N (for_ (S k) N b s)) as G end.
  { apply for_ind; [lia| |].
    - cbn. repeat split; try lia. intros r Hr. replace r with k by lia. lra.
    - intros r [p v] Hr (H1 & H2 & H3). cbn [fst snd] in *. cbn [absf ltb Rops].
      destruct (Rltb v (Rabs (a r k))) eqn:E; cbn [fst snd].
      + apply Rltb_true in E. repeat split; try lia. intros x Hx.
        destruct (Nat.eq_dec x r) as [->|]; [lra|]. specialize (H3 x ltac:(lia)). lra.
      + apply Rltb_false in E. repeat split; auto; try lia. intros x Hx.
        destruct (Nat.eq_dec x r) as [->|]; [lra|]. apply H3. lia. }
  destruct (for_ (S k) N _ _) as [p v]. exact G.
Qed.

(** Partial sums in loops *)
Lemma loop_sub lo n (f : nat -> R) (x : vec) s : (lo <= n)%nat ->
  for_ lo n (fun j s => sub Rops s (mul Rops (f j) (x j))) s =
  s - sum n (fun j => if (lo <=? j)%nat then f j * x j else 0).
Proof.
  intros H. apply (for_ind (fun m t => t = s - sum m (fun j => if (lo <=? j)%nat then f j * x j else 0))); auto.
  - rewrite sum_0; [ring|]. intros i Hi. rewrite (proj2 (Nat.leb_gt lo i)) by lia. reflexivity.
  - intros i t Hi ->. cbn [sum sub mul Rops]. rewrite (proj2 (Nat.leb_le lo i)) by lia. ring.
Qed.
Lemma loop_sub0 n (f : nat -> R) (x : vec) s :
  for_ 0 n (fun j s => sub Rops s (mul Rops (f j) (x j))) s = s - sum n (fun j => f j * x j).
Proof. rewrite loop_sub by lia. f_equal. Qed.

(** Triangular solves *)
Lemma forward_unit_spec N l (x : vec) : let y := forward_unit Rops N l x in
  forall i, (i < N)%nat -> y i + sum i (fun j => l i j * y j) = x i.
Proof.
  unfold forward_unit. cbv zeta.
  match goal with |- context [for_ 0 N ?b x] =>
    assert ((fun n (y : vec) => (forall i, (i < n)%nat -> y i + sum i (fun j => l i j * y j) = x i) /\
       forall i, (n <= i)%nat -> y i = x i) N (for_ 0 N b x)) as G end.
  { apply for_ind; [lia| |].
    - split; auto. intros; lia.
    - intros i y Hi (H1 & H2). rewrite loop_sub0. split.
      + intros r Hr. unfold upd. destruct (Nat.eqb_spec r i) as [->|].
        * match goal with |- _ + sum i ?f = _ => rewrite (sum_ext i f (fun j => l i j * y j)) end; [rewrite H2 by lia; ring|].
          intros j Hj. rewrite (proj2 (Nat.eqb_neq j i)) by lia. reflexivity.
        * match goal with |- _ + sum r ?f = _ => rewrite (sum_ext r f (fun j => l r j * y j)) end; [apply H1; lia|].
          intros j Hj. rewrite (proj2 (Nat.eqb_neq j i)) by lia. reflexivity.
      + intros r Hr. unfold upd. rewrite (proj2 (Nat.eqb_neq r i)) by lia. apply H2. lia. }
  apply G.
Qed.

Lemma forward_spec N l (x : vec) : (forall i, (i < N)%nat -> l i i <> 0) ->
  let y := forward Rops N l x in
  forall i, (i < N)%nat -> sum (S i) (fun j => l i j * y j) = x i.
Proof.
  intros D. unfold forward. cbv zeta.
  match goal with |- context [for_ 0 N ?b x] =>
    assert ((fun n (y : vec) => (forall i, (i < n)%nat -> sum (S i) (fun j => l i j * y j) = x i) /\
       forall i, (n <= i)%nat -> y i = x i) N (for_ 0 N b x)) as G end.
  { apply for_ind; [lia| |].
    - split; auto. intros; lia.
    - intros i y Hi (H1 & H2). rewrite loop_sub0. split.
      + intros r Hr. unfold upd. destruct (Nat.eq_dec r i) as [->|].
        * cbn [sum]. rewrite Nat.eqb_refl.
          match goal with |- sum i ?f + _ = _ => rewrite (sum_ext i f (fun j => l i j * y j)) end.
          -- rewrite H2 by lia. cbn [div Rops]. field. apply D. lia.
          -- intros j Hj. rewrite (proj2 (Nat.eqb_neq j i)) by lia. reflexivity.
        * match goal with |- sum (S r) ?f = _ => rewrite (sum_ext (S r) f (fun j => l r j * y j)) end; [apply H1; lia|].
          intros j Hj. rewrite (proj2 (Nat.eqb_neq j i)) by lia. reflexivity.
      + intros r Hr. unfold upd. rewrite (proj2 (Nat.eqb_neq r i)) by lia. apply H2. lia. }
  apply G.
Qed.

(* backward substitution against the upper triangle of u *)
Lemma backward_spec N u (x : vec) : (forall i, (i < N)%nat -> u i i <> 0) ->
  let y := backward Rops N u x in
  forall i, (i < N)%nat -> sum N (fun j => if (i <=? j)%nat then u i j * y j else 0) = x i.
Proof.
  intros D. unfold backward. cbv zeta.
  pose (P := fun n (y : vec) => (forall i, (N - n <= i < N)%nat ->
         sum N (fun j => if (i <=? j)%nat then u i j * y j else 0) = x i) /\
       forall i, (i < N - n)%nat -> y i = x i).
  match goal with |- context [for_ 0 N ?b x] => assert (P N (for_ 0 N b x)) as G end.
  { apply (for_ind P); unfold P; [lia| |].
    - split; auto. intros; lia.
    - intros n y Hn (H1 & H2). set (i := (N - 1 - n)%nat). assert (i < N)%nat as Hi by lia.
      rewrite loop_sub by lia. cbn [div Rops].
      set (v := (y i - sum N (fun j => if (S i <=? j)%nat then u i j * y j else 0)) / u i i).
      assert (forall r, (i <= r < N)%nat ->
        sum N (fun j => if (r <=? j)%nat then u r j * upd y i v j else 0) =
        (if (r =? i)%nat then u i i * v else 0) + sum N (fun j => if (Nat.max r (S i) <=? j)%nat then u r j * y j else 0)) as SU.
      { intros r Hr. destruct (Nat.eqb_spec r i) as [->|Nr].
        - rewrite (sum_ext N _ (fun j => (if (j =? i)%nat then u i i * v else 0) +
             (if (Nat.max i (S i) <=? j)%nat then u i j * y j else 0))).
          + rewrite sum_plus. f_equal. rewrite (sum_one N i); auto; [rewrite Nat.eqb_refl; reflexivity|].
            intros j Hj Nj. rewrite (proj2 (Nat.eqb_neq j i) Nj). reflexivity.
          + intros j Hj. unfold upd. destruct (Nat.eqb_spec j i) as [->|].
            * rewrite (proj2 (Nat.leb_le i i)), (proj2 (Nat.leb_gt (Nat.max i (S i)) i)) by lia. ring.
            * destruct (Nat.leb_spec i j); destruct (Nat.leb_spec (Nat.max i (S i)) j); try lia; ring.
        - rewrite Rplus_0_l. apply sum_ext. intros j Hj. unfold upd.
          destruct (Nat.leb_spec r j); destruct (Nat.leb_spec (Nat.max r (S i)) j); try lia; auto.
          rewrite (proj2 (Nat.eqb_neq j i)) by lia. reflexivity. }
      split.
      + intros r Hr. rewrite SU by lia. destruct (Nat.eqb_spec r i) as [->|Nr].
        * replace (Nat.max i (S i)) with (S i) by lia. unfold v. rewrite H2 by lia. field. apply D; auto.
        * rewrite Rplus_0_l. rewrite <- (H1 r) by lia. apply sum_ext. intros j Hj.
          replace (Nat.max r (S i)) with r by lia. reflexivity.
      + intros r Hr. unfold upd. rewrite (proj2 (Nat.eqb_neq r i)) by lia. apply H2. lia. }
  intros i Hi. apply G. lia.
Qed.

Lemma backward_t_eq N l x : backward_t Rops N l x = backward Rops N (fun i j => l j i) x.
Proof. reflexivity. Qed.

(** Nonsingular triangular systems have only the zero solution *)
Lemma upper_injective N u (z : vec) : (forall i, (i < N)%nat -> u i i <> 0) ->
  (forall i, (i < N)%nat -> sum N (fun j => if (i <=? j)%nat then u i j * z j else 0) = 0) ->
  forall i, (i < N)%nat -> z i = 0.
Proof.
  intros D H. assert (forall n i, (N - n <= i < N)%nat -> z i = 0) as G.
  { induction n as [|n IH]; intros i Hi; [lia|].
    destruct (Nat.lt_ge_cases (N - n) (S i)) as [L|L]; [apply IH; lia|].
    specialize (H i ltac:(lia)). rewrite (sum_one N i) in H; [|lia|].
    - rewrite (proj2 (Nat.leb_le i i)) in H by lia. apply Rmult_integral in H. destruct H; auto.
      exfalso. apply (D i); auto. lia.
    - intros j Hj Nj. destruct (Nat.leb_spec i j); auto. rewrite IH by lia. ring. }
  intros i Hi. apply (G N). lia.
Qed.
Lemma lower_injective N l (z : vec) : (forall i, (i < N)%nat -> l i i <> 0) ->
  (forall i, (i < N)%nat -> sum (S i) (fun j => l i j * z j) = 0) ->
  forall i, (i < N)%nat -> z i = 0.
Proof.
  intros D H. assert (forall n i, (i < n)%nat -> (i < N)%nat -> z i = 0) as G.
  { induction n as [|n IH]; intros i Hi HN; [lia|]. specialize (H i HN). cbn [sum] in H.
    rewrite sum_0 in H by (intros j Hj; rewrite IH by lia; ring).
    rewrite Rplus_0_l in H. apply Rmult_integral in H. destruct H; auto. exfalso. apply (D i); auto. }
  intros i Hi. apply (G (S i)); lia.
Qed.

(** Elimination below row k leaves the determinant alone *)
Lemma det_eliminated N k (w w' : mat) (f : nat -> R) : (k < N)%nat ->
  (forall i j, (i < N)%nat -> (j < N)%nat ->
     w' i j = if (k <? i)%nat then w i j - f i * w k j else w i j) ->
  det N w' = det N w.
Proof.
  intros Hk H.
  set (W := fun n i j => if ((k <? i) && (i <? n))%nat then w i j - f i * w k j else w i j).
  assert (forall n, (n <= N)%nat -> det N (W n) = det N w) as G.
  { induction n as [|n IH]; intros Hn.
    - apply det_ext. intros i j Hi Hj. unfold W. rewrite (proj2 (Nat.ltb_ge i 0)) by lia.
      rewrite andb_false_r. reflexivity.
    - rewrite <- IH by lia. destruct (Nat.lt_ge_cases k n) as [L|L].
      + apply (det_add_row N n k (- f n)); try lia.
        * intros j Hj. unfold W. rewrite (proj2 (Nat.ltb_lt k n)), (proj2 (Nat.ltb_lt n (S n))) by lia.
          rewrite (proj2 (Nat.ltb_ge n n)), (proj2 (Nat.ltb_ge k k)) by lia. cbn [andb]. ring.
        * intros i j Hi Hj Ni. unfold W. destruct (Nat.ltb_spec i n); destruct (Nat.ltb_spec i (S n)); auto; lia.
      + apply det_ext. intros i j Hi Hj. unfold W.
        destruct (Nat.ltb_spec k i); cbn [andb]; auto. destruct (Nat.ltb_spec i n); destruct (Nat.ltb_spec i (S n)); auto; lia. }
  rewrite <- (G N (le_n N)). apply det_ext. intros i j Hi Hj. rewrite H by auto. unfold W.
  rewrite (proj2 (Nat.ltb_lt i N) Hi), andb_true_r. reflexivity.
Qed.
