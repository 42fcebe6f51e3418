(** The Cholesky factorization: what success and failure mean. *)
From Coq Require Import Reals List Arith Lia Lra Bool.
From Verif Require Import Scalar RSum LinModel LinSpec LinProofs DetSpec SolveModel SolveProofs.
Import ListNotations.
Local Open Scope R_scope.

Definition posdef (N : nat) (a : mat) : Prop :=
  forall x : vec, (exists i, (i < N)%nat /\ x i <> 0) ->
    0 < sum N (fun i => sum N (fun j => x i * a i j * x j)).
Definition symmetric (N : nat) (a : mat) : Prop :=
  forall i j, (i < N)%nat -> (j < N)%nat -> a i j = a j i.

Section Chol.
Context (N : nat) (a : mat).

(* entry (r, c) of L L^T, c <= r, reproduces a *)
Definition entry_ok (l : mat) (r c : nat) : Prop := sum (S c) (fun k => l r k * l c k) = a r c.

Definition rows_ok (n : nat) (l : mat) : Prop :=
  (forall r c, (r < n)%nat -> (c <= r)%nat -> entry_ok l r c) /\
  (forall r, (r < n)%nat -> 0 < l r r) /\
  (forall r c, (r < n)%nat -> (r < c < N)%nat -> l r c = 0).
(* rows below i are final and row i is final up to column j *)
Definition part_ok (i j : nat) (l : mat) : Prop :=
  rows_ok i l /\ (forall c, (c < j)%nat -> entry_ok l i c) /\ ((i < j)%nat -> 0 < l i i).

Lemma entry_ext (l l' : mat) r c : (forall k, (k <= c)%nat -> l' r k = l r k /\ l' c k = l c k) ->
  entry_ok l r c -> entry_ok l' r c.
Proof.
  unfold entry_ok. intros H <-. apply sum_ext. intros k Hk. destruct (H k ltac:(lia)) as [-> ->]. reflexivity.
Qed.

Lemma chol_value l i j : chol_entry Rops a l i j =
  let s := a i j - sum j (fun k => l i k * l j k) in
  if (i =? j)%nat then (if Rleb s 0 then None else Some (sqrt s)) else Some (s / l j j).
Proof. unfold chol_entry. rewrite loop_sub0. reflexivity. Qed.

Lemma chol_col i j l v : (j <= i)%nat -> (i < N)%nat -> part_ok i j l ->
  chol_entry Rops a l i j = Some v -> part_ok i (S j) (upd2 l i j v).
Proof.
  intros Hj Hi (R & C & _) E. rewrite chol_value in E. cbv zeta in E.
  set (s := a i j - sum j (fun k => l i k * l j k)) in *.
  assert (forall r k, (r <> i \/ k <> j) -> upd2 l i j v r k = l r k) as Ot by (intros; apply upd2_other; auto).
  destruct R as (R1 & R2 & R3).
  assert (0 < v \/ (j < i)%nat) as Vp.
  { destruct (Nat.eqb_spec i j); [|right; lia]. left. destruct (Rleb s 0) eqn:Z; [discriminate|].
    apply Rleb_false in Z. inversion E. apply sqrt_lt_R0. lra. }
  split; [split; [|split]|split].
  - intros r c Hr Hc. apply (entry_ext l); auto. intros k Hk. split; apply Ot; lia.
  - intros r Hr. rewrite Ot by lia. auto.
  - intros r c Hr Hc. rewrite Ot by lia. auto.
  - intros c Hc. destruct (Nat.eq_dec c j) as [->|Nc].
    + unfold entry_ok. cbn [sum].
      rewrite (sum_ext j _ (fun k => l i k * l j k)).
      2:{ intros k Hk. rewrite !Ot by lia. reflexivity. }
      rewrite upd2_same.
      destruct (Nat.eqb_spec i j) as [<-|Ne].
      * rewrite upd2_same. destruct (Rleb s 0) eqn:Z; [discriminate|]. apply Rleb_false in Z. inversion E.
        rewrite sqrt_sqrt by lra. unfold s. ring.
      * rewrite Ot by lia. inversion E. specialize (R2 j ltac:(lia)). unfold s. field. lra.
    + apply (entry_ext l); [|apply C; lia]. intros k Hk. split; apply Ot; lia.
  - intros Hij. replace j with i in * by lia. rewrite upd2_same. destruct Vp; auto. lia.
Qed.

Definition chol_row (i : nat) (l : mat) : option mat :=
  forM 0 (S i) (fun j l => option_map (upd2 l i j) (chol_entry Rops a l i j)) l.

Lemma chol_row_some i l l' : (i < N)%nat -> rows_ok i l -> chol_row i l = Some l' -> part_ok i (S i) l'.
Proof.
  intros Hi R E. apply (forM_some_ind (part_ok i) 0 (S i) _ _ _ (Nat.le_0_l _)) with (2 := E).
  - split; auto. split; intros; lia.
  - intros j s s' Hj P Es. destruct (chol_entry Rops a s i j) as [v|] eqn:Ev; [|discriminate].
    inversion Es. apply chol_col; auto; lia.
Qed.
Lemma chol_row_none i l : (i < N)%nat -> rows_ok i l -> chol_row i l = None ->
  exists l', part_ok i i l' /\ a i i - sum i (fun k => l' i k * l' i k) <= 0.
Proof.
  intros Hi R E.
  destruct (forM_none_ind (part_ok i) 0 (S i) _ l ltac:(split; auto; split; intros; lia) E) as (j & s & Hj & P & En).
  - intros j s s' Hj P Es. destruct (chol_entry Rops a s i j) as [v|] eqn:Ev; [|discriminate].
    inversion Es. apply chol_col; auto; lia.
  - rewrite chol_value in En. cbv zeta in En. destruct (Nat.eqb_spec i j) as [<-|]; [|discriminate].
    exists s. split; auto. destruct (Rleb _ 0) eqn:Z; [|discriminate]. apply Rleb_true in Z. exact Z.
Qed.

Lemma chol_clear i l : (i < N)%nat -> part_ok i (S i) l ->
  rows_ok (S i) (for_ (S i) N (fun j l => upd2 l i j 0) l).
Proof.
  intros Hi ((R1 & R2 & R3) & C & P).
  assert (forall r c, for_ (S i) N (fun j l => upd2 l i j 0) l r c =
     if (r =? i)%nat && (i <? c)%nat && (c <? N)%nat then 0 else l r c) as E.
  { apply (for_ind (fun n s => forall r c, s r c = if (r =? i)%nat && (i <? c)%nat && (c <? n)%nat then 0 else l r c)).
    - lia.
    - intros r c. destruct (Nat.ltb_spec i c); destruct (Nat.ltb_spec c (S i)); rewrite ?andb_false_r; auto; lia.
    - intros n s Hn E r c. unfold upd2. rewrite E. destruct (Nat.eqb_spec r i); cbn [andb]; auto.
      destruct (Nat.eqb_spec c n) as [->|]; [rewrite (proj2 (Nat.ltb_lt i n)), (proj2 (Nat.ltb_lt n (S n))) by lia; reflexivity|].
      destruct (i <? c)%nat; cbn [andb]; auto. destruct (Nat.ltb_spec c n); destruct (Nat.ltb_spec c (S n)); auto; lia. }
  assert (forall r c, (r <> i \/ c <= i)%nat -> for_ (S i) N (fun j l => upd2 l i j 0) l r c = l r c) as Ot.
  { intros r c H. rewrite E. destruct (Nat.eqb_spec r i); cbn [andb]; auto.
    rewrite (proj2 (Nat.ltb_ge i c)) by lia. reflexivity. }
  split; [|split].
  - intros r c Hr Hc. apply (entry_ext l).
    + intros k Hk. split; apply Ot; lia.
    + destruct (Nat.eq_dec r i) as [->|]; [apply C; lia|apply R1; lia].
  - intros r Hr. rewrite Ot by lia. destruct (Nat.eq_dec r i) as [->|]; [apply P; lia|apply R2; lia].
  - intros r c Hr Hc. destruct (Nat.eq_dec r i) as [->|].
    + rewrite E, Nat.eqb_refl, (proj2 (Nat.ltb_lt i c)), (proj2 (Nat.ltb_lt c N)) by lia. reflexivity.
    + rewrite Ot by lia. apply R3; lia.
Qed.

Lemma rows_ok_0 l : rows_ok 0 l.
Proof. repeat split; intros; lia. Qed.

Lemma cholesky_some l : cholesky_lower Rops N a = Some l -> rows_ok N l.
Proof.
  intros H. apply (forM_some_ind rows_ok 0 N _ _ _ (Nat.le_0_l _) (rows_ok_0 _) H).
  intros i s s' Hi R E. change (forM 0 (S i) _ s) with (chol_row i s) in E.
  destruct (chol_row i s) as [l'|] eqn:Er; [|discriminate]. inversion E. apply chol_clear; [lia|].
  apply (chol_row_some i s); auto; lia.
Qed.
Lemma cholesky_none : cholesky_lower Rops N a = None ->
  exists i l, (i < N)%nat /\ part_ok i i l /\ a i i - sum i (fun k => l i k * l i k) <= 0.
Proof.
  intros H. destruct (forM_none_ind rows_ok 0 N _ _ (rows_ok_0 _) H) as (i & s & Hi & R & E).
  - intros i s s' Hi R E. change (forM 0 (S i) _ s) with (chol_row i s) in E.
    destruct (chol_row i s) as [l'|] eqn:Er; [|discriminate]. inversion E. apply chol_clear; [lia|].
    apply (chol_row_some i s); auto; lia.
  - change (forM 0 (S i) _ s) with (chol_row i s) in E. destruct (chol_row i s) as [l'|] eqn:Er; [discriminate|].
    destruct (chol_row_none i s ltac:(lia) R Er) as (l' & P & Z). exists i, l'. split; [lia|]. auto.
Qed.

(** The product of the factor with its transpose *)
Lemma chol_product l : rows_ok N l -> symmetric N a ->
  forall i j, (i < N)%nat -> (j < N)%nat -> sum N (fun k => l i k * l j k) = a i j.
Proof.
  intros (R1 & R2 & R3) Sy.
  assert (forall i j, (i < N)%nat -> (j <= i)%nat -> sum N (fun k => l i k * l j k) = a i j) as G.
  { intros i j Hi Hj. rewrite <- (R1 i j) by auto. apply sum_trunc; [lia|].
    intros k Hk. rewrite (R3 j k) by lia. ring. }
  intros i j Hi Hj. destruct (Nat.le_ge_cases j i); [apply G; auto|].
  rewrite Sy by auto. rewrite <- G by auto. apply sum_ext. intros; ring.
Qed.

Lemma quad_form l n (b : mat) (x : vec) :
  (forall i j, (i < n)%nat -> (j < n)%nat -> b i j = sum n (fun k => l i k * l j k)) ->
  sum n (fun i => sum n (fun j => x i * b i j * x j)) = sum n (fun k => Rsqr (sum n (fun i => l i k * x i))).
Proof.
  intros H. rewrite (sum_ext n _ (fun i => sum n (fun k => (l i k * x i) * sum n (fun j => l j k * x j)))).
  - rewrite sum_swap. apply sum_ext. intros k Hk. rewrite sum_scal_r. reflexivity.
  - intros i Hi. rewrite (sum_ext n _ (fun j => sum n (fun k => x i * l i k * (l j k * x j)))).
    + rewrite sum_swap. apply sum_ext. intros k Hk. rewrite sum_scal. f_equal. ring.
    + intros j Hj. rewrite H by auto. rewrite <- sum_scal, <- sum_scal_r. apply sum_ext. intros; ring.
Qed.

Lemma chol_diag l : rows_ok N l -> forall i, (i < N)%nat -> l i i <> 0.
Proof. intros (_ & R & _) i Hi. specialize (R i Hi). lra. Qed.

(* L^T x as an upper triangular product *)
Lemma transpose_upper l (x : vec) k : rows_ok N l -> (k < N)%nat ->
  sum N (fun i => l i k * x i) = sum N (fun i => if (k <=? i)%nat then l i k * x i else 0).
Proof.
  intros (_ & _ & R3) Hk. apply sum_ext. intros i Hi. destruct (Nat.leb_spec k i); auto.
  rewrite (R3 i k) by lia. ring.
Qed.

Lemma chol_posdef l : rows_ok N l -> symmetric N a -> posdef N a.
Proof.
  intros R Sy x (i0 & Hi0 & Nz).
  rewrite (quad_form l N) by (intros; symmetry; apply chol_product; auto).
  assert (0 <= sum N (fun k => Rsqr (sum N (fun i => l i k * x i)))) as P by (apply sum_pos; intros; apply Rle_0_sqr).
  destruct (Rle_lt_or_eq_dec _ _ P) as [|E]; auto. exfalso. apply Nz.
  apply (upper_injective N (fun k i => l i k) x); auto; [apply chol_diag; auto|].
  intros k Hk. rewrite <- transpose_upper by auto.
  apply Rsqr_0_uniq. apply (sum_pos_zero N _ ltac:(intros; apply Rle_0_sqr) (eq_sym E) k Hk).
Qed.

Lemma chol_not_posdef i l : (i < N)%nat -> part_ok i i l -> symmetric N a ->
  a i i - sum i (fun k => l i k * l i k) <= 0 ->
  exists x, (exists i, (i < N)%nat /\ x i <> 0) /\ sum N (fun i => sum N (fun j => x i * a i j * x j)) <= 0.
Proof.
  intros Hi ((R1 & R2 & R3) & C & _) Sy Neg.
  set (z := backward Rops i (fun k r => l r k) (fun k => - l i k)).
  assert (forall k, (k < i)%nat -> sum i (fun r => if (k <=? r)%nat then l r k * z r else 0) = - l i k) as BS.
  { intros k Hk. apply (backward_spec i (fun k r => l r k) (fun k => - l i k)); auto.
    intros m Hm. specialize (R2 m Hm). lra. }
  set (x := fun j => if (j <? i)%nat then z j else if (j =? i)%nat then 1 else 0).
  exists x. split.
  - exists i. split; auto. unfold x. rewrite (proj2 (Nat.ltb_ge i i)), Nat.eqb_refl by lia. lra.
  - assert (forall j, (S i <= j)%nat -> x j = 0) as X0.
    { intros j Hj. unfold x. rewrite (proj2 (Nat.ltb_ge j i)), (proj2 (Nat.eqb_neq j i)) by lia. reflexivity. }
    (* the factor as a square matrix of side i+1, with last diagonal entry zero *)
    set (m := fun r k => if (k <? i)%nat && (k <=? r)%nat then l r k else 0).
    assert (forall r c, (r <= i)%nat -> (c <= r)%nat ->
      a r c = sum (S i) (fun k => m r k * m c k) + (if (r =? i)%nat && (c =? i)%nat then a i i - sum i (fun k => l i k * l i k) else 0)) as G.
    { intros r c Hr Hc. destruct (Nat.eq_dec r i) as [->|Nr]; [destruct (Nat.eq_dec c i) as [->|Nc]|].
      - rewrite Nat.eqb_refl. cbn [andb sum]. rewrite (sum_ext i _ (fun k => l i k * l i k)).
        + unfold m. rewrite (proj2 (Nat.ltb_ge i i)) by lia. cbn [andb]. ring.
        + intros k Hk. unfold m. rewrite (proj2 (Nat.ltb_lt k i)), (proj2 (Nat.leb_le k i)) by lia. reflexivity.
      - rewrite (proj2 (Nat.eqb_neq c i)) by lia. rewrite andb_false_r, Rplus_0_r.
        rewrite <- (C c) by lia. rewrite (sum_trunc (S i) (S c)); [|lia|].
        + apply sum_ext. intros k Hk. unfold m.
          rewrite (proj2 (Nat.ltb_lt k i)), (proj2 (Nat.leb_le k i)), (proj2 (Nat.leb_le k c)) by lia. reflexivity.
        + intros k Hk. unfold m. rewrite (proj2 (Nat.leb_gt k c)) by lia. rewrite andb_false_r. ring.
      - rewrite (proj2 (Nat.eqb_neq r i)) by lia. cbn [andb]. rewrite Rplus_0_r.
        rewrite <- (R1 r c) by lia. rewrite (sum_trunc (S i) (S c)); [|lia|].
        + apply sum_ext. intros k Hk. unfold m.
          rewrite (proj2 (Nat.ltb_lt k i)), (proj2 (Nat.leb_le k r)), (proj2 (Nat.leb_le k c)) by lia. reflexivity.
        + intros k Hk. unfold m. rewrite (proj2 (Nat.leb_gt k c)) by lia. rewrite andb_false_r. ring. }
    set (dlt := a i i - sum i (fun k => l i k * l i k)) in *.
    set (b := fun r c => a r c - (if (r =? i)%nat && (c =? i)%nat then dlt else 0)).
    assert (forall r c, (r < S i)%nat -> (c < S i)%nat -> b r c = sum (S i) (fun k => m r k * m c k)) as Gb.
    { intros r c Hr Hc. unfold b. destruct (Nat.le_ge_cases c r).
      - rewrite (G r c) by lia. ring.
      - rewrite Sy by lia. rewrite (G c r) by lia. rewrite (andb_comm (r =? i)%nat).
        rewrite (sum_ext (S i) (fun k => m c k * m r k) (fun k => m r k * m c k)) by (intros; ring). ring. }
    rewrite (sum_trunc N (S i)); [|lia|].
    2:{ intros r Hr. apply sum_0. intros c Hc. rewrite (X0 r) by lia. ring. }
    rewrite (sum_ext (S i) _ (fun r => sum (S i) (fun c => x r * b r c * x c) + (if (r =? i)%nat then dlt else 0))).
    + rewrite sum_plus, (quad_form m (S i) b x Gb).
      rewrite (sum_0 (S i) (fun k => _)), (sum_one (S i) i); try lia.
      * rewrite Nat.eqb_refl. lra.
      * intros k Hk Nk. rewrite (proj2 (Nat.eqb_neq k i)) by auto. reflexivity.
      * intros k Hk. replace (sum (S i) (fun r => m r k * x r)) with 0; [apply Rsqr_0|]. symmetry.
        destruct (Nat.eq_dec k i) as [->|].
        -- apply sum_0. intros r Hr. unfold m. rewrite (proj2 (Nat.ltb_ge i i)) by lia. cbn [andb]. ring.
        -- cbn [sum]. rewrite (sum_ext i _ (fun r => if (k <=? r)%nat then l r k * z r else 0)).
           ++ rewrite BS by lia. unfold m, x.
              rewrite (proj2 (Nat.ltb_lt k i)), (proj2 (Nat.leb_le k i)), (proj2 (Nat.ltb_ge i i)), Nat.eqb_refl by lia.
              cbn [andb]. ring.
           ++ intros r Hr. unfold m, x. rewrite (proj2 (Nat.ltb_lt k i)), (proj2 (Nat.ltb_lt r i)) by lia. cbn [andb].
              destruct (k <=? r)%nat; ring.
    + intros r Hr. rewrite (sum_trunc N (S i)); [|lia|].
      2:{ intros c Hc. rewrite (X0 c) by lia. ring. }
      unfold b. destruct (Nat.eqb_spec r i) as [->|Nr].
      * rewrite (sum_ext (S i) (fun c => x i * (a i c - (if true && (c =? i)%nat then dlt else 0)) * x c)
           (fun c => x i * a i c * x c - (if (c =? i)%nat then dlt else 0))).
        -- rewrite sum_minus, (sum_one (S i) i (fun c => if (c =? i)%nat then dlt else 0)); [rewrite Nat.eqb_refl; ring|lia|].
           intros k Hk Nk. rewrite (proj2 (Nat.eqb_neq k i)) by auto. reflexivity.
        -- intros c Hc. cbn [andb]. destruct (Nat.eqb_spec c i) as [->|]; [|ring].
           unfold x. rewrite (proj2 (Nat.ltb_ge i i)), Nat.eqb_refl by lia. ring.
      * rewrite Rplus_0_r. apply sum_ext. intros c Hc. cbn [andb]. ring.
Qed.

Lemma chol_solve_spec l (b : vec) : rows_ok N l -> symmetric N a ->
  forall i, (i < N)%nat -> sum N (fun j => a i j * chol_solve Rops N l b j) = b i.
Proof.
  intros R Sy i Hi. unfold chol_solve. rewrite backward_t_eq. set (y := forward Rops N l b).
  set (x := backward Rops N (fun i j => l j i) y).
  rewrite (sum_ext N _ (fun j => sum N (fun k => l i k * (l j k * x j)))).
  2:{ intros j Hj. rewrite <- (chol_product l R Sy i j) by auto. rewrite <- sum_scal_r. apply sum_ext. intros; ring. }
  rewrite sum_swap. rewrite (sum_ext N _ (fun k => l i k * y k)).
  - rewrite <- (forward_spec N l b (chol_diag l R) i Hi). fold y. apply sum_trunc; [lia|].
    intros k Hk. destruct R as (_ & _ & R3). rewrite (R3 i k) by lia. ring.
  - intros k Hk. rewrite sum_scal. f_equal. rewrite (transpose_upper l) by auto.
    apply (backward_spec N (fun i j => l j i) y (chol_diag l R) k Hk).
Qed.
End Chol.
