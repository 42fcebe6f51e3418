(** Invariant of the LU factorization and what its two outcomes mean. *)
From Coq Require Import Reals ZArith List Arith Lia Lra Bool.
From Verif Require Import Scalar RSum LinModel LinSpec LinProofs DetSpec SolveModel SolveProofs.
Import ListNotations.
Local Open Scope R_scope.

(** The two triangular factors packed into one matrix *)
Definition lower_of (w : mat) : mat := fun i m => if (m <? i)%nat then w i m else if (m =? i)%nat then 1 else 0.
Definition upper_of (w : mat) : mat := fun m j => if (m <=? j)%nat then w m j else 0.

(** [p] permutes [0, N): it has an inverse there *)
Definition perm (N : nat) (p : nat -> nat) : Prop :=
  exists q, forall i, (i < N)%nat -> (p i < N)%nat /\ (q i < N)%nat /\ q (p i) = i /\ p (q i) = i.

Lemma tr_lt N k p i : (k < N)%nat -> (p < N)%nat -> (i < N)%nat -> (tr k p i < N)%nat.
Proof. unfold tr. intros. destruct (i =? k)%nat; auto. destruct (i =? p)%nat; auto. Qed.
Lemma tr_tr k p i : tr k p (tr k p i) = i.
Proof.
  unfold tr. destruct (Nat.eqb_spec i k); destruct (Nat.eqb_spec i p); subst;
    rewrite ?Nat.eqb_refl; auto.
  - destruct (Nat.eqb_spec p k); auto.
  - destruct (Nat.eqb_spec i k); destruct (Nat.eqb_spec i p); auto; lia.
Qed.
Lemma perm_id N : perm N (fun i => i).
Proof. exists (fun i => i). auto. Qed.
Lemma perm_tr N p k r : perm N p -> (k < N)%nat -> (r < N)%nat -> perm N (fun i => p (tr k r i)).
Proof.
  intros (q & H) Hk Hr. exists (fun i => tr k r (q i)). intros i Hi.
  pose proof (tr_lt N k r i Hk Hr Hi) as Ht. destruct (H _ Ht) as (A & B & C & D). destruct (H _ Hi) as (A' & B' & C' & D').
  repeat split; auto.
  - apply tr_lt; auto.
  - rewrite C. apply tr_tr.
  - rewrite tr_tr. auto.
Qed.

Lemma prodR_ext n f g : (forall i, (i < n)%nat -> f i = g i) -> prodR n f = prodR n g.
Proof. induction n as [|n IH]; intros H; cbn; auto. rewrite IH, H; auto. Qed.

Section LU.
Context (N : nat) (A : mat) (eps : R) (eps_pos : 0 <= eps).

Definition packed (k : nat) (w : mat) (p : nat -> nat) : Prop :=
  forall i j, (i < N)%nat -> (j < N)%nat ->
    A (p i) j = sum k (fun m => lower_of w i m * upper_of w m j) +
                (if (k <=? i)%nat && (k <=? j)%nat then w i j else 0).
(* what is left of the matrix: the zeros below the first k pivots made explicit *)
Definition rest (k : nat) (w : mat) : mat := fun i j => if (j <? k)%nat && (j <? i)%nat then 0 else w i j.

Definition lu_inv (k : nat) (d : lu_decomp) : Prop :=
  packed k (lu d) (piv d) /\
  (forall i m, (m < k)%nat -> (m < i < N)%nat -> Rabs (lu d i m) <= 1) /\
  (forall m, (m < k)%nat -> eps < Rabs (lu d m m)) /\
  perm N (piv d) /\
  (sign d = 1 \/ sign d = -1)%Z /\
  IZR (sign d) * det N (rest k (lu d)) = det N A.

Lemma lu_inv_0 : lu_inv 0 (mkLU A (fun i => i) 1).
Proof.
  repeat split; cbn [lu piv sign]; auto; try (intros; lia); try apply perm_id.
  - intros i j Hi Hj. cbn. ring.
  - rewrite Rmult_1_l. apply det_ext. intros i j Hi Hj. unfold rest. reflexivity.
Qed.

(* a row exchange below row k *)
Lemma lu_swap k p d : (k < N)%nat -> (k <= p < N)%nat -> lu_inv k d ->
  lu_inv k (mkLU (swap_rows N k p (lu d)) (swap_nat (piv d) k p) (- sign d)) \/ p = k.
Proof.
  intros Hk Hp (P & B1 & B2 & PM & Sg & D). destruct (Nat.eq_dec p k) as [|Np]; [right; auto|left].
  assert (forall i, (i < k)%nat -> tr k p i = i) as Lo.
  { intros i Hi. unfold tr. rewrite !(proj2 (Nat.eqb_neq _ _)) by lia. reflexivity. }
  assert (forall i, (k <= i)%nat -> (k <= tr k p i)%nat) as Hi'.
  { intros i Hi. unfold tr. destruct (i =? k)%nat; try lia. destruct (i =? p)%nat; lia. }
  assert (forall i j, (j < N)%nat -> swap_rows N k p (lu d) i j = lu d (tr k p i) j) as SW.
  { intros i j Hj. rewrite swap_rows_spec. rewrite (proj2 (Nat.ltb_lt j N)) by auto. reflexivity. }
  unfold lu_inv; cbn [lu piv sign]. split; [|split; [|split; [|split; [|split]]]].
  - intros i j Hi Hj. rewrite swap_nat_tr. rewrite (P (tr k p i) j) by auto using tr_lt, (proj2 Hp).
    f_equal.
    + apply sum_ext. intros m Hm. f_equal.
      * unfold lower_of. rewrite SW by lia.
        destruct (Nat.lt_ge_cases i k) as [L|L]; [rewrite Lo by auto; reflexivity|].
        specialize (Hi' i L). rewrite (proj2 (Nat.ltb_lt m i)), (proj2 (Nat.ltb_lt m (tr k p i))) by lia. reflexivity.
      * unfold upper_of. rewrite SW, Lo by lia. reflexivity.
    + rewrite SW by auto. destruct (Nat.lt_ge_cases i k) as [L|L].
      * rewrite Lo by auto. reflexivity.
      * rewrite (proj2 (Nat.leb_le k i)), (proj2 (Nat.leb_le k (tr k p i))) by auto. reflexivity.
  - intros i m Hm Hi. rewrite SW by lia. destruct (Nat.lt_ge_cases i k) as [L|L].
    + rewrite Lo by auto. apply B1; lia.
    + apply B1; auto. specialize (Hi' i L). split; [lia|]. apply tr_lt; lia.
  - intros m Hm. rewrite SW, Lo by lia. auto.
  - destruct (perm_tr N (piv d) k p PM Hk (proj2 Hp)) as (q & Hq). exists q. intros i Hi.
    rewrite !swap_nat_tr. apply Hq; auto.
  - lia.
  - rewrite <- D. rewrite opp_IZR.
    rewrite (det_ext N (rest k (swap_rows N k p (lu d))) (fun i j => rest k (lu d) (tr k p i) j)).
    + rewrite det_swap_rows by lia. ring.
    + intros i j Hi Hj. unfold rest. rewrite SW by auto.
      destruct (Nat.lt_ge_cases i k) as [L|L]; [rewrite Lo by auto; reflexivity|].
      specialize (Hi' i L). destruct (Nat.ltb_spec j k); cbn [andb]; auto.
      rewrite (proj2 (Nat.ltb_lt j i)), (proj2 (Nat.ltb_lt j (tr k p i))) by lia. reflexivity.
Qed.

Lemma lu_elim k d : (k < N)%nat -> lu_inv k d ->
  eps < Rabs (lu d k k) -> (forall r, (k <= r < N)%nat -> Rabs (lu d r k) <= Rabs (lu d k k)) ->
  lu_inv (S k) (mkLU (lu_eliminate Rops N k (lu d)) (piv d) (sign d)).
Proof.
  intros Hk (P & B1 & B2 & PM & Sg & D) Pv Mx.
  assert (lu d k k <> 0) as Nz. { intros E. rewrite E, Rabs_R0 in Pv. lra. }
  set (w := lu d) in *. set (w' := lu_eliminate Rops N k w).
  assert (forall i j, (i <= k)%nat -> w' i j = w i j) as Up.
  { intros i j Hi. unfold w'. rewrite lu_eliminate_spec by auto. rewrite (proj2 (Nat.ltb_ge k i)) by lia. reflexivity. }
  assert (forall i j, (j < k)%nat -> w' i j = w i j) as Le.
  { intros i j Hj. unfold w'. rewrite lu_eliminate_spec by auto. rewrite (proj2 (Nat.eqb_neq j k)) by lia.
    rewrite (proj2 (Nat.ltb_ge k j)) by lia. cbn [andb]. destruct ((k <? i) && (i <? N))%bool; reflexivity. }
  assert (forall i, (k < i < N)%nat -> w' i k = w i k / w k k) as Co.
  { intros i Hi. unfold w'. rewrite lu_eliminate_spec by auto. rewrite Nat.eqb_refl.
    rewrite (proj2 (Nat.ltb_lt k i)), (proj2 (Nat.ltb_lt i N)) by lia. reflexivity. }
  assert (forall i j, (k < i < N)%nat -> (k < j < N)%nat -> w' i j = w i j - w i k / w k k * w k j) as Tr.
  { intros i j Hi Hj. unfold w'. rewrite lu_eliminate_spec by auto. rewrite (proj2 (Nat.eqb_neq j k)) by lia.
    rewrite (proj2 (Nat.ltb_lt k i)), (proj2 (Nat.ltb_lt i N)), (proj2 (Nat.ltb_lt k j)), (proj2 (Nat.ltb_lt j N)) by lia.
    reflexivity. }
  unfold lu_inv; cbn [lu piv sign]. split; [|split; [|split; [|split; [|split]]]]; auto.
  - intros i j Hi Hj. rewrite (P i j) by auto. cbn [sum].
    rewrite (sum_ext k (fun m => lower_of w' i m * upper_of w' m j) (fun m => lower_of w i m * upper_of w m j)).
    2:{ intros m Hm. unfold lower_of, upper_of. rewrite (Le i m) by auto. rewrite (Up m j) by lia. reflexivity. }
    rewrite Rplus_assoc. f_equal. unfold lower_of, upper_of. rewrite (Up k j) by lia.
    destruct (Nat.lt_trichotomy i k) as [L|[E|L]].
    + rewrite (proj2 (Nat.leb_gt k i)), (proj2 (Nat.leb_gt (S k) i)), (proj2 (Nat.ltb_ge k i)), (proj2 (Nat.eqb_neq k i)) by lia. cbn [andb]. ring.
    + subst i. rewrite (proj2 (Nat.leb_le k k)), (proj2 (Nat.leb_gt (S k) k)), (proj2 (Nat.ltb_ge k k)), Nat.eqb_refl by lia.
      cbn [andb]. destruct (k <=? j)%nat; ring.
    + rewrite (proj2 (Nat.ltb_lt k i)), (proj2 (Nat.leb_le k i)), (proj2 (Nat.leb_le (S k) i)) by lia. cbn [andb]. rewrite Co by lia.
      destruct (Nat.lt_trichotomy j k) as [L'|[E|L']].
      * rewrite (proj2 (Nat.leb_gt k j)), (proj2 (Nat.leb_gt (S k) j)) by lia. ring.
      * subst j. rewrite (proj2 (Nat.leb_le k k)), (proj2 (Nat.leb_gt (S k) k)) by lia. field. auto.
      * rewrite (proj2 (Nat.leb_le k j)), (proj2 (Nat.leb_le (S k) j)) by lia. rewrite Tr by lia. field. auto.
  - intros i m Hm Hi. destruct (Nat.eq_dec m k) as [->|].
    + rewrite Co by lia. unfold Rdiv. rewrite Rabs_mult, Rabs_inv.
      specialize (Mx i ltac:(lia)). apply Rmult_le_reg_r with (Rabs (w k k)); [lra|].
      rewrite Rmult_assoc, Rinv_l by lra. lra.
    + rewrite Le by lia. apply B1; lia.
  - intros m Hm. rewrite Up by lia. destruct (Nat.eq_dec m k) as [->|]; auto. apply B2. lia.
  - rewrite <- D. f_equal. apply (det_eliminated N k _ _ (fun i => w i k / w k k)); auto.
    intros i j Hi Hj. unfold rest. 
    destruct (Nat.ltb_spec k i) as [L|L].
    + destruct (Nat.lt_trichotomy j k) as [L'|[E|L']].
      * rewrite (proj2 (Nat.ltb_lt j k)), (proj2 (Nat.ltb_lt j (S k))), (proj2 (Nat.ltb_lt j i)) by lia. cbn [andb]. ring.
      * subst j. rewrite (proj2 (Nat.ltb_ge k k)), (proj2 (Nat.ltb_lt k (S k))), (proj2 (Nat.ltb_lt k i)) by lia. cbn [andb].
        field. auto.
      * rewrite (proj2 (Nat.ltb_ge j k)), (proj2 (Nat.ltb_ge j (S k))) by lia. cbn [andb]. rewrite Tr by lia. reflexivity.
    + rewrite Up by lia. destruct (Nat.ltb_spec j i); rewrite ?andb_false_r, ?andb_true_r; auto.
      destruct (Nat.ltb_spec j k); destruct (Nat.ltb_spec j (S k)); auto; lia.
Qed.

(** the stage at which the factorization gives up *)
Definition stuck (k : nat) (d : lu_decomp) : Prop :=
  (k < N)%nat /\ lu_inv k d /\ forall r, (k <= r < N)%nat -> Rabs (lu d r k) <= eps.

Lemma lu_step_spec k d : (k < N)%nat -> lu_inv k d ->
  match lu_step Rops eps N k d with
  | Some d' => lu_inv (S k) d'
  | None => stuck k d
  end.
Proof.
  intros Hk I. unfold lu_step. pose proof (find_pivot_spec N k (lu d) Hk) as Fp.
  destruct (find_pivot Rops N k (lu d)) as [p v]. destruct Fp as (Hp & Ev & Mx).
  cbn [leb Rops]. destruct (Rleb v eps) eqn:E.
  - apply Rleb_true in E. split; auto. split; auto. intros r Hr. specialize (Mx r Hr). lra.
  - apply Rleb_false in E. destruct (Nat.eqb_spec p k) as [->|Np].
    + apply lu_elim; auto; [lra|]. intros r Hr. rewrite <- Ev. auto.
    + destruct (lu_swap k p d Hk Hp I) as [I'|]; [|lia].
      assert (forall r, swap_rows N k p (lu d) r k = lu d (tr k p r) k) as SW.
      { intros r. rewrite swap_rows_spec, (proj2 (Nat.ltb_lt k N)) by auto. reflexivity. }
      apply lu_elim; auto; cbn [lu]; rewrite ?SW.
      * unfold tr. rewrite Nat.eqb_refl. lra.
      * intros r Hr. rewrite !SW. unfold tr at 2. rewrite Nat.eqb_refl. rewrite <- Ev. apply Mx.
        unfold tr. destruct (r =? k)%nat; try lia. destruct (r =? p)%nat; lia.
Qed.

Lemma lu_decompose_some d : lu_decompose Rops eps N A = Some d -> lu_inv N d.
Proof.
  unfold lu_decompose. intros H. apply (forM_some_ind lu_inv 0 N _ _ _ (Nat.le_0_l N) lu_inv_0 H).
  - intros k s s' Hk I E. pose proof (lu_step_spec k s ltac:(lia) I) as G. rewrite E in G. exact G.
Qed.
Lemma lu_decompose_none : lu_decompose Rops eps N A = None -> exists k d, stuck k d.
Proof.
  unfold lu_decompose. intros H.
  destruct (forM_none_ind lu_inv 0 N _ _ lu_inv_0 H) as (k & d & Hk & I & E).
  - intros k s s' Hk I E. pose proof (lu_step_spec k s ltac:(lia) I) as G. rewrite E in G. exact G.
  - pose proof (lu_step_spec k d ltac:(lia) I) as G. rewrite E in G. exists k, d. exact G.
Qed.

(** Factors of a completed factorization *)
Lemma lu_factors d : lu_inv N d -> forall i j, (i < N)%nat -> (j < N)%nat ->
  sum N (fun m => lower_of (lu d) i m * upper_of (lu d) m j) = A (piv d i) j.
Proof.
  intros (P & _) i j Hi Hj. rewrite (P i j) by auto.
  rewrite (proj2 (Nat.leb_gt N i)) by lia. cbn [andb]. ring.
Qed.

Lemma lu_det d : lu_inv N d -> det N A = IZR (sign d) * prodR N (fun i => lu d i i).
Proof.
  intros (_ & _ & _ & _ & _ & D). rewrite <- D. f_equal. rewrite det_upper.
  - apply prodR_ext. intros i Hi. unfold rest. rewrite (proj2 (Nat.ltb_ge i i)) by lia.
    rewrite andb_false_r. reflexivity.
  - intros i j Hj Hi. unfold rest. rewrite (proj2 (Nat.ltb_lt j N)), (proj2 (Nat.ltb_lt j i)) by lia. reflexivity.
Qed.

(** Products with the two factors *)
Lemma sum_lower w i (y : vec) : (i < N)%nat ->
  sum N (fun m => lower_of w i m * y m) = sum (S i) (fun m => lower_of w i m * y m).
Proof.
  intros Hi. apply sum_trunc; [lia|]. intros m Hm. unfold lower_of.
  rewrite (proj2 (Nat.ltb_ge m i)), (proj2 (Nat.eqb_neq m i)) by lia. ring.
Qed.
Lemma sum_upper w i (x : vec) :
  sum N (fun j => upper_of w i j * x j) = sum N (fun j => if (i <=? j)%nat then w i j * x j else 0).
Proof. apply sum_ext. intros j Hj. unfold upper_of. destruct (i <=? j)%nat; ring. Qed.

Lemma lu_product d (x : vec) i : lu_inv N d -> (i < N)%nat ->
  sum N (fun j => A (piv d i) j * x j) =
  sum N (fun m => lower_of (lu d) i m * sum N (fun j => upper_of (lu d) m j * x j)).
Proof.
  intros I Hi.
  rewrite (sum_ext N _ (fun j => sum N (fun m => lower_of (lu d) i m * (upper_of (lu d) m j * x j)))).
  - rewrite sum_swap. apply sum_ext. intros m Hm. rewrite <- sum_scal. reflexivity.
  - intros j Hj. rewrite <- (lu_factors d I i j) by auto. rewrite <- sum_scal_r. apply sum_ext. intros; ring.
Qed.

Lemma lu_diag d : lu_inv N d -> forall m, (m < N)%nat -> lu d m m <> 0.
Proof. intros (_ & _ & B & _) m Hm E. specialize (B m Hm). rewrite E, Rabs_R0 in B. lra. Qed.

Lemma lu_nonsingular d (x : vec) : lu_inv N d ->
  (forall i, (i < N)%nat -> sum N (fun j => A i j * x j) = 0) -> forall i, (i < N)%nat -> x i = 0.
Proof.
  intros I H. pose proof I as (_ & _ & _ & (q & Q) & _).
  set (y := fun m => sum N (fun j => upper_of (lu d) m j * x j)).
  assert (forall i, (i < N)%nat -> y i = 0) as Y.
  { apply (lower_injective N (lower_of (lu d))).
    - intros i Hi. unfold lower_of. rewrite (proj2 (Nat.ltb_ge i i)), Nat.eqb_refl by lia. lra.
    - intros i Hi. rewrite <- sum_lower by auto. unfold y. rewrite <- lu_product by auto. apply H. apply Q; auto. }
  apply (upper_injective N (lu d)); [apply lu_diag; auto|].
  intros i Hi. rewrite <- sum_upper. apply Y; auto.
Qed.

Lemma lu_solve_spec d (b : vec) : lu_inv N d ->
  forall r, (r < N)%nat -> sum N (fun j => A r j * lu_solve Rops N d b j) = b r.
Proof.
  intros I r Hr. pose proof I as (_ & _ & _ & (q & Q) & _).
  destruct (Q r Hr) as (_ & Q2 & _ & Q4). rewrite <- Q4. set (i := q r) in *.
  rewrite lu_product by auto. unfold lu_solve.
  set (x0 := for_ 0 N _ _).
  assert (forall m, (m < N)%nat -> x0 m = b (piv d m)) as X0.
  { unfold x0.
    assert (forall n, (n <= N)%nat -> forall m, (m < n)%nat ->
      for_ 0 n (fun i x => upd x i (b (piv d i))) (fun _ => zero Rops) m = b (piv d m)) as G; [|intros; apply (G N); auto].
    induction n as [|n IH]; intros Hn m Hm; [lia|]. rewrite for_S by lia. unfold upd.
    destruct (Nat.eqb_spec m n) as [->|]; auto. apply IH; lia. }
  rewrite <- X0 by auto. rewrite <- (forward_unit_spec N (lu d) x0 i) by auto.
  rewrite (sum_ext N _ (fun m => lower_of (lu d) i m * forward_unit Rops N (lu d) x0 m)).
  - rewrite sum_lower by auto. cbn [sum]. rewrite Rplus_comm. f_equal.
    + unfold lower_of. rewrite (proj2 (Nat.ltb_ge i i)), Nat.eqb_refl by lia. ring.
    + apply sum_ext. intros m Hm. unfold lower_of. rewrite (proj2 (Nat.ltb_lt m i)) by auto. reflexivity.
  - intros m Hm. f_equal. rewrite sum_upper. apply backward_spec; auto. apply lu_diag; auto.
Qed.

(** When the factorization stops, a matrix within eps of the input is singular *)
Lemma stuck_singular k d : stuck k d ->
  exists A' x, (forall i j, (i < N)%nat -> (j < N)%nat -> Rabs (A' i j - A i j) <= eps) /\
    (exists i, (i < N)%nat /\ x i <> 0) /\
    forall i, (i < N)%nat -> sum N (fun j => A' i j * x j) = 0.
Proof.
  intros (Hk & (P & _ & B & (q & Q) & _) & Small).
  set (w := lu d) in *.
  assert (forall m, (m < k)%nat -> w m m <> 0) as Dg.
  { intros m Hm E. specialize (B m Hm). rewrite E, Rabs_R0 in B. lra. }
  set (z := backward Rops k w (fun m => - w m k)).
  pose proof (backward_spec k w (fun m => - w m k) Dg) as BS. fold z in BS. cbv zeta in BS.
  set (x := fun j => if (j <? k)%nat then z j else if (j =? k)%nat then 1 else 0).
  exists (fun r j => A r j - (if (j =? k)%nat && (k <=? q r)%nat then w (q r) k else 0)), x.
  split; [|split].
  - intros i j Hi Hj. destruct ((j =? k)%nat && (k <=? q i)%nat)%bool eqn:E.
    + apply andb_prop in E. destruct E as [_ E]. apply Nat.leb_le in E.
      replace (A i j - w (q i) k - A i j) with (- w (q i) k) by ring. rewrite Rabs_Ropp. apply Small.
      destruct (Q i Hi) as (_ & Q2 & _). lia.
    + replace (A i j - 0 - A i j) with 0 by ring. rewrite Rabs_R0. auto.
  - exists k. split; auto. unfold x. rewrite (proj2 (Nat.ltb_ge k k)), Nat.eqb_refl by lia. lra.
  - intros r Hr. destruct (Q r Hr) as (_ & Q2 & _ & Q4). set (i := q r) in *.
    assert (forall m, (m < k)%nat -> sum N (fun j => upper_of w m j * x j) = 0) as UX.
    { intros m Hm. rewrite (sum_trunc N (S k)) by (try lia; intros j Hj; unfold x;
        rewrite (proj2 (Nat.ltb_ge j k)), (proj2 (Nat.eqb_neq j k)) by lia; ring).
      cbn [sum]. rewrite (sum_ext k _ (fun j => if (m <=? j)%nat then w m j * z j else 0)).
      - rewrite BS by auto. unfold upper_of, x.
        rewrite (proj2 (Nat.leb_le m k)), (proj2 (Nat.ltb_ge k k)), Nat.eqb_refl by lia. ring.
      - intros j Hj. unfold upper_of, x. rewrite (proj2 (Nat.ltb_lt j k)) by lia. destruct (m <=? j)%nat; ring. }
    rewrite (sum_ext N _ (fun j => sum k (fun m => lower_of w i m * (upper_of w m j * x j)))).
    + rewrite sum_swap. apply sum_0. intros m Hm. rewrite sum_scal, UX by auto. ring.
    + intros j Hj. rewrite <- Q4 at 1. rewrite (P i j) by auto.
      rewrite (sum_ext k (fun m => lower_of w i m * (upper_of w m j * x j)) (fun m => lower_of w i m * upper_of w m j * x j)) by (intros; ring).
      rewrite sum_scal_r.
      set (Sm := sum k _). unfold x.
      destruct (Nat.eqb_spec j k) as [->|Nj].
      * rewrite (proj2 (Nat.leb_le k k)), (proj2 (Nat.ltb_ge k k)) by lia. cbn [andb].
        rewrite andb_true_r. destruct (k <=? i)%nat; ring.
      * cbn [andb]. destruct (Nat.ltb_spec j k).
        -- rewrite (proj2 (Nat.leb_gt k j)) by lia. rewrite andb_false_r. ring.
        -- ring.
Qed.
End LU.

(** Solving for many right-hand sides at once performs exactly the operations of the
    single solves *)
Section Multi.
Context {F : Type} (o : ops F) (N K : nat).
Notation fmat := (nat -> nat -> F).
Notation fvec := (nat -> F).

Lemma cols_loop i (g : nat -> fmat -> F) (x : fmat) :
  (forall col x x', (forall r, x r col = x' r col) -> g col x = g col x') ->
  forall r col, for_ 0 K (fun col x => upd2 x i col (g col x)) x r col =
    if (r =? i)%nat && (col <? K)%nat then g col x else x r col.
Proof.
  intros Loc. apply (for_ind (fun n s => forall r col, s r col = if (r =? i)%nat && (col <? n)%nat then g col x else x r col)).
  - lia.
  - intros r col. rewrite (proj2 (Nat.ltb_ge col 0)) by lia. rewrite andb_false_r. reflexivity.
  - intros n s Hn E r col. unfold upd2. rewrite E.
    destruct (Nat.eqb_spec col n) as [->|Nc].
    + rewrite andb_true_r, (proj2 (Nat.ltb_ge n n)), (proj2 (Nat.ltb_lt n (S n))), andb_false_r, andb_true_r by lia.
      destruct (r =? i)%nat; auto. apply Loc. intros r'. rewrite E, (proj2 (Nat.ltb_ge n n)) by lia.
      rewrite andb_false_r. reflexivity.
    + rewrite andb_false_r. destruct (r =? i)%nat; cbn [andb]; auto.
      destruct (Nat.ltb_spec col n); destruct (Nat.ltb_spec col (S n)); auto; lia.
Qed.

Lemma sub_loop_ext lo hi (f : nat -> F) (x x' : fvec) s :
  (forall j, (lo <= j < hi)%nat -> x j = x' j) ->
  for_ lo hi (fun j s => sub o s (mul o (f j) (x j))) s = for_ lo hi (fun j s => sub o s (mul o (f j) (x' j))) s.
Proof. intros H. apply for_ext. intros i t Hi. rewrite H by auto. reflexivity. Qed.

Lemma solve_multi_columns d (b : fmat) col i : (col < K)%nat -> (i < N)%nat ->
  (forall r, (r < N)%nat -> (piv d r < N)%nat) ->
  lu_solve_multi o N K d b i col = lu_solve o N d (fun r => b r col) i.
Proof.
  intros Hc Hi Pb. unfold lu_solve_multi, lu_solve. cbv zeta.
  (* the permutation *)
  set (x0 := for_ 0 K _ b). set (y0 := for_ 0 N _ (fun _ => zero o)).
  assert (forall r, (r < N)%nat -> x0 r col = y0 r) as E0.
  { assert (forall (g : nat -> F) n (s : fvec) m, for_ 0 n (fun i x => upd x i (g i)) s m = if (m <? n)%nat then g m else s m) as Fill.
    { intros g n s. induction n as [|n IH]; intros m; [reflexivity|]. rewrite for_S by lia. unfold upd. rewrite IH.
      destruct (Nat.eqb_spec m n) as [->|]; [rewrite (proj2 (Nat.ltb_lt n (S n))) by lia; reflexivity|].
      destruct (Nat.ltb_spec m n); destruct (Nat.ltb_spec m (S n)); auto; lia. }
    assert (forall (g : nat -> F) n c (s : fmat) r cc, for_ 0 n (fun i x => upd2 x i c (g i)) s r cc =
       if (r <? n)%nat && (cc =? c)%nat then g r else s r cc) as Fill2.
    { intros g n c s. induction n as [|n IH]; intros r cc; [reflexivity|]. rewrite for_S by lia. unfold upd2. rewrite IH.
      destruct (Nat.eqb_spec r n) as [->|]; cbn [andb].
      - rewrite (proj2 (Nat.ltb_lt n (S n))), (proj2 (Nat.ltb_ge n n)) by lia. reflexivity.
      - destruct (Nat.ltb_spec r n); destruct (Nat.ltb_spec r (S n)); auto; lia. }
    intros r Hr. unfold x0, y0. rewrite Fill, (proj2 (Nat.ltb_lt r N)) by auto.
    assert ((fun n (s : fmat) => forall r c, (r < N)%nat -> s r c = if (c <? n)%nat then b (piv d r) c else b r c) K x0) as G.
    { unfold x0. apply (for_ind (fun n (s : fmat) => forall r c, (r < N)%nat -> s r c = if (c <? n)%nat then b (piv d r) c else b r c)).
      - lia.
      - reflexivity.
      - intros n s Hn E r' c Hr'. rewrite Fill2, Fill. rewrite (proj2 (Nat.ltb_lt r' N)) by auto. cbn [andb].
        rewrite !E by auto. destruct (Nat.eqb_spec c n) as [->|].
        + rewrite (proj2 (Nat.ltb_lt n (S n))), (proj2 (Nat.ltb_ge n n)) by lia. reflexivity.
        + destruct (Nat.ltb_spec c n); destruct (Nat.ltb_spec c (S n)); auto; lia. }
    rewrite G by auto. rewrite (proj2 (Nat.ltb_lt col K)) by auto. reflexivity. }
  (* forward *)
  set (x1 := for_ 0 N _ x0). set (y1 := forward_unit o N (lu d) y0).
  assert (forall r, (r < N)%nat -> x1 r col = y1 r) as E1.
  { unfold y1, forward_unit.
    apply (for_ind (fun n (s : fmat) => forall r, (r < N)%nat -> s r col =
       for_ 0 n (fun i x => upd x i (for_ 0 i (fun j s => sub o s (mul o (lu d i j) (x j))) (x i))) y0 r)); [lia|exact E0|].
    intros n s Hn E r Hr. rewrite for_S by lia. set (y := for_ 0 n _ y0) in *.
    rewrite (cols_loop n (fun col x => for_ 0 n (fun j s => sub o s (mul o (lu d n j) (x j col))) (x n col))).
    - rewrite (proj2 (Nat.ltb_lt col K)), andb_true_r by auto. unfold upd. rewrite !E by lia.
      destruct (r =? n)%nat; auto. apply sub_loop_ext. intros j Hj. apply E. lia.
    - intros c u v H. rewrite (H n). apply sub_loop_ext. auto. }
  (* backward *)
  unfold backward. revert i Hi.
  apply (for_ind (fun n (s : fmat) => forall r, (r < N)%nat -> s r col =
     for_ 0 n (fun i_rev x => let i := (N - 1 - i_rev)%nat in
       upd x i (div o (for_ (S i) N (fun j s => sub o s (mul o (lu d i j) (x j))) (x i)) (lu d i i))) y1 r)); [lia|exact E1|].
  intros n s Hn E r Hr. rewrite for_S by lia. cbv zeta. cbv zeta in E. set (y := for_ 0 n _ y1) in *.
  set (i := (N - 1 - n)%nat).
  rewrite (cols_loop i (fun col x => div o (for_ (S i) N (fun j s => sub o s (mul o (lu d i j) (x j col))) (x i col)) (lu d i i))).
  - rewrite (proj2 (Nat.ltb_lt col K)), andb_true_r by auto. unfold upd. rewrite !E by lia.
    destruct (r =? i)%nat; auto. f_equal. apply sub_loop_ext. intros j Hj. apply E. lia.
  - intros c u v H. f_equal. rewrite (H i). apply sub_loop_ext. auto.
Qed.

(* the pivots of a factorization stay in range, whatever the arithmetic does *)
Lemma find_pivot_range k (a : fmat) : (k < N)%nat -> (k <= fst (find_pivot o N k a) < N)%nat.
Proof.
  intros Hk. unfold find_pivot.
  apply (for_ind (fun n (st : nat * F) => (k <= fst st < N)%nat)); [lia|cbn; lia|].
  intros i [p v] Hi H. destruct (ltb o v (absf o (a i k))); cbn [fst] in *; lia.
Qed.
Lemma lu_pivots eps (a : fmat) d : lu_decompose o eps N a = Some d ->
  forall r, (r < N)%nat -> (piv d r < N)%nat.
Proof.
  unfold lu_decompose. intros H.
  apply (forM_some_ind (fun _ d => forall r, (r < N)%nat -> (piv d r < N)%nat) 0 N _ _ _ (Nat.le_0_l N)) with (2 := H).
  - cbn. auto.
  - clear H d. intros k s s' Hk I E. unfold lu_step in E.
    pose proof (find_pivot_range k (lu s) ltac:(lia)) as Fp.
    destruct (find_pivot o N k (lu s)) as [p v]. cbn [fst] in Fp. destruct (leb o v eps); [discriminate|].
    destruct (p =? k)%nat; inversion E; subst; cbn [piv]; auto.
    intros r Hr. rewrite swap_nat_tr. apply I. apply tr_lt; lia.
Qed.
End Multi.
