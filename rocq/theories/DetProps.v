(** The inverse and the determinant agree; definite matrices (more of C31-C33). *)
From Coq Require Import Reals ZArith QArith List Arith Lia Lra Bool.
From Verif Require Import Scalar RSum LinModel LinSpec LinProofs DetSpec SolveModel SolveProofs LuProofs CholProofs
  GaussProofs SolveProps.
Import ListNotations.
Local Open Scope R_scope.

(** Gauss-Jordan and the determinant meet the same pivots: below and right of the pivot the two
    working matrices are equal. *)
Lemma gj_det_step N k (st : mat * mat) (sd : mat * R) : (k < N)%nat ->
  (forall i j, (k <= i < N)%nat -> (k <= j < N)%nat -> fst st i j = fst sd i j) /\ snd sd <> 0 ->
  match gj_step Rops N k st, det_step Rops N k sd with
  | Some st', Some sd' =>
      (forall i j, (S k <= i < N)%nat -> (S k <= j < N)%nat -> fst st' i j = fst sd' i j) /\ snd sd' <> 0
  | None, None => True
  | _, _ => False
  end.
Proof.
  destruct st as [a x], sd as [d dt]. intros Hk [E Nd]. cbn [fst snd] in *. unfold gj_step, det_step.
  rewrite (find_pivot_ext Rops N k a d Hk) by (intros r Hr; apply E; lia).
  pose proof (find_pivot_spec N k d Hk) as Fp.
  destruct (find_pivot Rops N k d) as [p v]. destruct Fp as (Hp & Ev & _).
  cbn [leb Rops]. destruct (Rleb v (eps12 Rops)) eqn:Z; auto. apply Rleb_false in Z. pose proof eps12_pos as Ep.
  assert (forall a x d dt, (forall i j, (k <= i < N)%nat -> (k <= j < N)%nat -> a i j = d i j) -> dt <> 0 -> d k k <> 0 ->
    match (let '(a, x) := gj_scale Rops N k a x in Some (gj_eliminate Rops N k a x)) with
    | Some st' => (forall i j, (S k <= i < N)%nat -> (S k <= j < N)%nat -> fst st' i j = det_eliminate Rops N k d i j)
                  /\ mul Rops dt (d k k) <> 0
    | None => False end) as Fin.
  { clear. intros a x d dt E Nd Nk. pose proof (gj_scale_spec N k a x) as Sc. destruct (gj_scale Rops N k a x) as [b y].
    pose proof (gj_eliminate_spec N k b y) as El. destruct (gj_eliminate Rops N k b y) as [a' x']. cbn [fst snd].
    split; [|cbn [mul Rops]; apply Rmult_integral_contrapositive; auto].
    intros i j Hi Hj. destruct (El i j ltac:(lia) ltac:(lia)) as [-> _].
    destruct (Sc i j ltac:(lia)) as [-> _]. destruct (Sc k j ltac:(lia)) as [-> _]. destruct (Sc i k ltac:(lia)) as [-> _].
    rewrite Nat.eqb_refl, (proj2 (Nat.eqb_neq i k)) by lia. rewrite det_eliminate_spec by lia.
    rewrite (proj2 (Nat.ltb_lt k i)), (proj2 (Nat.ltb_lt i N)), (proj2 (Nat.ltb_lt k j)), (proj2 (Nat.ltb_lt j N)) by lia.
    cbn [andb sub mul div Rops]. rewrite !E by lia. field. exact Nk. }
  destruct (Nat.eqb_spec p k) as [->|Np].
  - specialize (Fin a x d dt E Nd). assert (d k k <> 0) as Nk by (intros Q; rewrite Q, Rabs_R0 in Ev; lra).
    specialize (Fin Nk). destruct (gj_scale Rops N k a x). exact Fin.
  - specialize (Fin (swap_rows N k p a) (swap_rows N k p x) (swap_rows N k p d) (neg Rops dt)).
    assert (forall i j, (k <= i < N)%nat -> (k <= j < N)%nat -> swap_rows N k p a i j = swap_rows N k p d i j) as E'.
    { intros i j Hi Hj. rewrite !swap_rows_spec, (proj2 (Nat.ltb_lt j N)) by lia. apply E; [|lia].
      unfold tr. destruct (Nat.eqb_spec i k); [lia|]. destruct (Nat.eqb_spec i p); lia. }
    assert (swap_rows N k p d k k <> 0) as Nk.
    { rewrite swap_rows_spec, (proj2 (Nat.ltb_lt k N)) by lia. unfold tr. rewrite Nat.eqb_refl.
      intros Q. rewrite Q, Rabs_R0 in Ev. lra. }
    specialize (Fin E' ltac:(cbn [neg Rops]; lra) Nk). destruct (gj_scale Rops N k (swap_rows N k p a) _). exact Fin.
Qed.

(** The general inverse succeeds exactly when the reported determinant is not zero. *)
Theorem C33_inverse_iff_nonzero_determinant : forall N a,
  (exists b, inverse_gauss_jordan Rops N a = Some b) <-> determinant Rops N a <> 0.
Proof.
  intros N a. unfold inverse_gauss_jordan, determinant.
  pose proof (forM_rel (fun k (st : mat * mat) (sd : mat * R) =>
    (forall i j, (k <= i < N)%nat -> (k <= j < N)%nat -> fst st i j = fst sd i j) /\ snd sd <> 0)
    0 N (gj_step Rops N) (det_step Rops N) (a, identity Rops N) (a, one Rops) (Nat.le_0_l N)
    ltac:(cbn; split; [auto|lra])
    ltac:(intros; apply gj_det_step; auto; lia)) as G.
  destruct (forM 0 N (gj_step Rops N) _) as [[u y]|], (forM 0 N (det_step Rops N) _) as [[w dt]|]; try contradiction; cbn.
  - split; [intros _; apply G|eauto].
  - split; [intros [b H]; discriminate|intros H; cbn in H; lra].
Qed.

(** a lower triangular factor multiplies the determinant by the product of its diagonal *)
Lemma det_combination n r (b a : mat) (f : nat -> R) al : (r < n)%nat -> forall m, (m <= r)%nat ->
  (forall j, (j < n)%nat -> a r j = al * b r j + sum m (fun k => f k * b k j)) ->
  (forall i j, (i < n)%nat -> (j < n)%nat -> i <> r -> a i j = b i j) ->
  det n a = al * det n b.
Proof.
  intros Hr m. revert a. induction m as [|m IH]; intros a Hm H1 H2.
  - rewrite (det_row_linear n r al 0 a b b Hr); [ring| |].
    + intros j Hj. rewrite H1 by auto. cbn [sum]. ring.
    + intros i j Hi Hj Ne. rewrite H2 by auto. auto.
  - rewrite <- (IH (fun i j => if (i =? r)%nat then al * b r j + sum m (fun k => f k * b k j) else a i j)); [| lia| |].
    + apply (det_add_row n r m (f m)); auto; try lia.
      * intros j Hj. rewrite Nat.eqb_refl, (proj2 (Nat.eqb_neq m r)) by lia. rewrite H1 by auto. cbn [sum].
        rewrite (H2 m j) by lia. ring.
      * intros i j Hi Hj Ne. rewrite (proj2 (Nat.eqb_neq i r)) by lia. reflexivity.
    + intros j Hj. rewrite Nat.eqb_refl. reflexivity.
    + intros i j Hi Hj Ne. rewrite (proj2 (Nat.eqb_neq i r)) by lia. apply H2; auto.
Qed.

Lemma det_lower_mul n (L b : mat) : (forall i j, (i < n)%nat -> (j < n)%nat -> (i < j)%nat -> L i j = 0) ->
  det n (Mprod n L b) = prodR n (fun i => L i i) * det n b.
Proof.
  intros HL.
  set (c := fun r i j => if (i <? r)%nat then b i j else Mprod n L b i j).
  assert (forall r, (r <= n)%nat -> det n (Mprod n L b) = prodR r (fun i => L i i) * det n (c r)) as A.
  { induction r as [|r IH]; intros Hr; [cbn [prodR]; rewrite Rmult_1_l; apply det_ext; intros i j Hi Hj; reflexivity|].
    rewrite IH by lia. cbn [prodR]. rewrite Rmult_assoc. f_equal.
    apply (det_combination n r (c (S r)) (c r) (fun k => L r k) (L r r) ltac:(lia) r ltac:(lia)).
    - intros j Hj. unfold c. rewrite Nat.ltb_irrefl, (proj2 (Nat.ltb_lt r (S r))) by lia. unfold Mprod.
      rewrite (sum_trunc n (S r)) by (try lia; intros k Hk; rewrite HL by lia; ring). cbn [sum].
      rewrite Rplus_comm. f_equal. apply sum_ext. intros k Hk. rewrite (proj2 (Nat.ltb_lt k (S r))) by lia. reflexivity.
    - intros i j Hi Hj Ne. unfold c. destruct (Nat.ltb_spec i r); destruct (Nat.ltb_spec i (S r)); auto; lia. }
  rewrite (A n) by lia. f_equal. apply det_ext. intros i j Hi Hj. unfold c. rewrite (proj2 (Nat.ltb_lt i n)) by lia. reflexivity.
Qed.

Lemma prodR_pos n f : (forall i, (i < n)%nat -> 0 < f i) -> 0 < prodR n f.
Proof.
  induction n as [|n IH]; intros H; cbn [prodR]; [lra|]. apply Rmult_lt_0_compat; [apply IH; intros; apply H; lia|apply H; lia].
Qed.

(** The determinant of a positive definite matrix is the squared product of its Cholesky diagonal,
    hence positive. *)
Theorem C33_cholesky_determinant : forall N a L, symmetric N a -> cholesky_lower Rops N a = Some L ->
  det N a = prodR N (fun i => L i i) * prodR N (fun i => L i i).
Proof.
  intros N a L Sy H. destruct (C31_factorization N a L Sy H) as (U & D & P).
  rewrite <- (det_ext N (Mprod N L (fun r c => L c r)) a) by (intros i j Hi Hj; apply P; auto).
  rewrite det_lower_mul by auto. rewrite (det_upper N (fun r c => L c r)); [reflexivity|].
  intros i j Hi Hj. apply U; lia.
Qed.
Theorem C33_positive_definite_determinant : forall N a, symmetric N a -> posdef N a -> 0 < det N a.
Proof.
  intros N a Sy PD. destruct (proj2 (C31_succeeds_iff_positive_definite N a Sy) PD) as [L H].
  rewrite (C33_cholesky_determinant N a L Sy H). destruct (C31_factorization N a L Sy H) as (_ & D & _).
  pose proof (prodR_pos N (fun i => L i i) D). nra.
Qed.
Example C33_definite_nontrivial : symmetric 2 (m2 2 1 1 2) /\ posdef 2 (m2 2 1 1 2) /\ det 2 (m2 2 1 1 2) = 3.
Proof.
  split; [intros [|[|i]] [|[|j]] Hi Hj; cbn; try lra; lia|]. split; [|rewrite det_2; cbn; ring].
  intros x (i & Hi & Nz). cbn [sum]. unfold m2. cbn [Nat.eqb].
  assert (x 0%nat <> 0 \/ x 1%nat <> 0) as [Q|Q] by (destruct i as [|[|i]]; [left|right|lia]; exact Nz).
  - pose proof (Rsqr_pos_lt _ Q) as W. unfold Rsqr in W. pose proof (Rle_0_sqr (x 0%nat + x 1%nat)) as V. unfold Rsqr in V.
    pose proof (Rle_0_sqr (x 1%nat)) as U. unfold Rsqr in U. lra.
  - pose proof (Rsqr_pos_lt _ Q) as W. unfold Rsqr in W. pose proof (Rle_0_sqr (x 0%nat + x 1%nat)) as V. unfold Rsqr in V.
    pose proof (Rle_0_sqr (x 0%nat)) as U. unfold Rsqr in U. lra.
Qed.

(** inverse of a symmetric matrix; a semidefinite invertible matrix is definite *)
Lemma inverse_symmetric N a b : symmetric N a -> inverse_of N a b -> symmetric N b.
Proof.
  intros Sy [I1 I2] i j Hi Hj.
  assert (b j i = sum N (fun k => b k i * delta k j)) as ->.
  { rewrite (sum_one N j); auto; [unfold delta; rewrite Nat.eqb_refl; ring|].
    intros m Hm Nm. unfold delta. rewrite (proj2 (Nat.eqb_neq m j)) by lia. ring. }
  rewrite (sum_ext N _ (fun k => sum N (fun l => b k i * (a k l * b l j)))).
  - rewrite sum_swap. rewrite (sum_ext N _ (fun l => delta l i * b l j)).
    + rewrite (sum_one N i); auto; [unfold delta; rewrite Nat.eqb_refl; ring|].
      intros m Hm Nm. unfold delta. rewrite (proj2 (Nat.eqb_neq m i)) by lia. ring.
    + intros l Hl. rewrite <- I1 by auto. unfold Mprod. rewrite <- sum_scal_r. apply sum_ext. intros k Hk.
      rewrite (Sy k l) by auto. ring.
  - intros k Hk. rewrite <- I1 by auto. unfold Mprod. rewrite <- sum_scal. reflexivity.
Qed.

Lemma psd_kernel N a : symmetric N a ->
  (forall v, 0 <= sum N (fun i => sum N (fun j => v i * a i j * v j))) ->
  forall x, sum N (fun i => sum N (fun j => x i * a i j * x j)) = 0 -> forall i, (i < N)%nat -> Mvec N a x i = 0.
Proof.
  intros Sy P x Z i Hi. set (q := fun u v => sum N (fun i => sum N (fun j => u i * a i j * v j))) in *.
  set (e := fun j => if (j =? i)%nat then 1 else 0).
  assert (q e x = Mvec N a x i) as Q1.
  { unfold q. rewrite (sum_one N i); auto.
    - unfold Mvec. apply sum_ext. intros j Hj. unfold e. rewrite Nat.eqb_refl. ring.
    - intros k Hk Nk. apply sum_0. intros j Hj. unfold e. rewrite (proj2 (Nat.eqb_neq k i)) by lia. ring. }
  assert (q x e = q e x) as Q2.
  { unfold q. rewrite sum_swap. apply sum_ext. intros j Hj. apply sum_ext. intros k Hk. rewrite (Sy k j) by auto. ring. }
  assert (forall t, 0 <= 2 * t * q e x + t * t * q e e) as Q.
  { intros t. specialize (P (fun j => x j + t * e j)).
    assert (q (fun j => x j + t * e j) (fun j => x j + t * e j) = q x x + t * q x e + t * q e x + t * t * q e e) as X.
    2: { change (0 <= q (fun j => x j + t * e j) (fun j => x j + t * e j)) in P. rewrite X, Q2 in P.
         change (q x x = 0) in Z. rewrite Z in P. lra. }
    unfold q. rewrite <- !sum_scal, <- !sum_plus. apply sum_ext. intros k Hk. rewrite <- !sum_scal, <- !sum_plus.
    apply sum_ext. intros; ring. }
  rewrite <- Q1. set (u := q e x) in *. set (w := q e e) in *.
  assert (0 <= w) as Hw by (apply (P e)).
  pose proof (Q (- u / (w + 1))) as Q3.
  replace (2 * (- u / (w + 1)) * u + - u / (w + 1) * (- u / (w + 1)) * w)
    with (- (u * u) * ((w + 2) / ((w + 1) * (w + 1)))) in Q3 by (field; lra).
  assert (0 < (w + 2) / ((w + 1) * (w + 1))) as Pp by (apply Rdiv_lt_0_compat; nra).
  destruct (Req_dec u 0) as [|Nu]; [assumption|]. pose proof (Rsqr_pos_lt u Nu) as W. unfold Rsqr in W. nra.
Qed.

Lemma psd_invertible_posdef N a b : symmetric N a -> inverse_of N a b ->
  (forall v, 0 <= sum N (fun i => sum N (fun j => v i * a i j * v j))) -> posdef N a.
Proof.
  intros Sy [_ I2] P x (i & Hi & Nz).
  destruct (Rle_lt_or_eq_dec _ _ (P x)) as [|Z]; [assumption|exfalso]. apply Nz.
  pose proof (psd_kernel N a Sy P x (eq_sym Z)) as K.
  assert (x i = sum N (fun k => delta i k * x k)) as ->.
  { symmetry. rewrite (sum_one N i); auto; [unfold delta; rewrite Nat.eqb_refl; ring|].
    intros m Hm Nm. unfold delta. rewrite (proj2 (Nat.eqb_neq i m)) by lia. ring. }
  rewrite (sum_ext N _ (fun k => sum N (fun l => b i l * (a l k * x k)))).
  - rewrite sum_swap. apply sum_0. intros l Hl. rewrite sum_scal. fold (Mvec N a x l). rewrite K by auto. ring.
  - intros k Hk. rewrite <- I2 by auto. unfold Mprod. rewrite <- sum_scal_r. apply sum_ext. intros; ring.
Qed.
