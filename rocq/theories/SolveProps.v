(** Properties C29 to C33: LU, Cholesky, Gauss-Jordan, determinant, 3x3 inverse. *)
From Coq Require Import Reals ZArith QArith Qreals List Arith Lia Lra Bool.
From Verif Require Import Scalar RSum LinModel LinSpec LinProofs DetSpec SolveModel SolveProofs LuProofs CholProofs GaussProofs.
Import ListNotations.
Local Open Scope R_scope.

(** Vocabulary.  [perm], [lower_of], [upper_of] (LuProofs), [det] (DetSpec: Laplace
    expansion), [posdef], [symmetric] (CholProofs). *)
Definition nonzero_vec (N : nat) (x : vec) : Prop := exists i, (i < N)%nat /\ x i <> 0.
Definition singular (N : nat) (a : mat) : Prop :=
  exists x, nonzero_vec N x /\ forall i, (i < N)%nat -> Mvec N a x i = 0.
Definition inverse_of (N : nat) (a b : mat) : Prop :=
  eqm N N (Mprod N a b) delta /\ eqm N N (Mprod N b a) delta.
Definition is_permutation (N : nat) (p : nat -> nat) : Prop :=
  (forall i, (i < N)%nat -> (p i < N)%nat) /\
  (forall i j, (i < N)%nat -> (j < N)%nat -> p i = p j -> i = j) /\
  (forall r, (r < N)%nat -> exists i, (i < N)%nat /\ p i = r).

Lemma perm_is_permutation N p : perm N p -> is_permutation N p.
Proof.
  intros (q & Q). split; [|split].
  - intros i Hi. apply Q; auto.
  - intros i j Hi Hj E. destruct (Q i Hi) as (_ & _ & <- & _). destruct (Q j Hj) as (_ & _ & <- & _). rewrite E. reflexivity.
  - intros r Hr. exists (q r). split; apply Q; auto.
Qed.

(** *** C29: LU with partial pivoting. *)
Theorem C29_factorization : forall eps N a d, 0 <= eps -> lu_decompose Rops eps N a = Some d ->
  exists L U : mat,
    is_permutation N (piv d) /\
    (forall i j, (i < N)%nat -> (j < N)%nat -> Mprod N L U i j = a (piv d i) j) /\
    (forall i j, (i < N)%nat -> (j < N)%nat -> (i < j)%nat -> L i j = 0) /\
    (forall i, (i < N)%nat -> L i i = 1) /\
    (forall i j, (i < N)%nat -> (j < N)%nat -> Rabs (L i j) <= 1) /\
    (forall i j, (i < N)%nat -> (j < i)%nat -> U i j = 0) /\
    (forall i, (i < N)%nat -> eps < Rabs (U i i)) /\
    (* the packed storage the user sees *)
    (forall i j, (i < N)%nat -> (j < N)%nat -> lu d i j = if (j <? i)%nat then L i j else U i j) /\
    (sign d = 1 \/ sign d = -1)%Z /\
    det N a = IZR (sign d) * prodR N (fun i => U i i).
Proof.
  intros eps N a d He H. pose proof (lu_decompose_some N a eps He d H) as I.
  exists (lower_of (lu d)), (upper_of (lu d)). pose proof I as (_ & B1 & B2 & PM & Sg & _).
  split; [apply perm_is_permutation; auto|]. split; [apply (lu_factors N a eps); auto|].
  split. { intros i j Hi Hj L. unfold lower_of. rewrite (proj2 (Nat.ltb_ge j i)), (proj2 (Nat.eqb_neq j i)) by lia. reflexivity. }
  split. { intros i Hi. unfold lower_of. rewrite (proj2 (Nat.ltb_ge i i)), Nat.eqb_refl by lia. reflexivity. }
  split. { intros i j Hi Hj. unfold lower_of. destruct (Nat.ltb_spec j i); [apply B1; lia|].
           destruct (j =? i)%nat; [rewrite Rabs_R1|rewrite Rabs_R0]; lra. }
  split. { intros i j Hi Hj. unfold upper_of. rewrite (proj2 (Nat.leb_gt i j)) by lia. reflexivity. }
  assert (forall i, upper_of (lu d) i i = lu d i i) as Ud by (intros i; unfold upper_of; rewrite Nat.leb_refl; reflexivity).
  split. { intros i Hi. rewrite Ud. apply B2; auto. }
  split. { intros i j Hi Hj. unfold lower_of, upper_of. destruct (Nat.ltb_spec j i); auto. rewrite (proj2 (Nat.leb_le i j)) by lia. reflexivity. }
  split; auto. rewrite (lu_det N a eps d I). f_equal. apply prodR_ext. intros. rewrite Ud. reflexivity.
Qed.

(** Failure means: some matrix that differs from the input by at most eps in each entry is
    singular. *)
Theorem C29_failure_is_near_singular : forall eps N a, 0 <= eps -> lu_decompose Rops eps N a = None ->
  exists a', (forall i j, (i < N)%nat -> (j < N)%nat -> Rabs (a' i j - a i j) <= eps) /\ singular N a'.
Proof.
  intros eps N a He H. destruct (lu_decompose_none N a eps He H) as (k & d & St).
  destruct (stuck_singular N a eps He k d St) as (a' & x & H1 & H2 & H3).
  exists a'. split; auto. exists x. split; [exact H2|exact H3].
Qed.

(** A singular matrix is never factorized. *)
Theorem C29_singular_is_rejected : forall eps N a, 0 <= eps -> singular N a -> lu_decompose Rops eps N a = None.
Proof.
  intros eps N a He (x & (i & Hi & Nz) & Z). destruct (lu_decompose Rops eps N a) as [d|] eqn:E; auto.
  exfalso. apply Nz. apply (lu_nonsingular N a eps He d x (lu_decompose_some N a eps He d E) Z i Hi).
Qed.
(** With a zero threshold success is exactly nonsingularity. *)
Theorem C29_zero_threshold_exact : forall N a, lu_decompose Rops 0 N a = None <-> singular N a.
Proof.
  intros N a. split; [|apply C29_singular_is_rejected; lra].
  intros H. destruct (C29_failure_is_near_singular 0 N a (Rle_refl 0) H) as (a' & Cl & x & Nz & Z).
  exists x. split; auto. intros i Hi. rewrite <- (Z i Hi). unfold Mvec. apply sum_ext. intros j Hj. f_equal.
  specialize (Cl i j Hi Hj). pose proof (Rabs_pos (a' i j - a i j)). assert (Rabs (a' i j - a i j) = 0) as E by lra.
  destruct (Req_dec (a' i j - a i j) 0) as [|N0]; [lra|]. apply Rabs_no_R0 in N0. contradiction.
Qed.

(* [[0 1];[2 3]]: the rows are exchanged *)
Definition m2 (a b c d : R) : mat := fun i j => match i, j with O, O => a | O, _ => b | _, O => c | _, _ => d end.
Lemma Rltb_lt a b : a < b -> Rltb a b = true.
Proof. intros H. destruct (Rltb a b) eqn:E; auto. apply Rltb_false in E. lra. Qed.
Lemma Rltb_ge a b : b <= a -> Rltb a b = false.
Proof. intros H. destruct (Rltb a b) eqn:E; auto. apply Rltb_true in E. lra. Qed.
Lemma Rleb_le a b : a <= b -> Rleb a b = true.
Proof. intros H. destruct (Rleb a b) eqn:E; auto. apply Rleb_false in E. lra. Qed.
Lemma Rleb_gt a b : b < a -> Rleb a b = false.
Proof. intros H. destruct (Rleb a b) eqn:E; auto. apply Rleb_true in E. lra. Qed.
Lemma Rabs_pos_val x : 0 <= x -> Rabs x = x.
Proof. apply Rabs_pos_eq. Qed.
Example C29_nontrivial : exists d, lu_decompose Rops (1/1000) 2 (m2 0 1 2 3) = Some d /\
  piv d 0 = 1%nat /\ piv d 1 = 0%nat /\ sign d = (-1)%Z /\ lu d 0%nat 0%nat = 2 /\ singular 2 (m2 1 2 2 4).
Proof.
  eexists. split; [|split; [|split; [|split; [|split]]]].
  - unfold lu_decompose, lu_step, find_pivot, forM, for_. cbn -[Rltb Rleb Rabs].
    rewrite (Rabs_pos_val 0), (Rabs_pos_val 2) by lra. rewrite (Rltb_lt 0 2) by lra. cbn -[Rltb Rleb Rabs].
    rewrite (Rleb_gt 2) by lra. cbn -[Rltb Rleb Rabs]. unfold upd2; cbn -[Rltb Rleb Rabs].
    replace (1 - 0 / 2 * 3) with 1 by field. rewrite (Rabs_pos_val 1) by lra. rewrite (Rleb_gt 1) by lra. reflexivity.
  - reflexivity.
  - reflexivity.
  - reflexivity.
  - cbn. unfold upd2. cbn. lra.
  - exists (fun i => match i with O => 2 | _ => -1 end). split; [exists 0%nat; split; [lia|lra]|].
    intros i Hi. unfold Mvec. destruct i as [|[|i]]; [| |lia]; cbn; lra.
Qed.

(** *** C30: solving. *)
Theorem C30_solution : forall eps N a b x, 0 <= eps -> solve Rops eps N a b = Some x ->
  (forall i, (i < N)%nat -> Mvec N a x i = b i) /\
  (forall y, (forall i, (i < N)%nat -> Mvec N a y i = b i) -> eqv N y x).
Proof.
  intros eps N a b x He H. unfold solve in H. destruct (lu_decompose Rops eps N a) as [d|] eqn:E; [|discriminate].
  inversion H as [Hx]. pose proof (lu_decompose_some N a eps He d E) as I.
  assert (forall i, (i < N)%nat -> Mvec N a (lu_solve Rops N d b) i = b i) as Sol.
  { intros i Hi. apply (lu_solve_spec N a eps He d b I i Hi). }
  split; [exact Sol|]. intros y Hy i Hi.
  assert (y i - lu_solve Rops N d b i = 0); [|lra].
  apply (lu_nonsingular N a eps He d (fun i => y i - lu_solve Rops N d b i) I); auto.
  intros r Hr. rewrite <- (Rminus_diag_eq _ _ (eq_trans (Hy r Hr) (eq_sym (Sol r Hr)))). unfold Mvec.
  rewrite <- sum_minus. apply sum_ext. intros; ring.
Qed.
Theorem C30_fails_with_the_factorization : forall eps N a b, solve Rops eps N a b = None <-> lu_decompose Rops eps N a = None.
Proof. intros. unfold solve. destruct (lu_decompose Rops eps N a); cbn; split; congruence. Qed.

(** Many right-hand sides: for every scalar type, column j of the result is bit for bit what
    solving for column j alone gives. *)
Theorem C30_multi_is_columnwise : forall {F} (o : ops F) eps N K a b,
  match solve_multi o eps N K a b with
  | Some X => forall j, (j < K)%nat -> exists x, solve o eps N a (fun r => b r j) = Some x /\
                forall i, (i < N)%nat -> X i j = x i
  | None => forall c, solve o eps N a c = None
  end.
Proof.
  intros F o eps N K a b. unfold solve_multi, solve. destruct (lu_decompose o eps N a) as [d|] eqn:E; cbn; auto.
  intros j Hj. eexists. split; [reflexivity|]. intros i Hi.
  apply solve_multi_columns; auto. apply (lu_pivots o N eps a d E).
Qed.
Theorem C30_multi_solves : forall eps N K a b X, 0 <= eps -> solve_multi Rops eps N K a b = Some X ->
  forall i j, (i < N)%nat -> (j < K)%nat -> Mprod N a X i j = b i j.
Proof.
  intros eps N K a b X He H i j Hi Hj. pose proof (C30_multi_is_columnwise Rops eps N K a b) as G. rewrite H in G.
  destruct (G j Hj) as (x & Ex & Hx). destruct (C30_solution eps N a _ x He Ex) as [S _].
  rewrite <- (S i Hi). unfold Mprod, Mvec. apply sum_ext. intros k Hk. rewrite Hx by auto. reflexivity.
Qed.
Example C30_nontrivial : exists x, solve Rops (1/1000) 2 (m2 0 1 2 3) (fun i => match i with O => 5 | _ => 1 end) = Some x /\ x 0%nat = -7 /\ x 1%nat = 5.
Proof.
  destruct C29_nontrivial as (d & E & _).
  assert (exists x, solve Rops (1/1000) 2 (m2 0 1 2 3) (fun i => match i with O => 5 | _ => 1 end) = Some x) as (x & Ex).
  { unfold solve. rewrite E. eexists. reflexivity. }
  exists x. split; auto. destruct (C30_solution (1/1000) 2 _ _ x ltac:(lra) Ex) as [S _].
  pose proof (S 0%nat ltac:(lia)) as S0. pose proof (S 1%nat ltac:(lia)) as S1. unfold Mvec in *. cbn in S0, S1. lra.
Qed.

(** *** C31: Cholesky. *)
Theorem C31_factorization : forall N a L, symmetric N a -> cholesky_lower Rops N a = Some L ->
  (forall i j, (i < N)%nat -> (j < N)%nat -> (i < j)%nat -> L i j = 0) /\
  (forall i, (i < N)%nat -> 0 < L i i) /\
  (forall i j, (i < N)%nat -> (j < N)%nat -> Mprod N L (fun r c => L c r) i j = a i j).
Proof.
  intros N a L Sy H. pose proof (cholesky_some N a L H) as R. pose proof R as (_ & R2 & R3).
  split; [intros; apply R3; lia|]. split; [auto|]. apply (chol_product N a L R Sy).
Qed.
Theorem C31_succeeds_iff_positive_definite : forall N a, symmetric N a ->
  ((exists L, cholesky_lower Rops N a = Some L) <-> posdef N a).
Proof.
  intros N a Sy. split.
  - intros (L & H). apply (chol_posdef N a L); auto. apply cholesky_some; auto.
  - intros PD. destruct (cholesky_lower Rops N a) as [L|] eqn:E; [eexists; reflexivity|]. exfalso.
    destruct (cholesky_none N a E) as (i & l & Hi & P & Z).
    destruct (chol_not_posdef N a i l Hi P Sy Z) as (x & Nz & Q). specialize (PD x Nz). lra.
Qed.
Theorem C31_solution : forall N a b x, symmetric N a -> cholesky_solve Rops N a b = Some x ->
  (forall i, (i < N)%nat -> Mvec N a x i = b i) /\
  (forall y, (forall i, (i < N)%nat -> Mvec N a y i = b i) -> eqv N y x).
Proof.
  intros N a b x Sy H. unfold cholesky_solve in H. destruct (cholesky_lower Rops N a) as [L|] eqn:E; [|discriminate].
  inversion H as [Hx]. pose proof (cholesky_some N a L E) as R.
  assert (forall i, (i < N)%nat -> Mvec N a (chol_solve Rops N L b) i = b i) as Sol by (intros i Hi; apply chol_solve_spec; auto).
  split; [exact Sol|]. intros y Hy i Hi. set (z := fun i => y i - chol_solve Rops N L b i).
  assert (z i = 0); [|unfold z in *; lra].
  destruct (Req_dec (z i) 0) as [|Nz]; auto. exfalso.
  assert (posdef N a) as PD by (apply (chol_posdef N a L); auto).
  specialize (PD z ltac:(exists i; auto)).
  rewrite sum_0 in PD; [lra|]. intros r Hr.
  rewrite (sum_ext N _ (fun j => z r * (a r j * z j))) by (intros; ring). rewrite sum_scal.
  replace (sum N (fun j => a r j * z j)) with 0; [ring|].
  rewrite <- (Rminus_diag_eq _ _ (eq_trans (Hy r Hr) (eq_sym (Sol r Hr)))). unfold Mvec.
  rewrite <- sum_minus. apply sum_ext. intros; unfold z; ring.
Qed.
(** For every scalar type the entries above the diagonal of the input are never read. *)
Theorem C31_reads_lower_triangle_only : forall {F} (o : ops F) N (a b : nat -> nat -> F),
  (forall i j, (i < N)%nat -> (j <= i)%nat -> a i j = b i j) -> cholesky_lower o N a = cholesky_lower o N b.
Proof.
  intros F o N a b H. unfold cholesky_lower.
  assert (forall {S} lo hi (f g : nat -> S -> option S) s, (forall i s, (lo <= i < hi)%nat -> f i s = g i s) ->
    forM lo hi f s = forM lo hi g s) as Ext.
  { intros S lo hi f g s E. unfold forM. remember (hi - lo)%nat as n eqn:En. revert lo En s E.
    induction n as [|n IH]; intros lo En s E; cbn [seq forL]; auto.
    rewrite E by lia. destruct (g lo s); auto. apply IH; [lia|]. intros; apply E; lia. }
  apply Ext. intros i l Hi.
  rewrite (Ext _ 0%nat (S i) _ (fun j l => option_map (upd2 l i j) (chol_entry o b l i j)) l); auto.
  intros j s Hj. unfold chol_entry. rewrite H by lia. reflexivity.
Qed.
Example C31_nontrivial : symmetric 2 (m2 4 2 2 3) /\ posdef 2 (m2 4 2 2 3) /\
  exists L, cholesky_lower Rops 2 (m2 4 2 2 3) = Some L.
Proof.
  assert (symmetric 2 (m2 4 2 2 3)) as Sy by (intros [|[|]] [|[|]]; cbn; intros; try lia; auto).
  assert (posdef 2 (m2 4 2 2 3)) as PD.
  { intros x (i & Hi & Nz). cbn.
    replace (_ + _) with (Rsqr (2 * x 0%nat + x 1%nat) + 2 * Rsqr (x 1%nat)) by (unfold Rsqr; ring).
    pose proof (Rle_0_sqr (2 * x 0%nat + x 1%nat)). pose proof (Rle_0_sqr (x 1%nat)).
    destruct (Req_dec (x 1%nat) 0) as [E|E].
    - destruct i as [|[|]]; [|contradiction|lia]. rewrite E in *. rewrite Rplus_0_r in *.
      assert (2 * x 0%nat <> 0) as N0 by lra. pose proof (Rlt_0_sqr _ N0). lra.
    - pose proof (Rlt_0_sqr _ E). lra. }
  split; auto. split; auto. apply C31_succeeds_iff_positive_definite; auto.
Qed.

(** *** C32: Gauss-Jordan. *)
Theorem C32_inverse : forall N a b, inverse_gauss_jordan Rops N a = Some b -> inverse_of N a b.
Proof. intros N a b H. destruct (gj_some N a b H). split; auto. Qed.
Theorem C32_singular_is_rejected : forall N a, singular N a -> inverse_gauss_jordan Rops N a = None.
Proof.
  intros N a (x & (i & Hi & Nz) & Z). destruct (inverse_gauss_jordan Rops N a) as [b|] eqn:E; auto. exfalso. apply Nz.
  destruct (gj_some N a b E) as [B _].
  rewrite <- (Rmult_1_l (x i)). replace 1 with (Mprod N b a i i) by (rewrite B by auto; unfold delta; rewrite Nat.eqb_refl; reflexivity).
  transitivity (sum N (fun j => Mprod N b a i j * x j)).
  - symmetry. rewrite (sum_one N i); auto. intros j Hj Nj. rewrite B by auto. unfold delta.
    rewrite (proj2 (Nat.eqb_neq i j)) by lia. ring.
  - rewrite (sum_ext N _ (fun j => sum N (fun k => b i k * (a k j * x j)))).
    + rewrite sum_swap. apply sum_0. intros k Hk. rewrite sum_scal. specialize (Z k Hk). unfold Mvec in Z. rewrite Z. ring.
    + intros j Hj. unfold Mprod. rewrite <- sum_scal_r. apply sum_ext. intros; ring.
Qed.
(** None means: row operations (an invertible X) and a vector with a component 1 exist such
    that every component of X A v is at most 1e-12. *)
Theorem C32_failure_has_no_pivot : forall N a, inverse_gauss_jordan Rops N a = None ->
  exists X J v k, (k < N)%nat /\ v k = 1 /\ eqm N N (Mprod N J X) delta /\
    forall i, (i < N)%nat -> Rabs (Mvec N (Mprod N X a) v i) <= / 1000000000000.
Proof.
  intros N a H. destruct (gj_none N a H) as (k & [c x] & Hk & (I1 & (J & J1 & J2) & I3) & Sm). cbn [fst snd] in *.
  exists x, J, (fun j => if (j <? k)%nat then - c j k else if (j =? k)%nat then 1 else 0), k.
  split; auto. split; [rewrite (proj2 (Nat.ltb_ge k k)), Nat.eqb_refl by lia; reflexivity|]. split; auto.
  intros i Hi. unfold Mvec. set (v := fun j => if (j <? k)%nat then - c j k else if (j =? k)%nat then 1 else 0).
  rewrite (sum_ext N _ (fun j => c i j * v j)) by (intros j Hj; rewrite (I1 i j) by auto; reflexivity).
  rewrite (sum_trunc N (S k)); [|lia|].
  2:{ intros j Hj. unfold v. rewrite (proj2 (Nat.ltb_ge j k)), (proj2 (Nat.eqb_neq j k)) by lia. ring. }
  cbn [sum]. unfold v at 2. rewrite (proj2 (Nat.ltb_ge k k)), Nat.eqb_refl by lia.
  assert (eps12 Rops = / 1000000000000) as Ee by (unfold eps12; cbn [lit Rops]; unfold Q2R; cbn; lra).
  destruct (Nat.lt_ge_cases i k) as [L|L].
  - rewrite (sum_one k i); auto.
    + rewrite (I3 i i) by auto. unfold v, delta. rewrite Nat.eqb_refl, (proj2 (Nat.ltb_lt i k)) by auto.
      replace (1 * - c i k + c i k * 1) with 0 by ring. rewrite Rabs_R0. lra.
    + intros j Hj Nj. rewrite (I3 i j) by auto. unfold delta. rewrite (proj2 (Nat.eqb_neq i j)) by lia. ring.
  - rewrite sum_0.
    + rewrite Rplus_0_l, Rmult_1_r, <- Ee. apply Sm. lia.
    + intros j Hj. rewrite (I3 i j) by auto. unfold delta. rewrite (proj2 (Nat.eqb_neq i j)) by lia. ring.
Qed.
(** The threshold is absolute: an invertible matrix, as well conditioned as the identity, is
    rejected when its scale is below it. *)
Theorem C32_small_scale_refuted : exists (a b : mat), inverse_of 1 a b /\ inverse_gauss_jordan Rops 1 a = None.
Proof.
  exists (fun _ _ => / 10000000000000), (fun _ _ => 10000000000000). split.
  - split; intros [|i] [|j] Hi Hj; try lia; unfold Mprod, delta; cbn; lra.
  - unfold inverse_gauss_jordan, gj_step, find_pivot, forM, for_. cbn -[Rltb Rleb Rabs eps12].
    rewrite Rabs_pos_val by lra. rewrite Rleb_le; auto. unfold eps12. cbn [lit Rops]. unfold Q2R. cbn. lra.
Qed.
Example C32_nontrivial : exists b, inverse_gauss_jordan Rops 2 (m2 0 1 2 3) = Some b.
Proof.
  destruct (inverse_gauss_jordan Rops 2 (m2 0 1 2 3)) as [b|] eqn:E; [eexists; reflexivity|]. exfalso. revert E.
  unfold inverse_gauss_jordan, gj_step, find_pivot, forM, for_. cbn -[Rltb Rleb Rabs Reqb eps12].
  assert (eps12 Rops = / 1000000000000) as -> by (unfold eps12; cbn [lit Rops]; unfold Q2R; cbn; lra).
  rewrite (Rabs_pos_val 0), (Rabs_pos_val 2) by lra. rewrite (Rltb_lt 0 2) by lra. cbn -[Rltb Rleb Rabs Reqb].
  rewrite (Rleb_gt 2) by lra. cbn -[Rltb Rleb Rabs Reqb]. unfold upd2; cbn -[Rltb Rleb Rabs Reqb].
  destruct (Reqb 0 0) eqn:Z; [|apply Reqb_false in Z; lra]. cbn -[Rltb Rleb Rabs Reqb].
  rewrite (Rabs_pos_val 1) by lra. rewrite (Rleb_gt 1) by lra. discriminate.
Qed.

(** *** C33: determinant and 3x3 inverse. *)
Theorem C33_determinant : forall N a, let dt := determinant Rops N a in
  dt = det N a \/
  (dt = 0 /\ exists a', (forall i j, (i < N)%nat -> (j < N)%nat -> Rabs (a' i j - a i j) <= / 1000000000000) /\ singular N a').
Proof.
  intros N a. cbv zeta. rewrite determinant_lu. pose proof eps12_pos as Ep.
  assert (eps12 Rops = / 1000000000000) as Ee by (unfold eps12; cbn [lit Rops]; unfold Q2R; cbn; lra).
  destruct (lu_decompose Rops (eps12 Rops) N a) as [d|] eqn:E.
  - left. symmetry. apply (lu_det N a (eps12 Rops)). apply lu_decompose_some; auto. lra.
  - right. split; auto. rewrite <- Ee. apply C29_failure_is_near_singular; auto. lra.
Qed.
Theorem C33_nonzero_only_if_invertible : forall N a, determinant Rops N a <> 0 ->
  determinant Rops N a = det N a /\ ~ singular N a.
Proof.
  intros N a Nz. pose proof eps12_pos as Ep. rewrite determinant_lu in *.
  destruct (lu_decompose Rops (eps12 Rops) N a) as [d|] eqn:E; [|lra]. split.
  - symmetry. apply (lu_det N a (eps12 Rops)). apply lu_decompose_some; auto. lra.
  - intros S. rewrite C29_singular_is_rejected in E by (auto; lra). discriminate.
Qed.
Theorem C33_singular_gives_zero : forall N a, singular N a -> determinant Rops N a = 0.
Proof.
  intros N a S. destruct (Req_dec (determinant Rops N a) 0) as [|Nz]; auto.
  destruct (C33_nonzero_only_if_invertible N a Nz). contradiction.
Qed.
(** Exchanging two different rows negates a determinant that is computed as nonzero both times. *)
Theorem C33_row_exchange : forall N a p q, (p < N)%nat -> (q < N)%nat -> p <> q ->
  let a' := fun i j => a (tr p q i) j in
  determinant Rops N a <> 0 -> determinant Rops N a' <> 0 -> determinant Rops N a' = - determinant Rops N a.
Proof.
  intros N a p q Hp Hq Ne a' H1 H2.
  destruct (C33_nonzero_only_if_invertible N a H1) as [-> _]. destruct (C33_nonzero_only_if_invertible N a' H2) as [-> _].
  apply det_swap_rows; auto.
Qed.
(** The reference determinant is the usual one. *)
Theorem C33_reference_2x2 : forall a b c d, det 2 (m2 a b c d) = a * d - b * c.
Proof. intros. rewrite det_2. cbn. ring. Qed.
Theorem C33_reference_3x3 : forall a : mat, det 3 a =
    a 0%nat 0%nat * (a 1%nat 1%nat * a 2%nat 2%nat - a 1%nat 2%nat * a 2%nat 1%nat)
  - a 0%nat 1%nat * (a 1%nat 0%nat * a 2%nat 2%nat - a 1%nat 2%nat * a 2%nat 0%nat)
  + a 0%nat 2%nat * (a 1%nat 0%nat * a 2%nat 1%nat - a 1%nat 1%nat * a 2%nat 0%nat).
Proof. intros. rewrite det_3. ring. Qed.

Theorem C33_inverse3 : forall a,
  match inverse3 Rops a with
  | Some b => / 1000000000000 < Rabs (det 3 a) /\ inverse_of 3 a b
  | None => Rabs (determinant Rops 3 a) <= / 1000000000000
  end.
Proof.
  intros a. unfold inverse3. cbv zeta.
  assert (eps12 Rops = / 1000000000000) as -> by (unfold eps12; cbn [lit Rops]; unfold Q2R; cbn; lra).
  cbn [leb absf Rops]. destruct (Rleb _ _) eqn:Z; [apply Rleb_true in Z; exact Z|]. apply Rleb_false in Z.
  assert (determinant Rops 3 a <> 0) as Nz by (intros E; rewrite E, Rabs_R0 in Z; lra).
  destruct (C33_nonzero_only_if_invertible 3 a Nz) as [E _]. rewrite E in *. split; [exact Z|].
  clear Z. cbn [div one mul neg sub Rops]. rewrite det_3 in *.
  split; intros i j Hi Hj; unfold Mprod, delta; destruct i as [|[|[|i]]]; try lia; destruct j as [|[|[|j]]]; try lia;
    cbn [sum Nat.eqb]; field; exact Nz.
Qed.
Theorem C33_inverse3_when_determinant_is_exact : forall a,
  determinant Rops 3 a = det 3 a -> (inverse3 Rops a = None <-> Rabs (det 3 a) <= / 1000000000000).
Proof.
  intros a E. pose proof (C33_inverse3 a) as G. destruct (inverse3 Rops a); split; intros H; try discriminate; auto.
  - lra.
  - rewrite <- E. exact G.
Qed.
Example C33_nontrivial : determinant Rops 2 (m2 0 1 2 3) = -2 /\ det 2 (m2 0 1 2 3) = -2.
Proof.
  split; [|rewrite C33_reference_2x2; ring].
  unfold determinant, det_step, find_pivot, forM, for_. cbn -[Rltb Rleb Rabs eps12].
  assert (eps12 Rops = / 1000000000000) as -> by (unfold eps12; cbn [lit Rops]; unfold Q2R; cbn; lra).
  rewrite (Rabs_pos_val 0), (Rabs_pos_val 2) by lra. rewrite (Rltb_lt 0 2) by lra. cbn -[Rltb Rleb Rabs].
  rewrite (Rleb_gt 2) by lra. cbn -[Rltb Rleb Rabs]. unfold upd2; cbn -[Rltb Rleb Rabs].
  replace (1 - 0 / 2 * 3) with 1 by field. rewrite (Rabs_pos_val 1) by lra. rewrite (Rleb_gt 1) by lra. ring.
Qed.
