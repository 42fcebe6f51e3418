(** Properties C26, C28, C35, C36: matrices, tensors and vectors. *)
From Coq Require Import Reals QArith Qreals List Arith Lia Lra Bool.
From Verif Require Import Scalar RSum LinModel LinSpec LinProofs.
Import ListNotations.
Local Open Scope nat_scope.

(** *** C26: for every size and every scalar type, with no law assumed on + and *, each
    entry of A*B is ((0 + a_i0*b_0j) + a_i1*b_1j) + ... in increasing k. *)
Theorem C26_product_every_size : forall {F} (o : ops F) M N P (a b : nat -> nat -> F),
  exists res, mul_matrix_strided o M N P a b = Some res /\
    forall i j, i < M -> j < P -> res i j = left_sum o N (fun k => mul o (a i k) (b k j)).
Proof.
  intros F o M N P a b. destruct (mul_matrix_spec o M N P a b) as (res & E & H).
  exists res. split; [exact E|exact H].
Qed.

(** The small-size path and the 16-blocked path agree on every entry, on every size. *)
Theorem C26_blocked_agrees_with_small : forall {F} (o : ops F) M N P (a b : nat -> nat -> F),
  exists res, mul_blocked o M N P a b = Some res /\ eqm M P res (mul_small o M N P a b).
Proof.
  intros F o M N P a b. destruct (mul_blocked_spec o M N P a b) as (res & E & H).
  exists res. split; [exact E|]. intros i j Hi Hj. rewrite H by auto. symmetry. apply mul_small_spec; auto.
Qed.

Theorem C26_matrix_vector : forall {F} (o : ops F) M N (a : nat -> nat -> F) (v : nat -> F) i,
  i < M -> mul_vector_unrolled o M N a v i = left_sum o N (fun k => mul o (a i k) (v k)).
Proof. intros F o M N a v i Hi. apply mul_vector_spec; auto. Qed.

(** A*v is column 0 of A*[v], bit for bit. *)
Theorem C26_vector_is_one_column : forall {F} (o : ops F) M N (a : nat -> nat -> F) (v : nat -> F),
  exists res, mul_matrix_strided o M N 1 a (fun k _ => v k) = Some res /\
    forall i, i < M -> res i 0 = mul_vector_unrolled o M N a v i.
Proof.
  intros F o M N a v. destruct (mul_matrix_spec o M N 1 a (fun k _ => v k)) as (res & E & H).
  exists res. split; [exact E|]. intros i Hi. rewrite H by auto. symmetry. apply mul_vector_spec; auto.
Qed.

(** A 9x3 times 3x2 product takes the blocked path; over nat-valued scalars. *)
Definition nat_ops : ops nat :=
  mkOps nat 0 1 plus minus mult Nat.div (fun x => x) (fun x => x) Nat.sqrt (fun a b c => a * b + c)
    Nat.ltb Nat.leb Nat.eqb (fun q => Z.to_nat (Qnum q)).
Example C26_nontrivial :
  option_map (fun r => (r 8 1, r 0 0)) (mul_matrix_strided nat_ops 9 3 2 (fun i k => i + k) (fun k j => k + 10 * j))
  = Some (8 * 10 + 9 * 11 + 10 * 12, 0 * 0 + 1 * 1 + 2 * 2) /\ (9 <=? 8) = false.
Proof. split; reflexivity. Qed.

(** *** C28: algebra laws, exact arithmetic, every size *)
Local Notation "A *[ M , N , P ] B" := (mul_matrix_strided Rops M N P A B) (at level 40).

Lemma prod_R M N P a b : exists r, a *[M,N,P] b = Some r /\ eqm M P r (Mprod N a b).
Proof.
  destruct (mul_matrix_spec Rops M N P a b) as (r & E & H). exists r. split; [exact E|].
  intros i j Hi Hj. rewrite H by auto. unfold part. rewrite left_sum_R. reflexivity.
Qed.

Theorem C28_product_exact : forall M N P a b, exists r,
  a *[M,N,P] b = Some r /\ forall i j, i < M -> j < P -> r i j = sum N (fun k => (a i k * b k j)%R).
Proof. intros. apply prod_R. Qed.

Theorem C28_identity : forall M N a, exists l r,
  identity Rops M *[M,M,N] a = Some l /\ a *[M,N,N] identity Rops N = Some r /\
  eqm M N l a /\ eqm M N r a.
Proof.
  intros M N a. destruct (prod_R M M N (identity Rops M) a) as (l & El & Hl).
  destruct (prod_R M N N a (identity Rops N)) as (r & Er & Hr).
  exists l, r. repeat split; auto.
  - intros i j Hi Hj. rewrite Hl by auto. unfold Mprod.
    rewrite (sum_one M i _) by (first [exact Hi | intros k Hk Nk; rewrite identity_spec;
      destruct (Nat.eqb_spec i k); [lia|cbn; ring]]).
    rewrite identity_spec, Nat.eqb_refl, (proj2 (Nat.ltb_lt i M) Hi). cbn. ring.
  - intros i j Hi Hj. rewrite Hr by auto. unfold Mprod.
    rewrite (sum_one N j _) by (first [exact Hj | intros k Hk Nk; rewrite identity_spec;
      destruct (Nat.eqb_spec k j); [lia|cbn; ring]]).
    rewrite identity_spec, Nat.eqb_refl, (proj2 (Nat.ltb_lt j N) Hj). cbn. ring.
Qed.

Theorem C28_associative : forall M N P Q a b c, exists ab bc l r,
  a *[M,N,P] b = Some ab /\ b *[N,P,Q] c = Some bc /\
  ab *[M,P,Q] c = Some l /\ a *[M,N,Q] bc = Some r /\ eqm M Q l r.
Proof.
  intros. destruct (prod_R M N P a b) as (ab & E1 & H1). destruct (prod_R N P Q b c) as (bc & E2 & H2).
  destruct (prod_R M P Q ab c) as (l & E3 & H3). destruct (prod_R M N Q a bc) as (r & E4 & H4).
  exists ab, bc, l, r. repeat split; auto. intros i j Hi Hj. rewrite H3, H4 by auto. unfold Mprod.
  rewrite (sum_ext P _ (fun k => sum N (fun m => (a i m * b m k * c k j)%R)))
    by (intros k Hk; rewrite H1 by auto; unfold Mprod; symmetry; apply sum_scal_r).
  rewrite sum_swap. apply sum_ext. intros m Hm. rewrite H2 by auto. unfold Mprod. rewrite <- sum_scal.
  apply sum_ext. intros. ring.
Qed.

Theorem C28_distributive : forall M N P a b c, exists l ab ac,
  a *[M,N,P] mat_add Rops N P b c = Some l /\ a *[M,N,P] b = Some ab /\ a *[M,N,P] c = Some ac /\
  eqm M P l (mat_add Rops M P ab ac).
Proof.
  intros. destruct (prod_R M N P a (mat_add Rops N P b c)) as (l & E1 & H1).
  destruct (prod_R M N P a b) as (ab & E2 & H2). destruct (prod_R M N P a c) as (ac & E3 & H3).
  exists l, ab, ac. repeat split; auto. intros i j Hi Hj. unfold mat_add at 1. rewrite fill_in by auto.
  rewrite H1, H2, H3 by auto. unfold Mprod. cbn. rewrite <- sum_plus. apply sum_ext. intros k Hk.
  unfold mat_add. rewrite fill_in by auto. cbn. ring.
Qed.

(** (A*B)^T = B^T * A^T *)
Theorem C28_transpose_product : forall M N P a b, exists ab l,
  a *[M,N,P] b = Some ab /\ transpose Rops N P b *[P,N,M] transpose Rops M N a = Some l /\
  eqm P M (transpose Rops M P ab) l.
Proof.
  intros. destruct (prod_R M N P a b) as (ab & E1 & H1).
  destruct (prod_R P N M (transpose Rops N P b) (transpose Rops M N a)) as (l & E2 & H2).
  exists ab, l. repeat split; auto. intros i j Hi Hj.
  rewrite transpose_in, H1, H2 by auto. unfold Mprod. apply sum_ext. intros k Hk.
  rewrite !transpose_in by auto. ring.
Qed.

(** Any scalar type. *)
Theorem C28_transpose : forall {F} (o : ops F) M N a,
  (forall i j, i < N -> j < M -> transpose o M N a i j = a j i) /\
  eqm M N (transpose o N M (transpose o M N a)) a.
Proof.
  intros F o M N a. split; [intros; apply transpose_in; auto|].
  intros i j Hi Hj. rewrite !transpose_in by auto. reflexivity.
Qed.

Theorem C28_entrywise : forall {F} (o : ops F) M N a b s i j, i < M -> j < N ->
  mat_add o M N a b i j = add o (a i j) (b i j) /\
  mat_sub o M N a b i j = sub o (a i j) (b i j) /\
  mat_neg o M N a i j = neg o (a i j) /\
  mat_scale o M N a s i j = mul o (a i j) s /\
  mat_div o M N a s i j = div o (a i j) s.
Proof.
  intros. unfold mat_add, mat_sub, mat_neg, mat_scale, mat_div.
  rewrite !fill_in by auto. repeat split.
Qed.

Theorem C28_outer_diag : forall {F} (o : ops F) M N (u v d : nat -> F) i j, i < M -> j < N ->
  outer o M N u v i j = mul o (u i) (v j) /\
  diag o M d i j = (if i =? j then d i else zero o).
Proof.
  intros F o M N u v d i j Hi Hj. split; [apply (fill_in M N (fun i j => mul o (u i) (v j))); auto|].
  rewrite diag_spec, (proj2 (Nat.ltb_lt i M) Hi), andb_true_r. reflexivity.
Qed.

Theorem C28_trace : forall M N a b, exists ab ba,
  a *[M,N,M] b = Some ab /\ b *[N,M,N] a = Some ba /\
  trace Rops M ab = sum M (fun i => ab i i) /\ trace Rops M ab = trace Rops N ba.
Proof.
  intros. destruct (prod_R M N M a b) as (ab & E1 & H1). destruct (prod_R N M N b a) as (ba & E2 & H2).
  exists ab, ba.
  assert (forall n c, trace Rops n c = sum n (fun i => c i i)) as T
    by (intros; unfold trace; rewrite (sum_loop Rops n (fun i => c i i)), left_sum_R; reflexivity).
  repeat split; auto. rewrite !T.
  rewrite (sum_ext M _ (fun i => sum N (fun k => (a i k * b k i)%R))) by (intros; apply H1; auto).
  rewrite (sum_ext N _ (fun i => sum M (fun k => (b i k * a k i)%R))) by (intros; apply H2; auto).
  rewrite sum_swap. apply sum_ext. intros. apply sum_ext. intros. ring.
Qed.

(** max_abs is the largest absolute entry. *)
Theorem C28_max_abs : forall M N a, 0 < M -> 0 < N ->
  (forall i j, i < M -> j < N -> (Rabs (a i j) <= max_abs Rops M N a)%R) /\
  exists i j, i < M /\ j < N /\ max_abs Rops M N a = Rabs (a i j).
Proof.
  intros M N a HM HN. destruct (max_abs_spec M N a) as (H0 & H1 & [H2|H2]); split; auto.
  exists 0, 0. repeat split; auto. rewrite H2. specialize (H1 0 0 HM HN). rewrite H2 in H1.
  pose proof (Rabs_pos (a 0 0)). lra.
Qed.

Example C28_nontrivial : exists r,
  (fun i j => INR (i + 2 * j)) *[10,3,2] (fun i j => INR (i * j)) = Some r /\ r 9 1 = 37%R /\
  transpose Rops 10 2 r 1 9 = 37%R.
Proof.
  destruct (C28_product_exact 10 3 2 (fun i j => INR (i + 2 * j)) (fun i j => INR (i * j))) as (r & E & H).
  exists r. rewrite transpose_in, !H by lia. cbn [sum]. cbn [Nat.add Nat.mul].
  assert (INR 9 = 9%R /\ INR 11 = 11%R /\ INR 13 = 13%R /\ INR 1 = 1%R /\ INR 2 = 2%R /\ INR 0 = 0%R) as (-> & -> & -> & -> & -> & ->)
    by (repeat split; rewrite ?INR_IZR_INZ; reflexivity).
  repeat split; auto; try lra.
Qed.

(** *** C35 *)
Lemma prod_app a b : prod (a ++ b) = prod a * prod b.
Proof. induction a; cbn; [lia|rewrite IHa; lia]. Qed.

Lemma offset_rev_spec : forall shape idx off st, length shape = length idx ->
  offset_rev (rev shape) (rev idx) off st = off + st * row_major shape idx.
Proof.
  assert (forall s i a b off st, length s = length i ->
    offset_rev (s ++ a) (i ++ b) off st = offset_rev a b (offset_rev s i off st) (st * prod s)) as App.
  { induction s as [|n s IH]; intros [|x i] a b off st L; cbn in *; try discriminate.
    - f_equal; lia.
    - rewrite IH by lia. f_equal. lia. }
  assert (forall l, prod (rev l) = prod l) as PR.
  { induction l; cbn; auto. rewrite prod_app. cbn. lia. }
  induction shape as [|n s IH]; intros [|x i] off st L; cbn in *; try discriminate; [lia|].
  rewrite App by (rewrite !rev_length; lia). cbn [offset_rev]. rewrite IH by lia. rewrite PR.
  destruct (rev s), (rev i); lia.
Qed.

Lemma row_major_bound : forall shape idx, in_range shape idx -> row_major shape idx < prod shape.
Proof.
  induction shape as [|n s IH]; intros [|i is] H; cbn in *; try tauto; [lia|].
  destruct H as [Hi H]. specialize (IH is H). nia.
Qed.
Lemma row_major_inj : forall shape i j, in_range shape i -> in_range shape j ->
  row_major shape i = row_major shape j -> i = j.
Proof.
  induction shape as [|n s IH]; intros [|i is] [|j js] Hi Hj E; cbn in *; try tauto.
  destruct Hi as [Hi Hi'], Hj as [Hj Hj'].
  pose proof (row_major_bound s is Hi'). pose proof (row_major_bound s js Hj').
  assert (i = j) as -> by nia. f_equal. apply IH; auto. lia.
Qed.
Lemma in_range_length : forall shape idx, in_range shape idx -> length shape = length idx.
Proof. induction shape; intros [|i is] H; cbn in *; try tauto. f_equal. apply IHshape. tauto. Qed.

(** Offsets are row-major, inside the buffer, and never collide: every rank, every shape. *)
Theorem C35_offset : forall shape i, in_range shape i ->
  offset shape i = row_major shape i /\ offset shape i < prod shape /\
  forall j, in_range shape j -> offset shape i = offset shape j -> i = j.
Proof.
  assert (forall shape i, in_range shape i -> offset shape i = row_major shape i) as E.
  { intros. unfold offset. rewrite offset_rev_spec by (apply in_range_length; auto). lia. }
  intros shape i Hi. rewrite !E by auto. repeat split; auto using row_major_bound.
  intros j Hj Ej. rewrite (E shape j Hj) in Ej. eapply row_major_inj; eauto.
Qed.

Lemma concat_nth {T} n : forall (l : list (list T)) i j,
  Forall (fun r => length r = n) l -> j < n ->
  nth_error (concat l) (i * n + j) = match nth_error l i with Some r => nth_error r j | None => None end.
Proof.
  induction l as [|r l IH]; intros i j H Hj.
  - cbn. destruct i; cbn; [destruct j; reflexivity|]. destruct (n + i * n + j); reflexivity.
  - apply Forall_cons_iff in H. destruct H as [Hr H]. cbn [concat]. destruct i as [|i].
    + cbn [Nat.mul Nat.add nth_error]. rewrite nth_error_app1 by lia. reflexivity.
    + rewrite nth_error_app2 by lia. cbn [nth_error].
      replace (S i * n + j - length r) with (i * n + j) by lia. apply IH; auto.
Qed.

(** The flat slice of a Tensor3 has D0*D1*D2 elements, element (i,j,k) at its row-major
    offset, and a TensorView over it reads what indexing reads. *)
Theorem C35_tensor3_flat : forall {T} D0 D1 D2 (data : list (list (list T))), is_tensor3 D0 D1 D2 data ->
  length (as_flat3 data) = D0 * D1 * D2 /\
  forall i j k, in_range [D0; D1; D2] [i; j; k] ->
    nth_error (as_flat3 data) (i * (D1 * D2) + j * D2 + k) = index3 data i j k /\
    view_get (as_flat3 data) [D0; D1; D2] [i; j; k] = index3 data i j k /\
    index3 data i j k <> None.
Proof.
  intros T D0 D1 D2 data [HL HF].
  assert (Forall (fun p => length p = D1) data) as F1 by (eapply Forall_impl; [|exact HF]; cbn; tauto).
  assert (Forall (fun r => length r = D2) (concat data)) as F2.
  { clear HL F1. induction HF as [|p l [_ Hp] HF IH]; cbn; auto. apply Forall_app. auto. }
  assert (forall n (l : list (list T)), Forall (fun r => length r = n) l -> length (concat l) = length l * n) as CL.
  { intros n l H. induction H; cbn; auto. rewrite app_length. lia. }
  assert (forall n (l : list (list (list T))), Forall (fun r => length r = n) l -> length (concat l) = length l * n) as CL'.
  { intros n l H. induction H; cbn; auto. rewrite app_length. lia. }
  split.
  - unfold as_flat3. rewrite (CL D2) by auto. rewrite (CL' D1) by auto. rewrite HL. reflexivity.
  - intros i j k H. pose proof (C35_offset _ _ H) as (EO & _ & _).
    cbn [in_range] in H. destruct H as (Hi & Hj & Hk & _).
    assert (nth_error (as_flat3 data) (i * (D1 * D2) + j * D2 + k) = index3 data i j k) as E.
    { unfold as_flat3, index3. replace (i * (D1 * D2) + j * D2 + k) with ((i * D1 + j) * D2 + k) by lia.
      rewrite concat_nth by auto. rewrite concat_nth by auto. destruct (nth_error data i); reflexivity. }
    repeat split; auto.
    + unfold view_get. rewrite EO, <- E. f_equal. cbn [row_major prod]. lia.
    + rewrite <- E. apply nth_error_Some. unfold as_flat3. rewrite (CL D2), (CL' D1) by auto.
      pose proof (row_major_bound [D0; D1; D2] [i; j; k] ltac:(cbn; auto)) as B. cbn [row_major prod] in B. lia.
Qed.

Lemma set_nth_spec {T} : forall (l : list T) n x, n < length l -> exists l',
  set_nth l n x = Some l' /\ length l' = length l /\ nth_error l' n = Some x /\
  forall m, m <> n -> nth_error l' m = nth_error l m.
Proof.
  induction l as [|y l IH]; intros n x H; cbn in H; [lia|]. destruct n as [|n]; cbn.
  - eexists. split; [reflexivity|]. repeat split; auto. intros [|m] Hm; [lia|reflexivity].
  - destruct (IH n x ltac:(lia)) as (l' & E & L & A & B). rewrite E. eexists. split; [reflexivity|].
    repeat split; cbn; auto. intros [|m] Hm; [reflexivity|]. apply B. lia.
Qed.

(** A write through a mutable view is read back, and changes no other element. *)
Theorem C35_view_write : forall {T} (data : list T) shape i x,
  length data = prod shape -> in_range shape i ->
  exists data', view_set data shape i x = Some data' /\ length data' = length data /\
    view_get data' shape i = Some x /\
    forall j, in_range shape j -> j <> i -> view_get data' shape j = view_get data shape j.
Proof.
  intros T data shape i x L H. destruct (C35_offset shape i H) as (_ & B & Inj).
  destruct (set_nth_spec data (offset shape i) x ltac:(lia)) as (d & E & L' & A & Fr).
  exists d. repeat split; auto. intros j Hj Ne. apply Fr. intros Eo. apply Ne. symmetry. apply Inj; auto.
Qed.

(** Row 4*i+j of the 4x4 flat array. *)
Theorem C35_matrix_flat : forall {F} (a : nat -> nat -> F) i j, i < 4 -> j < 4 ->
  as_flat_array a (i * 4 + j) = a i j.
Proof. intros. apply flat_spec; auto. Qed.

(** Without debug assertions an out-of-range index is not rejected: it reads another
    element of the buffer. *)
Theorem C35_out_of_range_refuted : exists (data : list nat) shape i j,
  length data = prod shape /\ ~ in_range shape i /\ in_range shape j /\
  view_get data shape i = view_get data shape j /\ view_get data shape i <> None.
Proof.
  exists [1;2;3;4;5;6], [2;3], [0;3], [1;0]. repeat split; cbn; try lia; try congruence.
Qed.

Example C35_nontrivial : in_range [2;3;4] [1;2;3] /\ offset [2;3;4] [1;2;3] = 23 /\
  is_tensor3 2 1 2 [[[1;2]];[[3;4]]] /\ view_get (as_flat3 [[[1;2]];[[3;4]]]) [2;1;2] [1;0;0] = Some 3.
Proof. split; [cbn; lia|]. split; [reflexivity|]. split; [|reflexivity]. split; [reflexivity|]. repeat constructor. Qed.

(** *** C36 *)
Local Open Scope R_scope.
Lemma dot_R n a b : dot Rops n a b = sum n (fun k => a k * b k).
Proof. rewrite dot_loop, left_sum_R. reflexivity. Qed.
Lemma norm_R n a : norm Rops n a = sqrt (sum n (fun k => a k * a k)).
Proof. unfold norm. cbn [sqrtf Rops]. f_equal. apply (dot_R n a a). Qed.

Theorem C36_dot_bilinear : forall n u v w c,
  dot Rops n u v = sum n (fun k => u k * v k) /\
  dot Rops n u v = dot Rops n v u /\
  dot Rops n (vec_add Rops n u v) w = dot Rops n u w + dot Rops n v w /\
  dot Rops n (vec_scale Rops n u c) w = c * dot Rops n u w /\
  dot Rops n (vec_neg Rops n u) w = - dot Rops n u w.
Proof.
  intros. rewrite !dot_R. repeat split.
  - apply sum_ext. intros. ring.
  - rewrite <- sum_plus. apply sum_ext. intros k Hk. unfold vec_add. rewrite vfill_in by auto. cbn. ring.
  - rewrite <- sum_scal. apply sum_ext. intros k Hk. unfold vec_scale. rewrite vfill_in by auto. cbn. ring.
  - rewrite <- sum_opp. apply sum_ext. intros k Hk. unfold vec_neg. rewrite vfill_in by auto. cbn. ring.
Qed.

Lemma norm_pos n u : 0 <= norm Rops n u.
Proof. rewrite norm_R. apply sqrt_pos. Qed.
Lemma norm_sq n u : norm Rops n u * norm Rops n u = sum n (fun k => u k * u k).
Proof. rewrite norm_R. apply sqrt_sqrt. apply sum_sq_pos. Qed.

(** Cauchy-Schwarz, triangle inequality, definiteness: any dimension. *)
Theorem C36_cauchy_schwarz : forall n u v,
  Rabs (dot Rops n u v) <= norm Rops n u * norm Rops n v.
Proof.
  intros. pose proof (cauchy_schwarz n u v) as H. rewrite <- !norm_sq in H. rewrite <- dot_R in H.
  apply Rsqr_incr_0_var.
  - rewrite <- Rsqr_abs. unfold Rsqr. nra.
  - apply Rmult_le_pos; apply norm_pos.
Qed.

Theorem C36_norm : forall n u v c,
  0 <= norm Rops n u /\ norm Rops n u * norm Rops n u = dot Rops n u u /\
  (norm Rops n u = 0 <-> forall k, (k < n)%nat -> u k = 0) /\
  norm Rops n (vec_scale Rops n u c) = Rabs c * norm Rops n u /\
  norm Rops n (vec_add Rops n u v) <= norm Rops n u + norm Rops n v.
Proof.
  intros n u v c. assert (norm Rops n u * norm Rops n u = dot Rops n u u) as E by (rewrite norm_sq, dot_R; auto).
  repeat split; auto using norm_pos.
  - intros H k Hk. assert (u k * u k = 0); [|nra].
    apply (sum_pos_zero n (fun k => u k * u k)); auto; [intros; nra|]. rewrite <- norm_sq, H. ring.
  - intros H. rewrite norm_R. rewrite (sum_0 n) by (intros; rewrite H by auto; ring). apply sqrt_0.
  - rewrite norm_R. rewrite (sum_ext n _ (fun k => (c * c) * (u k * u k)))
      by (intros; unfold vec_scale; rewrite vfill_in by auto; cbn; ring).
    rewrite sum_scal, sqrt_mult by (try apply sum_sq_pos; nra). rewrite norm_R. f_equal.
    replace (c * c) with (Rsqr c) by reflexivity. apply sqrt_Rsqr_abs.
  - apply Rsqr_incr_0_var; [|pose proof (norm_pos n u); pose proof (norm_pos n v); lra].
    unfold Rsqr. rewrite norm_sq.
    rewrite (sum_ext n _ (fun k => u k * u k + 2 * (u k * v k) + v k * v k))
      by (intros; unfold vec_add; rewrite vfill_in by auto; cbn; ring).
    rewrite !sum_plus, sum_scal, <- !norm_sq, <- dot_R.
    pose proof (C36_cauchy_schwarz n u v) as C. pose proof (Rle_abs (dot Rops n u v)). nra.
Qed.

Theorem C36_normalize : forall n u, norm Rops n u <> 0 ->
  norm Rops n (normalize Rops n u) = 1 /\
  forall k, (k < n)%nat -> u k = norm Rops n u * normalize Rops n u k.
Proof.
  intros n u H. assert (forall k, (k < n)%nat -> normalize Rops n u k = u k / norm Rops n u) as E
    by (intros; unfold normalize, vec_div; rewrite vfill_in by auto; reflexivity).
  split.
  - rewrite norm_R. rewrite (sum_ext n _ (fun k => (/ (norm Rops n u * norm Rops n u)) * (u k * u k)))
      by (intros; rewrite E by auto; field; auto).
    rewrite sum_scal, <- norm_sq. rewrite <- sqrt_1. f_equal. field. auto.
  - intros k Hk. rewrite E by auto. field. auto.
Qed.

(** try_normalize normalises exactly above 1e-12 and otherwise hands back its input. *)
Theorem C36_try_normalize : forall n u,
  snd (try_normalize Rops n u) = norm Rops n u /\
  (norm Rops n u > 1 / 10 ^ 12 ->
     norm Rops n (fst (try_normalize Rops n u)) = 1 /\
     forall k, (k < n)%nat -> u k = norm Rops n u * fst (try_normalize Rops n u) k) /\
  (norm Rops n u <= 1 / 10 ^ 12 -> fst (try_normalize Rops n u) = u).
Proof.
  intros n u. unfold try_normalize. cbv zeta.
  assert (eps12 Rops = 1 / 10 ^ 12) as Ee by (unfold eps12; cbn; unfold Q2R; cbn; lra).
  rewrite Ee. cbn [ltb Rops]. destruct (Rltb (1 / 10 ^ 12) (norm Rops n u)) eqn:E; cbn [fst snd].
  - apply Rltb_true in E. repeat split; try lra.
    + apply (C36_normalize n u). assert (0 < 1 / 10 ^ 12) by (apply Rdiv_lt_0_compat; [lra|apply pow_lt; lra]). lra.
    + apply (C36_normalize n u). assert (0 < 1 / 10 ^ 12) by (apply Rdiv_lt_0_compat; [lra|apply pow_lt; lra]). lra.
  - apply Rltb_false in E. repeat split; auto; lra.
Qed.

(** vector.rs:301-321: the angle, with exact acos *)
Definition angle n u v : R := match angle_cos Rops n u v with Some c => acos c | None => 0 end.

(** The angle is in [0, pi] and |u||v|cos(angle) = u.v; the clamp never acts. *)
Theorem C36_angle : forall n u v,
  0 <= angle n u v <= PI /\
  (norm Rops n u <> 0 -> norm Rops n v <> 0 ->
     norm Rops n u * norm Rops n v * cos (angle n u v) = dot Rops n u v).
Proof.
  intros n u v. unfold angle, angle_cos. cbv zeta. cbn [mul eqb zero one div ltb lit Rops].
  set (m := norm Rops n u * norm Rops n v). set (d := dot Rops n u v).
  assert (Q2R (-1 # 1) = -1) as -> by (unfold Q2R; cbn; lra).
  destruct (Reqb m 0) eqn:E.
  - apply Reqb_true in E. split; [pose proof PI_RGT_0; lra|]. intros H1 H2.
    exfalso. apply Rmult_integral in E. tauto.
  - apply Reqb_false in E. split; [apply acos_bound|]. intros H1 H2.
    assert (0 < m) as Hm. { pose proof (norm_pos n u). pose proof (norm_pos n v).
      assert (0 <= m) by (apply Rmult_le_pos; auto). lra. }
    pose proof (C36_cauchy_schwarz n u v) as CS. fold m d in CS.
    assert (-1 <= d / m <= 1) as B.
    { pose proof (Rle_abs d). pose proof (Rle_abs (- d)) as Hn. rewrite Rabs_Ropp in Hn. split.
      - apply Rmult_le_reg_r with m; auto. unfold Rdiv. rewrite Rmult_assoc, Rinv_l by lra. lra.
      - apply Rmult_le_reg_r with m; auto. unfold Rdiv. rewrite Rmult_assoc, Rinv_l by lra. lra. }
    rewrite (proj2 (Rltb_false 1 (d / m))) by lra. rewrite (proj2 (Rltb_false (d / m) (-1))) by lra.
    rewrite cos_acos by lra. field. auto.
Qed.

(** Cross product: orthogonal to both factors, Lagrange's identity, antisymmetric,
    right-handed on the basis. *)
Theorem C36_cross : forall u v,
  let d := dot Rops 3 in
  d (cross Rops u v) u = 0 /\ d (cross Rops u v) v = 0 /\
  d (cross Rops u v) (cross Rops u v) = d u u * d v v - d u v * d u v /\
  eqv 3 (cross Rops u v) (vec_neg Rops 3 (cross Rops v u)) /\
  (forall i, (i < 3)%nat -> cross Rops (delta 0) (delta 1) i = delta 2 i /\
     cross Rops (delta 1) (delta 2) i = delta 0 i /\ cross Rops (delta 2) (delta 0) i = delta 1 i).
Proof.
  intros u v d. unfold d. rewrite !dot_R. cbn [sum cross sub mul Rops].
  repeat split; try ring.
  - intros i Hi. unfold vec_neg. rewrite vfill_in by auto. cbn [neg Rops].
    destruct i as [|[|[|i]]]; [| | |lia]; cbn; ring.
  - destruct i as [|[|[|i]]]; [| | |lia]; cbn; ring.
  - destruct i as [|[|[|i]]]; [| | |lia]; cbn; ring.
  - destruct i as [|[|[|i]]]; [| | |lia]; cbn; ring.
Qed.

(** Elementwise operators, any scalar type. *)
Theorem C36_entrywise : forall {F} (o : ops F) n (u v : nat -> F) s k, (k < n)%nat ->
  vec_add o n u v k = add o (u k) (v k) /\ vec_sub o n u v k = sub o (u k) (v k) /\
  vec_neg o n u k = neg o (u k) /\ vec_scale o n u s k = mul o (u k) s /\
  vec_div o n u s k = div o (u k) s.
Proof.
  intros. unfold vec_add, vec_sub, vec_neg, vec_scale, vec_div. rewrite !vfill_in by auto. repeat split.
Qed.

Example C36_nontrivial :
  let u := fun k => match k with 0%nat => 3 | 1%nat => 4 | _ => 0 end in
  norm Rops 3 u = 5 /\ norm Rops 3 u <> 0 /\ fst (try_normalize Rops 3 u) 0%nat = 3 / 5 /\
  cross Rops u (delta 2) 0%nat = 4.
Proof.
  intros u. assert (norm Rops 3 u = 5) as E.
  { rewrite norm_R. cbn [sum u]. replace (0 + 3 * 3 + 4 * 4 + 0 * 0) with (5 * 5) by ring. apply sqrt_square. lra. }
  repeat split; try lra.
  - destruct (C36_try_normalize 3 u) as (_ & H & _). destruct H as [_ H]; [rewrite E; lra|].
    specialize (H 0%nat ltac:(lia)). rewrite E in H. cbn [u] in H. lra.
  - cbn. ring.
Qed.
