(** C132: chained rotation matrices in floating point stay near the exact product, near orthogonal,
    and keep lengths, with an error that grows linearly in the number of products. *)
From Coq Require Import ZArith Reals Lra Lia Bool Arith List Psatz.
From Flocq Require Import Core Relative Plus_error BinarySingleNaN.
From Verif Require Import Scalar RSum LinModel LinSpec LinProofs SimdModel SimdProofs SimdProps FloatModel OptSpec OptProps OptRateProps RoundProps.
Import ListNotations.
Local Open Scope R_scope.

(** ** Specification *)
(** the square root of the sum of the squares of all entries *)
Definition size (n : nat) (A : nat -> nat -> R) : R := length2 n (fun i => length2 n (A i)).
Definition gap (n : nat) (A B : nat -> nat -> R) : R := size n (fun i j => A i j - B i j).
Definition product (n : nat) (A B : nat -> nat -> R) : nat -> nat -> R := fun i j => sum n (fun k => A i k * B k j).
Definition apply (n : nat) (A : nat -> nat -> R) (v : nat -> R) : nat -> R := fun i => sum n (fun k => A i k * v k).
Definition delta (i j : nat) : R := if (i =? j)%nat then 1 else 0.
(** rows and columns are orthonormal *)
Definition orthogonal (n : nat) (A : nat -> nat -> R) : Prop :=
  (forall i j, (i < n)%nat -> (j < n)%nat -> sum n (fun k => A i k * A j k) = delta i j) /\
  (forall i j, (i < n)%nat -> (j < n)%nat -> sum n (fun k => A k i * A k j) = delta i j).
Inductive side := OnLeft | OnRight.
(** multiplying factor after factor onto a matrix, each from the side it is marked with *)
Definition chain_exact (n : nat) (Q : nat -> nat -> R) (l : list (side * (nat -> nat -> R))) :=
  fold_left (fun Q a => match a with (OnRight, A) => product n Q A | (OnLeft, A) => product n A Q end) l Q.
(** the matrix of the exact values of a matrix of floats *)
Definition values {prec emax} (A : nat -> nat -> binary_float prec emax) : nat -> nat -> R := fun i j => B2R (A i j).

(** ** Lengths and sizes *)
Lemma len_ext n a b : (forall i, (i < n)%nat -> a i = b i) -> length2 n a = length2 n b.
Proof. intros H. unfold length2. f_equal. apply sum_ext. intros i Hi. rewrite H by exact Hi. reflexivity. Qed.
Lemma len_mono n a b : (forall i, (i < n)%nat -> Rabs (a i) <= b i) -> length2 n a <= length2 n b.
Proof.
  intros H. unfold length2. apply sqrt_le_1_alt. apply sum_le. intros i Hi. specialize (H i Hi). pose proof (Rabs_pos (a i)).
  assert (E : a i * a i = Rabs (a i) * Rabs (a i)) by (rewrite <- Rabs_mult; symmetry; apply Rabs_pos_eq, Rle_0_sqr). rewrite E. apply Rmult_le_compat; lra.
Qed.
Lemma len_le n a c : 0 <= c -> sum n (fun i => a i * a i) <= c * c -> length2 n a <= c.
Proof. intros Hc H. unfold length2. rewrite <- (sqrt_square c Hc). apply sqrt_le_1_alt. exact H. Qed.
Lemma len_abs n a : length2 n (fun i => Rabs (a i)) = length2 n a.
Proof. unfold length2. f_equal. apply sum_ext. intros i _. rewrite <- Rabs_mult. apply Rabs_pos_eq, Rle_0_sqr. Qed.
Lemma len_triangle n a b : length2 n (fun i => a i + b i) <= length2 n a + length2 n b.
Proof.
  pose proof (length2_pos n a). pose proof (length2_pos n b). apply len_le; [lra|].
  replace ((length2 n a + length2 n b) * (length2 n a + length2 n b))
    with (length2 n a * length2 n a + 2 * (length2 n a * length2 n b) + length2 n b * length2 n b) by ring.
  rewrite !length2_sq. pose proof (cs_len n a b) as C.
  rewrite (sum_ext n (fun i => (a i + b i) * (a i + b i)) (fun i => (a i * a i + 2 * (a i * b i)) + b i * b i)) by (intros; ring).
  rewrite !sum_plus, sum_scal. lra.
Qed.
Lemma len_scal n c a : length2 n (fun i => c * a i) = Rabs c * length2 n a.
Proof.
  unfold length2. rewrite (sum_ext n _ (fun i => (c * c) * (a i * a i))) by (intros; ring). rewrite sum_scal.
  rewrite sqrt_mult_alt by apply Rle_0_sqr. f_equal. apply sqrt_Rsqr_abs.
Qed.
Lemma len_const n c : 0 <= c -> length2 n (fun _ => c) = sqrt (INR n) * c.
Proof.
  intros Hc. unfold length2. rewrite sum_const, sqrt_mult_alt by apply pos_INR. f_equal. apply sqrt_square, Hc.
Qed.
Lemma size_sq n A : size n A * size n A = sum n (fun i => sum n (fun j => A i j * A i j)).
Proof. unfold size. rewrite length2_sq. apply sum_ext. intros i _. apply length2_sq. Qed.
Lemma size_pos n A : 0 <= size n A. Proof. apply length2_pos. Qed.
Lemma size_ext n A B : (forall i j, (i < n)%nat -> (j < n)%nat -> A i j = B i j) -> size n A = size n B.
Proof. intros H. apply len_ext. intros i Hi. apply len_ext. intros j Hj. apply H; assumption. Qed.
Lemma size_triangle n A B : size n (fun i j => A i j + B i j) <= size n A + size n B.
Proof.
  unfold size. eapply Rle_trans; [|apply len_triangle]. apply len_mono. intros i _.
  rewrite Rabs_pos_eq by apply length2_pos. apply len_triangle.
Qed.
Lemma size_mono n A B : (forall i j, (i < n)%nat -> (j < n)%nat -> Rabs (A i j) <= B i j) -> size n A <= size n B.
Proof. intros H. apply len_mono. intros i Hi. rewrite Rabs_pos_eq by apply length2_pos. apply len_mono. intros j Hj. apply H; assumption. Qed.
Lemma size_scal n c A : 0 <= c -> size n (fun i j => c * A i j) = c * size n A.
Proof.
  intros Hc. unfold size. rewrite (len_ext n _ (fun i => c * length2 n (A i))) by (intros i _; rewrite len_scal, Rabs_pos_eq by exact Hc; reflexivity).
  rewrite len_scal, Rabs_pos_eq by exact Hc. reflexivity.
Qed.
Lemma size_const n c : 0 <= c -> size n (fun _ _ => c) = INR n * c.
Proof.
  intros Hc. unfold size. rewrite (len_ext n _ (fun _ => sqrt (INR n) * c)) by (intros i _; apply len_const, Hc).
  rewrite len_const by (apply Rmult_le_pos; [apply sqrt_pos|exact Hc]). rewrite <- Rmult_assoc, sqrt_sqrt by apply pos_INR. reflexivity.
Qed.
Lemma size_abs n A : size n (fun i j => Rabs (A i j)) = size n A.
Proof. unfold size. apply len_ext. intros i _. apply len_abs. Qed.
Lemma one_le n (a : nat -> R) i : (i < n)%nat -> (forall j, (j < n)%nat -> 0 <= a j) -> a i <= sum n a.
Proof.
  intros Hi H. pose proof (sum_le n (fun j => if (j =? i)%nat then a i else 0) a) as S. rewrite (sum_one n i) in S; [|exact Hi|].
  - rewrite Nat.eqb_refl in S. apply S. intros j Hj. destruct (Nat.eqb_spec j i) as [->|_]; [lra|apply H, Hj].
  - intros j _ N. destruct (Nat.eqb_spec j i); [congruence|reflexivity].
Qed.
Lemma row_le n A i : (i < n)%nat -> length2 n (A i) <= size n A.
Proof.
  intros Hi. apply len_le; [apply size_pos|]. rewrite size_sq.
  apply (one_le n (fun i => sum n (fun j => A i j * A i j)) i Hi). intros j _. apply sum_pos. intros k _. apply Rle_0_sqr.
Qed.
Lemma size_transpose n A : size n (fun i j => A j i) = size n A.
Proof.
  pose proof (size_pos n A). pose proof (size_pos n (fun i j => A j i)). pose proof (size_sq n A) as E. pose proof (size_sq n (fun i j => A j i)) as F.
  cbv beta in F. rewrite sum_swap in F. nra.
Qed.
(** sizes of products *)
Lemma dot_size n A B i j : (i < n)%nat -> (j < n)%nat -> sum n (fun k => Rabs (A i k * B k j)) <= size n A * size n B.
Proof.
  intros Hi Hj. rewrite (sum_ext n _ (fun k => Rabs (A i k) * Rabs (B k j))) by (intros; apply Rabs_mult).
  eapply Rle_trans; [apply cs_len|]. rewrite (len_abs n (A i)), (len_abs n (fun k => B k j)).
  apply Rmult_le_compat; try apply length2_pos; [apply row_le, Hi|]. rewrite <- (size_transpose n B). apply (row_le n (fun i j => B j i)), Hj.
Qed.
Lemma product_size n A B : size n (product n A B) <= size n A * size n B.
Proof.
  unfold size at 1. apply len_le; [apply Rmult_le_pos; apply size_pos|].
  replace (size n A * size n B * (size n A * size n B)) with ((size n A * size n A) * (size n B * size n B)) by ring.
  rewrite !size_sq, <- sum_scal_r. apply sum_le. intros i Hi. rewrite length2_sq. unfold product.
  rewrite (sum_swap n n (fun i j => B i j * B i j)), <- sum_scal. apply sum_le. intros j Hj.
  pose proof (cauchy_schwarz n (A i) (fun k => B k j)) as C. cbv beta in C. unfold Rsqr in C. lra.
Qed.
Lemma apply_len n A v : length2 n (apply n A v) <= size n A * length2 n v.
Proof.
  apply len_le; [apply Rmult_le_pos; [apply size_pos|apply length2_pos]|].
  replace (size n A * length2 n v * (size n A * length2 n v)) with ((size n A * size n A) * (length2 n v * length2 n v)) by ring.
  rewrite size_sq, length2_sq, <- sum_scal_r. apply sum_le. intros i Hi. unfold apply.
  pose proof (cauchy_schwarz n (A i) v) as C. unfold Rsqr in C. lra.
Qed.
(** orthogonal factors change no size *)
Lemma sum_delta n a i : (i < n)%nat -> sum n (fun j => a j * delta i j) = a i.
Proof.
  intros Hi. rewrite (sum_one n i); [unfold delta; rewrite Nat.eqb_refl; ring|exact Hi|].
  intros j _ N. unfold delta. destruct (Nat.eqb_spec i j); [congruence|ring].
Qed.
Lemma square_of_sum n (a b : nat -> R) : sum n a * sum n b = sum n (fun k => sum n (fun l => a k * b l)).
Proof. rewrite <- sum_scal_r. apply sum_ext. intros k _. rewrite <- sum_scal. reflexivity. Qed.
Lemma row_orthogonal n (S : nat -> nat -> R) (x : nat -> R) : orthogonal n S -> length2 n (fun j => sum n (fun k => x k * S k j)) = length2 n x.
Proof.
  intros [O _]. unfold length2. f_equal.
  rewrite (sum_ext n _ (fun j => sum n (fun k => sum n (fun l => (x k * S k j) * (x l * S l j))))) by (intros; apply square_of_sum).
  rewrite sum_swap. apply sum_ext. intros k Hk. rewrite sum_swap.
  rewrite (sum_ext n _ (fun l => (x k * x l) * delta k l)); [apply (sum_delta n (fun l => x k * x l)), Hk|].
  intros l Hl. rewrite <- (O k l Hk Hl), <- sum_scal. apply sum_ext. intros; ring.
Qed.
Lemma transpose_orthogonal n R : orthogonal n R -> orthogonal n (fun i j => R j i).
Proof. intros [A B]. split; [exact B|exact A]. Qed.
Lemma apply_orthogonal n R v : orthogonal n R -> length2 n (apply n R v) = length2 n v.
Proof.
  intros O. rewrite <- (row_orthogonal n _ v (transpose_orthogonal n R O)). apply len_ext. intros i _. unfold apply. apply sum_ext. intros; ring.
Qed.
Lemma size_right n A R : orthogonal n R -> size n (product n A R) = size n A.
Proof. intros O. unfold size, product. apply len_ext. intros i _. apply row_orthogonal, O. Qed.
Lemma size_left n Q A : orthogonal n Q -> size n (product n Q A) = size n A.
Proof.
  intros O. rewrite <- (size_transpose n A), <- (size_right n (fun i j => A j i) (fun i j => Q j i) (transpose_orthogonal n Q O)).
  rewrite <- size_transpose. apply size_ext. intros i j _ _. unfold product. apply sum_ext. intros; ring.
Qed.
Lemma size_orthogonal n R : orthogonal n R -> size n R = sqrt (INR n).
Proof.
  intros [O _]. unfold size. rewrite (len_ext n _ (fun _ => 1)).
  - rewrite len_const by lra. ring.
  - intros i Hi. unfold length2. rewrite (O i i Hi Hi). unfold delta. rewrite Nat.eqb_refl. apply sqrt_1.
Qed.
Lemma product_orthogonal n A B : orthogonal n A -> orthogonal n B -> orthogonal n (product n A B).
Proof.
  assert (H : forall A B, orthogonal n A -> orthogonal n B -> forall i j, (i < n)%nat -> (j < n)%nat ->
     sum n (fun k => product n A B i k * product n A B j k) = delta i j).
  { clear. intros A B [OA _] [OB _] i j Hi Hj. unfold product.
    rewrite (sum_ext n _ (fun k => sum n (fun p => sum n (fun q => (A i p * B p k) * (A j q * B q k))))) by (intros; apply square_of_sum).
    rewrite sum_swap, <- (OA i j Hi Hj). apply sum_ext. intros p Hp. rewrite sum_swap.
    rewrite (sum_ext n _ (fun q => (A i p * A j q) * delta p q)); [apply (sum_delta n (fun q => A i p * A j q)), Hp|].
    intros q Hq. rewrite <- (OB p q Hp Hq), <- sum_scal. apply sum_ext. intros; ring. }
  intros HA HB. split; [apply H; assumption|]. intros i j Hi Hj.
  rewrite <- (H _ _ (transpose_orthogonal n B HB) (transpose_orthogonal n A HA) i j Hi Hj).
  apply sum_ext. intros k _. unfold product. f_equal; apply sum_ext; intros; ring.
Qed.
Lemma gap_pos n A B : 0 <= gap n A B. Proof. apply size_pos. Qed.
Lemma gap_size n A R : size n A <= size n R + gap n A R.
Proof.
  unfold gap. rewrite (size_ext n A (fun i j => R i j + (A i j - R i j))) by (intros; ring). apply size_triangle.
Qed.
Lemma gap_triangle n A B C : gap n A C <= gap n A B + gap n B C.
Proof. unfold gap. rewrite (size_ext n (fun i j => A i j - C i j) (fun i j => (A i j - B i j) + (B i j - C i j))) by (intros; ring). apply size_triangle. Qed.

(** the exact product of matrices near orthogonal ones *)
Lemma product_gap n P A Q R : orthogonal n Q -> orthogonal n R ->
  gap n (product n P A) (product n Q R) <= gap n P Q + gap n A R + gap n P Q * gap n A R.
Proof.
  intros OQ OR. unfold gap.
  rewrite (size_ext n (fun i j => product n P A i j - product n Q R i j)
    (fun i j => (product n (fun i j => P i j - Q i j) R i j + product n Q (fun i j => A i j - R i j) i j)
                + product n (fun i j => P i j - Q i j) (fun i j => A i j - R i j) i j)).
  - eapply Rle_trans; [apply size_triangle|]. apply Rplus_le_compat; [|apply product_size].
    eapply Rle_trans; [apply size_triangle|]. rewrite size_right, size_left by assumption. lra.
  - intros i j _ _. unfold product. rewrite <- sum_minus, <- !sum_plus. apply sum_ext. intros; ring.
Qed.

Section Width.
Context (prec emax : Z) {Pr : Prec_gt_0 prec} {Me : Prec_lt_emax prec emax}.
Local Notation fl := (binary_float prec emax).
Local Notation u := (unit prec).
Local Notation eta := (tiny prec emax).
Local Notation o := (float_ops prec emax).
Definition finite_matrix (n : nat) (A : nat -> nat -> fl) : Prop := forall i j, (i < n)%nat -> (j < n)%nat -> is_finite (A i j) = true.
(** the relative error of a dot product of [n] terms, and what underflow can add to it *)
Definition gam (n : nat) : R := (1 + u) ^ n - 1.
Definition low (n : nat) : R := INR n * eta * (1 + u) ^ n.
(** the format has room for products of matrices of size up to [s] and [t] *)
Definition room (n : nat) (s t : R) : Prop := (1 + gam n) * (s * t) + low n <= largest prec emax.

Lemma gam_pos n : 0 <= gam n. Proof. unfold gam. pose proof (pow1 prec n). lra. Qed.
Lemma low_pos n : 0 <= low n. Proof. unfold low. pose proof (pow1 prec n). pose proof (eta_pos prec emax). apply Rmult_le_pos; [apply Rmult_le_pos; [apply pos_INR|lra]|lra]. Qed.

(** one product, any size *)
Lemma product_round n (P A : nat -> nat -> fl) s t : finite_matrix n P -> finite_matrix n A ->
  size n (values P) <= s -> size n (values A) <= t -> room n s t ->
  finite_matrix n (mul_small o n n n P A) /\
  gap n (values (mul_small o n n n P A)) (product n (values P) (values A)) <= gam n * (s * t) + INR n * low n.
Proof.
  intros FP FA HP HA Rm. pose proof (gam_pos n) as G0. pose proof (low_pos n) as L0.
  assert (ST : size n (values P) * size n (values A) <= s * t) by (apply Rmult_le_compat; try apply size_pos; assumption).
  assert (K : forall i j, (i < n)%nat -> (j < n)%nat -> dot_close prec emax n (P i) (fun k => A k j) (mul_small o n n n P A i j) /\ is_finite (mul_small o n n n P A i j) = true).
  { intros i j Hi Hj. rewrite (mul_small_spec o n n n P A i j Hi Hj).
    destruct (left_dot prec emax n (P i) (fun k => A k j)) as [D F]. split; [exact D|]. apply F. split; [intros k Hk; split; [apply FP|apply FA]; assumption|].
    pose proof (dot_size n (values P) (values A) i j Hi Hj) as S. unfold values in S at 1 2.
    fold (low n). unfold room, gam in Rm. pose proof (pow1 prec n).
    assert ((1 + u) ^ n * sum n (fun k => Rabs (B2R (P i k) * B2R (A k j))) <= (1 + u) ^ n * (s * t)) by (apply Rmult_le_compat_l; lra). lra. }
  split; [intros i j Hi Hj; apply K; assumption|].
  apply Rle_trans with (size n (fun i j => gam n * product n (fun i k => Rabs (values P i k)) (fun k j => Rabs (values A k j)) i j + low n)).
  - apply size_mono. intros i j Hi Hj. destruct (K i j Hi Hj) as [D F]. specialize (D F). unfold values at 1, product.
    rewrite (sum_ext n (fun k => Rabs (values P i k) * Rabs (values A k j)) (fun k => Rabs (B2R (P i k) * B2R (A k j)))) by (intros; symmetry; apply Rabs_mult).
    exact D.
  - eapply Rle_trans; [apply size_triangle|]. rewrite size_const by exact L0. apply Rplus_le_compat_r.
    rewrite size_scal by exact G0. apply Rmult_le_compat_l; [exact G0|].
    eapply Rle_trans; [apply product_size|]. rewrite !size_abs. exact ST.
Qed.

(** One product of computed matrices [P] and [A] standing for the rotations [Q] and [R]. *)
Theorem C132_step : forall n (P A : nat -> nat -> fl) Q R d e,
  orthogonal n Q -> orthogonal n R -> finite_matrix n P -> finite_matrix n A ->
  gap n (values P) Q <= d -> gap n (values A) R <= e -> room n (sqrt (INR n) + d) (sqrt (INR n) + e) ->
  finite_matrix n (mul_small o n n n P A) /\
  gap n (values (mul_small o n n n P A)) (product n Q R) <=
    d + e + d * e + (gam n * ((sqrt (INR n) + d) * (sqrt (INR n) + e)) + INR n * low n).
Proof.
  intros n P A Q R d e OQ OR FP FA HP HA Rm.
  pose proof (gap_size n (values P) Q) as SP. pose proof (gap_size n (values A) R) as SA. rewrite (size_orthogonal n Q OQ) in SP. rewrite (size_orthogonal n R OR) in SA.
  destruct (product_round n P A (sqrt (INR n) + d) (sqrt (INR n) + e) FP FA ltac:(lra) ltac:(lra) Rm) as [F G].
  split; [exact F|]. eapply Rle_trans; [apply (gap_triangle n _ (product n (values P) (values A)))|].
  pose proof (product_gap n (values P) (values A) Q R OQ OR) as PG.
  pose proof (gap_pos n (values P) Q) as Z1. pose proof (gap_pos n (values A) R) as Z2.
  assert (gap n (values P) Q * gap n (values A) R <= d * e) by (apply Rmult_le_compat; assumption). lra.
Qed.

(** what one more product multiplies the error by, and adds to it *)
Definition growth (n : nat) (e : R) : R := e + gam n * (sqrt (INR n) + e).
Definition fresh (n : nat) (e : R) : R := e + gam n * (sqrt (INR n) * (sqrt (INR n) + e)) + INR n * low n.
(** multiplying factor after factor onto a matrix, each from the side it is marked with *)
Definition chain (n : nat) (P : nat -> nat -> fl) (l : list (side * (nat -> nat -> fl))) :=
  fold_left (fun P a => match a with (OnRight, A) => mul_small o n n n P A | (OnLeft, A) => mul_small o n n n A P end) l P.

Lemma growth_pos n e : 0 <= e -> 0 <= growth n e.
Proof. intros He. unfold growth. pose proof (gam_pos n). pose proof (sqrt_pos (INR n)). assert (0 <= gam n * (sqrt (INR n) + e)) by (apply Rmult_le_pos; lra). lra. Qed.
Lemma fresh_pos n e : 0 <= e -> 0 <= fresh n e.
Proof.
  intros He. unfold fresh. pose proof (gam_pos n). pose proof (sqrt_pos (INR n)). pose proof (low_pos n). pose proof (pos_INR n).
  assert (0 <= gam n * (sqrt (INR n) * (sqrt (INR n) + e))) by (apply Rmult_le_pos; [lra|apply Rmult_le_pos; lra]).
  assert (0 <= INR n * low n) by (apply Rmult_le_pos; assumption). lra.
Qed.

(** Any number of products: as long as the bound stays below [1] nothing overflows, and the computed
    product is within [(1 + growth)^N (d + N fresh)] of the product of the rotations meant. *)
Theorem C132_chain : forall n e l Rs, Forall2 (fun a r => fst a = fst r /\ orthogonal n (snd r) /\ finite_matrix n (snd a) /\ gap n (values (snd a)) (snd r) <= e) l Rs ->
  forall (P : nat -> nat -> fl) Q d, orthogonal n Q -> finite_matrix n P -> gap n (values P) Q <= d -> 0 <= d -> 0 <= e ->
  (1 + growth n e) ^ length l * (d + INR (length l) * fresh n e) <= 1 -> room n (sqrt (INR n) + 1) (sqrt (INR n) + e) ->
  finite_matrix n (chain n P l) /\ orthogonal n (chain_exact n Q Rs) /\
  gap n (values (chain n P l)) (chain_exact n Q Rs) <= (1 + growth n e) ^ length l * (d + INR (length l) * fresh n e).
Proof.
  intros n e l Rs H. induction H as [|[sd A] [sd' R] l Rs (Es & OR & FA & HA) H IH]; intros P Q d OQ FP HP Hd He Hb Rm.
  - cbn [chain chain_exact fold_left length pow INR]. split; [exact FP|split; [exact OQ|lra]].
  - cbn [fst snd] in Es, OR, FA, HA. subst sd'. cbn [length] in *. unfold chain, chain_exact in *. cbn [fold_left].
    set (g := growth n e) in *. set (b := fresh n e) in *. set (N := length l) in *.
    assert (Pg : 0 <= g) by (apply growth_pos, He). assert (Pb : 0 <= b) by (apply fresh_pos, He).
    assert (PN : 1 <= (1 + g) ^ N) by (apply pow_R1_Rle; lra). pose proof (pos_INR N) as PI. rewrite S_INR in *. cbn [pow] in *.
    assert (PI' : 0 <= INR N * b) by (apply Rmult_le_pos; assumption).
    assert (D1 : d <= 1).
    { assert (d + (INR N + 1) * b <= (1 + g) * (1 + g) ^ N * (d + (INR N + 1) * b)).
      { rewrite <- (Rmult_1_l (d + (INR N + 1) * b)) at 1. apply Rmult_le_compat_r; [lra|]. assert (1 * 1 <= (1 + g) * (1 + g) ^ N) by (apply Rmult_le_compat; lra). lra. } lra. }
    assert (Rm' : room n (sqrt (INR n) + d) (sqrt (INR n) + e)).
    { unfold room in *. pose proof (gam_pos n). pose proof (sqrt_pos (INR n)).
      assert ((sqrt (INR n) + d) * (sqrt (INR n) + e) <= (sqrt (INR n) + 1) * (sqrt (INR n) + e)) by (apply Rmult_le_compat_r; lra).
      assert ((1 + gam n) * ((sqrt (INR n) + d) * (sqrt (INR n) + e)) <= (1 + gam n) * ((sqrt (INR n) + 1) * (sqrt (INR n) + e))) by (apply Rmult_le_compat_l; lra). lra. }
    set (P' := match sd with OnRight => mul_small o n n n P A | OnLeft => mul_small o n n n A P end).
    set (Q' := match sd with OnRight => product n Q R | OnLeft => product n R Q end).
    assert (FG : orthogonal n Q' /\ finite_matrix n P' /\ gap n (values P') Q' <= (1 + g) * d + b).
    { unfold P', Q'. destruct sd.
      - destruct (C132_step n A P R Q e d OR OQ FA FP HA HP ltac:(unfold room in *; rewrite (Rmult_comm (sqrt (INR n) + e)); exact Rm')) as [F G].
        split; [apply product_orthogonal; assumption|]. split; [exact F|]. eapply Rle_trans; [exact G|]. unfold g, b, growth, fresh. apply Req_le. ring.
      - destruct (C132_step n P A Q R d e OQ OR FP FA HP HA Rm') as [F G].
        split; [apply product_orthogonal; assumption|]. split; [exact F|]. eapply Rle_trans; [exact G|]. unfold g, b, growth, fresh. apply Req_le. ring. }
    destruct FG as (OQ' & F & G').
    assert (Hle : (1 + g) ^ N * ((1 + g) * d + b + INR N * b) <= (1 + g) * (1 + g) ^ N * (d + (INR N + 1) * b)).
    { replace ((1 + g) * (1 + g) ^ N * (d + (INR N + 1) * b)) with ((1 + g) ^ N * ((1 + g) * (d + (INR N + 1) * b))) by ring.
      apply Rmult_le_compat_l; [lra|]. assert (0 <= g * (INR N * b)) by (apply Rmult_le_pos; assumption). assert (0 <= g * b) by (apply Rmult_le_pos; assumption). lra. }
    destruct (IH P' Q' ((1 + g) * d + b)) as (I1 & I2 & I3).
    + exact OQ'.
    + exact F.
    + exact G'.
    + assert (0 <= (1 + g) * d) by (apply Rmult_le_pos; lra). lra.
    + exact He.
    + lra.
    + exact Rm.
    + fold P' Q'. destruct sd; (split; [exact I1|]; split; [exact I2|]; lra).
Qed.

(** A matrix within [d] of a rotation is orthogonal up to [2 d + d^2]. *)
Theorem C132_orthogonality : forall n A Q d, orthogonal n Q -> gap n A Q <= d ->
  gap n (product n (fun i j => A j i) A) delta <= 2 * d + d * d /\ gap n (product n A (fun i j => A j i)) delta <= 2 * d + d * d.
Proof.
  intros n A Q d OQ H. pose proof (gap_pos n A Q) as Z.
  assert (T : gap n (fun i j => A j i) (fun i j => Q j i) = gap n A Q) by (unfold gap; apply (size_transpose n (fun i j => A i j - Q i j))).
  assert (DD : gap n A Q * gap n A Q <= d * d) by (apply Rmult_le_compat; assumption).
  split.
  - pose proof (product_gap n (fun i j => A j i) A (fun i j => Q j i) Q (transpose_orthogonal n Q OQ) OQ) as G. rewrite T in G.
    replace (gap n (product n (fun i j => A j i) A) delta) with (gap n (product n (fun i j => A j i) A) (product n (fun i j => Q j i) Q)); [lra|].
    unfold gap. apply size_ext. intros i j Hi Hj. f_equal. apply (proj2 OQ i j Hi Hj).
  - pose proof (product_gap n A (fun i j => A j i) Q (fun i j => Q j i) OQ (transpose_orthogonal n Q OQ)) as G. rewrite T in G.
    replace (gap n (product n A (fun i j => A j i)) delta) with (gap n (product n A (fun i j => A j i)) (product n Q (fun i j => Q j i))); [lra|].
    unfold gap. apply size_ext. intros i j Hi Hj. f_equal. apply (proj1 OQ i j Hi Hj).
Qed.

(** Turning a vector of floats by a matrix within [d] of a rotation: the result is within
    [d + gamma (sqrt n + d)] times its length of the rotated vector, plus what underflow adds, and so is its length. *)
Theorem C132_vector : forall n (A : nat -> nat -> fl) Q (v : nat -> fl) d, orthogonal n Q -> gap n (values A) Q <= d ->
  (forall i, (i < n)%nat -> is_finite (mul_vector_unrolled o n n A v i) = true) ->
  let w := fun i => B2R (mul_vector_unrolled o n n A v i) in let x := fun i => B2R (v i) in
  length2 n (fun i => w i - apply n Q x i) <= (d + gam n * (sqrt (INR n) + d)) * length2 n x + sqrt (INR n) * low n /\
  Rabs (length2 n w - length2 n x) <= (d + gam n * (sqrt (INR n) + d)) * length2 n x + sqrt (INR n) * low n.
Proof.
  intros n A Q v d OQ HA F w x. pose proof (gam_pos n) as G0. pose proof (low_pos n) as L0.
  pose proof (gap_size n (values A) Q) as SA. rewrite (size_orthogonal n Q OQ) in SA.
  pose proof (length2_pos n x) as Px.
  assert (E1 : length2 n (fun i => w i - apply n (values A) x i) <= gam n * ((sqrt (INR n) + d) * length2 n x) + sqrt (INR n) * low n).
  { apply Rle_trans with (length2 n (fun i => gam n * apply n (fun i k => Rabs (values A i k)) (fun k => Rabs (x k)) i + low n)).
    - apply len_mono. intros i Hi. destruct (C105_matrix_vector prec emax n n A v i Hi) as [D _]. specialize (D (F i Hi)). unfold apply.
      rewrite (sum_ext n (fun k => Rabs (values A i k) * Rabs (x k)) (fun k => Rabs (B2R (A i k) * B2R (v k)))) by (intros; symmetry; apply Rabs_mult). exact D.
    - eapply Rle_trans; [apply len_triangle|]. rewrite len_const by exact L0. apply Rplus_le_compat_r. rewrite len_scal, Rabs_pos_eq by exact G0.
      apply Rmult_le_compat_l; [exact G0|]. eapply Rle_trans; [apply apply_len|]. rewrite size_abs, len_abs. apply Rmult_le_compat_r; lra. }
  assert (E2 : length2 n (fun i => apply n (values A) x i - apply n Q x i) <= d * length2 n x).
  { rewrite (len_ext n _ (apply n (fun i j => values A i j - Q i j) x)) by (intros i _; unfold apply; rewrite <- sum_minus; apply sum_ext; intros; ring).
    eapply Rle_trans; [apply apply_len|]. apply Rmult_le_compat_r; [exact Px|exact HA]. }
  assert (E : length2 n (fun i => w i - apply n Q x i) <= (d + gam n * (sqrt (INR n) + d)) * length2 n x + sqrt (INR n) * low n).
  { rewrite (len_ext n _ (fun i => (w i - apply n (values A) x i) + (apply n (values A) x i - apply n Q x i))) by (intros; ring).
    eapply Rle_trans; [apply len_triangle|]. lra. }
  split; [exact E|].
  pose proof (len_triangle n (fun i => w i - apply n Q x i) (apply n Q x)) as T1.
  pose proof (len_triangle n (fun i => -1 * (w i - apply n Q x i)) w) as T2.
  cbv beta in T1, T2.
  rewrite (len_ext n (fun i => w i - apply n Q x i + apply n Q x i) w) in T1 by (intros; ring).
  rewrite (len_ext n (fun i => -1 * (w i - apply n Q x i) + w i) (apply n Q x)) in T2 by (intros; ring).
  rewrite len_scal in T2. replace (Rabs (-1)) with 1 in T2 by (rewrite Rabs_left by lra; ring).
  rewrite (apply_orthogonal n Q x OQ) in T1, T2. apply Rabs_le. split; lra.
Qed.
End Width.

(** ** f64 *)
Local Instance p53 : Prec_gt_0 53 := eq_refl.
Local Instance e53 : Prec_lt_emax 53 1024 := eq_refl.
Definition u64 : R := / 9007199254740992.
Lemma unit53 : unit 53 = u64. Proof. unfold unit, u64. cbn. lra. Qed.
Lemma tiny53 : tiny 53 1024 <= u64 * u64.
Proof.
  unfold tiny. assert (bpow radix2 (3 - 1024 - 53) <= bpow radix2 (-106)) by (apply bpow_le; lia).
  replace (u64 * u64) with (bpow radix2 (-106)) by (rewrite <- unit53; unfold unit; rewrite <- bpow_plus; reflexivity).
  pose proof (bpow_gt_0 radix2 (3 - 1024 - 53)). lra.
Qed.
Lemma large64 : 1000 <= largest 53 1024.
Proof.
  unfold largest. replace (bpow radix2 1024) with (2 * bpow radix2 1023) by (change 2 with (bpow radix2 1); rewrite <- bpow_plus; reflexivity).
  assert (bpow radix2 (1024 - 53) <= bpow radix2 1023) by (apply bpow_le; lia).
  assert (bpow radix2 10 <= bpow radix2 1023) by (apply bpow_le; lia). change (bpow radix2 10) with 1024 in *. lra.
Qed.
Lemma gam3 : gam 53 3 <= 31 / 10 * u64.
Proof. unfold gam. rewrite unit53. unfold u64. lra. Qed.
Lemma low3 : low 53 1024 3 <= 4 * (u64 * u64).
Proof.
  unfold low. pose proof tiny53 as T. pose proof (eta_pos 53 1024) as E. rewrite unit53. replace (INR 3) with 3 by (cbn; ring).
  assert (Q : 0 < (1 + u64) ^ 3 <= 4 / 3) by (unfold u64; split; lra).
  apply Rle_trans with (3 * tiny 53 1024 * (4 / 3)); [apply Rmult_le_compat_l; lra|lra].
Qed.
Lemma sqrt3 : 1 <= sqrt (INR 3) <= 1733 / 1000.
Proof.
  replace (INR 3) with 3 by (cbn; ring). split.
  - rewrite <- sqrt_1 at 1. apply sqrt_le_1_alt. lra.
  - rewrite <- (sqrt_square (1733 / 1000)) by lra. apply sqrt_le_1_alt. lra.
Qed.
Lemma pow_linear g N : 0 <= g -> INR N * g < 1 -> (1 + g) ^ N * (1 - INR N * g) <= 1.
Proof.
  intros Hg. induction N as [|N IH]; intros H; [cbn; lra|]. rewrite S_INR in *. cbn [pow].
  assert (Q : 1 <= (1 + g) ^ N) by (apply pow_R1_Rle; lra). pose proof (pos_INR N).
  eapply Rle_trans; [|apply IH; lra]. replace ((1 + g) * (1 + g) ^ N * (1 - (INR N + 1) * g)) with ((1 + g) ^ N * ((1 + g) * (1 - (INR N + 1) * g))) by ring.
  apply Rmult_le_compat_l; [lra|]. assert (0 <= INR N * (g * g)) by (apply Rmult_le_pos; [lra|apply Rle_0_sqr]). assert (0 <= g * g) by apply Rle_0_sqr. lra.
Qed.

(** In f64, up to [10^12] products of 3x3 rotation matrices each within [8] half units of its
    rotation: the product is off by at most [2] times the error at the start plus [20] half units a product,
    so a million products cost less than 2.3e-9. *)
Theorem C132_f64 : forall l Rs (P : nat -> nat -> binary_float 53 1024) Q d,
  Forall2 (fun a r => fst a = fst r /\ orthogonal 3 (snd r) /\ finite_matrix 53 1024 3 (snd a) /\ gap 3 (values (snd a)) (snd r) <= 8 * u64) l Rs ->
  INR (length l) <= 10 ^ 12 -> orthogonal 3 Q -> finite_matrix 53 1024 3 P -> gap 3 (values P) Q <= d -> d <= / 4 ->
  let r := chain 53 1024 3 P l in let e := 2 * d + 20 * INR (length l) * u64 in
  finite_matrix 53 1024 3 r /\ orthogonal 3 (chain_exact 3 Q Rs) /\ gap 3 (values r) (chain_exact 3 Q Rs) <= e /\
  gap 3 (product 3 (fun i j => values r j i) (values r)) delta <= 2 * e + e * e.
Proof.
  intros l Rs P Q d H HN OQ FP HP Hd r e. pose proof (gap_pos 3 (values P) Q) as Z.
  pose proof gam3 as G3. pose proof (gam_pos 53 3) as G0. pose proof low3 as L3. pose proof (low_pos 53 1024 3) as L0. pose proof sqrt3 as S3.
  assert (U : 0 < u64 <= / 10 ^ 15) by (unfold u64; lra).
  set (N := length l) in *. pose proof (pos_INR N) as PN.
  assert (Hg : 0 <= growth 53 3 (8 * u64) <= 14 * u64).
  { split; [apply growth_pos; lra|]. unfold growth. assert (gam 53 3 * (sqrt (INR 3) + 8 * u64) <= 31 / 10 * u64 * (1734 / 1000)) by (apply Rmult_le_compat; lra). lra. }
  assert (Hf : 0 <= fresh 53 1024 3 (8 * u64) <= 18 * u64).
  { split; [apply fresh_pos; lra|]. unfold fresh.
    assert (A : sqrt (INR 3) * (sqrt (INR 3) + 8 * u64) <= 302 / 100).
    { replace (sqrt (INR 3) * (sqrt (INR 3) + 8 * u64)) with (sqrt (INR 3) * sqrt (INR 3) + sqrt (INR 3) * (8 * u64)) by ring.
      rewrite sqrt_sqrt by apply pos_INR. assert (sqrt (INR 3) * (8 * u64) <= 1733 / 1000 * (8 * u64)) by (apply Rmult_le_compat_r; lra). replace (INR 3) with 3 in * by (cbn; ring). lra. }
    assert (B : 0 <= sqrt (INR 3) * (sqrt (INR 3) + 8 * u64)) by (apply Rmult_le_pos; lra).
    assert (gam 53 3 * (sqrt (INR 3) * (sqrt (INR 3) + 8 * u64)) <= 31 / 10 * u64 * (302 / 100)) by (apply Rmult_le_compat; lra).
    assert (u64 * u64 <= / 10 ^ 15 * u64) by (apply Rmult_le_compat_r; lra).
    replace (INR 3) with 3 in * by (cbn; ring). lra. }
  set (g := growth 53 3 (8 * u64)) in *. set (b := fresh 53 1024 3 (8 * u64)) in *.
  assert (NU : INR N * u64 <= 112 / 1000000) by (apply Rle_trans with (10 ^ 12 * u64); [apply Rmult_le_compat_r; lra|unfold u64; lra]).
  assert (NG : INR N * g <= 14 * (INR N * u64)) by (replace (14 * (INR N * u64)) with (INR N * (14 * u64)) by ring; apply Rmult_le_compat_l; lra).
  assert (NF : 0 <= INR N * b <= 18 * (INR N * u64)) by (split; [apply Rmult_le_pos; lra|replace (18 * (INR N * u64)) with (INR N * (18 * u64)) by ring; apply Rmult_le_compat_l; lra]).
  assert (PW : 0 < (1 + g) ^ N <= 101 / 100).
  { split; [apply pow_lt; lra|]. pose proof (pow_linear g N (proj1 Hg) ltac:(lra)) as K.
    assert (0 < (1 + g) ^ N) by (apply pow_lt; lra).
    assert ((1 + g) ^ N * (998 / 1000) <= (1 + g) ^ N * (1 - INR N * g)) by (apply Rmult_le_compat_l; lra). lra. }
  assert (Bd : (1 + g) ^ N * (d + INR N * b) <= 101 / 100 * (d + INR N * b)) by (apply Rmult_le_compat_r; lra).
  assert (Rm : room 53 1024 3 (sqrt (INR 3) + 1) (sqrt (INR 3) + 8 * u64)).
  { unfold room. pose proof large64 as LG. assert ((sqrt (INR 3) + 1) * (sqrt (INR 3) + 8 * u64) <= 3 * 3) by (apply Rmult_le_compat; lra).
    assert (0 <= (sqrt (INR 3) + 1) * (sqrt (INR 3) + 8 * u64)) by (apply Rmult_le_pos; lra).
    assert ((1 + gam 53 3) * ((sqrt (INR 3) + 1) * (sqrt (INR 3) + 8 * u64)) <= 2 * (3 * 3)) by (apply Rmult_le_compat; lra).
    assert (u64 * u64 <= 1 * 1) by (apply Rmult_le_compat; lra). lra. }
  destruct (C132_chain 53 1024 3 (8 * u64) l Rs H P Q d OQ FP HP ltac:(lra) ltac:(lra) ltac:(fold N g b; lra) Rm) as (A & B & C).
  fold N g b in C. fold r in A, C.
  assert (E : gap 3 (values r) (chain_exact 3 Q Rs) <= e) by (unfold e; lra).
  split; [exact A|]. split; [exact B|]. split; [exact E|]. exact (proj1 (C132_orthogonality 3 _ _ e B E)).
Qed.

(** ** A thousand turns about the third axis by the angle with cosine 3/5 and sine 4/5, entries rounded to f64 *)
Definition c6 : binary_float 53 1024 := @B754_finite 53 1024 false 5404319552844595 (-53) eq_refl.
Definition s8 : binary_float 53 1024 := @B754_finite 53 1024 false 7205759403792794 (-53) eq_refl.
Definition s8n : binary_float 53 1024 := @B754_finite 53 1024 true 7205759403792794 (-53) eq_refl.
Definition turn64 (i j : nat) : binary_float 53 1024 :=
  match i, j with 0, 0 => c6 | 0, 1 => s8 | 1, 0 => s8n | 1, 1 => c6 | 2, 2 => Bone | _, _ => B754_zero false end%nat.
Definition turn (i j : nat) : R :=
  match i, j with O, O => 3 / 5 | O, S O => 4 / 5 | S O, O => - (4 / 5) | S O, S O => 3 / 5 | S (S O), S (S O) => 1 | _, _ => 0 end.
Example C132_nontrivial :
  Forall2 (fun a r => fst a = fst r /\ orthogonal 3 (snd r) /\ finite_matrix 53 1024 3 (snd a) /\ gap 3 (values (snd a)) (snd r) <= 8 * u64)
    (repeat (OnLeft, turn64) 1000) (repeat (OnLeft, turn) 1000) /\
  INR (length (repeat (OnLeft, turn64) 1000)) <= 10 ^ 12 /\ values turn64 0%nat 0%nat <> turn 0%nat 0%nat /\
  orthogonal 3 turn /\ finite_matrix 53 1024 3 turn64 /\ gap 3 (values turn64) turn <= 8 * u64 /\ 8 * u64 <= / 4.
Proof.
  assert (O : orthogonal 3 turn).
  { split; intros i j Hi Hj; destruct i as [|[|[|i]]]; try lia; destruct j as [|[|[|j]]]; try lia; unfold delta; cbn; lra. }
  assert (F : finite_matrix 53 1024 3 turn64) by (intros i j Hi Hj; destruct i as [|[|[|i]]]; try lia; destruct j as [|[|[|j]]]; try lia; reflexivity).
  assert (V : forall i j, (i < 3)%nat -> (j < 3)%nat -> Rabs (values turn64 i j - turn i j) <= u64).
  { assert (V6 : B2R c6 = 5404319552844595 * u64) by (unfold c6, B2R, F2R, u64; cbn; lra).
    assert (V8 : B2R s8 = 7205759403792794 * u64) by (unfold s8, B2R, F2R, u64; cbn; lra).
    assert (V8n : B2R s8n = - (7205759403792794 * u64)) by (unfold s8n, B2R, F2R, u64; cbn; lra).
    intros i j Hi Hj. destruct i as [|[|[|i]]]; try lia; destruct j as [|[|[|j]]]; try lia; unfold values; cbn [turn64 turn];
      rewrite ?V6, ?V8, ?V8n, ?(Bone_correct 53 1024); cbn [B2R]; unfold u64; apply Rabs_le; split; lra. }
  assert (G : gap 3 (values turn64) turn <= 8 * u64).
  { unfold gap. apply Rle_trans with (size 3 (fun _ _ => u64)); [apply size_mono; exact V|]. rewrite size_const by (unfold u64; lra). unfold u64. cbn [INR]. lra. }
  split; [|split; [|split; [|split; [exact O|split; [exact F|split; [exact G|unfold u64; lra]]]]]].
  - generalize 1000%nat. intros k. induction k; cbn [repeat]; constructor; auto.
  - rewrite repeat_length. rewrite INR_IZR_INZ. change (Z.of_nat 1000) with 1000%Z. lra.
  - unfold values, turn64, turn, c6, B2R, F2R. cbn. lra.
Qed.
