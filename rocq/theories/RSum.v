(** Finite sums of reals, used in specifications. *)
From Coq Require Import Reals Lra Lia Arith.
Local Open Scope R_scope.

Fixpoint sum (n : nat) (f : nat -> R) : R :=
  match n with O => 0 | S m => sum m f + f m end.

Lemma sum_ext n f g : (forall i, (i < n)%nat -> f i = g i) -> sum n f = sum n g.
Proof. induction n as [|n IH]; intros H; cbn; [reflexivity|]. rewrite IH, (H n); auto. Qed.
Lemma sum_0 n f : (forall i, (i < n)%nat -> f i = 0) -> sum n f = 0.
Proof. induction n as [|n IH]; intros H; cbn; [reflexivity|]. rewrite IH, (H n); auto. lra. Qed.
Lemma sum_plus n f g : sum n (fun i => f i + g i) = sum n f + sum n g.
Proof. induction n as [|n IH]; cbn; [lra|]. rewrite IH. lra. Qed.
Lemma sum_minus n f g : sum n (fun i => f i - g i) = sum n f - sum n g.
Proof. induction n as [|n IH]; cbn; [lra|]. rewrite IH. lra. Qed.
Lemma sum_scal n c f : sum n (fun i => c * f i) = c * sum n f.
Proof. induction n as [|n IH]; cbn; [lra|]. rewrite IH. lra. Qed.
Lemma sum_scal_r n c f : sum n (fun i => f i * c) = sum n f * c.
Proof. induction n as [|n IH]; cbn; [lra|]. rewrite IH. lra. Qed.
Lemma sum_opp n f : sum n (fun i => - f i) = - sum n f.
Proof. induction n as [|n IH]; cbn; [lra|]. rewrite IH. lra. Qed.
Lemma sum_div n c f : sum n (fun i => f i / c) = sum n f / c.
Proof. unfold Rdiv. apply sum_scal_r. Qed.
Lemma sum_swap n m f : sum n (fun i => sum m (fun j => f i j)) = sum m (fun j => sum n (fun i => f i j)).
Proof.
  induction n as [|n IH]; cbn.
  - rewrite sum_0; auto.
  - rewrite IH, sum_plus. reflexivity.
Qed.
Lemma sum_one n k f : (k < n)%nat -> (forall i, (i < n)%nat -> i <> k -> f i = 0) -> sum n f = f k.
Proof.
  induction n as [|n IH]; intros Hk H; [lia|]. cbn.
  destruct (Nat.eq_dec k n) as [->|Ne].
  - rewrite sum_0; [lra|]. intros i Hi. apply H; lia.
  - rewrite IH; [rewrite (H n); [lra|lia|lia]|lia|]. intros i Hi Hn. apply H; lia.
Qed.
Lemma sum_pos n f : (forall i, (i < n)%nat -> 0 <= f i) -> 0 <= sum n f.
Proof.
  induction n as [|n IH]; intros H; cbn; [lra|].
  assert (0 <= sum n f) by (apply IH; auto). assert (0 <= f n) by (apply H; lia). lra.
Qed.
Lemma sum_le n f g : (forall i, (i < n)%nat -> f i <= g i) -> sum n f <= sum n g.
Proof.
  induction n as [|n IH]; intros H; cbn; [lra|].
  assert (sum n f <= sum n g) by (apply IH; auto). assert (f n <= g n) by (apply H; lia). lra.
Qed.
Lemma sum_pos_zero n f : (forall i, (i < n)%nat -> 0 <= f i) -> sum n f = 0 ->
  forall i, (i < n)%nat -> f i = 0.
Proof.
  induction n as [|n IH]; intros H E i Hi; [lia|]. cbn in E.
  assert (0 <= sum n f) by (apply sum_pos; auto). assert (0 <= f n) by (apply H; lia).
  destruct (Nat.eq_dec i n) as [->|Ne]; [lra|]. apply IH; auto; [lra|lia].
Qed.
Lemma sum_split n k f : (k <= n)%nat -> sum n f = sum k f + sum (n - k) (fun i => f (k + i)%nat).
Proof.
  intros H. induction n as [|n IH].
  - replace k with 0%nat by lia. cbn. lra.
  - destruct (Nat.eq_dec k (S n)) as [->|Ne].
    + rewrite Nat.sub_diag. cbn. lra.
    + replace (S n - k)%nat with (S (n - k)) by lia. cbn. rewrite IH by lia.
      replace (k + (n - k))%nat with n by lia. lra.
Qed.
Lemma sum_trunc n k f : (k <= n)%nat -> (forall i, (k <= i < n)%nat -> f i = 0) -> sum n f = sum k f.
Proof.
  intros H Z. rewrite (sum_split n k) by auto. rewrite (sum_0 (n - k)); [lra|].
  intros i Hi. apply Z. lia.
Qed.
Lemma sum_S_first n f : sum (S n) f = f 0%nat + sum n (fun i => f (S i)).
Proof. induction n as [|n IH]; cbn; [lra|]. cbn in IH. rewrite IH. lra. Qed.
Lemma sum_const n c : sum n (fun _ => c) = INR n * c.
Proof. induction n as [|n IH]; [cbn; lra|]. rewrite S_INR. cbn [sum]. rewrite IH. lra. Qed.
Lemma sum_Rabs n f : Rabs (sum n f) <= sum n (fun i => Rabs (f i)).
Proof.
  induction n as [|n IH]; cbn; [rewrite Rabs_R0; lra|].
  eapply Rle_trans; [apply Rabs_triang|]. lra.
Qed.
