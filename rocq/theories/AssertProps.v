(** C95, C96: what a passing assertion says. *)
From Coq Require Import ZArith Reals Lra Lia Bool List Arith.
From Coquelicot Require Import Rbar.
From Flocq Require Import Core BinarySingleNaN.
From Verif Require Import Scalar F64 F64Ops TankModel AssertModel RSum.
Import ListNotations.
Local Open Scope R_scope.

Lemma first_none {A E} (f : A -> option E) l : first_err l f = None <-> forall x, In x l -> f x = None.
Proof.
  induction l as [|a l IH]; cbn; [split; tauto|]. destruct (f a) eqn:H.
  - split; [discriminate|]. intros H'. specialize (H' a (or_introl eq_refl)). congruence.
  - rewrite IH. split; intros H'; [intros x [<-|I]; auto|auto].
Qed.
Lemma first_some {A E} (f : A -> option E) l e : first_err l f = Some e ->
  exists l1 x l2, l = l1 ++ x :: l2 /\ f x = Some e /\ forall y, In y l1 -> f y = None.
Proof.
  induction l as [|a l IH]; cbn; [discriminate|]. destruct (f a) eqn:H; intros H'.
  - injection H' as <-. exists [], a, l. split; auto. split; auto. intros y [].
  - destruct (IH H') as (l1 & x & l2 & -> & A1 & A2). exists (a :: l1), x, l2. split; auto. split; auto. intros y [<-|I]; auto.
Qed.
Lemma in_seq0 n i : In i (seq 0 n) <-> (i < n)%nat. Proof. rewrite in_seq. lia. Qed.
Lemma seq_split0 n l1 x l2 : seq 0 n = l1 ++ x :: l2 -> x = length l1 /\ (x < n)%nat /\ forall y, (y < x)%nat -> In y l1.
Proof.
  intros H. assert (L : (length l1 < n)%nat) by (rewrite <- (seq_length n 0), H, app_length; cbn; lia).
  assert (X : x = length l1).
  { assert (E : nth (length l1) (seq 0 n) 0%nat = x) by (rewrite H, app_nth2, Nat.sub_diag by lia; reflexivity).
    rewrite seq_nth in E by lia. lia. }
  split; auto. split; [lia|]. intros y Hy. assert (E : nth y (seq 0 n) 0%nat = y) by (rewrite seq_nth; lia).
  rewrite H, app_nth1 in E by lia. rewrite <- E. apply nth_In. lia.
Qed.

(** Specification. *)
(** [x] and [y] are finite and at most [t] apart *)
Definition apart (t : R) (x y : f64) : Prop := is_finite x = true /\ is_finite y = true /\ Rabs (B2R x - B2R y) <= t.
(** row-major order *)
Definition before (r c r' c' : nat) : Prop := (r < r' \/ r = r' /\ c < c')%nat.

Lemma abs_number (x : f64) : is_number (Babs x) <-> is_number x. Proof. unfold is_number. destruct x; cbn; tauto. Qed.
Lemma abs_val (x : f64) : is_finite x = true -> is_finite (Babs x) = true /\ B2R (Babs x) = Rabs (B2R x).
Proof. intros F. split; [destruct x; auto; discriminate|apply B2R_Babs]. Qed.
Lemma sub_finite_inv x y : is_finite (f64_sub x y) = true -> is_finite x = true /\ is_finite y = true.
Proof. destruct x as [s|s| |s m e H], y as [s'|s'| |s' m' e' H']; cbn; auto; try discriminate. destruct s, s'; discriminate. Qed.
Lemma sub_val x y : is_finite (f64_sub x y) = true -> B2R (f64_sub x y) = rnd (B2R x - B2R y).
Proof.
  intros F. destruct (sub_finite_inv x y F) as [Fx Fy]. destruct (sub_s x y Fx Fy) as [_ V]. rewrite xval_finite in V by auto.
  unfold sxrnd in V. destruct (Rlt_bool _ top); [injection V; auto|]. destruct (Rlt_bool _ 0); discriminate.
Qed.
Lemma finite_le (z t : f64) : Bleb (Babs z) t = true -> is_finite t = true -> is_finite z = true /\ Rabs (B2R z) <= B2R t.
Proof.
  intros L Ft. destruct (leb_number _ _ L) as [Nz Nt]. apply f64_leb in L; auto. rewrite (xval_finite t Ft) in L.
  destruct z as [s|s| |s m e H]; cbn in L; try contradiction; try (unfold is_number in Nz; cbn in Nz; discriminate).
  - split; auto. cbn. rewrite Rabs_R0. exact L.
  - split; auto. rewrite <- B2R_Babs. exact L.
Qed.
Lemma le_over t u : 0 <= t -> Rabs u <= u64 -> forall d, Rabs (d * (1 + u)) <= t -> Rabs d <= t * (1 + 2 * u64).
Proof.
  intros Ht Hu d H. pose proof u_small. rewrite Rabs_mult in H. apply Rabs_le_inv in Hu || (apply Rabs_def2b in Hu).
  rewrite (Rabs_pos_eq (1 + u)) in H by lra. pose proof (Rabs_pos d).
  assert (Rabs d * (1 - u64) <= t) by nra.
  apply Rle_trans with (Rabs d * ((1 - u64) * (1 + 2 * u64))).
  - rewrite <- (Rmult_1_r (Rabs d)) at 1. apply Rmult_le_compat_l; auto. nra.
  - rewrite <- Rmult_assoc. apply Rmult_le_compat_r; lra.
Qed.
Lemma close_sound x y t : abs_diff_eq x y t = true -> is_finite t = true -> apart (B2R t * (1 + 2 * u64)) x y.
Proof.
  intros H Ft. destruct (finite_le _ _ H Ft) as [Fd Ld]. destruct (sub_finite_inv _ _ Fd) as [Fx Fy]. split; auto. split; auto.
  rewrite sub_val in Ld by auto. destruct (rnd_diff x y) as (e & He & Hr). rewrite Hr in Ld.
  apply le_over with e; auto. pose proof (Rabs_pos ((B2R x - B2R y) * (1 + e))). lra.
Qed.
Lemma close_complete x y t : is_finite t = true -> apart (B2R t) x y -> abs_diff_eq x y t = true.
Proof.
  intros Ft (Fx & Fy & H). unfold abs_diff_eq. destruct (sub_s x y Fx Fy) as [N V].
  assert (L : rnd (- B2R t) <= rnd (B2R x - B2R y) <= rnd (B2R t)) by (apply Rabs_def2b in H || apply Rabs_le_inv in H; split; apply rnd_le; lra).
  rewrite <- B2R_opp, !rnd_B2R, B2R_opp in L. assert (A : Rabs (rnd (B2R x - B2R y)) <= B2R t) by (apply Rabs_le; lra).
  assert (B : Rabs (rnd (B2R x - B2R y)) < top) by (eapply Rle_lt_trans; [exact A|apply B2R_top]).
  unfold sxrnd in V. rewrite Rlt_bool_true in V by auto.
  apply f64_leb; [apply abs_number, N|apply finite_number, Ft|].
  destruct (number_dec _ N) as [F|[s E]]; [|rewrite E in V; destruct s; discriminate].
  destruct (abs_val _ F) as [F1 F2]. rewrite !xval_finite by auto. rewrite F2. rewrite xval_finite in V by auto. injection V as ->. exact A.
Qed.

Lemma matrix_none M N a b tol : matrix_approx_eq M N a b tol = None <-> forall r c, (r < M)%nat -> (c < N)%nat -> abs_diff_eq (a r c) (b r c) tol = true.
Proof.
  unfold matrix_approx_eq. rewrite first_none. split.
  - intros H r c Hr Hc. specialize (H r (proj2 (in_seq0 M r) Hr)). rewrite first_none in H. specialize (H c (proj2 (in_seq0 N c) Hc)). cbv zeta in H.
    destruct (abs_diff_eq _ _ _); auto. discriminate.
  - intros H r Hr. apply first_none. intros c Hc. rewrite in_seq0 in Hr, Hc. cbv zeta. rewrite H by auto. reflexivity.
Qed.
Lemma vector_none N a b tol : vector_approx_eq N a b tol = None <-> forall i, (i < N)%nat -> abs_diff_eq (a i) (b i) tol = true.
Proof.
  unfold vector_approx_eq. rewrite first_none. split.
  - intros H r Hr. specialize (H r (proj2 (in_seq0 N r) Hr)). cbv zeta in H. destruct (abs_diff_eq _ _ _); auto. discriminate.
  - intros H r Hr. rewrite in_seq0 in Hr. cbv zeta. rewrite H by auto. reflexivity.
Qed.

(** a passing comparison means finite elements closer than the tolerance, up to one rounding of the subtraction;
    elements within the tolerance always pass *)
Theorem C95_approx_sound M N a b tol : is_finite tol = true -> matrix_approx_eq M N a b tol = None ->
  forall r c, (r < M)%nat -> (c < N)%nat -> apart (B2R tol * (1 + 2 * u64)) (a r c) (b r c).
Proof. intros Ft H r c Hr Hc. apply close_sound; auto. apply matrix_none with (M := M) (N := N); auto. Qed.
Theorem C95_approx_complete M N a b tol : is_finite tol = true ->
  (forall r c, (r < M)%nat -> (c < N)%nat -> apart (B2R tol) (a r c) (b r c)) -> assert_matrix_approx_eq M N a b tol = true.
Proof.
  intros Ft H. unfold assert_matrix_approx_eq. assert (E : matrix_approx_eq M N a b tol = None); [|rewrite E; reflexivity].
  apply matrix_none. intros r c Hr Hc. apply close_complete; auto.
Qed.
Theorem C95_vector N a b tol : is_finite tol = true ->
  (vector_approx_eq N a b tol = None -> forall i, (i < N)%nat -> apart (B2R tol * (1 + 2 * u64)) (a i) (b i)) /\
  ((forall i, (i < N)%nat -> apart (B2R tol) (a i) (b i)) -> vector_approx_eq N a b tol = None).
Proof.
  intros Ft. split.
  - intros H i Hi. apply close_sound; auto. apply vector_none with (N := N); auto.
  - intros H. apply vector_none. intros i Hi. apply close_complete; auto.
Qed.
(** the reported mismatch is the first one in row-major order and carries its elements *)
Theorem C95_first_mismatch M N a b tol m : matrix_approx_eq M N a b tol = Some m ->
  (mi_row m < M)%nat /\ (mi_col m < N)%nat /\ mi_left m = a (mi_row m) (mi_col m) /\ mi_right m = b (mi_row m) (mi_col m) /\
  mi_diff m = Babs (f64_sub (mi_left m) (mi_right m)) /\ Bleb (mi_diff m) tol = false /\
  forall r c, (r < M)%nat -> (c < N)%nat -> before r c (mi_row m) (mi_col m) -> abs_diff_eq (a r c) (b r c) tol = true.
Proof.
  intros H. apply first_some in H. destruct H as (l1 & r & l2 & E1 & H & H1). apply first_some in H. destruct H as (k1 & c & k2 & E2 & H & H2).
  apply seq_split0 in E1. apply seq_split0 in E2. destruct E1 as (_ & Hr & I1), E2 as (_ & Hc & I2). cbv zeta in H.
  destruct (abs_diff_eq (a r c) (b r c) tol) eqn:D; [discriminate|]. cbn in H. injection H as <-. cbn.
  split; auto. split; auto. split; auto. split; auto. split; auto. split; [exact D|].
  intros r' c' Hr' Hc' [L|[-> L]].
  - specialize (H1 r' (I1 r' L)). rewrite first_none in H1. specialize (H1 c' (proj2 (in_seq0 N c') Hc')). cbv zeta in H1. destruct (abs_diff_eq (a r' c') _ _); auto. discriminate.
  - specialize (H2 c' (I2 c' L)). cbv zeta in H2. destruct (abs_diff_eq (a r c') _ _); auto. discriminate.
Qed.
Lemma sub_nan x y : is_nan x = true \/ is_nan y = true -> is_nan (f64_sub x y) = true.
Proof. intros [H|H]; [destruct x|destruct y]; try discriminate; [reflexivity|]. destruct x; reflexivity. Qed.
(** NaN never passes *)
Theorem C95_nan_rejected M N a b tol r c : (r < M)%nat -> (c < N)%nat -> is_nan (a r c) = true \/ is_nan (b r c) = true ->
  assert_matrix_approx_eq M N a b tol = false.
Proof.
  intros Hr Hc Hn. unfold assert_matrix_approx_eq. destruct (matrix_approx_eq M N a b tol) eqn:E; auto. exfalso.
  rewrite matrix_none in E. specialize (E r c Hr Hc). unfold abs_diff_eq in E. apply leb_number in E. destruct E as [E _]. apply (proj1 (abs_number _)) in E. unfold is_number in E.
  rewrite (sub_nan _ _ Hn) in E. discriminate.
Qed.
(** but a matrix with an infinite element is not accepted as equal to itself, whatever the tolerance *)
Theorem C95_infinity_refuted : exists a : nat -> nat -> f64, forall tol, assert_matrix_approx_eq 1 1 a a tol = false.
Proof. exists (fun _ _ => B754_infinity false). intros tol. unfold assert_matrix_approx_eq, matrix_approx_eq. cbn. destruct tol; reflexivity. Qed.

(** * Maximum difference *)
Definition step (m d : f64) : f64 := if Bltb m d then d else m.
Lemma fold_flat {A B S} (f : S -> B -> S) (g : A -> list B) l : forall s, fold_left f (flat_map g l) s = fold_left (fun s x => fold_left f (g x) s) l s.
Proof. induction l as [|x l IH]; intros s; cbn; auto. rewrite fold_left_app. apply IH. Qed.
Definition diffs (M N : nat) (a b : nat -> nat -> f64) : list f64 :=
  flat_map (fun r => map (fun c => Babs (f64_sub (a r c) (b r c))) (seq 0 N)) (seq 0 M).
Lemma fold_map {A B S} (f : S -> B -> S) (g : A -> B) l : forall s, fold_left f (map g l) s = fold_left (fun s x => f s (g x)) l s.
Proof. induction l as [|x l IH]; intros s; cbn; auto. Qed.
Lemma fold_ext {A S} (f g : S -> A -> S) l : (forall s x, f s x = g s x) -> forall s, fold_left f l s = fold_left g l s.
Proof. intros H. induction l as [|x l IH]; intros s; cbn; auto. rewrite H. apply IH. Qed.
Lemma max_diffs M N a b : matrix_max_abs_diff M N a b = fold_left step (diffs M N a b) (B754_zero false).
Proof.
  unfold matrix_max_abs_diff, diffs, for_. rewrite fold_flat, !Nat.sub_0_r. apply fold_ext. intros s r. rewrite fold_map. reflexivity.
Qed.
Lemma in_diffs M N a b d : In d (diffs M N a b) <-> exists r c, (r < M)%nat /\ (c < N)%nat /\ d = Babs (f64_sub (a r c) (b r c)).
Proof.
  unfold diffs. rewrite in_flat_map. split.
  - intros (r & Hr & H). apply in_map_iff in H. destruct H as (c & <- & Hc). rewrite in_seq0 in Hr, Hc. eauto.
  - intros (r & c & Hr & Hc & ->). exists r. rewrite in_seq0. split; auto. apply in_map_iff. exists c. rewrite in_seq0. auto.
Qed.
Lemma max_fold l : forall m, is_number m -> (forall d, In d l -> is_number d) ->
  let k := fold_left step l m in
  is_number k /\ Rbar_le (xval m) (xval k) /\ (forall d, In d l -> Rbar_le (xval d) (xval k)) /\ (k = m \/ In k l).
Proof.
  induction l as [|d l IH]; intros m Nm Nl; cbn [fold_left].
  - split; auto. split; [apply Rbar_le_refl|]. split; [intros d []|auto].
  - assert (Nd : is_number d) by (apply Nl; left; auto).
    assert (Ns : is_number (step m d)) by (unfold step; destruct (Bltb m d); auto).
    destruct (IH (step m d) Ns) as (A & B & C & D); [intros; apply Nl; right; auto|]. cbv zeta. split; auto.
    assert (L : Rbar_le (xval m) (xval (step m d)) /\ Rbar_le (xval d) (xval (step m d))).
    { unfold step. destruct (Bltb m d) eqn:E.
      - apply f64_ltb in E; auto. split; [apply Rbar_lt_le, E|apply Rbar_le_refl].
      - split; [apply Rbar_le_refl|]. apply Rbar_not_lt_le. intros L. apply f64_ltb in L; auto. congruence. }
    destruct L as [L1 L2]. split; [eapply Rbar_le_trans; eauto|]. split.
    + intros x [<-|I]; [eapply Rbar_le_trans; eauto|auto].
    + destruct D as [D|D]; [|right; right; auto]. rewrite D. unfold step. destruct (Bltb m d); [right; left; auto|left; auto].
Qed.
(** whenever no difference is NaN: the maximum bounds every difference, is one of them (or zero), and is within the
    tolerance exactly when the comparison passes *)
Theorem C95_max_abs_diff_partial M N a b : let m := matrix_max_abs_diff M N a b in
  (forall r c, (r < M)%nat -> (c < N)%nat -> is_number (f64_sub (a r c) (b r c))) ->
  (forall r c, (r < M)%nat -> (c < N)%nat -> Bleb (Babs (f64_sub (a r c) (b r c))) m = true) /\
  (m = B754_zero false \/ exists r c, (r < M)%nat /\ (c < N)%nat /\ m = Babs (f64_sub (a r c) (b r c))) /\
  forall tol, Bleb (B754_zero false) tol = true -> (Bleb m tol = true <-> assert_matrix_approx_eq M N a b tol = true).
Proof.
  intros m H. assert (Nd : forall d, In d (diffs M N a b) -> is_number d).
  { intros d Hd. apply in_diffs in Hd. destruct Hd as (r & c & Hr & Hc & ->). apply abs_number. auto. }
  destruct (max_fold (diffs M N a b) (B754_zero false) eq_refl Nd) as (A & B & C & D). rewrite <- max_diffs in A, B, C, D. fold m in A, B, C, D.
  assert (U : forall r c, (r < M)%nat -> (c < N)%nat -> Bleb (Babs (f64_sub (a r c) (b r c))) m = true).
  { intros r c Hr Hc. apply f64_leb; [apply abs_number; auto|auto|]. apply C. apply in_diffs. eauto. }
  assert (V : m = B754_zero false \/ exists r c, (r < M)%nat /\ (c < N)%nat /\ m = Babs (f64_sub (a r c) (b r c))).
  { destruct D as [D|D]; auto. right. apply in_diffs in D. exact D. }
  split; auto. split; auto. intros tol Ht. unfold assert_matrix_approx_eq.
  assert (E : Bleb m tol = true <-> matrix_approx_eq M N a b tol = None).
  { rewrite matrix_none. split.
    - intros L r c Hr Hc. specialize (U r c Hr Hc). unfold abs_diff_eq. destruct (leb_number _ _ L) as [N1 N2]. destruct (leb_number _ _ U) as [N3 _].
      apply f64_leb; auto. apply f64_leb in L; auto. apply f64_leb in U; auto. eapply Rbar_le_trans; eauto.
    - intros L. destruct V as [->|(r & c & Hr & Hc & ->)]; [exact Ht|apply L; auto]. }
  destruct (matrix_approx_eq M N a b tol); rewrite E; split; auto; discriminate.
Qed.
(** refuted with NaN: the reported maximum difference is zero although the comparison fails for every tolerance *)
Theorem C95_max_abs_diff_refuted : exists a b : nat -> nat -> f64, matrix_max_abs_diff 1 1 a b = B754_zero false /\
  vector_max_abs_diff 1 (a 0%nat) (b 0%nat) = B754_zero false /\ forall tol, assert_matrix_approx_eq 1 1 a b tol = false.
Proof.
  exists (fun _ _ => B754_nan), (fun _ _ => B754_zero false). split; [reflexivity|]. split; [reflexivity|].
  intros tol. apply (C95_nan_rejected 1 1 _ _ tol 0 0); auto.
Qed.
(** the same for vectors: the first mismatch, with its two elements and their distance *)
Theorem C95_first_mismatch_vector N a b tol i x y d : vector_approx_eq N a b tol = Some (i, x, y, d) ->
  (i < N)%nat /\ x = a i /\ y = b i /\ d = Babs (f64_sub (a i) (b i)) /\ Bleb d tol = false /\
  forall j, (j < i)%nat -> abs_diff_eq (a j) (b j) tol = true.
Proof.
  intros H. apply first_some in H. destruct H as (l1 & r & l2 & E1 & H & H1). apply seq_split0 in E1. destruct E1 as (_ & Hr & I1). cbv zeta in H.
  destruct (abs_diff_eq (a r) (b r) tol) eqn:D; [discriminate|]. cbn [negb] in H. injection H as <- <- <- <-. split; [exact Hr|]. split; [reflexivity|]. split; [reflexivity|]. split; [reflexivity|]. split; [exact D|].
  intros j Hj. specialize (H1 j (I1 j Hj)). cbv zeta in H1. destruct (abs_diff_eq (a j) (b j) tol); [reflexivity|discriminate].
Qed.
(** the vector and matrix versions agree on a column *)
Theorem C95_vector_matrix N a b tol : (vector_approx_eq N a b tol = None <-> matrix_approx_eq N 1 (fun i _ => a i) (fun i _ => b i) tol = None) /\
  vector_max_abs_diff N a b = matrix_max_abs_diff N 1 (fun i _ => a i) (fun i _ => b i).
Proof.
  split.
  - rewrite matrix_none, vector_none. split; intros H; [intros r c Hr Hc; apply H; auto|intros i Hi; apply (H i 0%nat); auto].
  - rewrite max_diffs. unfold vector_max_abs_diff, diffs. cbn [seq map]. rewrite fold_flat, fold_map.
    assert (G : forall l m, is_number m -> fold_left (fun s i => fmax f64_ops s (Babs (f64_sub (a i) (b i)))) l m =
                            fold_left (fun s i => fold_left step [Babs (f64_sub (a i) (b i))] s) l m).
    { induction l as [|i l IH]; intros m Nm; cbn [fold_left]; auto.
      assert (E : fmax f64_ops m (Babs (f64_sub (a i) (b i))) = step m (Babs (f64_sub (a i) (b i)))).
      { unfold fmax, step, isnan. cbn [eqb ltb f64_ops]. rewrite eqb_self. unfold is_number in Nm. rewrite Nm. reflexivity. }
      rewrite E. apply IH. unfold step. destruct (Bltb m (Babs (f64_sub (a i) (b i)))) eqn:L; auto. apply ltb_number in L. tauto. }
    apply G. reflexivity.
Qed.

(** * Symmetry and finiteness *)
Lemma symmetric_none N a tol : assert_matrix_symmetric N a tol = None <->
  forall i j, (i < j)%nat -> (j < N)%nat -> Bleb (Babs (f64_sub (a i j) (a j i))) tol = true.
Proof.
  unfold assert_matrix_symmetric. rewrite first_none. split.
  - intros H i j Hij Hj. specialize (H i (proj2 (in_seq0 N i) ltac:(lia))). rewrite first_none in H.
    specialize (H j ltac:(apply in_seq; lia)). cbv zeta in H. destruct (Bleb _ _); auto. discriminate.
  - intros H i Hi. apply first_none. intros j Hj. apply in_seq in Hj. rewrite in_seq0 in Hi. cbv zeta. rewrite H by lia. reflexivity.
Qed.
Lemma abs_sub_sym x y : Babs (f64_sub x y) = Babs (f64_sub y x) \/ is_finite x = true /\ is_finite y = true.
Proof.
  destruct x as [s|s| |s m e H], y as [s'|s'| |s' m' e' H']; auto; left; try reflexivity; destruct s, s'; reflexivity.
Qed.
Lemma abs_diff_sym x y t : abs_diff_eq x y t = abs_diff_eq y x t.
Proof.
  unfold abs_diff_eq. destruct (abs_sub_sym x y) as [->|[Fx Fy]]; auto.
  destruct (sub_s x y Fx Fy) as [N1 V1], (sub_s y x Fy Fx) as [N2 V2].
  assert (E : xval (Babs (f64_sub x y)) = xval (Babs (f64_sub y x))).
  { assert (S : rnd (B2R y - B2R x) = - rnd (B2R x - B2R y)).
    { replace (B2R y - B2R x) with (- (B2R x - B2R y)) by ring. unfold rnd. apply round_NE_opp. }
    assert (G : forall z, xval (Babs z) = match xval z with Finite r => Finite (Rabs r) | _ => p_infty end).
    { intros z. destruct (is_finite z) eqn:Fz; [destruct (abs_val z Fz) as [A1 A2]; rewrite !xval_finite by auto; rewrite A2; reflexivity|].
      destruct z as [s|s| |s m e H]; try discriminate; [destruct s; reflexivity|cbn; rewrite Rabs_R0; reflexivity]. }
    rewrite !G, V1, V2. unfold sxrnd. rewrite S, Rabs_Ropp. destruct (Rlt_bool _ top); [rewrite Rabs_Ropp; reflexivity|].
    destruct (Rlt_bool (B2R x - B2R y) 0), (Rlt_bool (B2R y - B2R x) 0); reflexivity. }
  destruct (is_nan t) eqn:Nt; [destruct t; try discriminate; destruct (f64_sub x y), (f64_sub y x); reflexivity|].
  apply eq_iff_eq_true. rewrite !f64_leb by (auto; apply abs_number; auto). rewrite E. tauto.
Qed.
(** passing means the matrix compares equal to its transpose, as long as the diagonal is finite *)
Theorem C95_symmetric N a tol : Bleb (B754_zero false) tol = true -> (forall i, (i < N)%nat -> is_finite (a i i) = true) ->
  (assert_matrix_symmetric N a tol = None <-> assert_matrix_approx_eq N N a (fun i j => a j i) tol = true).
Proof.
  intros Ht Hd. unfold assert_matrix_approx_eq.
  assert (E : assert_matrix_symmetric N a tol = None <-> matrix_approx_eq N N a (fun i j => a j i) tol = None).
  { rewrite symmetric_none, matrix_none. split.
    - intros H r c Hr Hc. destruct (lt_eq_lt_dec r c) as [[L| ->]|L]; [apply H; auto| |rewrite abs_diff_sym; apply H; auto].
      unfold abs_diff_eq. specialize (Hd c Hc). destruct (sub_s _ _ Hd Hd) as [N1 V1]. rewrite Rminus_diag_eq in V1 by auto.
      unfold sxrnd in V1. rewrite rnd_0, Rabs_R0, Rlt_bool_true in V1 by apply top_pos. destruct (leb_number _ _ Ht) as [_ N2].
      apply f64_leb; [apply abs_number, N1|auto|]. apply f64_leb in Ht; auto; [|reflexivity].
      destruct (f64_sub (a c c) (a c c)) as [s|s| |s m e H'] eqn:Ez; cbn in V1; try discriminate; try (destruct s; discriminate).
      + exact Ht.
      + injection V1 as V1. rewrite xval_finite by reflexivity. rewrite B2R_Babs. cbn [B2R]. cbn in V1. rewrite V1, Rabs_R0. exact Ht.
    - intros H i j Hij Hj. apply (H i j); lia. }
  destruct (matrix_approx_eq _ _ _ _ _); rewrite E; split; auto; discriminate.
Qed.
(** refuted without that: a NaN on the diagonal passes as symmetric, and a symmetric infinite element does not *)
Theorem C95_symmetric_refuted : (exists a : nat -> nat -> f64, is_nan (a 0%nat 0%nat) = true /\ assert_matrix_symmetric 1 a (B754_zero false) = None) /\
  exists a : nat -> nat -> f64, (forall i j, a i j = a j i) /\ (forall i j, is_nan (a i j) = false) /\ forall tol, assert_matrix_symmetric 2 a tol <> None.
Proof.
  split; [exists (fun _ _ => B754_nan); split; reflexivity|]. exists (fun _ _ => B754_infinity false). split; [reflexivity|]. split; [reflexivity|].
  intros tol. cbn. destruct tol; discriminate.
Qed.
Theorem C95_finite M N a : assert_matrix_finite M N a = None <-> forall r c, (r < M)%nat -> (c < N)%nat -> is_finite (a r c) = true.
Proof.
  unfold assert_matrix_finite. rewrite first_none. split.
  - intros H r c Hr Hc. specialize (H r (proj2 (in_seq0 M r) Hr)). rewrite first_none in H. specialize (H c (proj2 (in_seq0 N c) Hc)). cbv beta in H. destruct (is_finite (a r c)); auto. discriminate.
  - intros H r Hr. apply first_none. intros c Hc. rewrite in_seq0 in Hr, Hc. rewrite H by auto. reflexivity.
Qed.
Theorem C95_vector_finite N v : assert_vector_finite N v = None <-> forall i, (i < N)%nat -> is_finite (v i) = true.
Proof.
  unfold assert_vector_finite. rewrite first_none. split.
  - intros H i Hi. specialize (H i (proj2 (in_seq0 N i) Hi)). cbv beta in H. destruct (is_finite (v i)); auto. discriminate.
  - intros H i Hi. rewrite in_seq0 in Hi. rewrite H by auto. reflexivity.
Qed.

(** * Frobenius norms *)
Lemma for_sum (g : nat -> R) n : forall s, for_ 0 n (fun c s => s + g c) s = s + sum n g.
Proof. intros s. induction n as [|n IH]; [unfold for_; cbn; lra|]. rewrite for_S by lia. rewrite IH. cbn. lra. Qed.
Lemma frob M N (a : nat -> nat -> R) : matrix_frobenius_norm Rops M N a = sqrt (sum M (fun r => sum N (fun c => a r c * a r c))).
Proof.
  unfold matrix_frobenius_norm. cbn [sqrtf Rops Scalar.zero]. f_equal. rewrite <- (Rplus_0_l (sum M _)), <- for_sum.
  apply for_ext. intros r s _. cbn [add mul Rops]. rewrite (for_sum (fun c => a r c * a r c)). reflexivity.
Qed.
Lemma frob_diff M N (a b : nat -> nat -> R) : matrix_diff_frobenius Rops M N a b = matrix_frobenius_norm Rops M N (fun r c => a r c - b r c).
Proof. reflexivity. Qed.
Lemma term_le n f k : (forall i, (i < n)%nat -> 0 <= f i) -> (k < n)%nat -> f k <= sum n f.
Proof.
  intros H Hk. rewrite (sum_split n k) by lia. replace (n - k)%nat with (S (n - k - 1)) by lia. rewrite sum_S_first, Nat.add_0_r.
  assert (0 <= sum k f) by (apply sum_pos; intros; apply H; lia). assert (0 <= sum (n - k - 1) (fun i => f (k + S i)%nat)) by (apply sum_pos; intros; apply H; lia). lra.
Qed.
(** exact arithmetic: the square root of the sum of squares; bounds every element and vanishes only for zero *)
Theorem C95_frobenius M N (a b : nat -> nat -> R) :
  0 <= matrix_frobenius_norm Rops M N a /\ matrix_frobenius_norm Rops M N a ^ 2 = sum M (fun r => sum N (fun c => a r c ^ 2)) /\
  (forall r c, (r < M)%nat -> (c < N)%nat -> Rabs (a r c) <= matrix_frobenius_norm Rops M N a) /\
  (matrix_diff_frobenius Rops M N a b = 0 <-> forall r c, (r < M)%nat -> (c < N)%nat -> a r c = b r c).
Proof.
  assert (P : forall g : nat -> nat -> R, 0 <= sum M (fun r => sum N (fun c => g r c * g r c))).
  { intros g. apply sum_pos. intros r _. apply sum_pos. intros c _. apply Rle_0_sqr. }
  assert (Q : forall g : nat -> nat -> R, matrix_frobenius_norm Rops M N g ^ 2 = sum M (fun r => sum N (fun c => g r c ^ 2))).
  { intros g. rewrite frob. replace (sqrt (sum M (fun r => sum N (fun c => g r c * g r c))) ^ 2) with
      (sqrt (sum M (fun r => sum N (fun c => g r c * g r c))) * sqrt (sum M (fun r => sum N (fun c => g r c * g r c)))) by ring. rewrite sqrt_sqrt by auto.
    apply sum_ext. intros r _. apply sum_ext. intros c _. ring. }
  assert (T : forall (g : nat -> nat -> R) r c, (r < M)%nat -> (c < N)%nat -> Rabs (g r c) <= matrix_frobenius_norm Rops M N g).
  { intros g r c Hr Hc. rewrite frob. rewrite <- sqrt_Rsqr_abs. apply sqrt_le_1_alt. unfold Rsqr.
    eapply Rle_trans; [|apply (term_le M (fun r => sum N (fun c => g r c * g r c)) r); auto; intros; apply sum_pos; intros; apply Rle_0_sqr].
    apply (term_le N (fun c => g r c * g r c) c); auto. intros. apply Rle_0_sqr. }
  split; [rewrite frob; apply sqrt_pos|]. split; [apply Q|]. split; [apply T|]. rewrite frob_diff. split.
  - intros E r c Hr Hc. pose proof (T (fun r c => a r c - b r c) r c Hr Hc) as L. rewrite E in L. cbv beta in L. pose proof (Rabs_pos (a r c - b r c)).
    assert (Z : Rabs (a r c - b r c) = 0) by lra. destruct (Req_dec (a r c - b r c) 0) as [|N0]; [lra|]. apply Rabs_no_R0 in N0. lra.
  - intros H. rewrite frob. rewrite sum_0; [apply sqrt_0|]. intros r Hr. apply sum_0. intros c Hc. rewrite H by auto. ring.
Qed.
(** in f64 the squares underflow: two different matrices can be at distance zero *)
Definition small : f64 := @B754_finite 53 1024 false 4503599627370496 (-652) eq_refl.
Theorem C95_frobenius_refuted : exists a b : nat -> nat -> f64, B2R (a 0%nat 0%nat) <> B2R (b 0%nat 0%nat) /\
  B2R (matrix_diff_frobenius f64_ops 1 1 a b) = 0.
Proof.
  exists (fun _ _ => small), (fun _ _ => B754_zero false). split.
  - assert (0 < B2R small) by (apply F2R_gt_0; reflexivity). cbn [B2R] in *. lra.
  - assert (E : B2SF (matrix_diff_frobenius f64_ops 1 1 (fun _ _ => small) (fun _ _ => B754_zero false)) = SpecFloat.S754_zero false) by (vm_compute; reflexivity).
    destruct (matrix_diff_frobenius f64_ops 1 1 (fun _ _ => small) (fun _ _ => B754_zero false)); cbn in E; try discriminate. reflexivity.
Qed.

(** * C96: comparing two functions on a grid *)
Definition err (f0 f1 : f64 -> f64) (x : f64) : f64 := Babs (f64_sub (f1 x) (f0 x)).
Lemma grid_inv f0 f1 a b n : (forall i, (i <= n)%nat -> is_number (err f0 f1 (grid_point a b n i))) ->
  let '(x, e) := grid_loop f0 f1 a b n in
  is_number e /\ Rbar_le (Finite 0) (xval e) /\ (forall i, (i <= n)%nat -> Rbar_le (xval (err f0 f1 (grid_point a b n i))) (xval e)) /\
  (x = a /\ e = B754_zero false \/
   exists i, (i <= n)%nat /\ x = grid_point a b n i /\ e = err f0 f1 x /\ forall j, (j < i)%nat -> Rbar_lt (xval (err f0 f1 (grid_point a b n j))) (xval e)).
Proof.
  intros H. unfold grid_loop.
  set (P := fun (k : nat) (s : f64 * f64) => let '(x, e) := s in
    is_number e /\ Rbar_le (Finite 0) (xval e) /\ (forall i, (i < k)%nat -> Rbar_le (xval (err f0 f1 (grid_point a b n i))) (xval e)) /\
    (x = a /\ e = B754_zero false \/
     exists i, (i < k)%nat /\ x = grid_point a b n i /\ e = err f0 f1 x /\ forall j, (j < i)%nat -> Rbar_lt (xval (err f0 f1 (grid_point a b n j))) (xval e))).
  match goal with |- let '(_, _) := ?L in _ => assert (G : P (n + 1)%nat L) end.
  { apply for_ind; [lia| |].
    - cbn. split; [reflexivity|]. split; [lra|]. split; [intros; lia|auto].
    - intros i [x e] Hi (N1 & P0 & U & W). cbn [P]. fold (err f0 f1 (grid_point a b n i)).
      assert (Ni : is_number (err f0 f1 (grid_point a b n i))) by (apply H; lia).
      destruct (Bltb e (err f0 f1 (grid_point a b n i))) eqn:L.
      + apply f64_ltb in L; auto. split; auto. split; [apply Rbar_le_trans with (xval e); auto; apply Rbar_lt_le, L|]. split.
        * intros j Hj. destruct (Nat.eq_dec j i) as [->|]; [apply Rbar_le_refl|]. apply Rbar_le_trans with (xval e); [apply U; lia|apply Rbar_lt_le, L].
        * right. exists i. split; [lia|]. split; auto. split; auto. intros j Hj. eapply Rbar_le_lt_trans; [apply U; lia|exact L].
      + assert (L' : Rbar_le (xval (err f0 f1 (grid_point a b n i))) (xval e)).
        { apply Rbar_not_lt_le. intros C. apply f64_ltb in C; auto. congruence. }
        split; auto. split; auto. split.
        * intros j Hj. destruct (Nat.eq_dec j i) as [->|]; auto. apply U. lia.
        * destruct W as [W|(k & K1 & K2)]; auto. right. exists k. split; [lia|]. auto. }
  destruct (for_ _ _ _ _) as [x e]. destruct G as (A & B & C & D). split; auto. split; auto. split; [intros; apply C; lia|].
  destruct D as [D|(i & D1 & D2)]; auto. right. exists i. split; [lia|auto].
Qed.
(** no NaN: it passes exactly when every grid error is within the tolerance; the reported point is the first one where the
    error is largest *)
Theorem C96_passes_iff_partial f0 f1 a b n tol : (0 < n)%nat -> is_number tol ->
  (forall i, (i <= n)%nat -> is_number (f64_sub (f1 (grid_point a b n i)) (f0 (grid_point a b n i)))) ->
  ((exists x e, assert_max_abs_error_on_grid f0 f1 a b n tol = Passed x e) <->
   forall i, (i <= n)%nat -> abs_diff_eq (f1 (grid_point a b n i)) (f0 (grid_point a b n i)) tol = true) /\
  forall x e, assert_max_abs_error_on_grid f0 f1 a b n tol = Passed x e \/ assert_max_abs_error_on_grid f0 f1 a b n tol = TooLarge x e ->
    (forall i, (i <= n)%nat -> Bleb (err f0 f1 (grid_point a b n i)) e = true) /\
    (x = a /\ e = B754_zero false \/
     exists i, (i <= n)%nat /\ x = grid_point a b n i /\ e = err f0 f1 x /\ forall j, (j < i)%nat -> Bltb (err f0 f1 (grid_point a b n j)) e = true).
Proof.
  intros Hn Nt H. assert (H' : forall i, (i <= n)%nat -> is_number (err f0 f1 (grid_point a b n i))) by (intros; apply abs_number; auto).
  pose proof (grid_inv f0 f1 a b n H') as G. unfold assert_max_abs_error_on_grid. destruct (Nat.eqb_spec n 0) as [|_]; [lia|].
  destruct (grid_loop f0 f1 a b n) as [x e]. destruct G as (N1 & P0 & U & W). split.
  - destruct (Bltb tol e) eqn:L.
    + split; [intros (x' & e' & E); discriminate|]. intros C. exfalso. apply f64_ltb in L; auto.
      assert (L2 : Rbar_le (xval e) (xval tol)).
      { destruct W as [[_ ->]|(i & Hi & -> & -> & _)].
        - specialize (C 0%nat ltac:(lia)). unfold abs_diff_eq in C. apply f64_leb in C; auto; [|apply H'; lia].
          eapply Rbar_le_trans; [|exact C]. destruct (f64_sub _ _) as [s|s| |s m' e' B']; cbn; try lra; auto; try (apply F2R_ge_0; cbn; lia).
        - specialize (C i Hi). unfold abs_diff_eq in C. apply f64_leb in C; auto. }
      revert L. apply Rbar_le_not_lt, L2.
    + split; [intros _ i Hi|intros _; eauto]. unfold abs_diff_eq. fold (err f0 f1 (grid_point a b n i)). apply f64_leb; auto.
      eapply Rbar_le_trans; [apply U; auto|]. apply Rbar_not_lt_le. intros C. apply f64_ltb in C; auto. congruence.
  - intros x' e' E. assert (E' : x' = x /\ e' = e) by (destruct (Bltb tol e); destruct E as [E|E]; try discriminate; injection E; auto). destruct E' as [-> ->]. split.
    + intros i Hi. apply f64_leb; auto.
    + destruct W as [W|(i & Hi & W1 & W2 & W3)]; auto. right. exists i. split; auto. split; auto. split; auto. intros j Hj. apply f64_ltb; auto. apply H'. lia.
Qed.
(** so a pass bounds the true difference at every grid point *)
Theorem C96_passes_sound_partial f0 f1 a b n tol x e : is_finite tol = true ->
  (forall i, (i <= n)%nat -> is_number (f64_sub (f1 (grid_point a b n i)) (f0 (grid_point a b n i)))) ->
  assert_max_abs_error_on_grid f0 f1 a b n tol = Passed x e ->
  forall i, (i <= n)%nat -> apart (B2R tol * (1 + 2 * u64)) (f1 (grid_point a b n i)) (f0 (grid_point a b n i)).
Proof.
  intros Ft H E i Hi. apply close_sound; auto. assert (Hn : (0 < n)%nat) by (destruct n; [discriminate|lia]).
  destruct (C96_passes_iff_partial f0 f1 a b n tol Hn (finite_number _ Ft) H) as [[C _] _]. apply C; eauto.
Qed.
Theorem C96_no_samples f0 f1 a b tol : assert_max_abs_error_on_grid f0 f1 a b 0 tol = NoSamples.
Proof. reflexivity. Qed.
(** refuted: a function that returns NaN everywhere passes against any other, with any tolerance at all from zero on;
    a NaN tolerance accepts everything *)
Theorem C96_nan_refuted : (forall f0 a b n tol, (0 < n)%nat -> Bltb tol (B754_zero false) = false ->
    assert_max_abs_error_on_grid f0 (fun _ => B754_nan) a b n tol = Passed a (B754_zero false)) /\
  forall f0 f1 a b n, (0 < n)%nat -> exists x e, assert_max_abs_error_on_grid f0 f1 a b n B754_nan = Passed x e.
Proof.
  split.
  - intros f0 a b n tol Hn Ht. unfold assert_max_abs_error_on_grid. destruct (Nat.eqb_spec n 0) as [|_]; [lia|].
    assert (E : grid_loop f0 (fun _ => B754_nan) a b n = (a, B754_zero false)).
    { unfold grid_loop. apply (for_ind (fun _ s => s = (a, B754_zero false))); [lia|auto|]. intros i s _ ->. reflexivity. }
    rewrite E, Ht. reflexivity.
  - intros f0 f1 a b n Hn. unfold assert_max_abs_error_on_grid. destruct (Nat.eqb_spec n 0) as [|_]; [lia|]. destruct (grid_loop f0 f1 a b n) as [x e]. exists x, e. reflexivity.
Qed.
(** refuted: the grid need not contain the end point b of the interval, so a difference there goes unnoticed *)
Definition big : f64 := @B754_finite 53 1024 false 4503599627370496 2 eq_refl.
Definition one_f : f64 := @B754_finite 53 1024 false 4503599627370496 (-52) eq_refl.
Theorem C96_end_point_refuted : exists (f0 f1 : f64 -> f64) (a b : f64) (n : nat) tol x e, is_finite a = true /\ is_finite b = true /\
  assert_max_abs_error_on_grid f0 f1 a b n tol = Passed x e /\ Bltb tol (err f0 f1 b) = true.
Proof.
  exists (fun _ => B754_zero false), (fun x => if Beqb x one_f then one_f else B754_zero false), big, one_f, 1%nat, (B754_zero false).
  assert (P1 : B2SF (grid_point big one_f 1 1) = SpecFloat.S754_zero false) by (vm_compute; reflexivity).
  assert (P0 : B2SF (grid_point big one_f 1 0) = B2SF big) by (vm_compute; reflexivity).
  apply B2SF_inj in P0. assert (P1' : grid_point big one_f 1 1 = B754_zero false) by (apply B2SF_inj; exact P1).
  exists big, (B754_zero false). split; [reflexivity|]. split; [reflexivity|]. split; [|reflexivity].
  unfold assert_max_abs_error_on_grid, grid_loop, for_. cbn [Nat.eqb Nat.add Nat.sub seq fold_left]. rewrite P0, P1'. reflexivity.
Qed.

Example C95_nontrivial : is_finite one_f = true /\ Bleb (B754_zero false) one_f = true /\ apart (B2R one_f) big big /\
  assert_matrix_approx_eq 1 1 (fun _ _ => one_f) (fun _ _ => B754_zero false) one_f = true /\
  assert_matrix_approx_eq 1 1 (fun _ _ => big) (fun _ _ => B754_zero false) one_f = false.
Proof.
  split; [reflexivity|]. split; [reflexivity|]. split; [|split; reflexivity]. split; [reflexivity|]. split; [reflexivity|].
  rewrite Rminus_diag_eq, Rabs_R0 by reflexivity. apply F2R_ge_0. cbn. lia.
Qed.
Example C96_nontrivial : (forall i, (i <= 1)%nat -> is_number (f64_sub (grid_point one_f one_f 1 i) (B754_zero false))) /\
  exists x, assert_max_abs_error_on_grid (fun _ => B754_zero false) (fun x => x) (B754_zero false) one_f 1 one_f = Passed x one_f.
Proof.
  split; [intros [|[|i]] Hi; try lia; reflexivity|]. exists one_f.
  assert (P1 : grid_point (B754_zero false) one_f 1 1 = one_f) by (apply B2SF_inj; vm_compute; reflexivity).
  assert (P0 : grid_point (B754_zero false) one_f 1 0 = B754_zero false) by (apply B2SF_inj; vm_compute; reflexivity).
  unfold assert_max_abs_error_on_grid, grid_loop, for_. cbn [Nat.eqb Nat.add Nat.sub seq fold_left]. rewrite P0, P1. reflexivity.
Qed.
