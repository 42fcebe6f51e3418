(** Proofs about polynomial interpolation and the cubic spline. *)
From Coq Require Import Reals List Arith Bool Lra Lia.
From Coquelicot Require Import Coquelicot.
From Verif Require Import Scalar RSum InterpModel InterpSpec.
Import ListNotations.
Open Scope R_scope.

Lemma eps_pos : 0 < eps.
Proof. unfold eps. apply Rinv_0_lt_compat. apply pow_lt. lra. Qed.

(** ** Polynomial functions *)
Lemma poly_ext n : forall f g, (forall x, f x = g x) -> is_poly n f -> is_poly n g.
Proof.
  destruct n as [|n]; cbn; intros f g E.
  - intros H x. rewrite <- E. apply H.
  - intros (a & q & Hq & H). exists a, q. split; [exact Hq|]. intros x. rewrite <- E. apply H.
Qed.
Lemma poly_zero_fun n : is_poly n (fun _ => 0).
Proof.
  induction n as [|n IH]; cbn; [reflexivity|].
  exists 0, (fun _ => 0). split; [exact IH|]. intros. ring.
Qed.
Lemma poly_add n : forall f g, is_poly n f -> is_poly n g -> is_poly n (fun x => f x + g x).
Proof.
  induction n as [|n IH]; cbn; intros f g.
  - intros H K x. rewrite H, K. ring.
  - intros (a & q & Hq & H) (b & r & Hr & K). exists (a + b), (fun x => q x + r x).
    split; [apply IH; auto|]. intros x. rewrite H, K. ring.
Qed.
Lemma poly_scal n c : forall f, is_poly n f -> is_poly n (fun x => c * f x).
Proof.
  induction n as [|n IH]; cbn; intros f.
  - intros H x. rewrite H. ring.
  - intros (a & q & Hq & H). exists (c * a), (fun x => c * q x).
    split; [apply IH; auto|]. intros x. rewrite H. ring.
Qed.
Lemma poly_S n : forall f, is_poly n f -> is_poly (S n) f.
Proof.
  induction n as [|n IH]; intros f H.
  - exists 0, (fun _ => 0). split; [intros x; reflexivity|]. intros x. cbn in H. rewrite H. ring.
  - destruct H as (a & q & Hq & E). exists a, q. split; [apply IH; exact Hq|exact E].
Qed.
Lemma poly_mul_x n f : is_poly n f -> is_poly (S n) (fun x => x * f x).
Proof. intros H. exists 0, f. split; [exact H|]. intros. ring. Qed.
Lemma poly_mul_lin n f r : is_poly n f -> is_poly (S n) (fun x => (x - r) * f x).
Proof.
  intros H. apply poly_ext with (fun x => x * f x + (- r) * f x); [intros; ring|].
  apply poly_add; [apply poly_mul_x; auto|]. apply poly_S, poly_scal, H.
Qed.
Lemma poly_const n c : is_poly (S n) (fun _ => c).
Proof. exists c, (fun _ => 0). split; [apply poly_zero_fun|]. intros. ring. Qed.

(* factor theorem *)
Lemma poly_factor n : forall f r, is_poly (S n) f ->
  exists q, is_poly n q /\ forall x, f x = f r + (x - r) * q x.
Proof.
  induction n as [|n IH]; intros f r (a & q & Hq & E).
  - exists (fun _ => 0). split; [intros x; reflexivity|]. intros x. cbn in Hq.
    rewrite !E, !Hq. ring.
  - destruct (IH q r Hq) as (q' & Hq' & E').
    exists (fun x => q x + r * q' x). split.
    + apply poly_add; [exact Hq|]. apply poly_S, poly_scal, Hq'.
    + intros x. rewrite !E. rewrite (E' x). ring.
Qed.

(* a polynomial of degree below n with n roots is zero *)
Lemma poly_roots n : forall f xs, is_poly n f -> distinct n xs ->
  (forall i, (i < n)%nat -> f (xs i) = 0) -> forall x, f x = 0.
Proof.
  induction n as [|n IH]; intros f xs Hf Hd Hr x; [apply Hf|].
  destruct (poly_factor n f (xs n) Hf) as (q & Hq & E).
  rewrite E, (Hr n) by lia.
  rewrite (IH q xs Hq); [ring| |].
  - intros i j Hi Hj. apply Hd; lia.
  - intros i Hi. specialize (E (xs i)). rewrite (Hr i), (Hr n) in E by lia.
    assert (xs i - xs n <> 0). { assert (xs i <> xs n) by (apply Hd; lia). lra. }
    apply (Rmult_eq_reg_l (xs i - xs n)); lra.
Qed.
Lemma poly_unique n f g xs : is_poly n f -> is_poly n g -> distinct n xs ->
  (forall i, (i < n)%nat -> f (xs i) = g (xs i)) -> forall x, f x = g x.
Proof.
  intros Hf Hg Hd H x.
  assert (K : f x + (-1) * g x = 0); [|lra].
  apply (poly_roots n (fun x => f x + (-1) * g x) xs); auto.
  - apply poly_add; [auto|apply poly_scal; auto].
  - intros i Hi. rewrite H by lia. ring.
Qed.

(** ** Products over the nodes but one *)
Fixpoint pe (i n : nat) (f : nat -> R) : R :=
  match n with
  | O => 1
  | S m => if (m =? i)%nat then pe i m f else pe i m f * f m
  end.
Fixpoint pa (n : nat) (f : nat -> R) : R :=
  match n with O => 1 | S m => pa m f * f m end.

Lemma pe_nz i n f : (forall k, (k < n)%nat -> k <> i -> f k <> 0) -> pe i n f <> 0.
Proof.
  induction n as [|n IH]; cbn; intros H; [lra|].
  destruct (Nat.eqb_spec n i); [apply IH; intros; apply H; lia|].
  apply Rmult_integral_contrapositive_currified; [apply IH; intros; apply H; lia|].
  apply H; lia.
Qed.
Lemma pa_nz n f : (forall k, (k < n)%nat -> f k <> 0) -> pa n f <> 0.
Proof.
  induction n as [|n IH]; cbn; intros H; [lra|].
  apply Rmult_integral_contrapositive_currified; [apply IH; intros; apply H; lia|].
  apply H; lia.
Qed.
Lemma pe_zero i n f k : (k < n)%nat -> k <> i -> f k = 0 -> pe i n f = 0.
Proof.
  induction n as [|n IH]; cbn; intros Hk Hi H; [lia|].
  destruct (Nat.eqb_spec n i).
  - apply IH; auto. lia.
  - destruct (Nat.eq_dec k n) as [->|]; [rewrite H; ring|]. rewrite IH by (auto; lia). ring.
Qed.
Lemma pe_skip i n f : (n <= i)%nat -> pe i n f = pa n f.
Proof.
  induction n as [|n IH]; cbn; intros H; [reflexivity|].
  destruct (Nat.eqb_spec n i); [lia|]. rewrite IH by lia. reflexivity.
Qed.
Lemma pe_pa i n f : (i < n)%nat -> pa n f = pe i n f * f i.
Proof.
  induction n as [|n IH]; cbn; intros H; [lia|].
  destruct (Nat.eqb_spec n i) as [->|].
  - rewrite pe_skip by lia. reflexivity.
  - rewrite IH by lia. ring.
Qed.
Lemma pe_poly_gen i n xs : 
  is_poly (S n) (fun x => pe i n (fun k => x - xs k)) /\
  ((i < n)%nat -> is_poly n (fun x => pe i n (fun k => x - xs k))).
Proof.
  induction n as [|n [IH1 IH2]].
  - split; [|lia]. cbn [pe]. apply poly_const.
  - cbn [pe]. destruct (Nat.eqb_spec n i) as [->|Hn].
    + split; [apply poly_S; exact IH1|]. intros _. exact IH1.
    + split.
      * apply poly_ext with (fun x => (x - xs n) * pe i n (fun k => x - xs k)); [intros; ring|].
        apply poly_mul_lin, IH1.
      * intros H. apply poly_ext with (fun x => (x - xs n) * pe i n (fun k => x - xs k)); [intros; ring|].
        apply poly_mul_lin, IH2. lia.
Qed.
Lemma pe_poly i n xs : (i < n)%nat -> is_poly n (fun x => pe i n (fun k => x - xs k)).
Proof. apply pe_poly_gen. Qed.

Lemma poly_sum n m (f : nat -> R -> R) : (forall i, (i < m)%nat -> is_poly n (f i)) ->
  is_poly n (fun x => sum m (fun i => f i x)).
Proof.
  induction m as [|m IH]; intros H; cbn [sum].
  - apply poly_zero_fun.
  - apply poly_add; [apply IH; intros; apply H; lia|]. apply H. lia.
Qed.

(** ** The barycentric weights *)
Definition apart (n : nat) (xs : nat -> R) : Prop :=
  forall i j, (i < n)%nat -> (j < n)%nat -> i <> j -> eps < Rabs (xs i - xs j).
Lemma apart_distinct n xs : apart n xs -> distinct n xs.
Proof.
  intros H i j Hi Hj Hn E. specialize (H i j Hi Hj Hn). rewrite E, Rminus_diag_eq, Rabs_R0 in H by reflexivity.
  pose proof eps_pos. lra.
Qed.

Definition weights_of (n : nat) (xs w : nat -> R) : Prop :=
  forall j, (j < n)%nat -> w j = / pe j n (fun k => xs j - xs k).

(* the inner loop over k *)
Lemma weight_row n xs j w : (j < n)%nat ->
  (forall k, (k < n)%nat -> j <> k -> eps < Rabs (xs j - xs k)) ->
  exists w', forM 0 n (fun k w =>
      if (j =? k)%nat then Some w
      else if Rleb (Rabs (xs j - xs k)) eps then None
      else Some (upd w j (w j / (xs j - xs k)))) w = Some w' /\
    w' j = w j / pe j n (fun k => xs j - xs k) /\ (forall i, i <> j -> w' i = w i).
Proof.
  intros Hj Ha.
  pose (P := fun (m : nat) (w' : nat -> R) => w' j = w j / pe j m (fun k => xs j - xs k) /\ (forall i, i <> j -> w' i = w i)).
  apply (forM_ind P); [lia| |].
  - split; [cbn; field|auto].
  - intros k s Hk (A & B). destruct (Nat.eqb_spec j k) as [->|Hn].
    + exists s. split; [reflexivity|]. split; [|exact B]. cbn [pe]. rewrite Nat.eqb_refl. exact A.
    + assert (H : eps < Rabs (xs j - xs k)) by (apply Ha; lia).
      destruct (Rleb (Rabs (xs j - xs k)) eps) eqn:E; [apply Rleb_true in E; lra|].
      eexists. split; [reflexivity|]. split.
      * rewrite upd_same. cbn [pe]. destruct (Nat.eqb_spec k j); [congruence|]. rewrite A.
        assert (xs j - xs k <> 0). { intros Z. rewrite Z, Rabs_R0 in H. pose proof eps_pos. lra. }
        field. split; [exact H0|]. apply pe_nz. intros q Hq Hqj Z.
        assert (eps < Rabs (xs j - xs q)) by (apply Ha; lia). rewrite Z, Rabs_R0 in H1. pose proof eps_pos. lra.
      * intros i Hi. rewrite upd_other by auto. auto.
Qed.

Lemma poly_new_ok n xs ys : (0 < n)%nat -> apart n xs ->
  exists w, poly_new n xs ys = Some (mkPoly xs ys w) /\ weights_of n xs w.
Proof.
  intros Hn Ha. unfold poly_new. destruct (Nat.eqb_spec n 0); [lia|].
  pose (P := fun (m : nat) (w : nat -> R) =>
    (forall j, (j < m)%nat -> w j = / pe j n (fun k => xs j - xs k)) /\ (forall j, (m <= j)%nat -> w j = 1)).
  destruct (forM_ind P 0 n (fun j w =>
        forM 0 n (fun k w =>
          if (j =? k)%nat then Some w
          else
            let diff := xs j - xs k in
            if Rleb (Rabs diff) eps then None
            else Some (upd w j (w j / diff))) w) (fun _ => 1)) as (w & E & A & B); [lia| | |].
  - split; [lia|auto].
  - intros j s Hj (A & B).
    destruct (weight_row n xs j s ltac:(lia)) as (w' & E & C & D); [intros; apply Ha; lia|].
    exists w'. split; [exact E|]. split.
    + intros i Hi. destruct (Nat.eq_dec i j) as [->|].
      * rewrite C, (B j) by lia. unfold Rdiv. ring.
      * rewrite D by auto. apply A. lia.
    + intros i Hi. rewrite D by lia. apply B. lia.
  - cbv zeta in E. rewrite E. exists w. split; [reflexivity|]. exact A.
Qed.

Lemma poly_new_inv n xs ys p : poly_new n xs ys = Some p ->
  (0 < n)%nat /\ apart n xs.
Proof.
  unfold poly_new. destruct (Nat.eqb_spec n 0) as [|Hn]; [discriminate|].
  match goal with |- match ?F with _ => _ end = _ -> _ => destruct F as [w|] eqn:E end; [|discriminate].
  intros _. split; [lia|].
  pose (P := fun (m : nat) (_ : nat -> R) =>
    forall j k, (j < m)%nat -> (k < n)%nat -> j <> k -> eps < Rabs (xs j - xs k)).
  assert (K : P n w).
  { refine (forM_some_ind P 0 n _ _ _ _ _ E _); [lia| |].
    - intros j k H. lia.
    - intros j s s' Hj HP Es.
      pose (Q := fun (m : nat) (_ : nat -> R) => forall k, (k < m)%nat -> j <> k -> eps < Rabs (xs j - xs k)).
      assert (KQ : Q n s').
      { refine (forM_some_ind Q 0 n _ _ _ _ _ Es _); [lia| |].
        - intros k H. lia.
        - intros k t t' Hk HQ Et. destruct (Nat.eqb_spec j k).
          + intros q Hq Hjq. apply HQ; lia.
          + destruct (Rleb _ eps) eqn:Z in Et; [discriminate|].
            apply Rleb_false in Z. intros q Hq Hjq. destruct (Nat.eq_dec q k) as [->|]; [exact Z|].
            apply HQ; lia. }
      intros i k Hi Hk Hik. destruct (Nat.eq_dec i j) as [->|]; [apply KQ; auto|]. apply HP; lia. }
  intros i j Hi Hj Hij. apply K; auto.
Qed.

Lemma near_none {n} (p : poly_interp n) x :
  (forall i, (i < n)%nat -> eps < Rabs (x - p_xs p i)) -> near_node p x = None.
Proof.
  intros H. unfold near_node.
  destruct (find _ (seq 0 n)) as [i|] eqn:E; [|reflexivity].
  apply find_some in E. destruct E as (Hi & E). apply in_seq in Hi. apply Rleb_true in E.
  specialize (H i ltac:(lia)). lra.
Qed.
Lemma near_self {n} (p : poly_interp n) i : apart n (p_xs p) -> (i < n)%nat ->
  near_node p (p_xs p i) = Some i.
Proof.
  intros Ha Hi. unfold near_node.
  destruct (find _ (seq 0 n)) as [j|] eqn:E.
  - apply find_some in E. destruct E as (Hj & E). apply in_seq in Hj. apply Rleb_true in E.
    destruct (Nat.eq_dec i j) as [->|Hn]; [reflexivity|].
    specialize (Ha i j Hi ltac:(lia) Hn). lra.
  - assert (K := find_none _ _ E i ltac:(apply in_seq; lia)). apply Rleb_false in K.
    rewrite Rminus_diag_eq, Rabs_R0 in K by reflexivity. pose proof eps_pos. lra.
Qed.

Lemma bary_sums n (w xs ys : nat -> R) x :
  for_ 0 n (fun i (s : R * R) =>
     let term := w i / (x - xs i) in (fst s + term * ys i, snd s + term)) (0, 0)
  = (sum n (fun i => w i / (x - xs i) * ys i), sum n (fun i => w i / (x - xs i))).
Proof.
  induction n as [|n IH]; [reflexivity|].
  rewrite for_S by lia. rewrite IH. reflexivity.
Qed.

(* Lagrange's formula *)
Lemma lagrange n xs w f x : weights_of n xs w -> distinct n xs -> is_poly n f ->
  (forall i, (i < n)%nat -> x <> xs i) ->
  sum n (fun i => w i / (x - xs i) * f (xs i)) = f x / pa n (fun k => x - xs k).
Proof.
  intros Hw Hd Hf Hx.
  assert (HL : pa n (fun k => x - xs k) <> 0).
  { apply pa_nz. intros k Hk. specialize (Hx k Hk). lra. }
  assert (E : forall z, sum n (fun i => w i * f (xs i) * pe i n (fun k => z - xs k)) = f z).
  { apply (poly_unique n _ f xs); auto.
    - apply (poly_sum n n (fun i z => w i * f (xs i) * pe i n (fun k => z - xs k))).
      intros i Hi. apply poly_scal, pe_poly, Hi.
    - intros j Hj. rewrite (sum_one n j).
      + rewrite Hw by auto. field. apply pe_nz. intros k Hk Hkj.
        assert (xs j <> xs k) by (apply Hd; auto). lra.
      + auto.
      + intros i Hi Hij. rewrite (pe_zero i n (fun k => xs j - xs k) j); auto; ring. }
  rewrite <- (E x). rewrite <- sum_div. apply sum_ext. intros i Hi.
  assert (Hp := pe_pa i n (fun k => x - xs k) Hi). cbv beta in Hp.
  rewrite Hp in HL |- *. specialize (Hx i Hi).
  assert (x - xs i <> 0) by lra. field. split; [exact H|]. intros Z. apply HL. rewrite Z. ring.
Qed.

Lemma poly_eval_correct n xs ys p f x : poly_new n xs ys = Some p ->
  is_poly n f -> (forall i, (i < n)%nat -> ys i = f (xs i)) ->
  (forall i, (i < n)%nat -> eps < Rabs (x - xs i)) -> poly_eval p x = f x.
Proof.
  intros Hp Hf Hy Hx. destruct (poly_new_inv _ _ _ _ Hp) as (Hn & Ha).
  destruct (poly_new_ok n xs ys Hn Ha) as (w & E & Hw). rewrite Hp in E. inversion E; subst p; clear E.
  unfold poly_eval. rewrite near_none by exact Hx. cbn [p_w p_xs p_ys].
  rewrite bary_sums. cbn [fst snd].
  assert (Hx' : forall i, (i < n)%nat -> x <> xs i).
  { intros i Hi Z. specialize (Hx i Hi). rewrite Z, Rminus_diag_eq, Rabs_R0 in Hx by reflexivity.
    pose proof eps_pos. lra. }
  assert (HL : pa n (fun k => x - xs k) <> 0).
  { apply pa_nz. intros k Hk. specialize (Hx' k Hk). lra. }
  rewrite (sum_ext n (fun i => w i / (x - xs i) * ys i) (fun i => w i / (x - xs i) * f (xs i)))
    by (intros i Hi; rewrite Hy by auto; reflexivity).
  rewrite (lagrange n xs w f x Hw (apart_distinct _ _ Ha) Hf Hx').
  rewrite (sum_ext n (fun i => w i / (x - xs i)) (fun i => w i / (x - xs i) * (fun _ => 1) (xs i)))
    by (intros; ring).
  rewrite (lagrange n xs w (fun _ => 1) x Hw (apart_distinct _ _ Ha)); [field; auto| |exact Hx'].
  destruct n; [lia|]. apply poly_const.
Qed.

Lemma poly_eval_node n xs ys p i : poly_new n xs ys = Some p -> (i < n)%nat ->
  poly_eval p (xs i) = ys i.
Proof.
  intros Hp Hi. destruct (poly_new_inv _ _ _ _ Hp) as (Hn & Ha).
  destruct (poly_new_ok n xs ys Hn Ha) as (w & E & Hw). rewrite Hp in E. inversion E; subst p; clear E.
  unfold poly_eval. change (xs i) with (p_xs (@mkPoly n xs ys w) i) at 1.
  rewrite near_self by auto. reflexivity.
Qed.

(** ** The spline: forward sweep, back substitution *)
Section SplineSolve.
Context (n : nat) (xs ys : nat -> R).
Context (Hn : (2 <= n)%nat) (Hinc : increasing n xs).

Lemma inc_lt i j : (i < j)%nat -> (j < n)%nat -> xs i < xs j.
Proof.
  intros Hij Hj. induction j as [|j IH]; [lia|].
  destruct (Nat.eq_dec i j) as [->|]; [apply Hinc; lia|].
  apply Rlt_trans with (xs j); [apply IH; lia|apply Hinc; lia].
Qed.
Lemma inc_le i j : (i <= j)%nat -> (j < n)%nat -> xs i <= xs j.
Proof.
  intros Hij Hj. destruct (Nat.eq_dec i j) as [->|]; [lra|]. left. apply inc_lt; lia.
Qed.

Definition sig i := (xs i - xs (i - 1)%nat) / (xs (i + 1)%nat - xs (i - 1)%nat).
Definition rhs i :=
  6 * ((ys (i + 1)%nat - ys i) / (xs (i + 1)%nat - xs i)
       - (ys i - ys (i - 1)%nat) / (xs i - xs (i - 1)%nat)) / (xs (i + 1)%nat - xs (i - 1)%nat).

Lemma sig_bound i : (1 <= i)%nat -> (i + 1 < n)%nat -> 0 < sig i < 1.
Proof.
  intros H1 H2.
  assert (A : xs (i - 1)%nat < xs i) by (apply inc_lt; lia).
  assert (B : xs i < xs (i + 1)%nat) by (apply inc_lt; lia).
  unfold sig. split.
  - apply Rdiv_lt_0_compat; lra.
  - apply (Rmult_lt_reg_r (xs (i + 1)%nat - xs (i - 1)%nat)); [lra|].
    unfold Rdiv. rewrite Rmult_assoc, Rinv_l by lra. lra.
Qed.

(* the coefficients left by the sweep *)
Definition swept (m : nat) (s : (nat -> R) * (nat -> R)) : Prop :=
  (forall i, (i = 0 \/ m <= i)%nat -> fst s i = 0 /\ snd s i = 0) /\
  (forall i, (i < m)%nat -> -1 < fst s i <= 0) /\
  (forall i, (1 <= i < m)%nat ->
     (sig i * fst s (i - 1)%nat + 2) * fst s i = sig i - 1 /\
     (sig i * fst s (i - 1)%nat + 2) * snd s i = rhs i - sig i * snd s (i - 1)%nat).

Lemma sweep_ok : swept (n - 1) (for_ 1 (n - 1) (sweep xs ys) (fun _ => 0, fun _ => 0)).
Proof.
  apply (for_ind swept); [lia| |].
  - split; [cbn; auto|]. split; [cbn; intros; lra|]. intros; lia.
  - intros i (sd, u) Hi (A & B & C). cbn [fst snd] in A, B, C. unfold sweep.
    fold (sig i). change (6 * ((ys (i + 1)%nat - ys i) / (xs (i + 1)%nat - xs i)
       - (ys i - ys (i - 1)%nat) / (xs i - xs (i - 1)%nat)) / (xs (i + 1)%nat - xs (i - 1)%nat)) with (rhs i).
    assert (Hs := sig_bound i ltac:(lia) ltac:(lia)).
    assert (Hb := B (i - 1)%nat ltac:(lia)).
    set (p := sig i * sd (i - 1)%nat + 2) in *.
    assert (Hp : 1 < p) by (unfold p; nra).
    split; [|split]; cbn [fst snd].
    + intros k Hk. rewrite !upd_other by lia. apply A. lia.
    + intros k Hk. destruct (Nat.eq_dec k i) as [->|]; [|rewrite upd_other by auto; apply B; lia].
      rewrite upd_same. split.
      * apply (Rmult_lt_reg_r p); [lra|]. unfold Rdiv. rewrite Rmult_assoc, Rinv_l by lra. lra.
      * apply (Rmult_le_reg_r p); [lra|]. unfold Rdiv. rewrite Rmult_assoc, Rinv_l by lra. lra.
    + intros k Hk. destruct (Nat.eq_dec k i) as [->|].
      * rewrite !upd_same, !upd_other by lia. fold p. split; field; lra.
      * rewrite !upd_other by lia. apply C. lia.
Qed.

(* back substitution, from the top down *)
Lemma back_ok sd u : 
  (forall k, (k < n - 1)%nat -> back n sd u k = sd k * back n sd u (k + 1)%nat + u k) /\
  (forall k, (n - 1 <= k)%nat -> back n sd u k = sd k).
Proof.
  unfold back. remember (n - 1)%nat as m eqn:Em. clear Em Hinc Hn.
  revert sd. induction m as [|m IH]; intros sd; [cbn; split; [intros; lia|reflexivity]|].
  rewrite seq_S, rev_app_distr. cbn [rev app fold_left Nat.add].
  destruct (IH (upd sd m (sd m * sd (m + 1)%nat + u m))) as (A & B). clear IH.
  split.
  - intros k Hk. destruct (Nat.eq_dec k m) as [->|].
    + rewrite (B m), (B (m + 1)%nat) by lia. rewrite upd_same, upd_other by lia. reflexivity.
    + rewrite A by lia. rewrite upd_other by lia. reflexivity.
  - intros k Hk. rewrite B by lia. apply upd_other. lia.
Qed.

(* the tridiagonal system of the natural spline *)
Lemma moments sd u : for_ 1 (n - 1) (sweep xs ys) (fun _ => 0, fun _ => 0) = (sd, u) ->
  let m := back n sd u in
  m 0%nat = 0 /\ m (n - 1)%nat = 0 /\
  forall i, (1 <= i)%nat -> (i + 1 < n)%nat ->
    sig i * m (i - 1)%nat + 2 * m i + (1 - sig i) * m (i + 1)%nat = rhs i.
Proof.
  intros E m. assert (S := sweep_ok). rewrite E in S. destruct S as (A & B & C).
  cbn [fst snd] in A, B, C. destruct (back_ok sd u) as (P & Q). fold m in P, Q.
  split; [|split].
  - rewrite P by lia. destruct (A 0%nat ltac:(lia)) as (-> & ->). ring.
  - rewrite Q by lia. apply A. lia.
  - intros i H1 H2. destruct (C i ltac:(lia)) as (Cs & Cu).
    assert (Pm := P (i - 1)%nat ltac:(lia)). replace (i - 1 + 1)%nat with i in Pm by lia.
    assert (Pi := P i ltac:(lia)). rewrite Pm.
    transitivity ((sig i * sd (i - 1)%nat + 2) * m i + sig i * u (i - 1)%nat + (1 - sig i) * m (i + 1)%nat); [ring|].
    rewrite Pi.
    transitivity ((sig i * sd (i - 1)%nat + 2) * sd i * m (i + 1)%nat + (sig i * sd (i - 1)%nat + 2) * u i
       + sig i * u (i - 1)%nat + (1 - sig i) * m (i + 1)%nat); [ring|].
    rewrite Cs, Cu. ring.
Qed.
End SplineSolve.

Lemma spline_new_inv n xs ys s : spline_new n xs ys = Some s ->
  (2 <= n)%nat /\ increasing n xs /\ s_xs s = xs /\ s_ys s = ys /\
  s_m s 0%nat = 0 /\ s_m s (n - 1)%nat = 0 /\
  forall i, (1 <= i)%nat -> (i + 1 < n)%nat ->
    sig xs i * s_m s (i - 1)%nat + 2 * s_m s i + (1 - sig xs i) * s_m s (i + 1)%nat = rhs xs ys i.
Proof.
  unfold spline_new. destruct (Nat.ltb_spec n 2) as [|Hn]; [discriminate|].
  match goal with |- match ?F with _ => _ end = _ -> _ => destruct F as [[]|] eqn:E end; [|discriminate].
  assert (Hinc : increasing n xs).
  { pose (P := fun (m : nat) (_ : unit) => forall i, (i < m)%nat -> xs i < xs (S i)).
    assert (K : P (n - 1)%nat tt).
    { refine (forM_some_ind P 0 (n - 1) _ _ _ _ _ E _); [lia|intros i H; lia|].
      intros i [] [] Hi HP Es. destruct (Rleb _ _) eqn:Z in Es; [discriminate|].
      apply Rleb_false in Z. rewrite Nat.add_1_r in Z.
      intros j Hj. destruct (Nat.eq_dec j i) as [->|]; [exact Z|]. apply HP. lia. }
    intros i Hi. apply K. lia. }
  destruct (for_ 1 (n - 1) (sweep xs ys) (fun _ => 0, fun _ => 0)) as (sd, u) eqn:Ef.
  intros H. inversion H; subst s; clear H. cbn [s_xs s_ys s_m].
  destruct (moments n xs ys Hn Hinc sd u Ef) as (A & B & C).
  split; [exact Hn|]. split; [exact Hinc|]. split; [reflexivity|]. split; [reflexivity|].
  split; [exact A|]. split; [exact B|]. exact C.
Qed.

Lemma spline_new_ok n xs ys : (2 <= n)%nat -> increasing n xs -> exists s, spline_new n xs ys = Some s.
Proof.
  intros Hn Hinc. unfold spline_new. destruct (Nat.ltb_spec n 2) as [|_]; [lia|].
  destruct (forM_ind (fun _ _ => True) 0 (n - 1)
    (fun i (_ : unit) => if Rleb (xs (i + 1)%nat) (xs i) then None else Some tt) tt) as ([] & E & _); [lia|exact I| |].
  - intros i [] Hi _. exists tt. split; [|exact I]. rewrite Nat.add_1_r.
    assert (xs i < xs (S i)) by (apply Hinc; lia).
    destruct (Rleb (xs (S i)) (xs i)) eqn:Z; [apply Rleb_true in Z; lra|reflexivity].
  - rewrite E. destruct (for_ 1 (n - 1) (sweep xs ys) (fun _ => 0, fun _ => 0)). eexists; reflexivity.
Qed.

(** ** Finding the segment *)
Definition right_segment (n : nat) (xs : nat -> R) (x : R) (i : nat) : Prop :=
  (i + 1 < n)%nat /\ (xs i <= x \/ i = 0%nat) /\ (x <= xs (i + 1)%nat \/ (i + 2 = n)%nat).

Lemma segment_ok {n} (s : spline n) x : (2 <= n)%nat -> increasing n (s_xs s) ->
  exists i, segment_index s x = Some i /\ right_segment n (s_xs s) x i.
Proof.
  intros Hn Hinc. unfold segment_index.
  destruct (Rleb x (s_xs s 0%nat)) eqn:E0.
  - apply Rleb_true in E0. exists 0%nat. split; [reflexivity|]. split; [lia|]. split; [right; reflexivity|].
    left. assert (s_xs s 0%nat < s_xs s 1%nat) by (apply Hinc; lia). cbn. lra.
  - apply Rleb_false in E0. destruct (Rleb (s_xs s (n - 1)%nat) x) eqn:E1.
    + apply Rleb_true in E1. exists (n - 2)%nat. split; [reflexivity|]. split; [lia|].
      split; [|right; lia]. left.
      assert (s_xs s (n - 2)%nat <= s_xs s (n - 1)%nat) by (apply (inc_le n); auto; lia). lra.
    + apply Rleb_false in E1.
      pose (P := fun lh : nat * nat => (fst lh < snd lh)%nat /\ (snd lh <= n - 1)%nat /\
                   s_xs s (fst lh) <= x < s_xs s (snd lh)).
      destruct (while_ind P (fun lh => snd lh - fst lh)%nat n
        (fun lh : nat * nat => (fst lh + 1 <? snd lh)%nat)
        (fun lh =>
           let mid := ((fst lh + snd lh) / 2)%nat in
           if Rleb (s_xs s mid) x then Some (mid, snd lh) else Some (fst lh, mid))
        (0%nat, (n - 1)%nat)) as ((lo, hi) & E & (A & B & C) & D).
      * unfold P. cbn [fst snd]. repeat split; try lia; lra.
      * cbn [fst snd]. lia.
      * intros (lo, hi) (A & B & C) D. cbn [fst snd] in *. apply Nat.ltb_lt in D.
        set (mid := ((lo + hi) / 2)%nat).
        assert (Hm : (lo < mid < hi)%nat).
        { unfold mid. assert (Z := Nat.div_mod (lo + hi) 2 ltac:(lia)).
          assert (Z' := Nat.mod_upper_bound (lo + hi) 2 ltac:(lia)). lia. }
        destruct (Rleb (s_xs s mid) x) eqn:Em.
        -- apply Rleb_true in Em. eexists. split; [reflexivity|]. unfold P. cbn [fst snd].
           repeat split; try lia; lra.
        -- apply Rleb_false in Em. eexists. split; [reflexivity|]. unfold P. cbn [fst snd].
           repeat split; try lia; lra.
      * cbn [fst snd] in *. apply Nat.ltb_ge in D. rewrite E. cbn [option_map fst].
        exists lo. split; [reflexivity|]. unfold right_segment. replace (lo + 1)%nat with hi by lia.
        split; [lia|]. split; left; lra.
Qed.

(** ** The pieces meet smoothly *)
Definition piece1 {n} (s : spline n) (i : nat) (x : R) : R :=
  let x0 := s_xs s i in let x1 := s_xs s (i + 1)%nat in let h := x1 - x0 in
  let a := (x1 - x) / h in let b := (x - x0) / h in
  (s_ys s (i + 1)%nat - s_ys s i) / h
  - (3 * a * a - 1) * (h / 6) * s_m s i + (3 * b * b - 1) * (h / 6) * s_m s (i + 1)%nat.
Definition piece2 {n} (s : spline n) (i : nat) (x : R) : R :=
  let x0 := s_xs s i in let x1 := s_xs s (i + 1)%nat in let h := x1 - x0 in
  (x1 - x) / h * s_m s i + (x - x0) / h * s_m s (i + 1)%nat.

Lemma piece_d1 {n} (s : spline n) i x : s_xs s i < s_xs s (i + 1)%nat ->
  is_derive (segment_value s i) x (piece1 s i x).
Proof.
  intros H. unfold segment_value, piece1. cbv zeta. auto_derive; [exact I|]. field. lra.
Qed.
Lemma piece_d2 {n} (s : spline n) i x : s_xs s i < s_xs s (i + 1)%nat ->
  is_derive (piece1 s i) x (piece2 s i x).
Proof.
  intros H. unfold piece1, piece2. cbv zeta. auto_derive; [exact I|]. field. lra.
Qed.
Lemma piece2_cont {n} (s : spline n) i x : continuous (piece2 s i) x.
Proof.
  apply (ex_derive_continuous (piece2 s i)). unfold piece2. cbv zeta. auto_derive. exact I.
Qed.
Lemma piece_left {n} (s : spline n) i : s_xs s i < s_xs s (i + 1)%nat ->
  segment_value s i (s_xs s i) = s_ys s i.
Proof. intros H. unfold segment_value. cbv zeta. field. lra. Qed.
Lemma piece_right {n} (s : spline n) i : s_xs s i < s_xs s (i + 1)%nat ->
  segment_value s i (s_xs s (i + 1)%nat) = s_ys s (i + 1)%nat.
Proof. intros H. unfold segment_value. cbv zeta. field. lra. Qed.
Lemma piece2_left {n} (s : spline n) i : s_xs s i < s_xs s (i + 1)%nat ->
  piece2 s i (s_xs s i) = s_m s i.
Proof. intros H. unfold piece2. cbv zeta. field. lra. Qed.
Lemma piece2_right {n} (s : spline n) i : s_xs s i < s_xs s (i + 1)%nat ->
  piece2 s i (s_xs s (i + 1)%nat) = s_m s (i + 1)%nat.
Proof. intros H. unfold piece2. cbv zeta. field. lra. Qed.

Lemma piece_poly {n} (s : spline n) i : is_poly 4 (segment_value s i).
Proof.
  set (x0 := s_xs s i). set (x1 := s_xs s (i + 1)%nat). set (h := x1 - x0).
  assert (L : forall c d, is_poly 2 (fun x => c * (x - d))).
  { intros c d. apply poly_scal. apply poly_ext with (fun x => (x - d) * 1); [intros; ring|].
    apply poly_mul_lin. apply poly_const. }
  assert (C : forall c d, is_poly 4 (fun x => c * ((x - d) * ((x - d) * (x - d))))).
  { intros c d. apply poly_scal, poly_mul_lin, poly_mul_lin.
    apply poly_ext with (fun x => 1 * (x - d)); [intros; ring|]. apply L. }
  apply poly_ext with (fun x =>
     (- (s_ys s i / h) + (h * h / 6) * (s_m s i / h)) * (x - x1)
     + (s_ys s (i + 1)%nat / h - (h * h / 6) * (s_m s (i + 1)%nat / h)) * (x - x0)
     + (- ((h * h / 6) * (s_m s i * / h * / h * / h))) * ((x - x1) * ((x - x1) * (x - x1)))
     + ((h * h / 6) * (s_m s (i + 1)%nat * / h * / h * / h)) * ((x - x0) * ((x - x0) * (x - x0)))).
  - intros x. unfold segment_value. cbv zeta. fold x0 x1. fold h. unfold Rdiv. ring.
  - repeat apply poly_add; auto; apply poly_S, poly_S, L.
Qed.

Section Smooth.
Context {n : nat} (s : spline n) (ys0 : nat -> R).
Context (Hn : (2 <= n)%nat) (Hinc : increasing n (s_xs s)).
Context (Hmom : forall i, (1 <= i)%nat -> (i + 1 < n)%nat ->
    sig (s_xs s) i * s_m s (i - 1)%nat + 2 * s_m s i + (1 - sig (s_xs s) i) * s_m s (i + 1)%nat
    = rhs (s_xs s) (s_ys s) i).

Lemma seg_lt i : (i + 1 < n)%nat -> s_xs s i < s_xs s (i + 1)%nat.
Proof. intros H. apply (inc_lt n); auto; lia. Qed.

(* equal slopes at the knot between pieces i and i+1 *)
Lemma slopes i : (i + 2 < n)%nat ->
  piece1 s i (s_xs s (i + 1)%nat) = piece1 s (i + 1) (s_xs s (i + 1)%nat).
Proof.
  intros H. assert (M := Hmom (i + 1) ltac:(lia) ltac:(lia)).
  replace (i + 1 - 1)%nat with i in M by lia.
  assert (H1 := seg_lt i ltac:(lia)). assert (H2 := seg_lt (i + 1) ltac:(lia)).
  unfold sig, rhs in M. replace (i + 1 - 1)%nat with i in M by lia.
  unfold piece1. cbv zeta.
  set (x0 := s_xs s i) in *. set (x1 := s_xs s (i + 1)%nat) in *. set (x2 := s_xs s (i + 1 + 1)%nat) in *.
  set (y0 := s_ys s i) in *. set (y1 := s_ys s (i + 1)%nat) in *. set (y2 := s_ys s (i + 1 + 1)%nat) in *.
  set (m0 := s_m s i) in *. set (m1 := s_m s (i + 1)%nat) in *. set (m2 := s_m s (i + 1 + 1)%nat) in *.
  assert (M' : (x1 - x0) * m0 + 2 * (x2 - x0) * m1 + (x2 - x1) * m2
               = 6 * ((y2 - y1) / (x2 - x1) - (y1 - y0) / (x1 - x0))).
  { transitivity ((x2 - x0) * ((x1 - x0) / (x2 - x0) * m0 + 2 * m1 + (1 - (x1 - x0) / (x2 - x0)) * m2)); [field; lra|].
    rewrite M. field. lra. }
  assert (A : (x1 - x1) / (x1 - x0) = 0) by (field; lra).
  assert (B : (x1 - x0) / (x1 - x0) = 1) by (field; lra).
  assert (C : (x2 - x1) / (x2 - x1) = 1) by (field; lra).
  assert (D : (x1 - x1) / (x2 - x1) = 0) by (field; lra).
  rewrite A, B, C, D. lra.
Qed.

(* a point that belongs to two segments gets the same value, slope and curvature from both *)
Lemma two_segments i j x : right_segment n (s_xs s) x i -> right_segment n (s_xs s) x j ->
  segment_value s i x = segment_value s j x /\ piece1 s i x = piece1 s j x /\ piece2 s i x = piece2 s j x.
Proof.
  assert (K : forall i j, (i < j)%nat -> right_segment n (s_xs s) x i -> right_segment n (s_xs s) x j ->
    segment_value s i x = segment_value s j x /\ piece1 s i x = piece1 s j x /\ piece2 s i x = piece2 s j x).
  { clear i j. intros i j Hij (A1 & A2 & A3) (B1 & B2 & B3).
    assert (X1 : x <= s_xs s (i + 1)%nat) by (destruct A3; [auto|lia]).
    assert (X2 : s_xs s j <= x) by (destruct B2; [auto|lia]).
    assert (j = i + 1)%nat.
    { destruct (Nat.eq_dec j (i + 1)) as [|N]; [auto|].
      assert (s_xs s (i + 1)%nat < s_xs s j) by (apply (inc_lt n); auto; lia). lra. }
    subst j. assert (x = s_xs s (i + 1)%nat) by lra. subst x.
    assert (H1 := seg_lt i ltac:(lia)). assert (H2 := seg_lt (i + 1) ltac:(lia)).
    rewrite piece_right, piece_left, piece2_right, piece2_left by auto.
    split; [reflexivity|]. split; [|reflexivity]. apply slopes. lia. }
  intros Hi Hj. destruct (Nat.lt_trichotomy i j) as [L|[->|L]].
  - apply K; auto.
  - auto.
  - destruct (K j i L Hj Hi) as (-> & -> & ->). auto.
Qed.

Definition seg (x : R) : nat := match segment_index s x with Some i => i | None => 0%nat end.
Lemma seg_right x : right_segment n (s_xs s) x (seg x).
Proof. destruct (segment_ok s x Hn Hinc) as (i & E & H). unfold seg. rewrite E. exact H. Qed.

Lemma seg_from_left x : exists i d, 0 < d /\ forall y, x - d <= y <= x -> right_segment n (s_xs s) y i.
Proof.
  destruct (seg_right x) as (A & B & C). set (i := seg x) in *.
  destruct (Nat.eq_dec i 0) as [E|E].
  - exists i, 1. split; [lra|]. intros y Hy. split; [auto|]. split; [auto|].
    destruct C; [left; lra|auto].
  - destruct B as [B|]; [|lia]. destruct (Rle_lt_or_eq_dec _ _ B) as [L|L].
    + exists i, (x - s_xs s i). split; [lra|]. intros y Hy. split; [auto|]. split; [left; lra|].
      destruct C; [left; lra|auto].
    + assert (H := seg_lt (i - 1) ltac:(lia)). replace (i - 1 + 1)%nat with i in H by lia.
      exists (i - 1)%nat, (x - s_xs s (i - 1)%nat). split; [lra|]. intros y Hy.
      split; [lia|]. replace (i - 1 + 1)%nat with i by lia. split; left; lra.
Qed.
Lemma seg_from_right x : exists i d, 0 < d /\ forall y, x <= y <= x + d -> right_segment n (s_xs s) y i.
Proof.
  destruct (seg_right x) as (A & B & C). set (i := seg x) in *.
  destruct (Nat.eq_dec (i + 2) n) as [E|E].
  - exists i, 1. split; [lra|]. intros y Hy. split; [auto|]. split; [|auto].
    destruct B; [left; lra|auto].
  - destruct C as [C|]; [|lia]. destruct (Rle_lt_or_eq_dec _ _ C) as [L|L].
    + exists i, (s_xs s (i + 1)%nat - x). split; [lra|]. intros y Hy. split; [auto|].
      split; [destruct B; [left; lra|auto]|left; lra].
    + assert (H := seg_lt (i + 1) ltac:(lia)).
      exists (i + 1)%nat, (s_xs s (i + 1 + 1)%nat - x). split; [lra|]. intros y Hy.
      split; [lia|]. split; left; lra.
Qed.
End Smooth.

Lemma glue_derive (A B f : R -> R) x l d e : 0 < d -> 0 < e ->
  (forall y, x - d <= y <= x -> f y = A y) -> (forall y, x <= y <= x + e -> f y = B y) ->
  is_derive A x l -> is_derive B x l -> is_derive f x l.
Proof.
  intros Hd He HA HB DA DB. apply is_derive_Reals in DA. apply is_derive_Reals in DB.
  apply is_derive_Reals. intros eps0 He0.
  destruct (DA eps0 He0) as (d1 & P1). destruct (DB eps0 He0) as (d2 & P2).
  assert (Hm : 0 < Rmin (Rmin d1 d2) (Rmin d e)).
  { repeat apply Rmin_pos; auto; apply cond_pos. }
  exists (mkposreal _ Hm). intros h Hh0 Hh. cbn in Hh.
  assert (H1 := Rmin_l (Rmin d1 d2) (Rmin d e)). assert (H2 := Rmin_r (Rmin d1 d2) (Rmin d e)).
  assert (H3 := Rmin_l d1 d2). assert (H4 := Rmin_r d1 d2).
  assert (H5 := Rmin_l d e). assert (H6 := Rmin_r d e).
  destruct (Rle_dec h 0) as [L|L].
  - rewrite Rabs_left1 in Hh by auto. rewrite !HA by lra. apply P1; auto. rewrite Rabs_left1; lra.
  - rewrite Rabs_right in Hh by lra. rewrite !HB by lra. apply P2; auto. rewrite Rabs_right; lra.
Qed.
Lemma glue_cont (A B f : R -> R) x d e : 0 < d -> 0 < e ->
  (forall y, x - d <= y <= x -> f y = A y) -> (forall y, x <= y <= x + e -> f y = B y) ->
  continuous A x -> continuous B x -> continuous f x.
Proof.
  intros Hd He HA HB DA DB.
  apply continuity_pt_filterlim. apply continuity_pt_filterlim in DA. apply continuity_pt_filterlim in DB.
  intros eps0 He0. destruct (DA eps0 He0) as (d1 & P1 & Q1). destruct (DB eps0 He0) as (d2 & P2 & Q2).
  exists (Rmin (Rmin d1 d2) (Rmin d e)). split; [repeat apply Rmin_pos; auto|].
  intros y (Hy1 & Hy). cbn in Hy, Q1, Q2 |- *. unfold R_dist in *.
  assert (H1 := Rmin_l (Rmin d1 d2) (Rmin d e)). assert (H2 := Rmin_r (Rmin d1 d2) (Rmin d e)).
  assert (H3 := Rmin_l d1 d2). assert (H4 := Rmin_r d1 d2).
  assert (H5 := Rmin_l d e). assert (H6 := Rmin_r d e).
  destruct (Rle_dec y x) as [L|L].
  - rewrite Rabs_left1 in Hy by lra. rewrite !HA by lra. apply Q1. split; [auto|]. rewrite Rabs_left1; lra.
  - rewrite Rabs_right in Hy by lra. rewrite !HB by lra. apply Q2. split; [auto|]. rewrite Rabs_right; lra.
Qed.

Theorem spline_is_natural n xs ys s : spline_new n xs ys = Some s ->
  exists f, (forall x, spline_eval s x = Some (f x)) /\ natural_cubic_spline n xs ys f.
Proof.
  intros H. destruct (spline_new_inv _ _ _ _ H) as (Hn & Hinc & Ex & Ey & M0 & M1 & Hmom). clear H.
  rewrite <- Ex in Hinc. rewrite <- Ex, <- Ey in Hmom. subst xs ys.
  pose (f := fun x => segment_value s (seg s x) x).
  pose (f1 := fun x => piece1 s (seg s x) x). pose (f2 := fun x => piece2 s (seg s x) x).
  assert (HR := seg_right s Hn Hinc).
  assert (HF : forall x i, right_segment n (s_xs s) x i ->
    f x = segment_value s i x /\ f1 x = piece1 s i x /\ f2 x = piece2 s i x).
  { intros x i Hi. exact (two_segments s Hn Hinc Hmom _ _ x (HR x) Hi). }
  exists f. split.
  { intros x. destruct (segment_ok s x Hn Hinc) as (i & E & _). unfold spline_eval, f, seg. rewrite E. reflexivity. }
  split; [|split].
  - intros i Hi. destruct (Nat.eq_dec (i + 1) n) as [E|E].
    + assert (L := seg_lt s Hn Hinc (i - 1) ltac:(lia)).
      assert (R : right_segment n (s_xs s) (s_xs s i) (i - 1)).
      { replace (i - 1 + 1)%nat with i in L by lia.
        split; [lia|]. split; [left; lra|right; lia]. }
      rewrite (proj1 (HF _ _ R)).
      replace (s_xs s i) with (s_xs s (i - 1 + 1)%nat) by (f_equal; lia).
      rewrite piece_right by auto. f_equal. lia.
    + assert (L := seg_lt s Hn Hinc i ltac:(lia)).
      assert (R : right_segment n (s_xs s) (s_xs s i) i) by (split; [lia|]; split; left; lra).
      rewrite (proj1 (HF _ _ R)). apply piece_left, L.
  - intros i Hi. exists (segment_value s i). split; [apply piece_poly|].
    intros x Hx. apply HF. split; [lia|]. rewrite Nat.add_1_r. split; left; lra.
  - exists f1, f2.
    assert (D : forall x, is_derive f x (f1 x) /\ is_derive f1 x (f2 x) /\ continuous f2 x).
    { intros x. destruct (seg_from_left s Hn Hinc x) as (i & d & Hd & Li).
      destruct (seg_from_right s Hn Hinc x) as (j & e & He & Lj).
      assert (Ri := Li x ltac:(lra)). assert (Rj := Lj x ltac:(lra)).
      assert (Si := seg_lt s Hn Hinc i (proj1 Ri)). assert (Sj := seg_lt s Hn Hinc j (proj1 Rj)).
      split; [|split].
      - apply (glue_derive (segment_value s i) (segment_value s j) f x _ d e); auto.
        + intros y Hy. apply HF, Li, Hy.
        + intros y Hy. apply HF, Lj, Hy.
        + rewrite (proj1 (proj2 (HF _ _ Ri))). apply piece_d1, Si.
        + rewrite (proj1 (proj2 (HF _ _ Rj))). apply piece_d1, Sj.
      - apply (glue_derive (piece1 s i) (piece1 s j) f1 x _ d e); auto.
        + intros y Hy. apply HF, Li, Hy.
        + intros y Hy. apply HF, Lj, Hy.
        + rewrite (proj2 (proj2 (HF _ _ Ri))). apply piece_d2, Si.
        + rewrite (proj2 (proj2 (HF _ _ Rj))). apply piece_d2, Sj.
      - apply (glue_cont (piece2 s i) (piece2 s j) f2 x d e); auto.
        + intros y Hy. apply HF, Li, Hy.
        + intros y Hy. apply HF, Lj, Hy.
        + apply piece2_cont.
        + apply piece2_cont. }
    split; [apply D|]. split; [apply D|]. split; [apply D|]. split.
    + assert (L := seg_lt s Hn Hinc 0 ltac:(lia)).
      assert (R : right_segment n (s_xs s) (s_xs s 0%nat) 0) by (split; [lia|]; split; left; lra).
      rewrite (proj2 (proj2 (HF _ _ R))), piece2_left by auto. exact M0.
    + assert (L := seg_lt s Hn Hinc (n - 2) ltac:(lia)). replace (n - 2 + 1)%nat with (n - 1)%nat in L by lia.
      assert (R : right_segment n (s_xs s) (s_xs s (n - 1)%nat) (n - 2)).
      { split; [lia|]. split; [left; lra|right; lia]. }
      rewrite (proj2 (proj2 (HF _ _ R))).
      replace (s_xs s (n - 1)%nat) with (s_xs s (n - 2 + 1)%nat) by (f_equal; lia).
      rewrite piece2_right by (replace (n - 2 + 1)%nat with (n - 1)%nat by lia; exact L).
      rewrite <- M1. f_equal. lia.
Qed.
