(** Legendre functions: the recurrences of the code against the derivatives of the polynomials. *)
From Coq Require Import Reals Lra Psatz List Arith Lia.
From Coquelicot Require Import Coquelicot.
From Verif Require Import Scalar RSum Trig Geo3 WmmModel WmmSpec.
Local Open Scope R_scope.

(** the m-th derivative of the n-th polynomial: Bonnet's recurrence differentiated m times *)
Fixpoint LD (n m : nat) (x : R) : R :=
  match n with
  | 0%nat => match m with 0%nat => 1 | _ => 0 end
  | S n' => match n' with
            | 0%nat => match m with 0%nat => x | 1%nat => 1 | _ => 0 end
            | S n'' => (INR (2 * n'' + 3) * (x * LD n' m x + INR m * LD n' (m - 1) x) - INR (n'' + 1) * LD n'' m x) / INR (n'' + 2)
            end
  end.
Lemma LD_step n m x : LD (S (S n)) m x
  = (INR (2 * n + 3) * (x * LD (S n) m x + INR m * LD (S n) (m - 1) x) - INR (n + 1) * LD n m x) / INR (n + 2).
Proof. reflexivity. Qed.
Lemma two_step (P : nat -> Prop) : P 0%nat -> P 1%nat -> (forall n, P n -> P (S n) -> P (S (S n))) -> forall n, P n.
Proof. intros H0 H1 H n. assert (P n /\ P (S n)) as [? _]; auto. induction n; [auto|]. destruct IHn. auto. Qed.

Lemma INR_nz n : (0 < n)%nat -> INR n <> 0.
Proof. intros H. apply not_0_INR. lia. Qed.

Lemma LD_legendre n x : LD n 0 x = legendre n x.
Proof.
  revert n. apply two_step; [reflexivity|reflexivity|]. intros n H0 H1.
  rewrite LD_step. change (legendre (S (S n)) x) with ((INR (2 * n + 3) * (x * legendre (S n) x) - INR (n + 1) * legendre n x) / INR (n + 2)).
  rewrite H0, H1. cbn [INR]. rewrite Rmult_0_l, Rplus_0_r. reflexivity.
Qed.

Lemma is_derive_eq (f : R -> R) (x l l' : R) : is_derive f x l -> l = l' -> is_derive f x l'.
Proof. intros H <-. exact H. Qed.
Lemma step_derive (f g h : R -> R) a b c d x f' g' h' : is_derive f x f' -> is_derive g x g' -> is_derive h x h' ->
  is_derive (fun x => (a * (x * f x + b * g x) - c * h x) / d) x ((a * (f x + x * f' + b * g') - c * h') / d).
Proof.
  intros F G H. auto_derive.
  - repeat split; eexists; eauto.
  - change (Derive (fun x => f x) x) with (Derive f x). change (Derive (fun x => g x) x) with (Derive g x).
    change (Derive (fun x => h x) x) with (Derive h x).
    rewrite (is_derive_unique _ _ _ F), (is_derive_unique _ _ _ G), (is_derive_unique _ _ _ H). unfold Rdiv. ring.
Qed.

Lemma LD_derive n : forall m x, is_derive (LD n m) x (LD n (S m) x).
Proof.
  revert n. apply (two_step (fun n => forall m x, is_derive (LD n m) x (LD n (S m) x))).
  - intros [|m] x; cbn [LD]; apply (is_derive_const (V := R_NormedModule)).
  - intros [|[|m]] x; cbn [LD].
    + apply (is_derive_id (K := R_AbsRing)).
    + apply (is_derive_const (V := R_NormedModule)).
    + apply (is_derive_const (V := R_NormedModule)).
  - intros n H0 H1 m x.
    apply (is_derive_ext (fun x => (INR (2 * n + 3) * (x * LD (S n) m x + INR m * LD (S n) (m - 1) x) - INR (n + 1) * LD n m x) / INR (n + 2))); [intros; reflexivity|].
    assert (Nz : INR (n + 2) <> 0) by (apply INR_nz; lia).
    pose proof (step_derive (LD (S n) m) (LD (S n) (m - 1)) (LD n m) (INR (2 * n + 3)) (INR m) (INR (n + 1)) (INR (n + 2)) x
      _ _ _ (H1 m x) (H1 (m - 1)%nat x) (H0 m x)) as Sd.
    eapply is_derive_eq; [exact Sd|]. clear Sd.
    rewrite LD_step. destruct m as [|m].
    + cbn [Nat.sub INR]. field. auto.
    + replace (S (S m) - 1)%nat with (S m) by lia. replace (S (S m - 1)) with (S m) by lia.
      replace (S m - 1)%nat with m by lia. rewrite (S_INR (S m)). field. auto.
Qed.

Lemma LD_Derive_n n m x : Derive_n (legendre n) m x = LD n m x.
Proof.
  revert x. induction m; intros x; cbn [Derive_n].
  - symmetry. apply LD_legendre.
  - rewrite (Derive_ext _ (LD n m)) by auto. apply is_derive_unique, LD_derive.
Qed.

Lemma LD_zero n : forall m x, (n < m)%nat -> LD n m x = 0.
Proof.
  revert n. apply (two_step (fun n => forall m x, (n < m)%nat -> LD n m x = 0)).
  - intros [|m] x H; [lia|reflexivity].
  - intros [|[|m]] x H; [lia|lia|reflexivity].
  - intros n H0 H1 m x H. rewrite LD_step, H0, (H1 m), (H1 (m - 1)%nat) by lia.
    field. apply INR_nz. lia.
Qed.

Definition C_ (n m : nat) (x : R) : Prop := LD (S n) (S m) x = x * LD n (S m) x + (INR n + 1 + INR m) * LD n m x.
Definition D_ (n m : nat) (x : R) : Prop := x * LD (S n) (S m) x - LD n (S m) x = (INR n + 1 - INR m) * LD (S n) m x.

Lemma A_of n m x : (forall m, C_ (S n) m x) -> (forall m, D_ n m x) ->
  (INR n + 2 - INR m) * LD (S (S n)) m x = (2 * INR n + 3) * x * LD (S n) m x - (INR n + 1 + INR m) * LD n m x.
Proof.
  intros HC HD.
  assert (Nz : INR n + 2 <> 0) by (pose proof (pos_INR n); lra).
  assert (St : (INR n + 2) * LD (S (S n)) m x
     = (2 * INR n + 3) * (x * LD (S n) m x + INR m * LD (S n) (m - 1) x) - (INR n + 1) * LD n m x).
  { rewrite LD_step. replace (INR (2 * n + 3)) with (2 * INR n + 3) by (rewrite plus_INR, mult_INR; cbn; ring).
    replace (INR (n + 1)) with (INR n + 1) by (rewrite plus_INR; cbn; ring).
    replace (INR (n + 2)) with (INR n + 2) by (rewrite plus_INR; cbn; ring). field. auto. }
  destruct m as [|m].
  - cbn [INR] in *. rewrite Rmult_0_l, Rplus_0_r in St. lra.
  - replace (S m - 1)%nat with m in St by lia.
    pose proof (HC m) as Cm. pose proof (HD m) as Dm. unfold C_, D_ in Cm, Dm. rewrite S_INR in Cm.
    rewrite S_INR in *.
    assert (B : LD (S (S n)) (S m) x - LD n (S m) x = (2 * INR n + 3) * LD (S n) m x) by lra.
    nra.
Qed.

Lemma CD n x : (forall m, C_ n m x) /\ (forall m, D_ n m x).
Proof.
  induction n as [|n [IC ID]].
  - split; intros m; unfold C_, D_; destruct m as [|[|m]]; cbn [LD INR]; try ring.
  - assert (HC : forall m, C_ (S n) m x).
    { intros m. unfold C_. pose proof (ID m) as Dm. unfold D_ in Dm. rewrite LD_step.
      replace (S m - 1)%nat with m by lia.
      replace (INR (2 * n + 3)) with (2 * INR n + 3) by (rewrite plus_INR, mult_INR; cbn; ring).
      replace (INR (n + 1)) with (INR n + 1) by (rewrite plus_INR; cbn; ring).
      replace (INR (n + 2)) with (INR n + 2) by (rewrite plus_INR; cbn; ring).
      rewrite !S_INR. assert (Nz : INR n + 2 <> 0) by (pose proof (pos_INR n); lra).
      replace (LD n (S m) x) with (x * LD (S n) (S m) x - (INR n + 1 - INR m) * LD (S n) m x) by lra.
      field. auto. }
    split; auto. intros m. unfold D_. pose proof (A_of n m x HC ID) as A.
    pose proof (HC m) as C1. pose proof (IC m) as C0. pose proof (ID m) as D0. unfold C_, D_ in *.
    rewrite S_INR in *. rewrite C1.
    replace (x * (x * LD (S n) (S m) x + (INR n + 1 + 1 + INR m) * LD (S n) m x) - LD (S n) (S m) x)
      with (x * (x * LD (S n) (S m) x) - LD (S n) (S m) x + (INR n + 2 + INR m) * x * LD (S n) m x) by ring.
    replace (x * LD (S n) (S m) x) with (LD n (S m) x + (INR n + 1 - INR m) * LD (S n) m x) by lra.
    rewrite C0 at 1. replace (INR n + 1 + 1 - INR m) with (INR n + 2 - INR m) by ring. rewrite A. ring.
Qed.

(** (n - m) L(n,m) in n, the diagonal, and the derivative relation *)
Lemma LD_three n m x : (INR n + 2 - INR m) * LD (S (S n)) m x = (2 * INR n + 3) * x * LD (S n) m x - (INR n + 1 + INR m) * LD n m x.
Proof. apply A_of; intros k; apply CD. Qed.
Lemma LD_diag n x : LD (S n) (S n) x = (2 * INR n + 1) * LD n n x.
Proof. pose proof (proj1 (CD n x) n) as C. unfold C_ in C. rewrite C, (LD_zero n (S n)) by lia. ring. Qed.
Lemma LD_off n x : LD (S n) n x = (2 * INR n + 1) * x * LD n n x.
Proof.
  pose proof (proj2 (CD n x) n) as D. unfold D_ in D. rewrite (LD_zero n (S n)) in D by lia. rewrite LD_diag in D. lra.
Qed.
Lemma LD_slope n m x : (x * x - 1) * LD (S n) (S m) x = (INR n + 1 - INR m) * x * LD (S n) m x - (INR n + 1 + INR m) * LD n m x.
Proof.
  pose proof (proj1 (CD n x) m) as C. pose proof (proj2 (CD n x) m) as D. unfold C_, D_ in *.
  replace ((x * x - 1) * LD (S n) (S m) x) with (x * (x * LD (S n) (S m) x) - LD (S n) (S m) x) by ring.
  replace (x * LD (S n) (S m) x) with (LD n (S m) x + (INR n + 1 - INR m) * LD (S n) m x) by lra.
  rewrite C at 1. ring.
Qed.
