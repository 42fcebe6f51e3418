(** C112: the integrators converge with the order of their names.  Exact arithmetic, vectors of any length. *)
From Coq Require Import QArith Qreals Reals Lra Lia List Arith.
From Verif Require Import Scalar LinModel LinProofs RSum NumModel RkProps.
From Coquelicot Require Import Coquelicot.
Local Open Scope R_scope.

(** * Specification *)
(** the largest component of an N-vector is at most c *)
Definition bnd (N : nat) (v : vecR) (c : R) : Prop := forall i, (i < N)%nat -> Rabs (v i) <= c.
Definition vsub (u v : vecR) : vecR := fun i => u i - v i.
Definition lipschitz (N : nat) (f : vecR -> vecR) (L : R) : Prop :=
  forall u v c, bnd N (vsub u v) c -> bnd N (vsub (f u) (f v)) (L * c).
(** phi solves phi' = f(phi) on [0, T] *)
Definition solves (N : nat) (f : vecR -> vecR) (T : R) (phi : R -> vecR) : Prop :=
  forall s i, 0 <= s <= T -> (i < N)%nat -> is_derive (fun x => phi x i) s (f (phi s) i).
(** A, B, D are the first three derivatives of f at y, as symmetric multilinear forms of size at most K, and the Taylor
    expansion with them is good up to the fourth order *)
Record taylor3 (N : nat) (f : vecR -> vecR) (y : vecR) (A : vecR -> vecR) (B : vecR -> vecR -> vecR) (D : vecR -> vecR -> vecR -> vecR) (K : R) : Prop := {
  A_add : forall u v i, (i < N)%nat -> A (vadd u v) i = A u i + A v i;
  A_scl : forall c u i, (i < N)%nat -> A (vscl c u) i = c * A u i;
  A_bnd : forall u a, bnd N u a -> bnd N (A u) (K * a);
  B_sym : forall u v i, (i < N)%nat -> B u v i = B v u i;
  B_add : forall u v w i, (i < N)%nat -> B (vadd u v) w i = B u w i + B v w i;
  B_scl : forall c u w i, (i < N)%nat -> B (vscl c u) w i = c * B u w i;
  B_bnd : forall u v a b, bnd N u a -> bnd N v b -> bnd N (B u v) (K * a * b);
  D_sym1 : forall u v w i, (i < N)%nat -> D u v w i = D v u w i;
  D_sym2 : forall u v w i, (i < N)%nat -> D u v w i = D u w v i;
  D_add : forall u v w x i, (i < N)%nat -> D (vadd u v) w x i = D u w x i + D v w x i;
  D_scl : forall c u w x i, (i < N)%nat -> D (vscl c u) w x i = c * D u w x i;
  D_bnd : forall u v w a b c, bnd N u a -> bnd N v b -> bnd N w c -> bnd N (D u v w) (K * a * b * c);
  remainder : forall d c, bnd N d c -> bnd N (fun i => f (vadd y d) i - (f y i + A d i + / 2 * B d d i + / 6 * D d d d i)) (K * c ^ 4)
}.
(** n steps of the integrators from y; with Euler's rule the user adds the increment *)
Fixpoint rk4_steps (N : nat) (f : vecR -> vecR) (y : vecR) (h : R) (n : nat) : vecR :=
  match n with O => y | S n => rk4 N f (rk4_steps N f y h n) h end.
Fixpoint euler_steps (N : nat) (f : vecR -> vecR) (y : vecR) (h : R) (n : nat) : vecR :=
  match n with O => y | S n => let x := euler_steps N f y h n in vec_add Rops N x (integrate_euler Rops N (f x) h) end.

(** * Basics *)
Lemma lip_nonneg N f L : (0 < N)%nat -> lipschitz N f L -> 0 <= L.
Proof.
  intros P H. specialize (H (fun _ => 1) (fun _ => 0) 1). assert (B : bnd N (vsub (fun _ => 1) (fun _ => 0)) 1). { intros i _. unfold vsub. rewrite Rminus_0_r, Rabs_R1. lra. }
  specialize (H B 0%nat P). pose proof (Rabs_pos (vsub (f (fun _ => 1)) (f (fun _ => 0)) 0%nat)). lra.
Qed.
Lemma lip_on N f L : lipschitz N f L -> on_vectors N f.
Proof.
  intros H u v E i Hi. specialize (H u v 0). assert (B : bnd N (vsub u v) 0). { intros j Hj. unfold vsub. rewrite (E j Hj), Rminus_diag_eq, Rabs_R0; lra. }
  specialize (H B i Hi). rewrite Rmult_0_r in H. unfold vsub in H. pose proof (Rabs_pos (f u i - f v i)). assert (Z : Rabs (f u i - f v i) = 0) by lra.
  destruct (Req_dec (f u i - f v i) 0) as [E0|N0]; [lra|]. apply Rabs_no_R0 in N0. contradiction.
Qed.
Lemma bnd_weak N v a b : a <= b -> bnd N v a -> bnd N v b. Proof. intros L H i Hi. specialize (H i Hi). lra. Qed.

Section Orders.
Context (N : nat) (T : R).
(** families of vectors that depend on a time t in [0, T] and a step h *)
Notation fam := (R -> R -> vecR).
Definition dom (t h : R) : Prop := 0 <= t /\ 0 <= h <= 1 /\ t + h <= T.
Definition Ob (k : nat) (X : fam) : Prop := exists C, 0 <= C /\ forall t h, dom t h -> bnd N (X t h) (C * h ^ k).
Definition feq (X Y : fam) : Prop := forall t h i, dom t h -> (i < N)%nat -> X t h i = Y t h i.
Definition fadd (X Y : fam) : fam := fun t h => vadd (X t h) (Y t h).
Definition fscl (c : R) (X : fam) : fam := fun t h => vscl c (X t h).
Definition fpow (n : nat) (X : fam) : fam := fun t h => vscl (h ^ n) (X t h).
Lemma Ob_ext k X Y : feq X Y -> Ob k X -> Ob k Y.
Proof. intros E (C & P & H). exists C. split; [exact P|]. intros t h Dm i Hi. rewrite <- (E t h i Dm Hi). apply H; assumption. Qed.
Lemma pow_h h a b : 0 <= h <= 1 -> (a <= b)%nat -> h ^ b <= h ^ a.
Proof.
  intros H L. replace b with (a + (b - a))%nat by lia. rewrite pow_add. rewrite <- (Rmult_1_r (h ^ a)) at 2. apply Rmult_le_compat_l; [apply pow_le; lra|].
  rewrite <- (pow1 (b - a)). apply pow_incr. lra.
Qed.
Lemma Ob_weak a b X : (a <= b)%nat -> Ob b X -> Ob a X.
Proof.
  intros L (C & P & H). exists C. split; [exact P|]. intros t h Dm. apply (bnd_weak N _ (C * h ^ b)); [|apply H, Dm]. apply Rmult_le_compat_l; [exact P|]. apply pow_h; [apply Dm|exact L].
Qed.
Lemma Ob_add k X Y : Ob k X -> Ob k Y -> Ob k (fadd X Y).
Proof.
  intros (C & P & H) (C' & P' & H'). exists (C + C'). split; [lra|]. intros t h Dm i Hi. unfold fadd, vadd. eapply Rle_trans; [apply Rabs_triang|]. pose proof (H t h Dm i Hi). pose proof (H' t h Dm i Hi). lra.
Qed.
Lemma Ob_scl k c X : Ob k X -> Ob k (fscl c X).
Proof.
  intros (C & P & H). exists (Rabs c * C). split; [apply Rmult_le_pos; [apply Rabs_pos|exact P]|]. intros t h Dm i Hi. unfold fscl, vscl. rewrite Rabs_mult, Rmult_assoc. apply Rmult_le_compat_l; [apply Rabs_pos|apply H; assumption].
Qed.
Lemma Ob_pow k n X : Ob k X -> Ob (n + k) (fpow n X).
Proof.
  intros (C & P & H). exists C. split; [exact P|]. intros t h Dm i Hi. unfold fpow, vscl. pose proof Dm as (D1 & D2 & D3). rewrite Rabs_mult, (Rabs_pos_eq (h ^ n)) by (apply pow_le; lra).
  rewrite pow_add. replace (C * (h ^ n * h ^ k)) with (h ^ n * (C * h ^ k)) by ring. apply Rmult_le_compat_l; [apply pow_le; lra|]. apply H; assumption.
Qed.
Definition eqO (k : nat) (X Y : fam) : Prop := Ob k (fun t h => vsub (X t h) (Y t h)).
Lemma eqO_trans k X Y Z : eqO k X Y -> eqO k Y Z -> eqO k X Z.
Proof. intros H1 H2. eapply Ob_ext; [|exact (Ob_add _ _ _ H1 H2)]. intros t h i _ _. unfold fadd, vadd, vsub. ring. Qed.
Lemma eqO_add k X Y X' Y' : eqO k X X' -> eqO k Y Y' -> eqO k (fadd X Y) (fadd X' Y').
Proof. intros H1 H2. eapply Ob_ext; [|exact (Ob_add _ _ _ H1 H2)]. intros t h i _ _. unfold fadd, vadd, vsub. ring. Qed.
Lemma eqO_scl k c X X' : eqO k X X' -> eqO k (fscl c X) (fscl c X').
Proof. intros H1. eapply Ob_ext; [|exact (Ob_scl _ c _ H1)]. intros t h i _ _. unfold fscl, vscl, vsub. ring. Qed.
Lemma eqO_pow k n X X' : eqO k X X' -> eqO (n + k) (fpow n X) (fpow n X').
Proof. intros H1. eapply Ob_ext; [|exact (Ob_pow _ n _ H1)]. intros t h i _ _. unfold fpow, vscl, vsub. ring. Qed.
Lemma eqO_feq k X Y : feq X Y -> eqO k X Y.
Proof. intros E. exists 0. split; [lra|]. intros t h Dm i Hi. unfold vsub. rewrite (E t h i Dm Hi), Rminus_diag_eq, Rabs_R0; lra. Qed.
Lemma eqO_weak a b X Y : (a <= b)%nat -> eqO b X Y -> eqO a X Y. Proof. apply Ob_weak. Qed.
Lemma eqO_Ob k X Y : eqO k X Y -> Ob k Y -> Ob k X.
Proof. intros H1 H2. eapply Ob_ext; [|exact (Ob_add _ _ _ H1 H2)]. intros t h i _ _. unfold fadd, vadd, vsub. ring. Qed.

(** * The expansion of f around a solution *)
Context (f : vecR -> vecR) (phi : R -> vecR) (F1 : R -> vecR -> vecR) (F2 : R -> vecR -> vecR -> vecR) (F3 : R -> vecR -> vecR -> vecR -> vecR) (K L : R).
Context (K0 : 0 <= K) (Lip : lipschitz N f L) (Sol : solves N f T phi) (Bf : forall t, 0 <= t <= T -> bnd N (f (phi t)) K).
Context (Tay : forall t, 0 <= t <= T -> taylor3 N f (phi t) (F1 t) (F2 t) (F3 t) K).
Lemma dom_t t h : dom t h -> 0 <= t <= T. Proof. intros (A & B & C). lra. Qed.
Definition L1 (X : fam) : fam := fun t h => F1 t (X t h).
Definition L2 (X Y : fam) : fam := fun t h => F2 t (X t h) (Y t h).
Definition L3 (X Y Z : fam) : fam := fun t h => F3 t (X t h) (Y t h) (Z t h).
Lemma Ob_L1 k X : Ob k X -> Ob k (L1 X).
Proof. intros (C & P & H). exists (K * C). split; [apply Rmult_le_pos; assumption|]. intros t h Dm. rewrite Rmult_assoc. apply (A_bnd _ _ _ _ _ _ _ (Tay t (dom_t t h Dm))), H, Dm. Qed.
Lemma Ob_L2 j k X Y : Ob j X -> Ob k Y -> Ob (j + k) (L2 X Y).
Proof.
  intros (C & P & H) (C' & P' & H'). exists (K * C * C'). split; [repeat apply Rmult_le_pos; assumption|]. intros t h Dm. rewrite pow_add.
  replace (K * C * C' * (h ^ j * h ^ k)) with (K * (C * h ^ j) * (C' * h ^ k)) by ring. apply (B_bnd _ _ _ _ _ _ _ (Tay t (dom_t t h Dm))); [apply H, Dm|apply H', Dm].
Qed.
Lemma Ob_L3 j k l X Y Z : Ob j X -> Ob k Y -> Ob l Z -> Ob (j + k + l) (L3 X Y Z).
Proof.
  intros (C & P & H) (C' & P' & H') (C'' & P'' & H''). exists (K * C * C' * C''). split; [repeat apply Rmult_le_pos; assumption|]. intros t h Dm. rewrite !pow_add.
  replace (K * C * C' * C'' * (h ^ j * h ^ k * h ^ l)) with (K * (C * h ^ j) * (C' * h ^ k) * (C'' * h ^ l)) by ring. apply (D_bnd _ _ _ _ _ _ _ (Tay t (dom_t t h Dm))); [apply H, Dm|apply H', Dm|apply H'', Dm].
Qed.
Definition at_ (d : fam) : fam := fun t h => f (vadd (phi t) (d t h)).
Definition base : fam := fun t _ => f (phi t).
Definition cubic_part (d : fam) : fam := fadd base (fadd (L1 d) (fadd (fscl (/ 2) (L2 d d)) (fscl (/ 6) (L3 d d d)))).
Lemma expand d : Ob 1 d -> eqO 4 (at_ d) (cubic_part d).
Proof.
  intros (C & P & H). exists (K * C ^ 4). split; [apply Rmult_le_pos; [exact K0|apply pow_le, P]|]. intros t h Dm i Hi. pose proof (remainder _ _ _ _ _ _ _ (Tay t (dom_t t h Dm)) _ _ (H t h Dm) i Hi) as R. cbv beta in R.
  replace (K * C ^ 4 * h ^ 4) with (K * (C * h ^ 1) ^ 4) by ring. eapply Rle_trans; [|exact R]. right. f_equal. unfold vsub, at_, cubic_part, fadd, base, vadd, fscl, vscl, L1, L2, L3. ring.
Qed.
Section Point.
Context (t : R) (Ht : 0 <= t <= T) (i : nat) (Hi : (i < N)%nat).
Lemma a_add u v : F1 t (vadd u v) i = F1 t u i + F1 t v i. Proof. apply (A_add _ _ _ _ _ _ _ (Tay t Ht)), Hi. Qed.
Lemma a_scl c u : F1 t (vscl c u) i = c * F1 t u i. Proof. apply (A_scl _ _ _ _ _ _ _ (Tay t Ht)), Hi. Qed.
Lemma b_sym u v : F2 t u v i = F2 t v u i. Proof. apply (B_sym _ _ _ _ _ _ _ (Tay t Ht)), Hi. Qed.
Lemma b_add u v w : F2 t (vadd u v) w i = F2 t u w i + F2 t v w i. Proof. apply (B_add _ _ _ _ _ _ _ (Tay t Ht)), Hi. Qed.
Lemma b_scl c u w : F2 t (vscl c u) w i = c * F2 t u w i. Proof. apply (B_scl _ _ _ _ _ _ _ (Tay t Ht)), Hi. Qed.
Lemma b_add' u v w : F2 t w (vadd u v) i = F2 t w u i + F2 t w v i. Proof. rewrite b_sym, b_add, (b_sym u), (b_sym v). reflexivity. Qed.
Lemma b_scl' c u w : F2 t w (vscl c u) i = c * F2 t w u i. Proof. rewrite b_sym, b_scl, b_sym. reflexivity. Qed.
Lemma d_1 u v w : F3 t u v w i = F3 t v u w i. Proof. apply (D_sym1 _ _ _ _ _ _ _ (Tay t Ht)), Hi. Qed.
Lemma d_2 u v w : F3 t u v w i = F3 t u w v i. Proof. apply (D_sym2 _ _ _ _ _ _ _ (Tay t Ht)), Hi. Qed.
Lemma d_add u v w x : F3 t (vadd u v) w x i = F3 t u w x i + F3 t v w x i. Proof. apply (D_add _ _ _ _ _ _ _ (Tay t Ht)), Hi. Qed.
Lemma d_scl c u w x : F3 t (vscl c u) w x i = c * F3 t u w x i. Proof. apply (D_scl _ _ _ _ _ _ _ (Tay t Ht)), Hi. Qed.
Lemma d_scl3 c u : F3 t (vscl c u) (vscl c u) (vscl c u) i = c ^ 3 * F3 t u u u i.
Proof. rewrite d_scl, (d_1 u (vscl c u)), d_scl, (d_2 u u), (d_1 u (vscl c u)), d_scl. ring. Qed.
Lemma a_diff d p : F1 t d i - F1 t p i = F1 t (vadd d (vscl (-1) p)) i. Proof. rewrite a_add, a_scl. ring. Qed.
Lemma b_diff d p : F2 t d d i - F2 t p p i = F2 t (vadd d (vscl (-1) p)) d i + F2 t p (vadd d (vscl (-1) p)) i.
Proof. rewrite b_add, b_scl, b_add', b_scl'. ring. Qed.
Lemma d_diff d p : F3 t d d d i - F3 t p p p i = F3 t (vadd d (vscl (-1) p)) d d i + F3 t (vadd d (vscl (-1) p)) p d i + F3 t (vadd d (vscl (-1) p)) p p i.
Proof. rewrite !d_add, !d_scl, (d_1 d p d), (d_1 d p p), (d_2 p d p). ring. Qed.
Lemma b_split x u w : F2 t (vadd x (vadd u w)) (vadd x (vadd u w)) i = F2 t x x i + 2 * F2 t x u i + 2 * F2 t x w i + F2 t (vadd u w) (vadd u w) i.
Proof. rewrite (b_add x), (b_add' x (vadd u w) x), (b_add' x (vadd u w) (vadd u w)), (b_sym (vadd u w) x), !(b_add' u w x). ring. Qed.
Lemma d_split x q : F3 t (vadd x q) (vadd x q) (vadd x q) i = F3 t x x x i + F3 t q x x i + F3 t q x (vadd x q) i + F3 t q (vadd x q) (vadd x q) i.
Proof.
  rewrite (d_add x q (vadd x q) (vadd x q)), (d_1 x (vadd x q)), (d_add x q x), (d_2 x x), (d_1 x (vadd x q)), (d_add x q x x). ring.
Qed.
End Point.
Definition pol (a1 a2 a3 : fam) : fam := fadd (fpow 1 a1) (fadd (fpow 2 a2) (fpow 3 a3)).
Lemma pol_Ob a1 a2 a3 : Ob 0 a1 -> Ob 0 a2 -> Ob 0 a3 -> Ob 1 (pol a1 a2 a3).
Proof. intros H1 H2 H3. repeat apply Ob_add; [apply (Ob_pow 0 1), H1|apply (Ob_weak 1 2); [lia|]; apply (Ob_pow 0 2), H2|apply (Ob_weak 1 3); [lia|]; apply (Ob_pow 0 3), H3]. Qed.
Lemma cubic_same k d p : (1 <= k)%nat -> eqO k d p -> Ob 1 p -> eqO k (cubic_part d) (cubic_part p).
Proof.
  intros Hk E Hp. assert (Hd : Ob 1 d) by (eapply eqO_Ob; [apply (eqO_weak 1 k); [exact Hk|exact E]|exact Hp]).
  set (e := (fun t h => vadd (d t h) (vscl (-1) (p t h))) : fam). assert (He : Ob k e). { eapply Ob_ext; [|exact E]. intros t h i _ _. unfold e, vadd, vscl, vsub. ring. }
  eapply Ob_ext; [|apply (Ob_add k (L1 e)); [apply Ob_L1, He|apply (Ob_add k (fscl (/ 2) (fadd (L2 e d) (L2 p e)))); [apply Ob_scl, Ob_add|apply (Ob_scl k (/ 6) (fadd (fadd (L3 e d d) (L3 e p d)) (L3 e p p))), Ob_add; [apply Ob_add|]]]].
  - intros t h i Dm Hi. pose proof (dom_t t h Dm) as Ht.
    pose proof (a_diff t Ht i Hi (d t h) (p t h)) as Ea. pose proof (b_diff t Ht i Hi (d t h) (p t h)) as Eb. pose proof (d_diff t Ht i Hi (d t h) (p t h)) as Ed.
    change (vadd (d t h) (vscl (-1) (p t h))) with (e t h) in Ea, Eb, Ed.
    change (F1 t (e t h) i + (/ 2 * (F2 t (e t h) (d t h) i + F2 t (p t h) (e t h) i) + / 6 * (F3 t (e t h) (d t h) (d t h) i + F3 t (e t h) (p t h) (d t h) i + F3 t (e t h) (p t h) (p t h) i)) =
      (f (phi t) i + (F1 t (d t h) i + (/ 2 * F2 t (d t h) (d t h) i + / 6 * F3 t (d t h) (d t h) (d t h) i))) - (f (phi t) i + (F1 t (p t h) i + (/ 2 * F2 t (p t h) (p t h) i + / 6 * F3 t (p t h) (p t h) (p t h) i)))).
    rewrite <- Ea, <- Eb, <- Ed. ring.
  - apply (Ob_weak k (k + 1)); [lia|]. apply Ob_L2; assumption.
  - apply (Ob_weak k (1 + k)); [lia|]. apply Ob_L2; assumption.
  - apply (Ob_weak k (k + 1 + 1)); [lia|]. apply Ob_L3; assumption.
  - apply (Ob_weak k (k + 1 + 1)); [lia|]. apply Ob_L3; assumption.
  - apply (Ob_weak k (k + 1 + 1)); [lia|]. apply Ob_L3; assumption.
Qed.
Definition c1 (a1 : fam) : fam := L1 a1.
Definition c2 (a1 a2 : fam) : fam := fadd (L1 a2) (fscl (/ 2) (L2 a1 a1)).
Definition c3 (a1 a2 a3 : fam) : fam := fadd (L1 a3) (fadd (L2 a1 a2) (fscl (/ 6) (L3 a1 a1 a1))).
Lemma cubic_pol a1 a2 a3 : Ob 0 a1 -> Ob 0 a2 -> Ob 0 a3 -> eqO 4 (cubic_part (pol a1 a2 a3)) (fadd base (pol (c1 a1) (c2 a1 a2) (c3 a1 a2 a3))).
Proof.
  intros H1 H2 H3. pose proof (pol_Ob a1 a2 a3 H1 H2 H3) as Hp. set (p := pol a1 a2 a3) in *.
  assert (X1 : Ob 1 (fpow 1 a1)) by (apply (Ob_pow 0 1), H1). assert (X3 : Ob 3 (fpow 3 a3)) by (apply (Ob_pow 0 3), H3).
  assert (Q : Ob 2 (fadd (fpow 2 a2) (fpow 3 a3))) by (apply Ob_add; [apply (Ob_pow 0 2), H2|apply (Ob_weak 2 3); [lia|exact X3]]). set (q := fadd (fpow 2 a2) (fpow 3 a3)) in *.
  eapply Ob_ext; [|apply (Ob_add 4 (fscl (/ 2) (fadd (fscl 2 (L2 (fpow 1 a1) (fpow 3 a3))) (L2 q q))) (fscl (/ 6) (fadd (L3 q (fpow 1 a1) (fpow 1 a1)) (fadd (L3 q (fpow 1 a1) p) (L3 q p p)))))].
  - intros t h i Dm Hi. pose proof (dom_t t h Dm) as Ht.
    pose proof (b_split t Ht i Hi (fpow 1 a1 t h) (fpow 2 a2 t h) (fpow 3 a3 t h)) as Eb. change (vadd (fpow 1 a1 t h) (vadd (fpow 2 a2 t h) (fpow 3 a3 t h))) with (p t h) in Eb. change (vadd (fpow 2 a2 t h) (fpow 3 a3 t h)) with (q t h) in Eb.
    pose proof (d_split t Ht i Hi (fpow 1 a1 t h) (q t h)) as Ed. change (vadd (fpow 1 a1 t h) (q t h)) with (p t h) in Ed.
    assert (Ea : F1 t (p t h) i = h * F1 t (a1 t h) i + h ^ 2 * F1 t (a2 t h) i + h ^ 3 * F1 t (a3 t h) i).
    { unfold p, pol, fadd, fpow. rewrite !(a_add t Ht i Hi), !(a_scl t Ht i Hi). ring. }
    assert (E1 : F2 t (fpow 1 a1 t h) (fpow 1 a1 t h) i = h ^ 2 * F2 t (a1 t h) (a1 t h) i) by (unfold fpow; rewrite (b_scl t Ht i Hi), (b_scl' t Ht i Hi); ring).
    assert (E2 : F2 t (fpow 1 a1 t h) (fpow 2 a2 t h) i = h ^ 3 * F2 t (a1 t h) (a2 t h) i) by (unfold fpow; rewrite (b_scl t Ht i Hi), (b_scl' t Ht i Hi); ring).
    assert (E3 : F3 t (fpow 1 a1 t h) (fpow 1 a1 t h) (fpow 1 a1 t h) i = h ^ 3 * F3 t (a1 t h) (a1 t h) (a1 t h) i) by (unfold fpow; rewrite (d_scl3 t Ht i Hi); ring).
    rewrite E1, E2 in Eb. rewrite E3 in Ed.
    change (/ 2 * (2 * F2 t (fpow 1 a1 t h) (fpow 3 a3 t h) i + F2 t (q t h) (q t h) i) + / 6 * (F3 t (q t h) (fpow 1 a1 t h) (fpow 1 a1 t h) i + (F3 t (q t h) (fpow 1 a1 t h) (p t h) i + F3 t (q t h) (p t h) (p t h) i)) =
      (f (phi t) i + (F1 t (p t h) i + (/ 2 * F2 t (p t h) (p t h) i + / 6 * F3 t (p t h) (p t h) (p t h) i))) -
      (f (phi t) i + (h ^ 1 * F1 t (a1 t h) i + (h ^ 2 * (F1 t (a2 t h) i + / 2 * F2 t (a1 t h) (a1 t h) i) + h ^ 3 * (F1 t (a3 t h) i + (F2 t (a1 t h) (a2 t h) i + / 6 * F3 t (a1 t h) (a1 t h) (a1 t h) i)))))).
    rewrite Ea, Eb, Ed. field.
  - apply Ob_scl, Ob_add; [apply Ob_scl; apply (Ob_L2 1 3); assumption|apply (Ob_L2 2 2); assumption].
  - apply Ob_scl, Ob_add; [apply (Ob_L3 2 1 1); assumption|apply Ob_add; apply (Ob_L3 2 1 1); assumption].
Qed.
Lemma compose k d a1 a2 a3 : (1 <= k <= 4)%nat -> Ob 0 a1 -> Ob 0 a2 -> Ob 0 a3 -> eqO k d (pol a1 a2 a3) ->
  eqO k (at_ d) (fadd base (pol (c1 a1) (c2 a1 a2) (c3 a1 a2 a3))).
Proof.
  intros (Hk & Hk') H1 H2 H3 E. pose proof (pol_Ob a1 a2 a3 H1 H2 H3) as Hp.
  assert (Hd : Ob 1 d) by (eapply eqO_Ob; [apply (eqO_weak 1 k); [exact Hk|exact E]|exact Hp]).
  eapply eqO_trans; [apply (eqO_weak k 4); [exact Hk'|apply expand, Hd]|]. eapply eqO_trans; [apply cubic_same; eassumption|]. apply (eqO_weak k 4); [exact Hk'|]. apply cubic_pol; assumption.
Qed.
Lemma base_Ob : Ob 0 base. Proof. exists K. split; [exact K0|]. intros t h Dm. rewrite pow_O, Rmult_1_r. apply Bf, (dom_t t h Dm). Qed.
Lemma c1_Ob a1 : Ob 0 a1 -> Ob 0 (c1 a1). Proof. apply Ob_L1. Qed.
Lemma c2_Ob a1 a2 : Ob 0 a1 -> Ob 0 a2 -> Ob 0 (c2 a1 a2). Proof. intros. apply Ob_add; [apply Ob_L1; assumption|apply Ob_scl, (Ob_L2 0 0); assumption]. Qed.
Lemma c3_Ob a1 a2 a3 : Ob 0 a1 -> Ob 0 a2 -> Ob 0 a3 -> Ob 0 (c3 a1 a2 a3).
Proof. intros. apply Ob_add; [apply Ob_L1; assumption|apply Ob_add; [apply (Ob_L2 0 0); assumption|apply Ob_scl, (Ob_L3 0 0 0); assumption]]. Qed.
(** the elementary differentials *)
Definition G1 : fam := L1 base.
Definition G11 : fam := L1 G1.
Definition G2 : fam := L2 base base.
Definition G111 : fam := L1 G11.
Definition G12 : fam := L1 G2.
Definition G21 : fam := L2 base G1.
Definition G3 : fam := L3 base base base.
Lemma G_Ob : Ob 0 G1 /\ Ob 0 G11 /\ Ob 0 G2 /\ Ob 0 G111 /\ Ob 0 G12 /\ Ob 0 G21 /\ Ob 0 G3.
Proof.
  pose proof base_Ob as B. assert (H1 : Ob 0 G1) by apply Ob_L1, B. assert (H11 : Ob 0 G11) by apply Ob_L1, H1. assert (H2 : Ob 0 G2) by (apply (Ob_L2 0 0); assumption).
  repeat split; try assumption; try (apply Ob_L1; assumption); [apply (Ob_L2 0 0)|apply (Ob_L3 0 0 0)]; assumption.
Qed.
Definition quart (al be ga de : R) : fam := fadd (fscl ga G111) (fadd (fscl de G12) (fadd (fscl (al * be) G21) (fscl (al ^ 3 / 6) G3))).
Lemma quart_Ob al be ga de : Ob 0 (quart al be ga de).
Proof. destruct G_Ob as (A1 & A2 & A3 & A4 & A5 & A6 & A7). repeat apply Ob_add; apply Ob_scl; assumption. Qed.
Definition start4 (al be ga de : R) : fam := pol (fscl al base) (fscl be G1) (fadd (fscl ga G11) (fscl de G2)).
Definition slope4 (al be ga de : R) : fam := fadd base (pol (fscl al G1) (fadd (fscl be G11) (fscl (al ^ 2 / 2) G2)) (quart al be ga de)).
Lemma compose_std k d al be ga de : (1 <= k <= 4)%nat -> eqO k d (start4 al be ga de) -> eqO k (at_ d) (slope4 al be ga de).
Proof.
  intros Hk E. destruct G_Ob as (A1 & A2 & A3 & A4 & A5 & A6 & A7). pose proof base_Ob as B. eapply eqO_trans; [apply compose; [exact Hk| | | |exact E]|].
  - apply Ob_scl, B. - apply Ob_scl, A1. - apply Ob_add; apply Ob_scl; assumption.
  - apply eqO_feq. intros t h i Dm Hi. pose proof (dom_t t h Dm) as Ht.
    assert (E1 : c1 (fscl al base) t h i = al * G1 t h i) by apply (a_scl t Ht i Hi).
    assert (E2 : c2 (fscl al base) (fscl be G1) t h i = be * G11 t h i + al ^ 2 / 2 * G2 t h i).
    { change (F1 t (vscl be (G1 t h)) i + / 2 * F2 t (vscl al (base t h)) (vscl al (base t h)) i = be * G11 t h i + al ^ 2 / 2 * G2 t h i).
      rewrite (a_scl t Ht i Hi), (b_scl t Ht i Hi), (b_scl' t Ht i Hi). change (F1 t (G1 t h) i) with (G11 t h i). change (F2 t (base t h) (base t h) i) with (G2 t h i). field. }
    assert (E3 : c3 (fscl al base) (fscl be G1) (fadd (fscl ga G11) (fscl de G2)) t h i = ga * G111 t h i + (de * G12 t h i + (al * be * G21 t h i + al ^ 3 / 6 * G3 t h i))).
    { change (F1 t (vadd (vscl ga (G11 t h)) (vscl de (G2 t h))) i + (F2 t (vscl al (base t h)) (vscl be (G1 t h)) i + / 6 * F3 t (vscl al (base t h)) (vscl al (base t h)) (vscl al (base t h)) i) =
       ga * G111 t h i + (de * G12 t h i + (al * be * G21 t h i + al ^ 3 / 6 * G3 t h i))).
      rewrite (a_add t Ht i Hi), !(a_scl t Ht i Hi), (b_scl t Ht i Hi), (b_scl' t Ht i Hi), (d_scl3 t Ht i Hi). change (F1 t (G11 t h) i) with (G111 t h i). change (F1 t (G2 t h) i) with (G12 t h i).
      change (F2 t (base t h) (G1 t h) i) with (G21 t h i). change (F3 t (base t h) (base t h) (base t h) i) with (G3 t h i). field. }
    change (base t h i + (h ^ 1 * c1 (fscl al base) t h i + (h ^ 2 * c2 (fscl al base) (fscl be G1) t h i + h ^ 3 * c3 (fscl al base) (fscl be G1) (fadd (fscl ga G11) (fscl de G2)) t h i)) =
      base t h i + (h ^ 1 * (al * G1 t h i) + (h ^ 2 * (be * G11 t h i + al ^ 2 / 2 * G2 t h i) + h ^ 3 * (ga * G111 t h i + (de * G12 t h i + (al * be * G21 t h i + al ^ 3 / 6 * G3 t h i)))))).
    rewrite E1, E2, E3. reflexivity.
Qed.
(** * The exact solution *)
Definition d_ex : fam := fun t h i => phi (t + h) i - phi t i.
Definition flow : fam := fun t h => f (phi (t + h)).
Lemma flow_at : feq (at_ d_ex) flow.
Proof. intros t h i Dm Hi. apply (lip_on N f L Lip); [|exact Hi]. intros j _. unfold vadd, d_ex. ring. Qed.
Lemma integrate k (b0 b1 b2 b3 : R -> vecR) : eqO k flow (fadd (fun t _ => b0 t) (pol (fun t _ => b1 t) (fun t _ => b2 t) (fun t _ => b3 t))) ->
  eqO (S k) d_ex (fadd (pol (fun t _ => b0 t) (fscl (/ 2) (fun t _ => b1 t)) (fscl (/ 3) (fun t _ => b2 t))) (fpow 4 (fscl (/ 4) (fun t _ => b3 t)))).
Proof.
  intros (C & P & H). exists C. split; [exact P|]. intros t h Dm i Hi. pose proof Dm as (D1 & D2 & D3).
  set (g := fun s => phi (t + s) i - (s * b0 t i + s ^ 2 / 2 * b1 t i + s ^ 3 / 3 * b2 t i + s ^ 4 / 4 * b3 t i)).
  set (g' := fun s => f (phi (t + s)) i - (b0 t i + s * b1 t i + s ^ 2 * b2 t i + s ^ 3 * b3 t i)).
  assert (Dg : forall s, 0 <= s <= h -> is_derive g s (g' s)).
  { intros s Hs. unfold g, g'. apply (is_derive_minus (fun s => phi (t + s) i)).
    - replace (f (phi (t + s)) i) with (scal 1 (f (phi (t + s)) i)) by (unfold scal; cbn; unfold mult; cbn; ring). apply (is_derive_comp (fun x => phi x i) (fun s => t + s)); [apply Sol; [lra|exact Hi]|]. auto_derive; auto.
    - auto_derive; [auto|]. field. }
  destruct (MVT_gen g 0 h g') as (c & Hc & E).
  - intros x Hx. rewrite Rmin_left, Rmax_right in Hx by lra. apply Dg. lra.
  - intros x Hx. rewrite Rmin_left, Rmax_right in Hx by lra. apply continuity_pt_filterlim. apply (ex_derive_continuous g). exists (g' x). apply Dg, Hx.
  - rewrite Rmin_left, Rmax_right in Hc by lra. rewrite Rminus_0_r in E.
    assert (Dc : dom t c) by (repeat split; lra). specialize (H t c Dc i Hi).
    replace (vsub (flow t c) (fadd (fun t _ => b0 t) (pol (fun t _ => b1 t) (fun t _ => b2 t) (fun t _ => b3 t)) t c) i) with (g' c) in H by (unfold vsub, flow, g', fadd, pol, fpow, fadd, vadd, vscl; ring).
    replace (vsub (d_ex t h) (fadd (pol (fun t _ => b0 t) (fscl (/ 2) (fun t _ => b1 t)) (fscl (/ 3) (fun t _ => b2 t))) (fpow 4 (fscl (/ 4) (fun t _ => b3 t))) t h) i) with (g h - g 0)
      by (unfold vsub, d_ex, g, fadd, pol, fpow, fscl, fadd, vadd, vscl; rewrite Rplus_0_r; field).
    rewrite E, Rabs_mult, (Rabs_pos_eq h) by lra. cbn [pow]. replace (C * (h * h ^ k)) with (C * h ^ k * h) by ring. apply Rmult_le_compat_r; [lra|]. eapply Rle_trans; [exact H|]. apply Rmult_le_compat_l; [exact P|]. apply pow_incr. lra.
Qed.
Lemma integrate_std k al be ga de : (1 <= k <= 4)%nat -> eqO k d_ex (start4 al be ga de) ->
  eqO (S k) d_ex (fadd (start4 1 (al / 2) (be / 3) (al ^ 2 / 6)) (fpow 4 (fscl (/ 4) (quart al be ga de)))).
Proof.
  intros Hk E. pose proof (compose_std k d_ex al be ga de Hk E) as S1. assert (S2 : eqO k flow (slope4 al be ga de)) by (eapply Ob_ext; [|exact S1]; intros t h i Dm Hi; unfold vsub; rewrite (flow_at t h i Dm Hi); reflexivity).
  pose proof (integrate k (fun t => base t 0) (fun t => fscl al G1 t 0) (fun t => fadd (fscl be G11) (fscl (al ^ 2 / 2) G2) t 0) (fun t => quart al be ga de t 0) S2) as S3.
  eapply eqO_trans; [exact S3|]. apply eqO_feq. intros t h i Dm Hi. unfold start4, fadd, pol, fpow, fscl, fadd, vadd, vscl.
  change (base t 0 i) with (base t h i). change (G1 t 0 i) with (G1 t h i). change (G11 t 0 i) with (G11 t h i). change (G2 t 0 i) with (G2 t h i). change (quart al be ga de t 0 i) with (quart al be ga de t h i). field.
Qed.
Lemma round k al be ga de : (1 <= k <= 3)%nat -> eqO k d_ex (start4 al be ga de) -> eqO (S k) d_ex (start4 1 (al / 2) (be / 3) (al ^ 2 / 6)).
Proof.
  intros Hk E. eapply eqO_trans; [apply (integrate_std k al be ga de); [lia|exact E]|]. apply (Ob_weak (S k) 4); [lia|]. eapply Ob_ext; [|apply (Ob_pow 0 4 (fscl (/ 4) (quart al be ga de))), Ob_scl, quart_Ob].
  intros t h i _ _. unfold vsub, fadd at 1, vadd. ring.
Qed.
Lemma first_round : eqO 1 d_ex (start4 0 0 0 0).
Proof.
  assert (Z : eqO 0 flow (fadd (fun t _ => (fun _ => 0)) (pol (fun t _ => (fun _ => 0)) (fun t _ => (fun _ => 0)) (fun t _ => (fun _ => 0))))).
  { exists K. split; [exact K0|]. intros t h Dm i Hi. pose proof Dm as (D1 & D2 & D3). unfold vsub, fadd, pol, fpow, fadd, vadd, vscl, flow. rewrite !Rmult_0_r, !Rplus_0_r, Rminus_0_r, pow_O, Rmult_1_r. apply Bf; [lra|exact Hi]. }
  eapply eqO_trans; [exact (integrate 0 _ _ _ _ Z)|]. apply eqO_feq. intros t h i _ _. unfold start4, fadd, pol, fpow, fscl, fadd, vadd, vscl. ring.
Qed.
Definition fourth : fam := fadd G111 (fadd G12 (fadd (fscl 3 G21) G3)).
Definition exact5 : fam := fadd (start4 1 (/ 2) (/ 6) (/ 6)) (fpow 4 (fscl (/ 24) fourth)).
Lemma exact_expansion : eqO 5 d_ex exact5.
Proof.
  pose proof (round 1 _ _ _ _ ltac:(lia) first_round) as R1. pose proof (round 2 _ _ _ _ ltac:(lia) R1) as R2. pose proof (round 3 _ _ _ _ ltac:(lia) R2) as R3. pose proof (integrate_std 4 _ _ _ _ ltac:(lia) R3) as R4.
  eapply eqO_trans; [exact R4|]. apply eqO_feq. intros t h i _ _. unfold exact5, fourth, quart, start4, fadd, pol, fpow, fscl, fadd, vadd, vscl. field.
Qed.
(** * The method *)
Lemma next_slope k al be ga de c : eqO 4 k (slope4 al be ga de) -> eqO 4 (fun t h => vscl (c * h) (k t h)) (start4 c (c * al) (c * be) (c * al ^ 2 / 2)).
Proof.
  intros E. pose proof (eqO_scl _ c _ _ (eqO_pow _ 1 _ _ E)) as E1. apply (eqO_weak 4 5) in E1; [|lia].
  eapply eqO_trans; [|eapply eqO_trans; [exact E1|]].
  - apply eqO_feq. intros t h i _ _. unfold fscl, fpow, vscl. ring.
  - eapply Ob_ext; [|apply (Ob_pow 0 4 (fscl c (quart al be ga de))), Ob_scl, quart_Ob]. intros t h i _ _. unfold vsub, slope4, start4, fadd, pol, fpow, fscl, fadd, vadd, vscl. field.
Qed.
Definition n_inc : fam := fun t h i => h / 6 * (k_1 f (phi t) i + 2 * k_2 f (phi t) h i + 2 * k_3 f (phi t) h i + k_4 f (phi t) h i).
Lemma slopes : eqO 4 (fun t h => k_1 f (phi t)) (slope4 0 0 0 0) /\ eqO 4 (fun t h => k_2 f (phi t) h) (slope4 (/ 2) 0 0 0) /\
  eqO 4 (fun t h => k_3 f (phi t) h) (slope4 (/ 2) (/ 4) 0 (/ 16)) /\ eqO 4 (fun t h => k_4 f (phi t) h) (slope4 1 (/ 2) (/ 4) (/ 8)).
Proof.
  assert (E1 : eqO 4 (fun t h => k_1 f (phi t)) (slope4 0 0 0 0)). { apply eqO_feq. intros t h i _ _. unfold slope4, quart, fadd, pol, fpow, fscl, fadd, vadd, vscl, k_1. change (f (phi t) i) with (base t h i). field. }
  assert (W : forall k a b g d a' b' g' d', a = a' -> b = b' -> g = g' -> d = d' -> eqO 4 k (start4 a b g d) -> eqO 4 k (start4 a' b' g' d')) by (intros; subst; assumption).
  assert (E2 : eqO 4 (fun t h => k_2 f (phi t) h) (slope4 (/ 2) 0 0 0)).
  { apply (compose_std 4 (fun t h => vscl (h / 2) (k_1 f (phi t)))); [lia|]. eapply eqO_trans; [|eapply W; [| | | |exact (next_slope _ _ _ _ _ (/ 2) E1)]; field]. apply eqO_feq. intros t h i _ _. unfold vscl. field. }
  assert (E3 : eqO 4 (fun t h => k_3 f (phi t) h) (slope4 (/ 2) (/ 4) 0 (/ 16))).
  { apply (compose_std 4 (fun t h => vscl (h / 2) (k_2 f (phi t) h))); [lia|]. eapply eqO_trans; [|eapply W; [| | | |exact (next_slope _ _ _ _ _ (/ 2) E2)]; field]. apply eqO_feq. intros t h i _ _. unfold vscl. field. }
  repeat split; try assumption. apply (compose_std 4 (fun t h => vscl h (k_3 f (phi t) h))); [lia|]. eapply eqO_trans; [|eapply W; [| | | |exact (next_slope _ _ _ _ _ 1 E3)]; field]. apply eqO_feq. intros t h i _ _. unfold vscl. field.
Qed.
Lemma method_expansion : eqO 5 n_inc exact5.
Proof.
  destruct slopes as (E1 & E2 & E3 & E4). pose proof (eqO_scl _ (/ 6) _ _ (eqO_pow _ 1 _ _ (eqO_add _ _ _ _ _ E1 (eqO_add _ _ _ _ _ (eqO_scl _ 2 _ _ E2) (eqO_add _ _ _ _ _ (eqO_scl _ 2 _ _ E3) E4))))) as E. cbn [Nat.add] in E.
  eapply eqO_trans; [|eapply eqO_trans; [exact E|]].
  - apply eqO_feq. intros t h i _ _. unfold n_inc, fscl, fpow, fadd, vadd, vscl. field.
  - apply eqO_feq. intros t h i _ _. unfold exact5, fourth, slope4, quart, start4, fadd, pol, fpow, fscl, fadd, vadd, vscl. field.
Qed.
Lemma local_error : exists C, 0 <= C /\ forall t h i, dom t h -> (i < N)%nat -> Rabs (phi t i + n_inc t h i - phi (t + h) i) <= C * h ^ 5.
Proof.
  assert (E : eqO 5 n_inc d_ex). { eapply eqO_trans; [exact method_expansion|]. eapply Ob_ext; [|exact (Ob_scl 5 (-1) _ exact_expansion)]. intros t h i _ _. unfold fscl, vscl, vsub. ring. }
  destruct E as (C & P & H). exists C. split; [exact P|]. intros t h i Dm Hi. specialize (H t h Dm i Hi). unfold vsub, d_ex in H. replace (phi t i + n_inc t h i - phi (t + h) i) with (n_inc t h i - (phi (t + h) i - phi t i)) by ring. exact H.
Qed.
End Orders.

(** * From one step to many *)
(** the right side is bounded along the solution *)
Lemma bounded_path N f L T phi : 0 <= T -> lipschitz N f L -> solves N f T phi -> exists K, 0 <= K /\ forall t, 0 <= t <= T -> bnd N (f (phi t)) K.
Proof.
  intros HT Lip Sol.
  assert (B : forall m, (m <= N)%nat -> exists c, 0 <= c /\ forall t, 0 <= t <= T -> bnd m (vsub (phi t) (phi 0)) c).
  { induction m as [|m IH]; intros Hm; [exists 0; split; [lra|]; intros t _ i Hi; lia|]. destruct (IH ltac:(lia)) as (c & Pc & Hc).
    assert (Ct : forall x, 0 <= x <= T -> continuity_pt (fun s => Rabs (phi s m - phi 0 m)) x).
    { intros x Hx. apply (continuity_pt_comp (fun s => phi s m - phi 0 m) Rabs); [|apply Rcontinuity_abs]. apply continuity_pt_filterlim. apply (ex_derive_continuous (fun s => phi s m - phi 0 m)). exists (minus (f (phi x) m) 0).
      apply (is_derive_minus (fun s => phi s m) (fun _ => phi 0 m)); [apply Sol; [exact Hx|lia]|apply (@is_derive_const R_AbsRing R_NormedModule)]. }
    destruct (continuity_ab_maj (fun s => Rabs (phi s m - phi 0 m)) 0 T HT Ct) as (M & HM & _).
    exists (Rmax c (Rabs (phi M m - phi 0 m))). split; [apply Rle_trans with c; [exact Pc|apply Rmax_l]|]. intros t Ht i Hi. destruct (Nat.eq_dec i m) as [->|Ne].
    - eapply Rle_trans; [|apply Rmax_r]. apply (HM t Ht).
    - eapply Rle_trans; [apply (Hc t Ht i ltac:(lia))|apply Rmax_l]. }
  destruct (B N (le_n _)) as (c & Pc & Hc).
  assert (F : forall (v : vecR) m, exists b, 0 <= b /\ bnd m v b).
  { intros v. induction m as [|m (b & Pb & Hb)]; [exists 0; split; [lra|intros i Hi; lia]|]. exists (Rmax b (Rabs (v m))). split; [apply Rle_trans with b; [exact Pb|apply Rmax_l]|].
    intros i Hi. destruct (Nat.eq_dec i m) as [->|Ne]; [apply Rmax_r|]. eapply Rle_trans; [apply (Hb i); lia|apply Rmax_l]. }
  destruct (F (f (phi 0)) N) as (b & Pb & Hb). destruct N as [|n]; [exists 0; split; [lra|intros t _ i Hi; lia]|].
  pose proof (lip_nonneg _ _ _ (Nat.lt_0_succ n) Lip) as L0. exists (b + L * c). split; [pose proof (Rmult_le_pos _ _ L0 Pc); lra|]. intros t Ht i Hi.
  pose proof (Lip _ _ _ (Hc t Ht) i Hi) as D. pose proof (Hb i Hi). unfold vsub in D. replace (f (phi t) i) with (f (phi 0) i + (f (phi t) i - f (phi 0) i)) by ring. eapply Rle_trans; [apply Rabs_triang|]. lra.
Qed.
Lemma bnd_add N u v a b : bnd N u a -> bnd N v b -> bnd N (vadd u v) (a + b).
Proof. intros H1 H2 i Hi. unfold vadd. eapply Rle_trans; [apply Rabs_triang|]. specialize (H1 i Hi). specialize (H2 i Hi). lra. Qed.
Lemma exp_mono x y : x <= y -> exp x <= exp y. Proof. intros [H| ->]; [left; apply exp_increasing, H|right; reflexivity]. Qed.
Lemma pow_exp x n : 0 <= x -> (1 + x) ^ n <= exp (INR n * x).
Proof.
  intros H. induction n as [|n IH]; [cbn; rewrite Rmult_0_l, exp_0; lra|]. rewrite S_INR. replace ((INR n + 1) * x) with (INR n * x + x) by ring. rewrite exp_plus. cbn [pow]. rewrite Rmult_comm.
  apply Rmult_le_compat; [apply pow_le; lra|lra|exact IH|]. pose proof (exp_ineq1_le x). lra.
Qed.
(** errors of single steps add up, amplified by at most exp(Lambda T) *)
Lemma accumulate N T phi (S1 : vecR -> R -> vecR) Lam C p : 0 <= Lam -> 0 <= C ->
  (forall h u v c, 0 <= h <= 1 -> bnd N (vsub u v) c -> bnd N (vsub (S1 u h) (S1 v h)) ((1 + h * Lam) * c)) ->
  (forall t h, dom T t h -> bnd N (vsub (S1 (phi t) h) (phi (t + h))) (C * h ^ S p)) ->
  forall h n (y : nat -> vecR) d0 eps, 0 < h <= 1 -> INR n * h <= T -> 0 <= d0 -> 0 <= eps -> bnd N (vsub (y O) (phi 0)) d0 ->
  (forall k, (k < n)%nat -> bnd N (vsub (y (S k)) (S1 (y k) h)) eps) ->
  bnd N (vsub (y n) (phi (INR n * h))) (exp (Lam * T) * (d0 + INR n * eps + C * T * h ^ p)).
Proof.
  intros PL PC St Lo h n y d0 eps Hh HT Pd Pe H0 Hs. set (q := 1 + h * Lam). assert (Q1 : 1 <= q) by (unfold q; pose proof (Rmult_le_pos h Lam); lra).
  assert (I : forall k, (k <= n)%nat -> bnd N (vsub (y k) (phi (INR k * h))) (q ^ k * (d0 + INR k * (eps + C * h ^ S p)))).
  { induction k as [|k IH]; intros Hk; [cbn [pow INR]; rewrite !Rmult_0_l, Rplus_0_r, Rmult_1_l; exact H0|]. specialize (IH ltac:(lia)). specialize (Hs k ltac:(lia)). set (e := q ^ k * (d0 + INR k * (eps + C * h ^ S p))) in *.
    assert (Kh : INR (S k) * h <= T). { eapply Rle_trans; [|exact HT]. apply Rmult_le_compat_r; [lra|]. apply le_INR. exact Hk. } rewrite S_INR in Kh.
    pose proof (pos_INR k) as Pk. assert (Kp : 0 <= INR k * h) by (apply Rmult_le_pos; lra).
    assert (Dm : dom T (INR k * h) h) by (repeat split; lra). pose proof (St h _ _ _ ltac:(lra) IH) as A1. pose proof (Lo _ _ Dm) as A2. fold q in A1.
    intros i Hi. pose proof (bnd_add _ _ _ _ _ Hs (bnd_add _ _ _ _ _ A1 A2) i Hi) as A. unfold vadd, vsub in A. unfold vsub. rewrite S_INR at 1. replace ((INR k + 1) * h) with (INR k * h + h) by ring.
    replace (y (S k) i - phi (INR k * h + h) i) with (y (S k) i - S1 (y k) h i + (S1 (y k) h i - S1 (phi (INR k * h)) h i + (S1 (phi (INR k * h)) h i - phi (INR k * h + h) i))) by ring.
    eapply Rle_trans; [exact A|]. unfold e. rewrite S_INR. cbn [pow]. set (s := eps + C * (h * h ^ p)) in *. assert (Ps : 0 <= s). { unfold s. pose proof (Rmult_le_pos C (h * h ^ p) PC). assert (0 <= h * h ^ p) by (apply Rmult_le_pos; [lra|apply pow_le; lra]). lra. }
    assert (Qk : 1 <= q * q ^ k). { rewrite <- (Rmult_1_l 1). apply Rmult_le_compat; try lra. apply pow_R1_Rle. exact Q1. }
    assert (s <= q * q ^ k * s). { rewrite <- (Rmult_1_l s) at 1. apply Rmult_le_compat_r; assumption. } unfold s in *. cbn [pow] in *. nra. }
  specialize (I n (le_n _)). eapply bnd_weak; [|exact I]. pose proof (pos_INR n) as Pn. assert (T0 : 0 <= T) by (eapply Rle_trans; [|exact HT]; apply Rmult_le_pos; lra).
  assert (Hp : 0 <= h ^ p) by (apply pow_le; lra).
  apply Rmult_le_compat; [apply pow_le; lra| | |].
  - assert (0 <= INR n * (eps + C * h ^ S p)); [|lra]. apply Rmult_le_pos; [exact Pn|]. cbn [pow]. assert (0 <= C * (h * h ^ p)) by (repeat apply Rmult_le_pos; lra). lra.
  - unfold q. eapply Rle_trans; [apply pow_exp; apply Rmult_le_pos; lra|]. apply exp_mono. replace (INR n * (h * Lam)) with (Lam * (INR n * h)) by ring. apply Rmult_le_compat_l; assumption.
  - rewrite Rmult_plus_distr_l. cbn [pow]. replace (INR n * (C * (h * h ^ p))) with (C * (INR n * h) * h ^ p) by ring. assert (C * (INR n * h) * h ^ p <= C * T * h ^ p); [|lra]. apply Rmult_le_compat_r; [exact Hp|]. apply Rmult_le_compat_l; assumption.
Qed.
Lemma bnd_scl N u a c : bnd N u a -> bnd N (vscl c u) (Rabs c * a).
Proof. intros H i Hi. unfold vscl. rewrite Rabs_mult. apply Rmult_le_compat_l; [apply Rabs_pos|apply H, Hi]. Qed.
Lemma bnd_ext N u v a : veq N u v -> bnd N u a -> bnd N v a. Proof. intros E H i Hi. rewrite <- (E i Hi). apply H, Hi. Qed.
Lemma rk4_stable N f L : (0 < N)%nat -> lipschitz N f L -> forall h u v c, 0 <= h <= 1 -> bnd N (vsub u v) c -> bnd N (vsub (rk4 N f u h) (rk4 N f v h)) ((1 + h * (L * (1 + L) ^ 3)) * c).
Proof.
  intros PN Lip h u v c Hh H. pose proof (lip_nonneg _ _ _ PN Lip) as L0. pose proof (lip_on _ _ _ Lip) as Hon. assert (C0 : 0 <= c) by (eapply Rle_trans; [apply Rabs_pos|apply (H 0%nat PN)]).
  assert (St : forall g k l m, 0 <= g <= 1 -> 0 <= m -> bnd N (vsub k l) (m * c) -> bnd N (vsub (f (vadd u (vscl g k))) (f (vadd v (vscl g l)))) (L * (1 + m) * c)).
  { intros g k l m Hg Hm B. rewrite Rmult_assoc. apply Lip. eapply bnd_weak; [|apply (bnd_ext N (vadd (vsub u v) (vscl g (vsub k l)))); [intros i _; unfold vadd, vsub, vscl; ring|apply bnd_add; [exact H|apply bnd_scl; exact B]]].
    rewrite Rabs_pos_eq by lra. assert (g * (m * c) <= 1 * (m * c)) by (apply Rmult_le_compat_r; [apply Rmult_le_pos; assumption|lra]). lra. }
  assert (B1 : bnd N (vsub (k_1 f u) (k_1 f v)) (L * c)) by (apply Lip, H).
  pose proof (St (h / 2) _ _ L ltac:(lra) L0 B1) as B2. fold (k_2 f u h) (k_2 f v h) in B2.
  assert (P2 : 0 <= L * (1 + L)) by (apply Rmult_le_pos; lra). pose proof (St (h / 2) _ _ _ ltac:(lra) P2 B2) as B3. fold (k_3 f u h) (k_3 f v h) in B3.
  assert (P3 : 0 <= L * (1 + L * (1 + L))) by (apply Rmult_le_pos; lra). pose proof (St h _ _ _ ltac:(lra) P3 B3) as B4. fold (k_4 f u h) (k_4 f v h) in B4.
  set (M := L * (1 + L) ^ 3). assert (M1 : L <= M /\ L * (1 + L) <= M /\ L * (1 + L * (1 + L)) <= M /\ L * (1 + L * (1 + L * (1 + L))) <= M).
  { unfold M. assert (0 <= L * L) by (apply Rmult_le_pos; lra). assert (0 <= L * L * L) by (apply Rmult_le_pos; lra). assert (0 <= L * L * L * L) by (apply Rmult_le_pos; lra). repeat split; cbn [pow]; lra. }
  destruct M1 as (M1 & M2 & M3 & M4). intros i Hi. unfold vsub. rewrite !rk4_eq by assumption. specialize (H i Hi). specialize (B1 i Hi). specialize (B2 i Hi). specialize (B3 i Hi). specialize (B4 i Hi). unfold vsub in *.
  set (x1 := k_1 f u i) in *. set (x2 := k_2 f u h i) in *. set (x3 := k_3 f u h i) in *. set (x4 := k_4 f u h i) in *. set (y1 := k_1 f v i) in *. set (y2 := k_2 f v h i) in *. set (y3 := k_3 f v h i) in *. set (y4 := k_4 f v h i) in *.
  assert (W : forall a, a <= M -> a * c <= M * c) by (intros a Ha; apply Rmult_le_compat_r; assumption). apply W in M1, M2, M3, M4.
  assert (Z : Rabs ((x1 - y1) + 2 * (x2 - y2) + 2 * (x3 - y3) + (x4 - y4)) <= 6 * (M * c)).
  { apply Rabs_le. apply Rabs_le_inv in B1, B2, B3, B4. lra. }
  replace (u i + h / 6 * (x1 + 2 * x2 + 2 * x3 + x4) - (v i + h / 6 * (y1 + 2 * y2 + 2 * y3 + y4))) with ((u i - v i) + h / 6 * ((x1 - y1) + 2 * (x2 - y2) + 2 * (x3 - y3) + (x4 - y4))) by ring.
  eapply Rle_trans; [apply Rabs_triang|]. rewrite Rabs_mult, (Rabs_pos_eq (h / 6)) by lra. assert (h / 6 * Rabs (x1 - y1 + 2 * (x2 - y2) + 2 * (x3 - y3) + (x4 - y4)) <= h / 6 * (6 * (M * c))) by (apply Rmult_le_compat_l; lra). lra.
Qed.
Lemma euler_eq N f y h i : (i < N)%nat -> vec_add Rops N y (integrate_euler Rops N (f y) h) i = y i + h * f y i.
Proof. intros H. unfold integrate_euler. rewrite add_in, scale_in by exact H. ring. Qed.
Lemma euler_stable N f L : lipschitz N f L -> forall h u v c, 0 <= h <= 1 -> bnd N (vsub u v) c ->
  bnd N (vsub (vec_add Rops N u (integrate_euler Rops N (f u) h)) (vec_add Rops N v (integrate_euler Rops N (f v) h))) ((1 + h * L) * c).
Proof.
  intros Lip h u v c Hh H i Hi. unfold vsub. rewrite !euler_eq by exact Hi. pose proof (Lip _ _ _ H i Hi) as B. specialize (H i Hi). unfold vsub in *. replace (u i + h * f u i - (v i + h * f v i)) with ((u i - v i) + h * (f u i - f v i)) by ring.
  eapply Rle_trans; [apply Rabs_triang|]. rewrite Rabs_mult, (Rabs_pos_eq h) by lra. assert (h * Rabs (f u i - f v i) <= h * (L * c)) by (apply Rmult_le_compat_l; lra). lra.
Qed.

(** * The theorems *)
(** Runge-Kutta: for a smooth right side, the error after n steps is of the fourth order in the step, and errors eps made in
    single steps (rounding, say) or d0 at the start are amplified by a constant only. *)
Theorem C112_rk4_fourth_order : forall N f L T phi F1 F2 F3 K, 0 <= T -> lipschitz N f L -> solves N f T phi ->
  (forall t, 0 <= t <= T -> taylor3 N f (phi t) (F1 t) (F2 t) (F3 t) K) ->
  exists C, 0 <= C /\ forall h n (y : nat -> vecR) d0 eps, 0 < h <= 1 -> INR n * h <= T -> 0 <= d0 -> 0 <= eps ->
    bnd N (vsub (y O) (phi 0)) d0 -> (forall k, (k < n)%nat -> bnd N (vsub (y (S k)) (rk4 N f (y k) h)) eps) ->
    bnd N (vsub (y n) (phi (INR n * h))) (C * (d0 + INR n * eps + h ^ 4)).
Proof.
  intros N f L T phi F1 F2 F3 K HT Lip Sol Tay. destruct N as [|N']; [exists 0; split; [lra|]; intros; intros i Hi; lia|]. set (N := S N') in *. assert (PN : (0 < N)%nat) by (unfold N; lia).
  destruct (bounded_path N f L T phi HT Lip Sol) as (K' & PK' & Bf). set (M := Rmax K K'). assert (M0 : 0 <= M) by (apply Rle_trans with K'; [exact PK'|apply Rmax_r]).
  assert (KM : K <= M) by apply Rmax_l. assert (pb : forall u a, bnd N u a -> 0 <= a) by (intros u a B; eapply Rle_trans; [apply Rabs_pos|apply (B 0%nat PN)]).
  assert (Tay' : forall t, 0 <= t <= T -> taylor3 N f (phi t) (F1 t) (F2 t) (F3 t) M).
  { intros t Ht. destruct (Tay t Ht). constructor; try assumption.
    - intros u a Ha. eapply bnd_weak; [|apply A_bnd0, Ha]. apply Rmult_le_compat_r; [eapply pb; eassumption|exact KM].
    - intros u v a b Ha Hb. eapply bnd_weak; [|apply B_bnd0; eassumption]. repeat (apply Rmult_le_compat_r; [eapply pb; eassumption|]). exact KM.
    - intros u v w a b c Ha Hb Hc. eapply bnd_weak; [|apply D_bnd0; eassumption]. repeat (apply Rmult_le_compat_r; [eapply pb; eassumption|]). exact KM.
    - intros d c Hc. eapply bnd_weak; [|apply remainder0, Hc]. apply Rmult_le_compat_r; [apply pow_le; eapply pb; eassumption|exact KM]. }
  assert (Bf' : forall t, 0 <= t <= T -> bnd N (f (phi t)) M) by (intros t Ht; eapply bnd_weak; [apply Rmax_r|apply Bf, Ht]).
  destruct (local_error N T f phi F1 F2 F3 M L M0 Lip Sol Bf' Tay') as (C & PC & Lo). pose proof (lip_nonneg _ _ _ PN Lip) as L0. pose proof (lip_on _ _ _ Lip) as Hon.
  set (Lam := L * (1 + L) ^ 3). assert (PLam : 0 <= Lam) by (apply Rmult_le_pos; [exact L0|apply pow_le; lra]).
  assert (Lo' : forall t h, dom T t h -> bnd N (vsub (rk4 N f (phi t) h) (phi (t + h))) (C * h ^ S 4)) by (intros t h Dm i Hi; unfold vsub; rewrite rk4_eq by assumption; apply (Lo t h i Dm Hi)).
  pose proof (accumulate N T phi (fun u h => rk4 N f u h) Lam C 4 PLam PC (rk4_stable N f L PN Lip) Lo') as Ac. cbv beta in Ac.
  set (E := exp (Lam * T)) in *. assert (E0 : 0 < E) by apply exp_pos. exists (E * (1 + C * T)). assert (CT : 0 <= C * T) by (apply Rmult_le_pos; assumption). split; [apply Rmult_le_pos; lra|].
  intros h n y d0 eps Hh Hn Pd Pe H0 Hs. eapply bnd_weak; [|apply (Ac h n y d0 eps); assumption]. rewrite (Rmult_assoc E (1 + C * T)). apply Rmult_le_compat_l; [lra|].
  assert (0 <= h ^ 4) by (apply pow_le; lra). assert (0 <= INR n * eps) by (apply Rmult_le_pos; [apply pos_INR|exact Pe]). assert (0 <= C * T * (d0 + INR n * eps)) by (apply Rmult_le_pos; lra). lra.
Qed.
Theorem C112_rk4_steps : forall N f L T phi F1 F2 F3 K, 0 <= T -> lipschitz N f L -> solves N f T phi ->
  (forall t, 0 <= t <= T -> taylor3 N f (phi t) (F1 t) (F2 t) (F3 t) K) ->
  exists C, forall h n i, 0 < h <= 1 -> INR n * h <= T -> (i < N)%nat -> Rabs (rk4_steps N f (phi 0) h n i - phi (INR n * h) i) <= C * h ^ 4.
Proof.
  intros N f L T phi F1 F2 F3 K HT Lip Sol Tay. destruct (C112_rk4_fourth_order N f L T phi F1 F2 F3 K HT Lip Sol Tay) as (C & PC & H). exists C. intros h n i Hh Hn Hi.
  replace (C * h ^ 4) with (C * (0 + INR n * 0 + h ^ 4)) by ring. apply (H h n (rk4_steps N f (phi 0) h) 0 0 Hh Hn); [lra|lra| |  |exact Hi].
  - intros j _. unfold vsub. cbn. rewrite Rminus_diag_eq, Rabs_R0; lra.
  - intros k _ j _. unfold vsub. cbn [rk4_steps]. rewrite Rminus_diag_eq, Rabs_R0; lra.
Qed.
(** Euler: first order, for every Lipschitz right side. *)
Theorem C112_euler_first_order : forall N f L T phi, 0 <= T -> lipschitz N f L -> solves N f T phi ->
  exists C, forall h n i, 0 < h <= 1 -> INR n * h <= T -> (i < N)%nat -> Rabs (euler_steps N f (phi 0) h n i - phi (INR n * h) i) <= C * h.
Proof.
  intros N f L T phi HT Lip Sol. destruct N as [|N']; [exists 0; intros; lia|]. set (N := S N') in *. assert (PN : (0 < N)%nat) by (unfold N; lia). pose proof (lip_nonneg _ _ _ PN Lip) as L0.
  destruct (bounded_path N f L T phi HT Lip Sol) as (K & PK & Bf).
  assert (Z : eqO N T 0 (flow f phi) (fadd (fun t _ => (fun _ => 0)) (pol (fun t _ => (fun _ => 0)) (fun t _ => (fun _ => 0)) (fun t _ => (fun _ => 0))))).
  { exists K. split; [exact PK|]. intros t h Dm i Hi. pose proof Dm as (D1 & D2 & D3). unfold vsub, fadd, pol, fpow, fadd, vadd, vscl, flow. rewrite !Rmult_0_r, !Rplus_0_r, Rminus_0_r, pow_O, Rmult_1_r. apply Bf; [lra|exact Hi]. }
  pose proof (integrate N T f phi Sol 0 _ _ _ _ Z) as (C & PC & D). 
  assert (Z1 : eqO N T 1 (flow f phi) (fadd (fun t _ => f (phi t)) (pol (fun t _ => (fun _ => 0)) (fun t _ => (fun _ => 0)) (fun t _ => (fun _ => 0))))).
  { exists (L * C). split; [apply Rmult_le_pos; assumption|]. intros t h Dm i Hi. assert (Bd : bnd N (vsub (phi (t + h)) (phi t)) (C * h)).
    { intros j Hj. specialize (D t h Dm j Hj). unfold vsub, d_ex, fadd, pol, fpow, fscl, fadd, vadd, vscl in D. rewrite !Rmult_0_r, !Rplus_0_r, Rminus_0_r, pow_1 in D. exact D. }
    pose proof (Lip _ _ _ Bd i Hi) as B. unfold vsub in *. unfold flow, fadd, pol, fpow, fadd, vadd, vscl. rewrite !Rmult_0_r, !Rplus_0_r, pow_1. replace (L * C * h) with (L * (C * h)) by ring. exact B. }
  pose proof (integrate N T f phi Sol 1 _ _ _ _ Z1) as (C2 & PC2 & D2).
  assert (Lo : forall t h, dom T t h -> bnd N (vsub (vec_add Rops N (phi t) (integrate_euler Rops N (f (phi t)) h)) (phi (t + h))) (C2 * h ^ S 1)).
  { intros t h Dm i Hi. specialize (D2 t h Dm i Hi). unfold vsub in *. rewrite euler_eq by exact Hi. unfold d_ex, fadd, pol, fpow, fscl, fadd, vadd, vscl in D2. rewrite !Rmult_0_r, !Rplus_0_r, pow_1 in D2. rewrite Rabs_minus_sym.
    replace (phi (t + h) i - (phi t i + h * f (phi t) i)) with (phi (t + h) i - phi t i - h * f (phi t) i) by ring. exact D2. }
  pose proof (accumulate N T phi (fun u h => vec_add Rops N u (integrate_euler Rops N (f u) h)) L C2 1 L0 PC2 (euler_stable N f L Lip) Lo) as Ac. cbv beta in Ac.
  exists (exp (L * T) * (C2 * T)). intros h n i Hh Hn Hi. replace (exp (L * T) * (C2 * T) * h) with (exp (L * T) * (0 + INR n * 0 + C2 * T * h ^ 1)) by ring.
  apply (Ac h n (euler_steps N f (phi 0) h) 0 0 Hh Hn); [lra|lra| | |exact Hi].
  - intros j _. unfold vsub. cbn. rewrite Rminus_diag_eq, Rabs_R0; lra.
  - intros k _ j _. unfold vsub. cbn [euler_steps]. cbv zeta. rewrite Rminus_diag_eq, Rabs_R0; lra.
Qed.

(** * One equation *)
Lemma grow (g g' : R -> R) K n : 0 <= K -> g 0 = 0 -> (forall s, is_derive g s (g' s)) -> (forall s, Rabs (g' s) <= K * Rabs s ^ n) -> forall d, Rabs (g d) <= K * Rabs d ^ S n.
Proof.
  intros K0 G0 Dg B d. destruct (MVT_gen g 0 d g') as (c & Hc & E).
  - intros x _. apply Dg.
  - intros x _. apply continuity_pt_filterlim. apply (ex_derive_continuous g). exists (g' x). apply Dg.
  - rewrite G0, !Rminus_0_r in E. rewrite E, Rabs_mult. cbn [pow]. replace (K * (Rabs d * Rabs d ^ n)) with (K * Rabs d ^ n * Rabs d) by ring. apply Rmult_le_compat_r; [apply Rabs_pos|].
    eapply Rle_trans; [apply B|]. apply Rmult_le_compat_l; [exact K0|]. apply pow_incr. split; [apply Rabs_pos|]. unfold Rmin, Rmax in Hc. destruct (Rle_dec 0 d); apply Rabs_le.
    + rewrite Rabs_pos_eq by lra. lra.
    + rewrite Rabs_left by lra. lra.
Qed.
Definition one (f0 : R -> R) : vecR -> vecR := fun v _ => f0 (v 0%nat).
Lemma scalar_taylor f0 f1 f2 f3 f4 K : 0 <= K -> (forall x, is_derive f0 x (f1 x)) -> (forall x, is_derive f1 x (f2 x)) -> (forall x, is_derive f2 x (f3 x)) -> (forall x, is_derive f3 x (f4 x)) ->
  (forall x, Rabs (f1 x) <= K /\ Rabs (f2 x) <= K /\ Rabs (f3 x) <= K /\ Rabs (f4 x) <= K) ->
  forall y, taylor3 1 (one f0) y (fun u _ => f1 (y 0%nat) * u 0%nat) (fun u v _ => f2 (y 0%nat) * u 0%nat * v 0%nat) (fun u v w _ => f3 (y 0%nat) * u 0%nat * v 0%nat * w 0%nat) K.
Proof.
  intros K0 D0 D1 D2 D3 B y. set (x := y 0%nat). destruct (B x) as (B1 & B2 & B3 & _).
  assert (M : forall a b c d, Rabs a <= c -> Rabs b <= d -> Rabs (a * b) <= c * d) by (intros a b c d Ha Hb; rewrite Rabs_mult; apply Rmult_le_compat; try apply Rabs_pos; assumption).
  constructor; intros; cbv beta; unfold vadd, vscl; try ring.
  - intros i Hi. apply M; [exact B1|apply H; lia].
  - intros i Hi. repeat apply M; [exact B2|apply H; lia|apply H0; lia].
  - intros i Hi. repeat apply M; [exact B3|apply H; lia|apply H0; lia|apply H1; lia].
  - intros i Hi. unfold one, vadd. fold x. set (z := d 0%nat). assert (Hz : Rabs z <= c) by (apply H; lia).
    assert (Sh : forall (g g' : R -> R) s, (forall t, is_derive g t (g' t)) -> is_derive (fun s => g (x + s)) s (g' (x + s))).
    { intros g g' s Hg. replace (g' (x + s)) with (scal 1 (g' (x + s))) by (unfold scal; cbn; unfold mult; cbn; ring). apply (is_derive_comp g (fun s => x + s)); [apply Hg|]. auto_derive; auto. }
    assert (R1 : forall s, Rabs (f3 (x + s) - f3 x) <= K * Rabs s ^ 1).
    { apply (grow (fun s => f3 (x + s) - f3 x) (fun s => f4 (x + s)) K 0 K0); [rewrite Rplus_0_r; ring| |intros s; rewrite pow_O, Rmult_1_r; apply B].
      intros s. replace (f4 (x + s)) with (minus (f4 (x + s)) 0) by (unfold minus, plus, opp; cbn; ring). apply (is_derive_minus (fun s => f3 (x + s)) (fun _ => f3 x)); [apply Sh, D3|apply (@is_derive_const R_AbsRing R_NormedModule)]. }
    assert (R2 : forall s, Rabs (f2 (x + s) - (f2 x + f3 x * s)) <= K * Rabs s ^ 2).
    { apply (grow (fun s => f2 (x + s) - (f2 x + f3 x * s)) (fun s => f3 (x + s) - f3 x) K 1 K0); [rewrite Rplus_0_r; ring| |exact R1].
      intros s. apply (is_derive_minus (fun s => f2 (x + s)) (fun s => f2 x + f3 x * s)); [apply Sh, D2|]. auto_derive; [auto|ring]. }
    assert (R3 : forall s, Rabs (f1 (x + s) - (f1 x + f2 x * s + / 2 * f3 x * s ^ 2)) <= K * Rabs s ^ 3).
    { apply (grow (fun s => f1 (x + s) - (f1 x + f2 x * s + / 2 * f3 x * s ^ 2)) (fun s => f2 (x + s) - (f2 x + f3 x * s)) K 2 K0); [rewrite Rplus_0_r; ring| |exact R2].
      intros s. apply (is_derive_minus (fun s => f1 (x + s)) (fun s => f1 x + f2 x * s + / 2 * f3 x * s ^ 2)); [apply Sh, D1|]. auto_derive; [auto|field]. }
    assert (R4 : forall s, Rabs (f0 (x + s) - (f0 x + f1 x * s + / 2 * f2 x * s ^ 2 + / 6 * f3 x * s ^ 3)) <= K * Rabs s ^ 4).
    { apply (grow (fun s => f0 (x + s) - (f0 x + f1 x * s + / 2 * f2 x * s ^ 2 + / 6 * f3 x * s ^ 3)) (fun s => f1 (x + s) - (f1 x + f2 x * s + / 2 * f3 x * s ^ 2)) K 3 K0); [rewrite Rplus_0_r; ring| |exact R3].
      intros s. apply (is_derive_minus (fun s => f0 (x + s)) (fun s => f0 x + f1 x * s + / 2 * f2 x * s ^ 2 + / 6 * f3 x * s ^ 3)); [apply Sh, D0|]. auto_derive; [auto|field]. }
    specialize (R4 z). replace (f0 x + f1 x * z + / 2 * (f2 x * z * z) + / 6 * (f3 x * z * z * z)) with (f0 x + f1 x * z + / 2 * f2 x * z ^ 2 + / 6 * f3 x * z ^ 3) by ring.
    eapply Rle_trans; [exact R4|]. apply Rmult_le_compat_l; [exact K0|]. apply pow_incr. split; [apply Rabs_pos|exact Hz].
Qed.
Lemma scalar_lip f0 f1 K : 0 <= K -> (forall x, is_derive f0 x (f1 x)) -> (forall x, Rabs (f1 x) <= K) -> lipschitz 1 (one f0) K.
Proof.
  intros K0 D0 B u v c H i Hi. unfold vsub, one. specialize (H 0%nat ltac:(lia)). unfold vsub in H.
  pose proof (grow (fun s => f0 (v 0%nat + s) - f0 (v 0%nat)) (fun s => f1 (v 0%nat + s)) K 0 K0) as G. cbv beta in G. rewrite Rplus_0_r in G. specialize (G ltac:(ring)).
  assert (Dg : forall s, is_derive (fun s => f0 (v 0%nat + s) - f0 (v 0%nat)) s (f1 (v 0%nat + s))).
  { intros s. replace (f1 (v 0%nat + s)) with (minus (scal 1 (f1 (v 0%nat + s))) 0) by (unfold minus, plus, opp, scal; cbn; unfold mult; cbn; ring). apply (is_derive_minus (fun s => f0 (v 0%nat + s)) (fun _ => f0 (v 0%nat))); [|apply (@is_derive_const R_AbsRing R_NormedModule)].
    apply (is_derive_comp f0 (fun s => v 0%nat + s)); [apply D0|]. auto_derive; auto. }
  specialize (G Dg ltac:(intros s; rewrite pow_O, Rmult_1_r; apply B) (u 0%nat - v 0%nat)). replace (v 0%nat + (u 0%nat - v 0%nat)) with (u 0%nat) in G by ring. rewrite pow_1 in G. eapply Rle_trans; [exact G|]. apply Rmult_le_compat_l; assumption.
Qed.
(** y' = f0 y with four bounded derivatives *)
Theorem C112_rk4_scalar : forall f0 f1 f2 f3 f4 K T phi, 0 <= T ->
  (forall x, is_derive f0 x (f1 x)) -> (forall x, is_derive f1 x (f2 x)) -> (forall x, is_derive f2 x (f3 x)) -> (forall x, is_derive f3 x (f4 x)) ->
  (forall x, Rabs (f1 x) <= K /\ Rabs (f2 x) <= K /\ Rabs (f3 x) <= K /\ Rabs (f4 x) <= K) -> (forall t, 0 <= t <= T -> is_derive phi t (f0 (phi t))) ->
  exists C, forall h n, 0 < h <= 1 -> INR n * h <= T -> Rabs (rk4_steps 1 (fun v _ => f0 (v 0%nat)) (fun _ => phi 0) h n 0%nat - phi (INR n * h)) <= C * h ^ 4.
Proof.
  intros f0 f1 f2 f3 f4 K T phi HT D0 D1 D2 D3 B Sol. assert (K0 : 0 <= K) by (eapply Rle_trans; [apply Rabs_pos|apply (B 0)]).
  destruct (C112_rk4_steps 1 (one f0) K T (fun t _ => phi t) (fun t u _ => f1 (phi t) * u 0%nat) (fun t u v _ => f2 (phi t) * u 0%nat * v 0%nat) (fun t u v w _ => f3 (phi t) * u 0%nat * v 0%nat * w 0%nat) K) as (C & H).
  - exact HT.
  - apply (scalar_lip f0 f1 K K0 D0). intros x. apply B.
  - intros t i Ht Hi. apply (Sol t Ht).
  - intros t Ht. apply (scalar_taylor f0 f1 f2 f3 f4 K K0 D0 D1 D2 D3 B (fun _ => phi t)).
  - exists C. intros h n Hh Hn. apply (H h n 0%nat Hh Hn). lia.
Qed.

(** * The hypotheses can be met *)
(** y' = cos(y)^2 from 0, whose solution is the arc tangent *)
Example C112_nontrivial : exists C, forall h n, 0 < h <= 1 -> INR n * h <= 5 -> Rabs (rk4_steps 1 (fun v _ => cos (v 0%nat) * cos (v 0%nat)) (fun _ => atan 0) h n 0%nat - atan (INR n * h)) <= C * h ^ 4.
Proof.
  apply (C112_rk4_scalar (fun x => cos x * cos x) (fun x => - sin (2 * x)) (fun x => - (2 * cos (2 * x))) (fun x => 4 * sin (2 * x)) (fun x => 8 * cos (2 * x)) 8 5 atan); [lra| | | | | |].
  - intros x. auto_derive; [auto|]. rewrite sin_2a. ring.
  - intros x. auto_derive; [auto|]. ring.
  - intros x. auto_derive; [auto|]. ring.
  - intros x. auto_derive; [auto|]. ring.
  - intros x. pose proof (SIN_bound (2 * x)). pose proof (COS_bound (2 * x)). repeat split; apply Rabs_le; lra.
  - intros t _. cbv beta. replace (cos (atan t) * cos (atan t)) with (/ (1 + Rsqr t)); [apply is_derive_atan|]. rewrite cos_atan.
    assert (0 < 1 + Rsqr t) by (pose proof (Rle_0_sqr t); lra). replace (1 / sqrt (1 + Rsqr t) * (1 / sqrt (1 + Rsqr t))) with (/ (sqrt (1 + Rsqr t) * sqrt (1 + Rsqr t))) by (field; apply Rgt_not_eq, sqrt_lt_R0; assumption). rewrite sqrt_sqrt by lra. reflexivity.
Qed.
(** the oscillator x' = v, v' = -x, a system of two equations *)
Definition osc : vecR -> vecR := fun v i => match i with 0%nat => v 1%nat | _ => - v 0%nat end.
Definition osc_path (t : R) : vecR := fun i => match i with 0%nat => sin t | _ => cos t end.
Lemma osc_lip : lipschitz 2 osc 1.
Proof.
  intros u v c H i Hi. unfold vsub, osc in *. pose proof (H 0%nat ltac:(lia)) as H0. pose proof (H 1%nat ltac:(lia)) as H1. destruct i as [|i]; [lra|]. replace (- u 0%nat - - v 0%nat) with (- (u 0%nat - v 0%nat)) by ring. rewrite Rabs_Ropp. lra.
Qed.
Lemma osc_sol T : solves 2 osc T osc_path.
Proof. intros t i Ht Hi. unfold osc_path, osc. destruct i as [|i]; auto_derive; auto; ring. Qed.
Lemma osc_taylor y : taylor3 2 osc y osc (fun _ _ _ => 0) (fun _ _ _ _ => 0) 1.
Proof.
  assert (Z : forall c, 0 <= c -> bnd 2 (fun _ => 0) c) by (intros c Hc i _; rewrite Rabs_R0; exact Hc). assert (P : forall u a, bnd 2 u a -> 0 <= a) by (intros u a B; eapply Rle_trans; [apply Rabs_pos|apply (B 0%nat); lia]).
  constructor; intros; try (cbv beta; lra).
  - destruct i; unfold osc, vadd; ring.
  - destruct i; unfold osc, vscl; ring.
  - intros i Hi. unfold osc. pose proof (H 0%nat ltac:(lia)). pose proof (H 1%nat ltac:(lia)). destruct i; [lra|]. rewrite Rabs_Ropp. lra.
  - apply Z. repeat apply Rmult_le_pos; try lra; eapply P; eassumption.
  - apply Z. repeat apply Rmult_le_pos; try lra; eapply P; eassumption.
  - intros i Hi. replace (osc (vadd y d) i - (osc y i + osc d i + / 2 * 0 + / 6 * 0)) with 0 by (destruct i; unfold osc, vadd; ring). rewrite Rabs_R0. apply Rmult_le_pos; [lra|]. apply pow_le. eapply P; eassumption.
Qed.
Example C112_system_nontrivial : exists C, forall h n i, 0 < h <= 1 -> INR n * h <= 10 -> (i < 2)%nat -> Rabs (rk4_steps 2 osc (osc_path 0) h n i - osc_path (INR n * h) i) <= C * h ^ 4.
Proof. apply (C112_rk4_steps 2 osc 1 10 osc_path (fun _ => osc) (fun _ _ _ _ => 0) (fun _ _ _ _ _ => 0) 1); [lra|exact osc_lip|apply osc_sol|intros t _; apply osc_taylor]. Qed.
Example C112_euler_nontrivial : exists C, forall h n i, 0 < h <= 1 -> INR n * h <= 10 -> (i < 2)%nat -> Rabs (euler_steps 2 osc (osc_path 0) h n i - osc_path (INR n * h) i) <= C * h.
Proof. apply (C112_euler_first_order 2 osc 1 10 osc_path); [lra|exact osc_lip|apply osc_sol]. Qed.
