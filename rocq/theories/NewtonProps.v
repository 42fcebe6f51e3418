(** C73: Newton's method. *)
From Coq Require Import Reals Lra Lia Arith.
From Verif Require Import Scalar NumModel RkProps SolidProofs.
From Coquelicot Require Import Coquelicot.
Local Open Scope R_scope.

(** Specification, for any scalar type: the sequence of guesses. *)
Section AnyScalar.
Context {F : Type} (o : ops F) (f df : F -> F) (tol : F).
Fixpoint guesses (x0 : F) (n : nat) : F :=
  match n with O => x0 | S m => sub o (guesses x0 m) (div o (f (guesses x0 m)) (df (guesses x0 m))) end.
Definition flat (x : F) : Prop := eqb o (df x) (Scalar.zero o) = true.
Definition small_step (x0 : F) (n : nat) : Prop := ltb o (absf o (sub o (guesses x0 (S n)) (guesses x0 n))) tol = true.
(** iteration n goes on to the next *)
Definition goes_on (x0 : F) (n : nat) : Prop := ~ flat (guesses x0 n) /\ ~ small_step x0 n.
End AnyScalar.

Section Trace.
Context {F : Type} (o : ops F) (f df : F -> F) (tol : F).
Lemma guesses_shift x0 n : guesses o f df (guesses o f df x0 1) n = guesses o f df x0 (S n).
Proof. induction n as [|n IH]; [reflexivity|]. cbn [guesses] in *. rewrite IH. reflexivity. Qed.
Lemma small_shift x0 n : small_step o f df tol (guesses o f df x0 1) n <-> small_step o f df tol x0 (S n).
Proof. unfold small_step. rewrite !guesses_shift. tauto. Qed.
Lemma goes_shift x0 n : goes_on o f df tol (guesses o f df x0 1) n <-> goes_on o f df tol x0 (S n).
Proof. unfold goes_on. rewrite small_shift, guesses_shift. tauto. Qed.
End Trace.

(** C73 (any scalar type, NaN included).  The answer is one of three, each described completely:
    a root is the end of the first step shorter than the tolerance, reached with a derivative that is
    not zero, after fewer than max_iterations full steps; the derivative error names a guess with zero
    derivative before any short step; and the iteration error means no short step at all. *)
Theorem C73_outcomes : forall F (o : ops F) f df tol max x0,
  (forall x, newton o tol max x0 f df = Root x <->
     exists n, (n < max)%nat /\ (forall k, (k < n)%nat -> goes_on o f df tol x0 k) /\
       ~ flat o df (guesses o f df x0 n) /\ small_step o f df tol x0 n /\ x = guesses o f df x0 (S n)) /\
  (newton o tol max x0 f df = DerivativeZero <->
     exists n, (n < max)%nat /\ (forall k, (k < n)%nat -> goes_on o f df tol x0 k) /\ flat o df (guesses o f df x0 n)) /\
  (newton o tol max x0 f df = MaxIterations <-> forall k, (k < max)%nat -> goes_on o f df tol x0 k).
Proof.
  intros F o f df tol max. induction max as [|max IH]; intros x0.
  - cbn [newton]. split; [|split].
    + intros x. split; [discriminate|]. intros (n & H & _). lia.
    + split; [discriminate|]. intros (n & H & _). lia.
    + split; [intros _ k H; lia|reflexivity].
  - cbn [newton]. cbv zeta.
    assert (FL : flat o df (guesses o f df x0 0) <-> eqb o (df x0) (Scalar.zero o) = true) by reflexivity.
    assert (SM : small_step o f df tol x0 0 <-> ltb o (absf o (sub o (sub o x0 (div o (f x0) (df x0))) x0)) tol = true) by reflexivity.
    destruct (eqb o (df x0) (Scalar.zero o)) eqn:E; [|destruct (ltb o (absf o (sub o (sub o x0 (div o (f x0) (df x0))) x0)) tol) eqn:L].
    + assert (FT : flat o df (guesses o f df x0 0)) by (apply FL; reflexivity).
      assert (NG : ~ goes_on o f df tol x0 0) by (intros [A _]; tauto). split; [|split].
      * intros x. split; [discriminate|]. intros (n & _ & G & N & _). destruct n; [tauto|]. exfalso. apply NG, G. lia.
      * split; [|reflexivity]. intros _. exists 0%nat. split; [lia|]. split; [intros k Hk; lia|exact FT].
      * split; [discriminate|]. intros G. exfalso. apply NG, G. lia.
    + assert (NF : ~ flat o df (guesses o f df x0 0)) by (intros A; apply FL in A; discriminate).
      assert (ST : small_step o f df tol x0 0) by (apply SM; reflexivity).
      assert (NG : ~ goes_on o f df tol x0 0) by (intros [_ A]; tauto). split; [|split].
      * intros x. split.
        -- intros Q. injection Q as Q. exists 0%nat. split; [lia|]. split; [intros k Hk; lia|]. split; [exact NF|]. split; [exact ST|]. symmetry. exact Q.
        -- intros (n & _ & G & _ & _ & X). destruct n; [rewrite X; reflexivity|]. exfalso. apply NG, G. lia.
      * split; [discriminate|]. intros (n & _ & G & A). destruct n; [tauto|]. exfalso. apply NG, G. lia.
      * split; [discriminate|]. intros G. exfalso. apply NG, G. lia.
    + assert (NF : ~ flat o df (guesses o f df x0 0)) by (intros A; apply FL in A; discriminate).
      assert (NS : ~ small_step o f df tol x0 0) by (intros A; apply SM in A; discriminate).
      assert (G0 : goes_on o f df tol x0 0) by (split; assumption).
      set (x1 := sub o x0 (div o (f x0) (df x0))) in *. assert (X1 : x1 = guesses o f df x0 1) by reflexivity.
      destruct (IH x1) as (R1 & D1 & M1). rewrite X1 in R1, D1, M1 |- *. clear IH X1.
      assert (SH : forall n, (forall k, (k < n)%nat -> goes_on o f df tol (guesses o f df x0 1) k) <-> (forall k, (k < S n)%nat -> goes_on o f df tol x0 k)).
      { intros n. split; intros G k Hk; [destruct k; [exact G0|apply goes_shift, G; lia]|apply goes_shift, G; lia]. }
      split; [|split].
      * intros x. rewrite R1. split.
        -- intros (n & H & G & A & B & X). exists (S n). split; [lia|]. split; [apply SH, G|]. split; [rewrite <- guesses_shift; exact A|].
           split; [apply small_shift, B|]. rewrite <- guesses_shift. exact X.
        -- intros (n & H & G & A & B & X). destruct n; [tauto|]. exists n. split; [lia|]. split; [apply SH, G|]. split; [rewrite guesses_shift; exact A|].
           split; [apply small_shift, B|]. rewrite guesses_shift. exact X.
      * rewrite D1. split.
        -- intros (n & H & G & A). exists (S n). split; [lia|]. split; [apply SH, G|]. rewrite <- guesses_shift. exact A.
        -- intros (n & H & G & A). destruct n; [tauto|]. exists n. split; [lia|]. split; [apply SH, G|]. rewrite guesses_shift. exact A.
      * rewrite M1. apply SH.
Qed.

(** * Exact arithmetic *)
Notation newtonR := (newton Rops).
Notation guessR := (guesses Rops).
Lemma flatR df x : flat Rops df x <-> df x = 0.
Proof. unfold flat. cbn [eqb Scalar.zero Rops]. unfold Reqb. destruct (Req_EM_T (df x) 0); split; intros; auto; try discriminate; contradiction. Qed.
Lemma smallR f df tol x0 n : small_step Rops f df tol x0 n <-> Rabs (guessR f df x0 (S n) - guessR f df x0 n) < tol.
Proof. unfold small_step. cbn [ltb absf sub Rops]. unfold Rltb. destruct (Rlt_dec _ tol); split; intros; auto; try discriminate; contradiction. Qed.

(** Taylor with a Lipschitz slope *)
Lemma taylor_lip (f f' : R -> R) L x y : (forall t, is_derive f t (f' t)) -> (forall s t, Rabs (f' s - f' t) <= L * Rabs (s - t)) ->
  Rabs (f y - f x - f' x * (y - x)) <= L / 2 * (y - x) ^ 2.
Proof.
  intros D Lp. set (s := Rabs (y - x)). assert (S0 : 0 <= s) by apply Rabs_pos.
  (* along the segment, from 0 to s, in the direction e *)
  set (e := if Rle_dec x y then 1 else -1).
  assert (E2 : e * e = 1) by (unfold e; destruct (Rle_dec x y); ring).
  assert (Ye : y = x + e * s). { unfold e, s. destruct (Rle_dec x y); [rewrite Rabs_pos_eq|rewrite Rabs_left]; lra. }
  assert (DF : forall t, is_derive (fun t => f (x + e * t)) t (e * f' (x + e * t))).
  { intros t. evar_last; [apply (is_derive_comp f (fun t => x + e * t) t (f' (x + e * t)) e); [apply D|auto_derive; auto; ring]|]. reflexivity. }
  assert (DG : forall t, is_derive (fun t => f (x + e * t) - f' x * (e * t)) t (e * f' (x + e * t) - f' x * e)).
  { intros t. apply (is_derive_minus (fun t => f (x + e * t)) (fun t => f' x * (e * t))); [apply DF|]. auto_derive; auto. ring. }
  assert (B : forall t, 0 <= t -> - (L * t) <= e * f' (x + e * t) - f' x * e <= L * t).
  { intros t T. pose proof (Lp (x + e * t) x) as Q. replace (x + e * t - x) with (e * t) in Q by ring.
    rewrite Rabs_mult, (Rabs_pos_eq t) in Q by auto.
    assert (Ae : Rabs e = 1) by (unfold e; destruct (Rle_dec x y); [apply Rabs_R1|rewrite Rabs_left; lra]).
    rewrite Ae, Rmult_1_l in Q. replace (e * f' (x + e * t) - f' x * e) with (e * (f' (x + e * t) - f' x)) by ring.
    apply Rabs_le_inv. rewrite Rabs_mult, Ae. lra. }
  assert (Sq : (y - x) ^ 2 = s ^ 2) by (rewrite Ye; replace (x + e * s - x) with (e * s) by ring; replace ((e * s) ^ 2) with (e * e * s ^ 2) by ring; rewrite E2; ring).
  rewrite Sq. replace (f' x * (y - x)) with (f' x * (e * s)) by (rewrite Ye; ring). rewrite Ye. apply Rabs_le. split.
  - assert (G := grow (fun t => f (x + e * t) - f' x * (e * t) + L / 2 * t ^ 2) (fun t => e * f' (x + e * t) - f' x * e + L * t) s S0).
    cbv beta in G. rewrite !Rmult_0_r, Rplus_0_r in G. assert (f x - 0 + L / 2 * 0 ^ 2 <= f (x + e * s) - f' x * (e * s) + L / 2 * s ^ 2); [|lra].
    rewrite ?Rmult_0_r in *. apply G.
    + intros t _. apply (is_derive_plus (fun t => f (x + e * t) - f' x * (e * t)) (fun t => L / 2 * t ^ 2)); [apply DG|auto_derive; auto; field].
    + intros t [T _]. pose proof (B t T). lra.
  - assert (G := grow (fun t => L / 2 * t ^ 2 - (f (x + e * t) - f' x * (e * t))) (fun t => L * t - (e * f' (x + e * t) - f' x * e)) s S0).
    cbv beta in G. rewrite !Rmult_0_r, Rplus_0_r in G. assert (L / 2 * 0 ^ 2 - (f x - 0) <= L / 2 * s ^ 2 - (f (x + e * s) - f' x * (e * s))); [|lra].
    rewrite ?Rmult_0_r in *. apply G.
    + intros t _. apply (is_derive_minus (fun t => L / 2 * t ^ 2) (fun t => f (x + e * t) - f' x * (e * t))); [auto_derive; auto; field|apply DG].
    + intros t [T _]. pose proof (B t T). lra.
Qed.

(** A reported root is an approximate root: with the true derivative, Lipschitz with constant L, the
    residual is at most L tol^2 / 2. *)
Theorem C73_residual : forall f f' L tol max x0 x,
  (forall t, is_derive f t (f' t)) -> (forall s t, Rabs (f' s - f' t) <= L * Rabs (s - t)) ->
  newtonR tol max x0 f f' = Root x -> Rabs (f x) <= L / 2 * tol ^ 2.
Proof.
  intros f f' L tol max x0 x D Lp H. apply (proj1 (C73_outcomes R Rops f f' tol max x0)) in H. destruct H as (n & _ & _ & A & B & ->).
  rewrite flatR in A. apply smallR in B. set (g := guessR f f' x0 n) in *. assert (E : guessR f f' x0 (S n) = g - f g / f' g) by reflexivity. rewrite E in *.
  pose proof (taylor_lip f f' L g (g - f g / f' g) D Lp) as T. replace (f' g * (g - f g / f' g - g)) with (- f g) in T by (field; exact A).
  assert (U : forall p q, p - q - - q = p) by (intros; ring). rewrite U in T. eapply Rle_trans; [exact T|].
  assert (L0 : 0 <= L). { pose proof (Lp 1 0) as Q. replace (1 - 0) with 1 in Q by ring. rewrite Rabs_R1 in Q. pose proof (Rabs_pos (f' 1 - f' 0)). lra. }
  apply Rmult_le_compat_l; [lra|]. rewrite <- pow2_abs. apply pow_incr. split; [apply Rabs_pos|lra].
Qed.

(** In general a reported root need not be one: exp(1000 x) has no zero, its true derivative is passed,
    and a root is reported for the tolerance 1/100. *)
Theorem C73_root_refuted : exists f f' tol max x0 x, 0 < tol /\ (forall t, is_derive f t (f' t)) /\ (forall t, 0 < f t) /\ newtonR tol max x0 f f' = Root x.
Proof.
  exists (fun t => exp (1000 * t)), (fun t => 1000 * exp (1000 * t)), (/ 100), 1%nat, 0, (0 - exp (1000 * 0) / (1000 * exp (1000 * 0))).
  split; [lra|]. split; [intros t; auto_derive; auto; ring|]. split; [intros t; apply exp_pos|].
  apply (proj1 (C73_outcomes R Rops _ _ _ _ _)). exists 0%nat. split; [lia|]. split; [intros k Hk; lia|].
  rewrite flatR, smallR. cbn [guesses sub div Rops]. pose proof (exp_pos (1000 * 0)) as P. split; [lra|]. split; [|reflexivity].
  replace (0 - exp (1000 * 0) / (1000 * exp (1000 * 0)) - 0) with (- / 1000) by (field; lra). rewrite Rabs_Ropp, Rabs_pos_eq; lra.
Qed.

(** Linear functions: the root, exactly, in at most two iterations, from any start. *)
Theorem C73_linear : forall a b tol max x0, a <> 0 -> 0 < tol -> (2 <= max)%nat ->
  newtonR tol max x0 (fun x => a * x + b) (fun _ => a) = Root (- b / a).
Proof.
  intros a b tol max x0 A T M. apply (proj1 (C73_outcomes R Rops _ _ _ _ _)).
  assert (E : forall n, guessR (fun x => a * x + b) (fun _ => a) x0 (S n) = - b / a).
  { intros n. cbn [guesses sub div Rops]. field. exact A. }
  destruct (Rlt_dec (Rabs (- b / a - x0)) tol) as [L|L].
  - exists 0%nat. split; [lia|]. split; [intros k Hk; lia|]. rewrite flatR, smallR, E. cbn [guesses]. tauto.
  - exists 1%nat. split; [lia|]. split; [|rewrite flatR, smallR, !E; split; [exact A|]; split; [|reflexivity]; unfold Rminus; rewrite Rplus_opp_r, Rabs_R0; exact T].
    intros k Hk. assert (k = 0%nat) as -> by lia. unfold goes_on. rewrite flatR, smallR, E. cbn [guesses]. tauto.
Qed.

(** Convergence.  Near a root where the slope is at least m in size and Lipschitz with constant L, with
    L |x0 - r| <= m, the error at least halves at every step, so enough iterations report a root, and
    it is within the square of the last error. *)
Section Converge.
Context (f f' : R -> R) (L m r : R) (D : forall t, is_derive f t (f' t)) (Lp : forall s t, Rabs (f' s - f' t) <= L * Rabs (s - t))
  (Hr : f r = 0) (M0 : 0 < m).
Lemma L_pos : 0 <= L.
Proof. pose proof (Lp 1 0) as Q. replace (1 - 0) with 1 in Q by ring. rewrite Rabs_R1 in Q. pose proof (Rabs_pos (f' 1 - f' 0)). lra. Qed.
Lemma step_error x : m <= Rabs (f' x) -> Rabs (x - f x / f' x - r) <= L / (2 * m) * (x - r) ^ 2.
Proof.
  intros B. assert (N : f' x <> 0) by (intros Z; rewrite Z, Rabs_R0 in B; lra).
  pose proof (taylor_lip f f' L x r D Lp) as T. rewrite Hr in T.
  replace (x - f x / f' x - r) with ((0 - f x - f' x * (r - x)) * / f' x) by (field; exact N). rewrite Rabs_mult, Rabs_inv.
  replace ((r - x) ^ 2) with ((x - r) ^ 2) in T by ring. pose proof (pow2_ge_0 (x - r)) as P. pose proof L_pos as LP.
  assert (I : 0 < / Rabs (f' x)) by (apply Rinv_0_lt_compat; lra). assert (I2 : / Rabs (f' x) <= / m) by (apply Rinv_le_contravar; lra).
  replace (L / (2 * m) * (x - r) ^ 2) with (L / 2 * (x - r) ^ 2 * / m) by (field; lra).
  apply Rmult_le_compat; [apply Rabs_pos|lra|exact T|exact I2].
Qed.
Context (x0 : R) (S0 : L * Rabs (x0 - r) <= m) (B0 : forall x, Rabs (x - r) <= Rabs (x0 - r) -> m <= Rabs (f' x)).
Lemma halves n : Rabs (guessR f f' x0 n - r) <= Rabs (x0 - r) / 2 ^ n.
Proof.
  assert (P : forall n, 0 < 2 ^ n) by (intros k; apply pow_lt; lra).
  induction n as [|n IH]; [cbn; lra|]. cbn [guesses sub div Rops]. set (g := guessR f f' x0 n) in *.
  assert (Q : Rabs (g - r) <= Rabs (x0 - r)).
  { eapply Rle_trans; [exact IH|]. assert (1 <= 2 ^ n) by (apply pow_R1_Rle; lra). pose proof (Rabs_pos (x0 - r)).
    apply (Rmult_le_reg_r (2 ^ n)); [apply P|]. unfold Rdiv. rewrite Rmult_assoc, Rinv_l by (pose proof (P n); lra). nra. }
  eapply Rle_trans; [apply step_error, B0, Q|]. rewrite <- pow2_abs. set (e := Rabs (g - r)) in *. pose proof (Rabs_pos (g - r)) as EP. fold e in EP.
  pose proof L_pos as LP. assert (Z : L / (2 * m) * e ^ 2 <= e / 2).
  { apply (Rmult_le_reg_r (2 * m)); [lra|]. replace (L / (2 * m) * e ^ 2 * (2 * m)) with (L * e * e) by (field; lra). replace (e / 2 * (2 * m)) with (m * e) by field.
    apply Rmult_le_compat_r; [exact EP|]. eapply Rle_trans; [|exact S0]. apply Rmult_le_compat_l; auto. }
  eapply Rle_trans; [exact Z|]. replace (Rabs (x0 - r) / 2 ^ S n) with (Rabs (x0 - r) / 2 ^ n / 2) by (cbn [pow]; field; pose proof (P n); lra). lra.
Qed.
End Converge.
Theorem C73_converges : forall f f' L m r x0 tol max,
  (forall t, is_derive f t (f' t)) -> (forall s t, Rabs (f' s - f' t) <= L * Rabs (s - t)) ->
  f r = 0 -> 0 < m -> L * Rabs (x0 - r) <= m -> (forall x, Rabs (x - r) <= Rabs (x0 - r) -> m <= Rabs (f' x)) ->
  2 * Rabs (x0 - r) / 2 ^ (max - 1) < tol -> (1 <= max)%nat ->
  exists x n, newtonR tol max x0 f f' = Root x /\ (n < max)%nat /\ x = guessR f f' x0 (S n) /\
    Rabs (x - r) <= Rabs (x0 - r) / 2 ^ S n /\ Rabs (x - r) <= L / (2 * m) * (guessR f f' x0 n - r) ^ 2.
Proof.
  intros f f' L m r x0 tol max D Lp Hr M0 S0 B0 T M.
  assert (Hv := halves f f' L m r D Lp Hr M0 x0 S0 B0).
  assert (P : forall n, 0 < 2 ^ n) by (intros k; apply pow_lt; lra).
  assert (In : forall n, Rabs (guessR f f' x0 n - r) <= Rabs (x0 - r)).
  { intros n. eapply Rle_trans; [apply Hv|]. assert (1 <= 2 ^ n) by (apply pow_R1_Rle; lra). pose proof (Rabs_pos (x0 - r)).
    apply (Rmult_le_reg_r (2 ^ n)); [apply P|]. unfold Rdiv. rewrite Rmult_assoc, Rinv_l by (pose proof (P n); lra). nra. }
  assert (NF : forall n, ~ flat Rops f' (guessR f f' x0 n)).
  { intros n Z. apply flatR in Z. pose proof (B0 _ (In n)) as B. rewrite Z, Rabs_R0 in B. lra. }
  assert (St : small_step Rops f f' tol x0 (max - 1)).
  { apply smallR. eapply Rle_lt_trans; [|exact T]. set (n := (max - 1)%nat).
    replace (guessR f f' x0 (S n) - guessR f f' x0 n) with ((guessR f f' x0 (S n) - r) - (guessR f f' x0 n - r)) by ring.
    eapply Rle_trans; [apply Rabs_triang|]. rewrite Rabs_Ropp. pose proof (Hv n) as H1. pose proof (Hv (S n)) as H2.
    assert (Rabs (x0 - r) / 2 ^ S n <= Rabs (x0 - r) / 2 ^ n).
    { replace (Rabs (x0 - r) / 2 ^ S n) with (Rabs (x0 - r) / 2 ^ n / 2) by (cbn [pow]; field; pose proof (P n); lra).
      assert (0 <= Rabs (x0 - r) / 2 ^ n) by (apply Rmult_le_pos; [apply Rabs_pos|left; apply Rinv_0_lt_compat, P]). lra. }
    replace (2 * Rabs (x0 - r) / 2 ^ n) with (Rabs (x0 - r) / 2 ^ n + Rabs (x0 - r) / 2 ^ n) by (field; pose proof (P n); lra). lra. }
  destruct (newtonR tol max x0 f f') as [x| |] eqn:E.
  - apply (proj1 (C73_outcomes R Rops f f' tol max x0)) in E. destruct E as (n & H & G & A & B & X). exists x, n. split; [reflexivity|]. split; [exact H|]. split; [exact X|].
    split; [rewrite X; apply Hv|]. rewrite X. apply (step_error f f' L m r D Lp Hr M0). apply B0, In.
  - exfalso. apply (proj1 (proj2 (C73_outcomes R Rops f f' tol max x0))) in E. destruct E as (n & _ & _ & A). exact (NF n A).
  - exfalso. pose proof (proj1 (proj2 (proj2 (C73_outcomes R Rops f f' tol max x0))) E) as E'. destruct (E' (max - 1)%nat ltac:(lia)) as [_ A]. exact (A St).
Qed.

(** the hypotheses are met: the square root of 2, from 3/2 *)
Example C73_nontrivial : exists x, newtonR (/ 100) 20 (3 / 2) (fun x => x ^ 2 - 2) (fun x => 2 * x) = Root x /\ Rabs (x ^ 2 - 2) <= 2 / 2 * (/ 100) ^ 2.
Proof.
  assert (D : forall t, is_derive (fun x => x ^ 2 - 2) t (2 * t)) by (intros t; auto_derive; [auto|]; rfield).
  assert (Lp : forall s t, Rabs (2 * s - 2 * t) <= 2 * Rabs (s - t)).
  { intros s t. replace (2 * s - 2 * t) with (2 * (s - t)) by ring. rewrite Rabs_mult, (Rabs_pos_eq 2) by lra. lra. }
  assert (S2 : sqrt 2 * sqrt 2 = 2) by (apply sqrt_sqrt; lra). assert (S0 : 0 <= sqrt 2) by apply sqrt_pos.
  assert (S1 : 14 / 10 <= sqrt 2 <= 3 / 2) by (split; nra).
  destruct (C73_converges (fun x => x ^ 2 - 2) (fun x => 2 * x) 2 1 (sqrt 2) (3 / 2) (/ 100) 20 D Lp) as (x & n & E & _).
  - cbv beta. nra.
  - lra.
  - rewrite Rabs_pos_eq by lra. lra.
  - intros x H. rewrite (Rabs_pos_eq (3 / 2 - sqrt 2)) in H by lra. apply Rabs_le_inv in H. rewrite Rabs_pos_eq; lra.
  - rewrite Rabs_pos_eq by lra. change (20 - 1)%nat with 19%nat. assert (2 ^ 10 <= 2 ^ 19) by (apply Rle_pow; [lra|lia]).
    apply (Rmult_lt_reg_r (2 ^ 19)); [lra|]. unfold Rdiv. rewrite Rmult_assoc, Rinv_l by lra. lra.
  - lia.
  - exists x. split; [exact E|]. apply (C73_residual (fun x => x ^ 2 - 2) (fun x => 2 * x) 2 (/ 100) 20 (3 / 2) x D Lp E).
Qed.
