(** C130: Newton's method in floating point.  Near a simple root the computed guesses close in on the root as fast as the exact ones,
    down to a noise level that the roundings and the errors of the user's function set, and the search then stops. *)
From Coq Require Import ZArith QArith Reals Lra Lia Bool Arith List.
From Coquelicot Require Import Coquelicot.
From Flocq Require Import Core BinarySingleNaN.
From Verif Require Import Scalar NumModel FloatModel RoundProps StatsFloatModel StatsFloatProps InterpFloatProps NewtonProps OdeRoundProps.
Local Open Scope R_scope.

(** * Specification *)
(** within rho of r, the computed function and slope are finite and within delta and delta' of the true ones *)
Definition evaluated_near {prec emax} (f f' : R -> R) (fF dF : binary_float prec emax -> binary_float prec emax) (r rho delta delta' : R) : Prop :=
  forall x, is_finite x = true -> Rabs (B2R x - r) <= rho ->
    is_finite (fF x) = true /\ is_finite (dF x) = true /\ Rabs (B2R (fF x) - f (B2R x)) <= delta /\ Rabs (B2R (dF x) - f' (B2R x)) <= delta'.
(** the error of the computed quotient before it is rounded, and of the next guess, for corrections of size at most 3/2 rho *)
Definition quotient_error (m rho delta delta' : R) : R := 2 / m * (delta + 3 / 2 * rho * delta').
Definition noise (prec emax : Z) (m r rho delta delta' : R) : R :=
  (1 + unit prec) * ((1 + unit prec) * quotient_error m rho delta delta' + unit prec * (3 / 2 * rho) + tiny prec emax) + unit prec * (Rabs r + rho / 2).

Section Width.
Context (prec emax : Z) {P : Prec_gt_0 prec} {M : Prec_lt_emax prec emax}.
Local Notation fl := (binary_float prec emax).
Local Notation u := (unit prec).
Local Notation eta := (tiny prec emax).
Local Notation o := (float_ops prec emax).
Local Notation rd := (round radix2 (SpecFloat.fexp prec emax) ZnearestE).
Local Instance vexp : Valid_exp (SpecFloat.fexp prec emax) := fexp_correct prec emax P.
Local Notation up := (u_pos prec).
Local Notation ep := (eta_pos prec emax).

Section Near.
Context (f f' : R -> R) (L m r rho delta delta' : R) (fF dF : fl -> fl).
Context (D : forall t, is_derive f t (f' t)) (Lp : forall s t, Rabs (f' s - f' t) <= L * Rabs (s - t)) (Hr : f r = 0) (M0 : 0 < m) (Rho : 0 <= rho)
  (S0 : L * rho <= m) (B0 : forall x, Rabs (x - r) <= rho -> m <= Rabs (f' x)) (Ev : evaluated_near f f' fF dF r rho delta delta') (Hd' : delta' <= m / 2)
  (Ns : noise prec emax m r rho delta delta' <= rho / 2) (Room : Rabs r + 2 * rho + noise prec emax m r rho delta delta' <= largest prec emax).
Notation ns := (noise prec emax m r rho delta delta').
Notation Q := (quotient_error m rho delta delta').
Notation guess := (guesses o fF dF).

(** the exact step *)
Lemma exact_step x : Rabs (x - r) <= rho -> Rabs (x - f x / f' x - r) <= L / (2 * m) * (x - r) ^ 2 /\ Rabs (x - f x / f' x - r) <= Rabs (x - r) / 2 /\ Rabs (f x / f' x) <= 3 / 2 * rho.
Proof.
  intros Hx. pose proof (NewtonProps.step_error f f' L m r D Lp Hr M0 x (B0 x Hx)) as S. pose proof (L_pos f' L Lp) as LP. pose proof (Rabs_pos (x - r)) as E0.
  assert (Hf : Rabs (x - f x / f' x - r) <= Rabs (x - r) / 2).
  { eapply Rle_trans; [exact S|]. rewrite <- pow2_abs. set (e := Rabs (x - r)) in *. apply (Rmult_le_reg_r (2 * m)); [lra|]. replace (L / (2 * m) * e ^ 2 * (2 * m)) with (L * e * e) by (field; lra). replace (e / 2 * (2 * m)) with (m * e) by field.
    apply Rmult_le_compat_r; [exact E0|]. eapply Rle_trans; [|exact S0]. apply Rmult_le_compat_l; auto. }
  split; [exact S|split; [exact Hf|]]. replace (f x / f' x) with (x - r - (x - f x / f' x - r)) by ring. eapply Rle_trans; [apply Rabs_triang|]. rewrite Rabs_Ropp. lra.
Qed.
Lemma deltas (x : fl) : is_finite x = true -> Rabs (B2R x - r) <= rho -> 0 <= delta /\ 0 <= delta'.
Proof. intros Fx Hx. destruct (Ev x Fx Hx) as (_ & _ & A & B). split; [eapply Rle_trans; [apply Rabs_pos|exact A]|eapply Rle_trans; [apply Rabs_pos|exact B]]. Qed.
Lemma Q_pos : 0 <= delta -> 0 <= delta' -> 0 <= Q.
Proof.
  intros Hd Hd2. unfold quotient_error. apply Rmult_le_pos; [apply Rmult_le_pos; [lra|left; apply Rinv_0_lt_compat, M0]|]. assert (0 <= 3 / 2 * rho * delta') by (apply Rmult_le_pos; lra). lra.
Qed.
(** the slope is not zero *)
Lemma slope_size (x : fl) : is_finite x = true -> Rabs (B2R x - r) <= rho -> m / 2 <= Rabs (B2R (dF x)).
Proof.
  intros Fx Hx. destruct (Ev x Fx Hx) as (_ & _ & _ & B). pose proof (B0 _ Hx) as B'. pose proof (Rabs_triang (B2R (dF x)) (f' (B2R x) - B2R (dF x))) as T. replace (B2R (dF x) + (f' (B2R x) - B2R (dF x))) with (f' (B2R x)) in T by ring.
  rewrite (Rabs_minus_sym (f' (B2R x))) in T. lra.
Qed.
(** one computed step: finite, and within the noise of the exact one *)
Lemma computed_step (x : fl) : is_finite x = true -> Rabs (B2R x - r) <= rho ->
  is_finite (sub o x (div o (fF x) (dF x))) = true /\ Rabs (B2R (sub o x (div o (fF x) (dF x))) - (B2R x - f (B2R x) / f' (B2R x))) <= ns.
Proof.
  intros Fx Hx. destruct (Ev x Fx Hx) as (Ff & Fd & Ef & Ed). destruct (deltas x Fx Hx) as [Pd Pd']. pose proof (Q_pos Pd Pd') as PQ. pose proof (slope_size x Fx Hx) as Sd. pose proof (B0 _ Hx) as Sf. destruct (exact_step _ Hx) as (_ & St & Sc).
  pose proof up as U. pose proof ep as E. set (X := B2R x) in *. set (a := B2R (fF x)) in *. set (b := B2R (dF x)) in *. set (c := f X / f' X) in *.
  assert (Nb : b <> 0) by (intros Z; rewrite Z, Rabs_R0 in Sd; lra). assert (Nf : f' X <> 0) by (intros Z; rewrite Z, Rabs_R0 in Sf; lra).
  assert (Hq : Rabs (a / b - c) <= Q).
  { replace (a / b - c) with ((a - f X + c * (f' X - b)) * / b) by (unfold c; field; auto). rewrite Rabs_mult, Rabs_inv. unfold quotient_error. rewrite Rmult_comm.
    apply Rmult_le_compat; [left; apply Rinv_0_lt_compat; lra|apply Rabs_pos| |].
    - replace (2 / m) with (/ (m / 2)) by (field; lra). apply Rinv_le_contravar; lra.
    - eapply Rle_trans; [apply Rabs_triang|]. rewrite Rabs_mult, (Rabs_minus_sym (f' X)). apply Rplus_le_compat; [exact Ef|]. apply Rmult_le_compat; auto using Rabs_pos. }
  assert (Hn : Q <= ns). { unfold noise. assert (0 <= u * Q) by (apply Rmult_le_pos; lra). assert (0 <= u * (u * Q)) by (apply Rmult_le_pos; lra). assert (0 <= u * (3 / 2 * rho)) by (apply Rmult_le_pos; lra). assert (0 <= u * (u * (3 / 2 * rho))) by (apply Rmult_le_pos; lra). assert (0 <= u * eta) by (apply Rmult_le_pos; lra).
    pose proof (Rabs_pos r). assert (0 <= u * (Rabs r + rho / 2)) by (apply Rmult_le_pos; lra). lra. }
  assert (Fq : is_finite (div o (fF x) (dF x)) = true).
  { apply (div_ok prec emax); [exact Nb|exact Ff|]. fold a b. replace (a / b) with (a / b - c + c) by ring. eapply Rle_trans; [apply Rabs_triang|]. pose proof (Rabs_pos r). lra. }
  destruct (div_fin prec emax _ _ Nb Fq) as [_ Vq]. fold a b in Vq. destruct (rd_err prec emax (a / b)) as (e & d & He & Hd & Rq). rewrite Rq in Vq. set (q := B2R (div o (fF x) (dF x))) in *.
  assert (Hqc : Rabs (q - c) <= (1 + u) * Q + u * (3 / 2 * rho) + eta).
  { rewrite Vq. replace (a / b * (1 + e) + d - c) with ((a / b - c) * (1 + e) + (c * e + d)) by ring. eapply Rle_trans; [apply Rabs_triang|]. eapply Rle_trans; [apply Rplus_le_compat_l, Rabs_triang|]. rewrite !Rabs_mult.
    assert (A1 : Rabs (1 + e) <= 1 + u) by (eapply Rle_trans; [apply Rabs_triang|]; rewrite Rabs_R1; lra).
    assert (Rabs (a / b - c) * Rabs (1 + e) <= Q * (1 + u)) by (apply Rmult_le_compat; auto using Rabs_pos). assert (Rabs c * Rabs e <= 3 / 2 * rho * u) by (apply Rmult_le_compat; auto using Rabs_pos). lra. }
  assert (Hx1 : Rabs (X - c) <= Rabs r + rho / 2). { replace (X - c) with (X - c - r + r) by ring. eapply Rle_trans; [apply Rabs_triang|]. lra. }
  assert (Fs : is_finite (sub o x (div o (fF x) (dF x))) = true).
  { apply (sub_ok prec emax); auto. fold X q. replace (X - q) with (X - c + - (q - c)) by ring. eapply Rle_trans; [apply Rabs_triang|]. rewrite Rabs_Ropp. assert ((1 + u) * Q + u * (3 / 2 * rho) + eta <= ns); [|pose proof (Rabs_pos r); lra].
    unfold noise. set (w := (1 + u) * Q + u * (3 / 2 * rho) + eta). assert (0 <= w) by (eapply Rle_trans; [apply Rabs_pos|exact Hqc]). assert (0 <= u * w) by (apply Rmult_le_pos; lra). pose proof (Rabs_pos r). assert (0 <= u * (Rabs r + rho / 2)) by (apply Rmult_le_pos; lra). lra. }
  split; [exact Fs|]. destruct (sub_fin prec emax _ _ Fs) as (_ & _ & e2 & He2 & ->). fold X q. replace ((X - q) * (1 + e2) - (X - c)) with (- (q - c) * (1 + e2) + (X - c) * e2) by ring.
  eapply Rle_trans; [apply Rabs_triang|]. rewrite !Rabs_mult, Rabs_Ropp. assert (A1 : Rabs (1 + e2) <= 1 + u) by (eapply Rle_trans; [apply Rabs_triang|]; rewrite Rabs_R1; lra).
  unfold noise. rewrite (Rmult_comm (1 + u)), (Rmult_comm u (Rabs r + rho / 2)). apply Rplus_le_compat; apply Rmult_le_compat; auto using Rabs_pos.
Qed.

(** * The guesses *)
Theorem C130_guesses (x0 : fl) : is_finite x0 = true -> Rabs (B2R x0 - r) <= rho -> forall n,
  is_finite (guess x0 n) = true /\ Rabs (B2R (guess x0 n) - r) <= rho /\ Rabs (B2R (guess x0 n) - r) <= rho / 2 ^ n + 2 * ns /\
  Rabs (B2R (guess x0 (S n)) - r) <= L / (2 * m) * (B2R (guess x0 n) - r) ^ 2 + ns.
Proof.
  intros F0 H0. assert (Pn : forall n, 0 < 2 ^ n) by (intros k; apply pow_lt; lra).
  assert (G : forall n, is_finite (guess x0 n) = true /\ Rabs (B2R (guess x0 n) - r) <= rho /\ Rabs (B2R (guess x0 n) - r) <= rho / 2 ^ n + 2 * ns).
  { induction n as [|n (Fn & Bn & En)].
    - cbn [guesses pow]. split; [exact F0|split; [exact H0|]]. destruct (computed_step x0 F0 H0) as [_ C]. pose proof (Rabs_pos (B2R (sub o x0 (div o (fF x0) (dF x0))) - (B2R x0 - f (B2R x0) / f' (B2R x0)))). lra.
    - cbn [guesses]. set (x := guess x0 n) in *. destruct (computed_step x Fn Bn) as [Fs Cs]. destruct (exact_step _ Bn) as (_ & St & _). split; [exact Fs|].
      assert (T : Rabs (B2R (sub o x (div o (fF x) (dF x))) - r) <= ns + Rabs (B2R x - r) / 2).
      { replace (B2R (sub o x (div o (fF x) (dF x))) - r) with (B2R (sub o x (div o (fF x) (dF x))) - (B2R x - f (B2R x) / f' (B2R x)) + (B2R x - f (B2R x) / f' (B2R x) - r)) by ring. eapply Rle_trans; [apply Rabs_triang|]. lra. }
      split; [lra|]. replace (rho / 2 ^ S n) with (rho / 2 ^ n / 2) by (cbn [pow]; field; pose proof (Pn n); lra). lra. }
  intros n. destruct (G n) as (Fn & Bn & En). split; [exact Fn|split; [exact Bn|split; [exact En|]]]. cbn [guesses]. set (x := guess x0 n) in *. destruct (computed_step x Fn Bn) as [Fs Cs]. destruct (exact_step _ Bn) as (St & _ & _).
  replace (B2R (sub o x (div o (fF x) (dF x))) - r) with (B2R x - f (B2R x) / f' (B2R x) - r + (B2R (sub o x (div o (fF x) (dF x))) - (B2R x - f (B2R x) / f' (B2R x)))) by ring. eapply Rle_trans; [apply Rabs_triang|]. lra.
Qed.

(** * The search *)
Lemma not_flat (x : fl) : is_finite x = true -> Rabs (B2R x - r) <= rho -> ~ flat o dF x.
Proof.
  intros Fx Hx Z. unfold flat in Z. pose proof (slope_size x Fx Hx) as S. destruct (Ev x Fx Hx) as (_ & Fd & _). cbn [eqb Scalar.zero float_ops] in Z. rewrite Beqb_correct in Z by (auto; reflexivity).
  destruct (Req_bool_spec (B2R (dF x)) (B2R (B754_zero false : fl))) as [Z'|]; [|discriminate]. cbn [B2R] in Z'. rewrite Z', Rabs_R0 in S. lra.
Qed.
Lemma step_size (x y tol : fl) : is_finite (sub o x y) = true -> is_finite tol = true -> ltb o (absf o (sub o x y)) tol = true <-> Rabs (B2R (sub o x y)) < B2R tol.
Proof.
  intros Fs Ft. cbn [ltb float_ops]. rewrite Bltb_correct by (auto; rewrite abs_fin; exact Fs). rewrite abs_val. destruct (Rlt_bool_spec (Rabs (B2R (sub o x y))) (B2R tol)); split; intros; auto; try discriminate; lra.
Qed.
(** With a tolerance above the noise and enough iterations the search ends at a root: the last guess is within the noise of what
    the last exact step would give, and its distance from the root is bounded by the tolerance alone. *)
Theorem C130_search (x0 tol : fl) max : is_finite x0 = true -> Rabs (B2R x0 - r) <= rho -> is_finite tol = true -> (1 <= max)%nat ->
  (1 + u) * (2 * rho / 2 ^ (max - 1) + 4 * ns) < B2R tol ->
  exists x n, newton o tol max x0 fF dF = Root x /\ (n < max)%nat /\ x = guess x0 (S n) /\ is_finite x = true /\
    Rabs (B2R x - r) <= rho / 2 ^ S n + 2 * ns /\
    Rabs (B2R x - r) <= L / (2 * m) * (4 * B2R tol + 2 * ns) ^ 2 + ns.
Proof.
  intros F0 H0 Ft Mx Tl. pose proof (C130_guesses x0 F0 H0) as G. pose proof up as U. assert (Pn : forall n, 0 < 2 ^ n) by (intros k; apply pow_lt; lra).
  assert (N0 : 0 <= ns). { destruct (computed_step x0 F0 H0) as [_ C]. eapply Rle_trans; [apply Rabs_pos|exact C]. }
  assert (NF : forall n, ~ flat o dF (guess x0 n)) by (intros n; destruct (G n) as (A & B & _); apply not_flat; assumption).
  assert (FS : forall n, is_finite (sub o (guess x0 (S n)) (guess x0 n)) = true).
  { intros n. destruct (G n) as (A & B & _). destruct (G (S n)) as (A' & B' & _). apply (sub_ok prec emax); auto. replace (B2R (guess x0 (S n)) - B2R (guess x0 n)) with (B2R (guess x0 (S n)) - r + - (B2R (guess x0 n) - r)) by ring.
    eapply Rle_trans; [apply Rabs_triang|]. rewrite Rabs_Ropp. pose proof (Rabs_pos r). lra. }
  assert (St : small_step o fF dF tol x0 (max - 1)).
  { set (n := (max - 1)%nat) in *. unfold small_step. apply step_size; [apply FS|exact Ft|]. eapply Rle_lt_trans; [|exact Tl]. destruct (sub_fin prec emax _ _ (FS n)) as (_ & _ & e & He & ->). rewrite Rabs_mult, Rmult_comm.
    assert (A1 : Rabs (1 + e) <= 1 + u) by (eapply Rle_trans; [apply Rabs_triang|]; rewrite Rabs_R1; lra). apply Rmult_le_compat; auto using Rabs_pos.
    replace (B2R (guess x0 (S n)) - B2R (guess x0 n)) with (B2R (guess x0 (S n)) - r + - (B2R (guess x0 n) - r)) by ring. eapply Rle_trans; [apply Rabs_triang|]. rewrite Rabs_Ropp.
    destruct (G n) as (_ & _ & B & _). destruct (G (S n)) as (_ & _ & B' & _). replace (rho / 2 ^ S n) with (rho / 2 ^ n / 2) in B' by (cbn [pow]; field; pose proof (Pn n); lra).
    assert (0 <= rho / 2 ^ n) by (apply Rmult_le_pos; [exact Rho|left; apply Rinv_0_lt_compat, Pn]). replace (2 * rho / 2 ^ n) with (2 * (rho / 2 ^ n)) by (field; pose proof (Pn n); lra). lra. }
  destruct (newton o tol max x0 fF dF) as [x| |] eqn:E.
  - apply (proj1 (C73_outcomes _ o fF dF tol max x0)) in E. destruct E as (n & Hn & _ & _ & B & X). exists x, n. split; [reflexivity|split; [exact Hn|split; [exact X|]]]. destruct (G n) as (Fn & Bn & _ & Qn). destruct (G (S n)) as (F' & B' & E' & _). rewrite X.
    split; [exact F'|split; [exact E'|]]. eapply Rle_trans; [exact Qn|]. apply Rplus_le_compat_r. assert (LP : 0 <= L / (2 * m)) by (apply Rmult_le_pos; [apply (L_pos f' L Lp)|left; apply Rinv_0_lt_compat; lra]).
    apply Rmult_le_compat_l; [exact LP|]. rewrite <- pow2_abs. apply pow_incr. split; [apply Rabs_pos|]. unfold small_step in B. apply step_size in B; [|apply FS|exact Ft].
    destruct (sub_fin prec emax _ _ (FS n)) as (_ & _ & e & He & V). rewrite V, Rabs_mult in B. set (dx := B2R (guess x0 (S n)) - B2R (guess x0 n)) in *.
    assert (Uh : u <= / 2). { unfold unit. pose proof P as Pp. unfold Prec_gt_0 in Pp. apply Rle_trans with (bpow radix2 (-1)); [apply bpow_le; lia|cbn; lra]. }
    assert (Lo : / 2 <= Rabs (1 + e)). { apply Rabs_le_inv in He. rewrite Rabs_pos_eq; lra. } assert (Dx : Rabs dx * / 2 <= Rabs dx * Rabs (1 + e)) by (apply Rmult_le_compat_l; [apply Rabs_pos|exact Lo]).
    destruct (computed_step _ Fn Bn) as [_ Cs]. destruct (exact_step _ Bn) as (_ & Sx & _). set (g := guess x0 n) in *. change (sub o g (div o (fF g) (dF g))) with (guess x0 (S n)) in Cs.
    assert (T1 : Rabs (B2R (guess x0 (S n)) - r) <= ns + Rabs (B2R g - r) / 2).
    { replace (B2R (guess x0 (S n)) - r) with (B2R (guess x0 (S n)) - (B2R g - f (B2R g) / f' (B2R g)) + (B2R g - f (B2R g) / f' (B2R g) - r)) by ring. eapply Rle_trans; [apply Rabs_triang|]. lra. }
    assert (T2 : Rabs (B2R g - r) <= Rabs dx + Rabs (B2R (guess x0 (S n)) - r)).
    { replace (B2R g - r) with (- dx + (B2R (guess x0 (S n)) - r)) by (unfold dx; ring). eapply Rle_trans; [apply Rabs_triang|]. rewrite Rabs_Ropp. lra. }
    lra.
  - exfalso. apply (proj1 (proj2 (C73_outcomes _ o fF dF tol max x0))) in E. destruct E as (n & _ & _ & A). exact (NF n A).
  - exfalso. pose proof (proj1 (proj2 (proj2 (C73_outcomes _ o fF dF tol max x0))) E) as E'. destruct (E' (max - 1)%nat ltac:(lia)) as [_ A]. exact (A St).
Qed.
End Near.
End Width.

(** The square root of 2 in f64, from 3/2, to the tolerance 1/1024: all hypotheses hold, with an error of 1/100000 for the computed
    function and slope. *)
Local Instance p53 : Prec_gt_0 53 := eq_refl.
Local Instance e53 : Prec_lt_emax 53 1024 := eq_refl.
Definition sq_f64 (x : binary_float 53 1024) : binary_float 53 1024 := sub (float_ops 53 1024) (mul (float_ops 53 1024) x x) (c_two (float_ops 53 1024)).
Definition dsq_f64 (x : binary_float 53 1024) : binary_float 53 1024 := mul (float_ops 53 1024) (c_two (float_ops 53 1024)) x.
Definition start_f64 : binary_float 53 1024 := @B754_finite 53 1024 false 6755399441055744 (-52) eq_refl.
Definition tol_f64 : binary_float 53 1024 := @B754_finite 53 1024 false 4503599627370496 (-62) eq_refl.
Lemma start_value : B2R start_f64 = 3 / 2. Proof. unfold start_f64, B2R, F2R. cbn. lra. Qed.
Lemma tol_value : B2R tol_f64 = / 1024. Proof. unfold tol_f64, B2R, F2R. cbn. lra. Qed.
Lemma u53s : 0 < unit 53 <= / 1000000.
Proof. split; [apply u_pos|]. unfold unit. change (- (53))%Z with (-53)%Z. apply Rle_trans with (bpow radix2 (-20)); [apply bpow_le; lia|]. cbn. lra. Qed.
Lemma eta53s : 0 < tiny 53 1024 <= / 1000000.
Proof. split; [apply eta_pos|]. unfold tiny. apply Rle_trans with (/ 2 * bpow radix2 (-20)); [apply Rmult_le_compat_l; [lra|apply bpow_le; lia]|]. cbn. lra. Qed.
Lemma sqrt2_size : 141 / 100 <= sqrt 2 <= 142 / 100.
Proof. assert (S2 : sqrt 2 * sqrt 2 = 2) by (apply sqrt_sqrt; lra). assert (S0 : 0 <= sqrt 2) by apply sqrt_pos. split; nra. Qed.
Lemma sq_evaluated : evaluated_near (fun x => x ^ 2 - 2) (fun x => 2 * x) sq_f64 dsq_f64 (sqrt 2) (/ 8) (/ 100000) (/ 100000).
Proof.
  intros x Fx Hx. pose proof sqrt2_size as S. apply Rabs_le_inv in Hx. set (X := B2R x) in *. assert (HX : 12 / 10 <= X <= 16 / 10) by lra. pose proof u53s as [U0 U1]. pose proof eta53s as [E0 E1]. pose proof large53 as Lg.
  destruct (lit2_value 53 1024 ltac:(lia)) as [V2 F2]. assert (XX : 0 <= X * X <= 26 / 10) by nra.
  assert (Fm : is_finite (mul (float_ops 53 1024) x x) = true). { apply (mul_ok 53 1024); auto. fold X. rewrite Rabs_pos_eq; lra. }
  assert (Fd : is_finite (dsq_f64 x) = true). { apply (mul_ok 53 1024); auto. rewrite V2. fold X. rewrite Rabs_pos_eq; lra. }
  destruct (mul_fin 53 1024 _ _ Fm) as (_ & _ & Vm). fold X in Vm. destruct (rd_err 53 1024 (X * X)) as (e & d & He & Hd & Rm). rewrite Rm in Vm.
  assert (Hp : Rabs (B2R (mul (float_ops 53 1024) x x) - X * X) <= 4 / 1000000).
  { rewrite Vm. replace (X * X * (1 + e) + d - X * X) with (X * X * e + d) by ring. eapply Rle_trans; [apply Rabs_triang|]. rewrite Rabs_mult, (Rabs_pos_eq (X * X)) by lra. assert (X * X * Rabs e <= 26 / 10 * / 1000000) by (apply Rmult_le_compat; try lra; apply Rabs_pos). lra. }
  set (p := B2R (mul (float_ops 53 1024) x x)) in *. assert (Fs : is_finite (sq_f64 x) = true). { apply (sub_ok 53 1024); auto. fold p. rewrite V2. apply Rabs_le_inv in Hp. apply Rabs_le. lra. }
  split; [exact Fs|split; [exact Fd|split]].
  - destruct (sub_fin 53 1024 _ _ Fs) as (_ & _ & e2 & He2 & Vs). change (B2R (sq_f64 x) = (p - B2R (c_two (float_ops 53 1024))) * (1 + e2)) in Vs. rewrite Vs, V2. fold X. replace ((p - 2) * (1 + e2) - (X ^ 2 - 2)) with (p - X * X + (p - 2) * e2) by ring.
    eapply Rle_trans; [apply Rabs_triang|]. rewrite Rabs_mult. assert (Rabs (p - 2) <= 3) by (apply Rabs_le_inv in Hp; apply Rabs_le; lra). assert (Rabs (p - 2) * Rabs e2 <= 3 * / 1000000) by (apply Rmult_le_compat; try lra; apply Rabs_pos). lra.
  - destruct (mul_fin 53 1024 _ _ Fd) as (_ & _ & Vd). change (B2R (dsq_f64 x) = round radix2 (SpecFloat.fexp 53 1024) ZnearestE (B2R (c_two (float_ops 53 1024)) * X)) in Vd. rewrite Vd, V2. fold X. destruct (rd_err 53 1024 (2 * X)) as (e3 & d3 & He3 & Hd3 & ->).
    replace (2 * X * (1 + e3) + d3 - 2 * X) with (2 * X * e3 + d3) by ring. eapply Rle_trans; [apply Rabs_triang|]. rewrite Rabs_mult, (Rabs_pos_eq (2 * X)) by lra. assert (2 * X * Rabs e3 <= 32 / 10 * / 1000000) by (apply Rmult_le_compat; try lra; apply Rabs_pos). lra.
Qed.
Lemma sq_noise : 0 <= noise 53 1024 2 (sqrt 2) (/ 8) (/ 100000) (/ 100000) <= / 20000.
Proof.
  unfold noise, quotient_error. pose proof u53s as [U0 U1]. pose proof eta53s as [E0 E1]. pose proof sqrt2_size as S. rewrite (Rabs_pos_eq (sqrt 2)) by lra. set (v := unit 53) in *. set (e := tiny 53 1024) in *.
  set (q := 2 / 2 * (/ 100000 + 3 / 2 * / 8 * / 100000)). assert (Hq : 0 <= q <= 12 / 1000000) by (unfold q; lra). assert (A : 0 <= (1 + v) * q <= 13 / 1000000) by (split; [apply Rmult_le_pos; lra|apply Rle_trans with ((1 + / 1000000) * (12 / 1000000)); [apply Rmult_le_compat; lra|lra]]).
  set (w := (1 + v) * q + v * (3 / 2 * / 8) + e). assert (Hw : 0 <= w <= 15 / 1000000). { assert (0 <= v * (3 / 2 * / 8) <= / 1000000 * (3 / 2 * / 8)) by (split; [apply Rmult_le_pos; lra|apply Rmult_le_compat_r; lra]). unfold w. lra. }
  assert (B : 0 <= (1 + v) * w <= 16 / 1000000) by (split; [apply Rmult_le_pos; lra|apply Rle_trans with ((1 + / 1000000) * (15 / 1000000)); [apply Rmult_le_compat; lra|lra]]).
  assert (0 <= v * (sqrt 2 + / 8 / 2) <= / 1000000 * 2) by (split; [apply Rmult_le_pos; lra|apply Rmult_le_compat; lra]). lra.
Qed.
Example C130_nontrivial : exists x, newton (float_ops 53 1024) tol_f64 20 start_f64 sq_f64 dsq_f64 = Root x /\ is_finite x = true /\ Rabs (B2R x - sqrt 2) <= / 12000.
Proof.
  assert (D : forall t, is_derive (fun x => x ^ 2 - 2) t (2 * t)) by (intros t; auto_derive; [auto|ring]).
  assert (Lp : forall s t, Rabs (2 * s - 2 * t) <= 2 * Rabs (s - t)). { intros s t. replace (2 * s - 2 * t) with (2 * (s - t)) by ring. rewrite Rabs_mult, (Rabs_pos_eq 2) by lra. lra. }
  assert (S2 : sqrt 2 * sqrt 2 = 2) by (apply sqrt_sqrt; lra). pose proof sqrt2_size as S. pose proof sq_noise as Sn. pose proof large53 as Lg. pose proof u53s as [U0 U1].
  destruct (C130_search 53 1024 (fun x => x ^ 2 - 2) (fun x => 2 * x) 2 2 (sqrt 2) (/ 8) (/ 100000) (/ 100000) sq_f64 dsq_f64) with (x0 := start_f64) (tol := tol_f64) (max := 20%nat) as (x & n & E & _ & _ & Fx & _ & B); try lra.
  - exact D.
  - exact Lp.
  - intros x Hx. apply Rabs_le_inv in Hx. rewrite Rabs_pos_eq; lra.
  - exact sq_evaluated.
  - rewrite Rabs_pos_eq by lra. lra.
  - reflexivity.
  - rewrite start_value. rewrite Rabs_pos_eq; lra.
  - reflexivity.
  - lia.
  - rewrite tol_value. change (20 - 1)%nat with 19%nat. assert (T : 2 * / 8 / 2 ^ 19 <= / 1000000) by (cbn [pow]; lra). set (t := 2 * / 8 / 2 ^ 19) in *. set (ns := noise _ _ _ _ _ _ _) in *.
    apply Rle_lt_trans with ((1 + / 1000000) * (/ 1000000 + 4 * / 20000)); [|lra]. assert (0 <= t) by (unfold t; cbn [pow]; lra). apply Rmult_le_compat; lra.
  - exists x. split; [exact E|split; [exact Fx|]]. rewrite tol_value in B. eapply Rle_trans; [exact B|]. set (ns := noise _ _ _ _ _ _ _) in *. assert (H : (4 * / 1024 + 2 * ns) ^ 2 <= (41 / 10000) ^ 2) by (apply pow_incr; lra). lra.
Qed.

(** The tolerance must be above the noise.  The square root of 11 in f32: from the nearest f32 numbers on either side of the root the
    guesses alternate between the two for ever, so with the tolerance 2^-22, twice the f32 epsilon, every search ends in the
    iteration error, although every guess is within 2^-22 of the root. *)
Local Instance p24 : Prec_gt_0 24 := eq_refl.
Local Instance e24 : Prec_lt_emax 24 128 := eq_refl.
Definition eleven_f32 : binary_float 24 128 := @B754_finite 24 128 false 11534336 (-20) eq_refl.
Definition two_f32 : binary_float 24 128 := @B754_finite 24 128 false 8388608 (-22) eq_refl.
Definition f_f32 (x : binary_float 24 128) : binary_float 24 128 := sub (float_ops 24 128) (mul (float_ops 24 128) x x) eleven_f32.
Definition d_f32 (x : binary_float 24 128) : binary_float 24 128 := mul (float_ops 24 128) two_f32 x.
Definition above_f32 : binary_float 24 128 := @B754_finite 24 128 false 13910933 (-22) eq_refl.
Definition below_f32 : binary_float 24 128 := @B754_finite 24 128 false 13910932 (-22) eq_refl.
Definition tol_f32 : binary_float 24 128 := @B754_finite 24 128 false 8388608 (-45) eq_refl.
Definition next_f32 (x : binary_float 24 128) : binary_float 24 128 := sub (float_ops 24 128) x (div (float_ops 24 128) (f_f32 x) (d_f32 x)).
Lemma down_f32 : next_f32 above_f32 = below_f32. Proof. apply B2SF_inj. vm_compute. reflexivity. Qed.
Lemma up_f32 : next_f32 below_f32 = above_f32. Proof. apply B2SF_inj. vm_compute. reflexivity. Qed.
Lemma guess_f32 n : guesses (float_ops 24 128) f_f32 d_f32 above_f32 n = if Nat.even n then above_f32 else below_f32.
Proof.
  induction n as [|n IH]; [reflexivity|]. cbn [guesses]. rewrite IH, Nat.even_succ, <- Nat.negb_even. change (next_f32 (if Nat.even n then above_f32 else below_f32) = (if negb (Nat.even n) then above_f32 else below_f32)).
  destruct (Nat.even n); [exact down_f32|exact up_f32].
Qed.
Theorem C130_tolerance_refuted : exists (tol x0 : binary_float 24 128), B2R tol = bpow radix2 (-22) /\
  B2R eleven_f32 = 11 /\ B2R two_f32 = 2 /\
  (forall n, Rabs (B2R (guesses (float_ops 24 128) f_f32 d_f32 x0 n) - sqrt 11) <= bpow radix2 (-22)) /\
  forall max, newton (float_ops 24 128) tol max x0 f_f32 d_f32 = MaxIterations.
Proof.
  exists tol_f32, above_f32. split; [unfold tol_f32, B2R, F2R; cbn; lra|]. split; [unfold eleven_f32, B2R, F2R; cbn; lra|]. split; [unfold two_f32, B2R, F2R; cbn; lra|].
  assert (Va : B2R above_f32 = 13910933 / 4194304) by (unfold above_f32, B2R, F2R; cbn; lra). assert (Vb : B2R below_f32 = 13910932 / 4194304) by (unfold below_f32, B2R, F2R; cbn; lra).
  assert (S : 13910932 / 4194304 <= sqrt 11 <= 13910933 / 4194304).
  { split; [rewrite <- (sqrt_pow2 (13910932 / 4194304)) by lra|rewrite <- (sqrt_pow2 (13910933 / 4194304)) by lra]; apply sqrt_le_1; lra. }
  split.
  - intros n. rewrite guess_f32. replace (bpow radix2 (-22)) with (/ 4194304) by (cbn; lra). destruct (Nat.even n); [rewrite Va|rewrite Vb]; apply Rabs_le; lra.
  - intros max. apply (proj2 (proj2 (C73_outcomes _ (float_ops 24 128) f_f32 d_f32 tol_f32 max above_f32))). intros k _. unfold goes_on, flat, small_step. rewrite !guess_f32, Nat.even_succ, <- Nat.negb_even.
    destruct (Nat.even k); cbn [negb]; split; vm_compute; discriminate.
Qed.
