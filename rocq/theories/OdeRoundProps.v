(** C129: Runge-Kutta in floating point.  One computed step is within a stated distance of the exact step, whatever right side the
    user evaluates, and a whole computed trajectory stays near the true solution: fourth order in the step plus the roundings. *)
From Coq Require Import ZArith QArith Reals Lra Lia Bool Arith List.
From Flocq Require Import Core BinarySingleNaN.
From Verif Require Import Scalar LinModel LinProofs RSum NumModel FloatModel RoundProps StatsFloatModel StatsFloatProps InterpFloatProps SplineFloatProps RkProps OdeProps.
Local Open Scope R_scope.

(** * Specification *)
(** the numbers in a vector of floating-point numbers *)
Definition reals {prec emax} (v : nat -> binary_float prec emax) : vecR := fun i => B2R (v i).
Definition finite_within {prec emax} (N : nat) (v : nat -> binary_float prec emax) (c : R) : Prop :=
  forall i, (i < N)%nat -> is_finite (v i) = true /\ Rabs (B2R (v i)) <= c.
(** on vectors of size at most D, the computed right side g is at most K and within delta of f *)
Definition evaluates {prec emax} (N : nat) (f : vecR -> vecR) (g : (nat -> binary_float prec emax) -> nat -> binary_float prec emax) (D K delta : R) : Prop :=
  forall v, finite_within N v D -> finite_within N (g v) K /\ bnd N (vsub (reals (g v)) (f (reals v))) delta.
(** what the roundings of one intermediate state, and of the final sum, can amount to *)
Definition stage_error (prec emax : Z) (B K h : R) : R :=
  ((1 + unit prec) ^ 3 - 1) * (B + K * h) + tiny prec emax * (1 + unit prec) ^ 2 * (1 + K).
Definition sum_error (prec emax : Z) (B K h : R) : R :=
  ((1 + unit prec) ^ 8 - 1) * (B + K * h) + tiny prec emax * (1 + unit prec) ^ 8 * (1 + 6 * K + 2 * tiny prec emax + h).
(** one step: the final sum, and the four slopes, each wrong by delta and by the error of the state it is taken at *)
Definition step_error (prec emax : Z) (L B K delta h : R) : R :=
  let s := stage_error prec emax B K h in
  let d2 := delta + L * (s + delta * (h / 2)) in
  let d3 := delta + L * (s + d2 * (h / 2)) in
  let d4 := delta + L * (s + d3 * h) in
  sum_error prec emax B K h + h / 6 * (delta + 2 * d2 + 2 * d3 + d4).

Section Width.
Context (prec emax : Z) {P : Prec_gt_0 prec} {M : Prec_lt_emax prec emax}.
Local Notation fl := (binary_float prec emax).
Local Notation u := (unit prec).
Local Notation eta := (tiny prec emax).
Local Notation o := (float_ops prec emax).
Local Notation rd := (round radix2 (SpecFloat.fexp prec emax) ZnearestE).
Local Instance vexp : Valid_exp (SpecFloat.fexp prec emax) := fexp_correct prec emax P.
Local Notation up := (u_pos prec).
Local Notation ep := (eta_pos prec emax).

Lemma lit2_value : (3 <= prec)%Z -> B2R (c_two o) = 2 /\ is_finite (c_two o) = true.
Proof.
  intros W. assert (E6 : B2R (float_of_usize prec emax 2) = INR 2 /\ is_finite (float_of_usize prec emax 2) = true).
  { apply usize_exact. apply Rle_trans with (bpow radix2 3); [cbn; lra|apply bpow_le; lia]. }
  assert (E1 : B2R (float_of_usize prec emax 1) = INR 1 /\ is_finite (float_of_usize prec emax 1) = true).
  { apply usize_exact. apply Rle_trans with (bpow radix2 0); [cbn; lra|apply bpow_le; lia]. }
  destruct E6 as [V6 F6]. destruct E1 as [V1 F1]. change (c_two o) with (div o (float_of_usize prec emax 2) (float_of_usize prec emax 1)).
  assert (N1 : B2R (float_of_usize prec emax 1) <> 0) by (rewrite V1; cbn; lra). assert (Q : B2R (float_of_usize prec emax 2) / B2R (float_of_usize prec emax 1) = B2R (float_of_usize prec emax 2)) by (rewrite V1; cbn [INR]; field).
  assert (Fd : is_finite (div o (float_of_usize prec emax 2) (float_of_usize prec emax 1)) = true).
  { apply (div_ok prec emax); [exact N1|exact F6|]. rewrite Q, V6. apply Rle_trans with (bpow radix2 3); [cbn; rewrite Rabs_pos_eq; lra|]. apply (largest_bpow prec emax). pose proof M as Me. unfold Prec_lt_emax in Me. lia. }
  split; [|exact Fd]. destruct (div_fin prec emax _ _ N1 Fd) as [_ ->]. rewrite Q, rd_id, V6. cbn. ring.
Qed.

Lemma vadd_in N (a b : nat -> fl) i : (i < N)%nat -> vec_add o N a b i = add o (a i) (b i). Proof. intros Hi. unfold vec_add. rewrite vfill_in by exact Hi. reflexivity. Qed.
Lemma vscale_in N (a : nat -> fl) s i : (i < N)%nat -> vec_scale o N a s i = mul o (a i) s. Proof. intros Hi. unfold vec_scale. rewrite vfill_in by exact Hi. reflexivity. Qed.

(** [q] is the step, or a fraction of it, with at most one rounding *)
Definition factor (q : fl) (X : R) : Prop := is_finite q = true /\ 0 <= X /\ Rabs (B2R q - X) <= u * X + eta.
Lemma factor_self (h : fl) : is_finite h = true -> 0 <= B2R h -> factor h (B2R h).
Proof. intros F Z. split; [exact F|split; [exact Z|]]. rewrite Rminus_diag_eq, Rabs_R0 by reflexivity. pose proof up. pose proof ep. assert (0 <= u * B2R h) by (apply Rmult_le_pos; lra). lra. Qed.
Lemma factor_div (h c : fl) C : is_finite h = true -> 0 <= B2R h -> B2R c = C -> 1 <= C -> factor (div o h c) (B2R h / C).
Proof.
  intros F Z Ec C1. assert (Nz : B2R c <> 0) by (rewrite Ec; lra). assert (I : 0 < / C <= 1) by (split; [apply Rinv_0_lt_compat; lra|rewrite <- Rinv_1; apply Rinv_le_contravar; lra]).
  assert (Q : 0 <= B2R h / C <= B2R h) by (unfold Rdiv; split; [apply Rmult_le_pos; lra|rewrite <- (Rmult_1_r (B2R h)) at 2; apply Rmult_le_compat_l; lra]).
  assert (Fd : is_finite (div o h c) = true).
  { apply (div_ok prec emax); [exact Nz|exact F|]. rewrite Ec, Rabs_pos_eq by lra. apply Rle_trans with (B2R h); [lra|]. unfold largest. pose proof (abs_B2R_le_emax_minus_prec prec emax P h) as A. rewrite Rabs_pos_eq in A by lra. exact A. }
  split; [exact Fd|split; [lra|]]. destruct (div_fin prec emax _ _ Nz Fd) as [_ ->]. rewrite Ec. destruct (rd_err prec emax (B2R h / C)) as (e & d & A & B & ->).
  replace (B2R h / C * (1 + e) + d - B2R h / C) with (e * (B2R h / C) + d) by ring. eapply Rle_trans; [apply Rabs_triang|]. rewrite Rabs_mult, (Rabs_pos_eq (B2R h / C)) by lra.
  apply Rplus_le_compat; [apply Rmult_le_compat_r; lra|exact B].
Qed.
(** a state plus a slope times a fraction of the step *)
Definition update_error (B A X : R) : R := ((1 + u) ^ 3 - 1) * (B + A * X) + eta * (1 + u) * (1 + (1 + u) * A).
Lemma product_size (a q : R) A X : Rabs a <= A -> 0 <= X -> Rabs (q - X) <= u * X + eta -> Rabs (a * q - a * X) <= A * (u * X + eta).
Proof.
  intros HA HX Hq. replace (a * q - a * X) with (a * (q - X)) by ring. rewrite Rabs_mult. apply Rmult_le_compat; auto using Rabs_pos.
Qed.
Lemma update_value (y s q : fl) B A X : Rabs (B2R y) <= B -> Rabs (B2R s) <= A -> factor q X -> is_finite (add o y (mul o s q)) = true ->
  Rabs (B2R (add o y (mul o s q)) - (B2R y + B2R s * X)) <= update_error B A X.
Proof.
  intros HB HA (Fq & HX & Hq) F. destruct (add_fin prec emax _ _ F) as (_ & Fm & ->). destruct (rd_sum prec emax y (mul o s q)) as (e & He & ->).
  destruct (mul_fin prec emax _ _ Fm) as (_ & _ & ->). destruct (rd_err prec emax (B2R s * B2R q)) as (e' & d & He' & Hd & ->).
  pose proof (product_size _ _ _ _ HA HX Hq) as Hp. pose proof up as U. pose proof ep as E. assert (A0 : 0 <= A) by (eapply Rle_trans; [apply Rabs_pos|exact HA]). assert (B0 : 0 <= B) by (eapply Rle_trans; [apply Rabs_pos|exact HB]).
  set (t := B2R s * X) in *. set (p := B2R s * B2R q) in *. assert (Ht : Rabs t <= A * X) by (unfold t; rewrite Rabs_mult, (Rabs_pos_eq X) by lra; apply Rmult_le_compat_r; lra).
  assert (AX : 0 <= A * X) by (apply Rmult_le_pos; lra). assert (Aeta : 0 <= A * eta) by (apply Rmult_le_pos; lra).
  assert (H1 : Rabs (p * (1 + e') + d - t) <= (1 + u) * (A * (u * X + eta)) + u * (A * X) + eta).
  { replace (p * (1 + e') + d - t) with ((p - t) * (1 + e') + (t * e' + d)) by ring. eapply Rle_trans; [apply Rabs_triang|]. eapply Rle_trans; [apply Rplus_le_compat_l, Rabs_triang|]. rewrite !Rabs_mult.
    assert (A1 : Rabs (1 + e') <= 1 + u) by (eapply Rle_trans; [apply Rabs_triang|]; rewrite Rabs_R1; lra).
    assert (Rabs (p - t) * Rabs (1 + e') <= A * (u * X + eta) * (1 + u)) by (apply Rmult_le_compat; auto using Rabs_pos).
    assert (Rabs t * Rabs e' <= A * X * u) by (apply Rmult_le_compat; auto using Rabs_pos). lra. }
  set (w := p * (1 + e') + d) in *. replace ((B2R y + w) * (1 + e) - (B2R y + t)) with ((w - t) * (1 + e) + (B2R y + t) * e) by ring.
  eapply Rle_trans; [apply Rabs_triang|]. rewrite !Rabs_mult. assert (A1 : Rabs (1 + e) <= 1 + u) by (eapply Rle_trans; [apply Rabs_triang|]; rewrite Rabs_R1; lra).
  assert (G1 : Rabs (w - t) * Rabs (1 + e) <= ((1 + u) * (A * (u * X + eta)) + u * (A * X) + eta) * (1 + u)) by (apply Rmult_le_compat; auto using Rabs_pos).
  assert (G2 : Rabs (B2R y + t) * Rabs e <= (B + A * X) * u) by (apply Rmult_le_compat; auto using Rabs_pos; eapply Rle_trans; [apply Rabs_triang|]; lra).
  unfold update_error. assert (Hu3 : 0 <= B * ((1 + u) ^ 3 - 1 - u)) by (apply Rmult_le_pos; [lra|]; cbn [pow]; nra). cbn [pow] in *. nra.
Qed.
Lemma update_ok (y s q : fl) B A X : is_finite y = true -> is_finite s = true -> Rabs (B2R y) <= B -> Rabs (B2R s) <= A -> factor q X ->
  B + A * X + update_error B A X <= largest prec emax -> is_finite (add o y (mul o s q)) = true.
Proof.
  intros Fy Fs HB HA Hf L. pose proof Hf as (Fq & HX & Hq). pose proof (product_size _ _ _ _ HA HX Hq) as Hp. pose proof up as U. pose proof ep as E.
  assert (A0 : 0 <= A) by (eapply Rle_trans; [apply Rabs_pos|exact HA]). assert (B0 : 0 <= B) by (eapply Rle_trans; [apply Rabs_pos|exact HB]).
  set (t := B2R s * X) in *. set (p := B2R s * B2R q) in *. assert (Ht : Rabs t <= A * X) by (unfold t; rewrite Rabs_mult, (Rabs_pos_eq X) by lra; apply Rmult_le_compat_r; lra).
  assert (AX : 0 <= A * X) by (apply Rmult_le_pos; lra). assert (Aeta : 0 <= A * eta) by (apply Rmult_le_pos; lra).
  assert (Hpt : Rabs p <= A * X + A * (u * X + eta)). { replace p with (t + (p - t)) by ring. eapply Rle_trans; [apply Rabs_triang|]. lra. }
  assert (Hu3 : 0 <= B * ((1 + u) ^ 3 - 1)) by (apply Rmult_le_pos; [lra|]; cbn [pow]; nra). unfold update_error in L.
  assert (UAX : 0 <= u * (A * X)) by (apply Rmult_le_pos; lra). assert (UAe : 0 <= u * (A * eta)) by (apply Rmult_le_pos; lra). assert (Ue : 0 <= u * eta) by (apply Rmult_le_pos; lra).
  assert (UUAX : 0 <= u * (u * (A * X))) by (apply Rmult_le_pos; lra). assert (UUUAX : 0 <= u * (u * (u * (A * X)))) by (apply Rmult_le_pos; lra). assert (UUAe : 0 <= u * (u * (A * eta))) by (apply Rmult_le_pos; lra).
  assert (Fm : is_finite (mul o s q) = true). { apply (mul_ok prec emax); auto. fold p. eapply Rle_trans; [exact Hpt|]. eapply Rle_trans; [|exact L]. cbn [pow] in *. lra. }
  apply (add_ok prec emax); auto. destruct (mul_fin prec emax _ _ Fm) as (_ & _ & ->). fold p. destruct (rd_err prec emax p) as (e' & d & He' & Hd & ->).
  eapply Rle_trans; [apply Rabs_triang|]. assert (Hw : Rabs (p * (1 + e') + d) <= (A * X + A * (u * X + eta)) * (1 + u) + eta).
  { eapply Rle_trans; [apply Rabs_triang|]. rewrite Rabs_mult. assert (A1 : Rabs (1 + e') <= 1 + u) by (eapply Rle_trans; [apply Rabs_triang|]; rewrite Rabs_R1; lra).
    apply Rplus_le_compat; [apply Rmult_le_compat; auto using Rabs_pos|exact Hd]. }
  eapply Rle_trans; [apply Rplus_le_compat; [exact HB|exact Hw]|]. eapply Rle_trans; [|exact L]. cbn [pow] in *. lra.
Qed.
Lemma update_stage B A X h : 0 <= B -> 0 <= A -> 0 <= X <= h -> update_error B A X <= stage_error prec emax B A h.
Proof.
  intros HB HA HX. unfold update_error, stage_error. pose proof up as U. pose proof ep as E. assert (A * X <= A * h) by (apply Rmult_le_compat_l; lra).
  apply Rplus_le_compat; [apply Rmult_le_compat_l; [cbn [pow]; nra|lra]|]. rewrite !Rmult_assoc. apply Rmult_le_compat_l; [lra|]. cbn [pow]. assert (0 <= u * A) by (apply Rmult_le_pos; lra). assert (0 <= u * (u * A)) by (apply Rmult_le_pos; lra). nra.
Qed.
Lemma stage_pos B K h : 0 <= B -> 0 <= K -> 0 <= h -> 0 <= stage_error prec emax B K h.
Proof.
  intros HB HK Hh. pose proof up as U. pose proof ep as E. unfold stage_error. assert (0 <= K * h) by (apply Rmult_le_pos; lra). pose proof (pow1 prec 3). pose proof (pow1 prec 2).
  apply Rplus_le_le_0_compat; [apply Rmult_le_pos; lra|]. apply Rmult_le_pos; [apply Rmult_le_pos|]; lra.
Qed.

(** * One step *)
Section Step.
Context (N : nat) (f : vecR -> vecR) (g : (nat -> fl) -> nat -> fl) (L B D K delta : R) (y : nat -> fl) (h : fl).
Context (W : (3 <= prec)%Z) (Lip : lipschitz N f L) (Ev : evaluates N f g D K delta) (K0 : 0 <= K) (B0 : 0 <= B)
  (Fh : is_finite h = true) (H0 : 0 <= B2R h) (Wy : finite_within N y B)
  (Room : B + K * B2R h + stage_error prec emax B K (B2R h) <= D) (Dl : D <= largest prec emax).
Notation hR := (B2R h).
Notation sg := (stage_error prec emax B K (B2R h)).

(** one intermediate state: near the exact one, and inside the region where the right side is evaluated well *)
Lemma stage (k : nat -> fl) (kx : vecR) q X c : finite_within N k K -> bnd N (vsub (reals k) kx) c -> factor q X -> X <= hR ->
  let z := vec_add o N y (vec_scale o N k q) in
  finite_within N z D /\ bnd N (vsub (reals z) (vadd (reals y) (vscl X kx))) (sg + c * X).
Proof.
  intros Wk Bk Fq XH z. pose proof Fq as (_ & X0 & _). assert (Z : forall i, (i < N)%nat -> z i = add o (y i) (mul o (k i) q)).
  { intros i Hi. unfold z, vec_add. rewrite vfill_in by exact Hi. unfold vec_scale. rewrite vfill_in by exact Hi. reflexivity. }
  pose proof (update_stage B K X hR B0 K0 (conj X0 XH)) as Us. assert (KX : K * X <= K * hR) by (apply Rmult_le_compat_l; lra).
  assert (V : forall i, (i < N)%nat -> is_finite (z i) = true /\ Rabs (B2R (z i) - (B2R (y i) + B2R (k i) * X)) <= sg).
  { intros i Hi. rewrite (Z i Hi). destruct (Wy i Hi) as [Fy By]. destruct (Wk i Hi) as [Fk Bk']. assert (Fz : is_finite (add o (y i) (mul o (k i) q)) = true) by (apply (update_ok _ _ _ B K X); auto; lra).
    split; [exact Fz|]. eapply Rle_trans; [apply (update_value _ _ _ B K X); auto|exact Us]. }
  split; intros i Hi; destruct (V i Hi) as [Fz Vz]; destruct (Wy i Hi) as [Fy By]; destruct (Wk i Hi) as [Fk Bk'].
  - split; [exact Fz|]. replace (B2R (z i)) with (B2R (z i) - (B2R (y i) + B2R (k i) * X) + (B2R (y i) + B2R (k i) * X)) by ring. eapply Rle_trans; [apply Rabs_triang|].
    assert (Rabs (B2R (y i) + B2R (k i) * X) <= B + K * X). { eapply Rle_trans; [apply Rabs_triang|]. rewrite Rabs_mult, (Rabs_pos_eq X) by lra. apply Rplus_le_compat; [exact By|apply Rmult_le_compat_r; lra]. } lra.
  - pose proof (Bk i Hi) as Bi. unfold vsub, reals, vadd, vscl in *. replace (B2R (z i) - (B2R (y i) + X * kx i)) with (B2R (z i) - (B2R (y i) + B2R (k i) * X) + (B2R (k i) - kx i) * X) by ring.
    eapply Rle_trans; [apply Rabs_triang|]. rewrite (Rabs_mult (B2R (k i) - kx i)), (Rabs_pos_eq X) by lra. apply Rplus_le_compat; [exact Vz|apply Rmult_le_compat_r; lra].
Qed.
Lemma slope (z : nat -> fl) (zx : vecR) c : finite_within N z D -> bnd N (vsub (reals z) zx) c ->
  finite_within N (g z) K /\ bnd N (vsub (reals (g z)) (f zx)) (delta + L * c).
Proof.
  intros Wz Bz. destruct (Ev z Wz) as [Wg Bg]. split; [exact Wg|]. intros i Hi. pose proof (Bg i Hi) as G. pose proof (Lip _ _ _ Bz i Hi) as G'. unfold vsub in *.
  replace (reals (g z) i - f zx i) with (reals (g z) i - f (reals z) i + (f (reals z) i - f zx i)) by ring. eapply Rle_trans; [apply Rabs_triang|]. lra.
Qed.
(** the four slopes *)
Let k1 := g y.
Let k2 := g (vec_add o N y (vec_scale o N k1 (div o h (c_two o)))).
Let k3 := g (vec_add o N y (vec_scale o N k2 (div o h (c_two o)))).
Let k4 := g (vec_add o N y (vec_scale o N k3 h)).
Let d2 := delta + L * (sg + delta * (hR / 2)).
Let d3 := delta + L * (sg + d2 * (hR / 2)).
Let d4 := delta + L * (sg + d3 * hR).
Lemma y_in : finite_within N y D.
Proof. intros i Hi. destruct (Wy i Hi) as [F By]. split; [exact F|]. pose proof (stage_pos B K hR B0 K0 H0). assert (0 <= K * hR) by (apply Rmult_le_pos; lra). lra. Qed.
Lemma slopes : let Y := reals y in
  (finite_within N k1 K /\ bnd N (vsub (reals k1) (k_1 f Y)) delta) /\ (finite_within N k2 K /\ bnd N (vsub (reals k2) (k_2 f Y hR)) d2) /\
  (finite_within N k3 K /\ bnd N (vsub (reals k3) (k_3 f Y hR)) d3) /\ (finite_within N k4 K /\ bnd N (vsub (reals k4) (k_4 f Y hR)) d4).
Proof.
  intros Y. destruct (lit2_value W) as [V2 _]. pose proof (factor_div h (c_two o) 2 Fh H0 V2 ltac:(lra)) as Fq. pose proof (factor_self h Fh H0) as F1.
  destruct (Ev y y_in) as [W1 B1]. destruct (stage k1 _ _ _ _ W1 B1 Fq ltac:(lra)) as [Z2 E2]. destruct (slope _ _ _ Z2 E2) as [W2 B2].
  destruct (stage k2 _ _ _ _ W2 B2 Fq ltac:(lra)) as [Z3 E3]. destruct (slope _ _ _ Z3 E3) as [W3 B3].
  destruct (stage k3 _ _ _ _ W3 B3 F1 ltac:(lra)) as [Z4 E4]. destruct (slope _ _ _ Z4 E4) as [W4 B4].
  exact (conj (conj W1 B1) (conj (conj W2 B2) (conj (conj W3 B3) (conj W4 B4)))).
Qed.
(** the last sum *)
Lemma final (s : fl) i : (i < N)%nat -> RoundProps.close prec emax 5 2 (B2R s) (B2R (k1 i) + 2 * B2R (k2 i) + 2 * B2R (k3 i) + B2R (k4 i)) (6 * K) ->
  is_finite (add o (y i) (mul o s (div o h (c_six o)))) = true ->
  Rabs (B2R (add o (y i) (mul o s (div o h (c_six o)))) - rk4 N f (reals y) hR i) <= step_error prec emax L B K delta hR.
Proof.
  intros Hi Cs Fr. destruct slopes as ((W1 & B1) & (W2 & B2) & (W3 & B3) & (W4 & B4)). destruct (W1 i Hi) as [F1 A1]. destruct (W2 i Hi) as [F2 A2]. destruct (W3 i Hi) as [F3 A3]. destruct (W4 i Hi) as [F4 A4].
  destruct (lit6_value prec emax W) as [V6 _]. pose proof (factor_div h (c_six o) 6 Fh H0 V6 ltac:(lra)) as Fq. destruct (Wy i Hi) as [Fy By].
  set (S := B2R (k1 i) + 2 * B2R (k2 i) + 2 * B2R (k3 i) + B2R (k4 i)) in *. assert (HS : Rabs S <= 6 * K).
  { unfold S. eapply Rle_trans; [apply Rabs_triang|]. eapply Rle_trans; [apply Rplus_le_compat_r, Rabs_triang|]. eapply Rle_trans; [apply Rplus_le_compat_r, Rplus_le_compat_r, Rabs_triang|].
    rewrite (Rabs_mult 2 (B2R (k2 i))), (Rabs_mult 2 (B2R (k3 i))), (Rabs_pos_eq 2) by lra. lra. }
  pose proof (size prec emax _ _ _ _ _ HS Cs) as Ss. unfold RoundProps.close in Cs. pose proof (pow1 prec 5) as P5. set (p5 := (1 + u) ^ 5) in *. change (INR 2) with 2 in *. pose proof up as U. pose proof ep as E.
  set (A := p5 * (6 * K + 2 * eta)). assert (HA : Rabs (B2R s) <= A) by (unfold A; lra). pose proof (update_value _ _ _ B A (hR / 6) By HA Fq Fr) as Up.
  rewrite (rk4_eq N f (lip_on _ _ _ Lip)) by exact Hi. set (r := B2R (add o (y i) (mul o s (div o h (c_six o))))) in *. pose proof (B1 i Hi) as C1. pose proof (B2 i Hi) as C2. pose proof (B3 i Hi) as C3. pose proof (B4 i Hi) as C4. unfold vsub, reals in C1, C2, C3, C4.
  set (x1 := k_1 f (reals y) i) in *. set (x2 := k_2 f (reals y) hR i) in *. set (x3 := k_3 f (reals y) hR i) in *. set (x4 := k_4 f (reals y) hR i) in *.
  change (k_1 f (fun i : nat => B2R (y i)) i) with x1 in C1. change (k_2 f (fun i : nat => B2R (y i)) hR i) with x2 in C2. change (k_3 f (fun i : nat => B2R (y i)) hR i) with x3 in C3. change (k_4 f (fun i : nat => B2R (y i)) hR i) with x4 in C4.
  assert (G1 : Rabs (S - (x1 + 2 * x2 + 2 * x3 + x4)) <= delta + 2 * d2 + 2 * d3 + d4).
  { unfold S. replace (B2R (k1 i) + 2 * B2R (k2 i) + 2 * B2R (k3 i) + B2R (k4 i) - (x1 + 2 * x2 + 2 * x3 + x4)) with (B2R (k1 i) - x1 + 2 * (B2R (k2 i) - x2) + 2 * (B2R (k3 i) - x3) + (B2R (k4 i) - x4)) by ring.
    eapply Rle_trans; [apply Rabs_triang|]. eapply Rle_trans; [apply Rplus_le_compat_r, Rabs_triang|]. eapply Rle_trans; [apply Rplus_le_compat_r, Rplus_le_compat_r, Rabs_triang|].
    rewrite (Rabs_mult 2 (B2R (k2 i) - x2)), (Rabs_mult 2 (B2R (k3 i) - x3)), (Rabs_pos_eq 2) by lra. lra. }
  replace (r - (reals y i + hR / 6 * (x1 + 2 * x2 + 2 * x3 + x4))) with (r - (B2R (y i) + B2R s * (hR / 6)) + (hR / 6 * (B2R s - S) + hR / 6 * (S - (x1 + 2 * x2 + 2 * x3 + x4)))) by (unfold reals; ring).
  eapply Rle_trans; [apply Rabs_triang|]. eapply Rle_trans; [apply Rplus_le_compat_l, Rabs_triang|]. rewrite (Rabs_mult (hR / 6)), (Rabs_mult (hR / 6) (S - _)), (Rabs_pos_eq (hR / 6)) by lra.
  unfold step_error. cbv zeta. fold d2. fold d3. fold d4. rewrite <- Rplus_assoc. apply Rplus_le_compat; [|apply Rmult_le_compat_l; lra].
  assert (G2 : hR / 6 * Rabs (B2R s - S) <= hR / 6 * ((p5 - 1) * (6 * K) + 2 * eta * p5)) by (apply Rmult_le_compat_l; lra).
  eapply Rle_trans; [apply Rplus_le_compat; [exact Up|exact G2]|]. unfold update_error, sum_error. pose proof (pow1 prec 3) as P3. pose proof (pow1 prec 1) as P1.
  replace ((1 + u) ^ 8) with (p5 * (1 + u) ^ 3) by (unfold p5; ring). set (p3 := (1 + u) ^ 3) in *.
  assert (KH : 0 <= K * hR) by (apply Rmult_le_pos; lra). assert (eH : 0 <= eta * hR) by (apply Rmult_le_pos; lra). 
  assert (Q1 : (p3 - 1) * B <= (p5 * p3 - 1) * B) by (apply Rmult_le_compat_r; [lra|]; nra).
  assert (Q2 : (p3 - 1) * (A * (hR / 6)) + hR / 6 * ((p5 - 1) * (6 * K) + 2 * eta * p5) = (p5 * p3 - 1) * (K * hR) + p5 * p3 * (eta * hR) / 3) by (unfold A; field).
  assert (Q3 : 0 <= p5 * p3 * (eta * hR)) by (apply Rmult_le_pos; [apply Rmult_le_pos|]; lra).
  assert (Q4 : eta * (1 + u) * (1 + (1 + u) * A) <= eta * (p5 * p3) * (1 + 6 * K + 2 * eta)).
  { rewrite !Rmult_assoc. apply Rmult_le_compat_l; [lra|]. unfold A. assert (T1 : 1 + u <= p5 * p3). { unfold p3. cbn [pow]. rewrite Rmult_1_r. pose proof (Rmult_le_pos u u ltac:(lra) ltac:(lra)). apply Rle_trans with (1 * ((1 + u) * ((1 + u) * (1 + u)))); [nra|apply Rmult_le_compat_r; nra]. }
    assert (T2 : (1 + u) * (1 + u) <= p3) by (unfold p3; cbn [pow]; nra). assert (T3 : (1 + u) * ((1 + u) * (p5 * (6 * K + 2 * eta))) <= p5 * (p3 * (6 * K + 2 * eta))).
    { replace ((1 + u) * ((1 + u) * (p5 * (6 * K + 2 * eta)))) with (p5 * ((1 + u) * (1 + u) * (6 * K + 2 * eta))) by ring. apply Rmult_le_compat_l; [lra|]. apply Rmult_le_compat_r; [lra|exact T2]. } lra. }
  lra.
Qed.

Lemma tri (a b A C : R) : Rabs a <= A -> Rabs b <= C -> Rabs (a + b) <= A + C.
Proof. intros. eapply Rle_trans; [apply Rabs_triang|]. lra. Qed.
Lemma two (x : fl) : Rabs (B2R x) <= K -> is_finite (mul o x (c_two o)) = true -> RoundProps.close prec emax 1 1 (B2R (mul o x (c_two o))) (2 * B2R x) (2 * K) /\ Rabs (2 * B2R x) <= 2 * K.
Proof.
  intros A F. assert (A2 : Rabs (2 * B2R x) <= 2 * K) by (rewrite Rabs_mult, (Rabs_pos_eq 2) by lra; lra). split; [|exact A2]. pose proof (close_mul prec emax _ _ F) as C. destruct (lit2_value W) as [V _]. rewrite V, Rmult_comm in C. unfold RoundProps.close in *.
  eapply Rle_trans; [exact C|]. apply Rplus_le_compat_r. pose proof (pow1 prec 1). apply Rmult_le_compat_l; [lra|exact A2].
Qed.
(** The vector rule: near the exact step. *)
Theorem C129_vector_step i : (i < N)%nat -> is_finite (rk4_vector o N g y h i) = true ->
  Rabs (B2R (rk4_vector o N g y h i) - rk4 N f (reals y) hR i) <= step_error prec emax L B K delta hR.
Proof.
  intros Hi. assert (E : rk4_vector o N g y h i = add o (y i) (mul o (add o (add o (add o (add o (add o (k1 i) (k2 i)) (k2 i)) (k3 i)) (k3 i)) (k4 i)) (div o h (c_six o)))).
  { unfold rk4_vector. cbv zeta. fold k1. fold k2. fold k3. fold k4. rewrite !vadd_in, vscale_in, !vadd_in by exact Hi. reflexivity. }
  rewrite E. intros Fr. apply final; [exact Hi| |exact Fr]. destruct slopes as ((W1 & _) & (W2 & _) & (W3 & _) & (W4 & _)). destruct (W1 i Hi) as [_ A1]. destruct (W2 i Hi) as [_ A2]. destruct (W3 i Hi) as [_ A3]. destruct (W4 i Hi) as [_ A4].
  destruct (add_fin prec emax _ _ Fr) as (_ & Fm & _). destruct (mul_fin prec emax _ _ Fm) as (S5 & _ & _). destruct (add_fin prec emax _ _ S5) as (S4 & _ & _). destruct (add_fin prec emax _ _ S4) as (S3 & _ & _).
  destruct (add_fin prec emax _ _ S3) as (S2 & _ & _). destruct (add_fin prec emax _ _ S2) as (S1 & _ & _). pose proof (fun x : fl => close_exact prec emax (B2R x) K K0) as Z.
  pose proof (close_add prec emax _ _ _ _ _ _ _ _ _ _ S1 A1 A2 (Z _) (Z _)) as C1. pose proof (tri _ _ _ _ A1 A2) as T1.
  pose proof (close_add prec emax _ _ _ _ _ _ _ _ _ _ S2 T1 A2 C1 (Z _)) as C2. pose proof (tri _ _ _ _ T1 A2) as T2.
  pose proof (close_add prec emax _ _ _ _ _ _ _ _ _ _ S3 T2 A3 C2 (Z _)) as C3. pose proof (tri _ _ _ _ T2 A3) as T3.
  pose proof (close_add prec emax _ _ _ _ _ _ _ _ _ _ S4 T3 A3 C3 (Z _)) as C4. pose proof (tri _ _ _ _ T3 A3) as T4.
  pose proof (close_add prec emax _ _ _ _ _ _ _ _ _ _ S5 T4 A4 C4 (Z _)) as C5. apply (close_mono prec emax 5 0 5 2); [lia|lia|lra|]. cbn [Nat.max Nat.add] in C5.
  replace (6 * K) with (K + K + K + K + K + K) by ring. replace (B2R (k1 i) + 2 * B2R (k2 i) + 2 * B2R (k3 i) + B2R (k4 i)) with (B2R (k1 i) + B2R (k2 i) + B2R (k2 i) + B2R (k3 i) + B2R (k3 i) + B2R (k4 i)) by ring. exact C5.
Qed.
(** When the sizes leave room, the result is finite, and not much larger than the state plus the step times the slope. *)
Lemma sum_ok n c (x z : fl) X T m : is_finite x = true -> is_finite z = true -> Rabs X <= T -> RoundProps.close prec emax n c (B2R x) X T -> (n <= 5)%nat -> T = INR m * K -> c = 0%nat -> (m <= 5)%nat ->
  Rabs (B2R z) <= K -> (1 + u) ^ 5 * (6 * K + 2 * eta) <= largest prec emax -> is_finite (add o x z) = true.
Proof.
  intros Fx Fz HX Cx Hn -> -> Hm Hz Hl. apply (add_ok prec emax); auto. eapply Rle_trans; [apply Rabs_triang|]. pose proof (size prec emax _ _ _ _ _ HX Cx) as Sx. cbn [INR] in Sx. eapply Rle_trans; [|exact Hl].
  pose proof (pow_mono prec n 5 Hn) as Pm. pose proof (pow1 prec n). pose proof (eta_pos prec emax). assert (INR m <= 5) by (apply le_INR in Hm; cbn in Hm; lra). pose proof (pos_INR m).
  assert (INR m * K <= 5 * K) by (apply Rmult_le_compat_r; lra). assert (0 <= INR m * K) by (apply Rmult_le_pos; lra). assert ((1 + u) ^ n * (INR m * K) <= (1 + u) ^ 5 * (5 * K)) by (apply Rmult_le_compat; lra).
  assert (K <= (1 + u) ^ 5 * (K + 2 * eta)) by (apply Rle_trans with (1 * (K + 2 * eta)); [lra|apply Rmult_le_compat_r; lra]). lra.
Qed.
Theorem C129_vector_finite i : (i < N)%nat -> (1 + u) ^ 5 * (6 * K + 2 * eta) <= largest prec emax -> B + K * hR + sum_error prec emax B K hR <= largest prec emax ->
  is_finite (rk4_vector o N g y h i) = true /\ Rabs (B2R (rk4_vector o N g y h i)) <= B + K * hR + sum_error prec emax B K hR.
Proof.
  intros Hi Hl Hb. assert (E : rk4_vector o N g y h i = add o (y i) (mul o (add o (add o (add o (add o (add o (k1 i) (k2 i)) (k2 i)) (k3 i)) (k3 i)) (k4 i)) (div o h (c_six o)))).
  { unfold rk4_vector. cbv zeta. fold k1. fold k2. fold k3. fold k4. rewrite !vadd_in, vscale_in, !vadd_in by exact Hi. reflexivity. }
  rewrite E. destruct slopes as ((W1 & _) & (W2 & _) & (W3 & _) & (W4 & _)). destruct (W1 i Hi) as [N1 A1]. destruct (W2 i Hi) as [N2 A2]. destruct (W3 i Hi) as [N3 A3]. destruct (W4 i Hi) as [N4 A4].
  pose proof (fun x : fl => close_exact prec emax (B2R x) K K0) as Z.
  assert (S1 : is_finite (add o (k1 i) (k2 i)) = true) by (apply (sum_ok 0 0 _ _ (B2R (k1 i)) K 1); auto; try lia; cbn; ring).
  pose proof (close_add prec emax _ _ _ _ _ _ _ _ _ _ S1 A1 A2 (Z _) (Z _)) as C1. pose proof (tri _ _ _ _ A1 A2) as T1. cbn [Nat.max Nat.add] in C1.
  assert (S2 : is_finite (add o (add o (k1 i) (k2 i)) (k2 i)) = true) by (apply (sum_ok 1 0 _ _ _ _ 2 S1 N2 T1 C1); auto; try lia; cbn; ring).
  pose proof (close_add prec emax _ _ _ _ _ _ _ _ _ _ S2 T1 A2 C1 (Z _)) as C2. pose proof (tri _ _ _ _ T1 A2) as T2. cbn [Nat.max Nat.add] in C2.
  assert (S3 : is_finite (add o (add o (add o (k1 i) (k2 i)) (k2 i)) (k3 i)) = true) by (apply (sum_ok 2 0 _ _ _ _ 3 S2 N3 T2 C2); auto; try lia; cbn; ring).
  pose proof (close_add prec emax _ _ _ _ _ _ _ _ _ _ S3 T2 A3 C2 (Z _)) as C3. pose proof (tri _ _ _ _ T2 A3) as T3. cbn [Nat.max Nat.add] in C3.
  assert (S4 : is_finite (add o (add o (add o (add o (k1 i) (k2 i)) (k2 i)) (k3 i)) (k3 i)) = true) by (apply (sum_ok 3 0 _ _ _ _ 4 S3 N3 T3 C3); auto; try lia; cbn; ring).
  pose proof (close_add prec emax _ _ _ _ _ _ _ _ _ _ S4 T3 A3 C3 (Z _)) as C4. pose proof (tri _ _ _ _ T3 A3) as T4. cbn [Nat.max Nat.add] in C4.
  assert (S5 : is_finite (add o (add o (add o (add o (add o (k1 i) (k2 i)) (k2 i)) (k3 i)) (k3 i)) (k4 i)) = true) by (apply (sum_ok 4 0 _ _ _ _ 5 S4 N4 T4 C4); auto; try lia; cbn; ring).
  pose proof (close_add prec emax _ _ _ _ _ _ _ _ _ _ S5 T4 A4 C4 (Z _)) as C5. pose proof (tri _ _ _ _ T4 A4) as T5. cbn [Nat.max Nat.add] in C5.
  set (s := add o (add o (add o (add o (add o (k1 i) (k2 i)) (k2 i)) (k3 i)) (k3 i)) (k4 i)) in *. pose proof (size prec emax _ _ _ _ _ T5 C5) as Ss. cbn [INR] in Ss.
  destruct (lit6_value prec emax W) as [V6 _]. pose proof (factor_div h (c_six o) 6 Fh H0 V6 ltac:(lra)) as Fq. destruct (Wy i Hi) as [Fy By]. pose proof (u_pos prec) as U. pose proof (eta_pos prec emax) as Et.
  pose proof (pow1 prec 5) as P5. set (p5 := (1 + u) ^ 5) in *. set (A := p5 * (6 * K + 2 * eta)). assert (A0 : 0 <= p5 * (2 * eta)) by (apply Rmult_le_pos; lra). assert (HA : Rabs (B2R s) <= A) by (unfold A; lra).
  assert (Tot : B + A * (hR / 6) + update_error B A (hR / 6) <= B + K * hR + sum_error prec emax B K hR).
  { unfold update_error, sum_error. pose proof (pow1 prec 3) as P3. replace ((1 + u) ^ 8) with (p5 * (1 + u) ^ 3) by (unfold p5; ring). set (p3 := (1 + u) ^ 3) in *.
    assert (Q1 : p3 * B <= p5 * p3 * B) by (apply Rmult_le_compat_r; [lra|]; nra). assert (eH : 0 <= eta * hR) by (apply Rmult_le_pos; lra).
    assert (Q2 : p3 * (A * (hR / 6)) = p5 * p3 * (K * hR) + p5 * p3 * (eta * hR) / 3) by (unfold A; field).
    assert (Q3 : 0 <= p5 * p3 * (eta * hR)) by (apply Rmult_le_pos; [apply Rmult_le_pos|]; lra).
    assert (Q4 : eta * (1 + u) * (1 + (1 + u) * A) <= eta * (p5 * p3) * (1 + 6 * K + 2 * eta)).
    { rewrite !Rmult_assoc. apply Rmult_le_compat_l; [lra|]. unfold A. assert (T1' : 1 + u <= p5 * p3). { unfold p3. cbn [pow]. rewrite Rmult_1_r. pose proof (Rmult_le_pos u u ltac:(lra) ltac:(lra)). apply Rle_trans with (1 * ((1 + u) * ((1 + u) * (1 + u)))); [nra|apply Rmult_le_compat_r; nra]. }
      assert (T2' : (1 + u) * (1 + u) <= p3) by (unfold p3; cbn [pow]; nra). assert (T3' : (1 + u) * ((1 + u) * (p5 * (6 * K + 2 * eta))) <= p5 * (p3 * (6 * K + 2 * eta))).
      { replace ((1 + u) * ((1 + u) * (p5 * (6 * K + 2 * eta)))) with (p5 * ((1 + u) * (1 + u) * (6 * K + 2 * eta))) by ring. apply Rmult_le_compat_l; [lra|]. apply Rmult_le_compat_r; [lra|exact T2']. } lra. }
    lra. }
  assert (Fr : is_finite (add o (y i) (mul o s (div o h (c_six o)))) = true) by (apply (update_ok _ _ _ B A (hR / 6)); auto; lra). split; [exact Fr|].
  pose proof (update_value _ _ _ B A (hR / 6) By HA Fq Fr) as Up. set (r := B2R (add o (y i) (mul o s (div o h (c_six o))))) in *. replace r with (r - (B2R (y i) + B2R s * (hR / 6)) + (B2R (y i) + B2R s * (hR / 6))) by ring.
  assert (Rabs (B2R s * (hR / 6)) <= A * (hR / 6)) by (rewrite Rabs_mult, (Rabs_pos_eq (hR / 6)) by lra; apply Rmult_le_compat_r; lra).
  eapply Rle_trans; [apply Rabs_triang|]. pose proof (Rabs_triang (B2R (y i)) (B2R s * (hR / 6))). lra.
Qed.
(** The rules for Cartesian vectors, which doubles two slopes, and for Euler angles. *)
Theorem C129_cartesian_step i : (i < N)%nat -> is_finite (rk4_cartesian o N g y h i) = true ->
  Rabs (B2R (rk4_cartesian o N g y h i) - rk4 N f (reals y) hR i) <= step_error prec emax L B K delta hR.
Proof.
  intros Hi. assert (E : rk4_cartesian o N g y h i = add o (y i) (mul o (add o (add o (add o (k1 i) (mul o (k2 i) (c_two o))) (mul o (k3 i) (c_two o))) (k4 i)) (div o h (c_six o)))).
  { unfold rk4_cartesian. cbv zeta. fold k1. fold k2. fold k3. fold k4. rewrite !vadd_in, vscale_in, !vadd_in, !vscale_in by exact Hi. reflexivity. }
  rewrite E. intros Fr. apply final; [exact Hi| |exact Fr]. destruct slopes as ((W1 & _) & (W2 & _) & (W3 & _) & (W4 & _)). destruct (W1 i Hi) as [_ A1]. destruct (W2 i Hi) as [_ A2]. destruct (W3 i Hi) as [_ A3]. destruct (W4 i Hi) as [_ A4].
  destruct (add_fin prec emax _ _ Fr) as (_ & Fm & _). destruct (mul_fin prec emax _ _ Fm) as (S3 & _ & _). destruct (add_fin prec emax _ _ S3) as (S2 & _ & _). destruct (add_fin prec emax _ _ S2) as (S1 & M3 & _).
  destruct (add_fin prec emax _ _ S1) as (_ & M2 & _). destruct (two _ A2 M2) as [D2 T2']. destruct (two _ A3 M3) as [D3 T3']. pose proof (fun x : fl => close_exact prec emax (B2R x) K K0) as Z.
  pose proof (close_add prec emax _ _ _ _ _ _ _ _ _ _ S1 A1 T2' (Z _) D2) as C1. pose proof (tri _ _ _ _ A1 T2') as T1.
  pose proof (close_add prec emax _ _ _ _ _ _ _ _ _ _ S2 T1 T3' C1 D3) as C2. pose proof (tri _ _ _ _ T1 T3') as T2.
  pose proof (close_add prec emax _ _ _ _ _ _ _ _ _ _ S3 T2 A4 C2 (Z _)) as C3. cbn [Nat.max Nat.add] in C3. apply (close_mono prec emax 4 2 5 2); [lia|lia|lra|].
  replace (6 * K) with (K + 2 * K + 2 * K + K) by ring. exact C3.
Qed.
Theorem C129_euler_angles_step i : (i < N)%nat -> is_finite (rk4_euler_angles o N g y h i) = true ->
  Rabs (B2R (rk4_euler_angles o N g y h i) - rk4 N f (reals y) hR i) <= step_error prec emax L B K delta hR.
Proof. exact (C129_vector_step i). Qed.
End Step.
End Width.

Lemma step_error_pos prec emax L B K delta h : 0 <= L -> 0 <= B -> 0 <= K -> 0 <= delta -> 0 <= h -> 0 <= step_error prec emax L B K delta h.
Proof.
  intros HL HB HK Hd Hh. unfold step_error. cbv zeta. pose proof (stage_pos prec emax B K h HB HK Hh) as Hs. set (s := stage_error prec emax B K h) in *. pose proof (eta_pos prec emax) as E. pose proof (pow1 prec 8) as P8.
  assert (S : 0 <= sum_error prec emax B K h). { unfold sum_error. assert (0 <= K * h) by (apply Rmult_le_pos; lra). apply Rplus_le_le_0_compat; [apply Rmult_le_pos; lra|]. apply Rmult_le_pos; [apply Rmult_le_pos|]; lra. }
  assert (D2 : 0 <= delta + L * (s + delta * (h / 2))). { apply Rplus_le_le_0_compat; [exact Hd|]. apply Rmult_le_pos; [exact HL|]. apply Rplus_le_le_0_compat; [exact Hs|]. apply Rmult_le_pos; lra. }
  set (d2 := delta + L * (s + delta * (h / 2))) in *. assert (D3 : 0 <= delta + L * (s + d2 * (h / 2))). { apply Rplus_le_le_0_compat; [exact Hd|]. apply Rmult_le_pos; [exact HL|]. apply Rplus_le_le_0_compat; [exact Hs|]. apply Rmult_le_pos; lra. }
  set (d3 := delta + L * (s + d2 * (h / 2))) in *. assert (D4 : 0 <= delta + L * (s + d3 * h)). { apply Rplus_le_le_0_compat; [exact Hd|]. apply Rmult_le_pos; [exact HL|]. apply Rplus_le_le_0_compat; [exact Hs|]. apply Rmult_le_pos; lra. }
  apply Rplus_le_le_0_compat; [exact S|]. apply Rmult_le_pos; lra.
Qed.

(** * Many steps *)
(** The computed trajectory is near the true solution.  The constant C depends on the equation and the time span alone: not on the
    width of the numbers, the step, the number of steps or how the right side is evaluated. *)
Theorem C129_trajectory : forall N f L T phi F1 F2 F3 K', 0 <= T -> lipschitz N f L -> solves N f T phi ->
  (forall t, 0 <= t <= T -> taylor3 N f (phi t) (F1 t) (F2 t) (F3 t) K') ->
  exists C, 0 <= C /\ forall prec emax (P : Prec_gt_0 prec) (M : Prec_lt_emax prec emax) (g : (nat -> binary_float prec emax) -> nat -> binary_float prec emax) B D K delta h n (y : nat -> nat -> binary_float prec emax) d0,
    (3 <= prec)%Z -> evaluates N f g D K delta -> 0 <= B -> 0 <= K -> 0 <= delta -> 0 <= d0 ->
    is_finite h = true -> 0 < B2R h <= 1 -> INR n * B2R h <= T ->
    B + K * B2R h + stage_error prec emax B K (B2R h) <= D -> D <= largest prec emax ->
    (forall k, (k <= n)%nat -> finite_within N (y k) B) ->
    (forall k i, (k < n)%nat -> (i < N)%nat -> y (S k) i = rk4_vector (float_ops prec emax) N g (y k) h i) ->
    bnd N (vsub (reals (y 0%nat)) (phi 0)) d0 ->
    bnd N (vsub (reals (y n)) (phi (INR n * B2R h))) (C * (d0 + INR n * step_error prec emax L B K delta (B2R h) + B2R h ^ 4)).
Proof.
  intros N f L T phi F1 F2 F3 K' HT Lip Sol Tay. destruct (C112_rk4_fourth_order N f L T phi F1 F2 F3 K' HT Lip Sol Tay) as (C & PC & Hc). exists C. split; [exact PC|].
  intros prec emax P M g B D K delta h n y d0 W Ev B0 K0 D0 Hd Fh Hh Hn Room Dl Wy Hy H0. destruct N as [|N']; [intros i Hi; lia|]. assert (L0 : 0 <= L) by (apply (lip_nonneg (S N') f); [lia|exact Lip]).
  apply (Hc (B2R h) n (fun k => reals (y k)) d0 (step_error prec emax L B K delta (B2R h)) Hh Hn Hd); [apply step_error_pos; lra|exact H0|].
  intros k Hk i Hi. unfold vsub. unfold reals at 1. destruct (Wy (S k) ltac:(lia) i Hi) as [Fy _]. rewrite (Hy k i Hk Hi) in *.
  apply (C129_vector_step prec emax (S N') f g L B D K delta (y k) h); auto; try lra. apply Wy. lia.
Qed.

(** The oscillator x' = v, v' = -x, whose right side is computed exactly, in f64: after any number of steps within ten units of
    time the computed state is within C (n e + h^4) of (sin t, cos t). *)
Local Instance p53 : Prec_gt_0 53 := eq_refl.
Local Instance e53 : Prec_lt_emax 53 1024 := eq_refl.
Definition osc_f64 (v : nat -> binary_float 53 1024) : nat -> binary_float 53 1024 := fun i => match i with 0%nat => v 1%nat | _ => neg (float_ops 53 1024) (v 0%nat) end.
Lemma osc_evaluates K : evaluates 2 osc osc_f64 K K 0.
Proof.
  intros v Wv. pose proof (Wv 0%nat ltac:(lia)) as [F0 A0]. pose proof (Wv 1%nat ltac:(lia)) as [F1 A1]. split; intros i Hi; destruct i as [|i]; cbn [osc_f64 neg float_ops]; unfold vsub, reals, osc; cbn [osc_f64 neg float_ops].
  - auto.
  - rewrite is_finite_Bopp, B2R_Bopp, Rabs_Ropp. auto.
  - rewrite Rminus_diag_eq, Rabs_R0 by reflexivity. lra.
  - rewrite B2R_Bopp, Rminus_diag_eq, Rabs_R0 by reflexivity. lra.
Qed.
Lemma u53 : 0 < unit 53 <= / 1000.
Proof. split; [apply u_pos|]. unfold unit. change (- (53))%Z with (-53)%Z. apply Rle_trans with (bpow radix2 (-10)); [apply bpow_le; lia|]. cbn. lra. Qed.
Lemma eta53 : 0 < tiny 53 1024 <= / 1000.
Proof. split; [apply eta_pos|]. unfold tiny. apply Rle_trans with (/ 2 * bpow radix2 (-10)); [apply Rmult_le_compat_l; [lra|apply bpow_le; lia]|]. cbn. lra. Qed.
Lemma large53 : 1000 <= largest 53 1024.
Proof. apply Rle_trans with (bpow radix2 10); [cbn; lra|]. apply (largest_bpow 53 1024). lia. Qed.

Definition eighth : binary_float 53 1024 := @B754_finite 53 1024 false 4503599627370496 (-55) eq_refl.
Definition unit_f64 : binary_float 53 1024 := @B754_finite 53 1024 false 4503599627370496 (-52) eq_refl.
Fixpoint osc_run (k : nat) : nat -> binary_float 53 1024 :=
  match k with O => fun i => match i with O => B754_zero false | _ => unit_f64 end | S k => rk4_vector (float_ops 53 1024) 2 osc_f64 (osc_run k) eighth end.
Lemma eighth_value : B2R eighth = / 8. Proof. unfold eighth, B2R, F2R. cbn. lra. Qed.
Lemma unit_value : B2R unit_f64 = 1. Proof. unfold unit_f64, B2R, F2R. cbn. lra. Qed.
Lemma pow_small n c : (n <= 8)%nat -> c = (1 + unit 53) ^ n -> 1 <= c <= 1 + / 100.
Proof.
  intros Hn ->. split; [apply pow1|]. eapply Rle_trans; [apply (pow_mono 53 n 8 Hn)|]. pose proof u53 as [U1 U2]. apply Rle_trans with ((1 + / 1000) ^ 8); [apply pow_incr; lra|lra].
Qed.
Lemma stage_small B : 0 <= B <= 3 -> stage_error 53 1024 B 4 (/ 8) <= / 10.
Proof.
  intros HB. unfold stage_error. pose proof (pow_small 3 _ ltac:(lia) eq_refl) as Q3. pose proof (pow_small 2 _ ltac:(lia) eq_refl) as Q2. pose proof eta53 as [E1 E2].
  set (p3 := (1 + unit 53) ^ 3) in *. set (p2 := (1 + unit 53) ^ 2) in *. set (e := tiny 53 1024) in *.
  assert ((p3 - 1) * (B + 4 * / 8) <= / 100 * (3 + / 2)) by (apply Rmult_le_compat; lra). assert (e * p2 <= / 1000 * (1 + / 100)) by (apply Rmult_le_compat; lra). lra.
Qed.
Lemma sum_small B : 0 <= B <= 3 -> sum_error 53 1024 B 4 (/ 8) <= / 10.
Proof.
  intros HB. unfold sum_error. pose proof (pow_small 8 _ ltac:(lia) eq_refl) as Q3. pose proof eta53 as [E1 E2].
  set (p3 := (1 + unit 53) ^ 8) in *. set (e := tiny 53 1024) in *.
  assert ((p3 - 1) * (B + 4 * / 8) <= / 100 * (3 + / 2)) by (apply Rmult_le_compat; lra). assert (e * p3 <= / 1000 * (1 + / 100)) by (apply Rmult_le_compat; lra).
  assert (0 <= e * p3) by (apply Rmult_le_pos; lra). assert (e * p3 * (1 + 6 * 4 + 2 * e + / 8) <= / 1000 * (1 + / 100) * 26) by (apply Rmult_le_compat; lra). lra.
Qed.
Lemma osc_run_size k : (k <= 3)%nat -> finite_within 2 (osc_run k) (1 + INR k * (6 / 10)).
Proof.
  induction k as [|k IH]; intros Hk.
  - intros i Hi. destruct i as [|i]; cbn [osc_run INR]; [cbn [is_finite B2R]; rewrite Rabs_R0; split; [reflexivity|lra]|]. rewrite unit_value, Rabs_R1. split; [reflexivity|lra].
  - specialize (IH ltac:(lia)). intros i Hi. rewrite S_INR. assert (Kb : INR k <= 2) by (change 2 with (INR 2); apply le_INR; lia). pose proof (pos_INR k).
    set (B := 1 + INR k * (6 / 10)) in *. assert (HB : 0 <= B <= 3) by (unfold B; lra). pose proof (stage_small B HB) as Hs. pose proof (sum_small B HB) as Hf. pose proof large53 as Hl. pose proof eta53 as [E1 E2]. pose proof (pow_small 5 _ ltac:(lia) eq_refl) as Q5.
    pose proof (C129_vector_finite 53 1024 2 osc osc_f64 1 B 4 4 0 (osc_run k) eighth ltac:(lia) osc_lip (osc_evaluates 4) ltac:(lra) (proj1 HB)) as G. rewrite eighth_value in G.
    specialize (G eq_refl ltac:(lra) IH ltac:(lra) ltac:(lra) i Hi). cbn [osc_run]. assert ((1 + unit 53) ^ 5 * (6 * 4 + 2 * tiny 53 1024) <= (1 + / 100) * 26) by (apply Rmult_le_compat; lra).
    destruct (G ltac:(lra) ltac:(lra)) as [Fr Sr]. split; [exact Fr|]. unfold B in Sr, Hf. lra.
Qed.
Example C129_nontrivial : (forall k, (k <= 3)%nat -> finite_within 2 (osc_run k) 3) /\
  exists C, 0 <= C /\ forall i, (i < 2)%nat -> Rabs (B2R (osc_run 3 i) - osc_path (3 / 8) i) <= C * (3 * step_error 53 1024 1 3 4 0 (/ 8) + (/ 8) ^ 4).
Proof.
  assert (Sz : forall k, (k <= 3)%nat -> finite_within 2 (osc_run k) 3).
  { intros k Hk i Hi. destruct (osc_run_size k Hk i Hi) as [F A]. split; [exact F|]. apply le_INR in Hk. cbn [INR] in Hk. lra. }
  split; [exact Sz|]. destruct (C129_trajectory 2 osc 1 1 osc_path (fun _ => osc) (fun _ _ _ _ => 0) (fun _ _ _ _ _ => 0) 1 ltac:(lra) osc_lip (osc_sol 1) (fun t _ => osc_taylor _)) as (C & PC & Hc).
  exists C. split; [exact PC|]. intros i Hi. pose proof (Hc 53%Z 1024%Z p53 e53 osc_f64 3 4 4 0 eighth 3%nat osc_run 0) as G. rewrite eighth_value in G. pose proof (stage_small 3 ltac:(lra)) as Hs. pose proof large53 as Hl. cbn [INR] in G.
  assert (G' := G ltac:(lia) (osc_evaluates 4) ltac:(lra) ltac:(lra) ltac:(lra) ltac:(lra) eq_refl ltac:(lra) ltac:(lra) ltac:(lra) ltac:(lra) Sz ltac:(reflexivity)). clear G.
  assert (Z : bnd 2 (vsub (reals (osc_run 0)) (osc_path 0)) 0).
  { intros j Hj. unfold vsub, reals, osc_path. destruct j as [|j]; cbn [osc_run B2R]; [rewrite sin_0|rewrite unit_value, cos_0]; rewrite Rminus_diag_eq, Rabs_R0 by reflexivity; lra. }
  specialize (G' Z i Hi). unfold vsub, reals in G'. replace ((1 + 1 + 1) * / 8) with (3 / 8) in G' by field. replace (1 + 1 + 1) with 3 in G' by ring. rewrite Rplus_0_l in G'. exact G'.
Qed.
