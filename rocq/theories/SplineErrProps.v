(** C121: how far the natural spline is from the function it was sampled from. *)
From Coq Require Import Reals List Arith Bool Lra Lia Classical.
From Coquelicot Require Import Coquelicot.
From Verif Require Import Scalar RSum InterpModel InterpSpec InterpProofs InterpProps InterpErrProps.
Import ListNotations.
Open Scope R_scope.

(** * Taylor's remainder, by comparing derivatives *)
Section Step.
Context (G G1 p p1 q q1 : R -> R) (u v : R).
Context (DG : forall t, u <= t <= v -> is_derive G t (G1 t)) (Dp : forall t, is_derive p t (p1 t)) (Dq : forall t, is_derive q t (q1 t)).
Lemma step_r : (forall t, u <= t <= v -> Rabs (G1 t - p1 t) <= q1 t) -> p u = G u -> q u = 0 -> forall t, u <= t <= v -> Rabs (G t - p t) <= q t.
Proof.
  intros B Ep Eq t Ht. destruct (Req_dec u t) as [<-|Ne]; [rewrite Ep, Eq, Rminus_diag_eq, Rabs_R0 by reflexivity; lra|].
  destruct (MVT_cor2 (fun t => q t - (G t - p t)) (fun t => q1 t - (G1 t - p1 t)) u t ltac:(lra)) as (c & Ec & Hc).
  { intros z Hz. apply is_derive_Reals. apply (is_derive_minus q (fun t => G t - p t)); [apply Dq|]. apply (is_derive_minus G p); [apply DG; lra|apply Dp]. }
  destruct (MVT_cor2 (fun t => q t + (G t - p t)) (fun t => q1 t + (G1 t - p1 t)) u t ltac:(lra)) as (d & Ed & Hd).
  { intros z Hz. apply is_derive_Reals. apply (is_derive_plus q (fun t => G t - p t)); [apply Dq|]. apply (is_derive_minus G p); [apply DG; lra|apply Dp]. }
  pose proof (B c ltac:(lra)) as Bc. pose proof (B d ltac:(lra)) as Bd. apply Rabs_le_between in Bc. apply Rabs_le_between in Bd.
  rewrite Ep, Eq in Ec, Ed. apply Rabs_le. assert (0 <= (q1 c - (G1 c - p1 c)) * (t - u)) by (apply Rmult_le_pos; lra). assert (0 <= (q1 d + (G1 d - p1 d)) * (t - u)) by (apply Rmult_le_pos; lra). lra.
Qed.
Lemma step_l : (forall t, u <= t <= v -> Rabs (G1 t - p1 t) <= - q1 t) -> p v = G v -> q v = 0 -> forall t, u <= t <= v -> Rabs (G t - p t) <= q t.
Proof.
  intros B Ep Eq t Ht. destruct (Req_dec t v) as [->|Ne]; [rewrite Ep, Eq, Rminus_diag_eq, Rabs_R0 by reflexivity; lra|].
  destruct (MVT_cor2 (fun t => q t - (G t - p t)) (fun t => q1 t - (G1 t - p1 t)) t v ltac:(lra)) as (c & Ec & Hc).
  { intros z Hz. apply is_derive_Reals. apply (is_derive_minus q (fun t => G t - p t)); [apply Dq|]. apply (is_derive_minus G p); [apply DG; lra|apply Dp]. }
  destruct (MVT_cor2 (fun t => q t + (G t - p t)) (fun t => q1 t + (G1 t - p1 t)) t v ltac:(lra)) as (d & Ed & Hd).
  { intros z Hz. apply is_derive_Reals. apply (is_derive_plus q (fun t => G t - p t)); [apply Dq|]. apply (is_derive_minus G p); [apply DG; lra|apply Dp]. }
  pose proof (B c ltac:(lra)) as Bc. pose proof (B d ltac:(lra)) as Bd. apply Rabs_le_between in Bc. apply Rabs_le_between in Bd.
  rewrite Ep, Eq in Ec, Ed. apply Rabs_le. assert (0 <= - (q1 c - (G1 c - p1 c)) * (v - t)) by (apply Rmult_le_pos; lra). assert (0 <= - (q1 d + (G1 d - p1 d)) * (v - t)) by (apply Rmult_le_pos; lra). lra.
Qed.
End Step.
Ltac poly := intros; auto_derive; [auto|try ring; try field; lra].

Section Taylor.
Context (g g1 g2 : R -> R) (u v M : R).
Context (D1 : forall t, u <= t <= v -> is_derive g t (g1 t)) (D2 : forall t, u <= t <= v -> is_derive g1 t (g2 t)) (B : forall t, u <= t <= v -> Rabs (g2 t) <= M).
Lemma taylor2_r : forall t, u <= t <= v -> Rabs (g t - (g u + g1 u * (t - u))) <= M * (t - u) ^ 2 / 2.
Proof.
  apply (step_r g g1 (fun t => g u + g1 u * (t - u)) (fun _ => g1 u) (fun t => M * (t - u) ^ 2 / 2) (fun t => M * (t - u)) u v D1); [poly|poly| |ring|field].
  apply (step_r g1 g2 (fun _ => g1 u) (fun _ => 0) (fun t => M * (t - u)) (fun _ => M) u v D2); [poly|poly| |ring|ring]. intros t Ht. rewrite Rminus_0_r. apply B, Ht.
Qed.
Lemma taylor2_l : forall t, u <= t <= v -> Rabs (g t - (g v + g1 v * (t - v))) <= M * (v - t) ^ 2 / 2.
Proof.
  apply (step_l g g1 (fun t => g v + g1 v * (t - v)) (fun _ => g1 v) (fun t => M * (v - t) ^ 2 / 2) (fun t => - (M * (v - t))) u v D1); [poly|poly| |ring|field].
  intros t Ht. rewrite Ropp_involutive. revert t Ht.
  apply (step_l g1 g2 (fun _ => g1 v) (fun _ => 0) (fun t => M * (v - t)) (fun _ => - M) u v D2); [poly|poly| |ring|ring]. intros t Ht. rewrite Rminus_0_r, Ropp_involutive. apply B, Ht.
Qed.
End Taylor.

(** a function that vanishes at both ends of an interval *)
Lemma between (g g1 g2 : R -> R) u v M : u < v -> (forall t, u <= t <= v -> is_derive g t (g1 t)) -> (forall t, u <= t <= v -> is_derive g1 t (g2 t)) ->
  (forall t, u <= t <= v -> Rabs (g2 t) <= M) -> g u = 0 -> g v = 0 -> forall x, u <= x <= v -> Rabs (g x) <= M * (v - u) ^ 2 / 8.
Proof.
  intros L D1 D2 B Gu Gv x Hx. assert (M0 : 0 <= M) by (eapply Rle_trans; [apply Rabs_pos|apply (B x Hx)]).
  pose proof (taylor2_l g g1 g2 u x M ltac:(intros; apply D1; lra) ltac:(intros; apply D2; lra) ltac:(intros; apply B; lra) u ltac:(lra)) as A.
  pose proof (taylor2_r g g1 g2 x v M ltac:(intros; apply D1; lra) ltac:(intros; apply D2; lra) ltac:(intros; apply B; lra) v ltac:(lra)) as C.
  rewrite Gu in A. rewrite Gv in C. set (a := x - u) in *. set (b := v - x) in *. replace (u - x) with (- a) in A by (unfold a; ring). replace (v - u) with (a + b) by (unfold a, b; ring).
  apply Rabs_le_between in A. apply Rabs_le_between in C. assert (0 <= a) by (unfold a; lra). assert (0 <= b) by (unfold b; lra). assert (P : 0 < a + b) by (unfold a, b; lra).
  assert (Q : (a + b) * Rabs (g x) <= (a + b) * (M * (a * b) / 2)).
  { rewrite <- (Rabs_pos_eq (a + b)) at 1 by lra. rewrite <- Rabs_mult. apply Rabs_le. 
    assert (E1 : b * (0 - (g x + g1 x * - a)) <= b * (M * a ^ 2 / 2)) by (apply Rmult_le_compat_l; lra).
    assert (E2 : a * (0 - (g x + g1 x * b)) <= a * (M * b ^ 2 / 2)) by (apply Rmult_le_compat_l; lra).
    assert (E3 : b * (- (M * a ^ 2 / 2)) <= b * (0 - (g x + g1 x * - a))) by (apply Rmult_le_compat_l; lra).
    assert (E4 : a * (- (M * b ^ 2 / 2)) <= a * (0 - (g x + g1 x * b))) by (apply Rmult_le_compat_l; lra).
    split; nra. }
  apply Rmult_le_reg_l in Q; [|exact P]. eapply Rle_trans; [exact Q|]. assert (0 <= M * (a - b) ^ 2) by (apply Rmult_le_pos; [exact M0|apply pow2_ge_0]). nra.
Qed.
(** ... and how steep it can be *)
Lemma slope (g g1 g2 : R -> R) u v M : u < v -> (forall t, u <= t <= v -> is_derive g t (g1 t)) -> (forall t, u <= t <= v -> is_derive g1 t (g2 t)) ->
  (forall t, u <= t <= v -> Rabs (g2 t) <= M) -> g u = 0 -> g v = 0 -> forall x, u <= x <= v -> Rabs (g1 x) <= M * (v - u) / 2.
Proof.
  intros L D1 D2 B Gu Gv x Hx. assert (M0 : 0 <= M) by (eapply Rle_trans; [apply Rabs_pos|apply (B x Hx)]).
  pose proof (taylor2_l g g1 g2 u x M ltac:(intros; apply D1; lra) ltac:(intros; apply D2; lra) ltac:(intros; apply B; lra) u ltac:(lra)) as A.
  pose proof (taylor2_r g g1 g2 x v M ltac:(intros; apply D1; lra) ltac:(intros; apply D2; lra) ltac:(intros; apply B; lra) v ltac:(lra)) as C.
  rewrite Gu in A. rewrite Gv in C. set (a := x - u) in *. set (b := v - x) in *. replace (u - x) with (- a) in A by (unfold a; ring). replace (v - u) with (a + b) by (unfold a, b; ring).
  apply Rabs_le_between in A. apply Rabs_le_between in C. assert (0 <= a) by (unfold a; lra). assert (0 <= b) by (unfold b; lra). assert (P : 0 < a + b) by (unfold a, b; lra).
  assert (Q : (a + b) * Rabs (g1 x) <= (a + b) * (M * (a + b) / 2)).
  { rewrite <- (Rabs_pos_eq (a + b)) at 1 by lra. rewrite <- Rabs_mult. assert (0 <= M * (a * b)) by (apply Rmult_le_pos; [exact M0|apply Rmult_le_pos; assumption]). apply Rabs_le. split; nra. }
  apply Rmult_le_reg_l in Q; [exact Q|exact P].
Qed.

Section Taylor4.
Context (g g1 g2 g3 g4 : R -> R) (u v M : R).
Context (D1 : forall t, u <= t <= v -> is_derive g t (g1 t)) (D2 : forall t, u <= t <= v -> is_derive g1 t (g2 t)).
Context (D3 : forall t, u <= t <= v -> is_derive g2 t (g3 t)) (D4 : forall t, u <= t <= v -> is_derive g3 t (g4 t)) (B : forall t, u <= t <= v -> Rabs (g4 t) <= M).
Lemma taylor4_r : forall t, u <= t <= v -> Rabs (g t - (g u + g1 u * (t - u) + g2 u * (t - u) ^ 2 / 2 + g3 u * (t - u) ^ 3 / 6)) <= M * (t - u) ^ 4 / 24.
Proof.
  apply (step_r g g1 (fun t => g u + g1 u * (t - u) + g2 u * (t - u) ^ 2 / 2 + g3 u * (t - u) ^ 3 / 6) (fun t => g1 u + g2 u * (t - u) + g3 u * (t - u) ^ 2 / 2)
           (fun t => M * (t - u) ^ 4 / 24) (fun t => M * (t - u) ^ 3 / 6) u v D1); [poly|poly| |field|field].
  apply (step_r g1 g2 (fun t => g1 u + g2 u * (t - u) + g3 u * (t - u) ^ 2 / 2) (fun t => g2 u + g3 u * (t - u)) (fun t => M * (t - u) ^ 3 / 6) (fun t => M * (t - u) ^ 2 / 2) u v D2); [poly|poly| |field|field].
  apply (taylor2_r g2 g3 g4 u v M D3 D4 B).
Qed.
Lemma taylor4_l : forall t, u <= t <= v -> Rabs (g t - (g v + g1 v * (t - v) + g2 v * (t - v) ^ 2 / 2 + g3 v * (t - v) ^ 3 / 6)) <= M * (v - t) ^ 4 / 24.
Proof.
  apply (step_l g g1 (fun t => g v + g1 v * (t - v) + g2 v * (t - v) ^ 2 / 2 + g3 v * (t - v) ^ 3 / 6) (fun t => g1 v + g2 v * (t - v) + g3 v * (t - v) ^ 2 / 2)
           (fun t => M * (v - t) ^ 4 / 24) (fun t => - (M * (v - t) ^ 3 / 6)) u v D1); [poly|poly| |field|field].
  intros t Ht. rewrite Ropp_involutive. revert t Ht.
  apply (step_l g1 g2 (fun t => g1 v + g2 v * (t - v) + g3 v * (t - v) ^ 2 / 2) (fun t => g2 v + g3 v * (t - v)) (fun t => M * (v - t) ^ 3 / 6) (fun t => - (M * (v - t) ^ 2 / 2)) u v D2); [poly|poly| |field|field].
  intros t Ht. rewrite Ropp_involutive. revert t Ht. apply (taylor2_l g2 g3 g4 u v M D3 D4 B).
Qed.
End Taylor4.

(** * The second derivatives at the knots *)
Lemma peak (d : nat -> R) n : (0 < n)%nat -> exists i, (i < n)%nat /\ forall j, (j < n)%nat -> Rabs (d j) <= Rabs (d i).
Proof.
  induction n as [|n IH]; intros H; [lia|]. destruct n as [|n]; [exists 0%nat; split; [lia|]; intros j Hj; replace j with 0%nat by lia; lra|].
  destruct (IH ltac:(lia)) as (i & Hi & Hm). destruct (Rle_lt_dec (Rabs (d (S n))) (Rabs (d i))) as [L|L].
  - exists i. split; [lia|]. intros j Hj. destruct (Nat.eq_dec j (S n)) as [->|]; [exact L|apply Hm; lia].
  - exists (S n). split; [lia|]. intros j Hj. destruct (Nat.eq_dec j (S n)) as [->|]; [lra|]. pose proof (Hm j ltac:(lia)). lra.
Qed.
Lemma stability n xs (d : nat -> R) K : (2 <= n)%nat -> increasing n xs -> 0 <= K -> d 0%nat = 0 -> d (n - 1)%nat = 0 ->
  (forall i, (S (S i) < n)%nat -> let h := xs (S (S i)) - xs (S i) in let l := xs (S i) - xs i in
     Rabs (h * (d (S i) / 3 + d (S (S i)) / 6) + l * (d (S i) / 3 + d i / 6)) <= (h + l) * K) ->
  forall j, (j < n)%nat -> Rabs (d j) <= 6 * K.
Proof.
  intros Hn Inc HK Z0 Zn E j Hj. destruct (peak d n ltac:(lia)) as (i & Hi & Hm). eapply Rle_trans; [apply Hm, Hj|].
  destruct i as [|i]; [rewrite Z0, Rabs_R0; lra|]. destruct (Nat.eq_dec (S i) (n - 1)) as [->|Ne]; [rewrite Zn, Rabs_R0; lra|].
  specialize (E i ltac:(lia)). cbv zeta in E. pose proof (Inc (S i) ltac:(lia)) as Lh. pose proof (Inc i ltac:(lia)) as Ll.
  set (h := xs (S (S i)) - xs (S i)) in *. set (l := xs (S i) - xs i) in *. assert (0 < h) by (unfold h; lra). assert (0 < l) by (unfold l; lra).
  pose proof (Hm i ltac:(lia)) as H1. pose proof (Hm (S (S i)) ltac:(lia)) as H2. set (D := Rabs (d (S i))) in *.
  assert (A : (h + l) * (D / 3) <= (h + l) * K + h * (D / 6) + l * (D / 6)).
  { assert (T : (h + l) * (D / 3) = Rabs ((h * (d (S i) / 3 + d (S (S i)) / 6) + l * (d (S i) / 3 + d i / 6)) - h * (d (S (S i)) / 6) - l * (d i / 6))).
    { replace ((h * (d (S i) / 3 + d (S (S i)) / 6) + l * (d (S i) / 3 + d i / 6)) - h * (d (S (S i)) / 6) - l * (d i / 6)) with ((h + l) / 3 * d (S i)) by field.
      rewrite Rabs_mult, (Rabs_pos_eq ((h + l) / 3)) by lra. fold D. field. }
    rewrite T. set (X := h * (d (S i) / 3 + d (S (S i)) / 6) + l * (d (S i) / 3 + d i / 6)) in *. unfold Rminus.
    eapply Rle_trans; [apply Rabs_triang|]. apply Rplus_le_compat; [eapply Rle_trans; [apply Rabs_triang|]; apply Rplus_le_compat; [exact E|]|]; rewrite Rabs_Ropp, Rabs_mult, Rabs_pos_eq by lra; apply Rmult_le_compat_l; try lra; unfold Rdiv; rewrite Rabs_mult, (Rabs_pos_eq (/ 6)) by lra; lra. }
  assert (Q : (h + l) * D <= (h + l) * (6 * K)) by lra. apply Rmult_le_reg_l in Q; lra.
Qed.
(** a cubic in terms of its second derivatives at the ends, from either end *)
Section Cubic.
Context (f f1 f2 : R -> R) (u v : R) (L : u < v).
Context (D1 : forall t, u <= t <= v -> is_derive f t (f1 t)) (D2 : forall t, u <= t <= v -> is_derive f1 t (f2 t)).
Context (al be : R) (E : forall t, u <= t <= v -> f2 t = al + be * t).
Lemma zero_abs x y : Rabs (x - y) <= 0 -> x = y.
Proof. intros H. pose proof (Rabs_pos (x - y)). assert (Z : Rabs (x - y) = 0) by lra. destruct (Req_dec (x - y) 0) as [Y|Y]; [lra|]. apply Rabs_no_R0 in Y. contradiction. Qed.
Lemma cubic_r : f v = f u + f1 u * (v - u) + (v - u) ^ 2 * (f2 u / 3 + f2 v / 6).
Proof.
  set (p1 := fun t => f1 u + (al * (t - u) + be * (t ^ 2 - u ^ 2) / 2)).
  assert (I1 : forall t, u <= t <= v -> Rabs (f1 t - p1 t) <= 0).
  { apply (step_r f1 f2 p1 (fun t => al + be * t) (fun _ => 0) (fun _ => 0) u v D2); [unfold p1; poly|poly| |unfold p1; field|reflexivity]. intros t Ht. rewrite (E t Ht), Rminus_diag_eq, Rabs_R0 by reflexivity. lra. }
  set (p := fun t => f u + f1 u * (t - u) + al * (t - u) ^ 2 / 2 + be * ((t ^ 3 - u ^ 3) / 3 - u ^ 2 * (t - u)) / 2).
  assert (I0 : forall t, u <= t <= v -> Rabs (f t - p t) <= 0).
  { apply (step_r f f1 p p1 (fun _ => 0) (fun _ => 0) u v D1); [unfold p, p1; poly|poly|exact I1|unfold p; field|reflexivity]. }
  rewrite (zero_abs _ _ (I0 v ltac:(lra))). unfold p. rewrite (E u), (E v) by lra. field.
Qed.
Lemma cubic_l : f u = f v - f1 v * (v - u) + (v - u) ^ 2 * (f2 v / 3 + f2 u / 6).
Proof.
  set (p1 := fun t => f1 v + (al * (t - v) + be * (t ^ 2 - v ^ 2) / 2)).
  assert (I1 : forall t, u <= t <= v -> Rabs (f1 t - p1 t) <= 0).
  { apply (step_l f1 f2 p1 (fun t => al + be * t) (fun _ => 0) (fun _ => 0) u v D2); [unfold p1; poly|poly| |unfold p1; field|reflexivity]. intros t Ht. rewrite (E t Ht), Rminus_diag_eq, Rabs_R0 by reflexivity. lra. }
  set (p := fun t => f v + f1 v * (t - v) + al * (t - v) ^ 2 / 2 + be * ((t ^ 3 - v ^ 3) / 3 - v ^ 2 * (t - v)) / 2).
  assert (I0 : forall t, u <= t <= v -> Rabs (f t - p t) <= 0).
  { apply (step_l f f1 p p1 (fun _ => 0) (fun _ => 0) u v D1); [unfold p, p1; poly|poly| |unfold p; field|reflexivity]. intros t Ht. rewrite Ropp_0. apply I1, Ht. }
  rewrite (zero_abs _ _ (I0 u ltac:(lra))). unfold p. rewrite (E u), (E v) by lra. field.
Qed.
End Cubic.

Lemma find_seg (xs : nat -> R) x : forall k, xs 0%nat <= x <= xs (S k) -> exists i, (i <= k)%nat /\ xs i <= x <= xs (S i).
Proof.
  induction k as [|k IH]; intros H; [exists 0%nat; auto|]. destruct (Rle_lt_dec x (xs (S k))) as [L|L].
  - destruct (IH ltac:(lra)) as (i & Hi & A). exists i. split; [lia|exact A].
  - exists (S k). split; [lia|lra].
Qed.

Section Error.
Context (n : nat) (xs : nat -> R) (f f1 f2 : R -> R) (F : nat -> R -> R) (H : R).
Context (Hn : (2 <= n)%nat) (Inc : increasing n xs) (Fy : forall i, (i < n)%nat -> f (xs i) = F 0%nat (xs i)).
Context (Fp : forall i, (S i < n)%nat -> exists p, is_poly 4 p /\ forall x, xs i <= x <= xs (S i) -> f x = p x).
Context (D1 : forall x, is_derive f x (f1 x)) (D2 : forall x, is_derive f1 x (f2 x)) (Cf : forall x, continuous f2 x) (Z0 : f2 (xs 0%nat) = 0) (Zn : f2 (xs (n - 1)%nat) = 0).
Context (Sp : forall i, (S i < n)%nat -> xs (S i) - xs i <= H).
Lemma in_range i x : (S i < n)%nat -> xs i <= x <= xs (S i) -> xs 0%nat <= x <= xs (n - 1)%nat.
Proof. intros Hi Hx. pose proof (inc_le n xs Hn Inc 0 i ltac:(lia) ltac:(lia)). pose proof (inc_le n xs Hn Inc (S i) (n - 1) ltac:(lia) ltac:(lia)). lra. Qed.
Lemma segment x : xs 0%nat <= x <= xs (n - 1)%nat -> exists i, (S i < n)%nat /\ xs i <= x <= xs (S i).
Proof. intros Hx. replace (n - 1)%nat with (S (n - 2)) in Hx by lia. destruct (find_seg xs x (n - 2) Hx) as (i & Hi & A). exists i. split; [lia|exact A]. Qed.
Lemma linear i : (S i < n)%nat -> exists al be, forall x, xs i <= x <= xs (S i) -> f2 x = al + be * x.
Proof. intros Hi. destruct (Fp i Hi) as (p & Pp & Ep). exact (second_linear f f1 f2 p (xs i) (xs (S i)) (Inc i Hi) Pp Ep D1 D2 Cf). Qed.
(** the moment equations *)
Lemma moments i : (S (S i) < n)%nat -> let h := xs (S (S i)) - xs (S i) in let l := xs (S i) - xs i in
  h * (f2 (xs (S i)) / 3 + f2 (xs (S (S i))) / 6) + l * (f2 (xs (S i)) / 3 + f2 (xs i) / 6) =
  (F 0%nat (xs (S (S i))) - F 0%nat (xs (S i))) / h - (F 0%nat (xs (S i)) - F 0%nat (xs i)) / l.
Proof.
  intros Hi h l. pose proof (Inc (S i) ltac:(lia)) as Lh. pose proof (Inc i ltac:(lia)) as Ll. rewrite <- !Fy by lia.
  destruct (linear (S i) ltac:(lia)) as (al & be & E). destruct (linear i ltac:(lia)) as (al' & be' & E').
  rewrite (cubic_r f f1 f2 (xs (S i)) (xs (S (S i))) Lh ltac:(intros; apply D1) ltac:(intros; apply D2) al be E).
  rewrite (cubic_l f f1 f2 (xs i) (xs (S i)) Ll ltac:(intros; apply D1) ltac:(intros; apply D2) al' be' E'). unfold h, l. field. lra.
Qed.
Lemma knots i x : (S i < n)%nat -> xs i <= x <= xs (S i) -> forall K, Rabs (f2 (xs i)) <= K -> Rabs (f2 (xs (S i))) <= K -> Rabs (f2 x) <= K.
Proof.
  intros Hi Hx K A B. destruct (linear i Hi) as (al & be & E). pose proof (Inc i Hi) as L. rewrite (E x Hx). rewrite (E (xs i)) in A by lra. rewrite (E (xs (S i))) in B by lra.
  apply Rabs_le_between in A. apply Rabs_le_between in B. apply Rabs_le. destruct (Rle_lt_dec 0 be); nra.
Qed.

(** ** Two derivatives *)
Section Two.
Context (M : R) (DF : derivatives (xs 0%nat) (xs (n - 1)%nat) 2 F) (BF : forall x, xs 0%nat <= x <= xs (n - 1)%nat -> Rabs (F 2%nat x) <= M).
Lemma M_pos : 0 <= M.
Proof. eapply Rle_trans; [apply Rabs_pos|apply (BF (xs 0%nat))]. pose proof (inc_le n xs Hn Inc 0 (n - 1) ltac:(lia) ltac:(lia)). lra. Qed.
Lemma second_bound x : xs 0%nat <= x <= xs (n - 1)%nat -> Rabs (f2 x) <= 3 * M.
Proof.
  intros Hx. assert (G : forall j, (j < n)%nat -> Rabs (f2 (xs j)) <= 6 * (M / 2)).
  { apply (stability n xs (fun i => f2 (xs i)) (M / 2) Hn Inc); [pose proof M_pos; lra|exact Z0|exact Zn|]. intros i Hi h l. unfold h, l. rewrite moments by exact Hi. clear h l.
    pose proof (Inc (S i) ltac:(lia)) as Lh. pose proof (Inc i ltac:(lia)) as Ll. set (u := xs i) in *. set (v := xs (S i)) in *. set (w := xs (S (S i))) in *.
    assert (Ri : forall t, u <= t <= v -> xs 0%nat <= t <= xs (n - 1)%nat) by (intros t Ht; apply (in_range i t ltac:(lia) Ht)).
    assert (Rj : forall t, v <= t <= w -> xs 0%nat <= t <= xs (n - 1)%nat) by (intros t Ht; apply (in_range (S i) t ltac:(lia) Ht)).
    pose proof (taylor2_r (F 0%nat) (F 1%nat) (F 2%nat) v w M ltac:(intros; apply DF; [lia|auto]) ltac:(intros; apply DF; [lia|auto]) ltac:(intros; apply BF; auto) w ltac:(lra)) as A.
    pose proof (taylor2_l (F 0%nat) (F 1%nat) (F 2%nat) u v M ltac:(intros; apply DF; [lia|auto]) ltac:(intros; apply DF; [lia|auto]) ltac:(intros; apply BF; auto) u ltac:(lra)) as B.
    set (r := F 0%nat w - (F 0%nat v + F 1%nat v * (w - v))) in *. set (q := F 0%nat u - (F 0%nat v + F 1%nat v * (u - v))) in *.
    replace ((F 0%nat w - F 0%nat v) / (w - v) - (F 0%nat v - F 0%nat u) / (v - u)) with (r / (w - v) + q / (v - u)) by (unfold r, q; field; lra).
    eapply Rle_trans; [apply Rabs_triang|]. rewrite (Rmult_plus_distr_r (w - v)).
    assert (Dv : forall z d, 0 < d -> Rabs z <= M * d ^ 2 / 2 -> Rabs (z / d) <= d * (M / 2)).
    { intros z d Hd Hz. unfold Rdiv. rewrite Rabs_mult, (Rabs_pos_eq (/ d)) by (left; apply Rinv_0_lt_compat, Hd). apply Rmult_le_reg_r with d; [exact Hd|]. rewrite Rmult_assoc, Rinv_l by lra. lra. }
    apply Rplus_le_compat; apply Dv; (lra || assumption). }
  destruct (segment x Hx) as (i & Hi & Hs). apply (knots i x Hi Hs); [pose proof (G i ltac:(lia))|pose proof (G (S i) ltac:(lia))]; lra.
Qed.
Lemma error2 x : xs 0%nat <= x <= xs (n - 1)%nat -> Rabs (F 0%nat x - f x) <= M * H ^ 2 / 2 /\ Rabs (F 1%nat x - f1 x) <= 2 * M * H.
Proof.
  intros Hx. destruct (segment x Hx) as (i & Hi & Hs). pose proof (Inc i Hi) as L. pose proof (Sp i Hi) as Hh. pose proof M_pos as M0.
  assert (Ri : forall t, xs i <= t <= xs (S i) -> xs 0%nat <= t <= xs (n - 1)%nat) by (intros t Ht; apply (in_range i t Hi Ht)).
  assert (A1 : forall t, xs i <= t <= xs (S i) -> is_derive (fun t => F 0%nat t - f t) t (F 1%nat t - f1 t)) by (intros t Ht; apply (is_derive_minus (F 0%nat) f); [apply DF; [lia|auto]|apply D1]).
  assert (A2 : forall t, xs i <= t <= xs (S i) -> is_derive (fun t => F 1%nat t - f1 t) t (F 2%nat t - f2 t)) by (intros t Ht; apply (is_derive_minus (F 1%nat) f1); [apply DF; [lia|auto]|apply D2]).
  assert (A3 : forall t, xs i <= t <= xs (S i) -> Rabs (F 2%nat t - f2 t) <= 4 * M).
  { intros t Ht. unfold Rminus. eapply Rle_trans; [apply Rabs_triang|]. rewrite Rabs_Ropp. pose proof (BF t (Ri t Ht)). pose proof (second_bound t (Ri t Ht)). lra. }
  assert (E : forall j, (j < n)%nat -> F 0%nat (xs j) - f (xs j) = 0) by (intros j Hj; rewrite Fy by exact Hj; ring).
  split.
  - eapply Rle_trans; [apply (between _ _ _ (xs i) (xs (S i)) (4 * M) L A1 A2 A3 (E i ltac:(lia)) (E (S i) Hi) x Hs)|].
    assert ((xs (S i) - xs i) ^ 2 <= H ^ 2) by (apply pow_incr; lra). assert (M * (xs (S i) - xs i) ^ 2 <= M * H ^ 2) by (apply Rmult_le_compat_l; lra). lra.
  - eapply Rle_trans; [apply (slope _ _ _ (xs i) (xs (S i)) (4 * M) L A1 A2 A3 (E i ltac:(lia)) (E (S i) Hi) x Hs)|].
    assert (M * (xs (S i) - xs i) <= M * H) by (apply Rmult_le_compat_l; lra). lra.
Qed.
End Two.

(** ** Four derivatives *)
Section Four.
Context (M : R) (DF : derivatives (xs 0%nat) (xs (n - 1)%nat) 4 F) (BF : forall x, xs 0%nat <= x <= xs (n - 1)%nat -> Rabs (F 4%nat x) <= M).
Context (N0 : F 2%nat (xs 0%nat) = 0) (Nn : F 2%nat (xs (n - 1)%nat) = 0).
Lemma M4_pos : 0 <= M.
Proof. eapply Rle_trans; [apply Rabs_pos|apply (BF (xs 0%nat))]. pose proof (inc_le n xs Hn Inc 0 (n - 1) ltac:(lia) ltac:(lia)). lra. Qed.
Lemma H_pos : 0 <= H.
Proof. pose proof (Inc 0%nat ltac:(lia)). pose proof (Sp 0%nat ltac:(lia)). lra. Qed.
Lemma knot_error : forall j, (j < n)%nat -> Rabs (f2 (xs j) - F 2%nat (xs j)) <= 6 * (M * H ^ 2 / 8).
Proof.
  pose proof M4_pos as M0. pose proof H_pos as H0. assert (P2 : 0 <= M * H ^ 2) by (apply Rmult_le_pos; [exact M0|apply pow2_ge_0]).
  apply (stability n xs (fun i => f2 (xs i) - F 2%nat (xs i)) (M * H ^ 2 / 8) Hn Inc); [lra|rewrite Z0, N0; ring|rewrite Zn, Nn; ring|]. intros i Hi h l.
  replace (h * ((f2 (xs (S i)) - F 2%nat (xs (S i))) / 3 + (f2 (xs (S (S i))) - F 2%nat (xs (S (S i)))) / 6) + l * ((f2 (xs (S i)) - F 2%nat (xs (S i))) / 3 + (f2 (xs i) - F 2%nat (xs i)) / 6))
    with ((h * (f2 (xs (S i)) / 3 + f2 (xs (S (S i))) / 6) + l * (f2 (xs (S i)) / 3 + f2 (xs i) / 6)) - h * (F 2%nat (xs (S i)) / 3 + F 2%nat (xs (S (S i))) / 6) - l * (F 2%nat (xs (S i)) / 3 + F 2%nat (xs i) / 6)) by field.
  unfold h, l. rewrite moments by exact Hi. clear h l.
  pose proof (Inc (S i) ltac:(lia)) as Lh. pose proof (Inc i ltac:(lia)) as Ll. pose proof (Sp (S i) ltac:(lia)) as Sh. pose proof (Sp i ltac:(lia)) as Sl.
  assert (Ri : forall t, xs i <= t <= xs (S i) -> xs 0%nat <= t <= xs (n - 1)%nat) by (intros t Ht; apply (in_range i t ltac:(lia) Ht)).
  assert (Rj : forall t, xs (S i) <= t <= xs (S (S i)) -> xs 0%nat <= t <= xs (n - 1)%nat) by (intros t Ht; apply (in_range (S i) t ltac:(lia) Ht)).
  set (u := xs i) in *. set (v := xs (S i)) in *. set (w := xs (S (S i))) in *.
  pose proof (taylor4_r (F 0%nat) (F 1%nat) (F 2%nat) (F 3%nat) (F 4%nat) v w M ltac:(intros; apply DF; [lia|auto]) ltac:(intros; apply DF; [lia|auto]) ltac:(intros; apply DF; [lia|auto]) ltac:(intros; apply DF; [lia|auto]) ltac:(intros; apply BF; auto) w ltac:(lra)) as A.
  pose proof (taylor4_l (F 0%nat) (F 1%nat) (F 2%nat) (F 3%nat) (F 4%nat) u v M ltac:(intros; apply DF; [lia|auto]) ltac:(intros; apply DF; [lia|auto]) ltac:(intros; apply DF; [lia|auto]) ltac:(intros; apply DF; [lia|auto]) ltac:(intros; apply BF; auto) u ltac:(lra)) as B.
  pose proof (taylor2_r (F 2%nat) (F 3%nat) (F 4%nat) v w M ltac:(intros; apply DF; [lia|auto]) ltac:(intros; apply DF; [lia|auto]) ltac:(intros; apply BF; auto) w ltac:(lra)) as C.
  pose proof (taylor2_l (F 2%nat) (F 3%nat) (F 4%nat) u v M ltac:(intros; apply DF; [lia|auto]) ltac:(intros; apply DF; [lia|auto]) ltac:(intros; apply BF; auto) u ltac:(lra)) as D.
  match type of A with Rabs ?z <= _ => set (r := z) in * end. match type of B with Rabs ?z <= _ => set (q := z) in * end.
  match type of C with Rabs ?z <= _ => set (r2 := z) in * end. match type of D with Rabs ?z <= _ => set (q2 := z) in * end.
  replace ((F 0%nat w - F 0%nat v) / (w - v) - (F 0%nat v - F 0%nat u) / (v - u) - (w - v) * (F 2%nat v / 3 + F 2%nat w / 6) - (v - u) * (F 2%nat v / 3 + F 2%nat u / 6))
    with ((r / (w - v) - (w - v) * r2 / 6) + (q / (v - u) - (v - u) * q2 / 6)) by (unfold r, q, r2, q2; field; lra).
  eapply Rle_trans; [apply Rabs_triang|]. rewrite (Rmult_plus_distr_r (w - v)).
  assert (Dv : forall z y d, 0 < d -> d <= H -> Rabs z <= M * d ^ 4 / 24 -> Rabs y <= M * d ^ 2 / 2 -> Rabs (z / d - d * y / 6) <= d * (M * H ^ 2 / 8)).
  { intros z y d Hd Hh Hz Hy. unfold Rminus. eapply Rle_trans; [apply Rabs_triang|]. rewrite Rabs_Ropp.
    assert (U1 : Rabs (z / d) <= M * d ^ 3 / 24).
    { unfold Rdiv at 1. rewrite Rabs_mult, (Rabs_pos_eq (/ d)) by (left; apply Rinv_0_lt_compat, Hd). apply Rmult_le_reg_r with d; [exact Hd|]. rewrite Rmult_assoc, Rinv_l by lra. lra. }
    assert (U2 : Rabs (d * y / 6) <= M * d ^ 3 / 12).
    { unfold Rdiv at 1. rewrite !Rabs_mult, (Rabs_pos_eq d), (Rabs_pos_eq (/ 6)) by lra. assert (d * Rabs y <= d * (M * d ^ 2 / 2)) by (apply Rmult_le_compat_l; lra). lra. }
    assert (U3 : M * d ^ 2 <= M * H ^ 2) by (apply Rmult_le_compat_l; [exact M0|apply pow_incr; lra]). assert (d * (M * d ^ 2) <= d * (M * H ^ 2)) by (apply Rmult_le_compat_l; lra). lra. }
  apply Rplus_le_compat; apply Dv; (lra || assumption).
Qed.
Lemma second_error x : xs 0%nat <= x <= xs (n - 1)%nat -> Rabs (F 2%nat x - f2 x) <= 7 / 8 * M * H ^ 2.
Proof.
  intros Hx. destruct (segment x Hx) as (i & Hi & Hs). pose proof (Inc i Hi) as L. pose proof (Sp i Hi) as Hh. pose proof M4_pos as M0.
  assert (Ri : forall t, xs i <= t <= xs (S i) -> xs 0%nat <= t <= xs (n - 1)%nat) by (intros t Ht; apply (in_range i t Hi Ht)).
  destruct (linear i Hi) as (al & be & E). pose proof (knot_error i ltac:(lia)) as K0. pose proof (knot_error (S i) Hi) as K1.
  set (u := xs i) in *. set (v := xs (S i)) in *.
  (* the chord of F 2 *)
  set (c1 := (F 2%nat v - F 2%nat u) / (v - u)). set (c := fun t => F 2%nat u + c1 * (t - u)).
  assert (B : Rabs (F 2%nat x - c x) <= M * (v - u) ^ 2 / 8).
  { apply (between (fun t => F 2%nat t - c t) (fun t => F 3%nat t - c1) (F 4%nat) u v M L).
    - intros t Ht. apply (is_derive_minus (F 2%nat) c); [apply DF; [lia|auto]|]. unfold c. poly.
    - intros t Ht. rewrite <- (Rminus_0_r (F 4%nat t)). apply (is_derive_minus (F 3%nat) (fun _ => c1)); [apply DF; [lia|auto]|]. poly.
    - intros t Ht. apply BF. auto.
    - unfold c. ring.
    - unfold c, c1. field. lra.
    - exact Hs. }
  assert (Q : Rabs (c x - f2 x) <= 6 * (M * H ^ 2 / 8)).
  { rewrite (E x Hs). rewrite (E u) in K0 by lra. rewrite (E v) in K1 by lra. set (K := 6 * (M * H ^ 2 / 8)) in *.
    assert (W : c x - (al + be * x) = ((v - x) * - (al + be * u - F 2%nat u) + (x - u) * - (al + be * v - F 2%nat v)) / (v - u)) by (unfold c, c1; field; lra).
    rewrite W. unfold Rdiv. rewrite Rabs_mult, (Rabs_pos_eq (/ (v - u))) by (left; apply Rinv_0_lt_compat; lra). apply Rmult_le_reg_r with (v - u); [lra|]. rewrite Rmult_assoc, Rinv_l, Rmult_1_r by lra.
    eapply Rle_trans; [apply Rabs_triang|]. rewrite !Rabs_mult, !Rabs_Ropp, (Rabs_pos_eq (v - x)), (Rabs_pos_eq (x - u)) by lra.
    assert ((v - x) * Rabs (al + be * u - F 2%nat u) <= (v - x) * K) by (apply Rmult_le_compat_l; lra). assert ((x - u) * Rabs (al + be * v - F 2%nat v) <= (x - u) * K) by (apply Rmult_le_compat_l; lra). lra. }
  replace (F 2%nat x - f2 x) with ((F 2%nat x - c x) + (c x - f2 x)) by ring. eapply Rle_trans; [apply Rabs_triang|].
  assert (M * (v - u) ^ 2 <= M * H ^ 2) by (apply Rmult_le_compat_l; [exact M0|apply pow_incr; lra]). lra.
Qed.
Lemma error4 x : xs 0%nat <= x <= xs (n - 1)%nat -> Rabs (F 0%nat x - f x) <= 7 / 64 * M * H ^ 4 /\ Rabs (F 1%nat x - f1 x) <= 7 / 16 * M * H ^ 3.
Proof.
  intros Hx. destruct (segment x Hx) as (i & Hi & Hs). pose proof (Inc i Hi) as L. pose proof (Sp i Hi) as Hh. pose proof M4_pos as M0. pose proof H_pos as H0.
  assert (Ri : forall t, xs i <= t <= xs (S i) -> xs 0%nat <= t <= xs (n - 1)%nat) by (intros t Ht; apply (in_range i t Hi Ht)).
  assert (A1 : forall t, xs i <= t <= xs (S i) -> is_derive (fun t => F 0%nat t - f t) t (F 1%nat t - f1 t)) by (intros t Ht; apply (is_derive_minus (F 0%nat) f); [apply DF; [lia|auto]|apply D1]).
  assert (A2 : forall t, xs i <= t <= xs (S i) -> is_derive (fun t => F 1%nat t - f1 t) t (F 2%nat t - f2 t)) by (intros t Ht; apply (is_derive_minus (F 1%nat) f1); [apply DF; [lia|auto]|apply D2]).
  assert (A3 : forall t, xs i <= t <= xs (S i) -> Rabs (F 2%nat t - f2 t) <= 7 / 8 * M * H ^ 2) by (intros t Ht; apply second_error, Ri, Ht).
  assert (E : forall j, (j < n)%nat -> F 0%nat (xs j) - f (xs j) = 0) by (intros j Hj; rewrite Fy by exact Hj; ring).
  assert (P2 : 0 <= M * H ^ 2) by (apply Rmult_le_pos; [exact M0|apply pow2_ge_0]).
  split.
  - eapply Rle_trans; [apply (between _ _ _ (xs i) (xs (S i)) _ L A1 A2 A3 (E i ltac:(lia)) (E (S i) Hi) x Hs)|].
    assert ((xs (S i) - xs i) ^ 2 <= H ^ 2) by (apply pow_incr; lra). assert (M * H ^ 2 * (xs (S i) - xs i) ^ 2 <= M * H ^ 2 * H ^ 2) by (apply Rmult_le_compat_l; lra). lra.
  - eapply Rle_trans; [apply (slope _ _ _ (xs i) (xs (S i)) _ L A1 A2 A3 (E i ltac:(lia)) (E (S i) Hi) x Hs)|].
    assert (M * H ^ 2 * (xs (S i) - xs i) <= M * H ^ 2 * H) by (apply Rmult_le_compat_l; lra). lra.
Qed.
End Four.
End Error.

(** * The theorems *)
(** the data are samples of F 0 *)
Definition samples (n : nat) (xs ys : nat -> R) (F : nat -> R -> R) : Prop := forall i, (i < n)%nat -> ys i = F 0%nat (xs i).
Definition spacing (n : nat) (xs : nat -> R) (H : R) : Prop := forall i, (S i < n)%nat -> xs (S i) - xs i <= H.

(** A function with |F''| <= M sampled at knots at most H apart: the spline is within M H^2 / 2 of it, its slope within 2 M H, and the spline bends at most
    three times as much. *)
Theorem C121_second_order : forall n xs ys s f F M H, spline_new n xs ys = Some s -> (forall x, spline_eval s x = Some (f x)) ->
  samples n xs ys F -> spacing n xs H -> derivatives (xs 0%nat) (xs (n - 1)%nat) 2 F ->
  (forall x, xs 0%nat <= x <= xs (n - 1)%nat -> Rabs (F 2%nat x) <= M) ->
  forall x, xs 0%nat <= x <= xs (n - 1)%nat ->
    Rabs (F 0%nat x - f x) <= M * H ^ 2 / 2 /\
    exists d1 d2, is_derive f x d1 /\ Rabs (F 1%nat x - d1) <= 2 * M * H /\ is_derive (Derive f) x d2 /\ Rabs d2 <= 3 * M.
Proof.
  intros n xs ys s f F M H Hs Ev Sa Sp DF BF x Hx. destruct (proj1 (C47_construction n xs ys) (ex_intro _ s Hs)) as (Hn & Inc). destruct (C47_natural_cubic_spline n xs ys s Hs) as (f' & Ev' & Fy & Fp & f1 & f2 & D1 & D2 & Cf & Z0 & Zn).
  assert (Ef : forall x, f' x = f x) by (intros t; specialize (Ev t); rewrite Ev' in Ev; injection Ev as E; exact E).
  assert (Fy' : forall i, (i < n)%nat -> f' (xs i) = F 0%nat (xs i)) by (intros i Hi; rewrite Fy by exact Hi; apply Sa, Hi).
  destruct (error2 n xs f' f1 f2 F H Hn Inc Fy' Fp D1 D2 Cf Z0 Zn Sp M DF BF x Hx) as [A B]. rewrite <- Ef. split; [exact A|]. exists (f1 x), (f2 x).
  split; [apply (is_derive_ext f'); [exact Ef|apply D1]|]. split; [exact B|].
  split; [|apply (second_bound n xs f' f1 f2 F Hn Inc Fy' Fp D1 D2 Cf Z0 Zn M DF BF x Hx)].
  apply (is_derive_ext f1); [|apply D2]. intros t. symmetry. apply is_derive_unique. apply (is_derive_ext f'); [exact Ef|apply D1].
Qed.
(** A smoother function that does not bend at the two ends is followed to the fourth order. *)
Theorem C121_fourth_order : forall n xs ys s f F M H, spline_new n xs ys = Some s -> (forall x, spline_eval s x = Some (f x)) ->
  samples n xs ys F -> spacing n xs H -> derivatives (xs 0%nat) (xs (n - 1)%nat) 4 F ->
  (forall x, xs 0%nat <= x <= xs (n - 1)%nat -> Rabs (F 4%nat x) <= M) ->
  F 2%nat (xs 0%nat) = 0 -> F 2%nat (xs (n - 1)%nat) = 0 ->
  forall x, xs 0%nat <= x <= xs (n - 1)%nat ->
    Rabs (F 0%nat x - f x) <= 7 / 64 * M * H ^ 4 /\
    exists d1 d2, is_derive f x d1 /\ Rabs (F 1%nat x - d1) <= 7 / 16 * M * H ^ 3 /\ is_derive (Derive f) x d2 /\ Rabs (F 2%nat x - d2) <= 7 / 8 * M * H ^ 2.
Proof.
  intros n xs ys s f F M H Hs Ev Sa Sp DF BF N0 Nn x Hx. destruct (proj1 (C47_construction n xs ys) (ex_intro _ s Hs)) as (Hn & Inc). destruct (C47_natural_cubic_spline n xs ys s Hs) as (f' & Ev' & Fy & Fp & f1 & f2 & D1 & D2 & Cf & Z0 & Zn).
  assert (Ef : forall x, f' x = f x) by (intros t; specialize (Ev t); rewrite Ev' in Ev; injection Ev as E; exact E).
  assert (Fy' : forall i, (i < n)%nat -> f' (xs i) = F 0%nat (xs i)) by (intros i Hi; rewrite Fy by exact Hi; apply Sa, Hi).
  destruct (error4 n xs f' f1 f2 F H Hn Inc Fy' Fp D1 D2 Cf Z0 Zn Sp M DF BF N0 Nn x Hx) as [A B]. rewrite <- Ef. split; [exact A|]. exists (f1 x), (f2 x).
  split; [apply (is_derive_ext f'); [exact Ef|apply D1]|]. split; [exact B|].
  split; [|apply (second_error n xs f' f1 f2 F H Hn Inc Fy' Fp D1 D2 Cf Z0 Zn Sp M DF BF N0 Nn x Hx)].
  apply (is_derive_ext f1); [|apply D2]. intros t. symmetry. apply is_derive_unique. apply (is_derive_ext f'); [exact Ef|apply D1].
Qed.
(** Refining the knots, the splines converge to the function, uniformly. *)
Theorem C121_converges : forall a b F M, derivatives a b 2 F -> (forall x, a <= x <= b -> Rabs (F 2%nat x) <= M) ->
  forall eps, 0 < eps -> exists H, 0 < H /\ forall n xs ys s, spline_new n xs ys = Some s -> xs 0%nat = a -> xs (n - 1)%nat = b -> samples n xs ys F -> spacing n xs H ->
    forall x, a <= x <= b -> exists v, spline_eval s x = Some v /\ Rabs (F 0%nat x - v) <= eps.
Proof.
  intros a b F M DF BF eps He. set (K := Rabs M + 1). assert (K1 : 1 <= K) by (unfold K; pose proof (Rabs_pos M); lra). assert (KM : M <= K) by (unfold K; pose proof (Rle_abs M); lra).
  exists (Rmin 1 (eps / K)). assert (E0 : 0 < eps / K) by (apply Rdiv_lt_0_compat; lra). split; [apply Rmin_pos; lra|].
  intros n xs ys s Hs Ea Eb Sa Sp x Hx. destruct (C47_natural_cubic_spline n xs ys s Hs) as (f & Ev & _). exists (f x). split; [apply Ev|].
  subst a b. destruct (C121_second_order n xs ys s f F K (Rmin 1 (eps / K)) Hs Ev Sa Sp DF) with (x := x) as [A _]; [intros t Ht; eapply Rle_trans; [apply BF, Ht|exact KM]|exact Hx|].
  eapply Rle_trans; [exact A|]. set (m := Rmin 1 (eps / K)) in *. assert (m <= 1) by apply Rmin_l. assert (m <= eps / K) by apply Rmin_r. assert (0 < m) by (apply Rmin_pos; lra).
  assert (m ^ 2 <= m) by (simpl; nra). assert (Q : K * m ^ 2 <= K * (eps / K)) by (apply Rmult_le_compat_l; lra). replace (K * (eps / K)) with eps in Q by (field; lra). lra.
Qed.
(** The condition at the ends is needed: the parabola has no fourth derivative to speak of, yet its spline is another function, however fine the knots. *)
Theorem C121_end_condition_needed : exists F : nat -> R -> R, derivatives 0 2 4 F /\ (forall x, F 4%nat x = 0) /\ (forall x, F 0%nat x = x ^ 2) /\
  forall n xs ys s, spline_new n xs ys = Some s -> xs 0%nat = 0 -> xs (n - 1)%nat = 2 -> samples n xs ys F ->
    exists x v, 0 <= x <= 2 /\ spline_eval s x = Some v /\ v <> x ^ 2.
Proof.
  exists (fun k x => match k with 0%nat => x ^ 2 | 1%nat => 2 * x | 2%nat => 2 | _ => 0 end). split.
  { intros k x Hk _. destruct k as [|[|[|[|k]]]]; [poly|poly|poly|poly|lia]. }
  split; [reflexivity|]. split; [reflexivity|]. intros n xs ys s Hs E0 E2 Sa.
  destruct (C47_natural_cubic_spline n xs ys s Hs) as (f & Ev & Fy & Fp & f1 & f2 & D1 & D2 & Cf & Z0 & Zn).
  destruct (classic (forall x, 0 <= x <= 2 -> f x = x ^ 2)) as [A|Na]; [|apply not_all_ex_not in Na; destruct Na as (x & Nx)].
  - exfalso.
    assert (I1 : forall x, 0 < x < 2 -> f1 x = 2 * x).
    { intros x Hx. rewrite <- (is_derive_unique f x (f1 x) (D1 x)). apply is_derive_unique. apply (is_derive_ext_loc (fun x => x ^ 2)); [|poly].
      assert (P : 0 < Rmin x (2 - x)) by (apply Rmin_pos; lra). exists (mkposreal _ P). intros y Hy. unfold ball in Hy; cbn in Hy. unfold AbsRing_ball, abs, minus, plus, opp in Hy; cbn in Hy. apply Rabs_def2 in Hy. pose proof (Rmin_l x (2 - x)). pose proof (Rmin_r x (2 - x)). symmetry. apply A. lra. }
    assert (I2 : forall x, 0 < x < 2 -> f2 x = 2).
    { intros x Hx. rewrite <- (is_derive_unique f1 x (f2 x) (D2 x)). apply is_derive_unique. apply (is_derive_ext_loc (fun x => 2 * x)); [|poly].
      assert (P : 0 < Rmin x (2 - x)) by (apply Rmin_pos; lra). exists (mkposreal _ P). intros y Hy. unfold ball in Hy; cbn in Hy. unfold AbsRing_ball, abs, minus, plus, opp in Hy; cbn in Hy. apply Rabs_def2 in Hy. pose proof (Rmin_l x (2 - x)). pose proof (Rmin_r x (2 - x)). symmetry. apply I1. lra. }
    rewrite E0 in Z0. destruct (Cf 0 (ball (f2 0) (mkposreal 1 Rlt_0_1)) (locally_ball _ _)) as (e & He).
    set (y := Rmin 1 (e / 2)). pose proof (cond_pos e). assert (0 < y) by (apply Rmin_pos; lra). assert (y <= 1) by apply Rmin_l. assert (y <= e / 2) by apply Rmin_r.
    assert (B : ball 0 e y) by (unfold ball; cbn; unfold AbsRing_ball, abs, minus, plus, opp; cbn; rewrite Ropp_0, Rplus_0_r, Rabs_pos_eq by lra; lra).
    apply He in B. unfold ball in B; cbn in B. unfold AbsRing_ball, abs, minus, plus, opp in B; cbn in B. rewrite Z0, (I2 y ltac:(lra)), Ropp_0, Rplus_0_r, Rabs_pos_eq in B by lra. lra.
  - apply imply_to_and in Nx. destruct Nx as [Hx Ne]. exists x, (f x). auto.
Qed.

(** the sine over half a period, sampled at five points: within 7/64 (PI/4)^4 *)
Definition sine (k : nat) (x : R) : R := match k with 0%nat => sin x | 1%nat => cos x | 2%nat => - sin x | 3%nat => - cos x | _ => sin x end.
Example C121_nontrivial : exists s, spline_new 5 (fun i => INR i * (PI / 4)) (fun i => sin (INR i * (PI / 4))) = Some s /\
  forall x, 0 <= x <= PI -> exists v, spline_eval s x = Some v /\ Rabs (sin x - v) <= 7 / 64 * (PI / 4) ^ 4.
Proof.
  pose proof PI_RGT_0 as Pp. set (xs := fun i => INR i * (PI / 4)).
  assert (St : forall i, xs (S i) - xs i = PI / 4) by (intros i; unfold xs; rewrite S_INR; ring).
  assert (Hc : (2 <= 5)%nat /\ increasing 5 xs) by (split; [lia|intros i _; pose proof (St i); lra]).
  destruct (proj2 (C47_construction 5 xs (fun i => sin (xs i))) Hc) as (s & E). exists s. split; [exact E|].
  destruct (C47_natural_cubic_spline _ _ _ s E) as (f & Ev & _). intros x Hx. exists (f x). split; [apply Ev|].
  assert (X0 : xs 0%nat = 0) by (unfold xs; cbn; ring). assert (X4 : xs (5 - 1)%nat = PI) by (unfold xs; cbn; field).
  destruct (C121_fourth_order 5 xs (fun i => sin (xs i)) s f sine 1 (PI / 4) E Ev) with (x := x) as [A _].
  - intros i _. reflexivity.
  - intros i _. rewrite St. lra.
  - intros k t Hk _. unfold sine. destruct k as [|[|[|[|k]]]]; [| | | |lia]; auto_derive; auto; ring.
  - intros t _. cbn. apply Rabs_le. pose proof (SIN_bound t). lra.
  - rewrite X0. cbn. rewrite sin_0. ring.
  - rewrite X4. cbn. rewrite sin_PI. ring.
  - rewrite X0, X4. exact Hx.
  - cbn in A. cbn. lra.
Qed.
