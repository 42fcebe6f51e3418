(** C135: the natural cubic spline in floating point.  The second derivatives and the values are computed with an error
    of a fixed number of roundings that does not grow with the number of knots. *)
From Coq Require Import ZArith QArith Qreals Reals Lra Lia Bool Arith List Psatz.
From Verif Require Import Scalar InterpModel InterpProofs InterpFloatModel.
From Flocq Require Import Core BinarySingleNaN.
From Verif Require Import FloatModel RoundProps StatsFloatProps InterpFloatProps SplineFloatProps StatsFloatModel Apx DcmRoundProps GeoFloatProps.
Import ListNotations.
Local Open Scope R_scope.

(** ** What the forward sweep leaves behind, any arithmetic *)
Section Generic.
Context {F : Type} (o : ops F).
Definition f_sig (xs : nat -> F) (i : nat) : F := div o (sub o (xs i) (xs (i - 1)%nat)) (sub o (xs (i + 1)%nat) (xs (i - 1)%nat)).
Definition f_slope (xs ys : nat -> F) (i : nat) : F := div o (sub o (ys (i + 1)%nat) (ys i)) (sub o (xs (i + 1)%nat) (xs i)).
Definition f_rhs (xs ys : nat -> F) (i : nat) : F :=
  div o (mul o (lit o 6) (sub o (f_slope xs ys i) (div o (sub o (ys i) (ys (i - 1)%nat)) (sub o (xs i) (xs (i - 1)%nat))))) (sub o (xs (i + 1)%nat) (xs (i - 1)%nat)).
Definition f_p (xs : nat -> F) (sd : F) (i : nat) : F := add o (mul o (f_sig xs i) sd) (lit o 2).
Lemma g_sweep_steps n xs ys sd u : for_ 1 (n - 1) (g_sweep o xs ys) (fun _ => zero o, fun _ => zero o) = (sd, u) -> (1 <= n - 1)%nat ->
  forall i, (1 <= i < n - 1)%nat ->
    sd i = div o (sub o (f_sig xs i) (one o)) (f_p xs (sd (i - 1)%nat) i) /\
    u i = div o (sub o (f_rhs xs ys i) (mul o (f_sig xs i) (u (i - 1)%nat))) (f_p xs (sd (i - 1)%nat) i).
Proof.
  intros H N. pose (Q := fun (m : nat) (s : (nat -> F) * (nat -> F)) => forall i, (1 <= i < m)%nat ->
    fst s i = div o (sub o (f_sig xs i) (one o)) (f_p xs (fst s (i - 1)%nat) i) /\
    snd s i = div o (sub o (f_rhs xs ys i) (mul o (f_sig xs i) (snd s (i - 1)%nat))) (f_p xs (fst s (i - 1)%nat) i)).
  assert (K : Q (n - 1)%nat (for_ 1 (n - 1) (g_sweep o xs ys) (fun _ => zero o, fun _ => zero o))).
  { apply (for_ind Q); [lia|intros i Hi; lia|]. intros i [d v] Hi IH j Hj. unfold g_sweep. cbn [fst snd] in *.
    destruct (Nat.eq_dec j i) as [->|Ne].
    - rewrite !upd_same, !upd_other by lia. split; reflexivity.
    - rewrite !upd_other by lia. apply IH. lia. }
  rewrite H in K. exact K.
Qed.
End Generic.

(** ** Specification *)
(** slope of the data over interval [i] *)
Definition slope (xs ys : nat -> R) (i : nat) : R := (ys (i + 1)%nat - ys i) / (xs (i + 1)%nat - xs i).
(** finite data of size at most [B], with strictly increasing knots; [C] bounds the sizes of the divided differences from
    which the second derivatives are computed; nothing overflows and underflow is below rounding *)
Definition tame {prec emax} (n : nat) (xs ys : nat -> binary_float prec emax) (B C : R) : Prop :=
  let x := fun i => B2R (xs i) in let y := fun i => B2R (ys i) in
  (2 <= n)%nat /\ 1 <= B /\ 0 < C /\ 1000 * (C + 1) * B * B <= largest prec emax /\ 2000 * tiny prec emax <= unit prec * C /\
  (forall i, (i < n)%nat -> is_finite (xs i) = true /\ is_finite (ys i) = true /\ Rabs (x i) <= B /\ Rabs (y i) <= B) /\
  (forall i, (i + 1 < n)%nat -> x i < x (i + 1)%nat) /\
  (forall i, (1 <= i)%nat -> (i + 1 < n)%nat -> let H := x (i + 1)%nat - x (i - 1)%nat in
     6 * (Rabs (slope x y i) + Rabs (slope x y (i - 1)%nat)) <= C * H /\ 2000 * tiny prec emax <= unit prec * (C * H)).

Section Width.
Context (prec emax : Z) {P : Prec_gt_0 prec} {M : Prec_lt_emax prec emax}.
Context (Hp : (24 <= prec)%Z) (He : (64 <= emax)%Z).
Local Notation fl := (binary_float prec emax).
Local Notation u := (unit prec).
Local Notation eta := (tiny prec emax).
Local Notation o := (float_ops prec emax).

Lemma diff_apx (a b : fl) B : is_finite a = true -> is_finite b = true -> Rabs (B2R a) <= B -> Rabs (B2R b) <= B -> 2 * B <= largest prec emax ->
  apx (sub o a b) (B2R a - B2R b) (u * Rabs (B2R a - B2R b)).
Proof.
  intros Fa Fb Ba Bb L. eapply apx_weak; [apply (apx_sub prec emax) with (1 := apx_exact prec emax a Fa) (2 := apx_exact prec emax b Fb) (b := Rabs (B2R a - B2R b)); [lra|]|lra].
  pose proof (Rabs_triang (B2R a) (- B2R b)) as T. rewrite Rabs_Ropp in T. unfold Rminus. lra.
Qed.
Lemma quot e c H : 0 < H -> 0 <= c -> e <= c * H -> e / (H - u * H) <= 1001 / 1000 * c.
Proof.
  intros PH Pc L. pose proof (u_pos prec). pose proof (u24 prec Hp). assert (UH : u * H <= / 16777216 * H) by (apply Rmult_le_compat_r; lra).
  apply (Rmult_le_reg_r (H - u * H)); [lra|]. unfold Rdiv. rewrite Rmult_assoc, Rinv_l, Rmult_1_r by lra.
  assert (0 <= c * H) by (apply Rmult_le_pos; lra). assert (c * (u * H) <= c * (/ 16777216 * H)) by (apply Rmult_le_compat_l; assumption). lra.
Qed.
(** a part of an interval, relative to it *)
Lemma part_apx (x0 x1 a b : fl) B : is_finite x0 = true -> is_finite x1 = true -> is_finite a = true -> is_finite b = true ->
  Rabs (B2R x0) <= B -> Rabs (B2R x1) <= B -> Rabs (B2R a) <= B -> Rabs (B2R b) <= B -> 2 * B <= largest prec emax ->
  B2R x0 < B2R x1 -> 0 <= B2R b - B2R a <= B2R x1 - B2R x0 ->
  apx (div o (sub o b a) (sub o x1 x0)) ((B2R b - B2R a) / (B2R x1 - B2R x0)) (31 / 10 * u) /\ 0 <= (B2R b - B2R a) / (B2R x1 - B2R x0) <= 1.
Proof.
  intros F0 F1 Fa Fb B0 B1 Ba Bb L Lt In. pose proof (u_pos prec) as Pu. pose proof (u24 prec Hp) as U. pose proof (eta_u prec emax He) as Eu. pose proof (eta_pos prec emax) as Pe.
  pose proof (largest63 prec emax Hp He) as G. pose proof (diff_apx b a B Fb Fa Bb Ba L) as Dn. pose proof (diff_apx x1 x0 B F1 F0 B1 B0 L) as Dd.
  set (X := B2R b - B2R a) in *. set (H := B2R x1 - B2R x0) in *. assert (PH : 0 < H) by (unfold H; lra). rewrite (Rabs_pos_eq X) in Dn by lra. rewrite (Rabs_pos_eq H) in Dd by lra.
  assert (UU : 0 <= u * u <= / 16777216 * u) by (split; [apply Rmult_le_pos; lra|apply Rmult_le_compat_r; lra]).
  assert (UH : u * H <= / 16777216 * H) by (apply Rmult_le_compat_r; lra). assert (UX : u * X <= u * H) by (apply Rmult_le_compat_l; lra).
  assert (Q : 0 <= X / H <= 1).
  { split; [apply Rmult_le_pos; [lra|left; apply Rinv_0_lt_compat, PH]|]. apply (Rmult_le_reg_r H); [lra|]. unfold Rdiv. rewrite Rmult_assoc, Rinv_l by lra. lra. }
  split; [|exact Q]. assert (K : (u * X + 1 * (u * H)) / (H - u * H) <= 1001 / 1000 * (2 * u)) by (apply quot; lra).
  assert (K' : u * ((u * X + 1 * (u * H)) / (H - u * H)) <= u * (1001 / 1000 * (2 * u))) by (apply Rmult_le_compat_l; lra).
  eapply apx_weak; [apply (apx_div prec emax) with (1 := Dn) (2 := Dd) (m := H) (b := 1)|].
  - lra.
  - rewrite Rabs_pos_eq; lra.
  - rewrite Rabs_pos_eq; lra.
  - lra.
  - lra.
Qed.
(** a slope *)
Lemma slope_apx (x0 x1 y0 y1 : fl) B : is_finite x0 = true -> is_finite x1 = true -> is_finite y0 = true -> is_finite y1 = true ->
  Rabs (B2R x0) <= B -> Rabs (B2R x1) <= B -> Rabs (B2R y0) <= B -> Rabs (B2R y1) <= B -> 2 * B <= largest prec emax -> B2R x0 < B2R x1 ->
  let s := (B2R y1 - B2R y0) / (B2R x1 - B2R x0) in 2 * Rabs s <= largest prec emax ->
  apx (div o (sub o y1 y0) (sub o x1 x0)) s (301 / 100 * (Rabs s * u) + eta).
Proof.
  intros F0 F1 G0 G1 B0 B1 C0 C1 L Lt s Ls. pose proof (u_pos prec) as Pu. pose proof (u24 prec Hp) as U.
  pose proof (diff_apx y1 y0 B G1 G0 C1 C0 L) as Dn. pose proof (diff_apx x1 x0 B F1 F0 B1 B0 L) as Dd.
  set (X := B2R y1 - B2R y0) in *. set (H := B2R x1 - B2R x0) in *. assert (PH : 0 < H) by (unfold H; lra). rewrite (Rabs_pos_eq H) in Dd by lra.
  assert (UH : u * H <= / 16777216 * H) by (apply Rmult_le_compat_r; lra).
  assert (EX : Rabs X = Rabs s * H) by (unfold s; rewrite <- (Rabs_pos_eq H) at 2 by lra; rewrite <- Rabs_mult; f_equal; field; lra).
  pose proof (Rabs_pos s) as Ps. set (S := Rabs s) in *. assert (SU : 0 <= S * u) by (apply Rmult_le_pos; lra).
  assert (SUU : 0 <= S * u * u <= / 16777216 * (S * u)) by (split; [apply Rmult_le_pos; lra|rewrite Rmult_comm; apply Rmult_le_compat_r; lra]).
  assert (SU' : S * u <= / 16777216 * S) by (rewrite Rmult_comm; apply Rmult_le_compat_r; lra).
  assert (K : (u * Rabs X + S * (u * H)) / (H - u * H) <= 1001 / 1000 * (2 * (S * u))) by (apply quot; [exact PH|lra|rewrite EX; lra]).
  assert (K' : u * ((u * Rabs X + S * (u * H)) / (H - u * H)) <= u * (1001 / 1000 * (2 * (S * u)))) by (apply Rmult_le_compat_l; lra).
  eapply apx_weak; [apply (apx_div prec emax) with (1 := Dn) (2 := Dd) (m := H) (b := S)|].
  - lra.
  - rewrite Rabs_pos_eq; lra.
  - apply Rle_refl.
  - lra.
  - lra.
Qed.
Lemma lit6_apx : apx (lit o 6) 6 0.
Proof. destruct (lit6_value prec emax ltac:(lia)) as [V F]. split; [exact F|]. rewrite V, Rminus_diag_eq, Rabs_R0 by reflexivity. lra. Qed.
Lemma lit2_apx : apx (lit o 2) 2 0.
Proof.
  cbn [lit float_ops Qnum Qden]. pose proof (int_exact prec emax Hp He 2 ltac:(lia)) as [Fa Va]. pose proof (int_exact prec emax Hp He 1 ltac:(lia)) as [_ V1].
  pose proof (largest63 prec emax Hp He) as G.
  assert (Ea : B2R (binary_normalize prec emax P M mode_NE 2 0 false) = 2) by (apply Rabs_le_inv in Va; lra).
  assert (E1 : B2R (binary_normalize prec emax P M mode_NE 1 0 false) = 1) by (apply Rabs_le_inv in V1; lra).
  set (na := binary_normalize prec emax P M mode_NE 2 0 false) in *. set (n1 := binary_normalize prec emax P M mode_NE 1 0 false) in *.
  assert (F : is_finite (div o na n1) = true).
  { apply (div_ok prec emax); [rewrite E1; lra|exact Fa|]. rewrite Ea, E1. rewrite Rabs_pos_eq; lra. }
  split; [exact F|]. destruct (StatsFloatProps.div_fin prec emax na n1 ltac:(rewrite E1; lra) F) as (_ & V). cbn [div float_ops] in V. rewrite V.
  rewrite E1. replace (B2R na / 1) with (B2R na) by lra. rewrite (rd_id prec emax). rewrite Ea, Rminus_diag_eq, Rabs_R0 by reflexivity. lra.
Qed.

Section Data.
Context (n : nat) (xs ys : nat -> fl) (B C : R) (T : tame n xs ys B C).
Local Notation x := (fun i => B2R (xs i)).
Local Notation y := (fun i => B2R (ys i)).
Let Pu : 0 < u := u_pos prec.
Let U : u <= / 16777216 := u24 prec Hp.
Lemma PC : 0 < C. Proof. apply T. Qed.
Lemma EC : 0 < 2000 * eta <= u * C. Proof. pose proof (eta_pos prec emax). split; [lra|apply T]. Qed.
Lemma CU : 0 < C * u <= / 16777216 * C /\ 0 <= C * u * u <= / 16777216 * (C * u) /\ 0 <= C * u * u * u <= / 16777216 * (C * u * u) /\ 0 <= u * u <= / 16777216 * u /\ 0 <= u * u * u <= / 16777216 * (u * u).
Proof.
  pose proof PC. assert (A : 0 < C * u) by (apply Rmult_lt_0_compat; assumption). assert (A2 : 0 < C * u * u) by (apply Rmult_lt_0_compat; assumption).
  assert (A3 : 0 < C * u * u * u) by (apply Rmult_lt_0_compat; assumption). assert (B2 : 0 < u * u) by (apply Rmult_lt_0_compat; assumption). assert (B3 : 0 < u * u * u) by (apply Rmult_lt_0_compat; assumption).
  assert (K : forall z, 0 < z -> z * u <= / 16777216 * z) by (intros z Hz; apply (Rmult_le_compat_l z) in U; lra).
  pose proof (K _ A). pose proof (K _ A2). pose proof (K _ Pu). pose proof (K _ B2). pose proof (K _ H). repeat split; lra.
Qed.
Lemma room1 : 1000 * C <= largest prec emax /\ 1000 * (C * B) <= largest prec emax /\ 1000 * B <= largest prec emax.
Proof.
  destruct T as (_ & B1 & C0 & L & _). assert (BB : B <= B * B) by nra. assert (0 < C * B) by (apply Rmult_lt_0_compat; lra). assert (C * B <= C * (B * B)) by (apply Rmult_le_compat_l; lra). 
  assert (C <= C * B) by nra. repeat split; nra.
Qed.
Lemma inc i j : (i < j)%nat -> (j < n)%nat -> x i < x j.
Proof.
  destruct T as (_ & _ & _ & _ & _ & _ & I & _). intros H Hj. induction j as [|j IH]; [lia|]. destruct (Nat.eq_dec i j) as [->|Ne].
  - replace (S j) with (j + 1)%nat by lia. apply I. lia.
  - apply Rlt_trans with (x j); [apply IH; lia|]. replace (S j) with (j + 1)%nat by lia. apply I. lia.
Qed.
Lemma data i : (i < n)%nat -> is_finite (xs i) = true /\ is_finite (ys i) = true /\ Rabs (B2R (xs i)) <= B /\ Rabs (B2R (ys i)) <= B.
Proof. apply T. Qed.
Definition r_sig (i : nat) : R := (x i - x (i - 1)%nat) / (x (i + 1)%nat - x (i - 1)%nat).
Definition r_rhs (i : nat) : R := 6 * (slope x y i - slope x y (i - 1)%nat) / (x (i + 1)%nat - x (i - 1)%nat).
Lemma sig_apx i : (1 <= i)%nat -> (i + 1 < n)%nat -> apx (f_sig o xs i) (r_sig i) (31 / 10 * u) /\ 0 <= r_sig i <= 1.
Proof.
  intros H1 H2. destruct (data i ltac:(lia)) as (F & _ & Bd & _), (data (i - 1) ltac:(lia)) as (F' & _ & Bd' & _), (data (i + 1) ltac:(lia)) as (F'' & _ & Bd'' & _).
  pose proof (inc (i - 1) i ltac:(lia) ltac:(lia)) as I1. pose proof (inc i (i + 1) ltac:(lia) ltac:(lia)) as I2. cbv beta in I1, I2. pose proof room1 as (_ & _ & L). destruct T as (_ & B1 & _).
  apply (part_apx (xs (i - 1)%nat) (xs (i + 1)%nat) (xs (i - 1)%nat) (xs i) B); try assumption; lra.
Qed.
Lemma rhs_apx i : (1 <= i)%nat -> (i + 1 < n)%nat -> apx (f_rhs o xs ys i) (r_rhs i) (71 / 10 * (C * u)) /\ Rabs (r_rhs i) <= C.
Proof.
  intros H1 H2. destruct (data i ltac:(lia)) as (F & G & Bd & Cd), (data (i - 1) ltac:(lia)) as (F' & G' & Bd' & Cd'), (data (i + 1) ltac:(lia)) as (F'' & G'' & Bd'' & Cd'').
  pose proof (inc (i - 1) i ltac:(lia) ltac:(lia)) as I1. pose proof (inc i (i + 1) ltac:(lia) ltac:(lia)) as I2. cbv beta in I1, I2.
  pose proof room1 as (L1 & L2 & L3). pose proof CU as (C1 & C2 & C3 & U2 & U3). pose proof EC as E0. pose proof (eta_u prec emax He) as E1. pose proof (eta_pos prec emax) as Pe.
  pose proof T as (_ & B1 & C0 & _ & _ & _ & _ & TT). destruct (TT i H1 H2) as [T1 T2]. cbv zeta beta in T1, T2. pose proof (largest63 prec emax Hp He) as G63.
  assert (D : apx (sub o (xs (i + 1)%nat) (xs (i - 1)%nat)) (x (i + 1)%nat - x (i - 1)%nat) (u * Rabs (x (i + 1)%nat - x (i - 1)%nat))) by (apply (diff_apx _ _ B); try assumption; lra).
  unfold r_rhs. set (H := x (i + 1)%nat - x (i - 1)%nat) in *. cbv beta in H. assert (PH : 0 < H) by (unfold H; lra). rewrite (Rabs_pos_eq H) in D by lra.
  assert (HB : H <= 2 * B) by (unfold H; apply Rabs_le_inv in Bd'; apply Rabs_le_inv in Bd''; lra).
  assert (CH : C * H <= 2 * (C * B)) by nra. assert (PCH : 0 < C * H) by (apply Rmult_lt_0_compat; assumption).
  set (s1 := slope x y i) in *. set (s0 := slope x y (i - 1)%nat) in *. pose proof (Rabs_pos s1) as P1. pose proof (Rabs_pos s0) as P0.
  assert (A1 : apx (f_slope o xs ys i) s1 (301 / 100 * (Rabs s1 * u) + eta)).
  { apply (slope_apx (xs i) (xs (i + 1)%nat) (ys i) (ys (i + 1)%nat) B); try assumption; try lra. change (2 * Rabs s1 <= largest prec emax). lra. }
  assert (A0 : apx (div o (sub o (ys i) (ys (i - 1)%nat)) (sub o (xs i) (xs (i - 1)%nat))) s0 (301 / 100 * (Rabs s0 * u) + eta)).
  { unfold s0, slope. replace (i - 1 + 1)%nat with i by lia. apply (slope_apx (xs (i - 1)%nat) (xs i) (ys (i - 1)%nat) (ys i) B); try assumption; try lra.
    replace ((B2R (ys i) - B2R (ys (i - 1)%nat)) / (B2R (xs i) - B2R (xs (i - 1)%nat))) with s0 by (unfold s0, slope; replace (i - 1 + 1)%nat with i by lia; reflexivity). lra. }
  set (W := Rabs s1 + Rabs s0) in *. assert (PW : 0 <= W) by (unfold W; lra). assert (WU : 0 <= W * u) by (apply Rmult_le_pos; lra).
  assert (WUU : 0 <= W * u * u <= / 16777216 * (W * u)) by (split; [apply Rmult_le_pos; lra|rewrite Rmult_comm; apply Rmult_le_compat_r; lra]).
  assert (WU' : W * u <= / 16777216 * W) by (rewrite Rmult_comm; apply Rmult_le_compat_r; lra). assert (EU : 0 <= eta * u <= / 16777216 * eta) by (split; [apply Rmult_le_pos; lra|rewrite Rmult_comm; apply Rmult_le_compat_r; lra]).
  assert (BW : Rabs (s1 - s0) <= W) by (unfold W, Rminus; rewrite <- (Rabs_Ropp s0); apply Rabs_triang).
  assert (A2 : apx (sub o (f_slope o xs ys i) (div o (sub o (ys i) (ys (i - 1)%nat)) (sub o (xs i) (xs (i - 1)%nat)))) (s1 - s0) (402 / 100 * (W * u) + 21 / 10 * eta)).
  { eapply apx_weak; [apply (apx_sub prec emax) with (1 := A1) (2 := A0) (b := W); [exact BW|unfold W in *; lra]|unfold W in *; lra]. }
  assert (A3 : apx (mul o (lit o 6) (sub o (f_slope o xs ys i) (div o (sub o (ys i) (ys (i - 1)%nat)) (sub o (xs i) (xs (i - 1)%nat))))) (6 * (s1 - s0)) (302 / 10 * (W * u) + 14 * eta)).
  { eapply apx_weak; [apply (apx_mul prec emax) with (1 := lit6_apx) (2 := A2) (bx := 6) (by_ := W); [rewrite Rabs_pos_eq; lra|exact BW|lra]|lra]. }
  assert (BR : Rabs (6 * (s1 - s0) / H) <= C).
  { unfold Rdiv. rewrite !Rabs_mult, Rabs_inv, (Rabs_pos_eq 6), (Rabs_pos_eq H) by lra. apply (Rmult_le_reg_r H); [exact PH|]. rewrite Rmult_assoc, Rinv_l by lra. lra. }
  split; [|exact BR]. assert (UH : u * H <= / 16777216 * H) by (apply Rmult_le_compat_r; lra).
  assert (WC : 6 * (W * u) <= C * u * H) by (apply (Rmult_le_compat_r u) in T1; lra).
  assert (K : (302 / 10 * (W * u) + 14 * eta + C * (u * H)) / (H - u * H) <= 1001 / 1000 * (605 / 100 * (C * u))) by (apply quot; [exact PH|lra|lra]).
  assert (K' : u * ((302 / 10 * (W * u) + 14 * eta + C * (u * H)) / (H - u * H)) <= u * (1001 / 1000 * (605 / 100 * (C * u)))) by (apply Rmult_le_compat_l; lra).
  unfold f_rhs. eapply apx_weak; [apply (apx_div prec emax) with (1 := A3) (2 := D) (m := H) (b := C)|].
  - lra.
  - rewrite Rabs_pos_eq; lra.
  - exact BR.
  - lra.
  - lra.
Qed.

(** the forward sweep *)
Lemma sweep_apx sd v : for_ 1 (n - 1) (g_sweep o xs ys) (fun _ => zero o, fun _ => zero o) = (sd, v) ->
  forall sd' v', for_ 1 (n - 1) (sweep x y) (fun _ => 0, fun _ => 0) = (sd', v') ->
  forall i, (i < n)%nat -> (apx (sd i) (sd' i) (72 / 10 * u) /\ - / 2 <= sd' i <= 0) /\ (apx (v i) (v' i) (90 * (C * u)) /\ Rabs (v' i) <= 2 * C).
Proof.
  intros H sd' v' H'. pose proof T as (N & _). pose proof CU as (C1 & C2 & C3 & U2 & U3). pose proof EC as E0. pose proof (eta_u prec emax He) as E1. pose proof PC as C0. pose proof (eta_pos prec emax) as Pe.
  assert (EU : eta <= / 10 ^ 9 * u) by apply eta_u, He. pose proof room1 as (L1 & L2 & L3). pose proof (largest63 prec emax Hp He) as G63.
  assert (H'' : for_ 1 (n - 1) (g_sweep Rops x y) (fun _ => zero Rops, fun _ => zero Rops) = (sd', v')).
  { rewrite <- H'. cbn [zero Rops]. apply for_ext. intros j [d w] _. unfold sweep, g_sweep. rewrite lit2, lit6. reflexivity. }
  pose proof (g_sweep_steps o n xs ys sd v H ltac:(lia)) as St. pose proof (g_sweep_steps Rops n x y sd' v' H'' ltac:(lia)) as St'.
  pose proof (g_sweep_ends o n xs ys sd v H ltac:(lia)) as En. pose proof (g_sweep_ends Rops n x y sd' v' H'' ltac:(lia)) as En'.
  assert (Z0 : apx (zero o : fl) 0 0) by (split; [reflexivity|cbn; rewrite Rminus_diag_eq, Rabs_R0 by reflexivity; lra]).
  assert (End : forall i, (i = 0 \/ n - 1 <= i)%nat -> (apx (sd i) (sd' i) (72 / 10 * u) /\ - / 2 <= sd' i <= 0) /\ (apx (v i) (v' i) (90 * (C * u)) /\ Rabs (v' i) <= 2 * C)).
  { intros i Hi. destruct (En i Hi) as [-> ->]. destruct (En' i Hi) as [-> ->]. cbn [zero Rops]. rewrite Rabs_R0.
    split; (split; [eapply apx_weak; [exact Z0|lra]|lra]). }
  induction i as [|i IH]; intros Hi; [apply End; lia|]. destruct (le_lt_dec (n - 1) (S i)) as [Ge|Lt]; [apply End; lia|].
  destruct (IH ltac:(lia)) as [[Ad Bd] [Av Bv]]. clear IH End En En'.
  destruct (St (S i) ltac:(lia)) as [-> ->]. destruct (St' (S i) ltac:(lia)) as [-> ->]. clear St St'. replace (S i - 1)%nat with i by lia.
  destruct (sig_apx (S i) ltac:(lia) ltac:(lia)) as [As Bs]. destruct (rhs_apx (S i) ltac:(lia) ltac:(lia)) as [Ar Br].
  change (f_sig Rops x (S i)) with (r_sig (S i)). 
  assert (Er : f_rhs Rops x y (S i) = r_rhs (S i)).
  { unfold f_rhs, f_slope, r_rhs, slope. rewrite lit6. replace (S i - 1 + 1)%nat with (S i) by lia. reflexivity. }
  rewrite Er. unfold f_p. rewrite lit2. change (f_sig Rops x (S i)) with (r_sig (S i)). cbn [Rops add sub mul div one].
  set (g := r_sig (S i)) in *. set (r := r_rhs (S i)) in *. set (fg := f_sig o xs (S i)) in *. set (fr := f_rhs o xs ys (S i)) in *.
  assert (Gd : - / 2 <= g * sd' i <= 0) by nra.
  assert (K1 : apx (mul o fg (sd i)) (g * sd' i) (93 / 10 * u)).
  { eapply apx_weak; [apply (apx_mul prec emax) with (1 := As) (2 := Ad) (bx := 1) (by_ := / 2); [rewrite Rabs_pos_eq; lra|apply Rabs_le; lra|lra]|lra]. }
  assert (K2 : apx (add o (mul o fg (sd i)) (lit o 2)) (g * sd' i + 2) (113 / 10 * u + / 100 * u)).
  { eapply apx_weak; [apply (apx_add prec emax) with (1 := K1) (2 := lit2_apx) (b := 2); [rewrite Rabs_pos_eq; lra|lra]|lra]. }
  assert (Pp : 2 - g / 2 <= g * sd' i + 2 <= 2) by nra.
  assert (K3 : apx (sub o fg (one o)) (g - 1) (411 / 100 * u)).
  { eapply apx_weak; [apply (apx_sub prec emax) with (1 := As) (2 := one_apx prec emax) (b := 1); [apply Rabs_le; lra|lra]|lra]. }
  set (p := g * sd' i + 2) in *. set (fp := add o (mul o fg (sd i)) (lit o 2)) in *. clearbody fp.
  assert (Q : forall e, 0 <= e -> e / (3 / 2 - (113 / 10 * u + / 100 * u)) <= 6667 / 10000 * e).
  { intros e Pe'. apply (Rmult_le_reg_r (3 / 2 - (113 / 10 * u + / 100 * u))); [lra|]. unfold Rdiv at 1. rewrite Rmult_assoc, Rinv_l by lra.
    assert (e * u <= / 16777216 * e) by (rewrite Rmult_comm; apply Rmult_le_compat_r; lra). lra. }
  assert (Bn : - / 2 <= (g - 1) / p <= 0).
  { split; apply (Rmult_le_reg_r p); try lra; unfold Rdiv; rewrite Rmult_assoc, Rinv_l by lra; lra. }
  assert (GC : 0 <= g * C <= C) by (split; [apply Rmult_le_pos; lra|nra]).
  assert (Bgv : Rabs (g * v' i) <= 2 * (g * C)) by (rewrite Rabs_mult, (Rabs_pos_eq g) by lra; pose proof (Rmult_le_compat_l g _ _ (proj1 Bs) Bv); lra).
  assert (Bn2 : Rabs (r - g * v' i) <= C + 2 * (g * C)) by (unfold Rminus; eapply Rle_trans; [apply Rabs_triang|]; rewrite Rabs_Ropp; lra).
  assert (Bq : Rabs ((r - g * v' i) / p) <= 2 * C).
  { unfold Rdiv. rewrite Rabs_mult, Rabs_inv, (Rabs_pos_eq p) by lra. apply (Rmult_le_reg_r p); [lra|]. rewrite Rmult_assoc, Rinv_l by lra.
    assert (2 * C * (2 - g / 2) <= 2 * C * p) by (apply Rmult_le_compat_l; lra). lra. }
  split; split.
  - pose proof (Q (411 / 100 * u + / 2 * (113 / 10 * u + / 100 * u)) ltac:(lra)) as Q1. assert (Q2 := Q1). apply (Rmult_le_compat_l u) in Q2; [|lra].
    eapply apx_weak; [apply (apx_div prec emax) with (1 := K3) (2 := K2) (m := 3 / 2) (b := / 2)|].
    + lra.
    + rewrite Rabs_pos_eq; lra.
    + apply Rabs_le; lra.
    + lra.
    + lra.
  - exact Bn.
  - assert (K4 : apx (mul o fg (v i)) (g * v' i) (984 / 10 * (C * u))).
    { eapply apx_weak; [apply (apx_mul prec emax) with (1 := As) (2 := Av) (bx := 1) (by_ := 2 * C); [rewrite Rabs_pos_eq; lra|exact Bv|lra]|lra]. }
    assert (Bnum : Rabs (r - g * v' i) <= 3 * C) by lra.
    assert (K5 : apx (sub o fr (mul o fg (v i))) (r - g * v' i) (1086 / 10 * (C * u))).
    { eapply apx_weak; [apply (apx_sub prec emax) with (1 := Ar) (2 := K4) (b := 3 * C); [exact Bnum|lra]|lra]. }
    pose proof (Q (1086 / 10 * (C * u) + 2 * C * (113 / 10 * u + / 100 * u)) ltac:(lra)) as Q1. assert (Q2 := Q1). apply (Rmult_le_compat_l u) in Q2; [|lra].
    eapply apx_weak; [apply (apx_div prec emax) with (1 := K5) (2 := K2) (m := 3 / 2) (b := 2 * C)|].
    + lra.
    + rewrite Rabs_pos_eq; lra.
    + exact Bq.
    + lra.
    + lra.
  - exact Bq.
Qed.

Lemma rising : InterpSpec.increasing n x.
Proof. pose proof T as (_ & _ & _ & _ & _ & _ & I & _). intros i Hi. rewrite <- Nat.add_1_r. apply I. lia. Qed.
(** back substitution *)
Lemma back_apx sd v sd' v' : for_ 1 (n - 1) (g_sweep o xs ys) (fun _ => zero o, fun _ => zero o) = (sd, v) ->
  for_ 1 (n - 1) (sweep x y) (fun _ => 0, fun _ => 0) = (sd', v') ->
  forall d i, (i + d = n - 1)%nat -> apx (g_back o n sd v i) (back n sd' v' i) (256 * (C * u)) /\ Rabs (back n sd' v' i) <= 4 * C.
Proof.
  intros H H'. pose proof T as (N & _). pose proof CU as (C1 & C2 & C3 & U2 & U3). pose proof EC as E0. pose proof PC as C0. pose proof (eta_pos prec emax) as Pe.
  pose proof room1 as (L1 & L2 & L3). pose proof (sweep_apx sd v H sd' v' H') as S.
  destruct (g_back_step o n sd v) as [G1 G2]. destruct (g_back_step Rops n sd' v') as [R1 R2]. change (g_back Rops n sd' v') with (back n sd' v') in R1, R2.
  pose proof (g_sweep_ends o n xs ys sd v H ltac:(lia) (n - 1)%nat ltac:(lia)) as [En _].
  induction d as [|d IH]; intros i Hi.
  - replace i with (n - 1)%nat by lia. rewrite G2, R2 by lia. destruct (S (n - 1)%nat ltac:(lia)) as [[A Bd] _].
    assert (Z : sd' (n - 1)%nat = 0).
    { assert (H'' : for_ 1 (n - 1) (g_sweep Rops x y) (fun _ => zero Rops, fun _ => zero Rops) = (sd', v')).
      { rewrite <- H'. cbn [zero Rops]. apply for_ext. intros j [d w] _. unfold sweep, g_sweep. rewrite lit2, lit6. reflexivity. }
      apply (g_sweep_ends Rops n x y sd' v' H'' ltac:(lia) (n - 1)%nat ltac:(lia)). }
    rewrite Z, En, Rabs_R0. split; [|lra]. split; [reflexivity|]. cbn. rewrite Rminus_diag_eq, Rabs_R0 by reflexivity. lra.
  - destruct (IH (i + 1)%nat ltac:(lia)) as [Am Bm]. rewrite G1, R1 by lia. cbn [Rops add mul].
    destruct (S i ltac:(lia)) as [[Ad Bd] [Av Bv]]. set (m := g_back o n sd v (i + 1)%nat) in *. set (m' := back n sd' v' (i + 1)%nat) in *.
    assert (K1 : apx (mul o (sd i) m) (sd' i * m') (159 * (C * u))).
    { eapply apx_weak; [apply (apx_mul prec emax) with (1 := Ad) (2 := Am) (bx := / 2) (by_ := 4 * C); [apply Rabs_le; lra|exact Bm|lra]|lra]. }
    assert (B1 : Rabs (sd' i * m') <= 2 * C) by (rewrite Rabs_mult; assert (Rabs (sd' i) * Rabs m' <= / 2 * (4 * C)) by (apply Rmult_le_compat; try apply Rabs_pos; [apply Rabs_le; lra|exact Bm]); lra).
    assert (B2 : Rabs (sd' i * m' + v' i) <= 4 * C) by (eapply Rle_trans; [apply Rabs_triang|]; lra).
    split; [|exact B2]. eapply apx_weak; [apply (apx_add prec emax) with (1 := K1) (2 := Av) (b := 4 * C); [exact B2|lra]|lra].
Qed.
Lemma built : exists s q, g_spline_new o n xs ys = Some s /\ spline_new n x y = Some q /\ gs_xs s = xs /\ gs_ys s = ys /\ s_xs q = x /\ s_ys q = y /\
  forall i, (i < n)%nat -> apx (gs_m s i) (s_m q i) (256 * (C * u)) /\ Rabs (s_m q i) <= 4 * C.
Proof.
  pose proof T as (N & _ & _ & _ & _ & _ & I & _).
  destruct (proj2 (C127_spline_construction prec emax n xs ys ltac:(intros i Hi; apply (data i Hi)))) as [s Hs]; [split; [exact N|exact rising]|].
  destruct (g_spline_some o n xs ys s Hs) as (_ & _ & E1 & E2 & sd & v & E3 & E4).
  assert (Hq : exists q, spline_new n x y = Some q /\ s_xs q = x /\ s_ys q = y /\ exists sd' v', for_ 1 (n - 1) (sweep x y) (fun _ => 0, fun _ => 0) = (sd', v') /\ s_m q = back n sd' v').
  { unfold spline_new. destruct (Nat.ltb_spec n 2) as [|_]; [lia|].
    destruct (forM_ind (fun _ _ => True) 0 (n - 1) (fun i (_ : Datatypes.unit) => if Rleb (x (i + 1)%nat) (x i) then None else Some tt) tt) as ([] & E & _); [lia|exact Logic.I| |].
    - intros i [] Hi _. exists tt. rewrite (proj2 (Rleb_false _ _)) by (apply I; lia). auto.
    - cbv beta in E. rewrite E. destruct (for_ 1 (n - 1) (sweep x y) (fun _ => 0, fun _ => 0)) as [sd' v'] eqn:Es. eexists. split; [reflexivity|]. cbn [s_xs s_ys s_m]. split; [reflexivity|]. split; [reflexivity|]. exists sd', v'. auto. }
  destruct Hq as (q & Hq & Q1 & Q2 & sd' & v' & Q3 & Q4). exists s, q. split; [exact Hs|]. split; [exact Hq|]. repeat (split; [assumption|]).
  intros i Hi. rewrite E4, Q4. apply (back_apx sd v sd' v' E3 Q3 (n - 1 - i)%nat i). lia.
Qed.
Lemma same_segment (s : g_spline n) (q : spline n) X : gs_xs s = xs -> s_xs q = x -> is_finite X = true -> g_segment o s X = segment_index q (B2R X).
Proof.
  intros Ex Eq FX. pose proof T as (N & _). assert (Fi : forall i, (i < n)%nat -> is_finite (xs i) = true) by (intros i Hi; apply (data i Hi)).
  unfold g_segment, segment_index. rewrite Ex, Eq. rewrite !leb_iff by (auto; apply Fi; lia). destruct (Rleb (B2R X) _); [reflexivity|]. destruct (Rleb _ (B2R X)); [reflexivity|]. f_equal.
  apply (while_ext (fun lh : nat * nat => (fst lh < snd lh)%nat /\ (snd lh <= n - 1)%nat)); [cbn; lia|]. intros [lo hi] [A Bh] K. cbn [fst snd] in *. apply Nat.ltb_lt in K.
  set (mid := ((lo + hi) / 2)%nat). assert (Hm : (lo < mid < hi)%nat).
  { unfold mid. assert (Z := Nat.div_mod (lo + hi) 2 ltac:(lia)). assert (Z' := Nat.mod_upper_bound (lo + hi) 2 ltac:(lia)). lia. }
  rewrite leb_iff by (auto; apply Fi; lia). split; [reflexivity|]. intros [lo' hi']. cbn [fst snd]. destruct (Rleb _ _); intros W; injection W as <- <-; lia.
Qed.
Lemma cubic_bound a : 0 <= a <= 1 -> Rabs (a * a * a - a) <= 2 / 5.
Proof. intros H. apply Rabs_le. split; [|nra]. assert (0 <= (a - 577 / 1000) * (a - 577 / 1000) * (a + 1154 / 1000)) by (apply Rmult_le_pos; [apply Rle_0_sqr|lra]). nra. Qed.
End Data.

(** The second derivatives at the knots: 256 roundings of the largest divided difference, whatever the number of knots. *)
Theorem C135_second_derivatives : forall n (xs ys : nat -> fl) B C, tame n xs ys B C ->
  exists s q, g_spline_new o n xs ys = Some s /\ spline_new n (fun i => B2R (xs i)) (fun i => B2R (ys i)) = Some q /\
    forall i, (i < n)%nat -> apx (gs_m s i) (s_m q i) (256 * (C * u)).
Proof.
  intros n xs ys B C T. destruct (built n xs ys B C T) as (s & q & H1 & H2 & _ & _ & _ & _ & H3). exists s, q. split; [exact H1|]. split; [exact H2|]. intros i Hi. apply H3, Hi.
Qed.
(** The values between the knots. *)
Theorem C135_values : forall n (xs ys : nat -> fl) B C Y h (t : fl), tame n xs ys B C -> is_finite t = true ->
  B2R (xs 0%nat) <= B2R t <= B2R (xs (n - 1)%nat) -> (forall i, (i < n)%nat -> Rabs (B2R (ys i)) <= Y) ->
  (forall i, (i + 1 < n)%nat -> B2R (xs (i + 1)%nat) - B2R (xs i) <= h) ->
  exists s q v V, g_spline_new o n xs ys = Some s /\ spline_new n (fun i => B2R (xs i)) (fun i => B2R (ys i)) = Some q /\
    g_spline_eval o s t = Some v /\ spline_eval q (B2R t) = Some V /\
    apx v V (11 * (Y * u) + 60 * (C * (h * h) * u) + (4 * C + 5) * eta).
Proof.
  intros n xs ys B C Y h t T Ft Ht HY Hh. destruct (built n xs ys B C T) as (s & q & H1 & H2 & E1 & E2 & E3 & E4 & H3).
  exists s, q. pose proof (same_segment n xs ys B C T s q t E1 E3 Ft) as Sg. pose proof T as (N & B1 & C0 & L & _ & _ & I & _).
  destruct (segment_ok q (B2R t) N ltac:(intros i Hi; rewrite E3; apply (rising n xs ys B C T); exact Hi)) as (i & Es & R1 & R2 & R3). rewrite E3 in R2, R3.
  unfold g_spline_eval, spline_eval. rewrite Sg, Es. cbn [option_map]. eexists _, _. split; [exact H1|]. split; [exact H2|]. split; [reflexivity|]. split; [reflexivity|].
  assert (In : B2R (xs i) <= B2R t <= B2R (xs (i + 1)%nat)).
  { split; [destruct R2 as [R2| ->]; [assumption|lra]|]. destruct R3 as [R3|R3]; [exact R3|]. replace (i + 1)%nat with (n - 1)%nat by lia. lra. }
  destruct (data n xs ys B C T i ltac:(lia)) as (F0 & G0 & Bx0 & By0). destruct (data n xs ys B C T (i + 1) ltac:(lia)) as (F1 & G1 & Bx1 & By1).
  pose proof (I i R1) as Lt. cbv beta in Lt. specialize (Hh i R1). pose proof (HY i ltac:(lia)) as Y0. pose proof (HY (i + 1)%nat ltac:(lia)) as Y1.
  destruct (H3 i ltac:(lia)) as [M0 N0]. destruct (H3 (i + 1)%nat ltac:(lia)) as [M1 N1].
  pose proof (u_pos prec) as Pu. pose proof (u24 prec Hp) as U. pose proof (eta_pos prec emax) as Pe.
  pose proof (CU n xs ys B C T) as (C1 & C2 & C3 & U2 & U3). pose proof (EC n xs ys B C T) as E0. pose proof (eta_u prec emax He) as Eu. pose proof (room1 n xs ys B C T) as (L1 & L2 & L3). pose proof (largest63 prec emax Hp He) as G63.
  assert (Bt : Rabs (B2R t) <= B) by (apply Rabs_le_inv in Bx0; apply Rabs_le_inv in Bx1; apply Rabs_le; lra).
  destruct (part_apx (xs i) (xs (i + 1)%nat) t (xs (i + 1)%nat) B F0 F1 Ft F1 Bx0 Bx1 Bt Bx1 ltac:(lra) Lt ltac:(lra)) as [Aa Ba].
  destruct (part_apx (xs i) (xs (i + 1)%nat) (xs i) t B F0 F1 F0 Ft Bx0 Bx1 Bx0 Bt ltac:(lra) Lt ltac:(lra)) as [Ab Bb].
  pose proof (diff_apx (xs (i + 1)%nat) (xs i) B F1 F0 Bx1 Bx0 ltac:(lra)) as Ah.
  unfold g_cubic, segment_value. rewrite E1, E2, E3, E4. cbv zeta.
  set (w := B2R (xs (i + 1)%nat) - B2R (xs i)) in *. assert (Pw : 0 < w) by (unfold w; lra). rewrite (Rabs_pos_eq w) in Ah by lra.
  assert (wB : w <= 2 * B) by (unfold w; apply Rabs_le_inv in Bx0; apply Rabs_le_inv in Bx1; lra).
  set (fa := div o (sub o (xs (i + 1)%nat) t) (sub o (xs (i + 1)%nat) (xs i))) in *. set (fb := div o (sub o t (xs i)) (sub o (xs (i + 1)%nat) (xs i))) in *.
  set (a := (B2R (xs (i + 1)%nat) - B2R t) / w) in *. set (b := (B2R t - B2R (xs i)) / w) in *.
  assert (ab : a + b = 1) by (unfold a, b, w; field; lra).
  clearbody fa fb a b. clear R2 R3 Sg Es H3.
  assert (Cub : forall (fz m : fl) z m', apx fz z (31 / 10 * u) -> 0 <= z <= 1 -> apx m m' (256 * (C * u)) -> Rabs m' <= 4 * C ->
    apx (mul o (sub o (mul o (mul o fz fz) fz) fz) m) ((z * z * z - z) * m') (165 * (C * u)) /\ Rabs ((z * z * z - z) * m') <= 8 / 5 * C).
  { intros fz m z m' Az Bz Am Bm. assert (Rz : Rabs z <= 1) by (rewrite Rabs_pos_eq; lra).
    assert (K1 : apx (mul o fz fz) (z * z) (73 / 10 * u)) by (eapply apx_weak; [apply (apx_mul prec emax) with (1 := Az) (2 := Az) (bx := 1) (by_ := 1); [exact Rz|exact Rz|lra]|lra]).
    assert (Rzz : Rabs (z * z) <= 1) by (rewrite Rabs_pos_eq; nra).
    assert (K2 : apx (mul o (mul o fz fz) fz) (z * z * z) (115 / 10 * u)) by (eapply apx_weak; [apply (apx_mul prec emax) with (1 := K1) (2 := Az) (bx := 1) (by_ := 1); [exact Rzz|exact Rz|lra]|lra]).
    pose proof (cubic_bound z Bz) as Rc.
    assert (K3 : apx (sub o (mul o (mul o fz fz) fz) fz) (z * z * z - z) (151 / 10 * u)) by (eapply apx_weak; [apply (apx_sub prec emax) with (1 := K2) (2 := Az) (b := 2 / 5); [exact Rc|lra]|lra]).
    split.
    - eapply apx_weak; [apply (apx_mul prec emax) with (1 := K3) (2 := Am) (bx := 2 / 5) (by_ := 4 * C); [exact Rc|exact Bm|lra]|lra].
    - pose proof (prod1 _ _ _ _ Rc Bm). lra. }
  destruct (Cub fa (gs_m s i) a (s_m q i) Aa Ba M0 N0) as [P0 Q0]. destruct (Cub fb (gs_m s (i + 1)%nat) b (s_m q (i + 1)%nat) Ab Bb M1 N1) as [P1 Q1]. clear Cub.
  assert (BS : Rabs ((a * a * a - a) * s_m q i + (b * b * b - b) * s_m q (i + 1)%nat) <= 16 / 5 * C) by (eapply Rle_trans; [apply Rabs_triang|]; lra).
  assert (S1 : apx (add o (mul o (sub o (mul o (mul o fa fa) fa) fa) (gs_m s i)) (mul o (sub o (mul o (mul o fb fb) fb) fb) (gs_m s (i + 1)%nat)))
    ((a * a * a - a) * s_m q i + (b * b * b - b) * s_m q (i + 1)%nat) (334 * (C * u))).
  { eapply apx_weak; [apply (apx_add prec emax) with (1 := P0) (2 := P1) (b := 16 / 5 * C); [exact BS|lra]|lra]. }
  (* the squared width *)
  assert (w2 : 0 < w * w <= 4 * (B * B)) by (split; nra). assert (BB : 1 <= B * B) by nra.
  assert (LB : 1000 * (B * B) <= largest prec emax) by nra. assert (LC : 1000 * (C * (B * B)) <= largest prec emax) by nra.
  set (Q := w * w) in *. assert (QU : 0 < Q * u <= / 16777216 * Q) by (split; [apply Rmult_lt_0_compat; lra|rewrite Rmult_comm; apply Rmult_le_compat_r; lra]).
  assert (QUU : 0 <= Q * u * u <= / 16777216 * (Q * u)) by (split; [apply Rmult_le_pos; lra|rewrite (Rmult_comm (Q * u)); apply Rmult_le_compat_r; lra]).
  assert (QUUU : 0 <= Q * u * u * u <= / 16777216 * (Q * u * u)) by (split; [apply Rmult_le_pos; lra|rewrite (Rmult_comm (Q * u * u)); apply Rmult_le_compat_r; lra]).
  assert (EU : 0 <= eta * u <= / 16777216 * eta) by (split; [apply Rmult_le_pos; lra|rewrite Rmult_comm; apply Rmult_le_compat_r; lra]).
  assert (W1 : apx (mul o (sub o (xs (i + 1)%nat) (xs i)) (sub o (xs (i + 1)%nat) (xs i))) (w * w) (301 / 100 * (Q * u) + eta)).
  { eapply apx_weak; [apply (apx_mul prec emax) with (1 := Ah) (2 := Ah) (bx := w) (by_ := w); [rewrite Rabs_pos_eq; lra|rewrite Rabs_pos_eq; lra|]|].
    - replace ((w + u * w) * (w + u * w)) with (Q + 2 * (Q * u) + Q * u * u) by (unfold Q; ring). lra.
    - replace (w * (u * w) + w * (u * w) + u * w * (u * w) + u * ((w + u * w) * (w + u * w)) + eta) with (3 * (Q * u) + 3 * (Q * u * u) + Q * u * u * u + eta) by (unfold Q; ring). lra. }
  assert (W2 : apx (div o (mul o (sub o (xs (i + 1)%nat) (xs i)) (sub o (xs (i + 1)%nat) (xs i))) (lit o 6)) (w * w / 6) (67 / 100 * (Q * u) + 6 / 5 * eta)).
  { fold Q in W1. fold Q. eapply apx_weak; [apply (apx_div prec emax) with (1 := W1) (2 := lit6_apx) (m := 6) (b := Q / 6)|].
    - lra.
    - rewrite Rabs_pos_eq; lra.
    - rewrite Rabs_pos_eq; lra.
    - lra.
    - lra. }
  fold Q in W2. fold Q.
  set (cub := (a * a * a - a) * s_m q i + (b * b * b - b) * s_m q (i + 1)%nat) in *.
  set (fcub := add o (mul o (sub o (mul o (mul o fa fa) fa) fa) (gs_m s i)) (mul o (sub o (mul o (mul o fb fb) fb) fb) (gs_m s (i + 1)%nat))) in *.
  set (fw := div o (mul o (sub o (xs (i + 1)%nat) (xs i)) (sub o (xs (i + 1)%nat) (xs i))) (lit o 6)) in *. clearbody fcub fw cub.
  pose proof (Rmult_lt_0_compat _ _ C0 (proj1 w2)) as CQ. assert (CQB : C * Q <= 4 * (C * (B * B))) by (pose proof (Rmult_le_compat_l C _ _ ltac:(lra) (proj2 w2)); lra).
  set (Z := C * Q) in *. assert (ZU : 0 < Z * u <= / 16777216 * Z) by (split; [apply Rmult_lt_0_compat; lra|rewrite Rmult_comm; apply Rmult_le_compat_r; lra]).
  assert (ZUU : 0 <= Z * u * u <= / 16777216 * (Z * u)) by (split; [apply Rmult_le_pos; lra|rewrite (Rmult_comm (Z * u)); apply Rmult_le_compat_r; lra]).
  assert (ZUUU : 0 <= Z * u * u * u <= / 16777216 * (Z * u * u)) by (split; [apply Rmult_le_pos; lra|rewrite (Rmult_comm (Z * u * u)); apply Rmult_le_compat_r; lra]).
  assert (CE : 0 < C * eta) by (apply Rmult_lt_0_compat; lra). assert (CEU : 0 <= C * eta * u <= / 16777216 * (C * eta)) by (split; [apply Rmult_le_pos; lra|rewrite (Rmult_comm (C * eta)); apply Rmult_le_compat_r; lra]).
  assert (CEUU : 0 <= C * eta * u * u <= / 16777216 * (C * eta * u)) by (split; [apply Rmult_le_pos; lra|rewrite (Rmult_comm (C * eta * u)); apply Rmult_le_compat_r; lra]).
  assert (CE1 : C * eta <= C) by nra.
  assert (V1 : apx (mul o fcub fw) (cub * (Q / 6)) (59 * (Z * u) + (39 / 10 * C + 2) * eta)).
  { eapply apx_weak; [apply (apx_mul prec emax) with (1 := S1) (2 := W2) (bx := 16 / 5 * C) (by_ := Q / 6); [exact BS|rewrite Rabs_pos_eq; lra|]|].
    - unfold Z in *. lra.
    - unfold Z in *. lra. }
  assert (BV : Rabs (cub * (Q / 6)) <= 8 / 15 * Z) by (pose proof (prod1 cub (Q / 6) (16 / 5 * C) (Q / 6) BS ltac:(rewrite Rabs_pos_eq; lra)); unfold Z; lra).
  (* the linear part *)
  assert (PY : 0 <= Y) by (pose proof (Rabs_pos (B2R (ys i))); lra). 
  assert (YB : Y <= B \/ B < Y) by lra. 
  set (Y' := Rmin Y B). assert (Y0' : Rabs (B2R (ys i)) <= Y') by (apply Rmin_glb; assumption). assert (Y1' : Rabs (B2R (ys (i + 1)%nat)) <= Y') by (apply Rmin_glb; assumption).
  assert (YY : 0 <= Y' <= Y) by (split; [pose proof (Rabs_pos (B2R (ys i))); lra|apply Rmin_l]). assert (YL : Y' <= B) by apply Rmin_r. clearbody Y'.
  assert (YU : 0 <= Y' * u <= / 16777216 * Y') by (split; [apply Rmult_le_pos; lra|rewrite Rmult_comm; apply Rmult_le_compat_r; lra]).
  assert (YUU : 0 <= Y' * u * u <= / 16777216 * (Y' * u)) by (split; [apply Rmult_le_pos; lra|rewrite (Rmult_comm (Y' * u)); apply Rmult_le_compat_r; lra]).
  assert (YYU : Y' * u <= Y * u) by (apply Rmult_le_compat_r; lra).
  assert (B2 : B <= B * B) by (pose proof (Rmult_le_compat_l B 1 B ltac:(lra) B1); lra).
  assert (Lin : forall (fz f : fl) z, apx fz z (31 / 10 * u) -> 0 <= z <= 1 -> is_finite f = true -> Rabs (B2R f) <= Y' -> apx (mul o fz f) (z * B2R f) (31 / 10 * (Y' * u) + (z + 31 / 10 * u) * (Y' * u) + eta) /\ Rabs (z * B2R f) <= z * Y').
  { intros fz f z Az Bz Ff Bf. split.
    - eapply apx_weak; [apply (apx_mul prec emax) with (1 := Az) (2 := apx_exact prec emax f Ff) (bx := z) (by_ := Y'); [rewrite Rabs_pos_eq; lra|exact Bf|]|].
      + assert (z * Y' <= 1 * Y') by (apply Rmult_le_compat_r; lra). lra.
      + lra.
    - rewrite Rabs_mult, (Rabs_pos_eq z) by lra. apply Rmult_le_compat_l; lra. }
  destruct (Lin fa (ys i) a Aa Ba G0 Y0') as [A0 D0]. destruct (Lin fb (ys (i + 1)%nat) b Ab Bb G1 Y1') as [A1 D1].
  assert (BL : Rabs (a * B2R (ys i) + b * B2R (ys (i + 1)%nat)) <= Y') by (eapply Rle_trans; [apply Rabs_triang|]; replace Y' with (a * Y' + b * Y') by (rewrite <- Rmult_plus_distr_r, ab; ring); lra).
  assert (A2 : apx (add o (mul o fa (ys i)) (mul o fb (ys (i + 1)%nat))) (a * B2R (ys i) + b * B2R (ys (i + 1)%nat)) (83 / 10 * (Y' * u) + 21 / 10 * eta)).
  { assert (Sab : a * (Y' * u) + b * (Y' * u) = Y' * u) by (rewrite <- Rmult_plus_distr_r, ab; ring). assert (Sab' : a * (Y' * u * u) + b * (Y' * u * u) = Y' * u * u) by (rewrite <- Rmult_plus_distr_r, ab; ring).
    assert (Sab2 : a * Y' + b * Y' = Y') by (rewrite <- Rmult_plus_distr_r, ab; ring).
    assert (YUUU : 0 <= Y' * u * u * u <= / 16777216 * (Y' * u * u)) by (split; [apply Rmult_le_pos; lra|rewrite (Rmult_comm (Y' * u * u)); apply Rmult_le_compat_r; lra]).
    eapply apx_weak; [apply (apx_add prec emax) with (1 := A0) (2 := A1) (b := Y'); [exact BL|lra]|lra]. }
  assert (WZ : Z * u <= C * (h * h) * u) by (apply Rmult_le_compat_r; [lra|]; apply Rmult_le_compat_l; [lra|]; unfold Q; apply Rmult_le_compat; lra).
  assert (BT : Rabs (a * B2R (ys i) + b * B2R (ys (i + 1)%nat) + cub * (Q / 6)) <= Y' + 8 / 15 * Z) by (eapply Rle_trans; [apply Rabs_triang|]; lra).
  replace (a * B2R (ys i) + b * B2R (ys (i + 1)%nat) + cub * Q / 6) with (a * B2R (ys i) + b * B2R (ys (i + 1)%nat) + cub * (Q / 6)) by (unfold Rdiv; ring).
  eapply apx_weak; [apply (apx_add prec emax) with (1 := A2) (2 := V1) (b := Y' + 8 / 15 * Z); [exact BT|]|].
  - unfold Z in *. lra.
  - lra.
Qed.
End Width.

(** The hat 0, 1, 0 over the knots 0, 1, 2 in [f64]; its spline at one half. *)
Local Instance p53 : Prec_gt_0 53 := eq_refl. Local Instance e53 : Prec_lt_emax 53 1024 := eq_refl.
Definition hat_x (i : nat) : binary_float 53 1024 := float_of_usize 53 1024 i.
Definition hat_y (i : nat) : binary_float 53 1024 := float_of_usize 53 1024 (if Nat.eqb i 1 then 1 else 0).
Lemma hat_ok i : (i <= 2)%nat -> is_finite (hat_x i) = true /\ B2R (hat_x i) = INR i /\ is_finite (hat_y i) = true /\ B2R (hat_y i) = if Nat.eqb i 1 then 1 else 0.
Proof.
  intros H. assert (G : 2 <= bpow radix2 53) by (cbn; lra). assert (Hi : INR i <= 2) by (change 2 with (INR 2); apply le_INR, H).
  destruct (usize_exact 53 1024 i ltac:(lra)) as [A1 A2].
  destruct (usize_exact 53 1024 (if Nat.eqb i 1 then 1 else 0)%nat ltac:(destruct (Nat.eqb i 1); cbn; lra)) as [B1 B2].
  unfold hat_x, hat_y. repeat split; try assumption. rewrite B1. destruct (Nat.eqb i 1); reflexivity.
Qed.
Example C135_nontrivial : tame 3 hat_x hat_y 2 6 /\
  exists s q t v V, g_spline_new (float_ops 53 1024) 3 hat_x hat_y = Some s /\ spline_new 3 (fun i => B2R (hat_x i)) (fun i => B2R (hat_y i)) = Some q /\
    B2R t = / 2 /\ g_spline_eval (float_ops 53 1024) s t = Some v /\ spline_eval q (/ 2) = Some V /\ apx v V (/ 10 ^ 12).
Proof.
  assert (T : tame 3 hat_x hat_y 2 6).
  { destruct (hat_ok 0 ltac:(lia)) as (a0 & b0 & c0 & d0). destruct (hat_ok 1 ltac:(lia)) as (a1 & b1 & c1 & d1). destruct (hat_ok 2 ltac:(lia)) as (a2 & b2 & c2 & d2).
    cbn [INR Nat.eqb] in b0, d0, b1, d1, b2, d2. pose proof tiny53 as Ti. unfold u64 in Ti. pose proof (largest63 53 1024 ltac:(lia) ltac:(lia)) as G.
    unfold tame. rewrite unit53. unfold u64. cbv zeta. split; [lia|]. split; [lra|]. split; [lra|]. split; [lra|]. split; [lra|]. split; [|split].
    - intros i Hi. assert (K : i = 0%nat \/ i = 1%nat \/ i = 2%nat) by lia. destruct K as [-> |[-> | ->]].
      + rewrite b0, d0. repeat split; try assumption; rewrite Rabs_R0; lra.
      + rewrite b1, d1. repeat split; try assumption; rewrite Rabs_R1; lra.
      + rewrite b2, d2. repeat split; try assumption; [rewrite Rabs_pos_eq; lra|rewrite Rabs_R0; lra].
    - intros i Hi. assert (K : i = 0%nat \/ i = 1%nat) by lia. destruct K as [-> | ->]; cbn [Nat.add]; rewrite ?b0, ?b1, ?b2; lra.
    - intros i H1 Hi. replace i with 1%nat by lia. unfold slope. cbn [Nat.add Nat.sub]. rewrite b0, b1, b2, d0, d1, d2.
      replace ((0 - 1) / (1 + 1 - 1)) with (-1) by field. replace ((1 - 0) / (1 - 0)) with 1 by field. rewrite Rabs_R1, Rabs_left by lra. lra. }
  split; [exact T|]. destruct (half_value 53 1024 ltac:(lia) ltac:(lia)) as [Fh Vh]. set (t := div (float_ops 53 1024) _ _) in Fh, Vh. clearbody t.
  destruct (C135_values 53 1024 ltac:(lia) ltac:(lia) 3 hat_x hat_y 2 6 1 1 t T Fh) as (s & q & v & V & H1 & H2 & H3 & H4 & H5).
  - destruct (hat_ok 0 ltac:(lia)) as (_ & -> & _). destruct (hat_ok 2 ltac:(lia)) as (_ & E & _). cbn [Nat.sub]. rewrite E, Vh. cbn [INR]. lra.
  - intros i Hi. destruct (hat_ok i ltac:(lia)) as (_ & _ & _ & ->). destruct (Nat.eqb i 1); [rewrite Rabs_R1|rewrite Rabs_R0]; lra.
  - intros i Hi. destruct (hat_ok i ltac:(lia)) as (_ & -> & _). destruct (hat_ok (i + 1) ltac:(lia)) as (_ & -> & _). rewrite plus_INR. cbn [INR]. lra.
  - exists s, q, t, v, V. rewrite Vh in H4. repeat (split; [assumption|]). eapply apx_weak; [exact H5|]. pose proof tiny53 as Ti. rewrite unit53. unfold u64 in *. lra.
Qed.
