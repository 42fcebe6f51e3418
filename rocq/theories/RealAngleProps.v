(** C102: accuracy of the degree and radian conversions of both numeric back ends. *)
From Coq Require Import ZArith Reals Lra Lia Bool.
From Flocq Require Import Core Relative BinarySingleNaN.
From Verif Require Import TankModel AngleProps RealModel RealProps.
Local Open Scope R_scope.

Section Width.
Context {prec emax : Z} {P : Prec_gt_0 prec} {M : Prec_lt_emax prec emax}.
Local Notation fl := (binary_float prec emax).
Local Instance valid_exp2 : Valid_exp (SpecFloat.fexp prec emax) := fexp_correct prec emax P.
(** one rounding *)
Lemma mult_rel (x c : fl) : is_finite x = true -> is_finite c = true ->
  bpow radix2 (3 - emax) <= Rabs (B2R x * B2R c) -> Rabs (B2R x * B2R c) <= bpow radix2 (emax - 1) ->
  exists e, Rabs e <= bpow radix2 (- prec) /\ is_finite (Bmult mode_NE x c) = true /\
    B2R (Bmult mode_NE x c) = B2R x * B2R c * (1 + e).
Proof.
  intros Fx Fc L U. assert (Hp : (0 < prec)%Z) by exact P. assert (He : (prec < emax)%Z) by exact M.
  destruct (relative_error_N_FLT_ex radix2 (SpecFloat.emin prec emax) prec Hp (fun n => negb (Z.even n)) (B2R x * B2R c)) as (e & E & R).
  { eapply Rle_trans; [|exact L]. apply bpow_le. unfold SpecFloat.emin. lia. }
  pose proof (Bmult_correct prec emax P M mode_NE x c) as C. rewrite Fx, Fc in C. cbn [andb round_mode] in C.
  change (SpecFloat.fexp prec emax) with (FLT_exp (SpecFloat.emin prec emax) prec) in C. rewrite R in C.
  assert (E2 : Rabs e <= bpow radix2 (- prec)).
  { eapply Rle_trans; [exact E|]. replace (- prec + 1)%Z with (1 + - prec)%Z by lia. rewrite bpow_plus. change (bpow radix2 1) with 2. lra. }
  rewrite Rlt_bool_true in C.
  - exists e. destruct C as (C1 & C2 & _). auto.
  - rewrite Rabs_mult. apply Rle_lt_trans with (bpow radix2 (emax - 1) * Rabs (1 + e)).
    + apply Rmult_le_compat_r; [apply Rabs_pos|exact U].
    + assert (Rabs e <= / 2). { eapply Rle_trans; [exact E2|]. change (/ 2) with (bpow radix2 (-1)). apply bpow_le. lia. }
      assert (Rabs (1 + e) < 2). { pose proof (Rabs_triang 1 e). rewrite Rabs_R1 in *. lra. }
      replace emax with (emax - 1 + 1)%Z at 2 by lia. rewrite bpow_plus. change (bpow radix2 1) with 2.
      apply Rmult_lt_compat_l; [apply bpow_gt_0|assumption].
Qed.
(** multiplying by a rounded constant [c] close to [k] *)
Lemma conversion (x c : fl) (k : R) (lo hi : Z) : (2 <= prec)%Z ->
  is_finite x = true -> is_finite c = true -> / 1024 <= k <= 1024 -> Rabs (B2R c - k) <= 2 * bpow radix2 (- prec) * k ->
  (14 - emax <= lo)%Z -> (hi <= emax - 13)%Z -> bpow radix2 lo <= Rabs (B2R x) <= bpow radix2 hi ->
  is_finite (Bmult mode_NE x c) = true /\
  Rabs (B2R (Bmult mode_NE x c) - B2R x * k) <= 4 * bpow radix2 (- prec) * Rabs (B2R x * k).
Proof.
  intros Hp Fx Fc K C Hlo Hhi [L U]. set (u := bpow radix2 (- prec)) in *.
  assert (Up : 0 < u) by apply bpow_gt_0.
  assert (Uq : u <= / 4) by (change (/ 4) with (bpow radix2 (-2)); apply bpow_le; lia).
  assert (C2 : k / 2 <= B2R c <= 2 * k). { apply Rabs_le_inv in C. split; nra. }
  assert (A : Rabs (B2R x * B2R c) = Rabs (B2R x) * B2R c). { rewrite Rabs_mult, (Rabs_pos_eq (B2R c)) by lra. reflexivity. }
  assert (Bl : 0 < bpow radix2 lo) by apply bpow_gt_0. assert (Bh : 0 < bpow radix2 hi) by apply bpow_gt_0.
  destruct (mult_rel x c Fx Fc) as (e & E & F & V).
  { rewrite A. apply Rle_trans with (bpow radix2 lo * / 2048); [|apply Rmult_le_compat; lra].
    change (/ 2048) with (bpow radix2 (-11)). rewrite <- bpow_plus. apply bpow_le. lia. }
  { rewrite A. apply Rle_trans with (bpow radix2 hi * 2048); [apply Rmult_le_compat; lra|].
    change 2048 with (bpow radix2 11). rewrite <- bpow_plus. apply bpow_le. lia. }
  split; [exact F|]. rewrite V. fold u in E.
  replace (B2R x * B2R c * (1 + e) - B2R x * k) with (B2R x * ((B2R c - k) + B2R c * e)) by ring.
  rewrite !Rabs_mult, (Rabs_pos_eq k) by lra.
  replace (4 * u * (Rabs (B2R x) * k)) with (Rabs (B2R x) * (4 * u * k)) by ring. apply Rmult_le_compat_l; [apply Rabs_pos|].
  eapply Rle_trans; [apply Rabs_triang|]. rewrite (Rabs_mult (B2R c)), (Rabs_pos_eq (B2R c)) by lra.
  assert (B2R c * Rabs e <= (2 * k) * u) by (apply Rmult_le_compat; try apply Rabs_pos; lra). lra.
Qed.
End Width.

Lemma pi_bounds : 3.1415926535897927 < PI < 3.1415926535897936.
Proof.
  pose proof pi_error as E. apply Rabs_le_inv in E. rewrite pi64_val in E. change (bpow radix2 (-52)) with (/ IZR 4503599627370496) in E. lra.
Qed.
Lemma sf_val {p e0} (z : binary_float p e0) m e : B2SF z = SpecFloat.S754_finite false m e -> is_finite z = true /\ B2R z = IZR (Zpos m) * bpow radix2 e.
Proof. intros E. destruct z as [s|s| |s m' e' B]; cbn in E; try discriminate. injection E as -> -> ->. split; reflexivity. Qed.
Lemma ratio_pi (a k u : R) : 0 < k -> 0 < u -> a * PI <= k * (1 + u) -> k * (1 - u) <= a * PI -> Rabs (a - k / PI) <= u * (k / PI).
Proof.
  intros K U A B. pose proof PI_RGT_0 as P.
  replace (a - k / PI) with ((a * PI - k) / PI) by (field; lra). replace (u * (k / PI)) with (u * k / PI) by (field; lra).
  unfold Rdiv. rewrite Rabs_mult, (Rabs_pos_eq (/ PI)) by (left; apply Rinv_0_lt_compat; lra).
  apply Rmult_le_compat_r; [left; apply Rinv_0_lt_compat; lra|]. apply Rabs_le. split; lra.
Qed.

(** In both back ends and both formats the conversions are within four roundings of the exact
    ones, away from the ends of the range; in f64, and to radians in f32, they agree bit for bit. *)
Theorem C102_degrees_f64 : forall x : float64,
  no_std_to_degrees64 x = std_to_degrees64 x /\ no_std_to_radians64 x = std_to_radians64 x /\
  (is_finite x = true -> bpow radix2 (-1000) <= Rabs (B2R x) <= bpow radix2 1000 ->
   is_finite (no_std_to_degrees64 x) = true /\ is_finite (no_std_to_radians64 x) = true /\
   Rabs (B2R (no_std_to_degrees64 x) - B2R x * (180 / PI)) <= 4 * bpow radix2 (-53) * Rabs (B2R x * (180 / PI)) /\
   Rabs (B2R (no_std_to_radians64 x) - B2R x * (PI / 180)) <= 4 * bpow radix2 (-53) * Rabs (B2R x * (PI / 180))).
Proof.
  intros x. split; [reflexivity|]. split; [reflexivity|]. intros F R. pose proof pi_bounds as PB.
  assert (K1 : / 1024 <= 180 / PI <= 1024).
  { split; [apply Rle_trans with (180 / 4)|apply Rle_trans with (180 / 3)]; try lra; unfold Rdiv; apply Rmult_le_compat_l; try lra; apply Rinv_le_contravar; lra. }
  assert (D : B2SF (Bdiv mode_NE (of_int 180) pi64 : float64) = SpecFloat.S754_finite false 8063664102031864 (-47)) by (vm_compute; reflexivity).
  assert (Q : B2SF (Bdiv mode_NE pi64 (of_int 180) : float64) = SpecFloat.S754_finite false 5030569068109113 (-58)) by (vm_compute; reflexivity).
  apply sf_val in D. apply sf_val in Q. destruct D as [Df Dv]. destruct Q as [Qf Qv].
  destruct (conversion x _ (180 / PI) (-1000) 1000 ltac:(lia) F Df K1) as [G1 G2]; auto; try lia.
  { rewrite Dv. apply ratio_pi; try (change (bpow radix2 (-(53))) with (/ IZR 9007199254740992); change (bpow radix2 (-47)) with (/ IZR 140737488355328); lra). }
  destruct (conversion x _ (PI / 180) (-1000) 1000 ltac:(lia) F Qf ltac:(lra)) as [H1 H2]; auto; try lia.
  rewrite Qv. change (bpow radix2 (-(53))) with (/ IZR 9007199254740992). change (bpow radix2 (-58)) with (/ IZR 288230376151711744). apply Rabs_le. split; lra.
Qed.

Theorem C102_degrees_f32 : forall x : float32,
  no_std_to_radians32 x = std_to_radians32 x /\
  (is_finite x = true -> bpow radix2 (-110) <= Rabs (B2R x) <= bpow radix2 110 ->
   is_finite (no_std_to_degrees32 x) = true /\ is_finite (std_to_degrees32 x) = true /\ is_finite (no_std_to_radians32 x) = true /\
   Rabs (B2R (no_std_to_degrees32 x) - B2R x * (180 / PI)) <= 4 * bpow radix2 (-24) * Rabs (B2R x * (180 / PI)) /\
   Rabs (B2R (std_to_degrees32 x) - B2R x * (180 / PI)) <= 4 * bpow radix2 (-24) * Rabs (B2R x * (180 / PI)) /\
   Rabs (B2R (no_std_to_radians32 x) - B2R x * (PI / 180)) <= 4 * bpow radix2 (-24) * Rabs (B2R x * (PI / 180))).
Proof.
  intros x. split; [reflexivity|]. intros F R. pose proof pi_bounds as PB.
  assert (K1 : / 1024 <= 180 / PI <= 1024).
  { split; [apply Rle_trans with (180 / 4)|apply Rle_trans with (180 / 3)]; try lra; unfold Rdiv; apply Rmult_le_compat_l; try lra; apply Rinv_le_contravar; lra. }
  assert (D : B2SF (Bdiv mode_NE (of_int 180) pi32 : float32) = SpecFloat.S754_finite false 15019744 (-18)) by (vm_compute; reflexivity).
  assert (S : B2SF pis_in_180 = SpecFloat.S754_finite false 15019745 (-18)) by (vm_compute; reflexivity).
  assert (Q : B2SF (Bdiv mode_NE pi32 (of_int 180) : float32) = SpecFloat.S754_finite false 9370165 (-29)) by (vm_compute; reflexivity).
  apply sf_val in D. apply sf_val in Q. apply sf_val in S. destruct D as [Df Dv]. destruct Q as [Qf Qv]. destruct S as [Sf Sv].
  destruct (conversion x _ (180 / PI) (-110) 110 ltac:(lia) F Df K1) as [G1 G2]; auto; try lia.
  { rewrite Dv. apply ratio_pi; try (change (bpow radix2 (-(24))) with (/ IZR 16777216); change (bpow radix2 (-18)) with (/ IZR 262144); lra). }
  destruct (conversion x _ (180 / PI) (-110) 110 ltac:(lia) F Sf K1) as [I1 I2]; auto; try lia.
  { rewrite Sv. apply ratio_pi; try (change (bpow radix2 (-(24))) with (/ IZR 16777216); change (bpow radix2 (-18)) with (/ IZR 262144); lra). }
  destruct (conversion x _ (PI / 180) (-110) 110 ltac:(lia) F Qf ltac:(lra)) as [H1 H2]; auto; try lia.
  { rewrite Qv. change (bpow radix2 (-(24))) with (/ IZR 16777216). change (bpow radix2 (-29)) with (/ IZR 536870912). apply Rabs_le. split; lra. }
  repeat (split; [assumption|]). assumption.
Qed.
