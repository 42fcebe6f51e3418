(** C107: normalising a vector or a quaternion in floating point, for f32, f64 and every other width. *)
From Coq Require Import ZArith QArith Reals Lra Lia Bool Arith List.
From Flocq Require Import Core Relative BinarySingleNaN.
From Verif Require Import Scalar RSum LinModel LinSpec LinProofs FloatModel RoundProps SolveRoundProps.
Local Open Scope R_scope.

(** * Specification *)
(** the Euclidean length of a real vector *)
Definition len (N : nat) (f : nat -> R) : R := sqrt (sum N (fun k => f k * f k)).
(** a relative error of about [n] roundings *)
Definition rel (prec : Z) (n : nat) : R := ((1 + unit prec) ^ n - 1) / (2 - (1 + unit prec) ^ n).

Lemma len_sq N f : len N f * len N f = sum N (fun k => f k * f k).
Proof. apply sqrt_sqrt, sum_sq_pos. Qed.
Lemma len_pos N f : 0 <= len N f. Proof. apply sqrt_pos. Qed.
Lemma len_add N f g : len N (fun k => f k + g k) <= len N f + len N g.
Proof.
  apply Rsqr_incr_0_var; [|pose proof (len_pos N f); pose proof (len_pos N g); lra]. unfold Rsqr. rewrite len_sq.
  rewrite (sum_ext N _ (fun k => f k * f k + 2 * (f k * g k) + g k * g k)) by (intros; ring). rewrite !sum_plus, sum_scal, <- !len_sq.
  pose proof (cauchy_schwarz N f g) as C. rewrite <- !len_sq in C. set (d := sum N (fun k => f k * g k)) in *. pose proof (len_pos N f). pose proof (len_pos N g).
  assert (d <= len N f * len N g). { apply Rsqr_incr_0_var; [unfold Rsqr; lra|apply Rmult_le_pos; assumption]. } lra.
Qed.
Lemma len_le N f g : (forall k, (k < N)%nat -> Rabs (f k) <= g k) -> len N f <= len N g.
Proof.
  intros H. apply sqrt_le_1_alt, sum_le. intros k Hk. specialize (H k Hk). rewrite <- (Rabs_pos_eq (f k * f k)) by apply Rle_0_sqr. rewrite Rabs_mult.
  pose proof (Rabs_pos (f k)). apply Rmult_le_compat; assumption.
Qed.
Lemma len_scal N c f : 0 <= c -> len N (fun k => c * f k) = c * len N f.
Proof. intros Hc. unfold len. rewrite (sum_ext N _ (fun k => (c * c) * (f k * f k))) by (intros; ring). rewrite sum_scal, sqrt_mult by (try apply sum_sq_pos; nra). rewrite sqrt_square by exact Hc. reflexivity. Qed.
Lemma len_const N c : 0 <= c -> len N (fun _ => c) = sqrt (INR N) * c.
Proof. intros Hc. unfold len. rewrite sum_const, sqrt_mult by (try apply pos_INR; nra). rewrite sqrt_square by exact Hc. reflexivity. Qed.
Lemma len_abs N f : len N (fun k => Rabs (f k)) = len N f.
Proof. unfold len. f_equal. apply sum_ext. intros k _. rewrite <- Rabs_mult. apply Rabs_pos_eq, Rle_0_sqr. Qed.
Lemma len_near N (f g : nat -> R) c d : 0 <= c -> 0 <= d -> (forall k, (k < N)%nat -> Rabs (f k - g k) <= c * Rabs (g k) + d) ->
  Rabs (len N f - len N g) <= c * len N g + sqrt (INR N) * d.
Proof.
  intros Hc Hd H.
  assert (D : len N (fun k => f k - g k) <= c * len N g + sqrt (INR N) * d).
  { eapply Rle_trans; [apply (len_le N _ (fun k => c * Rabs (g k) + d) H)|]. eapply Rle_trans; [apply (len_add N (fun k => c * Rabs (g k)) (fun _ => d))|].
    rewrite (len_scal N c (fun k => Rabs (g k))) by exact Hc. rewrite len_abs, len_const by exact Hd. lra. }
  assert (A1 : len N f <= len N g + len N (fun k => f k - g k)).
  { eapply Rle_trans; [|apply len_add]. right. unfold len. f_equal. apply sum_ext. intros. ring. }
  assert (A2 : len N g <= len N f + len N (fun k => f k - g k)).
  { replace (len N (fun k => f k - g k)) with (len N (fun k => - (f k - g k))) by (unfold len; f_equal; apply sum_ext; intros; ring).
    eapply Rle_trans; [|apply len_add]. right. unfold len. f_equal. apply sum_ext. intros. ring. }
  apply Rabs_le. lra.
Qed.

Section Width.
Context (prec emax : Z) {P : Prec_gt_0 prec} {M : Prec_lt_emax prec emax}.
Local Notation fl := (binary_float prec emax).
Local Notation u := (unit prec).
Local Notation eta := (tiny prec emax).
Local Notation o := (float_ops prec emax).
Local Notation rd := (round radix2 (SpecFloat.fexp prec emax) ZnearestE).
Local Notation up := (u_pos prec).
Local Notation ep := (eta_pos prec emax).
Local Notation pow1 := (pow1 prec).
Local Notation pow_mono := (pow_mono prec).
Local Notation rel := (rel prec).
Definition vals (a : nat -> fl) (k : nat) : R := B2R (a k).
(** the squares do not all underflow: their sum is at least N eta / u *)
Definition not_small N (a : nat -> fl) : Prop := 0 < len N (vals a) /\ INR N * eta <= u * (len N (vals a) * len N (vals a)).

Lemma dot_fin_inv n x y : is_finite (dot o n x y) = true -> forall k, (k < n)%nat -> is_finite (x k) = true /\ is_finite (y k) = true.
Proof.
  unfold dot. induction n as [|n IH]; intros F k Hk; [lia|]. rewrite for_S in F by lia. destruct (add_fin _ _ _ _ F) as (F1 & F2 & _).
  destruct (Nat.eq_dec k n) as [->|Ne]; [apply mul_fin in F2; tauto|apply IH; [exact F1|lia]].
Qed.
(** the computed norm is the length up to N + 3 roundings *)
Lemma norm_rel N a : is_finite (norm o N a) = true -> not_small N a ->
  let L := len N (vals a) in let r := B2R (norm o N a) in 0 <= r /\ Rabs (r - L) <= ((1 + u) ^ (N + 3) - 1) * L.
Proof.
  intros F (HL & Hs) L r. destruct (C105_norm prec emax N a F) as (Pr & K). fold r in Pr, K. change (sum N (fun k => B2R (a k) * B2R (a k))) with (sum N (fun k => vals a k * vals a k)) in K. rewrite <- (len_sq N (vals a)) in K. fold L in HL, Hs, K.
  split; [exact Pr|]. pose proof up as Hu. pose proof (pow1 (N + 2)) as Pw. replace (N + 3)%nat with (S (N + 2)) by lia. cbn [pow]. set (q := (1 + u) ^ (N + 2)) in *.
  assert (K2 : Rabs (r * r - L * L) <= ((1 + u) * q - 1) * (L * L)). { eapply Rle_trans; [exact K|]. assert (INR N * eta * q <= u * (L * L) * q) by (apply Rmult_le_compat_r; lra). lra. }
  replace (r * r - L * L) with ((r - L) * (r + L)) in K2 by ring. rewrite Rabs_mult, (Rabs_pos_eq (r + L)) in K2 by lra.
  apply Rmult_le_reg_r with L; [exact HL|]. eapply Rle_trans; [|rewrite Rmult_assoc; exact K2]. apply Rmult_le_compat_l; [apply Rabs_pos|lra].
Qed.
Lemma rel_pos n : (1 + u) ^ n < 2 -> 0 <= rel n.
Proof. intros H. unfold NormRoundProps.rel. pose proof (pow1 n). apply Rmult_le_pos; [lra|]. left. apply Rinv_0_lt_compat. lra. Qed.

(** every component of the normalised vector is that of the exact unit vector up to N + 4 roundings *)
Theorem C107_normalize N (a : nat -> fl) : is_finite (norm o N a) = true -> not_small N a -> (1 + u) ^ (N + 4) < 2 ->
  forall k, (k < N)%nat -> is_finite (normalize o N a k) = true /\
  let exact := vals a k / len N (vals a) in Rabs (B2R (normalize o N a k) - exact) <= rel (N + 4) * Rabs exact + eta.
Proof.
  intros F Ns HG k Hk. destruct (norm_rel N a F Ns) as (Pr & K). destruct Ns as (HL & _). unfold normalize, vec_div. rewrite vfill_in by exact Hk. cbv zeta.
  set (L := len N (vals a)) in *. set (r := B2R (norm o N a)) in *. pose proof up as Hu. pose proof ep as He. pose proof (pow1 (N + 3)) as P3.
  replace (N + 4)%nat with (S (N + 3)) in * by lia. unfold NormRoundProps.rel. cbn [pow] in *. set (q := (1 + u) ^ (N + 3)) in *.
  assert (Hq : q < 2) by nra. assert (Rl : (2 - q) * L <= r) by (apply Rabs_le_inv in K; lra). assert (Hr : 0 < r) by nra.
  set (x := vals a k). assert (Xl : Rabs x <= L).
  { unfold L, len. rewrite <- (sqrt_Rsqr_abs x). apply sqrt_le_1_alt. unfold Rsqr, x.
    rewrite (sum_ext N (fun i => vals a i * vals a i) (fun i => (if (i =? k)%nat then vals a i * vals a i else 0) + (if (i =? k)%nat then 0 else vals a i * vals a i))) by (intros; destruct (_ =? _)%nat; ring).
    rewrite sum_plus. rewrite (sum_one N k (fun i => if (i =? k)%nat then vals a i * vals a i else 0) Hk); [|intros i Hi Ne; rewrite (proj2 (Nat.eqb_neq i k)) by exact Ne; reflexivity].
    assert (0 <= sum N (fun i => if (i =? k)%nat then 0 else vals a i * vals a i)) by (apply sum_pos; intros; destruct (_ =? _)%nat; [lra|apply Rle_0_sqr]). rewrite Nat.eqb_refl. lra. }
  assert (Fa : is_finite (a k) = true).
  { change (norm o N a) with (sqrtf o (dot o N a a)) in F. apply (dot_fin_inv N a a); [|exact Hk]. destruct (dot o N a a) as [s|s| |s m e B]; cbn in F; auto; destruct s; auto; discriminate. }
  assert (W1 : Rabs (x / r) <= Rabs (x / L) / (2 - q)).
  { unfold Rdiv. rewrite !Rabs_mult, !Rabs_inv, (Rabs_pos_eq r), (Rabs_pos_eq L) by lra. rewrite Rmult_assoc. apply Rmult_le_compat_l; [apply Rabs_pos|]. rewrite <- Rinv_mult. apply Rinv_le_contravar; [apply Rmult_lt_0_compat; lra|lra]. }
  assert (XL : Rabs (x / L) <= 1). { unfold Rdiv. rewrite Rabs_mult, Rabs_inv, (Rabs_pos_eq L) by lra. apply Rmult_le_reg_r with L; [exact HL|]. rewrite Rmult_assoc, Rinv_l by lra. lra. }
  assert (Ny : r <> 0) by lra. pose proof (Bdiv_correct prec emax _ _ mode_NE (a k) (norm o N a) Ny) as C. cbn [round_mode] in C. fold r in C. change (B2R (a k)) with x in C.
  assert (Big : bpow radix2 prec <= largest prec emax).
  { pose proof P as Pp. unfold Prec_gt_0 in Pp. pose proof M as Me. unfold Prec_lt_emax in Me. unfold largest. apply Rle_trans with (bpow radix2 (emax - 1)); [apply bpow_le; lia|].
    assert (bpow radix2 (emax - prec) <= bpow radix2 (emax - 1)) by (apply bpow_le; lia). replace (bpow radix2 emax) with (2 * bpow radix2 (emax - 1)) by (change 2 with (bpow radix2 1); rewrite <- bpow_plus; f_equal; lia). lra. }
  assert (Q2 : u <= 2 - q) by nra. assert (Iu : / u = bpow radix2 prec) by (unfold unit; rewrite <- bpow_opp; f_equal; lia).
  assert (Sm : Rabs (x / r) <= largest prec emax).
  { eapply Rle_trans; [exact W1|]. eapply Rle_trans; [|exact Big]. rewrite <- Iu. apply Rle_trans with (/ (2 - q)); [|apply Rinv_le_contravar; lra].
    unfold Rdiv. rewrite <- (Rmult_1_l (/ (2 - q))) at 2. apply Rmult_le_compat_r; [left; apply Rinv_0_lt_compat; lra|exact XL]. }
  rewrite (no_over prec emax _ Sm) in C. destruct C as (C1 & C2 & _). split; [change (is_finite (Bdiv mode_NE (a k) (norm o N a)) = true); rewrite C2; exact Fa|].
  change (div o (a k) (norm o N a)) with (Bdiv mode_NE (a k) (norm o N a)). rewrite C1. destruct (rd_err prec emax (x / r)) as (e & d & Be & Bd & ->).
  set (w := x / r) in *. set (v := x / L) in *. assert (E : v - w = w * ((r - L) / L)) by (unfold v, w; field; lra).
  assert (Rl2 : Rabs ((r - L) / L) <= q - 1). { unfold Rdiv. rewrite Rabs_mult, Rabs_inv, (Rabs_pos_eq L) by lra. apply Rmult_le_reg_r with L; [exact HL|]. rewrite Rmult_assoc, Rinv_l by lra. lra. }
  assert (Wv : Rabs (w - v) <= (q - 1) * Rabs w). { rewrite Rabs_minus_sym, E, Rabs_mult. rewrite Rmult_comm. apply Rmult_le_compat_r; [apply Rabs_pos|exact Rl2]. }
  replace (w * (1 + e) + d - v) with ((w - v) + (w * e + d)) by ring. eapply Rle_trans; [apply Rabs_triang|]. eapply Rle_trans; [apply Rplus_le_compat_l, Rabs_triang|]. rewrite Rabs_mult.
  pose proof (Rabs_pos w) as Pw. pose proof (Rabs_pos v) as Pv. assert (Rabs w * Rabs e <= Rabs w * u) by (apply Rmult_le_compat_l; lra).
  assert (T : (q - 1 + u) * Rabs w <= ((1 + u) * q - 1) / (2 - (1 + u) * q) * Rabs v).
  { apply Rle_trans with ((q - 1 + u) * (Rabs v / (2 - q))); [apply Rmult_le_compat_l; lra|]. unfold Rdiv. replace ((q - 1 + u) * (Rabs v * / (2 - q))) with ((q - 1 + u) * / (2 - q) * Rabs v) by ring.
    apply Rmult_le_compat_r; [exact Pv|]. apply Rmult_le_compat; [lra|left; apply Rinv_0_lt_compat; lra|nra|apply Rinv_le_contravar; nra]. }
  lra.
Qed.
(** so the result has length one up to the same error *)
Theorem C107_unit_length N (a : nat -> fl) : is_finite (norm o N a) = true -> not_small N a -> (1 + u) ^ (N + 4) < 2 ->
  Rabs (len N (vals (normalize o N a)) - 1) <= rel (N + 4) + sqrt (INR N) * eta.
Proof.
  intros F Ns HG. destruct Ns as (HL & Hs). set (L := len N (vals a)) in *. assert (E1 : len N (fun k => vals a k / L) = 1).
  { assert (Li : 0 <= / L) by (left; apply Rinv_0_lt_compat; exact HL). pose proof (len_scal N (/ L) (vals a) Li) as S. fold L in S. rewrite Rinv_l in S by lra. rewrite <- S. unfold len. f_equal. apply sum_ext. intros. field. lra. }
  pose proof (len_near N (vals (normalize o N a)) (fun k => vals a k / L) (rel (N + 4)) eta (rel_pos _ HG) (Rlt_le _ _ ep)) as K. rewrite E1, Rmult_1_r in K. apply K.
  intros k Hk. apply (C107_normalize N a F (conj HL Hs) HG k Hk).
Qed.
(** the error in units: n roundings cost n + 1 half units, up to a million of them *)
Lemma rel_le n : (1 <= n)%nat -> INR n * INR (S n) * u <= / 2 -> (1 + u) ^ n < 2 /\ rel n <= INR (S n) * u.
Proof.
  intros Hn Hs. pose proof up as Hu. assert (H1 : 1 <= INR n) by (change 1 with (INR 1); apply le_INR; exact Hn). rewrite S_INR in *. set (x := INR n) in *.
  assert (Nu : x * u <= / 4). { assert (x * u * 2 <= x * u * (x + 1)) by (apply Rmult_le_compat_l; [apply Rmult_le_pos; lra|lra]). lra. }
  pose proof (C105_gamma prec n ltac:(fold x; lra)) as G. fold x in G. unfold NormRoundProps.rel. set (q := (1 + u) ^ n) in *. pose proof (pow1 n) as Pq. fold q in Pq.
  set (y := x * u) in *. assert (Gq : (q - 1) * (1 - y) <= y). { apply Rmult_le_reg_r with (/ (1 - y)); [apply Rinv_0_lt_compat; lra|]. rewrite Rmult_assoc, Rinv_r by lra. unfold Rdiv in G. lra. }
  assert (Q1 : q - 1 <= 4 / 3 * y) by nra. split; [lra|]. apply Rmult_le_reg_r with (2 - q); [lra|]. unfold Rdiv. rewrite Rmult_assoc, Rinv_l by lra.
  assert (E1 : (q - 1) * (1 - 2 * y) <= y * (2 - q)) by lra.
  assert (E2 : y <= (x + 1) * u * (1 - 2 * y)). { unfold y at 1. replace ((x + 1) * u * (1 - 2 * y)) with (x * u + u * (1 - 2 * ((x * (x + 1)) * u))) by (unfold y; ring). assert (0 <= u * (1 - 2 * (x * (x + 1) * u))) by (apply Rmult_le_pos; lra). lra. }
  apply Rmult_le_reg_r with (1 - 2 * y); [lra|]. rewrite Rmult_1_r. assert (y * (2 - q) <= (x + 1) * u * (1 - 2 * y) * (2 - q)) by (apply Rmult_le_compat_r; lra). lra.
Qed.
End Width.

Local Instance p53 : Prec_gt_0 53 := eq_refl.
Local Instance e53 : Prec_lt_emax 53 1024 := eq_refl.
Local Instance p24 : Prec_gt_0 24 := eq_refl.
Local Instance e24 : Prec_lt_emax 24 128 := eq_refl.
Local Notation f64 := (binary_float 53 1024).
Local Notation o64 := (float_ops 53 1024).

(** f64, up to a million components, lengths from 2^-400 to where the squares overflow *)
Lemma pow_bpow k : (0 <= k)%Z -> bpow radix2 k = IZR (2 ^ k). Proof. intros H. symmetry. exact (IZR_Zpower radix2 k H). Qed.
Lemma small64 N : (Z.of_nat N <= 2 ^ 20)%Z -> INR N <= bpow radix2 20.
Proof. intros H. rewrite pow_bpow by lia. rewrite INR_IZR_INZ. apply IZR_le. exact H. Qed.
Lemma eta64 N : (Z.of_nat N <= 2 ^ 20)%Z -> INR N * tiny 53 1024 <= bpow radix2 (-1055).
Proof.
  intros H. apply small64 in H. unfold tiny. change (3 - 1024 - 53)%Z with (-1074)%Z. replace (bpow radix2 (-1055)) with (bpow radix2 20 * (/ 2 * bpow radix2 (-1074))).
  - apply Rmult_le_compat_r; [|exact H]. pose proof (bpow_gt_0 radix2 (-1074)). lra.
  - change (/ 2) with (bpow radix2 (-1)). rewrite <- !bpow_plus. reflexivity.
Qed.
Lemma roundings64 N : (Z.of_nat N <= 2 ^ 20)%Z -> (1 + unit 53) ^ (N + 4) < 2 /\ rel 53 (N + 4) <= INR (N + 5) * unit 53.
Proof.
  intros H. replace (N + 5)%nat with (S (N + 4)) by lia. apply rel_le; [lia|]. assert (E : bpow radix2 21 * bpow radix2 21 * unit 53 <= / 2).
  { unfold unit. change (/ 2) with (bpow radix2 (-1)). rewrite <- !bpow_plus. apply bpow_le. lia. }
  eapply Rle_trans; [|exact E]. apply Rmult_le_compat_r; [left; apply bpow_gt_0|]. pose proof (small64 N H) as S20. rewrite S_INR, plus_INR. change (INR 4) with (1 + 1 + 1 + 1).
  pose proof (pos_INR N). assert (B : INR N + 5 <= bpow radix2 21) by (rewrite (pow_bpow 21) by lia; rewrite (pow_bpow 20) in S20 by lia; change (2 ^ 21)%Z with 2097152%Z; change (2 ^ 20)%Z with 1048576%Z in S20; lra).
  apply Rmult_le_compat; lra.
Qed.
Lemma not_small64 N a : (Z.of_nat N <= 2 ^ 20)%Z -> bpow radix2 (-400) <= len N (vals 53 1024 a) -> not_small 53 1024 N a.
Proof.
  intros H L. split; [eapply Rlt_le_trans; [apply bpow_gt_0|exact L]|]. eapply Rle_trans; [apply eta64, H|].
  apply Rle_trans with (unit 53 * (bpow radix2 (-400) * bpow radix2 (-400))); [unfold unit; rewrite <- !bpow_plus; apply bpow_le; lia|].
  apply Rmult_le_compat_l; [left; apply bpow_gt_0|]. pose proof (bpow_gt_0 radix2 (-400)). apply Rmult_le_compat; lra.
Qed.
Lemma unit64 N a : (Z.of_nat N <= 2 ^ 20)%Z -> is_finite (norm o64 N a) = true -> not_small 53 1024 N a ->
  (forall k, (k < N)%nat -> is_finite (normalize o64 N a k) = true) /\
  Rabs (len N (vals 53 1024 (normalize o64 N a)) - 1) <= INR (N + 6) * bpow radix2 (-53).
Proof.
  intros H F Ns. destruct (roundings64 N H) as (G1 & G2). split; [intros k Hk; apply (C107_normalize 53 1024 N a F Ns G1 k Hk)|].
  eapply Rle_trans; [apply (C107_unit_length 53 1024 N a F Ns G1)|]. change (unit 53) with (bpow radix2 (-53)) in G2.
  assert (E : sqrt (INR N) * tiny 53 1024 <= bpow radix2 (-53)).
  { apply Rle_trans with (INR N * tiny 53 1024).
    - apply Rmult_le_compat_r; [left; apply eta_pos|]. destruct N as [|N]; [cbn [INR]; rewrite sqrt_0; lra|]. assert (1 <= INR (S N)) by (change 1 with (INR 1); apply le_INR; lia).
      rewrite <- (sqrt_square (INR (S N))) at 2 by lra. apply sqrt_le_1_alt. nra.
    - eapply Rle_trans; [apply eta64, H|]. apply bpow_le. lia. }
  replace (N + 6)%nat with (S (N + 5)) by lia. rewrite S_INR. lra.
Qed.
Theorem C107_f64 N a : (Z.of_nat N <= 2 ^ 20)%Z -> is_finite (norm o64 N a) = true -> bpow radix2 (-400) <= len N (vals 53 1024 a) ->
  (forall k, (k < N)%nat -> is_finite (normalize o64 N a k) = true) /\
  Rabs (len N (vals 53 1024 (normalize o64 N a)) - 1) <= INR (N + 6) * bpow radix2 (-53).
Proof. intros H F L. apply unit64; auto using not_small64. Qed.
(** the guarded version needs no lower bound: it normalises, or it returns its argument because the norm is at most 1e-12 *)
Lemma eps_low : bpow radix2 (-40) <= B2R (eps12 o64) /\ is_finite (eps12 o64) = true.
Proof.
  assert (Fe : is_finite (eps12 o64) = true) by (vm_compute; reflexivity). split; [|exact Fe].
  set (t := @B754_finite 53 1024 false 4503599627370496 (-92) eq_refl). assert (Et : B2R t = bpow radix2 (-40)).
  { unfold t, B2R, F2R. cbn [Fnum Fexp cond_Zopp]. change 4503599627370496%Z with (2 ^ 52)%Z. rewrite <- (pow_bpow 52) by lia. rewrite <- bpow_plus. reflexivity. }
  rewrite <- Et. assert (B : Bltb t (eps12 o64) = true) by (vm_compute; reflexivity). rewrite (Bltb_correct 53 1024 t (eps12 o64) eq_refl Fe) in B. left. revert B. case Rlt_bool_spec; [auto|discriminate].
Qed.
Theorem C107_try_normalize N a : (Z.of_nat N <= 2 ^ 20)%Z -> is_finite (norm o64 N a) = true ->
  let (v, n) := try_normalize o64 N a in n = norm o64 N a /\
  ((Bltb (eps12 o64) n = false /\ v = a) \/
   (Bltb (eps12 o64) n = true /\ (forall k, (k < N)%nat -> is_finite (v k) = true) /\ Rabs (len N (vals 53 1024 v) - 1) <= INR (N + 6) * bpow radix2 (-53))).
Proof.
  intros H F. unfold try_normalize. cbv zeta. change (ltb o64 (eps12 o64) (norm o64 N a)) with (Bltb (eps12 o64) (norm o64 N a)).
  destruct (Bltb (eps12 o64) (norm o64 N a)) eqn:B; (split; [reflexivity|]); [right|left; auto]. split; [exact B|]. change (vec_div o64 N a (norm o64 N a)) with (normalize o64 N a). apply unit64; [exact H|exact F|].
  destruct eps_low as (El & Fe). rewrite (Bltb_correct 53 1024 _ _ Fe F) in B. assert (Lr : bpow radix2 (-40) <= B2R (norm o64 N a)) by (revert B; case Rlt_bool_spec; [lra|discriminate]). clear El B.
  destruct (C105_norm 53 1024 N a F) as (Pr & K). change (sum N (fun k => B2R (a k) * B2R (a k))) with (sum N (fun k => vals 53 1024 a k * vals 53 1024 a k)) in K. rewrite <- (len_sq N (vals 53 1024 a)) in K.
  set (L := len N (vals 53 1024 a)) in *. set (r := B2R (norm o64 N a)) in *. pose proof (eta64 N H) as Et. pose proof (len_pos N (vals 53 1024 a)) as PL. fold L in PL.
  destruct (roundings64 N H) as (G & _). pose proof (pow_mono 53 (N + 2) (N + 4) ltac:(lia)) as G2. pose proof (pow1 53 (N + 2)) as G1. set (q := (1 + unit 53) ^ (N + 2)) in *.
  assert (Sq : r * r <= 2 * (L * L) + 2 * bpow radix2 (-1055)).
  { assert (r * r <= q * (L * L) + q * (INR N * tiny 53 1024)) by (apply Rabs_le_inv in K; lra). assert (0 <= L * L) by (apply Rmult_le_pos; lra). pose proof (pos_INR N). pose proof (eta_pos 53 1024).
    assert (q * (L * L) <= 2 * (L * L)) by (apply Rmult_le_compat_r; lra). assert (q * (INR N * tiny 53 1024) <= 2 * bpow radix2 (-1055)) by (apply Rmult_le_compat; try lra; apply Rmult_le_pos; lra). lra. }
  assert (R2 : bpow radix2 (-80) <= r * r). { change (-80)%Z with (-40 + -40)%Z. rewrite bpow_plus. pose proof (bpow_gt_0 radix2 (-40)). apply Rmult_le_compat; lra. }
  assert (B1 : 2 * bpow radix2 (-1055) <= bpow radix2 (-82)). { change 2 with (bpow radix2 1). rewrite <- bpow_plus. apply bpow_le. lia. }
  assert (B2 : bpow radix2 (-80) = 4 * bpow radix2 (-82)). { change 4 with (bpow radix2 2). rewrite <- bpow_plus. reflexivity. }
  pose proof (bpow_gt_0 radix2 (-82)) as B3. assert (L2 : bpow radix2 (-82) <= L * L) by lra.
  assert (PL2 : 0 < L). { destruct PL as [PL|PL]; [exact PL|]. rewrite <- PL in L2. lra. }
  split; [exact PL2|]. fold L. eapply Rle_trans; [exact Et|]. apply Rle_trans with (unit 53 * bpow radix2 (-82)); [unfold unit; rewrite <- bpow_plus; apply bpow_le; lia|].
  apply Rmult_le_compat_l; [left; apply bpow_gt_0|exact L2].
Qed.
(** without the guard: a vector whose squares overflow becomes zero, one whose squares underflow is divided by zero *)
Definition pow2 (e : Z) : f64 := binary_normalize 53 1024 _ _ mode_NE 1 e false.
Theorem C107_huge_refuted : exists a : nat -> f64, (forall k, is_finite (a k) = true) /\ (forall k, (k < 3)%nat -> B2SF (normalize o64 3 a k) = SpecFloat.S754_zero false).
Proof.
  exists (fun _ => pow2 600). split; [intros _; vm_compute; reflexivity|]. intros k Hk. destruct k as [|[|[|k]]]; [..|lia]; vm_compute; reflexivity.
Qed.
Theorem C107_small_refuted : exists a : nat -> f64, (forall k, is_finite (a k) = true) /\ (forall k, (k < 3)%nat -> B2SF (normalize o64 3 a k) = SpecFloat.S754_infinity false).
Proof.
  exists (fun _ => pow2 (-600)). split; [intros _; vm_compute; reflexivity|]. intros k Hk. destruct k as [|[|[|k]]]; [..|lia]; vm_compute; reflexivity.
Qed.
(** (1, 1, 1): the computed norm is finite and above 1e-12, its length is sqrt 3 *)
Example C107_nontrivial : let a := fun _ : nat => (Bone : f64) in
  is_finite (norm o64 3 a) = true /\ Bltb (eps12 o64) (norm o64 3 a) = true /\ bpow radix2 (-400) <= len 3 (vals 53 1024 a).
Proof.
  intros a. split; [vm_compute; reflexivity|]. split; [vm_compute; reflexivity|]. unfold len, vals, a. cbn [sum]. rewrite Bone_correct.
  apply Rle_trans with 1; [change 1 with (bpow radix2 0); apply bpow_le; lia|]. rewrite <- sqrt_1 at 1. apply sqrt_le_1_alt. lra.
Qed.
