(** C108: quaternions in floating point.  Composition keeps the length, rotation keeps lengths and directions, up to rounding,
    for f32, f64 and every other width of at least 20 bits. *)
From Coq Require Import ZArith Reals Lra Lia Bool Arith List.
From Flocq Require Import Core Relative BinarySingleNaN.
From Verif Require Import Scalar RSum LinModel LinSpec LinProofs FloatModel RoundProps SolveRoundProps NormRoundProps Geo3 AttModel AttProofs QuatFloatModel.
Local Open Scope R_scope.

(** * Specification: exact quaternions and vectors are those of [AttModel]; their lengths and differences *)
Definition qsub (a b : quat) : quat := mkQ (qw a - qw b) (qi a - qi b) (qj a - qj b) (qk a - qk b).
Definition vlen (v : V3) : R := sqrt (vx v * vx v + vy v * vy v + vz v * vz v).
Definition vdiff (a b : V3) : V3 := mkV (vx a - vx b) (vy a - vy b) (vz a - vz b).
Definition pure (v : V3) : quat := mkQ 0 (vx v) (vy v) (vz v).
Definition vpart (q : quat) : V3 := mkV (qi q) (qj q) (qk q).

Lemma q_norm_len q : q_norm q = len 4 (qfun q).
Proof. reflexivity. Qed.
Lemma q_norm_nonneg q : 0 <= q_norm q. Proof. apply sqrt_pos. Qed.
Lemma qsub_triangle a b c : q_norm (qsub a c) <= q_norm (qsub a b) + q_norm (qsub b c).
Proof. rewrite !q_norm_len. eapply Rle_trans; [|apply len_add]. right. unfold len. f_equal. apply sum_ext. intros [|[|[|k]]] _; cbn; ring. Qed.
Lemma q_triangle a b : q_norm a <= q_norm b + q_norm (qsub a b).
Proof. rewrite !q_norm_len. eapply Rle_trans; [|apply len_add]. right. unfold len. f_equal. apply sum_ext. intros [|[|[|k]]] _; cbn; ring. Qed.
Lemma qsub_sym a b : q_norm (qsub a b) = q_norm (qsub b a).
Proof. rewrite !q_norm_len. unfold len. f_equal. apply sum_ext. intros [|[|[|k]]] _; cbn; ring. Qed.
Lemma q_norm_box q d : 0 <= d -> Rabs (qw q) <= d -> Rabs (qi q) <= d -> Rabs (qj q) <= d -> Rabs (qk q) <= d -> q_norm q <= 2 * d.
Proof.
  intros Hd H0 H1 H2 H3. rewrite q_norm_len. eapply Rle_trans; [apply (len_le 4 _ (fun _ => d)); intros [|[|[|k]]] _; assumption|].
  rewrite len_const by exact Hd. right. f_equal. change (INR 4) with (1 + 1 + 1 + 1). replace (1 + 1 + 1 + 1) with (2 * 2) by ring. apply sqrt_square. lra.
Qed.
Lemma vpart_le q : vlen (vpart q) <= q_norm q.
Proof. unfold vlen, q_norm. apply sqrt_le_1_alt. rewrite q_norm2_eq. unfold Qnorm2. cbn. nra. Qed.
Lemma pure_norm v : q_norm (pure v) = vlen v.
Proof. unfold vlen, q_norm. f_equal. rewrite q_norm2_eq. unfold Qnorm2. cbn. ring. Qed.
Lemma conj_norm q : q_norm (q_conjugate q) = q_norm q.
Proof. unfold q_norm. f_equal. rewrite !q_norm2_eq. unfold Qnorm2. cbn. ring. Qed.
Lemma vdiff_triangle a b c : vlen (vdiff a c) <= vlen (vdiff a b) + vlen (vdiff b c).
Proof.
  assert (E : forall u v, vlen (vdiff u v) = q_norm (qsub (pure u) (pure v))). { intros u v. unfold vlen, q_norm. f_equal. rewrite q_norm2_eq. unfold Qnorm2. cbn. ring. }
  rewrite !E. apply qsub_triangle.
Qed.
Lemma vdiff_sym a b : vlen (vdiff a b) = vlen (vdiff b a).
Proof. unfold vlen, vdiff. cbn [vx vy vz]. f_equal. ring. Qed.
Lemma cs4 a b c d x y z t A B : 0 <= A -> 0 <= B -> a * a + b * b + c * c + d * d <= A * A -> x * x + y * y + z * z + t * t <= B * B ->
  Rabs (a * x) + Rabs (b * y) + Rabs (c * z) + Rabs (d * t) <= A * B.
Proof.
  intros PA PB EA EB. pose proof (cauchy_schwarz 4 (fun k => match k with 0 => Rabs a | 1 => Rabs b | 2 => Rabs c | _ => Rabs d end)%nat (fun k => match k with 0 => Rabs x | 1 => Rabs y | 2 => Rabs z | _ => Rabs t end)%nat) as C.
  cbn [sum] in C. assert (S : forall r, Rabs r * Rabs r = r * r) by (intros r; rewrite <- Rabs_mult; apply Rabs_pos_eq, Rle_0_sqr). rewrite !S in C. rewrite !Rplus_0_l in C.
  rewrite !Rabs_mult. apply Rsqr_incr_0_var; [|apply Rmult_le_pos; assumption]. unfold Rsqr. eapply Rle_trans; [exact C|].
  replace (A * B * (A * B)) with (A * A * (B * B)) by ring. apply Rmult_le_compat; try assumption; nra.
Qed.

(** c (x) (0, v) as [g_rotate] computes it, and the rotation as two products *)
Definition half_turn {F} (o : ops F) (c : gquat F) (v : gvec F) : gquat F :=
  mkG (neg o (add o (add o (mul o (gi c) (gx v)) (mul o (gj c) (gy v))) (mul o (gk c) (gz v))))
      (sub o (add o (mul o (gw c) (gx v)) (mul o (gj c) (gz v))) (mul o (gk c) (gy v)))
      (sub o (add o (mul o (gw c) (gy v)) (mul o (gk c) (gx v))) (mul o (gi c) (gz v)))
      (sub o (add o (mul o (gw c) (gz v)) (mul o (gi c) (gy v))) (mul o (gj c) (gx v))).
Lemma g_rotate_eq {F} (o : ops F) q v : let p := g_normalized o q in let a := half_turn o (g_conjugate o p) v in
  g_rotate o q v = mkGV (sub o (add o (add o (mul o (gw a) (gi p)) (mul o (gi a) (gw p))) (mul o (gj a) (gk p))) (mul o (gk a) (gj p)))
    (add o (add o (sub o (mul o (gw a) (gj p)) (mul o (gi a) (gk p))) (mul o (gj a) (gw p))) (mul o (gk a) (gi p)))
    (add o (sub o (add o (mul o (gw a) (gk p)) (mul o (gi a) (gj p))) (mul o (gj a) (gi p))) (mul o (gk a) (gw p))).
Proof. reflexivity. Qed.
Lemma half_turn_eq {F} (o : ops F) c v : half_turn o c v = mkG
  (neg o (add o (add o (mul o (gi c) (gx v)) (mul o (gj c) (gy v))) (mul o (gk c) (gz v))))
  (sub o (add o (mul o (gw c) (gx v)) (mul o (gj c) (gz v))) (mul o (gk c) (gy v)))
  (sub o (add o (mul o (gw c) (gy v)) (mul o (gk c) (gx v))) (mul o (gi c) (gz v)))
  (sub o (add o (mul o (gw c) (gz v)) (mul o (gi c) (gy v))) (mul o (gj c) (gx v))).
Proof. reflexivity. Qed.

Section Width.
Context (prec emax : Z) {P : Prec_gt_0 prec} {M : Prec_lt_emax prec emax}.
Local Notation fl := (binary_float prec emax).
Local Notation u := (unit prec).
Local Notation eta := (tiny prec emax).
Local Notation o := (float_ops prec emax).
Local Notation rd := (round radix2 (SpecFloat.fexp prec emax) ZnearestE).
Local Notation up := (u_pos prec).
Local Notation ep := (eta_pos prec emax).
Local Notation pow1 := (pow1 prec).
Local Notation close := (close prec emax).
(** the exact values of a float quaternion and vector, and when they are all finite *)
Definition qv (q : gquat fl) : quat := mkQ (B2R (gw q)) (B2R (gi q)) (B2R (gj q)) (B2R (gk q)).
Definition vv (v : gvec fl) : V3 := mkV (B2R (gx v)) (B2R (gy v)) (B2R (gz v)).
Definition fin_q (q : gquat fl) : Prop := is_finite (gw q) = true /\ is_finite (gi q) = true /\ is_finite (gj q) = true /\ is_finite (gk q) = true.
Definition fin_v (v : gvec fl) : Prop := is_finite (gx v) = true /\ is_finite (gy v) = true /\ is_finite (gz v) = true.

Lemma close_sub n c m d (x y : fl) X Y T U : is_finite (sub o x y) = true -> Rabs X <= T -> Rabs Y <= U ->
  close n c (B2R x) X T -> close m d (B2R y) Y U -> close (S (Nat.max n m)) (c + d) (B2R (sub o x y)) (X - Y) (T + U).
Proof.
  intros H HX HY Cx Cy. assert (E : B2R (sub o x y) = B2R (add o x (Bopp y)) /\ is_finite (add o x (Bopp y)) = true).
  { destruct (sub_fin prec emax x y H) as (Fx & Fy & E). pose proof (Bplus_correct prec emax _ _ mode_NE x (Bopp y) Fx) as C. rewrite is_finite_Bopp in C. specialize (C Fy). cbn [round_mode] in C. rewrite B2R_Bopp in C.
    pose proof (Bminus_correct prec emax _ _ mode_NE x y Fx Fy) as C'. cbn [round_mode] in C'. change (B2R x + - B2R y) with (B2R x - B2R y) in C.
    destruct (Rlt_bool _ _).
    - destruct C as (C1 & C2 & _). destruct C' as (C1' & _). split; [|exact C2]. change (B2R (Bminus mode_NE x y) = B2R (Bplus mode_NE x (Bopp y))). congruence.
    - destruct C' as (C' & _). apply SolveRoundProps.sf_over in C'. change (is_finite (Bminus mode_NE x y) = true) in H. congruence. }
  destruct E as (-> & F). replace (X - Y) with (X + - Y) by ring. apply close_add; [exact F|exact HX|rewrite Rabs_Ropp; exact HY|exact Cx|].
  rewrite B2R_Bopp. unfold RoundProps.close in *. replace (- B2R y - - Y) with (- (B2R y - Y)) by ring. rewrite Rabs_Ropp. exact Cy.
Qed.
Definition pm (s : bool) (x y : fl) : fl := if s then add o x y else sub o x y.
Definition sg (s : bool) (y : R) : R := if s then y else - y.
Lemma pm_fin s x y : is_finite (pm s x y) = true -> is_finite x = true /\ is_finite y = true.
Proof. destruct s; cbn [pm]; intros H; [apply add_fin in H|apply sub_fin in H]; tauto. Qed.
Lemma close_pm s n c m d (x y : fl) X Y T U : is_finite (pm s x y) = true -> Rabs X <= T -> Rabs Y <= U ->
  close n c (B2R x) X T -> close m d (B2R y) Y U -> close (S (Nat.max n m)) (c + d) (B2R (pm s x y)) (X + sg s Y) (T + U).
Proof. destruct s; cbn [pm sg]; intros; [apply close_add|apply close_sub]; assumption. Qed.
Lemma sg_abs s y : Rabs (sg s y) = Rabs y. Proof. destruct s; cbn; [reflexivity|apply Rabs_Ropp]. Qed.
Lemma tri2 x y X Y : Rabs x <= X -> Rabs y <= Y -> Rabs (x + y) <= X + Y.
Proof. intros. eapply Rle_trans; [apply Rabs_triang|]. lra. Qed.
(** a signed sum of three or of four products *)
Lemma three s1 s2 (a x b y c z : fl) : is_finite (pm s2 (pm s1 (mul o a x) (mul o b y)) (mul o c z)) = true ->
  (is_finite a = true /\ is_finite x = true) /\ (is_finite b = true /\ is_finite y = true) /\ (is_finite c = true /\ is_finite z = true) /\
  close 3 3 (B2R (pm s2 (pm s1 (mul o a x) (mul o b y)) (mul o c z))) (B2R a * B2R x + sg s1 (B2R b * B2R y) + sg s2 (B2R c * B2R z))
    (Rabs (B2R a * B2R x) + Rabs (B2R b * B2R y) + Rabs (B2R c * B2R z)).
Proof.
  intros F2. destruct (pm_fin _ _ _ F2) as (F1 & Fc). destruct (pm_fin _ _ _ F1) as (Fa & Fb).
  pose proof (close_mul prec emax a x Fa) as Ca. pose proof (close_mul prec emax b y Fb) as Cb. pose proof (close_mul prec emax c z Fc) as Cc.
  apply mul_fin in Fa. apply mul_fin in Fb. apply mul_fin in Fc. split; [tauto|]. split; [tauto|]. split; [tauto|].
  apply (close_pm s2 2 2 1 1); [exact F2| |lra| |exact Cc]; [apply tri2; [lra|rewrite sg_abs; lra]|].
  apply (close_pm s1 1 1 1 1); [exact F1|lra|lra|exact Ca|exact Cb].
Qed.
Lemma four s1 s2 s3 (a x b y c z d t : fl) : is_finite (pm s3 (pm s2 (pm s1 (mul o a x) (mul o b y)) (mul o c z)) (mul o d t)) = true ->
  (is_finite a = true /\ is_finite x = true) /\ (is_finite b = true /\ is_finite y = true) /\ (is_finite c = true /\ is_finite z = true) /\ (is_finite d = true /\ is_finite t = true) /\
  close 4 4 (B2R (pm s3 (pm s2 (pm s1 (mul o a x) (mul o b y)) (mul o c z)) (mul o d t))) (B2R a * B2R x + sg s1 (B2R b * B2R y) + sg s2 (B2R c * B2R z) + sg s3 (B2R d * B2R t))
    (Rabs (B2R a * B2R x) + Rabs (B2R b * B2R y) + Rabs (B2R c * B2R z) + Rabs (B2R d * B2R t)).
Proof.
  intros F3. destruct (pm_fin _ _ _ F3) as (F2 & Fd). destruct (three _ _ _ _ _ _ _ _ F2) as (A & B & C & K).
  pose proof (close_mul prec emax d t Fd) as Cd. apply mul_fin in Fd. split; [exact A|]. split; [exact B|]. split; [exact C|]. split; [tauto|].
  apply (close_pm s3 3 3 1 1); [exact F3| |lra|exact K|exact Cd]. repeat apply tri2; rewrite ?sg_abs; lra.
Qed.
(** [g n]: relative error of n roundings; [h n]: absolute error of n underflows *)
Definition g (n : nat) : R := (1 + u) ^ n - 1.
Definition h (n : nat) : R := INR n * eta * (1 + u) ^ n.
Lemma g_pos n : 0 <= g n. Proof. unfold g. pose proof (pow1 n). lra. Qed.
Lemma h_pos n : 0 <= h n. Proof. unfold h. pose proof (pow1 n). pose proof ep. pose proof (pos_INR n). apply Rmult_le_pos; [apply Rmult_le_pos|]; lra. Qed.
Lemma widen n c x X T B : T <= B -> close n c x X T -> Rabs (x - X) <= g n * B + INR c * eta * (1 + u) ^ n.
Proof. intros HB C. unfold RoundProps.close in C. fold (g n) in C. pose proof (g_pos n). assert (g n * T <= g n * B) by (apply Rmult_le_compat_l; assumption). lra. Qed.
Lemma sq_norm q : Qnorm2 q = q_norm q * q_norm q. Proof. symmetry. apply q_norm_sq. Qed.

(** * Composition *)
Lemma mul_comps (a b : gquat fl) : fin_q (g_mul o a b) -> fin_q a /\ fin_q b /\
  let E := g 4 * (q_norm (qv a) * q_norm (qv b)) + h 4 in let d := qsub (qv (g_mul o a b)) (q_mul (qv a) (qv b)) in
  Rabs (qw d) <= E /\ Rabs (qi d) <= E /\ Rabs (qj d) <= E /\ Rabs (qk d) <= E.
Proof.
  intros (F0 & F1 & F2 & F3). cbn [g_mul gw gi gj gk] in F0, F1, F2, F3.
  destruct (four false false false _ _ _ _ _ _ _ _ F0) as (A0 & A1 & A2 & A3 & C0). destruct (four true true false _ _ _ _ _ _ _ _ F1) as (_ & _ & _ & _ & C1).
  destruct (four false true true _ _ _ _ _ _ _ _ F2) as (_ & _ & _ & _ & C2). destruct (four true false true _ _ _ _ _ _ _ _ F3) as (_ & _ & _ & _ & C3).
  split; [unfold fin_q; tauto|]. split; [unfold fin_q; tauto|]. pose proof (q_norm_nonneg (qv a)) as Pa. pose proof (q_norm_nonneg (qv b)) as Pb. pose proof (sq_norm (qv a)) as Ea. pose proof (sq_norm (qv b)) as Eb.
  unfold Qnorm2 in Ea, Eb. set (NA := q_norm (qv a)) in *. set (NB := q_norm (qv b)) in *. cbn [qv qw qi qj qk] in Ea, Eb. cbv zeta.
  unfold qsub, q_mul, qv, g_mul. cbn [qw qi qj qk gw gi gj gk]. cbn [pm sg] in C0, C1, C2, C3.
  split; [|split; [|split]].
  - refine (widen 4 4 _ _ _ (NA * NB) _ C0). apply cs4; [exact Pa|exact Pb|lra|lra].
  - refine (widen 4 4 _ _ _ (NA * NB) _ C1). apply cs4; [exact Pa|exact Pb|lra|lra].
  - refine (widen 4 4 _ _ _ (NA * NB) _ C2). apply cs4; [exact Pa|exact Pb|lra|lra].
  - refine (widen 4 4 _ _ _ (NA * NB) _ C3). apply cs4; [exact Pa|exact Pb|lra|lra].
Qed.
Lemma u20 : (20 <= prec)%Z -> u <= / 1000000.
Proof. intros H. apply Rle_trans with (bpow radix2 (-20)); [unfold unit; apply bpow_le; lia|]. change (bpow radix2 (-20)) with (/ 1048576). lra. Qed.
Lemma eta_u : (20 <= prec)%Z -> eta <= u / 1000.
Proof.
  intros H. pose proof M as Me. unfold Prec_lt_emax in Me. unfold tiny, unit. replace (3 - emax - prec)%Z with (- prec + (3 - emax))%Z by lia. rewrite bpow_plus.
  assert (B : bpow radix2 (3 - emax) <= bpow radix2 (-18)) by (apply bpow_le; lia). change (bpow radix2 (-18)) with (/ 262144) in B. pose proof (bpow_gt_0 radix2 (- prec)).
  pose proof (Rmult_le_compat_l (bpow radix2 (- prec)) _ _ ltac:(lra) B). lra.
Qed.
Lemma g34 : (20 <= prec)%Z -> g 3 <= 31 / 10 * u /\ g 4 <= 41 / 10 * u /\ h 3 <= 31 / 10 * eta /\ h 4 <= 41 / 10 * eta.
Proof.
  intros H. pose proof (u20 H) as U. pose proof up as Hu. pose proof ep as He. unfold g, h. change (INR 3) with (1 + 1 + 1). change (INR 4) with (1 + 1 + 1 + 1). cbn [pow]. rewrite Rmult_1_r.
  assert (U2 : 0 <= u * u <= u / 1000000) by nra. assert (U3 : 0 <= u * u * u <= u / 1000000) by nra. assert (U4 : 0 <= u * u * u * u <= u / 1000000) by nra.
  assert (A3 : (1 + u) * ((1 + u) * (1 + u)) = 1 + 3 * u + 3 * (u * u) + u * u * u) by ring.
  assert (A4 : (1 + u) * ((1 + u) * ((1 + u) * (1 + u))) = 1 + 4 * u + 6 * (u * u) + 4 * (u * u * u) + u * u * u * u) by ring.
  assert (P3 : (1 + u) * ((1 + u) * (1 + u)) <= 1 + / 1000) by lra. assert (P4 : (1 + u) * ((1 + u) * ((1 + u) * (1 + u))) <= 1 + / 1000) by lra.
  split; [lra|]. split; [lra|]. split.
  - pose proof (Rmult_le_compat_l ((1 + 1 + 1) * eta) _ _ ltac:(lra) P3). lra.
  - pose proof (Rmult_le_compat_l ((1 + 1 + 1 + 1) * eta) _ _ ltac:(lra) P4). lra.
Qed.
Theorem C108_composition (a b : gquat fl) : (20 <= prec)%Z -> fin_q (g_mul o a b) ->
  q_norm (qsub (qv (g_mul o a b)) (q_mul (qv a) (qv b))) <= 9 * u * (q_norm (qv a) * q_norm (qv b)) + 9 * eta.
Proof.
  intros Hp F. destruct (mul_comps a b F) as (_ & _ & K). cbv zeta in K. destruct K as (K0 & K1 & K2 & K3). destruct (g34 Hp) as (_ & G4 & _ & H4). pose proof (q_norm_nonneg (qv a)) as Pa. pose proof (q_norm_nonneg (qv b)) as Pb.
  assert (Pab : 0 <= q_norm (qv a) * q_norm (qv b)) by (apply Rmult_le_pos; assumption). set (n := q_norm (qv a) * q_norm (qv b)) in *.
  pose proof (g_pos 4). pose proof (h_pos 4). pose proof up. pose proof ep. assert (0 <= g 4 * n) by (apply Rmult_le_pos; assumption).
  eapply Rle_trans; [apply (q_norm_box _ (g 4 * n + h 4)); [lra|assumption..]|]. assert (g 4 * n <= 41 / 10 * u * n) by (apply Rmult_le_compat_r; assumption). nra.
Qed.
(** the length of the product is the product of the lengths *)
Theorem C108_composition_length (a b : gquat fl) : (20 <= prec)%Z -> fin_q (g_mul o a b) ->
  Rabs (q_norm (qv (g_mul o a b)) - q_norm (qv a) * q_norm (qv b)) <= 9 * u * (q_norm (qv a) * q_norm (qv b)) + 9 * eta.
Proof.
  intros Hp F. pose proof (C108_composition a b Hp F) as K. rewrite <- q_norm_mul in *. pose proof (q_triangle (qv (g_mul o a b)) (q_mul (qv a) (qv b))). pose proof (q_triangle (q_mul (qv a) (qv b)) (qv (g_mul o a b))) as T. rewrite qsub_sym in T.
  apply Rabs_le. lra.
Qed.

(** * Normalisation *)
Definition usable (q : gquat fl) : Prop := is_finite (g_norm o q) = true /\ 0 < q_norm (qv q) /\ 4 * eta <= u * (q_norm (qv q) * q_norm (qv q)).
Lemma len_qv q : len 4 (vals prec emax (gfun q)) = q_norm (qv q). Proof. rewrite q_norm_len. unfold len. f_equal. Qed.
Theorem C108_normalized (q : gquat fl) : (20 <= prec)%Z -> usable q ->
  fin_q (g_normalized o q) /\ q_norm (qsub (qv (g_normalized o q)) (q_normalized (qv q))) <= 10 * u.
Proof.
  intros Hp (F & Hn & Hs). pose proof up as Hu. pose proof ep as He. pose proof (u20 Hp) as U. pose proof (eta_u Hp) as Eu.
  assert (R8 : (1 + u) ^ 8 < 2 /\ rel prec 8 <= 9 * u). { destruct (rel_le prec 8 ltac:(lia)) as (A & B); [cbn [INR]; lra|]. split; [exact A|]. eapply Rle_trans; [exact B|]. cbn [INR]. lra. }
  destruct R8 as (G & R). assert (Ns : not_small prec emax 4 (gfun q)). { unfold not_small. rewrite len_qv. split; [exact Hn|]. replace (INR 4) with 4 by (cbn; ring). exact Hs. }
  pose proof (C107_normalize prec emax 4 (gfun q) F Ns G) as K. cbv zeta in K. rewrite len_qv in K. change (4 + 4)%nat with 8%nat in K.
  assert (C : forall k, (k < 4)%nat -> normalize o 4 (gfun q) k = gfun (g_normalized o q) k).
  { intros k Hk. unfold normalize, vec_div. rewrite vfill_in by exact Hk. destruct k as [|[|[|[|k]]]]; [reflexivity..|lia]. }
  split.
  - repeat split; [destruct (K 0%nat ltac:(lia)) as (A & _); rewrite C in A by lia|destruct (K 1%nat ltac:(lia)) as (A & _); rewrite C in A by lia|destruct (K 2%nat ltac:(lia)) as (A & _); rewrite C in A by lia|destruct (K 3%nat ltac:(lia)) as (A & _); rewrite C in A by lia]; exact A.
  - rewrite q_norm_len. set (n := q_norm (qv q)) in *.
    eapply Rle_trans; [apply (len_le 4 _ (fun k => 9 * u * Rabs (qfun (qv q) k / n) + eta))|].
    + intros k Hk. destruct (K k Hk) as (_ & B). rewrite C in B by exact Hk.
      replace (qfun (qsub (qv (g_normalized o q)) (q_normalized (qv q))) k) with (B2R (gfun (g_normalized o q) k) - vals prec emax (gfun q) k / n) by (destruct k as [|[|[|k]]]; reflexivity).
      eapply Rle_trans; [exact B|]. replace (vals prec emax (gfun q) k) with (qfun (qv q) k) by (destruct k as [|[|[|k]]]; reflexivity). apply Rplus_le_compat_r. apply Rmult_le_compat_r; [apply Rabs_pos|exact R].
    + eapply Rle_trans; [apply (len_add 4 (fun k => 9 * u * Rabs (qfun (qv q) k / n)) (fun _ => eta))|].
      rewrite (len_scal 4 (9 * u) (fun k => Rabs (qfun (qv q) k / n))) by lra. rewrite (len_abs 4 (fun k => qfun (qv q) k / n)). rewrite len_const by lra.
      assert (E1 : len 4 (fun k => qfun (qv q) k / n) = 1). { assert (Li : 0 <= / n) by (left; apply Rinv_0_lt_compat; exact Hn). pose proof (len_scal 4 (/ n) (qfun (qv q)) Li) as S. rewrite <- q_norm_len in S. fold n in S. rewrite Rinv_l in S by lra. rewrite <- S. unfold len. f_equal. apply sum_ext. intros. field. lra. }
      rewrite E1. replace (sqrt (INR 4)) with 2; [lra|]. replace (INR 4) with (2 * 2) by (cbn; ring). symmetry. apply sqrt_square. lra.
Qed.
(** so the result has length one up to ten half units *)
Theorem C108_normalized_length (q : gquat fl) : (20 <= prec)%Z -> usable q -> Rabs (q_norm (qv (g_normalized o q)) - 1) <= 10 * u.
Proof.
  intros Hp Uq. destruct (C108_normalized q Hp Uq) as (_ & K). destruct Uq as (_ & Hn & _). assert (U1 : q_norm (q_normalized (qv q)) = 1).
  { apply unit_norm, normalized_unit. intros Z. rewrite sq_norm in Z. nra. }
  pose proof (q_triangle (qv (g_normalized o q)) (q_normalized (qv q))). pose proof (q_triangle (q_normalized (qv q)) (qv (g_normalized o q))) as T. rewrite qsub_sym in T. apply Rabs_le. lra.
Qed.

(** * Rotation *)
Lemma cs3 a b c x y z A B : 0 <= A -> 0 <= B -> a * a + b * b + c * c <= A * A -> x * x + y * y + z * z <= B * B ->
  Rabs (a * x) + Rabs (b * y) + Rabs (c * z) <= A * B.
Proof. intros PA PB EA EB. pose proof (cs4 a b c 0 x y z 0 A B PA PB ltac:(lra) ltac:(lra)) as K. rewrite Rmult_0_l, Rabs_R0 in K. lra. Qed.
Lemma vlen_sq v : vlen v * vlen v = vx v * vx v + vy v * vy v + vz v * vz v.
Proof. unfold vlen. apply sqrt_sqrt. nra. Qed.
Lemma half_comps (c : gquat fl) (v : gvec fl) : fin_q (half_turn o c v) -> fin_v v /\
  q_norm (qsub (qv (half_turn o c v)) (q_mul (qv c) (pure (vv v)))) <= 2 * (g 3 * (q_norm (qv c) * vlen (vv v)) + h 3).
Proof.
  intros (F0 & F1 & F2 & F3). cbn [half_turn gw gi gj gk] in F0, F1, F2, F3. change (is_finite (Bopp (add o (add o (mul o (gi c) (gx v)) (mul o (gj c) (gy v))) (mul o (gk c) (gz v)))) = true) in F0. rewrite is_finite_Bopp in F0.
  destruct (three true true _ _ _ _ _ _ F0) as (A0 & A1 & A2 & C0). destruct (three true false _ _ _ _ _ _ F1) as (_ & _ & _ & C1).
  destruct (three true false _ _ _ _ _ _ F2) as (_ & _ & _ & C2). destruct (three true false _ _ _ _ _ _ F3) as (_ & _ & _ & C3).
  split; [unfold fin_v; tauto|]. pose proof (q_norm_nonneg (qv c)) as Pa. pose proof (sqrt_pos (vx (vv v) * vx (vv v) + vy (vv v) * vy (vv v) + vz (vv v) * vz (vv v))) as Pb. fold (vlen (vv v)) in Pb.
  pose proof (sq_norm (qv c)) as Ea. pose proof (vlen_sq (vv v)) as Eb. unfold Qnorm2 in Ea. set (NA := q_norm (qv c)) in *. set (NB := vlen (vv v)) in *. cbn [qv vv qw qi qj qk vx vy vz] in Ea, Eb.
  pose proof (Rle_0_sqr (B2R (gw c))) as S0. pose proof (Rle_0_sqr (B2R (gi c))) as S1. pose proof (Rle_0_sqr (B2R (gj c))) as S2. pose proof (Rle_0_sqr (B2R (gk c))) as S3. unfold Rsqr in S0, S1, S2, S3.
  pose proof (g_pos 3). pose proof (h_pos 3). assert (0 <= g 3 * (NA * NB)) by (repeat apply Rmult_le_pos; assumption). cbn [pm sg] in C0, C1, C2, C3.
  apply q_norm_box; [lra| | | |]; unfold qsub, q_mul, qv, half_turn, pure, vv; cbn [qw qi qj qk gw gi gj gk vx vy vz].
  - change (neg o (add o (add o (mul o (gi c) (gx v)) (mul o (gj c) (gy v))) (mul o (gk c) (gz v)))) with (Bopp (add o (add o (mul o (gi c) (gx v)) (mul o (gj c) (gy v))) (mul o (gk c) (gz v)))). rewrite B2R_Bopp.
    rewrite <- Rabs_Ropp. match goal with |- Rabs ?e <= _ => replace e with (B2R (add o (add o (mul o (gi c) (gx v)) (mul o (gj c) (gy v))) (mul o (gk c) (gz v))) - (B2R (gi c) * B2R (gx v) + B2R (gj c) * B2R (gy v) + B2R (gk c) * B2R (gz v))) by ring end.
    refine (widen 3 3 _ _ _ (NA * NB) _ C0). apply cs3; [exact Pa|exact Pb|lra|lra].
  - match goal with |- Rabs (?e - ?r) <= _ => replace r with (B2R (gw c) * B2R (gx v) + B2R (gj c) * B2R (gz v) + - (B2R (gk c) * B2R (gy v))) by ring end.
    refine (widen 3 3 _ _ _ (NA * NB) _ C1). apply cs3; [exact Pa|exact Pb|lra|lra].
  - match goal with |- Rabs (?e - ?r) <= _ => replace r with (B2R (gw c) * B2R (gy v) + B2R (gk c) * B2R (gx v) + - (B2R (gi c) * B2R (gz v))) by ring end.
    refine (widen 3 3 _ _ _ (NA * NB) _ C2). apply cs3; [exact Pa|exact Pb|lra|lra].
  - match goal with |- Rabs (?e - ?r) <= _ => replace r with (B2R (gw c) * B2R (gz v) + B2R (gi c) * B2R (gy v) + - (B2R (gj c) * B2R (gx v))) by ring end.
    refine (widen 3 3 _ _ _ (NA * NB) _ C3). apply cs3; [exact Pa|exact Pb|lra|lra].
Qed.
Lemma rotate_exact q v : rotate_vector q v = vpart (q_mul (q_mul (q_conjugate (q_normalized q)) (pure v)) (q_normalized q)).
Proof. unfold rotate_vector, vpart, q_mul, pure. cbn [qw qi qj qk]. f_equal; ring. Qed.
Lemma sandwich Q q v : q_norm (qsub (q_mul (q_mul (q_conjugate Q) (pure v)) Q) (q_mul (q_mul (q_conjugate q) (pure v)) q)) <= q_norm (qsub Q q) * vlen v * (q_norm Q + q_norm q).
Proof.
  eapply Rle_trans; [apply (qsub_triangle _ (q_mul (q_mul (q_conjugate q) (pure v)) Q))|].
  assert (E1 : qsub (q_mul (q_mul (q_conjugate Q) (pure v)) Q) (q_mul (q_mul (q_conjugate q) (pure v)) Q) = q_mul (q_mul (q_conjugate (qsub Q q)) (pure v)) Q) by (unfold qsub, q_mul, q_conjugate, pure; cbn [qw qi qj qk]; f_equal; ring).
  assert (E2 : qsub (q_mul (q_mul (q_conjugate q) (pure v)) Q) (q_mul (q_mul (q_conjugate q) (pure v)) q) = q_mul (q_mul (q_conjugate q) (pure v)) (qsub Q q)) by (unfold qsub, q_mul, q_conjugate, pure; cbn [qw qi qj qk]; f_equal; ring).
  rewrite E1, E2, !q_norm_mul, !conj_norm, !pure_norm. right. ring.
Qed.
Lemma VP x y : vlen (vdiff (vpart x) (vpart y)) <= q_norm (qsub x y).
Proof. eapply Rle_trans; [|apply vpart_le]. right. reflexivity. Qed.
(** the second product *)
Lemma second (p a : gquat fl) r A E :
  r = mkGV (sub o (add o (add o (mul o (gw a) (gi p)) (mul o (gi a) (gw p))) (mul o (gj a) (gk p))) (mul o (gk a) (gj p)))
    (add o (add o (sub o (mul o (gw a) (gj p)) (mul o (gi a) (gk p))) (mul o (gj a) (gw p))) (mul o (gk a) (gi p)))
    (add o (sub o (add o (mul o (gw a) (gk p)) (mul o (gi a) (gj p))) (mul o (gj a) (gi p))) (mul o (gk a) (gw p))) ->
  fin_v r -> fin_q a /\
  (q_norm (qsub (qv a) A) <= E -> vlen (vdiff (vv r) (vpart (q_mul A (qv p)))) <= 2 * (g 4 * ((q_norm A + E) * q_norm (qv p)) + h 4) + E * q_norm (qv p)).
Proof.
  intros -> (F1 & F2 & F3). cbn [gx gy gz] in F1, F2, F3.
  destruct (four true true false _ _ _ _ _ _ _ _ F1) as (A0 & A1 & A2 & A3 & C1). destruct (four false true true _ _ _ _ _ _ _ _ F2) as (_ & _ & _ & _ & C2). destruct (four true false true _ _ _ _ _ _ _ _ F3) as (_ & _ & _ & _ & C3).
  split; [unfold fin_q; tauto|]. intros Ka. cbn [pm sg] in C1, C2, C3.
  pose proof (q_triangle (qv a) A) as Ta. pose proof (q_norm_nonneg (qv a)) as Pa. pose proof (q_norm_nonneg (qv p)) as PN. pose proof (sq_norm (qv a)) as Sa. pose proof (sq_norm (qv p)) as SQ. unfold Qnorm2 in Sa, SQ.
  cbn [qv qw qi qj qk] in Sa, SQ. set (L := q_norm (qv a)) in *. set (N := q_norm (qv p)) in *. pose proof (g_pos 4) as G4p. pose proof (h_pos 4) as H4p. assert (0 <= g 4 * (L * N)) by (repeat apply Rmult_le_pos; assumption).
  eapply Rle_trans; [apply (vdiff_triangle _ (vpart (q_mul (qv a) (qv p))))|]. apply Rplus_le_compat.
  - apply Rle_trans with (2 * (g 4 * (L * N) + h 4)).
    + rewrite <- pure_norm. apply q_norm_box; [lra|cbn; rewrite Rabs_R0; lra| | |]; unfold vv, vdiff, pure, vpart, q_mul; cbn [qv qw qi qj qk vx vy vz gx gy gz].
      * refine (widen 4 4 _ _ _ (L * N) _ C1). apply cs4; [exact Pa|exact PN|lra|lra].
      * refine (widen 4 4 _ _ _ (L * N) _ C2). apply cs4; [exact Pa|exact PN|lra|lra].
      * refine (widen 4 4 _ _ _ (L * N) _ C3). apply cs4; [exact Pa|exact PN|lra|lra].
    + assert (L * N <= (q_norm A + E) * N) by (apply Rmult_le_compat_r; lra). assert (g 4 * (L * N) <= g 4 * ((q_norm A + E) * N)) by (apply Rmult_le_compat_l; assumption). lra.
  - eapply Rle_trans; [apply VP|]. replace (qsub (q_mul (qv a) (qv p)) (q_mul A (qv p))) with (q_mul (qsub (qv a) A) (qv p)) by (unfold qsub, q_mul; cbn [qw qi qj qk]; f_equal; ring). rewrite q_norm_mul. fold N. apply Rmult_le_compat_r; assumption.
Qed.
Lemma conj_val (p : gquat fl) : qv (g_conjugate o p) = q_conjugate (qv p).
Proof. unfold qv, g_conjugate, q_conjugate. cbn [gw gi gj gk qw qi qj qk]. change (neg o) with (@Bopp prec emax). rewrite !B2R_Bopp. reflexivity. Qed.
Lemma two_products (q : gquat fl) (v : gvec fl) : fin_v (g_rotate o q v) -> let Q := qv (g_normalized o q) in let V := vlen (vv v) in let E := 2 * (g 3 * (q_norm Q * V) + h 3) in
  vlen (vdiff (vv (g_rotate o q v)) (vpart (q_mul (q_mul (q_conjugate Q) (pure (vv v))) Q))) <= 2 * (g 4 * ((q_norm Q * V + E) * q_norm Q) + h 4) + E * q_norm Q.
Proof.
  intros F. pose proof (g_rotate_eq o q v) as Eg. cbv zeta in Eg. revert Eg. generalize (half_comps (g_conjugate o (g_normalized o q)) v). rewrite conj_val, conj_norm.
  generalize (half_turn o (g_conjugate o (g_normalized o q)) v). generalize (g_normalized o q). revert F. generalize (g_rotate o q v). intros r F p a Ha Er. cbv zeta.
  destruct (second p a r (q_mul (q_conjugate (qv p)) (pure (vv v))) (2 * (g 3 * (q_norm (qv p) * vlen (vv v)) + h 3)) Er F) as (Fa & K). destruct (Ha Fa) as (_ & Ka). specialize (K Ka).
  rewrite q_norm_mul, conj_norm, pure_norm in K. exact K.
Qed.
(** the rotated vector is within 36 half units of the exactly rotated one, relative to its length *)
Theorem C108_rotate (q : gquat fl) (v : gvec fl) : (20 <= prec)%Z -> usable q -> fin_v (g_rotate o q v) ->
  vlen (vdiff (vv (g_rotate o q v)) (rotate_vector (qv q) (vv v))) <= 36 * u * vlen (vv v) + 16 * eta.
Proof.
  intros Hp Uq F. destruct (C108_normalized q Hp Uq) as (_ & Kq). pose proof (C108_normalized_length q Hp Uq) as Kl.
  assert (U1 : q_norm (q_normalized (qv q)) = 1). { destruct Uq as (_ & Hn & _). apply unit_norm, normalized_unit. intros Z. rewrite sq_norm in Z. nra. }
  pose proof (two_products q v F) as D. cbv zeta in D. rewrite rotate_exact.
  revert Kq Kl D. generalize (qv (g_normalized o q)) (vv (g_rotate o q v)) (vv v). revert U1. generalize (q_normalized (qv q)). clear F Uq q v. intros e U1 Q r v Kq Kl D.
  set (V := vlen v) in *. set (N := q_norm Q) in *. assert (PV : 0 <= V) by apply sqrt_pos. assert (PN : 0 <= N) by apply q_norm_nonneg. set (E1 := 2 * (g 3 * (N * V) + h 3)) in *.
  assert (D3 : vlen (vdiff (vpart (q_mul (q_mul (q_conjugate Q) (pure v)) Q)) (vpart (q_mul (q_mul (q_conjugate e) (pure v)) e))) <= 10 * u * V * (N + 1)).
  { eapply Rle_trans; [apply VP|]. eapply Rle_trans; [apply sandwich|]. rewrite U1. fold N V. repeat (apply Rmult_le_compat_r; [lra|]). exact Kq. }
  pose proof (vdiff_triangle r (vpart (q_mul (q_mul (q_conjugate Q) (pure v)) Q)) (vpart (q_mul (q_mul (q_conjugate e) (pure v)) e))) as T1.
  destruct (g34 Hp) as (G3 & G4 & H3 & H4). pose proof (u20 Hp) as U. pose proof up as Hu. pose proof ep as He. pose proof (eta_u Hp) as Eu. pose proof (g_pos 3). pose proof (h_pos 3). pose proof (g_pos 4). pose proof (h_pos 4).
  assert (BN : N <= 1 + / 10000) by (apply Rabs_le_inv in Kl; lra).
  assert (BNV : N * V <= (1 + / 10000) * V) by (apply Rmult_le_compat_r; assumption). assert (PNV : 0 <= N * V) by (apply Rmult_le_pos; assumption).
  assert (uV : 0 <= u * V) by (apply Rmult_le_pos; lra).
  assert (BE : E1 <= 63 / 10 * (u * V) + 62 / 10 * eta).
  { unfold E1. assert (g 3 * (N * V) <= 31 / 10 * u * ((1 + / 10000) * V)) by (apply Rmult_le_compat; assumption). lra. }
  assert (PE : 0 <= E1). { unfold E1. assert (0 <= g 3 * (N * V)) by (apply Rmult_le_pos; assumption). lra. }
  assert (BEN : E1 * N <= (63 / 10 * (u * V) + 62 / 10 * eta) * (1 + / 10000)) by (apply Rmult_le_compat; assumption).
  assert (PL : 0 <= (N * V + E1) * N) by (apply Rmult_le_pos; lra).
  assert (BL : (N * V + E1) * N <= (1 + / 1000) * V + 7 * eta).
  { apply Rle_trans with (((1 + / 10000) * V + (63 / 10 * (u * V) + 62 / 10 * eta)) * (1 + / 10000)); [apply Rmult_le_compat; lra|].
    assert (u * V <= / 1000000 * V) by (apply Rmult_le_compat_r; lra). lra. }
  assert (B4 : g 4 * ((N * V + E1) * N) <= 41 / 10 * u * ((1 + / 1000) * V + 7 * eta)) by (apply Rmult_le_compat; assumption).
  assert (u * eta <= / 1000000 * eta) by (apply Rmult_le_compat_r; lra).
  assert (B5 : 10 * u * V * (N + 1) <= 10 * (u * V) * (2 + / 10000)). { replace (10 * u * V) with (10 * (u * V)) by ring. apply Rmult_le_compat_l; lra. }
  lra.
Qed.
(** hence lengths are preserved *)
Theorem C108_rotate_length (q : gquat fl) (v : gvec fl) : (20 <= prec)%Z -> usable q -> fin_v (g_rotate o q v) ->
  Rabs (vlen (vv (g_rotate o q v)) - vlen (vv v)) <= 36 * u * vlen (vv v) + 16 * eta.
Proof.
  intros Hp Uq F. pose proof (C108_rotate q v Hp Uq F) as K.
  assert (E : vlen (rotate_vector (qv q) (vv v)) = vlen (vv v)).
  { assert (U1 : q_norm (q_normalized (qv q)) = 1). { destruct Uq as (_ & Hn & _). apply unit_norm, normalized_unit. intros Z. rewrite sq_norm in Z. nra. }
    rewrite rotate_exact. set (e := q_normalized (qv q)) in *. set (c := q_mul (q_mul (q_conjugate e) (pure (vv v))) e).
    assert (W : qw c = 0) by (unfold c, q_mul, q_conjugate, pure; cbn [qw qi qj qk]; ring).
    assert (Nc : q_norm c = vlen (vv v)) by (unfold c; rewrite !q_norm_mul, conj_norm, pure_norm, U1; ring). rewrite <- Nc. unfold vlen, q_norm. f_equal. rewrite q_norm2_eq. unfold Qnorm2. rewrite W. unfold vpart. cbn [vx vy vz]. ring. }
  assert (T : forall a b, vlen a <= vlen b + vlen (vdiff a b)). { intros a b. rewrite <- (pure_norm a), <- (pure_norm b), <- (pure_norm (vdiff a b)). eapply Rle_trans; [apply (q_triangle (pure a) (pure b))|]. right. f_equal. unfold q_norm. f_equal. rewrite !q_norm2_eq. unfold Qnorm2. cbn. ring. }
  pose proof (T (vv (g_rotate o q v)) (rotate_vector (qv q) (vv v))) as T1. pose proof (T (rotate_vector (qv q) (vv v)) (vv (g_rotate o q v))) as T2.
  assert (Sy : vlen (vdiff (rotate_vector (qv q) (vv v)) (vv (g_rotate o q v))) = vlen (vdiff (vv (g_rotate o q v)) (rotate_vector (qv q) (vv v)))) by apply vdiff_sym.
  rewrite Sy in T2. rewrite E in *. apply Rabs_le. lra.
Qed.

(** * Drift: composing many unit quaternions without renormalising *)
Definition near_unit (q : gquat fl) : Prop := Rabs (q_norm (qv q) - 1) <= 10 * u.
Definition compose (q : gquat fl) (l : list (gquat fl)) : gquat fl := fold_left (g_mul o) l q.
Definition compose_exact (q : quat) (l : list quat) : quat := fold_left q_mul l q.
Lemma mul_fin_l a b : fin_q (g_mul o a b) -> fin_q a. Proof. intros F. apply (mul_comps a b F). Qed.
Lemma compose_fin l : forall q, fin_q (compose q l) -> fin_q q.
Proof. induction l as [|b l IH]; intros q F; [exact F|]. apply (mul_fin_l q b), IH. exact F. Qed.
Lemma compose_snoc q l b : compose q (l ++ b :: nil) = g_mul o (compose q l) b. Proof. unfold compose. rewrite fold_left_app. reflexivity. Qed.
Lemma exact_snoc q l b : compose_exact q (l ++ b :: nil) = q_mul (compose_exact q l) b. Proof. unfold compose_exact. rewrite fold_left_app. reflexivity. Qed.
(** after n compositions the length is off by at most 30 (n + 1) half units and the quaternion by 20 n *)
Theorem C108_drift q l : (20 <= prec)%Z -> near_unit q -> Forall near_unit l -> fin_q (compose q l) ->
  30 * (INR (length l) + 1) * u <= / 2 ->
  Rabs (q_norm (qv (compose q l)) - 1) <= 30 * (INR (length l) + 1) * u /\
  q_norm (qsub (qv (compose q l)) (compose_exact (qv q) (map qv l))) <= 20 * INR (length l) * u.
Proof.
  intros Hp Hq. induction l as [|b l IH] using rev_ind; intros Hl F Hn.
  - cbn [length INR compose compose_exact fold_left map] in *. unfold near_unit in Hq. pose proof up. split; [lra|].
    assert (Z : q_norm (qsub (qv q) (qv q)) = 0). { unfold q_norm. rewrite q_norm2_eq. unfold Qnorm2. generalize (qv q). intros e. cbn [qsub qw qi qj qk]. rewrite <- sqrt_0. f_equal. ring. } rewrite Z. lra.
  - rewrite compose_snoc in *. rewrite map_app in *. cbn [map]. rewrite exact_snoc. rewrite app_length, plus_INR in *. change (INR (length (b :: nil))) with 1 in *.
    apply Forall_app in Hl. destruct Hl as (Hl & Hb). apply Forall_inv in Hb. unfold near_unit in Hb. pose proof up as Hu. pose proof ep as He. pose proof (eta_u Hp) as Eu. pose proof (u20 Hp) as U.
    destruct (IH Hl (mul_fin_l _ _ F) ltac:(nra)) as (I1 & I2). pose proof (C108_composition (compose q l) b Hp F) as K. pose proof (C108_composition_length (compose q l) b Hp F) as KL. clear IH F Hl.
    revert I1 I2 K KL Hb. generalize (qv (g_mul o (compose q l) b)) (qv (compose q l)) (qv b) (compose_exact (qv q) (map qv l)). intros r S B X I1 I2 K KL Hb.
    assert (PT : q_norm (qsub r (q_mul X B)) <= q_norm (qsub r (q_mul S B)) + q_norm (qsub S X) * q_norm B).
    { rewrite <- q_norm_mul. replace (q_mul (qsub S X) B) with (qsub (q_mul S B) (q_mul X B)) by (unfold qsub, q_mul; cbn [qw qi qj qk]; f_equal; ring). apply qsub_triangle. }
    pose proof (q_norm_nonneg S) as PP. pose proof (q_norm_nonneg B) as PB. pose proof (q_norm_nonneg (qsub S X)) as PD. set (n := INR (length l)) in *. assert (Pn : 0 <= n) by apply pos_INR.
    set (NP := q_norm S) in *. set (NB := q_norm B) in *. set (D := q_norm (qsub S X)) in *.
    assert (B1 : NP <= 3 / 2) by (apply Rabs_le_inv in I1; nra). assert (B2 : Rabs (NP * NB - NP) <= 15 * u). { replace (NP * NB - NP) with (NP * (NB - 1)) by ring. rewrite Rabs_mult, (Rabs_pos_eq NP) by exact PP. replace (15 * u) with (3 / 2 * (10 * u)) by field. apply Rmult_le_compat; try assumption; apply Rabs_pos. }
    assert (B3 : NB <= 1 + / 10000) by (apply Rabs_le_inv in Hb; lra). assert (B4 : NP * NB <= 3 / 2 * (1 + / 10000)) by (apply Rmult_le_compat; assumption). assert (B5 : u * (NP * NB) <= u * (3 / 2 * (1 + / 10000))) by (apply Rmult_le_compat_l; lra).
    split.
    + apply Rabs_le_inv in KL. apply Rabs_le_inv in B2. apply Rabs_le_inv in I1. apply Rabs_le. lra.
    + assert (B6 : D * NB <= 20 * n * u * (1 + 10 * u)) by (apply Rmult_le_compat; try assumption; apply Rabs_le_inv in Hb; lra).
      assert (B7 : n * u <= / 60) by lra. assert (B8 : n * u * u <= / 60 * u) by (apply Rmult_le_compat_r; lra). lra.
Qed.
End Width.

(** over the exact reals the generic code is that of [AttModel] *)
Definition gq (q : quat) : gquat R := mkG (qw q) (qi q) (qj q) (qk q).
Definition gve (v : V3) : gvec R := mkGV (vx v) (vy v) (vz v).
Theorem C108_same_code a b v : g_mul Rops (gq a) (gq b) = gq (q_mul a b) /\ g_normalized Rops (gq a) = gq (q_normalized a) /\
  g_conjugate Rops (gq a) = gq (q_conjugate a) /\ g_rotate Rops (gq a) (gve v) = gve (rotate_vector a v).
Proof. repeat split. Qed.

Local Instance p53 : Prec_gt_0 53 := eq_refl.
Local Instance e53 : Prec_lt_emax 53 1024 := eq_refl.
Local Notation f64 := (binary_float 53 1024).
Local Notation o64 := (float_ops 53 1024).
(** without the guard: a quaternion whose squares overflow turns every vector into zero *)
Lemma zero_of_sf (x : f64) : B2SF x = SpecFloat.S754_zero false -> B2R x = 0.
Proof. intros E. rewrite <- SF2R_B2SF, E. reflexivity. Qed.
Definition q600 : gquat f64 := mkG (pow2 600) (pow2 600) (pow2 600) (pow2 600).
Definition v111 : gvec f64 := mkGV Bone Bone Bone.
Theorem C108_huge_refuted : exists (q : gquat f64) (v : gvec f64), fin_q 53 1024 q /\ fin_v 53 1024 v /\ B2SF (gx v) <> SpecFloat.S754_zero false /\
  B2R (gx (g_rotate o64 q v)) = 0 /\ B2R (gy (g_rotate o64 q v)) = 0 /\ B2R (gz (g_rotate o64 q v)) = 0.
Proof.
  exists q600, v111. split; [unfold fin_q; vm_compute; repeat split|]. split; [unfold fin_v; vm_compute; repeat split|]. split; [vm_compute; discriminate|].
  split; [|split]; apply zero_of_sf; vm_compute; reflexivity.
Qed.
(** the half turn about (1, 1, 1) in f64: usable, with finite results; the unit quaternion composes *)
Example C108_nontrivial : let q := mkG (Bone : f64) Bone Bone Bone in let v := mkGV (Bone : f64) (pow2 1) (pow2 (-1)) in
  usable 53 1024 q /\ fin_v 53 1024 (g_rotate o64 q v) /\ fin_q 53 1024 (g_mul o64 q q) /\
  let e := mkG (pow2 (-1)) (pow2 (-1)) (pow2 (-1)) (pow2 (-1)) in near_unit 53 1024 e /\ fin_q 53 1024 (compose 53 1024 e (e :: e :: nil)) /\ 30 * (INR 2 + 1) * unit 53 <= / 2.
Proof.
  intros q v. assert (E1 : B2R (Bone : f64) = 1) by apply Bone_correct.
  assert (N : q_norm (qv 53 1024 q) = 2). { unfold q_norm. rewrite q_norm2_eq. unfold Qnorm2, qv, q. cbn [gw gi gj gk qw qi qj qk]. rewrite E1. replace (1 * 1 + 1 * 1 + 1 * 1 + 1 * 1) with (2 * 2) by ring. apply sqrt_square. lra. }
  split. { unfold usable. rewrite N. split; [vm_compute; reflexivity|]. split; [lra|]. unfold tiny, unit. replace (2 * 2) with (bpow radix2 2) by (cbn; lra). replace 4 with (bpow radix2 2) by (cbn; lra). apply Rle_trans with (bpow radix2 2 * (1 * bpow radix2 (3 - 1024 - 53))); [pose proof (bpow_gt_0 radix2 (3 - 1024 - 53)); pose proof (bpow_gt_0 radix2 2); apply Rmult_le_compat_l; lra|]. rewrite Rmult_1_l, <- !bpow_plus. apply bpow_le. lia. }
  split; [unfold fin_v; vm_compute; repeat split|]. split; [unfold fin_q; vm_compute; repeat split|]. intros e.
  assert (Eh : B2R (pow2 (-1)) = / 2). { rewrite <- SF2R_B2SF. assert (E : B2SF (pow2 (-1)) = SpecFloat.S754_finite false 4503599627370496 (-53)) by (vm_compute; reflexivity). rewrite E. unfold SF2R, F2R. cbn -[IZR bpow]. change (bpow radix2 (-53)) with (/ 9007199254740992). lra. }
  split. { unfold near_unit. assert (Ne : q_norm (qv 53 1024 e) = 1). { unfold q_norm. rewrite q_norm2_eq. unfold Qnorm2, qv, e. cbn [gw gi gj gk qw qi qj qk]. rewrite Eh. replace (/ 2 * / 2 + / 2 * / 2 + / 2 * / 2 + / 2 * / 2) with 1 by field. apply sqrt_1. } rewrite Ne. rewrite Rminus_diag_eq by reflexivity. rewrite Rabs_R0. unfold unit. pose proof (bpow_gt_0 radix2 (- (53))). lra. }
  split; [unfold fin_q; vm_compute; repeat split|]. unfold unit. change (bpow radix2 (- (53))) with (/ 9007199254740992). cbn [INR]. lra.
Qed.
