(** C127, the cubic spline: what floating-point rounding cannot disturb. *)
From Coq Require Import ZArith QArith Qreals Reals Lra Lia Bool Arith List.
From Flocq Require Import Core Relative BinarySingleNaN.
From Verif Require Import Scalar RSum InterpModel InterpSpec InterpProofs FloatModel RoundProps StatsFloatModel StatsFloatProps InterpFloatModel InterpFloatProps.
Import ListNotations.
Local Open Scope R_scope.

Lemma while_ext {S} (inv : S -> Prop) fuel c (b b' : S -> option S) : forall s, inv s ->
  (forall s, inv s -> c s = true -> b s = b' s /\ forall s', b s = Some s' -> inv s') -> while_ fuel c b s = while_ fuel c b' s.
Proof.
  induction fuel as [|f IH]; intros s I H; cbn [while_]; destruct (c s) eqn:C; try reflexivity.
  destruct (H s I C) as [E N]. rewrite <- E. destruct (b s) as [s'|] eqn:B; [|reflexivity]. apply IH; [apply N; reflexivity|exact H].
Qed.

(** * The construction, any arithmetic *)
Section Generic.
Context {F : Type} (o : ops F).
Lemma g_back_step n sd u :
  (forall k, (k < n - 1)%nat -> g_back o n sd u k = add o (mul o (sd k) (g_back o n sd u (k + 1)%nat)) (u k)) /\
  (forall k, (n - 1 <= k)%nat -> g_back o n sd u k = sd k).
Proof.
  unfold g_back. generalize (n - 1)%nat. intros m. clear n.
  assert (G : forall m sd, let r := fold_left (fun sd k => upd sd k (add o (mul o (sd k) (sd (k + 1)%nat)) (u k))) (rev (seq 0 m)) sd in
    (forall k, (k < m)%nat -> r k = add o (mul o (sd k) (r (k + 1)%nat)) (u k)) /\ (forall k, (m <= k)%nat -> r k = sd k)).
  { clear. induction m as [|m IH]; intros sd r; [split; [intros; lia|reflexivity]|]. unfold r. rewrite seq_S, rev_app_distr. cbn [rev app fold_left plus].
    set (sd' := upd sd m (add o (mul o (sd m) (sd (m + 1)%nat)) (u m))). destruct (IH sd') as [I1 I2]. cbv zeta in I1, I2. split.
    - intros k Hk. destruct (Nat.eq_dec k m) as [->|N].
      + rewrite (I2 m) by lia. unfold sd' at 1. rewrite upd_same. rewrite (I2 (m + 1)%nat) by lia. unfold sd'. rewrite upd_other by lia. reflexivity.
      + rewrite (I1 k) by lia. unfold sd' at 1. rewrite upd_other by exact N. reflexivity.
    - intros k Hk. rewrite (I2 k) by lia. unfold sd'. apply upd_other. lia. }
  apply (G m sd).
Qed.
Lemma g_sweep_ends n xs ys sd u : for_ 1 (n - 1) (g_sweep o xs ys) (fun _ => zero o, fun _ => zero o) = (sd, u) ->
  (1 <= n - 1)%nat -> forall i, (i = 0 \/ n - 1 <= i)%nat -> sd i = zero o /\ u i = zero o.
Proof.
  intros H N. pose (Q := fun (m : nat) (s : (nat -> F) * (nat -> F)) => forall i, (i = 0 \/ m <= i)%nat -> fst s i = zero o /\ snd s i = zero o).
  assert (K : Q (n - 1)%nat (for_ 1 (n - 1) (g_sweep o xs ys) (fun _ => zero o, fun _ => zero o))).
  { apply (for_ind Q); [lia|intros i _; auto|]. intros i [d v] Hi IH j Hj. unfold g_sweep. cbn [fst snd] in *. rewrite !upd_other by lia. apply IH. lia. }
  rewrite H in K. exact K.
Qed.
Definition accepted (n : nat) (xs : nat -> F) : Prop := forall i, (i + 1 < n)%nat -> leb o (xs (i + 1)%nat) (xs i) = false.
Lemma g_spline_some n xs ys s : g_spline_new o n xs ys = Some s ->
  (2 <= n)%nat /\ accepted n xs /\ gs_xs s = xs /\ gs_ys s = ys /\ exists sd u,
    for_ 1 (n - 1) (g_sweep o xs ys) (fun _ => zero o, fun _ => zero o) = (sd, u) /\ gs_m s = g_back o n sd u.
Proof.
  unfold g_spline_new. destruct (Nat.ltb_spec n 2) as [|N]; [discriminate|].
  match goal with |- match ?X with _ => _ end = _ -> _ => destruct X as [[]|] eqn:E end; [|discriminate].
  destruct (for_ 1 (n - 1) _ _) as [sd u] eqn:Es. intros H. injection H as <-. split; [exact N|]. split.
  - pose (Q := fun (m : nat) (_ : Datatypes.unit) => forall i, (i < m)%nat -> leb o (xs (i + 1)%nat) (xs i) = false).
    assert (K : Q (n - 1)%nat tt).
    { refine (forM_some_ind Q 0 (n - 1) _ _ _ _ _ E _); [lia|intros i Hi; lia|]. intros i [] [] Hi HQ Ei j Hj. destruct (leb o _ _) eqn:L in Ei; [discriminate|].
      destruct (Nat.eq_dec j i) as [->|]; [exact L|]. apply HQ. lia. }
    intros i Hi. apply K. lia.
  - split; [reflexivity|]. split; [reflexivity|]. exists sd, u. split; reflexivity.
Qed.
Lemma g_spline_ok n xs ys : (2 <= n)%nat -> accepted n xs -> exists s, g_spline_new o n xs ys = Some s.
Proof.
  intros N A. unfold g_spline_new. destruct (Nat.ltb_spec n 2) as [|_]; [lia|].
  destruct (forM_ind (fun _ _ => True) 0 (n - 1) (fun i (_ : Datatypes.unit) => if leb o (xs (i + 1)%nat) (xs i) then None else Some tt) tt) as ([] & E & _); [lia|exact I| |].
  - intros i [] Hi _. rewrite A by lia. exists tt. auto.
  - rewrite E. destruct (for_ _ _ _ _). eexists. reflexivity.
Qed.
End Generic.

Section Width.
Context (prec emax : Z) {P : Prec_gt_0 prec} {M : Prec_lt_emax prec emax}.
Local Notation fl := (binary_float prec emax).
Local Notation o := (float_ops prec emax).
Local Notation rd := (round radix2 (SpecFloat.fexp prec emax) ZnearestE).
Local Notation rd_zero := (rd_zero prec emax).
Local Notation one_fmt := (one_fmt prec emax).

Lemma leb_iff (x y : fl) : is_finite x = true -> is_finite y = true -> leb o x y = Rleb (B2R x) (B2R y).
Proof.
  intros Fx Fy. cbn [leb float_ops]. rewrite Bleb_correct by assumption. destruct (Rle_bool_spec (B2R x) (B2R y)) as [L|L]; symmetry; [apply Rleb_true|apply Rleb_false]; exact L.
Qed.
(** finite nodes are accepted exactly when they increase *)
Theorem C127_spline_construction : forall n (xs ys : nat -> fl), (forall i, (i < n)%nat -> is_finite (xs i) = true) ->
  (exists s, g_spline_new o n xs ys = Some s) <-> (2 <= n)%nat /\ increasing n (fun i => B2R (xs i)).
Proof.
  intros n xs ys Fi. split.
  - intros (s & H). destruct (g_spline_some o n xs ys s H) as (N & A & _). split; [exact N|]. intros i Hi. specialize (A i ltac:(lia)). rewrite leb_iff in A by (apply Fi; lia). apply Rleb_false in A. rewrite Nat.add_1_r in A. exact A.
  - intros [N I]. apply g_spline_ok; [exact N|]. intros i Hi. rewrite leb_iff by (apply Fi; lia). apply Rleb_false. rewrite Nat.add_1_r. apply I. lia.
Qed.
(** but nodes that are not numbers are accepted too *)
Theorem C127_spline_construction_refuted : exists (xs ys : nat -> fl) s, g_spline_new o 2 xs ys = Some s /\ is_nan (xs 0%nat) = true.
Proof.
  set (xs := fun i => match i with O => B754_nan | _ => one o end : fl). destruct (g_spline_ok o 2 xs (fun _ => zero o)) as (s & E); [lia| |exists xs, (fun _ => zero o), s; split; [exact E|reflexivity]].
  intros i Hi. assert (i = 0)%nat as -> by lia. cbn. destruct Bone; reflexivity.
Qed.
(** the second derivative is zero at both ends, rounding included *)
Theorem C127_spline_natural_ends : forall n (xs ys : nat -> fl) s, g_spline_new o n xs ys = Some s ->
  B2R (gs_m s (n - 1)%nat) = 0 /\ (is_finite (gs_m s 0%nat) = true -> B2R (gs_m s 0%nat) = 0).
Proof.
  intros n xs ys s H. destruct (g_spline_some o n xs ys s H) as (N & _ & _ & _ & sd & u & E & Em). destruct (g_back_step o n sd u) as [B1 B2].
  pose proof (g_sweep_ends o n xs ys sd u E ltac:(lia)) as Z. rewrite Em. split.
  - rewrite B2 by lia. rewrite (proj1 (Z (n - 1)%nat ltac:(lia))). reflexivity.
  - rewrite (B1 0%nat) by lia. destruct (Z 0%nat ltac:(lia)) as [-> ->]. intros Fa. destruct (add_fin prec emax _ _ Fa) as (Fm & _ & ->). destruct (mul_fin prec emax _ _ Fm) as (_ & _ & ->).
    cbn [zero float_ops B2R]. rewrite Rmult_0_l, rd_zero, Rplus_0_l. apply rd_zero.
Qed.
(** the piece used is the one that contains the point, or the first or the last *)
Theorem C127_spline_segment : forall n (xs ys : nat -> fl) s x, g_spline_new o n xs ys = Some s -> (forall i, (i < n)%nat -> is_finite (xs i) = true) -> is_finite x = true ->
  exists i, g_segment o s x = Some i /\ (i + 1 < n)%nat /\
    (B2R (xs 0%nat) <= B2R x <= B2R (xs (n - 1)%nat) -> B2R (xs i) <= B2R x <= B2R (xs (i + 1)%nat)) /\
    (B2R x < B2R (xs 0%nat) -> i = 0%nat) /\ (B2R (xs (n - 1)%nat) < B2R x -> i = (n - 2)%nat).
Proof.
  intros n xs ys s x H Fi Fx. destruct (g_spline_some o n xs ys s H) as (N & _ & Ex & _). destruct (proj1 (C127_spline_construction n xs ys Fi) (ex_intro _ s H)) as [_ Inc].
  set (q := mkSpline (fun i => B2R (xs i)) (fun _ => 0) (fun _ => 0) : spline n).
  assert (E : g_segment o s x = segment_index q (B2R x)).
  { unfold g_segment, segment_index. rewrite Ex. cbn [s_xs q]. rewrite !leb_iff by (auto; apply Fi; lia). destruct (Rleb (B2R x) _); [reflexivity|]. destruct (Rleb _ (B2R x)); [reflexivity|]. f_equal.
    apply (while_ext (fun lh : nat * nat => (fst lh < snd lh)%nat /\ (snd lh <= n - 1)%nat)); [cbn; lia|]. intros [lo hi] [A B] C. cbn [fst snd] in *. apply Nat.ltb_lt in C.
    set (mid := ((lo + hi) / 2)%nat). assert (Hm : (lo < mid < hi)%nat).
    { unfold mid. assert (Z := Nat.div_mod (lo + hi) 2 ltac:(lia)). assert (Z' := Nat.mod_upper_bound (lo + hi) 2 ltac:(lia)). lia. }
    rewrite leb_iff by (auto; apply Fi; lia). split; [reflexivity|]. intros [lo' hi']. cbn [fst snd]. destruct (Rleb _ _); intros K; injection K as <- <-; lia. }
  rewrite E. destruct (segment_ok q (B2R x) N Inc) as (i & Es & R1 & R2 & R3). cbn [s_xs q] in R2, R3. exists i. split; [exact Es|]. split; [exact R1|].
  assert (L : forall a b, (a <= b)%nat -> (b < n)%nat -> B2R (xs a) <= B2R (xs b)) by (intros a b Ha Hb; apply (inc_le n (fun i => B2R (xs i)) N Inc); assumption).
  unfold segment_index in Es. cbn [s_xs q] in Es. split; [|split].
  - intros [A B]. split; [destruct R2 as [R2| ->]; assumption|]. destruct R3 as [R3|R3]; [exact R3|]. replace (i + 1)%nat with (n - 1)%nat by lia. exact B.
  - intros A. rewrite (proj2 (Rleb_true _ _)) in Es by lra. congruence.
  - intros A. pose proof (L 0%nat (n - 1)%nat ltac:(lia) ltac:(lia)). rewrite (proj2 (Rleb_false (B2R x) _)) in Es by lra. rewrite (proj2 (Rleb_true _ (B2R x))) in Es by lra. congruence.
Qed.
(** ** At the knots *)
Lemma lit6_value : (3 <= prec)%Z -> B2R (lit o 6) = 6 /\ is_finite (lit o 6) = true.
Proof.
  intros W. assert (E6 : B2R (float_of_usize prec emax 6) = INR 6 /\ is_finite (float_of_usize prec emax 6) = true).
  { apply usize_exact. apply Rle_trans with (bpow radix2 3); [cbn; lra|apply bpow_le; lia]. }
  assert (E1 : B2R (float_of_usize prec emax 1) = INR 1 /\ is_finite (float_of_usize prec emax 1) = true).
  { apply usize_exact. apply Rle_trans with (bpow radix2 0); [cbn; lra|apply bpow_le; lia]. }
  destruct E6 as [V6 F6]. destruct E1 as [V1 F1]. change (lit o 6) with (div o (float_of_usize prec emax 6) (float_of_usize prec emax 1)).
  assert (N1 : B2R (float_of_usize prec emax 1) <> 0) by (rewrite V1; cbn; lra). assert (Q : B2R (float_of_usize prec emax 6) / B2R (float_of_usize prec emax 1) = B2R (float_of_usize prec emax 6)) by (rewrite V1; cbn [INR]; field).
  assert (Fd : is_finite (div o (float_of_usize prec emax 6) (float_of_usize prec emax 1)) = true).
  { apply (div_ok prec emax); [exact N1|exact F6|]. rewrite Q, V6. apply Rle_trans with (bpow radix2 3); [cbn; rewrite Rabs_pos_eq; lra|]. apply (largest_bpow prec emax). pose proof M as Me. unfold Prec_lt_emax in Me. lia. }
  split; [|exact Fd]. destruct (div_fin prec emax _ _ N1 Fd) as [_ ->]. rewrite Q, rd_id, V6. cbn. ring.
Qed.
Lemma cubic_parts n (s : g_spline n) idx x : (3 <= prec)%Z -> is_finite (g_cubic o s idx x) = true ->
  let x0 := gs_xs s idx in let x1 := gs_xs s (idx + 1)%nat in let h := sub o x1 x0 in let a := div o (sub o x1 x) h in let b := div o (sub o x x0) h in
  is_finite h = true /\ is_finite a = true /\ is_finite b = true /\
  B2R (g_cubic o s idx x) = rd (rd (rd (B2R a * B2R (gs_ys s idx)) + rd (B2R b * B2R (gs_ys s (idx + 1)%nat))) +
    rd (rd (rd (rd (rd (rd (B2R a * B2R a) * B2R a) - B2R a) * B2R (gs_m s idx)) + rd (rd (rd (rd (B2R b * B2R b) * B2R b) - B2R b) * B2R (gs_m s (idx + 1)%nat)))
        * rd (rd (B2R h * B2R h) / 6))).
Proof.
  intros W. unfold g_cubic. cbv zeta. set (h := sub o (gs_xs s (idx + 1)%nat) (gs_xs s idx)). set (a := div o (sub o (gs_xs s (idx + 1)%nat) x) h). set (b := div o (sub o x (gs_xs s idx)) h).
  destruct (lit6_value W) as [V6 F6]. intros Fr. destruct (add_fin prec emax _ _ Fr) as (F1 & F2 & ->). destruct (add_fin prec emax _ _ F1) as (F3 & F4 & ->). destruct (mul_fin prec emax _ _ F2) as (F5 & F7 & ->).
  destruct (add_fin prec emax _ _ F5) as (F8 & F9 & ->). destruct (mul_fin prec emax _ _ F3) as (Fa & _ & ->). destruct (mul_fin prec emax _ _ F4) as (Fb & _ & ->).
  destruct (mul_fin prec emax _ _ F8) as (F10 & _ & ->). destruct (mul_fin prec emax _ _ F9) as (F11 & _ & ->).
  destruct (div_fin prec emax _ _ ltac:(rewrite V6; lra) F7) as (F12 & ->). rewrite V6. destruct (mul_fin prec emax _ _ F12) as (Fh & _ & ->).
  rewrite (sub_value prec emax _ _ F10), (sub_value prec emax _ _ F11). destruct (sub_fin prec emax _ _ F10) as (F13 & _). destruct (sub_fin prec emax _ _ F11) as (F14 & _).
  destruct (mul_fin prec emax _ _ F13) as (F15 & _ & ->). destruct (mul_fin prec emax _ _ F14) as (F16 & _ & ->). destruct (mul_fin prec emax _ _ F15) as (_ & _ & ->). destruct (mul_fin prec emax _ _ F16) as (_ & _ & ->).
  auto.
Qed.
Lemma h_nonzero (x0 x1 : fl) : is_finite (sub o x1 x0) = true -> B2R x0 < B2R x1 -> B2R (sub o x1 x0) <> 0.
Proof.
  intros F L. destruct (sub_rel prec emax _ _ F) as (f & [A _] & ->). pose proof (Rinv_0_lt_compat _ (pw prec 1)). apply Rmult_integral_contrapositive_currified; lra.
Qed.
Lemma cube1 : rd (rd (rd (1 * 1) * 1) - 1) = 0. Proof. rewrite !Rmult_1_r, !one_fmt, Rminus_diag_eq by reflexivity. apply rd_zero. Qed.
Lemma cube0 : rd (rd (rd (0 * 0) * 0) - 0) = 0. Proof. rewrite !Rmult_0_r, !rd_zero, Rminus_0_r. apply rd_zero. Qed.
Lemma one_zero (y0 y1 m0 m1 : fl) T :
  rd (rd (rd (1 * B2R y0) + rd (0 * B2R y1)) + rd (rd (rd (rd (rd (rd (1 * 1) * 1) - 1) * B2R m0) + rd (rd (rd (rd (0 * 0) * 0) - 0) * B2R m1)) * T)) = B2R y0.
Proof. repeat rewrite ?cube1, ?cube0, ?Rmult_0_l, ?Rmult_1_l, ?rd_zero, ?Rplus_0_r, ?Rplus_0_l, ?rd_id. reflexivity. Qed.
Lemma zero_one (y0 y1 m0 m1 : fl) T :
  rd (rd (rd (0 * B2R y0) + rd (1 * B2R y1)) + rd (rd (rd (rd (rd (rd (0 * 0) * 0) - 0) * B2R m0) + rd (rd (rd (rd (1 * 1) * 1) - 1) * B2R m1)) * T)) = B2R y1.
Proof. repeat rewrite ?cube1, ?cube0, ?Rmult_0_l, ?Rmult_1_l, ?rd_zero, ?Rplus_0_r, ?Rplus_0_l, ?rd_id. reflexivity. Qed.
(** the spline passes exactly through its samples *)
Theorem C127_spline_knots : forall n (xs ys : nat -> fl) s i v, (3 <= prec)%Z -> g_spline_new o n xs ys = Some s ->
  (forall j, (j < n)%nat -> is_finite (xs j) = true) -> (i < n)%nat -> g_spline_eval o s (xs i) = Some v -> is_finite v = true -> B2R v = B2R (ys i).
Proof.
  intros n xs ys s i v W H Fi Hi Hv Fv. destruct (g_spline_some o n xs ys s H) as (N & _ & Ex & Ey & _). destruct (proj1 (C127_spline_construction n xs ys Fi) (ex_intro _ s H)) as [_ Inc].
  destruct (C127_spline_segment n xs ys s (xs i) H Fi (Fi i Hi)) as (j & Es & Hj & R & _). unfold g_spline_eval in Hv. rewrite Es in Hv. cbn [option_map] in Hv. injection Hv as <-.
  assert (L : forall a b, (a < b)%nat -> (b < n)%nat -> B2R (xs a) < B2R (xs b)) by (intros a b Ha Hb; apply (inc_lt n (fun i => B2R (xs i)) N Inc); assumption).
  assert (L' : forall a b, (a <= b)%nat -> (b < n)%nat -> B2R (xs a) <= B2R (xs b)) by (intros a b Ha Hb; apply (inc_le n (fun i => B2R (xs i)) N Inc); assumption).
  destruct R as [R1 R2]; [split; apply L'; lia|].
  destruct (cubic_parts n s j (xs i) W Fv) as (Fh & Fa & Fb & E). rewrite Ex, Ey in E. rewrite Ex in Fh, Fa, Fb. transitivity (B2R (g_cubic o s j (xs i))); [reflexivity|]. rewrite E. clear E.
  assert (Hx : B2R (xs j) < B2R (xs (j + 1)%nat)) by (apply L; lia). pose proof (h_nonzero _ _ Fh Hx) as Nh.
  destruct (div_fin prec emax _ _ Nh Fa) as [Fsa Ea]. destruct (div_fin prec emax _ _ Nh Fb) as [Fsb Eb]. rewrite Ea, Eb. clear Ea Eb. rewrite (sub_value prec emax _ _ Fsa), (sub_value prec emax _ _ Fsb).
  assert (C : i = j \/ i = (j + 1)%nat).
  { destruct (Nat.lt_trichotomy i j) as [A|[A|A]]; [pose proof (L i j A ltac:(lia)); lra|auto|]. destruct (Nat.eq_dec i (j + 1)) as [|B]; [auto|]. pose proof (L (j + 1)%nat i ltac:(lia) Hi). lra. }
  set (T := rd (rd (B2R (sub o (xs (j + 1)%nat) (xs j)) * B2R (sub o (xs (j + 1)%nat) (xs j))) / 6)).
  assert (O : rd (rd (B2R (xs (j + 1)%nat) - B2R (xs j)) / B2R (sub o (xs (j + 1)%nat) (xs j))) = 1).
  { rewrite (sub_value prec emax _ _ Fh) in Nh |- *. replace (rd (B2R (xs (j + 1)%nat) - B2R (xs j)) / rd (B2R (xs (j + 1)%nat) - B2R (xs j))) with 1 by (field; exact Nh). apply one_fmt. }
  assert (Z : forall x : fl, rd (rd (B2R x - B2R x) / B2R (sub o (xs (j + 1)%nat) (xs j))) = 0).
  { intros x. rewrite (Rminus_diag_eq (B2R x) (B2R x) eq_refl), rd_zero. unfold Rdiv. rewrite Rmult_0_l. apply rd_zero. }
  clearbody T. destruct C as [->| ->]; rewrite O, Z; [apply one_zero|apply zero_one].
Qed.
End Width.
(** three samples of a parabola in f64 *)
Definition ex_spline : option (g_spline 3) :=
  let o := float_ops 53 1024 (P := eq_refl) (M := eq_refl) in
  g_spline_new o 3 (fun i => float_of_usize 53 1024 (P := eq_refl) (M := eq_refl) i) (fun i => float_of_usize 53 1024 (P := eq_refl) (M := eq_refl) (i * i)).
Example C127_spline_nontrivial : let o := float_ops 53 1024 (P := eq_refl) (M := eq_refl) in let ou := float_of_usize 53 1024 (P := eq_refl) (M := eq_refl) in
  match ex_spline with
  | Some s => match g_spline_eval o s (ou 1%nat) with Some v => is_finite v | None => false end = true
  | None => False
  end.
Proof. cbv zeta. unfold ex_spline. vm_compute. reflexivity. Qed.
