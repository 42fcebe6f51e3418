(** C126: means, covariances, correlations and Gaussian fits in floating point, for f32, f64 and every other width. *)
From Coq Require Import ZArith Reals Lra Lia Bool Arith List.
From Flocq Require Import Core Relative Plus_error BinarySingleNaN.
From Verif Require Import Scalar RSum LinModel LinSpec LinProofs StatsModel StatsSpec StatsProofs FloatModel RoundProps StatsFloatModel.
Import ListNotations.
Local Open Scope R_scope.

(** * Over the exact reals this is the program of C48 and C82 *)
Theorem C126_same_program : forall N M samples ys cov corr sd,
  g_mean Rops INR N samples = mean N samples /\
  g_sample_covariance Rops INR N samples = sample_covariance N samples /\
  g_sample_cross_covariance Rops INR N M samples ys = sample_cross_covariance N M samples ys /\
  g_standard_deviations Rops eps N cov = standard_deviations N cov /\
  g_correlation Rops eps N cov = correlation_from_covariance N cov /\
  g_covariance_from_correlation Rops N corr sd = covariance_from_correlation N corr sd.
Proof. intros. split; [|split; [|split; [|split; [|split]]]]; reflexivity. Qed.
Theorem C126_same_fit : forall l, let g := gaussian_fit l in g_gaussian_fit Rops INR eps Rmax l = (mu g, sigma g).
Proof. intros [|x l]; reflexivity. Qed.

(** * Entries of the loops, any arithmetic *)
Section Generic.
Context {F : Type} (o : ops F) (of_usize : nat -> F) (epsilon : F).
Lemma fold_vec N (l : list (nat -> F)) c : (c < N)%nat -> forall m,
  fold_left (fun m s => vec_add o N m s) l m c = fold_left (add o) (map (fun s => s c) l) (m c).
Proof.
  intros H. induction l as [|s l IH]; intros m; [reflexivity|]. cbn [fold_left map]. rewrite IH. unfold vec_add at 1. rewrite vfill_in by exact H. reflexivity.
Qed.
Lemma g_mean_entry N samples m c : g_mean o of_usize N samples = Ok m -> (c < N)%nat ->
  samples <> [] /\ m c = div o (fold_left (add o) (map (fun s => s c) samples) (zero o)) (of_usize (length samples)).
Proof.
  intros H Hc. destruct samples as [|s l]; [discriminate|]. split; [discriminate|]. cbn [g_mean] in H. injection H as <-.
  unfold vec_div. rewrite vfill_in by exact Hc. rewrite fold_vec by exact Hc. cbn [map fold_left length]. unfold vec_add. rewrite vfill_in by exact Hc. reflexivity.
Qed.
Lemma row_loop x y a b row M : forall (s : nat -> nat -> F), (b < M)%nat ->
  for_ 0 M (fun col cov => upd2 cov row col (add o (cov row col) (mul o (x row) (y col)))) s a b =
  if (a =? row)%nat then add o (s a b) (mul o (x a) (y b)) else s a b.
Proof.
  intros s Hb.
  pose (Q := fun (m : nat) (c : nat -> nat -> F) => c a b = if (a =? row)%nat && (b <? m)%nat then add o (s a b) (mul o (x a) (y b)) else s a b).
  enough (K : Q M (for_ 0 M (fun col cov => upd2 cov row col (add o (cov row col) (mul o (x row) (y col)))) s)).
  { unfold Q in K. rewrite K, (proj2 (Nat.ltb_lt b M)), andb_true_r by auto. reflexivity. }
  apply (for_ind Q); [lia| |].
  - unfold Q. rewrite (proj2 (Nat.ltb_ge b 0)), andb_false_r by lia. reflexivity.
  - intros col t Hcol HQ. unfold Q in *.
    destruct (Nat.eq_dec a row) as [->|Na]; [destruct (Nat.eq_dec b col) as [->|Nb]|].
    + rewrite upd2_same. rewrite HQ, Nat.eqb_refl. cbn [andb]. rewrite (proj2 (Nat.ltb_lt col (S col))), (proj2 (Nat.ltb_ge col col)) by lia. reflexivity.
    + rewrite upd2_other by auto. rewrite HQ. f_equal. destruct (Nat.ltb_spec b col); destruct (Nat.ltb_spec b (S col)); auto; lia.
    + rewrite upd2_other by auto. rewrite HQ, (proj2 (Nat.eqb_neq a row)) by auto. reflexivity.
Qed.
Lemma outer_entry N M x y cov a b : (a < N)%nat -> (b < M)%nat -> g_add_outer o N M x y cov a b = add o (cov a b) (mul o (x a) (y b)).
Proof.
  intros Ha Hb. unfold g_add_outer.
  pose (P := fun (n : nat) (c : nat -> nat -> F) => c a b = if (a <? n)%nat then add o (cov a b) (mul o (x a) (y b)) else cov a b).
  enough (K : P N (for_ 0 N (fun row cov => for_ 0 M (fun col cov => upd2 cov row col (add o (cov row col) (mul o (x row) (y col)))) cov) cov)).
  { unfold P in K. rewrite K, (proj2 (Nat.ltb_lt a N)) by auto. reflexivity. }
  apply (for_ind P); [lia|reflexivity|]. intros row s Hr HP. unfold P in *. rewrite row_loop by exact Hb. rewrite HP.
  destruct (Nat.eqb_spec a row) as [->|]; [rewrite (proj2 (Nat.ltb_lt row (S row))), (proj2 (Nat.ltb_ge row row)) by lia; reflexivity|].
  destruct (Nat.ltb_spec a row); destruct (Nat.ltb_spec a (S row)); auto; lia.
Qed.
Lemma fold_outer {A} (l : list A) N M (fx fy : A -> nat -> F) a b : (a < N)%nat -> (b < M)%nat -> forall cov,
  fold_left (fun cov p => g_add_outer o N M (fx p) (fy p) cov) l cov a b =
  fold_left (fun s (p : F * F) => add o s (mul o (fst p) (snd p))) (map (fun p => (fx p a, fy p b)) l) (cov a b).
Proof.
  intros Ha Hb. induction l as [|p l IH]; intros cov; [reflexivity|]. cbn [fold_left map fst snd]. rewrite IH, outer_entry by assumption. reflexivity.
Qed.
(** the sum of products of two lists, accumulated in order *)
Definition prods (l : list (F * F)) : F := fold_left (fun s (p : F * F) => add o s (mul o (fst p) (snd p))) l (zero o).
Lemma g_cov_entry N samples C a b : g_sample_covariance o of_usize N samples = Ok C -> (a < N)%nat -> (b < N)%nat ->
  (2 <= length samples)%nat /\ exists m, g_mean o of_usize N samples = Ok m /\
  C a b = mul o (prods (map (fun s => (sub o (s a) (m a), sub o (s b) (m b))) samples)) (div o (one o) (of_usize (length samples - 1))).
Proof.
  intros H Ha Hb. unfold g_sample_covariance in H. destruct samples as [|s l]; [discriminate|]. set (all := s :: l) in *.
  destruct (length all <? 2)%nat eqn:L; [discriminate|]. apply Nat.ltb_ge in L. split; [exact L|].
  destruct (g_mean o of_usize N all) as [m|e] eqn:E; [|discriminate]. exists m. split; [reflexivity|]. injection H as <-.
  unfold mat_scale. rewrite fill_in by assumption.
  transitivity (mul o (fold_left (fun cov p => g_add_outer o N N (vec_sub o N p m) (vec_sub o N p m) cov) all (fun _ _ => zero o) a b) (div o (one o) (of_usize (length all - 1)))); [reflexivity|].
  rewrite (fold_outer all N N (fun s => vec_sub o N s m) (fun s => vec_sub o N s m) a b Ha Hb). unfold prods. f_equal. f_equal.
  apply map_ext. intros t. unfold vec_sub. rewrite !vfill_in by assumption. reflexivity.
Qed.
Lemma g_cross_entry N M xs ys C a b : g_sample_cross_covariance o of_usize N M xs ys = Ok C -> (a < N)%nat -> (b < M)%nat ->
  (2 <= length xs)%nat /\ length xs = length ys /\ exists mx my, g_mean o of_usize N xs = Ok mx /\ g_mean o of_usize M ys = Ok my /\
  C a b = mul o (prods (map (fun p => (sub o (fst p a) (mx a), sub o (snd p b) (my b))) (combine xs ys))) (div o (one o) (of_usize (length xs - 1))).
Proof.
  intros H Ha Hb. unfold g_sample_cross_covariance in H. destruct (length xs =? length ys)%nat eqn:Le; [|discriminate]. cbn [negb] in H. apply Nat.eqb_eq in Le.
  destruct xs as [|s l]; [discriminate|]. set (all := s :: l) in *. destruct (length all <? 2)%nat eqn:L; [discriminate|]. apply Nat.ltb_ge in L.
  split; [exact L|]. split; [exact Le|]. destruct (g_mean o of_usize N all) as [mx|e]; [|discriminate]. destruct (g_mean o of_usize M ys) as [my|e]; [|discriminate].
  exists mx, my. split; [reflexivity|]. split; [reflexivity|]. injection H as <-. unfold mat_scale. rewrite fill_in by assumption.
  rewrite (fold_outer (combine all ys) N M (fun p => vec_sub o N (fst p) mx) (fun p => vec_sub o M (snd p) my) a b Ha Hb). unfold prods. f_equal. f_equal.
  apply map_ext. intros t. unfold vec_sub. rewrite !vfill_in by assumption. reflexivity.
Qed.
Lemma g_sd_value N cov sd : g_standard_deviations o epsilon N cov = Ok sd ->
  forall i, (i < N)%nat -> leb o (cov i i) epsilon = false /\ sd i = sqrtf o (cov i i).
Proof.
  unfold g_standard_deviations.
  match goal with |- match ?F with _ => _ end = _ -> _ => destruct F as [s|] eqn:E end; [|discriminate].
  intros H. inversion H; subst s; clear H.
  pose (P := fun (m : nat) (s : nat -> F) => forall i, (i < m)%nat -> leb o (cov i i) epsilon = false /\ s i = sqrtf o (cov i i)).
  refine (forM_some_ind P 0 N _ _ _ _ _ E _); [lia|intros i H; lia|].
  intros i s s' Hi HP Es. cbv zeta in Es. destruct (leb o (cov i i) epsilon) eqn:Z; [discriminate|].
  inversion Es; subst s'. intros j Hj. destruct (Nat.eq_dec j i) as [->|].
  - rewrite upd_same. auto.
  - rewrite upd_other by auto. apply HP. lia.
Qed.
Lemma g_corr_entry N cov R a b : g_correlation o epsilon N cov = Ok R -> (a < N)%nat -> (b < N)%nat ->
  leb o (cov a a) epsilon = false /\ leb o (cov b b) epsilon = false /\
  R a b = div o (cov a b) (mul o (sqrtf o (cov a a)) (sqrtf o (cov b b))).
Proof.
  intros H Ha Hb. unfold g_correlation in H. destruct (g_standard_deviations o epsilon N cov) as [sd|e] eqn:E; [|discriminate].
  injection H as <-. destruct (g_sd_value _ _ _ E a Ha) as [La Sa]. destruct (g_sd_value _ _ _ E b Hb) as [Lb Sb]. split; [exact La|]. split; [exact Lb|].
  transitivity (div o (cov a b) (mul o (sd a) (sd b))); [|rewrite Sa, Sb; reflexivity].
  exact (fill_in N N (fun row col => div o (cov row col) (mul o (sd row) (sd col))) (fun _ _ => zero o) a b Ha Hb).
Qed.
Lemma g_from_entry N corr sd a b : (a < N)%nat -> (b < N)%nat ->
  g_covariance_from_correlation o N corr sd a b = mul o (mul o (corr a b) (sd a)) (sd b).
Proof. intros Ha Hb. exact (fill_in N N (fun row col => mul o (mul o (corr row col) (sd row)) (sd col)) (fun _ _ => zero o) a b Ha Hb). Qed.
End Generic.

Section Width.
Context (prec emax : Z) {P : Prec_gt_0 prec} {M : Prec_lt_emax prec emax}.
Local Notation fl := (binary_float prec emax).
Local Notation u := (unit prec).
Local Notation eta := (tiny prec emax).
Local Notation o := (float_ops prec emax).
Local Notation rd := (round radix2 (SpecFloat.fexp prec emax) ZnearestE).
Local Notation close := (RoundProps.close prec emax).
Local Notation of_usize := (float_of_usize prec emax).
Local Instance vexp' : Valid_exp (SpecFloat.fexp prec emax) := fexp_correct prec emax P.

(** ** One operation *)
Lemma sub_fin (x y : fl) : is_finite (sub o x y) = true -> is_finite x = true /\ is_finite y = true /\
  exists e, Rabs e <= u /\ B2R (sub o x y) = (B2R x - B2R y) * (1 + e).
Proof.
  cbn [sub float_ops]. intros H. assert (is_finite x = true /\ is_finite y = true) as [Fx Fy].
  { destruct x as [s|s| |s m e B], y as [s'|s'| |s' m' e' B']; cbn in H; auto; try discriminate; destruct (Bool.eqb s (negb s')); discriminate. }
  split; [exact Fx|split; [exact Fy|]]. pose proof (Bminus_correct prec emax _ _ mode_NE x y Fx Fy) as C. cbn [round_mode] in C.
  destruct (Rlt_bool _ _); [|destruct C as [C _]; apply sf_over in C; congruence]. destruct C as [C _]. rewrite C.
  destruct (rd_sum prec emax x (Bopp y)) as (e & A & B). rewrite B2R_Bopp in B. exists e. split; [exact A|]. exact B.
Qed.
Lemma div_fin (x y : fl) : B2R y <> 0 -> is_finite (div o x y) = true -> is_finite x = true /\ B2R (div o x y) = rd (B2R x / B2R y).
Proof.
  intros Hy. cbn [div float_ops]. intros H. pose proof (Bdiv_correct prec emax _ _ mode_NE x y Hy) as C. cbn [round_mode] in C.
  destruct (Rlt_bool _ _); [|apply sf_over in C; congruence]. destruct C as (C & D & _). split; [congruence|exact C].
Qed.
Lemma div_ok (x y : fl) : B2R y <> 0 -> is_finite x = true -> Rabs (B2R x / B2R y) <= largest prec emax -> is_finite (div o x y) = true.
Proof.
  intros Hy Fx L. cbn [div float_ops]. pose proof (Bdiv_correct prec emax _ _ mode_NE x y Hy) as C. cbn [round_mode] in C.
  rewrite (no_over prec emax _ L) in C. destruct C as (_ & D & _). congruence.
Qed.
Lemma usize_exact n : INR n <= bpow radix2 prec -> B2R (of_usize n) = INR n /\ is_finite (of_usize n) = true.
Proof.
  intros H. unfold float_of_usize. pose proof P as Pp. unfold Prec_gt_0 in Pp. pose proof M as Me. unfold Prec_lt_emax in Me.
  pose proof (binary_normalize_correct prec emax P M mode_NE (Z.of_nat n) 0 false) as C. cbv zeta in C. cbn [round_mode] in C.
  assert (E : F2R (Float radix2 (Z.of_nat n) 0) = INR n) by (unfold F2R; cbn [Fnum Fexp]; rewrite <- INR_IZR_INZ; cbn; ring).
  rewrite E in C. assert (G : generic_format radix2 (SpecFloat.fexp prec emax) (INR n)).
  { destruct (Rle_lt_or_eq_dec _ _ H) as [Lt|Eq].
    - rewrite <- E. apply generic_format_FLT. eapply (FLT_spec radix2 (3 - emax - prec) prec _ (Float radix2 (Z.of_nat n) 0)); cbn [Fnum Fexp]; [reflexivity| |unfold Prec_gt_0, Prec_lt_emax in *; lia].
      rewrite <- IZR_Zpower in Lt by lia. rewrite INR_IZR_INZ in Lt. apply lt_IZR in Lt. rewrite Z.abs_eq by lia. exact Lt.
    - rewrite Eq. apply generic_format_bpow. unfold SpecFloat.fexp, SpecFloat.emin. lia. }
  rewrite (round_generic _ _ _ _ G) in C. rewrite Rlt_bool_true in C.
  - destruct C as (A & B & _). auto.
  - rewrite Rabs_pos_eq by apply pos_INR. apply Rle_lt_trans with (1 := H). apply bpow_lt. exact Me.
Qed.

(** ** Sums *)
Definition vals (l : list fl) : list R := map B2R l.
Definition sizes (l : list fl) : list R := map (fun x => Rabs (B2R x)) l.
Lemma total_app l l' : total (l ++ l') = total l + total l'.
Proof. induction l as [|x l IH]; cbn [total app]; [ring|]. rewrite IH. ring. Qed.
Lemma total_abs l : Rabs (total l) <= total (map Rabs l).
Proof. induction l as [|x l IH]; cbn [total map]; [rewrite Rabs_R0; lra|]. eapply Rle_trans; [apply Rabs_triang|]. lra. Qed.
Lemma total_pos l : (forall x, In x l -> 0 <= x) -> 0 <= total l.
Proof. induction l as [|x l IH]; intros H; cbn [total]; [lra|]. pose proof (H x (or_introl eq_refl)). assert (0 <= total l) by (apply IH; intros; apply H; right; assumption). lra. Qed.
Lemma sizes_abs l : Rabs (total (vals l)) <= total (sizes l).
Proof. eapply Rle_trans; [apply total_abs|]. unfold vals. rewrite map_map. apply Rle_refl. Qed.
Lemma sizes_pos l : 0 <= total (sizes l).
Proof. apply total_pos. intros x H. apply in_map_iff in H. destruct H as (y & <- & _). apply Rabs_pos. Qed.
Lemma sum_close l : is_finite (fold_left (add o) l (zero o)) = true ->
  close (Nat.pred (length l)) 0 (B2R (fold_left (add o) l (zero o))) (total (vals l)) (total (sizes l)).
Proof.
  induction l as [|x l IH] using rev_ind; intros H.
  - cbn. apply close_exact. lra.
  - rewrite fold_left_app in H |- *. cbn [fold_left] in H |- *. unfold vals, sizes. rewrite !map_app, !total_app. cbn [map total]. rewrite !Rplus_0_r. fold (vals l) (sizes l).
    rewrite app_length. cbn [length]. destruct l as [|y l].
    + cbn [fold_left] in *. destruct (add_zero prec emax x H) as [_ E]. rewrite E. cbn. rewrite !Rplus_0_l. apply close_exact, Rabs_pos.
    + set (k := y :: l) in *. destruct (add_fin prec emax _ _ H) as (F1 & F2 & _).
      pose proof (close_add prec emax _ _ 0 0 _ x _ (B2R x) _ (Rabs (B2R x)) H (sizes_abs k) (Rle_refl _) (IH F1) (close_exact prec emax _ _ (Rabs_pos _))) as C.
      replace (S (Nat.max (Nat.pred (length k)) 0)) with (Nat.pred (length k + 1)) in C by (unfold k; cbn [length]; lia). exact C.
Qed.
Lemma sum_ok l : (forall x, In x l -> is_finite x = true) -> (1 + u) ^ length l * total (sizes l) <= largest prec emax ->
  is_finite (fold_left (add o) l (zero o)) = true.
Proof.
  induction l as [|x l IH] using rev_ind; intros Fi B; [reflexivity|]. rewrite fold_left_app. cbn [fold_left].
  unfold sizes in B. rewrite map_app, total_app, app_length in B. cbn [map total length] in B. rewrite Rplus_0_r in B. fold (sizes l) in B. pose proof (sizes_pos l) as Tp. pose proof (Rabs_pos (B2R x)) as Xp.
  replace (length l + 1)%nat with (S (length l)) in B by lia. cbn [pow] in B. pose proof (pow1 prec (length l)) as Pk. pose proof (u_pos prec) as Hu.
  set (q := (1 + u) ^ length l) in *. set (T := total (sizes l)) in *.
  assert (Q : q <= (1 + u) * q) by nra. assert (Fl : is_finite (fold_left (add o) l (zero o)) = true).
  { apply IH; [intros; apply Fi, in_or_app; left; assumption|]. fold q T. eapply Rle_trans; [|exact B]. apply Rmult_le_compat; lra. }
  apply add_ok; [exact Fl|apply Fi, in_or_app; right; left; reflexivity|]. pose proof (size prec emax _ _ _ _ _ (sizes_abs l) (sum_close l Fl)) as Sz. fold T in Sz. cbn [INR] in Sz.
  assert (Pl : (1 + u) ^ Nat.pred (length l) <= q) by (apply pow_mono; lia). eapply Rle_trans; [apply Rabs_triang|].
  assert ((1 + u) ^ Nat.pred (length l) * T <= q * T) by (apply Rmult_le_compat_r; lra).
  assert (q * T <= (1 + u) * q * T) by (apply Rmult_le_compat_r; lra). assert (Rabs (B2R x) <= (1 + u) * q * Rabs (B2R x)) by (rewrite <- (Rmult_1_l (Rabs (B2R x))) at 1; apply Rmult_le_compat_r; lra).
  lra.
Qed.
(** ** The mean *)
Definition col (c : nat) (samples : list (nat -> fl)) : list R := map (fun s => B2R (s c)) samples.
Lemma inv_n n : (0 < n)%nat -> 0 < / INR n <= 1.
Proof. intros H. apply (le_INR 1) in H. cbn [INR] in H. split; [apply Rinv_0_lt_compat; lra|]. rewrite <- Rinv_1. apply Rinv_le_contravar; lra. Qed.
Lemma mean_list (l : list fl) : l <> [] -> INR (length l) <= bpow radix2 prec ->
  let m := div o (fold_left (add o) l (zero o)) (of_usize (length l)) in
  (is_finite m = true -> Rabs (B2R m - average (vals l)) <= ((1 + u) ^ length l - 1) * average (sizes l) + eta) /\
  ((forall x, In x l -> is_finite x = true) -> (1 + u) ^ length l * total (sizes l) <= largest prec emax -> is_finite m = true).
Proof.
  intros Hl Hn m. destruct (usize_exact _ Hn) as [En _]. assert (L0 : (0 < length l)%nat) by (destruct l; [congruence|cbn; lia]).
  pose proof (inv_n _ L0) as In. assert (Np : 0 < INR (length l)) by (apply lt_0_INR, L0). assert (Nz : B2R (of_usize (length l)) <> 0) by (rewrite En; lra).
  unfold average. unfold vals at 2, sizes at 2. rewrite !map_length. pose proof (u_pos prec) as Hu. pose proof (eta_pos prec emax) as He. split.
  - intros Fm. destruct (div_fin _ _ Nz Fm) as [Fs E]. fold m in E. rewrite E, En. destruct (rd_err prec emax (B2R (fold_left (add o) l (zero o)) / INR (length l))) as (e & d & A & B & ->).
    pose proof (sum_close l Fs) as C. unfold RoundProps.close in C. cbn [INR] in C. rewrite !Rmult_0_l, Rplus_0_r in C. pose proof (sizes_abs l) as Sa. pose proof (sizes_pos l) as Sp.
    set (T := total (sizes l)) in *. set (s := total (vals l)) in *. set (S := B2R (fold_left (add o) l (zero o))) in *. set (k := INR (length l)) in *.
    assert (Pw : (1 + u) ^ length l = (1 + u) * (1 + u) ^ Nat.pred (length l)) by (destruct (length l); [lia|reflexivity]). rewrite Pw. set (q := (1 + u) ^ Nat.pred (length l)) in *.
    replace (S / k * (1 + e) + d - s / k) with ((S - s) * (1 + e) * / k + (s * e * / k + d)) by (field; lra).
    eapply Rle_trans; [apply Rabs_triang|]. eapply Rle_trans; [apply Rplus_le_compat_l, Rabs_triang|]. rewrite !Rabs_mult, (Rabs_pos_eq (/ k)) by lra.
    assert (A1 : Rabs (1 + e) <= 1 + u) by (eapply Rle_trans; [apply Rabs_triang|]; rewrite Rabs_R1; lra).
    assert (B1 : Rabs (S - s) * Rabs (1 + e) <= (q - 1) * T * (1 + u)) by (apply Rmult_le_compat; auto using Rabs_pos).
    assert (B2 : Rabs s * Rabs e <= T * u) by (apply Rmult_le_compat; auto using Rabs_pos).
    assert (B3 : (Rabs (S - s) * Rabs (1 + e) + Rabs s * Rabs e) * / k <= ((q - 1) * T * (1 + u) + T * u) * / k) by (apply Rmult_le_compat_r; lra).
    replace (((1 + u) * q - 1) * (T / k)) with (((q - 1) * T * (1 + u) + T * u) * / k) by (field; lra). lra.
  - intros Fi B. apply div_ok; [exact Nz|apply sum_ok; assumption|]. rewrite En.
    pose proof (size prec emax _ _ _ _ _ (sizes_abs l) (sum_close l (sum_ok l Fi B))) as Sz. cbn [INR] in Sz. rewrite !Rmult_0_l, Rplus_0_r in Sz.
    unfold Rdiv. rewrite Rabs_mult, (Rabs_pos_eq (/ _)) by lra. pose proof (sizes_pos l).
    assert ((1 + u) ^ Nat.pred (length l) <= (1 + u) ^ length l) by (apply pow_mono; lia).
    assert ((1 + u) ^ Nat.pred (length l) * total (sizes l) <= (1 + u) ^ length l * total (sizes l)) by (apply Rmult_le_compat_r; lra).
    pose proof (Rabs_pos (B2R (fold_left (add o) l (zero o)))). apply Rle_trans with (Rabs (B2R (fold_left (add o) l (zero o))) * 1); [apply Rmult_le_compat_l; lra|lra].
Qed.
(** ** Sums of products *)
Definition exact_prods (l : list (fl * fl)) : list R := map (fun p => B2R (fst p) * B2R (snd p)) l.
Lemma exact_abs l : Rabs (total (exact_prods l)) <= total (map Rabs (exact_prods l)).
Proof. apply total_abs. Qed.
Lemma abs_pos l : 0 <= total (map Rabs l).
Proof. apply total_pos. intros x H. apply in_map_iff in H. destruct H as (y & <- & _). apply Rabs_pos. Qed.
Lemma prods_snoc l p : prods o (l ++ [p]) = add o (prods o l) (mul o (fst p) (snd p)).
Proof. unfold prods. rewrite fold_left_app. reflexivity. Qed.
Lemma prods_close l : is_finite (prods o l) = true ->
  close (length l) (length l) (B2R (prods o l)) (total (exact_prods l)) (total (map Rabs (exact_prods l))).
Proof.
  induction l as [|p l IH] using rev_ind; intros H.
  - cbn. apply close_exact. lra.
  - rewrite prods_snoc in H |- *. unfold exact_prods. rewrite !map_app, !total_app. cbn [map total]. rewrite !Rplus_0_r. fold (exact_prods l).
    rewrite app_length. cbn [length]. destruct l as [|y l].
    + destruct (add_zero prec emax _ H) as [Fm E]. change (prods o []) with (zero o). rewrite E. cbn. rewrite !Rplus_0_l. apply (close_mul prec emax), Fm.
    + set (k := y :: l) in *. destruct (add_fin prec emax _ _ H) as (F1 & F2 & _).
      pose proof (close_add prec emax _ _ 1 1 _ _ _ _ _ _ H (exact_abs k) (Rle_refl _) (IH F1) (close_mul prec emax _ _ F2)) as C.
      replace (S (Nat.max (length k) 1)) with (length k + 1)%nat in C by (unfold k; cbn [length]; lia). exact C.
Qed.
Lemma prods_fin l : is_finite (prods o l) = true -> forall p, In p l -> is_finite (fst p) = true /\ is_finite (snd p) = true.
Proof.
  induction l as [|q l IH] using rev_ind; intros H p Hp; [contradiction|]. rewrite prods_snoc in H. destruct (add_fin prec emax _ _ H) as (F1 & F2 & _).
  apply in_app_or in Hp. destruct Hp as [Hp|[<-|[]]]; [apply IH; assumption|]. destruct (mul_fin prec emax _ _ F2) as (A & B & _). auto.
Qed.
Lemma rd_nonneg r : 0 <= r -> 0 <= rd r.
Proof. intros H. rewrite <- (round_0 radix2 (SpecFloat.fexp prec emax) ZnearestE). apply round_le; auto with typeclass_instances. Qed.
Lemma prods_square_pos (l : list fl) : is_finite (prods o (map (fun x => (x, x)) l)) = true -> 0 <= B2R (prods o (map (fun x => (x, x)) l)).
Proof.
  induction l as [|q l IH] using rev_ind; intros H; [cbn; lra|]. rewrite map_app in *. cbn [map] in *. rewrite prods_snoc in *. cbn [fst snd] in *.
  destruct (add_fin prec emax _ _ H) as (F1 & F2 & E). rewrite E. apply rd_nonneg. destruct (mul_fin prec emax _ _ F2) as (_ & _ & Em). rewrite Em.
  apply Rplus_le_le_0_compat; [apply IH, F1|]. apply rd_nonneg. pose proof (Rle_0_sqr (B2R q)) as Q. exact Q.
Qed.
(** the products of deviations from two fixed numbers, in terms of the deviations themselves *)
Definition devs {A} (fx fy : A -> fl) (mx my : fl) (l : list A) : list R := map (fun p => (B2R (fx p) - B2R mx) * (B2R (fy p) - B2R my)) l.
Lemma devs_close {A} (fx fy : A -> fl) mx my l : let c := prods o (map (fun p => (sub o (fx p) mx, sub o (fy p) my)) l) in
  is_finite c = true -> close (length l + 2) (length l) (B2R c) (total (devs fx fy mx my l)) (total (map Rabs (devs fx fy mx my l))).
Proof.
  intros c H. pose proof (prods_close _ H) as C. rewrite map_length in C. fold c in C.
  set (L := map (fun p => (sub o (fx p) mx, sub o (fy p) my)) l) in *. pose proof (u_pos prec) as Hu. pose proof (eta_pos prec emax) as He.
  assert (D : Rabs (total (exact_prods L) - total (devs fx fy mx my l)) <= ((1 + u) ^ 2 - 1) * total (map Rabs (devs fx fy mx my l)) /\
              total (map Rabs (exact_prods L)) <= (1 + u) ^ 2 * total (map Rabs (devs fx fy mx my l))).
  { pose proof (prods_fin _ H) as Fi. unfold L, exact_prods, devs in *. clear C. rewrite !map_map. cbn [fst snd]. clear H.
    induction l as [|p l IH]; cbn [map total]; [rewrite Rminus_0_r, Rabs_R0; lra|].
    destruct IH as [I1 I2]; [intros q Hq; apply Fi; right; exact Hq|].
    destruct (Fi _ (or_introl eq_refl)) as [Fa Fb]. cbn [fst snd] in Fa, Fb. destruct (sub_fin _ _ Fa) as (_ & _ & e & He1 & ->). destruct (sub_fin _ _ Fb) as (_ & _ & e' & He2 & ->).
    set (x := B2R (fx p) - B2R mx). set (y := B2R (fy p) - B2R my).
    set (S1 := total (map (fun x0 => B2R (sub o (fx x0) mx) * B2R (sub o (fy x0) my)) l)) in *.
    set (S2 := total (map (fun p0 => (B2R (fx p0) - B2R mx) * (B2R (fy p0) - B2R my)) l)) in *.
    assert (Q : Rabs ((1 + e) * (1 + e') - 1) <= (1 + u) ^ 2 - 1).
    { replace ((1 + e) * (1 + e') - 1) with (e + (e' + e * e')) by ring. eapply Rle_trans; [apply Rabs_triang|]. eapply Rle_trans; [apply Rplus_le_compat_l, Rabs_triang|]. rewrite Rabs_mult.
      pose proof (Rabs_pos e). pose proof (Rabs_pos e'). assert (Rabs e * Rabs e' <= u * u) by (apply Rmult_le_compat; assumption). cbn [pow]. lra. }
    assert (Q' : Rabs ((1 + e) * (1 + e')) <= (1 + u) ^ 2).
    { replace ((1 + e) * (1 + e')) with (((1 + e) * (1 + e') - 1) + 1) by ring. eapply Rle_trans; [apply Rabs_triang|]. rewrite Rabs_R1. lra. }
    pose proof (Rabs_pos (x * y)) as Pxy. split.
    - replace (x * (1 + e) * (y * (1 + e')) + S1 - (x * y + S2)) with (((1 + e) * (1 + e') - 1) * (x * y) + (S1 - S2)) by ring.
      eapply Rle_trans; [apply Rabs_triang|]. rewrite Rabs_mult. apply (Rmult_le_compat_r (Rabs (x * y))) in Q; [|exact Pxy]. lra.
    - replace (x * (1 + e) * (y * (1 + e'))) with ((1 + e) * (1 + e') * (x * y)) by ring. rewrite Rabs_mult. apply (Rmult_le_compat_r (Rabs (x * y))) in Q'; [|exact Pxy]. lra. }
  destruct D as [D1 D2]. unfold RoundProps.close in *. set (T := total (map Rabs (devs fx fy mx my l))) in *. set (n := length l) in *.
  rewrite pow_add. pose proof (pow1 prec n) as Pn. set (q := (1 + u) ^ n) in *. pose proof (pow1 prec 2) as P2. set (q2 := (1 + u) ^ 2) in *.
  assert (Tp : 0 <= T) by apply abs_pos. pose proof (pos_INR n) as In.
  replace (B2R c - total (devs fx fy mx my l)) with ((B2R c - total (exact_prods L)) + (total (exact_prods L) - total (devs fx fy mx my l))) by ring.
  eapply Rle_trans; [apply Rabs_triang|]. apply (Rmult_le_compat_l (q - 1)) in D2; [|lra].
  assert (INR n * eta * q <= INR n * eta * (q * q2)) by (apply Rmult_le_compat_l; [apply Rmult_le_pos; lra|nra]). lra.
Qed.
(** ** Scaling by one over n - 1 *)
Lemma small_inverse k : (prec + 2 <= emax)%Z -> (0 < k)%nat -> INR k <= bpow radix2 prec ->
  exists e, Rabs e <= u /\ B2R (div o (one o) (of_usize k)) = / INR k * (1 + e) /\ is_finite (div o (one o) (of_usize k)) = true.
Proof.
  intros W K0 Kl. destruct (usize_exact k Kl) as [Ek _]. pose proof (inv_n k K0) as Ik. assert (Kz : B2R (of_usize k) <> 0) by (rewrite Ek; apply Rgt_not_eq, lt_0_INR, K0).
  pose proof P as Pp. unfold Prec_gt_0 in Pp.
  assert (One : B2R (one o) = 1) by (cbn [one float_ops]; apply Bone_correct).
  assert (Fo : is_finite (div o (one o) (of_usize k)) = true).
  { apply div_ok; [exact Kz|cbn [one float_ops]; apply is_finite_Bone|]. rewrite One, Ek. unfold Rdiv. rewrite Rmult_1_l, Rabs_pos_eq by lra.
    apply Rle_trans with 1; [lra|]. unfold largest. change 1 with (bpow radix2 0). assert (bpow radix2 (emax - prec) <= bpow radix2 (emax - 1)) by (apply bpow_le; lia).
    assert (bpow radix2 0 <= bpow radix2 (emax - 1)) by (apply bpow_le; lia). replace (bpow radix2 emax) with (2 * bpow radix2 (emax - 1)) by (change 2 with (bpow radix2 1); rewrite <- bpow_plus; f_equal; lia). lra. }
  destruct (div_fin _ _ Kz Fo) as [_ E]. rewrite One, Ek in E. unfold Rdiv in E. rewrite Rmult_1_l in E.
  destruct (relative_error_N_FLT_ex radix2 (3 - emax - prec) prec P (fun z => negb (Z.even z)) (/ INR k)) as (e & A & B).
  - rewrite Rabs_pos_eq by lra. apply Rle_trans with (bpow radix2 (- prec)); [apply bpow_le; lia|]. rewrite bpow_opp. apply Rinv_le_contravar; [apply lt_0_INR, K0|exact Kl].
  - exists e. split; [|split; [|exact Fo]].
    + eapply Rle_trans; [exact A|]. unfold unit. rewrite bpow_plus. change (bpow radix2 1) with 2. lra.
    + rewrite E. exact B.
Qed.
Lemma scaled_close n (c : fl) t T : (prec + 2 <= emax)%Z -> (2 <= n)%nat -> INR n <= bpow radix2 prec ->
  let r := mul o c (div o (one o) (of_usize (n - 1))) in is_finite r = true -> Rabs t <= T ->
  (is_finite c = true -> close (n + 2) n (B2R c) t T) ->
  Rabs (B2R r - t / (INR n - 1)) <= (((1 + u) ^ (n + 4) - 1) * T + INR n * eta * (1 + u) ^ (n + 4)) / (INR n - 1) + eta.
Proof.
  intros W N2 Nl r Fr HT Cc. assert (N1 : INR (n - 1) = INR n - 1) by (apply INR_pred; exact N2).
  assert (Nl1 : INR (n - 1) <= bpow radix2 prec) by lra.
  destruct (small_inverse (n - 1) W ltac:(lia) Nl1) as (e & A & E & _). destruct (mul_fin prec emax _ _ Fr) as (Fc & _ & Er). specialize (Cc Fc).
  unfold r. rewrite Er, E, N1. assert (Np : 1 <= INR n - 1) by (rewrite <- N1; apply (le_INR 1); lia). set (k := INR n - 1) in *.
  destruct (rd_err prec emax (B2R c * (/ k * (1 + e)))) as (e' & d & A' & B & ->). unfold RoundProps.close in Cc.
  replace (n + 4)%nat with (n + 2 + 2)%nat by lia. rewrite (pow_add _ (n + 2) 2). pose proof (pow1 prec (n + 2)) as Pq. set (q := (1 + u) ^ (n + 2)) in *.
  pose proof (u_pos prec) as Hu. pose proof (eta_pos prec emax) as He. pose proof (pos_INR n) as In. pose proof (Rabs_pos t) as Pt.
  assert (Ik : 0 < / k) by (apply Rinv_0_lt_compat; lra).
  set (f := (1 + e) * (1 + e')). replace (B2R c * (/ k * (1 + e)) * (1 + e') + d - t / k) with (((B2R c - t) * f + t * (f - 1)) * / k + d) by (unfold f; field; lra).
  assert (Q : Rabs (f - 1) <= (1 + u) ^ 2 - 1).
  { unfold f. replace ((1 + e) * (1 + e') - 1) with (e + (e' + e * e')) by ring. eapply Rle_trans; [apply Rabs_triang|]. eapply Rle_trans; [apply Rplus_le_compat_l, Rabs_triang|]. rewrite Rabs_mult.
    pose proof (Rabs_pos e). pose proof (Rabs_pos e'). assert (Rabs e * Rabs e' <= u * u) by (apply Rmult_le_compat; assumption). cbn [pow]. lra. }
  assert (Q' : Rabs f <= (1 + u) ^ 2) by (replace f with ((f - 1) + 1) by ring; eapply Rle_trans; [apply Rabs_triang|]; rewrite Rabs_R1; lra).
  set (q2 := (1 + u) ^ 2) in *. eapply Rle_trans; [apply Rabs_triang|]. rewrite Rabs_mult, (Rabs_pos_eq (/ k)) by lra.
  assert (G : Rabs ((B2R c - t) * f + t * (f - 1)) <= (q * q2 - 1) * T + INR n * eta * (q * q2)).
  { eapply Rle_trans; [apply Rabs_triang|]. rewrite !Rabs_mult.
    assert (G1 : Rabs (B2R c - t) * Rabs f <= ((q - 1) * T + INR n * eta * q) * q2) by (apply Rmult_le_compat; auto using Rabs_pos).
    assert (G2 : Rabs t * Rabs (f - 1) <= T * (q2 - 1)) by (apply Rmult_le_compat; auto using Rabs_pos). lra. }
  apply (Rmult_le_compat_r (/ k)) in G; [|lra]. unfold Rdiv. lra.
Qed.
(** ** Deviations from a computed mean *)
Lemma total_centre {A} (f : A -> R) l a : l <> [] -> a = average (map f l) -> total (map (fun p => f p - a) l) = 0.
Proof.
  intros Hl ->. assert (Hn : 0 < INR (length l)) by (apply lt_0_INR; destruct l; [congruence|cbn; lia]).
  transitivity (total (map f l) - INR (length l) * average (map f l)).
  - generalize (average (map f l)). intros a. rewrite <- total_map_const. clear. induction l as [|x l IH]; cbn [map total]; [ring|]. rewrite IH. ring.
  - unfold average. rewrite map_length. field. lra.
Qed.
Lemma combine_map {A B C} (f : A -> B) (g : A -> C) l : combine (map f l) (map g l) = map (fun p => (f p, g p)) l.
Proof. induction l as [|x l IH]; cbn; [reflexivity|]. rewrite IH. reflexivity. Qed.
Lemma devs_exact {A} (fx fy : A -> fl) mx my l : l <> [] ->
  let X := map (fun p => B2R (fx p)) l in let Y := map (fun p => B2R (fy p)) l in
  total (devs fx fy mx my l) = total (map (fun p => (fst p - average X) * (snd p - average Y)) (combine X Y)) + INR (length l) * ((average X - B2R mx) * (average Y - B2R my)).
Proof.
  intros Hl X Y. unfold X, Y. rewrite combine_map, map_map. cbn [fst snd]. fold X Y.
  assert (CX : total (map (fun p => B2R (fx p) - average X) l) = 0) by (apply (total_centre (fun p => B2R (fx p))); [exact Hl|reflexivity]).
  assert (CY : total (map (fun p => B2R (fy p) - average Y) l) = 0) by (apply (total_centre (fun p => B2R (fy p))); [exact Hl|reflexivity]).
  set (a := average X) in *. set (b := average Y) in *. clearbody a b. clear X Y Hl.
  transitivity (total (map (fun p => (B2R (fx p) - a) * (B2R (fy p) - b)) l) + (b - B2R my) * total (map (fun p => B2R (fx p) - a) l)
    + (a - B2R mx) * total (map (fun p => B2R (fy p) - b) l) + INR (length l) * ((a - B2R mx) * (b - B2R my))); [|rewrite CX, CY; ring].
  clear CX CY. unfold devs. induction l as [|p l IH]; [cbn; ring|]. cbn [map total]. rewrite IH. cbn [length]. rewrite S_INR. ring.
Qed.
(** ** Theorems *)
(** the computed mean is within n roundings of the true one, and exists when nothing overflows *)
Theorem C126_mean : forall N samples m c, g_mean o of_usize N samples = Ok m -> (c < N)%nat -> INR (length samples) <= bpow radix2 prec ->
  (is_finite (m c) = true -> Rabs (B2R (m c) - average (col c samples)) <= ((1 + u) ^ length samples - 1) * average (map Rabs (col c samples)) + eta) /\
  ((forall s, In s samples -> is_finite (s c) = true) -> (1 + u) ^ length samples * total (map Rabs (col c samples)) <= largest prec emax -> is_finite (m c) = true).
Proof.
  intros N samples m c H Hc Hn. destruct (g_mean_entry _ _ _ _ _ _ H Hc) as [Hl E]. rewrite E.
  assert (Hl' : map (fun s : nat -> fl => s c) samples <> []) by (destruct samples; [congruence|discriminate]).
  rewrite <- (map_length (fun s : nat -> fl => s c) samples) in Hn. destruct (mean_list _ Hl' Hn) as [A B]. rewrite map_length in A, B. unfold vals in A. unfold sizes in A, B. rewrite map_map in B. rewrite map_map in A. rewrite map_map in A.
  unfold col. rewrite map_map. split; [exact A|]. intros Fi L. apply B; [|exact L]. intros x Hx. apply in_map_iff in Hx. destruct Hx as (s & <- & Hs). apply Fi, Hs.
Qed.
(** an entry of the covariance: the roundings act on the spread about the computed means, whose own errors enter only
    through their product *)
Lemma entry_bound {A} (fx fy : A -> fl) mx my (l : list A) : (prec + 2 <= emax)%Z -> (2 <= length l)%nat -> INR (length l) <= bpow radix2 prec ->
  let r := mul o (prods o (map (fun p => (sub o (fx p) mx, sub o (fy p) my)) l)) (div o (one o) (of_usize (length l - 1))) in
  let X := map (fun p => B2R (fx p)) l in let Y := map (fun p => B2R (fy p)) l in let n := length l in
  is_finite r = true ->
  Rabs (B2R r - sample_cov X Y) <=
    (((1 + u) ^ (n + 4) - 1) * total (map Rabs (devs fx fy mx my l)) + INR n * eta * (1 + u) ^ (n + 4)) / (INR n - 1) + eta +
    INR n / (INR n - 1) * (Rabs (average X - B2R mx) * Rabs (average Y - B2R my)).
Proof.
  intros W N2 Nl r X Y n Fr. assert (Hl : l <> []) by (destruct l; [cbn in N2; lia|discriminate]).
  pose proof (scaled_close n _ (total (devs fx fy mx my l)) (total (map Rabs (devs fx fy mx my l))) W N2 Nl Fr (total_abs _) (devs_close fx fy mx my l)) as S.
  fold r in S. pose proof (devs_exact fx fy mx my l Hl) as D. cbv zeta in D. fold X Y n in D. rewrite D in S.
  assert (Np : 1 <= INR n - 1) by (rewrite <- INR_pred by exact N2; apply (le_INR 1); unfold n; lia).
  unfold sample_cov. replace (length X) with n by (unfold X, n; rewrite map_length; reflexivity).
  set (V := total (map (fun p => (fst p - average X) * (snd p - average Y)) (combine X Y))) in *.
  replace (B2R r - V / (INR n - 1)) with ((B2R r - (V + INR n * ((average X - B2R mx) * (average Y - B2R my))) / (INR n - 1)) + INR n / (INR n - 1) * ((average X - B2R mx) * (average Y - B2R my))) by (field; lra).
  eapply Rle_trans; [apply Rabs_triang|]. rewrite (Rabs_mult (INR n / (INR n - 1))), (Rabs_mult (average X - B2R mx)), (Rabs_pos_eq (INR n / (INR n - 1))); [apply Rplus_le_compat_r, S|].
  apply Rmult_le_pos; [apply pos_INR|left; apply Rinv_0_lt_compat; lra].
Qed.
Theorem C126_covariance : forall N samples m C a b, (prec + 2 <= emax)%Z -> g_mean o of_usize N samples = Ok m -> g_sample_covariance o of_usize N samples = Ok C ->
  (a < N)%nat -> (b < N)%nat -> INR (length samples) <= bpow radix2 prec -> is_finite (C a b) = true ->
  let n := length samples in let X := col a samples in let Y := col b samples in
  let spread := total (map (fun s => Rabs ((B2R (s a) - B2R (m a)) * (B2R (s b) - B2R (m b)))) samples) in
  Rabs (B2R (C a b) - sample_cov X Y) <=
    (((1 + u) ^ (n + 4) - 1) * spread + INR n * eta * (1 + u) ^ (n + 4)) / (INR n - 1) + eta +
    INR n / (INR n - 1) * (Rabs (average X - B2R (m a)) * Rabs (average Y - B2R (m b))).
Proof.
  intros N samples m C a b W Hm H Ha Hb Hn F n X Y spread. destruct (g_cov_entry _ _ _ _ _ _ _ H Ha Hb) as (L & m' & Hm' & E). rewrite Hm in Hm'. injection Hm' as <-. rewrite E in *.
  pose proof (entry_bound (fun s : nat -> fl => s a) (fun s => s b) (m a) (m b) samples W L Hn F) as K. cbv zeta in K. fold n in K. fold (col a samples) (col b samples) in K. fold X Y in K.
  replace spread with (total (map Rabs (devs (fun s : nat -> fl => s a) (fun s => s b) (m a) (m b) samples))); [exact K|]. unfold devs, spread. rewrite map_map. reflexivity.
Qed.
Theorem C126_cross_covariance : forall N M' xs ys mx my C a b, (prec + 2 <= emax)%Z -> g_mean o of_usize N xs = Ok mx -> g_mean o of_usize M' ys = Ok my ->
  g_sample_cross_covariance o of_usize N M' xs ys = Ok C ->
  (a < N)%nat -> (b < M')%nat -> INR (length xs) <= bpow radix2 prec -> is_finite (C a b) = true ->
  let n := length xs in let X := col a xs in let Y := col b ys in
  let spread := total (map (fun p => Rabs ((fst p - B2R (mx a)) * (snd p - B2R (my b)))) (combine X Y)) in
  Rabs (B2R (C a b) - sample_cov X Y) <=
    (((1 + u) ^ (n + 4) - 1) * spread + INR n * eta * (1 + u) ^ (n + 4)) / (INR n - 1) + eta +
    INR n / (INR n - 1) * (Rabs (average X - B2R (mx a)) * Rabs (average Y - B2R (my b))).
Proof.
  intros N M' xs ys mx my C a b W Hx Hy H Ha Hb Hn F n X Y spread. destruct (g_cross_entry _ _ _ _ _ _ _ _ _ H Ha Hb) as (L & Le & mx' & my' & Hx' & Hy' & E).
  rewrite Hx in Hx'. injection Hx' as <-. rewrite Hy in Hy'. injection Hy' as <-. rewrite E in *.
  assert (Lc : length (combine xs ys) = length xs) by (rewrite combine_length, <- Le; lia).
  assert (X1 : map (fun p : (nat -> fl) * (nat -> fl) => B2R (fst p a)) (combine xs ys) = X /\ map (fun p : (nat -> fl) * (nat -> fl) => B2R (snd p b)) (combine xs ys) = Y).
  { unfold X, Y, col. clear -Le. revert ys Le. induction xs as [|x xs IH]; intros [|y ys] Le; try discriminate; [split; reflexivity|]. injection Le as Le. destruct (IH ys Le) as [I1 I2]. cbn [combine map fst snd]. rewrite I1, I2. split; reflexivity. }
  destruct X1 as [X1 Y1]. rewrite <- Lc in L, Hn, F |- *.
  pose proof (entry_bound (fun p : (nat -> fl) * (nat -> fl) => fst p a) (fun p => snd p b) (mx a) (my b) (combine xs ys) W L Hn F) as K. cbv beta zeta in K. rewrite X1, Y1, !Lc in K. rewrite !Lc. fold n in K |- *.
  replace spread with (total (map Rabs (devs (fun p : (nat -> fl) * (nat -> fl) => fst p a) (fun p => snd p b) (mx a) (my b) (combine xs ys)))); [exact K|].
  unfold devs, spread. rewrite <- X1, <- Y1, combine_map, !map_map. reflexivity.
Qed.
(** bit for bit symmetric, whatever the samples *)
Theorem C126_symmetric : forall N samples C a b, g_sample_covariance o of_usize N samples = Ok C -> (a < N)%nat -> (b < N)%nat -> C a b = C b a.
Proof.
  intros N samples C a b H Ha Hb. destruct (g_cov_entry _ _ _ _ _ _ _ H Ha Hb) as (_ & m & Hm & E). destruct (g_cov_entry _ _ _ _ _ _ _ H Hb Ha) as (_ & m' & Hm' & E').
  rewrite Hm in Hm'. injection Hm' as <-. rewrite E, E'. f_equal. unfold prods. generalize (zero o).
  assert (K : forall l z, fold_left (fun s (p : fl * fl) => add o s (mul o (fst p) (snd p))) (map (fun s => (sub o (s a) (m a), sub o (s b) (m b))) l) z =
    fold_left (fun s (p : fl * fl) => add o s (mul o (fst p) (snd p))) (map (fun s => (sub o (s b) (m b), sub o (s a) (m a))) l) z).
  { induction l as [|s l IH]; intros z; [reflexivity|]. cbn [map fold_left fst snd]. rewrite (mul_comm prec emax (sub o (s a) (m a))). apply IH. }
  apply K.
Qed.
(** a computed variance is never negative *)
Theorem C126_diagonal : forall N samples C a, (prec + 2 <= emax)%Z -> g_sample_covariance o of_usize N samples = Ok C -> (a < N)%nat ->
  INR (length samples) <= bpow radix2 prec -> is_finite (C a a) = true -> 0 <= B2R (C a a).
Proof.
  intros N samples C a W H Ha Hn F. destruct (g_cov_entry _ _ _ _ _ _ _ H Ha Ha) as (L & m & _ & E). rewrite E in *. destruct (mul_fin prec emax _ _ F) as (Fs & _ & ->). apply rd_nonneg.
  assert (Hk : INR (length samples - 1) <= bpow radix2 prec) by (rewrite INR_pred by exact L; lra).
  destruct (small_inverse (length samples - 1) W ltac:(lia) Hk) as (e & A & -> & _). pose proof (inv_n (length samples - 1) ltac:(lia)) as I.
  assert (U1 : u <= 1) by (unfold unit; change 1 with (bpow radix2 0); apply bpow_le; pose proof P as Pp; unfold Prec_gt_0 in Pp; lia).
  apply Rabs_le_inv in A. apply Rmult_le_pos; [|apply Rmult_le_pos; lra].
  replace (map (fun s : nat -> fl => (sub o (s a) (m a), sub o (s a) (m a))) samples) with (map (fun x : fl => (x, x)) (map (fun s : nat -> fl => sub o (s a) (m a)) samples)) in * by (rewrite map_map; reflexivity).
  apply prods_square_pos, Fs.
Qed.

(** ** Correlations *)
Lemma epsilon_value : (1 < emax)%Z -> B2R (float_epsilon prec emax) = bpow radix2 (1 - prec) /\ is_finite (float_epsilon prec emax) = true /\ Bsign (float_epsilon prec emax) = false.
Proof.
  intros W. unfold float_epsilon. pose proof P as Pp. unfold Prec_gt_0 in Pp. pose proof M as Me. unfold Prec_lt_emax in Me.
  pose proof (binary_normalize_correct prec emax P M mode_NE 1 (1 - prec) false) as C. cbv zeta in C. cbn [round_mode] in C.
  assert (E : F2R (Float radix2 1 (1 - prec)) = bpow radix2 (1 - prec)) by (unfold F2R; cbn [Fnum Fexp]; ring). rewrite E in C.
  assert (G : generic_format radix2 (SpecFloat.fexp prec emax) (bpow radix2 (1 - prec))) by (apply generic_format_bpow; unfold SpecFloat.fexp, SpecFloat.emin; lia).
  rewrite (round_generic _ _ _ _ G) in C. pose proof (bpow_gt_0 radix2 (1 - prec)) as Bp. rewrite Rlt_bool_true in C.
  - destruct C as (A & B & D). rewrite (Rcompare_Gt _ _ Bp) in D. auto.
  - rewrite Rabs_pos_eq by lra. apply bpow_lt. lia.
Qed.
Lemma u_half : u <= / 2.
Proof. unfold unit. change (/ 2) with (bpow radix2 (- 1)). apply bpow_le. pose proof P as Pp. unfold Prec_gt_0 in Pp. lia. Qed.
Lemma rd_normal r : bpow radix2 (2 - emax) <= Rabs r -> exists e, Rabs e <= u /\ rd r = r * (1 + e).
Proof.
  intros H. destruct (relative_error_N_FLT_ex radix2 (3 - emax - prec) prec P (fun z => negb (Z.even z)) r) as (e & A & B).
  - eapply Rle_trans; [|exact H]. apply bpow_le. lia.
  - exists e. split; [|exact B]. eapply Rle_trans; [exact A|]. unfold unit. rewrite bpow_plus. change (bpow radix2 1) with 2. lra.
Qed.
Lemma sqrt_value (v : fl) : is_finite v = true -> 0 < B2R v -> is_finite (sqrtf o v) = true /\ B2R (sqrtf o v) = rd (sqrt (B2R v)).
Proof.
  intros F Pv. cbn [sqrtf float_ops]. pose proof (Bsqrt_correct prec emax _ _ mode_NE v) as (A & B & _). cbn [round_mode] in A. split; [|exact A].
  destruct v as [s|s| |s m e Bd]; try discriminate; [reflexivity|]. destruct s; [|exact B]. exfalso. cbn in Pv. pose proof (F2R_lt_0 radix2 (Float radix2 (Z.neg m) e) eq_refl). lra.
Qed.
Lemma leb_false (x y : fl) : is_finite x = true -> is_finite y = true -> leb o x y = false -> B2R y < B2R x.
Proof. intros Fx Fy H. cbn [leb float_ops] in H. rewrite Bleb_correct in H by assumption. destruct (Rle_bool_spec (B2R x) (B2R y)); [discriminate|assumption]. Qed.
(** a standard deviation taken from a usable variance is off by one rounding *)
Lemma sd_close (v : fl) : (prec + 3 <= emax)%Z -> is_finite v = true -> leb o v (float_epsilon prec emax) = false ->
  is_finite (sqrtf o v) = true /\ bpow radix2 (1 - prec) < B2R v /\ exists e, Rabs e <= u /\ B2R (sqrtf o v) = sqrt (B2R v) * (1 + e).
Proof.
  intros W F H. destruct (epsilon_value ltac:(pose proof P as Pp; unfold Prec_gt_0 in Pp; lia)) as (Ev & Ef & _). apply leb_false in H; [|assumption|assumption]. rewrite Ev in H.
  pose proof (bpow_gt_0 radix2 (1 - prec)) as Bp. destruct (sqrt_value v F ltac:(lra)) as [A B]. split; [exact A|]. split; [exact H|]. rewrite B. apply rd_normal.
  rewrite Rabs_pos_eq by apply sqrt_pos. pose proof P as Pp. unfold Prec_gt_0 in Pp.
  apply Rle_trans with (bpow radix2 (1 - prec)); [apply bpow_le; lia|]. assert (B1 : bpow radix2 (1 - prec) <= 1) by (change 1 with (bpow radix2 0); apply bpow_le; lia).
  rewrite <- (sqrt_square (bpow radix2 (1 - prec))) by lra. apply sqrt_le_1_alt. nra.
Qed.
Theorem C126_correlation : forall N cov R a b, (prec + 3 <= emax)%Z -> g_correlation o (float_epsilon prec emax) N cov = Ok R -> (a < N)%nat -> (b < N)%nat ->
  is_finite (cov a a) = true -> is_finite (cov b b) = true -> B2R (cov a a) <= bpow radix2 (emax - 3) -> B2R (cov b b) <= bpow radix2 (emax - 3) ->
  is_finite (R a b) = true -> let r := B2R (cov a b) / sqrt (B2R (cov a a) * B2R (cov b b)) in
  Rabs (B2R (R a b) - r) <= ((1 + u) / (1 - u) ^ 3 - 1) * Rabs r + eta.
Proof.
  intros N cov R a b W H Ha Hb Fa Fb La Lb Fr r. destruct (g_corr_entry _ _ _ _ _ _ _ H Ha Hb) as (Ea & Eb & E). rewrite E in *.
  destruct (sd_close _ W Fa Ea) as (Ga & Va & e1 & A1 & S1). destruct (sd_close _ W Fb Eb) as (Gb & Vb & e2 & A2 & S2).
  set (va := B2R (cov a a)) in *. set (vb := B2R (cov b b)) in *. pose proof (bpow_gt_0 radix2 (1 - prec)) as Bp. pose proof u_half as Uh. pose proof (u_pos prec) as Up.
  apply Rabs_le_inv in A1. apply Rabs_le_inv in A2. assert (Pa : 0 < sqrt va) by (apply sqrt_lt_R0; lra). assert (Pb : 0 < sqrt vb) by (apply sqrt_lt_R0; lra).
  assert (Sq : sqrt (va * vb) = sqrt va * sqrt vb) by (apply sqrt_mult; lra).
  set (D := sqrt va * sqrt vb) in *. assert (Dp : 0 < D) by (unfold D; apply Rmult_lt_0_compat; assumption).
  set (f := (1 + e1) * (1 + e2)). assert (Fl : (1 - u) ^ 2 <= f <= (1 + u) ^ 2) by (unfold f; split; cbn [pow]; rewrite Rmult_1_r; apply Rmult_le_compat; lra).
  assert (Eab : B2R (sqrtf o (cov a a)) * B2R (sqrtf o (cov b b)) = D * f) by (rewrite S1, S2; unfold D, f; ring).
  assert (Dlow : bpow radix2 (1 - prec) <= D).
  { unfold D. apply Rle_trans with (sqrt (bpow radix2 (1 - prec)) * sqrt (bpow radix2 (1 - prec))); [rewrite sqrt_sqrt; lra|]. apply Rmult_le_compat; try apply sqrt_pos; apply sqrt_le_1_alt; lra. }
  assert (Dup : D <= bpow radix2 (emax - 3)).
  { unfold D. pose proof (bpow_gt_0 radix2 (emax - 3)). apply Rle_trans with (sqrt (bpow radix2 (emax - 3)) * sqrt (bpow radix2 (emax - 3))); [|rewrite sqrt_sqrt; lra]. apply Rmult_le_compat; try apply sqrt_pos; apply sqrt_le_1_alt; lra. }
  assert (Fq : / 4 <= f <= 9 / 4) by (split; [eapply Rle_trans; [|exact (proj1 Fl)]|eapply Rle_trans; [exact (proj2 Fl)|]]; cbn [pow]; nra).
  assert (Fm : is_finite (mul o (sqrtf o (cov a a)) (sqrtf o (cov b b))) = true).
  { apply mul_ok; [exact Ga|exact Gb|]. rewrite Eab, Rabs_pos_eq by nra. unfold largest. replace emax with (3 + (emax - 3))%Z at 1 by ring. rewrite bpow_plus. change (bpow radix2 3) with 8.
    assert (bpow radix2 (emax - prec) <= 4 * bpow radix2 (emax - 3)).
    { change 4 with (bpow radix2 2). rewrite <- bpow_plus. apply bpow_le. pose proof P as Pp. unfold Prec_gt_0 in Pp. lia. }
    nra. }
  destruct (mul_fin prec emax _ _ Fm) as (_ & _ & Em). rewrite Eab in Em.
  destruct (rd_normal (D * f)) as (e3 & A3 & E3).
  { rewrite Rabs_pos_eq by nra. apply Rle_trans with (bpow radix2 (1 - prec) * bpow radix2 (-2)); [rewrite <- bpow_plus; apply bpow_le; lia|]. change (bpow radix2 (-2)) with (/ 4). apply Rmult_le_compat; lra. }
  rewrite E3 in Em. apply Rabs_le_inv in A3. set (g := f * (1 + e3)) in *. assert (Gl : (1 - u) ^ 3 <= g).
  { unfold g. change (((1 - u) ^ 3)) with ((1 - u) * (1 - u) ^ 2). rewrite (Rmult_comm f). apply Rmult_le_compat; [lra|apply pow_le; lra|lra|lra]. }
  assert (Gu : g <= (1 + u) ^ 3).
  { unfold g. change (((1 + u) ^ 3)) with ((1 + u) * (1 + u) ^ 2). rewrite (Rmult_comm f). apply Rmult_le_compat; lra. }
  assert (Cp : 0 < (1 - u) ^ 3) by (apply pow_lt; lra).
  assert (Nz : B2R (mul o (sqrtf o (cov a a)) (sqrtf o (cov b b))) <> 0) by (rewrite Em; apply Rgt_not_eq; unfold g in *; nra).
  destruct (div_fin _ _ Nz Fr) as [_ Ed]. rewrite Ed, Em. replace (B2R (cov a b) / (D * f * (1 + e3))) with (r / g) by (unfold r, g; rewrite Sq; field; repeat split; unfold g in *; nra).
  destruct (rd_err prec emax (r / g)) as (e4 & d & A4 & Ad & ->). apply Rabs_le_inv in A4.
  replace (r / g * (1 + e4) + d - r) with (((1 + e4) / g - 1) * r + d) by (field; lra).
  eapply Rle_trans; [apply Rabs_triang|]. rewrite Rabs_mult. apply Rplus_le_compat; [|exact Ad]. apply Rmult_le_compat_r; [apply Rabs_pos|].
  assert (I1 : 0 < / g) by (apply Rinv_0_lt_compat; lra). assert (I2 : / g <= / (1 - u) ^ 3) by (apply Rinv_le_contravar; lra). assert (I3 : / (1 + u) ^ 3 <= / g) by (apply Rinv_le_contravar; lra).
  apply Rabs_le. unfold Rdiv. split.
  - assert (L1 : (1 - u) * / (1 + u) ^ 3 <= (1 + e4) * / g) by (apply Rmult_le_compat; try lra; left; apply Rinv_0_lt_compat; lra).
    enough (2 - (1 + u) * / (1 - u) ^ 3 <= (1 - u) * / (1 + u) ^ 3) by lra.
    (* x + 1/x >= 2 type bound *)
    set (p := (1 + u) * / (1 - u) ^ 3). assert (Q : / p <= (1 - u) * / (1 + u) ^ 3).
    { unfold p. rewrite Rinv_mult, Rinv_inv. apply Rmult_le_reg_r with ((1 + u) ^ 3); [lra|].
      replace (/ (1 + u) * (1 - u) ^ 3 * (1 + u) ^ 3) with ((1 - u) * (1 - u * u) ^ 2) by (field; lra). replace ((1 - u) * / (1 + u) ^ 3 * (1 + u) ^ 3) with ((1 - u) * 1) by (field; lra).
      apply Rmult_le_compat_l; [lra|]. assert (0 <= u * u <= 1) by (split; [apply Rmult_le_pos; lra|apply Rle_trans with (1 * 1); [apply Rmult_le_compat; lra|lra]]).
      apply Rle_trans with (1 ^ 2); [apply pow_incr; lra|lra]. }
    assert (Pp : 0 < p) by (unfold p; apply Rmult_lt_0_compat; [lra|apply Rinv_0_lt_compat; lra]).
    assert (2 - p <= / p) by (apply Rmult_le_reg_r with p; [exact Pp|]; rewrite Rinv_l by lra; pose proof (Rle_0_sqr (p - 1)) as Z; unfold Rsqr in Z; lra). lra.
  - enough ((1 + e4) * / g <= (1 + u) * / (1 - u) ^ 3) by lra. apply Rmult_le_compat; lra.
Qed.
(** bit for bit symmetric when the covariance is *)
Theorem C126_correlation_symmetric : forall N cov R a b epsilon, g_correlation o epsilon N cov = Ok R -> (a < N)%nat -> (b < N)%nat -> cov a b = cov b a -> R a b = R b a.
Proof.
  intros N cov R a b epsilon H Ha Hb S. destruct (g_corr_entry _ _ _ _ _ _ _ H Ha Hb) as (_ & _ & ->). destruct (g_corr_entry _ _ _ _ _ _ _ H Hb Ha) as (_ & _ & ->).
  rewrite S, (mul_comm prec emax (sqrtf o (cov a a))). reflexivity.
Qed.
(** back from correlations to covariances: two roundings *)
Theorem C126_reconstruct : forall N corr sd a b, (a < N)%nat -> (b < N)%nat -> let c := g_covariance_from_correlation o N corr sd a b in is_finite c = true ->
  let x := B2R (corr a b) * B2R (sd a) * B2R (sd b) in
  Rabs (B2R c - x) <= ((1 + u) ^ 2 - 1) * Rabs x + eta * ((1 + u) * Rabs (B2R (sd b)) + 1).
Proof.
  intros N corr sd a b Ha Hb c F x. unfold c in *. rewrite g_from_entry in * by assumption. destruct (mul_fin prec emax _ _ F) as (F1 & _ & ->). destruct (mul_fin prec emax _ _ F1) as (_ & _ & ->).
  unfold x. set (r := B2R (corr a b)). set (s := B2R (sd a)). set (t := B2R (sd b)). pose proof (u_pos prec) as Up. pose proof (eta_pos prec emax) as He.
  destruct (rd_err prec emax (r * s)) as (e & d & A & B & ->). destruct (rd_err prec emax ((r * s * (1 + e) + d) * t)) as (e' & d' & A' & B' & ->).
  replace ((r * s * (1 + e) + d) * t * (1 + e') + d' - r * s * t) with ((e + e' * (1 + e)) * (r * s * t) + (d * ((1 + e') * t) + d')) by ring.
  assert (A1 : Rabs (1 + e) <= 1 + u) by (eapply Rle_trans; [apply Rabs_triang|]; rewrite Rabs_R1; lra). assert (A2 : Rabs (1 + e') <= 1 + u) by (eapply Rle_trans; [apply Rabs_triang|]; rewrite Rabs_R1; lra).
  eapply Rle_trans; [apply Rabs_triang|]. rewrite (Rabs_mult (e + _)). apply Rplus_le_compat.
  - apply Rmult_le_compat_r; [apply Rabs_pos|]. eapply Rle_trans; [apply Rabs_triang|]. rewrite Rabs_mult. assert (Rabs e' * Rabs (1 + e) <= u * (1 + u)) by (apply Rmult_le_compat; auto using Rabs_pos). cbn [pow]. lra.
  - eapply Rle_trans; [apply Rabs_triang|]. rewrite Rabs_mult, Rabs_mult. assert (G : Rabs (1 + e') * Rabs t <= (1 + u) * Rabs t) by (apply Rmult_le_compat_r; [apply Rabs_pos|exact A2]).
    assert (Rabs d * (Rabs (1 + e') * Rabs t) <= eta * ((1 + u) * Rabs t)) by (apply Rmult_le_compat; auto using Rabs_pos; apply Rmult_le_pos; apply Rabs_pos). lra.
Qed.
(** ** Fitting a Gaussian *)
(** a number at least 0, or infinity *)
Definition at_least_0 (x : fl) : Prop := (is_finite x = true /\ 0 <= B2R x) \/ x = B754_infinity false.
Lemma not_negative (x : fl) : is_finite x = true -> 0 < B2R x -> Bsign x = false.
Proof.
  destruct x as [s|s| |s m e B]; intros F H; try discriminate; [cbn in H; lra|]. destruct s; [|reflexivity]. exfalso. cbn in H. pose proof (F2R_lt_0 radix2 (Float radix2 (Z.neg m) e) eq_refl). lra.
Qed.
Lemma overflow_up (z : fl) : B2SF z = binary_overflow prec emax mode_NE false -> z = B754_infinity false.
Proof. intros H. unfold binary_overflow in H. cbn in H. destruct z; cbn in H; congruence. Qed.
Lemma square_0 (d : fl) : is_nan d = false -> at_least_0 (mul o d d).
Proof.
  cbn [mul float_ops]. intros H. destruct (is_finite d) eqn:F.
  - pose proof (Bmult_correct prec emax _ _ mode_NE d d) as C. cbn [round_mode] in C. destruct (Rlt_bool _ _).
    + left. destruct C as (A & B & _). rewrite A, B, F. split; [reflexivity|]. apply rd_nonneg. pose proof (Rle_0_sqr (B2R d)) as Q. exact Q.
    + right. rewrite xorb_nilpotent in C. apply overflow_up, C.
  - right. destruct d as [s|s| |s m e B]; try discriminate. destruct s; reflexivity.
Qed.
Lemma plus_0 (x y : fl) : at_least_0 x -> at_least_0 y -> at_least_0 (add o x y).
Proof.
  cbn [add float_ops]. intros [[Fx Px]| ->] [[Fy Py]| ->].
  - pose proof (Bplus_correct prec emax _ _ mode_NE x y Fx Fy) as C. cbn [round_mode] in C. destruct (Rlt_bool (Rabs _) _) eqn:L.
    + left. destruct C as (A & B & _). rewrite A, B. split; [reflexivity|]. apply rd_nonneg. lra.
    + right. destruct C as [A S]. destruct (Rle_lt_or_eq_dec _ _ Px) as [Lx|Ex]; [rewrite (not_negative x Fx Lx) in A; apply overflow_up, A|].
      destruct (Rle_lt_or_eq_dec _ _ Py) as [Ly|Ey]; [rewrite S, (not_negative y Fy Ly) in A; apply overflow_up, A|].
      exfalso. rewrite <- Ex, <- Ey, Rplus_0_r, round_0, Rabs_R0 in L by auto with typeclass_instances. rewrite Rlt_bool_true in L by apply bpow_gt_0. discriminate.
  - right. destruct x; try discriminate; reflexivity.
  - right. destruct y; try discriminate; reflexivity.
  - right. reflexivity.
Qed.
Lemma sum_squares_0 (l : list fl) : (forall d, In d l -> is_nan d = false) -> at_least_0 (prods o (map (fun x => (x, x)) l)).
Proof.
  induction l as [|q l IH] using rev_ind; intros H; [left; split; [reflexivity|cbn; lra]|]. rewrite map_app. cbn [map]. rewrite prods_snoc. cbn [fst snd].
  apply plus_0; [apply IH; intros; apply H, in_or_app; left; assumption|]. apply square_0, H, in_or_app. right. left. reflexivity.
Qed.
Lemma quotient_0 (x y : fl) : at_least_0 x -> is_finite y = true -> 0 < B2R y -> at_least_0 (div o x y).
Proof.
  cbn [div float_ops]. intros [[Fx Px]| ->] Fy Py.
  - pose proof (Bdiv_correct prec emax _ _ mode_NE x y ltac:(lra)) as C. cbn [round_mode] in C. destruct (Rlt_bool (Rabs _) _) eqn:L.
    + left. destruct C as (A & B & _). rewrite A, B. split; [exact Fx|]. apply rd_nonneg. apply Rmult_le_pos; [exact Px|left; apply Rinv_0_lt_compat, Py].
    + right. destruct (Rle_lt_or_eq_dec _ _ Px) as [Lx|Ex]; [rewrite (not_negative x Fx Lx), (not_negative y Fy Py) in C; apply overflow_up, C|].
      exfalso. rewrite <- Ex in L. unfold Rdiv in L. rewrite Rmult_0_l, round_0, Rabs_R0 in L by auto with typeclass_instances. rewrite Rlt_bool_true in L by apply bpow_gt_0. discriminate.
  - right. pose proof (not_negative y Fy Py) as S. destruct y as [s|s| |s m e B]; try discriminate; [cbn in Py; lra|]. cbn in S. subst s. reflexivity.
Qed.
Lemma root_0 (x : fl) : at_least_0 x -> (is_finite x = true /\ is_finite (sqrtf o x) = true /\ B2R (sqrtf o x) = rd (sqrt (B2R x))) \/ sqrtf o x = B754_infinity false.
Proof.
  cbn [sqrtf float_ops]. intros [[Fx Px]| ->]; [left; split; [exact Fx|]|right; reflexivity].
  pose proof (Bsqrt_correct prec emax _ _ mode_NE x) as (A & B & _). cbn [round_mode] in A. split; [|exact A].
  destruct (Rle_lt_or_eq_dec _ _ Px) as [Lx|Ex]; [exact (proj1 (sqrt_value x Fx Lx))|]. destruct x as [s|s| |s m e Bd]; try discriminate; [reflexivity|].
  exfalso. cbn in Ex. symmetry in Ex. apply eq_0_F2R in Ex. destruct s; discriminate.
Qed.
Lemma max_value (x y : fl) : is_finite x = true -> is_finite y = true -> is_finite (float_max x y) = true /\ B2R (float_max x y) = Rmax (B2R x) (B2R y).
Proof.
  intros Fx Fy. unfold float_max. rewrite Bcompare_correct by assumption.
  destruct (Rcompare_spec (B2R x) (B2R y)) as [L|E|G].
  - split; [exact Fy|]. rewrite Rmax_right; lra.
  - split; [exact Fx|]. rewrite Rmax_left; lra.
  - split; [exact Fx|]. rewrite Rmax_left; lra.
Qed.
Lemma sum_fin (l : list fl) : is_finite (fold_left (add o) l (zero o)) = true -> forall x, In x l -> is_finite x = true.
Proof.
  induction l as [|q l IH] using rev_ind; intros H x Hx; [contradiction|]. rewrite fold_left_app in H. cbn [fold_left] in H. destruct (add_fin prec emax _ _ H) as (F1 & F2 & _).
  apply in_app_or in Hx. destruct Hx as [Hx|[<-|[]]]; [apply IH; assumption|exact F2].
Qed.
Lemma sub_not_nan (x y : fl) : is_finite x = true -> is_finite y = true -> is_nan (sub o x y) = false.
Proof.
  intros Fx Fy. cbn [sub float_ops]. pose proof (Bminus_correct prec emax _ _ mode_NE x y Fx Fy) as C. cbn [round_mode] in C. destruct (Rlt_bool _ _).
  - destruct C as (_ & C & _). destruct (Bminus mode_NE x y); cbn in C; try discriminate; reflexivity.
  - destruct C as [C _]. destruct (Bminus mode_NE x y); try reflexivity. cbn in C. unfold binary_overflow in C. cbn in C. discriminate.
Qed.
Lemma Rmax_close a b c : Rabs (Rmax a c - Rmax b c) <= Rabs (a - b).
Proof. unfold Rmax. destruct (Rle_dec a c), (Rle_dec b c); unfold Rabs; repeat destruct Rcase_abs; lra. Qed.
Theorem C126_fit : forall samples mu sigma, (prec + 2 <= emax)%Z -> samples <> [] -> INR (length samples) <= bpow radix2 prec ->
  g_gaussian_fit o of_usize (float_epsilon prec emax) float_max samples = (mu, sigma) -> is_finite mu = true -> is_finite sigma = true ->
  let n := length samples in let X := map B2R samples in
  Rabs (B2R mu - average X) <= ((1 + u) ^ n - 1) * average (map Rabs X) + eta /\
  bpow radix2 (1 - prec) <= B2R sigma /\
  exists v, 0 <= v /\
    Rabs (v - average (map (fun x => (x - average X) ^ 2) X)) <=
      ((1 + u) ^ (n + 3) - 1) * average (map (fun x => (x - B2R mu) ^ 2) X) + (B2R mu - average X) ^ 2 + eta * ((1 + u) ^ (n + 3) + 1) /\
    Rabs (B2R sigma - Rmax (sqrt v) (bpow radix2 (1 - prec))) <= u * sqrt v + eta.
Proof.
  intros samples mu sigma W Hl Hn H Fm Fs n X.
  assert (Em : mu = div o (fold_left (add o) samples (zero o)) (of_usize (length samples))) by (destruct samples; [congruence|]; unfold g_gaussian_fit in H; injection H as <- _; reflexivity).
  set (V := div o (prods o (map (fun x : fl => (x, x)) (map (fun s => sub o s mu) samples))) (of_usize (length samples))).
  assert (Es : sigma = float_max (sqrtf o V) (float_epsilon prec emax)).
  { unfold V, prods. rewrite map_map. destruct samples as [|s0 l0]; [congruence|]. set (l := s0 :: l0) in *.
    assert (K : sigma = float_max (sqrtf o (div o (fold_left (fun s2 s => add o s2 (mul o (sub o s mu) (sub o s mu))) l (zero o)) (of_usize (length l)))) (float_epsilon prec emax))
      by (rewrite Em; unfold g_gaussian_fit in H; unfold l in H at 2; injection H as _ <-; reflexivity).
    rewrite K. f_equal. f_equal. f_equal. clear. generalize (zero o). induction l as [|s l IH]; intros z; [reflexivity|]. cbn [map fold_left fst snd]. apply IH. }
  assert (L0 : (0 < length samples)%nat) by (destruct samples; [congruence|cbn; lia]). assert (Np : 0 < INR n) by (apply lt_0_INR, L0).
  destruct (usize_exact _ Hn) as [En Fn]. fold n in En, Fn. assert (Nz : B2R (of_usize n) <> 0) by (rewrite En; lra).
  assert (Fsum : is_finite (fold_left (add o) samples (zero o)) = true) by (rewrite Em in Fm; exact (proj1 (div_fin _ _ Nz Fm))).
  pose proof (sum_fin _ Fsum) as Fi. destruct (epsilon_value ltac:(pose proof P as Pp; unfold Prec_gt_0 in Pp; lia)) as (Ee & Fe & Se).
  assert (V0 : at_least_0 V).
  { apply quotient_0; [|exact Fn|fold n; rewrite En; exact Np]. apply sum_squares_0. intros d Hd. apply in_map_iff in Hd. destruct Hd as (s & <- & Hs). apply sub_not_nan; [apply Fi, Hs|exact Fm]. }
  split; [|].
  { pose proof (proj1 (mean_list samples Hl Hn)) as K. rewrite <- Em in K. specialize (K Fm). unfold X. rewrite map_map. exact K. }
  destruct (root_0 V V0) as [(FV & FR & ER)|Inf].
  2:{ exfalso. rewrite Es, Inf in Fs. unfold float_max in Fs. destruct (float_epsilon prec emax) as [s|s| |s m e B] eqn:Q; try discriminate. }
  destruct (max_value _ _ FR Fe) as [_ Ex]. rewrite <- Es, Ee, ER in Ex.
  split; [rewrite Ex; apply Rmax_r|]. pose proof (u_pos prec) as Up. pose proof (eta_pos prec emax) as He.
  exists (B2R V). split; [destruct V0 as [[_ Q]|Q]; [exact Q|rewrite Q; cbn; lra]|]. split.
  2:{ rewrite Ex. eapply Rle_trans; [apply Rmax_close|]. destruct (rd_err prec emax (sqrt (B2R V))) as (e & d & A & B & ->).
      replace (sqrt (B2R V) * (1 + e) + d - sqrt (B2R V)) with (e * sqrt (B2R V) + d) by ring. eapply Rle_trans; [apply Rabs_triang|]. rewrite Rabs_mult, (Rabs_pos_eq (sqrt _)) by apply sqrt_pos.
      apply (Rmult_le_compat_r (sqrt (B2R V))) in A; [|apply sqrt_pos]. lra. }
  destruct (div_fin _ _ Nz FV) as [FS EV]. rewrite En in EV. rewrite map_map in FS.
  pose proof (devs_close (fun s : fl => s) (fun s => s) mu mu samples FS) as C. cbv beta zeta in C.
  pose proof (devs_exact (fun s : fl => s) (fun s => s) mu mu samples Hl) as D. cbv beta zeta in D. change (map (fun p : fl => B2R p) samples) with X in D. fold n in D. fold n in C.
  set (S := B2R (prods o (map (fun p : fl => (sub o p mu, sub o p mu)) samples))) in *.
  assert (EV' : B2R V = rd (S / INR n)) by (unfold S; rewrite <- (map_map (fun s => sub o s mu) (fun x : fl => (x, x))); exact EV). rewrite EV'. clear EV EV'.
  assert (D1 : total (devs (fun s : fl => s) (fun s => s) mu mu samples) = INR n * average (map (fun x => (x - B2R mu) ^ 2) X)).
  { unfold average, X. rewrite !map_map, map_length. fold n. unfold devs. replace (map (fun p : fl => (B2R p - B2R mu) * (B2R p - B2R mu)) samples) with (map (fun p : fl => (B2R p - B2R mu) ^ 2) samples) by (apply map_ext; intros; ring). field. lra. }
  assert (D2 : total (map Rabs (devs (fun s : fl => s) (fun s => s) mu mu samples)) = INR n * average (map (fun x => (x - B2R mu) ^ 2) X)).
  { rewrite <- D1. f_equal. unfold devs. rewrite map_map. apply map_ext. intros p. apply Rabs_pos_eq. exact (Rle_0_sqr (B2R p - B2R mu)). }
  assert (D3 : total (map (fun p => (fst p - average X) * (snd p - average X)) (combine X X)) = INR n * average (map (fun x => (x - average X) ^ 2) X)).
  { assert (Lx : length X = n) by (unfold X; apply map_length). unfold average at 3. rewrite map_length, Lx. replace (INR n * (total (map (fun x => (x - average X) ^ 2) X) / INR n)) with (total (map (fun x => (x - average X) ^ 2) X)) by (field; lra).
    generalize (average X). clear. intros a. induction X as [|x l IH]; [reflexivity|]. cbn [combine map total fst snd]. rewrite IH. ring. }
  rewrite D3 in D. rewrite D1 in D. rewrite D1, D2 in C. unfold RoundProps.close in C.
  set (T := average (map (fun x => (x - B2R mu) ^ 2) X)) in *. set (v := average (map (fun x => (x - average X) ^ 2) X)) in *.
  assert (TE : T = v + (B2R mu - average X) ^ 2) by (apply Rmult_eq_reg_l with (INR n); [rewrite D; ring|lra]).
  assert (Tp : 0 <= T) by (pose proof (abs_pos (devs (fun s : fl => s) (fun s => s) mu mu samples)) as Q; rewrite D2 in Q; nra).
  replace (n + 3)%nat with (Datatypes.S (n + 2)) by lia. cbn [pow]. pose proof (pow1 prec (n + 2)) as Pq. set (q := (1 + u) ^ (n + 2)) in *.
  destruct (rd_err prec emax (S / INR n)) as (e & d & A & B & ->).
  replace (S / INR n * (1 + e) + d - v) with ((S - INR n * T) * / INR n * (1 + e) + (T * e + (d + (B2R mu - average X) ^ 2))) by (rewrite TE; field; lra).
  assert (In : 0 < / INR n) by (apply Rinv_0_lt_compat, Np).
  eapply Rle_trans; [apply Rabs_triang|]. rewrite !Rabs_mult, (Rabs_pos_eq (/ INR n)) by lra.
  assert (A1 : Rabs (1 + e) <= 1 + u) by (eapply Rle_trans; [apply Rabs_triang|]; rewrite Rabs_R1; lra).
  assert (B1 : Rabs (S - INR n * T) * / INR n <= (q - 1) * T + eta * q).
  { apply (Rmult_le_compat_r (/ INR n)) in C; [|lra]. replace (((q - 1) * (INR n * T) + INR n * eta * q) * / INR n) with ((q - 1) * T + eta * q) in C by (field; lra). exact C. }
  assert (B0 : 0 <= Rabs (S - INR n * T) * / INR n) by (apply Rmult_le_pos; [apply Rabs_pos|lra]).
  assert (B2 : Rabs (S - INR n * T) * / INR n * Rabs (1 + e) <= ((q - 1) * T + eta * q) * (1 + u)) by (apply Rmult_le_compat; auto using Rabs_pos).
  assert (B3 : Rabs (T * e + (d + (B2R mu - average X) ^ 2)) <= T * u + (eta + (B2R mu - average X) ^ 2)).
  { eapply Rle_trans; [apply Rabs_triang|]. apply Rplus_le_compat.
    - rewrite Rabs_mult, (Rabs_pos_eq T) by exact Tp. apply Rmult_le_compat_l; assumption.
    - eapply Rle_trans; [apply Rabs_triang|]. rewrite (Rabs_pos_eq ((B2R mu - average X) ^ 2)) by apply pow2_ge_0. lra. }
  lra.
Qed.
End Width.

(** * f64: what the exact statistics satisfy and the computed ones do not *)
Local Instance p53 : Prec_gt_0 53 := eq_refl.
Local Instance e53 : Prec_lt_emax 53 1024 := eq_refl.
Local Notation f64 := (binary_float 53 1024).
Local Notation o64 := (float_ops 53 1024).
Local Notation n64 := (float_of_usize 53 1024).
Definition tenth : f64 := @B754_finite 53 1024 false 7205759403792794 (-56) eq_refl.
Definition three : f64 := @B754_finite 53 1024 false 6755399441055744 (-51) eq_refl.
Definition biggest : f64 := @B754_finite 53 1024 false 9007199254740991 971 eq_refl.
Lemma lt_by (a b : f64) : is_finite a = true -> is_finite b = true -> Bltb a b = true -> B2R a < B2R b.
Proof. intros A B L. rewrite Bltb_correct in L by assumption. destruct (Rlt_bool_spec (B2R a) (B2R b)); [assumption|discriminate]. Qed.
Lemma all_same {A} (x s : A) n : In s (repeat x n) -> s = x.
Proof. apply repeat_spec. Qed.
(** the mean of three equal samples 0.1 is more than 0.1 *)
Theorem C126_mean_between_refuted : exists samples m, g_mean o64 n64 1 samples = Ok m /\ samples <> [] /\
  forall s, In s samples -> is_finite (s 0%nat) = true /\ B2R (s 0%nat) < B2R (m 0%nat).
Proof.
  exists (repeat (fun _ => tenth) 3). eexists. split; [reflexivity|]. split; [discriminate|].
  intros s Hs. apply all_same in Hs. subst s. split; [reflexivity|]. apply lt_by; [reflexivity|vm_compute; reflexivity|vm_compute; reflexivity].
Qed.
(** their variance is not 0 *)
Theorem C126_no_spread_refuted : exists samples C, g_sample_covariance o64 n64 1 samples = Ok C /\
  (forall s, In s samples -> s 0%nat = tenth) /\ is_finite (C 0%nat 0%nat) = true /\ 0 < B2R (C 0%nat 0%nat).
Proof.
  exists (repeat (fun _ => tenth) 3). eexists. split; [reflexivity|]. split; [intros s Hs; apply all_same in Hs; subst s; reflexivity|]. split; [vm_compute; reflexivity|].
  change 0 with (B2R (B754_zero false : f64)). apply lt_by; [reflexivity|vm_compute; reflexivity|vm_compute; reflexivity].
Qed.
(** an axis of variance 3 has correlation above 1 with itself *)
Theorem C126_correlation_range_refuted : exists cov R, g_correlation o64 (float_epsilon 53 1024) 1 cov = Ok R /\ B2R (cov 0%nat 0%nat) = 3 /\
  is_finite (R 0%nat 0%nat) = true /\ 1 < B2R (R 0%nat 0%nat).
Proof.
  exists (fun _ _ => three). assert (L : leb o64 three (float_epsilon 53 1024) = false) by (vm_compute; reflexivity).
  eexists. split; [|split; [|split]].
  - unfold g_correlation, g_standard_deviations. cbn [forM Nat.sub]. rewrite L. reflexivity.
  - unfold three, B2R, F2R. cbn. lra.
  - vm_compute. reflexivity.
  - rewrite <- (Bone_correct 53 1024 _ _). apply lt_by; [reflexivity|vm_compute; reflexivity|vm_compute; reflexivity].
Qed.
(** two samples equal to the largest number: the mean overflows *)
Theorem C126_overflow_refuted : exists samples m, g_mean o64 n64 1 samples = Ok m /\ (forall s, In s samples -> s 0%nat = biggest) /\ is_finite (m 0%nat) = false.
Proof.
  exists (repeat (fun _ => biggest) 2). eexists. split; [reflexivity|]. split; [intros s Hs; apply all_same in Hs; subst s; reflexivity|]. vm_compute. reflexivity.
Qed.
(** samples 1, 2, 4 of one axis: everything stays finite and the bounds apply *)
Definition num (z : Z) : f64 := binary_normalize 53 1024 eq_refl eq_refl mode_NE z 0 false.
Lemma corr_one cov : leb o64 (cov 0%nat 0%nat) (float_epsilon 53 1024) = false -> exists R, g_correlation o64 (float_epsilon 53 1024) 1 cov = Ok R.
Proof. intros L. unfold g_correlation, g_standard_deviations. unfold forM. cbn [Nat.sub seq forL]. rewrite L. eexists. reflexivity. Qed.
Example C126_nontrivial : exists m C R g, let samples := [(fun _ : nat => num 1); (fun _ => num 2); (fun _ => num 4)] in
  g_mean o64 n64 1 samples = Ok m /\ g_sample_covariance o64 n64 1 samples = Ok C /\ g_correlation o64 (float_epsilon 53 1024) 1 C = Ok R /\
  g_gaussian_fit o64 n64 (float_epsilon 53 1024) float_max [num 1; num 2; num 4] = g /\
  is_finite (m 0%nat) = true /\ is_finite (C 0%nat 0%nat) = true /\ is_finite (R 0%nat 0%nat) = true /\ is_finite (fst g) = true /\ is_finite (snd g) = true /\
  INR (length samples) <= bpow radix2 53.
Proof.
  set (samples := [(fun _ : nat => num 1); (fun _ => num 2); (fun _ => num 4)]).
  pose (C := match g_sample_covariance o64 n64 1 samples with Ok C => C | Err _ => fun _ _ => zero o64 end).
  assert (EC : g_sample_covariance o64 n64 1 samples = Ok C) by reflexivity.
  assert (L : leb o64 (C 0%nat 0%nat) (float_epsilon 53 1024) = false) by (vm_compute; reflexivity).
  assert (FC : is_finite (C 0%nat 0%nat) = true) by (vm_compute; reflexivity).
  assert (FR : is_finite (div o64 (C 0%nat 0%nat) (mul o64 (sqrtf o64 (C 0%nat 0%nat)) (sqrtf o64 (C 0%nat 0%nat)))) = true) by (vm_compute; reflexivity).
  destruct (corr_one C L) as [R ER]. eexists. exists C, R. eexists. cbv zeta. split; [reflexivity|]. split; [exact EC|]. split; [exact ER|]. split; [reflexivity|].
  split; [vm_compute; reflexivity|]. split; [exact FC|].
  split; [destruct (g_corr_entry _ _ _ _ _ 0 0 ER ltac:(lia) ltac:(lia)) as (_ & _ & ->); exact FR|].
  split; [vm_compute; reflexivity|]. split; [vm_compute; reflexivity|].
  cbn [length samples INR]. apply Rle_trans with (bpow radix2 2); [cbn; lra|apply bpow_le; lia].
Qed.
