(** C97: the axis ranges of a plot contain what is plotted. *)
From Coq Require Import ZArith QArith Reals Lra Lia Bool List Arith.
From Coquelicot Require Import Rbar.
From Flocq Require Import Core BinarySingleNaN.
From Verif Require Import Scalar F64 F64Ops TankModel AssertModel PlotModel.
Import ListNotations.
Local Open Scope R_scope.
Local Existing Instance F64.prec_gt_0_53.
Local Existing Instance F64.prec_lt_emax_53.
Local Existing Instance F64.fexp_valid.

(** Specification: [x] lies in the closed range [r] *)
Definition inside (r : f64 * f64) (x : f64) : Prop := Bleb (fst r) x = true /\ Bleb x (snd r) = true.

Lemma min_spec m x : is_number m -> is_number x -> is_number (min64 m x) /\ Rbar_le (xval (min64 m x)) (xval m) /\ Rbar_le (xval (min64 m x)) (xval x) /\ (min64 m x = m \/ min64 m x = x).
Proof.
  intros Nm Nx. unfold min64. unfold is_number in Nm. rewrite Nm. cbn [orb]. destruct (Bltb x m) eqn:E.
  - apply f64_ltb in E; auto. split; auto. split; [apply Rbar_lt_le, E|]. split; [apply Rbar_le_refl|auto].
  - split; auto. split; [apply Rbar_le_refl|]. split; auto. apply Rbar_not_lt_le. intros L. apply f64_ltb in L; auto. congruence.
Qed.
Lemma max_spec m x : is_number m -> is_number x -> is_number (max64 m x) /\ Rbar_le (xval m) (xval (max64 m x)) /\ Rbar_le (xval x) (xval (max64 m x)) /\ (max64 m x = m \/ max64 m x = x).
Proof.
  intros Nm Nx. unfold max64, fmax, isnan. cbn [eqb ltb f64_ops]. rewrite eqb_self. unfold is_number in Nm. rewrite Nm. cbn [negb orb]. destruct (Bltb m x) eqn:E.
  - apply f64_ltb in E; auto. split; auto. split; [apply Rbar_lt_le, E|]. split; [apply Rbar_le_refl|auto].
  - split; auto. split; [apply Rbar_le_refl|]. split; auto. apply Rbar_not_lt_le. intros L. apply f64_ltb in L; auto. congruence.
Qed.
Lemma min_nan m x : is_number m -> is_nan x = true -> min64 m x = m.
Proof. intros Nm H. destruct x; try discriminate. unfold min64. unfold is_number in Nm. rewrite Nm. destruct m; reflexivity. Qed.
Lemma max_nan m x : is_number m -> is_nan x = true -> max64 m x = m.
Proof. intros Nm H. destruct x; try discriminate. unfold max64, fmax, isnan. cbn [eqb ltb f64_ops]. rewrite eqb_self. unfold is_number in Nm. rewrite Nm. destruct m; reflexivity. Qed.

Lemma bounds_fold l : forall lo hi, is_number lo -> is_number hi ->
  let '(m, M) := fold_left (fun '(lo, hi) x => (min64 lo x, max64 hi x)) l (lo, hi) in
  is_number m /\ is_number M /\ Rbar_le (xval m) (xval lo) /\ Rbar_le (xval hi) (xval M) /\
  (forall x, In x l -> is_number x -> Rbar_le (xval m) (xval x) /\ Rbar_le (xval x) (xval M)) /\
  (m = lo \/ In m l) /\ (M = hi \/ In M l).
Proof.
  induction l as [|x l IH]; intros lo hi N1 N2; cbn [fold_left].
  - split; auto. split; auto. split; [apply Rbar_le_refl|]. split; [apply Rbar_le_refl|]. split; [intros x []|auto].
  - assert (S : is_number (min64 lo x) /\ is_number (max64 hi x) /\ Rbar_le (xval (min64 lo x)) (xval lo) /\ Rbar_le (xval hi) (xval (max64 hi x)) /\
               (is_number x -> Rbar_le (xval (min64 lo x)) (xval x) /\ Rbar_le (xval x) (xval (max64 hi x))) /\
               (min64 lo x = lo \/ min64 lo x = x) /\ (max64 hi x = hi \/ max64 hi x = x)).
    { destruct (is_nan x) eqn:Nx.
      - rewrite (min_nan lo x N1 Nx), (max_nan hi x N2 Nx). split; auto. split; auto. split; [apply Rbar_le_refl|]. split; [apply Rbar_le_refl|].
        split; [intros C; unfold is_number in C; congruence|auto].
      - destruct (min_spec lo x N1 Nx) as (A1 & A2 & A3 & A4), (max_spec hi x N2 Nx) as (B1 & B2 & B3 & B4). repeat (split; auto). }
    destruct S as (S1 & S2 & S3 & S4 & S5 & S6 & S7). specialize (IH _ _ S1 S2).
    destruct (fold_left _ l _) as [m M]. destruct IH as (I1 & I2 & I3 & I4 & I5 & I6 & I7).
    split; auto. split; auto. split; [eapply Rbar_le_trans; eauto|]. split; [eapply Rbar_le_trans; eauto|]. split.
    + intros y [<-|Hy] Ny; [|auto]. destruct (S5 Ny). split; eapply Rbar_le_trans; eauto.
    + split; [destruct I6 as [-> |]; [destruct S6 as [-> | ->]; cbn; auto|cbn; auto]|destruct I7 as [-> |]; [destruct S7 as [-> | ->]; cbn; auto|cbn; auto]].
Qed.
Lemma bounds_spec l x0 : (forall x, In x l -> is_finite x = true) -> In x0 l ->
  let '(m, M) := bounds l in In m l /\ In M l /\ forall x, In x l -> B2R m <= B2R x <= B2R M.
Proof.
  intros F I0. unfold bounds. pose proof (bounds_fold l pinf ninf eq_refl eq_refl) as H. destruct (fold_left _ l _) as [m M].
  destruct H as (N1 & N2 & _ & _ & H & A & B). destruct (H x0 I0 (finite_number _ (F _ I0))) as [L1 L2]. rewrite (xval_finite x0 (F _ I0)) in L1, L2.
  assert (Im : In m l) by (destruct A as [-> |]; auto; destruct L1).
  assert (IM : In M l) by (destruct B as [-> |]; auto; destruct L2).
  split; auto. split; auto. intros x Ix. destruct (H x Ix (finite_number _ (F _ Ix))) as [K1 K2].
  rewrite !xval_finite in K1, K2 by auto. split; auto.
Qed.

(** * The padded range *)
Lemma pad_val : fpos pad_factor /\ Rabs (B2R pad_factor - 3 / 100) <= / 10 ^ 17.
Proof.
  assert (E : B2SF pad_factor = SpecFloat.S754_finite false 8646911284551352 (-58)) by (vm_compute; reflexivity).
  destruct pad_factor as [s|s| |s m e H]; cbn in E; try discriminate. injection E as -> -> ->. split; [split; [reflexivity|apply F2R_gt_0; reflexivity]|].
  cbn [B2R]. unfold F2R. cbn. apply Rabs_le. lra.
Qed.
Lemma one_val : is_finite f64_1 = true /\ B2R f64_1 = 1.
Proof. split; [reflexivity|]. unfold f64_1. cbn [one f64_ops]. rewrite Bone_correct. reflexivity. Qed.
Lemma sxrnd_B2R (x : f64) : sxrnd (B2R x) = Finite (B2R x).
Proof. unfold sxrnd. rewrite rnd_B2R, Rlt_bool_true; auto. exact (abs_B2R_lt_emax 53 1024 x). Qed.
Lemma pinf_of (x : f64) : is_number x -> xval x = p_infty -> x = B754_infinity false.
Proof. intros N E. destruct (number_cases x N) as [F|[->| ->]]; auto; [rewrite xval_finite in E by auto|]; discriminate. Qed.
(** a number that is not below a finite one is finite or +infinity *)
Lemma above_cases (m x : f64) : is_finite m = true -> is_number x -> Rbar_le (xval m) (xval x) -> is_finite x = true /\ B2R m <= B2R x \/ x = B754_infinity false.
Proof.
  intros F N L. rewrite xval_finite in L by auto. destruct (number_cases x N) as [Fx|[->| ->]]; [|destruct L|auto]. left. split; auto. rewrite xval_finite in L by auto. exact L.
Qed.
Definition hi_of (m M : f64) : f64 := if Beqb m M then f64_add m f64_1 else M.
Lemma hi_spec m M : is_finite m = true -> is_finite M = true -> B2R m <= B2R M ->
  is_number (hi_of m M) /\ Rbar_le (xval m) (xval (hi_of m M)) /\ Rbar_le (xval M) (xval (hi_of m M)).
Proof.
  intros Fm FM L. unfold hi_of. destruct (Beqb m M) eqn:E.
  - rewrite Beqb_correct in E by auto. apply Req_bool_true_iff in E || (destruct (Req_bool_spec (B2R m) (B2R M)) as [E'|]; [clear E; rename E' into E|discriminate]).
    destruct one_val as [F1 V1]. destruct (add_s m f64_1 Fm F1) as [N V]. rewrite V1 in V. rewrite V, !xval_finite by auto. rewrite <- !sxrnd_B2R.
    split; auto. split; apply sxrnd_le; lra.
  - split; [apply finite_number, FM|]. rewrite !xval_finite by auto. split; [exact L|apply Rbar_le_refl].
Qed.
Definition pad_of (m M : f64) : f64 := f64_mul (Babs (f64_sub (hi_of m M) m)) pad_factor.
Lemma mul_fpos x k : nonneg x -> fpos k -> nonneg (f64_mul x k).
Proof.
  intros Hx [F P]. apply mul_nonneg; auto; [apply nonneg_finite; auto; lra|]. split; intros [E1 E2]; rewrite (xval_finite k F) in E2; [|discriminate]. injection E2 as E2. lra.
Qed.
Lemma pad_nonneg m M : is_finite m = true -> is_finite M = true -> B2R m <= B2R M -> nonneg (pad_of m M).
Proof.
  intros Fm FM L. destruct (hi_spec m M Fm FM L) as (N & A & _).
  assert (D : nonneg (Babs (f64_sub (hi_of m M) m))).
  { destruct (above_cases _ _ Fm N A) as [[Fh Lh]| ->].
    - destruct (sub_s _ _ Fh Fm) as [Nd Vd]. split; [destruct (f64_sub _ m); auto|]. destruct (f64_sub (hi_of m M) m) as [s|s| |s p e H]; cbn; try lra; auto. apply F2R_ge_0. cbn. lia.
    - destruct m; try discriminate; apply nonneg_inf. }
  unfold pad_of. apply mul_fpos; auto. apply (proj1 pad_val).
Qed.
Lemma range_eq m M : range (m, M) = (f64_sub m (pad_of m M), f64_add (hi_of m M) (pad_of m M)). Proof. reflexivity. Qed.
Lemma range_spec m M : is_finite m = true -> is_finite M = true -> B2R m <= B2R M ->
  is_number (fst (range (m, M))) /\ is_number (snd (range (m, M))) /\ Rbar_le (xval (fst (range (m, M)))) (xval m) /\ Rbar_le (xval (hi_of m M)) (xval (snd (range (m, M)))).
Proof.
  intros Fm FM L. rewrite range_eq. cbn [fst snd]. pose proof (pad_nonneg m M Fm FM L) as Hp. destruct (hi_spec m M Fm FM L) as (N & A & _).
  assert (Lo : is_number (f64_sub m (pad_of m M)) /\ Rbar_le (xval (f64_sub m (pad_of m M))) (xval m)).
  { destruct (nonneg_cases _ Hp) as [[Fp Pp]| ->].
    - destruct (sub_s m _ Fm Fp) as [N' V]. split; auto. rewrite V, xval_finite by auto. rewrite <- sxrnd_B2R. apply sxrnd_le. lra.
    - destruct m; try discriminate; split; reflexivity || exact I. }
  assert (Hi : is_number (f64_add (hi_of m M) (pad_of m M)) /\ Rbar_le (xval (hi_of m M)) (xval (f64_add (hi_of m M) (pad_of m M)))).
  { destruct (above_cases _ _ Fm N A) as [[Fh Lh]| ->].
    - destruct (nonneg_cases _ Hp) as [[Fp Pp]| ->].
      + destruct (add_s _ _ Fh Fp) as [N' V]. split; auto. rewrite V, (xval_finite (hi_of m M)) by auto. rewrite <- sxrnd_B2R. apply sxrnd_le. lra.
      + destruct (hi_of m M); try discriminate; split; reflexivity || exact I.
    - rewrite add_inf_l by auto. split; [reflexivity|apply Rbar_le_refl]. }
  tauto.
Qed.
Lemma range_inside l x : (forall y, In y l -> is_finite y = true) -> In x l -> inside (range (bounds l)) x.
Proof.
  intros F I. pose proof (bounds_spec l x F I) as B. destruct (bounds l) as [m M]. destruct B as (Im & IM & B). destruct (B x I) as [B1 B2].
  assert (L : B2R m <= B2R M) by lra. destruct (range_spec m M (F _ Im) (F _ IM) L) as (N1 & N2 & R1 & R2).
  destruct (hi_spec m M (F _ Im) (F _ IM) L) as (_ & _ & R3). unfold inside. split; apply f64_leb; auto using finite_number.
  - eapply Rbar_le_trans; [exact R1|]. rewrite !xval_finite by auto. exact B1.
  - eapply Rbar_le_trans; [|exact R2]. eapply Rbar_le_trans; [|exact R3]. rewrite !xval_finite by auto. exact B2.
Qed.

Lemma drawn_points series ps xr yr : plot_series series = Drawn ps xr yr ->
  ps = filter (fun p => negb (length p =? 0)%nat) (map (fun '(xs, ys) => finite_points xs ys) series) /\ ps <> [] /\
  xr = range (bounds (map fst (concat ps))) /\ yr = range (bounds (map snd (concat ps))).
Proof.
  unfold plot_series. destruct series as [|s0 series]; [discriminate|]. destruct (forallb _ _); [|discriminate].
  destruct (filter _ _) as [|p0 l] eqn:E; [discriminate|]. intros H. injection H as <- <- <-. repeat split. discriminate.
Qed.
Lemma in_drawn series ps xr yr p : plot_series series = Drawn ps xr yr ->
  (In p (concat ps) <-> exists xs ys, In (xs, ys) series /\ In p (combine xs ys) /\ is_finite (fst p) = true /\ is_finite (snd p) = true).
Proof.
  intros H. apply drawn_points in H. destruct H as (-> & _). rewrite in_concat. split.
  - intros (l & Hl & Hp). apply filter_In in Hl. destruct Hl as [Hl _]. apply in_map_iff in Hl. destruct Hl as ([xs ys] & <- & Hs).
    apply filter_In in Hp. destruct p as [x y]. destruct Hp as [Hp Hf]. apply andb_true_iff in Hf. exists xs, ys. tauto.
  - intros (xs & ys & Hs & Hp & F1 & F2). exists (finite_points xs ys).
    assert (I : In p (finite_points xs ys)) by (apply filter_In; split; auto; destruct p; cbn in *; rewrite F1, F2; auto).
    split; auto. apply filter_In. split; [apply in_map_iff; exists (xs, ys); auto|]. destruct (finite_points xs ys); [destruct I|reflexivity].
Qed.

(** every finite point of every series is drawn and lies inside both ranges; nothing else is drawn *)
Theorem C97_contains series ps xr yr : plot_series series = Drawn ps xr yr ->
  (forall xs ys x y, In (xs, ys) series -> In (x, y) (combine xs ys) -> is_finite x = true -> is_finite y = true ->
    In (x, y) (concat ps) /\ inside xr x /\ inside yr y) /\
  forall x y, In (x, y) (concat ps) -> is_finite x = true /\ is_finite y = true /\ exists xs ys, In (xs, ys) series /\ In (x, y) (combine xs ys).
Proof.
  intros H. pose proof (in_drawn _ _ _ _ (pinf, pinf) H) as _. pose proof (fun p => in_drawn _ _ _ _ p H) as D. destruct (drawn_points _ _ _ _ H) as (_ & _ & -> & ->).
  assert (F : forall p, In p (concat ps) -> is_finite (fst p) = true /\ is_finite (snd p) = true) by (intros p Hp; apply D in Hp; destruct Hp as (? & ? & _ & _ & ? & ?); auto).
  split.
  - intros xs ys x y Hs Hp Fx Fy. assert (I : In (x, y) (concat ps)) by (apply D; exists xs, ys; auto). split; auto. split; apply range_inside.
    + intros z Hz. apply in_map_iff in Hz. destruct Hz as (q & <- & Hq). apply F, Hq.
    + apply in_map_iff. exists (x, y). auto.
    + intros z Hz. apply in_map_iff in Hz. destruct Hz as (q & <- & Hq). apply F, Hq.
    + apply in_map_iff. exists (x, y). auto.
  - intros x y I. apply D in I. destruct I as (xs & ys & ? & ? & ? & ?). split; auto. split; auto. eauto.
Qed.
(** when it does not draw: a panic exactly for no series or unequal lengths, an error exactly when no point is finite *)
Theorem C97_outcomes series :
  (plot_series series = PlotPanic <-> series = [] \/ exists xs ys, In (xs, ys) series /\ length xs <> length ys) /\
  (plot_series series = NoFinitePoints <-> series <> [] /\ (forall xs ys, In (xs, ys) series -> length xs = length ys) /\
     forall xs ys x y, In (xs, ys) series -> In (x, y) (combine xs ys) -> is_finite x = false \/ is_finite y = false).
Proof.
  unfold plot_series. destruct series as [|s0 series]; [split; split; auto; [discriminate|intros [C _]; congruence]|]. set (l := s0 :: series).
  assert (Hl : l <> []) by discriminate. destruct (forallb (fun '(xs, ys) => (length xs =? length ys)%nat) l) eqn:E.
  - rewrite forallb_forall in E. assert (E' : forall xs ys, In (xs, ys) l -> length xs = length ys) by (intros xs ys I; specialize (E _ I); cbn in E; apply Nat.eqb_eq, E).
    split.
    + split; [destruct (filter _ _); discriminate|]. intros [C|(xs & ys & I & C)]; [contradiction|]. contradiction (C (E' _ _ I)).
    + destruct (filter (fun p => negb (length p =? 0)%nat) (map (fun '(xs, ys) => finite_points xs ys) l)) as [|p0 r] eqn:G.
      * split; auto. intros _. split; auto. split; auto. intros xs ys x y I1 I2. destruct (is_finite x) eqn:Fx, (is_finite y) eqn:Fy; auto. exfalso.
        assert (I3 : In (x, y) (finite_points xs ys)) by (apply filter_In; split; auto; rewrite Fx, Fy; auto).
        assert (I4 : In (finite_points xs ys) []); [|exact I4]. rewrite <- G. apply filter_In. split; [apply in_map_iff; exists (xs, ys); auto|]. destruct (finite_points xs ys); [destruct I3|reflexivity].
      * split; [discriminate|]. intros (_ & _ & C). exfalso. assert (I : In p0 (p0 :: r)) by (left; auto). rewrite <- G in I. apply filter_In in I. destruct I as [I J].
        apply in_map_iff in I. destruct I as ([xs ys] & <- & I). destruct (finite_points xs ys) as [|[x y] t] eqn:K; [discriminate|].
        assert (I' : In (x, y) (finite_points xs ys)) by (rewrite K; left; auto). apply filter_In in I'. destruct I' as [I1 I2]. apply andb_true_iff in I2. destruct I2 as [I2 I3].
        destruct (C xs ys x y I I1); congruence.
  - split; [split; auto; intros _; right|].
    + assert (X : exists s, In s l /\ (fun '(xs, ys) => (length xs =? length ys)%nat) s = false).
      { clear Hl. induction l as [|s t IH]; [discriminate|]. cbn in E. destruct ((fun '(xs, ys) => (length xs =? length ys)%nat) s) eqn:Es; [|exists s; split; [left; auto|auto]].
        cbn in E. destruct (IH E) as (s' & ? & ?). exists s'. split; [right; auto|auto]. }
      destruct X as ([xs ys] & I & X). exists xs, ys. split; auto. apply Nat.eqb_neq, X.
    + split; [discriminate|]. intros (_ & C & _). exfalso. assert (T : forallb (fun '(xs, ys) => (length xs =? length ys)%nat) l = true).
      { apply forallb_forall. intros [xs ys] I. apply Nat.eqb_eq. auto. } congruence.
Qed.

(** * Width *)
Lemma rnd_le_pow r k : (-1000 <= k < 1024)%Z -> Rabs r <= bpow radix2 k -> Rabs (rnd r) <= bpow radix2 k.
Proof.
  intros Hk H. unfold rnd. apply abs_round_le_generic; auto with typeclass_instances. apply generic_format_bpow. unfold SpecFloat.fexp, SpecFloat.emin. lia.
Qed.
Lemma sxrnd_pow r k : (-1000 <= k < 1024)%Z -> Rabs r <= bpow radix2 k -> sxrnd r = Finite (rnd r) /\ Rabs (rnd r) <= bpow radix2 k.
Proof.
  intros Hk H. pose proof (rnd_le_pow r k Hk H) as L. split; auto. unfold sxrnd. rewrite Rlt_bool_true; auto. eapply Rle_lt_trans; [exact L|]. unfold top. apply bpow_lt. lia.
Qed.
Lemma of_sxrnd (z : f64) r k : (-1000 <= k < 1024)%Z -> Rabs r <= bpow radix2 k -> is_number z /\ xval z = sxrnd r -> is_finite z = true /\ B2R z = rnd r /\ Rabs (B2R z) <= bpow radix2 k.
Proof.
  intros Hk H [N V]. destruct (sxrnd_pow r k Hk H) as [E L]. rewrite E in V. destruct (number_dec z N) as [F|[s ->]]; [|destruct s; discriminate].
  rewrite xval_finite in V by auto. injection V as V. split; auto. split; auto. rewrite V. exact L.
Qed.
Lemma mono : Monotone_exp (SpecFloat.fexp 53 1024). Proof. intros a b H. unfold SpecFloat.fexp, SpecFloat.emin. lia. Qed.
Lemma one_more r : Rabs r < bpow radix2 53 -> generic_format radix2 (SpecFloat.fexp 53 1024) r -> r < rnd (r + 1).
Proof.
  intros Hr Gr. assert (U : 0 < ulp radix2 (SpecFloat.fexp 53 1024) r <= 1).
  { change (SpecFloat.fexp 53 1024) with (FLT_exp (-1074) 53). destruct (Req_dec r 0) as [->|Nz].
    - rewrite ulp_FLT_0 by reflexivity. split; [apply bpow_gt_0|]. change 1 with (bpow radix2 0). apply bpow_le. lia.
    - rewrite ulp_neq_0 by auto. split; [apply bpow_gt_0|]. change 1 with (bpow radix2 0). apply bpow_le. unfold cexp, FLT_exp.
      assert (mag radix2 r <= 53)%Z by (apply mag_le_bpow; auto). lia. }
  apply Rlt_le_trans with (succ radix2 (SpecFloat.fexp 53 1024) r).
  - destruct (Req_dec r 0) as [->|Nz]; [rewrite succ_0; apply U|apply succ_gt_id; auto].
  - unfold rnd. apply round_ge_generic; auto with typeclass_instances; [apply generic_format_succ; auto with typeclass_instances|].
    eapply Rle_trans; [apply (succ_le_plus_ulp radix2 (SpecFloat.fexp 53 1024) (Hm := mono)); auto with typeclass_instances|]. apply Rplus_le_compat_l, U.
Qed.

(** Specification: the coordinates plotted along an axis *)
Definition coords (proj : f64 * f64 -> f64) (ps : list (list (f64 * f64))) : list f64 := map proj (concat ps).
Lemma drawn_finite series ps xr yr : plot_series series = Drawn ps xr yr ->
  concat ps <> [] /\ xr = range (bounds (coords fst ps)) /\ yr = range (bounds (coords snd ps)) /\
  (forall x, In x (coords fst ps) -> is_finite x = true) /\ (forall y, In y (coords snd ps) -> is_finite y = true).
Proof.
  intros H. pose proof (fun p => in_drawn _ _ _ _ p H) as D. destruct (drawn_points _ _ _ _ H) as (E & Ne & -> & ->).
  assert (F : forall p, In p (concat ps) -> is_finite (fst p) = true /\ is_finite (snd p) = true) by (intros p Hp; apply D in Hp; destruct Hp as (? & ? & _ & _ & ? & ?); auto).
  split.
  - destruct ps as [|p0 ps]; [congruence|]. assert (I : In p0 (p0 :: ps)) by (left; auto). rewrite E in I. apply filter_In in I. destruct I as [_ I]. destruct p0; [discriminate|]. discriminate.
  - split; auto. split; auto. split; intros z Hz; apply in_map_iff in Hz; destruct Hz as (q & <- & Hq); apply F, Hq.
Qed.
(** an axis along which two plotted values differ, or whose values are all below [2^53] in size, has a range of positive width *)
Definition drawable (l : list f64) : Prop := (exists x y, In x l /\ In y l /\ B2R x <> B2R y) \/ (forall x, In x l -> Rabs (B2R x) < 2 ^ 53).
Lemma range_width l : l <> [] -> (forall x, In x l -> is_finite x = true) -> drawable l -> Bltb (fst (range (bounds l))) (snd (range (bounds l))) = true.
Proof.
  intros Ne F H. destruct l as [|x0 l0]; [congruence|]. set (l := x0 :: l0) in *. assert (I0 : In x0 l) by (left; auto).
  pose proof (bounds_spec l x0 F I0) as B. destruct (bounds l) as [m M]. destruct B as (Im & IM & B). pose proof (B x0 I0).
  assert (L : B2R m <= B2R M) by lra. destruct (range_spec m M (F _ Im) (F _ IM) L) as (N1 & N2 & R1 & R2). apply f64_ltb; auto.
  eapply Rbar_le_lt_trans; [exact R1|]. eapply Rbar_lt_le_trans; [|exact R2]. unfold hi_of. rewrite Beqb_correct by auto. destruct (Req_bool_spec (B2R m) (B2R M)) as [E|E].
  - destruct H as [(x & y & Ix & Iy & Hxy)|H]; [pose proof (B x Ix); pose proof (B y Iy); lra|].
    destruct one_val as [F1 V1]. pose proof (H m Im) as Hm. assert (P53 : 2 ^ 53 = bpow radix2 53) by (cbn; lra). rewrite P53 in Hm.
    destruct (of_sxrnd (f64_add m f64_1) (B2R m + 1) 54) as (Fa & Va & _); [lia| |rewrite <- V1; apply add_s; auto|].
    + apply Rabs_def2 in Hm. assert (bpow radix2 54 = bpow radix2 53 * 2) by (cbn; lra). assert (1 <= bpow radix2 53) by (cbn; lra). apply Rabs_le. lra.
    + rewrite !xval_finite, Va by auto. apply one_more; auto. apply generic_format_B2R.
  - rewrite !xval_finite by auto. cbn. lra.
Qed.
Theorem C97_positive_width_partial series ps xr yr : plot_series series = Drawn ps xr yr ->
  (drawable (coords fst ps) -> Bltb (fst xr) (snd xr) = true) /\ (drawable (coords snd ps) -> Bltb (fst yr) (snd yr) = true).
Proof.
  intros H. destruct (drawn_finite _ _ _ _ H) as (Ne & -> & -> & F1 & F2). unfold coords in *.
  split; intros D; apply range_width; auto; intros C; apply map_eq_nil in C; auto.
Qed.
Lemma range_finite l k : l <> [] -> (0 <= k <= 1000)%Z -> (forall x, In x l -> is_finite x = true /\ Rabs (B2R x) <= bpow radix2 k) ->
  is_finite (fst (range (bounds l))) = true /\ is_finite (snd (range (bounds l))) = true.
Proof.
  intros Ne Hk F. destruct l as [|x0 l0]; [congruence|]. set (l := x0 :: l0) in *. assert (I0 : In x0 l) by (left; auto).
  pose proof (bounds_spec l x0 (fun x Hx => proj1 (F x Hx)) I0) as B. destruct (bounds l) as [m M]. destruct B as (Im & IM & B). pose proof (B x0 I0).
  destruct (F _ Im) as [Fm Bm], (F _ IM) as [FM BM]. destruct one_val as [F1 V1].
  assert (P : forall j, bpow radix2 (j + 1) = 2 * bpow radix2 j) by (intros j; rewrite bpow_plus; cbn; lra).
  pose proof (P k) as P1. pose proof (P (k + 1)%Z) as P2. pose proof (P (k + 1 + 1)%Z) as P3.
  assert (O : 1 <= bpow radix2 k) by (change 1 with (bpow radix2 0); apply bpow_le; lia).
  apply Rabs_le_inv in Bm. apply Rabs_le_inv in BM.
  assert (Hh : is_finite (hi_of m M) = true /\ Rabs (B2R (hi_of m M)) <= bpow radix2 (k + 1)).
  { unfold hi_of. destruct (Beqb m M); [|split; auto; apply Rabs_le; lra].
    destruct (of_sxrnd (f64_add m f64_1) (B2R m + 1) (k + 1)) as (Fa & _ & Va); auto; [lia|apply Rabs_le; lra|rewrite <- V1; apply add_s; auto]. }
  destruct Hh as [Fh Bh]. apply Rabs_le_inv in Bh.
  destruct (of_sxrnd (f64_sub (hi_of m M) m) (B2R (hi_of m M) - B2R m) (k + 1 + 1)) as (Fd & _ & Vd); [lia|apply Rabs_le; lra|apply sub_s; auto|].
  assert (Fd' : is_finite (Babs (f64_sub (hi_of m M) m)) = true) by (rewrite is_finite_Babs; auto).
  destruct pad_val as [[Fp _] Vp]. assert (Vp' : Rabs (B2R pad_factor) <= 1) by (apply Rabs_le_inv in Vp; apply Rabs_le; lra).
  destruct (of_sxrnd (pad_of m M) (B2R (Babs (f64_sub (hi_of m M) m)) * B2R pad_factor) (k + 1 + 1)) as (Fq & _ & Vq); [lia| |apply mul_s; auto|].
  { rewrite Rabs_mult, (B2R_Babs 53 1024), Rabs_Rabsolu. rewrite <- (Rmult_1_r (bpow radix2 (k + 1 + 1))). apply Rmult_le_compat; auto using Rabs_pos. }
  apply Rabs_le_inv in Vq. rewrite range_eq. cbn [fst snd]. split.
  - destruct (of_sxrnd (f64_sub m (pad_of m M)) (B2R m - B2R (pad_of m M)) (k + 1 + 1 + 1)) as (R & _); auto; [lia|apply Rabs_le; lra|apply sub_s; auto].
  - destruct (of_sxrnd (f64_add (hi_of m M) (pad_of m M)) (B2R (hi_of m M) + B2R (pad_of m M)) (k + 1 + 1 + 1)) as (R & _); auto; [lia|apply Rabs_le; lra|apply add_s; auto].
Qed.
(** the ranges are finite when the plotted values are at most [2^1000] in size *)
Theorem C97_finite_partial series ps xr yr : plot_series series = Drawn ps xr yr ->
  (forall x y, In (x, y) (concat ps) -> Rabs (B2R x) <= 2 ^ 1000 /\ Rabs (B2R y) <= 2 ^ 1000) ->
  is_finite (fst xr) = true /\ is_finite (snd xr) = true /\ is_finite (fst yr) = true /\ is_finite (snd yr) = true.
Proof.
  intros H Hb. destruct (drawn_finite _ _ _ _ H) as (Ne & -> & -> & F1 & F2). unfold coords in *.
  assert (E : 2 ^ 1000 = bpow radix2 1000) by (rewrite pow_powerRZ, bpow_powerRZ; reflexivity).
  assert (A : is_finite (fst (range (bounds (map fst (concat ps))))) = true /\ is_finite (snd (range (bounds (map fst (concat ps))))) = true).
  { apply (range_finite _ 1000); [intros C; apply map_eq_nil in C; auto|lia|]. intros x Hx. split; auto. apply in_map_iff in Hx. destruct Hx as ([x' y'] & <- & Hp). rewrite <- E. apply (Hb x' y' Hp). }
  assert (B : is_finite (fst (range (bounds (map snd (concat ps))))) = true /\ is_finite (snd (range (bounds (map snd (concat ps))))) = true).
  { apply (range_finite _ 1000); [intros C; apply map_eq_nil in C; auto|lia|]. intros x Hx. split; auto. apply in_map_iff in Hx. destruct Hx as ([x' y'] & <- & Hp). rewrite <- E. apply (Hb x' y' Hp). }
  tauto.
Qed.

(** a single point at [2^53] gets an axis of no width *)
Definition two53 : f64 := lit f64_ops (Z.pow 2 53 # 1).
Definition biggest : f64 := lit f64_ops ((Z.pow 2 53 - 1) * Z.pow 2 971 # 1).
Theorem C97_width_refuted : exists series ps xr yr, plot_series series = Drawn ps xr yr /\ fst xr = snd xr.
Proof.
  exists [([two53], [two53])]. do 3 eexists. split; [reflexivity|]. apply B2SF_inj. vm_compute. reflexivity.
Qed.
(** points at both ends of the number range get an infinite axis *)
Theorem C97_finite_refuted : exists series ps xr yr, plot_series series = Drawn ps xr yr /\ is_finite (snd xr) = false.
Proof.
  exists [([Bopp biggest; biggest], [two53; two53])]. do 3 eexists. split; [reflexivity|]. vm_compute. reflexivity.
Qed.
(** every error that is a number, even an infinite one, lies inside the y range of an error plot *)
Theorem C97_error_plot_contains f_approx f_true a b samples pts yr : plot_error_on_grid f_approx f_true a b samples = (pts, yr) ->
  length pts = (samples + 1)%nat /\
  forall i, (i <= samples)%nat -> let x := grid_point a b samples i in
    nth i pts (x, x) = (x, f64_sub (f_approx x) (f_true x)) /\ (is_number (f64_sub (f_approx x) (f_true x)) -> inside yr (f64_sub (f_approx x) (f_true x))).
Proof.
  unfold plot_error_on_grid. set (G := fun i => let x := grid_point a b samples i in (x, f64_sub (f_approx x) (f_true x))). set (l := map G (seq 0 (samples + 1))).
  assert (Bd := bounds_fold (map snd l) pinf ninf eq_refl eq_refl). fold (bounds (map snd l)) in Bd. destruct (bounds (map snd l)) as [m M] eqn:EB. intros H.
  injection H as <- <-. destruct Bd as (N1 & N2 & _ & _ & Bd & _).
  split; [unfold l; rewrite map_length, seq_length; auto|]. intros i Hi. set (x := grid_point a b samples i).
  assert (E : nth i l (x, x) = (x, f64_sub (f_approx x) (f_true x))).
  { unfold l. rewrite (nth_indep _ _ (G 0%nat)) by (rewrite map_length, seq_length; lia). rewrite map_nth, seq_nth by lia. reflexivity. }
  split; auto. intros Ny. set (y := f64_sub (f_approx x) (f_true x)) in *.
  assert (I : In y (map snd l)).
  { apply in_map_iff. exists (x, y). split; auto. rewrite <- E. apply nth_In. unfold l. rewrite map_length, seq_length. lia. }
  destruct (Bd y I Ny) as [B1 B2]. assert (LmM : Rbar_le (xval m) (xval M)) by (eapply Rbar_le_trans; eauto). unfold inside. cbn [fst snd]. split; [apply f64_leb; auto|].
  destruct (Beqb m M) eqn:Q; [|apply f64_leb; auto].
  assert (EmM : xval m = xval M).
  { destruct (number_cases m N1) as [Fm|[->| ->]], (number_cases M N2) as [FM|[->| ->]]; try reflexivity; try (destruct m; discriminate); try (destruct M; discriminate); try discriminate.
    rewrite Beqb_correct in Q by auto. rewrite !xval_finite by auto. destruct (Req_bool_spec (B2R m) (B2R M)) as [->|]; [auto|discriminate]. }
  assert (S : is_number (f64_add m f64_1) /\ Rbar_le (xval m) (xval (f64_add m f64_1))).
  { destruct (number_cases m N1) as [Fm|[->| ->]]; [|split; [reflexivity|exact Logic.I]|split; [reflexivity|exact Logic.I]].
    destruct one_val as [F1 V1]. destruct (add_s m f64_1 Fm F1) as [N V]. split; auto. rewrite V, V1, xval_finite by auto. rewrite <- sxrnd_B2R. apply sxrnd_le. lra. }
  destruct S as [S1 S2]. apply f64_leb; auto. eapply Rbar_le_trans; [exact B2|]. rewrite <- EmM. exact S2.
Qed.
(** with no samples the only point is NaN and the range runs from +infinity down to -infinity *)
Theorem C97_no_samples_refuted : exists f g a b, snd (plot_error_on_grid f g a b 0) = (pinf, ninf).
Proof.
  exists (fun x => x), (fun x => x), (zero f64_ops), (one f64_ops). vm_compute. reflexivity.
Qed.
(** three points in two series, one of them not finite *)
Example C97_nontrivial : exists ps xr yr,
  plot_series [([f64_1; B754_nan], [f64_1; f64_1]); ([zero f64_ops; two53], [f64_1; f64_1])] = Drawn ps xr yr /\ length (concat ps) = 3%nat /\
  drawable (coords fst ps) /\ drawable (coords snd ps) /\ is_finite (snd xr) = true /\ Bltb two53 (snd xr) = true /\ Bltb (fst xr) (zero f64_ops) = true.
Proof.
  do 3 eexists. split; [reflexivity|]. split; [reflexivity|]. split; [|split].
  - left. exists f64_1, (zero f64_ops). split; [left; reflexivity|]. split; [right; left; reflexivity|]. rewrite (proj2 one_val). cbn. lra.
  - right. intros x H. assert (E : B2R x = 1).
    { unfold coords in H. apply in_map_iff in H. destruct H as ([a b] & <- & H). change (In (a, b) [(f64_1, f64_1); (zero f64_ops, f64_1); (two53, f64_1)]) in H.
      destruct H as [H|[H|[H|[]]]]; apply (f_equal snd) in H; cbn [snd] in H |- *; rewrite <- H; apply one_val. }
    rewrite E, Rabs_R1. lra.
  - split; [vm_compute; reflexivity|]. split; vm_compute; reflexivity.
Qed.
