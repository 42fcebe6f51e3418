(** C101: units, ranges and scaling in the live viewer. *)
From Coq Require Import NArith ZArith QArith Reals Lra Lia Arith Bool List.
From Coquelicot Require Import Rbar.
From Flocq Require Import Core BinarySingleNaN.
From Verif Require Import Scalar F64 F64Ops TankModel Text CsvModel PlotModel PlotProps ViewerModel.
Import ListNotations.
Local Open Scope nat_scope.
Local Existing Instance F64.prec_gt_0_53.
Local Existing Instance F64.prec_lt_emax_53.
Local Existing Instance F64.fexp_valid.

(** * C101 *)
Lemma rfind_spec c s i : rfind c s = Some i <-> exists a b, s = a ++ c :: b /\ length a = i /\ ~ In c b.
Proof.
  revert i. induction s as [|x s IH]; intros i; cbn [rfind].
  - split; [discriminate|]. intros (a & b & E & _). destruct a; discriminate.
  - destruct (rfind c s) as [j|].
    + destruct (proj1 (IH j) eq_refl) as (a & b & E & L & N). split.
      * intros H. injection H as <-. exists (x :: a), b. rewrite E, <- L. auto.
      * intros (a' & b' & E' & L' & N'). destruct a' as [|y a'].
        -- exfalso. injection E' as -> Es. apply N'. rewrite <- Es, E. apply in_or_app. right. left. reflexivity.
        -- injection E' as -> Es. cbn in L'. assert (Some j = Some (length a')) as Q by (rewrite (IH (length a')); exists a', b'; auto). injection Q as ->. congruence.
    + assert (No : ~ In c s).
      { clear -IH. intros I. assert (X : exists a b, s = a ++ c :: b /\ ~ In c b).
        { clear IH. induction s as [|y s IHs]; [destruct I|]. destruct (in_dec N.eq_dec c s) as [J|J].
          - destruct (IHs J) as (a & b & -> & N). exists (y :: a), b. auto.
          - destruct I as [->|I]; [|contradiction]. exists [], s. auto. }
        destruct X as (a & b & E & N). assert (None = Some (length a)) by (rewrite (IH (length a)); exists a, b; auto). discriminate. }
      destruct (N.eqb_spec x c) as [->|Nx].
      * split; [intros H; injection H as <-; exists [], s; auto|]. intros (a & b & E & L & N). destruct a as [|y a]; [cbn in L; subst; reflexivity|].
        exfalso. injection E as -> Es. apply No. rewrite Es. apply in_or_app. right. left. reflexivity.
      * split; [discriminate|]. intros (a & b & E & L & N). exfalso. destruct a as [|y a]; injection E as E1 Es; [congruence|]. apply No. rewrite Es. apply in_or_app. right. left. reflexivity.
Qed.
(** the unit of a column name is the trimmed text between its last '[' (code 91) and its last ']' (code 93), when there is some *)
Theorem C101_unit name u : extract_unit name = Some u <->
  exists a v b, name = a ++ 91%N :: v ++ 93%N :: b /\ v <> [] /\ ~ In 91%N v /\ ~ In 91%N b /\ ~ In 93%N b /\ u = trim v.
Proof.
  unfold extract_unit. split.
  - destruct (rfind 91 name) as [i|] eqn:Ei; [|discriminate]. destruct (rfind 93 name) as [j|] eqn:Ej; [|discriminate].
    destruct (j <=? i + 1) eqn:L; [discriminate|]. apply Nat.leb_gt in L. intros H. injection H as <-.
    apply rfind_spec in Ei. apply rfind_spec in Ej. destruct Ei as (a & r & E & La & N), Ej as (a' & b & E' & La' & N').
    assert (Er : r = skipn (i + 1) a' ++ 93%N :: b).
    { assert (Q : skipn (i + 1) name = r) by (rewrite E, <- La; replace (length a + 1) with (S (length a)) by lia; clear; induction a; cbn in *; auto).
      rewrite <- Q, E', skipn_app. replace (i + 1 - length a') with 0 by lia. reflexivity. }
    assert (Ev : firstn (j - (i + 1)) (skipn (i + 1) name) = skipn (i + 1) a').
    { rewrite E', skipn_app. replace (i + 1 - length a') with 0 by lia. cbn [skipn]. rewrite firstn_app, skipn_length. replace (j - (i + 1) - (length a' - (i + 1))) with 0 by lia.
      cbn [firstn]. rewrite app_nil_r. apply firstn_all2. rewrite skipn_length. lia. }
    exists a, (skipn (i + 1) a'), b. rewrite Ev. rewrite Er in E, N. split; auto. split.
    + intros Z. apply (f_equal (fun l => length l)) in Z. rewrite skipn_length in Z. cbn in Z. lia.
    + split; [intros I; apply N, in_or_app; auto|]. split; [intros I; apply N, in_or_app; right; right; auto|]. auto.
  - intros (a & v & b & E & Nv & N1 & N2 & N3 & ->).
    assert (R1 : rfind 91 name = Some (length a)).
    { apply rfind_spec. exists a, (v ++ 93%N :: b). split; auto. split; auto. rewrite in_app_iff. intros [I|[I|I]]; auto. discriminate. }
    assert (R2 : rfind 93 name = Some (length a + 1 + length v)).
    { apply rfind_spec. exists (a ++ 91%N :: v), b. split; [rewrite E, <- app_assoc; reflexivity|]. split; auto. rewrite app_length. cbn. lia. }
    rewrite R1, R2. assert (0 < length v) by (destruct v; [congruence|cbn; lia]). replace (length a + 1 + length v <=? length a + 1) with false by (symmetry; apply Nat.leb_gt; lia).
    f_equal. f_equal. rewrite E. replace (length a + 1 + length v - (length a + 1)) with (length v) by lia.
    assert (Q : skipn (length a + 1) (a ++ 91%N :: v ++ 93%N :: b) = v ++ 93%N :: b) by (clear; replace (length a + 1) with (S (length a)) by lia; induction a; cbn in *; auto).
    rewrite Q, firstn_app, Nat.sub_diag, firstn_all. cbn. apply app_nil_r.
Qed.
Lemma common_some e cols : forall u, common_unit_loop (Some e) cols = Some (Some u) -> u <> [] -> u = e /\ forall c, In c cols -> extract_unit c = Some u.
Proof.
  induction cols as [|c cols IH]; cbn [common_unit_loop]; intros u H Hu; [injection H as ->; split; auto; intros c []|].
  destruct (extract_unit c) as [v|] eqn:E.
  - unfold str_eqb in H. destruct (list_eq_dec N.eq_dec e v) as [->|]; [|discriminate]. destruct (IH u H Hu) as [-> K]. split; auto. intros c' [<-|I]; auto.
  - destruct e; cbn in H; [|discriminate]. destruct (IH u H Hu) as [-> _]. congruence.
Qed.
(** a common unit is reported exactly when there is a column and all carry that same non-empty unit *)
Theorem C101_common_unit columns u : common_unit columns = Some u <-> columns <> [] /\ u <> [] /\ forall c, In c columns -> extract_unit c = Some u.
Proof.
  unfold common_unit. split.
  - destruct columns as [|c cols]; [discriminate|]. cbn [common_unit_loop].
    assert (X : forall e, match common_unit_loop (Some e) cols with Some (Some u0) => if is_nil u0 then None else Some u0 | _ => None end = Some u -> u <> [] /\ u = e /\ forall c, In c cols -> extract_unit c = Some u).
    { intros e H. destruct (common_unit_loop (Some e) cols) as [[u0|]|] eqn:E; try discriminate. destruct u0 as [|x u0]; [discriminate|]. cbn in H. injection H as <-. split; [discriminate|]. apply common_some; auto. discriminate. }
    destruct (extract_unit c) as [v|] eqn:E; intros H; apply X in H; destruct H as (Hu & He & K).
    + split; [discriminate|]. split; auto. intros c' [<-|I]; auto. congruence.
    + congruence.
  - intros (Hc & Hu & K). destruct columns as [|c cols]; [congruence|]. cbn [common_unit_loop]. rewrite (K c (or_introl eq_refl)).
    assert (E : common_unit_loop (Some u) cols = Some (Some u)).
    { assert (K' : forall c, In c cols -> extract_unit c = Some u) by (intros; apply K; right; auto). clear -K'. induction cols as [|c cols IH]; cbn; [reflexivity|].
      rewrite (K' c (or_introl eq_refl)). unfold str_eqb. destruct (list_eq_dec N.eq_dec u u); [|congruence]. apply IH. intros; apply K'. right; auto. }
    rewrite E. destruct u; [congruence|reflexivity].
Qed.

Local Open Scope R_scope.
Lemma eps_val : is_finite epsilon = true /\ B2R epsilon = bpow radix2 (-52).
Proof.
  assert (E : B2SF epsilon = SpecFloat.S754_finite false 4503599627370496 (-104)) by (vm_compute; reflexivity).
  destruct epsilon as [s|s| |s m e H]; cbn in E; try discriminate. injection E as -> -> ->. split; [reflexivity|]. cbn [B2R]. unfold F2R. cbn. lra.
Qed.
Lemma zero_val : is_finite (zero f64_ops) = true /\ B2R (zero f64_ops) = 0. Proof. split; reflexivity. Qed.
(** every finite value of the selected columns lies inside the range found for them; the range is 0 to 1 when there is none *)
Theorem C101_range values y : In y values -> is_finite y = true -> inside (min_max values) y.
Proof.
  intros I F. unfold min_max. set (l := filter (fun y => is_finite y) values). assert (Il : In y l) by (apply filter_In; auto).
  assert (Fl : forall x, In x l -> is_finite x = true) by (intros x H; apply filter_In in H; tauto).
  pose proof (bounds_spec l y Fl Il) as B. destruct (bounds l) as [m M]. destruct B as (Im & IM & B). destruct (B y Il) as [B1 B2].
  rewrite (Fl m Im), (Fl M IM). cbn [negb orb]. pose proof (Fl m Im) as Fm. pose proof (Fl M IM) as FM.
  destruct (Bltb (Babs (f64_sub M m)) epsilon) eqn:E; unfold inside; cbn [fst snd].
  - destruct (sub_s M m FM Fm) as [Nd Vd]. destruct one_val as [F1 V1]. destruct (add_s m f64_1 Fm F1) as [Na Va]. split; apply f64_leb; auto using finite_number; [rewrite !xval_finite by auto; exact B1|].
    fold f64_1. rewrite Va, V1, xval_finite by auto. rewrite <- sxrnd_B2R. apply sxrnd_le.
    destruct (Rle_or_lt (B2R M) (B2R m + 1)) as [|Far]; [lra|exfalso].
    assert (Nb : is_number (Babs (f64_sub M m))) by (unfold is_number; rewrite is_nan_Babs; exact Nd).
    destruct eps_val as [Fe Ve]. apply f64_ltb in E; auto using finite_number. rewrite (xval_finite epsilon), Ve in E by auto.
    destruct (number_dec _ Nd) as [Fd|[s Ei]]; [|rewrite Ei in E; destruct s; exact E].
    rewrite xval_finite in E, Vd by (rewrite ?is_finite_Babs; auto). rewrite (B2R_Babs 53 1024) in E.
    assert (G : 1 <= B2R (f64_sub M m)).
    { unfold sxrnd in Vd. destruct (Rlt_bool (Rabs (rnd (B2R M - B2R m))) top); [|destruct (Rlt_bool (B2R M - B2R m) 0); discriminate]. injection Vd as ->.
      unfold rnd. apply round_ge_generic; auto with typeclass_instances; [|lra]. change 1 with (bpow radix2 0). apply generic_format_bpow. unfold SpecFloat.fexp, SpecFloat.emin. lia. }
    cbn in E. rewrite Rabs_pos_eq in E by lra. assert (/ IZR 4503599627370496 < 1) by (cbn in *; lra). cbn in E. lra.
  - split; apply f64_leb; auto using finite_number; rewrite !xval_finite by auto; assumption.
Qed.
Theorem C101_empty_range values : (forall y, In y values -> is_finite y = false) -> min_max values = (zero f64_ops, one f64_ops).
Proof.
  intros H. unfold min_max. assert (E : filter (fun y => is_finite y) values = []).
  { clear -H. induction values as [|y l IH]; cbn; [reflexivity|]. rewrite (H y (or_introl eq_refl)). apply IH. intros; apply H; right; auto. }
  rewrite E. reflexivity.
Qed.

Lemma fin_of (z : f64) r a b : is_number z /\ xval z = sxrnd r -> forall fa fb : f64, is_finite fa = true -> is_finite fb = true -> B2R fa = a -> B2R fb = b -> a <= r <= b ->
  is_finite z = true /\ B2R z = rnd r /\ a <= B2R z <= b.
Proof.
  intros [N V] fa fb Fa Fb <- <- [H1 H2]. pose proof (rnd_le _ _ H1) as L1. pose proof (rnd_le _ _ H2) as L2. rewrite !rnd_B2R in L1, L2.
  assert (E : sxrnd r = Finite (rnd r)).
  { unfold sxrnd. rewrite Rlt_bool_true; auto. pose proof (abs_B2R_lt_emax 53 1024 fa) as T1. pose proof (abs_B2R_lt_emax 53 1024 fb) as T2. fold top in T1, T2.
    apply Rabs_def2 in T1. apply Rabs_def2 in T2. apply Rabs_def1; lra. }
  rewrite E in V. destruct (number_dec z N) as [F|[s ->]]; [|destruct s; discriminate]. rewrite xval_finite in V by auto. injection V as V. split; auto. split; auto. lra.
Qed.
Section Scale.
Context (src_min src_max dst_min dst_max : f64).
Let W := f64_sub src_max src_min.
Let D := f64_sub dst_max dst_min.
Context (F1 : is_finite src_min = true) (F2 : is_finite src_max = true) (F3 : is_finite dst_min = true) (F4 : is_finite dst_max = true)
  (FW : is_finite W = true) (FD : is_finite D = true) (Ls : B2R src_min <= B2R src_max) (Ld : B2R dst_min <= B2R dst_max).
Lemma diff_val a b : is_finite a = true -> is_finite b = true -> is_finite (f64_sub a b) = true -> B2R b <= B2R a -> B2R (f64_sub a b) = rnd (B2R a - B2R b) /\ 0 <= B2R (f64_sub a b).
Proof.
  intros Fa Fb Fs L. destruct (sub_s a b Fa Fb) as [N V]. rewrite xval_finite in V by auto. unfold sxrnd in V.
  destruct (Rlt_bool (Rabs (rnd (B2R a - B2R b))) top); [|destruct (Rlt_bool _ 0); discriminate]. injection V as V. rewrite V. split; auto. apply rnd_pos. lra.
Qed.
Lemma wide : Bltb (Babs W) epsilon = false -> 0 < B2R W.
Proof.
  intros E. destruct (diff_val _ _ F2 F1 FW Ls) as [_ P]. fold W in P. destruct (Rle_lt_or_eq_dec _ _ P) as [|Z]; auto. exfalso. assert (T : Bltb (Babs W) epsilon = true); [|congruence]. destruct eps_val as [Fe Ve].
  apply f64_ltb; [unfold is_number; rewrite is_nan_Babs; apply finite_number, FW|apply finite_number, Fe|]. rewrite !xval_finite by (rewrite ?is_finite_Babs; auto).
  rewrite (B2R_Babs 53 1024), <- Z, Rabs_R0, Ve. apply bpow_gt_0.
Qed.
(** the fraction used for a value inside the source range *)
Definition frac (v : f64) : f64 := f64_div (f64_sub v src_min) W.
Lemma frac_val v : Bltb (Babs W) epsilon = false -> is_finite v = true -> B2R src_min <= B2R v <= B2R src_max ->
  is_finite (frac v) = true /\ B2R (frac v) = rnd (rnd (B2R v - B2R src_min) / B2R W) /\ 0 <= B2R (frac v) <= 1.
Proof.
  intros E Fv Hv. destruct (diff_val _ _ F2 F1 FW Ls) as [VW _]. fold W in VW. pose proof (wide E) as P. destruct (sub_s v src_min Fv F1) as [Nd Vd].
  assert (Bd : 0 <= rnd (B2R v - B2R src_min) <= B2R W) by (split; [apply rnd_pos; lra|rewrite VW; apply rnd_le; lra]).
  assert (Fd : is_finite (f64_sub v src_min) = true /\ B2R (f64_sub v src_min) = rnd (B2R v - B2R src_min)).
  { unfold sxrnd in Vd. rewrite Rlt_bool_true in Vd by (rewrite Rabs_pos_eq by lra; pose proof (B2R_top W); lra).
    destruct (number_dec _ Nd) as [F|[s Es]]; [|rewrite Es in Vd; destruct s; discriminate]. rewrite xval_finite in Vd by auto. injection Vd as Vd. auto. }
  destruct Fd as [Fd Ed]. destruct (div_pos _ W Fd (conj FW P)) as [Nq Vq]. fold (frac v) in Nq, Vq. rewrite Ed in Vq.
  destruct (fin_of (frac v) (rnd (B2R v - B2R src_min) / B2R W) 0 1 (conj Nq Vq) (zero f64_ops) f64_1) as (A & B & C); auto; try apply zero_val; try apply one_val.
  split; [apply Rmult_le_pos; [lra|left; apply Rinv_0_lt_compat, P]|]. apply (Rmult_le_reg_r (B2R W)); [exact P|]. unfold Rdiv. rewrite Rmult_assoc, Rinv_l by lra. lra.
Qed.
Lemma map_val v : Bltb (Babs W) epsilon = false -> is_finite v = true -> B2R src_min <= B2R v <= B2R src_max ->
  is_number (map_range v src_min src_max dst_min dst_max) /\ xval (map_range v src_min src_max dst_min dst_max) = sxrnd (B2R dst_min + rnd (B2R (frac v) * B2R D)).
Proof.
  intros E Fv Hv. destruct (frac_val v E Fv Hv) as (Ff & _ & Bf). unfold map_range. fold W. rewrite E. cbn zeta. fold (frac v). fold D.
  destruct (diff_val _ _ F4 F3 FD Ld) as [_ PD]. fold D in PD.
  destruct (fin_of (f64_mul (frac v) D) (B2R (frac v) * B2R D) 0 (B2R D) (mul_s _ _ Ff FD) (zero f64_ops) D) as (A & B & C); auto; try apply zero_val.
  { split; [apply Rmult_le_pos; lra|]. rewrite <- (Rmult_1_l (B2R D)) at 2. apply Rmult_le_compat_r; lra. }
  rewrite <- B. apply add_s; auto.
Qed.
Lemma low_high v : Bltb (Babs W) epsilon = false -> is_finite v = true -> B2R src_min <= B2R v <= B2R src_max -> 0 <= rnd (B2R (frac v) * B2R D) <= B2R D.
Proof.
  intros E Fv Hv. destruct (frac_val v E Fv Hv) as (Ff & _ & Bf). destruct (diff_val _ _ F4 F3 FD Ld) as [_ PD]. fold D in PD. split; [apply rnd_pos, Rmult_le_pos; lra|].
  rewrite <- (rnd_B2R D) at 2. apply rnd_le. rewrite <- (Rmult_1_l (B2R D)) at 2. apply Rmult_le_compat_r; lra.
Qed.
Lemma low : Rbar_le (xval dst_min) (xval (f64_add dst_min D)).
Proof.
  destruct (diff_val _ _ F4 F3 FD Ld) as [_ PD]. fold D in PD. destruct (add_s _ _ F3 FD) as [_ ->]. rewrite xval_finite by auto. rewrite <- sxrnd_B2R. apply sxrnd_le. lra.
Qed.
(** inside the source range the scaling is monotone and stays between the ends of the target range *)
Theorem C101_map_monotone v1 v2 : is_finite v1 = true -> is_finite v2 = true -> B2R src_min <= B2R v1 -> B2R v1 <= B2R v2 -> B2R v2 <= B2R src_max ->
  Bleb dst_min (map_range v1 src_min src_max dst_min dst_max) = true /\
  Bleb (map_range v1 src_min src_max dst_min dst_max) (map_range v2 src_min src_max dst_min dst_max) = true /\
  Bleb (map_range v2 src_min src_max dst_min dst_max) (f64_add dst_min (f64_sub dst_max dst_min)) = true.
Proof.
  intros Fv1 Fv2 A B C. fold D. destruct (add_s dst_min D F3 FD) as [Ne Ve]. destruct (Bltb (Babs W) epsilon) eqn:E.
  - assert (X : forall v, map_range v src_min src_max dst_min dst_max = dst_min) by (intros v; unfold map_range; fold W; rewrite E; reflexivity). rewrite !X.
    assert (R : Bleb dst_min dst_min = true) by (apply f64_leb; auto using finite_number; apply Rbar_le_refl). split; auto. split; auto. apply f64_leb; auto using finite_number. apply low.
  - assert (H1 : B2R src_min <= B2R v1 <= B2R src_max) by lra. assert (H2 : B2R src_min <= B2R v2 <= B2R src_max) by lra.
    destruct (map_val v1 E Fv1 H1) as [N1 V1]. destruct (map_val v2 E Fv2 H2) as [N2 V2]. pose proof (low_high v1 E Fv1 H1). pose proof (low_high v2 E Fv2 H2).
    destruct (diff_val _ _ F4 F3 FD Ld) as [_ PD]. fold D in PD. pose proof (wide E) as PW.
    split; [apply f64_leb; auto using finite_number; rewrite V1, xval_finite by auto; rewrite <- sxrnd_B2R; apply sxrnd_le; lra|]. split; apply f64_leb; auto.
    + rewrite V1, V2. apply sxrnd_le. apply Rplus_le_compat_l, rnd_le, Rmult_le_compat_r; auto. destruct (frac_val v1 E Fv1 H1) as (_ & -> & _). destruct (frac_val v2 E Fv2 H2) as (_ & -> & _).
      apply rnd_le. apply Rmult_le_compat_r; [left; apply Rinv_0_lt_compat, PW|]. apply rnd_le. lra.
    + rewrite V2, Ve. apply sxrnd_le. lra.
Qed.
(** the ends of a source range that is not too narrow go to the two ends of the target range, up to rounding *)
Theorem C101_map_ends : Bltb (Babs (f64_sub src_max src_min)) epsilon = false ->
  xval (map_range src_min src_min src_max dst_min dst_max) = xval dst_min /\
  xval (map_range src_max src_min src_max dst_min dst_max) = xval (f64_add dst_min (f64_sub dst_max dst_min)) /\
  (is_finite (f64_add dst_min (f64_sub dst_max dst_min)) = true ->
   Rabs (B2R (map_range src_max src_min src_max dst_min dst_max) - B2R dst_max) <= 4 * u64 * (Rabs (B2R dst_min) + Rabs (B2R dst_max))).
Proof.
  fold W D. intros E. pose proof (wide E) as PW. destruct (map_val src_min E F1) as [N1 V1]; [lra|]. destruct (map_val src_max E F2) as [N2 V2]; [lra|].
  destruct (frac_val src_min E F1) as (_ & Q1 & _); [lra|]. destruct (frac_val src_max E F2) as (_ & Q2 & _); [lra|].
  destruct (diff_val _ _ F2 F1 FW Ls) as [VW _]. fold W in VW. destruct (diff_val _ _ F4 F3 FD Ld) as [VD PD]. fold D in VD, PD.
  rewrite Rminus_eq_0, rnd_0 in Q1. unfold Rdiv in Q1. rewrite Rmult_0_l, rnd_0 in Q1.
  rewrite <- VW in Q2. unfold Rdiv in Q2. rewrite Rinv_r in Q2 by lra. assert (R1 : rnd 1 = 1) by (destruct one_val as [_ <-]; apply rnd_B2R). rewrite R1 in Q2.
  rewrite V1, V2, Q1, Q2, Rmult_0_l, rnd_0, Rplus_0_r, sxrnd_B2R, Rmult_1_l, rnd_B2R. destruct (add_s _ _ F3 FD) as [Ne Ve]. split; [rewrite xval_finite by auto; reflexivity|]. split; [auto|].
  intros Fs. assert (V : B2R (map_range src_max src_min src_max dst_min dst_max) = rnd (B2R dst_min + B2R D)).
  { rewrite Q2, Rmult_1_l, rnd_B2R in V2. rewrite (xval_finite (f64_add dst_min D)) in Ve by auto. rewrite <- Ve in V2.
    destruct (number_dec _ N2) as [F|[s Es]]; [|rewrite Es in V2; destruct s; discriminate]. rewrite xval_finite, Ve in V2 by auto.
    unfold sxrnd in V2. destruct (Rlt_bool (Rabs (rnd (B2R dst_min + B2R D))) top); [|destruct (Rlt_bool _ 0); discriminate]. congruence. }
  rewrite V. destruct (rnd_sum dst_min D) as (e2 & He2 & ->). destruct (rnd_diff dst_max dst_min) as (e1 & He1 & X). rewrite VD, X.
  set (a := B2R dst_min). set (b := B2R dst_max). pose proof u_small as U.
  replace ((a + (b - a) * (1 + e1)) * (1 + e2) - b) with ((b - a) * e1 * (1 + e2) + b * e2) by ring.
  assert (T1 : Rabs (b - a) <= Rabs a + Rabs b) by (unfold Rminus; eapply Rle_trans; [apply Rabs_triang|rewrite Rabs_Ropp; lra]).
  assert (T2 : Rabs (1 + e2) <= 2) by (apply Rabs_le; apply Rabs_le_inv in He2; lra).
  eapply Rle_trans; [apply Rabs_triang|]. rewrite !Rabs_mult. pose proof (Rabs_pos a). pose proof (Rabs_pos b). pose proof (Rabs_pos e1). pose proof (Rabs_pos e2). pose proof (Rabs_pos (b - a)).
  assert (X1 : Rabs (b - a) * Rabs e1 <= (Rabs a + Rabs b) * u64) by (apply Rmult_le_compat; auto).
  assert (X2 : Rabs (b - a) * Rabs e1 * Rabs (1 + e2) <= (Rabs a + Rabs b) * u64 * 2) by (apply Rmult_le_compat; auto using Rabs_pos; apply Rmult_le_pos; auto).
  assert (X3 : Rabs b * Rabs e2 <= Rabs b * u64) by (apply Rmult_le_compat_l; auto).
  assert (X4 : 0 <= Rabs a * u64) by (apply Rmult_le_pos; lra). assert (X5 : 0 <= Rabs b * u64) by (apply Rmult_le_pos; lra). nra.
Qed.
End Scale.
(** differences below the machine epsilon, however small the values themselves, are drawn flat *)
Definition tiny_value : f64 := lit f64_ops (1 # Z.to_pos (2 ^ 60)).
Theorem C101_flat_refuted : exists v1 v2 lo hi : f64, Bltb v1 v2 = true /\ Bltb lo hi = true /\
  map_range v1 v1 v2 lo hi = map_range v2 v1 v2 lo hi.
Proof.
  exists (zero f64_ops), tiny_value, (zero f64_ops), (one f64_ops). split; [vm_compute; reflexivity|]. split; [vm_compute; reflexivity|].
  assert (E : Bltb (Babs (f64_sub tiny_value (zero f64_ops))) epsilon = true) by (vm_compute; reflexivity). unfold map_range. rewrite E. reflexivity.
Qed.
(** the upper end of the source range does not always reach the upper end of the target range *)
Theorem C101_end_refuted : exists lo hi : f64, Bltb lo hi = true /\ Bltb (map_range (one f64_ops) (zero f64_ops) (one f64_ops) lo hi) hi = true.
Proof. exists (Bopp (one f64_ops)), tiny_value. split; vm_compute; reflexivity. Qed.

Lemma tenth_val : is_finite (lit f64_ops (1 # 10)) = true /\ 1 / 10 <= B2R (lit f64_ops (1 # 10)).
Proof.
  assert (E : B2SF (lit f64_ops (1 # 10)) = SpecFloat.S754_finite false 7205759403792794 (-56)) by (vm_compute; reflexivity).
  destruct (lit f64_ops (1 # 10)) as [s|s| |s m e H]; cbn in E; try discriminate. injection E as -> -> ->. split; [reflexivity|]. cbn [B2R]. unfold F2R. cbn. lra.
Qed.
Lemma ten_val : is_finite (lit f64_ops (10 # 1)) = true /\ B2R (lit f64_ops (10 # 1)) = 10.
Proof.
  assert (E : B2SF (lit f64_ops (10 # 1)) = SpecFloat.S754_finite false 5629499534213120 (-49)) by (vm_compute; reflexivity).
  destruct (lit f64_ops (10 # 1)) as [s|s| |s m e H]; cbn in E; try discriminate. injection E as -> -> ->. split; [reflexivity|]. cbn [B2R]. unfold F2R. cbn. lra.
Qed.
(** whatever rate is asked for (including NaN, infinities and negative rates) the polling period is a number of seconds between 0 and 10, and building the duration does not panic *)
Theorem C101_period hz : duration_panics (poll_period hz) = false /\ is_finite (poll_period hz) = true /\ 0 <= B2R (poll_period hz) <= 10.
Proof.
  assert (X : is_finite (poll_period hz) = true /\ 0 <= B2R (poll_period hz) <= 10).
  { unfold poll_period. set (m := max64 hz (lit f64_ops (1 # 10))). destruct tenth_val as [Ft Vt]. destruct one_val as [Fo Vo]. fold f64_1.
    assert (M : is_number m /\ Rbar_le (Finite (1 / 10)) (xval m)).
    { unfold m. destruct (is_nan hz) eqn:Nh.
      - assert (Em : max64 hz (lit f64_ops (1 # 10)) = lit f64_ops (1 # 10)) by (destruct hz; try discriminate; reflexivity). rewrite Em. split; [apply finite_number, Ft|rewrite xval_finite by auto; exact Vt].
      - destruct (max_spec hz (lit f64_ops (1 # 10)) Nh (finite_number _ Ft)) as (N & _ & G & _). split; auto. eapply Rbar_le_trans; [|exact G]. rewrite xval_finite by auto. exact Vt. }
    destruct M as [Nm Gm]. destruct (number_dec m Nm) as [Fm|[s Es]].
    - rewrite xval_finite in Gm by auto. cbn in Gm. assert (P : fpos m) by (split; [auto|lra]). destruct (div_pos f64_1 m Fo P) as [Nd Vd]. rewrite Vo in Vd.
      destruct ten_val as [F10 V10].
      destruct (fin_of (f64_div f64_1 m) (1 / B2R m) 0 10 (conj Nd Vd) (zero f64_ops) (lit f64_ops (10 # 1))) as (A & B & C); auto; try apply zero_val.
      split; [apply Rmult_le_pos; [lra|left; apply Rinv_0_lt_compat; lra]|]. apply (Rmult_le_reg_r (B2R m)); [lra|]. unfold Rdiv. rewrite Rmult_assoc, Rinv_l by lra. lra.
    - rewrite Es in *. destruct s; [destruct Gm|]. replace (f64_div f64_1 (B754_infinity false)) with (zero f64_ops) by (apply B2SF_inj; vm_compute; reflexivity). destruct zero_val as [Fz ->]. split; [exact Fz|lra]. }
  destruct X as [F B]. split; [|auto]. unfold duration_panics. pose proof (finite_number _ F) as N. rewrite N. cbn [orb].
  assert (T : exists m, B2SF (lit f64_ops ((2 ^ 64)%Z # 1)) = SpecFloat.S754_finite false m 12 /\ m = 4503599627370496%positive) by (eexists; split; [vm_compute; reflexivity|reflexivity]).
  assert (L : is_finite (lit f64_ops ((2 ^ 64)%Z # 1)) = true /\ B2R (lit f64_ops ((2 ^ 64)%Z # 1)) = IZR 18446744073709551616).
  { destruct T as (m0 & E & ->). destruct (lit f64_ops ((2 ^ 64)%Z # 1)) as [s|s| |s m e H]; cbn in E; try discriminate. injection E as -> -> ->. split; [reflexivity|]. cbn [B2R]. unfold F2R. cbn. lra. }
  destruct L as [Fl Vl]. replace (Bltb (poll_period hz) (zero f64_ops)) with false.
  - replace (Bltb (poll_period hz) (lit f64_ops ((2 ^ 64)%Z # 1))) with true; [reflexivity|]. symmetry. apply f64_ltb; auto using finite_number. rewrite !xval_finite by auto. rewrite Vl. unfold Rbar_lt. lra.
  - symmetry. apply not_true_is_false. intros H. destruct zero_val as [Fz Vz]. apply (f64_ltb _ _ N (finite_number _ Fz)) in H. rewrite (xval_finite _ F), (xval_finite _ Fz), Vz in H. unfold Rbar_lt in H. lra.
Qed.
Local Open Scope N_scope.
(** "v [m/s]" has the unit "m/s"; two columns sharing it have a common unit; a column without one has none *)
Example C101_nontrivial : extract_unit [118; 32; 91; 109; 47; 115; 93] = Some [109; 47; 115] /\
  common_unit [[118; 91; 109; 93]; [119; 91; 32; 109; 93]] = Some [109] /\ common_unit [[118; 91; 109; 93]; [119]] = None /\
  inside (min_max [one f64_ops; B754_nan; zero f64_ops]) (one f64_ops) /\
  Bltb (Babs (f64_sub (one f64_ops) (zero f64_ops))) epsilon = false.
Proof.
  split; [reflexivity|]. split; [reflexivity|]. split; [reflexivity|]. split; [|vm_compute; reflexivity].
  apply C101_range; [left; reflexivity|vm_compute; reflexivity].
Qed.
