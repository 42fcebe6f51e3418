(** The tool that tabulates the magnetic field on a grid: C125. *)
From Coq Require Import Ascii String NArith ZArith QArith Qreals Reals Lra Psatz List Bool Arith Lia.
From Coquelicot Require Import Rcomplements.
From Flocq Require Import Core BinarySingleNaN.
Import ListNotations.
From Verif Require Import Scalar F64 Text CsvProofs PrintModel PrintProps GridModel Trig Geo3 Wgs84Model WmmModel WmmData WmmSpec WmmProofs WmmProps WmmFieldProps WmmGradProps.
Local Open Scope R_scope.
Local Notation length := List.length.

(** exact arithmetic; f64::round rounds halves away from zero *)
Definition Rround (x : R) : R := IZR (ZnearestA x).
Definition gridR := grid_values Rops Rround.

Lemma lit_million : lit Rops 1000000 = 1000000.
Proof. cbn. unfold Q2R; cbn. lra. Qed.
Lemma eps_val : grid_eps Rops = / 1000000000.
Proof. unfold grid_eps; cbn. unfold Q2R; cbn. lra. Qed.
Lemma six_err x : Rabs (six_places Rops Rround x - x) <= / 2000000.
Proof.
  unfold six_places. rewrite lit_million. cbn [div mul Rops]. unfold Rround.
  pose proof (Znearest_half (Zle_bool 0) (x * 1000000)) as H. apply Rabs_le_between in H. apply Rabs_le. lra.
Qed.
Lemma six_exact z : six_places Rops Rround (IZR z / 1000000) = IZR z / 1000000.
Proof.
  unfold six_places. rewrite lit_million. cbn [div mul Rops]. unfold Rround.
  replace (IZR z / 1000000 * 1000000) with (IZR z) by lra.
  rewrite (Zrnd_IZR ZnearestA). reflexivity.
Qed.

Section Loop.
Context (mn mx st : R).
Lemma loop_run n : (forall j, (j < n)%nat -> mn + INR j * st <= mx + / 1000000000) -> mx + / 1000000000 < mn + INR n * st ->
  forall d k fuel acc, n = (k + d)%nat -> (d <= fuel)%nat ->
  while_ fuel (fun s : R * list R => leb Rops (fst s) (add Rops mx (grid_eps Rops)))
    (fun s => Some (add Rops (fst s) st, snd s ++ [six_places Rops Rround (fst s)])) (mn + INR k * st, acc)
  = Some (mn + INR n * st, acc ++ map (fun j => six_places Rops Rround (mn + INR j * st)) (seq k d)).
Proof.
  intros Hle Hgt. rewrite eps_val. cbn [leb add Rops]. induction d as [|d IH]; intros k fuel acc E Hf.
  - assert (k = n) by lia. subst k. destruct fuel; cbn [while_ fst snd].
    + destruct (Rleb _ _) eqn:L; [apply Rleb_true in L; lra|]. cbn [seq map]. rewrite app_nil_r. reflexivity.
    + destruct (Rleb _ _) eqn:L; [apply Rleb_true in L; lra|]. cbn [seq map]. rewrite app_nil_r. reflexivity.
  - destruct fuel as [|fuel]; [lia|]. cbn [while_ fst snd].
    rewrite (proj2 (Rleb_true _ _) (Hle k ltac:(lia))).
    replace (mn + INR k * st + st) with (mn + INR (S k) * st) by (rewrite S_INR; ring).
    rewrite (IH (S k) fuel) by lia. cbn [seq map]. rewrite <- app_assoc. reflexivity.
Qed.

Lemma count_exists : mn <= mx -> 0 < st -> exists n, (0 < n)%nat /\
  (forall j, (j < n)%nat -> mn + INR j * st <= mx + / 1000000000) /\ mx + / 1000000000 < mn + INR n * st.
Proof.
  intros Hm Hs. set (q := (mx + / 1000000000 - mn) / st).
  assert (Hq : 0 <= q) by (unfold q; apply Rmult_le_pos; [lra|apply Rlt_le, Rinv_0_lt_compat; auto]).
  assert (Eq : mx + / 1000000000 = mn + q * st) by (unfold q; field; lra).
  pose proof (Zfloor_lb q) as L. pose proof (Zfloor_ub q) as U.
  assert (Z0 : (0 <= Zfloor q)%Z) by (apply Zfloor_lub; exact Hq).
  exists (S (Z.to_nat (Zfloor q))). split; [lia|]. split.
  - intros j Hj. rewrite Eq. apply Rplus_le_compat_l, Rmult_le_compat_r; [lra|].
    apply Rle_trans with (IZR (Zfloor q)); auto. rewrite INR_IZR_INZ. apply IZR_le. lia.
  - rewrite Eq. apply Rplus_lt_compat_l, Rmult_lt_compat_r; auto. rewrite S_INR, INR_IZR_INZ, Z2Nat.id by auto. lra.
Qed.
End Loop.

Lemma close_snoc {F} (O : ops F) mx l x : close_grid O mx (l ++ [x]) =
  if ltb O (grid_eps O) (absf O (sub O x mx)) then l ++ [x] ++ [mx] else l ++ [mx].
Proof. unfold close_grid. rewrite rev_app_distr. cbn [rev app]. rewrite rev_involutive. destruct (ltb _ _ _); auto. rewrite <- app_assoc. reflexivity. Qed.

Lemma map_seq_snoc {A} (f : nat -> A) n : map f (seq 0 (S n)) = map f (seq 0 n) ++ [f n].
Proof. rewrite seq_S, map_app. reflexivity. Qed.

Lemma gridR_form mn mx st : mn <= mx -> 0 < st -> exists n, 
  (forall j, (j <= n)%nat -> mn + INR j * st <= mx + / 1000000000) /\ mx + / 1000000000 < mn + INR (S n) * st /\
  forall fuel, (S n <= fuel)%nat -> gridR fuel mn mx st =
    Some (map (fun j => six_places Rops Rround (mn + INR j * st)) (seq 0 n) ++
      if Rltb (/ 1000000000) (Rabs (six_places Rops Rround (mn + INR n * st) - mx)) then [six_places Rops Rround (mn + INR n * st); mx] else [mx]).
Proof.
  intros Hm Hs. destruct (count_exists mn mx st Hm Hs) as (n & Hn & H1 & H2). destruct n as [|n]; [lia|].
  exists n. split; [intros; apply H1; lia|]. split; auto. intros fuel Hf. unfold gridR, grid_values, grid_loop.
  replace (mn, @nil R) with (mn + INR 0 * st, @nil R) by (cbn [INR]; f_equal; ring).
  rewrite (loop_run mn mx st (S n) H1 H2 (S n) 0 fuel []) by lia. cbn [app]. rewrite map_seq_snoc, close_snoc.
  rewrite eps_val. cbn [ltb absf sub Rops]. destruct (Rltb _ _); reflexivity.
Qed.

(** ** The grid *)
(** For every positive step the loop ends.  The last value is the upper end; every other value is
    within half a millionth of the lower end plus a whole number of steps, in order and without gaps;
    the values reach to within one step of the upper end.  So every place of the range is within half
    a step (and a millionth) of a value of the grid. *)
Theorem C125_grid mn mx st : mn <= mx -> 0 < st -> exists l enough,
  (forall fuel, (enough <= fuel)%nat -> gridR fuel mn mx st = Some l) /\
  (exists init, l = init ++ [mx]) /\
  (forall i, (i + 1 < length l)%nat -> Rabs (nth i l 0 - (mn + INR i * st)) <= / 2000000) /\
  mn + (INR (length l) - 2) * st <= mx + / 1000000000 /\ mx - / 1000000 <= mn + (INR (length l) - 1) * st /\
  (forall y, mn <= y <= mx -> exists x, In x l /\ Rabs (x - y) <= st / 2 + / 1000000).
Proof.
  intros Hm Hs. destruct (gridR_form mn mx st Hm Hs) as (n & H1 & H2 & H3).
  set (v := fun j => six_places Rops Rround (mn + INR j * st)) in *.
  set (l := map v (seq 0 n) ++ (if Rltb (/ 1000000000) (Rabs (v n - mx)) then [v n; mx] else [mx])).
  exists l, (S n).
  assert (Hnth : forall i, (i + 1 < length l)%nat -> nth i l 0 = v i).
  { intros i. unfold l. rewrite app_length, map_length, seq_length.
    destruct (Rltb _ _); cbn [length]; intros Hi.
    - destruct (Nat.eq_dec i n) as [->|Ne].
      + rewrite app_nth2 by (rewrite map_length, seq_length; lia). rewrite map_length, seq_length, Nat.sub_diag. reflexivity.
      + rewrite app_nth1 by (rewrite map_length, seq_length; lia).
        rewrite (nth_indep _ 0 (v 0%nat)) by (rewrite map_length, seq_length; lia). rewrite map_nth, seq_nth by lia. reflexivity.
    - rewrite app_nth1 by (rewrite map_length, seq_length; lia).
      rewrite (nth_indep _ 0 (v 0%nat)) by (rewrite map_length, seq_length; lia). rewrite map_nth, seq_nth by lia. reflexivity. }
  assert (Herr : forall i, (i + 1 < length l)%nat -> Rabs (nth i l 0 - (mn + INR i * st)) <= / 2000000).
  { intros i Hi. rewrite Hnth by auto. apply six_err. }
  assert (HA : mn + (INR (length l) - 2) * st <= mx + / 1000000000).
  { unfold l. rewrite app_length, map_length, seq_length. destruct (Rltb _ _); cbn [length]; rewrite plus_INR; cbn [INR].
    - replace (INR n + (1 + 1) - 2) with (INR n) by ring. apply H1. lia.
    - destruct n as [|n].
      + cbn [INR]. replace (0 + 1 - 2) with (-1) by ring. lra.
      + rewrite S_INR. replace (INR n + 1 + 1 - 2) with (INR n) by ring. apply H1. lia. }
  assert (HB : mx - / 1000000 <= mn + (INR (length l) - 1) * st).
  { unfold l. rewrite app_length, map_length, seq_length. destruct (Rltb _ _) eqn:E; cbn [length]; rewrite plus_INR; cbn [INR].
    - rewrite S_INR in H2. replace (INR n + (1 + 1) - 1) with (INR n + 1) by ring. lra.
    - replace (INR n + 1 - 1) with (INR n) by ring.
      assert (Rabs (v n - mx) <= / 1000000000).
      { apply Rnot_lt_le. intros Q. unfold Rltb in E. destruct (Rlt_dec _ _); [discriminate|auto]. }
      pose proof (six_err (mn + INR n * st)) as S6. fold (v n) in S6. apply Rabs_le_between in H. apply Rabs_le_between in S6. lra. }
  assert (HL : exists init, l = init ++ [mx]).
  { unfold l. destruct (Rltb _ _); [exists (map v (seq 0 n) ++ [v n]); rewrite <- app_assoc; reflexivity|exists (map v (seq 0 n)); reflexivity]. }
  split; [exact H3|]. split; [exact HL|]. split; [exact Herr|]. split; [exact HA|]. split; [exact HB|].
  intros y Hy. set (q := (y - mn) / st).
  assert (Hq : 0 <= q) by (unfold q; apply Rmult_le_pos; [lra|apply Rlt_le, Rinv_0_lt_compat; auto]).
  assert (Ey : y = mn + q * st) by (unfold q; field; lra).
  pose proof (Znearest_half (Zle_bool 0) q) as Zh. set (z := ZnearestA q) in *.
  assert (Hz : (0 <= z)%Z).
  { apply le_IZR. destruct (Rle_or_lt 0 (IZR z)) as [|Q]; auto. exfalso.
    assert (z <= -1)%Z by (apply lt_IZR in Q; lia). apply IZR_le in H. apply Rabs_le_between in Zh. lra. }
  set (j := Z.to_nat z). assert (Ej : INR j = IZR z) by (unfold j; rewrite INR_IZR_INZ, Z2Nat.id; auto).
  rewrite <- Ej in Zh. apply Rabs_le_between in Zh.
  assert (Bs : - (st / 2) <= mn + INR j * st - y <= st / 2) by (rewrite Ey; split; nra).
  destruct (Nat.lt_ge_cases (j + 1) (length l)) as [C|C].
  - exists (nth j l 0). split; [apply nth_In; lia|]. specialize (Herr j C). apply Rabs_le_between in Herr. apply Rabs_le. lra.
  - exists mx. split; [destruct HL as (init & ->); apply in_or_app; right; left; auto|].
    assert (INR (length l) - 1 <= INR j) by (apply le_INR in C; rewrite plus_INR in C; cbn [INR] in C; lra).
    assert ((INR (length l) - 1) * st <= INR j * st) by (apply Rmult_le_compat_r; lra).
    apply Rabs_le. lra.
Qed.

(** When the range is a whole number of steps and both are multiples of a millionth, the grid is
    exactly the evenly spaced one, with both ends. *)
Theorem C125_even a s (n : nat) : (0 < s)%Z ->
  let mn := IZR a / 1000000 in let st := IZR s / 1000000 in
  exists enough, forall fuel, (enough <= fuel)%nat ->
    gridR fuel mn (mn + INR n * st) st = Some (map (fun k => mn + INR k * st) (seq 0 (S n))).
Proof.
  intros Hs mn st. apply IZR_lt in Hs as Hs'. assert (1 <= IZR s) by (apply IZR_le; lia).
  assert (St : / 1000000 <= st) by (unfold st; lra).
  assert (Hn0 : 0 <= INR n) by apply pos_INR.
  destruct (gridR_form mn (mn + INR n * st) st) as (k & H1 & H2 & H3); [nra|lra|].
  assert (k = n).
  { assert (A : INR k * st <= INR n * st + / 1000000000) by (specialize (H1 k (le_n k)); lra).
    assert (B : INR n * st + / 1000000000 < INR (S k) * st) by lra.
    destruct (Nat.lt_trichotomy k n) as [C|[C|C]]; auto; exfalso.
    - apply le_INR in C. assert (INR (S k) * st <= INR n * st) by (apply Rmult_le_compat_r; lra). lra.
    - apply le_INR in C. rewrite S_INR in C. assert ((INR n + 1) * st <= INR k * st) by (apply Rmult_le_compat_r; lra). lra. }
  subst k.
  assert (Ex : forall j, six_places Rops Rround (mn + INR j * st) = mn + INR j * st).
  { intros j. unfold mn, st. rewrite INR_IZR_INZ.
    replace (IZR a / 1000000 + IZR (Z.of_nat j) * (IZR s / 1000000)) with (IZR (a + Z.of_nat j * s) / 1000000) by (rewrite plus_IZR, mult_IZR; field).
    apply six_exact. }
  exists (S n). intros fuel Hf. rewrite (H3 fuel Hf), Ex.
  replace (mn + INR n * st - (mn + INR n * st)) with 0 by ring. rewrite Rabs_R0.
  unfold Rltb. destruct (Rlt_dec _ _); [lra|]. rewrite map_seq_snoc. do 2 f_equal.
  apply map_ext. auto.
Qed.

(** In every arithmetic, NaN and rounding included: if the loop ends and its test held at the start,
    the last value is the upper end of the range, unchanged. *)
Theorem C125_last {F} (O : ops F) round fuel mn mx st l :
  grid_values O round fuel mn mx st = Some l -> leb O mn (add O mx (grid_eps O)) = true -> exists init, l = init ++ [mx].
Proof.
  unfold grid_values, grid_loop. intros H L.
  set (c := fun s : F * list F => leb O (fst s) (add O mx (grid_eps O))) in *.
  set (b := fun s : F * list F => Some (add O (fst s) st, snd s ++ [six_places O round (fst s)])) in *.
  assert (G : forall fuel s s', snd s <> [] -> while_ fuel c b s = Some s' -> snd s' <> []).
  { clear. induction fuel; intros s s' Hs; cbn [while_]; destruct (c s) eqn:E; try discriminate; try (intros H; injection H as <-; auto).
    unfold b at 1. intros H. apply IHfuel in H; auto. cbn. destruct (snd s); discriminate. }
  destruct (while_ fuel c b (mn, [])) as [[v vs]|] eqn:W; [|discriminate]. injection H as <-.
  assert (Hv : vs <> []).
  { destruct fuel; cbn [while_] in W; unfold c at 1 in W; cbn [fst] in W; rewrite L in W; [discriminate|].
    unfold b at 1 in W. apply G in W; [exact W|]. cbn. discriminate. }
  destruct (exists_last Hv) as (init & x & ->). rewrite close_snoc. destruct (ltb _ _ _); [exists (init ++ [x]); rewrite <- app_assoc; reflexivity|exists init; reflexivity].
Qed.

(** ** Places outside the range *)
(** Rounding the values to six decimals can push the first below the lower end, and the value before
    the last above the upper end, so the grid is not increasing. *)
Theorem C125_order_refuted : exists mx st l, 0 <= mx < 90 /\ 0 < st /\
  (exists enough, forall fuel, (enough <= fuel)%nat -> gridR fuel (- mx) mx st = Some l) /\
  nth 0 l 0 < - mx /\ mx < nth 2 l 0 /\ nth 3 l 0 = mx.
Proof.
  set (mx := 899999999 / 10000000).
  exists mx, mx, [-90; 0; 90; mx]. split; [unfold mx; lra|]. split; [unfold mx; lra|]. split; [|cbn [nth]; unfold mx; lra].
  destruct (gridR_form (- mx) mx mx) as (n & H1 & H2 & H3); [unfold mx; lra|unfold mx; lra|].
  assert (n = 2%nat).
  { destruct n as [|[|[|n]]]; auto; exfalso.
    - cbn [INR] in H2. unfold mx in H2. lra.
    - cbn [INR] in H2. unfold mx in H2. lra.
    - specialize (H1 3%nat ltac:(lia)). cbn [INR] in H1. unfold mx in H1. lra. }
  subst n. exists 3%nat. intros fuel Hf. rewrite (H3 fuel Hf). cbn [seq map].
  assert (S : forall x z, Rabs (x * 1000000 - IZR z) < / 2 -> six_places Rops Rround x = IZR z / 1000000).
  { intros x z H. unfold six_places. rewrite lit_million. cbn [div mul Rops]. unfold Rround. rewrite (Znearest_imp _ _ z H). reflexivity. }
  rewrite (S (- mx + INR 0 * mx) (-90000000)%Z), (S (- mx + INR 1 * mx) 0%Z), (S (- mx + INR 2 * mx) 90000000%Z).
  - unfold Rltb. destruct (Rlt_dec _ _) as [L|L].
    + cbn [app]. do 2 f_equal; [lra|]. f_equal; [lra|]. f_equal. lra.
    + exfalso. apply L. replace (90000000 / 1000000) with 90 by lra. rewrite Rabs_pos_eq; unfold mx; lra.
  - cbn [INR]. unfold mx. apply Rabs_def1; lra.
  - cbn [INR]. unfold mx. apply Rabs_def1; lra.
  - cbn [INR]. unfold mx. apply Rabs_def1; lra.
Qed.

Lemma sin_small t : 0 <= t <= 1 -> t / 2 <= sin t.
Proof.
  intros Ht. destruct (Req_dec t 0) as [->|Ne]; [rewrite sin_0; lra|].
  destruct (MVT_cor2 sin cos 0 t ltac:(lra)) as (c & E & Hc); [intros; apply derivable_pt_lim_sin|].
  rewrite sin_0 in E. assert (1 / 2 <= cos c).
  { rewrite <- cos_PI3. pose proof PI2_3_2. pose proof PI_4. apply cos_decr_1; lra. }
  nra.
Qed.
Lemma cos_off_pole d : -89.99991 <= d <= 89.99991 -> / 10 ^ 7 < cos (d * (PI / 180)).
Proof.
  intros Hd. pose proof PI2_3_2. pose proof PI_4.
  assert (E : cos (d * (PI / 180)) = cos (Rabs d * (PI / 180))).
  { unfold Rabs. destruct (Rcase_abs d); auto. rewrite <- cos_neg. f_equal. ring. }
  rewrite E. assert (A : 0 <= Rabs d <= 89.99991) by (split; [apply Rabs_pos|apply Rabs_le; lra]).
  apply Rlt_le_trans with (cos (89.99991 * (PI / 180))).
  - replace (89.99991 * (PI / 180)) with (PI / 2 - 0.00009 * (PI / 180)) by lra. rewrite cos_shift.
    pose proof (sin_small (0.00009 * (PI / 180)) ltac:(lra)). lra.
  - apply cos_decr_1; nra.
Qed.
Lemma geocentric_cos p : - PI / 2 <= gd_lat p <= PI / 2 -> - 6000000 <= gd_height p ->
  cos (gd_lat p) <= Rabs (cos (gc_lat (geodetic_to_geocentric p))).
Proof.
  intros Hl Hh. destruct (C92_position p Hl Hh) as (Hr & Hg & E). set (gc := geodetic_to_geocentric p) in *.
  pose proof flattening_bounds as HF. set (e2 := wgs84_flattening * (2 - wgs84_flattening)) in *.
  assert (He : 0 < e2 < / 50) by (unfold e2; nra).
  unfold geodetic in E. fold e2 in E. set (s := sin (gd_lat p)) in *. set (c := cos (gd_lat p)) in *.
  pose proof (sincos2 (gd_lat p)) as SC. fold s c in SC.
  assert (Hc : 0 <= c) by (apply cos_ge_0; lra).
  assert (Hs : 0 <= s * s <= 1) by (pose proof (Rle_0_sqr s); pose proof (Rle_0_sqr c); unfold Rsqr in *; lra).
  assert (Hq : 0 < sqrt (1 - e2 * (s * s)) <= 1).
  { split; [apply sqrt_lt_R0; nra|]. pose proof (sqrt_le_1 (1 - e2 * (s * s)) 1 ltac:(nra) ltac:(lra) ltac:(nra)) as Q. rewrite sqrt_1 in Q. exact Q. }
  set (n := w84_a / sqrt (1 - e2 * (s * s))) in *.
  assert (Hn : 6378137 <= n).
  { unfold n, w84_a. apply Rmult_le_reg_r with (sqrt (1 - e2 * (s * s))); [lra|].
    replace (6378137 / sqrt (1 - e2 * (s * s)) * sqrt (1 - e2 * (s * s))) with 6378137 by (field; lra). nra. }
  set (a := n + gd_height p) in *. set (b := n * (1 - e2) + gd_height p) in *.
  assert (Ha : 0 < b <= a) by (unfold a, b; split; nra).
  unfold spherical, upward, Vscale in E. pose proof (f_equal vx E) as Ex. pose proof (f_equal vy E) as Ey. pose proof (f_equal vz E) as Ez. cbn [vx vy vz] in Ex, Ey, Ez. clear E.
  set (R_ := gc_radius gc) in *. set (C := cos (gc_lat gc)) in *. set (S_ := sin (gc_lat gc)) in *.
  change (gc_lon gc) with (gd_lon p) in *. pose proof (sincos2 (gd_lon p)) as SL. pose proof (sincos2 (gc_lat gc)) as SG. fold C S_ in SG.
  set (u := sin (gd_lon p)) in *. set (w := cos (gd_lon p)) in *.
  assert (P : (R_ * C) * (R_ * C) = (a * c) * (a * c)).
  { replace ((R_ * C) * (R_ * C)) with ((R_ * (C * w)) * (R_ * (C * w)) + (R_ * (C * u)) * (R_ * (C * u))) by (replace (R_ * C * (R_ * C)) with (R_ * C * (R_ * C) * (u * u + w * w)) by (rewrite SL; ring); ring).
    rewrite Ex, Ey. replace (a * c * w * (a * c * w) + a * c * u * (a * c * u)) with (a * c * (a * c) * (u * u + w * w)) by ring. rewrite SL. ring. }
  assert (RR : R_ * R_ = (a * c) * (a * c) + (b * s) * (b * s)).
  { replace (R_ * R_) with ((R_ * C) * (R_ * C) + (R_ * S_) * (R_ * S_)) by (replace (R_ * R_) with (R_ * R_ * (S_ * S_ + C * C)) by (rewrite SG; ring); ring). rewrite P, Ez. ring. }
  assert (RA : R_ * R_ <= a * a).
  { rewrite RR. assert (b * b <= a * a) by nra. replace (a * a) with (a * a * (s * s + c * c)) by (rewrite SC; ring).
    assert (b * b * (s * s) <= a * a * (s * s)) by (apply Rmult_le_compat_r; lra). lra. }
  rewrite <- (Rabs_pos_eq c Hc). apply Rsqr_le_abs_0. unfold Rsqr.
  apply Rmult_le_reg_l with (R_ * R_); [apply Rmult_lt_0_compat; auto|].
  replace (R_ * R_ * (C * C)) with ((R_ * C) * (R_ * C)) by ring. rewrite P.
  replace (a * c * (a * c)) with (a * a * (c * c)) by ring. apply Rmult_le_compat_r; [apply Rle_0_sqr|auto].
Qed.

(** The latitude limit must be below 90 degrees, but a limit within half a millionth of 90 makes the
    first latitude the pole: the tool stops with an error after writing the header only. *)
Theorem C125_pole_refuted : exists c, 0 <= max_abs_lat c < 90 /\ 0 < lat_step c /\ 0 < lon_step c /\
  forall show6, exists enough, forall fuel, (enough <= fuel)%nat ->
    generate_csv Rops Rround embedded_field show6 fuel c = Some (header ++ [NL], false).
Proof.
  set (mx' := 899999999 / 10000000).
  exists (mkConfig [] 2025 450 mx' 5 mx'). cbn [max_abs_lat lat_step lon_step]. split; [unfold mx'; lra|]. split; [unfold mx'; lra|]. split; [lra|].
  intros show6.
  destruct (gridR_form (- mx') mx' mx') as (n & A1 & A2 & A3); [unfold mx'; lra|unfold mx'; lra|].
  destruct (gridR_form (-180) 180 5) as (k & B1 & B2 & B3); [lra|lra|].
  exists (S n + S k)%nat. intros fuel Hf. unfold generate_csv. cbn [max_abs_lat lat_step lon_step neg lit Rops].
  change (grid_values Rops Rround fuel (- mx') mx' mx') with (gridR fuel (- mx') mx' mx'). rewrite A3 by lia.
  replace (Q2R 180) with 180 by (unfold Q2R; cbn; lra).
  change (grid_values Rops Rround fuel (- (180)) 180 5) with (gridR fuel (-180) 180 5). rewrite B3 by lia.
  assert (Hn : (2 <= n)%nat).
  { destruct n as [|[|n]]; [| |lia]; exfalso; cbn [INR] in A2; unfold mx' in A2; lra. }
  assert (Hk : (1 <= k)%nat). { destruct k; [|lia]. exfalso. cbn [INR] in B2. lra. }
  destruct n as [|n]; [lia|]. destruct k as [|k]; [lia|]. cbn [seq map app list_prod].
  assert (E : six_places Rops Rround (- mx' + INR 0 * mx') = -90).
  { unfold six_places. rewrite lit_million. cbn [div mul Rops]. unfold Rround. rewrite (Znearest_imp _ _ (-90000000)%Z); [lra|].
    cbn [INR]. unfold mx'. apply Rabs_def1; lra. }
  rewrite E. cbn [write_points decimal_year altitude_km].
  set (lo := six_places Rops Rround (-180 + INR 0 * 5)).
  assert (EF : embedded_field 2025 450 (-90) lo = None); [|rewrite EF; reflexivity].
  unfold embedded_field, evaluate. destruct (coefficients_at wmm_2025 2025) as [co|]; auto.
  unfold evaluate_with_coefficients. set (p := mkGd _ _ _). set (gc := geodetic_to_geocentric p).
  assert (G : cos (gc_lat gc) = 0).
  { unfold gc, p, geodetic_to_geocentric. cbn [gc_lat gd_lat gd_height].
    replace (-90 * (PI / 180)) with (- (PI / 2)) by lra. rewrite sin_neg, cos_neg, sin_PI2, cos_PI2, Rmult_0_r, Rmult_0_l, Rplus_0_l.
    set (e2 := wgs84_flattening * (2 - wgs84_flattening)).
    pose proof flattening_bounds as HF. assert (He : 0 < e2 < / 50) by (unfold e2; nra).
    replace (1 - e2 * - (1) * - (1)) with (1 - e2) by ring.
    assert (Hq : 0 < sqrt (1 - e2)) by (apply sqrt_lt_R0; lra).
    set (z := w84_a / sqrt (1 - e2) * (1 - e2) + 450 * 1000).
    assert (Hz : 0 < z).
    { unfold z, w84_a. assert (0 < 6378137 / sqrt (1 - e2)) by (apply Rmult_lt_0_compat; [lra|apply Rinv_0_lt_compat; auto]). nra. }
    replace (z * - (1) * (z * - (1))) with (z * z) by ring. rewrite sqrt_square by lra.
    replace (z * - (1) / z) with (- (1)) by (field; lra). rewrite asin_opp, asin_1, cos_neg. apply cos_PI2. }
  rewrite G, Rabs_R0. rewrite (proj2 (Rleb_true 0 pole_eps)); auto. apply Rlt_le, pole_eps_pos.
Qed.

(** With a limit of at most 89.9999 degrees no latitude of the grid is refused as a pole, for any
    step, longitude, year and altitude above -6000 km. *)
Theorem C125_no_pole mx st l enough : 0 <= mx <= 89.9999 -> 0 < st -> (forall fuel, (enough <= fuel)%nat -> gridR fuel (- mx) mx st = Some l) ->
  forall la co lo h, In la l -> - 6000000 <= h -> forall lat, evaluate_with_coefficients co (mkGd (la * (PI / 180)) lo h) <> PoleSingularity lat.
Proof.
  intros Hm Hs Hl la co lo h Hin Hh lat.
  destruct (gridR_form (- mx) mx st) as (n & H1 & H2 & H3); [lra|lra|].
  specialize (Hl (enough + S n)%nat ltac:(lia)). rewrite H3 in Hl by lia. injection Hl as <-.
  assert (Hla : -89.99991 <= la <= 89.99991).
  { assert (Hv : forall j, (j <= n)%nat -> -89.99991 <= six_places Rops Rround (- mx + INR j * st) <= 89.99991).
    { intros j Hj. pose proof (six_err (- mx + INR j * st)) as S6. apply Rabs_le_between in S6. specialize (H1 j Hj).
      assert (0 <= INR j * st) by (apply Rmult_le_pos; [apply pos_INR|lra]). lra. }
    apply in_app_or in Hin. destruct Hin as [Hin|Hin].
    - apply in_map_iff in Hin. destruct Hin as (j & <- & Hj). apply in_seq in Hj. apply Hv. lia.
    - destruct (Rltb _ _); cbn [In] in Hin.
      + destruct Hin as [<-|[<-|[]]]; [apply Hv; lia|lra].
      + destruct Hin as [<-|[]]. lra. }
  unfold evaluate_with_coefficients. set (p := mkGd _ lo h).
  assert (Hc : pole_eps < Rabs (cos (gc_lat (geodetic_to_geocentric p)))).
  { apply Rlt_le_trans with (cos (gd_lat p)).
    - unfold p; cbn [gd_lat]. pose proof (cos_off_pole la Hla) as Q. unfold pole_eps. apply Rlt_trans with (/ 10 ^ 7); auto.
      apply Rinv_lt_contravar; [|lra]. lra.
    - apply geocentric_cos; unfold p; cbn [gd_lat gd_height]; auto. pose proof PI_RGT_0. nra. }
  destruct (Rleb _ _) eqn:L; [apply Rleb_true in L; lra|].
  destruct (schmidt_semi_normalized_legendre _ _ _), (longitude_harmonics _ _).
  destruct (harmonic_sum _ _ _ _ _ _ _); [|discriminate]. cbv zeta. destruct (Reqb _ _); discriminate.
Qed.

(** ** The table *)
(** a text without comma and line end *)
Definition cell (s : str) : Prop := ~ In 44%N s /\ ~ In NL s.

Lemma split_join l : l <> [] -> (forall s, In s l -> cell s) -> split_on 44 (join 44 l) = l /\ ~ In NL (join 44 l).
Proof.
  induction l as [|x l IH]; intros Hne H; [contradiction|].
  destruct (H x (or_introl eq_refl)) as [Hx1 Hx2]. destruct l as [|y l].
  - cbn [join]. split; auto. apply split_clean; auto.
  - destruct IH as [I1 I2]; [discriminate|intros; apply H; right; auto|].
    change (join 44 (x :: y :: l)) with (x ++ 44%N :: join 44 (y :: l)). split.
    + rewrite split_skip by auto. cbn [split_on]. rewrite N.eqb_refl, I1, app_nil_r. reflexivity.
    + intros Q. apply in_app_or in Q. destruct Q as [Q|[Q|Q]]; [auto|discriminate|auto].
Qed.
Lemma split_lines_app rows out : ~ In NL rows -> forall pre, split_on NL (pre ++ [NL]) = out ++ [[]] -> split_on NL (pre ++ [NL] ++ rows ++ [NL]) = out ++ [rows; []].
Proof.
  intros Hr pre. revert out. induction pre as [|c pre IH]; intros out; cbn [app split_on].
  - change (NL =? NL)%N with true. cbn iota. intros E. change (split_on NL []) with [@nil N] in E.
    assert (out = [[]]). { destruct out as [|o [|o2 out]]; cbn in E; try discriminate; [injection E as <-; reflexivity|]. injection E as _ E. destruct out; discriminate. }
    subst out. rewrite (split_skip NL rows) by auto. cbn [split_on]. change (NL =? NL)%N with true. cbn iota. rewrite app_nil_r. reflexivity.
  - intros E. destruct (c =? NL)%N.
    + destruct out as [|o out]; [cbn in E; destruct (split_on NL (pre ++ [NL])) eqn:Q; [exfalso; exact (split_on_nonempty _ _ Q)|discriminate]|].
      cbn [app] in E. injection E as <- E. cbn [app]. f_equal. apply IH. exact E.
    + destruct (split_on NL (pre ++ [NL])) as [|p ps] eqn:Q; [exfalso; exact (split_on_nonempty _ _ Q)|].
      destruct out as [|o out]; [cbn in E; injection E as E1 E2; discriminate|]. cbn [app] in E. injection E as <- E.
      change (pre ++ NL :: rows ++ [NL]) with (pre ++ [NL] ++ rows ++ [NL]).
      rewrite (IH (p :: out)); [reflexivity|]. cbn [app]. rewrite E. reflexivity.
Qed.

Section Table.
Context {F : Type} (O : ops F) (round : F -> F) (field : F -> F -> F -> F -> option (list F)) (show6 : F -> str) (Hshow : forall x, cell (show6 x)).

Lemma write_points_spec (c : @config F) points : forall out lines0 res ok,
  split_on NL (out ++ [NL]) = lines0 ++ [[]] -> write_points field show6 c points (out ++ [NL]) = (res, ok) ->
  exists rows, split_on NL res = lines0 ++ rows ++ [[]] /\
    map (split_on 44) rows = map (fun pt => map show6 (decimal_year c :: altitude_km c :: fst pt :: snd pt ::
       match field (decimal_year c) (altitude_km c) (fst pt) (snd pt) with Some cols => cols | None => [] end)) (firstn (length rows) points) /\
    (forall pt, In pt (firstn (length rows) points) -> field (decimal_year c) (altitude_km c) (fst pt) (snd pt) <> None) /\
    if ok then length rows = length points
    else exists pt, nth_error points (length rows) = Some pt /\ field (decimal_year c) (altitude_km c) (fst pt) (snd pt) = None.
Proof.
  induction points as [|[la lo] points IH]; intros out lines0 res ok Hs; cbn [write_points].
  - intros H. injection H as <- <-. exists []. split; [exact Hs|]. split; [reflexivity|]. split; [intros pt []|reflexivity].
  - destruct (field (decimal_year c) (altitude_km c) la lo) as [cols|] eqn:Ef; intros H.
    + set (row := join 44 (map show6 (decimal_year c :: altitude_km c :: la :: lo :: cols))) in *.
      assert (Hrow : split_on 44 row = map show6 (decimal_year c :: altitude_km c :: la :: lo :: cols) /\ ~ In NL row).
      { apply split_join; [discriminate|]. intros s Hin. apply in_map_iff in Hin. destruct Hin as (x & <- & _). apply Hshow. }
      destruct Hrow as [R1 R2].
      replace ((out ++ [NL]) ++ row ++ [NL]) with ((out ++ [NL] ++ row) ++ [NL]) in H by (rewrite <- !app_assoc; reflexivity).
      destruct (IH (out ++ [NL] ++ row) (lines0 ++ [row]) res ok) as (rows & E1 & E2 & E3 & E4); auto.
      { rewrite <- !app_assoc. cbn [app]. change (out ++ NL :: row ++ [NL]) with (out ++ [NL] ++ row ++ [NL]). apply (split_lines_app row lines0 R2 out Hs). }
      exists (row :: rows). split; [rewrite E1, <- app_assoc; reflexivity|]. cbn [length firstn map fst snd]. rewrite Ef, R1, E2.
      split; [reflexivity|]. split; [intros pt [<-|Hin]; [cbn [fst snd]; rewrite Ef; discriminate|apply E3; auto]|].
      destruct ok; [lia|]. exact E4.
    + injection H as <- <-. exists []. split; [exact Hs|]. split; [reflexivity|]. split; [intros pt []|]. exists (la, lo). split; [reflexivity|]. exact Ef.
Qed.

(** When the tool finishes, the lines of the file are the header and one row for every pair of a grid
    latitude and a grid longitude, latitude by latitude; a row holds the year, the altitude, the two
    coordinates and the columns computed for this point.  When it stops with an error the rows before
    the first point that cannot be evaluated have been written. *)
Theorem C125_table fuel c lats lons out ok :
  grid_values O round fuel (neg O (max_abs_lat c)) (max_abs_lat c) (lat_step c) = Some lats ->
  grid_values O round fuel (neg O (lit O 180)) (lit O 180) (lon_step c) = Some lons ->
  generate_csv O round field show6 fuel c = Some (out, ok) ->
  exists rows, split_on NL out = header :: rows ++ [[]] /\
    map (split_on 44) rows = map (fun pt => map show6 (decimal_year c :: altitude_km c :: fst pt :: snd pt ::
       match field (decimal_year c) (altitude_km c) (fst pt) (snd pt) with Some cols => cols | None => [] end))
       (firstn (length rows) (list_prod lats lons)) /\
    (forall pt, In pt (firstn (length rows) (list_prod lats lons)) -> field (decimal_year c) (altitude_km c) (fst pt) (snd pt) <> None) /\
    if ok then length rows = (length lats * length lons)%nat
    else exists pt, nth_error (list_prod lats lons) (length rows) = Some pt /\ field (decimal_year c) (altitude_km c) (fst pt) (snd pt) = None.
Proof.
  intros E1 E2. unfold generate_csv. rewrite E1, E2. intros H. injection H as H.
  destruct (write_points_spec c (list_prod lats lons) header [header] out ok) as (rows & A & B & C & D); [|exact H|].
  - rewrite (split_skip NL header); [reflexivity|]. intros Q. cbn in Q. repeat (destruct Q as [Q|Q]; [discriminate|]). exact Q.
  - exists rows. split; [exact A|]. split; [exact B|]. split; [exact C|]. destruct ok; [|exact D].
    rewrite D. apply prod_length.
Qed.
End Table.

(** the header names as many columns as a row of the embedded model has cells *)
Theorem C125_columns y alt la lo cols : embedded_field y alt la lo = Some cols -> length (split_on 44 header) = length (y :: alt :: la :: lo :: cols).
Proof.
  unfold embedded_field. destruct (evaluate _ _ _); try discriminate. intros H. injection H as <-. reflexivity.
Qed.

(** and every cell stands under the name of its quantity; the two angles are in degrees *)
Theorem C125_cells : forall y alt la lo e,
  evaluate wmm_2025 y (mkGd (la * (PI / 180)) (lo * (PI / 180)) (alt * 1000))%R = Ok e ->
  exists cols, embedded_field y alt la lo = Some cols /\
  combine (split_on 44 header) (y :: alt :: la :: lo :: cols) =
  [(text "decimal_year", y); (text "altitude_km", alt); (text "latitude_deg", la); (text "longitude_deg", lo);
   (text "x_nt", vx (e_field e)); (text "y_nt", vy (e_field e)); (text "z_nt", vz (e_field e)); (text "h_nt", e_H e); (text "f_nt", e_F e);
   (text "declination_deg", e_D e * 180 / PI); (text "inclination_deg", e_I e * 180 / PI);
   (text "x_dot_nt_per_year", vx (e_secular e)); (text "y_dot_nt_per_year", vy (e_secular e)); (text "z_dot_nt_per_year", vz (e_secular e));
   (text "f_dot_nt_per_year", e_Fd e)]%R.
Proof.
  intros y alt la lo e H. unfold embedded_field. rewrite H. eexists. split; [reflexivity|].
  cbv [combine split_on header text]. cbn -[Rmult Rdiv PI]. unfold Rdiv. rewrite <- !Rmult_assoc. reflexivity.
Qed.

(** ** Arguments *)
(** the argument at a position, or the default *)
Definition given {F} (parse : str -> option F) (args : list str) (i : nat) (default x : F) : Prop :=
  match nth_error args i with Some a => parse a = Some x | None => x = default end.

(** The run is started exactly when a path is given, help is not asked for, every argument present is
    a number, and the numbers pass the three range tests. *)
Theorem C125_arguments {F} (O : ops F) parse args c : parse_args O parse args = Run c <->
  nth_error args 0 = Some (output_path c) /\ ~ In (text "-h") args /\ ~ In (text "--help") args /\
  given parse args 1 (lit O 2025) (decimal_year c) /\ given parse args 2 (lit O 450) (altitude_km c) /\
  given parse args 3 (lit O 5) (lat_step c) /\ given parse args 4 (lit O 5) (lon_step c) /\ given parse args 5 (lit O 89) (max_abs_lat c) /\
  leb O (lat_step c) (zero O) = false /\ leb O (lon_step c) (zero O) = false /\
  leb O (zero O) (max_abs_lat c) = true /\ ltb O (max_abs_lat c) (lit O 90) = true.
Proof.
  assert (G : forall i d x, parse_optional parse (nth_error args i) d = Some x <-> given parse args i d x).
  { intros i d x. unfold parse_optional, given. destruct (nth_error args i); [tauto|]. split; [intros H; injection H as <-; auto|intros ->; auto]. }
  assert (HE : existsb (fun a => str_eqb a (text "-h") || str_eqb a (text "--help")) args = false <-> ~ In (text "-h") args /\ ~ In (text "--help") args).
  { clear G. assert (SE : forall a b, str_eqb a b = true <-> a = b) by (intros a b; unfold str_eqb; destruct (list_eq_dec _ _ _); split; intros; auto; discriminate).
    rewrite <- not_true_iff_false, existsb_exists. split.
    - intros H. split; intros Q; apply H; eexists; (split; [exact Q|]); apply orb_true_iff; [left|right]; apply SE; auto.
    - intros [H1 H2] (a & Ha & Q). apply orb_true_iff in Q. rewrite !SE in Q. destruct Q; subst; auto. }
  unfold parse_args. destruct args as [|path args']; [split; [discriminate|intros (H & _); discriminate]|].
  set (args := path :: args') in *. split.
  - destruct (existsb _ args); [discriminate|]. pose proof (proj1 HE eq_refl) as Ex.
    destruct (parse_optional parse (nth_error args 1) _) as [y|] eqn:E1; [|discriminate].
    destruct (parse_optional parse (nth_error args 2) _) as [al|] eqn:E2; [|discriminate].
    destruct (parse_optional parse (nth_error args 3) _) as [la|] eqn:E3; [|discriminate].
    destruct (parse_optional parse (nth_error args 4) _) as [lo|] eqn:E4; [|discriminate].
    destruct (parse_optional parse (nth_error args 5) _) as [mx|] eqn:E5; [|discriminate].
    destruct (leb O la (zero O)) eqn:T1; [discriminate|]. destruct (leb O lo (zero O)) eqn:T2; [discriminate|].
    destruct (leb O (zero O) mx) eqn:T3; [|discriminate]. destruct (ltb O mx (lit O 90)) eqn:T4; [|discriminate]. cbn [andb negb].
    intros H. injection H as <-. cbn [output_path decimal_year altitude_km lat_step lon_step max_abs_lat].
    apply G in E1, E2, E3, E4, E5. split; [reflexivity|]. split; [tauto|]. split; [tauto|]. repeat (split; auto).
  - intros (H0 & Hh1 & Hh2 & H1 & H2 & H3 & H4 & H5 & T1 & T2 & T3 & T4).
    rewrite (proj2 HE (conj Hh1 Hh2)). apply G in H1, H2, H3, H4, H5. rewrite H1, H2, H3, H4, H5, T1, T2, T3, T4. cbn [andb negb].
    cbn in H0. injection H0 as ->. destruct c; reflexivity.
Qed.

(** In f64 a positive step that is too small to change the latitude is accepted and the loop never ends. *)
Theorem C125_ends_refuted : exists args parse c, parse_args f64_ops parse args = Run c /\
  Bltb (zero f64_ops) (lat_step c) = true /\
  forall round fuel, grid_values f64_ops round fuel (neg f64_ops (max_abs_lat c)) (max_abs_lat c) (lat_step c) = None.
Proof.
  set (tiny := f64_lit (1 # 1152921504606846976)).
  set (c := mkConfig (text "o") (f64_lit 2025) (f64_lit 450) tiny (f64_lit 5) (f64_lit 89)).
  exists [text "o"; text "2025"; text "450"; text "8e-19"], (fun s => if str_eqb s (text "2025") then Some (f64_lit 2025) else if str_eqb s (text "450") then Some (f64_lit 450) else Some tiny), c.
  assert (T1 : Bltb (zero f64_ops) tiny = true) by (vm_compute; reflexivity).
  split; [|split; [exact T1|]].
  - apply C125_arguments.
    assert (T2 : leb f64_ops tiny (zero f64_ops) = false) by (vm_compute; reflexivity).
    assert (T3 : leb f64_ops (f64_lit 5) (zero f64_ops) = false) by (vm_compute; reflexivity).
    assert (T4 : leb f64_ops (zero f64_ops) (f64_lit 89) = true) by (vm_compute; reflexivity).
    assert (T5 : ltb f64_ops (f64_lit 89) (lit f64_ops 90) = true) by (vm_compute; reflexivity).
    split; [reflexivity|]. split; [intros Q; cbn in Q; repeat (destruct Q as [Q|Q]; [discriminate|]); exact Q|].
    split; [intros Q; cbn in Q; repeat (destruct Q as [Q|Q]; [discriminate|]); exact Q|].
    split; [reflexivity|]. split; [reflexivity|]. split; [reflexivity|]. split; [reflexivity|]. split; [reflexivity|].
    split; [exact T2|]. split; [exact T3|]. split; [exact T4|exact T5].
  - intros round fuel. unfold c. cbn [max_abs_lat lat_step]. set (m89 := neg f64_ops (f64_lit 89)).
    assert (A : add f64_ops m89 tiny = m89) by (apply (B2SF_inj 53 1024); vm_compute; reflexivity).
    assert (L : leb f64_ops m89 (add f64_ops (f64_lit 89) (grid_eps f64_ops)) = true) by (vm_compute; reflexivity).
    unfold grid_values, grid_loop.
    assert (W : forall acc, while_ fuel (fun st : f64 * list f64 => leb f64_ops (fst st) (add f64_ops (f64_lit 89) (grid_eps f64_ops)))
      (fun st => Some (add f64_ops (fst st) tiny, snd st ++ [six_places f64_ops round (fst st)])) (m89, acc) = None); [|rewrite W; reflexivity].
    generalize dependent m89. clear. intros m89 A L.
    induction fuel as [|fuel IH]; intros acc; cbn [while_ fst snd]; rewrite L; auto.
    rewrite A. apply IH.
Qed.

(** In f64 the text NaN is a number and passes the tests of the steps; the grid then has at most the
    two ends of the range. *)
Theorem C125_nan_step_refuted : exists args parse c, parse_args f64_ops parse args = Run c /\
  forall round fuel, (1 <= fuel)%nat -> exists l,
    grid_values f64_ops round fuel (neg f64_ops (max_abs_lat c)) (max_abs_lat c) (lat_step c) = Some l /\ (length l <= 2)%nat.
Proof.
  set (c := mkConfig (text "o") (f64_lit 2025) (f64_lit 450) B754_nan (f64_lit 5) (f64_lit 89)).
  exists [text "o"; text "2025"; text "450"; text "NaN"], (fun s => if str_eqb s (text "2025") then Some (f64_lit 2025) else if str_eqb s (text "450") then Some (f64_lit 450) else Some B754_nan), c.
  split.
  - apply C125_arguments.
    assert (T2 : leb f64_ops B754_nan (zero f64_ops) = false) by reflexivity.
    assert (T3 : leb f64_ops (f64_lit 5) (zero f64_ops) = false) by (vm_compute; reflexivity).
    assert (T4 : leb f64_ops (zero f64_ops) (f64_lit 89) = true) by (vm_compute; reflexivity).
    assert (T5 : ltb f64_ops (f64_lit 89) (lit f64_ops 90) = true) by (vm_compute; reflexivity).
    split; [reflexivity|]. split; [intros Q; cbn in Q; repeat (destruct Q as [Q|Q]; [discriminate|]); exact Q|].
    split; [intros Q; cbn in Q; repeat (destruct Q as [Q|Q]; [discriminate|]); exact Q|].
    split; [reflexivity|]. split; [reflexivity|]. split; [reflexivity|]. split; [reflexivity|]. split; [reflexivity|].
    split; [exact T2|]. split; [exact T3|]. split; [exact T4|exact T5].
  - intros round fuel Hf. unfold c. cbn [max_abs_lat lat_step]. set (m89 := neg f64_ops (f64_lit 89)).
    assert (A : add f64_ops m89 B754_nan = B754_nan) by (destruct m89; reflexivity).
    assert (L : leb f64_ops m89 (add f64_ops (f64_lit 89) (grid_eps f64_ops)) = true) by (vm_compute; reflexivity).
    assert (L2 : forall x, leb f64_ops B754_nan x = false) by (intros x; destruct x; reflexivity).
    generalize dependent m89. intros m89 A L.
    unfold grid_values, grid_loop. destruct fuel as [|fuel]; [lia|]. cbn [while_ fst snd]. rewrite L, A.
    assert (K : forall x, exists l, Some (close_grid f64_ops (f64_lit 89) ([] ++ [x])) = Some l /\ (length l <= 2)%nat).
    { intros x. rewrite close_snoc. cbn [app]. destruct (ltb _ _ _); eexists; (split; [reflexivity|]); cbn; lia. }
    destruct fuel; cbn [while_ fst snd]; rewrite L2; apply K.
Qed.

(** The default longitudes: 73 values, every five degrees from -180 to 180 *)
Example C125_nontrivial : exists enough, forall fuel, (enough <= fuel)%nat ->
  gridR fuel (-180) 180 5 = Some (map (fun k => -180 + INR k * 5) (seq 0 73)).
Proof.
  destruct (C125_even (-180000000) 5000000 72) as (en & H); [lia|]. exists en. intros fuel Hf. specialize (H fuel Hf).
  replace (IZR (-180000000) / 1000000) with (-180) in H by lra. replace (IZR 5000000 / 1000000) with 5 in H by lra.
  replace (-180 + INR 72 * 5) with 180 in H by (rewrite INR_IZR_INZ; cbn [Z.of_nat Pos.of_succ_nat Pos.succ]; lra). exact H.
Qed.
