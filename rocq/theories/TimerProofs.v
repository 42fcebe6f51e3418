(** Lemmas about the tick clock, timers, alarms and interval schedules. *)
From Coq Require Import ZArith Lia Bool List ZifyBool ZifyNat.
From Verif Require Import Machine TimeModel TimeSpec TimeProofs.
Import ListNotations.
Open Scope Z_scope.
Ltac Zify.zify_post_hook ::= Z.to_euclidean_division_equations.

(** ** Ticks (C07, C08) *)

Lemma floor_split dt tps :
  0 <= dt -> 0 < tps ->
  dt / tps * 1000000000 + (dt mod tps) * 1000000000 / tps = dt * 1000000000 / tps.
Proof.
  intros H0 H1.
  rewrite (Z.div_mod dt tps) at 3 by lia.
  replace ((tps * (dt / tps) + dt mod tps) * 1000000000)
    with (dt / tps * 1000000000 * tps + dt mod tps * 1000000000) by ring.
  rewrite Z.div_add_l by lia. reflexivity.
Qed.

Lemma ticks_to_duration_exact tps dt :
  0 < tps -> 0 <= dt -> dt / tps < 2 ^ 63 ->
  exists d, ticks_to_duration tps dt = Some d /\ wf_dur d /\
    length_ns d = dt * 1000000000 / tps.
Proof.
  intros H0 H1 H2. unfold ticks_to_duration.
  destruct (Z.eqb_spec tps 0); [lia|].
  eexists; split; [reflexivity|].
  assert (0 <= dt / tps) by (apply Z.div_pos; lia).
  assert (0 <= dt mod tps < tps) as Hm by (apply Z.mod_pos_bound; lia).
  assert (0 <= (dt mod tps) * 1000000000 / tps < 1000000000) as Hn.
  { split; [apply Z.div_pos; lia|]. apply Z.div_lt_upper_bound; nia. }
  pose proof (floor_split dt tps H1 H0) as F.
  set (q := dt / tps) in *. set (nn := dt mod tps * 1000000000 / tps) in *.
  clearbody q nn.
  rewrite w64_id by (unfold in_i64; lia). rewrite w32_id by (unfold in_i32; lia).
  unfold wf_dur, in_i64, length_ns; cbn [dsec dnano]. lia.
Qed.

Lemma floor_mono a b t : 0 < t -> a <= b -> a * 1000000000 / t <= b * 1000000000 / t.
Proof. intros. apply Z.div_le_mono; lia. Qed.

(* The counter values seen when the true (unbounded) tick count starts at [T] and
   advances by the given increments. *)
Fixpoint readings (T : Z) (ds : list Z) : list Z :=
  match ds with [] => [] | d :: r => (T + d) mod 2 ^ 64 :: readings (T + d) r end.

Lemma wrap_diff T d : 0 <= d < 2 ^ 64 -> u64 ((T + d) mod 2 ^ 64 - T mod 2 ^ 64) = d.
Proof.
  intros H. unfold u64. rewrite <- Zminus_mod. replace (T + d - T) with d by ring.
  apply Z.mod_small; lia.
Qed.

Definition sumZ (l : list Z) : Z := fold_right Z.add 0 l.

Lemma dt_history tps : 0 < tps ->
  forall ds T, Forall (fun d => 0 <= d < 2 ^ 64 /\ d / tps < 2 ^ 63) ds ->
  exists outs,
    runs (dt_from_ticks tps) (T mod 2 ^ 64) (readings T ds) outs ((T + sumZ ds) mod 2 ^ 64) /\
    length outs = length ds /\ Forall wf_dur outs /\
    sum_ns outs * tps <= sumZ ds * 1000000000 <=
      sum_ns outs * tps + Z.of_nat (length ds) * (tps - 1) /\
    (1000000000 mod tps = 0 -> sum_ns outs * tps = sumZ ds * 1000000000).
Proof.
  intros Ht. induction ds as [|d ds IH]; intros T HF.
  - exists []. cbn [readings sumZ fold_right length sum_ns]. rewrite Z.add_0_r.
    split; [constructor|]. repeat split; auto; cbn; lia.
  - inversion HF as [|? ? (Hd1 & Hd2) HF']; subst.
    destruct (IH (T + d) HF') as (outs & R & L & W & B & E).
    destruct (ticks_to_duration_exact tps d Ht ltac:(lia) Hd2) as (o & Ho & Wo & Lo).
    exists (o :: outs).
    cbn [readings sumZ fold_right length sum_ns].
    change (fold_right Z.add 0 ds) with (sumZ ds).
    change (fold_right (fun d z => length_ns d + z) 0 outs) with (sum_ns outs).
    split; [|split; [|split]].
    + econstructor.
      * unfold dt_from_ticks. rewrite wrap_diff by auto. rewrite Ho. reflexivity.
      * replace (T + (d + sumZ ds)) with (T + d + sumZ ds) by ring. exact R.
    + simpl; lia.
    + constructor; auto.
    + rewrite Lo.
      pose proof (Z.div_mod (d * 1000000000) tps ltac:(lia)) as DM.
      pose proof (Z.mod_pos_bound (d * 1000000000) tps Ht) as MB.
      split.
      * rewrite Nat2Z.inj_succ.
        set (q := d * 1000000000 / tps) in *. set (r := (d * 1000000000) mod tps) in *.
        clearbody q r. clear E IH R. nia.
      * intros Hdiv.
        assert ((d * 1000000000) mod tps = 0) as Hz.
        { rewrite Z.mul_mod, Hdiv, Z.mul_0_r by lia. apply Z.mod_0_l; lia. }
        specialize (E Hdiv).
        set (q := d * 1000000000 / tps) in *. rewrite Hz in DM. clearbody q. nia.
Qed.

(** ** Timers (C09, C10) *)

Lemma drain_spec p : wf_dur p -> 0 < length_ns p -> dsec p <= 2 ^ 60 ->
  forall fuel a, wf_dur a -> 0 <= length_ns a -> dsec a <= 2 ^ 61 ->
  length_ns a / length_ns p < Z.of_nat fuel ->
  exists a', drain fuel p a = Some a' /\ wf_dur a' /\
    length_ns a' = length_ns a mod length_ns p.
Proof.
  intros Wp Hp Bp.
  induction fuel as [|fuel IH]; intros a Wa Ha Ba Hf.
  - exfalso. pose proof (Z.div_pos (length_ns a) (length_ns p) Ha Hp). lia.
  - cbn [drain]. destruct Wp as (Wp1 & Wp2). destruct Wa as (Wa1 & Wa2).
    rewrite dur_leb_spec by auto.
    destruct (Z.leb_spec (length_ns p) (length_ns a)) as [Hle|Hlt].
    + destruct (dur_sub_exact a p) as [E W].
      { unfold small_dur, length_ns, in_i64 in *. lia. }
      { unfold small_dur, length_ns, in_i64 in *. lia. }
      assert (length_ns a / length_ns p = length_ns (dur_sub a p) / length_ns p + 1) as Hq.
      { rewrite E. replace (length_ns a) with (length_ns a - length_ns p + 1 * length_ns p) at 1 by ring.
        rewrite Z.div_add by lia. reflexivity. }
      destruct (IH (dur_sub a p)) as (a' & D & W' & L); auto.
      { lia. }
      { destruct W as (W1 & W2). unfold length_ns, in_i64 in *. lia. }
      { lia. }
      exists a'. split; [exact D|]. split; [exact W'|]. rewrite L, E.
      replace (length_ns a) with (length_ns a - length_ns p + 1 * length_ns p) at 2 by ring.
      rewrite Z.mod_add by lia. reflexivity.
    + exists a. split; [reflexivity|]. split; [split; auto|].
      symmetry. apply Z.mod_small. lia.
Qed.

Lemma drain_nonpositive_diverges p a :
  wf_dur p -> wf_dur a -> small_dur a -> dsec p = 0 -> dnano p = 0 -> 0 <= length_ns a ->
  forall fuel, drain fuel p a = None.
Proof.
  intros Wp Wa Sa P0 P1 H fuel.
  assert (p = mkDur 0 0) as -> by (destruct p; cbn in *; subst; reflexivity).
  revert a Wa Sa H. induction fuel as [|fuel IH]; intros a Wa Sa H; cbn [drain];
    destruct Wa as (Wa1 & Wa2); rewrite dur_leb_spec by (auto; cbn; lia);
    destruct (Z.leb_spec (length_ns (mkDur 0 0)) (length_ns a)) as [L|L];
    try (exfalso; change (length_ns (mkDur 0 0)) with 0 in L; lia); auto.
  destruct (dur_sub_exact a (mkDur 0 0) Sa) as [E W].
  { unfold small_dur; cbn; lia. }
  assert (dur_sub a (mkDur 0 0) = a) as ->.
  { apply length_inj; auto; [apply W|]. rewrite E. unfold length_ns at 2. cbn. lia. }
  apply IH; auto. split; auto.
Qed.

Definition ok_dt (d : duration) : Prop := 0 <= dsec d < 2 ^ 60 /\ 0 <= dnano d < 1000000000.

Lemma timer_step_spec p a dt : ok_dt p -> 0 < length_ns p -> ok_dt dt ->
  wf_dur a -> 0 <= length_ns a < length_ns p ->
  exists a', timer_step (mkTimer a p) dt =
      Some (mkTimer a' p, length_ns p <=? length_ns a + length_ns dt) /\
    wf_dur a' /\ length_ns a' = (length_ns a + length_ns dt) mod length_ns p.
Proof.
  intros Hp Hp0 Hdt Wa Ha. unfold timer_step. cbn [acc period].
  assert (dsec a <= 2 ^ 60) as Ba.
  { destruct Wa as (W1 & W2). unfold ok_dt, length_ns, in_i64 in *. lia. }
  destruct (dur_add_exact a dt) as [E W].
  { destruct Wa as (W1 & W2). unfold small_dur, length_ns, in_i64 in *. lia. }
  { unfold ok_dt, small_dur in *. lia. }
  assert (0 <= length_ns dt) as Hd0 by (unfold ok_dt, length_ns in *; lia).
  set (b := dur_add a dt) in *. clearbody b.
  destruct W as (Wb1 & Wb2).
  rewrite dur_leb_spec by (auto; apply Hp). rewrite E.
  destruct (Z.leb_spec (length_ns p) (length_ns a + length_ns dt)) as [L|L].
  - assert (wf_dur p) as Wp by (unfold ok_dt, wf_dur, in_i64 in *; lia).
    destruct (drain_spec p Wp Hp0 ltac:(unfold ok_dt in Hp; lia) (drain_fuel p b) b) as (a' & D & W' & L').
    + split; auto.
    + lia.
    + destruct Wa. unfold ok_dt, length_ns in *. lia.
    + unfold drain_fuel. fold (length_ns b) (length_ns p).
      change (dsec b * G + dnano b) with (length_ns b).
      change (dsec p * G + dnano p) with (length_ns p).
      rewrite Z.max_r by lia.
      pose proof (Z.div_pos (length_ns b) (length_ns p) ltac:(lia) Hp0) as Q.
      set (q := length_ns b / length_ns p) in *. clearbody q. lia.
    + rewrite D. cbn [bind]. exists a'. split; [reflexivity|]. split; [exact W'|]. congruence.
  - exists b. split; [reflexivity|]. split; [split; auto|].
    rewrite E. symmetry. apply Z.mod_small. lia.
Qed.

Lemma crossing S d P : 0 < P -> 0 <= d ->
  (P <=? S mod P + d) = (S / P <? (S + d) / P).
Proof.
  intros HP Hd.
  pose proof (Z.div_mod S P ltac:(lia)) as DM. pose proof (Z.mod_pos_bound S P HP) as MB.
  set (q := S / P) in *. set (r := S mod P) in *. clearbody q r.
  assert ((S + d) / P = q + (r + d) / P) as ->.
  { rewrite DM. replace (P * q + r + d) with (q * P + (r + d)) by ring.
    apply Z.div_add_l; lia. }
  destruct (Z.leb_spec P (r + d)).
  - assert (1 <= (r + d) / P) by (apply Z.div_le_lower_bound; lia).
    symmetry; apply Z.ltb_lt; lia.
  - rewrite Z.div_small by lia. symmetry; apply Z.ltb_ge; lia.
Qed.

Lemma timer_run_gen p : ok_dt p -> 0 < length_ns p ->
  forall dts a S, Forall ok_dt dts -> wf_dur a -> length_ns a = S mod length_ns p ->
  exists outs t', runs timer_step (mkTimer a p) dts outs t' /\
    period t' = p /\ wf_dur (acc t') /\
    length_ns (acc t') = (S + sum_ns dts) mod length_ns p /\
    length outs = length dts /\
    forall i, (i < length dts)%nat ->
      nth i outs false =
        ((S + sum_ns (firstn i dts)) / length_ns p
          <? (S + sum_ns (firstn (Datatypes.S i) dts)) / length_ns p).
Proof.
  intros Hp Hp0. induction dts as [|d dts IH]; intros a S HF Wa Ha.
  - exists [], (mkTimer a p). split; [constructor|]. cbn [acc period sum_ns fold_right].
    rewrite Z.add_0_r. repeat split; auto; try apply Wa. cbn; lia.
  - inversion HF as [|? ? Hd HF']; subst.
    pose proof (Z.mod_pos_bound S (length_ns p) Hp0) as MB. rewrite <- Ha in MB.
    destruct (timer_step_spec p a d Hp Hp0 Hd Wa MB) as (a' & St & W' & L').
    assert (length_ns a' = (S + length_ns d) mod length_ns p) as HL.
    { rewrite L', Ha. rewrite Zplus_mod_idemp_l. reflexivity. }
    destruct (IH a' (S + length_ns d) HF' W' HL) as (outs & t' & R & Pe & Wt & Lt & Len & Nth).
    exists ((length_ns p <=? length_ns a + length_ns d) :: outs), t'.
    split; [econstructor; eauto|].
    cbn [sum_ns fold_right]. change (fold_right _ 0 dts) with (sum_ns dts).
    split; [exact Pe|]. split; [exact Wt|]. split; [rewrite Lt; f_equal; ring|].
    split; [simpl; lia|].
    intros [|i] Hi.
    + cbn [nth firstn sum_ns fold_right]. rewrite !Z.add_0_r. rewrite Ha.
      apply crossing; auto. unfold ok_dt, length_ns in *; lia.
    + cbn [nth length] in *. rewrite Nth by lia.
      rewrite !firstn_cons. cbn [sum_ns fold_right].
      change (fold_right _ 0 (firstn i dts)) with (sum_ns (firstn i dts)).
      change (fold_right _ 0 (firstn (Datatypes.S i) dts)) with (sum_ns (firstn (Datatypes.S i) dts)).
      rewrite !Z.add_assoc. reflexivity.
Qed.

Definition count_true (l : list bool) : Z := fold_right (fun b z => (if b : bool then 1 else 0) + z) 0 l.

Lemma runs_det {St In Out} (step : St -> In -> option (St * Out)) s xs o1 s1 o2 s2 :
  runs step s xs o1 s1 -> runs step s xs o2 s2 -> o1 = o2 /\ s1 = s2.
Proof.
  intros R1; revert o2 s2; induction R1; intros o2 s2 R2; inversion R2; subst; auto.
  match goal with A : step _ _ = Some _, B : step _ _ = Some _ |- _ => rewrite A in B; inversion B; subst end.
  match goal with A : runs _ _ _ _ s2 |- _ => destruct (IHR1 _ _ A); subst; auto end.
Qed.

Lemma timer_fires_bound p : ok_dt p -> 0 < length_ns p ->
  forall dts a S outs t', Forall ok_dt dts -> wf_dur a -> length_ns a = S mod length_ns p ->
  runs timer_step (mkTimer a p) dts outs t' ->
  count_true outs <= (S + sum_ns dts) / length_ns p - S / length_ns p.
Proof.
  intros Hp Hp0. induction dts as [|d dts IH]; intros a S outs t' HF Wa Ha R.
  - inversion R; subst. cbn. rewrite Z.add_0_r. lia.
  - inversion HF as [|? ? Hd HF']; subst.
    pose proof (Z.mod_pos_bound S (length_ns p) Hp0) as MB. rewrite <- Ha in MB.
    destruct (timer_step_spec p a d Hp Hp0 Hd Wa MB) as (a' & St & W' & L').
    inversion R as [|? ? ? ? ? ? ? Hs Hr]; subst. rewrite St in Hs. inversion Hs; subst.
    assert (length_ns a' = (S + length_ns d) mod length_ns p) as HL.
    { rewrite L', Ha. rewrite Zplus_mod_idemp_l. reflexivity. }
    specialize (IH a' (S + length_ns d) _ _ HF' W' HL Hr).
    cbn [count_true fold_right]. fold (count_true os).
    cbn [sum_ns fold_right]. change (fold_right _ 0 dts) with (sum_ns dts).
    replace (S + (length_ns d + sum_ns dts)) with (S + length_ns d + sum_ns dts) by ring.
    rewrite Ha.
    assert (0 <= length_ns d) as Hd0 by (unfold ok_dt, length_ns in *; lia).
    rewrite crossing by auto.
    assert (S / length_ns p <= (S + length_ns d) / length_ns p) by (apply Z.div_le_mono; lia).
    destruct (Z.ltb_spec (S / length_ns p) ((S + length_ns d) / length_ns p)); lia.
Qed.

Lemma timerset_step_all ts dt :
  (forall t, In t ts -> timer_step t dt <> None) ->
  exists ts' fs, timerset_step ts dt = Some (ts', fs) /\
    map (fun t => timer_step t dt) ts = map Some (combine ts' fs) /\
    length ts' = length ts /\ length fs = length ts.
Proof.
  induction ts as [|t ts IH]; intros H.
  - exists [], []. cbn. auto.
  - destruct IH as (ts' & fs & E & M & L1 & L2). { intros; apply H; right; auto. }
    destruct (timer_step t dt) as [[t1 b]|] eqn:E1.
    + exists (t1 :: ts'), (b :: fs). cbn. rewrite E1. cbn. rewrite E. cbn.
      rewrite M. auto.
    + exfalso. apply (H t); [left; auto|auto].
Qed.

(* Running the set over a history runs every member over the same history. *)
Lemma timerset_runs : forall dts ts outs ts',
  runs timerset_step ts dts outs ts' ->
  length ts' = length ts /\
  Forall (fun fs => length fs = length ts) outs /\
  forall i t, nth_error ts i = Some t ->
    exists t', nth_error ts' i = Some t' /\
      runs timer_step t dts (map (fun fs => nth i fs false) outs) t'.
Proof.
  assert (forall ts dt ts' fs, timerset_step ts dt = Some (ts', fs) ->
    length ts' = length ts /\ length fs = length ts /\
    forall i t, nth_error ts i = Some t ->
      exists t', nth_error ts' i = Some t' /\ timer_step t dt = Some (t', nth i fs false)) as St.
  { induction ts as [|t ts IH]; intros dt ts' fs E; cbn in E.
    - inversion E; subst. repeat split; auto. intros [|i] t H; discriminate.
    - destruct (timer_step t dt) as [[t1 b]|] eqn:E1; [|discriminate]. cbn in E.
      destruct (timerset_step ts dt) as [[ts1 fs1]|] eqn:E2; [|discriminate]. cbn in E.
      inversion E; subst. destruct (IH _ _ _ E2) as (L1 & L2 & N).
      cbn. repeat split; auto.
      intros [|i] t0 H; cbn in *.
      + inversion H; subst. eauto.
      + apply N; auto. }
  intros dts ts outs ts' R. induction R as [ts|ts ts1 ts2 dt dts fs outs E R IH].
  - repeat split; auto. intros i t H. exists t. split; auto. constructor.
  - destruct (St _ _ _ _ E) as (L1 & L2 & N). destruct IH as (L1' & L2' & N').
    split; [congruence|]. split.
    + constructor; auto. eapply Forall_impl; [|exact L2']. cbn. intros; congruence.
    + intros i t H. destruct (N i t H) as (t1 & H1 & S1).
      destruct (N' i t1 H1) as (t2 & H2 & R2). exists t2. split; auto.
      cbn [map]. econstructor; eauto.
Qed.

(** ** Alarms (C13) *)

Definition alarm_step (a : alarm) (now : time UTC) := Some (alarm_check a now).

Lemma alarm_fired_silent : forall nows a outs a',
  fired a = true -> runs alarm_step a nows outs a' -> Forall (fun b => b = false) outs.
Proof.
  induction nows as [|n nows IH]; intros a outs a' F R; inversion R; subst; constructor.
  - unfold alarm_step, alarm_check in H2. rewrite F in H2. cbn in H2. inversion H2; auto.
  - unfold alarm_step, alarm_check in H2. rewrite F in H2. cbn in H2. inversion H2; subst. eauto.
Qed.

Lemma alarm_history t : 0 <= nano t < 1000000000 ->
  forall nows outs a', Forall (fun n : time UTC => 0 <= nano n < 1000000000) nows ->
  runs alarm_step (alarm_new t) nows outs a' ->
  length outs = length nows /\
  forall i n, nth_error nows i = Some n ->
    (nth i outs false = true <->
      instant t <= instant n /\
      forall j m, (j < i)%nat -> nth_error nows j = Some m -> instant m < instant t).
Proof.
  intros Ht. induction nows as [|n nows IH]; intros outs a' HF R.
  - inversion R; subst. split; auto. intros [|i] n H; discriminate.
  - inversion R as [|? ? ? ? ? ? os H2 H4]; subst. inversion HF as [|? ? Hn HF']; subst.
    unfold alarm_step, alarm_check, alarm_new in H2. cbn [fired target negb andb] in H2.
    rewrite time_leb_spec in H2 by auto.
    destruct (Z.leb_spec (instant t) (instant n)) as [L|L]; inversion H2; subst; clear H2.
    + pose proof (alarm_fired_silent nows (mkAlarm t true) os a' eq_refl H4) as Sil.
      assert (length os = length nows) as Len.
      { clear -H4. revert H4. generalize (mkAlarm t true). revert os.
        induction nows; intros os al R; inversion R; subst; cbn; auto. erewrite IHnows; eauto. }
      split; [cbn; lia|]. intros [|i] m Hm; cbn in Hm |- *.
      * inversion Hm; subst. split; auto. intros _. split; auto. intros j m' Hj; lia.
      * split.
        -- intros Hi. exfalso.
           destruct (Nat.lt_ge_cases i (length os)) as [Hl|Hl].
           ++ rewrite Forall_forall in Sil. specialize (Sil (nth i os false) (nth_In _ _ Hl)). congruence.
           ++ rewrite nth_overflow in Hi by auto. discriminate.
        -- intros (_ & Hall). specialize (Hall 0%nat n ltac:(lia) eq_refl). lia.
    + destruct (IH os a' HF' H4) as (Len & N). split; [cbn; lia|].
      intros [|i] m Hm; cbn in Hm |- *.
      * inversion Hm; subst. split; [discriminate|]. intros (? & _); lia.
      * rewrite (N i m Hm). split; intros (A & B); split; auto.
        -- intros [|j] m' Hj Hm'; cbn in Hm'.
           ++ inversion Hm'; subst; auto.
           ++ apply (B j); auto; lia.
        -- intros j m' Hj Hm'. apply (B (S j)); auto; lia.
Qed.

(** ** Interval schedules (C14) *)

Definition ok_now (n : time UTC) : Prop := - 2 ^ 60 <= sec n <= 2 ^ 60 /\ 0 <= nano n < 1000000000.

Lemma catch_up_spec p now : ok_dt p -> 0 < length_ns p -> ok_now now ->
  forall fuel next, wf_time next -> - 2 ^ 60 <= sec next <= 2 ^ 61 ->
  (instant now - instant next) / length_ns p < Z.of_nat fuel ->
  instant next <= instant now ->
  exists next', catch_up fuel p next now = Some next' /\ wf_time next' /\
    instant next' = instant next + ((instant now - instant next) / length_ns p + 1) * length_ns p.
Proof.
  intros Hp Hp0 Hn. induction fuel as [|fuel IH]; intros next Wn Bn Hf Hle.
  - exfalso. pose proof (Z.div_pos (instant now - instant next) (length_ns p) ltac:(lia) Hp0). lia.
  - cbn [catch_up]. destruct Wn as (Wn1 & Wn2).
    rewrite time_leb_spec by (auto; apply Hn).
    destruct (Z.leb_spec (instant next) (instant now)); [|lia].
    destruct (time_add_small next p) as [E W].
    { unfold small_time, in_i64 in *; lia. }
    { unfold small_dur, ok_dt in *; lia. }
    destruct (Z.le_gt_cases (instant (time_add next p)) (instant now)) as [Hle'|Hgt].
    + assert ((instant now - instant next) / length_ns p =
              (instant now - instant (time_add next p)) / length_ns p + 1) as Q.
      { rewrite E. rewrite <- Z.div_add by lia. f_equal. ring. }
      destruct (IH (time_add next p) W) as (n' & C & W' & I').
      * destruct W as (W1 & W2). unfold ok_now, ok_dt, instant, length_ns, in_i64 in *. lia.
      * lia.
      * lia.
      * exists n'. split; [exact C|]. split; [exact W'|]. rewrite I', Q, E.
        set (k := (instant now - (instant next + length_ns p)) / length_ns p). ring.
    + assert ((instant now - instant next) / length_ns p = 0) as Q by (apply Z.div_small; lia).
      exists (time_add next p). split; [|split; [exact W|rewrite Q, E; ring]].
      destruct W as (W1 & W2).
      destruct fuel; cbn [catch_up]; rewrite time_leb_spec by (auto; apply Hn);
        destruct (Z.leb_spec (instant (time_add next p)) (instant now)); auto; lia.
Qed.

(* the largest number of whole periods after [start] reached by any of the nows *)
Definition high_water (start P : Z) (nows : list (time UTC)) : Z :=
  fold_left (fun m n => Z.max m ((instant n - start) / P)) nows 0.

Lemma interval_run_gen p start : ok_dt p -> 0 < length_ns p -> ok_now start ->
  forall nows next m, Forall ok_now nows ->
  0 <= m -> wf_time next -> sec next <= 2 ^ 61 ->
  instant next = instant start + (m + 1) * length_ns p ->
  exists outs s', runs sched_check (mkSched next (Interval p)) nows outs s' /\
    pattern s' = Interval p /\ wf_time (next_fire s') /\ length outs = length nows /\
    (let hw l := fold_left (fun m n => Z.max m ((instant n - instant start) / length_ns p)) l m in
     instant (next_fire s') = instant start + (hw nows + 1) * length_ns p /\
     forall i n, nth_error nows i = Some n ->
       nth i outs false = (hw (firstn i nows) <? (instant n - instant start) / length_ns p)).
Proof.
  intros Hp Hp0 Hs. induction nows as [|n nows IH]; intros next m HF Hm Wn Bn Hn.
  - exists [], (mkSched next (Interval p)). split; [constructor|]. cbn [pattern next_fire].
    split; [reflexivity|]. split; [exact Wn|]. split; [reflexivity|]. cbn.
    split; [exact Hn|]. intros [|i] n H; discriminate.
  - inversion HF as [|? ? Hok HF']; subst.
    set (q := (instant n - instant start) / length_ns p).
    assert (exists next', sched_check (mkSched next (Interval p)) n =
              Some (mkSched next' (Interval p), m <? q) /\ wf_time next' /\ sec next' <= 2 ^ 61 /\
              instant next' = instant start + (Z.max m q + 1) * length_ns p) as St.
    { unfold sched_check. cbn [next_fire pattern].
      destruct Wn as (Wn1 & Wn2). rewrite time_ltb_spec by (auto; apply Hok).
      destruct (Z.ltb_spec (instant n) (instant next)) as [L|L].
      - assert (q <= m) as Hq.
        { apply Z.lt_succ_r. unfold q. apply Z.div_lt_upper_bound; auto.
          rewrite Hn in L. lia. }
        exists next. rewrite Z.max_l by lia.
        destruct (Z.ltb_spec m q); [lia|].
        split; [reflexivity|]. split; [split; auto|]. auto.
      - assert (m < q) as Hq.
        { unfold q. apply Z.lt_le_trans with (m + 1); [lia|].
          apply Z.div_le_lower_bound; auto. rewrite Hn in L. lia. }
        assert ((instant n - instant next) / length_ns p = q - (m + 1)) as Q.
        { unfold q. rewrite Hn. replace (instant n - (instant start + (m + 1) * length_ns p))
            with ((instant n - instant start) + (- (m + 1)) * length_ns p) by ring.
          rewrite Z.div_add by lia. ring. }
        destruct (catch_up_spec p n Hp Hp0 Hok (catch_fuel p next n) next) as (n' & C & W' & I').
        + split; auto.
        + unfold ok_now, ok_dt, instant, length_ns in *. nia.
        + unfold catch_fuel.
          change (dsec p * G + dnano p) with (length_ns p).
          replace ((sec n - sec next) * G + (nano n - nano next)) with (instant n - instant next)
            by (unfold instant, G; ring).
          rewrite Z.max_r by lia. lia.
        + exact L.
        + rewrite C. cbn [bind]. exists n'.
          destruct (Z.ltb_spec m q); [|lia]. rewrite Z.max_r by lia.
          split; [reflexivity|]. split; [exact W'|].
          assert (instant n' = instant start + (q + 1) * length_ns p) as I2.
          { rewrite I', Q, Hn. ring. }
          split; [|exact I2].
          assert (instant n' <= instant n + length_ns p) as B.
          { rewrite I2. pose proof (Z.mul_div_le (instant n - instant start) (length_ns p) Hp0).
            fold q in H0. lia. }
          destruct W' as (W1 & W2). unfold ok_now, ok_dt, instant, length_ns in *. lia. }
    destruct St as (next' & E & W' & B' & I').
    destruct (IH next' (Z.max m q) HF' ltac:(lia) W' B' I') as (outs & s' & R & Pa & Ws & Len & Fin & Nth).
    exists ((m <? q) :: outs), s'.
    split; [econstructor; eauto|]. split; [exact Pa|]. split; [exact Ws|].
    split; [cbn; lia|]. split.
    + cbn [fold_left]. fold q. exact Fin.
    + intros [|i] n0 H0; cbn in H0 |- *.
      * inversion H0; subst. reflexivity.
      * fold q. apply Nth; auto.
Qed.
