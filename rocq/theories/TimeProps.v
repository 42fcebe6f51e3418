(** Properties C01-C17 (crates/aether_time).  [instant] and [length_ns] are the
    nanosecond counts denoted by a time and a duration, [wf_*] says "fields in the
    machine's range and nanoseconds in [0,1e9)", [runs step s xs outs s'] is "feeding
    the history [xs] gives outputs [outs]" (all in TimeSpec.v). *)
From Coq Require Import ZArith Lia Bool List ZifyBool.
From Verif Require Import Machine TimeModel TimeSpec TimeProofs TimerProofs
  CalendarCheck CalendarProofs ScheduleProofs.
Import ListNotations.
Open Scope Z_scope.

(** *** C01 *)
Theorem C01_add_then_subtract : forall s (t : time s) (d : duration),
  wf_time t -> wf_dur d -> time_sub (time_add t d) t = d.
Proof. intros; apply add_sub_roundtrip; auto. Qed.

Theorem C01_subtract_then_add : forall s (t u : time s),
  wf_time t -> wf_time u -> time_add t (time_sub u t) = u.
Proof. intros; apply sub_add_roundtrip; auto. Qed.

Theorem C01_add_exact : forall s (t : time s) (d : duration),
  wf_time t -> wf_dur d ->
  in_i64 ((instant t + length_ns d) / 1000000000) ->
  instant (time_add t d) = instant t + length_ns d /\ wf_time (time_add t d).
Proof. intros; apply time_add_exact; auto. Qed.

Theorem C01_sub_exact : forall s (a b : time s),
  wf_time a -> wf_time b ->
  in_i64 ((instant a - instant b) / 1000000000) ->
  length_ns (time_sub a b) = instant a - instant b /\ wf_dur (time_sub a b).
Proof. intros; apply time_sub_exact; auto. Qed.

(* overflow-checked (debug) builds do not panic while |seconds| <= 2^61 *)
Theorem C01_no_panic : forall s (t u : time s) (d : duration),
  small_time t -> small_time u -> small_dur d ->
  time_add_checked t d = Some (time_add t d) /\ time_sub_checked t u = Some (time_sub t u).
Proof. intros; split; [apply time_add_no_panic|apply time_sub_no_panic]; auto. Qed.

Example C01_nontrivial :
  wf_time (mkTime 1700000000 999999999 : time UTC) /\ wf_dur (mkDur (-5) 2) /\
  time_add (mkTime 1700000000 999999999 : time UTC) (mkDur (-5) 2) = mkTime 1699999996 1.
Proof. vm_compute. intuition congruence. Qed.

(** *** C02 *)
Theorem C02_constructors_exact : forall n,
  in_i64 n ->
  (length_ns (from_secs n) = n * 1000000000 /\ wf_dur (from_secs n)) /\
  (length_ns (from_millis n) = n * 1000000 /\ wf_dur (from_millis n)) /\
  (length_ns (from_micros n) = n * 1000 /\ wf_dur (from_micros n)).
Proof.
  intros n H. split; [|split; [apply from_millis_exact|apply from_micros_exact]; auto].
  unfold length_ns, wf_dur, from_secs; cbn. unfold in_i64 in *; lia.
Qed.

Theorem C02_arithmetic_exact : forall a b,
  small_dur a -> small_dur b ->
  (length_ns (dur_add a b) = length_ns a + length_ns b /\ wf_dur (dur_add a b)) /\
  (length_ns (dur_sub a b) = length_ns a - length_ns b /\ wf_dur (dur_sub a b)) /\
  dur_add_checked a b = Some (dur_add a b) /\ dur_sub_checked a b = Some (dur_sub a b).
Proof.
  intros; repeat split; try (apply dur_add_exact; auto); try (apply dur_sub_exact; auto);
    auto using dur_add_no_panic, dur_sub_no_panic.
Qed.

(* from_nanos has the right value, but is normalised only for n >= 0 *)
Theorem C02_from_nanos_partial : forall n,
  in_i64 n -> length_ns (from_nanos n) = n /\ (0 <= n -> wf_dur (from_nanos n)).
Proof. intros n H; destruct (from_nanos_exact n H) as (A & B & _); auto. Qed.

Theorem C02_from_nanos_refuted : exists n,
  in_i64 n /\ ~ wf_dur (from_nanos n).
Proof. exists (-1). unfold in_i64, wf_dur. vm_compute. intuition congruence. Qed.

(* ... and the missing normalisation is observable: two equal durations compare unequal *)
Theorem C02_from_nanos_equality_refuted : exists n,
  in_i64 n /\ length_ns (from_nanos n) = length_ns (from_millis (-1500)) /\
  dur_cmp (from_nanos n) (from_millis (-1500)) <> Eq.
Proof. exists (-1500000000). vm_compute. intuition congruence. Qed.

Example C02_nontrivial : small_dur (mkDur 3 999999999) /\ small_dur (mkDur (-7) 5) /\
  from_millis (-1500) = mkDur (-2) 500000000.
Proof. vm_compute. intuition congruence. Qed.

(** *** C03 *)
Theorem C03_time_order : forall s (a b : time s),
  wf_time a -> wf_time b ->
  time_cmp a b = (instant a ?= instant b) /\
  (time_ltb a b = true <-> instant a < instant b) /\
  (time_leb a b = true <-> instant a <= instant b) /\
  (time_eqb a b = true <-> instant a = instant b).
Proof.
  intros s a b (A1 & A2) (B1 & B2). rewrite time_cmp_spec, time_ltb_spec, time_leb_spec by auto.
  split; [reflexivity|]. split; [lia|]. split; [lia|].
  unfold time_eqb, instant. lia.
Qed.

Theorem C03_duration_order : forall a b,
  wf_dur a -> wf_dur b ->
  dur_cmp a b = (length_ns a ?= length_ns b) /\
  (dur_ltb a b = true <-> length_ns a < length_ns b) /\
  (dur_leb a b = true <-> length_ns a <= length_ns b) /\
  (length_ns a = length_ns b -> a = b).
Proof.
  intros a b (A1 & A2) (B1 & B2). rewrite dur_cmp_spec, dur_ltb_spec, dur_leb_spec by auto.
  split; [reflexivity|]. split; [lia|]. split; [lia|]. apply length_inj; auto.
Qed.

Theorem C03_add_monotone : forall s (a b : time s) d,
  small_time a -> small_time b -> small_dur d ->
  time_cmp (time_add a d) (time_add b d) = time_cmp a b.
Proof.
  intros s a b d Ha Hb Hd.
  destruct (time_add_small a d Ha Hd) as [Ea Wa]. destruct (time_add_small b d Hb Hd) as [Eb Wb].
  rewrite !time_cmp_spec by (first [apply Wa|apply Wb|apply Ha|apply Hb]).
  rewrite Ea, Eb. rewrite (Z.add_comm (instant a)), (Z.add_comm (instant b)).
  apply Zcompare_plus_compat.
Qed.

Example C03_nontrivial :
  time_cmp (mkTime 5 999999999 : time TAI) (mkTime 6 0) = Lt /\
  small_time (mkTime 5 999999999 : time TAI).
Proof. vm_compute. intuition congruence. Qed.

(** *** C04 *)
Theorem C04_round_trips : forall l,
  (forall t : time Unix, utc_to_unix (unix_to_utc t) = t) /\
  (forall t : time UTC, unix_to_utc (utc_to_unix t) = t) /\
  (forall t : time UTC, in_i64 (sec t) -> tai_to_utc l (utc_to_tai l t) = t) /\
  (forall t : time TAI, in_i64 (sec t) -> utc_to_tai l (tai_to_utc l t) = t) /\
  (forall t : time UTC, in_i64 (sec t) -> gps_to_utc l (utc_to_gps l t) = t) /\
  (forall t : time GPS, in_i64 (sec t) -> utc_to_gps l (gps_to_utc l t) = t) /\
  (forall t : time GPS, in_i64 (sec t) -> tai_to_gps l (gps_to_tai l t) = t) /\
  (forall t : time TAI, in_i64 (sec t) -> gps_to_tai l (tai_to_gps l t) = t).
Proof.
  intros l. destruct (scale_roundtrips l) as (A & B & C & D).
  destruct (gps_tai_roundtrips l) as (E & F).
  repeat split; auto; intros t; destruct t; reflexivity.
Qed.

(* the documented offsets; nanoseconds are untouched *)
Theorem C04_offsets : forall l,
  - 2 ^ 30 <= l <= 2 ^ 30 ->
  (forall t : time UTC, small_time t -> utc_to_tai l t = mkTime (sec t + (10 + l)) (nano t)) /\
  (forall t : time UTC, small_time t ->
      utc_to_gps l t = mkTime (sec t - 315964800 + (10 + l) - 19) (nano t)) /\
  (forall t : time GPS, small_time t ->
      gps_to_tai l t = mkTime (sec t + 315964800 + 19) (nano t)).
Proof.
  intros l H. destruct (scale_values l H) as (A & B & C & D).
  repeat split; intros t Ht.
  - rewrite A by auto. f_equal; lia.
  - rewrite C by auto. f_equal; lia.
  - apply gps_tai_offset; unfold in_i64, in_i32, small_time in *; lia.
Qed.

(* all conversion paths commute *)
Theorem C04_paths_agree : forall l (t : time UTC), in_i64 (sec t) ->
  gps_to_tai l (utc_to_gps l t) = utc_to_tai l t /\
  tai_to_gps l (utc_to_tai l t) = utc_to_gps l t.
Proof.
  intros l t H. destruct (scale_roundtrips l) as (A & B & C & D).
  unfold gps_to_tai, tai_to_gps, gps_to_tai_loads, tai_to_gps_loads.
  rewrite C, A by auto. auto.
Qed.

(* the GPS epoch: 1980-01-06T00:00:00 UTC, when TAI-UTC was 19 s, is GPS time 0 *)
Theorem C04_gps_epoch :
  utc_to_gps 9 (from_utc_datetime (mkDT 1980 1 6 0 0 0 0)) = mkTime 0 0.
Proof. vm_compute. reflexivity. Qed.

Theorem C04_differences_preserved : forall l (a b : time UTC),
  - 2 ^ 30 <= l <= 2 ^ 30 -> small_time a -> small_time b ->
  time_sub (utc_to_tai l a) (utc_to_tai l b) = time_sub a b /\
  time_sub (utc_to_gps l a) (utc_to_gps l b) = time_sub a b /\
  time_cmp (utc_to_tai l a) (utc_to_tai l b) = time_cmp a b /\
  time_cmp (utc_to_gps l a) (utc_to_gps l b) = time_cmp a b.
Proof.
  intros l a b Hl Ha Hb. destruct (scale_values l Hl) as (A & _ & C & _).
  rewrite !A, !C by auto. unfold time_sub, time_cmp; cbn [sec nano].
  repeat split.
  - replace (sec a + 10 + l - (sec b + 10 + l)) with (sec a - sec b) by ring. reflexivity.
  - replace (sec a - 315964800 + l - 9 - (sec b - 315964800 + l - 9)) with (sec a - sec b) by ring.
    reflexivity.
  - replace (sec a + 10 + l) with ((10 + l) + sec a) by ring.
    replace (sec b + 10 + l) with ((10 + l) + sec b) by ring.
    rewrite Zcompare_plus_compat. reflexivity.
  - replace (sec a - 315964800 + l - 9) with ((l - 315964809) + sec a) by ring.
    replace (sec b - 315964800 + l - 9) with ((l - 315964809) + sec b) by ring.
    rewrite Zcompare_plus_compat. reflexivity.
Qed.

Example C04_nontrivial : small_time (mkTime 1700000000 5 : time UTC) /\
  utc_to_gps 27 (mkTime 1700000000 5) = mkTime 1384035218 5.
Proof. vm_compute. intuition congruence. Qed.

(** *** C05: a leap-second update between the two loads of GPS->TAI is visible *)
Theorem C05_atomic_conversion_refuted : exists (t : time GPS) l1 l2,
  small_time t /\ gps_to_tai_loads l1 l2 t <> gps_to_tai l1 t /\
  gps_to_tai_loads l1 l2 t <> gps_to_tai l2 t.
Proof. exists (mkTime 1000 0), 27, 28. vm_compute. intuition congruence. Qed.

(* without an interleaved update (or with one that changes nothing) it is atomic; the
   error is exactly the change of the setting; single-load conversions are always atomic *)
Theorem C05_atomic_conversion_partial : forall l1 l2 (t : time GPS),
  - 2 ^ 30 <= l1 <= 2 ^ 30 -> - 2 ^ 30 <= l2 <= 2 ^ 30 ->
  - 2 ^ 60 <= sec t <= 2 ^ 60 -> 0 <= nano t < 1000000000 ->
  sec (gps_to_tai_loads l1 l2 t) = sec (gps_to_tai l1 t) + (l2 - l1) /\
  nano (gps_to_tai_loads l1 l2 t) = nano t.
Proof.
  intros l1 l2 t H1 H2 H3 H4.
  assert (small_time t) as St by (unfold small_time; lia).
  unfold gps_to_tai, gps_to_tai_loads.
  destruct (scale_values l1 H1) as (A1 & _ & _ & D1). destruct (scale_values l2 H2) as (A2 & _ & _ & D2).
  rewrite D1 by auto.
  rewrite A1, A2 by (unfold small_time; cbn [sec nano]; lia). cbn [sec nano]. lia.
Qed.
Example C05_nontrivial : gps_to_tai_loads 27 28 (mkTime 1000 7) = mkTime 315965820 7.
Proof. vm_compute. reflexivity. Qed.

(** *** C06 *)
Theorem C06_gps_week_partial : forall (t : time GPS) hint,
  0 <= sec t -> in_i64 (sec t) -> 512 <= hint <= 2 ^ 32 - 1024 ->
  let w := to_gps_week t hint in
  let true_week := sec t / 604800 in
  sow w = sec t mod 604800 /\ raw_week w = true_week mod 1024 /\
  (full_week w - true_week) mod 1024 = 0 /\ Z.abs (full_week w - hint) <= 512 /\
  (Z.abs (true_week - hint) < 512 -> full_week w = true_week).
Proof.
  intros t hint H0 H1 H2. cbv zeta.
  destruct (to_gps_week_spec t hint H0 H1 ltac:(lia)) as (A & B & C).
  destruct (C H2) as (D & E).
  repeat split; auto. intros; apply to_gps_week_recovers; auto.
Qed.

(* a hint below 512 can give a negative week, which the cast turns into about 4.29e9 *)
Theorem C06_small_hint_refuted : exists (t : time GPS) hint,
  0 <= sec t /\ in_i64 (sec t) /\ in_u32 hint /\
  ~ Z.abs (full_week (to_gps_week t hint) - hint) <= 512.
Proof. exists (mkTime (1000 * 604800) 0), 0. vm_compute. intuition congruence. Qed.

(* GPS times before the GPS epoch get a wrapped raw week and a negative second of week *)
Theorem C06_negative_time_refuted : exists (t : time GPS) hint,
  in_i64 (sec t) /\ 512 <= hint <= 2 ^ 32 - 1024 /\ sow (to_gps_week t hint) < 0.
Proof. exists (mkTime (-1) 0), 2000. vm_compute. intuition congruence. Qed.

Example C06_nontrivial : to_gps_week (mkTime (2200 * 604800 + 345) 0) 2060 = mkWeek 152 345 2200.
Proof. vm_compute. reflexivity. Qed.

(** *** C07 *)
Theorem C07_elapsed_exact : forall ticks0 now tps,
  in_u64 ticks0 -> in_u64 now -> 1 < tps < 2 ^ 64 ->
  let dt := (now - ticks0) mod 2 ^ 64 in
  exists d, duration_from_ticks ticks0 tps now = Some d /\ wf_dur d /\
    length_ns d = dt * 1000000000 / tps /\
    (forall s, t_plus (s := s) ticks0 tps now = Some (mkTime (dsec d) (dnano d))) /\
    (forall start, now_tai start ticks0 tps now = Some (time_add start d)).
Proof.
  intros t0 now tps H0 H1 H2 dt.
  assert (0 <= dt < 2 ^ 64) as Hdt by (apply Z.mod_pos_bound; lia).
  assert (dt / tps < 2 ^ 63) as Hq.
  { apply Z.div_lt_upper_bound; lia. }
  destruct (ticks_to_duration_exact tps dt ltac:(lia) ltac:(lia) Hq) as (d & E & W & L).
  exists d. unfold t_plus, now_tai, duration_from_ticks, u64. fold dt. rewrite E. cbn [bind]. auto.
Qed.

(* in terms of a true, unbounded tick count T >= T0: wrap-around of the 64-bit counter is
   invisible for up to 2^64 - 1 elapsed ticks, and elapsed time is monotone *)
Theorem C07_wrap_invisible : forall T0 T T' tps,
  1 < tps < 2 ^ 64 -> T0 <= T <= T' -> T' - T0 < 2 ^ 64 ->
  exists d d',
    duration_from_ticks (T0 mod 2 ^ 64) tps (T mod 2 ^ 64) = Some d /\
    duration_from_ticks (T0 mod 2 ^ 64) tps (T' mod 2 ^ 64) = Some d' /\
    length_ns d * tps <= (T - T0) * 1000000000 < (length_ns d + 1) * tps /\
    length_ns d <= length_ns d'.
Proof.
  intros T0 T T' tps Ht H1 H2.
  assert (forall X, T0 <= X -> X - T0 < 2 ^ 64 -> exists d,
    duration_from_ticks (T0 mod 2 ^ 64) tps (X mod 2 ^ 64) = Some d /\
    length_ns d = (X - T0) * 1000000000 / tps) as A.
  { intros X HX HX2.
    destruct (C07_elapsed_exact (T0 mod 2 ^ 64) (X mod 2 ^ 64) tps) as (d & E & _ & L & _);
      try (apply Z.mod_pos_bound; lia); auto.
    exists d. split; auto. rewrite L. f_equal. f_equal.
    rewrite <- Zminus_mod. apply Z.mod_small; lia. }
  destruct (A T ltac:(lia) ltac:(lia)) as (d & E & L). destruct (A T' ltac:(lia) ltac:(lia)) as (d' & E' & L').
  exists d, d'. split; auto. split; auto. rewrite L, L'. split.
  - pose proof (Z.div_mod ((T - T0) * 1000000000) tps ltac:(lia)).
    pose proof (Z.mod_pos_bound ((T - T0) * 1000000000) tps ltac:(lia)). lia.
  - apply floor_mono; lia.
Qed.

(* at 1 tick per second the seconds field itself can overflow i64 *)
Theorem C07_one_hertz_refuted : exists ticks0 now d,
  in_u64 ticks0 /\ in_u64 now /\ duration_from_ticks ticks0 1 now = Some d /\ dsec d < 0.
Proof. exists 0, (2 ^ 63), (mkDur (- 2 ^ 63) 0). vm_compute. intuition congruence. Qed.

(* a zero tick rate panics *)
Theorem C07_zero_rate_panics : forall ticks0 now, duration_from_ticks ticks0 0 now = None.
Proof. reflexivity. Qed.

Example C07_nontrivial :
  duration_from_ticks (2 ^ 64 - 100) 168000000 200 = Some (mkDur 0 1785).
Proof. vm_compute. reflexivity. Qed.

(** *** C08: [readings T ds] are the counter values (mod 2^64) when the true tick count
    starts at [T] and advances by the increments [ds] *)
Theorem C08_step_deltas : forall tps T ds,
  0 < tps -> Forall (fun d => 0 <= d < 2 ^ 64 /\ d / tps < 2 ^ 63) ds ->
  exists outs,
    runs (dt_from_ticks tps) (T mod 2 ^ 64) (readings T ds) outs ((T + sumZ ds) mod 2 ^ 64) /\
    length outs = length ds /\ Forall wf_dur outs /\
    sum_ns outs * tps <= sumZ ds * 1000000000 <=
      sum_ns outs * tps + Z.of_nat (length ds) * (tps - 1) /\
    (1000000000 mod tps = 0 -> sum_ns outs * tps = sumZ ds * 1000000000).
Proof. intros; apply dt_history; auto. Qed.

Example C08_nontrivial :
  runs (dt_from_ticks 3) ((2 ^ 64 - 1) mod 2 ^ 64) (readings (2 ^ 64 - 1) [1; 4; 2])
    [mkDur 0 333333333; mkDur 1 333333333; mkDur 0 666666666] 6.
Proof. repeat (econstructor; [vm_compute; reflexivity|]). constructor. Qed.

(** *** C09: [ok_dt d] is "0 <= d < 2^60 s, normalised" *)
Theorem C09_timer_history : forall p dts,
  ok_dt p -> 0 < length_ns p -> Forall ok_dt dts ->
  exists outs t', runs timer_step (timer_new p) dts outs t' /\
    length outs = length dts /\ period t' = p /\ wf_dur (acc t') /\
    length_ns (acc t') = sum_ns dts mod length_ns p /\
    (forall i, (i < length dts)%nat ->
      nth i outs false =
        (sum_ns (firstn i dts) / length_ns p <? sum_ns (firstn (S i) dts) / length_ns p)) /\
    count_true outs <= sum_ns dts / length_ns p.
Proof.
  intros p dts Hp H0 HF.
  assert (wf_dur dur_zero) as W by (unfold wf_dur, in_i64; cbn; lia).
  destruct (timer_run_gen p Hp H0 dts dur_zero 0 HF W eq_refl)
    as (outs & t' & R & P & Wt & L & Len & N).
  exists outs, t'. repeat (split; [first [exact R|exact P|exact Wt|exact Len|exact L]|]).
  split; [exact N|].
  pose proof (timer_fires_bound p Hp H0 dts dur_zero 0 outs t' HF W eq_refl R) as B.
  rewrite Z.div_0_l, Z.sub_0_r in B by lia. exact B.
Qed.

(* if every step is at most one period long, no boundary is missed *)
Theorem C09_no_missed_fire : forall p dts outs t',
  ok_dt p -> 0 < length_ns p -> Forall ok_dt dts ->
  Forall (fun d => length_ns d <= length_ns p) dts ->
  runs timer_step (timer_new p) dts outs t' ->
  count_true outs = sum_ns dts / length_ns p.
Proof.
  intros p dts outs t' Hp H0 HF HS R.
  assert (forall dts a S outs t', Forall ok_dt dts -> Forall (fun d => length_ns d <= length_ns p) dts ->
    wf_dur a -> length_ns a = S mod length_ns p ->
    runs timer_step (mkTimer a p) dts outs t' ->
    count_true outs = (S + sum_ns dts) / length_ns p - S / length_ns p) as A.
  { clear dts outs t' HF HS R. induction dts as [|d dts IH]; intros a S outs t' HF HS Wa Ha R.
    - inversion R; subst. cbn. rewrite Z.add_0_r. lia.
    - inversion HF as [|? ? Hd HF']; subst. inversion HS as [|? ? Hd2 HS']; subst.
      pose proof (Z.mod_pos_bound S (length_ns p) H0) as MB. rewrite <- Ha in MB.
      destruct (timer_step_spec p a d Hp H0 Hd Wa MB) as (a' & St & W' & L').
      inversion R as [|? ? ? ? ? ? ? Hs Hr]; subst. rewrite St in Hs. inversion Hs; subst.
      assert (length_ns a' = (S + length_ns d) mod length_ns p) as HL.
      { rewrite L', Ha. rewrite Zplus_mod_idemp_l. reflexivity. }
      specialize (IH a' (S + length_ns d) _ _ HF' HS' W' HL Hr).
      cbn [count_true fold_right]. fold (count_true os).
      cbn [sum_ns fold_right]. change (fold_right _ 0 dts) with (sum_ns dts).
      replace (S + (length_ns d + sum_ns dts)) with (S + length_ns d + sum_ns dts) by ring.
      rewrite Ha.
      assert (0 <= length_ns d) as Hd0 by (unfold ok_dt, length_ns in *; lia).
      rewrite crossing by auto.
      assert (S / length_ns p <= (S + length_ns d) / length_ns p) by (apply Z.div_le_mono; lia).
      assert ((S + length_ns d) / length_ns p <= S / length_ns p + 1).
      { replace (S / length_ns p + 1) with ((S + 1 * length_ns p) / length_ns p)
          by (rewrite Z.div_add by lia; reflexivity).
        apply Z.div_le_mono; lia. }
      destruct (Z.ltb_spec (S / length_ns p) ((S + length_ns d) / length_ns p)); lia. }
  assert (wf_dur dur_zero) as W by (unfold wf_dur, in_i64; cbn; lia).
  pose proof (A dts dur_zero 0 outs t' HF HS W eq_refl R) as B.
  rewrite Z.div_0_l, Z.sub_0_r in B by lia. exact B.
Qed.

(* with a zero period step never returns: its inner loop runs for ever *)
Theorem C09_zero_period_diverges : forall a, wf_dur a -> small_dur a -> 0 <= length_ns a ->
  forall fuel, drain fuel (mkDur 0 0) a = None.
Proof.
  intros a W S H fuel. apply drain_nonpositive_diverges; auto.
  unfold wf_dur, in_i64; cbn; lia.
Qed.

Example C09_nontrivial :
  ok_dt (mkDur 1 500000000) /\
  runs timer_step (timer_new (mkDur 1 500000000)) [mkDur 1 0; mkDur 1 0; mkDur 7 0]
    [false; true; true] (mkTimer (mkDur 0 0) (mkDur 1 500000000)).
Proof.
  split; [vm_compute; intuition congruence|].
  repeat (econstructor; [vm_compute; reflexivity|]). constructor.
Qed.

(** *** C10 *)
Theorem C10_timers_independent : forall dts ts outs ts',
  runs timerset_step ts dts outs ts' ->
  length ts' = length ts /\ Forall (fun fs => length fs = length ts) outs /\
  forall i t, nth_error ts i = Some t ->
    exists t', nth_error ts' i = Some t' /\
      runs timer_step t dts (map (fun fs => nth i fs false) outs) t'.
Proof. intros dts ts outs ts' R. exact (timerset_runs dts ts outs ts' R). Qed.

(* and the set can be run whenever its members can *)
Theorem C10_set_runs : forall ps dts,
  Forall (fun p => ok_dt p /\ 0 < length_ns p) ps -> Forall ok_dt dts ->
  exists outs ts', runs timerset_step (timerset_new ps) dts outs ts'.
Proof.
  intros ps dts HP HF.
  assert (forall dts ts, Forall ok_dt dts ->
    Forall (fun t => ok_dt (period t) /\ 0 < length_ns (period t) /\ wf_dur (acc t) /\
                     0 <= length_ns (acc t) < length_ns (period t)) ts ->
    exists outs ts', runs timerset_step ts dts outs ts') as A.
  { clear. induction dts as [|d dts IH]; intros ts HF HT.
    - exists [], ts. constructor.
    - inversion HF as [|? ? Hd HF']; subst.
      assert (exists ts' fs, timerset_step ts d = Some (ts', fs) /\
        Forall (fun t => ok_dt (period t) /\ 0 < length_ns (period t) /\ wf_dur (acc t) /\
                     0 <= length_ns (acc t) < length_ns (period t)) ts') as (ts' & fs & E & I).
      { induction HT as [|t ts (P1 & P2 & P3 & P4) HT IHT].
        - exists [], []. auto.
        - destruct IHT as (ts' & fs & E & I). destruct t as [a p]. cbn [acc period] in *.
          destruct (timer_step_spec p a d P1 P2 Hd P3 P4) as (a' & St & W' & L').
          exists (mkTimer a' p :: ts'), ((length_ns p <=? length_ns a + length_ns d) :: fs).
          cbn [timerset_step]. rewrite St. cbn [bind]. rewrite E. cbn [bind fst snd].
          split; [reflexivity|]. constructor; auto. cbn [acc period].
          repeat split; auto; try apply P1; try apply W';
            rewrite L'; apply Z.mod_pos_bound; lia. }
      destruct (IH ts' HF' I) as (outs & ts'' & R).
      exists (fs :: outs), ts''. econstructor; eauto. }
  apply A; auto. unfold timerset_new. rewrite Forall_map.
  eapply Forall_impl; [|exact HP]. intros p (P1 & P2). cbn [acc period timer_new].
  repeat split; auto; try apply P1; try (unfold dur_zero, in_i64; cbn; lia).
Qed.

Example C10_nontrivial :
  runs timerset_step (timerset_new [mkDur 1 0; mkDur 3 0]) [mkDur 2 0; mkDur 1 0]
    [[true; false]; [true; true]] [mkTimer (mkDur 0 0) (mkDur 1 0); mkTimer (mkDur 0 0) (mkDur 3 0)].
Proof. repeat (econstructor; [vm_compute; reflexivity|]). constructor. Qed.

(** *** C11: [date_after n] is 1970-01-01 advanced by [n] calendar days ([tomorrow]),
    [last_sec] the last second of year 2147483647 *)
Theorem C11_calendar_partial : forall t : time UTC,
  0 <= sec t <= last_sec ->
  let c := to_utc_datetime t in
  (year c, month c, day c) = date_after (Z.to_nat (sec t / 86400)) /\
  valid_date (year c) (month c) (day c) /\
  hour c = (sec t / 3600) mod 24 /\ minute c = (sec t / 60) mod 60 /\
  second c = sec t mod 60 /\ nanos c = nano t.
Proof.
  intros t H. cbv zeta. pose proof (to_utc_datetime_spec t H) as E.
  rewrite <- civil_iter. rewrite Z2Nat.id by (apply Z.div_pos; lia).
  pose proof (civil_valid (sec t / 86400)) as V.
  destruct (civil (sec t / 86400)) as [[y m] d]. rewrite E. cbn.
  repeat split; auto; apply valid_dateb_spec in V; apply V.
Qed.

(* before 1970 the time-of-day fields come out of range *)
Theorem C11_before_1970_refuted : exists t : time UTC,
  in_i64 (sec t) /\ ~ second (to_utc_datetime t) < 60.
Proof. exists (mkTime (-1) 0). vm_compute. intuition congruence. Qed.

(* and far in the future the year wraps to a negative number *)
Theorem C11_far_future_refuted : exists t : time UTC,
  in_i64 (sec t) /\ 0 <= sec t /\ year (to_utc_datetime t) < 0.
Proof. exists (mkTime 67767976233532800 0). vm_compute. intuition congruence. Qed.

Example C11_nontrivial :
  to_utc_datetime (mkTime 951782400 7) = mkDT 2000 2 29 0 0 0 7.
Proof. vm_compute. reflexivity. Qed.

(** *** C12 *)
Theorem C12_round_trip_time : forall t : time UTC,
  0 <= sec t <= last_sec -> from_utc_datetime (to_utc_datetime t) = t.
Proof. exact from_to. Qed.

Theorem C12_round_trip_datetime : forall c,
  1970 <= year c <= 2147483647 -> valid_datetime c ->
  to_utc_datetime (from_utc_datetime c) = c.
Proof. intros c H V. apply (to_from c H V). Qed.

Theorem C12_monotone : forall a b,
  1970 <= year a -> 1970 <= year b -> valid_datetime a -> valid_datetime b ->
  datetime_lt a b -> instant (from_utc_datetime a) < instant (from_utc_datetime b).
Proof. exact from_mono. Qed.

Example C12_nontrivial : valid_datetime (mkDT 2024 2 29 23 59 59 999999999) /\
  sec (from_utc_datetime (mkDT 2024 2 29 23 59 59 999999999)) = 1709251199.
Proof. vm_compute. intuition congruence. Qed.

(** *** C13 *)
Theorem C13_alarm_once : forall t nows outs a',
  0 <= nano t < 1000000000 ->
  Forall (fun n : time UTC => 0 <= nano n < 1000000000) nows ->
  runs alarm_step (alarm_new t) nows outs a' ->
  length outs = length nows /\
  forall i n, nth_error nows i = Some n ->
    (nth i outs false = true <->
      instant t <= instant n /\
      forall j m, (j < i)%nat -> nth_error nows j = Some m -> instant m < instant t).
Proof. intros t nows outs a' Ht HF R. exact (alarm_history t Ht nows outs a' HF R). Qed.

Example C13_nontrivial :
  runs alarm_step (alarm_new (mkTime 10 0))
    [mkTime 9 999999999; mkTime 10 0; mkTime 5 0; mkTime 11 0] [false; true; false; false]
    (mkAlarm (mkTime 10 0) true).
Proof. repeat (econstructor; [vm_compute; reflexivity|]). constructor. Qed.

(** *** C14: [high_water start P nows] = the most whole periods since [start] seen so far *)
Theorem C14_interval_history : forall start p nows,
  ok_now start -> ok_dt p -> 0 < length_ns p -> Forall ok_now nows ->
  exists outs s', runs sched_check (sched_new start (Interval p)) nows outs s' /\
    length outs = length nows /\
    instant (next_fire s') =
      instant start + (high_water (instant start) (length_ns p) nows + 1) * length_ns p /\
    forall i n, nth_error nows i = Some n ->
      nth i outs false =
        (high_water (instant start) (length_ns p) (firstn i nows)
           <? (instant n - instant start) / length_ns p).
Proof.
  intros start p nows Hs Hp H0 HF.
  destruct (time_add_small start p) as [E W].
  { unfold small_time, ok_now in *; lia. }
  { unfold small_dur, ok_dt in *; lia. }
  destruct (interval_run_gen p start Hp H0 Hs nows (time_add start p) 0 HF ltac:(lia) W)
    as (outs & s' & R & _ & _ & Len & I & N).
  - destruct W as (W1 & W2). unfold ok_now, ok_dt, instant, length_ns in *. lia.
  - rewrite E. ring.
  - exists outs, s'. split; [exact R|]. split; [exact Len|]. split; [exact I|exact N].
Qed.

(* after a fire the next fire time is later than now and at most one period later *)
Theorem C14_next_fire_bounds : forall start p nows n outs s' s'',
  ok_now start -> ok_dt p -> 0 < length_ns p -> Forall ok_now nows -> ok_now n ->
  runs sched_check (sched_new start (Interval p)) nows outs s' ->
  sched_check s' n = Some (s'', true) ->
  instant n < instant (next_fire s'') <= instant n + length_ns p.
Proof.
  intros start p nows n outs s' s'' Hs Hp H0 HF Hn R St.
  destruct (C14_interval_history start p nows Hs Hp H0 HF) as (o1 & s1 & R1 & L1 & _).
  destruct (runs_det _ _ _ _ _ _ _ R R1) as [<- <-].
  assert (Forall ok_now (nows ++ [n])) as HF2 by (apply Forall_app; auto).
  destruct (C14_interval_history start p (nows ++ [n]) Hs Hp H0 HF2) as (o2 & s2 & R2 & L2 & I2 & N2).
  assert (runs sched_check (sched_new start (Interval p)) (nows ++ [n]) (outs ++ [true]) s'') as R3.
  { clear -R St. induction R; cbn.
    - econstructor; [exact St|constructor].
    - econstructor; eauto. }
  destruct (runs_det _ _ _ _ _ _ _ R2 R3) as [-> ->].
  specialize (N2 (length nows) n).
  rewrite nth_error_app2, Nat.sub_diag in N2 by lia. specialize (N2 eq_refl).
  rewrite app_nth2 in N2 by lia. rewrite L1, Nat.sub_diag in N2. cbn [nth] in N2.
  rewrite firstn_app, Nat.sub_diag, firstn_all, firstn_O, app_nil_r in N2.
  symmetry in N2. apply Z.ltb_lt in N2.
  rewrite I2. unfold high_water in *. rewrite fold_left_app. cbn [fold_left].
  set (hw := fold_left _ nows 0) in *. rewrite Z.max_r by lia.
  pose proof (Z.div_mod (instant n - instant start) (length_ns p) ltac:(lia)).
  pose proof (Z.mod_pos_bound (instant n - instant start) (length_ns p) H0).
  lia.
Qed.

(* a zero period makes the catch-up loop run for ever *)
Theorem C14_zero_period_diverges : forall next now : time UTC,
  small_time next -> 0 <= nano now < 1000000000 -> instant next <= instant now ->
  forall fuel, catch_up fuel (mkDur 0 0) next now = None.
Proof.
  intros next now Hn Hw Hle fuel. induction fuel as [|fuel IH]; cbn [catch_up];
    rewrite time_leb_spec by (auto; apply Hn);
    destruct (Z.leb_spec (instant next) (instant now)); try lia; auto.
  destruct (time_add_small next (mkDur 0 0) Hn) as [E W]; [unfold small_dur; cbn; lia|].
  replace (time_add next (mkDur 0 0)) with next; [exact IH|].
  apply instant_inj; [apply Hn|apply W|]. rewrite E. unfold length_ns; cbn. lia.
Qed.

Example C14_nontrivial :
  ok_now (mkTime 100 0) /\ ok_dt (mkDur 10 0) /\
  runs sched_check (sched_new (mkTime 100 0) (Interval (mkDur 10 0)))
    [mkTime 109 0; mkTime 145 0; mkTime 149 0; mkTime 150 0] [false; true; false; true]
    (mkSched (mkTime 160 0) (Interval (mkDur 10 0))).
Proof.
  split; [vm_compute; intuition congruence|]. split; [vm_compute; intuition congruence|].
  repeat (econstructor; [vm_compute; reflexivity|]). constructor.
Qed.

(** *** C15 *)
Theorem C15_next_hourly : forall (a : time UTC) mi s,
  0 <= sec a <= 2 ^ 62 -> 0 <= nano a < 1000000000 -> 0 <= mi < 60 -> 0 <= s < 60 ->
  let r := next_fire (sched_new a (Hourly mi s)) in
  nano r = 0 /\ sec r mod 3600 = mi * 60 + s /\ instant a < instant r /\
  forall t : time UTC, nano t = 0 -> sec t mod 3600 = mi * 60 + s ->
    instant a < instant t -> instant r <= instant t.
Proof. intros; apply next_hourly_spec; auto. Qed.

Theorem C15_next_daily : forall (a : time UTC) h mi s,
  0 <= sec a <= 2 ^ 62 -> 0 <= nano a < 1000000000 ->
  0 <= h < 24 -> 0 <= mi < 60 -> 0 <= s < 60 ->
  let r := next_fire (sched_new a (Daily h mi s)) in
  nano r = 0 /\ sec r mod 86400 = h * 3600 + mi * 60 + s /\ instant a < instant r /\
  forall t : time UTC, nano t = 0 -> sec t mod 86400 = h * 3600 + mi * 60 + s ->
    instant a < instant t -> instant r <= instant t.
Proof. intros; apply next_daily_spec; auto. Qed.

(* a check re-arms an hourly/daily schedule as if it were created at that moment, and it
   fires exactly when the pending time is reached *)
Theorem C15_check_rearms : forall st now st' b,
  0 <= nano now < 1000000000 -> 0 <= nano (next_fire st) < 1000000000 ->
  (exists mi s, pattern st = Hourly mi s) \/ (exists h mi s, pattern st = Daily h mi s) ->
  sched_check st now = Some (st', b) ->
  (b = true <-> instant (next_fire st) <= instant now) /\
  (b = true -> st' = sched_new now (pattern st)) /\ (b = false -> st' = st).
Proof.
  intros st now st' b Hn Hf HP E. unfold sched_check in E.
  rewrite time_ltb_spec in E by auto.
  destruct (Z.ltb_spec (instant now) (instant (next_fire st))) as [L|L].
  - inversion E; subst. repeat split; auto; try discriminate; lia.
  - destruct HP as [(mi & s & P)|(h & mi & s & P)]; rewrite P in E; inversion E; subst;
      rewrite P; repeat split; auto; try discriminate.
Qed.

(* for reference times before 1970 the truncating division skips an earlier match *)
Theorem C15_before_1970_refuted : exists (a t : time UTC),
  nano t = 0 /\ sec t mod 3600 = 45 * 60 + 0 /\ instant a < instant t /\
  ~ instant (next_fire (sched_new a (Hourly 45 0))) <= instant t.
Proof. exists (mkTime (-1800) 0), (mkTime (-900) 0). vm_compute. intuition congruence. Qed.

Example C15_nontrivial :
  next_fire (sched_new (mkTime 1700000000 5) (Daily 6 30 15)) = mkTime 1700029815 0.
Proof. vm_compute. reflexivity. Qed.

(** *** C16 *)
Theorem C16_next_yearly : forall (a : time UTC) mo d h mi s,
  0 <= sec a <= last_sec - 1000 * 86400 -> 0 <= nano a < 1000000000 ->
  1 <= mo <= 12 -> 1 <= d <= 31 -> 0 <= h < 24 -> 0 <= mi < 60 -> 0 <= s < 60 ->
  let r := next_fire (sched_new a (Yearly mo d h mi s)) in
  let y := year (to_utc_datetime a) in
  nano r = 0 /\
  instant a < instant r <= instant a + 731 * 86400 * 1000000000 /\
  (exists Y, (Y = y \/ Y = y + 1) /\ r = from_utc_datetime (mkDT Y mo d h mi s 0) /\
     (valid_date Y mo d -> to_utc_datetime r = mkDT Y mo d h mi s 0)) /\
  (forall t : time UTC, nano t = 0 -> 0 <= sec t <= last_sec ->
     month (to_utc_datetime t) = mo -> day (to_utc_datetime t) = d ->
     hour (to_utc_datetime t) = h -> minute (to_utc_datetime t) = mi ->
     second (to_utc_datetime t) = s ->
     instant a < instant t -> instant r <= instant t).
Proof. intros; apply next_yearly_spec; auto. Qed.

(* a check re-arms a yearly schedule as if it were created at that moment *)
Theorem C16_check_rearms : forall st now st' b mo d h mi s,
  0 <= nano now < 1000000000 -> 0 <= nano (next_fire st) < 1000000000 ->
  pattern st = Yearly mo d h mi s ->
  sched_check st now = Some (st', b) ->
  (b = true <-> instant (next_fire st) <= instant now) /\
  (b = true -> st' = sched_new now (Yearly mo d h mi s)) /\ (b = false -> st' = st).
Proof.
  intros st now st' b mo d h mi s Hn Hf P E. unfold sched_check in E.
  rewrite time_ltb_spec in E by auto.
  destruct (Z.ltb_spec (instant now) (instant (next_fire st))) as [L|L].
  - inversion E; subst. repeat split; auto; try discriminate; lia.
  - rewrite P in E; inversion E; subst. repeat split; auto; try discriminate.
Qed.

(* 29 February in a common year fires on 1 March *)
Theorem C16_leap_day_refuted : exists a : time UTC,
  0 <= sec a /\
  (month (to_utc_datetime (next_fire (sched_new a (Yearly 2 29 0 0 0)))),
   day (to_utc_datetime (next_fire (sched_new a (Yearly 2 29 0 0 0))))) = (3, 1).
Proof. exists (from_utc_datetime (mkDT 2023 1 10 0 0 0 0)). vm_compute. intuition congruence. Qed.

Example C16_nontrivial :
  next_fire (sched_new (from_utc_datetime (mkDT 2023 12 25 10 0 0 1)) (Yearly 12 25 10 0 0))
  = from_utc_datetime (mkDT 2024 12 25 10 0 0 0).
Proof. vm_compute. reflexivity. Qed.

(** *** C17 *)
Theorem C17_once_refuted : exists (start : time UTC) nows outs s',
  runs sched_check (sched_new start Once) nows outs s' /\ count_true outs > 1.
Proof.
  exists (mkTime 0 0), [mkTime 1 0; mkTime 2 0], [true; true], (mkSched (mkTime 0 0) Once).
  split; [|vm_compute; reflexivity].
  repeat (econstructor; [vm_compute; reflexivity|]). constructor.
Qed.

(* what it does: fires at every check from the start time on *)
Theorem C17_once_partial : forall (start : time UTC) nows,
  0 <= nano start < 1000000000 -> Forall (fun n : time UTC => 0 <= nano n < 1000000000) nows ->
  runs sched_check (sched_new start Once) nows
    (map (fun n => instant start <=? instant n) nows) (sched_new start Once).
Proof.
  intros start nows Hs HF. induction HF as [|n nows Hn HF IH]; cbn [map]; [constructor|].
  econstructor; [|exact IH]. unfold sched_check, sched_new; cbn [next_fire pattern].
  rewrite time_ltb_spec by auto.
  destruct (Z.ltb_spec (instant n) (instant start)), (Z.leb_spec (instant start) (instant n));
    try lia; reflexivity.
Qed.
