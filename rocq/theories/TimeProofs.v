(** Lemmas about the time model. *)
From Coq Require Import ZArith Lia Bool List ZifyBool ZifyNat.
From Verif Require Import Machine TimeModel TimeSpec.
Import ListNotations.
Open Scope Z_scope.
Ltac Zify.zify_post_hook ::= Z.to_euclidean_division_equations.

Ltac unwrap :=
  repeat match goal with
  | |- context [w64 ?x] => rewrite (w64_id x) by (unfold in_i64; lia)
  | |- context [w32 ?x] => rewrite (w32_id x) by (unfold in_i32; lia)
  | |- context [u8 ?x] => rewrite (u8_id x) by (unfold in_u8; lia)
  end.
Ltac brk := repeat match goal with
  | |- context [if ?b then _ else _] => destruct b eqn:?
  end.

Lemma time_eq {s} (a b : time s) : sec a = sec b -> nano a = nano b -> a = b.
Proof. destruct a, b; simpl; intros; subst; reflexivity. Qed.
Lemma dur_eq (a b : duration) : dsec a = dsec b -> dnano a = dnano b -> a = b.
Proof. destruct a, b; simpl; intros; subst; reflexivity. Qed.

Lemma instant_inj {s} (a b : time s) :
  0 <= nano a < 1000000000 -> 0 <= nano b < 1000000000 ->
  instant a = instant b -> a = b.
Proof. unfold instant; intros; apply time_eq; lia. Qed.
Lemma length_inj (a b : duration) :
  0 <= dnano a < 1000000000 -> 0 <= dnano b < 1000000000 ->
  length_ns a = length_ns b -> a = b.
Proof. unfold length_ns; intros; apply dur_eq; lia. Qed.

(** ** C01 *)

Lemma time_add_exact {s} (t : time s) d :
  wf_time t -> wf_dur d ->
  in_i64 ((instant t + length_ns d) / 1000000000) ->
  instant (time_add t d) = instant t + length_ns d /\ wf_time (time_add t d).
Proof.
  unfold wf_time, wf_dur, in_i64, instant, length_ns, time_add, G.
  intros (H1 & H2) (H3 & H4) H5.
  cbv zeta.
  rewrite (w32_id (nano t + dnano d)) by (unfold in_i32; lia).
  destruct (Z.leb_spec 1000000000 (nano t + dnano d)).
  - rewrite w32_id by (unfold in_i32; lia). cbn [sec nano].
    destruct (w64_cong (sec t + dsec d)) as [k Hk].
    rewrite (w64_eq (w64 (sec t + dsec d) + 1) (sec t + dsec d + 1) k); unfold in_i64; try lia.
  - destruct (Z.ltb_spec (nano t + dnano d) 0); [lia|]. cbn [sec nano].
    rewrite w64_id by (unfold in_i64; lia). lia.
Qed.

(* The release build's wrap-around makes the two round trips hold even when the
   intermediate seconds overflow. *)
Lemma add_sub_roundtrip {s} (t : time s) d :
  wf_time t -> wf_dur d -> time_sub (time_add t d) t = d.
Proof.
  unfold wf_time, wf_dur, in_i64. intros (H1 & H2) (H3 & H4).
  unfold time_add, time_sub, G. cbv zeta.
  rewrite (w32_id (nano t + dnano d)) by (unfold in_i32; lia).
  destruct (w64_cong (sec t + dsec d)) as [k Hk].
  destruct (Z.leb_spec 1000000000 (nano t + dnano d)).
  - rewrite (w32_id (nano t + dnano d - _)) by (unfold in_i32; lia). cbn [sec nano].
    rewrite w32_id by (unfold in_i32; lia).
    destruct (Z.ltb_spec (nano t + dnano d - 1000000000 - nano t) 0); [|lia].
    rewrite w32_id by (unfold in_i32; lia).
    destruct (w64_cong (w64 (sec t + dsec d) + 1)) as [k2 Hk2].
    destruct (w64_cong (w64 (w64 (sec t + dsec d) + 1) - sec t)) as [k3 Hk3].
    apply dur_eq; cbn [dsec dnano]; [|lia].
    apply w64_eq with (k := k + k2 + k3); [unfold in_i64; lia|]. lia.
  - destruct (Z.ltb_spec (nano t + dnano d) 0); [lia|]. cbn [sec nano].
    rewrite w32_id by (unfold in_i32; lia).
    destruct (Z.ltb_spec (nano t + dnano d - nano t) 0); [lia|].
    apply dur_eq; cbn [dsec dnano]; [|lia].
    apply w64_eq with (k := k); [unfold in_i64; lia|]. lia.
Qed.

Lemma sub_add_roundtrip {s} (t u : time s) :
  wf_time t -> wf_time u -> time_add t (time_sub u t) = u.
Proof.
  unfold wf_time, in_i64. intros (H1 & H2) (H3 & H4).
  unfold time_add, time_sub, G. cbv zeta.
  rewrite (w32_id (nano u - nano t)) by (unfold in_i32; lia).
  destruct (w64_cong (sec u - sec t)) as [k Hk].
  destruct (Z.ltb_spec (nano u - nano t) 0).
  - cbn [dsec dnano]. rewrite (w32_id (nano u - nano t + _)) by (unfold in_i32; lia).
    rewrite w32_id by (unfold in_i32; lia).
    destruct (Z.leb_spec 1000000000 (nano t + (nano u - nano t + 1000000000))); [|lia].
    rewrite w32_id by (unfold in_i32; lia).
    destruct (w64_cong (w64 (sec u - sec t) - 1)) as [k2 Hk2].
    destruct (w64_cong (sec t + w64 (w64 (sec u - sec t) - 1))) as [k3 Hk3].
    apply time_eq; cbn [sec nano]; [|lia].
    apply w64_eq with (k := k + k2 + k3); [unfold in_i64; lia|]. lia.
  - cbn [dsec dnano]. rewrite w32_id by (unfold in_i32; lia).
    destruct (Z.leb_spec 1000000000 (nano t + (nano u - nano t))); [lia|].
    destruct (Z.ltb_spec (nano t + (nano u - nano t)) 0); [lia|].
    apply time_eq; cbn [sec nano]; [|lia].
    apply w64_eq with (k := k); [unfold in_i64; lia|]. lia.
Qed.

Lemma time_sub_exact {s} (a b : time s) :
  wf_time a -> wf_time b ->
  in_i64 ((instant a - instant b) / 1000000000) ->
  length_ns (time_sub a b) = instant a - instant b /\ wf_dur (time_sub a b).
Proof.
  unfold wf_time, wf_dur, in_i64, instant, length_ns, time_sub, G.
  intros (H1 & H2) (H3 & H4) H5. cbv zeta.
  rewrite (w32_id (nano a - nano b)) by (unfold in_i32; lia).
  destruct (Z.ltb_spec (nano a - nano b) 0).
  - cbn [dsec dnano]. rewrite w32_id by (unfold in_i32; lia).
    destruct (w64_cong (sec a - sec b)) as [k Hk].
    rewrite (w64_eq (w64 (sec a - sec b) - 1) (sec a - sec b - 1) k); unfold in_i64; try lia.
  - cbn [dsec dnano]. rewrite w64_id by (unfold in_i64; lia). lia.
Qed.

(* Debug builds: no panic and the same value while operands are small. *)
Lemma time_add_no_panic {s} (t : time s) d :
  small_time t -> small_dur d -> time_add_checked t d = Some (time_add t d).
Proof.
  unfold small_time, small_dur, time_add_checked, time_add, G. intros H1 H2.
  rewrite c64_some by (unfold in_i64; lia). rewrite c32_some by (unfold in_i32; lia).
  cbn [bind]. cbv zeta.
  rewrite (w32_id (nano t + dnano d)) by (unfold in_i32; lia).
  rewrite (w64_id (sec t + dsec d)) by (unfold in_i64; lia).
  destruct (Z.leb_spec 1000000000 (nano t + dnano d)).
  - rewrite c64_some by (unfold in_i64; lia). rewrite c32_some by (unfold in_i32; lia).
    cbn [bind]. unwrap. reflexivity.
  - destruct (Z.ltb_spec (nano t + dnano d) 0); [lia|]. reflexivity.
Qed.

Lemma time_sub_no_panic {s} (a b : time s) :
  small_time a -> small_time b -> time_sub_checked a b = Some (time_sub a b).
Proof.
  unfold small_time, time_sub_checked, time_sub, G. intros H1 H2.
  rewrite c64_some by (unfold in_i64; lia). rewrite c32_some by (unfold in_i32; lia).
  cbn [bind]. cbv zeta.
  rewrite (w32_id (nano a - nano b)) by (unfold in_i32; lia).
  rewrite (w64_id (sec a - sec b)) by (unfold in_i64; lia).
  destruct (Z.ltb_spec (nano a - nano b) 0).
  - rewrite c64_some by (unfold in_i64; lia). rewrite c32_some by (unfold in_i32; lia).
    cbn [bind]. unwrap. reflexivity.
  - reflexivity.
Qed.

(** ** C02 *)

Lemma normalize_exact d :
  - 2 ^ 62 <= dsec d <= 2 ^ 62 -> - 1000000000 < dnano d < 2 ^ 31 ->
  length_ns (normalize d) = length_ns d /\ wf_dur (normalize d).
Proof.
  unfold wf_dur, in_i64, length_ns, normalize, G. intros H1 H2.
  destruct (Z.leb_spec 1000000000 (dnano d)).
  - cbn [dsec dnano]. rewrite w64_id by (unfold in_i64; lia). lia.
  - destruct (Z.ltb_spec (dnano d) 0); cbn [dsec dnano]; [|lia].
    unwrap. lia.
Qed.

Lemma dur_add_exact a b :
  small_dur a -> small_dur b ->
  length_ns (dur_add a b) = length_ns a + length_ns b /\ wf_dur (dur_add a b).
Proof.
  unfold small_dur; intros H1 H2. unfold dur_add.
  rewrite w64_id by (unfold in_i64; lia). rewrite w32_id by (unfold in_i32; lia).
  destruct (normalize_exact (mkDur (dsec a + dsec b) (dnano a + dnano b))) as [E W];
    cbn [dsec dnano]; try lia.
  split; auto. rewrite E. unfold length_ns; cbn [dsec dnano]. lia.
Qed.

Lemma dur_sub_exact a b :
  small_dur a -> small_dur b ->
  length_ns (dur_sub a b) = length_ns a - length_ns b /\ wf_dur (dur_sub a b).
Proof.
  unfold small_dur; intros H1 H2. unfold dur_sub.
  rewrite w64_id by (unfold in_i64; lia). rewrite w32_id by (unfold in_i32; lia).
  destruct (normalize_exact (mkDur (dsec a - dsec b) (dnano a - dnano b))) as [E W];
    cbn [dsec dnano]; try lia.
  split; auto. rewrite E. unfold length_ns; cbn [dsec dnano]. lia.
Qed.

Lemma normalize_no_panic d :
  - 2 ^ 62 <= dsec d <= 2 ^ 62 -> - 1000000000 < dnano d < 2 ^ 31 ->
  normalize_checked d = Some (normalize d).
Proof.
  intros H1 H2. unfold normalize_checked, normalize, G.
  destruct (Z.leb_spec 1000000000 (dnano d)).
  - rewrite c64_some by (unfold in_i64; lia). unwrap. reflexivity.
  - destruct (Z.ltb_spec (dnano d) 0); auto.
    rewrite c64_some by (unfold in_i64; lia). rewrite c32_some by (unfold in_i32; lia).
    unwrap. reflexivity.
Qed.

Lemma dur_add_no_panic a b :
  small_dur a -> small_dur b -> dur_add_checked a b = Some (dur_add a b).
Proof.
  unfold small_dur; intros H1 H2. unfold dur_add_checked, dur_add.
  rewrite c64_some by (unfold in_i64; lia). rewrite c32_some by (unfold in_i32; lia).
  cbn [bind]. rewrite w64_id by (unfold in_i64; lia). rewrite w32_id by (unfold in_i32; lia).
  apply normalize_no_panic; cbn [dsec dnano]; lia.
Qed.

Lemma dur_sub_no_panic a b :
  small_dur a -> small_dur b -> dur_sub_checked a b = Some (dur_sub a b).
Proof.
  unfold small_dur; intros H1 H2. unfold dur_sub_checked, dur_sub.
  rewrite c64_some by (unfold in_i64; lia). rewrite c32_some by (unfold in_i32; lia).
  cbn [bind]. rewrite w64_id by (unfold in_i64; lia). rewrite w32_id by (unfold in_i32; lia).
  apply normalize_no_panic; cbn [dsec dnano]; lia.
Qed.

Lemma from_millis_exact ms :
  in_i64 ms -> length_ns (from_millis ms) = ms * 1000000 /\ wf_dur (from_millis ms).
Proof.
  unfold in_i64, from_millis; intros H.
  rewrite w32_id by (unfold in_i32; lia).
  destruct (normalize_exact (mkDur (Z.quot ms 1000) (Z.rem ms 1000 * 1000000))) as [E W];
    cbn [dsec dnano]; try lia.
  split; auto. rewrite E. unfold length_ns; cbn [dsec dnano]. lia.
Qed.

Lemma from_micros_exact us :
  in_i64 us -> length_ns (from_micros us) = us * 1000 /\ wf_dur (from_micros us).
Proof.
  unfold in_i64, from_micros; intros H.
  rewrite w32_id by (unfold in_i32; lia).
  destruct (normalize_exact (mkDur (Z.quot us 1000000) (Z.rem us 1000000 * 1000))) as [E W];
    cbn [dsec dnano]; try lia.
  split; auto. rewrite E. unfold length_ns; cbn [dsec dnano]. lia.
Qed.

Lemma from_nanos_exact ns :
  in_i64 ns -> length_ns (from_nanos ns) = ns /\ (0 <= ns -> wf_dur (from_nanos ns)) /\
  -1000000000 < dnano (from_nanos ns) < 1000000000.
Proof.
  unfold in_i64, from_nanos, wf_dur, in_i64, length_ns, G; intros H.
  rewrite w32_id by (unfold in_i32; lia). cbn [dsec dnano]. lia.
Qed.

(** ** C03 *)

Lemma time_cmp_spec {s} (a b : time s) :
  0 <= nano a < 1000000000 -> 0 <= nano b < 1000000000 ->
  time_cmp a b = (instant a ?= instant b).
Proof.
  intros Ha Hb. unfold time_cmp, instant.
  destruct (Z.compare_spec (sec a) (sec b)).
  - destruct (Z.compare_spec (nano a) (nano b)); symmetry;
      [apply Z.compare_eq_iff|apply Z.compare_lt_iff|apply Z.compare_gt_iff]; lia.
  - symmetry; apply Z.compare_lt_iff; lia.
  - symmetry; apply Z.compare_gt_iff; lia.
Qed.

Lemma dur_cmp_spec (a b : duration) :
  0 <= dnano a < 1000000000 -> 0 <= dnano b < 1000000000 ->
  dur_cmp a b = (length_ns a ?= length_ns b).
Proof.
  intros Ha Hb. unfold dur_cmp, length_ns.
  destruct (Z.compare_spec (dsec a) (dsec b)).
  - destruct (Z.compare_spec (dnano a) (dnano b)); symmetry;
      [apply Z.compare_eq_iff|apply Z.compare_lt_iff|apply Z.compare_gt_iff]; lia.
  - symmetry; apply Z.compare_lt_iff; lia.
  - symmetry; apply Z.compare_gt_iff; lia.
Qed.

Lemma time_leb_spec {s} (a b : time s) :
  0 <= nano a < 1000000000 -> 0 <= nano b < 1000000000 ->
  time_leb a b = (instant a <=? instant b).
Proof. intros. unfold time_leb, Z.leb. rewrite time_cmp_spec by auto. reflexivity. Qed.
Lemma time_ltb_spec {s} (a b : time s) :
  0 <= nano a < 1000000000 -> 0 <= nano b < 1000000000 ->
  time_ltb a b = (instant a <? instant b).
Proof. intros. unfold time_ltb, Z.ltb. rewrite time_cmp_spec by auto. reflexivity. Qed.
Lemma dur_leb_spec (a b : duration) :
  0 <= dnano a < 1000000000 -> 0 <= dnano b < 1000000000 ->
  dur_leb a b = (length_ns a <=? length_ns b).
Proof. intros. unfold dur_leb, Z.leb. rewrite dur_cmp_spec by auto. reflexivity. Qed.
Lemma dur_ltb_spec (a b : duration) :
  0 <= dnano a < 1000000000 -> 0 <= dnano b < 1000000000 ->
  dur_ltb a b = (length_ns a <? length_ns b).
Proof. intros. unfold dur_ltb, Z.ltb. rewrite dur_cmp_spec by auto. reflexivity. Qed.

Lemma small_wf_t {s} (t : time s) : small_time t -> wf_time t.
Proof. unfold small_time, wf_time, in_i64. lia. Qed.
Lemma small_wf_d d : small_dur d -> wf_dur d.
Proof. unfold small_dur, wf_dur, in_i64. lia. Qed.

Lemma time_add_small {s} (t : time s) d :
  small_time t -> small_dur d -> instant (time_add t d) = instant t + length_ns d
   /\ wf_time (time_add t d).
Proof.
  intros Ht Hd. apply time_add_exact; auto using small_wf_t, small_wf_d.
  unfold small_time, small_dur, in_i64, instant, length_ns in *. lia.
Qed.

(** ** C04-C05 *)
Definition small_leaps (l : Z) := - 2 ^ 30 <= l <= 2 ^ 30.

Lemma tmu l : small_leaps l -> tai_minus_utc l = 10 + l.
Proof. unfold small_leaps, tai_minus_utc, TAI_UTC_BASE_OFFSET. intros; apply w32_id; unfold in_i32; lia. Qed.

Lemma scale_values l : small_leaps l ->
  (forall t : time UTC, small_time t -> utc_to_tai l t = mkTime (sec t + 10 + l) (nano t)) /\
  (forall t : time TAI, small_time t -> tai_to_utc l t = mkTime (sec t - 10 - l) (nano t)) /\
  (forall t : time UTC, small_time t -> utc_to_gps l t = mkTime (sec t - 315964800 + l - 9) (nano t)) /\
  (forall t : time GPS, small_time t -> gps_to_utc l t = mkTime (sec t + 315964800 - l + 9) (nano t)).
Proof.
  intros Hl. unfold small_time, utc_to_tai, tai_to_utc, utc_to_gps, gps_to_utc, UNIX_GPS_EPOCH.
  rewrite tmu by auto. unfold small_leaps in Hl.
  repeat split; intros t (H1 & H2); unwrap; apply time_eq; cbn [sec nano]; lia.
Qed.

(* exact inverses: hold for every i64, every i32 leap setting, with wrapping *)
Lemma scale_roundtrips l :
  (forall t : time UTC, in_i64 (sec t) -> tai_to_utc l (utc_to_tai l t) = t) /\
  (forall t : time TAI, in_i64 (sec t) -> utc_to_tai l (tai_to_utc l t) = t) /\
  (forall t : time UTC, in_i64 (sec t) -> gps_to_utc l (utc_to_gps l t) = t) /\
  (forall t : time GPS, in_i64 (sec t) -> utc_to_gps l (gps_to_utc l t) = t).
Proof.
  set (o := tai_minus_utc l).
  repeat split; intros t H; apply time_eq; try reflexivity;
    cbn [utc_to_tai tai_to_utc utc_to_gps gps_to_utc sec nano]; fold o.
  - destruct (w64_cong (sec t + o)) as [k E]. apply w64_eq with k; auto; lia.
  - destruct (w64_cong (sec t - o)) as [k E]. apply w64_eq with k; auto; lia.
  - destruct (w64_cong (sec t - UNIX_GPS_EPOCH)) as [k E].
    destruct (w64_cong (w64 (sec t - UNIX_GPS_EPOCH) + (o - 19))) as [k1 E1].
    destruct (w64_cong (w64 (w64 (sec t - UNIX_GPS_EPOCH) + (o - 19)) + UNIX_GPS_EPOCH)) as [k2 E2].
    apply w64_eq with (k + k1 + k2); auto; lia.
  - destruct (w64_cong (sec t + UNIX_GPS_EPOCH)) as [k E].
    destruct (w64_cong (w64 (sec t + UNIX_GPS_EPOCH) - (o - 19))) as [k1 E1].
    destruct (w64_cong (w64 (w64 (sec t + UNIX_GPS_EPOCH) - (o - 19)) - UNIX_GPS_EPOCH)) as [k2 E2].
    apply w64_eq with (k + k1 + k2); auto; lia.
Qed.

Lemma gps_tai_roundtrips l :
  (forall t : time GPS, in_i64 (sec t) -> tai_to_gps l (gps_to_tai l t) = t) /\
  (forall t : time TAI, in_i64 (sec t) -> gps_to_tai l (tai_to_gps l t) = t).
Proof.
  destruct (scale_roundtrips l) as (A & B & C & D).
  split; intros t H; unfold tai_to_gps, gps_to_tai, tai_to_gps_loads, gps_to_tai_loads.
  - rewrite A by apply w64_range. apply D, H.
  - rewrite C by apply w64_range. apply B, H.
Qed.

(* GPS<->TAI is the fixed offset, independently of the leap setting *)
Lemma gps_tai_offset l (t : time GPS) :
  in_i64 (sec t) -> - 2 ^ 62 <= sec t <= 2 ^ 62 -> in_i32 l ->
  gps_to_tai l t = mkTime (sec t + 315964800 + 19) (nano t).
Proof.
  intros H0 H Hl.
  unfold gps_to_tai, gps_to_tai_loads, gps_to_utc, utc_to_tai. cbn [sec nano].
  pose proof (w32_range (TAI_UTC_BASE_OFFSET + l)) as R. fold (tai_minus_utc l) in R.
  unfold in_i32 in R. set (o := tai_minus_utc l) in *. unfold UNIX_GPS_EPOCH. unwrap.
  apply time_eq; cbn [sec nano]; lia.
Qed.

(** ** C06 *)

Lemma to_gps_week_spec (t : time GPS) hint :
  0 <= sec t -> in_i64 (sec t) -> 0 <= hint < 2 ^ 32 ->
  let w := to_gps_week t hint in
  sow w = sec t mod 604800 /\
  raw_week w = (sec t / 604800) mod 1024 /\
  (512 <= hint <= 2 ^ 32 - 1024 ->
     (full_week w - sec t / 604800) mod 1024 = 0 /\ Z.abs (full_week w - hint) <= 512).
Proof.
  unfold in_i64. intros H0 H1 H2. unfold to_gps_week, GPS_WEEK_SECONDS, GPS_WEEK_MODULUS.
  cbv zeta. cbn [sow raw_week full_week].
  rewrite u16_id by (unfold in_u16; lia).
  rewrite (Z.quot_div_nonneg (sec t)) by lia.
  rewrite (Z.rem_mod_nonneg (sec t)) by lia.
  rewrite (Z.rem_mod_nonneg (sec t / 604800)) by lia.
  rewrite (Z.quot_div_nonneg hint) by lia.
  split; [reflexivity|]. split; [reflexivity|]. intros H3.
  set (w := sec t / 604800) in *.
  pose proof (Z.mod_pos_bound w 1024 ltac:(lia)) as Hr.
  pose proof (Z.div_mod w 1024 ltac:(lia)) as Hw.
  set (r := w mod 1024) in *. set (q := w / 1024) in *.
  assert (forall k, ((hint / 1024 * 1024 + r + k * 1024) - w) mod 1024 = 0) as M.
  { intros k. replace (hint / 1024 * 1024 + r + k * 1024 - w) with ((hint / 1024 + k - q) * 1024) by lia.
    apply Z.mod_mul; lia. }
  pose proof (M 0) as M0. pose proof (M 1) as M1. pose proof (M (-1)) as M2.
  pose proof (Z.div_mod hint 1024 ltac:(lia)) as Hh.
  pose proof (Z.mod_pos_bound hint 1024 ltac:(lia)) as Hhr.
  set (b := hint / 1024) in *. set (hr := hint mod 1024) in *.
  clearbody b hr r w q.
  destruct (Z.ltb_spec (Z.abs (b * 1024 + r + 1024 - hint)) (Z.abs (b * 1024 + r - hint))).
  - rewrite u32_id by (unfold in_u32; lia). split; [|lia].
    refine (eq_trans (f_equal (fun z => z mod 1024) _) M1); lia.
  - destruct (Z.ltb_spec (Z.abs (b * 1024 + r - 1024 - hint)) (Z.abs (b * 1024 + r - hint))).
    + rewrite u32_id by (unfold in_u32; lia). split; [|lia].
      refine (eq_trans (f_equal (fun z => z mod 1024) _) M2); lia.
    + rewrite u32_id by (unfold in_u32; lia). split; [|lia].
      refine (eq_trans (f_equal (fun z => z mod 1024) _) M0); lia.
Qed.

Lemma to_gps_week_recovers (t : time GPS) hint :
  0 <= sec t -> in_i64 (sec t) -> 512 <= hint <= 2 ^ 32 - 1024 ->
  Z.abs (sec t / 604800 - hint) < 512 ->
  full_week (to_gps_week t hint) = sec t / 604800.
Proof.
  intros H0 H1 H2 H3.
  destruct (to_gps_week_spec t hint H0 H1 ltac:(lia)) as (_ & _ & H).
  destruct (H H2) as [A B].
  set (f := full_week (to_gps_week t hint)) in *. set (w := sec t / 604800) in *.
  clearbody f w. lia.
Qed.
