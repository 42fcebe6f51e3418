(** Date-time conversion and hourly/daily/yearly schedules. *)
From Coq Require Import ZArith Lia Bool List ZifyBool ZifyNat.
From Verif Require Import Machine TimeModel TimeSpec TimeProofs CalendarCheck CalendarProofs.
Import ListNotations.
Open Scope Z_scope.
Ltac Zify.zify_post_hook ::= Z.to_euclidean_division_equations.

(* 23:59:59 on 31 December of year 2147483647 (the largest i32 year) *)
Definition last_sec : Z := 67767976233532799.

Lemma last_sec_ok : (day_closed 2147483648 1 1 - 719468) * 86400 = last_sec + 1.
Proof. vm_compute. reflexivity. Qed.

Lemma civil_fits days : 0 <= days -> days <= last_sec / 86400 ->
  let '(y, m, d) := civil days in 1970 <= y <= 2147483647 /\ valid_date y m d /\
    day_closed y m d = days + 719468.
Proof.
  intros H0 H1. pose proof (civil_day_closed days ltac:(lia)) as C.
  destruct (civil days) as [[y m] d]. destruct C as (Hy & V & E).
  split; [|split; auto].
  pose proof (closed_in_year y m d V) as Y.
  split.
  - destruct (Z.le_gt_cases 1970 y); auto. exfalso.
    pose proof (closed_year_mono (y + 1) 1970 ltac:(lia)) as M.
    assert (day_closed 1970 1 1 = 719468) by (vm_compute; reflexivity). lia.
  - destruct (Z.le_gt_cases y 2147483647); auto. exfalso.
    pose proof (closed_year_mono 2147483648 y ltac:(lia)) as M.
    pose proof last_sec_ok. unfold last_sec in *. lia.
Qed.

Lemma to_utc_datetime_spec (t : time UTC) : 0 <= sec t <= last_sec ->
  let '(y, m, d) := civil (sec t / 86400) in
  to_utc_datetime t =
    mkDT y m d ((sec t / 3600) mod 24) ((sec t / 60) mod 60) (sec t mod 60) (nano t).
Proof.
  intros H. unfold last_sec in H.
  unfold to_utc_datetime. cbv zeta.
  rewrite (Z.rem_mod_nonneg (sec t)) by lia.
  rewrite !(Z.quot_div_nonneg (sec t) 60) by lia.
  rewrite (Z.rem_mod_nonneg (sec t / 60)) by lia.
  rewrite !(Z.quot_div_nonneg (sec t / 60) 60) by lia.
  rewrite (Z.div_div (sec t) 60 60) by lia. change (60 * 60) with 3600.
  rewrite (Z.rem_mod_nonneg (sec t / 3600)) by lia.
  rewrite (Z.quot_div_nonneg (sec t / 3600) 24) by lia.
  rewrite (Z.div_div (sec t) 3600 24) by lia. change (3600 * 24) with 86400.
  rewrite days_to_ymd_core. cbv zeta.
  pose proof (civil_fits (sec t / 86400) ltac:(lia) ltac:(unfold last_sec; lia)) as C.
  unfold civil in *.
  destruct (civil_core ((sec t / 86400 + 719468) mod 146097)) as [[y m] d].
  cbn [shift400] in *. destruct C as (Hy & (Hm & Hd) & _).
  pose proof (month_length_pos (y + (sec t / 86400 + 719468) / 146097 * 400) m) as ML.
  cbn [year month day hour minute second].
  set (Y := y + (sec t / 86400 + 719468) / 146097 * 400) in *. clearbody Y.
  rewrite (w32_id Y) by (unfold in_i32; lia).
  rewrite (u8_id m), (u8_id d) by (unfold in_u8; lia).
  rewrite !u8_id by (unfold in_u8; lia). reflexivity.
Qed.

Lemma from_utc_datetime_spec c : 1970 <= year c -> 1 <= month c <= 12 ->
  from_utc_datetime c =
    mkTime ((day_closed (year c) (month c) (day c) - 719468) * 86400
            + hour c * 3600 + minute c * 60 + second c) (nanos c).
Proof.
  intros Hy Hm. rewrite <- day_core_closed by lia.
  unfold from_utc_datetime, day_core. cbv zeta.
  destruct (month c <=? 2); cbn [fst snd]; f_equal; ring.
Qed.

Lemma from_to (t : time UTC) : 0 <= sec t <= last_sec ->
  from_utc_datetime (to_utc_datetime t) = t.
Proof.
  intros H. pose proof (to_utc_datetime_spec t H) as E.
  pose proof (civil_fits (sec t / 86400) ltac:(lia) ltac:(unfold last_sec in *; lia)) as C.
  destruct (civil (sec t / 86400)) as [[y m] d]. rewrite E. destruct C as (Hy & V & Ed).
  rewrite from_utc_datetime_spec by (cbn [year month]; first [lia|apply V]).
  cbn [year month day hour minute second nanos]. rewrite Ed.
  apply time_eq; cbn [sec nano]; [|reflexivity]. lia.
Qed.

Lemma to_from c : 1970 <= year c <= 2147483647 -> valid_datetime c ->
  0 <= sec (from_utc_datetime c) <= last_sec /\ to_utc_datetime (from_utc_datetime c) = c.
Proof.
  intros Hy (V & Hh & Hmi & Hs & Hn).
  rewrite from_utc_datetime_spec by (first [lia|apply V]).
  pose proof (closed_in_year _ _ _ V) as Y.
  pose proof (closed_year_mono 1970 (year c) ltac:(lia)) as M1.
  pose proof (closed_year_mono (year c + 1) 2147483648 ltac:(lia)) as M2.
  assert (day_closed 1970 1 1 = 719468) as E0 by (vm_compute; reflexivity).
  pose proof last_sec_ok as E1. unfold last_sec in *.
  pose proof (civil_of_closed (year c) (month c) (day c) ltac:(lia) V) as Cv.
  set (D := day_closed (year c) (month c) (day c)) in *. clearbody D.
  set (t := mkTime ((D - 719468) * 86400 + hour c * 3600 + minute c * 60 + second c) (nanos c) : time UTC).
  assert (0 <= sec t <= last_sec) as B by (unfold last_sec, t; cbn [sec]; lia).
  split; [exact B|].
  pose proof (to_utc_datetime_spec t B) as E.
  assert (sec t / 86400 = D - 719468) as Ed by (unfold t; cbn [sec]; lia).
  rewrite Ed, Cv in E. rewrite E. destruct c as [cy cm cd ch cmi cs cn].
  unfold t; cbn [sec nano year month day hour minute second nanos] in *.
  f_equal; lia.
Qed.

Lemma from_mono a b : 1970 <= year a -> 1970 <= year b ->
  valid_datetime a -> valid_datetime b -> datetime_lt a b ->
  instant (from_utc_datetime a) < instant (from_utc_datetime b).
Proof.
  intros Ya Yb (Va & Ha1 & Ha2 & Ha3 & Ha4) (Vb & Hb1 & Hb2 & Hb3 & Hb4) L.
  rewrite !from_utc_datetime_spec by (first [lia|apply Va|apply Vb]).
  unfold instant; cbn [sec nano].
  destruct (ymd_trichotomy (year a) (month a) (day a) (year b) (month b) (day b)) as [H|[H|H]].
  - pose proof (closed_mono _ _ _ _ _ _ Va Vb H). lia.
  - inversion H as [[E1 E2 E3]]. rewrite E1, E2, E3.
    unfold datetime_lt in L. lia.
  - exfalso. unfold ymd_lt in H. unfold datetime_lt in L. lia.
Qed.

(** ** Hourly and daily *)

Lemma next_hourly_spec (a : time UTC) mi s :
  0 <= sec a <= 2 ^ 62 -> 0 <= nano a < 1000000000 -> 0 <= mi < 60 -> 0 <= s < 60 ->
  let r := next_hourly a mi s in
  nano r = 0 /\ sec r mod 3600 = mi * 60 + s /\ instant a < instant r /\
  forall t : time UTC, nano t = 0 -> sec t mod 3600 = mi * 60 + s ->
    instant a < instant t -> instant r <= instant t.
Proof.
  intros H1 H2 H3 H4. cbv zeta. unfold next_hourly, instant. cbv zeta. cbn [sec nano].
  rewrite Z.quot_div_nonneg by lia.
  rewrite (w64_id (sec a / 3600 * 3600 + mi * 60 + s)) by (unfold in_i64; lia).
  destruct (Z.leb_spec (sec a / 3600 * 3600 + mi * 60 + s) (sec a)).
  - rewrite w64_id by (unfold in_i64; lia).
    split; [reflexivity|]. split; [lia|]. split; [lia|]. intros t Ht Hm Hlt. lia.
  - split; [reflexivity|]. split; [lia|]. split; [lia|]. intros t Ht Hm Hlt. lia.
Qed.

Lemma next_daily_spec (a : time UTC) h mi s :
  0 <= sec a <= 2 ^ 62 -> 0 <= nano a < 1000000000 ->
  0 <= h < 24 -> 0 <= mi < 60 -> 0 <= s < 60 ->
  let r := next_daily a h mi s in
  nano r = 0 /\ sec r mod 86400 = h * 3600 + mi * 60 + s /\ instant a < instant r /\
  forall t : time UTC, nano t = 0 -> sec t mod 86400 = h * 3600 + mi * 60 + s ->
    instant a < instant t -> instant r <= instant t.
Proof.
  intros H1 H2 H3 H4 H5. cbv zeta. unfold next_daily, instant. cbv zeta. cbn [sec nano].
  rewrite Z.quot_div_nonneg by lia.
  rewrite (w64_id (sec a / 86400 * 86400 + h * 3600 + mi * 60 + s)) by (unfold in_i64; lia).
  destruct (Z.leb_spec (sec a / 86400 * 86400 + h * 3600 + mi * 60 + s) (sec a)).
  - rewrite w64_id by (unfold in_i64; lia).
    split; [reflexivity|]. split; [lia|]. split; [lia|]. intros t Ht Hm Hlt. lia.
  - split; [reflexivity|]. split; [lia|]. split; [lia|]. intros t Ht Hm Hlt. lia.
Qed.

(** ** Yearly *)

Lemma closed_any_day y m d : 1 <= m <= 12 -> 1 <= d <= 31 ->
  day_closed y 1 1 <= day_closed y m d < day_closed (y + 1) 1 1.
Proof.
  intros Hm Hd. rewrite (closed_day y m d), closed_next_year.
  split.
  - destruct (Z.eq_dec m 1) as [->|]; [lia|].
    pose proof (closed_month_le y 1 m). pose proof (month_length_pos y 1). lia.
  - destruct (Z.eq_dec m 12) as [->|]; [lia|].
    pose proof (closed_month_le y m 12). pose proof (month_length_pos y m).
    assert (day_closed y m 1 + 28 <= day_closed y 12 1) by lia. lia.
Qed.

Lemma closed_mono_year y y' m d : y <= y' -> day_closed y m d <= day_closed y' m d.
Proof. intros H. unfold day_closed. destruct (m <=? 2); cbn [fst snd]; lia. Qed.

Lemma next_yearly_spec (a : time UTC) mo d h mi s :
  0 <= sec a <= last_sec - 1000 * 86400 -> 0 <= nano a < 1000000000 ->
  1 <= mo <= 12 -> 1 <= d <= 31 -> 0 <= h < 24 -> 0 <= mi < 60 -> 0 <= s < 60 ->
  let r := next_yearly a mo d h mi s in
  let y := year (to_utc_datetime a) in
  nano r = 0 /\
  instant a < instant r <= instant a + 731 * 86400 * 1000000000 /\
  (exists Y, (Y = y \/ Y = y + 1) /\ r = from_utc_datetime (mkDT Y mo d h mi s 0) /\
     (valid_date Y mo d -> to_utc_datetime r = mkDT Y mo d h mi s 0)) /\
  (forall t : time UTC, nano t = 0 -> 0 <= sec t <= last_sec ->
     month (to_utc_datetime t) = mo -> day (to_utc_datetime t) = d ->
     hour (to_utc_datetime t) = h -> minute (to_utc_datetime t) = mi ->
     second (to_utc_datetime t) = s ->
     instant a < instant t -> instant r <= instant t).
Proof.
  intros Ha Hn Hmo Hd Hh Hmi Hs. cbv zeta.
  assert (0 <= sec a <= last_sec) as Ha' by (unfold last_sec in *; lia).
  pose proof (to_utc_datetime_spec a Ha') as E.
  pose proof (civil_fits (sec a / 86400) ltac:(lia) ltac:(unfold last_sec in *; lia)) as C.
  pose proof (from_to a Ha') as RT.
  destruct (civil (sec a / 86400)) as [[y m0] d0]. rewrite E. cbn [year].
  destruct C as (Hy & V0 & Ed).
  pose proof (closed_in_year _ _ _ V0) as Y0.
  (* y + 1 still fits i32 *)
  assert (y + 1 <= 2147483647) as Hy1.
  { destruct (Z.le_gt_cases (y + 1) 2147483647); auto. exfalso.
    pose proof (closed_year_mono 2147483647 y ltac:(lia)) as M.
    assert ((day_closed 2147483647 1 1 - 719468) * 86400 = last_sec + 1 - 365 * 86400) as L
      by (vm_compute; reflexivity). unfold last_sec in *. lia. }
  set (cand := fun Y => from_utc_datetime (mkDT Y mo d h mi s 0)).
  assert (forall Y, 1970 <= Y -> cand Y =
     mkTime ((day_closed Y mo d - 719468) * 86400 + h * 3600 + mi * 60 + s) 0) as Ec.
  { intros Y HY. unfold cand. rewrite from_utc_datetime_spec; cbn [year month day hour minute second nanos]; auto. }
  assert (next_yearly a mo d h mi s = if time_leb (cand y) a then cand (y + 1) else cand y) as En.
  { unfold next_yearly. rewrite E. cbn [year]. rewrite w32_id by (unfold in_i32; lia). reflexivity. }
  rewrite En.
  pose proof (closed_any_day y mo d Hmo Hd) as A1.
  pose proof (closed_any_day (y + 1) mo d Hmo Hd) as A2.
  assert (day_closed (y + 1 + 1) 1 1 <= day_closed y 1 1 + 731) as A3.
  { unfold day_closed. cbn [Z.leb Z.compare fst snd Pos.compare Pos.compare_cont].
    replace (y + 1 + 1 - 1) with (y + 1) by ring. lia. }
  assert (forall Y, 1970 <= Y <= 2147483647 -> valid_date Y mo d ->
          to_utc_datetime (cand Y) = mkDT Y mo d h mi s 0) as RTc.
  { intros Y HY VY. apply to_from; cbn [year]; auto.
    unfold valid_datetime; cbn [year month day hour minute second nanos]. auto with zarith. repeat split; try lia; apply VY. }
  assert (forall t : time UTC, nano t = 0 -> 0 <= sec t <= last_sec ->
     month (to_utc_datetime t) = mo -> day (to_utc_datetime t) = d ->
     hour (to_utc_datetime t) = h -> minute (to_utc_datetime t) = mi ->
     second (to_utc_datetime t) = s -> instant a < instant t ->
     exists Y, y <= Y /\ t = cand Y) as Match.
  { intros t Ht0 Ht F1 F2 F3 F4 F5 Hlt.
    pose proof (to_utc_datetime_spec t Ht) as Et.
    pose proof (civil_fits (sec t / 86400) ltac:(lia) ltac:(unfold last_sec in *; lia)) as Ct.
    pose proof (from_to t Ht) as RTt.
    destruct (civil (sec t / 86400)) as [[yt mt] dt]. rewrite Et in *.
    cbn [year month day hour minute second] in *. subst mt dt. destruct Ct as (Hyt & Vt & Edt).
    exists yt. split.
    - destruct (Z.le_gt_cases y yt); auto. exfalso.
      pose proof (closed_in_year _ _ _ Vt) as Yt.
      pose proof (closed_year_mono (yt + 1) y ltac:(lia)).
      unfold instant in Hlt. lia.
    - rewrite <- RTt. unfold cand. rewrite F3, F4, F5, Ht0. reflexivity. }
  assert (nano (cand y) = 0) as Nc by (rewrite Ec by lia; reflexivity).
  rewrite time_leb_spec by lia.
  destruct (Z.leb_spec (instant (cand y)) (instant a)) as [L|L].
  - rewrite (Ec (y + 1)) by lia. rewrite (Ec y) in L by lia.
    unfold instant in *. cbn [sec nano] in *.
    split; [reflexivity|]. split; [lia|]. split.
    + exists (y + 1). split; [right; reflexivity|]. rewrite <- (Ec (y + 1)) by lia.
      split; [reflexivity|]. intros VY. apply RTc; [lia|exact VY].
    + intros t Ht0 Ht F1 F2 F3 F4 F5 Hlt.
      destruct (Match t Ht0 Ht F1 F2 F3 F4 F5 Hlt) as (Y & HY & ->).
      rewrite (Ec Y) in * by lia. cbn [sec nano] in *.
      destruct (Z.eq_dec Y y) as [->|]; [lia|].
      pose proof (closed_mono_year (y + 1) Y mo d ltac:(lia)). lia.
  - rewrite (Ec y) in * by lia. unfold instant in *. cbn [sec nano] in *.
    split; [reflexivity|]. split; [lia|]. split.
    + exists y. split; [left; reflexivity|]. rewrite <- (Ec y) by lia.
      split; [reflexivity|]. intros VY. apply RTc; [lia|exact VY].
    + intros t Ht0 Ht F1 F2 F3 F4 F5 Hlt.
      destruct (Match t Ht0 Ht F1 F2 F3 F4 F5 Hlt) as (Y & HY & ->).
      rewrite (Ec Y) in * by lia. cbn [sec nano] in *.
      pose proof (closed_mono_year y Y mo d ltac:(lia)). lia.
Qed.
