(** The civil calendar lifted from one era to all days. *)
From Coq Require Import ZArith Lia Bool List ZifyBool ZifyNat.
From Verif Require Import Machine TimeModel TimeSpec TimeProofs CalendarCheck.
Import ListNotations.
Open Scope Z_scope.
Ltac Zify.zify_post_hook ::= Z.to_euclidean_division_equations.

Lemma leap_shift y k : leap_year (y + k * 400) = leap_year y.
Proof.
  unfold leap_year.
  replace (y + k * 400) with (y + (k * 100) * 4) at 1 by ring. rewrite Z.mod_add by lia.
  replace (y + k * 400) with (y + (k * 4) * 100) at 1 by ring. rewrite Z.mod_add by lia.
  rewrite Z.mod_add by lia. reflexivity.
Qed.
Lemma month_length_shift y k m : month_length (y + k * 400) m = month_length y m.
Proof. unfold month_length. rewrite leap_shift. reflexivity. Qed.
Lemma tomorrow_shift k a : tomorrow (shift400 k a) = shift400 k (tomorrow a).
Proof.
  destruct a as [[y m] d]. cbn. rewrite month_length_shift.
  destruct (d <? month_length y m); [reflexivity|].
  destruct (m <? 12); [reflexivity|]. unfold shift400. f_equal; f_equal. ring.
Qed.
Lemma shift400_add j k a : shift400 j (shift400 k a) = shift400 (k + j) a.
Proof. destruct a as [[y m] d]. unfold shift400. f_equal; f_equal. ring. Qed.

(** Proleptic date of any day number relative to 1970-01-01, without casts. *)
Definition civil (days : Z) : Z * Z * Z :=
  let z := days + 719468 in shift400 (z / 146097) (civil_core (z mod 146097)).

Lemma civil_0 : civil 0 = (1970, 1, 1).
Proof. vm_compute. reflexivity. Qed.

Lemma civil_valid days : valid_dateb (civil days) = true.
Proof.
  unfold civil. set (z := days + 719468).
  pose proof (check_doe (z mod 146097) ltac:(apply Z.mod_pos_bound; lia)) as C.
  unfold check_day in C. destruct (Z.leb_spec 146097 (z mod 146097)); [lia|].
 cbv zeta in C. apply andb_prop in C as [C _]. apply andb_prop in C as [C _].
  destruct (civil_core (z mod 146097)) as [[y m] d]. cbn in *.
  rewrite month_length_shift. exact C.
Qed.

Lemma civil_succ days : civil (days + 1) = tomorrow (civil days).
Proof.
  unfold civil. replace (days + 1 + 719468) with (days + 719468 + 1) by ring.
  set (z := days + 719468). clearbody z.
  pose proof (check_doe (z mod 146097) ltac:(apply Z.mod_pos_bound; lia)) as C.
  unfold check_day in C. destruct (Z.leb_spec 146097 (z mod 146097)); [lia|].
 cbv zeta in C. apply andb_prop in C as [C _]. apply andb_prop in C as [_ C].
  apply ymd_eqb_eq in C. rewrite tomorrow_shift, C.
  destruct (Z.eqb_spec (z mod 146097) 146096) as [E|E].
  - assert ((z + 1) / 146097 = z / 146097 + 1) as -> by lia.
    assert ((z + 1) mod 146097 = 0) as -> by lia.
    rewrite shift400_add. f_equal. ring.
  - assert ((z + 1) / 146097 = z / 146097) as -> by lia.
    assert ((z + 1) mod 146097 = z mod 146097 + 1) as -> by lia. reflexivity.
Qed.

Lemma civil_iter n : civil (Z.of_nat n) = date_after n.
Proof.
  induction n as [|n IH]; [exact civil_0|].
  rewrite Nat2Z.inj_succ. unfold Z.succ. rewrite civil_succ, IH. reflexivity.
Qed.

(** Year of a day number lies within one year of its era position. *)
Lemma civil_year_bounds days :
  let '(y, m, d) := civil days in
  (days + 719468) / 146097 * 400 + (if m <=? 2 then 1 else 0) <= y <= (days + 719468) / 146097 * 400 + 400.
Proof.
  unfold civil. set (z := days + 719468).
  pose proof (check_doe (z mod 146097) ltac:(apply Z.mod_pos_bound; lia)) as C.
  unfold check_day in C. destruct (Z.leb_spec 146097 (z mod 146097)); [lia|].
 cbv zeta in C. apply andb_prop in C as [_ C].
  destruct (civil_core (z mod 146097)) as [[y m] d]. cbn in *.
  destruct (m <=? 2); lia.
Qed.

Lemma day_core_civil days : 0 <= days + 719468 ->
  let '(y, m, d) := civil days in day_core y m d = days + 719468.
Proof.
  intros Hz. unfold civil. set (z := days + 719468) in *.
  pose proof (check_doe (z mod 146097) ltac:(apply Z.mod_pos_bound; lia)) as C.
  unfold check_day in C. destruct (Z.leb_spec 146097 (z mod 146097)); [lia|].
 cbv zeta in C. apply andb_prop in C as [C0 C]. apply andb_prop in C0 as [Cv _].
  destruct (civil_core (z mod 146097)) as [[y m] d]. cbn [shift400 valid_dateb] in *.
  apply andb_prop in C as [C C3]. apply andb_prop in C as [C1 C2].
  apply Z.eqb_eq in C1. apply Z.leb_le in C2, C3.
  set (k := z / 146097) in *. assert (0 <= k) by (apply Z.div_pos; lia).
  assert (z = k * 146097 + z mod 146097) as Ez by (pose proof (Z.div_mod z 146097); lia).
  rewrite Ez at 1. rewrite <- C1. clearbody k. clear Ez.
  unfold day_core.
  destruct (Z.leb_spec m 2) as [Hm|Hm]; cbn [fst snd].
  - (* y may be 0 only when m > 2, because the era starts in March *)
    assert (1 <= y) by (destruct (Z.leb_spec m 2); lia).
    assert (Z.quot (y + k * 400 - 1) 400 = Z.quot (y - 1) 400 + k) as -> by lia.
      replace (y + k * 400 - 1 - (Z.quot (y - 1) 400 + k) * 400)
        with (y - 1 - Z.quot (y - 1) 400 * 400) by ring. ring.
  - assert (Z.quot (y + k * 400) 400 = Z.quot y 400 + k) as -> by lia.
    replace (y + k * 400 - (Z.quot y 400 + k) * 400)
      with (y - Z.quot y 400 * 400) by ring. ring.
Qed.

(** Closed form of the day number, valid from March of year 0 on. *)
Definition day_closed (y m d : Z) : Z :=
  let ym := if m <=? 2 then (y - 1, m + 12) else (y, m) in
  365 * fst ym + fst ym / 4 - fst ym / 100 + fst ym / 400
    + (153 * (snd ym - 3) + 2) / 5 + d - 1.

Lemma day_core_closed y m d : 1 <= y -> 1 <= m <= 12 -> day_core y m d = day_closed y m d.
Proof.
  intros Hy Hm. unfold day_core, day_closed.
  destruct (Z.leb_spec m 2); cbn [fst snd].
  - rewrite (Z.quot_div_nonneg (y - 1) 400) by lia.
    set (Y := y - 1) in *. assert (0 <= Y) by lia. clearbody Y.
    rewrite (Z.quot_div_nonneg _ 4) by lia. rewrite (Z.quot_div_nonneg _ 100) by lia.
    rewrite (Z.quot_div_nonneg _ 5) by lia. lia.
  - rewrite (Z.quot_div_nonneg y 400) by lia.
    rewrite (Z.quot_div_nonneg _ 4) by lia. rewrite (Z.quot_div_nonneg _ 100) by lia.
    rewrite (Z.quot_div_nonneg _ 5) by lia. lia.
Qed.

(** Start of a month relative to start of year, and monotonicity. *)
Lemma closed_day y m d : day_closed y m d = day_closed y m 1 + (d - 1).
Proof. unfold day_closed. destruct (m <=? 2); cbn [fst snd]; lia. Qed.

Lemma closed_next_month y m : 1 <= m <= 11 ->
  day_closed y (m + 1) 1 = day_closed y m 1 + month_length y m.
Proof.
  intros Hm. unfold day_closed, month_length, leap_year.
  assert (m = 1 \/ m = 2 \/ m = 3 \/ m = 4 \/ m = 5 \/ m = 6 \/ m = 7 \/ m = 8 \/ m = 9 \/ m = 10 \/ m = 11) as Hc by lia.
  destruct Hc as [->|[->|[->|[->|[->|[->|[->|[->|[->|[->| ->]]]]]]]]]]; cbn [Z.add Z.leb Z.compare Z.eqb orb Pos.compare Pos.compare_cont Pos.eqb fst snd Pos.add Pos.succ]; try lia.
  destruct (Z.eqb_spec (y mod 4) 0), (Z.eqb_spec (y mod 100) 0), (Z.eqb_spec (y mod 400) 0);
    cbn [andb orb negb]; lia.
Qed.

Lemma closed_next_year y : day_closed (y + 1) 1 1 = day_closed y 12 1 + 31.
Proof. unfold day_closed. cbn [Z.leb Z.compare fst snd Pos.compare Pos.compare_cont]. replace (y + 1 - 1) with y by ring. lia. Qed.

Lemma month_length_pos y m : 28 <= month_length y m <= 31.
Proof. unfold month_length. brk; lia. Qed.

Lemma closed_month_le y m m' : 1 <= m -> m < m' -> m' <= 12 ->
  day_closed y m 1 + month_length y m <= day_closed y m' 1.
Proof.
  intros H1 H2 H3.
  assert (forall n : nat, m + 1 + Z.of_nat n <= 12 ->
    day_closed y m 1 + month_length y m <= day_closed y (m + 1 + Z.of_nat n) 1) as A.
  { induction n as [|n IH]; intros Hn.
    - rewrite Z.add_0_r. rewrite closed_next_month by lia. lia.
    - rewrite Nat2Z.inj_succ in *. replace (m + 1 + Z.succ (Z.of_nat n)) with ((m + 1 + Z.of_nat n) + 1) by lia.
      rewrite closed_next_month by lia. pose proof (month_length_pos y (m + 1 + Z.of_nat n)).
      specialize (IH ltac:(lia)). lia. }
  specialize (A (Z.to_nat (m' - m - 1)) ltac:(lia)).
  replace (m + 1 + Z.of_nat (Z.to_nat (m' - m - 1))) with m' in A by lia. exact A.
Qed.

Lemma closed_in_year y m d : valid_date y m d ->
  day_closed y 1 1 <= day_closed y m d < day_closed (y + 1) 1 1.
Proof.
  intros (Hm & Hd). rewrite (closed_day y m d).
  split.
  - destruct (Z.eq_dec m 1) as [->|]; [lia|].
    pose proof (closed_month_le y 1 m). pose proof (month_length_pos y 1). lia.
  - rewrite closed_next_year.
    destruct (Z.eq_dec m 12) as [->|].
    + unfold month_length in Hd. cbn in Hd. lia.
    + pose proof (closed_month_le y m 12). lia.
Qed.

Lemma closed_year_mono y y' : y <= y' -> day_closed y 1 1 <= day_closed y' 1 1.
Proof. unfold day_closed. cbn [Z.leb Z.compare fst snd Pos.compare Pos.compare_cont]. lia. Qed.

Definition ymd_lt (y m d y' m' d' : Z) : Prop :=
  y < y' \/ y = y' /\ (m < m' \/ m = m' /\ d < d').

Lemma closed_mono y m d y' m' d' :
  valid_date y m d -> valid_date y' m' d' -> ymd_lt y m d y' m' d' ->
  day_closed y m d < day_closed y' m' d'.
Proof.
  intros V V' [H|[-> [H|[-> H]]]].
  - pose proof (closed_in_year _ _ _ V). pose proof (closed_in_year _ _ _ V').
    pose proof (closed_year_mono (y + 1) y'). lia.
  - destruct V as (Hm & Hd), V' as (Hm' & Hd').
    rewrite (closed_day y' m d), (closed_day y' m' d').
    pose proof (closed_month_le y' m m'). lia.
  - rewrite (closed_day y' m' d), (closed_day y' m' d'). lia.
Qed.

Lemma ymd_trichotomy y m d y' m' d' :
  ymd_lt y m d y' m' d' \/ (y, m, d) = (y', m', d') \/ ymd_lt y' m' d' y m d.
Proof.
  unfold ymd_lt. destruct (Z.lt_trichotomy y y') as [|[->|]]; [left; lia| |right; right; lia].
  destruct (Z.lt_trichotomy m m') as [|[->|]]; [left; lia| |right; right; lia].
  destruct (Z.lt_trichotomy d d') as [|[->|]]; [left; lia| |right; right; lia].
  right; left; reflexivity.
Qed.

Lemma closed_inj y m d y' m' d' :
  valid_date y m d -> valid_date y' m' d' ->
  day_closed y m d = day_closed y' m' d' -> (y, m, d) = (y', m', d').
Proof.
  intros V V' E. destruct (ymd_trichotomy y m d y' m' d') as [H|[H|H]]; auto.
  - pose proof (closed_mono _ _ _ _ _ _ V V' H). lia.
  - pose proof (closed_mono _ _ _ _ _ _ V' V H). lia.
Qed.

Lemma valid_dateb_spec y m d : valid_dateb (y, m, d) = true <-> valid_date y m d.
Proof. unfold valid_dateb, valid_date. lia. Qed.

Lemma civil_day_closed days : 0 <= days + 719162 ->
  let '(y, m, d) := civil days in 1 <= y /\ valid_date y m d /\ day_closed y m d = days + 719468.
Proof.
  intros H. pose proof (day_core_civil days ltac:(lia)) as D.
  pose proof (civil_valid days) as V. pose proof (civil_year_bounds days) as B.
  destruct (civil days) as [[y m] d]. apply valid_dateb_spec in V.
  assert (0 <= (days + 719468) / 146097) by (apply Z.div_pos; lia).
  assert (0 <= y) by (destruct (m <=? 2); lia).
  assert (1 <= y) as Hy.
  { destruct (Z.le_gt_cases 1 y); auto. assert (y = 0) by lia. subst y. exfalso.
    destruct V as (Hm & Hd). unfold day_core in D.
    destruct (Z.leb_spec m 2); cbn [fst snd] in D.
    - lia.
    - pose proof (month_length_pos 0 m). clear B.
      assert (Z.quot (153 * (m - 3) + 2) 5 + d <= 306).
      { unfold month_length in Hd.
        assert (m = 3 \/ m = 4 \/ m = 5 \/ m = 6 \/ m = 7 \/ m = 8 \/ m = 9 \/ m = 10 \/ m = 11 \/ m = 12) as Hc by lia.
        destruct Hc as [->|[->|[->|[->|[->|[->|[->|[->|[->| ->]]]]]]]]]; cbn in Hd |- *; lia. }
      change (Z.quot 0 400) with 0 in D. change (0 - 0 * 400) with 0 in D.
      change (Z.quot 0 4) with 0 in D. change (Z.quot 0 100) with 0 in D.
      set (qq := Z.quot (153 * (m - 3) + 2) 5) in *. clearbody qq. lia. }
  split; auto. split; auto. rewrite <- day_core_closed; auto. apply V.
Qed.

(* from (to days) and to (from date) on dates from year 1 on *)
Lemma civil_of_closed y m d :
  1970 <= y -> valid_date y m d -> civil (day_closed y m d - 719468) = (y, m, d).
Proof.
  intros Hy V. set (n := day_closed y m d - 719468).
  assert (0 <= n).
  { unfold n. pose proof (closed_in_year y m d V). pose proof (closed_year_mono 1970 y Hy).
    assert (day_closed 1970 1 1 = 719468) by (vm_compute; reflexivity). lia. }
  pose proof (civil_day_closed n ltac:(lia)) as C.
  destruct (civil n) as [[y' m'] d']. destruct C as (Hy' & V' & E).
  apply closed_inj; auto. unfold n in E. lia.
Qed.
