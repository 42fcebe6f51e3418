(** The civil calendar: one 400-year era checked by computation. *)
From Coq Require Import ZArith Lia Bool List ZifyBool ZifyNat.
From Verif Require Import Machine TimeModel TimeSpec TimeProofs.
Import ListNotations.
Open Scope Z_scope.
Ltac Zify.zify_post_hook ::= Z.to_euclidean_division_equations.

(** Exhaustive check of a boolean predicate on [lo, lo + 2^k). *)
Fixpoint range_all (k : nat) (lo : Z) (f : Z -> bool) : bool :=
  match k with
  | O => f lo
  | S k' => range_all k' lo f && range_all k' (lo + 2 ^ Z.of_nat k') f
  end.

Lemma range_all_spec k : forall lo f, range_all k lo f = true ->
  forall z, lo <= z < lo + 2 ^ Z.of_nat k -> f z = true.
Proof.
  induction k as [|k IH]; intros lo f H z Hz.
  - cbn in *. replace z with lo by lia. exact H.
  - cbn [range_all] in H. apply andb_prop in H. destruct H as [H1 H2].
    rewrite Nat2Z.inj_succ, Z.pow_succ_r in Hz by lia.
    destruct (Z.lt_ge_cases z (lo + 2 ^ Z.of_nat k)).
    + apply (IH lo f H1); lia.
    + apply (IH _ f H2); lia.
Qed.

(** Date within an era (400 years starting on 1 March of year 0). *)
Definition civil_core (doe : Z) : Z * Z * Z :=
  let yoe := Z.quot (doe - Z.quot doe 1460 + Z.quot doe 36524 - Z.quot doe 146096) 365 in
  let doy := doe - (365 * yoe + Z.quot yoe 4 - Z.quot yoe 100) in
  let mp := Z.quot (5 * doy + 2) 153 in
  let d := doy - Z.quot (153 * mp + 2) 5 + 1 in
  let m := mp + (if mp <? 10 then 3 else -9) in
  (yoe + (if m <=? 2 then 1 else 0), m, d).

Definition day_core (y m d : Z) : Z :=   (* day number of (y,m,d), y >= 0 after the March shift *)
  let ym := if m <=? 2 then (y - 1, m + 12) else (y, m) in
  let y := fst ym in let m := snd ym in
  let era := Z.quot y 400 in
  let yoe := y - era * 400 in
  let doy := Z.quot (153 * (m - 3) + 2) 5 + d - 1 in
  era * 146097 + (yoe * 365 + Z.quot yoe 4 - Z.quot yoe 100 + doy).

Lemma days_to_ymd_core days h mi s :
  days_to_ymd days h mi s =
    let z := days + 719468 in
    let '(y, m, d) := civil_core (z mod 146097) in
    mkDT (w32 (y + z / 146097 * 400)) (u8 m) (u8 d) h mi s 0.
Proof.
  unfold days_to_ymd. cbv zeta. set (z := days + 719468). clearbody z.
  assert ((if 0 <=? z then Z.quot z 146097 else Z.quot (z - 146096) 146097) = z / 146097) as ->.
  { destruct (Z.leb_spec 0 z); lia. }
  replace (z - z / 146097 * 146097) with (z mod 146097)
    by (pose proof (Z.div_mod z 146097); lia).
  unfold civil_core. cbv zeta. f_equal. f_equal. ring.
Qed.

Definition ymd_eqb (a b : Z * Z * Z) : bool :=
  let '(y, m, d) := a in let '(y', m', d') := b in (y =? y') && (m =? m') && (d =? d').
Lemma ymd_eqb_eq a b : ymd_eqb a b = true -> a = b.
Proof. destruct a as [[y m] d], b as [[y' m'] d']; cbn; intros. f_equal; [f_equal|]; lia. Qed.

Definition shift400 (k : Z) (a : Z * Z * Z) : Z * Z * Z :=
  let '(y, m, d) := a in (y + k * 400, m, d).

Definition valid_dateb (a : Z * Z * Z) : bool :=
  let '(y, m, d) := a in (1 <=? m) && (m <=? 12) && (1 <=? d) && (d <=? month_length y m).

(** Years of an era start on day [year_start y]; the last one is a day longer. *)
Definition year_start (y : Z) : Z := 365 * y + y / 4 - y / 100.
Definition year_of (doe : Z) : Z := (doe - doe / 1460 + doe / 36524 - doe / 146096) / 365.

Lemma year_of_mono a b : 0 <= a <= b -> b <= 146095 -> year_of a <= year_of b.
Proof.
  intros H1 H2. unfold year_of. apply Z.div_le_mono; [lia|].
  assert (a / 146096 = 0) as -> by (apply Z.div_small; lia).
  assert (b / 146096 = 0) as -> by (apply Z.div_small; lia).
  assert (a - a / 1460 <= b - b / 1460) by lia.
  assert (a / 36524 <= b / 36524) by (apply Z.div_le_mono; lia). lia.
Qed.

Definition check_year (y : Z) : bool :=
  if 400 <=? y then true else
  (year_of (year_start y) =? y) &&
  (if y =? 0 then true else year_of (year_start y - 1) =? y - 1).

Lemma check_years : range_all 9 0 check_year = true.
Proof. vm_compute. reflexivity. Qed.

Lemma year_of_spec doe : 0 <= doe < 146097 ->
  let y := year_of doe in
  0 <= y <= 399 /\ year_start y <= doe /\ (y < 399 -> doe < year_start (y + 1)).
Proof.
  intros H. cbv zeta.
  destruct (Z.eq_dec doe 146096) as [->|Hn]; [vm_compute; intuition congruence|].
  assert (0 <= year_of doe <= 399) as Hy.
  { pose proof (year_of_mono 0 doe ltac:(lia) ltac:(lia)) as A.
    pose proof (year_of_mono doe 146095 ltac:(lia) ltac:(lia)) as B.
    change (year_of 0) with 0 in A. change (year_of 146095) with 399 in B. lia. }
  set (y := year_of doe) in *. split; [exact Hy|].
  assert (forall k, 0 <= k <= 399 -> year_of (year_start k) = k /\ (k <> 0 -> year_of (year_start k - 1) = k - 1)) as C.
  { intros k Hk. pose proof (range_all_spec 9 0 check_year check_years k ltac:(cbn; lia)) as E.
    unfold check_year in E. destruct (Z.leb_spec 400 k); [lia|].
    apply andb_prop in E as [E1 E2]. split; [lia|]. intros. destruct (Z.eqb_spec k 0); lia. }
  assert (forall k, 0 <= k <= 399 -> 0 <= year_start k <= 145731) as S by (intros k Hk; unfold year_start; lia).
  split.
  - destruct (Z.le_gt_cases (year_start y) doe); auto. exfalso.
    destruct (Z.eq_dec y 0) as [E|E]; [rewrite E in *; unfold year_start in *; lia|].
    destruct (C y Hy) as [_ C2]. pose proof (S y Hy).
    pose proof (year_of_mono doe (year_start y - 1) ltac:(lia) ltac:(lia)) as M.
    rewrite (C2 E) in M. fold y in M. lia.
  - intros Hlt. destruct (Z.lt_ge_cases doe (year_start (y + 1))); auto. exfalso.
    destruct (C (y + 1) ltac:(lia)) as [C1 _]. pose proof (S (y + 1) ltac:(lia)).
    pose proof (year_of_mono (year_start (y + 1)) doe ltac:(lia) ltac:(lia)) as M.
    rewrite C1 in M. fold y in M. lia.
Qed.

(** Month and day from the day of a March-based year. *)
Definition month_of (doy : Z) : Z :=
  let mp := (5 * doy + 2) / 153 in mp + (if mp <? 10 then 3 else -9).
Definition day_of (doy : Z) : Z :=
  let mp := (5 * doy + 2) / 153 in doy - (153 * mp + 2) / 5 + 1.
Definition carry (m : Z) : Z := if m <=? 2 then 1 else 0.

(* the month length with the leap status given *)
Definition mlen (leap : bool) (m : Z) : Z :=
  if m =? 2 then (if leap then 29 else 28)
  else if (m =? 4) || (m =? 6) || (m =? 9) || (m =? 11) then 30 else 31.

Definition check_doy (leap : bool) (doy : Z) : bool :=
  let last := if leap then 365 else 364 in
  if last <? doy then true else
  let m := month_of doy in let d := day_of doy in
  (1 <=? m) && (m <=? 12) && (1 <=? d) && (d <=? mlen leap m) &&
  ((153 * ((if m <=? 2 then m + 12 else m) - 3) + 2) / 5 + d - 1 =? doy) &&
  (if doy =? last then (m =? 2) && (d =? mlen leap 2)
   else if d <? mlen leap m then (month_of (doy + 1) =? m) && (day_of (doy + 1) =? d + 1)
   else (day_of (doy + 1) =? 1) && 
        (if m =? 12 then (month_of (doy + 1) =? 1)
         else (month_of (doy + 1) =? m + 1) && (negb (m =? 2)))).

Lemma check_doys : range_all 9 0 (check_doy true) && range_all 9 0 (check_doy false) = true.
Proof. vm_compute. reflexivity. Qed.

Lemma doy_facts (leap : bool) doy : 0 <= doy <= (if leap then 365 else 364) -> check_doy leap doy = true.
Proof.
  intros H. pose proof check_doys as C. apply andb_prop in C as [C1 C2].
  destruct leap; [apply (range_all_spec 9 0 _ C1)|apply (range_all_spec 9 0 _ C2)]; cbn; lia.
Qed.

Lemma civil_core_split doe : 0 <= doe < 146097 ->
  let y := year_of doe in let doy := doe - year_start y in
  civil_core doe = (y + carry (month_of doy), month_of doy, day_of doy).
Proof.
  intros H. destruct (year_of_spec doe H) as (Hy & Hs & _). cbv zeta.
  assert (Z.quot (doe - Z.quot doe 1460 + Z.quot doe 36524 - Z.quot doe 146096) 365 = year_of doe) as E.
  { unfold year_of. rewrite !Z.quot_div_nonneg; try lia; rewrite !Z.quot_div_nonneg by lia; lia. }
  unfold civil_core. rewrite E. cbv zeta.
  set (y := year_of doe) in *. clearbody y.
  rewrite (Z.quot_div_nonneg y 4), (Z.quot_div_nonneg y 100) by lia.
  fold (year_start y).
  assert (0 <= doe - year_start y) by lia. set (doy := doe - year_start y) in *. clearbody doy.
  assert (0 <= (5 * doy + 2) / 153) by (apply Z.div_pos; lia).
  rewrite (Z.quot_div_nonneg (5 * doy + 2)) by lia.
  rewrite (Z.quot_div_nonneg (153 * _ + 2)) by lia.
  reflexivity.
Qed.

Lemma leap_of_era y : 0 <= y <= 399 ->
  leap_year (y + 1) = ((if y =? 399 then 146097 else year_start (y + 1)) - year_start y =? 366).
Proof.
  intros H. unfold leap_year, year_start.
  destruct (Z.eqb_spec y 399) as [->|]; [reflexivity|].
  destruct (Z.eqb_spec ((y + 1) mod 4) 0), (Z.eqb_spec ((y + 1) mod 100) 0), (Z.eqb_spec ((y + 1) mod 400) 0);
    cbn [andb orb negb]; symmetry; first [apply Z.eqb_eq; lia | apply Z.eqb_neq; lia].
Qed.

Lemma mlen_spec y m : month_length y m = mlen (leap_year y) m.
Proof. reflexivity. Qed.
Lemma mlen_other a b m : m <> 2 -> mlen a m = mlen b m.
Proof. intros; unfold mlen. destruct (Z.eqb_spec m 2); [lia|reflexivity]. Qed.

Definition check_day (doe : Z) : bool :=
  if 146097 <=? doe then true else
  (let c := civil_core doe in
   valid_dateb c &&
   ymd_eqb (tomorrow c) (if doe =? 146096 then shift400 1 (civil_core 0) else civil_core (doe + 1)) &&
   (let '(y, m, d) := c in (day_core y m d =? doe) && ((if m <=? 2 then 1 else 0) <=? y) && (y <=? 400))).

Lemma check_doe doe : 0 <= doe < 146097 -> check_day doe = true.
Proof.
  intros H. unfold check_day. destruct (Z.leb_spec 146097 doe); [lia|].
  pose proof (civil_core_split doe H) as E. destruct (year_of_spec doe H) as (Hy & Hs & Hlt).
  cbv zeta in E. set (y := year_of doe) in *. remember (doe - year_start y) as doy eqn:Edoy.
  pose proof (leap_of_era y Hy) as HL.
  set (leap := leap_year (y + 1)) in *.
  assert (doy <= (if leap then 365 else 364) /\ 0 <= doy) as (Hd1 & Hd0).
  { rewrite HL. split; [|lia].
    destruct (Z.eqb_spec y 399) as [E9|E9].
    - rewrite E9 in *. change (year_start 399) with 145731 in *. cbn. lia.
    - specialize (Hlt ltac:(lia)).
      assert (year_start (y + 1) - year_start y = 365 \/ year_start (y + 1) - year_start y = 366) by (unfold year_start; lia).
      destruct (Z.eqb_spec (year_start (y + 1) - year_start y) 366); lia. }
  pose proof (doy_facts leap doy ltac:(lia)) as F.
  unfold check_doy in F. cbv zeta in F.
  destruct (Z.ltb_spec (if leap then 365 else 364) doy); [lia|].
  set (m := month_of doy) in *. set (d := day_of doy) in *.
  repeat (apply andb_prop in F as [F ?]).
  match goal with H1 : (if doy =? _ then _ else _) = true, H2 : (_ =? doy) = true |- _ =>
    rename H1 into Fnext; rename H2 into Fdoy end.
  assert (month_length (y + carry m) m = mlen leap m) as ML.
  { rewrite mlen_spec. destruct (Z.eq_dec m 2) as [E2|E2].
    - rewrite E2. change (carry 2) with 1. reflexivity.
    - apply mlen_other; auto. }
  assert (tomorrow (civil_core doe) =
     (if doe =? 146096 then shift400 1 (civil_core 0) else civil_core (doe + 1))) as T.
  { rewrite E. cbn [tomorrow]. rewrite ML.
    destruct (Z.eqb_spec doy (if leap then 365 else 364)) as [Elast|Elast].
    - apply andb_prop in Fnext as [F1 F2]. apply Z.eqb_eq in F1, F2.
      destruct (Z.ltb_spec d (mlen leap m)); [rewrite F1 in *; lia|].
      destruct (Z.ltb_spec m 12); [|lia].
      rewrite F1. change (carry 2) with 1. change (2 + 1) with 3.
      destruct (Z.eqb_spec doe 146096) as [E6|E6].
      + assert (y = 399) as -> by (unfold y; rewrite E6; reflexivity). reflexivity.
      + destruct (Z.eq_dec y 399) as [E9|E9].
        { exfalso. rewrite HL, E9 in Elast. change (year_start 399) with 145731 in *.
          cbn in Elast. rewrite Edoy, E9 in Elast. change (year_start 399) with 145731 in *. lia. }
        destruct (Z.eqb_spec y 399); [lia|].
        specialize (Hlt ltac:(lia)).
        assert (doe + 1 = year_start (y + 1)) as Hnext.
        { assert (year_start (y + 1) - year_start y = 365 \/ year_start (y + 1) - year_start y = 366) by (unfold year_start; lia).
          destruct (Z.eqb_spec (year_start (y + 1) - year_start y) 366); rewrite HL in Elast; lia. }
        assert (year_of (doe + 1) = y + 1) as Yn.
        { rewrite Hnext.
          pose proof (range_all_spec 9 0 check_year check_years (y + 1) ltac:(cbn; lia)) as E0.
          unfold check_year in E0. destruct (Z.leb_spec 400 (y + 1)); [lia|].
          apply andb_prop in E0 as [E1 E2]. lia. }
        assert (0 <= doe + 1 < 146097) as Hr by lia.
        rewrite (civil_core_split (doe + 1) Hr). rewrite Yn.
        replace (doe + 1 - year_start (y + 1)) with 0 by lia.
        change (month_of 0) with 3. change (day_of 0) with 1. change (carry 3) with 0.
        f_equal; f_equal; ring.
    - assert (doe <> 146096) as E6.
      { intros E6. apply Elast. assert (y = 399) as E9 by (unfold y; rewrite E6; reflexivity).
        rewrite HL, Edoy, E9, E6. reflexivity. }
      destruct (Z.eqb_spec doe 146096); [lia|].
      assert (0 <= doe + 1 < 146097) as Hr by lia.
      assert (year_of (doe + 1) = y) as Yn.
      { destruct (year_of_spec (doe + 1) Hr) as (Hy' & Hs' & Hlt').
        set (y' := year_of (doe + 1)) in *.
        assert (forall a b, a < b -> year_start a < year_start b) as SM by (intros; unfold year_start; lia).
        destruct (Z.lt_trichotomy y' y) as [L|[L|L]]; [|exact L|].
        - specialize (Hlt' ltac:(lia)).
          assert (year_start (y' + 1) <= year_start y).
          { destruct (Z.eq_dec (y' + 1) y) as [->|]; [lia|]. specialize (SM (y' + 1) y ltac:(lia)). lia. }
          lia.
        - destruct (Z.eqb_spec y 399); [lia|].
          assert (year_start (y + 1) <= year_start y').
          { destruct (Z.eq_dec (y + 1) y') as [->|]; [lia|]. specialize (SM (y + 1) y' ltac:(lia)). lia. }
          assert (year_start (y + 1) - year_start y = 365 \/ year_start (y + 1) - year_start y = 366) by (unfold year_start; lia).
          destruct (Z.eqb_spec (year_start (y + 1) - year_start y) 366); rewrite HL in Elast, Hd1; lia. }
      rewrite (civil_core_split (doe + 1) Hr). rewrite Yn.
      replace (doe + 1 - year_start y) with (doy + 1) by lia.
      destruct (Z.ltb_spec d (mlen leap m)) as [Ld|Ld].
      + apply andb_prop in Fnext as [F1 F2]. apply Z.eqb_eq in F1, F2. rewrite F1, F2. reflexivity.
      + apply andb_prop in Fnext as [F1 F2]. apply Z.eqb_eq in F1. rewrite F1.
        destruct (Z.eqb_spec m 12) as [E12|E12].
        * apply Z.eqb_eq in F2. rewrite F2, E12. cbn [Z.ltb Z.compare Pos.compare Pos.compare_cont].
          change (carry 12) with 0. change (carry 1) with 1. f_equal; f_equal; ring.
        * apply andb_prop in F2 as [F2 F3]. apply Z.eqb_eq in F2. rewrite F2.
          assert (m <> 2) by lia.
          destruct (Z.ltb_spec m 12); [|lia].
          assert (carry (m + 1) = carry m) as -> by (unfold carry; destruct (Z.leb_spec m 2), (Z.leb_spec (m + 1) 2); lia).
          reflexivity. }
  rewrite T.
  apply andb_true_intro; split; [apply andb_true_intro; split|].
  - rewrite E. unfold valid_dateb. rewrite ML. lia.
  - destruct (if doe =? 146096 then shift400 1 (civil_core 0) else civil_core (doe + 1)) as [[a b] c].
    unfold ymd_eqb. lia.
  - rewrite E. apply andb_true_intro; split; [apply andb_true_intro; split|].
    + unfold day_core, carry. apply Z.eqb_eq in Fdoy. apply Z.eqb_eq.
      destruct (Z.leb_spec m 2); cbn [fst snd].
      * replace (y + 1 - 1) with y by ring. rewrite (Z.quot_small y 400) by lia.
        rewrite (Z.quot_div_nonneg (153 * (m + 12 - 3) + 2) 5) by lia.
        replace (y - 0 * 400) with y by ring.
        rewrite (Z.quot_div_nonneg y 4), (Z.quot_div_nonneg y 100) by lia.
        unfold year_start in Edoy. lia.
      * replace (y + 0) with y by ring. rewrite (Z.quot_small y 400) by lia.
        rewrite (Z.quot_div_nonneg (153 * (m - 3) + 2) 5) by lia.
        replace (y - 0 * 400) with y by ring.
        rewrite (Z.quot_div_nonneg y 4), (Z.quot_div_nonneg y 100) by lia.
        unfold year_start in Edoy. lia.
    + unfold carry. destruct (m <=? 2); lia.
    + unfold carry. destruct (m <=? 2); lia.
Qed.
