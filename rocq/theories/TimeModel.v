(** Model of crates/aether_time/src/time/{time,duration,gps,mission,schedule}.rs.

    Arithmetic on the [i64]/[i32] fields wraps as in a release build ([w64],
    [w32]); [time_add_checked] and friends are the debug-build versions, where an
    overflow is a panic ([None]). *)
From Coq Require Import ZArith Lia Bool List.
From Verif Require Import Machine.
Import ListNotations.
Open Scope Z_scope.

(* time.rs:16-23, the phantom scale markers *)
Inductive scale := Unix | UTC | TAI | GPS.

(* time.rs:59-70  struct Time<TS> and Time::new *)
Record time (s : scale) := mkTime { sec : Z; nano : Z }.
Arguments mkTime {s} _ _.
Arguments sec {s} _.
Arguments nano {s} _.

(* duration.rs:6-10  struct Duration *)
Record duration := mkDur { dsec : Z; dnano : Z }.

(** the literal 1_000_000_000 of duration.rs:17-32: nanoseconds in a second *)
Definition G : Z := 1000000000.

(* time.rs:73-77  PartialEq *)
Definition time_eqb {s} (a b : time s) : bool := (sec a =? sec b) && (nano a =? nano b).

(* time.rs:87-94  Ord::cmp *)
Definition time_cmp {s} (a b : time s) : comparison :=
  match sec a ?= sec b with Eq => nano a ?= nano b | c => c end.

(* the operators < <= >= derived from Ord (time.rs:81-85) *)
Definition time_ltb {s} (a b : time s) : bool :=
  match time_cmp a b with Lt => true | _ => false end.
(** time.rs:81-94 *)
Definition time_leb {s} (a b : time s) : bool :=
  match time_cmp a b with Gt => false | _ => true end.

(* duration.rs:156-163  Ord::cmp for Duration *)
Definition dur_cmp (a b : duration) : comparison :=
  match dsec a ?= dsec b with Eq => dnano a ?= dnano b | c => c end.
(** duration.rs:150-163 *)
Definition dur_ltb (a b : duration) : bool :=
  match dur_cmp a b with Lt => true | _ => false end.
(** duration.rs:150-163 *)
Definition dur_leb (a b : duration) : bool :=
  match dur_cmp a b with Gt => false | _ => true end.

(* duration.rs:17-21  Duration::from_nanos *)
Definition from_nanos (total : Z) : duration :=
  mkDur (Z.quot total G) (w32 (Z.rem total G)).

(* duration.rs:23-32  Duration::normalize *)
Definition normalize (d : duration) : duration :=
  if G <=? dnano d then mkDur (w64 (dsec d + Z.quot (dnano d) G)) (Z.rem (dnano d) G)
  else if dnano d <? 0 then mkDur (w64 (dsec d - 1)) (w32 (dnano d + G))
  else d.

(* duration.rs:34-40 *)
Definition dur_zero : duration := mkDur 0 0.
(** duration.rs:38-40 *)
Definition from_secs (s : Z) : duration := mkDur s 0.

(* duration.rs:42-47 *)
Definition from_millis (ms : Z) : duration :=
  normalize (mkDur (Z.quot ms 1000) (w32 (Z.rem ms 1000 * 1000000))).

(* duration.rs:49-54 *)
Definition from_micros (us : Z) : duration :=
  normalize (mkDur (Z.quot us 1000000) (w32 (Z.rem us 1000000 * 1000))).

(* duration.rs:65-80 (by value) and 111-126 (by reference): identical bodies *)
Definition time_add {s} (t : time s) (d : duration) : time s :=
  let sc := w64 (sec t + dsec d) in
  let n := w32 (nano t + dnano d) in
  if G <=? n then mkTime (w64 (sc + 1)) (w32 (n - G))
  else if n <? 0 then mkTime (w64 (sc - 1)) (w32 (n + G))
  else mkTime sc n.

(* duration.rs:82-94 (by value) and 97-109 (by reference): identical bodies *)
Definition time_sub {s} (a b : time s) : duration :=
  let sc := w64 (sec a - sec b) in
  let n := w32 (nano a - nano b) in
  if n <? 0 then mkDur (w64 (sc - 1)) (w32 (n + G)) else mkDur sc n.

(* duration.rs:128-137 *)
Definition dur_add (a b : duration) : duration :=
  normalize (mkDur (w64 (dsec a + dsec b)) (w32 (dnano a + dnano b))).

(* duration.rs:139-148 *)
Definition dur_sub (a b : duration) : duration :=
  normalize (mkDur (w64 (dsec a - dsec b)) (w32 (dnano a - dnano b))).

(* Debug-build versions: the same bodies with overflow checks. *)
(** duration.rs:68-79 *)
Definition time_add_checked {s} (t : time s) (d : duration) : option (time s) :=
  bind (c64 (sec t + dsec d)) (fun sc =>
  bind (c32 (nano t + dnano d)) (fun n =>
  if G <=? n then
    bind (c64 (sc + 1)) (fun sc' => bind (c32 (n - G)) (fun n' => Some (mkTime sc' n')))
  else if n <? 0 then
    bind (c64 (sc - 1)) (fun sc' => bind (c32 (n + G)) (fun n' => Some (mkTime sc' n')))
  else Some (mkTime sc n))).

(** duration.rs:85-93 *)
Definition time_sub_checked {s} (a b : time s) : option duration :=
  bind (c64 (sec a - sec b)) (fun sc =>
  bind (c32 (nano a - nano b)) (fun n =>
  if n <? 0 then
    bind (c64 (sc - 1)) (fun sc' => bind (c32 (n + G)) (fun n' => Some (mkDur sc' n')))
  else Some (mkDur sc n))).

(** duration.rs:23-32 *)
Definition normalize_checked (d : duration) : option duration :=
  if G <=? dnano d then
    bind (c64 (dsec d + Z.quot (dnano d) G)) (fun s => Some (mkDur s (Z.rem (dnano d) G)))
  else if dnano d <? 0 then
    bind (c64 (dsec d - 1)) (fun s => bind (c32 (dnano d + G)) (fun n => Some (mkDur s n)))
  else Some d.

(** duration.rs:131-136 *)
Definition dur_add_checked (a b : duration) : option duration :=
  bind (c64 (dsec a + dsec b)) (fun s => bind (c32 (dnano a + dnano b)) (fun n =>
  normalize_checked (mkDur s n))).
(** duration.rs:142-147 *)
Definition dur_sub_checked (a b : duration) : option duration :=
  bind (c64 (dsec a - dsec b)) (fun s => bind (c32 (dnano a - dnano b)) (fun n =>
  normalize_checked (mkDur s n))).

(** ** Time scales.  The static atomic LEAP_SECONDS is the parameter [leaps]. *)

(* time.rs:31 *)
Definition TAI_UTC_BASE_OFFSET : Z := 10.
(* time.rs:38-40; [leaps] is what the atomic load returned *)
Definition tai_minus_utc (leaps : Z) : Z := w32 (TAI_UTC_BASE_OFFSET + leaps).
(* time.rs:53 *)
Definition UNIX_GPS_EPOCH : Z := 315964800.

(* time.rs:100-104 and 106-110 *)
Definition unix_to_utc (t : time Unix) : time UTC := mkTime (sec t) (nano t).
(** time.rs:106-110 *)
Definition utc_to_unix (t : time UTC) : time Unix := mkTime (sec t) (nano t).

(* time.rs:116-120 *)
Definition utc_to_tai (leaps : Z) (t : time UTC) : time TAI :=
  mkTime (w64 (sec t + tai_minus_utc leaps)) (nano t).
(* time.rs:122-126 *)
Definition tai_to_utc (leaps : Z) (t : time TAI) : time UTC :=
  mkTime (w64 (sec t - tai_minus_utc leaps)) (nano t).
(* time.rs:132-138 *)
Definition utc_to_gps (leaps : Z) (t : time UTC) : time GPS :=
  mkTime (w64 (w64 (sec t - UNIX_GPS_EPOCH) + (tai_minus_utc leaps - 19))) (nano t).
(* time.rs:140-146 *)
Definition gps_to_utc (leaps : Z) (t : time GPS) : time UTC :=
  mkTime (w64 (w64 (sec t + UNIX_GPS_EPOCH) - (tai_minus_utc leaps - 19))) (nano t).

(* time.rs:153-157.  Two atomic loads: [l1] by to_utc, [l2] by to_tai. *)
Definition gps_to_tai_loads (l1 l2 : Z) (t : time GPS) : time TAI :=
  utc_to_tai l2 (gps_to_utc l1 t).
(* time.rs:159-163.  Two atomic loads. *)
Definition tai_to_gps_loads (l1 l2 : Z) (t : time TAI) : time GPS :=
  utc_to_gps l2 (tai_to_utc l1 t).
(** time.rs:153-157 when both loads return the same *)
Definition gps_to_tai (leaps : Z) := gps_to_tai_loads leaps leaps.
(** time.rs:159-163 when both loads return the same *)
Definition tai_to_gps (leaps : Z) := tai_to_gps_loads leaps leaps.

(** ** GPS weeks *)

(* gps.rs:5-6 *)
Definition GPS_WEEK_SECONDS : Z := 604800.
(** gps.rs:6 *)
Definition GPS_WEEK_MODULUS : Z := 1024.

(* gps.rs:8-13 *)
Record gps_week := mkWeek { raw_week : Z; sow : Z; full_week : Z }.

(* gps.rs:16-39 *)
Definition to_gps_week (t : time GPS) (hint : Z) : gps_week :=
  let total := sec t in
  let raw := u16 (Z.rem (Z.quot total GPS_WEEK_SECONDS) GPS_WEEK_MODULUS) in
  let so := Z.rem total GPS_WEEK_SECONDS in
  let base := Z.quot hint GPS_WEEK_MODULUS * GPS_WEEK_MODULUS in
  let full := base + raw in
  let full' :=
    if Z.abs (full + GPS_WEEK_MODULUS - hint) <? Z.abs (full - hint)
    then full + GPS_WEEK_MODULUS
    else if Z.abs (full - GPS_WEEK_MODULUS - hint) <? Z.abs (full - hint)
    then full - GPS_WEEK_MODULUS
    else full in
  mkWeek raw so (u32 full').

(** ** Tick clock *)

(* mission.rs:45-51, the body shared with 93-100.  Division by zero is a panic,
   modelled by [None].  [as i64] wraps; the product is in u128 (no overflow:
   frac < 2^64). *)
Definition ticks_to_duration (tps dt : Z) : option duration :=
  if tps =? 0 then None
  else Some (mkDur (w64 (dt / tps)) (w32 ((dt mod tps) * 1000000000 / tps))).

(* mission.rs:45-51 *)
Definition duration_from_ticks (ticks0 tps now : Z) : option duration :=
  ticks_to_duration tps (u64 (now - ticks0)).

(* mission.rs:53-56 *)
Definition t_plus {s} (ticks0 tps now : Z) : option (time s) :=
  bind (duration_from_ticks ticks0 tps now) (fun d => Some (mkTime (dsec d) (dnano d))).

(* mission.rs:81-84 *)
Definition now_tai (start : time TAI) (ticks0 tps now : Z) : option (time TAI) :=
  bind (duration_from_ticks ticks0 tps now) (fun d => Some (time_add start d)).

(* mission.rs:105-115 *)
Definition now_utc (leaps : Z) (start : time TAI) (ticks0 tps now : Z) : option (time UTC) :=
  bind (now_tai start ticks0 tps now) (fun t => Some (tai_to_utc leaps t)).
(** mission.rs:111-115 *)
Definition now_gps (leaps : Z) (start : time TAI) (ticks0 tps now : Z) : option (time GPS) :=
  bind (now_tai start ticks0 tps now) (fun t => Some (tai_to_gps leaps t)).

(* mission.rs:92-101: returns the new value of *last_ticks and the duration *)
Definition dt_from_ticks (tps last now : Z) : option (Z * duration) :=
  bind (ticks_to_duration tps (u64 (now - last))) (fun d => Some (now, d)).

(** ** Timers *)

(* mission.rs:118-131 *)
Record timer := mkTimer { acc : duration; period : duration }.
(** mission.rs:126-131 *)
Definition timer_new (p : duration) : timer := mkTimer dur_zero p.

(* mission.rs:142-144, the inner while; [None] = still looping after [fuel] turns *)
Fixpoint drain (fuel : nat) (p a : duration) : option duration :=
  if dur_leb p a then
    match fuel with O => None | S f => drain f p (dur_sub a p) end
  else Some a.

(* mission.rs:137-149.  The fuel is chosen from the state (whole periods in the
   accumulator plus one); that it always suffices for period > 0 is a theorem. *)
Definition drain_fuel (p a : duration) : nat :=
  Z.to_nat ((dsec a * G + dnano a) / Z.max 1 (dsec p * G + dnano p) + 1).

(** mission.rs:137-149 *)
Definition timer_step (t : timer) (dt : duration) : option (timer * bool) :=
  let a := dur_add (acc t) dt in
  if dur_leb (period t) a then
    bind (drain (drain_fuel (period t) a) (period t) a) (fun a' =>
      Some (mkTimer a' (period t), true))
  else Some (mkTimer a (period t), false).

(* mission.rs:158-169 *)
Definition timerset_new (ps : list duration) : list timer := map timer_new ps.

(* mission.rs:172-182: in-order stepping of every event; None = non-termination *)
Fixpoint timerset_step (ts : list timer) (dt : duration) : option (list timer * list bool) :=
  match ts with
  | [] => Some ([], [])
  | t :: r =>
      bind (timer_step t dt) (fun p =>
      bind (timerset_step r dt) (fun q =>
      Some (fst p :: fst q, snd p :: snd q)))
  end.

(** ** Calendar *)

(* schedule.rs:8-17 *)
Record datetime := mkDT
  { year : Z; month : Z; day : Z; hour : Z; minute : Z; second : Z; nanos : Z }.

(* schedule.rs:35-61.  The interior i64 arithmetic cannot overflow for days
   obtained from an i64 count of seconds; it is left unwrapped.  The casts at the
   end are explicit. *)
Definition days_to_ymd (days h mi s : Z) : datetime :=
  let z := days + 719468 in
  let era := if 0 <=? z then Z.quot z 146097 else Z.quot (z - 146096) 146097 in
  let doe := z - era * 146097 in
  let yoe := Z.quot (doe - Z.quot doe 1460 + Z.quot doe 36524 - Z.quot doe 146096) 365 in
  let y := yoe + era * 400 in
  let doy := doe - (365 * yoe + Z.quot yoe 4 - Z.quot yoe 100) in
  let mp := Z.quot (5 * doy + 2) 153 in
  let d := doy - Z.quot (153 * mp + 2) 5 + 1 in
  let m := mp + (if mp <? 10 then 3 else -9) in
  let y' := y + (if m <=? 2 then 1 else 0) in
  mkDT (w32 y') (u8 m) (u8 d) h mi s 0.

(* schedule.rs:245-258 *)
Definition to_utc_datetime (t : time UTC) : datetime :=
  let secs := sec t in
  let s := u8 (Z.rem secs 60) in
  let secs := Z.quot secs 60 in
  let mi := u8 (Z.rem secs 60) in
  let secs := Z.quot secs 60 in
  let h := u8 (Z.rem secs 24) in
  let days := Z.quot secs 24 in
  let dt := days_to_ymd days h mi s in
  mkDT (year dt) (month dt) (day dt) (hour dt) (minute dt) (second dt) (nano t).

(* schedule.rs:260-291.  No i64 overflow is possible for an i32 year. *)
Definition from_utc_datetime (dt : datetime) : time UTC :=
  let ym := if month dt <=? 2 then (year dt - 1, month dt + 12) else (year dt, month dt) in
  let y := fst ym in let m := snd ym in
  let era := Z.quot y 400 in
  let yoe := y - era * 400 in
  let doy := Z.quot (153 * (m - 3) + 2) 5 + day dt - 1 in
  let doe := yoe * 365 + Z.quot yoe 4 - Z.quot yoe 100 + doy in
  let days := era * 146097 + doe - 719468 in
  mkTime (days * 24 * 3600 + hour dt * 3600 + minute dt * 60 + second dt) (nanos dt).

(** ** Alarms and schedules *)

(* schedule.rs:63-73 *)
Record alarm := mkAlarm { target : time UTC; fired : bool }.
(** schedule.rs:70-72 *)
Definition alarm_new (t : time UTC) : alarm := mkAlarm t false.

(* schedule.rs:75-82 *)
Definition alarm_check (a : alarm) (now : time UTC) : alarm * bool :=
  if negb (fired a) && time_leb (target a) now
  then (mkAlarm (target a) true, true) else (a, false).

(* schedule.rs:90-97 *)
Inductive recurrence :=
| Once
| Interval (p : duration)
| Hourly (mi s : Z)
| Daily (h mi s : Z)
| Yearly (mo d h mi s : Z).

(* schedule.rs:99-103 *)
Record schedule := mkSched { next_fire : time UTC; pattern : recurrence }.

(* schedule.rs:110-116 *)
Definition next_interval (after : time UTC) (p : duration) : time UTC := time_add after p.

(* schedule.rs:118-129 *)
Definition next_hourly (after : time UTC) (mi s : Z) : time UTC :=
  let now_sec := sec after in
  let hour_start := Z.quot now_sec 3600 * 3600 in
  let next_sec := w64 (hour_start + mi * 60 + s) in
  mkTime (if next_sec <=? now_sec then w64 (next_sec + 3600) else next_sec) 0.

(* schedule.rs:131-144 *)
Definition next_daily (after : time UTC) (h mi s : Z) : time UTC :=
  let now_sec := sec after in
  let day_start := Z.quot now_sec 86400 * 86400 in
  let next_sec := w64 (day_start + h * 3600 + mi * 60 + s) in
  mkTime (if next_sec <=? now_sec then w64 (next_sec + 86400) else next_sec) 0.

(* schedule.rs:146-168; [year += 1] is on i32 *)
Definition next_yearly (after : time UTC) (mo d h mi s : Z) : time UTC :=
  let dt := to_utc_datetime after in
  let candidate := from_utc_datetime (mkDT (year dt) mo d h mi s 0) in
  if time_leb candidate after
  then from_utc_datetime (mkDT (w32 (year dt + 1)) mo d h mi s 0)
  else candidate.

(* schedule.rs:188-203 *)
Definition sched_new (start : time UTC) (p : recurrence) : schedule :=
  mkSched
    match p with
    | Once => start
    | Interval d => next_interval start d
    | Hourly mi s => next_hourly start mi s
    | Daily h mi s => next_daily start h mi s
    | Yearly mo d h mi s => next_yearly start mo d h mi s
    end p.

(* schedule.rs:219-223, the catch-up loop; None = still looping after [fuel] turns *)
Fixpoint catch_up (fuel : nat) (p : duration) (next now : time UTC) : option (time UTC) :=
  if time_leb next now then
    match fuel with O => None | S f => catch_up f p (time_add next p) now end
  else Some next.

(** no counterpart in the code: a number of turns of schedule.rs:219-223 that suffices *)
Definition catch_fuel (p : duration) (next now : time UTC) : nat :=
  Z.to_nat (((sec now - sec next) * G + (nano now - nano next)) / Z.max 1 (dsec p * G + dnano p) + 1).

(* schedule.rs:207-237 *)
Definition sched_check (s : schedule) (now : time UTC) : option (schedule * bool) :=
  if time_ltb now (next_fire s) then Some (s, false)
  else
    match pattern s with
    | Once => Some (mkSched (next_fire s) Once, true)
    | Interval p =>
        bind (catch_up (catch_fuel p (next_fire s) now) p (next_fire s) now) (fun n =>
          Some (mkSched n (pattern s), true))
    | Hourly mi sc => Some (mkSched (next_hourly now mi sc) (pattern s), true)
    | Daily h mi sc => Some (mkSched (next_daily now h mi sc) (pattern s), true)
    | Yearly mo d h mi sc => Some (mkSched (next_yearly now mo d h mi sc) (pattern s), true)
    end.
