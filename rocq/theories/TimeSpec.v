(** Independent specification vocabulary for the time crate: nothing here uses the
    model's functions, only the shape of its records. *)
From Coq Require Import ZArith Lia Bool List.
From Verif Require Import Machine TimeModel.
Import ListNotations.
Open Scope Z_scope.

(** The instant denoted by a time / the length of a duration, in nanoseconds. *)
Definition instant {s} (t : time s) : Z := sec t * 1000000000 + nano t.
Definition length_ns (d : duration) : Z := dsec d * 1000000000 + dnano d.

(** Well formed: nanosecond field in [0, 1e9), seconds an i64. *)
Definition wf_time {s} (t : time s) : Prop := in_i64 (sec t) /\ 0 <= nano t < 1000000000.
Definition wf_dur (d : duration) : Prop := in_i64 (dsec d) /\ 0 <= dnano d < 1000000000.

(** "Small": at least a factor of two away from the i64 range (292 billion years /2). *)
Definition small_time {s} (t : time s) : Prop :=
  - 2 ^ 61 <= sec t <= 2 ^ 61 /\ 0 <= nano t < 1000000000.
Definition small_dur (d : duration) : Prop :=
  - 2 ^ 61 <= dsec d <= 2 ^ 61 /\ 0 <= dnano d < 1000000000.

(** The proleptic Gregorian calendar by its rules. *)
Definition leap_year (y : Z) : bool :=
  (y mod 4 =? 0) && (negb (y mod 100 =? 0) || (y mod 400 =? 0)).

Definition month_length (y m : Z) : Z :=
  if m =? 2 then (if leap_year y then 29 else 28)
  else if (m =? 4) || (m =? 6) || (m =? 9) || (m =? 11) then 30 else 31.

Definition valid_date (y m d : Z) : Prop :=
  1 <= m <= 12 /\ 1 <= d <= month_length y m.

(** The day after a date. *)
Definition tomorrow (ymd : Z * Z * Z) : Z * Z * Z :=
  let '(y, m, d) := ymd in
  if d <? month_length y m then (y, m, d + 1)
  else if m <? 12 then (y, m + 1, 1)
  else (y + 1, 1, 1).

(** The date [n] days after 1970-01-01. *)
Definition date_after (n : nat) : Z * Z * Z := Nat.iter n tomorrow (1970, 1, 1).

Definition valid_datetime (c : datetime) : Prop :=
  valid_date (year c) (month c) (day c) /\
  0 <= hour c < 24 /\ 0 <= minute c < 60 /\ 0 <= second c < 60 /\
  0 <= nanos c < 1000000000.

(** Lexicographic (chronological) order on the fields of a date-time. *)
Definition datetime_lt (a b : datetime) : Prop :=
  year a < year b \/ year a = year b /\
  (month a < month b \/ month a = month b /\
  (day a < day b \/ day a = day b /\
  (hour a < hour b \/ hour a = hour b /\
  (minute a < minute b \/ minute a = minute b /\
  (second a < second b \/ second a = second b /\
   nanos a < nanos b))))).

Definition sum_ns (l : list duration) : Z := fold_right (fun d z => length_ns d + z) 0 l.

(** [runs step s xs outs s']: feeding the inputs [xs] one after the other to a
    stateful operation [step] starting in [s] yields the outputs [outs] and ends in
    [s'].  Used for all "over any history" statements. *)
Inductive runs {St In Out : Type} (step : St -> In -> option (St * Out))
  : St -> list In -> list Out -> St -> Prop :=
| runs_nil s : runs step s [] [] s
| runs_cons s s' s'' x xs o os :
    step s x = Some (s', o) -> runs step s' xs os s'' ->
    runs step s (x :: xs) (o :: os) s''.
