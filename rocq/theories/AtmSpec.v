(** Vocabulary for the statements about the standard atmospheres. *)
From Coq Require Import Reals List.
From Coquelicot Require Import Coquelicot.
From Verif Require Import AtmModel.
Import ListNotations.
Open Scope R_scope.

(** the function of altitude a lookup computes where it returns a value *)
Definition value_of (f : R -> out R) (h : R) : R := match f h with Val v => v | _ => 0 end.

(** returns a value or an error: no panic, no NaN *)
Definition safe {A} (o : out A) : Prop := match o with Val _ | Error => True | Panics | Undefined => False end.

(** temperature, pressure and density are returned, positive, and obey p = rho R_specific T *)
Definition physical (r_specific : R) (t p rho : out R) : Prop :=
  exists T P D, t = Val T /\ p = Val P /\ rho = Val D /\ 0 < T /\ 0 < P /\ 0 < D /\ P = D * r_specific * T.

(** ICAO Doc 7488: base altitude and temperature of each layer *)
Definition icao_table : list (R * R) :=
  [(-5000, 320.65); (0, 288.15); (11000, 216.65); (20000, 216.65); (32000, 228.65);
   (47000, 270.65); (51000, 270.65); (71000, 214.65); (80000, 196.65)].

(** the straight line through two points *)
Definition line (p q : R * R) (x : R) : R := snd p + (snd q - snd p) * ((x - fst p) / (fst q - fst p)).

(** the hydrostatic equation dp/dh = - g p / (r T) at h *)
Definition hydrostatic (g r : R) (p t : R -> R) (h : R) : Prop := is_derive p h (- g * p h / (r * t h)).
