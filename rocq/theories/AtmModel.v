(** Model of crates/aether_models/src/terrestrial/atmospheres/{isa,ussa}.rs.

    Simplification, everywhere in this file: f64 arithmetic is exact real arithmetic, decimal
    literals are the exact decimals, exp is the exact exponential and [powf] of a positive base is
    the exact real power.  [powf] of any other base is reported as [Undefined].  An altitude enters
    the table lookups only through comparisons, so it is an [altitude]: a real or NaN. *)
From Coq Require Import Reals List Arith Bool.
From Verif Require Import Scalar.
Import ListNotations.
Open Scope R_scope.

(** What a call does: returns [Ok v], returns [Err _], panics, or leaves the real numbers. *)
(** the return types Result<f64, _> of isa.rs:101-208 and ussa.rs:48-182 *)
Inductive out (A : Type) := Val (a : A) | Error | Panics | Undefined.
Arguments Val {A}. Arguments Error {A}. Arguments Panics {A}. Arguments Undefined {A}.
(** the ? operator of isa.rs:138-207 and ussa.rs:69-181 *)
Definition obind {A B} (x : out A) (f : A -> out B) : out B :=
  match x with Val a => f a | Error => Error | Panics => Panics | Undefined => Undefined end.
Notation "'let?' x ':=' e 'in' k" := (obind e (fun x => k)) (at level 200, x pattern, e at level 100, k at level 200).

(** f64::powf with a positive base *)
Definition powf (x y : R) : out R := if Rltb 0 x then Val (Rpower x y) else Undefined.
(** f64::powf(2.0), which is the square for every base *)
Definition powf2 (x : R) : R := x * x.

(** An f64 argument: a real number or NaN. *)
Inductive altitude := Alt (h : R) | NaNalt.
(** [h <= v] and [h < v]; every comparison with NaN is false. *)
(** isa.rs:103 *)
Definition alt_le (h : altitude) (v : R) : bool := match h with Alt h => Rleb h v | NaNalt => false end.
(** ussa.rs:50 *)
Definition alt_lt (h : altitude) (v : R) : bool := match h with Alt h => Rltb h v | NaNalt => false end.

(** Constant arrays and their indexing; an index out of bounds panics. *)
(** isa.rs:139-167, ussa.rs:70-127 *)
Definition index (l : list R) (i : nat) : out R :=
  match nth_error l i with Some v => Val v | None => Panics end.

(** ** isa.rs *)

(** isa.rs:20-36, 73 *)
Definition isa_g_0 : R := 980665 / 100000.
(** isa.rs:24 *)
Definition isa_R_Star : R := 831432 / 100.
(** isa.rs:25 *)
Definition isa_R : R := 28705287 / 100000.
(** isa.rs:36 *)
Definition isa_radius : R := 6356766.
(** isa.rs:73 *)
Definition isa_air_molar_mass : R := 28964420 / 1000000.

(** isa.rs:88-98 *)
Definition isa_altitudes : list R := [-5000; 0; 11000; 20000; 32000; 47000; 51000; 71000; 80000].
(** isa.rs:91-94 *)
Definition isa_densities : list R :=
  [193047 / 100000; 1225 / 1000; 363918 / 1000000; 880345 / 10000000; 132249 / 10000000;
   142752 / 100000000; 8616 / 10000000; 642105 / 10000000000; 157004 / 10000000000].
(** isa.rs:95-97 *)
Definition isa_temperatures : list R :=
  [32065 / 100; 28815 / 100; 21665 / 100; 21665 / 100; 22865 / 100; 27065 / 100; 27065 / 100;
   214650 / 1000; 19665 / 100].
(** isa.rs:98 *)
Definition isa_gradients : list R :=
  [-65 / 10000; -65 / 10000; 0; 1 / 1000; 28 / 10000; 0; -28 / 10000; -2 / 1000].

(** isa.rs:101-111: walk the table, return the first index whose entry is not below the altitude *)
Fixpoint isa_find (table : list R) (i : nat) (h : altitude) : out nat :=
  match table with
  | [] => Error
  | value :: rest => if alt_le h value then Val i else isa_find rest (i + 1) h
  end.
(** isa.rs:101-111 *)
Definition isa_base_index (h : altitude) : out nat := isa_find isa_altitudes 0 h.
(** isa.rs:112-121 *)
Definition isa_gradient_index (base_index : nat) : option nat :=
  if (base_index =? length isa_altitudes)%nat then None
  else if (base_index =? 0)%nat then Some base_index else Some (base_index - 1)%nat.

(** isa.rs:123-127 *)
Definition isa_gravity (h : R) : R := isa_g_0 * powf2 (isa_radius / (isa_radius + h)).
(** isa.rs:128-131 *)
Definition isa_geopotential_altitude (h : R) : R := (isa_radius * h) / (isa_radius + h).
(** isa.rs:132-135 *)
Definition isa_geometric_altitude (h : R) : R := (isa_radius * h) / (isa_radius - h).

(** isa.rs:137-140, 142-145 and 147-152 (private helpers) *)
Definition isa_base_temperature (h : R) : out R :=
  let? base_index := isa_base_index (Alt h) in index isa_temperatures base_index.
(** isa.rs:142-145 *)
Definition isa_base_density (h : R) : out R :=
  let? base_index := isa_base_index (Alt h) in index isa_densities base_index.
(** isa.rs:147-152 *)
Definition isa_base_pressure (h : R) : out R :=
  let? base_density := isa_base_density h in
  let? base_temperature := isa_base_temperature h in
  Val (base_density * (isa_R_Star / isa_air_molar_mass) * base_temperature).

(** isa.rs:154-168 *)
Definition isa_temperature (h : R) : out R :=
  let? base_index := isa_base_index (Alt h) in
  match isa_gradient_index base_index with
  | Some gradient_index =>
      let? t := index isa_temperatures base_index in
      let? g := index isa_gradients gradient_index in
      let? b := index isa_altitudes base_index in
      Val (t + g * (h - b))
  | None => index isa_temperatures base_index
  end.

(** isa.rs:170-201 *)
Definition isa_pressure (h : R) : out R :=
  let? base_index := isa_base_index (Alt h) in
  match isa_gradient_index base_index with
  | Some gradient_index =>
      let? base_temperature := index isa_temperatures base_index in
      let? base_pressure := isa_base_pressure h in
      let? temperature := isa_temperature h in
      let? gradient := index isa_gradients gradient_index in
      let? b := index isa_altitudes base_index in
      if negb (Reqb gradient 0) then
        let t2 := 1 + (gradient / base_temperature) * (h - b) in
        let t3 := - isa_g_0 / (isa_R * gradient) in
        let? p := powf t2 t3 in Val (base_pressure * p)
      else Val (base_pressure * exp ((- isa_g_0 / (isa_R * temperature)) * (h - b)))
  | None => Error
  end.

(** isa.rs:203-208 *)
Definition isa_density (h : R) : out R :=
  let? temperature := isa_temperature h in
  let? pressure := isa_pressure h in
  Val (pressure / ((isa_R_Star / isa_air_molar_mass) * temperature)).

(** A NaN altitude fails the lookup that starts each of the three functions (isa.rs:155, 171 and,
    through [temperature], 204). *)
Definition isa_temperature_at (h : altitude) : out R :=
  match h with Alt h => isa_temperature h | NaNalt => let? _ := isa_base_index NaNalt in Undefined end.
(** isa.rs:170-201 at a NaN altitude *)
Definition isa_pressure_at (h : altitude) : out R :=
  match h with Alt h => isa_pressure h | NaNalt => let? _ := isa_base_index NaNalt in Undefined end.
(** isa.rs:203-208 at a NaN altitude *)
Definition isa_density_at (h : altitude) : out R :=
  match h with Alt h => isa_density h | NaNalt => let? _ := isa_base_index NaNalt in Undefined end.

(** ** ussa.rs *)

(** ussa.rs:16-21 *)
Definition ussa_r_0 : R := 6356766.
(** ussa.rs:17 *)
Definition ussa_R_Star : R := 831432 / 100.
(** ussa.rs:18 *)
Definition ussa_air_molar_mass : R := 289644 / 10000.
(** ussa.rs:20 *)
Definition ussa_g_0 : R := 980655 / 100000.
(** ussa.rs:22-42 *)
Definition ussa_heights : list R :=
  [0; 11019; 20063; 32162; 47350; 51413; 71802; 86000; 91000; 110000; 120000; 500000; 1000000].
(** ussa.rs:26-29 *)
Definition ussa_temperatures : list R :=
  [28815 / 100; 21665 / 100; 21665 / 100; 228650 / 1000; 27065 / 100; 27065 / 100; 214650 / 1000;
   18687 / 100; 18687 / 100; 240; 360; 99924 / 100; 1000].
(** ussa.rs:30-33 *)
Definition ussa_pressures : list R :=
  [101325; 22632; 54748 / 10; 86801 / 100; 11090 / 100; 66938 / 1000; 39564 / 10000; 37338 / 100000;
   15381 / 100000; 71042 / 10000000; 25382 / 10000000; 30236 / 100000000; 75138 / 10000000000].
(** ussa.rs:38-40 *)
Definition ussa_lapse_rates : list R :=
  [-65 / 10000; 0; 1 / 1000; 28 / 10000; 0; -28 / 10000; -2 / 1000; 0; 0; 12; 12; 0].
(** ussa.rs:41 *)
Definition ussa_viscosity_B : R := 1104 / 10.
(** ussa.rs:42 *)
Definition ussa_viscosity_A : R := 1458 / 10 * (1 / 10000000).

(** ussa.rs:48-58: the loop over the table compares with the *next* entry, [heights[i + 1]]; the
    last turn indexes past the end *)
Fixpoint ussa_find (turns : list R) (i : nat) (h : altitude) : out nat :=
  match turns with
  | [] => Error
  | _ :: rest =>
      let? next := index ussa_heights (i + 1) in
      if alt_lt h next then Val i else ussa_find rest (i + 1) h
  end.
(** ussa.rs:48-58 *)
Definition ussa_base_index (h : altitude) : out nat := ussa_find ussa_heights 0 h.
(** ussa.rs:60-66 *)
Definition ussa_gradient_index (base_index : nat) : option nat :=
  if (base_index =? length ussa_heights)%nat then None else Some base_index.

(** [expect]/[unwrap]: an [Err] becomes a panic *)
(** ussa.rs:84-182, earth.rs:122-145 *)
Definition unwrap {A} (x : out A) : out A := match x with Error => Panics | _ => x end.

(** ussa.rs:84-127 *)
Definition ussa_temperature (h : R) : out R :=
  let? base_index := unwrap (ussa_base_index (Alt h)) in
  match ussa_gradient_index base_index with
  | Some gradient_index =>
      if Rltb h 86000 then
        let? t := index ussa_temperatures base_index in
        let? l := index ussa_lapse_rates gradient_index in
        let? b := index ussa_heights base_index in
        Val (t + l * (h - b))
      else if Rltb h 91000 then index ussa_temperatures base_index
      else if Rltb h 110000 then
        let t_c := 2631905 / 10000 in
        let A := - (763232 / 10000) in
        let a := - (199429 / 10) in
        let? b := index ussa_heights base_index in
        Val (t_c + A * exp (1 - powf2 ((h - b) / a)))
      else if Rltb h 1000000 then
        let t_inf := 1000 in
        let lambda := 1875 / 100000 in
        let? b9 := index ussa_heights 9 in
        let? t9 := index ussa_temperatures 9 in
        let eta := (h - b9) * (ussa_r_0 + b9) / (ussa_r_0 + h) * (1 / 1000) in
        let expo := exp (- lambda * eta) in
        Val (t_inf - (t_inf - t9) * expo)
      else Val 0
  | None => index ussa_temperatures base_index
  end.

(** ussa.rs:129-158 *)
Definition ussa_pressure (h : R) : out R :=
  let? base_index := ussa_base_index (Alt h) in
  match ussa_gradient_index base_index with
  | Some gradient_index =>
      let? base_temperature := index ussa_temperatures base_index in
      let? base_pressure := index ussa_pressures base_index in
      let? temperature := unwrap (ussa_temperature h) in
      let? lapse_rate := index ussa_lapse_rates gradient_index in
      if negb (Reqb lapse_rate 0) then
        let? p := powf (base_temperature / temperature)
                       ((ussa_g_0 * ussa_air_molar_mass) / (ussa_R_Star * lapse_rate)) in
        Val (base_pressure * p)
      else
        let? b := index ussa_heights base_index in
        Val (base_pressure * exp ((- ussa_g_0 * ussa_air_molar_mass * (h - b)) / (ussa_R_Star * temperature)))
  | None => Error
  end.

(** ussa.rs:160-165 *)
Definition ussa_density (h : R) : out R :=
  let? temperature := unwrap (ussa_temperature h) in
  let? pressure := ussa_pressure h in
  Val ((pressure * ussa_air_molar_mass) / (ussa_R_Star * temperature)).

(** ussa.rs:167-172 *)
Definition ussa_speed_of_sound (h : R) : out R :=
  let? temperature := unwrap (ussa_temperature h) in
  Val (14 / 10 * ussa_R_Star / ussa_air_molar_mass * temperature).

(** ussa.rs:174-182 *)
Definition ussa_dynamic_viscosity (h : R) : out R :=
  let? temperature := unwrap (ussa_temperature h) in
  let? p := powf temperature (15 / 10) in
  Val (ussa_viscosity_A * p / (temperature + ussa_viscosity_B) * (1 / 10)).

(** The lookup with a NaN height, which starts [temperature] (ussa.rs:85) and [pressure] (130). *)
Definition ussa_temperature_at (h : altitude) : out R :=
  match h with Alt h => ussa_temperature h | NaNalt => let? _ := unwrap (ussa_base_index NaNalt) in Undefined end.
(** ussa.rs:129-158 at a NaN height *)
Definition ussa_pressure_at (h : altitude) : out R :=
  match h with Alt h => ussa_pressure h | NaNalt => let? _ := ussa_base_index NaNalt in Undefined end.

(** earth.rs:122-145: [Earth] forwards to USSA and turns an [Err] into a panic *)
Definition earth_get_temperature (h : R) : out R := unwrap (ussa_temperature h).
(** earth.rs:128-133 *)
Definition earth_get_pressure (h : R) : out R := unwrap (ussa_pressure h).
(** earth.rs:134-139 *)
Definition earth_get_density (h : R) : out R := unwrap (ussa_density h).
(** earth.rs:140-145 *)
Definition earth_get_speed_of_sound (h : R) : out R := unwrap (ussa_speed_of_sound h).
