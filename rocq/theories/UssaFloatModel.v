(** The U.S. standard atmosphere with the order of operations of the source, over any scalar type, so that f64 is an instance:
    crates/aether_models/src/terrestrial/atmospheres/ussa.rs.  [AtmModel] is the same code over the exact reals.
    Simplification: exp and powf are parameters. *)
From Coq Require Import QArith List Arith Bool.
From Verif Require Import Scalar AtmModel AtmFloatModel.
Import ListNotations.

Section Ussa.
Context {F : Type} (o : ops F) (expf : F -> F) (powF : F -> F -> F).
Local Notation "x + y" := (add o x y). Local Notation "x - y" := (sub o x y).
Local Notation "x * y" := (mul o x y). Local Notation "x / y" := (div o x y). Local Notation "- x" := (neg o x).

(** ussa.rs:16 *)
Definition g_ussa_r_0 : F := lit o (6356766 # 1).
(** ussa.rs:17 *)
Definition g_ussa_R_Star : F := lit o (831432 # 100).
(** ussa.rs:18 *)
Definition g_ussa_air_molar_mass : F := lit o (289644 # 10000).
(** ussa.rs:20 *)
Definition g_ussa_g_0 : F := lit o (980655 # 100000).
(** ussa.rs:22-25 *)
Definition g_ussa_heights : list F := map (lit o)
  [0 # 1; 11019 # 1; 20063 # 1; 32162 # 1; 47350 # 1; 51413 # 1; 71802 # 1; 86000 # 1; 91000 # 1; 110000 # 1; 120000 # 1; 500000 # 1; 1000000 # 1].
(** ussa.rs:26-29 *)
Definition g_ussa_temperatures : list F := map (lit o)
  [28815 # 100; 21665 # 100; 21665 # 100; 228650 # 1000; 27065 # 100; 27065 # 100; 214650 # 1000; 18687 # 100; 18687 # 100; 240 # 1; 360 # 1; 99924 # 100; 1000 # 1].
(** ussa.rs:30-33 *)
Definition g_ussa_pressures : list F := map (lit o)
  [101325 # 1; 22632 # 1; 54748 # 10; 86801 # 100; 11090 # 100; 66938 # 1000; 39564 # 10000; 37338 # 100000; 15381 # 100000; 71042 # 10000000; 25382 # 10000000; 30236 # 100000000; 75138 # 10000000000].
(** ussa.rs:38-40 *)
Definition g_ussa_lapse_rates : list F := map (lit o)
  [-65 # 10000; 0 # 1; 1 # 1000; 28 # 10000; 0 # 1; -28 # 10000; -2 # 1000; 0 # 1; 0 # 1; 12 # 1; 12 # 1; 0 # 1].

(** ussa.rs:48-58 *)
Fixpoint g_ussa_find (turns : list F) (i : nat) (h : F) : out nat :=
  match turns with
  | [] => Error
  | _ :: rest =>
      let? next := g_index g_ussa_heights (S i) in
      if ltb o h next then Val i else g_ussa_find rest (S i) h
  end.
(** ussa.rs:48-58 *)
Definition g_ussa_base_index (h : F) : out nat := g_ussa_find g_ussa_heights 0 h.
(** ussa.rs:84-127 *)
Definition g_ussa_temperature (h : F) : out F :=
  let? base_index := unwrap (g_ussa_base_index h) in
  match ussa_gradient_index base_index with
  | Some gradient_index =>
      if ltb o h (lit o (86000 # 1)) then
        let? t := g_index g_ussa_temperatures base_index in
        let? l := g_index g_ussa_lapse_rates gradient_index in
        let? b := g_index g_ussa_heights base_index in
        Val (t + l * (h - b))
      else if ltb o h (lit o (91000 # 1)) then g_index g_ussa_temperatures base_index
      else if ltb o h (lit o (110000 # 1)) then
        let? b := g_index g_ussa_heights base_index in
        Val (lit o (2631905 # 10000) + - lit o (763232 # 10000) * expf (one o - powF ((h - b) / - lit o (199429 # 10)) (lit o (2 # 1))))
      else if ltb o h (lit o (1000000 # 1)) then
        let? b9 := g_index g_ussa_heights 9 in
        let? t9 := g_index g_ussa_temperatures 9 in
        let e := (h - b9) * (g_ussa_r_0 + b9) / (g_ussa_r_0 + h) * lit o (1 # 1000) in
        Val (lit o (1000 # 1) - (lit o (1000 # 1) - t9) * expf (- lit o (1875 # 100000) * e))
      else Val (zero o)
  | None => g_index g_ussa_temperatures base_index
  end.
(** ussa.rs:129-158 *)
Definition g_ussa_pressure (h : F) : out F :=
  let? base_index := g_ussa_base_index h in
  match ussa_gradient_index base_index with
  | Some gradient_index =>
      let? base_temperature := g_index g_ussa_temperatures base_index in
      let? base_pressure := g_index g_ussa_pressures base_index in
      let? temperature := unwrap (g_ussa_temperature h) in
      let? lapse_rate := g_index g_ussa_lapse_rates gradient_index in
      if negb (eqb o lapse_rate (zero o)) then
        Val (base_pressure * powF (base_temperature / temperature) ((g_ussa_g_0 * g_ussa_air_molar_mass) / (g_ussa_R_Star * lapse_rate)))
      else
        let? b := g_index g_ussa_heights base_index in
        Val (base_pressure * expf ((- g_ussa_g_0 * g_ussa_air_molar_mass * (h - b)) / (g_ussa_R_Star * temperature)))
  | None => Error
  end.
(** ussa.rs:160-165 *)
Definition g_ussa_density (h : F) : out F :=
  let? temperature := unwrap (g_ussa_temperature h) in
  let? pressure := g_ussa_pressure h in
  Val ((pressure * g_ussa_air_molar_mass) / (g_ussa_R_Star * temperature)).
(** ussa.rs:167-172 *)
Definition g_ussa_speed_of_sound (h : F) : out F :=
  let? temperature := unwrap (g_ussa_temperature h) in
  Val (lit o (14 # 10) * g_ussa_R_Star / g_ussa_air_molar_mass * temperature).
(** ussa.rs:41 *)
Definition g_ussa_viscosity_B : F := lit o (1104 # 10).
(** ussa.rs:42 *)
Definition g_ussa_viscosity_A : F := lit o (1458 # 10) * lit o (1 # 10000000).
(** ussa.rs:174-182 *)
Definition g_ussa_dynamic_viscosity (h : F) : out F :=
  let? temperature := unwrap (g_ussa_temperature h) in
  Val (g_ussa_viscosity_A * powF temperature (lit o (15 # 10)) / (temperature + g_ussa_viscosity_B) * lit o (1 # 10)).
End Ussa.
