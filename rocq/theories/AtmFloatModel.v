(** The ICAO atmosphere with the order of operations of the source, over any scalar type, so that f64 is an instance:
    crates/aether_models/src/terrestrial/atmospheres/isa.rs.  [AtmModel] is the same code over the exact reals.
    Simplification: exp and powf are parameters. *)
From Coq Require Import QArith List Arith Bool.
From Verif Require Import Scalar AtmModel.
Import ListNotations.

Section Isa.
Context {F : Type} (o : ops F) (expf : F -> F) (powF : F -> F -> F).
Local Notation "x + y" := (add o x y). Local Notation "x - y" := (sub o x y).
Local Notation "x * y" := (mul o x y). Local Notation "x / y" := (div o x y). Local Notation "- x" := (neg o x).

(** isa.rs:20 *)
Definition g_isa_g_0 : F := lit o (980665 # 100000).
(** isa.rs:24 *)
Definition g_isa_R_Star : F := lit o (831432 # 100).
(** isa.rs:25 *)
Definition g_isa_R : F := lit o (28705287 # 100000).
(** isa.rs:73 *)
Definition g_isa_air_molar_mass : F := lit o (28964420 # 1000000).
(** isa.rs:88-90 *)
Definition g_isa_altitudes : list F := map (lit o) [-5000 # 1; 0 # 1; 11000 # 1; 20000 # 1; 32000 # 1; 47000 # 1; 51000 # 1; 71000 # 1; 80000 # 1].
(** isa.rs:91-94 *)
Definition g_isa_densities : list F := map (lit o)
  [193047 # 100000; 1225 # 1000; 363918 # 1000000; 880345 # 10000000; 132249 # 10000000; 142752 # 100000000; 8616 # 10000000; 642105 # 10000000000; 157004 # 10000000000].
(** isa.rs:95-97 *)
Definition g_isa_temperatures : list F := map (lit o)
  [32065 # 100; 28815 # 100; 21665 # 100; 21665 # 100; 22865 # 100; 27065 # 100; 27065 # 100; 214650 # 1000; 19665 # 100].
(** isa.rs:98 *)
Definition g_isa_gradients : list F := map (lit o) [-65 # 10000; -65 # 10000; 0 # 1; 1 # 1000; 28 # 10000; 0 # 1; -28 # 10000; -2 # 1000].

(** indexing of the tables, isa.rs:139-167 *)
Definition g_index (l : list F) (i : nat) : out F := match nth_error l i with Some v => Val v | None => Panics end.
(** isa.rs:101-111 *)
Fixpoint g_isa_find (table : list F) (i : nat) (h : F) : out nat :=
  match table with
  | [] => Error
  | value :: rest => if leb o h value then Val i else g_isa_find rest (S i) h
  end.
(** isa.rs:101-111 *)
Definition g_isa_base_index (h : F) : out nat := g_isa_find g_isa_altitudes 0 h.
(** isa.rs:147-152, with 137-140 and 142-145 *)
Definition g_isa_base_pressure (h : F) : out F :=
  let? i := g_isa_base_index h in
  let? base_density := g_index g_isa_densities i in
  let? base_temperature := g_index g_isa_temperatures i in
  Val (base_density * (g_isa_R_Star / g_isa_air_molar_mass) * base_temperature).
(** isa.rs:154-168 *)
Definition g_isa_temperature (h : F) : out F :=
  let? base_index := g_isa_base_index h in
  match isa_gradient_index base_index with
  | Some gradient_index =>
      let? t := g_index g_isa_temperatures base_index in
      let? g := g_index g_isa_gradients gradient_index in
      let? b := g_index g_isa_altitudes base_index in
      Val (t + g * (h - b))
  | None => g_index g_isa_temperatures base_index
  end.
(** isa.rs:170-201 *)
Definition g_isa_pressure (h : F) : out F :=
  let? base_index := g_isa_base_index h in
  match isa_gradient_index base_index with
  | Some gradient_index =>
      let? base_temperature := g_index g_isa_temperatures base_index in
      let? base_pressure := g_isa_base_pressure h in
      let? temperature := g_isa_temperature h in
      let? gradient := g_index g_isa_gradients gradient_index in
      let? b := g_index g_isa_altitudes base_index in
      if negb (eqb o gradient (zero o)) then
        let t2 := one o + (gradient / base_temperature) * (h - b) in
        let t3 := - g_isa_g_0 / (g_isa_R * gradient) in
        Val (base_pressure * powF t2 t3)
      else Val (base_pressure * expf ((- g_isa_g_0 / (g_isa_R * temperature)) * (h - b)))
  | None => Error
  end.
(** isa.rs:203-208 *)
Definition g_isa_density (h : F) : out F :=
  let? temperature := g_isa_temperature h in
  let? pressure := g_isa_pressure h in
  Val (pressure / ((g_isa_R_Star / g_isa_air_molar_mass) * temperature)).
End Isa.
