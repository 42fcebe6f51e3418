(** Model of the real-valued draws of crates/aether_rand/src/randomizers/xor_shift.rs. *)
From Coq Require Import NArith ZArith Reals.
From Verif Require Import RandModel Floats.
Open Scope R_scope.

(* xor_shift.rs:25-29  next_real::<f64>: ((next_u64() >> 11) as f64) / 2^53, from_f64 is
   the identity.  Every floating-point operation is rounded. *)
Definition next_real_f64 (x : N) : R :=
  f64 (f64 (IZR (Z.of_N (next_numerator x))) / IZR (2 ^ 53)).

(* xor_shift.rs:25-29 with T = f32: from_f64 is [x as f32]
   (crates/aether_core/src/real/real.rs:191-192) *)
Definition next_real_f32 (x : N) : R := f32 (next_real_f64 x).

(* xor_shift.rs:37-47  normal01_real, in exact real arithmetic except for the two draws;
   returns the value and the new state.  [eps] is T::EPSILON. *)
Definition normal01_radius2 (eps u1 : R) : R :=
  let u1 := if Rle_dec u1 0 then eps else u1 in - ((1 + 1) * ln u1).
(** xor_shift.rs:37-52 *)
Definition normal01 (eps : R) (x : N) : R :=
  let u1 := next_real_f64 x in
  let x1 := fst (next_u64 x) in
  let u2 := next_real_f64 x1 in
  sqrt (normal01_radius2 eps u1) * cos ((1 + 1) * PI * u2).
