(** Model of crates/aether_rand/src/randomizers/xor_shift.rs over 64-bit words in [N]. *)
From Coq Require Import NArith.
Open Scope N_scope.

Definition mask64 : N := 18446744073709551615.      (* 2^64 - 1 *)

(* xor_shift.rs:9-13  XorShift64Star::new *)
Definition rng_new (seed : N) : N :=
  if seed =? 0 then 11400714819323198485 (* 0x9E3779B97F4A7C15 *) else seed.

(* xor_shift.rs:16-20  the state update of next_u64; [<<] drops high bits *)
Definition rng_step (x : N) : N :=
  let x := N.lxor x (N.shiftr x 12) in
  let x := N.lxor x (N.land (N.shiftl x 25) mask64) in
  N.lxor x (N.shiftr x 27).

(* xor_shift.rs:21  the multiplier 0x2545F4914F6CDD1D *)
Definition rng_mult : N := 2685821657736338717.
(** xor_shift.rs:21 *)
Definition rng_output (x : N) : N := (x * rng_mult) mod 2 ^ 64.

(* xor_shift.rs:15-22  next_u64: new state and returned word *)
Definition next_u64 (x : N) : N * N :=
  let x' := rng_step x in (x', rng_output x').

(* xor_shift.rs:25-29: the integer numerator [next_u64() >> 11] of next_real *)
Definition next_numerator (x : N) : N := N.shiftr (snd (next_u64 x)) 11.

(** State after [k] draws, and the word returned by draw number [k] (from 0). *)
Definition state_after (seed : N) (k : N) : N := N.iter k rng_step (rng_new seed).
(** repeated calls of xor_shift.rs:15-22 *)
Definition draw (seed : N) (k : N) : N := snd (next_u64 (state_after seed k)).
