(** crates/aether_benchmark/src/performance/power.rs:26-34: the total energy of a powercap counter.  u64::from_str (std) is
    modelled: an optional plus sign, then at least one decimal digit, and no overflow. *)
From Coq Require Import NArith ZArith List Bool.
From Flocq Require Import Core BinarySingleNaN.
From Verif Require Import Text F64 RealModel BenchModel.
Import ListNotations.
(** str::parse::<u64> of power.rs:30 *)
Fixpoint parse_digits (s : str) (acc : N) : option N :=
  match s with
  | [] => Some acc
  | c :: s => if ((48 <=? c) && (c <=? 57))%N then let a := (acc * 10 + (c - 48))%N in if (2 ^ 64 <=? a)%N then None else parse_digits s a else None
  end.
(** str::parse::<u64> of power.rs:30 *)
Definition parse_u64 (s : str) : option N :=
  match s with
  | [] => None
  | c :: r => if (c =? 43)%N then match r with [] => None | _ => parse_digits r 0 end else parse_digits s 0
  end.
(** power.rs:26-35; [contents] is None when the file cannot be read *)
Definition read_total_j (contents : option str) : option f64 :=
  match contents with
  | None => None
  | Some s => match parse_u64 (trim s) with
              | None => None
              | Some uj => Some (f64_div (of_int (Z.of_N uj)) (of_int 1000000))
              end
  end.
