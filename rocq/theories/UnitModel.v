(** Quantities with units: crates/aether_units (base/units.rs, si/si_prefix.rs).  The unit is a
    type parameter without data, so a quantity is its value.  crates/aether_units/src/standard is
    not compiled (its mod.rs is empty) and not modelled. *)
From Coq Require Import ZArith Reals.
From Flocq Require Import Core BinarySingleNaN.
From Verif Require Import Scalar F64.

(** the type f32, si_prefix.rs:6-25 *)
Definition f32 := binary_float 24 128.
Local Instance prec_gt_0_24 : Prec_gt_0 24 := eq_refl.
Local Instance prec_lt_emax_24 : Prec_lt_emax 24 128 := eq_refl.

(** base/units.rs:23-61 *)
Section Quantity.
Context {F : Type} (o : ops F).
(** base/units.rs:23-29 *)
Definition q_add (a b : F) : F := add o a b.
(** base/units.rs:31-37 *)
Definition q_sub (a b : F) : F := sub o a b.
(** base/units.rs:47-54 *)
Definition q_mul (a s : F) : F := mul o a s.
(** base/units.rs:39-45 *)
Definition q_div (a s : F) : F := div o a s.
(** base/units.rs:56-62 *)
Definition q_neg (a : F) : F := neg o a.

(** si_prefix.rs:27-53: the two conversions the macro writes for each prefixed unit; [from_f32] is
    T::from_f32 *)
Context (from_f32 : f32 -> F).
(** si_prefix.rs:35-41 *)
Definition to_prefixed (factor : f32) (x : F) : F := let k := from_f32 factor in div o x k.
(** si_prefix.rs:44-50 *)
Definition to_base (factor : f32) (x : F) : F := let k := from_f32 factor in mul o x k.
End Quantity.

(** si_prefix.rs:6-25.  Each literal is the f32 the decimal rounds to, as mantissa times a power of two. *)
Inductive prefix := Yocto | Zepto | Atto | Femto | Pico | Nano | Micro | Milli | Centi | Deci
  | Deca | Hecto | Kilo | Mega | Giga | Tera | Peta | Exa | Zetta | Yotta.
(** the literals of si_prefix.rs:6-25 *)
Definition f32_lit (m : positive) (e : Z) (H : SpecFloat.bounded 24 128 m e = true) : f32 := B754_finite false m e H.
(** si_prefix.rs:6-25 *)
Definition prefix_factor (p : prefix) : f32 :=
  match p with
  | Yocto => f32_lit 10141205 (-103) eq_refl
  | Zepto => f32_lit 9903520 (-93) eq_refl
  | Atto => f32_lit 9671407 (-83) eq_refl
  | Femto => f32_lit 9444733 (-73) eq_refl
  | Pico => f32_lit 9223372 (-63) eq_refl
  | Nano => f32_lit 9007199 (-53) eq_refl
  | Micro => f32_lit 8796093 (-43) eq_refl
  | Milli => f32_lit 8589935 (-33) eq_refl
  | Centi => f32_lit 10737418 (-30) eq_refl
  | Deci => f32_lit 13421773 (-27) eq_refl
  | Deca => f32_lit 10485760 (-20) eq_refl
  | Hecto => f32_lit 13107200 (-17) eq_refl
  | Kilo => f32_lit 16384000 (-14) eq_refl
  | Mega => f32_lit 16000000 (-4) eq_refl
  | Giga => f32_lit 15625000 6 eq_refl
  | Tera => f32_lit 15258789 16 eq_refl
  | Peta => f32_lit 14901161 26 eq_refl
  | Exa => f32_lit 14551915 36 eq_refl
  | Zetta => f32_lit 14210855 46 eq_refl
  | Yotta => f32_lit 13877788 56 eq_refl
  end.

(** Length and time: si_prefix.rs:71-125, the prefix factor itself.  Mass, on the kilogram:
    si_prefix.rs:128-152, the prefix factor times 1.0e-3_f32 in f32 arithmetic; there is no
    kilo-gram entry. *)
Inductive family := Length | Time | Mass.
(** si_prefix.rs:71-152 *)
Definition factor (fam : family) (p : prefix) : f32 :=
  match fam with
  | Length | Time => prefix_factor p
  | Mass => Bmult mode_NE (prefix_factor p) (f32_lit 8589935 (-33) eq_refl)
  end.
(** si_prefix.rs:71-152: which units exist *)
Definition has_unit (fam : family) (p : prefix) : Prop := fam = Mass -> p <> Kilo.

(** T::from_f32: the identity for f32, exact widening for f64 (the mantissa and exponent renormalised) *)
Definition f32_to_f64 (x : f32) : f64 :=
  match x with
  | B754_zero s => B754_zero s
  | B754_infinity s => B754_infinity s
  | B754_nan => B754_nan
  | B754_finite s m e _ => binary_normalize 53 1024 eq_refl eq_refl mode_NE (SpecFloat.cond_Zopp s (Z.pos m)) e s
  end.

(** f32 as a scalar type *)
Definition f32_ops : ops f32 :=
  mkOps f32 (B754_zero false) Bone (Bplus mode_NE) (Bminus mode_NE) (Bmult mode_NE) (Bdiv mode_NE) Bopp Babs (Bsqrt mode_NE) (Bfma mode_NE)
    Bltb Bleb Beqb (fun q => Bdiv mode_NE (binary_normalize 24 128 _ _ mode_NE (QArith_base.Qnum q) 0 false)
                               (binary_normalize 24 128 _ _ mode_NE (Z.pos (QArith_base.Qden q)) 0 false)).
