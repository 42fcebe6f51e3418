(** Model of the two implementations of the numeric trait (crates/aether_core/src/real/std_impl.rs and
    no_std_impl.rs) where they are more than a call to the mathematical library, and of the casts
    (real.rs:163-213), for IEEE formats of any width; f32 and f64 are instances.
    Simplification: NaN has no sign and no payload. *)
From Coq Require Import ZArith Reals Bool.
From Flocq Require Import Core BinarySingleNaN.
Local Open Scope Z_scope.

Section Width.
Context {prec emax : Z} {P : Prec_gt_0 prec} {M : Prec_lt_emax prec emax}.
Local Notation fl := (binary_float prec emax).
(** the literal 0.0 of no_std_impl.rs:13-15, 57-59 *)
Definition pzero : fl := B754_zero false.
(** f64::copysign (core), also what libm::copysign computes *)
Definition copysign (x sign : fl) : fl := if Bool.eqb (Bsign x) (Bsign sign) then x else Bopp x.
(** std_impl.rs:13, 51: f64::signum (core) is 1 with the sign of the number, NaN for NaN *)
Definition std_signum (x : fl) : fl := if is_nan x then B754_nan else copysign Bone x.
(** no_std_impl.rs:13-15, 57-59 *)
Definition no_std_signum (x : fl) : fl :=
  if is_nan x then x else if Bltb pzero x then Bone else if Bltb x pzero then Bopp Bone else x.
(** no_std_impl.rs:21-23, 65-67 and 24-26, 68-70 *)
Definition no_std_min (x y : fl) : fl := if is_nan x then y else if is_nan y || Bltb x y then x else y.
(** no_std_impl.rs:24-26, 68-70 *)
Definition no_std_max (x y : fl) : fl := if is_nan x then y else if is_nan y || Bltb y x then x else y.
(** an integer to a float: `n as f32`, `n as f64` *)
Definition of_int (z : Z) : fl := binary_normalize prec emax P M mode_NE z 0 false.
(** no_std_impl.rs:41, 85: the power function of the library is a parameter *)
Definition no_std_powi (pow : fl -> fl -> fl) (x : fl) (n : Z) : fl := pow x (of_int n).
End Width.

(** `x as f32`, `x as f64` between formats (real.rs:186-199) *)
Definition cast {prec emax prec' emax' : Z} {P : Prec_gt_0 prec'} {M : Prec_lt_emax prec' emax'}
  (x : binary_float prec emax) : binary_float prec' emax' :=
  match x with
  | B754_zero s => B754_zero s
  | B754_infinity s => B754_infinity s
  | B754_nan => B754_nan
  | B754_finite s m e _ => binary_normalize prec' emax' P M mode_NE (cond_Zopp s (Zpos m)) e s
  end.

#[global] Instance prec_gt_0_24 : Prec_gt_0 24 := eq_refl.
#[global] Instance prec_lt_emax_24 : Prec_lt_emax 24 128 := eq_refl.
#[global] Instance prec_gt_0_53' : Prec_gt_0 53 := eq_refl.
#[global] Instance prec_lt_emax_53' : Prec_lt_emax 53 1024 := eq_refl.
Notation float32 := (binary_float 24 128).
Notation float64 := (binary_float 53 1024).
(** core::f32::consts::PI (bits 0x40490FDB), core::f64::consts::PI (bits 0x400921FB54442D18) *)
Definition pi32 : float32 := binary_normalize 24 128 _ _ mode_NE 13176795 (-22) false.
(** core::f64::consts::PI, no_std_impl.rs:87-88 *)
Definition pi64 : float64 := binary_normalize 53 1024 _ _ mode_NE 7074237752028440 (-51) false.
(** no_std_impl.rs:43-44, 87-88 *)
Definition no_std_to_degrees32 (x : float32) : float32 := Bmult mode_NE x (Bdiv mode_NE (of_int 180) pi32).
(** no_std_impl.rs:44 *)
Definition no_std_to_radians32 (x : float32) : float32 := Bmult mode_NE x (Bdiv mode_NE pi32 (of_int 180)).
(** no_std_impl.rs:87 *)
Definition no_std_to_degrees64 (x : float64) : float64 := Bmult mode_NE x (Bdiv mode_NE (of_int 180) pi64).
(** no_std_impl.rs:88 *)
Definition no_std_to_radians64 (x : float64) : float64 := Bmult mode_NE x (Bdiv mode_NE pi64 (of_int 180)).
(** std_impl.rs:37: f32::to_degrees (core) multiplies by the literal 57.2957795130823208767981548141051703,
    which rounds to this float ([degrees_literal] in RealProps) *)
Definition pis_in_180 : float32 := binary_normalize 24 128 _ _ mode_NE 15019745 (-18) false.
(** std_impl.rs:37 *)
Definition std_to_degrees32 (x : float32) : float32 := Bmult mode_NE x pis_in_180.
(** std_impl.rs:38, 75-76: f32::to_radians, f64::to_degrees and f64::to_radians (core) multiply by the
    constant PI / 180 or 180 / PI, rounded once *)
Definition std_to_radians32 (x : float32) : float32 := Bmult mode_NE x (Bdiv mode_NE pi32 (of_int 180)).
(** std_impl.rs:75 *)
Definition std_to_degrees64 (x : float64) : float64 := Bmult mode_NE x (Bdiv mode_NE (of_int 180) pi64).
(** std_impl.rs:76 *)
Definition std_to_radians64 (x : float64) : float64 := Bmult mode_NE x (Bdiv mode_NE pi64 (of_int 180)).
