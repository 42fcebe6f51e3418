(** IEEE arithmetic of any width as a scalar type: the instances of [Real] for f32 (24, 128) and f64 (53, 1024)
    (crates/aether_core/src/real/std_impl.rs:1-80).  Simplification: NaN has no payload; a literal is the rounded
    quotient of two integers. *)
From Coq Require Import ZArith QArith Bool.
From Flocq Require Import Core BinarySingleNaN.
From Verif Require Import Scalar.
(** crates/aether_core/src/real/std_impl.rs:1-80 *)
Definition float_ops (prec emax : Z) {P : Prec_gt_0 prec} {M : Prec_lt_emax prec emax} : ops (binary_float prec emax) :=
  mkOps (binary_float prec emax) (B754_zero false) Bone (Bplus mode_NE) (Bminus mode_NE) (Bmult mode_NE) (Bdiv mode_NE)
    Bopp Babs (Bsqrt mode_NE) (Bfma mode_NE) Bltb Bleb Beqb
    (fun q => Bdiv mode_NE (binary_normalize prec emax P M mode_NE (Qnum q) 0 false) (binary_normalize prec emax P M mode_NE (Z.pos (Qden q)) 0 false)).
