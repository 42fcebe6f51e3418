(** IEEE-754 rounding used where the model keeps floating-point error: binary64 and
    binary32, round to nearest, ties to even (Flocq).  Values are real numbers; there is
    no overflow to infinity and no NaN in this abstraction. *)
From Coq Require Import ZArith Reals Lra Lia.
From Flocq Require Import Core.
Open Scope R_scope.

Definition fexp64 : Z -> Z := FLT_exp (-1074) 53.
Definition fexp32 : Z -> Z := FLT_exp (-149) 24.

#[global] Instance valid64 : Valid_exp fexp64.
Proof. apply FLT_exp_valid. reflexivity. Qed.
#[global] Instance valid32 : Valid_exp fexp32.
Proof. apply FLT_exp_valid. reflexivity. Qed.

(* nearest binary64 / binary32 value of a real *)
Definition f64 (x : R) : R := round radix2 fexp64 ZnearestE x.
Definition f32 (x : R) : R := round radix2 fexp32 ZnearestE x.

Lemma format64_intro (m e : Z) : (Z.abs m < 2 ^ 53)%Z -> (-1074 <= e)%Z ->
  generic_format radix2 fexp64 (IZR m * bpow radix2 e).
Proof.
  intros Hm He. apply generic_format_FLT. exists (Float radix2 m e); auto.
Qed.
Lemma format32_intro (m e : Z) : (Z.abs m < 2 ^ 24)%Z -> (-149 <= e)%Z ->
  generic_format radix2 fexp32 (IZR m * bpow radix2 e).
Proof.
  intros Hm He. apply generic_format_FLT. exists (Float radix2 m e); auto.
Qed.

Lemma f64_exact (m e : Z) : (Z.abs m < 2 ^ 53)%Z -> (-1074 <= e)%Z ->
  f64 (IZR m * bpow radix2 e) = IZR m * bpow radix2 e.
Proof. intros. apply round_generic; [apply valid_rnd_N|]. apply format64_intro; auto. Qed.
Lemma f32_exact (m e : Z) : (Z.abs m < 2 ^ 24)%Z -> (-149 <= e)%Z ->
  f32 (IZR m * bpow radix2 e) = IZR m * bpow radix2 e.
Proof. intros. apply round_generic; [apply valid_rnd_N|]. apply format32_intro; auto. Qed.

Lemma f64_le x y : x <= y -> f64 x <= f64 y.
Proof. apply round_le; [apply valid64|apply valid_rnd_N]. Qed.
Lemma f32_le x y : x <= y -> f32 x <= f32 y.
Proof. apply round_le; [apply valid32|apply valid_rnd_N]. Qed.

Lemma f32_0 : f32 0 = 0.
Proof. apply round_0, valid_rnd_N. Qed.
Lemma f32_1 : f32 1 = 1.
Proof.
  replace 1 with (IZR 1 * bpow radix2 0) at 1 by (cbn; lra).
  rewrite f32_exact by lia. cbn; lra.
Qed.
Lemma f64_0 : f64 0 = 0.
Proof. apply round_0, valid_rnd_N. Qed.
Lemma f64_1 : f64 1 = 1.
Proof.
  replace 1 with (IZR 1 * bpow radix2 0) at 1 by (cbn; lra).
  rewrite f64_exact by lia. cbn; lra.
Qed.
