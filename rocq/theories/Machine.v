(** Fixed-width integers of the Rust machine, as subsets of [Z].

    [as] casts and (release-build) overflowing arithmetic wrap modulo a power of
    two; the definitions below are those wraps.  Debug builds panic exactly when
    the wrapped value differs from the unwrapped one. *)
From Coq Require Import ZArith Lia Bool List.
Import ListNotations.
Open Scope Z_scope.

Definition in_i64 (z : Z) : Prop := - 2 ^ 63 <= z < 2 ^ 63.
Definition in_i32 (z : Z) : Prop := - 2 ^ 31 <= z < 2 ^ 31.
Definition in_u64 (z : Z) : Prop := 0 <= z < 2 ^ 64.
Definition in_u32 (z : Z) : Prop := 0 <= z < 2 ^ 32.
Definition in_u16 (z : Z) : Prop := 0 <= z < 2 ^ 16.
Definition in_u8  (z : Z) : Prop := 0 <= z < 2 ^ 8.

Definition w64 (z : Z) : Z := (z + 2 ^ 63) mod 2 ^ 64 - 2 ^ 63.
Definition w32 (z : Z) : Z := (z + 2 ^ 31) mod 2 ^ 32 - 2 ^ 31.
Definition u64 (z : Z) : Z := z mod 2 ^ 64.
Definition u32 (z : Z) : Z := z mod 2 ^ 32.
Definition u16 (z : Z) : Z := z mod 2 ^ 16.
Definition u8  (z : Z) : Z := z mod 2 ^ 8.

(** Checked arithmetic (debug builds): [None] is a panic. *)
Definition c64 (z : Z) : option Z :=
  if (- 2 ^ 63 <=? z) && (z <? 2 ^ 63) then Some z else None.
Definition c32 (z : Z) : option Z :=
  if (- 2 ^ 31 <=? z) && (z <? 2 ^ 31) then Some z else None.

Definition bind {A B} (o : option A) (f : A -> option B) : option B :=
  match o with Some a => f a | None => None end.

Lemma w64_id z : in_i64 z -> w64 z = z.
Proof. unfold in_i64, w64; intros H. rewrite Z.mod_small by lia. lia. Qed.
Lemma w32_id z : in_i32 z -> w32 z = z.
Proof. unfold in_i32, w32; intros H. rewrite Z.mod_small by lia. lia. Qed.
Lemma u64_id z : in_u64 z -> u64 z = z.
Proof. intros H. apply Z.mod_small. exact H. Qed.
Lemma u32_id z : in_u32 z -> u32 z = z.
Proof. intros H. apply Z.mod_small. exact H. Qed.
Lemma u16_id z : in_u16 z -> u16 z = z.
Proof. intros H. apply Z.mod_small. exact H. Qed.
Lemma u8_id z : in_u8 z -> u8 z = z.
Proof. intros H. apply Z.mod_small. exact H. Qed.

Lemma w64_range z : in_i64 (w64 z).
Proof. unfold in_i64, w64. pose proof (Z.mod_pos_bound (z + 2^63) (2^64)). lia. Qed.
Lemma w32_range z : in_i32 (w32 z).
Proof. unfold in_i32, w32. pose proof (Z.mod_pos_bound (z + 2^31) (2^32)). lia. Qed.
Lemma u64_range z : in_u64 (u64 z).
Proof. apply Z.mod_pos_bound; lia. Qed.
Lemma u32_range z : in_u32 (u32 z).
Proof. apply Z.mod_pos_bound; lia. Qed.
Lemma u8_range z : in_u8 (u8 z).
Proof. apply Z.mod_pos_bound; lia. Qed.

Lemma w64_cong z : exists k, w64 z = z + k * 2 ^ 64.
Proof.
  unfold w64. exists (- ((z + 2^63) / 2^64)).
  pose proof (Z.div_mod (z + 2^63) (2^64)). lia.
Qed.

Lemma w64_eq a b k : in_i64 b -> a = b + k * 2 ^ 64 -> w64 a = b.
Proof.
  unfold in_i64, w64; intros H ->.
  replace (b + k * 2 ^ 64 + 2 ^ 63) with (b + 2 ^ 63 + k * 2 ^ 64) by ring.
  rewrite Z.mod_add by lia. rewrite Z.mod_small by lia. ring.
Qed.

Lemma c64_some z : in_i64 z -> c64 z = Some z.
Proof.
  unfold in_i64, c64; intros H.
  destruct (Z.leb_spec (- 2 ^ 63) z); destruct (Z.ltb_spec z (2 ^ 63)); simpl; auto; lia.
Qed.
Lemma c32_some z : in_i32 z -> c32 z = Some z.
Proof.
  unfold in_i32, c32; intros H.
  destruct (Z.leb_spec (- 2 ^ 31) z); destruct (Z.ltb_spec z (2 ^ 31)); simpl; auto; lia.
Qed.
