(** The test library's round-trip assertions: part of C95. *)
From Coq Require Import ZArith List Bool Arith Lia.
Import ListNotations.
From Verif Require Import Scalar CodecModel CodecProps.

(** ** Model *)
(** f64's [==] on bit patterns (integers in [0, 2^64)): NaN differs from everything, the two zeros
    are equal, all else is equal when the bits are *)
Definition bits_nan (z : Z) : bool := (2047 * 2 ^ 52 <? z mod 2 ^ 63)%Z.
Definition bits_zero (z : Z) : bool := (z mod 2 ^ 63 =? 0)%Z.
Definition bits_eq (a b : Z) : bool := negb (bits_nan a) && negb (bits_nan b) && ((bits_zero a && bits_zero b) || (a =? b)%Z).
(** math/vector.rs:19 (derived PartialEq on the array) *)
Fixpoint vec_eq (a b : list Z) : bool :=
  match a, b with
  | [], [] => true
  | x :: a, y :: b => bits_eq x y && vec_eq a b
  | _, _ => false
  end.

Inductive verdict := Passes | BufferTooSmall | DecodeFailed | AssertionFails.
(** aether_test/src/assert/coding.rs:10-22; the buffer has 1024 bytes, encode_into_slice fails when the
    encoding is longer *)
Definition assert_vector_equivalence (v : list Z) : verdict :=
  let bytes := encode_vector f64_codec v in
  if (1024 <? length bytes)%nat then BufferTooSmall else
  match decode_vector f64_codec (length v) bytes with
  | None => DecodeFailed
  | Some (decoded, _) => if vec_eq v decoded then Passes else AssertionFails
  end.
(** coding.rs:24-42; the quaternion as its four components *)
Definition assert_quaternion_equivalence (w i j k : Z) : verdict := assert_vector_equivalence [w; i; j; k].

(** ** Theorems *)
Lemma bits_eq_refl z : bits_eq z z = negb (bits_nan z).
Proof. unfold bits_eq. rewrite Z.eqb_refl, orb_true_r, andb_true_r. destruct (bits_nan z); reflexivity. Qed.
Lemma vec_eq_refl v : vec_eq v v = forallb (fun z => negb (bits_nan z)) v.
Proof. induction v as [|x v IH]; cbn; auto. rewrite bits_eq_refl, IH. reflexivity. Qed.
Lemma bytes_length v : length (encode_vector f64_codec v) = (8 * length v)%nat.
Proof.
  unfold encode_vector. induction v as [|x v IH]; cbn [flat_map length]; auto. rewrite app_length, IH.
  rewrite (proj1 (proj2 (proj2 C34_float_codecs))). lia.
Qed.

(** The vector assertion passes exactly when the vector has at most 128 components and none is NaN;
    it never fails for another reason than these two: too long a vector is reported as a buffer that is
    too small, NaN as a difference, and decoding never fails. *)
Theorem C95_roundtrip v : (forall z, In z v -> 0 <= z < 2 ^ 64)%Z ->
  assert_vector_equivalence v =
    if (128 <? length v)%nat then BufferTooSmall else if existsb bits_nan v then AssertionFails else Passes.
Proof.
  intros H. unfold assert_vector_equivalence. rewrite bytes_length.
  replace (1024 <? 8 * length v)%nat with (128 <? length v)%nat.
  2: { destruct (Nat.ltb_spec 128 (length v)), (Nat.ltb_spec 1024 (8 * length v)); auto; lia. }
  destruct (128 <? length v)%nat; auto.
  pose proof (C34_vector_roundtrip f64_codec (fun z => 0 <= z < 2 ^ 64)%Z v [] (proj1 C34_float_codecs)) as R.
  rewrite app_nil_r in R. rewrite R by (apply Forall_forall; exact H). rewrite vec_eq_refl.
  assert (E : forallb (fun z => negb (bits_nan z)) v = negb (existsb bits_nan v)).
  { clear. induction v as [|x v IH]; cbn; auto. rewrite IH, negb_orb. reflexivity. }
  rewrite E. destruct (existsb bits_nan v); reflexivity.
Qed.

(** the quaternion assertion passes exactly when no component is NaN *)
Theorem C95_roundtrip_quaternion w i j k : (forall z, In z [w; i; j; k] -> 0 <= z < 2 ^ 64)%Z ->
  (assert_quaternion_equivalence w i j k = Passes <-> forall z, In z [w; i; j; k] -> bits_nan z = false).
Proof.
  intros H. unfold assert_quaternion_equivalence. rewrite C95_roundtrip by auto. change (128 <? length [w; i; j; k])%nat with false. cbn iota.
  destruct (existsb bits_nan [w; i; j; k]) eqn:E.
  - split; [discriminate|]. intros Q. apply existsb_exists in E. destruct E as (z & Hz & N). rewrite (Q z Hz) in N. discriminate.
  - split; auto. intros _ z Hz. destruct (bits_nan z) eqn:N; auto. rewrite <- E. symmetry. apply existsb_exists. exists z. auto.
Qed.

(** So "the codec round-trips" and "the assertion passes" are not the same: every vector is restored
    bit for bit, but the assertion rejects NaN and long vectors. *)
Theorem C95_roundtrip_refuted : (exists v, (forall z, In z v -> 0 <= z < 2 ^ 64)%Z /\
    decode_vector f64_codec (length v) (encode_vector f64_codec v) = Some (v, []) /\ assert_vector_equivalence v = AssertionFails) /\
  (forall v, (forall z, In z v -> 0 <= z < 2 ^ 64)%Z -> (128 < length v)%nat ->
    decode_vector f64_codec (length v) (encode_vector f64_codec v) = Some (v, []) /\ assert_vector_equivalence v = BufferTooSmall).
Proof.
  assert (D : forall v, (forall z, In z v -> 0 <= z < 2 ^ 64)%Z -> decode_vector f64_codec (length v) (encode_vector f64_codec v) = Some (v, [])).
  { intros v H. rewrite <- (app_nil_r (encode_vector f64_codec v)). apply (C34_vector_roundtrip f64_codec (fun z => 0 <= z < 2 ^ 64)%Z); [apply C34_float_codecs|]. apply Forall_forall. exact H. }
  split.
  - exists [9221120237041090560%Z]. assert (H : forall z, In z [9221120237041090560%Z] -> (0 <= z < 2 ^ 64)%Z) by (intros z [<-|[]]; split; [lia|reflexivity]).
    split; [exact H|]. split; [apply D; exact H|]. rewrite C95_roundtrip by exact H. reflexivity.
  - intros v H L. split; [apply D; exact H|]. rewrite C95_roundtrip by exact H. destruct (Nat.ltb_spec 128 (length v)); [reflexivity|lia].
Qed.

(** 1.0, -0.0 and infinity are not NaN *)
Example C95_roundtrip_nontrivial : assert_vector_equivalence [4607182418800017408; 9223372036854775808; 9218868437227405312]%Z = Passes.
Proof. rewrite C95_roundtrip; [reflexivity|]. intros z [<-|[<-|[<-|[]]]]; split; try lia; reflexivity. Qed.
