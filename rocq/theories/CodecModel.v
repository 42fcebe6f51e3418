(** Model of the binary and self-describing codecs of aether_core: math/matrix.rs:1157-1435,
    math/vector.rs:20, 648-738, and the derives in attitude/ and reference_frame/. *)
From Coq Require Import ZArith List Arith.
From Verif Require Import Scalar.
Import ListNotations.

(** ** bincode: bytes are integers in [0, 256) *)
Definition byte := Z.

(* An element codec: [dec] takes a value off the front of the input or fails. *)
(** bincode's Encode and Decode of T, used at matrix.rs:1163-1270 and vector.rs:20 *)
Record codec (T : Type) := mkCodec { enc : T -> list byte; dec : list byte -> option (T * list byte) }.
Arguments mkCodec {T}. Arguments enc {T}. Arguments dec {T}.

(* bincode's f64: the bit pattern, 8 bytes, little endian (both its configurations write floats
   this way).  A float is its bit pattern, an integer in [0, 2^64). *)
Fixpoint le_bytes (n : nat) (z : Z) : list byte :=
  match n with O => [] | S k => (z mod 256)%Z :: le_bytes k (z / 256)%Z end.
(** as le_bytes: the element codec used at matrix.rs:1163-1270 *)
Fixpoint le_value (l : list byte) : Z :=
  match l with [] => 0%Z | b :: t => (b + 256 * le_value t)%Z end.
(** as le_bytes: the element codec used at matrix.rs:1163-1270 *)
Definition dec_le (n : nat) (input : list byte) : option (Z * list byte) :=
  if (n <=? length input)%nat then Some (le_value (firstn n input), skipn n input) else None.
(** T = f64 in matrix.rs:1163-1270 *)
Definition f64_codec : codec Z := mkCodec (le_bytes 8) (dec_le 8).
(** T = f32 in matrix.rs:1163-1270 *)
Definition f32_codec : codec Z := mkCodec (le_bytes 4) (dec_le 4).

(** A value built in uninitialised memory: slots that may not be read before being written. *)
Section Slots.
Context {T : Type}.
(** MaybeUninit::assume_init and the drop loops, matrix.rs:1181-1270 *)
Fixpoint read_slots (n : nat) (slots : nat -> option T) : option (list T) :=
  match n with
  | O => Some []
  | S k => match read_slots k slots, slots k with Some l, Some v => Some (l ++ [v]) | _, _ => None end
  end.
End Slots.

(** Outcome of a decoder: a value and the remaining input; an error together with the elements
    that were dropped and those that were forgotten; or undefined behaviour. *)
(** the results of matrix.rs:1181-1270 *)
Inductive outcome (A T : Type) :=
| Ok (a : A) (rest : list byte)
| Err (dropped leaked : list T)
| UB.
Arguments Ok {A T}. Arguments Err {A T}. Arguments UB {A T}.

Section Matrix.
Context {T : Type} (c : codec T).

(* matrix.rs:1163-1173: row-major, no length prefix.  A matrix is the list of its rows. *)
Definition encode_matrix (m : list (list T)) : list byte :=
  flat_map (fun row => flat_map (enc c) row) m.

(* matrix.rs:1188-1212: the inner loop.  [rows] are the slots of [out], [inited_rows] of which
   are written; [todo] counts the remaining columns.  The drop loops read every slot they drop. *)
Fixpoint decode_row (N : nat) (rows : nat -> option (list T)) (inited_rows : nat)
    (todo : nat) (row : nat -> option T) (inited_cols : nat) (input : list byte) : outcome (list T) T :=
  match todo with
  | O => match read_slots N row with Some r => Ok r input | None => UB end
  | S k =>
      match dec c input with
      | Some (v, rest) =>
          decode_row N rows inited_rows k (upd row (N - todo) (Some v)) (S inited_cols) rest
      | None =>
          match read_slots inited_cols row, read_slots inited_rows rows with
          | Some l, Some rs => Err (l ++ concat rs) []
          | _, _ => UB
          end
      end
  end.
(* matrix.rs:1181-1220 (Decode) and 1229-1270 (BorrowDecode, the same loops) *)
Fixpoint decode_rows (M N : nat) (todo : nat) (rows : nat -> option (list T)) (inited_rows : nat)
    (input : list byte) : outcome (list (list T)) T :=
  match todo with
  | O => match read_slots M rows with Some m => Ok m input | None => UB end
  | S k =>
      match decode_row N rows inited_rows N (fun _ => None) 0 input with
      | Ok row rest => decode_rows M N k (upd rows (M - todo) (Some row)) (S inited_rows) rest
      | Err d l => Err d l
      | UB => UB
      end
  end.
(** matrix.rs:1181-1218 *)
Definition decode_matrix (M N : nat) (input : list byte) : outcome (list (list T)) T :=
  decode_rows M N M (fun _ => None) 0 input.

(* vector.rs:20 (derive on [T; N]); bincode's array codec: the elements in order, no prefix.
   The derived decoders of Quaternion (quaternion.rs:11, 4 elements), Euler (euler.rs:11, 3),
   Cartesian (cartesian.rs:12, 3) are the same: PhantomData takes no bytes. *)
Definition encode_vector (v : list T) : list byte := flat_map (enc c) v.
(** vector.rs:20 *)
Fixpoint decode_vector (N : nat) (input : list byte) : option (list T * list byte) :=
  match N with
  | O => Some ([], input)
  | S k => match dec c input with
           | Some (v, rest) => match decode_vector k rest with Some (l, r) => Some (v :: l, r) | None => None end
           | None => None
           end
  end.
(* body.rs:9-16: mass_center then lever_arm *)
Definition encode_body (b : list T * list T) : list byte := encode_vector (fst b) ++ encode_vector (snd b).
(** body.rs:9-16 *)
Definition decode_body (input : list byte) : option ((list T * list T) * list byte) :=
  match decode_vector 3 input with
  | Some (a, r) => match decode_vector 3 r with Some (b, r') => Some ((a, b), r') | None => None end
  | None => None
  end.
End Matrix.

(** ** serde: the data model seen by a visitor is a tree *)
(** what matrix.rs:1277-1434 and vector.rs:684-735 exchange with serde *)
Inductive sval (L : Type) := Leaf (l : L) | Seq (items : list (sval L)).
Arguments Leaf {L}. Arguments Seq {L}.

Section Serde.
Context {T L : Type} (ser : T -> L) (de : L -> option T).

(** T::deserialize, called at matrix.rs:1352-1372 and vector.rs:714-725 *)
Definition de_elem (s : sval L) : option T := match s with Leaf l => de l | Seq _ => None end.

(* matrix.rs:1277-1316 *)
Definition serialize_matrix (m : list (list T)) : sval L :=
  Seq (map (fun row => Seq (map (fun x => Leaf (ser x)) row)) m).

(** the results of matrix.rs:1340-1430 *)
Inductive visited (A : Type) := VOk (a : A) | VErr (dropped leaked : list T) | VUB.
Arguments VOk {A}. Arguments VErr {A}. Arguments VUB {A}.

(* matrix.rs:1340-1375: the row visitor.  An element that fails to deserialize leaves through
   [?]: nothing is dropped, so the elements already written are forgotten. *)
Fixpoint visit_row (N todo : nat) (row : nat -> option T) (inited : nat) (items : list (sval L)) : visited (list T) :=
  match todo with
  | O => match items with
         | [] => match read_slots N row with Some r => VOk r | None => VUB end
         | _ :: _ => match read_slots inited row with Some d => VErr d [] | None => VUB end
         end
  | S k => match items with
           | s :: t => match de_elem s with
                       | Some v => visit_row N k (upd row (N - todo) (Some v)) (S inited) t
                       | None => match read_slots inited row with Some d => VErr [] d | None => VUB end
                       end
           | [] => match read_slots inited row with Some d => VErr d [] | None => VUB end
           end
  end.
(* matrix.rs:1395-1430 *)
Fixpoint visit_rows (M N todo : nat) (rows : nat -> option (list T)) (inited : nat) (items : list (sval L)) :
    visited (list (list T)) :=
  match todo with
  | O => match items with
         | [] => match read_slots M rows with Some m => VOk m | None => VUB end
         | _ :: _ => match read_slots inited rows with Some d => VErr (concat d) [] | None => VUB end
         end
  | S k => match items with
           | s :: t =>
               match (match s with Seq row => visit_row N N (fun _ => None) 0 row | Leaf _ => VErr [] [] end) with
               | VOk r => visit_rows M N k (upd rows (M - todo) (Some r)) (S inited) t
               | VErr d l => match read_slots inited rows with Some rs => VErr d (l ++ concat rs) | None => VUB end
               | VUB => VUB
               end
           | [] => match read_slots inited rows with Some d => VErr (concat d) [] | None => VUB end
           end
  end.
(** matrix.rs:1312-1434 *)
Definition deserialize_matrix (M N : nat) (s : sval L) : visited (list (list T)) :=
  match s with Seq rows => visit_rows M N M (fun _ => None) 0 rows | Leaf _ => VErr [] [] end.

(* vector.rs:684-695 *)
Definition serialize_vector (v : list T) : sval L := Seq (map (fun x => Leaf (ser x)) v).
(* vector.rs:714-726: reads N elements; what follows them is not looked at *)
Fixpoint visit_vector (N : nat) (items : list (sval L)) : option (list T) :=
  match N with
  | O => Some []
  | S k => match items with
           | s :: t => match de_elem s with
                       | Some v => option_map (cons v) (visit_vector k t)
                       | None => None
                       end
           | [] => None
           end
  end.
(** vector.rs:698-735 *)
Definition deserialize_vector (N : nat) (s : sval L) : option (list T) :=
  match s with Seq items => visit_vector N items | Leaf _ => None end.
End Serde.
Arguments VOk {T A}. Arguments VErr {T A}. Arguments VUB {T A}.

(* vector.rs:651-670: None is the panic *)
Fixpoint take_exactly {T} (N : nat) (items : list T) : option (list T) :=
  match N, items with
  | O, [] => Some []
  | O, _ :: _ => None
  | S k, x :: t => option_map (cons x) (take_exactly k t)
  | S _, [] => None
  end.
(** vector.rs:651-670 *)
Definition vector_from_iter {T} (N : nat) (items : list T) : option (list T) := take_exactly N items.
