(** Model of crates/aether_core/src/math: matrix.rs, vector.rs, algorithms.rs, tensor.rs.
    Generic in the scalar operations.  Dimensions are the first arguments; a matrix is a
    function of its row and column index, read only at in-range indices. *)
From Coq Require Import QArith List Arith Bool.
From Verif Require Import Scalar.
Import ListNotations.
Open Scope nat_scope.

Section Lin.
Context {F : Type} (o : ops F).
Notation mat := (nat -> nat -> F).
Notation vec := (nat -> F).

(* matrix.rs:29-35, 192-206: Default, zeros, ones *)
Definition zeros : mat := fun _ _ => zero o.
(** matrix.rs:201-205 *)
Definition ones : mat := fun _ _ => one o.

(* two nested loops that overwrite every element of [result] *)
(** the loops of matrix.rs:40-112 *)
Definition fill (M N : nat) (f : nat -> nat -> F) (result : mat) : mat :=
  for_ 0 M (fun r res => for_ 0 N (fun c res => upd2 res r c (f r c)) res) result.

(* matrix.rs:40-52 *)
Definition mat_add (M N : nat) (a b : mat) : mat := fill M N (fun r c => add o (a r c) (b r c)) a.
(* matrix.rs:55-67 *)
Definition mat_sub (M N : nat) (a b : mat) : mat := fill M N (fun r c => sub o (a r c) (b r c)) a.
(* matrix.rs:70-82 *)
Definition mat_div (M N : nat) (a : mat) (s : F) : mat := fill M N (fun r c => div o (a r c) s) a.
(* matrix.rs:85-97 *)
Definition mat_neg (M N : nat) (a : mat) : mat := fill M N (fun r c => neg o (a r c)) a.
(* matrix.rs:100-112 *)
Definition mat_scale (M N : nat) (a : mat) (s : F) : mat := fill M N (fun r c => mul o (a r c) s) a.

(* algorithms.rs:14-29 *)
Definition mul_small (M N P : nat) (a b : mat) : mat :=
  for_ 0 M (fun i res =>
    for_ 0 N (fun k res =>
      let x := a i k in
      for_ 0 P (fun j res => upd2 res i j (add o (res i j) (mul o x (b k j)))) res) res) zeros.

(* algorithms.rs:30-60; the while loops carry fuel, None = fuel exhausted *)
Definition BLOCK := 16.
(** algorithms.rs:30-59 *)
Definition mul_blocked (M N P : nat) (a b : mat) : option mat :=
  forM 0 M (fun i res =>
    option_map snd
      (while_ N (fun '(k0, _) => k0 <? N)
        (fun '(k0, res) =>
          let k_max := Nat.min (k0 + BLOCK) N in
          match
            while_ P (fun '(j0, _) => j0 <? P)
              (fun '(j0, res) =>
                let j_max := Nat.min (j0 + BLOCK) P in
                Some (j0 + BLOCK,
                  for_ k0 k_max (fun k res =>
                    let x := a i k in
                    for_ j0 j_max (fun j res =>
                      upd2 res i j (add o (res i j) (mul o x (b k j)))) res) res))
              (0, res)
          with
          | Some (_, res) => Some (k0 + BLOCK, res)
          | None => None
          end)
        (0, res))) zeros.

(* algorithms.rs:12-61; matrix.rs:117-155 call it for all four reference/value forms *)
Definition mul_matrix_strided (M N P : nat) (a b : mat) : option mat :=
  if (M <=? 8) && (N <=? 8) && (P <=? 8) then Some (mul_small M N P a b)
  else mul_blocked M N P a b.

(* algorithms.rs:63-78; matrix.rs:158-188 *)
Definition mul_vector_unrolled (M N : nat) (a : mat) (v : vec) : vec :=
  for_ 0 M (fun i res => upd res i (for_ 0 N (fun j s => add o s (mul o (a i j) (v j))) (zero o)))
    (fun _ => zero o).

(* matrix.rs:211-217 *)
Definition identity (N : nat) : mat := for_ 0 N (fun i d => upd2 d i i (one o)) zeros.
(* matrix.rs:221-227, 230-236: diag, diag_from_vector *)
Definition diag (N : nat) (d : vec) : mat := for_ 0 N (fun i m => upd2 m i i (d i)) zeros.

(* matrix.rs:617-626 *)
Definition outer (M N : nat) (a b : vec) : mat := fill M N (fun i j => mul o (a i) (b j)) zeros.
(* matrix.rs:633-639 *)
Definition trace (N : nat) (a : mat) : F := for_ 0 N (fun i s => add o s (a i i)) (zero o).
(* matrix.rs:963-971 *)
Definition transpose (M N : nat) (a : mat) : mat :=
  for_ 0 M (fun r out => for_ 0 N (fun c out => upd2 out c r (a r c)) out) zeros.
(* matrix.rs:973-984 *)
Definition max_abs (M N : nat) (a : mat) : F :=
  for_ 0 M (fun r m => for_ 0 N (fun c m => let v := absf o (a r c) in if ltb o m v then v else m) m) (zero o).

(* matrix.rs:730-739: index 4*i+j of a 16-element array *)
Definition as_flat_array (a : mat) : vec :=
  for_ 0 4 (fun i fl => for_ 0 4 (fun j fl => upd fl (i * 4 + j) (a i j)) fl) (fun _ => a 0 0).

(* vector.rs:43-186: element-wise operators, by value, by reference and assigning forms *)
Definition vfill (N : nat) (f : nat -> F) (r : vec) : vec := for_ 0 N (fun i r => upd r i (f i)) r.
(** vector.rs:45-100 *)
Definition vec_add N (a b : vec) : vec := vfill N (fun i => add o (a i) (b i)) a.
(** vector.rs:105-160 *)
Definition vec_sub N (a b : vec) : vec := vfill N (fun i => sub o (a i) (b i)) a.
(** vector.rs:165-186 *)
Definition vec_neg N (a : vec) : vec := vfill N (fun i => neg o (a i)) a.
(* vector.rs:191-203, 221-226 *)
Definition vec_scale N (a : vec) (s : F) : vec := vfill N (fun i => mul o (a i) s) a.
(** vector.rs:206-218, 229-234 *)
Definition vec_div N (a : vec) (s : F) : vec := vfill N (fun i => div o (a i) s) a.

(* algorithms.rs:88-95; vector.rs:276-278 *)
Definition dot (N : nat) (a b : vec) : F := for_ 0 N (fun i s => add o s (mul o (a i) (b i))) (zero o).
(* algorithms.rs:97-103; vector.rs:280-282, 299-301 *)
Definition norm (N : nat) (a : vec) : F :=
  sqrtf o (for_ 0 N (fun i s => add o s (mul o (a i) (a i))) (zero o)).
(* vector.rs:284-286 *)
Definition normalize N (a : vec) : vec := vec_div N a (norm N a).
(* vector.rs:289-297 *)
Definition eps12 : F := lit o (1 # 1000000000000).
(** vector.rs:289-297 *)
Definition try_normalize N (a : vec) : vec * F :=
  let n := norm N a in
  if ltb o eps12 n then (vec_div N a n, n) else (a, n).
(* vector.rs:303-322 without the final acos *)
Definition angle_cos N (a b : vec) : option F :=
  let d := dot N a b in
  let denom := mul o (norm N a) (norm N b) in
  if eqb o denom (zero o) then None
  else
    let c := div o d denom in
    let c := if ltb o (one o) c then one o else c in
    let c := if ltb o c (lit o (-1 # 1)) then lit o (-1 # 1) else c in
    Some c.
(* vector.rs:503-513 *)
Definition cross (a b : vec) : vec := fun i =>
  match i with
  | 0 => sub o (mul o (a 1) (b 2)) (mul o (a 2) (b 1))
  | 1 => sub o (mul o (a 2) (b 0)) (mul o (a 0) (b 2))
  | _ => sub o (mul o (a 0) (b 1)) (mul o (a 1) (b 0))
  end.
End Lin.

(** tensor.rs *)
(* tensor.rs:64-73: offset; the list is walked from the last axis *)
Fixpoint offset_rev (shape idx : list nat) (off stride : nat) : nat :=
  match shape, idx with
  | n :: ns, i :: is => offset_rev ns is (off + i * stride) (stride * n)
  | _, _ => off
  end.
(** tensor.rs:64-73 *)
Definition offset (shape idx : list nat) : nat := offset_rev (rev shape) (rev idx) 0 1.

(* tensor.rs:76-78: TensorView::get; slice indexing panics out of range (None) *)
Definition view_get {T} (data : list T) (shape idx : list nat) : option T :=
  nth_error data (offset shape idx).

(* tensor.rs:81-84: a write through TensorViewMut::get_mut *)
Fixpoint set_nth {T} (l : list T) (n : nat) (x : T) : option (list T) :=
  match l, n with
  | [], _ => None
  | _ :: r, 0 => Some (x :: r)
  | y :: r, S m => option_map (cons y) (set_nth r m x)
  end.
(** tensor.rs:81-84 *)
Definition view_set {T} (data : list T) (shape idx : list nat) (x : T) : option (list T) :=
  set_nth data (offset shape idx) x.

(* tensor.rs:15: as_flat; the raw-pointer slice of length D0*D1*D2 over nested arrays,
   which Rust lays out contiguously, is their concatenation *)
Definition as_flat3 {T} (data : list (list (list T))) : list T := concat (concat data).
(* tensor.rs:18: Index for Tensor3, None = panic *)
Definition index3 {T} (data : list (list (list T))) (i j k : nat) : option T :=
  match nth_error data i with
  | Some p => match nth_error p j with Some r => nth_error r k | None => None end
  | None => None
  end.
