(** How vectors, matrices, rotations and positions are printed (Display, feature std).
    [show] is the Display of the scalar type (std, a parameter). *)
From Coq Require Import Ascii String NArith List Bool Arith.
Import ListNotations.
From Verif Require Import Text.

(** string literals of the format strings below (math/vector.rs:740-751 and the like) *)
Definition text (s : string) : str := map N_of_ascii (list_ascii_of_string s).

Section Print.
Context {T : Type} (show : T -> str).

(** the inner loop of aether_core/src/math/vector.rs:741-748 and math/matrix.rs:1143-1148: after each
    item but the last (index i < n - 1, on usize; the loop body is not reached when n = 0) a separator *)
Fixpoint items {A} (put : A -> str) (sep : str) (n i : nat) (l : list A) : str :=
  match l with
  | [] => []
  | x :: l => put x ++ (if (i <? n - 1)%nat then sep else []) ++ items put sep n (S i) l
  end.

(** math/vector.rs:740-752.  The vector is the list of its N components. *)
Definition fmt_vector (v : list T) : str := text "[" ++ items show (text " ") (List.length v) 0 v ++ text "]".

(** math/matrix.rs:1136-1156.  The matrix is its list of M rows of N entries. *)
Definition fmt_matrix (n : nat) (m : list (list T)) : str :=
  text "[" ++ items (fun row => items show (text " ") n 0 row) (text "; ") (List.length m) 0 m ++ text "]".

(** attitude/dcm.rs:278-285: the 3 x 3 matrix *)
Definition fmt_dcm (m : list (list T)) : str := fmt_matrix 3 m.

(** attitude/euler.rs:252-261: the vector of roll, pitch, yaw *)
Definition fmt_euler (e : T * T * T) : str := let '(roll, pitch, yaw) := e in fmt_vector [roll; pitch; yaw].

(** attitude/quaternion.rs:471-488.  The quaternion as (w, i, j, k). *)
Definition fmt_quaternion (q : T * T * T * T) : str :=
  let '(w, i, j, k) := q in
  text "q=[" ++ show w ++ text ", " ++ show i ++ text ", " ++ show j ++ text ", " ++ show k ++ text "]".

(** attitude/rotation.rs:112-123 *)
Definition fmt_rotation (q : T * T * T * T) : str := text "Rotation: " ++ fmt_quaternion q.

(** coordinate/cartesian.rs:443-455 *)
Definition fmt_cartesian (p : T * T * T) : str :=
  let '(x, y, z) := p in
  text "Cartesian [x,y,z]: [" ++ show x ++ text ", " ++ show y ++ text ", " ++ show z ++ text "]".
End Print.
