(** What the CSV plotter should show: a specification that looks at a whole text at once. *)
From Coq Require Import NArith Arith List Bool.
From Verif Require Import Text CsvModel.
Import ListNotations.

(** The newline-terminated lines of a text, and what follows the last newline. *)
Definition complete_lines (t : str) : list str := removelast (split_on NL t).
Definition unfinished (t : str) : str := last (split_on NL t) [].

(** Trimmed, non-blank, finished lines. *)
Definition nonblank (ls : list str) : list str :=
  filter (fun l => negb (is_nil l)) (map trim ls).
Definition content_lines (t : str) : list str := nonblank (complete_lines t).

Definition fields (l : str) : list str := map trim (split_on 44 l).

(** Index of the first header equal to a name. *)
Definition column_at (hs : list str) (name : str) (i : nat) : Prop :=
  nth_error hs i = Some name /\ forall j, j < i -> nth_error hs j <> Some name.

Fixpoint filter_map {A B} (f : A -> option B) (l : list A) : list B :=
  match l with
  | [] => []
  | a :: r => match f a with Some b => b :: filter_map f r | None => filter_map f r end
  end.

(** A row is accepted when the x field and all y fields are there and are finite numbers. *)
Definition row {V} (num : str -> option V) (xi : nat) (yis : list nat) (l : str)
  : option (V * list (option V)) :=
  let get i := match nth_error (fields l) i with Some s => num s | None => None end in
  match get xi with
  | Some x => if forallb (fun o => match o with Some _ => true | None => false end) (map get yis)
              then Some (x, map get yis) else None
  | None => None
  end.

(** The last [m] elements (all of them when there is no limit). *)
Definition keep_last {A} (m : option nat) (l : list A) : list A :=
  match m with None => l | Some m => skipn (length l - m) l end.

(** The series are those rows: x values in order, column i the i-th y value of each. *)
Definition shows {V} (rows : list (V * list (option V))) (p : @plotter V) : Prop :=
  x_values p = map fst rows /\
  length (y_values p) = length (y_columns (cfg p)) /\
  forall i col, nth_error (y_values p) i = Some col ->
    map Some col = map (fun r => nth i (snd r) None) rows.

(** Equal up to the remembered file identity. *)
Definition same_data {V} (p q : @plotter V) : Prop :=
  cfg p = cfg q /\ headers p = headers q /\ x_index p = x_index q /\
  y_indices p = y_indices q /\ x_values p = x_values q /\ y_values p = y_values q /\
  partial_line p = partial_line q /\ file_pos p = file_pos q.

(** What a single read of a file with content [bs] observes. *)
Definition whole_file (id : N) (bs : list N) : obs :=
  mkObs true (Some (mkMeta id (length bs))) true (Some bs) (Some (mkMeta id (length bs))).

Definition prefix (a b : list N) : Prop := exists c, b = a ++ c.

(** Polls of one growing file.  At each poll the metadata are read first (length [l]) and
    the content later, when it may have grown further ([r]); polls may also fail to see
    the file or fail to read it. *)
Inductive growing (id : N) : list N -> list obs -> list N -> Prop :=
| growing_done c : growing id c [] c
| growing_poll c o r l os c' :
    o_exists o = true -> o_meta o = Some (mkMeta id l) -> o_bytes o = Some r ->
    prefix c r -> length c <= l <= length r ->
    growing id r os c' -> growing id c (o :: os) c'
| growing_fail c o os c' :
    (o_exists o = false \/ o_meta o = None \/
     (exists l, o_meta o = Some (mkMeta id l) /\ length c <= l /\ o_bytes o = None)) ->
    growing id c os c' -> growing id c (o :: os) c'.

(** Calls a user can make, with what they observe. *)
Inductive call := Init (o : obs) | Poll (o : obs) | SetY (ys : list str) (o : obs).
Definition do_call {V} num idx (p : @plotter V) (c : call) : @plotter V * result :=
  match c with
  | Init o => initialize num idx p o
  | Poll o => update_once num idx p o
  | SetY ys o => set_y_columns num idx p ys o
  end.
