(** crates/aether_benchmark/src/performance: the CSV sinks shared between threads (performance.rs), the timing span
    (timer.rs) and the search for an energy counter (power.rs).
    Simplifications: the clock is any counter that does not run backwards; the text of an f64 is a parameter; the text
    of a u64 is its decimal digits.  The wall clock, the formatting of floats and the file system belong to std. *)
From Coq Require Import NArith Arith List Bool Ascii String DecimalN.
From Verif Require Import Text.
Import ListNotations.
Local Open Scope nat_scope.

(** string literals as lists of characters *)
(** the literals of performance.rs:12-48 and power.rs:16-106 *)
Definition text (s : string) : str := map N_of_ascii (list_ascii_of_string s).
(** Display for u64 (std), used by performance.rs:15-48 *)
Fixpoint digits_of (d : Decimal.uint) : str :=
  match d with
  | Decimal.Nil => []
  | Decimal.D0 d => 48%N :: digits_of d | Decimal.D1 d => 49%N :: digits_of d | Decimal.D2 d => 50%N :: digits_of d
  | Decimal.D3 d => 51%N :: digits_of d | Decimal.D4 d => 52%N :: digits_of d | Decimal.D5 d => 53%N :: digits_of d
  | Decimal.D6 d => 54%N :: digits_of d | Decimal.D7 d => 55%N :: digits_of d | Decimal.D8 d => 56%N :: digits_of d
  | Decimal.D9 d => 57%N :: digits_of d
  end.
(** Display for u64 *)
Definition show_u64 (n : N) : str := digits_of (N.to_uint n).

(** * The sinks *)
Section Sink.
(** [A] the arguments of one call; [pieces ts a] what write_fmt hands to the file, one write after the other *)
Context {A : Type} (pieces : N -> A -> list str).
(** where a thread is inside performance.rs:15-23 or 38-48: not in the call; the lock taken (the receiver of write_fmt is
    evaluated first); the clock read and the remaining pieces to be written *)
Inductive phase := Idle | Locked (a : A) | Writing (ps : list str).
(** a caller of performance.rs:15-23, 36-48 *)
Record thread := mkTh { todo : list A; ph : phase }.
(** the file, the mutex and the clock behind performance.rs:7-48 *)
Record world := mkW { file : str; holder : option nat; clock : N; threads : nat -> thread }.
(** no counterpart in the code: one thread of performance.rs:7-48 moves *)
Definition set_thread (w : world) (t : nat) (x : thread) : nat -> thread := fun s => if s =? t then x else threads w s.

(** one step of one thread, or of the clock.  [Fail t k]: the operating system reports an error for the current piece after
    taking [k] of its bytes; write_fmt then returns the error, which is dropped ([let _ =]), and the guard is released. *)
(** performance.rs:15-23, 36-48, in the order of evaluation *)
Inductive event := Acquire (t : nat) | Stamp (t : nat) | Write (t : nat) | Fail (t : nat) (k : nat) | Release (t : nat) | Tick (d : N).
(** performance.rs:15-23, 36-48 *)
Definition step (w : world) (e : event) : option world :=
  match e with
  | Acquire t =>
      match holder w, ph (threads w t), todo (threads w t) with
      | None, Idle, a :: rest => Some (mkW (file w) (Some t) (clock w) (set_thread w t (mkTh rest (Locked a))))
      | _, _, _ => None
      end
  | Stamp t =>
      match ph (threads w t) with
      | Locked a => Some (mkW (file w) (holder w) (clock w) (set_thread w t (mkTh (todo (threads w t)) (Writing (pieces (clock w) a)))))
      | _ => None
      end
  | Write t =>
      match ph (threads w t) with
      | Writing (p :: ps) => Some (mkW (file w ++ p) (holder w) (clock w) (set_thread w t (mkTh (todo (threads w t)) (Writing ps))))
      | _ => None
      end
  | Fail t k =>
      match ph (threads w t) with
      | Writing (p :: ps) => Some (mkW (file w ++ firstn k p) (holder w) (clock w) (set_thread w t (mkTh (todo (threads w t)) (Writing []))))
      | _ => None
      end
  | Release t =>
      match ph (threads w t) with
      | Writing [] => Some (mkW (file w) None (clock w) (set_thread w t (mkTh (todo (threads w t)) Idle)))
      | _ => None
      end
  | Tick d => Some (mkW (file w) (holder w) (clock w + d)%N (threads w))
  end.
(** any interleaving of performance.rs:15-23, 36-48 *)
Fixpoint run (w : world) (es : list event) : option world :=
  match es with
  | [] => Some w
  | e :: es => match step w e with Some w' => run w' es | None => None end
  end.
(** performance.rs:10-14, 29-33: a new file with its header; each thread has its list of calls still to make *)
Definition start (header : str) (now : N) (calls : nat -> list A) : world :=
  mkW header None now (fun t => mkTh (calls t) Idle).
End Sink.
Arguments Idle {A}. Arguments Locked {A}. Arguments Writing {A}. Arguments mkTh {A}. Arguments mkW {A}.

Section Rows.
Context {F : Type} (show_f64 : F -> str).
(** performance.rs:12, 15-23.  timer.rs:22-27: a TimeSpan makes one such call when it is dropped *)
Definition timing_header : str := text "unix_ns,stage,elapsed_ms" ++ [NL].
(** performance.rs:15-23 *)
Definition timing_pieces (ts : N) (a : str * F) : list str :=
  [show_u64 ts; text ","; fst a; text ","; show_f64 (snd a); [NL]].
(** performance.rs:31, 36-48 *)
Definition power_header : str := text "unix_ns,source,power_W,energy_J_total" ++ [NL].
(** performance.rs:36-48 *)
Definition show_opt (x : option F) : str := match x with Some v => show_f64 v | None => [] end.
(** performance.rs:36-48 *)
Definition power_pieces (ts : N) (a : str * option F * option F) : list str :=
  let '(source, w, j) := a in
  [show_u64 ts; text ","; source; text ","; show_opt w; text ","; show_opt j; [NL]].
End Rows.

(** * power.rs *)
(** a path is the list of its components below the root, innermost first *)
(** PathBuf, power.rs:56-106 *)
Definition path := list str.
Section Search.
(** [read_dir p]: None when the directory cannot be read, otherwise its readable entries in the order the system returns
    them: a name, and whether it is a directory (links are followed) *)
Context (read_dir : path -> option (list (str * bool))).
(** power.rs:67-74: one directory; the stack is kept with its top first *)
Fixpoint scan (dir : path) (filename : str) (es : list (str * bool)) (stack : list path) : path + list path :=
  match es with
  | [] => inr stack
  | (n, true) :: es => scan dir filename es ((n :: dir) :: stack)
  | (n, false) :: es => if str_eqb n filename then inl (n :: dir) else scan dir filename es stack
  end.
(** power.rs:58-77; [None] as the outer result: out of fuel *)
Fixpoint dfs (fuel : nat) (max_nodes seen : nat) (filename : str) (stack : list path) : option (option path) :=
  match fuel with
  | 0 => None
  | S fuel =>
      match stack with
      | [] => Some None
      | dir :: stack =>
          if max_nodes <? seen then Some None
          else match read_dir dir with
               | None => dfs fuel max_nodes (seen + 1) filename stack
               | Some es => match scan dir filename es stack with
                            | inl p => Some (Some p)
                            | inr stack => dfs fuel max_nodes (seen + 1) filename stack
                            end
               end
      end
  end.
(** power.rs:56-78 *)
Definition find_first (fuel max_nodes : nat) (root : path) (filename : str) : option (option path) :=
  dfs fuel max_nodes 0 filename [root].
End Search.

(** str::replace of one character *)
(** power.rs:98 *)
Definition replace_char (c : N) (by_ : str) (s : str) : str := flat_map (fun x => if (x =? c)%N then by_ else [x]) s.
(** str::contains *)
(** power.rs:87 *)
Fixpoint is_prefix (p s : str) : bool :=
  match p, s with [], _ => true | x :: p, y :: s => (x =? y)%N && is_prefix p s | _, [] => false end.
(** power.rs:87 *)
Fixpoint contains (p s : str) : bool := is_prefix p s || match s with [] => false | _ :: s => contains p s end.
Section Hwmon.
(** one chip: the text of its file "name" (empty when unreadable) and which files exist in it *)
(** power.rs:83-86 *)
Record chip := mkChip { chip_name : str; chip_has : str -> bool }.
(** power.rs:92-98 *)
Definition power_keys : list str := [text "power1_average"; text "power1_input"; text "power2_average"; text "power2_input"].
(** power.rs:91-103 *)
Definition chip_power (c : chip) : option str :=
  find (chip_has c) (flat_map (fun n => map (replace_char 49 (show_u64 n)) power_keys) [1; 2; 3; 4; 5; 6; 7; 8]%N).
(** power.rs:87-90 *)
Definition is_cpu (c : chip) : bool := contains (text "k10temp") (chip_name c) || contains (text "zenpower") (chip_name c).
(** power.rs:80-106; the result is the chip and the file in it *)
Fixpoint find_hwmon (cs : list chip) : option (chip * str) :=
  match cs with
  | [] => None
  | c :: cs => if is_cpu c then match chip_power c with Some f => Some (c, f) | None => find_hwmon cs end else find_hwmon cs
  end.
End Hwmon.
