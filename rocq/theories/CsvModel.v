(** Model of crates/aether_viz/src/realtime.rs (CsvRealtimePlotter).

    The number parser is a parameter: [parse_num s] is [Some v] when
    [s.parse::<f64>()] is [Ok v] with [v] finite; [parse_idx] is [str::parse::<usize>].
    Every poll is fed what the file system answered ([obs]); nothing is assumed about it. *)
From Coq Require Import NArith Arith List Bool Lia.
From Verif Require Import Text.
Import ListNotations.
Open Scope nat_scope.

Section Csv.
Context {V : Type} (parse_num : str -> option V) (parse_idx : str -> option nat).

(* realtime.rs:9-22, the fields that influence the data *)
Record config := mkCfg
  { has_header : bool; x_column : str; y_columns : list str; max_points : option nat }.

(* realtime.rs:42-50  FileIdentity: creation time, device and inode are one value here *)
Record meta := mkMeta { ident : N; len : nat }.

(* realtime.rs:75-86 *)
Record plotter := mkP
  { cfg : config;
    headers : list str;
    x_index : option nat;
    y_indices : list nat;
    x_values : list V;
    y_values : list (list V);
    partial_line : str;
    file_pos : nat;
    last_identity : option meta }.

(* Ok b / Err of the fallible methods *)
(** realtime.rs:104-144, 206-231, 402-410 *)
Inductive result := Ok (changed : bool) | Err.

(* realtime.rs:89-102 *)
Definition new (c : config) : plotter :=
  mkP c [] None [] [] (map (fun _ => []) (y_columns c)) [] 0 None.

(* realtime.rs:413-415 *)
Definition split_csv_line (line : str) : list str := map trim (split_on 44 line).

(* Iterator::position(|h| h == name) *)
(** realtime.rs:323, 332 *)
Fixpoint position (name : str) (l : list str) : option nat :=
  match l with
  | [] => None
  | h :: r => if str_eqb h name then Some 0 else option_map S (position name r)
  end.

(* realtime.rs:327-335: indices found so far, and whether every column was found *)
Fixpoint find_columns (hs ys : list str) : list nat * bool :=
  match ys with
  | [] => ([], true)
  | y :: r =>
      match position y hs with
      | None => ([], false)
      | Some i => let (is, ok) := find_columns hs r in (i :: is, ok)
      end
  end.

(** realtime.rs:340-345 *)
Fixpoint parse_all (ys : list str) : option (list nat) :=
  match ys with
  | [] => Some []
  | y :: r => match parse_idx y, parse_all r with Some i, Some is => Some (i :: is) | _, _ => None end
  end.

(** the assignments of realtime.rs:319-345 *)
Definition set_indices (p : plotter) (xi : option nat) (yi : list nat) : plotter :=
  mkP (cfg p) (headers p) xi yi (x_values p) (y_values p) (partial_line p) (file_pos p) (last_identity p).

(* realtime.rs:313-347; [false] is the Err return, with the fields as left behind *)
Definition resolve_column_indices (p : plotter) : plotter * bool :=
  if has_header (cfg p) then
    match headers p with
    | [] => (p, true)
    | hs =>
        match position (x_column (cfg p)) hs with
        | None => (p, false)
        | Some xi =>
            let (is, ok) := find_columns hs (y_columns (cfg p)) in
            (set_indices p (Some xi) is, ok)
        end
    end
  else
    match parse_idx (x_column (cfg p)) with
    | None => (p, false)
    | Some xi =>
        match parse_all (y_columns (cfg p)) with
        | None => (set_indices p (Some xi) (y_indices p), false)
        | Some is => (set_indices p (Some xi) is, true)
        end
    end.

(* realtime.rs:349-367 *)
Definition trim_if_needed (p : plotter) : plotter :=
  match max_points (cfg p) with
  | None => p
  | Some m =>
      if length (x_values p) <=? m then p
      else
        let drop_n := length (x_values p) - m in
        mkP (cfg p) (headers p) (x_index p) (y_indices p)
          (skipn drop_n (x_values p))
          (map (fun ys => if drop_n <=? length ys then skipn drop_n ys else []) (y_values p))
          (partial_line p) (file_pos p) (last_identity p)
  end.

(** realtime.rs:279-296: values.get(i) and parse::<f64> *)
Definition field (values : list str) (i : nat) : option V :=
  match nth_error values i with Some s => parse_num s | None => None end.

(* realtime.rs:279-296 *)
Fixpoint parse_row (values : list str) (yi : list nat) : option (list V) :=
  match yi with
  | [] => Some []
  | i :: r =>
      match field values i with
      | None => None
      | Some v => option_map (cons v) (parse_row values r)
      end
  end.

(* realtime.rs:299-303: value number idx is pushed on column idx, if there is one *)
Fixpoint push_row (cols : list (list V)) (row : list V) : list (list V) :=
  match cols, row with
  | c :: cs, v :: vs => (c ++ [v]) :: push_row cs vs
  | cs, _ => cs
  end.

(* realtime.rs:269-307 *)
Definition data_line (p : plotter) (line : str) : plotter * bool :=
  let values := split_csv_line line in
  match x_index p with
  | None => (p, false)
  | Some xi =>
      match field values xi with
      | None => (p, false)
      | Some x =>
          match parse_row values (y_indices p) with
          | None => (p, false)
          | Some row =>
              (trim_if_needed
                 (mkP (cfg p) (headers p) (x_index p) (y_indices p)
                    (x_values p ++ [x]) (push_row (y_values p) row)
                    (partial_line p) (file_pos p) (last_identity p)), true)
          end
      end
  end.

(** Vec::is_empty and str::is_empty, realtime.rs:236-316 *)
Definition is_nil {A} (l : list A) : bool := match l with [] => true | _ => false end.

(* realtime.rs:250-308, one iteration *)
Definition line_step (p : plotter) (raw : str) : plotter * result :=
  let line := trim raw in
  if is_nil line then (p, Ok false)
  else if has_header (cfg p) && is_nil (headers p) then
    let p' := mkP (cfg p) (split_csv_line line) (x_index p) (y_indices p) (x_values p)
                (y_values p) (partial_line p) (file_pos p) (last_identity p) in
    let (p'', ok) := resolve_column_indices p' in
    (p'', if ok then Ok false else Err)
  else
    let (p', ok) :=
      match x_index p, y_indices p with
      | Some _, _ :: _ => (p, true)
      | _, _ => resolve_column_indices p
      end in
    if ok then let (p'', ch) := data_line p' line in (p'', Ok ch) else (p', Err).

(* realtime.rs:250-310: stops at the first error *)
Fixpoint run_lines (p : plotter) (ls : list str) (changed : bool) : plotter * result :=
  match ls with
  | [] => (p, Ok changed)
  | l :: r =>
      match line_step p l with
      | (p', Ok c) => run_lines p' r (changed || c)
      | (p', Err) => (p', Err)
      end
  end.

(** the assignments of realtime.rs:238, 246, 377 *)
Definition set_partial (p : plotter) (s : str) : plotter :=
  mkP (cfg p) (headers p) (x_index p) (y_indices p) (x_values p) (y_values p) s
    (file_pos p) (last_identity p).
(** the assignments of realtime.rs:214, 226, 378 *)
Definition set_pos (p : plotter) (n : nat) : plotter :=
  mkP (cfg p) (headers p) (x_index p) (y_indices p) (x_values p) (y_values p)
    (partial_line p) n (last_identity p).
(** the assignments of realtime.rs:142, 215, 379 *)
Definition set_identity (p : plotter) (m : option meta) : plotter :=
  mkP (cfg p) (headers p) (x_index p) (y_indices p) (x_values p) (y_values p)
    (partial_line p) (file_pos p) m.

(* realtime.rs:233-311 *)
Definition parse_text_chunk (p : plotter) (text : str) : plotter * result :=
  let buf := partial_line p ++ text in
  let ls := lines buf in
  if ends_with NL buf then run_lines (set_partial p []) ls false
  else
    match ls with
    | [] => run_lines (set_partial p []) [] false
    | _ => run_lines (set_partial p (last ls [])) (removelast ls) false
    end.

(* What one call observes of the file system, in the order the code asks. *)
Record obs := mkObs
  { o_exists : bool;              (* realtime.rs:125 *)
    o_meta : option meta;         (* realtime.rs:129; None = error *)
    o_exists2 : bool;             (* realtime.rs:207 *)
    o_bytes : option (list N);    (* whole content when opened, 211 / 222; None = error *)
    o_meta2 : option meta }.      (* realtime.rs:215 *)

(* realtime.rs:206-219 *)
Definition reload_from_start (p : plotter) (o : obs) : plotter * result :=
  if negb (o_exists2 o) then (p, Ok false)
  else
    match o_bytes o with
    | None => (p, Err)
    | Some bs =>
        match utf8_decode bs with
        | None => (p, Err)
        | Some text =>
            let p := set_pos p (length bs) in
            match o_meta2 o with
            | None => (p, Err)
            | Some m => 
                match parse_text_chunk (set_identity p (Some m)) text with
                | (p', Ok _) => (p', Ok false)
                | (p', Err) => (p', Err)
                end
            end
        end
    end.

(* realtime.rs:104-106 *)
Definition initialize (p : plotter) (o : obs) : plotter * result := reload_from_start p o.

(* realtime.rs:221-231; seeking beyond the end reads nothing and leaves the position there *)
Definition read_new_bytes (p : plotter) (start : nat) (o : obs) : plotter * result :=
  match o_bytes o with
  | None => (p, Err)
  | Some bs =>
      let tail := skipn start bs in
      match utf8_decode tail with
      | None => (p, Err)
      | Some text =>
          let p := set_pos p (start + length tail) in
          if is_nil text then (p, Ok false) else parse_text_chunk p text
      end
  end.

(* realtime.rs:183-204 *)
Definition should_reset (p : plotter) (m : meta) : bool :=
  match last_identity p with
  | None => false
  | Some prev => (len m <? file_pos p) || negb (N.eqb (ident prev) (ident m))
  end.

(* realtime.rs:369-380 *)
Definition reset_series (p : plotter) : plotter :=
  mkP (cfg p) [] None [] [] (map (fun _ => []) (y_values p)) [] 0 None.

(* realtime.rs:124-144 *)
Definition update_once (p : plotter) (o : obs) : plotter * result :=
  if negb (o_exists o) then (p, Ok false)
  else
    match o_meta o with
    | None => (p, Err)
    | Some m =>
        if should_reset p m then
          match reload_from_start (reset_series p) o with
          | (p', Ok _) => (p', Ok true)
          | (p', Err) => (p', Err)
          end
        else
          let (p', r) :=
            if file_pos p <? len m then read_new_bytes p (file_pos p) o else (p, Ok false) in
          match r with
          | Err => (p', Err)
          | Ok c => (set_identity p' (Some m), Ok c)
          end
    end.

(* realtime.rs:402-410 *)
Definition set_y_columns (p : plotter) (ys : list str) (o : obs) : plotter * result :=
  let c := mkCfg (has_header (cfg p)) (x_column (cfg p)) ys (max_points (cfg p)) in
  let p' := mkP c (headers p) (x_index p) (y_indices p) (x_values p)
              (map (fun _ => []) ys) (partial_line p) (file_pos p) (last_identity p) in
  reload_from_start (reset_series p') o.

End Csv.
