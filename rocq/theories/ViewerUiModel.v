(** The live viewer's command line, tick boxes, curves and legend: crates/aether_viz/src/bin/csv_tail_egui.rs.
    Polling, loading and the change of columns are those of ViewerModel; the window toolkit is reduced to the
    boxes clicked in a frame and the lines handed to it. *)
From Coq Require Import NArith ZArith QArith Arith List Bool.
From Flocq Require Import Core BinarySingleNaN.
From Verif Require Import Scalar F64 TankModel Text CsvModel PlotModel ViewerModel.
Import ListNotations.
Local Open Scope nat_scope.

(** ** Text *)
(* str::to_ascii_lowercase *)
(** called at csv_tail_egui.rs:441 *)
Definition lower_char (c : N) : N := if (65 <=? c)%N && (c <=? 90)%N then (c + 32)%N else c.
(** called at csv_tail_egui.rs:441 *)
Definition to_lower (s : str) : str := map lower_char s.
(* str::starts_with, contains, ends_with for a string pattern *)
(** called at csv_tail_egui.rs:563 *)
Fixpoint starts_with (p s : str) : bool :=
  match p, s with
  | [], _ => true
  | _ :: _, [] => false
  | a :: p, b :: s => (a =? b)%N && starts_with p s
  end.
(** called at csv_tail_egui.rs:440-449 *)
Fixpoint contains (p s : str) : bool :=
  starts_with p s || match s with [] => false | _ :: r => contains p r end.
(** called at csv_tail_egui.rs:440-449 *)
Definition ends_with_str (p s : str) : bool := starts_with (rev p) (rev s).

(** csv_tail_egui.rs:434-438 *)
Inductive kind := KX | KY.
(** the comparisons of csv_tail_egui.rs:77-94, 187-196 *)
Definition kind_eqb (a b : option kind) : bool :=
  match a, b with Some KX, Some KX => true | Some KY, Some KY => true | None, None => true | _, _ => false end.
(** csv_tail_egui.rs:440-449; 95 is '_', 91 '[', 120 'x', 121 'y' *)
Definition component (letter : N) (lower : str) : bool :=
  contains [95; letter; 91]%N lower || ends_with_str [95; letter]%N lower || contains [95; letter; 95]%N lower.
(** csv_tail_egui.rs:440-449 *)
Definition classify (name : str) : option kind :=
  let lower := to_lower name in
  if component 120 lower then Some KX else if component 121 lower then Some KY else None.

(** csv_tail_egui.rs:11-44: [args] starts with the program's name; [parse] is str::parse::<f64>.  The result:
    file or pattern, x column, y columns, polling rate; [None]: the usage text is printed *)
Definition command_line (parse : str -> option f64) (args : list str) : option (str * str * list str * f64) :=
  match args with
  | _ :: csv :: x :: rest =>
      let five := lit f64_ops (5 # 1) in
      let '(ys, hz) :=
        match rest with
        | [] => ([], five)
        | arg3 :: rest4 =>
            match parse arg3 with
            | Some h => ([], h)
            | None =>
                (filter (fun s => negb (is_nil s)) (map trim (split_on 44 arg3)),
                 match rest4 with [] => five | arg4 :: _ => match parse arg4 with Some h => h | None => five end end)
            end
        end in
      Some (csv, x, ys, max64 hz (lit f64_ops (1 # 10)))
  | _ => None
  end.

(** BTreeMap<String, bool>: lookups and entry(..).or_insert(..).  The order of the entries plays no role: the map is only
    looked up and collected into a sorted set (csv_tail_egui.rs:406-417) *)
Fixpoint get (m : list (str * bool)) (k : str) : option bool :=
  match m with [] => None | (n, b) :: r => if str_eqb n k then Some b else get r k end.
(** csv_tail_egui.rs:475-491 *)
Definition on (m : list (str * bool)) (k : str) : bool := match get m k with Some b => b | None => false end.
(** csv_tail_egui.rs:198-207, 216-238 *)
Definition or_insert (m : list (str * bool)) (k : str) (b : bool) : list (str * bool) :=
  match get m k with Some _ => m | None => m ++ [(k, b)] end.
(* a click on the box of [k] inverts its switch *)
(** csv_tail_egui.rs:216-238 *)
Definition flip (m : list (str * bool)) (k : str) : list (str * bool) :=
  map (fun e => if str_eqb (fst e) k then (fst e, negb (snd e)) else e) m.

(** csv_tail_egui.rs:77-94: the maps and the flag at the start; collecting into a map drops repeated keys *)
Definition start_map (k : kind) (ys : list str) : list (str * bool) :=
  fold_left (fun m y => or_insert m y true) (filter (fun c => kind_eqb (classify c) (Some k)) ys) [].

Section Frame.
Context {V : Type} (parse_num : str -> option V) (parse_idx : str -> option nat).

(** csv_tail_egui.rs:77-101 *)
Definition start_app (x : str) (ys : list str) (paths : list (N * obs)) : option (@app V * bool) :=
  match start parse_num parse_idx x ys (start_map KX ys) (start_map KY ys) paths with
  | Some a => Some (a, negb (is_nil ys))
  | None => None
  end.

(** csv_tail_egui.rs:180-184 *)
Definition columns_of (a : @app V) : list str := match sources a with [] => [] | s :: _ => headers (s_plotter s) end.
(** csv_tail_egui.rs:187-196 *)
Definition x_candidates (a : @app V) : list str := filter (fun c => kind_eqb (classify c) (Some KX)) (columns_of a).
(** csv_tail_egui.rs:192-196 *)
Definition y_candidates (a : @app V) : list str := filter (fun c => negb (str_eqb c (a_x a))) (columns_of a).
(** the assignments of csv_tail_egui.rs:198-238 *)
Definition set_maps (a : @app V) (sx sy : list (str * bool)) : @app V :=
  mkApp (sources a) (a_x a) (y_labels a) sx sy (last_error a).
(** csv_tail_egui.rs:198-207; [os]: what the reloads see of the files *)
Definition initial_selection (a : @app V) (init : bool) (os : nat -> obs) : @app V :=
  if init then a
  else
    let sx := match x_candidates a with c :: _ => or_insert (sel_x a) c true | [] => sel_x a end in
    let sy := match y_candidates a with c :: _ => or_insert (sel_y a) c true | [] => sel_y a end in
    apply_selection parse_num parse_idx (set_maps a sx sy) os.
(** csv_tail_egui.rs:216-238: one column of boxes; [clicked i]: the box of candidate number [i] was clicked.  Returns the map
    and whether a box changed.  The x column has no box *)
Fixpoint boxes (x : str) (cands : list str) (clicked : nat -> bool) (m : list (str * bool)) (changed : bool)
  : list (str * bool) * bool :=
  match cands with
  | [] => (m, changed)
  | c :: r =>
      if str_eqb c x then boxes x r (fun i => clicked (S i)) m changed
      else
        let m := or_insert m c false in
        if clicked 0 then boxes x r (fun i => clicked (S i)) (flip m c) true
        else boxes x r (fun i => clicked (S i)) m changed
  end.
(** csv_tail_egui.rs:180-244: the tool bar of one frame; the flag is [initialized_selection] *)
Definition toolbar (a : @app V) (init : bool) (click_x click_y : nat -> bool) (os1 os2 : nat -> obs) : @app V * bool :=
  match columns_of a with
  | [] => (a, init)
  | _ =>
      (* the candidates are computed before the initial selection is applied *)
      let xc := x_candidates a in
      let yc := y_candidates a in
      let a1 := initial_selection a init os1 in
      let (sx, ch1) := boxes (a_x a1) xc click_x (sel_x a1) false in
      let (sy, ch2) := boxes (a_x a1) yc click_y (sel_y a1) ch1 in
      let a2 := set_maps a1 sx sy in
      (if ch2 then apply_selection parse_num parse_idx a2 os2 else a2, true)
  end.

(** csv_tail_egui.rs:475-491 *)
Definition selected (labels : list str) (m : list (str * bool)) : list str := filter (on m) labels.
End Frame.

(** ** The curves, csv_tail_egui.rs:253-322 *)
(* Option<String> compared with != *)
Definition unit_eqb (a b : option str) : bool :=
  match a, b with Some u, Some v => str_eqb u v | None, None => true | _, _ => false end.
(** 259-263 *)
Definition dual_axis (a : @app f64) : bool :=
  let xs := selected (y_labels a) (sel_x a) in
  let ys := selected (y_labels a) (sel_y a) in
  negb (is_nil xs) && negb (is_nil ys) && negb (unit_eqb (common_unit xs) (common_unit ys)).
(** 493-518: the values that enter a group's range, in the order of the loops *)
Definition group_values (a : @app f64) (cols : list str) : list f64 :=
  flat_map (fun s => let p := s_plotter s in
    flat_map (fun e => if existsb (str_eqb (fst e)) cols && (length (snd e) =? length (x_values p)) then snd e else [])
      (combine (y_labels a) (y_values p))) (sources a).
(** csv_tail_egui.rs:493-527 *)
Definition group_range (a : @app f64) (m : list (str * bool)) : f64 * f64 :=
  min_max (group_values a (selected (y_labels a) m)).
(** 293-316: the points of one curve *)
Definition finite_points (xs ys : list f64) : list (f64 * f64) :=
  filter (fun p => is_finite (fst p) && is_finite (snd p)) (combine xs ys).
(** csv_tail_egui.rs:293-316 *)
Definition curve_points (a : @app f64) (col_name : str) (xs ys : list f64) : list (f64 * f64) :=
  let pts := finite_points xs ys in
  if dual_axis a && on (sel_y a) col_name then
    let (xl, xh) := group_range a (sel_x a) in
    let (yl, yh) := group_range a (sel_y a) in
    map (fun p => (fst p, map_range (snd p) yl yh xl xh)) pts
  else pts.
(** 275-320: the curves of one source with their legend; [series] is the made-up name of an unnamed column *)
Definition source_curves (series : nat -> str) (name : N -> str) (a : @app f64) (s : @source f64) : list (str * list (f64 * f64)) :=
  let p := s_plotter s in
  if is_nil (x_values p) || is_nil (y_values p) then []
  else
    flat_map (fun e => let '(i, ys) := e in
      if negb (length ys =? length (x_values p)) then []
      else
        let col := curve_label series a i in
        [(name (s_path s) ++ [58; 58]%N ++ col, curve_points a col (x_values p) ys)])
      (combine (seq 0 (length (y_values p))) (y_values p)).
(** csv_tail_egui.rs:275-320 *)
Definition curves (series : nat -> str) (name : N -> str) (a : @app f64) : list (str * list (f64 * f64)) :=
  flat_map (source_curves series name a) (sources a).

(** csv_tail_egui.rs:556-572: a path is the list of its components; 46 is '.'.  Path::file_stem: the last component
    without its extension, a leading dot not starting one; none for ".." *)
Definition run_prefix : str := [114; 117; 110; 95]%N.
(** Path::file_stem, called at csv_tail_egui.rs:568 *)
Definition file_stem (last : str) : option str :=
  if str_eqb last [46; 46]%N then None
  else match rfind 46 last with None => Some last | Some 0 => Some last | Some i => Some (firstn i last) end.
(** csv_tail_egui.rs:570 *)
Definition source_word : str := [115; 111; 117; 114; 99; 101]%N.
(** csv_tail_egui.rs:556-572 *)
Definition derive_run_label (components : list str) : str :=
  match find (starts_with run_prefix) (rev components) with
  | Some s => s
  | None => match rev components with
            | last :: _ => match file_stem last with Some s => s | None => source_word end
            | [] => source_word
            end
  end.
