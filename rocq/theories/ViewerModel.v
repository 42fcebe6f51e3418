(** The live viewer: crates/aether_viz/src/bin/csv_tail_egui.rs, without the window toolkit.  The plotters are those of
    CsvModel. *)
From Coq Require Import NArith ZArith QArith Arith List Bool.
From Flocq Require Import Core BinarySingleNaN.
From Verif Require Import Scalar F64 TankModel Text CsvModel PlotModel.
Import ListNotations.
Local Open Scope nat_scope.

Section App.
Context {V : Type} (parse_num : str -> option V) (parse_idx : str -> option nat).

(** csv_tail_egui.rs:118-122: the path is a number here *)
Record source := mkSrc { s_path : N; s_plotter : @plotter V }.
(** csv_tail_egui.rs:124-137, without the clocks; the two selection maps are lists of names and switches *)
Record app := mkApp { sources : list source; a_x : str; y_labels : list str; sel_x : list (str * bool); sel_y : list (str * bool); last_error : bool }.

(** Ord for String: bytes in order, which for UTF-8 is code points in order *)
Fixpoint str_ltb (a b : str) : bool :=
  match a, b with
  | _, [] => false
  | [], _ :: _ => true
  | x :: a, y :: b => ((x <? y)%N || ((x =? y)%N && str_ltb a b))
  end.
(** BTreeSet::insert *)
(** called at csv_tail_egui.rs:406-417 *)
Fixpoint set_insert (x : str) (l : list str) : list str :=
  match l with
  | [] => [x]
  | y :: r => if str_eqb x y then l else if str_ltb x y then x :: l else y :: set_insert x r
  end.
(** csv_tail_egui.rs:406-417 *)
Definition new_columns (a : app) : list str :=
  fold_left (fun (s : list str) (e : str * bool) => if snd e then set_insert (fst e) s else s) (sel_x a ++ sel_y a) [].

(** csv_tail_egui.rs:148-155, 406-431 *)
Definition is_err (r : CsvModel.result) : bool := match r with Err => true | Ok _ => false end.
(** what each source's call sees of the file system: one [obs] per source, in order *)
(** the loops over self.sources, csv_tail_egui.rs:148-155, 406-431 *)
Fixpoint for_each (f : @plotter V -> obs -> @plotter V * result) (ss : list source) (os : nat -> obs) : list source * bool :=
  match ss with
  | [] => ([], false)
  | s :: ss =>
      let (p, r) := f (s_plotter s) (os 0) in
      let (ss', e) := for_each f ss (fun i => os (S i)) in
      (mkSrc (s_path s) p :: ss', is_err r || e)
  end.
(** csv_tail_egui.rs:406-431 *)
Definition apply_selection (a : app) (os : nat -> obs) : app :=
  let new_cols := new_columns a in
  let (ss, err) := for_each (fun p o => set_y_columns parse_num parse_idx p new_cols o) (sources a) os in
  mkApp ss (a_x a) (if err then y_labels a else new_cols) (sel_x a) (sel_y a) err.
(** csv_tail_egui.rs:148-155, the polling of the sources *)
Definition poll (a : app) (os : nat -> obs) : app :=
  let (ss, err) := for_each (update_once parse_num parse_idx) (sources a) os in
  mkApp ss (a_x a) (y_labels a) (sel_x a) (sel_y a) err.
(** csv_tail_egui.rs:343-372 (and 54-75 at start-up): the file has a header and no limit on points *)
Definition create_source (x : str) (ys : list str) (path : N) (o : obs) : option source :=
  match initialize parse_num parse_idx (new (mkCfg true x ys None)) o with
  | (p, Ok _) => Some (mkSrc path p)
  | (_, Err) => None
  end.
(** csv_tail_egui.rs:374-404: [paths] are the files matching the pattern, with what is seen of each *)
Fixpoint refresh (a : app) (paths : list (N * obs * obs)) : app :=
  match paths with
  | [] => a
  | (path, o1, o2) :: rest =>
      let a' :=
        if existsb (fun s => (s_path s =? path)%N) (sources a) then a
        else match create_source (a_x a) (y_labels a) path o1 with
             | Some s =>
                 let p := match y_labels a with [] => s_plotter s | _ => fst (set_y_columns parse_num parse_idx (s_plotter s) (y_labels a) o2) end in
                 mkApp (sources a ++ [mkSrc path p]) (a_x a) (y_labels a) (sel_x a) (sel_y a) (last_error a)
             | None => mkApp (sources a) (a_x a) (y_labels a) (sel_x a) (sel_y a) true
             end in
      refresh a' rest
  end.
(** csv_tail_egui.rs:54-101: all files must load, or the program ends *)
Fixpoint open_all (x : str) (ys : list str) (paths : list (N * obs)) : option (list source) :=
  match paths with
  | [] => Some []
  | (path, o) :: rest => match create_source x ys path o, open_all x ys rest with Some s, Some ss => Some (s :: ss) | _, _ => None end
  end.
(** csv_tail_egui.rs:77-101: the columns named on the command line start as selected *)
Definition start (x : str) (ys : list str) (selx sely : list (str * bool)) (paths : list (N * obs)) : option app :=
  match open_all x ys paths with Some ss => Some (mkApp ss x ys selx sely false) | None => None end.
(** what can happen to the program; ticking boxes changes the maps and applies them *)
(** csv_tail_egui.rs:142-339: what one frame may do *)
Inductive event :=
| Poll (os : nat -> obs)
| Refresh (paths : list (N * obs * obs))
| Select (selx sely : list (str * bool)) (os : nat -> obs).
(** csv_tail_egui.rs:142-339 *)
Definition step (a : app) (e : event) : app :=
  match e with
  | Poll os => poll a os
  | Refresh ps => refresh a ps
  | Select sx sy os => apply_selection (mkApp (sources a) (a_x a) (y_labels a) sx sy (last_error a)) os
  end.
(** csv_tail_egui.rs:283-297: the label of curve number [idx] of any source; [series idx] is the name made up for an unnamed one *)
Definition curve_label (series : nat -> str) (a : app) (idx : nat) : str :=
  match nth_error (y_labels a) idx with Some l => l | None => series idx end.
End App.

(** str::rfind of a one-character pattern *)
(** called at csv_tail_egui.rs:451-458 *)
Fixpoint rfind (c : N) (s : str) : option nat :=
  match s with
  | [] => None
  | x :: r => match rfind c r with Some i => Some (S i) | None => if (x =? c)%N then Some 0 else None end
  end.
(** csv_tail_egui.rs:451-458, positions counted in characters *)
Definition extract_unit (name : str) : option str :=
  match rfind 91 name, rfind 93 name with
  | Some start, Some stop => if stop <=? start + 1 then None else Some (trim (firstn (stop - (start + 1)) (skipn (start + 1) name)))
  | _, _ => None
  end.
(** csv_tail_egui.rs:460-473 *)
Fixpoint common_unit_loop (unit : option str) (columns : list str) : option (option str) :=
  match columns with
  | [] => Some unit
  | col :: rest =>
      match unit, extract_unit col with
      | None, Some v => common_unit_loop (Some v) rest
      | None, None => common_unit_loop (Some []) rest
      | Some e, Some v => if str_eqb e v then common_unit_loop unit rest else None
      | Some e, None => if is_nil e then common_unit_loop unit rest else None
      end
  end.
(** csv_tail_egui.rs:460-473 *)
Definition common_unit (columns : list str) : option str :=
  match common_unit_loop None columns with Some (Some u) => if is_nil u then None else Some u | _ => None end.

(** f64::EPSILON *)
Definition epsilon : f64 := lit f64_ops (1 # Z.to_pos (2 ^ 52)).
(** csv_tail_egui.rs:493-527; the values are those of the selected columns, in the order of the loops *)
Definition min_max (values : list f64) : f64 * f64 :=
  let '(min_v, max_v) := bounds (filter (fun y => is_finite y) values) in
  if negb (is_finite min_v) || negb (is_finite max_v) then (zero f64_ops, one f64_ops)
  else if Bltb (Babs (f64_sub max_v min_v)) epsilon then (min_v, f64_add min_v (one f64_ops))
  else (min_v, max_v).
(** csv_tail_egui.rs:529-535 *)
Definition map_range (value src_min src_max dst_min dst_max : f64) : f64 :=
  if Bltb (Babs (f64_sub src_max src_min)) epsilon then dst_min
  else
    let t := f64_div (f64_sub value src_min) (f64_sub src_max src_min) in
    f64_add dst_min (f64_mul t (f64_sub dst_max dst_min)).
(** csv_tail_egui.rs:30-47, 96-97: the polling period in seconds for a parsed rate *)
Definition poll_period (hz : f64) : f64 := f64_div (one f64_ops) (max64 hz (lit f64_ops (1 # 10))).
(** Duration::from_secs_f64 panics on negative, NaN and too large (above about 2^64 seconds) arguments *)
Definition duration_panics (secs : f64) : bool := is_nan secs || Bltb secs (zero f64_ops) || negb (Bltb secs (lit f64_ops ((2 ^ 64)%Z # 1))).
