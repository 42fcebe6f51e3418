(** The command line tool that tabulates the magnetic field on a grid
    (crates/aether_catalogs/examples/wmm_grid_csv.rs). *)
From Coq Require Import Ascii String NArith QArith List Bool Arith Reals.
Import ListNotations.
From Verif Require Import Scalar Text PrintModel Geo3 WmmModel WmmData.

(** ** The grid: wmm_grid_csv.rs:149-168 *)
Section Values.
Context {F : Type} (O : ops F).
(** f64::round: to the nearest integer, halves away from zero *)
Context (round : F -> F).

(** line 153 *)
Definition six_places (value : F) : F := div O (round (mul O value (lit O 1000000))) (lit O 1000000).
(** lines 152, 158 *)
Definition grid_eps : F := lit O (1 # 1000000000).

(** lines 152-155; [None]: the fuel ran out before the loop ended *)
Definition grid_loop (fuel : nat) (min_value max_value step : F) : option (F * list F) :=
  while_ fuel (fun st => leb O (fst st) (add O max_value grid_eps))
    (fun st => Some (add O (fst st) step, snd st ++ [six_places (fst st)])) (min_value, []).

(** lines 157-163 *)
Definition close_grid (max_value : F) (values : list F) : list F :=
  match rev values with
  | [] => values
  | last :: init =>
      if ltb O grid_eps (absf O (sub O last max_value)) then values ++ [max_value] else rev init ++ [max_value]
  end.
(** lines 149-166 *)
Definition grid_values (fuel : nat) (min_value max_value step : F) : option (list F) :=
  match grid_loop fuel min_value max_value step with
  | None => None
  | Some (_, values) => Some (close_grid max_value values)
  end.

(** ** Arguments: lines 41-86.  [parse] is str::parse::<f64>. *)
Context (parse : str -> option F).
(** lines 16-23 *)
Record config := mkConfig { output_path : str; decimal_year : F; altitude_km : F; lat_step : F; lon_step : F; max_abs_lat : F }.
(** the result of lines 41-75 *)
Inductive arguments := Missing | Help | Invalid (label : string) | Rejected (message : string) | Run (c : config).

(** lines 77-84 *)
Definition parse_optional (value : option str) (default : F) : option F :=
  match value with Some v => parse v | None => Some default end.

(** lines 41-75 *)
Definition parse_args (args : list str) : arguments :=
  match args with
  | [] => Missing
  | path :: _ =>
      if existsb (fun a => str_eqb a (text "-h") || str_eqb a (text "--help")) args then Help else
      match parse_optional (nth_error args 1) (lit O 2025) with None => Invalid "decimal_year" | Some y =>
      match parse_optional (nth_error args 2) (lit O 450) with None => Invalid "altitude_km" | Some alt =>
      match parse_optional (nth_error args 3) (lit O 5) with None => Invalid "lat_step_deg" | Some la =>
      match parse_optional (nth_error args 4) (lit O 5) with None => Invalid "lon_step_deg" | Some lo =>
      match parse_optional (nth_error args 5) (lit O 89) with None => Invalid "max_abs_lat_deg" | Some mx =>
      if leb O la (zero O) then Rejected "lat_step_deg must be positive" else
      if leb O lo (zero O) then Rejected "lon_step_deg must be positive" else
      if negb (leb O (zero O) mx && ltb O mx (lit O 90)) then Rejected "max_abs_lat_deg must be in [0, 90)" else
      Run (mkConfig path y alt la lo mx)
      end end end end end
  end.

(** ** The table: lines 101-147.  [field] gives the columns x_nt .. f_dot_nt_per_year of one point, or
    [None] where evaluate returns an error; [show6] prints with six decimals.  Creating directories and
    the file, and write errors, are left out.  The text is what has been written when the function
    returns: [true] for Ok, [false] for the error of the first failing point. *)
Context (field : F -> F -> F -> F -> option (list F)) (show6 : F -> str).

(** the format string of line 122 *)
Fixpoint join (sep : N) (l : list str) : str :=
  match l with [] => [] | [x] => x | x :: l => x ++ sep :: join sep l end.
(** line 114 *)
Definition header : str :=
  text "decimal_year,altitude_km,latitude_deg,longitude_deg,x_nt,y_nt,z_nt,h_nt,f_nt,declination_deg,inclination_deg,x_dot_nt_per_year,y_dot_nt_per_year,z_dot_nt_per_year,f_dot_nt_per_year".

(** lines 117-140 *)
Fixpoint write_points (c : config) (points : list (F * F)) (out : str) : str * bool :=
  match points with
  | [] => (out, true)
  | (la, lo) :: points =>
      match field (decimal_year c) (altitude_km c) la lo with
      | None => (out, false)
      | Some cols => write_points c points
          (out ++ join 44 (map show6 (decimal_year c :: altitude_km c :: la :: lo :: cols)) ++ [NL])
      end
  end.
(** lines 109-110, 117-118: latitudes outside, longitudes inside *)
Definition generate_csv (fuel : nat) (c : config) : option (str * bool) :=
  match grid_values fuel (neg O (max_abs_lat c)) (max_abs_lat c) (lat_step c),
        grid_values fuel (neg O (lit O 180)) (lit O 180) (lon_step c) with
  | Some lats, Some lons => Some (write_points c (list_prod lats lons) (header ++ [NL]))
  | _, _ => None
  end.
End Values.

(** lines 119-120 and 127-141 in exact arithmetic: the columns of one point from the embedded model;
    [None] is the error returned by evaluate *)
Definition embedded_field (year altitude latitude longitude : R) : option (list R) :=
  match evaluate wmm_2025 year (mkGd (latitude * (PI / 180)) (longitude * (PI / 180)) (altitude * 1000))%R with
  | Ok e => Some [vx (e_field e); vy (e_field e); vz (e_field e); e_H e; e_F e; e_D e * (180 / PI); e_I e * (180 / PI);
      vx (e_secular e); vy (e_secular e); vz (e_secular e); e_Fd e]%R
  | _ => None
  end.
