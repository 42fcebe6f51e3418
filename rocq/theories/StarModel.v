(** Model of crates/aether_catalogs/src/star_catalogs/mod.rs (star motion, uncertainties, infrared
    colours) and star_catalogs/color.rs.

    Simplification: scalars are exact reals; decimal literals are the exact decimals (the code rounds
    them to f32 or f64).  A square root of a negative number is [None] (NaN in the code).  [powf] with
    a positive base is [Rpower]. *)
From Coq Require Import Reals List Bool.
From Verif Require Import Scalar Geo3.
Import ListNotations.
Open Scope R_scope.

(** f32::clamp *)
Definition clamp (x lo hi : R) : R := if Rltb x lo then lo else if Rltb hi x then hi else x.
(** f64::sqrt *)
Definition fsqrt (x : R) : option R := if Rltb x 0 then None else Some (sqrt x).
(** unwrap_or(0.0), star_catalogs/mod.rs:123-202 *)
Definition or0 (o : option R) : R := match o with Some x => x | None => 0 end.
(** f64::to_radians *)
Definition rad (x : R) : R := x * (PI / 180).

(** star_catalogs/mod.rs:13-55, the fields used; [s_gaia] is cat_2016 == Some("GAIADR3") *)
Record star := mkStar { s_ra : R; s_de : R; s_e_ra : R; s_e_de : R;
  s_pmra : option R; s_pmde : option R; s_e_pmra : option R; s_e_pmde : option R; s_plx : option R; s_gaia : bool;
  s_g : option R; s_bp : option R; s_rp : option R; s_j : option R; s_h : option R; s_k : option R }.

(** star_catalogs/mod.rs:123-151 *)
Definition propagated_uncertainty (t e_ra : R) (e_pmra : option R) (e_de : R) (e_pmde : option R) (gaia : bool)
  : option R * option R :=
  let e_pmra := or0 e_pmra in
  let e_pmde := or0 e_pmde in
  if gaia then (fsqrt (e_ra ^ 2 + e_pmra ^ 2 * (t - 2016) ^ 2), fsqrt (e_de ^ 2 + e_pmde ^ 2 * (t - 2016) ^ 2))
  else
    let delta_t2 := (t - 199125 / 100) ^ 2 - (2016 - 199125 / 100) ^ 2 in
    (fsqrt (e_ra ^ 2 + e_pmra ^ 2 * delta_t2), fsqrt (e_de ^ 2 + e_pmde ^ 2 * delta_t2)).

(** star_catalogs/mod.rs:182-188 *)
Record sample := mkSample { sm_epoch : R; sm_position : V3; sm_velocity : V3; sm_e_ra : option R; sm_e_de : option R }.

(** star_catalogs/mod.rs:196-202 *)
Definition ra_at (s : star) (epoch : R) : R := rad (s_ra s + or0 (s_pmra s) * (epoch - 2016) / 3600000).
(** star_catalogs/mod.rs:196-202 *)
Definition de_at (s : star) (epoch : R) : R := rad (s_de s + or0 (s_pmde s) * (epoch - 2016) / 3600000).
(** star_catalogs/mod.rs:211-219 *)
Definition distance_au (s : star) : R :=
  match s_plx s with
  | Some p => if Rltb 0 p then 1 / (p / 1000) * (206264806 / 1000) else 1
  | None => 1
  end.
(** star_catalogs/mod.rs:195-258 *)
Definition icrs_sample (s : star) (epoch : R) : sample :=
  let ra := ra_at s epoch in
  let de := de_at s epoch in
  let cos_dec := cos de in let sin_dec := sin de in let cos_ra := cos ra in let sin_ra := sin ra in
  let unit := mkV (cos_dec * cos_ra) (cos_dec * sin_ra) sin_dec in
  let d := distance_au s in
  let position := mkV (vx unit * d) (vy unit * d) (vz unit * d) in
  let velocity :=
    match s_plx s, s_pmra s, s_pmde s with
    | Some plx, Some mu_ra, Some mu_de =>
        if Rltb 0 plx then
          let scale := 474047 / 100000 / plx in
          let t_ra := mkV (- sin_ra) cos_ra 0 in
          let t_de := mkV (- cos_ra * sin_dec) (- sin_ra * sin_dec) cos_dec in
          mkV (scale * (mu_ra * vx t_ra + mu_de * vx t_de))
              (scale * (mu_ra * vy t_ra + mu_de * vy t_de))
              (scale * (mu_ra * vz t_ra + mu_de * vz t_de))
        else V0
    | _, _, _ => V0
    end in
  let '(e_ra, e_de) := propagated_uncertainty epoch (s_e_ra s) (s_e_pmra s) (s_e_de s) (s_e_pmde s) (s_gaia s) in
  mkSample epoch position velocity e_ra e_de.

(** color.rs:4-14 *)
Definition knots : list (R * R) :=
  [(-2/10, 15000); (0, 10000); (3/10, 8000); (65/100, 5800); (1, 5000); (15/10, 4000); (2, 3500); (25/10, 3200); (3, 3000)].
(** color.rs:16-24: the loop over windows(2); [last] is the value after the loop *)
Fixpoint teff_windows (x : R) (l : list (R * R)) (last : R) : R :=
  match l with
  | (x0, y0) :: (((x1, y1) :: _) as l') =>
      if Rleb x x1 then y0 + (x - x0) / (x1 - x0) * (y1 - y0) else teff_windows x l' last
  | _ => last
  end.
(** color.rs:3-25 *)
Definition bp_rp_to_teff (bp_rp : R) : R :=
  let x := clamp bp_rp (fst (nth 0 knots (0, 0))) (fst (nth (length knots - 1) knots (0, 0))) in
  teff_windows x knots (snd (nth (length knots - 1) knots (0, 0))).

(** color.rs:28-58 *)
Definition blackbody_to_rgb (teff : R) : V3 :=
  let t := clamp teff 1000 40000 / 100 in
  let r := if Rleb t 66 then 1
           else clamp (329698727446 / 10 ^ 9 * Rpower (t - 60) (- (1332047592 / 10 ^ 10)) / 255) 0 1 in
  let g := if Rleb t 66 then Rmin (Rmax (994708025861 / 10 ^ 10 * ln t - 1611195681661 / 10 ^ 10) 0) 255 / 255
           else clamp (2881221695283 / 10 ^ 10 * Rpower (t - 60) (- (755148492 / 10 ^ 10)) / 255) 0 1 in
  let b := if Rleb 66 t then 1 else if Rleb t 19 then 0
           else Rmin (Rmax (1385177312231 / 10 ^ 10 * ln (t - 10) - 3050447927307 / 10 ^ 10) 0) 255 / 255 in
  mkV r g b.

(** color.rs:62-69 *)
Definition srgb_chan (u : R) : R :=
  if Rleb u (4045 / 100000) then u / (1292 / 100) else Rpower ((u + 55 / 1000) / (1055 / 1000)) (24 / 10).
(** color.rs:61-70 *)
Definition srgb_to_linear (c : V3) : V3 := mkV (srgb_chan (vx c)) (srgb_chan (vy c)) (srgb_chan (vz c)).
(** color.rs:73-91 *)
Definition bp_rp_to_rgb (bp_rp : R) (linear_out : bool) : V3 :=
  let c := blackbody_to_rgb (bp_rp_to_teff bp_rp) in
  let sat := 115 / 100 in
  let avg := (vx c + vy c + vz c) / 3 in
  let c := mkV (clamp (avg + (vx c - avg) * sat) 0 1) (clamp (avg + (vy c - avg) * sat) 0 1) (clamp (avg + (vz c - avg) * sat) 0 1) in
  if linear_out then srgb_to_linear c else c.

(** star_catalogs/mod.rs:275-290: gmag, bpmag, rpmag and the colour *)
Definition photometric_color (s : star) : option (R * R * R * V3) :=
  match s_bp s, s_rp s, s_g s with
  | Some bp, Some rp, Some g => Some (g, bp, rp, srgb_to_linear (bp_rp_to_rgb (bp - rp) false))
  | _, _, _ => None
  end.
(** star_catalogs/mod.rs:326 *)
Definition ir_clamp (mag : R) : R := clamp (1 - (mag - 8) / 8) 0 1.
(** star_catalogs/mod.rs:323-340: [None] is Missing *)
Definition photometric_infrared_rgb (s : star) : option V3 :=
  match s_j s, s_h s, s_k s with
  | Some j, Some h, Some k => Some (mkV (ir_clamp k) (ir_clamp h) (ir_clamp j))
  | _, _, _ => None
  end.
