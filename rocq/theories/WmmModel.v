(** Model of crates/aether_catalogs/src/wmm/mod.rs.

    Simplification: scalars are exact reals and the elementary functions exact; decimal literals are
    the exact decimals.  Arrays are functions from indices, with the index checks of the code
    explicit; [None] is a panic. *)
From Coq Require Import Reals List Arith Bool.
From Verif Require Import Scalar LinModel Trig Geo3 Wgs84Model.
Open Scope R_scope.

(** wmm/mod.rs:12, 14 *)
Definition wmm_max_degree : nat := 12.
(** wmm/mod.rs:14 *)
Definition wmm_triangular_count : nat := 91.
(** wmm/mod.rs:16, 19-21: 6371.2 km in metres *)
Definition wmm_reference_radius_m : R := 6371200.
(** wmm/mod.rs:17 *)
Definition pole_eps : R := / 10 ^ 12.

(** wmm/mod.rs:117-142: TriangularTable *)
Definition table := nat -> R.
(** wmm/mod.rs:127-129 *)
Definition tri_index (degree order : nat) : nat := (degree * (degree + 1) / 2 + order)%nat.
(** wmm/mod.rs:131-133 *)
Definition tri_set (t : table) (degree order : nat) (value : R) : option table :=
  let i := tri_index degree order in
  if (i <? wmm_triangular_count)%nat then Some (upd t i value) else None.
(** wmm/mod.rs:135-141 *)
Definition tri_get (t : table) (degree order : nat) : R :=
  if ((wmm_max_degree <? degree) || (degree <? order))%nat then 0 else t (tri_index degree order).

(** wmm/mod.rs:35-42 *)
Record record := mkRec { r_degree : nat; r_order : nat; r_g : R; r_h : R; r_gdot : R; r_hdot : R }.
(** wmm/mod.rs:145-152, 154-170 *)
Record coeffs := mkCo { c_year : R; c_max : nat; c_g : table; c_h : table; c_gd : table; c_hd : table }.
(** wmm/mod.rs:155-157 *)
Definition co_g (c : coeffs) := tri_get (c_g c).
(** wmm/mod.rs:159-161 *)
Definition co_h (c : coeffs) := tri_get (c_h c).
(** wmm/mod.rs:163-165 *)
Definition co_gd (c : coeffs) := tri_get (c_gd c).
(** wmm/mod.rs:167-169 *)
Definition co_hd (c : coeffs) := tri_get (c_hd c).
(** wmm/mod.rs:173-181; [m_epoch] is header.epoch *)
Record model := mkWmm { m_epoch : R; m_max : nat; m_records : list record;
  m_g : table; m_h : table; m_gd : table; m_hd : table }.

(** wmm/mod.rs:210-236 *)
Fixpoint set_records (delta : R) (l : list record) (g h : table) : option (table * table) :=
  match l with
  | nil => Some (g, h)
  | r :: l =>
      match tri_set g (r_degree r) (r_order r) (r_g r + delta * r_gdot r) with
      | None => None
      | Some g =>
          match tri_set h (r_degree r) (r_order r) (r_h r + delta * r_hdot r) with
          | None => None
          | Some h => set_records delta l g h
          end
      end
  end.
(** wmm/mod.rs:210-236 *)
Definition coefficients_at (m : model) (decimal_year : R) : option coeffs :=
  let delta_years := decimal_year - m_epoch m in
  match set_records delta_years (m_records m) (m_g m) (m_h m) with
  | None => None
  | Some (g, h) => Some (mkCo decimal_year (m_max m) g h (m_gd m) (m_hd m))
  end.

(** wmm/mod.rs:45-49, 66-70 *)
Record geodetic_point := mkGd { gd_lat : R; gd_lon : R; gd_height : R }.
(** wmm/mod.rs:66-70 *)
Record geocentric_point := mkGc { gc_radius : R; gc_lat : R; gc_lon : R }.

(** wgs84/constants/mod.rs:16 *)
Definition wgs84_flattening : R := 33528106647475 / 10 ^ 16.

(** wmm/mod.rs:365-381 *)
Definition geodetic_to_geocentric (point : geodetic_point) : geocentric_point :=
  let sin_lat := sin (gd_lat point) in
  let cos_lat := cos (gd_lat point) in
  let eccentricity_sq := wgs84_flattening * (2 - wgs84_flattening) in
  let prime_vertical_radius := w84_a / sqrt (1 - eccentricity_sq * sin_lat * sin_lat) in
  let p := (prime_vertical_radius + gd_height point) * cos_lat in
  let z := (prime_vertical_radius * (1 - eccentricity_sq) + gd_height point) * sin_lat in
  let radius_m := sqrt (p * p + z * z) in
  mkGc radius_m (asin (z / radius_m)) (gd_lon point).

(** wmm/mod.rs:438-448 *)
Definition schmidt_factor (degree order : nat) : R :=
  match order with
  | O => 1
  | _ => sqrt (for_ (degree - order + 1) (degree + order + 1) (fun value ratio => ratio / INR value) 2)
  end.

(** wmm/mod.rs:393-411: the unnormalised functions.  The three loops; [nmax] is WMM_MAX_DEGREE *)
Definition legendre_diag (nmax : nat) (cos_lat : R) (p : nat -> nat -> R) : nat -> nat -> R :=
  for_ 1 (nmax + 1) (fun order p => upd2 p order order (INR (2 * order - 1) * cos_lat * p (order - 1)%nat (order - 1)%nat)) p.
(** wmm/mod.rs:393-411 *)
Definition legendre_off (nmax : nat) (sin_lat : R) (p : nat -> nat -> R) : nat -> nat -> R :=
  for_ 0 nmax (fun order p => upd2 p (order + 1) order (INR (2 * order + 1) * sin_lat * p order order)) p.
(** wmm/mod.rs:393-411 *)
Definition legendre_rest (nmax : nat) (sin_lat : R) (p : nat -> nat -> R) : nat -> nat -> R :=
  for_ 0 (nmax + 1) (fun order p =>
    for_ (order + 2) (nmax + 1) (fun degree p =>
      upd2 p degree order ((INR (2 * degree - 1) * sin_lat * p (degree - 1)%nat order
                            - INR (degree + order - 1) * p (degree - 2)%nat order)
                           / INR (degree - order))) p) p.
(** wmm/mod.rs:393-411 *)
Definition legendre_p (nmax : nat) (sin_lat cos_lat : R) : nat -> nat -> R :=
  legendre_rest nmax sin_lat (legendre_off nmax sin_lat (legendre_diag nmax cos_lat (upd2 (fun _ _ => 0) 0 0 1))).

(** wmm/mod.rs:383-436: the tables p_bar and dp_bar_dphi *)
Definition schmidt_semi_normalized_legendre (nmax : nat) (sin_lat cos_lat : R)
  : (nat -> nat -> R) * (nat -> nat -> R) :=
  let p := legendre_p nmax sin_lat cos_lat in
  for_ 0 (nmax + 1) (fun degree st =>
    for_ 0 (degree + 1) (fun order st =>
      let '(p_bar, dp_bar) := st in
      let schmidt := schmidt_factor degree order in
      let p_bar := upd2 p_bar degree order (schmidt * p degree order) in
      let previous := if ((0 <? degree) && (order <? degree))%nat then p (degree - 1)%nat order else 0 in
      let derivative_wrt_x :=
        if Rleb (Rabs cos_lat) pole_eps then 0
        else (INR degree * sin_lat * p degree order - INR (degree + order) * previous) / (sin_lat * sin_lat - 1) in
      (p_bar, upd2 dp_bar degree order (schmidt * cos_lat * derivative_wrt_x))) st)
    (fun _ _ => 0, fun _ _ => 0).

(** wmm/mod.rs:450-465 *)
Definition longitude_harmonics (nmax : nat) (longitude : R) : (nat -> R) * (nat -> R) :=
  for_ 1 (nmax + 1) (fun order st =>
    let '(c, s) := st in
    (upd c order (c (order - 1)%nat * cos longitude - s (order - 1)%nat * sin longitude),
     upd s order (s (order - 1)%nat * cos longitude + c (order - 1)%nat * sin longitude)))
    (upd (fun _ => 0) 0%nat 1, fun _ => 0).

(** the six accumulators of wmm/mod.rs:261-266 *)
Record acc := mkAcc { a_x : R; a_y : R; a_z : R; a_xd : R; a_yd : R; a_zd : R }.

(** wmm/mod.rs:268-292.  The arrays have WMM_MAX_DEGREE + 1 rows: a larger degree panics. *)
Definition harmonic_sum (co : coeffs) (radius cos_phi : R) (pb dpb : nat -> nat -> R) (cm sm : nat -> R) : option acc :=
  forM 1 (c_max co + 1) (fun degree st =>
    if (wmm_max_degree <? degree)%nat then None else
    let radial_scale := (wmm_reference_radius_m / radius) ^ (degree + 2) in
    Some (for_ 0 (degree + 1) (fun order st =>
      let g := co_g co degree order in
      let h := co_h co degree order in
      let g_dot := co_gd co degree order in
      let h_dot := co_hd co degree order in
      let combined := g * cm order + h * sm order in
      let combined_dot := g_dot * cm order + h_dot * sm order in
      let azimuthal := INR order * (g * sm order - h * cm order) in
      let azimuthal_dot := INR order * (g_dot * sm order - h_dot * cm order) in
      mkAcc (a_x st - radial_scale * combined * dpb degree order)
            (a_y st + radial_scale * azimuthal * pb degree order / cos_phi)
            (a_z st - radial_scale * (INR degree + 1) * combined * pb degree order)
            (a_xd st - radial_scale * combined_dot * dpb degree order)
            (a_yd st + radial_scale * azimuthal_dot * pb degree order / cos_phi)
            (a_zd st - radial_scale * (INR degree + 1) * combined_dot * pb degree order)) st))
    (mkAcc 0 0 0 0 0 0).

(** wmm/mod.rs:73-88, 91-98.  [e_grid] is grid_variation_rad *)
Record elements := mkEl { e_gc : geocentric_point; e_year : R; e_field : V3; e_secular : V3;
  e_H : R; e_F : R; e_D : R; e_I : R; e_grid : R; e_Hd : R; e_Fd : R; e_Dd : R; e_Id : R }.
(** wmm/mod.rs:91-98: the result of 243-337 *)
Inductive outcome := Ok (e : elements) | PoleSingularity (lat : R) | UndefinedHorizontalField | Panic.

(** wmm/mod.rs:243-337 *)
Definition evaluate_with_coefficients (co : coeffs) (point : geodetic_point) : outcome :=
  let geocentric := geodetic_to_geocentric point in
  let sin_phi := sin (gc_lat geocentric) in
  let cos_phi := cos (gc_lat geocentric) in
  if Rleb (Rabs cos_phi) pole_eps then PoleSingularity (gc_lat geocentric) else
  let '(pb, dpb) := schmidt_semi_normalized_legendre wmm_max_degree sin_phi cos_phi in
  let '(cm, sm) := longitude_harmonics wmm_max_degree (gd_lon point) in
  let delta_lat := gc_lat geocentric - gd_lat point in
  match harmonic_sum co (gc_radius geocentric) cos_phi pb dpb cm sm with
  | None => Panic
  | Some a =>
      let cd := cos delta_lat in
      let sd := sin delta_lat in
      let x := a_x a * cd - a_z a * sd in
      let y := a_y a in
      let z := a_x a * sd + a_z a * cd in
      let x_dot := a_xd a * cd - a_zd a * sd in
      let y_dot := a_yd a in
      let z_dot := a_xd a * sd + a_zd a * cd in
      let hi := sqrt (x * x + y * y) in
      if Reqb hi 0 then UndefinedHorizontalField else
      let ti := sqrt (hi * hi + z * z) in
      let hr := (x * x_dot + y * y_dot) / hi in
      let d := atan2 y x in
      Ok (mkEl geocentric (c_year co) (mkV x y z) (mkV x_dot y_dot z_dot) hi ti d (atan2 z hi) d
            hr ((x * x_dot + y * y_dot + z * z_dot) / ti)
            ((x * y_dot - y * x_dot) / (hi * hi)) ((hi * z_dot - z * hr) / (ti * ti)))
  end.

(** wmm/mod.rs:238-241 *)
Definition evaluate (m : model) (decimal_year : R) (point : geodetic_point) : outcome :=
  match coefficients_at m decimal_year with
  | None => Panic
  | Some co => evaluate_with_coefficients co point
  end.
