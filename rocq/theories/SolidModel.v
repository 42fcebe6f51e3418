(** Model of crates/aether_shapes (attributes.rs, sphere.rs, cylinder.rs, prism.rs) and of
    crates/aether_core/src/reference_frame/pose.rs.

    Simplification: scalars are exact reals. *)
From Coq Require Import Reals.
From Verif Require Import Scalar LinModel Geo3.
Open Scope R_scope.

(** attributes.rs:10-14: the Solid trait, as its two methods *)
Record solid := mkSolid { volume : R; inertia_principal_cm : R -> V3 }.

(** the constant of cylinder.rs:19-38 and prism.rs:21-42 *)
Definition twelve : R := 1 + 1 + 1 + 1 + 1 + 1 + 1 + 1 + 1 + 1 + 1 + 1.
(** sphere.rs:16-28 *)
Definition sphere (r : R) : solid :=
  mkSolid ((1 + 1 + 1 + 1) / (1 + 1 + 1) * PI * r * r * r)
          (fun m => let i := (1 + 1) / (1 + 1 + 1 + 1 + 1) * m * r * r in mkV i i i).
(** cylinder.rs:16-38 *)
Definition cylinder (r h : R) : solid :=
  mkSolid (PI * r * r * h)
          (fun m => let half := 1 / (1 + 1) in
                    let r2 := r * r in let h2 := h * h in
                    let iz := m * r2 * half in
                    let ixy := m * (1 + 1 + 1) * r2 + m * h2 in
                    mkV (ixy / twelve) (ixy / twelve) iz).
(** prism.rs:18-42 *)
Definition prism (a b c : R) : solid :=
  mkSolid (a * b * c)
          (fun m => mkV (m * (b * b + c * c) / twelve) (m * (a * a + c * c) / twelve) (m * (a * a + b * b) / twelve)).

(** pose.rs:6-12 and attributes.rs:17-31; the matrix is whatever the caller put in the DCM *)
Record mass_model := mkMM { mm_solid : solid; mm_density : R; mm_R : M3; mm_r : V3 }.
(** pose.rs:15-20 *)
Definition pose_identity (s : solid) (d : R) : mass_model := mkMM s d Id3 V0.

(** attributes.rs:35-41 *)
Record mass_props := mkMP { mp_volume : R; mp_density : R; mp_mass : R; mp_com : V3; mp_inertia : M3 }.

(** the library's 3x3 operations on these types *)
Definition m_mul (a b : M3) : M3 := mof (mul_small Rops 3 3 3 (mfun a) (mfun b)).
(** math/matrix.rs:963-971 *)
Definition m_tr (a : M3) : M3 := mof (transpose Rops 3 3 (mfun a)).
(** math/matrix.rs:40-52 *)
Definition m_add (a b : M3) : M3 := mof (mat_add Rops 3 3 (mfun a) (mfun b)).
(** math/matrix.rs:55-67 *)
Definition m_sub (a b : M3) : M3 := mof (mat_sub Rops 3 3 (mfun a) (mfun b)).
(** math/matrix.rs:100-112 *)
Definition m_scale (a : M3) (s : R) : M3 := mof (mat_scale Rops 3 3 (mfun a) s).
(** math/matrix.rs:221-227 *)
Definition m_diag (v : V3) : M3 := mof (diag Rops 3 (vfun v)).
(** math/matrix.rs:211-217 *)
Definition m_eye : M3 := mof (identity Rops 3).
(** math/matrix.rs:194-198 *)
Definition m_zeros : M3 := mof (zeros Rops).
(** math/matrix.rs:618-626 *)
Definition m_outer (u v : V3) : M3 := mof (outer Rops 3 3 (vfun u) (vfun v)).
(** math/vector.rs:276-278 *)
Definition v_dot (u v : V3) : R := dot Rops 3 (vfun u) (vfun v).
(** math/vector.rs:191-203 *)
Definition v_scale (u : V3) (s : R) : V3 := vof (vec_scale Rops 3 (vfun u) s).
(** math/vector.rs:206-218 *)
Definition v_div (u : V3) (s : R) : V3 := vof (vec_div Rops 3 (vfun u) s).
(** math/vector.rs:45-54 *)
Definition v_add (u v : V3) : V3 := vof (vec_add Rops 3 (vfun u) (vfun v)).
(** math/vector.rs:105-114 *)
Definition v_sub (u v : V3) : V3 := vof (vec_sub Rops 3 (vfun u) (vfun v)).

(** attributes.rs:150-157 *)
Definition parallel_axis (i_cm : M3) (m : R) (r : V3) : M3 :=
  let r2 := v_dot r r in
  m_add i_cm (m_scale (m_sub (m_scale m_eye r2) (m_outer r r)) m).

(** attributes.rs:43-94 (operator -) and 187-231 (subtract_with): the same statements, None
    standing for Option::None *)
Definition mm_sub (outer inner : mass_model) : option mass_props :=
  let v_o := volume (mm_solid outer) in let v_i := volume (mm_solid inner) in
  if orb (Rleb v_o 0) (Rleb v_i 0) then None else
  let m_o := mm_density outer * v_o in let m_i := mm_density inner * v_i in
  let Io_prin := m_diag (inertia_principal_cm (mm_solid outer) m_o) in
  let Ii_prin := m_diag (inertia_principal_cm (mm_solid inner) m_i) in
  let Io_cm := m_mul (m_mul (mm_R outer) Io_prin) (m_tr (mm_R outer)) in
  let Ii_cm := m_mul (m_mul (mm_R inner) Ii_prin) (m_tr (mm_R inner)) in
  let Io_O := parallel_axis Io_cm m_o (mm_r outer) in
  let Ii_O := parallel_axis Ii_cm m_i (mm_r inner) in
  let mass := m_o - m_i in
  let volume := v_o - v_i in
  if orb (Rleb mass 0) (Rleb volume 0) then None else
  let density := mass / volume in
  let com := v_div (v_sub (v_scale (mm_r outer) m_o) (v_scale (mm_r inner) m_i)) mass in
  let I_O := m_sub Io_O Ii_O in
  let I_cm := m_sub I_O (parallel_axis m_zeros mass com) in
  Some (mkMP volume density mass com I_cm).

(** attributes.rs:96-148 (operator +) and 233-281 (add_with) *)
Definition mm_add (a b : mass_model) : option mass_props :=
  let v_a := volume (mm_solid a) in let v_b := volume (mm_solid b) in
  if orb (Rleb v_a 0) (Rleb v_b 0) then None else
  let m_a := mm_density a * v_a in let m_b := mm_density b * v_b in
  let Ia_prin := m_diag (inertia_principal_cm (mm_solid a) m_a) in
  let Ib_prin := m_diag (inertia_principal_cm (mm_solid b) m_b) in
  let Ia_cm := m_mul (m_mul (mm_R a) Ia_prin) (m_tr (mm_R a)) in
  let Ib_cm := m_mul (m_mul (mm_R b) Ib_prin) (m_tr (mm_R b)) in
  let Ia_O := parallel_axis Ia_cm m_a (mm_r a) in
  let Ib_O := parallel_axis Ib_cm m_b (mm_r b) in
  let mass := m_a + m_b in
  let volume := v_a + v_b in
  if orb (Rleb mass 0) (Rleb volume 0) then None else
  let density := mass / volume in
  let com := v_div (v_add (v_scale (mm_r a) m_a) (v_scale (mm_r b) m_b)) mass in
  let I_O := m_add Ia_O Ib_O in
  let I_cm := m_sub I_O (parallel_axis m_zeros mass com) in
  Some (mkMP volume density mass com I_cm).
