(** Model of crates/aether_interp/src (lerp.rs, polynomial.rs, spline.rs) with every operation left to the scalar type, so
    that rounding, NaN and infinities are included.  The crate uses it at f64.  [epsilon] is f64::EPSILON.  A
    [Vector<f64, N>] is a function of the in-range indices.  The version over the exact reals is in InterpModel. *)
From Coq Require Import ZArith QArith List Arith Bool.
From Verif Require Import Scalar.
Import ListNotations.
Open Scope nat_scope.

Section Interp.
Context {F : Type} (o : ops F) (epsilon : F).

(** lerp.rs:8-13, at a scalar type *)
Definition g_lerp (a b t : F) : F := add o a (mul o (sub o b a) t).

(** lerp.rs:17-24 *)
Definition g_inverse_lerp (a b value : F) : F :=
  let denom := sub o b a in
  if leb o (absf o denom) epsilon then zero o else div o (sub o value a) denom.

(** lerp.rs:28-30 *)
Definition g_remap (value in_a in_b out_a out_b : F) : F := g_lerp out_a out_b (g_inverse_lerp in_a in_b value).

(** polynomial.rs:5-9 *)
Record g_poly (n : nat) := mkGPoly { gp_xs : nat -> F; gp_ys : nat -> F; gp_w : nat -> F }.
Arguments mkGPoly {n}. Arguments gp_xs {n}. Arguments gp_ys {n}. Arguments gp_w {n}.

(** polynomial.rs:13-33; [None] is [Err] *)
Definition g_poly_new (n : nat) (xs ys : nat -> F) : option (g_poly n) :=
  if n =? 0 then None
  else
    match
      forM 0 n (fun j w =>
        forM 0 n (fun k w =>
          if j =? k then Some w
          else
            let diff := sub o (xs j) (xs k) in
            if leb o (absf o diff) epsilon then None
            else Some (upd w j (div o (w j) diff))) w) (fun _ => one o)
    with
    | Some w => Some (mkGPoly xs ys w)
    | None => None
    end.

(** polynomial.rs:37-41: the first node within EPSILON of x, if any *)
Definition g_near {n} (p : g_poly n) (x : F) : option nat :=
  find (fun i => leb o (absf o (sub o x (gp_xs p i))) epsilon) (seq 0 n).

(** polynomial.rs:36-51 *)
Definition g_poly_eval {n} (p : g_poly n) (x : F) : F :=
  match g_near p x with
  | Some i => gp_ys p i
  | None =>
      let s := for_ 0 n (fun i (s : F * F) =>
                 let term := div o (gp_w p i) (sub o x (gp_xs p i)) in
                 (add o (fst s) (mul o term (gp_ys p i)), add o (snd s) term)) (zero o, zero o) in
      div o (fst s) (snd s)
  end.

(** spline.rs:5-9 *)
Record g_spline (n : nat) := mkGSpline { gs_xs : nat -> F; gs_ys : nat -> F; gs_m : nat -> F }.
Arguments mkGSpline {n}. Arguments gs_xs {n}. Arguments gs_ys {n}. Arguments gs_m {n}.

(** spline.rs:26-34, one pass of the forward sweep; the state is (second_derivatives, u) *)
Definition g_sweep (xs ys : nat -> F) (i : nat) (s : (nat -> F) * (nat -> F)) :=
  let '(sd, u) := s in
  let sig := div o (sub o (xs i) (xs (i - 1))) (sub o (xs (i + 1)) (xs (i - 1))) in
  let p := add o (mul o sig (sd (i - 1))) (lit o 2) in
  let sd := upd sd i (div o (sub o sig (one o)) p) in
  let ddydx := sub o (div o (sub o (ys (i + 1)) (ys i)) (sub o (xs (i + 1)) (xs i)))
                     (div o (sub o (ys i) (ys (i - 1))) (sub o (xs i) (xs (i - 1)))) in
  let u := upd u i (div o (sub o (div o (mul o (lit o 6) ddydx) (sub o (xs (i + 1)) (xs (i - 1)))) (mul o sig (u (i - 1)))) p) in
  (sd, u).

(** spline.rs:36-38: [for k in (0..N-1).rev()] *)
Definition g_back (n : nat) (sd u : nat -> F) : nat -> F :=
  fold_left (fun sd k => upd sd k (add o (mul o (sd k) (sd (k + 1))) (u k))) (rev (seq 0 (n - 1))) sd.

(** spline.rs:13-45; [None] is [Err] *)
Definition g_spline_new (n : nat) (xs ys : nat -> F) : option (g_spline n) :=
  if n <? 2 then None
  else
    match forM 0 (n - 1) (fun i (_ : unit) => if leb o (xs (i + 1)) (xs i) then None else Some tt) tt with
    | None => None
    | Some _ =>
        let '(sd, u) := for_ 1 (n - 1) (g_sweep xs ys) (fun _ => zero o, fun _ => zero o) in
        Some (mkGSpline xs ys (g_back n sd u))
    end.

(** spline.rs:70-89; the [while] gets n rounds of fuel and [None] would mean it ran longer.  [x >= y] is [leb o y x]. *)
Definition g_segment {n} (s : g_spline n) (x : F) : option nat :=
  if leb o x (gs_xs s 0) then Some 0
  else if leb o (gs_xs s (n - 1)) x then Some (n - 2)
  else
    option_map fst
      (while_ n (fun lh : nat * nat => fst lh + 1 <? snd lh)
        (fun lh =>
           let mid := (fst lh + snd lh) / 2 in
           if leb o (gs_xs s mid) x then Some (mid, snd lh) else Some (fst lh, mid))
        (0, n - 1)).

(** spline.rs:51-63, the cubic of one segment *)
Definition g_cubic {n} (s : g_spline n) (idx : nat) (x : F) : F :=
  let x0 := gs_xs s idx in
  let x1 := gs_xs s (idx + 1) in
  let y0 := gs_ys s idx in
  let y1 := gs_ys s (idx + 1) in
  let y2_0 := gs_m s idx in
  let y2_1 := gs_m s (idx + 1) in
  let h := sub o x1 x0 in
  let a := div o (sub o x1 x) h in
  let b := div o (sub o x x0) h in
  add o (add o (mul o a y0) (mul o b y1))
    (mul o (add o (mul o (sub o (mul o (mul o a a) a) a) y2_0) (mul o (sub o (mul o (mul o b b) b) b) y2_1))
       (div o (mul o h h) (lit o 6))).

(** spline.rs:49-64 *)
Definition g_spline_eval {n} (s : g_spline n) (x : F) : option F :=
  option_map (fun idx => g_cubic s idx x) (g_segment s x).
End Interp.
Arguments mkGPoly {F n}. Arguments gp_xs {F n}. Arguments gp_ys {F n}. Arguments gp_w {F n}.
Arguments mkGSpline {F n}. Arguments gs_xs {F n}. Arguments gs_ys {F n}. Arguments gs_m {F n}.
