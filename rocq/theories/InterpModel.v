(** Model of crates/aether_interp/src (lerp.rs, polynomial.rs, spline.rs).

    Simplification, everywhere in this file: f64 arithmetic is exact real arithmetic.
    [f64::EPSILON] is its real value 2^-52.  Rust's [Vector<f64, N>] is a function of the
    in-range indices. *)
From Coq Require Import Reals List Arith Bool.
From Verif Require Import Scalar Floats.
Import ListNotations.
Open Scope R_scope.

(** core::f64::EPSILON *)
Definition eps : R := / 2 ^ 52.

(** lerp.rs:8-13, at scalar type f64 *)
Definition lerp (a b t : R) : R := a + (b - a) * t.

(** lerp.rs:8-13, at scalar type f64, every operation rounded to binary64 *)
Definition lerp_f64 (a b t : R) : R := f64 (a + f64 (f64 (b - a) * t)).

(** lerp.rs:8-13, at T = Vector<f64, N>: the same expression with the vector operators of
    crates/aether_core/src/math/vector.rs, component by component *)
Definition vlerp (a b : nat -> R) (t : R) : nat -> R := fun i => a i + (b i - a i) * t.

(** lerp.rs:17-24 *)
Definition inverse_lerp (a b value : R) : R :=
  let denom := b - a in
  if Rleb (Rabs denom) eps then 0 else (value - a) / denom.

(** lerp.rs:28-30 *)
Definition remap (value in_a in_b out_a out_b : R) : R :=
  lerp out_a out_b (inverse_lerp in_a in_b value).

(** polynomial.rs:5-9 *)
Record poly_interp (n : nat) := mkPoly { p_xs : nat -> R; p_ys : nat -> R; p_w : nat -> R }.
Arguments mkPoly {n}. Arguments p_xs {n}. Arguments p_ys {n}. Arguments p_w {n}.

(** polynomial.rs:13-33; [None] is [Err] *)
Definition poly_new (n : nat) (xs ys : nat -> R) : option (poly_interp n) :=
  if (n =? 0)%nat then None
  else
    match
      forM 0 n (fun j w =>
        forM 0 n (fun k w =>
          if (j =? k)%nat then Some w
          else
            let diff := xs j - xs k in
            if Rleb (Rabs diff) eps then None
            else Some (upd w j (w j / diff))) w) (fun _ => 1)
    with
    | Some w => Some (mkPoly xs ys w)
    | None => None
    end.

(** polynomial.rs:37-41: the first node within EPSILON of x, if any *)
Definition near_node {n} (p : poly_interp n) (x : R) : option nat :=
  find (fun i => Rleb (Rabs (x - p_xs p i)) eps) (seq 0 n).

(** polynomial.rs:36-51; the loop of lines 37-41 returns at the first node that is close
    enough, which is [near_node] *)
Definition poly_eval {n} (p : poly_interp n) (x : R) : R :=
  match near_node p x with
  | Some i => p_ys p i
  | None =>
      let s := for_ 0 n (fun i (s : R * R) =>
                 let term := p_w p i / (x - p_xs p i) in
                 (fst s + term * p_ys p i, snd s + term)) (0, 0) in
      fst s / snd s
  end.

(** polynomial.rs:53-55 *)
Definition poly_degree {n} (p : poly_interp n) : nat := n - 1.

(** spline.rs:5-9 *)
Record spline (n : nat) := mkSpline { s_xs : nat -> R; s_ys : nat -> R; s_m : nat -> R }.
Arguments mkSpline {n}. Arguments s_xs {n}. Arguments s_ys {n}. Arguments s_m {n}.

(** spline.rs:26-34, one pass of the forward sweep; the state is (second_derivatives, u) *)
Definition sweep (xs ys : nat -> R) (i : nat) (s : (nat -> R) * (nat -> R)) :=
  let '(sd, u) := s in
  let sig := (xs i - xs (i - 1)%nat) / (xs (i + 1)%nat - xs (i - 1)%nat) in
  let p := sig * sd (i - 1)%nat + 2 in
  let sd := upd sd i ((sig - 1) / p) in
  let ddydx := (ys (i + 1)%nat - ys i) / (xs (i + 1)%nat - xs i)
               - (ys i - ys (i - 1)%nat) / (xs i - xs (i - 1)%nat) in
  let u := upd u i ((6 * ddydx / (xs (i + 1)%nat - xs (i - 1)%nat) - sig * u (i - 1)%nat) / p) in
  (sd, u).

(** spline.rs:36-38: [for k in (0..N-1).rev()] *)
Definition back (n : nat) (sd u : nat -> R) : nat -> R :=
  fold_left (fun sd k => upd sd k (sd k * sd (k + 1)%nat + u k)) (rev (seq 0 (n - 1))) sd.

(** spline.rs:13-45; [None] is [Err] *)
Definition spline_new (n : nat) (xs ys : nat -> R) : option (spline n) :=
  if (n <? 2)%nat then None
  else
    match forM 0 (n - 1) (fun i (_ : unit) => if Rleb (xs (i + 1)%nat) (xs i) then None else Some tt) tt with
    | None => None
    | Some _ =>
        let '(sd, u) := for_ 1 (n - 1) (sweep xs ys) (fun _ => 0, fun _ => 0) in
        Some (mkSpline xs ys (back n sd u))
    end.

(** spline.rs:70-89; the [while] gets n rounds of fuel and [None] would mean it ran longer *)
Definition segment_index {n} (s : spline n) (x : R) : option nat :=
  if Rleb x (s_xs s 0%nat) then Some 0%nat
  else if Rleb (s_xs s (n - 1)%nat) x then Some (n - 2)%nat
  else
    option_map fst
      (while_ n (fun lh : nat * nat => (fst lh + 1 <? snd lh)%nat)
        (fun lh =>
           let mid := ((fst lh + snd lh) / 2)%nat in
           if Rleb (s_xs s mid) x then Some (mid, snd lh) else Some (fst lh, mid))
        (0%nat, (n - 1)%nat)).

(** spline.rs:51-63, the cubic of one segment *)
Definition segment_value {n} (s : spline n) (idx : nat) (x : R) : R :=
  let x0 := s_xs s idx in
  let x1 := s_xs s (idx + 1)%nat in
  let y0 := s_ys s idx in
  let y1 := s_ys s (idx + 1)%nat in
  let y2_0 := s_m s idx in
  let y2_1 := s_m s (idx + 1)%nat in
  let h := x1 - x0 in
  let a := (x1 - x) / h in
  let b := (x - x0) / h in
  a * y0 + b * y1 + ((a * a * a - a) * y2_0 + (b * b * b - b) * y2_1) * (h * h / 6).

(** spline.rs:49-64 *)
Definition spline_eval {n} (s : spline n) (x : R) : option R :=
  option_map (fun idx => segment_value s idx x) (segment_index s x).

(** spline.rs:66-68 *)
Definition sample_count {n} (s : spline n) : nat := n.
