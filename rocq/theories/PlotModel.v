(** Axis ranges of the static plots: crates/aether_viz/src/lib.rs.  The drawing itself is done by the plotters crate and
    is not modelled; what is modelled is what is handed to it: the points and the two axis ranges. *)
From Coq Require Import ZArith QArith List Bool Arith.
From Flocq Require Import Core BinarySingleNaN.
From Verif Require Import Scalar F64 TankModel AssertModel.
Import ListNotations.

(** f64::min and f64::max: a NaN operand is ignored *)
Definition min64 (x y : f64) : f64 := if is_nan x || Bltb y x then y else x.
(** f64::max, lib.rs:201-212 *)
Definition max64 (x y : f64) : f64 := fmax f64_ops x y.
(** f64::INFINITY, lib.rs:201-204 *)
Definition pinf : f64 := B754_infinity false.
(** f64::NEG_INFINITY, lib.rs:201-204 *)
Definition ninf : f64 := B754_infinity true.
(** the literal 1.0 of lib.rs:214-220 *)
Definition f64_1 : f64 := one f64_ops.
(** the literal 0.03 of lib.rs:214-220 *)
Definition pad_factor : f64 := f64_lit (3 # 100).

(** lib.rs:170-192: the points of one series that are drawn *)
Definition finite_points (xs ys : list f64) : list (f64 * f64) :=
  filter (fun '(x, y) => is_finite x && is_finite y) (combine xs ys).
(** lib.rs:201-212: least and greatest coordinate *)
Definition bounds (l : list f64) : f64 * f64 :=
  fold_left (fun '(lo, hi) x => (min64 lo x, max64 hi x)) l (pinf, ninf).
(** lib.rs:214-220: widen a degenerate range, then pad it by 3 per cent on each side *)
Definition range (b : f64 * f64) : f64 * f64 :=
  let '(lo, hi) := b in
  let hi := if Beqb lo hi then f64_add lo f64_1 else hi in
  let pad := f64_mul (Babs (f64_sub hi lo)) pad_factor in
  (f64_sub lo pad, f64_add hi pad).

(** the result of lib.rs:154-354 *)
Inductive plot_answer := PlotPanic | NoFinitePoints | Drawn (points : list (list (f64 * f64))) (x_range y_range : f64 * f64).
(** lib.rs:154-220, plot_series up to the drawing calls; a series is its xs and ys *)
Definition plot_series (series : list (list f64 * list f64)) : plot_answer :=
  match series with
  | [] => PlotPanic
  | _ =>
    if forallb (fun '(xs, ys) => (length xs =? length ys)%nat) series then
      let prepared := filter (fun p => negb (length p =? 0)%nat) (map (fun '(xs, ys) => finite_points xs ys) series) in
      match prepared with
      | [] => NoFinitePoints
      | _ => let pts := concat prepared in Drawn prepared (range (bounds (map fst pts))) (range (bounds (map snd pts)))
      end
    else PlotPanic
  end.
(** lib.rs:356-367, plot *)
Definition plot (xs ys : list f64) : plot_answer := plot_series [(xs, ys)].

(** lib.rs:80-105, plot_error_on_grid up to the drawing calls: the points and the y range (the x range is a..b) *)
Definition plot_error_on_grid (f_approx f_true : f64 -> f64) (a b : f64) (samples : nat) : list (f64 * f64) * (f64 * f64) :=
  let pts := map (fun i => let x := grid_point a b samples i in (x, f64_sub (f_approx x) (f_true x))) (seq 0 (samples + 1)) in
  let '(min_e, max_e) := bounds (map snd pts) in
  let max_e := if Beqb min_e max_e then f64_add min_e f64_1 else max_e in
  (pts, (min_e, max_e)).
