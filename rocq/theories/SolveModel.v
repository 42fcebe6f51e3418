(** Model of the dense solvers: crates/aether_core/src/numerical_methods/solvers/lu.rs and
    spd.rs, and determinant, inverse and inverse_gauss_jordan of math/matrix.rs.  Generic in
    the scalar operations. *)
From Coq Require Import ZArith QArith List Arith Bool.
From Verif Require Import Scalar LinModel.
Import ListNotations.
Local Open Scope nat_scope.

Section Solve.
Context {F : Type} (o : ops F).
Notation mat := (nat -> nat -> F).
Notation vec := (nat -> F).

(* lu.rs:22-27, matrix.rs:655-664, 1000-1008: the row with the largest |a[r][k]|, r >= k *)
Definition find_pivot (N k : nat) (a : mat) : nat * F :=
  for_ (S k) N (fun r '(p, pval) =>
    let v := absf o (a r k) in
    if ltb o pval v then (r, v) else (p, pval)) (k, absf o (a k k)).

(* lu.rs:32-36, matrix.rs:672-676, 1015-1023: swap rows k and p element by element *)
Definition swap_rows (N k p : nat) (a : mat) : mat :=
  for_ 0 N (fun c a => let t := a k c in upd2 (upd2 a k c (a p c)) p c t) a.

(** lu.rs:37 *)
Definition swap_nat (piv : nat -> nat) (k p : nat) : nat -> nat :=
  fun i => if i =? k then piv p else if i =? p then piv k else piv i.

(** LU *)
(** lu.rs:5-9 *)
Record lu_decomp := mkLU { lu : mat; piv : nat -> nat; sign : Z }.

(* lu.rs:41-50: divide column k by the pivot and update the trailing block *)
Definition lu_eliminate (N k : nat) (a : mat) : mat :=
  let pivot := a k k in
  for_ (S k) N (fun i a =>
    let a := upd2 a i k (div o (a i k) pivot) in
    let lik := a i k in
    for_ (S k) N (fun j a => upd2 a i j (sub o (a i j) (mul o lik (a k j)))) a) a.

(* lu.rs:20-51: one round of the main loop; eps is T::EPSILON *)
Definition lu_step (eps : F) (N k : nat) (d : lu_decomp) : option lu_decomp :=
  let '(p, pval) := find_pivot N k (lu d) in
  if leb o pval eps then None
  else
    let d := if p =? k then d
             else mkLU (swap_rows N k p (lu d)) (swap_nat (piv d) k p) (- sign d) in
    Some (mkLU (lu_eliminate N k (lu d)) (piv d) (sign d)).

(* lu.rs:14-54 *)
Definition lu_decompose (eps : F) (N : nat) (a : mat) : option lu_decomp :=
  forM 0 N (lu_step eps N) (mkLU a (fun i => i) 1).

(* lu.rs:67-74: forward substitution in place, unit diagonal *)
Definition forward_unit (N : nat) (l : mat) (x : vec) : vec :=
  for_ 0 N (fun i x =>
    upd x i (for_ 0 i (fun j s => sub o s (mul o (l i j) (x j))) (x i))) x.
(* lu.rs:76-84: backward substitution in place *)
Definition backward (N : nat) (u : mat) (x : vec) : vec :=
  for_ 0 N (fun i_rev x =>
    let i := N - 1 - i_rev in
    upd x i (div o (for_ (S i) N (fun j s => sub o s (mul o (u i j) (x j))) (x i)) (u i i))) x.
(* lu.rs:59-86 *)
Definition lu_solve (N : nat) (d : lu_decomp) (b : vec) : vec :=
  let x := for_ 0 N (fun i x => upd x i (b (piv d i))) (fun _ => zero o) in
  backward N (lu d) (forward_unit N (lu d) x).

(* lu.rs:89-127: all columns of a matrix at once *)
Definition lu_solve_multi (N K : nat) (d : lu_decomp) (b : mat) : mat :=
  let x := for_ 0 K (fun col x =>
    let tmp := for_ 0 N (fun i tmp => upd tmp i (x (piv d i) col)) (fun _ => zero o) in
    for_ 0 N (fun i x => upd2 x i col (tmp i)) x) b in
  let x := for_ 0 N (fun i x =>
    for_ 0 K (fun col x =>
      upd2 x i col (for_ 0 i (fun j s => sub o s (mul o (lu d i j) (x j col))) (x i col))) x) x in
  for_ 0 N (fun i_rev x =>
    let i := N - 1 - i_rev in
    for_ 0 K (fun col x =>
      upd2 x i col (div o (for_ (S i) N (fun j s => sub o s (mul o (lu d i j) (x j col))) (x i col))
                          (lu d i i))) x) x.

(* lu.rs:132-135 *)
Definition solve (eps : F) (N : nat) (a : mat) (b : vec) : option vec :=
  option_map (fun d => lu_solve N d b) (lu_decompose eps N a).
(** lu.rs:137-140 *)
Definition solve_multi (eps : F) (N K : nat) (a b : mat) : option mat :=
  option_map (fun d => lu_solve_multi N K d b) (lu_decompose eps N a).

(** Cholesky *)
(* spd.rs:16-27: entry (i, j) of L, j <= i *)
Definition chol_entry (a l : mat) (i j : nat) : option F :=
  let s := for_ 0 j (fun k s => sub o s (mul o (l i k) (l j k))) (a i j) in
  if i =? j then (if leb o s (zero o) then None else Some (sqrtf o s))
  else Some (div o s (l j j)).
(* spd.rs:11-34 *)
Definition cholesky_lower (N : nat) (a : mat) : option mat :=
  forM 0 N (fun i l =>
    match forM 0 (S i) (fun j l => option_map (upd2 l i j) (chol_entry a l i j)) l with
    | Some l => Some (for_ (S i) N (fun j l => upd2 l i j (zero o)) l)
    | None => None
    end) (zeros o).

(* spd.rs:42-50 *)
Definition forward (N : nat) (l : mat) (y : vec) : vec :=
  for_ 0 N (fun i y =>
    upd y i (div o (for_ 0 i (fun k s => sub o s (mul o (l i k) (y k))) (y i)) (l i i))) y.
(* spd.rs:52-62: backward substitution with the transpose of l *)
Definition backward_t (N : nat) (l : mat) (x : vec) : vec :=
  for_ 0 N (fun i_rev x =>
    let i := N - 1 - i_rev in
    upd x i (div o (for_ (S i) N (fun k s => sub o s (mul o (l k i) (x k))) (x i)) (l i i))) x.
(* spd.rs:38-63 *)
Definition chol_solve (N : nat) (l : mat) (b : vec) : vec := backward_t N l (forward N l b).
(** spd.rs:68-71 *)
Definition cholesky_solve (N : nat) (a : mat) (b : vec) : option vec :=
  option_map (fun l => chol_solve N l b) (cholesky_lower N a).

(** Determinant and inverses *)
(* matrix.rs:683-689 *)
Definition det_eliminate (N k : nat) (a : mat) : mat :=
  let pivot := a k k in
  for_ (S k) N (fun r a =>
    let f := div o (a r k) pivot in
    for_ (S k) N (fun c a => upd2 a r c (sub o (a r c) (mul o f (a k c)))) a) a.
(* matrix.rs:654-690: [None] is the early return of zero *)
Definition det_step (N k : nat) (st : mat * F) : option (mat * F) :=
  let '(a, det) := st in
  let '(p, pval) := find_pivot N k a in
  if leb o pval (eps12 o) then None
  else
    let '(a, det) := if p =? k then (a, det) else (swap_rows N k p a, neg o det) in
    let det := mul o det (a k k) in
    Some (det_eliminate N k a, det).
(* matrix.rs:647-693 *)
Definition determinant (N : nat) (a : mat) : F :=
  match forM 0 N (det_step N) (a, one o) with Some (_, det) => det | None => zero o end.

(* matrix.rs:699-725 *)
Definition inverse3 (m : mat) : option mat :=
  let det := determinant 3 m in
  if leb o (absf o det) (eps12 o) then None
  else
    let inv_det := div o (one o) det in
    let c x y z w := sub o (mul o x y) (mul o z w) in
    Some (fun i j => match i, j with
      | 0, 0 => mul o (c (m 1 1) (m 2 2) (m 1 2) (m 2 1)) inv_det
      | 0, 1 => mul o (neg o (c (m 0 1) (m 2 2) (m 0 2) (m 2 1))) inv_det
      | 0, _ => mul o (c (m 0 1) (m 1 2) (m 0 2) (m 1 1)) inv_det
      | 1, 0 => mul o (neg o (c (m 1 0) (m 2 2) (m 1 2) (m 2 0))) inv_det
      | 1, 1 => mul o (c (m 0 0) (m 2 2) (m 0 2) (m 2 0)) inv_det
      | 1, _ => mul o (neg o (c (m 0 0) (m 1 2) (m 1 0) (m 0 2))) inv_det
      | _, 0 => mul o (c (m 1 0) (m 2 1) (m 1 1) (m 2 0)) inv_det
      | _, 1 => mul o (neg o (c (m 0 0) (m 2 1) (m 0 1) (m 2 0))) inv_det
      | _, _ => mul o (c (m 0 0) (m 1 1) (m 0 1) (m 1 0)) inv_det
      end).

(* matrix.rs:1026-1030: scale row k; both matrices go through the same loop *)
Definition gj_scale (N k : nat) (a x : mat) : mat * mat :=
  let invd := div o (one o) (a k k) in
  for_ 0 N (fun c '(a, x) => (upd2 a k c (mul o (a k c) invd), upd2 x k c (mul o (x k c) invd))) (a, x).
(* matrix.rs:1033-1044 *)
Definition gj_eliminate (N k : nat) (a x : mat) : mat * mat :=
  for_ 0 N (fun r '(a, x) =>
    if r =? k then (a, x)
    else
      let f := a r k in
      if negb (eqb o f (zero o)) then
        for_ 0 N (fun c '(a, x) =>
          (upd2 a r c (sub o (a r c) (mul o f (a k c))), upd2 x r c (sub o (x r c) (mul o f (x k c))))) (a, x)
      else (a, x)) (a, x).
(* matrix.rs:998-1045 *)
Definition gj_step (N k : nat) (st : mat * mat) : option (mat * mat) :=
  let '(a, x) := st in
  let '(p, pval) := find_pivot N k a in
  if leb o pval (eps12 o) then None
  else
    let '(a, x) := if p =? k then (a, x) else (swap_rows N k p a, swap_rows N k p x) in
    let '(a, x) := gj_scale N k a x in
    Some (gj_eliminate N k a x).
(* matrix.rs:992-1047 *)
Definition inverse_gauss_jordan (N : nat) (a : mat) : option mat :=
  option_map snd (forM 0 N (gj_step N) (a, identity o N)).
End Solve.
