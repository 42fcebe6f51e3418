(** Specification for solids: volumes, centres of mass and moments of inertia as integrals. *)
From Coq Require Import Reals.
From Coquelicot Require Import Coquelicot.
From Verif Require Import Geo3.
Local Open Scope R_scope.

(** integral of f over a centred box, cylinder (axis z) and ball, in their usual coordinates *)
Definition box_int (a b c : R) (f : V3 -> R) : R :=
  RInt (fun x => RInt (fun y => RInt (fun z => f (mkV x y z)) (- (c / 2)) (c / 2)) (- (b / 2)) (b / 2)) (- (a / 2)) (a / 2).
Definition cyl_int (r h : R) (f : V3 -> R) : R :=
  RInt (fun z => RInt (fun s => RInt (fun t => f (mkV (s * cos t) (s * sin t) z) * s) 0 (2 * PI)) 0 r) (- (h / 2)) (h / 2).
Definition ball_int (r : R) (f : V3 -> R) : R :=
  RInt (fun s => RInt (fun th => RInt (fun ph =>
    f (mkV (s * sin th * cos ph) (s * sin th * sin ph) (s * cos th)) * (s * s * sin th)) 0 (2 * PI)) 0 PI) 0 r.

(** the point of the assembly where a body placed by (A, r) has its local point x *)
Definition place (A : M3) (r x : V3) : V3 := Vadd (App A x) r.
(** squared distance of q from the line through p along n, times |n|^2 *)
Definition dist2 (n p q : V3) : R := let w := Cross n (Vsub q p) in Dot w w.
(** moment of a symmetric tensor about the axis n, times |n|^2 *)
Definition moment (I : M3) (n : V3) : R := Dot n (App I n).
Definition symmetric (I : M3) : Prop := Tr I = I.

(** the three shapes the crate provides *)
Inductive shape := Ball (r : R) | Cyl (r h : R) | Box (a b c : R).
Definition shape_int (s : shape) : (V3 -> R) -> R :=
  match s with Ball r => ball_int r | Cyl r h => cyl_int r h | Box a b c => box_int a b c end.
