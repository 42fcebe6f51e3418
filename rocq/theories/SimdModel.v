(** Model of the SIMD kernels: crates/aether_core/src/math/arch/x86/matrix_simd.rs,
    x86/vector_simd.rs, arm/neon.rs and arm/m33_dsp.rs.  A register is the list of its
    lanes.  Loads and stores through raw pointers are bounds-checked here: [None] is an
    access outside the row, which in Rust is undefined behaviour.  The scalar operations
    are arbitrary, so the bit-for-bit statements cover f32 and f64. *)
From Coq Require Import QArith List Arith Bool.
From Verif Require Import Scalar LinModel.
Import ListNotations.
Local Open Scope nat_scope.

(** no counterpart: an out-of-range access of matrix_simd.rs:9-439 or neon.rs:12-366 ends the kernel *)
Definition bind {A B} (x : option A) (f : A -> option B) : option B :=
  match x with Some a => f a | None => None end.
Notation "x <- e ;; f" := (bind e (fun x => f)) (at level 61, e at next level, right associativity).
Notation "' p <- e ;; f" := (bind e (fun x => match x with p => f end))
  (at level 61, p pattern, e at next level, right associativity).

Section Simd.
Context {F : Type} (o : ops F).
Notation mat := (nat -> nat -> F).
Notation vec := (nat -> F).

(** Lanes: _mm256_loadu_pd, _mm_loadu_pd, _mm256_loadu_ps, _mm_loadu_ps, vld1q_f32,
    vld1q_f64, vld1_f32 and the matching stores differ only in the width. *)
Definition load (w off dim : nat) (row : vec) : option (list F) :=
  if off + w <=? dim then Some (map (fun l => row (off + l)) (seq 0 w)) else None.
(** the stores of matrix_simd.rs:9-439 and neon.rs:12-366 *)
Definition store (w off dim : nat) (row : vec) (v : list F) : option vec :=
  if off + w <=? dim
  then Some (fun c => if (off <=? c) && (c <? off + w) then nth (c - off) v (zero o) else row c)
  else None.
(** _mm256_set1_pd and the like, matrix_simd.rs:9-439 *)
Definition set1 (w : nat) (x : F) : list F := repeat x w.
(** lane-wise instructions of matrix_simd.rs:9-439 and neon.rs:12-366 *)
Fixpoint map2 (f : F -> F -> F) (x y : list F) : list F :=
  match x, y with a :: x', b :: y' => f a b :: map2 f x' y' | _, _ => [] end.
(** lane-wise instructions of matrix_simd.rs:9-439 *)
Fixpoint map3 (f : F -> F -> F -> F) (x y z : list F) : list F :=
  match x, y, z with a :: x', b :: y', c :: z' => f a b c :: map3 f x' y' z' | _, _, _ => [] end.
(** _mm256_mul_pd and the like, matrix_simd.rs:9-439 *)
Definition vmul := map2 (mul o).
(** _mm256_add_pd and the like, matrix_simd.rs:9-439 *)
Definition vadd := map2 (add o).
(** _mm256_fmadd_pd and the like, matrix_simd.rs:9-439 *)
Definition vfma (a b c : list F) := map3 (fma o) a b c.       (* _mm*_fmadd_p*: a*b + c *)
(* vfmaq_n: c + b*a fused; vmlaq_n: c + b*a with two roundings *)
(** neon.rs:107-213, 240-263, 285-307 *)
Definition vfmaq_n (c b : list F) (a : F) := map2 (fun x y => fma o y a x) c b.
(** neon.rs:216-237 *)
Definition vmlaq_n (c b : list F) (a : F) := map2 (fun x y => add o x (mul o y a)) c b.
(** the lane reads of matrix_simd.rs:9-305 and neon.rs:12-104 *)
Definition lane (v : list F) (n : nat) : F := nth n v (zero o).
(* vaddvq_f32 adds pairwise, vaddvq_f64 and vaddv_f32 add their two lanes *)
Definition vaddv4 (v : list F) : F := add o (add o (lane v 0) (lane v 1)) (add o (lane v 2) (lane v 3)).
(** neon.rs:20-26, 45-104 *)
Definition vaddv2 (v : list F) : F := add o (lane v 0) (lane v 1).

(** the row written by matrix_simd.rs:308-439 and neon.rs:107-213 *)
Definition set_row (m : mat) (i : nat) (row : vec) : mat := fun r c => if r =? i then row c else m r c.

(* the loop body shared by the four AVX and two NEON matrix kernels: w lanes at a time,
   then the scalar tail *)
(** matrix_simd.rs:308-439, neon.rs:107-213 *)
Definition row_update (w : nat) (vop : F -> list F -> list F -> list F)
  (P i : nat) (x : F) (b_row : vec) (out : mat) : option mat :=
  '(j, out) <- while_ P (fun '(j, _) => j + w <=? P)
    (fun '(j, out) =>
       c <- load w j P (out i) ;;
       b <- load w j P b_row ;;
       r <- store w j P (out i) (vop x c b) ;;
       Some (j + w, set_row out i r)) (0, out) ;;
  option_map snd (while_ P (fun '(j, _) => j <? P)
    (fun '(j, out) => Some (S j, upd2 out i j (add o (out i j) (mul o x (b_row j))))) (j, out)).

(** matrix_simd.rs:308-439, neon.rs:107-213 *)
Definition mul_matrix_lanes (w : nat) (vop : F -> list F -> list F -> list F)
  (M N P : nat) (a b : mat) : option mat :=
  forM 0 M (fun i out => forM 0 N (fun k out => row_update w vop P i (a i k) (b k) out) out) (zeros o).

(* matrix_simd.rs:307-339 (f64, 4 lanes) and 374-406 (f32, 8 lanes) *)
Definition mul_matrix_avx (w : nat) := mul_matrix_lanes w (fun x c b => vadd c (vmul (set1 w x) b)).
(* matrix_simd.rs:341-372 (f64) and 408-439 (f32) *)
Definition mul_matrix_avx_fma (w : nat) := mul_matrix_lanes w (fun x c b => vfma (set1 w x) b c).
(* neon.rs:183-213 *)
Definition mul_matrix_neon_f64 := mul_matrix_lanes 2 (fun x c b => vfmaq_n c b x).
(* neon.rs:106-181: special cases for P = 4, 6, 3, else the loop *)
Definition mul_matrix_neon_f32 (M N P : nat) (a b : mat) : option mat :=
  if P =? 4 then
    forM 0 M (fun i out => forM 0 N (fun k out =>
      c <- load 4 0 P (out i) ;;
      b <- load 4 0 P (b k) ;;
      r <- store 4 0 P (out i) (vfmaq_n c b (a i k)) ;;
      Some (set_row out i r)) out) (zeros o)
  else if P =? 6 then
    forM 0 M (fun i out => forM 0 N (fun k out =>
      let x := a i k in
      c <- load 4 0 P (out i) ;;
      b0123 <- load 4 0 P (b k) ;;
      r <- store 4 0 P (out i) (vfmaq_n c b0123 x) ;;
      let out := set_row out i r in
      let out := upd2 out i 4 (add o (out i 4) (mul o x (b k 4))) in
      Some (upd2 out i 5 (add o (out i 5) (mul o x (b k 5))))) out) (zeros o)
  else if P =? 3 then
    Some (for_ 0 M (fun i out => for_ 0 N (fun k out =>
      let x := a i k in
      let out := upd2 out i 0 (add o (out i 0) (mul o x (b k 0))) in
      let out := upd2 out i 1 (add o (out i 1) (mul o x (b k 1))) in
      upd2 out i 2 (add o (out i 2) (mul o x (b k 2)))) out) (zeros o))
  else mul_matrix_lanes 4 (fun x c b => vfmaq_n c b x) M N P a b.

(** Row-times-vector kernels.  [row_kernel] is the loop [for i in 0..M]. *)
Definition rows (M : nat) (row_kernel : vec -> option F) (a : mat) : option vec :=
  forM 0 M (fun i res => x <- row_kernel (a i) ;; Some (upd res i x)) (fun _ => zero o).

(** matrix_simd.rs:131-305: the lanes added from left to right *)
Definition sum4 (v : list F) : F := add o (add o (add o (lane v 0) (lane v 1)) (lane v 2)) (lane v 3).

(* matrix.rs:413-424, 600-611, m33_dsp.rs:4-33 *)
Definition vec4_scalar (v r : vec) : option F :=
  Some (add o (add o (add o (mul o (r 0) (v 0)) (mul o (r 1) (v 1))) (mul o (r 2) (v 2))) (mul o (r 3) (v 3))).
(* matrix.rs:329-341, 516-528 *)
Definition vec6_scalar (v r : vec) : option F :=
  Some (add o (add o (add o (add o (add o (mul o (r 0) (v 0)) (mul o (r 1) (v 1))) (mul o (r 2) (v 2)))
    (mul o (r 3) (v 3))) (mul o (r 4) (v 4))) (mul o (r 5) (v 5))).

(* matrix_simd.rs:8-36 *)
Definition vec6_avx_fma_f64 (v r : vec) : option F :=
  v0123 <- load 4 0 6 v ;; v45 <- load 2 4 6 v ;;
  r0123 <- load 4 0 6 r ;; r45 <- load 2 4 6 r ;;
  let p := vfma r0123 v0123 (set1 4 (zero o)) in
  let q := vmul r45 v45 in
  Some (add o (add o (sum4 p) (lane q 0)) (lane q 1)).
(* matrix_simd.rs:38-66 *)
Definition vec6_avx_f64 (v r : vec) : option F :=
  v0123 <- load 4 0 6 v ;; v45 <- load 2 4 6 v ;;
  r0123 <- load 4 0 6 r ;; r45 <- load 2 4 6 r ;;
  let p := vmul r0123 v0123 in
  let q := vmul r45 v45 in
  Some (add o (add o (sum4 p) (lane q 0)) (lane q 1)).
(* matrix_simd.rs:68-97 *)
Definition vec6_fma128_f64 (v r : vec) : option F :=
  v01 <- load 2 0 6 v ;; v23 <- load 2 2 6 v ;; v45 <- load 2 4 6 v ;;
  r01 <- load 2 0 6 r ;; r23 <- load 2 2 6 r ;; r45 <- load 2 4 6 r ;;
  let acc := set1 2 (zero o) in
  let acc := vfma r01 v01 acc in
  let acc := vfma r23 v23 acc in
  let acc := vfma r45 v45 acc in
  Some (add o (lane acc 0) (lane acc 1)).
(* matrix_simd.rs:99-129 *)
Definition vec6_sse2_f64 (v r : vec) : option F :=
  v01 <- load 2 0 6 v ;; v23 <- load 2 2 6 v ;; v45 <- load 2 4 6 v ;;
  r01 <- load 2 0 6 r ;; r23 <- load 2 2 6 r ;; r45 <- load 2 4 6 r ;;
  let s := vadd (vadd (vmul r01 v01) (vmul r23 v23)) (vmul r45 v45) in
  Some (add o (lane s 0) (lane s 1)).
(* matrix_simd.rs:130-146 (f64), 271-287 (f32); vector_simd.rs:8-16, 28-36 *)
Definition vec4_fma (v r : vec) : option F :=
  v' <- load 4 0 4 v ;; r' <- load 4 0 4 r ;;
  Some (sum4 (vfma r' v' (set1 4 (zero o)))).
(* matrix_simd.rs:148-164 (f64), 289-305 (f32); vector_simd.rs:18-26, 38-46 *)
Definition vec4_mul (v r : vec) : option F :=
  v' <- load 4 0 4 v ;; r' <- load 4 0 4 r ;;
  Some (sum4 (vmul r' v')).
(* matrix_simd.rs:166-194: eight lanes, the last two zero *)
Definition pad6 (x : vec) : list F := [x 0; x 1; x 2; x 3; x 4; x 5; zero o; zero o].
(** matrix_simd.rs:167-194 *)
Definition vec6_avx_fma_f32 (v r : vec) : option F :=
  let p := vfma (pad6 r) (pad6 v) (set1 8 (zero o)) in
  Some (add o (add o (sum4 p) (lane p 4)) (lane p 5)).
(* matrix_simd.rs:196-224 *)
Definition vec6_avx_f32 (v r : vec) : option F :=
  let p := vmul (pad6 r) (pad6 v) in
  Some (add o (add o (sum4 p) (lane p 4)) (lane p 5)).
(* matrix_simd.rs:226-247 *)
Definition vec6_fma128_f32 (v r : vec) : option F :=
  v0123 <- load 4 0 6 v ;; r0123 <- load 4 0 6 r ;;
  let acc := vfma r0123 v0123 (set1 4 (zero o)) in
  Some (add o (add o (sum4 acc) (mul o (r 4) (v 4))) (mul o (r 5) (v 5))).
(* matrix_simd.rs:249-269 *)
Definition vec6_sse_f32 (v r : vec) : option F :=
  v0123 <- load 4 0 6 v ;; r0123 <- load 4 0 6 r ;;
  let p := vmul r0123 v0123 in
  Some (add o (add o (sum4 p) (mul o (r 4) (v 4))) (mul o (r 5) (v 5))).
(* neon.rs:11-17, 28-42 *)
Definition vec4_neon_f32 (v r : vec) : option F :=
  v' <- load 4 0 4 v ;; r' <- load 4 0 4 r ;; Some (vaddv4 (vmul r' v')).
(* neon.rs:19-26, 44-62 *)
Definition vec4_neon_f64 (v r : vec) : option F :=
  v0 <- load 2 0 4 v ;; v1 <- load 2 2 4 v ;; r0 <- load 2 0 4 r ;; r1 <- load 2 2 4 r ;;
  Some (add o (vaddv2 (vmul r0 v0)) (vaddv2 (vmul r1 v1))).
(* neon.rs:64-80 *)
Definition vec6_neon_f32 (v r : vec) : option F :=
  v0123 <- load 4 0 6 v ;; v45 <- load 2 4 6 v ;; r0123 <- load 4 0 6 r ;; r45 <- load 2 4 6 r ;;
  Some (add o (vaddv4 (vmul r0123 v0123)) (vaddv2 (vmul r45 v45))).
(* neon.rs:82-105 *)
Definition vec6_neon_f64 (v r : vec) : option F :=
  v01 <- load 2 0 6 v ;; v23 <- load 2 2 6 v ;; v45 <- load 2 4 6 v ;;
  r01 <- load 2 0 6 r ;; r23 <- load 2 2 6 r ;; r45 <- load 2 4 6 r ;;
  Some (vaddv2 (vadd (vadd (vmul r01 v01) (vmul r23 v23)) (vmul r45 v45))).

(** Fixed-size NEON products. [acc_rows w off] accumulates lanes off..off+w of row i. *)
(** neon.rs:216-366 *)
Definition acc_lanes (vmac : list F -> list F -> F -> list F) (n w : nat)
  (ld : nat -> option (list F)) (a_row : vec) : option (list F) :=
  forM 0 n (fun k acc => b <- ld k ;; Some (vmac acc b (a_row k))) (set1 w (zero o)).
(* neon.rs:215-237 *)
Definition mul_mat3_neon_f32 (a b : mat) : option mat :=
  forM 0 3 (fun i out =>
    acc <- acc_lanes vmlaq_n 3 4 (fun k => Some [b k 0; b k 1; b k 2; zero o]) (a i) ;;
    Some (upd2 (upd2 (upd2 out i 0 (lane acc 0)) i 1 (lane acc 1)) i 2 (lane acc 2))) (zeros o).
(* neon.rs:239-263 *)
Definition mul_mat3_neon_f64 (a b : mat) : option mat :=
  forM 0 3 (fun i out =>
    acc01 <- acc_lanes vfmaq_n 3 2 (fun k => Some [b k 0; b k 1]) (a i) ;;
    acc2x <- acc_lanes vfmaq_n 3 2 (fun k => Some [b k 2; zero o]) (a i) ;;
    Some (upd2 (upd2 (upd2 out i 0 (lane acc01 0)) i 1 (lane acc01 1)) i 2 (lane acc2x 0))) (zeros o).
(* neon.rs:265-282 *)
Definition mul_mat4_neon_f32 (a b : mat) : option mat :=
  forM 0 4 (fun i out =>
    acc <- acc_lanes vmlaq_n 4 4 (fun k => load 4 0 4 (b k)) (a i) ;;
    r <- store 4 0 4 (out i) acc ;; Some (set_row out i r)) (zeros o).
(* neon.rs:284-308 *)
Definition mul_mat4_neon_f64 (a b : mat) : option mat :=
  forM 0 4 (fun i out =>
    acc01 <- acc_lanes vfmaq_n 4 2 (fun k => load 2 0 4 (b k)) (a i) ;;
    acc23 <- acc_lanes vfmaq_n 4 2 (fun k => load 2 2 4 (b k)) (a i) ;;
    r <- store 2 0 4 (out i) acc01 ;; r <- store 2 2 4 r acc23 ;; Some (set_row out i r)) (zeros o).
(* neon.rs:309-337 *)
Definition mul_mat6_neon_f32 (a b : mat) : option mat :=
  forM 0 6 (fun i out =>
    acc0123 <- acc_lanes vmlaq_n 6 4 (fun k => load 4 0 6 (b k)) (a i) ;;
    acc45xx <- acc_lanes vmlaq_n 6 4 (fun k => Some [b k 4; b k 5; zero o; zero o]) (a i) ;;
    r <- store 4 0 6 (out i) acc0123 ;;
    let out := set_row out i r in
    Some (upd2 (upd2 out i 4 (lane acc45xx 0)) i 5 (lane acc45xx 1))) (zeros o).
(* neon.rs:339-366 *)
Definition mul_mat6_neon_f64 (a b : mat) : option mat :=
  forM 0 6 (fun i out =>
    acc01 <- acc_lanes vfmaq_n 6 2 (fun k => load 2 0 6 (b k)) (a i) ;;
    acc23 <- acc_lanes vfmaq_n 6 2 (fun k => load 2 2 6 (b k)) (a i) ;;
    acc45 <- acc_lanes vfmaq_n 6 2 (fun k => load 2 4 6 (b k)) (a i) ;;
    r <- store 2 0 6 (out i) acc01 ;; r <- store 2 2 6 r acc23 ;; r <- store 2 4 6 r acc45 ;;
    Some (set_row out i r)) (zeros o).
End Simd.
