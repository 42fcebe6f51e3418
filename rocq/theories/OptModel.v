(** Model of crates/aether_opt/src/gradient_descent: basic.rs (deterministic descent with
    momentum, projection and Armijo backtracking), stochastic.rs (mini-batch descent with an
    explicit random generator) and stochastic_parallel.rs (the same with a pool of threads).
    Everything is written over an arbitrary scalar type [ops F], so the theorems that do not
    mention [Rops] also cover f32 and f64 with rounding, infinities and NaN.

    Simplifications: the objective and the gradient are functions (Rust's [Fn] closures could
    hide mutable state); the println of stochastic_parallel.rs:229 is dropped; iteration
    counters are natural numbers (a u32 counter below max_iters cannot overflow). *)
From Coq Require Import ZArith QArith NArith List Arith Bool.
From Verif Require Import Machine Scalar LinModel RandModel.
Import ListNotations.
Open Scope nat_scope.

(** ** The [for k in 0..max_iters] loop with its two early returns *)
Inductive verdict := StopBefore | StopAfter | Go.
(* basic.rs:181-260, stochastic.rs:192-244, stochastic_parallel.rs:235-331:
   [return (x, fx, k, true)], [return (x, fx, k + 1, true)], fall through, and
   [(x, fx, max_iters, false)] at the end.  [None]: the body did not finish. *)
Fixpoint opt_loop {S} (body : nat -> S -> option (S * verdict)) (left k : nat) (s : S)
  : option (S * nat * bool) :=
  match left with
  | 0 => Some (s, k, false)
  | Datatypes.S l =>
      match body k s with
      | None => None
      | Some (s', StopBefore) => Some (s', k, true)
      | Some (s', StopAfter) => Some (s', k + 1, true)
      | Some (s', Go) => opt_loop body l (k + 1) s'
      end
  end.

Section Opt.
Context {F : Type} (o : ops F) (n : nat).
Notation vec := (nat -> F).

(* [Vector::new([0.0; N])] *)
Definition vzero : vec := fun _ => zero o.

(** ** Box projection: basic.rs:131-147, stochastic.rs:120-136, stochastic_parallel.rs:163-178 *)
Definition clamp1 (lo hi xi : F) : F :=
  if ltb o xi lo then lo else if ltb o hi xi then hi else xi.
(** basic.rs:131-147, stochastic.rs:120-136, stochastic_parallel.rs:163-178 *)
Definition project (has_bounds : bool) (lo hi x : vec) : vec :=
  if has_bounds then for_ 0 n (fun i x => upd x i (clamp1 (lo i) (hi i) (x i))) x else x.

(* basic.rs:151-157, stochastic.rs:139-145, stochastic_parallel.rs:181-187 *)
Definition norm2 (v : vec) : F :=
  sqrtf o (for_ 0 n (fun i s => add o s (mul o (v i) (v i))) (zero o)).

(** ** basic.rs: GradientDescentGeneric *)
(* basic.rs:13-32 *)
Record gd := mkGd
  { gd_lr : F; gd_backtracking : bool; gd_c1 : F; gd_tau : F; gd_momentum : F;
    gd_tol_grad : F; gd_tol_step : F; gd_max_iters : nat;
    gd_has_bounds : bool; gd_min : vec; gd_max : vec }.

(* basic.rs:41-65; [ninf], [pinf] are F::NEG_INFINITY and F::INFINITY *)
Definition gd_new (ninf pinf : F) : gd :=
  mkGd (lit o (1 # 100)) true (lit o (1 # 10000)) (lit o (1 # 2)) (zero o)
    (lit o (1 # 1000000)) (lit o (1 # 1000000)) 10000 false (fun _ => ninf) (fun _ => pinf).
(* basic.rs:68-71 *)
Definition set_backtracking (b : bool) (c : gd) : gd :=
  mkGd (gd_lr c) b (gd_c1 c) (gd_tau c) (gd_momentum c) (gd_tol_grad c) (gd_tol_step c)
    (gd_max_iters c) (gd_has_bounds c) (gd_min c) (gd_max c).
(* basic.rs:72-82 *)
Definition set_armijo (c1 tau : F) (c : gd) : gd :=
  mkGd (gd_lr c) (gd_backtracking c) c1
    (if leb o tau (zero o) then lit o (1 # 2) else if leb o (one o) tau then lit o (9 # 10) else tau)
    (gd_momentum c) (gd_tol_grad c) (gd_tol_step c)
    (gd_max_iters c) (gd_has_bounds c) (gd_min c) (gd_max c).
(* basic.rs:83-86 *)
Definition set_learning_rate (lr : F) (c : gd) : gd :=
  mkGd (if leb o lr (zero o) then zero o else lr) (gd_backtracking c) (gd_c1 c) (gd_tau c)
    (gd_momentum c) (gd_tol_grad c) (gd_tol_step c)
    (gd_max_iters c) (gd_has_bounds c) (gd_min c) (gd_max c).
(* basic.rs:87-97 *)
Definition set_momentum (mu : F) (c : gd) : gd :=
  let cap := lit o (999999 # 1000000) in
  mkGd (gd_lr c) (gd_backtracking c) (gd_c1 c) (gd_tau c)
    (if ltb o mu (zero o) then zero o else if ltb o cap mu then cap else mu)
    (gd_tol_grad c) (gd_tol_step c) (gd_max_iters c) (gd_has_bounds c) (gd_min c) (gd_max c).
(* basic.rs:98-110 *)
Definition set_tolerances (tg ts : F) (c : gd) : gd :=
  mkGd (gd_lr c) (gd_backtracking c) (gd_c1 c) (gd_tau c) (gd_momentum c)
    (if leb o tg (zero o) then zero o else tg) (if leb o ts (zero o) then zero o else ts)
    (gd_max_iters c) (gd_has_bounds c) (gd_min c) (gd_max c).
(* basic.rs:111-114 *)
Definition set_max_iters (m : nat) (c : gd) : gd :=
  mkGd (gd_lr c) (gd_backtracking c) (gd_c1 c) (gd_tau c) (gd_momentum c)
    (gd_tol_grad c) (gd_tol_step c) m (gd_has_bounds c) (gd_min c) (gd_max c).
(* basic.rs:117-122 *)
Definition set_bounds (lo hi : vec) (c : gd) : gd :=
  mkGd (gd_lr c) (gd_backtracking c) (gd_c1 c) (gd_tau c) (gd_momentum c)
    (gd_tol_grad c) (gd_tol_step c) (gd_max_iters c) true lo hi.
(* basic.rs:124-127 *)
Definition clear_bounds (c : gd) : gd :=
  mkGd (gd_lr c) (gd_backtracking c) (gd_c1 c) (gd_tau c) (gd_momentum c)
    (gd_tol_grad c) (gd_tol_step c) (gd_max_iters c) false (gd_min c) (gd_max c).

(** basic.rs:131-147 *)
Definition gd_project (c : gd) (x : vec) : vec :=
  project (gd_has_bounds c) (gd_min c) (gd_max c) x.

(* basic.rs:191-194 *)
Definition direction (c : gd) (grad v : vec) : vec :=
  vfill n (fun i => add o (neg o (grad i)) (mul o (gd_momentum c) (v i))) vzero.
(* basic.rs:202-213: the direction used by the line search and its slope *)
Definition descent_pair (c : gd) (grad v : vec) : vec * F :=
  let d := direction c grad v in
  let gd := for_ 0 n (fun i s => add o s (mul o (grad i) (d i))) (zero o) in
  if leb o (zero o) gd
  then (vfill n (fun i => neg o (grad i)) d, mul o (neg o (norm2 grad)) (norm2 grad))
  else (d, gd).
(* basic.rs:216-220 *)
Definition trial_point (c : gd) (x d : vec) (step : F) : vec :=
  gd_project c (vfill n (fun i => add o (x i) (mul o step (d i))) x).
Definition tiny_step : F := lit o (1 # 100000000000000000000).    (* 1e-20 *)
(* basic.rs:215-237: the unbounded loop; [None] when [fuel] turns do not end it *)
Fixpoint line_search (c : gd) (f : vec -> F) (x : vec) (fx : F) (d : vec) (slope : F)
    (fuel : nat) (step : F) : option (vec * F) :=
  match fuel with
  | 0 => None
  | Datatypes.S fuel =>
      let trial := trial_point c x d step in
      let f_trial := f trial in
      let rhs := add o fx (mul o (mul o (gd_c1 c) step) slope) in
      if leb o f_trial rhs then Some (trial, f_trial)
      else
        let step := mul o step (gd_tau c) in
        if leb o step tiny_step then Some (trial, f_trial)
        else line_search c f x fx d slope fuel step
  end.

(* the mutable state of minimize: x, v, fx *)
(** basic.rs:176-180: the variables of minimize *)
Record gd_state := mkSt { st_x : vec; st_v : vec; st_f : F }.

(* basic.rs:181-257: one turn of the main loop *)
Definition gd_body (c : gd) (f : vec -> F) (g : vec -> vec) (fuel : nat) (s : gd_state)
  : option (gd_state * verdict) :=
  let x := st_x s in
  let grad := g x in
  if leb o (norm2 grad) (gd_tol_grad c) then Some (s, StopBefore)
  else
    let next :=
      if gd_backtracking c then
        let '(d, slope) := descent_pair c grad (st_v s) in
        line_search c f x (st_f s) d slope fuel (gd_lr c)
      else
        let d := direction c grad (st_v s) in
        let x' := gd_project c (vfill n (fun i => add o (x i) (mul o (gd_lr c) (d i))) x) in
        Some (x', f x') in
    match next with
    | None => None
    | Some (x', fx') =>
        let v' := vfill n (fun i => sub o (x' i) (x i)) (st_v s) in
        Some (mkSt x' v' fx', if leb o (norm2 v') (gd_tol_step c) then StopAfter else Go)
    end.

(* basic.rs:165-261 minimize: (x, f, iterations, converged) *)
Definition minimize (c : gd) (f : vec -> F) (g : vec -> vec) (fuel : nat) (x0 : vec)
  : option (vec * F * nat * bool) :=
  match opt_loop (fun _ => gd_body c f g fuel) (gd_max_iters c) 0 (mkSt x0 vzero (f x0)) with
  | Some (s, k, ok) => Some (st_x s, st_f s, k, ok)
  | None => None
  end.

(** ** stochastic.rs: GDStochastic, and the part shared with stochastic_parallel.rs *)
(* stochastic.rs:11-38 and stochastic_parallel.rs:21-44; [tol_f_guarded] tells the parallel
   test [tol_f > 0 && fx <= tol_f] (stochastic_parallel.rs:301) from the sequential one
   [fx <= tol_f] (stochastic.rs:220), and [bias] is use_bias_corrected_ema (always on in the
   parallel version). *)
Record sgd := mkSgd
  { sg_lr0 : F; sg_decay : F; sg_momentum : F; sg_batch : nat; sg_beta : F;
    sg_tol_ema : F; sg_tol_step : F; sg_tol_f : F; sg_tol_f_guarded : bool;
    sg_min_iters : nat; sg_max_iters : nat; sg_bias : bool;
    sg_has_bounds : bool; sg_min : vec; sg_max : vec }.

(* stochastic.rs:48-66 (the generator's seed is passed separately) *)
Definition sgd_new (ninf pinf : F) : sgd :=
  mkSgd (lit o (1 # 100)) (lit o (1 # 1000)) (zero o) 1 (lit o (9 # 10))
    (lit o (1 # 10000)) (lit o (1 # 100000000)) (zero o) false 0 100000 true
    false (fun _ => ninf) (fun _ => pinf).
(* stochastic_parallel.rs:47-75 (seed and thread count are passed separately) *)
Definition psgd_new (ninf pinf : F) : sgd :=
  mkSgd (lit o (1 # 100)) (lit o (1 # 1000)) (zero o) 32 (lit o (95 # 100))
    (lit o (1 # 10000)) (lit o (1 # 100000000)) (zero o) true 0 100000 true
    false (fun _ => ninf) (fun _ => pinf).
(* stochastic.rs:106-111, stochastic_parallel.rs:142-147 *)
Definition sgd_set_bounds (lo hi : vec) (c : sgd) : sgd :=
  mkSgd (sg_lr0 c) (sg_decay c) (sg_momentum c) (sg_batch c) (sg_beta c) (sg_tol_ema c)
    (sg_tol_step c) (sg_tol_f c) (sg_tol_f_guarded c) (sg_min_iters c) (sg_max_iters c)
    (sg_bias c) true lo hi.
(* stochastic.rs:101-104, stochastic_parallel.rs:136-139 *)
Definition sgd_set_max_iters (m : nat) (c : sgd) : sgd :=
  mkSgd (sg_lr0 c) (sg_decay c) (sg_momentum c) (sg_batch c) (sg_beta c) (sg_tol_ema c)
    (sg_tol_step c) (sg_tol_f c) (sg_tol_f_guarded c) (sg_min_iters c) m
    (sg_bias c) (sg_has_bounds c) (sg_min c) (sg_max c).

(* [x as f64] / F::from_u32 of a counter *)
Definition of_nat (k : nat) : F := lit o (inject_Z (Z.of_nat k)).
(* stochastic.rs:148-150, stochastic_parallel.rs:190-195 *)
Definition lr_at (c : sgd) (k : nat) : F :=
  div o (sg_lr0 c) (add o (one o) (mul o (sg_decay c) (of_nat k))).

(* x, v, fx, ema_g and the generator *)
(** stochastic.rs:188-190, stochastic_parallel.rs:231-233: the variables of minimize *)
Record sgd_state := mkSs { ss_x : vec; ss_v : vec; ss_f : F; ss_ema : F; ss_rng : N }.

(* stochastic.rs:212-217, stochastic_parallel.rs:295-298; [powi] is f64::powi, whose rounding
   Rust does not specify; the exponent is [(k as i32) + 1] *)
Definition ema_hat (powi : F -> Z -> F) (c : sgd) (k : nat) (ema : F) : F :=
  if sg_bias c then div o ema (sub o (one o) (powi (sg_beta c) (w32 (w32 (Z.of_nat k) + 1)))) else ema.

(* stochastic.rs:207-242, stochastic_parallel.rs:291-327: everything after the mini-batch
   gradient [g] has been computed; [rng'] is the generator after the samples *)
Definition sgd_after_grad (powi : F -> Z -> F) (c : sgd) (f : vec -> F) (k : nat)
    (s : sgd_state) (g : vec) (rng' : N) : sgd_state * verdict :=
  let x := ss_x s in
  let gnorm := norm2 g in
  let ema := add o (mul o (sg_beta c) (ss_ema s)) (mul o (sub o (one o) (sg_beta c)) gnorm) in
  let hat := ema_hat powi c k ema in
  if (sg_min_iters c <=? k) &&
     (leb o hat (sg_tol_ema c) ||
      ((negb (sg_tol_f_guarded c) || ltb o (zero o) (sg_tol_f c)) && leb o (ss_f s) (sg_tol_f c)))
  then (mkSs x (ss_v s) (ss_f s) ema rng', StopBefore)
  else
    let alpha := lr_at c k in
    let x1 := vfill n (fun i => add o (x i)
                (mul o alpha (add o (neg o (g i)) (mul o (sg_momentum c) (ss_v s i))))) x in
    let x' := project (sg_has_bounds c) (sg_min c) (sg_max c) x1 in
    let v' := vfill n (fun i => sub o (x' i) (x i)) (ss_v s) in
    (mkSs x' v' (f x') ema rng',
     if (sg_min_iters c <=? k) && leb o (norm2 v') (sg_tol_step c) then StopAfter else Go).

(* stochastic.rs:196-201, stochastic_parallel.rs:257-262: [count] samples, summed in order *)
Definition accumulate (sample : vec -> N -> vec * N) (x : vec) (count : nat) (rng : N) : vec * N :=
  for_ 0 count (fun _ a => let '(gi, r) := sample x (snd a) in
                           (vfill n (fun i => add o (fst a i) (gi i)) (fst a), r))
       (vzero, rng).

(* stochastic.rs:195-205 *)
Definition batch_grad (c : sgd) (sample : vec -> N -> vec * N) (x : vec) (rng : N) : vec * N :=
  let bs := Nat.max (sg_batch c) 1 in
  let '(g, r) := accumulate sample x bs rng in
  let inv_bs := div o (one o) (of_nat bs) in
  (vfill n (fun i => mul o (g i) inv_bs) g, r).

(* stochastic.rs:178-245 minimize; also returns the generator left in self.rng *)
Definition sgd_minimize (powi : F -> Z -> F) (c : sgd) (f : vec -> F)
    (sample : vec -> N -> vec * N) (seed : N) (x0 : vec) : option (vec * F * nat * bool * N) :=
  match opt_loop (fun k s => let '(g, r) := batch_grad c sample (ss_x s) (ss_rng s) in
                             Some (sgd_after_grad powi c f k s g r))
          (sg_max_iters c) 0 (mkSs x0 vzero (f x0) (zero o) (rng_new seed)) with
  | Some (s, k, ok) => Some (ss_x s, ss_f s, k, ok, ss_rng s)
  | None => None
  end.

(** ** stochastic_parallel.rs: the worker threads *)
(* stochastic_parallel.rs:248-249: the range of samples of worker [t] of [tu] *)
Definition chunk_start (bs tu t : nat) : nat := bs * t / tu.
(** stochastic_parallel.rs:247-253 *)
Definition chunk_end (bs tu t : nat) : nat := bs * (t + 1) / tu.

(* stochastic_parallel.rs:199-202 *)
Definition thread_seed (base : N) (iter t : nat) : N :=
  N.lxor (N.lxor base ((N.of_nat iter * 11400714819323198485) mod 2 ^ 64))
         ((N.of_nat t * 13787848793156543929) mod 2 ^ 64).

(* stochastic_parallel.rs:254-264: a worker's private state.  The threads share only the
   immutable [x] and the sampler, so one sampler call is an atomic step. *)
Record worker := mkW { w_left : nat; w_rng : N; w_acc : vec }.
(** stochastic_parallel.rs:254-256 *)
Definition worker_init (bs tu : nat) (base : N) (k t : nat) : worker :=
  mkW (chunk_end bs tu t - chunk_start bs tu t) (rng_new (thread_seed base k t)) vzero.
(** stochastic_parallel.rs:257-264 *)
Definition worker_step (sample : vec -> N -> vec * N) (x : vec) (w : worker) : worker :=
  match w_left w with
  | 0 => w
  | Datatypes.S l => let '(gi, r) := sample x (w_rng w) in
                     mkW l r (vfill n (fun i => add o (w_acc w i) (gi i)) (w_acc w))
  end.
(* a schedule says which thread runs next *)
(** stochastic_parallel.rs:244-274: the scheduler of the operating system *)
Definition run_schedule (sample : vec -> N -> vec * N) (x : vec) (ws : nat -> worker)
    (sched : list nat) : nat -> worker :=
  fold_left (fun ws t => upd ws t (worker_step sample x (ws t))) sched ws.

(* stochastic_parallel.rs:236-289: join the workers in creation order and reduce.  [None]:
   the schedule ends before every worker has finished (join blocks). *)
Definition parallel_grad (c : sgd) (sample : vec -> N -> vec * N) (threads : nat) (base : N)
    (sched : list nat) (k : nat) (x : vec) : option vec :=
  let bs := Nat.max (sg_batch c) 1 in
  let tu := Nat.min threads bs in
  let ws := run_schedule sample x (worker_init bs tu base k) sched in
  if forallb (fun t => w_left (ws t) =? 0) (seq 0 tu) then
    let '(g, total) :=
      for_ 0 tu (fun t a =>
             (vfill n (fun i => add o (fst a i) (w_acc (ws t) i)) (fst a),
              snd a + (chunk_end bs tu t - chunk_start bs tu t))) (vzero, 0) in
    let inv_bs := div o (of_nat 1) (of_nat total) in
    Some (vfill n (fun i => mul o (g i) inv_bs) g)
  else None.

(* stochastic_parallel.rs:210-332 minimize; [sched k] is the schedule of iteration [k], and
   [threads] the configured count or available_parallelism, at least 1 *)
Definition psgd_minimize (powi : F -> Z -> F) (c : sgd) (f : vec -> F)
    (sample : vec -> N -> vec * N) (threads : nat) (seed : N) (sched : nat -> list nat)
    (x0 : vec) : option (vec * F * nat * bool) :=
  let threads := Nat.max threads 1 in
  match opt_loop (fun k s =>
            match parallel_grad c sample threads seed (sched k) k (ss_x s) with
            | None => None
            | Some g => Some (sgd_after_grad powi c f k s g (ss_rng s))
            end)
          (sg_max_iters c) 0 (mkSs x0 vzero (f x0) (zero o) 0%N) with
  | Some (s, k, ok) => Some (ss_x s, ss_f s, k, ok)
  | None => None
  end.

End Opt.
