(** Property C27: the SIMD kernels. *)
From Coq Require Import Reals QArith List Arith Lia Lra Bool.
From Verif Require Import Scalar RSum LinModel LinSpec LinProofs SimdModel SimdProofs.
Import ListNotations.
Local Open Scope nat_scope.

(** Every result below being [Some] also says that no kernel reads or writes outside a row,
    whatever the shape. *)

(** *** AVX without FMA (4 lanes f64, 8 lanes f32): the scalar result, entry for entry, for
    every shape and any scalar arithmetic. *)
Theorem C27_avx_bit_identical : forall {F} (o : ops F) w M N P a b, 0 < w ->
  exists r s, mul_matrix_avx o w M N P a b = Some r /\ mul_matrix_strided o M N P a b = Some s /\
    eqm M P r s.
Proof.
  intros F o w M N P a b Hw.
  destruct (lanes_spec o w _ _ M N P a b Hw (avx_lanewise o w)) as (r & E & R).
  destruct (mul_matrix_spec o M N P a b) as (s & Es & S).
  exists r, s. repeat split; auto. intros i j Hi Hj. rewrite R, S by auto. unfold part.
  rewrite <- accum_left_sum. apply accum_ext. intros k x Hk. destruct (j <? P / w * w); reflexivity.
Qed.

(** *** FMA kernels: full blocks of lanes are accumulated with one rounding per term, the
    tail columns as in the scalar code. *)
Theorem C27_avx_fma_entries : forall {F} (o : ops F) w M N P a b, 0 < w ->
  exists r, mul_matrix_avx_fma o w M N P a b = Some r /\
  forall i j, i < M -> j < P -> r i j =
    accum o N (fun k acc => if j <? P / w * w then fma o (a i k) (b k j) acc
                            else add o acc (mul o (a i k) (b k j))).
Proof. intros F o w M N P a b Hw. apply (lanes_spec o w _ _ M N P a b Hw (fma_lanewise o w)). Qed.

Theorem C27_neon_f64_entries : forall {F} (o : ops F) M N P a b,
  exists r, mul_matrix_neon_f64 o M N P a b = Some r /\
  forall i j, i < M -> j < P -> r i j =
    accum o N (fun k acc => if j <? P / 2 * 2 then fma o (b k j) (a i k) acc
                            else add o acc (mul o (a i k) (b k j))).
Proof. intros F o M N P a b. apply (lanes_spec o 2 _ _ M N P a b ltac:(lia) (neon_lanewise o 2)). Qed.

(** The special cases for 3, 4 and 6 columns do what the general loop would do. *)
Theorem C27_neon_f32_entries : forall {F} (o : ops F) M N P a b,
  exists r, mul_matrix_neon_f32 o M N P a b = Some r /\
  forall i j, i < M -> j < P -> r i j =
    accum o N (fun k acc => if j <? P / 4 * 4 then fma o (b k j) (a i k) acc
                            else add o acc (mul o (a i k) (b k j))).
Proof. intros. apply neon_f32_spec. Qed.

(** In exact arithmetic every matrix kernel is the textbook product. *)
Theorem C27_matrix_kernels_exact : forall w M N P a b, 0 < w ->
  exists r1 r2 r3 r4,
    mul_matrix_avx Rops w M N P a b = Some r1 /\ mul_matrix_avx_fma Rops w M N P a b = Some r2 /\
    mul_matrix_neon_f32 Rops M N P a b = Some r3 /\ mul_matrix_neon_f64 Rops M N P a b = Some r4 /\
    eqm M P r1 (Mprod N a b) /\ eqm M P r2 (Mprod N a b) /\
    eqm M P r3 (Mprod N a b) /\ eqm M P r4 (Mprod N a b).
Proof.
  intros w M N P a b Hw.
  destruct (lanes_spec Rops w _ _ M N P a b Hw (avx_lanewise Rops w)) as (r1 & E1 & R1).
  destruct (C27_avx_fma_entries Rops w M N P a b Hw) as (r2 & E2 & R2).
  destruct (C27_neon_f32_entries Rops M N P a b) as (r3 & E3 & R3).
  destruct (C27_neon_f64_entries Rops M N P a b) as (r4 & E4 & R4).
  exists r1, r2, r3, r4. repeat split; auto; intros i j Hi Hj; rewrite ?R1, ?R2, ?R3, ?R4 by auto;
    unfold Mprod; apply accum_R_exact; intros k x Hk.
  - destruct (j <? P / w * w); cbn; ring.
  - destruct (j <? P / w * w); cbn; ring.
  - destruct (j <? P / 4 * 4); cbn; ring.
  - destruct (j <? P / 2 * 2); cbn; ring.
Qed.

(** *** Row-times-vector kernels without FMA on x86: bit-identical to the scalar fallback,
    for any scalar arithmetic. *)
Theorem C27_vec_kernels_bit_identical : forall {F} (o : ops F) (v r : nat -> F),
  vec4_mul o v r = vec4_scalar o v r /\
  vec6_avx_f64 o v r = vec6_scalar o v r /\
  vec6_avx_f32 o v r = vec6_scalar o v r /\
  vec6_sse_f32 o v r = vec6_scalar o v r.
Proof. intros. repeat split; reflexivity. Qed.

(** FMA against a zero accumulator: the same whenever fma(x, y, 0) = x * y. *)
Theorem C27_fma_zero_kernels : forall {F} (o : ops F), (forall x y, fma o x y (zero o) = mul o x y) ->
  forall v r : nat -> F,
  vec4_fma o v r = vec4_scalar o v r /\
  vec6_avx_fma_f64 o v r = vec6_scalar o v r /\
  vec6_avx_fma_f32 o v r = vec6_scalar o v r /\
  vec6_fma128_f32 o v r = vec6_scalar o v r.
Proof.
  intros F o H v r.
  unfold vec4_fma, vec6_avx_fma_f64, vec6_avx_fma_f32, vec6_fma128_f32, vec4_scalar, vec6_scalar.
  cbn. unfold sum4, lane. cbn. rewrite !H. repeat split; reflexivity.
Qed.

(** The re-associating kernels: the same dot product in exact arithmetic. *)
Theorem C27_vec_kernels_exact : forall v r,
  let dot4 := Some (sum 4 (fun k => (r k * v k)%R)) in
  let dot6 := Some (sum 6 (fun k => (r k * v k)%R)) in
  vec4_scalar Rops v r = dot4 /\ vec4_mul Rops v r = dot4 /\ vec4_fma Rops v r = dot4 /\
  vec4_neon_f32 Rops v r = dot4 /\ vec4_neon_f64 Rops v r = dot4 /\
  vec6_scalar Rops v r = dot6 /\ vec6_avx_fma_f64 Rops v r = dot6 /\ vec6_avx_f64 Rops v r = dot6 /\
  vec6_fma128_f64 Rops v r = dot6 /\ vec6_sse2_f64 Rops v r = dot6 /\
  vec6_avx_fma_f32 Rops v r = dot6 /\ vec6_avx_f32 Rops v r = dot6 /\
  vec6_fma128_f32 Rops v r = dot6 /\ vec6_sse_f32 Rops v r = dot6 /\
  vec6_neon_f32 Rops v r = dot6 /\ vec6_neon_f64 Rops v r = dot6.
Proof.
  intros v r. repeat split;
    match goal with |- ?a = ?b => let a' := eval cbv -[Rplus Rmult Rminus Rdiv Ropp R0 R1 sum] in a in change (a' = b) end;
    apply f_equal; cbn [sum]; ring.
Qed.

(** A row kernel applied to all M rows. *)
Theorem C27_rows : forall {F} (o : ops F) M kern (f : (nat -> F) -> F) a, (forall r, kern r = Some (f r)) ->
  exists res, rows o M kern a = Some res /\ forall i, i < M -> res i = f (a i).
Proof. intros. apply rows_spec; auto. Qed.

(** The scalar [dot] starts from 0, the AVX one from the first product: equal whenever
    0 + x = x for that product. *)
Theorem C27_dot4 : forall {F} (o : ops F) (a b : nat -> F),
  add o (zero o) (mul o (a 0) (b 0)) = mul o (a 0) (b 0) ->
  vec4_mul o b a = Some (dot o 4 a b).
Proof. intros F o a b H. cbn. unfold sum4, lane, dot, for_. cbn. rewrite H. reflexivity. Qed.

(** *** Fixed-size NEON products *)
(** f32: unfused, so bit-identical to the scalar product once x*y = y*x. *)
Theorem C27_neon_fixed_f32 : forall {F} (o : ops F), (forall x y, mul o x y = mul o y x) ->
  forall a b : nat -> nat -> F, exists r3 r4 r6,
  mul_mat3_neon_f32 o a b = Some r3 /\ eqm 3 3 r3 (fun i j => left_sum o 3 (fun k => mul o (a i k) (b k j))) /\
  mul_mat4_neon_f32 o a b = Some r4 /\ eqm 4 4 r4 (fun i j => left_sum o 4 (fun k => mul o (a i k) (b k j))) /\
  mul_mat6_neon_f32 o a b = Some r6 /\ eqm 6 6 r6 (fun i j => left_sum o 6 (fun k => mul o (a i k) (b k j))).
Proof.
  intros F o C a b.
  assert (forall i j, left_sum o 3 (fun k => mul o (a i k) (b k j)) = left_sum o 3 (fun k => mul o (b k j) (a i k))) as C3
    by (intros; cbn; rewrite !(C (a i _)); reflexivity).
  assert (forall i j, left_sum o 4 (fun k => mul o (a i k) (b k j)) = left_sum o 4 (fun k => mul o (b k j) (a i k))) as C4
    by (intros; cbn; rewrite !(C (a i _)); reflexivity).
  assert (forall i j, left_sum o 6 (fun k => mul o (a i k) (b k j)) = left_sum o 6 (fun k => mul o (b k j) (a i k))) as C6
    by (intros; cbn; rewrite !(C (a i _)); reflexivity).
  destruct (fixed_rows o 3 3 (fun i out => ltac:(let t := eval unfold mul_mat3_neon_f32 in (mul_mat3_neon_f32 o a b) in match t with forM _ _ ?g _ => exact (g i out) end)) (fun i j => left_sum o 3 (fun k => mul o (b k j) (a i k)))) as (r3 & E3 & H3).
  { intros i out Hi; eexists; (split; [reflexivity|]); intros r c Hc; unfold upd2, set_row;
    destruct (r =? i); [|reflexivity]; do 3 (destruct c as [|c]; [reflexivity|]); lia. }
  destruct (fixed_rows o 4 4 (fun i out => ltac:(let t := eval unfold mul_mat4_neon_f32 in (mul_mat4_neon_f32 o a b) in match t with forM _ _ ?g _ => exact (g i out) end)) (fun i j => left_sum o 4 (fun k => mul o (b k j) (a i k)))) as (r4 & E4 & H4).
  { intros i out Hi; eexists; (split; [reflexivity|]); intros r c Hc; unfold upd2, set_row;
    destruct (r =? i); [|reflexivity]; do 4 (destruct c as [|c]; [reflexivity|]); lia. }
  destruct (fixed_rows o 6 6 (fun i out => ltac:(let t := eval unfold mul_mat6_neon_f32 in (mul_mat6_neon_f32 o a b) in match t with forM _ _ ?g _ => exact (g i out) end)) (fun i j => left_sum o 6 (fun k => mul o (b k j) (a i k)))) as (r6 & E6 & H6).
  { intros i out Hi; eexists; (split; [reflexivity|]); intros r c Hc; unfold upd2, set_row;
    destruct (r =? i); [|reflexivity]; do 6 (destruct c as [|c]; [reflexivity|]); lia. }
  exists r3, r4, r6. split; [exact E3|]. split; [|split; [exact E4|]; split; [|split; [exact E6|]]].
  - intros i j Hi Hj. rewrite C3. apply H3; auto.
  - intros i j Hi Hj. rewrite C4. apply H4; auto.
  - intros i j Hi Hj. rewrite C6. apply H6; auto.
Qed.

(** f64: fused, every term with one rounding. *)
Theorem C27_neon_fixed_f64 : forall {F} (o : ops F) (a b : nat -> nat -> F), exists r3 r4 r6,
  mul_mat3_neon_f64 o a b = Some r3 /\ eqm 3 3 r3 (fun i j => accum o 3 (fun k acc => fma o (b k j) (a i k) acc)) /\
  mul_mat4_neon_f64 o a b = Some r4 /\ eqm 4 4 r4 (fun i j => accum o 4 (fun k acc => fma o (b k j) (a i k) acc)) /\
  mul_mat6_neon_f64 o a b = Some r6 /\ eqm 6 6 r6 (fun i j => accum o 6 (fun k acc => fma o (b k j) (a i k) acc)).
Proof.
  intros F o a b.
  destruct (fixed_rows o 3 3 (fun i out => ltac:(let t := eval unfold mul_mat3_neon_f64 in (mul_mat3_neon_f64 o a b) in match t with forM _ _ ?g _ => exact (g i out) end)) (fun i j => accum o 3 (fun k acc => fma o (b k j) (a i k) acc))) as (r3 & E3 & H3).
  { intros i out Hi; eexists; (split; [reflexivity|]); intros r c Hc; unfold upd2, set_row;
    destruct (r =? i); [|reflexivity]; do 3 (destruct c as [|c]; [reflexivity|]); lia. }
  destruct (fixed_rows o 4 4 (fun i out => ltac:(let t := eval unfold mul_mat4_neon_f64 in (mul_mat4_neon_f64 o a b) in match t with forM _ _ ?g _ => exact (g i out) end)) (fun i j => accum o 4 (fun k acc => fma o (b k j) (a i k) acc))) as (r4 & E4 & H4).
  { intros i out Hi; eexists; (split; [reflexivity|]); intros r c Hc; unfold upd2, set_row;
    destruct (r =? i); [|reflexivity]; do 4 (destruct c as [|c]; [reflexivity|]); lia. }
  destruct (fixed_rows o 6 6 (fun i out => ltac:(let t := eval unfold mul_mat6_neon_f64 in (mul_mat6_neon_f64 o a b) in match t with forM _ _ ?g _ => exact (g i out) end)) (fun i j => accum o 6 (fun k acc => fma o (b k j) (a i k) acc))) as (r6 & E6 & H6).
  { intros i out Hi; eexists; (split; [reflexivity|]); intros r c Hc; unfold upd2, set_row;
    destruct (r =? i); [|reflexivity]; do 6 (destruct c as [|c]; [reflexivity|]); lia. }
  exists r3, r4, r6. repeat split; assumption.
Qed.

Theorem C27_neon_fixed_exact : forall a b,
  (forall r, mul_mat3_neon_f32 Rops a b = Some r \/ mul_mat3_neon_f64 Rops a b = Some r -> eqm 3 3 r (Mprod 3 a b)) /\
  (forall r, mul_mat4_neon_f32 Rops a b = Some r \/ mul_mat4_neon_f64 Rops a b = Some r -> eqm 4 4 r (Mprod 4 a b)) /\
  (forall r, mul_mat6_neon_f32 Rops a b = Some r \/ mul_mat6_neon_f64 Rops a b = Some r -> eqm 6 6 r (Mprod 6 a b)).
Proof.
  intros a b.
  destruct (C27_neon_fixed_f32 Rops Rmult_comm a b) as (r3 & r4 & r6 & E3 & H3 & E4 & H4 & E6 & H6).
  destruct (C27_neon_fixed_f64 Rops a b) as (s3 & s4 & s6 & F3 & G3 & F4 & G4 & F6 & G6).
  assert (forall n i j, accum Rops n (fun k acc => fma Rops (b k j) (a i k) acc) = Mprod n a b i j) as X
    by (intros; unfold Mprod; apply accum_R_exact; intros; cbn; ring).
  assert (forall n i j, left_sum Rops n (fun k => mul Rops (a i k) (b k j)) = Mprod n a b i j) as Y
    by (intros; rewrite left_sum_R; reflexivity).
  split; [|split]; intros r [H|H] i j Hi Hj.
  - rewrite E3 in H. injection H as <-. rewrite H3 by auto. apply Y.
  - rewrite F3 in H. injection H as <-. rewrite G3 by auto. apply X.
  - rewrite E4 in H. injection H as <-. rewrite H4 by auto. apply Y.
  - rewrite F4 in H. injection H as <-. rewrite G4 by auto. apply X.
  - rewrite E6 in H. injection H as <-. rewrite H6 by auto. apply Y.
  - rewrite F6 in H. injection H as <-. rewrite G6 by auto. apply X.
Qed.

(** An 11-column product: two full blocks of four lanes and a tail of three. *)
Definition nops : ops nat :=
  mkOps nat 0 1 plus minus mult Nat.div (fun x => x) (fun x => x) Nat.sqrt (fun a b c => a * b + c)
    Nat.ltb Nat.leb Nat.eqb (fun q => Z.to_nat (Qnum q)).
Example C27_nontrivial :
  option_map (fun r => (r 1 3, r 1 10)) (mul_matrix_avx nops 4 2 2 11 (fun i k => i + k) (fun k j => k + 10 * j))
  = Some (1 * 30 + 2 * 31, 1 * 100 + 2 * 101) /\
  vec6_avx_fma_f64 nops (fun k => k) (fun k => k) = Some 55.
Proof. split; vm_compute; reflexivity. Qed.
