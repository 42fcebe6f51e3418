(** Interpolation: the theorems for properties C45, C46 and C47. *)
From Coq Require Import Reals ZArith List Arith Bool Lra Lia.
From Coquelicot Require Import Coquelicot.
From Flocq Require Import Core.
From Verif Require Import Scalar RSum Floats InterpModel InterpSpec InterpProofs.
Import ListNotations.
Open Scope R_scope.

(** * C45 *)
Theorem C45_end_points : forall a b, lerp a b 0 = a /\ lerp a b 1 = b.
Proof. intros. unfold lerp. split; ring. Qed.

Theorem C45_between : forall a b t, 0 <= t <= 1 -> Rmin a b <= lerp a b t <= Rmax a b.
Proof.
  intros a b t Ht. unfold lerp, Rmin, Rmax. destruct (Rle_dec a b); nra.
Qed.

(* strictly increasing in t when a < b, and affine: equal steps of t give equal steps *)
Theorem C45_affine : forall a b s t, lerp a b t - lerp a b s = (b - a) * (t - s).
Proof. intros. unfold lerp. ring. Qed.

(* a vector is interpolated component by component *)
Theorem C45_vectors : forall a b t i, vlerp a b t i = lerp (a i) (b i) t.
Proof. reflexivity. Qed.

(* the inverse, for ranges wider than f64::EPSILON *)
Theorem C45_inverse_partial : forall a b t, / 2 ^ 52 < Rabs (b - a) ->
  inverse_lerp a b (lerp a b t) = t /\ lerp a b (inverse_lerp a b t) = t.
Proof.
  intros a b t H. fold eps in H. unfold inverse_lerp.
  destruct (Rleb (Rabs (b - a)) eps) eqn:E; [apply Rleb_true in E; lra|].
  assert (b - a <> 0). { intros Z. rewrite Z, Rabs_R0 in H. pose proof eps_pos. lra. }
  unfold lerp. split; field; lra.
Qed.
Example C45_inverse_nontrivial : / 2 ^ 52 < Rabs (5 - 3).
Proof.
  rewrite Rabs_right by lra. apply Rle_lt_trans with 1; [|lra].
  rewrite <- Rinv_1. apply Rinv_le_contravar; [lra|]. apply pow_R1_Rle. lra.
Qed.

(* the ranges that are left out: any non-empty range of width at most EPSILON *)
Theorem C45_inverse_refuted : exists a b t, a <> b /\ inverse_lerp a b (lerp a b t) <> t.
Proof.
  exists 0, eps, 1. pose proof eps_pos. split; [lra|]. unfold inverse_lerp.
  destruct (Rleb (Rabs (eps - 0)) eps) eqn:E; [lra|]. apply Rleb_false in E.
  rewrite Rminus_0_r, Rabs_right in E by lra. lra.
Qed.

Theorem C45_remap : forall in_a in_b out_a out_b,
  remap in_a in_a in_b out_a out_b = out_a /\
  (/ 2 ^ 52 < Rabs (in_b - in_a) -> remap in_b in_a in_b out_a out_b = out_b) /\
  (/ 2 ^ 52 < Rabs (in_b - in_a) -> forall t,
     remap (lerp in_a in_b t) in_a in_b out_a out_b = lerp out_a out_b t).
Proof.
  intros ia ib oa ob. split; [|split].
  - unfold remap, inverse_lerp. destruct (Rleb _ _) eqn:E.
    + unfold lerp. ring.
    + replace ((ia - ia) / (ib - ia)) with 0; [unfold lerp; ring|].
      unfold Rdiv. ring.
  - intros H. unfold remap. replace ib with (lerp ia ib 1) at 2 by (unfold lerp; ring).
    rewrite (proj1 (C45_inverse_partial ia ib 1 H)). unfold lerp. ring.
  - intros H t. unfold remap. rewrite (proj1 (C45_inverse_partial ia ib t H)). reflexivity.
Qed.

(* with rounding: t = 0 still gives a exactly, for every pair of doubles *)
Theorem C45_float_start : forall a b, generic_format radix2 fexp64 a -> lerp_f64 a b 0 = a.
Proof.
  intros a b Ha. unfold lerp_f64. rewrite Rmult_0_r, f64_0, Rplus_0_r.
  apply round_generic; [apply valid_rnd_N|exact Ha].
Qed.

(* with rounding, t = 1 need not give b *)
Lemma f64_nearest x e m : bpow radix2 (e - 1) <= Rabs x < bpow radix2 e -> (-1021 <= e)%Z ->
  Rabs (x * bpow radix2 (53 - e) - IZR m) < / 2 -> f64 x = IZR m * bpow radix2 (e - 53).
Proof.
  intros He Hl Hm. unfold f64, round, F2R, scaled_mantissa, cexp.
  rewrite (mag_unique radix2 x e He). unfold fexp64, FLT_exp.
  replace (Z.max (e - 53) (-1074)) with (e - 53)%Z by lia.
  replace (- (e - 53))%Z with (53 - e)%Z by lia.
  cbn [Fnum Fexp]. rewrite (Znearest_imp _ _ m Hm). reflexivity.
Qed.
Theorem C45_float_end_refuted : exists a b,
  generic_format radix2 fexp64 a /\ generic_format radix2 fexp64 b /\ lerp_f64 a b 1 <> b.
Proof.
  assert (P : bpow radix2 (-60) = / 2 ^ 60) by (cbn; lra).
  assert (Q : IZR (2 ^ 53) = bpow radix2 53) by (rewrite <- IZR_Zpower by lia; reflexivity).
  exists 1, (bpow radix2 (-60)).
  split; [|split].
  - replace 1 with (IZR 1 * bpow radix2 0) by (cbn; lra). apply format64_intro; lia.
  - replace (bpow radix2 (-60)) with (IZR 1 * bpow radix2 (-60)) by lra. apply format64_intro; lia.
  - assert (E : f64 (bpow radix2 (-60) - 1) = -1).
    { rewrite (f64_nearest _ 0 (- 2 ^ 53)).
      - rewrite opp_IZR, Q. rewrite <- Ropp_mult_distr_l, <- bpow_plus. cbn. lra.
      - cbn [Z.sub]. rewrite P. rewrite Rabs_left by lra. cbn. split; lra.
      - lia.
      - rewrite opp_IZR, Q. change (53 - 0)%Z with 53%Z.
        replace ((bpow radix2 (-60) - 1) * bpow radix2 53 - - bpow radix2 53)
          with (bpow radix2 (-60) * bpow radix2 53) by ring.
        rewrite <- bpow_plus. cbn. rewrite Rabs_right by lra. lra. }
    unfold lerp_f64. rewrite E, Rmult_1_r.
    assert (F1 : f64 (-1) = -1).
    { replace (-1) with (IZR (-1) * bpow radix2 0) at 1 by (cbn; lra).
      rewrite f64_exact by lia. cbn; lra. }
    rewrite F1. replace (1 + -1) with 0 by ring. rewrite f64_0.
    assert (0 < bpow radix2 (-60)) by apply bpow_gt_0. lra.
Qed.

(** * C46 *)
(* construction succeeds exactly for at least one node and nodes further apart than EPSILON *)
Theorem C46_construction : forall n xs ys,
  (exists p, poly_new n xs ys = Some p) <->
  (0 < n)%nat /\ forall i j, (i < n)%nat -> (j < n)%nat -> i <> j -> / 2 ^ 52 < Rabs (xs i - xs j).
Proof.
  intros n xs ys. split.
  - intros (p & H). exact (poly_new_inv n xs ys p H).
  - intros (Hn & Ha). destruct (poly_new_ok n xs ys Hn Ha) as (w & E & _). eauto.
Qed.

Theorem C46_passes_through_nodes : forall n xs ys p i, poly_new n xs ys = Some p -> (i < n)%nat ->
  poly_eval p (xs i) = ys i.
Proof. exact poly_eval_node. Qed.

(* [is_poly n f]: f is a polynomial of degree < n (InterpSpec.v) *)
Theorem C46_reproduces_polynomials_partial : forall n xs ys p f x, poly_new n xs ys = Some p ->
  is_poly n f -> (forall i, (i < n)%nat -> ys i = f (xs i)) ->
  (forall i, (i < n)%nat -> x = xs i \/ / 2 ^ 52 < Rabs (x - xs i)) ->
  poly_eval p x = f x.
Proof.
  intros n xs ys p f x Hp Hf Hy Hx.
  assert (D : (exists i, (i < n)%nat /\ x = xs i) \/ forall i, (i < n)%nat -> x <> xs i).
  { clear - xs. induction n as [|n [(i & Hi & E)|IH]].
    - right. intros; lia.
    - left. exists i. split; [lia|auto].
    - destruct (Req_EM_T x (xs n)) as [E|N]; [left; exists n; split; [lia|auto]|].
      right. intros i Hi. destruct (Nat.eq_dec i n) as [->|]; [auto|]. apply IH. lia. }
  destruct D as [(i & Hi & ->)|N].
  - rewrite (poly_eval_node n xs ys p i Hp Hi). apply Hy, Hi.
  - apply (poly_eval_correct n xs ys p f x Hp Hf Hy). intros i Hi.
    destruct (Hx i Hi) as [E|L]; [contradiction (N i Hi E)|exact L].
Qed.

(* so there is one polynomial of degree < n through the data, and away from the nodes the
   interpolator is that polynomial *)
Theorem C46_is_a_polynomial : forall n xs ys p, poly_new n xs ys = Some p ->
  exists f, is_poly n f /\ (forall i, (i < n)%nat -> f (xs i) = ys i) /\
    forall x, (forall i, (i < n)%nat -> x = xs i \/ / 2 ^ 52 < Rabs (x - xs i)) -> poly_eval p x = f x.
Proof.
  intros n xs ys p Hp. destruct (poly_new_inv n xs ys p Hp) as (Hn & Ha).
  pose (f := fun x => sum n (fun i => ys i / pe i n (fun k => xs i - xs k) * pe i n (fun k => x - xs k))).
  assert (Hf : is_poly n f).
  { apply (poly_sum n n (fun i x => ys i / pe i n (fun k => xs i - xs k) * pe i n (fun k => x - xs k))).
    intros i Hi. apply poly_scal, pe_poly, Hi. }
  assert (Hy : forall i, (i < n)%nat -> f (xs i) = ys i).
  { intros j Hj. unfold f. rewrite (sum_one n j).
    - field. apply pe_nz. intros k Hk Hkj. assert (xs j <> xs k) by (apply (apart_distinct n xs Ha); auto). lra.
    - auto.
    - intros i Hi Hij. rewrite (pe_zero i n (fun k => xs j - xs k) j); auto; ring. }
  exists f. split; [exact Hf|]. split; [exact Hy|]. intros x Hx.
  apply (C46_reproduces_polynomials_partial n xs ys p f x Hp Hf); [|exact Hx].
  intros i Hi. symmetry. apply Hy, Hi.
Qed.

(** the reported degree always suffices, and for some values at the same nodes no lower degree does *)
Theorem C46_degree : forall n xs ys p, poly_new n xs ys = Some p ->
  (exists f, is_poly (S (poly_degree p)) f /\ forall i, (i < n)%nat -> f (xs i) = ys i) /\
  exists zs, forall f d, (d < poly_degree p)%nat -> is_poly (S d) f -> ~ (forall i, (i < n)%nat -> f (xs i) = zs i).
Proof.
  intros n xs ys p Hp. destruct (poly_new_inv n xs ys p Hp) as (Hn & Ha). unfold poly_degree. split.
  - destruct (C46_is_a_polynomial n xs ys p Hp) as (f & Hf & Hy & _). exists f. replace (S (n - 1)) with n by lia. split; assumption.
  - exists (fun i => if (i =? n - 1)%nat then 1 else 0). intros f d Hd Hf Hz. pose proof (apart_distinct n xs Ha) as Hx.
    assert (Z : forall x, f x = 0).
    { apply (poly_roots (S d) f xs Hf); [intros i j Hi Hj; apply Hx; lia|]. intros i Hi. rewrite Hz by lia. rewrite (proj2 (Nat.eqb_neq i (n - 1))) by lia. reflexivity. }
    specialize (Hz (n - 1)%nat ltac:(lia)). rewrite Z, Nat.eqb_refl in Hz. lra.
Qed.

(* the two nodes 0 and 1 with the line f(x) = 2 x + 1 *)
Example C46_nontrivial : exists p,
  poly_new 2 INR (fun i => 2 * INR i + 1) = Some p /\ is_poly 2 (fun x => 2 * x + 1) /\
  poly_eval p 3 = 7.
Proof.
  assert (B : / 2 ^ 52 < 1).
  { apply Rle_lt_trans with (/ 2); [|lra]. apply Rinv_le_contravar; [lra|].
    replace 2 with (2 ^ 1) at 1 by ring. apply Rle_pow; [lra|lia]. }
  destruct (proj2 (C46_construction 2 INR (fun i => 2 * INR i + 1))) as (p & E).
  - split; [lia|]. intros i j Hi Hj Hij.
    destruct i as [|[|]]; [| |lia]; destruct j as [|[|]]; try lia; cbn.
    + rewrite Rminus_0_l, Rabs_Ropp, Rabs_R1. exact B.
    + rewrite Rminus_0_r, Rabs_R1. exact B.
  - exists p. split; [exact E|].
    assert (L : is_poly 2 (fun x => 2 * x + 1)).
    { exists 1, (fun _ => 2). split; [|intros; ring]. exists 2, (fun _ => 0). split; [intros x; reflexivity|]. intros; ring. }
    split; [exact L|].
    rewrite (C46_reproduces_polynomials_partial 2 INR _ p (fun x => 2 * x + 1) 3 E L).
    + ring.
    + reflexivity.
    + intros i Hi. right. destruct i as [|[|]]; [| |lia]; cbn; rewrite Rabs_right; lra.
Qed.

(* what is missing: within EPSILON of a node the node's value is returned *)
Theorem C46_near_a_node_refuted : exists n xs ys p f x, poly_new n xs ys = Some p /\
  is_poly n f /\ (forall i, (i < n)%nat -> ys i = f (xs i)) /\ poly_eval p x <> f x.
Proof.
  assert (B : / 2 ^ 52 < 1).
  { apply Rle_lt_trans with (/ 2); [|lra]. apply Rinv_le_contravar; [lra|].
    replace 2 with (2 ^ 1) at 1 by ring. apply Rle_pow; [lra|lia]. }
  destruct (proj2 (C46_construction 2 INR INR)) as (p & E).
  - split; [lia|]. intros i j Hi Hj Hij.
    destruct i as [|[|]]; [| |lia]; destruct j as [|[|]]; try lia; cbn.
    + rewrite Rminus_0_l, Rabs_Ropp, Rabs_R1. exact B.
    + rewrite Rminus_0_r, Rabs_R1. exact B.
  - exists 2%nat, INR, INR, p, (fun x => x), eps. split; [exact E|]. split; [|split].
    + exists 0, (fun _ => 1). split; [|intros; ring]. exists 1, (fun _ => 0). split; [intros x; reflexivity|]. intros; ring.
    + reflexivity.
    + destruct (poly_new_inv _ _ _ _ E) as (Hn & Ha).
      destruct (poly_new_ok 2 INR INR Hn Ha) as (w & E' & _). rewrite E in E'. inversion E'; subst p.
      unfold poly_eval, near_node. cbn [p_xs p_ys seq find INR]. pose proof eps_pos.
      rewrite Rminus_0_r, Rabs_right by lra.
      destruct (Rleb eps eps) eqn:Z; [|apply Rleb_false in Z; lra]. cbn. lra.
Qed.

(** * C47 *)
Theorem C47_construction : forall n xs ys,
  (exists s, spline_new n xs ys = Some s) <-> (2 <= n)%nat /\ increasing n xs.
Proof.
  intros n xs ys. split.
  - intros (s & H). destruct (spline_new_inv n xs ys s H) as (A & B & _). auto.
  - intros (A & B). apply spline_new_ok; auto.
Qed.

(* every spline that can be built evaluates, at every x, to the natural cubic spline
   (definition in InterpSpec.v) through the data *)
Theorem C47_natural_cubic_spline : forall n xs ys s, spline_new n xs ys = Some s ->
  exists f, (forall x, spline_eval s x = Some (f x)) /\ natural_cubic_spline n xs ys f.
Proof. exact spline_is_natural. Qed.

(* the segment used contains x, or is the first or last segment when x is outside *)
Theorem C47_segment : forall n xs ys s x, spline_new n xs ys = Some s ->
  exists i, segment_index s x = Some i /\ (i + 1 < n)%nat /\
    (xs 0%nat <= x <= xs (n - 1)%nat -> xs i <= x <= xs (i + 1)%nat) /\
    (x < xs 0%nat -> i = 0%nat) /\ (xs (n - 1)%nat < x -> i = (n - 2)%nat).
Proof.
  intros n xs ys s x H. destruct (spline_new_inv n xs ys s H) as (Hn & Hinc & Ex & _).
  rewrite <- Ex in *. destruct (segment_ok s x Hn Hinc) as (i & E & A & B & C).
  exists i. split; [exact E|]. split; [exact A|]. split; [|split].
  - intros Hx. split.
    + destruct B as [B| ->]; [auto|lra].
    + destruct C as [C|C]; [auto|]. replace (i + 1)%nat with (n - 1)%nat by lia. lra.
  - intros Hx. destruct B as [B|]; [|auto].
    destruct (Nat.eq_dec i 0); [auto|].
    assert (s_xs s 0%nat < s_xs s i) by (apply (inc_lt n); auto; lia). lra.
  - intros Hx. destruct C as [C|]; [|lia].
    assert (s_xs s (i + 1)%nat <= s_xs s (n - 1)%nat) by (apply (inc_le n); auto; lia). lra.
Qed.

Example C47_nontrivial : exists s, spline_new 3 INR (fun i => INR i * INR i) = Some s /\
  spline_eval s (/ 2) = Some (5 / 16).
Proof.
  assert (H : (2 <= 3)%nat /\ increasing 3 INR).
  { split; [lia|]. intros i Hi. rewrite S_INR. lra. }
  destruct (proj2 (C47_construction 3 INR (fun i => INR i * INR i)) H) as (s & E).
  exists s. split; [exact E|].
  destruct (spline_new_inv _ _ _ _ E) as (_ & _ & Ex & Ey & M0 & M1 & M).
  specialize (M 1%nat (le_n 1) ltac:(lia)).
  unfold sig, rhs in M. cbn [Nat.add Nat.sub INR] in M, M1. rewrite M0, M1 in M.
  assert (M1' : s_m s 1%nat = 3) by lra.
  destruct (C47_segment _ _ _ s (/ 2) E) as (i & Ei & Hi & Hx & _).
  assert (i = 0)%nat.
  { cbn [Nat.sub INR] in Hx. specialize (Hx ltac:(lra)).
    destruct i as [|[|]]; [reflexivity| |lia]. cbn in Hx. lra. }
  subst i. unfold spline_eval. rewrite Ei. cbn [option_map]. f_equal.
  unfold segment_value. cbv zeta. rewrite Ex, Ey. cbn [Nat.add INR]. rewrite M0, M1'. field.
Qed.
