(** Interpolation error (C113) and the minimum property of the natural spline (C114). *)
From Coq Require Import Reals List Arith Bool Lra Lia Sorting.Sorted.
From Coquelicot Require Import Coquelicot.
From Verif Require Import Scalar RSum InterpModel InterpSpec InterpProofs InterpProps.
Import ListNotations.
Open Scope R_scope.

(** * What is said *)
(** F k is the k-th derivative of F 0 on [a,b], up to order n *)
Definition derivatives (a b : R) (n : nat) (F : nat -> R -> R) : Prop :=
  forall k x, (k < n)%nat -> a <= x <= b -> is_derive (F k) x (F (S k) x).
(** (x - x_0) ... (x - x_(n-1)) *)
Fixpoint node_product (n : nat) (xs : nat -> R) (x : R) : R :=
  match n with O => 1 | S m => node_product m xs x * (x - xs m) end.

(** * Rolle, many times *)
Definition zeros (a b : R) (g : R -> R) (l : list R) : Prop := StronglySorted Rlt l /\ List.Forall (fun x => a <= x <= b /\ g x = 0) l.
Lemma rolle a b g g' u v : a <= u -> u < v -> v <= b -> (forall x, a <= x <= b -> is_derive g x (g' x)) -> g u = 0 -> g v = 0 -> exists w, u < w < v /\ g' w = 0.
Proof.
  intros Ha Huv Hb D Gu Gv. destruct (MVT_cor2 g g' u v Huv) as (w & E & Hw).
  - intros c Hc. apply is_derive_Reals. apply D. lra.
  - exists w. split; [exact Hw|]. rewrite Gu, Gv in E. assert (v - u <> 0) by lra. apply Rmult_eq_reg_r with (v - u); lra.
Qed.
Lemma rolle_list a b g g' : (forall x, a <= x <= b -> is_derive g x (g' x)) -> forall l x, zeros a b g (x :: l) -> exists m, length m = length l /\ zeros a b g' m /\ List.Forall (Rlt x) m.
Proof.
  intros D. induction l as [|y l IH]; intros x (Ss & Sf).
  - exists []. repeat split; constructor.
  - inversion Ss as [|? ? S1 S2]; subst. inversion Sf as [|? ? F1 F2]; subst. inversion S2 as [|? ? Lxy S3]; subst. inversion F2 as [|? ? F3 F4]; subst.
    destruct (IH y (conj S1 F2)) as (m & Lm & (M1 & M2) & M3). destruct (rolle a b g g' x y) as (w & Hw & Z); try tauto; try lra.
    exists (w :: m). split; [cbn; lia|]. split; [split|].
    + constructor; [exact M1|]. eapply Forall_impl; [|exact M3]. cbn. intros z Hz. lra.
    + constructor; [|exact M2]. split; [lra|exact Z].
    + constructor; [lra|]. eapply Forall_impl; [|exact M3]. cbn. intros z Hz. lra.
Qed.
Lemma rolle_many a b G : forall n k l, (forall j x, (k <= j < k + n)%nat -> a <= x <= b -> is_derive (G j) x (G (S j) x)) -> zeros a b (G k) l -> length l = S n -> exists w, a <= w <= b /\ G (k + n)%nat w = 0.
Proof.
  induction n as [|n IH]; intros k l D Z L.
  - destruct l as [|w l]; [discriminate|]. destruct Z as (_ & Z). inversion Z as [|? ? Zw]; subst. exists w. rewrite Nat.add_0_r. exact Zw.
  - destruct l as [|x l]; [discriminate|]. destruct (rolle_list a b (G k) (G (S k)) ltac:(intros y Hy; apply D; [lia|exact Hy]) l x Z) as (m & Lm & Zm & _).
    destruct (IH (S k) m) as (w & Hw & E); [intros j y Hj; apply D; lia|exact Zm|cbn in L; lia|]. exists w. split; [exact Hw|]. replace (k + S n)%nat with (S k + n)%nat by lia. exact E.
Qed.
(** a set of distinct points can be put in order *)
Lemma insert_sorted (P : R -> Prop) x : P x -> forall l, StronglySorted Rlt l -> List.Forall P l -> ~ In x l -> exists m, length m = S (length l) /\ StronglySorted Rlt m /\ List.Forall P m /\ forall y, In y m <-> y = x \/ In y l.
Proof.
  intros Px. induction l as [|y l IH]; intros S0 F0 N0.
  - exists [x]. repeat split; try (repeat constructor; assumption); cbn; intuition.
  - inversion S0 as [|? ? S1 S2]; subst. inversion F0 as [|? ? F1 F2]; subst. destruct (Rtotal_order x y) as [L|[E|G]].
    + exists (x :: y :: l). split; [reflexivity|]. split; [|split; [constructor; assumption|intros z; cbn; intuition]]. constructor; [exact S0|]. constructor; [exact L|]. eapply Forall_impl; [|exact S2]. cbn; intros; lra.
    + exfalso. apply N0. left. auto.
    + destruct (IH S1 F2 ltac:(intros C; apply N0; right; exact C)) as (m & Lm & Sm & Fm & Im). exists (y :: m). split; [cbn; lia|]. split; [|split; [constructor; assumption|]].
      * constructor; [exact Sm|]. apply Forall_forall. intros z Hz. apply Im in Hz. destruct Hz as [-> |Hz]; [exact G|]. rewrite Forall_forall in S2. apply S2, Hz.
      * intros z. cbn. rewrite Im. intuition.
Qed.
Lemma sort_nodes (P : R -> Prop) xs : forall n, distinct n xs -> (forall i, (i < n)%nat -> P (xs i)) -> exists l, length l = n /\ StronglySorted Rlt l /\ List.Forall P l /\ forall y, In y l <-> exists i, (i < n)%nat /\ y = xs i.
Proof.
  induction n as [|n IH]; intros D H.
  - exists []. repeat split; try constructor; cbn; try tauto. intros (i & Hi & _). lia.
  - destruct IH as (l & Ll & Sl & Fl & Il); [intros i j Hi Hj; apply D; lia|intros i Hi; apply H; lia|].
    destruct (insert_sorted P (xs n) (H n ltac:(lia)) l Sl Fl) as (m & Lm & Sm & Fm & Im).
    + intros C. apply Il in C. destruct C as (i & Hi & E). apply (D n i) in E; [exact E|lia|lia|lia].
    + exists m. split; [lia|]. split; [exact Sm|]. split; [exact Fm|]. intros y. rewrite Im, Il. split.
      * intros [-> |(i & Hi & E)]; [exists n; split; [lia|reflexivity]|exists i; split; [lia|exact E]].
      * intros (i & Hi & ->). destruct (Nat.eq_dec i n) as [->|Ne]; [left; reflexivity|right; exists i; split; [lia|reflexivity]].
Qed.

(** * Derivatives of polynomials *)
(** all derivatives of x -> (c + x) q x, given those of q *)
Definition times_lin (c : R) (Q : nat -> R -> R) (k : nat) (x : R) : R := (c + x) * Q k x + INR k * Q (k - 1)%nat x.
Definition all_derivatives (G : nat -> R -> R) : Prop := forall k x, is_derive (G k) x (G (S k) x).
Lemma times_lin_ok c Q : all_derivatives Q -> all_derivatives (times_lin c Q).
Proof.
  intros D k x. unfold times_lin. assert (D0 := D k x). destruct k as [|k].
  - replace ((c + x) * Q 1%nat x + INR 1 * Q (1 - 1)%nat x) with (1 * Q 0%nat x + (c + x) * Q 1%nat x + 0) by (cbn; ring).
    apply (is_derive_plus (fun x => (c + x) * Q 0%nat x)).
    + apply (is_derive_mult (fun x => c + x) (Q 0%nat)); [auto_derive; auto|exact D0|intros; apply Rmult_comm].
    + apply is_derive_ext with (fun _ => 0); [intros; cbn; ring|apply (@is_derive_const R_AbsRing R_NormedModule)].
  - replace (S k - 1)%nat with k by lia. replace (S (S k) - 1)%nat with (S k) by lia. assert (D1 := D k x).
    replace ((c + x) * Q (S (S k)) x + INR (S (S k)) * Q (S k) x) with (plus (1 * Q (S k) x + (c + x) * Q (S (S k)) x) (INR (S k) * Q (S k) x)) by (rewrite (S_INR (S k)); unfold plus; cbn -[INR]; ring).
    apply (is_derive_plus (fun x => (c + x) * Q (S k) x)).
    + apply (is_derive_mult (fun x => c + x) (Q (S k))); [auto_derive; auto|exact D0|intros; apply Rmult_comm].
    + apply (is_derive_scal (Q k)). exact D1.
Qed.
Lemma poly_derivatives n : forall f, is_poly n f -> exists G, (forall x, G 0%nat x = f x) /\ all_derivatives G /\ forall k x, (n <= k)%nat -> G k x = 0.
Proof.
  induction n as [|n IH]; intros f; cbn [is_poly].
  - intros E. exists (fun _ _ => 0). split; [intros x; rewrite E; reflexivity|]. split; [intros k x; apply (@is_derive_const R_AbsRing R_NormedModule)|reflexivity].
  - intros (a & q & Pq & E). destruct (IH q Pq) as (Q & Q0 & QD & QZ). exists (fun k x => times_lin 0 Q k x + (match k with O => a | _ => 0 end)). split; [|split].
    + intros x. unfold times_lin. rewrite Q0, E. cbn. ring.
    + intros k x. replace (times_lin 0 Q (S k) x + 0) with (plus (times_lin 0 Q (S k) x) 0) by reflexivity. apply (is_derive_plus (times_lin 0 Q k)); [apply times_lin_ok, QD|]. apply (@is_derive_const R_AbsRing R_NormedModule).
    + intros k x Hk. destruct k as [|k]; [lia|]. unfold times_lin. rewrite !QZ by lia. ring.
Qed.
Lemma product_derivatives xs n : exists G, (forall x, G 0%nat x = node_product n xs x) /\ all_derivatives G /\ (forall x, G n x = INR (fact n)) /\ forall k x, (n < k)%nat -> G k x = 0.
Proof.
  induction n as [|n (Q & Q0 & QD & QN & QZ)].
  - exists (fun k _ => match k with O => 1 | _ => 0 end). split; [reflexivity|]. split; [|split; [reflexivity|intros k x Hk; destruct k; [lia|reflexivity]]]. intros k x. apply (@is_derive_const R_AbsRing R_NormedModule).
  - exists (times_lin (- xs n) Q). split; [|split; [apply times_lin_ok, QD|split]].
    + intros x. unfold times_lin. rewrite Q0. cbn [node_product INR]. ring.
    + intros x. unfold times_lin. rewrite (QZ (S n)) by lia. replace (S n - 1)%nat with n by lia. rewrite QN. rewrite fact_simpl, mult_INR. ring.
    + intros k x Hk. unfold times_lin. rewrite !QZ by lia. ring.
Qed.
Lemma product_zero n xs x i : (i < n)%nat -> x = xs i -> node_product n xs x = 0.
Proof. intros Hi ->. induction n as [|n IH]; [lia|]. cbn. destruct (Nat.eq_dec i n) as [->|Ne]; [ring|]. rewrite IH by lia. ring. Qed.
Lemma product_nonzero n xs x : (forall i, (i < n)%nat -> x <> xs i) -> node_product n xs x <> 0.
Proof. intros H. induction n as [|n IH]; cbn; [lra|]. apply Rmult_integral_contrapositive_currified; [apply IH; intros i Hi; apply H; lia|]. specialize (H n ltac:(lia)). lra. Qed.

(** * The error *)
Theorem C113_error_formula : forall n xs ys p a b F x, poly_new n xs ys = Some p ->
  derivatives a b n F -> (forall i, (i < n)%nat -> a <= xs i <= b /\ ys i = F 0%nat (xs i)) -> a <= x <= b ->
  (forall i, (i < n)%nat -> x = xs i \/ / 2 ^ 52 < Rabs (x - xs i)) ->
  exists w, a <= w <= b /\ F 0%nat x - poly_eval p x = F n w / INR (fact n) * node_product n xs x.
Proof.
  intros n xs ys p a b F x Hp D Hy Hx Far. destruct (C46_is_a_polynomial n xs ys p Hp) as (q & Pq & _ & Eq). destruct (poly_new_inv n xs ys p Hp) as (Pn & Ap). pose proof (apart_distinct n xs Ap) as Ds.
  assert (Nd : (exists i, (i < n)%nat /\ x = xs i) \/ forall i, (i < n)%nat -> x <> xs i).
  { clear. induction n as [|n [(i & Hi & E)|IH]]; [right; intros; lia|left; exists i; split; [lia|exact E]|]. destruct (Req_dec x (xs n)) as [E|Ne]; [left; exists n; split; [lia|exact E]|]. right. intros i Hi. destruct (Nat.eq_dec i n) as [->|]; [exact Ne|apply IH; lia]. }
  destruct Nd as [(i & Hi & E)|Nd].
  - exists x. split; [exact Hx|]. rewrite (product_zero n xs x i Hi E). subst x. rewrite (poly_eval_node n xs ys p i Hp Hi). rewrite (proj2 (Hy i Hi)). ring.
  - rewrite (Eq x Far). set (W := node_product n xs). assert (Wx : W x <> 0) by (apply product_nonzero, Nd). set (c := (F 0%nat x - q x) / W x).
    destruct (poly_derivatives n q Pq) as (Q & Q0 & QD & QZ). destruct (product_derivatives xs n) as (G & G0 & GD & GN & _).
    set (H := fun k t => F k t - (Q k t + c * G k t)).
    assert (HD : forall j t, (0 <= j < 0 + n)%nat -> a <= t <= b -> is_derive (H j) t (H (S j) t)).
    { intros j t Hj Ht. unfold H. apply (is_derive_minus (F j)); [apply D; [lia|exact Ht]|]. apply (is_derive_plus (Q j)); [apply QD|]. apply (is_derive_scal (G j)), GD. }
    assert (Hnode : forall i, (i < n)%nat -> H 0%nat (xs i) = 0).
    { intros i Hi. unfold H. rewrite Q0, G0, (product_zero n xs (xs i) i Hi eq_refl), <- (proj2 (Hy i Hi)). rewrite <- (Eq (xs i)).
      - rewrite (poly_eval_node n xs ys p i Hp Hi). ring.
      - intros j Hj. destruct (Nat.eq_dec i j) as [->|Ne]; [left; reflexivity|right; apply Ap; assumption]. }
    assert (Hself : H 0%nat x = 0) by (unfold H; rewrite Q0, G0; unfold c; fold W; field; exact Wx).
    destruct (sort_nodes (fun t => a <= t <= b /\ H 0%nat t = 0) xs n Ds) as (l & Ll & Sl & Fl & Il); [intros i Hi; split; [apply Hy, Hi|apply Hnode, Hi]|].
    destruct (insert_sorted (fun t => a <= t <= b /\ H 0%nat t = 0) x (conj Hx Hself) l Sl Fl) as (m & Lm & Sm & Fm & _).
    { intros C. apply Il in C. destruct C as (i & Hi & E). exact (Nd i Hi E). }
    destruct (rolle_many a b H n 0%nat m HD (conj Sm Fm) ltac:(lia)) as (w & Hw & Z). exists w. split; [exact Hw|]. cbn [Nat.add] in Z. unfold H in Z. rewrite QZ, GN in Z by lia.
    assert (Fc : F n w = c * INR (fact n)) by lra. rewrite Fc. unfold c. fold W. field. split; [exact Wx|apply INR_fact_neq_0].
Qed.
Lemma product_bound n xs x r : 0 <= r -> (forall i, (i < n)%nat -> Rabs (x - xs i) <= r) -> Rabs (node_product n xs x) <= r ^ n.
Proof.
  intros P H. induction n as [|n IH]; cbn [node_product pow]; [rewrite Rabs_R1; lra|]. rewrite Rabs_mult, Rmult_comm. apply Rmult_le_compat; [apply Rabs_pos|apply Rabs_pos|apply H; lia|apply IH; intros i Hi; apply H; lia].
Qed.
(** everywhere in [a,b], the immediate neighbourhood of the nodes included *)
Theorem C113_error_bound : forall n xs ys p a b F M x, poly_new n xs ys = Some p ->
  derivatives a b n F -> (forall i, (i < n)%nat -> a <= xs i <= b /\ ys i = F 0%nat (xs i)) -> a <= x <= b ->
  (forall k w, (1 <= k <= n)%nat -> a <= w <= b -> Rabs (F k w) <= M k) ->
  Rabs (F 0%nat x - poly_eval p x) <= Rmax (M n / INR (fact n) * Rabs (node_product n xs x)) (M 1%nat / 2 ^ 52).
Proof.
  intros n xs ys p a b F M x Hp D Hy Hx B. destruct (poly_new_inv n xs ys p Hp) as (Pn & Ap).
  assert (Nd : (exists i, (i < n)%nat /\ Rabs (x - xs i) <= / 2 ^ 52) \/ forall i, (i < n)%nat -> / 2 ^ 52 < Rabs (x - xs i)).
  { clear. induction n as [|n [(i & Hi & E)|IH]]; [right; intros; lia|left; exists i; split; [lia|exact E]|]. destruct (Rle_lt_dec (Rabs (x - xs n)) (/ 2 ^ 52)) as [E|Ne]; [left; exists n; split; [lia|exact E]|]. right. intros i Hi. destruct (Nat.eq_dec i n) as [->|]; [exact Ne|apply IH; lia]. }
  destruct Nd as [Nd|Far].
  - (* the value of a node within 2^-52 is returned *)
    assert (exists i, (i < n)%nat /\ Rabs (x - xs i) <= / 2 ^ 52 /\ poly_eval p x = ys i) as (i & Hi & Ni & ->).
    { destruct (poly_new_ok n xs ys Pn Ap) as (w & E & _). rewrite E in Hp. injection Hp as <-. unfold poly_eval. destruct (near_node {| p_xs := xs; p_ys := ys; p_w := w |} x) as [i|] eqn:Ei.
      - unfold near_node in Ei. apply find_some in Ei. destruct Ei as (I1 & I2). apply in_seq in I1. apply Rleb_true in I2. exists i. split; [lia|]. split; [exact I2|reflexivity].
      - exfalso. destruct Nd as (i & Hi & Ni). unfold near_node in Ei. pose proof (find_none _ _ Ei i ltac:(apply in_seq; lia)) as Z. apply Rleb_false in Z. cbn in Z. unfold eps in Z. lra. }
    destruct (Hy i Hi) as (Hxi & ->). eapply Rle_trans; [|apply Rmax_r].
    destruct (MVT_gen (F 0%nat) (xs i) x (F 1%nat)) as (c & Hc & E).
    + intros t Ht. apply D; [lia|]. unfold Rmin, Rmax in Ht. destruct (Rle_dec (xs i) x); lra.
    + intros t Ht. apply continuity_pt_filterlim. apply (ex_derive_continuous (F 0%nat)). exists (F 1%nat t). apply D; [lia|]. unfold Rmin, Rmax in Ht. destruct (Rle_dec (xs i) x); lra.
    + rewrite E, Rabs_mult. unfold Rdiv. apply Rmult_le_compat; try apply Rabs_pos; [|exact Ni]. apply B; [lia|]. unfold Rmin, Rmax in Hc. destruct (Rle_dec (xs i) x); lra.
  - destruct (C113_error_formula n xs ys p a b F x Hp D Hy Hx) as (w & Hw & ->); [intros i Hi; right; apply Far, Hi|]. eapply Rle_trans; [|apply Rmax_l]. rewrite Rabs_mult. apply Rmult_le_compat_r; [apply Rabs_pos|].
    unfold Rdiv. rewrite Rabs_mult, (Rabs_pos_eq (/ INR (fact n))) by (left; apply Rinv_0_lt_compat, INR_fact_lt_0). apply Rmult_le_compat_r; [left; apply Rinv_0_lt_compat, INR_fact_lt_0|]. apply B; [lia|exact Hw].
Qed.
(** ln at 1, 2, 3, 4, and a point between *)
Lemma ln_derivatives : derivatives 1 4 4 (fun k x => match k with 0%nat => ln x | 1%nat => / x | 2%nat => - / x ^ 2 | 3%nat => 2 / x ^ 3 | _ => - (6 / x ^ 4) end).
Proof.
  intros k x Hk Hx. destruct k as [|[|[|[|k]]]]; [auto_derive; [lra|field; lra]|auto_derive; [lra|field; lra]|auto_derive; [apply (pow_nonzero x 2); lra|field; lra]|auto_derive; [apply (pow_nonzero x 3); lra|field; lra]|lia].
Qed.
Example C113_nontrivial : exists p, poly_new 4 (fun i => INR (S i)) (fun i => ln (INR (S i))) = Some p /\ Rabs (ln (5 / 2) - poly_eval p (5 / 2)) <= 9 / 64.
Proof.
  assert (Ap : forall i j, (i < 4)%nat -> (j < 4)%nat -> i <> j -> / 2 ^ 52 < Rabs (INR (S i) - INR (S j))).
  { assert (E : / 2 ^ 52 < 1) by (rewrite <- Rinv_1 at 1; apply Rinv_lt_contravar; [rewrite Rmult_1_l; apply pow_lt; lra|apply Rlt_pow_R1; [lra|lia]]).
    intros i j Hi Hj Ne. eapply Rlt_le_trans; [exact E|]. rewrite !INR_IZR_INZ, <- minus_IZR, <- abs_IZR. apply IZR_le. lia. }
  destruct (proj2 (C46_construction 4 (fun i => INR (S i)) (fun i => ln (INR (S i)))) (conj (Nat.lt_0_succ 3) Ap)) as (p & Hp). exists p. split; [exact Hp|].
  destruct (C113_error_formula 4 _ _ p 1 4 _ (5 / 2) Hp ln_derivatives) as (w & Hw & E).
  - intros i Hi. split; [|reflexivity]. destruct i as [|[|[|[|i]]]]; [cbn [INR]; lra|cbn [INR]; lra|cbn [INR]; lra|cbn [INR]; lra|lia].
  - lra.
  - intros i Hi. right. assert (G : / 2 ^ 52 < / 2) by (apply Rinv_lt_contravar; [apply Rmult_lt_0_compat; [lra|apply pow_lt; lra]|rewrite <- (pow_1 2) at 1; apply Rlt_pow; [lra|lia]]).
    eapply Rlt_le_trans; [exact G|]. destruct i as [|[|[|[|i]]]]; cbn [INR]; [rewrite Rabs_pos_eq by lra; lra|rewrite Rabs_pos_eq by lra; lra|rewrite Rabs_left by lra; lra|rewrite Rabs_left by lra; lra|lia].
  - cbv beta iota in E. rewrite E. cbn [node_product INR fact Nat.mul Nat.add]. assert (W1 : 1 <= w ^ 4) by (apply pow_R1_Rle; lra). assert (0 < / w ^ 4 <= 1) by (split; [apply Rinv_0_lt_compat; lra|rewrite <- Rinv_1; apply Rinv_le_contravar; lra]).
    unfold Rdiv. apply Rabs_le. lra.
Qed.

(** * The natural spline *)
(** g passes through the data and has the continuous second derivative g2 on the range of the knots *)
Definition smooth_interpolant (n : nat) (xs ys : nat -> R) (g g1 g2 : R -> R) : Prop :=
  (forall i, (i < n)%nat -> g (xs i) = ys i) /\
  forall x, xs 0%nat <= x <= xs (n - 1)%nat -> is_derive g x (g1 x) /\ is_derive g1 x (g2 x) /\ continuous g2 x.
(** on each segment the second derivative of a cubic spline is linear *)
Lemma second_linear (f f1 f2 p : R -> R) u v : u < v -> is_poly 4 p -> (forall x, u <= x <= v -> f x = p x) ->
  (forall x, is_derive f x (f1 x)) -> (forall x, is_derive f1 x (f2 x)) -> (forall x, continuous f2 x) -> exists al be, forall x, u <= x <= v -> f2 x = al + be * x.
Proof.
  intros Huv Pp E D1 D2 Cn. cbn [is_poly] in Pp. destruct Pp as (a0 & q0 & (a1 & q1 & (a2 & q2 & (a3 & q3 & Z & E3) & E2) & E1) & E0).
  assert (Ep : forall x, p x = a0 + a1 * x + a2 * x ^ 2 + a3 * x ^ 3) by (intros x; rewrite E0, E1, E2, E3, Z; ring).
  assert (I1 : forall x, u < x < v -> f1 x = a1 + 2 * a2 * x + 3 * a3 * x ^ 2).
  { intros x Hx. rewrite <- (is_derive_unique f x (f1 x) (D1 x)). apply is_derive_unique.
    apply (is_derive_ext_loc (fun x => a0 + a1 * x + a2 * x ^ 2 + a3 * x ^ 3)); [|auto_derive; [auto|ring]].
    assert (P : 0 < Rmin (x - u) (v - x)) by (apply Rmin_pos; lra). exists (mkposreal _ P). intros y Hy. unfold ball in Hy; cbn in Hy. unfold AbsRing_ball, abs, minus, plus, opp in Hy; cbn in Hy. apply Rabs_def2 in Hy. pose proof (Rmin_l (x - u) (v - x)). pose proof (Rmin_r (x - u) (v - x)). rewrite E, Ep by lra. reflexivity. }
  assert (I2 : forall x, u < x < v -> f2 x = 2 * a2 + 6 * a3 * x).
  { intros x Hx. rewrite <- (is_derive_unique f1 x (f2 x) (D2 x)). apply is_derive_unique.
    apply (is_derive_ext_loc (fun x => a1 + 2 * a2 * x + 3 * a3 * x ^ 2)); [|auto_derive; [auto|ring]].
    assert (P : 0 < Rmin (x - u) (v - x)) by (apply Rmin_pos; lra). exists (mkposreal _ P). intros y Hy. unfold ball in Hy; cbn in Hy. unfold AbsRing_ball, abs, minus, plus, opp in Hy; cbn in Hy. apply Rabs_def2 in Hy. pose proof (Rmin_l (x - u) (v - x)). pose proof (Rmin_r (x - u) (v - x)). rewrite I1 by lra. reflexivity. }
  exists (2 * a2), (6 * a3).
  assert (Cl : forall x, (forall e, 0 < e -> exists y, u < y < v /\ Rabs (y - x) < e) -> f2 x = 2 * a2 + 6 * a3 * x).
  { intros x Near. set (d := fun y => f2 y - (2 * a2 + 6 * a3 * y)). assert (Cd : continuous d x).
    { apply (continuous_minus f2); [apply Cn|]. apply (ex_derive_continuous (fun y => 2 * a2 + 6 * a3 * y)). auto_derive. auto. }
    destruct (Req_dec (d x) 0) as [Z0|Nz]; [unfold d in Z0; lra|]. exfalso. assert (P : 0 < Rabs (d x)) by (apply Rabs_pos_lt, Nz).
    destruct (Cd (ball (d x) (mkposreal _ P)) (locally_ball _ _)) as (e & He). destruct (Near e (cond_pos e)) as (y & Hy & Hye). specialize (He y). assert (B : ball x e y) by (unfold ball; cbn; unfold AbsRing_ball, abs, minus, plus, opp; cbn; exact Hye). apply He in B.
    unfold ball in B; cbn in B. unfold AbsRing_ball, abs, minus, plus, opp in B; cbn in B. assert (d y = 0) by (unfold d; rewrite I2 by exact Hy; ring). rewrite H, Rplus_0_l, Rabs_Ropp in B. lra. }
  intros x Hx. apply Cl. intros e He. set (s := Rmin (e / 2) ((v - u) / 4)). assert (S0 : 0 < s) by (apply Rmin_pos; lra). pose proof (Rmin_l (e / 2) ((v - u) / 4)) as S1. pose proof (Rmin_r (e / 2) ((v - u) / 4)) as S2. fold s in S1, S2.
  destruct (Rle_lt_dec x ((u + v) / 2)) as [L|G]; [exists (x + s)|exists (x - s)]; (split; [lra|]); [replace (x + s - x) with s by ring|replace (x - s - x) with (- s) by ring; rewrite Rabs_Ropp]; rewrite Rabs_pos_eq by lra; lra.
Qed.
Lemma sq_eq (x : R) : x ^ 2 = x * x. Proof. ring. Qed.
Lemma energy_zero (h : R -> R) a b : (forall x, a <= x <= b -> continuous h x) -> RInt (fun x => h x ^ 2) a b = 0 -> forall c, a < c < b -> h c = 0.
Proof.
  intros Ch Z c Hc. destruct (Req_dec (h c) 0) as [E|Ne]; [exact E|exfalso].
  assert (Cq : forall x, a <= x <= b -> continuous (fun x => h x ^ 2) x) by (intros x Hx; apply (continuous_ext (fun x => h x * h x)); [intros; symmetry; exact (sq_eq _)|apply (continuous_mult h h); apply Ch, Hx]).
  assert (P : 0 < Rabs (h c)) by (apply Rabs_pos_lt, Ne). destruct (Ch c ltac:(lra) (ball (h c) (mkposreal _ P)) (locally_ball _ _)) as (e & He).
  set (d := Rmin (e / 2) (Rmin ((c - a) / 2) ((b - c) / 2))). assert (D0 : 0 < d) by (pose proof (cond_pos e); repeat apply Rmin_pos; lra).
  assert (D1 : d <= e / 2) by apply Rmin_l. assert (D2 : d <= (c - a) / 2) by (eapply Rle_trans; [apply Rmin_r|apply Rmin_l]). assert (D3 : d <= (b - c) / 2) by (eapply Rle_trans; [apply Rmin_r|apply Rmin_r]).
  assert (Ex : forall u v, a <= u -> u <= v -> v <= b -> ex_RInt (fun x => h x ^ 2) u v) by (intros u v H1 H2 H3; apply (@ex_RInt_continuous R_CompleteNormedModule); intros x Hx; rewrite Rmin_left, Rmax_right in Hx by lra; apply Cq; lra).
  assert (Ge : forall u v, a <= u -> u <= v -> v <= b -> 0 <= RInt (fun x => h x ^ 2) u v) by (intros u v H1 H2 H3; apply RInt_ge_0; [exact H2|apply Ex; assumption|intros; apply pow2_ge_0]).
  assert (Gt : 0 < RInt (fun x => h x ^ 2) (c - d) (c + d)).
  { apply RInt_gt_0; [lra| |intros x Hx; apply Cq; lra]. intros x Hx. apply pow2_gt_0. intros Zx. assert (B : ball c e x). { unfold ball; cbn. unfold AbsRing_ball, abs, minus, plus, opp; cbn. apply Rabs_def1; lra. }
    apply He in B. unfold ball in B; cbn in B. unfold AbsRing_ball, abs, minus, plus, opp in B; cbn in B. rewrite Zx, Rplus_0_l, Rabs_Ropp in B. lra. }
  assert (S1 : RInt (fun x => h x ^ 2) a (c - d) + RInt (fun x => h x ^ 2) (c - d) b = RInt (fun x => h x ^ 2) a b) by (apply (RInt_Chasles (fun x => h x ^ 2)); apply Ex; lra).
  assert (S2 : RInt (fun x => h x ^ 2) (c - d) (c + d) + RInt (fun x => h x ^ 2) (c + d) b = RInt (fun x => h x ^ 2) (c - d) b) by (apply (RInt_Chasles (fun x => h x ^ 2)); apply Ex; lra).
  pose proof (Ge a (c - d)). pose proof (Ge (c + d) b). lra.
Qed.
Section Minimum.
Context (n : nat) (xs ys : nat -> R) (f f1 f2 g g1 g2 : R -> R).
Context (Hn : (2 <= n)%nat) (Inc : increasing n xs) (Fy : forall i, (i < n)%nat -> f (xs i) = ys i).
Context (Fp : forall i, (S i < n)%nat -> exists p, is_poly 4 p /\ forall x, xs i <= x <= xs (S i) -> f x = p x).
Context (D1 : forall x, is_derive f x (f1 x)) (D2 : forall x, is_derive f1 x (f2 x)) (Cf : forall x, continuous f2 x) (Z0 : f2 (xs 0%nat) = 0) (Zn : f2 (xs (n - 1)%nat) = 0).
Context (Sm : smooth_interpolant n xs ys g g1 g2).
Let e (x : R) := g x - f x. Let e1 (x : R) := g1 x - f1 x. Let e2 (x : R) := g2 x - f2 x.
Lemma inside i x : (S i < n)%nat -> xs i <= x <= xs (S i) -> xs 0%nat <= x <= xs (n - 1)%nat.
Proof. intros Hi Hx. pose proof (inc_le n xs Hn Inc 0 i ltac:(lia) ltac:(lia)). pose proof (inc_le n xs Hn Inc (S i) (n - 1) ltac:(lia) ltac:(lia)). lra. Qed.
Lemma e2_cont x : xs 0%nat <= x <= xs (n - 1)%nat -> continuous e2 x.
Proof. intros Hx. apply (continuous_minus g2 f2); [apply Sm, Hx|apply Cf]. Qed.
Lemma segment_energy i : (S i < n)%nat -> is_RInt (fun x => f2 x * e2 x) (xs i) (xs (S i)) (f2 (xs (S i)) * e1 (xs (S i)) - f2 (xs i) * e1 (xs i)).
Proof.
  intros Hi. pose proof (Inc i Hi) as Lt. destruct (Fp i Hi) as (p & Pp & Ep). destruct (second_linear f f1 f2 p (xs i) (xs (S i)) Lt Pp Ep D1 D2 Cf) as (al & be & El).
  set (H := fun x => (al + be * x) * e1 x - be * e x). assert (Ek : forall k, (k < n)%nat -> e (xs k) = 0) by (intros k Hk; unfold e; rewrite (proj1 Sm k Hk), (Fy k Hk); ring).
  replace (f2 (xs (S i)) * e1 (xs (S i)) - f2 (xs i) * e1 (xs i)) with (minus (H (xs (S i))) (H (xs i))) by (unfold H, minus, plus, opp; cbn; rewrite !Ek, !El by (lia || lra); ring).
  apply is_RInt_ext with (fun x => (al + be * x) * e2 x); [intros x Hx; rewrite Rmin_left, Rmax_right in Hx by lra; rewrite El by lra; reflexivity|].
  apply (is_RInt_derive H).
  - intros x Hx. rewrite Rmin_left, Rmax_right in Hx by lra. destruct (proj2 Sm x (inside i x Hi Hx)) as (G1 & G2 & _).
    assert (A1 : is_derive e x (e1 x)) by (apply (is_derive_minus g f); [exact G1|apply D1]). assert (A2 : is_derive e1 x (e2 x)) by (apply (is_derive_minus g1 f1); [exact G2|apply D2]).
    unfold H. replace ((al + be * x) * e2 x) with (minus (be * e1 x + (al + be * x) * e2 x) (be * e1 x)) by (unfold minus, plus, opp; cbn; ring).
    apply (is_derive_minus (fun x => (al + be * x) * e1 x)); [|apply (is_derive_scal e), A1]. apply (is_derive_mult (fun x => al + be * x) e1); [auto_derive; [auto|ring]|exact A2|intros; apply Rmult_comm].
  - intros x Hx. rewrite Rmin_left, Rmax_right in Hx by lra. apply (continuous_mult (fun x => al + be * x) e2); [|apply e2_cont, (inside i x Hi Hx)]. apply (ex_derive_continuous (fun x => al + be * x)). auto_derive. auto.
Qed.
Lemma partial_energy k : (k < n)%nat -> is_RInt (fun x => f2 x * e2 x) (xs 0%nat) (xs k) (f2 (xs k) * e1 (xs k) - f2 (xs 0%nat) * e1 (xs 0%nat)).
Proof.
  induction k as [|k IH]; intros Hk; [rewrite Rminus_diag_eq by reflexivity; apply (@is_RInt_point R_NormedModule)|].
  replace (f2 (xs (S k)) * e1 (xs (S k)) - f2 (xs 0%nat) * e1 (xs 0%nat)) with (plus (f2 (xs k) * e1 (xs k) - f2 (xs 0%nat) * e1 (xs 0%nat)) (f2 (xs (S k)) * e1 (xs (S k)) - f2 (xs k) * e1 (xs k))) by (unfold plus; cbn; ring).
  apply (@is_RInt_Chasles R_NormedModule) with (xs k); [apply IH; lia|apply segment_energy; lia].
Qed.
Lemma energy_split : RInt (fun x => g2 x ^ 2) (xs 0%nat) (xs (n - 1)%nat) = RInt (fun x => f2 x ^ 2) (xs 0%nat) (xs (n - 1)%nat) + RInt (fun x => e2 x ^ 2) (xs 0%nat) (xs (n - 1)%nat).
Proof.
  set (a := xs 0%nat). set (b := xs (n - 1)%nat). assert (Lab : a <= b) by (apply (inc_le n xs Hn Inc); lia).
  assert (Ex : forall h, (forall x, a <= x <= b -> continuous h x) -> ex_RInt (fun x => h x ^ 2) a b).
  { intros h Ch. apply (@ex_RInt_continuous R_CompleteNormedModule). intros x Hx. rewrite Rmin_left, Rmax_right in Hx by lra. apply (continuous_ext (fun x => h x * h x)); [intros; symmetry; exact (sq_eq _)|apply (continuous_mult h h); apply Ch, Hx]. }
  apply is_RInt_unique. pose proof (partial_energy (n - 1) ltac:(lia)) as Pz. rewrite Z0, Zn, !Rmult_0_l, Rminus_0_r in Pz. fold a b in Pz.
  pose proof (RInt_correct (fun x => f2 x ^ 2) a b (Ex f2 ltac:(intros; apply Cf))) as If. pose proof (RInt_correct (fun x => e2 x ^ 2) a b (Ex e2 e2_cont)) as Ie.
  apply is_RInt_ext with (fun x => plus (f2 x ^ 2) (plus (scal 2 (f2 x * e2 x)) (e2 x ^ 2))); [intros x _; unfold e2, plus, scal; cbn; unfold mult; cbn; ring|].
  replace (RInt (fun x => f2 x ^ 2) a b + RInt (fun x => e2 x ^ 2) a b) with (plus (RInt (fun x => f2 x ^ 2) a b) (plus (scal 2 0) (RInt (fun x => e2 x ^ 2) a b))) by (unfold plus, scal; cbn; unfold mult; cbn; ring).
  apply (@is_RInt_plus R_NormedModule); [exact If|]. apply (@is_RInt_plus R_NormedModule); [|exact Ie]. apply (@is_RInt_scal R_NormedModule). exact Pz.
Qed.
Lemma energy_min : RInt (fun x => f2 x ^ 2) (xs 0%nat) (xs (n - 1)%nat) <= RInt (fun x => g2 x ^ 2) (xs 0%nat) (xs (n - 1)%nat).
Proof.
  rewrite energy_split. assert (0 <= RInt (fun x => e2 x ^ 2) (xs 0%nat) (xs (n - 1)%nat)); [|lra]. assert (Lab : xs 0%nat <= xs (n - 1)%nat) by (apply (inc_le n xs Hn Inc); lia). apply RInt_ge_0; [exact Lab| |intros; apply pow2_ge_0].
  apply (@ex_RInt_continuous R_CompleteNormedModule). intros x Hx. rewrite Rmin_left, Rmax_right in Hx by lra. apply (continuous_ext (fun x => e2 x * e2 x)); [intros; symmetry; exact (sq_eq _)|apply (continuous_mult e2 e2); apply e2_cont, Hx].
Qed.
Lemma energy_eq : RInt (fun x => g2 x ^ 2) (xs 0%nat) (xs (n - 1)%nat) = RInt (fun x => f2 x ^ 2) (xs 0%nat) (xs (n - 1)%nat) -> forall x, xs 0%nat <= x <= xs (n - 1)%nat -> g x = f x.
Proof.
  intros E. rewrite energy_split in E. assert (Z : RInt (fun x => e2 x ^ 2) (xs 0%nat) (xs (n - 1)%nat) = 0) by lra. pose proof (energy_zero e2 _ _ e2_cont Z) as E2. set (a := xs 0%nat) in *. set (b := xs (n - 1)%nat) in *.
  assert (Lab : a < b) by (apply (inc_lt n xs Hn Inc); lia).
  assert (A1 : forall x, a <= x <= b -> is_derive e x (e1 x)) by (intros x Hx; apply (is_derive_minus g f); [apply Sm, Hx|apply D1]). assert (A2 : forall x, a <= x <= b -> is_derive e1 x (e2 x)) by (intros x Hx; apply (is_derive_minus g1 f1); [apply Sm, Hx|apply D2]).
  assert (K1 : forall x, a <= x <= b -> e1 x = e1 a).
  { intros x Hx. destruct (Req_dec a x) as [->|Ne]; [reflexivity|]. destruct (MVT_gen e1 a x e2) as (c & Hc & Ec).
    - intros t Ht. rewrite Rmin_left, Rmax_right in Ht by lra. apply A2. lra.
    - intros t Ht. rewrite Rmin_left, Rmax_right in Ht by lra. apply continuity_pt_filterlim. apply (ex_derive_continuous e1). exists (e2 t). apply A2. lra.
    - destruct (MVT_cor2 e1 e2 a x ltac:(lra)) as (d & Ed & Hd); [intros t Ht; apply is_derive_Reals, A2; lra|]. rewrite (E2 d) in Ed by lra. lra. }
  assert (K0 : forall x, a <= x <= b -> e x = e a + e1 a * (x - a)).
  { intros x Hx. destruct (Req_dec a x) as [->|Ne]; [ring|]. destruct (MVT_cor2 e e1 a x ltac:(lra)) as (d & Ed & Hd); [intros t Ht; apply is_derive_Reals, A1; lra|]. rewrite (K1 d) in Ed by lra. lra. }
  assert (Ek : forall k, (k < n)%nat -> e (xs k) = 0) by (intros k Hk; unfold e; rewrite (proj1 Sm k Hk), (Fy k Hk); ring).
  pose proof (Ek 0%nat ltac:(lia)) as Ea. pose proof (Ek (n - 1)%nat ltac:(lia)) as Eb. fold a in Ea. fold b in Eb. pose proof (K0 b ltac:(lra)) as Kb. rewrite Ea, Eb in Kb.
  assert (S0 : e1 a = 0) by (apply Rmult_eq_reg_r with (b - a); lra). intros x Hx. specialize (K0 x Hx). rewrite Ea, S0 in K0. unfold e in K0. lra.
Qed.
End Minimum.
(** Of all twice differentiable interpolants the spline bends least, and only the spline does. *)
Theorem C114_smoothest : forall n xs ys s f, spline_new n xs ys = Some s -> (forall x, spline_eval s x = Some (f x)) ->
  exists f1 f2, (forall x, is_derive f x (f1 x)) /\ (forall x, is_derive f1 x (f2 x)) /\ (forall x, continuous f2 x) /\
  forall g g1 g2, smooth_interpolant n xs ys g g1 g2 ->
    RInt (fun x => f2 x ^ 2) (xs 0%nat) (xs (n - 1)%nat) <= RInt (fun x => g2 x ^ 2) (xs 0%nat) (xs (n - 1)%nat) /\
    (RInt (fun x => g2 x ^ 2) (xs 0%nat) (xs (n - 1)%nat) = RInt (fun x => f2 x ^ 2) (xs 0%nat) (xs (n - 1)%nat) ->
     forall x, xs 0%nat <= x <= xs (n - 1)%nat -> g x = f x).
Proof.
  intros n xs ys s f Hs Ev. destruct (proj1 (C47_construction n xs ys) (ex_intro _ s Hs)) as (Hn & Inc). destruct (C47_natural_cubic_spline n xs ys s Hs) as (f' & Ev' & Fy & Fp & f1 & f2 & D1 & D2 & Cf & Z0 & Zn).
  assert (Ef : forall x, f' x = f x) by (intros x; specialize (Ev x); rewrite Ev' in Ev; injection Ev as E; exact E).
  exists f1, f2. split; [intros x; apply (is_derive_ext f'); [exact Ef|apply D1]|]. split; [exact D2|]. split; [exact Cf|]. intros g g1 g2 Sm. split.
  - apply (energy_min n xs ys f' f1 f2 g g1 g2); assumption.
  - intros E x Hx. rewrite <- Ef. apply (energy_eq n xs ys f' f1 f2 g g1 g2); assumption.
Qed.
(** There is one natural cubic spline through the data, and it is the one computed. *)
Theorem C114_unique : forall n xs ys s g, spline_new n xs ys = Some s -> natural_cubic_spline n xs ys g -> forall x, xs 0%nat <= x <= xs (n - 1)%nat -> spline_eval s x = Some (g x).
Proof.
  intros n xs ys s g Hs (Gy & Gp & g1 & g2 & G1 & G2 & Gc & Ga & Gb) x Hx. destruct (proj1 (C47_construction n xs ys) (ex_intro _ s Hs)) as (Hn & Inc). destruct (C47_natural_cubic_spline n xs ys s Hs) as (f & Ev & Fy & Fp & f1 & f2 & D1 & D2 & Cf & Z0 & Zn).
  assert (S1 : smooth_interpolant n xs ys g g1 g2) by (split; [exact Gy|intros t _; auto]). assert (S2 : smooth_interpolant n xs ys f f1 f2) by (split; [exact Fy|intros t _; auto]).
  rewrite Ev. f_equal. symmetry. apply (energy_eq n xs ys f f1 f2 g g1 g2); try assumption. apply Rle_antisym.
  - apply (energy_min n xs ys g g1 g2 f f1 f2); assumption.
  - apply (energy_min n xs ys f f1 f2 g g1 g2); assumption.
Qed.
(** through (0,0), (1,1), (2,4) the parabola x^2 passes too, and bends more *)
Example C114_nontrivial : exists s f f1 f2, spline_new 3 INR (fun i => INR i * INR i) = Some s /\ (forall x, spline_eval s x = Some (f x)) /\
  (forall x, is_derive f x (f1 x)) /\ (forall x, is_derive f1 x (f2 x)) /\
  smooth_interpolant 3 INR (fun i => INR i * INR i) (fun x => x * x) (fun x => 2 * x) (fun _ => 2) /\ RInt (fun x => f2 x ^ 2) 0 2 <= 8.
Proof.
  assert (H : (2 <= 3)%nat /\ increasing 3 INR) by (split; [lia|]; intros i Hi; rewrite S_INR; lra). destruct (proj2 (C47_construction 3 INR (fun i => INR i * INR i)) H) as (s & E). destruct (C47_natural_cubic_spline _ _ _ s E) as (f & Ev & _).
  destruct (C114_smoothest _ _ _ s f E Ev) as (f1 & f2 & D1 & D2 & _ & Min).
  assert (Sm : smooth_interpolant 3 INR (fun i => INR i * INR i) (fun x => x * x) (fun x => 2 * x) (fun _ => 2)).
  { split; [reflexivity|]. intros x _. split; [auto_derive; [auto|ring]|]. split; [auto_derive; [auto|ring]|apply continuous_const]. }
  exists s, f, f1, f2. split; [exact E|]. split; [exact Ev|]. split; [exact D1|]. split; [exact D2|]. split; [exact Sm|]. destruct (Min _ _ _ Sm) as (Le & _). cbn [Nat.sub] in Le. replace (INR 2) with 2 in Le by (cbn; ring). change (INR 0) with 0 in Le.
  eapply Rle_trans; [exact Le|]. rewrite (RInt_const 0 2 (2 ^ 2)). unfold scal; cbn; unfold mult; cbn. lra.
Qed.

(** * Linear interpolation in floating point (C45) *)
From Flocq Require Import Core Relative Plus_error.
From Verif Require Import Floats.
Local Instance p53 : Prec_gt_0 53 := eq_refl.
(** it moves one way only, and never to the wrong side of its start *)
Theorem C45_float_monotone : forall a b s t, generic_format radix2 fexp64 a -> 0 <= s <= t ->
  (a <= b -> a <= lerp_f64 a b s <= lerp_f64 a b t) /\ (b <= a -> lerp_f64 a b t <= lerp_f64 a b s <= a).
Proof.
  intros a b s t Ha Hst. assert (Ea : f64 a = a) by (apply round_generic; [apply valid_rnd_N|exact Ha]). unfold lerp_f64. split; intros Hab.
  - assert (D : 0 <= f64 (b - a)) by (rewrite <- f64_0; apply f64_le; lra). split.
    + rewrite <- Ea at 1. apply f64_le. assert (0 <= f64 (f64 (b - a) * s)); [|lra]. rewrite <- f64_0. apply f64_le. apply Rmult_le_pos; lra.
    + apply f64_le, Rplus_le_compat_l, f64_le, Rmult_le_compat_l; lra.
  - assert (D : f64 (b - a) <= 0) by (rewrite <- f64_0; apply f64_le; lra). split.
    + apply f64_le, Rplus_le_compat_l, f64_le. apply Rmult_le_compat_neg_l; lra.
    + rewrite <- Ea at 3. apply f64_le. assert (f64 (f64 (b - a) * s) <= 0); [|lra]. rewrite <- f64_0. apply f64_le. apply Rmult_le_0_r; lra.
Qed.
(** and stays near the exact value, for u = 2^-53 and the smallest numbers 2^-1074 *)
Theorem C45_float_error : forall a b t, generic_format radix2 fexp64 a -> generic_format radix2 fexp64 b ->
  Rabs (lerp_f64 a b t - lerp a b t) <= / 2 ^ 53 * Rabs (lerp a b t) + 3 * / 2 ^ 53 * Rabs ((b - a) * t) + bpow radix2 (-1074).
Proof.
  intros a b t Ha Hb. set (u := / 2 ^ 53). assert (Eu : / 2 * bpow radix2 (- (53) + 1) = u) by (unfold u; cbn; lra).
  assert (U0 : 0 < u <= / 1000). { unfold u. split; [apply Rinv_0_lt_compat, pow_lt; lra|]. apply Rinv_le_contravar; [lra|]. apply Rle_trans with (2 ^ 10); [lra|]. apply Rle_pow; [lra|lia]. }
  assert (Pl : forall x y, generic_format radix2 fexp64 x -> generic_format radix2 fexp64 y -> exists e, Rabs e <= u /\ f64 (x + y) = (x + y) * (1 + e)).
  { intros x y Hx Hy. destruct (FLT_plus_error_N_ex radix2 (-1074) 53 (fun z => negb (Z.even z)) x y Hx Hy) as (e & He & E). exists e. split; [|exact E].
    eapply Rle_trans; [exact He|]. unfold u_ro. rewrite Eu. apply Rle_div_l; [lra|]. assert (0 <= u * u) by (apply Rmult_le_pos; lra). lra. }
  destruct (Pl b (- a) Hb ltac:(apply generic_format_opp, Ha)) as (e1 & H1 & E1). change (b + - a) with (b - a) in E1.
  destruct (error_N_FLT radix2 (-1074) 53 eq_refl (fun z => negb (Z.even z)) (f64 (b - a) * t)) as (e2 & et & H2 & H3 & _ & E2). rewrite Eu in H2. change (round radix2 (FLT_exp (-1074) 53) (Znearest (fun z => negb (Z.even z))) (f64 (b - a) * t)) with (f64 (f64 (b - a) * t)) in E2.
  destruct (Pl a (f64 (f64 (b - a) * t)) Ha) as (e3 & H4 & E3); [apply generic_format_round; [apply FLT_exp_valid; exact eq_refl|apply valid_rnd_N]|].
  unfold lerp_f64, lerp. rewrite E3, E2, E1. set (d := (b - a) * t) in *. set (p := d * (e1 + e2 + e1 * e2) + et).
  replace ((a + ((b - a) * (1 + e1) * t * (1 + e2) + et)) * (1 + e3) - (a + d)) with ((a + d) * e3 + p * (1 + e3)) by (unfold p, d; ring).
  set (eta := bpow radix2 (-1074)) in *. assert (Et : 0 < eta) by apply bpow_gt_0.
  assert (H5 : Rabs (e1 + e2 + e1 * e2) <= 2 * u + u * u).
  { eapply Rle_trans; [apply Rabs_triang|]. apply Rplus_le_compat; [eapply Rle_trans; [apply Rabs_triang|lra]|]. rewrite Rabs_mult. apply Rmult_le_compat; try apply Rabs_pos; assumption. }
  assert (Pd := Rabs_pos d). assert (H6 : Rabs p <= Rabs d * (2 * u + u * u) + / 2 * eta).
  { unfold p. eapply Rle_trans; [apply Rabs_triang|]. apply Rplus_le_compat; [|exact H3]. rewrite Rabs_mult. apply Rmult_le_compat_l; assumption. }
  assert (H7 : Rabs (1 + e3) <= 1 + u) by (eapply Rle_trans; [apply Rabs_triang|]; rewrite Rabs_R1; lra).
  eapply Rle_trans; [apply Rabs_triang|]. rewrite !Rabs_mult. assert (A1 : Rabs (a + d) * Rabs e3 <= u * Rabs (a + d)) by (rewrite Rmult_comm; apply Rmult_le_compat_r; [apply Rabs_pos|assumption]).
  assert (A2 : Rabs p * Rabs (1 + e3) <= (Rabs d * (2 * u + u * u) + / 2 * eta) * (1 + u)) by (apply Rmult_le_compat; try apply Rabs_pos; assumption).
  assert (A3 : Rabs d * ((2 * u + u * u) * (1 + u)) <= Rabs d * (3 * u)). { apply Rmult_le_compat_l; [exact Pd|]. assert (0 <= u * u) by (apply Rmult_le_pos; lra). assert (u * u <= / 1000 * u) by (apply Rmult_le_compat_r; lra). assert (u * (u * u) <= / 1000 * (u * u)) by (apply Rmult_le_compat_r; lra). lra. }
  assert (A4 : / 2 * eta * (1 + u) <= eta). { assert (eta * u <= eta * / 1000) by (apply Rmult_le_compat_l; lra). lra. }
  lra.
Qed.
