(** C115: the path of fixed-step gradient descent, how fast it converges on convex functions, and
    what a reported convergence says about the distance to the minimiser. *)
From Coq Require Import QArith Qreals Reals List Arith Lia Lra Psatz Bool.
From Verif Require Import Scalar RSum LinModel LinProofs OptModel OptSpec OptProofs OptProps.
Import ListNotations.
Local Open Scope nat_scope.

(** ** Specification *)
(** squared distance of two points *)
Definition dist2 (n : nat) (x y : nat -> R) : R := sum n (fun i => ((x i - y i) * (x i - y i))%R).
(** the points differ only in their [n] coordinates *)
Definition same_tail (n : nat) (x y : nat -> R) : Prop := forall i, n <= i -> y i = x i.
(** [f] with gradient [g] lies above its tangents, by at least [mu/2] times the squared distance *)
Definition convex (n : nat) (f : (nat -> R) -> R) (g : (nat -> R) -> nat -> R) (mu : R) : Prop :=
  forall x y, same_tail n x y ->
    (f x + sum n (fun i => g x i * (y i - x i)) + mu / 2 * dist2 n y x <= f y)%R.
(** the allowed points: inside the box when one is set *)
Definition allowed (n : nat) (c : @gd R) (y : nat -> R) : Prop :=
  gd_has_bounds c = true -> forall i, i < n -> (gd_min c i <= y i <= gd_max c i)%R.
Definition box_ok (n : nat) (c : @gd R) : Prop :=
  gd_has_bounds c = true -> forall i, i < n -> (gd_min c i <= gd_max c i)%R.
(** the nearest allowed value of coordinate [i] *)
Definition nearest (c : @gd R) (i : nat) (z : R) : R :=
  if gd_has_bounds c then Rmax (gd_min c i) (Rmin (gd_max c i) z) else z.
(** [y] minimises [f] over the allowed points *)
Definition minimiser (n : nat) (c : @gd R) (f : (nat -> R) -> R) (y : nat -> R) : Prop :=
  allowed n c y /\ forall z, same_tail n y z -> allowed n c z -> (f y <= f z)%R.

(** ** The sequence of states of the loop *)
Lemma opt_loop_states {S} (body : nat -> S -> option (S * verdict)) m :
  (forall j s s', body j s = Some (s', StopBefore) -> s' = s) ->
  forall k s s' k' ok, opt_loop body m k s = Some (s', k', ok) ->
  k <= k' /\ exists X : nat -> S, X k = s /\ X k' = s' /\
    (forall j, k <= j < k' -> exists v, body j (X j) = Some (X (j + 1), v) /\ v <> StopBefore /\
       (v = StopAfter -> ok = true)) /\
    (ok = true -> body k' s' = Some (s', StopBefore) \/
       exists j, k <= j /\ j + 1 = k' /\ body j (X j) = Some (s', StopAfter)).
Proof.
  intros Hb. induction m as [|m IH]; intros k s s' k' ok H; cbn [opt_loop] in H.
  - injection H as <- <- <-. split; [lia|]. exists (fun _ => s). split; [reflexivity|]. split; [reflexivity|].
    split; [lia|discriminate].
  - destruct (body k s) as [[s1 v]|] eqn:E; [|discriminate]. destruct v.
    + injection H as <- <- <-. pose proof (Hb _ _ _ E) as ->. split; [lia|]. exists (fun _ => s).
      split; [reflexivity|]. split; [reflexivity|]. split; [lia|]. intros _. left. exact E.
    + injection H as <- <- <-. split; [lia|]. exists (fun j => if j =? k then s else s1). rewrite Nat.eqb_refl.
      replace (k + 1 =? k) with false by (symmetry; apply Nat.eqb_neq; lia).
      split; [reflexivity|]. split; [reflexivity|]. split.
      * intros j Hj. replace j with k by lia. rewrite Nat.eqb_refl.
        replace (k + 1 =? k) with false by (symmetry; apply Nat.eqb_neq; lia). exists StopAfter.
        split; [exact E|]. split; [discriminate|auto].
      * intros _. right. exists k. rewrite Nat.eqb_refl. auto.
    + apply IH in H. destruct H as (Hk & X & X0 & Xk & Hst & Hok). split; [lia|].
      exists (fun j => if j =? k then s else X j). rewrite Nat.eqb_refl.
      assert (Ej : forall j, k + 1 <= j -> (if j =? k then s else X j) = X j).
      { intros j Hj. replace (j =? k) with false by (symmetry; apply Nat.eqb_neq; lia). reflexivity. }
      split; [reflexivity|]. split; [rewrite Ej by lia; exact Xk|]. split.
      * intros j Hj. rewrite (Ej (j + 1)) by lia. destruct (Nat.eq_dec j k) as [->|Nj].
        -- rewrite Nat.eqb_refl. exists Go. split; [rewrite E; f_equal; f_equal; symmetry; exact X0|].
           split; discriminate.
        -- rewrite Ej by lia. apply Hst. lia.
      * intros Eo. destruct (Hok Eo) as [A|(j & A & B & C)]; [left; exact A|]. right. exists j.
        rewrite Ej by lia. split; [lia|]. auto.
Qed.

Local Open Scope R_scope.

Lemma clamp_nearest n c i z : box_ok n c -> (i < n)%nat ->
  (if gd_has_bounds c then clamp1 Rops (gd_min c i) (gd_max c i) z else z) = nearest c i z.
Proof.
  intros Hb Hi. unfold nearest. destruct (gd_has_bounds c) eqn:E; [|reflexivity]. specialize (Hb E i Hi).
  unfold clamp1. cbn [ltb Rops]. unfold Rltb, Rmax, Rmin.
  repeat (destruct (Rlt_dec _ _) || destruct (Rle_dec _ _)); lra.
Qed.

(** one turn of the loop without backtracking *)
Lemma fixed_body n c f g fuel s s' v : gd_backtracking c = false -> box_ok n c ->
  gd_body Rops n c f g fuel s = Some (s', v) ->
  (v = StopBefore /\ s' = s /\ length2 n (g (st_x s)) <= gd_tol_grad c) \/
  (v <> StopBefore /\ gd_tol_grad c < length2 n (g (st_x s)) /\ st_f s' = f (st_x s') /\
   same_tail n (st_x s) (st_x s') /\
   (forall i, (i < n)%nat -> st_x s' i =
      nearest c i (st_x s i - gd_lr c * g (st_x s) i + gd_lr c * gd_momentum c * st_v s i)) /\
   (forall i, (i < n)%nat -> st_v s' i = st_x s' i - st_x s i) /\
   (v = StopAfter <-> length2 n (fun i => st_x s' i - st_x s i) <= gd_tol_step c)).
Proof.
  intros Hb Hbox. unfold gd_body. rewrite norm2_R, Hb. cbn [leb Rops]. destruct (Rleb _ _) eqn:E; intros H.
  - injection H as <- <-. left. apply Rleb_iff in E. auto.
  - right. apply Rleb_niff in E.
    match type of H with context [gd_project Rops n c ?z] => remember (gd_project Rops n c z) as x' eqn:Ex end.
    change (x' = trial_point Rops n c (st_x s) (direction Rops n c (g (st_x s)) (st_v s)) (gd_lr c)) in Ex.
    assert (T : length2 n (fun i => x' i - st_x s i) = norm2 Rops n (vfill n (fun i => sub Rops (x' i) (st_x s i)) (st_v s))).
    { rewrite <- norm2_R. apply norm2_ext. intros i Hi. rewrite vfill_in by exact Hi. reflexivity. }
    injection H as <- <-. cbn [st_x st_v st_f]. split; [destruct (Rleb _ _); discriminate|].
    split; [exact E|]. split; [reflexivity|]. split; [intros i Hi; rewrite Ex; apply trial_out; exact Hi|]. split; [|split].
    + intros i Hi. rewrite Ex. rewrite trial_R by exact Hi. unfold moved. rewrite (clamp_nearest n) by assumption.
      f_equal. unfold direction. rewrite vfill_in by exact Hi. cbn [add mul neg Rops]. ring.
    + intros i Hi. rewrite vfill_in by exact Hi. reflexivity.
    + rewrite T. destruct (Rleb _ _) eqn:E2; [apply Rleb_iff in E2|apply Rleb_niff in E2]; (split; [intros Q; try discriminate Q; auto|intros Q; auto; exfalso; apply (Rlt_not_le _ _ E2); exact Q]).
Qed.

Lemma fixed_keep n c f g fuel : gd_backtracking c = false -> forall (j : nat) s s',
  gd_body Rops n c f g fuel s = Some (s', StopBefore) -> s' = s.
Proof.
  intros Hb j s s' H. apply gd_body_spec in H. destruct H as [(_ & -> & _)|(Q & _)]; congruence.
Qed.

(** ** The path *)
(** With a fixed step the iterates are
      X (j+1) = P (X j - lr g (X j) + lr m (X j - X (j-1)))
    with X (-1) = X 0 (in [nat], [0 - 1] is [0]): the momentum that acts is [lr] times the one set.
    The loop goes on exactly while gradient and step are above their tolerances. *)
Theorem C115_path : forall n c f g fuel x0 x fx k ok,
  gd_backtracking c = false -> box_ok n c ->
  minimize Rops n c f g fuel x0 = Some (x, fx, k, ok) ->
  exists X : nat -> nat -> R, X 0%nat = x0 /\ X k = x /\ fx = f x /\
    (forall j, (j < k)%nat -> same_tail n (X j) (X (j + 1)%nat) /\
       gd_tol_grad c < length2 n (g (X j)) /\
       (forall i, (i < n)%nat -> X (j + 1)%nat i =
          nearest c i (X j i - gd_lr c * g (X j) i + gd_lr c * gd_momentum c * (X j i - X (j - 1)%nat i)))) /\
    (forall j, (j + 1 < k)%nat -> gd_tol_step c < length2 n (fun i => X (j + 1)%nat i - X j i)) /\
    (if ok then length2 n (g x) <= gd_tol_grad c \/
                exists j, k = (j + 1)%nat /\ length2 n (fun i => x i - X j i) <= gd_tol_step c
     else k = gd_max_iters c /\ forall j, k = (j + 1)%nat -> gd_tol_step c < length2 n (fun i => x i - X j i)).
Proof.
  intros n c f g fuel x0 x fx k ok Hb Hbox H. pose proof H as HF. apply minimize_run in H. destruct H as (s & E & <- & <-).
  pose proof E as E'. apply opt_loop_states in E'; [|exact (fixed_keep n c f g fuel Hb)].
  destruct E' as (_ & S & S0 & Sk & Hst & Hok). exists (fun j => st_x (S j)).
  assert (V : forall j, (j <= k)%nat -> st_f (S j) = f (st_x (S j)) /\
            forall i, (i < n)%nat -> st_v (S j) i = st_x (S j) i - st_x (S (j - 1)%nat) i).
  { intros j Hj. destruct j as [|j].
    - rewrite S0. cbn [st_f st_x st_v]. split; [reflexivity|]. intros i Hi. replace (0 - 1)%nat with 0%nat by lia. rewrite S0. cbn [st_x]. unfold vzero. cbn [zero Rops]. ring.
    - destruct (Hst j ltac:(lia)) as (v & Eb & Hv & _). cbv beta in Eb. rewrite Nat.add_1_r in Eb.
      destruct (fixed_body _ _ _ _ _ _ _ _ Hb Hbox Eb) as [(Q & _)|(_ & _ & A & _ & _ & B & _)]; [congruence|].
      split; [exact A|]. intros i Hi. replace (Datatypes.S j - 1)%nat with j by lia. apply B. exact Hi. }
  split; [rewrite S0; reflexivity|]. split; [rewrite Sk; reflexivity|].
  split; [rewrite <- Sk; apply V; lia|].
  split; [|split].
  - intros j Hj. destruct (Hst j ltac:(lia)) as (v & Eb & Hv & _). cbv beta in Eb.
    destruct (fixed_body _ _ _ _ _ _ _ _ Hb Hbox Eb) as [(Q & _)|(_ & A & _ & B & C & _)]; [congruence|].
    split; [exact B|]. split; [exact A|]. intros i Hi. rewrite (C i Hi). destruct (V j ltac:(lia)) as [_ W]. rewrite (W i Hi). reflexivity.
  - intros j Hj. destruct (Hst j ltac:(lia)) as (v & Eb & Hv & _). cbv beta in Eb.
    destruct (fixed_body _ _ _ _ _ _ _ _ Hb Hbox Eb) as [(Q & _)|(_ & _ & _ & _ & _ & _ & D)]; [congruence|].
    destruct (Rle_or_lt (length2 n (fun i => st_x (S (j + 1)%nat) i - st_x (S j) i)) (gd_tol_step c)) as [L|L]; [|exact L].
    exfalso. apply D in L. subst v.
    (* a stop after turn j ends the loop there *)
    destruct ok.
    + apply opt_loop_true in E. destruct E as (m & s0 & w & Hm & El & Ew & Hw).
      assert (j < m)%nat by (cbn in Hw; destruct Hw as [[_ Hw]|[_ Hw]]; lia).
      pose proof (opt_loop_states _ _ (fixed_keep n c f g fuel Hb) _ _ _ _ _ El) as (_ & S' & S0' & Sk' & Hst' & _).
      assert (G : forall i, (i <= m)%nat -> S' i = S i).
      { induction i as [|i IH]; intros Hi; [rewrite S0, S0'; reflexivity|].
        destruct (Hst' i ltac:(cbn; lia)) as (v1 & E1 & _). assert (i < k)%nat by (cbn in Hw; destruct Hw as [[_ Hw]|[_ Hw]]; lia).
        destruct (Hst i ltac:(lia)) as (v2 & E2 & _). cbv beta in E1, E2. rewrite IH in E1 by lia. rewrite E1 in E2. injection E2 as E2 _. rewrite !Nat.add_1_r in E2. exact E2. }
      destruct (Hst' j ltac:(cbn; lia)) as (v1 & E1 & _ & F1). cbv beta in E1. rewrite !G in E1 by lia. rewrite Eb in E1.
      injection E1 as <-. specialize (F1 eq_refl). discriminate.
    + destruct (Hst j ltac:(lia)) as (v1 & E1 & _ & F1). cbv beta in E1. rewrite Eb in E1. injection E1 as <-. specialize (F1 eq_refl). discriminate.
  - destruct ok.
    + destruct (Hok eq_refl) as [A|(j & _ & Ej & A)].
      * left. apply fixed_body in A; [|exact Hb|exact Hbox]. destruct A as [(_ & _ & A)|(Q & _)]; [exact A|congruence].
      * right. exists j. split; [lia|]. apply fixed_body in A; [|exact Hb|exact Hbox].
        destruct A as [(Q & _)|(_ & _ & _ & _ & _ & _ & D)]; [discriminate|]. apply D. reflexivity.
    + split; [apply opt_loop_false in E; cbn in E; lia|]. intros j Ej.
      destruct (Hst j ltac:(lia)) as (v & Eb & Hv & F1). cbv beta in Eb.
      destruct (fixed_body _ _ _ _ _ _ _ _ Hb Hbox Eb) as [(Q & _)|(_ & _ & _ & _ & _ & _ & D)]; [congruence|].
      replace (j + 1)%nat with k in D by lia. rewrite Sk in D.
      destruct (Rle_or_lt (length2 n (fun i => st_x s i - st_x (S j) i)) (gd_tol_step c)) as [L|L]; [|exact L].
      apply D in L. specialize (F1 L). discriminate.
Qed.

(** ** Rates *)
Lemma dist2_pos n x y : 0 <= dist2 n x y.
Proof. apply sum_pos. intros i Hi. apply Rle_0_sqr. Qed.
Lemma dist2_len n x y : length2 n (fun i => x i - y i) * length2 n (fun i => x i - y i) = dist2 n x y.
Proof. apply length2_sq. Qed.
Lemma dist2_sym n x y : dist2 n x y = dist2 n y x.
Proof. apply sum_ext. intros. ring. Qed.

Lemma nearest_in n c z : box_ok n c -> allowed n c (fun i => nearest c i (z i)).
Proof.
  intros Hb E i Hi. unfold nearest. rewrite E. specialize (Hb E i Hi).
  unfold Rmax, Rmin. repeat destruct (Rle_dec _ _); lra.
Qed.
Lemma nearest_obtuse n c i z y : allowed n c y -> (i < n)%nat ->
  0 <= (z - nearest c i z) * (nearest c i z - y i).
Proof.
  intros Hy Hi. unfold nearest. destruct (gd_has_bounds c) eqn:E; [|nra]. specialize (Hy E i Hi).
  set (lo := gd_min c i) in *. set (hi := gd_max c i) in *.
  unfold Rmax, Rmin. repeat destruct (Rle_dec _ _); try (exfalso; lra); try (replace (z - z) with 0 by ring; lra).
  - replace ((z - hi) * (hi - y i)) with ((z - hi) * (hi - y i) + 0) by ring. assert (0 <= (z - hi) * (hi - y i)) by (apply Rmult_le_pos; lra). lra.
  - assert (0 <= (lo - z) * (y i - lo)) by (apply Rmult_le_pos; lra). lra.
Qed.

(** one projected step, measured against any allowed point *)
Lemma step_inequality n c f g L mu x x' y : smooth n f g L -> convex n f g mu ->
  0 < gd_lr c -> gd_lr c * L <= 1 -> same_tail n x x' -> same_tail n x y -> allowed n c y ->
  (forall i, (i < n)%nat -> x' i = nearest c i (x i - gd_lr c * g x i)) ->
  2 * gd_lr c * (f x' - f y) <= (1 - gd_lr c * mu) * dist2 n x y - dist2 n x' y.
Proof.
  intros Hs Hc Hlr HL T T' Hy E. pose proof (Hs x x' T) as A. pose proof (Hc x y T') as B.
  fold (dist2 n x' x) in A. rewrite (dist2_sym n y x) in B. set (h := gd_lr c) in *.
  assert (P : 2 * h * sum n (fun i => g x i * (x' i - x i)) - 2 * h * sum n (fun i => g x i * (y i - x i))
              <= dist2 n x y - dist2 n x' y - dist2 n x' x).
  { unfold dist2. rewrite <- !sum_scal, <- !sum_minus. apply sum_le. intros i Hi.
    pose proof (nearest_obtuse n c i (x i - h * g x i) y Hy Hi) as O. rewrite <- (E i Hi) in O. nra. }
  pose proof (dist2_pos n x' x) as D.
  assert (h * L * dist2 n x' x <= dist2 n x' x) by nra.
  assert (M1 : 2 * h * f x' <= 2 * h * (f x + sum n (fun i => g x i * (x' i - x i)) + L / 2 * dist2 n x' x)) by (apply Rmult_le_compat_l; [lra|exact A]).
  assert (M2 : 2 * h * (f x + sum n (fun i => g x i * (y i - x i)) + mu / 2 * dist2 n x y) <= 2 * h * f y) by (apply Rmult_le_compat_l; [lra|exact B]).
  lra.
Qed.

Lemma path_plain n c f g fuel x0 x fx k ok : gd_backtracking c = false -> box_ok n c -> gd_momentum c = 0 ->
  minimize Rops n c f g fuel x0 = Some (x, fx, k, ok) ->
  exists X : nat -> nat -> R, X 0%nat = x0 /\ X k = x /\ fx = f x /\
    (forall j, (j <= k)%nat -> same_tail n x0 (X j)) /\
    (forall j, (j < k)%nat -> forall i, (i < n)%nat -> X (j + 1)%nat i = nearest c i (X j i - gd_lr c * g (X j) i)) /\
    (if ok then length2 n (g x) <= gd_tol_grad c \/
                exists j, k = (j + 1)%nat /\ length2 n (fun i => x i - X j i) <= gd_tol_step c
     else k = gd_max_iters c /\ forall j, k = (j + 1)%nat -> gd_tol_step c < length2 n (fun i => x i - X j i)).
Proof.
  intros Hb Hbox Hm H. destruct (C115_path _ _ _ _ _ _ _ _ _ _ Hb Hbox H) as (X & X0 & Xk & Ef & St & _ & Fin).
  exists X. split; [exact X0|]. split; [exact Xk|]. split; [exact Ef|]. split; [|split; [|exact Fin]].
  - induction j as [|j IH]; intros Hj i Hi; [rewrite X0; reflexivity|].
    destruct (St j ltac:(lia)) as (T & _). rewrite Nat.add_1_r in T. rewrite (T i Hi). apply IH; [lia|exact Hi].
  - intros j Hj i Hi. destruct (St j Hj) as (_ & _ & E). rewrite (E i Hi), Hm. f_equal. ring.
Qed.

Lemma same_tail_between n x0 a b : same_tail n x0 a -> same_tail n x0 b -> same_tail n a b.
Proof. intros A B i Hi. rewrite (A i Hi), (B i Hi). reflexivity. Qed.

(** Convex and smooth: after [k] fixed steps of at most [1/L], the value exceeds that of any
    allowed point by at most the squared distance from the start over [2 lr k]. *)
Theorem C115_sublinear : forall n c f g L fuel x0 y x fx k ok,
  gd_backtracking c = false -> gd_momentum c = 0 -> box_ok n c ->
  smooth n f g L -> convex n f g 0 -> 0 < gd_lr c -> gd_lr c * L <= 1 ->
  same_tail n x0 y -> allowed n c y ->
  minimize Rops n c f g fuel x0 = Some (x, fx, k, ok) -> (0 < k)%nat ->
  fx - f y <= dist2 n x0 y / (2 * gd_lr c * INR k).
Proof.
  intros n c f g L fuel x0 y x fx k ok Hb Hm Hbox Hs Hc Hlr HL T Hy H Hk.
  destruct (path_plain _ _ _ _ _ _ _ _ _ _ Hb Hbox Hm H) as (X & X0 & Xk & -> & Ta & St & _).
  assert (I : forall j, (j < k)%nat ->
            2 * gd_lr c * INR (S j) * (f (X (S j)) - f y) + dist2 n (X (S j)) y <= dist2 n x0 y).
  { induction j as [|j IH]; intros Hj.
    - pose proof (step_inequality n c f g L 0 (X 0%nat) (X 1%nat) y Hs Hc Hlr HL
        (same_tail_between _ _ _ _ (Ta 0%nat ltac:(lia)) (Ta 1%nat ltac:(lia)))
        (same_tail_between _ _ _ _ (Ta 0%nat ltac:(lia)) T) Hy (St 0%nat ltac:(lia))) as A.
      rewrite X0 in A. cbn [INR]. lra.
    - specialize (IH ltac:(lia)).
      pose proof (St (S j) ltac:(lia)) as E. rewrite Nat.add_1_r in E.
      pose proof (same_tail_between _ _ _ _ (Ta (S j) ltac:(lia)) (Ta (S (S j)) ltac:(lia))) as T1.
      pose proof (step_inequality n c f g L 0 (X (S j)) (X (S (S j))) y Hs Hc Hlr HL T1
        (same_tail_between _ _ _ _ (Ta (S j) ltac:(lia)) T) Hy E) as A.
      assert (Al : allowed n c (X (S j))).
      { pose proof (St j ltac:(lia)) as E'. rewrite Nat.add_1_r in E'. intros Eb i Hi. rewrite (E' i Hi).
        apply (nearest_in n c (fun i => X j i - gd_lr c * g (X j) i) Hbox Eb i Hi). }
      pose proof (step_inequality n c f g L 0 (X (S j)) (X (S (S j))) (X (S j)) Hs Hc Hlr HL T1
        (fun i _ => eq_refl) Al E) as B.
      assert (Z : dist2 n (X (S j)) (X (S j)) = 0) by (apply sum_0; intros; ring). rewrite Z in B.
      pose proof (dist2_pos n (X (S (S j))) (X (S j))) as D.
      assert (Dn : 2 * gd_lr c * (f (X (S (S j))) - f (X (S j))) <= 0) by lra.
      pose proof (pos_INR (S j)) as P. rewrite (S_INR (S j)). nra. }
  destruct k as [|k]; [lia|]. specialize (I k ltac:(lia)). rewrite Xk in I. pose proof (dist2_pos n x y) as D.
  pose proof (lt_0_INR (S k) ltac:(lia)) as P. assert (Q : 0 < 2 * gd_lr c * INR (S k)) by (apply Rmult_lt_0_compat; lra).
  apply (Rmult_le_reg_r (2 * gd_lr c * INR (S k))); [exact Q|]. replace (dist2 n x0 y / (2 * gd_lr c * INR (S k)) * (2 * gd_lr c * INR (S k))) with (dist2 n x0 y) by (field; split; lra). lra.
Qed.

Lemma convex_le_smooth n f g L mu : (0 < n)%nat -> smooth n f g L -> convex n f g mu -> mu <= L.
Proof.
  intros Hn Hs Hc. set (x := fun _ : nat => 0). set (y := fun i : nat => if (i =? 0)%nat then 1 else 0).
  assert (T : same_tail n x y). { intros i Hi. unfold x, y. destruct (Nat.eqb_spec i 0); [lia|reflexivity]. }
  pose proof (Hs x y T) as A. pose proof (Hc x y T) as B. unfold dist2 in B.
  assert (E : sum n (fun i => (y i - x i) * (y i - x i)) = 1).
  { rewrite (sum_one n 0); [unfold x, y; cbn; ring|exact Hn|]. intros i Hi Ni. unfold x, y. destruct (Nat.eqb_spec i 0); [lia|ring]. }
  rewrite E in *. lra.
Qed.

Lemma path_allowed n c g (X : nat -> nat -> R) x0 k : box_ok n c -> X 0%nat = x0 ->
  (forall j, (j < k)%nat -> forall i, (i < n)%nat -> X (j + 1)%nat i = nearest c i (X j i - gd_lr c * g (X j) i)) ->
  allowed n c x0 \/ (0 < k)%nat -> allowed n c (X k).
Proof.
  intros Hbox X0 St [A|A]; destruct k as [|k]; try lia; [rewrite X0; exact A| |];
    (intros Eb i Hi; specialize (St k ltac:(lia) i Hi); rewrite Nat.add_1_r in St; rewrite St;
     apply (nearest_in n c (fun i => X k i - gd_lr c * g (X k) i) Hbox Eb i Hi)).
Qed.

Lemma contraction n c f g L mu X x0 y k : box_ok n c ->
  smooth n f g L -> convex n f g mu -> 0 < gd_lr c -> gd_lr c * L <= 1 ->
  same_tail n x0 y -> minimiser n c f y -> X 0%nat = x0 ->
  (forall j, (j <= S k)%nat -> same_tail n x0 (X j)) ->
  (forall j, (j < S k)%nat -> forall i, (i < n)%nat -> X (j + 1)%nat i = nearest c i (X j i - gd_lr c * g (X j) i)) ->
  dist2 n (X (S k)) y <= (1 - gd_lr c * mu) * dist2 n (X k) y.
Proof.
  intros Hbox Hs Hc Hlr HL T [Hy Hmin] X0 Ta St.
  pose proof (St k ltac:(lia)) as E. rewrite Nat.add_1_r in E.
  pose proof (step_inequality n c f g L mu (X k) (X (S k)) y Hs Hc Hlr HL
    (same_tail_between _ _ _ _ (Ta k ltac:(lia)) (Ta (S k) ltac:(lia)))
    (same_tail_between _ _ _ _ (Ta k ltac:(lia)) T) Hy E) as A.
  assert (M : f y <= f (X (S k))).
  { apply Hmin; [exact (same_tail_between _ _ _ _ T (Ta (S k) ltac:(lia)))|].
    apply (path_allowed n c g X x0 (S k) Hbox X0 St). right. lia. }
  assert (0 <= 2 * gd_lr c * (f (X (S k)) - f y)) by (apply Rmult_le_pos; lra). lra.
Qed.

Lemma factor_pos n c f g L mu : (0 < n)%nat -> smooth n f g L -> convex n f g mu -> 0 < gd_lr c -> gd_lr c * L <= 1 ->
  0 <= 1 - gd_lr c * mu.
Proof. intros Hn Hs Hc Hlr HL. pose proof (convex_le_smooth n f g L mu Hn Hs Hc). nra. Qed.

Lemma linear_path n c f g L mu X x0 y : box_ok n c ->
  smooth n f g L -> convex n f g mu -> 0 < gd_lr c -> gd_lr c * L <= 1 ->
  same_tail n x0 y -> minimiser n c f y -> X 0%nat = x0 -> forall k,
  (forall j, (j <= k)%nat -> same_tail n x0 (X j)) ->
  (forall j, (j < k)%nat -> forall i, (i < n)%nat -> X (j + 1)%nat i = nearest c i (X j i - gd_lr c * g (X j) i)) ->
  dist2 n (X k) y <= (1 - gd_lr c * mu) ^ k * dist2 n x0 y.
Proof.
  intros Hbox Hs Hc Hlr HL T Hy X0.
  destruct (Nat.eq_dec n 0) as [->|Hn]; [intros k _ _; unfold dist2; cbn [sum]; lra|].
  pose proof (factor_pos n c f g L mu ltac:(lia) Hs Hc Hlr HL) as Q.
  induction k as [|k IH]; intros Ta St; [rewrite X0; cbn [pow]; lra|].
  specialize (IH (fun j Hj => Ta j ltac:(lia)) (fun j Hj => St j ltac:(lia))).
  pose proof (contraction n c f g L mu X x0 y k Hbox Hs Hc Hlr HL T Hy X0 Ta St) as A.
  cbn [pow]. rewrite Rmult_assoc. eapply Rle_trans; [exact A|]. apply Rmult_le_compat_l; assumption.
Qed.

(** Strongly convex: the distance to the minimiser shrinks by the factor [1 - lr mu] each step. *)
Theorem C115_linear : forall n c f g L mu fuel x0 y x fx k ok,
  gd_backtracking c = false -> gd_momentum c = 0 -> box_ok n c ->
  smooth n f g L -> convex n f g mu -> 0 < gd_lr c -> gd_lr c * L <= 1 ->
  same_tail n x0 y -> minimiser n c f y ->
  minimize Rops n c f g fuel x0 = Some (x, fx, k, ok) ->
  dist2 n x y <= (1 - gd_lr c * mu) ^ k * dist2 n x0 y.
Proof.
  intros n c f g L mu fuel x0 y x fx k ok Hb Hm Hbox Hs Hc Hlr HL T Hy H.
  destruct (path_plain _ _ _ _ _ _ _ _ _ _ Hb Hbox Hm H) as (X & X0 & Xk & _ & Ta & St & _).
  subst x. apply (linear_path n c f g L mu X x0 y); auto.
Qed.

Lemma fixed_total n c f g fuel x0 : gd_backtracking c = false ->
  exists r, minimize Rops n c f g fuel x0 = Some r.
Proof.
  intros Hb. unfold minimize.
  destruct (opt_loop_total (fun _ => gd_body Rops n c f g fuel) (fun _ => True) (gd_max_iters c) 0%nat
    (mkSt x0 (vzero Rops) (f x0)) I) as [r E].
  { intros _ s _. unfold gd_body. rewrite Hb. destruct (leb _ _ _); eauto. }
  rewrite E. destruct r as [[s k] ok]. eauto.
Qed.

Lemma dist2_double n a b y : dist2 n a b <= 2 * dist2 n a y + 2 * dist2 n b y.
Proof. unfold dist2. rewrite <- !sum_scal, <- sum_plus. apply sum_le. intros i _. pose proof (Rle_0_sqr ((a i - y i) + (b i - y i))). unfold Rsqr in *. lra. Qed.

(** With a step tolerance and enough iterations the run always ends and reports convergence. *)
Theorem C115_converges : forall n c f g L mu fuel x0 y,
  gd_backtracking c = false -> gd_momentum c = 0 -> box_ok n c ->
  smooth n f g L -> convex n f g mu -> 0 < mu -> 0 < gd_lr c -> gd_lr c * L <= 1 ->
  same_tail n x0 y -> minimiser n c f y -> 0 < gd_tol_step c ->
  exists m0, forall m, (m0 <= m)%nat -> exists x fx k,
    minimize Rops n (set_max_iters m c) f g fuel x0 = Some (x, fx, k, true).
Proof.
  intros n c f g L mu fuel x0 y Hb Hm Hbox Hs Hc Hmu Hlr HL T Hy Ht.
  set (q := 1 - gd_lr c * mu).
  assert (Q : n = 0%nat \/ 0 <= q < 1).
  { destruct (Nat.eq_dec n 0) as [->|Hn]; [left; reflexivity|right].
    split; [exact (factor_pos n c f g L mu ltac:(lia) Hs Hc Hlr HL)|]. unfold q. nra. }
  set (D := dist2 n x0 y). pose proof (dist2_pos n x0 y) as PD. fold D in PD.
  assert (Z : exists m0, forall m, (m0 <= m)%nat -> 4 * (q ^ m * D) < gd_tol_step c * gd_tol_step c).
  { destruct Q as [->|Q].
    - exists 0%nat. intros m _. unfold D, dist2. cbn [sum]. nra.
    - set (e := gd_tol_step c * gd_tol_step c / (4 * (D + 1))).
      assert (Pe : 0 < e) by (unfold e; apply Rdiv_lt_0_compat; nra).
      destruct (pow_lt_1_zero q ltac:(rewrite Rabs_pos_eq; lra) e Pe) as [m0 Hm0]. exists m0. intros m Hle.
      specialize (Hm0 m Hle). pose proof (pow_le q m (proj1 Q)) as Pq. rewrite Rabs_pos_eq in Hm0 by exact Pq.
      assert (E : 4 * (e * (D + 1)) = gd_tol_step c * gd_tol_step c) by (unfold e; field; lra). rewrite <- E.
      apply Rmult_lt_compat_l; [lra|]. apply Rle_lt_trans with (q ^ m * (D + 1)); [nra|]. apply Rmult_lt_compat_r; lra. }
  destruct Z as [m0 Z]. exists (S m0). intros m Hle.
  destruct (fixed_total n (set_max_iters m c) f g fuel x0 Hb) as [[[[x fx] k] ok] E].
  exists x, fx, k. rewrite E. destruct ok; [reflexivity|exfalso].
  destruct (path_plain n (set_max_iters m c) f g fuel x0 x fx k false Hb Hbox Hm E) as (X & X0 & Xk & _ & Ta & St & Ek & Hst).
  cbn [set_max_iters gd_max_iters] in Ek. subst k. destruct m as [|m]; [lia|].
  specialize (Hst m ltac:(lia)). cbn [set_max_iters gd_tol_step] in Hst.
  pose proof (length2_pos n (fun i => x i - X m i)) as PL. pose proof (dist2_len n x (X m)) as EL.
  pose proof (dist2_double n x (X m) y) as DD.
  pose proof (linear_path n c f g L mu X x0 y Hbox Hs Hc Hlr HL T Hy X0 m (fun j Hj => Ta j ltac:(lia)) (fun j Hj => St j ltac:(lia))) as A.
  pose proof (contraction n c f g L mu X x0 y m Hbox Hs Hc Hlr HL T Hy X0 Ta St) as B. rewrite Xk in B. fold q D in A, B.
  specialize (Z m ltac:(lia)). pose proof (dist2_pos n (X m) y) as P1.
  assert (B' : dist2 n x y <= dist2 n (X m) y).
  { destruct Q as [->|Q]; [unfold dist2; cbn [sum]; lra|]. nra. }
  assert (gd_tol_step c * gd_tol_step c < dist2 n x (X m)) by (rewrite <- EL; nra). lra.
Qed.

Lemma cs_len n a b : sum n (fun i => a i * b i) <= length2 n a * length2 n b.
Proof.
  pose proof (cauchy_schwarz n a b) as C. rewrite <- !length2_sq in C.
  pose proof (length2_pos n a). pose proof (length2_pos n b).
  assert (0 <= length2 n a * length2 n b) by (apply Rmult_le_pos; assumption). nra.
Qed.

(** What "converged" means for a strongly convex function: the answer is within
    [2/mu] times the larger of the gradient tolerance and the step tolerance over the learning rate
    of the true minimiser. *)
Theorem C115_accuracy : forall n c f g L mu fuel x0 y x fx k,
  gd_backtracking c = false -> gd_momentum c = 0 -> box_ok n c ->
  smooth n f g L -> convex n f g mu -> 0 < mu -> 0 < gd_lr c -> gd_lr c * L <= 1 ->
  same_tail n x0 y -> minimiser n c f y -> allowed n c x0 -> 0 <= gd_tol_grad c ->
  minimize Rops n c f g fuel x0 = Some (x, fx, k, true) ->
  mu * length2 n (fun i => x i - y i) <= 2 * Rmax (gd_tol_grad c) (gd_tol_step c / gd_lr c).
Proof.
  intros n c f g L mu fuel x0 y x fx k Hb Hm Hbox Hs Hc Hmu Hlr HL T Hy Hx0 Hg H.
  destruct (path_plain _ _ _ _ _ _ _ _ _ _ Hb Hbox Hm H) as (X & X0 & Xk & _ & Ta & St & Fin).
  pose proof (length2_pos n (fun i => x i - y i)) as Pr. pose proof (dist2_len n x y) as Er.
  set (r := length2 n (fun i => x i - y i)) in *.
  pose proof (Rmax_l (gd_tol_grad c) (gd_tol_step c / gd_lr c)) as ML.
  pose proof (Rmax_r (gd_tol_grad c) (gd_tol_step c / gd_lr c)) as MR.
  destruct Fin as [G|(j & -> & G)].
  - (* the gradient was small *)
    assert (Al : allowed n c x) by (rewrite <- Xk; apply (path_allowed n c g X x0 k Hbox X0 St); left; exact Hx0).
    assert (Tx : same_tail n x0 x) by (rewrite <- Xk; apply Ta; lia).
    pose proof (Hc x y (same_tail_between _ _ _ _ Tx T)) as A. rewrite (dist2_sym n y x), <- Er in A.
    pose proof (proj2 Hy x (same_tail_between _ _ _ _ T Tx) Al) as B.
    pose proof (cs_len n (g x) (fun i => x i - y i)) as C. fold r in C.
    assert (E : sum n (fun i => g x i * (y i - x i)) = - sum n (fun i => g x i * (x i - y i))) by (rewrite <- sum_opp; apply sum_ext; intros; ring).
    rewrite E in A. pose proof (length2_pos n (g x)) as Pg.
    assert (mu / 2 * (r * r) <= gd_tol_grad c * r) by nra.
    assert (mu * r <= 2 * gd_tol_grad c) by (destruct Pr as [Pr|<-]; [nra|lra]). lra.
  - (* the step was small *)
    destruct (Nat.eq_dec n 0) as [->|Hn].
    { assert (r = 0) as -> by (unfold r, length2; cbn [sum]; apply sqrt_0). lra. }
    pose proof (factor_pos n c f g L mu ltac:(lia) Hs Hc Hlr HL) as Q.
    assert (Ta' := Ta). assert (St' := St). replace (j + 1)%nat with (S j) in Ta', St' by lia.
    pose proof (contraction n c f g L mu X x0 y j Hbox Hs Hc Hlr HL T Hy X0 Ta' St') as A.
    rewrite Nat.add_1_r in Xk. rewrite Xk in A.
    pose proof (length2_pos n (fun i => x i - X j i)) as Ps. pose proof (dist2_len n x (X j)) as Es.
    set (s := length2 n (fun i => x i - X j i)) in *.
    pose proof (cs_len n (fun i => x i - y i) (fun i => X j i - x i)) as C. fold r in C.
    assert (Esym : length2 n (fun i => X j i - x i) = s) by (unfold s, length2; f_equal; apply sum_ext; intros; ring). rewrite Esym in C.
    assert (Ed : dist2 n (X j) y = r * r + 2 * sum n (fun i => (x i - y i) * (X j i - x i)) + s * s).
    { rewrite Er, Es. unfold dist2. rewrite <- sum_scal, <- !sum_plus. apply sum_ext. intros; ring. }
    assert (D1 : dist2 n (X j) y <= (r + s) * (r + s)) by (rewrite Ed; lra).
    rewrite <- Er in A. set (h := gd_lr c) in *.
    assert (A2 : r * r <= (1 - h * mu) * ((r + s) * (r + s))) by nra.
    assert (K : h * mu * r <= 2 * s).
    { apply Rnot_lt_le. intros N. assert (0 < h * mu) by nra. assert (h * mu <= 1) by lra.
      (* r^2 <= (1-a)(r+s)^2 with 2s < a r *)
      assert (s < h * mu * r / 2) by lra. set (a := h * mu) in *.
      assert (Rp : 0 < r) by nra.
      assert (S1 : (r + s) * (r + s) <= (r * (1 + a / 2)) * (r * (1 + a / 2))) by (apply Rmult_le_compat; lra).
      assert (S2 : (1 - a) * ((r + s) * (r + s)) <= (1 - a) * ((r * (1 + a / 2)) * (r * (1 + a / 2)))) by (apply Rmult_le_compat_l; lra).
      assert (S3 : (1 - a) * ((1 + a / 2) * (1 + a / 2)) < 1) by nra.
      assert (S4 : (1 - a) * ((1 + a / 2) * (1 + a / 2)) * (r * r) < 1 * (r * r)) by (apply Rmult_lt_compat_r; nra). lra. }
    assert (K2 : mu * r <= 2 * (s / h)).
    { apply (Rmult_le_reg_l h); [exact Hlr|]. replace (h * (2 * (s / h))) with (2 * s) by (field; lra). lra. }
    assert (s / h <= gd_tol_step c / h) by (apply Rmult_le_compat_r; [left; apply Rinv_0_lt_compat; exact Hlr|exact G]). lra.
Qed.

(** ** Rates with backtracking, no box and no momentum (the default settings) *)
(** the shortest step the line search can end with on an [L]-smooth function *)
Definition least_step (c : @gd R) (L : R) : R := Rmin (gd_lr c) (gd_tau c * (2 * (1 - gd_c1 c) / L)).

Lemma least_step_pos c L : 0 < L -> 0 < gd_lr c -> 0 < gd_tau c -> gd_c1 c < 1 -> 0 < least_step c L.
Proof.
  intros. unfold least_step. apply Rmin_glb_lt; [assumption|]. apply Rmult_lt_0_compat; [assumption|].
  apply Rdiv_lt_0_compat; lra.
Qed.

Lemma searched_step n c f g L fuel s s' v :
  gd_backtracking c = true -> gd_has_bounds c = false -> gd_momentum c = 0 ->
  smooth n f g L -> 0 < L -> 0 < gd_lr c -> 0 < gd_tau c < 1 -> 0 <= gd_c1 c < 1 ->
  0 <= gd_tol_grad c -> / 10 ^ 20 < gd_tau c * (2 * (1 - gd_c1 c) / L) ->
  st_f s = f (st_x s) -> gd_body Rops n c f g fuel s = Some (s', v) -> v <> StopBefore ->
  st_f s' = f (st_x s') /\ same_tail n (st_x s) (st_x s') /\ (0 < n)%nat /\
  exists a, least_step c L <= a <= gd_lr c /\
    (forall i, (i < n)%nat -> st_x s' i = st_x s i - a * g (st_x s) i) /\
    f (st_x s') <= f (st_x s) - gd_c1 c * a * sum n (fun i => g (st_x s) i * g (st_x s) i).
Proof.
  intros Hb Hbd Hm Hsm HL Hlr Ht Hc Htg Htiny Hf Eb Hv. unfold least_step.
  destruct (gd_body_bt _ _ _ _ _ _ _ _ Hb Eb Hv) as (Hg & d & slope & Hd & Hl).
  destruct (descent_plain _ _ _ _ _ _ Hm Hd) as [D Hs].
  set (S0 := 2 * (1 - gd_c1 c) / L) in *. set (G := sum n (fun i => g (st_x s) i * g (st_x s) i)) in *.
  assert (0 < G) as HG0. { unfold G. rewrite <- length2_sq. nra. }
  assert (0 < S0) as HS0. { unfold S0. apply Rdiv_lt_0_compat; lra. }
  assert (forall t i, (i < n)%nat -> trial_point Rops n c (st_x s) d t i - st_x s i = - t * g (st_x s) i) as T.
  { intros t i Hi. rewrite trial_R by auto. unfold moved. rewrite Hbd, D by auto. ring. }
  assert (forall t, 0 < t <= S0 -> armijo_ok Rops n c f (st_x s) (st_f s) d slope t = true) as Acc.
  { intros t Ht0. unfold armijo_ok. cbn [leb Rops add mul]. apply Rleb_iff. rewrite Hf.
    pose proof (Hsm (st_x s) (trial_point Rops n c (st_x s) d t)) as Q.
    rewrite (sum_ext n (fun i => g (st_x s) i * _) (fun i => - t * (g (st_x s) i * g (st_x s) i))) in Q
      by (intros i Hi; rewrite T by auto; ring).
    rewrite (sum_ext n (fun i => (trial_point Rops n c (st_x s) d t i - st_x s i) * _)
               (fun i => (t * t) * (g (st_x s) i * g (st_x s) i))) in Q
      by (intros i Hi; rewrite T by auto; ring).
    rewrite !sum_scal in Q. fold G in Q. specialize (Q (fun i Hi => trial_out n c _ d t i Hi)).
    rewrite Hs.
    assert (L * t <= 2 * (1 - gd_c1 c)).
    { apply Rle_trans with (L * S0); [apply Rmult_le_compat_l; lra|]. unfold S0. right. field. lra. }
    assert (0 <= t * G * (1 - gd_c1 c - L * t / 2)); [|nra].
    apply Rmult_le_pos; [apply Rmult_le_pos; lra|lra]. }
  apply line_search_spec in Hl. destruct Hl as (j & _ & Hx & Hfx & Hbef & Hacc).
  assert (forall i, 0 < step_at Rops c (gd_lr c) i) as Pos.
  { intros i. rewrite step_at_R. apply Rmult_lt_0_compat; [auto|apply pow_lt; lra]. }
  assert (forall i, armijo_ok Rops n c f (st_x s) (st_f s) d slope (step_at Rops c (gd_lr c) i) = false ->
            gd_tau c * S0 < step_at Rops c (gd_lr c) (S i)) as Big.
  { intros i Hi. cbn [step_at mul Rops]. destruct (Rle_lt_dec (step_at Rops c (gd_lr c) i) S0) as [Le|Gt].
    - rewrite Acc in Hi by (split; auto). discriminate.
    - rewrite Rmult_comm. apply Rmult_lt_compat_r; lra. }
  destruct Hacc as [Hacc|[Hrej Hend]].
  2:{ exfalso. apply Big in Hrej. cbn [leb Rops] in Hend. apply Rleb_iff in Hend. unfold tiny_step in Hend.
      cbn [lit Rops] in Hend. unfold Q2R in Hend. cbn [Qnum Qden] in Hend.
      replace (10 ^ 20) with 100000000000000000000 in Htiny by ring. lra. }
  split; [congruence|]. split; [rewrite Hx; intros i Hi; apply trial_out; exact Hi|].
  split. { destruct n; [unfold G in HG0; cbn [sum] in HG0; lra|lia]. }
  exists (step_at Rops c (gd_lr c) j). split; [split|split].
  - destruct j as [|j]; [cbn [step_at]; apply Rmin_l|].
    apply Rle_trans with (gd_tau c * S0); [apply Rmin_r|]. apply Rlt_le, Big. apply Hbef. lia.
  - rewrite step_at_R. rewrite <- (Rmult_1_r (gd_lr c)) at 2. apply Rmult_le_compat_l; [lra|].
    rewrite <- (pow1 j). apply pow_incr. lra.
  - intros i Hi. rewrite Hx. specialize (T (step_at Rops c (gd_lr c) j) i Hi). lra.
  - unfold armijo_ok in Hacc. cbn [leb Rops add mul] in Hacc. apply Rleb_iff in Hacc.
    rewrite <- Hx, Hs, Hf in Hacc. lra.
Qed.

Lemma searched_path n c f g L fuel x0 x fx k ok (P : nat -> (nat -> R) -> Prop) :
  gd_backtracking c = true -> gd_has_bounds c = false -> gd_momentum c = 0 ->
  smooth n f g L -> 0 < L -> 0 < gd_lr c -> 0 < gd_tau c < 1 -> 0 <= gd_c1 c < 1 ->
  0 <= gd_tol_grad c -> / 10 ^ 20 < gd_tau c * (2 * (1 - gd_c1 c) / L) ->
  P 0%nat x0 ->
  (forall j u u' a, same_tail n x0 u -> P j u -> same_tail n u u' -> (0 < n)%nat -> least_step c L <= a <= gd_lr c ->
     (forall i, (i < n)%nat -> u' i = u i - a * g u i) ->
     f u' <= f u - gd_c1 c * a * sum n (fun i => g u i * g u i) -> P (S j) u') ->
  minimize Rops n c f g fuel x0 = Some (x, fx, k, ok) -> fx = f x /\ P k x /\ same_tail n x0 x.
Proof.
  intros Hb Hbd Hm Hsm HL Hlr Ht Hc Htg Htiny H0 Hstep H.
  apply minimize_run in H. destruct H as (s & E & <- & <-).
  cut (st_f s = f (st_x s) /\ P k (st_x s) /\ same_tail n x0 (st_x s)); [tauto|].
  refine (opt_loop_inv _ (fun k s => st_f s = f (st_x s) /\ P k (st_x s) /\ same_tail n x0 (st_x s)) _ _ _ _ _ _ _ _ E).
  - cbn [st_f st_x]. split; [reflexivity|]. split; [exact H0|]. intros i _. reflexivity.
  - intros k1 s1 s' v (A & B & C) Eb.
    assert (v = StopBefore \/ v <> StopBefore) as [->|Hv] by (destruct v; [auto|right; discriminate..]).
    + apply gd_body_spec in Eb. destruct Eb as [(_ & -> & _)|(Q & _)]; [auto|congruence].
    + destruct (searched_step n c f g L fuel s1 s' v) as (A' & T & Hn & a & Ha & Hx & Hf); auto.
      assert ((match v with StopBefore => k1 | _ => (k1 + 1)%nat end) = S k1) as ->
        by (destruct v; [congruence|lia|lia]).
      split; [exact A'|]. split; [exact (Hstep _ _ _ a C B T Hn Ha Hx Hf)|].
      intros i Hi. rewrite (T i Hi). apply C. exact Hi.
Qed.

(** Convex, default-style line search: the value approaches the minimum like [1/k]. *)
Theorem C115_search_sublinear : forall n c f g L fuel x0 y x fx k ok,
  gd_backtracking c = true -> gd_has_bounds c = false -> gd_momentum c = 0 ->
  smooth n f g L -> convex n f g 0 -> 0 < L -> 0 < gd_lr c -> 0 < gd_tau c < 1 -> 0 < gd_c1 c < 1 ->
  0 <= gd_tol_grad c -> / 10 ^ 20 < gd_tau c * (2 * (1 - gd_c1 c) / L) ->
  same_tail n x0 y -> minimiser n c f y ->
  minimize Rops n c f g fuel x0 = Some (x, fx, k, ok) -> (0 < k)%nat ->
  fx - f y <= (dist2 n x0 y + gd_lr c / gd_c1 c * (f x0 - f y)) / (2 * least_step c L * INR k).
Proof.
  intros n c f g L fuel x0 y x fx k ok Hb Hbd Hm Hsm Hcv HL Hlr Ht Hc Htg Htiny T [_ Hmin] H Hk.
  pose proof (least_step_pos c L HL Hlr (proj1 Ht) (proj2 Hc)) as Pa. set (m := least_step c L) in *.
  assert (Mi : forall z, same_tail n x0 z -> f y <= f z).
  { intros z Tz. apply Hmin; [exact (same_tail_between _ _ _ _ T Tz)|]. intros Eb. congruence. }
  set (w := gd_lr c / gd_c1 c). assert (Pw : 0 < w) by (unfold w; apply Rdiv_lt_0_compat; lra).
  destruct (searched_path n c f g L fuel x0 x fx k ok
    (fun j u => 2 * m * INR j * (f u - f y) + dist2 n u y <= dist2 n x0 y + w * (f x0 - f u)))
    as (-> & P & Tx); auto; try lra.
  - cbn [INR]. lra.
  - intros j u u' a Tu Pu Tt Hn [Ha1 Ha2] Hx Hf. fold m in Ha1.
    set (G := sum n (fun i => g u i * g u i)) in *. assert (PG : 0 <= G) by (apply sum_pos; intros; apply Rle_0_sqr).
    assert (Tu' : same_tail n x0 u') by (intros i Hi; rewrite (Tt i Hi); apply Tu; exact Hi).
    pose proof (Mi u Tu) as M1. pose proof (Mi u' Tu') as M2.
    pose proof (Hcv u y (same_tail_between _ _ _ _ Tu T)) as Cv.
    assert (Ed : dist2 n u' y = dist2 n u y + 2 * a * sum n (fun i => g u i * (y i - u i)) + a * a * G).
    { unfold dist2, G. rewrite <- !sum_scal, <- !sum_plus. apply sum_ext. intros i Hi. rewrite (Hx i Hi). ring. }
    assert (Dw : gd_c1 c * a * G <= f u - f u') by lra.
    assert (Aw : a * a * G <= w * (f u - f u')).
    { apply Rle_trans with (gd_lr c * (a * G)); [rewrite Rmult_assoc; apply Rmult_le_compat_r; [apply Rmult_le_pos; lra|lra]|].
      replace (gd_lr c * (a * G)) with (w * (gd_c1 c * a * G)) by (unfold w; field; lra). apply Rmult_le_compat_l; lra. }
    assert (C2 : 2 * a * sum n (fun i => g u i * (y i - u i)) <= 2 * a * (f y - f u)) by (apply Rmult_le_compat_l; lra).
    assert (C3 : 2 * m * (f u - f y) <= 2 * a * (f u - f y)) by (apply Rmult_le_compat_r; lra).
    assert (De : f u' <= f u). { assert (0 <= gd_c1 c * a * G) by (apply Rmult_le_pos; [apply Rmult_le_pos; lra|lra]). lra. }
    pose proof (pos_INR j) as PJ. rewrite S_INR.
    assert (C4 : 2 * m * (INR j + 1) * (f u' - f y) <= 2 * m * (INR j + 1) * (f u - f y)).
    { apply Rmult_le_compat_l; [apply Rmult_le_pos; lra|lra]. }
    lra.
  - pose proof (dist2_pos n x y) as D. pose proof (Mi x Tx) as M. pose proof (lt_0_INR k Hk) as PK.
    assert (Q : 0 < 2 * m * INR k) by (apply Rmult_lt_0_compat; lra).
    apply (Rmult_le_reg_r (2 * m * INR k)); [exact Q|].
    replace ((dist2 n x0 y + w * (f x0 - f y)) / (2 * m * INR k) * (2 * m * INR k)) with (dist2 n x0 y + w * (f x0 - f y)) by (field; split; lra).
    assert (w * (f x0 - f x) <= w * (f x0 - f y)) by (apply Rmult_le_compat_l; lra). lra.
Qed.

(** Strongly convex: geometrically. *)
Theorem C115_search_linear : forall n c f g L mu fuel x0 y x fx k ok,
  gd_backtracking c = true -> gd_has_bounds c = false -> gd_momentum c = 0 ->
  smooth n f g L -> convex n f g mu -> 0 < mu -> 0 < L -> 0 < gd_lr c -> 0 < gd_tau c < 1 -> 0 < gd_c1 c < 1 ->
  0 <= gd_tol_grad c -> / 10 ^ 20 < gd_tau c * (2 * (1 - gd_c1 c) / L) ->
  same_tail n x0 y -> minimiser n c f y ->
  minimize Rops n c f g fuel x0 = Some (x, fx, k, ok) ->
  fx - f y <= (1 - 2 * mu * gd_c1 c * least_step c L) ^ k * (f x0 - f y).
Proof.
  intros n c f g L mu fuel x0 y x fx k ok Hb Hbd Hm Hsm Hcv Hmu HL Hlr Ht Hc Htg Htiny T [_ Hmin] H.
  pose proof (least_step_pos c L HL Hlr (proj1 Ht) (proj2 Hc)) as Pa.
  assert (Up : least_step c L <= gd_tau c * (2 * (1 - gd_c1 c) / L)) by apply Rmin_r. set (m := least_step c L) in *.
  assert (Mi : forall z, same_tail n x0 z -> f y <= f z).
  { intros z Tz. apply Hmin; [exact (same_tail_between _ _ _ _ T Tz)|]. intros Eb. congruence. }
  destruct (searched_path n c f g L fuel x0 x fx k ok
    (fun j u => f u - f y <= (1 - 2 * mu * gd_c1 c * m) ^ j * (f x0 - f y)))
    as (-> & P & Tx); auto; try lra.
  intros j u u' a Tu Pu Tt Hn [Ha1 Ha2] Hx Hf. fold m in Ha1.
  set (G := sum n (fun i => g u i * g u i)) in *.
  (* the gradient dominates the gap *)
  assert (PL : 2 * mu * (f u - f y) <= G).
  { pose proof (Hcv u y (same_tail_between _ _ _ _ Tu T)) as Cv.
    assert (Sq : 0 <= G + 2 * mu * sum n (fun i => g u i * (y i - u i)) + mu * mu * dist2 n y u).
    { unfold G, dist2. rewrite <- !sum_scal, <- !sum_plus. apply sum_pos. intros i Hi.
      replace (g u i * g u i + 2 * mu * (g u i * (y i - u i)) + mu * mu * ((y i - u i) * (y i - u i)))
        with ((g u i + mu * (y i - u i)) * (g u i + mu * (y i - u i))) by ring. apply Rle_0_sqr. }
    assert (2 * mu * (f u + sum n (fun i => g u i * (y i - u i)) + mu / 2 * dist2 n y u) <= 2 * mu * f y) by (apply Rmult_le_compat_l; lra).
    lra. }
  pose proof (convex_le_smooth n f g L mu Hn Hsm Hcv) as ML.
  assert (Q : 0 <= 1 - 2 * mu * gd_c1 c * m).
  { assert (M1 : mu * m <= 2 * (1 - gd_c1 c)).
    { apply Rle_trans with (L * m); [apply Rmult_le_compat_r; lra|].
      apply Rle_trans with (L * (gd_tau c * (2 * (1 - gd_c1 c) / L))); [apply Rmult_le_compat_l; lra|].
      replace (L * (gd_tau c * (2 * (1 - gd_c1 c) / L))) with (gd_tau c * (2 * (1 - gd_c1 c))) by (field; lra). nra. }
    assert (M2 : 2 * gd_c1 c * (mu * m) <= 2 * gd_c1 c * (2 * (1 - gd_c1 c))) by (apply Rmult_le_compat_l; lra).
    pose proof (Rle_0_sqr (2 * gd_c1 c - 1)) as S. unfold Rsqr in S. lra. }
  pose proof (Mi u Tu) as M1.
  assert (F : f u' - f y <= (1 - 2 * mu * gd_c1 c * m) * (f u - f y)).
  { assert (gd_c1 c * m * (2 * mu * (f u - f y)) <= gd_c1 c * a * G); [|lra].
    apply Rmult_le_compat; [apply Rmult_le_pos; lra|apply Rmult_le_pos; lra|apply Rmult_le_compat_l; lra|exact PL]. }
  cbn [pow]. rewrite Rmult_assoc. eapply Rle_trans; [exact F|]. apply Rmult_le_compat_l; assumption.
Qed.

(** ** What the answer of the line search is worth, on any convex function *)
Lemma searched_states n c f g L fuel x0 x fx k ok :
  gd_backtracking c = true -> gd_has_bounds c = false -> gd_momentum c = 0 ->
  smooth n f g L -> 0 < L -> 0 < gd_lr c -> 0 < gd_tau c < 1 -> 0 <= gd_c1 c < 1 ->
  0 <= gd_tol_grad c -> / 10 ^ 20 < gd_tau c * (2 * (1 - gd_c1 c) / L) ->
  minimize Rops n c f g fuel x0 = Some (x, fx, k, ok) ->
  exists X : nat -> nat -> R, X 0%nat = x0 /\ X k = x /\ fx = f x /\
    (forall j, (j < k)%nat -> same_tail n (X j) (X (S j)) /\ exists a, least_step c L <= a <= gd_lr c /\
       (forall i, (i < n)%nat -> X (S j) i = X j i - a * g (X j) i) /\
       f (X (S j)) <= f (X j) - gd_c1 c * a * sum n (fun i => g (X j) i * g (X j) i)) /\
    (if ok then length2 n (g x) <= gd_tol_grad c \/
                exists j, k = S j /\ length2 n (fun i => x i - X j i) <= gd_tol_step c
     else k = gd_max_iters c).
Proof.
  intros Hb Hbd Hm Hsm HL Hlr Ht Hc Htg Htiny H. apply minimize_run in H. destruct H as (s & E & <- & <-).
  pose proof E as E'. apply opt_loop_states in E'.
  2:{ intros j s1 s2 Hs. apply gd_body_spec in Hs. destruct Hs as [(_ & -> & _)|(Q & _)]; congruence. }
  destruct E' as (_ & S & S0 & Sk & Hst & Hok). exists (fun j => st_x (S j)).
  assert (V : forall j, (j <= k)%nat -> st_f (S j) = f (st_x (S j))).
  { intros [|j] Hj; [rewrite S0; reflexivity|]. destruct (Hst j ltac:(lia)) as (v & Eb & Hv & _). cbv beta in Eb. rewrite Nat.add_1_r in Eb.
    apply gd_body_spec in Eb. destruct Eb as [(Q & _)|(_ & _ & A & _)]; [congruence|exact A]. }
  split; [rewrite S0; reflexivity|]. split; [rewrite Sk; reflexivity|]. split; [rewrite <- Sk; apply V; lia|]. split.
  - intros j Hj. destruct (Hst j ltac:(lia)) as (v & Eb & Hv & _). cbv beta in Eb. rewrite Nat.add_1_r in Eb.
    destruct (searched_step n c f g L fuel (S j) (S (Datatypes.S j)) v) as (_ & T & _ & a & A); auto.
    { apply V. lia. }
    split; [exact T|]. exists a. exact A.
  - destruct ok; [|apply opt_loop_false in E; cbn in E; lia].
    destruct (Hok eq_refl) as [A|(j & _ & Ej & A)].
    + left. apply gd_body_spec in A. destruct A as [(_ & _ & A)|(Q & _)]; [|congruence]. rewrite norm2_R in A. cbn [leb Rops] in A. apply Rleb_iff in A. exact A.
    + right. exists j. split; [lia|]. apply gd_body_spec in A. destruct A as [(Q & _)|(_ & _ & _ & _ & Ev & D)]; [discriminate|].
      destruct D as [D _]. specialize (D eq_refl). rewrite norm2_R in D. cbn [leb Rops] in D. apply Rleb_iff in D.
      eapply Rle_trans; [|exact D]. right. unfold length2. f_equal. apply sum_ext. intros i Hi. rewrite Ev, vfill_in by exact Hi. reflexivity.
Qed.

Theorem C115_search_answer : forall n c f g L fuel x0 y x fx k ok,
  gd_backtracking c = true -> gd_has_bounds c = false -> gd_momentum c = 0 ->
  smooth n f g L -> convex n f g 0 -> 0 < L -> 0 < gd_lr c -> 0 < gd_tau c < 1 -> 0 < gd_c1 c < 1 ->
  0 <= gd_tol_grad c -> / 10 ^ 20 < gd_tau c * (2 * (1 - gd_c1 c) / L) -> (0 < gd_max_iters c)%nat ->
  same_tail n x0 y ->
  minimize Rops n c f g fuel x0 = Some (x, fx, k, ok) ->
  let reach := dist2 n x0 y + gd_lr c / gd_c1 c * (f x0 - f y) in
  fx - f y <= Rmax (reach / (2 * least_step c L * INR (gd_max_iters c)))
                   (sqrt reach * Rmax (gd_tol_grad c) (gd_tol_step c / least_step c L)).
Proof.
  intros n c f g L fuel x0 y x fx k ok Hb Hbd Hm Hsm Hcv HL Hlr Ht Hc Htg Htiny Hmax T H reach.
  destruct (searched_states n c f g L fuel x0 x fx k ok) as (X & X0 & Xk & -> & St & Fin); auto; try lra.
  pose proof (least_step_pos c L HL Hlr (proj1 Ht) (proj2 Hc)) as Pa. set (m := least_step c L) in *.
  assert (PM : 0 <= sqrt reach * Rmax (gd_tol_grad c) (gd_tol_step c / m)).
  { apply Rmult_le_pos; [apply sqrt_pos|]. eapply Rle_trans; [exact Htg|apply Rmax_l]. }
  destruct (Rle_or_lt (f y) (f x)) as [Hyx|Hyx].
  2:{ eapply Rle_trans; [|apply Rmax_r]. lra. }
  assert (Dec : forall j, (j < k)%nat -> f (X (S j)) <= f (X j)).
  { intros j Hj. destruct (St j Hj) as (_ & a & [Ha1 Ha2] & _ & Hf).
    assert (0 <= gd_c1 c * a * sum n (fun i => g (X j) i * g (X j) i)); [|lra].
    apply Rmult_le_pos; [apply Rmult_le_pos; lra|]. apply sum_pos. intros; apply Rle_0_sqr. }
  assert (Abo : forall j, (j <= k)%nat -> f y <= f (X j)).
  { intros j Hj. assert (Q : forall d, (d <= k)%nat -> f y <= f (X (k - d)%nat)).
    { induction d as [|d IH]; intros Hd; [rewrite Nat.sub_0_r, Xk; exact Hyx|].
      specialize (IH ltac:(lia)). pose proof (Dec (k - S d)%nat ltac:(lia)) as W. replace (S (k - S d)) with (k - d)%nat in W by lia. lra. }
    replace j with (k - (k - j))%nat by lia. apply Q. lia. }
  assert (Tl : forall j, (j <= k)%nat -> same_tail n x0 (X j)).
  { induction j as [|j IH]; intros Hj i Hi; [rewrite X0; reflexivity|].
    destruct (St j ltac:(lia)) as (W & _). rewrite (W i Hi). apply IH; [lia|exact Hi]. }
  set (w := gd_lr c / gd_c1 c) in *. assert (Pw : 0 < w) by (unfold w; apply Rdiv_lt_0_compat; lra).
  assert (I : forall j, (j <= k)%nat -> 2 * m * INR j * (f (X j) - f y) + dist2 n (X j) y <= dist2 n x0 y + w * (f x0 - f (X j))).
  { induction j as [|j IH]; intros Hj; [rewrite X0; cbn [INR]; lra|]. specialize (IH ltac:(lia)).
    destruct (St j ltac:(lia)) as (Tt & a & [Ha1 Ha2] & Hx & Hf). pose proof (Abo j ltac:(lia)) as M1. pose proof (Dec j ltac:(lia)) as De.
    set (u := X j) in *. set (u' := X (S j)) in *.
    set (G := sum n (fun i => g u i * g u i)) in *. assert (PG : 0 <= G) by (apply sum_pos; intros; apply Rle_0_sqr).
    pose proof (Hcv u y (same_tail_between _ _ _ _ (Tl j ltac:(lia)) T)) as Cv.
    assert (Ed : dist2 n u' y = dist2 n u y + 2 * a * sum n (fun i => g u i * (y i - u i)) + a * a * G).
    { unfold dist2, G. rewrite <- !sum_scal, <- !sum_plus. apply sum_ext. intros i Hi. rewrite (Hx i Hi). ring. }
    assert (Aw : a * a * G <= w * (f u - f u')).
    { apply Rle_trans with (gd_lr c * (a * G)); [rewrite Rmult_assoc; apply Rmult_le_compat_r; [apply Rmult_le_pos; lra|lra]|].
      replace (gd_lr c * (a * G)) with (w * (gd_c1 c * a * G)) by (unfold w; field; lra). apply Rmult_le_compat_l; lra. }
    assert (C2 : 2 * a * sum n (fun i => g u i * (y i - u i)) <= 2 * a * (f y - f u)) by (apply Rmult_le_compat_l; lra).
    assert (C3 : 2 * m * (f u - f y) <= 2 * a * (f u - f y)) by (apply Rmult_le_compat_r; lra).
    pose proof (pos_INR j) as PJ. rewrite S_INR.
    assert (C4 : 2 * m * (INR j + 1) * (f u' - f y) <= 2 * m * (INR j + 1) * (f u - f y)).
    { apply Rmult_le_compat_l; [apply Rmult_le_pos; lra|lra]. }
    lra. }
  assert (Rch : forall j, (j <= k)%nat -> dist2 n (X j) y <= reach).
  { intros j Hj. specialize (I j Hj). pose proof (Abo j Hj) as M. pose proof (pos_INR j) as PJ.
    assert (0 <= 2 * m * INR j * (f (X j) - f y)) by (apply Rmult_le_pos; [apply Rmult_le_pos; lra|lra]).
    assert (w * (f x0 - f (X j)) <= w * (f x0 - f y)) by (apply Rmult_le_compat_l; lra). unfold reach. lra. }
  assert (Gap : forall j t, (j <= k)%nat -> length2 n (g (X j)) <= t -> f (X j) - f y <= sqrt reach * t).
  { intros j t Hj Hg. pose proof (Hcv (X j) y (same_tail_between _ _ _ _ (Tl j Hj) T)) as Cv.
    pose proof (cs_len n (g (X j)) (fun i => X j i - y i)) as C.
    assert (E : sum n (fun i => g (X j) i * (y i - X j i)) = - sum n (fun i => g (X j) i * (X j i - y i))) by (rewrite <- sum_opp; apply sum_ext; intros; ring).
    assert (Ls : length2 n (fun i => X j i - y i) <= sqrt reach) by (apply sqrt_le_1_alt; apply (Rch j Hj)).
    pose proof (length2_pos n (g (X j))). pose proof (length2_pos n (fun i => X j i - y i)).
    assert (length2 n (g (X j)) * length2 n (fun i => X j i - y i) <= t * sqrt reach) by (apply Rmult_le_compat; lra). lra. }
  pose proof (sqrt_pos reach) as Ps.
  destruct ok.
  - eapply Rle_trans; [|apply Rmax_r]. destruct Fin as [A|(j & -> & A)].
    + rewrite <- Xk in A |- *. eapply Rle_trans; [apply (Gap k _ ltac:(lia) A)|]. apply Rmult_le_compat_l; [exact Ps|apply Rmax_l].
    + pose proof (Dec j ltac:(lia)) as De. rewrite Xk in De. apply Rle_trans with (f (X j) - f y); [lra|].
      eapply Rle_trans; [apply (Gap j (gd_tol_step c / m) ltac:(lia))|apply Rmult_le_compat_l; [exact Ps|apply Rmax_r]].
      destruct (St j ltac:(lia)) as (_ & a & [Ha1 Ha2] & Hx & _). rewrite Xk in Hx.
      pose proof (length2_sq n (g (X j))) as Lg. pose proof (length2_sq n (fun i => x i - X j i)) as Ls.
      assert (Es : sum n (fun i => (x i - X j i) * (x i - X j i)) = a * a * sum n (fun i => g (X j) i * g (X j) i)).
      { rewrite <- sum_scal. apply sum_ext. intros i Hi. rewrite (Hx i Hi). ring. }
      pose proof (length2_pos n (g (X j))) as Pg. pose proof (length2_pos n (fun i => x i - X j i)) as Pl.
      assert (Eq : length2 n (fun i => x i - X j i) = a * length2 n (g (X j))).
      { apply Rsqr_inj; [exact Pl|apply Rmult_le_pos; lra|]. unfold Rsqr. rewrite Ls, Es, <- Lg. ring. }
      apply (Rmult_le_reg_l m); [exact Pa|]. replace (m * (gd_tol_step c / m)) with (gd_tol_step c) by (field; lra).
      apply Rle_trans with (a * length2 n (g (X j))); [apply Rmult_le_compat_r; lra|lra].
  - eapply Rle_trans; [|apply Rmax_l]. subst k. specialize (I (gd_max_iters c) ltac:(lia)). rewrite Xk in I.
    pose proof (dist2_pos n x y) as D. pose proof (lt_0_INR _ Hmax) as PK.
    assert (Q : 0 < 2 * m * INR (gd_max_iters c)) by (apply Rmult_lt_0_compat; lra).
    apply (Rmult_le_reg_r (2 * m * INR (gd_max_iters c))); [exact Q|].
    replace (reach / (2 * m * INR (gd_max_iters c)) * (2 * m * INR (gd_max_iters c))) with reach by (field; split; lra).
    assert (w * (f x0 - f x) <= w * (f x0 - f y)) by (apply Rmult_le_compat_l; lra). unfold reach. lra.
Qed.

(** the default settings on the bowl *)
Example C115_search_nontrivial :
  let c := gd_new Rops 0 0 in let f := fun x : nat -> R => sum 2 (fun i => x i * x i) in
  let g := fun (x : nat -> R) i => 2 * x i in let y := fun _ : nat => 0 in
  gd_backtracking c = true /\ gd_has_bounds c = false /\ gd_momentum c = 0 /\
  smooth 2 f g 2 /\ convex 2 f g 2 /\ convex 2 f g 0 /\ 0 < gd_lr c /\ 0 < gd_tau c < 1 /\ 0 < gd_c1 c < 1 /\
  0 <= gd_tol_grad c /\ / 10 ^ 20 < gd_tau c * (2 * (1 - gd_c1 c) / 2) /\
  (forall x0, same_tail 2 x0 y <-> forall i, (2 <= i)%nat -> x0 i = 0) /\ minimiser 2 c f y.
Proof.
  cbv zeta. cbn [gd_new gd_backtracking gd_has_bounds gd_momentum gd_lr gd_tau gd_c1 gd_tol_grad lit zero Rops].
  unfold Q2R. cbn [Qnum Qden]. split; [reflexivity|]. split; [reflexivity|]. split; [reflexivity|]. split; [apply bowl_smooth|].
  assert (Cv : forall m, m <= 2 -> convex 2 (fun x : nat -> R => sum 2 (fun i => x i * x i)) (fun x i => 2 * x i) m).
  { intros m Hm u v _. unfold dist2. cbn [sum]. pose proof (Rle_0_sqr (v 0%nat - u 0%nat)). pose proof (Rle_0_sqr (v 1%nat - u 1%nat)). unfold Rsqr in *. nra. }
  split; [apply Cv; lra|]. split; [apply Cv; lra|].
  do 4 (split; [lra|]). split; [replace (10 ^ 20) with 100000000000000000000 by ring; lra|].
  split. { intros x0. split; intros Hx i Hi; specialize (Hx i Hi); symmetry; exact Hx. }
  split; [intros E; discriminate E|]. intros z _ _. cbn [sum]. pose proof (Rle_0_sqr (z 0%nat)). pose proof (Rle_0_sqr (z 1%nat)). unfold Rsqr in *. lra.
Qed.

(** ** The documented momentum *)
(** basic.rs:10 and basic.rs:20 promise [x - lr g + m v]; the code adds the velocity to the direction
    before multiplying by the step, so the velocity enters with [lr m].  Gradient -1, rate 1/2,
    momentum 1/2, two iterations from 0: 9/8 instead of 5/4. *)
Lemma length2_1 v : length2 1 v = Rabs (v 0%nat).
Proof. unfold length2. cbn [sum]. rewrite Rplus_0_l. apply sqrt_Rsqr_abs. Qed.

Theorem C115_documented_momentum_refuted :
  exists (c : @gd R) (f : (nat -> R) -> R) (g : (nat -> R) -> nat -> R) (x0 x : nat -> R) fx ok,
    gd_backtracking c = false /\ gd_has_bounds c = false /\
    smooth 1 f g 0 /\ convex 1 f g 0 /\
    (forall fuel, minimize Rops 1 c f g fuel x0 = Some (x, fx, 2%nat, ok)) /\
    ~ exists X : nat -> nat -> R, X 0%nat = x0 /\ X 2%nat = x /\
        forall j i, (j < 2)%nat -> (i < 1)%nat ->
          X (j + 1)%nat i = X j i - gd_lr c * g (X j) i + gd_momentum c * (X j i - X (j - 1)%nat i).
Proof.
  set (c := mkGd (1 / 2) false 0 0 (1 / 2) 0 0 2%nat false (fun _ => 0) (fun _ => 0)).
  set (f := fun x : nat -> R => - x 0%nat). set (g := fun (_ : nat -> R) (_ : nat) => -1).
  set (x0 := fun _ : nat => 0).
  assert (Hbox : box_ok 1 c) by (intros E; discriminate E).
  destruct (fixed_total 1 c f g 0 x0 eq_refl) as [[[[x fx] k] ok] E].
  assert (Fu : forall fuel, minimize Rops 1 c f g fuel x0 = minimize Rops 1 c f g 0 x0) by reflexivity.
  destruct (C115_path 1 c f g 0 x0 x fx k ok eq_refl Hbox E) as (X & X0 & Xk & Ef & St & _ & Fin).
  assert (R1 : forall j, (j < k)%nat -> X (j + 1)%nat 0%nat = X j 0%nat + 1 / 2 + 1 / 4 * (X j 0%nat - X (j - 1)%nat 0%nat)).
  { intros j Hj. destruct (St j Hj) as (_ & _ & A). rewrite (A 0%nat ltac:(lia)). unfold nearest, c, g. cbn [gd_has_bounds gd_lr gd_momentum]. field. }
  assert (Up : forall j, (j < k)%nat -> 1 / 2 <= X (j + 1)%nat 0%nat - X j 0%nat).
  { induction j as [|j IH]; intros Hj; rewrite (R1 _ Hj).
    - replace (0 - 1)%nat with 0%nat by lia. lra.
    - specialize (IH ltac:(lia)). rewrite Nat.add_1_r in IH. replace (S j - 1)%nat with j by lia. lra. }
  destruct ok.
  { exfalso. destruct Fin as [A|(j & Ej & A)]; rewrite length2_1 in A; cbn [c gd_tol_grad gd_tol_step] in A.
    - unfold g in A. rewrite Rabs_left in A by lra. lra.
    - specialize (Up j ltac:(lia)). replace (j + 1)%nat with k in Up by lia. rewrite Xk in Up.
      pose proof (Rle_abs (x 0%nat - X j 0%nat)). lra. }
  destruct Fin as [Ek _]. cbn in Ek. subst k.
  exists c, f, g, x0, x, fx, false. split; [reflexivity|]. split; [reflexivity|]. split; [|split; [|split]].
  - intros u v _. unfold f, g. cbn [sum]. lra.
  - intros u v _. unfold f, g, dist2. cbn [sum]. lra.
  - intros fuel. rewrite Fu. exact E.
  - intros (Y & Y0 & Y2 & HY). pose proof (R1 0%nat ltac:(lia)) as A0. pose proof (R1 1%nat ltac:(lia)) as A1.
    pose proof (HY 0%nat 0%nat ltac:(lia) ltac:(lia)) as B0. pose proof (HY 1%nat 0%nat ltac:(lia) ltac:(lia)) as B1.
    cbn [Nat.add Nat.sub] in *. rewrite X0 in *. rewrite Y0 in *. rewrite Y2 in *. rewrite Xk in *.
    unfold g, c, x0 in *. cbn [gd_lr gd_momentum] in *. lra.
Qed.

(** ** A case that meets every hypothesis: a bowl whose minimum over the box is on its border *)
Example C115_nontrivial :
  let c := mkGd (1 / 4) false 0 0 0 (1 / 10) (1 / 100) 5%nat true (fun _ => 1) (fun _ => 3) in
  let f := fun x : nat -> R => sum 2 (fun i => x i * x i) in let g := fun (x : nat -> R) i => 2 * x i in
  let x0 := fun i : nat => if (i <? 2)%nat then 3 else 1 in let y := fun _ : nat => 1 in
  gd_backtracking c = false /\ gd_momentum c = 0 /\ box_ok 2 c /\ smooth 2 f g 2 /\ convex 2 f g 2 /\ convex 2 f g 0 /\
  0 < gd_lr c /\ gd_lr c * 2 <= 1 /\ same_tail 2 x0 y /\ minimiser 2 c f y /\ allowed 2 c x0 /\ 0 <= gd_tol_grad c /\
  0 < gd_tol_step c /\ exists x fx k ok, minimize Rops 2 c f g 0 x0 = Some (x, fx, k, ok) /\ (0 < k)%nat.
Proof.
  intros c f g x0 y. assert (Hbox : box_ok 2 c) by (intros _ i _; cbn; lra).
  split; [reflexivity|]. split; [reflexivity|]. split; [exact Hbox|]. split; [apply bowl_smooth|].
  assert (Cv : forall m, m <= 2 -> convex 2 f g m).
  { intros m Hm u v _. unfold f, g, dist2. cbn [sum]. pose proof (Rle_0_sqr (v 0%nat - u 0%nat)). pose proof (Rle_0_sqr (v 1%nat - u 1%nat)). unfold Rsqr in *. nra. }
  split; [apply Cv; lra|]. split; [apply Cv; lra|]. split; [cbn; lra|]. split; [cbn; lra|].
  split; [intros i Hi; unfold x0, y; destruct (Nat.ltb_spec i 2); [lia|reflexivity]|].
  split. { split; [intros _ i _; cbn; unfold y; lra|]. intros z _ Hz. pose proof (Hz eq_refl 0%nat ltac:(lia)) as Z0. pose proof (Hz eq_refl 1%nat ltac:(lia)) as Z1. cbn [c gd_min gd_max] in *. unfold f, y. cbn [sum]. nra. }
  split; [intros _ i Hi; cbn; unfold x0; destruct (Nat.ltb_spec i 2); [lra|lia]|].
  split; [cbn; lra|]. split; [cbn; lra|].
  destruct (fixed_total 2 c f g 0 x0 eq_refl) as [[[[x fx] k] ok] E]. exists x, fx, k, ok. split; [exact E|].
  destruct (C115_path 2 c f g 0 x0 x fx k ok eq_refl Hbox E) as (X & X0 & Xk & _ & _ & _ & Fin).
  destruct k as [|k]; [|lia]. exfalso. destruct ok.
  - destruct Fin as [A|(j & Ej & _)]; [|lia]. rewrite <- Xk, X0 in A.
    pose proof (length2_sq 2 (g x0)) as L. pose proof (length2_pos 2 (g x0)) as P.
    assert (V : sum 2 (fun i => g x0 i * g x0 i) = 72) by (unfold g, x0; cbn [sum]; cbn; ring). rewrite V in L.
    cbn [c gd_tol_grad] in A. nra.
  - destruct Fin as [A _]. cbn in A. lia.
Qed.
