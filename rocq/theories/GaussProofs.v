(** The determinant and the two inverses. *)
From Coq Require Import Reals ZArith QArith List Arith Lia Lra Bool.
From Verif Require Import Scalar RSum LinModel LinSpec LinProofs DetSpec SolveModel SolveProofs LuProofs.
Import ListNotations.
Local Open Scope R_scope.

(** Two runs of the same loop shape *)
Lemma forM_rel {S T} (P : nat -> S -> T -> Prop) lo hi (f : nat -> S -> option S) (g : nat -> T -> option T) :
  forall s t, (lo <= hi)%nat -> P lo s t ->
  (forall i s t, (lo <= i < hi)%nat -> P i s t ->
     match f i s, g i t with Some s', Some t' => P (Datatypes.S i) s' t' | None, None => True | _, _ => False end) ->
  match forM lo hi f s, forM lo hi g t with Some s', Some t' => P hi s' t' | None, None => True | _, _ => False end.
Proof.
  unfold forM. remember (hi - lo)%nat as n eqn:E. revert lo E.
  induction n as [|n IH]; intros lo E s t Hl H0 Hs; cbn [seq forL].
  - replace hi with lo by lia. exact H0.
  - pose proof (Hs lo s t ltac:(lia) H0) as G. destruct (f lo s) as [s'|], (g lo t) as [t'|]; try contradiction; auto.
    apply IH; try lia; auto. intros i u v Hi. apply Hs. lia.
Qed.

Lemma find_pivot_ext {F} (o : ops F) N k a b : (k < N)%nat ->
  (forall r, (k <= r < N)%nat -> a r k = b r k) -> find_pivot o N k a = find_pivot o N k b.
Proof.
  intros Hk H. unfold find_pivot. rewrite (H k) by lia. apply for_ext.
  intros i [p v] Hi. rewrite (H i) by lia. reflexivity.
Qed.

(** The determinant runs the LU elimination *)
Section Det.
Context (N : nat) (W : mat).
Let eps := eps12 Rops.

Definition sync (k : nat) (st : mat * R) (d : lu_decomp) : Prop :=
  (forall i j, (i < N)%nat -> (j < N)%nat -> (k <= j \/ i <= j)%nat -> fst st i j = lu d i j) /\
  snd st = IZR (sign d) * prodR k (fun m => lu d m m).

Lemma sync_step k st d : (k < N)%nat -> sync k st d ->
  match det_step Rops N k st, lu_step Rops eps N k d with
  | Some st', Some d' => sync (S k) st' d'
  | None, None => True
  | _, _ => False
  end.
Proof.
  destruct st as [a dt]. intros Hk (E & Ed). cbn [fst snd] in *. unfold det_step, lu_step.
  rewrite (find_pivot_ext Rops N k a (lu d) Hk) by (intros r Hr; apply E; lia).
  pose proof (find_pivot_spec N k (lu d) Hk) as Fp.
  destruct (find_pivot Rops N k (lu d)) as [p v]. destruct Fp as (Hp & _ & _).
  fold eps. destruct (leb Rops v eps); auto.
  assert (forall a' w' dt' q' s',
    (forall i j, (i < N)%nat -> (j < N)%nat -> (k <= j \/ i <= j)%nat -> a' i j = w' i j) ->
    dt' = IZR s' * prodR k (fun m => w' m m) ->
    sync (S k) (det_eliminate Rops N k a', mul Rops dt' (a' k k)) (mkLU (lu_eliminate Rops N k w') q' s')) as Fin.
  { intros a' w' dt' q' s' Ea Edt. split; cbn [fst snd lu sign].
    - intros i j Hi Hj Hij. rewrite det_eliminate_spec, lu_eliminate_spec by auto.
      rewrite (proj2 (Nat.ltb_lt i N)), (proj2 (Nat.ltb_lt j N)) by auto. rewrite !andb_true_r.
      destruct (Nat.ltb_spec k i); cbn [andb]; [|apply Ea; auto; lia].
      rewrite (Ea i k), (Ea k j), (Ea k k), (Ea i j) by lia.
      destruct (Nat.eqb_spec j k); [lia|]. destruct (k <? j)%nat; reflexivity.
    - cbn [prodR mul Rops]. rewrite Edt. rewrite (Ea k k) by lia.
      rewrite (prodR_ext k (fun m => lu_eliminate Rops N k w' m m) (fun m => w' m m)).
      + rewrite lu_eliminate_spec by auto. rewrite (proj2 (Nat.ltb_ge k k)) by lia. cbn [andb]. ring.
      + intros m Hm. rewrite lu_eliminate_spec by auto. rewrite (proj2 (Nat.ltb_ge k m)) by lia. reflexivity. }
  destruct (Nat.eqb_spec p k) as [->|Np].
  - apply Fin; auto.
  - apply Fin.
    + intros i j Hi Hj Hij. cbn [lu]. rewrite !swap_rows_spec. rewrite (proj2 (Nat.ltb_lt j N)) by auto.
      apply E; auto; [apply tr_lt; lia|]. unfold tr.
      destruct (Nat.eqb_spec i k); try lia. destruct (Nat.eqb_spec i p); lia.
    + cbn [sign neg Rops lu]. rewrite Ed, opp_IZR.
      rewrite (prodR_ext k (fun m => swap_rows N k p (lu d) m m) (fun m => lu d m m)); [ring|].
      intros m Hm. rewrite swap_rows_spec, (proj2 (Nat.ltb_lt m N)) by lia. f_equal.
      unfold tr. rewrite !(proj2 (Nat.eqb_neq m _)) by lia. reflexivity.
Qed.

Lemma determinant_lu : determinant Rops N W =
  match lu_decompose Rops eps N W with
  | Some d => IZR (sign d) * prodR N (fun m => lu d m m)
  | None => 0
  end.
Proof.
  unfold determinant, lu_decompose.
  pose proof (forM_rel sync 0 N (det_step Rops N) (lu_step Rops eps N) (W, one Rops) (mkLU W (fun i => i) 1%Z) (Nat.le_0_l N)) as G.
  specialize (G ltac:(split; [auto|cbn; ring]) ltac:(intros; apply sync_step; auto; lia)).
  destruct (forM 0 N (det_step Rops N) (W, one Rops)) as [[a dt]|],
    (forM 0 N (lu_step Rops eps N) _) as [d|]; try contradiction; auto. apply G.
Qed.
End Det.

(** Gauss-Jordan *)
Section GJ.
Context (N : nat) (W : mat).

Definition gj_inv (k : nat) (st : mat * mat) : Prop :=
  eqm N N (fst st) (Mprod N (snd st) W) /\
  (exists J, eqm N N (Mprod N J (fst st)) W /\ eqm N N (Mprod N J (snd st)) delta) /\
  (forall i j, (i < N)%nat -> (j < k)%nat -> fst st i j = delta i j).

(* multiplying both matrices by an invertible matrix keeps the first two parts *)
Lemma gj_mult a x a' x' (E E' : mat) :
  eqm N N a (Mprod N x W) ->
  (exists J, eqm N N (Mprod N J a) W /\ eqm N N (Mprod N J x) delta) ->
  eqm N N a' (Mprod N E a) -> eqm N N x' (Mprod N E x) -> eqm N N (Mprod N E' E) delta ->
  eqm N N a' (Mprod N x' W) /\
  (exists J, eqm N N (Mprod N J a') W /\ eqm N N (Mprod N J x') delta).
Proof.
  intros I1 (J & J1 & J2) Ea Ex Inv.
  assert (forall P Q T i j, (i < N)%nat -> (j < N)%nat -> Mprod N (Mprod N P Q) T i j = Mprod N P (Mprod N Q T) i j) as As.
  { intros P Q T i j Hi Hj. unfold Mprod.
    rewrite (sum_ext N _ (fun m => sum N (fun r => P i r * (Q r m * T m j)))).
    - rewrite sum_swap. apply sum_ext. intros r Hr. rewrite sum_scal. reflexivity.
    - intros m Hm. rewrite <- sum_scal_r. apply sum_ext. intros; ring. }
  assert (forall P Q P' Q', eqm N N P P' -> eqm N N Q Q' -> eqm N N (Mprod N P Q) (Mprod N P' Q')) as Cg.
  { intros P Q P' Q' H1 H2 i j Hi Hj. unfold Mprod. apply sum_ext. intros m Hm. rewrite H1, H2; auto. }
  assert (forall P, eqm N N (Mprod N delta P) P) as Id.
  { intros P i j Hi Hj. unfold Mprod. rewrite (sum_one N i); auto.
    - unfold delta. rewrite Nat.eqb_refl. ring.
    - intros m Hm Nm. unfold delta. rewrite (proj2 (Nat.eqb_neq i m)) by lia. ring. }
  split.
  - intros i j Hi Hj. rewrite Ea by auto. rewrite (Cg x' W (Mprod N E x) W Ex ltac:(intros ? ? ? ?; reflexivity) i j) by auto.
    rewrite As by auto. apply Cg; auto. intros ? ? ? ?; reflexivity.
  - exists (Mprod N J E').
    assert (forall P P', eqm N N P' (Mprod N E P) -> eqm N N (Mprod N (Mprod N J E') P') (Mprod N J P)) as G.
    { intros P P' H i j Hi Hj. rewrite As by auto. apply Cg; auto; [intros ? ? ? ?; reflexivity|].
      intros r c Hr Hc. rewrite (Cg E' P' E' (Mprod N E P) ltac:(intros ? ? ? ?; reflexivity) H r c) by auto.
      rewrite <- As by auto. rewrite (Cg (Mprod N E' E) P delta P Inv ltac:(intros ? ? ? ?; reflexivity) r c) by auto.
      apply Id; auto. }
    split; intros i j Hi Hj; [rewrite (G a a' Ea i j) by auto; apply J1|rewrite (G x x' Ex i j) by auto; apply J2]; auto.
Qed.

Lemma gj_scale_spec k a x : let '(a', x') := gj_scale Rops N k a x in
  forall r c, (c < N)%nat -> a' r c = (if (r =? k)%nat then a k c * (1 / a k k) else a r c) /\
    x' r c = (if (r =? k)%nat then x k c * (1 / a k k) else x r c).
Proof.
  unfold gj_scale. cbv zeta. cbn [div one mul Rops]. set (v := 1 / a k k).
  pose (P := fun n (st : mat * mat) => forall r c,
    fst st r c = (if (r =? k)%nat && (c <? n)%nat then a k c * v else a r c) /\
    snd st r c = (if (r =? k)%nat && (c <? n)%nat then x k c * v else x r c)).
  match goal with |- context [for_ 0 N ?b ?s] => assert (P N (for_ 0 N b s)) as G end.
  { apply (for_ind P); [lia| |].
    - intros r c. cbn. rewrite andb_false_r. auto.
    - intros n [s t] Hn E r c. cbn [fst snd]. unfold upd2.
      destruct (E k n) as [E1 E2]. destruct (E r c) as [E3 E4]. cbn [fst snd] in *.
      rewrite (proj2 (Nat.ltb_ge n n)), andb_false_r in E1, E2 by lia. rewrite E1, E2, E3, E4.
      destruct (Nat.eqb_spec r k); cbn [andb]; auto. destruct (Nat.eqb_spec c n) as [->|].
      + rewrite (proj2 (Nat.ltb_lt n (S n))) by lia. auto.
      + destruct (Nat.ltb_spec c n); destruct (Nat.ltb_spec c (S n)); auto; lia. }
  destruct (for_ 0 N _ _) as [a' x']. intros r c Hc. destruct (G r c) as [G1 G2]. cbn [fst snd] in *.
  rewrite (proj2 (Nat.ltb_lt c N) Hc), andb_true_r in G1, G2. auto.
Qed.

Lemma gj_eliminate_spec k a x : let '(a', x') := gj_eliminate Rops N k a x in
  forall r c, (r < N)%nat -> (c < N)%nat ->
    a' r c = (if (r =? k)%nat then a k c else a r c - a r k * a k c) /\
    x' r c = (if (r =? k)%nat then x k c else x r c - a r k * x k c).
Proof.
  unfold gj_eliminate.
  pose (P := fun n (st : mat * mat) => forall r c, (c < N)%nat ->
    fst st r c = (if (r =? k)%nat then a k c else if (r <? n)%nat then a r c - a r k * a k c else a r c) /\
    snd st r c = (if (r =? k)%nat then x k c else if (r <? n)%nat then x r c - a r k * x k c else x r c) /\
    ((n <= r)%nat -> fst st r k = a r k)).
  match goal with |- context [for_ 0 N ?b ?s] => assert (P N (for_ 0 N b s)) as G end.
  { apply (for_ind P); [lia| |].
    - intros r c Hc. cbn. destruct (Nat.eqb_spec r k); subst; auto.
    - intros n [s t] Hn E.
      destruct (Nat.eqb_spec n k) as [->|Nk].
      { intros r c Hc. destruct (E r c Hc) as (E1 & E2 & E3). rewrite E1, E2.
        destruct (Nat.eqb_spec r k); [repeat split; auto; intros; lia|].
        destruct (Nat.ltb_spec r k); destruct (Nat.ltb_spec r (S k)); try lia; repeat split; auto; intros; apply E3; lia. }
      cbv zeta.
      assert (s n k = a n k) as Ef.
      { destruct (Nat.lt_ge_cases 0 N) as [L|L]; [|lia]. destruct (E n 0%nat L) as (_ & _ & E3). apply E3. lia. }
      rewrite Ef. cbn [eqb zero Rops]. destruct (Reqb (a n k) 0) eqn:Z; cbn [negb].
      { apply Reqb_true in Z. intros r c Hc. destruct (E r c Hc) as (E1 & E2 & E3). rewrite E1, E2.
        destruct (Nat.eqb_spec r k); [repeat split; auto; intros; apply E3; lia|].
        destruct (Nat.eq_dec r n) as [->|].
        - rewrite (proj2 (Nat.ltb_ge n n)), (proj2 (Nat.ltb_lt n (S n))) by lia. rewrite Z.
          repeat split; try ring. intros; lia.
        - destruct (Nat.ltb_spec r n); destruct (Nat.ltb_spec r (S n)); try lia; repeat split; auto; intros; apply E3; lia. }
      set (f := a n k).
      pose (Q := fun m (st : mat * mat) => forall r c,
        fst st r c = (if (r =? n)%nat && (c <? m)%nat then s n c - f * s k c else s r c) /\
        snd st r c = (if (r =? n)%nat && (c <? m)%nat then t n c - f * t k c else t r c)).
      match goal with |- P _ (for_ 0 N ?b ?s) => assert (Q N (for_ 0 N b s)) as GQ end.
      { apply (for_ind Q); [lia| |].
        - intros r c. cbn. rewrite andb_false_r. auto.
        - intros m [u v] Hm EQ r c. cbn [fst snd sub mul Rops]. unfold upd2.
          destruct (EQ k m) as [K1 K2]. destruct (EQ n m) as [M1 M2]. destruct (EQ r c) as [R1 R2]. cbn [fst snd] in *.
          rewrite (proj2 (Nat.eqb_neq k n)) in K1, K2 by lia. cbn [andb] in K1, K2.
          rewrite (proj2 (Nat.ltb_ge m m)), andb_false_r in M1, M2 by lia.
          rewrite K1, K2, M1, M2, R1, R2.
          destruct (Nat.eqb_spec r n); cbn [andb]; auto. destruct (Nat.eqb_spec c m) as [->|].
          + rewrite (proj2 (Nat.ltb_lt m (S m))) by lia. auto.
          + destruct (Nat.ltb_spec c m); destruct (Nat.ltb_spec c (S m)); auto; lia. }
      destruct (for_ 0 N _ _) as [s' t']. intros r c Hc. destruct (GQ r c) as [Q1 Q2]. destruct (GQ r k) as [Q3 _].
      cbn [fst snd] in *. rewrite (proj2 (Nat.ltb_lt c N) Hc), andb_true_r in Q1, Q2.
      destruct (E r c Hc) as (E1 & E2 & E3). destruct (E k c Hc) as (K1 & K2 & _). cbn [fst snd] in *. rewrite Nat.eqb_refl in K1, K2.
      rewrite Q1, Q2. destruct (Nat.eqb_spec r n) as [->|Nr].
      + rewrite (proj2 (Nat.eqb_neq n k)) in * by lia. rewrite (proj2 (Nat.ltb_ge n n)) in E1, E2 by lia.
        rewrite (proj2 (Nat.ltb_lt n (S n))) by lia. rewrite E1, E2, K1, K2. repeat split; try reflexivity. intros; lia.
      + rewrite E1, E2. destruct (Nat.eqb_spec r k); [repeat split; auto; intros; rewrite Q3; apply E3; lia|].
        destruct (Nat.ltb_spec r n); destruct (Nat.ltb_spec r (S n)); try lia; repeat split; auto; intros; rewrite Q3; apply E3; lia. }
  destruct (for_ 0 N _ _) as [a' x']. intros r c Hr Hc. destruct (G r c Hc) as (G1 & G2 & _). cbn [fst snd] in *.
  rewrite (proj2 (Nat.ltb_lt r N) Hr) in G1, G2. auto.
Qed.

Lemma gj_pivot k a x : (k < N)%nat -> gj_inv k (a, x) -> a k k <> 0 ->
  gj_inv (S k) (let '(a, x) := gj_scale Rops N k a x in gj_eliminate Rops N k a x).
Proof.
  intros Hk (I1 & I2 & I3) Nz. cbn [fst snd] in *.
  pose proof (gj_scale_spec k a x) as Sc. destruct (gj_scale Rops N k a x) as [b y].
  pose proof (gj_eliminate_spec k b y) as El. destruct (gj_eliminate Rops N k b y) as [a' x'].
  assert (forall r c, (r < N)%nat -> (c < N)%nat ->
    a' r c = (if (r =? k)%nat then a k c / a k k else a r c - a r k * (a k c / a k k)) /\
    x' r c = (if (r =? k)%nat then x k c / a k k else x r c - a r k * (x k c / a k k))) as Cl.
  { intros r c Hr Hc. destruct (El r c Hr Hc) as [-> ->].
    destruct (Sc r c Hc) as [-> ->]. destruct (Sc k c Hc) as [-> ->]. destruct (Sc r k Hk) as [-> _].
    rewrite Nat.eqb_refl. destruct (Nat.eqb_spec r k); subst; split; field; auto. }
  set (E := fun i m => if (m =? k)%nat then (if (i =? k)%nat then / a k k else - a i k / a k k) else delta i m).
  set (E' := fun i m => if (m =? k)%nat then a i k else delta i m).
  assert (forall P i j, (i < N)%nat -> (j < N)%nat ->
    Mprod N E P i j = if (i =? k)%nat then P k j / a k k else P i j - a i k * (P k j / a k k)) as EP.
  { intros P i j Hi Hj. unfold Mprod, E. destruct (Nat.eqb_spec i k) as [->|Ni].
    - rewrite (sum_one N k); auto; [rewrite Nat.eqb_refl; field; auto|].
      intros m Hm Nm. rewrite (proj2 (Nat.eqb_neq m k)) by auto. unfold delta. rewrite (proj2 (Nat.eqb_neq k m)) by lia. ring.
    - rewrite (sum_ext N _ (fun m => (if (m =? k)%nat then - a i k / a k k * P k j else 0) + (if (m =? i)%nat then P i j else 0))).
      + rewrite sum_plus, (sum_one N k), (sum_one N i); auto; rewrite ?Nat.eqb_refl.
        * field; auto.
        * intros m Hm Nm. rewrite (proj2 (Nat.eqb_neq m i)) by auto. reflexivity.
        * intros m Hm Nm. rewrite (proj2 (Nat.eqb_neq m k)) by auto. reflexivity.
      + intros m Hm. unfold delta. destruct (Nat.eqb_spec m k); destruct (Nat.eqb_spec m i); destruct (Nat.eqb_spec i m); subst; try lia; try ring. }
  destruct (gj_mult a x a' x' E E' I1 I2) as [G1 G2].
  - intros i j Hi Hj. rewrite EP by auto. apply Cl; auto.
  - intros i j Hi Hj. rewrite EP by auto. apply Cl; auto.
  - intros i j Hi Hj. unfold Mprod.
    rewrite (sum_ext N _ (fun m => (if (m =? k)%nat then a i k * E k j else 0) + (if (m =? i)%nat && negb (i =? k)%nat then E i j else 0))).
    + rewrite sum_plus, (sum_one N k); auto.
      2:{ intros m Hm Nm. rewrite (proj2 (Nat.eqb_neq m k)) by auto. reflexivity. }
      rewrite (sum_one N i); auto.
      2:{ intros m Hm Nm. rewrite (proj2 (Nat.eqb_neq m i)) by auto. reflexivity. }
      rewrite !Nat.eqb_refl. unfold E, delta. rewrite Nat.eqb_refl.
      destruct (Nat.eqb_spec i k) as [->|]; destruct (Nat.eqb_spec j k) as [->|]; cbn [andb negb].
      * rewrite Nat.eqb_refl. field; auto.
      * rewrite (proj2 (Nat.eqb_neq k j)) by lia. ring.
      * rewrite (proj2 (Nat.eqb_neq i k)) by lia. field; auto.
      * rewrite (proj2 (Nat.eqb_neq k j)) by lia. ring.
    + intros m Hm. unfold E', delta. destruct (Nat.eqb_spec m k); destruct (Nat.eqb_spec m i); destruct (Nat.eqb_spec i m);
        destruct (Nat.eqb_spec i k); subst; try lia; cbn [andb negb]; try ring.
  - split; [exact G1|]. split; [exact G2|]. cbn [fst]. intros i j Hi Hj.
    destruct (Cl i j Hi ltac:(lia)) as [-> _]. destruct (Nat.eq_dec j k) as [->|Nj].
    + unfold delta. destruct (Nat.eqb_spec i k); subst; field; auto.
    + rewrite (I3 k j), (I3 i j) by lia. unfold delta. rewrite (proj2 (Nat.eqb_neq k j)) by lia.
      destruct (Nat.eqb_spec i k); subst.
      * rewrite (proj2 (Nat.eqb_neq k j)) by lia. field; auto.
      * field; auto.
Qed.

Lemma gj_swap k p a x : (k < N)%nat -> (k <= p < N)%nat -> gj_inv k (a, x) ->
  gj_inv k (swap_rows N k p a, swap_rows N k p x).
Proof.
  intros Hk Hp (I1 & I2 & I3). cbn [fst snd] in *.
  set (E := fun i m => delta (tr k p i) m).
  assert (forall P i j, (i < N)%nat -> Mprod N E P i j = P (tr k p i) j) as EP.
  { intros P i j Hi. pose proof (tr_lt N k p i Hk (proj2 Hp) Hi) as Ht. unfold Mprod, E.
    rewrite (sum_one N (tr k p i)); auto.
    - unfold delta. rewrite Nat.eqb_refl. ring.
    - intros m Hm Nm. unfold delta. rewrite (proj2 (Nat.eqb_neq _ m)) by auto. ring. }
  destruct (gj_mult a x (swap_rows N k p a) (swap_rows N k p x) E E I1 I2) as [G1 G2].
  - intros i j Hi Hj. rewrite EP, swap_rows_spec, (proj2 (Nat.ltb_lt j N)) by auto. reflexivity.
  - intros i j Hi Hj. rewrite EP, swap_rows_spec, (proj2 (Nat.ltb_lt j N)) by auto. reflexivity.
  - intros i j Hi Hj. rewrite EP by auto. unfold E. rewrite tr_tr. reflexivity.
  - split; [exact G1|]. split; [exact G2|]. cbn [fst]. intros i j Hi Hj.
    rewrite swap_rows_spec, (proj2 (Nat.ltb_lt j N)) by lia. rewrite I3 by (auto using tr_lt, (proj2 Hp)).
    unfold delta, tr. destruct (Nat.eqb_spec i k); [|destruct (Nat.eqb_spec i p)]; subst; auto;
      rewrite !(proj2 (Nat.eqb_neq _ j)) by lia; reflexivity.
Qed.

Definition gj_stuck (k : nat) (st : mat * mat) : Prop :=
  (k < N)%nat /\ gj_inv k st /\ forall r, (k <= r < N)%nat -> Rabs (fst st r k) <= eps12 Rops.

Lemma eps12_pos : 0 < eps12 Rops.
Proof. unfold eps12. cbn [lit Rops]. unfold Q2R. cbn. lra. Qed.

Lemma gj_step_spec k st : (k < N)%nat -> gj_inv k st ->
  match gj_step Rops N k st with Some st' => gj_inv (S k) st' | None => gj_stuck k st end.
Proof.
  intros Hk I. destruct st as [a x]. unfold gj_step. pose proof (find_pivot_spec N k a Hk) as Fp.
  destruct (find_pivot Rops N k a) as [p v]. destruct Fp as (Hp & Ev & Mx).
  pose proof eps12_pos as Ep. cbn [leb Rops]. destruct (Rleb v (eps12 Rops)) eqn:Z.
  - apply Rleb_true in Z. split; auto. split; auto. intros r Hr. cbn [fst]. specialize (Mx r Hr). lra.
  - apply Rleb_false in Z.
    assert (forall b y, gj_inv k (b, y) -> b k k <> 0 ->
      match (let '(a, x) := gj_scale Rops N k b y in Some (gj_eliminate Rops N k a x)) with
      | Some st' => gj_inv (S k) st' | None => gj_stuck k (a, x) end) as Fin.
    { intros b y Ib Nz. pose proof (gj_pivot k b y Hk Ib Nz) as G. destruct (gj_scale Rops N k b y). exact G. }
    destruct (Nat.eqb_spec p k) as [->|Np].
    + apply Fin; auto. intros E. rewrite E, Rabs_R0 in Ev. lra.
    + apply Fin; [apply gj_swap; auto|]. rewrite swap_rows_spec, (proj2 (Nat.ltb_lt k N)) by auto.
      unfold tr. rewrite Nat.eqb_refl. intros E. rewrite E, Rabs_R0 in Ev. lra.
Qed.

Lemma gj_inv_0 : gj_inv 0 (W, identity Rops N).
Proof.
  assert (eqm N N (identity Rops N) delta) as Ed.
  { intros i j Hi Hj. rewrite identity_spec, (proj2 (Nat.ltb_lt i N)), andb_true_r by auto. reflexivity. }
  assert (forall P, eqm N N (Mprod N delta P) P) as Id.
  { intros P i j Hi Hj. unfold Mprod. rewrite (sum_one N i); auto.
    - unfold delta. rewrite Nat.eqb_refl. ring.
    - intros m Hm Nm. unfold delta. rewrite (proj2 (Nat.eqb_neq i m)) by lia. ring. }
  split; [|split]; cbn [fst snd].
  - intros i j Hi Hj. rewrite <- (Id W i j) by auto. unfold Mprod. apply sum_ext. intros m Hm. rewrite Ed; auto.
  - exists delta. split; [apply Id|]. intros i j Hi Hj. rewrite Id by auto. apply Ed; auto.
  - intros; lia.
Qed.

Lemma gj_some x : inverse_gauss_jordan Rops N W = Some x ->
  eqm N N (Mprod N x W) delta /\ eqm N N (Mprod N W x) delta.
Proof.
  unfold inverse_gauss_jordan. destruct (forM 0 N (gj_step Rops N) _) as [[a y]|] eqn:E; [|discriminate].
  intros H. inversion H. subst y. clear H. cbn [snd].
  assert (gj_inv N (a, x)) as (I1 & (J & J1 & J2) & I3).
  { apply (forM_some_ind gj_inv 0 N _ _ _ (Nat.le_0_l _) gj_inv_0 E). intros k s s' Hk I Es.
    pose proof (gj_step_spec k s ltac:(lia) I) as G. rewrite Es in G. exact G. }
  cbn [fst snd] in *. split.
  - intros i j Hi Hj. rewrite <- I1 by auto. apply I3; auto.
  - intros i j Hi Hj. rewrite <- (J2 i j) by auto. unfold Mprod. apply sum_ext. intros m Hm. f_equal.
    rewrite <- J1 by auto. unfold Mprod. rewrite (sum_one N m); auto.
    + rewrite I3 by auto. unfold delta. rewrite Nat.eqb_refl. ring.
    + intros r Hr Nr. rewrite I3 by auto. unfold delta. rewrite (proj2 (Nat.eqb_neq r m)) by auto. ring.
Qed.

Lemma gj_none : inverse_gauss_jordan Rops N W = None -> exists k st, gj_stuck k st.
Proof.
  unfold inverse_gauss_jordan. destruct (forM 0 N (gj_step Rops N) _) as [[a y]|] eqn:E; [discriminate|]. intros _.
  destruct (forM_none_ind gj_inv 0 N _ _ gj_inv_0 E) as (k & s & Hk & I & En).
  - intros k s s' Hk I Es. pose proof (gj_step_spec k s ltac:(lia) I) as G. rewrite Es in G. exact G.
  - pose proof (gj_step_spec k s ltac:(lia) I) as G. rewrite En in G. exists k, s. exact G.
Qed.
End GJ.
