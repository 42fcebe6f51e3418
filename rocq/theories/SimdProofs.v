(** Proofs about the SIMD kernels. *)
From Coq Require Import Reals QArith List Arith Lia Lra Bool.
From Verif Require Import Scalar RSum LinModel LinSpec LinProofs SimdModel.
Import ListNotations.
Local Open Scope nat_scope.

Section Gen.
Context {F : Type} (o : ops F).
Notation mat := (nat -> nat -> F).
Notation vec := (nat -> F).

(** g (n-1) (... (g 1 (g 0 0))) *)
Fixpoint accum (n : nat) (g : nat -> F -> F) : F :=
  match n with 0 => zero o | S m => g m (accum m g) end.
Lemma accum_ext n g h : (forall k x, k < n -> g k x = h k x) -> accum n g = accum n h.
Proof. induction n; intros H; cbn; auto. rewrite IHn, H; auto. Qed.
Lemma accum_left_sum n f : accum n (fun k acc => add o acc (f k)) = left_sum o n f.
Proof. induction n; cbn; auto. rewrite IHn. reflexivity. Qed.

(** A kernel that updates row i, term k at a time. *)
Lemma rowwise M N P (step : nat -> nat -> mat -> option mat) (g : nat -> nat -> nat -> F -> F) :
  (forall i k out, i < M -> k < N -> exists s, step i k out = Some s /\
     forall r c, c < P -> s r c = if r =? i then g i k c (out i c) else out r c) ->
  exists res, forM 0 M (fun i out => forM 0 N (fun k out => step i k out) out) (zeros o) = Some res /\
    forall i j, i < M -> j < P -> res i j = accum N (fun k acc => g i k j acc).
Proof.
  intros H.
  destruct (forM_ind (fun n (s : mat) => forall r c, c < P ->
     s r c = if r <? n then accum N (fun k acc => g r k c acc) else zero o)
     0 M (fun i out => forM 0 N (fun k out => step i k out) out) (zeros o)) as (res & E & R); [lia|reflexivity| |].
  - intros i s Hi Hs.
    destruct (forM_ind (fun n (s' : mat) => forall r c, c < P ->
      s' r c = if r =? i then accum n (fun k acc => g i k c acc) else s r c)
      0 N (fun k out => step i k out) s) as (s' & E & R); [lia| | |].
    + intros r c Hc. destruct (Nat.eqb_spec r i) as [->|]; auto. rewrite Hs by auto.
      rewrite (proj2 (Nat.ltb_ge i i)) by lia. reflexivity.
    + intros k t Hk Ht. destruct (H i k t ltac:(lia) ltac:(lia)) as (t' & Et & Rt).
      exists t'. split; auto. intros r c Hc. rewrite Rt by auto. rewrite !Ht by auto. rewrite Nat.eqb_refl.
      destruct (r =? i); reflexivity.
    + exists s'. split; auto. intros r c Hc. rewrite R by auto.
      destruct (Nat.eqb_spec r i) as [->|Ne].
      * rewrite (proj2 (Nat.ltb_lt i (S i))) by lia. reflexivity.
      * rewrite Hs by auto. destruct (Nat.ltb_spec r i); destruct (Nat.ltb_spec r (S i)); auto; lia.
  - exists res. split; auto. intros i j Hi Hj. rewrite R by auto.
    rewrite (proj2 (Nat.ltb_lt i M) Hi). reflexivity.
Qed.

Lemma forM_for2 {S} M N (body : nat -> nat -> S -> S) s :
  forM 0 M (fun i s => forM 0 N (fun k s => Some (body i k s)) s) s =
  Some (for_ 0 M (fun i s => for_ 0 N (fun k s => body i k s) s) s).
Proof.
  unfold forM, for_. revert s. generalize (seq 0 (M - 0)). induction l as [|i l IH]; intros s; cbn [forL fold_left]; auto.
  assert (forall l s, forL l (fun k s => Some (body i k s)) s = Some (fold_left (fun s k => body i k s) l s)) as FL.
  { induction l0 as [|x l0 IH0]; intros s0; cbn; auto. }
  rewrite FL. apply IH.
Qed.

(** Register operations, lane by lane. *)
Definition lanewise (w : nat) (vop : F -> list F -> list F -> list F) (f : F -> F -> F -> F) : Prop :=
  forall x c b l, length c = w -> length b = w -> l < w ->
    nth l (vop x c b) (zero o) = f x (nth l c (zero o)) (nth l b (zero o)).

Lemma map2_nth f : forall (x y : list F) l d, l < length x -> l < length y ->
  nth l (map2 f x y) d = f (nth l x d) (nth l y d).
Proof. induction x; intros [|b y] [|l] d H1 H2; cbn in *; try lia; auto. apply IHx; lia. Qed.
Lemma map2_length f : forall (x y : list F), length x = length y -> length (map2 f x y) = length x.
Proof. induction x; intros [|b y] H; cbn in *; try lia; auto. Qed.
Lemma map3_nth f : forall (x y z : list F) l d, l < length x -> l < length y -> l < length z ->
  nth l (map3 f x y z) d = f (nth l x d) (nth l y d) (nth l z d).
Proof. induction x; intros [|b y] [|c z] [|l] d H1 H2 H3; cbn in *; try lia; auto. apply IHx; lia. Qed.
Lemma set1_nth w x l d : l < w -> nth l (@set1 F w x) d = x.
Proof. intros H. rewrite (nth_indep _ d x) by (unfold set1; rewrite repeat_length; auto). apply nth_repeat. Qed.

Lemma avx_lanewise w : lanewise w (fun x c b => vadd o c (vmul o (set1 w x) b)) (fun x c b => add o c (mul o x b)).
Proof.
  intros x c b l Hc Hb Hl. unfold vadd, vmul.
  assert (length (set1 w x) = w) as L by apply repeat_length.
  rewrite map2_nth; [|lia|rewrite map2_length by lia; lia]. rewrite map2_nth by lia. rewrite set1_nth by auto.
  reflexivity.
Qed.
Lemma fma_lanewise w : lanewise w (fun x c b => vfma o (set1 w x) b c) (fun x c b => fma o x b c).
Proof.
  intros x c b l Hc Hb Hl. unfold vfma.
  assert (length (set1 w x) = w) as L by apply repeat_length.
  rewrite map3_nth by lia. rewrite set1_nth by auto. reflexivity.
Qed.
Lemma neon_lanewise w : lanewise w (fun x c b => vfmaq_n o c b x) (fun x c b => fma o b x c).
Proof. intros x c b l Hc Hb Hl. unfold vfmaq_n. rewrite map2_nth by lia. reflexivity. Qed.

Lemma load_in w off dim (row : vec) : off + w <= dim ->
  exists v, load w off dim row = Some v /\ length v = w /\ forall l, l < w -> nth l v (zero o) = row (off + l).
Proof.
  intros H. unfold load. rewrite (proj2 (Nat.leb_le _ _) H). eexists. split; [reflexivity|].
  rewrite map_length, seq_length. split; auto. intros l Hl.
  rewrite (nth_indep _ _ (row (off + 0))) by (rewrite map_length, seq_length; auto).
  rewrite (map_nth (fun l => row (off + l))). rewrite seq_nth by auto. reflexivity.
Qed.
Lemma store_in w off dim (row : vec) v : off + w <= dim ->
  exists r, store o w off dim row v = Some r /\
  forall c, r c = if (off <=? c) && (c <? off + w) then nth (c - off) v (zero o) else row c.
Proof.
  intros H. unfold store. rewrite (proj2 (Nat.leb_le _ _) H). eexists. split; [reflexivity|]. reflexivity.
Qed.

Lemma row_update_spec w vop f P i x (b : vec) (out : mat) : 0 < w -> lanewise w vop f ->
  exists s, row_update o w vop P i x b out = Some s /\
  forall r c, c < P -> s r c = if r =? i then
      (if c <? P / w * w then f x (out i c) (b c) else add o (out i c) (mul o x (b c))) else out r c.
Proof.
  intros Hw L. unfold row_update.
  match goal with |- context [while_ P ?cc ?bb (0, out)] =>
    destruct (while_ind (fun '((j, s) : nat * mat) => (exists q, j = q * w) /\ j <= P /\
      forall r c, s r c = if (r =? i) && (c <? j) then f x (out i c) (b c) else out r c)
      (fun '((j, _) : nat * mat) => P - j) P cc bb (0, out)) as ([j s] & E & (Q & Hj & Hs) & C) end.
  - split; [exists 0; reflexivity|]. split; [lia|]. intros r c.
    rewrite (proj2 (Nat.ltb_ge c 0)) by lia. rewrite andb_false_r. reflexivity.
  - lia.
  - intros [j s] (Q & Hj & Hs) C. apply Nat.leb_le in C.
    destruct (load_in w j P (s i) C) as (cv & E1 & L1 & N1). rewrite E1. cbn [bind].
    destruct (load_in w j P b C) as (bv & E2 & L2 & N2). rewrite E2. cbn [bind].
    destruct (store_in w j P (s i) (vop x cv bv) C) as (r' & E3 & N3). rewrite E3. cbn [bind].
    eexists. split; [reflexivity|]. split; [|lia]. split; [destruct Q as [q ->]; exists (S q); lia|].
    split; [lia|]. intros r c. unfold set_row. rewrite Hs.
    destruct (Nat.eqb_spec r i) as [->|]; cbn [andb]; [|reflexivity]. rewrite N3.
    destruct (Nat.leb_spec j c); destruct (Nat.ltb_spec c (j + w)); cbn [andb]; try lia.
    + rewrite L by (auto; lia). rewrite N1, N2 by lia. replace (j + (c - j)) with c by lia.
      rewrite Hs, Nat.eqb_refl. rewrite (proj2 (Nat.ltb_ge c j)) by lia. reflexivity.
    + rewrite Hs, Nat.eqb_refl. rewrite (proj2 (Nat.ltb_ge c j)) by lia. reflexivity.
    + rewrite Hs, Nat.eqb_refl. rewrite (proj2 (Nat.ltb_lt c j)) by lia. reflexivity.
  - rewrite E. cbn [bind]. apply Nat.leb_gt in C.
    assert (j = P / w * w) as Ej.
    { destruct Q as [q ->]. f_equal. apply (Nat.div_unique P w q (P - q * w)); lia. }
    match goal with |- context [while_ P ?cc ?bb (j, s)] =>
      destruct (while_ind (fun '((k, t) : nat * mat) => j <= k <= P /\
        forall r c, t r c = if (r =? i) && (j <=? c) && (c <? k) then add o (out i c) (mul o x (b c)) else s r c)
        (fun '((k, _) : nat * mat) => P - k) P cc bb (j, s)) as ([k t] & E' & (Hk & Ht) & C') end.
    + split; [lia|]. intros r c. destruct (Nat.leb_spec j c); destruct (Nat.ltb_spec c j); try lia;
        rewrite ?andb_false_r; cbn [andb]; rewrite ?andb_false_r; reflexivity.
    + lia.
    + intros [k t] (Hk & Ht) C'. apply Nat.ltb_lt in C'. eexists. split; [reflexivity|]. split; [|lia].
      split; [lia|]. intros r c. unfold upd2. rewrite !Ht, Nat.eqb_refl.
      rewrite (proj2 (Nat.ltb_ge k k)) by lia. rewrite !andb_false_r. rewrite Hs, Nat.eqb_refl.
      rewrite (proj2 (Nat.ltb_ge k j)) by lia. cbn [andb].
      destruct (Nat.eqb_spec r i) as [->|]; cbn [andb]; [|reflexivity].
      destruct (Nat.eqb_spec c k) as [->|].
      * rewrite (proj2 (Nat.leb_le j k)), (proj2 (Nat.ltb_lt k (S k))) by lia. reflexivity.
      * destruct (Nat.leb_spec j c); destruct (Nat.ltb_spec c k); destruct (Nat.ltb_spec c (S k)); auto; lia.
    + rewrite E'. exists t. split; [reflexivity|]. apply Nat.ltb_ge in C'. intros r c Hc.
      rewrite Ht, Hs. rewrite Ej. destruct (Nat.eqb_spec r i) as [->|]; cbn [andb]; [|reflexivity].
      rewrite (proj2 (Nat.ltb_lt c k)), andb_true_r by lia. rewrite <- Ej.
      destruct (Nat.leb_spec j c); destruct (Nat.ltb_spec c j); auto; lia.
Qed.

Lemma lanes_spec w vop f M N P a b : 0 < w -> lanewise w vop f ->
  exists res, mul_matrix_lanes o w vop M N P a b = Some res /\
  forall i j, i < M -> j < P -> res i j =
    accum N (fun k acc => if j <? P / w * w then f (a i k) acc (b k j) else add o acc (mul o (a i k) (b k j))).
Proof.
  intros Hw L. unfold mul_matrix_lanes.
  apply (rowwise M N P (fun i k out => row_update o w vop P i (a i k) (b k) out)
    (fun i k j acc => if j <? P / w * w then f (a i k) acc (b k j) else add o acc (mul o (a i k) (b k j)))).
  intros i k out Hi Hk. apply row_update_spec; auto.
Qed.

Lemma neon_f32_spec M N P a b :
  exists res, mul_matrix_neon_f32 o M N P a b = Some res /\
  forall i j, i < M -> j < P -> res i j =
    accum N (fun k acc => if j <? P / 4 * 4 then fma o (b k j) (a i k) acc else add o acc (mul o (a i k) (b k j))).
Proof.
  unfold mul_matrix_neon_f32. destruct (Nat.eqb_spec P 4) as [->|N4].
  { apply (rowwise M N 4 (fun i k out =>
      c <- load 4 0 4 (out i) ;;
      b <- load 4 0 4 (b k) ;;
      r <- store o 4 0 4 (out i) (vfmaq_n o c b (a i k)) ;;
      Some (set_row out i r)) (fun i k j acc => if j <? 4 / 4 * 4 then fma o (b k j) (a i k) acc else add o acc (mul o (a i k) (b k j)))).
    intros i k out Hi Hk.
    destruct (load_in 4 0 4 (out i)) as (cv & E1 & L1 & N1); [lia|]. rewrite E1. cbn [bind].
    destruct (load_in 4 0 4 (b k)) as (bv & E2 & L2 & N2); [lia|]. rewrite E2. cbn [bind].
    destruct (store_in 4 0 4 (out i) (vfmaq_n o cv bv (a i k))) as (r' & E3 & N3); [lia|]. rewrite E3. cbn [bind].
    eexists. split; [reflexivity|]. intros r c Hc. unfold set_row. destruct (r =? i); auto.
    rewrite N3. cbn [Nat.leb]. rewrite (proj2 (Nat.ltb_lt c (0 + 4))) by lia.
    rewrite (proj2 (Nat.ltb_lt c (4 / 4 * 4))) by (cbn; lia). cbn [andb].
    rewrite (neon_lanewise 4 (a i k) cv bv (c - 0)) by (auto; lia). rewrite N1, N2 by lia.
    replace (0 + (c - 0)) with c by lia. reflexivity. }
  destruct (Nat.eqb_spec P 6) as [->|N6].
  { apply (rowwise M N 6 (fun i k out =>
      let x := a i k in
      c <- load 4 0 6 (out i) ;;
      b0123 <- load 4 0 6 (b k) ;;
      r <- store o 4 0 6 (out i) (vfmaq_n o c b0123 x) ;;
      let out := set_row out i r in
      let out := upd2 out i 4 (add o (out i 4) (mul o x (b k 4))) in
      Some (upd2 out i 5 (add o (out i 5) (mul o x (b k 5)))))
      (fun i k j acc => if j <? 6 / 4 * 4 then fma o (b k j) (a i k) acc else add o acc (mul o (a i k) (b k j)))).
    intros i k out Hi Hk. cbv zeta.
    destruct (load_in 4 0 6 (out i)) as (cv & E1 & L1 & N1); [lia|]. rewrite E1. cbn [bind].
    destruct (load_in 4 0 6 (b k)) as (bv & E2 & L2 & N2); [lia|]. rewrite E2. cbn [bind].
    destruct (store_in 4 0 6 (out i) (vfmaq_n o cv bv (a i k))) as (r' & E3 & N3); [lia|]. rewrite E3. cbn [bind].
    eexists. split; [reflexivity|]. intros r c Hc. unfold upd2, set_row. rewrite Nat.eqb_refl.
    change (6 / 4 * 4) with 4. cbn [Nat.eqb andb].
    destruct (Nat.eqb_spec r i) as [->|]; cbn [andb]; [|reflexivity].
    do 4 (destruct c as [|c]; [cbn [Nat.eqb]; rewrite N3; cbn [Nat.leb Nat.ltb Nat.add andb Nat.sub];
      rewrite (neon_lanewise 4 (a i k) cv bv) by (auto; lia); rewrite N1, N2 by lia; reflexivity|]).
    destruct c as [|c]; [cbn; rewrite !N3; reflexivity|]. destruct c as [|c]; [cbn; rewrite !N3; reflexivity|]. lia. }
  destruct (Nat.eqb_spec P 3) as [->|N3].
  { destruct (rowwise M N 3 (fun i k out => Some (
      let x := a i k in
      let out := upd2 out i 0 (add o (out i 0) (mul o x (b k 0))) in
      let out := upd2 out i 1 (add o (out i 1) (mul o x (b k 1))) in
      upd2 out i 2 (add o (out i 2) (mul o x (b k 2)))))
      (fun i k j acc => if j <? 3 / 4 * 4 then fma o (b k j) (a i k) acc else add o acc (mul o (a i k) (b k j))))
      as (res & E & R).
    - intros i k out Hi Hk. eexists. split; [reflexivity|]. intros r c Hc. cbv zeta. unfold upd2.
      rewrite !Nat.eqb_refl. cbn [Nat.eqb andb]. change (3 / 4 * 4) with 0.
      destruct (Nat.eqb_spec r i) as [->|]; cbn [andb]; [|reflexivity].
      do 3 (destruct c as [|c]; [reflexivity|]). lia.
    - exists res. split; [|exact R]. rewrite <- E. symmetry. apply forM_for2. }
  destruct (lanes_spec 4 (fun x c b => vfmaq_n o c b x) (fun x c b => fma o b x c) M N P a b) as (res & E & R);
    [lia|apply neon_lanewise|]. exists res. split; auto.
Qed.

Lemma fixed_rows n P (step : nat -> mat -> option mat) (f : nat -> nat -> F) :
  (forall i out, i < n -> exists s, step i out = Some s /\
     forall r c, c < P -> s r c = if r =? i then f i c else out r c) ->
  exists res, forM 0 n step (zeros o) = Some res /\ eqm n P res f.
Proof.
  intros H.
  destruct (forM_ind (fun m (s : mat) => forall r c, r < m -> c < P -> s r c = f r c) 0 n step (zeros o))
    as (res & E & R); [lia|intros; lia| |].
  - intros i s Hi Hs. destruct (H i s ltac:(lia)) as (s' & E & R). exists s'. split; auto.
    intros r c Hr Hc. rewrite R by auto. destruct (Nat.eqb_spec r i) as [->|]; auto. apply Hs; lia.
  - exists res. split; [exact E|]. intros i j Hi Hj. apply R; auto.
Qed.

Lemma rows_spec M (kern : vec -> option F) (f : vec -> F) (a : mat) :
  (forall r, kern r = Some (f r)) ->
  exists res, rows o M kern a = Some res /\ forall i, i < M -> res i = f (a i).
Proof.
  intros H. unfold rows.
  destruct (forM_ind (fun n (s : vec) => forall i, i < n -> s i = f (a i)) 0 M
    (fun i res => x <- kern (a i) ;; Some (upd res i x)) (fun _ => zero o)) as (res & E & R); [lia| | |].
  - intros; lia.
  - intros i s Hi Hs. rewrite H. cbn [bind]. eexists. split; [reflexivity|]. intros k Hk. unfold upd.
    destruct (Nat.eqb_spec k i) as [->|]; auto. apply Hs. lia.
  - exists res. auto.
Qed.
End Gen.

Lemma accum_R_exact n (g : nat -> R -> R) (t : nat -> R) :
  (forall k x, k < n -> g k x = (x + t k)%R) -> accum Rops n g = sum n t.
Proof.
  induction n; intros H; cbn; auto. rewrite H by auto. rewrite IHn by auto. reflexivity.
Qed.
