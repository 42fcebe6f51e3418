(** Proofs about the matrix and vector model. *)
From Coq Require Import Reals QArith Qreals List Arith Lia Lra Bool.
From Verif Require Import Scalar RSum LinModel LinSpec.
Import ListNotations.
Local Open Scope nat_scope.

Section Gen.
Context {F : Type} (o : ops F).
Notation mat := (nat -> nat -> F).
Notation vec := (nat -> F).

Lemma row_fill N (f : nat -> F) r (res : mat) a b :
  for_ 0 N (fun c res => upd2 res r c (f c)) res a b =
  if (a =? r) && (b <? N) then f b else res a b.
Proof.
  apply (for_ind (fun n s => s a b = if (a =? r) && (b <? n) then f b else res a b)); [lia| |].
  - rewrite (proj2 (Nat.ltb_ge b 0)) by lia. rewrite andb_false_r. reflexivity.
  - intros c s Hc E. unfold upd2.
    destruct (Nat.eqb_spec a r); destruct (Nat.eqb_spec b c); cbn [andb] in *; subst; rewrite ?E; auto.
    + rewrite (proj2 (Nat.ltb_lt c (S c))) by lia. reflexivity.
    + destruct (Nat.ltb_spec b c); destruct (Nat.ltb_spec b (S c)); auto; lia.
Qed.

Lemma fill_spec M N f (res : mat) a b :
  fill M N f res a b = if (a <? M) && (b <? N) then f a b else res a b.
Proof.
  unfold fill.
  apply (for_ind (fun n s => s a b = if (a <? n) && (b <? N) then f a b else res a b)); [lia| |].
  - rewrite (proj2 (Nat.ltb_ge a 0)) by lia. reflexivity.
  - intros r s Hr E. rewrite (row_fill N (f r) r s a b), E.
    destruct (Nat.eqb_spec a r); subst.
    + rewrite (proj2 (Nat.ltb_lt r (S r))) by lia. rewrite (proj2 (Nat.ltb_ge r r)) by lia. cbn.
      reflexivity.
    + cbn [andb]. destruct (Nat.ltb_spec a r); destruct (Nat.ltb_spec a (S r)); auto; lia.
Qed.
Lemma fill_in M N f (res : mat) a b : a < M -> b < N -> fill M N f res a b = f a b.
Proof.
  intros Ha Hb. rewrite fill_spec, (proj2 (Nat.ltb_lt a M)), (proj2 (Nat.ltb_lt b N)) by auto. reflexivity.
Qed.

Lemma vfill_spec N f (r : vec) i : vfill N f r i = if i <? N then f i else r i.
Proof.
  unfold vfill. apply (for_ind (fun n s => s i = if i <? n then f i else r i)); [lia|reflexivity|].
  intros k s Hk E. unfold upd. destruct (Nat.eqb_spec i k) as [->|Ne].
  - rewrite (proj2 (Nat.ltb_lt k (S k))) by lia. reflexivity.
  - rewrite E. destruct (Nat.ltb_spec i k); destruct (Nat.ltb_spec i (S k)); auto; lia.
Qed.
Lemma vfill_in N f (r : vec) i : i < N -> vfill N f r i = f i.
Proof. intros H. rewrite vfill_spec, (proj2 (Nat.ltb_lt i N) H). reflexivity. Qed.

Lemma sum_loop n (f : nat -> F) :
  for_ 0 n (fun k s => add o s (f k)) (zero o) = left_sum o n f.
Proof.
  apply (for_ind (fun n s => s = left_sum o n f)); [lia|reflexivity|]. intros i s _ ->. reflexivity.
Qed.
Lemma dot_loop n (a b : vec) : dot o n a b = left_sum o n (fun k => mul o (a k) (b k)).
Proof. apply sum_loop. Qed.

(* the partial product after n terms *)
Definition part (a b : mat) (i j n : nat) : F := left_sum o n (fun k => mul o (a i k) (b k j)).

(* inner j loop of one (i, k) step, on columns lo..hi *)
Lemma axpy_loop x i (w : vec) lo hi (res : mat) r c : lo <= hi ->
  for_ lo hi (fun j res => upd2 res i j (add o (res i j) (mul o x (w j)))) res r c =
  if (r =? i) && (lo <=? c) && (c <? hi) then add o (res i c) (mul o x (w c)) else res r c.
Proof.
  intros Hlh.
  apply (for_ind (fun n s => s r c = if (r =? i) && (lo <=? c) && (c <? n) then add o (res i c) (mul o x (w c)) else res r c)); [lia| |].
  - destruct (Nat.leb_spec lo c); destruct (Nat.ltb_spec c lo); try lia; rewrite ?andb_false_r; auto.
  - intros j s Hj E. unfold upd2.
    destruct (Nat.eqb_spec r i) as [->|Nr]; cbn [andb] in *; [|exact E].
    destruct (Nat.eqb_spec c j) as [->|Nc].
    + rewrite (proj2 (Nat.leb_le lo j)), (proj2 (Nat.ltb_lt j (S j))) by lia. cbn [andb].
      rewrite (proj2 (Nat.leb_le lo j)), (proj2 (Nat.ltb_ge j j)) in E by lia. cbn [andb] in E.
      rewrite E. reflexivity.
    + rewrite E. destruct (Nat.leb_spec lo c); cbn [andb]; auto.
      destruct (Nat.ltb_spec c j); destruct (Nat.ltb_spec c (S j)); auto; lia.
Qed.

Lemma mul_small_spec M N P a b : eqm M P (mul_small o M N P a b) (fun i j => part a b i j N).
Proof.
  intros r c Hr Hc. unfold mul_small.
  assert (forall n, n <= M -> forall r c, c < P ->
    for_ 0 n (fun i res => for_ 0 N (fun k res => let x := a i k in
      for_ 0 P (fun j res => upd2 res i j (add o (res i j) (mul o x (b k j)))) res) res) (zeros o) r c
    = if r <? n then part a b r c N else zero o) as G.
  { intros n Hn. 
    apply (for_ind (fun n s => forall r c, c < P -> s r c = if r <? n then part a b r c N else zero o)); [lia|reflexivity|].
    clear r c Hr Hc. intros i s Hi E r c Hc.
    assert (forall m, m <= N -> forall r, for_ 0 m (fun k res => let x := a i k in
      for_ 0 P (fun j res => upd2 res i j (add o (res i j) (mul o x (b k j)))) res) s r c
      = if r =? i then part a b i c m else s r c) as H.
    { intros m Hm. apply (for_ind (fun m s' => forall r, s' r c = if r =? i then part a b i c m else s r c)); [lia| |].
      - intros r'. destruct (Nat.eqb_spec r' i) as [->|]; [|reflexivity].
        rewrite E by auto. rewrite (proj2 (Nat.ltb_ge i i)) by lia. reflexivity.
      - intros k s' Hk E' r'. cbv zeta. rewrite (axpy_loop (a i k) i (b k) 0 P s' r' c) by lia.
        cbn [Nat.leb]. rewrite (proj2 (Nat.ltb_lt c P) Hc), !andb_true_r.
        destruct (Nat.eqb_spec r' i) as [->|Ne].
        + rewrite E'. rewrite Nat.eqb_refl. reflexivity.
        + rewrite E'. rewrite (proj2 (Nat.eqb_neq r' i) Ne). reflexivity. }
    rewrite H by lia. destruct (Nat.eqb_spec r i) as [->|Ne].
    - rewrite (proj2 (Nat.ltb_lt i (S i))) by lia. reflexivity.
    - rewrite E by auto. destruct (Nat.ltb_spec r i); destruct (Nat.ltb_spec r (S i)); auto; lia. }
  rewrite G by lia. rewrite (proj2 (Nat.ltb_lt r M) Hr). reflexivity.
Qed.

(* one block: rows k0..k_max applied to columns j0..j_max of row i *)
Lemma block_spec a b i k0 k1 j0 j1 (s : mat) r c : k0 <= k1 -> j0 <= j1 ->
  s i c = part a b i c k0 ->
  for_ k0 k1 (fun k res => let x := a i k in
    for_ j0 j1 (fun j res => upd2 res i j (add o (res i j) (mul o x (b k j)))) res) s r c
  = if (r =? i) && (j0 <=? c) && (c <? j1) then part a b i c k1 else s r c.
Proof.
  intros Hk Hj E0.
  apply (for_ind (fun m s' => (forall r', s' r' c = if (r' =? i) && (j0 <=? c) && (c <? j1) then part a b i c m else s r' c)))
    ; [lia| |].
  - intros r'. destruct (Nat.eqb_spec r' i) as [->|]; cbn [andb]; auto.
    destruct ((j0 <=? c) && (c <? j1)); auto.
  - intros k s' Hk' E r'. cbv zeta. rewrite (axpy_loop (a i k) i (b k) j0 j1 s' r' c) by lia.
    destruct (Nat.eqb_spec r' i) as [->|Ne]; cbn [andb].
    + rewrite E, Nat.eqb_refl. cbn [andb]. destruct ((j0 <=? c) && (c <? j1)); reflexivity.
    + rewrite E. rewrite (proj2 (Nat.eqb_neq r' i) Ne). reflexivity.
Qed.

Lemma mul_blocked_spec M N P a b : exists res,
  mul_blocked o M N P a b = Some res /\ eqm M P res (fun i j => part a b i j N).
Proof.
  unfold mul_blocked.
  destruct (forM_ind (fun n (s : mat) => forall r c, c < P -> s r c = if r <? n then part a b r c N else zero o)
    0 M (fun i res =>
    option_map snd
      (while_ N (fun '(k0, _) => k0 <? N)
        (fun '(k0, res) =>
          let k_max := Nat.min (k0 + BLOCK) N in
          match
            while_ P (fun '(j0, _) => j0 <? P)
              (fun '(j0, res) =>
                let j_max := Nat.min (j0 + BLOCK) P in
                Some (j0 + BLOCK,
                  for_ k0 k_max (fun k res =>
                    let x := a i k in
                    for_ j0 j_max (fun j res =>
                      upd2 res i j (add o (res i j) (mul o x (b k j)))) res) res))
              (0, res)
          with
          | Some (_, res) => Some (k0 + BLOCK, res)
          | None => None
          end)
        (0, res))) (zeros o)) as (res & E & H); [lia|reflexivity| |].
  2:{ exists res. split; [exact E|]. intros i j Hi Hj. rewrite H by auto.
      rewrite (proj2 (Nat.ltb_lt i M) Hi). reflexivity. }
  intros i s Hi Hs.
  match goal with |- exists s', option_map snd (while_ ?fu ?cc ?bb ?ss) = _ /\ _ =>
    destruct (while_ind (fun '((k0, s') : nat * mat) => forall r c, c < P ->
      s' r c = if r =? i then part a b i c (Nat.min k0 N) else s r c)
      (fun '((k0, _) : nat * mat) => N - k0) fu cc bb ss) as ([k1 s1] & E1 & H1 & C1) end.
  - intros r c Hc. destruct (Nat.eqb_spec r i) as [->|]; auto.
    rewrite Hs by auto. rewrite (proj2 (Nat.ltb_ge i i)) by lia. reflexivity.
  - lia.
  - intros [k0 s0] H0 C0. cbv beta zeta iota. apply Nat.ltb_lt in C0.
    rewrite (Nat.min_l k0 N) in H0 by lia.
    match goal with |- exists s', match while_ ?fu ?cc ?bb ?ss with _ => _ end = _ /\ _ =>
      destruct (while_ind (fun '((j0, s') : nat * mat) => forall r c, c < P ->
        s' r c = if r =? i then part a b i c (if c <? j0 then Nat.min (k0 + BLOCK) N else k0) else s r c)
        (fun '((j0, _) : nat * mat) => P - j0) fu cc bb ss) as ([j1 s2] & E2 & H2 & C2) end.
    + intros r c Hc. rewrite H0 by auto. reflexivity.
    + lia.
    + intros [j0 t0] T0 D0. apply Nat.ltb_lt in D0. cbv beta zeta iota.
      eexists. split; [reflexivity|]. split.
      * intros r c Hc.
        pose proof (T0 i c Hc) as Ti. rewrite Nat.eqb_refl in Ti.
        destruct (Nat.ltb_spec c j0) as [Lt|Ge].
        -- (* column already done in this block row *)
           assert (forall r, for_ k0 (Nat.min (k0 + BLOCK) N) (fun k res => let x := a i k in
              for_ j0 (Nat.min (j0 + BLOCK) P) (fun j res => upd2 res i j (add o (res i j) (mul o x (b k j)))) res) t0 r c = t0 r c) as Q.
           { intros r'. apply (for_ind (fun _ (s' : mat) => s' r' c = t0 r' c)); [lia|reflexivity|].
             intros k s' _ E'. cbv zeta. rewrite axpy_loop by lia.
             rewrite (proj2 (Nat.leb_gt j0 c) Lt), andb_false_r. exact E'. }
           cbv zeta in Q. rewrite Q, T0 by auto. destruct (r =? i); auto.
           rewrite (proj2 (Nat.ltb_lt c j0) Lt), (proj2 (Nat.ltb_lt c (j0 + BLOCK))) by lia. reflexivity.
        -- pose proof (block_spec a b i k0 (Nat.min (k0 + BLOCK) N) j0 (Nat.min (j0 + BLOCK) P) t0 r c
             ltac:(lia) ltac:(lia) Ti) as Bs. cbv zeta in Bs. rewrite Bs.
           rewrite T0 by auto.
           rewrite (proj2 (Nat.leb_le j0 c) Ge), andb_true_r.
           destruct (Nat.eqb_spec r i) as [->|]; cbn [andb]; auto.
           rewrite (proj2 (Nat.ltb_ge c j0) Ge).
           destruct (Nat.ltb_spec c (Nat.min (j0 + BLOCK) P)); destruct (Nat.ltb_spec c (j0 + BLOCK)); auto; lia.
      * unfold BLOCK. lia.
    + rewrite E2. eexists. split; [reflexivity|]. split; [|unfold BLOCK; lia].
      apply Nat.ltb_ge in C2. intros r c Hc. rewrite H2 by auto.
      destruct (r =? i); auto. rewrite (proj2 (Nat.ltb_lt c j1)) by lia. reflexivity.
  - rewrite E1. exists s1. split; [reflexivity|]. apply Nat.ltb_ge in C1.
    intros r c Hc. rewrite H1 by auto. rewrite (Nat.min_r k1 N) by lia.
    destruct (Nat.eqb_spec r i) as [->|Ne].
    + rewrite (proj2 (Nat.ltb_lt i (S i))) by lia. reflexivity.
    + rewrite Hs by auto. destruct (Nat.ltb_spec r i); destruct (Nat.ltb_spec r (S i)); auto; lia.
Qed.

Lemma mul_matrix_spec M N P a b : exists res,
  mul_matrix_strided o M N P a b = Some res /\ eqm M P res (fun i j => part a b i j N).
Proof.
  unfold mul_matrix_strided. destruct ((M <=? 8) && (N <=? 8) && (P <=? 8)).
  - eexists. split; [reflexivity|]. apply mul_small_spec.
  - apply mul_blocked_spec.
Qed.

Lemma mul_vector_spec M N a (v : vec) : eqv M (mul_vector_unrolled o M N a v)
  (fun i => left_sum o N (fun k => mul o (a i k) (v k))).
Proof.
  intros i Hi. unfold mul_vector_unrolled.
  change (for_ 0 M (fun i0 res => upd res i0 (for_ 0 N (fun j s => add o s (mul o (a i0 j) (v j))) (zero o))) (fun _ => zero o) i)
    with (vfill M (fun i0 => for_ 0 N (fun j s => add o s (mul o (a i0 j) (v j))) (zero o)) (fun _ => zero o) i).
  rewrite vfill_in by auto. apply sum_loop.
Qed.

Lemma diag_spec N (d : vec) a b : diag o N d a b = if (a =? b) && (a <? N) then d a else zero o.
Proof.
  unfold diag. apply (for_ind (fun n s => s a b = if (a =? b) && (a <? n) then d a else zero o)); [lia| |].
  - rewrite (proj2 (Nat.ltb_ge a 0)) by lia. rewrite andb_false_r. reflexivity.
  - intros i s Hi E. unfold upd2. rewrite E.
    destruct (Nat.eqb_spec a i); destruct (Nat.eqb_spec b i); destruct (Nat.eqb_spec a b); cbn [andb]; try lia; auto;
      destruct (Nat.ltb_spec a i); destruct (Nat.ltb_spec a (S i)); try lia; subst; auto.
Qed.
Lemma identity_spec N a b : identity o N a b = if (a =? b) && (a <? N) then one o else zero o.
Proof. apply (diag_spec N (fun _ => one o)). Qed.

Lemma transpose_spec M N a r c :
  transpose o M N a r c = if (c <? M) && (r <? N) then a c r else zero o.
Proof.
  unfold transpose.
  apply (for_ind (fun m s => forall r c, s r c = if (c <? m) && (r <? N) then a c r else zero o)); [lia|reflexivity|].
  intros i s Hi E r' c'.
  assert (forall n, n <= N -> for_ 0 n (fun c out => upd2 out c i (a i c)) s r' c'
    = if (c' =? i) && (r' <? n) then a i r' else s r' c') as G.
  { intros n Hn. apply (for_ind (fun n s' => s' r' c' = if (c' =? i) && (r' <? n) then a i r' else s r' c')); [lia| |].
    - rewrite (proj2 (Nat.ltb_ge r' 0)) by lia. rewrite andb_false_r. reflexivity.
    - intros k s' Hk E'. unfold upd2. rewrite E'.
      destruct (Nat.eqb_spec r' k); destruct (Nat.eqb_spec c' i); cbn [andb]; auto;
        destruct (Nat.ltb_spec r' k); destruct (Nat.ltb_spec r' (S k)); try lia; subst; auto. }
  rewrite G by lia. rewrite E. destruct (Nat.eqb_spec c' i); cbn [andb];
    destruct (Nat.ltb_spec c' i); destruct (Nat.ltb_spec c' (S i)); try lia; subst; reflexivity.
Qed.
Lemma transpose_in M N a r c : r < N -> c < M -> transpose o M N a r c = a c r.
Proof.
  intros. rewrite transpose_spec, (proj2 (Nat.ltb_lt c M)), (proj2 (Nat.ltb_lt r N)) by auto. reflexivity.
Qed.

Lemma flat_spec a i j : i < 4 -> j < 4 -> as_flat_array a (i * 4 + j) = a i j :> F.
Proof.
  intros Hi Hj. unfold as_flat_array, for_. cbn [seq Nat.sub fold_left]. unfold upd.
  do 4 (destruct i as [|i]; [do 4 (destruct j as [|j]; [reflexivity|]); lia|]). lia.
Qed.
End Gen.

(** Over R *)
Lemma left_sum_R n f : left_sum Rops n f = sum n f.
Proof. induction n as [|n IH]; cbn; [reflexivity|]. rewrite IH. reflexivity. Qed.

Lemma max_abs_spec M N a : (0 <= max_abs Rops M N a)%R /\
  (forall i j, i < M -> j < N -> (Rabs (a i j) <= max_abs Rops M N a)%R) /\
  (max_abs Rops M N a = 0%R \/ exists i j, i < M /\ j < N /\ max_abs Rops M N a = Rabs (a i j)).
Proof.
  unfold max_abs.
  apply (for_ind (fun m (s : R) => (0 <= s)%R /\
    (forall i j, i < m -> j < N -> (Rabs (a i j) <= s)%R) /\
    (s = 0%R \/ exists i j, i < M /\ j < N /\ s = Rabs (a i j)))); [lia| |].
  - cbn. repeat split; try lra; auto. intros; lia.
  - intros r s Hr (H0 & H1 & H2).
    match goal with |- context [for_ 0 N ?b s] => set (body := b) end.
    assert (forall n, n <= N -> let t := for_ 0 n body s in (s <= t)%R /\
      (forall j, j < n -> (Rabs (a r j) <= t)%R) /\ (t = s \/ exists j, j < N /\ t = Rabs (a r j))) as G.
    { intros n Hn. cbv zeta. apply (for_ind (fun n t => (s <= t)%R /\
      (forall j, j < n -> (Rabs (a r j) <= t)%R) /\ (t = s \/ exists j, j < N /\ t = Rabs (a r j)))); [lia| |].
      - repeat split; try lra; auto. intros; lia.
      - intros c t Hc (T0 & T1 & T2). unfold body. cbv zeta. cbn [absf Rops ltb].
        destruct (Rltb t (Rabs (a r c))) eqn:E.
        + apply Rltb_true in E. repeat split; try lra.
          * intros j Hj. destruct (Nat.eq_dec j c) as [->|]; [lra|]. specialize (T1 j ltac:(lia)). lra.
          * right. exists c. split; auto. lia.
        + apply Rltb_false in E. repeat split; try lra; auto.
          intros j Hj. destruct (Nat.eq_dec j c) as [->|]; [lra|]. apply T1. lia. }
    destruct (G N (le_n N)) as (G0 & G1 & G2). repeat split; try lra.
    + intros i j Hi Hj. destruct (Nat.eq_dec i r) as [->|]; [apply G1; auto|].
      specialize (H1 i j ltac:(lia) Hj). lra.
    + destruct G2 as [->|(j & Hj & Et)]; auto. right. exists r, j. repeat split; auto. lia.
Qed.

Lemma sum_sq_pos n f : (0 <= sum n (fun k => f k * f k))%R.
Proof. apply sum_pos. intros. nra. Qed.

Lemma cauchy_schwarz n (a b : nat -> R) :
  (sum n (fun k => a k * b k) * sum n (fun k => a k * b k) <=
   sum n (fun k => a k * a k) * sum n (fun k => b k * b k))%R.
Proof.
  set (A := sum n (fun k => (a k * a k)%R)). set (B := sum n (fun k => (b k * b k)%R)).
  set (D := sum n (fun k => (a k * b k)%R)).
  assert (forall t, 0 <= A * (t * t) + 2 * (D * t) + B)%R as Q.
  { intros t. replace (A * (t * t) + 2 * (D * t) + B)%R with (sum n (fun k => ((t * a k + b k) * (t * a k + b k))%R)).
    - apply sum_pos. intros. apply Rle_0_sqr.
    - rewrite (sum_ext n _ (fun k => (t * t) * (a k * a k) + (2 * t) * (a k * b k) + b k * b k)%R)
        by (intros; ring).
      rewrite !sum_plus, !sum_scal. fold A B D. ring. }
  destruct (Req_dec A 0) as [E|E].
  - assert (forall k, k < n -> a k = 0%R) as Z.
    { intros k Hk. assert (a k * a k = 0)%R by (apply (sum_pos_zero n (fun k => (a k * a k)%R)); auto; intros; nra). nra. }
    assert (D = 0)%R as -> by (apply sum_0; intros; rewrite Z by auto; ring).
    rewrite E. lra.
  - assert (0 < A)%R by (pose proof (sum_sq_pos n a); fold A in H; lra).
    specialize (Q (- D / A)%R).
    replace (A * (- D / A * (- D / A)) + 2 * (D * (- D / A)) + B)%R with (B - D * D / A)%R in Q by (field; auto).
    apply Rmult_le_reg_r with (/ A)%R; [apply Rinv_0_lt_compat; auto|].
    replace (A * B * / A)%R with B by (field; auto). unfold Rdiv in Q. lra.
Qed.
