(** The dense solvers written entry by entry, for any scalar arithmetic: the in-place algorithms compute exactly these
    expressions, bit for bit. *)
From Coq Require Import ZArith List Arith Lia Bool.
From Verif Require Import Scalar LinModel DetSpec SolveModel SolveProofs LuProofs.
Local Open Scope nat_scope.

Section Tri.
Context {F : Type} (o : ops F).
Notation mat := (nat -> nat -> F).
Notation vec := (nat -> F).
(** s - f(lo) x(lo) - ... - f(hi-1) x(hi-1), from the left *)
Definition subs (lo hi : nat) (f x : vec) (s : F) : F := for_ lo hi (fun j s => sub o s (mul o (f j) (x j))) s.
Lemma subs_ext lo hi f x s f' x' s' : (forall j, lo <= j < hi -> f j = f' j /\ x j = x' j) -> s = s' -> subs lo hi f x s = subs lo hi f' x' s'.
Proof. intros H ->. apply for_ext. intros j t Hj. destruct (H j Hj) as [-> ->]. reflexivity. Qed.

Lemma forward_unit_eq N l (b : vec) i : i < N -> let y := forward_unit o N l b in y i = subs 0 i (l i) y (b i).
Proof.
  intros Hi. cbv zeta.
  enough (G : (fun n (y : vec) => (forall i, i < n -> y i = subs 0 i (l i) y (b i)) /\ forall i, n <= i -> y i = b i) N (forward_unit o N l b)) by (apply G, Hi).
  unfold forward_unit. apply for_ind; [lia|split; [intros; lia|reflexivity]|]. clear i Hi. intros i y Hi (H1 & H2). split.
  - intros r Hr. unfold upd at 1. destruct (Nat.eqb_spec r i) as [->|N1].
    + apply subs_ext; [|apply H2; lia]. intros j Hj. split; [reflexivity|]. rewrite upd_other by lia. reflexivity.
    + rewrite H1 by lia. apply subs_ext; [|reflexivity]. intros j Hj. split; [reflexivity|]. rewrite upd_other by lia. reflexivity.
  - intros r Hr. rewrite upd_other by lia. apply H2. lia.
Qed.
Lemma forward_eq N l (b : vec) i : i < N -> let y := forward o N l b in y i = div o (subs 0 i (l i) y (b i)) (l i i).
Proof.
  intros Hi. cbv zeta.
  enough (G : (fun n (y : vec) => (forall i, i < n -> y i = div o (subs 0 i (l i) y (b i)) (l i i)) /\ forall i, n <= i -> y i = b i) N (forward o N l b)) by (apply G, Hi).
  unfold forward. apply for_ind; [lia|split; [intros; lia|reflexivity]|]. clear i Hi. intros i y Hi (H1 & H2). split.
  - intros r Hr. unfold upd at 1. destruct (Nat.eqb_spec r i) as [->|N1].
    + f_equal. apply subs_ext; [|apply H2; lia]. intros j Hj. split; [reflexivity|]. rewrite upd_other by lia. reflexivity.
    + rewrite H1 by lia. f_equal. apply subs_ext; [|reflexivity]. intros j Hj. split; [reflexivity|]. rewrite upd_other by lia. reflexivity.
  - intros r Hr. rewrite upd_other by lia. apply H2. lia.
Qed.
Lemma backward_eq N u (b : vec) i : i < N -> let y := backward o N u b in y i = div o (subs (S i) N (u i) y (b i)) (u i i).
Proof.
  intros Hi. cbv zeta.
  pose (Q := fun n (y : vec) => (forall i, N - n <= i < N -> y i = div o (subs (S i) N (u i) y (b i)) (u i i)) /\ forall i, i < N - n -> y i = b i).
  enough (G : Q N (backward o N u b)) by (apply G; lia).
  unfold backward. apply (for_ind Q); unfold Q; [lia|split; [intros; lia|reflexivity]|]. clear i Hi. intros n y Hn (H1 & H2). cbv zeta. set (i := N - 1 - n). split.
  - intros r Hr. unfold upd at 1. destruct (Nat.eqb_spec r i) as [->|N1].
    + f_equal. apply subs_ext; [|apply H2; lia]. intros j Hj. split; [reflexivity|]. rewrite upd_other by lia. reflexivity.
    + rewrite H1 by lia. f_equal. apply subs_ext; [|reflexivity]. intros j Hj. split; [reflexivity|]. rewrite upd_other by lia. reflexivity.
  - intros r Hr. rewrite upd_other by lia. apply H2. lia.
Qed.
Lemma backward_t_eq N l (b : vec) i : i < N -> let y := backward_t o N l b in y i = div o (subs (S i) N (fun j => l j i) y (b i)) (l i i).
Proof. intros Hi. exact (backward_eq N (fun i j => l j i) b i Hi). Qed.

(** entry (i, j) of the packed factors in terms of the others and of row [p i] of the matrix *)
Definition lu_entry (A w : mat) (p : nat -> nat) (k i j : nat) : Prop :=
  w i j = if (j <? k) && (j <? i) then div o (subs 0 j (w i) (fun t => w t j) (A (p i) j)) (w j j)
          else subs 0 (Nat.min k i) (w i) (fun t => w t j) (A (p i) j).
Lemma lu_eq eps N A d : lu_decompose o eps N A = Some d -> forall i j, i < N -> j < N -> lu_entry A (lu d) (piv d) N i j.
Proof.
  unfold lu_decompose. intros H.
  apply (forM_some_ind (fun k d => forall i j, i < N -> j < N -> lu_entry A (lu d) (piv d) k i j) 0 N _ _ _ (Nat.le_0_l N)) with (2 := H).
  - intros i j Hi Hj. unfold lu_entry. cbn [lu piv Nat.min]. destruct (j <? 0) eqn:E; [apply Nat.ltb_lt in E; lia|]. reflexivity.
  - clear H d. intros k s s' Hk I E. unfold lu_step in E. pose proof (find_pivot_range o N k (lu s) ltac:(lia)) as Fp.
    destruct (find_pivot o N k (lu s)) as [p v]. cbn [fst] in Fp. destruct (leb o v eps); [discriminate|].
    set (d := if p =? k then s else mkLU (swap_rows N k p (lu s)) (swap_nat (piv s) k p) (- sign s)) in E.
    assert (J : forall i j, i < N -> j < N -> lu_entry A (lu d) (piv d) k i j).
    { unfold d. destruct (Nat.eqb_spec p k) as [->|Np]; [exact I|]. intros i j Hi Hj. unfold lu_entry. cbn [lu piv]. rewrite swap_nat_tr.
      assert (T : forall i c, c < N -> swap_rows N k p (lu s) i c = lu s (tr k p i) c) by (intros; rewrite swap_rows_spec, (proj2 (Nat.ltb_lt _ _)) by assumption; reflexivity).
      assert (Tl : forall t, t < k -> tr k p t = t) by (intros t Ht; unfold tr; rewrite (proj2 (Nat.eqb_neq t k)), (proj2 (Nat.eqb_neq t p)) by lia; reflexivity).
      assert (Ti : tr k p i < N) by (apply tr_lt; lia). rewrite T by lia. rewrite (I _ _ Ti Hj). unfold lu_entry.
      assert (Tg : k <= i -> k <= tr k p i) by (intros L; unfold tr; destruct (i =? k); [lia|destruct (i =? p); lia]).
      destruct (Nat.lt_ge_cases i k) as [L|L].
      - rewrite (Tl i L). destruct ((j <? k) && (j <? i)) eqn:Eb.
        + apply andb_true_iff in Eb. destruct Eb as [B1 B2]. apply Nat.ltb_lt in B1, B2. rewrite T, (Tl j) by lia. f_equal. apply subs_ext; [|reflexivity]. intros t Ht. rewrite !T, (Tl i), (Tl t) by lia. split; reflexivity.
        + apply subs_ext; [|reflexivity]. intros t Ht. rewrite !T, (Tl i), (Tl t) by lia. split; reflexivity.
      - specialize (Tg L). destruct (Nat.ltb_spec j k) as [Lj|Lj]; cbn [andb].
        + rewrite (proj2 (Nat.ltb_lt j i)), (proj2 (Nat.ltb_lt j (tr k p i))) by lia. rewrite T, (Tl j) by lia. f_equal. apply subs_ext; [|reflexivity]. intros t Ht. rewrite !T, (Tl t) by lia. split; reflexivity.
        + rewrite !Nat.min_l by lia. apply subs_ext; [|reflexivity]. intros t Ht. rewrite !T, (Tl t) by lia. split; reflexivity. }
    clearbody d. clear I s. inversion E; subst s'; clear E. intros i j Hi Hj. unfold lu_entry. cbn [lu piv]. set (w := lu d) in *. set (w' := lu_eliminate o N k w).
    assert (W : forall r c, r < N -> c < N -> w' r c = if k <? r then if c =? k then div o (w r k) (w k k) else if k <? c then sub o (w r c) (mul o (div o (w r k) (w k k)) (w k c)) else w r c else w r c).
    { intros r c Hr Hc. unfold w'. rewrite lu_eliminate_spec by lia. rewrite (proj2 (Nat.ltb_lt r N)), (proj2 (Nat.ltb_lt c N)) by lia. rewrite !andb_true_r. reflexivity. }
    assert (Wr : forall r c, r <= k -> c < N -> w' r c = w r c) by (intros r c Hr Hc; rewrite W, (proj2 (Nat.ltb_ge k r)) by lia; reflexivity).
    assert (Wl : forall r c, r < N -> c < k -> w' r c = w r c) by (intros r c Hr Hc; rewrite W by lia; rewrite (proj2 (Nat.eqb_neq c k)), (proj2 (Nat.ltb_ge k c)) by lia; destruct (k <? r); reflexivity).
    pose proof (J i j Hi Hj) as Jij. unfold lu_entry in Jij. fold w in Jij.
    destruct (Nat.le_gt_cases i k) as [L|L].
    + rewrite Wr by lia. rewrite Jij. replace (Nat.min (S k) i) with (Nat.min k i) by lia.
      replace ((j <? S k) && (j <? i)) with ((j <? k) && (j <? i)) by (destruct (Nat.ltb_spec j i); rewrite ?andb_false_r; [|reflexivity]; rewrite !andb_true_r; destruct (Nat.ltb_spec j k), (Nat.ltb_spec j (S k)); auto; lia).
      destruct ((j <? k) && (j <? i)) eqn:Eb.
      * apply andb_true_iff in Eb. destruct Eb as [B1 B2]. apply Nat.ltb_lt in B1, B2. rewrite Wr by lia. f_equal. apply subs_ext; [|reflexivity]. intros t Ht. rewrite !Wr by lia. split; reflexivity.
      * apply subs_ext; [|reflexivity]. intros t Ht. rewrite !Wr by lia. split; reflexivity.
    + rewrite W by lia. rewrite (proj2 (Nat.ltb_lt k i)) by lia. destruct (Nat.eqb_spec j k) as [->|Nj].
      * rewrite (proj2 (Nat.ltb_lt k (S k))), (proj2 (Nat.ltb_lt k i)) by lia. cbn [andb]. rewrite (proj2 (Nat.ltb_ge k k)) in Jij by lia. cbn [andb] in Jij. rewrite Nat.min_l in Jij by lia.
        rewrite (Wr k k) by lia. f_equal. rewrite Jij. apply subs_ext; [|reflexivity]. intros t Ht. rewrite Wl, Wr by lia. split; reflexivity.
      * destruct (Nat.ltb_spec k j) as [Lj|Lj].
        -- rewrite (proj2 (Nat.ltb_ge j k)) in Jij by lia. rewrite (proj2 (Nat.ltb_ge j (S k))) by lia. cbn [andb] in *. rewrite Nat.min_l in Jij by lia. rewrite Nat.min_l by lia.
           unfold subs. rewrite for_S by lia. f_equal.
           ++ rewrite Jij. apply subs_ext; [|reflexivity]. intros t Ht. rewrite Wl, Wr by lia. split; reflexivity.
           ++ rewrite (W i k) by lia. rewrite (proj2 (Nat.ltb_lt k i)), Nat.eqb_refl by lia. rewrite Wr by lia. reflexivity.
        -- rewrite (proj2 (Nat.ltb_lt j k)), (proj2 (Nat.ltb_lt j i)) in Jij by lia. rewrite (proj2 (Nat.ltb_lt j (S k))), (proj2 (Nat.ltb_lt j i)) by lia. cbn [andb] in *.
           rewrite Wr by lia. rewrite Jij. f_equal. apply subs_ext; [|reflexivity]. intros t Ht. rewrite Wl, Wr by lia. split; reflexivity.
Qed.

(** the Cholesky factor *)
Definition chol_at (A l : mat) (i j : nat) : Prop :=
  let s := subs 0 j (l i) (l j) (A i j) in
  if i =? j then leb o s (zero o) = false /\ l i j = sqrtf o s else l i j = div o s (l j j).
Lemma chol_ext A (l l' : mat) i j : j <= i -> (forall r c, (r < i \/ r = i /\ c <= j) -> l' r c = l r c) -> chol_at A l i j -> chol_at A l' i j.
Proof.
  intros Hj E H. unfold chol_at in *. cbv zeta in *. rewrite (subs_ext 0 j (l' i) (l' j) (A i j) (l i) (l j) (A i j)).
  - destruct (Nat.eqb_spec i j) as [->|Ne]; [rewrite E by lia; exact H|]. rewrite E, (E j j) by lia. exact H.
  - intros t Ht. rewrite !E by lia. split; reflexivity.
  - reflexivity.
Qed.
Lemma chol_eq N A l : cholesky_lower o N A = Some l -> forall i j, i < N -> j <= i -> chol_at A l i j.
Proof.
  unfold cholesky_lower. intros H.
  apply (forM_some_ind (fun n l => forall i j, i < n -> j <= i -> chol_at A l i j) 0 N _ _ _ (Nat.le_0_l N)) with (2 := H); [intros; lia|].
  clear H l. intros i l l' Hi I E.
  destruct (forM 0 (S i) _ l) as [m|] eqn:Em; [|discriminate]. inversion E; subst l'; clear E.
  assert (K : forall r j, r < S i -> j <= r -> chol_at A m r j).
  { enough (Q : (forall r j, r < i -> j <= r -> chol_at A m r j) /\ forall j, j < S i -> chol_at A m i j).
    - destruct Q as [Q1 Q2]. intros r j Hr Hj. destruct (Nat.eq_dec r i) as [->|]; [apply Q2; lia|apply Q1; lia].
    - apply (forM_some_ind (fun n l => (forall r j, r < i -> j <= r -> chol_at A l r j) /\ forall j, j < n -> chol_at A l i j) 0 (S i) _ _ _ (Nat.le_0_l (S i))) with (2 := Em).
      + split; [exact I|intros; lia].
      + clear Em m I l. intros j l l' Hj [I1 I2] E. destruct (chol_entry o A l i j) as [v|] eqn:Ev; [|discriminate]. cbn in E. inversion E; subst l'; clear E. split.
        * intros r c Hr Hc. apply (chol_ext A l); [exact Hc| |apply I1; assumption]. intros x y Hxy. apply upd2_other. lia.
        * intros c Hc. destruct (Nat.eq_dec c j) as [->|Nc].
          -- unfold chol_at. cbv zeta. unfold chol_entry in Ev.
             match type of Ev with context [for_ 0 j ?b ?s] => set (s0 := for_ 0 j b s) in Ev end.
             assert (Es : subs 0 j (upd2 l i j v i) (upd2 l i j v j) (A i j) = s0) by (apply for_ext; intros t s Ht; rewrite !upd2_other by lia; reflexivity).
             rewrite Es. rewrite upd2_same. destruct (Nat.eqb_spec i j) as [->|Ne].
             ++ cbv zeta in Ev. destruct (leb o s0 (zero o)) eqn:El; [discriminate|]. inversion Ev. split; reflexivity.
             ++ cbv zeta in Ev. inversion Ev. rewrite upd2_other by lia. reflexivity.
          -- apply (chol_ext A l); [lia| |apply I2; lia]. intros x y Hxy. apply upd2_other. lia. }
  intros r j Hr Hj. apply (chol_ext A m); [exact Hj| |apply K; assumption].
  intros x y Hxy. assert (G : forall n, S i <= n -> forall x y, x < i \/ x = i /\ y <= i -> for_ (S i) n (fun j l => upd2 l i j (zero o)) m x y = m x y).
  { intros n Hn. apply (for_ind (fun _ s => forall x y, x < i \/ x = i /\ y <= i -> s x y = m x y)); [exact Hn|reflexivity|].
    intros c s Hc Es x0 y0 H0. rewrite upd2_other by lia. apply Es, H0. }
  apply G; lia.
Qed.
End Tri.
