(** C128: the determinant and the 3x3 inverse in floating point.  The computed determinant is, up to one rounding per pivot, the
    determinant of a matrix as close to the given one as the factors of C106, for f32, f64 and every other width. *)
From Coq Require Import ZArith Reals Lra Lia Bool Arith List.
From Flocq Require Import Core BinarySingleNaN.
From Verif Require Import Scalar RSum LinModel LinSpec DetSpec SolveModel SolveProofs LuProofs GaussProofs DetProps TriProofs FloatModel RoundProps SolveRoundProps.
Local Open Scope R_scope.

(** * The row exchanges of the factorization, for any arithmetic *)
Lemma lu_signed {F} (o : ops F) eps N (a : nat -> nat -> F) d : lu_decompose o eps N a = Some d ->
  perm N (piv d) /\ (sign d = 1%Z \/ sign d = (-1)%Z) /\ forall W, det N (fun i j => W (piv d i) j) = IZR (sign d) * det N W.
Proof.
  unfold lu_decompose. intros H.
  apply (forM_some_ind (fun _ d => perm N (piv d) /\ (sign d = 1%Z \/ sign d = (-1)%Z) /\ forall W, det N (fun i j => W (piv d i) j) = IZR (sign d) * det N W) 0 N _ _ _ (Nat.le_0_l N)) with (2 := H).
  - cbn [piv sign]. split; [apply perm_id|split; [auto|intros W; symmetry; apply Rmult_1_l]].
  - clear H d. intros k s s' Hk (Ip & Is & Id) E. unfold lu_step in E. pose proof (find_pivot_range o N k (lu s) ltac:(lia)) as Fp.
    destruct (find_pivot o N k (lu s)) as [p v]. cbn [fst] in Fp. destruct (leb o v eps); [discriminate|].
    destruct (Nat.eqb_spec p k) as [->|Np]; inversion E; subst s'; cbn [piv sign]; [auto|]. split; [|split].
    + destruct (perm_tr N (piv s) k p Ip ltac:(lia) ltac:(lia)) as (q & Q). exists q. intros i Hi. rewrite !swap_nat_tr. apply Q, Hi.
    + lia.
    + intros W. rewrite opp_IZR, Ropp_mult_distr_l_reverse, <- Id. rewrite <- (det_swap_rows N k p (fun i j => W (piv s i) j)) by lia.
      apply det_ext. intros i j Hi Hj. rewrite swap_nat_tr. reflexivity.
Qed.

(** the sum over j of the products of |f| behind j, in Horner form *)
Fixpoint tails (f : nat -> R) (n : nat) : R := match n with O => 0 | S m => tails f m * Rabs (f m) + 1 end.
Lemma tails_sum f n : tails f n = sum n (fun j => prodR (n - S j) (fun m => Rabs (f (S j + m)%nat))).
Proof.
  induction n as [|n IH]; [reflexivity|]. cbn [tails sum]. rewrite IH, Nat.sub_diag. cbn [prodR]. f_equal. rewrite <- sum_scal_r. apply sum_ext. intros j Hj.
  replace (S n - S j)%nat with (S (n - S j)) by lia. cbn [prodR]. replace (S j + (n - S j))%nat with n by lia. reflexivity.
Qed.
Lemma tails_pos f n : 0 <= tails f n.
Proof. induction n as [|n IH]; cbn; [lra|]. pose proof (Rabs_pos (f n)). nra. Qed.
Lemma tails_ext f g n : (forall i, (i < n)%nat -> f i = g i) -> tails f n = tails g n.
Proof. induction n as [|n IH]; intros H; cbn; auto. rewrite IH, H; auto. Qed.
Lemma prodR_abs n f : prodR n (fun i => Rabs (f i)) = Rabs (prodR n f).
Proof. induction n as [|n IH]; cbn; [symmetry; apply Rabs_R1|]. rewrite Rabs_mult, IH. reflexivity. Qed.

Section Width.
Context (prec emax : Z) {P : Prec_gt_0 prec} {M : Prec_lt_emax prec emax}.
Local Notation fl := (binary_float prec emax).
Local Notation u := (unit prec).
Local Notation eta := (tiny prec emax).
Local Notation o := (float_ops prec emax).
Local Notation rd := (round radix2 (SpecFloat.fexp prec emax) ZnearestE).
Local Instance vexp : Valid_exp (SpecFloat.fexp prec emax) := fexp_correct prec emax P.
Local Notation up := (u_pos prec).
Local Notation ep := (eta_pos prec emax).
Local Notation pow1 := (pow1 prec).
Local Notation pow_mono := (pow_mono prec).
Local Notation val := (val prec emax).

(** * The multipliers are at most one *)
Lemma pivot_max N k (a : nat -> nat -> fl) : (k < N)%nat -> let '(p, v) := find_pivot o N k a in
  v = absf o (a p k) /\ (is_finite v = true -> forall r, (k <= r < N)%nat -> is_finite (a r k) = true -> Rabs (B2R (a r k)) <= B2R v).
Proof.
  intros Hk. unfold find_pivot.
  match goal with |- context [for_ _ _ ?b ?s] =>
    assert ((fun n (st : nat * fl) => snd st = absf o (a (fst st) k) /\
      (is_finite (snd st) = true -> forall r, (k <= r < n)%nat -> is_finite (a r k) = true -> Rabs (B2R (a r k)) <= B2R (snd st))) N (for_ (S k) N b s)) as G end.
  { apply for_ind; [lia| |].
    - cbn [fst snd]. split; [reflexivity|]. intros _ r Hr _. replace r with k by lia. cbn [absf float_ops]. rewrite B2R_Babs. lra.
    - intros r [p v] Hr (H1 & H2). cbn [fst snd] in *. destruct (ltb o v (absf o (a r k))) eqn:E; cbn [fst snd].
      + split; [reflexivity|]. intros Fx x Hx Fa. cbn [absf ltb float_ops] in *. rewrite is_finite_Babs in Fx. destruct (Nat.eq_dec x r) as [->|Nx]; [rewrite B2R_Babs; lra|].
        assert (Fv : is_finite v = true).
        { subst v. destruct (a p k) as [s|s| |s m e B]; try reflexivity; destruct (a r k); discriminate. }
        rewrite Bltb_correct in E by (rewrite ?is_finite_Babs; assumption). destruct (Rlt_bool_spec (B2R v) (B2R (Babs (a r k)))) as [L|]; [|discriminate].
        specialize (H2 Fv x ltac:(lia) Fa). lra.
      + split; [exact H1|]. intros Fv x Hx Fa. destruct (Nat.eq_dec x r) as [->|Nx]; [|apply H2; auto; lia].
        cbn [absf ltb float_ops] in *. rewrite Bltb_correct in E by (rewrite ?is_finite_Babs; assumption).
        destruct (Rlt_bool_spec (B2R v) (B2R (Babs (a r k)))) as [|L]; [discriminate|]. rewrite B2R_Babs in L. exact L. }
  destruct (for_ (S k) N _ _) as [p v]. exact G.
Qed.
Lemma rd_le1 r : Rabs r <= 1 -> Rabs (rd r) <= 1.
Proof.
  intros H. apply abs_round_le_generic; [apply vexp|apply valid_rnd_N| |exact H]. pose proof P as Pp. pose proof M as Me. unfold Prec_gt_0, Prec_lt_emax in *.
  change 1 with (bpow radix2 0). apply generic_format_bpow. unfold SpecFloat.fexp, SpecFloat.emin. lia.
Qed.
Lemma quotient_le1 (x y : fl) : is_finite (div o x y) = true -> is_finite y = true -> (is_finite x = true -> Rabs (B2R x) <= Rabs (B2R y)) -> Rabs (B2R (div o x y)) <= 1.
Proof.
  intros F Fy H. destruct (div_fin prec emax x y F Fy) as (Fx & Ny & ->). apply rd_le1. unfold Rdiv. rewrite Rabs_mult, Rabs_inv by exact Ny.
  pose proof (Rabs_pos_lt _ Ny) as Py. apply Rmult_le_reg_r with (Rabs (B2R y)); [exact Py|]. rewrite Rmult_assoc, Rinv_l by lra. specialize (H Fx). lra.
Qed.
Theorem C128_multipliers eps N (a : nat -> nat -> fl) d : lu_decompose o eps N a = Some d ->
  forall i t, (i < N)%nat -> (t < i)%nat -> is_finite (lu d i t) = true -> is_finite (lu d t t) = true -> Rabs (B2R (lu d i t)) <= 1.
Proof.
  unfold lu_decompose. intros H.
  enough (G : forall i t, (i < N)%nat -> (t < N)%nat -> (t < i)%nat -> is_finite (lu d i t) = true -> is_finite (lu d t t) = true -> Rabs (B2R (lu d i t)) <= 1) by (intros; apply G; auto; lia).
  apply (forM_some_ind (fun k d => forall i t, (i < N)%nat -> (t < k)%nat -> (t < i)%nat -> is_finite (lu d i t) = true -> is_finite (lu d t t) = true -> Rabs (B2R (lu d i t)) <= 1) 0 N _ _ _ (Nat.le_0_l N)) with (2 := H).
  - intros; lia.
  - clear H d. intros k s s' Hk I E. unfold lu_step in E. pose proof (find_pivot_range o N k (lu s) ltac:(lia)) as Fp. pose proof (pivot_max N k (lu s) ltac:(lia)) as Mx.
    destruct (find_pivot o N k (lu s)) as [p v]. cbn [fst] in Fp. destruct Mx as [Ev Mx]. destruct (leb o v eps); [discriminate|].
    set (d := if (p =? k)%nat then s else mkLU (swap_rows N k p (lu s)) (swap_nat (piv s) k p) (- sign s)) in E.
    assert (T : forall i c, (c < N)%nat -> lu d i c = lu s (tr k p i) c).
    { intros i c Hc. unfold d. destruct (Nat.eqb_spec p k) as [->|Np].
      - unfold tr. destruct (Nat.eqb_spec i k) as [->|]; reflexivity.
      - cbn [lu]. rewrite swap_rows_spec, (proj2 (Nat.ltb_lt _ _)) by assumption. reflexivity. }
    assert (Tl : forall t, (t < k)%nat -> tr k p t = t) by (intros t Ht; unfold tr; rewrite (proj2 (Nat.eqb_neq t k)), (proj2 (Nat.eqb_neq t p)) by lia; reflexivity).
    assert (Tk : tr k p k = p) by (unfold tr; rewrite Nat.eqb_refl; reflexivity).
    assert (Tg : forall i, (k <= i)%nat -> (k <= tr k p i)%nat) by (intros i L; unfold tr; destruct (i =? k)%nat; [lia|destruct (i =? p)%nat; lia]).
    clearbody d. inversion E; subst s'; clear E. intros i t Hi Ht Hti. cbn [lu]. rewrite !lu_eliminate_spec by lia. rewrite (proj2 (Nat.ltb_lt i N)) by lia.
    rewrite (proj2 (Nat.ltb_ge k t)) by lia. cbn [andb]. destruct (Nat.ltb_spec k i) as [L|L]; cbn [andb].
    + destruct (Nat.eqb_spec t k) as [->|Nt].
      * intros Fd Fk. apply quotient_le1; [exact Fd|exact Fk|]. intros Fi. rewrite !T in * by lia. rewrite Tk in *.
        apply Rle_trans with (B2R v).
        -- apply Mx; [subst v; cbn [absf float_ops]; rewrite is_finite_Babs; exact Fk|split; [apply Tg; lia|apply tr_lt; lia]|exact Fi].
        -- subst v. cbn [absf float_ops]. rewrite B2R_Babs. lra.
      * intros Fd Fk. rewrite !T in * by lia. rewrite (Tl t) in * by lia. apply I; auto; [apply tr_lt; lia|lia|]. specialize (Tg i ltac:(lia)). lia.
    + intros Fd Fk. rewrite !T in * by lia. rewrite (Tl t) in * by lia. apply I; auto; [apply tr_lt; lia|lia|].
      destruct (Nat.eq_dec i k) as [->|]; [specialize (Tg k ltac:(lia)); lia|rewrite Tl by lia; lia].
Qed.

(** * One rounding per pivot *)
Definition budget (k : nat) (f : nat -> R) : R := ((1 + u) ^ k - 1) * Rabs (prodR k f) + eta * (1 + u) ^ k * tails f k.
Lemma budget_S k f (x : R) (s : Z) (e d : R) : (s = 1%Z \/ s = (-1)%Z) -> Rabs e <= u -> Rabs d <= eta -> Rabs (x - IZR s * prodR k f) <= budget k f ->
  Rabs (x * f k * (1 + e) + d - IZR s * prodR (S k) f) <= budget (S k) f.
Proof.
  intros Hs He Hd H. unfold budget in *. cbn [prodR tails pow]. set (p := prodR k f) in *. set (T := tails f k) in *. set (w := (1 + u) ^ k) in *. pose proof (tails_pos f k) as HT. fold T in HT.
  pose proof up as Hu. pose proof ep as Hep. pose proof (pow1 k) as Hw. fold w in Hw.
  replace (x * f k * (1 + e) + d - IZR s * (p * f k)) with ((x - IZR s * p) * f k * (1 + e) + (IZR s * (p * f k) * e + d)) by ring.
  assert (Sg : Rabs (IZR s) = 1) by (destruct Hs as [-> | ->]; [apply Rabs_R1|rewrite Rabs_left; lra]).
  assert (A1 : Rabs (1 + e) <= 1 + u) by (eapply Rle_trans; [apply Rabs_triang|]; rewrite Rabs_R1; lra).
  assert (A2 : Rabs ((x - IZR s * p) * f k * (1 + e)) <= ((w - 1) * Rabs p + eta * w * T) * Rabs (f k) * (1 + u)).
  { rewrite !Rabs_mult. apply Rmult_le_compat; [apply Rmult_le_pos; apply Rabs_pos|apply Rabs_pos| |exact A1]. apply Rmult_le_compat_r; [apply Rabs_pos|exact H]. }
  assert (A3 : Rabs (IZR s * (p * f k) * e) <= Rabs p * Rabs (f k) * u).
  { rewrite !Rabs_mult, Sg, Rmult_1_l. apply Rmult_le_compat_l; [apply Rmult_le_pos; apply Rabs_pos|exact He]. }
  eapply Rle_trans; [apply Rabs_triang|]. eapply Rle_trans; [apply Rplus_le_compat; [exact A2|apply Rabs_triang]|].
  rewrite (Rabs_mult p (f k)). assert (eta <= eta * ((1 + u) * w)).
  { rewrite <- (Rmult_1_r eta) at 1. apply Rmult_le_compat_l; [lra|]. rewrite <- (Rmult_1_r 1). apply Rmult_le_compat; lra. }
  replace (((1 + u) * w - 1) * (Rabs p * Rabs (f k)) + eta * ((1 + u) * w) * (T * Rabs (f k) + 1))
    with (((w - 1) * Rabs p + eta * w * T) * Rabs (f k) * (1 + u) + (Rabs p * Rabs (f k) * u + eta * ((1 + u) * w))) by ring. lra.
Qed.
Lemma budget_ext k f g : (forall i, (i < k)%nat -> f i = g i) -> budget k f = budget k g.
Proof. intros H. unfold budget. rewrite (prodR_ext k f g H), (tails_ext f g k H). reflexivity. Qed.

Definition synced (N k : nat) (st : (nat -> nat -> fl) * fl) (d : @lu_decomp fl) : Prop :=
  (forall i j, (i < N)%nat -> (j < N)%nat -> (k <= j \/ i <= j)%nat -> fst st i j = lu d i j) /\ (sign d = 1%Z \/ sign d = (-1)%Z) /\
  (is_finite (snd st) = true -> Rabs (B2R (snd st) - IZR (sign d) * prodR k (fun m => B2R (lu d m m))) <= budget k (fun m => B2R (lu d m m))).
Lemma synced_step N k st d : (k < N)%nat -> synced N k st d ->
  match det_step o N k st, lu_step o (eps12 o) N k d with
  | Some st', Some d' => synced N (S k) st' d'
  | None, None => True
  | _, _ => False
  end.
Proof.
  destruct st as [a dt]. intros Hk (E & Es & Ed). cbn [fst snd] in *. unfold det_step, lu_step.
  rewrite (find_pivot_ext o N k a (lu d) Hk) by (intros r Hr; apply E; lia).
  pose proof (find_pivot_range o N k (lu d) Hk) as Hp. destruct (find_pivot o N k (lu d)) as [p v]. cbn [fst] in Hp.
  destruct (leb o v (eps12 o)); auto.
  assert (forall a' w' dt' q' s',
    (forall i j, (i < N)%nat -> (j < N)%nat -> (k <= j \/ i <= j)%nat -> a' i j = w' i j) -> (s' = 1%Z \/ s' = (-1)%Z) ->
    (is_finite dt' = true -> Rabs (B2R dt' - IZR s' * prodR k (fun m => B2R (w' m m))) <= budget k (fun m => B2R (w' m m))) ->
    synced N (S k) (det_eliminate o N k a', mul o dt' (a' k k)) (mkLU (lu_eliminate o N k w') q' s')) as Fin.
  { intros a' w' dt' q' s' Ea Hs Edt. split; [|split]; cbn [fst snd lu sign].
    - intros i j Hi Hj Hij. rewrite det_eliminate_spec, lu_eliminate_spec by auto.
      rewrite (proj2 (Nat.ltb_lt i N)), (proj2 (Nat.ltb_lt j N)) by auto. rewrite !andb_true_r.
      destruct (Nat.ltb_spec k i); cbn [andb]; [|apply Ea; auto; lia].
      rewrite (Ea i k), (Ea k j), (Ea k k), (Ea i j) by lia.
      destruct (Nat.eqb_spec j k); [lia|]. destruct (k <? j)%nat; reflexivity.
    - exact Hs.
    - intros F. destruct (mul_fin prec emax _ _ F) as (F1 & F2 & ->). destruct (rd_err prec emax (B2R dt' * B2R (a' k k))) as (e & dd & Be & Bd & ->). specialize (Edt F1).
      assert (X : forall m, (m < S k)%nat -> B2R (lu_eliminate o N k w' m m) = B2R (w' m m)).
      { intros m Hm. rewrite lu_eliminate_spec by auto. rewrite (proj2 (Nat.ltb_ge k m)) by lia. reflexivity. }
      rewrite (prodR_ext (S k) _ _ X), (budget_ext (S k) _ _ X). rewrite (Ea k k) by lia. exact (budget_S k (fun m => B2R (w' m m)) (B2R dt') s' e dd Hs Be Bd Edt). }
  destruct (Nat.eqb_spec p k) as [->|Np].
  - apply Fin; auto.
  - apply Fin.
    + intros i j Hi Hj Hij. cbn [lu]. rewrite !swap_rows_spec. rewrite (proj2 (Nat.ltb_lt j N)) by auto.
      apply E; auto; [apply tr_lt; lia|]. unfold tr. destruct (Nat.eqb_spec i k); try lia. destruct (Nat.eqb_spec i p); lia.
    + destruct Es as [Es|Es]; rewrite Es; [right|left]; reflexivity.
    + cbn [neg float_ops lu sign]. rewrite is_finite_Bopp, B2R_Bopp. intros F. specialize (Ed F). cbn [lu].
      assert (X : forall m, (m < k)%nat -> B2R (swap_rows N k p (lu d) m m) = B2R (lu d m m)).
      { intros m Hm. rewrite swap_rows_spec, (proj2 (Nat.ltb_lt m N)) by lia. do 2 f_equal. unfold tr. rewrite !(proj2 (Nat.eqb_neq m _)) by lia. reflexivity. }
      rewrite (prodR_ext k _ _ X), (budget_ext k _ _ X). rewrite opp_IZR. rewrite <- Rabs_Ropp.
      match goal with |- Rabs ?x <= _ => match type of Ed with Rabs ?y <= _ => replace x with y by ring end end. exact Ed.
Qed.
(** the determinant is zero when a pivot is at most 1e-12, and otherwise the signed product of the pivots of the factorization, one rounding each *)
Lemma determinant_pivots N (a : nat -> nat -> fl) :
  match lu_decompose o (eps12 o) N a with
  | Some d => is_finite (determinant o N a) = true ->
      Rabs (B2R (determinant o N a) - IZR (sign d) * prodR N (fun m => B2R (lu d m m))) <= budget N (fun m => B2R (lu d m m))
  | None => determinant o N a = zero o
  end.
Proof.
  unfold determinant, lu_decompose.
  pose proof (forM_rel (synced N) 0 N (det_step o N) (lu_step o (eps12 o) N) (a, one o) (mkLU a (fun i => i) 1%Z) (Nat.le_0_l N)) as G.
  assert (I0 : synced N 0 (a, one o) (mkLU a (fun i => i) 1%Z)).
  { split; [auto|split; [cbn; auto|]]. cbn [snd sign prodR]. intros _. assert (One : B2R (one o) = 1) by (cbn [one float_ops]; apply Bone_correct).
    rewrite One. unfold budget. cbn [prodR pow tails]. rewrite Rmult_1_r, Rminus_diag_eq, Rabs_R0 by reflexivity. lra. }
  specialize (G I0 ltac:(intros; apply synced_step; auto; lia)).
  destruct (forM 0 N (det_step o N) (a, one o)) as [[w dt]|], (forM 0 N (lu_step o (eps12 o) N) _) as [d|]; try contradiction; auto. apply G.
Qed.

Theorem C128_determinant N (a : nat -> nat -> fl) : is_finite (determinant o N a) = true ->
  match lu_decompose o (eps12 o) N a with
  | None => determinant o N a = zero o
  | Some d => (forall i j, (i < N)%nat -> (j < N)%nat -> is_finite (lu d i j) = true) ->
      let U := upper_of (val (lu d)) in
      exists A : nat -> nat -> R,
        (forall i j, (i < N)%nat -> (j < N)%nat ->
           Rabs (A i j - B2R (a i j)) <= ((1 + u) ^ N - 1) * sum N (fun t => Rabs (U t j)) + (INR N + Rabs (U j j)) * (eta * (1 + u) ^ N)) /\
        Rabs (det N A) = prodR N (fun m => Rabs (U m m)) /\
        Rabs (B2R (determinant o N a) - det N A) <= ((1 + u) ^ N - 1) * Rabs (det N A) + eta * (1 + u) ^ N * tails (fun m => U m m) N
  end.
Proof.
  intros F. pose proof (determinant_pivots N a) as D. destruct (lu_decompose o (eps12 o) N a) as [d|] eqn:E; [|exact D]. specialize (D F). intros FL. cbv zeta.
  destruct (lu_signed o (eps12 o) N a d E) as ((q & Q) & Sg & Dt). set (L := lower_of (val (lu d))). set (U := upper_of (val (lu d))).
  set (A := fun i j => Mprod N L U (q i) j). exists A.
  assert (Up : forall m, (m < N)%nat -> U m m = B2R (lu d m m)) by (intros m Hm; unfold U, upper_of; rewrite Nat.leb_refl; reflexivity).
  assert (DA : IZR (sign d) * det N A = prodR N (fun m => B2R (lu d m m))).
  { rewrite <- Dt. rewrite (det_ext N _ (Mprod N L U)).
    - rewrite det_lower_mul.
      + rewrite (prodR_ext N (fun i => L i i) (fun _ => 1)).
        * rewrite (det_upper N U); [|intros i j Hi Hj; unfold U, upper_of; rewrite (proj2 (Nat.leb_gt i j)) by lia; reflexivity].
          rewrite (prodR_ext N _ _ Up). assert (O1 : forall n, prodR n (fun _ => 1) = 1) by (induction n; cbn; [|rewrite IHn]; ring). rewrite O1. ring.
        * intros i Hi. unfold L, lower_of. rewrite Nat.ltb_irrefl, Nat.eqb_refl. reflexivity.
      + intros i j Hi Hj Hij. unfold L, lower_of. rewrite (proj2 (Nat.ltb_ge j i)), (proj2 (Nat.eqb_neq j i)) by lia. reflexivity.
    - intros i j Hi Hj. unfold A. destruct (Q i Hi) as (_ & _ & -> & _). reflexivity. }
  assert (SD : IZR (sign d) * IZR (sign d) = 1) by (destruct Sg as [-> | ->]; ring).
  assert (DA' : det N A = IZR (sign d) * prodR N (fun m => B2R (lu d m m))) by (rewrite <- DA, <- Rmult_assoc, SD; ring).
  assert (AA : Rabs (det N A) = Rabs (prodR N (fun m => B2R (lu d m m)))) by (rewrite DA', Rabs_mult; destruct Sg as [-> | ->]; [rewrite Rabs_R1|rewrite (Rabs_left (-1)) by lra]; ring).
  split; [|split].
  - intros i j Hi Hj. destruct (Q i Hi) as (_ & Hq & _ & Pq). pose proof (C106_lu_factors prec emax (eps12 o) N a d E FL (q i) j Hq Hj) as K. cbv zeta in K. rewrite Pq in K.
    fold L U in K. unfold A, Mprod. rewrite Rabs_minus_sym. eapply Rle_trans; [exact K|]. apply Rplus_le_compat_r. apply Rmult_le_compat_l; [pose proof (pow1 N); lra|].
    apply sum_le. intros t Ht. rewrite Rabs_mult. rewrite <- (Rmult_1_l (Rabs (U t j))) at 2. apply Rmult_le_compat_r; [apply Rabs_pos|].
    unfold L, lower_of. destruct (Nat.ltb_spec t (q i)) as [Lt|Lt].
    + apply (C128_multipliers (eps12 o) N a d E); auto.
    + destruct (t =? q i)%nat; [rewrite Rabs_R1|rewrite Rabs_R0]; lra.
  - rewrite AA, <- prodR_abs. apply prodR_ext. intros m Hm. rewrite Up by exact Hm. reflexivity.
  - rewrite DA' at 1. rewrite AA. rewrite (tails_ext _ _ N Up). exact D.
Qed.

(** * The 3x3 inverse: the adjugate over the computed determinant *)
Definition minor (a : nat -> nat -> R) (i j : nat) : nat -> nat -> R := fun r c => a (skip i r) (skip j c).
(** entry (i, j) of the adjugate, and the sum of the magnitudes of its two products *)
Definition adjugate (a : nat -> nat -> R) (i j : nat) : R := (-1) ^ (i + j) * det 2 (minor a j i).
Definition spread (a : nat -> nat -> R) (i j : nat) : R :=
  let m := minor a j i in Rabs (m 0%nat 0%nat * m 1%nat 1%nat) + Rabs (m 0%nat 1%nat * m 1%nat 0%nat).
Definition inverse_error (T dt : R) : R := ((1 + u) ^ 4 - 1) * T / Rabs dt + eta * (1 + u) ^ 3 * (2 / Rabs dt + T + 2 * eta) + eta.

Lemma sub_err (x y : fl) : is_finite (sub o x y) = true -> is_finite x = true /\ is_finite y = true /\ exists e, Rabs e <= u /\ B2R (sub o x y) = (B2R x - B2R y) * (1 + e).
Proof.
  intros F. destruct (SolveRoundProps.sub_fin prec emax x y F) as (Fx & Fy & ->). split; [exact Fx|split; [exact Fy|]].
  destruct (rd_sum prec emax x (Bopp y)) as (e & He & E). rewrite B2R_Bopp in E. exists e. split; [exact He|]. exact E.
Qed.
Lemma near1 e : Rabs e <= u -> Rabs (1 + e) <= 1 + u.
Proof. intros H. eapply Rle_trans; [apply Rabs_triang|]. rewrite Rabs_R1. lra. Qed.
Lemma near2 e f : Rabs e <= u -> Rabs f <= u -> Rabs ((1 + e) * (1 + f)) <= (1 + u) ^ 2 /\ Rabs ((1 + e) * (1 + f) - 1) <= (1 + u) ^ 2 - 1.
Proof.
  intros He Hf. split.
  - rewrite Rabs_mult. replace ((1 + u) ^ 2) with ((1 + u) * (1 + u)) by ring. apply Rmult_le_compat; try apply Rabs_pos; apply near1; assumption.
  - replace ((1 + e) * (1 + f) - 1) with (e + (f + e * f)) by ring. eapply Rle_trans; [apply Rabs_triang|]. eapply Rle_trans; [apply Rplus_le_compat_l, Rabs_triang|].
    rewrite Rabs_mult. assert (Rabs e * Rabs f <= u * u) by (apply Rmult_le_compat; try apply Rabs_pos; assumption). replace ((1 + u) ^ 2 - 1) with (u + (u + u * u)) by ring. lra.
Qed.
Lemma entry_real X Y D sg e1 e2 e3 e4 e5 d1 d2 d4 d5 : Rabs e1 <= u -> Rabs e2 <= u -> Rabs e3 <= u -> Rabs e4 <= u -> Rabs e5 <= u ->
  Rabs d1 <= eta -> Rabs d2 <= eta -> Rabs d4 <= eta -> Rabs d5 <= eta -> D <> 0 -> Rabs sg = 1 ->
  Rabs (sg * ((X * (1 + e1) + d1 - (Y * (1 + e2) + d2)) * (1 + e3)) * (1 / D * (1 + e4) + d4) * (1 + e5) + d5 - sg * (X - Y) / D) <= inverse_error (Rabs X + Rabs Y) D.
Proof.
  intros B1 B2 B3 B4 B5 D1 D2 D4 D5 Nd Sg. pose proof up as Hu. pose proof ep as He. unfold inverse_error. set (T := Rabs X + Rabs Y).
  assert (HT : 0 <= T) by (unfold T; pose proof (Rabs_pos X); pose proof (Rabs_pos Y); lra).
  destruct (near2 e1 e3 B1 B3) as [_ N13]. destruct (near2 e2 e3 B2 B3) as [_ N23]. destruct (near2 e4 e5 B4 B5) as [N45 M45]. pose proof (near1 e3 B3) as N3. pose proof (near1 e5 B5) as N5.
  set (c := (X * (1 + e1) + d1 - (Y * (1 + e2) + d2)) * (1 + e3)). set (h := 1 + u) in *. assert (Hh : 1 <= h) by (unfold h; lra).
  assert (S1 : Rabs (c - (X - Y)) <= (h ^ 2 - 1) * T + 2 * eta * h).
  { replace (c - (X - Y)) with (X * ((1 + e1) * (1 + e3) - 1) + (- (Y * ((1 + e2) * (1 + e3) - 1)) + (d1 - d2) * (1 + e3))) by (unfold c; ring).
    eapply Rle_trans; [apply Rabs_triang|]. eapply Rle_trans; [apply Rplus_le_compat_l, Rabs_triang|]. rewrite Rabs_Ropp, !Rabs_mult.
    assert (Rabs (d1 - d2) <= 2 * eta) by (eapply Rle_trans; [apply Rabs_triang|]; rewrite Rabs_Ropp; lra).
    assert (Rabs (d1 - d2) * Rabs (1 + e3) <= 2 * eta * h) by (apply Rmult_le_compat; try apply Rabs_pos; assumption).
    assert (Rabs X * Rabs ((1 + e1) * (1 + e3) - 1) <= Rabs X * (h ^ 2 - 1)) by (apply Rmult_le_compat_l; [apply Rabs_pos|exact N13]).
    assert (Rabs Y * Rabs ((1 + e2) * (1 + e3) - 1) <= Rabs Y * (h ^ 2 - 1)) by (apply Rmult_le_compat_l; [apply Rabs_pos|exact N23]). unfold T. lra. }
  assert (SX : Rabs (X - Y) <= T) by (eapply Rle_trans; [apply Rabs_triang|]; rewrite Rabs_Ropp; apply Rle_refl).
  assert (Hh2 : h <= h ^ 2) by (replace (h ^ 2) with (h * h) by ring; rewrite <- (Rmult_1_r h) at 1; apply Rmult_le_compat_l; lra).
  assert (S2 : Rabs c <= h ^ 2 * (T + 2 * eta)).
  { replace c with ((c - (X - Y)) + (X - Y)) by ring. eapply Rle_trans; [apply Rabs_triang|]. assert (2 * eta * h <= 2 * eta * h ^ 2) by (apply Rmult_le_compat_l; lra). lra. }
  clearbody c. set (k := / Rabs D). assert (Hk : 0 < k) by (apply Rinv_0_lt_compat, Rabs_pos_lt, Nd).
  replace (sg * c * (1 / D * (1 + e4) + d4) * (1 + e5) + d5 - sg * (X - Y) / D)
    with (sg * ((c - (X - Y)) * ((1 + e4) * (1 + e5)) * / D) + (sg * ((X - Y) * ((1 + e4) * (1 + e5) - 1) * / D) + (sg * (c * d4 * (1 + e5)) + d5))) by (field; exact Nd).
  eapply Rle_trans; [apply Rabs_triang|]. eapply Rle_trans; [apply Rplus_le_compat_l, Rabs_triang|]. eapply Rle_trans; [apply Rplus_le_compat_l, Rplus_le_compat_l, Rabs_triang|].
  rewrite !(Rabs_mult sg), Sg, !Rmult_1_l.
  assert (T1 : Rabs ((c - (X - Y)) * ((1 + e4) * (1 + e5)) * / D) <= ((h ^ 2 - 1) * T + 2 * eta * h) * h ^ 2 * k).
  { rewrite Rabs_mult, Rabs_inv. fold k. apply Rmult_le_compat_r; [lra|]. rewrite Rabs_mult. apply Rmult_le_compat; try apply Rabs_pos; assumption. }
  assert (T2 : Rabs ((X - Y) * ((1 + e4) * (1 + e5) - 1) * / D) <= T * (h ^ 2 - 1) * k).
  { rewrite Rabs_mult, Rabs_inv. fold k. apply Rmult_le_compat_r; [lra|]. rewrite Rabs_mult. apply Rmult_le_compat; try apply Rabs_pos; assumption. }
  assert (T3 : Rabs (c * d4 * (1 + e5)) <= h ^ 2 * (T + 2 * eta) * eta * h).
  { rewrite !Rabs_mult. apply Rmult_le_compat; [apply Rmult_le_pos; apply Rabs_pos|apply Rabs_pos| |exact N5]. apply Rmult_le_compat; try apply Rabs_pos; assumption. }
  unfold Rdiv. fold k. replace ((h ^ 4 - 1) * T * k + eta * h ^ 3 * (2 * k + T + 2 * eta) + eta)
    with (((h ^ 2 - 1) * T + 2 * eta * h) * h ^ 2 * k + (T * (h ^ 2 - 1) * k + (h ^ 2 * (T + 2 * eta) * eta * h + eta))) by ring. lra.
Qed.
Lemma entry_close (p q r s dt x : fl) (sg : R) : let c := sub o (mul o p q) (mul o r s) in
  (sg = 1 /\ x = mul o c (div o (one o) dt) \/ sg = -1 /\ x = mul o (neg o c) (div o (one o) dt)) -> is_finite dt = true -> is_finite x = true ->
  Rabs (B2R x - sg * (B2R p * B2R q - B2R r * B2R s) / B2R dt) <= inverse_error (Rabs (B2R p * B2R q) + Rabs (B2R r * B2R s)) (B2R dt).
Proof.
  cbv zeta. set (c := sub o (mul o p q) (mul o r s)). intros Ex Fd Fx.
  assert (Sg : Rabs sg = 1) by (destruct Ex as [[-> _]|[-> _]]; [apply Rabs_R1|rewrite Rabs_left; lra]).
  assert (K : exists e5 d5, Rabs e5 <= u /\ Rabs d5 <= eta /\ is_finite c = true /\ is_finite (div o (one o) dt) = true /\ B2R x = sg * B2R c * B2R (div o (one o) dt) * (1 + e5) + d5).
  { destruct Ex as [[-> ->]|[-> ->]]; destruct (mul_fin prec emax _ _ Fx) as (F1 & F2 & E).
    - destruct (rd_err prec emax (B2R c * B2R (div o (one o) dt))) as (e & d & A & B & D). exists e, d. rewrite E, D. repeat (split; [assumption|]). ring.
    - cbn [neg float_ops] in *. rewrite is_finite_Bopp in F1. rewrite B2R_Bopp in E. destruct (rd_err prec emax (- B2R c * B2R (div o (one o) dt))) as (e & d & A & B & D). exists e, d. rewrite E, D. repeat (split; [assumption|]). ring. }
  destruct K as (e5 & d5 & B5 & D5 & Fc & Fv & Vx). destruct (SolveRoundProps.div_fin prec emax _ _ Fv Fd) as (_ & Nd & Ev).
  assert (One : B2R (one o) = 1) by (cbn [one float_ops]; apply Bone_correct). rewrite One in Ev.
  destruct (rd_err prec emax (1 / B2R dt)) as (e4 & d4 & B4 & D4 & V4). rewrite V4 in Ev. unfold c in Vx, Fc.
  destruct (sub_err _ _ Fc) as (Fpq & Frs & e3 & B3 & Vc).
  destruct (mul_fin prec emax _ _ Fpq) as (_ & _ & Vp). destruct (mul_fin prec emax _ _ Frs) as (_ & _ & Vr).
  destruct (rd_err prec emax (B2R p * B2R q)) as (e1 & d1 & B1 & D1 & V1). destruct (rd_err prec emax (B2R r * B2R s)) as (e2 & d2 & B2 & D2 & V2).
  rewrite Vp, V1, Vr, V2 in Vc. rewrite Vc, Ev in Vx. rewrite Vx. apply entry_real; assumption.
Qed.
Theorem C128_inverse3 (a x : nat -> nat -> fl) : let dt := determinant o 3 a in let A := fun i j => B2R (a i j) in
  inverse3 o a = Some x -> is_finite dt = true ->
  forall i j, (i < 3)%nat -> (j < 3)%nat -> is_finite (x i j) = true ->
  Rabs (B2R (x i j) - adjugate A i j / B2R dt) <= inverse_error (spread A i j) (B2R dt).
Proof.
  cbv zeta. intros E Fd. unfold inverse3 in E. cbv zeta in E. set (dt := determinant o 3 a) in *. clearbody dt. destruct (leb o (absf o dt) (eps12 o)); [discriminate|].
  assert (Ex : forall i j, x i j = match i, j with
      | 0, 0 => mul o (sub o (mul o (a 1 1) (a 2 2)) (mul o (a 1 2) (a 2 1))) (div o (one o) dt)
      | 0, 1 => mul o (neg o (sub o (mul o (a 0 1) (a 2 2)) (mul o (a 0 2) (a 2 1)))) (div o (one o) dt)
      | 0, _ => mul o (sub o (mul o (a 0 1) (a 1 2)) (mul o (a 0 2) (a 1 1))) (div o (one o) dt)
      | 1, 0 => mul o (neg o (sub o (mul o (a 1 0) (a 2 2)) (mul o (a 1 2) (a 2 0)))) (div o (one o) dt)
      | 1, 1 => mul o (sub o (mul o (a 0 0) (a 2 2)) (mul o (a 0 2) (a 2 0))) (div o (one o) dt)
      | 1, _ => mul o (neg o (sub o (mul o (a 0 0) (a 1 2)) (mul o (a 1 0) (a 0 2)))) (div o (one o) dt)
      | _, 0 => mul o (sub o (mul o (a 1 0) (a 2 1)) (mul o (a 1 1) (a 2 0))) (div o (one o) dt)
      | _, 1 => mul o (neg o (sub o (mul o (a 0 0) (a 2 1)) (mul o (a 0 1) (a 2 0)))) (div o (one o) dt)
      | _, _ => mul o (sub o (mul o (a 0 0) (a 1 1)) (mul o (a 0 1) (a 1 0))) (div o (one o) dt)
      end%nat) by (intros i j; inversion E; reflexivity). clear E.
  assert (G : forall p q r s y sg adj T, (sg = 1 /\ y = mul o (sub o (mul o p q) (mul o r s)) (div o (one o) dt) \/ sg = -1 /\ y = mul o (neg o (sub o (mul o p q) (mul o r s))) (div o (one o) dt)) ->
    adj = sg * (B2R p * B2R q - B2R r * B2R s) -> T = Rabs (B2R p * B2R q) + Rabs (B2R r * B2R s) -> is_finite y = true -> Rabs (B2R y - adj / B2R dt) <= inverse_error T (B2R dt)).
  { intros p q r s y sg adj T H -> -> F. apply entry_close; assumption. }
  intros i j Hi Hj F. rewrite Ex in *. clear Ex.
  assert (Pos : forall p q r s y adj T, y = mul o (sub o (mul o p q) (mul o r s)) (div o (one o) dt) -> adj = B2R p * B2R q - B2R r * B2R s -> T = Rabs (B2R p * B2R q) + Rabs (B2R r * B2R s) -> is_finite y = true -> Rabs (B2R y - adj / B2R dt) <= inverse_error T (B2R dt)).
  { intros p q r s y adj T H H1 H2 Fy. apply (G p q r s y 1); auto. rewrite H1. ring. }
  assert (Neg : forall p q r s y adj T, y = mul o (neg o (sub o (mul o p q) (mul o r s))) (div o (one o) dt) -> adj = - (B2R p * B2R q - B2R r * B2R s) -> T = Rabs (B2R p * B2R q) + Rabs (B2R r * B2R s) -> is_finite y = true -> Rabs (B2R y - adj / B2R dt) <= inverse_error T (B2R dt)).
  { intros p q r s y adj T H H1 H2 Fy. apply (G p q r s y (-1)); auto. rewrite H1. ring. }
  clear G. destruct i as [|[|[|]]]; [| | |lia]; (destruct j as [|[|[|]]]; [| | |lia]);
    first [eapply Pos; [reflexivity| | |exact F]|eapply Neg; [reflexivity| | |exact F]]; unfold adjugate, spread, minor; rewrite ?det_2; cbn -[Rabs B2R float_ops]; rewrite ?(Rmult_comm (B2R (a 0%nat 2%nat)) (B2R (a 1%nat 0%nat))); try ring.
Qed.
(** so the product with the matrix is the identity times exact over computed determinant *)
Theorem C128_inverse3_residual (a x : nat -> nat -> fl) : let dt := determinant o 3 a in let A := fun i j => B2R (a i j) in
  inverse3 o a = Some x -> is_finite dt = true -> (forall i j, (i < 3)%nat -> (j < 3)%nat -> is_finite (x i j) = true) ->
  forall i k, (i < 3)%nat -> (k < 3)%nat ->
  Rabs (sum 3 (fun j => A i j * B2R (x j k)) - (if (i =? k)%nat then det 3 A / B2R dt else 0)) <= sum 3 (fun j => Rabs (A i j) * inverse_error (spread A j k) (B2R dt)).
Proof.
  intros dt A E Fd Fx i k Hi Hk.
  assert (Ad : sum 3 (fun j => A i j * (adjugate A j k / B2R dt)) = if (i =? k)%nat then det 3 A / B2R dt else 0).
  { unfold adjugate, minor. destruct i as [|[|[|]]]; [| | |lia]; (destruct k as [|[|[|]]]; [| | |lia]); cbn [Nat.eqb]; rewrite ?det_3; cbn [sum]; rewrite !det_2; cbn -[A dt]; unfold Rdiv; ring. }
  rewrite <- Ad, <- sum_minus. eapply Rle_trans; [apply sum_Rabs|]. apply sum_le. intros j Hj. rewrite <- Rmult_minus_distr_l, Rabs_mult. apply Rmult_le_compat_l; [apply Rabs_pos|].
  apply C128_inverse3; auto.
Qed.
End Width.

(** * A determinant that overflows turns the inverse of an invertible matrix into zero *)
Local Instance p24 : Prec_gt_0 24 := eq_refl.
Local Instance e24 : Prec_lt_emax 24 128 := eq_refl.
Definition huge : binary_float 24 128 := binary_normalize 24 128 _ _ mode_NE 1 50 false.
Definition diag_huge (i j : nat) : binary_float 24 128 := if (i =? j)%nat then huge else B754_zero false.
Definition zerob (x : binary_float 24 128) : bool := match x with B754_zero _ => true | _ => false end.
Definition below3 : list (nat * nat) := ((0, 0) :: (0, 1) :: (0, 2) :: (1, 0) :: (1, 1) :: (1, 2) :: (2, 0) :: (2, 1) :: (2, 2) :: nil)%nat.
Lemma in_below3 i j : (i < 3)%nat -> (j < 3)%nat -> In (i, j) below3.
Proof. intros Hi Hj. destruct i as [|[|[|]]]; [| | |lia]; (destruct j as [|[|[|]]]; [| | |lia]); cbn; tauto. Qed.
Theorem C128_overflow_refuted : exists a x : nat -> nat -> binary_float 24 128,
  (forall i j, (i < 3)%nat -> (j < 3)%nat -> is_finite (a i j) = true) /\ det 3 (fun i j => B2R (a i j)) <> 0 /\
  inverse3 (float_ops 24 128) a = Some x /\ forall i j, (i < 3)%nat -> (j < 3)%nat -> B2R (x i j) = 0.
Proof.
  assert (C : match inverse3 (float_ops 24 128) diag_huge with Some x => forallb (fun '(i, j) => zerob (x i j)) below3 | None => false end = true) by (vm_compute; reflexivity).
  destruct (inverse3 (float_ops 24 128) diag_huge) as [x|] eqn:E; [|discriminate]. exists diag_huge, x.
  split; [|split; [|split; [exact E|]]].
  - intros i j _ _. unfold diag_huge. destruct (i =? j)%nat; [vm_compute; reflexivity|reflexivity].
  - assert (Hp : 0 < B2R huge).
    { assert (L : Bltb (B754_zero false) huge = true) by (vm_compute; reflexivity). rewrite Bltb_correct in L by (vm_compute; reflexivity).
      destruct (Rlt_bool_spec (B2R (B754_zero false : binary_float 24 128)) (B2R huge)) as [H|]; [exact H|discriminate]. }
    rewrite det_upper.
    + cbn [prodR]. unfold diag_huge. rewrite !Nat.eqb_refl. assert (0 < B2R huge * B2R huge * B2R huge) by (apply Rmult_lt_0_compat; [apply Rmult_lt_0_compat|]; exact Hp). lra.
    + intros i j Hi Hj. unfold diag_huge. rewrite (proj2 (Nat.eqb_neq i j)) by lia. reflexivity.
  - rewrite forallb_forall in C. intros i j Hi Hj. specialize (C (i, j) (in_below3 i j Hi Hj)). cbn in C. destruct (x i j); try discriminate. reflexivity.
Qed.

(** [[1, 3], [2, 1]], whose rows are exchanged, and a 3x3 inverse *)
Local Instance p53 : Prec_gt_0 53 := eq_refl.
Local Instance e53 : Prec_lt_emax 53 1024 := eq_refl.
Definition ex_m (i j : nat) : binary_float 53 1024 := match i, j with 0, 0 => ex_num 2 | 0, 1 => ex_num 1 | 1, 0 => ex_num 1 | 1, 1 => ex_num 3 | 2, 2 => ex_num 1 | _, _ => ex_num 0 end%nat.
Example C128_nontrivial :
  is_finite (determinant (float_ops 53 1024) 2 ex_a) = true /\
  match lu_decompose (float_ops 53 1024) (eps12 (float_ops 53 1024)) 2 ex_a with
  | Some d => piv d 0%nat = 1%nat /\ forallb (fun i => forallb (fun j => is_finite (lu d i j)) (0 :: 1 :: nil)%nat) (0 :: 1 :: nil)%nat = true
  | None => False
  end /\
  is_finite (determinant (float_ops 53 1024) 3 ex_m) = true /\
  match inverse3 (float_ops 53 1024) ex_m with Some x => forallb (fun '(i, j) => is_finite (x i j)) below3 = true | None => False end.
Proof. split; [vm_compute; reflexivity|]. split; [vm_compute; split; reflexivity|]. split; vm_compute; reflexivity. Qed.
