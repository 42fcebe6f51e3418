(** The generator's state update is a linear map over GF(2) whose powers are computed
    through its characteristic polynomial; this gives the exact period. *)
From Coq Require Import NArith ZArith Lia Bool List Znumtheory.
From Verif Require Import RandModel.
Import ListNotations.
Open Scope N_scope.

Definition lt64 (x : N) : Prop := x < 2 ^ 64.

Lemma lt64_land x : lt64 x <-> N.land x mask64 = x.
Proof.
  unfold lt64. change mask64 with (N.ones 64). rewrite N.land_ones. split; intros H.
  - apply N.mod_small; auto.
  - rewrite <- H. apply N.mod_lt. discriminate.
Qed.

Lemma lt64_lxor a b : lt64 a -> lt64 b -> lt64 (N.lxor a b).
Proof.
  rewrite !lt64_land. intros A B. rewrite N.land_comm.
  assert (forall a b c, N.land c (N.lxor a b) = N.lxor (N.land c a) (N.land c b)) as D.
  { intros. apply N.bits_inj; intros i. rewrite ?N.land_spec, ?N.lxor_spec, ?N.land_spec.
    destruct (N.testbit c i), (N.testbit a0 i), (N.testbit b0 i); reflexivity. }
  rewrite D, !(N.land_comm mask64), A, B. reflexivity.
Qed.
Lemma lt64_shiftr a k : lt64 a -> lt64 (N.shiftr a k).
Proof.
  unfold lt64; intros. rewrite N.shiftr_div_pow2. eapply N.le_lt_trans; [|exact H].
  apply N.div_le_upper_bound; [apply N.pow_nonzero; discriminate|].
  pose proof (N.pow_nonzero 2 k ltac:(discriminate)). nia.
Qed.
Lemma lt64_land_mask a : lt64 (N.land a mask64).
Proof. unfold lt64. change mask64 with (N.ones 64). rewrite N.land_ones. apply N.mod_lt. discriminate. Qed.

Lemma step_lt64 x : lt64 x -> lt64 (rng_step x).
Proof.
  intros H. unfold rng_step. cbv zeta.
  repeat first [apply lt64_lxor|apply lt64_shiftr|apply lt64_land_mask|exact H].
Qed.

Lemma land_lxor_distr a b c : N.land (N.lxor a b) c = N.lxor (N.land a c) (N.land b c).
Proof.
  apply N.bits_inj; intros i. rewrite ?N.land_spec, ?N.lxor_spec, ?N.land_spec.
  destruct (N.testbit c i), (N.testbit a i), (N.testbit b i); reflexivity.
Qed.

Lemma lxor_4 a b c d : N.lxor (N.lxor a b) (N.lxor c d) = N.lxor (N.lxor a c) (N.lxor b d).
Proof.
  rewrite !N.lxor_assoc. f_equal. rewrite <- !N.lxor_assoc. f_equal. apply N.lxor_comm.
Qed.

Lemma step_lxor a b : rng_step (N.lxor a b) = N.lxor (rng_step a) (rng_step b).
Proof.
  unfold rng_step. cbv zeta.
  rewrite N.shiftr_lxor. rewrite (lxor_4 a b).
  set (a1 := N.lxor a (N.shiftr a 12)). set (b1 := N.lxor b (N.shiftr b 12)).
  rewrite N.shiftl_lxor, land_lxor_distr. rewrite (lxor_4 a1 b1).
  set (a2 := N.lxor a1 _). set (b2 := N.lxor b1 _).
  rewrite N.shiftr_lxor. apply lxor_4.
Qed.

Lemma step_0 : rng_step 0 = 0.
Proof. reflexivity. Qed.

(** ** Polynomials over GF(2) (bit i = coefficient of x^i) acting on states. *)
Fixpoint act (n : nat) (q v : N) : N :=
  match n with
  | O => 0
  | S n => N.lxor (if N.odd q then v else 0) (act n (N.div2 q) (rng_step v))
  end.

Lemma act_0_r n : forall q, act n q 0 = 0.
Proof.
  induction n as [|n IH]; intros q; cbn [act]; auto.
  rewrite step_0, IH. destruct (N.odd q); reflexivity.
Qed.

Lemma act_lxor_r n : forall q u v, act n q (N.lxor u v) = N.lxor (act n q u) (act n q v).
Proof.
  induction n as [|n IH]; intros q u v; cbn [act]; auto.
  rewrite step_lxor, IH. rewrite lxor_4. f_equal. destruct (N.odd q); auto.
Qed.

Lemma odd_lxor a b : N.odd (N.lxor a b) = xorb (N.odd a) (N.odd b).
Proof. rewrite <- !N.bit0_odd. apply N.lxor_spec. Qed.
Lemma div2_lxor a b : N.div2 (N.lxor a b) = N.lxor (N.div2 a) (N.div2 b).
Proof. rewrite !N.div2_spec. apply N.shiftr_lxor. Qed.

Lemma act_lxor_l n : forall a b v, act n (N.lxor a b) v = N.lxor (act n a v) (act n b v).
Proof.
  induction n as [|n IH]; intros a b v; cbn [act]; auto.
  rewrite odd_lxor, div2_lxor, IH. rewrite lxor_4. f_equal.
  destruct (N.odd a), (N.odd b); cbn; rewrite ?N.lxor_nilpotent, ?N.lxor_0_r, ?N.lxor_0_l; auto.
Qed.

Lemma act_0_l n : forall v, act n 0 v = 0.
Proof. induction n as [|n IH]; intros v; cbn [act]; auto. cbn. apply IH. Qed.

Lemma act_step n : forall q v, act n q (rng_step v) = rng_step (act n q v).
Proof.
  induction n as [|n IH]; intros q v; cbn [act]; auto.
  rewrite IH, step_lxor. f_equal. destruct (N.odd q); auto.
Qed.

Lemma act_double n q v : act (S n) (2 * q) v = act n q (rng_step v).
Proof.
  cbn [act]. rewrite N.odd_mul. cbn [N.odd N.even negb andb].
  rewrite N.div2_double. apply N.lxor_0_l.
Qed.

Lemma act_more n : forall q v, q < 2 ^ N.of_nat n -> act (S n) q v = act n q v.
Proof.
  induction n as [|n IH]; intros q v H.
  - cbn in H. assert (q = 0) as -> by lia. reflexivity.
  - cbn [act]. cbn [act] in IH. f_equal.
    change (N.lxor (if N.odd (N.div2 q) then rng_step v else 0)
              (act n (N.div2 (N.div2 q)) (rng_step (rng_step v)))) with (act (S n) (N.div2 q) (rng_step v)).
    apply IH. rewrite N.div2_div.
    apply N.div_lt_upper_bound; [discriminate|].
    rewrite Nat2N.inj_succ, N.pow_succ_r' in H. exact H.
Qed.

Lemma act_lt64 n : forall q v, lt64 v -> lt64 (act n q v).
Proof.
  induction n as [|n IH]; intros q v H; cbn [act].
  - unfold lt64. reflexivity.
  - apply lt64_lxor; [|apply IH, step_lt64, H]. destruct (N.odd q); auto. unfold lt64; reflexivity.
Qed.

Lemma act_1 n v : act (S n) 1 v = v.
Proof. cbn [act]. cbn [N.odd N.even negb N.div2]. rewrite act_0_l. apply N.lxor_0_r. Qed.

(** ** The characteristic polynomial kills every state. *)
Definition charpoly : N := 18453700935701797745.

Fixpoint check_basis (n : nat) (e : N) : bool :=
  match n with O => true | S n => (act 65 charpoly e =? 0) && check_basis n (2 * e) end.
Lemma check_basis_ok : check_basis 64 1 = true.
Proof. vm_compute. reflexivity. Qed.

Lemma check_basis_spec n : forall e i, check_basis n e = true -> (i < n)%nat ->
  act 65 charpoly (e * 2 ^ N.of_nat i) = 0.
Proof.
  induction n as [|n IH]; intros e i H Hi; [lia|].
  cbn [check_basis] in H. apply andb_prop in H as [H1 H2].
  destruct i as [|i].
  - cbn [N.of_nat]. rewrite N.pow_0_r, N.mul_1_r. apply N.eqb_eq, H1.
  - rewrite Nat2N.inj_succ, N.pow_succ_r'. rewrite N.mul_assoc, (N.mul_comm e 2).
    apply IH; auto. lia.
Qed.

(* a linear map that kills the 64 basis words kills every 64-bit word *)
Lemma linear_zero (f : N -> N) :
  f 0 = 0 -> (forall u v, f (N.lxor u v) = N.lxor (f u) (f v)) ->
  (forall i, (i < 64)%nat -> f (2 ^ N.of_nat i) = 0) ->
  forall n, (n <= 64)%nat -> forall v, v < 2 ^ N.of_nat n -> f v = 0.
Proof.
  intros F0 FL FB. induction n as [|n IH]; intros Hn v Hv.
  - cbn in Hv. assert (v = 0) as -> by lia. exact F0.
  - destruct (N.lt_ge_cases v (2 ^ N.of_nat n)) as [L|L]; [apply IH; auto; lia|].
    set (w := v - 2 ^ N.of_nat n).
    rewrite Nat2N.inj_succ, N.pow_succ_r' in Hv.
    assert (w < 2 ^ N.of_nat n) as Hw by (unfold w; lia).
    assert (v = N.lxor (2 ^ N.of_nat n) w) as E.
    { replace v with (2 ^ N.of_nat n + w) by (unfold w; lia).
      apply N.add_nocarry_lxor.
      apply N.bits_inj_0; intros i. rewrite N.land_spec, N.pow2_bits_eqb.
      destruct (N.eqb_spec (N.of_nat n) i) as [<-|]; cbn [andb]; auto.
      destruct (N.eq_dec w 0) as [->|W0]; [apply N.bits_0|].
      apply N.bits_above_log2. apply N.log2_lt_pow2; lia. }
    rewrite E, FL, FB by lia. rewrite N.lxor_0_l. apply IH; auto. lia.
Qed.

Lemma charpoly_kills v : lt64 v -> act 65 charpoly v = 0.
Proof.
  intros H. apply (linear_zero (act 65 charpoly)) with (n := 64%nat); auto.
  - intros; apply act_lxor_r.
  - intros i Hi. pose proof (check_basis_spec 64 1 i check_basis_ok Hi) as E.
    rewrite N.mul_1_l in E. exact E.
Qed.

(** ** Arithmetic modulo the characteristic polynomial. *)
Definition xtime (a : N) : N :=
  let a2 := 2 * a in if 18446744073709551616 <=? a2 then N.lxor a2 charpoly else a2.

Lemma xtime_spec a v : lt64 a -> lt64 v ->
  lt64 (xtime a) /\ act 64 (xtime a) v = rng_step (act 64 a v).
Proof.
  unfold lt64. intros Ha Hv. unfold xtime. cbv zeta.
  destruct (N.leb_spec 18446744073709551616 (2 * a)) as [L|L].
  - assert (N.lxor (2 * a) charpoly < 2 ^ 64) as B.
    { set (w := 2 * a - 2 ^ 64).
      assert (w < 2 ^ 64) by (unfold w; lia).
      assert (2 * a = N.lxor (2 ^ 64) w) as E.
      { replace (2 * a) with (2 ^ 64 + w) by (unfold w; lia).
        apply N.add_nocarry_lxor. apply N.bits_inj_0; intros i.
        rewrite N.land_spec, N.pow2_bits_eqb.
        destruct (N.eqb_spec 64 i) as [<-|]; cbn [andb]; auto.
        destruct (N.eq_dec w 0) as [->|W0]; [apply N.bits_0|].
        apply N.bits_above_log2. apply N.log2_lt_pow2; lia. }
      rewrite E. change charpoly with (N.lxor (2 ^ 64) 6956861992246129).
      rewrite lxor_4, N.lxor_nilpotent, N.lxor_0_l. apply lt64_lxor; unfold lt64; lia. }
    split; [exact B|].
    rewrite <- (act_more 64 _ v) by exact B.
    rewrite act_lxor_l, charpoly_kills, N.lxor_0_r by exact Hv.
    rewrite act_double. apply act_step.
  - assert (2 * a < 2 ^ 64) as B by (change (2 ^ 64) with 18446744073709551616; lia).
    split; [exact B|].
    rewrite <- (act_more 64 _ v) by exact B. rewrite act_double. apply act_step.
Qed.

Fixpoint mulmod (n : nat) (a b : N) : N :=
  match n with
  | O => 0
  | S n => N.lxor (if N.odd b then a else 0) (mulmod n (xtime a) (N.div2 b))
  end.

Lemma mulmod_spec n : forall a b v, lt64 a -> lt64 v ->
  lt64 (mulmod n a b) /\ act 64 (mulmod n a b) v = act n b (act 64 a v).
Proof.
  induction n as [|n IH]; intros a b v Ha Hv.
  - split; [unfold lt64; reflexivity|apply act_0_l].
  - destruct (xtime_spec a v Ha Hv) as [X1 X2].
    destruct (IH (xtime a) (N.div2 b) v X1 Hv) as [I1 I2].
    cbn [mulmod]. split.
    + apply lt64_lxor; auto. destruct (N.odd b); auto. unfold lt64; reflexivity.
    + rewrite act_lxor_l, I2, X2. cbn [act]. f_equal.
      destruct (N.odd b); auto.
Qed.

(* x^k modulo the characteristic polynomial *)
Fixpoint powx (k : positive) : N :=
  match k with
  | xH => 2
  | xO k => let h := powx k in mulmod 64 h h
  | xI k => let h := powx k in xtime (mulmod 64 h h)
  end.

Lemma powx_spec k : forall v, lt64 v ->
  lt64 (powx k) /\ act 64 (powx k) v = Pos.iter rng_step v k.
Proof.
  assert (forall v k, lt64 v -> lt64 (Pos.iter rng_step v k)) as IL.
  { intros v k0 H. apply Pos.iter_invariant; auto. intros; apply step_lt64; auto. }
  induction k as [k IH|k IH|]; intros v Hv; cbn [powx Pos.iter]; cbv zeta.
  - destruct (IH v Hv) as [P A].
    destruct (mulmod_spec 64 (powx k) (powx k) v P Hv) as [M1 M2].
    destruct (xtime_spec _ v M1 Hv) as [X1 X2]. split; [exact X1|].
    rewrite X2, M2, A. f_equal. apply IH. apply IL, Hv.
  - destruct (IH v Hv) as [P A].
    destruct (mulmod_spec 64 (powx k) (powx k) v P Hv) as [M1 M2]. split; [exact M1|].
    rewrite M2, A. apply IH. apply IL, Hv.
  - split; [unfold lt64; reflexivity|].
    change 2 with (2 * 1) at 1. rewrite (act_double 63 1 v). apply act_1.
Qed.

(** ** The period *)
Definition PERIOD : positive := 18446744073709551615.

Lemma powx_period : powx PERIOD = 1.
Proof. vm_compute. reflexivity. Qed.

Lemma period_returns v : lt64 v -> Pos.iter rng_step v PERIOD = v.
Proof.
  intros H. destruct (powx_spec PERIOD v H) as [_ A].
  rewrite <- A, powx_period. apply act_1.
Qed.

Definition cofactors : list (positive * positive * N) :=
  [ (3, 6148914691236517205, 6982573358161762488%N);
    (5, 3689348814741910323, 3313899723189181131%N);
    (17, 1085102592571150095, 1016330942154151095%N);
    (257, 71777214294589695, 1816094620514011043%N);
    (641, 28778071877862015, 5969494788886631151%N);
    (65537, 281470681808895, 7936406919433075362%N);
    (6700417, 2753074036095, 8628105096296427465%N) ]%positive.

Definition check_cofactor (c : positive * positive * N) : bool :=
  let '(q, k, s) := c in
  (Pos.mul q k =? PERIOD)%positive && (mulmod 64 (N.lxor (powx k) 1) s =? 1).
Lemma check_cofactors : forallb check_cofactor cofactors = true.
Proof. vm_compute. reflexivity. Qed.

Lemma cofactor_moves q k s v : In (q, k, s) cofactors -> lt64 v -> v <> 0 ->
  (q * k = PERIOD)%positive /\ Pos.iter rng_step v k <> v.
Proof.
  intros Hin Hv Hnz. pose proof check_cofactors as C. rewrite forallb_forall in C.
  specialize (C _ Hin). unfold check_cofactor in C. apply andb_prop in C as [C1 C2].
  apply Pos.eqb_eq in C1. apply N.eqb_eq in C2. split; [exact C1|].
  intros E. destruct (powx_spec k v Hv) as [P A].
  assert (lt64 (N.lxor (powx k) 1)) as LP by (apply lt64_lxor; auto; unfold lt64; reflexivity).
  destruct (mulmod_spec 64 _ s v LP Hv) as [_ M].
  rewrite C2 in M. rewrite act_1 in M. rewrite act_lxor_l, A, E, (act_1 63) in M.
  rewrite N.lxor_nilpotent, act_0_r in M. auto.
Qed.

(** Primality of the seven factors, by trial division. *)
Fixpoint no_divisor (n : nat) (d p : Z) : bool :=
  match n with
  | O => true
  | S n => negb (Z.eqb (Z.modulo p d) 0) && no_divisor n (d + 1) p
  end.

Lemma no_divisor_spec n : forall d p, no_divisor n d p = true ->
  forall e, (d <= e < d + Z.of_nat n)%Z -> ~ (e | p)%Z.
Proof.
  induction n as [|n IH]; intros d p H e He; [lia|].
  cbn [no_divisor] in H. apply andb_prop in H as [H1 H2].
  destruct (Z.eq_dec e d) as [->|].
  - intros D. destruct (Z.eq_dec d 0) as [->|Nz].
    + destruct D as [k K]. rewrite Z.mul_0_r in K. subst. cbn in H1. discriminate.
    + apply Z.mod_divide in D; auto. rewrite D in H1. discriminate.
  - apply (IH (d + 1)%Z p H2). lia.
Qed.

Lemma prime_by_trial p n : (1 < p)%Z -> (p < (Z.of_nat n + 2) * (Z.of_nat n + 2))%Z ->
  no_divisor n 2 p = true -> prime p.
Proof.
  intros H1 H2 H3. apply prime_alt. split; auto.
  intros e He D.
  assert (forall e, (2 <= e < Z.of_nat n + 2)%Z -> ~ (e | p)%Z) as ND.
  { intros e0 He0. apply (no_divisor_spec n 2 p H3). lia. }
  destruct D as [f Hf].
  destruct (Z.lt_ge_cases e (Z.of_nat n + 2)) as [L|L].
  - apply (ND e); [lia|]. exists f; auto.
  - assert (1 < f)%Z by nia. assert (f < Z.of_nat n + 2)%Z by nia.
    apply (ND f); [lia|]. exists e; lia.
Qed.

Lemma primes : forall q k s, In (q, k, s) cofactors -> prime (Zpos q).
Proof.
  intros q k s H. cbn in H.
  repeat destruct H as [H|H]; try contradiction; inversion H; subst;
    first [ solve [apply (prime_by_trial _ 0%nat); vm_compute; reflexivity]
          | solve [apply (prime_by_trial _ 1%nat); vm_compute; reflexivity]
          | solve [apply (prime_by_trial _ 3%nat); vm_compute; reflexivity]
          | solve [apply (prime_by_trial _ 15%nat); vm_compute; reflexivity]
          | solve [apply (prime_by_trial _ 24%nat); vm_compute; reflexivity]
          | solve [apply (prime_by_trial _ 255%nat); vm_compute; reflexivity]
          | solve [apply (prime_by_trial _ 2587%nat); vm_compute; reflexivity] ].
Qed.

Lemma period_factored : Zpos PERIOD = (3 * 5 * 17 * 257 * 641 * 65537 * 6700417)%Z.
Proof. reflexivity. Qed.

Lemma proper_divisor d : (0 < d)%Z -> (d | Zpos PERIOD)%Z -> (d < Zpos PERIOD)%Z ->
  exists q k s, In (q, k, s) cofactors /\ (d | Zpos k)%Z.
Proof.
  intros H0 [e He] Hlt.
  assert (1 < e)%Z by nia.
  destruct (Z_lt_dec 1 e) as [L|]; [|lia].
  (* some listed prime divides e *)
  assert (exists q k s, In (q, k, s) cofactors /\ (Zpos q | e)%Z) as (q & k & s & Hin & Hq).
  { assert (~ (forall q k s, In (q, k, s) cofactors -> rel_prime (Zpos q) e)) as NR.
    { intros R.
      assert (rel_prime (Zpos PERIOD) e) as RP.
      { rewrite period_factored.
        repeat (apply rel_prime_sym; apply rel_prime_mult; apply rel_prime_sym);
          eapply R; cbn; eauto 10. }
      assert (rel_prime e e) as RE.
      { apply rel_prime_sym in RP. apply rel_prime_div with (p := Zpos PERIOD); [apply rel_prime_sym; exact RP|].
        exists d. lia. }
      assert (e = 1 \/ e = -1)%Z.
      { destruct RE as [_ _ RE]. specialize (RE e (Z.divide_refl e) (Z.divide_refl e)).
        apply Z.divide_1_r. exact RE. }
      lia. }
    assert (forall l : list (positive * positive * N), incl l cofactors ->
      (exists q k s, In (q, k, s) l /\ (Zpos q | e)%Z) \/
      (forall q k s, In (q, k, s) l -> rel_prime (Zpos q) e)) as Dec.
    { induction l as [|[[q k] s] l IH]; intros I.
      - right. intros q k s [].
      - destruct IH as [(q' & k' & s' & I' & D')|R]. { intros x Hx; apply I; right; auto. }
        + left. exists q', k', s'. split; auto. right; auto.
        + destruct (Zdivide_dec (Zpos q) e) as [D|D].
          * left. exists q, k, s. split; auto. left; auto.
          * right. intros q' k' s' [E|E].
            -- inversion E; subst. apply prime_rel_prime; auto.
               eapply primes. apply I. left; reflexivity.
            -- eapply R; eauto. }
    destruct (Dec cofactors (incl_refl _)) as [X|X]; [exact X|contradiction]. }
  exists q, k, s. split; auto.
  destruct Hq as [f Hf]. exists f.
  assert (q * k = PERIOD)%positive as Eq.
  { pose proof check_cofactors as C. rewrite forallb_forall in C.
    specialize (C _ Hin). unfold check_cofactor in C. apply andb_prop in C as [C1 _]. apply Pos.eqb_eq, C1. }
  assert (Zpos PERIOD = Zpos q * Zpos k)%Z as Ez by (rewrite <- Pos2Z.inj_mul, Eq; reflexivity).
  rewrite Ez, Hf in He.
  assert (0 < Zpos q)%Z by lia. nia.
Qed.

(** Iteration with integer exponents *)
Definition iterZ (k : Z) (v : N) : N := N.iter (Z.to_N k) rng_step v.

Lemma iterN_add a b v : N.iter (a + b) rng_step v = N.iter a rng_step (N.iter b rng_step v).
Proof. apply N.iter_add. Qed.

Lemma iterN_lt64 k v : lt64 v -> lt64 (N.iter k rng_step v).
Proof.
  intros H. apply N.iter_invariant; auto. intros; apply step_lt64; auto.
Qed.

Lemma iterN_period v : lt64 v -> N.iter (Npos PERIOD) rng_step v = v.
Proof. apply period_returns. Qed.

Lemma iterN_0 v : N.iter 0 rng_step v = v.
Proof. reflexivity. Qed.
Lemma iterN_1 v : N.iter 1 rng_step v = rng_step v.
Proof. reflexivity. Qed.
Lemma iterN_pos p v : Pos.iter rng_step v p = N.iter (Npos p) rng_step v.
Proof. reflexivity. Qed.
#[local] Opaque N.iter.

Lemma iterN_mul_fix a v : N.iter a rng_step v = v -> forall k, N.iter (k * a) rng_step v = v.
Proof.
  intros H k. induction k as [|k IH] using N.peano_ind.
  - apply iterN_0.
  - rewrite N.mul_succ_l, iterN_add, H. exact IH.
Qed.

Lemma step_inj a b : lt64 a -> lt64 b -> rng_step a = rng_step b -> a = b.
Proof.
  intros Ha Hb E.
  assert (forall v, lt64 v -> N.iter (18446744073709551614) rng_step (rng_step v) = v) as I.
  { intros v Hv. pose proof (iterN_add 18446744073709551614 1 v) as E1.
    rewrite iterN_1 in E1. rewrite <- E1. exact (iterN_period v Hv). }
  rewrite <- (I a Ha), <- (I b Hb), E. reflexivity.
Qed.

Lemma iter_inj k a b : lt64 a -> lt64 b -> N.iter k rng_step a = N.iter k rng_step b -> a = b.
Proof.
  induction k as [|k IH] using N.peano_ind; intros Ha Hb E; [rewrite !iterN_0 in E; exact E|].
  rewrite !N.iter_succ in E. apply IH; auto. apply step_inj; auto; apply iterN_lt64; auto.
Qed.

(* Exponents that fix v are closed under gcd *)
Lemma fix_gcd a v : lt64 v -> N.iter a rng_step v = v ->
  N.iter (N.gcd a (Npos PERIOD)) rng_step v = v.
Proof.
  intros Hv Ha.
  assert (forall n a b, b <= n -> N.iter a rng_step v = v -> N.iter b rng_step v = v ->
          N.iter (N.gcd a b) rng_step v = v) as G.
  { induction n as [|n IH] using N.peano_ind; intros a0 b Hb Ea Eb.
    - assert (b = 0) as -> by lia. rewrite N.gcd_0_r. exact Ea.
    - destruct (N.eq_dec b 0) as [->|Nb]; [rewrite N.gcd_0_r; exact Ea|].
      rewrite N.gcd_comm, <- N.gcd_mod by auto. rewrite N.gcd_comm.
      apply IH; auto.
      + pose proof (N.mod_lt a0 b Nb). lia.
      + assert (N.iter (a0 mod b + a0 / b * b) rng_step v = v) as Ea'.
        { replace (a0 mod b + a0 / b * b) with a0; [exact Ea|].
          pose proof (N.div_mod a0 b Nb). lia. }
        rewrite iterN_add in Ea'. rewrite (iterN_mul_fix b v Eb) in Ea'. exact Ea'. }
  exact (G (Npos PERIOD) a (Npos PERIOD) (N.le_refl _) Ha (iterN_period v Hv)).
Qed.

Lemma period_exact v k : lt64 v -> v <> 0 ->
  (N.iter k rng_step v = v <-> N.divide (Npos PERIOD) k).
Proof.
  intros Hv Hnz. split.
  - intros E. pose proof (fix_gcd k v Hv E) as G.
    set (d := N.gcd k (Npos PERIOD)) in *.
    destruct (N.eq_dec d (Npos PERIOD)) as [Ed|Ed].
    + rewrite <- Ed. apply N.gcd_divide_l.
    + exfalso.
      assert (N.divide d (Npos PERIOD)) as Dv by apply N.gcd_divide_r.
      assert (d <> 0) as D0.
      { intros Z0. rewrite Z0 in Dv. apply N.divide_0_l in Dv. discriminate. }
      assert (d < Npos PERIOD) as Dl.
      { apply N.divide_pos_le in Dv; lia. }
      destruct (proper_divisor (Z.of_N d)) as (q & kk & s & Hin & Dk).
      * lia.
      * destruct Dv as [c Hc]. exists (Z.of_N c).
        change (Zpos PERIOD) with (Z.of_N (Npos PERIOD)). rewrite Hc. lia.
      * change (Zpos PERIOD) with (Z.of_N (Npos PERIOD)). lia.
      * destruct (cofactor_moves q kk s v Hin Hv Hnz) as [_ M]. apply M.
        destruct Dk as [c Hc].
        assert (0 <= c)%Z by nia.
        assert (Npos kk = Z.to_N c * d) as Ek.
        { apply N2Z.inj. rewrite N2Z.inj_mul, Z2N.id by auto. cbn [Z.of_N] in *. lia. }
        rewrite iterN_pos, Ek. apply iterN_mul_fix, G.
  - intros [c Hc]. rewrite Hc. apply iterN_mul_fix, iterN_period, Hv.
Qed.

(** States are pairwise distinct within a period *)
Lemma states_distinct v i j : lt64 v -> v <> 0 ->
  i < Npos PERIOD -> j < Npos PERIOD ->
  N.iter i rng_step v = N.iter j rng_step v -> i = j.
Proof.
  assert (forall i j, i <= j -> j < Npos PERIOD -> lt64 v -> v <> 0 ->
    N.iter i rng_step v = N.iter j rng_step v -> i = j) as A.
  { intros a b Hle Hb Hv Hnz E.
    replace b with (a + (b - a)) in E by lia. rewrite iterN_add in E.
    assert (v = N.iter (b - a) rng_step v) as E'.
    { apply (iter_inj a); auto. apply iterN_lt64; auto. }
    symmetry in E'. apply period_exact in E'; auto.
    destruct E' as [c Hc]. destruct (N.eq_dec c 0) as [->|]; [lia|]. nia. }
  intros Hv Hnz Hi Hj E. destruct (N.le_ge_cases i j); [apply A|symmetry; apply A]; auto.
Qed.

Lemma iter_nonzero v k : lt64 v -> v <> 0 -> N.iter k rng_step v <> 0.
Proof.
  intros Hv Hnz E.
  assert (N.iter k rng_step 0 = 0) as Z0.
  { apply N.iter_invariant; auto. intros x ->; reflexivity. }
  apply Hnz. apply (iter_inj k); auto; [unfold lt64; reflexivity|congruence].
Qed.

Lemma NoDup_map_in (f : nat -> N) : forall l, (forall a b, In a l -> In b l -> f a = f b -> a = b) ->
  NoDup l -> NoDup (map f l).
Proof.
  induction l as [|x l IH]; intros I ND; cbn; constructor; inversion ND; subst.
  - intros H. apply in_map_iff in H as (y & E & Hy).
    assert (y = x) by (apply I; [right; auto|left; auto|auto]). subst. auto.
  - apply IH; auto. intros; apply I; auto; right; auto.
Qed.

(** Every nonzero word is visited. *)
Lemma states_cover v w : lt64 v -> v <> 0 -> lt64 w -> w <> 0 ->
  exists i, i < Npos PERIOD /\ N.iter i rng_step v = w.
Proof.
  intros Hv Hnz Hw Hwz.
  remember (N.to_nat (Npos PERIOD)) as n eqn:En.
  set (visited := map (fun i => N.iter (N.of_nat i) rng_step v) (seq 0 n)).
  set (all := map N.of_nat (seq 1 n)).
  assert (NoDup visited) as ND.
  { unfold visited. apply NoDup_map_in; [|apply seq_NoDup].
    intros a b Ha Hb E. apply in_seq in Ha, Hb.
    apply Nat2N.inj. apply (states_distinct v); auto; lia. }
  assert (incl visited all) as IN.
  { intros x Hx. unfold visited in Hx. apply in_map_iff in Hx as (i & Ei & Hi). subst x.
    unfold all. apply in_map_iff.
    exists (N.to_nat (N.iter (N.of_nat i) rng_step v)). rewrite N2Nat.id. split; auto.
    apply in_seq.
    pose proof (iter_nonzero v (N.of_nat i) Hv Hnz).
    pose proof (iterN_lt64 (N.of_nat i) v Hv) as L. unfold lt64 in L.
    change (2 ^ 64) with (Npos PERIOD + 1) in L. lia. }
  assert (incl all visited) as IN2.
  { apply NoDup_length_incl; auto. unfold all, visited. rewrite !map_length, !seq_length. auto. }
  assert (In w all) as Hin.
  { unfold all. apply in_map_iff. exists (N.to_nat w). rewrite N2Nat.id. split; auto.
    apply in_seq. unfold lt64 in Hw. change (2 ^ 64) with (Npos PERIOD + 1) in Hw. lia. }
  apply IN2 in Hin. unfold visited in Hin. apply in_map_iff in Hin as (i & Ei & Hi).
  apply in_seq in Hi. exists (N.of_nat i). split; [lia|exact Ei].
Qed.

(** ** Output words *)
Definition mult_inv : N := 6415128727920758069.
Lemma mult_inv_ok : (rng_mult * mult_inv) mod 2 ^ 64 = 1.
Proof. vm_compute. reflexivity. Qed.

Lemma output_inv x : lt64 x -> (rng_output x * mult_inv) mod 2 ^ 64 = x.
Proof.
  intros H. unfold rng_output. rewrite N.mul_mod_idemp_l by discriminate.
  rewrite <- N.mul_assoc. rewrite <- N.mul_mod_idemp_r by discriminate.
  rewrite mult_inv_ok, N.mul_1_r. apply N.mod_small, H.
Qed.

Lemma output_lt64 x : lt64 (rng_output x).
Proof. apply N.mod_lt. discriminate. Qed.

Lemma output_inj a b : lt64 a -> lt64 b -> rng_output a = rng_output b -> a = b.
Proof. intros Ha Hb E. rewrite <- (output_inv a Ha), <- (output_inv b Hb), E. reflexivity. Qed.

Lemma output_surj y : lt64 y -> exists x, lt64 x /\ rng_output x = y.
Proof.
  intros H. exists ((y * mult_inv) mod 2 ^ 64). split; [apply N.mod_lt; discriminate|].
  unfold rng_output. rewrite N.mul_mod_idemp_l by discriminate.
  rewrite <- N.mul_assoc, (N.mul_comm mult_inv). rewrite <- N.mul_mod_idemp_r by discriminate.
  rewrite mult_inv_ok, N.mul_1_r. apply N.mod_small, H.
Qed.

Lemma rng_new_ok seed : lt64 seed -> lt64 (rng_new seed) /\ rng_new seed <> 0.
Proof.
  intros H. unfold rng_new. destruct (N.eqb_spec seed 0); split; auto; try discriminate.
  unfold lt64. reflexivity.
Qed.
