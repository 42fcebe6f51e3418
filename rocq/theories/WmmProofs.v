(** The tables and sums of the code against the specification. *)
From Coq Require Import Reals Lra Psatz List Arith Lia Bool.
From Coquelicot Require Import Coquelicot.
From Verif Require Import Scalar RSum Trig Geo3 Wgs84Model WmmModel WmmSpec WmmLegendre.
Local Open Scope R_scope.

(** unnormalised function with sine s and cosine c *)
Definition T (s c : R) (n m : nat) : R := c ^ m * LD n m s.

Lemma diag_ok nmax s c : forall n m, legendre_diag nmax c (upd2 (fun _ _ => 0) 0 0 1) n m
  = if (n =? m)%nat && (n <=? nmax)%nat then T s c n m else 0.
Proof.
  unfold legendre_diag.
  enough (G : forall n m, for_ 1 (nmax + 1) (fun order p => upd2 p order order (INR (2 * order - 1) * c * p (order - 1)%nat (order - 1)%nat)) (upd2 (fun _ _ => 0) 0 0 1) n m
     = if (n =? m)%nat && (n <? nmax + 1)%nat then T s c n m else 0).
  { intros n m. rewrite G. replace (n <? nmax + 1)%nat with (n <=? nmax)%nat; auto.
    destruct (Nat.leb_spec n nmax), (Nat.ltb_spec n (nmax + 1)); auto; lia. }
  apply (for_ind (fun k p => forall n m, p n m = if (n =? m)%nat && (n <? k)%nat then T s c n m else 0)); [lia| |].
  - intros n m. destruct n as [|n].
    + destruct m as [|m]; cbn; [unfold T; cbn; ring|reflexivity].
    + rewrite upd2_other by lia. replace (S n <? 1)%nat with false by (symmetry; apply Nat.ltb_ge; lia).
      rewrite andb_false_r. reflexivity.
  - intros i p Hi IH n m. unfold upd2. destruct (Nat.eqb_spec n i); cbn [andb].
    + subst n. destruct (Nat.eqb_spec m i).
      * subst m. rewrite Nat.eqb_refl. replace (i <? S i)%nat with true by (symmetry; apply Nat.ltb_lt; lia). cbn [andb].
        rewrite IH, Nat.eqb_refl. replace (i - 1 <? i)%nat with true by (symmetry; apply Nat.ltb_lt; lia). cbn [andb].
        destruct i as [|i]; [lia|]. replace (S i - 1)%nat with i by lia. unfold T. rewrite LD_diag.
        replace (2 * S i - 1)%nat with (2 * i + 1)%nat by lia. rewrite plus_INR, mult_INR. cbn [pow INR]. ring.
      * rewrite IH. replace (i =? m)%nat with false by (symmetry; apply Nat.eqb_neq; lia). reflexivity.
    + rewrite IH. destruct (Nat.eqb_spec n m); cbn [andb]; auto.
      replace (n <? S i)%nat with (n <? i)%nat; auto.
      destruct (Nat.ltb_spec n i), (Nat.ltb_spec n (S i)); auto; lia.
Qed.

Lemma off_ok nmax s c n m : (m <= n <= nmax)%nat -> (n <= m + 1)%nat ->
  legendre_off nmax s (legendre_diag nmax c (upd2 (fun _ _ => 0) 0 0 1)) n m = T s c n m.
Proof.
  intros H1 H2. unfold legendre_off.
  assert (G : forall a b, (b <= a <= nmax)%nat -> (a <= b + 1)%nat -> (a = b \/ b < nmax)%nat ->
    for_ 0 nmax (fun order p => upd2 p (order + 1) order (INR (2 * order + 1) * s * p order order)) (legendre_diag nmax c (upd2 (fun _ _ => 0) 0 0 1)) a b = T s c a b).
  { apply (for_ind (fun k p => forall a b, (b <= a <= nmax)%nat -> (a <= b + 1)%nat -> (a = b \/ b < k)%nat -> p a b = T s c a b)); [lia| |].
    - intros a b Ha Hb [->|Hc]; [|lia]. rewrite (diag_ok nmax s), Nat.eqb_refl.
      replace (b <=? nmax)%nat with true by (symmetry; apply Nat.leb_le; lia). reflexivity.
    - intros i p Hi IH a b Ha Hb Hc. unfold upd2.
      destruct (Nat.eqb_spec a (i + 1)); cbn [andb]; [destruct (Nat.eqb_spec b i)|].
      + subst. rewrite (IH i i) by lia. unfold T. replace (i + 1)%nat with (S i) by lia. rewrite LD_off, plus_INR, mult_INR. cbn [INR]. ring.
      + apply IH; lia.
      + apply IH; lia. }
  apply G; lia.
Qed.

Lemma legendre_p_ok nmax s c n m : (m <= n <= nmax)%nat -> legendre_p nmax s c n m = T s c n m.
Proof.
  intros H. unfold legendre_p, legendre_rest.
  assert (G : forall a b, (b <= a <= nmax)%nat -> (a <= b + 1 \/ b < nmax + 1)%nat ->
    for_ 0 (nmax + 1) (fun order p =>
    for_ (order + 2) (nmax + 1) (fun degree p =>
      upd2 p degree order ((INR (2 * degree - 1) * s * p (degree - 1)%nat order
                            - INR (degree + order - 1) * p (degree - 2)%nat order)
                           / INR (degree - order))) p) (legendre_off nmax s (legendre_diag nmax c (upd2 (fun _ _ => 0) 0 0 1))) a b = T s c a b).
  { apply (for_ind (fun k p => forall a b, (b <= a <= nmax)%nat -> (a <= b + 1 \/ b < k)%nat -> p a b = T s c a b)); [lia| |].
    - intros a b Ha [Hb|Hb]; [|lia]. apply off_ok; lia.
    - intros i p Hi IH a b Ha Hb.
      destruct (le_lt_dec (nmax + 1) (i + 2)) as [Hs|Hs].
      + rewrite for_empty by lia. apply IH; lia.
      + assert (G : forall a b, (b <= a <= nmax)%nat -> (a <= b + 1 \/ b < i \/ (b = i /\ a < nmax + 1))%nat ->
          for_ (i + 2) (nmax + 1) (fun degree p =>
      upd2 p degree i ((INR (2 * degree - 1) * s * p (degree - 1)%nat i
                            - INR (degree + i - 1) * p (degree - 2)%nat i)
                           / INR (degree - i))) p a b = T s c a b).
        { apply (for_ind (fun k p => forall a b, (b <= a <= nmax)%nat -> (a <= b + 1 \/ b < i \/ (b = i /\ a < k))%nat -> p a b = T s c a b)); [lia| |].
          - intros a' b' Ha' Hb'. apply IH; lia.
          - intros d q Hd IH' a' b' Ha' Hb'. unfold upd2.
            destruct (Nat.eqb_spec a' d); cbn [andb]; [destruct (Nat.eqb_spec b' i)|].
            + subst. rewrite !IH' by lia. destruct d as [|[|d]]; [lia|lia|].
              replace (S (S d) - 1)%nat with (S d) by lia. replace (S (S d) - 2)%nat with d by lia.
              replace (2 * S (S d) - 1)%nat with (2 * d + 3)%nat by lia. replace (S (S d) + i - 1)%nat with (d + i + 1)%nat by lia.
              rewrite minus_INR by lia. pose proof (LD_three d i s) as L.
              assert (Nz : INR (S (S d)) - INR i <> 0) by (rewrite <- minus_INR by lia; apply INR_nz; lia).
              apply (Rmult_eq_reg_r (INR (S (S d)) - INR i)); auto. unfold Rdiv. rewrite Rmult_assoc, Rinv_l, Rmult_1_r by auto.
              rewrite !plus_INR, mult_INR, !S_INR. unfold T. cbn [INR].
              replace (c ^ i * LD (S (S d)) i s * (INR d + 1 + 1 - INR i)) with (c ^ i * ((INR d + 2 - INR i) * LD (S (S d)) i s)) by ring.
              rewrite L. ring.
            + apply IH'; lia.
            + apply IH'; lia. }
        apply G; lia. }
  apply G; lia.
Qed.

Lemma schmidt_ok n m : (m <= n)%nat -> schmidt_factor n m = schmidt n m.
Proof.
  intros H. unfold schmidt_factor, schmidt. destruct m as [|m]; auto. f_equal.
  assert (F : forall k, INR (fact k) <> 0) by (intros; apply INR_fact_neq_0).
  assert (G : for_ (n - S m + 1) (n + S m + 1) (fun value ratio => ratio / INR value) 2
     = 2 * INR (fact (n - S m)) / INR (fact (n + S m + 1 - 1))).
  { apply (for_ind (fun k r => r = 2 * INR (fact (n - S m)) / INR (fact (k - 1)))); [lia| |].
    - replace (n - S m + 1 - 1)%nat with (n - S m)%nat by lia. field. auto.
    - intros i r Hi ->. destruct i as [|i]; [lia|]. replace (S i - 1)%nat with i by lia. replace (S (S i) - 1)%nat with (S i) by lia.
      rewrite fact_simpl, mult_INR. field. split; auto. apply INR_nz. lia. }
  rewrite G. do 3 f_equal. lia.
Qed.

Definition dT (s c : R) (n m : nat) : R :=
  if Rleb (Rabs c) pole_eps then 0
  else c * ((INR n * s * T s c n m - INR (n + m) * (if ((0 <? n) && (m <? n))%nat then T s c (n - 1) m else 0)) / (s * s - 1)).

Lemma tables_ok nmax s c n m : (m <= n <= nmax)%nat ->
  fst (schmidt_semi_normalized_legendre nmax s c) n m = schmidt n m * T s c n m /\
  snd (schmidt_semi_normalized_legendre nmax s c) n m = schmidt n m * dT s c n m.
Proof.
  intros H. unfold schmidt_semi_normalized_legendre. set (p := legendre_p nmax s c).
  set (P := fun (k : nat) (a b : nat) (st : (nat -> nat -> R) * (nat -> nat -> R)) =>
    fst st a b = schmidt a b * T s c a b /\ snd st a b = schmidt a b * dT s c a b).
  enough (G : forall a b, (b <= a <= nmax)%nat -> (a < nmax + 1)%nat -> P 0%nat a b
   (for_ 0 (nmax + 1) (fun degree st =>
    for_ 0 (degree + 1) (fun order st =>
      let '(p_bar, dp_bar) := st in
      let schmidt := schmidt_factor degree order in
      let p_bar := upd2 p_bar degree order (schmidt * p degree order) in
      let previous := if ((0 <? degree) && (order <? degree))%nat then p (degree - 1)%nat order else 0 in
      let derivative_wrt_x :=
        if Rleb (Rabs c) pole_eps then 0
        else (INR degree * s * p degree order - INR (degree + order) * previous) / (s * s - 1) in
      (p_bar, upd2 dp_bar degree order (schmidt * c * derivative_wrt_x))) st)
    (fun _ _ => 0, fun _ _ => 0))).
  { apply (G n m); lia. }
  apply (for_ind (fun k st => forall a b, (b <= a <= nmax)%nat -> (a < k)%nat -> P 0%nat a b st)); [lia|intros; lia|].
  intros i st Hi IH.
  enough (G : forall a b, (b <= a <= nmax)%nat -> (a < i \/ a = i /\ b < i + 1)%nat -> P 0%nat a b
   (for_ 0 (i + 1) (fun order st =>
      let '(p_bar, dp_bar) := st in
      let schmidt := schmidt_factor i order in
      let p_bar := upd2 p_bar i order (schmidt * p i order) in
      let previous := if ((0 <? i) && (order <? i))%nat then p (i - 1)%nat order else 0 in
      let derivative_wrt_x :=
        if Rleb (Rabs c) pole_eps then 0
        else (INR i * s * p i order - INR (i + order) * previous) / (s * s - 1) in
      (p_bar, upd2 dp_bar i order (schmidt * c * derivative_wrt_x))) st)).
  { intros a b Ha Hb. apply G; lia. }
  apply (for_ind (fun k st => forall a b, (b <= a <= nmax)%nat -> (a < i \/ a = i /\ b < k)%nat -> P 0%nat a b st)); [lia|intros; apply IH; lia|].
  intros j [pb dpb] Hj IHj a b Ha Hb. unfold P. cbn [fst snd].
  destruct (Nat.eq_dec a i) as [->|Na]; [destruct (Nat.eq_dec b j) as [->|Nb]|].
  - rewrite !upd2_same. rewrite schmidt_ok by lia. unfold p. rewrite legendre_p_ok by lia. split; auto.
    unfold dT. destruct (Rleb (Rabs c) pole_eps); [ring|].
    destruct (Nat.ltb_spec 0 i), (Nat.ltb_spec j i); cbn [andb]; rewrite ?legendre_p_ok by lia; ring.
  - rewrite !upd2_other by lia. apply IHj; lia.
  - rewrite !upd2_other by lia. apply IHj; lia.
Qed.

Lemma T_assoc n m phi : T (sin phi) (cos phi) n m = assoc_legendre n m phi.
Proof. unfold T, assoc_legendre. rewrite LD_Derive_n. reflexivity. Qed.

Lemma pole_eps_pos : 0 < pole_eps.
Proof. unfold pole_eps. apply Rinv_0_lt_compat. apply pow_lt. lra. Qed.

Lemma assoc_derive n m phi : pole_eps < Rabs (cos phi) ->
  is_derive (fun phi => assoc_legendre n m phi) phi (dT (sin phi) (cos phi) n m).
Proof.
  intros Hc. apply (is_derive_ext (fun phi => cos phi ^ m * LD n m (sin phi))).
  { intros t. rewrite <- T_assoc. reflexivity. }
  assert (Nc : cos phi <> 0). { intros E. rewrite E, Rabs_R0 in Hc. pose proof pole_eps_pos. lra. }
  assert (D : is_derive (fun phi => cos phi ^ m * LD n m (sin phi)) phi
     (INR m * - sin phi * cos phi ^ pred m * LD n m (sin phi) + cos phi ^ m * (cos phi * LD n (S m) (sin phi)))).
  { apply (is_derive_mult (fun phi => cos phi ^ m) (fun phi => LD n m (sin phi))); [| |intros; apply Rmult_comm].
    - apply is_derive_pow. apply is_derive_cos.
    - apply (is_derive_comp (LD n m) sin). apply LD_derive. apply is_derive_sin. }
  eapply is_derive_eq; [exact D|]. clear D.
  unfold dT. destruct (Rleb (Rabs (cos phi)) pole_eps) eqn:L; [apply Rleb_true in L; lra|].
  assert (S1 : sin phi * sin phi - 1 = - (cos phi * cos phi)) by (pose proof (sincos2 phi); lra).
  assert (Nz : sin phi * sin phi - 1 <> 0) by (rewrite S1; nra).
  assert (K : INR n * sin phi * T (sin phi) (cos phi) n m
      - INR (n + m) * (if ((0 <? n) && (m <? n))%nat then T (sin phi) (cos phi) (n - 1) m else 0)
    = cos phi ^ m * ((sin phi * sin phi - 1) * LD n (S m) (sin phi) + INR m * sin phi * LD n m (sin phi))).
  { destruct n as [|n].
    - cbn [Nat.ltb Nat.leb andb]. rewrite (LD_zero 0 (S m)) by lia. destruct m; [cbn; ring|].
      unfold T. rewrite (LD_zero 0 (S m)) by lia. ring.
    - rewrite LD_slope. replace (S n - 1)%nat with n by lia. cbn [Nat.ltb Nat.leb].
      unfold T. rewrite plus_INR, S_INR.
      replace (if (true && (m <=? n))%nat then cos phi ^ m * LD n m (sin phi) else 0) with (cos phi ^ m * LD n m (sin phi)).
      + ring.
      + cbn [andb]. destruct (Nat.leb_spec m n); auto. rewrite LD_zero by lia. ring. }
  rewrite K. replace (cos phi * (cos phi ^ m * ((sin phi * sin phi - 1) * LD n (S m) (sin phi) + INR m * sin phi * LD n m (sin phi)) / (sin phi * sin phi - 1)))
    with (cos phi * cos phi ^ m * LD n (S m) (sin phi) + INR m * sin phi * LD n m (sin phi) * (cos phi * cos phi ^ m / (sin phi * sin phi - 1))) by (field; auto).
  destruct m as [|m].
  - cbn [INR pow]. ring.
  - replace (cos phi * cos phi ^ S m / (sin phi * sin phi - 1)) with (- cos phi ^ m).
    + cbn [pred]. ring.
    + rewrite S1. cbn [pow]. field. auto.
Qed.

Lemma longitude_ok nmax lam m : (m <= nmax)%nat ->
  fst (longitude_harmonics nmax lam) m = cos (INR m * lam) /\ snd (longitude_harmonics nmax lam) m = sin (INR m * lam).
Proof.
  intros H. unfold longitude_harmonics.
  set (P := fun (a : nat) (st : (nat -> R) * (nat -> R)) => fst st a = cos (INR a * lam) /\ snd st a = sin (INR a * lam)).
  enough (G : forall a, (a <= nmax)%nat -> (a < nmax + 1)%nat -> P a (for_ 1 (nmax + 1) (fun order st =>
    let '(c, s) := st in
    (upd c order (c (order - 1)%nat * cos lam - s (order - 1)%nat * sin lam),
     upd s order (s (order - 1)%nat * cos lam + c (order - 1)%nat * sin lam)))
    (upd (fun _ => 0) 0%nat 1, fun _ => 0))) by (apply G; lia).
  apply (for_ind (fun k st => forall a, (a <= nmax)%nat -> (a < k)%nat -> P a st)); [lia| |].
  - intros a _ Ha. replace a with 0%nat by lia. unfold P. cbn. rewrite Rmult_0_l, cos_0, sin_0. auto.
  - intros i [c s] Hi IH a Ha Hb. unfold P. cbn [fst snd].
    destruct (Nat.eq_dec a i) as [->|Na].
    + rewrite !upd_same. destruct (IH (i - 1)%nat ltac:(lia) ltac:(lia)) as [Ec Es]. cbn [fst snd] in Ec, Es. rewrite Ec, Es.
      assert (E : INR i * lam = INR (i - 1) * lam + lam) by (rewrite minus_INR by lia; cbn [INR]; ring).
      rewrite E, cos_plus, sin_plus. split; ring.
    + rewrite !upd_other by auto. apply (IH a); lia.
Qed.

(** a double sum over degrees 1..N with the radial scale *)
Definition hsum (N : nat) (q : R) (t : nat -> nat -> R) : R :=
  sum N (fun i => q ^ (i + 3) * sum (i + 2) (t (S i))).
Definition comb (co : coeffs) (cm sm : nat -> R) (n m : nat) := co_g co n m * cm m + co_h co n m * sm m.
Definition combd (co : coeffs) (cm sm : nat -> R) (n m : nat) := co_gd co n m * cm m + co_hd co n m * sm m.
Definition azim (co : coeffs) (cm sm : nat -> R) (n m : nat) := INR m * (co_g co n m * sm m - co_h co n m * cm m).
Definition azimd (co : coeffs) (cm sm : nat -> R) (n m : nat) := INR m * (co_gd co n m * sm m - co_hd co n m * cm m).

Definition acc_of (co : coeffs) (r c : R) (pb dpb : nat -> nat -> R) (cm sm : nat -> R) (N : nat) : acc :=
  let q := wmm_reference_radius_m / r in
  mkAcc (- hsum N q (fun n m => comb co cm sm n m * dpb n m))
        (hsum N q (fun n m => azim co cm sm n m * pb n m / c))
        (- hsum N q (fun n m => (INR n + 1) * comb co cm sm n m * pb n m))
        (- hsum N q (fun n m => combd co cm sm n m * dpb n m))
        (hsum N q (fun n m => azimd co cm sm n m * pb n m / c))
        (- hsum N q (fun n m => (INR n + 1) * combd co cm sm n m * pb n m)).

Lemma acc_eq a b : a_x a = a_x b -> a_y a = a_y b -> a_z a = a_z b -> a_xd a = a_xd b -> a_yd a = a_yd b -> a_zd a = a_zd b -> a = b.
Proof. destruct a, b; cbn; intros; subst; reflexivity. Qed.

Lemma inner_ok co r c pb dpb cm sm n st :
  for_ 0 (n + 1) (fun order st =>
      let g := co_g co n order in
      let h := co_h co n order in
      let g_dot := co_gd co n order in
      let h_dot := co_hd co n order in
      let combined := g * cm order + h * sm order in
      let combined_dot := g_dot * cm order + h_dot * sm order in
      let azimuthal := INR order * (g * sm order - h * cm order) in
      let azimuthal_dot := INR order * (g_dot * sm order - h_dot * cm order) in
      mkAcc (a_x st - r * combined * dpb n order)
            (a_y st + r * azimuthal * pb n order / c)
            (a_z st - r * (INR n + 1) * combined * pb n order)
            (a_xd st - r * combined_dot * dpb n order)
            (a_yd st + r * azimuthal_dot * pb n order / c)
            (a_zd st - r * (INR n + 1) * combined_dot * pb n order)) st
  = mkAcc (a_x st - r * sum (n + 1) (fun m => comb co cm sm n m * dpb n m))
          (a_y st + r * sum (n + 1) (fun m => azim co cm sm n m * pb n m / c))
          (a_z st - r * sum (n + 1) (fun m => (INR n + 1) * comb co cm sm n m * pb n m))
          (a_xd st - r * sum (n + 1) (fun m => combd co cm sm n m * dpb n m))
          (a_yd st + r * sum (n + 1) (fun m => azimd co cm sm n m * pb n m / c))
          (a_zd st - r * sum (n + 1) (fun m => (INR n + 1) * combd co cm sm n m * pb n m)).
Proof.
  generalize (n + 1)%nat as k. induction k.
  - rewrite for_empty by lia. cbn [sum]. apply acc_eq; cbn; ring.
  - rewrite for_S by lia. rewrite IHk. cbn [sum a_x a_y a_z a_xd a_yd a_zd].
    apply acc_eq; cbn [a_x a_y a_z a_xd a_yd a_zd]; unfold comb, combd, azim, azimd; unfold Rdiv; ring.
Qed.

Lemma harmonic_ok co r c pb dpb cm sm : (c_max co <= wmm_max_degree)%nat ->
  harmonic_sum co r c pb dpb cm sm = Some (acc_of co r c pb dpb cm sm (c_max co)).
Proof.
  intros H. unfold harmonic_sum.
  edestruct (forM_ind (fun k st => st = acc_of co r c pb dpb cm sm (k - 1)) 1 (c_max co + 1)) as (st & E & Hst).
  4: { rewrite E, Hst. do 2 f_equal. lia. }
  - lia.
  - apply acc_eq; unfold acc_of, hsum; cbn; ring.
  - intros i st Hi ->. replace (wmm_max_degree <? i)%nat with false by (symmetry; apply Nat.ltb_ge; lia).
    eexists. split; [reflexivity|]. rewrite inner_ok.
    destruct i as [|i]; [lia|]. replace (S i - 1)%nat with i by lia. replace (S (S i) - 1)%nat with (S i) by lia.
    unfold acc_of, hsum. cbn [sum a_x a_y a_z a_xd a_yd a_zd].
    replace (S i + 2)%nat with (i + 3)%nat by lia. replace (S i + 1)%nat with (i + 2)%nat by lia.
    apply acc_eq; cbn [a_x a_y a_z a_xd a_yd a_zd]; ring.
Qed.

Lemma harmonic_none co r c pb dpb cm sm : (wmm_max_degree < c_max co)%nat -> harmonic_sum co r c pb dpb cm sm = None.
Proof.
  intros H. destruct (harmonic_sum co r c pb dpb cm sm) as [a|] eqn:E; auto. exfalso.
  unfold harmonic_sum in E.
  revert E. intros E. eapply (forM_some_ind (fun k _ => (k <= wmm_max_degree + 1)%nat)) in E; [|lia|cbn; lia|].
  - cbn beta in E. lia.
  - intros i s s' Hi Hk Hs. cbn beta in Hs. destruct (Nat.ltb_spec wmm_max_degree i); [discriminate|]. lia.
Qed.
