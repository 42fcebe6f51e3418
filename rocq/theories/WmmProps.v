(** Magnetic model: C63, C64, C65 and C92. *)
From Coq Require Import Reals Lra Psatz List Arith Lia Bool ZArith.
From Coquelicot Require Import Coquelicot.
From Verif Require Import Scalar RSum Trig Geo3 Wgs84Model WmmModel WmmData WmmSpec WmmLegendre WmmProofs.
Local Open Scope R_scope.

(** * C65 *)
Theorem C65_legendre nmax phi n m : (m <= n <= nmax)%nat ->
  fst (schmidt_semi_normalized_legendre nmax (sin phi) (cos phi)) n m = schmidt_legendre n m phi.
Proof. intros H. rewrite (proj1 (tables_ok nmax _ _ n m H)), T_assoc. reflexivity. Qed.

Theorem C65_derivative nmax phi n m : (m <= n <= nmax)%nat -> pole_eps < Rabs (cos phi) ->
  is_derive (schmidt_legendre n m) phi (snd (schmidt_semi_normalized_legendre nmax (sin phi) (cos phi)) n m).
Proof.
  intros H Hc. rewrite (proj2 (tables_ok nmax _ _ n m H)).
  apply (is_derive_scal (fun phi => assoc_legendre n m phi)), assoc_derive; auto.
Qed.

Theorem C65_longitude nmax lam m : (m <= nmax)%nat ->
  fst (longitude_harmonics nmax lam) m = cos (INR m * lam) /\ snd (longitude_harmonics nmax lam) m = sin (INR m * lam).
Proof. apply longitude_ok. Qed.

(** the functions really are the textbook ones: P_2^1 = sqrt 3 sin cos, and the hypotheses are met *)
Example C65_nontrivial phi : schmidt_legendre 2 1 phi = sqrt 3 * (sin phi * cos phi) /\ pole_eps < Rabs (cos 0).
Proof.
  split.
  - unfold schmidt_legendre, assoc_legendre. rewrite LD_Derive_n. unfold schmidt.
    replace (2 * INR (fact (2 - 1)) / INR (fact (2 + 1))) with (/ 3) by (cbn; field).
    rewrite sqrt_inv by lra. cbn [LD Nat.sub Nat.mul Nat.add INR pow].
    assert (S3 : sqrt 3 * sqrt 3 = 3) by (apply sqrt_sqrt; lra). assert (0 < sqrt 3) by (apply sqrt_lt_R0; lra).
    replace (sqrt 3 * (sin phi * cos phi)) with (/ sqrt 3 * (sqrt 3 * sqrt 3) * (sin phi * cos phi)) by (field; lra).
    rewrite S3. field. lra.
  - rewrite cos_0, Rabs_R1. unfold pole_eps. apply Rmult_lt_reg_r with (10 ^ 12); [apply pow_lt; lra|].
    rewrite Rinv_l by (apply pow_nonzero; lra). lra.
Qed.

(** * C63 *)
Lemma tri_index_lt d d' o o' : (o <= d)%nat -> (d < d')%nat -> (tri_index d o < tri_index d' o')%nat.
Proof.
  intros Ho Hd. unfold tri_index.
  assert (A : (d * (d + 1) / 2 + d + 1 <= d' * (d' + 1) / 2)%nat).
  { replace (d * (d + 1) / 2 + d + 1)%nat with ((d + 1) * (d + 2) / 2)%nat.
    - apply Nat.div_le_mono; nia.
    - replace ((d + 1) * (d + 2))%nat with (d * (d + 1) + (d + 1) * 2)%nat by ring. rewrite Nat.div_add; lia. }
  lia.
Qed.

Theorem C63_slots d o d' o' : (o <= d <= wmm_max_degree)%nat -> (o' <= d')%nat ->
  (tri_index d o < wmm_triangular_count)%nat /\ (tri_index d o = tri_index d' o' -> d = d' /\ o = o').
Proof.
  intros H H'. split.
  - unfold tri_index, wmm_triangular_count, wmm_max_degree in *.
    assert (d * (d + 1) / 2 <= 12 * (12 + 1) / 2)%nat by (apply Nat.div_le_mono; nia).
    destruct (Nat.eq_dec d 12) as [->|].
    + change (12 * (12 + 1) / 2)%nat with 78%nat. lia.
    + assert (d * (d + 1) / 2 <= 11 * (11 + 1) / 2)%nat by (apply Nat.div_le_mono; nia).
      change (11 * (11 + 1) / 2)%nat with 66%nat in *. lia.
  - intros E. destruct (Nat.lt_trichotomy d d') as [L|[->|L]].
    + pose proof (tri_index_lt d d' o o' ltac:(lia) L). lia.
    + split; auto. unfold tri_index in E. lia.
    + pose proof (tri_index_lt d' d o' o ltac:(lia) L). lia.
Qed.

(** writing one coefficient changes that one and no other; reads outside the triangle give 0 *)
Theorem C63_write t d o v : (o <= d <= wmm_max_degree)%nat ->
  exists t', tri_set t d o v = Some t' /\ tri_get t' d o = v /\
    (forall d' o', (d', o') <> (d, o) -> tri_get t' d' o' = tri_get t d' o') /\
    (forall d' o', (wmm_max_degree < d' \/ d' < o')%nat -> tri_get t' d' o' = 0).
Proof.
  intros H. unfold tri_set. destruct (C63_slots d o d o H ltac:(lia)) as [L _].
  replace (tri_index d o <? wmm_triangular_count)%nat with true by (symmetry; apply Nat.ltb_lt; auto).
  eexists. split; [reflexivity|]. unfold tri_get. split; [|split].
  - replace ((wmm_max_degree <? d)%nat || (d <? o)%nat) with false.
    + apply upd_same.
    + symmetry. apply orb_false_iff. split; apply Nat.ltb_ge; lia.
  - intros d' o' Hn. destruct (Nat.ltb_spec wmm_max_degree d'); auto. destruct (Nat.ltb_spec d' o'); auto.
    cbn [orb]. apply upd_other. intros E. destruct (C63_slots d o d' o' H ltac:(lia)) as [_ I].
    destruct (I (eq_sym E)); subst. auto.
  - intros d' o' [Hd|Hd]; [|destruct (Nat.ltb_spec wmm_max_degree d'); auto]; rewrite (proj2 (Nat.ltb_lt _ _) Hd); auto.
Qed.

Lemma set_records_ok delta (Tg Th Tgd Thd : table) : forall l g h,
  (forall r, In r l -> (r_order r <= r_degree r <= wmm_max_degree)%nat /\
     tri_get Tg (r_degree r) (r_order r) = r_g r /\ tri_get Th (r_degree r) (r_order r) = r_h r /\
     tri_get Tgd (r_degree r) (r_order r) = r_gdot r /\ tri_get Thd (r_degree r) (r_order r) = r_hdot r) ->
  exists g' h', set_records delta l g h = Some (g', h') /\
    forall n k, ((exists r, In r l /\ r_degree r = n /\ r_order r = k) \/
       (tri_get g n k = tri_get Tg n k + delta * tri_get Tgd n k /\ tri_get h n k = tri_get Th n k + delta * tri_get Thd n k)) ->
      tri_get g' n k = tri_get Tg n k + delta * tri_get Tgd n k /\ tri_get h' n k = tri_get Th n k + delta * tri_get Thd n k.
Proof.
  induction l as [|r l IH]; intros g h H.
  - exists g, h. split; auto. intros n k [(r & [] & _)|E]; auto.
  - cbn [set_records]. destruct (H r (or_introl eq_refl)) as (Hd & Eg & Eh & Egd & Ehd).
    destruct (C63_write g (r_degree r) (r_order r) (r_g r + delta * r_gdot r) Hd) as (g1 & E1 & V1 & O1 & _).
    destruct (C63_write h (r_degree r) (r_order r) (r_h r + delta * r_hdot r) Hd) as (h1 & E2 & V2 & O2 & _).
    rewrite E1, E2. destruct (IH g1 h1) as (g' & h' & E & Hl); [intros; apply H; right; auto|].
    exists g', h'. split; auto. intros n k Hn. apply Hl.
    destruct (Nat.eq_dec n (r_degree r)) as [->|Nn]; [destruct (Nat.eq_dec k (r_order r)) as [->|Nk]|].
    + right. rewrite V1, V2, Eg, Eh, Egd, Ehd. auto.
    + destruct Hn as [(r' & [->|I] & E3 & E4)|Hn]; [congruence|left; eauto|right].
      rewrite O1, O2 by congruence. auto.
    + destruct Hn as [(r' & [->|I] & E3 & E4)|Hn]; [congruence|left; eauto|right].
      rewrite O1, O2 by congruence. auto.
Qed.

Theorem C63_linear m t : well_formed m -> exists co, coefficients_at m t = Some co /\
  c_year co = t /\ c_max co = m_max m /\
  (forall n k, (1 <= n)%nat -> co_g co n k = tri_get (m_g m) n k + (t - m_epoch m) * co_gd co n k /\
                               co_h co n k = tri_get (m_h m) n k + (t - m_epoch m) * co_hd co n k) /\
  (forall n k, co_gd co n k = tri_get (m_gd m) n k /\ co_hd co n k = tri_get (m_hd m) n k) /\
  (forall n k, (wmm_max_degree < n \/ n < k)%nat -> co_g co n k = 0 /\ co_h co n k = 0 /\ co_gd co n k = 0 /\ co_hd co n k = 0).
Proof.
  intros (_ & HR & HC). unfold coefficients_at.
  destruct (set_records_ok (t - m_epoch m) (m_g m) (m_h m) (m_gd m) (m_hd m) (m_records m) (m_g m) (m_h m) HR) as (g & h & E & Hl).
  rewrite E. eexists. split; [reflexivity|]. cbn [c_year c_max]. unfold co_g, co_h, co_gd, co_hd. cbn [c_g c_h c_gd c_hd].
  assert (Z : forall t n k, (wmm_max_degree < n \/ n < k)%nat -> tri_get t n k = 0).
  { intros t0 n k [L|L]; unfold tri_get; rewrite (proj2 (Nat.ltb_lt _ _) L); auto. rewrite orb_true_r. auto. }
  split; [auto|]. split; [auto|]. split; [|split; [auto|intros n k Hn; repeat split; apply Z; auto]].
  intros n k Hn. destruct (le_lt_dec n wmm_max_degree) as [Hn1|Hn1]; [destruct (le_lt_dec k n) as [Hk|Hk]|];
    try (rewrite !Z by auto; split; ring); apply Hl; left; apply HC; lia.
Qed.

Lemma tri_get_table l d o : (o <= d <= wmm_max_degree)%nat -> tri_get (table_of l) d o = tenths (nth (tri_index d o) l 0%Z).
Proof.
  intros H. unfold tri_get. replace ((wmm_max_degree <? d)%nat || (d <? o)%nat) with false; auto.
  symmetry. apply orb_false_iff. split; apply Nat.ltb_ge; lia.
Qed.
Definition row_ok (r : nat * nat * Z * Z * Z * Z) : bool :=
  let '(d, o, g, h, gd, hd) := r in
  ((o <=? d) && (d <=? wmm_max_degree))%nat &&
  ((nth (tri_index d o) wmm_g_z 0 =? g) && (nth (tri_index d o) wmm_h_z 0 =? h) &&
   (nth (tri_index d o) wmm_g_dot_z 0 =? gd) && (nth (tri_index d o) wmm_h_dot_z 0 =? hd))%Z.
Definition has_row (n k : nat) : bool :=
  existsb (fun r : nat * nat * Z * Z * Z * Z => let '(d, o, _, _, _, _) := r in ((d =? n) && (o =? k))%nat) wmm_records_z.

(** the embedded 2025 tables: 90 records, one per (degree, order), equal to the four tables *)
Theorem C63_embedded : well_formed wmm_2025.
Proof.
  split; [cbn; auto|]. split.
  - assert (A : forallb row_ok wmm_records_z = true) by reflexivity.
    rewrite forallb_forall in A. intros r Hr. cbn [m_records wmm_2025] in Hr. apply in_map_iff in Hr.
    destruct Hr as ([[[[[d o] g] h] gd] hd] & <- & Hr). apply A in Hr. unfold row_ok in Hr.
    rewrite !andb_true_iff, !Nat.leb_le, !Z.eqb_eq in Hr. destruct Hr as ((Hd & Hd') & ((Eg & Eh) & Egd) & Ehd).
    cbn [record_of r_degree r_order r_g r_h r_gdot r_hdot m_g m_h m_gd m_hd wmm_2025].
    rewrite !tri_get_table by lia. rewrite Eg, Eh, Egd, Ehd. auto.
  - assert (A : forallb (fun n => forallb (has_row n) (seq 0 (n + 1))) (seq 1 12) = true) by reflexivity.
    rewrite forallb_forall in A. intros n k Hn Hk. unfold wmm_max_degree in Hn.
    specialize (A n ltac:(apply in_seq; lia)). rewrite forallb_forall in A. specialize (A k ltac:(apply in_seq; lia)).
    unfold has_row in A. apply existsb_exists in A. destruct A as ([[[[[d o] g] h] gd] hd] & I & E).
    apply andb_true_iff in E. rewrite !Nat.eqb_eq in E. destruct E; subst.
    exists (record_of (n, k, g, h, gd, hd)). split; [apply (in_map record_of) in I; exact I|auto].
Qed.

Example C63_nontrivial : exists co, coefficients_at wmm_2025 2026 = Some co /\ co_g co 1 0 = tenths (-293518) + tenths 120.
Proof.
  destruct (C63_linear wmm_2025 2026 C63_embedded) as (co & E & _ & _ & L & G & _). exists co. split; auto.
  destruct (L 1%nat 0%nat (le_n 1)) as [-> _]. rewrite (proj1 (G 1%nat 0%nat)). cbn [m_g m_gd m_epoch wmm_2025].
  rewrite !tri_get_table by (unfold wmm_max_degree; lia). cbn [tri_index Nat.mul Nat.add Nat.div Nat.divmod fst nth wmm_g_z wmm_g_dot_z].
  unfold tenths. cbn. lra.
Qed.
