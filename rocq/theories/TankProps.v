(** C70: propellant tanks, in IEEE 754 binary64 for every bit pattern, and in exact arithmetic. *)
From Coq Require Import ZArith QArith Reals Lra Lia List Bool Permutation.
From Coquelicot Require Import Rbar.
From Flocq Require Import Core BinarySingleNaN.
From Verif Require Import Scalar F64 TankModel.
Import ListNotations.
Local Open Scope R_scope.

Notation zero64 := (zero f64_ops).
Notation one64 := (one f64_ops).
Notation max64 := (fmax f64_ops).
Notation clamp64 := (clamp f64_ops).
Notation limits64 := (limits f64_ops pi64).
Notation total_mass64 := (total_mass f64_ops).

Lemma xval_zero : xval zero64 = Finite 0. Proof. reflexivity. Qed.
Lemma xval_one : xval one64 = Finite 1.
Proof. rewrite xval_finite by reflexivity. f_equal. apply (Bone_correct 53 1024). Qed.
Lemma nonneg_zero : nonneg zero64. Proof. split; [reflexivity|]. rewrite xval_zero. apply Rbar_le_refl. Qed.
Lemma isnan64 x : isnan f64_ops x = is_nan x.
Proof. unfold isnan. cbn [eqb f64_ops]. rewrite eqb_self. apply negb_involutive. Qed.

(** max with zero: a nonnegative number, whatever the argument *)
Lemma max0_spec x : nonneg (max64 x zero64) /\
  (is_number x -> xval (max64 x zero64) = if Rbar_lt_dec (xval x) (Finite 0) then Finite 0 else xval x) /\
  (~ is_number x -> xval (max64 x zero64) = Finite 0).
Proof.
  unfold fmax. rewrite isnan64. unfold is_number. destruct (is_nan x) eqn:N.
  - cbn [orb]. split; [apply nonneg_zero|]. split; [discriminate|reflexivity].
  - cbn [orb]. change (ltb f64_ops x zero64) with (Bltb x (B754_zero false : f64)).
    assert (T := f64_ltb x (B754_zero false) N eq_refl). change (xval (B754_zero false)) with (Finite 0) in T.
    destruct (Bltb x (B754_zero false : f64)) eqn:L.
    + split; [apply nonneg_zero|]. split; [|congruence]. intros _. destruct (Rbar_lt_dec (xval x) (Finite 0)); [reflexivity|]. exfalso. tauto.
    + assert (M : ~ Rbar_lt (xval x) (Finite 0)) by (intros Q; apply T in Q; discriminate).
      split; [|split; [|congruence]].
      * split; [exact N|]. apply Rbar_not_lt_le. exact M.
      * intros _. destruct (Rbar_lt_dec (xval x) (Finite 0)); tauto.
Qed.
Lemma max0_nonneg x : nonneg (max64 x zero64). Proof. apply max0_spec. Qed.
Lemma max0_mono x y : is_number x -> is_number y -> Rbar_le (xval x) (xval y) -> Rbar_le (xval (max64 x zero64)) (xval (max64 y zero64)).
Proof.
  intros Nx Ny L. destruct (max0_spec x) as (_ & Ex & _), (max0_spec y) as (Py & Ey & _). rewrite (Ex Nx).
  destruct (Rbar_lt_dec (xval x) (Finite 0)) as [A|A]; [apply Py|]. rewrite (Ey Ny).
  destruct (Rbar_lt_dec (xval y) (Finite 0)) as [B|B]; [|exact L]. exfalso. apply A. eapply Rbar_le_lt_trans; eauto.
Qed.

(** the clamp of a number *)
Lemma clamp_spec x : is_number x -> nonneg (clamp64 x zero64 one64) /\ Rbar_le (xval (clamp64 x zero64 one64)) (Finite 1) /\
  xval (clamp64 x zero64 one64) = (if Rbar_lt_dec (xval x) (Finite 0) then Finite 0 else if Rbar_lt_dec (Finite 1) (xval x) then Finite 1 else xval x).
Proof.
  intros N. unfold clamp. change (ltb f64_ops x zero64) with (Bltb x (zero64 : f64)).
  assert (T := f64_ltb x zero64 N eq_refl). rewrite xval_zero in T.
  destruct (Bltb x (zero64 : f64)) eqn:L.
  - assert (E : ltb f64_ops one64 zero64 = false) by reflexivity. rewrite E. destruct (Rbar_lt_dec (xval x) (Finite 0)); [|tauto].
    split; [apply nonneg_zero|]. split; [rewrite xval_zero; cbn; lra|apply xval_zero].
  - assert (A : ~ Rbar_lt (xval x) (Finite 0)) by (intros Q; apply T in Q; discriminate).
    destruct (Rbar_lt_dec (xval x) (Finite 0)) as [|_]; [tauto|].
    change (ltb f64_ops one64 x) with (Bltb (one64 : f64) x). assert (U := f64_ltb one64 x eq_refl N). rewrite xval_one in U.
    destruct (Bltb (one64 : f64) x) eqn:L1.
    + destruct (Rbar_lt_dec (Finite 1) (xval x)); [|tauto]. rewrite xval_one. split; [|split; [apply Rbar_le_refl|reflexivity]].
      split; [reflexivity|]. rewrite xval_one. cbn. lra.
    + assert (B : ~ Rbar_lt (Finite 1) (xval x)) by (intros Q; apply U in Q; discriminate).
      destruct (Rbar_lt_dec (Finite 1) (xval x)) as [|_]; [tauto|]. split; [|split; [|reflexivity]].
      * split; [exact N|]. apply Rbar_not_lt_le, A.
      * apply Rbar_not_lt_le, B.
Qed.
Lemma clamp_mono x y : is_number x -> is_number y -> Rbar_le (xval x) (xval y) -> Rbar_le (xval (clamp64 x zero64 one64)) (xval (clamp64 y zero64 one64)).
Proof.
  intros Nx Ny L. destruct (clamp_spec x Nx) as (_ & Lx & Ex), (clamp_spec y Ny) as (Py & _ & Ey). rewrite Ex.
  destruct (Rbar_lt_dec (xval x) (Finite 0)) as [A|A]; [apply Py|]. rewrite Ey.
  destruct (Rbar_lt_dec (xval y) (Finite 0)) as [B|B]; [exfalso; apply A; eapply Rbar_le_lt_trans; eauto|].
  destruct (Rbar_lt_dec (Finite 1) (xval y)) as [C|C].
  - destruct (Rbar_lt_dec (Finite 1) (xval x)) as [D|D]; [apply Rbar_le_refl|apply Rbar_not_lt_le, D].
  - destruct (Rbar_lt_dec (Finite 1) (xval x)) as [D|D]; [exfalso; apply C; eapply Rbar_lt_le_trans; eauto|exact L].
Qed.

(** Specification.  [x <=. y]: both are numbers and the extended real of x is at most that of y. *)
Definition le64 (x y : f64) : Prop := is_number x /\ is_number y /\ Rbar_le (xval x) (xval y).
Local Notation "x <=. y" := (le64 x y) (at level 70).
(** what Rust's [<=] says *)
Lemma le64_leb x y : x <=. y <-> leb f64_ops x y = true.
Proof.
  cbn [leb f64_ops]. split.
  - intros (A & B & C). apply f64_leb; auto.
  - intros H. destruct (leb_number x y H) as [A B]. split; auto. split; auto. apply f64_leb; auto.
Qed.
Lemma nonneg_le64 x : nonneg x -> zero64 <=. x.
Proof. intros [A B]. split; [reflexivity|]. split; auto. Qed.

(** the fill fraction asks for none of the tank *)
Definition asks_nothing (x : f64) : Prop := Rbar_le (xval x) (Finite 0).
Lemma clamp_zero x : is_number x -> xval (clamp64 x zero64 one64) = Finite 0 -> asks_nothing x.
Proof.
  intros N E. destruct (clamp_spec x N) as (_ & _ & Q). rewrite Q in E. unfold asks_nothing.
  destruct (Rbar_lt_dec (xval x) (Finite 0)) as [A|A]; [apply Rbar_lt_le, A|].
  destruct (Rbar_lt_dec (Finite 1) (xval x)); [injection E as E; lra|]. rewrite E. apply Rbar_le_refl.
Qed.
Lemma max0_zero x : xval (max64 x zero64) = Finite 0 -> is_number x -> asks_nothing x.
Proof.
  intros E N. destruct (max0_spec x) as (_ & Q & _). rewrite (Q N) in E. unfold asks_nothing.
  destruct (Rbar_lt_dec (xval x) (Finite 0)) as [A|A]; [apply Rbar_lt_le, A|]. rewrite E. apply Rbar_le_refl.
Qed.
Lemma max0_inf x : xval (max64 x zero64) = p_infty -> is_number x /\ xval x = p_infty.
Proof.
  intros E. destruct (max0_spec x) as (_ & Q1 & Q2). unfold is_number in *. destruct (is_nan x) eqn:N.
  - rewrite Q2 in E by discriminate. discriminate.
  - split; auto. rewrite (Q1 eq_refl) in E. destruct (Rbar_lt_dec (xval x) (Finite 0)); [discriminate|exact E].
Qed.

(** C70 (limits, f64).  For every tank description, any bit pattern in any field: the geometric volume
    is a number and not negative. *)
Theorem C70_geometric_f64 : forall t, zero64 <=. l_geometric (limits64 t).
Proof. intros t. apply nonneg_le64. cbn [limits l_geometric]. apply max0_nonneg. Qed.

Lemma usable_ok t : is_number (t_fill t) ->
  ~ (xval (l_geometric (limits64 t)) = p_infty /\ asks_nothing (t_fill t)) ->
  mul_ok (max64 (volume f64_ops pi64 (t_shape t)) zero64) (clamp64 (t_fill t) zero64 one64).
Proof.
  intros N O. destruct (clamp_spec _ N) as (P & L & _). split.
  - intros [A B]. apply O. split; [exact A|]. apply clamp_zero; auto.
  - intros [A B]. rewrite B in L. destruct L.
Qed.
(** The fill fraction must be a number, and a tank of infinite volume must not be asked to be empty. *)
Theorem C70_usable_f64_partial : forall t, is_number (t_fill t) ->
  ~ (xval (l_geometric (limits64 t)) = p_infty /\ asks_nothing (t_fill t)) ->
  zero64 <=. l_usable (limits64 t) /\ l_usable (limits64 t) <=. l_geometric (limits64 t).
Proof.
  intros t N O. pose proof (usable_ok t N O) as K. destruct (clamp_spec _ N) as (P & L & _).
  pose proof (max0_nonneg (volume f64_ops pi64 (t_shape t))) as G.
  assert (U : nonneg (l_usable (limits64 t))) by (apply mul_nonneg; auto).
  split; [apply nonneg_le64, U|]. split; [apply U|]. split; [apply G|]. apply mul_le; auto.
Qed.

Definition mass_defined (t : tank_spec f64) : Prop :=
  is_number (t_fill t) /\ ~ (xval (l_geometric (limits64 t)) = p_infty /\ asks_nothing (t_fill t)) /\
  ~ (xval (l_usable (limits64 t)) = p_infty /\ (is_number (t_density t) -> asks_nothing (t_density t))) /\
  ~ (xval (l_usable (limits64 t)) = Finite 0 /\ is_number (t_density t) /\ xval (t_density t) = p_infty).
Lemma mass_ok t : mass_defined t -> nonneg (l_usable (limits64 t)) /\ mul_ok (l_usable (limits64 t)) (max64 (t_density t) zero64).
Proof.
  intros (N & O1 & O2 & O3). destruct (C70_usable_f64_partial t N O1) as [(_ & U1 & U2) _].
  split; [split; auto|]. split; intros [A B].
  - apply O2. split; auto. intros M. apply max0_zero; auto.
  - apply O3. split; auto. apply max0_inf, B.
Qed.
Theorem C70_mass_f64_partial : forall t, mass_defined t -> zero64 <=. l_mass (limits64 t).
Proof. intros t D. destruct (mass_ok t D) as [U K]. apply nonneg_le64. apply mul_nonneg; auto. apply max0_nonneg. Qed.

(** Limits grow with the fill fraction and with the density. *)
Theorem C70_monotone_f64_partial : forall s d d' x x',
  let t := mkSpec s d x in let t' := mkSpec s d' x' in
  x <=. x' -> d <=. d' -> mass_defined t -> mass_defined t' ->
  l_geometric (limits64 t) = l_geometric (limits64 t') /\
  l_usable (limits64 t) <=. l_usable (limits64 t') /\ l_mass (limits64 t) <=. l_mass (limits64 t').
Proof.
  intros s d d' x x' t t' (Nx & Nx' & Lx) (Nd & Nd' & Ld) D D'. split; [reflexivity|].
  destruct (mass_ok t D) as [U K], (mass_ok t' D') as [U' K'].
  assert (M : l_usable (limits64 t) <=. l_usable (limits64 t')).
  { split; [apply U|]. split; [apply U'|]. destruct D as (D1 & D2 & _), D' as (D1' & D2' & _).
    apply mul_mono; [apply max0_nonneg|apply clamp_spec; exact D1|apply max0_nonneg|apply clamp_spec; exact D1'| | |apply Rbar_le_refl|apply clamp_mono; assumption].
    - apply (usable_ok t); assumption.
    - apply (usable_ok t'); assumption. }
  split; [exact M|]. destruct M as (_ & _ & M).
  split; [apply mul_nonneg; auto using max0_nonneg|]. split; [apply mul_nonneg; auto using max0_nonneg|].
  apply mul_mono; auto using max0_nonneg. apply max0_mono; auto.
Qed.

(** Not every input is made safe: a NaN fill fraction gives a NaN usable volume and mass, for any shape. *)
Lemma mul_nan_r x : f64_mul x B754_nan = B754_nan. Proof. destruct x; reflexivity. Qed.
Lemma mul_nan_l x : f64_mul B754_nan x = B754_nan. Proof. reflexivity. Qed.
Theorem C70_nan_fill_refuted : forall s d, exists x, let t := mkSpec s d x in
  ~ is_number (l_usable (limits64 t)) /\ ~ is_number (l_mass (limits64 t)).
Proof.
  intros s d. exists B754_nan. cbn [limits l_usable l_mass t_shape t_fill t_density mul f64_ops].
  assert (E : clamp64 B754_nan zero64 one64 = B754_nan) by reflexivity. rewrite E, mul_nan_r, mul_nan_l. split; discriminate.
Qed.

(** C70 (aggregate mass, f64).  For every list of tanks, any bit pattern in any field. *)
Lemma total_from l : forall a, nonneg a ->
  nonneg (fold_left (fun acc t => add f64_ops acc (max64 (s_mass t) zero64)) l a) /\
  Rbar_le (xval a) (xval (fold_left (fun acc t => add f64_ops acc (max64 (s_mass t) zero64)) l a)).
Proof.
  induction l as [|t l IH]; intros a A; cbn [fold_left]; [split; auto; apply Rbar_le_refl|].
  pose proof (max0_nonneg (s_mass t)) as M. destruct (IH (f64_add a (max64 (s_mass t) zero64))) as [I1 I2]; [apply add_nonneg; auto|].
  split; [exact I1|]. eapply Rbar_le_trans; [|exact I2]. apply add_ge; auto.
Qed.
Lemma total_app l l' : total_mass64 (l ++ l') = fold_left (fun acc t => add f64_ops acc (max64 (s_mass t) zero64)) l' (total_mass64 l).
Proof. unfold total_mass. apply fold_left_app. Qed.
Theorem C70_total_f64 : forall l,
  zero64 <=. total_mass64 l /\
  (forall l', total_mass64 l <=. total_mass64 (l ++ l')) /\
  (forall t, In t l -> is_number (s_mass t) -> s_mass t <=. total_mass64 l).
Proof.
  intros l. assert (P : nonneg (total_mass64 l)) by (apply total_from, nonneg_zero).
  split; [apply nonneg_le64, P|]. split.
  - intros l'. rewrite total_app. destruct (total_from l' _ P) as [A B]. split; [apply P|]. split; [apply A|exact B].
  - intros t I N. split; auto. split; [apply P|]. apply in_split in I. destruct I as (l1 & l2 & ->). rewrite total_app. cbn [fold_left].
    assert (P1 : nonneg (total_mass64 l1)) by (apply total_from, nonneg_zero). pose proof (max0_nonneg (s_mass t)) as M.
    destruct (total_from l2 (f64_add (total_mass64 l1) (max64 (s_mass t) zero64))) as [_ B]; [apply add_nonneg; auto|].
    eapply Rbar_le_trans; [|exact B]. eapply Rbar_le_trans; [|apply add_ge; auto].
    destruct (max0_spec (s_mass t)) as (_ & E & _). rewrite (E N). destruct (Rbar_lt_dec (xval (s_mass t)) (Finite 0)) as [L|L]; [apply Rbar_lt_le, L|apply Rbar_le_refl].
Qed.

(** In f64 the total does depend on the order of the tanks: 2^53 kg, 1 kg, 1 kg. *)
Theorem C70_order_f64_refuted : exists l l', Permutation l l' /\ total_mass64 l <> total_mass64 l'.
Proof.
  pose (s := TSph (one64 : f64)). pose (big := mkTank s (f64_of_Z 9007199254740992)). pose (small := mkTank s (one64 : f64)).
  exists [big; small; small], [small; small; big]. split.
  - change [big; small; small] with ([big] ++ [small; small]). change [small; small; big] with ([small; small] ++ [big]). apply Permutation_app_comm.
  - intros E. apply (f_equal (fun x => B2SF x)) in E. vm_compute in E. discriminate E.
Qed.

(** * Exact arithmetic *)
Notation limitsR := (limits Rops PI).
Lemma isnanR x : isnan Rops x = false.
Proof. unfold isnan. cbn. unfold Reqb. destruct (Req_EM_T x x); auto. congruence. Qed.
Lemma fmaxR x y : fmax Rops x y = Rmax x y.
Proof.
  unfold fmax. rewrite isnanR. cbn [orb ltb Rops]. unfold Rltb. destruct (Rlt_dec x y); [rewrite Rmax_right; lra|rewrite Rmax_left; lra].
Qed.
Lemma clampR x : clamp Rops x 0 1 = Rmax 0 (Rmin x 1).
Proof.
  unfold clamp. cbn [ltb Rops]. unfold Rltb. destruct (Rlt_dec x 0).
  - destruct (Rlt_dec 1 0); [lra|]. rewrite Rmin_left, Rmax_left; lra.
  - destruct (Rlt_dec 1 x); [rewrite Rmin_right, Rmax_right; lra|rewrite Rmin_left, Rmax_right; lra].
Qed.
(** the volume of the tank: of the shape when sizes are not negative, and 0 for a negative sphere radius or cylinder length *)
Definition tank_volume (s : tank_shape R) : R :=
  match s with TCyl r h => Rmax 0 (PI * r ^ 2 * h) | TSph r => Rmax 0 (4 / 3 * PI * r ^ 3) end.
Theorem C70_limits_exact : forall t,
  l_geometric (limitsR t) = tank_volume (t_shape t) /\
  l_usable (limitsR t) = tank_volume (t_shape t) * Rmax 0 (Rmin (t_fill t) 1) /\
  l_mass (limitsR t) = tank_volume (t_shape t) * Rmax 0 (Rmin (t_fill t) 1) * Rmax 0 (t_density t) /\
  0 <= l_usable (limitsR t) <= l_geometric (limitsR t) /\ 0 <= l_mass (limitsR t).
Proof.
  intros [s d x]. cbn [limits l_geometric l_usable l_mass t_shape t_fill t_density mul zero one Rops]. rewrite !fmaxR, clampR.
  assert (V : Rmax (volume Rops PI s) 0 = tank_volume s).
  { rewrite Rmax_comm. destruct s; cbn [volume cyl_volume sph_volume tank_volume mul div add one Rops]; f_equal; unfold cyl_volume, sph_volume; cbn; field. }
  rewrite V, (Rmax_comm d 0). clear V.
  assert (0 <= tank_volume s) by (destruct s; apply Rmax_l). pose proof (Rmax_l 0 d). pose proof (Rmax_l 0 (Rmin x 1)).
  assert (Rmax 0 (Rmin x 1) <= 1) by (apply Rmax_lub; [lra|apply Rmin_r]).
  repeat split; try reflexivity; [apply Rmult_le_pos; auto|nra|apply Rmult_le_pos; auto; apply Rmult_le_pos; auto].
Qed.

Definition Rsum (l : list R) : R := fold_right Rplus 0 l.
Definition t3 (l : list (R * R * R)) : R * R * R :=
  (Rsum (map (fun p => fst (fst p)) l), Rsum (map (fun p => snd (fst p)) l), Rsum (map snd l)).
(** the principal moments of one tank as a solid body of the given mass *)
Definition tank_moments (s : tank_shape R) (m : R) : R * R * R :=
  match s with
  | TCyl r h => (m * (3 * r ^ 2 + h ^ 2) / 12, m * (3 * r ^ 2 + h ^ 2) / 12, m * r ^ 2 / 2)
  | TSph r => (2 / 5 * m * r ^ 2, 2 / 5 * m * r ^ 2, 2 / 5 * m * r ^ 2)
  end.
Lemma triple_eq (a b c a' b' c' : R) : a = a' -> b = b' -> c = c' -> (a, b, c) = (a', b', c').
Proof. intros -> -> ->. reflexivity. Qed.
Lemma inertiaR s m : inertia Rops s m = tank_moments s (Rmax 0 m).
Proof.
  unfold inertia. cbn [zero Rops]. rewrite fmaxR, (Rmax_comm m 0). generalize (Rmax 0 m). clear m. intros m.
  destruct s as [r h|r]; cbn [tank_moments absf Rops].
  - pose proof (Rsqr_abs r) as A. pose proof (Rsqr_abs h) as B. unfold Rsqr in A, B.
    unfold cyl_inertia. cbn [mul add div one Rops]. cbv zeta. rewrite <- A, <- B. apply triple_eq; field.
  - pose proof (Rsqr_abs r) as A. unfold Rsqr in A. unfold sph_inertia. cbn [mul add div one Rops]. cbv zeta.
    assert (E : (1 + 1) / (1 + 1 + 1 + 1 + 1) * m * Rabs r * Rabs r = 2 / 5 * m * r ^ 2).
    { transitivity (2 / 5 * m * (Rabs r * Rabs r)); [field|]. rewrite <- A. field. } rewrite E. reflexivity.
Qed.
Lemma fold_sum {A} (g : A -> R) l : forall a, fold_left (fun acc t => acc + g t) l a = a + Rsum (map g l).
Proof. induction l as [|t l IH]; intros a; [cbn; ring|].
  cbn [fold_left map]. rewrite IH. change (Rsum (g t :: map g l)) with (g t + Rsum (map g l)). ring.
Qed.
Theorem C70_aggregate_exact : forall l,
  total_mass Rops l = Rsum (map (fun t => Rmax 0 (s_mass t)) l) /\
  total_inertia Rops l = t3 (map (fun t => tank_moments (s_shape t) (Rmax 0 (s_mass t))) l).
Proof.
  intros l. split.
  - unfold total_mass. cbn [add zero Rops]. rewrite (fold_sum (fun t => fmax Rops (s_mass t) 0)). rewrite Rplus_0_l. f_equal.
    apply map_ext. intros t. rewrite fmaxR. apply Rmax_comm.
  - unfold total_inertia. cbn [zero Rops].
    assert (G : forall a b c, fold_left (fun acc t => let '(a, b, c) := acc in let '(x, y, z) := inertia Rops (s_shape t) (fmax Rops (s_mass t) 0) in
        (add Rops a x, add Rops b y, add Rops c z)) l (a, b, c) =
      (a + Rsum (map (fun t => fst (fst (tank_moments (s_shape t) (Rmax 0 (s_mass t))))) l),
       b + Rsum (map (fun t => snd (fst (tank_moments (s_shape t) (Rmax 0 (s_mass t))))) l),
       c + Rsum (map (fun t => snd (tank_moments (s_shape t) (Rmax 0 (s_mass t)))) l))).
    { induction l as [|t l IH]; intros a b c; cbn [fold_left map Rsum fold_right].
      - rewrite !Rplus_0_r. reflexivity.
      - rewrite inertiaR, fmaxR, (Rmax_comm (s_mass t) 0), (Rmax_right 0 (Rmax 0 (s_mass t))) by apply Rmax_l.
        destruct (tank_moments (s_shape t) (Rmax 0 (s_mass t))) as [[x y] z] eqn:E. cbn [fst snd].
        change (fold_right Rplus 0) with Rsum. rewrite IH. cbn [add Rops]. rewrite !Rplus_assoc. reflexivity. }
    rewrite G, !Rplus_0_l. unfold t3. rewrite !map_map. reflexivity.
Qed.
Lemma Rsum_perm l l' : Permutation l l' -> Rsum l = Rsum l'.
Proof.
  induction 1 as [|x l l' P IH|x y l|l l' l'' P IH P' IH']; [reflexivity| | |congruence].
  - change (x + Rsum l = x + Rsum l'). rewrite IH. reflexivity.
  - change (y + (x + Rsum l) = x + (y + Rsum l)). ring.
Qed.
Theorem C70_order_exact : forall l l', Permutation l l' ->
  total_mass Rops l = total_mass Rops l' /\ total_inertia Rops l = total_inertia Rops l'.
Proof.
  intros l l' P. destruct (C70_aggregate_exact l) as [-> ->], (C70_aggregate_exact l') as [-> ->]. split.
  - apply Rsum_perm, Permutation_map, P.
  - unfold t3. apply triple_eq; apply Rsum_perm; rewrite !map_map; apply Permutation_map, P.
Qed.

(** the hypotheses are met by any tank of finite volume with a finite density and a fill fraction that is a number *)
Lemma mass_defined_finite t : is_number (t_fill t) -> is_finite (t_density t) = true ->
  is_finite (l_geometric (limits64 t)) = true -> mass_defined t.
Proof.
  intros N D G. assert (A : xval (l_geometric (limits64 t)) <> p_infty) by (rewrite xval_finite by auto; discriminate).
  destruct (C70_usable_f64_partial t N) as [_ (_ & _ & U)]; [tauto|].
  assert (B : xval (l_usable (limits64 t)) <> p_infty).
  { intros E. rewrite E, (xval_finite (l_geometric (limits64 t))) in U by auto. destruct U. }
  split; [exact N|]. split; [tauto|]. split; [tauto|]. intros (_ & _ & E). rewrite xval_finite in E by auto. discriminate.
Qed.
(** a cylinder of radius 1 and length 1, full, of density 1 *)
Lemma pi_one : B2SF (l_geometric (limits64 (mkSpec (TCyl (one64 : f64) (one64 : f64)) one64 one64))) = B2SF pi64.
Proof. reflexivity. Qed.
Example C70_nontrivial : mass_defined (mkSpec (TCyl (one64 : f64) (one64 : f64)) one64 one64).
Proof.
  apply mass_defined_finite; [reflexivity|reflexivity|]. rewrite <- is_finite_SF_B2SF, pi_one. reflexivity.
Qed.
