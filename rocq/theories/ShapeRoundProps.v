(** C142: volumes and principal moments of the solids in floating point. *)
From Coq Require Import ZArith QArith Qreals Reals Lra Lia Bool Psatz.
From Verif Require Import Scalar Geo3 SolidModel SolidSpec SolidProofs SolidProps.
From Flocq Require Import Core BinarySingleNaN.
From Verif Require Import FloatModel F64 TankModel ShapeFloatModel RoundProps Apx AtmRoundProps AngleProps.
Local Open Scope R_scope.

Definition triple {A} (f : A -> R) (t : A * A * A) : V3 := mkV (f (fst (fst t))) (f (snd (fst t))) (f (snd t)).
Theorem C142_same_code : forall r h a b c m,
  sph_volume Rops PI r = SolidModel.volume (sphere r) /\ cyl_volume Rops PI r h = SolidModel.volume (cylinder r h) /\ g_prism_volume Rops a b c = SolidModel.volume (prism a b c) /\
  triple id (sph_inertia Rops r m) = inertia_principal_cm (sphere r) m /\ triple id (cyl_inertia Rops r h m) = inertia_principal_cm (cylinder r h) m /\ triple id (g_prism_inertia Rops a b c m) = inertia_principal_cm (prism a b c) m.
Proof. intros. repeat split; reflexivity. Qed.

(** the moments, component by component, over any scalar type *)
Lemma sph_parts {F} (o : ops F) r m : let i := mul o (mul o (mul o (div o (add o (one o) (one o)) (add o (add o (add o (add o (one o) (one o)) (one o)) (one o)) (one o))) m) r) r in
  fst (fst (sph_inertia o r m)) = i /\ snd (fst (sph_inertia o r m)) = i /\ snd (sph_inertia o r m) = i.
Proof. repeat split; reflexivity. Qed.
Lemma cyl_parts {F} (o : ops F) r h m :
  let x := div o (add o (mul o (mul o m (add o (add o (one o) (one o)) (one o))) (mul o r r)) (mul o m (mul o h h))) (g_twelve o) in
  fst (fst (cyl_inertia o r h m)) = x /\ snd (fst (cyl_inertia o r h m)) = x /\ snd (cyl_inertia o r h m) = mul o (mul o m (mul o r r)) (div o (one o) (add o (one o) (one o))).
Proof. repeat split; reflexivity. Qed.
Lemma prism_parts {F} (o : ops F) a b c m : let f x y := div o (mul o m (add o (mul o x x) (mul o y y))) (g_twelve o) in
  fst (fst (g_prism_inertia o a b c m)) = f b c /\ snd (fst (g_prism_inertia o a b c m)) = f a c /\ snd (g_prism_inertia o a b c m) = f a b.
Proof. repeat split; reflexivity. Qed.
(** and over the reals *)
Lemma sph_real r m : let i := 2 / 5 * m * r * r in let I := inertia_principal_cm (solid_of (Ball r)) m in vx I = i /\ vy I = i /\ vz I = i.
Proof. cbn [solid_of sphere inertia_principal_cm vx vy vz]. repeat split; field. Qed.
Lemma cyl_real r h m : let x := (m * 3 * (r * r) + m * (h * h)) / 12 in let I := inertia_principal_cm (solid_of (Cyl r h)) m in vx I = x /\ vy I = x /\ vz I = m * (r * r) * (1 / 2).
Proof. cbn [solid_of cylinder inertia_principal_cm vx vy vz]. unfold twelve. repeat split; field. Qed.
Lemma prism_real a b c m : let f x y := m * (x * x + y * y) / 12 in let I := inertia_principal_cm (solid_of (Box a b c)) m in vx I = f b c /\ vy I = f a c /\ vz I = f a b.
Proof. cbn [solid_of prism inertia_principal_cm vx vy vz]. unfold twelve. repeat split; field. Qed.

Section Width.
Context (prec emax : Z) {P : Prec_gt_0 prec} {M : Prec_lt_emax prec emax}.
Context (Hp : (53 <= prec)%Z) (He : (1024 <= emax)%Z).
Local Notation fl := (binary_float prec emax).
Local Notation u := (unit prec).
Local Notation o := (float_ops prec emax).
Ltac facts := pose proof (u_pos prec) as Pu; pose proof (u53 prec Hp) as U; pose proof (eta_pos prec emax) as Pe; pose proof (eta_small prec emax He) as Es; pose proof (largest18 prec emax Hp He) as G.

(** near, with a range for the exact value *)
Definition pn (x : fl) (X k a b : R) : Prop := near x X k /\ a <= X <= b /\ 0 < a /\ 0 <= k.
Lemma pn_mul (x y : fl) X Y k l a b c d : pn x X k a b -> pn y Y l c d -> k <= 1000 -> l <= 1000 -> / 10 ^ 20 <= a * c -> b * d <= 10 ^ 12 -> pn (mul o x y) (X * Y) (k + l + 101 / 100) (a * c) (b * d).
Proof.
  intros (N1 & B1 & P1 & K1) (N2 & B2 & P2 & K2) L1 L2 C1 C2. assert (B : a * c <= X * Y <= b * d) by (split; apply Rmult_le_compat; lra).
  split; [apply (near_mul prec emax Hp He _ _ _ _ _ _ N1 N2); [lra|lra|rewrite Rabs_pos_eq; lra]|]. split; [exact B|]. split; [apply Rmult_lt_0_compat; assumption|lra].
Qed.
Lemma pn_div (x y : fl) X Y k l a b c d : pn x X k a b -> pn y Y l c d -> k <= 1000 -> l <= 1000 -> / 10 ^ 20 <= a / d -> b / c <= 10 ^ 12 -> pn (div o x y) (X / Y) (k + l + 101 / 100) (a / d) (b / c).
Proof.
  intros (N1 & B1 & P1 & K1) (N2 & B2 & P2 & K2) L1 L2 C1 C2.
  assert (I1 : / d <= / Y <= / c) by (split; apply Rinv_le_contravar; lra). assert (I2 : 0 < / d) by (apply Rinv_0_lt_compat; lra).
  assert (B : a / d <= X / Y <= b / c) by (unfold Rdiv; split; apply Rmult_le_compat; lra).
  split; [apply (near_div prec emax Hp He _ _ _ _ _ _ N1 N2); [lra|lra|lra|rewrite Rabs_pos_eq; lra]|]. split; [exact B|]. split; [apply Rmult_lt_0_compat; lra|lra].
Qed.
Lemma pn_add (x y : fl) X Y k l a b c d : pn x X k a b -> pn y Y l c d -> k <= 1000 -> l <= k -> b + d <= 10 ^ 12 -> pn (add o x y) (X + Y) (k + 101 / 100) (a + c) (b + d).
Proof.
  intros (N1 & B1 & P1 & K1) (N2 & B2 & P2 & K2) L1 L2 C2. facts.
  assert (A1 : apx x X (k * u * X)) by (eapply apx_weak; [apply near_apx, N1|rewrite Rabs_pos_eq by lra; lra]).
  assert (A2 : apx y Y (k * u * Y)).
  { eapply apx_weak; [apply near_apx, N2|rewrite Rabs_pos_eq by lra]. apply Rmult_le_compat_r; [lra|]. apply Rmult_le_compat_r; lra. }
  assert (KU : 0 <= k * u <= / 10 ^ 11) by (split; [apply Rmult_le_pos; lra|apply Rle_trans with (1000 * / 10 ^ 15); [apply Rmult_le_compat; lra|lra]]).
  assert (KS : 0 <= k * u * (X + Y) <= / 10 ^ 11 * (X + Y)) by (split; [apply Rmult_le_pos; lra|apply Rmult_le_compat_r; lra]).
  split; [|split; [lra|split; lra]].
  eapply apx_near; [apply (apx_add prec emax) with (1 := A1) (2 := A2) (b := X + Y); [rewrite Rabs_pos_eq; lra|lra]|]. rewrite Rabs_pos_eq by lra.
  assert (u * (k * u * (X + Y)) <= u * (/ 10 ^ 11 * (X + Y))) by (apply Rmult_le_compat_l; lra).
  replace ((k + 101 / 100) * u * (X + Y)) with (k * u * X + k * u * Y + u * (X + Y) + u * (1 / 100 * (X + Y))) by field.
  assert (u * (/ 10 ^ 11 * (X + Y)) <= u * (1 / 100 * (X + Y))) by (apply Rmult_le_compat_l; [lra|]; apply Rmult_le_compat_r; lra). lra.
Qed.
Lemma pn_exact (x : fl) a b : is_finite x = true -> 0 < a -> a <= B2R x <= b -> pn x (B2R x) 0 a b.
Proof. intros F Pa B. split; [split; [exact F|rewrite Rminus_diag_eq, Rabs_R0 by reflexivity; lra]|]. split; [exact B|split; lra]. Qed.
Lemma pn_final (x : fl) X k a b k' : pn x X k a b -> k <= k' -> near x X k'.
Proof. intros (N & _) L. eapply (near_weak prec emax); [exact N|exact L]. Qed.

(** counting by adding ones is exact *)
Lemma one_int : is_finite (one o : fl) = true /\ B2R (one o : fl) = IZR 1.
Proof. split; [apply is_finite_Bone|apply Bone_correct]. Qed.
Lemma count (x : fl) z : is_finite x = true /\ B2R x = IZR z -> (0 <= z <= 100)%Z -> is_finite (add o x (one o)) = true /\ B2R (add o x (one o)) = IZR (z + 1).
Proof.
  intros [F E] L. facts. destruct one_int as [F1 E1].
  assert (S : B2R x + B2R (one o : fl) = IZR (z + 1)) by (rewrite E, E1, plus_IZR; reflexivity).
  assert (Lz : Rabs (IZR (z + 1)) <= 101) by (rewrite <- abs_IZR; apply IZR_le; lia).
  cbn [add float_ops]. pose proof (Bplus_correct prec emax P M mode_NE x (one o) F F1) as C. cbn [round_mode] in C.
  change (Bplus mode_NE x (one o)) with (Bplus mode_NE x (one o : fl)) in C. rewrite S in C. rewrite (no_over prec emax) in C by lra. destruct C as (C & K & _). split; [exact K|].
  rewrite C. apply round_generic; [apply valid_rnd_N|].
  assert (E0 : F2R (Float radix2 (z + 1) 0) = IZR (z + 1)) by (unfold F2R; cbn [Fnum Fexp]; cbn; ring).
  rewrite <- E0. apply generic_format_FLT. eapply (FLT_spec radix2 (3 - emax - prec) prec _ (Float radix2 (z + 1) 0)); cbn [Fnum Fexp]; [reflexivity| |unfold Prec_gt_0, Prec_lt_emax in *; lia].
  apply Z.le_lt_trans with (101)%Z; [lia|]. change (radix2 ^ prec)%Z with (2 ^ prec)%Z. apply Z.lt_le_trans with (2 ^ 7)%Z; [lia|]. apply Z.pow_le_mono_r; lia.
Qed.
Lemma pn_int (x : fl) z : is_finite x = true /\ B2R x = IZR z -> (0 < z)%Z -> pn x (IZR z) 0 (IZR z) (IZR z).
Proof. intros [F E] L. rewrite <- E. apply pn_exact; [exact F|rewrite E; apply IZR_lt; exact L|lra]. Qed.
Lemma n2 : pn (add o (one o) (one o)) 2 0 2 2. Proof. apply (pn_int _ 2); [|lia]. apply (count _ 1 one_int). lia. Qed.
Lemma n3 : pn (add o (add o (one o) (one o)) (one o)) 3 0 3 3. Proof. apply (pn_int _ 3); [|lia]. apply (count _ 2); [|lia]. apply (count _ 1 one_int). lia. Qed.
Lemma n4 : pn (add o (add o (add o (one o) (one o)) (one o)) (one o)) 4 0 4 4.
Proof. apply (pn_int _ 4); [|lia]. apply (count _ 3); [|lia]. apply (count _ 2); [|lia]. apply (count _ 1 one_int). lia. Qed.
Lemma n5 : pn (add o (add o (add o (add o (one o) (one o)) (one o)) (one o)) (one o)) 5 0 5 5.
Proof. apply (pn_int _ 5); [|lia]. apply (count _ 4); [|lia]. apply (count _ 3); [|lia]. apply (count _ 2); [|lia]. apply (count _ 1 one_int). lia. Qed.
Lemma n12 : pn (g_twelve o) 12 0 12 12.
Proof.
  apply (pn_int _ 12); [|lia]. unfold g_twelve.
  apply (count _ 11); [|lia]. apply (count _ 10); [|lia]. apply (count _ 9); [|lia]. apply (count _ 8); [|lia]. apply (count _ 7); [|lia]. apply (count _ 6); [|lia].
  apply (count _ 5); [|lia]. apply (count _ 4); [|lia]. apply (count _ 3); [|lia]. apply (count _ 2); [|lia]. apply (count _ 1 one_int). lia.
Qed.
Lemma n1 : pn (one o) 1 0 1 1. Proof. apply (pn_int _ 1 one_int). lia. Qed.

(** a finite length between a millimetre and a kilometre; a finite mass between a milligram and a hundred tonnes *)
Definition length_ok (x : fl) : Prop := is_finite x = true /\ / 1000 <= B2R x <= 1000.
Definition mass_ok (x : fl) : Prop := is_finite x = true /\ / 1000000 <= B2R x <= 100000.
Lemma pn_len x : length_ok x -> pn x (B2R x) 0 (/ 1000) 1000. Proof. intros [F B]. apply pn_exact; [exact F|lra|exact B]. Qed.
Lemma pn_mass x : mass_ok x -> pn x (B2R x) 0 (/ 1000000) 100000. Proof. intros [F B]. apply pn_exact; [exact F|lra|exact B]. Qed.
Context (pi : fl) (Npi : near pi PI 2).
Lemma pn_pi : pn pi PI 2 3 4. Proof. split; [exact Npi|]. pose proof PI2_3_2. pose proof PI_4. lra. Qed.

(** volumes, against the integral of 1 over the solid *)
Theorem C142_volumes : forall r h a b c, length_ok r -> length_ok h -> length_ok a -> length_ok b -> length_ok c ->
  near (sph_volume o pi r) (shape_int (Ball (B2R r)) (fun _ => 1)) 8 /\
  near (cyl_volume o pi r h) (shape_int (Cyl (B2R r) (B2R h)) (fun _ => 1)) 6 /\
  near (g_prism_volume o a b c) (shape_int (Box (B2R a) (B2R b) (B2R c)) (fun _ => 1)) 3.
Proof.
  intros r h a b c Hr Hh Ha Hb Hc. apply pn_len in Hr, Hh, Ha, Hb, Hc. pose proof pn_pi as Hpi.
  assert (V : forall s, shape_int s (fun _ => 1) = SolidModel.volume (solid_of s)) by (intros s; symmetry; apply (C94_shapes s 1)). rewrite !V. clear V.
  split; [|split].
  - pose proof (pn_div _ _ _ _ _ _ _ _ _ _ n4 n3 ltac:(lra) ltac:(lra) ltac:(lra) ltac:(lra)) as N1. pose proof (pn_mul _ _ _ _ _ _ _ _ _ _ N1 Hpi ltac:(lra) ltac:(lra) ltac:(lra) ltac:(lra)) as N2.
    pose proof (pn_mul _ _ _ _ _ _ _ _ _ _ N2 Hr ltac:(lra) ltac:(lra) ltac:(lra) ltac:(lra)) as N3. pose proof (pn_mul _ _ _ _ _ _ _ _ _ _ N3 Hr ltac:(lra) ltac:(lra) ltac:(lra) ltac:(lra)) as N4.
    pose proof (pn_mul _ _ _ _ _ _ _ _ _ _ N4 Hr ltac:(lra) ltac:(lra) ltac:(lra) ltac:(lra)) as N5.
    unfold sph_volume. eapply eq_rect with (P := fun X => near _ X _); [apply (pn_final _ _ _ _ _ _ N5); lra|]. cbn [solid_of sphere SolidModel.volume]. field.
  - pose proof (pn_mul _ _ _ _ _ _ _ _ _ _ Hpi Hr ltac:(lra) ltac:(lra) ltac:(lra) ltac:(lra)) as N1. pose proof (pn_mul _ _ _ _ _ _ _ _ _ _ N1 Hr ltac:(lra) ltac:(lra) ltac:(lra) ltac:(lra)) as N2.
    pose proof (pn_mul _ _ _ _ _ _ _ _ _ _ N2 Hh ltac:(lra) ltac:(lra) ltac:(lra) ltac:(lra)) as N3. unfold cyl_volume. apply (pn_final _ _ _ _ _ _ N3). lra.
  - pose proof (pn_mul _ _ _ _ _ _ _ _ _ _ Ha Hb ltac:(lra) ltac:(lra) ltac:(lra) ltac:(lra)) as N1. pose proof (pn_mul _ _ _ _ _ _ _ _ _ _ N1 Hc ltac:(lra) ltac:(lra) ltac:(lra) ltac:(lra)) as N2.
    unfold g_prism_volume. apply (pn_final _ _ _ _ _ _ N2). lra.
Qed.
Definition near3 (t : fl * fl * fl) (X : V3) (k : R) : Prop := near (fst (fst t)) (vx X) k /\ near (snd (fst t)) (vy X) k /\ near (snd t) (vz X) k.
(** principal moments *)
Theorem C142_moments : forall r h a b c m, length_ok r -> length_ok h -> length_ok a -> length_ok b -> length_ok c -> mass_ok m ->
  near3 (sph_inertia o r m) (inertia_principal_cm (solid_of (Ball (B2R r))) (B2R m)) 5 /\
  near3 (cyl_inertia o r h m) (inertia_principal_cm (solid_of (Cyl (B2R r) (B2R h))) (B2R m)) 6 /\
  near3 (g_prism_inertia o a b c m) (inertia_principal_cm (solid_of (Box (B2R a) (B2R b) (B2R c))) (B2R m)) 5.
Proof.
  intros r h a b c m Hr Hh Ha Hb Hc Hm. apply pn_len in Hr, Hh, Ha, Hb, Hc. apply pn_mass in Hm.
  split; [|split].
  - pose proof (pn_div _ _ _ _ _ _ _ _ _ _ n2 n5 ltac:(lra) ltac:(lra) ltac:(lra) ltac:(lra)) as N1. pose proof (pn_mul _ _ _ _ _ _ _ _ _ _ N1 Hm ltac:(lra) ltac:(lra) ltac:(lra) ltac:(lra)) as N2.
    pose proof (pn_mul _ _ _ _ _ _ _ _ _ _ N2 Hr ltac:(lra) ltac:(lra) ltac:(lra) ltac:(lra)) as N3. pose proof (pn_mul _ _ _ _ _ _ _ _ _ _ N3 Hr ltac:(lra) ltac:(lra) ltac:(lra) ltac:(lra)) as N4.
    destruct (sph_parts o r m) as (P1 & P2 & P3). destruct (sph_real (B2R r) (B2R m)) as (Q1 & Q2 & Q3). unfold near3. rewrite P1, P2, P3, Q1, Q2, Q3.
    split; [|split]; apply (pn_final _ _ _ _ _ _ N4); lra.
  - pose proof (pn_div _ _ _ _ _ _ _ _ _ _ n1 n2 ltac:(lra) ltac:(lra) ltac:(lra) ltac:(lra)) as NH.
    pose proof (pn_mul _ _ _ _ _ _ _ _ _ _ Hr Hr ltac:(lra) ltac:(lra) ltac:(lra) ltac:(lra)) as R2. pose proof (pn_mul _ _ _ _ _ _ _ _ _ _ Hh Hh ltac:(lra) ltac:(lra) ltac:(lra) ltac:(lra)) as H2.
    pose proof (pn_mul _ _ _ _ _ _ _ _ _ _ Hm R2 ltac:(lra) ltac:(lra) ltac:(lra) ltac:(lra)) as Z1. pose proof (pn_mul _ _ _ _ _ _ _ _ _ _ Z1 NH ltac:(lra) ltac:(lra) ltac:(lra) ltac:(lra)) as Z2.
    pose proof (pn_mul _ _ _ _ _ _ _ _ _ _ Hm n3 ltac:(lra) ltac:(lra) ltac:(lra) ltac:(lra)) as X1. pose proof (pn_mul _ _ _ _ _ _ _ _ _ _ X1 R2 ltac:(lra) ltac:(lra) ltac:(lra) ltac:(lra)) as X2.
    pose proof (pn_mul _ _ _ _ _ _ _ _ _ _ Hm H2 ltac:(lra) ltac:(lra) ltac:(lra) ltac:(lra)) as X3. pose proof (pn_add _ _ _ _ _ _ _ _ _ _ X2 X3 ltac:(lra) ltac:(lra) ltac:(lra)) as X4.
    pose proof (pn_div _ _ _ _ _ _ _ _ _ _ X4 n12 ltac:(lra) ltac:(lra) ltac:(lra) ltac:(lra)) as X5.
    destruct (cyl_parts o r h m) as (P1 & P2 & P3). destruct (cyl_real (B2R r) (B2R h) (B2R m)) as (Q1 & Q2 & Q3). unfold near3. rewrite P1, P2, P3, Q1, Q2, Q3.
    split; [|split]; [apply (pn_final _ _ _ _ _ _ X5); lra|apply (pn_final _ _ _ _ _ _ X5); lra|apply (pn_final _ _ _ _ _ _ Z2); lra].
  - destruct (prism_parts o a b c m) as (P1 & P2 & P3). destruct (prism_real (B2R a) (B2R b) (B2R c) (B2R m)) as (Q1 & Q2 & Q3). unfold near3. rewrite P1, P2, P3, Q1, Q2, Q3.
    assert (K : forall x y, pn x (B2R x) 0 (/ 1000) 1000 -> pn y (B2R y) 0 (/ 1000) 1000 -> near (div o (mul o m (add o (mul o x x) (mul o y y))) (g_twelve o)) (B2R m * (B2R x * B2R x + B2R y * B2R y) / 12) 5).
    { intros x y Hx Hy. pose proof (pn_mul _ _ _ _ _ _ _ _ _ _ Hx Hx ltac:(lra) ltac:(lra) ltac:(lra) ltac:(lra)) as X1. pose proof (pn_mul _ _ _ _ _ _ _ _ _ _ Hy Hy ltac:(lra) ltac:(lra) ltac:(lra) ltac:(lra)) as X2.
      pose proof (pn_add _ _ _ _ _ _ _ _ _ _ X1 X2 ltac:(lra) ltac:(lra) ltac:(lra)) as X3. pose proof (pn_mul _ _ _ _ _ _ _ _ _ _ Hm X3 ltac:(lra) ltac:(lra) ltac:(lra) ltac:(lra)) as X4.
      pose proof (pn_div _ _ _ _ _ _ _ _ _ _ X4 n12 ltac:(lra) ltac:(lra) ltac:(lra) ltac:(lra)) as X5. apply (pn_final _ _ _ _ _ _ X5). lra. }
    split; [|split]; apply K; assumption.
Qed.
End Width.

Local Instance p53 : Prec_gt_0 53 := eq_refl.
Local Instance e53 : Prec_lt_emax 53 1024 := eq_refl.
(** the constant of the standard library is that accurate, and a ball of radius 1.5 m is a case *)
Example C142_nontrivial : near (pi64 : binary_float 53 1024) PI 2 /\ length_ok 53 1024 (@B754_finite 53 1024 false 6755399441055744 (-52) eq_refl) /\ mass_ok 53 1024 (@B754_finite 53 1024 false 6755399441055744 (-52) eq_refl) /\
  near (sph_volume (float_ops 53 1024) pi64 (@B754_finite 53 1024 false 6755399441055744 (-52) eq_refl)) (shape_int (Ball 1.5) (fun _ => 1)) 8.
Proof.
  assert (Npi : near (pi64 : binary_float 53 1024) PI 2).
  { split; [reflexivity|]. eapply Rle_trans; [apply pi_error|]. pose proof PI2_3_2. unfold unit. change (-52)%Z with (1 + - (53))%Z. rewrite bpow_plus. change (bpow radix2 1) with 2. rewrite Rabs_pos_eq by lra.
    pose proof (bpow_gt_0 radix2 (- (53))). rewrite <- (Rmult_1_r (2 * bpow radix2 (- (53)))) at 1. apply Rmult_le_compat_l; lra. }
  assert (E : B2R (@B754_finite 53 1024 false 6755399441055744 (-52) eq_refl) = 1.5) by (unfold B2R, F2R; cbn; lra).
  assert (L : length_ok 53 1024 (@B754_finite 53 1024 false 6755399441055744 (-52) eq_refl)) by (split; [reflexivity|rewrite E; lra]).
  split; [exact Npi|]. split; [exact L|]. split; [split; [reflexivity|rewrite E; lra]|]. destruct (C142_volumes 53 1024 ltac:(lia) ltac:(lia) pi64 Npi _ _ _ _ _ L L L L L) as [K _]. rewrite E in K. exact K.
Qed.
