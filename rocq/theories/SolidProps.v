(** Solids: C69, C94. *)
From Coq Require Import Reals Lra Psatz.
From Coquelicot Require Import Coquelicot.
From Verif Require Import Scalar LinModel Geo3 Trig SolidModel SolidSpec SolidProofs.
Local Open Scope R_scope.

(** * C94: the closed forms of each shape are its integrals *)
(** volume; centre at the origin; products of inertia zero; principal moments of a body of mass m *)
Theorem C94_shapes s m :
  let J := shape_int s in let V := volume (solid_of s) in let I := inertia_principal_cm (solid_of s) m in
  V = J (fun _ => 1) /\
  J vx = 0 /\ J vy = 0 /\ J vz = 0 /\
  J (fun p => vx p * vy p) = 0 /\ J (fun p => vx p * vz p) = 0 /\ J (fun p => vy p * vz p) = 0 /\
  vx I * V = m * J (fun p => vy p * vy p + vz p * vz p) /\
  vy I * V = m * J (fun p => vx p * vx p + vz p * vz p) /\
  vz I * V = m * J (fun p => vx p * vx p + vy p * vy p).
Proof.
  intros J V I.
  assert (Q : forall k f, (forall v, f v = qeval k v) -> J f = V * (k0 k + kxx k * vx (sq_mean s) + kyy k * vy (sq_mean s) + kzz k * vz (sq_mean s))).
  { intros k f H. unfold J. rewrite (shape_ext s f (qeval k) H). apply shape_quad. }
  unfold I. rewrite shape_inertia. cbn [vx vy vz]. fold V.
  rewrite (Q (mkQd 1 0 0 0 0 0 0 0 0 0) (fun _ => 1)) by (intros; unfold qeval; cbn; ring).
  rewrite (Q (mkQd 0 1 0 0 0 0 0 0 0 0) vx) by (intros; unfold qeval; cbn; ring).
  rewrite (Q (mkQd 0 0 1 0 0 0 0 0 0 0) vy) by (intros; unfold qeval; cbn; ring).
  rewrite (Q (mkQd 0 0 0 1 0 0 0 0 0 0) vz) by (intros; unfold qeval; cbn; ring).
  rewrite (Q (mkQd 0 0 0 0 0 0 0 1 0 0) (fun p => vx p * vy p)) by (intros; unfold qeval; cbn; ring).
  rewrite (Q (mkQd 0 0 0 0 0 0 0 0 1 0) (fun p => vx p * vz p)) by (intros; unfold qeval; cbn; ring).
  rewrite (Q (mkQd 0 0 0 0 0 0 0 0 0 1) (fun p => vy p * vz p)) by (intros; unfold qeval; cbn; ring).
  rewrite (Q (mkQd 0 0 0 0 0 1 1 0 0 0) (fun p => vy p * vy p + vz p * vz p)) by (intros; unfold qeval; cbn; ring).
  rewrite (Q (mkQd 0 0 0 0 1 0 1 0 0 0) (fun p => vx p * vx p + vz p * vz p)) by (intros; unfold qeval; cbn; ring).
  rewrite (Q (mkQd 0 0 0 0 1 1 0 0 0 0) (fun p => vx p * vx p + vy p * vy p)) by (intros; unfold qeval; cbn; ring).
  cbn [k0 kxx kyy kzz]. repeat split; ring.
Qed.
Definition positive (s : shape) : Prop := match s with Ball r => 0 < r | Cyl r h => 0 < r /\ 0 < h | Box a b c => 0 < a /\ 0 < b /\ 0 < c end.
(** volumes and moments of real shapes are positive, and no principal moment exceeds the sum of the others *)
Theorem C94_physical s m : positive s -> 0 < m ->
  let I := inertia_principal_cm (solid_of s) m in
  0 < volume (solid_of s) /\ 0 < vx I /\ 0 < vy I /\ 0 < vz I /\
  vx I < vy I + vz I /\ vy I < vx I + vz I /\ vz I < vx I + vy I.
Proof.
  intros Hs Hm I. pose proof PI_RGT_0 as P.
  assert (S : 0 < vx (sq_mean s) /\ 0 < vy (sq_mean s) /\ 0 < vz (sq_mean s)).
  { destruct s; cbn in Hs |- *; repeat split; nra. }
  destruct S as (S1 & S2 & S3). split.
  - destruct s; cbn in Hs |- *.
    + replace ((1 + 1 + 1 + 1) / (1 + 1 + 1) * PI * r * r * r) with (4 / 3 * PI * (r * r * r)) by field.
      apply Rmult_lt_0_compat; [lra|]. apply Rmult_lt_0_compat; [|lra]. nra.
    + apply Rmult_lt_0_compat; [|lra]. apply Rmult_lt_0_compat; [|lra]. nra.
    + apply Rmult_lt_0_compat; [|lra]. nra.
  - unfold I. rewrite shape_inertia. cbn [vx vy vz]. generalize dependent (sq_mean s). intros q S1 S2 S3.
    assert (0 < m * vx q) by nra. assert (0 < m * vy q) by nra. assert (0 < m * vz q) by nra.
    repeat split; lra.
Qed.
Example C94_nontrivial : positive (Cyl (1/2) 2) /\ positive (Box 2 (12/10) (8/10)) /\ volume (solid_of (Box 2 3 4)) = 24.
Proof. cbn. repeat split; lra. Qed.

(** * C69: composition *)
(** a body: a shape with a density and a pose *)
Record body := mkB { b_shape : shape; b_rho : R; b_A : M3; b_r : V3 }.
Definition mm_of (b : body) : mass_model := mkMM (solid_of (b_shape b)) (b_rho b) (b_A b) (b_r b).
(** integral over the placed body of its density times f *)
Definition mass_int (b : body) (f : V3 -> R) : R := b_rho b * shape_int (b_shape b) (fun x => f (place (b_A b) (b_r b) x)).

Lemma mass_int_1 b : mass_int b (fun _ => 1) = b_rho b * volume (solid_of (b_shape b)).
Proof. unfold mass_int. rewrite (shape_const (b_shape b) 1). ring. Qed.
Lemma mass_int_lin b n : mass_int b (Dot n) = b_rho b * volume (solid_of (b_shape b)) * Dot n (b_r b).
Proof.
  unfold mass_int. rewrite (shape_ext _ _ (fun x => Dot n (b_r b) + Dot (App (Tr (b_A b)) n) x)).
  - rewrite shape_lin. ring.
  - intros v. unfold place, Dot; cbn; ring.
Qed.
Lemma mass_int_dist b n p : rotation (b_A b) -> mass_int b (dist2 n p) =
  moment (placed_inertia (b_A b) (inertia_principal_cm (solid_of (b_shape b)) (b_rho b * volume (solid_of (b_shape b))))) n
  + b_rho b * volume (solid_of (b_shape b)) * Dot (Cross n (Vsub (b_r b) p)) (Cross n (Vsub (b_r b) p)).
Proof. intros H. apply body_moment. exact H. Qed.

(** the algebra of both operations: sg is +1 or -1, I1 and I2 the tensors at the two centres of mass *)
Lemma combine_moment I1 I2 m1 m2 r1 r2 sg mass com n :
  mass = m1 + sg * m2 -> mass <> 0 -> com = mkV ((m1 * vx r1 + sg * m2 * vx r2) / mass) ((m1 * vy r1 + sg * m2 * vy r2) / mass) ((m1 * vz r1 + sg * m2 * vz r2) / mass) ->
  moment I1 n + m1 * Dot (Cross n r1) (Cross n r1) + sg * (moment I2 n + m2 * Dot (Cross n r2) (Cross n r2)) - mass * Dot (Cross n com) (Cross n com) =
  moment I1 n + m1 * Dot (Cross n (Vsub r1 com)) (Cross n (Vsub r1 com)) + sg * (moment I2 n + m2 * Dot (Cross n (Vsub r2 com)) (Cross n (Vsub r2 com))).
Proof.
  intros Hm Hz Hc.
  set (w1 := Cross n r1). set (w2 := Cross n r2). set (w := Cross n com).
  assert (E1 : Cross n (Vsub r1 com) = Vsub w1 w) by (apply V3_eq; cbn; ring).
  assert (E2 : Cross n (Vsub r2 com) = Vsub w2 w) by (apply V3_eq; cbn; ring).
  rewrite E1, E2.
  assert (X : Vscale mass w = Vadd (Vscale m1 w1) (Vscale (sg * m2) w2)).
  { unfold w, w1, w2. rewrite Hc. apply V3_eq; cbn; field; exact Hz. }
  assert (D : forall a b, Dot (Vsub a b) (Vsub a b) = Dot a a - 2 * Dot a b + Dot b b) by (intros; unfold Dot; cbn; ring).
  rewrite !D.
  assert (Y : mass * Dot w w = m1 * Dot w1 w + sg * m2 * Dot w2 w).
  { transitivity (Dot (Vscale mass w) w); [unfold Dot; cbn; ring|]. rewrite X. unfold Dot; cbn; ring. }
  transitivity (moment I1 n + m1 * Dot w1 w1 + sg * (moment I2 n + m2 * Dot w2 w2) - 2 * (mass * Dot w w) + (m1 + sg * m2) * Dot w w).
  - rewrite <- Hm. ring.
  - rewrite Y. ring.
Qed.

Lemma placed_fold A p : m_mul (m_mul A (m_diag p)) (m_tr A) = placed_inertia A p.
Proof. reflexivity. Qed.
Local Opaque parallel_axis m_zeros Madd Mscale placed_inertia m_add m_sub.
(** the sum of two bodies: volume, mass, first moment about every direction, and the moment of
    inertia about every axis through the reported centre of mass are the integrals over both *)
Theorem C69_add a b p : rotation (b_A a) -> rotation (b_A b) -> mm_add (mm_of a) (mm_of b) = Some p ->
  mp_volume p = shape_int (b_shape a) (fun _ => 1) + shape_int (b_shape b) (fun _ => 1) /\
  mp_mass p = mass_int a (fun _ => 1) + mass_int b (fun _ => 1) /\
  mp_density p * mp_volume p = mp_mass p /\
  (forall n, mp_mass p * Dot n (mp_com p) = mass_int a (Dot n) + mass_int b (Dot n)) /\
  (forall n, moment (mp_inertia p) n = mass_int a (dist2 n (mp_com p)) + mass_int b (dist2 n (mp_com p))) /\
  symmetric (mp_inertia p) /\ 0 < mp_volume p /\ 0 < mp_mass p.
Proof.
  intros Ra Rb H. unfold mm_add in H. cbn [mm_solid mm_density mm_R mm_r mm_of] in H.
  set (va := volume (solid_of (b_shape a))) in *. set (vb := volume (solid_of (b_shape b))) in *.
  destruct (orb (Rleb va 0) (Rleb vb 0)) eqn:E1; [discriminate|].
  set (ma := b_rho a * va) in *. set (mb := b_rho b * vb) in *.
  destruct (orb (Rleb (ma + mb) 0) (Rleb (va + vb) 0)) eqn:E2; [discriminate|].
  apply Bool.orb_false_iff in E2. destruct E2 as [E2 E3]. apply Rleb_false in E2, E3.
  rewrite !placed_fold in H.
  set (Ia := placed_inertia (b_A a) _) in *. set (Ib := placed_inertia (b_A b) _) in *.
  rewrite v_div_eq, v_add_eq, !v_scale_eq in H. cbn [vx vy vz Vadd Vscale] in H.
  set (com := mkV _ _ _) in *. injection H as <-. cbn [mp_volume mp_mass mp_density mp_com mp_inertia].
  assert (M1 : mass_int a (fun _ => 1) = ma) by apply mass_int_1. assert (M2 : mass_int b (fun _ => 1) = mb) by apply mass_int_1.
  rewrite M1, M2, !shape_const. fold va vb.
  split; [ring|]. split; [reflexivity|]. split; [field; lra|]. split; [|split; [|split; [|split; lra]]].
  - intros n. rewrite !mass_int_lin. fold va vb ma mb. unfold com, Dot; cbn. field. lra.
  - intros n. rewrite !mass_int_dist by auto. fold va vb ma mb Ia Ib. clearbody Ia Ib.
    rewrite moment_msub, moment_madd, !moment_parallel, moment_zeros.
    pose proof (combine_moment Ia Ib ma mb (b_r a) (b_r b) 1 (ma + mb) com n) as C.
    rewrite !Rmult_1_l in C. rewrite <- C; [ring|ring|lra|reflexivity].
  - apply sym_msub; [apply sym_madd|]; apply sym_parallel; first [apply sym_zeros|apply sym_placed].
Qed.

(** the difference: the same integrals, subtracted *)
Theorem C69_sub a b p : rotation (b_A a) -> rotation (b_A b) -> mm_sub (mm_of a) (mm_of b) = Some p ->
  mp_volume p = shape_int (b_shape a) (fun _ => 1) - shape_int (b_shape b) (fun _ => 1) /\
  mp_mass p = mass_int a (fun _ => 1) - mass_int b (fun _ => 1) /\
  mp_density p * mp_volume p = mp_mass p /\
  (forall n, mp_mass p * Dot n (mp_com p) = mass_int a (Dot n) - mass_int b (Dot n)) /\
  (forall n, moment (mp_inertia p) n = mass_int a (dist2 n (mp_com p)) - mass_int b (dist2 n (mp_com p))) /\
  symmetric (mp_inertia p) /\ 0 < mp_volume p /\ 0 < mp_mass p.
Proof.
  intros Ra Rb H. unfold mm_sub in H. cbn [mm_solid mm_density mm_R mm_r mm_of] in H.
  set (va := volume (solid_of (b_shape a))) in *. set (vb := volume (solid_of (b_shape b))) in *.
  destruct (orb (Rleb va 0) (Rleb vb 0)) eqn:E1; [discriminate|].
  set (ma := b_rho a * va) in *. set (mb := b_rho b * vb) in *.
  destruct (orb (Rleb (ma - mb) 0) (Rleb (va - vb) 0)) eqn:E2; [discriminate|].
  apply Bool.orb_false_iff in E2. destruct E2 as [E2 E3]. apply Rleb_false in E2, E3.
  rewrite !placed_fold in H.
  set (Ia := placed_inertia (b_A a) _) in *. set (Ib := placed_inertia (b_A b) _) in *.
  rewrite v_div_eq, v_sub_eq, !v_scale_eq in H. cbn [vx vy vz Vsub Vscale] in H.
  set (com := mkV _ _ _) in *. injection H as <-. cbn [mp_volume mp_mass mp_density mp_com mp_inertia].
  assert (M1 : mass_int a (fun _ => 1) = ma) by apply mass_int_1. assert (M2 : mass_int b (fun _ => 1) = mb) by apply mass_int_1.
  rewrite M1, M2, !shape_const. fold va vb.
  split; [ring|]. split; [reflexivity|]. split; [field; lra|]. split; [|split; [|split; [|split; lra]]].
  - intros n. rewrite !mass_int_lin. fold va vb ma mb. unfold com, Dot; cbn. field. lra.
  - intros n. rewrite !mass_int_dist by auto. fold va vb ma mb Ia Ib. clearbody Ia Ib.
    rewrite moment_msub, moment_msub, !moment_parallel, moment_zeros.
    pose proof (combine_moment Ia Ib ma mb (b_r a) (b_r b) (-1) (ma - mb) com n) as C.
    match goal with |- _ = ?x - ?y => replace (x - y) with (x + -1 * y) by ring end.
    rewrite <- C; [ring|ring|lra|unfold com; f_equal; f_equal; ring].
  - apply sym_msub; [apply sym_msub|]; apply sym_parallel; first [apply sym_zeros|apply sym_placed].
Qed.

(** when a result is reported *)
Theorem C69_some a b :
  let va := volume (mm_solid a) in let vb := volume (mm_solid b) in
  let ma := mm_density a * va in let mb := mm_density b * vb in
  (mm_add a b <> None <-> 0 < va /\ 0 < vb /\ 0 < ma + mb) /\
  (mm_sub a b <> None <-> 0 < va /\ 0 < vb /\ vb < va /\ mb < ma).
Proof.
  intros va vb ma mb.
  assert (N : forall x, Rleb x 0 = true \/ Rleb x 0 = false /\ 0 < x).
  { intros x. destruct (Rleb x 0) eqn:E; auto. right. apply Rleb_false in E. auto. }
  assert (T : forall x, Rleb x 0 = true -> x <= 0) by (intros x Hx; apply Rleb_true; exact Hx).
  unfold mm_add, mm_sub. fold va vb ma mb. split.
  - destruct (N va) as [Ea|[Ea Ha]]; rewrite Ea; cbn [orb]; [split; [congruence|intros (X & _); apply T in Ea; lra]|].
    destruct (N vb) as [Eb|[Eb Hb]]; rewrite Eb; cbn [orb]; [split; [congruence|intros (_ & X & _); apply T in Eb; lra]|].
    destruct (N (ma + mb)) as [Em|[Em Hm]]; rewrite Em; cbn [orb]; [split; [congruence|intros (_ & _ & X); apply T in Em; lra]|].
    destruct (N (va + vb)) as [Ev|[Ev Hv]]; rewrite Ev; cbn [orb]; [apply T in Ev; lra|].
    split; [auto|intros _; discriminate].
  - destruct (N va) as [Ea|[Ea Ha]]; rewrite Ea; cbn [orb]; [split; [congruence|intros (X & _); apply T in Ea; lra]|].
    destruct (N vb) as [Eb|[Eb Hb]]; rewrite Eb; cbn [orb]; [split; [congruence|intros (_ & X & _); apply T in Eb; lra]|].
    destruct (N (ma - mb)) as [Em|[Em Hm]]; rewrite Em; cbn [orb]; [split; [congruence|intros (_ & _ & _ & X); apply T in Em; lra]|].
    destruct (N (va - vb)) as [Ev|[Ev Hv]]; rewrite Ev; cbn [orb]; [split; [congruence|intros (_ & _ & X & _); apply T in Ev; lra]|].
    split; [intros _; repeat split; lra|intros _; discriminate].
Qed.

(** * Any solids, any pose matrices *)
Lemma sym_ext A B : symmetric A -> symmetric B -> (forall n, moment A n = moment B n) -> A = B.
Proof.
  intros HA HB H. unfold symmetric in *.
  pose proof (f_equal m01 HA) as A1. pose proof (f_equal m02 HA) as A2. pose proof (f_equal m12 HA) as A3.
  pose proof (f_equal m01 HB) as B1. pose proof (f_equal m02 HB) as B2. pose proof (f_equal m12 HB) as B3.
  cbn in A1, A2, A3, B1, B2, B3.
  pose proof (H (mkV 1 0 0)) as X. pose proof (H (mkV 0 1 0)) as Y. pose proof (H (mkV 0 0 1)) as Z.
  pose proof (H (mkV 1 1 0)) as XY. pose proof (H (mkV 1 0 1)) as XZ. pose proof (H (mkV 0 1 1)) as YZ.
  unfold moment, Dot in *. cbn in X, Y, Z, XY, XZ, YZ. apply M3_eq; lra.
Qed.
Definition wsum (m1 m2 : R) (r1 r2 : V3) (mass : R) : V3 :=
  mkV ((m1 * vx r1 + m2 * vx r2) / mass) ((m1 * vy r1 + m2 * vy r2) / mass) ((m1 * vz r1 + m2 * vz r2) / mass).
Definition tensor_of (a : mass_model) : M3 := placed_inertia (mm_R a) (inertia_principal_cm (mm_solid a) (mm_density a * volume (mm_solid a))).
Definition mass_of (a : mass_model) : R := mm_density a * volume (mm_solid a).
(** moment about the axis n through P of a part with tensor I at its centre of mass r *)
Definition about (I : M3) (m : R) (r P n : V3) : R := moment I n + m * dist2 n P r.

Lemma add_facts a b p : mm_add a b = Some p ->
  mp_volume p = volume (mm_solid a) + volume (mm_solid b) /\ mp_mass p = mass_of a + mass_of b /\
  mp_density p = mp_mass p / mp_volume p /\ 0 < mp_mass p /\ 0 < mp_volume p /\
  mp_com p = wsum (mass_of a) (mass_of b) (mm_r a) (mm_r b) (mp_mass p) /\ symmetric (mp_inertia p) /\
  forall n, moment (mp_inertia p) n = about (tensor_of a) (mass_of a) (mm_r a) (mp_com p) n + about (tensor_of b) (mass_of b) (mm_r b) (mp_com p) n.
Proof.
  intros H. unfold mm_add in H. fold (mass_of a) (mass_of b) in H.
  destruct (orb (Rleb (volume (mm_solid a)) 0) (Rleb (volume (mm_solid b)) 0)); [discriminate|].
  destruct (orb (Rleb (mass_of a + mass_of b) 0) (Rleb (volume (mm_solid a) + volume (mm_solid b)) 0)) eqn:E2; [discriminate|].
  apply Bool.orb_false_iff in E2. destruct E2 as [E2 E3]. apply Rleb_false in E2, E3. rewrite !placed_fold in H.
  change (placed_inertia (mm_R a) _) with (tensor_of a) in H. change (placed_inertia (mm_R b) _) with (tensor_of b) in H.
  rewrite v_div_eq, v_add_eq, !v_scale_eq in H. cbn [vx vy vz Vadd Vscale] in H.
  assert (Sa : symmetric (tensor_of a)) by apply sym_placed. assert (Sb : symmetric (tensor_of b)) by apply sym_placed.
  generalize dependent (tensor_of a). generalize dependent (tensor_of b). intros Ib Sb Ia H Sa.
  fold (wsum (mass_of a) (mass_of b) (mm_r a) (mm_r b) (mass_of a + mass_of b)) in H.
  set (com := wsum _ _ _ _ _) in *. injection H as <-. cbn [mp_volume mp_mass mp_density mp_com mp_inertia].
  repeat split; try lra.
  - apply sym_msub; [apply sym_madd|]; apply sym_parallel; auto using sym_zeros.
  - intros n. rewrite moment_msub, moment_madd, !moment_parallel, moment_zeros. unfold about, dist2.
    pose proof (combine_moment Ia Ib (mass_of a) (mass_of b) (mm_r a) (mm_r b) 1 (mass_of a + mass_of b) com n) as C.
    rewrite !Rmult_1_l in C. rewrite <- C; [ring|ring|lra|reflexivity].
Qed.
Lemma sub_facts a b p : mm_sub a b = Some p ->
  mp_volume p = volume (mm_solid a) - volume (mm_solid b) /\ mp_mass p = mass_of a - mass_of b /\
  mp_density p = mp_mass p / mp_volume p /\ 0 < mp_mass p /\ 0 < mp_volume p /\
  mp_com p = wsum (mass_of a) (- mass_of b) (mm_r a) (mm_r b) (mp_mass p) /\ symmetric (mp_inertia p) /\
  forall n, moment (mp_inertia p) n = about (tensor_of a) (mass_of a) (mm_r a) (mp_com p) n - about (tensor_of b) (mass_of b) (mm_r b) (mp_com p) n.
Proof.
  intros H. unfold mm_sub in H. fold (mass_of a) (mass_of b) in H.
  destruct (orb (Rleb (volume (mm_solid a)) 0) (Rleb (volume (mm_solid b)) 0)); [discriminate|].
  destruct (orb (Rleb (mass_of a - mass_of b) 0) (Rleb (volume (mm_solid a) - volume (mm_solid b)) 0)) eqn:E2; [discriminate|].
  apply Bool.orb_false_iff in E2. destruct E2 as [E2 E3]. apply Rleb_false in E2, E3. rewrite !placed_fold in H.
  change (placed_inertia (mm_R a) _) with (tensor_of a) in H. change (placed_inertia (mm_R b) _) with (tensor_of b) in H.
  rewrite v_div_eq, v_sub_eq, !v_scale_eq in H. cbn [vx vy vz Vsub Vscale] in H.
  assert (Sa : symmetric (tensor_of a)) by apply sym_placed. assert (Sb : symmetric (tensor_of b)) by apply sym_placed.
  generalize dependent (tensor_of a). generalize dependent (tensor_of b). intros Ib Sb Ia H Sa.
  assert (Ec : mkV ((mass_of a * vx (mm_r a) - mass_of b * vx (mm_r b)) / (mass_of a - mass_of b))
     ((mass_of a * vy (mm_r a) - mass_of b * vy (mm_r b)) / (mass_of a - mass_of b)) ((mass_of a * vz (mm_r a) - mass_of b * vz (mm_r b)) / (mass_of a - mass_of b))
     = wsum (mass_of a) (- mass_of b) (mm_r a) (mm_r b) (mass_of a - mass_of b)) by (apply V3_eq; cbn; field; lra).
  rewrite Ec in H. set (com := wsum _ _ _ _ _) in *. injection H as <-. cbn [mp_volume mp_mass mp_density mp_com mp_inertia].
  repeat split; try lra.
  - apply sym_msub; [apply sym_msub|]; apply sym_parallel; auto using sym_zeros.
  - intros n. rewrite moment_msub, moment_msub, !moment_parallel, moment_zeros. unfold about, dist2.
    pose proof (combine_moment Ia Ib (mass_of a) (mass_of b) (mm_r a) (mm_r b) (-1) (mass_of a - mass_of b) com n) as C.
    match goal with |- _ = ?x - ?y => replace (x - y) with (x + -1 * y) by ring end.
    rewrite <- C; [ring|ring|lra|]. unfold com, wsum. apply V3_eq; cbn; field; lra.
Qed.

(** two weighted points seen from any P *)
Lemma wsum_any m1 m2 r1 r2 P n : m1 + m2 <> 0 ->
  let com := wsum m1 m2 r1 r2 (m1 + m2) in
  m1 * dist2 n com r1 + m2 * dist2 n com r2 + (m1 + m2) * dist2 n P com = m1 * dist2 n P r1 + m2 * dist2 n P r2.
Proof.
  intros Hz com. unfold dist2. cbv zeta.
  set (w1 := Cross n (Vsub r1 P)). set (w2 := Cross n (Vsub r2 P)). set (w := Cross n (Vsub com P)).
  assert (E1 : Cross n (Vsub r1 com) = Vsub w1 w) by (apply V3_eq; cbn; ring).
  assert (E2 : Cross n (Vsub r2 com) = Vsub w2 w) by (apply V3_eq; cbn; ring).
  rewrite E1, E2.
  assert (X : Vscale (m1 + m2) w = Vadd (Vscale m1 w1) (Vscale m2 w2)).
  { unfold w, w1, w2, com. apply V3_eq; cbn; field; exact Hz. }
  assert (D : forall a b, Dot (Vsub a b) (Vsub a b) = Dot a a - 2 * Dot a b + Dot b b) by (intros; unfold Dot; cbn; ring).
  rewrite !D.
  assert (Y : (m1 + m2) * Dot w w = m1 * Dot w1 w + m2 * Dot w2 w).
  { transitivity (Dot (Vscale (m1 + m2) w) w); [unfold Dot; cbn; ring|]. rewrite X. unfold Dot; cbn; ring. }
  clearbody w1 w2 w. clear - Y. lra.
Qed.

(** adding, for every point P and axis: the moment of the whole about P is the sum of the moments of
    the parts about P.  So taking either part away again leaves the other, and subtraction is the
    inverse of addition at every point. *)
Theorem C69_any_point a b p P n :
  (mm_add a b = Some p -> about (mp_inertia p) (mp_mass p) (mp_com p) P n =
     about (tensor_of a) (mass_of a) (mm_r a) P n + about (tensor_of b) (mass_of b) (mm_r b) P n) /\
  (mm_sub a b = Some p -> about (mp_inertia p) (mp_mass p) (mp_com p) P n + about (tensor_of b) (mass_of b) (mm_r b) P n =
     about (tensor_of a) (mass_of a) (mm_r a) P n).
Proof.
  split; intros H.
  - destruct (add_facts a b p H) as (_ & Em & _ & Hm & _ & Ec & _ & Hn). unfold about at 1. rewrite Hn. rewrite Em in Ec, Hm |- *.
    pose proof (wsum_any (mass_of a) (mass_of b) (mm_r a) (mm_r b) P n) as W. cbv zeta in W. rewrite <- Ec in W. unfold about. lra.
  - destruct (sub_facts a b p H) as (_ & Em & _ & Hm & _ & Ec & _ & Hn). unfold about at 1. rewrite Hn. rewrite Em in Ec, Hm |- *.
    pose proof (wsum_any (mass_of a) (- mass_of b) (mm_r a) (mm_r b) P n) as W. cbv zeta in W.
    replace (mass_of a + - mass_of b) with (mass_of a - mass_of b) in W by ring. rewrite <- Ec in W. unfold about. lra.
Qed.

Lemma some_both (x y : option mass_props) : (x <> None <-> y <> None) ->
  (forall p q, x = Some p -> y = Some q -> p = q) -> x = y.
Proof.
  intros H1 H2. destruct x as [p|], y as [q|]; auto.
  - f_equal. auto.
  - exfalso. apply (proj1 H1); [discriminate|reflexivity].
  - exfalso. apply (proj2 H1); [discriminate|reflexivity].
Qed.
Lemma mp_eq p q : mp_volume p = mp_volume q -> mp_density p = mp_density q -> mp_mass p = mp_mass q -> mp_com p = mp_com q -> mp_inertia p = mp_inertia q -> p = q.
Proof. destruct p, q; cbn; intros; subst; reflexivity. Qed.

(** the order of the parts does not matter *)
Theorem C69_commutes a b : mm_add a b = mm_add b a.
Proof.
  apply some_both.
  - destruct (C69_some a b) as [-> _]. destruct (C69_some b a) as [-> _]. cbv zeta. split; intros (? & ? & ?); repeat split; lra.
  - intros p q Hp Hq. destruct (add_facts _ _ _ Hp) as (V1 & M1 & D1 & P1 & Q1 & C1 & S1 & N1).
    destruct (add_facts _ _ _ Hq) as (V2 & M2 & D2 & P2 & Q2 & C2 & S2 & N2).
    assert (Em : mp_mass p = mp_mass q) by lra. assert (Ev : mp_volume p = mp_volume q) by lra.
    assert (Ec : mp_com p = mp_com q) by (rewrite C1, C2, Em; apply V3_eq; cbn; f_equal; ring).
    apply mp_eq; auto; [rewrite D1, D2, Em, Ev; reflexivity|]. apply sym_ext; auto. intros n. rewrite N1, N2, Ec. ring.
Qed.

(** moving the assembly origin or turning the assembly axes moves and turns the result and changes
    nothing else *)
Definition moved (Q : M3) (t : V3) (a : mass_model) : mass_model :=
  mkMM (mm_solid a) (mm_density a) (Mul Q (mm_R a)) (Vadd (App Q (mm_r a)) t).
Definition moved_props (Q : M3) (t : V3) (p : mass_props) : mass_props :=
  mkMP (mp_volume p) (mp_density p) (mp_mass p) (Vadd (App Q (mp_com p)) t) (Mul (Mul Q (mp_inertia p)) (Tr Q)).
Lemma moment_conj Q A n : moment (Mul (Mul Q A) (Tr Q)) n = moment A (App (Tr Q) n).
Proof. unfold moment, Dot; cbn; ring. Qed.
Lemma tensor_moved Q t a n : moment (tensor_of (moved Q t a)) n = moment (tensor_of a) (App (Tr Q) n).
Proof. unfold tensor_of, moved. cbn [mm_solid mm_density mm_R]. rewrite !moment_placed, Tr_Mul, App_Mul. reflexivity. Qed.
Lemma dist2_moved Q t n p q : rotation Q -> dist2 n (Vadd (App Q p) t) (Vadd (App Q q) t) = dist2 (App (Tr Q) n) p q.
Proof.
  intros HQ. unfold dist2. cbv zeta.
  assert (E : Cross n (Vsub (Vadd (App Q q) t) (Vadd (App Q p) t)) = App Q (Cross (App (Tr Q) n) (Vsub q p))).
  { rewrite rotation_Cross, rotation_cancel' by auto. f_equal. apply V3_eq; cbn; ring. }
  rewrite E, rotation_Dot by auto. reflexivity.
Qed.
Lemma about_moved Q t a P n : rotation Q ->
  about (tensor_of (moved Q t a)) (mass_of (moved Q t a)) (mm_r (moved Q t a)) (Vadd (App Q P) t) n =
  about (tensor_of a) (mass_of a) (mm_r a) P (App (Tr Q) n).
Proof. intros HQ. unfold about. rewrite tensor_moved. cbn [moved mm_r]. rewrite dist2_moved by auto. reflexivity. Qed.
Lemma sym_conj Q A : symmetric A -> symmetric (Mul (Mul Q A) (Tr Q)).
Proof. unfold symmetric. intros H. rewrite !Tr_Mul, Tr_Tr, H, Mul_assoc. reflexivity. Qed.

Theorem C69_moved Q t a b : rotation Q ->
  mm_add (moved Q t a) (moved Q t b) = option_map (moved_props Q t) (mm_add a b) /\
  mm_sub (moved Q t a) (moved Q t b) = option_map (moved_props Q t) (mm_sub a b).
Proof.
  intros HQ.
  assert (O : forall x, option_map (moved_props Q t) x <> None <-> x <> None).
  { intros [|]; cbn; split; congruence. }
  assert (U : forall x q, option_map (moved_props Q t) x = Some q -> exists p, x = Some p /\ q = moved_props Q t p).
  { intros [p|] q E; cbn in E; [|discriminate]. injection E as <-. eauto. }
  split; apply some_both.
  - rewrite O. destruct (C69_some a b) as [-> _]. destruct (C69_some (moved Q t a) (moved Q t b)) as [-> _]. reflexivity.
  - intros p q Hp Hq. apply U in Hq. destruct Hq as (q0 & Hq & ->).
    destruct (add_facts _ _ _ Hp) as (V1 & M1 & D1 & P1 & Q1 & C1 & S1 & N1).
    destruct (add_facts _ _ _ Hq) as (V2 & M2 & D2 & P2 & Q2 & C2 & S2 & N2).
    assert (Em : mp_mass p = mp_mass q0) by (rewrite M1, M2; reflexivity).
    assert (Ev : mp_volume p = mp_volume q0) by (rewrite V1, V2; reflexivity).
    assert (Ec : mp_com p = Vadd (App Q (mp_com q0)) t).
    { rewrite C1, C2, Em, M2. rewrite M2 in P2. change (mass_of (moved Q t a)) with (mass_of a). change (mass_of (moved Q t b)) with (mass_of b).
      unfold moved. cbn [mm_r]. generalize dependent (mass_of a). generalize dependent (mass_of b). intros. unfold wsum. apply V3_eq; cbn; field; lra. }
    apply mp_eq; cbn [moved_props mp_volume mp_density mp_mass mp_com mp_inertia]; auto.
    + rewrite D1, D2, Em, Ev. reflexivity.
    + apply sym_ext; auto using sym_conj. intros n. rewrite moment_conj, N1, N2, Ec, !about_moved by auto. reflexivity.
  - rewrite O. destruct (C69_some a b) as [_ ->]. destruct (C69_some (moved Q t a) (moved Q t b)) as [_ ->]. reflexivity.
  - intros p q Hp Hq. apply U in Hq. destruct Hq as (q0 & Hq & ->).
    destruct (sub_facts _ _ _ Hp) as (V1 & M1 & D1 & P1 & Q1 & C1 & S1 & N1).
    destruct (sub_facts _ _ _ Hq) as (V2 & M2 & D2 & P2 & Q2 & C2 & S2 & N2).
    assert (Em : mp_mass p = mp_mass q0) by (rewrite M1, M2; reflexivity).
    assert (Ev : mp_volume p = mp_volume q0) by (rewrite V1, V2; reflexivity).
    assert (Ec : mp_com p = Vadd (App Q (mp_com q0)) t).
    { rewrite C1, C2, Em, M2. rewrite M2 in P2. change (mass_of (moved Q t a)) with (mass_of a). change (mass_of (moved Q t b)) with (mass_of b).
      unfold moved. cbn [mm_r]. generalize dependent (mass_of a). generalize dependent (mass_of b). intros. unfold wsum. apply V3_eq; cbn; field; lra. }
    apply mp_eq; cbn [moved_props mp_volume mp_density mp_mass mp_com mp_inertia]; auto.
    + rewrite D1, D2, Em, Ev. reflexivity.
    + apply sym_ext; auto using sym_conj. intros n. rewrite moment_conj, N1, N2, Ec, !about_moved by auto. reflexivity.
Qed.

(** the sum of real bodies of nonnegative density has no negative moment about any axis *)
Theorem C69_add_physical a b p : 0 <= b_rho a -> 0 <= b_rho b -> mm_add (mm_of a) (mm_of b) = Some p -> forall n, 0 <= moment (mp_inertia p) n.
Proof.
  intros Ha Hb H n.
  assert (S : mm_add (mm_of a) (mm_of b) <> None) by congruence. apply C69_some in S. destruct S as (Va & Vb & _). cbn [mm_of mm_solid] in Va, Vb.
  destruct (add_facts _ _ _ H) as (_ & _ & _ & _ & _ & _ & _ & N). rewrite N.
  assert (G : forall c P, 0 <= b_rho c -> 0 < volume (solid_of (b_shape c)) -> 0 <= about (tensor_of (mm_of c)) (mass_of (mm_of c)) (mm_r (mm_of c)) P n).
  { intros c P Hc Vc. unfold about, tensor_of, mass_of, mm_of. cbn [mm_solid mm_density mm_R mm_r].
    set (m := b_rho c * volume (solid_of (b_shape c))). assert (Hm : 0 <= m) by (apply Rmult_le_pos; lra).
    rewrite moment_placed, shape_inertia. cbv zeta. set (w := App _ n).
    assert (Q : 0 <= vx (sq_mean (b_shape c)) /\ 0 <= vy (sq_mean (b_shape c)) /\ 0 <= vz (sq_mean (b_shape c))).
    { assert (Y : forall x, 0 <= x * x) by (intros x; apply (Rle_0_sqr x)).
      destruct (b_shape c); cbn; repeat split; match goal with |- 0 <= ?x * ?x / _ => pose proof (Y x); lra end. }
    destruct Q as (Q1 & Q2 & Q3). cbn [vx vy vz].
    assert (Y : forall k x, 0 <= k -> 0 <= k * (x * x)) by (intros; apply Rmult_le_pos; [auto|apply (Rle_0_sqr x)]).
    assert (Z : 0 <= m * dist2 n P (b_r c)) by (apply Rmult_le_pos; [auto|apply Dot_pos]).
    pose proof (Y _ (vx w) (Rmult_le_pos m _ Hm (Rplus_le_le_0_compat _ _ Q2 Q3))).
    pose proof (Y _ (vy w) (Rmult_le_pos m _ Hm (Rplus_le_le_0_compat _ _ Q1 Q3))).
    pose proof (Y _ (vz w) (Rmult_le_pos m _ Hm (Rplus_le_le_0_compat _ _ Q1 Q2))). lra. }
  apply Rplus_le_le_0_compat; apply G; auto.
Qed.
(** subtraction does not check that the inner body lies inside: cutting a unit cube out of empty space
    ten metres away from a two-metre cube reports a negative moment of inertia *)
Theorem C69_sub_physical_refuted : exists a b p n,
  positive (b_shape a) /\ positive (b_shape b) /\ 0 < b_rho a /\ 0 < b_rho b /\ rotation (b_A a) /\ rotation (b_A b) /\
  mm_sub (mm_of a) (mm_of b) = Some p /\ moment (mp_inertia p) n < 0.
Proof.
  set (a := mkB (Box 2 2 2) 1 Id3 V0). set (b := mkB (Box 1 1 1) 1 Id3 (mkV 10 0 0)).
  destruct (mm_sub (mm_of a) (mm_of b)) as [p|] eqn:E.
  - exists a, b, p, (mkV 0 0 1). cbn [b_shape b_rho b_A a b positive]. repeat (split; [try apply rotation_Id; try lra|]).
    + exact E.
    + destruct (sub_facts _ _ _ E) as (_ & M & _ & _ & _ & C & _ & N). rewrite N, C, M.
      assert (Ea : mass_of (mm_of a) = 8) by (unfold a, mass_of; cbn; ring). assert (Eb : mass_of (mm_of b) = 1) by (unfold b, mass_of; cbn; ring).
      assert (Ta : moment (tensor_of (mm_of a)) (mkV 0 0 1) = 16 / 3).
      { unfold tensor_of. rewrite moment_placed. unfold a; cbn; unfold twelve; field. }
      assert (Tb : moment (tensor_of (mm_of b)) (mkV 0 0 1) = 1 / 6).
      { unfold tensor_of. rewrite moment_placed. unfold b; cbn; unfold twelve; field. }
      unfold about. rewrite Ta, Tb, Ea, Eb.
      replace (wsum 8 (- (1)) (mm_r (mm_of a)) (mm_r (mm_of b)) (8 - 1)) with (mkV (- (10 / 7)) 0 0) by (apply V3_eq; cbn; field).
      unfold a, b, dist2, Dot; cbn. lra.
  - exfalso. revert E. apply C69_some. cbn. lra.
Qed.
Example C69_nontrivial : exists p, mm_add (mm_of (mkB (Box 2 2 2) 1 Id3 V0)) (mm_of (mkB (Box 1 1 1) 3 Id3 (mkV 10 0 0))) = Some p.
Proof.
  destruct (mm_add (mm_of (mkB (Box 2 2 2) 1 Id3 V0)) (mm_of (mkB (Box 1 1 1) 3 Id3 (mkV 10 0 0)))) as [p|] eqn:E; [eauto|].
  exfalso. revert E. apply C69_some. cbn. lra.
Qed.
