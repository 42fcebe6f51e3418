(** Proofs about solids. *)
From Coq Require Import Reals Lra.
From Coquelicot Require Import Coquelicot.
From Verif Require Import Scalar LinModel Geo3 Trig SolidModel SolidSpec.
Local Open Scope R_scope.

Lemma RInt_anti (F f : R -> R) a b :
  (forall x, is_derive F x (f x)) -> (forall x, continuous f x) -> RInt f a b = F b - F a.
Proof. intros H C. apply is_RInt_unique. apply (is_RInt_derive F f); intros; auto. Qed.

(** a quadratic function of the three coordinates *)
Record quad := mkQd { k0 : R; kx : R; ky : R; kz : R; kxx : R; kyy : R; kzz : R; kxy : R; kxz : R; kyz : R }.
Definition qeval (k : quad) (v : V3) : R :=
  k0 k + kx k * vx v + ky k * vy v + kz k * vz v + kxx k * (vx v * vx v) + kyy k * (vy v * vy v) + kzz k * (vz v * vz v)
  + kxy k * (vx v * vy v) + kxz k * (vx v * vz v) + kyz k * (vy v * vz v).

Ltac cont_derive := intros; apply (ex_derive_continuous (K := R_AbsRing) (V := R_NormedModule)); auto_derive; auto.
Ltac rfield := match goal with |- ?a = ?b => change (@eq R a b) end; field.
Ltac anti F := rewrite (RInt_anti F); [| intros; auto_derive; [auto|try rfield] | cont_derive].

Lemma box_quad a b c k : box_int a b c (qeval k) =
  a * b * c * (k0 k + kxx k * (a * a / 12) + kyy k * (b * b / 12) + kzz k * (c * c / 12)).
Proof.
  unfold box_int, qeval. cbn [vx vy vz].
  destruct k as [p px py pz pxx pyy pzz pxy pxz pyz]; cbn [k0 kx ky kz kxx kyy kzz kxy kxz kyz].
  rewrite (RInt_ext _ (fun x => b * c * (p + px * x + pxx * (x * x) + pyy * (b * b / 12) + pzz * (c * c / 12)))).
  - anti (fun x => b * c * (p * x + px * (x * x / 2) + pxx * (x * x * x / 3) + pyy * (b * b / 12) * x + pzz * (c * c / 12) * x)). rfield.
  - intros x _.
    rewrite (RInt_ext _ (fun y => c * (p + px * x + py * y + pxx * (x * x) + pyy * (y * y) + pxy * (x * y) + pzz * (c * c / 12)))).
    + anti (fun y => c * (p * y + px * x * y + py * (y * y / 2) + pxx * (x * x) * y + pyy * (y * y * y / 3) + pxy * x * (y * y / 2) + pzz * (c * c / 12) * y)). rfield.
    + intros y _.
      anti (fun z => (p + px * x + py * y + pxx * (x * x) + pyy * (y * y) + pxy * (x * y)) * z + (pz + pxz * x + pyz * y) * (z * z / 2) + pzz * (z * z * z / 3)). rfield.
Qed.

Lemma cyl_quad r h k : cyl_int r h (qeval k) =
  PI * r * r * h * (k0 k + kxx k * (r * r / 4) + kyy k * (r * r / 4) + kzz k * (h * h / 12)).
Proof.
  unfold cyl_int, qeval. cbn [vx vy vz].
  destruct k as [p px py pz pxx pyy pzz pxy pxz pyz]; cbn [k0 kx ky kz kxx kyy kzz kxy kxz kyz].
  rewrite (RInt_ext _ (fun z => PI * (r * r) * (p + pz * z + pzz * (z * z)) + PI / 4 * (pxx + pyy) * (r * r * r * r))).
  - anti (fun z => PI * (r * r) * (p * z + pz * (z * z / 2) + pzz * (z * z * z / 3)) + PI / 4 * (pxx + pyy) * (r * r * r * r) * z). rfield.
  - intros z _.
    rewrite (RInt_ext _ (fun s => 2 * PI * s * (p + pz * z + pzz * (z * z)) + PI * (pxx + pyy) * (s * s * s))).
    + anti (fun s => PI * (s * s) * (p + pz * z + pzz * (z * z)) + PI * (pxx + pyy) * (s * s * s * s / 4)). rfield.
    + intros s _.
      anti (fun t => s * ((p + pz * z + pzz * (z * z)) * t + px * s * sin t - py * s * cos t + pxx * s * s * ((t + sin t * cos t) / 2)
              + pyy * s * s * ((t - sin t * cos t) / 2) + pxy * s * s * (sin t * sin t / 2) + pxz * s * z * sin t - pyz * s * z * cos t)).
      * rewrite sin_2PI, cos_2PI, sin_0, cos_0. rfield.
      * pose proof (sincos2 x) as S. assert (C : cos x * cos x = 1 - sin x * sin x) by lra.
        match goal with |- ?a = ?b => change (@eq R a b) end. field [C].
Qed.

Lemma ball_quad r k : ball_int r (qeval k) =
  4 / 3 * PI * (r * r * r) * (k0 k + (kxx k + kyy k + kzz k) * (r * r / 5)).
Proof.
  unfold ball_int, qeval. cbn [vx vy vz].
  destruct k as [p px py pz pxx pyy pzz pxy pxz pyz]; cbn [k0 kx ky kz kxx kyy kzz kxy kxz kyz].
  rewrite (RInt_ext _ (fun s => 4 * PI * p * (s * s) + 4 / 3 * PI * (pxx + pyy + pzz) * (s * s * s * s))).
  - anti (fun s => 4 / 3 * PI * p * (s * s * s) + 4 / 15 * PI * (pxx + pyy + pzz) * (s * s * s * s * s)). rfield.
  - intros s _.
    rewrite (RInt_ext _ (fun th => s * s * (2 * PI * p * sin th + 2 * PI * pz * s * (sin th * cos th) + PI * (pxx + pyy) * (s * s) * (sin th * (sin th * sin th))
        + 2 * PI * pzz * (s * s) * (sin th * (cos th * cos th))))).
    + anti (fun th => s * s * (- 2 * PI * p * cos th + PI * pz * s * (sin th * sin th) + PI * (pxx + pyy) * (s * s) * (cos th * cos th * cos th / 3 - cos th)
        - 2 * PI * pzz * (s * s) * (cos th * cos th * cos th / 3))).
      * rewrite sin_PI, cos_PI, sin_0, cos_0. rfield.
      * pose proof (sincos2 x) as S. assert (C : cos x * cos x = 1 - sin x * sin x) by lra.
        match goal with |- ?a = ?b => change (@eq R a b) end. field [C].
    + intros th _. set (u := sin th). set (w := cos th).
      anti (fun t => s * s * u * ((p + pz * (s * w) + pzz * (s * w * (s * w))) * t + px * (s * u) * sin t - py * (s * u) * cos t
              + pxx * (s * u * (s * u)) * ((t + sin t * cos t) / 2) + pyy * (s * u * (s * u)) * ((t - sin t * cos t) / 2)
              + pxy * (s * u * (s * u)) * (sin t * sin t / 2) + pxz * (s * u) * (s * w) * sin t - pyz * (s * u) * (s * w) * cos t)).
      * rewrite sin_2PI, cos_2PI, sin_0, cos_0. rfield.
      * pose proof (sincos2 x) as S. assert (C : cos x * cos x = 1 - sin x * sin x) by lra.
        match goal with |- ?a = ?b => change (@eq R a b) end. field [C].
Qed.

Lemma box_ext a b c f g : (forall v, f v = g v) -> box_int a b c f = box_int a b c g.
Proof. intros H. unfold box_int. apply RInt_ext; intros. apply RInt_ext; intros. apply RInt_ext; intros. apply H. Qed.
Lemma cyl_ext r h f g : (forall v, f v = g v) -> cyl_int r h f = cyl_int r h g.
Proof. intros H. unfold cyl_int. apply RInt_ext; intros. apply RInt_ext; intros. apply RInt_ext; intros. rewrite H. reflexivity. Qed.
Lemma ball_ext r f g : (forall v, f v = g v) -> ball_int r f = ball_int r g.
Proof. intros H. unfold ball_int. apply RInt_ext; intros. apply RInt_ext; intros. apply RInt_ext; intros. rewrite H. reflexivity. Qed.

Definition solid_of (s : shape) : solid := match s with Ball r => sphere r | Cyl r h => cylinder r h | Box a b c => prism a b c end.
(** mean squares of the coordinates *)
Definition sq_mean (s : shape) : V3 := match s with
  | Ball r => mkV (r * r / 5) (r * r / 5) (r * r / 5)
  | Cyl r h => mkV (r * r / 4) (r * r / 4) (h * h / 12)
  | Box a b c => mkV (a * a / 12) (b * b / 12) (c * c / 12) end.

Lemma shape_ext s f g : (forall v, f v = g v) -> shape_int s f = shape_int s g.
Proof. destruct s; cbn; [apply ball_ext|apply cyl_ext|apply box_ext]. Qed.
Lemma shape_quad s k : shape_int s (qeval k) =
  volume (solid_of s) * (k0 k + kxx k * vx (sq_mean s) + kyy k * vy (sq_mean s) + kzz k * vz (sq_mean s)).
Proof.
  destruct s; cbn [shape_int solid_of sq_mean vx vy vz sphere cylinder prism volume].
  - rewrite ball_quad. field.
  - rewrite cyl_quad. field.
  - rewrite box_quad. field.
Qed.
Lemma shape_inertia s m : inertia_principal_cm (solid_of s) m =
  mkV (m * (vy (sq_mean s) + vz (sq_mean s))) (m * (vx (sq_mean s) + vz (sq_mean s))) (m * (vx (sq_mean s) + vy (sq_mean s))).
Proof.
  destruct s; cbn [solid_of sq_mean vx vy vz sphere cylinder prism inertia_principal_cm]; unfold twelve; apply V3_eq; cbn [vx vy vz]; field.
Qed.
Lemma shape_lin s (c : R) (n : V3) : shape_int s (fun x => c + Dot n x) = volume (solid_of s) * c.
Proof.
  rewrite (shape_ext s _ (qeval (mkQd c (vx n) (vy n) (vz n) 0 0 0 0 0 0))).
  - rewrite shape_quad. cbn. ring.
  - intros v. unfold qeval, Dot; cbn. ring.
Qed.
Lemma shape_const s c : shape_int s (fun _ => c) = volume (solid_of s) * c.
Proof. rewrite <- (shape_lin s c V0). apply shape_ext. intros v. unfold Dot, V0; cbn. ring. Qed.

(** |w0 + x w1 + y w2 + z w3|^2 *)
Lemma shape_square s w0 w1 w2 w3 :
  shape_int s (fun x => let w := Vadd w0 (Vadd (Vscale (vx x) w1) (Vadd (Vscale (vy x) w2) (Vscale (vz x) w3))) in Dot w w) =
  volume (solid_of s) * (Dot w0 w0 + Dot w1 w1 * vx (sq_mean s) + Dot w2 w2 * vy (sq_mean s) + Dot w3 w3 * vz (sq_mean s)).
Proof.
  rewrite (shape_ext s _ (qeval (mkQd (Dot w0 w0) (2 * Dot w0 w1) (2 * Dot w0 w2) (2 * Dot w0 w3) (Dot w1 w1) (Dot w2 w2) (Dot w3 w3)
     (2 * Dot w1 w2) (2 * Dot w1 w3) (2 * Dot w2 w3)))).
  - rewrite shape_quad. cbn [k0 kxx kyy kzz]. ring.
  - intros v. unfold qeval, Dot; cbn. ring.
Qed.

(** * The library's matrix operations *)
Lemma m_mul_eq a b : m_mul a b = Mul a b. Proof. apply mul3. Qed.
Lemma m_tr_eq a : m_tr a = Tr a. Proof. apply tr3. Qed.
Definition Madd (a b : M3) : M3 := mkM (m00 a + m00 b) (m01 a + m01 b) (m02 a + m02 b) (m10 a + m10 b) (m11 a + m11 b) (m12 a + m12 b) (m20 a + m20 b) (m21 a + m21 b) (m22 a + m22 b).
Definition Mscale (c : R) (a : M3) : M3 := mkM (c * m00 a) (c * m01 a) (c * m02 a) (c * m10 a) (c * m11 a) (c * m12 a) (c * m20 a) (c * m21 a) (c * m22 a).
Definition Diag (v : V3) : M3 := mkM (vx v) 0 0 0 (vy v) 0 0 0 (vz v).
Lemma m_add_eq a b : m_add a b = Madd a b. Proof. m3; reflexivity. Qed.
Lemma m_sub_eq a b : m_sub a b = Madd a (Mscale (-1) b). Proof. m3; cbv [m_sub mof mat_sub fill for_ Rops sub mfun upd2 Madd Mscale]; cbn; ring. Qed.
Lemma m_scale_eq a s : m_scale a s = Mscale s a. Proof. m3; cbn; ring. Qed.
Lemma m_diag_eq v : m_diag v = Diag v. Proof. m3; reflexivity. Qed.
Lemma m_eye_eq : m_eye = Id3. Proof. m3; reflexivity. Qed.
Lemma m_zeros_eq : m_zeros = mkM 0 0 0 0 0 0 0 0 0. Proof. m3; reflexivity. Qed.
Lemma m_outer_eq u v : m_outer u v = mkM (vx u * vx v) (vx u * vy v) (vx u * vz v) (vy u * vx v) (vy u * vy v) (vy u * vz v) (vz u * vx v) (vz u * vy v) (vz u * vz v).
Proof. m3; reflexivity. Qed.
Lemma v_dot_eq u v : v_dot u v = Dot u v. Proof. apply dot3. Qed.
Lemma v_scale_eq u s : v_scale u s = Vscale s u. Proof. apply scale3. Qed.
Lemma v_div_eq u s : v_div u s = mkV (vx u / s) (vy u / s) (vz u / s). Proof. apply V3_eq; reflexivity. Qed.
Lemma v_add_eq u v : v_add u v = Vadd u v. Proof. apply V3_eq; reflexivity. Qed.
Lemma v_sub_eq u v : v_sub u v = Vsub u v. Proof. apply V3_eq; reflexivity. Qed.

Lemma moment_add a b n : moment (Madd a b) n = moment a n + moment b n.
Proof. unfold moment, Dot; cbn; ring. Qed.
Lemma moment_scale c a n : moment (Mscale c a) n = c * moment a n.
Proof. unfold moment, Dot; cbn; ring. Qed.
Lemma parallel_eq i m r : parallel_axis i m r =
  Madd i (Mscale m (Madd (Mscale (Dot r r) Id3) (Mscale (-1) (mkM (vx r * vx r) (vx r * vy r) (vx r * vz r) (vy r * vx r) (vy r * vy r) (vy r * vz r) (vz r * vx r) (vz r * vy r) (vz r * vz r))))).
Proof. unfold parallel_axis. rewrite m_add_eq, m_scale_eq, m_sub_eq, m_scale_eq, m_eye_eq, m_outer_eq, v_dot_eq. reflexivity. Qed.
Lemma moment_parallel i m r n : moment (parallel_axis i m r) n = moment i n + m * Dot (Cross n r) (Cross n r).
Proof. rewrite parallel_eq, moment_add, moment_scale. f_equal. f_equal. unfold moment, Dot, Cross; cbn; ring. Qed.
Lemma moment_zeros n : moment m_zeros n = 0.
Proof. rewrite m_zeros_eq. unfold moment, Dot; cbn; ring. Qed.
Lemma moment_madd a b n : moment (m_add a b) n = moment a n + moment b n.
Proof. apply moment_add. Qed.
Lemma moment_msub a b n : moment (m_sub a b) n = moment a n - moment b n.
Proof. rewrite m_sub_eq, moment_add, moment_scale. ring. Qed.
Definition placed_inertia (A : M3) (p : V3) : M3 := m_mul (m_mul A (m_diag p)) (m_tr A).
Lemma moment_placed A p n :
  moment (placed_inertia A p) n = let w := App (Tr A) n in vx p * (vx w * vx w) + vy p * (vy w * vy w) + vz p * (vz w * vz w).
Proof. unfold placed_inertia. rewrite !m_mul_eq, m_diag_eq, m_tr_eq. unfold moment, Dot; cbn; ring. Qed.

Lemma sym_add a b : symmetric a -> symmetric b -> symmetric (Madd a b).
Proof. unfold symmetric. intros Ha Hb. rewrite <- Ha, <- Hb at 2. m3; reflexivity. Qed.
Lemma sym_scale c a : symmetric a -> symmetric (Mscale c a).
Proof. unfold symmetric. intros Ha. rewrite <- Ha at 2. m3; reflexivity. Qed.
Lemma sym_madd a b : symmetric a -> symmetric b -> symmetric (m_add a b).
Proof. apply sym_add. Qed.
Lemma sym_msub a b : symmetric a -> symmetric b -> symmetric (m_sub a b).
Proof. intros. rewrite m_sub_eq. apply sym_add; auto using sym_scale. Qed.
Lemma sym_parallel i m r : symmetric i -> symmetric (parallel_axis i m r).
Proof. intros H. rewrite parallel_eq. apply sym_add; [exact H|]. apply sym_scale. unfold symmetric. m3; cbn; ring. Qed.
Lemma sym_placed A p : symmetric (placed_inertia A p).
Proof. unfold placed_inertia. rewrite !m_mul_eq, m_diag_eq, m_tr_eq. unfold symmetric. m3; cbn; ring. Qed.
Lemma sym_zeros : symmetric m_zeros.
Proof. rewrite m_zeros_eq. reflexivity. Qed.

(** the moment of a placed uniform body about an axis through p *)
Lemma body_moment s d A r n p : rotation A ->
  d * shape_int s (fun x => dist2 n p (place A r x)) =
  moment (placed_inertia A (inertia_principal_cm (solid_of s) (d * volume (solid_of s)))) n
  + d * volume (solid_of s) * Dot (Cross n (Vsub r p)) (Cross n (Vsub r p)).
Proof.
  intros HA.
  set (c1 := mkV (m00 A) (m10 A) (m20 A)). set (c2 := mkV (m01 A) (m11 A) (m21 A)). set (c3 := mkV (m02 A) (m12 A) (m22 A)).
  rewrite (shape_ext s _ (fun x => let w := Vadd (Cross n (Vsub r p)) (Vadd (Vscale (vx x) (Cross n c1)) (Vadd (Vscale (vy x) (Cross n c2)) (Vscale (vz x) (Cross n c3)))) in Dot w w)).
  2:{ intros v. unfold dist2, place. cbv zeta. f_equal; apply V3_eq; cbn; ring. }
  rewrite shape_square, moment_placed, shape_inertia. cbn [vx vy vz]. set (q := sq_mean s). set (V := volume (solid_of s)).
  assert (L : forall a, Dot (Cross n a) (Cross n a) = Dot n n * Dot a a - Dot n a * Dot n a) by (intros; unfold Dot, Cross; cbn; ring).
  pose proof (rotation_right A HA) as HB. destruct HA as [HA _].
  assert (U1 : Dot c1 c1 = 1) by (apply (f_equal m00) in HA; unfold Dot; cbn in *; lra).
  assert (U2 : Dot c2 c2 = 1) by (apply (f_equal m11) in HA; unfold Dot; cbn in *; lra).
  assert (U3 : Dot c3 c3 = 1) by (apply (f_equal m22) in HA; unfold Dot; cbn in *; lra).
  rewrite (L c1), (L c2), (L c3), U1, U2, U3.
  set (w := App (Tr A) n). 
  assert (W1 : vx w = Dot n c1) by (unfold w, Dot; cbn; ring). assert (W2 : vy w = Dot n c2) by (unfold w, Dot; cbn; ring).
  assert (W3 : vz w = Dot n c3) by (unfold w, Dot; cbn; ring). rewrite <- W1, <- W2, <- W3. clear W1 W2 W3 U1 U2 U3 L.
  assert (N : Dot n n = vx w * vx w + vy w * vy w + vz w * vz w).
  { change (vx w * vx w + vy w * vy w + vz w * vz w) with (Dot w w). unfold w. rewrite Dot_App, Tr_Tr.
    rewrite HB, App_1. reflexivity. }
  rewrite N. ring.
Qed.
