(** Three-component vectors and 3x3 matrices of reals: the shape of Vector<T,3>, Cartesian and
    Matrix<T,3,3>.  The textbook operations on them are the specification side; models go
    through LinModel with [vfun]/[mfun]. *)
From Coq Require Import Reals Lra.
From Verif Require Import Scalar LinModel.
Local Open Scope R_scope.

Record V3 := mkV { vx : R; vy : R; vz : R }.
Record M3 := mkM { m00 : R; m01 : R; m02 : R; m10 : R; m11 : R; m12 : R; m20 : R; m21 : R; m22 : R }.

(** Views as the index functions used by LinModel. *)
Definition vfun (v : V3) : nat -> R := fun i => match i with 0%nat => vx v | 1%nat => vy v | _ => vz v end.
Definition vof (f : nat -> R) : V3 := mkV (f 0%nat) (f 1%nat) (f 2%nat).
Definition mfun (m : M3) : nat -> nat -> R := fun i j =>
  match i, j with
  | 0, 0 => m00 m | 0, 1 => m01 m | 0, _ => m02 m
  | 1, 0 => m10 m | 1, 1 => m11 m | 1, _ => m12 m
  | _, 0 => m20 m | _, 1 => m21 m | _, _ => m22 m
  end%nat.
Definition mof (f : nat -> nat -> R) : M3 :=
  mkM (f 0 0)%nat (f 0 1)%nat (f 0 2)%nat (f 1 0)%nat (f 1 1)%nat (f 1 2)%nat (f 2 0)%nat (f 2 1)%nat (f 2 2)%nat.

(** Specification: textbook operations. *)
Definition Dot (u v : V3) : R := vx u * vx v + vy u * vy v + vz u * vz v.
Definition Norm (u : V3) : R := sqrt (Dot u u).
Definition Cross (u v : V3) : V3 :=
  mkV (vy u * vz v - vz u * vy v) (vz u * vx v - vx u * vz v) (vx u * vy v - vy u * vx v).
Definition Vadd (u v : V3) : V3 := mkV (vx u + vx v) (vy u + vy v) (vz u + vz v).
Definition Vsub (u v : V3) : V3 := mkV (vx u - vx v) (vy u - vy v) (vz u - vz v).
Definition Vscale (c : R) (u : V3) : V3 := mkV (c * vx u) (c * vy u) (c * vz u).
Definition V0 : V3 := mkV 0 0 0.
Definition Id3 : M3 := mkM 1 0 0 0 1 0 0 0 1.
Definition Tr (m : M3) : M3 := mkM (m00 m) (m10 m) (m20 m) (m01 m) (m11 m) (m21 m) (m02 m) (m12 m) (m22 m).
Definition Mul (a b : M3) : M3 :=
  mkM (m00 a * m00 b + m01 a * m10 b + m02 a * m20 b) (m00 a * m01 b + m01 a * m11 b + m02 a * m21 b)
      (m00 a * m02 b + m01 a * m12 b + m02 a * m22 b)
      (m10 a * m00 b + m11 a * m10 b + m12 a * m20 b) (m10 a * m01 b + m11 a * m11 b + m12 a * m21 b)
      (m10 a * m02 b + m11 a * m12 b + m12 a * m22 b)
      (m20 a * m00 b + m21 a * m10 b + m22 a * m20 b) (m20 a * m01 b + m21 a * m11 b + m22 a * m21 b)
      (m20 a * m02 b + m21 a * m12 b + m22 a * m22 b).
Definition App (m : M3) (v : V3) : V3 :=
  mkV (m00 m * vx v + m01 m * vy v + m02 m * vz v) (m10 m * vx v + m11 m * vy v + m12 m * vz v)
      (m20 m * vx v + m21 m * vy v + m22 m * vz v).
Definition Det (m : M3) : R :=
  m00 m * (m11 m * m22 m - m12 m * m21 m) - m01 m * (m10 m * m22 m - m12 m * m20 m)
  + m02 m * (m10 m * m21 m - m11 m * m20 m).
(** A proper rotation: orthonormal columns and determinant one. *)
Definition rotation (m : M3) : Prop := Mul (Tr m) m = Id3 /\ Det m = 1.

Lemma V3_eq a b : vx a = vx b -> vy a = vy b -> vz a = vz b -> a = b.
Proof. destruct a, b; cbn; intros; subst; reflexivity. Qed.
Lemma M3_eq a b : m00 a = m00 b -> m01 a = m01 b -> m02 a = m02 b -> m10 a = m10 b -> m11 a = m11 b ->
  m12 a = m12 b -> m20 a = m20 b -> m21 a = m21 b -> m22 a = m22 b -> a = b.
Proof. destruct a, b; cbn; intros; subst; reflexivity. Qed.
Ltac m3 := apply M3_eq; cbn [m00 m01 m02 m10 m11 m12 m20 m21 m22 vx vy vz Mul App Tr Id3 Det].
Ltac v3 := apply V3_eq; cbn [m00 m01 m02 m10 m11 m12 m20 m21 m22 vx vy vz Mul App Tr Id3 Det Vadd Vsub Vscale Cross V0].

Lemma Mul_assoc a b c : Mul (Mul a b) c = Mul a (Mul b c).
Proof. m3; ring. Qed.
Lemma Mul_1_l a : Mul Id3 a = a. Proof. m3; ring. Qed.
Lemma Mul_1_r a : Mul a Id3 = a. Proof. m3; ring. Qed.
Lemma App_Mul a b v : App (Mul a b) v = App a (App b v). Proof. v3; ring. Qed.
Lemma App_1 v : App Id3 v = v. Proof. v3; ring. Qed.
Lemma Tr_Mul a b : Tr (Mul a b) = Mul (Tr b) (Tr a). Proof. m3; ring. Qed.
Lemma Tr_Tr a : Tr (Tr a) = a. Proof. destruct a; reflexivity. Qed.
Lemma Det_Mul a b : Det (Mul a b) = Det a * Det b. Proof. unfold Det; cbn; ring. Qed.
Lemma Det_Tr a : Det (Tr a) = Det a. Proof. unfold Det; cbn; ring. Qed.
Lemma Dot_App m u v : Dot (App m u) (App m v) = Dot u (App (Mul (Tr m) m) v).
Proof. unfold Dot; cbn; ring. Qed.
Lemma Dot_comm u v : Dot u v = Dot v u. Proof. unfold Dot; ring. Qed.
Lemma Dot_pos u : 0 <= Dot u u.
Proof. unfold Dot. pose proof (Rle_0_sqr (vx u)). pose proof (Rle_0_sqr (vy u)). pose proof (Rle_0_sqr (vz u)).
  unfold Rsqr in *; lra. Qed.
Lemma Norm_sq u : Norm u * Norm u = Dot u u. Proof. apply sqrt_sqrt, Dot_pos. Qed.
Lemma Norm_pos u : 0 <= Norm u. Proof. apply sqrt_pos. Qed.
Lemma Dot_zero u : Dot u u = 0 -> u = V0.
Proof.
  unfold Dot; intros H. pose proof (Rle_0_sqr (vx u)). pose proof (Rle_0_sqr (vy u)). pose proof (Rle_0_sqr (vz u)).
  unfold Rsqr in *. v3; apply Rsqr_0_uniq; unfold Rsqr; lra.
Qed.

(** Adjugate: the inverse times the determinant. *)
Definition Adj (m : M3) : M3 :=
  mkM (m11 m * m22 m - m12 m * m21 m) (m02 m * m21 m - m01 m * m22 m) (m01 m * m12 m - m02 m * m11 m)
      (m12 m * m20 m - m10 m * m22 m) (m00 m * m22 m - m02 m * m20 m) (m02 m * m10 m - m00 m * m12 m)
      (m10 m * m21 m - m11 m * m20 m) (m01 m * m20 m - m00 m * m21 m) (m00 m * m11 m - m01 m * m10 m).
Lemma Mul_Adj m : Mul m (Adj m) = mkM (Det m) 0 0 0 (Det m) 0 0 0 (Det m).
Proof. m3; unfold Adj, Det; cbn; ring. Qed.

Lemma rotation_adj m : rotation m -> Tr m = Adj m.
Proof.
  intros [HO HD].
  assert (H : Mul m (Adj m) = Id3) by (rewrite Mul_Adj, HD; reflexivity).
  transitivity (Mul (Tr m) (Mul m (Adj m))); [rewrite H, Mul_1_r; reflexivity|].
  rewrite <- Mul_assoc, HO, Mul_1_l; reflexivity.
Qed.
Lemma rotation_right m : rotation m -> Mul m (Tr m) = Id3.
Proof. intros H. rewrite (rotation_adj m H), Mul_Adj. destruct H as [_ ->]; reflexivity. Qed.
Lemma rotation_Tr m : rotation m -> rotation (Tr m).
Proof. intros H; split; [rewrite Tr_Tr; apply rotation_right, H|rewrite Det_Tr; apply H]. Qed.
Lemma rotation_Mul a b : rotation a -> rotation b -> rotation (Mul a b).
Proof.
  intros [A1 A2] [B1 B2]; split; [|rewrite Det_Mul, A2, B2; ring].
  rewrite Tr_Mul, Mul_assoc, <- (Mul_assoc (Tr a)), A1, Mul_1_l; exact B1.
Qed.
Lemma rotation_Id : rotation Id3. Proof. split; [m3; ring|unfold Det; cbn; ring]. Qed.
Lemma rotation_Dot m u v : rotation m -> Dot (App m u) (App m v) = Dot u v.
Proof. intros [H _]; rewrite Dot_App, H, App_1; reflexivity. Qed.
Lemma rotation_Norm m u : rotation m -> Norm (App m u) = Norm u.
Proof. intros H; unfold Norm; rewrite (rotation_Dot _ _ _ H); reflexivity. Qed.
Lemma rotation_Cross m u v : rotation m -> App m (Cross u v) = Cross (App m u) (App m v).
Proof.
  intros H. pose proof (rotation_adj m H) as A.
  injection A as A1 A2 A3 A4 A5 A6 A7 A8 A9.
  v3; [rewrite A1, A4, A7|rewrite A2, A5, A8|rewrite A3, A6, A9]; ring.
Qed.
Lemma rotation_cancel m v : rotation m -> App (Tr m) (App m v) = v.
Proof. intros [H _]; rewrite <- App_Mul, H, App_1; reflexivity. Qed.
Lemma rotation_cancel' m v : rotation m -> App m (App (Tr m) v) = v.
Proof. intros H; rewrite <- App_Mul, (rotation_right m H), App_1; reflexivity. Qed.

(** The generic loops of LinModel at size three compute the textbook operations. *)
Lemma mul3 a b : mof (mul_small Rops 3 3 3 (mfun a) (mfun b)) = Mul a b.
Proof. m3; cbv [mul_small for_ zeros upd2 mfun Rops add mul zero]; cbn; ring. Qed.
Lemma app3 m v : vof (mul_vector_unrolled Rops 3 3 (mfun m) (vfun v)) = App m v.
Proof. v3; cbv [mul_vector_unrolled for_ upd mfun vfun Rops add mul zero]; cbn; ring. Qed.
Lemma tr3 m : mof (transpose Rops 3 3 (mfun m)) = Tr m.
Proof. m3; reflexivity. Qed.
Lemma dot3 u v : dot Rops 3 (vfun u) (vfun v) = Dot u v.
Proof. unfold Dot; cbv [dot for_ Rops add mul zero vfun]; cbn; ring. Qed.
Lemma norm3 u : norm Rops 3 (vfun u) = Norm u.
Proof. unfold Norm, Dot; cbv [norm for_ Rops add mul zero sqrtf vfun]; cbn; f_equal; ring. Qed.
Lemma cross3 u v : vof (cross Rops (vfun u) (vfun v)) = Cross u v.
Proof. v3; reflexivity. Qed.
Lemma normalize3 u : vof (normalize Rops 3 (vfun u)) = mkV (vx u / Norm u) (vy u / Norm u) (vz u / Norm u).
Proof. unfold normalize; rewrite norm3. v3; reflexivity. Qed.
Lemma scale3 u s : vof (vec_scale Rops 3 (vfun u) s) = Vscale s u.
Proof. v3; cbv -[Rmult]; ring. Qed.
