(** C82, continued: the normal density integrates to one, and the fitted mean and deviation are those of the density. *)
From Coq Require Import Reals Lra.
From Coquelicot Require Import Coquelicot.
From Verif Require Import StatsModel StatsProps.
Local Open Scope R_scope.

Definition e2 (t : R) : R := exp (- (t * t)).
Definition G (x : R) : R := RInt e2 0 x.
Definition h (x t : R) : R := exp (- (x * x * (1 + t * t))) * / (1 + t * t).
Definition H (x : R) : R := RInt (h x) 0 1.
Lemma den t : 0 < 1 + t * t. Proof. nra. Qed.
Lemma e2_cont (x : R) : continuous e2 x.
Proof. apply (ex_derive_continuous e2). unfold e2. auto_derive. exact I. Qed.
Lemma e2_int a b : ex_RInt e2 a b. Proof. apply (ex_RInt_continuous (V := R_CompleteNormedModule)). intros; apply e2_cont. Qed.
Lemma G_derive (x : R) : is_derive G x (e2 x).
Proof.
  apply (is_derive_RInt e2 G 0 x); [|apply e2_cont]. exists (mkposreal 1 Rlt_0_1). intros y _. apply (RInt_correct (V := R_CompleteNormedModule)), e2_int.
Qed.
Lemma h_cont (x t : R) : continuous (h x) t.
Proof. apply (ex_derive_continuous (h x)). unfold h. auto_derive. pose proof (den t). lra. Qed.
Lemma h_int x a b : ex_RInt (h x) a b. Proof. apply (ex_RInt_continuous (V := R_CompleteNormedModule)). intros; apply h_cont. Qed.
Lemma h_derive (x t : R) : is_derive (fun u => h u t) x (- 2 * x * exp (- (x * x * (1 + t * t)))).
Proof. unfold h. pose proof (den t) as D. auto_derive; [lra|]. field. lra. Qed.
Lemma h2d (x t : R) : continuity_2d_pt (fun u v => Derive (fun z => h z v) u) x t.
Proof.
  apply continuity_2d_pt_ext with (fun u v => - 2 * u * exp (- (u * u * (1 + v * v)))); [intros u v; symmetry; apply is_derive_unique, h_derive|].
  apply continuity_2d_pt_mult.
  - apply continuity_2d_pt_mult; [apply continuity_2d_pt_const|apply continuity_2d_pt_id1].
  - apply (continuity_1d_2d_pt_comp exp (fun u v => - (u * u * (1 + v * v)))).
    + apply derivable_continuous_pt, derivable_pt_exp.
    + apply continuity_2d_pt_opp, continuity_2d_pt_mult; [apply continuity_2d_pt_mult; apply continuity_2d_pt_id1|].
      apply continuity_2d_pt_plus; [apply continuity_2d_pt_const|apply continuity_2d_pt_mult; apply continuity_2d_pt_id2].
Qed.
Lemma H_derive (x : R) : is_derive H x (- 2 * e2 x * G x).
Proof.
  evar_last.
  - apply (is_derive_RInt_param h 0 1 x).
    + exists (mkposreal 1 Rlt_0_1). intros y _ t _. eexists. apply h_derive.
    + intros t _. apply h2d.
    + exists (mkposreal 1 Rlt_0_1). intros y _. apply h_int.
  - rewrite (RInt_ext _ (fun t => (- 2 * e2 x) * (x * e2 (x * t + 0)))).
    + assert (E : is_RInt (fun t => x * e2 (x * t + 0)) 0 1 (G x)).
      { apply (is_RInt_comp_lin e2 x 0 0 1 (G x)). replace (x * 0 + 0) with 0 by ring. replace (x * 1 + 0) with x by ring. apply (RInt_correct (V := R_CompleteNormedModule)), e2_int. }
      apply is_RInt_unique. apply (is_RInt_scal (fun t => x * e2 (x * t + 0)) 0 1 (- 2 * e2 x) (G x) E).
    + intros t _. transitivity (- 2 * x * exp (- (x * x * (1 + t * t)))); [apply (is_derive_unique (fun u => h u t) x), h_derive|]. unfold e2. replace (- (x * x * (1 + t * t))) with (- (x * x) + - ((x * t + 0) * (x * t + 0))) by ring. rewrite exp_plus. match goal with |- ?a = ?b => change (@eq R a b) end. ring.
Qed.
Lemma const_sum (x : R) : 0 < x -> G x * G x + H x = PI / 4.
Proof.
  intros P. assert (D : forall y, is_derive (fun y => G y * G y + H y) y 0).
  { intros y. evar_last; [apply (is_derive_plus (fun y => G y * G y) H y); [apply (is_derive_mult G G y _ _ (G_derive y) (G_derive y)); intros; apply Rmult_comm|apply H_derive]|].
    unfold plus, mult. cbn. ring. }
  destruct (MVT_gen (fun y => G y * G y + H y) 0 x (fun _ => 0)) as (c & _ & E).
  - intros y _. apply D.
  - intros y _. apply continuity_pt_filterlim. apply (ex_derive_continuous (fun y => G y * G y + H y)). eexists. apply D.
  - assert (Z : G 0 = 0) by (unfold G; rewrite RInt_point; reflexivity). rewrite Z in E.
    assert (H0 : H 0 = PI / 4).
    { unfold H. apply is_RInt_unique. replace (PI / 4) with (atan 1 - atan 0) by (rewrite atan_0, atan_1; ring).
      apply (is_RInt_ext (fun t => / (1 + t * t))); [intros t _; unfold h; replace (- (0 * 0 * (1 + t * t))) with 0 by ring; rewrite exp_0; match goal with |- ?a = ?b => change (@eq R a b) end; ring|].
      apply (is_RInt_derive atan (fun t => / (1 + t * t))).
      - intros t _. apply is_derive_Reals. replace (/ (1 + t * t)) with (/ (1 + t ^ 2)) by (f_equal; ring). apply derivable_pt_lim_atan.
      - intros t _. apply (ex_derive_continuous (fun t => / (1 + t * t))). auto_derive. pose proof (den t). lra. }
    rewrite H0 in E. lra.
Qed.
Lemma H_bounds (x : R) : 0 <= H x <= e2 x.
Proof.
  split.
  - replace 0 with (RInt (fun _ => 0) 0 1) by (rewrite RInt_const; unfold scal, mult; cbn; unfold mult; cbn; ring).
    apply RInt_le; [lra|apply ex_RInt_const|apply h_int|]. intros t _. unfold h. apply Rmult_le_pos; [left; apply exp_pos|left; apply Rinv_0_lt_compat, den].
  - replace (e2 x) with (RInt (fun _ => e2 x) 0 1) by (rewrite RInt_const; unfold scal; cbn; unfold mult; cbn; ring).
    apply RInt_le; [lra|apply h_int|apply ex_RInt_const|]. intros t _. unfold h, e2. rewrite <- (Rmult_1_r (exp (- (x * x)))). apply Rmult_le_compat; try (left; apply exp_pos).
    + left. apply Rinv_0_lt_compat, den.
    + destruct (Req_dec (x * x * (1 + t * t)) (x * x)) as [E|N]; [rewrite E; lra|]. left. apply exp_increasing. pose proof (Rle_0_sqr x) as A. pose proof (Rle_0_sqr t) as B. unfold Rsqr in *. assert (0 <= (x * x) * (t * t)) by (apply Rmult_le_pos; auto). lra.
    + assert (I1 : / (1 + t * t) <= / 1); [apply Rinv_le_contravar; [lra|]|rewrite Rinv_1 in I1; exact I1]. pose proof (Rle_0_sqr t) as B. unfold Rsqr in B. lra.
Qed.
Lemma G_pos (x : R) : 0 < x -> 0 <= G x.
Proof.
  intros P. unfold G. replace 0 with (RInt (fun _ => 0) 0 x) at 1 by (rewrite RInt_const; unfold scal; cbn; unfold mult; cbn; ring).
  apply RInt_le; [lra|apply ex_RInt_const|apply e2_int|]. intros t _. left. apply exp_pos.
Qed.
Lemma e2_small (x : R) : 0 < x -> e2 x <= / x.
Proof.
  intros P. unfold e2. rewrite exp_Ropp. apply Rinv_le_contravar; [exact P|]. pose proof (exp_ineq1_le (x * x)). nra.
Qed.
Definition root : R := sqrt PI / 2.
Lemma root_sq : 0 < root /\ root * root = PI / 4.
Proof.
  unfold root. pose proof PI_RGT_0. assert (0 < sqrt PI) by (apply sqrt_lt_R0; lra). split; [lra|]. replace (sqrt PI / 2 * (sqrt PI / 2)) with (sqrt PI * sqrt PI / 4) by field. rewrite sqrt_sqrt by lra. reflexivity.
Qed.
Lemma G_near (x : R) : 0 < x -> root - / root * / x <= G x <= root.
Proof.
  intros P. destruct root_sq as [R0 R2]. pose proof (const_sum x P) as C. pose proof (H_bounds x) as B. pose proof (G_pos x P) as GP. pose proof (e2_small x P) as S.
  split; [|nra]. assert (U : G x <= root) by nra. assert (L : (root - G x) * root <= / x) by nra.
  apply (Rmult_le_reg_r root); [exact R0|]. replace ((root - / root * / x) * root) with (root * root - / x) by (field; lra). nra.
Qed.
Lemma G_lim : is_lim G p_infty root.
Proof.
  apply (is_lim_le_le_loc (fun x => root - / root * / x) (fun _ => root)).
  - exists 0. intros x Hx. apply G_near, Hx.
  - evar_last; [apply (is_lim_minus (fun _ => root) (fun x => / root * / x) p_infty root 0); [apply is_lim_const| |reflexivity]|cbn; f_equal; ring].
    evar_last; [apply (is_lim_scal_l (fun x => / x) (/ root) p_infty 0)|cbn; f_equal; ring].
    evar_last; [apply (is_lim_inv (fun x => x) p_infty p_infty); [apply is_lim_id|discriminate]|reflexivity].
  - apply is_lim_const.
Qed.
Lemma G_odd (x : R) : G (- x) = - G x.
Proof.
  unfold G. apply is_RInt_unique. replace 0 with (-0) at 1 by ring.
  apply (is_RInt_ext (fun t => - (- e2 (- t)))); [intros t _; unfold e2; rewrite Ropp_involutive; f_equal; ring|].
  apply (is_RInt_opp (fun t => - e2 (- t))).
  apply (is_RInt_comp_opp e2 (-0) (-x) (RInt e2 0 x)). rewrite !Ropp_involutive. apply (RInt_correct (V := R_CompleteNormedModule)), e2_int.
Qed.
Lemma G_lim_m : is_lim G m_infty (- root).
Proof.
  apply is_lim_ext with (fun x => - G (- x)); [intros x; rewrite G_odd; ring|]. apply (is_lim_opp (fun x => G (- x)) m_infty root).
  apply (is_lim_comp G Ropp m_infty root p_infty); [apply G_lim| |exists 0; intros x _; discriminate].
  evar_last; [apply (is_lim_opp (fun x => x) m_infty m_infty), is_lim_id|reflexivity].
Qed.
Lemma inv_lim : is_lim (fun x => / x) p_infty 0 /\ is_lim (fun x => / x) m_infty 0.
Proof. split; (evar_last; [apply (is_lim_inv (fun x => x)); [apply is_lim_id|discriminate]|reflexivity]). Qed.
Lemma e2_sq x : x <> 0 -> 0 < e2 x <= / (x * x).
Proof.
  intros N. unfold e2. split; [apply exp_pos|]. assert (0 < x * x) by (pose proof (Rsqr_pos_lt x N) as Q; exact Q).
  rewrite exp_Ropp. apply Rinv_le_contravar; [lra|]. pose proof (exp_ineq1_le (x * x)). lra.
Qed.
Lemma e2_lim : is_lim e2 p_infty 0 /\ is_lim e2 m_infty 0 /\ is_lim (fun x => x * e2 x) p_infty 0 /\ is_lim (fun x => x * e2 x) m_infty 0.
Proof.
  assert (X : forall x, x <> 0 -> Rabs (x * e2 x) <= Rabs (/ x)).
  { intros x N. rewrite Rabs_mult. destruct (e2_sq x N) as [A B]. rewrite (Rabs_pos_eq (e2 x)) by lra. pose proof (Rabs_pos_lt x N). rewrite (Rabs_Rinv x N).
    apply (Rle_trans _ (Rabs x * / (x * x))); [apply Rmult_le_compat_l; lra|]. right. replace (x * x) with (Rabs x * Rabs x) by (rewrite <- Rabs_mult; apply Rabs_pos_eq; pose proof (Rle_0_sqr x) as Q; unfold Rsqr in Q; exact Q). field. lra. }
  assert (Y : forall x, 1 <= Rabs x -> e2 x <= Rabs (/ x)).
  { intros x L. assert (N : x <> 0) by (intros ->; rewrite Rabs_R0 in L; lra). eapply Rle_trans; [|apply (X x N)]. rewrite Rabs_mult. destruct (e2_sq x N) as [A _]. rewrite (Rabs_pos_eq (e2 x)) by lra. nra. }
  destruct inv_lim as [Ip Im].
  split; [|split; [|split]].
  - apply (is_lim_le_le_loc (fun _ => 0) (fun x => / x)); [|apply is_lim_const|exact Ip]. exists 1. intros x Hx. split; [left; apply exp_pos|]. rewrite <- (Rabs_pos_eq (/ x)) by (left; apply Rinv_0_lt_compat; lra). apply Y. rewrite Rabs_pos_eq by lra. lra.
  - apply (is_lim_le_le_loc (fun _ => 0) (fun x => - / x)); [|apply is_lim_const|].
    + exists (-1). intros x Hx. split; [left; apply exp_pos|]. rewrite <- (Rabs_left (/ x)) by (apply Rinv_lt_0_compat; lra). apply Y. rewrite Rabs_left by lra. lra.
    + replace (Finite 0) with (Rbar_opp 0) by (cbn; f_equal; ring). apply is_lim_opp. exact Im.
  - apply (is_lim_le_le_loc (fun _ => 0) (fun x => / x)); [|apply is_lim_const|exact Ip]. exists 0. intros x Hx. split; [apply Rmult_le_pos; [lra|left; apply exp_pos]|].
    pose proof (X x ltac:(lra)) as Q. rewrite !Rabs_pos_eq in Q; [exact Q|left; apply Rinv_0_lt_compat; lra|apply Rmult_le_pos; [lra|left; apply exp_pos]].
  - apply (is_lim_le_le_loc (fun x => / x) (fun _ => 0)); [|exact Im|apply is_lim_const]. exists 0. intros x Hx. assert (P := exp_pos (- (x * x))). fold (e2 x) in P. split; [|nra].
    pose proof (X x ltac:(lra)) as Q. rewrite (Rabs_left (/ x)) in Q by (apply Rinv_lt_0_compat; lra). rewrite Rabs_left in Q by nra. lra.
Qed.
Section Normal.
Context (m s : R) (Hs : 0 < s).
Definition u (x : R) : R := (x - m) * / (s * sqrt 2).
Lemma su : 0 < s * sqrt 2. Proof. apply Rmult_lt_0_compat; [exact Hs|]. apply sqrt_lt_R0; lra. Qed.
Lemma s2 : sqrt 2 * sqrt 2 = 2. Proof. apply sqrt_sqrt; lra. Qed.
Lemma sp : 0 < sqrt PI /\ sqrt PI * sqrt PI = PI.
Proof. pose proof PI_RGT_0. split; [apply sqrt_lt_R0; lra|apply sqrt_sqrt; lra]. Qed.
Lemma u_sq x : u x * u x = (x - m) ^ 2 / (2 * s ^ 2).
Proof.
  unfold u. pose proof su as S. pose proof s2 as S2. assert (N : sqrt 2 <> 0) by (intros Z; rewrite Z in S2; lra).
  replace ((x - m) * / (s * sqrt 2) * ((x - m) * / (s * sqrt 2))) with ((x - m) ^ 2 / (sqrt 2 * sqrt 2 * s ^ 2)) by (field; split; lra). rewrite S2. reflexivity.
Qed.
Lemma pdf_u x : gaussian_pdf (mkG m s) x = e2 (u x) / (sqrt PI * (s * sqrt 2)).
Proof.
  rewrite (pdf_eq (mkG m s) x Hs). cbn [mu sigma]. unfold e2. rewrite u_sq. pose proof sp as [P _]. pose proof su as S. pose proof PI_RGT_0.
  rewrite sqrt_mult by lra. assert (sqrt 2 <> 0) by (intros Z; rewrite Z in S; lra). field. split; [lra|split; [lra|lra]].
Qed.
Lemma u_lim : is_lim u p_infty p_infty /\ is_lim u m_infty m_infty.
Proof.
  pose proof su as S. assert (I : 0 < / (s * sqrt 2)) by (apply Rinv_0_lt_compat, S). unfold u. split.
  - evar_last; [apply (is_lim_scal_r (fun x => x - m) (/ (s * sqrt 2)) p_infty p_infty); evar_last; [apply (is_lim_minus (fun x => x) (fun _ => m) p_infty p_infty m p_infty); [apply is_lim_id|apply is_lim_const|reflexivity]|reflexivity]|].
    cbn. destruct (Rle_dec 0 (/ (s * sqrt 2))) as [L|L]; [|lra]. destruct (Rle_lt_or_eq_dec 0 (/ (s * sqrt 2)) L); [reflexivity|lra].
  - evar_last; [apply (is_lim_scal_r (fun x => x - m) (/ (s * sqrt 2)) m_infty m_infty); evar_last; [apply (is_lim_minus (fun x => x) (fun _ => m) m_infty m_infty m m_infty); [apply is_lim_id|apply is_lim_const|reflexivity]|reflexivity]|].
    cbn. destruct (Rle_dec 0 (/ (s * sqrt 2))) as [L|L]; [|lra]. destruct (Rle_lt_or_eq_dec 0 (/ (s * sqrt 2)) L); [reflexivity|lra].
Qed.
(** an antiderivative a G(u) + b e2(u) + c u e2(u) of a function [f], with its limits, gives the integral of [f] over the line *)
Lemma whole_line (f : R -> R) (a b c : R) :
  (forall x, is_derive (fun x => a * G (u x) + b * e2 (u x) + c * (u x * e2 (u x))) x (f x)) -> (forall x, continuous f x) ->
  is_RInt_gen f (Rbar_locally m_infty) (Rbar_locally p_infty) (a * sqrt PI).
Proof.
  intros D C. set (F := fun x => a * G (u x) + b * e2 (u x) + c * (u x * e2 (u x))) in *.
  assert (Lp : is_lim F p_infty (a * root)).
  { destruct u_lim as [Up _]. destruct e2_lim as (E1 & _ & E3 & _). unfold F.
    apply (is_lim_comp (fun y => a * G y + b * e2 y + c * (y * e2 y)) u p_infty (a * root) p_infty); [|exact Up|exists 0; intros; discriminate].
    replace (Finite (a * root)) with (Finite (a * root + b * 0 + c * 0)) by (f_equal; ring).
    apply (is_lim_plus' (fun y => a * G y + b * e2 y) (fun y => c * (y * e2 y))); [apply (is_lim_plus' (fun y => a * G y) (fun y => b * e2 y))|].
    - apply (is_lim_scal_l G a p_infty root G_lim).
    - apply (is_lim_scal_l e2 b p_infty 0 E1).
    - apply (is_lim_scal_l (fun y => y * e2 y) c p_infty 0 E3). }
  assert (Lm : is_lim F m_infty (a * - root)).
  { destruct u_lim as [_ Um]. destruct e2_lim as (_ & E2 & _ & E4). unfold F.
    apply (is_lim_comp (fun y => a * G y + b * e2 y + c * (y * e2 y)) u m_infty (a * - root) m_infty); [|exact Um|exists 0; intros; discriminate].
    replace (Finite (a * - root)) with (Finite (a * - root + b * 0 + c * 0)) by (f_equal; ring).
    apply (is_lim_plus' (fun y => a * G y + b * e2 y) (fun y => c * (y * e2 y))); [apply (is_lim_plus' (fun y => a * G y) (fun y => b * e2 y))|].
    - apply (is_lim_scal_l G a m_infty (- root) G_lim_m).
    - apply (is_lim_scal_l e2 b m_infty 0 E2).
    - apply (is_lim_scal_l (fun y => y * e2 y) c m_infty 0 E4). }
  replace (a * sqrt PI) with (a * root - a * - root) by (unfold root; field).
  assert (E : forall x, Derive F x = f x) by (intros x; apply is_derive_unique, D).
  apply (is_RInt_gen_ext (Derive F)); [apply filter_forall; intros ab x _; apply E|].
  apply is_RInt_gen_Derive; [apply filter_forall; intros ab x _; eexists; apply D| |exact Lm|exact Lp].
  apply filter_forall. intros ab x _. apply (continuous_ext f); [intros y; symmetry; apply E|apply C].
Qed.
Lemma antider a b c (x : R) : is_derive (fun x => a * G (u x) + b * e2 (u x) + c * (u x * e2 (u x))) x
  ((a + c - 2 * b * u x - 2 * c * (u x * u x)) * e2 (u x) / (s * sqrt 2)).
Proof.
  pose proof su as S.
  assert (Du : is_derive u x (/ (s * sqrt 2))) by (unfold u; auto_derive; [exact I|ring]).
  assert (De : forall y : R, is_derive e2 y (- 2 * y * e2 y)) by (intros y; unfold e2; auto_derive; [exact I|ring]).
  pose proof (is_derive_comp G u x _ _ (G_derive (u x)) Du) as D1. pose proof (is_derive_comp e2 u x _ _ (De (u x)) Du) as D2.
  pose proof (is_derive_mult u (fun x => e2 (u x)) x _ _ Du D2 Rmult_comm) as D3.
  pose proof (is_derive_plus _ _ x _ _ (is_derive_plus _ _ x _ _ (is_derive_scal _ x a _ D1) (is_derive_scal _ x b _ D2)) (is_derive_scal _ x c _ D3)) as D4.
  evar_last; [exact D4|]. unfold plus, scal, mult. cbn. unfold mult. cbn. field. assert (sqrt 2 <> 0) by (intros Z; rewrite Z in S; lra). split; lra.
Qed.
Lemma line f a b c : (forall x, f x = (a + c - 2 * b * u x - 2 * c * (u x * u x)) * e2 (u x) / (s * sqrt 2)) ->
  is_RInt_gen f (Rbar_locally m_infty) (Rbar_locally p_infty) (a * sqrt PI).
Proof.
  intros E. apply (whole_line f a b c).
  - intros x. rewrite E. apply antider.
  - intros x. apply (continuous_ext (fun x => (a + c - 2 * b * u x - 2 * c * (u x * u x)) * e2 (u x) / (s * sqrt 2))); [intros y; symmetry; apply E|].
    apply (ex_derive_continuous (fun x => (a + c - 2 * b * u x - 2 * c * (u x * u x)) * e2 (u x) / (s * sqrt 2))). unfold e2, u. auto_derive. exact I.
Qed.
(** the density integrates to one over the line *)
Theorem C82_density_integrates_to_one : is_RInt_gen (gaussian_pdf (mkG m s)) (Rbar_locally m_infty) (Rbar_locally p_infty) 1.
Proof.
  pose proof sp as [P Q]. pose proof su as S. replace 1 with (/ sqrt PI * sqrt PI) by (field; lra). apply (line _ (/ sqrt PI) 0 0). intros x. rewrite pdf_u.
  assert (sqrt 2 <> 0) by (intros Z; rewrite Z in S; lra). field. split; [lra|split; lra].
Qed.
(** its parameters are its mean and variance *)
Theorem C82_density_mean : is_RInt_gen (fun x => x * gaussian_pdf (mkG m s) x) (Rbar_locally m_infty) (Rbar_locally p_infty) m.
Proof.
  pose proof sp as [P Q]. pose proof su as S. cut (is_RInt_gen (fun x => x * gaussian_pdf (mkG m s) x) (Rbar_locally m_infty) (Rbar_locally p_infty) (m / sqrt PI * sqrt PI)); [replace (m / sqrt PI * sqrt PI) with m by (field; lra); exact (fun z => z)|]. apply (line _ (m / sqrt PI) (- (s * sqrt 2) / (2 * sqrt PI)) 0). intros x. rewrite pdf_u.
  assert (N : sqrt 2 <> 0) by (intros Z; rewrite Z in S; lra). replace x with (u x * (s * sqrt 2) + m) at 1 by (unfold u; field; split; lra). field. split; [lra|split; lra].
Qed.
Theorem C82_density_variance : is_RInt_gen (fun x => (x - m) ^ 2 * gaussian_pdf (mkG m s) x) (Rbar_locally m_infty) (Rbar_locally p_infty) (s ^ 2).
Proof.
  pose proof sp as [P Q]. pose proof su as S. replace (s ^ 2) with (s ^ 2 / sqrt PI * sqrt PI) by (field; lra). apply (line _ (s ^ 2 / sqrt PI) 0 (- s ^ 2 / sqrt PI)). intros x. rewrite pdf_u.
  assert (N : sqrt 2 <> 0) by (intros Z; rewrite Z in S; lra). replace (x - m) with (u x * (s * sqrt 2)) by (unfold u; field; split; lra).
  replace ((u x * (s * sqrt 2)) ^ 2) with (2 * s ^ 2 * (u x * u x)) by (rewrite <- s2 at 1; ring). field. split; [lra|split; lra].
Qed.
End Normal.
Example C82_density_nontrivial : is_RInt_gen (fun x => (x - 3) ^ 2 * gaussian_pdf (mkG 3 2) x) (Rbar_locally m_infty) (Rbar_locally p_infty) 4.
Proof. replace 4 with (2 ^ 2) by ring. apply C82_density_variance. lra. Qed.
