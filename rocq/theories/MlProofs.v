(** Lemmas about the loops of the learning models. *)
From Coq Require Import Reals ZArith List Arith Bool Lia Lra.
From Coquelicot Require Import Coquelicot.
From Verif Require Import Scalar RSum LinModel LinProofs SolveModel OptModel MlModel StatsSpec StatsProofs MlSpec.
Import ListNotations.
Open Scope R_scope.

Lemma for_sum n (f : nat -> R) a : for_ 0 n (fun i s => s + f i) a = a + sum n f.
Proof.
  induction n as [|n IH]; [cbn; lra|]. rewrite for_S by lia. rewrite IH. cbn [sum]. ring.
Qed.

Lemma score_affine n w b x : score n w b x = affine n w b x.
Proof. unfold score, affine. rewrite for_sum. ring. Qed.

Lemma upd_loop n (f : nat -> R -> R) (w : nat -> R) i :
  for_ 0 n (fun i w => upd w i (f i (w i))) w i = if (i <? n)%nat then f i (w i) else w i.
Proof.
  induction n as [|n IH]; [reflexivity|].
  rewrite for_S by lia. unfold upd at 1. destruct (Nat.eqb_spec i n) as [->|Hn].
  - rewrite (proj2 (Nat.ltb_lt n (S n))) by lia. f_equal.
    clear IH. assert (forall k, (k <= n)%nat ->
      for_ 0 k (fun i w => upd w i (f i (w i))) w n = w n) as A; [|apply A; lia].
    induction k as [|k IHk]; intros; [reflexivity|].
    rewrite for_S by lia. rewrite upd_other by lia. apply IHk. lia.
  - rewrite IH. destruct (Nat.ltb_spec i n); destruct (Nat.ltb_spec i (S n)); auto; lia.
Qed.

(** the input extended by the constant 1 that multiplies the bias *)
Definition aug (n : nat) (x : nat -> R) (j : nat) : R := if (j <? n)%nat then x j else 1.

Lemma pscore_sum n p x : pscore n p x = sum (n + 1) (fun j => p j * aug n x j).
Proof.
  unfold pscore. rewrite score_affine. unfold affine. replace (n + 1)%nat with (S n) by lia. cbn [sum].
  unfold aug at 2. rewrite Nat.ltb_irrefl. f_equal; [|ring].
  apply sum_ext. intros i Hi. unfold aug. rewrite (proj2 (Nat.ltb_lt i n)) by lia. reflexivity.
Qed.

Lemma pscore_line n p v x t : pscore n (fun i => p i + t * v i) x = pscore n p x + t * pscore n v x.
Proof.
  rewrite !pscore_sum, <- sum_scal, <- sum_plus. apply sum_ext. intros. ring.
Qed.
Lemma pscore_minus n p q x : pscore n (fun i => q i - p i) x = pscore n q x - pscore n p x.
Proof. rewrite !pscore_sum, <- sum_minus. apply sum_ext. intros. ring. Qed.

Lemma lsum_total {A} (t : A -> R) data : lsum t data = total (map t data).
Proof. unfold lsum. rewrite fold_plus_map. ring. Qed.

Definition coef (o : option R) : R := match o with Some e => e | None => 0 end.

Lemma gsum_value {A} n (x : A -> nat -> R) e data j : (j < n + 1)%nat ->
  gsum n x e data j = total (map (fun d => coef (e d) * aug n (x d) j) data).
Proof.
  intros Hj. unfold gsum.
  assert (forall g, fold_left (fun g d =>
    match e d with
    | None => g
    | Some e => let g1 := for_ 0 n (fun i g => upd g i (g i + e * x d i)) g in upd g1 n (g1 n + e)
    end) data g j = g j + total (map (fun d => coef (e d) * aug n (x d) j) data)) as A0.
  { induction data as [|d r IH]; intros g; cbn [fold_left map total]; [ring|].
    rewrite IH. destruct (e d) as [ed|]; cbn [coef]; [|ring].
    assert (forall i, for_ 0 n (fun i g => upd g i (g i + ed * x d i)) g i
                      = if (i <? n)%nat then g i + ed * x d i else g i) as L.
    { intros i. rewrite (upd_loop n (fun i a => a + ed * x d i)). reflexivity. }
    cbv zeta. unfold upd at 1. rewrite !L, Nat.ltb_irrefl. unfold aug.
    destruct (Nat.eqb_spec j n) as [->|]; [rewrite Nat.ltb_irrefl; ring|].
    rewrite (proj2 (Nat.ltb_lt j n)) by lia. ring. }
  rewrite A0. ring.
Qed.

(** what a summed gradient does along a direction *)
Lemma gsum_dot {A} n (x : A -> nat -> R) e data v :
  sum (n + 1) (fun j => gsum n x e data j * v j) = total (map (fun d => coef (e d) * pscore n v (x d)) data).
Proof.
  transitivity (sum (n + 1) (fun j => total (map (fun d => coef (e d) * aug n (x d) j * v j) data))).
  - apply sum_ext. intros j Hj. rewrite gsum_value by lia. rewrite Rmult_comm, <- total_map_scal.
    apply total_map_ext. intros. ring.
  - rewrite <- total_sum. apply total_map_ext. intros d _. rewrite pscore_sum, <- sum_scal.
    apply sum_ext. intros. ring.
Qed.

Lemma div_loop n (g : nat -> R) m j : (j < n)%nat ->
  for_ 0 n (fun i g => upd g i (g i / m)) g j = g j / m.
Proof. intros H. rewrite (upd_loop n (fun _ a => a / m)), (proj2 (Nat.ltb_lt j n)) by lia. reflexivity. Qed.

Lemma mean_dot n (g v : nat -> R) m :
  sum n (fun j => for_ 0 n (fun i g => upd g i (g i / m)) g j * v j) = sum n (fun j => g j * v j) / m.
Proof.
  rewrite <- sum_div. apply sum_ext. intros j Hj. rewrite div_loop by lia. unfold Rdiv. ring.
Qed.

Lemma total_map_minus {A} (l : list A) f g :
  total (map (fun x => f x - g x) l) = total (map f l) - total (map g l).
Proof. induction l; cbn; lra. Qed.
Lemma total_map_le {A} (l : list A) f g : (forall x, In x l -> f x <= g x) -> total (map f l) <= total (map g l).
Proof. intros H. induction l as [|a r IH]; cbn; [lra|]. pose proof (H a (or_introl eq_refl)).
  assert (total (map f r) <= total (map g r)) by (apply IH; intros; apply H; right; auto). lra. Qed.
Lemma total_map_scal_r {A} (l : list A) c f : total (map (fun x => f x * c) l) = total (map f l) * c.
Proof. induction l; cbn; [ring|]. rewrite IHl. ring. Qed.
Lemma total_map_div {A} (l : list A) c f : total (map (fun x => f x / c) l) = total (map f l) / c.
Proof. unfold Rdiv. apply total_map_scal_r. Qed.
Lemma total_map_zero {A} (l : list A) f : (forall x, In x l -> f x = 0) -> total (map f l) = 0.
Proof. intros H. rewrite (total_map_ext l f (fun _ => 0)) by auto. rewrite total_map_const. ring. Qed.

Lemma derive_total {A} (data : list A) (phi : A -> R -> R) (l : A -> R) t :
  (forall d, In d data -> is_derive (phi d) t (l d)) ->
  is_derive (fun t => total (map (fun d => phi d t) data)) t (total (map l data)).
Proof.
  intros H. induction data as [|d r IH]; cbn [map total].
  - apply (is_derive_const (V := R_NormedModule) 0).
  - apply (is_derive_plus (V := R_NormedModule)).
    + apply H. left. reflexivity.
    + apply IH. intros. apply H. right. auto.
Qed.

Lemma derive_div (f : R -> R) t l m : is_derive f t l -> is_derive (fun t => f t / m) t (l / m).
Proof.
  intros H. unfold Rdiv.
  evar_last.
  - apply (is_derive_ext (fun t => scal (/ m) (f t))); [intros; unfold scal; cbn; unfold mult; cbn; ring|].
    apply is_derive_scal, H.
  - cbn. ring.
Qed.

(** Generic: a loss that is the mean of phi_d(score_d) has the gradient the loops compute. *)
Lemma mean_gradient {A} n (x : A -> nat -> R) (phi : A -> R -> R) (e : A -> option R) data m p :
  (forall d, In d data -> is_derive (phi d) (pscore n p (x d)) (coef (e d))) ->
  forall v, is_derive (fun t => total (map (fun d => phi d (pscore n (fun i => p i + t * v i) (x d))) data) / m)
    0 (sum (n + 1) (fun j => gsum n x e data j * v j) / m).
Proof.
  intros H v. apply derive_div. rewrite gsum_dot. apply derive_total. intros d Hd.
  apply (is_derive_ext (fun t => phi d (pscore n p (x d) + t * pscore n v (x d)))).
  { intros. rewrite pscore_line. reflexivity. }
  evar_last.
  - apply (is_derive_comp (phi d)).
    + replace (pscore n p (x d) + 0 * pscore n v (x d)) with (pscore n p (x d)) by ring. apply H, Hd.
    + auto_derive; [auto|reflexivity].
  - cbn. ring.
Qed.

(** Scores of extended reals *)
Lemma argmax_spec k s : (forall c, (c < k)%nat -> s c <> Some NaN) -> (0 < k)%nat ->
  let b := argmax k s in
  (b < k)%nat /\
  forall c r, (c < k)%nat -> s c = Some (Fin r) ->
    s b = Some PosInf \/ exists r', s b = Some (Fin r') /\ r <= r'.
Proof.
  intros Hn Hk. cbv zeta. unfold argmax.
  pose (P := fun (j : nat) (st : nat * ext) =>
    (snd st = NegInf /\ fst st = 0%nat \/ (fst st < j)%nat /\ s (fst st) = Some (snd st) /\ snd st <> NegInf) /\
    snd st <> NaN /\
    forall c r, (c < j)%nat -> s c = Some (Fin r) -> snd st = PosInf \/ exists r', snd st = Fin r' /\ r <= r').
  assert (P k (for_ 0 k (fun c st => match s c with
                             | None => st
                             | Some v => if ext_gtb v (snd st) then (c, v) else st
                             end) (0%nat, NegInf))) as (A & B & C).
  { apply for_ind; [lia| |].
    - unfold P. cbn. split; [auto|]. split; [discriminate|]. intros; lia.
    - intros i [b v] Hi (A & B & C). unfold P in *. cbn [fst snd] in *.
      destruct (s i) as [u|] eqn:Es.
      + pose proof (Hn i ltac:(lia)) as Hu. rewrite Es in Hu.
        destruct (ext_gtb u v) eqn:G; cbn [fst snd].
        * split; [|split].
          -- right. split; [lia|]. split; [exact Es|]. intros ->. destruct v; discriminate.
          -- intros ->. congruence.
          -- intros c r Hc Hr. destruct (Nat.eq_dec c i) as [->|].
             ++ rewrite Es in Hr. injection Hr as ->. right. exists r. split; [reflexivity|lra].
             ++ destruct (C c r ltac:(lia) Hr) as [->|(r' & -> & Hr')].
                ** destruct u; discriminate.
                ** destruct u as [|u| |]; cbn in G; try discriminate; [|auto].
                   right. exists u. split; [reflexivity|].
                   unfold Rltb in G. destruct (Rlt_dec r' u); [lra|discriminate].
        * split; [|split; [exact B|]].
          -- destruct A as [A|(A1 & A2)]; [auto|]. right. split; [lia|auto].
          -- intros c r Hc Hr. destruct (Nat.eq_dec c i) as [->|]; [|apply (C c r); [lia|exact Hr]].
             rewrite Es in Hr. injection Hr as ->. destruct v as [|w| |]; cbn in G; try discriminate.
             ++ right. exists w. split; [reflexivity|].
                unfold Rltb in G. destruct (Rlt_dec w r); [discriminate|lra].
             ++ auto.
             ++ congruence.
      + cbn [fst snd]. split; [|split; [exact B|]].
        * destruct A as [A|(A1 & A2)]; [auto|]. right. split; [lia|auto].
        * intros c r Hc Hr. destruct (Nat.eq_dec c i) as [->|]; [congruence|]. apply (C c r); [lia|exact Hr]. }
  destruct (for_ 0 k _ _) as [b v] eqn:E. cbn [fst snd] in *. split.
  - destruct A as [[_ ->]|(A & _)]; lia.
  - intros c r Hc Hr. destruct (C c r Hc Hr) as [->|(r' & -> & Hr')].
    + left. destruct A as [[Q _]|(_ & A & _)]; [discriminate|exact A].
    + right. exists r'. split; [|exact Hr']. destruct A as [[Q _]|(_ & A & _)]; [discriminate|exact A].
Qed.
