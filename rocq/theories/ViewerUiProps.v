(** C119: the tick boxes, curves and command line of the live viewer. *)
From Coq Require Import NArith ZArith QArith Lia Arith List Bool Sorted String.
From Flocq Require Import Core BinarySingleNaN.
From Verif Require Import Scalar F64 TankModel Text CsvModel CsvSpec CsvProofs CsvProps PlotModel ViewerModel ViewerProps ViewerUiModel.
Import ListNotations.
Local Open Scope nat_scope.

(** ** Specification *)
Section Spec.
Context {V : Type}.
(** the box of column [c] is ticked in one of the two lists *)
Definition ticked (a : @app V) (c : str) : Prop := on (sel_x a) c = true \/ on (sel_y a) c = true.
(** the shown columns are the ticked ones *)
Definition faithful (a : @app V) : Prop := forall c, In c (y_labels a) <-> ticked a c.
End Spec.
(** the name has a part "_x" (for the letter x), ended by the end of the name, an underscore or a bracket *)
Definition has_part (letter : N) (name : str) : Prop :=
  exists pre post, name = pre ++ [95; letter]%N ++ post /\ (post = [] \/ exists r, post = 91%N :: r \/ post = 95%N :: r).

(** ** Text *)
Lemma eqb_iff a b : str_eqb a b = true <-> a = b.
Proof. unfold str_eqb. destruct (list_eq_dec N.eq_dec a b); split; auto; discriminate. Qed.
Lemma eqb_refl a : str_eqb a a = true.
Proof. apply eqb_iff. reflexivity. Qed.
Lemma eqb_false a b : a <> b -> str_eqb a b = false.
Proof. unfold str_eqb. destruct (list_eq_dec N.eq_dec a b); congruence. Qed.

Lemma starts_iff p : forall s, starts_with p s = true <-> exists r, s = p ++ r.
Proof.
  induction p as [|a p IH]; intros s; cbn [starts_with].
  - split; [intros _; exists s; reflexivity|reflexivity].
  - destruct s as [|b s]; [split; [discriminate|intros [r E]; discriminate]|].
    rewrite andb_true_iff, N.eqb_eq, IH. split.
    + intros [-> [r ->]]. exists r. reflexivity.
    + intros [r E]. injection E as -> ->. split; [reflexivity|exists r; reflexivity].
Qed.
Lemma contains_iff p : forall s, contains p s = true <-> exists l r, s = l ++ p ++ r.
Proof.
  induction s as [|b s IH]; cbn [contains]; rewrite orb_true_iff, starts_iff.
  - split.
    + intros [[r E]|E]; [exists [], r; exact E|discriminate].
    + intros (l & r & E). left. exists r. destruct l; [exact E|discriminate].
  - rewrite IH. split.
    + intros [[r E]|(l & r & E)]; [exists [], r; exact E|exists (b :: l), r; rewrite E; reflexivity].
    + intros (l & r & E). destruct l as [|c l]; [left; exists r; exact E|]. injection E as -> E. right. exists l, r. exact E.
Qed.
Lemma ends_iff p s : ends_with_str p s = true <-> exists l, s = l ++ p.
Proof.
  unfold ends_with_str. rewrite starts_iff. split.
  - intros [r E]. exists (rev r). rewrite <- (rev_involutive s), E, rev_app_distr, rev_involutive. reflexivity.
  - intros [l ->]. exists (rev l). apply rev_app_distr.
Qed.

Lemma component_iff letter s : component letter s = true <-> has_part letter s.
Proof.
  unfold component, has_part. rewrite !orb_true_iff, !contains_iff, ends_iff. split.
  - intros [[(l & r & E)|[l E]]|(l & r & E)].
    + exists l, (91%N :: r). split; [exact E|]. right. exists r. left. reflexivity.
    + exists l, []. split; [exact E|]. left. reflexivity.
    + exists l, (95%N :: r). split; [exact E|]. right. exists r. right. reflexivity.
  - intros (pre & post & E & [->|(r & [->| ->])]).
    + left. right. exists pre. exact E.
    + left. left. exists pre, r. exact E.
    + right. exists pre, r. exact E.
Qed.

(** Columns are sorted into the lists by name, whatever the case of its letters; X wins. *)
Theorem C119_classify : forall name,
  (classify name = Some KX <-> has_part 120 (to_lower name)) /\
  (classify name = Some KY <-> has_part 121 (to_lower name) /\ ~ has_part 120 (to_lower name)) /\
  classify (to_lower name) = classify name.
Proof.
  intros name. unfold classify. rewrite <- !component_iff. split; [|split].
  - destruct (component 120 _); [tauto|]. destruct (component 121 _); split; discriminate || tauto.
  - destruct (component 120 _); [|destruct (component 121 _)]; split; intros H; try discriminate; auto; destruct H; congruence.
  - assert (E : to_lower (to_lower name) = to_lower name).
    { unfold to_lower. rewrite map_map. apply map_ext. intros c. unfold lower_char.
      destruct ((65 <=? c)%N && (c <=? 90)%N) eqn:B; [|rewrite B; reflexivity].
      apply andb_true_iff in B. rewrite !N.leb_le in B. destruct (N.leb_spec 65 (c + 32)), (N.leb_spec (c + 32) 90); cbn; lia. }
    rewrite E. reflexivity.
Qed.

(** ** The maps *)
Definition keys (m : list (str * bool)) := map fst m.
Lemma get_none m k : get m k = None <-> ~ In k (keys m).
Proof.
  induction m as [|[n b] m IH]; cbn; [tauto|]. destruct (str_eqb n k) eqn:E.
  - apply eqb_iff in E. subst. split; [discriminate|tauto].
  - rewrite IH. assert (n <> k) by (intros ->; rewrite eqb_refl in E; discriminate). tauto.
Qed.
Lemma get_some m k b : NoDup (keys m) -> (get m k = Some b <-> In (k, b) m).
Proof.
  induction m as [|[n c] m IH]; cbn; intros ND; [split; [discriminate|tauto]|]. inversion ND as [|? ? Hn ND']; subst.
  destruct (str_eqb n k) eqn:E.
  - apply eqb_iff in E. subst. split; [intros [= ->]; auto|]. intros [[= ->]|I]; [reflexivity|].
    exfalso. apply Hn. apply (in_map fst) in I. exact I.
  - rewrite IH by exact ND'. split; [auto|]. intros [[= -> ->]|I]; [rewrite eqb_refl in E; discriminate|exact I].
Qed.
Lemma on_iff m k : NoDup (keys m) -> (on m k = true <-> In (k, true) m).
Proof.
  intros ND. rewrite <- (get_some m k true ND). unfold on. destruct (get m k) as [[|]|]; split; congruence.
Qed.
Lemma get_app m k e : get (m ++ [e]) k = match get m k with Some b => Some b | None => if str_eqb (fst e) k then Some (snd e) else None end.
Proof. induction m as [|[n b] m IH]; cbn; [destruct e; reflexivity|]. destruct (str_eqb n k); [reflexivity|exact IH]. Qed.
Lemma or_insert_get m k b j : get (or_insert m k b) j = match get m j with Some c => Some c | None => if str_eqb k j then Some b else None end.
Proof.
  unfold or_insert. destruct (get m k) eqn:E.
  - destruct (get m j) eqn:F; [reflexivity|]. destruct (str_eqb k j) eqn:G; [|reflexivity]. apply eqb_iff in G. congruence.
  - rewrite get_app. reflexivity.
Qed.
Lemma or_insert_nodup m k b : NoDup (keys m) -> NoDup (keys (or_insert m k b)).
Proof.
  intros ND. unfold or_insert. destruct (get m k) eqn:E; [exact ND|]. apply get_none in E. unfold keys. rewrite map_app.
  rewrite <- (rev_involutive (map fst m ++ _)). apply NoDup_rev. rewrite rev_app_distr. cbn.
  constructor; [rewrite <- in_rev; exact E|]. apply NoDup_rev. exact ND.
Qed.
Lemma or_insert_on m k j : on (or_insert m k false) j = on m j.
Proof. unfold on. rewrite or_insert_get. destruct (get m j); [reflexivity|]. destruct (str_eqb k j); reflexivity. Qed.
Lemma flip_get m k j : get (flip m k) j = match get m j with Some b => Some (if str_eqb j k then negb b else b) | None => None end.
Proof.
  induction m as [|[n b] m IH]; cbn; [reflexivity|]. destruct (str_eqb n k) eqn:E; cbn; destruct (str_eqb n j) eqn:F; try exact IH; apply eqb_iff in F; subst n; rewrite E; reflexivity.
Qed.
Lemma flip_nodup m k : NoDup (keys m) -> NoDup (keys (flip m k)).
Proof. unfold keys, flip. rewrite map_map. intros ND. erewrite map_ext; [exact ND|]. intros [n b]. cbn. destruct (str_eqb n k); reflexivity. Qed.

(** ** One column of boxes *)
Lemma boxes_nodup x cands : forall clicked m ch, NoDup (keys m) -> NoDup (keys (fst (boxes x cands clicked m ch))).
Proof.
  induction cands as [|c r IH]; intros clicked m ch ND; cbn [boxes]; [exact ND|]. destruct (str_eqb c x); [apply IH, ND|].
  destruct (clicked 0); apply IH; [apply flip_nodup|]; apply or_insert_nodup, ND.
Qed.
(** the x column has no box *)
Lemma boxes_axis x cands : forall clicked m ch, on (fst (boxes x cands clicked m ch)) x = on m x.
Proof.
  induction cands as [|c r IH]; intros clicked m ch; cbn [boxes]; [reflexivity|]. destruct (str_eqb c x) eqn:E; [apply IH|].
  destruct (clicked 0); rewrite IH; [|apply or_insert_on].
  assert (N : str_eqb x c = false) by (apply eqb_false; intros ->; rewrite eqb_refl in E; discriminate).
  transitivity (on (or_insert m c false) x); [|apply or_insert_on]. unfold on. rewrite flip_get, N. destruct (get _ x); reflexivity.
Qed.
(** no click, no change *)
Lemma boxes_idle x cands : forall clicked m ch, (forall i, clicked i = false) ->
  (forall c, on (fst (boxes x cands clicked m ch)) c = on m c) /\ snd (boxes x cands clicked m ch) = ch.
Proof.
  induction cands as [|c r IH]; intros clicked m ch H; cbn [boxes]; [auto|]. destruct (str_eqb c x); [apply IH; intros; apply H|].
  rewrite (H 0). destruct (IH (fun i => clicked (S i)) (or_insert m c false) ch (fun i => H (S i))) as [A B]. split; [|exact B].
  intros j. rewrite A. apply or_insert_on.
Qed.
Lemma boxes_unchanged x cands : forall clicked m ch, snd (boxes x cands clicked m ch) = false ->
  ch = false /\ forall c, on (fst (boxes x cands clicked m ch)) c = on m c.
Proof.
  induction cands as [|c r IH]; intros clicked m ch H; cbn [boxes] in *; [auto|]. destruct (str_eqb c x); [apply (IH _ _ _ H)|].
  destruct (clicked 0); destruct (IH _ _ _ H) as [A B]; [discriminate|]. split; [exact A|]. intros j. rewrite B. apply or_insert_on.
Qed.
(** one click inverts that column's switch and no other *)
Lemma boxes_click x cands : forall clicked i c m ch, nth_error cands i = Some c -> c <> x -> clicked i = true ->
  (forall j, j <> i -> clicked j = false) ->
  snd (boxes x cands clicked m ch) = true /\
  forall k, on (fst (boxes x cands clicked m ch)) k = if str_eqb k c then negb (on m k) else on m k.
Proof.
  induction cands as [|d r IH]; intros clicked i c m ch Hi Hx Hc Ho; [destruct i; discriminate|]. cbn [boxes]. destruct i as [|i].
  - injection Hi as ->. rewrite (eqb_false c x Hx), Hc.
    destruct (boxes_idle x r (fun j => clicked (S j)) (flip (or_insert m c false) c) true ltac:(intros; apply Ho; lia)) as [A B].
    split; [exact B|]. intros k. rewrite A. unfold on. rewrite flip_get, or_insert_get.
    destruct (str_eqb k c) eqn:E.
    + apply eqb_iff in E. subst k. rewrite eqb_refl. destruct (get m c); reflexivity.
    + rewrite (eqb_false c k) by (intros ->; rewrite eqb_refl in E; discriminate). destruct (get m k); reflexivity.
  - cbn in Hi. assert (O : forall j, j <> i -> clicked (S j) = false) by (intros j Hj; apply Ho; lia). destruct (str_eqb d x).
    + apply (IH _ i c m ch Hi Hx Hc O).
    + rewrite (Ho 0) by lia. destruct (IH (fun j => clicked (S j)) i c (or_insert m d false) ch Hi Hx Hc O) as [A B]. split; [exact A|].
      intros k. rewrite B, !or_insert_on. reflexivity.
Qed.

(** ** The set of shown columns *)
Lemma set_insert_in x l c : In c (set_insert x l) <-> c = x \/ In c l.
Proof.
  induction l as [|y r IH]; cbn [set_insert]; [cbn; intuition|]. destruct (str_eqb x y) eqn:E.
  - apply eqb_iff in E. subst. cbn. intuition.
  - destruct (str_ltb x y); cbn [In]; [intuition|]. rewrite IH. intuition.
Qed.
Lemma fold_insert_in (m : list (str * bool)) : forall s c,
  In c (fold_left (fun (s : list str) (e : str * bool) => if snd e then set_insert (fst e) s else s) m s) <-> In (c, true) m \/ In c s.
Proof.
  induction m as [|[n b] m IH]; intros s c; cbn [fold_left In fst snd]; [tauto|]. rewrite IH. destruct b.
  - rewrite set_insert_in. split; [intros [H|[->|H]]; auto|intros [[[= ->]|H]|H]; auto].
  - split; [tauto|]. intros [[[= _ E]|H]|H]; auto; discriminate.
Qed.

Section Runs.
Context {V : Type} (num : str -> option V) (idx : str -> option nat).

Definition tidy (a : @app V) : Prop := NoDup (keys (sel_x a)) /\ NoDup (keys (sel_y a)).
Lemma new_columns_in (a : @app V) c : tidy a -> (In c (new_columns a) <-> ticked a c).
Proof.
  intros [Nx Ny]. unfold new_columns, ticked. rewrite fold_insert_in, in_app_iff, !on_iff by assumption. cbn. tauto.
Qed.
Lemma apply_maps (a : @app V) os : sel_x (apply_selection num idx a os) = sel_x a /\ sel_y (apply_selection num idx a os) = sel_y a /\ a_x (apply_selection num idx a os) = a_x a.
Proof. unfold apply_selection. destruct (for_each _ _ _). auto. Qed.
Lemma apply_labels (a : @app V) os : last_error (apply_selection num idx a os) = false -> y_labels (apply_selection num idx a os) = new_columns a.
Proof. unfold apply_selection. destruct (for_each _ _ _) as [ss e]. cbn. intros ->. reflexivity. Qed.
Lemma apply_faithful (a : @app V) os : tidy a -> last_error (apply_selection num idx a os) = false -> faithful (apply_selection num idx a os).
Proof.
  intros T L c. rewrite (apply_labels a os L), new_columns_in by exact T. unfold ticked. destruct (apply_maps a os) as (-> & -> & _). reflexivity.
Qed.

(** what happens to the viewer after its start *)
Inductive ui_event :=
| UPoll (os : nat -> obs)
| URefresh (paths : list (N * obs * obs))
| UFrame (click_x click_y : nat -> bool) (os1 os2 : nat -> obs).
Definition ui_step (s : @app V * bool) (e : ui_event) : @app V * bool :=
  match e with
  | UPoll os => (poll num idx (fst s) os, snd s)
  | URefresh ps => (refresh num idx (fst s) ps, snd s)
  | UFrame cx cy os1 os2 => toolbar num idx (fst s) (snd s) cx cy os1 os2
  end.
(** no change of the columns failed: the frame shows no error, or nothing was clicked in it (and the first selection is made) *)
Definition ui_ok (s : @app V * bool) (e : ui_event) : Prop :=
  match e with
  | UFrame cx cy _ _ => last_error (fst (ui_step s e)) = false \/ (snd s = true /\ forall i, cx i = false /\ cy i = false)
  | _ => True
  end.
Inductive ui_run : @app V * bool -> list ui_event -> @app V * bool -> Prop :=
| ui_nil s : ui_run s [] s
| ui_cons s e es s' : ui_ok s e -> ui_run (ui_step s e) es s' -> ui_run s (e :: es) s'.

Lemma poll_same (a : @app V) os : let b := poll num idx a os in y_labels b = y_labels a /\ sel_x b = sel_x a /\ sel_y b = sel_y a /\ a_x b = a_x a.
Proof. cbv zeta. unfold poll. destruct (for_each _ _ _). auto. Qed.
Lemma refresh_same ps : forall a : @app V, let b := refresh num idx a ps in y_labels b = y_labels a /\ sel_x b = sel_x a /\ sel_y b = sel_y a /\ a_x b = a_x a.
Proof.
  induction ps as [|[[path o1] o2] ps IH]; intros a; cbn [refresh]; [auto|]. cbv zeta in *.
  match goal with |- context [refresh num idx ?q ps] => destruct (IH q) as (A & B & C & D); rewrite A, B, C, D end.
  destruct (existsb _ _); [auto|]. destruct (create_source _ _ _ _ _ _); auto.
Qed.

Lemma initial_tidy (a : @app V) init os : tidy a -> tidy (initial_selection num idx a init os).
Proof.
  intros [A B]. unfold initial_selection. destruct init; [split; assumption|].
  match goal with |- tidy (apply_selection num idx ?q os) => destruct (apply_maps q os) as (E1 & E2 & _); unfold tidy; rewrite E1, E2 end.
  cbn [set_maps sel_x sel_y]. split; [destruct (x_candidates a)|destruct (y_candidates a)]; auto; apply or_insert_nodup; assumption.
Qed.
Lemma initial_axis (a : @app V) init os : a_x (initial_selection num idx a init os) = a_x a.
Proof. unfold initial_selection. destruct init; [reflexivity|]. match goal with |- a_x (apply_selection _ _ ?q _) = _ => destruct (apply_maps q os) as (_ & _ & ->) end. reflexivity. Qed.

Lemma toolbar_cases (a : @app V) init cx cy os1 os2 :
  columns_of a = [] /\ toolbar num idx a init cx cy os1 os2 = (a, init) \/
  columns_of a <> [] /\ exists sx sy ch1 ch2, let a1 := initial_selection num idx a init os1 in
    boxes (a_x a) (x_candidates a) cx (sel_x a1) false = (sx, ch1) /\
    boxes (a_x a) (y_candidates a) cy (sel_y a1) ch1 = (sy, ch2) /\
    toolbar num idx a init cx cy os1 os2 = (if ch2 then apply_selection num idx (set_maps a1 sx sy) os2 else set_maps a1 sx sy, true).
Proof.
  unfold toolbar. destruct (columns_of a) eqn:E; [left; auto|]. right. split; [discriminate|]. rewrite initial_axis.
  destruct (boxes (a_x a) (x_candidates a) cx _ false) as [sx ch1] eqn:B1. destruct (boxes (a_x a) (y_candidates a) cy _ ch1) as [sy ch2] eqn:B2.
  exists sx, sy, ch1, ch2. cbv zeta. auto.
Qed.

Definition good (s : @app V * bool) : Prop := tidy (fst s) /\ faithful (fst s).
Lemma step_good s e : good s -> ui_ok s e -> good (ui_step s e).
Proof.
  destruct s as [a init]. intros [T Fa] Ok. destruct e as [os|ps|cx cy os1 os2]; cbn [ui_step fst snd].
  - destruct (poll_same a os) as (E1 & E2 & E3 & _). unfold good, tidy, faithful, ticked in *. cbn [fst] in *. rewrite E1, E2, E3. auto.
  - destruct (refresh_same ps a) as (E1 & E2 & E3 & _). unfold good, tidy, faithful, ticked in *. cbn [fst] in *. rewrite E1, E2, E3. auto.
  - cbn [ui_ok ui_step fst snd] in Ok. destruct (toolbar_cases a init cx cy os1 os2) as [[_ E]|(_ & sx & sy & ch1 & ch2 & B1 & B2 & E)].
    { rewrite E. split; assumption. }
    cbv zeta in *. set (a1 := initial_selection num idx a init os1) in *. rewrite E in Ok |- *. cbn [fst] in *.
    pose proof (initial_tidy a init os1 T) as [Tx Ty]. fold a1 in Tx, Ty.
    assert (T2 : tidy (set_maps a1 sx sy)).
    { split; cbn [set_maps sel_x sel_y].
      - pose proof (boxes_nodup (a_x a) (x_candidates a) cx (sel_x a1) false Tx) as Q. rewrite B1 in Q. exact Q.
      - pose proof (boxes_nodup (a_x a) (y_candidates a) cy (sel_y a1) ch1 Ty) as Q. rewrite B2 in Q. exact Q. }
    destruct ch2.
    + unfold good. cbn [fst].
      assert (L : last_error (apply_selection num idx (set_maps a1 sx sy) os2) = false).
      { destruct Ok as [L|[_ Hc]]; [exact L|]. exfalso.
        destruct (boxes_idle (a_x a) (x_candidates a) cx (sel_x a1) false (fun i => proj1 (Hc i))) as [_ Q1]. rewrite B1 in Q1. cbn in Q1. subst ch1.
        destruct (boxes_idle (a_x a) (y_candidates a) cy (sel_y a1) false (fun i => proj2 (Hc i))) as [_ Q2]. rewrite B2 in Q2. discriminate. }
      split; [|apply apply_faithful; assumption]. unfold tidy. destruct (apply_maps (set_maps a1 sx sy) os2) as (-> & -> & _). exact T2.
    + split; [exact T2|]. cbn [fst].
      destruct (boxes_unchanged (a_x a) (y_candidates a) cy (sel_y a1) ch1) as [-> Oy]; [rewrite B2; reflexivity|].
      destruct (boxes_unchanged (a_x a) (x_candidates a) cx (sel_x a1) false) as [_ Ox]; [rewrite B1; reflexivity|].
      rewrite B1 in Ox. rewrite B2 in Oy. cbn [fst] in Ox, Oy.
      assert (F1 : faithful a1).
      { unfold a1, initial_selection. destruct init; [exact Fa|]. apply apply_faithful.
        - split; cbn [set_maps sel_x sel_y]; [destruct (x_candidates a)|destruct (y_candidates a)]; try apply T; apply or_insert_nodup, T.
        - destruct Ok as [L|[L _]]; [exact L|discriminate L]. }
      intros c. cbn [set_maps y_labels]. rewrite (F1 c). unfold ticked. cbn [set_maps sel_x sel_y]. rewrite Ox, Oy. reflexivity.
Qed.

Lemma start_map_on k ys c : on (start_map k ys) c = true <-> In c ys /\ classify c = Some k.
Proof.
  unfold start_map. set (f := filter _ ys).
  assert (G : forall l m, (forall c, get m c <> Some false) -> forall c, on (fold_left (fun m y => or_insert m y true) l m) c = true <-> In c l \/ on m c = true).
  { induction l as [|y l IH]; intros m Hm d; cbn [fold_left In]; [tauto|]. rewrite IH.
    - unfold on at 1 2. rewrite or_insert_get. destruct (get m d) as [[|]|] eqn:E; [tauto|destruct (Hm d E)|].
      destruct (str_eqb y d) eqn:E2; [apply eqb_iff in E2; tauto|]. assert (y <> d) by (intros ->; rewrite eqb_refl in E2; discriminate). tauto.
    - intros d'. rewrite or_insert_get. specialize (Hm d'). destruct (get m d'); [exact Hm|]. destruct (str_eqb y d'); discriminate. }
  rewrite G by (intros; discriminate). unfold f. rewrite filter_In. unfold on. cbn [get].
  assert (K : kind_eqb (classify c) (Some k) = true <-> classify c = Some k) by (destruct (classify c) as [[|]|], k; cbn; split; congruence).
  rewrite K. intuition discriminate.
Qed.
Lemma start_map_nodup k ys : NoDup (keys (start_map k ys)).
Proof.
  unfold start_map. set (f := filter _ ys). assert (G : forall l m, NoDup (keys m) -> NoDup (keys (fold_left (fun m y => or_insert m y true) l m))).
  { induction l as [|y l IH]; intros m Hm; cbn [fold_left]; [exact Hm|]. apply IH, or_insert_nodup, Hm. }
  apply G. constructor.
Qed.

(** At the start the boxes agree with the columns shown exactly if every column of the command line is an X or Y component. *)
Theorem C119_start_iff : forall x ys paths s, start_app num idx x ys paths = Some s ->
  (faithful (fst s) <-> forall c, In c ys -> classify c <> None).
Proof.
  intros x ys paths s H. unfold start_app, start in H. destruct (open_all num idx x ys paths) as [ss|]; [|discriminate]. injection H as <-. cbn [fst].
  unfold faithful, ticked. cbn [y_labels sel_x sel_y]. split; intros H c.
  - intros I. apply H in I. rewrite !start_map_on in I. intuition congruence.
  - rewrite !start_map_on. split; [|tauto]. intros I. specialize (H c I). destruct (classify c) as [[|]|]; [left|right|]; auto. congruence.
Qed.

(** ... and then they agree after every run of polls, refreshes and frames with any clicks, as long as no change of the
    columns failed. *)
Theorem C119_ticks_match_partial : forall x ys paths s es s', start_app num idx x ys paths = Some s ->
  (forall c, In c ys -> classify c <> None) -> ui_run s es s' ->
  forall c, In c (y_labels (fst s')) <-> on (sel_x (fst s')) c = true \/ on (sel_y (fst s')) c = true.
Proof.
  intros x ys paths s es s' H Hc R. assert (G : good s).
  { split; [|apply (C119_start_iff _ _ _ _ H), Hc]. unfold start_app, start in H. destruct (open_all num idx x ys paths) as [ss|]; [|discriminate]. injection H as <-.
    split; apply start_map_nodup. }
  assert (G' : good s') by (clear H Hc; induction R as [|s e es s' O R IH]; [exact G|apply IH, step_good; assumption]). apply G'.
Qed.

(** ** One click *)
Definition no_click : nat -> bool := fun _ => false.
Definition click (i : nat) : nat -> bool := Nat.eqb i.

(** A click on the box of [c] in the right-hand list inverts that box; a column is shown afterwards exactly if it is ticked
    in one of the lists. *)
Theorem C119_click_right : forall (a : @app V) i c os1 os2, tidy a -> nth_error (y_candidates a) i = Some c ->
  let a' := fst (toolbar num idx a true no_click (click i) os1 os2) in
  last_error a' = false ->
  forall k, In k (y_labels a') <-> on (sel_x a) k = true \/ (if str_eqb k c then negb (on (sel_y a) k) else on (sel_y a) k) = true.
Proof.
  intros a i c os1 os2 T Hi a' L k. assert (Cx : c <> a_x a).
  { apply nth_error_In in Hi. unfold y_candidates in Hi. apply filter_In in Hi. destruct Hi as [_ N]. intros ->. rewrite eqb_refl in N. discriminate. }
  assert (G : forall (b : @app V) sx sy (ch2 : bool), a' = (if ch2 then apply_selection num idx (set_maps b sx sy) os2 else set_maps b sx sy) -> ch2 = true ->
     tidy (set_maps b sx sy) -> (In k (y_labels a') <-> on sx k = true \/ on sy k = true)).
  { intros b sx sy ch2 E -> T2. rewrite E in L |- *. rewrite (apply_labels _ _ L), new_columns_in by exact T2. reflexivity. }
  subst a'. destruct (toolbar_cases a true no_click (click i) os1 os2) as [[Z E]|(_ & sx & sy & ch1 & ch2 & B1 & B2 & E)].
  { unfold y_candidates in Hi. rewrite Z in Hi. destruct i; discriminate. }
  cbv zeta in *. cbn [initial_selection] in *.
  destruct (boxes_idle (a_x a) (x_candidates a) no_click (sel_x a) false (fun _ => eq_refl)) as [Ox Q1]. rewrite B1 in Ox, Q1. cbn [fst snd] in Ox, Q1. subst ch1.
  destruct (boxes_click (a_x a) (y_candidates a) (click i) i c (sel_y a) false Hi Cx (Nat.eqb_refl i)) as [Q2 Oy].
  { intros j Hj. unfold click. apply Nat.eqb_neq. auto. }
  rewrite B2 in Q2, Oy. cbn [fst snd] in Q2, Oy.
  rewrite (G a sx sy ch2); [|rewrite E; reflexivity|exact Q2|].
  - rewrite Ox, Oy. reflexivity.
  - split; cbn [set_maps sel_x sel_y].
    + pose proof (boxes_nodup (a_x a) (x_candidates a) no_click (sel_x a) false (proj1 T)) as Q. rewrite B1 in Q. exact Q.
    + pose proof (boxes_nodup (a_x a) (y_candidates a) (click i) (sel_y a) false (proj2 T)) as Q. rewrite B2 in Q. exact Q.
Qed.

(** The same for the left-hand list. *)
Theorem C119_click_left : forall (a : @app V) i c os1 os2, tidy a -> nth_error (x_candidates a) i = Some c -> c <> a_x a ->
  let a' := fst (toolbar num idx a true (click i) no_click os1 os2) in
  last_error a' = false ->
  forall k, In k (y_labels a') <-> (if str_eqb k c then negb (on (sel_x a) k) else on (sel_x a) k) = true \/ on (sel_y a) k = true.
Proof.
  intros a i c os1 os2 T Hi Cx a' L k.
  assert (G : forall (b : @app V) sx sy (ch2 : bool), a' = (if ch2 then apply_selection num idx (set_maps b sx sy) os2 else set_maps b sx sy) -> ch2 = true ->
     tidy (set_maps b sx sy) -> (In k (y_labels a') <-> on sx k = true \/ on sy k = true)).
  { intros b sx sy ch2 E -> T2. rewrite E in L |- *. rewrite (apply_labels _ _ L), new_columns_in by exact T2. reflexivity. }
  subst a'. destruct (toolbar_cases a true (click i) no_click os1 os2) as [[Z E]|(_ & sx & sy & ch1 & ch2 & B1 & B2 & E)].
  { unfold x_candidates in Hi. rewrite Z in Hi. destruct i; discriminate. }
  cbv zeta in *. cbn [initial_selection] in *.
  destruct (boxes_click (a_x a) (x_candidates a) (click i) i c (sel_x a) false Hi Cx (Nat.eqb_refl i)) as [Q2 Ox].
  { intros j Hj. unfold click. apply Nat.eqb_neq. auto. }
  rewrite B1 in Q2, Ox. cbn [fst snd] in Q2, Ox. subst ch1.
  destruct (boxes_idle (a_x a) (y_candidates a) no_click (sel_y a) true (fun _ => eq_refl)) as [Oy Q1]. rewrite B2 in Oy, Q1. cbn [fst snd] in Oy, Q1.
  rewrite (G a sx sy ch2) ; [|rewrite E; reflexivity|exact Q1|].
  - rewrite Ox, Oy. reflexivity.
  - split; cbn [set_maps sel_x sel_y].
    + pose proof (boxes_nodup (a_x a) (x_candidates a) (click i) (sel_x a) false (proj1 T)) as Q. rewrite B1 in Q. exact Q.
    + pose proof (boxes_nodup (a_x a) (y_candidates a) no_click (sel_y a) true (proj2 T)) as Q. rewrite B2 in Q. exact Q.
Qed.

(** ** The x column *)
(** It has no box, so nothing a user can click changes whether it is selected. *)
Theorem C119_axis_column_has_no_box : forall (a : @app V) cx cy os1 os2,
  let a' := fst (toolbar num idx a true cx cy os1 os2) in
  a_x a' = a_x a /\ on (sel_x a') (a_x a) = on (sel_x a) (a_x a) /\ on (sel_y a') (a_x a) = on (sel_y a) (a_x a).
Proof.
  intros a cx cy os1 os2. cbv zeta. destruct (toolbar_cases a true cx cy os1 os2) as [[_ ->]|(_ & sx & sy & ch1 & ch2 & B1 & B2 & ->)]; [auto|].
  cbv zeta in *. cbn [initial_selection] in *. cbn [fst].
  pose proof (boxes_axis (a_x a) (x_candidates a) cx (sel_x a) false) as Ax. rewrite B1 in Ax.
  pose proof (boxes_axis (a_x a) (y_candidates a) cy (sel_y a) ch1) as Ay. rewrite B2 in Ay. cbn [fst] in Ax, Ay.
  destruct ch2; [destruct (apply_maps (set_maps a sx sy) os2) as (-> & -> & ->)|]; cbn [set_maps sel_x sel_y a_x]; auto.
Qed.
End Runs.

(** ** What does not hold *)
Definition nav_file : obs := whole_file 1 (txt "t,altitude,speed" ++ nl ++ txt "1,2,3" ++ nl).
Definition pos_file : obs := whole_file 1 (txt "t,pos_x,pos_y" ++ nl ++ txt "1,2,3" ++ nl).
Definition always (o : obs) : nat -> obs := fun _ => o.

(** "altitude" on the command line is shown with an empty box, and ticking the box of "speed" makes it disappear. *)
Theorem C119_ticks_match_refuted : exists paths s os a',
  start_app digit digit_nat (txt "t") [txt "altitude"] paths = Some s /\
  y_labels (fst s) = [txt "altitude"] /\ on (sel_x (fst s)) (txt "altitude") = false /\ on (sel_y (fst s)) (txt "altitude") = false /\
  nth_error (y_candidates (fst s)) 1 = Some (txt "speed") /\
  a' = fst (toolbar digit digit_nat (fst s) (snd s) no_click (click 1) os os) /\ last_error a' = false /\ y_labels a' = [txt "speed"].
Proof.
  exists [(1%N, nav_file)]. eexists. exists (always nav_file). eexists. split; [vm_compute; reflexivity|].
  split; [reflexivity|]. split; [reflexivity|]. split; [reflexivity|]. split; [vm_compute; reflexivity|]. split; [reflexivity|]. vm_compute. auto.
Qed.

(** Started without columns the viewer ticks the first X component on the left and the first column on the right.  When these
    are the same column, unticking one of its two boxes does not hide it. *)
Theorem C119_untick_hides_refuted : exists paths s os s1 s2,
  start_app digit digit_nat (txt "t") [] paths = Some s /\
  s1 = toolbar digit digit_nat (fst s) (snd s) no_click no_click os os /\ y_labels (fst s1) = [txt "pos_x"] /\
  nth_error (y_candidates (fst s1)) 0 = Some (txt "pos_x") /\ on (sel_y (fst s1)) (txt "pos_x") = true /\
  s2 = toolbar digit digit_nat (fst s1) (snd s1) no_click (click 0) os os /\ last_error (fst s2) = false /\
  on (sel_y (fst s2)) (txt "pos_x") = false /\ y_labels (fst s2) = [txt "pos_x"].
Proof.
  exists [(1%N, pos_file)]. eexists. exists (always pos_file). do 2 eexists. split; [vm_compute; reflexivity|].
  split; [vm_compute; reflexivity|]. split; [vm_compute; reflexivity|]. split; [vm_compute; reflexivity|]. split; [vm_compute; reflexivity|].
  split; [vm_compute; reflexivity|]. vm_compute. auto.
Qed.

(** With an X component as x column that column is selected at the start, drawn against itself; it has no box, so no
    clicks remove it. *)
Theorem C119_axis_column_refuted : exists paths s os s1,
  start_app digit digit_nat (txt "pos_x") [] paths = Some s /\
  s1 = toolbar digit digit_nat (fst s) (snd s) no_click no_click os os /\ In (txt "pos_x") (y_labels (fst s1)) /\
  forall (es : list ui_event) s', Forall (fun e : ui_event => match e with UFrame _ _ _ _ => True | _ => False end) es ->
    ui_run digit digit_nat s1 es s' -> In (txt "pos_x") (y_labels (fst s')).
Proof.
  exists [(1%N, pos_file)]. destruct (start_app digit digit_nat (txt "pos_x") [] [(1%N, pos_file)]) as [s|] eqn:E; [|vm_compute in E; discriminate].
  exists s, (always pos_file). set (s1 := toolbar digit digit_nat (fst s) (snd s) no_click no_click (always pos_file) (always pos_file)). exists s1.
  assert (G : good s1 /\ snd s1 = true /\ a_x (fst s1) = txt "pos_x" /\ on (sel_x (fst s1)) (txt "pos_x") = true).
  { assert (Q : s = match start_app digit digit_nat (txt "pos_x") [] [(1%N, pos_file)] with Some q => q | None => s end) by (rewrite E; reflexivity).
    split; [|subst s1; rewrite Q; vm_compute; auto].
    apply (step_good digit digit_nat s (UFrame no_click no_click (always pos_file) (always pos_file))).
    - split; [|apply (C119_start_iff digit digit_nat _ _ _ _ E); intros c []].
      rewrite Q. vm_compute. split; constructor.
    - left. cbn [ui_step]. rewrite Q. vm_compute. reflexivity. }
  split; [reflexivity|]. split; [reflexivity|]. destruct G as (Gd & In1 & Ax & On). split.
  { apply Gd. left. exact On. }
  intros es s' Fo R. assert (G' : good s' /\ on (sel_x (fst s')) (txt "pos_x") = true).
  { clearbody s1. clear E. revert Gd In1 Ax On Fo. induction R as [q|q e es q' O R IH]; intros Gd In1 Ax On Fo; [auto|].
    inversion Fo as [|? ? Fe Fo']; subst. destruct e as [| |cx cy os1 os2]; [destruct Fe|destruct Fe|].
    destruct q as [a i]. cbn [fst snd] in *. subst i.
    destruct (C119_axis_column_has_no_box digit digit_nat a cx cy os1 os2) as (A1 & A2 & _). cbv zeta in *.
    apply IH; [apply step_good; assumption| | | |exact Fo']; cbn [ui_step fst snd].
    - unfold toolbar. destruct (columns_of a); [reflexivity|]. destruct (boxes _ _ _ _ _). destruct (boxes _ _ _ _ _). reflexivity.
    - rewrite A1. exact Ax.
    - rewrite <- Ax in *. rewrite A2. exact On. }
  apply (proj2 (proj1 G')). left. apply G'.
Qed.

Example C119_nontrivial : exists s es s', start_app digit digit_nat (txt "t") [txt "pos_y"; txt "pos_x"] [(1%N, pos_file)] = Some s /\
  (forall c, In c [txt "pos_y"; txt "pos_x"] -> classify c <> None) /\ ui_run digit digit_nat s es s' /\ List.length es = 3 /\
  y_labels (fst s') = [txt "pos_x"].
Proof.
  eexists. exists [UPoll (always pos_file); URefresh []; UFrame no_click (click 1) (always pos_file) (always pos_file)]. eexists.
  split; [vm_compute; reflexivity|]. split; [intros c [<-|[<-|[]]]; vm_compute; discriminate|]. split.
  - constructor; [exact I|]. constructor; [exact I|]. constructor; [left; vm_compute; reflexivity|]. constructor.
  - split; [reflexivity|]. vm_compute. reflexivity.
Qed.
