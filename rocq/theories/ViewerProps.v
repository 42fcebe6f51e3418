(** C100: labels of the curves in the live viewer.  C101: its units, ranges and scaling. *)
From Coq Require Import NArith ZArith QArith Reals Lra Lia Arith List Bool String Sorted.
From Coquelicot Require Import Rbar.
From Flocq Require Import Core BinarySingleNaN.
From Verif Require Import Scalar F64 F64Ops TankModel Text CsvModel CsvSpec CsvProofs CsvProps PlotModel PlotProps ViewerModel.
Import ListNotations.
Local Open Scope nat_scope.
Local Existing Instance F64.prec_gt_0_53.
Local Existing Instance F64.prec_lt_emax_53.

(** * C100 *)
Section Labels.
Context {V : Type} (num : str -> option V) (idx : str -> option nat).

Lemma cfg_resolve (p : @plotter V) : cfg (fst (resolve_column_indices idx p)) = cfg p.
Proof.
  unfold resolve_column_indices. destruct (has_header (cfg p)).
  - destruct (headers p); [reflexivity|]. destruct (position _ _); [|reflexivity]. destruct (find_columns _ _). reflexivity.
  - destruct (idx _); [|reflexivity]. destruct (parse_all _ _); reflexivity.
Qed.
Lemma cfg_trim (p : @plotter V) : cfg (trim_if_needed p) = cfg p.
Proof. unfold trim_if_needed. destruct (max_points (cfg p)); [|reflexivity]. destruct (_ <=? _); reflexivity. Qed.
Lemma cfg_data (p : @plotter V) l : cfg (fst (CsvModel.data_line num p l)) = cfg p.
Proof.
  unfold CsvModel.data_line. destruct (x_index p); [|reflexivity]. destruct (field _ _ _); [|reflexivity]. destruct (parse_row _ _ _); [|reflexivity]. cbn [fst]. rewrite cfg_trim. reflexivity.
Qed.
Lemma cfg_step (p : @plotter V) l : cfg (fst (line_step num idx p l)) = cfg p.
Proof.
  unfold line_step. destruct (is_nil (trim l)); [reflexivity|]. destruct (has_header (cfg p) && is_nil (headers p)).
  - match goal with |- context [resolve_column_indices idx ?q] => pose proof (cfg_resolve q) as H; destruct (resolve_column_indices idx q) end. exact H.
  - assert (H : cfg (fst (match x_index p, y_indices p with Some _, _ :: _ => (p, true) | _, _ => resolve_column_indices idx p end)) = cfg p).
    { destruct (x_index p), (y_indices p); try apply cfg_resolve; reflexivity. }
    destruct (match x_index p, y_indices p with Some _, _ :: _ => (p, true) | _, _ => resolve_column_indices idx p end) as [q b]. cbn [fst] in H. destruct b; [|exact H].
    pose proof (cfg_data q (trim l)) as D. destruct (CsvModel.data_line num q (trim l)). cbn [fst] in *. congruence.
Qed.
Lemma cfg_lines ls : forall (p : @plotter V) c, cfg (fst (run_lines num idx p ls c)) = cfg p.
Proof.
  induction ls as [|l ls IH]; intros p c; cbn; [reflexivity|]. pose proof (cfg_step p l) as H. destruct (line_step num idx p l) as [q [ch|]]; cbn [fst] in *; [rewrite IH|]; exact H.
Qed.
Lemma cfg_chunk (p : @plotter V) t : cfg (fst (parse_text_chunk num idx p t)) = cfg p.
Proof. unfold parse_text_chunk. destruct (ends_with _ _); [|destruct (lines _)]; rewrite cfg_lines; reflexivity. Qed.
Lemma cfg_reload (p : @plotter V) o : cfg (fst (reload_from_start num idx p o)) = cfg p.
Proof.
  unfold reload_from_start. destruct (negb _); [reflexivity|]. destruct (o_bytes o); [|reflexivity]. destruct (utf8_decode _); [|reflexivity]. destruct (o_meta2 o); [|reflexivity].
  match goal with |- context [parse_text_chunk num idx ?q ?t] => pose proof (cfg_chunk q t) as H; destruct (parse_text_chunk num idx q t) as [p' [c|]] end; exact H.
Qed.
Lemma cfg_update (p : @plotter V) o : cfg (fst (update_once num idx p o)) = cfg p.
Proof.
  unfold update_once. destruct (negb _); [reflexivity|]. destruct (o_meta o) as [m|]; [|reflexivity]. destruct (should_reset p m).
  - pose proof (cfg_reload (reset_series p) o) as H. destruct (reload_from_start num idx (reset_series p) o) as [p' [c|]]; exact H.
  - assert (H : cfg (fst (if file_pos p <? len m then read_new_bytes num idx p (file_pos p) o else (p, Ok false))) = cfg p).
    { destruct (_ <? _); [|reflexivity]. unfold read_new_bytes. destruct (o_bytes o); [|reflexivity]. destruct (utf8_decode _) as [t|]; [|reflexivity].
      destruct (is_nil t); [reflexivity|]. rewrite cfg_chunk. reflexivity. }
    destruct (if file_pos p <? len m then read_new_bytes num idx p (file_pos p) o else (p, Ok false)) as [p' [c|]]; exact H.
Qed.
Lemma cfg_set (p : @plotter V) ys o : cfg (fst (set_y_columns num idx p ys o)) = mkCfg (has_header (cfg p)) (x_column (cfg p)) ys (max_points (cfg p)).
Proof. unfold set_y_columns. rewrite cfg_reload. reflexivity. Qed.

(** every source is set to show the labelled columns *)
Definition consistent (a : @app V) : Prop := Forall (fun s => cfg (s_plotter s) = mkCfg true (a_x a) (y_labels a) None) (sources a).
Lemma each_cfg f (g : config -> config) : (forall p o, cfg (fst (f p o)) = g (cfg p)) ->
  forall ss os, map (fun s => cfg (s_plotter s)) (fst (for_each f ss os)) = map (fun s : @source V => g (cfg (s_plotter s))) ss.
Proof.
  intros H. induction ss as [|s ss IH]; intros os; cbn; [reflexivity|]. specialize (H (s_plotter s) (os 0)). destruct (f (s_plotter s) (os 0)) as [p r].
  specialize (IH (fun i => os (S i))). destruct (for_each f ss _) as [ss' e]. cbn in *. congruence.
Qed.
Lemma Forall_cfg (P : config -> Prop) (l : list (@source V)) : Forall (fun s => P (cfg (s_plotter s))) l <-> Forall P (map (fun s => cfg (s_plotter s)) l).
Proof. rewrite Forall_map. reflexivity. Qed.
Lemma poll_consistent a os : consistent a -> consistent (poll num idx a os).
Proof.
  unfold consistent, poll. pose proof (each_cfg (update_once num idx) (fun c => c) cfg_update (sources a) os) as E. destruct (for_each _ _ _) as [ss e]. cbn [fst sources a_x y_labels] in *.
  rewrite !(Forall_cfg (fun c => c = _)), E. auto.
Qed.
Lemma create_cfg x ys path o s : create_source num idx x ys path o = Some s -> s_path s = path /\ cfg (s_plotter s) = mkCfg true x ys None.
Proof.
  unfold create_source. pose proof (cfg_reload (new (mkCfg true x ys None)) o) as H. fold (initialize num idx (new (mkCfg true x ys None)) o) in H.
  destruct (initialize num idx (new (mkCfg true x ys None)) o) as [p [c|]]; [|discriminate]. intros E. injection E as <-. auto.
Qed.
Lemma refresh_consistent ps : forall a, consistent a -> consistent (refresh num idx a ps).
Proof.
  induction ps as [|[[path o1] o2] ps IH]; intros a H; cbn [refresh]; [exact H|]. apply IH. destruct (existsb _ _); [exact H|].
  destruct (create_source num idx (a_x a) (y_labels a) path o1) as [s|] eqn:E; [|exact H]. apply create_cfg in E. destruct E as [_ E].
  unfold consistent. cbn [sources a_x y_labels]. apply Forall_app. split; [exact H|]. constructor; [|constructor]. cbn [s_plotter].
  destruct (y_labels a) as [|y ys] eqn:L; [exact E|]. rewrite cfg_set, E. reflexivity.
Qed.
Lemma select_consistent a os : consistent a -> last_error (apply_selection num idx a os) = false -> consistent (apply_selection num idx a os).
Proof.
  unfold consistent, apply_selection. intros H. set (nc := new_columns a).
  pose proof (each_cfg (fun p o => set_y_columns num idx p nc o) (fun c => mkCfg (has_header c) (x_column c) nc (max_points c)) (fun p o => cfg_set p nc o) (sources a) os) as E.
  destruct (for_each _ _ _) as [ss e]. cbn [fst sources a_x y_labels last_error] in *. intros ->.
  rewrite (Forall_cfg (fun c => c = _)), E, Forall_map. eapply Forall_impl; [|exact H]. cbn. intros s ->. reflexivity.
Qed.
Lemma open_consistent x ys ps : forall ss, open_all num idx x ys ps = Some ss -> Forall (fun s : @source V => cfg (s_plotter s) = mkCfg true x ys None) ss.
Proof.
  induction ps as [|[path o] ps IH]; intros ss H; cbn in H; [injection H as <-; constructor|]. destruct (create_source num idx x ys path o) as [s|] eqn:E; [|discriminate].
  destruct (open_all num idx x ys ps); [|discriminate]. injection H as <-. constructor; auto. apply create_cfg in E. apply E.
Qed.
(** Specification: a run of the program in which no change of the selection was reported as failed *)
Inductive run : @app V -> list event -> @app V -> Prop :=
| run_nil a : run a [] a
| run_step a e es b : (match e with Select _ _ _ => last_error (step num idx a e) = false | _ => True end) -> run (step num idx a e) es b -> run a (e :: es) b.
Lemma run_consistent a es b : run a es b -> consistent a -> consistent b.
Proof.
  induction 1 as [|a e es b G R IH]; auto. intros H. apply IH. destruct e as [os|ps|sx sy os]; cbn [step] in *; [apply poll_consistent, H|apply refresh_consistent, H|].
  apply select_consistent; auto.
Qed.
(** in such a run every curve number of every source is labelled with the column that source is set to show under that number *)
Theorem C100_labels_partial x ys selx sely paths a0 es a series : start num idx x ys selx sely paths = Some a0 -> run a0 es a ->
  forall s i name, In s (sources a) -> nth_error (y_columns (cfg (s_plotter s))) i = Some name -> curve_label series a i = name.
Proof.
  intros S R s i name I E. assert (C0 : consistent a0).
  { unfold start in S. destruct (open_all num idx x ys paths) as [ss|] eqn:O; [|discriminate]. injection S as <-. apply open_consistent in O. exact O. }
  pose proof (run_consistent _ _ _ R C0) as C. unfold consistent in C. rewrite Forall_forall in C. rewrite (C s I) in E. cbn in E. unfold curve_label. rewrite E. reflexivity.
Qed.
Lemma each_nth f : forall (ss : list (@source V)) os i s', nth_error (fst (for_each f ss os)) i = Some s' ->
  exists s, nth_error ss i = Some s /\ s' = mkSrc (s_path s) (fst (f (s_plotter s) (os i))).
Proof.
  induction ss as [|s ss IH]; intros os i s' H; cbn in H; [destruct i; discriminate|]. destruct (f (s_plotter s) (os 0)) as [p r] eqn:E.
  specialize (IH (fun j => os (S j))). destruct (for_each f ss _) as [ss' e]. destruct i as [|i]; cbn in H.
  - injection H as <-. exists s. rewrite E. auto.
  - apply IH in H. exact H.
Qed.
Lemma each_ok f : forall (ss : list (@source V)) os, snd (for_each f ss os) = false -> forall i s, nth_error ss i = Some s -> exists b, snd (f (s_plotter s) (os i)) = Ok b.
Proof.
  induction ss as [|s ss IH]; intros os H i s0 E; cbn in *; [destruct i; discriminate|]. destruct (f (s_plotter s) (os 0)) as [p r] eqn:Ef.
  specialize (IH (fun j => os (S j))). destruct (for_each f ss _) as [ss' e]. cbn in *. apply orb_false_iff in H. destruct H as [H1 H2].
  destruct i as [|i]; cbn in E; [injection E as <-; rewrite Ef; destruct r; [eexists; reflexivity|discriminate]|apply (IH H2 i s0 E)].
Qed.
(** after a successful change of the selection each source, read whole, shows under every label the column of that name in its own file *)
Theorem C100_selection_shows_partial a sx sy os a' : consistent a -> a' = step num idx a (Select sx sy os) -> last_error a' = false ->
  forall i s id bs t h rest, nth_error (sources a') i = Some s -> os i = whole_file id bs -> utf8_decode bs = Some t -> content_lines t = h :: rest ->
  exists xi yis, column_at (fields h) (a_x a) xi /\ Forall2 (column_at (fields h)) (y_labels a') yis /\
    shows (filter_map (row num xi yis) rest) (s_plotter s).
Proof.
  intros C -> L i s id bs t h rest Hs Ho Hu Hc. cbn [step] in *. unfold apply_selection in *. set (a1 := mkApp (sources a) (a_x a) (y_labels a) sx sy (last_error a)) in *. set (nc := new_columns a1) in *.
  pose proof (each_nth (fun p o => set_y_columns num idx p nc o) (sources a1) os i) as N. pose proof (each_ok (fun p o => set_y_columns num idx p nc o) (sources a1) os) as K.
  destruct (for_each _ (sources a1) os) as [ss e]. cbn [fst snd sources last_error y_labels a_x a1] in *. subst e.
  destruct (N s Hs) as (s0 & H0 & ->). destruct (K eq_refl i s0 H0) as [b Hb]. cbn [s_plotter].
  assert (Cs : cfg (s_plotter s0) = mkCfg true (a_x a) (y_labels a) None) by (unfold consistent in C; rewrite Forall_forall in C; apply C; eapply nth_error_In; eauto).
  rewrite Ho in *. rewrite C24_set_columns_reads_once in *. rewrite Cs in *. cbn [has_header x_column max_points] in *.
  destruct (initialize num idx (new (mkCfg true (a_x a) nc None)) (whole_file id bs)) as [p r] eqn:E. cbn [fst snd] in *. subst r.
  destruct (C23_rows_with_header V num idx (mkCfg true (a_x a) nc None) id bs t h rest b p eq_refl Hu Hc E) as (xi & yis & X & Y & S). exists xi, yis. auto.
Qed.

(** Specification: the order of names, character by character, a name before its continuations *)
Inductive before : str -> str -> Prop :=
| before_end c r : before [] (c :: r)
| before_lt x y a b : (x < y)%N -> before (x :: a) (y :: b)
| before_eq x a b : before a b -> before (x :: a) (x :: b).
Lemma ltb_before a : forall b, str_ltb a b = true <-> before a b.
Proof.
  induction a as [|x a IH]; intros [|y b]; cbn [str_ltb]; (split; [intros H|intros H]); try discriminate; try reflexivity; try (inversion H; fail); try (apply before_end); [|].
  - apply orb_true_iff in H. destruct H as [H|H]; [apply before_lt, N.ltb_lt, H|]. apply andb_true_iff in H. destruct H as [E H]. apply N.eqb_eq in E. subst y. apply before_eq, IH, H.
  - apply orb_true_iff. inversion H; subst; [left; apply N.ltb_lt; assumption|right]. rewrite N.eqb_refl. apply IH. assumption.
Qed.
Lemma before_total a : forall b, a = b \/ before a b \/ before b a.
Proof.
  induction a as [|x a IH]; intros [|y b]; [auto|right; left; constructor|right; right; constructor|].
  destruct (N.lt_trichotomy x y) as [L|[->|L]]; [right; left; apply before_lt, L| |right; right; apply before_lt, L].
  destruct (IH b) as [->|[H|H]]; [auto|right; left; apply before_eq, H|right; right; apply before_eq, H].
Qed.
Lemma before_trans a b c : before a b -> before b c -> before a c.
Proof.
  intros H. revert c. induction H as [d r|x y a b L|x a b H IH]; intros c K; inversion K; subst;
    first [apply before_end|apply before_lt; lia|apply before_eq, IH; assumption].
Qed.
Lemma set_insert_spec x l : StronglySorted before l -> StronglySorted before (set_insert x l) /\ forall c, In c (set_insert x l) <-> c = x \/ In c l.
Proof.
  induction l as [|y r IH]; intros S; cbn [set_insert]; [split; [repeat constructor|cbn; intuition congruence]|].
  destruct (str_eqb x y) eqn:E.
  - unfold str_eqb in E. destruct (list_eq_dec N.eq_dec x y) as [->|]; [|discriminate]. split; [exact S|]. cbn. intuition congruence.
  - inversion S as [|? ? Sr Fr]; subst. destruct (str_ltb x y) eqn:L.
    + apply ltb_before in L. split; [|cbn; intuition congruence]. constructor; [exact S|]. constructor; [exact L|]. rewrite Forall_forall in *. intros z I. eapply before_trans; eauto.
    + destruct (IH Sr) as [A B]. split; [|cbn; intros c; rewrite B; intuition congruence]. constructor; [exact A|]. rewrite Forall_forall in *. intros z I. apply B in I.
      destruct I as [->|I]; [|apply Fr, I]. destruct (before_total x y) as [->|[H|H]]; [unfold str_eqb in E; destruct (list_eq_dec N.eq_dec y y); [discriminate|congruence]|apply ltb_before in H; congruence|exact H].
Qed.
(** the columns shown after a successful change of the selection are the ticked ones, each once, in the order of their names *)
Theorem C100_columns_in_order (a : @app V) sx sy os a' : a' = step num idx a (Select sx sy os) -> last_error a' = false ->
  StronglySorted before (y_labels a') /\ forall c, In c (y_labels a') <-> In (c, true) sx \/ In (c, true) sy.
Proof.
  intros -> L. cbn [step] in *. unfold apply_selection in *. destruct (for_each _ _ _) as [ss e]. cbn [last_error y_labels] in *. subst e.
  unfold new_columns. cbn [sel_x sel_y].
  assert (G : forall (m : list (str * bool)) s, StronglySorted before s ->
    StronglySorted before (fold_left (fun (s : list str) (e : str * bool) => if snd e then set_insert (fst e) s else s) m s) /\
    forall c, In c (fold_left (fun (s : list str) (e : str * bool) => if snd e then set_insert (fst e) s else s) m s) <-> In (c, true) m \/ In c s).
  { induction m as [|[n b] m IH]; intros s S; cbn [fold_left fst snd]; [split; [exact S|cbn; tauto]|]. destruct b.
    - destruct (set_insert_spec n s S) as [A B]. destruct (IH _ A) as [C D]. split; [exact C|]. intros c. rewrite D, B. cbn [In]. intuition congruence.
    - destruct (IH _ S) as [C D]. split; [exact C|]. intros c. rewrite D. cbn [In]. intuition congruence. }
  destruct (G (sx ++ sy)%list [] (SSorted_nil _)) as [A B]. split; [exact A|]. intros c. rewrite B, in_app_iff. cbn. tauto.
Qed.
End Labels.
(** Refuted: when one source lacks a newly ticked column, the others show the new columns under the old labels *)
Definition file1 : obs := whole_file 1 (txt "t,a,b" ++ nl ++ txt "1,2,3" ++ nl).
Definition file2 : obs := whole_file 2 (txt "t,a" ++ nl ++ txt "1,2" ++ nl).
Theorem C100_labels_refuted : exists x ys paths a0 a s series, start digit digit_nat x ys [] [] paths = Some a0 /\
  a = step digit digit_nat a0 (Select [] [(txt "b", true)] (fun i => if i =? 0 then file1 else file2)) /\
  nth_error (sources a) 0 = Some s /\ y_values (s_plotter s) = [[3%N]] /\ y_columns (cfg (s_plotter s)) = [txt "b"] /\ curve_label series a 0 = txt "a".
Proof.
  exists (txt "t"), [txt "a"], [(1%N, file1); (2%N, file2)]. do 3 eexists. exists (fun _ => []).
  split; [vm_compute; reflexivity|]. split; [reflexivity|]. split; [vm_compute; reflexivity|]. vm_compute. auto.
Qed.
Example C100_nontrivial : exists a0 a, start digit digit_nat (txt "t") [txt "a"] [] [] [(1%N, file1); (2%N, file1)] = Some a0 /\
  run digit digit_nat a0 [Poll (fun _ => file1); Refresh [(3%N, file1, file1)]; Select [] [(txt "b", true); (txt "a", true)] (fun _ => file1)] a /\
  map (fun s => y_values (s_plotter s)) (sources a) = [[[2%N]; [3%N]]; [[2%N]; [3%N]]; [[2%N]; [3%N]]] /\ y_labels a = [txt "a"; txt "b"].
Proof.
  do 2 eexists. split; [vm_compute; reflexivity|]. split; [repeat (constructor; [vm_compute; exact I || reflexivity|]); constructor|]. vm_compute. auto.
Qed.
