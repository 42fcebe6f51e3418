(** C120: the viewer's command line, the curves it draws and the labels of the runs. *)
From Coq Require Import NArith ZArith QArith Reals Lra Lia Arith List Bool String.
From Coquelicot Require Import Rbar.
From Flocq Require Import Core BinarySingleNaN.
From Verif Require Import Scalar F64 F64Ops TankModel Text CsvModel CsvSpec CsvProofs CsvProps PlotModel PlotProps ViewerModel ViewerProps
  ViewerUiModel ViewerUiProps.
Import ListNotations.
Local Open Scope nat_scope.
Local Existing Instance F64.prec_gt_0_53.
Local Existing Instance F64.prec_lt_emax_53.

(** ** Specification *)
(** the names written one after the other, separated by commas *)
Fixpoint comma_list (l : list str) : str :=
  match l with [] => [] | [c] => c | c :: r => c ++ [44%N] ++ comma_list r end.
(** a name that can be written there: not empty, no comma, no blanks at its ends *)
Definition plain_name (c : str) : Prop := c <> [] /\ ~ In 44%N c /\ trim c = c.

(** ** The command line *)
Lemma split_one c : ~ In 44%N c -> split_on 44 c = [c].
Proof.
  induction c as [|x c IH]; cbn [split_on In]; intros H; [reflexivity|]. destruct (N.eqb_spec x 44) as [->|_]; [tauto|].
  rewrite IH by tauto. reflexivity.
Qed.
Lemma split_first c r : ~ In 44%N c -> split_on 44 (c ++ 44%N :: r) = c :: split_on 44 r.
Proof.
  induction c as [|x c IH]; cbn [split_on In List.app]; intros H; [reflexivity|]. destruct (N.eqb_spec x 44) as [->|_]; [tauto|].
  rewrite IH by tauto. reflexivity.
Qed.
Lemma split_list l : l <> [] -> Forall plain_name l -> split_on 44 (comma_list l) = l.
Proof.
  induction l as [|c l IH]; intros Hn H; [congruence|]. inversion H as [|? ? (_ & Hc & _) Hl]; subst. cbn [comma_list]. destruct l as [|d l].
  - apply split_one, Hc.
  - cbn [List.app]. rewrite split_first by exact Hc. rewrite IH by (discriminate || exact Hl). reflexivity.
Qed.

(** Names written on the command line come out as they were, in order, unless the whole list reads as a number. *)
Theorem C120_columns : forall parse prog file x cols, cols <> [] -> Forall plain_name cols -> parse (comma_list cols) = None ->
  exists hz, command_line parse [prog; file; x; comma_list cols] = Some (file, x, cols, hz) /\
  forall rate h rest, parse rate = Some h ->
    exists hz', command_line parse (prog :: file :: x :: comma_list cols :: rate :: rest) = Some (file, x, cols, hz') /\ hz' = max64 h (lit f64_ops (1 # 10)).
Proof.
  intros parse prog file x cols Hn Hp Hd. unfold command_line. rewrite Hd, split_list by assumption.
  assert (E : filter (fun s => negb (is_nil s)) (map trim cols) = cols).
  { clear Hn Hd. induction Hp as [|c l (H1 & _ & H3) Hl IH]; [reflexivity|]. cbn [map filter]. rewrite H3. destruct c as [|x0 c]; [congruence|]. cbn [is_nil negb]. f_equal. exact IH. }
  rewrite E. eexists. split; [reflexivity|]. intros rate h rest Hr. rewrite Hr. eexists. split; reflexivity.
Qed.

(** A third argument that reads as a number is the polling rate: a column of that name cannot be asked for. *)
Theorem C120_number_is_a_rate : forall parse prog file x c h rest, parse c = Some h ->
  command_line parse (prog :: file :: x :: c :: rest) = Some (file, x, [], max64 h (lit f64_ops (1 # 10))).
Proof. intros parse prog file x c h rest H. unfold command_line. rewrite H. reflexivity. Qed.

(** The polling rate is a number of at least 0.1, whatever was written. *)
Theorem C120_rate : forall parse args file x ys hz, command_line parse args = Some (file, x, ys, hz) ->
  is_nan hz = false /\ Rbar_le (xval (lit f64_ops (1 # 10))) (xval hz).
Proof.
  intros parse args file x ys hz H.
  assert (G : exists h, hz = max64 h (lit f64_ops (1 # 10))).
  { unfold command_line in H. destruct args as [|p [|f [|x' rest]]]; try discriminate. destruct rest as [|a3 r].
    - injection H as _ _ _ <-. eauto.
    - destruct (parse a3); [injection H as _ _ _ <-; eauto|]. destruct r as [|a4 r]; [injection H as _ _ _ <-; eauto|]. destruct (parse a4); injection H as _ _ _ <-; eauto. }
  destruct G as [h ->]. assert (Nt : is_number (lit f64_ops (1 # 10))) by (unfold is_number; vm_compute; reflexivity).
  destruct (is_nan h) eqn:E.
  - destruct h; try discriminate. unfold max64, fmax, isnan. cbn [eqb ltb f64_ops]. split; [vm_compute; reflexivity|]. 
    change (Rbar_le (xval (lit f64_ops (1 # 10))) (xval (lit f64_ops (1 # 10)))). apply Rbar_le_refl.
  - destruct (max_spec h (lit f64_ops (1 # 10)) E Nt) as (A & _ & B & _). split; [exact A|exact B].
Qed.

(** ** The curves *)
(** Without a second axis every shown column of every source gives one curve: its values over the x values, in file order,
    under the legend "run::column". *)
Lemma finite_all (xs : list f64) : forall ys : list f64, Forall (fun v : f64 => is_finite v = true) xs -> Forall (fun v : f64 => is_finite v = true) ys ->
  finite_points xs ys = combine xs ys.
Proof.
  unfold finite_points. induction xs as [|x xs IH]; intros [|y ys] Hx Hy; [reflexivity|reflexivity|reflexivity|].
  inversion Hx as [|? ? Fx Hx']; inversion Hy as [|? ? Fy Hy']; subst. cbn [combine filter fst snd]. rewrite Fx, Fy. cbn [andb]. f_equal. apply IH; assumption.
Qed.
Lemma curve_list series name (a : @ViewerModel.app f64) (xs : list f64) path labels (yss : list (list f64)) : xs <> [] ->
  forall k, (forall i, i < List.length yss -> nth_error (y_labels a) (k + i) = nth_error labels i) -> List.length labels = List.length yss ->
  Forall (fun ys : list f64 => List.length ys = List.length xs) yss ->
  flat_map (fun e : nat * list f64 => let '(i, ys) := e in
      if negb (List.length ys =? List.length xs) then []
      else let col := curve_label series a i in [(name (path : N) ++ [58; 58]%N ++ col, curve_points a col xs ys)])
    (combine (seq k (List.length yss)) yss)
  = map (fun e : str * list f64 => (name path ++ [58; 58]%N ++ fst e, curve_points a (fst e) xs (snd e))) (combine labels yss).
Proof.
  intros Hx. revert labels. induction yss as [|ys yss IH]; intros labels k Hk Hl Hy; [destruct labels; [reflexivity|discriminate]|].
  destruct labels as [|c labels]; [discriminate|]. inversion Hy as [|? ? Ey Hy']; subst. cbn [List.length seq combine flat_map map fst snd].
  rewrite Ey, Nat.eqb_refl. cbn [negb]. pose proof (Hk 0 ltac:(cbn; lia)) as E0. rewrite Nat.add_0_r in E0. cbn in E0.
  unfold curve_label at 1 2. rewrite E0. cbn [List.app]. f_equal. apply IH.
  - intros i Hi. replace (S k + i) with (k + S i) by lia. rewrite Hk by (cbn; lia). reflexivity.
  - cbn in Hl. lia.
  - exact Hy'.
Qed.
Theorem C120_curves : forall series name (a : @ViewerModel.app f64) (s : @source f64),
  let p := s_plotter s in
  x_values p <> [] -> List.length (y_values p) = List.length (y_labels a) ->
  Forall (fun ys : list f64 => List.length ys = List.length (x_values p)) (y_values p) ->
  Forall (fun v : f64 => is_finite v = true) (x_values p) -> Forall (Forall (fun v : f64 => is_finite v = true)) (y_values p) ->
  source_curves series name a s =
    map (fun e : str * list f64 => let '(c, ys) := e in
      (name (s_path s) ++ [58; 58]%N ++ c,
       map (fun q : f64 * f64 => (fst q, if dual_axis a && on (sel_y a) c
                             then map_range (snd q) (fst (group_range a (sel_y a))) (snd (group_range a (sel_y a)))
                                                    (fst (group_range a (sel_x a))) (snd (group_range a (sel_x a)))
                             else snd q)) (combine (x_values p) ys)))
      (combine (y_labels a) (y_values p)).
Proof.
  intros series name a [path p] p0 Hx Hl Hy Fx Fy. unfold source_curves. cbv zeta. subst p0. cbn [s_plotter s_path] in *.
  replace (is_nil (x_values p)) with false by (destruct (x_values p); [congruence|reflexivity]). cbn [orb].
  destruct (is_nil (y_values p)) eqn:Ny.
  { destruct (y_values p); [|discriminate]. destruct (y_labels a); [reflexivity|discriminate]. }
  etransitivity; [apply (curve_list series name a (x_values p) path (y_labels a) (y_values p) Hx 0); [reflexivity|symmetry; exact Hl|exact Hy]|].
  apply map_ext_in. intros [c ys] I. cbn [fst snd]. f_equal.
  assert (Fs : Forall (fun v : f64 => is_finite v = true) ys) by (apply in_combine_r in I; rewrite Forall_forall in Fy; apply Fy, I).
  unfold curve_points. rewrite (finite_all _ _ Fx Fs). destruct (dual_axis a && on (sel_y a) c).
  - destruct (group_range a (sel_x a)), (group_range a (sel_y a)). reflexivity.
  - symmetry. erewrite map_ext; [apply map_id|]. intros []. reflexivity.
Qed.

(** The second axis is used exactly if columns of both lists are shown whose common units differ. *)
Theorem C120_dual_axis : forall a : @ViewerModel.app f64, dual_axis a = true <->
  (exists c, In c (y_labels a) /\ on (sel_x a) c = true) /\ (exists c, In c (y_labels a) /\ on (sel_y a) c = true) /\
  common_unit (filter (on (sel_x a)) (y_labels a)) <> common_unit (filter (on (sel_y a)) (y_labels a)).
Proof.
  intros a. unfold dual_axis, selected. rewrite !andb_true_iff, !negb_true_iff.
  assert (N : forall m, is_nil (filter (on m) (y_labels a)) = false <-> exists c, In c (y_labels a) /\ on m c = true).
  { intros m. split.
    - intros H. destruct (filter (on m) (y_labels a)) as [|c r] eqn:E; [discriminate|]. exists c. apply filter_In. rewrite E. left. reflexivity.
    - intros (c & H). apply filter_In in H. destruct (filter (on m) (y_labels a)); [destruct H|reflexivity]. }
  rewrite !N. assert (U : forall u v, unit_eqb u v = false <-> u <> v).
  { intros [u|] [v|]; cbn; try (split; congruence). destruct (str_eqb u v) eqn:E; [apply eqb_iff in E; subst; split; congruence|].
    split; [|reflexivity]. intros _ [= ->]. rewrite eqb_refl in E. discriminate. }
  rewrite U. tauto.
Qed.

Lemma combine_nth_error {A B} (l : list A) : forall (m : list B) x y, In (x, y) (combine l m) <-> exists i, nth_error l i = Some x /\ nth_error m i = Some y.
Proof.
  induction l as [|a l IH]; intros [|b m] x y; cbn [combine In].
  - split; [tauto|]. intros ([|] & H & _); discriminate.
  - split; [tauto|]. intros ([|] & H & _); discriminate.
  - split; [tauto|]. intros ([|] & _ & H); discriminate.
  - rewrite IH. split.
    + intros [[= <- <-]|(i & H)]; [exists 0; auto|exists (S i); exact H].
    + intros ([|i] & H); [left; destruct H as [[= ->] [= ->]]; reflexivity|right; exists i; exact H].
Qed.
(** The values that make up the range of a group of columns: those of the group's columns in every source, and only where the
    column is as long as the x values, so that it is drawn. *)
Theorem C120_group_values : forall (a : @ViewerModel.app f64) cols v, In v (group_values a cols) <->
  exists s i c ys, In s (sources a) /\ nth_error (y_labels a) i = Some c /\ nth_error (y_values (s_plotter s)) i = Some ys /\
    In c cols /\ List.length ys = List.length (x_values (s_plotter s)) /\ In v ys.
Proof.
  intros a cols v. unfold group_values. rewrite in_flat_map. split.
  - intros (s & Hs & H). apply in_flat_map in H. destruct H as ((c & ys) & I & H). apply combine_nth_error in I. destruct I as (i & I1 & I2).
    cbn [fst snd] in H. destruct (existsb (str_eqb c) cols) eqn:E; [|destruct H]. destruct (Nat.eqb_spec (List.length ys) (List.length (x_values (s_plotter s)))); [|destruct H].
    apply existsb_exists in E. destruct E as (c' & Ic & E). apply eqb_iff in E. subst c'. exists s, i, c, ys. auto 7.
  - intros (s & i & c & ys & Hs & I1 & I2 & Ic & L & Hv). exists s. split; [exact Hs|]. apply in_flat_map. exists (c, ys).
    split; [apply combine_nth_error; exists i; auto|]. cbn [fst snd]. rewrite L, Nat.eqb_refl.
    replace (existsb (str_eqb c) cols) with true by (symmetry; apply existsb_exists; exists c; split; [exact Ic|apply eqb_refl]). exact Hv.
Qed.

(** ** "Y-series are scaled onto X-axis": those of the left-hand list are too, when they are ticked on both sides. *)
Definition digit_f64 (s : str) : option f64 := option_map (fun n => f64_of_Z (Z.of_N n)) (digit s).
Definition two_units : obs := whole_file 1 (txt "t,a_x[m],b[s]" ++ nl ++ txt "1,2,4" ++ nl ++ txt "2,3,4" ++ nl).
Definition both_right : nat -> bool := fun i => i <? 2.
Definition curve_bits (c : str * list (f64 * f64)) : str * list SpecFloat.spec_float := (fst c, map (fun q => B2SF (snd q)) (snd c)).
Definition sf (z : Z) : SpecFloat.spec_float := B2SF (f64_of_Z z).

(** The file has a_x = 2, 3.  Started with the X component a_x[m], and with the two boxes on the right ticked then, the viewer draws
    a_x[m] as 2, 2.5. *)
Theorem C120_left_unscaled_refuted : exists s os s1 series name,
  start_app digit_f64 digit_nat (txt "t") [txt "a_x[m]"] [(1%N, two_units)] = Some s /\
  map curve_bits (curves series name (fst s)) = [(name 1%N ++ txt "::a_x[m]", [sf 2; sf 3])] /\
  s1 = toolbar digit_f64 digit_nat (fst s) (snd s) no_click both_right os os /\ last_error (fst s1) = false /\
  dual_axis (fst s1) = true /\ on (sel_x (fst s1)) (txt "a_x[m]") = true /\
  exists rest, map curve_bits (curves series name (fst s1)) =
    (name 1%N ++ txt "::a_x[m]", [sf 2; B2SF (lit f64_ops (5 # 2))]) :: rest.
Proof.
  destruct (start_app digit_f64 digit_nat (txt "t") [txt "a_x[m]"] [(1%N, two_units)]) as [s|] eqn:E.
  2:{ exfalso. assert (B : match start_app digit_f64 digit_nat (txt "t") [txt "a_x[m]"] [(1%N, two_units)] with Some _ => true | None => false end = true) by (vm_compute; reflexivity).
      rewrite E in B. discriminate. }
  exists s, (always two_units). eexists. exists (fun _ => []), (fun _ => txt "run_1").
  assert (G : forall (P : @ViewerModel.app f64 * bool -> Prop), match start_app digit_f64 digit_nat (txt "t") [txt "a_x[m]"] [(1%N, two_units)] with Some q => P q | None => True end -> P s)
    by (intros P H; rewrite E in H; exact H).
  split; [reflexivity|]. split; [apply (G (fun s => map curve_bits (curves (fun _ => []) (fun _ => txt "run_1") (fst s)) = [(txt "run_1" ++ txt "::a_x[m]", [sf 2; sf 3])])); vm_compute; reflexivity|]. split; [reflexivity|].
  split; [apply (G (fun s => last_error (fst (toolbar digit_f64 digit_nat (fst s) (snd s) no_click both_right (always two_units) (always two_units))) = false)); vm_compute; reflexivity|].
  split; [apply (G (fun s => dual_axis (fst (toolbar digit_f64 digit_nat (fst s) (snd s) no_click both_right (always two_units) (always two_units))) = true)); vm_compute; reflexivity|].
  split; [apply (G (fun s => on (sel_x (fst (toolbar digit_f64 digit_nat (fst s) (snd s) no_click both_right (always two_units) (always two_units)))) (txt "a_x[m]") = true)); vm_compute; reflexivity|].
  apply (G (fun s => exists rest, map curve_bits (curves (fun _ => []) (fun _ => txt "run_1") (fst (toolbar digit_f64 digit_nat (fst s) (snd s) no_click both_right (always two_units) (always two_units))))
    = (txt "run_1" ++ txt "::a_x[m]", [sf 2; B2SF (lit f64_ops (5 # 2))]) :: rest)).
  vm_compute. eexists. reflexivity.
Qed.

(** ** The labels of the runs *)
(** the last part of the path that starts with "run_" *)
Theorem C120_run_label : forall before dir after,
  starts_with run_prefix dir = true -> Forall (fun c => starts_with run_prefix c = false) after ->
  derive_run_label (before ++ dir :: after) = dir.
Proof.
  intros before dir after Hd Ha. unfold derive_run_label. rewrite rev_app_distr. cbn [rev]. rewrite <- app_assoc.
  assert (G : forall l r, Forall (fun c => starts_with run_prefix c = false) l -> find (starts_with run_prefix) (l ++ r) = find (starts_with run_prefix) r).
  { induction l as [|c l IH]; intros r H; [reflexivity|]. inversion H as [|? ? Hc Hl]; subst. cbn [List.app find]. rewrite Hc. apply IH, Hl. }
  rewrite G by (apply Forall_rev, Ha). cbn [List.app find]. rewrite Hd. reflexivity.
Qed.
(** ... and otherwise the file's name without its extension *)
Theorem C120_stem_label : forall dirs stem ext,
  Forall (fun c => starts_with run_prefix c = false) dirs -> starts_with run_prefix (stem ++ 46%N :: ext) = false ->
  stem <> [] -> stem <> [46%N] -> ~ In 46%N ext ->
  derive_run_label (dirs ++ [stem ++ 46%N :: ext]) = stem.
Proof.
  intros dirs stem ext Hd Hs Hn Hdot He. unfold derive_run_label. rewrite rev_app_distr. cbn [rev List.app find]. rewrite Hs.
  assert (G : forall l, Forall (fun c => starts_with run_prefix c = false) l -> find (starts_with run_prefix) l = None).
  { induction l as [|c l IH]; intros H; [reflexivity|]. inversion H as [|? ? Hc Hl]; subst. cbn [find]. rewrite Hc. apply IH, Hl. }
  rewrite G by (apply Forall_rev, Hd).
  assert (Rn : rfind 46 ext = None).
  { clear -He. induction ext as [|c e IH]; [reflexivity|]. cbn [rfind In] in *. rewrite IH by tauto. destruct (N.eqb_spec c 46); [tauto|reflexivity]. }
  assert (R : rfind 46 (stem ++ 46%N :: ext) = Some (List.length stem)).
  { clear -Rn. induction stem as [|c st IH]; cbn [List.app rfind List.length]; [rewrite Rn; reflexivity|]. rewrite IH. reflexivity. }
  unfold file_stem. rewrite eqb_false.
  - rewrite R. destruct (List.length stem) eqn:L; [destruct stem; [congruence|discriminate]|]. rewrite <- L. rewrite firstn_app, Nat.sub_diag, firstn_all, app_nil_r. reflexivity.
  - intros E. destruct stem as [|c [|d st]]; [congruence| |]; cbn in E; injection E; intros; try congruence. destruct st; discriminate.
Qed.
(** ... which a name without a dot, or with none but the one at its start, has not. *)
Theorem C120_whole_label : forall dirs name,
  Forall (fun c => starts_with run_prefix c = false) dirs -> starts_with run_prefix name = false -> ~ In 46%N name ->
  derive_run_label (dirs ++ [name]) = name /\ (name <> [] -> derive_run_label (dirs ++ [46%N :: name]) = 46%N :: name).
Proof.
  intros dirs name Hd Hs Hn.
  assert (G : forall l, Forall (fun c => starts_with run_prefix c = false) l -> find (starts_with run_prefix) l = None).
  { induction l as [|c l IH]; intros H; [reflexivity|]. inversion H as [|? ? Hc Hl]; subst. cbn [find]. rewrite Hc. apply IH, Hl. }
  assert (Rn : rfind 46 name = None).
  { clear -Hn. induction name as [|c e IH]; [reflexivity|]. cbn [rfind In] in *. rewrite IH by tauto. destruct (N.eqb_spec c 46); [tauto|reflexivity]. }
  unfold derive_run_label. split; [|intros Hne]; rewrite rev_app_distr; cbn [rev List.app find].
  - rewrite Hs, G by (apply Forall_rev, Hd). unfold file_stem. rewrite eqb_false, Rn; [reflexivity|].
    intros ->. apply Hn. left. reflexivity.
  - change (starts_with run_prefix (46%N :: name)) with false. cbv iota. rewrite G by (apply Forall_rev, Hd). unfold file_stem. rewrite eqb_false.
    + cbn [rfind]. rewrite Rn. reflexivity.
    + intros [= E]. apply Hn. rewrite E. left. reflexivity.
Qed.
(** Runs with different labels have different legends for the same column... *)
Theorem C120_legends_partial : forall series name (a : @ViewerModel.app f64) s t c pc d pd,
  In (c, pc) (source_curves series name a s) -> In (d, pd) (source_curves series name a t) ->
  c = d -> exists i j, c = name (s_path s) ++ txt "::" ++ curve_label series a i /\ d = name (s_path t) ++ txt "::" ++ curve_label series a j /\
    (i = j -> name (s_path s) = name (s_path t)).
Proof.
  intros series name a s t c pc d pd Hc Hd E.
  assert (G : forall s c pc, In (c, pc) (source_curves series name a s) -> exists i, c = name (s_path s) ++ txt "::" ++ curve_label series a i).
  { clear. intros s c pc H. unfold source_curves in H. cbv zeta in H. destruct (_ || _); [destruct H|]. apply in_flat_map in H. destruct H as ([i ys] & _ & H).
    destruct (negb _); [destruct H|]. destruct H as [[= <- _]|[]]. exists i. reflexivity. }
  destruct (G _ _ _ Hc) as [i Ei]. destruct (G _ _ _ Hd) as [j Ej]. exists i, j. split; [exact Ei|]. split; [exact Ej|].
  intros <-. pose proof (eq_trans (eq_sym Ei) (eq_trans E Ej)) as H. apply app_inv_tail in H. exact H.
Qed.
(** ... but two files of one run have the same label, so their curves cannot be told apart by the legend. *)
Theorem C120_legends_refuted : exists p q, p <> q /\
  derive_run_label p = derive_run_label q /\ derive_run_label p = txt "run_1" /\
  p = [txt "runs"; txt "run_1"; txt "earth.csv"] /\ q = [txt "runs"; txt "run_1"; txt "moon.csv"].
Proof.
  exists [txt "runs"; txt "run_1"; txt "earth.csv"], [txt "runs"; txt "run_1"; txt "moon.csv"].
  split; [intros H; vm_compute in H; discriminate|]. split; [vm_compute; reflexivity|]. split; [vm_compute; reflexivity|]. auto.
Qed.

Example C120_nontrivial :
  let cols := [txt "pos_x[m]"; txt "speed"] in let parse := fun _ : str => @None f64 in
  cols <> [] /\ Forall plain_name cols /\ comma_list cols = txt "pos_x[m],speed" /\
  derive_run_label [txt "runs"; txt "run_7"; txt "out"; txt "earth.csv"] = txt "run_7" /\
  derive_run_label [txt "data"; txt "earth.v2.csv"] = txt "earth.v2".
Proof.
  cbv zeta. split; [discriminate|]. split.
  - repeat constructor; try (vm_compute; discriminate); try (vm_compute; reflexivity); vm_compute; intuition discriminate.
  - vm_compute. auto.
Qed.
(** a source that meets the hypotheses of C120_curves *)
Definition drawable (a : @ViewerModel.app f64) (s : @source f64) : bool :=
  let p := s_plotter s in
  negb (is_nil (x_values p)) && (List.length (y_values p) =? List.length (y_labels a)) && (0 <? List.length (y_labels a)) &&
  forallb (fun ys : list f64 => List.length ys =? List.length (x_values p)) (y_values p) &&
  forallb (fun v : f64 => is_finite v) (x_values p) && forallb (forallb (fun v : f64 => is_finite v)) (y_values p).
Example C120_drawable : exists s, start_app digit_f64 digit_nat (txt "t") [txt "a_x[m]"] [(1%N, two_units)] = Some s /\
  exists src, sources (fst s) = [src] /\ drawable (fst s) src = true.
Proof.
  assert (B : match start_app digit_f64 digit_nat (txt "t") [txt "a_x[m]"] [(1%N, two_units)] with
              | Some s => match sources (fst s) with [src] => drawable (fst s) src | _ => false end | None => false end = true) by (vm_compute; reflexivity).
  destruct (start_app _ _ _ _ _) as [s|]; [|discriminate]. exists s. split; [reflexivity|].
  destruct (sources (fst s)) as [|src [|]]; try discriminate. exists src. auto.
Qed.
