(** Properties C22-C25: the CSV plotter. *)
From Coq Require Import Ascii String NArith Arith List Bool Lia.
From Verif Require Import Text CsvModel CsvSpec CsvProofs.
Import ListNotations.
Open Scope list_scope.
Open Scope nat_scope.

(** Literals for the examples: one-digit numbers. *)
Definition txt (s : string) : list N := map N_of_ascii (list_ascii_of_string s).
Definition digit (s : str) : option N :=
  match s with [c] => if (48 <=? c)%N && (c <=? 57)%N then Some (c - 48)%N else None | _ => None end.
Definition digit_nat (s : str) : option nat := option_map N.to_nat (digit s).
Definition nl := [NL].
Definition xy_config : config := mkCfg true (txt "x") [txt "y"; txt "z"] (Some 2).
Definition xy_text : list N :=
  txt "z, x ,y" ++ [CR; NL] ++ nl ++ txt "1,2,3" ++ nl ++ txt "bad,2,3" ++ nl ++ txt "4,5,6" ++ [CR; NL]
  ++ txt "7,8,9" ++ nl ++ txt "1,1".

(** *** C22 *)

(** Feeding a text in pieces, stopping at the first error. *)
Fixpoint feed {V} num idx (p : @plotter V) (ts : list str) : @plotter V * result :=
  match ts with
  | [] => (p, Ok false)
  | t :: r =>
      match parse_text_chunk num idx p t with
      | (p', Err) => (p', Err)
      | (p', Ok _) => feed num idx p' r
      end
  end.

Theorem C22_chunking_is_invisible : forall V num idx (p : @plotter V) ts q b,
  ts <> [] ->
  parse_text_chunk num idx p (concat ts) = (q, Ok b) ->
  exists b', feed num idx p ts = (q, Ok b').
Proof.
  intros V num idx p ts. revert p. induction ts as [|t ts IH]; intros p q b Hne H; [congruence|].
  cbn [concat feed] in *. destruct ts as [|t2 ts].
  - cbn [concat feed] in *. rewrite app_nil_r in H. rewrite H. eauto.
  - set (rest := t2 :: ts) in *.
    destruct (parse_text_chunk num idx p t) as [p' [c'|]] eqn:E.
    + destruct (chunk_app num idx p t (concat rest) p' c' E) as [A B]. rewrite H in A, B. cbn [fst snd] in A, B.
      destruct (parse_text_chunk num idx p' (concat rest)) as [q' [b'|]] eqn:E2.
      * cbn [fst] in A. subst q'. eapply IH; [discriminate|exact E2].
      * exfalso. destruct B as [_ B]. specialize (B eq_refl). discriminate.
    + exfalso. rewrite chunk_spec in E, H. cbv zeta in E, H.
      rewrite app_assoc, complete_app in H. rewrite set_partial_frame, run_frame in E, H.
      rewrite run_app in H.
      destruct (run_lines num idx p (complete_lines (partial_line p ++ t)) false) as [p1 [c1|]];
        cbn in E, H; inversion E; inversion H.
Qed.

Example C22_chunking_nontrivial :
  let whole := parse_text_chunk digit digit_nat (new xy_config) xy_text in
  x_values (fst whole) = [5; 8]%N /\ y_values (fst whole) = [[6; 9]; [4; 7]]%N /\
  partial_line (fst whole) = txt "1,1" /\
  (forall n, n < length xy_text ->
    fst (feed digit digit_nat (new xy_config) [firstn n xy_text; skipn n xy_text]) = fst whole).
Proof.
  cbv zeta. split; [vm_compute; reflexivity|]. split; [vm_compute; reflexivity|]. split; [vm_compute; reflexivity|].
  intros n _. destruct (C22_chunking_is_invisible _ digit digit_nat (new xy_config)
    [firstn n xy_text; skipn n xy_text]
    (fst (parse_text_chunk digit digit_nat (new xy_config) xy_text)) true) as [b E].
  - discriminate.
  - cbn [concat]. rewrite app_nil_r, firstn_skipn. vm_compute. reflexivity.
  - rewrite E. reflexivity.
Qed.

Lemma canon_same V num idx c t n m1 m2 :
  same_data (@canon V num idx c t n m1) (canon num idx c t n m2).
Proof. unfold same_data. repeat split. Qed.

(** Polling a growing file, whatever the writer's chunking, shows at each moment the data of
    a single read of some prefix of the file, and the data of a single read of the whole
    file as soon as a poll sees the file at rest.  A poll may split a line, a CRLF or a
    UTF-8 sequence. *)
Theorem C22_tail_equals_single_read : forall V num idx (c : config) id c0 os final q b p0,
  growing id c0 os final ->
  initialize num idx (new c) (whole_file id final) = (q, Ok b) ->
  p0 = new c \/ p0 = fst (initialize num idx (new c) (whole_file id c0)) ->
  (exists seen, prefix seen final /\
    same_data (polls num idx p0 os) (fst (initialize num idx (@new V c) (whole_file id seen)))) /\
  same_data (fst (update_once num idx (polls num idx p0 os) (whole_file id final))) q.
Proof.
  intros V num idx c id c0 os final q b p0 G Hq Hp0.
  assert (exists t, utf8_decode final = Some t /\ snd (after num idx c t) <> Err /\
            q = canon num idx c t (length final) (Some (mkMeta id (length final)))) as (t & Dt & Ha & ->).
  { destruct (utf8_decode final) as [t|] eqn:D.
    - rewrite (whole_file_init num idx c id final t D) in Hq. exists t. split; [reflexivity|].
      inversion Hq. split; [|reflexivity]. intros E. rewrite E in *. discriminate.
    - unfold initialize, reload_from_start, whole_file in Hq. cbn in Hq. rewrite D in Hq. inversion Hq. }
  assert (forall bs u, prefix bs final -> utf8_decode bs = Some u -> snd (after num idx c u) <> Err) as Hok.
  { intros bs u [x ->] Du. rewrite (utf8_decode_app bs x u Du) in Dt.
    destruct (utf8_decode x) as [v|]; [|discriminate]. cbn in Dt. inversion Dt; subst t.
    eapply after_prefix_ok; eauto. }
  assert (has_read num idx c id (new c) []) as H0.
  { exists []. split; [reflexivity|]. exists None. split; [apply new_canon|exact I]. }
  assert (exists bs, has_read num idx c id p0 bs /\ prefix bs c0) as (bs & H1 & P1).
  { destruct Hp0 as [->| ->].
    - exists []. split; [exact H0|]. exists c0. reflexivity.
    - destruct (utf8_decode c0) as [u|] eqn:D.
      + exists c0. split; [|exists []; rewrite app_nil_r; reflexivity].
        rewrite (whole_file_init num idx c id c0 u D). cbn [fst]. exists u. split; [exact D|].
        eexists. split; [reflexivity|reflexivity].
      + exists []. split; [|exists c0; reflexivity].
        unfold initialize, reload_from_start, whole_file. cbn. rewrite D. cbn. exact H0. }
  destruct (polls_read num idx c id c0 os final G Hok p0 bs H1 P1) as (bs' & H2 & P2).
  split.
  - exists bs'. split; [exact P2|]. destruct H2 as (u & Du & m & -> & _).
    rewrite (whole_file_init num idx c id bs' u Du). apply canon_same.
  - destruct (poll_reads num idx c id (polls num idx p0 os) bs' final (whole_file id final) final (length final))
      as (bs2 & H3 & P3 & E3); auto.
    { exists []. rewrite app_nil_r. reflexivity. }
    { intros u Du. apply (Hok final); auto. exists []; rewrite app_nil_r; reflexivity. }
    rewrite E3 in H3 by (auto; congruence).
    destruct H3 as (u & Du & m & -> & _). rewrite Dt in Du. inversion Du; subst u. apply canon_same.
Qed.

Definition cut (n : nat) : obs := (* the writer has written n bytes *)
  whole_file 7 (firstn n xy_text).
Example C22_tail_nontrivial :
  growing 7 (firstn 3 xy_text) [cut 5; cut 8; mkObs false None false None None; cut 20] (firstn 20 xy_text) /\
  exists q, initialize digit digit_nat (new xy_config) (whole_file 7 (firstn 20 xy_text)) = (q, Ok false) /\
    x_values q = [2]%N.
Proof.
  split.
  - eapply growing_poll with (r := firstn 5 xy_text) (l := 5); try reflexivity; [exists (skipn 3 (firstn 5 xy_text)); reflexivity|cbn; lia|].
    eapply growing_poll with (r := firstn 8 xy_text) (l := 8); try reflexivity; [exists (skipn 5 (firstn 8 xy_text)); reflexivity|cbn; lia|].
    eapply growing_fail; [left; reflexivity|].
    eapply growing_poll with (r := firstn 20 xy_text) (l := 20); try reflexivity; [exists (skipn 8 (firstn 20 xy_text)); reflexivity|cbn; lia|].
    constructor.
  - eexists. split; vm_compute; reflexivity.
Qed.

(** When a column is missing the read fails, and then the chunking is visible: read in one
    piece nothing is plotted, read in two pieces the row is. *)
Theorem C22_missing_column_refuted : exists (c : config) (t1 t2 : str),
  let p0 := new c in
  x_values (fst (parse_text_chunk digit digit_nat p0 (t1 ++ t2))) = [] /\
  x_values (fst (parse_text_chunk digit digit_nat (fst (parse_text_chunk digit digit_nat p0 t1)) t2)) = [1]%N.
Proof.
  exists (mkCfg true (txt "x") [txt "y"; txt "missing"] None), (txt "x,y" ++ nl), (txt "1,2" ++ nl).
  vm_compute. auto.
Qed.

(** *** C23 *)

(** A single successful read plots the last [max_points] accepted rows, in order. *)
Theorem C23_rows_with_header : forall V num idx (c : config) id bs t h rest b p,
  has_header c = true ->
  utf8_decode bs = Some t -> content_lines t = h :: rest ->
  initialize num idx (@new V c) (whole_file id bs) = (p, Ok b) ->
  exists xi yis,
    column_at (fields h) (x_column c) xi /\ Forall2 (column_at (fields h)) (y_columns c) yis /\
    shows (keep_last (max_points c) (filter_map (row num xi yis) rest)) p.
Proof.
  intros V num idx c id bs t h rest b p HH Dt Hc Hi.
  rewrite (whole_file_init num idx c id bs t Dt) in Hi. inversion Hi; subst p.
  assert (snd (after num idx c t) <> Err) as Ha.
  { intros E. rewrite E in *. discriminate. }
  pose proof (after_rows num idx c t Ha) as R. rewrite Hc, HH in R. cbv zeta in R.
  destruct R as (xi & yis & L & S). unfold located in L. rewrite HH in L. destruct L as [L1 L2].
  exists xi, yis. split; [apply position_spec; exact L1|]. split; [apply find_columns_spec; exact L2|].
  exact S.
Qed.

Theorem C23_rows_without_header : forall V num idx (c : config) id bs t b p,
  has_header c = false ->
  utf8_decode bs = Some t -> content_lines t <> [] ->
  initialize num idx (@new V c) (whole_file id bs) = (p, Ok b) ->
  exists xi yis,
    idx (x_column c) = Some xi /\ Forall2 (fun y i => idx y = Some i) (y_columns c) yis /\
    shows (keep_last (max_points c) (filter_map (row num xi yis) (content_lines t))) p.
Proof.
  intros V num idx c id bs t b p HH Dt Hc Hi.
  rewrite (whole_file_init num idx c id bs t Dt) in Hi. inversion Hi; subst p.
  assert (snd (after num idx c t) <> Err) as Ha.
  { intros E. rewrite E in *. discriminate. }
  pose proof (after_rows num idx c t Ha) as R.
  destruct (content_lines t) as [|h rest]; [congruence|]. rewrite HH in R. cbv zeta in R.
  destruct R as (xi & yis & L & S). unfold located in L. rewrite HH in L. destruct L as [L1 L2].
  exists xi, yis. split; [exact L1|]. split; [apply parse_all_spec; exact L2|]. exact S.
Qed.

Theorem C23_rows_of_blank_file : forall V num idx (c : config) id bs t b p,
  utf8_decode bs = Some t -> content_lines t = [] ->
  initialize num idx (@new V c) (whole_file id bs) = (p, Ok b) ->
  x_values p = [] /\ Forall (fun col => col = []) (y_values p).
Proof.
  intros V num idx c id bs t b p Dt Hc Hi.
  rewrite (whole_file_init num idx c id bs t Dt) in Hi. inversion Hi; subst p.
  assert (snd (after num idx c t) <> Err) as Ha.
  { intros E. rewrite E in *. discriminate. }
  pose proof (after_rows num idx c t Ha) as R. rewrite Hc in R. destruct R as (R1 & R2 & R3).
  split; [exact R1|]. apply Forall_forall. intros col Hin. apply In_nth_error in Hin as [i Hi2].
  specialize (R3 i col Hi2). destruct col; [reflexivity|discriminate].
Qed.

Example C23_nontrivial : exists p,
  initialize digit digit_nat (new xy_config) (whole_file 7 xy_text) = (p, Ok false) /\
  content_lines xy_text = [txt "z, x ,y"; txt "1,2,3"; txt "bad,2,3"; txt "4,5,6"; txt "7,8,9"] /\
  x_values p = [5; 8]%N /\ y_values p = [[6; 9]; [4; 7]]%N.
Proof. eexists. split; [vm_compute; reflexivity|]. vm_compute. auto. Qed.

(** A history of calls, each of which succeeded or was made with at most one y column. *)
Inductive history {V} num idx : @plotter V -> list call -> @plotter V -> Prop :=
| history_nil p : history num idx p [] p
| history_call p x p1 r xs p2 :
    do_call num idx p x = (p1, r) ->
    r <> Err \/ length (y_columns (cfg p1)) <= 1 ->
    history num idx p1 xs p2 -> history num idx p (x :: xs) p2.

Theorem C23_lengths_agree : forall V num idx (c : config) xs (p : @plotter V),
  history num idx (new c) xs p ->
  length (y_values p) = length (y_columns (cfg p)) /\
  (forall col, In col (y_values p) -> length col = length (x_values p)) /\
  (forall m, max_points (cfg p) = Some m -> length (x_values p) <= m).
Proof.
  intros V num idx c xs p H.
  assert (aligned (@new V c)) as A0.
  { unfold aligned. cbn. rewrite map_length. repeat split; auto; try lia.
    rewrite Forall_map. apply Forall_forall. auto. }
  assert (aligned p) as A.
  { clear - H A0. induction H as [|p x p1 r xs p2 E G H IH]; auto.
    apply IH. pose proof (call_aligned num idx p x A0) as C. rewrite E in C. auto. }
  destruct A as (A1 & A2 & A3 & _). split; [exact A1|]. split; [|exact A3].
  apply Forall_forall. exact A2.
Qed.

Example C23_history_nontrivial : exists p,
  history digit digit_nat (new xy_config)
    [Init (cut 20); Poll (cut 30); SetY [txt "z"] (cut 30); Poll (whole_file 7 xy_text);
     Poll (whole_file 8 (txt "x,z" ++ nl ++ txt "1,2" ++ nl))] p /\
  x_values p = [1]%N /\ y_values p = [[2]]%N.
Proof.
  eexists. split; [repeat (econstructor; [vm_compute; reflexivity|left; discriminate|])|]; [constructor|vm_compute; auto].
Qed.

(** With a missing second column, a failed read followed by a poll leaves columns of
    different lengths. *)
Theorem C23_failed_read_refuted : exists (c : config) o1 o2,
  let p1 := fst (initialize digit digit_nat (new c) o1) in
  let '(p2, r) := update_once digit digit_nat p1 o2 in
  r = Ok true /\ x_values p2 = [1]%N /\ y_values p2 = [[2]%N; []].
Proof.
  exists (mkCfg true (txt "x") [txt "y"; txt "missing"] None),
    (whole_file 7 (txt "x,y" ++ nl)), (whole_file 7 (txt "x,y" ++ nl ++ txt "1,2" ++ nl)).
  vm_compute. auto.
Qed.

(** *** C24 *)
Theorem C24_reinitialise_duplicates_refuted : exists (c : config) o,
  let p1 := initialize digit digit_nat (new c) o in
  let p2 := initialize digit digit_nat (fst p1) o in
  snd p1 = Ok false /\ snd p2 = Ok false /\
  x_values (fst p1) = [1; 3]%N /\ x_values (fst p2) = [1; 3; 1; 3]%N.
Proof.
  exists (mkCfg true (txt "x") [txt "y"] None),
    (whole_file 7 (txt "x,y" ++ nl ++ txt "1,2" ++ nl ++ txt "3,4" ++ nl)).
  vm_compute. auto.
Qed.

(** Without a header this happens for every content: the series are repeated, up to
    [max_points], whenever the file ends with a newline. *)
Theorem C24_reinitialise_repeats_every_row : forall V num idx (c : config) id bs t b b' p p',
  has_header c = false ->
  utf8_decode bs = Some t -> unfinished t = [] -> content_lines t <> [] ->
  initialize num idx (@new V c) (whole_file id bs) = (p, Ok b) ->
  initialize num idx p (whole_file id bs) = (p', Ok b') ->
  exists xi yis,
    idx (x_column c) = Some xi /\ Forall2 (fun y i => idx y = Some i) (y_columns c) yis /\
    let rows := filter_map (row num xi yis) (content_lines t) in
    shows (keep_last (max_points c) rows) p /\ shows (keep_last (max_points c) (rows ++ rows)) p'.
Proof.
  intros V num idx c id bs t b b' p p' HH Dt Hu Hc Hi Hi2.
  pose proof Hi as Hi0.
  rewrite (whole_file_init num idx c id bs t Dt) in Hi. injection Hi as Hp Hb.
  assert (snd (after num idx c t) <> Err) as Ha.
  { intros E. rewrite E in *. discriminate. }
  (* the second read is a read of the text twice *)
  assert (p' = canon num idx c (t ++ t) (length bs) (Some (mkMeta id (length bs))) /\
          snd (after num idx c (t ++ t)) <> Err) as [Hp' Ha2].
  { unfold initialize, reload_from_start, whole_file in Hi2. cbn in Hi2. rewrite Dt in Hi2.
    rewrite <- Hp in Hi2.
    match type of Hi2 with context [parse_text_chunk num idx ?z t] =>
      change z with (canon num idx c t (length bs) (Some (mkMeta id (length bs)))) in Hi2 end.
    destruct (chunk_canon num idx c t (length bs) (Some (mkMeta id (length bs))) t Ha) as [A B].
    destruct (parse_text_chunk num idx (canon num idx c t (length bs) (Some (mkMeta id (length bs)))) t) as [p1 [c1|]];
      inversion Hi2. subst p1. cbn [fst snd] in A, B. split; [exact A|].
    intros E. apply B in E. discriminate. }
  pose proof (after_rows num idx c t Ha) as R. pose proof (after_rows num idx c (t ++ t) Ha2) as R2.
  assert (content_lines (t ++ t) = content_lines t ++ content_lines t) as Ecl.
  { unfold content_lines. rewrite complete_app, Hu. cbn [app]. unfold nonblank.
    rewrite map_app, filter_app. reflexivity. }
  rewrite Ecl in R2. destruct (content_lines t) as [|h rest] eqn:Ec; [congruence|].
  rewrite HH in R, R2. cbv zeta in R, R2. cbn [app] in R2.
  destruct R as (xi & yis & L & S). destruct R2 as (xi2 & yis2 & L2 & S2).
  unfold located in L, L2. rewrite HH in L, L2. destruct L as [L1 L3]. destruct L2 as [L2 L4].
  assert (xi2 = xi) as -> by congruence. assert (yis2 = yis) as -> by congruence.
  exists xi, yis. split; [exact L1|]. split; [apply parse_all_spec; exact L3|]. cbv zeta.
  split; [rewrite <- Hp; exact S|]. rewrite Hp'.
  replace (filter_map (row num xi yis) (h :: rest) ++ filter_map (row num xi yis) (h :: rest))
    with (filter_map (row num xi yis) (h :: rest ++ h :: rest)); [exact S2|].
  change (h :: rest ++ h :: rest) with ((h :: rest) ++ (h :: rest)).
  generalize (h :: rest) at 2 4. intros l2. generalize (h :: rest). intros l1.
  induction l1 as [|a l1 IH]; cbn; [reflexivity|]. destruct (row num xi yis a); cbn; rewrite IH; reflexivity.
Qed.

Example C24_repeats_nontrivial :
  let c := mkCfg false (txt "0") [txt "1"] (Some 3) in
  let t := txt "1,2" ++ nl ++ txt "3,4" ++ nl in
  let p := fst (initialize digit digit_nat (new c) (whole_file 7 t)) in
  snd (initialize digit digit_nat (new c) (whole_file 7 t)) = Ok false /\
  snd (initialize digit digit_nat p (whole_file 7 t)) = Ok false /\
  unfinished t = [] /\ x_values (fst (initialize digit digit_nat p (whole_file 7 t))) = [3; 1; 3]%N.
Proof. vm_compute. auto. Qed.

(** What does hold: a plotter that has read nothing shows each row once (C23), and a
    set_y_columns call, which resets first, also does. *)
Theorem C24_set_columns_reads_once : forall V num idx (p : @plotter V) ys o,
  let c := mkCfg (has_header (cfg p)) (x_column (cfg p)) ys (max_points (cfg p)) in
  set_y_columns num idx p ys o = initialize num idx (new c) o.
Proof.
  intros. unfold set_y_columns, initialize, reset_series, new. cbn. rewrite map_map. reflexivity.
Qed.

(** *** C25 *)
Definition reached {V} num idx (c : config) (p : @plotter V) : Prop :=
  exists xs : list call, p = fold_left (fun p x => fst (do_call num idx p x)) xs (new c).

Theorem C25_replaced_file_is_reloaded : forall V num idx (c : config) (p : @plotter V) o prev m,
  reached num idx c p ->
  o_exists o = true -> o_meta o = Some m -> last_identity p = Some prev ->
  ident prev <> ident m \/ len m < file_pos p ->
  fst (update_once num idx p o) = fst (initialize num idx (new (cfg p)) o) /\
  (snd (update_once num idx p o) = Err <-> snd (initialize num idx (new (cfg p)) o) = Err).
Proof.
  intros V num idx c p o prev m [xs Hp] E1 E2 E3 H.
  assert (length (y_values p) = length (y_columns (cfg p))) as L.
  { subst p. clear. assert (length (y_values (@new V c)) = length (y_columns (cfg (@new V c)))) as L0
      by (cbn; apply map_length).
    revert L0. generalize (@new V c). induction xs as [|x xs IH]; intros p L0; [exact L0|].
    cbn [fold_left]. apply IH. apply call_cols. exact L0. }
  unfold update_once. rewrite E1, E2. cbn [negb].
  assert (should_reset p m = true) as ->.
  { unfold should_reset. rewrite E3. destruct H as [H|H].
    - rewrite (proj2 (N.eqb_neq _ _) H). apply orb_true_r.
    - rewrite (proj2 (Nat.ltb_lt _ _) H). reflexivity. }
  assert (reset_series p = new (cfg p)) as ->.
  { unfold reset_series, new. f_equal. revert L. generalize (y_columns (cfg p)).
    induction (y_values p) as [|a l IH]; intros [|y ys] L; cbn in *; try lia; [reflexivity|].
    f_equal. apply IH. lia. }
  unfold initialize. destruct (reload_from_start num idx (new (cfg p)) o) as [p' [ch|]]; cbn; split; auto;
    try reflexivity; split; intros; discriminate.
Qed.

Theorem C25_otherwise_nothing_is_lost : forall V num idx (c : config) xs (p : @plotter V) o m,
  history num idx (new c) xs p ->
  o_meta o = Some m ->
  (forall prev, last_identity p = Some prev -> ident prev = ident m /\ file_pos p <= len m) ->
  exists news,
    x_values (fst (update_once num idx p o)) = keep_last (max_points (cfg p)) (x_values p ++ news).
Proof.
  intros V num idx c xs p o m H Hm Hprev.
  destruct (C23_lengths_agree V num idx c xs p H) as (_ & _ & B).
  destruct (update_extends num idx p o m B Hm) as [_ E]; [|exact E].
  unfold should_reset. destruct (last_identity p) as [prev|]; [|reflexivity].
  destruct (Hprev prev eq_refl) as [I L]. rewrite I, N.eqb_refl.
  rewrite (proj2 (Nat.ltb_ge _ _) L). reflexivity.
Qed.

Example C25_nontrivial :
  let p := fst (initialize digit digit_nat (new xy_config) (whole_file 7 xy_text)) in
  let o := whole_file 8 (txt "x,y,z" ++ nl ++ txt "1,2,3" ++ nl) in
  reached digit digit_nat xy_config p /\ last_identity p = Some (mkMeta 7 (length xy_text)) /\
  x_values p = [5; 8]%N /\ x_values (fst (update_once digit digit_nat p o)) = [1]%N.
Proof.
  cbv zeta. split; [exists [Init (whole_file 7 xy_text)]; reflexivity|]. vm_compute. auto.
Qed.

(** A file rewritten in place (same identity) with longer content is taken for an append:
    the old row stays and the new first row is not read. *)
Theorem C25_rewrite_in_place_refuted : exists (c : config) old new_content,
  let p := fst (initialize digit digit_nat (new c) (whole_file 7 old)) in
  x_values (fst (update_once digit digit_nat p (whole_file 7 new_content))) = [1; 7]%N /\
  x_values (fst (initialize digit digit_nat (new c) (whole_file 7 new_content))) = [5; 7]%N.
Proof.
  exists (mkCfg true (txt "x") [txt "y"] None),
    (txt "x,y" ++ nl ++ txt "1,2" ++ nl), (txt "x,y" ++ nl ++ txt "5,6" ++ nl ++ txt "7,8" ++ nl).
  vm_compute. auto.
Qed.
