(** Lemmas about the CSV plotter. *)
From Coq Require Import NArith Arith List Bool Lia.
From Verif Require Import Text CsvModel CsvSpec.
Import ListNotations.
Open Scope nat_scope.

(** ** Text *)
Lemma split_on_nonempty sep s : split_on sep s <> [].
Proof.
  destruct s as [|c s]; cbn; [discriminate|]. destruct (N.eqb c sep); [discriminate|].
  destruct (split_on sep s); discriminate.
Qed.

Lemma split_cons_nosep sep c s : N.eqb c sep = false ->
  split_on sep (c :: s) = (c :: hd [] (split_on sep s)) :: tl (split_on sep s).
Proof.
  intros H. cbn. rewrite H. pose proof (split_on_nonempty sep s).
  destruct (split_on sep s); [congruence|reflexivity].
Qed.

Lemma split_app sep : forall a b,
  split_on sep (a ++ b) =
  removelast (split_on sep a) ++ split_on sep (last (split_on sep a) [] ++ b).
Proof.
  induction a as [|c a IH]; intros b; [reflexivity|].
  cbn [app]. destruct (N.eqb c sep) eqn:E.
  - cbn [split_on]. rewrite E. pose proof (split_on_nonempty sep a) as NE.
    destruct (split_on sep a) as [|p ps] eqn:S; [congruence|].
    rewrite IH. cbn [removelast last]. destruct ps; reflexivity.
  - rewrite (split_cons_nosep sep c (a ++ b) E), (split_cons_nosep sep c a E), IH.
    pose proof (split_on_nonempty sep a) as NE.
    destruct (split_on sep a) as [|p ps] eqn:S; [congruence|]. cbn [hd tl].
    destruct ps as [|p2 ps].
    + cbn [removelast last app]. rewrite split_cons_nosep by exact E. reflexivity.
    + cbn [removelast last app hd tl]. reflexivity.
Qed.

Lemma complete_app a b : complete_lines (a ++ b) = complete_lines a ++ complete_lines (unfinished a ++ b).
Proof.
  unfold complete_lines, unfinished. rewrite split_app.
  rewrite removelast_app by apply split_on_nonempty. reflexivity.
Qed.
Lemma last_app {A} (l1 l2 : list A) d : l2 <> [] -> last (l1 ++ l2) d = last l2 d.
Proof.
  intros H. induction l1 as [|x l1 IH]; auto. cbn [app].
  destruct (l1 ++ l2) eqn:E; [apply app_eq_nil in E; tauto|]. rewrite <- IH. reflexivity.
Qed.
Lemma unfinished_app a b : unfinished (a ++ b) = unfinished (unfinished a ++ b).
Proof. unfold unfinished. rewrite split_app. apply last_app, split_on_nonempty. Qed.

Lemma unfinished_nil_iff : forall s, unfinished s = [] <-> s = [] \/ ends_with NL s = true.
Proof.
  intros s. destruct s as [|c s] using rev_ind; [cbn; tauto|]. clear IHs.
  rewrite unfinished_app. unfold ends_with. rewrite rev_app_distr. cbn [rev app].
  destruct (N.eqb_spec c NL) as [->|E].
  - split; [auto|]. intros _. unfold unfinished at 1. rewrite split_app. cbn [split_on].
    rewrite last_app by apply split_on_nonempty.
    destruct (last (split_on NL (unfinished s)) []) as [|y l] eqn:L; [reflexivity|].
    pose proof (split_app NL (y :: l) [NL]) as SA. rewrite SA.
    rewrite last_app by apply split_on_nonempty.
    assert (forall t, last (split_on NL (t ++ [NL])) [] = []) as G.
    { induction t as [|z t IH]; [reflexivity|]. cbn [app].
      destruct (N.eqb z NL) eqn:Z.
      - cbn [split_on]. rewrite Z. pose proof (split_on_nonempty NL (t ++ [NL])).
        destruct (split_on NL (t ++ [NL])); [congruence|]. cbn [last]. exact IH.
      - rewrite (split_cons_nosep _ _ _ Z).
        pose proof (split_on_nonempty NL (t ++ [NL])).
        destruct (split_on NL (t ++ [NL])) as [|p ps] eqn:S; [congruence|]. cbn [hd tl].
        destruct ps as [|p2 ps].
        + cbn in IH. subst p. exfalso.
          clear -S. (* one piece means no separator *)
          assert (forall u, length (split_on NL (u ++ [NL])) >= 2) as Len.
          { induction u as [|w u IHu]; cbn [app split_on]; [cbn; lia|].
            destruct (N.eqb w NL).
            - cbn [length]. lia.
            - destruct (split_on NL (u ++ [NL])) as [|q qs]; cbn [length] in *; lia. }
          specialize (Len t). rewrite S in Len. cbn in Len. lia.
        + exact IH. }
    apply G.
  - split; [|intros [H|H]; [destruct s; discriminate|discriminate]].
    intros H. exfalso.
    assert (forall t, last (split_on NL (t ++ [c])) [] <> []) as G.
    { induction t as [|z t IH].
      - cbn. destruct (N.eqb_spec c NL); [contradiction|]. discriminate.
      - cbn [app]. destruct (N.eqb z NL) eqn:Z.
        + cbn [split_on]. rewrite Z. pose proof (split_on_nonempty NL (t ++ [c])).
          destruct (split_on NL (t ++ [c])); [congruence|]. cbn [last]. exact IH.
        + rewrite (split_cons_nosep _ _ _ Z).
          pose proof (split_on_nonempty NL (t ++ [c])).
          destruct (split_on NL (t ++ [c])) as [|p ps] eqn:S; [congruence|]. cbn [hd tl].
          destruct ps; [discriminate|exact IH]. }
    unfold unfinished at 1 in H. exact (G _ H).
Qed.

Lemma lines_spec s :
  lines s = map strip_cr (complete_lines s) ++ (if is_nil (unfinished s) then [] else [unfinished s]).
Proof. unfold lines, complete_lines, unfinished. destruct (last (split_on NL s) []); reflexivity. Qed.

Lemma trim_start_ws s c : is_ws c = true -> trim_start (rev (trim_start (s ++ [c]))) = trim_start (rev (trim_start s)).
Proof.
  intros W. induction s as [|x s IH].
  - cbn. rewrite W. reflexivity.
  - cbn [app trim_start]. destruct (is_ws x) eqn:E; [exact IH|].
    rewrite app_comm_cons, rev_app_distr. cbn [rev app trim_start]. rewrite W. reflexivity.
Qed.

Lemma trim_strip_cr s : trim (strip_cr s) = trim s.
Proof.
  unfold strip_cr. destruct (ends_with CR s) eqn:E; [|reflexivity].
  destruct s as [|c s] using rev_ind; [discriminate|]. clear IHs.
  unfold ends_with in E. rewrite rev_app_distr in E. cbn in E. apply N.eqb_eq in E. subst c.
  rewrite removelast_last. unfold trim. rewrite (trim_start_ws s CR) by reflexivity. reflexivity.
Qed.

Lemma utf8_app : forall n a b t, length a <= n -> utf8_decode a = Some t ->
  utf8_decode (a ++ b) = option_map (app t) (utf8_decode b).
Proof.
  induction n as [|n IH]; intros a b t Hn H.
  - destruct a; [|cbn in Hn; lia]. cbn in H. inversion H; subst. cbn [app]. destruct (utf8_decode b); reflexivity.
  - destruct a as [|b0 r0]; [cbn in H; inversion H; subst; cbn [app]; destruct (utf8_decode b); reflexivity|].
    cbn [length] in Hn. cbn [app utf8_decode] in *.
    destruct (N.ltb b0 128).
    { destruct (utf8_decode r0) as [t0|] eqn:D; [|discriminate]. inversion H; subst.
      rewrite (IH r0 b t0) by (auto; lia). destruct (utf8_decode b); reflexivity. }
    destruct r0 as [|b1 r1]; [discriminate|]. cbn [app length] in *.
    destruct (_ && _).
    { destruct (cont b1); [|discriminate].
      destruct (utf8_decode r1) as [t0|] eqn:D; [|discriminate]. inversion H; subst.
      rewrite (IH r1 b t0) by (auto; lia). destruct (utf8_decode b); reflexivity. }
    destruct r1 as [|b2 r2]; [discriminate|]. cbn [app length] in *.
    destruct (_ && _) eqn:?.
    { destruct (_ && _ && _ && _); [|discriminate].
      destruct (utf8_decode r2) as [t0|] eqn:D; [|discriminate]. inversion H; subst.
      rewrite (IH r2 b t0) by (auto; lia). destruct (utf8_decode b); reflexivity. }
    destruct r2 as [|b3 r3]; [discriminate|]. cbn [app length] in *.
    destruct ((240 <=? b0)%N && (b0 <? 248)%N); [|discriminate].
    match type of H with (if ?c then _ else _) = _ => destruct c end; [|discriminate].
    destruct (utf8_decode r3) as [t0|] eqn:D; [|discriminate]. inversion H; subst.
    rewrite (IH r3 b t0) by (auto; lia). destruct (utf8_decode b); reflexivity.
Qed.

Lemma utf8_decode_app a b t : utf8_decode a = Some t ->
  utf8_decode (a ++ b) = option_map (app t) (utf8_decode b).
Proof. apply (utf8_app (length a)); auto. Qed.

Lemma utf8_nil_iff a t : utf8_decode a = Some t -> (t = [] <-> a = []).
Proof.
  intros H. split; intros ->; [|cbn in H; congruence].
  destruct a as [|b0 r0]; [reflexivity|]. exfalso. cbn [utf8_decode] in H.
  repeat match type of H with
         | (if ?c then _ else _) = _ => destruct c
         | match ?l with [] => _ | _ :: _ => _ end = _ => destruct l
         | option_map _ ?o = _ => destruct o; cbn in H
         end; discriminate.
Qed.

Lemma match_snoc {A B} (l : list A) x (a b : B) :
  match l ++ [x] with [] => a | _ :: _ => b end = b.
Proof. destruct l; reflexivity. Qed.

Section Csv.
Context {V : Type} (num : str -> option V) (idx : str -> option nat).
Notation plotter := (@plotter V).

(** The part of the state that line processing neither reads nor writes. *)
Definition frame (p : plotter) (s : str) (n : nat) (m : option meta) : plotter :=
  mkP (cfg p) (headers p) (x_index p) (y_indices p) (x_values p) (y_values p) s n m.

Lemma frame_self p : frame p (partial_line p) (file_pos p) (last_identity p) = p.
Proof. destruct p; reflexivity. Qed.
Lemma frame_frame p s n m s' n' m' : frame (frame p s n m) s' n' m' = frame p s' n' m'.
Proof. reflexivity. Qed.

Lemma resolve_frame p s n m :
  resolve_column_indices idx (frame p s n m) =
  (frame (fst (resolve_column_indices idx p)) s n m, snd (resolve_column_indices idx p)).
Proof.
  unfold resolve_column_indices. cbn [frame cfg headers].
  destruct (has_header (cfg p)).
  - destruct (headers p) as [|h hs]; [reflexivity|].
    destruct (position (x_column (cfg p)) (h :: hs)); [|reflexivity].
    destruct (find_columns (h :: hs) (y_columns (cfg p))). reflexivity.
  - destruct (idx (x_column (cfg p))); [|reflexivity].
    destruct (parse_all idx (y_columns (cfg p))); reflexivity.
Qed.

Lemma trim_frame p s n m : trim_if_needed (frame p s n m) = frame (trim_if_needed p) s n m.
Proof.
  unfold trim_if_needed. cbn [frame cfg x_values]. destruct (max_points (cfg p)); [|reflexivity].
  destruct (length (x_values p) <=? n0); reflexivity.
Qed.

Lemma data_frame p s n m l :
  data_line num (frame p s n m) l = (frame (fst (data_line num p l)) s n m, snd (data_line num p l)).
Proof.
  unfold data_line. cbn [frame x_index y_indices]. destruct (x_index p); [|reflexivity].
  destruct (field num _ _); [|reflexivity]. destruct (parse_row num _ _); [|reflexivity].
  cbn [fst snd]. rewrite <- trim_frame. reflexivity.
Qed.

Lemma line_frame p s n m l :
  line_step num idx (frame p s n m) l =
  (frame (fst (line_step num idx p l)) s n m, snd (line_step num idx p l)).
Proof.
  unfold line_step. destruct (is_nil (trim l)); [reflexivity|].
  cbn [frame cfg headers].
  destruct (has_header (cfg p) && is_nil (headers p)).
  - set (q := mkP (cfg p) (split_csv_line (trim l)) (x_index p) (y_indices p) (x_values p)
                (y_values p) (partial_line p) (file_pos p) (last_identity p)).
    match goal with |- context [resolve_column_indices idx ?t] =>
      change t with (frame q s n m) end.
    rewrite resolve_frame.
    destruct (resolve_column_indices _ _) as [p'' ok]. reflexivity.
  - change (x_index (frame p s n m)) with (x_index p).
    change (y_indices (frame p s n m)) with (y_indices p).
    assert (forall q (ok : bool), (if ok then let (p'', ch) := data_line num (frame q s n m) (trim l) in (p'', Ok ch) else (frame q s n m, Err))
      = (frame (fst (if ok then let (p'', ch) := data_line num q (trim l) in (p'', Ok ch) else (q, Err))) s n m,
         snd (if ok then let (p'', ch) := data_line num q (trim l) in (p'', Ok ch) else (q, Err)))) as G.
    { intros q ok. destruct ok; [|reflexivity]. rewrite data_frame.
      destruct (data_line num q (trim l)); reflexivity. }
    destruct (x_index p); [destruct (y_indices p)|].
    + rewrite resolve_frame. destruct (resolve_column_indices idx p) as [q ok]. apply G.
    + apply (G p true).
    + rewrite resolve_frame. destruct (resolve_column_indices idx p) as [q ok]. apply G.
Qed.

Lemma run_frame ls : forall p s n m c,
  run_lines num idx (frame p s n m) ls c =
  (frame (fst (run_lines num idx p ls c)) s n m, snd (run_lines num idx p ls c)).
Proof.
  induction ls as [|l ls IH]; intros p s n m c; cbn [run_lines]; [reflexivity|].
  rewrite line_frame. destruct (line_step num idx p l) as [p' r]. cbn [fst snd].
  destruct r; [apply IH|reflexivity].
Qed.

Lemma run_keeps ls : forall p c, let p' := fst (run_lines num idx p ls c) in
  partial_line p' = partial_line p /\ file_pos p' = file_pos p /\ last_identity p' = last_identity p.
Proof.
  intros p c. pose proof (run_frame ls p (partial_line p) (file_pos p) (last_identity p) c) as E.
  rewrite frame_self in E. destruct (run_lines num idx p ls c) as [p' r] eqn:R. cbn [fst snd] in *.
  inversion E as [E']. destruct p'; cbn in *; inversion E'; auto.
Qed.

Lemma run_app a : forall b p c,
  run_lines num idx p (a ++ b) c =
  match run_lines num idx p a c with
  | (p', Ok c') => run_lines num idx p' b c'
  | (p', Err) => (p', Err)
  end.
Proof.
  induction a as [|l a IH]; intros b p c; cbn [app run_lines]; [reflexivity|].
  destruct (line_step num idx p l) as [p' [c'|]]; [apply IH|reflexivity].
Qed.

Lemma run_flag ls : forall p c,
  fst (run_lines num idx p ls c) = fst (run_lines num idx p ls false) /\
  (snd (run_lines num idx p ls c) = Err <-> snd (run_lines num idx p ls false) = Err).
Proof.
  induction ls as [|l ls IH]; intros p c; cbn [run_lines].
  - split; [reflexivity|]. split; discriminate.
  - destruct (line_step num idx p l) as [p' [c'|]]; [|tauto].
    destruct (IH p' (c || c')) as [A B]. destruct (IH p' (false || c')) as [A' B'].
    rewrite A, A'. split; [reflexivity|]. rewrite B, B'. tauto.
Qed.

Lemma line_strip p l : line_step num idx p (strip_cr l) = line_step num idx p l.
Proof. unfold line_step. rewrite trim_strip_cr. reflexivity. Qed.
Lemma run_strip ls : forall p c,
  run_lines num idx p (map strip_cr ls) c = run_lines num idx p ls c.
Proof.
  induction ls as [|l ls IH]; intros p c; cbn [map run_lines]; [reflexivity|].
  rewrite line_strip. destruct (line_step num idx p l) as [p' [c'|]]; auto.
Qed.

(** A chunk is: process the finished lines of pending+text, keep the unfinished one. *)
Lemma chunk_spec p text :
  parse_text_chunk num idx p text =
  let buf := partial_line p ++ text in
  run_lines num idx (set_partial p (unfinished buf)) (complete_lines buf) false.
Proof.
  unfold parse_text_chunk. cbv zeta. set (buf := partial_line p ++ text).
  rewrite lines_spec. pose proof (unfinished_nil_iff buf) as U.
  destruct (ends_with NL buf) eqn:E.
  - rewrite (proj2 U (or_intror eq_refl)). cbn [is_nil]. rewrite app_nil_r. apply run_strip.
  - destruct (unfinished buf) as [|c u] eqn:Ub.
    + destruct (proj1 U eq_refl) as [B|B]; [|discriminate]. rewrite B. reflexivity.
    + cbn [is_nil]. rewrite match_snoc, last_app, removelast_last by discriminate.
      apply run_strip.
Qed.

Lemma set_partial_frame p s : set_partial p s = frame p s (file_pos p) (last_identity p).
Proof. reflexivity. Qed.

(** Reading [a] then [b] is reading [a ++ b]. *)
Lemma chunk_app p a b p' c' :
  parse_text_chunk num idx p a = (p', Ok c') ->
  fst (parse_text_chunk num idx p (a ++ b)) = fst (parse_text_chunk num idx p' b) /\
  (snd (parse_text_chunk num idx p (a ++ b)) = Err <-> snd (parse_text_chunk num idx p' b) = Err).
Proof.
  rewrite !chunk_spec. cbv zeta. intros H. rewrite app_assoc.
  set (buf := partial_line p ++ a) in *.
  rewrite complete_app, unfinished_app.
  rewrite set_partial_frame in *. rewrite run_frame in H.
  destruct (run_lines num idx p (complete_lines buf) false) as [q r] eqn:R.
  cbn [fst snd] in H. inversion H; subst p' r. clear H.
  rewrite set_partial_frame.
  cbn [partial_line frame file_pos last_identity]. 
  change (frame (frame q (unfinished buf) (file_pos p) (last_identity p)) ?s ?n ?m) with (frame q s n m).
  rewrite !run_frame. cbn [fst snd]. rewrite run_app, R.
  destruct (run_flag (complete_lines (unfinished buf ++ b)) q c') as [A B].
  rewrite A. split; [reflexivity|exact B].
Qed.

(** ** Histories over one growing file *)
Definition after (c : config) (t : str) : plotter * result :=
  run_lines num idx (new c) (complete_lines t) false.
Definition canon (c : config) (t : str) (n : nat) (m : option meta) : plotter :=
  frame (fst (after c t)) (unfinished t) n m.

Lemma chunk_canon c a n m b :
  snd (after c a) <> Err ->
  fst (parse_text_chunk num idx (canon c a n m) b) = canon c (a ++ b) n m /\
  (snd (parse_text_chunk num idx (canon c a n m) b) = Err <-> snd (after c (a ++ b)) = Err).
Proof.
  intros Ha. rewrite chunk_spec. cbv zeta. unfold canon. cbn [partial_line frame].
  rewrite set_partial_frame, frame_frame, run_frame. cbn [fst snd file_pos last_identity frame].
  unfold after in *. rewrite (complete_app a b), (run_app (complete_lines a)), <- unfinished_app.
  destruct (run_lines num idx (new c) (complete_lines a) false) as [q [ch|]]; [|cbn in Ha; congruence].
  cbn [fst snd].
  destruct (run_flag (complete_lines (unfinished a ++ b)) q ch) as [A B].
  rewrite A. split; [reflexivity|]. symmetry; exact B.
Qed.

Lemma after_prefix_ok c a b : snd (after c (a ++ b)) <> Err -> snd (after c a) <> Err.
Proof.
  unfold after. rewrite complete_app, run_app.
  destruct (run_lines num idx (new c) (complete_lines a) false) as [q [ch|]]; cbn; congruence.
Qed.

Lemma new_canon c : new c = canon c [] 0 None.
Proof. reflexivity. Qed.

Lemma reload_new c bs t m o :
  o_exists2 o = true -> o_bytes o = Some bs -> utf8_decode bs = Some t -> o_meta2 o = Some m ->
  reload_from_start num idx (new c) o =
    (canon c t (length bs) (Some m), match snd (after c t) with Err => Err | Ok _ => Ok false end).
Proof.
  intros H1 H2 H3 H4. unfold reload_from_start. rewrite H1, H2, H3, H4. cbn [negb].
  change (set_identity (set_pos (new c) (length bs)) (Some m)) with (canon c [] (length bs) (Some m)).
  destruct (chunk_canon c [] (length bs) (Some m) t) as [A B]; [cbn; discriminate|].
  destruct (parse_text_chunk num idx (canon c [] (length bs) (Some m)) t) as [p r].
  cbn [fst snd app] in *. subst p.
  destruct r as [ch|]; destruct (snd (after c t)) as [ch'|]; try reflexivity.
  - destruct B as [_ B]. specialize (B eq_refl). discriminate.
  - destruct B as [B _]. specialize (B eq_refl). discriminate.
Qed.

Lemma whole_file_init c id bs t :
  utf8_decode bs = Some t ->
  initialize num idx (new c) (whole_file id bs) =
    (canon c t (length bs) (Some (mkMeta id (length bs))),
     match snd (after c t) with Err => Err | Ok _ => Ok false end).
Proof. intros H. apply reload_new; auto. Qed.

(* the invariant of a plotter that has read the first bytes [bs] of the file *)
Definition has_read (c : config) (id : N) (p : plotter) (bs : list N) : Prop :=
  exists t, utf8_decode bs = Some t /\
    (exists m, p = canon c t (length bs) m /\
       match m with None => True | Some m => ident m = id end).

Lemma prefix_firstn (a b : list N) : prefix a b -> firstn (length a) b = a.
Proof. intros [c ->]. rewrite firstn_app, firstn_all, Nat.sub_diag, firstn_O. apply app_nil_r. Qed.
Lemma prefix_len (a b : list N) : prefix a b -> length a <= length b.
Proof. intros [c ->]. rewrite app_length. lia. Qed.
Lemma prefix_trans (a b c : list N) : prefix a b -> prefix b c -> prefix a c.
Proof. intros [x ->] [y ->]. exists (x ++ y). rewrite app_assoc. reflexivity. Qed.
Lemma prefix_skip (a b : list N) : prefix a b -> b = a ++ skipn (length a) b.
Proof. intros [c ->]. rewrite skipn_app, skipn_all, Nat.sub_diag. reflexivity. Qed.

Lemma growing_prefix id a os b : growing id a os b -> prefix a b.
Proof.
  induction 1; [exists []; rewrite app_nil_r; reflexivity| |exact IHgrowing].
  eapply prefix_trans; eauto.
Qed.

Lemma poll_reads c id p bs cur o r l :
  has_read c id p bs -> prefix bs cur -> prefix cur r ->
  (forall t, utf8_decode r = Some t -> snd (after c t) <> Err) ->
  o_exists o = true -> o_meta o = Some (mkMeta id l) -> o_bytes o = Some r ->
  length cur <= l <= length r ->
  exists bs', has_read c id (fst (update_once num idx p o)) bs' /\ prefix bs' r /\
    (utf8_decode r <> None -> l = length r -> bs' = r).
Proof.
  intros (t & Dt & m & -> & Hm) P1 P2 Hok E1 E2 E3 [L1 L2].
  pose proof (prefix_len _ _ P1) as PL.
  assert (prefix bs r) as P3 by (eapply prefix_trans; eauto).
  unfold update_once. rewrite E1, E2. cbn [negb].
  assert (should_reset (canon c t (length bs) m) (mkMeta id l) = false) as SR.
  { unfold should_reset. cbn [canon frame last_identity file_pos]. destruct m as [m|]; auto.
    cbn [len ident]. rewrite Hm, N.eqb_refl. cbn. rewrite orb_false_r. apply Nat.ltb_ge. lia. }
  rewrite SR. cbn [canon frame file_pos len].
  destruct (Nat.ltb_spec (length bs) l) as [Lt|Ge].
  - unfold read_new_bytes. rewrite E3.
    pose proof (prefix_skip _ _ P3) as Er.
    set (tail := skipn (length bs) r) in *.
    destruct (utf8_decode tail) as [t2|] eqn:D2.
    + assert (utf8_decode r = Some (t ++ t2)) as Dr.
      { rewrite Er, (utf8_decode_app bs tail t Dt), D2. reflexivity. }
      assert (length bs + length tail = length r) as Len.
      { apply (f_equal (@length N)) in Er. rewrite app_length in Er. lia. }
      destruct (is_nil t2) eqn:N2.
      * exfalso. destruct t2; [|discriminate]. apply (utf8_nil_iff tail []) in D2.
        destruct D2 as [D2 _]. specialize (D2 eq_refl). rewrite D2 in Len. cbn in Len. lia.
      * rewrite Len.
        change (set_pos _ (length r)) with (canon c t (length r) m).
        assert (snd (after c t) <> Err) as Ha.
        { apply (after_prefix_ok c t t2). apply Hok. exact Dr. }
        destruct (chunk_canon c t (length r) m t2 Ha) as [A B].
        destruct (parse_text_chunk num idx (canon c t (length r) m) t2) as [p' r'].
        cbn [fst snd] in A, B. subst p'.
        destruct r' as [ch|]; [|exfalso; apply (Hok _ Dr); apply B; reflexivity].
        exists r. split; [|split; [exists []; rewrite app_nil_r; reflexivity|auto]].
        exists (t ++ t2). split; [exact Dr|]. exists (Some (mkMeta id l)).
        split; [reflexivity|reflexivity].
    + exists bs. split; [exists t; split; auto; exists m; auto|]. split; [exact P3|].
      intros Dn. exfalso. apply Dn. rewrite Er, (utf8_decode_app bs tail t Dt), D2. reflexivity.
  - exists bs. split; [|split; [exact P3|]].
    + exists t. split; auto. exists (Some (mkMeta id l)). split; reflexivity.
    + intros _ El. destruct P3 as [x ->]. rewrite app_length in El, L2.
      destruct x; [symmetry; apply app_nil_r|cbn in *; lia].
Qed.

Lemma poll_fails c id p bs cur o :
  has_read c id p bs -> prefix bs cur ->
  (o_exists o = false \/ o_meta o = None \/
     (exists l, o_meta o = Some (mkMeta id l) /\ length cur <= l /\ o_bytes o = None)) ->
  has_read c id (fst (update_once num idx p o)) bs.
Proof.
  intros H P F. unfold update_once.
  destruct F as [F|[F|(l & F1 & F2 & F3)]].
  - rewrite F. exact H.
  - rewrite F. destruct (o_exists o); exact H.
  - destruct (o_exists o); [|exact H]. cbn [negb]. rewrite F1.
    destruct H as (t & Dt & m & -> & Hm).
    pose proof (prefix_len _ _ P) as PL.
    assert (should_reset (canon c t (length bs) m) (mkMeta id l) = false) as SR.
    { unfold should_reset. cbn [canon frame last_identity file_pos]. destruct m as [m|]; auto.
      cbn [len ident]. rewrite Hm, N.eqb_refl. cbn. rewrite orb_false_r. apply Nat.ltb_ge. lia. }
    rewrite SR. cbn [canon frame file_pos len]. unfold read_new_bytes. rewrite F3.
    destruct (length bs <? l); exists t; split; auto.
    + exists m. split; [reflexivity|exact Hm].
    + exists (Some (mkMeta id l)). split; reflexivity.
Qed.

Definition polls (p : plotter) (os : list obs) : plotter :=
  fold_left (fun p o => fst (update_once num idx p o)) os p.

Lemma polls_read c id cur os fin : growing id cur os fin ->
  (forall bs t, prefix bs fin -> utf8_decode bs = Some t -> snd (after c t) <> Err) ->
  forall p bs, has_read c id p bs -> prefix bs cur ->
  exists bs', has_read c id (polls p os) bs' /\ prefix bs' fin.
Proof.
  intros G Hok. induction G as [cur|cur o r l os fin E1 E2 E3 P L G IH|cur o os fin F G IH];
    intros p bs H P1.
  - exists bs. auto.
  - cbn [polls fold_left].
    destruct (poll_reads c id p bs cur o r l H P1 P) as (bs' & H' & P' & _); auto.
    { intros t Dt. apply (Hok r); auto. eapply growing_prefix; eauto. }
    apply (IH Hok _ bs'); auto.
  - cbn [polls fold_left]. apply (IH Hok _ bs); auto. eapply poll_fails; eauto.
Qed.

(** ** Rows *)
Lemma keep_last_snoc {A} m (l : list A) x :
  keep_last m (keep_last m l ++ [x]) = keep_last m (l ++ [x]).
Proof.
  destruct m as [m|]; [|reflexivity]. unfold keep_last.
  rewrite !app_length, skipn_length. cbn [length].
  destruct (Nat.le_gt_cases (length l) m) as [H|H].
  - replace (length l - m) with 0 by lia. cbn [skipn]. rewrite Nat.sub_0_r. reflexivity.
  - replace (length l - (length l - m) + 1 - m) with 1 by lia.
    rewrite !skipn_app, skipn_length.
    replace (length l + 1 - m - length l) with (1 - m) by lia.
    replace (1 - (length l - (length l - m))) with (1 - m) by lia. f_equal.
    replace (length l + 1 - m) with (1 + (length l - m)) by lia.
    generalize (length l - m); intros k. clear. revert l.
    induction k as [|k IH]; intros l; [rewrite Nat.add_0_r; reflexivity|].
    destruct l as [|a l]; [cbn; destruct k; reflexivity|]. cbn [skipn Nat.add]. apply (IH l).
Qed.

Lemma keep_last_map {A B} (f : A -> B) m l : map f (keep_last m l) = keep_last m (map f l).
Proof. destruct m; [|reflexivity]. unfold keep_last. rewrite map_length, skipn_map. reflexivity. Qed.
Lemma keep_last_len {A} m (l : list A) : length (keep_last (Some m) l) <= m.
Proof. unfold keep_last. rewrite skipn_length. lia. Qed.

Lemma trim_spec (p : plotter) :
  Forall (fun col => length col = length (x_values p)) (y_values p) ->
  trim_if_needed p = mkP (cfg p) (headers p) (x_index p) (y_indices p)
    (keep_last (max_points (cfg p)) (x_values p))
    (map (keep_last (max_points (cfg p))) (y_values p))
    (partial_line p) (file_pos p) (last_identity p).
Proof.
  intros H. unfold trim_if_needed. destruct (max_points (cfg p)) as [m|] eqn:M.
  - destruct (Nat.leb_spec (length (x_values p)) m) as [L|L].
    + unfold keep_last. replace (length (x_values p) - m) with 0 by lia. cbn [skipn].
      assert (map (fun l => skipn (length l - m) l) (y_values p) = y_values p) as ->.
      { induction H as [|c cs Hc H IH]; [reflexivity|]. cbn [map]. rewrite IH, Hc.
        replace (length (x_values p) - m) with 0 by lia. reflexivity. }
      destruct p; reflexivity.
    + unfold keep_last. f_equal. apply map_ext_in. intros col Hin.
      rewrite Forall_forall in H. rewrite (H col Hin).
      destruct (Nat.leb_spec (length (x_values p) - m) (length (x_values p))); [reflexivity|lia].
  - unfold keep_last. rewrite map_id. destruct p; reflexivity.
Qed.

Lemma push_row_length cols : forall r : list V, length (push_row cols r) = length cols.
Proof. induction cols as [|c cs IH]; intros [|v vs]; cbn; auto. Qed.

Lemma push_row_nth cols : forall (r : list V) i, length r = length cols ->
  nth_error (push_row cols r) i =
  match nth_error cols i, nth_error r i with Some c, Some v => Some (c ++ [v]) | _, _ => None end.
Proof.
  induction cols as [|c cs IH]; intros [|v vs] i H; cbn in H; try lia.
  - destruct i; reflexivity.
  - destruct i as [|i]; cbn [push_row nth_error]; [reflexivity|]. apply IH. lia.
Qed.

Definition get (l : str) (i : nat) : option V :=
  match nth_error (fields l) i with Some s => num s | None => None end.

Lemma parse_row_spec l yis :
  match parse_row num (fields l) yis with
  | Some r => map (get l) yis = map Some r
  | None => forallb (fun o => match o with Some _ => true | None => false end) (map (get l) yis) = false
  end.
Proof.
  induction yis as [|i yis IH]; cbn [parse_row map]; [reflexivity|].
  unfold field. change (match nth_error (fields l) i with Some s => num s | None => None end) with (get l i).
  destruct (get l i) as [v|]; [|reflexivity].
  destruct (parse_row num (fields l) yis); cbn [option_map map]; [congruence|exact IH].
Qed.

Lemma all_some_map (r : list V) :
  forallb (fun o => match o with Some _ => true | None => false end) (map Some r) = true.
Proof. induction r; auto. Qed.

(* a data line appends the row, if it is one *)
Lemma data_line_shows p l xi yis rows :
  x_index p = Some xi -> y_indices p = yis -> length yis = length (y_columns (cfg p)) ->
  shows (keep_last (max_points (cfg p)) rows) p ->
  let p' := fst (data_line num p l) in
  shows (keep_last (max_points (cfg p))
     (match row num xi yis l with Some r => rows ++ [r] | None => rows end)) p' /\
  cfg p' = cfg p /\ headers p' = headers p /\ x_index p' = x_index p /\ y_indices p' = y_indices p.
Proof.
  intros Hx Hy Hl (S1 & S2 & S3). cbv zeta. unfold data_line. rewrite Hx, Hy.
  change (split_csv_line l) with (fields l). unfold row. fold (get l).
  unfold field. change (match nth_error (fields l) xi with Some s => num s | None => None end) with (get l xi).
  destruct (get l xi) as [x|]; [|cbn [fst]; repeat split; auto].
  pose proof (parse_row_spec l yis) as PR.
  destruct (parse_row num (fields l) yis) as [r|].
  - rewrite PR, all_some_map. cbn [fst].
    assert (length r = length (y_values p)) as Lr.
    { rewrite S2, <- Hl. rewrite <- (map_length (get l) yis), PR, map_length. reflexivity. }
    assert (forall i col, nth_error (y_values p) i = Some col -> length col = length (x_values p)) as LC.
    { intros i col Hc. specialize (S3 i col Hc). rewrite S1.
      rewrite <- (map_length Some col), S3, !map_length. reflexivity. }
    rewrite trim_spec.
    + cbn [cfg headers x_index y_indices x_values y_values]. split; [|auto].
      rewrite <- keep_last_snoc.
      split; [|split].
      * cbn [x_values]. rewrite keep_last_map, map_app, S1. reflexivity.
      * cbn [y_values cfg]. rewrite map_length, push_row_length. exact S2.
      * cbn [y_values]. intros i col Hc. rewrite nth_error_map in Hc.
        rewrite push_row_nth in Hc by exact Lr.
        destruct (nth_error (y_values p) i) as [c0|] eqn:N0; [|discriminate].
        destruct (nth_error r i) as [v|] eqn:N1; [|discriminate].
        cbn [option_map] in Hc. inversion Hc; subst col.
        rewrite (keep_last_map Some), (keep_last_map (fun _ => _)), !map_app, (S3 i c0 N0).
        f_equal. f_equal. cbn [map snd]. f_equal. symmetry.
        rewrite (nth_error_nth (map Some r) i None (x := Some v)); [reflexivity|].
        rewrite nth_error_map, N1. reflexivity.
    + cbn [x_values y_values]. apply Forall_forall. intros col Hin.
      apply In_nth_error in Hin as [i Hi]. rewrite push_row_nth in Hi by exact Lr.
      destruct (nth_error (y_values p) i) as [c0|] eqn:N0; [|discriminate].
      destruct (nth_error r i) as [v|] eqn:N1; [|discriminate].
      inversion Hi; subst col. rewrite !app_length, (LC i c0 N0). reflexivity.
  - rewrite PR. cbn [fst]. repeat split; auto.
Qed.

(* columns found: what a successful resolution stores *)
Definition located (c : config) (hs : list str) (xi : nat) (yis : list nat) : Prop :=
  if has_header c then position (x_column c) hs = Some xi /\ find_columns hs (y_columns c) = (yis, true)
  else idx (x_column c) = Some xi /\ parse_all idx (y_columns c) = Some yis.

Lemma find_columns_length hs ys : forall is, find_columns hs ys = (is, true) -> length is = length ys.
Proof.
  induction ys as [|y ys IH]; intros is H; cbn in H; [inversion H; reflexivity|].
  destruct (position y hs); [|discriminate]. destruct (find_columns hs ys) as [is' ok].
  inversion H; subst. cbn. f_equal. apply IH. reflexivity.
Qed.
Lemma parse_all_length ys : forall is, parse_all idx ys = Some is -> length is = length ys.
Proof.
  induction ys as [|y ys IH]; intros is H; cbn in H; [inversion H; reflexivity|].
  destruct (idx y); [|discriminate]. destruct (parse_all idx ys) as [is'|]; [|discriminate].
  inversion H; subst. cbn. f_equal. apply IH. reflexivity.
Qed.
Lemma located_length c hs xi yis : located c hs xi yis -> length yis = length (y_columns c).
Proof.
  unfold located. destruct (has_header c); intros [_ H];
    [eapply find_columns_length|eapply parse_all_length]; eauto.
Qed.

Lemma resolve_located (p p' : plotter) : resolve_column_indices idx p = (p', true) ->
  (has_header (cfg p) = true -> headers p <> []) ->
  exists xi yis, located (cfg p) (headers p) xi yis /\ p' = set_indices p (Some xi) yis.
Proof.
  unfold resolve_column_indices, located. destruct (has_header (cfg p)).
  - intros H Hh. destruct (headers p) as [|h hs]; [exfalso; apply Hh; auto|].
    destruct (position (x_column (cfg p)) (h :: hs)) as [xi|]; [|discriminate].
    destruct (find_columns (h :: hs) (y_columns (cfg p))) as [is ok] eqn:F.
    inversion H; subst. exists xi, is. auto.
  - intros H _. destruct (idx (x_column (cfg p))) as [xi|]; [|discriminate].
    destruct (parse_all idx (y_columns (cfg p))) as [is|] eqn:F; [|discriminate].
    inversion H; subst. exists xi, is. auto.
Qed.
Lemma located_resolve (p : plotter) xi yis : located (cfg p) (headers p) xi yis ->
  (has_header (cfg p) = true -> headers p <> []) ->
  resolve_column_indices idx p = (set_indices p (Some xi) yis, true).
Proof.
  unfold resolve_column_indices, located. destruct (has_header (cfg p)); intros [H1 H2] Hh.
  - destruct (headers p) as [|h hs]; [exfalso; apply Hh; auto|]. rewrite H1, H2. reflexivity.
  - rewrite H1, H2. reflexivity.
Qed.

Lemma nonblank_cons l ls : nonblank (l :: ls) =
  if is_nil (trim l) then nonblank ls else trim l :: nonblank ls.
Proof. unfold nonblank. cbn [map filter]. destruct (is_nil (trim l)); reflexivity. Qed.

(* a located plotter processes its lines as rows *)
Lemma run_rows ls : forall p xi yis rows c,
  located (cfg p) (headers p) xi yis -> (has_header (cfg p) = true -> headers p <> []) ->
  x_index p = Some xi -> y_indices p = yis ->
  shows (keep_last (max_points (cfg p)) rows) p ->
  let p' := fst (run_lines num idx p ls c) in
  shows (keep_last (max_points (cfg p))
    (rows ++ filter_map (row num xi yis) (nonblank ls))) p' /\
  cfg p' = cfg p /\ snd (run_lines num idx p ls c) <> Err.
Proof.
  induction ls as [|l ls IH]; intros p xi yis rows c L Hh Hx Hy S; cbv zeta.
  - cbn. rewrite app_nil_r. repeat split; auto; try apply S. discriminate.
  - rewrite nonblank_cons. cbn [run_lines].
    unfold line_step. destruct (is_nil (trim l)) eqn:E.
    + apply IH; auto.
    + assert (has_header (cfg p) && is_nil (headers p) = false) as ->.
      { destruct (has_header (cfg p)); [|reflexivity].
        destruct (headers p); [exfalso; apply Hh; auto|reflexivity]. }
      assert (match x_index p, y_indices p with
              | Some _, _ :: _ => (p, true) | _, _ => resolve_column_indices idx p end = (p, true)) as ->.
      { rewrite Hx. destruct (y_indices p) as [|y0 yr] eqn:Y; [|reflexivity].
        rewrite (located_resolve p xi yis L Hh). unfold set_indices. subst yis.
        f_equal. rewrite <- Hx. rewrite <- Y at 1. destruct p; cbn in *. subst. reflexivity. }
      destruct (data_line_shows p (trim l) xi yis rows Hx Hy) as (S' & C1 & C2 & C3 & C4); auto.
      { apply (located_length _ _ _ _ L). }
      destruct (data_line num p (trim l)) as [p' ch]. cbn [fst] in *.
      cbn [filter_map].
      specialize (IH p' xi yis
        (match row num xi yis (trim l) with Some r => rows ++ [r] | None => rows end) (c || ch)).
      rewrite C1, C2, C3, C4 in IH. specialize (IH L Hh Hx Hy S').
      destruct (row num xi yis (trim l)); [rewrite <- app_assoc in IH|]; exact IH.
Qed.

Lemma shows_new c m : shows (keep_last m []) (new c : plotter).
Proof.
  assert (keep_last m (@nil (V * list (option V))) = []) as -> by (destruct m; reflexivity).
  split; [reflexivity|]. split; [cbn; apply map_length|].
  intros i col H. cbn in H. rewrite nth_error_map in H.
  destruct (nth_error (y_columns c) i); inversion H; reflexivity.
Qed.

Lemma shows_frame rows (p : plotter) s n m : shows rows p -> shows rows (frame p s n m).
Proof. intros H; exact H. Qed.
Lemma shows_indices rows (p : plotter) a b : shows rows p -> shows rows (set_indices p a b).
Proof. intros H; exact H. Qed.

Lemma split_fields_nonempty l : fields l <> [].
Proof.
  unfold fields. pose proof (split_on_nonempty 44 l). destruct (split_on 44 l); [congruence|discriminate].
Qed.

(* leading blank lines are skipped *)
Lemma run_blank_prefix ls : forall p c,
  match nonblank ls with
  | [] => run_lines num idx p ls c = (p, Ok c)
  | h :: rest => exists l0 ls', trim l0 = h /\ is_nil h = false /\
      nonblank ls' = rest /\
      run_lines num idx p ls c = run_lines num idx p (l0 :: ls') c
  end.
Proof.
  induction ls as [|l ls IH]; intros p c; [reflexivity|].
  rewrite nonblank_cons. destruct (is_nil (trim l)) eqn:E.
  - assert (run_lines num idx p (l :: ls) c = run_lines num idx p ls c) as R.
    { cbn [run_lines]. unfold line_step. rewrite E. rewrite orb_false_r. reflexivity. }
    specialize (IH p c). destruct (nonblank ls).
    + rewrite R. exact IH.
    + destruct IH as (l1 & ls' & I1 & I2 & I3 & I4). exists l1, ls'. rewrite R. auto.
  - exists l, ls. auto.
Qed.

Lemma after_rows c t : snd (after c t) <> Err ->
  match content_lines t with
  | [] => shows [] (fst (after c t))
  | h :: rest =>
      let hs := if has_header c then fields h else [] in
      let data := if has_header c then rest else h :: rest in
      exists xi yis, located c hs xi yis /\
        shows (keep_last (max_points c) (filter_map (row num xi yis) data)) (fst (after c t))
  end.
Proof.
  unfold after, content_lines. intros Hok.
  pose proof (run_blank_prefix (complete_lines t) (new c : plotter) false) as B.
  destruct (nonblank (complete_lines t)) as [|h rest].
  - rewrite B. apply (shows_new c None).
  - destruct B as (l0 & ls' & T & Nn & R & E). rewrite E in *. cbv zeta.
    cbn [run_lines] in *. unfold line_step in *. rewrite T, Nn in *. cbn [new cfg headers x_index y_indices] in *.
    destruct (has_header c) eqn:HH.
    + cbn [is_nil andb] in *. change (split_csv_line h) with (fields h) in *.
      set (p1 := mkP c (fields h) None [] (x_values (new c : plotter)) (y_values (new c : plotter))
                 (partial_line (new c : plotter)) (file_pos (new c : plotter))
                 (last_identity (new c : plotter))) in *.
      destruct (resolve_column_indices idx p1) as [p2 ok] eqn:RS.
      destruct ok; [|cbn in Hok; congruence].
      destruct (resolve_located p1 p2 RS) as (xi & yis & L & ->).
      { intros _. apply split_fields_nonempty. }
      exists xi, yis. split; [exact L|].
      destruct (run_rows ls' (set_indices p1 (Some xi) yis) xi yis [] (false || false)) as (S & _); auto.
      { intros _. apply split_fields_nonempty. }
      { apply shows_indices. apply (shows_new c (max_points c)). }
      cbn [app] in S. rewrite R in S. exact S.
    + cbn [andb] in *.
      destruct (resolve_column_indices idx (new c)) as [p2 ok] eqn:RS.
      destruct ok; [|cbn in Hok; congruence].
      destruct (resolve_located (new c) p2 RS) as (xi & yis & L & ->).
      { cbn. rewrite HH. discriminate. }
      exists xi, yis. split; [exact L|].
      destruct (data_line_shows (set_indices (new c) (Some xi) yis) h xi yis []) as (S' & C1 & C2 & C3 & C4); auto.
      { apply (located_length _ _ _ _ L). }
      { apply shows_indices. apply (shows_new c (max_points c)). }
      destruct (data_line num (set_indices (new c) (Some xi) yis) h) as [p3 ch]. cbn [fst] in *.
      cbn [set_indices cfg new headers x_index y_indices] in *.
      destruct (run_rows ls' p3 xi yis (match row num xi yis h with Some r => [] ++ [r] | None => [] end) (false || ch)) as (S & _); auto.
      { rewrite C1, C2. exact L. }
      { rewrite C1, HH. discriminate. }
      { rewrite C1. exact S'. }
      rewrite C1, R in S. cbn [filter_map]. destruct (row num xi yis h); exact S.
Qed.

Lemma position_spec name hs : forall i, position name hs = Some i <-> column_at hs name i.
Proof.
  induction hs as [|h hs IH]; intros i; cbn [position].
  - unfold column_at. split; [discriminate|]. intros [H _]. destruct i; discriminate.
  - unfold str_eqb. destruct (list_eq_dec N.eq_dec h name) as [->|Ne].
    + split.
      * intros H; inversion H; subst. split; [reflexivity|]. intros j Hj; lia.
      * intros [H1 H2]. destruct i as [|i]; [reflexivity|]. exfalso. apply (H2 0); [lia|reflexivity].
    + destruct (position name hs) as [k|] eqn:P; cbn [option_map].
      * split.
        -- intros H; inversion H; subst. destruct (proj1 (IH k) eq_refl) as [A B].
           split; [exact A|]. intros [|j] Hj; [cbn; congruence|]. apply B. lia.
        -- intros [H1 H2]. destruct i as [|i]; [cbn in H1; congruence|].
           f_equal. f_equal.
           assert (Some k = Some i) as E by (apply IH; split; [exact H1|];
             intros j Hj; apply (H2 (S j)); lia). inversion E; reflexivity.
      * split; [discriminate|]. intros [H1 H2]. destruct i as [|i]; [cbn in H1; congruence|].
        assert (@None nat = Some i) as E; [|discriminate].
        apply IH. split; [exact H1|]. intros j Hj; apply (H2 (S j)); lia.
Qed.

Lemma find_columns_spec hs ys : forall is, find_columns hs ys = (is, true) ->
  Forall2 (column_at hs) ys is.
Proof.
  induction ys as [|y ys IH]; intros is H; cbn in H; [inversion H; constructor|].
  destruct (position y hs) as [i|] eqn:P; [|discriminate].
  destruct (find_columns hs ys) as [is' ok]. inversion H; subst.
  constructor; [apply position_spec; exact P|apply IH; reflexivity].
Qed.
Lemma parse_all_spec ys : forall is, parse_all idx ys = Some is ->
  Forall2 (fun y i => idx y = Some i) ys is.
Proof.
  induction ys as [|y ys IH]; intros is H; cbn in H; [inversion H; constructor|].
  destruct (idx y) as [i|] eqn:P; [|discriminate]. destruct (parse_all idx ys); [|discriminate].
  inversion H; subst. constructor; auto.
Qed.

(** ** Invariant of every history *)
Definition aligned (p : plotter) : Prop :=
  length (y_values p) = length (y_columns (cfg p)) /\
  Forall (fun col => length col = length (x_values p)) (y_values p) /\
  (forall m, max_points (cfg p) = Some m -> length (x_values p) <= m) /\
  (y_indices p = [] \/ length (y_indices p) = length (y_columns (cfg p))).

Lemma aligned_frame p s n m : aligned (frame p s n m) <-> aligned p.
Proof. reflexivity. Qed.

Lemma parse_row_length vs yis : forall r, parse_row num vs yis = Some r -> length r = length yis.
Proof.
  induction yis as [|i yis IH]; intros r H; cbn in H; [inversion H; reflexivity|].
  destruct (field num vs i); [|discriminate]. destruct (parse_row num vs yis); [|discriminate].
  inversion H; subst. cbn. f_equal. apply IH. reflexivity.
Qed.

Lemma aligned_data p l : aligned p -> length (y_indices p) = length (y_columns (cfg p)) ->
  aligned (fst (data_line num p l)) /\ cfg (fst (data_line num p l)) = cfg p.
Proof.
  intros (A1 & A2 & A3 & A4) Hy. unfold data_line.
  destruct (x_index p) as [xi|] eqn:Ex; [|unfold aligned; auto].
  destruct (field num _ _) as [x|]; [|unfold aligned; auto].
  destruct (parse_row num _ _) as [r|] eqn:R; [|unfold aligned; auto].
  apply parse_row_length in R. cbn [fst].
  assert (Forall (fun col => length col = length (x_values p ++ [x])) (push_row (y_values p) r)) as F.
  { apply Forall_forall. intros col Hin. apply In_nth_error in Hin as [i Hi].
    rewrite push_row_nth in Hi by congruence.
    destruct (nth_error (y_values p) i) as [c0|] eqn:N0; [|discriminate].
    destruct (nth_error r i) as [v|] eqn:N1; [|discriminate].
    inversion Hi; subst col. rewrite !app_length. rewrite Forall_forall in A2.
    rewrite (A2 c0) by (eapply nth_error_In; eauto). reflexivity. }
  rewrite trim_spec by exact F. split; [|reflexivity].
  unfold aligned. cbn [cfg x_values y_values y_indices].
  rewrite map_length, push_row_length. repeat split; auto.
  - rewrite Forall_map. eapply Forall_impl; [|exact F]. intros col Hc.
    destruct (max_points (cfg p)) as [m|]; [|exact Hc]. unfold keep_last. rewrite !skipn_length, Hc. reflexivity.
  - intros m Hm. rewrite Hm. apply keep_last_len.
Qed.

Lemma resolve_aligned (p : plotter) : aligned p ->
  let '(p', ok) := resolve_column_indices idx p in
  cfg p' = cfg p /\ x_values p' = x_values p /\
  (ok = true \/ length (y_columns (cfg p)) <= 1 -> aligned p') /\
  (ok = true -> (has_header (cfg p) = true -> headers p <> []) ->
   length (y_indices p') = length (y_columns (cfg p))).
Proof.
  intros (A1 & A2 & A3 & A4). unfold resolve_column_indices.
  destruct (has_header (cfg p)) eqn:HH.
  - destruct (headers p) as [|h hs] eqn:Hd.
    { repeat split; auto. intros _ N. exfalso. apply N; auto. }
    destruct (position _ _) as [xi|]; [|repeat split; auto; discriminate].
    destruct (find_columns (h :: hs) (y_columns (cfg p))) as [is ok] eqn:F.
    cbn [set_indices cfg x_values y_indices]. split; [reflexivity|]. split; [reflexivity|]. split.
    + intros C. unfold aligned. cbn [cfg x_values y_values y_indices]. repeat split; auto.
      destruct ok; [right; eapply find_columns_length; eauto|].
      destruct C as [C|C]; [discriminate|].
      destruct (y_columns (cfg p)) as [|y [|y2 ys]]; cbn in C; try lia.
      * cbn in F. discriminate F.
      * cbn [find_columns] in F. destruct (position y (h :: hs)); inversion F. left; reflexivity.
    + intros -> _. eapply find_columns_length; eauto.
  - destruct (idx _) as [xi|]; [|repeat split; auto; discriminate].
    destruct (parse_all idx _) as [is|] eqn:F; (split; [reflexivity|]; split; [reflexivity|]; split).
    + intros _. unfold aligned. cbn. repeat split; auto. right. eapply parse_all_length; eauto.
    + intros _ _. cbn. eapply parse_all_length; eauto.
    + intros _. repeat split; auto.
    + discriminate.
Qed.

Lemma line_aligned p l : aligned p ->
  let '(p', r) := line_step num idx p l in
  cfg p' = cfg p /\ (r <> Err \/ length (y_columns (cfg p)) <= 1 -> aligned p').
Proof.
  intros A. unfold line_step. destruct (is_nil (trim l)); [auto|].
  destruct (has_header (cfg p) && is_nil (headers p)) eqn:HN.
  - set (p1 := mkP _ (split_csv_line (trim l)) _ _ _ _ _ _ _).
    assert (aligned p1) as A1 by exact A.
    pose proof (resolve_aligned p1 A1) as R.
    destruct (resolve_column_indices idx p1) as [p2 ok]. destruct R as (R1 & R2 & R3 & R4).
    split; [exact R1|]. intros C. apply R3. destruct ok; [auto|]. destruct C as [C|C]; [congruence|auto].
  - assert (has_header (cfg p) = true -> headers p <> []) as Hh.
    { intros H. rewrite H in HN. destruct (headers p); [discriminate|discriminate]. }
    assert (forall q ok, cfg q = cfg p -> (ok = true -> aligned q /\ length (y_indices q) = length (y_columns (cfg p))) ->
      (ok = false -> length (y_columns (cfg p)) <= 1 -> aligned q) ->
      let '(p', r) := (if ok then let (p'', ch) := data_line num q (trim l) in (p'', Ok ch) else (q, Err)) in
      cfg p' = cfg p /\ (r <> Err \/ length (y_columns (cfg p)) <= 1 -> aligned p')) as G.
    { intros q ok Q1 Q2 Q3. destruct ok.
      - destruct (Q2 eq_refl) as [Q4 Q5]. rewrite <- Q1 in Q5.
        destruct (aligned_data q (trim l) Q4 Q5) as [D1 D2].
        destruct (data_line num q (trim l)) as [p' ch]. cbn [fst] in *. split; [congruence|auto].
      - split; [exact Q1|]. intros [C|C]; [congruence|]. apply Q3; auto. }
    assert (let '(q, ok) := resolve_column_indices idx p in
            cfg q = cfg p /\ (ok = true -> aligned q /\ length (y_indices q) = length (y_columns (cfg p))) /\
            (ok = false -> length (y_columns (cfg p)) <= 1 -> aligned q)) as RA.
    { pose proof (resolve_aligned p A) as R. destruct (resolve_column_indices idx p) as [q ok].
      destruct R as (R1 & R2 & R3 & R4). split; [exact R1|]. split; auto. }
    destruct (x_index p); [destruct (y_indices p) as [|y0 yr] eqn:Y|].
    + destruct (resolve_column_indices idx p) as [q ok]. destruct RA as (R1 & R2 & R3). apply G; auto.
    + apply (G p true); [reflexivity| |discriminate]. intros _. split; auto.
      destruct A as (_ & _ & _ & [A4|A4]); [congruence|]. exact A4.
    + destruct (resolve_column_indices idx p) as [q ok]. destruct RA as (R1 & R2 & R3). apply G; auto.
Qed.

Lemma run_aligned ls : forall p c, aligned p ->
  let '(p', r) := run_lines num idx p ls c in
  cfg p' = cfg p /\ (r <> Err \/ length (y_columns (cfg p)) <= 1 -> aligned p').
Proof.
  induction ls as [|l ls IH]; intros p c A; cbn [run_lines]; [auto|].
  pose proof (line_aligned p l A) as L. destruct (line_step num idx p l) as [p1 [ch|]].
  - destruct L as [L1 L2]. assert (aligned p1) as A1 by (apply L2; left; discriminate).
    specialize (IH p1 (c || ch) A1). destruct (run_lines num idx p1 ls (c || ch)) as [p2 r].
    rewrite L1 in IH. exact IH.
  - exact L.
Qed.

Lemma chunk_aligned p t : aligned p ->
  let '(p', r) := parse_text_chunk num idx p t in
  cfg p' = cfg p /\ (r <> Err \/ length (y_columns (cfg p)) <= 1 -> aligned p').
Proof.
  intros A. rewrite chunk_spec. cbv zeta. rewrite set_partial_frame.
  apply (run_aligned _ (frame p _ _ _)). exact A.
Qed.

Lemma reset_aligned p : length (y_values p) = length (y_columns (cfg p)) -> aligned (reset_series p).
Proof.
  intros A1. unfold aligned, reset_series. cbn. rewrite map_length.
  repeat split; auto; try lia. rewrite Forall_map. apply Forall_forall. auto.
Qed.

Lemma reload_aligned p o : aligned p ->
  let '(p', r) := reload_from_start num idx p o in
  cfg p' = cfg p /\ (r <> Err \/ length (y_columns (cfg p)) <= 1 -> aligned p').
Proof.
  intros A. unfold reload_from_start. destruct (o_exists2 o); [|split; auto]. cbn [negb].
  destruct (o_bytes o) as [bs|]; [|split; auto]. destruct (utf8_decode bs) as [t|]; [|split; auto].
  destruct (o_meta2 o) as [m|]; [|split; auto].
  set (p1 := set_identity (set_pos p (length bs)) (Some m)).
  assert (aligned p1) as A1 by exact A.
  pose proof (chunk_aligned p1 t A1) as C.
  destruct (parse_text_chunk num idx p1 t) as [p2 [ch|]]; [|exact C].
  destruct C as [C1 C2]. split; [exact C1|]. intros _. apply C2. left; discriminate.
Qed.

Lemma update_aligned p o : aligned p ->
  let '(p', r) := update_once num idx p o in
  cfg p' = cfg p /\ (r <> Err \/ length (y_columns (cfg p)) <= 1 -> aligned p').
Proof.
  intros A. unfold update_once. destruct (o_exists o); [|split; auto]. cbn [negb].
  destruct (o_meta o) as [m|]; [|split; auto].
  destruct (should_reset p m).
  - assert (aligned (reset_series p)) as A1 by (apply reset_aligned; apply A).
    pose proof (reload_aligned (reset_series p) o A1) as R.
    destruct (reload_from_start num idx (reset_series p) o) as [p' [ch|]]; [|exact R].
    destruct R as [R1 R2]. split; [exact R1|]. intros _. apply R2. left; discriminate.
  - destruct (file_pos p <? len m); [|split; auto].
    unfold read_new_bytes. destruct (o_bytes o) as [bs|]; [|split; auto].
    destruct (utf8_decode (skipn (file_pos p) bs)) as [t|]; [|split; auto].
    destruct (is_nil t); [split; auto|].
    set (p1 := set_pos p _). assert (aligned p1) as A1 by exact A.
    pose proof (chunk_aligned p1 t A1) as C.
    destruct (parse_text_chunk num idx p1 t) as [p2 [ch|]]; exact C.
Qed.

Lemma call_aligned p c : aligned p ->
  let '(p', r) := do_call num idx p c in
  (r <> Err \/ length (y_columns (cfg p')) <= 1 -> aligned p').
Proof.
  intros A. destruct c as [o|o|ys o]; cbn [do_call].
  - pose proof (reload_aligned p o A) as R. unfold initialize.
    destruct (reload_from_start num idx p o) as [p' r]. destruct R as [R1 R2]. rewrite R1. exact R2.
  - pose proof (update_aligned p o A) as R.
    destruct (update_once num idx p o) as [p' r]. destruct R as [R1 R2]. rewrite R1. exact R2.
  - unfold set_y_columns. cbv zeta. set (p1 := mkP _ _ _ _ _ _ _ _ _).
    assert (aligned (reset_series p1)) as A1 by (apply reset_aligned; cbn; apply map_length).
    pose proof (reload_aligned (reset_series p1) o A1) as R.
    destruct (reload_from_start num idx (reset_series p1) o) as [p' r].
    destruct R as [R1 R2]. rewrite R1. exact R2.
Qed.

(* every call keeps one y series per configured column, whatever happens *)
Lemma line_cols p l : let p' := fst (line_step num idx p l) in
  length (y_values p') = length (y_values p) /\ cfg p' = cfg p.
Proof.
  cbv zeta.
  assert (forall q, length (y_values (trim_if_needed q)) = length (y_values q) /\
     cfg (trim_if_needed q : plotter) = cfg q) as T.
  { intros q. unfold trim_if_needed. destruct (max_points (cfg q)); [|auto].
    destruct (length (x_values q) <=? n); cbn; rewrite ?map_length; auto. }
  assert (forall q x, length (y_values (fst (data_line num q x))) = length (y_values q) /\
     cfg (fst (data_line num q x)) = cfg q) as D.
  { intros q x. unfold data_line. destruct (x_index q); [|auto].
    destruct (field num _ _); [|auto]. destruct (parse_row num _ _); [|auto]. cbn [fst].
    match goal with |- context [trim_if_needed ?z] => destruct (T z) as [T1 T2]; rewrite T1, T2 end.
    cbn. rewrite push_row_length. auto. }
  assert (forall q : plotter, y_values (fst (resolve_column_indices idx q)) = y_values q /\
     cfg (fst (resolve_column_indices idx q)) = cfg q) as R.
  { intros q. unfold resolve_column_indices. destruct (has_header (cfg q)).
    - destruct (headers q); [auto|]. destruct (position _ _); [|auto].
      destruct (find_columns _ _); auto.
    - destruct (idx _); [|auto]. destruct (parse_all idx _); auto. }
  unfold line_step. destruct (is_nil (trim l)); [auto|].
  destruct (has_header (cfg p) && is_nil (headers p)).
  - match goal with |- context [resolve_column_indices idx ?z] => pose proof (R z) as Rz;
      destruct (resolve_column_indices idx z) as [q ok] end.
    cbn in *. destruct Rz as [-> ->]. auto.
  - assert (forall q ok, y_values q = y_values p -> cfg q = cfg p ->
      length (y_values (fst (if ok : bool then let (p'', ch) := data_line num q (trim l) in (p'', Ok ch) else (q, Err)))) = length (y_values p)
      /\ cfg (fst (if ok : bool then let (p'', ch) := data_line num q (trim l) in (p'', Ok ch) else (q, Err))) = cfg p) as G.
    { intros q ok Q1 Q2. destruct ok; cbn [fst]; [|rewrite Q1, Q2; auto].
      pose proof (D q (trim l)) as Dq. destruct (data_line num q (trim l)). cbn [fst] in *.
      destruct Dq as [-> ->]. rewrite Q1, Q2. auto. }
    pose proof (R p) as Rp.
    destruct (x_index p); [destruct (y_indices p)|].
    + destruct (resolve_column_indices idx p) as [q ok]. destruct Rp. apply G; auto.
    + apply (G p true); auto.
    + destruct (resolve_column_indices idx p) as [q ok]. destruct Rp. apply G; auto.
Qed.

Lemma run_cols ls : forall p c, let p' := fst (run_lines num idx p ls c) in
  length (y_values p') = length (y_values p) /\ cfg p' = cfg p.
Proof.
  induction ls as [|l ls IH]; intros p c; cbv zeta; cbn [run_lines]; [auto|].
  pose proof (line_cols p l) as L. cbv zeta in L.
  destruct (line_step num idx p l) as [p1 [ch|]]; cbn [fst] in *; [|exact L].
  destruct (IH p1 (c || ch)) as [I1 I2]. destruct L as [L1 L2]. rewrite I1, I2. auto.
Qed.
Lemma chunk_cols p t : let p' := fst (parse_text_chunk num idx p t) in
  length (y_values p') = length (y_values p) /\ cfg p' = cfg p.
Proof. rewrite chunk_spec. cbv zeta. rewrite set_partial_frame. apply (run_cols _ (frame p _ _ _)). Qed.
Lemma reload_cols p o : let p' := fst (reload_from_start num idx p o) in
  length (y_values p') = length (y_values p) /\ cfg p' = cfg p.
Proof.
  cbv zeta. unfold reload_from_start. destruct (o_exists2 o); [|auto]. cbn [negb].
  destruct (o_bytes o) as [bs|]; [|auto]. destruct (utf8_decode bs) as [t|]; [|auto].
  destruct (o_meta2 o) as [m|]; [|auto].
  pose proof (chunk_cols (set_identity (set_pos p (length bs)) (Some m)) t) as C. cbv zeta in C.
  destruct (parse_text_chunk num idx _ t) as [p2 [ch|]]; exact C.
Qed.
Lemma call_cols p c :
  length (y_values p) = length (y_columns (cfg p)) ->
  length (y_values (fst (do_call num idx p c))) = length (y_columns (cfg (fst (do_call num idx p c)))).
Proof.
  intros H. destruct c as [o|o|ys o]; cbn [do_call].
  - unfold initialize. destruct (reload_cols p o) as [A B]. rewrite A, B. exact H.
  - unfold update_once. destruct (o_exists o); [|auto]. cbn [negb].
    destruct (o_meta o) as [m|]; [|auto]. destruct (should_reset p m).
    + destruct (reload_cols (reset_series p) o) as [A B].
      destruct (reload_from_start num idx (reset_series p) o) as [p' [ch|]]; cbn [fst] in *;
        rewrite A, B; cbn; rewrite map_length; exact H.
    + destruct (file_pos p <? len m); [|auto].
      unfold read_new_bytes. destruct (o_bytes o) as [bs|]; [|auto].
      destruct (utf8_decode (skipn (file_pos p) bs)) as [t|]; [|auto].
      destruct (is_nil t); [auto|].
      match goal with |- context [parse_text_chunk num idx ?z t] => pose proof (chunk_cols z t) as C; cbv zeta in C;
        destruct (parse_text_chunk num idx z t) as [p2 [ch|]] end;
        cbn [fst] in *; destruct C as [A B]; cbn [set_identity set_pos y_values cfg] in *; rewrite A, B; exact H.
  - unfold set_y_columns. cbv zeta.
    match goal with |- context [reload_from_start num idx ?z o] => destruct (reload_cols z o) as [A B] end.
    rewrite A, B. cbn. rewrite !map_length. reflexivity.
Qed.

(** ** Nothing already shown is lost without a reset *)
Lemma data_extends p l : exists news,
  x_values (fst (data_line num p l)) = keep_last (max_points (cfg p)) (x_values p ++ news) \/
  fst (data_line num p l) = p.
Proof.
  unfold data_line. destruct (x_index p); [|exists []; auto].
  destruct (field num _ _) as [x|]; [|exists []; auto].
  destruct (parse_row num _ _); [|exists []; auto]. exists [x]. left. cbn [fst].
  unfold trim_if_needed. cbn [cfg x_values]. unfold keep_last. destruct (max_points (cfg p)); [|reflexivity].
  destruct (Nat.leb_spec (length (x_values p ++ [x])) n0) as [L|L]; cbn [x_values]; [|reflexivity].
  replace (length (x_values p ++ [x]) - n0) with 0 by lia. reflexivity.
Qed.

Lemma keep_last_small {A} m (l : list A) :
  (forall k, m = Some k -> length l <= k) -> keep_last m l = l.
Proof.
  intros H. destruct m as [k|]; [|reflexivity]. unfold keep_last.
  specialize (H k eq_refl). replace (length l - k) with 0 by lia. reflexivity.
Qed.
Lemma keep_last_app {A} m (l : list A) b :
  keep_last m (keep_last m l ++ b) = keep_last m (l ++ b).
Proof.
  revert l. induction b as [|x b IH] using rev_ind; intros l.
  - rewrite !app_nil_r. apply keep_last_small. intros k ->. apply keep_last_len.
  - rewrite !app_assoc. rewrite <- keep_last_snoc, IH. apply keep_last_snoc.
Qed.

Definition bounded (p : plotter) : Prop := forall m, max_points (cfg p) = Some m -> length (x_values p) <= m.
Definition extends (p p' : plotter) : Prop :=
  cfg p' = cfg p /\ exists news, x_values p' = keep_last (max_points (cfg p)) (x_values p ++ news).

Lemma extends_refl p q : bounded p -> cfg q = cfg p -> x_values q = x_values p -> extends p q.
Proof.
  intros B C X. split; [exact C|]. exists []. rewrite app_nil_r, X. symmetry. apply keep_last_small. exact B.
Qed.
Lemma extends_bounded p q : extends p q -> bounded q.
Proof. intros [C [n E]] m Hm. rewrite E. rewrite C in Hm. rewrite Hm. apply keep_last_len. Qed.
Lemma extends_trans p q r : extends p q -> extends q r -> extends p r.
Proof.
  intros [C1 [n1 E1]] [C2 [n2 E2]]. split; [congruence|]. exists (n1 ++ n2).
  rewrite E2, C1, E1, keep_last_app, app_assoc. reflexivity.
Qed.

Lemma line_extends p l : bounded p -> extends p (fst (line_step num idx p l)).
Proof.
  intros B. pose proof (line_cols p l) as [_ Hcfg]. split; [exact Hcfg|].
  assert (forall q : plotter, x_values (fst (resolve_column_indices idx q)) = x_values q /\
     cfg (fst (resolve_column_indices idx q)) = cfg q) as R.
  { intros q. unfold resolve_column_indices. destruct (has_header (cfg q)).
    - destruct (headers q); [auto|]. destruct (position _ _); [|auto].
      destruct (find_columns _ _); auto.
    - destruct (idx _); [|auto]. destruct (parse_all idx _); auto. }
  assert (forall q : plotter, x_values q = x_values p -> exists news, x_values q = keep_last (max_points (cfg p)) (x_values p ++ news)) as K.
  { intros q E. exists []. rewrite app_nil_r, E. symmetry. apply keep_last_small, B. }
  clear Hcfg. unfold line_step. destruct (is_nil (trim l)); [apply K; reflexivity|].
  destruct (has_header (cfg p) && is_nil (headers p)).
  - match goal with |- context [resolve_column_indices idx ?z] => pose proof (R z) as Rz;
      destruct (resolve_column_indices idx z) as [q ok] end.
    cbn [fst x_values] in *. apply K. apply Rz.
  - assert (forall q ok, x_values q = x_values p -> cfg q = cfg p ->
      exists news, x_values (fst (if ok : bool then let (p'', ch) := data_line num q (trim l) in (p'', Ok ch) else (q, Err)))
        = keep_last (max_points (cfg p)) (x_values p ++ news)) as G.
    { intros q ok Q1 Q2. destruct ok; cbn [fst]; [|apply K; auto].
      destruct (data_extends q (trim l)) as [news [E|E]]; destruct (data_line num q (trim l)) as [q' ch]; cbn [fst] in *.
      - exists news. rewrite E, Q1, Q2. reflexivity.
      - subst q'. apply K; auto. }
    pose proof (R p) as Rp.
    destruct (x_index p); [destruct (y_indices p)|].
    + destruct (resolve_column_indices idx p) as [q ok]. destruct Rp. apply G; auto.
    + apply (G p true); auto.
    + destruct (resolve_column_indices idx p) as [q ok]. destruct Rp. apply G; auto.
Qed.

Lemma run_extends ls : forall p c, bounded p -> extends p (fst (run_lines num idx p ls c)).
Proof.
  induction ls as [|l ls IH]; intros p c B; cbn [run_lines]; [apply extends_refl; auto|].
  pose proof (line_extends p l B) as L.
  destruct (line_step num idx p l) as [p1 [ch|]]; cbn [fst] in *; [|exact L].
  eapply extends_trans; [exact L|]. apply IH. eapply extends_bounded; eauto.
Qed.

Lemma update_extends p o m : bounded p ->
  o_meta o = Some m -> should_reset p m = false -> extends p (fst (update_once num idx p o)).
Proof.
  intros B Hm Hr. unfold update_once. destruct (o_exists o); [|apply extends_refl; auto].
  cbn [negb]. rewrite Hm, Hr. destruct (file_pos p <? len m); [|apply extends_refl; auto].
  unfold read_new_bytes. destruct (o_bytes o) as [bs|]; [|apply extends_refl; auto].
  destruct (utf8_decode (skipn (file_pos p) bs)) as [t|]; [|apply extends_refl; auto].
  destruct (is_nil t); [apply extends_refl; auto|].
  match goal with |- context [parse_text_chunk num idx ?z t] => set (p1 := z) end.
  assert (extends p (fst (parse_text_chunk num idx p1 t))) as E.
  { rewrite chunk_spec. cbv zeta.
    apply (run_extends _ (set_partial p1 _)). exact B. }
  destruct (parse_text_chunk num idx p1 t) as [p2 [ch|]]; exact E.
Qed.
End Csv.
