(** C110: the timing and power logs written by several threads.  C111: the search for an energy counter. *)
From Coq Require Import Ascii String NArith Arith List Bool Lia Sorted DecimalN.
From Verif Require Import Text CsvSpec CsvProofs BenchModel.
Import ListNotations.
Local Open Scope nat_scope.

(** * Specification of C110 *)
(** one finished call: the thread, the time stamp, the arguments and the text that reached the file *)
Record entry {A : Type} := mkE { who : nat; stamp : N; args : A; wrote : str }.
Arguments entry : clear implicits. Arguments mkE {A}.
Definition prefix {T} (a b : list T) : Prop := exists rest, a ++ rest = b.
(** the calls thread [t] made, in the order of the log *)
Definition made_by {A} (t : nat) (log : list (entry A)) : list A := map args (filter (fun e => who e =? t) log).
Definition is_fail (e : event) : bool := match e with Fail _ _ => true | _ => false end.
(** the calls a thread has not finished *)
Definition unfinished_calls {A} (x : thread (A := A)) (current : option A) : list A := match current with Some a => a :: todo x | None => todo x end.

(** * Proof *)
Section Sink.
Context {A : Type} (pieces : N -> A -> list str) (header : str) (now : N) (calls : nat -> list A).
Notation row ts a := (concat (pieces ts a)).
Notation world := (world (A := A)).
Definition owed (w : world) (log : list (entry A)) (t : nat) (current : option A) : Prop := calls t = made_by t log ++ unfinished_calls (threads w t) current.
Definition inside (clean : bool) (w : world) (log : list (entry A)) (part : str) : Prop :=
  match holder w with
  | None => part = [] /\ forall t, ph (threads w t) = Idle /\ owed w log t None
  | Some h => (forall t, t <> h -> ph (threads w t) = Idle /\ owed w log t None) /\
      match ph (threads w h) with
      | Idle => False
      | Locked a => part = [] /\ owed w log h (Some a)
      | Writing ps => exists ts a, owed w log h (Some a) /\ (ts <= clock w)%N /\ Forall (fun e => (stamp e <= ts)%N) log /\
          prefix (part ++ concat ps) (row ts a) /\ (clean = true -> part ++ concat ps = row ts a)
      end
  end.
Definition inv (clean : bool) (w : world) : Prop := exists log part,
  file w = header ++ concat (map wrote log) ++ part /\ inside clean w log part /\
  Forall (fun e => prefix (wrote e) (row (stamp e) (args e)) /\ (clean = true -> wrote e = row (stamp e) (args e))) log /\
  StronglySorted (fun a b => (stamp a <= stamp b)%N) log /\ Forall (fun e => (stamp e <= clock w)%N) log.

Lemma set_same w t (x : thread (A := A)) : set_thread w t x t = x. Proof. unfold set_thread. rewrite Nat.eqb_refl. reflexivity. Qed.
Lemma set_other w t (x : thread (A := A)) s : s <> t -> set_thread w t x s = threads w s. Proof. unfold set_thread. intros H. apply Nat.eqb_neq in H. rewrite H. reflexivity. Qed.
Lemma made_by_snoc t log (e : entry A) : made_by t (log ++ [e]) = made_by t log ++ if who e =? t then [args e] else [].
Proof. unfold made_by. rewrite filter_app, map_app. cbn [filter]. destruct (who e =? t); reflexivity. Qed.
Lemma sorted_snoc log (e : entry A) : StronglySorted (fun a b => (stamp a <= stamp b)%N) log -> Forall (fun x => (stamp x <= stamp e)%N) log ->
  StronglySorted (fun a b => (stamp a <= stamp b)%N) (log ++ [e]).
Proof.
  intros S. induction S as [|x l S IH H]; intros Hf; cbn [app]; [repeat constructor|]. inversion Hf; subst. constructor; [apply IH; assumption|]. apply Forall_app. split; [assumption|repeat constructor; assumption].
Qed.
Lemma Forall_le_trans log (a b : N) : (a <= b)%N -> Forall (fun e : entry A => (stamp e <= a)%N) log -> Forall (fun e => (stamp e <= b)%N) log.
Proof. intros H. apply Forall_impl. intros e. cbv beta. lia. Qed.
Lemma only_holder clean w log part t : inside clean w log part -> ph (threads w t) <> Idle -> holder w = Some t.
Proof.
  unfold inside. destruct (holder w) as [h|]; intros H Hp; [|exfalso; apply Hp, H]. destruct (Nat.eq_dec t h) as [->|N]; [reflexivity|]. exfalso. apply Hp, (proj1 H t N).
Qed.
Lemma step_inv clean w e w' : inv clean w -> step pieces w e = Some w' -> inv (clean && negb (is_fail e)) w'.
Proof.
  intros (log & part & Ef & Ins & Hw & Hs & Hc) H. destruct e as [t|t|t|t k|t|d]; cbn [step is_fail negb] in *; rewrite ?andb_true_r, ?andb_false_r.
  - (* Acquire *) destruct (holder w) eqn:Eh; [discriminate|]. destruct (ph (threads w t)) eqn:Ep; try discriminate. destruct (todo (threads w t)) as [|a rest] eqn:Et; [discriminate|]. injection H as <-.
    unfold inside in Ins. rewrite Eh in Ins. destruct Ins as (-> & Ins). exists log, []. cbn [file clock]. repeat (split; [assumption|]). split; [|split; [assumption|split; assumption]].
    unfold inside. cbn [holder threads]. split; [intros s Hs'; destruct (Ins s) as (I1 & I2); unfold owed; cbn [threads]; rewrite set_other by exact Hs'; split; assumption|]. rewrite set_same. cbn [ph].
    split; [reflexivity|]. unfold owed. cbn [threads]. rewrite set_same. cbn [unfinished_calls todo]. destruct (Ins t) as (_ & I2). unfold owed, unfinished_calls in I2. rewrite Et in I2. exact I2.
  - (* Stamp *) destruct (ph (threads w t)) as [|a|] eqn:Ep; try discriminate. injection H as <-. pose proof (only_holder _ _ _ _ t Ins ltac:(rewrite Ep; discriminate)) as Eh.
    unfold inside in Ins. rewrite Eh, Ep in Ins. destruct Ins as (Io & -> & Ia). exists log, []. cbn [file clock]. split; [assumption|]. split; [|split; [assumption|split; assumption]].
    unfold inside. cbn [holder]. rewrite Eh. cbn [threads]. split; [intros s Hs'; unfold owed; cbn [threads]; rewrite set_other by exact Hs'; exact (Io s Hs')|]. rewrite set_same. cbn [ph]. exists (clock w), a. cbn [clock].
    split; [unfold owed; cbn [threads]; rewrite set_same; exact Ia|]. split; [lia|]. split; [exact Hc|]. cbn [app]. split; [exists []; apply app_nil_r|reflexivity].
  - (* Write *) destruct (ph (threads w t)) as [| |[|p ps]] eqn:Ep; try discriminate. injection H as <-. pose proof (only_holder _ _ _ _ t Ins ltac:(rewrite Ep; discriminate)) as Eh.
    unfold inside in Ins. rewrite Eh, Ep in Ins. destruct Ins as (Io & ts & a & Ia & Ht & Hl & Hp & He). cbn [concat] in Hp, He. rewrite app_assoc in Hp, He. exists log, (part ++ p). cbn [file clock]. split; [rewrite Ef, !app_assoc; reflexivity|]. split; [|split; [assumption|split; assumption]].
    unfold inside. cbn [holder]. rewrite Eh. cbn [threads]. split; [intros s Hs'; unfold owed; cbn [threads]; rewrite set_other by exact Hs'; exact (Io s Hs')|]. rewrite set_same. cbn [ph]. exists ts, a. cbn [clock].
    split; [unfold owed; cbn [threads]; rewrite set_same; exact Ia|]. split; [assumption|]. split; [assumption|]. split; assumption.
  - (* Fail *) destruct (ph (threads w t)) as [| |[|p ps]] eqn:Ep; try discriminate. injection H as <-. pose proof (only_holder _ _ _ _ t Ins ltac:(rewrite Ep; discriminate)) as Eh.
    unfold inside in Ins. rewrite Eh, Ep in Ins. destruct Ins as (Io & ts & a & Ia & Ht & Hl & Hp & He). cbn [concat] in Hp, He. rewrite app_assoc in Hp, He. exists log, (part ++ firstn k p). cbn [file clock]. split; [rewrite Ef, !app_assoc; reflexivity|].
    split; [|split; [revert Hw; apply Forall_impl; intros e (E1 & _); split; [exact E1|discriminate]|split; assumption]].
    unfold inside. cbn [holder]. rewrite Eh. cbn [threads]. split; [intros s Hs'; unfold owed; cbn [threads]; rewrite set_other by exact Hs'; exact (Io s Hs')|]. rewrite set_same. cbn [ph]. exists ts, a. cbn [clock].
    split; [unfold owed; cbn [threads]; rewrite set_same; exact Ia|]. split; [assumption|]. split; [assumption|]. split; [|discriminate]. cbn [concat]. rewrite app_nil_r.
    destruct Hp as (r & Hp). exists (skipn k p ++ concat ps ++ r). rewrite <- Hp, <- !app_assoc. f_equal. rewrite (app_assoc (firstn k p)), firstn_skipn. reflexivity.
  - (* Release *) destruct (ph (threads w t)) as [| |[|p ps]] eqn:Ep; try discriminate. injection H as <-. pose proof (only_holder _ _ _ _ t Ins ltac:(rewrite Ep; discriminate)) as Eh.
    unfold inside in Ins. rewrite Eh, Ep in Ins. destruct Ins as (Io & ts & a & Ia & Ht & Hl & Hp & He). cbn [concat] in Hp, He. rewrite app_nil_r in Hp, He.
    exists (log ++ [mkE t ts a part]), []. cbn [file clock]. split; [rewrite Ef, map_app, concat_app; cbn [map concat wrote]; rewrite !app_nil_r; reflexivity|].
    split; [|split; [apply Forall_app; split; [assumption|repeat constructor; assumption]|split; [apply sorted_snoc; assumption|apply Forall_app; split; [assumption|repeat constructor; assumption]]]].
    unfold inside. cbn [holder]. split; [reflexivity|]. intros s. cbn [threads]. unfold owed. rewrite made_by_snoc. cbn [who args threads]. destruct (Nat.eq_dec s t) as [->|N].
    + rewrite set_same, Nat.eqb_refl. split; [reflexivity|]. rewrite <- app_assoc. exact Ia.
    + rewrite set_other by exact N. replace (t =? s) with false by (symmetry; apply Nat.eqb_neq; congruence). rewrite app_nil_r. exact (Io s N).
  - (* Tick *) injection H as <-. exists log, part. cbn [file clock]. split; [assumption|]. split; [|split; [assumption|split; [assumption|apply (Forall_le_trans log (clock w)); [lia|assumption]]]].
    revert Ins. unfold inside, owed. cbn [holder threads clock]. destruct (holder w); [|intros I; exact I]. intros (Io & I). split; [exact Io|]. destruct (ph (threads w n)); [exact I|exact I|]. destruct I as (ts & a & I1 & I2 & I3). exists ts, a. split; [exact I1|]. split; [lia|exact I3].
Qed.
Lemma run_inv es : forall clean w w', inv clean w -> run pieces w es = Some w' -> inv (clean && negb (existsb is_fail es)) w'.
Proof.
  induction es as [|e es IH]; intros clean w w' Hi H; cbn [run existsb] in *; [injection H as <-; rewrite andb_true_r; exact Hi|].
  destruct (step pieces w e) as [w1|] eqn:E; [|discriminate]. pose proof (IH _ _ _ (step_inv _ _ _ _ Hi E) H) as K. rewrite negb_orb, andb_assoc. exact K.
Qed.
Lemma start_inv : inv true (start header now calls).
Proof.
  exists [], []. cbn. rewrite app_nil_r. split; [reflexivity|]. split; [|repeat constructor]. split; [reflexivity|]. intros t. split; reflexivity.
Qed.

(** at every moment of every schedule, also one with write errors: the file is the header, one after the other the rows of
    the finished calls (cut short only by an error) in the order of their time stamps, and a part of at most one more row;
    every thread's calls are those in the log, in order, then those it has still to make *)
Theorem C110_log : forall es w, run pieces (start header now calls) es = Some w ->
  exists (log : list (entry A)) (part : str) (current : nat -> option A),
    file w = header ++ concat (map wrote log) ++ part /\
    (forall t, calls t = made_by t log ++ unfinished_calls (threads w t) (current t)) /\
    StronglySorted (fun a b => (stamp a <= stamp b)%N) log /\
    Forall (fun e => prefix (wrote e) (row (stamp e) (args e)) /\ (existsb is_fail es = false -> wrote e = row (stamp e) (args e))) log /\
    (part = [] \/ exists t ts a, holder w = Some t /\ current t = Some a /\ prefix part (row ts a)).
Proof.
  intros es w H. destruct (run_inv es _ _ _ start_inv H) as (log & part & Ef & Ins & Hw & Hs & Hc). cbn [andb] in *.
  assert (Hw' : Forall (fun e => prefix (wrote e) (row (stamp e) (args e)) /\ (existsb is_fail es = false -> wrote e = row (stamp e) (args e))) log).
  { revert Hw. apply Forall_impl. intros e (E1 & E2). split; [exact E1|]. intros Hf. apply E2. rewrite Hf. reflexivity. }
  unfold inside in Ins. destruct (holder w) as [h|] eqn:Eh.
  - destruct Ins as (Io & Ih). destruct (ph (threads w h)) as [|a|ps] eqn:Ep; [contradiction| |].
    + destruct Ih as (-> & Ia). exists log, [], (fun t => if t =? h then Some a else None). split; [exact Ef|]. split; [|split; [exact Hs|split; [exact Hw'|left; reflexivity]]].
      intros t. destruct (Nat.eqb_spec t h) as [->|N]; [exact Ia|exact (proj2 (Io t N))].
    + destruct Ih as (ts & a & Ia & Ht & Hl & Hp & He). exists log, part, (fun t => if t =? h then Some a else None). split; [exact Ef|]. split; [|split; [exact Hs|split; [exact Hw'|right]]].
      * intros t. destruct (Nat.eqb_spec t h) as [->|N]; [exact Ia|exact (proj2 (Io t N))].
      * exists h, ts, a. split; [reflexivity|]. rewrite Nat.eqb_refl. split; [reflexivity|]. destruct Hp as (r & Hp). exists (concat ps ++ r). rewrite app_assoc. exact Hp.
  - destruct Ins as (-> & Ins). exists log, [], (fun _ => None). split; [exact Ef|]. split; [intros t; exact (proj2 (Ins t))|]. split; [exact Hs|]. split; [exact Hw'|left; reflexivity].
Qed.

(** when everybody is done and no write failed: the header and one whole row per call, nothing else *)
Theorem C110_finished : forall es w, run pieces (start header now calls) es = Some w -> existsb is_fail es = false ->
  (forall t, todo (threads w t) = [] /\ ph (threads w t) = Idle) ->
  exists log : list (entry A), file w = header ++ concat (map (fun e => row (stamp e) (args e)) log) /\
    (forall t, made_by t log = calls t) /\ StronglySorted (fun a b => (stamp a <= stamp b)%N) log.
Proof.
  intros es w H Hf Hd. destruct (run_inv es _ _ _ start_inv H) as (log & part & Ef & Ins & Hw & Hs & Hc). rewrite Hf in *. cbn [andb negb] in *. exists log.
  unfold inside in Ins. destruct (holder w) as [h|] eqn:Eh; [exfalso; destruct Ins as (_ & I); rewrite (proj2 (Hd h)) in I; exact I|]. destruct Ins as (-> & Ins). rewrite app_nil_r in Ef. split; [|split; [|exact Hs]].
  - rewrite Ef. do 2 f_equal. apply map_ext_in. intros e He. rewrite Forall_forall in Hw. apply (Hw e He). reflexivity.
  - intros t. destruct (Ins t) as (_ & I). unfold owed, unfinished_calls in I. rewrite (proj1 (Hd t)), app_nil_r in I. symmetry. exact I.
Qed.

(** no deadlock: while a call is left or under way, some thread can step *)
Definition work (x : thread (A := A)) : nat := match ph x with Idle => 0 | _ => 1 end + List.length (todo x).
Theorem C110_no_deadlock : forall es w t, run pieces (start header now calls) es = Some w -> 0 < work (threads w t) ->
  exists e w', step pieces w e = Some w' /\ match e with Tick _ | Fail _ _ => False | _ => True end.
Proof.
  intros es w t H Hw. destruct (run_inv es _ _ _ start_inv H) as (log & part & _ & Ins & _). unfold inside in Ins. destruct (holder w) as [h|] eqn:Eh.
  - destruct Ins as (_ & I). destruct (ph (threads w h)) as [|a|[|p ps]] eqn:Ep; [contradiction| | |].
    + exists (Stamp h). cbn [step]. rewrite Ep. eauto.
    + exists (Release h). cbn [step]. rewrite Ep. eauto.
    + exists (Write h). cbn [step]. rewrite Ep. eauto.
  - destruct Ins as (_ & Ins). destruct (Ins t) as (Ip & _). unfold work in Hw. rewrite Ip in Hw. destruct (todo (threads w t)) as [|a r] eqn:Et; [cbn in Hw; lia|].
    exists (Acquire t). cbn [step]. rewrite Eh, Ip, Et. eauto.
Qed.
End Sink.

(** * Reading the logs back *)
(** no comma and no line break *)
Definition plain (s : str) : Prop := Forall (fun c => c <> 44%N /\ c <> NL) s.
Lemma split_sep sep a b : Forall (fun c => c <> sep) a -> split_on sep (a ++ sep :: b) = a :: split_on sep b.
Proof.
  induction a as [|c a IH]; intros H; cbn [app split_on]; [rewrite N.eqb_refl; reflexivity|]. inversion H; subst. destruct (N.eqb_spec c sep); [contradiction|]. rewrite IH by assumption. reflexivity.
Qed.
Lemma split_none sep a : Forall (fun c => c <> sep) a -> split_on sep a = [a].
Proof. induction a as [|c a IH]; intros H; cbn [split_on]; [reflexivity|]. inversion H; subst. destruct (N.eqb_spec c sep); [contradiction|]. rewrite IH by assumption. reflexivity. Qed.
Lemma plain_comma s : plain s -> Forall (fun c => c <> 44%N) s. Proof. apply Forall_impl. tauto. Qed.
Lemma plain_nl s : plain s -> Forall (fun c => c <> NL) s. Proof. apply Forall_impl. tauto. Qed.
Lemma digits_plain d : plain (digits_of d).
Proof. induction d; cbn [digits_of]; constructor; try assumption; unfold NL; lia. Qed.
Lemma digits_inj : forall a b, digits_of a = digits_of b -> a = b.
Proof. induction a; intros [| | | | | | | | | |b] H; cbn in H; try discriminate; try reflexivity; f_equal; apply IHa; injection H as H; exact H. Qed.
Lemma show_inj a b : show_u64 a = show_u64 b -> a = b.
Proof. intros H. apply digits_inj in H. rewrite <- (Unsigned.of_to a), <- (Unsigned.of_to b), H. reflexivity. Qed.
(** lines, each closed by a line break *)
Lemma split_lines (ls : list str) : Forall (fun l => Forall (fun c => c <> NL) l) ls -> split_on NL (concat (map (fun l => l ++ [NL]) ls)) = ls ++ [[]].
Proof.
  induction ls as [|l ls IH]; intros H; cbn [map concat]; [reflexivity|]. inversion H; subst. rewrite <- app_assoc. cbn [app]. rewrite split_sep by assumption. rewrite IH by assumption. reflexivity.
Qed.
Section ReadBack.
Context {F : Type} (show_f64 : F -> str) (show_plain : forall x, plain (show_f64 x)).
Definition timing_line (e : entry (str * F)) : str := show_u64 (stamp e) ++ text "," ++ fst (args e) ++ text "," ++ show_f64 (snd (args e)).
Definition power_line (e : entry (str * option F * option F)) : str :=
  show_u64 (stamp e) ++ text "," ++ fst (fst (args e)) ++ text "," ++ show_opt show_f64 (snd (fst (args e))) ++ text "," ++ show_opt show_f64 (snd (args e)).
Lemma plain_app a b : plain a -> plain b -> plain (a ++ b). Proof. intros. apply Forall_app. split; assumption. Qed.
Lemma opt_plain x : plain (show_opt show_f64 x). Proof. destruct x; [apply show_plain|constructor]. Qed.
Lemma nl_app a b : Forall (fun c => c <> NL) a -> Forall (fun c => c <> NL) b -> Forall (fun c => c <> NL) (a ++ b). Proof. intros. apply Forall_app. split; assumption. Qed.
Lemma comma_nl : Forall (fun c => c <> NL) (text ","). Proof. cbn. repeat constructor. discriminate. Qed.
Lemma made_in {A} (log : list (entry A)) e : In e log -> In (args e) (made_by (who e) log).
Proof. intros H. unfold made_by. apply in_map. apply filter_In. split; [exact H|apply Nat.eqb_refl]. Qed.

(** the timing log, read line by line and split at the commas, gives the calls back: time stamps (which determine the
    number), stage names and durations, in order of time, each thread's in its own order *)
Theorem C110_timing_read_back : forall now calls es w, run (timing_pieces show_f64) (start timing_header now calls) es = Some w ->
  existsb is_fail es = false -> (forall t, todo (threads w t) = [] /\ ph (threads w t) = Idle) ->
  (forall t a, In a (calls t) -> plain (fst a)) ->
  exists log : list (entry (str * F)), (forall t, made_by t log = calls t) /\ StronglySorted (fun a b => (stamp a <= stamp b)%N) log /\
    map (split_on 44) (complete_lines (file w)) =
      [text "unix_ns"; text "stage"; text "elapsed_ms"] :: map (fun e => [show_u64 (stamp e); fst (args e); show_f64 (snd (args e))]) log /\
    unfinished (file w) = [].
Proof.
  intros now calls es w H Hf Hd Hp. destruct (C110_finished _ _ _ _ es w H Hf Hd) as (log & Ef & Hm & Hs). exists log. split; [exact Hm|]. split; [exact Hs|].
  assert (Pl : forall e, In e log -> plain (fst (args e))). { intros e He. apply (Hp (who e)). rewrite <- Hm. apply made_in, He. }
  assert (E : split_on NL (file w) = (text "unix_ns,stage,elapsed_ms" :: map timing_line log) ++ [[]]).
  { rewrite <- split_lines.
    - rewrite Ef. cbn [map concat]. unfold timing_header. f_equal. f_equal. f_equal. rewrite map_map. apply map_ext. intros e. unfold timing_pieces, timing_line. cbn [concat]. rewrite !app_nil_r, <- !app_assoc. reflexivity.
    - constructor; [cbn; repeat constructor; discriminate|]. apply Forall_map. apply Forall_forall. intros e He. unfold timing_line. repeat apply nl_app; try apply comma_nl; apply plain_nl; [apply digits_plain|apply Pl, He|apply show_plain]. }
  unfold complete_lines, unfinished. rewrite E. rewrite removelast_last, last_last. split; [|reflexivity]. cbn [map]. f_equal. rewrite map_map. apply map_ext_in. intros e He. unfold timing_line. cbn [text list_ascii_of_string map N_of_ascii].
  change (map Ascii.N_of_ascii (String.list_ascii_of_string ",")) with [44%N]. unfold text. change (map Ascii.N_of_ascii (String.list_ascii_of_string ",")) with [44%N]. cbn [app].
  rewrite split_sep by apply plain_comma, digits_plain. rewrite split_sep by apply plain_comma, Pl, He. rewrite split_none by apply plain_comma, show_plain. reflexivity.
Qed.
Theorem C110_power_read_back : forall now calls es w, run (power_pieces show_f64) (start power_header now calls) es = Some w ->
  existsb is_fail es = false -> (forall t, todo (threads w t) = [] /\ ph (threads w t) = Idle) ->
  (forall t a, In a (calls t) -> plain (fst (fst a))) ->
  exists log : list (entry (str * option F * option F)), (forall t, made_by t log = calls t) /\ StronglySorted (fun a b => (stamp a <= stamp b)%N) log /\
    map (split_on 44) (complete_lines (file w)) =
      [text "unix_ns"; text "source"; text "power_W"; text "energy_J_total"] ::
      map (fun e => [show_u64 (stamp e); fst (fst (args e)); show_opt show_f64 (snd (fst (args e))); show_opt show_f64 (snd (args e))]) log /\
    unfinished (file w) = [].
Proof.
  intros now calls es w H Hf Hd Hp. destruct (C110_finished _ _ _ _ es w H Hf Hd) as (log & Ef & Hm & Hs). exists log. split; [exact Hm|]. split; [exact Hs|].
  assert (Pl : forall e, In e log -> plain (fst (fst (args e)))). { intros e He. apply (Hp (who e)). rewrite <- Hm. apply made_in, He. }
  assert (E : split_on NL (file w) = (text "unix_ns,source,power_W,energy_J_total" :: map power_line log) ++ [[]]).
  { rewrite <- split_lines.
    - rewrite Ef. cbn [map concat]. unfold power_header. f_equal. f_equal. f_equal. rewrite map_map. apply map_ext. intros [t ts [[s p] j] x]. unfold power_pieces, power_line. cbn [concat stamp args fst snd]. rewrite !app_nil_r, <- !app_assoc. reflexivity.
    - constructor; [cbn; repeat constructor; discriminate|]. apply Forall_map. apply Forall_forall. intros e He. unfold power_line. repeat apply nl_app; try apply comma_nl; apply plain_nl; [apply digits_plain|apply Pl, He|apply opt_plain|apply opt_plain]. }
  unfold complete_lines, unfinished. rewrite E. rewrite removelast_last, last_last. split; [|reflexivity]. cbn [map]. f_equal. rewrite map_map. apply map_ext_in. intros e He. unfold power_line.
  unfold text. change (map Ascii.N_of_ascii (String.list_ascii_of_string ",")) with [44%N]. cbn [app].
  rewrite split_sep by apply plain_comma, digits_plain. rewrite split_sep by apply plain_comma, Pl, He. rewrite split_sep by apply plain_comma, opt_plain. rewrite split_none by apply plain_comma, opt_plain. reflexivity.
Qed.
End ReadBack.

(** two threads, interleaved: thread 1 waits for the lock while thread 0 writes *)
Definition demo_show (b : bool) : str := if b then text "1.5" else text "2".
Definition demo_calls (t : nat) : list (str * bool) := match t with 0 => [(text "load", true)] | 1 => [(text "solve", false); (text "save", true)] | _ => [] end.
Definition call (t : nat) : list event := [Acquire t; Stamp t; Write t; Write t; Write t; Write t; Write t; Write t; Release t].
Definition demo_schedule : list event := [Acquire 0; Tick 5; Stamp 0; Write 0; Write 0; Write 0; Write 0; Write 0; Write 0; Release 0; Tick 2] ++ call 1 ++ [Tick 90] ++ call 1.
Example C110_nontrivial : exists w, run (timing_pieces demo_show) (start timing_header 3 demo_calls) demo_schedule = Some w /\ existsb is_fail demo_schedule = false /\
  (forall t, todo (threads w t) = [] /\ ph (threads w t) = Idle) /\
  file w = text "unix_ns,stage,elapsed_ms" ++ [NL] ++ text "8,load,1.5" ++ [NL] ++ text "10,solve,2" ++ [NL] ++ text "100,save,1.5" ++ [NL] /\
  (forall t a, In a (demo_calls t) -> plain (fst a)) /\ (forall b, plain (demo_show b)).
Proof.
  eexists. split; [vm_compute; reflexivity|]. split; [reflexivity|]. split; [intros [|[|t]]; split; reflexivity|]. split; [vm_compute; reflexivity|]. split.
  - intros [|[|t]] a; cbn [demo_calls In]; intros H; repeat destruct H as [<-|H]; try contradiction; cbn; repeat constructor; discriminate.
  - intros []; cbn; repeat constructor; discriminate.
Qed.
(** nobody is told about a failed write: the row is cut short and the next one continues on the same line *)
Theorem C110_failed_write_refuted : exists es w, run (timing_pieces demo_show) (start timing_header 3 demo_calls) es = Some w /\
  (forall t, todo (threads w t) = [] /\ ph (threads w t) = Idle) /\
  file w = text "unix_ns,stage,elapsed_ms" ++ [NL] ++ text "3,lo3,solve,2" ++ [NL] ++ text "3,save,1.5" ++ [NL].
Proof.
  exists ([Acquire 0; Stamp 0; Write 0; Write 0; Fail 0 2; Release 0] ++ call 1 ++ call 1). eexists. split; [vm_compute; reflexivity|]. split; [intros [|[|t]]; split; reflexivity|vm_compute; reflexivity].
Qed.
(** a comma in a stage name adds a column *)
Theorem C110_comma_refuted : exists calls w, run (timing_pieces demo_show) (start timing_header 3 calls) (call 0) = Some w /\
  (forall t, todo (threads w t) = [] /\ ph (threads w t) = Idle) /\
  map (@List.length str) (map (split_on 44) (complete_lines (file w))) = [3; 4].
Proof.
  exists (fun t => match t with 0 => [(text "a,b", true)] | _ => [] end). eexists. split; [vm_compute; reflexivity|]. split; [intros [|t]; split; reflexivity|vm_compute; reflexivity].
Qed.
