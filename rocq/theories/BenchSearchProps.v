(** C111: the search for an energy counter: it always ends, what it returns is there, and what it misses. *)
From Coq Require Import Ascii String NArith Arith List Bool Lia.
From Verif Require Import Text BenchModel.
Import ListNotations.
Local Open Scope nat_scope.

(** * Specification: the directories below a root, and the files in them *)
Section Spec.
Context (read_dir : path -> option (list (str * bool))).
Definition entry_of (dir : path) (name : str) (is_dir : bool) : Prop := exists es, read_dir dir = Some es /\ In (name, is_dir) es.
Inductive below (root : path) : path -> Prop :=
| below_root : below root root
| below_dir dir n : below root dir -> entry_of dir n true -> below root (n :: dir).
(** names in a directory are distinct *)
Definition distinct_names : Prop := forall dir es, read_dir dir = Some es -> NoDup (map fst es).
End Spec.

Lemma str_eqb_eq a b : str_eqb a b = true <-> a = b.
Proof. unfold str_eqb. destruct (list_eq_dec N.eq_dec a b); split; congruence. Qed.

Section Search.
Context (read_dir : path -> option (list (str * bool))) (max_nodes : nat) (filename : str) (root : path).
(** the subdirectories of a list of entries, in the order they end up on the stack *)
Definition subdirs (dir : path) (es : list (str * bool)) : list path := map (fun e => fst e :: dir) (filter snd es).
Lemma scan_spec dir es : forall stack, match scan dir filename es stack with
  | inl p => p = filename :: dir /\ In (filename, false) es
  | inr s => s = rev (subdirs dir es) ++ stack /\ ~ In (filename, false) es
  end.
Proof.
  induction es as [|[n b] es IH]; intros stack; cbn [scan]; [split; [reflexivity|intros []]|]. destruct b.
  - specialize (IH ((n :: dir) :: stack)). destruct (scan dir filename es ((n :: dir) :: stack)) as [p|s]; destruct IH as (E & I).
    + split; [exact E|right; exact I].
    + split; [unfold subdirs in *; cbn [filter snd map rev fst]; rewrite <- app_assoc; exact E|]. intros [H|H]; [discriminate|contradiction].
  - destruct (str_eqb n filename) eqn:En; [apply str_eqb_eq in En; subst n; split; [reflexivity|left; reflexivity]|].
    specialize (IH stack). destruct (scan dir filename es stack) as [p|s]; destruct IH as (E & I); [split; [exact E|right; exact I]|]. split; [exact E|]. intros [H|H]; [|contradiction]. injection H as ->. rewrite (proj2 (str_eqb_eq filename filename) eq_refl) in En. discriminate.
Qed.

(** whatever the file system looks like, also with cyclic links, at most max_nodes + 1 directories are read *)
Lemma dfs_ends fuel : forall seen stack, seen <= max_nodes + 1 -> max_nodes + 2 - seen < fuel -> exists r, dfs read_dir fuel max_nodes seen filename stack = Some r.
Proof.
  induction fuel as [|fuel IH]; intros seen stack Hs Hf; [lia|]. cbn [dfs]. destruct stack as [|dir stack]; [eauto|]. destruct (max_nodes <? seen) eqn:E; [eauto|]. apply Nat.ltb_ge in E.
  destruct (read_dir dir) as [es|]; [|apply IH; lia]. destruct (scan dir filename es stack) as [p|s]; [eauto|]. apply IH; lia.
Qed.
Theorem C111_ends : exists r, find_first read_dir (max_nodes + 3) max_nodes root filename = Some r.
Proof. apply dfs_ends; lia. Qed.

(** a file that is returned is below the root and has the name asked for *)
Lemma dfs_sound fuel : forall seen stack p, (forall d, In d stack -> below read_dir root d) -> dfs read_dir fuel max_nodes seen filename stack = Some (Some p) ->
  exists dir, p = filename :: dir /\ below read_dir root dir /\ entry_of read_dir dir filename false.
Proof.
  induction fuel as [|fuel IH]; intros seen stack p Hs H; [discriminate|]. cbn [dfs] in H. destruct stack as [|dir stack]; [discriminate|]. destruct (max_nodes <? seen); [discriminate|].
  destruct (read_dir dir) as [es|] eqn:Er; [|eapply IH; [|exact H]; intros d Hd; apply Hs; right; exact Hd].
  pose proof (scan_spec dir es stack) as Sp. destruct (scan dir filename es stack) as [q|s]; destruct Sp as (E & I).
  - injection H as <-. exists dir. split; [exact E|]. split; [apply Hs; left; reflexivity|exists es; split; assumption].
  - eapply IH; [|exact H]. intros d Hd. rewrite E in Hd. apply in_app_or in Hd. destruct Hd as [Hd|Hd]; [|apply Hs; right; exact Hd]. apply in_rev in Hd. unfold subdirs in Hd. apply in_map_iff in Hd. destruct Hd as ([n b] & <- & Hd). apply filter_In in Hd. destruct Hd as (Hd & Hb). cbn in Hb. subst b.
    apply below_dir; [apply Hs; left; reflexivity|exists es; split; assumption].
Qed.
Theorem C111_sound : forall fuel p, find_first read_dir fuel max_nodes root filename = Some (Some p) ->
  exists dir, p = filename :: dir /\ below read_dir root dir /\ entry_of read_dir dir filename false.
Proof. intros fuel p H. eapply dfs_sound; [|exact H]. intros d [<-|[]]. constructor. Qed.

(** nothing is missed as long as there are at most max_nodes + 1 directories *)
Definition handled (visited stack : list path) : Prop :=
  (forall d, In d visited -> ~ entry_of read_dir d filename false) /\
  (forall d n, In d visited -> entry_of read_dir d n true -> In (n :: d) (visited ++ stack)).
Lemma reach_handled visited : handled visited [] -> In root visited -> forall d, below read_dir root d -> In d visited.
Proof. intros (_ & H2) Hr d Hd. induction Hd as [|d n Hd IH He]; [exact Hr|]. specialize (H2 d n IH He). rewrite app_nil_r in H2. exact H2. Qed.
(** the parents of everything seen are visited *)
Definition rooted (visited stack : list path) : Prop := forall d, In d (visited ++ stack) -> d = root \/ exists n p, d = n :: p /\ In p visited.
Lemma NoDup_subdirs dir es : NoDup (map fst es) -> NoDup (subdirs dir es).
Proof.
  unfold subdirs. induction es as [|[n b] es IH]; intros H; cbn [map filter snd]; [constructor|]. cbn [map fst] in H. inversion H as [|? ? Hn Hd]; subst. destruct b; [|apply IH; exact Hd]. cbn [map fst]. constructor; [|apply IH; exact Hd].
  intros I. apply in_map_iff in I. destruct I as ([m b] & Em & I). apply filter_In in I. destruct I as (I & _). injection Em as Em. cbn in Em. subst m. apply Hn. apply in_map_iff. exists (n, b). split; [reflexivity|exact I].
Qed.
Lemma NoDup_app_intro {T} (a b : list T) : NoDup a -> NoDup b -> (forall x, In x a -> ~ In x b) -> NoDup (a ++ b).
Proof. induction a as [|x a IH]; intros Ha Hb H; cbn [app]; [exact Hb|]. inversion Ha; subst. constructor; [|apply IH; auto; intros y Hy; apply H; right; exact Hy]. intros I. apply in_app_or in I. destruct I as [I|I]; [contradiction|]. exact (H x (or_introl eq_refl) I). Qed.
Lemma subdir_in dir es d : In d (subdirs dir es) <-> exists n, d = n :: dir /\ In (n, true) es.
Proof.
  unfold subdirs. rewrite in_map_iff. split.
  - intros ([n b] & <- & I). apply filter_In in I. destruct I as (I & Hb). cbn in Hb. subst b. exists n. split; [reflexivity|exact I].
  - intros (n & -> & I). exists (n, true). split; [reflexivity|]. apply filter_In. split; [exact I|reflexivity].
Qed.
Lemma dfs_complete (all : list path) : distinct_names read_dir -> (forall d, below read_dir root d -> In d all) -> List.length all <= max_nodes + 1 ->
  (exists d, below read_dir root d /\ entry_of read_dir d filename false) ->
  forall fuel visited stack, handled visited stack -> In root (visited ++ stack) -> NoDup (visited ++ stack) -> rooted visited stack -> (forall d, In d (visited ++ stack) -> below read_dir root d) ->
  dfs read_dir fuel max_nodes (List.length visited) filename stack <> Some None.
Proof.
  intros Dn Hall Hlen (df & Hdf & Hef) fuel. induction fuel as [|fuel IH]; intros visited stack Hh Hr Hnd Hro Hb H; [discriminate|]. cbn [dfs] in H. destruct stack as [|dir stack].
  - destruct Hh as (H1 & H2). rewrite app_nil_r in Hr. apply (H1 df); [|exact Hef]. apply reach_handled; [split; assumption|exact Hr|exact Hdf].
  - destruct (max_nodes <? List.length visited) eqn:E.
    + apply Nat.ltb_lt in E. assert (L : List.length (visited ++ dir :: stack) <= List.length all) by (apply NoDup_incl_length; [exact Hnd|intros d Hd; apply Hall, Hb, Hd]). rewrite app_length in L. cbn in L. lia.
    + assert (Hdirb : below read_dir root dir) by (apply Hb, in_or_app; right; left; reflexivity). assert (Hnv : ~ In dir visited). { intros I. apply NoDup_remove_2 in Hnd. apply Hnd, in_or_app. left. exact I. }
      assert (Sh : forall rest, visited ++ dir :: rest = (visited ++ [dir]) ++ rest) by (intros rest; rewrite <- app_assoc; reflexivity). assert (Ln : List.length visited + 1 = List.length (visited ++ [dir])) by (rewrite app_length; reflexivity).
      destruct (read_dir dir) as [es|] eqn:Er.
      * pose proof (scan_spec dir es stack) as Sp. destruct (scan dir filename es stack) as [q|s]; [discriminate|]. destruct Sp as (-> & Hno). rewrite Ln in H. revert H. apply IH.
        -- destruct Hh as (H1 & H2). split.
           ++ intros d Hd. apply in_app_or in Hd. destruct Hd as [Hd|[<-|[]]]; [apply H1, Hd|]. intros (es' & E' & I). rewrite Er in E'. injection E' as <-. contradiction.
           ++ intros d n Hd He. apply in_app_or in Hd. destruct Hd as [Hd|[<-|[]]].
              ** specialize (H2 d n Hd He). rewrite Sh in H2. apply in_app_or in H2. apply in_or_app. destruct H2 as [H2|H2]; [left; exact H2|]. right. apply in_or_app. right. exact H2.
              ** destruct He as (es' & E' & I). rewrite Er in E'. injection E' as <-. apply in_or_app. right. apply in_or_app. left. apply in_rev. rewrite rev_involutive. apply subdir_in. exists n. split; [reflexivity|exact I].
        -- rewrite Sh in Hr. apply in_app_or in Hr. apply in_or_app. destruct Hr as [Hr|Hr]; [left; exact Hr|]. right. apply in_or_app. right. exact Hr.
        -- rewrite Sh in Hnd. assert (N2 : NoDup (visited ++ [dir])) by (clear -Hnd; induction (visited ++ [dir]) as [|x l IHl]; [constructor|]; cbn [app] in Hnd; inversion Hnd; subst; constructor; [intros I; apply H1, in_or_app; left; exact I|apply IHl; assumption]).
           assert (N3 : NoDup stack) by (clear -Hnd; induction (visited ++ [dir]) as [|x l IHl]; [exact Hnd|]; cbn [app] in Hnd; inversion Hnd; subst; apply IHl; assumption).
           assert (Dj : forall x, In x (visited ++ [dir]) -> ~ In x stack). { clear -Hnd. induction (visited ++ [dir]) as [|y l IHl]; [intros x []|]. cbn [app] in Hnd. inversion Hnd; subst. intros x [<-|Hx] I; [apply H1, in_or_app; right; exact I|exact (IHl H2 x Hx I)]. }
           assert (New : forall x, In x (subdirs dir es) -> ~ In x ((visited ++ [dir]) ++ stack)).
           { intros x Hx I. apply subdir_in in Hx. destruct Hx as (n & -> & _). rewrite <- Sh in I. destruct (Hro _ I) as [Eq|(n' & p & Eq & Hp)].
             - assert (B : forall d, below read_dir root d -> List.length root <= List.length d) by (intros d Hd; induction Hd; cbn; lia). specialize (B dir Hdirb). apply (f_equal (@List.length str)) in Eq. cbn in Eq. lia.
             - injection Eq as -> <-. contradiction. }
           apply NoDup_app_intro; [exact N2| |].
           ++ apply NoDup_app_intro; [apply NoDup_rev, NoDup_subdirs, (Dn dir es Er)|exact N3|]. intros x Hx I. apply in_rev in Hx. apply (New x Hx). apply in_or_app. right. exact I.
           ++ intros x Hx I. apply in_app_or in I. destruct I as [I|I]; [|exact (Dj x Hx I)]. apply in_rev in I. apply (New x I). apply in_or_app. left. exact Hx.
        -- intros d Hd. apply in_app_or in Hd. destruct Hd as [Hd|Hd]; [|apply in_app_or in Hd; destruct Hd as [Hd|Hd]].
           ++ destruct (Hro d) as [->|(n & p & -> & Hp)]; [rewrite Sh; apply in_or_app; left; exact Hd|left; reflexivity|]. right. exists n, p. split; [reflexivity|apply in_or_app; left; exact Hp].
           ++ apply in_rev in Hd. apply subdir_in in Hd. destruct Hd as (n & -> & _). right. exists n, dir. split; [reflexivity|]. apply in_or_app. right. left. reflexivity.
           ++ destruct (Hro d) as [->|(n & p & -> & Hp)]; [rewrite Sh; apply in_or_app; right; exact Hd|left; reflexivity|]. right. exists n, p. split; [reflexivity|apply in_or_app; left; exact Hp].
        -- intros d Hd. apply in_app_or in Hd. destruct Hd as [Hd|Hd]; [apply Hb; rewrite Sh; apply in_or_app; left; exact Hd|]. apply in_app_or in Hd. destruct Hd as [Hd|Hd]; [|apply Hb; rewrite Sh; apply in_or_app; right; exact Hd].
           apply in_rev in Hd. apply subdir_in in Hd. destruct Hd as (n & -> & I). apply below_dir; [exact Hdirb|]. exists es. split; [exact Er|exact I].
      * rewrite Ln in H. revert H. rewrite Sh in Hr, Hnd, Hb. apply IH; [|exact Hr|exact Hnd| |exact Hb].
        -- destruct Hh as (H1 & H2). split.
           ++ intros d Hd. apply in_app_or in Hd. destruct Hd as [Hd|[<-|[]]]; [apply H1, Hd|]. intros (es' & E' & _). congruence.
           ++ intros d n Hd He. apply in_app_or in Hd. destruct Hd as [Hd|[<-|[]]]; [rewrite <- Sh; apply H2; assumption|]. destruct He as (es' & E' & _). congruence.
        -- intros d Hd. rewrite <- Sh in Hd. destruct (Hro d Hd) as [->|(n & p & -> & Hp)]; [left; reflexivity|]. right. exists n, p. split; [reflexivity|apply in_or_app; left; exact Hp].
Qed.
Theorem C111_complete : forall all, distinct_names read_dir -> (forall d, below read_dir root d -> In d all) -> List.length all <= max_nodes + 1 ->
  (exists d, below read_dir root d /\ entry_of read_dir d filename false) ->
  exists p, find_first read_dir (max_nodes + 3) max_nodes root filename = Some (Some p).
Proof.
  intros all Dn Hall Hlen Hex. destruct C111_ends as ([p|] & E); [exists p; exact E|]. exfalso. revert E. unfold find_first. change 0 with (List.length (@nil path)). apply (dfs_complete all); auto.
  - split; [intros d []|intros d n []].
  - left; reflexivity.
  - repeat constructor. intros [].
  - intros d [<-|[]]. left. reflexivity.
  - intros d [<-|[]]. constructor.
Qed.
End Search.

(** the bound is exact: with max_nodes + 2 directories a file can be missed *)
Definition nb : str := text "b". Definition nd : str := text "d". Definition nf : str := text "energy_uj".
Definition chain (max_nodes : nat) (p : path) : option (list (str * bool)) :=
  match p with
  | [] => Some ((nb, true) :: if 1 <=? max_nodes then [(nd, true)] else [])
  | n :: _ => if str_eqb n nb then Some [(nf, false)] else if List.length p <? max_nodes then Some [(nd, true)] else Some []
  end.
Definition ds (k : nat) : path := repeat nd k.
Lemma chain_run m fuel k : 1 <= k -> k <= m -> m + 1 - k < fuel -> dfs (chain m) fuel m k nf [ds k; [nb]] = Some None.
Proof.
  revert k. induction fuel as [|fuel IH]; intros k H1 Hk Hf; [lia|]. cbn [dfs]. replace (m <? k) with false by (symmetry; apply Nat.ltb_ge; lia).
  destruct k as [|k]; [lia|]. change (ds (S k)) with (nd :: ds k). cbn [chain]. change (str_eqb nd nb) with false. cbn [List.length]. unfold ds at 1. rewrite repeat_length. destruct (S k <? m) eqn:E.
  - apply Nat.ltb_lt in E. cbn [scan]. replace (S k + 1) with (S (S k)) by lia. apply (IH (S (S k))); lia.
  - apply Nat.ltb_ge in E. assert (S k = m) by lia. cbn [scan]. destruct fuel as [|fuel]; [lia|]. cbn [dfs]. replace (m <? S k + 1) with true by (symmetry; apply Nat.ltb_lt; lia). reflexivity.
Qed.
Theorem C111_cap_refuted : forall max_nodes, 1 <= max_nodes -> exists read_dir all, distinct_names read_dir /\
  (forall d, below read_dir [] d -> In d all) /\ List.length all = max_nodes + 2 /\
  (exists d, below read_dir [] d /\ entry_of read_dir d nf false) /\
  find_first read_dir (max_nodes + 3) max_nodes [] nf = Some None.
Proof.
  intros m Hm. exists (chain m), ([nb] :: map ds (seq 0 (m + 1))). split; [|split; [|split; [|split]]].
  - intros [|n p] es; cbn [chain]; intros H.
    + injection H as <-. destruct m as [|m']; [lia|]. cbn [map fst]. constructor; [intros [H|[]]; discriminate|]. constructor; [intros []|constructor].
    + destruct (str_eqb n nb); [injection H as <-; repeat constructor; intros []|]. destruct (List.length (n :: p) <? m); injection H as <-; repeat constructor; intros [].
  - assert (D : forall k, k <= m -> In (ds k) (map ds (seq 0 (m + 1)))) by (intros k Hk; apply in_map, in_seq; lia).
    assert (K : forall d, below (chain m) [] d -> d = [nb] \/ exists k, d = ds k /\ k <= m).
    { intros d Hd. induction Hd as [|d n Hd IH (es & Ee & I)]; [right; exists 0; split; [reflexivity|lia]|]. destruct IH as [->|(k & -> & Hk)].
      - cbn in Ee. injection Ee as <-. destruct I as [I|[]]. discriminate.
      - destruct k as [|k].
        + unfold ds, chain in Ee. cbn [repeat] in Ee. injection Ee as <-. destruct I as [I|I]; [injection I as <-; left; reflexivity|]. destruct m as [|m']; [lia|]. destruct I as [I|[]]. injection I as <-. right. exists 1. split; [reflexivity|lia].
        + change (ds (S k)) with (nd :: ds k) in Ee. cbn [chain] in Ee. change (str_eqb nd nb) with false in Ee. cbn [List.length] in Ee. unfold ds in Ee. rewrite repeat_length in Ee. destruct (S k <? m) eqn:E; injection Ee as <-; [|destruct I].
          destruct I as [I|[]]. injection I as <-. right. exists (S (S k)). split; [reflexivity|]. apply Nat.ltb_lt in E. lia. }
    intros d Hd. destruct (K d Hd) as [->|(k & -> & Hk)]; [left; reflexivity|right; apply D, Hk].
  - cbn [List.length]. rewrite map_length, seq_length. lia.
  - exists [nb]. split; [|exists [(nf, false)]; split; [reflexivity|left; reflexivity]]. apply below_dir; [constructor|]. eexists. split; [reflexivity|left; reflexivity].
  - unfold find_first. replace (m + 3) with (S (m + 2)) by lia. cbn [dfs]. replace (m <? 0) with false by (symmetry; apply Nat.ltb_ge; lia). destruct m as [|m']; [lia|]. cbn [chain Nat.leb scan].
    change [[nd]; [nb]] with [ds 1; [nb]]. apply chain_run; lia.
Qed.
(** a link back to the directory itself hides everything listed before it, whatever the cap *)
Definition looped (p : path) : option (list (str * bool)) :=
  match p with [] => Some [(nb, true); (nd, true)] | n :: _ => if str_eqb n nb then Some [(nf, false)] else Some [(nb, true); (nd, true)] end.
Theorem C111_link_refuted : (forall p, looped (nd :: p) = looped []) /\ entry_of looped [nb] nf false /\ below looped [] [nb] /\
  forall max_nodes, find_first looped (max_nodes + 3) max_nodes [] nf = Some None.
Proof.
  split; [reflexivity|]. split; [exists [(nf, false)]; split; [reflexivity|left; reflexivity]|]. split; [apply below_dir; [constructor|]; eexists; split; [reflexivity|left; reflexivity]|].
  intros m. unfold find_first. assert (G : forall fuel seen k rest, seen <= m + 1 -> m + 2 - seen < fuel -> dfs looped fuel m seen nf (ds k :: rest) = Some None).
  { induction fuel as [|fuel IH]; intros seen k rest Hs Hf; [lia|]. cbn [dfs]. destruct (m <? seen) eqn:E; [reflexivity|]. apply Nat.ltb_ge in E. assert (El : looped (ds k) = Some [(nb, true); (nd, true)]) by (destruct k; reflexivity). rewrite El. cbn [scan]. change (nd :: ds k) with (ds (S k)). apply IH; lia. }
  apply (G (m + 3) 0 0 []); lia.
Qed.

(** * The hwmon fallback *)
(** the files tried in a chip, in order of preference: power1 to power8, the average before the momentary value *)
Definition candidates : list str :=
  flat_map (fun n => [text "power" ++ show_u64 n ++ text "_average"; text "power" ++ show_u64 n ++ text "_input"]) [1; 2; 3; 4; 5; 6; 7; 8]%N.
Lemma find_dup {T} (f : T -> bool) a b c : find f (a ++ b ++ c) = find f (a ++ b ++ b ++ c).
Proof.
  assert (E : forall l m, find f (l ++ m) = match find f l with Some x => Some x | None => find f m end). { induction l as [|x l IH]; intros m; cbn; [reflexivity|]. destruct (f x); [reflexivity|apply IH]. }
  rewrite !E. destruct (find f a); [reflexivity|]. destruct (find f b); reflexivity.
Qed.
Lemma find_app {T} (f : T -> bool) l m : find f (l ++ m) = match find f l with Some x => Some x | None => find f m end.
Proof. induction l as [|x l IH]; cbn; [reflexivity|]. destruct (f x); [reflexivity|apply IH]. Qed.
Theorem C111_chip : forall c, chip_power c = find (chip_has c) candidates.
Proof.
  intros c. unfold chip_power, candidates, power_keys. generalize (chip_has c). intros f.
  change (flat_map (fun n => map (replace_char 49 (show_u64 n)) [text "power1_average"; text "power1_input"; text "power2_average"; text "power2_input"]) [1; 2; 3; 4; 5; 6; 7; 8]%N)
  with ([text "power1_average"; text "power1_input"; text "power2_average"; text "power2_input"] ++ [text "power2_average"; text "power2_input"; text "power2_average"; text "power2_input"] ++
    [text "power3_average"; text "power3_input"; text "power2_average"; text "power2_input"] ++ [text "power4_average"; text "power4_input"; text "power2_average"; text "power2_input"] ++
    [text "power5_average"; text "power5_input"; text "power2_average"; text "power2_input"] ++ [text "power6_average"; text "power6_input"; text "power2_average"; text "power2_input"] ++
    [text "power7_average"; text "power7_input"; text "power2_average"; text "power2_input"] ++ [text "power8_average"; text "power8_input"; text "power2_average"; text "power2_input"]).
  change (flat_map (fun n => [text "power" ++ show_u64 n ++ text "_average"; text "power" ++ show_u64 n ++ text "_input"]) [1; 2; 3; 4; 5; 6; 7; 8]%N)
  with ([text "power1_average"; text "power1_input"] ++ [text "power2_average"; text "power2_input"] ++ [text "power3_average"; text "power3_input"] ++ [text "power4_average"; text "power4_input"] ++
    [text "power5_average"; text "power5_input"] ++ [text "power6_average"; text "power6_input"] ++ [text "power7_average"; text "power7_input"] ++ [text "power8_average"; text "power8_input"]).
  generalize (text "power1_average") (text "power1_input") (text "power2_average") (text "power2_input") (text "power3_average") (text "power3_input") (text "power4_average") (text "power4_input").
  generalize (text "power5_average") (text "power5_input") (text "power6_average") (text "power6_input") (text "power7_average") (text "power7_input") (text "power8_average") (text "power8_input").
  intros. cbn [app find]. repeat match goal with |- context [if f ?x then _ else _] => destruct (f x); try reflexivity end.
Qed.
Lemma hwmon_spec : forall cs,
  match find_hwmon cs with
  | Some (c, f) => exists before after, cs = before ++ c :: after /\ is_cpu c = true /\ find (chip_has c) candidates = Some f /\
      forall x, In x before -> is_cpu x = false \/ find (chip_has x) candidates = None
  | None => forall x, In x cs -> is_cpu x = false \/ find (chip_has x) candidates = None
  end.
Proof.
  induction cs as [|c cs IH]; cbn [find_hwmon]; [intros x []|].
  assert (Skip : is_cpu c = false \/ find (chip_has c) candidates = None -> match find_hwmon cs with
    | Some (c0, f) => exists before after, c :: cs = before ++ c0 :: after /\ is_cpu c0 = true /\ find (chip_has c0) candidates = Some f /\ forall x, In x before -> is_cpu x = false \/ find (chip_has x) candidates = None
    | None => forall x, In x (c :: cs) -> is_cpu x = false \/ find (chip_has x) candidates = None end).
  { intros Hc. destruct (find_hwmon cs) as [[c0 f]|].
    - destruct IH as (b & a & -> & I1 & I2 & I3). exists (c :: b), a. repeat split; auto. intros x [<-|Hx]; [exact Hc|apply I3, Hx].
    - intros x [<-|Hx]; [exact Hc|apply IH, Hx]. }
  destruct (is_cpu c) eqn:Ec; [|apply Skip; left; reflexivity]. rewrite C111_chip. destruct (find (chip_has c) candidates) as [f|] eqn:Ef; [|apply Skip; right; reflexivity].
  exists [], cs. repeat split; auto. intros x [].
Qed.
(** the driver of a processor: its name contains one of the two driver names *)
Definition occurs (p s : str) : Prop := exists a b, s = a ++ p ++ b.
Definition processor (c : chip) : Prop := occurs (text "k10temp") (chip_name c) \/ occurs (text "zenpower") (chip_name c).
Lemma is_prefix_iff p : forall s, is_prefix p s = true <-> exists b, s = p ++ b.
Proof.
  induction p as [|x p IH]; intros s; cbn [is_prefix app]; [split; eauto|]. destruct s as [|y s]; [split; [discriminate|intros [b H]; discriminate]|].
  rewrite andb_true_iff, IH, N.eqb_eq. split; [intros [-> [b ->]]; eauto|]. intros [b H]. injection H as -> ->. eauto.
Qed.
Lemma contains_iff p : forall s, contains p s = true <-> occurs p s.
Proof.
  assert (Hd : forall s, is_prefix p s = true -> occurs p s) by (intros s H; apply is_prefix_iff in H; destruct H as [b ->]; exists [], b; reflexivity).
  induction s as [|y s IH]; cbn [contains]; rewrite orb_true_iff.
  - split; [intros [H|H]; [auto|discriminate]|]. intros (a & b & H). left. destruct a; [|discriminate]. apply is_prefix_iff. exists b. exact H.
  - split.
    + intros [H|H]; [auto|]. apply IH in H. destruct H as (a & b & ->). exists (y :: a), b. reflexivity.
    + intros (a & b & H). destruct a as [|z a]; [left; apply is_prefix_iff; exists b; exact H|]. right. apply IH. injection H as -> ->. exists a, b. reflexivity.
Qed.
Lemma is_cpu_iff c : is_cpu c = true <-> processor c.
Proof. unfold is_cpu, processor. rewrite orb_true_iff, !contains_iff. reflexivity. Qed.
Lemma is_cpu_not c : is_cpu c = false <-> ~ processor c.
Proof. rewrite <- is_cpu_iff. destruct (is_cpu c); split; congruence. Qed.
(** the first chip of a processor that has any of these files *)
Theorem C111_hwmon : forall cs,
  match find_hwmon cs with
  | Some (c, f) => exists before after, cs = before ++ c :: after /\ processor c /\ find (chip_has c) candidates = Some f /\
      forall x, In x before -> ~ processor x \/ find (chip_has x) candidates = None
  | None => forall x, In x cs -> ~ processor x \/ find (chip_has x) candidates = None
  end.
Proof.
  intros cs. pose proof (hwmon_spec cs) as H. destruct (find_hwmon cs) as [[c f]|].
  - destruct H as (b & a & E & P & F & B). exists b, a. split; [exact E|]. split; [apply is_cpu_iff, P|]. split; [exact F|]. intros x Hx. rewrite <- is_cpu_not. auto.
  - intros x Hx. rewrite <- is_cpu_not. auto.
Qed.

(** an Intel counter two levels down; a k10temp chip after an unrelated one *)
Definition demo_fs (p : path) : option (list (str * bool)) :=
  match p with
  | [] => Some [(text "intel-rapl", true); (text "control", false)]
  | [_] => Some [(text "package-0", true); (text "package-1", true)]
  | [_; _] => Some [(text "name", false); (nf, false)]
  | _ => None
  end.
Example C111_nontrivial : find_first demo_fs 4099 4096 [] nf = Some (Some [nf; text "package-1"; text "intel-rapl"]) /\
  find_hwmon [mkChip (text "nvme") (fun _ => true); mkChip (text "k10temp" ++ [NL]) (str_eqb (text "power3_input"))] <> None.
Proof. split; [reflexivity|]. cbn. discriminate. Qed.
