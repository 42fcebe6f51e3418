(** Properties C34 and C76: codecs round-trip, and decoding into uninitialised memory never
    reads, drops twice or forgets an element. *)
From Coq Require Import ZArith List Arith Lia Permutation.
From Verif Require Import Scalar CodecModel.
Import ListNotations.

(** *** Specification *)
(** An element codec is good on a domain if decoding gives back the value and leaves exactly
    what follows it. *)
Definition good {T} (c : codec T) (dom : T -> Prop) : Prop :=
  forall x s, dom x -> dec c (enc c x ++ s) = Some (x, s).
Definition shape {T} (M N : nat) (m : list (list T)) : Prop := length m = M /\ Forall (fun r => length r = N) m.
Definition all {T} (dom : T -> Prop) (m : list (list T)) : Prop := Forall (Forall dom) m.
(** Elements decoded one after the other: at most [n], and what is left if none failed. *)
Fixpoint take {T} (c : codec T) (n : nat) (input : list byte) : list T * option (list byte) :=
  match n with
  | O => ([], Some input)
  | S k => match dec c input with
           | None => ([], None)
           | Some (v, rest) => let '(l, r) := take c k rest in (v :: l, r)
           end
  end.

(** *** Lemmas *)
Lemma read_filled {T} n (slots : nat -> option T) l : length l = n ->
  (forall i, i < n -> slots i = nth_error l i) -> read_slots n slots = Some l.
Proof.
  revert l. induction n as [|n IH]; intros l E H.
  - destruct l; [reflexivity|discriminate].
  - destruct (exists_last (l := l)) as (l0 & x & ->); [destruct l; discriminate|].
    rewrite app_length in E. cbn in E. cbn [read_slots]. rewrite (IH l0).
    + rewrite H by lia. rewrite nth_error_app2 by lia. replace (n - length l0) with 0 by lia. reflexivity.
    + lia.
    + intros i Hi. rewrite H by lia. apply nth_error_app1. lia.
Qed.
Lemma fill_next {T} n (slots : nat -> option T) l v : length l = n ->
  (forall i, i < n -> slots i = nth_error l i) ->
  forall i, i < S n -> upd slots n (Some v) i = nth_error (l ++ [v]) i.
Proof.
  intros E H i Hi. unfold upd. destruct (Nat.eqb_spec i n) as [->|].
  - rewrite nth_error_app2 by lia. replace (n - length l) with 0 by lia. reflexivity.
  - rewrite H by lia. symmetry. apply nth_error_app1. lia.
Qed.

Section Bincode.
Context {T : Type} (c : codec T).

Lemma take_app a b input : take c (a + b) input =
  match take c a input with
  | (l, Some rest) => let '(l', r) := take c b rest in (l ++ l', r)
  | (l, None) => (l, None)
  end.
Proof.
  revert input. induction a as [|a IH]; intros input; cbn [take Nat.add].
  - destruct (take c b input). reflexivity.
  - destruct (dec c input) as [[v rest]|]; auto. rewrite IH. destruct (take c a rest) as [l [r|]]; auto.
    destruct (take c b r). reflexivity.
Qed.
Lemma take_length n : forall input l r, take c n input = (l, Some r) -> length l = n.
Proof.
  induction n as [|n IH]; intros input l r H; cbn [take] in H; [inversion H; reflexivity|].
  destruct (dec c input) as [[v rest]|]; [|discriminate].
  destruct (take c n rest) as [l' r'] eqn:E. inversion H; subst. cbn. f_equal. eapply IH; eauto.
Qed.

Lemma decode_row_spec N rows rs : forall todo row pre input,
  length pre = N - todo -> todo <= N -> (forall i, i < N - todo -> row i = nth_error pre i) ->
  (forall i, i < length rs -> rows i = nth_error rs i) ->
  decode_row c N rows (length rs) todo row (length pre) input =
  match take c todo input with
  | (l, Some rest) => Ok (pre ++ l) rest
  | (l, None) => Err ((pre ++ l) ++ concat rs) []
  end.
Proof.
  induction todo as [|k IH]; intros row pre input E Ht Hs Hr.
  - cbn [decode_row take]. rewrite (read_filled N row pre), app_nil_r; auto; [lia|].
    intros i Hi. apply Hs. lia.
  - cbn [decode_row take]. destruct (dec c input) as [[v rest]|].
    + replace (S (length pre)) with (length (pre ++ [v])) by (rewrite app_length; cbn; lia).
      rewrite IH; auto; try lia.
      * destruct (take c k rest) as [l [r|]]; rewrite <- (app_assoc pre); reflexivity.
      * rewrite app_length. cbn. lia.
      * intros i Hi. apply fill_next; auto. lia.
    + rewrite (read_filled (length pre) row pre), (read_filled (length rs) rows rs), app_nil_r; auto.
      intros i Hi. apply Hs. lia.
Qed.

Lemma decode_rows_spec M N : forall todo rows rs input,
  length rs = M - todo -> todo <= M -> (forall i, i < M - todo -> rows i = nth_error rs i) ->
  match take c (todo * N) input with
  | (l, Some rest) => exists rs', decode_rows c M N todo rows (length rs) input = Ok (rs ++ rs') rest /\
                        concat rs' = l /\ shape todo N rs'
  | (l, None) => exists d, decode_rows c M N todo rows (length rs) input = Err d [] /\
                   Permutation d (concat rs ++ l)
  end.
Proof.
  induction todo as [|k IH]; intros rows rs input E Ht Hs.
  - cbn [take Nat.mul decode_rows]. rewrite (read_filled M rows rs); [|lia|intros; apply Hs; lia].
    exists []. rewrite app_nil_r. repeat split; auto.
  - replace (S k * N) with (N + k * N) by reflexivity. rewrite take_app. cbn [decode_rows].
    pose proof (decode_row_spec N rows rs N (fun _ => None) [] input ltac:(cbn; lia) (le_n N) ltac:(intros; lia)
      ltac:(intros; apply Hs; lia)) as DR. cbn [length] in DR. rewrite DR. clear DR.
    destruct (take c N input) as [l [r|]] eqn:Et.
    + replace (S (length rs)) with (length (rs ++ [[] ++ l])) by (rewrite app_length; cbn; lia).
      pose proof (IH (upd rows (M - S k) (Some ([] ++ l))) (rs ++ [[] ++ l]) r) as G.
      assert (length (rs ++ [[] ++ l]) = M - k) as EL by (rewrite app_length; cbn; lia).
      specialize (G EL ltac:(lia)).
      assert (forall i, i < M - k -> upd rows (M - S k) (Some ([] ++ l)) i = nth_error (rs ++ [[] ++ l]) i) as EF.
      { intros i Hi. apply fill_next; auto. lia. }
      specialize (G EF). destruct (take c (k * N) r) as [l' [r'|]].
      * destruct G as (rs' & -> & Cc & Sh). exists (l :: rs'). cbn [app] in *. rewrite <- app_assoc. cbn [app concat].
        split; auto. split; [rewrite Cc; auto|]. destruct Sh as [S1 S2]. split; [cbn; lia|].
        constructor; auto. apply (take_length N input l r Et).
      * destruct G as (d & -> & P). exists d. split; auto. rewrite P. rewrite concat_app. cbn [concat app].
        rewrite app_nil_r, <- app_assoc. reflexivity.
    + exists (([] ++ l) ++ concat rs). split; auto. cbn [app]. apply Permutation_app_comm.
Qed.
End Bincode.

Lemma take_encoded {T} (c : codec T) dom : good c dom -> forall l s, Forall dom l ->
  take c (length l) (flat_map (enc c) l ++ s) = (l, Some s).
Proof.
  intros G. induction l as [|x l IH]; intros s H; [reflexivity|]. inversion H; subst.
  cbn [take length flat_map]. rewrite <- app_assoc, G by auto. rewrite IH by auto. reflexivity.
Qed.
Lemma flat_flat {T} (f : T -> list byte) m : flat_map (fun row => flat_map f row) m = flat_map f (concat m).
Proof. induction m as [|r m IH]; cbn; auto. rewrite flat_map_app, IH. reflexivity. Qed.
Lemma shape_concat {T} M N (m : list (list T)) : shape M N m -> length (concat m) = M * N.
Proof.
  intros [E H]. revert M E. induction H as [|r m Hr Hm IH]; intros M E; cbn in *; subst; auto.
  rewrite app_length, (IH (length m)) by auto. cbn. lia.
Qed.
Lemma app_inj_len {T} : forall (r r' a b : list T), length r = length r' -> r ++ a = r' ++ b -> r = r' /\ a = b.
Proof.
  induction r as [|x r IH]; intros [|x' r'] a b E C; try discriminate; auto. cbn in *. inversion C; subst.
  destruct (IH r' a b) as [-> ->]; auto.
Qed.
Lemma concat_inj {T} N : forall (m m' : list (list T)), Forall (fun r => length r = N) m -> Forall (fun r => length r = N) m' ->
  length m = length m' -> concat m = concat m' -> m = m'.
Proof.
  induction m as [|r m IH]; intros [|r' m'] H H' E C; try discriminate; auto. cbn in *.
  inversion H; inversion H'; subst. destruct (app_inj_len r r' _ _ ltac:(lia) C) as [-> C']. f_equal. apply IH; auto.
Qed.

(** *** C34: bincode *)
(** Whatever follows the encoding is left untouched; every size, every content. *)
Theorem C34_matrix_roundtrip : forall {T} (c : codec T) dom M N m suffix,
  good c dom -> shape M N m -> all dom m ->
  decode_matrix c M N (encode_matrix c m ++ suffix) = Ok m suffix.
Proof.
  intros T c dom M N m s G Sh D. unfold decode_matrix, encode_matrix. rewrite flat_flat.
  pose proof (decode_rows_spec c M N M (fun _ => None) [] (flat_map (enc c) (concat m) ++ s)) as P.
  specialize (P ltac:(cbn; lia) (le_n M) ltac:(intros; lia)).
  rewrite <- (shape_concat M N m Sh), (take_encoded c dom G) in P.
  - cbn [length] in P. destruct P as (rs & -> & Cc & [S1 S2]). cbn [app]. f_equal. destruct Sh as [L1 L2].
    apply (concat_inj N); auto; lia.
  - unfold all in D. clear - D. induction D; cbn; auto. apply Forall_app; auto.
Qed.
Theorem C34_matrix_injective : forall {T} (c : codec T) dom M N m m',
  good c dom -> shape M N m -> shape M N m' -> all dom m -> all dom m' ->
  encode_matrix c m = encode_matrix c m' -> m = m'.
Proof.
  intros T c dom M N m m' G S S' D D' E.
  pose proof (C34_matrix_roundtrip c dom M N m [] G S D) as R. rewrite E in R.
  rewrite (C34_matrix_roundtrip c dom M N m' [] G S' D') in R. inversion R; auto.
Qed.
Theorem C34_matrix_length : forall {T} (c : codec T) w M N m, (forall x, length (enc c x) = w) -> shape M N m ->
  length (encode_matrix c m) = M * N * w.
Proof.
  intros T c w M N m W Sh. unfold encode_matrix. rewrite flat_flat, <- (shape_concat M N m Sh).
  induction (concat m) as [|x l IH]; cbn; auto. rewrite app_length, W, IH. reflexivity.
Qed.
(** A decoded value always has the requested shape and consumed exactly the elements read. *)
Theorem C34_matrix_decode_shape : forall {T} (c : codec T) M N input m rest,
  decode_matrix c M N input = Ok m rest -> shape M N m /\ take c (M * N) input = (concat m, Some rest).
Proof.
  intros T c M N input m rest H.
  pose proof (decode_rows_spec c M N M (fun _ => None) [] input ltac:(cbn; lia) (le_n M) ltac:(intros; lia)) as P.
  unfold decode_matrix in H. cbn [length app] in P. destruct (take c (M * N) input) as [l [r|]].
  - destruct P as (rs & E & Cc & Sh). rewrite E in H. inversion H; subst. auto.
  - destruct P as (d & E & _). rewrite E in H. discriminate.
Qed.
Theorem C34_vector_roundtrip : forall {T} (c : codec T) dom v suffix, good c dom -> Forall dom v ->
  decode_vector c (length v) (encode_vector c v ++ suffix) = Some (v, suffix).
Proof.
  intros T c dom v s G. unfold encode_vector. induction v as [|x v IH]; intros D; [reflexivity|].
  inversion D; subst. cbn [length decode_vector flat_map]. rewrite <- app_assoc, G, IH by auto. reflexivity.
Qed.
Theorem C34_body_roundtrip : forall {T} (c : codec T) dom a b suffix, good c dom -> length a = 3 -> length b = 3 ->
  Forall dom a -> Forall dom b -> decode_body c (encode_body c (a, b) ++ suffix) = Some ((a, b), suffix).
Proof.
  intros T c dom a b s G La Lb Da Db. unfold decode_body, encode_body. cbn [fst snd]. rewrite <- app_assoc.
  rewrite <- La at 1. rewrite (C34_vector_roundtrip c dom) by auto. rewrite <- Lb at 1.
  rewrite (C34_vector_roundtrip c dom) by auto. reflexivity.
Qed.

(** The element codecs used: f64 and f32 bit patterns. *)
Lemma le_round n : forall z, (0 <= z < 256 ^ Z.of_nat n)%Z -> le_value (le_bytes n z) = z.
Proof.
  induction n as [|n IH]; intros z H; cbn [le_bytes le_value]; [cbn in H; lia|].
  rewrite IH; [pose proof (Z.div_mod z 256); lia|].
  rewrite Nat2Z.inj_succ, Z.pow_succ_r in H by lia. split; [apply Z.div_pos; lia|]. apply Z.div_lt_upper_bound; lia.
Qed.
Lemma le_length n : forall z, length (le_bytes n z) = n.
Proof. induction n; intros; cbn; auto. Qed.
Lemma dec_le_app n z s : (0 <= z < 256 ^ Z.of_nat n)%Z -> dec_le n (le_bytes n z ++ s) = Some (z, s).
Proof.
  intros H. unfold dec_le. rewrite app_length, le_length.
  destruct (Nat.leb_spec n (n + length s)); [|lia].
  rewrite firstn_app, skipn_app, le_length, Nat.sub_diag.
  rewrite (firstn_all2 (le_bytes n z)), (skipn_all2 (le_bytes n z)) by (rewrite le_length; lia).
  cbn [firstn skipn app]. rewrite app_nil_r, le_round by auto. reflexivity.
Qed.
Theorem C34_float_codecs : good f64_codec (fun z => 0 <= z < 2 ^ 64)%Z /\ good f32_codec (fun z => 0 <= z < 2 ^ 32)%Z /\
  (forall z, length (enc f64_codec z) = 8) /\ (forall z, length (enc f32_codec z) = 4).
Proof.
  split; [|split; [|split]].
  - intros z s H. apply dec_le_app. exact H.
  - intros z s H. apply dec_le_app. exact H.
  - intros z. apply le_length.
  - intros z. apply le_length.
Qed.
(* a 2x2 matrix of f64 bit patterns (1.0, 2.0, -0.0, NaN), followed by two more bytes *)
Example C34_nontrivial :
  let m := [[0x3FF0000000000000; 0x4000000000000000]; [0x8000000000000000; 0x7FF8000000000000]]%Z in
  decode_matrix f64_codec 2 2 (encode_matrix f64_codec m ++ [7; 9]%Z) = Ok m [7; 9]%Z /\
  length (encode_matrix f64_codec m) = 32 /\ decode_matrix f64_codec 2 2 (firstn 31 (encode_matrix f64_codec m)) =
    Err [0x8000000000000000; 0x3FF0000000000000; 0x4000000000000000]%Z [].
Proof. vm_compute. auto. Qed.

(** *** C34: serde *)
Section Serde.
Context {T L : Type} (ser : T -> L) (de : L -> option T).

(** the elements created while reading, until the first problem *)
Fixpoint created_row (N : nat) (items : list (sval L)) : list T :=
  match N, items with
  | S k, s :: t => match de_elem de s with Some v => v :: created_row k t | None => [] end
  | _, _ => []
  end.
(** a row is accepted iff it has exactly N elements and all of them deserialize *)
Fixpoint accept_row (N : nat) (items : list (sval L)) : option (list T) :=
  match N, items with
  | O, [] => Some []
  | S k, s :: t => match de_elem de s with Some v => option_map (cons v) (accept_row k t) | None => None end
  | _, _ => None
  end.
Definition accept_item (N : nat) (s : sval L) : option (list T) :=
  match s with Seq items => accept_row N items | Leaf _ => None end.
Fixpoint created (M N : nat) (rows : list (sval L)) : list T :=
  match M, rows with
  | S k, s :: t => (match s with Seq items => created_row N items | Leaf _ => [] end) ++
                   (match accept_item N s with Some _ => created k N t | None => [] end)
  | _, _ => []
  end.

Lemma accept_created N : forall items r, accept_row N items = Some r -> created_row N items = r /\ length r = N.
Proof.
  induction N as [|N IH]; intros [|s t] r H; cbn in *; try discriminate; [inversion H; auto|].
  destruct (de_elem de s); [|discriminate]. destruct (accept_row N t) as [r'|] eqn:E; [|discriminate].
  inversion H. destruct (IH t r' E) as [-> <-]. auto.
Qed.

Lemma visit_row_spec N : forall todo row pre items,
  length pre = N - todo -> todo <= N -> (forall i, i < N - todo -> row i = nth_error pre i) ->
  match accept_row todo items with
  | Some r => visit_row de N todo row (length pre) items = VOk (pre ++ r)
  | None => exists d l, visit_row de N todo row (length pre) items = VErr d l /\
              Permutation (d ++ l) (pre ++ created_row todo items)
  end.
Proof.
  induction todo as [|k IH]; intros row pre items E Ht Hs.
  - cbn [accept_row visit_row created_row]. destruct items as [|s t].
    + rewrite (read_filled N row pre), app_nil_r; auto; [lia|]. intros; apply Hs; lia.
    + rewrite (read_filled (length pre) row pre); auto; [|intros; apply Hs; lia].
      exists pre, []. split; auto.
  - cbn [accept_row visit_row created_row]. destruct items as [|s t].
    + rewrite (read_filled (length pre) row pre); auto; [|intros; apply Hs; lia].
      exists pre, []. split; auto.
    + destruct (de_elem de s) as [v|].
      * pose proof (IH (upd row (N - S k) (Some v)) (pre ++ [v]) t) as G.
        specialize (G ltac:(rewrite app_length; cbn; lia) ltac:(lia)).
        specialize (G ltac:(intros i Hi; apply fill_next; auto; lia)).
        rewrite app_length in G. cbn [length] in G. replace (length pre + 1) with (S (length pre)) in G by lia.
        destruct (accept_row k t) as [r|]; cbn [option_map].
        -- rewrite G, <- app_assoc. reflexivity.
        -- destruct G as (d & l & -> & P). exists d, l. split; auto. rewrite P, <- app_assoc. reflexivity.
      * rewrite (read_filled (length pre) row pre); auto; [|intros; apply Hs; lia].
        exists [], pre. split; auto. rewrite app_nil_r. reflexivity.
Qed.

Fixpoint accept_rows (M N : nat) (rows : list (sval L)) : option (list (list T)) :=
  match M, rows with
  | O, [] => Some []
  | S k, s :: t => match accept_item N s with Some r => option_map (cons r) (accept_rows k N t) | None => None end
  | _, _ => None
  end.

Lemma visit_rows_spec M N : forall todo rows rs items,
  length rs = M - todo -> todo <= M -> (forall i, i < M - todo -> rows i = nth_error rs i) ->
  match accept_rows todo N items with
  | Some m => visit_rows de M N todo rows (length rs) items = VOk (rs ++ m)
  | None => exists d l, visit_rows de M N todo rows (length rs) items = VErr d l /\
              Permutation (d ++ l) (concat rs ++ created todo N items)
  end.
Proof.
  induction todo as [|k IH]; intros rows rs items E Ht Hs.
  - cbn [accept_rows visit_rows created]. destruct items as [|s t].
    + rewrite (read_filled M rows rs), app_nil_r; auto; [lia|]. intros; apply Hs; lia.
    + rewrite (read_filled (length rs) rows rs); auto; [|intros; apply Hs; lia].
      exists (concat rs), []. split; auto.
  - cbn [accept_rows visit_rows created]. destruct items as [|s t].
    + rewrite (read_filled (length rs) rows rs); auto; [|intros; apply Hs; lia].
      exists (concat rs), []. split; auto.
    + assert (match accept_item N s with
        | Some r => (match s with Seq row => visit_row de N N (fun _ => None) 0 row | Leaf _ => VErr [] [] end) = VOk r
        | None => exists d l, (match s with Seq row => visit_row de N N (fun _ => None) 0 row | Leaf _ => VErr [] [] end) = VErr d l
             /\ Permutation (d ++ l) (match s with Seq items => created_row N items | Leaf _ => [] end)
        end) as RS.
      { destruct s as [x|row]; cbn [accept_item]; [exists [], []; split; auto|].
        pose proof (visit_row_spec N N (fun _ => None) [] row ltac:(cbn; lia) (le_n N) ltac:(intros; lia)) as G.
        exact G. }
      destruct (accept_item N s) as [r|] eqn:EA.
      * rewrite RS.
        pose proof (IH (upd rows (M - S k) (Some r)) (rs ++ [r]) t) as G.
        specialize (G ltac:(rewrite app_length; cbn; lia) ltac:(lia)).
        specialize (G ltac:(intros i Hi; apply fill_next; auto; lia)).
        rewrite app_length in G. cbn [length] in G. replace (length rs + 1) with (S (length rs)) in G by lia.
        destruct (accept_rows k N t) as [m|]; cbn [option_map].
        -- rewrite G, <- app_assoc. reflexivity.
        -- destruct G as (d & l & -> & P). exists d, l. split; auto. rewrite P, concat_app. cbn [concat].
           rewrite app_nil_r, <- app_assoc. apply Permutation_app_head. apply Permutation_app_tail.
           destruct s as [x|row]; [discriminate|]. cbn [accept_item] in EA. destruct (accept_created N row r EA) as [-> _]. reflexivity.
      * destruct RS as (d & l & -> & P).
        rewrite (read_filled (length rs) rows rs); auto; [|intros; apply Hs; lia].
        exists d, (l ++ concat rs). split; auto. rewrite app_nil_r, app_assoc, P. apply Permutation_app_comm.
Qed.

Lemma deserialize_spec M N s :
  match (match s with Seq rows => accept_rows M N rows | Leaf _ => None end) with
  | Some m => deserialize_matrix de M N s = VOk m
  | None => exists d l, deserialize_matrix de M N s = VErr d l /\
      Permutation (d ++ l) (match s with Seq rows => created M N rows | Leaf _ => [] end)
  end.
Proof.
  destruct s as [x|rows]; [exists [], []; split; [reflexivity|constructor]|].
  apply (visit_rows_spec M N M (fun _ => None) [] rows); cbn; intros; lia.
Qed.
End Serde.

Theorem C34_serde_roundtrip : forall {T L} (ser : T -> L) (de : L -> option T) M N m,
  (forall x, de (ser x) = Some x) -> shape M N m ->
  deserialize_matrix de M N (serialize_matrix ser m) = VOk m.
Proof.
  intros T L ser de M N m H [E Sh]. pose proof (deserialize_spec de M N (serialize_matrix ser m)) as G.
  unfold serialize_matrix in G at 1. cbn iota in G.
  replace (accept_rows de M N (map (fun row => Seq (map (fun x => Leaf (ser x)) row)) m)) with (Some m) in G; auto.
  clear G. symmetry. subst M. induction Sh as [|r m Hr Hm IH]; [reflexivity|].
  cbn [length map accept_rows accept_item]. rewrite IH. clear IH.
  replace (accept_row de N (map (fun x => Leaf (ser x)) r)) with (Some r); auto.
  symmetry. subst N. clear Hm. induction r as [|x r IH]; [reflexivity|]. cbn [length map accept_row de_elem].
  rewrite H, IH. reflexivity.
Qed.
(** Anything else than exactly M rows of exactly N good elements is rejected. *)
Theorem C34_serde_exact_shape : forall {T L} (de : L -> option T) M N s m,
  deserialize_matrix de M N s = VOk m ->
  shape M N m /\ exists leaves : list (list L),
    s = Seq (map (fun row => Seq (map Leaf row)) leaves) /\
    map (map de) leaves = map (map Some) m.
Proof.
  intros T L de M N s m H. pose proof (deserialize_spec de M N s) as G.
  destruct s as [x|rows]; [discriminate|].
  destruct (accept_rows de M N rows) as [m'|] eqn:E.
  2:{ destruct G as (d & l & G & _). rewrite G in H. discriminate. }
  rewrite G in H. inversion H; subst m'. clear H G.
  assert (forall N items r, accept_row de N items = Some r ->
    length r = N /\ exists lv, items = map Leaf lv /\ map de lv = map Some r) as Row.
  { clear. induction N as [|N IH]; intros [|s t] r H; cbn in H; try discriminate.
    - inversion H. split; auto. exists []. auto.
    - destruct s as [l|]; cbn in H; [|discriminate]. destruct (de l) as [v|] eqn:Ed; [|discriminate].
      destruct (accept_row de N t) as [r'|] eqn:E; [|discriminate]. inversion H; subst.
      destruct (IH t r' E) as (Ln & lv & -> & Mv). split; [cbn; auto|]. exists (l :: lv). cbn. rewrite Ed, Mv. auto. }
  revert rows m E. induction M as [|M IH]; intros [|s t] m E; cbn in E; try discriminate.
  - inversion E. split; [split; auto|]. exists []. auto.
  - destruct (accept_item de N s) as [r|] eqn:Er; [|discriminate].
    destruct (accept_rows de M N t) as [m'|] eqn:Em; [|discriminate]. inversion E; subst.
    destruct (IH t m' Em) as ([L1 L2] & lv & Es & Ml). destruct s as [l|items]; [discriminate|].
    destruct (Row N items r Er) as (Ln & lr & -> & Mr).
    split; [split; [cbn; auto|constructor; auto]|]. exists (lr :: lv). inversion Es. cbn. rewrite Mr, Ml. auto.
Qed.
Theorem C34_vector_serde_roundtrip : forall {T L} (ser : T -> L) (de : L -> option T) v,
  (forall x, de (ser x) = Some x) -> deserialize_vector de (length v) (serialize_vector ser v) = Some v.
Proof.
  intros T L ser de v H. unfold deserialize_vector, serialize_vector. induction v as [|x v IH]; [reflexivity|].
  cbn [length map visit_vector de_elem]. rewrite H, IH. reflexivity.
Qed.
(** The vector visitor itself accepts longer sequences and ignores the rest; unlike the matrix
    one it relies on the format to complain. *)
Theorem C34_vector_too_long_refuted : forall {T L} (ser : T -> L) (de : L -> option T) v extra,
  (forall x, de (ser x) = Some x) ->
  deserialize_vector de (length v) (Seq (map (fun x => Leaf (ser x)) v ++ extra)) = Some v.
Proof.
  intros T L ser de v extra H. unfold deserialize_vector. induction v as [|x v IH]; [reflexivity|].
  cbn [length map visit_vector de_elem app]. rewrite H, IH. reflexivity.
Qed.
Theorem C34_from_iterator : forall {T} N (items : list T),
  vector_from_iter N items = if Nat.eqb (length items) N then Some items else None.
Proof.
  unfold vector_from_iter. intros T. induction N as [|N IH]; intros [|x t]; cbn; auto.
  rewrite IH. destruct (length t =? N)%nat; reflexivity.
Qed.
Example C34_serde_nontrivial :
  let de := fun z : Z => if (z <? 0)%Z then None else Some z in
  deserialize_matrix de 2 1 (Seq [Seq [Leaf 1%Z]; Seq [Leaf 2%Z]]) = VOk [[1%Z]; [2%Z]] /\
  deserialize_matrix de 2 1 (Seq [Seq [Leaf 1%Z]; Seq [Leaf 2%Z; Leaf 3%Z]]) = VErr [2%Z] [1%Z] /\
  deserialize_matrix de 2 1 (Seq [Seq [Leaf 1%Z]]) = VErr [1%Z] [] /\
  deserialize_matrix de 2 1 (Seq [Seq [Leaf 1%Z]; Seq [Leaf 2%Z]; Seq []]) = VErr [1%Z; 2%Z] [].
Proof. vm_compute. auto. Qed.

(** *** C76: the unsafe construction code *)
(** For every input the binary decoder never reads an unwritten slot; when it fails, every
    element it created is dropped exactly once. *)
Theorem C76_decode_drops_exactly_once : forall {T} (c : codec T) M N input,
  match decode_matrix c M N input with
  | Ok m rest => concat m = fst (take c (M * N) input)
  | Err dropped leaked => leaked = [] /\ Permutation dropped (fst (take c (M * N) input))
  | UB => False
  end.
Proof.
  intros T c M N input.
  pose proof (decode_rows_spec c M N M (fun _ => None) [] input ltac:(cbn; lia) (le_n M) ltac:(intros; lia)) as P.
  unfold decode_matrix. cbn [length app] in P. destruct (take c (M * N) input) as [l [r|]]; cbn [fst].
  - destruct P as (rs & -> & Cc & _). exact Cc.
  - destruct P as (d & -> & Pm). split; auto.
Qed.
(** The serde visitor: no undefined behaviour, nothing dropped twice; every created element is
    either dropped or forgotten. *)
Theorem C76_serde_no_double_drop : forall {T L} (de : L -> option T) M N rows,
  match deserialize_matrix de M N (Seq rows) with
  | VOk m => concat m = created de M N rows
  | VErr dropped leaked => Permutation (dropped ++ leaked) (created de M N rows)
  | VUB => False
  end.
Proof.
  intros T L de M N rows. pose proof (deserialize_spec de M N (Seq rows)) as G. cbn iota in G.
  destruct (accept_rows de M N rows) as [m|] eqn:E.
  - rewrite G. clear G. revert rows m E. induction M as [|M IH]; intros [|s t] m E; cbn in E; try discriminate.
    + inversion E. reflexivity.
    + destruct (accept_item de N s) as [r|] eqn:Er; [|discriminate].
      destruct (accept_rows de M N t) as [m'|] eqn:Em; [|discriminate]. inversion E; subst.
      cbn [concat created]. rewrite Er, (IH t m' Em). f_equal. destruct s as [l|items]; [discriminate|].
      symmetry. apply (accept_created de N items r Er).
  - destruct G as (d & l & -> & P). exact P.
Qed.
(** Forgotten elements do occur: an element that fails to parse leaves the earlier ones undropped. *)
Theorem C76_serde_leaks_refuted : exists (de : Z -> option Z) M N rows leaked,
  deserialize_matrix de M N (Seq rows) = VErr [] leaked /\ length leaked = 3.
Proof.
  exists (fun z => if (z <? 0)%Z then None else Some z), 2, 2,
    [Seq [Leaf 1%Z; Leaf 2%Z]; Seq [Leaf 3%Z; Leaf (-1)%Z]], [3; 1; 2]%Z.
  split; reflexivity.
Qed.
Example C76_nontrivial :
  decode_matrix f32_codec 2 2 (le_bytes 4 5 ++ le_bytes 4 6 ++ le_bytes 4 7 ++ [1; 2]%Z) = Err [7; 5; 6]%Z [].
Proof. vm_compute. reflexivity. Qed.
