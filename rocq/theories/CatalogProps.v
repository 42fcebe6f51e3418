(** C98: loading a catalogue with a checksum.  C99: generating the magnetic coefficient tables. *)
From Coq Require Import NArith Arith List Bool Lia.
From Verif Require Import Text CatalogModel.
Import ListNotations.
Local Open Scope nat_scope.

(** * C98 *)
Section Load.
Context {Rec : Type} (digest : list N -> str) (rows : list N -> list (option Rec)).
(** Specification: the bytes of a file read without error, however they are split into reads *)
Inductive file_bytes : list read_result -> list N -> Prop :=
| FB_end : file_bytes [] []
| FB_eof rs : file_bytes (Bytes [] :: rs) []
| FB_read b bs rs r : file_bytes rs r -> file_bytes (Bytes (b :: bs) :: rs) (b :: bs ++ r).
(** Specification: two digests equal up to the case of the letters A to Z *)
Definition same_letter (c d : N) : Prop := c = d \/ (65 <= c <= 90 /\ d = c + 32)%N \/ (65 <= d <= 90 /\ c = d + 32)%N.
Definition same_hex (a b : str) : Prop := Forall2 same_letter a b.

Lemma same_letter_iff c d : to_lower c = to_lower d <-> same_letter c d.
Proof.
  unfold to_lower, same_letter. destruct (N.leb_spec 65 c), (N.leb_spec c 90), (N.leb_spec 65 d), (N.leb_spec d 90); cbn [andb]; lia.
Qed.
Lemma str_eqb_eq a b : str_eqb a b = true <-> a = b.
Proof. unfold str_eqb. destruct (list_eq_dec N.eq_dec a b); split; auto; discriminate. Qed.
Lemma eq_ignore_spec a b : eq_ignore_ascii_case a b = true <-> same_hex a b.
Proof.
  unfold eq_ignore_ascii_case, same_hex. rewrite str_eqb_eq. revert b. induction a as [|c a IH]; intros [|d b]; cbn [map]; split; intros H; try discriminate; try constructor; try (inversion H; fail).
  - injection H as H _. apply same_letter_iff, H.
  - injection H as _ H. apply IH, H.
  - inversion H; subst. f_equal; [apply same_letter_iff; assumption|apply IH; assumption].
Qed.
Lemma read_loop_spec rs : forall h, match read_loop rs h with Some bs => exists r, file_bytes rs r /\ bs = h ++ r | None => forall r, ~ file_bytes rs r end.
Proof.
  induction rs as [|[|[|b bs]] rs IH]; intros h; cbn.
  - exists []. rewrite app_nil_r. split; auto. constructor.
  - intros r H. inversion H.
  - exists []. rewrite app_nil_r. split; auto. constructor.
  - specialize (IH (h ++ b :: bs)). destruct (read_loop rs _) as [t|].
    + destruct IH as (r & H & ->). exists (b :: bs ++ r). split; [constructor; auto|]. rewrite <- app_assoc. reflexivity.
    + intros r H. inversion H; subst. eapply IH; eauto.
Qed.
Lemma file_bytes_fun rs a b : file_bytes rs a -> file_bytes rs b -> a = b.
Proof. intros H. revert b. induction H; intros b' H'; inversion H'; subst; auto. f_equal. f_equal. auto. Qed.
Lemma csv_bytes_spec rs : let (bs, e) := csv_bytes rs in (e = false -> file_bytes rs bs) /\ (e = true -> forall r, ~ file_bytes rs r).
Proof.
  induction rs as [|[|[|b bs]] rs IH]; cbn.
  - split; [constructor|discriminate].
  - split; [discriminate|intros _ r H; inversion H].
  - split; [constructor|discriminate].
  - destruct (csv_bytes rs) as [r e]. destruct IH as [I1 I2]. split; [intros E; constructor; auto|intros E r' H; inversion H; subst; eapply I2; eauto].
Qed.
(** Specification: the rows that deserialize, in order, and the number that do not *)
Definition good (rs : list (option Rec)) : list Rec := flat_map (fun r => match r with Some x => [x] | None => [] end) rs.
Definition bad (rs : list (option Rec)) : nat := length rs - length (good rs).
Lemma keep_spec rs : forall a n, keep_rows rs a n = (a ++ good rs, n + bad rs).
Proof.
  assert (L : forall l, length (good l) <= length l) by (induction l as [|[x|] l I]; cbn [good flat_map length app] in *; unfold good in *; lia).
  induction rs as [|[x|] rs IH]; intros a n; cbn [keep_rows].
  - unfold bad. cbn. rewrite app_nil_r. f_equal. lia.
  - rewrite IH. unfold bad. change (good (Some x :: rs)) with (x :: good rs). rewrite <- app_assoc. cbn [length app]. f_equal.
  - rewrite IH. unfold bad. change (good (None :: rs)) with (good rs). specialize (L rs). cbn [length]. f_equal. lia.
Qed.

(** the checksum test passes exactly for a readable file with the expected digest, however the reads are split *)
Theorem C98_checksum o expected :
  verify_catalog_checksum digest o expected = Loaded tt <->
  exists rs bs, o = Some rs /\ file_bytes rs bs /\ same_hex (digest bs) expected.
Proof.
  unfold verify_catalog_checksum. destruct o as [rs|]; [|split; [discriminate|intros (? & ? & ? & _); discriminate]].
  pose proof (read_loop_spec rs []) as H. destruct (read_loop rs []) as [t|].
  - destruct H as (r & H & ->). cbn [app]. destruct (eq_ignore_ascii_case (digest r) expected) eqn:E.
    + split; auto. intros _. exists rs, r. rewrite <- eq_ignore_spec. auto.
    + split; [discriminate|]. intros (rs' & bs & Q & H' & S). injection Q as <-. rewrite (file_bytes_fun _ _ _ H' H) in S. apply eq_ignore_spec in S. congruence.
  - split; [discriminate|]. intros (rs' & bs & Q & H' & _). injection Q as <-. contradiction (H bs H').
Qed.
Theorem C98_chunking rs rs' bs expected : file_bytes rs bs -> file_bytes rs' bs ->
  verify_catalog_checksum digest (Some rs) expected = verify_catalog_checksum digest (Some rs') expected.
Proof.
  intros H H'. unfold verify_catalog_checksum. pose proof (read_loop_spec rs []) as K. pose proof (read_loop_spec rs' []) as K'.
  destruct (read_loop rs []); [|contradiction (K bs H)]. destruct (read_loop rs' []); [|contradiction (K' bs H')].
  destruct K as (r & K & ->), K' as (r' & K' & ->). rewrite (file_bytes_fun _ _ _ K H), (file_bytes_fun _ _ _ K' H'). reflexivity.
Qed.
(** nothing is loaded on a wrong digest or an unreadable file, and the error says which it was *)
Theorem C98_rejects first second expected :
  ((forall rs bs, first = Some rs -> ~ file_bytes rs bs) ->
     from_csv_with_expected_sha256 digest rows first second expected = Failed IoError) /\
  (forall rs bs, first = Some rs -> file_bytes rs bs -> ~ same_hex (digest bs) expected ->
     from_csv_with_expected_sha256 digest rows first second expected = Failed ChecksumMismatch).
Proof.
  unfold from_csv_with_expected_sha256, verify_catalog_checksum. split.
  - intros H. destruct first as [rs|]; [|reflexivity]. pose proof (read_loop_spec rs []) as K. destruct (read_loop rs []); [|reflexivity].
    destruct K as (r & K & _). contradiction (H rs r eq_refl K).
  - intros rs bs -> Hb Hd. pose proof (read_loop_spec rs []) as K. destruct (read_loop rs []) as [t|]; [|contradiction (K bs Hb)].
    destruct K as (r & K & ->). rewrite (file_bytes_fun _ _ _ K Hb). cbn [app]. destruct (eq_ignore_ascii_case (digest bs) expected) eqn:E; [|reflexivity].
    apply eq_ignore_spec in E. contradiction.
Qed.
(** when both openings of the path read the same bytes without error, the records are exactly the rows of the checked file that deserialize, in order *)
Theorem C98_records_partial rs1 rs2 bs expected records skipped : file_bytes rs1 bs -> file_bytes rs2 bs ->
  (from_csv_with_expected_sha256 digest rows (Some rs1) (Some rs2) expected = Loaded (records, skipped) <->
   same_hex (digest bs) expected /\ records = good (rows bs) /\ skipped = bad (rows bs)).
Proof.
  intros H1 H2. unfold from_csv_with_expected_sha256. destruct (verify_catalog_checksum digest (Some rs1) expected) as [[]|e] eqn:E.
  - apply C98_checksum in E. destruct E as (rs & bs' & Q & H1' & S). injection Q as <-. rewrite (file_bytes_fun _ _ _ H1' H1) in S.
    cbn [from_csv]. pose proof (csv_bytes_spec rs2) as C. destruct (csv_bytes rs2) as [b er]. destruct C as [C1 C2]. destruct er; [contradiction (C2 eq_refl bs H2)|].
    rewrite (file_bytes_fun _ _ _ (C1 eq_refl) H2), app_nil_r, keep_spec. cbn [app]. rewrite Nat.add_0_l. split; [intros Q; injection Q as <- <-; auto|intros (_ & -> & ->); auto].
  - split; [discriminate|]. intros (S & _). assert (X : verify_catalog_checksum digest (Some rs1) expected = Loaded tt) by (apply C98_checksum; eauto). congruence.
Qed.
End Load.
(** Refuted: if the file is replaced between the check and the load, records that were never checked are returned *)
Theorem C98_replaced_refuted : exists (digest : list N -> str) (rows : list N -> list (option N)) bs bs' expected records skipped,
  same_hex (digest bs) expected /\ ~ same_hex (digest bs') expected /\
  from_csv_with_expected_sha256 digest rows (Some [Bytes bs]) (Some [Bytes bs']) expected = Loaded (records, skipped) /\
  records = good (rows bs') /\ records <> good (rows bs).
Proof.
  exists (fun bs => bs), (fun bs => map Some bs), [97%N; 49%N], [98%N; 50%N; 51%N], [65%N; 49%N], [98%N; 50%N; 51%N], 0.
  split; [constructor; [right; right; lia|constructor; [left; reflexivity|constructor]]|]. split; [|split; [reflexivity|split; [reflexivity|discriminate]]].
  intros A. inversion A as [|? ? ? ? _ B]. inversion B as [|? ? ? ? _ C]. inversion C.
Qed.
(** Refuted: a read error during the load is not reported: the rows before it are returned as if they were all *)
Theorem C98_read_error_refuted : exists (digest : list N -> str) (rows : list N -> list (option N)) bs expected records skipped,
  same_hex (digest bs) expected /\
  from_csv_with_expected_sha256 digest rows (Some [Bytes bs]) (Some [Bytes (firstn 1 bs); ReadErr]) expected = Loaded (records, skipped) /\
  records <> good (rows bs).
Proof.
  exists (fun bs => bs), (fun bs => map Some bs), [97%N; 49%N], [65%N; 49%N], [97%N], 1.
  split; [constructor; [right; right; lia|constructor; [left; reflexivity|constructor]]|]. split; [reflexivity|discriminate].
Qed.
Example C98_nontrivial : exists (rs1 rs2 : list read_result) (bs : list N), rs1 <> rs2 /\ file_bytes rs1 bs /\ file_bytes rs2 bs /\ length bs = 3 /\
  verify_catalog_checksum (fun bs => bs) (Some rs1) [65%N; 98%N; 67%N] = Loaded tt.
Proof.
  exists [Bytes [97%N; 98%N]; Bytes [99%N]], [Bytes [97%N]; Bytes [98%N; 99%N]; Bytes []; Bytes [1%N]], [97%N; 98%N; 99%N].
  split; [discriminate|]. split; [apply (FB_read 97 [98%N] _ [99%N]); apply (FB_read 99 [] [] []); constructor|].
  split; [apply (FB_read 97 [] _ [98%N; 99%N]); apply (FB_read 98 [99%N] _ []); constructor|]. split; reflexivity.
Qed.

(** * C99 *)
Section Wmm.
Context {F : Type} (fzero : F) (parse_usize : str -> option N) (parse_f64 : str -> option F).
Local Notation coef := (coefficient (F:=F)).
Local Notation st := (state (F:=F)).
(** Specification: a data line starts with a digit and has six words; how it reads *)
Definition data_line (l : str) : bool :=
  match trim l with c :: _ => is_ascii_digit c && (length (split_whitespace (trim l)) =? 6) | [] => false end.
Definition reads (l : str) (c : coef) : Prop :=
  exists t0 t1 t2 t3 t4 t5, split_whitespace (trim l) = [t0; t1; t2; t3; t4; t5] /\
  parse_usize t0 = Some (k_degree c) /\ parse_usize t1 = Some (k_order c) /\ parse_f64 t2 = Some (k_g c) /\
  parse_f64 t3 = Some (k_h c) /\ parse_f64 t4 = Some (k_g_dot c) /\ parse_f64 t5 = Some (k_h_dot c).
(** Specification: the last record of a degree and order, from the front of the list *)
Definition last_of (n m : N) (l : list coef) (pick : coef -> F) : F :=
  match find (fun c => (k_degree c =? n) && (k_order c =? m))%N (rev l) with Some c => pick c | None => fzero end.
(** Specification: place of degree [n], order [m] in the triangle, counting row by row *)
Definition place (n m : N) : nat := N.to_nat (n * (n + 1) / 2 + m).

Lemma put_length (l : list F) : forall i v, length (put l i v) = length l.
Proof. induction l as [|x l IH]; intros [|i] v; cbn; auto. Qed.
Lemma put_nth (l : list F) : forall i v j d, (i < length l) -> nth j (put l i v) d = if j =? i then v else nth j l d.
Proof.
  induction l as [|x l IH]; intros i v j d H; [cbn in H; lia|]. destruct i as [|i], j as [|j]; cbn; auto. cbn in H. rewrite IH by lia. reflexivity.
Qed.
Lemma tri_step n : (n * (n + 1) / 2 + n + 1 = (n + 1) * (n + 1 + 1) / 2)%N.
Proof. replace ((n + 1) * (n + 1 + 1))%N with (n * (n + 1) + (n + 1) * 2)%N by lia. rewrite N.div_add by lia. lia. Qed.
Lemma tri_mono a : forall b, (a <= b)%N -> (a * (a + 1) / 2 <= b * (b + 1) / 2)%N.
Proof. intros b H. apply N.div_le_mono; [lia|]. nia. Qed.
Lemma place_inj n m n' m' : (m <= n)%N -> (m' <= n')%N -> place n m = place n' m' -> n = n' /\ m = m'.
Proof.
  unfold place. intros H H' E. apply N2Nat.inj in E. assert (n = n'); [|subst; lia].
  destruct (N.lt_trichotomy n n') as [L|[L|L]]; auto; exfalso.
  - pose proof (tri_mono (n + 1) n' ltac:(lia)). pose proof (tri_step n). lia.
  - pose proof (tri_mono (n' + 1) n ltac:(lia)). pose proof (tri_step n'). lia.
Qed.
Lemma index_small checks d o i : (d <= 12)%N -> (o <= d)%N -> triangular_index checks d o = Some i -> N.to_nat i = place d o.
Proof.
  intros Hd Ho. assert (B : (d * (d + 1) <= 156)%N) by nia. assert (B' : (d * (d + 1) / 2 <= 78)%N) by (change 78%N with (156 / 2)%N; apply N.div_le_mono; lia).
  unfold triangular_index, place. destruct checks.
  - destruct ((_ <? _) && _)%N; [|discriminate]. intros H. injection H as <-. reflexivity.
  - intros H. injection H as <-. unfold wrap. rewrite (N.mod_small (d + 1)) by lia. rewrite (N.mod_small (d * (d + 1))) by lia. rewrite N.mod_small by lia. reflexivity.
Qed.

(** the invariant of the line loop; it speaks about degrees up to 12 only, because the final assertion rejects the others *)
Definition table_ok (l : list coef) (t : list F) (pick : coef -> F) : Prop :=
  length t = 91 /\ forall n m, (n <= 12)%N -> (m <= n)%N -> nth (place n m) t fzero = last_of n m l pick.
Definition inv (done : list str) (s : st) : Prop :=
  Forall2 reads (filter data_line done) (s_records s) /\ Forall (fun c => (k_order c <= k_degree c)%N) (s_records s) /\
  Forall (fun c => (k_degree c <= s_max s)%N) (s_records s) /\
  ((s_max s <= 12)%N -> table_ok (s_records s) (t_g (s_tables s)) k_g /\ table_ok (s_records s) (t_h (s_tables s)) k_h /\
     table_ok (s_records s) (t_g_dot (s_tables s)) k_g_dot /\ table_ok (s_records s) (t_h_dot (s_tables s)) k_h_dot).
Lemma nth_repeat_any (x : F) k : forall j, nth j (repeat x k) x = x.
Proof. induction k; intros [|j]; cbn; auto. Qed.
Lemma inv_start : inv [] (start fzero).
Proof.
  split; [constructor|]. split; [constructor|]. split; [constructor|]. intros _. cbn [start s_records s_tables t_g t_h t_g_dot t_h_dot].
  assert (K : forall pick, table_ok [] (repeat fzero (N.to_nat triangular_count)) pick).
  { intros pick. split; [rewrite repeat_length; reflexivity|]. intros n m _ _. rewrite nth_repeat_any. reflexivity. }
  auto.
Qed.
Lemma place_lt n m : (n <= 12)%N -> (m <= n)%N -> place n m < 91.
Proof.
  intros A B. unfold place. assert (n * (n + 1) / 2 <= 78)%N by (change 78%N with (156 / 2)%N; apply N.div_le_mono; [lia|nia]). lia.
Qed.
Lemma table_step l t pick c : (k_degree c <= 12)%N -> (k_order c <= k_degree c)%N -> table_ok l t pick ->
  table_ok (l ++ [c]) (put t (place (k_degree c) (k_order c)) (pick c)) pick.
Proof.
  intros A B [L H]. split; [rewrite put_length; auto|]. intros n m Hn Hm. rewrite put_nth by (rewrite L; apply place_lt; auto).
  unfold last_of. rewrite rev_app_distr. cbn [rev app find]. destruct (place n m =? place (k_degree c) (k_order c)) eqn:E.
  - apply Nat.eqb_eq in E. apply place_inj in E; auto. destruct E as [-> ->]. rewrite !N.eqb_refl. reflexivity.
  - destruct ((k_degree c =? n) && (k_order c =? m))%N eqn:Q.
    + apply andb_true_iff in Q. rewrite !N.eqb_eq in Q. destruct Q as [<- <-]. rewrite Nat.eqb_refl in E. discriminate.
    + apply H; auto.
Qed.
Lemma filter_snoc (f : str -> bool) l x : filter f (l ++ [x]) = filter f l ++ if f x then [x] else [].
Proof. rewrite filter_app. cbn. destruct (f x); reflexivity. Qed.
Lemma step_inv checks done raw s s' : inv done s -> line_step parse_usize parse_f64 checks raw s = Some s' -> inv (done ++ [raw]) s'.
Proof.
  intros (R & O & M & T) H. unfold line_step in H.
  assert (Skip : data_line raw = false -> s' = s -> inv (done ++ [raw]) s').
  { intros D ->. unfold inv. rewrite filter_snoc, D, app_nil_r. auto. }
  unfold data_line in Skip. destruct (trim raw) as [|c0 l0] eqn:Et; [injection H as <-; auto|]. destruct (is_ascii_digit c0) eqn:Ed; cbn [negb] in H; [|injection H as <-; auto].
  cbn [andb] in Skip. destruct (split_whitespace (c0 :: l0)) as [|t0 [|t1 [|t2 [|t3 [|t4 [|t5 [|t6 ts]]]]]]] eqn:Ew; try (injection H as <-; apply Skip; reflexivity). clear Skip.
  destruct (parse_usize t0) as [d|] eqn:P0; [|discriminate]. destruct (parse_usize t1) as [o|] eqn:P1; [|discriminate].
  destruct (o <=? d)%N eqn:Hod; cbn [negb] in H; [|discriminate]. apply N.leb_le in Hod.
  destruct (parse_f64 t2) as [a2|] eqn:P2; [|discriminate]. destruct (parse_f64 t3) as [a3|] eqn:P3; [|discriminate].
  destruct (parse_f64 t4) as [a4|] eqn:P4; [|discriminate]. destruct (parse_f64 t5) as [a5|] eqn:P5; [|discriminate].
  destruct (triangular_index checks d o) as [i|] eqn:Ei; [|discriminate]. destruct (i <? triangular_count)%N eqn:Hi; cbn [negb] in H; [|discriminate]. injection H as <-.
  set (c := mkCoef d o a2 a3 a4 a5).
  unfold inv. cbn [s_records s_tables s_max t_g t_h t_g_dot t_h_dot]. split; [|split; [|split]].
  - rewrite filter_snoc. unfold data_line at 2. rewrite Et, Ed, Ew. cbn [length Nat.eqb andb]. apply Forall2_app; auto. constructor; [|constructor].
    exists t0, t1, t2, t3, t4, t5. rewrite Et. auto 10.
  - apply Forall_app. split; auto.
  - apply Forall_app. split; [|constructor; [cbn; lia|constructor]]. eapply Forall_impl; [|exact M]. cbn. intros x Hx. lia.
  - intros Hmax. assert (Hd : (d <= 12)%N) by lia. rewrite (index_small checks d o i Hd Hod Ei). destruct T as (T1 & T2 & T3 & T4); [lia|].
    split; [exact (table_step _ _ k_g c Hd Hod T1)|]. split; [exact (table_step _ _ k_h c Hd Hod T2)|]. split; [exact (table_step _ _ k_g_dot c Hd Hod T3)|exact (table_step _ _ k_h_dot c Hd Hod T4)].
Qed.
Lemma loop_inv checks ls : forall done s s', inv done s -> line_loop parse_usize parse_f64 checks ls s = Some s' -> inv (done ++ ls) s'.
Proof.
  induction ls as [|l ls IH]; intros done s s' I H; cbn in H; [injection H as <-; rewrite app_nil_r; auto|].
  destruct (line_step parse_usize parse_f64 checks l s) as [s1|] eqn:E; [|discriminate]. apply step_inv with (1 := I) in E. specialize (IH _ _ _ E H). rewrite <- app_assoc in IH. exact IH.
Qed.
(** the generated file lists the data lines in order, all of degree at most 12, and the tables hold the last record of each harmonic *)
Theorem C99_tables_partial checks contents g : render_wmm_include fzero parse_usize parse_f64 checks contents = Some g ->
  Forall2 reads (filter data_line (tl (lines contents))) (gen_records g) /\ length (gen_records g) = 90 /\
  (forall c, In c (gen_records g) -> (k_order c <= k_degree c <= 12)%N) /\
  (exists c, In c (gen_records g) /\ k_degree c = 12%N) /\
  forall n m, (n <= 12)%N -> (m <= n)%N ->
    nth (place n m) (t_g (gen_tables g)) fzero = last_of n m (gen_records g) k_g /\ nth (place n m) (t_h (gen_tables g)) fzero = last_of n m (gen_records g) k_h /\
    nth (place n m) (t_g_dot (gen_tables g)) fzero = last_of n m (gen_records g) k_g_dot /\ nth (place n m) (t_h_dot (gen_tables g)) fzero = last_of n m (gen_records g) k_h_dot.
Proof.
  unfold render_wmm_include. destruct (filter _ _) as [|h hs]; [discriminate|]. destruct (split_whitespace h) as [|t0 [|t1 [|t2 ts]]]; try discriminate.
  destruct (parse_f64 t0) as [ep|]; [|discriminate]. destruct (line_loop parse_usize parse_f64 checks (tl (lines contents)) (start fzero)) as [s|] eqn:E; [|discriminate].
  destruct (s_max s =? max_degree_const)%N eqn:Em; cbn [negb]; [|discriminate]. destruct (length (s_records s) =? record_count) eqn:El; cbn [negb]; [|discriminate].
  intros H. injection H as <-. cbn [gen_records gen_tables]. apply N.eqb_eq in Em. apply Nat.eqb_eq in El. unfold max_degree_const in Em.
  assert (X : forall ls s0 s1, line_loop parse_usize parse_f64 checks ls s0 = Some s1 -> s_max s1 = s_max s0 \/ exists c, In c (s_records s1) /\ k_degree c = s_max s1).
  { clear. induction ls as [|l ls IH]; intros s0 s1 H; cbn in H; [injection H as <-; auto|]. destruct (line_step parse_usize parse_f64 checks l s0) as [s2|] eqn:E; [|discriminate].
    assert (Y : s2 = s0 \/ exists c, In c (s_records s2) /\ s_max s2 = N.max (s_max s0) (k_degree c)).
    { unfold line_step in E. repeat match type of E with context [match ?x with _ => _ end] => destruct x; try discriminate; try (injection E as <-; left; reflexivity) end.
      all: injection E as <-; right; eexists; split; [cbn [s_records]; apply in_or_app; right; left; reflexivity|reflexivity]. }
    assert (Z : forall ls s s', line_loop parse_usize parse_f64 checks ls s = Some s' -> forall c, In c (s_records s) -> In c (s_records s')).
    { clear. induction ls as [|l ls IH]; intros s s' H c I; cbn in H; [injection H as <-; auto|]. destruct (line_step parse_usize parse_f64 checks l s) as [s2|] eqn:E; [|discriminate].
      apply (IH _ _ H). unfold line_step in E. repeat match type of E with context [match ?x with _ => _ end] => destruct x; try discriminate; try (injection E as <-; exact I) end.
      all: injection E as <-; cbn [s_records]; apply in_or_app; left; exact I. }
    destruct (IH _ _ H) as [Q|Q]; [|auto]. destruct Y as [->|(c & I & Y)]; [auto|]. rewrite Q, Y.
    destruct (N.max_spec (s_max s0) (k_degree c)) as [[_ V]|[_ V]]; rewrite V; [right; exists c; split; auto; eapply Z; eauto|left; auto]. }
  pose proof (loop_inv checks _ [] _ _ inv_start E) as (R & O & M & T). cbn [app] in R. rewrite Em in T. destruct (T ltac:(lia)) as ([_ T1] & [_ T2] & [_ T3] & [_ T4]).
  split; auto. split; [exact El|]. split.
  - intros c I. rewrite Forall_forall in O, M. specialize (O c I). specialize (M c I). lia.
  - split; [|auto]. destruct (X _ _ _ E) as [Q|Q]; [rewrite Em in Q; discriminate Q|rewrite Em in Q; exact Q].
Qed.
(** a file with a harmonic of degree above 12 or of order above its degree stops the build, whether or not overflow is checked *)
Theorem C99_rejects checks contents l c : In l (tl (lines contents)) -> data_line l = true -> (forall c', reads l c' -> c' = c) ->
  (12 < k_degree c \/ k_degree c < k_order c)%N -> render_wmm_include fzero parse_usize parse_f64 checks contents = None.
Proof.
  intros I D U B. destruct (render_wmm_include fzero parse_usize parse_f64 checks contents) as [g|] eqn:E; auto. exfalso.
  apply C99_tables_partial in E. destruct E as (R & _ & O & _).
  assert (I' : In l (filter data_line (tl (lines contents)))) by (apply filter_In; auto).
  assert (X : exists c', In c' (gen_records g) /\ reads l c').
  { clear -R I'. induction R; [destruct I'|]. destruct I' as [<-|I']; [exists y; split; [left|]; auto|]. destruct (IHR I') as (c' & ? & ?). exists c'. split; [right|]; auto. }
  destruct X as (c' & J & Rd). apply U in Rd. subst c'. specialize (O c J). lia.
Qed.
(** if no harmonic is listed twice and the constant one is not listed, then every harmonic from 1,0 to 12,12 is listed exactly once *)
Definition harmonic (c : coef) : N * N := (k_degree (F:=F) c, k_order c).
Definition row (n : nat) : list (N * N) := map (fun m => (N.of_nat n, N.of_nat m)) (seq 0 (n + 1)).
Definition all_harmonics : list (N * N) := flat_map row (seq 1 12).
Theorem C99_complete_partial checks contents g : render_wmm_include fzero parse_usize parse_f64 checks contents = Some g ->
  NoDup (map harmonic (gen_records g)) -> ~ In (0%N, 0%N) (map harmonic (gen_records g)) ->
  forall n m, (1 <= n <= 12)%N -> (m <= n)%N -> exists c, In c (gen_records g) /\ k_degree c = n /\ k_order c = m /\
    nth (place n m) (t_g (gen_tables g)) fzero = k_g c /\ nth (place n m) (t_h (gen_tables g)) fzero = k_h c.
Proof.
  intros E ND N0 n m Hn Hm. destruct (C99_tables_partial _ _ _ E) as (_ & L & O & _ & T).
  assert (Inc : incl (map harmonic (gen_records g)) all_harmonics).
  { intros [a b] I. pose proof I as I'. apply in_map_iff in I'. destruct I' as (c & Q & Ic). injection Q as <- <-. specialize (O c Ic). unfold all_harmonics. apply in_flat_map.
    exists (N.to_nat (k_degree c)). split.
    - apply in_seq. destruct (N.eq_dec (k_degree c) 0) as [Z|Z]; [|lia]. exfalso. apply N0. rewrite Z in I. assert (k_order c = 0%N) by lia. rewrite H in I. exact I.
    - unfold row. apply in_map_iff. exists (N.to_nat (k_order c)). rewrite !N2Nat.id. split; auto. apply in_seq. lia. }
  assert (Full : incl all_harmonics (map harmonic (gen_records g))).
  { apply NoDup_length_incl; auto. rewrite map_length, L. reflexivity. }
  assert (I : In (n, m) all_harmonics).
  { unfold all_harmonics. apply in_flat_map. exists (N.to_nat n). split; [apply in_seq; lia|]. unfold row. apply in_map_iff. exists (N.to_nat m). rewrite !N2Nat.id. split; auto. apply in_seq. lia. }
  apply Full in I. apply in_map_iff in I. destruct I as (c & Q & Ic). unfold harmonic in Q. injection Q as Qn Qm. exists c. split; auto. split; auto. split; auto.
  assert (Fd : find (fun c0 => (k_degree c0 =? n) && (k_order c0 =? m))%N (rev (gen_records g)) = Some c).
  { destruct (find _ _) as [c'|] eqn:Ef.
    - apply find_some in Ef. destruct Ef as [I' Q']. apply in_rev in I'. apply andb_true_iff in Q'. rewrite !N.eqb_eq in Q'. destruct Q' as [Q1 Q2]. f_equal.
      clear -ND Ic I' Qn Qm Q1 Q2. induction (gen_records g) as [|x l IH]; [destruct Ic|]. cbn in ND. inversion ND as [|? ? N1 N2]; subst.
      assert (E : harmonic c' = harmonic c) by (unfold harmonic; congruence).
      destruct Ic as [->|Ic], I' as [->|I']; auto.
      + contradiction N1. rewrite <- E. apply in_map, I'.
      + contradiction N1. rewrite E. apply in_map, Ic.
    - exfalso. assert (In c (rev (gen_records g))) by (rewrite <- in_rev; auto). eapply find_none in Ef; eauto. rewrite Qn, Qm, !N.eqb_refl in Ef. discriminate. }
  destruct (T n m ltac:(lia) Hm) as (T1 & T2 & _). unfold last_of in T1, T2. rewrite Fd in T1, T2. auto.
Qed.
End Wmm.

(** a decimal reader for the witnesses *)
Definition digits (s : str) : option N :=
  fold_left (fun a c => match a with Some v => if is_ascii_digit c then Some (v * 10 + (c - 48))%N else None | None => None end) s (match s with [] => None | _ => Some 0%N end).
(** "1 a b" and [k] times "12 0 1 2 3 4", in code points *)
Definition dup_text (k : nat) : str := ([49; 32; 97; 32; 98; 10] ++ concat (repeat [49; 50; 32; 48; 32; 49; 32; 50; 32; 51; 32; 52; 10] k))%N.
(** Refuted: a file that lists one harmonic 90 times and no other is accepted *)
Theorem C99_missing_refuted : exists contents g, render_wmm_include 0%N digits digits true contents = Some g /\
  forall c, In c (gen_records g) -> k_degree c <> 1%N.
Proof.
  exists (dup_text 90). eexists. split; [vm_compute; reflexivity|]. intros c I. cbn in I. repeat (destruct I as [<-|I]; [discriminate|]). destruct I.
Qed.
Example C99_nontrivial : data_line [49; 50; 32; 48; 32; 49; 32; 50; 32; 51; 32; 52]%N = true /\
  reads digits digits [49; 50; 32; 48; 32; 49; 32; 50; 32; 51; 32; 52]%N (mkCoef 12 0 1 2 3 4)%N /\
  render_wmm_include 0%N digits digits true (dup_text 89) = None.
Proof.
  split; [reflexivity|]. split; [do 6 eexists; split; [reflexivity|]; repeat split|vm_compute; reflexivity].
Qed.
