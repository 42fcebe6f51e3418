(** Printed vectors, matrices, rotations and positions can be read back: C124. *)
From Coq Require Import Ascii String NArith List Bool Arith Lia.
Import ListNotations.
From Verif Require Import Text CatalogModel PrintModel.
Local Notation length := List.length.

(** ** Specification *)
(** the text of one number: not empty, no white space, comma, semicolon or square bracket *)
Definition plain (s : str) : Prop := s <> [] /\ forall c, In c s -> is_ws c = false /\ c <> 44%N /\ c <> 59%N /\ c <> 91%N /\ c <> 93%N.
(** what stands between the opening and closing bracket [ ] *)
Definition bracketed (s body : str) : Prop := s = text "[" ++ body ++ text "]".
(** rows end at semicolons, entries are the words of a row *)
Definition read_rows (body : str) : list (list str) := map split_whitespace (split_on 59 body).
(** entries between commas, without the blanks around them *)
Definition read_commas (body : str) : list str := map trim (split_on 44 body).

(** ** Proofs *)
Section P.
Context {T : Type} (show : T -> str) (Hs : forall x, plain (show x)).

Lemma words_run s cur rest : (forall c, In c s -> is_ws c = false) -> words_from (s ++ rest) cur = words_from rest (rev s ++ cur).
Proof.
  revert cur. induction s as [|c s IH]; intros cur H; cbn [app rev]; auto.
  cbn [words_from]. rewrite (H c) by (left; auto). rewrite IH by (intros; apply H; right; auto). rewrite <- app_assoc. reflexivity.
Qed.
Lemma words_plain s rest : plain s -> words_from (s ++ 32%N :: rest) [] = s :: words_from rest [].
Proof.
  intros [H1 H2]. rewrite words_run by (intros; apply H2; auto). cbn [words_from].
  change (is_ws 32) with true. cbn iota. rewrite app_nil_r. destruct (rev s) eqn:E.
  - exfalso. apply H1. apply (f_equal (@rev N)) in E. rewrite rev_involutive in E. exact E.
  - rewrite <- E, rev_involutive. reflexivity.
Qed.
Lemma words_last s : plain s -> words_from s [] = [s].
Proof.
  intros [H1 H2]. rewrite <- (app_nil_r s) at 1. rewrite words_run by (intros; apply H2; auto). cbn [words_from]. rewrite app_nil_r. destruct (rev s) eqn:E.
  - exfalso. apply H1. apply (f_equal (@rev N)) in E. rewrite rev_involutive in E. exact E.
  - rewrite <- E, rev_involutive. reflexivity.
Qed.

Lemma row_words i l n : n = (i + length l)%nat -> split_whitespace (items show (text " ") n i l) = map show l.
Proof.
  unfold split_whitespace. revert i. induction l as [|x l IH]; intros i E; cbn [items map]; auto.
  cbn [length] in E. destruct l as [|y l].
  - destruct (Nat.ltb_spec i (n - 1)); [cbn [length] in E; lia|]. cbn [items app map]. rewrite app_nil_r. apply words_last, Hs.
  - destruct (Nat.ltb_spec i (n - 1)); [|cbn [length] in E; lia].
    change (text " " ++ items show (text " ") n (S i) (y :: l)) with (32%N :: items show (text " ") n (S i) (y :: l)).
    rewrite words_plain by apply Hs. f_equal. apply IH. lia.
Qed.
Lemma row_clean i l n c : In c (items show (text " ") n i l) -> c <> 44%N /\ c <> 59%N /\ c <> 91%N /\ c <> 93%N.
Proof.
  revert i. induction l as [|x l IH]; intros i; cbn [items]; [intros []|].
  rewrite !in_app_iff. intros [H|[H|H]].
  - apply (Hs x) in H. tauto.
  - destruct (i <? n - 1)%nat; [|destruct H]. destruct H as [<-|[]]. repeat split; discriminate.
  - eapply IH; eauto.
Qed.

Lemma split_skip sep s rest : ~ In sep s -> split_on sep (s ++ rest) = match split_on sep rest with p :: ps => (s ++ p) :: ps | [] => [s] end.
Proof.
  induction s as [|c s IH]; intros H; cbn [app].
  - destruct (split_on sep rest) eqn:E; auto. destruct rest as [|a r]; cbn in E; [discriminate|].
    destruct (a =? sep)%N; [discriminate|]. destruct (split_on sep r); discriminate.
  - cbn [split_on]. destruct (N.eqb_spec c sep) as [->|Ne]; [exfalso; apply H; left; auto|].
    rewrite IH by (intros Q; apply H; right; auto). destruct (split_on sep rest); auto.
Qed.
Lemma split_clean sep s : ~ In sep s -> split_on sep s = [s].
Proof. intros H. rewrite <- (app_nil_r s) at 1. rewrite split_skip by auto. cbn [split_on]. rewrite app_nil_r. reflexivity. Qed.

Lemma ws_lead s : split_whitespace (32%N :: s) = split_whitespace s.
Proof. reflexivity. Qed.

Lemma matrix_rows n i (m : list (list T)) k : k = (i + length m)%nat -> m <> [] -> (forall row, In row m -> length row = n) ->
  read_rows (items (fun row => items show (text " ") n 0 row) (text "; ") k i m) = map (map show) m /\
  read_rows (32%N :: items (fun row => items show (text " ") n 0 row) (text "; ") k i m) = map (map show) m.
Proof.
  revert i. induction m as [|r m IH]; intros i E Hne Hr; [contradiction|]. cbn [items].
  assert (Hn : length r = n) by (apply Hr; left; auto).
  set (txt := items show (text " ") n 0 r).
  assert (Cl : ~ In 59%N txt) by (intros Q; apply row_clean in Q; tauto).
  assert (Cl2 : ~ In 59%N (32%N :: txt)) by (intros [Q|Q]; [discriminate|auto]).
  assert (W : split_whitespace txt = map show r) by (apply row_words; auto).
  cbn [length] in E. unfold read_rows. destruct m as [|r2 m].
  - destruct (Nat.ltb_spec i (k - 1)); [cbn [length] in E; lia|]. cbn [items app map]. rewrite app_nil_r.
    rewrite (split_clean 59 txt), (split_clean 59 (32%N :: txt)) by auto. cbn [map]. rewrite ws_lead, W. split; reflexivity.
  - destruct (Nat.ltb_spec i (k - 1)); [|cbn [length] in E; lia].
    set (rest := items _ _ k (S i) (r2 :: m)).
    destruct (IH (S i)) as [_ I2]; [lia|discriminate|intros; apply Hr; right; auto|]. fold rest in I2. unfold read_rows in I2.
    change (text "; " ++ rest) with (59%N :: 32%N :: rest).
    change (32%N :: txt ++ 59%N :: 32%N :: rest) with ((32%N :: txt) ++ 59%N :: 32%N :: rest).
    rewrite (split_skip 59 txt), (split_skip 59 (32%N :: txt)) by auto.
    change (split_on 59 (59%N :: 32%N :: rest)) with ([] :: split_on 59 (32%N :: rest)). cbn iota.
    rewrite !app_nil_r. cbn [map]. cbn [map] in I2. rewrite I2, ws_lead, W. split; reflexivity.
Qed.

Lemma trim_start_plain s : plain s -> trim_start s = s.
Proof. intros [H1 H2]. destruct s as [|c s]; [contradiction|]. cbn [trim_start]. rewrite (proj1 (H2 c (or_introl eq_refl))). reflexivity. Qed.
Lemma plain_rev s : plain s -> plain (rev s).
Proof.
  intros [H1 H2]. split.
  - intros E. apply H1. apply (f_equal (@rev N)) in E. rewrite rev_involutive in E. exact E.
  - intros c Hc. apply H2. apply in_rev. exact Hc.
Qed.
Lemma trim_plain s : plain s -> trim s = s.
Proof. intros H. unfold trim. rewrite (trim_start_plain s H), (trim_start_plain _ (plain_rev s H)). apply rev_involutive. Qed.
Lemma trim_lead s : trim (32%N :: s) = trim s.
Proof. reflexivity. Qed.
Lemma no44 x : ~ In 44%N (show x).
Proof. intros Q. apply (Hs x) in Q. tauto. Qed.

(** ** Theorems *)
(** The words between the brackets of a printed vector are its components in order; the pieces of a
    printed matrix between semicolons are its rows from the first to the last and the words of a piece
    the entries of the row from left to right: for every number of rows (at least one) and columns.
    So the shape can be read off the text as well. *)
Theorem C124_matrix n (m : list (list T)) : m <> [] -> (forall row, In row m -> length row = n) ->
  exists body, bracketed (fmt_matrix show n m) body /\ read_rows body = map (map show) m.
Proof.
  intros Hne Hr. eexists. split; [reflexivity|]. apply matrix_rows; auto.
Qed.
Theorem C124_vector (v : list T) : exists body, bracketed (fmt_vector show v) body /\ split_whitespace body = map show v.
Proof. eexists. split; [reflexivity|]. apply row_words. reflexivity. Qed.

(** a direction cosine matrix is printed by rows and Euler angles as roll, pitch, yaw *)
Theorem C124_attitude a b c d e f g h i roll pitch yaw :
  (exists body, bracketed (fmt_dcm show [[a; b; c]; [d; e; f]; [g; h; i]]) body /\
     read_rows body = [[show a; show b; show c]; [show d; show e; show f]; [show g; show h; show i]]) /\
  (exists body, bracketed (fmt_euler show (roll, pitch, yaw)) body /\ split_whitespace body = [show roll; show pitch; show yaw]).
Proof.
  split.
  - apply (C124_matrix 3 [[a; b; c]; [d; e; f]; [g; h; i]]); [discriminate|]. intros row [<-|[<-|[<-|[]]]]; reflexivity.
  - apply (C124_vector [roll; pitch; yaw]).
Qed.

Lemma commas4 w x y z : read_commas (show w ++ text ", " ++ show x ++ text ", " ++ show y ++ text ", " ++ show z) = [show w; show x; show y; show z].
Proof.
  unfold read_commas. change (text ", ") with [44%N; 32%N].
  assert (N1 : forall u, ~ In 44%N (32%N :: show u)) by (intros u [Q|Q]; [discriminate|exact (no44 _ Q)]).
  assert (Sp : forall r, split_on 44 ([44%N; 32%N] ++ r) = [] :: split_on 44 (32%N :: r)) by reflexivity.
  rewrite (split_skip 44 (show w)) by apply no44. rewrite Sp.
  change (32%N :: show x ++ [44%N; 32%N] ++ show y ++ [44%N; 32%N] ++ show z) with ((32%N :: show x) ++ [44%N; 32%N] ++ show y ++ [44%N; 32%N] ++ show z).
  rewrite (split_skip 44 (32%N :: show x)) by apply N1. rewrite Sp.
  change (32%N :: show y ++ [44%N; 32%N] ++ show z) with ((32%N :: show y) ++ [44%N; 32%N] ++ show z).
  rewrite (split_skip 44 (32%N :: show y)) by apply N1. rewrite Sp.
  rewrite (split_clean 44 (32%N :: show z)) by apply N1.
  cbn [map]. rewrite !app_nil_r, !trim_lead, !trim_plain by apply Hs. reflexivity.
Qed.
Lemma commas3 x y z : read_commas (show x ++ text ", " ++ show y ++ text ", " ++ show z) = [show x; show y; show z].
Proof.
  unfold read_commas. change (text ", ") with [44%N; 32%N].
  assert (N1 : forall u, ~ In 44%N (32%N :: show u)) by (intros u [Q|Q]; [discriminate|exact (no44 _ Q)]).
  assert (Sp : forall r, split_on 44 ([44%N; 32%N] ++ r) = [] :: split_on 44 (32%N :: r)) by reflexivity.
  rewrite (split_skip 44 (show x)) by apply no44. rewrite Sp.
  change (32%N :: show y ++ [44%N; 32%N] ++ show z) with ((32%N :: show y) ++ [44%N; 32%N] ++ show z).
  rewrite (split_skip 44 (32%N :: show y)) by apply N1. rewrite Sp.
  rewrite (split_clean 44 (32%N :: show z)) by apply N1.
  cbn [map]. rewrite !app_nil_r, !trim_lead, !trim_plain by apply Hs. reflexivity.
Qed.

(** a quaternion is printed scalar part first, a rotation as its quaternion, a position as x, y, z *)
Theorem C124_lists w i j k x y z :
  (exists body, fmt_quaternion show (w, i, j, k) = text "q=[" ++ body ++ text "]" /\ read_commas body = [show w; show i; show j; show k]) /\
  (exists body, fmt_rotation show (w, i, j, k) = text "Rotation: q=[" ++ body ++ text "]" /\ read_commas body = [show w; show i; show j; show k]) /\
  (exists body, fmt_cartesian show (x, y, z) = text "Cartesian [x,y,z]: [" ++ body ++ text "]" /\ read_commas body = [show x; show y; show z]).
Proof.
  split; [|split].
  - exists (show w ++ text ", " ++ show i ++ text ", " ++ show j ++ text ", " ++ show k). split; [|apply commas4].
    unfold fmt_quaternion. rewrite <- !app_assoc. reflexivity.
  - exists (show w ++ text ", " ++ show i ++ text ", " ++ show j ++ text ", " ++ show k). split; [|apply commas4].
    unfold fmt_rotation, fmt_quaternion. rewrite <- !app_assoc. reflexivity.
  - exists (show x ++ text ", " ++ show y ++ text ", " ++ show z). split; [|apply commas3].
    unfold fmt_cartesian. rewrite <- !app_assoc. reflexivity.
Qed.

Lemma map_inj {A B} (f : A -> B) : (forall x y, f x = f y -> x = y) -> forall l l', map f l = map f l' -> l = l'.
Proof.
  intros H l. induction l as [|x l IH]; intros [|y l'] E; try discriminate; auto. cbn [map] in E. injection E as E1 E2. f_equal; auto.
Qed.
(** If different numbers print differently, values with the same text are equal, whatever their shapes. *)
Theorem C124_injective : (forall x y, show x = show y -> x = y) ->
  (forall v v', fmt_vector show v = fmt_vector show v' -> v = v') /\
  (forall n n' m m', m <> [] -> m' <> [] -> (forall row, In row m -> length row = n) -> (forall row, In row m' -> length row = n') ->
     fmt_matrix show n m = fmt_matrix show n' m' -> m = m') /\
  (forall q q', fmt_quaternion show q = fmt_quaternion show q' -> q = q') /\
  (forall q q', fmt_rotation show q = fmt_rotation show q' -> q = q') /\
  (forall p p', fmt_cartesian show p = fmt_cartesian show p' -> p = p').
Proof.
  intros Hi.
  assert (Q4 : forall q q', fmt_quaternion show q = fmt_quaternion show q' -> q = q').
  { intros [[[w i] j] k] [[[w' i'] j'] k'] E.
    destruct (C124_lists w i j k w w w) as ((b & E1 & R1) & _). destruct (C124_lists w' i' j' k' w w w) as ((b' & E2 & R2) & _).
    rewrite E1, E2 in E. apply app_inv_head, app_inv_tail in E. subst b'. rewrite R1 in R2. injection R2 as A B C D.
    apply Hi in A, B, C, D. subst. reflexivity. }
  split; [|split; [|split; [exact Q4|split]]].
  - intros v v' E. destruct (C124_vector v) as (b & E1 & R1). destruct (C124_vector v') as (b' & E2 & R2).
    unfold bracketed in *. rewrite E1, E2 in E. apply app_inv_head, app_inv_tail in E. subst b'. rewrite R1 in R2. apply (map_inj show); auto.
  - intros n n' m m' H1 H2 H3 H4 E. destruct (C124_matrix n m H1 H3) as (b & E1 & R1). destruct (C124_matrix n' m' H2 H4) as (b' & E2 & R2).
    unfold bracketed in *. rewrite E1, E2 in E. apply app_inv_head, app_inv_tail in E. subst b'. rewrite R1 in R2.
    apply (map_inj (map show)); auto. apply map_inj; auto.
  - intros q q' E. unfold fmt_rotation in E. apply app_inv_head in E. auto.
  - intros [[x y] z] [[x' y'] z'] E.
    destruct (C124_lists x x x x x y z) as (_ & _ & b & E1 & R1). destruct (C124_lists x x x x x' y' z') as (_ & _ & b' & E2 & R2).
    rewrite E1, E2 in E. apply app_inv_head, app_inv_tail in E. subst b'. rewrite R1 in R2. injection R2 as A B C.
    apply Hi in A, B, C. subst. reflexivity.
Qed.
End P.

(** the hypotheses are met: strings of one digit or more as numbers *)
Example C124_nontrivial : let show := fun b : bool => if b then text "-1.5" else text "NaN" in
  (forall b, plain (show b)) /\ (forall x y, show x = show y -> x = y) /\
  fmt_matrix show 2 [[true; false]; [false; true]] = text "[-1.5 NaN; NaN -1.5]" /\
  fmt_quaternion show (true, false, true, true) = text "q=[-1.5, NaN, -1.5, -1.5]".
Proof.
  cbv zeta. split; [|split; [|split; reflexivity]].
  - intros [|]; split; try discriminate; intros c Hc; cbn in Hc; repeat (destruct Hc as [<-|Hc]; [repeat split; discriminate|]); destruct Hc.
  - intros [|] [|]; try reflexivity; discriminate.
Qed.
