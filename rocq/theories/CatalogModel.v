(** Loading the star catalogue (crates/aether_catalogs/src/star_catalogs/mod.rs:61-178) and generating the embedded
    magnetic coefficients (crates/aether_catalogs/build.rs:91-178). *)
From Coq Require Import NArith Arith List Bool Lia.
From Verif Require Import Text.
Import ListNotations.
Local Open Scope nat_scope.

(** * The star catalogue *)
Section Load.
(** [digest bs] is the lower-case hexadecimal SHA-256 digest of [bs]; [rows bs] are the rows the csv crate finds in [bs] after
    the header line, each [Some] record or [None] when it does not deserialize.  Both belong to external crates. *)
Context {Rec : Type} (digest : list N -> str) (rows : list N -> list (option Rec)).

(** what one call of [read] returns: an error, or some bytes (none at the end of the file) *)
(** std::io::Read::read, called at mod.rs:99 *)
Inductive read_result := ReadErr | Bytes (bs : list N).
(** one opening of a file: it fails, or yields a stream of [read] results.  After the listed ones the file is at its end. *)
(** std::fs::File::open, called at mod.rs:90-97, 153-160 *)
Definition opening := option (list read_result).
(** the errors of mod.rs:90-121, 153-178 *)
Inductive load_error := IoError | ChecksumMismatch.
(** the results of mod.rs:82-121, 153-178 *)
Inductive load (A : Type) := Loaded (a : A) | Failed (e : load_error).
Arguments Loaded {A}. Arguments Failed {A}.

(** mod.rs:98-104: the read loop; the hasher is modelled by the bytes given to it *)
Fixpoint read_loop (rs : list read_result) (hasher : list N) : option (list N) :=
  match rs with
  | [] => Some hasher
  | ReadErr :: _ => None
  | Bytes [] :: _ => Some hasher
  | Bytes bs :: rs => read_loop rs (hasher ++ bs)
  end.

(** u8::to_ascii_lowercase, used by str::eq_ignore_ascii_case *)
Definition to_lower (c : N) : N := (if (65 <=? c) && (c <=? 90) then c + 32 else c)%N.
(** called at mod.rs:90-121 *)
Definition eq_ignore_ascii_case (a b : str) : bool := str_eqb (map to_lower a) (map to_lower b).

(** mod.rs:90-121 *)
Definition verify_catalog_checksum (o : opening) (expected : str) : load unit :=
  match o with
  | None => Failed IoError
  | Some rs =>
      match read_loop rs [] with
      | None => Failed IoError
      | Some bs => if eq_ignore_ascii_case (digest bs) expected then Loaded tt else Failed ChecksumMismatch
      end
  end.

(** the bytes the csv reader gets before the end of the file or the first error, and whether there was an error.  The csv
    crate reports a read error as one failed row and then stops. *)
(** csv::Reader over the file, mod.rs:153-178 *)
Fixpoint csv_bytes (rs : list read_result) : list N * bool :=
  match rs with
  | [] => ([], false)
  | ReadErr :: _ => ([], true)
  | Bytes [] :: _ => ([], false)
  | Bytes bs :: rs => let (r, e) := csv_bytes rs in (bs ++ r, e)
  end.
(** mod.rs:153-178.  [records] are kept in order, the failures are counted (and printed). *)
Fixpoint keep_rows (rs : list (option Rec)) (records : list Rec) (skipped : nat) : list Rec * nat :=
  match rs with
  | [] => (records, skipped)
  | Some r :: rs => keep_rows rs (records ++ [r]) skipped
  | None :: rs => keep_rows rs records (skipped + 1)
  end.
(** mod.rs:153-178 *)
Definition from_csv (o : opening) : load (list Rec * nat) :=
  match o with
  | None => Failed IoError
  | Some rs => let (bs, e) := csv_bytes rs in Loaded (keep_rows (rows bs ++ if e then [None] else []) [] 0)
  end.
(** mod.rs:82-88: the path is opened twice; [first] and [second] are what the two openings see *)
Definition from_csv_with_expected_sha256 (first second : opening) (expected : str) : load (list Rec * nat) :=
  match verify_catalog_checksum first expected with
  | Failed e => Failed e
  | Loaded _ => from_csv second
  end.
End Load.
Arguments Loaded {A}. Arguments Failed {A}.

(** * The coefficient file *)
Section Wmm.
(** [F] the values, [fzero] is 0.0; [parse_usize] and [parse_f64] are str::parse *)
Context {F : Type} (fzero : F) (parse_usize : str -> option N) (parse_f64 : str -> option F).

(** build.rs:8-10 *)
Definition max_degree_const : N := 12.
(** build.rs:9 *)
Definition record_count : nat := 90.
(** build.rs:10 *)
Definition triangular_count : N := 91.

(** str::split_whitespace: the maximal runs of other characters *)
(** used by build.rs:96, 118 *)
Fixpoint words_from (s : str) (cur : str) : list str :=
  match s with
  | [] => match cur with [] => [] | _ => [rev cur] end
  | c :: s => if is_ws c then match cur with [] => words_from s [] | _ => rev cur :: words_from s [] end else words_from s (c :: cur)
  end.
(** used by build.rs:96, 118 *)
Definition split_whitespace (s : str) : list str := words_from s [].
(** used by build.rs:114 *)
Definition is_ascii_digit (c : N) : bool := ((48 <=? c) && (c <=? 57))%N.

(** usize arithmetic of build.rs:180-182 without overflow checks *)
Definition wrap (n : N) : N := (n mod 2 ^ 64)%N.
(** build.rs:180-182.  With overflow checks (the default for build scripts) an overflow panics, without them it wraps. *)
Definition triangular_index (checks : bool) (degree order : N) : option N :=
  let exact := (degree * (degree + 1) / 2 + order)%N in
  if checks then if ((degree * (degree + 1) <? 2 ^ 64) && (exact <? 2 ^ 64))%N then Some exact else None
  else Some (wrap (wrap (degree * wrap (degree + 1)) / 2 + order)).

(** the tuples of build.rs:150 *)
Record coefficient := mkCoef { k_degree : N; k_order : N; k_g : F; k_h : F; k_g_dot : F; k_h_dot : F }.
(** the four arrays of 91 numbers *)
Record tables := mkTabs { t_g : list F; t_h : list F; t_g_dot : list F; t_h_dot : list F }.
(** the assignments of build.rs:145-148 *)
Fixpoint put (l : list F) (i : nat) (v : F) : list F :=
  match l, i with
  | [], _ => []
  | _ :: l, O => v :: l
  | x :: l, S i => x :: put l i v
  end.
(** the variables of build.rs:105-110 *)
Record state := mkSt { s_records : list coefficient; s_tables : tables; s_max : N }.
(** build.rs:105-110 *)
Definition start : state :=
  let z := repeat fzero (N.to_nat triangular_count) in mkSt [] (mkTabs z z z z) 0.

(** one line of build.rs:112-151: [None] is a panic, [Some] the state after it *)
Definition line_step (checks : bool) (raw : str) (s : state) : option state :=
  let line := trim raw in
  match line with
  | [] => Some s
  | c :: _ =>
      if negb (is_ascii_digit c) then Some s
      else match split_whitespace line with
      | [t0; t1; t2; t3; t4; t5] =>
          match parse_usize t0 with None => None | Some degree =>
          match parse_usize t1 with None => None | Some order =>
          if negb (order <=? degree)%N then None else
          match parse_f64 t2 with None => None | Some g_nm =>
          match parse_f64 t3 with None => None | Some h_nm =>
          match parse_f64 t4 with None => None | Some g_dot_nm =>
          match parse_f64 t5 with None => None | Some h_dot_nm =>
          match triangular_index checks degree order with None => None | Some index =>
          if negb (index <? triangular_count)%N then None else
          let i := N.to_nat index in let t := s_tables s in
          Some (mkSt (s_records s ++ [mkCoef degree order g_nm h_nm g_dot_nm h_dot_nm])
                     (mkTabs (put (t_g t) i g_nm) (put (t_h t) i h_nm) (put (t_g_dot t) i g_dot_nm) (put (t_h_dot t) i h_dot_nm))
                     (N.max (s_max s) degree))
          end end end end end end end
      | _ => Some s
      end
  end.
(** build.rs:112-151 *)
Fixpoint line_loop (checks : bool) (ls : list str) (s : state) : option state :=
  match ls with
  | [] => Some s
  | l :: ls => match line_step checks l s with None => None | Some s => line_loop checks ls s end
  end.
(** what build.rs:156-177 prints *)
Record generated := mkGen { gen_epoch : F; gen_name : str; gen_date : str; gen_records : list coefficient; gen_tables : tables }.
(** build.rs:91-178: [None] is a panic (the build fails).  The generated source text prints these values. *)
Definition render_wmm_include (checks : bool) (contents : str) : option generated :=
  match filter (fun l => match trim l with [] => false | _ => true end) (lines contents) with
  | [] => None
  | header_line :: _ =>
      match split_whitespace header_line with
      | t0 :: t1 :: t2 :: _ =>
          match parse_f64 t0 with None => None | Some epoch =>
          match line_loop checks (tl (lines contents)) start with None => None | Some s =>
          if negb (s_max s =? max_degree_const)%N then None
          else if negb (length (s_records s) =? record_count)%nat then None
          else Some (mkGen epoch t1 t2 (s_records s) (s_tables s))
          end end
      | _ => None
      end
  end.
End Wmm.
