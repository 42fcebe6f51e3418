(** Rust's [str] functions used by the code base, on strings as lists of Unicode scalar
    values.  These model std, not aether. *)
From Coq Require Import NArith List Bool Lia.
Import ListNotations.
Open Scope N_scope.

Definition str := list N.

Definition str_eqb (a b : str) : bool := if list_eq_dec N.eq_dec a b then true else false.

(* char::is_whitespace (Unicode White_Space) *)
Definition is_ws (c : N) : bool :=
  (9 <=? c) && (c <=? 13) || (c =? 32) || (c =? 133) || (c =? 160) || (c =? 5760) ||
  (8192 <=? c) && (c <=? 8202) || (c =? 8232) || (c =? 8233) || (c =? 8239) ||
  (c =? 8287) || (c =? 12288).

(* str::trim *)
Fixpoint trim_start (s : str) : str :=
  match s with
  | c :: r => if is_ws c then trim_start r else s
  | [] => []
  end.
Definition trim (s : str) : str := rev (trim_start (rev (trim_start s))).

(* str::split(char): n separators give n+1 pieces *)
Fixpoint split_on (sep : N) (s : str) : list str :=
  match s with
  | [] => [[]]
  | c :: r =>
      if c =? sep then [] :: split_on sep r
      else match split_on sep r with
           | p :: ps => (c :: p) :: ps
           | [] => [[c]]
           end
  end.

Definition NL : N := 10.
Definition CR : N := 13.

Definition ends_with (c : N) (s : str) : bool :=
  match rev s with x :: _ => x =? c | [] => false end.

(* str::lines: pieces terminated by \n (with an optional \r before it removed), then the
   unterminated remainder, if it is not empty, unchanged *)
Definition strip_cr (s : str) : str := if ends_with CR s then removelast s else s.
Definition lines (s : str) : list str :=
  let segs := split_on NL s in
  let tail := last segs [] in
  map strip_cr (removelast segs) ++ match tail with [] => [] | _ => [tail] end.

(* UTF-8 decoding as done by read_to_string: None on any ill-formed sequence *)
Definition cont (b : N) : bool := (128 <=? b) && (b <? 192).
Fixpoint utf8_decode (bs : list N) : option str :=
  match bs with
  | [] => Some []
  | b0 :: r0 =>
    if b0 <? 128 then option_map (cons b0) (utf8_decode r0)
    else match r0 with
    | [] => None
    | b1 :: r1 =>
      if (194 <=? b0) && (b0 <? 224) then
        if cont b1 then option_map (cons ((b0 - 192) * 64 + (b1 - 128))) (utf8_decode r1) else None
      else match r1 with
      | [] => None
      | b2 :: r2 =>
        if (224 <=? b0) && (b0 <? 240) then
          let c := (b0 - 224) * 4096 + (b1 - 128) * 64 + (b2 - 128) in
          if cont b1 && cont b2 && (2048 <=? c) && negb ((55296 <=? c) && (c <? 57344))
          then option_map (cons c) (utf8_decode r2) else None
        else match r2 with
        | [] => None
        | b3 :: r3 =>
          if (240 <=? b0) && (b0 <? 248) then
            let c := (b0 - 240) * 262144 + (b1 - 128) * 4096 + (b2 - 128) * 64 + (b3 - 128) in
            if cont b1 && cont b2 && cont b3 && (65536 <=? c) && (c <? 1114112)
            then option_map (cons c) (utf8_decode r3) else None
          else None
        end
      end
    end
  end.
