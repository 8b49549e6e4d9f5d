(** Model of include/lexertl/parser/tokeniser/re_tokeniser.hpp,
    re_tokeniser_helper.hpp and re_tokeniser_state.hpp: from the text of a regex
    to its tokens.

    Characters are their codes. The text of a regex is a std::string, so the
    position after its last character reads as NUL; [peek] is that read. The
    locale is the classic one (the default of std::locale()). Characters of a
    regex are taken to have the same code in the character type of the lexer
    (no sign extension of narrow characters into wide lexers). Option s of (?s)
    is modelled as compiled outside Windows. Error messages are not modelled:
    every throw of these files is [ETokenise]. *)
From Coq Require Import String Ascii.
From Verif Require Import Base StringToken ReToken UnicodeData FoldData.
Local Open Scope N_scope.

(** The characters of a string literal. *)
Fixpoint txt (s : string) : list N :=
  match s with EmptyString => [] | String a s' => N_of_ascii a :: txt s' end.
Definition tbl_txt (t : list (string * string)) : list (list N * list N) :=
  map (fun p => (txt (fst p), txt (snd p))) t.

Fixpoint text_eqb (a b : list N) : bool :=
  match a, b with
  | [], [] => true
  | x :: a', y :: b' => (x =? y) && text_eqb a' b'
  | _, _ => false
  end.
Definition peek (inp : list N) : N := hd 0 inp.

(** char_traits.hpp:17-44: max_val() for sizeof(char_type) = [b]. *)
Definition max_char (b : N) : N := if b =? 1 then 0xff else if b =? 2 then 0xffff else 0x10ffff.

(** ** Case folding *)
(** std::toupper and std::tolower of the classic locale. *)
Definition to_upper (c : N) : N := if (97 <=? c) && (c <=? 122) then c - 32 else c.
Definition to_lower (c : N) : N := if (65 <=? c) && (c <=? 90) then c + 32 else c.

(** helper:205-234: fold for sizeof == 1. *)
Definition fold1_char (out : stoken) (c : N) : stoken :=
  let out1 := if to_upper c =? c then out else insert out (to_upper c, to_upper c) in
  if to_lower c =? c then out1 else insert out1 (to_lower c, to_lower c).
Definition fold1 (r : range) : stoken :=
  fold_left (fun out i => fold1_char out (fst r + N.of_nat i))
            (seq 0 (S (N.to_nat (snd r - fst r)))) [].

(** helper:236-312: fold for sizeof == 2, one entry of the table. *)
Definition fold2_entry (r : range) (out : stoken) (e : range * range) : stoken :=
  let '((ff, fs), (tf, ts)) := e in
  let lo := if tf <=? ts then tf else ts in
  let hi := if tf <=? ts then ts else tf in
  if (ff <=? fst r) && (fst r <=? fs) then
    insert out (lo + (fst r - ff), if fs <? snd r then hi else lo + (snd r - ff))
  else if (ff <=? snd r) && (snd r <=? fs) then insert out (lo, lo + (snd r - ff))
  else if (fst r <=? ff) && (ff <=? snd r) then insert out (lo, hi)
  else out.
(** The loop over the table; 248: break. *)
Fixpoint fold_table (entry : range -> stoken -> range * range -> stoken)
    (t : list (range * range)) (r : range) (out : stoken) : stoken :=
  match t with
  | [] => out
  | e :: t' => if snd r <? fst (fst e) then out else fold_table entry t' r (entry r out e)
  end.
Definition fold2 (r : range) (out : stoken) : stoken := fold_table fold2_entry fold2_table r out.

(** helper:314-358: fold for sizeof == 4. *)
Definition fold4_entry (r : range) (out : stoken) (e : range * range) : stoken :=
  let '((ff, fs), (tf, ts)) := e in
  if (ff <=? fst r) && (fst r <=? fs) then
    insert out (tf + (fst r - ff), if fs <? snd r then ts else tf + (snd r - ff))
  else if (ff <=? snd r) && (snd r <=? fs) then insert out (tf, tf + (snd r - ff))
  else if (fst r <=? ff) && (ff <=? snd r) then insert out (tf, ts)
  else out.
Definition fold4 (r : range) : stoken :=
  fold_table fold4_entry fold4_table r (if fst r <? 0x10000 then fold2 r [] else []).

Definition fold_range (b : N) (r : range) : stoken :=
  if b =? 1 then fold1 r else if b =? 2 then fold2 r [] else fold4 r.

(** tokeniser:461-480 (add_char), helper:170-187 and 1471-1487: insert a range and,
    with icase, what it folds to. *)
Definition add_range (b : N) (icase : bool) (t : stoken) (r : range) : stoken :=
  let t1 := insert t r in
  if icase then insert_token t1 (fold_range b r) else t1.

(** ** Escapes *)
Definition is_oct (c : N) : bool := (48 <=? c) && (c <=? 55).
Definition is_digit (c : N) : bool := (48 <=? c) && (c <=? 57).
Definition is_hex (c : N) : bool :=
  is_digit c || ((97 <=? c) && (c <=? 102)) || ((65 <=? c) && (c <=? 70)).
Definition is_alpha (c : N) : bool := ((65 <=? c) && (c <=? 90)) || ((97 <=? c) && (c <=? 122)).
Definition hex_val (c : N) : N :=
  if is_digit c then c - 48 else if (97 <=? c) && (c <=? 102) then 10 + (c - 97) else 10 + (c - 65).

(** helper:1169-1210: decode_octal; at most [n] more digits. *)
Fixpoint octal (n : nat) (acc : N) (inp : list N) : N * list N :=
  match n, inp with
  | S n', c :: r => if is_oct c then octal n' (acc * 8 + (c - 48)) r else (acc, inp)
  | _, _ => (acc, inp)
  end.
Definition decode_octal (b : N) (inp : list N) : res (N * list N) :=
  let x := octal 3 0 inp in
  if max_char b <? fst x then Throw ETokenise else Ok x.

(** helper:1212-1256: decode_control_char, after the c. *)
Definition decode_control (inp : list N) : res (N * list N) :=
  match inp with
  | [] => Throw ETokenise
  | c :: r =>
    if (97 <=? c) && (c <=? 122) then Ok (c - 96, r)
    else if (65 <=? c) && (c <=? 90) then Ok (c - 64, r)
    else if c =? 64 then Ok (0, r)
    else Throw ETokenise
  end.

(** helper:1258-1348: decode_hex, after the x. hex_ is a std::size_t. *)
Fixpoint hex_digits (acc : N) (inp : list N) : N * list N :=
  match inp with
  | c :: r => if is_hex c then hex_digits ((acc * 16 + hex_val c) mod 2 ^ 64) r else (acc, inp)
  | [] => (acc, [])
  end.
Definition decode_hex (b : N) (inp : list N) : res (N * list N) :=
  match inp with
  | [] => Throw ETokenise
  | c :: _ =>
    if is_hex c then
      let x := hex_digits 0 inp in
      if max_char b <? fst x then Throw ETokenise else Ok x
    else Throw ETokenise
  end.

(** helper:360-421: chr; [inp] is not empty. *)
Definition chr (b : N) (inp : list N) : res (N * list N) :=
  match inp with
  | [] => Throw ETokenise
  | c :: r =>
    if is_oct c then decode_octal b inp
    else if c =? 97 then Ok (7, r)
    else if c =? 98 then Ok (8, r)
    else if c =? 99 then decode_control r
    else if c =? 101 then Ok (27, r)
    else if c =? 102 then Ok (12, r)
    else if c =? 110 then Ok (10, r)
    else if c =? 114 then Ok (13, r)
    else if c =? 116 then Ok (9, r)
    else if c =? 118 then Ok (11, r)
    else if c =? 120 then decode_hex b r
    else Ok (c, r)
  end.

(** helper:1136-1140: up to the next closing brace, which is skipped. *)
Fixpoint to_brace (inp : list N) : option (list N * list N) :=
  match inp with
  | [] => None
  | c :: r =>
    if c =? 125 then Some ([], r)
    else match to_brace r with Some (n, r') => Some (c :: n, r') | None => None end
  end.
Fixpoint find_text (name : list N) (t : list (list N * list N)) : option (list N) :=
  match t with
  | [] => None
  | (n, s) :: t' => if text_eqb name n then Some s else find_text name t'
  end.
Definition props : list (list N * list N) := tbl_txt unicode_table.

(** helper:1096-1162: unicode_escape, after the p. The first character of the
    name is skipped before looking for the brace. *)
Definition unicode_escape (inp : list N) : res (list N * list N) :=
  match inp with
  | o :: c :: r =>
    if o =? 123 then
      match to_brace r with
      | Some (n, r') =>
        match find_text (c :: n) props with
        | Some s => Ok (s, r')
        | None => Throw ETokenise
        end
      | None => Throw ETokenise
      end
    else Throw ETokenise
  | _ => Throw ETokenise
  end.

(** helper:1046-1094 (charset_shortcut) and 55-80 (escape_sequence), after the
    backslash: the text of a class or a character. *)
Inductive esc := EClass (t : list N) | EChar (c : N).
Definition white := [32; 9; 10; 13; 12; 11].
Definition escape_sequence (b : N) (inp : list N) : res (esc * list N) :=
  match inp with
  | [] => Throw ETokenise
  | c :: r =>
    if c =? 100 then Ok (EClass (txt "[0-9]"), r)
    else if c =? 68 then Ok (EClass (txt "[^0-9]"), r)
    else if c =? 112 then do x <- unicode_escape r; Ok (EClass (fst x), snd x)
    else if c =? 115 then Ok (EClass (91 :: white ++ [93]), r)
    else if c =? 83 then Ok (EClass (91 :: 94 :: white ++ [93]), r)
    else if c =? 119 then Ok (EClass (txt "[_0-9A-Za-z]"), r)
    else if c =? 87 then Ok (EClass (txt "[^_0-9A-Za-z]"), r)
    else do x <- chr b inp; Ok (EChar (fst x), snd x)
  end.

(** ** POSIX classes *)
(** The name and the class for narrow and for wide characters. Lists of
    characters come from std::ctype of the classic locale. helper:504-950. *)
Definition chars_of (f : N -> bool) : list N :=
  filter f (map N.of_nat (seq 0 256)).
Definition posix_table : list (list N * (list N * list N)) :=
  [ (txt "alnum", (91 :: chars_of (fun c => is_alpha c || is_digit c) ++ [93],
                   txt "[\p{Ll}\p{Lu}\p{Nd}]"));                                 (* 541-551, 565-581 *)
    (txt "alpha", (91 :: chars_of is_alpha ++ [93], txt "[\p{Ll}\p{Lu}]"));      (* 552-558, 583-599 *)
    (txt "blank", ([91; 32; 9; 93], txt "[\p{Zs}" ++ [9; 93]));                  (* 601-632 *)
    (txt "cntrl", (txt "[\x00-" ++ [31; 127; 93], txt "[\p{Cc}]"));              (* 634-665 *)
    (txt "digit", (txt "[0-9]", txt "[\p{Nd}]"));                                (* 667-698 *)
    (txt "graph", (txt "[!-~]", txt "[^\p{Z}\p{C}]"));                           (* 700-731 *)
    (txt "lower", (91 :: chars_of (fun c => (97 <=? c) && (c <=? 122)) ++ [93],
                   txt "[\p{Ll}]"));                                             (* 733-782 *)
    (txt "print", (txt "[ -~]", txt "[\p{C}]"));                                 (* 784-853 *)
    (txt "punct", (txt "[!" ++ [34] ++ txt "#$%&'()*+,\-./:;<=>?@[\\\]^_`{|}~]",
                   txt "[\p{P}\p{S}]"));                                         (* 784-853 *)
    (txt "space", (91 :: [32; 9; 13; 10; 11; 12] ++ [93],
                   txt "[\p{Z}" ++ [9; 13; 10; 11; 12; 93]));                    (* 855-886 *)
    (txt "upper", (91 :: chars_of (fun c => (65 <=? c) && (c <=? 90)) ++ [93],
                   txt "[\p{Lu}]"));                                             (* 888-937 *)
    (txt "xdigit", (txt "[0-9A-Fa-f]", txt "[0-9A-Fa-f]")) ].                    (* 939-970 *)

(** The rest after a prefix. *)
Fixpoint strip_prefix (p inp : list N) : option (list N) :=
  match p, inp with
  | [], _ => Some inp
  | x :: p', y :: r => if x =? y then strip_prefix p' r else None
  | _ :: _, [] => None
  end.
Fixpoint posix_find (t : list (list N * (list N * list N))) (inp : list N)
    : option (list N * list N * list N) :=
  match t with
  | [] => None
  | (n, (s, w)) :: t' =>
    match strip_prefix n inp with
    | Some r => Some (s, w, r)
    | None => posix_find t' inp
    end
  end.
(** helper:432-502 (posix) and 972-1005 (check_posix_termination), after the
    bracket and colon: the class, if it is negated, and the rest. *)
Definition posix (b : N) (inp : list N) : res (list N * bool * list N) :=
  let neg := peek inp =? 94 in
  let inp1 := if neg then tl inp else inp in
  match posix_find posix_table inp1 with
  | Some (s, w, c :: d :: r) =>
    if (c =? 58) && (d =? 93) then Ok (if b =? 1 then s else w, neg, r) else Throw ETokenise
  | _ => Throw ETokenise
  end.

(** ** Character classes *)
Section Charset.
  Variables (b : N) (icase : bool).
  (** charset() on the text of a class (helper:129-137, 1032-1043). *)
  Variable sub : list N -> res stoken.

  (** helper:1350-1488: charset_range, after the minus: ch_, the rest and the
      characters. *)
  Definition charset_range (prev : N) (inp : list N) (t : stoken) : res (N * list N * stoken) :=
    match inp with
    | [] => Throw ETokenise
    | c :: r =>
      do x <- (if c =? 92 then
                 do e <- escape_sequence b r;
                 match fst e with EClass _ => Throw ETokenise | EChar d => Ok (d, snd e) end
               else if (c =? 91) && (peek r =? 58) then Throw ETokenise
               else Ok (c, r));
      match snd x with
      | [] => Throw ETokenise
      | ch :: r' =>
        if fst x <? prev then Throw ETokenise
        else Ok (ch, r', add_range b icase t (prev, fst x))
      end
    end.

  (** helper:117-190: the loop of charset(). [ch] was read, [inp] follows. *)
  Fixpoint charset_loop (fuel : nat) (ch : N) (inp : list N) (t : stoken) : res (stoken * list N) :=
    match fuel with
    | O => Fuel
    | S f =>
      do x <- (if ch =? 92 then
                 do e <- escape_sequence b inp;
                 match fst e with
                 | EClass s => do u <- sub s; Ok (None, insert_token t u, snd e)
                 | EChar c => Ok (Some c, t, snd e)
                 end
               else if (ch =? 91) && (peek inp =? 58) then
                 do p <- posix b (tl inp);
                 let '(s, neg, r) := p in
                 do u <- sub s;
                 Ok (None, insert_token t (if neg then negate (max_char b) u else u), r)
               else Ok (Some ch, t, inp));
      let '(prev, t1, inp1) := x in
      match inp1 with
      | [] => Throw ETokenise                                       (* 155-164 *)
      | c :: r =>
        do y <- (if (c =? 45) && negb (peek r =? 93) then           (* 166-170 *)
                   match prev with
                   | None => Throw ETokenise
                   | Some p => charset_range p r t1
                   end
                 else
                   Ok (c, r, match prev with
                             | None => t1
                             | Some p => add_range b icase t1 (p, p)
                             end));
        let '(c', r', t2) := y in
        if c' =? 93 then Ok (t2, r') else charset_loop f c' r' t2
      end
    end.

  (** helper:82-203: charset(), after the opening bracket. *)
  Definition charset_body (inp : list N) : res (stoken * list N) :=
    let neg := peek inp =? 94 in
    match (if neg then tl inp else inp) with
    | [] => Throw ETokenise
    | ch :: r =>
      do x <- charset_loop (S (length r)) ch r [];
      let t := if neg then negate (max_char b) (fst x) else fst x in
      match t with [] => Throw ETokenise | _ => Ok (t, snd x) end
    end.
End Charset.

(** charset() calls itself on the text of shortcuts and POSIX classes; [d] bounds
    the nesting. The strings begin with the bracket (str_ + 1). *)
Fixpoint charset (d : nat) (b : N) (icase : bool) (inp : list N) : res (stoken * list N) :=
  match d with
  | O => Fuel
  | S d' => charset_body b icase (fun s => do x <- charset d' b icase (tl s); Ok (fst x)) inp
  end.
(** Enough for the classes in the code (see ReTokeniserProofs.v). *)
Definition nesting : nat := 5.

(** ** The tokeniser *)
(** enums.hpp: regex_flags. *)
Definition rf_icase := 1.
Definition rf_dot_not_newline := 2.
Definition rf_dot_not_cr_lf := 4.
Definition rf_skip_ws := 8.
Definition rf_match_zero_len := 16.
Definition has (fl f : N) : bool := negb (N.land fl f =? 0).

(** re_tokeniser_state.hpp:23-46. [rs_size] is _end - _start. *)
Record rstate := { rs_inp : list N; rs_size : nat; rs_flags : N; rs_stack : list N;
                   rs_parens : N; rs_string : bool }.
Definition with_inp (i : list N) (s : rstate) : rstate :=
  {| rs_inp := i; rs_size := rs_size s; rs_flags := rs_flags s; rs_stack := rs_stack s;
     rs_parens := rs_parens s; rs_string := rs_string s |}.

(** tokeniser:42-46: toggle _in_string at quotes. *)
Fixpoint quotes (c : N) (inp : list N) (str : bool) : option N * list N * bool :=
  if c =? 34 then
    match inp with
    | [] => (None, [], negb str)
    | d :: r => quotes d r (negb str)
    end
  else (Some c, inp, str).

(** tokeniser:250-264: to the end of a comment. *)
Fixpoint comment_end (n : N) (inp : list N) : option (list N) :=
  match inp with
  | [] => None
  | c :: r =>
    if c =? 40 then comment_end (n + 1) r
    else if c =? 41 then if n =? 1 then Some r else comment_end (n - 1) r
    else comment_end n r
  end.
Definition ch_next (inp : list N) : option N * list N :=
  match inp with [] => (None, []) | c :: r => (Some c, r) end.

(** tokeniser:239-285: comment; None: nothing skipped. *)
Definition comment (c : N) (inp : list N) (str : bool) : res (option (option N * list N)) :=
  if negb str && (c =? 40) && (peek inp =? 63) && (peek (tl inp) =? 35) then
    match comment_end 1 (tl (tl inp)) with
    | None => Throw ETokenise
    | Some r => Ok (Some (ch_next r))
    end
  else Ok None.

(** tokeniser:306-327: to the end of a C comment. *)
Fixpoint c_comment_end (inp : list N) : option (list N) :=
  match inp with
  | [] => None
  | c :: r => if (c =? 42) && (peek r =? 47) then Some (tl r) else c_comment_end r
  end.
Definition is_white (c : N) : bool := existsb (N.eqb c) white.

(** tokeniser:287-345: skip, with skip_ws set and outside strings. *)
Fixpoint skip_loop (fuel : nat) (c : N) (inp : list N) (skipped : bool)
    : res (option N * list N * bool) :=
  match fuel with
  | O => Fuel
  | S f =>
    if (c =? 47) && (peek inp =? 42) then
      match c_comment_end (tl inp) with
      | None => Throw ETokenise
      | Some [] => Ok (None, [], true)
      | Some (d :: r) => skip_loop f d r true
      end
    else if is_white c then
      match inp with
      | [] => Ok (None, [], true)
      | d :: r => skip_loop f d r true
      end
    else Ok (Some c, inp, skipped)
  end.
Definition skip (fl : N) (c : N) (inp : list N) (str : bool) : res (option N * list N * bool) :=
  if has fl rf_skip_ws && negb str then skip_loop (S (length inp)) c inp false
  else Ok (Some c, inp, false).

(** tokeniser:39-60: the loop in front of a token. *)
Fixpoint lead (fuel : nat) (fl : N) (c : N) (inp : list N) (str : bool)
    : res (option N * list N * bool) :=
  match fuel with
  | O => Fuel
  | S f =>
    match quotes c inp str with
    | (None, r, str1) => Ok (None, r, str1)
    | (Some c1, r1, str1) =>
      do m <- comment c1 r1 str1;
      match m with
      | Some (None, r2) => Ok (None, r2, str1)
      | Some (Some c2, r2) =>
        do x <- skip fl c2 r2 str1;
        match x with
        | (None, r3, _) => Ok (None, r3, str1)
        | (Some c3, r3, _) => lead f fl c3 r3 str1
        end
      | None =>
        do x <- skip fl c1 r1 str1;
        match x with
        | (None, r3, _) => Ok (None, r3, str1)
        | (Some c3, r3, true) => lead f fl c3 r3 str1
        | (Some c3, r3, false) => Ok (Some c3, r3, str1)
        end
      end
    end
  end.

(** tokeniser:359-428: the options after (?. *)
Fixpoint options (neg : bool) (fl : N) (inp : list N) : res (N * list N) :=
  match inp with
  | [] => Ok (fl, [])
  | c :: r =>
    if c =? 58 then Ok (fl, r)
    else if c =? 45 then options (negb neg) fl r
    else if c =? 105 then
      options false (if neg then N.ldiff fl rf_icase else N.lor fl rf_icase) r
    else if c =? 115 then
      options false (if neg then N.lor fl rf_dot_not_newline else N.ldiff fl rf_dot_not_newline) r
    else if c =? 120 then
      options false (if neg then N.ldiff fl rf_skip_ws else N.lor fl rf_skip_ws) r
    else Throw ETokenise
  end.
(** tokeniser:347-437: read_options. *)
Definition read_options (s : rstate) : res rstate :=
  if peek (rs_inp s) =? 63 then
    do x <- options false (rs_flags s) (tl (rs_inp s));
    Ok {| rs_inp := snd x; rs_size := rs_size s; rs_flags := fst x;
          rs_stack := rs_flags s :: rs_stack s; rs_parens := rs_parens s;
          rs_string := rs_string s |}
  else
    Ok {| rs_inp := rs_inp s; rs_size := rs_size s; rs_flags := rs_flags s;
          rs_stack := match rs_stack s with [] => [] | st => rs_flags s :: st end;
          rs_parens := rs_parens s; rs_string := rs_string s |}.

Definition t_of (ty : ttype) (extra : list N) : token :=
  {| tk_type := ty; tk_extra := extra; tk_str := [] |}.
Definition t_set (s : stoken) : token := {| tk_type := CHARSET; tk_extra := []; tk_str := s |}.

(** tokeniser:439-459: escape, after the backslash. *)
Definition escape (b : N) (s : rstate) : res (stoken * list N) :=
  let ic := has (rs_flags s) rf_icase in
  do e <- escape_sequence b (rs_inp s);
  match fst e with
  | EClass t => do x <- charset nesting b ic (tl t); Ok (fst x, snd e)
  | EChar c => Ok (add_range b ic [] (c, c), snd e)
  end.

(** The postfix question mark of abstemious operators. *)
Definition lazy (eager abst : ttype) (inp : list N) : ttype * list N :=
  if peek inp =? 63 then (abst, tl inp) else (eager, inp).

(** tokeniser:557-563, 613-619: digits in std::size_t arithmetic. Result: value,
    digits, rest. *)
Fixpoint digits (acc : N) (inp : list N) : N * list N * list N :=
  match inp with
  | c :: r =>
    if is_digit c then
      let '(n, ds, r') := digits ((acc * 10 + (c - 48)) mod 2 ^ 64) r in (n, c :: ds, r')
    else (acc, [], inp)
  | [] => (acc, [], [])
  end.

(** tokeniser:661-716: the end of repeat_n; [ty] is set if repeatn_ is false. *)
Definition repeat_end (ty : option ttype) (mn mx : N) (both : bool) (extra inp : list N)
    : res (token * list N) :=
  match inp with
  | [] => Throw ETokenise
  | c :: r =>
    if c =? 125 then
      match ty with
      | None =>
        if (mn =? 0) && (mx =? 0) then Throw ETokenise
        else if both && (mx <? mn) then Throw ETokenise
        else let x := lazy REPEATN AREPEATN r in Ok (t_of (fst x) extra, snd x)
      | Some ZEROORMORE => let x := lazy ZEROORMORE AZEROORMORE r in Ok (t_of (fst x) extra, snd x)
      | Some ONEORMORE => let x := lazy ONEORMORE AONEORMORE r in Ok (t_of (fst x) extra, snd x)
      | Some OPT => let x := lazy OPT AOPT r in Ok (t_of (fst x) extra, snd x)
      | Some t => Ok (t_of t extra, r)
      end
    else Throw ETokenise
  end.
(** tokeniser:540-728: repeat_n, after the opening brace. *)
Definition repeat_n (inp : list N) : res (token * list N) :=
  let '(mn, ds, r) := digits 0 inp in
  match r with
  | [] => Throw ETokenise
  | comma :: r1 =>
    if comma =? 44 then
      match r1 with
      | [] => Throw ETokenise
      | c :: _ =>
        if c =? 125 then
          repeat_end (if mn =? 0 then Some ZEROORMORE else if mn =? 1 then Some ONEORMORE else None)
                     mn 0 false (ds ++ [44]) r1
        else if is_digit c then
          let '(mx, es, r2) := digits 0 r1 in
          match r2 with
          | [] => Throw ETokenise
          | _ =>
            if (mn =? 0) && (mx =? 1) then repeat_end (Some OPT) mn mx true (ds ++ 44 :: es) r2
            else if mn =? mx then repeat_end None mn 0 false ds r2
            else repeat_end None mn mx true (ds ++ 44 :: es) r2
          end
        else Throw ETokenise
      end
    else repeat_end None mn 0 false ds r
  end.

(** tokeniser:730-784: macro, after the opening brace. *)
Definition name_first (c : N) : bool := (c =? 95) || is_alpha c.
Definition name_char (c : N) : bool := (c =? 95) || (c =? 45) || is_alpha c || is_digit c.
Fixpoint name_chars (inp : list N) : list N * list N :=
  match inp with
  | c :: r => if name_char c then let x := name_chars r in (c :: fst x, snd x) else ([], inp)
  | [] => ([], [])
  end.
Definition macro (inp : list N) : res (token * list N) :=
  match inp with
  | c :: r =>
    if name_first c then
      let x := name_chars r in
      match snd x with
      | d :: r' => if d =? 125 then Ok (t_of MACRO (c :: fst x), r') else Throw ETokenise
      | [] => Throw ETokenise
      end
    else Throw ETokenise
  | [] => Throw ETokenise
  end.

(** tokeniser:482-536: open_curly, after the brace; [lhs] is the type of the
    token before. *)
Definition open_curly (lhs : ttype) (inp : list N) : res (token * list N) :=
  match inp with
  | [] => Throw ETokenise
  | c :: r =>
    if (c =? 45) || (c =? 43) then
      if ttype_eqb lhs CHARSET then
        match r with
        | d :: r' => if d =? 125 then Ok (t_of DIFF [c], r') else Throw ETokenise
        | [] => Throw ETokenise
        end
      else Throw ETokenise
    else if is_digit c then repeat_n inp
    else macro inp
  end.

(** tokeniser:193-211: the class of a dot. *)
Definition dot_set (b fl : N) : stoken :=
  negate (max_char b)
    (if has fl rf_dot_not_newline then insert [] (10, 10)
     else if has fl rf_dot_not_cr_lf then insert (insert [] (10, 10)) (13, 13)
     else []).

(** tokeniser:84-236: the token that begins with [c]; the rest follows in [s]. *)
Definition on_char (b : N) (lhs : ttype) (c : N) (s : rstate) : res (token * rstate) :=
  let inp := rs_inp s in
  let ic := has (rs_flags s) rf_icase in
  if c =? 92 then do x <- escape b s; Ok (t_set (fst x), with_inp (snd x) s)
  else if rs_string s then Ok (t_set (add_range b ic [] (c, c)), s)
  else if c =? 40 then
    do s' <- read_options {| rs_inp := inp; rs_size := rs_size s; rs_flags := rs_flags s;
                             rs_stack := rs_stack s; rs_parens := rs_parens s + 1;
                             rs_string := false |};
    Ok (tok OPENPAREN, s')
  else if c =? 41 then
    if rs_parens s =? 0 then Throw ETokenise
    else
      Ok (tok CLOSEPAREN,
          match rs_stack s with
          | [] => {| rs_inp := inp; rs_size := rs_size s; rs_flags := rs_flags s; rs_stack := [];
                     rs_parens := rs_parens s - 1; rs_string := false |}
          | f :: st => {| rs_inp := inp; rs_size := rs_size s; rs_flags := f; rs_stack := st;
                          rs_parens := rs_parens s - 1; rs_string := false |}
          end)
  else if c =? 63 then let x := lazy OPT AOPT inp in Ok (tok (fst x), with_inp (snd x) s)
  else if c =? 42 then let x := lazy ZEROORMORE AZEROORMORE inp in Ok (tok (fst x), with_inp (snd x) s)
  else if c =? 43 then let x := lazy ONEORMORE AONEORMORE inp in Ok (tok (fst x), with_inp (snd x) s)
  else if c =? 123 then do x <- open_curly lhs inp; Ok (fst x, with_inp (snd x) s)
  else if c =? 124 then Ok (tok OR, s)
  else if c =? 94 then
    if Nat.eqb (rs_size s) (S (length inp)) then Ok (tok BOL, s)
    else Ok (t_set (insert [] (c, c)), s)
  else if c =? 36 then
    match inp with
    | [] => Ok (tok EOL, s)
    | _ => Ok (t_set (insert [] (c, c)), s)
    end
  else if c =? 46 then Ok (t_set (dot_set b (rs_flags s)), s)
  else if c =? 91 then
    do x <- charset nesting b ic inp; Ok (t_set (fst x), with_inp (snd x) s)
  else if c =? 47 then Throw ETokenise
  else Ok (t_set (add_range b ic [] (c, c)), s).

(** tokeniser:30-236: next. *)
Definition next (b : N) (lhs : ttype) (s : rstate) : res (token * rstate) :=
  do x <- match rs_inp s with
          | [] => Ok (None, [], rs_string s)
          | c :: r => lead (S (length r)) (rs_flags s) c r (rs_string s)
          end;
  let '(oc, r, str) := x in
  let s1 := {| rs_inp := r; rs_size := rs_size s; rs_flags := rs_flags s; rs_stack := rs_stack s;
               rs_parens := rs_parens s; rs_string := str |} in
  match oc with
  | None =>
    if str then Throw ETokenise
    else if negb (rs_parens s =? 0) then Throw ETokenise
    else Ok (tok END, s1)
  | Some c => on_char b lhs c s1
  end.
