(** Model of debug.hpp: the text that debug::dump writes for a machine.
    Not modelled: dump(rules&, ostream&) (debug.hpp:37-141), which calls
    std::search on vectors of basic_re_token (304-307); that struct
    (re_token.hpp:28-125) has no operator==, so the function cannot be
    instantiated. *)
From Verif Require Import Base StringToken ReTokeniser Rules GenCpp CharMachine.
From Coq Require Import String.
Local Open Scope N_scope.
Local Open Scope list_scope.

(** string_token.hpp:328-401: escape_char. [base] is the base stream_num
    (stream_num.hpp:16-43) writes in after std::hex: 16 for char and wchar_t; the
    version for char32_t formats with a stream of its own, in base 10. *)
Definition escape_char (base c : N) : list N :=
  if c =? 0 then [92; 48]
  else if c =? 7 then [92; 97]
  else if c =? 8 then [92; 98]
  else if c =? 27 then [92; 120; 49; 98]
  else if c =? 12 then [92; 102]
  else if c =? 10 then [92; 110]
  else if c =? 13 then [92; 114]
  else if c =? 9 then [92; 116]
  else if c =? 11 then [92; 118]
  else if c =? 92 then [92; 92]
  else if c =? 34 then [92; 34]
  else if c =? 39 then [92; 39]
  else if (c <? 32) || (126 <? c) then 92 :: 120 :: print base c
  else [c].

Definition has_char (c : N) (l : list N) : bool := existsb (N.eqb c) l.
(** debug.hpp:446-480: an opening bracket, or a backslash in front of some
    characters that stand alone. *)
Definition opening (t : stoken) : res (list N) :=
  match t with
  | [] => UB
  | (a, b) :: t' =>
    match t' with
    | _ :: _ => Ok [91]
    | [] => if a =? b then Ok (if has_char a (txt "|()?*+{}[]./") then [92] else []) else Ok [91]
    end
  end.
(** debug.hpp:491-522: one range. The backslashes go to the stream at once, the
    characters when the range is done. *)
Definition dump_range (base : N) (r : range) : list N :=
  let (a, b) := r in
  let p := if (a =? 45) || (a =? 94) || ((a =? 93) && negb (a =? b)) then [92] else [] in
  if a =? b then p ++ escape_char base a
  else
    p ++ (if (b =? 45) || (b =? 94) || (b =? 93) then [92] else []) ++
    escape_char base a ++ (if a + 1 <? b then [45] else []) ++ escape_char base b.
(** debug.hpp:524-528. front() of an empty vector is undefined. *)
Definition closing (negated : bool) (t : stoken) : res (list N) :=
  match t with
  | [] => if negated then Ok [93] else UB
  | (a, b) :: t' =>
    match t' with
    | _ :: _ => Ok [93]
    | [] => if negated || negb (a =? b) then Ok [93] else Ok []
    end
  end.
(** debug.hpp:443-529: dump_charset. [max] is char_traits::max_val. *)
Definition dump_charset (max base : N) (t : stoken) : res (list N) :=
  do o <- opening t;
  let neg := negb (any max t) && negatable max t in
  let u := if neg then negate max t else t in
  do c <- closing neg u;
  Ok (o ++ (if neg then [94] else []) ++ flat_map (dump_range base) u ++ c).

(** debug.hpp:373-381: dump_transition. *)
Definition newline : list N := [10].
Definition dump_transition (max base : N) (tr : N * stoken) : res (list N) :=
  do s <- dump_charset max base (snd tr);
  Ok (txt "  " ++ s ++ txt " -> " ++ print 10 (fst tr) ++ newline).
Fixpoint dump_transitions (max base : N) (l : list (N * stoken)) : res (list N) :=
  match l with
  | [] => Ok []
  | x :: l' => do a <- dump_transition max base x; do b <- dump_transitions max base l'; Ok (a ++ b)
  end.
(** debug.hpp:313-371: dump_ex, one state. *)
Definition dump_end (s : cstate) : list N :=
  if cs_end s then
    txt "  END STATE" ++
    match cs_kind s with
    | KPush => txt ", PUSH " ++ print 10 (cs_push s)
    | KPop => txt ", POP"
    | KNeither => []
    end ++
    txt ", Id = " ++ print 10 (cs_id s) ++ txt ", User Id = " ++ print 10 (cs_uid s) ++
    txt ", dfa = " ++ print 10 (cs_next s) ++ newline
  else [].
Definition dump_index (npos : N) (label : string) (i : N) : list N :=
  if i =? npos then [] else txt label ++ print 10 i ++ newline.
Definition dump_state (npos max base bol i : N) (s : cstate) : res (list N) :=
  do tr <- dump_transitions max base (cs_trans s);
  Ok (txt "State: " ++ print 10 i ++ newline ++ dump_end s ++
      (if i =? 0 then dump_index npos "  BOL -> " bol else []) ++
      dump_index npos "  EOL -> " (cs_eol s) ++ tr ++ newline).
Fixpoint dump_states (npos max base bol i : N) (l : list cstate) : res (list N) :=
  match l with
  | [] => Ok []
  | s :: l' => do a <- dump_state npos max base bol i s; do b <- dump_states npos max base bol (i + 1) l'; Ok (a ++ b)
  end.
Definition dump_ex (npos max base : N) (d : cdfa) : res (list N) :=
  dump_states npos max base (cd_bol d) 0 (cd_states d).

(** debug.hpp:168-195: dump of a machine; [name] gives what stands for a lexer
    state: its number (182-195), or rules_.state of it (168-180), a null pointer
    if there is none. *)
Fixpoint dump_csm (npos max base : N) (name : N -> option (list N)) (i : N) (l : list cdfa) : res (list N) :=
  match l with
  | [] => Ok []
  | d :: l' =>
    match name i with
    | None => UB
    | Some n =>
      do a <- dump_ex npos max base d;
      do b <- dump_csm npos max base name (i + 1) l';
      Ok (txt "Lexer state: " ++ n ++ newline ++ newline ++ a ++ b)
    end
  end.
Definition dump_numbered (npos max base : N) (l : list cdfa) : res (list N) :=
  dump_csm npos max base (fun i => Some (print 10 i)) 0 l.
Definition dump_named (npos max base : N) (r : rules) (l : list cdfa) : res (list N) :=
  dump_csm npos max base (fun i => state_name i r) 0 l.
