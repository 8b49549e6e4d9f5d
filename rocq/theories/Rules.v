(** Model of include/lexertl/rules.hpp and include/lexertl/abstemious.hpp: from
    regex texts to the token vectors and tables handed to the generator.
    Vectors are lists; reading outside a vector is [UB]. *)
From Coq Require Import String.
From Verif Require Import Base StringToken StateMachine Tree Generator ReToken Parser Build ReTokeniser.
Local Open Scope N_scope.

(** ** Tokenising one regex *)
Definition macros := list (list N * list token).
Fixpoint macro_find (name : list N) (m : macros) : option (list token) :=
  match m with
  | [] => None
  | (n, t) :: m' => if text_eqb name n then Some t else macro_find name m'
  end.
Definition is_type (ty : ttype) (t : token) : bool := ttype_eqb (tk_type t) ty.
(** open_ and close_ of process_macro (rules.hpp:742-745, 790-793). *)
Definition paren_open : token := {| tk_type := OPENPAREN; tk_extra := []; tk_str := [(40, 40)] |}.
Definition paren_close : token := {| tk_type := CLOSEPAREN; tk_extra := []; tk_str := [(41, 41)] |}.

(** rules.hpp:674-797: process_macro. [acc] is tokens_ in reverse, [at_end] tells
    if state_._curr is the end of the regex. Result: macro tokens to append and
    rhs_. *)
Definition process_macro (ms : macros) (acc : list token) (rhs : token) (at_end : bool)
    (diff : option N) : res (list token * token) :=
  match macro_find (tk_extra rhs) ms with
  | None => Throw EMacro
  | Some mt =>
    let n := length mt in
    match nth_error mt 1, (if Nat.leb 2 n then nth_error mt (n - 2) else None) with
    | Some first, Some second =>
      let multiple := Nat.ltb 3 n in
      let bol := Nat.eqb (length acc) 1 && is_type BOL first in
      let caret := negb bol && is_type BOL first in
      let eol := at_end && is_type EOL second in
      let dollar := negb eol && is_type EOL second in
      match diff with
      | Some _ => if multiple then Throw EDiff else Ok ([], first)
      | None =>
        let start := if caret then 2%nat else 1%nat in
        let stop := if dollar then 2%nat else 1%nat in
        let body := (if caret then [t_set [(94, 94)]] else []) ++
                    firstn (n - start - stop) (skipn start mt) ++
                    (if dollar then [t_set [(36, 36)]] else []) in
        Ok (if multiple && negb (bol || eol) then paren_open :: body ++ [paren_close] else body, rhs)
      end
    | _, _ => UB
    end
  end.

(** rules.hpp:833-891: check_diff. *)
Definition check_diff (lhs rhs : token) (d : N) : res token :=
  if is_type CHARSET rhs then
    if d =? 45 then
      do s <- remove (tk_str lhs) (tk_str rhs);
      match s with
      | [] => Throw EDiff
      | _ => Ok {| tk_type := tk_type lhs; tk_extra := tk_extra lhs; tk_str := s |}
      end
    else Ok {| tk_type := tk_type lhs; tk_extra := tk_extra lhs;
               tk_str := insert_token (tk_str lhs) (tk_str rhs) |}
  else Throw EDiff.

(** rules.hpp:519-552: the loop of tokenise(). [acc] is tokens_ in reverse. *)
Fixpoint tok_loop (fuel : nat) (b : N) (ms : macros) (s : rstate) (acc : list token)
    (mac : list N) (diff : option N) : res (list token) :=
  match fuel, acc with
  | O, _ => Fuel
  | _, [] => UB
  | S f, lhs :: acc' =>
    do x <- next b (tk_type lhs) s;
    let '(rhs, s') := x in
    if is_type DIFF rhs then                                        (* 535-539, 799-831 *)
      do u <- match mac with
              | [] => Ok tt
              | _ => match macro_find mac ms with
                     | None => UB
                     | Some mt => if Nat.ltb 3 (length mt) then Throw EDiff else Ok tt
                     end
              end;
      do d <- of_opt (nth_error (tk_extra rhs) 0);
      tok_loop f b ms s' acc [] (Some d)
    else
      match precedence (tk_type lhs) (tk_type rhs) with             (* 644-672 *)
      | None => UB
      | Some N_ => Throw ESyntax
      | Some _ =>
        do y <- (if is_type MACRO rhs then
                   do z <- process_macro ms acc rhs
                             (match rs_inp s' with [] => true | _ => false end) diff;
                   Ok (rev (fst z) ++ acc, snd z, tk_extra rhs)
                 else
                   match diff with
                   | None => Ok (rhs :: acc, rhs, [])
                   | Some _ => Ok (acc, rhs, mac)
                   end);
        let '(acc1, rhs1, mac1) := y in
        do acc2 <- match diff with
                   | None => Ok acc1
                   | Some d => do l <- check_diff lhs rhs1 d; Ok (l :: acc')
                   end;
        match acc2 with
        | [] => UB
        | t :: _ => if is_type END t then Ok (rev acc2) else tok_loop f b ms s' acc2 mac1 None
        end
      end
  end.

(** rules.hpp:595-619: balanced_parens. *)
Fixpoint balanced_parens (n : nat) (l : list token) : bool :=
  match l with
  | [] => Nat.eqb n 0
  | t :: l' =>
    match tk_type t with
    | OPENPAREN => balanced_parens (S n) l'
    | CLOSEPAREN => match n with O => false | S n' => balanced_parens n' l' end
    | _ => balanced_parens n l'
    end
  end.

(** rules.hpp:572-593: strip_parens. [l] is tokens_, with BEGIN and END. *)
Fixpoint strip_loop (fuel : nat) (l : list token) : list token :=
  match fuel with
  | O => l
  | S f =>
    match nth_error l 1, nth_error l (length l - 2) with
    | Some o, Some c =>
      let inner := firstn (length l - 4) (skipn 2 l) in
      if Nat.ltb 1 (length l - 2) && is_type OPENPAREN o && is_type CLOSEPAREN c &&
         balanced_parens 0 inner
      then strip_loop f (firstn 1 l ++ inner ++ skipn (length l - 1) l)
      else l
    | _, _ => l
    end
  end.
Definition strip_parens (l : list token) : list token := strip_loop (length l) l.

(** rules.hpp:621-642: record_abstemious; the indexes from the last to the first
    (they are used from the back). *)
Definition lazy_indexes (l : list token) : list nat :=
  rev (filter (fun i => match nth_error l i with Some t => lazy_type (tk_type t) | None => false end)
              (seq 0 (length l))).

(** ** abstemious.hpp *)
(** 98-132: end_block, from idx_ on. *)
Fixpoint end_block (l : list token) (idx : nat) (parens : nat) : nat :=
  match l with
  | [] => idx
  | t :: l' =>
    match tk_type t with
    | OR => if Nat.eqb parens 0 then idx else end_block l' (S idx) parens
    | OPENPAREN => end_block l' (S idx) (S parens)
    | CLOSEPAREN => if Nat.eqb parens 0 then idx else end_block l' (S idx) (parens - 1)
    | END => idx
    | _ => end_block l' (S idx) parens
    end
  end.
(** 72-96: is_end. end_block is called with idx_ + 1 and starts one further. *)
Fixpoint is_end_loop (fuel : nat) (l : list token) (idx : nat) : res bool :=
  match fuel with
  | O => Fuel
  | S f =>
    match nth_error l idx with
    | None => Ok true
    | Some t =>
      match tk_type t with
      | OR => is_end_loop f l (end_block (skipn (idx + 2) l) (idx + 2) 0)
      | CLOSEPAREN => is_end_loop f l (S idx)
      | END => Ok true
      | _ => Ok false
      end
    end
  end.
Definition is_end (l : list token) (start : nat) : res bool := is_end_loop (S (length l)) l (S start).

(** 140-161: from the token before the operator back to the beginning of its
    operand. *)
Fixpoint block_begin (fuel : nat) (l : list token) (i parens : nat) : res nat :=
  match fuel with
  | O => Fuel
  | S f =>
    match i with
    | O => UB
    | S j =>
      match nth_error l j with
      | None => UB
      | Some t =>
        match tk_type t with
        | OPENPAREN => if Nat.eqb parens 1 then Ok j else block_begin f l j (parens - 1)
        | CLOSEPAREN => block_begin f l j (S parens)
        | _ => block_begin f l j parens
        end
      end
    end
  end.
(** 170-177: take in surrounding parentheses. *)
Fixpoint widen (fuel : nat) (l : list token) (start idx : nat) : res (nat * nat) :=
  match fuel with
  | O => Fuel
  | S f =>
    match start with
    | O => UB
    | S s =>
      match nth_error l s, nth_error l (S idx) with
      | Some o, Some c =>
        if is_type OPENPAREN o && is_type CLOSEPAREN c then widen f l s (S idx)
        else Ok (start, idx)
      | Some o, None => if is_type OPENPAREN o then UB else Ok (start, idx)
      | None, _ => UB
      end
    end
  end.
(** 134-188: remove_sequence. Result: tokens_, start_, idx_. *)
Definition remove_sequence (l : list token) (idx : nat) : res (list token * nat * nat) :=
  match idx with
  | O => UB
  | S i =>
    match nth_error l i with
    | None => UB
    | Some t =>
      do st <- (if is_type CLOSEPAREN t then block_begin (S (length l)) l i 1 else Ok i);
      do w <- widen (S (length l)) l st idx;
      let '(start, idx') := w in
      let l1 := firstn start l ++ skipn (S idx') l in
      match nth_error l1 start with
      | None => UB
      | Some u =>
        if is_type OR u then Ok (erase_at l1 start, start, idx')
        else if is_type BEGIN u then Ok (l1, start, idx')
        else
          match nth_error l1 (start - 1) with
          | Some v => Ok (if is_type OR v then erase_at l1 (start - 1) else l1, start, idx')
          | None => UB
          end
      end
    end
  end.

(** std::string::substr(0, find(',')). *)
Fixpoint to_comma (s : list N) : list N :=
  match s with [] => [] | c :: s' => if c =? 44 then [] else c :: to_comma s' end.
Definition set_tok (l : list token) (i : nat) (t : token) : list token := upd l i t.

(** 24-69: prune; the indexes from the last to the first. *)
Definition prune_one (l : list token) (start : nat) : res (list token * nat * nat) :=
  do e <- is_end l start;
  if e then
    match nth_error l start with
    | None => UB
    | Some op =>
      match tk_type op with
      | AOPT | AZEROORMORE => remove_sequence l start
      | AONEORMORE => Ok (erase_at l start, start, start)
      | AREPEATN =>
        let x := to_comma (tk_extra op) in
        let l1 := upd l start {| tk_type := REPEATN; tk_extra := x; tk_str := tk_str op |} in
        if text_eqb x [48] then remove_sequence l1 start else Ok (l1, start, start)
      | _ => Ok (l, start, start)
      end
    end
  else Ok (l, start, start).
Fixpoint drop_inside (lo hi : nat) (is : list nat) : list nat :=
  match is with
  | i :: is' => if Nat.leb lo i && Nat.leb i hi then drop_inside lo hi is' else is
  | [] => []
  end.
Fixpoint prune_loop (fuel : nat) (l : list token) (is : list nat) : res (list token) :=
  match fuel, is with
  | _, [] => Ok l
  | O, _ => Fuel
  | S f, i :: is' =>
    do x <- prune_one l i;
    let '(l', start, idx) := x in
    prune_loop f l' (drop_inside start idx is')
  end.
Definition prune (l : list token) : res (list token) :=
  let is := lazy_indexes l in prune_loop (length is) l is.

(** ** The rest of rules.hpp *)
(** 917-967: split. [cur] holds the tokens of the current part in reverse. *)
Definition part (cur : list token) : list token := tok BEGIN :: rev cur ++ [tok END].
Fixpoint split_loop (l : list token) (parens : nat) (cur : list token) : res (list (list token)) :=
  match l with
  | [] => Ok []
  | t :: l' =>
    match tk_type t with
    | OPENPAREN => split_loop l' (S parens) (t :: cur)
    | CLOSEPAREN => match parens with O => UB | S n => split_loop l' n (t :: cur) end
    | OR =>
      if Nat.eqb parens 0 then do x <- split_loop l' 0 []; Ok (part cur :: x)
      else split_loop l' parens (t :: cur)
    | END => do x <- split_loop l' parens (t :: cur); Ok (part cur :: x)
    | _ => split_loop l' parens (t :: cur)
    end
  end.
Definition split (l : list token) : res (list (list token)) := split_loop (tl l) 0 [].

(** 505-570: tokenise. [rule] is false for a macro (name_ is set). *)
Definition start_state (flags : N) (regex : list N) : rstate :=
  {| rs_inp := regex; rs_size := length regex; rs_flags := flags; rs_stack := [];
     rs_parens := 0; rs_string := false |}.
Definition tokenise (b : N) (flags : N) (ms : macros) (regex : list N) (rule : bool)
    : res (list (list token)) :=
  do ts <- tok_loop (S (length regex)) b ms (start_state flags regex) [tok BEGIN] [] None;
  let ts1 := strip_parens ts in
  do ts2 <- (if rule then prune ts1 else Ok ts1);
  if Nat.eqb (length ts2) 2 && negb (has flags rf_match_zero_len) then Throw EEmptyRegex
  else if rule && has_lazy ts2 then split ts2
  else Ok [ts2].

(** 969-1050: reverse of one token vector. [l] is the vector from the back; the
    stack holds the operators to put behind a group. *)
Definition retype (ty : ttype) (t : token) : token :=
  {| tk_type := ty; tk_extra := tk_extra t; tk_str := tk_str t |}.
Fixpoint rev_loop (l : list token) (stack : list (option token)) : res (list token) :=
  match l with
  | [] => Ok []
  | t :: l' =>
    match tk_type t with
    | BEGIN => do x <- rev_loop l' stack; Ok (retype END t :: x)
    | BOL => do x <- rev_loop l' stack; Ok (retype EOL t :: x)
    | EOL => do x <- rev_loop l' stack; Ok (retype BOL t :: x)
    | OPENPAREN =>
      match stack with
      | [] => UB
      | None :: st => do x <- rev_loop l' st; Ok (retype CLOSEPAREN t :: x)
      | Some o :: st => do x <- rev_loop l' st; Ok (retype CLOSEPAREN t :: o :: x)
      end
    | CLOSEPAREN => do x <- rev_loop l' (None :: stack); Ok (retype OPENPAREN t :: x)
    | OPT | AOPT | ZEROORMORE | AZEROORMORE | ONEORMORE | AONEORMORE | REPEATN | AREPEATN =>
      match l' with
      | [] => UB
      | u :: l'' =>
        if is_type CLOSEPAREN u then
          do x <- rev_loop l'' (Some t :: stack); Ok (retype OPENPAREN u :: x)
        else do x <- rev_loop l'' stack; Ok (u :: t :: x)
      end
    | END => do x <- rev_loop l' stack; Ok (retype BEGIN t :: x)
    | _ => do x <- rev_loop l' stack; Ok (t :: x)
    end
  end.
(** new_vector_ starts with default tokens (BEGIN). *)
Definition reverse_tokens (l : list token) : res (list token) :=
  do x <- rev_loop (rev l) []; Ok (x ++ repeat (tok BEGIN) (length l - length x)).

(** ** The object *)
(** rules.hpp:491-503. The maps are association lists; a regex string is the
    regex (narrow() is not modelled). *)
Record rules := {
  ru_map : list (list N * N);
  ru_macros : macros;
  ru_regexes : list (list (list token));
  ru_strings : list (list (list N));
  ru_features : list N;
  ru_ids : list (list N);
  ru_uids : list (list N);
  ru_nexts : list (list N);
  ru_pushes : list (list N);
  ru_pops : list (list bool);
  ru_flags : N;
  ru_names : list (list N)
}.
(** A member function: the object afterwards and how the call ended. *)
Definition call (A : Type) := (rules * res A)%type.

(** Template arguments: bytes of char_type and bits of id_type. *)
Record rcfg := { r_bytes : N; r_bits : N }.
Definition rnpos (k : rcfg) : N := npos_of (r_bits k).
Definition rskip (k : rcfg) : N := rnpos k - 1.

(** 1254-1292: validate. *)
Definition validate (name : list N) : bool :=
  match name with
  | c :: r => name_first c && forallb name_char r
  | [] => false
  end.
Definition initial : list N := txt "INITIAL".
Fixpoint map_get (name : list N) (m : list (list N * N)) : option N :=
  match m with
  | [] => None
  | (n, i) :: m' => if text_eqb name n then Some i else map_get name m'
  end.

(** 196-231: push_state. *)
Definition push_state (k : rcfg) (name : list N) (r : rules) : call N :=
  if validate name then
    match map_get name (ru_map r) with
    | Some i => (r, Ok i)
    | None =>
      let r' :=
        {| ru_map := ru_map r ++ [(name, N.of_nat (length (ru_map r)) mod 2 ^ r_bits k)];
           ru_macros := ru_macros r;
           ru_regexes := ru_regexes r ++ [[]]; ru_strings := ru_strings r ++ [[]];
           ru_features := ru_features r ++ [0]; ru_ids := ru_ids r ++ [[]];
           ru_uids := ru_uids r ++ [[]]; ru_nexts := ru_nexts r ++ [[]];
           ru_pushes := ru_pushes r ++ [[]]; ru_pops := ru_pops r ++ [[]];
           ru_flags := ru_flags r;
           ru_names := ru_names r ++ (if text_eqb name initial then [] else [name]) |} in
      if rnpos k <? N.of_nat (length (ru_nexts r')) then (r', Throw EOverflow)
      else (r', Ok (N.of_nat (length (ru_names r')) mod 2 ^ r_bits k))
    end
  else (r, Throw EBadName).

Definition no_rules (flags : N) : rules :=
  {| ru_map := []; ru_macros := []; ru_regexes := []; ru_strings := []; ru_features := [];
     ru_ids := []; ru_uids := []; ru_nexts := []; ru_pushes := []; ru_pops := [];
     ru_flags := flags; ru_names := [] |}.
(** 70-79: the constructor; 85-104: clear(). *)
Definition make_rules (k : rcfg) (flags : N) : rules := fst (push_state k initial (no_rules flags)).
Definition clear (k : rcfg) (r : rules) : rules := make_rules k rf_dot_not_newline.

(** 106-120: clear(dfa_). *)
Definition clear_state (i : nat) (r : rules) : rules :=
  if Nat.ltb i (length (ru_regexes r)) then
    {| ru_map := ru_map r; ru_macros := ru_macros r;
       ru_regexes := upd (ru_regexes r) i []; ru_strings := upd (ru_strings r) i [];
       ru_features := upd (ru_features r) i 0; ru_ids := upd (ru_ids r) i [];
       ru_uids := upd (ru_uids r) i []; ru_nexts := upd (ru_nexts r) i [];
       ru_pushes := upd (ru_pushes r) i []; ru_pops := upd (ru_pops r) i [];
       ru_flags := ru_flags r; ru_names := ru_names r |}
  else r.

(** 160-179: state(index_); 181-194: state(name_). *)
Definition state_name (i : N) (r : rules) : option (list N) :=
  if i =? 0 then Some initial else nth_error (ru_names r) (N.to_nat (i - 1)).
Definition state_index (k : rcfg) (name : list N) (r : rules) : N :=
  match map_get name (ru_map r) with Some i => i | None => rnpos k end.

(** 122-125: flags(flags_). *)
Definition set_flags (f : N) (r : rules) : rules :=
  {| ru_map := ru_map r; ru_macros := ru_macros r; ru_regexes := ru_regexes r;
     ru_strings := ru_strings r; ru_features := ru_features r; ru_ids := ru_ids r;
     ru_uids := ru_uids r; ru_nexts := ru_nexts r; ru_pushes := ru_pushes r; ru_pops := ru_pops r;
     ru_flags := f; ru_names := ru_names r |}.

Definition with_macros (m : macros) (r : rules) : rules :=
  {| ru_map := ru_map r; ru_macros := m; ru_regexes := ru_regexes r;
     ru_strings := ru_strings r; ru_features := ru_features r; ru_ids := ru_ids r;
     ru_uids := ru_uids r; ru_nexts := ru_nexts r; ru_pushes := ru_pushes r; ru_pops := ru_pops r;
     ru_flags := ru_flags r; ru_names := ru_names r |}.
(** 246-270: insert_macro. The entry is made before the text is tokenised. *)
Definition insert_macro (k : rcfg) (name regex : list N) (r : rules) : call unit :=
  if validate name then
    match macro_find name (ru_macros r) with
    | Some _ => (r, Throw EMacro)
    | None =>
      let ms := ru_macros r ++ [(name, [])] in
      match tokenise (r_bytes k) (ru_flags r) ms regex false with
      | Ok [] => (with_macros ms r, UB)
      | Ok (x :: xs) => (with_macros (ru_macros r ++ [(name, last xs x)]) r, Ok tt)
      | Throw e => (with_macros ms r, Throw e)
      | UB => (with_macros ms r, UB)
      | Fuel => (with_macros ms r, Fuel)
      end
    end
  else (r, Throw EBadName).

(** 1294-1306: check_for_invalid_id. *)
Definition bad_id (k : rcfg) (id : N) : bool := (id =? 0) || (id =? rnpos k).

(** push_back on one of the vectors of start state [i]. *)
Definition append {A} (l : list (list A)) (i : nat) (xs : list A) : list (list A) :=
  upd l i (nth i l [] ++ xs).
(** 310-331 and 1200-1250: the rule's token vectors [v] go to state [i]. [head] is
    the vector whose first token decides about the bol bit: front() in push
    (310), back() in push with states (1205). *)
Definition feature_bits (k : rcfg) (head back : list token) (id : N) (rec : bool) : res N :=
  match nth_error head 1, nth_error back (length back - 2) with
  | Some f, Some l =>
    Ok (N.lor (N.lor (if is_type BOL f then fb_bol else 0) (if is_type EOL l then fb_eol else 0))
              (N.lor (if id =? rskip k then fb_skip else if id =? 0 then fb_again else 0)
                     (if rec then fb_rec else 0)))
  | _, _ => UB
  end.
Definition add_rules (i : nat) (regex : list N) (v : list (list token)) (bits id uid next push : N)
    (pop : bool) (r : rules) : rules :=
  let all {A} (x : A) := map (fun _ => x) v in
  {| ru_map := ru_map r; ru_macros := ru_macros r;
     ru_regexes := append (ru_regexes r) i v;
     ru_strings := append (ru_strings r) i (all regex);
     ru_features := upd (ru_features r) i (N.lor (nth i (ru_features r) 0) bits);
     ru_ids := append (ru_ids r) i (all id);
     ru_uids := append (ru_uids r) i (all uid);
     ru_nexts := append (ru_nexts r) i (all next);
     ru_pushes := append (ru_pushes r) i (all push);
     ru_pops := append (ru_pops r) i (all pop);
     ru_flags := ru_flags r; ru_names := ru_names r |}.

(** 292-332: push to INITIAL. *)
Definition push_rule (k : rcfg) (regex : list N) (id uid : N) (r : rules) : call unit :=
  if bad_id k id then (r, Throw EBadId)
  else
    match tokenise (r_bytes k) (ru_flags r) (ru_macros r) regex true with
    | Ok [] => (r, UB)
    | Ok (x :: xs) =>
      match feature_bits k x (last xs x) id false with
      | Ok bits => (add_rules 0 regex (x :: xs) bits id uid 0 (rnpos k) false r, Ok tt)
      | Throw e => (r, Throw e) | UB => (r, UB) | Fuel => (r, Fuel)
      end
    | Throw e => (r, Throw e)
    | UB => (r, UB)
    | Fuel => (r, Fuel)
    end.

(** 1076-1149: the exit state: what follows in new_dfa_. *)
Inductive exit_state := XSame | XPop | XGo (next : N) | XPush (next : N) (to : option N).
Fixpoint at_colon (s : list N) : list N * option (list N) :=
  match s with
  | [] => ([], None)
  | c :: s' => if c =? 58 then ([], Some s') else let x := at_colon s' in (c :: fst x, snd x)
  end.
Definition get_state (name : list N) (r : rules) : res N :=
  match map_get name (ru_map r) with Some i => Ok i | None => Throw EUnknownState end.
Definition parse_exit (s : list N) (r : rules) : res exit_state :=
  if text_eqb s [46] then Ok XSame
  else
    match s with
    | 60 :: _ => Ok XPop
    | _ =>
      let push := peek s =? 62 in
      let x := at_colon (if push then tl s else s) in
      if validate (fst x) then
        match snd x with
        | None => do n <- get_state (fst x) r; Ok (if push then XPush n None else XGo n)
        | Some p =>
          if push then
            if validate p then
              do n <- get_state (fst x) r; do q <- get_state p r; Ok (XPush n (Some q))
            else Throw EBadName
          else Throw EBadName
        end
      else Throw EBadName
    end.

(** 1160-1194: the list of start states. *)
Fixpoint at_commas (s cur : list N) : list (list N) :=
  match s with
  | [] => match cur with [] => [] | _ => [rev cur] end
  | c :: s' => if c =? 44 then rev cur :: at_commas s' [] else at_commas s' (c :: cur)
  end.
Fixpoint get_states (names : list (list N)) (r : rules) : res (list N) :=
  match names with
  | [] => Ok []
  | n :: ns =>
    if validate n then do i <- get_state n r; do is <- get_states ns r; Ok (i :: is)
    else Throw EBadName
  end.
Definition parse_states (k : rcfg) (s : list N) (r : rules) : res (list N) :=
  if text_eqb s [42] then
    Ok (map N.of_nat (seq 0 (N.to_nat (N.of_nat (length (ru_map r)) mod 2 ^ r_bits k))))
  else get_states (at_commas s []) r.

(** 1196-1251: one state after the other. *)
Definition exit_next (e : exit_state) (cur : N) (k : rcfg) : N :=
  match e with XSame => cur | XPop => rnpos k | XGo n => n | XPush n _ => n end.
Definition exit_push (e : exit_state) (cur : N) (k : rcfg) : N :=
  match e with XPush _ (Some q) => q | XPush _ None => cur | _ => rnpos k end.
Definition exit_rec (e : exit_state) : bool :=
  match e with XPush _ _ | XPop => true | _ => false end.
Definition exit_pop (e : exit_state) : bool := match e with XPop => true | _ => false end.
Fixpoint push_each (k : rcfg) (regex : list N) (id uid : N) (e : exit_state) (is : list N)
    (r : rules) : call unit :=
  match is with
  | [] => (r, Ok tt)
  | i :: is' =>
    match tokenise (r_bytes k) (ru_flags r) (ru_macros r) regex true with
    | Ok [] => (r, UB)
    | Ok (x :: xs) =>
      match feature_bits k (last xs x) (last xs x) id (exit_rec e) with
      | Ok bits =>
        if Nat.ltb (N.to_nat i) (length (ru_regexes r)) then
          push_each k regex id uid e is'
            (add_rules (N.to_nat i) regex (x :: xs) bits id uid (exit_next e i k) (exit_push e i k)
                       (exit_pop e) r)
        else (r, UB)
      | Throw er => (r, Throw er) | UB => (r, UB) | Fuel => (r, Fuel)
      end
    | Throw er => (r, Throw er)
    | UB => (r, UB)
    | Fuel => (r, Fuel)
    end
  end.
(** 1052-1252: push with start states. [check]: the rule has an id. *)
Definition push_states (k : rcfg) (cur regex : list N) (id : N) (new : list N) (check : bool) (uid : N)
    (r : rules) : call unit :=
  if check && bad_id k id then (r, Throw EBadId)
  else
    match parse_exit new r with
    | Ok e =>
      match parse_states k cur r with
      | Ok is => push_each k regex id uid e is r
      | Throw er => (r, Throw er) | UB => (r, UB) | Fuel => (r, Fuel)
      end
    | Throw er => (r, Throw er) | UB => (r, UB) | Fuel => (r, Fuel)
    end.

(** 386-400: reverse(). *)
Fixpoint reverse_all (l : list (list token)) : res (list (list token)) :=
  match l with
  | [] => Ok []
  | x :: l' => do y <- reverse_tokens x; do ys <- reverse_all l'; Ok (y :: ys)
  end.
Fixpoint reverse_states (l : list (list (list token))) : res (list (list (list token))) :=
  match l with
  | [] => Ok []
  | x :: l' => do y <- reverse_all x; do ys <- reverse_states l'; Ok (y :: ys)
  end.
Fixpoint reverse_macros (m : macros) : res macros :=
  match m with
  | [] => Ok []
  | (n, t) :: m' => do y <- reverse_tokens t; do ys <- reverse_macros m'; Ok ((n, y) :: ys)
  end.
Definition reverse (r : rules) : res rules :=
  do x <- reverse_states (ru_regexes r);
  do m <- reverse_macros (ru_macros r);
  Ok {| ru_map := ru_map r; ru_macros := m; ru_regexes := x; ru_strings := ru_strings r;
        ru_features := ru_features r; ru_ids := ru_ids r; ru_uids := ru_uids r;
        ru_nexts := ru_nexts r; ru_pushes := ru_pushes r; ru_pops := ru_pops r;
        ru_flags := ru_flags r; ru_names := ru_names r |}.

(** ** Calls of the public members that change the object *)
Inductive op :=
| OState (name : list N)
| OMacro (name regex : list N)
| OPush (regex : list N) (id uid : N)
| OPushIn (cur regex : list N) (id : N) (new : list N) (uid : N)
| OPushNoId (cur regex new : list N)
| OClear
| OClearState (i : nat)
| OFlags (f : N)
| OReverse.
Definition apply (k : rcfg) (o : op) (r : rules) : call unit :=
  match o with
  | OState n => let x := push_state k n r in (fst x, do y <- snd x; Ok tt)
  | OMacro n x => insert_macro k n x r
  | OPush x id uid => push_rule k x id uid r
  | OPushIn c x id n uid => push_states k c x id n true uid r
  | OPushNoId c x n => push_states k c x 0 n false (rnpos k) r       (* 347-351 *)
  | OClear => (clear k r, Ok tt)
  | OClearState i => (clear_state i r, Ok tt)
  | OFlags f => (set_flags f r, Ok tt)
  | OReverse => match reverse r with
                | Ok r' => (r', Ok tt) | Throw e => (r, Throw e) | UB => (r, UB) | Fuel => (r, Fuel)
                end
  end.

(** ** What the generator is given (generator.hpp:104-156 reads the vectors in step) *)
Fixpoint zip_rules (ts : list (list token)) (ids uids nexts pushes : list N) (pops : list bool)
    : list grule :=
  match ts, ids, uids, nexts, pushes, pops with
  | t :: ts', i :: ids', u :: uids', n :: nexts', p :: pushes', b :: pops' =>
    {| gr_tokens := t; gr_id := i; gr_uid := u; gr_next := n; gr_push := p; gr_pop := b |}
    :: zip_rules ts' ids' uids' nexts' pushes' pops'
  | _, _, _, _, _, _ => []
  end.
Definition grules_of (r : rules) : grules :=
  {| gr_eoi := 0;
     gr_states := map (fun i =>
       {| gs_rules := zip_rules (nth i (ru_regexes r) []) (nth i (ru_ids r) []) (nth i (ru_uids r) [])
                        (nth i (ru_nexts r) []) (nth i (ru_pushes r) []) (nth i (ru_pops r) []);
          gs_features := nth i (ru_features r) 0 |}) (seq 0 (length (ru_map r)));
     gr_flags := {| zero_len_ok := has (ru_flags r) rf_match_zero_len;
                    suppressed_ok := has (ru_flags r) 32 |} |}.
