(** Model of include/lexertl/parser/parser.hpp: the operator precedence parser
    that turns the tokens of one rule into a syntax tree. Asserts are taken as
    compiled out (NDEBUG); an access to an empty stack is [UB]. *)
From Verif Require Import Base StringToken StateMachine Tree Partition Generator Slice ReToken.
Local Open Scope N_scope.

(** std::map::insert on the charset map (keys ordered by string_token::operator<). *)
Fixpoint cm_insert (t : stoken) (i : N) (m : charset_map) : charset_map :=
  match m with
  | [] => [(t, i)]
  | (u, j) :: m' =>
    match st_cmp t u with
    | Lt => (t, i) :: m
    | Eq => m
    | Gt => (u, j) :: cm_insert t i m'
    end
  end.

(** parser.hpp:739-763: lookup(): the id of a charset, new or known. The check
    748-752 never fires: npos is already an id_type. *)
Definition p_lookup (k : gcfg) (t : stoken) (m : charset_map) : N * charset_map :=
  match map_find t m with
  | Some i => (i, m)
  | None => let i := N.of_nat (length m) mod 2 ^ g_bits k in (i, cm_insert t i m)
  end.

(** parser.hpp:198-204 and the arguments cr_id_, nl_id_: _token_stack (top
    first), _tree_node_stack and nodes, _charset_map. *)
Record pstate := { ps_stack : list token; ps_tree : tstate; ps_map : charset_map;
                   ps_cr : N; ps_nl : N }.
Definition with_stack (st : list token) (s : pstate) : pstate :=
  {| ps_stack := st; ps_tree := ps_tree s; ps_map := ps_map s; ps_cr := ps_cr s; ps_nl := ps_nl s |}.
Definition with_tree (t : tstate) (s : pstate) : pstate :=
  {| ps_stack := ps_stack s; ps_tree := t; ps_map := ps_map s; ps_cr := ps_cr s; ps_nl := ps_nl s |}.
Definition with_map (m : charset_map) (s : pstate) : pstate :=
  {| ps_stack := ps_stack s; ps_tree := ps_tree s; ps_map := m; ps_cr := ps_cr s; ps_nl := ps_nl s |}.
Definition push (t : ttype) (s : pstate) : pstate := with_stack (tok t :: ps_stack s) s.

(** push_back(leaf_node(id, yes)) and push on the node stack (parser.hpp:394-397,
    428-430, 445-448, 734-736). *)
Definition push_leaf (k : gcfg) (id : N) (s : pstate) : pstate :=
  let p := mk_leaf (gnpos k) id GYes (snd (ps_tree s)) in
  with_tree (fst p :: fst (ps_tree s), snd p) s.

(** parser.hpp:730-737: push_range. *)
Definition push_range (k : gcfg) (t : stoken) (s : pstate) : pstate :=
  let p := p_lookup k t (ps_map s) in push_leaf k (fst p) (with_map (snd p) s).

Definition on_tree (op : tstate -> res tstate) (s : pstate) : res pstate :=
  do t <- op (ps_tree s); Ok (with_tree t s).

(** parser.hpp:684-728: push_ranges, one element of data_. *)
Definition push_data2 (k : gcfg) (d : stoken * stoken) (s : pstate) : res pstate :=
  on_tree t_sequence (push_range k (snd d) (push_range k (fst d) s)).
Definition push_data3 (k : gcfg) (d : stoken * stoken * stoken) (s : pstate) : res pstate :=
  let '(t1, t2, t3) := d in
  do s1 <- on_tree t_sequence (push_range k t2 (push_range k t1 s));
  on_tree t_sequence (push_range k t3 s1).

Section Ranges.
  Context {D : Type}.
  Variable pd : D -> pstate -> res pstate.
  Fixpoint push_more (ds : list D) (s : pstate) : res pstate :=
    match ds with
    | [] => Ok s
    | d :: ds' => do s1 <- pd d s; do s2 <- on_tree t_or s1; push_more ds' s2
    end.
  Definition push_ranges (ds : list D) (s : pstate) : res pstate :=
    match ds with
    | [] => UB                                       (* dereferences end() *)
    | d :: ds' => do s1 <- pd d s; push_more ds' s1
    end.
End Ranges.

(** parser.hpp:458-479: create_sequence. *)
Definition create_sequence (k : gcfg) (t : stoken) (s : pstate) : res pstate :=
  do s1 <- (if g_bytes k =? 2 then push_ranges (push_data2 k) (slice16 t) s
            else push_ranges (push_data3 k) (slice24 t) s);
  Ok (push CLOSEPAREN (push REGEX (push OPENPAREN s1))).

(** parser.hpp:434-456: charset(), uncompressed and compressed. *)
Definition p_charset (k : gcfg) (t : stoken) (s : pstate) : res pstate :=
  if compressed k then create_sequence k t s
  else Ok (push REPEAT (push_range k t s)).

(** parser.hpp:383-399: bol(). *)
Definition p_bol (k : gcfg) (s : pstate) : pstate := push REPEAT (push_leaf k (bol_tok k) s).

(** parser.hpp:401-432: eol(). *)
Definition p_eol (k : gcfg) (s : pstate) : pstate :=
  let c := p_lookup k [(13, 13)] (ps_map s) in
  let n := p_lookup k [(10, 10)] (snd c) in
  let s1 := {| ps_stack := ps_stack s; ps_tree := ps_tree s; ps_map := snd n;
               ps_cr := if fst c =? gnpos k then ps_cr s else fst c;
               ps_nl := if fst n =? gnpos k then ps_nl s else fst n |} in
  push REPEAT (push_leaf k (eol_tok k) s1).

(** parser.hpp:848-866: the two loops over digits in std::size_t arithmetic. *)
Definition is_dec (c : N) : bool := (48 <=? c) && (c <=? 57).
Fixpoint p_digits (acc : N) (cs : list N) : N * list N :=
  match cs with
  | c :: cs' => if is_dec c then p_digits ((acc * 10 + (c - 48)) mod 2 ^ 64) cs' else (acc, cs)
  | [] => (acc, [])
  end.
Definition p_counts (extra : list N) : N * bool * N :=
  let a := p_digits 0 extra in
  match snd a with
  | 44 :: cs => (fst a, true, fst (p_digits 0 cs))
  | cs => (fst a, false, fst (p_digits 0 cs))
  end.
(** parser.hpp:845-931: repeatn. *)
Definition p_repeatn (g : greedy) (extra : list N) (t : tstate) : res tstate :=
  let '(mn, comma, mx) := p_counts extra in t_repeat g mn comma mx t.

(** parser.hpp:213-226: the handle: leftmost token first. *)
Fixpoint pop_handle (stack handle : list token) : res (list token * list token) :=
  match stack with
  | [] => UB
  | r :: stack' =>
    match stack' with
    | [] => Ok (r :: handle, [])
    | l :: _ =>
      match precedence (tk_type l) (tk_type r) with
      | None => UB
      | Some E_ => pop_handle stack' (r :: handle)
      | Some _ => Ok (r :: handle, stack')
      end
    end
  end.

(** Pushes DUP after a repeat operator. *)
Definition dup_op (op : tstate -> res tstate) (s : pstate) : res pstate :=
  do s' <- on_tree op s; Ok (push DUP s').

(** parser.hpp:206-304: reduce, with orexp (306-327), sub (344-362), repeat
    (364-381) and openparen (765-774). *)
Definition reduce (k : gcfg) (s : pstate) : res pstate :=
  do x <- pop_handle (ps_stack s) [];
  let s0 := with_stack (snd x) s in
  match fst x with
  | [] => UB
  | r :: more =>
    match tk_type r with
    | BEGIN | REGEX => Ok s0
    | OREXP => match more with
               | [] => Ok (push REGEX s0)
               | _ => do s1 <- on_tree t_or s0; Ok (push OREXP s1)
               end
    | SEQUENCE => Ok (push OREXP s0)
    | SUB => match more with
             | [] => Ok (push SEQUENCE s0)
             | _ => do s1 <- on_tree t_sequence s0; Ok (push SUB s1)
             end
    | EXPRESSION => Ok (push SUB s0)
    | REPEAT => match more with
                | [] => Ok (push EXPRESSION s0)
                | _ => Ok (push REPEAT s0)
                end
    | BOL => Ok (p_bol k s0)
    | EOL => Ok (p_eol k s0)
    | CHARSET => p_charset k (tk_str r) s0
    | OPENPAREN => Ok (push REPEAT s0)
    | OPT => dup_op (t_optional GHard) s0
    | AOPT => dup_op (t_optional GNo) s0
    | ZEROORMORE => dup_op (t_star GHard) s0
    | AZEROORMORE => dup_op (t_star GNo) s0
    | ONEORMORE => dup_op (t_plus GHard) s0
    | AONEORMORE => dup_op (t_plus GNo) s0
    | REPEATN => dup_op (p_repeatn GHard (tk_extra r)) s0
    | AREPEATN => dup_op (p_repeatn GNo (tk_extra r)) s0
    | _ => Throw EInternal
    end
  end.

(** parser.hpp:102-111, 121-125: rhs_token_ = *iter_, and iter_ moves on unless
    it is at the last token. The state is rhs_token_ and the tokens from iter_. *)
Definition fetch (it : list token) : res (token * list token) :=
  match it with
  | [] => UB
  | t :: it' => Ok (t, match it' with [] => it | _ => it' end)
  end.

(** parser.hpp:113-143: one iteration. *)
Definition pconf := (pstate * (token * list token))%type.
Definition pstep (k : gcfg) (c : pconf) : res pconf :=
  match ps_stack (fst c) with
  | [] => UB
  | l :: _ =>
    match precedence (tk_type l) (tk_type (fst (snd c))) with
    | Some L_ | Some E_ =>
      do x <- fetch (snd (snd c));
      Ok (with_stack (fst (snd c) :: ps_stack (fst c)) (fst c), x)
    | Some G_ => do s <- reduce k (fst c); Ok (s, snd c)
    | Some N_ => Throw ESyntax
    | None => UB
    end
  end.

Fixpoint ploop (fuel : nat) (k : gcfg) (c : pconf) : res pstate :=
  match fuel with
  | O => Fuel
  | S f =>
    do c' <- pstep k c;
    match ps_stack (fst c') with
    | [] => Ok (fst c')
    | _ => ploop f k c'
    end
  end.

(** parser.hpp:145-152. *)
Definition lazy_type (t : ttype) : bool :=
  match t with AOPT | AZEROORMORE | AONEORMORE | AREPEATN => true | _ => false end.
Definition has_lazy (ts : list token) : bool := existsb (fun t => lazy_type (tk_type t)) ts.

(** parser.hpp:933-966: fixup_bol. A position without an entry is a dangling
    pointer. *)
Definition is_bol (k : gcfg) (s : store) (p : nat) : res bool :=
  match nth_error s p with
  | Some (PLeaf t _ _) => Ok (t =? bol_tok k)
  | Some (PEnd _) => Ok false
  | None => UB
  end.
Fixpoint any_bol (k : gcfg) (s : store) (ps : list nat) : res bool :=
  match ps with
  | [] => Ok false
  | p :: ps' => do b <- is_bol k s p; if b then Ok true else any_bol k s ps'
  end.
Definition fixup_bol (k : gcfg) (root : node) (s : store) : res (node * store) :=
  do found <- any_bol k s (firstpos root);
  if found then Ok (root, s)
  else
    let b := mk_leaf (gnpos k) (bol_tok k) GYes s in
    let n := mk_leaf (gnpos k) (gnpos k) GYes (snd b) in
    mk_seq (NSel (fst b) (fst n)) root (snd n).

(** The ids of one rule: arguments of parse() (the greedy field is unused here). *)
Definition end_info (e : einfo) (g : greedy) : einfo :=
  {| e_id := e_id e; e_uid := e_uid e; e_unique := e_unique e; e_next := e_next e;
     e_push := e_push e; e_pop := e_pop e; e_greedy := g |}.

(** Number of iterations that is always enough (see ParserProofs.v). *)
Definition tweight (t : ttype) : nat :=
  match t with
  | BEGIN => 1 | REGEX => 4 | OREXP => 8 | SEQUENCE => 9 | SUB => 10 | EXPRESSION => 11
  | REPEAT => 12 | DUP => 1 | OR => 1 | CHARSET | BOL | EOL | MACRO => 30
  | OPENPAREN | CLOSEPAREN => 10 | _ => 2
  end.
Definition pfuel (ts : list token) : nat :=
  S (fold_right (fun t n => S (tweight (tk_type t)) + n) 0 ts)%nat.

(** parser.hpp:93-179: parse(). The node stack, nodes and map outlive the call;
    result: the root and the new state. *)
Definition parse (k : gcfg) (regex : list token) (e : einfo) (seen_bol : bool)
    (s : pstate) : res (node * pstate) :=
  match regex with
  | b :: it =>
    do x <- fetch it;
    do s1 <- ploop (pfuel regex) k (with_stack (b :: ps_stack s) s, x);
    let t1 := ps_tree s1 in
    let en := mk_end (end_info e (if has_lazy regex then GNo else GYes)) (snd t1) in
    do r <- match fst t1 with
            | [] => Ok (fst en, ([], snd en))
            | n :: ns => do q <- mk_seq n (fst en) (snd en); Ok (fst q, (ns, snd q))
            end;
    do f <- (if seen_bol then fixup_bol k (fst r) (snd (snd r)) else Ok (fst r, snd (snd r)));
    Ok (fst f, with_tree (fst (snd r), snd f) s1)
  | [] => UB
  end.
