(** Model of include/lexertl/generate_cpp.hpp: table_based_cpp.
    generate() writes the text of a C++ function. The model writes its syntax
    tree instead: [gen_code] has one statement per statement of the text, in the
    same order and under the same conditions; layout, type names and casts that
    do not change a value are left out. [run] is what the statements mean. A
    pointer into the current dfa_ array is its offset [VP]; a table entry that
    is written as a number (also one cast to void pointer) is [VN]; reading
    through it as a pointer is undefined behaviour. Iterators are positions. *)
From Verif Require Import Base StateMachine Lookup.
Local Open Scope N_scope.

(** Local variables and the members of results_. *)
Inductive var :=
| Vend_token | Vcurr | Vptr | Vend_state | Vpop | Vid | Vuid | Vpush | Vstart | Vbol | Vend_bol | Veol | Vprev | Vi | Vstate
| Rid | Ruid | Rfirst | Rsecond | Rbol | Rstate.
Definition var_eqb (a b : var) : bool :=
  match a, b with
  | Vend_token, Vend_token | Vcurr, Vcurr | Vptr, Vptr | Vend_state, Vend_state | Vpop, Vpop | Vid, Vid | Vuid, Vuid
  | Vpush, Vpush | Vstart, Vstart | Vbol, Vbol | Vend_bol, Vend_bol | Veol, Veol | Vprev, Vprev | Vi, Vi | Vstate, Vstate
  | Rid, Rid | Ruid, Ruid | Rfirst, Rfirst | Rsecond, Rsecond | Rbol, Rbol | Rstate, Rstate => true
  | _, _ => false
  end.
(** Values: not yet declared, number (also bool), pointer into dfa_, iterator. *)
Inductive val := VU | VN (n : N) | VP (off : N) | VI (i : nat).

Inductive label := Lskip | Lagain | Lquit.
Inductive expr :=
| EVar (v : var)
| ENum (n : N)
| ENpos | ESkip                    (* results::npos(), results_.skip() *)
| EDfa                             (* dfa_ *)
| ERow1                            (* dfa_ + dfa_alphabet_ *)
| ERow (e : expr)                  (* &dfa_[e * dfa_alphabet_] *)
| ELoad (p : expr) (i : expr)      (* p[i], *(p + i) *)
| ECol (c : expr)                  (* lookup_[static_cast<index_type>(c)] *)
| EByte (c i : expr)               (* (c >> shift_[bytes_ - 1 - i]) & 0xff *)
| EChar (i : expr)                 (* *iterator *)
| EAtEnd (i : expr)                (* i == results_.eoi *)
| EEq (a b : expr)
| ENz (e : expr)                   (* e != 0, or e as a condition *)
| ENot (e : expr)
| EAnd (a b : expr) | EOr (a b : expr)
| EBits (a : expr) (n : N)         (* a & n *)
| ENumber (e : expr)               (* static_cast<id_type>(reinterpret_cast<ptrdiff_t>(e)) *)
| ETop1 | ETop2                    (* results_.stack.top().first, .second *)
| EEmpty.                          (* results_.stack.empty() *)
Inductive stmt :=
| SNop
| SSeq (a b : stmt)
| SDecl (v : var) (e : expr)
| SSet (v : var) (e : expr)
| SNext (v : var)                  (* ++v for an iterator *)
| SIf (e : expr) (a b : stmt)
| SWhile (e : expr) (b : stmt)
| SBytes (b : stmt)                (* for (i_ = 0; i_ < bytes_; ++i_) *)
| SBreak | SReturn
| SGoto (l : label) | SLabel (l : label)
| STables (e : expr)               (* lookup_, dfa_alphabet_ and dfa_ are those of start state e *)
| SPop                             (* results_.stack.pop() *)
| SPush (a b : expr).              (* results_.stack.push(id_type_pair(a, b)) *)
Definition block (l : list stmt) : stmt := fold_right SSeq SNop l.

(** ** Writing the function *)
(** The features of the machine and the arguments that direct generate(). *)
Record gen_cfg := {
  gc_bol : bool; gc_eol : bool; gc_skip : bool; gc_again : bool; gc_rec : bool;
  gc_multi : bool;   (* internals_._dfa.size() > 1 *)
  gc_ptrs : bool;    (* pointers_ *)
  gc_wide : bool;    (* sizeof(input_char_type) > 1 *)
  gc_eoi : N
}.
Definition has (features b : N) : bool := negb (N.land features b =? 0).
Definition gen_of (m : internals) (ptrs wide : bool) : gen_cfg :=
  {| gc_bol := has (i_features m) fb_bol; gc_eol := has (i_features m) fb_eol; gc_skip := has (i_features m) fb_skip;
     gc_again := has (i_features m) fb_again; gc_rec := has (i_features m) fb_rec;
     gc_multi := Nat.ltb 1 (length (i_dfa m)); gc_ptrs := ptrs; gc_wide := wide; gc_eoi := i_eoi m |}.

Definition opt (b : bool) (l : list stmt) : list stmt := if b then l else [].

(** *(ptr_ + i), as a number: generate_cpp.hpp:148-165 and the like. *)
Definition ptr_cell (g : gen_cfg) (i : N) : expr :=
  if gc_ptrs g then ENumber (ELoad (EVar Vptr) (ENum i)) else ELoad (EVar Vptr) (ENum i).
(** 120-146, 325-353, 486-516: pop_. *)
Definition pop_expr (g : gen_cfg) : expr := ENz (EBits (ptr_cell g ix_end) sb_pop).
(** 251-269, 309-318, 461-470: the row with number (or address) e. *)
Definition row_expr (g : gen_cfg) (e : expr) : expr := if gc_ptrs g then e else ERow e.

(** 320-430 (and again 471-588): the row of ptr_ accepts. *)
Definition note_end (g : gen_cfg) : stmt :=
  SIf (ENz (ELoad (EVar Vptr) (ENum 0)))
    (block ([SSet Vend_state (ENum 1)] ++ opt (gc_rec g) [SSet Vpop (pop_expr g)] ++
            [SSet Vid (ptr_cell g ix_id); SSet Vuid (ptr_cell g ix_uid)] ++
            opt (gc_rec g) [SSet Vpush (ptr_cell g ix_push)] ++ opt (gc_multi g) [SSet Vstart (ptr_cell g ix_next)] ++
            opt (gc_bol g) [SSet Vend_bol (EVar Vbol)] ++ [SSet Vend_token (EVar Vcurr)]))
    SNop.

(** 950-1027: output_char_loop for narrow characters. *)
Definition char_narrow (g : gen_cfg) : list stmt :=
  [SDecl Vprev (EChar (EVar Vcurr)); SNext Vcurr;
   SDecl Vstate (ELoad (EVar Vptr) (ECol (EVar Vprev)))] ++
  opt (gc_bol g) [SSet Vbol (EEq (EVar Vprev) (ENum 10))] ++
  [SIf (ENot (ENz (EVar Vstate))) (block (opt (gc_eol g) [SSet Veol (ENum 0)] ++ [SBreak])) SNop;
   SSet Vptr (row_expr g (EVar Vstate))].
(** 1029-1119: output_char_loop for wide characters. *)
Definition char_wide (g : gen_cfg) : list stmt :=
  [SDecl Vprev (EChar (EVar Vcurr)); SNext Vcurr] ++
  opt (gc_bol g) [SSet Vbol (EEq (EVar Vprev) (ENum 10))] ++
  [SBytes (block
     [SDecl Vstate (ELoad (EVar Vptr) (ECol (EByte (EVar Vprev) (EVar Vi))));
      SIf (ENot (ENz (EVar Vstate))) (block (opt (gc_eol g) [SSet Veol (ENum 0)] ++ [SGoto Lquit])) SNop;
      SSet Vptr (row_expr g (EVar Vstate))])].
Definition char_loop (g : gen_cfg) : stmt := block (if gc_wide g then char_wide g else char_narrow g).

(** 272-432: the loop over the characters. *)
Definition main_loop (g : gen_cfg) : stmt :=
  SWhile (ENot (EAtEnd (EVar Vcurr)))
    (block ((if gc_eol g then
               [SSet Veol (ELoad (EVar Vptr) (ENum ix_eol));
                SIf (EAnd (ENz (EVar Veol)) (EEq (EChar (EVar Vcurr)) (ENum 10)))
                  (SSet Vptr (row_expr g (EVar Veol))) (char_loop g)]
             else [char_loop g]) ++ [note_end g])).
(** 436-589: $ at the end of the input. *)
Definition end_eol (g : gen_cfg) : list stmt :=
  opt (gc_eol g)
    [SIf (EAtEnd (EVar Vcurr))
       (block [SSet Veol (ELoad (EVar Vptr) (ENum ix_eol));
               SIf (ENz (EVar Veol)) (block [SSet Vptr (row_expr g (EVar Veol)); note_end g]) SNop])
       SNop].
(** 591-652: a match. *)
Definition on_match (g : gen_cfg) : stmt :=
  block (opt (gc_rec g)
           [SIf (ENz (EVar Vpop)) (block [SSet Vstart ETop1; SPop])
              (SIf (ENot (EEq (EVar Vpush) ENpos)) (SPush (EVar Vpush) (EVar Vid)) SNop)] ++
         opt (gc_multi g) [SSet Rstate (EVar Vstart)] ++ opt (gc_bol g) [SSet Rbol (EVar Vend_bol)] ++
         [SSet Rsecond (EVar Vend_token)] ++
         opt (gc_skip g) [SIf (EEq (EVar Vid) ESkip) (SGoto Lskip) SNop] ++
         opt (gc_again g)
           [SIf (let e := EEq (EVar Vid) (ENum (gc_eoi g)) in
                 if gc_rec g then EOr e (EAnd (ENz (EVar Vpop)) (EAnd (ENot EEmpty) (EEq ETop2 (ENum (gc_eoi g))))) else e)
              (block [SSet Vcurr (EVar Vend_token); SGoto Lagain]) SNop]).
(** 653-669: no match. *)
Definition on_miss (g : gen_cfg) : stmt :=
  block ([SSet Rsecond (EVar Vend_token)] ++ opt (gc_bol g) [SSet Rbol (EEq (EChar (EVar Rsecond)) (ENum 10))] ++
         [SSet Rfirst (EVar Rsecond); SNext Rsecond; SSet Vid ENpos; SSet Vuid ENpos]).

(** 57-82: up to the test for the end of the input. *)
Definition gen_entry (g : gen_cfg) : list stmt :=
  [SDecl Vend_token (EVar Rsecond)] ++ opt (gc_skip g) [SLabel Lskip] ++
  [SDecl Vcurr (EVar Rsecond); SSet Rfirst (EVar Vcurr)].
Definition at_eoi (g : gen_cfg) : stmt :=
  SIf (EAtEnd (EVar Vcurr)) (block [SSet Rid (ENum (gc_eoi g)); SSet Ruid ENpos; SReturn]) SNop.
(** 84-231: the variables of one attempt. *)
Definition gen_vars (g : gen_cfg) : list stmt :=
  opt (gc_bol g) [SDecl Vbol (EVar Rbol)] ++
  [STables (if gc_multi g then EVar Rstate else ENum 0);
   SDecl Vptr ERow1; SDecl Vend_state (ENz (ELoad (EVar Vptr) (ENum 0)))] ++
  opt (gc_rec g) [SDecl Vpop (pop_expr g)] ++
  [SDecl Vid (ptr_cell g ix_id); SDecl Vuid (ptr_cell g ix_uid)] ++
  opt (gc_rec g) [SDecl Vpush (ptr_cell g ix_push)] ++
  opt (gc_multi g) [SDecl Vstart (EVar Rstate)] ++
  opt (gc_bol g) [SDecl Vend_bol (EVar Vbol)] ++ opt (gc_eol g) [SDecl Veol (ENum 0)].
(** 233-270: the row for the beginning of a line. *)
Definition gen_bol (g : gen_cfg) : list stmt :=
  opt (gc_bol g)
    [SIf (ENz (EVar Vbol))
       (block [SDecl Vstate (ELoad EDfa (ENum 0));
               SIf (ENz (EVar Vstate)) (SSet Vptr (row_expr g (EVar Vstate))) SNop]) SNop].
Definition gen_attempt (g : gen_cfg) : list stmt := gen_vars g ++ gen_bol g ++ [main_loop g].
Definition gen_finish (g : gen_cfg) : list stmt :=
  end_eol g ++
  [SIf (ENz (EVar Vend_state)) (on_match g) (on_miss g); SSet Rid (EVar Vid); SSet Ruid (EVar Vuid)].
(** generate_cpp.hpp:24-673: generate(). *)
Definition gen_code (g : gen_cfg) : list stmt :=
  gen_entry g ++ opt (gc_again g) [SLabel Lagain] ++ [at_eoi g] ++ gen_attempt g ++
  opt (gc_wide g) [SLabel Lquit] ++ gen_finish g.

(** 847-936: dump_row: the entries of row [row], from column [col] on. With
    pointers the transitions and entry 0 of the first row are addresses, the
    rest (the end of line transition too) numbers. *)
Definition dump_cell (ptrs : bool) (width row col n : N) : val :=
  if ptrs then
    if col =? 0 then if row =? 0 then VP (n * width) else VN n
    else if col <? ix_trans then VN n
    else if n =? 0 then VN 0 else VP (n * width)
  else VN n.
(** 783-826: one dfa array, entry [i] of the table. *)
Definition dump_at (ptrs : bool) (t : table) (i : N) : option val :=
  match nth_error (t_dfa t) (N.to_nat i) with
  | Some n => Some (dump_cell ptrs (t_width t) (i / t_width t) (i mod t_width t) n)
  | None => None
  end.

(** ** Running it *)
Record mem := { me_vars : var -> val; me_stack : list (N * N); me_tab : option table }.
Definition get (s : mem) (v : var) : val := me_vars s v.
Definition put (s : mem) (v : var) (x : val) : mem :=
  {| me_vars := fun w => if var_eqb w v then x else me_vars s w; me_stack := me_stack s; me_tab := me_tab s |}.
Definition set_stack (s : mem) (l : list (N * N)) : mem := {| me_vars := me_vars s; me_stack := l; me_tab := me_tab s |}.
Definition set_tab (s : mem) (t : table) : mem := {| me_vars := me_vars s; me_stack := me_stack s; me_tab := Some t |}.

Definition nval (b : bool) : val := VN (if b then 1 else 0).
(** A value as a condition; pointers into an array are not null. *)
Definition truth (x : option val) : option bool :=
  match x with
  | Some (VN n) => Some (negb (n =? 0))
  | Some (VP _) => Some true
  | _ => None
  end.

Section Run.
  Variables (bits bytes : N) (ptrs : bool) (m : internals) (inp : list N).

  Fixpoint eval (e : expr) (s : mem) : option val :=
    match e with
    | EVar v => match get s v with VU => None | x => Some x end
    | ENum n => Some (VN n)
    | ENpos => Some (VN (npos_of bits))
    | ESkip => Some (VN (skip_of bits))
    | EDfa => match me_tab s with Some _ => Some (VP 0) | None => None end
    | ERow1 => match me_tab s with Some t => Some (VP (t_width t)) | None => None end
    | ERow e => match me_tab s, eval e s with Some t, Some (VN n) => Some (VP (n * t_width t)) | _, _ => None end
    | ELoad p i =>
      match me_tab s, eval p s, eval i s with
      | Some t, Some (VP off), Some (VN n) => dump_at ptrs t (off + n)
      | _, _, _ => None
      end
    | ECol c =>
      match me_tab s, eval c s with
      | Some t, Some (VN n) => match column t n with Some x => Some (VN x) | None => None end
      | _, _ => None
      end
    | EByte c i =>
      match eval c s, eval i s with
      | Some (VN n), Some (VN j) => Some (VN ((n / 256 ^ (bytes - 1 - j)) mod 256))
      | _, _ => None
      end
    | EChar i =>
      match eval i s with
      | Some (VI p) => match nth_error inp p with Some c => Some (VN c) | None => None end
      | _ => None
      end
    | EAtEnd i => match eval i s with Some (VI p) => Some (nval (Nat.eqb p (length inp))) | _ => None end
    | EEq a b => match eval a s, eval b s with Some (VN x), Some (VN y) => Some (nval (x =? y)) | _, _ => None end
    | ENz e => match truth (eval e s) with Some b => Some (nval b) | None => None end
    | ENot e => match truth (eval e s) with Some b => Some (nval (negb b)) | None => None end
    | EAnd a b =>
      match truth (eval a s) with
      | Some true => match truth (eval b s) with Some y => Some (nval y) | None => None end
      | Some false => Some (nval false)
      | None => None
      end
    | EOr a b =>
      match truth (eval a s) with
      | Some true => Some (nval true)
      | Some false => match truth (eval b s) with Some y => Some (nval y) | None => None end
      | None => None
      end
    | EBits a n => match eval a s with Some (VN x) => Some (VN (N.land x n)) | _ => None end
    | ENumber e => match eval e s with Some (VN x) => Some (VN x) | _ => None end
    | ETop1 => match me_stack s with (a, _) :: _ => Some (VN a) | [] => None end
    | ETop2 => match me_stack s with (_, b) :: _ => Some (VN b) | [] => None end
    | EEmpty => Some (nval (match me_stack s with [] => true | _ => false end))
    end.

  (** How a statement is left. *)
  Inductive sig := Next | Brk | Ret | Jump (l : label).

  Fixpoint loop (fuel : nat) (c : mem -> option bool) (b : mem -> res (sig * mem)) (s : mem) : res (sig * mem) :=
    match c s with
    | None => UB
    | Some false => Ok (Next, s)
    | Some true =>
      match fuel with
      | O => Fuel
      | S f =>
        do p <- b s;
        let '(g, s1) := p in
        match g with Next => loop f c b s1 | Brk => Ok (Next, s1) | _ => Ok (g, s1) end
      end
    end.
  Fixpoint count (n : nat) (i : N) (b : mem -> res (sig * mem)) (s : mem) : res (sig * mem) :=
    match n with
    | O => Ok (Next, s)
    | S n' =>
      do p <- b (put s Vi (VN i));
      let '(g, s1) := p in
      match g with Next => count n' (i + 1) b s1 | Brk => Ok (Next, s1) | _ => Ok (g, s1) end
    end.

  Variable inner : nat.
  Fixpoint exec (c : stmt) (s : mem) : res (sig * mem) :=
    match c with
    | SNop | SLabel _ => Ok (Next, s)
    | SSeq a b =>
      do p <- exec a s;
      let '(g, s1) := p in
      match g with Next => exec b s1 | _ => Ok (g, s1) end
    | SDecl v e | SSet v e => match eval e s with Some x => Ok (Next, put s v x) | None => UB end
    | SNext v => match get s v with VI p => Ok (Next, put s v (VI (S p))) | _ => UB end
    | SIf e a b => match truth (eval e s) with Some true => exec a s | Some false => exec b s | None => UB end
    | SWhile e b => loop inner (fun s => truth (eval e s)) (exec b) s
    | SBytes b => count (N.to_nat bytes) 0 (exec b) s
    | SBreak => Ok (Brk, s)
    | SReturn => Ok (Ret, s)
    | SGoto l => Ok (Jump l, s)
    | STables e =>
      match eval e s with
      | Some (VN i) => match get_table m i with Some t => Ok (Next, set_tab s t) | None => UB end
      | _ => UB
      end
    | SPop => match me_stack s with _ :: r => Ok (Next, set_stack s r) | [] => UB end
    | SPush a b =>
      match eval a s, eval b s with
      | Some (VN x), Some (VN y) => Ok (Next, set_stack s ((x, y) :: me_stack s))
      | _, _ => UB
      end
    end.

  Definition label_eqb (a b : label) : bool :=
    match a, b with Lskip, Lskip | Lagain, Lagain | Lquit, Lquit => true | _, _ => false end.
  (** What follows a label. *)
  Fixpoint after (l : label) (p : list stmt) : option (list stmt) :=
    match p with
    | [] => None
    | SLabel l' :: p' => if label_eqb l l' then Some p' else after l p'
    | _ :: p' => after l p'
    end.
  (** The function body [whole] from the statements [p] on; [fuel] bounds the jumps. *)
  Fixpoint run_from (fuel : nat) (whole p : list stmt) (s : mem) : res mem :=
    do x <- exec (block p) s;
    let '(g, s1) := x in
    match g with
    | Next | Ret => Ok s1
    | Brk => UB
    | Jump l =>
      match fuel, after l whole with
      | _, None => UB
      | O, _ => Fuel
      | S f, Some p' => run_from f whole p' s1
      end
    end.
End Run.

(** Passing results_ in and out. *)
Definition enter (r : results) : mem :=
  {| me_vars := fun v => match v with
                         | Rid => VN (r_id r) | Ruid => VN (r_uid r) | Rfirst => VI (r_first r) | Rsecond => VI (r_second r)
                         | Rbol => nval (r_bol r) | Rstate => VN (r_state r) | _ => VU
                         end;
     me_stack := r_stack r; me_tab := None |}.
Definition leave (s : mem) : option results :=
  match get s Rid, get s Ruid, get s Rfirst, get s Rsecond, get s Rbol, get s Rstate with
  | VN i, VN u, VI f, VI e, VN b, VN st =>
    Some {| r_id := i; r_uid := u; r_first := f; r_second := e; r_bol := negb (b =? 0); r_state := st; r_stack := me_stack s |}
  | _, _, _, _, _, _ => None
  end.
(** One call of the generated function for machine [m]; bytes_ (1036-1039) is at
    most 3. *)
Definition gen_lookup (fuel inner : nat) (bits bytes : N) (ptrs : bool) (m : internals) (inp : list N) (r : results) : res results :=
  let g := gen_of m ptrs (1 <? bytes) in
  do s <- run_from bits (if bytes <? 3 then bytes else 3) ptrs m inp inner fuel (gen_code g) (gen_code g) (enter r);
  of_opt (leave s).

(** ** What a compiler asks of the text *)
(** Every variable is declared before it is used; blocks end scopes. *)
Definition declared (env : list var) (v : var) : bool :=
  match v with
  | Rid | Ruid | Rfirst | Rsecond | Rbol | Rstate => true
  | _ => existsb (var_eqb v) env
  end.
Fixpoint expr_ok (env : list var) (e : expr) : bool :=
  match e with
  | EVar v => declared env v
  | ERow e | ECol e | EChar e | EAtEnd e | ENz e | ENot e | EBits e _ | ENumber e => expr_ok env e
  | ELoad a b | EByte a b | EEq a b | EAnd a b | EOr a b => expr_ok env a && expr_ok env b
  | _ => true
  end.
Fixpoint stmt_ok (env : list var) (c : stmt) : option (list var) :=
  match c with
  | SSeq a b => match stmt_ok env a with Some e => stmt_ok e b | None => None end
  | SDecl v e => if expr_ok env e then Some (v :: env) else None
  | SSet v e => if declared env v && expr_ok env e then Some env else None
  | SNext v => if declared env v then Some env else None
  | SIf e a b =>
    if expr_ok env e then
      match stmt_ok env a, stmt_ok env b with Some _, Some _ => Some env | _, _ => None end
    else None
  | SWhile e b => if expr_ok env e then match stmt_ok env b with Some _ => Some env | None => None end else None
  | SBytes b => match stmt_ok (Vi :: env) b with Some _ => Some env | None => None end
  | STables e => if expr_ok env e then Some env else None
  | SPush a b => if expr_ok env a && expr_ok env b then Some env else None
  | _ => Some env
  end.
Definition compiles (p : list stmt) : bool := match stmt_ok [] (block p) with Some _ => true | None => false end.

(** ** Names and numbers of the text *)
(** Digits of a number in base [b], as operator<< writes them with std::hex or
    std::dec; [fuel] bounds their count. *)
Definition digit (d : N) : N := if d <? 10 then 48 + d else 87 + d.
Fixpoint digits (fuel : nat) (b n : N) (acc : list N) : list N :=
  match fuel with
  | O => acc
  | S f => if n <? b then digit n :: acc else digits f b (n / b) (digit (n mod b) :: acc)
  end.
Definition print (b n : N) : list N := digits (S (N.to_nat (N.log2 n))) b n [].
(** 783-826: the name in the declaration of array number [i]: os_ is in
    hexadecimal by then (782). *)
Definition declared_name (dfas i : N) : list N :=
  if 1 <? dfas then [100; 102; 97] ++ print 16 i ++ [95] else [100; 102; 97; 95].
(** 799-815: dfa_name_, used for the addresses, comes from another stream. *)
Definition used_name (dfas i : N) : list N :=
  if 1 <? dfas then [100; 102; 97] ++ print 10 i ++ [95] else [100; 102; 97; 95].
(** 828-846: the names in dfas_[]. *)
Definition table_name (i : N) : list N :=
  if i =? 0 then [100; 102; 97; 48; 95] else [100; 102; 97] ++ print 16 i ++ [95].
