(** Model of include/lexertl/parser/tree/*.hpp and of the tree building members
    of parser/parser.hpp (sequence, perform_or, optional, zero_or_more,
    one_or_more, repeatn). Leaf and end nodes that can be positions live in a
    store; a position is an index into it (a pointer in the code), so two nodes
    are the same object iff the positions are equal. nullable, firstpos and
    lastpos are computed once by the constructors and never change afterwards;
    here they are functions of the tree. *)
From Verif Require Import Base StateMachine.
Local Open Scope N_scope.

(** enums.hpp: greedy_repeat. *)
Inductive greedy := GNo | GYes | GHard.

(** end_node.hpp:26-41: the data of an end node. *)
Record einfo := {
  e_id : N; e_uid : N; e_unique : N; e_next : N; e_push : N; e_pop : bool; e_greedy : greedy
}.

(** The mutable part of leaf_node.hpp:86-88, and end nodes. *)
Inductive pinfo :=
| PLeaf (tok : N) (g : greedy) (follow : list nat)
| PEnd (e : einfo).
Definition store := list pinfo.

(** The node classes. A leaf with null_token has no position. *)
Inductive node :=
| NNull (g : greedy)
| NLeaf (tok : N) (p : nat)
| NSeq (l r : node)
| NSel (l r : node)
| NIter (n : node) (g : greedy)
| NEnd (p : nat).

(** node.hpp:46-49 and the constructors: leaf_node.hpp:27, sequence_node.hpp:28,
    selection_node.hpp:27, iteration_node.hpp:29, end_node.hpp:30. *)
Fixpoint nullable (n : node) : bool :=
  match n with
  | NNull _ => true
  | NLeaf _ _ => false
  | NSeq l r => nullable l && nullable r
  | NSel l r => nullable l || nullable r
  | NIter _ _ => true
  | NEnd _ => false
  end.

(** leaf_node.hpp:31-35, sequence_node.hpp:32-37, selection_node.hpp:31-32,
    iteration_node.hpp:33, end_node.hpp:39. *)
Fixpoint firstpos (n : node) : list nat :=
  match n with
  | NNull _ => []
  | NLeaf _ p => [p]
  | NSeq l r => firstpos l ++ (if nullable l then firstpos r else [])
  | NSel l r => firstpos l ++ firstpos r
  | NIter n _ => firstpos n
  | NEnd p => [p]
  end.

(** sequence_node.hpp:39-44 and the lines cited above. *)
Fixpoint lastpos (n : node) : list nat :=
  match n with
  | NNull _ => []
  | NLeaf _ p => [p]
  | NSeq l r => (if nullable r then lastpos l else []) ++ lastpos r
  | NSel l r => lastpos l ++ lastpos r
  | NIter n _ => lastpos n
  | NEnd p => [p]
  end.

Definition is_leaf (s : store) (p : nat) : bool :=
  match nth_error s p with Some (PLeaf _ _ _) => true | _ => false end.

(** leaf_node.hpp:40-45: append_followpos on one position. *)
Definition append_follow (fs : list nat) (s : store) (p : nat) : store :=
  match nth_error s p with
  | Some (PLeaf t g f) => upd s p (PLeaf t g (f ++ fs))
  | _ => s
  end.

(** sequence_node.hpp:46-52: the loop over lastpos. node.hpp:63-66: on an end
    node append_followpos throws. *)
Definition append_follows (s : store) (ps fs : list nat) : res store :=
  if forallb (is_leaf s) ps then Ok (fold_left (append_follow fs) ps s)
  else Throw EInternal.

(** leaf_node.hpp:63-67: greedy(greedy_) on one position. *)
Definition set_greedy (g : greedy) (s : store) (p : nat) : store :=
  match nth_error s p with
  | Some (PLeaf t g0 f) =>
    upd s p (PLeaf t (match g0 with GHard => GHard | _ => g end) f)
  | _ => s
  end.

(** iteration_node.hpp:41-44, parser.hpp:797-801; node.hpp:187-190 throws for an
    end node. *)
Definition set_greedies (s : store) (ps : list nat) (g : greedy) : res store :=
  if forallb (is_leaf s) ps then Ok (fold_left (set_greedy g) ps s) else Throw EInternal.

(** leaf_node.hpp:26-36. [npos] is null_token(). *)
Definition mk_leaf (npos tok : N) (g : greedy) (s : store) : node * store :=
  if tok =? npos then (NNull g, s)
  else (NLeaf tok (length s), s ++ [PLeaf tok g []]).

(** end_node.hpp:26-41. *)
Definition mk_end (e : einfo) (s : store) : node * store :=
  (NEnd (length s), s ++ [PEnd e]).

(** sequence_node.hpp:26-53. *)
Definition mk_seq (l r : node) (s : store) : res (node * store) :=
  do s' <- append_follows s (lastpos l) (firstpos r);
  Ok (NSeq l r, s').

(** iteration_node.hpp:27-45. *)
Definition mk_iter (n : node) (g : greedy) (s : store) : res (node * store) :=
  do s1 <- append_follows s (lastpos n) (firstpos n);
  do s2 <- set_greedies s1 (firstpos n) g;
  Ok (NIter n g, s2).

(** node.hpp:70-104: copy(). The machine's registers: node_stack_,
    perform_op_stack_, down_, new_node_stack_ and the store. *)
Record cstate := { cs_nodes : list node; cs_ops : list bool; cs_down : bool;
                   cs_new : list node; cs_store : store }.

(** what_type() is one of SEQUENCE, SELECTION, ITERATION (sequence_node.hpp:62-71). *)
Definition compound (n : node) : bool :=
  match n with NSeq _ _ | NSel _ _ | NIter _ _ => true | _ => false end.

(** sequence_node.hpp:57-76, selection_node.hpp:45-64, iteration_node.hpp:54-60,
    leaf_node.hpp:52-56, end_node.hpp:50-54: traverse(). *)
Definition traverse (c : cstate) (top : node) : cstate :=
  let descend ops nodes :=
    {| cs_nodes := nodes ++ cs_nodes c; cs_ops := ops ++ cs_ops c; cs_down := true;
       cs_new := cs_new c; cs_store := cs_store c |} in
  match top with
  | NSeq l r | NSel l r => descend (if compound r then [false; true] else [true]) [l; r]
  | NIter n _ => descend [true] [n]
  | _ => {| cs_nodes := cs_nodes c; cs_ops := cs_ops c; cs_down := false;
            cs_new := cs_new c; cs_store := cs_store c |}
  end.

(** leaf_node.hpp:90-97: copying a leaf: its current greedy value is used. *)
Definition copy_leaf (s : store) (n : node) : res (node * store) :=
  match n with
  | NNull g => Ok (NNull g, s)
  | NLeaf t p =>
    match nth_error s p with
    | Some (PLeaf _ g _) => Ok (NLeaf t (length s), s ++ [PLeaf t g []])
    | _ => UB
    end
  | _ => UB
  end.

(** copy_node() of a compound node when perform_op_stack_.top() is true:
    sequence_node.hpp:85-95, selection_node.hpp:73-83, iteration_node.hpp:70-77. *)
Definition rebuild (top : node) (new : list node) (s : store) : res (list node * store) :=
  match top, new with
  | NSeq _ _, r :: l :: new' => do p <- mk_seq l r s; Ok (fst p :: new', snd p)
  | NSel _ _, r :: l :: new' => Ok (NSel l r :: new', s)
  | NIter _ g, n :: new' => do p <- mk_iter n g s; Ok (fst p :: new', snd p)
  | _, _ => UB
  end.

(** node.hpp:88-97: copy_node() of the top and the pop that follows it unless
    down_ was set. *)
Definition copy_step (c : cstate) (top : node) (rest : list node) : res cstate :=
  match top with
  | NEnd _ =>                                  (* end_node.hpp:114-120 *)
    Ok {| cs_nodes := rest; cs_ops := cs_ops c; cs_down := false;
          cs_new := cs_new c; cs_store := cs_store c |}
  | NNull _ | NLeaf _ _ =>
    do p <- copy_leaf (cs_store c) top;
    Ok {| cs_nodes := rest; cs_ops := cs_ops c; cs_down := false;
          cs_new := fst p :: cs_new c; cs_store := snd p |}
  | _ =>
    match cs_ops c with
    | [] => UB
    | true :: ops =>
      do p <- rebuild top (cs_new c) (cs_store c);
      Ok {| cs_nodes := rest; cs_ops := ops; cs_down := false;
            cs_new := fst p; cs_store := snd p |}
    | false :: ops =>
      Ok {| cs_nodes := top :: rest; cs_ops := ops; cs_down := true;
            cs_new := cs_new c; cs_store := cs_store c |}
    end
  end.

(** node.hpp:81-98: the loops of copy(). *)
Fixpoint copy_loop (fuel : nat) (c : cstate) : res (node * store) :=
  match cs_nodes c with
  | [] => match cs_new c with n :: _ => Ok (n, cs_store c) | [] => UB end
  | top :: rest =>
    match fuel with
    | O => Fuel
    | S f =>
      if cs_down c then copy_loop f (traverse c top)
      else do c' <- copy_step c top rest; copy_loop f c'
    end
  end.

Fixpoint nsize (n : node) : nat :=
  match n with
  | NSeq l r | NSel l r => 3 + nsize l + nsize r
  | NIter n _ => 3 + nsize n
  | _ => 3
  end.

Definition copy (n : node) (s : store) : res (node * store) :=
  copy_loop (nsize n) {| cs_nodes := [n]; cs_ops := []; cs_down := true; cs_new := []; cs_store := s |}.

(** The part of the parser that the tree operations use: _tree_node_stack (top
    first) and the store. *)
Definition tstate := (list node * store)%type.

(** parser.hpp:776-787: sequence(). *)
Definition t_sequence (st : tstate) : res tstate :=
  match st with
  | (r :: l :: ns, s) => do p <- mk_seq l r s; Ok (fst p :: ns, snd p)
  | _ => UB
  end.

(** parser.hpp:331-342: perform_or(). *)
Definition t_or (st : tstate) : res tstate :=
  match st with
  | (r :: l :: ns, s) => Ok (NSel l r :: ns, s)
  | _ => UB
  end.

(** parser.hpp:789-811: optional(). *)
Definition t_optional (g : greedy) (st : tstate) : res tstate :=
  match st with
  | (n :: ns, s) =>
    do s' <- set_greedies s (firstpos n) g;
    Ok (NSel n (NNull g) :: ns, s')
  | _ => UB
  end.

(** parser.hpp:813-821: zero_or_more(). *)
Definition t_star (g : greedy) (st : tstate) : res tstate :=
  match st with
  | (n :: ns, s) => do p <- mk_iter n g s; Ok (fst p :: ns, snd p)
  | _ => UB
  end.

(** parser.hpp:823-837: one_or_more(). *)
Definition t_plus (g : greedy) (st : tstate) : res tstate :=
  match st with
  | (n :: ns, s) =>
    do c <- copy n s;
    do i <- mk_iter (fst c) g (snd c);
    do q <- mk_seq n (fst i) (snd i);
    Ok (fst q :: ns, snd q)
  | _ => UB
  end.

(** parser.hpp:882-888 (and 894-897, 908-914): curr_ = prev_->copy();
    push(prev_); sequence(); prev_ = curr_. *)
Definition rep_step (prev : node) (st : tstate) : res (node * tstate) :=
  do c <- copy prev (snd st);
  do st' <- t_sequence (prev :: fst st, snd c);
  Ok (fst c, st').

Fixpoint rep_steps (n : nat) (prev : node) (st : tstate) : res (node * tstate) :=
  match n with
  | O => Ok (prev, st)
  | S n' => do p <- rep_step prev st; rep_steps n' (fst p) (snd p)
  end.

(** push(prev_); op; prev_ = top(); pop() (parser.hpp:901-904, 918-921). *)
Definition on_prev (op : tstate -> res tstate) (prev : node) (st : tstate)
    : res (node * tstate) :=
  do st' <- op (prev :: fst st, snd st);
  match st' with
  | (n :: ns, s) => Ok (n, (ns, s))
  | _ => UB
  end.

(** parser.hpp:867-930: repeatn() once min_, comma_ and max_ are known. *)
Definition t_repeat (g : greedy) (min : N) (comma : bool) (max : N) (st : tstate) : res tstate :=
  if (min =? 1) && negb comma then Ok st                                  (* 869 *)
  else
    let top := if 0 <? min then min else max in                           (* 871 *)
    do st1 <- (if min =? 0 then t_optional g st else Ok st);              (* 873-876 *)
    match st1 with
    | (n :: _, s) =>
      do c <- copy n s;                                                   (* 878 *)
      do p2 <- rep_steps (N.to_nat (top - 2)) (fst c) (fst st1, snd c);   (* 882-888 *)
      do p5 <- (if comma && (0 <? min) then                               (* 890 *)
                  do p3 <- (if 1 <? min then rep_step (fst p2) (snd p2) else Ok p2);
                  if negb (max =? 0) then                                 (* 899 *)
                    do p4 <- on_prev (t_optional g) (fst p3) (snd p3);
                    rep_steps (N.to_nat (max - min - 1)) (fst p4) (snd p4)
                  else on_prev (t_star g) (fst p3) (snd p3)               (* 916-922 *)
                else Ok p2);
      t_sequence (fst p5 :: fst (snd p5), snd (snd p5))                   (* 925-926 *)
    | _ => UB
    end.
