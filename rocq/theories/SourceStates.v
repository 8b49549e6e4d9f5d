(** What a lexer with start states and rules written as texts should return. Only
    the meaning of the texts and the names of the states are used. *)
From Verif Require Import Base RuleSpec SourceSpec SourceLexer.
Local Open Scope N_scope.

(** What a rule does to the state: nothing, go to another one, go there and
    remember the present one or another one, or go back to the remembered one. *)
Inductive leave := Stay | Go (n : list N) | Push (n : list N) | PushTo (n m : list N) | Pop.
Definition leave_text (e : leave) : list N :=
  match e with
  | Stay => [46]
  | Go n => n
  | Push n => 62 :: n
  | PushTo n m => 62 :: n ++ 58 :: m
  | Pop => [60]
  end.
(** A rule, the states it is for, and the text for these. *)
Record decl := { d_cur : list N; d_in : list (list N); d_rule : srule; d_leave : leave }.
Definition rules_in (ds : list decl) (n : list N) : list decl :=
  filter (fun d => if in_dec (list_eq_dec N.eq_dec) n (d_in d) then true else false) ds.

(** [d] is the first of the rules with the longest match from [p] on. *)
Definition mlongest (ds : list decl) (inp : list N) (bol : bool) (p : nat) (d : decl) (q : nat) : Prop :=
  (p < q <= length inp)%nat /\
  (exists j, nth_error ds j = Some d /\ smatch (d_rule d) bol (between_pos inp p q) /\
     forall j' e, (j' < j)%nat -> nth_error ds j' = Some e -> ~ smatch (d_rule e) bol (between_pos inp p q)) /\
  forall q' e, (q < q' <= length inp)%nat -> In e ds -> ~ smatch (d_rule e) bol (between_pos inp p q').
Definition mnone (ds : list decl) (inp : list N) (bol : bool) (p : nat) : Prop :=
  forall q e, (p < q <= length inp)%nat -> In e ds -> ~ smatch (d_rule e) bol (between_pos inp p q).

(** Names of states that are remembered, with the ids of the rules. *)
Definition stack := list (list N * N).
Inductive moves (d : decl) : list N -> stack -> list N -> stack -> Prop :=
| mv_stay n st : d_leave d = Stay -> moves d n st n st
| mv_go n m st : d_leave d = Go m -> moves d n st m st
| mv_push n m st : d_leave d = Push m -> moves d n st m ((n, s_id (d_rule d)) :: st)
| mv_push_to n m b st : d_leave d = PushTo m b -> moves d n st m ((b, s_id (d_rule d)) :: st)
| mv_pop n m i st : d_leave d = Pop -> moves d n ((m, i) :: st) m st.
(** Rules with the id 0 do not end the token, and going back to a state that such
    a rule remembered does not either. *)
Definition goes_on (d : decl) (st' : stack) : Prop :=
  s_id (d_rule d) = 0 \/ (d_leave d = Pop /\ exists m st, st' = (m, 0) :: st).

(** One call: the token is taken to begin at [first]; state, stack, line flag and
    position. *)
Inductive answer := Token (id uid : N) (first last : nat) (bol : bool) (n : list N) (st : stack) | Underflow (first last : nat) (bol : bool) (n : list N).
Section Reads.
Variables (none skip : N) (see : bool) (ds : list decl) (inp : list N).
Inductive mreads : nat -> list N -> stack -> bool -> nat -> answer -> Prop :=
| mr_end first n st bol p : p = length inp -> mreads first n st bol p (Token 0 none first p bol n st)
| mr_token first n st bol p d q m st' : mlongest (rules_in ds n) inp (see && bol) p d q -> moves d n st m st' ->
    s_id (d_rule d) <> skip -> ~ goes_on d st' ->
    mreads first n st bol p (Token (s_id (d_rule d)) (s_uid (d_rule d)) first q (line see inp bol q) m st')
| mr_skip first n st bol p d q m st' a : mlongest (rules_in ds n) inp (see && bol) p d q -> moves d n st m st' ->
    s_id (d_rule d) = skip -> mreads q m st' (line see inp bol q) q a -> mreads first n st bol p a
| mr_on first n st bol p d q m st' a : mlongest (rules_in ds n) inp (see && bol) p d q -> moves d n st m st' ->
    s_id (d_rule d) <> skip -> goes_on d st' -> mreads first m st' (line see inp bol q) q a -> mreads first n st bol p a
| mr_none first n st bol p c : nth_error inp p = Some c -> mnone (rules_in ds n) inp (see && bol) p ->
    mreads first n st bol p (Token none none p (S p) (c =? 10) n st)
| mr_underflow first n bol p d q : mlongest (rules_in ds n) inp (see && bol) p d q -> d_leave d = Pop ->
    mreads first n [] bol p (Underflow first p bol n).
End Reads.
