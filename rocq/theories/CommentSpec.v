(** Lexers with rules for comments: "open" BODY *? "close". Nothing here refers to
    the tokeniser, the parser, the generator or lookup(). *)
From Verif Require Import Base ReToken ReTokeniserNext SourceClass RegexSpec RuleSpec Rules TokeniseSpec TokeniseProofs TokeniseAll RulesSpec SourceSpec SourceLexer SourceLiteral SourceTop.
Local Open Scope N_scope.

(** ** Texts *)
(** A|B|... for sets of characters. *)
Inductive altern (b fl : N) : list N -> list N -> (N -> Prop) -> Prop :=
| al_one rest t P : aset b fl false rest t P -> altern b fl rest t P
| al_more rest t P u Q : aset b fl false (124 :: u ++ rest) t P -> altern b fl rest u Q ->
    altern b fl rest (t ++ 124 :: u) (fun c => P c \/ Q c).
(** One set of characters, or (A|B|...). *)
Inductive cchoice (b fl : N) (rest : list N) : list N -> (N -> Prop) -> Prop :=
| ch_one t P : aset b fl false rest t P -> cchoice b fl rest t P
| ch_alts t P : altern b fl (41 :: rest) t P -> cchoice b fl rest (40 :: t ++ [41]) P.
Record cmt := { c_open : list N; c_body : list N; c_set : N -> Prop; c_close : list N; c_id : N; c_uid : N }.
Definition comment_text (c : cmt) : list N := in_quotes (c_open c) ++ c_body c ++ [42; 63] ++ in_quotes (c_close c).
Record comment_ok (k : rcfg) (fl : N) (c : cmt) : Prop := {
  co_open : c_open c <> [];
  co_close : c_close c <> [];
  co_body : cchoice (r_bytes k) fl ([42; 63] ++ in_quotes (c_close c)) (c_body c) (c_set c);
  (** The characters of the closing text could be read as part of the comment. *)
  co_inside : forall x d, In x (c_close c) -> cased (r_bytes k) (f_icase fl) (eq x) d -> c_set c d;
  co_small : small (r_bytes k) (comment_text c);
  co_numbers : numbers_fit (comment_text c);
  co_ids : c_id c <> 0 /\ c_id c <> rnpos k
}.

(** ** Meaning *)
Section Meaning.
Variables (b fl : N).
(** The text [s], apart from case where the flags say so. *)
Definition alike (s u : list N) : Prop := Forall2 (fun c d => cased b (f_icase fl) (eq c) d) s u.
Definition cfits (c : cmt) (cs : list N) : Prop :=
  exists u v w, cs = u ++ v ++ w /\ alike (c_open c) u /\ Forall (c_set c) v /\ alike (c_close c) w.
(** The first place where it can end. *)
Definition cends (c : cmt) (cs : list N) : Prop :=
  cfits c cs /\ forall n, (n < length cs)%nat -> ~ cfits c (firstn n cs).

(** Rules in the order of the calls of push(). *)
Inductive item := IText (x : srule) | IComment (c : cmt).
Definition i_text (y : item) : list N := match y with IText x => s_text x | IComment c => comment_text c end.
Definition i_id (y : item) : N := match y with IText x => s_id x | IComment c => c_id c end.
Definition i_uid (y : item) : N := match y with IText x => s_uid x | IComment c => c_uid c end.
Definition imatch (y : item) (bol : bool) (cs : list N) : Prop :=
  match y with IText x => smatch x bol cs | IComment c => cends c cs end.
(** [y] is the first of the rules with the longest match from [p] on, where a comment
    is only matched up to its first end. *)
Definition ilongest (ys : list item) (inp : list N) (bol : bool) (p : nat) (y : item) (q : nat) : Prop :=
  (p < q <= length inp)%nat /\
  (exists j, nth_error ys j = Some y /\ imatch y bol (between_pos inp p q) /\
     forall j' z, (j' < j)%nat -> nth_error ys j' = Some z -> ~ imatch z bol (between_pos inp p q)) /\
  forall q' z, (q < q' <= length inp)%nat -> In z ys -> ~ imatch z bol (between_pos inp p q').
Definition inone (ys : list item) (inp : list N) (bol : bool) (p : nat) : Prop :=
  forall q z, (p < q <= length inp)%nat -> In z ys -> ~ imatch z bol (between_pos inp p q).
(** One call from position [p], as [sreads]. *)
Inductive ireads (none skip : N) (see : bool) (ys : list item) (inp : list N) : bool -> nat -> N -> N -> nat -> nat -> bool -> Prop :=
| id_end bol p : p = length inp -> ireads none skip see ys inp bol p 0 none p p bol
| id_token bol p y q : ilongest ys inp (see && bol) p y q -> i_id y <> skip ->
    ireads none skip see ys inp bol p (i_id y) (i_uid y) p q (line see inp bol q)
| id_skip bol p y q id uid i j l : ilongest ys inp (see && bol) p y q -> i_id y = skip ->
    ireads none skip see ys inp (line see inp bol q) q id uid i j l -> ireads none skip see ys inp bol p id uid i j l
| id_none bol p c : nth_error inp p = Some c -> inone ys inp (see && bol) p ->
    ireads none skip see ys inp bol p none none p (S p) (c =? 10).

(** No other rule matches a text that begins like a comment, and no comment begins
    like another one. *)
Definition apart (ys : list item) : Prop :=
  forall i j c y, i <> j -> nth_error ys i = Some (IComment c) -> nth_error ys j = Some y ->
    match y with
    | IText x => forall bol u w, alike (c_open c) u -> ~ smatch x bol (u ++ w)
    | IComment c' => forall u u' w, alike (c_open c) u -> alike (c_open c') u' -> u <> u' ++ w
    end.
End Meaning.
Definition item_ok (k : rcfg) (fl : N) (mds : list smacro) (y : item) : Prop :=
  match y with IText x => srule_ok k fl mds x | IComment c => comment_ok k fl c end.
Definition push_items (k : rcfg) (fl : N) (mds : list smacro) (ys : list item) : rules :=
  fold_left (fun r y => fst (push_rule k (i_text y) (i_id y) (i_uid y) r)) ys (put_macros k mds (make_rules k fl)).
(** A bound for the number of sets. *)
Definition item_sets (y : item) : nat := match y with IText x => leaves (s_sx x) | IComment c => length (comment_text c) end.
Definition items_sets (ys : list item) : nat := list_sum (map item_sets ys).
