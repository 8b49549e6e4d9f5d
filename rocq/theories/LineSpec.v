(** What a lexer should return whose rules may end with $: as SourceLexer, and at the
    end of a line the rules with $ that match come first. Only the meaning of the
    texts is used. *)
From Verif Require Import Base RuleSpec ReTokeniserNext Rules SourceSpec SourceClass SourceLexer SourceTop.
Local Open Scope N_scope.

(** The words of a rule hold $ at most at their end; none begins with ^, all do, or
    some do. *)
Definition dollar (e : bool) : list csym := if e then [CEol] else [].
Definition loose (s : sx) : Prop := forall w, slang s w -> exists cs e, w = map CChar cs ++ dollar e.
Definition held (s : sx) : Prop := forall w, slang s w -> exists cs e, w = CBol :: map CChar cs ++ dollar e.
Definition lined (s : sx) : Prop := forall w, slang s w -> exists cs e, w = map CChar cs ++ dollar e \/ w = CBol :: map CChar cs ++ dollar e.
Lemma loose_lined s : loose s -> lined s.
Proof. intros H w W. destruct (H w W) as (cs & e & ->). eauto. Qed.
Lemma held_lined s : held s -> lined s.
Proof. intros H w W. destruct (H w W) as (cs & e & ->). eauto. Qed.
(** A rule matches more than a place. *)
Definition solid (s : sx) : Prop := ~ slang s [] /\ ~ slang s [CEol] /\ ~ slang s [CBol; CEol].
Record lrule_ok (k : rcfg) (fl : N) (ms : list smacro) (x : srule) : Prop := {
  lo_says : text_says k fl ms x;
  lo_bol : lined (s_sx x);
  lo_solid : solid (s_sx x)
}.

(** [cs] is matched up to the end of a line. *)
Definition send (x : srule) (bol : bool) (cs : list N) : Prop :=
  if bol then slang (s_sx x) (CBol :: map CChar cs ++ [CEol]) \/ (~ anchors (s_sx x) /\ slang (s_sx x) (map CChar cs ++ [CEol]))
  else slang (s_sx x) (map CChar cs ++ [CEol]).
Definition line_end (inp : list N) (q : nat) : Prop := q = length inp \/ nth_error inp q = Some 10 \/ nth_error inp q = Some 13.
(** [ends]: $ is looked for. *)
Definition dmatch (ends : bool) (inp : list N) (bol : bool) (p q : nat) (x : srule) : Prop :=
  smatch x bol (between_pos inp p q) \/ (ends = true /\ line_end inp q /\ send x bol (between_pos inp p q)).
(** The first rule for which [P] holds. *)
Definition first_of (xs : list srule) (P : srule -> Prop) (x : srule) : Prop :=
  exists j, nth_error xs j = Some x /\ P x /\ forall j' y, (j' < j)%nat -> nth_error xs j' = Some y -> ~ P y.
Definition dlongest (ends : bool) (xs : list srule) (inp : list N) (bol : bool) (p : nat) (x : srule) (q : nat) : Prop :=
  (p < q <= length inp)%nat /\
  ((ends = true /\ line_end inp q /\ first_of xs (fun y => send y bol (between_pos inp p q)) x) \/
   (first_of xs (fun y => smatch y bol (between_pos inp p q)) x /\
    (ends = true -> line_end inp q -> forall y, In y xs -> ~ send y bol (between_pos inp p q)))) /\
  forall q' y, (q < q' <= length inp)%nat -> In y xs -> ~ dmatch ends inp bol p q' y.
Definition dnone (ends : bool) (xs : list srule) (inp : list N) (bol : bool) (p : nat) : Prop :=
  forall q y, (p < q <= length inp)%nat -> In y xs -> ~ dmatch ends inp bol p q y.
(** One call from position [p], as [sreads]. *)
Inductive dreads (none skip : N) (see ends : bool) (xs : list srule) (inp : list N) : bool -> nat -> N -> N -> nat -> nat -> bool -> Prop :=
| dd_end bol p : p = length inp -> dreads none skip see ends xs inp bol p 0 none p p bol
| dd_token bol p x q : dlongest ends xs inp (see && bol) p x q -> s_id x <> skip ->
    dreads none skip see ends xs inp bol p (s_id x) (s_uid x) p q (line see inp bol q)
| dd_skip bol p x q id uid i j b : dlongest ends xs inp (see && bol) p x q -> s_id x = skip ->
    dreads none skip see ends xs inp (line see inp bol q) q id uid i j b -> dreads none skip see ends xs inp bol p id uid i j b
| dd_none bol p c : nth_error inp p = Some c -> dnone ends xs inp (see && bol) p ->
    dreads none skip see ends xs inp bol p none none p (S p) (c =? 10).

(** Where one rule has its $, no rule goes on with a line break or, with 16 bits, with
    a character whose upper byte is that of one. *)
Definition breaking (b c : N) : Prop := c = 10 \/ c = 13 \/ (b = 2 /\ (c / 256 mod 256 = 10 \/ c / 256 mod 256 = 13)).
Definition sreading (s : sx) (w : list csym) : Prop := slang s w \/ exists v, w = CBol :: v /\ slang s v.
Definition sapart (b : N) (xs : list srule) : Prop :=
  forall x y u v1 v2 c, In x xs -> In y xs -> sreading (s_sx x) (u ++ CEol :: v1) -> sreading (s_sx y) (u ++ CChar c :: v2) -> ~ breaking b c.
