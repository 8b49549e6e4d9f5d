(** What a lexer with rules ended by $ should return: the longest match; of the
    rules that match up to its end, those ended by $ come first if a line ends
    there. Nothing here refers to the generator or its tables. *)
From Verif Require Import Base StringToken StringTokenSpec StateMachine Slice ReToken Grammar Tree Parser
  Generator Build ParserKeys RuleSpec ParserRule DfaSpec Lookup TableSpec LookupSpec ParserTree BuildSpec
  TokeniseSpec EolSpec.
Local Open Scope N_scope.

(** The rule matches from [p] to [q], if need be with its $ at [q]. *)
Definition lmatch (k : cfg) (inp : list N) (bol : bool) (p q : nat) (r : grule) : Prop :=
  rmatch r bol (text_of inp p q) \/
  (f_eol k = true /\ at_line_end inp q /\ ematch r bol (text_of inp p q)).
(** The first of the rules with $ that match. *)
Definition efirst_match (rs : list grule) (bol : bool) (cs : list N) (r : grule) : Prop :=
  exists j, nth_error rs j = Some r /\ ematch r bol cs /\
    forall j' r', (j' < j)%nat -> nth_error rs j' = Some r' -> ~ ematch r' bol cs.
Definition llongest (k : cfg) (rs : list grule) (inp : list N) (bol : bool) (p : nat) (r : grule) (q : nat) : Prop :=
  (p < q <= length inp)%nat /\
  ((f_eol k = true /\ at_line_end inp q /\ efirst_match rs bol (text_of inp p q) r) \/
   (rfirst_match rs bol (text_of inp p q) r /\
    (f_eol k = true -> at_line_end inp q -> forall r', In r' rs -> ~ ematch r' bol (text_of inp p q)))) /\
  forall q' r', (q < q' <= length inp)%nat -> In r' rs -> ~ lmatch k inp bol p q' r'.
Definition lnone (k : cfg) (rs : list grule) (inp : list N) (bol : bool) (p : nat) : Prop :=
  forall q r, (p < q <= length inp)%nat -> In r rs -> ~ lmatch k inp bol p q r.
Definition lhits (k : cfg) (R : grules) (inp : list N) (r : results) (x : grule) (q : nat) : Prop :=
  exists rs, rules_of R (r_state r) rs /\
    (llongest k rs inp (f_bol k && r_bol r) (r_second r) x q \/
     (lnone k rs inp (f_bol k && r_bol r) (r_second r) /\ q = r_second r /\ rfirst_match rs false [] x)).
Definition lmisses (k : cfg) (R : grules) (inp : list N) (r : results) : Prop :=
  exists rs, rules_of R (r_state r) rs /\
    lnone k rs inp (f_bol k && r_bol r) (r_second r) /\ forall x, In x rs -> ~ rmatch x false [].
Definition llex (k : cfg) (R : grules) (inp : list N) :=
  rlooks k R inp (lhits k R inp) (lmisses k R inp).

(** ** Rules that do not compete for the end of a line *)
(** What a rule reads; a line may begin before it. *)
Definition reading (r : grule) (w : list csym) : Prop :=
  rule_lang r w \/ exists v, w = CBol :: v /\ rule_lang r v.
(** Characters one of whose bytes may be taken for \r or \n. *)
Definition breaks (b c : N) : Prop :=
  c = 10 \/ c = 13 \/ hd 0 (enc b c) = 10 \/ hd 0 (enc b c) = 13.
(** Where one rule has its $, no rule goes on with such a character. *)
Definition lines_apart (b : N) (rs : list grule) : Prop :=
  forall r1 r2 u v1 v2 c, In r1 rs -> In r2 rs ->
    reading r1 (u ++ CEol :: v1) -> reading r2 (u ++ CChar c :: v2) -> ~ breaks b c.

(** The rules of a start state: $ only at the end of a rule and not alone, ^
    only at the beginning of one, no abstemious repeats, no competition. *)
Record line_rules (b : N) (g : gstate) : Prop := {
  ll_dollar : Forall dollar_last (gs_rules g);
  ll_alone : Forall (fun r => ~ only_place r) (gs_rules g);
  ll_bol : Forall (bol_rule (has_bol (gs_features g))) (gs_rules g);
  ll_eager : Forall eager (gs_rules g);
  ll_apart : lines_apart b (gs_rules g)
}.
