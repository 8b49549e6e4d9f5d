(** Where the rounds of greedy repeats begin: regular expressions that remember
    which repeats are greedy, and their words with marks at the characters that
    begin an optional round of a greedy repeat. Nothing here refers to the
    parser's stacks, to trees or to tables. *)
From Verif Require Import Base StringToken StringTokenSpec SliceSpec RegexSpec StateMachine ReToken DfaSpec Grammar
  Tree Parser Generator Build Lookup TableSpec LookupSpec RuleSpec.
Local Open Scope N_scope.

(** Abstract syntax: all repeats are [MRep a greedy min max]. *)
Inductive mrx :=
| MSet (t : stoken)
| MBol
| MEol
| MCat (a b : mrx)
| MAlt (a b : mrx)
| MRep (a : mrx) (greedy : bool) (min : N) (max : option N).

(** The repeats of the duplication tokens. *)
Inductive mdup : token -> bool -> N -> option N -> Prop :=
| md_opt t : tk_type t = OPT -> mdup t true 0 (Some 1)
| md_aopt t : tk_type t = AOPT -> mdup t false 0 (Some 1)
| md_star t : tk_type t = ZEROORMORE -> mdup t true 0 None
| md_astar t : tk_type t = AZEROORMORE -> mdup t false 0 None
| md_plus t : tk_type t = ONEORMORE -> mdup t true 1 None
| md_aplus t : tk_type t = AONEORMORE -> mdup t false 1 None
| md_rep t mn mx : tk_type t = REPEATN -> counts (tk_extra t) mn mx -> mdup t true mn mx
| md_arep t mn mx : tk_type t = AREPEATN -> counts (tk_extra t) mn mx -> mdup t false mn mx.

(** The grammar of Grammar.v with these expressions. *)
Inductive mgram : nt -> mrx -> list token -> Prop :=
| m_regex r w : mgram GSeq r w -> mgram GRegex r w
| m_or a b u v t : mgram GRegex a u -> tk_type t = OR -> mgram GSeq b v ->
    mgram GRegex (MAlt a b) (u ++ t :: v)
| m_seq r w : mgram GExpr r w -> mgram GSeq r w
| m_cat a b u v : mgram GSeq a u -> mgram GExpr b v -> mgram GSeq (MCat a b) (u ++ v)
| m_expr r w : mgram GAtom r w -> mgram GExpr r w
| m_dup r w t g mn mx : mgram GAtom r w -> mdup t g mn mx -> mgram GExpr (MRep r g mn mx) (w ++ [t])
| m_set t : tk_type t = CHARSET -> mgram GAtom (MSet (tk_str t)) [t]
| m_bol t : tk_type t = BOL -> mgram GAtom MBol [t]
| m_eol t : tk_type t = EOL -> mgram GAtom MEol [t]
| m_paren r w o c : tk_type o = OPENPAREN -> mgram GRegex r w -> tk_type c = CLOSEPAREN ->
    mgram GAtom r (o :: w ++ [c]).

(** A word whose first letter is marked. *)
Definition begin_mark {A : Type} (w : list (A * bool)) : list (A * bool) :=
  match w with [] => [] | (a, _) :: w' => (a, true) :: w' end.

(** The marked words: after the [mn] rounds that a repeat needs, every further
    round is marked at its beginning if the repeat is greedy. *)
Definition rounds {A : Type} (L : list (A * bool) -> Prop) (g : bool) (mn : N) (mx : option N)
    (w : list (A * bool)) : Prop :=
  exists u v j, w = u ++ v /\ power L (N.to_nat mn) u /\
    match mx with Some m => mn + N.of_nat j <= m | None => True end /\
    power (fun x => exists y, L y /\ x = if g then begin_mark y else y) j v.
Fixpoint mlang (r : mrx) (w : list (csym * bool)) : Prop :=
  match r with
  | MSet t => exists c, takes t c /\ w = [(CChar c, false)]
  | MBol => w = [(CBol, false)]
  | MEol => w = [(CEol, false)]
  | MCat x y => exists u v, w = u ++ v /\ mlang x u /\ mlang y v
  | MAlt x y => mlang x w \/ mlang y w
  | MRep x g mn mx => rounds (mlang x) g mn mx w
  end.

(** The marked words of a rule. *)
Definition rule_marks (r : grule) (w : list (csym * bool)) : Prop :=
  exists ts x, rule_tokens r ts /\ mgram GRegex x ts /\ mlang x w.

(** Rule [y] matches [cs ++ c :: cs'] and reads [c] as the beginning of a round
    of a greedy repeat that it could have left out. [bol]: the text stands at
    the beginning of a line. *)
Definition goes_on (y : grule) (bol : bool) (cs : list N) (c : N) (cs' : list N) : Prop :=
  exists W1 W2, rule_marks y (W1 ++ (CChar c, true) :: W2) /\
    (if bol then map fst W1 = CBol :: map CChar cs \/ (~ has_anchor y /\ map fst W1 = map CChar cs)
     else map fst W1 = map CChar cs) /\
    map fst W2 = map CChar cs'.

(** A token that ends at [q] leaves no such round unread. *)
Definition kept (rs : list grule) (inp : list N) (bol : bool) (p q : nat) : Prop :=
  forall q' y c, (q < q' <= length inp)%nat -> In y rs -> nth_error inp q = Some c ->
    ~ goes_on y bol (text_of inp p q) c (text_of inp (S q) q').
