(** What a lexer made from rules should do, in terms of the characters its
    regular expressions match. Nothing here refers to the generator or its
    tables. *)
From Verif Require Import Base StringToken StringTokenSpec SliceSpec RegexSpec StateMachine ReToken DfaSpec Grammar
  Tree Parser Generator Build Lookup TableSpec LookupSpec.
Local Open Scope N_scope.

(** ** Expressions over characters *)
Inductive csym := CChar (c : N) | CBol | CEol.
Fixpoint clang (r : rx) (w : list csym) : Prop :=
  match r with
  | XSet t => exists c, takes t c /\ w = [CChar c]
  | XBol => w = [CBol]
  | XEol => w = [CEol]
  | XCat x y => exists u v, w = u ++ v /\ clang x u /\ clang y v
  | XAlt x y => clang x w \/ clang y w
  | XOpt x => w = [] \/ clang x w
  | XStar x => exists n, power (clang x) n w
  | XPlus x => exists n, (1 <= n)%nat /\ power (clang x) n w
  | XRep x mn mx =>
    exists n, mn <= N.of_nat n /\ match mx with Some m => N.of_nat n <= m | None => True end /\
              power (clang x) n w
  end.
Definition oclang (o : option rx) (w : list csym) : Prop :=
  match o with None => w = [] | Some r => clang r w end.

(** The words of a rule: its tokens stand between BEGIN and END. *)
Definition rule_tokens (r : grule) (ts : list token) : Prop :=
  exists B E, gr_tokens r = B :: ts ++ [E] /\ tk_type B = BEGIN /\ tk_type E = END.
Definition rule_lang (r : grule) (w : list csym) : Prop :=
  exists ts o, rule_tokens r ts /\ ogram o ts /\ oclang o w.

(** ** Matching *)
(** Some word of the rule begins with ^. *)
Definition has_anchor (r : grule) : Prop := exists v, rule_lang r (CBol :: v).
(** A rule matches the characters [cs]; [bol]: they stand at the beginning of a
    line. There, only the words with ^ of a rule that has any are looked for;
    this makes a difference for rules like ^a|b alone (see [natural]). *)
Definition rmatch (r : grule) (bol : bool) (cs : list N) : Prop :=
  if bol then rule_lang r (CBol :: map CChar cs) \/ (~ has_anchor r /\ rule_lang r (map CChar cs))
  else rule_lang r (map CChar cs).
(** What one would expect: ^ stands for the beginning of a line and all other
    words match anywhere. *)
Definition natural (r : grule) (bol : bool) (cs : list N) : Prop :=
  rule_lang r (map CChar cs) \/ (bol = true /\ rule_lang r (CBol :: map CChar cs)).

(** [r] is the first of the rules that matches. *)
Definition rfirst_match (rs : list grule) (bol : bool) (cs : list N) (r : grule) : Prop :=
  exists j, nth_error rs j = Some r /\ rmatch r bol cs /\
    forall j' r', (j' < j)%nat -> nth_error rs j' = Some r' -> ~ rmatch r' bol cs.

(** [r] is the first rule with the longest match from [p] on; it ends at [q]. *)
Definition rlongest (rs : list grule) (inp : list N) (bol : bool) (p : nat) (r : grule) (q : nat)
    : Prop :=
  (p < q <= length inp)%nat /\ rfirst_match rs bol (text_of inp p q) r /\
  forall q' r', (q < q' <= length inp)%nat -> In r' rs -> ~ rmatch r' bol (text_of inp p q').

(** No rule matches any characters from [p] on. *)
Definition rnone (rs : list grule) (inp : list N) (bol : bool) (p : nat) : Prop :=
  forall q r, (p < q <= length inp)%nat -> In r rs -> ~ rmatch r bol (text_of inp p q).

(** ** Lexing *)
Definition rules_of (R : grules) (st : N) (rs : list grule) : Prop :=
  exists g, nth_error (gr_states R) (N.to_nat st) = Some g /\ gs_rules g = rs.

(** In start state [r_state r], rule [x] is matched from the position of [r] up
    to [q]: the longest match or, if there is none, an empty one. *)
Definition rhits (k : cfg) (R : grules) (inp : list N) (r : results) (x : grule) (q : nat) : Prop :=
  exists rs, rules_of R (r_state r) rs /\
    (rlongest rs inp (f_bol k && r_bol r) (r_second r) x q \/
     (rnone rs inp (f_bol k && r_bol r) (r_second r) /\ q = r_second r /\
      rfirst_match rs false [] x)).
Definition rmisses (k : cfg) (R : grules) (inp : list N) (r : results) : Prop :=
  exists rs, rules_of R (r_state r) rs /\
    rnone rs inp (f_bol k && r_bol r) (r_second r) /\
    forall x, In x rs -> ~ rmatch x false [].

(** Change of start state and stack by rule [x]; [q] tells if it matched
    anything. *)
Definition rstack (k : cfg) (x : grule) (moved : bool) (st st' : N) (stack stack' : list (N * N)) : Prop :=
  let next := if moved then gr_next x else st in
  if f_rec k then
    if gr_pop x then
      exists s i, stack = (s, i) :: stack' /\ st' = if f_multi k then s else st
    else (stack' = if gr_push x =? npos k then stack else (gr_push x, gr_id x) :: stack) /\
         st' = (if f_multi k then next else st)
  else stack' = stack /\ st' = (if f_multi k then next else st).
Definition rjoins (k : cfg) (R : grules) (x : grule) (stack : list (N * N)) : Prop :=
  gr_id x = gr_eoi R \/
  (f_rec k = true /\ gr_pop x = true /\ exists s rest, stack = (s, gr_eoi R) :: rest).

(** The rest is about any notion of [hit] and [miss]; for rules without
    abstemious repeats these are [rhits] and [rmisses]. *)
Section Looks.
Variables (k : cfg) (R : grules) (inp : list N).
Variables (hit : results -> grule -> nat -> Prop) (miss : results -> Prop).
Definition reats (r : results) (x : grule) (r' : results) : Prop :=
  exists q, hit r x q /\
    rstack k x (Nat.ltb (r_second r) q) (r_state r) (r_state r') (r_stack r) (r_stack r') /\
    r_second r' = q /\
    r_bol r' = (if f_bol k then bol_at inp (r_bol r) (r_second r) q else r_bol r).

(** One call: [rlooks first r r' thrown]. *)
Inductive rlooks : nat -> results -> results -> option err -> Prop :=
| rl_eoi first r r' :
    r_second r = length inp ->
    r' = {| r_id := gr_eoi R; r_uid := npos k; r_first := first; r_second := r_second r;
            r_bol := r_bol r; r_state := r_state r; r_stack := r_stack r |} ->
    rlooks first r r' None
| rl_token first r x r' :
    (r_second r < length inp)%nat ->
    reats r x r' -> gr_id x <> skip_id k -> ~ rjoins k R x (r_stack r') ->
    r_id r' = gr_id x -> r_uid r' = gr_uid x -> r_first r' = first ->
    rlooks first r r' None
| rl_skip first r x r1 r' o :
    (r_second r < length inp)%nat ->
    reats r x r1 -> gr_id x = skip_id k -> rlooks (r_second r1) r1 r' o ->
    rlooks first r r' o
| rl_join first r x r1 r' o :
    (r_second r < length inp)%nat ->
    reats r x r1 -> gr_id x <> skip_id k -> rjoins k R x (r_stack r1) ->
    rlooks first r1 r' o -> rlooks first r r' o
| rl_none first r c r' :
    nth_error inp (r_second r) = Some c -> miss r ->
    r' = {| r_id := npos k; r_uid := npos k; r_first := r_second r;
            r_second := if f_adv k then S (r_second r) else r_second r;
            r_bol := (c =? 10); r_state := r_state r; r_stack := r_stack r |} ->
    rlooks first r r' None
| rl_throw first r x q r' :
    (r_second r < length inp)%nat ->
    hit r x q -> f_rec k = true -> gr_pop x = true -> r_stack r = [] ->
    r_first r' = first -> r_second r' = r_second r -> r_bol r' = r_bol r ->
    r_state r' = r_state r -> r_stack r' = r_stack r ->
    rlooks first r r' (Some EUnderflow).
End Looks.

(** What the rules say. *)
Definition rlex (k : cfg) (R : grules) (inp : list N) :=
  rlooks k R inp (rhits k R inp) (rmisses k R inp).

(** The longest match is given up with abstemious repeats; what remains is that
    the text is matched by some rule of the start state, and by no earlier one.
    [b]: the text is taken to begin a line, which it must then do. *)
Definition rjustified (k : cfg) (R : grules) (inp : list N) (r : results) (x : grule) (q : nat) : Prop :=
  exists rs b, rules_of R (r_state r) rs /\ (b = true -> f_bol k && r_bol r = true) /\
    (r_second r <= q <= length inp)%nat /\ rfirst_match rs b (text_of inp (r_second r) q) x.

(** A character of [b] bytes (at most 3 are looked at). *)
Definition fits (b c : N) : Prop :=
  if b =? 1 then c < 256 else if b =? 2 then c < 65536 else c < 16777216.
