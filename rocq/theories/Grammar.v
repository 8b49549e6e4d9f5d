(** Specification of the regular expressions of a rule: their grammar over
    tokens (with the usual precedences) and their meaning. Nothing here refers
    to the parser's stacks or tables. *)
From Verif Require Import Base StringToken StringTokenSpec SliceSpec RegexSpec DfaSpec ReToken.
Local Open Scope N_scope.

(** Abstract syntax. *)
Inductive rx :=
| XSet (t : stoken)
| XBol
| XEol
| XCat (a b : rx)
| XAlt (a b : rx)
| XOpt (a : rx)
| XStar (a : rx)
| XPlus (a : rx)
| XRep (a : rx) (min : N) (max : option N).

(** The bytes of a character for machines with [b] bytes per character. *)
Definition enc (b c : N) : list N :=
  if b =? 1 then [c]
  else if b =? 2 then [(c / 256) mod 256; c mod 256]
  else [(c / 65536) mod 256; (c / 256) mod 256; c mod 256].

(** The words of an expression. *)
Fixpoint xlang (b : N) (r : rx) (w : list sym) : Prop :=
  match r with
  | XSet t => exists c, takes t c /\ w = map SByte (enc b c)
  | XBol => w = [SBol]
  | XEol => w = [SEol]
  | XCat x y => exists u v, w = u ++ v /\ xlang b x u /\ xlang b y v
  | XAlt x y => xlang b x w \/ xlang b y w
  | XOpt x => w = [] \/ xlang b x w
  | XStar x => exists n, power (xlang b x) n w
  | XPlus x => exists n, (1 <= n)%nat /\ power (xlang b x) n w
  | XRep x mn mx =>
    exists n, mn <= N.of_nat n /\ match mx with Some m => N.of_nat n <= m | None => True end /\
              power (xlang b x) n w
  end.

(** The counts in the text between the braces: {n}, {n,} and {n,m}. *)
Definition digit (c : N) : Prop := 48 <= c <= 57.
Definition decimal (ds : list N) (n : N) : Prop :=
  ds <> [] /\ Forall digit ds /\ n = fold_left (fun a c => a * 10 + (c - 48)) ds 0.
Inductive counts : list N -> N -> option N -> Prop :=
| cn_one ds n : decimal ds n -> counts ds n (Some n)
| cn_open ds n : decimal ds n -> counts (ds ++ [44]) n None
| cn_two ds n ds' n' : decimal ds n -> decimal ds' n' -> counts (ds ++ 44 :: ds') n (Some n').

(** What a duplication token makes of its operand. *)
Inductive dup : token -> (rx -> rx) -> Prop :=
| dp_opt t : tk_type t = OPT \/ tk_type t = AOPT -> dup t XOpt
| dp_star t : tk_type t = ZEROORMORE \/ tk_type t = AZEROORMORE -> dup t XStar
| dp_plus t : tk_type t = ONEORMORE \/ tk_type t = AONEORMORE -> dup t XPlus
| dp_rep t mn mx : tk_type t = REPEATN \/ tk_type t = AREPEATN -> counts (tk_extra t) mn mx ->
    dup t (fun a => XRep a mn mx).

(** The grammar: alternation binds weakest, then concatenation (both associate
    to the left), then one optional duplication per atom. *)
Inductive nt := GRegex | GSeq | GExpr | GAtom.
Inductive gram : nt -> rx -> list token -> Prop :=
| g_regex r w : gram GSeq r w -> gram GRegex r w
| g_or a b u v t : gram GRegex a u -> tk_type t = OR -> gram GSeq b v ->
    gram GRegex (XAlt a b) (u ++ t :: v)
| g_seq r w : gram GExpr r w -> gram GSeq r w
| g_cat a b u v : gram GSeq a u -> gram GExpr b v -> gram GSeq (XCat a b) (u ++ v)
| g_expr r w : gram GAtom r w -> gram GExpr r w
| g_dup r w t f : gram GAtom r w -> dup t f -> gram GExpr (f r) (w ++ [t])
| g_set t : tk_type t = CHARSET -> gram GAtom (XSet (tk_str t)) [t]
| g_bol t : tk_type t = BOL -> gram GAtom XBol [t]
| g_eol t : tk_type t = EOL -> gram GAtom XEol [t]
| g_paren r w o c : tk_type o = OPENPAREN -> gram GRegex r w -> tk_type c = CLOSEPAREN ->
    gram GAtom r (o :: w ++ [c]).

(** A whole rule: an expression or nothing. *)
Definition ogram (o : option rx) (ts : list token) : Prop :=
  match o with None => ts = [] | Some r => gram GRegex r ts end.
Definition olang (b : N) (o : option rx) (w : list sym) : Prop :=
  match o with None => w = [] | Some r => xlang b r w end.

(** ** What the tokeniser guarantees about its tokens *)

(** The largest character of a charset; for 32 bit characters the ranges that
    slice_range handles (SliceSpec.v). *)
Definition set_ok (b : N) (t : stoken) : Prop :=
  wf t /\ t <> [] /\
  Forall (fun r => if b =? 1 then snd r <= 0xff
                   else if b =? 2 then snd r <= 0xffff
                   else snd r <= 0x10ffff /\ tame r) t.

(** Counts that are not written as another operator and fit a size_t. *)
Definition counts_ok (mn : N) (mx : option N) : Prop :=
  mn < 2 ^ 64 /\
  match mx with
  | None => 2 <= mn
  | Some m => m < 2 ^ 64 /\ 1 <= m /\ mn <= m
  end.

(** Tokens of a rule between BEGIN and END. *)
Definition tok_ok (b : N) (t : token) : Prop :=
  match tk_type t with
  | CHARSET => set_ok b (tk_str t)
  | REPEATN | AREPEATN => exists mn mx, counts (tk_extra t) mn mx /\ counts_ok mn mx /\
      (mx = Some 1 -> mn = 1) /\ (mx = Some mn -> ~ In 44 (tk_extra t))
  | OR | BOL | EOL | MACRO | OPENPAREN | CLOSEPAREN | OPT | AOPT | ZEROORMORE | AZEROORMORE
  | ONEORMORE | AONEORMORE => True
  | _ => False
  end.

(** Parentheses: the nesting depth after the tokens; never negative. *)
Fixpoint depth (n : nat) (w : list token) : option nat :=
  match w with
  | [] => Some n
  | t :: w' =>
    match tk_type t with
    | OPENPAREN => depth (S n) w'
    | CLOSEPAREN => match n with O => None | S n' => depth n' w' end
    | _ => depth n w'
    end
  end.
Definition balanced (w : list token) : Prop := depth 0 w = Some O.
