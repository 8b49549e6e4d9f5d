(** The notation of regular expressions and what it means, independent of the
    tokeniser, the parser and the representation of classes. The relations say
    which texts are regular expressions; [rest] is always the text that follows.
    Left out: abstemious operators, macros with ^ or $ and differences of macros. *)
From Coq Require Import String Ascii.
From Verif Require Import Base RegexSpec Grammar RuleSpec FoldData UnicodeData.
Local Open Scope N_scope.

(** ** Abstract syntax *)
Inductive sx :=
| SSet (P : N -> Prop)
| SBol
| SEol
| SCat (a b : sx)
| SAlt (a b : sx)
| SOpt (a : sx)
| SStar (a : sx)
| SPlus (a : sx)
| SRep (a : sx) (min : N) (max : option N).
Fixpoint slang (r : sx) (w : list csym) : Prop :=
  match r with
  | SSet P => exists c, P c /\ w = [CChar c]
  | SBol => w = [CBol]
  | SEol => w = [CEol]
  | SCat x y => exists u v, w = u ++ v /\ slang x u /\ slang y v
  | SAlt x y => slang x w \/ slang y w
  | SOpt x => w = [] \/ slang x w
  | SStar x => exists n, power (slang x) n w
  | SPlus x => exists n, (1 <= n)%nat /\ power (slang x) n w
  | SRep x mn mx =>
    exists n, mn <= N.of_nat n /\ match mx with Some m => N.of_nat n <= m | None => True end /\
              power (slang x) n w
  end.

(** ** Flags and case *)
Definition f_icase (fl : N) : bool := N.testbit fl 0.
Definition f_dot_not_newline (fl : N) : bool := N.testbit fl 1.
Definition f_dot_not_cr_lf (fl : N) : bool := N.testbit fl 2.
Definition f_skip_ws (fl : N) : bool := N.testbit fl 3.

Definition chars_of_string (s : string) : list N := map N_of_ascii (list_ascii_of_string s).
(** The largest character of a lexer for [b] byte characters. *)
Definition top (b : N) : N := if b =? 1 then 0xff else if b =? 2 then 0xffff else 0x10ffff.

Definition upper (c : N) : Prop := 65 <= c <= 90.
Definition lower (c : N) : Prop := 97 <= c <= 122.
(** What a character stands for besides itself: the other case of an ASCII
    letter, or what the tables say (fold2.inc, fold4.inc; the lower end of the
    target first). *)
Definition paired (t : list ((N * N) * (N * N))) (c d : N) : Prop :=
  exists ff fs tf ts, In ((ff, fs), (tf, ts)) t /\ ff <= c <= fs /\ d = N.min tf ts + (c - ff).
Definition other_case (b c d : N) : Prop :=
  if b =? 1 then (upper c /\ d = c + 32) \/ (lower c /\ c = d + 32)
  else if b =? 2 then paired fold2_table c d
  else paired fold2_table c d \/ paired fold4_table c d.
Definition cased (b : N) (ic : bool) (P : N -> Prop) (d : N) : Prop :=
  P d \/ (ic = true /\ exists c, P c /\ other_case b c d).

(** ** Characters written with a backslash (the text after it) *)
Definition octal_digit (c : N) : Prop := 48 <= c <= 55.
Inductive hex_digit : N -> N -> Prop :=
| hx_digit c : 48 <= c <= 57 -> hex_digit c (c - 48)
| hx_lower c : 97 <= c <= 102 -> hex_digit c (c - 87)
| hx_upper c : 65 <= c <= 70 -> hex_digit c (c - 55).
(** Values of digit strings, most significant digit first. *)
Inductive octal_number : list N -> N -> Prop :=
| on_nil : octal_number [] 0
| on_digit ds n c : octal_number ds n -> octal_digit c -> octal_number (ds ++ [c]) (n * 8 + (c - 48)).
Inductive hex_number : list N -> N -> Prop :=
| hn_nil : hex_number [] 0
| hn_digit ds n c v : hex_number ds n -> hex_digit c v -> hex_number (ds ++ [c]) (n * 16 + v).
Definition letter_escapes : list (N * N) :=   (* abefnrtv *)
  [(97, 7); (98, 8); (101, 27); (102, 12); (110, 10); (114, 13); (116, 9); (118, 11)].
Definition not_itself : list N := chars_of_string "01234567abcdefnprstvwxDSW".
Definition begins (P : N -> Prop) (t : list N) : Prop := exists c t', t = c :: t' /\ P c.
Inductive echar (b : N) (rest : list N) : list N -> N -> Prop :=
| ec_self c : ~ In c not_itself -> echar b rest [c] c
| ec_letter c d : In (c, d) letter_escapes -> echar b rest [c] d
| ec_control_lower c : lower c -> echar b rest [99; c] (c - 96)
| ec_control_upper c : upper c -> echar b rest [99; c] (c - 64)
| ec_control_at : echar b rest [99; 64] 0
| ec_octal ds n : octal_number ds n -> ds <> [] -> (length ds <= 3)%nat ->
    length ds = 3%nat \/ ~ begins octal_digit rest -> n <= top b -> echar b rest ds n
| ec_hex ds n : hex_number ds n -> ds <> [] -> ~ begins (fun c => exists v, hex_digit c v) rest -> n <= top b ->
    echar b rest (120 :: ds) n.

(** ** Character classes *)
Definition is_dec (c : N) : Prop := 48 <= c <= 57.
Definition is_word (c : N) : Prop := is_dec c \/ upper c \/ lower c \/ c = 95.
Definition is_space (c : N) : Prop := c = 32 \/ 9 <= c <= 13.
Definition outside (b : N) (P : N -> Prop) (c : N) : Prop := c <= top b /\ ~ P c.

(** The POSIX classes: for one byte characters and, as classes of Unicode
    properties, for the others. Wide [:print:] is left out (finding 7). *)
Definition posix_narrow : list (string * (N -> Prop)) :=
  [ ("alnum", fun c => is_dec c \/ upper c \/ lower c);
    ("alpha", fun c => upper c \/ lower c);
    ("blank", fun c => c = 32 \/ c = 9);
    ("cntrl", fun c => c <= 31 \/ c = 127);
    ("digit", is_dec);
    ("graph", fun c => 33 <= c <= 126);
    ("lower", lower);
    ("print", fun c => 32 <= c <= 126);
    ("punct", fun c => 33 <= c <= 126 /\ ~ (is_dec c \/ upper c \/ lower c));
    ("space", is_space);
    ("upper", upper);
    ("xdigit", fun c => exists v, hex_digit c v) ]%string.
Definition posix_wide : list (string * list N) :=
  [ ("alnum", chars_of_string "\p{Ll}\p{Lu}\p{Nd}]");
    ("alpha", chars_of_string "\p{Ll}\p{Lu}]");
    ("blank", (chars_of_string "\p{Zs}" ++ [9; 93])%list);
    ("cntrl", chars_of_string "\p{Cc}]");
    ("digit", chars_of_string "\p{Nd}]");
    ("graph", chars_of_string "^\p{Z}\p{C}]");
    ("lower", chars_of_string "\p{Ll}]");
    ("punct", chars_of_string "\p{P}\p{S}]");
    ("space", (chars_of_string "\p{Z}" ++ [9; 13; 10; 11; 12; 93])%list);
    ("upper", chars_of_string "\p{Lu}]");
    ("xdigit", chars_of_string "0-9A-Fa-f]") ]%string.

(** A character in a class; [first] of all, a closing bracket is one. *)
Inductive cchar (b : N) (first : bool) (rest : list N) : list N -> N -> Prop :=
| cc_plain c : c <> 92 -> (first = false -> c <> 93) -> (c = 91 -> ~ begins (eq 58) rest) -> cchar b first rest [c] c
| cc_escape e c : echar b rest e c -> cchar b first rest (92 :: e) c.
(** A minus that follows is not meant as a range: only in front of the bracket. *)
Definition no_dash (rest : list N) : Prop := forall t, rest = 45 :: t -> begins (eq 93) t.

(** [eclass]: the text after a backslash; [citem]: an item of a class; [cbody]:
    the items and the closing bracket; [class]: what follows an opening bracket. *)
Inductive eclass (b : N) (ic : bool) : list N -> (N -> Prop) -> Prop :=
| es_d : eclass b ic [100] is_dec
| es_D : eclass b ic [68] (outside b is_dec)
| es_s : eclass b ic [115] is_space
| es_S : eclass b ic [83] (outside b is_space)
| es_w : eclass b ic [119] (cased b ic is_word)
| es_W : eclass b ic [87] (outside b (cased b ic is_word))
| es_p name s P : In (name, s) unicode_table -> class b ic (tl (chars_of_string s)) P ->
    eclass b ic (112 :: 123 :: chars_of_string name ++ [125]) P
with citem (b : N) (ic : bool) : bool -> list N -> list N -> (N -> Prop) -> Prop :=
| ci_char first rest t c : cchar b first rest t c -> no_dash rest -> citem b ic first rest t (cased b ic (eq c))
| ci_range first rest t lo u hi : cchar b first (45 :: u ++ rest) t lo -> cchar b false rest u hi -> lo <= hi ->
    citem b ic first rest (t ++ 45 :: u) (cased b ic (fun c => lo <= c <= hi))
| ci_class first rest t P : eclass b ic t P -> no_dash rest -> citem b ic first rest (92 :: t) P
| ci_posix first rest name P : b = 1 -> In (name, P) posix_narrow -> no_dash rest ->
    citem b ic first rest (91 :: 58 :: chars_of_string name ++ [58; 93]) (cased b ic P)
| ci_posix_not first rest name P : b = 1 -> In (name, P) posix_narrow -> no_dash rest ->
    citem b ic first rest (91 :: 58 :: 94 :: chars_of_string name ++ [58; 93]) (outside b (cased b ic P))
| ci_posix_wide first rest name t P : b <> 1 -> In (name, t) posix_wide -> class b ic t P -> no_dash rest ->
    citem b ic first rest (91 :: 58 :: chars_of_string name ++ [58; 93]) P
| ci_posix_wide_not first rest name t P : b <> 1 -> In (name, t) posix_wide -> class b ic t P -> no_dash rest ->
    citem b ic first rest (91 :: 58 :: 94 :: chars_of_string name ++ [58; 93]) (outside b P)
with cbody (b : N) (ic : bool) : bool -> list N -> (N -> Prop) -> Prop :=
| cb_end : cbody b ic false [93] (fun _ => False)
| cb_item first t P u Q : citem b ic first u t P -> cbody b ic false u Q ->
    cbody b ic first (t ++ u) (fun c => P c \/ Q c)
with class (b : N) (ic : bool) : list N -> (N -> Prop) -> Prop :=
| cl_of t P : cbody b ic true t P -> ~ begins (eq 94) t -> (exists c, P c) -> class b ic t P
| cl_not t P : cbody b ic true t P -> (exists c, outside b P c) -> class b ic (94 :: t) (outside b P).

(** ** Atoms *)
Definition meta : list N := chars_of_string "$()*+./?[\^{|" ++ [34].
Definition any_char (b fl c : N) : Prop :=
  c <= top b /\
  (if f_dot_not_newline fl then c <> 10 else if f_dot_not_cr_lf fl then c <> 10 /\ c <> 13 else True).
(** One character; [first]: at the beginning of the regular expression. *)
Inductive satom (b fl : N) (first : bool) (rest : list N) : list N -> (N -> Prop) -> Prop :=
| sa_plain c : ~ In c meta -> (f_skip_ws fl = true -> ~ is_space c) -> satom b fl first rest [c] (cased b (f_icase fl) (eq c))
| sa_escape e c : echar b rest e c -> satom b fl first rest (92 :: e) (cased b (f_icase fl) (eq c))
| sa_eclass e P : eclass b (f_icase fl) e P -> satom b fl first rest (92 :: e) P
| sa_dot : satom b fl first rest [46] (any_char b fl)
| sa_class t P : class b (f_icase fl) t P -> satom b fl first rest (91 :: t) P
| sa_caret : first = false -> satom b fl first rest [94] (eq 94)
| sa_dollar : rest <> [] -> satom b fl first rest [36] (eq 36).
(** One character inside quotes. *)
Inductive qchar (b fl : N) (rest : list N) : list N -> (N -> Prop) -> Prop :=
| qc_plain c : c <> 34 -> c <> 92 -> qchar b fl rest [c] (cased b (f_icase fl) (eq c))
| qc_escape e c : echar b rest e c -> qchar b fl rest (92 :: e) (cased b (f_icase fl) (eq c))
| qc_eclass e P : eclass b (f_icase fl) e P -> qchar b fl rest (92 :: e) P.
(** One or more of them. *)
Inductive quoted (b fl : N) : list N -> list N -> sx -> Prop :=
| qu_one rest t P : qchar b fl rest t P -> quoted b fl rest t (SSet P)
| qu_more rest t P u s : qchar b fl (u ++ rest) t P -> quoted b fl rest u s -> quoted b fl rest (t ++ u) (SCat (SSet P) s).

(** ** Operators, options and comments *)
(** The operators; a question mark behind them would make them abstemious. *)
Inductive postfix : list N -> (sx -> sx) -> Prop :=
| po_opt : postfix [63] SOpt
| po_star : postfix [42] SStar
| po_plus : postfix [43] SPlus
| po_rep ds mn mx : counts ds mn mx -> mn < 2 ^ 64 ->
    match mx with Some m => mn <= m /\ 1 <= m /\ m < 2 ^ 64 | None => True end ->
    postfix (123 :: ds ++ [125]) (fun s => SRep s mn mx).
(** Options: the letters i, s and x, each with or without a minus in front. *)
Definition switch (on : bool) (bit : N) (fl : N) : N := if on then N.setbit fl bit else N.clearbit fl bit.
Inductive options_ : N -> list N -> N -> Prop :=
| op_none fl : options_ fl [] fl
| op_i fl t fl' : options_ (switch true 0 fl) t fl' -> options_ fl (105 :: t) fl'
| op_not_i fl t fl' : options_ (switch false 0 fl) t fl' -> options_ fl (45 :: 105 :: t) fl'
| op_s fl t fl' : options_ (switch false 1 fl) t fl' -> options_ fl (115 :: t) fl'
| op_not_s fl t fl' : options_ (switch true 1 fl) t fl' -> options_ fl (45 :: 115 :: t) fl'
| op_x fl t fl' : options_ (switch true 3 fl) t fl' -> options_ fl (120 :: t) fl'
| op_not_x fl t fl' : options_ (switch false 3 fl) t fl' -> options_ fl (45 :: 120 :: t) fl'.
(** Text with matching parentheses. *)
Inductive nested : list N -> Prop :=
| ne_nil : nested []
| ne_char c t : c <> 40 -> c <> 41 -> nested t -> nested (c :: t)
| ne_parens t u : nested t -> nested u -> nested (40 :: t ++ 41 :: u).
(** What means nothing: comments, an empty string, and with skip_ws white space
    and C comments. *)
Inductive pad (fl : N) : list N -> Prop :=
| pd_comment t : nested t -> pad fl (40 :: 63 :: 35 :: t ++ [41])
| pd_quotes : pad fl [34; 34]
| pd_white c : f_skip_ws fl = true -> is_space c -> pad fl [c]
| pd_c_comment t : f_skip_ws fl = true -> (forall u v, t <> u ++ 42 :: 47 :: v) -> pad fl (47 :: 42 :: t ++ [42; 47]).

(** ** Sets and macros *)
(** Characters and classes with {-} and {+} between them, from left to right. *)
Inductive aset (b fl : N) : bool -> list N -> list N -> (N -> Prop) -> Prop :=
| as_atom first rest t P : satom b fl first rest t P -> aset b fl first rest t P
| as_less first rest t P u Q : aset b fl first (123 :: 45 :: 125 :: u ++ rest) t P -> satom b fl false rest u Q ->
    (exists c, P c /\ ~ Q c) -> aset b fl first rest (t ++ 123 :: 45 :: 125 :: u) (fun c => P c /\ ~ Q c)
| as_more first rest t P u Q : aset b fl first (123 :: 43 :: 125 :: u ++ rest) t P -> satom b fl false rest u Q ->
    aset b fl first rest (t ++ 123 :: 43 :: 125 :: u) (fun c => P c \/ Q c).
(** The macros that are known, with their meanings. *)
Definition menv := list (list N * sx).
Definition is_name (n : list N) : Prop :=
  exists c r, n = c :: r /\ (upper c \/ lower c \/ c = 95) /\ Forall (fun d => is_word d \/ d = 45) r.
(** How many sets of characters there are; $ counts as one. *)
Fixpoint leaves (s : sx) : nat :=
  match s with
  | SSet _ | SEol => 1
  | SBol => 0
  | SCat x y | SAlt x y => leaves x + leaves y
  | SOpt x | SStar x | SPlus x | SRep x _ _ => leaves x
  end.

(** ** Regular expressions *)
(** Words of characters that there are: with 32 bits those up to 0x10ffff. *)
Definition known (b : N) (w : list csym) : Prop := b = 1 \/ b = 2 \/ forall c, In (CChar c) w -> c <= 0x10ffff.
Inductive src (b : N) (E : menv) : N -> bool -> nt -> list N -> list N -> sx -> Prop :=
| sr_atom fl first rest t P : aset b fl first rest t P -> src b E fl first GAtom rest t (SSet P)
| sr_bol fl rest : src b E fl true GAtom rest [94] SBol
| sr_eol fl first : src b E fl first GAtom [] [36] SEol
| sr_group fl first rest t s : src b E fl false GRegex (41 :: rest) t s -> src b E fl first GAtom rest (40 :: t ++ [41]) s
| sr_options fl first rest o fl' t s : options_ fl o fl' -> src b E fl' false GRegex (41 :: rest) t s ->
    src b E fl first GAtom rest (40 :: 63 :: o ++ 58 :: t ++ [41]) s
| sr_macro fl first rest name s : is_name name -> In (name, s) E -> src b E fl first GAtom rest (123 :: name ++ [125]) s
| sr_expr fl first rest t s : src b E fl first GAtom rest t s -> src b E fl first GExpr rest t s
| sr_postfix fl first rest t s o f : src b E fl first GAtom (o ++ rest) t s -> postfix o f -> ~ begins (eq 63) rest ->
    src b E fl first GExpr rest (t ++ o) (f s)
| sr_seq fl first rest t s : src b E fl first GExpr rest t s -> src b E fl first GSeq rest t s
| sr_quoted fl first rest t s : quoted b fl (34 :: rest) t s -> src b E fl first GSeq rest (34 :: t ++ [34]) s
| sr_quoted_one fl first rest u P o f : qchar b fl (34 :: o ++ rest) u P -> postfix o f -> ~ begins (eq 63) rest ->
    src b E fl first GSeq rest (34 :: u ++ 34 :: o) (f (SSet P))
| sr_quoted_postfix fl first rest t s u P o f : quoted b fl (u ++ 34 :: o ++ rest) t s -> qchar b fl (34 :: o ++ rest) u P ->
    postfix o f -> ~ begins (eq 63) rest ->
    src b E fl first GSeq rest (34 :: t ++ u ++ 34 :: o) (SCat s (f (SSet P)))
| sr_cat fl first rest t s u v : src b E fl first GSeq (u ++ rest) t s -> src b E fl false GSeq rest u v ->
    src b E fl first GSeq rest (t ++ u) (SCat s v)
| sr_regex fl first rest t s : src b E fl first GSeq rest t s -> src b E fl first GRegex rest t s
| sr_alt fl first rest t s u v : src b E fl first GRegex (124 :: u ++ rest) t s -> src b E fl false GRegex rest u v ->
    src b E fl first GRegex rest (t ++ 124 :: u) (SAlt s v)
| sr_before fl first X rest p t s : pad fl p -> src b E fl false X rest t s -> src b E fl first X rest (p ++ t) s
| sr_after fl first X rest t s p : src b E fl first X (p ++ rest) t s -> pad fl p -> src b E fl first X rest (t ++ p) s.

(** [text], with flags [fl] and macros [E], is a regular expression that means [s]. *)
Definition regex_means (b : N) (E : menv) (fl : N) (text : list N) (s : sx) : Prop := src b E fl true GRegex [] text s.
