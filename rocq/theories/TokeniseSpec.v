(** The token vectors that rules.hpp hands to the generator. *)
From Verif Require Import Base StringToken StringTokenSpec ReToken ReTokeniser Grammar Rules.
Local Open Scope N_scope.

(** Two tokens may stand next to each other. *)
Definition adj (x y : ttype) : bool :=
  match precedence x y with None | Some N_ => false | Some _ => true end.
Fixpoint chain (x : ttype) (l : list token) : Prop :=
  match l with
  | [] => True
  | t :: l' => adj x (tk_type t) = true /\ chain (tk_type t) l'
  end.

(** One token of a vector; [Q] is claimed of its set. *)
Definition vtok (Q : stoken -> Prop) (t : token) : Prop :=
  match tk_type t with
  | CHARSET => Q (tk_str t)
  | REPEATN | AREPEATN => exists mn mx, counts (tk_extra t) mn mx /\ counts_ok mn mx /\
      (mx = Some 1 -> mn = 1) /\ (mx = Some mn -> ~ In 44 (tk_extra t))
  | OR | BOL | EOL | OPENPAREN | CLOSEPAREN | OPT | AOPT | ZEROORMORE | AZEROORMORE
  | ONEORMORE | AONEORMORE => True
  | _ => False
  end.
Definition bol_first (w : list token) : Prop := forall u t v, w = u ++ t :: v -> tk_type t = BOL -> u = [].
Definition eol_last (w : list token) : Prop := forall u t v, w = u ++ t :: v -> tk_type t = EOL -> v = [].

(** The tokens between BEGIN and END. *)
Record vec (Q : stoken -> Prop) (w : list token) : Prop := {
  ve_toks : Forall (vtok Q) w;
  ve_chain : chain BEGIN (w ++ [tok END]);
  ve_bal : balanced w;
  ve_bol : bol_first w;
  ve_eol : eol_last w
}.
Definition between (w : list token) : list token := tok BEGIN :: w ++ [tok END].
Definition mvec (Q : stoken -> Prop) (l : list token) : Prop := exists w, l = between w /\ vec Q w.
(** Every macro holds such a vector or is empty: its insertion failed or is
    under way. *)
Definition macros_ok (Q : stoken -> Prop) (ms : macros) : Prop :=
  forall name mt, macro_find name ms = Some mt -> mt = [] \/ mvec Q mt.

(** What a macro stands for: its tokens; a BOL in front or an EOL at the back are
    literal characters except at the edges of the regex, and more than one token
    is put in parentheses except with such a BOL or EOL. *)
Definition lit_bol (u : list token) : list token :=
  match u with
  | t :: u' => if is_type BOL t then t_set [(94, 94)] :: u' else u
  | [] => []
  end.
Fixpoint lit_eol (u : list token) : list token :=
  match u with
  | [] => []
  | [t] => if is_type EOL t then [t_set [(36, 36)]] else u
  | t :: u' => t :: lit_eol u'
  end.
Definition starts (ty : ttype) (u : list token) : bool :=
  match u with t :: _ => is_type ty t | [] => false end.
Definition ends (ty : ttype) (u : list token) : bool := starts ty (rev u).
Definition expand (front back : bool) (u : list token) : list token :=
  let body := (if front then id else lit_bol) ((if back then id else lit_eol) u) in
  if Nat.ltb 1 (length u) && negb (front && starts BOL u || back && ends EOL u)
  then paren_open :: body ++ [paren_close] else body.
