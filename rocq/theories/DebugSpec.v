(** What a reader of a dumped class may expect: conditions under which the text
    is the class. *)
From Verif Require Import Base StringToken StringTokenSpec RuleSpec SourceSpec.
Local Open Scope N_scope.

(** Characters written by their number in hexadecimal. *)
Definition by_number (c : N) : Prop := (c < 32 \/ 126 < c) /\ c <> 0 /\ ~ 7 <= c <= 13.
Definition hexadecimal (c : N) : Prop := exists v, hex_digit c v.
(** The number ends where the character ends. *)
Definition closed (c : N) (rest : list N) : Prop :=
  (by_number c -> ~ begins hexadecimal rest) /\ (c = 0 -> ~ begins octal_digit rest).

(** The ranges of a class, one after the other: no range of two or more
    characters ends in a minus, a closing bracket or a caret; a closing bracket
    alone comes first; and no range ends in a number that the next continues. *)
Fixpoint legible_ranges (first : bool) (u : list (N * N)) : Prop :=
  match u with
  | [] => True
  | (lo, hi) :: u' =>
    (lo < hi -> hi <> 45 /\ hi <> 93 /\ hi <> 94) /\
    (lo = hi -> lo = 93 -> first = true) /\
    match u' with
    | [] => True
    | (lo', _) :: _ => (by_number hi -> ~ hexadecimal lo') /\ (hi = 0 -> ~ octal_digit lo')
    end /\ legible_ranges false u'
  end.
(** The ranges that are written: those of the class, or of the characters it
    leaves out when it has more than half of all, but not all. *)
Definition written (max : N) (t : stoken) : stoken :=
  if negb (any max t) && negatable max t then negate max t else t.
(** A class that is one character is written without brackets. *)
Definition legible (max : N) (t : stoken) (rest : list N) : Prop :=
  match t with
  | [(c, d)] => if c =? d then closed c rest /\ (c = 36 -> rest <> []) else legible_ranges true (written max t)
  | _ => legible_ranges true (written max t)
  end.
