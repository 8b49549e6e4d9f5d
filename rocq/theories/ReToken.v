(** Model of include/lexertl/parser/tokeniser/re_token.hpp and of the token type
    part of enums.hpp. *)
From Verif Require Import Base StringToken.
Local Open Scope N_scope.

(** re_token.hpp:20-25 (order of enum class token_type). *)
Inductive ttype :=
| BEGIN | REGEX | OREXP | SEQUENCE | SUB | EXPRESSION | REPEAT | DUP | OR | CHARSET | BOL | EOL
| MACRO | OPENPAREN | CLOSEPAREN | OPT | AOPT | ZEROORMORE | AZEROORMORE | ONEORMORE
| AONEORMORE | REPEATN | AREPEATN | END | DIFF.

(** The numbers of the enumerators. *)
Definition tnum (t : ttype) : nat :=
  match t with
  | BEGIN => 0 | REGEX => 1 | OREXP => 2 | SEQUENCE => 3 | SUB => 4 | EXPRESSION => 5
  | REPEAT => 6 | DUP => 7 | OR => 8 | CHARSET => 9 | BOL => 10 | EOL => 11 | MACRO => 12
  | OPENPAREN => 13 | CLOSEPAREN => 14 | OPT => 15 | AOPT => 16 | ZEROORMORE => 17
  | AZEROORMORE => 18 | ONEORMORE => 19 | AONEORMORE => 20 | REPEATN => 21 | AREPEATN => 22
  | END => 23 | DIFF => 24
  end.
Definition ttype_eqb (a b : ttype) : bool := Nat.eqb (tnum a) (tnum b).

(** re_token.hpp:27-55: type, string form and charset. *)
Record token := { tk_type : ttype; tk_extra : list N; tk_str : stoken }.
Definition tok (t : ttype) : token := {| tk_type := t; tk_extra := []; tk_str := [] |}.

(** The entries of the precedence table: ' ', '<', '=' and '>'. *)
Inductive prec := N_ | L_ | E_ | G_.

(** re_token.hpp:57-91: the table, row by row. A DIFF token is outside it (the
    array would be read out of bounds or in the next row). *)
Definition prec_row (t : ttype) : list prec :=
  match t with
  | BEGIN => [N_; L_; L_; L_; L_; L_; L_; N_; N_; L_; L_; L_; L_; L_; N_; N_; N_; N_; N_; N_; N_; N_; N_; G_]
  | REGEX => [N_; N_; N_; N_; N_; N_; N_; N_; N_; N_; N_; N_; N_; N_; E_; N_; N_; N_; N_; N_; N_; N_; N_; G_]
  | OREXP => [N_; N_; N_; N_; N_; N_; N_; N_; E_; G_; G_; G_; G_; N_; G_; N_; N_; N_; N_; N_; N_; N_; N_; G_]
  | SEQUENCE => [N_; N_; N_; N_; N_; N_; N_; N_; G_; G_; G_; G_; G_; N_; G_; N_; N_; N_; N_; N_; N_; N_; N_; G_]
  | SUB => [N_; N_; N_; N_; N_; E_; L_; N_; G_; L_; L_; L_; L_; L_; G_; N_; N_; N_; N_; N_; N_; N_; N_; G_]
  | EXPRESSION => [N_; N_; N_; N_; N_; N_; N_; N_; G_; G_; G_; G_; G_; G_; G_; N_; N_; N_; N_; N_; N_; N_; N_; G_]
  | REPEAT => [N_; N_; N_; N_; N_; N_; N_; E_; G_; G_; G_; G_; G_; G_; G_; L_; L_; L_; L_; L_; L_; L_; L_; G_]
  | DUP => [N_; N_; N_; N_; N_; N_; N_; N_; G_; G_; G_; G_; G_; G_; G_; N_; N_; N_; N_; N_; N_; N_; N_; G_]
  | OR => [N_; N_; N_; E_; L_; L_; L_; N_; N_; L_; L_; L_; L_; L_; N_; N_; N_; N_; N_; N_; N_; N_; N_; N_]
  | CHARSET => [N_; N_; N_; N_; N_; N_; N_; N_; G_; G_; G_; G_; G_; G_; G_; G_; G_; G_; G_; G_; G_; G_; G_; G_]
  | BOL => [N_; N_; N_; N_; N_; N_; N_; N_; G_; G_; G_; G_; G_; G_; G_; G_; G_; G_; G_; G_; G_; G_; G_; G_]
  | EOL => [N_; N_; N_; N_; N_; N_; N_; N_; G_; G_; G_; G_; G_; G_; G_; G_; G_; G_; G_; G_; G_; G_; G_; G_]
  | MACRO => [N_; N_; N_; N_; N_; N_; N_; N_; G_; G_; G_; G_; G_; G_; G_; G_; G_; G_; G_; G_; G_; G_; G_; G_]
  | OPENPAREN => [N_; E_; L_; L_; L_; L_; L_; N_; N_; L_; L_; L_; L_; L_; N_; N_; N_; N_; N_; N_; N_; N_; N_; N_]
  | CLOSEPAREN => [N_; N_; N_; N_; N_; N_; N_; N_; G_; G_; G_; G_; G_; G_; G_; G_; G_; G_; G_; G_; G_; G_; G_; G_]
  | OPT => [N_; N_; N_; N_; N_; N_; N_; N_; G_; G_; G_; G_; G_; G_; G_; L_; N_; N_; N_; N_; N_; N_; N_; G_]
  | AOPT => [N_; N_; N_; N_; N_; N_; N_; N_; G_; G_; G_; G_; G_; G_; G_; N_; N_; N_; N_; N_; N_; N_; N_; G_]
  | ZEROORMORE => [N_; N_; N_; N_; N_; N_; N_; N_; G_; G_; G_; G_; G_; G_; G_; L_; N_; N_; N_; N_; N_; N_; N_; G_]
  | AZEROORMORE => [N_; N_; N_; N_; N_; N_; N_; N_; G_; G_; G_; G_; G_; G_; G_; N_; N_; N_; N_; N_; N_; N_; N_; G_]
  | ONEORMORE => [N_; N_; N_; N_; N_; N_; N_; N_; G_; G_; G_; G_; G_; G_; G_; L_; N_; N_; N_; N_; N_; N_; N_; G_]
  | AONEORMORE => [N_; N_; N_; N_; N_; N_; N_; N_; G_; G_; G_; G_; G_; G_; G_; N_; N_; N_; N_; N_; N_; N_; N_; G_]
  | REPEATN => [N_; N_; N_; N_; N_; N_; N_; N_; G_; G_; G_; G_; G_; G_; G_; L_; N_; N_; N_; N_; N_; N_; N_; G_]
  | AREPEATN => [N_; N_; N_; N_; N_; N_; N_; N_; G_; G_; G_; G_; G_; G_; G_; N_; N_; N_; N_; N_; N_; N_; N_; G_]
  | END => [N_; N_; N_; N_; N_; N_; N_; N_; N_; N_; N_; N_; N_; N_; N_; N_; N_; N_; N_; N_; N_; N_; N_; N_]
  | DIFF => []
  end.
Definition precedence (a b : ttype) : option prec := nth_error (prec_row a) (tnum b).
