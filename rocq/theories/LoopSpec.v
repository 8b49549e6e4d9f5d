(** Rules like /[*](.|\n)*?[*]/ : some characters, then one abstemious repeat of a
    choice of characters, then characters that the repeat could read as well.
    Nothing here refers to the parser or the generator. *)
From Verif Require Import Base StringToken StringTokenSpec ReToken Parser Generator Build Grammar RuleSpec.
Local Open Scope N_scope.

Definition sets (ts : list token) : Prop := Forall (fun t => tk_type t = CHARSET) ts.
(** | C2 | C3 ... *)
Inductive alts : list token -> list token -> Prop :=
| alts_nil : alts [] []
| alts_cons o t w ts : tk_type o = OR -> tk_type t = CHARSET -> alts w ts -> alts (o :: t :: w) (t :: ts).
(** C or ( C1 | C2 ... ), and its character classes. *)
Inductive choice : list token -> list token -> Prop :=
| choice_one t : tk_type t = CHARSET -> choice [t] [t]
| choice_alts o t w ts c : tk_type o = OPENPAREN -> tk_type t = CHARSET -> alts w ts -> tk_type c = CLOSEPAREN ->
    choice (o :: t :: w ++ [c]) (t :: ts).
Record loop_tokens (w X b bs : list token) (z : token) (Y : list token) : Prop := {
  lo_eq : w = X ++ b ++ z :: Y;
  lo_ne : X <> [];
  lo_x : sets X;
  lo_b : choice b bs;
  lo_z : tk_type z = AZEROORMORE;
  lo_y : sets Y;
  lo_cover : forall y c, In y Y -> mem c (tk_str y) -> exists t, In t bs /\ mem c (tk_str t)
}.
Definition loop_rule (r : grule) : Prop :=
  exists ts X b bs z Y, rule_tokens r ts /\ loop_tokens ts X b bs z Y.
