(** What a drawing in the DOT language contains. *)
From Verif Require Import Base StringToken StringTokenSpec ReTokeniser GenCpp CharMachine Dot.
From Coq Require Import String.
Local Open Scope N_scope.
Local Open Scope list_scope.

(** [l] is a line of the text [x]. *)
Definition is_line (x l : list N) : Prop :=
  ~ In 10 l /\ exists pre post, x = pre ++ l ++ 10 :: post /\ (pre = [] \/ exists p, pre = p ++ [10]).
(** Nodes are called L<start state>_S<state>; a line declares one, or draws an
    edge between two. *)
Definition called (a i : nat) : list N := txt "L" ++ print 10 (N.of_nat a) ++ txt "_S" ++ print 10 (N.of_nat i).
Definition has_node (x : list N) (a i : nat) (what : list N) : Prop := is_line x (txt "    " ++ called a i ++ txt " [" ++ what ++ txt "];").
Definition has_edge (x : list N) (a i b j : nat) (what : list N) : Prop :=
  is_line x (txt "    " ++ called a i ++ txt " -> " ++ called b j ++ txt " [" ++ what ++ txt "];").
(** The state of a machine. *)
Definition state_at (l : list cdfa) (a i : nat) (s : cstate) : Prop :=
  exists d, nth_error l a = Some d /\ nth_error (cd_states d) i = Some s.
(** How a state is drawn: the first one by its name, the others by whether they
    accept. *)
Inductive drawn (name : N -> option (list N)) (a : nat) : nat -> cstate -> list N -> Prop :=
| drawn_named s n : name (N.of_nat a) = Some n -> drawn name a 0 s (txt "shape = circle, xlabel=" ++ [34] ++ n ++ [34])
| drawn_number s : name (N.of_nat a) = None -> drawn name a 0 s (txt "shape = circle, xlabel=" ++ [34] ++ print 10 (N.of_nat a) ++ [34])
| drawn_end i s : cs_end s = true -> drawn name a (S i) s (txt "shape = doublecircle, xlabel=" ++ [34] ++ txt "id = " ++ print 10 (cs_id s) ++ [34])
| drawn_other i s : cs_end s = false -> drawn name a (S i) s (txt "shape = circle").
(** What an edge shows: a class, or that it leads to the next start state. *)
Definition shows_class (t : list N) : list N :=
  txt "label = <<TABLE BORDER=" ++ [34; 48; 34] ++ txt " CELLBORDER=" ++ [34; 48; 34] ++ txt "><TR><TD>" ++ t ++ txt "</TD></TR></TABLE>>".
Definition dashed : list N := txt "style = " ++ [34] ++ txt "dashed" ++ [34].
