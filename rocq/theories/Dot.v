(** Model of dot.hpp: the text that dot::dump writes for a machine, for char.
    For wchar_t and char32_t dump_ex cannot be instantiated: it stores what
    rules::state returns in a const char* (181). *)
From Verif Require Import Base StringToken ReTokeniser Rules GenCpp CharMachine.
From Coq Require Import String.
Local Open Scope N_scope.
Local Open Scope list_scope.

(** std::endl. *)
Definition endl : list N := [10].
(** A double quote. *)
Definition quote : list N := [34].

(** dot.hpp:69-78: node_name. *)
Definition node_name (dfa state : N) : list N := txt "L" ++ print 10 dfa ++ txt "_S" ++ print 10 state.

(** dot.hpp:83-161: double_escape_char. *)
Definition double_escape_char (c : N) : list N :=
  if c =? 0 then [92; 92; 48]
  else if c =? 7 then [92; 92; 97]
  else if c =? 8 then [92; 92; 98]
  else if c =? 12 then [92; 92; 102]
  else if c =? 10 then [92; 92; 110]
  else if c =? 13 then [92; 92; 114]
  else if c =? 9 then [92; 92; 116]
  else if c =? 11 then [92; 92; 118]
  else if c =? 92 then [92; 92]
  else if c =? 34 then [92; 92; 34]
  else if c =? 39 then [92; 92; 39]
  else if (c <? 32) || (126 <? c) then 92 :: 120 :: print 16 c
  else [c].

(** dot.hpp:247-279: dump_ranges. As in debug.hpp the backslashes go to the
    stream at once and the characters when the range is done. *)
Definition dot_range (r : range) : list N :=
  let (a, b) := r in
  let p := if (a =? 94) || (a =? 93) then [92; 92] else [] in
  if a =? b then p ++ double_escape_char a
  else
    p ++ (if (b =? 94) || (b =? 93) then [92; 92] else []) ++
    double_escape_char a ++ (if a + 1 <? b then [45] else []) ++ double_escape_char b.
Definition dump_ranges (t : stoken) : list N := flat_map dot_range t.

(** dot.hpp:174-205: the nodes. [name] is what rules::state returns. *)
Definition dot_node (name : N -> option (list N)) (dfa i : N) (s : cstate) : list N :=
  if i =? 0 then
    txt "    " ++ node_name dfa i ++ txt " [shape = circle, xlabel=" ++ quote ++
    match name dfa with Some n => n | None => print 10 dfa end ++ quote ++ txt "];" ++ endl
  else if cs_end s then
    txt "    " ++ node_name dfa i ++ txt " [shape = doublecircle, xlabel=" ++ quote ++ txt "id = " ++ print 10 (cs_id s) ++
    quote ++ txt "];" ++ endl
  else txt "    " ++ node_name dfa i ++ txt " [shape = circle];" ++ endl.
Fixpoint dot_nodes (name : N -> option (list N)) (dfa i : N) (l : list cstate) : list N :=
  match l with [] => [] | s :: l' => dot_node name dfa i s ++ dot_nodes name dfa (i + 1) l' end.

(** dot.hpp:217-237, 292-305: the moves of a state. *)
Definition dot_label (max : N) (t : stoken) : list N :=
  let neg := negb (any max t) && negatable max t in
  txt "[" ++ (if neg then txt "^" else []) ++ dump_ranges (if neg then negate max t else t) ++ txt "]".
Definition dot_move (max dfa i : N) (tr : N * stoken) : list N :=
  txt "    " ++ node_name dfa i ++ txt " -> " ++ node_name dfa (fst tr) ++
  txt " [label = <<TABLE BORDER=" ++ quote ++ txt "0" ++ quote ++ txt " CELLBORDER=" ++ quote ++ txt "0" ++ quote ++
  txt "><TR><TD>" ++ dot_label max (snd tr) ++ txt "</TD></TR></TABLE>>];" ++ endl.
(** dot.hpp:239-243: the edge to the next start state. *)
Definition dot_next (dfas dfa i : N) (s : cstate) : list N :=
  if (1 <? dfas) && cs_end s then
    txt "    " ++ node_name dfa i ++ txt " -> " ++ node_name (cs_next s) 0 ++ txt " [style = " ++ quote ++ txt "dashed" ++ quote ++ txt "];" ++ endl
  else [].
(** dot.hpp:209-244. *)
Fixpoint dot_edges (max dfas dfa i : N) (l : list cstate) : list N :=
  match l with
  | [] => []
  | s :: l' => flat_map (dot_move max dfa i) (cs_trans s) ++ dot_next dfas dfa i s ++ dot_edges max dfas dfa (i + 1) l'
  end.
(** dot.hpp:166-245: dump_ex. The counters have the type of ids; machines with
    more states than ids can count are not built (generator.hpp). *)
Definition dot_dfa (max : N) (name : N -> option (list N)) (dfas dfa : N) (d : cdfa) : list N :=
  endl ++ dot_nodes name dfa 0 (cd_states d) ++ endl ++ dot_edges max dfas dfa 0 (cd_states d).
Fixpoint dot_dfas (max : N) (name : N -> option (list N)) (dfas dfa : N) (l : list cdfa) : list N :=
  match l with [] => [] | d :: l' => dot_dfa max name dfas dfa d ++ dot_dfas max name dfas (dfa + 1) l' end.
(** dot.hpp:37-60, 281-290: dump of a machine. *)
Definition dot_dump (max : N) (name : N -> option (list N)) (l : list cdfa) : list N :=
  txt "digraph DFAs {" ++ endl ++ txt "    rankdir = LR;" ++ endl ++
  dot_dfas max name (N.of_nat (List.length l)) 0 l ++ txt "}" ++ endl.
