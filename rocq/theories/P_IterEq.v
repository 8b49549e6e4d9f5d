(** Property C34: comparing iterators. *)
From Verif Require Import Base StateMachine Lookup TableSpec LookupSpec LookupThms LookupTile LookupCheck
  LookupDet Iterator IterProofs IterEq StringToken ReToken ReTokeniser Rules RulesCheck Build P_Lookup P_Iterator P_Rules.
From Coq Require Import String.
Local Open Scope N_scope.
Local Open Scope list_scope.

(** Iterators are equal when both have ended, or both show the same token. *)
Theorem C34_equal_iterators a b : iter_eqb a b = true <->
  it_live a = false /\ it_live b = false \/ it_live a = true /\ it_live b = true /\ same_token (it_res a) (it_res b).
Proof. exact (iter_eqb_iff a b). Qed.
Print Assumptions C34_equal_iterators.
(** Then they go on alike, if what they have pushed is the same. *)
Theorem C34_equal_iterators_agree k m inp n fuel inner a b : iter_eqb a b = true -> r_stack (it_res a) = r_stack (it_res b) ->
  visit n fuel inner k m inp a = visit n fuel inner k m inp b.
Proof. exact (equal_visits k m inp n fuel inner a b). Qed.
Print Assumptions C34_equal_iterators_agree.
(** Two places of one range are never equal. *)
Theorem C34_places_differ k m inp r l l1 a l2 b l3 : mwf k m -> chars_ok k inp -> no_empty_match k m -> f_adv k = true ->
  rwf m inp r -> lexes k m inp r l -> l = l1 ++ a :: l2 ++ b :: l3 ->
  iter_eqb {| it_res := a; it_live := true |} {| it_res := b; it_live := true |} = false.
Proof. intros H1 H2 H3 H4 H5 H6. exact (positions_differ k m inp H1 H2 H3 H4 r l H6 H5 l1 a l2 b l3). Qed.
Print Assumptions C34_places_differ.

(** The stack is not compared. In state B, "b" returns to where B was entered
    from: of two equal iterators one goes on and the other throws. *)
Definition entered : rules := RulesCheck.calls kr [ OState (txt "B"); OPushIn (txt "INITIAL") (txt "a") 1 (txt ">B") 65535;
  OPushIn (txt "B") (txt "a") 1 (txt ".") 65535; OPushIn (txt "B") (txt "b") 2 (txt "<") 65535 ] new.
Definition entered_machine : internals := match build 100 gr (grules_of entered) with Ok m => m | _ => mm end.
Theorem C34_stack_refuted : exists k m inp a b l l' e, build 100 gr (grules_of entered) = Ok m /\
  iter_begin 9 99 k m inp 0 true 0 = Ok (a, None) /\ iter_begin 9 99 k m inp 0 true 1 = Ok (b, None) /\ iter_eqb a b = true /\
  visit 9 9 99 k m inp a = Ok (l, None) /\ visit 9 9 99 k m inp b = Ok (l', Some e).
Proof. exists kl, entered_machine, (txt "ab"). do 5 eexists. do 5 (split; [vm_compute; reflexivity|]). vm_compute. reflexivity. Qed.
Print Assumptions C34_stack_refuted.

Example C34_places_case : exists l1 a l2 b l3 l, mwf kn my /\ no_empty_match kn my /\
  visit_all 9 9 99 kn my [97; 98; 97; 97; 98] 0 true 0 = Ok (l, None) /\ l = l1 ++ a :: l2 ++ b :: l3 /\ r_id a = r_id b.
Proof.
  eexists [], _, [_], _, _, _. split; [apply mwfb_ok; vm_compute; reflexivity|]. split; [apply no_emptyb_ok; vm_compute; reflexivity|].
  split; [vm_compute; reflexivity|]. split; vm_compute; reflexivity.
Qed.
