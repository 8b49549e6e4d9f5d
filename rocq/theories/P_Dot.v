(** Property C57: what dot::dump draws. *)
From Verif Require Import Base StringToken StringTokenSpec StateMachine ReToken ReTokeniser GenCpp Rules RulesCheck Lookup RuleSpec Grammar TokeniseSpec
  Build BuildSpec CharMachine SourceSpec SourceClass SourceAll DebugSpec Dot DotSpec DotLines DotThms DotBuilt P_Build P_CharMachine.
From Coq Require Import String.
Local Open Scope N_scope.
Local Open Scope list_scope.

(** ** C57: drawings of machines *)
(** The nodes of the drawing are the states. *)
Theorem C57_nodes max name l a i what : (forall i n, name i = Some n -> ~ In 10 n) ->
  (has_node (dot_dump max name l) a i what <-> exists s, state_at l a i s /\ drawn name a i s what).
Proof. intros NM. exact (node_iff max name l NM a i what). Qed.
Print Assumptions C57_nodes.
(** The edges are the moves and, with several start states, the changes of start
    state. *)
Theorem C57_edges max name l a i b j what : (forall i n, name i = Some n -> ~ In 10 n) ->
  (has_edge (dot_dump max name l) a i b j what <-> exists s, state_at l a i s /\
    ((a = b /\ exists t, In (N.of_nat j, t) (cs_trans s) /\ what = shows_class (dot_label max t)) \/
     ((1 < List.length l)%nat /\ cs_end s = true /\ cs_next s = N.of_nat b /\ j = 0%nat /\ what = dashed))).
Proof. intros NM. exact (edge_iff max name l NM a i b j what). Qed.
Print Assumptions C57_edges.
(** Edges of built machines end in nodes. *)
Theorem C57_edges_meet_nodes f k g R m inp r l name a i b j what s : setting f k g R m inp r -> sm_to_csm (npos k) m = Some l ->
  (forall i n, name i = Some n -> ~ In 10 n) -> has_edge (dot_dump 255 name l) a i b j what -> state_at l a i s ->
  f_rec k = false \/ cs_kind s = KNeither \/ what <> dashed ->
  (exists w, has_node (dot_dump 255 name l) a i w) /\ exists w, has_node (dot_dump 255 name l) b j w.
Proof. intros SE EL NM. exact (edges_meet_nodes f k g R m inp r l name SE EL NM a i b j what s). Qed.
Print Assumptions C57_edges_meet_nodes.
(** Labels that need no escapes are regular expressions for the class. *)
Theorem C57_labels_read fl ms t rule : f_icase fl = false -> f_skip_ws fl = false -> wf t -> t <> [] -> bounded 255 t -> plain_class 255 t ->
  exists w r, tokenise 1 fl ms (dot_label 255 t) rule = Ok [between w] /\ gram GRegex r w /\
    forall u, clang r u <-> exists c, u = [CChar c] /\ StringTokenSpec.mem c t.
Proof. exact (label_reads fl ms t rule). Qed.
Print Assumptions C57_labels_read.

Definition unnamed (i : N) : option (list N) := None.
Definition state (e : bool) (eol : N) (trans : list (N * stoken)) : cstate :=
  {| cs_end := e; cs_kind := KNeither; cs_id := 1; cs_uid := 2; cs_push := 65535; cs_next := 0; cs_eol := eol; cs_trans := trans |}.
(** A return to the previous start state is drawn as an edge to a node that does
    not exist. In start state 1 the rule b returns. *)
Definition Rp : grules :=
  {| gr_eoi := 0;
     gr_states := [ {| gs_rules := [ {| gr_tokens := [tok BEGIN; ch 97; tok END]; gr_id := 1; gr_uid := 65535; gr_next := 1; gr_push := 0; gr_pop := false |} ];
                       gs_features := 0 |};
                    {| gs_rules := [ {| gr_tokens := [tok BEGIN; ch 98; tok END]; gr_id := 2; gr_uid := 65535; gr_next := 65535; gr_push := 65535; gr_pop := true |} ];
                       gs_features := 0 |} ];
     gr_flags := gr_flags Ry |}.
Theorem C57_pop_refuted : exists m l b j, build 100 gx Rp = Ok m /\ sm_to_csm 65535 m = Some l /\
  has_edge (dot_dump 255 unnamed l) 1 1 b j dashed /\ forall w, ~ has_node (dot_dump 255 unnamed l) b j w.
Proof.
  exists (built Rp), (csm (built Rp)), (N.to_nat 65535), 0%nat. split; [vm_compute; reflexivity|]. split; [vm_compute; reflexivity|]. split.
  - apply C57_edges; [discriminate|]. eexists. split; [eexists; split; vm_compute; reflexivity|]. right.
    split; [apply Nat.ltb_lt; vm_compute; reflexivity|]. split; [reflexivity|]. split; [now rewrite N2Nat.id|]. split; reflexivity.
  - intros w K. apply C57_nodes in K; [|discriminate]. destruct K as (s & (d & H & _) & _).
    assert (L : (N.to_nat 65535 < 2)%nat). { change 2%nat with (List.length (csm (built Rp))). apply nth_error_Some. congruence. }
    lia.
Qed.
Print Assumptions C57_pop_refuted.
(** What happens at the ends of lines is not drawn. *)
Theorem C57_line_ends_refuted : exists l l', l <> l' /\ dot_dump 255 unnamed l = dot_dump 255 unnamed l' /\
  map cd_bol l <> map cd_bol l' /\ map (fun d => map cs_eol (cd_states d)) l <> map (fun d => map cs_eol (cd_states d)) l'.
Proof.
  exists [{| cd_bol := 1; cd_states := [state false 65535 [(1, [(97, 97)])]; state true 0 []] |}],
         [{| cd_bol := 65535; cd_states := [state false 65535 [(1, [(97, 97)])]; state true 65535 []] |}].
  split; [discriminate|]. split; [reflexivity|]. split; discriminate.
Qed.
Print Assumptions C57_line_ends_refuted.
(** Nor whether the first state accepts. *)
Theorem C57_start_refuted : exists s s' rest, cs_end s <> cs_end s' /\
  dot_dump 255 unnamed [{| cd_bol := 65535; cd_states := s :: rest |}] = dot_dump 255 unnamed [{| cd_bol := 65535; cd_states := s' :: rest |}].
Proof. exists (state true 65535 []), (state false 65535 []), []. split; [discriminate|reflexivity]. Qed.
Print Assumptions C57_start_refuted.
(** Markup in a label is not escaped: the label of "<" opens a tag. *)
Theorem C57_markup_refuted : exists t, wf t /\ bounded 255 t /\ dot_label 255 t = txt "[<]".
Proof.
  exists [(60, 60)]. split; [cbn; lia|]. split; [|vm_compute; reflexivity]. intros c (lo & hi & [I|[]] & H). injection I as <- <-. lia.
Qed.
Print Assumptions C57_markup_refuted.

(** The machine of C01: the move on i, and the change of start state on a quote. *)
Example C57_nonvacuous : setting 100 kx gx Ry my inp (pos false 0 0) /\ sm_to_csm (npos kx) my = Some (csm my) /\
  has_edge (dot_dump 255 unnamed (csm my)) 0 0 0 2 (shows_class (txt "[i]")) /\
  has_edge (dot_dump 255 unnamed (csm my)) 0 5 1 0 dashed /\
  has_node (dot_dump 255 unnamed (csm my)) 0 7 (txt "shape = doublecircle, xlabel=" ++ [34] ++ txt "id = 1" ++ [34]) /\
  (exists s, state_at (csm my) 0 5 s /\ cs_next s = 1) /\ f_rec kx = false.
Proof.
  split; [apply Ry_setting; lia|]. split; [vm_compute; reflexivity|]. split; [|split; [|split; [|split]]].
  - apply C57_edges; [discriminate|]. eexists. split; [eexists; split; vm_compute; reflexivity|]. left. split; [reflexivity|].
    exists [(105, 105)]. split; [cbn; auto|vm_compute; reflexivity].
  - apply C57_edges; [discriminate|]. eexists. split; [eexists; split; vm_compute; reflexivity|]. right.
    split; [apply Nat.ltb_lt; vm_compute; reflexivity|]. repeat split.
  - apply C57_nodes; [discriminate|]. eexists. split; [eexists; split; vm_compute; reflexivity|]. now apply drawn_end.
  - eexists. split; [eexists; split; vm_compute; reflexivity|reflexivity].
  - reflexivity.
Qed.
Example C57_label_case : wf [(97, 104); (106, 122)] /\ bounded 255 [(97, 104); (106, 122)] /\ plain_class 255 [(97, 104); (106, 122)] /\
  dot_label 255 [(97, 104); (106, 122)] = txt "[a-hj-z]".
Proof.
  split; [repeat split; cbn; lia|]. split; [intros c (lo & hi & I & H); cbn in I; destruct I as [I|[I|[]]]; injection I as <- <-; lia|].
  split; [|vm_compute; reflexivity]. unfold plain_class. replace (written 255 _) with [(97, 104); (106, 122)] by (vm_compute; reflexivity).
  repeat constructor; cbn [fst snd]; try lia; vm_compute; intuition discriminate.
Qed.
