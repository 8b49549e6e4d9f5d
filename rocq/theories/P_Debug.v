(** Property C56: what debug::dump writes. *)
From Verif Require Import Base StringToken StringTokenSpec GenCpp ReToken ReTokeniser Rules StateMachine Lookup CharMachine Debug RuleSpec Grammar TokeniseSpec
  SourceSpec SourceClass SourceAll BuildSpec BuildLookup DebugSpec DumpSpec DebugText DebugClass DebugInj DebugBuilt DebugRead DebugShow P_Build P_CharMachine.
From Coq Require Import String.
Local Open Scope N_scope.
Local Open Scope list_scope.

(** ** C56: dumps of machines *)
(** The text of a class is a regular expression for it: lexertl's own tokeniser
    reads it as the characters of the class. *)
Theorem C56_class_reads_back b fl ms t rule : f_icase fl = false -> f_skip_ws fl = false ->
  wf t -> t <> [] -> bounded (top b) t -> legible (top b) t [] ->
  exists text w r, dump_charset (top b) 16 t = Ok text /\ tokenise b fl ms text rule = Ok [between w] /\ gram GRegex r w /\
    forall u, clang r u /\ known b u <-> exists c, u = [CChar c] /\ StringTokenSpec.mem c t.
Proof. exact (class_read_back b fl ms t rule). Qed.
(** No other class is written so. *)
Theorem C56_class_text_unique b t t' x : clear_class (top b) t -> clear_class (top b) t' ->
  dump_charset (top b) 16 t = Ok x -> dump_charset (top b) 16 t' = Ok x -> t = t'.
Proof. exact (class_text_unique b t t' x). Qed.
(** The dump shows the whole machine. *)
Theorem C56_dump_unique npos b name l l' x : (forall i n, name i = Some n -> ~ In 10 n) ->
  (forall d, In d l -> clear_moves (top b) d) -> (forall d, In d l' -> clear_moves (top b) d) ->
  dump_csm npos (top b) 16 name 0 l = Ok x -> dump_csm npos (top b) 16 name 0 l' = Ok x -> Forall2 dfa_like l l'.
Proof. exact (dump_unique npos b name l l' x). Qed.
(** Every built machine can be dumped. *)
Theorem C56_built_machines f k g R m inp r : setting f k g R m inp r ->
  exists l x, sm_to_csm (npos k) m = Some l /\ dump_numbered (npos k) 255 16 l = Ok x.
Proof. exact (built_dump f k g R m inp r). Qed.
(** End states, moves and the moves at the ends of lines have their lines. *)
Theorem C56_end_states_shown npos max base name l x a d j s : dump_csm npos max base name 0 l = Ok x ->
  nth_error l a = Some d -> nth_error (cd_states d) j = Some s -> cs_end s = true ->
  exists op, operation s op /\ shows x (txt "State: " ++ print 10 (N.of_nat j) ++ [10] ++ txt "  END STATE" ++ op ++
    txt ", Id = " ++ print 10 (cs_id s) ++ txt ", User Id = " ++ print 10 (cs_uid s) ++ txt ", dfa = " ++ print 10 (cs_next s) ++ [10]).
Proof. intros H. exact (end_shown npos max base name l x H a d j s). Qed.
Theorem C56_moves_shown npos max base name l x a d j s q t : dump_csm npos max base name 0 l = Ok x ->
  nth_error l a = Some d -> nth_error (cd_states d) j = Some s -> In (q, t) (cs_trans s) ->
  exists text, dump_charset max base t = Ok text /\ shows x (txt "  " ++ text ++ txt " -> " ++ print 10 q ++ [10]).
Proof. intros H. exact (move_shown npos max base name l x H a d j s q t). Qed.
Theorem C56_line_ends_shown npos max base name l x a d j s : dump_csm npos max base name 0 l = Ok x ->
  nth_error l a = Some d -> nth_error (cd_states d) j = Some s ->
  (cs_eol s <> npos -> shows x (txt "  EOL -> " ++ print 10 (cs_eol s) ++ [10])) /\
  (cd_bol d <> npos -> shows x (txt "  BOL -> " ++ print 10 (cd_bol d) ++ [10])).
Proof.
  intros H A B. split; intros C; [exact (eol_shown npos max base name l x H a d j s A B C)|].
  exact (bol_shown npos max base name l x H a d A ltac:(intros E; rewrite E in B; destruct j; discriminate B) C).
Qed.
(** Whatever the classes, as long as none is empty, and the names exist. *)
Theorem C56_dump_defined npos b base name l i :
  (forall d s q t, In d l -> In s (cd_states d) -> In (q, t) (cs_trans s) -> dumpable (top b) t) ->
  (forall j, i <= j < i + N.of_nat (List.length l) -> name j <> None) -> exists x, dump_csm npos (top b) base name i l = Ok x.
Proof. exact (dump_defined npos b base name l i). Qed.
Print Assumptions C56_end_states_shown.
Print Assumptions C56_moves_shown.
Print Assumptions C56_line_ends_shown.
Print Assumptions C56_dump_defined.
Print Assumptions C56_class_reads_back.
Print Assumptions C56_class_text_unique.
Print Assumptions C56_dump_unique.
Print Assumptions C56_built_machines.

(** The text of a class and what the tokeniser makes of it. *)
Definition said (max base : N) (t : stoken) : list N := match dump_charset max base t with Ok x => x | _ => [] end.
Definition reread (b : N) (x : list N) : res (list (list stoken)) :=
  do ts <- tokenise b 2 [] x true; Ok (map (map tk_str) ts).
Ltac class_case := repeat split; try (vm_compute; reflexivity); try discriminate; try (cbn; lia);
  match goal with |- bounded _ _ => intros c (lo & hi & I & H); cbn in I;
    repeat match type of I with _ \/ _ => destruct I as [I|I] end; try contradiction; injection I as <- <-; lia end.
(** A range that ends in "-", "]" or "^" is escaped in the wrong place: [D-^] is
    written [\D-^], no range. *)
Theorem C56_range_end_refuted : exists t, dumpable 255 t /\ said 255 16 t = txt "[\D-^]" /\
  tokenise 1 2 [] (said 255 16 t) true = Throw ETokenise.
Proof. exists [(68, 94)]. class_case. Qed.
Print Assumptions C56_range_end_refuted.
(** "," and "-" with "a": a range is read. *)
Theorem C56_minus_refuted : exists t, dumpable 255 t /\ said 255 16 t = txt "[\,-a]" /\
  reread 1 (said 255 16 t) = Ok [[[]; [(44, 97)]; []]] /\ t <> [(44, 97)].
Proof. exists [(44, 45); (97, 97)]. class_case. Qed.
Print Assumptions C56_minus_refuted.
(** "]" behind another character closes the brackets. *)
Theorem C56_bracket_refuted : exists t, dumpable 255 t /\ said 255 16 t = txt "[(]a]" /\
  reread 1 (said 255 16 t) = Ok [[[]; [(40, 40)]; [(97, 97)]; [(93, 93)]; []]].
Proof. exists [(40, 40); (93, 93); (97, 97)]. class_case. Qed.
Print Assumptions C56_bracket_refuted.
(** A digit continues the number before it. *)
Theorem C56_number_refuted : exists t, dumpable 255 t /\ said 255 16 t = txt "[\x10]" /\
  reread 1 (said 255 16 t) = Ok [[[]; [(16, 16)]; []]] /\ t <> [(16, 16)].
Proof. exists [(1, 1); (48, 48)]. class_case. Qed.
Print Assumptions C56_number_refuted.
(** With char32_t numbers are in decimal, though introduced by \x. *)
Theorem C56_char32_refuted : exists t, dumpable 1114111 t /\ said 1114111 10 t = txt "\x256" /\
  reread 4 (said 1114111 10 t) = Ok [[[]; [(598, 598)]; []]] /\ t <> [(598, 598)].
Proof. exists [(256, 256)]. class_case. Qed.
Print Assumptions C56_char32_refuted.
(** An empty class, or a lexer state without a name, is undefined behaviour. *)
Theorem C56_empty_class_refuted : exists max base, dump_charset max base [] = UB.
Proof. exists 255, 16. reflexivity. Qed.
Print Assumptions C56_empty_class_refuted.
Ltac legible_case := match goal with |- legible ?m ?t _ =>
   unfold legible; let w := eval vm_compute in (written m t) in change (written m t) with w;
   cbn [N.eqb Pos.eqb legible_ranges]; unfold closed, by_number, octal_digit, begins; repeat split; intros; try discriminate; try lia end.
Ltac clear_case := match goal with |- clear_class ?m ?t =>
  split; [repeat split; cbn; lia|]; split; [discriminate|]; split;
  [change m with 255; class_case|
legible_case] end.
(** The class of a, b and "]" can be read. *)
Example C56_class_case : wf [(93, 93); (97, 98)] /\ bounded 255 [(93, 93); (97, 98)] /\ legible 255 [(93, 93); (97, 98)] [] /\
  said 255 16 [(93, 93); (97, 98)] = txt "[]ab]" /\ reread 1 (txt "[]ab]") = Ok [[[]; [(93, 93); (97, 98)]; []]].
Proof.
  split; [repeat split; cbn; lia|]. split; [class_case|]. split; [|split; vm_compute; reflexivity].
  legible_case.
Qed.
(** A built machine: its dump, and all its moves can be read. *)
Example C56_nonvacuous : exists x, setting 100 kx gx Ry my inp (pos false 0 0) /\ sm_to_csm 65535 my = Some (csm my) /\
  dump_numbered 65535 255 16 (csm my) = Ok x /\
  firstn 36 x = txt "Lexer state: 0" ++ [10; 10] ++ txt "State: 0" ++ [10] ++ txt "  BOL -> 1" ++ [10] /\
  (forall d, In d (csm my) -> clear_moves (top 1) d).
Proof.
  eexists. split; [apply Ry_setting; lia|]. split; [vm_compute; reflexivity|]. split; [vm_compute; reflexivity|].
  split; [vm_compute; reflexivity|].
  intros d I s q t J K. vm_compute in I.
  repeat match type of I with _ \/ _ => destruct I as [I|I] end; try contradiction; subst d; cbn [cd_states] in J;
  repeat match type of J with In _ (_ :: _) => destruct J as [J|J] end; try contradiction; subst s; cbn [cs_trans] in K;
  repeat match type of K with In _ (_ :: _) => destruct K as [K|K] end; try contradiction; injection K as <- <-; clear_case.
Qed.
