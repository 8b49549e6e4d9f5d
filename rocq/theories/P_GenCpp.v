(** Property C52: the C++ text written by generate_cpp. *)
From Coq Require Import String.
From Verif Require Import Base StringToken StateMachine ReToken DfaSpec Generator Build Lookup TableSpec LookupSpec RuleSpec BuildSpec BuildMachine
  ReTokeniser Rules RulesSpec RulesBuild RulesCheck EolSpec EolLookup FlagsSpec FlagsProofs FlagsBuild GenCpp GenCppSpec GenCppProofs GenBuilt GenMade
  GenNames P_Build P_Eol P_Rules.
Local Open Scope N_scope.

(** Any well-formed machine that announces its features: the generated function
    returns what lookup() returns; where lookup() throws, it is undefined. *)
Theorem C52_generated_follows_lookup k ptrs m inp inner fuel r r0 r' o : suits k m -> (ptrs = true -> pointers_suit k m) -> mwf k m ->
  f_eol k = false \/ (ptrs = false /\ lines_suit k inp) -> same k r r0 -> stack_suits m r ->
  lookup fuel inner k m inp r = Ok (r', o) -> forall n, (2 * fuel <= n)%nat ->
  match o with
  | None => exists r0', gen_lookup n inner (c_bits k) (c_bytes k) ptrs m inp r0 = Ok r0' /\ same k r' r0' /\ stack_suits m r'
  | Some _ => gen_lookup n inner (c_bits k) (c_bytes k) ptrs m inp r0 = UB
  end.
Proof. intros H1 H2 H3 H4. exact (gen_ok k ptrs m inp inner H1 H2 H3 H4 fuel r r0 r' o). Qed.
(** Machines built from rules, and lookup() with any flags that cover the features. *)
Theorem C52_built_generated f k g R m inp r ptrs inner fuel r0 r' o : fair_setting f k g R m inp r -> announces k R m -> GenBuilt.covers k m ->
  1 <= c_bytes k ->
  (ptrs = true -> has (i_features m) fb_bol = true -> forall st t, get_table m st = Some t -> cell t 0 0 <> Some 0) ->
  (has (i_features m) fb_eol = false \/ (ptrs = false /\ lines_suit k inp)) ->
  stack_suits m r -> alike k (machine_flags k m) r r0 -> lookup fuel inner k m inp r = Ok (r', o) -> forall n, (2 * fuel <= n)%nat ->
  match o with
  | None => exists r0', gen_lookup n inner (c_bits k) (c_bytes k) ptrs m inp r0 = Ok r0' /\ alike k (machine_flags k m) r' r0' /\ stack_suits m r'
  | Some _ => gen_lookup n inner (c_bits k) (c_bytes k) ptrs m inp r0 = UB
  end.
Proof. intros H1 H2 H3 H4. exact (generated_built f k g R m inp r H1 H2 H3 H4 ptrs inner fuel r0 r' o). Qed.
(** Rules objects: they announce their features themselves. *)
Theorem C52_object_generated k g r f kc m inp res ptrs inner fuel r0 res' o : 1 < rnpos k -> proper_unsplit k r ->
  g_bits g = r_bits k -> g_bytes g = r_bytes k -> 0 < g_bytes g -> simple g r -> agree kc g ->
  build f g (grules_of r) = Ok m -> GenBuilt.covers kc m -> Forall (fits (c_bytes kc)) inp -> in_range (grules_of r) inp res ->
  (ptrs = true -> has (i_features m) fb_bol = true -> forall st t, get_table m st = Some t -> cell t 0 0 <> Some 0) ->
  (has (i_features m) fb_eol = false \/ (ptrs = false /\ lines_suit kc inp)) ->
  stack_suits m res -> alike kc (machine_flags kc m) res r0 -> lookup fuel inner kc m inp res = Ok (res', o) -> forall n, (2 * fuel <= n)%nat ->
  match o with
  | None => exists r0', gen_lookup n inner (c_bits kc) (c_bytes kc) ptrs m inp r0 = Ok r0' /\ alike kc (machine_flags kc m) res' r0' /\ stack_suits m res'
  | Some _ => gen_lookup n inner (c_bits kc) (c_bytes kc) ptrs m inp r0 = UB
  end.
Proof.
  intros H1 H2 H3 H4 H5 H6 H7 H8 H9 H10 H11.
  exact (generated_made k g r H1 H2 H3 H4 H5 H6 f kc m inp res H7 H8 H9 H10 H11 ptrs inner fuel r0 res' o).
Qed.
(** Every variable is declared where it is used, exactly if recursion comes with
    several start states. *)
Theorem C52_compiles g : compiles (gen_code g) = true <-> (gc_rec g = true -> gc_multi g = true).
Proof. exact (compiles_iff g). Qed.
(** The numbers in the text denote the entries of the tables. *)
Theorem C52_numbers_read_back b n : 2 <= b <= 16 -> read b (print b n) = n.
Proof. exact (read_print b n). Qed.
Theorem C52_names_distinct dfas i j : i < dfas -> j < dfas -> declared_name dfas i = declared_name dfas j -> i = j.
Proof. exact (names_distinct dfas i j). Qed.
Theorem C52_names_in_table dfas i : 1 < dfas -> table_name i = declared_name dfas i.
Proof. exact (names_in_table dfas i). Qed.
Theorem C52_names_agree dfas : (forall i, i < dfas -> used_name dfas i = declared_name dfas i) <-> dfas <= 10.
Proof. exact (names_agree dfas). Qed.
Print Assumptions C52_generated_follows_lookup.
Print Assumptions C52_built_generated.
Print Assumptions C52_object_generated.
Print Assumptions C52_compiles.
Print Assumptions C52_numbers_read_back.
Print Assumptions C52_names_distinct.
Print Assumptions C52_names_in_table.
Print Assumptions C52_names_agree.

(** ** Cases that meet the hypotheses *)
Lemma mm_covers : GenBuilt.covers kl mm.
Proof. constructor; try reflexivity. intros H. vm_compute in H. discriminate. Qed.
Lemma empty_suits m bol st p : stack_suits m (pos bol st p).
Proof. intros _. constructor. Qed.
(** The object of C50: skipped text, ^, start states and a stack. *)
Example C52_object_case : proper_unsplit kr made /\ simple gr made /\ build 100 gr (grules_of made) = Ok mm /\ GenBuilt.covers kl mm /\
  in_range (grules_of made) input at0 /\ has (i_features mm) fb_eol = false /\ stack_suits mm at0 /\ alike kl (machine_flags kl mm) at0 at0 /\
  option_map (fun r => (r_id r, r_second r)) (match gen_lookup 100 50 16 1 false mm input at0 with Ok x => Some x | _ => None end) = Some (2, 4%nat).
Proof.
  split; [exact made_proper|]. split; [exact made_simple|]. split; [exact mm_built|]. split; [exact mm_covers|].
  split; [split; [reflexivity|split; [constructor|vm_compute; lia]]|]. split; [vm_compute; reflexivity|]. split; [intros _; constructor|].
  split; [unfold alike; repeat split; auto|]. vm_compute. reflexivity.
Qed.
(** Rules with $ on lines that end in \n. *)
Definition lines := [97; 98; 32; 99; 10].
Lemma one_table (P : N -> table -> Prop) : (forall t, get_table me 0 = Some t -> P 0 t) -> forall st t, get_table me st = Some t -> P st t.
Proof.
  intros H st t E. destruct (N.eq_dec st 0) as [->|Z]; [auto|]. exfalso. unfold get_table in E.
  assert (L : length (i_lookup me) = 1%nat) by (vm_compute; reflexivity).
  assert (X : nth_error (i_lookup me) (N.to_nat st) = None) by (apply nth_error_None; lia). rewrite X in E. clear - E. cbv iota in E. discriminate E.
Qed.
Lemma me_announces : announces ke Re me.
Proof.
  assert (EA : forall P : grule -> Prop, (forall x, In x (gs_rules (nth 0 (gr_states Re) {| gs_rules := []; gs_features := 0 |})) -> P x) -> each_rule Re P).
  { intros P H gs x Hg Hx. cbn in Hg. destruct Hg as [<-|[]]. apply H. exact Hx. }
  constructor.
  - intros _. unfold bol_free. apply one_table. intros t E. vm_compute in E. injection E as <-. vm_compute. reflexivity.
  - intros H. vm_compute in H. discriminate.
  - intros _. apply EA. intros x Hx. cbn in Hx. repeat (destruct Hx as [<-|Hx]; [vm_compute; discriminate|]). destruct Hx.
  - intros _. apply EA. intros x Hx. cbn in Hx. repeat (destruct Hx as [<-|Hx]; [vm_compute; discriminate|]). destruct Hx.
  - intros _. apply EA. intros x Hx. cbn in Hx. repeat (destruct Hx as [<-|Hx]; [split; reflexivity|]). destruct Hx.
Qed.
Example C52_lines_case : fair_setting 100 ke gx Re me lines (pos true 0 3) /\ announces ke Re me /\ GenBuilt.covers ke me /\ lines_suit ke lines /\
  stack_suits me (pos true 0 3) /\ alike ke (machine_flags ke me) (pos true 0 3) (pos false 0 3) /\
  option_map (fun r => (r_id r, r_second r)) (match gen_lookup 100 50 16 1 false me lines (pos false 0 3) with Ok x => Some x | _ => None end) = Some (1, 4%nat).
Proof.
  split; [apply setting_e; auto; try (vm_compute; reflexivity); [repeat constructor|cbn; lia]|]. split; [exact me_announces|].
  split. { constructor; try reflexivity; intros H; vm_compute in H; [discriminate|]. exfalso. lia. }
  split. { split; [reflexivity|]. split; [|reflexivity]. intros H. cbn in H. intuition discriminate. }
  split; [apply empty_suits|]. split; [unfold alike; repeat split; auto; intros _ H; vm_compute in H; discriminate|]. vm_compute. reflexivity.
Qed.

(** ** Where the generated code differs *)
(** \r ends a line for lookup() only: "a\r\n" with the rules [a-z]+$ and [a-z]+. *)
Theorem C52_carriage_return_refuted : exists m inp r a b, lookup 50 50 ke m inp r = Ok (a, None) /\ gen_lookup 100 50 16 1 false m inp r = Ok b /\
  r_id a = 1 /\ r_id b = 2.
Proof. exists me, [97; 13; 10], (pos true 0 0). eexists. eexists. split; [vm_compute; reflexivity|]. split; [vm_compute; reflexivity|]. split; reflexivity. Qed.
(** A last character that no rule takes is swallowed by $: "ab?". *)
Theorem C52_last_char_refuted : exists m inp r a b, lookup 50 50 ke m inp r = Ok (a, None) /\ gen_lookup 100 50 16 1 false m inp r = Ok b /\
  r_id a = 2 /\ r_second a = 2%nat /\ r_id b = 1 /\ r_second b = 3%nat.
Proof.
  exists me, [97; 98; 63], (pos true 0 0). eexists. eexists. split; [vm_compute; reflexivity|]. split; [vm_compute; reflexivity|]. repeat split.
Qed.
(** With pointers, $ is undefined. *)
Theorem C52_pointers_eol_refuted : exists m inp r a, lookup 50 50 ke m inp r = Ok (a, None) /\ gen_lookup 100 50 16 1 true m inp r = UB.
Proof. exists me, [97; 98; 10], (pos true 0 0). eexists. split; vm_compute; reflexivity. Qed.
(** With pointers, a start state without ^ rules beside one with such rules
    matches nothing at the beginning of a line. *)
Theorem C52_pointers_bol_refuted : exists m inp r a b, lookup 50 50 kl m inp r = Ok (a, None) /\ gen_lookup 100 50 16 1 true m inp r = Ok b /\
  r_id a = 5 /\ r_id b = 65535.
Proof.
  exists mm, [97; 98; 34], (pos true 1 0). eexists. eexists. split; [vm_compute; reflexivity|]. split; [vm_compute; reflexivity|]. split; reflexivity.
Qed.
(** pop on an empty stack: an exception, and undefined behaviour. *)
Theorem C52_pop_refuted : exists m inp r a, lookup 50 50 kl m inp r = Ok (a, Some EUnderflow) /\ gen_lookup 100 50 16 1 false m inp r = UB.
Proof. exists mm, [34], (pos true 1 0). eexists. split; vm_compute; reflexivity. Qed.
(** Nested brackets in one start state: the text does not compile. *)
Definition nest : rules := calls kr [ OPushIn (txt "INITIAL") (txt "[(]") 1 (txt ">INITIAL") 65535; OPushIn (txt "INITIAL") (txt "[)]") 2 (txt "<") 65535 ] new.
Theorem C52_single_recursive_refuted : exists r m, proper_unsplit kr r /\ build 100 gr (grules_of r) = Ok m /\ compiles (gen_code (gen_of m false false)) = false.
Proof.
  exists nest. eexists. split; [apply calls_proper; [constructor|vm_compute; reflexivity]|]. split; vm_compute; reflexivity.
Qed.
(** From eleven start states on, addresses name arrays that are not declared. *)
Theorem C52_names_refuted : exists i, i < 11 /\ forall j, j < 11 -> used_name 11 i <> declared_name 11 j.
Proof.
  exists 10. split; [reflexivity|]. intros j L E.
  assert (J : j = 0 \/ j = 1 \/ j = 2 \/ j = 3 \/ j = 4 \/ j = 5 \/ j = 6 \/ j = 7 \/ j = 8 \/ j = 9 \/ j = 10) by lia.
  repeat (destruct J as [->|J]; [vm_compute in E; discriminate|]). subst j. vm_compute in E. discriminate.
Qed.
Print Assumptions C52_carriage_return_refuted.
Print Assumptions C52_last_char_refuted.
Print Assumptions C52_pointers_eol_refuted.
Print Assumptions C52_pointers_bol_refuted.
Print Assumptions C52_pop_refuted.
Print Assumptions C52_single_recursive_refuted.
Print Assumptions C52_names_refuted.
