(** Properties C13-C16: the alphabet, the position automaton of a regular
    expression, and the regex grammar. *)
From Verif Require Import Base StringToken StringTokenSpec RegexSpec StateMachine Tree TreeSpec ReToken DfaSpec
  Grammar Partition Generator Parser Build GenMap ParserTree ParserRule GramUnique PosAuto.
Local Open Scope N_scope.

(** ** C13 *)
(** The classes [m] of one start state with their numbers, and what the
    generator computes from them: the lookup table [lk] of columns, and for each
    class number the columns (less the first) it covers. *)
Theorem C13_alphabet m : map_wf m ->
  exists cl lk sm, partition_charsets m = Ok cl /\
    build_set_mapping 0 cl (repeat ix_dead 256) (repeat [] (length m)) = Ok (lk, sm) /\
    length lk = 256%nat /\
    (* every character has one column: the dead one or that of a part *)
    (forall c, c < 256 -> exists col, nth_error lk (N.to_nat c) = Some col /\
       (col = ix_dead \/ ix_trans <= col < ix_trans + N.of_nat (length cl))) /\
    (* no column is wasted *)
    (forall col, ix_trans <= col < ix_trans + N.of_nat (length cl) ->
       exists c, c < 256 /\ nth_error lk (N.to_nat c) = Some col) /\
    (* a class covers the characters of its columns and no others *)
    (forall t i s c col, In (t, i) m -> nth_error sm (N.to_nat i) = Some s -> c < 256 ->
       nth_error lk (N.to_nat c) = Some col -> (mem c t <-> exists x, In x s /\ col = x + ix_trans)) /\
    (* characters that share a column belong to the same classes *)
    (forall c c' col t i, c < 256 -> c' < 256 -> nth_error lk (N.to_nat c) = Some col ->
       nth_error lk (N.to_nat c') = Some col -> In (t, i) m -> (mem c t <-> mem c' t)) /\
    (* the dead column is for characters of no class *)
    (forall c, c < 256 -> (nth_error lk (N.to_nat c) = Some ix_dead <-> forall t i, In (t, i) m -> ~ mem c t)).
Proof. exact (alphabet_spec m). Qed.
Print Assumptions C13_alphabet.
(** [a-z], [a-f0-9] and x: five parts. *)
Example C13_case : exists m cl lk sm, map_wf m /\ length m = 3%nat /\ partition_charsets m = Ok cl /\
  build_set_mapping 0 cl (repeat ix_dead 256) (repeat [] 3) = Ok (lk, sm) /\ length cl = 4%nat /\
  length (nth 0 sm []) = 3%nat /\ nth 32 lk 0 = ix_dead.
Proof.
  exists [([(97, 122)], 0); ([(48, 57); (97, 102)], 1); ([(120, 120)], 2)]. eexists _, _, _. split.
  - split; [|cbn; repeat constructor; cbn; intuition discriminate].
    repeat constructor; cbn; try lia; discriminate.
  - split; [reflexivity|]. split; [vm_compute; reflexivity|]. split; [vm_compute; reflexivity|]. vm_compute. auto.
Qed.

(** ** C14 *)
(** The tree operations of the parser, applied in the order of its reductions
    for the expression [r], leave one tree; the automaton given by its first and
    last positions and by the follow sets in the store accepts the words of
    [r]. [sem]: which symbols a class number stands for. *)
Theorem C14_positions_accept_the_words {A} (sem : N -> A -> Prop) npos g r s : re_ok npos r ->
  exists n s', tree_of npos g r ([], s) = Ok ([n], s') /\ forall w, saccepts sem s' n w <-> lang sem r w.
Proof. exact (tree_of_accepts sem npos g r s). Qed.
Print Assumptions C14_positions_accept_the_words.
(** Nullable operands inside repeats, two to five times. *)
Definition ex_re : re := RRep (RCat (ROpt (RTok 0)) (RPlus (RAlt (RTok 1) (RStar (RTok 2))))) 2 (Some 5%nat).
Example C14_case : re_ok 65535 ex_re /\
  exists n s, tree_of 65535 GYes ex_re ([], []) = Ok ([n], s) /\ length s = 25%nat /\
    firstpos n = seq 0 25 /\ nullable n = true.
Proof.
  split; [cbn; repeat split; try lia; discriminate|].
  eexists _, _. split; [vm_compute; reflexivity|]. vm_compute. auto.
Qed.

(** ** C15 *)
Theorem C15_exactly {A} (sem : N -> A -> Prop) npos g r m s : re_ok npos r -> (1 <= m)%nat ->
  exists n s', tree_of npos g (RRep r m (Some m)) ([], s) = Ok ([n], s') /\
    forall w, saccepts sem s' n w <-> power (lang sem r) m w.
Proof. intros H. exact (repeat_exactly sem npos g r s H m). Qed.
Theorem C15_at_least {A} (sem : N -> A -> Prop) npos g r m s : re_ok npos r -> (2 <= m)%nat ->
  exists n s', tree_of npos g (RRep r m None) ([], s) = Ok ([n], s') /\
    forall w, saccepts sem s' n w <-> exists j, (m <= j)%nat /\ power (lang sem r) j w.
Proof. intros H. exact (repeat_at_least sem npos g r s H m). Qed.
Theorem C15_between {A} (sem : N -> A -> Prop) npos g r m m' s : re_ok npos r -> (m < m')%nat -> (2 <= m')%nat ->
  exists n s', tree_of npos g (RRep r m (Some m')) ([], s) = Ok ([n], s') /\
    forall w, saccepts sem s' n w <-> exists j, (m <= j <= m')%nat /\ power (lang sem r) j w.
Proof. intros H. exact (repeat_between sem npos g r s H m m'). Qed.
(** The forms {0,}, {1,} and {0,1} reach the parser as star, plus and optional. *)
Theorem C15_star_plus_opt {A} (sem : N -> A -> Prop) npos g r s : re_ok npos r ->
  (exists n s', tree_of npos g (RStar r) ([], s) = Ok ([n], s') /\
     forall w, saccepts sem s' n w <-> exists j, power (lang sem r) j w) /\
  (exists n s', tree_of npos g (RPlus r) ([], s) = Ok ([n], s') /\
     forall w, saccepts sem s' n w <-> exists j, (1 <= j)%nat /\ power (lang sem r) j w) /\
  (exists n s', tree_of npos g (ROpt r) ([], s) = Ok ([n], s') /\
     forall w, saccepts sem s' n w <-> w = [] \/ lang sem r w).
Proof. exact (repeat_star_plus_opt sem npos g r s). Qed.
Print Assumptions C15_exactly.
Print Assumptions C15_at_least.
Print Assumptions C15_between.
Print Assumptions C15_star_plus_opt.
Example C15_case : exists n s, tree_of 65535 GYes (RRep (RTok 7) 2 (Some 4%nat)) ([], []) = Ok ([n], s) /\
  firstpos n = [0%nat] /\ lastpos n = [1; 2; 3]%nat /\
  map (fun i => match i with PLeaf t _ f => (t, f) | PEnd _ => (0, []) end) s =
    [(7, [1%nat]); (7, [2; 3]%nat); (7, [3%nat]); (7, [])].
Proof. eexists _, _. split; [vm_compute; reflexivity|]. vm_compute. repeat split. Qed.

(** ** C16 *)
(** What parse() does with a rule: it accepts exactly the sentences of the
    grammar, leaves the stacks empty, and the positions it made accept the
    meaning of the sentence (over bytes; [rule_words] adds the beginning of line
    marker in front when other rules of the state use ^). Otherwise it throws. *)
Theorem C16_parse k B w E e seen st : wide_ok k -> 2 <= g_bits k -> tk_type B = BEGIN -> tk_type E = END ->
  Forall (tok_ok (g_bytes k)) w -> balanced w ->
  match parse k (B :: w ++ [E]) e seen (fresh k st) with
  | Ok (root, s') => exists o, ogram o w /\ ps_stack s' = [] /\ fst (ps_tree s') = [] /\
      (N.of_nat (length (ps_map s')) < eol_tok k ->
       forall v, eaccepts (token_sem k (ps_map s')) (snd (ps_tree s')) root v <->
                 rule_words (g_bytes k) seen (olang (g_bytes k) o) v)
  | Throw x => (x = ESyntax \/ x = EInternal) /\ forall o, ~ ogram o w
  | UB | Fuel => False
  end.
Proof. exact (parse_grammar k B w E e seen st). Qed.
(** The grammar is unambiguous, so the grouping is the one it describes. *)
Theorem C16_unambiguous r r' w : gram GRegex r w -> gram GRegex r' w -> r = r'.
Proof. intros H. exact (gram_unique GRegex r w H r'). Qed.
Print Assumptions C16_parse.
Print Assumptions C16_unambiguous.
Definition gx : gcfg := {| g_bits := 16; g_bytes := 1 |}.
Definition ch (c : N) : token := {| tk_type := CHARSET; tk_extra := []; tk_str := [(c, c)] |}.
Definition info0 : einfo :=
  {| e_id := 1; e_uid := 65535; e_unique := 1; e_next := 0; e_push := 65535; e_pop := false; e_greedy := GYes |}.
Definition parses_ok (w : list token) : bool :=
  match parse gx (tok BEGIN :: w ++ [tok END]) info0 false (fresh gx []) with Ok _ => true | _ => false end.
(** a|b+(c|d)+ is accepted; "a|", "|a", "()" and a leading star are not. *)
Example C16_case :
  parses_ok [ch 97; tok OR; ch 98; tok ZEROORMORE; tok OPENPAREN; ch 99; tok OR; ch 100; tok CLOSEPAREN; tok ONEORMORE] = true /\
  parses_ok [ch 97; tok OR] = false /\ parses_ok [tok OR; ch 97] = false /\
  parses_ok [tok OPENPAREN; tok CLOSEPAREN] = false /\ parses_ok [tok ZEROORMORE; ch 97] = false.
Proof. vm_compute. repeat split. Qed.
(** The grammar in the comment of parser.hpp (44-53) allows several duplications
    of one atom (<repeat> ::= <repeat> <duplicate>), but a starred twice is refused. *)
Theorem C16_double_repeat_refuted :
  parses_ok [ch 97; tok ZEROORMORE; tok ZEROORMORE] = false /\
  parses_ok [tok OPENPAREN; ch 97; tok ZEROORMORE; tok CLOSEPAREN; tok ZEROORMORE] = true.
Proof. vm_compute. auto. Qed.
(** Without the check of parentheses in rules.hpp, parse() would take the first
    half of an unbalanced expression: "a)b" is accepted. *)
Theorem C16_unbalanced_refuted : parses_ok [ch 97; tok CLOSEPAREN; ch 98] = true.
Proof. vm_compute. auto. Qed.
