(** Drawings of built machines, and labels. *)
From Verif Require Import Base StringToken StringTokenSpec StringTokenProofs StateMachine ReToken ReTokeniser GenCpp Rules Lookup TableSpec LookupSpec RuleSpec Grammar TokeniseSpec
  Generator Build BuildSpec BuildLookup BuildClean MinimiseProofs CharMachine CharProofs SourceSpec SourceClass SourceAll Debug DebugSpec DebugText DebugClass DebugLines DebugBuilt
  Dot DotSpec DotLines DotThms.
From Coq Require Import String.
Local Open Scope N_scope.
Local Open Scope list_scope.

(** Every edge of a built machine leads to a node, unless it stands for a return
    to where the start state was entered from. *)
Theorem edges_meet_nodes f k g R m inp r l name : setting f k g R m inp r -> sm_to_csm (npos k) m = Some l ->
  (forall i n, name i = Some n -> ~ In 10 n) ->
  forall a i b j what s, has_edge (dot_dump 255 name l) a i b j what -> state_at l a i s ->
  f_rec k = false \/ cs_kind s = KNeither \/ what <> dashed ->
  (exists w, has_node (dot_dump 255 name l) a i w) /\ exists w, has_node (dot_dump 255 name l) b j w.
Proof.
  intros SE EL NM a i b j what s HE ST HK. pose proof (se_mwf _ _ _ _ _ _ _ SE) as MW.
  assert (MC : mclean k m) by (pose proof (se_machine _ _ _ _ _ _ _ SE) as MO; destruct SE; eapply built_mclean; eauto).
  destruct (sm_to_csm_ok k m MW MC) as (l' & E' & LN & H). rewrite EL in E'. injection E' as <-.
  assert (ND : forall a i s, state_at l a i s -> exists w, has_node (dot_dump 255 name l) a i w).
  { intros a0 i0 s0 S0. destruct (node_line_form 255 name l NM a0 i0 s0) as (w & _ & D). exists w. apply node_iff; eauto. }
  split; [eauto|]. apply edge_iff in HE as (s' & ST' & J); [|exact NM].
  assert (s' = s) as -> by (destruct ST as (d1 & A & B), ST' as (d2 & C & D); congruence).
  destruct ST as (d & Hd & Hs).
  assert (Ha : (a < List.length (i_dfa m))%nat) by (rewrite <- LN; apply nth_error_Some; congruence).
  assert (Hi : (i < List.length (cd_states d))%nat) by (apply nth_error_Some; congruence).
  destruct (MW (N.of_nat a) ltac:(lia)) as (tb & n & Et & TW & ACC).
  destruct (H (N.of_nat a) tb n Et TW) as (d' & Ed' & LS & SD). rewrite Nat2N.id, Hd in Ed'. injection Ed' as <-.
  pose proof (proj2 SD i s Hs) as SS.
  destruct J as [(<- & t & I & _)|(L1 & CE & CN & -> & W)].
  - destruct SS as (_ & _ & _ & _ & _ & _ & _ & _ & K). destruct (K _ _ I) as (col & C1 & C2).
    destruct TW as (_ & _ & _ & _ & _ & _ & T & _). assert (N.of_nat j + 1 < n) by (apply (T (N.of_nat i + 1) col); auto; unfold ix_eol, ix_trans in *; lia).
    assert (Hj : (j < List.length (cd_states d))%nat) by lia. apply nth_error_Some in Hj. destruct (nth_error (cd_states d) j) as [s2|] eqn:E2; [|contradiction].
    apply (ND a j s2). exists d. auto.
  - destruct SS as ((e & E1 & E2 & p & P1 & P2 & P3) & _ & _ & Nx & _).
    assert (AC : accepting tb (N.of_nat i + 1)). { exists e. split; [exact E1|]. intros ->. rewrite CE in E2. discriminate E2. }
    destruct (ACC (N.of_nat i + 1) ltac:(lia) AC) as ((v & V1 & V2) & _). rewrite Nx in V1. injection V1 as <-.
    assert (V : cs_next s < N.of_nat (List.length (i_dfa m))).
    { destruct V2 as [V2|(_ & FR & e' & V3 & V4)]; [exact V2|]. exfalso. destruct HK as [HK|[HK|HK]]; [congruence| |contradiction].
      rewrite E1 in V3. injection V3 as <-. rewrite HK in P3. destruct (p =? npos k); cbn in P3; [|discriminate].
      destruct (N.eqb_spec (N.land e sb_pop) 0); [contradiction|discriminate]. }
    rewrite CN in V. assert (Hb : (b < List.length l)%nat) by lia. apply nth_error_Some in Hb. destruct (nth_error l b) as [d2|] eqn:E3; [|contradiction].
    destruct (MW (N.of_nat b) ltac:(lia)) as (tb2 & n2 & Et2 & TW2 & _).
    destruct (H (N.of_nat b) tb2 n2 Et2 TW2) as (d3 & Ed3 & LS3 & _). rewrite Nat2N.id, E3 in Ed3. injection Ed3 as <-.
    destruct TW2 as (T2 & _). destruct (cd_states d2) as [|s2 rs] eqn:E4; [cbn in LS3; lia|]. apply (ND b 0%nat s2). exists d2. split; [exact E3|now rewrite E4].
Qed.

(** ** Labels *)
Definition plain_char (c : N) : Prop := 32 <= c <= 126 /\ ~ In c (txt "'-\]^") /\ c <> 34.
Definition plain_class (max : N) (t : stoken) : Prop := Forall (fun r => plain_char (fst r) /\ plain_char (snd r)) (written max t).
Lemma plain_escape c : plain_char c -> double_escape_char c = [c] /\ escape_char 16 c = [c].
Proof.
  intros (V & NI & Q). unfold double_escape_char, escape_char. vm_compute in NI.
  repeat match goal with |- context [if c =? ?y then _ else _] => destruct (N.eqb_spec c y) as [->|?]; [exfalso; (lia || (apply NI; tauto))|] end.
  destruct (N.ltb_spec c 32); [lia|]. destruct (N.ltb_spec 126 c); [lia|]. split; reflexivity.
Qed.
Lemma plain_range r : plain_char (fst r) /\ plain_char (snd r) -> dot_range r = dump_range 16 r.
Proof.
  destruct r as [a b]. cbn [fst snd]. intros [A B]. unfold dot_range, dump_range.
  destruct (plain_escape a A) as [-> ->], (plain_escape b B) as [-> ->]. destruct A as (_ & A & _), B as (_ & B & _). vm_compute in A, B.
  destruct (N.eqb_spec a 45) as [->|]; [tauto|]. destruct (N.eqb_spec a 94) as [->|]; [tauto|]. destruct (N.eqb_spec a 93) as [->|]; [tauto|].
  destruct (N.eqb_spec b 45) as [->|]; [tauto|]. destruct (N.eqb_spec b 94) as [->|]; [tauto|]. destruct (N.eqb_spec b 93) as [->|]; [tauto|].
  reflexivity.
Qed.
Lemma plain_legible u : Forall (fun r => plain_char (fst r) /\ plain_char (snd r)) u -> forall first, legible_ranges first u.
Proof.
  induction u as [|[a b] u IH]; intros F first; [exact I|]. apply Forall_cons_iff in F as [[A B] F]. cbn [fst snd] in *. cbn [legible_ranges].
  destruct A as (A1 & A2 & _), B as (B1 & B2 & _). vm_compute in A2, B2. split; [intros _; repeat split; intros ->; tauto|].
  split; [intros _ ->; tauto|]. split; [|auto]. destruct u as [|[c d] u]; [exact I|]. unfold by_number. split; intros; lia.
Qed.
(** A label without characters that are escaped is a regular expression for the
    class. *)
Theorem label_reads fl ms t rule : f_icase fl = false -> f_skip_ws fl = false -> wf t -> t <> [] -> bounded 255 t -> plain_class 255 t ->
  exists w r, tokenise 1 fl ms (dot_label 255 t) rule = Ok [between w] /\ gram GRegex r w /\
    forall u, clang r u <-> exists c, u = [CChar c] /\ StringTokenSpec.mem c t.
Proof.
  intros IC SW W NE B PL. unfold dot_label, dump_ranges, plain_class, written in *.
  set (neg := negb (any 255 t) && negatable 255 t) in *. set (u := if neg then negate 255 t else t) in *.
  destruct (negate_correct 255 t W B) as [NW NM].
  assert (U : wf u /\ bounded 255 u /\ u <> [] /\ (neg = true -> exists c, c <= 255 /\ ~ StringTokenSpec.mem c u) /\
    forall c, StringTokenSpec.mem c t <-> if neg then c <= 255 /\ ~ StringTokenSpec.mem c u else StringTokenSpec.mem c u).
  { subst u. destruct neg eqn:E.
    - split; [exact NW|]. split; [intros c K; apply NM in K; tauto|]. split; [|split].
      + intros Z. apply andb_true_iff in E as [E _]. apply negb_true_iff in E. apply not_true_iff_false in E. apply E.
        apply any_correct; auto. intros c Hc. destruct (memb c t) eqn:M; [now apply memb_mem|]. exfalso.
        assert (StringTokenSpec.mem c (negate 255 t)) as K. { apply NM. split; [exact Hc|]. rewrite <- memb_mem. congruence. }
        rewrite Z in K. now apply mem_nil in K.
      + intros _. destruct t as [|[a d] t']; [contradiction|]. exists a. assert (M : StringTokenSpec.mem a ((a, d) :: t')) by (rewrite mem_cons; left; destruct W as (_ & W & _); lia).
        split; [now apply B|]. rewrite NM. tauto.
      + intros c. rewrite NM. split; [intros M; split; [now apply B|tauto]|]. intros [Hc K]. destruct (memb c t) eqn:M; [now apply memb_mem|]. exfalso. apply K. split; [exact Hc|]. rewrite <- memb_mem. congruence.
    - split; [exact W|]. split; [exact B|]. split; [exact NE|]. split; [discriminate|tauto]. }
  destruct U as (U1 & U2 & U3 & U4 & U5).
  destruct (class_reads 1 u neg (bounded_ranges _ _ U1 U2) U1 (plain_legible u PL true) U3 U4) as (P & P1 & P2).
  assert (T : txt "[" ++ (if neg then txt "^" else []) ++ flat_map dot_range u ++ txt "]" = 91 :: opt neg [94] ++ flat_map (dump_range 16) u ++ [93]).
  { assert (flat_map dot_range u = flat_map (dump_range 16) u) as ->; [|destruct neg; reflexivity].
    clear - PL. induction u as [|x u IH]; [reflexivity|]. apply Forall_cons_iff in PL as [P1 P2]. cbn [flat_map]. now rewrite plain_range, IH. }
  rewrite T.
  assert (S : regex_means 1 [] fl (91 :: opt neg [94] ++ flat_map (dump_range 16) u ++ [93]) (SSet P)).
  { apply sr_regex, sr_seq, sr_expr, sr_atom, as_atom. apply sa_class. rewrite IC. exact P1. }
  assert (SM : small 1 (91 :: opt neg [94] ++ flat_map (dump_range 16) u ++ [93])).
  { change (91 :: opt neg [94] ++ flat_map (dump_range 16) u ++ [93]) with ([91] ++ opt neg [94] ++ flat_map (dump_range 16) u ++ [93]).
    eapply Forall_impl with (P := visible); [unfold visible; intros c Hc; change (max_char 1) with 255; lia|].
    repeat (apply Forall_app; split); [repeat constructor; unfold visible; lia|destruct neg; repeat constructor; unfold visible; lia| |repeat constructor; unfold visible; lia].
    apply Forall_flat_map, Forall_forall. intros z _. apply range_visible. lia. }
  destruct (source_tokenise 1 [] fl ms _ _ rule (mtable_nil 1 ms) S SM) as (w & r & T1 & G & LN & _).
  exists w, r. split; [exact T1|]. split; [exact G|]. intros v. assert (LN1 : clang r v <-> slang (SSet P) v) by (rewrite LN; split; [intros H; split; [exact H|now left]|tauto]). rewrite LN1. cbn [slang].
  split; [intros (c & Hc & ->)|intros (c & -> & Hc)]; exists c; (split; [|]); try reflexivity; (apply U5, P2 || apply P2, U5); exact Hc.
Qed.
