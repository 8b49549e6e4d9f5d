(** The texts of rules for comments: their tokens. *)
From Verif Require Import Base StringToken StringTokenSpec RegexSpec ReToken ReTokeniser ReTokeniserNext Grammar RuleSpec Parser LoopSpec StopSpec LoopWords SplitProofs
  Rules TokeniseSpec TokeniseProofs StripProofs PruneProofs TokeniseAll RulesSpec
  SourceSpec SourceSets SourceClass SourceRep SourceLead SourceLex SourceAll SourceLexer SourceLiteral SourceTop CommentSpec.
Local Open Scope N_scope.

(** ** Vectors *)
Lemma loop_gram w X b bs z Y : loop_tokens w X b bs z Y -> exists r, gram GSeq r w.
Proof.
  intros [-> NE SX CB Hz SY _]. destruct (first_gram X SX NE) as (r1 & G1 & _). destruct (choice_gram b bs CB) as (r2 & G2 & _).
  assert (G3 : gram GSeq (XCat r1 (XStar r2)) (X ++ b ++ [z])) by (apply g_cat; [exact G1|]; apply (g_dup r2 b z XStar); [exact G2|]; apply dp_star; now right).
  destruct (sets_gram Y SY _ _ G3) as (r & G & _). exists r. now rewrite <- !app_assoc in G.
Qed.
Lemma prune_none fuel l is : (length is <= fuel)%nat -> (forall i, In i is -> is_end l i = Ok false) -> prune_loop fuel l is = Ok l.
Proof.
  revert is. induction fuel as [|f IH]; intros is L H; destruct is as [|i is]; try reflexivity; [cbn in L; lia|].
  cbn [prune_loop]. unfold prune_one. rewrite (H i) by now left. cbn [bind]. cbn [length] in L.
  assert (D : forall lo hi js, (length (drop_inside lo hi js) <= length js)%nat /\ forall j, In j (drop_inside lo hi js) -> In j js).
  { intros lo hi js. induction js as [|j js [K1 K2]]; cbn; [auto|]. destruct (Nat.leb lo j && Nat.leb j hi); [split; [lia|auto]|auto]. }
  apply IH; [pose proof (proj1 (D i i is)); lia|]. intros j Hj. apply H. right. now apply (D i i is).
Qed.
Lemma alts_types w ts : alts w ts -> Forall (fun t => lazy_type (tk_type t) = false) w.
Proof. induction 1 as [|o t w ts T1 T2 A IH]; [constructor|]. constructor; [now rewrite T1|]. constructor; [now rewrite T2|exact IH]. Qed.
Lemma choice_types b bs : choice b bs -> Forall (fun t => lazy_type (tk_type t) = false) b.
Proof.
  intros [t T|o t w ts c O T A C]; [repeat constructor; now rewrite T|]. constructor; [now rewrite O|]. constructor; [now rewrite T|].
  apply Forall_app. split; [eapply alts_types; eauto|]. repeat constructor. now rewrite C.
Qed.
Lemma sets_types Y : sets Y -> Forall (fun t => lazy_type (tk_type t) = false) Y.
Proof. apply Forall_impl. intros t ->. reflexivity. Qed.
Lemma lazy_index_in l i : In i (lazy_indexes l) -> exists t, nth_error l i = Some t /\ lazy_type (tk_type t) = true.
Proof.
  unfold lazy_indexes. rewrite <- in_rev. rewrite filter_In. intros [_ H]. destruct (nth_error l i) as [t|]; [eauto|discriminate].
Qed.
Lemma prune_loop_rule w X b bs z Y : loop_tokens w X b bs z Y -> Y <> [] -> prune (between w) = Ok (between w).
Proof.
  intros [-> _ SX CB Hz SY _] NE. unfold prune. apply prune_none; [reflexivity|]. intros i Hi. apply lazy_index_in in Hi. destruct Hi as (t & E & L).
  rewrite app_assoc in E |- *. set (a := X ++ b) in *.
  assert (NL : forall l, Forall (fun t => lazy_type (tk_type t) = false) l -> forall j, nth_error l j = Some t -> False).
  { intros l F j N. rewrite Forall_forall in F. rewrite (F t (nth_error_In _ _ N)) in L. discriminate. }
  assert (I : i = S (length a)).
  { destruct (Nat.lt_trichotomy i (S (length a))) as [H|[H|H]]; [exfalso|exact H|exfalso].
    - unfold between in E. destruct i as [|i]; [injection E as <-; discriminate|]. cbn [nth_error] in E. rewrite <- app_assoc in E. rewrite nth_error_app1 in E by lia.
      apply (NL a) in E; [exact E|]. unfold a. apply Forall_app. split; [now apply sets_types|eapply choice_types; eauto].
    - unfold between in E. destruct i as [|i]; [lia|]. cbn [nth_error] in E. rewrite <- app_assoc in E. rewrite nth_error_app2 in E by lia.
      destruct (i - length a)%nat as [|n] eqn:D; [lia|]. cbn [app nth_error] in E. apply (NL (Y ++ [tok END])) in E; [exact E|]. apply Forall_app. split; [now apply sets_types|repeat constructor]. }
  subst i. unfold is_end. cbn [is_end_loop]. destruct Y as [|y Y]; [easy|]. inversion SY as [|? ? Ty _]; subst.
  replace (nth_error (between (a ++ z :: y :: Y)) (S (S (length a)))) with (Some y); [now rewrite Ty|]. unfold between. change (Some y = nth_error ((a ++ z :: y :: Y) ++ [tok END]) (S (length a))). rewrite <- app_assoc.
  rewrite nth_error_app2 by lia. replace (S (length a) - length a)%nat with 1%nat by lia. reflexivity.
Qed.
Lemma split_seq r w : gram GSeq r w -> split (between w) = Ok [between w].
Proof.
  intros G. unfold split, between. cbn [tl]. rewrite (scan_split w [tok END] 0 0 [] (gram_scan _ _ _ G 0%nat)). cbn [split_loop tk_type tok bind].
  rewrite app_nil_r, part_between. reflexivity.
Qed.
Lemma strip_set t w : tk_type t = CHARSET -> strip_parens (between (t :: w)) = between (t :: w).
Proof.
  intros T. destruct (strip_parens_ok (t :: w)) as (w' & E & S & _). rewrite E. inversion S as [|o inner c v T1 T2 B S1 E1]; [reflexivity|].
  exfalso. congruence.
Qed.
(** tokenise() of a text with such tokens. *)
Lemma loop_tokenise b fl ms text w X ch bs z Y : tok_loop (S (length text)) b ms (start_state fl text) [tok BEGIN] [] None = Ok (between w) ->
  loop_tokens w X ch bs z Y -> Y <> [] -> tokenise b fl ms text true = Ok [between w].
Proof.
  intros T LT NE. destruct (loop_gram _ _ _ _ _ _ LT) as (r & G). pose proof (prune_loop_rule _ _ _ _ _ _ LT NE) as PR.
  assert (ST : strip_parens (between w) = between w).
  { destruct LT as [-> NX SX _ _ _ _]. destruct X as [|t X]; [easy|]. inversion SX as [|? ? Tt _]; subst. cbn [app]. now apply strip_set. }
  unfold tokenise. rewrite T. cbn [bind]. rewrite ST, PR. cbn [bind].
  assert (LE : length (between w) <> 2%nat).
  { unfold between. cbn [length]. rewrite app_length. cbn [length]. apply gram_nonempty in G. destruct w; [easy|]. cbn [length]. lia. }
  rewrite (proj2 (Nat.eqb_neq _ _) LE). cbn [andb].
  assert (HL : has_lazy (between w) = true).
  { destruct LT as [-> _ _ _ Hz _ _]. unfold has_lazy. apply existsb_exists. exists z. split; [|now rewrite Hz].
    unfold between. right. apply in_or_app. left. apply in_or_app. right. apply in_or_app. right. now left. }
  rewrite HL. now apply (split_seq r).
Qed.

(** ** Texts *)
Definition charof (b fl c : N) (t : token) : Prop := tk_type t = CHARSET /\ den b (tk_str t) (cased b (f_icase fl) (eq c)).
Definition qtext (s : list N) : list N := flat_map (fun c => if isin [34; 92] c then [92; c] else [c]) s.
Lemma quote_chars b ms fl rest str : forall s s0 sz st p, small b (qtext s) -> at_ s0 sz fl st p (qtext s ++ 34 :: rest) true -> str = false ->
  exists ts s1, lexes b ms (length s) s0 ts s1 /\ at_ s1 sz fl st p rest str /\ Forall2 (charof b fl) s ts.
Proof.
  intros s. induction s as [|c s IH]; intros s0 sz st p Sm A ->.
  - exists [], s0. split; [constructor|]. split; [|constructor]. exact (at_same _ _ _ _ _ _ _ _ _ A (lead_quote fl _ _)).
  - unfold qtext in Sm, A. cbn [flat_map] in Sm, A. fold (qtext s) in Sm, A. rewrite <- app_assoc in A. apply small_app in Sm as [S1 S2].
    destruct (qchar_token _ _ _ _ _ _ _ _ _ (quoted_char b fl (qtext s ++ 34 :: rest) c) S1 A) as (t & s' & E & T & D & A').
    destruct (IH s' sz st p S2 A' eq_refl) as (ts & s1 & L & A1 & F). exists (t :: ts), s1. split; [|split; [exact A1|constructor; [split; assumption|exact F]]].
    exact (lexes_cons _ _ _ _ _ _ _ _ E L).
Qed.
Lemma in_quotes_is s : in_quotes s = 34 :: qtext s ++ [34].
Proof. reflexivity. Qed.
Lemma quote_lexes b ms fl rest s s0 sz st p : small b (in_quotes s) -> at_ s0 sz fl st p (in_quotes s ++ rest) false ->
  exists ts s1, lexes b ms (length s) s0 ts s1 /\ at_ s1 sz fl st p rest false /\ Forall2 (charof b fl) s ts.
Proof.
  intros Sm A. rewrite in_quotes_is in Sm, A. inversion Sm as [|? ? _ Sm1]; subst. apply small_app in Sm1 as [Sm1 _]. cbn [app] in A. rewrite <- app_assoc in A. cbn [app] in A.
  pose proof (at_same _ _ _ _ _ _ _ _ _ A (lead_quote fl _ _)) as A1. cbn [negb] in A1. now apply (quote_chars b ms fl rest false s s0 sz st p Sm1 A1).
Qed.
Definition unions (b : N) (ts : list token) (P : N -> Prop) : Prop :=
  forall c, (exists t, In t ts /\ mem c (tk_str t)) <-> P c.
Lemma aset_head b fl first rest t P : aset b fl first rest t P -> exists c t', t = c :: t' /\ c <> 63.
Proof. intros H. apply (src_head b [] fl first GAtom rest t (SSet P)). now apply sr_atom. Qed.
Lemma altern_head b fl rest t P : altern b fl rest t P -> exists c t', t = c :: t' /\ c <> 63.
Proof. destruct 1 as [rest t P H|rest t P u Q H _]; destruct (aset_head _ _ _ _ _ _ H) as (c & t' & -> & N); eexists _, _; (split; [reflexivity|exact N]). Qed.
Lemma altern_lexes b ms fl rest t P : altern b fl rest t P -> forall s sz st p, small b (t ++ rest) -> sized sz false (t ++ rest) -> at_ s sz fl st p (t ++ rest) false ->
  exists k y w ts s', lexes b ms k s (y :: w) s' /\ (k <= length t)%nat /\ (csets (y :: w) <= length t)%nat /\ at_ s' sz fl st p rest false /\ tk_type y = CHARSET /\ alts w ts /\ unions b (y :: ts) P.
Proof.
  induction 1 as [rest t P H|rest t P u Q H K IH]; intros s sz st p Sm Sz A.
  - destruct (set_token _ _ _ _ _ _ _ _ _ _ H Sm Sz A) as (k & y & s' & R & L & T & D & A'). exists k, y, [], [], s'.
    split; [now apply lexes_reads|]. split; [exact L|]. split; [apply aset_len in H; unfold csets, cset; cbn; rewrite T; cbn; lia|]. split; [exact A'|]. split; [exact T|]. split; [constructor|].
    intros c. split; [intros (x & [<-|[]] & M); now apply D|]. intros Hc. exists y. split; [now left|now apply D].
  - rewrite <- app_assoc in *. cbn [app] in *.
    destruct (set_token _ _ _ _ _ _ _ _ _ _ H Sm Sz A) as (k & y & s' & R & L & T & D & A').
    assert (PS : plain_start fl 124 (u ++ rest)) by (split; [discriminate|split; [discriminate|intros _; split; [unfold is_space; lia|discriminate]]]).
    set (s1 := mk (u ++ rest) sz fl st p false).
    assert (N1 : forall lhs, next b lhs s' = Ok (tok OR, s1)).
    { intros lhs. rewrite (next_at b lhs _ _ _ _ _ _ _ _ _ _ A' (lead_plain _ _ _ PS)). reflexivity. }
    destruct (IH s1 sz st p) as (k2 & y2 & w2 & ts2 & s2 & L2 & LE & CS & A2 & T2 & AL & U).
    { apply small_app in Sm as [_ Sm]. now inversion Sm. } { apply (sized_cut sz false (t ++ [124])); [rewrite <- app_assoc; exact Sz|destruct t; discriminate]. } { apply at_mk. }
    exists (k + (1 + k2))%nat, y, (tok OR :: y2 :: w2), (y2 :: ts2), s2.
    split; [apply lx_cons with s'; [exact R|]; exact (lexes_cons _ _ _ _ _ _ _ _ N1 L2)|]. rewrite app_length. cbn [length]. split; [lia|].
    split; [rewrite (csets_cons y), (csets_cons (tok OR)); apply aset_len in H; assert (cset y = 1%nat) by (unfold cset; now rewrite T); change (cset (tok OR)) with O; lia|]. split; [exact A2|]. split; [exact T|].
    split; [now constructor|]. intros c. split.
    + intros (x & [<-|I] & M); [left; now apply D|right; apply U; eauto].
    + intros [Hc|Hc]; [exists y; split; [now left|now apply D]|]. apply U in Hc. destruct Hc as (x & I & M). exists x. split; [now right|exact M].
Qed.
Lemma choice_lexes b ms fl rest t P : cchoice b fl rest t P -> forall s sz st p, small b (t ++ rest) -> sized sz false (t ++ rest) -> at_ s sz fl st p (t ++ rest) false ->
  exists k w ts s', lexes b ms k s w s' /\ (k <= length t)%nat /\ (csets w <= length t)%nat /\ at_ s' sz fl st p rest false /\ choice w ts /\ unions b ts P.
Proof.
  intros H s sz st p Sm Sz A. destruct H as [t P H|t P H].
  - destruct (set_token _ _ _ _ _ _ _ _ _ _ H Sm Sz A) as (k & y & s' & R & L & T & D & A'). exists k, [y], [y], s'.
    split; [now apply lexes_reads|]. split; [exact L|]. split; [apply aset_len in H; unfold csets, cset; cbn; rewrite T; cbn; lia|]. split; [exact A'|]. split; [now constructor|].
    intros c. split; [intros (x & [<-|[]] & M); now apply D|]. intros Hc. exists y. split; [now left|now apply D].
  - destruct (altern_head _ _ _ _ _ H) as (c & t' & E & C). cbn [app] in A, Sm, Sz. rewrite <- app_assoc in A, Sm, Sz. cbn [app] in A, Sm, Sz.
    assert (PS : plain_start fl 40 (t ++ 41 :: rest)).
    { split; [discriminate|]. split; [intros _ z; rewrite E; cbn [app]; congruence|]. intros _. split; [unfold is_space; lia|discriminate]. }
    set (s1 := mk (t ++ 41 :: rest) sz fl (match st with [] => [] | _ => fl :: st end) (p + 1) false).
    assert (N1 : forall lhs, next b lhs s = Ok (tok OPENPAREN, s1)).
    { intros lhs. rewrite (next_at b lhs _ _ _ _ _ _ _ _ _ _ A (lead_plain _ _ _ PS)). unfold on_char. cbn [rs_string mk]. repeat ne.
      change (40 =? 40) with true. cbv iota. cbn [rs_inp mk]. unfold read_options. cbn [rs_inp].
      replace (peek (t ++ 41 :: rest) =? 63) with false by (symmetry; apply N.eqb_neq; rewrite E; cbn; exact C). unfold s1. destruct st; reflexivity. }
    inversion Sm as [|? ? _ Sm1]; subst x l.
    destruct (altern_lexes _ ms _ _ _ _ H s1 sz (match st with [] => [] | _ => fl :: st end) (p + 1) Sm1) as (k1 & y & w & ts & s2 & L & LE & CS & A2 & T & AL & U).
    { apply (sized_cut sz false [40]); [exact Sz|discriminate]. } { apply at_mk. }
    assert (PC : plain_start fl 41 rest) by (split; [discriminate|split; [discriminate|intros _; split; [unfold is_space; lia|discriminate]]]).
    exists (1 + (k1 + 1))%nat, (tok OPENPAREN :: (y :: w) ++ [tok CLOSEPAREN]), (y :: ts), (mk rest sz fl st p false). split.
    { eapply lexes_cons; [exact N1|]. eapply lexes_app; [exact L|]. apply lexes_one. intros lhs.
      rewrite (next_at b lhs _ _ _ _ _ _ _ _ _ _ A2 (lead_plain _ _ _ PC)). unfold on_char. cbn [rs_string mk]. repeat ne.
      change (41 =? 41) with true. cbv iota. cbn [rs_parens rs_stack mk]. rewrite (proj2 (N.eqb_neq (p + 1) 0)) by lia.
      replace (p + 1 - 1) with p by lia. destruct st; reflexivity. }
    cbn [length]. rewrite app_length. cbn [length]. split; [lia|]. split; [rewrite csets_cons, csets_app; cbn; cbn in CS; lia|]. split; [apply at_mk|].
    split; [|exact U]. cbn [app]. now constructor.
Qed.
Lemma lazy_star b fl rest sz st p s : at_ s sz fl st p (42 :: 63 :: rest) false ->
  (forall lhs, next b lhs s = Ok (tok AZEROORMORE, mk rest sz fl st p false)).
Proof.
  intros A lhs. assert (PS : plain_start fl 42 (63 :: rest)) by (split; [discriminate|split; [discriminate|intros _; split; [unfold is_space; lia|discriminate]]]).
  rewrite (next_at b lhs _ _ _ _ _ _ _ _ _ _ A (lead_plain _ _ _ PS)). reflexivity.
Qed.
Lemma charof_sets b fl s ts : Forall2 (charof b fl) s ts -> sets ts /\ length ts = length s /\ csets ts = length s /\ (forall u, StopSpec.reads ts u <-> alike b fl s u) /\
  forall t, In t ts -> exists c, In c s /\ charof b fl c t.
Proof.
  induction 1 as [|c t s ts [T D] F (S & L & CS & R & I)].
  - split; [constructor|]. split; [reflexivity|]. split; [reflexivity|]. split; [|intros ? []]. intros u. unfold StopSpec.reads, alike. split; intros H; inversion H; constructor.
  - split; [now constructor|]. cbn [length]. split; [now rewrite L|]. split; [rewrite csets_cons, CS; unfold cset; now rewrite T|]. split.
    + intros u. unfold StopSpec.reads, alike in *. split; intros H; inversion H as [|? d ? u' H1 H2]; subst; constructor; try (apply D; assumption); now apply R.
    + intros t' [<-|H]; [exists c; split; [now left|now split]|]. destruct (I t' H) as (d & Hd & Q). exists d. split; [now right|exact Q].
Qed.
(** The tokens of the rule for a comment. *)
Definition shaped (b fl : N) (c : cmt) (w : list token) : Prop :=
  exists X ch bs z Y, loop_tokens w X ch bs z Y /\ Y <> [] /\
    (forall u, StopSpec.reads X u <-> alike b fl (c_open c) u) /\ unions b bs (c_set c) /\ (forall u, StopSpec.reads Y u <-> alike b fl (c_close c) u).
Lemma qtext_len s : (length s <= length (qtext s))%nat.
Proof.
  induction s as [|c s IH]; [cbn; lia|]. unfold qtext in *. cbn [flat_map length]. rewrite app_length. destruct (isin [34; 92] c); cbn [length]; lia.
Qed.
Lemma in_quotes_len s : (length s + 2 <= length (in_quotes s))%nat.
Proof. rewrite in_quotes_is. cbn [length]. rewrite app_length. cbn [length]. pose proof (qtext_len s). lia. Qed.
Theorem comment_loop k fl ms c : comment_ok k fl c -> let b := r_bytes k in
  exists w, tok_loop (S (length (comment_text c))) b ms (start_state fl (comment_text c)) [tok BEGIN] [] None = Ok (between w) /\
    shaped b fl c w /\ (csets w <= length (comment_text c))%nat.
Proof.
  intros [O1 O2 CB CI Sm NF ID] b. set (text := comment_text c) in *.
  assert (A : at_ (start_state fl text) (length text) fl [] 0 text false) by (constructor; reflexivity).
  assert (Sz : sized (length text) true text) by reflexivity. pose proof Sm as Sm0.
  unfold text, comment_text in A, Sm. apply small_app in Sm as [Sm1 Sm2].
  destruct (quote_lexes b ms fl _ (c_open c) _ _ _ _ Sm1 A) as (X & s1 & L1 & A1 & F1).
  destruct (choice_lexes b ms fl _ _ _ CB s1 (length text) [] 0 Sm2) as (k2 & ch & bs & s2 & L2 & LE2 & CS2 & A2 & C2 & U2).
  { apply (sized_cut (length text) true (in_quotes (c_open c))); [exact Sz|discriminate]. } { exact A1. }
  pose proof (lazy_star b fl _ _ _ _ _ A2) as N3. set (s3 := mk (in_quotes (c_close c)) (length text) fl [] 0 false) in *.
  assert (A3 : at_ s3 (length text) fl [] 0 (in_quotes (c_close c) ++ []) false) by (rewrite app_nil_r; apply at_mk).
  apply small_app in Sm2 as [_ Sm2]. apply small_app in Sm2 as [_ Sm3].
  destruct (quote_lexes b ms fl [] (c_close c) _ _ _ _ Sm3 A3) as (Y & s4 & L4 & A4 & F4).
  destruct (charof_sets _ _ _ _ F1) as (SX & LX & CX & RX & _). destruct (charof_sets _ _ _ _ F4) as (SY & LY & CY & RY & IY).
  assert (LT : loop_tokens (X ++ ch ++ tok AZEROORMORE :: Y) X ch bs (tok AZEROORMORE) Y).
  { constructor; auto; [intros ->; destruct (c_open c); [easy|discriminate]|]. intros y d Hy M. destruct (IY y Hy) as (e & He & _ & D). apply U2. apply (CI e d He). now apply D. }
  destruct (loop_gram _ _ _ _ _ _ LT) as (r & G). destruct (gram_chain _ _ _ G) as (C1 & C3 & _ & P).
  assert (LN : length text = (length (in_quotes (c_open c)) + (length (c_body c) + (2 + length (in_quotes (c_close c)))))%nat).
  { unfold text, comment_text. now rewrite !app_length. }
  pose proof (in_quotes_len (c_open c)). pose proof (in_quotes_len (c_close c)).
  exists (X ++ ch ++ tok AZEROORMORE :: Y). split; [|split].
  - assert (LL : lexes b ms (length (c_open c) + (k2 + (1 + length (c_close c)))) (start_state fl text) (X ++ ch ++ tok AZEROORMORE :: Y) s4).
    { eapply lexes_app; [exact L1|]. eapply lexes_app; [exact L2|]. eapply lexes_cons; [exact N3|exact L4]. }
    rewrite (loop_lexes _ ms _ _ _ _ LL P) with (sz := length text) (fl := fl) (st := []); [reflexivity| | |exact A4|lia].
    + eapply Forall_impl; [|exact P]. intros t (_ & _ & K). exact K.
    + apply chain_app. split; [apply C1; repeat split|]. cbn [chain]. split; [apply C3|exact Logic.I].
  - exists X, ch, bs, (tok AZEROORMORE), Y. split; [exact LT|]. split; [|auto]. intros ->. destruct (c_close c); [easy|discriminate].
  - rewrite !csets_app, csets_cons, CX, CY. change (cset (tok AZEROORMORE)) with O. fold text. lia.
Qed.
Theorem comment_tokens k fl ms c : comment_ok k fl c ->
  exists w, tokenise (r_bytes k) fl ms (comment_text c) true = Ok [between w] /\ shaped (r_bytes k) fl c w /\ (csets w <= length (comment_text c))%nat.
Proof.
  intros OK. destruct (comment_loop k fl ms c OK) as (w & T & S & CS). exists w. split; [|auto]. destruct S as (X & ch & bs & z & Y & LT & NE & _). eapply loop_tokenise; eauto.
Qed.
