(** Lexers with rules for comments, from the texts to the tokens. *)
From Verif Require Import Base StringToken StringTokenSpec StringTokenProofs RegexSpec StateMachine ReToken ReTokeniser ReTokeniserNext Grammar GramUnique RuleSpec
  ParserProofs Tree Parser Generator Build Lookup TableSpec LookupSpec DfaSpec BuildSpec BolWords LazySpec LoopSpec StopSpec LoopWords LoopLookup BuildLookup BuildErrs BuildThms BuildCheck ParserKeys
  Rules TokeniseSpec TokeniseProofs StripProofs PruneProofs TokeniseAll
  RulesSpec RulesInv RulesContent RulesFeat RulesBuild RulesTop RulesPush
  SourceSpec SourceSets SourceClass SourceRep SourceLex SourceLead SourceAll SourceLexer SourceLiteral SourceTop CommentSpec CommentLex.
Local Open Scope N_scope.

(** Rule [x] of the object is what [y] says. *)
Definition cfollows (k : rcfg) (fl : N) (x : grule) (y : item) : Prop :=
  match y with
  | IText y => follows k x y
  | IComment c =>
    (exists w, gr_tokens x = between w /\ shaped (r_bytes k) fl c w /\ (csets w <= length (comment_text c))%nat) /\
    gr_id x = c_id c /\ gr_uid x = c_uid c /\ gr_next x = 0 /\ gr_push x = rnpos k /\ gr_pop x = false
  end.
Lemma cfollows_ids k fl x y : cfollows k fl x y -> gr_id x = i_id y /\ gr_uid x = i_uid y /\ gr_next x = 0 /\ gr_push x = rnpos k /\ gr_pop x = false.
Proof. destruct y as [y|c]; [intros (_ & _ & _ & H)|intros (_ & H)]; exact H. Qed.

Section Object.
  Variables (k : rcfg) (fl : N).
  Hypothesis NPOS : 1 < rnpos k.
  Variable mds : list smacro.
  Lemma push_item y r : proper_unsplit k r -> ru_flags r = fl -> mtable (r_bytes k) (meanings mds) (ru_macros r) -> item_ok k fl mds y ->
    snd (push_rule k (i_text y) (i_id y) (i_uid y) r) = Ok tt /\
    ru_flags (fst (push_rule k (i_text y) (i_id y) (i_uid y) r)) = fl /\
    length (ru_map (fst (push_rule k (i_text y) (i_id y) (i_uid y) r))) = length (ru_map r) /\
    ru_macros (fst (push_rule k (i_text y) (i_id y) (i_uid y) r)) = ru_macros r /\
    exists x, cfollows k fl x y /\ forall i, rules_at (fst (push_rule k (i_text y) (i_id y) (i_uid y) r)) i = rules_at r i ++ if Nat.eqb i 0 then [x] else [].
  Proof.
    intros PR Efl MT OK. destruct y as [y|c]; [exact (push_one k fl NPOS mds y r PR Efl MT OK)|]. destruct (unsplit_feats k NPOS r PR) as (A & _ & _). cbn [item_ok i_text i_id i_uid] in *.
    destruct (comment_tokens k fl (ru_macros r) c OK) as (w & T & SH & CS). rewrite <- Efl in T.
    assert (NW : w <> []).
    { destruct SH as (X & ch & bs & z & Y & [-> NE _ _ _ _ _] & _). destruct X; [easy|discriminate]. }
    destruct (mx_feature k NPOS w (c_id c)) as (bits & F). specialize (F NW). destruct (co_ids _ _ _ OK) as (I1 & I2).
    assert (P : push_rule k (comment_text c) (c_id c) (c_uid c) r = (add_rules 0 (comment_text c) [between w] bits (c_id c) (c_uid c) 0 (rnpos k) false r, Ok tt)).
    { unfold push_rule. unfold bad_id. rewrite (proj2 (N.eqb_neq _ _) I1), (proj2 (N.eqb_neq _ _) I2). cbn [orb]. rewrite T. cbn [last] in F. cbn [last]. rewrite F. reflexivity. }
    rewrite P. cbn [fst snd]. split; [reflexivity|]. split; [exact Efl|]. split; [reflexivity|]. split; [reflexivity|].
    exists (mk_rule (c_id c) (c_uid c) 0 (rnpos k) false (between w)). split.
    - split; [exists w; auto|repeat split].
    - destruct (pushed k (comment_text c) (c_id c) (c_uid c) r A) as (v & V1 & V2); [now rewrite P|]. rewrite T in V1. injection V1 as <-.
      rewrite P in V2. exact V2.
  Qed.
  Lemma item_is_ok y r : ru_flags r = fl -> mtable (r_bytes k) (meanings mds) (ru_macros r) -> item_ok k fl mds y -> text_ok k r (ru_macros r) (i_text y) true.
  Proof.
    intros Efl MT OK. destruct y as [y|c]; [exact (text_is_ok k fl mds y r Efl MT OK)|]. cbn [item_ok i_text] in *. split; [apply (co_small _ _ _ OK)|]. split; [apply (co_numbers _ _ _ OK)|].
    intros _ w T. rewrite Efl in T. destruct (comment_loop k fl (ru_macros r) c OK) as (w' & T' & SH & _). rewrite T in T'. injection T' as E. apply app_inj_tail in E as [-> _].
    destruct SH as (X & ch & bs & z & Y & [-> _ SX CB Hz SY _] & _).
    assert (Q : forall l, Forall (fun t => lazy_type (tk_type t) = false) l -> Forall zero_plain l).
    { intros l. apply Forall_impl. intros t H Z. rewrite Z in H. discriminate. }
    apply Forall_app. split; [now apply Q, sets_types|]. apply Forall_app. split; [eapply Q, choice_types; eauto|]. constructor; [|now apply Q, sets_types].
    intros Z. congruence.
  Qed.
  Lemma push_items_is ys : smacros_ok k fl mds -> Forall (item_ok k fl mds) ys -> let r := push_items k fl mds ys in
    proper_unsplit k r /\ ru_flags r = fl /\ length (ru_map r) = 1%nat /\ mtable (r_bytes k) (meanings mds) (ru_macros r) /\ Forall2 (cfollows k fl) (rules_at r 0) ys /\ forall i, rules_at r (S i) = [].
  Proof.
    intros MO. induction ys as [|y ys IH] using rev_ind; intros F; cbv zeta in *.
    - unfold push_items. cbn [fold_left]. destruct (put_macros_is k fl NPOS mds (make_rules k fl) (pu_new k fl) (make_flags k fl) (make_macros k fl) MO) as (P & Q1 & Q2 & Q3 & Q4 & _).
      split; [exact P|]. split; [exact Q1|]. split; [rewrite Q2; apply make_map|]. split; [exact Q4|]. rewrite Q3, make_at. split; [constructor|]. intros i. now rewrite Q3, make_at.
    - apply Forall_app in F as [F Fy]. inversion Fy as [|? ? Hy _]; subst. destruct (IH F) as (P & Efl & Em & MT & F2 & E).
      unfold push_items. rewrite fold_left_app. cbn [fold_left]. fold (push_items k fl mds ys). set (r := push_items k fl mds ys) in *.
      destruct (unsplit_feats k NPOS r P) as (A & _ & _).
      destruct (push_item y r P Efl MT Hy) as (S1 & S2 & S3 & S4 & x & X1 & X2). split.
      { change (fst (push_rule k (i_text y) (i_id y) (i_uid y) r)) with (fst (apply k (OPush (i_text y) (i_id y) (i_uid y)) r)).
        constructor; [exact P| |exact Logic.I]. now apply item_is_ok. }
      split; [exact S2|]. split; [congruence|]. split; [now rewrite S4|]. rewrite X2. cbn [Nat.eqb]. split; [apply Forall2_app; [exact F2|constructor; [exact X1|constructor]]|].
      intros i. rewrite X2, E. reflexivity.
  Qed.
  (** Every call succeeds. *)
  Theorem push_items_succeed ys y : smacros_ok k fl mds -> Forall (item_ok k fl mds) (ys ++ [y]) ->
    snd (push_rule k (i_text y) (i_id y) (i_uid y) (push_items k fl mds ys)) = Ok tt.
  Proof.
    intros MO F. apply Forall_app in F as [F Fy]. inversion Fy as [|? ? Hy _]; subst. destruct (push_items_is ys MO F) as (P & Efl & _ & MT & _).
    destruct (unsplit_feats k NPOS _ P) as (A & _ & _). now destruct (push_item y _ P Efl MT Hy).
  Qed.
End Object.

(** ** Meaning *)
Lemma shaped_match k fl x c w : gr_tokens x = between w -> shaped (r_bytes k) fl c w ->
  loop_rule x /\ forall bol cs, Forall (fun d => d <= 0x10ffff) cs -> (rmatch x bol cs <-> cfits (r_bytes k) fl c cs).
Proof.
  intros E (X & ch & bs & z & Y & LT & NE & RX & U & RY). assert (RT : rule_tokens x w) by (exists (tok BEGIN), (tok END); auto).
  split; [exists w, X, ch, bs, z, Y; auto|]. intros bol cs L. rewrite (loop_words x w X ch bs z Y RT LT bol cs L). unfold loop_text, cfits.
  split; intros (u & v & w' & -> & H1 & H2 & H3); exists u, v, w'; (split; [reflexivity|]); (split; [now apply RX|]); (split; [|now apply RY]); (eapply Forall_impl; [|exact H2]); intros d; apply U.
Qed.
Lemma alike_length b fl s u : alike b fl s u -> length u = length s.
Proof. induction 1; cbn; congruence. Qed.
Lemma shaped_lazy b fl c w : shaped b fl c w -> has_lazy (between w) = true.
Proof.
  intros (X & ch & bs & z & Y & [-> _ _ _ Hz _ _] & _). unfold has_lazy. apply existsb_exists. exists z. split; [|now rewrite Hz].
  unfold between. right. apply in_or_app. left. apply in_or_app. right. apply in_or_app. right. now left.
Qed.
Lemma cfits_opens b fl c cs : cfits b fl c cs -> exists u w, cs = u ++ w /\ alike b fl (c_open c) u.
Proof. intros (u & v & w & -> & H & _). exists u, (v ++ w). auto. Qed.
Lemma prefixes {A} (u : list A) : forall w u' w', u ++ w = u' ++ w' -> (exists t, u = u' ++ t) \/ exists t, u' = u ++ t.
Proof.
  induction u as [|a u IH]; intros w u' w' E; [right; exists u'; reflexivity|]. destruct u' as [|a' u']; [left; exists (a :: u); reflexivity|].
  injection E as <- E. destruct (IH _ _ _ E) as [(t & ->)|(t & ->)]; [left|right]; exists t; reflexivity.
Qed.
Lemma nth_cfollows k fl xs ys j x : Forall2 (cfollows k fl) xs ys -> nth_error xs j = Some x -> exists y, nth_error ys j = Some y /\ cfollows k fl x y.
Proof. intros F. revert j. induction F as [|a b xs ys H F IH]; intros [|j] E; try discriminate; cbn in *; [injection E as <-; eauto|auto]. Qed.
Lemma nth_cfollows' k fl xs ys j y : Forall2 (cfollows k fl) xs ys -> nth_error ys j = Some y -> exists x, nth_error xs j = Some x /\ cfollows k fl x y.
Proof. intros F. revert j. induction F as [|a b xs ys H F IH]; intros [|j] E; try discriminate; cbn in *; [injection E as <-; eauto|auto]. Qed.
(** All texts of a rule, also those behind the first end of a comment. *)
Definition iall (b fl : N) (y : item) (bol : bool) (cs : list N) : Prop := match y with IText x => smatch x bol cs | IComment c => cfits b fl c cs end.
Lemma imatch_all b fl y bol cs : imatch b fl y bol cs -> iall b fl y bol cs.
Proof. destruct y as [x|c]; [exact (fun H => H)|intros [H _]; exact H]. Qed.
Lemma cfollows_match k fl x y bol cs : r_bytes k = 1 -> Forall (fun d => d <= 0x10ffff) cs -> cfollows k fl x y -> (rmatch x bol cs <-> iall (r_bytes k) fl y bol cs).
Proof.
  intros B L W. destruct y as [y|c]; [apply (follows_match k x y bol cs); [now left|exact W]|]. destruct W as ((w & E & SH & _) & _).
  now apply (shaped_match k fl x c w E SH).
Qed.
Lemma apart_iall b fl ys i j c y bol u w : apart b fl ys -> i <> j -> nth_error ys i = Some (IComment c) -> nth_error ys j = Some y -> alike b fl (c_open c) u ->
  ~ iall b fl y bol (u ++ w).
Proof.
  intros AP NE E1 E2 AL M. pose proof (AP i j c y NE E1 E2) as K. destruct y as [x|c']; [exact (K bol u w AL M)|]. cbn [iall] in M.
  destruct (cfits_opens _ _ _ _ M) as (u' & w' & E & AL'). destruct (prefixes _ _ _ _ E) as [(t & ->)|(t & ->)]; [exact (K _ u' t AL AL' eq_refl)|].
  exact (AP j i c' (IComment c) (not_eq_sym NE) E2 E1 _ u t AL' AL eq_refl).
Qed.

Definition low (c : N) : N := if c <=? 0x10ffff then c else 0x10ffff.
Lemma low_id cs : Forall (fun d => d <= 0x10ffff) cs -> map low cs = cs.
Proof. induction 1 as [|c cs H F IH]; [reflexivity|]. cbn [map]. rewrite IH. unfold low. now rewrite (proj2 (N.leb_le _ _) H). Qed.
Lemma low_low cs : Forall (fun d => d <= 0x10ffff) (map low cs).
Proof. apply Forall_forall. intros c I. apply in_map_iff in I as (d & <- & _). unfold low. destruct (N.leb_spec d 0x10ffff); lia. Qed.
Section Take.
  Variables (k : rcfg) (fl : N) (rs : list grule) (ys : list item) (inp : list N) (bol : bool) (p : nat).
  Hypothesis B : r_bytes k = 1.
  Hypothesis LOW : Forall (fun d => d <= 0x10ffff) inp.
  Hypothesis F : Forall2 (cfollows k fl) rs ys.
  Hypothesis AP : apart (r_bytes k) fl ys.
  Hypothesis DOWN : forall x cs, In x rs -> rmatch x bol cs -> rmatch x bol (map low cs).
  Lemma low_part q : Forall (fun d => d <= 0x10ffff) (text_of inp p q).
  Proof.
    rewrite Forall_forall in LOW |- *. intros c I. apply LOW. unfold text_of in I.
    assert (I2 : In c (skipn p inp)) by (rewrite <- (firstn_skipn (q - p) (skipn p inp)); apply in_or_app; now left).
    rewrite <- (firstn_skipn p inp). apply in_or_app. now right.
  Qed.
  Lemma part_firstn q1 q : (p <= q1 <= q)%nat -> text_of inp p q1 = firstn (q1 - p) (text_of inp p q).
  Proof. intros L. unfold text_of. rewrite firstn_firstn. f_equal. lia. Qed.
  Lemma part_more q1 q : (p <= q1 <= q)%nat -> exists w, text_of inp p q = text_of inp p q1 ++ w.
  Proof. intros L. rewrite (part_firstn q1 q L). exists (skipn (q1 - p) (text_of inp p q)). symmetry. apply firstn_skipn. Qed.
  Lemma none_items : rnone rs inp bol p -> inone (r_bytes k) fl ys inp bol p.
  Proof.
    intros U q z Hq Hz M. apply imatch_all in M. apply In_nth_error in Hz as (j & E). destruct (nth_cfollows' _ _ _ _ _ _ F E) as (x & Ex & W).
    apply (U q x Hq (nth_error_In _ _ Ex)). now apply (cfollows_match k fl x z bol _ B (low_part q) W).
  Qed.
  Lemma takes_items x q : rtakes_stop rs inp bol p x q -> exists y, ilongest (r_bytes k) fl ys inp bol p y q /\ cfollows k fl x y.
  Proof.
    intros ((R & (i & E & M & Lo) & EG) & ST). destruct (nth_cfollows _ _ _ _ _ _ F E) as (y & E' & W). exists y. split; [|exact W].
    assert (MA := fun x y q W => cfollows_match k fl x y bol _ B (low_part q) W).
    assert (LO : forall j z, (j < i)%nat -> nth_error ys j = Some z -> ~ imatch (r_bytes k) fl z bol (between_pos inp p q)).
    { intros j z Hj Ez Mz. apply imatch_all in Mz. destruct (nth_cfollows' _ _ _ _ _ _ F Ez) as (x' & Ex & W'). apply (Lo j x' Hj Ex). now apply (MA x' z q W'). }
    assert (MY : iall (r_bytes k) fl y bol (text_of inp p q)) by now apply (MA x y q W).
    destruct y as [y|c].
    - destruct W as (W1 & W2 & W3 & W4). destruct (EG W3) as (_ & _ & U). split; [exact R|]. split.
      + exists i. split; [exact E'|]. split; [exact MY|exact LO].
      + intros q' z Hq Hz Mz. apply imatch_all in Mz. apply In_nth_error in Hz as (j & Ez). destruct (nth_cfollows' _ _ _ _ _ _ F Ez) as (x' & Ex & W').
        apply (U q' x' Hq (nth_error_In _ _ Ex)). now apply (MA x' z q' W').
    - cbn [iall] in MY. assert (BG : forall q1, (p <= q1)%nat -> cfits (r_bytes k) fl c (text_of inp p q1) -> forall j z w, j <> i -> nth_error ys j = Some z -> ~ iall (r_bytes k) fl z bol (text_of inp p q1 ++ w)).
      { intros q1 Hq C j z w NE Ez Mz. destruct (cfits_opens _ _ _ _ C) as (u & w1 & Et & AL). rewrite Et, <- app_assoc in Mz.
        exact (apart_iall _ _ _ i j c z bol u (w1 ++ w) AP (not_eq_sym NE) E' Ez AL Mz). }
      assert (LR : loop_rule x) by (destruct W as ((w & Ew & SH & _) & _); now apply (shaped_match k fl x c w Ew SH)).
      split; [exact R|]. split.
      + exists i. split; [exact E'|]. split; [|exact LO]. cbn [imatch]. split; [exact MY|]. intros n Hn C.
        assert (LT : length (text_of inp p q) = (q - p)%nat) by (unfold text_of; rewrite firstn_length, skipn_length; lia).
        change (between_pos inp p q) with (text_of inp p q) in Hn, C. rewrite LT in Hn.
        assert (ET : firstn n (text_of inp p q) = text_of inp p (p + n)) by (rewrite (part_firstn (p + n) q) by lia; f_equal; lia). rewrite ET in C.
        apply (ST (p + n)%nat x); [lia|]. exists i. split; [exact E|]. split; [exact LR|]. split; [now apply (MA x (IComment c) (p + n)%nat W)|]. split.
        * intros j r' Hj Er Mr. destruct (nth_cfollows _ _ _ _ _ _ F Er) as (z & Ez & W'). apply (MA r' z (p + n)%nat W') in Mr.
          apply (BG (p + n)%nat ltac:(lia) C j z []); [lia|exact Ez|now rewrite app_nil_r].
        * intros d j r' cs Ed NE Er Mr. destruct (nth_cfollows _ _ _ _ _ _ F Er) as (z & Ez & W'). apply DOWN in Mr; [|eapply nth_error_In; eauto].
          rewrite map_app, (low_id _ (low_part _)) in Mr. apply (cfollows_match k fl r' z bol) in Mr; [|exact B| |exact W'].
          -- exact (BG (p + n)%nat ltac:(lia) C j z _ NE Ez Mr).
          -- apply Forall_app. split; [apply low_part|apply low_low].
      + intros q' z Hq Hz Mz. apply In_nth_error in Hz as (j & Ez). destruct (part_more q q' ltac:(lia)) as (w & Ew).
        change (between_pos inp p q') with (text_of inp p q') in Mz. destruct (Nat.eq_dec j i) as [->|NE].
        * rewrite E' in Ez. injection Ez as <-. cbn [imatch] in Mz. destruct Mz as [_ Mz]. apply (Mz (length (text_of inp p q))).
          -- rewrite Ew, app_length. assert (LT : forall q, (q <= length inp)%nat -> length (text_of inp p q) = (q - p)%nat) by (intros q0 H0; unfold text_of; rewrite firstn_length, skipn_length; lia).
             assert (LE := f_equal (@length N) Ew). rewrite app_length, !LT in LE by lia. lia.
          -- rewrite Ew, firstn_app, firstn_all, Nat.sub_diag. cbn [firstn]. rewrite app_nil_r. exact MY.
        * apply imatch_all in Mz. rewrite Ew in Mz. exact (BG q ltac:(lia) MY j z w NE Ez Mz).
  Qed.
End Take.

(** ** The description leaves no choice *)
Lemma ilongest_det b fl ys inp bol p y q y' q' : ilongest b fl ys inp bol p y q -> ilongest b fl ys inp bol p y' q' -> y = y' /\ q = q'.
Proof.
  intros (R1 & (j & E1 & M1 & L1) & U1) (R2 & (j' & E2 & M2 & L2) & U2).
  assert (q = q').
  { destruct (Nat.lt_trichotomy q q') as [H|[H|H]]; [|exact H|].
    - exfalso. apply (U1 q' y'); [lia|eapply nth_error_In; eauto|exact M2].
    - exfalso. apply (U2 q y); [lia|eapply nth_error_In; eauto|exact M1]. }
  subst q'. split; [|reflexivity]. destruct (Nat.lt_trichotomy j j') as [H|[H|H]].
  - exfalso. apply (L2 j y H E1 M1).
  - subst. congruence.
  - exfalso. apply (L1 j' y' H E2 M2).
Qed.
Theorem ireads_det b fl none skip see ys inp bol p id uid i j l : ireads b fl none skip see ys inp bol p id uid i j l ->
  forall id' uid' i' j' l', ireads b fl none skip see ys inp bol p id' uid' i' j' l' -> id = id' /\ uid = uid' /\ i = i' /\ j = j' /\ l = l'.
Proof.
  assert (NL : forall bol p x q, ilongest b fl ys inp bol p x q -> inone b fl ys inp bol p -> False).
  { intros bol' p' x q (R1 & (n & E & M & _) & _) N. apply (N q x); [lia|eapply nth_error_In; eauto|exact M]. }
  assert (EN : forall p c, nth_error inp p = Some c -> p = length inp -> False).
  { intros p' c H ->. assert (length inp < length inp)%nat by (apply nth_error_Some; congruence). lia. }
  assert (EL : forall bol p x q, ilongest b fl ys inp bol p x q -> p = length inp -> False) by (intros bol' p' x q (R1 & _) ->; lia).
  induction 1 as [bol p H|bol p x q H N|bol p x q id uid i j l H N K IH|bol p c H N]; intros id' uid' i' j' l' S; inversion S; subst;
    try (exfalso; eauto; fail); try (split; auto; fail).
  - match goal with A : ilongest _ _ _ _ _ _ _ _, B : ilongest _ _ _ _ _ _ _ _ |- _ => destruct (ilongest_det _ _ _ _ _ _ _ _ _ _ A B) as [-> ->] end. auto.
  - match goal with A : ilongest _ _ _ _ _ _ _ _, B : ilongest _ _ _ _ _ _ _ _ |- _ => destruct (ilongest_det _ _ _ _ _ _ _ _ _ _ A B) as [-> ->] end. congruence.
  - match goal with A : ilongest _ _ _ _ _ _ _ _, B : ilongest _ _ _ _ _ _ _ _ |- _ => destruct (ilongest_det _ _ _ _ _ _ _ _ _ _ A B) as [-> ->] end. congruence.
  - match goal with A : ilongest _ _ _ _ _ _ _ _, B : ilongest _ _ _ _ _ _ _ _ |- _ => destruct (ilongest_det _ _ _ _ _ _ _ _ _ _ A B) as [-> ->] end. auto.
  - match goal with A : nth_error inp ?p = Some ?x, B : nth_error inp ?p = Some ?y |- _ => rewrite A in B; injection B as -> end. auto.
Qed.

(** ** The lexer *)
Lemma item_rule_sets k fl rs ys : Forall2 (cfollows k fl) rs ys -> (length (flat_map (fun r => flat_map (tok_sets 1) (gr_tokens r)) rs) <= 2 * items_sets ys)%nat.
Proof.
  unfold items_sets. induction 1 as [|x y rs ys H F IH]; [cbn; lia|]. cbn [flat_map map list_sum fold_right]. rewrite app_length. fold (list_sum (map item_sets ys)).
  assert (K : exists w, gr_tokens x = between w /\ (csets w <= item_sets y)%nat).
  { destruct y as [y|c]; [destruct H as ((w & q & E & _ & L & _) & _)|destruct H as ((w & E & _ & L) & _)]; eauto. }
  destruct K as (w & -> & L). unfold between. cbn [flat_map]. rewrite flat_map_app. cbn [flat_map]. change (tok_sets 1 (tok BEGIN)) with (@nil stoken).
  change (tok_sets 1 (tok END)) with (@nil stoken). cbn [app]. rewrite app_nil_r. pose proof (flat_sets w). lia.
Qed.
Section Lexer.
  Variables (k : rcfg) (g : gcfg) (kc : cfg) (fl : N) (mds : list smacro) (ys : list item) (f : nat) (m : internals) (inp : list N).
  Hypothesis NPOS : 1 < rnpos k.
  Hypothesis Hbits : g_bits g = r_bits k.
  Hypothesis Hbytes : r_bytes k = 1.
  Hypothesis Hb : g_bytes g = 1.
  Hypothesis AG : agree kc g.
  Hypothesis MO : smacros_ok k fl mds.
  Hypothesis Hy : Forall (item_ok k fl mds) ys.
  Hypothesis AP : apart 1 fl ys.
  Let R := grules_of (push_items k fl mds ys).
  Hypothesis Few : N.of_nat (2 * items_sets ys) < eol_tok g.
  Hypothesis HB : build f g R = Ok m.
  Hypothesis Zero : has fl rf_match_zero_len = false.
  Hypothesis Adv : f_adv kc = true.
  Hypothesis HI : Forall (fits (c_bytes kc)) inp.

  Let rs := rules_at (push_items k fl mds ys) 0.
  Lemma item_state s : In s (gr_states R) -> gs_rules s = rs.
  Proof.
    destruct (push_items_is k fl NPOS mds ys MO Hy) as (_ & _ & E & _). unfold R. cbn [grules_of gr_states]. rewrite E. intros [<-|[]]. reflexivity.
  Qed.
  Lemma items_follow : Forall2 (cfollows k fl) rs ys.
  Proof. now destruct (push_items_is k fl NPOS mds ys MO Hy) as (_ & _ & _ & _ & F & _). Qed.
  Lemma cfollows_gram x y : cfollows k fl x y -> exists w q, gr_tokens x = between w /\ gram GRegex q w.
  Proof.
    destruct y as [y|c]; [intros ((w & q & E & G & _) & _); eauto|]. intros ((w & E & (X & ch & bs & z & Y & LT & _) & _) & _).
    destruct (loop_gram _ _ _ _ _ _ LT) as (r & G). exists w, r. split; [exact E|now apply g_regex].
  Qed.
  Lemma items_simple : simple g (push_items k fl mds ys).
  Proof.
    destruct (push_items_is k fl NPOS mds ys MO Hy) as (P & _ & _ & _ & F & E).
    assert (K : forall i x, In x (rules_at (push_items k fl mds ys) i) -> ends EOL (removelast (gr_tokens x)) = false /\ (starts BOL (tl (gr_tokens x)) = true -> bol_rule true x)).
    { intros i x Hi. destruct i as [|i]; [|rewrite E in Hi; destruct Hi]. pose proof Hi as Hi'. apply In_nth_error in Hi' as (j & Ej).
      destruct (nth_cfollows _ _ _ _ _ _ F Ej) as (y & Ey & W). rewrite Forall_forall in Hy. pose proof (Hy y (nth_error_In _ _ Ey)) as OK. destruct y as [y|c].
      - destruct W as ((w & q & Ew & G & _) & L & _). destruct OK as [_ _ _ _ BO]. exact (says_simple k NPOS _ 0 x w q (s_sx y) P Hi Ew G L BO).
      - destruct W as ((w & Ew & (X & ch & bs & z & Y & [-> NX SX CB Hz SY _] & NY & _) & _) & _). rewrite Ew. split.
        + destruct (ends EOL _) eqn:EE; [|reflexivity]. apply between_ends in EE. destruct EE as (t & p' & Et & T). exfalso. revert NY SY Et. destruct Y as [|t0 Y] using rev_ind; [easy|]. intros _ SY Et.
          rewrite app_comm_cons, !app_assoc in Et. apply app_inj_tail in Et as [_ ->]. apply Forall_app in SY as [_ SY]. inversion SY. congruence.
        + intros ST. apply between_starts in ST. destruct ST as (t & p' & Et & T). exfalso. destruct X as [|t0 X]; [easy|]. injection Et as -> _. inversion SX. congruence. }
    split; [intros i x Hi; now apply (K i x Hi)|]. split; [intros i x Hi; now apply (K i x Hi)|]. split.
    - intros s Hs. rewrite Hb. unfold all_sets. rewrite (item_state s Hs). pose proof (fold_sets (flat_map (fun r => flat_map (tok_sets 1) (gr_tokens r)) rs)) as A.
      pose proof (item_rule_sets k fl _ _ items_follow) as B'. lia.
    - intros i x t _ _. unfold sliceable. now left.
  Qed.
  Lemma items_plain x y : cfollows k fl x y -> gr_pop x = false /\ gr_push x = npos kc.
  Proof. intros W. destruct (cfollows_ids _ _ _ _ W) as (_ & _ & _ & P & Q). split; [exact Q|]. rewrite P. destruct AG as (-> & _). unfold gnpos, rnpos. now rewrite Hbits. Qed.
  Lemma items_down bol x cs : In x rs -> rmatch x bol cs -> rmatch x bol (map low cs).
  Proof.
    intros Hx. destruct (push_items_is k fl NPOS mds ys MO Hy) as (P & _ & _ & _ & F & _). pose proof Hx as Hx'. apply In_nth_error in Hx' as (j & Ej).
    destruct (nth_cfollows _ _ _ _ _ _ F Ej) as (y & _ & W). destruct (cfollows_gram x y W) as (w & q & E & G).
    destruct (unsplit_feats k NPOS _ P) as (_ & C & _). pose proof (co_rules _ _ C 0) as GR. rewrite Forall_forall in GR. destruct (GR x Hx) as ((w' & E' & V) & _).
    rewrite E in E'. injection E' as E'. apply app_inj_tail in E' as [<- _]. assert (D := gram_down _ _ _ _ G (ve_toks _ _ V)). assert (RL := rule_lang_is x w q E G).
    assert (ML : forall cs, map down (map CChar cs) = map CChar (map low cs)).
    { intros l. rewrite !map_map. apply map_ext. intros c. cbn. unfold low. destruct (c <=? 0x10ffff); reflexivity. }
    unfold rmatch. destruct bol; rewrite !RL; [intros [H|[H1 H]]; apply D in H; [left|right; split; [exact H1|]]; [cbn [map down] in H; now rewrite ML in H|now rewrite ML in H]|].
    intros H. apply D in H. now rewrite ML in H.
  Qed.
  Theorem items_to_tokens res fuel inner : covers kc m -> ready inp res -> (length inp < fuel)%nat -> (length inp < inner)%nat ->
    exists res', lookup fuel inner kc m inp res = Ok (res', None) /\ ready inp res' /\
      ireads 1 fl (npos kc) (skip_id kc) (f_bol kc) ys inp (r_bol res) (r_second res) (r_id res') (r_uid res') (r_first res') (r_second res') (r_bol res').
  Proof.
    intros CV RD Hf Hi. destruct (push_items_is k fl NPOS mds ys MO Hy) as (P & Efl & Em & _ & F & E).
    assert (Cb : c_bytes kc = 1) by (destruct AG as (_ & A); rewrite <- Hb; tauto).
    assert (LOW : Forall (fun d => d <= 0x10ffff) inp).
    { eapply Forall_impl; [|exact HI]. intros d Hd. unfold fits in Hd. rewrite Cb in Hd. change (1 =? 1) with true in Hd. cbv iota in Hd. lia. }
    assert (IR : in_range R inp res).
    { destruct RD as (R1 & R2 & R3). split; [|split; [rewrite R2; constructor|exact R3]]. unfold R. cbn [grules_of gr_states]. rewrite Em, R1. cbn. lia. }
    assert (Hb' : g_bytes g = r_bytes k) by congruence. assert (Hb0 : 0 < g_bytes g) by (rewrite Hb; lia).
    assert (SE := made_setting k g _ NPOS Hbits Hb' Hb0 P items_simple f kc m inp res AG HB CV HI IR).
    assert (MA := fun x y bol cs L W => cfollows_match k fl x y bol cs Hbytes L W).
    assert (LN : lazy_nonempty R).
    { intros s x Hs Hx NE M. rewrite (item_state s Hs) in Hx. apply In_nth_error in Hx as (j & Ej). destruct (nth_cfollows _ _ _ _ _ _ F Ej) as (y & Ey & W).
      destruct y as [y|c]; [apply NE; apply W|]. assert (M' : exists b, rmatch x b []) by (apply natural_cases in M as [M|[_ M]]; eauto).
      clear M. destruct M' as (b & M). apply (MA _ _ _ _ (Forall_nil _) W) in M. cbn [iall] in M. destruct (cfits_opens _ _ _ _ M) as (u & w & Eu & AL).
      destruct u; [|discriminate]. inversion AL as [E0|]. rewrite Forall_forall in Hy. destruct (Hy _ (nth_error_In _ _ Ey)) as [O1 _ _ _ _ _ _]. now apply O1. }
    assert (ZL : zero_len_ok (gr_flags R) = false) by (unfold R; cbn; rewrite Efl; exact Zero).
    destruct (lookup_total f kc g R m inp res SE fuel inner ZL Hf Hi) as (res' & o & EL).
    pose proof (lookup_stop f kc g R m inp res fuel inner SE Hb LN) as Q. rewrite EL in Q. destruct Q as [Q IR'].
    assert (NZ : forall x, In x rs -> ~ rmatch x false []).
    { intros x Hx'. assert (HS : exists s, In s (gr_states R)) by (unfold R; cbn [grules_of gr_states]; rewrite Em; eexists; now left).
      destruct HS as (s & Hs). apply (zero_len_complete f g R m (se_wide _ _ _ _ _ _ _ SE) (se_rules _ _ _ _ _ _ _ SE) ZL HB s x Hs). now rewrite (item_state s Hs). }
    assert (RO : forall st l, rules_of R st l -> l = rs).
    { intros st l (s & Es & <-). apply item_state. eapply nth_error_In; eauto. }
    assert (AP' : apart (r_bytes k) fl ys) by now rewrite Hbytes.
    assert (HH : forall r x q, rhits_stop kc R inp r x q -> exists y, ilongest 1 fl ys inp (f_bol kc && r_bol r) (r_second r) y q /\ cfollows k fl x y).
    { intros r x q (l & Hl & [H|(_ & _ & H)]); rewrite (RO _ _ Hl) in H.
      - destruct (takes_items k fl rs ys inp _ _ Hbytes LOW F AP' (items_down _) x q H) as (y & Y1 & Y2). exists y. rewrite Hbytes in Y1. auto.
      - destruct H as (j & Ej & M & _). exfalso. apply (NZ x); [eapply nth_error_In; eauto|exact M]. }
    assert (ET : forall r x r', reats kc inp (rhits_stop kc R inp) r x r' -> ready inp r ->
      exists y, ilongest 1 fl ys inp (f_bol kc && r_bol r) (r_second r) y (r_second r') /\ cfollows k fl x y /\ ready inp r' /\ r_bol r' = line (f_bol kc) inp (r_bol r) (r_second r')).
    { intros r x r' (q & H & ST & Eq & Eb) (Q1 & Q2 & Q3). destruct (HH _ _ _ H) as (y & Y1 & Y2). subst q. exists y. split; [exact Y1|]. split; [exact Y2|].
      destruct Y1 as (Y0 & _). destruct (items_plain x y Y2) as (L1 & L2). split.
      - unfold rstack in ST. rewrite L1, L2, N.eqb_refl in ST. destruct (cfollows_ids _ _ _ _ Y2) as (_ & _ & Nx & _). rewrite Nx, Q1, Q2 in ST. unfold ready.
        destruct (f_rec kc); destruct ST as [-> ->]; (split; [|split; [reflexivity|lia]]); destruct (f_multi kc); try reflexivity; destruct (Nat.ltb _ _); reflexivity.
      - rewrite Eb. unfold line, bol_at. destruct (f_bol kc); [|reflexivity]. replace (Nat.eqb (r_second r) (r_second r')) with false; [reflexivity|]. symmetry. apply Nat.eqb_neq. lia. }
    exists res'. assert (G : forall first r r' o', rlooks kc R inp (rhits_stop kc R inp) (rmisses kc R inp) first r r' o' -> ready inp r -> first = r_second r ->
      o' = None /\ ready inp r' /\ ireads 1 fl (npos kc) (skip_id kc) (f_bol kc) ys inp (r_bol r) (r_second r) (r_id r') (r_uid r') (r_first r') (r_second r') (r_bol r')).
    { induction 1 as [first r r' H1 H2|first r x r' H1 H2 H3 H4 H5 H6 H7|first r x r1 r' o' H1 H2 H3 H4 IH|first r x r1 r' o' H1 H2 H3 H4 H5 IH|first r c r' H1 H2 H3|first r x q r' H1 H2 H3 H4 H5]; intros RY EF.
      - subst r' first. cbn. split; [reflexivity|]. split; [exact RY|]. now apply id_end.
      - destruct (ET _ _ _ H2 RY) as (y & Y1 & Y2 & Y3 & Y4). split; [reflexivity|]. split; [exact Y3|]. destruct (cfollows_ids _ _ _ _ Y2) as (I1 & I2 & _).
        rewrite H5, H6, H7, EF, Y4, I1, I2. apply id_token; [exact Y1|congruence].
      - destruct (ET _ _ _ H2 RY) as (y & Y1 & Y2 & Y3 & Y4). destruct (IH Y3 eq_refl) as (A1 & A2 & A3). split; [exact A1|]. split; [exact A2|].
        destruct (cfollows_ids _ _ _ _ Y2) as (I1 & _). rewrite Y4 in A3. eapply id_skip; [exact Y1|congruence|exact A3].
      - exfalso. destruct (ET _ _ _ H2 RY) as (y & Y1 & Y2 & Y3 & Y4). destruct (items_plain x y Y2) as (L1 & _). destruct H4 as [H4|(_ & H4 & _)]; [|congruence].
        destruct Y1 as (_ & (j & Ej & _) & _). rewrite Forall_forall in Hy. pose proof (Hy y (nth_error_In _ _ Ej)) as OK. destruct (cfollows_ids _ _ _ _ Y2) as (I1 & _).
        change (gr_id x = 0) in H4. rewrite I1 in H4. destruct y as [y|c]; [destruct OK as [_ _ _ (I & _) _]|destruct OK as [_ _ _ _ _ _ (I & _)]]; now apply I.
      - subst r'. cbn. rewrite Adv. split; [reflexivity|]. destruct RY as (Q1 & Q2 & Q3). assert (LT : (r_second r < length inp)%nat) by (apply nth_error_Some; congruence).
        split; [split; [exact Q1|split; [exact Q2|cbn; lia]]|]. destruct H2 as (l & Hl & NN & _). rewrite (RO _ _ Hl) in NN. apply id_none; [exact H1|].
        rewrite <- Hbytes. exact (none_items k fl rs ys inp _ _ Hbytes LOW F NN).
      - exfalso. destruct (HH _ _ _ H2) as (y & _ & Y2). destruct (items_plain x y Y2) as (L1 & _). congruence. }
    destruct (G _ _ _ _ Q RD eq_refl) as (-> & A1 & A2). auto.
  Qed.
End Lexer.
