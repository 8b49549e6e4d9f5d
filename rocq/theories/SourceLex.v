(** Proofs: a text as described in SourceSpec.v is read as tokens that mean the same. *)
From Coq Require Import String Ascii.
From Verif Require Import Base StringToken StringTokenSpec StringTokenProofs SliceSpec RegexSpec Glushkov Grammar RuleSpec FoldData UnicodeData ReToken
  ReTokeniser ReTokeniserProofs ReTokeniserNext Parser Rules TokeniseSpec StripProofs SourceSpec SourceSets SourceEsc SourceClass SourceClass2 SourceLead SourceRep.
Local Open Scope N_scope.

(** ** Languages *)
Definition sem (b : N) (r : rx) (s : sx) : Prop := forall w, slang s w <-> clang r w /\ known b w.
Lemma known_nil b : known b [].
Proof. right. right. intros c []. Qed.
Lemma known_app b u v : known b (u ++ v) <-> known b u /\ known b v.
Proof.
  unfold known. split.
  - intros [H|[H|H]]; [tauto..|]. split; right; right; intros c I; apply H, in_or_app; auto.
  - intros [[H|[H|H]] [K|[K|K]]]; try tauto. right. right. intros c I. apply in_app_or in I. destruct I; auto.
Qed.
Lemma power_same b L M : (forall w, M w <-> L w /\ known b w) -> forall n w, power M n w <-> power L n w /\ known b w.
Proof.
  intros H. induction n as [|n IH]; intros w; cbn [power].
  - split; [intros ->; auto using known_nil|tauto].
  - split.
    + intros (u & v & -> & X & Y). apply H in X. apply IH in Y. rewrite known_app. split; [exists u, v; tauto|tauto].
    + intros ((u & v & -> & X & Y) & K). apply known_app in K. exists u, v. rewrite H, IH. tauto.
Qed.
Lemma sem_set b t P : den b t P -> sem b (XSet t) (SSet P).
Proof.
  intros [B D] w. apply built_wf in B. destruct B as [_ Bd]. cbn. split.
  - intros (c & H & ->). apply D in H. split; [exists c; split; [now left|reflexivity]|]. apply Bd in H. unfold max_char in H. unfold known.
    destruct (N.eqb_spec b 1); [auto|]. destruct (N.eqb_spec b 2); [auto|]. right. right. intros d [[= <-]|[]]. exact H.
  - intros ((c & H & ->) & K). exists c. split; [|reflexivity]. apply D. destruct H as [H|(L & lo & I & L2)]; [exact H|]. exfalso.
    destruct K as [K|[K|K]]; [..|specialize (K c (or_introl eq_refl)); lia].
    all: assert (M : mem 0x10ffff t) by (exists lo, 0x10ffff; split; [exact I|lia]); apply Bd in M; subst b; vm_compute in M; congruence.
Qed.
Lemma sem_cat b a x c y : sem b a x -> sem b c y -> sem b (XCat a c) (SCat x y).
Proof.
  intros H1 H2 w. cbn. split.
  - intros (u & v & -> & A & C). apply H1 in A. apply H2 in C. rewrite known_app. split; [exists u, v; tauto|tauto].
  - intros ((u & v & -> & A & C) & K). apply known_app in K. exists u, v. rewrite (H1 u), (H2 v). tauto.
Qed.
Lemma sem_alt b a x c y : sem b a x -> sem b c y -> sem b (XAlt a c) (SAlt x y).
Proof. intros H1 H2 w. cbn. specialize (H1 w). specialize (H2 w). tauto. Qed.
Lemma gram_seq_app r v : gram GSeq r v -> forall q u, gram GSeq q u -> exists x, gram GSeq x (u ++ v) /\ forall w, clang x w <-> clang (XCat q r) w.
Proof.
  remember GSeq as X. induction 1; try discriminate; intros q u' G.
  - exists (XCat q r). split; [now apply g_cat|reflexivity].
  - destruct (IHgram1 eq_refl q u' G) as (x & Gx & Lx). exists (XCat x b). split; [rewrite app_assoc; now apply g_cat|].
    intros w. cbn [clang]. split.
    + intros (w1 & w2 & -> & H1 & H2). apply Lx in H1. cbn [clang] in H1. destruct H1 as (w3 & w4 & -> & H3 & H4).
      exists w3, (w4 ++ w2). split; [now rewrite app_assoc|]. split; [exact H3|]. exists w4, w2. auto.
    + intros (w1 & w2 & -> & H1 & (w3 & w4 & -> & H3 & H4)). exists (w1 ++ w3), w4. split; [now rewrite app_assoc|]. split; [|exact H4].
      apply Lx. cbn [clang]. exists w1, w3. auto.
Qed.
Lemma gram_or_app r v : gram GRegex r v -> forall q u t, gram GRegex q u -> tk_type t = OR ->
  exists x, gram GRegex x (u ++ t :: v) /\ forall w, clang x w <-> clang (XAlt q r) w.
Proof.
  remember GRegex as X. induction 1; try discriminate; intros q u' t' G T.
  - exists (XAlt q r). split; [now apply g_or|reflexivity].
  - destruct (IHgram1 eq_refl q u' t' G T) as (x & Gx & Lx). exists (XAlt x b). split.
    + replace (u' ++ t' :: u ++ t :: v) with ((u' ++ t' :: u) ++ t :: v) by (rewrite <- app_assoc; reflexivity). now apply g_or.
    + intros w. cbn [clang]. rewrite Lx. cbn [clang]. tauto.
Qed.

(** ** States *)
(** One token: what next returns, or the result of a difference. The number counts
    calls of next. *)
Inductive reads (b : N) : nat -> rstate -> token -> rstate -> Prop :=
| rd_one s t s1 : (forall lhs, next b lhs s = Ok (t, s1)) -> reads b 1 s t s1
| rd_diff k s t s1 d s2 c t2 s3 t3 : reads b k s t s1 -> tk_type t = CHARSET -> next b CHARSET s1 = Ok (d, s2) -> tk_type d = DIFF ->
    nth_error (tk_extra d) 0 = Some c -> (forall lhs, next b lhs s2 = Ok (t2, s3)) -> tk_type t2 = CHARSET ->
    check_diff t t2 c = Ok t3 -> reads b (k + 2) s t3 s3.
(** What a macro is replaced by. *)
Definition grouped (u : list token) : list token := if Nat.ltb 1 (length u) then paren_open :: u ++ [paren_close] else u.
Definition inside (t : token) : Prop := tk_type t <> BOL /\ tk_type t <> EOL.
Inductive lexes (b : N) (ms : macros) : nat -> rstate -> list token -> rstate -> Prop :=
| lx_nil s : lexes b ms 0 s [] s
| lx_cons j k s t s1 ts s2 : reads b j s t s1 -> lexes b ms k s1 ts s2 -> lexes b ms (j + k) s (t :: ts) s2
| lx_macro k s t s1 u r ts s2 : (forall lhs, next b lhs s = Ok (t, s1)) -> tk_type t = MACRO -> macro_find (tk_extra t) ms = Some (between u) ->
    gram GRegex r u -> Forall inside u -> lexes b ms k s1 ts s2 -> lexes b ms (1 + k) s (grouped u ++ ts) s2.
Lemma lexes_app b ms j s ts s1 k us s2 : lexes b ms j s ts s1 -> lexes b ms k s1 us s2 -> lexes b ms (j + k) s (ts ++ us) s2.
Proof.
  induction 1 as [s|i j s t s0 ts s3 H H1 IH|j s t s0 u r ts s3 H T M N I H1 IH]; intros K; [exact K| |].
  - cbn. rewrite <- Nat.add_assoc. econstructor; eauto.
  - rewrite <- app_assoc, <- Nat.add_assoc. econstructor; eauto.
Qed.
Lemma lexes_reads b ms k s t s1 : reads b k s t s1 -> lexes b ms k s [t] s1.
Proof. intros H. rewrite <- (Nat.add_0_r k). econstructor; [exact H|constructor]. Qed.
Lemma lexes_one b ms s t s1 : (forall lhs, next b lhs s = Ok (t, s1)) -> lexes b ms 1 s [t] s1.
Proof. intros H. apply lexes_reads. now constructor. Qed.
Lemma lexes_cons b ms k s t s1 ts s2 : (forall lhs, next b lhs s = Ok (t, s1)) -> lexes b ms k s1 ts s2 -> lexes b ms (1 + k) s (t :: ts) s2.
Proof. intros H. apply lx_cons. now constructor. Qed.
(** Tokens that are sets or EOL. *)
Definition cset (t : token) : nat := if ttype_eqb (tk_type t) CHARSET || ttype_eqb (tk_type t) EOL then 1 else 0.
Definition csets (l : list token) : nat := list_sum (map cset l).
Lemma csets_app l m : csets (l ++ m) = (csets l + csets m)%nat.
Proof. unfold csets. now rewrite map_app, list_sum_app. Qed.
Lemma csets_cons t l : csets (t :: l) = (cset t + csets l)%nat.
Proof. reflexivity. Qed.
Lemma cset_le t : (cset t <= 1)%nat.
Proof. unfold cset. destruct (_ || _); lia. Qed.
Lemma dup_cset t f : dup t f -> cset t = 0%nat.
Proof. intros H. unfold cset. destruct H as [t H|t H|t H|t mn mx H _]; destruct H as [-> | ->]; reflexivity. Qed.
Lemma gram_single X r w : gram X r w -> length w = 1%nat -> gram GAtom r w.
Proof.
  induction 1 as [r w G IH|p q u v t G1 IH1 T G2 IH2|r w G IH|p q u v G1 IH1 G2 IH2|r w G IH|r w t f G IH D|t T|t T|t T|r w o c O G IH C]; intros L; auto.
  - apply gram_nonempty in G1. destruct u; [easy|]. cbn in L. rewrite app_length in L. cbn in L. lia.
  - apply gram_nonempty in G1, G2. destruct u, v; try easy. cbn in L. rewrite app_length in L. cbn in L. lia.
  - apply gram_nonempty in G. destruct w; [easy|]. cbn in L. rewrite app_length in L. cbn in L. lia.
  - now apply g_set.
  - now apply g_bol.
  - now apply g_eol.
  - cbn in L. rewrite app_length in L. cbn in L. lia.
Qed.
Lemma gram_grouped r u : gram GRegex r u -> gram GAtom r (grouped u).
Proof.
  intros G. unfold grouped. destruct (Nat.ltb_spec 1 (length u)) as [L|L]; [now apply g_paren|]. eapply gram_single; [exact G|].
  apply gram_nonempty in G. destruct u as [|t u]; [easy|]. cbn in *. lia.
Qed.

Record at_ (s : rstate) (sz : nat) (fl : N) (st : list N) (p : N) (R : list N) (str : bool) : Prop := {
  at_size : rs_size s = sz;
  at_flags : rs_flags s = fl;
  at_stack : rs_stack s = st;
  at_parens : rs_parens s = p;
  at_lead : leadl fl (rs_inp s) (rs_string s) = leadl fl R str
}.
Definition mk (R : list N) (sz : nat) (fl : N) (st : list N) (p : N) (str : bool) : rstate :=
  {| rs_inp := R; rs_size := sz; rs_flags := fl; rs_stack := st; rs_parens := p; rs_string := str |}.
Lemma at_mk R sz fl st p str : at_ (mk R sz fl st p str) sz fl st p R str.
Proof. constructor; reflexivity. Qed.
Lemma at_same s sz fl st p R str R' str' : at_ s sz fl st p R str -> leadl fl R str = leadl fl R' str' -> at_ s sz fl st p R' str'.
Proof. intros [? ? ? ? H] E. constructor; auto. now rewrite H. Qed.
Lemma next_at b lhs s sz fl st p R str c r str' : at_ s sz fl st p R str -> leadl fl R str = Ok (Some c, r, str') ->
  next b lhs s = on_char b lhs c (mk r sz fl st p str').
Proof. intros [<- <- <- <- H] E. rewrite next_lead, H, E. reflexivity. Qed.
Lemma next_end b lhs s sz fl st : at_ s sz fl st 0 [] false -> exists s', next b lhs s = Ok (tok END, s').
Proof. intros [<- <- <- Hp H]. rewrite next_lead, H. cbn [leadl bind]. rewrite Hp. eexists. reflexivity. Qed.

(** ** One token *)
Lemma meta_out c : ~ In c meta -> Forall (fun d => c <> d) meta.
Proof. intros H. apply Forall_forall. intros d Hd ->. auto. Qed.
Definition sized (sz : nat) (first : bool) (inp : list N) : Prop := if first then sz = length inp else (length inp < sz)%nat.
Ltac ne := match goal with |- context [if ?x =? ?y then _ else _] => rewrite (proj2 (N.eqb_neq x y)) by (assumption || discriminate) end.
Lemma eq_den b ic c : c <= max_char b -> den b (add_range b ic [] (c, c)) (cased b ic (eq c)).
Proof. intros H. eapply den_ext; [apply add_char_den; [apply den_nil|exact H]|]. intros d. cbv beta. tauto. Qed.
Lemma one_den b c : c <= max_char b -> den b (insert [] (c, c)) (eq c).
Proof. intros H. eapply den_ext; [apply den_insert; [apply den_nil|lia|exact H]|]. intros d. cbv beta. lia. Qed.
Lemma dot_den b fl : den b (dot_set b fl) (any_char b fl).
Proof.
  unfold dot_set, any_char. rewrite has_newline, has_cr_lf. pose proof (max_char_ge b). destruct (f_dot_not_newline fl); [|destruct (f_dot_not_cr_lf fl)].
  - eapply den_ext; [apply den_negate, one_den; lia|]. intros c. unfold outside. lia.
  - eapply den_ext; [apply den_negate, den_insert; [apply one_den; lia|lia|lia]|]. intros c. cbv beta. unfold outside. lia.
  - eapply den_ext; [apply den_negate, den_nil|]. intros c. unfold outside. tauto.
Qed.
Lemma escape_char b fl e c rest sz st p str : echar b rest e c -> small b e ->
  exists u, escape b (mk (e ++ rest) sz fl st p str) = Ok (u, rest) /\ den b u (cased b (f_icase fl) (eq c)).
Proof.
  intros H Sm. unfold escape. cbn [rs_inp rs_flags mk]. rewrite (echar_escape _ _ _ _ H). cbn [bind fst snd]. eexists. split; [reflexivity|].
  rewrite has_icase. apply eq_den. eapply echar_small; eauto.
Qed.
Lemma escape_class b fl e P rest sz st p str : eclass b (f_icase fl) e P ->
  exists u, escape b (mk (e ++ rest) sz fl st p str) = Ok (u, rest) /\ den b u P.
Proof.
  intros H. destruct (eclass_reads _ _ _ _ H) as (s & u & E1 & E2 & D). exists u. split; [|exact D].
  unfold escape. cbn [rs_inp rs_flags mk]. rewrite E1. cbn [bind fst snd]. rewrite has_icase, E2. reflexivity.
Qed.
Lemma back_start fl r : plain_start fl 92 r.
Proof. split; [discriminate|]. split; [discriminate|]. intros _. split; [unfold is_space; lia|discriminate]. Qed.

Lemma atom_token b fl first rest t P sz st p s : satom b fl first rest t P -> small b (t ++ rest) -> sized sz first (t ++ rest) ->
  at_ s sz fl st p (t ++ rest) false ->
  exists tk s', (forall lhs, next b lhs s = Ok (tk, s')) /\ tk_type tk = CHARSET /\ den b (tk_str tk) P /\ at_ s' sz fl st p rest false.
Proof.
  intros H Sm Sz A. destruct H as [c H1 H2|e c H1|e P H1| |t P H1|H1|H1].
  - apply meta_out in H1. vm_compute in H1. repeat (apply Forall_cons_iff in H1 as [? H1]).
    assert (PS : plain_start fl c rest) by (split; [assumption|split; [intros; contradiction|intros F; split; [auto|intros; contradiction]]]).
    eexists _, _. split; [intros lhs; rewrite (next_at b lhs _ _ _ _ _ _ _ _ _ _ A (lead_plain _ _ _ PS))|].
    { unfold on_char. cbn [rs_string mk]. destruct (N.eqb_spec c 41) as [->|]; [contradiction|]. repeat ne. reflexivity. }
    split; [reflexivity|]. split; [|apply at_mk]. cbn [t_set tk_str rs_flags mk]. rewrite has_icase. apply eq_den. now inversion Sm.
  - cbn [app] in *. inversion Sm as [|? ? _ Sm']; subst. apply small_app in Sm' as [Sm' _].
    destruct (escape_char b fl e c rest sz st p false H1 Sm') as (u & E & D).
    exists (t_set u), (mk rest sz fl st p false). split; [|split; [reflexivity|split; [exact D|apply at_mk]]].
    intros lhs. rewrite (next_at b lhs _ _ _ _ _ _ _ _ _ _ A (lead_plain _ _ _ (back_start fl _))). unfold on_char. change (92 =? 92) with true. cbv iota. rewrite E. reflexivity.
  - cbn [app] in *. destruct (escape_class b fl e P rest sz st p false H1) as (u & E & D).
    exists (t_set u), (mk rest sz fl st p false). split; [|split; [reflexivity|split; [exact D|apply at_mk]]].
    intros lhs. rewrite (next_at b lhs _ _ _ _ _ _ _ _ _ _ A (lead_plain _ _ _ (back_start fl _))). unfold on_char. change (92 =? 92) with true. cbv iota. rewrite E. reflexivity.
  - assert (PS : plain_start fl 46 rest) by (split; [discriminate|split; [discriminate|intros _; split; [unfold is_space; lia|discriminate]]]).
    eexists _, _. split; [intros lhs; rewrite (next_at b lhs _ _ _ _ _ _ _ _ _ _ A (lead_plain _ _ _ PS)); reflexivity|].
    split; [reflexivity|]. split; [apply dot_den|apply at_mk].
  - cbn [app] in *. assert (PS : plain_start fl 91 (t ++ rest)) by (split; [discriminate|split; [discriminate|intros _; split; [unfold is_space; lia|discriminate]]]).
    inversion Sm as [|? ? _ Sm']; subst. destruct (class_reads _ _ _ _ rest H1 Sm') as (u & E & D).
    exists (t_set u), (mk rest sz fl st p false). split; [|split; [reflexivity|split; [exact D|apply at_mk]]].
    intros lhs. rewrite (next_at b lhs _ _ _ _ _ _ _ _ _ _ A (lead_plain _ _ _ PS)). unfold on_char. cbn [rs_string mk]. repeat ne.
    change (91 =? 91) with true. cbv iota. cbn [rs_flags rs_inp mk]. rewrite has_icase, E. reflexivity.
  - subst first. cbn [sized] in Sz. cbn [app length] in *.
    assert (PS : plain_start fl 94 rest) by (split; [discriminate|split; [discriminate|intros _; split; [unfold is_space; lia|discriminate]]]).
    eexists _, _. split; [intros lhs; rewrite (next_at b lhs _ _ _ _ _ _ _ _ _ _ A (lead_plain _ _ _ PS))|].
    { unfold on_char. cbn [rs_string mk]. repeat ne. change (94 =? 94) with true. cbv iota. cbn [rs_size rs_inp mk].
      rewrite (proj2 (Nat.eqb_neq sz (S (length rest)))) by lia. reflexivity. }
    split; [reflexivity|]. split; [apply one_den; now inversion Sm|apply at_mk].
  - cbn [app] in *. assert (PS : plain_start fl 36 rest) by (split; [discriminate|split; [discriminate|intros _; split; [unfold is_space; lia|discriminate]]]).
    exists (t_set (insert [] (36, 36))), (mk rest sz fl st p false). split; [intros lhs; rewrite (next_at b lhs _ _ _ _ _ _ _ _ _ _ A (lead_plain _ _ _ PS))|].
    { unfold on_char. cbn [rs_string mk]. repeat ne. change (36 =? 36) with true. cbv iota. cbn [rs_inp mk].
      destruct rest as [|x rest]; [easy|]. reflexivity. }
    split; [reflexivity|]. split; [apply one_den; now inversion Sm|apply at_mk].
Qed.

Lemma den_remove b t P u Q : den b t P -> den b u Q -> exists v, remove t u = Ok v /\ den b v (fun c => P c /\ ~ Q c).
Proof.
  intros [B D] [B' D']. destruct (built_wf _ _ B) as [W _], (built_wf _ _ B') as [W' _]. destruct (remove_correct _ _ W W') as (v & E & _ & M).
  exists v. split; [exact E|]. split; [exact (built_remove _ _ _ _ B B' E)|]. intros c. rewrite M, D, D'. reflexivity.
Qed.
Lemma brace_start fl r : plain_start fl 123 r.
Proof. split; [discriminate|split; [discriminate|intros _; split; [unfold is_space; lia|discriminate]]]. Qed.
Lemma diff_token b c rest sz fl st p s : c = 45 \/ c = 43 -> at_ s sz fl st p (123 :: c :: 125 :: rest) false ->
  next b CHARSET s = Ok (t_of DIFF [c], mk rest sz fl st p false).
Proof.
  intros C A. rewrite (next_at b CHARSET _ _ _ _ _ _ _ _ _ _ A (lead_plain _ _ _ (brace_start fl _))). unfold on_char. cbn [rs_string mk]. repeat ne.
  change (123 =? 123) with true. cbv iota. cbn [rs_inp mk]. destruct C as [-> | ->]; reflexivity.
Qed.
Lemma sized_cut sz first t r : sized sz first (t ++ r) -> t <> [] -> sized sz false r.
Proof. unfold sized. intros H N. destruct t; [easy|]. destruct first; cbn [app length] in H; rewrite app_length in H; lia. Qed.
Lemma satom_len b fl first rest t P : satom b fl first rest t P -> (1 <= length t)%nat.
Proof. intros H. destruct H; cbn [length]; lia. Qed.
Lemma aset_len b fl first rest t P : aset b fl first rest t P -> (1 <= length t)%nat.
Proof. induction 1 as [first rest t P H|first rest t P u Q H IH K N|first rest t P u Q H IH K]; [eapply satom_len; eauto|rewrite app_length; lia..]. Qed.
Lemma set_token b fl first rest t P sz st p s : aset b fl first rest t P -> small b (t ++ rest) -> sized sz first (t ++ rest) ->
  at_ s sz fl st p (t ++ rest) false ->
  exists k tk s', reads b k s tk s' /\ (k <= length t)%nat /\ tk_type tk = CHARSET /\ den b (tk_str tk) P /\ at_ s' sz fl st p rest false.
Proof.
  intros H. revert s. induction H as [first rest t P H|first rest t P u Q H IH K (c & C)|first rest t P u Q H IH K]; intros s Sm Sz A.
  - destruct (atom_token _ _ _ _ _ _ _ _ _ _ H Sm Sz A) as (tk & s' & E & R). exists 1%nat, tk, s'. split; [now constructor|]. split; [eapply satom_len; eauto|exact R].
  - rewrite <- app_assoc in Sm, Sz, A. cbn [app] in Sm, Sz, A. destruct (IH s Sm Sz A) as (k & tk & s' & R & L & T & D & A'). clear IH.
    pose proof (diff_token b 45 _ _ _ _ _ _ (or_introl eq_refl) A') as E1.
    apply small_app in Sm as [_ Sm]. do 3 (apply Forall_cons_iff in Sm as [_ Sm]).
    destruct (atom_token b fl false rest u Q sz st p (mk (u ++ rest) sz fl st p false) K Sm) as (t2 & s2 & E2 & T2 & D2 & A2); [|apply at_mk|].
    { apply (sized_cut sz first (t ++ [123; 45; 125])); [rewrite <- app_assoc; exact Sz|destruct t; discriminate]. }
    destruct (den_remove _ _ _ _ _ D D2) as (v & Ev & Dv). assert (NV : v <> []) by (intros ->; apply (proj2 Dv c) in C; now apply mem_nil in C).
    exists (k + 2)%nat, {| tk_type := CHARSET; tk_extra := tk_extra tk; tk_str := v |}, s2. split; [|split; [rewrite app_length; cbn [length]; lia|split; [reflexivity|split; [exact Dv|exact A2]]]].
    eapply rd_diff; [exact R|exact T|exact E1|reflexivity|reflexivity|exact E2|exact T2|].
    unfold check_diff, is_type. rewrite T2. change (ttype_eqb CHARSET CHARSET) with true. cbv iota. change (45 =? 45) with true. cbv iota. rewrite Ev. cbn [bind]. destruct v; [easy|]. now rewrite T.
  - rewrite <- app_assoc in Sm, Sz, A. cbn [app] in Sm, Sz, A. destruct (IH s Sm Sz A) as (k & tk & s' & R & L & T & D & A'). clear IH.
    pose proof (diff_token b 43 _ _ _ _ _ _ (or_intror eq_refl) A') as E1.
    apply small_app in Sm as [_ Sm]. do 3 (apply Forall_cons_iff in Sm as [_ Sm]).
    destruct (atom_token b fl false rest u Q sz st p (mk (u ++ rest) sz fl st p false) K Sm) as (t2 & s2 & E2 & T2 & D2 & A2); [|apply at_mk|].
    { apply (sized_cut sz first (t ++ [123; 43; 125])); [rewrite <- app_assoc; exact Sz|destruct t; discriminate]. }
    exists (k + 2)%nat, {| tk_type := CHARSET; tk_extra := tk_extra tk; tk_str := insert_token (tk_str tk) (tk_str t2) |}, s2.
    split; [|split; [rewrite app_length; cbn [length]; lia|split; [reflexivity|split; [exact (den_union _ _ _ _ _ D D2)|exact A2]]]].
    eapply rd_diff; [exact R|exact T|exact E1|reflexivity|reflexivity|exact E2|exact T2|].
    unfold check_diff, is_type. rewrite T2. change (ttype_eqb CHARSET CHARSET) with true. cbv iota. change (43 =? 45) with false. cbv iota. now rewrite T.
Qed.
(** ** Macros *)
(** The vector of a macro means what the macro means. *)
Definition mtable (b : N) (E : menv) (ms : macros) : Prop := forall name s, In (name, s) E ->
  exists u r, macro_find name ms = Some (between u) /\ gram GRegex r u /\ sem b r s /\ Forall (fun t => is_lazy_type (tk_type t) = false) u /\ Forall inside u /\ (csets u <= leaves s)%nat.
Lemma is_name_chars n : is_name n <-> exists c r, n = c :: r /\ name_first c = true /\ forallb name_char r = true.
Proof.
  unfold is_name. split; intros (c & r & E & H1 & H2); exists c, r; (split; [exact E|]).
  - split.
    + unfold name_first, is_alpha, upper, lower in *. apply orb_true_iff. rewrite N.eqb_eq. repeat (rewrite ?orb_true_iff, ?andb_true_iff, ?N.leb_le). lia.
    + apply forallb_forall. intros d Hd. rewrite Forall_forall in H2. specialize (H2 d Hd). unfold name_char, is_alpha, is_digit, is_word, is_dec, upper, lower in *.
      repeat (rewrite ?orb_true_iff, ?andb_true_iff, ?N.leb_le, ?N.eqb_eq). lia.
  - split.
    + unfold name_first, is_alpha, upper, lower in *. repeat (rewrite ?orb_true_iff, ?andb_true_iff, ?N.leb_le, ?N.eqb_eq in H1). lia.
    + apply Forall_forall. intros d Hd. rewrite forallb_forall in H2. specialize (H2 d Hd). unfold name_char, is_alpha, is_digit, is_word, is_dec, upper, lower in *.
      repeat (rewrite ?orb_true_iff, ?andb_true_iff, ?N.leb_le, ?N.eqb_eq in H2). lia.
Qed.
Lemma name_chars_read r rest : forallb name_char r = true -> name_chars (r ++ 125 :: rest) = (r, 125 :: rest).
Proof. induction r as [|c r IH]; intros H; [reflexivity|]. cbn in H. apply andb_true_iff in H as [H1 H2]. cbn. rewrite H1, IH by exact H2. reflexivity. Qed.
Lemma macro_token b lhs name rest sz fl st p s : is_name name -> at_ s sz fl st p (123 :: name ++ 125 :: rest) false ->
  next b lhs s = Ok (t_of MACRO name, mk rest sz fl st p false).
Proof.
  intros Nm A. rewrite (next_at b lhs _ _ _ _ _ _ _ _ _ _ A (lead_plain _ _ _ (brace_start fl _))). unfold on_char. cbn [rs_string mk]. repeat ne.
  change (123 =? 123) with true. cbv iota. cbn [rs_inp mk]. pose proof Nm as Nm'. destruct Nm' as (c' & r' & E' & C' & _). apply is_name_chars in Nm. destruct Nm as (c & r & -> & C & F).
  injection E' as <- <-. cbn [app]. unfold open_curly. unfold upper, lower in C'. rewrite (proj2 (N.eqb_neq c 45)), (proj2 (N.eqb_neq c 43)) by lia. cbn [orb].
  replace (is_digit c) with false. 2:{ symmetry. destruct (is_digit c) eqn:D; [|reflexivity]. apply is_digit_iff in D. unfold digit in D. lia. }
  unfold macro. rewrite C, (name_chars_read _ _ F). reflexivity.
Qed.

Lemma qchar_token b fl rest t P sz st p s : qchar b fl rest t P -> small b t -> at_ s sz fl st p (t ++ rest) true ->
  exists tk s', (forall lhs, next b lhs s = Ok (tk, s')) /\ tk_type tk = CHARSET /\ den b (tk_str tk) P /\ at_ s' sz fl st p rest true.
Proof.
  intros H Sm A. destruct H as [c H1 H2|e c H1|e P H1]; cbn [app] in *.
  - eexists _, _. split; [intros lhs; rewrite (next_at b lhs _ _ _ _ _ _ _ _ _ _ A (lead_in_string fl c rest H1))|].
    { unfold on_char. cbn [rs_string mk]. repeat ne. reflexivity. }
    split; [reflexivity|]. split; [|apply at_mk]. cbn [t_set tk_str rs_flags mk]. rewrite has_icase. apply eq_den. now inversion Sm.
  - inversion Sm as [|? ? _ Sm']; subst.
    destruct (escape_char b fl e c rest sz st p true H1 Sm') as (u & E & D).
    exists (t_set u), (mk rest sz fl st p true). split; [|split; [reflexivity|split; [exact D|apply at_mk]]].
    intros lhs. rewrite (next_at b lhs _ _ _ _ _ _ _ _ _ _ A (lead_in_string fl 92 (e ++ rest) ltac:(discriminate))). unfold on_char. change (92 =? 92) with true. cbv iota. rewrite E. reflexivity.
  - destruct (escape_class b fl e P rest sz st p true H1) as (u & E & D).
    exists (t_set u), (mk rest sz fl st p true). split; [|split; [reflexivity|split; [exact D|apply at_mk]]].
    intros lhs. rewrite (next_at b lhs _ _ _ _ _ _ _ _ _ _ A (lead_in_string fl 92 (e ++ rest) ltac:(discriminate))). unfold on_char. change (92 =? 92) with true. cbv iota. rewrite E. reflexivity.
Qed.

Lemma sem_bol b : sem b XBol SBol.
Proof. intros w. cbn. split; [intros ->; split; [reflexivity|right; right; intros c [H|[]]; discriminate]|tauto]. Qed.
Lemma sem_eol b : sem b XEol SEol.
Proof. intros w. cbn. split; [intros ->; split; [reflexivity|right; right; intros c [H|[]]; discriminate]|tauto]. Qed.

(** ** Operators and options *)
Definition eager (t : token) : Prop := is_lazy_type (tk_type t) = false.
Lemma postfix_token b fl o f rest sz st p s : postfix o f -> ~ begins (eq 63) rest -> at_ s sz fl st p (o ++ rest) false ->
  exists tk s', (forall lhs, next b lhs s = Ok (tk, s')) /\ eager tk /\
    (exists g, dup tk g /\ forall r q, sem b r q -> sem b (g r) (f q)) /\ at_ s' sz fl st p rest false.
Proof.
  intros H N A.
  assert (PS : forall c r, c = 63 \/ c = 42 \/ c = 43 \/ c = 123 -> plain_start fl c r).
  { intros c r C. split; [lia|]. split; [lia|]. intros _. split; [unfold is_space; lia|lia]. }
  assert (LZ : forall e a, lazy e a rest = (e, rest)) by (intros e a; unfold lazy; rewrite peek_isnt by (auto; discriminate); reflexivity).
  destruct H as [| | |ds mn mx C L1 L2]; cbn [app] in A.
  - exists (tok OPT), (mk rest sz fl st p false). split.
    { intros lhs. rewrite (next_at b lhs _ _ _ _ _ _ _ _ _ _ A (lead_plain _ _ _ (PS 63 rest ltac:(auto)))). unfold on_char. cbn [rs_string mk]. repeat ne.
      change (63 =? 63) with true. cbv iota. cbn [rs_inp mk]. rewrite LZ. reflexivity. }
    split; [reflexivity|]. split; [|apply at_mk]. exists XOpt. split; [apply dp_opt; auto|]. intros r q H w. cbn. specialize (H w). pose proof (known_nil b) as KN. split; [intros [->|X]; tauto|tauto].
  - exists (tok ZEROORMORE), (mk rest sz fl st p false). split.
    { intros lhs. rewrite (next_at b lhs _ _ _ _ _ _ _ _ _ _ A (lead_plain _ _ _ (PS 42 rest ltac:(auto)))). unfold on_char. cbn [rs_string mk]. repeat ne.
      change (42 =? 42) with true. cbv iota. cbn [rs_inp mk]. rewrite LZ. reflexivity. }
    split; [reflexivity|]. split; [|apply at_mk]. exists XStar. split; [apply dp_star; auto|]. intros r q H w. cbn.
    split; [intros (n & K); apply (power_same b (clang r) (slang q) H) in K; destruct K; eauto|]. intros ((n & K) & J). exists n. apply (power_same b (clang r) (slang q) H). auto.
  - exists (tok ONEORMORE), (mk rest sz fl st p false). split.
    { intros lhs. rewrite (next_at b lhs _ _ _ _ _ _ _ _ _ _ A (lead_plain _ _ _ (PS 43 rest ltac:(auto)))). unfold on_char. cbn [rs_string mk]. repeat ne.
      change (43 =? 43) with true. cbv iota. cbn [rs_inp mk]. rewrite LZ. reflexivity. }
    split; [reflexivity|]. split; [|apply at_mk]. exists XPlus. split; [apply dp_plus; auto|]. intros r q H w. cbn.
    split; [intros (n & J & K); apply (power_same b (clang r) (slang q) H) in K; destruct K; eauto|]. intros ((n & J & K) & I). exists n. split; [exact J|]. apply (power_same b (clang r) (slang q) H). auto.
  - assert (V : sound_counts mn mx) by (destruct mx; cbn [sound_counts]; tauto).
    assert (L3 : match mx with Some m => m < 2 ^ 64 | None => True end) by (destruct mx; tauto).
    destruct (repeat_n_reads ds mn mx C V L1 L3) as (e & a & extra & I & X & Y).
    assert (D : exists c ds', ds = c :: ds' /\ digit c).
    { destruct C as [ds n D|ds n D|ds n ds' n' D _]; destruct (decimal_head _ _ D) as (c & es & -> & Hc); cbn [app]; eauto. }
    destruct D as (c & ds' & -> & Hc). unfold digit in Hc.
    exists (t_of e extra), (mk rest sz fl st p false). split.
    { intros lhs. rewrite <- app_assoc in A. cbn [app] in A.
      rewrite (next_at b lhs _ _ _ _ _ _ _ _ _ _ A (lead_plain _ _ _ (PS 123 _ ltac:(auto)))). unfold on_char. cbn [rs_string mk]. repeat ne.
      change (123 =? 123) with true. cbv iota. cbn [rs_inp mk]. unfold open_curly. rewrite (proj2 (N.eqb_neq c 45)), (proj2 (N.eqb_neq c 43)) by lia. cbn [orb].
      rewrite (proj2 (is_digit_iff c)) by exact Hc. specialize (X rest). cbn [app] in X. rewrite X, LZ. reflexivity. }
    split. { unfold eager. cbn [t_of tk_type]. cbn in I. destruct I as [[= <- <-]|[[= <- <-]|[[= <- <-]|[[= <- <-]|[]]]]]; reflexivity. }
    split; [|apply at_mk]. destruct (Y (t_of e extra) ltac:(auto) eq_refl) as (g & G1 & G2). exists g. split; [exact G1|].
    intros r q H w. rewrite G2. cbn [slang].
    split.
    + intros (n & K1 & K2 & K3). apply (power_same b (clang r) (slang q) H) in K3. destruct K3. split; [exists n|]; auto.
    + intros ((n & K1 & K2 & K3) & K4). exists n. split; [exact K1|]. split; [exact K2|]. apply (power_same b (clang r) (slang q) H). auto.
Qed.
Lemma options_read fl o fl' r : options_ fl o fl' -> options false fl (o ++ 58 :: r) = Ok (fl', r).
Proof. induction 1; cbn [app]; [reflexivity|..]; rewrite <- IHoptions_; reflexivity. Qed.
Lemma options_head fl o fl' r : options_ fl o fl' -> forall t, o ++ 58 :: r <> 35 :: t.
Proof. intros H t. destruct H; discriminate. Qed.

(** ** No regular expression begins with a question mark *)
Lemma quoted_ne b fl rest t s : quoted b fl rest t s -> t <> [].
Proof. intros H. destruct H as [rest t P H|rest t P u s H _]; destruct H; discriminate. Qed.
Lemma src_head b E fl first X rest t s : src b E fl first X rest t s -> exists c t', t = c :: t' /\ c <> 63.
Proof.
  induction 1; eauto; try (eexists _, _; split; [reflexivity|discriminate]).
  - assert (K : forall first rest t P, satom b fl first rest t P -> exists c t', t = c :: t' /\ c <> 63).
    { intros first0 rest0 t0 P0 H0. destruct H0; try (eexists _, _; split; [reflexivity|discriminate]).
      eexists _, _. split; [reflexivity|]. intros ->. apply H0. vm_compute. auto 15. }
    induction H as [first rest t P H|first rest t P u Q H IH K1 N|first rest t P u Q H IH K1]; [eauto|..]; destruct IH as (c & t' & -> & NE); eexists _, _; (split; [reflexivity|exact NE]).
  - destruct IHsrc as (c & t' & -> & N). eexists _, _. split; [reflexivity|exact N].
  - destruct IHsrc1 as (c & t' & -> & N). eexists _, _. split; [reflexivity|exact N].
  - destruct IHsrc1 as (c & t' & -> & N). eexists _, _. split; [reflexivity|exact N].
  - destruct H; try (eexists _, _; split; [reflexivity|discriminate]).
    eexists _, _. split; [reflexivity|]. unfold is_space in *. lia.
  - destruct IHsrc as (c & t' & -> & N). eexists _, _. split; [reflexivity|exact N].
Qed.

(** ** All texts *)
Definition lexed (b : N) (ms : macros) (s0 : rstate) (sz : nat) (fl : N) (st : list N) (p : N) (rest : list N) (str : bool) (X : nt) (q : sx) (n : nat) : Prop :=
  exists k ts s' r, lexes b ms k s0 ts s' /\ at_ s' sz fl st p rest str /\ gram X r ts /\ sem b r q /\ Forall eager ts /\ (k <= n /\ csets ts <= leaves q)%nat.
Lemma qchar_len b fl rest t P : qchar b fl rest t P -> (1 <= length t)%nat.
Proof. intros H. destruct H; cbn [length]; lia. Qed.
Lemma postfix_leaves o f : postfix o f -> forall q, leaves (f q) = leaves q.
Proof. intros H q. destruct H; reflexivity. Qed.
Lemma postfix_len o f : postfix o f -> (1 <= length o)%nat.
Proof. intros H. destruct H; cbn [length]; lia. Qed.
Ltac few :=
  repeat match goal with
  | H : Forall eager _ /\ _ |- _ => destruct H
  | H : (_ <= _)%nat /\ _ |- _ => destruct H
  | H : qchar _ _ _ _ _ |- _ => apply qchar_len in H
  | H : aset _ _ _ _ _ _ |- _ => apply aset_len in H
  | H : postfix _ _ |- _ => pose proof (postfix_leaves _ _ H); apply postfix_len in H
  | H : dup _ _ |- _ => apply dup_cset in H
  end;
  split;
  [ repeat first [assumption | apply Forall_nil | apply Forall_cons | apply Forall_app; split | reflexivity
                 | unfold eager; match goal with H : tk_type _ = CHARSET |- _ => rewrite H; reflexivity end]
  | split;
    [ repeat (rewrite ?app_length in *; cbn [length app] in * ); lia
    | cbn [leaves]; repeat match goal with H : forall q, leaves _ = leaves q |- _ => rewrite H; clear H end; cbn [leaves];
      repeat (rewrite ?csets_app, ?csets_cons; cbn [app]); change (csets []) with 0%nat;
      repeat match goal with |- context [cset (tok ?x)] => first [change (cset (tok x)) with 0%nat | change (cset (tok x)) with 1%nat] end;
      repeat match goal with |- context [cset ?t] => lazymatch goal with _ : (cset t <= 1)%nat |- _ => fail | _ => pose proof (cset_le t) end end; lia ]].
Lemma quoted_lexes b ms fl rest t q : quoted b fl rest t q -> forall s sz st p, small b t -> at_ s sz fl st p (t ++ rest) true ->
  lexed b ms s sz fl st p rest true GSeq q (length t).
Proof.
  induction 1 as [rest t P H|rest t P u q H K IH]; intros s sz st p Sm A.
  - destruct (qchar_token _ _ _ _ _ _ _ _ _ H Sm A) as (tk & s' & E & T & D & A'). exists 1%nat, [tk], s', (XSet (tk_str tk)).
    split; [now apply lexes_one|]. split; [exact A'|]. split; [now apply g_seq, g_expr, g_set|]. split; [eapply sem_set; eauto|].
    few.
  - apply small_app in Sm as [S1 S2]. rewrite <- app_assoc in A.
    destruct (qchar_token _ _ _ _ _ _ _ _ _ H S1 A) as (tk & s' & E & T & D & A').
    destruct (IH s' sz st p S2 A') as (k1 & ts & s'' & r & L & A'' & G & M & F).
    destruct (gram_seq_app r ts G (XSet (tk_str tk)) [tk]) as (x & Gx & Lx); [now apply g_seq, g_expr, g_set|].
    exists (1 + k1)%nat, (tk :: ts), s'', x. split; [eapply lexes_cons; eauto|]. split; [exact A''|]. split; [exact Gx|].
    split; [intros w; rewrite Lx; now apply (sem_cat b _ (SSet P) _ q); [eapply sem_set; eauto|]|].
    few.
Qed.
Lemma postfix_ne o f : postfix o f -> o <> [].
Proof. intros H. destruct H; discriminate. Qed.
Lemma sem_of b x q c : (forall w, clang x w <-> clang c w) -> sem b c q -> sem b x q.
Proof. intros H K w. rewrite H. apply K. Qed.

Theorem src_lexes b en ms fl first X rest t q : mtable b en ms -> src b en fl first X rest t q -> forall s sz st p,
  small b (t ++ rest) -> sized sz first (t ++ rest) -> at_ s sz fl st p (t ++ rest) false -> lexed b ms s sz fl st p rest false X q (length t).
Proof.
  intros MT. induction 1 as [fl first rest t P H|fl rest|fl first|fl first rest t q H IH|fl first rest o fl' t q O H IH|fl first rest name q NM IE
    |fl first rest t q H IH|fl first rest t q o f H IH O N|fl first rest t q H IH
    |fl first rest t q H|fl first rest u P o f H O N|fl first rest t q u P o f H K O N
    |fl first rest t q u v H1 IH1 H2 IH2|fl first rest t q H IH|fl first rest t q u v H1 IH1 H2 IH2
    |fl first X rest d t q D H IH|fl first X rest t q d H IH D]; intros s sz st p Sm Sz A.
  - destruct (set_token _ _ _ _ _ _ _ _ _ _ H Sm Sz A) as (k1 & tk & s' & RD & LE & T & Dn & A'). exists k1, [tk], s', (XSet (tk_str tk)).
    split; [now apply lexes_reads|]. split; [exact A'|]. split; [now apply g_set|]. split; [eapply sem_set; eauto|].
    few.
  - assert (PS : plain_start fl 94 rest) by (split; [discriminate|split; [discriminate|intros _; split; [unfold is_space; lia|discriminate]]]).
    exists 1%nat, [tok BOL], (mk rest sz fl st p false), XBol. split.
    { apply lexes_one. intros lhs. rewrite (next_at b lhs _ _ _ _ _ _ _ _ _ _ A (lead_plain _ _ _ PS)). unfold on_char. cbn [rs_string mk]. repeat ne.
      change (94 =? 94) with true. cbv iota. cbn [rs_size rs_inp mk]. cbn [sized app length] in Sz. rewrite Sz, Nat.eqb_refl. reflexivity. }
    split; [apply at_mk|]. split; [now apply g_bol|]. split; [apply sem_bol|]. few.
  - assert (PS : plain_start fl 36 []) by (split; [discriminate|split; [discriminate|intros _; split; [unfold is_space; lia|discriminate]]]).
    exists 1%nat, [tok EOL], (mk [] sz fl st p false), XEol. split.
    { apply lexes_one. intros lhs. rewrite (next_at b lhs _ _ _ _ _ _ _ _ _ _ A (lead_plain _ _ _ PS)). reflexivity. }
    split; [apply at_mk|]. split; [now apply g_eol|]. split; [apply sem_eol|]. few.
  - (* a group *)
    destruct (src_head _ _ _ _ _ _ _ _ H) as (c & t' & E & C). cbn [app] in A, Sm, Sz. rewrite <- app_assoc in A, Sm, Sz. cbn [app] in A, Sm, Sz.
    assert (PS : plain_start fl 40 (t ++ 41 :: rest)).
    { split; [discriminate|]. split; [intros _ z; rewrite E; cbn [app]; congruence|]. intros _. split; [unfold is_space; lia|discriminate]. }
    set (s1 := mk (t ++ 41 :: rest) sz fl (match st with [] => [] | _ => fl :: st end) (p + 1) false).
    assert (N1 : forall lhs, next b lhs s = Ok (tok OPENPAREN, s1)).
    { intros lhs. rewrite (next_at b lhs _ _ _ _ _ _ _ _ _ _ A (lead_plain _ _ _ PS)). unfold on_char. cbn [rs_string mk]. repeat ne.
      change (40 =? 40) with true. cbv iota. cbn [rs_inp mk]. unfold read_options. cbn [rs_inp].
      replace (peek (t ++ 41 :: rest) =? 63) with false by (symmetry; apply N.eqb_neq; rewrite E; cbn; exact C). unfold s1. destruct st; reflexivity. }
    inversion Sm as [|? ? _ Sm1]; subst.
    destruct (IH s1 sz (match st with [] => [] | _ => fl :: st end) (p + 1) Sm1) as (k1 & ts & s2 & r & L & A2 & G & M & F).
    { apply (sized_cut sz first [40]); [exact Sz|discriminate]. } { apply at_mk. }
    assert (PC : plain_start fl 41 rest) by (split; [discriminate|split; [discriminate|intros _; split; [unfold is_space; lia|discriminate]]]).
    exists (1 + (k1 + 1))%nat, (tok OPENPAREN :: ts ++ [tok CLOSEPAREN]), (mk rest sz fl st p false), r. split.
    { eapply lexes_cons; [exact N1|]. eapply lexes_app; [exact L|]. apply lexes_one. intros lhs.
      rewrite (next_at b lhs _ _ _ _ _ _ _ _ _ _ A2 (lead_plain _ _ _ PC)). unfold on_char. cbn [rs_string mk]. repeat ne.
      change (41 =? 41) with true. cbv iota. cbn [rs_parens rs_stack mk]. rewrite (proj2 (N.eqb_neq (p + 1) 0)) by lia.
      replace (p + 1 - 1) with p by lia. destruct st; reflexivity. }
    split; [apply at_mk|]. split; [now apply g_paren|]. split; [exact M|]. few.
  - (* options *)
    cbn [app] in A, Sm, Sz. rewrite <- app_assoc in A, Sm, Sz. cbn [app] in A, Sm, Sz. rewrite <- app_assoc in A, Sm, Sz. cbn [app] in A, Sm, Sz.
    assert (PS : plain_start fl 40 (63 :: o ++ 58 :: t ++ 41 :: rest)).
    { split; [discriminate|]. split; [intros _ z E; injection E as E; revert E; eapply options_head; eauto|]. intros _. split; [unfold is_space; lia|discriminate]. }
    set (s1 := mk (t ++ 41 :: rest) sz fl' (fl :: st) (p + 1) false).
    assert (N1 : forall lhs, next b lhs s = Ok (tok OPENPAREN, s1)).
    { intros lhs. rewrite (next_at b lhs _ _ _ _ _ _ _ _ _ _ A (lead_plain _ _ _ PS)). unfold on_char. cbn [rs_string mk]. repeat ne.
      change (40 =? 40) with true. cbv iota. cbn [rs_inp mk]. unfold read_options. cbn [rs_inp peek hd tl rs_flags mk]. change (63 =? 63) with true. cbv iota.
      rewrite (options_read _ _ _ _ O). reflexivity. }
    assert (Sm1 : small b (t ++ 41 :: rest)).
    { inversion Sm as [|? ? _ Sm1]; subst. inversion Sm1 as [|? ? _ Sm2]; subst. apply small_app in Sm2 as [_ Sm2]. now inversion Sm2. }
    destruct (IH s1 sz (fl :: st) (p + 1) Sm1) as (k1 & ts & s2 & r & L & A2 & G & M & F).
    { apply (sized_cut sz first (40 :: 63 :: o ++ [58])); [|discriminate]. cbn [app]. rewrite <- app_assoc. exact Sz. } { apply at_mk. }
    assert (PC : plain_start fl' 41 rest) by (split; [discriminate|split; [discriminate|intros _; split; [unfold is_space; lia|discriminate]]]).
    exists (1 + (k1 + 1))%nat, (tok OPENPAREN :: ts ++ [tok CLOSEPAREN]), (mk rest sz fl st p false), r. split.
    { eapply lexes_cons; [exact N1|]. eapply lexes_app; [exact L|]. apply lexes_one. intros lhs.
      rewrite (next_at b lhs _ _ _ _ _ _ _ _ _ _ A2 (lead_plain _ _ _ PC)). unfold on_char. cbn [rs_string mk]. repeat ne.
      change (41 =? 41) with true. cbv iota. cbn [rs_parens rs_stack mk]. rewrite (proj2 (N.eqb_neq (p + 1) 0)) by lia.
      replace (p + 1 - 1) with p by lia. reflexivity. }
    split; [apply at_mk|]. split; [now apply g_paren|]. split; [exact M|]. few.
  - (* a macro *)
    cbn [app] in A. rewrite <- app_assoc in A. cbn [app] in A. destruct (MT _ _ IE) as (u & r & FD & G & M & EG & INS & CS).
    exists (1 + 0)%nat, (grouped u ++ []), (mk rest sz fl st p false), r. split.
    { eapply lx_macro; [intros lhs; exact (macro_token b lhs _ _ _ _ _ _ _ NM A)|reflexivity|exact FD|exact G|exact INS|constructor]. }
    split; [apply at_mk|]. rewrite app_nil_r. split; [now apply gram_grouped|]. split; [exact M|]. split; [|split].
    + unfold grouped. destruct (Nat.ltb _ _); [|exact EG]. constructor; [reflexivity|]. apply Forall_app. split; [exact EG|]. now repeat constructor.
    + cbn [length]. lia.
    + unfold grouped. destruct (Nat.ltb _ _); [|exact CS]. rewrite csets_cons, csets_app. cbn. lia.
  - destruct (IH s sz st p Sm Sz A) as (k1 & ts & s' & r & L & A' & G & M & F). exists k1, ts, s', r. split; [exact L|]. split; [exact A'|]. split; [now apply g_expr|]. auto.
  - rewrite <- app_assoc in *. destruct (IH s sz st p Sm Sz A) as (k1 & ts & s' & r & L & A' & G & M & F).
    destruct (postfix_token b fl o f rest sz st p s' O N A') as (tk & s2 & E & EG & (g & G1 & G2) & A2).
    exists (k1 + 1)%nat, (ts ++ [tk]), s2, (g r). split; [eapply lexes_app; [exact L|now apply lexes_one]|]. split; [exact A2|]. split; [now apply g_dup|]. split; [now apply G2|].
    few.
  - destruct (IH s sz st p Sm Sz A) as (k1 & ts & s' & r & L & A' & G & M & F). exists k1, ts, s', r. split; [exact L|]. split; [exact A'|]. split; [now apply g_seq|]. auto.
  - (* a string *)
    cbn [app] in A, Sm. rewrite <- app_assoc in A, Sm. cbn [app] in A, Sm. pose proof (at_same _ _ _ _ _ _ _ _ _ A (lead_quote fl _ _)) as A1. cbn [negb] in A1.
    inversion Sm as [|? ? _ Sm1]; subst. apply small_app in Sm1 as [Sm1 _].
    destruct (quoted_lexes _ ms _ _ _ _ H s sz st p Sm1 A1) as (k1 & ts & s' & r & L & A' & G & M & F). exists k1, ts, s', r. split; [exact L|].
    split; [exact (at_same _ _ _ _ _ _ _ _ _ A' (lead_quote fl _ _))|]. split; [exact G|]. split; [exact M|]. few.
  - cbn [app] in A, Sm. rewrite <- app_assoc in A, Sm. cbn [app] in A, Sm. pose proof (at_same _ _ _ _ _ _ _ _ _ A (lead_quote fl _ _)) as A1. cbn [negb] in A1.
    inversion Sm as [|? ? _ Sm1]; subst. apply small_app in Sm1 as [Sm1 _].
    destruct (qchar_token _ _ _ _ _ _ _ _ _ H Sm1 A1) as (tk & s' & E & T & Dn & A'). apply (at_same _ _ _ _ _ _ _ (o ++ rest) false) in A'; [|apply lead_quote].
    destruct (postfix_token b fl o f rest sz st p s' O N A') as (tk2 & s2 & E2 & EG & (g & G1 & G2) & A2).
    exists (1 + 1)%nat, ([tk] ++ [tk2]), s2, (g (XSet (tk_str tk))). split; [eapply lexes_app; now apply lexes_one|]. split; [exact A2|].
    split; [now apply g_seq, g_dup; [apply g_set|]|]. split; [apply G2; eapply sem_set; eauto|]. few.
  - cbn [app] in A, Sm. rewrite <- !app_assoc in A, Sm. cbn [app] in A, Sm. pose proof (at_same _ _ _ _ _ _ _ _ _ A (lead_quote fl _ _)) as A1. cbn [negb] in A1.
    inversion Sm as [|? ? _ Sm1]; subst. apply small_app in Sm1 as [Sm1 Sm2]. apply small_app in Sm2 as [Sm2 _].
    destruct (quoted_lexes _ ms _ _ _ _ H s sz st p Sm1 A1) as (k1 & ts & s1 & r & L & A2 & G & M & F).
    destruct (qchar_token _ _ _ _ _ _ _ _ _ K Sm2 A2) as (tk & s' & E & T & Dn & A'). apply (at_same _ _ _ _ _ _ _ (o ++ rest) false) in A'; [|apply lead_quote].
    destruct (postfix_token b fl o f rest sz st p s' O N A') as (tk2 & s2 & E2 & EG & (g & G1 & G2) & A3).
    exists (k1 + (1 + 1))%nat, (ts ++ [tk] ++ [tk2]), s2, (XCat r (g (XSet (tk_str tk)))). split; [eapply lexes_app; [exact L|]; eapply lexes_app; now apply lexes_one|]. split; [exact A3|].
    split; [now apply g_cat, g_dup; [|apply g_set|]|]. split; [apply sem_cat; [exact M|]; apply G2; eapply sem_set; eauto|].
    few.
  - rewrite <- app_assoc in *. destruct (IH1 s sz st p Sm Sz A) as (k1 & ts & s' & r & L & A' & G & M & F).
    destruct (src_head _ _ _ _ _ _ _ _ H1) as (c & t' & E & _).
    destruct (IH2 s' sz st p) as (k2 & us & s2 & r2 & L2 & A2 & G2 & M2 & F2); [apply small_app in Sm; tauto| |exact A'|].
    { eapply sized_cut; [exact Sz|rewrite E; discriminate]. }
    destruct (gram_seq_app r2 us G2 r ts G) as (x & Gx & Lx). exists (k1 + k2)%nat, (ts ++ us), s2, x. split; [eapply lexes_app; eauto|]. split; [exact A2|]. split; [exact Gx|].
    split; [eapply sem_of; [exact Lx|]; now apply sem_cat|]. few.
  - destruct (IH s sz st p Sm Sz A) as (k1 & ts & s' & r & L & A' & G & M & F). exists k1, ts, s', r. split; [exact L|]. split; [exact A'|]. split; [now apply g_regex|]. auto.
  - rewrite <- app_assoc in *. cbn [app] in *. destruct (IH1 s sz st p Sm Sz A) as (k1 & ts & s' & r & L & A' & G & M & F).
    assert (PS : plain_start fl 124 (u ++ rest)) by (split; [discriminate|split; [discriminate|intros _; split; [unfold is_space; lia|discriminate]]]).
    set (s1 := mk (u ++ rest) sz fl st p false).
    assert (N1 : forall lhs, next b lhs s' = Ok (tok OR, s1)).
    { intros lhs. rewrite (next_at b lhs _ _ _ _ _ _ _ _ _ _ A' (lead_plain _ _ _ PS)). reflexivity. }
    destruct (IH2 s1 sz st p) as (k2 & us & s2 & r2 & L2 & A2 & G2 & M2 & F2); [apply small_app in Sm as [_ Sm]; now inversion Sm| |apply at_mk|].
    { apply (sized_cut sz first (t ++ [124])); [rewrite <- app_assoc; exact Sz|destruct t; discriminate]. }
    destruct (gram_or_app r2 us G2 r ts (tok OR) G eq_refl) as (x & Gx & Lx). exists (k1 + (1 + k2))%nat, (ts ++ tok OR :: us), s2, x.
    split; [eapply lexes_app; [exact L|]; eapply lexes_cons; eauto|]. split; [exact A2|]. split; [exact Gx|].
    split; [eapply sem_of; [exact Lx|]; now apply sem_alt|]. few.
  - rewrite <- app_assoc in *. destruct (IH s sz st p) as (k1 & ts & s' & r & L & A' & G & M & F); [apply small_app in Sm; tauto| | |].
    + eapply sized_cut; [exact Sz|]. destruct D; discriminate.
    + eapply at_same; [exact A|now apply lead_pad].
    + exists k1, ts, s', r. split; [exact L|]. split; [exact A'|]. split; [exact G|]. split; [exact M|]. few.
  - rewrite <- app_assoc in *. destruct (IH s sz st p Sm Sz A) as (k1 & ts & s' & r & L & A' & G & M & F). exists k1, ts, s', r. split; [exact L|].
    split; [eapply at_same; [exact A'|now apply lead_pad]|]. split; [exact G|]. split; [exact M|]. few.
Qed.
