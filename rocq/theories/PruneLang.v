(** abstemious.hpp: the words of a pruned regex are words of the regex. *)
From Verif Require Import Base StringToken StringTokenSpec RegexSpec DfaSpec ReToken ReTokeniser Grammar GramUnique ParserProofs Parser
  Generator Rules TokeniseSpec TokeniseProofs TokeniseGram TokenRun StripProofs PruneProofs.
Local Open Scope N_scope.

Section Lang.
  Variable b : N.
  Definition le (r r' : rx) : Prop := forall w, xlang b r w -> xlang b r' w.
  Lemma le_refl r : le r r.
  Proof. intros w H. exact H. Qed.
  Lemma le_trans r s t : le r s -> le s t -> le r t.
  Proof. intros H1 H2 w H. auto. Qed.
  Lemma le_alt x y x' y' : le x x' -> le y y' -> le (XAlt x y) (XAlt x' y').
  Proof. intros H1 H2 w [H|H]; [left|right]; auto. Qed.
  Lemma le_cat x y x' y' : le x x' -> le y y' -> le (XCat x y) (XCat x' y').
  Proof. intros H1 H2 w (u & v & -> & Hu & Hv). exists u, v. auto. Qed.
  Lemma power_le x y n : le x y -> forall w, power (xlang b x) n w -> power (xlang b y) n w.
  Proof.
    intros H. induction n as [|n IH]; intros w P; [exact P|]. destruct P as (u & v & -> & Hu & Hv). exists u, v. auto.
  Qed.
  Lemma dup_le t g x y : dup t g -> le x y -> le (g x) (g y).
  Proof.
    intros D H w. destruct D as [t Ht|t Ht|t Ht|t mn mx Ht C]; cbn.
    - intros [->|Hx]; auto.
    - intros (n & P). exists n. eapply power_le; eauto.
    - intros (n & Hn & P). exists n. split; [auto|]. eapply power_le; eauto.
    - intros (n & H1 & H2 & P). exists n. repeat split; auto. eapply power_le; eauto.
  Qed.

  (** ** Comparing states of the reading *)
  Definition alts_le (a a' : option rx) : Prop :=
    match a, a' with None, _ => True | Some x, Some y => le x y | Some _, None => False end.
  Definition same_le (a a' : option rx) : Prop :=
    match a, a' with None, None => True | Some x, Some y => le x y | _, _ => False end.
  Definition cur_le (c c' : option (option rx * rx)) : Prop :=
    match c, c' with None, None => True | Some (s, e), Some (s', e') => same_le s s' /\ le e e' | _, _ => False end.
  Definition fle (f f' : frame) : Prop := alts_le (fst f) (fst f') /\ cur_le (snd f) (snd f').
  Lemma alts_refl a : alts_le a a.
  Proof. destruct a; cbn; auto using le_refl. Qed.
  Lemma same_refl a : same_le a a.
  Proof. destruct a; cbn; auto using le_refl. Qed.
  Lemma cur_refl a : cur_le a a.
  Proof. destruct a as [[s e]|]; cbn; auto using same_refl, le_refl. Qed.
  Lemma fle_refl f : fle f f.
  Proof. split; [apply alts_refl|apply cur_refl]. Qed.
  Lemma fles_refl st : Forall2 fle st st.
  Proof. induction st; constructor; auto using fle_refl. Qed.
  Lemma cat_le s s' e e' : same_le s s' -> le e e' -> le (cat s e) (cat s' e').
  Proof. destruct s, s'; cbn; try contradiction; auto using le_cat. Qed.
  Lemma alt_le a a' x x' : alts_le a a' -> le x x' -> le (alt a x) (alt a' x').
  Proof.
    destruct a, a'; cbn; try contradiction; auto using le_alt. intros _ H w Hw. right. auto.
  Qed.
  Lemma done_le c c' : cur_le c c' -> same_le (done c) (done c').
  Proof. destruct c as [[s e]|], c' as [[s' e']|]; cbn; try contradiction; [|auto]. intros [H1 H2]. now apply cat_le. Qed.
  Lemma operand_le f f' r r' : fle f f' -> le r r' -> fle (operand f r) (operand f' r').
  Proof. intros [H1 H2] H. split; [exact H1|]. cbn. split; [now apply done_le|auto]. Qed.
  Lemma step_le st st2 t st' st2' : Forall2 fle st st2 -> step st t st' -> step st2 t st2' -> Forall2 fle st' st2'.
  Proof.
    intros F H1 H2. inversion H1; subst; inversion H2; subst; try congruence;
      try (exfalso; match goal with D : dup _ _, E : tk_type _ = _ |- _ => pose proof (dup_not _ _ _ D E); discriminate end);
      try (inversion F as [|? ? ? ? F1 F2]; subst; clear F).
    - constructor; [|auto]. apply operand_le; auto using le_refl.
    - constructor; [|auto]. apply operand_le; auto using le_refl.
    - constructor; [|auto]. apply operand_le; auto using le_refl.
    - destruct F1 as [G1 G2]; cbn in G1, G2; destruct G2 as [G2 G3]. constructor; [|auto]. split; [|exact Logic.I]. cbn. apply alt_le; auto. now apply cat_le.
    - destruct F1 as [G1 G2]; cbn in G1, G2; destruct G2 as [G2 G3]. constructor; [|auto]. split; [exact G1|]. cbn. split; [exact G2|].
      match goal with D : dup t ?f, E : dup t ?g |- _ => rewrite (dup_fun t f g D E) in * end. eapply dup_le; eauto.
    - constructor; [apply fle_refl|auto].
    - constructor; [apply fle_refl|]. now constructor.
    - inversion F2 as [|? ? ? ? F3 F4]; subst. destruct F1 as [G1 G2]; cbn in G1, G2; destruct G2 as [G2 G3]. constructor; [|auto]. apply operand_le; auto.
      apply alt_le; auto. now apply cat_le.
  Qed.
  Lemma run_le st w st' : run st w st' -> forall st2 st2', Forall2 fle st st2 -> run st2 w st2' -> Forall2 fle st' st2'.
  Proof.
    induction 1 as [|st t st1 w st' H R IH]; intros st2 st2' F R2; inversion R2 as [|? ? st3 ? ? H2 R3]; subst; [auto|].
    eapply IH; [|exact R3]. eapply step_le; eauto.
  Qed.

  (** ** The depth of the state *)
  Lemma run_depth w : forall tp st S k n, run (tp ++ st) w S -> length tp = Datatypes.S k -> depth k w = Some n ->
    exists top, length top = Datatypes.S n /\ S = top ++ st.
  Proof.
    induction w as [|t w IH]; intros tp st S k n R L D; inversion R as [|? ? st1 ? ? H R1]; subst.
    - cbn in D. injection D as <-. eauto.
    - destruct tp as [|f tp]; [discriminate|]. cbn in L. injection L as L. cbn in D, H.
      inversion H; subst; try (match goal with E : tk_type _ = _ |- _ => rewrite E in D end).
      + eapply (IH (_ :: tp)); eauto. now cbn; rewrite <- ?L.
      + eapply (IH (_ :: tp)); eauto. now cbn; rewrite <- ?L.
      + eapply (IH (_ :: tp)); eauto. now cbn; rewrite <- ?L.
      + eapply (IH (_ :: tp)); eauto. now cbn; rewrite <- ?L.
      + assert (Hd : is_dup (tk_type t) = true) by (eapply dup_type; eauto).
        assert (D' : depth (length tp) w = Some n) by (destruct (tk_type t); try discriminate; exact D).
        eapply (IH (_ :: tp)); eauto. now cbn.
      + now apply (IH ((None, None) :: f :: tp) st S (Datatypes.S (length tp)) n).
      + destruct tp as [|g tp]; [discriminate|]. cbn in *. match goal with E : _ :: _ = g :: _ |- _ => injection E as -> -> end.
        now apply (IH (operand g (alt a (cat s e)) :: tp) st S (length tp) n).
  Qed.

  (** ** The part that is removed *)
  Definition opt_part (u : list token) : Prop := forall f st S, run (f :: st) u S ->
    exists D, S = operand f D :: st /\ xlang b D [].
  Lemma opt_parens os : forall cs u, parens OPENPAREN os -> parens CLOSEPAREN cs -> length os = length cs -> opt_part u ->
    opt_part (os ++ u ++ cs).
  Proof.
    induction os as [|o os IH]; intros cs u Ho Hc L H.
    - destruct cs; [|discriminate]. cbn. now rewrite app_nil_r.
    - destruct cs as [|c cs _] using rev_ind; [discriminate|]. apply Forall_app in Hc. destruct Hc as [Hc1 Hc2]. inversion Hc2; subst. inversion Ho; subst.
      assert (H' : opt_part (os ++ u ++ cs)) by (apply IH; auto; rewrite app_length in L; cbn in L; lia).
      intros f st S R. cbn [app] in R. rewrite app_assoc, app_assoc, <- (app_assoc os u cs) in R. inversion R as [|? ? st1 ? ? St R1]; subst.
      inversion St; subst; try congruence; [exfalso; match goal with D : dup _ _, E : tk_type _ = _ |- _ => pose proof (dup_not _ _ _ D E); discriminate end|].
      apply run_split in R1. destruct R1 as (st2 & R1 & R2). destruct (H' _ _ _ R1) as (D & -> & HD).
      apply run_one_inv in R2. inversion R2; subst; try congruence; [exfalso; match goal with D : dup _ _, E : tk_type _ = _ |- _ => pose proof (dup_not _ _ _ D E); discriminate end|].
      exists D. auto.
  Qed.
  Lemma operand_run m f st S : operand_of m -> run (f :: st) m S -> exists r, S = operand f r :: st.
  Proof.
    intros [(t & -> & Ht)|(o & u & c & -> & Ho & Hc & B)] R.
    - apply run_one_inv in R. inversion R; subst; eauto;
        try (match goal with E : tk_type t = _ |- _ => rewrite E in Ht; discriminate end).
      exfalso. assert (Hd : is_dup (tk_type t) = true) by (eapply dup_type; eauto). destruct (tk_type t); discriminate.
    - inversion R as [|? ? st1 ? ? St R1]; subst.
      inversion St; subst; try congruence; [exfalso; match goal with D : dup _ _, E : tk_type _ = _ |- _ => pose proof (dup_not _ _ _ D E); discriminate end|].
      apply run_split in R1. destruct R1 as (st2 & R1 & R2).
      destruct (run_depth u [(None, None)] (f :: st) st2 0 0 R1 eq_refl B) as (top & Lt & ->).
      destruct top as [|x [|y top]]; try discriminate. cbn [app] in R2. apply run_one_inv in R2.
      inversion R2; subst; try congruence; [exfalso; match goal with D : dup _ _, E : tk_type _ = _ |- _ => pose proof (dup_not _ _ _ D E); discriminate end|].
      eauto.
  Qed.
  Definition optional (op : token) : Prop :=
    tk_type op = AOPT \/ tk_type op = AZEROORMORE \/ tk_type op = AREPEATN /\ to_comma (tk_extra op) = [48].
  Lemma optional_nil op g r : optional op -> dup op g -> xlang b (g r) [].
  Proof.
    intros Hop D. unfold optional in Hop. destruct D as [t Ht|t Ht|t Ht|t mn mx Ht C]; cbn.
    - auto.
    - exists 0%nat. reflexivity.
    - exfalso. destruct Ht as [Ht|Ht]; rewrite Ht in Hop; intuition discriminate.
    - destruct Hop as [Hop|[Hop|[Hop Hx]]]; [destruct Ht; congruence|destruct Ht; congruence|].
      apply counts_comma in C. rewrite Hx in C. destruct C as (_ & _ & C). cbn in C. subst mn.
      exists 0%nat. split; [cbn; lia|]. split; [|reflexivity]. destruct mx; cbn; [lia|auto].
  Qed.
  Lemma opt_operand m op : operand_of m -> optional op -> opt_part (m ++ [op]).
  Proof.
    intros Hm Hop f st S R. apply run_split in R. destruct R as (st1 & R1 & R2). destruct (operand_run _ _ _ _ Hm R1) as (r & ->).
    apply run_one_inv in R2. unfold optional in Hop.
    inversion R2; subst; try (exfalso; match goal with E : tk_type op = _ |- _ => rewrite E in Hop; intuition discriminate end).
    match goal with D : dup op ?g |- _ => exists (g r); split; [reflexivity|eapply optional_nil; eauto] end.
  Qed.
  Lemma opt_dropped os m op cs : operand_of m -> parens OPENPAREN os -> parens CLOSEPAREN cs -> length os = length cs ->
    optional op -> opt_part (dropped os m op cs).
  Proof. intros. unfold dropped. apply opt_parens; auto. now apply opt_operand. Qed.

  (** ** The state before it *)
  Definition empty_at (ty : ttype) : bool := match ty with BEGIN | OR | OPENPAREN => true | _ => false end.
  Lemma run_last a f st : run [(None, None)] a (f :: st) -> (empty_at (tlast BEGIN a) = true <-> snd f = None).
  Proof.
    destruct a as [|t a _] using rev_ind; intros R; [inversion R; subst; now split|]. rewrite tlast_snoc.
    apply run_split in R. destruct R as (st1 & _ & R). apply run_one_inv in R.
    inversion R; subst; cbn; try (match goal with E : tk_type t = _ |- _ => rewrite E; cbn; split; congruence end).
    assert (Hd : is_dup (tk_type t) = true) by (eapply dup_type; eauto). destruct (tk_type t); try discriminate; split; discriminate.
  Qed.
  Lemma nil_r D x : xlang b D [] -> le x (XCat x D).
  Proof. intros H w Hw. exists w, []. rewrite app_nil_r. auto. Qed.
  Definition value (f : frame) : option rx :=
    match snd f with Some (s, e) => Some (alt (fst f) (cat s e)) | None => fst f end.
  (** The frame after the gluing, before a closing parenthesis or the end. *)
  Definition unglued (a : list token) : list token := if ends_or a then removelast a else a.
  Lemma unglued_run a f st g st' : run [(None, None)] a (f :: st) -> tlast BEGIN a <> OPENPAREN -> run [(None, None)] (unglued a) (g :: st') ->
    st' = st /\ match value f with Some v => exists al s e, g = (al, Some (s, e)) /\ alt al (cat s e) = v | None => a = [] end.
  Proof.
    intros R Hn R2. unfold unglued, ends_or in R2. pose proof (run_last _ _ _ R) as Hl.
    destruct (tlast BEGIN a) eqn:Et; cbn in Hl;
      try (match goal with _ => assert (Hs : snd f <> None) by (intros E; apply Hl in E; discriminate);
             pose proof (run_fun _ _ _ R _ R2) as E2; injection E2 as <- <-; split; [reflexivity|];
             destruct f as [al [[s e]|]]; [cbn; eauto|now elim Hs] end).
    - assert (Ha : a = []).
      { destruct a as [|t a _] using rev_ind; [reflexivity|]. exfalso. rewrite tlast_snoc in Et. apply run_split in R. destruct R as (? & _ & R).
        apply run_one_inv in R. inversion R; subst; try congruence. match goal with D : dup _ _ |- _ => pose proof (dup_not _ _ _ D Et); discriminate end. }
      subst a. inversion R; subst. inversion R2; subst. split; reflexivity.
    - destruct a as [|t a _] using rev_ind; [discriminate|]. rewrite tlast_snoc in Et. cbv iota in R2. rewrite removelast_last in R2.
      apply run_split in R. destruct R as (st1 & R1 & R). rewrite (run_fun _ _ _ R1 _ R2) in R. apply run_one_inv in R.
      inversion R; subst; try congruence; [|match goal with D : dup _ _ |- _ => pose proof (dup_not _ _ _ D Et); discriminate end].
      split; [reflexivity|]. cbn. eauto.
    - now elim Hn.
  Qed.
  Lemma value_operand f D v : value f = Some v -> xlang b D [] -> le v (alt (fst f) (cat (done (snd f)) D)).
  Proof.
    destruct f as [[x|] [[s e]|]]; cbn; intros E H; try discriminate; injection E as <-; intros w Hw.
    - destruct Hw as [Hw|Hw]; [now left|right]. exists w, []. rewrite app_nil_r. auto.
    - now left.
    - exists w, []. rewrite app_nil_r. auto.
  Qed.

  (** ** One step *)
  Definition olang_le (o o' : option rx) : Prop := forall w, olang b o w -> olang b o' w.
  Definition clear_drop (a q : list token) : Prop := tk_type (head q) = OR -> empty_at (tlast BEGIN a) = true.
  Inductive pruned_clear : list token -> list token -> Prop :=
  | pc_keep w : pruned_clear w w
  | pc_plus a op q : tk_type op = AONEORMORE -> closing (tk_type (head q)) -> pruned_clear (a ++ op :: q) (a ++ q)
  | pc_count a op q : tk_type op = AREPEATN -> closing (tk_type (head q)) -> to_comma (tk_extra op) <> [48] ->
      pruned_clear (a ++ op :: q) (a ++ {| tk_type := REPEATN; tk_extra := to_comma (tk_extra op); tk_str := tk_str op |} :: q)
  | pc_drop a os m op cs q : operand_of m -> parens OPENPAREN os -> parens CLOSEPAREN cs -> length os = length cs -> optional op ->
      closing (tk_type (head q)) -> ~ (tlast BEGIN a = OPENPAREN /\ tk_type (head q) = CLOSEPAREN) -> clear_drop a q ->
      pruned_clear (a ++ os ++ m ++ op :: cs ++ q) (glue a q).
  Definition final (o : option rx) (w : list token) : Prop :=
    match o with None => w = [] | Some r => exists a s e, run [(None, None)] w [(a, Some (s, e))] /\ alt a (cat s e) = r end.
  Lemma final_of o w : ogram o w -> final o w.
  Proof. destruct o as [r|]; cbn; [|auto]. intros G. exact (gram_reads _ _ _ G []). Qed.
  Lemma final_le a s e a' s' e' : Forall2 fle [(a, Some (s, e))] [(a', Some (s', e'))] -> le (alt a (cat s e)) (alt a' (cat s' e')).
  Proof.
    intros F. inversion F as [|? ? ? ? [G1 G2] _]; subst. cbn in G1, G2. destruct G2 as [G2 G3]. apply alt_le; [exact G1|]. now apply cat_le.
  Qed.
  Lemma power_one x w : xlang b x w -> power (xlang b x) 1 w.
  Proof. intros H. exists w, []. rewrite app_nil_r. repeat split; auto. Qed.
  Lemma unglued_glue a q : is_type OR (head q) = false -> glue a q = unglued a ++ q.
  Proof. intros H. unfold glue, unglued. rewrite H. destruct (ends_or a); reflexivity. Qed.
  Theorem pruned_le Q w w' o o' : pruned_clear w w' -> ogram o w -> ogram o' w' -> vec Q w -> olang_le o' o.
  Proof.
    intros P G G' V. destruct P as [w|a op q Hop Hq|a op q Hop Hq Hx|a os m op cs q Hm Ho Hc L Hop Hq Hn Hcl].
    - destruct o as [r|], o' as [r'|]; cbn in G, G'.
      + rewrite (gram_unique _ _ _ G _ G'). intros u Hu. exact Hu.
      + subst w. now apply gram_nonempty in G.
      + subst w. now apply gram_nonempty in G'.
      + intros u Hu. exact Hu.
    - apply final_of in G, G'. destruct o as [r|]; [|destruct a; discriminate]. destruct G as (al & s & e & R & <-).
      apply run_split in R. destruct R as (st1 & R1 & R2). inversion R2 as [|? ? st2 ? ? St R3]; subst.
      inversion St as [| | | |al1 s1 e1 st t g D| |]; subst; try congruence.
      destruct o' as [r'|].
      + destruct G' as (al' & s' & e' & R' & <-). apply run_split in R'. destruct R' as (st1' & R1' & R2').
        rewrite <- (run_fun _ _ _ R1 _ R1') in R2'. apply final_le. eapply run_le; [exact R2'| |exact R3].
        constructor; [|apply fles_refl]. split; [apply alts_refl|]. split; [apply same_refl|].
        inversion D as [t Ht|t Ht|t Ht|t mn mx Ht C]; subst; try (destruct Ht; congruence).
        intros u Hu. exists 1%nat. split; [lia|now apply power_one].
      + cbn in G'. apply app_eq_nil in G'. destruct G' as [-> ->]. inversion R1.
    - apply final_of in G, G'. destruct o as [r|]; [|destruct a; discriminate]. destruct G as (al & s & e & R & <-).
      apply run_split in R. destruct R as (st1 & R1 & R2). inversion R2 as [|? ? st2 ? ? St R3]; subst.
      inversion St as [| | | |al1 s1 e1 st t g D| |]; subst; try congruence.
      destruct o' as [r'|]; [|cbn in G'; destruct a; discriminate].
      destruct G' as (al' & s' & e' & R' & <-). apply run_split in R'. destruct R' as (st1' & R1' & R2').
      rewrite <- (run_fun _ _ _ R1 _ R1') in R2'. inversion R2' as [|? ? st3 ? ? St' R3']; subst.
      inversion St' as [| | | |al2 s2 e2 st4 t2 g' D'| |]; subst; try (cbn in *; congruence).
      apply final_le. eapply run_le; [exact R3'| |exact R3].
      constructor; [|apply fles_refl]. split; [apply alts_refl|]. split; [apply same_refl|].
      inversion D as [t Ht|t Ht|t Ht|t mn mx Ht C]; subst; try (destruct Ht; congruence).
      inversion D' as [t Ht'|t Ht'|t Ht'|t mn' mx' Ht' C']; subst; try (destruct Ht'; cbn in *; congruence).
      assert (Emn : mn' = mn /\ mx' = Some mn).
      { apply counts_comma in C as C2. cbn in C'. assert (C3 : counts (to_comma (tk_extra op)) mn (Some mn)) by now constructor.
        destruct (counts_fun _ _ _ _ _ C3 C') as [<- <-]. auto. }
      destruct Emn as [-> ->]. intros u (n & H1 & H2 & H3). exists n. split; [auto|]. split; [|auto].
      destruct mx as [mx|]; [|auto].
      pose proof (ve_toks _ _ V) as T. apply Forall_app in T. destruct T as [_ T]. inversion T as [|? ? T1 _]; subst. unfold vtok in T1. rewrite Hop in T1.
      destruct T1 as (mn1 & mx1 & T2 & T3 & _). destruct (counts_fun _ _ _ _ _ C T2) as [<- <-]. destruct T3 as (_ & _ & _ & T3). lia.
    - assert (EM : a ++ os ++ m ++ op :: cs ++ q = a ++ dropped os m op cs ++ q) by (unfold dropped; now rewrite <- !app_assoc).
      rewrite EM in *. clear EM. pose proof (opt_dropped os m op cs Hm Ho Hc L Hop) as HM. 
      destruct (dropped_head os m op cs Hm Ho) as (hd & tl & EH & _).
      set (M := dropped os m op cs) in *. 
      apply final_of in G, G'. destruct o as [r|]; [|cbn in G; rewrite EH in G; destruct a; discriminate]. destruct G as (al & s & e & R & <-).
      apply run_split in R. destruct R as (st1 & R1 & R2). apply run_split in R2. destruct R2 as (st2 & R2 & R3).
      pose proof (ve_bal _ _ V) as B. unfold balanced in B. rewrite depth_app in B. destruct (depth 0 a) as [n|] eqn:Da; [|discriminate].
      destruct (run_depth a [(None, None)] [] st1 0 n R1 eq_refl Da) as (top & Lt & Et). rewrite app_nil_r in Et. subst st1.
      destruct top as [|f st]; [discriminate|]. destruct (HM _ _ _ R2) as (D & -> & HD).
      destruct (is_type OR (head q)) eqn:EO.
      + (* an alternative follows *)
        destruct q as [|x q]; [discriminate|]. cbn in EO. pose proof EO as EO'. apply is_type_iff in EO. unfold glue in G'. cbn [head List.hd List.tl] in G'. rewrite EO' in G'.
        specialize (Hcl EO). apply (run_last _ _ _ R1) in Hcl. destruct f as [fa fc]. cbn in Hcl. subst fc.
        inversion R3 as [|? ? st3 ? ? St R4]; subst.
        inversion St; subst; try congruence; [|exfalso; match goal with D : dup _ _, E : tk_type _ = _ |- _ => pose proof (dup_not _ _ _ D E); discriminate end].
        destruct o' as [r'|].
        * destruct G' as (al' & s' & e' & R' & <-). apply run_split in R'. destruct R' as (st1' & R1' & R2').
          rewrite <- (run_fun _ _ _ R1 _ R1') in R2'. apply final_le. eapply run_le; [exact R2'| |exact R4].
          constructor; [|apply fles_refl]. split; [|exact Logic.I]. cbn. destruct fa as [y|]; cbn; [|auto]. intros u Hu. now left.
        * cbn in G'. apply app_eq_nil in G'. destruct G' as [-> ->]. inversion R4.
      + rewrite unglued_glue in G' by auto.
        assert (Hno : tlast BEGIN a <> OPENPAREN).
        { intros E. destruct Hq as [Hq|[Hq|Hq]]; [apply Hn; auto|apply is_type_not in EO; congruence|].
          assert (q = []) by (destruct q as [|y q]; [reflexivity|exfalso; pose proof (ve_toks _ _ V) as T; apply Forall_app in T; destruct T as [_ T]; apply Forall_app in T; destruct T as [_ T]; inversion T as [|? ? T1 _]; subst; cbn in Hq; unfold vtok in T1; rewrite Hq in T1; exact T1]).
          subst q. destruct a as [|y a _] using rev_ind; [discriminate|]. rewrite tlast_snoc in E. rewrite depth_app in Da. destruct (depth 0 a); [|discriminate]. cbn in Da. rewrite E in Da. injection Da as <-.
          inversion R3; subst. discriminate. }
        assert (SPLIT : forall S', run [(None, None)] (unglued a ++ q) S' -> exists g st', run [(None, None)] (unglued a) (g :: st') /\ run (g :: st') q S').
        { intros S' R'. apply run_split in R'. destruct R' as (st1' & R1' & R2'). destruct st1' as [|g st']; [|eauto].
          exfalso. clear - R1'. assert (NE : forall st u S, run st u S -> st <> [] -> S <> []).
          { induction 1 as [|? ? ? ? ? H1 H2 IH]; intros Hst; [auto|]. apply IH. inversion H1; discriminate. }
          now apply (NE _ _ _ R1'). }
        destruct q as [|x q].
        * (* the end *)
          pose proof (run_fun _ _ _ R3 _ (r_nil _)) as E; unfold operand in E; injection E as E1 E2 E3 E4; subst al s e st.
          destruct o' as [r'|].
          -- destruct G' as (al' & s' & e' & R' & <-). apply SPLIT in R'. destruct R' as (g & st' & R' & R''). inversion R''; subst.
             destruct (unglued_run _ _ _ _ _ R1 Hno R') as [_ Hv]. pose proof (value_operand f D) as VO.
             destruct (value f) as [v|].
             ++ destruct Hv as (al2 & s2 & e2 & E & <-). injection E as -> -> ->. exact (VO _ eq_refl HD).
             ++ subst a. inversion R'.
          -- cbn in G'. rewrite app_nil_r in G'. rewrite G' in *. assert (R0 : run [(None, None)] (unglued a) [(None, None)]) by (rewrite G'; constructor).
             destruct (unglued_run _ _ _ _ _ R1 Hno R0) as [_ Hv]. destruct (value f) as [v|]; [destruct Hv as (? & ? & ? & E & _); discriminate|].
             subst a. inversion R1; subst. intros u ->. exact HD.
        * (* a closing parenthesis *)
          cbn in EO. apply is_type_not in EO. cbn [head List.hd] in Hq. assert (Hx : tk_type x = CLOSEPAREN).
          { destruct Hq as [Hq|[Hq|Hq]]; auto; [congruence|]. exfalso. inversion R3 as [|? ? ? ? ? St _]; subst. inversion St; subst; try congruence. match goal with D : dup _ _ |- _ => pose proof (dup_not _ _ _ D Hq); discriminate end. }
          inversion R3 as [|? ? st3 ? ? St R4]; subst. inversion St; subst; try congruence; [exfalso; match goal with D : dup _ _, E : tk_type _ = _ |- _ => pose proof (dup_not _ _ _ D E); discriminate end|].
          destruct o' as [r'|]; [|cbn in G'; destruct (unglued a); discriminate].
          destruct G' as (al' & s' & e' & R' & <-). apply SPLIT in R'. destruct R' as (g & st' & R' & R'').
          destruct (unglued_run _ _ _ _ _ R1 Hno R') as [-> Hv]. pose proof (value_operand f D) as VO.
          destruct (value f) as [v|].
          -- destruct Hv as (al2 & s2 & e2 & -> & <-). inversion R'' as [|? ? st5 ? ? St' R5]; subst. inversion St'; subst; try congruence; [exfalso; match goal with D : dup _ _, E : tk_type _ = _ |- _ => pose proof (dup_not _ _ _ D E); discriminate end|].
             apply final_le. eapply run_le; [exact R5| |exact R4]. constructor; [|apply fles_refl]. apply operand_le; [apply fle_refl|]. exact (VO _ eq_refl HD).
          -- subst a. exfalso. inversion R1.
  Qed.

  (** ** All steps *)
  (** An alternative follows an abstemious repeat that may be absent, or a group
      that ends in one. *)
  Definition shut (t : token) : Prop := tk_type t = CLOSEPAREN \/ lazy_type (tk_type t) = true.
  Definition lazy_or (w : list token) : Prop := exists u op z o v,
    w = u ++ op :: z ++ o :: v /\ optional op /\ Forall shut z /\ tk_type o = OR.
  Lemma split_app (p : list token) : forall q u o v, p ++ q = u ++ o :: v ->
    (exists v1, p = u ++ o :: v1 /\ v = v1 ++ q) \/ (exists u1, u = p ++ u1 /\ q = u1 ++ o :: v).
  Proof.
    induction p as [|x p IH]; intros q u o v E; cbn in E; [right; exists u; auto|].
    destruct u as [|y u]; cbn in E; injection E as -> E.
    - left. exists p. auto.
    - destruct (IH _ _ _ _ E) as [(v1 & -> & ->)|(u1 & -> & ->)]; [left; exists v1|right; exists u1]; auto.
  Qed.
  Lemma lazy_or_app p w q : lazy_or w -> lazy_or (p ++ w ++ q).
  Proof.
    intros (u & op & z & o & v & -> & H). exists (p ++ u), op, z, o, (v ++ q). split; [|exact H]. rewrite <- !app_assoc. cbn. rewrite <- !app_assoc. reflexivity.
  Qed.
  Lemma lazy_or_cut p p2 op cs q : optional op -> Forall shut cs ->
    lazy_or (p ++ q) -> lazy_or (p ++ p2 ++ op :: cs ++ q).
  Proof.
    intros Hop Hcs (u & op' & z & o & v & E & H1 & H2 & H3). rewrite app_comm_cons, app_assoc in E. apply split_app in E.
    destruct E as [(v1 & E & _)|(u1 & E & ->)].
    - assert (L : lazy_or p) by (exists u, op', z, o, v1; split; [now rewrite E, <- app_assoc|auto]).
      now apply (lazy_or_app [] p (p2 ++ op :: cs ++ q)).
    - symmetry in E. apply split_app in E. destruct E as [(v1 & _ & ->)|(u2 & _ & ->)].
      + apply Forall_app in H2. destruct H2 as [_ H2]. exists (p ++ p2), op, (cs ++ u1), o, v. split; [now rewrite <- !app_assoc|].
        split; [auto|]. split; [now apply Forall_app|auto].
      + exists (p ++ p2 ++ op :: cs ++ u2), op', z, o, v. split; [|auto]. rewrite <- ?app_assoc. cbn. rewrite <- ?app_assoc. reflexivity.
  Qed.
  Lemma pruned_is_clear w w' : pruned w w' -> ~ lazy_or w -> pruned_clear w w' /\ ~ lazy_or w'.
  Proof.
    intros P C. destruct P as [w0|a op q Hop Hq|a op q Hop Hq Hx|a os m op cs q Hm Ho Hc L Hop Hq Hn].
    - split; [constructor|auto].
    - split; [now constructor|]. intros (u & op' & z & o & v & E & H1 & H2 & H3). apply C.
      assert (Hs : shut op) by (right; now rewrite Hop). rewrite app_comm_cons, app_assoc in E. apply split_app in E.
      destruct E as [(v1 & E & _)|(u1 & E & ->)].
      + exists u, op', z, o, (v1 ++ op :: q). split; [|auto]. rewrite E, <- ?app_assoc. cbn. rewrite <- ?app_assoc. reflexivity.
      + symmetry in E. apply split_app in E. destruct E as [(v1 & -> & ->)|(u2 & -> & ->)].
        * apply Forall_app in H2. destruct H2 as [H2 H2']. exists u, op', (v1 ++ op :: u1), o, v. split; [|split; [auto|split; [|auto]]].
          -- rewrite <- ?app_assoc. cbn. rewrite <- ?app_assoc. reflexivity.
          -- apply Forall_app. split; auto.
        * exists (a ++ op :: u2), op', z, o, v. split; [|auto]. rewrite <- ?app_assoc. cbn. rewrite <- ?app_assoc. reflexivity.
    - split; [now constructor|]. set (t := {| tk_type := REPEATN; tk_extra := _; tk_str := _ |}). intros (u & op' & z & o & v & E & H1 & H2 & H3).
      rewrite app_comm_cons, app_assoc in E. apply split_app in E. apply C. destruct E as [(v1 & E & _)|(u1 & E & Eq)].
      + exists u, op', z, o, (v1 ++ op :: q). split; [|auto]. rewrite E, <- ?app_assoc. reflexivity.
      + destruct u1 as [|y u1]; cbn in Eq; injection Eq as <- Eq; [discriminate|]. subst q. symmetry in E. apply split_app in E. destruct E as [(v1 & _ & ->)|(u2 & _ & E)].
        * apply Forall_app in H2. destruct H2 as [_ H2]. inversion H2 as [|? ? H2' _]; subst. destruct H2'; discriminate.
        * destruct u2 as [|y u2]; cbn in E; injection E as <- E; [destruct H1 as [H1|[H1|[H1 _]]]; discriminate|]. subst u1.
          exists (a ++ op :: u2), op', z, o, v. split; [|auto]. rewrite <- ?app_assoc. cbn. rewrite <- ?app_assoc. reflexivity.
    - assert (Hsh : Forall shut cs) by (eapply Forall_impl; [|exact Hc]; intros t Ht; now left).
      assert (EO : is_type OR (head q) = false).
      { destruct (is_type OR (head q)) eqn:EO; [|reflexivity]. exfalso. destruct q as [|x q]; [discriminate|]. cbn in EO. apply is_type_iff in EO.
        apply C. exists (a ++ os ++ m), op, cs, x, q. split; [now rewrite <- !app_assoc|auto]. }
      split.
      + constructor; auto. intros E. apply is_type_not in EO. congruence.
      + rewrite unglued_glue by auto. intros B. apply C.
        assert (U : exists p2, a = unglued a ++ p2).
        { unfold unglued. destruct (ends_or a); [|exists []; now rewrite app_nil_r]. destruct a as [|x a _] using rev_ind; [now exists []|]. rewrite removelast_last. eauto. }
        destruct U as (p2 & U). rewrite U at 1. rewrite <- app_assoc. 
        replace (p2 ++ os ++ m ++ op :: cs ++ q) with ((p2 ++ os ++ m) ++ op :: cs ++ q) by now rewrite <- !app_assoc.
        now apply lazy_or_cut.
  Qed.
  Lemma undoubled_tail x y q : (dupb y = true -> dupb x = true) \/ dupb (tk_type (head q)) = false -> undoubled x q -> undoubled y q.
  Proof.
    destruct q as [|t q]; cbn; [auto|]. intros H [U1 U2]. split; [|auto]. intros [H1 H2]. destruct H as [H|H]; [apply U1; auto|congruence].
  Qed.
  Lemma pruned_undoubled Q w w' : pruned w w' -> vec Q w -> undoubled BEGIN w -> undoubled BEGIN w'.
  Proof.
    intros P V U. destruct P as [w0|a op q Hop Hq|a op q Hop Hq Hx|a os m op cs q Hm Ho Hc L Hop Hq Hn].
    - auto.
    - apply undoubled_app in U. destruct U as [U1 [U2 U3]]. apply undoubled_app. split; [auto|]. eapply undoubled_tail; [|exact U3].
      right. destruct Hq as [->|[->| ->]]; reflexivity.
    - apply undoubled_app in U. destruct U as [U1 [U2 U3]]. apply undoubled_app. split; [auto|]. split; [cbn; rewrite Hop in U2; exact U2|]. rewrite Hop in U3.
      eapply undoubled_tail; [|exact U3]. now left.
    - assert (EM : a ++ os ++ m ++ op :: cs ++ q = (a ++ os ++ m ++ [op] ++ cs) ++ q) by (rewrite <- !app_assoc; reflexivity).
      rewrite EM in U, V. apply undoubled_app in U. destruct U as [U Uq]. apply undoubled_app in U. destruct U as [Ua _].
      unfold glue. destruct (is_type OR (head q)) eqn:EO.
      + destruct q as [|x q]; [discriminate|]. apply undoubled_app. split; [auto|]. cbn [tl]. destruct Uq as [_ Uq]. eapply undoubled_tail; [|exact Uq].
        right. cbn in EO. apply is_type_iff in EO. pose proof (ve_chain _ _ V) as C. rewrite <- (app_assoc _ (x :: q)) in C. apply chain_app in C. destruct C as [_ [_ C]]. rewrite EO in C.
        destruct q as [|y q]; [reflexivity|]. cbn in C. destruct C as [C _]. cbn. destruct (tk_type y); (discriminate || reflexivity).
      + assert (Hd : dupb (tk_type (head q)) = false) by (destruct Hq as [->|[->| ->]]; reflexivity).
        destruct (ends_or a); apply undoubled_app; (split; [|eapply undoubled_tail; [right; exact Hd|exact Uq]]); [|auto].
        destruct a as [|x a _] using rev_ind; [exact Logic.I|]. rewrite removelast_last. apply undoubled_app in Ua. tauto.
  Qed.
  Lemma prunes_vec Q w w' : prunes w w' -> vec Q w -> Forall zero_plain w -> vec Q w'.
  Proof.
    induction 1 as [|w w1 w2 P R IH]; intros V Z; [auto|]. destruct (pruned_vec Q _ _ P V Z). auto.
  Qed.
  Theorem prunes_le Q w w' : prunes w w' -> vec Q w -> Forall zero_plain w -> undoubled BEGIN w -> ~ lazy_or w ->
    forall o o', ogram o w -> ogram o' w' -> olang_le o' o.
  Proof.
    induction 1 as [w|w w1 w2 P R IH]; intros V Z U C o o' G G'.
    - apply (pruned_le Q w w); auto. constructor.
    - destruct (pruned_vec Q _ _ P V Z) as [V1 Z1]. pose proof (pruned_undoubled Q _ _ P V U) as U1.
      destruct (pruned_is_clear _ _ P C) as [PC C1]. destruct (vec_gram Q w1 V1 U1) as (o1 & G1).
      intros x Hx. apply (pruned_le Q _ _ _ _ PC G G1 V). apply (IH V1 Z1 U1 C1 _ _ G1 G'). exact Hx.
  Qed.
End Lang.
