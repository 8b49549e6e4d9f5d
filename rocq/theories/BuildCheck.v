(** When ^ anchors a rule, and a check of the hypotheses about rules that
    computes. *)
From Verif Require Import Base StringToken StringTokenSpec SliceSpec StringTokenProofs RegexSpec StateMachine Slice ReToken DfaSpec Grammar
  Tree Partition Parser Generator Build ParserKeys ParserProofs GramUnique ParserRule RuleSpec RuleWords BuildSpec BolWords.
Local Open Scope N_scope.

(** ** ^ at the beginning *)
(** No | outside parentheses. *)
Definition no_top_or (v : list token) : Prop :=
  forall u t w, v = u ++ t :: w -> depth 0 u = Some O -> tk_type t <> OR.
Definition no_bol (v : list token) : Prop := Forall (fun t => tk_type t <> BOL) v.

Lemma no_bol_words X r ts w : gram X r ts -> no_bol ts -> clang r w -> ~ In CBol w.
Proof.
  intros G F H. assert (Q : Forall (fun a => a <> CBol) w).
  { revert w H. apply (gram_symbols _ X r ts G); try discriminate. intros (t & Ht & Et) _.
    unfold no_bol in F. rewrite Forall_forall in F. eapply F; eauto. }
  rewrite Forall_forall in Q. intros Hi. eapply Q; eauto.
Qed.
Lemma atom_bol r b v : gram GAtom r (b :: v) -> tk_type b = BOL -> r = XBol /\ v = [].
Proof.
  intros G Eb. remember GAtom as X. remember (b :: v) as w. destruct G; try discriminate.
  - injection Heqw as <- <-. congruence.
  - injection Heqw as <- <-. auto.
  - injection Heqw as <- <-. congruence.
  - injection Heqw as <- <-. congruence.
Qed.
Lemma gram_anchored X r ts : gram X r ts -> forall b v, ts = b :: v -> tk_type b = BOL ->
  (forall d v', v = d :: v' -> is_dup (tk_type d) = false) -> no_top_or v -> no_bol v ->
  forall x, clang r x -> exists y, x = CBol :: y /\ ~ In CBol y.
Proof.
  induction 1 as [r w G IH|a c u v t G1 IH1 Et G2 IH2|r w G IH|a c u v G1 IH1 G2 IH2|r w G IH|
                  r w t f G IH D|t Et|t Et|t Et|r w o c Eo G IH Ec]; intros b z E Eb Hd NO NB x HL; eauto.
  - exfalso. destruct u as [|b' u']; [now apply gram_ne in G1|]. cbn in E. injection E as -> <-.
    apply (NO u' t v); auto. pose proof (gram_depth _ _ _ G1 0%nat) as Q. cbn in Q. now rewrite Eb in Q.
  - destruct u as [|b' u']; [now apply gram_ne in G1|]. cbn in E. injection E as -> <-.
    unfold no_bol in NB. apply Forall_app in NB as [NB1 NB2].
    cbn [clang] in HL. destruct HL as (x1 & x2 & -> & L1 & L2).
    destruct (IH1 b u' eq_refl Eb) with (x := x1) as (y & -> & Hy); auto.
    + intros d v' ->. apply (Hd d (v' ++ v)). reflexivity.
    + intros p t q -> HD. apply (NO p t (q ++ v)); auto. now rewrite <- app_assoc.
    + exists (y ++ x2). split; [reflexivity|]. rewrite in_app_iff. intros [Hi|Hi]; [auto|].
      eapply no_bol_words; eauto.
  - exfalso. destruct w as [|b' w']; [now apply gram_ne in G|]. cbn in E. injection E as -> <-.
    destruct (atom_bol _ _ _ G Eb) as [_ ->]. cbn in Hd. specialize (Hd t [] eq_refl). apply dup_type in D. congruence.
  - injection E as -> <-. congruence.
  - injection E as -> <-. congruence.
  - injection E as -> <-. congruence.
Qed.
(** Without the condition about |, ^ is at least nowhere else. *)
Lemma gram_early X r ts : gram X r ts -> forall b v, ts = b :: v -> tk_type b = BOL ->
  (forall d v', v = d :: v' -> is_dup (tk_type d) = false) -> no_bol v ->
  forall x y, clang r (x ++ CBol :: y) -> x = [].
Proof.
  induction 1 as [r w G IH|a c u v t G1 IH1 Et G2 IH2|r w G IH|a c u v G1 IH1 G2 IH2|r w G IH|
                  r w t f G IH D|t Et|t Et|t Et|r w o c Eo G IH Ec]; intros b z E Eb Hd NB x y HL; eauto.
  - destruct u as [|b' u']; [now apply gram_ne in G1|]. cbn in E. injection E as -> <-.
    unfold no_bol in NB. apply Forall_app in NB as [NB1 NB2]. inversion NB2 as [|? ? _ NB3]; subst.
    cbn [clang] in HL. destruct HL as [L1|L2].
    + apply (IH1 b u' eq_refl Eb) in L1; auto. intros d v' ->. apply (Hd d (v' ++ t :: v)). reflexivity.
    + exfalso. apply (no_bol_words _ _ _ _ G2 NB3 L2). apply in_or_app. right. now left.
  - destruct u as [|b' u']; [now apply gram_ne in G1|]. cbn in E. injection E as -> <-.
    unfold no_bol in NB. apply Forall_app in NB as [NB1 NB2].
    cbn [clang] in HL. destruct HL as (x1 & x2 & E & L1 & L2).
    assert (NI : ~ In CBol x2) by (eapply no_bol_words; eauto).
    apply app_eq_app in E as (l & [[-> E]|[-> E]]).
    + exfalso. apply NI. rewrite E. apply in_or_app. right. now left.
    + destruct l as [|a0 l]; [exfalso; apply NI; cbn in E; rewrite <- E; now left|]. cbn in E. injection E as <- ->.
      apply (IH1 b u' eq_refl Eb) in L1; auto. intros d v' ->. apply (Hd d (v' ++ v)). reflexivity.
  - exfalso. destruct w as [|b' w']; [now apply gram_ne in G|]. cbn in E. injection E as -> <-.
    destruct (atom_bol _ _ _ G Eb) as [_ ->]. cbn in Hd. specialize (Hd t [] eq_refl). apply dup_type in D. congruence.
  - injection E as -> <-. congruence.
  - cbn in HL. destruct x as [|? [|? ?]]; [auto|discriminate|discriminate].
  - injection E as -> <-. congruence.
  - injection E as -> <-. congruence.
Qed.
Theorem early_tokens r b v : rule_tokens r (b :: v) -> tk_type b = BOL ->
  (forall d v', v = d :: v' -> is_dup (tk_type d) = false) -> no_bol v -> bol_rule true r.
Proof.
  intros T Eb Hd NB x y (ts & o & T' & G & L). rewrite (rule_tokens_unique r ts _ T' T) in G. split; [|auto].
  destruct o as [z|]; [|discriminate G]. cbn in G, L. eapply gram_early; eauto.
Qed.
Theorem anchored_tokens r b v : rule_tokens r (b :: v) -> tk_type b = BOL ->
  (forall d v', v = d :: v' -> is_dup (tk_type d) = false) -> no_top_or v -> no_bol v -> anchored_rule r.
Proof.
  intros T Eb Hd NO NB w (ts & o & T' & G & L). rewrite (rule_tokens_unique r ts _ T' T) in G.
  destruct o as [x|]; [|discriminate G]. cbn in G, L. eapply gram_anchored; eauto.
Qed.
Theorem plain_tokens r ts : rule_tokens r ts -> no_bol ts -> plain_rule r.
Proof.
  intros T NB w (ts' & o & T' & G & L). rewrite (rule_tokens_unique r ts' _ T' T) in G.
  eapply ogram_no_bol; eauto.
Qed.

(** ** The check *)
Fixpoint wf_fromb (lo : N) (t : stoken) : bool :=
  match t with
  | [] => true
  | (a, b) :: t' => (lo <=? a) && (a <=? b) && wf_fromb (b + 2) t'
  end.
Definition tameb (r : range) : bool :=
  (snd r / 65536 <=? fst r / 65536 + 1) ||
  ((fst r / 256) mod 256 =? fst r / 65536) &&
  ((snd r =? 0x10ffff) || ((snd r / 256) mod 256 =? snd r / 65536)).
Definition set_okb (b : N) (t : stoken) : bool :=
  wf_fromb 0 t && negb (match t with [] => true | _ => false end) &&
  forallb (fun r => if b =? 1 then snd r <=? 0xff
                   else if b =? 2 then snd r <=? 0xffff
                   else (snd r <=? 0x10ffff) && tameb r) t.
Definition dec_val (ds : list N) : option N :=
  if negb (match ds with [] => true | _ => false end) && forallb (fun c => (48 <=? c) && (c <=? 57)) ds
  then Some (fold_left (fun a c => a * 10 + (c - 48)) ds 0) else None.
Fixpoint cut (l : list N) : list N * option (list N) :=
  match l with
  | [] => ([], None)
  | c :: l' => if c =? 44 then ([], Some l') else (c :: fst (cut l'), snd (cut l'))
  end.
Definition counts_okb (l : list N) : bool :=
  match dec_val (fst (cut l)), snd (cut l) with
  | Some n, None => (n <? 2 ^ 64) && (1 <=? n) && negb (existsb (N.eqb 44) l)
  | Some n, Some [] => (n <? 2 ^ 64) && (2 <=? n)
  | Some n, Some ds =>
    match dec_val ds with
    | Some m => (n <? 2 ^ 64) && (m <? 2 ^ 64) && (2 <=? m) && (n <? m)
    | None => false
    end
  | None, _ => false
  end.
Definition tok_okb (b : N) (t : token) : bool :=
  match tk_type t with
  | CHARSET => set_okb b (tk_str t)
  | REPEATN | AREPEATN => counts_okb (tk_extra t)
  | OR | BOL | EOL | MACRO | OPENPAREN | CLOSEPAREN | OPT | AOPT | ZEROORMORE | AZEROORMORE
  | ONEORMORE | AONEORMORE => true
  | _ => false
  end.

Lemma wf_fromb_ok : forall t lo, wf_fromb lo t = true -> wf_from lo t.
Proof.
  induction t as [|[a b] t IH]; intros lo; cbn; [auto|]. rewrite !andb_true_iff, !N.leb_le.
  intros [[H1 H2] H3]. auto.
Qed.
Lemma tameb_ok r : tameb r = true -> tame r.
Proof.
  unfold tameb, tame. rewrite orb_true_iff, andb_true_iff, orb_true_iff, N.leb_le, !N.eqb_eq. tauto.
Qed.
Lemma set_okb_ok b t : set_okb b t = true -> set_ok b t.
Proof.
  unfold set_okb. rewrite !andb_true_iff. intros [[H1 H2] H3]. split; [now apply wf_fromb_ok|].
  split; [destruct t; [discriminate|easy]|]. rewrite forallb_forall in H3. apply Forall_forall. intros r Hr.
  specialize (H3 r Hr). destruct (b =? 1); [now apply N.leb_le|]. destruct (b =? 2); [now apply N.leb_le|].
  apply andb_true_iff in H3 as [A B]. split; [now apply N.leb_le|]. now apply tameb_ok.
Qed.
Lemma dec_val_ok ds n : dec_val ds = Some n -> decimal ds n.
Proof.
  unfold dec_val. destruct (negb _ && _) eqn:E; [|discriminate]. intros [= <-].
  apply andb_true_iff in E as [E1 E2]. split; [destruct ds; easy|]. split; [|auto].
  rewrite forallb_forall in E2. apply Forall_forall. intros c Hc. specialize (E2 c Hc).
  apply andb_true_iff in E2 as [A B]. apply N.leb_le in A, B. split; auto.
Qed.
Lemma cut_ok l : l = fst (cut l) ++ match snd (cut l) with Some r => 44 :: r | None => [] end.
Proof.
  induction l as [|c l IH]; cbn; [auto|]. destruct (N.eqb_spec c 44) as [->|E]; cbn; [auto|]. now rewrite <- IH.
Qed.
Lemma counts_okb_ok l : counts_okb l = true -> exists mn mx, counts l mn mx /\ counts_ok mn mx /\
  (mx = Some 1 -> mn = 1) /\ (mx = Some mn -> ~ In 44 l).
Proof.
  unfold counts_okb. intros H. rewrite (cut_ok l). revert H. destruct (cut l) as [ds [rest|]] eqn:EC; cbn [fst snd].
  - destruct (dec_val ds) as [n|] eqn:E1; [|discriminate]. destruct rest as [|x rest].
    + rewrite andb_true_iff, N.ltb_lt, N.leb_le. intros [H1 H2]. exists n, None.
      split; [constructor; now apply dec_val_ok|]. split; [split; auto|]. split; discriminate.
    + destruct (dec_val (x :: rest)) as [m|] eqn:E2; [|discriminate].
      rewrite !andb_true_iff, !N.ltb_lt, N.leb_le. intros [[[H1 H2] H3] H4]. exists n, (Some m).
      split; [constructor; now apply dec_val_ok|]. split; [split; [auto|]; repeat split; auto; lia|].
      split; intros [= ->]; lia.
  - destruct (dec_val ds) as [n|] eqn:E1; [|discriminate].
    rewrite !andb_true_iff, N.ltb_lt, N.leb_le. intros [[H1 H2] H3]. exists n, (Some n). rewrite app_nil_r.
    pose proof (cut_ok l) as Q. rewrite EC in Q. cbn in Q. rewrite app_nil_r in Q. subst ds.
    split; [constructor; now apply dec_val_ok|]. split; [split; [auto|]; repeat split; auto; lia|].
    split; [intros [= ->]; auto|]. intros _ Hi. apply negb_true_iff in H3.
    assert (X : existsb (N.eqb 44) l = true) by (apply existsb_exists; exists 44; split; [auto|apply N.eqb_refl]).
    congruence.
Qed.
Lemma tok_okb_ok b t : tok_okb b t = true -> tok_ok b t.
Proof.
  unfold tok_okb, tok_ok. destruct (tk_type t); auto using set_okb_ok, counts_okb_ok; discriminate.
Qed.

(** | at depth 0 after the first token. *)
Fixpoint top_orb (n : nat) (v : list token) : bool :=
  match v with
  | [] => false
  | t :: v' =>
    match tk_type t with
    | OPENPAREN => top_orb (S n) v'
    | CLOSEPAREN => match n with O => false | S n' => top_orb n' v' end
    | OR => match n with O => true | S _ => top_orb n v' end
    | _ => top_orb n v'
    end
  end.
Lemma top_orb_ok v : forall n, top_orb n v = false ->
  forall u t w, v = u ++ t :: w -> depth n u = Some O -> tk_type t <> OR.
Proof.
  induction v as [|a v IH]; intros n H u t w E D Et; [destruct u; discriminate|].
  destruct u as [|a' u]; cbn in E; injection E as -> ->.
  - cbn in D. injection D as ->. cbn in H. rewrite Et in H. discriminate.
  - cbn in D, H. destruct (tk_type a') eqn:Ea; try (eapply IH; eauto; fail).
    + destruct n; [discriminate|]. eapply IH; eauto.
    + destruct n; [discriminate|]. eapply IH; eauto.
Qed.
Definition is_bolb (t : token) : bool := match tk_type t with BOL => true | _ => false end.
Definition is_eolb (t : token) : bool := match tk_type t with EOL => true | _ => false end.
Definition bol_okb (seen : bool) (ts : list token) : bool :=
  negb (existsb is_bolb ts) ||
  (seen && match ts with
           | b :: v => is_bolb b && negb (existsb is_bolb v) &&
                       match v with d :: _ => negb (is_dup (tk_type d)) | [] => true end
           | [] => false
           end).
Definition rule_wfb (b : N) (seen : bool) (r : grule) : bool :=
  match gr_tokens r with
  | B :: w =>
    let ts := removelast w in
    match tk_type B, tk_type (last w B), w with
    | BEGIN, END, _ :: _ =>
      forallb (tok_okb b) ts && (match depth 0 ts with Some O => true | _ => false end) &&
      negb (existsb is_eolb ts) && bol_okb seen ts
    | _, _, _ => false
    end
  | [] => false
  end.
Lemma no_exists (P : token -> bool) ts t : existsb P ts = false -> In t ts -> P t = false.
Proof.
  intros H Ht. destruct (P t) eqn:E; [|auto]. assert (existsb P ts = true) by (apply existsb_exists; eauto). congruence.
Qed.
Lemma no_bolb ts : existsb is_bolb ts = false -> no_bol ts.
Proof. intros H. apply Forall_forall. intros t Ht E. pose proof (no_exists _ _ _ H Ht) as Q. unfold is_bolb in Q. now rewrite E in Q. Qed.
Lemma rule_wfb_ok b seen r : rule_wfb b seen r = true -> rule_wf b seen r.
Proof.
  unfold rule_wfb. destruct (gr_tokens r) as [|B w] eqn:Er; [discriminate|].
  destruct (tk_type B) eqn:EB; try discriminate. destruct (tk_type (last w B)) eqn:EE; try discriminate.
  destruct w as [|w0 w1] eqn:Ew; [discriminate|]. rewrite <- Ew in *. assert (NE : w <> []) by (rewrite Ew; discriminate).
  rewrite !andb_true_iff. intros [[[H1 H2] H3] H4]. set (ts := removelast w) in *.
  assert (T : rule_tokens r ts).
  { exists B, (last w B). split; [|auto]. rewrite Er. f_equal. now apply app_removelast_last. }
  split.
  - exists ts. split; [auto|]. split; [|split].
    + rewrite forallb_forall in H1. apply Forall_forall. intros t Ht. apply tok_okb_ok. auto.
    + unfold balanced. destruct (depth 0 ts) as [[|?]|]; [reflexivity|discriminate|discriminate].
    + apply negb_true_iff in H3. apply Forall_forall. intros t Ht E.
      pose proof (no_exists _ _ _ H3 Ht) as Q. unfold is_eolb in Q. now rewrite E in Q.
  - unfold bol_okb in H4. apply orb_true_iff in H4 as [H4|H4].
    + apply shaped_bol. left. apply (plain_tokens r ts T). apply no_bolb. now apply negb_true_iff.
    + apply andb_true_iff in H4 as [-> H4]. destruct ts as [|b0 v]; [discriminate|].
      rewrite !andb_true_iff in H4. destruct H4 as [[A1 A2] A3]. apply (early_tokens r b0 v T).
      * unfold is_bolb in A1. destruct (tk_type b0); easy.
      * intros d v' ->. now apply negb_true_iff.
      * apply no_bolb. now apply negb_true_iff.
Qed.
Fixpoint in_sets (x : stoken) (l : list stoken) : bool :=
  match l with [] => false | y :: l' => st_eqb x y || in_sets x l' end.
Definition all_sets (b : N) (g : gstate) : list stoken :=
  fold_right (fun x l => if in_sets x l then l else x :: l) []
    (flat_map (fun r => flat_map (tok_sets b) (gr_tokens r)) (gs_rules g)).
Definition state_wfb (k : gcfg) (g : gstate) : bool :=
  forallb (rule_wfb (g_bytes k) (has_bol (gs_features g))) (gs_rules g) &&
  (N.of_nat (length (all_sets (g_bytes k) g)) <? eol_tok k).
Definition rules_wfb (k : gcfg) (R : grules) : bool := forallb (state_wfb k) (gr_states R).
Definition targets_okb (k : gcfg) (R : grules) : bool :=
  let n := N.of_nat (length (gr_states R)) in
  forallb (fun g => forallb (fun r => ((gr_next r <? n) || gr_pop r) && ((gr_push r =? gnpos k) || (gr_push r <? n)))
                            (gs_rules g)) (gr_states R).
Lemma in_sets_ok x l : in_sets x l = true -> In x l.
Proof.
  induction l as [|y l IH]; cbn; [discriminate|]. rewrite orb_true_iff. intros [H|H]; [|auto].
  apply st_eqb_eq in H. auto.
Qed.
Lemma all_sets_ok x l : In x l -> In x (fold_right (fun x l => if in_sets x l then l else x :: l) [] l).
Proof.
  induction l as [|y l IH]; cbn; [auto|]. intros [->|H]; destruct (in_sets _ _) eqn:E; cbn; auto using in_sets_ok.
Qed.
Lemma rules_wfb_ok k R : rules_wfb k R = true -> rules_wf k R.
Proof.
  unfold rules_wfb. rewrite forallb_forall. intros H. apply Forall_forall. intros g Hg. specialize (H g Hg).
  apply andb_true_iff in H as [H1 H2]. apply N.ltb_lt in H2. split.
  - rewrite forallb_forall in H1. apply Forall_forall. intros r Hr. apply rule_wfb_ok. auto.
  - exists (all_sets (g_bytes k) g). split; [auto|]. intros r t Hr Ht x Hx. apply all_sets_ok.
    apply in_flat_map. exists r. split; [auto|]. apply in_flat_map. eauto.
Qed.
Lemma targets_okb_ok k R : targets_okb k R = true -> targets_ok k R.
Proof.
  unfold targets_okb. rewrite forallb_forall. intros H g r Hg Hr. specialize (H g Hg).
  rewrite forallb_forall in H. specialize (H r Hr). apply andb_true_iff in H as [H1 H2].
  split; [apply orb_true_iff in H1 as [H1|H1]; [left; now apply N.ltb_lt|right; auto]|]. apply orb_true_iff in H2 as [H2|H2]; [left; now apply N.eqb_eq|right; now apply N.ltb_lt].
Qed.
