(** The texts that a rule with one abstemious repeat of characters matches. *)
From Verif Require Import Base StringToken StringTokenSpec StringTokenProofs SliceSpec RegexSpec ReToken Grammar Parser
  Generator Build RuleSpec BuildSpec BolWords RuleWords LoopSpec StopSpec.
Local Open Scope N_scope.

(** With the characters that slicing adds. *)
Definition treads (ts : list token) (cs : list N) : Prop := Forall2 (fun t c => takes (tk_str t) c) ts cs.
Definition tloop (X bs Y : list token) (cs : list N) : Prop :=
  exists u v w, cs = u ++ v ++ w /\ treads X u /\ Forall (fun c => exists t, In t bs /\ takes (tk_str t) c) v /\ treads Y w.
Lemma treads_reads ts cs : Forall (fun c => c <= 0x10ffff) cs -> treads ts cs <-> reads ts cs.
Proof.
  intros L. unfold treads, reads. split; induction 1 as [|t c ts cs H F IH]; constructor; inversion L; subst; auto; now apply takes_mem.
Qed.
Lemma tloop_text X bs Y cs : Forall (fun c => c <= 0x10ffff) cs -> tloop X bs Y cs <-> loop_text X bs Y cs.
Proof.
  intros L. split; intros (u & v & w & -> & H1 & H2 & H3); exists u, v, w; apply Forall_app in L as [L1 L]; apply Forall_app in L as [L2 L3];
    (split; [reflexivity|]); (split; [now apply treads_reads|]); (split; [|now apply treads_reads]).
  - rewrite Forall_forall in *. intros c Hc. destruct (H2 c Hc) as (t & Ht & M). exists t. split; [exact Ht|]. apply takes_mem; auto.
  - eapply Forall_impl; [|exact H2]. intros c (t & Ht & M). exists t. split; [exact Ht|now left].
Qed.
Lemma alts_gram w ts : alts w ts -> forall a u, gram GRegex a u ->
  exists r, gram GRegex r (u ++ w) /\
    forall v, clang r v <-> clang a v \/ exists t c, In t ts /\ takes (tk_str t) c /\ v = [CChar c].
Proof.
  induction 1 as [|o t w ts Ho Ht A IH]; intros a u G.
  - exists a. rewrite app_nil_r. split; [auto|]. intros v. split; [auto|]. intros [H|(t & c & [] & _)]; auto.
  - destruct (IH (XAlt a (XSet (tk_str t))) (u ++ [o; t])) as (r & G' & L).
    + apply (g_or a _ u [t] o); auto. now apply g_seq, g_expr, g_set.
    + exists r. split; [now rewrite <- app_assoc in G'|]. intros v. rewrite L. cbn [clang]. split.
      * intros [[H|(c & Hc & ->)]|(t' & c & Hi & Hc & ->)]; [now left|right; exists t, c|right; exists t', c]; cbn; auto.
      * intros [H|(t' & c & [<-|Hi] & Hc & ->)]; [now left; left|left; right; eauto|right; eauto].
Qed.
Lemma choice_gram b bs : choice b bs -> exists r, gram GAtom r b /\
  forall v, clang r v <-> exists t c, In t bs /\ takes (tk_str t) c /\ v = [CChar c].
Proof.
  intros [t Ht|o t w ts c Ho Ht A Hc].
  - exists (XSet (tk_str t)). split; [now apply g_set|]. intros v. cbn. split.
    + intros (c & Hc & ->). exists t, c. auto.
    + intros (t' & c & [<-|[]] & Hc & ->). eauto.
  - destruct (alts_gram w ts A (XSet (tk_str t)) [t]) as (r & G & L); [now apply g_regex, g_seq, g_expr, g_set|].
    exists r. split; [apply (g_paren r (t :: w) o c); auto|]. intros v. rewrite L. cbn [clang]. split.
    + intros [(c' & Hc' & ->)|(t' & c' & Hi & Hc' & ->)]; [exists t, c'|exists t', c']; cbn; auto.
    + intros (t' & c' & [<-|Hi] & Hc' & ->); [left|right]; eauto.
Qed.
Lemma sets_gram Y : sets Y -> forall a u, gram GSeq a u -> exists r, gram GSeq r (u ++ Y) /\
  forall v, clang r v <-> exists x cs, v = x ++ map CChar cs /\ clang a x /\ treads Y cs.
Proof.
  unfold sets, treads. induction Y as [|t Y IH] using rev_ind; intros S a u G.
  - exists a. rewrite app_nil_r. split; [auto|]. intros v. split.
    + intros H. exists v, []. rewrite app_nil_r. auto.
    + intros (x & cs & -> & H & F). inversion F; subst. cbn. now rewrite app_nil_r.
  - apply Forall_app in S as [S1 S2]. inversion S2 as [|? ? Ht _]; subst.
    destruct (IH S1 a u G) as (r & G' & L). exists (XCat r (XSet (tk_str t))). split.
    + rewrite app_assoc. apply g_cat; [auto|]. now apply g_expr, g_set.
    + intros v. cbn [clang]. split.
      * intros (y & z & -> & Hy & c & Hc & ->). apply L in Hy as (x & cs & -> & Hx & F).
        exists x, (cs ++ [c]). rewrite map_app, app_assoc. split; [auto|]. split; [auto|]. apply Forall2_app; auto.
      * intros (x & cs & -> & Hx & F). apply Forall2_app_inv_l in F as (cs1 & cs2 & F1 & F2 & ->).
        inversion F2 as [|? c ? ? Hc F3]; subst. inversion F3; subst. exists (x ++ map CChar cs1), [CChar c].
        rewrite map_app, app_assoc. split; [auto|]. split; [|eauto]. apply L. eauto.
Qed.
Lemma first_gram X : sets X -> X <> [] -> exists r, gram GSeq r X /\
  forall v, clang r v <-> exists cs, v = map CChar cs /\ treads X cs.
Proof.
  intros S NE. destruct X as [|t X]; [congruence|]. inversion S as [|? ? Ht S']; subst.
  destruct (sets_gram X S' (XSet (tk_str t)) [t]) as (r & G & L); [now apply g_seq, g_expr, g_set|].
  exists r. split; [exact G|]. intros v. rewrite L. cbn [clang]. split.
  - intros (x & cs & -> & (c & Hc & ->) & F). exists (c :: cs). split; [auto|]. constructor; auto.
  - intros (cs & -> & F). inversion F as [|? c ? cs' Hc F']; subst. exists [CChar c], cs'. split; [auto|]. split; eauto.
Qed.

Theorem loop_words x ts X b bs z Y : rule_tokens x ts -> loop_tokens ts X b bs z Y ->
  forall bol cs, Forall (fun c => c <= 0x10ffff) cs -> rmatch x bol cs <-> loop_text X bs Y cs.
Proof.
  intros T [-> NE SX CB Hz SY _] bol cs LOW. rewrite <- (tloop_text X bs Y cs LOW).
  destruct (first_gram X SX NE) as (r1 & G1 & L1). destruct (choice_gram b bs CB) as (r2 & G2 & L2).
  assert (G3 : gram GSeq (XCat r1 (XStar r2)) (X ++ b ++ [z])).
  { apply g_cat; [auto|]. apply (g_dup r2 b z XStar); [auto|]. apply dp_star. auto. }
  destruct (sets_gram Y SY _ _ G3) as (r & G & L).
  assert (GO : ogram (Some r) (X ++ b ++ z :: Y)).
  { cbn. apply g_regex. now rewrite <- !app_assoc in G. }
  assert (PW : forall n v, power (clang r2) n v -> exists cs, v = map CChar cs /\
    Forall (fun c => exists t, In t bs /\ takes (tk_str t) c) cs).
  { induction n as [|n IH]; intros v; cbn [power].
    - intros ->. exists []. auto.
    - intros (u & w & -> & H1 & H2). apply L2 in H1 as (t & c & Hi & Hc & ->). destruct (IH w H2) as (l & -> & F).
      exists (c :: l). split; [auto|]. constructor; eauto. }
  assert (WP : forall l, Forall (fun c => exists t, In t bs /\ takes (tk_str t) c) l -> power (clang r2) (length l) (map CChar l)).
  { induction 1 as [|c l (t & Hi & Hc) F IH]; [reflexivity|]. exists [CChar c], (map CChar l). split; [auto|].
    split; [|auto]. apply L2. exists t, c. auto. }
  assert (RL : forall v, rule_lang x v <-> exists cs, v = map CChar cs /\ tloop X bs Y cs).
  { intros v. rewrite (rule_lang_o x _ _ v T GO). cbn [oclang]. rewrite L. cbn [clang]. split.
    - intros (y & c3 & -> & (u & w & -> & H1 & n & H2) & F3). apply L1 in H1 as (c1 & -> & F1).
      apply PW in H2 as (c2 & -> & F2). exists (c1 ++ c2 ++ c3). rewrite !map_app, !app_assoc. split; [auto|].
      exists c1, c2, c3. rewrite !app_assoc. auto.
    - intros (l & -> & c1 & c2 & c3 & -> & F1 & F2 & F3). exists (map CChar (c1 ++ c2)), c3.
      split; [now rewrite <- map_app, <- app_assoc|]. split; [|auto].
      exists (map CChar c1), (map CChar c2). split; [apply map_app|]. split; [apply L1; eauto|].
      exists (length c2). now apply WP. }
  assert (IJ : forall a c : list N, map CChar a = map CChar c -> a = c).
  { induction a as [|y a IH]; intros [|y' c]; cbn; intros E; try discriminate; auto. injection E as -> E. f_equal. auto. }
  assert (NB : plain_rule x).
  { intros w Hw Hb. apply RL in Hw as (l & -> & _). apply in_map_iff in Hb as (c & E & _). discriminate. }
  rewrite plain_match by exact NB. unfold rmatch. rewrite RL. split; [|eauto].
  intros (l & E & H). apply IJ in E. now subst l.
Qed.
