(** The loop of parse(): it always ends, and it succeeds exactly on the grammar. *)
From Verif Require Import Base StringToken StringTokenSpec Tree TreeSpec RegexSpec
  TreeProofs StateMachine Partition Generator GenMap DfaSpec Slice ReToken Parser Grammar ParserTree
  ParserProofs ParserSound.
Local Open Scope N_scope.

(** ** Termination measure *)
Definition wsum (s : list token) : nat := fold_right (fun t n => tweight (tk_type t) + n)%nat 0%nat s.
Definition rsum (s : list token) : nat := fold_right (fun t n => S (tweight (tk_type t)) + n)%nat 0%nat s.
Lemma wsum_app a b : wsum (a ++ b) = (wsum a + wsum b)%nat.
Proof. induction a as [|t a IH]; cbn [app wsum fold_right] in *; [auto|]. unfold wsum in *. cbn. lia. Qed.
Lemma tweight_pos t : (1 <= tweight t)%nat.
Proof. destruct t; cbn; lia. Qed.

(** The handle: a suffix of pairs related by '='. *)
Lemma pop_handle_spec s : forall h r more st, pop_handle s h = Ok (r :: more, st) ->
  (exists b, s = rev b ++ st /\ r :: more = b ++ h /\ b <> []) /\
  match h with
  | [] => match more with [] => hd_error s = Some r | x :: _ => precedence (tk_type r) (tk_type x) = Some E_ end
  | x :: _ => (match s with y :: _ => precedence (tk_type y) (tk_type x) = Some E_ | [] => True end) ->
              match more with y :: _ => precedence (tk_type r) (tk_type y) = Some E_ | [] => False end
  end.
Proof.
  induction s as [|y s IH]; intros h r more st; cbn [pop_handle]; [discriminate|].
  assert (Base : Ok (y :: h, s) = Ok (r :: more, st) ->
    (exists b, y :: s = rev b ++ st /\ r :: more = b ++ h /\ b <> []) /\
    match h with
    | [] => match more with [] => hd_error (y :: s) = Some r | x :: _ => precedence (tk_type r) (tk_type x) = Some E_ end
    | x :: _ => precedence (tk_type y) (tk_type x) = Some E_ ->
              match more with y :: _ => precedence (tk_type r) (tk_type y) = Some E_ | [] => False end
    end).
  { intros [= <- <- <-]. split.
    - exists [y]. cbn. repeat split; auto. discriminate.
    - destruct h; auto. }
  destruct s as [|z s']; [exact Base|].
  destruct (precedence (tk_type z) (tk_type y)) as [[]|] eqn:P; try discriminate; try exact Base.
  intros H. apply IH in H as [(b & E1 & E2 & NE) H]. split.
  - exists (b ++ [y]). rewrite rev_app_distr. cbn. rewrite <- E1. split; [auto|].
    rewrite <- app_assoc. cbn. split; [auto|]. now destruct b.
  - cbn beta iota in H. specialize (H P). destruct more as [|m0 more]; [tauto|].
    destruct h; auto.
Qed.

Section Loop.
Variable k : gcfg.
Lemma a_reduce_lt s la st : a_reduce k s = Some st ->
  match s with b :: _ => precedence (tk_type b) (tk_type la) = Some G_ | [] => False end ->
  (wsum st < wsum s)%nat.
Proof.
  unfold a_reduce. destruct (pop_handle s []) as [[[|r more] rest]| | |] eqn:E; try discriminate.
  intros H P. apply pop_handle_spec in E as [(b & E1 & E2 & _) Hm]. rewrite app_nil_r in E2. subst b.
  assert (W : wsum s = (tweight (tk_type r) + wsum more + wsum rest)%nat).
  { rewrite E1, wsum_app. cbn [rev]. rewrite wsum_app.
    assert (R : forall l, wsum (rev l) = wsum l).
    { induction l as [|t l IH]; cbn [rev]; [auto|]. rewrite wsum_app, IH. unfold wsum. cbn. lia. }
    rewrite R. unfold wsum. cbn. lia. }
  rewrite W. clear E1 W.
  assert (M : more = [] \/ (1 <= wsum more)%nat).
  { destruct more as [|x more]; [auto|]. right. unfold wsum. cbn [fold_right].
    pose proof (tweight_pos (tk_type x)). lia. }
  destruct (tk_type r) eqn:Er; try discriminate; injection H as <-;
    try (destruct more as [|x more']; [|destruct M; [discriminate|]]);
    try (unfold set_stack; destruct (compressed k));
    unfold wsum in *; cbn [fold_right tok tk_type tweight] in *; try lia.
  1,2: (* OPENPAREN alone *)
    exfalso; destruct s as [|b s]; [tauto|]; cbn in Hm; injection Hm as ->; rewrite Er in P;
    destruct (tk_type la); discriminate.
  all: rewrite ?Er in Hm; destruct (tk_type x); try discriminate; cbn in *; lia.
Qed.

(** Accepting runs of the token stack machine. *)
Definition aacc (c : aconf) : Prop :=
  exists c1 c2, aruns k c c1 /\ astep k c1 = Some c2 /\ fst c2 = [].
Lemma aacc_none c : astep k c = None -> ~ aacc c.
Proof. intros H (c1 & c2 & R & S & _). inversion R; subst; congruence. Qed.
Lemma aacc_step c c' : astep k c = Some c' -> fst c' <> [] -> aacc c -> aacc c'.
Proof.
  intros H NE (c1 & c2 & R & S & Z). inversion R as [|? c3 ? S3 N3 R3]; subst.
  - rewrite H in S. injection S as <-. easy.
  - rewrite H in S3. injection S3 as <-. exists c1, c2. auto.
Qed.

Notation bsz := (g_bytes k).
Hypothesis WO : wide_ok k.
Variable s0 : store.
Variable m0 : charset_map.
Notation vals := (vals k s0 m0).
Notation langs vs := (map (xlang bsz) vs).
Variable E : token.
Hypothesis Eend : tk_type E = END.

Lemma tok_ok_not_end t : tok_ok bsz t -> tk_type t <> END.
Proof. unfold tok_ok. destruct (tk_type t); easy. Qed.

Lemma no_shift_end a : precedence (tk_type a) END <> Some L_ /\ precedence (tk_type a) END <> Some E_.
Proof. destruct (tk_type a); split; discriminate. Qed.

Lemma inv_ne st la vs u : inv k st la vs u -> st <> [].
Proof. intros H. destruct H; try discriminate. destruct H; discriminate. Qed.
Lemma inv_shift st la vs u la' : inv k st la vs u -> tok_ok bsz la ->
  match st with b :: _ => below b la | [] => False end ->
  inv k (la :: st) la' vs (u ++ [la]).
Proof.
  intros H T Bl.
  destruct H as [st la vs u K|a st la vs u R r w K ER Bl1 G ND|a st la vs u D R r w K ER Bl1 ED G
                |a st la vs u r w K Bl1 G|D z st la vs u ED Dz|b la r u Eb El G].
  - destruct st as [|b st]; [tauto|]. apply inv_stk. now apply stk_term.
  - exfalso. unfold below in Bl. rewrite ER in Bl.
    unfold tok_ok in T. destruct (tk_type la); try discriminate; destruct Bl; try discriminate; easy.
  - exfalso. unfold below in Bl. rewrite ED in Bl. destruct (tk_type la); destruct Bl; discriminate.
  - exfalso. unfold below in Bl. cbn in Bl. destruct (tk_type la); destruct Bl; discriminate.
  - exfalso. unfold below in Bl. rewrite ED in Bl. destruct (tk_type la); destruct Bl; discriminate.
  - exfalso. now apply tok_ok_not_end in T.
Qed.

Lemma tok_ok_cell b t : tok_ok bsz t \/ tk_type t = END -> tk_type b <> DIFF ->
  precedence (tk_type b) (tk_type t) <> None.
Proof.
  intros T D. assert (tk_type t <> DIFF).
  { intros Z. unfold tok_ok in T. rewrite Z in T. destruct T; easy. }
  destruct (tk_type b), (tk_type t); try discriminate; easy.
Qed.
Lemma inv_table b st la vs u : inv k (b :: st) la vs u -> tok_ok bsz la \/ tk_type la = END ->
  precedence (tk_type b) (tk_type la) <> None.
Proof.
  intros I T. apply tok_ok_cell; auto. intros D.
  inversion I as [? ? ? ? K| | | | |]; subst; cbn in *; try congruence.
  inversion K as [|? ? ? ? ? X ? ? ? ? N|? ? ? ? ? ? ? T']; subst; try congruence.
  - rewrite D in N. discriminate.
  - unfold tok_ok in T'. now rewrite D in T'.
Qed.

Lemma ploop_ok w : balanced w -> Forall (tok_ok bsz) w -> forall fuel s x vs u rest,
  inv k (ps_stack s) (fst x) vs u -> vals s (langs vs) -> stream E x rest -> w = u ++ rest ->
  (wsum (ps_stack s) + rsum rest < fuel)%nat ->
  (exists s' vs', ploop fuel k (s, x) = Ok s' /\ ps_stack s' = [] /\ vals s' (langs vs') /\ fin vs' w) \/
  (exists e, ploop fuel k (s, x) = Throw e /\ ~ aacc (ps_stack s, x)).
Proof.
  intros Bal TO. induction fuel as [|fuel IH]; intros s x vs u rest I V St Ew Hf; [lia|].
  cbn [ploop]. unfold pstep. cbn [fst snd].
  pose proof (inv_ne _ _ _ _ I) as NE. destruct (ps_stack s) as [|b st] eqn:Est; [easy|].
  destruct x as [la it]. cbn [fst snd] in *.
  assert (Hd : la = hd E rest) by (apply stream_head in St; auto).
  assert (Tr : Forall (tok_ok bsz) rest) by (rewrite Ew in TO; apply Forall_app in TO; tauto).
  assert (AS : forall p, precedence (tk_type b) (tk_type la) = p ->
    astep k (b :: st, (la, it)) =
    match p with
    | Some L_ | Some E_ =>
      match fetch it with Ok x => Some (la :: b :: st, x) | _ => None end
    | Some G_ => match a_reduce k (b :: st) with Some st' => Some (st', (la, it)) | None => None end
    | _ => None
    end) by (intros p <-; reflexivity).
  assert (SH : below b la ->
    (exists s' vs', (do c' <- (do x <- fetch it; Ok (with_stack (la :: b :: st) s, x));
        match ps_stack (fst c') with [] => Ok (fst c') | _ => ploop fuel k c' end) = Ok s' /\
        ps_stack s' = [] /\ vals s' (langs vs') /\ fin vs' w) \/
    (exists e, (do c' <- (do x <- fetch it; Ok (with_stack (la :: b :: st) s, x));
        match ps_stack (fst c') with [] => Ok (fst c') | _ => ploop fuel k c' end) = Throw e /\
        ~ aacc (b :: st, (la, it)))).
  { intros Bl. destruct rest as [|t rest].
    { exfalso. cbn in Hd. subst la. unfold below in Bl. rewrite Eend in Bl.
      destruct (no_shift_end b). tauto. }
    cbn in Hd. subst t. destruct (stream_fetch E la it rest St) as (x' & Ef & St').
    rewrite Ef. cbn [bind fst with_stack ps_stack]. inversion Tr as [|? ? Tla Tr']; subst.
    destruct (IH (with_stack (la :: b :: st) s) x' vs (u ++ [la]) rest) as [H|(e & H1 & H2)]; auto.
    - cbn [with_stack ps_stack]. eapply inv_shift; eauto.
    - now rewrite <- app_assoc.
    - cbn [with_stack ps_stack]. unfold wsum, rsum in *. cbn [fold_right] in *. lia.
    - right. exists e. split; [exact H1|]. intros Ha. apply H2. cbn [with_stack ps_stack].
      apply (aacc_step (b :: st, (la, it))); auto; [|discriminate].
      destruct Bl as [Bl|Bl]; rewrite (AS _ Bl), Ef; reflexivity. }
  destruct (precedence (tk_type b) (tk_type la)) as [[]|] eqn:P.
  - right. exists ESyntax. split; [reflexivity|]. apply aacc_none. now rewrite (AS _ eq_refl).
  - apply SH. now left.
  - apply SH. now right.
  - (* reduce *)
    destruct (reduce_ok k WO s0 m0 s la vs u) as [(s' & vs' & Er & Ea & V' & Hs)|(e & Er & Ea)].
    + now rewrite Est.
    + auto.
    + now rewrite Est.
    + unfold balanced in Bal. rewrite Ew, depth_app in Bal. destruct (depth 0 u); discriminate.
    + intros El. destruct rest as [|t rest].
      * rewrite app_nil_r in Ew. now subst u.
      * exfalso. cbn in Hd. subst t. inversion Tr; subst. now apply (tok_ok_not_end la).
    + rewrite Er. cbn [bind fst]. rewrite Est in Ea. destruct Hs as [Hs|[Hs Hf2]].
      * pose proof (inv_ne _ _ _ _ Hs) as NE'. destruct (ps_stack s') as [|b' st'] eqn:Est'; [easy|].
        rewrite <- Est' in *.
        destruct (IH s' (la, it) vs' u rest) as [H|(e & H1 & H2)]; auto.
        -- assert (L : (wsum (ps_stack s') < wsum (b :: st))%nat) by (apply (a_reduce_lt (b :: st) la); auto).
           lia.
        -- right. exists e. split; [exact H1|]. intros Ha. apply H2.
           apply (aacc_step (b :: st, (la, it))); auto. now rewrite (AS _ eq_refl), Ea.
      * destruct Hf2 as [El Hf2]. rewrite Hs. left. exists s', vs'. do 3 (split; [auto|]).
        destruct rest as [|t rest]; [now rewrite Ew, app_nil_r|]. exfalso. cbn in Hd. subst t.
        inversion Tr; subst. now apply (tok_ok_not_end la).
    + rewrite Er. cbn [bind]. right. exists e. split; [reflexivity|]. apply aacc_none.
      rewrite (AS _ eq_refl). rewrite Est in Ea. now rewrite Ea.
  - exfalso. eapply inv_table; eauto. destruct rest as [|t rest]; cbn in Hd; subst la; [auto|].
    inversion Tr; auto.
Qed.
End Loop.
