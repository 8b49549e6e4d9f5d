(** The position automaton as it is stored: runs along the follow sets in the
    store, and trees built for regular expressions. *)
From Verif Require Import Base StringToken StringTokenSpec RegexSpec StateMachine Tree TreeSpec Glushkov
  TreeProofs ReToken DfaSpec Grammar Partition Generator Parser GenMap ParserTree ParserErrs ParserRule GramUnique.
From Coq Require Import Lia.
Local Open Scope N_scope.

(** ** Runs *)
Section Run.
  Context {A : Type}.
  Variable sem : N -> A -> Prop.
  (** Reading [w] from position [p] on ends at a position in [last]. *)
  Fixpoint srun (s : store) (last : list nat) (w : list A) (p : nat) : Prop :=
    match w with
    | [] => False
    | a :: w' => exists t g f, nth_error s p = Some (PLeaf t g f) /\ sem t a /\
        ((w' = [] /\ In p last) \/ exists q, In q f /\ srun s last w' q)
    end.
  Definition saccepts (s : store) (n : node) (w : list A) : Prop :=
    (w = [] /\ nullable n = true) \/ exists p, In p (firstpos n) /\ srun s (lastpos n) w p.
  (** Reading [w] from position [p] on ends in front of an end node. *)
  Fixpoint erun (s : store) (w : list A) (p : nat) : Prop :=
    match w with
    | [] => exists e, nth_error s p = Some (PEnd e)
    | a :: w' => exists t g f, nth_error s p = Some (PLeaf t g f) /\ sem t a /\
        exists q, In q f /\ erun s w' q
    end.
  Definition eaccepts (s : store) (root : node) (w : list A) : Prop :=
    exists p, In p (firstpos root) /\ erun s w p.

  Lemma srun_suf s n : okn s n -> forall w p, In p (poss n) -> srun s (lastpos n) w p <-> suf sem n w p.
  Proof.
    intros (P & ND & L). induction w as [|a w IH]; intros p Hp; [reflexivity|]. cbn [srun suf]. split.
    - intros (t & g & f & E & S & H). apply in_map_iff in Hp as ((p', t') & Ep & Hp). cbn in Ep. subst p'.
      destruct (L p t' Hp) as (g' & f' & E' & F). rewrite E in E'. injection E' as <- <- <-.
      split; [exists t; auto|]. destruct H as [H|(q & Hq & H)]; [auto|]. right. exists q.
      apply F in Hq. split; [auto|]. apply IH; auto. eapply fol_poss; eauto.
    - intros [(t & Ht & S) H]. destruct (L p t Ht) as (g & f & E & F). exists t, g, f. split; [auto|]. split; [auto|].
      destruct H as [H|(q & Hq & H)]; [auto|]. right. exists q. split; [now apply F|]. apply IH; auto. eapply fol_poss; eauto.
  Qed.
  Theorem saccepts_den s n : okn s n -> forall w, saccepts s n w <-> den sem n w.
  Proof.
    intros O w. pose proof O as (P & ND & _). rewrite (glushkov sem n w P ND). unfold saccepts, auto.
    split; (intros [H|(p & Hp & H)]; [auto|right; exists p; split; [auto|]]); apply (srun_suf s n O w p); auto; eapply firstpos_poss; eauto.
  Qed.
  Lemma erun_suf s d : rshape s d -> forall w p, In p (poss (dr_tree d)) -> erun s w p <-> suf sem (dr_tree d) w p.
  Proof.
    intros [P ND E L]. induction w as [|a w IH]; intros p Hp.
    - cbn. split; [|tauto]. intros (e & Ee). apply in_map_iff in Hp as ((p', t') & Ep & Hp). cbn in Ep. subst p'.
      destruct (L p t' Hp) as (g & f & Ef & _). congruence.
    - cbn [erun suf]. split.
      + intros (t & g & f & Ef & S & q & Hq & H). apply in_map_iff in Hp as ((p', t') & Ep & Hp). cbn in Ep. subst p'.
        destruct (L p t' Hp) as (g' & f' & E' & F). rewrite Ef in E'. injection E' as <- <- <-.
        split; [exists t; auto|]. apply F in Hq as [Hq|[Hl ->]].
        * right. exists q. split; [auto|]. apply IH; auto. eapply fol_poss; eauto.
        * left. split; [|auto]. destruct w as [|b w]; [auto|]. cbn in H. destruct H as (? & ? & ? & H & _). congruence.
      + intros [(t & Ht & S) H]. destruct (L p t Ht) as (g & f & Ef & F). exists t, g, f. split; [auto|]. split; [auto|].
        destruct H as [[-> H]|(q & Hq & H)].
        * exists (dr_end d). split; [apply F; auto|]. cbn. eauto.
        * exists q. split; [apply F; auto|]. apply IH; auto. eapply fol_poss; eauto.
  Qed.
  Theorem eaccepts_den s d root : rshape s d -> rfirst d (firstpos root) -> forall w, eaccepts s root w <-> den sem (dr_tree d) w.
  Proof.
    intros S [_ F] w. pose proof S as [P ND E L]. rewrite (glushkov sem _ w P ND). unfold eaccepts, auto. split.
    - intros (p & Hp & H). apply F in Hp as [Hp|[Hn ->]].
      + right. exists p. split; [auto|]. apply (erun_suf s d S); auto. eapply firstpos_poss; eauto.
      + left. split; [|auto]. destruct w as [|a w]; [auto|]. cbn in H. destruct H as (? & ? & ? & H & _). congruence.
    - intros [[-> Hn]|(p & Hp & H)].
      + exists (dr_end d). split; [apply F; auto|]. cbn. eauto.
      + exists p. split; [apply F; auto|]. apply (erun_suf s d S); auto. eapply firstpos_poss; eauto.
  Qed.
End Run.

(** ** Trees for regular expressions *)
(** The order of the parser's reductions: operands first, then the operation on
    the node stack. [npos] is null_token(). *)
Fixpoint tree_of (npos : N) (g : greedy) (r : re) (st : tstate) : res tstate :=
  match r with
  | REps => let x := mk_leaf npos npos g (snd st) in Ok (fst x :: fst st, snd x)
  | RTok t => let x := mk_leaf npos t g (snd st) in Ok (fst x :: fst st, snd x)
  | RCat a b => do s1 <- tree_of npos g a st; do s2 <- tree_of npos g b s1; t_sequence s2
  | RAlt a b => do s1 <- tree_of npos g a st; do s2 <- tree_of npos g b s1; t_or s2
  | RStar a => do s1 <- tree_of npos g a st; t_star g s1
  | RPlus a => do s1 <- tree_of npos g a st; t_plus g s1
  | ROpt a => do s1 <- tree_of npos g a st; t_optional g s1
  | RRep a mn None => do s1 <- tree_of npos g a st; t_repeat g (N.of_nat mn) true 0 s1
  | RRep a mn (Some mx) => do s1 <- tree_of npos g a st;
      t_repeat g (N.of_nat mn) (negb (Nat.eqb mn mx)) (if Nat.eqb mn mx then 0 else N.of_nat mx) s1
  end.
(** Repeats as the tokeniser leaves them ({0,}, {1,} and {0,1} are written *, +
    and ?, and {n,n} is written {n}); no class has the number null_token(). *)
Fixpoint re_ok (npos : N) (r : re) : Prop :=
  match r with
  | REps => True
  | RTok t => t <> npos
  | RCat a b | RAlt a b => re_ok npos a /\ re_ok npos b
  | RStar a | RPlus a | ROpt a => re_ok npos a
  | RRep a mn None => re_ok npos a /\ (2 <= mn)%nat
  | RRep a mn (Some mx) => re_ok npos a /\ (mn <= mx)%nat /\ (1 <= mx)%nat /\ (mx = 1%nat -> mn = 1%nat)
  end.

Section Build.
  Context {A : Type}.
  Variable sem : N -> A -> Prop.
  Variables (npos : N) (s0 : store).
  Lemma tree_of_ok g r : re_ok npos r -> forall ns s, twf s0 ns s ->
    exists n s', tree_of npos g r (ns, s) = Ok (n :: ns, s') /\ twf s0 (n :: ns) s' /\
      forall w, den sem n w <-> lang sem r w.
  Proof.
    induction r as [|t|a IHa b IHb|a IHa b IHb|a IHa|a IHa|a IHa|a IHa mn mx]; cbn [re_ok tree_of]; intros HR ns s W.
    - unfold mk_leaf. rewrite N.eqb_refl. cbn [fst snd]. exists (NNull g), s. split; [auto|].
      split; [apply (t_leaf_ok s0 npos npos g ns s); auto; unfold mk_leaf; now rewrite N.eqb_refl|]. reflexivity.
    - destruct (mk_leaf npos t g s) as [n s'] eqn:E. cbn [fst snd]. rewrite E. exists n, s'. split; [auto|].
      split; [eapply t_leaf_ok; eauto|]. intros w. unfold mk_leaf in E. apply N.eqb_neq in HR. rewrite HR in E. injection E as <- <-. reflexivity.
    - destruct HR as [Ha Hb]. destruct (IHa Ha ns s W) as (na & s1 & Ea & Wa & Da). rewrite Ea. cbn [bind].
      destruct (IHb Hb (na :: ns) s1 Wa) as (nb & s2 & Eb & Wb & Db). rewrite Eb. cbn [bind].
      destruct (t_sequence_ok s0 na nb ns s2 Wb) as (s3 & Es & Ws). exists (NSeq na nb), s3. split; [apply Es|]. split; [auto|].
      intros w. cbn. split; intros (u & v & E & H1 & H2); exists u, v; (split; [auto|]); split; try apply Da; try apply Db; auto.
    - destruct HR as [Ha Hb]. destruct (IHa Ha ns s W) as (na & s1 & Ea & Wa & Da). rewrite Ea. cbn [bind].
      destruct (IHb Hb (na :: ns) s1 Wa) as (nb & s2 & Eb & Wb & Db). rewrite Eb. cbn [bind].
      destruct (t_or_ok s0 na nb ns s2 Wb) as [Es Ws]. exists (NSel na nb), s2. split; [apply Es|]. split; [auto|].
      intros w. cbn. now rewrite Da, Db.
    - destruct (IHa HR ns s W) as (na & s1 & Ea & Wa & Da). rewrite Ea. cbn [bind].
      destruct (t_star_ok sem s0 g na ns s1 Wa) as (n' & s' & Es & Ws & Ds). exists n', s'. split; [apply Es|]. split; [auto|].
      intros w. rewrite Ds, power_star. cbn. split; intros (j & H); exists j; (eapply power_ext; [|exact H]); intros u; rewrite Da; tauto.
    - destruct (IHa HR ns s W) as (na & s1 & Ea & Wa & Da). rewrite Ea. cbn [bind].
      destruct (t_plus_ok sem s0 g na ns s1 Wa) as (n' & s' & Es & Ws & Ds). exists n', s'. split; [apply Es|]. split; [auto|].
      intros w. rewrite Ds. cbn. split; intros (j & Hj & H); exists j; (split; [auto|]); (eapply power_ext; [|exact H]); intros u; rewrite Da; tauto.
    - destruct (IHa HR ns s W) as (na & s1 & Ea & Wa & Da). rewrite Ea. cbn [bind].
      destruct (t_optional_ok sem s0 g na ns s1 Wa) as (n' & s' & Es & Ws & Ds). exists n', s'. split; [apply Es|]. split; [auto|].
      intros w. rewrite Ds. cbn. now rewrite Da.
    - assert (Q : re_ok npos a /\ exists comma max, rep_args (N.of_nat mn) comma max /\
        rep_max (N.of_nat mn) comma max = mx /\
        match mx with
        | None => do s1 <- tree_of npos g a (ns, s); t_repeat g (N.of_nat mn) true 0 s1
        | Some mx => do s1 <- tree_of npos g a (ns, s);
            t_repeat g (N.of_nat mn) (negb (Nat.eqb mn mx)) (if Nat.eqb mn mx then 0 else N.of_nat mx) s1
        end = do s1 <- tree_of npos g a (ns, s); t_repeat g (N.of_nat mn) comma max s1).
      { unfold rep_args, rep_max. destruct mx as [mx|].
        - destruct HR as (Ha & H1 & H2 & H3). split; [auto|]. destruct (Nat.eqb_spec mn mx) as [->|NE].
          + exists false, 0. split; [left; split; [auto|lia]|]. split; [now rewrite Nat2N.id|reflexivity].
          + exists true, (N.of_nat mx). split; [right; right; split; [auto|lia]|]. split; [|reflexivity].
            destruct (N.eqb_spec (N.of_nat mx) 0); [lia|]. now rewrite Nat2N.id.
        - destruct HR as [Ha H1]. split; [auto|]. exists true, 0. split; [right; left; repeat split; lia|]. split; reflexivity. }
      destruct Q as (Ha & comma & max & RA & RM & ->).
      destruct (IHa Ha ns s W) as (na & s1 & Ea & Wa & Da). rewrite Ea. cbn [bind].
      destruct (t_repeat_ok sem s0 g (N.of_nat mn) comma max na ns s1 Wa RA) as (n' & s' & Es & Ws & Ds). exists n', s'. split; [apply Es|].
      split; [auto|]. intros w. rewrite Ds, RM, Nat2N.id. cbn.
      split; intros (j & H1 & H2 & H); exists j; (split; [auto|]); (split; [auto|]); (eapply power_ext; [|exact H]); intros u; rewrite Da; tauto.
  Qed.
End Build.

(** C14: for a fresh store. *)
Lemma twf_nil s : twf s [] s.
Proof. repeat split; auto; try constructor. intros p []. Qed.
Theorem tree_of_accepts {A} (sem : N -> A -> Prop) npos g r s : re_ok npos r ->
  exists n s', tree_of npos g r ([], s) = Ok ([n], s') /\ forall w, saccepts sem s' n w <-> lang sem r w.
Proof.
  intros HR. destruct (tree_of_ok sem npos s g r HR [] s (twf_nil s)) as (n & s' & E & W & D).
  exists n, s'. split; [auto|]. intros w. rewrite saccepts_den; [apply D|]. now apply twf_cons in W.
Qed.

(** ** Parsing one rule *)
Definition fresh (k : gcfg) (st : store) : pstate :=
  {| ps_stack := []; ps_tree := ([], st); ps_map := []; ps_cr := gnpos k; ps_nl := gnpos k |}.
Theorem parse_grammar k B w E e seen st : wide_ok k -> 2 <= g_bits k -> tk_type B = BEGIN -> tk_type E = END ->
  Forall (tok_ok (g_bytes k)) w -> balanced w ->
  match parse k (B :: w ++ [E]) e seen (fresh k st) with
  | Ok (root, s') => exists o, ogram o w /\ ps_stack s' = [] /\ fst (ps_tree s') = [] /\
      (N.of_nat (length (ps_map s')) < eol_tok k ->
       forall v, eaccepts (token_sem k (ps_map s')) (snd (ps_tree s')) root v <->
                 rule_words (g_bytes k) seen (olang (g_bytes k) o) v)
  | Throw x => (x = ESyntax \/ x = EInternal) /\ forall o, ~ ogram o w
  | UB | Fuel => False
  end.
Proof.
  intros WO HK HB HE TO BA.
  destruct (parse_ok k WO B w E e seen (fresh k st)) as [(root & s' & o & d & Ep & P)|(x & Ep & NG)]; auto.
  - intros _. split; constructor.
  - unfold bol_tok, gnpos, npos_of. pose proof (N.pow_le_mono_r 2 2 (g_bits k) ltac:(lia) HK). lia.
  - rewrite Ep. exists o. destruct P as [G S1 S2 MP _ _ _ SH FI _ _ ME _]. split; [auto|]. split; [auto|]. split; [auto|]. intros HL v.
    rewrite (eaccepts_den _ _ d root SH FI). destruct ME as [M _]. apply M; [apply mext_refl|].
    split; [|auto]. now apply MP.
  - rewrite Ep. split; [|auto]. apply (pt_parse k (B :: w ++ [E]) e seen (fresh k st)). auto.
Qed.

(** ** Repeats *)
Section Rep.
  Context {A : Type}.
  Variable sem : N -> A -> Prop.
  Variables (npos : N) (g : greedy) (r : re) (s : store).
  Hypothesis HR : re_ok npos r.
  Lemma repeat_exactly m : (1 <= m)%nat ->
    exists n s', tree_of npos g (RRep r m (Some m)) ([], s) = Ok ([n], s') /\
      forall w, saccepts sem s' n w <-> power (lang sem r) m w.
  Proof.
    intros Hm. destruct (tree_of_accepts sem npos g (RRep r m (Some m)) s) as (n & s' & E & H).
    { cbn. repeat split; auto; lia. }
    exists n, s'. split; [auto|]. intros w. rewrite H. cbn. split.
    - intros (j & H1 & H2 & HP). now replace m with j by lia.
    - intros HP. exists m. auto.
  Qed.
  Lemma repeat_at_least m : (2 <= m)%nat ->
    exists n s', tree_of npos g (RRep r m None) ([], s) = Ok ([n], s') /\
      forall w, saccepts sem s' n w <-> exists j, (m <= j)%nat /\ power (lang sem r) j w.
  Proof.
    intros Hm. destruct (tree_of_accepts sem npos g (RRep r m None) s) as (n & s' & E & H).
    { cbn. auto. }
    exists n, s'. split; [auto|]. intros w. rewrite H. cbn. split; intros (j & HP); exists j; tauto.
  Qed.
  Lemma repeat_between m m' : (m < m')%nat -> (2 <= m')%nat ->
    exists n s', tree_of npos g (RRep r m (Some m')) ([], s) = Ok ([n], s') /\
      forall w, saccepts sem s' n w <-> exists j, (m <= j <= m')%nat /\ power (lang sem r) j w.
  Proof.
    intros Hm Hm'. destruct (tree_of_accepts sem npos g (RRep r m (Some m')) s) as (n & s' & E & H).
    { cbn. repeat split; auto; lia. }
    exists n, s'. split; [auto|]. intros w. rewrite H. cbn. split; intros (j & HP); exists j; tauto.
  Qed.
  Lemma repeat_star_plus_opt :
    (exists n s', tree_of npos g (RStar r) ([], s) = Ok ([n], s') /\
       forall w, saccepts sem s' n w <-> exists j, power (lang sem r) j w) /\
    (exists n s', tree_of npos g (RPlus r) ([], s) = Ok ([n], s') /\
       forall w, saccepts sem s' n w <-> exists j, (1 <= j)%nat /\ power (lang sem r) j w) /\
    (exists n s', tree_of npos g (ROpt r) ([], s) = Ok ([n], s') /\
       forall w, saccepts sem s' n w <-> w = [] \/ lang sem r w).
  Proof.
    split; [|split]; [apply (tree_of_accepts sem npos g (RStar r) s)|apply (tree_of_accepts sem npos g (RPlus r) s)|
      apply (tree_of_accepts sem npos g (ROpt r) s)]; exact HR.
  Qed.
End Rep.
