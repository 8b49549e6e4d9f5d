(** From the tokens of a rule to its tree, end node and words. *)
From Verif Require Import Base StringToken StringTokenSpec Tree TreeSpec RegexSpec Glushkov
  TreeProofs TreeWords StateMachine Partition Generator GenMap DfaSpec Slice ReToken Parser Grammar
  ParserTree ParserProofs ParserSound ParserLoop.
Local Open Scope N_scope.

(** ** No end of line token: the newline ids stay as they are *)
Definition no_eol (ts : list token) : Prop := Forall (fun t => tk_type t <> EOL) ts.
Definition nls (s : pstate) : N * N := (ps_cr s, ps_nl s).
Definition keeps (s s' : pstate) : Prop := nls s' = nls s /\ ps_stack s' = ps_stack s.

Lemma keeps_trans a b c : keeps a b -> keeps b c -> keeps a c.
Proof. intros [A1 A2] [B1 B2]. split; congruence. Qed.
Lemma on_tree_keeps op s s' : on_tree op s = Ok s' -> keeps s s'.
Proof.
  unfold on_tree. destruct (op (ps_tree s)); cbn; try discriminate. intros [= <-]. split; reflexivity.
Qed.
Lemma push_range_keeps k t s : keeps s (push_range k t s).
Proof. split; reflexivity. Qed.
Lemma push_ranges_keeps {D} (pd : D -> pstate -> res pstate) ds :
  (forall d s s', pd d s = Ok s' -> keeps s s') ->
  forall s s', push_ranges pd ds s = Ok s' -> keeps s s'.
Proof.
  intros H s s'. destruct ds as [|d ds]; cbn [push_ranges]; [discriminate|].
  destruct (pd d s) as [s1| | |] eqn:E1; cbn [bind]; try discriminate. intros E.
  eapply keeps_trans; [eauto|]. clear E1. revert s1 E. induction ds as [|d' ds IH]; cbn [push_more]; intros s1.
  - intros [= <-]. split; reflexivity.
  - destruct (pd d' s1) as [s2| | |] eqn:E2; cbn [bind]; try discriminate.
    destruct (on_tree t_or s2) as [s3| | |] eqn:E3; cbn [bind]; try discriminate. intros E.
    eapply keeps_trans; [eauto|]. eapply keeps_trans; [eapply on_tree_keeps; eauto|]. eauto.
Qed.
Lemma p_charset_nls k t s s' : p_charset k t s = Ok s' ->
  nls s' = nls s /\ (no_eol (ps_stack s) -> no_eol (ps_stack s')).
Proof.
  assert (T : forall X st, no_eol st -> X <> EOL -> no_eol (tok X :: st)) by (constructor; auto).
  unfold p_charset. destruct (compressed k).
  - unfold create_sequence.
    match goal with |- (do _ <- ?x ; _) = _ -> _ => destruct x as [s1| | |] eqn:E end;
      cbn [bind]; try discriminate. intros [= <-].
    assert (K : keeps s s1).
    { destruct (g_bytes k =? 2).
      - eapply push_ranges_keeps; [|exact E]. intros d a b H. unfold push_data2 in H.
        apply on_tree_keeps in H. exact H.
      - eapply push_ranges_keeps; [|exact E]. intros [[d1 d2] d3] a b H. unfold push_data3 in H.
        destruct (on_tree t_sequence _) as [s2| | |] eqn:E2 in H; cbn [bind] in H; try discriminate.
        apply on_tree_keeps in H, E2. eapply keeps_trans; [exact E2|exact H]. }
    destruct K as [K1 K2]. split; [exact K1|]. intros H. cbn. rewrite K2. repeat apply T; auto; discriminate.
  - intros [= <-]. split; [reflexivity|]. intros H. cbn. apply T; auto. discriminate.
Qed.

Lemma reduce_nls k s s' : reduce k s = Ok s' -> no_eol (ps_stack s) ->
  nls s' = nls s /\ no_eol (ps_stack s').
Proof.
  intros H F. unfold reduce in H.
  destruct (pop_handle (ps_stack s) []) as [[h st]| | |] eqn:E; cbn [bind fst snd] in H; try discriminate.
  destruct h as [|r more]; [discriminate|].
  apply pop_handle_spec in E as [(b & E1 & E2 & _) _]. rewrite app_nil_r in E2. subst b.
  rewrite E1 in F. apply Forall_app in F as [Fr Fs].
  assert (Nr : tk_type r <> EOL).
  { unfold no_eol in Fr. rewrite Forall_forall in Fr. apply Fr, in_rev. rewrite rev_involutive. now left. }
  assert (T : forall X st, no_eol st -> X <> EOL -> no_eol (tok X :: st)) by (constructor; auto).
  assert (P : forall X, X <> EOL -> Ok (push X (with_stack st s)) = Ok s' ->
    nls s' = nls s /\ no_eol (ps_stack s')).
  { intros X NX [= <-]. split; [reflexivity|]. cbn. apply T; auto. }
  assert (OT : forall op X, X <> EOL -> (do s1 <- on_tree op (with_stack st s); Ok (push X s1)) = Ok s' ->
    nls s' = nls s /\ no_eol (ps_stack s')).
  { intros op X NX Q. destruct (on_tree op (with_stack st s)) as [s1| | |] eqn:Eo; cbn [bind] in Q;
      try discriminate.
    apply on_tree_keeps in Eo as [K1 K2]. injection Q as <-. split; [exact K1|].
    cbn. rewrite K2. cbn. apply T; auto. }
  destruct (tk_type r); try discriminate; try (injection H as <-; split; [reflexivity|exact Fs]);
    try (eapply P; [|exact H]; discriminate);
    try (destruct more; [eapply P; [|exact H]; discriminate|]);
    try (eapply P; [|exact H]; discriminate);
    try (eapply OT; [|exact H]; discriminate).
  - apply p_charset_nls in H as [H1 H2]. split; [exact H1|]. apply H2. exact Fs.
  - injection H as <-. split; [reflexivity|]. cbn. apply T; auto. discriminate.
  - easy.
Qed.

Lemma ploop_nls k fuel : forall c s', ploop fuel k c = Ok s' -> no_eol (ps_stack (fst c)) ->
  tk_type (fst (snd c)) <> EOL -> no_eol (snd (snd c)) -> nls s' = nls (fst c).
Proof.
  induction fuel as [|fuel IH]; intros [s [la it]] s'; cbn [ploop]; [discriminate|].
  cbn [fst snd]. intros H F1 F2 F3.
  destruct (pstep k (s, (la, it))) as [[s1 [la1 it1]]| | |] eqn:E; cbn [bind] in H; try discriminate.
  assert (G : nls s1 = nls s /\ no_eol (ps_stack s1) /\ tk_type la1 <> EOL /\ no_eol it1).
  { unfold pstep in E. cbn [fst snd] in E. destruct (ps_stack s) as [|b st] eqn:Es; [discriminate|].
    rewrite <- Es in *.
    assert (SH : (do x <- fetch it; Ok (with_stack (la :: ps_stack s) s, x)) = Ok (s1, (la1, it1)) ->
      nls s1 = nls s /\ no_eol (ps_stack s1) /\ tk_type la1 <> EOL /\ no_eol it1).
    { unfold fetch. destruct it as [|t it']; cbn [bind]; [discriminate|].
      intros [= <- <- <-]. inversion F3; subst. split; [reflexivity|]. split; [cbn; constructor; auto|].
      split; [auto|]. destruct it'; auto. }
    destruct (precedence (tk_type b) (tk_type la)) as [[]|]; try discriminate; auto.
    destruct (reduce k s) as [s2| | |] eqn:R; cbn [bind] in E; try discriminate.
    injection E as <- <- <-. apply reduce_nls in R as [R1 R2]; auto. }
  destruct G as (G1 & G2 & G3 & G4). cbn [fst] in H. rewrite <- G1.
  destruct (ps_stack s1) eqn:Es1; [injection H as <-; reflexivity|].
  rewrite <- Es1 in G2. apply IH in H; auto.
Qed.

(** ** Words *)
(** When some rule of the start state begins with ^, the others may also match at
    the beginning of a line. *)
Definition rule_words (b : N) (seen : bool) (L : list sym -> Prop) (w : list sym) : Prop :=
  L w \/ (seen = true /\ (forall v, ~ L (SBol :: v)) /\ exists v, w = SBol :: v /\ L v).

(** ** The shape of a rule in the store *)
Record rshape (s : store) (r : drule) : Prop := {
  rs_pure : pure (dr_tree r) = true;
  rs_nodup : NoDup (poss (dr_tree r));
  rs_end : nth_error s (dr_end r) = Some (PEnd (dr_info r));
  rs_leaf : forall p t, In (p, t) (leaves (dr_tree r)) ->
    exists g f, nth_error s p = Some (PLeaf t g f) /\
      forall q, In q f <-> fol (dr_tree r) p q \/ (In p (lastpos (dr_tree r)) /\ q = dr_end r)
}.
Definition rfirst (r : drule) (v : list nat) : Prop :=
  v <> [] /\ forall x, In x v <-> In x (firstpos (dr_tree r)) \/ (nullable (dr_tree r) = true /\ x = dr_end r).

Lemma rshape_frame s s' r : rshape s r -> (forall p, In p (dr_poss r) -> nth_error s' p = nth_error s p) ->
  rshape s' r.
Proof.
  intros [P ND E L] F. constructor; auto.
  - rewrite F; auto. now left.
  - intros p t H. rewrite F; [auto|]. right. unfold poss. apply in_map_iff. exists (p, t). auto.
Qed.

(** A pure tree that is not nullable has a first position. *)
Lemma firstpos_ne n : pure n = true -> firstpos n = [] -> nullable n = true.
Proof.
  intros P F. destruct (den_inhabited n P) as (w & W). destruct w as [|t w].
  - now apply nullable_word.
  - apply word_first in W as (p & H & _); auto. now rewrite F in H.
Qed.

Definition end_root (o : option node) (e : nat) : node :=
  match o with None => NEnd e | Some n => NSeq n (NEnd e) end.
Lemma end_root_first o e : match o with Some n => pure n = true | None => True end ->
  rfirst {| dr_tree := match o with None => NNull GYes | Some n => n end; dr_end := e; dr_info := {| e_id := 0; e_uid := 0; e_unique := 0; e_next := 0; e_push := 0; e_pop := false; e_greedy := GYes |} |}
    (firstpos (end_root o e)).
Proof.
  intros P. unfold rfirst. destruct o as [n|]; cbn [dr_tree dr_end end_root firstpos nullable].
  - split.
    + intros H. apply app_eq_nil in H as [H1 H2]. apply firstpos_ne in H1; auto. now rewrite H1 in H2.
    + intros x. rewrite in_app_iff. destruct (nullable n); cbn; split; intuition (auto; discriminate).
  - split; [discriminate|]. cbn. intuition.
Qed.

Lemma attach_end s n e info : okn s n -> nth_error s e = Some (PEnd info) ->
  exists s', mk_seq n (NEnd e) s = Ok (NSeq n (NEnd e), s') /\ length s' = length s /\
    (forall p, ~ In p (poss n) -> nth_error s' p = nth_error s p) /\
    rshape s' {| dr_tree := n; dr_end := e; dr_info := info |}.
Proof.
  intros O E. unfold mk_seq, append_follows. cbn [firstpos].
  rewrite (proj2 (forallb_forall _ _)).
  2:{ intros p Hp. eapply okn_leaf_ok; eauto. apply lastpos_poss; [apply O|auto]. }
  cbn [bind]. eexists. split; [reflexivity|].
  destruct O as (P & ND & L).
  split; [apply append_follow_len|]. split.
  - intros p Hp. apply append_follow_out. intros H. apply Hp, lastpos_poss; auto.
  - constructor; cbn [dr_tree dr_end dr_info]; auto.
    + rewrite append_follow_out; auto. intros H. apply lastpos_poss in H; auto.
      unfold poss in H. apply in_map_iff in H as ((q, t) & Hq & H). cbn in Hq. subst q.
      apply L in H as (g & f & H & _). congruence.
    + intros p t Hp. apply L in Hp as (g & f & E1 & Hf).
      destruct (append_follow_in [e] (lastpos n) s p t g f E1) as (f' & E' & Hf').
      exists g, f'. split; [auto|]. intros q. rewrite Hf', Hf. cbn. intuition.
Qed.

(** fixup_bol: what is put in front. *)
Lemma any_bol_ok k s n e info : pure n = true ->
  rshape s {| dr_tree := n; dr_end := e; dr_info := info |} -> forall ps,
  (forall p, In p ps -> In p (firstpos n) \/ p = e) ->
  (exists p, In p ps /\ In (p, bol_tok k) (leaves n)) /\ any_bol k s ps = Ok true \/
  (forall p, In p ps -> ~ In (p, bol_tok k) (leaves n)) /\ any_bol k s ps = Ok false.
Proof.
  intros P [_ ND EE L] ps. cbn [dr_tree dr_end dr_info] in *.
  induction ps as [|p ps IH]; cbn [any_bol]; intros H.
  - right. split; [intros ? []|reflexivity].
  - assert (IB : exists b, is_bol k s p = Ok b /\ (b = true <-> In (p, bol_tok k) (leaves n))).
    { unfold is_bol. destruct (H p (or_introl eq_refl)) as [Hp| ->].
      - apply firstpos_poss in Hp; auto. unfold poss in Hp. apply in_map_iff in Hp as ((q, t) & Hq & Hp).
        cbn in Hq. subst q. pose proof Hp as Hp'. apply L in Hp' as (g & f & E & _). rewrite E.
        exists (t =? bol_tok k). split; [reflexivity|]. rewrite N.eqb_eq. split; [now intros <-|].
        intros Hb. apply L in Hb as (g' & f' & E' & _). rewrite E in E'. now injection E'.
      - rewrite EE. exists false. split; [reflexivity|]. split; [discriminate|].
        intros Hb. apply L in Hb as (g & f & E' & _). congruence. }
    destruct IB as (b & -> & Hb). cbn [bind]. destruct b.
    + left. split; [|reflexivity]. exists p. split; [now left|]. tauto.
    + destruct IH as [[(q & Hq & Hl) E]|[Hn E]].
      * intros q Hq. apply H. now right.
      * left. rewrite E. split; [|reflexivity]. exists q. split; [now right|auto].
      * right. rewrite E. split; [|reflexivity]. intros q [<-|Hq]; [|auto].
        intros Hl. apply Hb in Hl. discriminate.
Qed.

Definition with_bol (k : gcfg) (pb : nat) (n : node) : node :=
  NSeq (NSel (NLeaf (bol_tok k) pb) (NNull GYes)) n.
Lemma fixup_shape k s root n e info : bol_tok k <> gnpos k ->
  rshape s {| dr_tree := n; dr_end := e; dr_info := info |} ->
  (forall x, In x (firstpos root) <-> In x (firstpos n) \/ (nullable n = true /\ x = e)) ->
  nullable root = false ->
  let b := mk_leaf (gnpos k) (bol_tok k) GYes s in
  let nl := mk_leaf (gnpos k) (gnpos k) GYes (snd b) in
  exists s', mk_seq (NSel (fst b) (fst nl)) root (snd nl) =
      Ok (NSeq (NSel (NLeaf (bol_tok k) (length s)) (NNull GYes)) root, s') /\
    length s' = S (length s) /\ (forall p, (p < length s)%nat -> nth_error s' p = nth_error s p) /\
    rshape s' {| dr_tree := with_bol k (length s) n; dr_end := e; dr_info := info |}.
Proof.
  intros NB [P ND EE L] FR NR b nl. cbn [dr_tree dr_end dr_info] in *.
  apply N.eqb_neq in NB. unfold nl, b, mk_leaf. rewrite NB, N.eqb_refl. cbn [fst snd]. clear nl b.
  assert (EB : nth_error (s ++ [PLeaf (bol_tok k) GYes []]) (length s) = Some (PLeaf (bol_tok k) GYes [])).
  { rewrite nth_error_app2, Nat.sub_diag; auto. }
  unfold mk_seq, append_follows. cbn [lastpos app forallb].
  unfold is_leaf. rewrite EB. cbn [andb bind fold_left].
  eexists. split; [reflexivity|]. unfold append_follow. rewrite EB. cbn [app].
  split; [rewrite upd_length, app_length; cbn; lia|].
  assert (Old : forall p, (p < length s)%nat ->
    nth_error (upd (s ++ [PLeaf (bol_tok k) GYes []]) (length s) (PLeaf (bol_tok k) GYes (firstpos root))) p =
    nth_error s p).
  { intros p Hp. rewrite nth_error_upd_neq by lia. now rewrite nth_error_app1. }
  assert (Lt : forall p, In p (poss n) -> (p < length s)%nat).
  { intros p Hp. unfold poss in Hp. apply in_map_iff in Hp as ((q, t) & Hq & Hp). cbn in Hq. subst q.
    apply L in Hp as (g & f & E & _). apply nth_error_Some. congruence. }
  split; [exact Old|].
  constructor; cbn [dr_tree dr_end dr_info].
  - exact P.
  - unfold poss. cbn. constructor; auto. fold (poss n). intros H. apply Lt in H. lia.
  - rewrite Old; auto. apply nth_error_Some. congruence.
  - intros p t Hp. cbn [with_bol leaves app] in Hp. destruct Hp as [[= <- <-]|Hp].
    + exists GYes, (firstpos root). split.
      * apply nth_error_upd_eq. rewrite app_length. cbn. lia.
      * intros q. rewrite FR. cbn [with_bol fol lastpos firstpos app].
        assert (X : ~ In (length s) (lastpos n)) by (intros H; apply lastpos_poss, Lt in H; auto; lia).
        assert (Y : ~ fol n (length s) q) by (intros H; apply fol_poss in H as [H _]; auto; apply Lt in H; lia).
        rewrite in_app_iff. destruct (nullable n); cbn [In]; intuition congruence.
    + pose proof Hp as Hp'. apply L in Hp as (g & f & E & Hf).
      assert (Hl : (p < length s)%nat) by (apply nth_error_Some; congruence).
      exists g, f. rewrite Old by auto. split; [auto|]. intros q. rewrite Hf.
      cbn [with_bol fol lastpos firstpos app].
      rewrite in_app_iff. destruct (nullable n); cbn [In]; split; intuition (subst; auto; lia).
Qed.

(** The root of the tree of a rule. *)
Definition ended (n : node) (e : nat) (root : node) : Prop :=
  root = NSeq n (NEnd e) \/ (root = NEnd e /\ n = NNull GYes).
Definition root_of (k : gcfg) (root : node) (d : drule) : Prop :=
  ended (dr_tree d) (dr_end d) root \/
  exists pb n r0, dr_tree d = with_bol k pb n /\ ended n (dr_end d) r0 /\
    root = NSeq (NSel (NLeaf (bol_tok k) pb) (NNull GYes)) r0.

(** ** parse() *)
Section Rule.
Variable k : gcfg.
Hypothesis WO : wide_ok k.
Notation bsz := (g_bytes k).

(** The result of parsing one rule: [d] is its tree, end node and data. *)
Record parsed (w : list token) (e : einfo) (seen : bool) (s : pstate) (root : node) (s' : pstate)
    (o : option rx) (d : drule) : Prop := {
  pd_gram : ogram o w;
  pd_stack : ps_stack s' = [];
  pd_nodes : fst (ps_tree s') = [];
  pd_map : mext (ps_map s) (ps_map s') /\ mgood k (ps_map s');
  pd_len : (length (snd (ps_tree s)) <= length (snd (ps_tree s')))%nat;
  pd_old : forall p, (p < length (snd (ps_tree s)))%nat ->
    nth_error (snd (ps_tree s')) p = nth_error (snd (ps_tree s)) p;
  pd_new : forall p, In p (dr_poss d) -> (length (snd (ps_tree s)) <= p)%nat;
  pd_shape : rshape (snd (ps_tree s')) d;
  pd_first : rfirst d (firstpos root);
  pd_null : nullable root = false;
  pd_info : exists g, dr_info d = end_info e g /\ (has_lazy w = false -> g = GYes);
  pd_means : means k (ps_map s') (dr_tree d) (rule_words bsz seen (olang bsz o));
  pd_nls : no_eol w -> nls s' = nls s;
  pd_root : root_of k root d
}.

Lemma fin_olang vs w : fin vs w -> exists o : option rx, ogram o w /\ vs = match o with None => [] | Some r => [r] end.
Proof. intros [[-> ->]|(r & -> & G)]; [exists None|exists (Some r)]; split; auto; reflexivity. Qed.

(** The tree starts with a beginning of line token iff some word does. *)
Lemma known_words m n L w : mfine k m -> means k m n L -> tden n w ->
  exists ws, Forall2 (token_sem k m) w ws /\ L ws.
Proof.
  intros F [M1 M2] H. pose proof (M2 w H) as K.
  assert (X : exists ws, Forall2 (token_sem k m) w ws).
  { clear H. induction K as [|t w Kt K IH]; [exists []; constructor|]. destruct IH as (ws & IH).
    destruct Kt as [->|[->|(tk & Ht)]].
    - exists (SBol :: ws). constructor; auto. reflexivity.
    - exists (SEol :: ws). constructor; auto. reflexivity.
    - destruct F as [[F _] _]. rewrite Forall_forall in F. pose proof (F _ Ht) as (W & NE & _).
      cbn [fst] in *. destruct tk as [|[a b] tk]; [easy|].
      exists (SByte a :: ws). constructor; auto. exists ((a, b) :: tk). split; [auto|].
      exists a, b. split; [now left|]. destruct W as (_ & W & _). lia. }
  destruct X as (ws & X). exists ws. split; [auto|]. apply (M1 m); auto.
  - apply mext_refl.
  - eapply den_map; eauto.
Qed.

Lemma nodup_fst {B} (l : list (nat * B)) p x y : NoDup (map fst l) -> In (p, x) l -> In (p, y) l -> x = y.
Proof.
  induction l as [|[q z] l IH]; cbn; [easy|]. intros ND Hx Hy. inversion ND as [|? ? N1 N2]; subst.
  destruct Hx as [[= Hp Hz]|Hx], Hy as [[= Hq Hz']|Hy]; subst; auto.
  - exfalso. apply N1. now apply (in_map fst) in Hy.
  - exfalso. apply N1. now apply (in_map fst) in Hx.
Qed.
Lemma bol_word m n L : mfine k m -> means k m n L -> pure n = true -> NoDup (poss n) ->
  (exists p, In p (firstpos n) /\ In (p, bol_tok k) (leaves n)) <-> (exists v, L (SBol :: v)).
Proof.
  intros F M P ND. split.
  - intros (p & Hf & Hl). destruct (first_word n p P Hf) as (t & v & Ht & D).
    rewrite (nodup_fst _ _ _ _ ND Ht Hl) in D.
    destruct (known_words m n L _ F M D) as (ws & F2 & HL). inversion F2 as [|? a ? ws' Sa F2']; subst.
    apply sem_bol in Sa; auto. subst a. eauto.
  - intros (v & HL). pose proof (proj2 (proj1 M m (mext_refl m) F _) HL) as D.
    apply den_unmap in D as (w & D & F2). inversion F2 as [|t a w' ws' Sa F2']; subst.
    cbn in Sa. subst t. apply word_first in D; auto.
Qed.

Lemma mgood_fine m mf : mgood k m -> mext m mf -> mfine k mf -> mfine k m.
Proof. intros G [X1 X2] [F1 F2]. assert (N.of_nat (length m) < eol_tok k) by lia. split; auto. Qed.

Lemma with_bol_means m n L pb : mgood k m -> means k m n L -> pure n = true -> NoDup (poss n) ->
  (forall p, In p (firstpos n) -> ~ In (p, bol_tok k) (leaves n)) ->
  means k m (with_bol k pb n) (rule_words bsz true L).
Proof.
  intros G M P ND H. split.
  - intros mf X F w. pose proof (mgood_fine m mf G X F) as Fm.
    assert (NB : forall v, ~ L (SBol :: v)).
    { intros v Hv. destruct (proj2 (bol_word m n L Fm M P ND)) as (p & H1 & H2); eauto. eapply H; eauto. }
    destruct M as [M _]. specialize (M mf X F). unfold rule_words. cbn [with_bol den].
    split.
    + intros (u & v & -> & [(a & -> & Ha)| ->] & Hv); apply M in Hv; [right|left; auto].
      apply sem_bol in Ha; auto. subst a. split; [auto|]. split; [auto|]. exists v. auto.
    + intros [Hw|(_ & _ & v & -> & Hv)].
      * exists [], w. split; [auto|]. split; [now right|]. now apply M.
      * exists [SBol], v. split; [auto|]. split; [|now apply M]. left. exists SBol. split; [auto|reflexivity].
  - destruct M as [_ M]. intros w. cbn [with_bol den]. intros (u & v & -> & [(a & -> & <-)| ->] & Hv).
    + constructor; [now left|]. now apply M.
    + now apply M.
Qed.
Lemma no_fix_means m n L seen : mgood k m -> means k m n L -> pure n = true -> NoDup (poss n) ->
  (seen = true -> exists p, In p (firstpos n) /\ In (p, bol_tok k) (leaves n)) ->
  means k m n (rule_words bsz seen L).
Proof.
  intros G M P ND H. split; [|apply M]. intros mf X F w. unfold rule_words.
  rewrite (proj1 M mf X F). split; [auto|]. intros [Hw|(Hs & NB & _)]; [auto|]. exfalso.
  apply H in Hs. apply (bol_word m n L (mgood_fine m mf G X F) M P ND) in Hs as (v & Hv). now apply (NB v).
Qed.

Lemma null_means m : means k m (NNull GYes) (olang bsz None).
Proof.
  split.
  - intros mf _ _ w. cbn. tauto.
  - intros w. cbn. intros ->. constructor.
Qed.

Theorem parse_ok B w E e seen s : tk_type B = BEGIN -> tk_type E = END -> Forall (tok_ok bsz) w ->
  balanced w -> ps_stack s = [] -> fst (ps_tree s) = [] -> mgood k (ps_map s) ->
  bol_tok k <> gnpos k ->
  (exists root s' o d, parse k (B :: w ++ [E]) e seen s = Ok (root, s') /\
     parsed w e seen s root s' o d) \/
  (exists x, parse k (B :: w ++ [E]) e seen s = Throw x /\ forall o, ~ ogram o w).
Proof.
  intros HB HE TO Bal Es Et MG NB. unfold parse.
  destruct (fetch (w ++ [E])) as [x| | |] eqn:Ef; try (destruct w; discriminate).
  assert (St : stream E x w).
  { unfold fetch in Ef. destruct w as [|t w]; cbn in Ef.
    - injection Ef as <-. reflexivity.
    - injection Ef as <-. cbn. destruct (w ++ [E]) eqn:Q; auto. destruct w; discriminate. }
  cbn [bind]. rewrite Es. set (s1 := with_stack [B] s).
  assert (V : vals k (snd (ps_tree s)) (ps_map s) s1 []).
  { unfold s1. split; [|split]; cbn [with_stack ps_tree ps_map].
    - rewrite Et. repeat split; auto; try constructor. intros ? [].
    - rewrite Et. constructor.
    - split; [auto|apply mext_refl]. }
  destruct (ploop_ok k WO (snd (ps_tree s)) (ps_map s) E HE w Bal TO (pfuel (B :: w ++ [E])) s1 x [] [] w)
    as [(s2 & vs & E2 & St2 & V2 & Fin)|(err & E2 & Na)]; auto.
  { cbn. apply inv_stk. now constructor. }
  { unfold pfuel, wsum, rsum. cbn [fold_right ps_stack s1 with_stack]. rewrite fold_right_app. cbn [fold_right].
    assert (Q : forall a l, (fold_right (fun t n => S (tweight (tk_type t)) + n) 0 l <=
       fold_right (fun t n => S (tweight (tk_type t)) + n) a l)%nat).
    { intros a l. induction l; cbn [fold_right]; lia. }
    specialize (Q (S (tweight (tk_type E)) + 0)%nat w). lia. }
  2:{ right. exists err. rewrite E2. split; [reflexivity|]. intros o Go. apply Na. cbn [s1 with_stack ps_stack].
      destruct (a_accepts k E HE B w x HB St) as (st & R & A).
      { destruct o as [r|]; cbn in Go; eauto. }
      exists (st, (E, [E])), ([], (E, [E])). auto. }
  left. rewrite E2. cbn [bind].
  destruct (fin_olang vs w Fin) as (o & Go & ->).
  destruct V2 as (TW & F2 & MG2 & MX2).
  assert (NL : no_eol w -> nls s2 = nls s).
  { intros Hn. apply ploop_nls in E2; auto; cbn [fst snd s1 with_stack ps_stack].
    - constructor; [now rewrite HB|constructor].
    - destruct w as [|t w]; cbn in St; subst x; cbn [fst].
      + now rewrite HE.
      + now inversion Hn.
    - assert (NE : no_eol [E]) by (constructor; [now rewrite HE|constructor]).
      destruct w as [|t w]; cbn in St; subst x; cbn [snd]; [auto|]. inversion Hn; subst.
      apply Forall_app. auto. }
  set (t1 := ps_tree s2) in *.
  set (info := end_info e (if has_lazy (B :: w ++ [E]) then GNo else GYes)).
  assert (LZ : has_lazy w = false -> (if has_lazy (B :: w ++ [E]) then GNo else GYes) = GYes).
  { intros H. unfold has_lazy in *. cbn [existsb]. rewrite existsb_app, H, HB. cbn. now rewrite HE. }
  cbn [mk_end fst snd]. set (st := snd t1 ++ [PEnd info]).
  assert (EE : nth_error st (length (snd t1)) = Some (PEnd info)).
  { unfold st. rewrite nth_error_app2, Nat.sub_diag; auto. }
  destruct TW as (TW1 & TW2 & TW3 & TW4 & TW5).
  (* the tree without the fixup *)
  set (n := match fst t1 with [] => NNull GYes | n :: _ => n end).
  assert (A : exists root st', 
    match fst t1 with
    | [] => Ok (NEnd (length (snd t1)), ([], st))
    | n :: ns => do q <- mk_seq n (NEnd (length (snd t1))) st; Ok (fst q, (ns, snd q))
    end = Ok (root, ([], st')) /\
    length st' = length st /\
    (forall p, (p < length (snd (ps_tree s)))%nat -> nth_error st' p = nth_error (snd (ps_tree s)) p) /\
    rshape st' {| dr_tree := n; dr_end := length (snd t1); dr_info := info |} /\
    (forall p, In p (poss n) -> (length (snd (ps_tree s)) <= p)%nat) /\
    rfirst {| dr_tree := n; dr_end := length (snd t1); dr_info := info |} (firstpos root) /\
    nullable root = false /\ ended n (length (snd t1)) root /\
    means k (ps_map s2) n (olang bsz o)).
  { assert (Old : forall p, (p < length (snd (ps_tree s)))%nat -> nth_error st p = nth_error (snd (ps_tree s)) p).
    { intros p Hp. unfold st. rewrite nth_error_app1 by lia. auto. }
    destruct o as [r|]; cbn [map] in F2; inversion F2 as [|n' L' ns' Ls' Mn Mr E1 E3]; subst; unfold n in *.
    - inversion Mr; subst. rewrite <- E1 in *. inversion TW1 as [|? ? Ok1 _]; subst.
      assert (Os : okn st n').
      { eapply okn_frame; [exact Ok1|]. intros p Hp. unfold st. rewrite nth_error_app1; auto.
        eapply okn_lt; eauto. }
      destruct (attach_end st n' (length (snd t1)) info Os EE) as (st' & Em & Ln & Oth & Sh).
      exists (NSeq n' (NEnd (length (snd t1)))), st'. rewrite Em. cbn [bind fst snd].
      split; [reflexivity|]. split; [auto|]. split.
      { intros p Hp. rewrite Oth; [auto|]. intros Hi.
        assert (length (snd (ps_tree s)) <= p)%nat; [|lia]. apply TW5. cbn. rewrite app_nil_r. auto. }
      split; [auto|]. split.
      { intros p Hp. apply TW5. cbn. rewrite app_nil_r. auto. }
      split. { apply (end_root_first (Some n') (length (snd t1))). apply Ok1. }
      split; [cbn; now rewrite andb_false_r|]. split; [now left|]. exact Mn.
    - rewrite <- H in *. exists (NEnd (length (snd t1))), st. split; [reflexivity|]. split; [auto|].
      split; [auto|]. split.
      { constructor; cbn [dr_tree dr_end dr_info]; [reflexivity|constructor|exact EE|]. intros ? ? []. }
      split; [intros ? []|]. split; [apply (end_root_first None); auto|]. split; [reflexivity|].
      split; [now right|]. apply null_means. }
  destruct A as (root & st' & Er & Ln & Old & Sh & New & Fi & Nu & Ro & Me).
  match goal with |- context [do r <- ?x; _] =>
    replace x with (Ok (root, ([], st')) : res (node * tstate)) by (symmetry; exact Er) end.
  cbn [bind fst snd].
  assert (Len : length st = S (length (snd t1))) by (unfold st; rewrite app_length; cbn; lia).
  pose proof Sh as [Pn NDn _ _]. cbn [dr_tree] in Pn, NDn.
  assert (NoFix : (seen = true -> exists p, In p (firstpos n) /\ In (p, bol_tok k) (leaves n)) ->
    parsed w e seen s root (with_tree ([], st') s2) o {| dr_tree := n; dr_end := length (snd t1); dr_info := info |}).
  { intros HF. constructor; cbn [with_tree ps_stack ps_tree ps_map fst snd dr_tree dr_info]; auto.
    - rewrite Ln, Len. lia.
    - intros p [<-|Hp]; [cbn; lia|]. auto.
    - eexists. split; [reflexivity|auto].
    - now apply no_fix_means.
    - now left. }
  destruct seen.
  2:{ cbn [bind]. exists root, (with_tree ([], st') s2), o. eexists. split; [reflexivity|].
      apply NoFix. discriminate. }
  unfold fixup_bol. destruct Fi as [Fi1 Fi2].
  destruct (any_bol_ok k st' n (length (snd t1)) info Pn Sh (firstpos root)) as [[Hb Ea]|[Hb Ea]].
  { intros p Hp. apply Fi2 in Hp. cbn in Hp. tauto. }
  - rewrite Ea. cbn [bind fst snd]. exists root, (with_tree ([], st') s2), o. eexists. split; [reflexivity|].
    apply NoFix. intros _. destruct Hb as (p & H1 & H2). exists p. split; [|auto].
    apply Fi2 in H1. cbn in H1. destruct H1 as [H1|[_ ->]]; [auto|]. exfalso.
    destruct Sh as [_ _ X1 X2]. cbn in X1, X2. apply X2 in H2 as (g & f & X & _). congruence.
  - rewrite Ea. cbn [bind].
    destruct (fixup_shape k st' root n (length (snd t1)) info NB Sh) as (s3 & E3 & Ln3 & Old3 & Sh3).
    { intros x0. rewrite Fi2. reflexivity. } { exact Nu. }
    rewrite E3. cbn [bind fst snd].
    eexists _, _, o, {| dr_tree := with_bol k (length st') n; dr_end := length (snd t1); dr_info := info |}.
    split; [reflexivity|].
    constructor; cbn [with_tree ps_stack ps_tree ps_map fst snd dr_tree dr_info]; auto.
    + rewrite Ln3, Ln, Len. lia.
    + intros p Hp. rewrite Old3; [auto|]. rewrite Ln, Len. lia.
    + intros p [<-|Hp]; [cbn; lia|]. cbn in Hp. destruct Hp as [<-|Hp]; [rewrite Ln, Len; lia|]. auto.
    + split; [discriminate|]. intros p. cbn [firstpos dr_tree dr_end with_bol nullable app].
      change (In p (length st' :: firstpos root) <-> In p (length st' :: firstpos n) \/
        (nullable n = true /\ p = length (snd t1))). cbn [In]. rewrite Fi2. cbn [dr_tree dr_end]. tauto.
    + eexists. split; [reflexivity|auto].
    + apply with_bol_means; auto. intros p Hp. apply Hb, Fi2. now left.
    + right. exists (length st'), n, root. auto.
Qed.
End Rule.
