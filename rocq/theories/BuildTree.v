(** build_tree: the rules of one start state as one tree. *)
From Verif Require Import Base StringToken StringTokenSpec StringTokenProofs RegexSpec StateMachine Slice
  ReToken DfaSpec Grammar Tree TreeSpec Glushkov TreeProofs Partition Parser Generator GenMap Build ParserTree
  ParserKeys ParserNl ParserSound ParserLoop TreeWords ParserRule Lookup TableSpec LookupSpec RuleSpec RuleWords BuildSpec
  LoopSpec LoopTree LoopParse LoopRule MarkSpec MarkTree MarkParse MarkRule.
Local Open Scope N_scope.

Section BuildTree.
Variables (k : gcfg) (seen : bool) (A : list stoken) (lo : nat) (u0 : N).
Hypothesis WO : wide_ok k.
Hypothesis HA : N.of_nat (length A) < eol_tok k.
Let bsz := g_bytes k.

(** Rule [r] as tree [d]. *)
Record rule_tree (s : pstate) (r : grule) (d : drule) : Prop := {
  rt_shape : rshape (snd (ps_tree s)) d;
  rt_lo : forall p, In p (dr_poss d) -> (lo <= p)%nat;
  rt_means : exists ts o, rule_tokens r ts /\ ogram o ts /\
    means k (ps_map s) (dr_tree d) (rule_words bsz seen (olang bsz o));
  rt_info : exists u g, dr_info d = end_info (rule_info r u) g /\ (eager r -> g = GYes);
  rt_loop : g_bytes k = 1 -> loop_rule r ->
    exists pre loop post, loop_tree k (ps_map s) (snd (ps_tree s)) d pre loop post;
  rt_mark : forall ts, rule_tokens r ts -> marked_tree k (ps_map s) (snd (ps_tree s)) ts seen (dr_tree d)
}.
(** The unique ids given to [n] rules. *)
Fixpoint uniqs (n : nat) (u : N) : list N :=
  match n with O => [] | S n' => next_uniq k u :: uniqs n' (next_uniq k u) end.
Fixpoint after (n : nat) (u : N) : N := match n with O => u | S n' => after n' (next_uniq k u) end.
Definition disjoint_rules (ds : list drule) : Prop :=
  forall i j ri rj p, nth_error ds i = Some ri -> nth_error ds j = Some rj ->
    In p (dr_poss ri) -> In p (dr_poss rj) -> i = j.
(** No end of line token. *)
Definition line_free (r : grule) : Prop := forall ts, rule_tokens r ts -> no_eol ts.
Record built (rs : list grule) (ds : list drule) (root : node) (u : N) (s : pstate) : Prop := {
  bt_stack : ps_stack s = [];
  bt_nodes : fst (ps_tree s) = [];
  bt_map : mgood k (ps_map s);
  bt_keys : kok A (ps_map s);
  bt_nl : nl_known k s;
  bt_nls : Forall line_free rs -> nls s = (gnpos k, gnpos k);
  bt_len : (lo <= length (snd (ps_tree s)))%nat;
  bt_rules : Forall2 (rule_tree s) rs ds;
  bt_disj : disjoint_rules ds;
  bt_first : exists vs, firstpos root = concat vs /\ Forall2 rfirst ds vs;
  bt_u : u = after (length rs) u0;
  bt_uniq : map (fun d => e_unique (dr_info d)) ds = uniqs (length rs) u0
}.

Definition good_rule (r : grule) : Prop :=
  rule_wf bsz seen r /\ forall t, In t (gr_tokens r) -> incl (tok_sets bsz t) A.
(** The same without the restrictions on ^ and $. *)
Definition fair_rule (r : grule) : Prop :=
  (exists ts, rule_tokens r ts /\ Forall (tok_ok bsz) ts /\ balanced ts) /\
  forall t, In t (gr_tokens r) -> incl (tok_sets bsz t) A.
Lemma good_fair r : good_rule r -> fair_rule r.
Proof. intros [[(ts & T & TO & Bal & _) _] I]. split; [exists ts; auto|auto]. Qed.
Lemma rule_toks_eq r ts ts' : rule_tokens r ts -> rule_tokens r ts' -> ts = ts'.
Proof.
  intros (B & E & H & _) (B' & E' & H' & _). rewrite H in H'. injection H' as _ H'.
  now apply app_inj_tail in H' as [-> _].
Qed.
Lemma good_line_free r : good_rule r -> line_free r.
Proof. intros [[(ts & T & _ & _ & NE) _] _] ts' T'. now rewrite (rule_toks_eq r ts' ts T' T). Qed.

Lemma uniqs_snoc n u : uniqs (S n) u = uniqs n u ++ [next_uniq k (after n u)].
Proof. revert u. induction n as [|n IH]; intros u; [reflexivity|]. cbn [uniqs after app] in *. now rewrite IH. Qed.
Lemma after_snoc n u : after (S n) u = next_uniq k (after n u).
Proof. revert u. induction n as [|n IH]; intros u; [reflexivity|]. cbn [after] in *. now rewrite IH. Qed.

Lemma bol_ne : bol_tok k <> gnpos k.
Proof. unfold bol_tok, eol_tok in *. lia. Qed.
Lemma has_lazy_body B ts E : tk_type B = BEGIN -> tk_type E = END ->
  has_lazy (B :: ts ++ [E]) = has_lazy ts.
Proof.
  intros HB HE. unfold has_lazy. cbn [existsb]. rewrite HB, existsb_app. cbn. rewrite HE. cbn.
  now rewrite orb_false_r.
Qed.
Lemma rshape_lt s d p : rshape s d -> In p (dr_poss d) -> (p < length s)%nat.
Proof.
  intros H Hp. apply nth_error_Some. destruct Hp as [<-|Hp]; [rewrite (rs_end _ _ H); discriminate|].
  apply in_map_iff in Hp as ((q, t) & <- & Hi). destruct (rs_leaf _ _ H q t Hi) as (g & f & E & _).
  cbn. congruence.
Qed.

(** The character classes of an abstemious repeat and of what is around it. *)
Lemma alts_in w ts t : alts w ts -> In t ts -> In t w /\ tk_type t = CHARSET.
Proof.
  intros H. induction H as [|o x w ts Ho Hx H IH]; [intros []|]. intros [<-|Ht].
  - split; [right; now left|auto].
  - apply IH in Ht as [H1 H2]. split; [right; now right|auto].
Qed.
Lemma choice_in b bs t : choice b bs -> In t bs -> In t b /\ tk_type t = CHARSET.
Proof.
  intros [x Hx|o x w ts c Ho Hx H Hc] Ht.
  - destruct Ht as [<-|[]]. split; [now left|auto].
  - destruct Ht as [<-|Ht]; [split; [right; now left|auto]|]. apply (alts_in w ts t H) in Ht as [H1 H2].
    split; [|auto]. right. right. apply in_or_app. now left.
Qed.
Lemma loop_known w X b bs z Y : g_bytes k = 1 -> loop_tokens w X b bs z Y -> Forall (tok_ok bsz) w ->
  (forall t, In t w -> incl (tok_sets bsz t) A) -> Forall (known_set A) (X ++ bs ++ Y).
Proof.
  intros CB [-> _ HX HC _ HY _] TO KA. unfold bsz in *. rewrite CB in *.
  assert (K : forall t, In t (X ++ b ++ z :: Y) -> tk_type t = CHARSET -> known_set A t).
  { intros t Ht Hc. split; [auto|]. rewrite Forall_forall in TO. specialize (TO t Ht). specialize (KA t Ht).
    unfold tok_ok in TO. rewrite Hc in TO. split; [auto|]. apply KA. unfold tok_sets. rewrite Hc. now left. }
  unfold sets in *. rewrite Forall_forall in HX, HY. apply Forall_forall. intros t Ht.
  apply in_app_or in Ht as [Ht|Ht]; [|apply in_app_or in Ht as [Ht|Ht]].
  - apply K; [apply in_or_app; now left|auto].
  - destruct (choice_in b bs t HC Ht) as [H1 H2]. apply K; [|auto]. apply in_or_app. right. apply in_or_app. now left.
  - apply K; [|auto]. apply in_or_app. right. apply in_or_app. right. now right.
Qed.

(** One more rule. *)
Lemma parse_step r s u : fair_rule r -> ps_stack s = [] -> fst (ps_tree s) = [] -> mgood k (ps_map s) ->
  kok A (ps_map s) -> nl_known k s -> (lo <= length (snd (ps_tree s)))%nat ->
  (exists root s' d, parse k (gr_tokens r) (rule_info r u) seen s = Ok (root, s') /\
     ps_stack s' = [] /\ fst (ps_tree s') = [] /\ mgood k (ps_map s') /\ kok A (ps_map s') /\
     nl_known k s' /\ (line_free r -> nls s' = nls s) /\ mext (ps_map s) (ps_map s') /\
     (length (snd (ps_tree s)) <= length (snd (ps_tree s')))%nat /\
     (forall p, (p < length (snd (ps_tree s)))%nat ->
        nth_error (snd (ps_tree s')) p = nth_error (snd (ps_tree s)) p) /\
     (forall p, In p (dr_poss d) -> (length (snd (ps_tree s)) <= p)%nat) /\
     rule_tree s' r d /\ rfirst d (firstpos root) /\ e_unique (dr_info d) = u) \/
  (exists e, parse k (gr_tokens r) (rule_info r u) seen s = Throw e /\ ~ parses r).
Proof.
  intros [(ts & (B & E & Et & HB & HE) & TO & Bal) KA] Es Etr MG KO NL LO.
  destruct (parse_ok k WO B ts E (rule_info r u) seen s HB HE TO Bal Es Etr MG bol_ne)
    as [(root & s' & o & d & P & PD)|(x & P & NG)].
  - left. exists root, s', d. rewrite Et. split; [exact P|].
    assert (LP : g_bytes k = 1 -> loop_rule r ->
      exists pre loop post, loop_tree k (ps_map s') (snd (ps_tree s')) d pre loop post).
    { intros CB (ts' & X & b & bs & z & Y & T & LT).
      rewrite (rule_toks_eq r ts' ts T) in LT by (exists B, E; auto).
      eapply parse_loop; [exact CB|exact HA|exact HB|exact HE|exact LT| |exact Es|exact Etr|split; eauto|exact P|exact PD].
      eapply loop_known; [exact CB|exact LT|exact TO|]. intros t Ht. apply KA. rewrite Et. right. apply in_or_app. now left. }
    assert (MP : forall ts', rule_tokens r ts' -> marked_tree k (ps_map s') (snd (ps_tree s')) ts' seen (dr_tree d)).
    { intros ts' T. rewrite (rule_toks_eq r ts' ts T) by (exists B, E; auto).
      eapply parse_marks; [exact WO|exact HB|exact HE|exact TO|exact Es|exact Etr|exact MG|exact bol_ne|exact P|exact PD]. }
    destruct PD.
    split; [auto|]. split; [auto|]. split; [apply pd_map|]. split.
    { rewrite <- Et in P. eapply kok_parse; [exact WO| |exact KA|exact P]. split; [auto|]. rewrite Es. intros ? []. }
    split; [eapply nk_parse; [exact NL|exact P]|].
    split; [intros LF; apply pd_nls, LF; exists B, E; auto|]. split; [apply pd_map|]. split; [auto|]. split; [auto|]. split; [auto|].
    destruct pd_info as (g & Ei & Hg).
    split; [|split; [auto|rewrite Ei; reflexivity]]. constructor.
    + auto.
    + intros p Hp. apply pd_new in Hp. lia.
    + exists ts, o. split; [exists B, E; auto|]. auto.
    + exists u, g. split; [auto|]. unfold eager. rewrite Et, has_lazy_body by auto. auto.
    + exact LP.
    + exact MP.
  - right. exists x. rewrite Et. split; [exact P|]. intros (ts' & o & (B' & E' & Et' & _) & G).
    rewrite Et in Et'. injection Et' as _ Et'. apply app_inj_tail in Et' as [<- _]. now apply (NG o).
Qed.

Lemma rule_tree_frame s s' r d : rule_tree s r d -> mext (ps_map s) (ps_map s') ->
  (forall p, (p < length (snd (ps_tree s)))%nat ->
        nth_error (snd (ps_tree s')) p = nth_error (snd (ps_tree s)) p) -> rule_tree s' r d.
Proof.
  intros [H1 H2 (ts & o & H3 & H4 & H5) H6 H7 H8] X F. constructor; auto.
  - eapply rshape_frame; eauto. intros p Hp. apply F. eapply rshape_lt; eauto.
  - exists ts, o. split; [auto|]. split; [auto|]. eapply means_ext; eauto.
  - intros CB LR. destruct (H7 CB LR) as (pre & loop & post & LT). exists pre, loop, post.
    eapply loop_tree_frame; [exact LT|apply X|exact F].
  - intros ts' T. eapply marked_tree_ext; [exact X| |apply H8, T].
    intros p (t & f & Ep). exists t, f. rewrite F; [exact Ep|]. apply nth_error_Some. congruence.
Qed.

Lemma built_snoc rs ds root u s r rhs s' d : built rs ds root u s ->
  ps_stack s' = [] -> fst (ps_tree s') = [] -> mgood k (ps_map s') -> kok A (ps_map s') ->
  nl_known k s' -> (line_free r -> nls s' = nls s) -> mext (ps_map s) (ps_map s') ->
  (length (snd (ps_tree s)) <= length (snd (ps_tree s')))%nat ->
  (forall p, (p < length (snd (ps_tree s)))%nat ->
     nth_error (snd (ps_tree s')) p = nth_error (snd (ps_tree s)) p) ->
  (forall p, In p (dr_poss d) -> (length (snd (ps_tree s)) <= p)%nat) ->
  rule_tree s' r d -> rfirst d (firstpos rhs) -> e_unique (dr_info d) = next_uniq k u ->
  built (rs ++ [r]) (ds ++ [d]) (NSel root rhs) (next_uniq k u) s'.
Proof.
  intros [B1 B2 B3 B4 B50 B5 B6 B7 B8 (vs & B9 & B10) B11 B12] H1 H2 H3 H4 H50 H5 H6 H7 H8 H9 H10 H11 H12.
  assert (LT : forall i ri p, nth_error ds i = Some ri -> In p (dr_poss ri) -> (p < length (snd (ps_tree s)))%nat).
  { intros i ri p Ei Hp. apply nth_error_In in Ei. clear - B7 Ei Hp.
    induction B7 as [|x y xs ys Hxy F IH]; [destruct Ei|]. destruct Ei as [->|Ei]; [|auto].
    eapply rshape_lt; [apply Hxy|auto]. }
  assert (LL : length rs = length ds) by (clear - B7; induction B7; cbn; auto).
  constructor; auto.
  - intros HF. apply Forall_app in HF as [HF1 HF2]. inversion HF2; subst. rewrite H5; auto.
  - lia.
  - apply Forall2_app; [|constructor; [auto|constructor]].
    clear - B7 H6 H8. induction B7; constructor; auto. eapply rule_tree_frame; eauto.
  - intros i j ri rj p Ei Ej Hi Hj.
    destruct (Nat.lt_ge_cases i (length ds)) as [Li|Li], (Nat.lt_ge_cases j (length ds)) as [Lj|Lj].
    + rewrite nth_error_app1 in Ei, Ej by auto. eapply B8; eauto.
    + rewrite nth_error_app1 in Ei by auto. rewrite nth_error_app2 in Ej by auto.
      destruct (j - length ds)%nat as [|z]; [|destruct z; discriminate]. injection Ej as <-.
      specialize (LT _ _ _ Ei Hi). apply H9 in Hj. lia.
    + rewrite nth_error_app1 in Ej by auto. rewrite nth_error_app2 in Ei by auto.
      destruct (i - length ds)%nat as [|z]; [|destruct z; discriminate]. injection Ei as <-.
      specialize (LT _ _ _ Ej Hj). apply H9 in Hi. lia.
    + rewrite nth_error_app2 in Ei, Ej by auto.
      destruct (i - length ds)%nat as [|z] eqn:Qi; [|destruct z; discriminate].
      destruct (j - length ds)%nat as [|z] eqn:Qj; [|destruct z; discriminate]. lia.
  - exists (vs ++ [firstpos rhs]). split; [|apply Forall2_app; [auto|constructor; [auto|constructor]]].
    cbn [firstpos]. rewrite concat_app, B9. cbn. now rewrite app_nil_r.
  - rewrite app_length. cbn [length]. rewrite Nat.add_1_r, after_snoc, <- B11. reflexivity.
  - rewrite app_length. cbn [length]. rewrite Nat.add_1_r, map_app, B12, uniqs_snoc, <- B11. cbn. now rewrite H12.
Qed.

Lemma build_rest_ok : forall more rs ds root u s, built rs ds root u s -> Forall fair_rule more ->
  (exists root' u' s' ds', build_rest k seen more root u s = Ok (root', u', s') /\
     built (rs ++ more) ds' root' u' s') \/
  (exists e r, build_rest k seen more root u s = Throw e /\ In r more /\ ~ parses r).
Proof.
  induction more as [|r more IH]; intros rs ds root u s BT GR; cbn [build_rest].
  - left. exists root, u, s, ds. rewrite app_nil_r. auto.
  - inversion GR as [|? ? G1 G2]; subst.
    destruct (parse_step r s (next_uniq k u) G1 (bt_stack _ _ _ _ _ BT) (bt_nodes _ _ _ _ _ BT)
      (bt_map _ _ _ _ _ BT) (bt_keys _ _ _ _ _ BT) (bt_nl _ _ _ _ _ BT) (bt_len _ _ _ _ _ BT))
      as [(rhs & s' & d & P & H1 & H2 & H3 & H4 & H50 & H5 & H6 & H7 & H8 & H9 & H10 & H11 & H12)|(e & P & NP)].
    + rewrite P. cbn [bind fst snd].
      pose proof (built_snoc rs ds root u s r rhs s' d BT H1 H2 H3 H4 H50 H5 H6 H7 H8 H9 H10 H11 H12) as BT'.
      destruct (IH _ _ _ _ _ BT' G2) as [(root' & u' & s2 & ds' & E & BT2)|(e & r' & E & Hr & NP)].
      * left. exists root', u', s2, ds'. split; [auto|]. rewrite <- app_assoc in BT2. exact BT2.
      * right. exists e, r'. split; [auto|]. split; [now right|auto].
    + right. exists e, r. rewrite P. cbn. auto.
Qed.
End BuildTree.

Theorem build_tree_ok k A g u st : wide_ok k -> N.of_nat (length A) < eol_tok k ->
  gs_rules g <> [] -> Forall (fair_rule k A) (gs_rules g) ->
  (exists root u' s ds, build_tree k g u st = Ok (root, u', s) /\
     built k (has_bol (gs_features g)) A (length st) u (gs_rules g) ds root u' s) \/
  (exists e r, build_tree k g u st = Throw e /\ In r (gs_rules g) /\ ~ parses r).
Proof.
  intros WO HA NE GR. unfold build_tree. set (seen := has_bol (gs_features g)) in *.
  destruct (gs_rules g) as [|r rs]; [congruence|]. inversion GR as [|? ? G1 G2]; subst.
  set (s0 := {| ps_stack := []; ps_tree := ([], st); ps_map := []; ps_cr := gnpos k; ps_nl := gnpos k |}).
  assert (M0 : mgood k (ps_map s0)).
  { intros _. cbn. split; [constructor|constructor]. }
  assert (K0 : kok A (ps_map s0)) by (split; [constructor|intros ? []]).
  destruct (parse_step k seen A (length st) WO HA r s0 (next_uniq k u) G1 eq_refl eq_refl M0 K0 (conj (or_introl eq_refl) (or_introl eq_refl)) (Nat.le_refl _))
      as [(rhs & s' & d & P & H1 & H2 & H3 & H4 & H50 & H5 & H6 & H7 & H8 & H9 & H10 & H11 & H12)|(e & P & NP)].
  - rewrite P. cbn [bind fst snd].
    assert (BT : built k seen A (length st) u [r] [d] rhs (next_uniq k u) s').
    { constructor; auto.
      - intros HF. inversion HF; subst. rewrite H5 by auto. reflexivity.
      - intros i j ri rj p Ei Ej _ _. destruct i as [|[|i]]; [|discriminate|discriminate].
        destruct j as [|[|j]]; [auto|discriminate|discriminate].
      - exists [firstpos rhs]. split; [cbn; now rewrite app_nil_r|]. constructor; [auto|constructor].
      - cbn. now rewrite H12. }
    destruct (build_rest_ok k seen A (length st) u WO HA rs _ _ _ _ _ BT G2)
      as [(root' & u' & s2 & ds' & E & BT2)|(e & r' & E & Hr & NP)].
    + left. exists root', u', s2, ds'. auto.
    + right. exists e, r'. split; [auto|]. split; [now right|auto].
  - right. exists e, r. rewrite P. cbn. auto.
Qed.
