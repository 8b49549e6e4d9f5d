(** From the calls on a rules object to the generator and to lookup(). *)
From Verif Require Import Base StringToken StringTokenSpec StringTokenProofs RegexSpec StateMachine Slice SliceSpec ReToken DfaSpec Grammar
  Tree Partition Parser Generator Build ParserKeys ParserProofs GramUnique ParserTree ParserRule RuleSpec RuleWords BuildSpec BolWords BuildCheck BuildLookup
  Lookup TableSpec LookupSpec ReTokeniser ReTokeniserNext Rules TokeniseSpec TokeniseProofs PruneProofs TokeniseAll RulesSpec RulesInv RulesContent RulesFeat.
Local Open Scope N_scope.

Lemma wf_from_ranges t : forall lo, wf_from lo t -> Forall (fun r => fst r <= snd r) t.
Proof. induction t as [|[x y] t IH]; intros lo H; [constructor|]. cbn in H. constructor; [cbn; tauto|]. apply (IH (y + 2)). tauto. Qed.
(** With 32 bit characters the sets have to be such that slicing is right. *)
Definition sliceable (b : N) (t : token) : Prop := tk_type t = CHARSET -> b = 1 \/ b = 2 \/ Forall tame (tk_str t).
Lemma chars_set_ok b t : b = 1 \/ b = 2 \/ Forall tame t -> chars b t -> set_ok b t.
Proof.
  intros Hb [B N]. apply built_wf in B. destruct B as [W Bd]. split; [auto|]. split; [auto|].
  pose proof (wf_from_ranges t 0 W) as R. rewrite Forall_forall in R |- *. intros [x y] Hr. specialize (R _ Hr). cbn in R.
  assert (M : y <= max_char b) by (apply Bd; exists x, y; split; [auto|lia]). unfold max_char in M.
  destruct (b =? 1) eqn:E1; [exact M|]. destruct (b =? 2) eqn:E2; [exact M|]. apply N.eqb_neq in E1, E2. split; [exact M|].
  destruct Hb as [Hb|[Hb|Hb]]; [easy..|]. rewrite Forall_forall in Hb. now apply Hb.
Qed.
Lemma vtok_ok b t : sliceable b t -> vtok (chars b) t -> tok_ok b t.
Proof. intros Hb. unfold sliceable in Hb. unfold vtok, tok_ok. destruct (tk_type t); auto. now apply chars_set_ok, Hb. Qed.

(** What the theorems about built lexers ask of the rules of an object: no $,
    no ^ but the first in a word, not too many sets for the id type, and sets
    that can be sliced. *)
Definition simple (g : gcfg) (r : rules) : Prop :=
  (forall i x, In x (rules_at r i) -> ends EOL (removelast (gr_tokens x)) = false) /\
  (forall i x, In x (rules_at r i) -> starts BOL (tl (gr_tokens x)) = true -> bol_rule true x) /\
  (forall s, In s (gr_states (grules_of r)) -> N.of_nat (length (all_sets (g_bytes g) s)) < eol_tok g) /\
  (forall i x t, In x (rules_at r i) -> In t (gr_tokens x) -> sliceable (g_bytes g) t).

Section Made.
  Variables (k : rcfg) (g : gcfg) (r : rules).
  Hypothesis NPOS : 1 < rnpos k.
  Hypothesis Hbits : g_bits g = r_bits k.
  Hypothesis Hbytes : g_bytes g = r_bytes k.
  Hypothesis Hb : 0 < g_bytes g.
  Hypothesis P : proper_unsplit k r.
  Hypothesis S : simple g r.

  Lemma state_rules s : In s (gr_states (grules_of r)) -> exists i, (i < length (ru_map r))%nat /\ gs_rules s = rules_at r i /\ gs_features s = nth i (ru_features r) 0.
  Proof.
    intros H. cbn in H. apply in_map_iff in H. destruct H as (i & <- & Hi). apply in_seq in Hi. exists i. split; [lia|]. split; reflexivity.
  Qed.
  Lemma rule_is_wf i x : In x (rules_at r i) -> rule_wf (g_bytes g) (has_bol (nth i (ru_features r) 0)) x.
  Proof.
    intros Hx. destruct (unsplit_feats k NPOS r P) as (A & C & F). destruct S as (S1 & S2 & _ & S4).
    pose proof (co_rules _ _ C i) as G. rewrite Forall_forall in G. destruct (G x Hx) as ((w & E & V) & _ & _).
    specialize (S1 i x Hx). specialize (S2 i x Hx). specialize (F i). rewrite Forall_forall in F. specialize (F x Hx). destruct F as (F1 & _).
    rewrite E in S1, S2, F1. assert (T : rule_tokens x w) by (exists (tok BEGIN), (tok END); auto).
    constructor.
    - exists w. split; [auto|]. split; [|split; [apply V|]].
      + pose proof (ve_toks _ _ V) as VT. rewrite Forall_forall in VT |- *. intros t Ht. apply vtok_ok; [|rewrite Hbytes; now apply VT].
        apply (S4 i x t Hx). rewrite E. right. apply in_or_app. now left.
      + apply Forall_forall. intros t Ht Et. apply in_split in Ht. destruct Ht as (u & v & ->).
        pose proof (ve_eol _ _ V u t v eq_refl Et) as ->. unfold between in S1. change (tok BEGIN :: (u ++ [t]) ++ [tok END]) with ((tok BEGIN :: u ++ [t]) ++ [tok END]) in S1.
        rewrite removelast_last in S1. unfold ends in S1. cbn [rev] in S1. rewrite rev_app_distr in S1. cbn in S1. unfold is_type in S1. rewrite Et in S1. discriminate.
    - destruct (starts BOL (tl (between w))) eqn:EB.
      + intros u v H. split; [apply (S2 eq_refl u v H)|]. unfold has_bol. specialize (F1 eq_refl). unfold bit in F1. now apply negb_true_iff, N.eqb_neq.
      + apply shaped_bol. left. apply (plain_tokens x w T). apply Forall_forall. intros t Ht Et. apply in_split in Ht. destruct Ht as (u & v & ->).
        pose proof (ve_bol _ _ V u t v eq_refl Et) as ->. cbn in EB. unfold is_type in EB. rewrite Et in EB. discriminate.
  Qed.
  Theorem made_wf : rules_wf g (grules_of r).
  Proof.
    apply Forall_forall. intros s Hs. destruct (state_rules s Hs) as (i & Hi & E1 & E2). split.
    - rewrite E1, E2. apply Forall_forall. intros x. apply rule_is_wf.
    - exists (all_sets (g_bytes g) s). destruct S as (_ & _ & S3 & _). split; [now apply S3|].
      intros x t Hx Ht y Hy. apply all_sets_ok. apply in_flat_map. exists x. split; [auto|]. apply in_flat_map. eauto.
  Qed.
  Theorem made_targets : targets_ok g (grules_of r).
  Proof.
    intros s x Hs Hx. destruct (state_rules s Hs) as (i & Hi & E1 & E2). rewrite E1 in Hx. destruct (unsplit_feats k NPOS r P) as (A & C & F).
    pose proof (co_rules _ _ C i) as G. rewrite Forall_forall in G. destruct (G x Hx) as (_ & G1 & G2 & _).
    assert (L : length (gr_states (grules_of r)) = length (ru_map r)) by (cbn; now rewrite map_length, seq_length). rewrite L. split; [auto|].
    replace (gnpos g) with (rnpos k); [auto|]. unfold gnpos, rnpos. now rewrite Hbits.
  Qed.

  (** lookup.hpp:482-485: the flags of the results cover the features. *)
  Definition covers (kc : cfg) (m : internals) : Prop := bit (i_features m) fb_rec -> f_rec kc = true.
  Lemma fold_lor l b : forall a, (exists f, In f (a :: l) /\ bit f b) -> bit (fold_left N.lor l a) b.
  Proof.
    induction l as [|x l IH]; intros a (f & Hf & Bf); [destruct Hf as [->|[]]; exact Bf|]. cbn. apply IH.
    destruct Hf as [->|[->|Hf]]; [exists (N.lor f x)|exists (N.lor a f)|exists f]; cbn; rewrite ?bit_lor; auto.
  Qed.
  Theorem made_setting f kc m inp res : agree kc g -> build f g (grules_of r) = Ok m -> covers kc m ->
    Forall (fits (c_bytes kc)) inp -> in_range (grules_of r) inp res -> setting f kc g (grules_of r) m inp res.
  Proof.
    intros HA HB HC HI HR. constructor; auto.
    - unfold wide_ok. lia.
    - apply made_wf.
    - apply made_targets.
    - intros s x Hs Hx Hp. apply HC. destruct (state_rules s Hs) as (i & Hi & E1 & E2). rewrite E1 in Hx.
      destruct (unsplit_feats k NPOS r P) as (_ & _ & F). specialize (F i). rewrite Forall_forall in F. specialize (F x Hx). destruct F as (_ & _ & _ & _ & F).
      specialize (F (or_introl Hp)). unfold build in HB. destruct (build_states _ _ _ _ _ _ _) as [[[os u] us]| | |]; cbn [bind] in HB; try discriminate.
      destruct (check_suppressed _ _ _); cbn [bind] in HB; try discriminate. injection HB as <-. cbn [i_features create]. rewrite bit_lor. left.
      apply fold_lor. exists (gs_features s). split; [|now rewrite E2]. right. now apply in_map.
  Qed.
End Made.
