(** The tree of a rule, as parse() leaves it, reads the marked words of the rule. *)
From Verif Require Import Base StringToken StringTokenSpec StringTokenProofs RegexSpec StateMachine Slice
  ReToken DfaSpec Grammar Tree TreeSpec Glushkov TreeProofs EolFix Partition Parser Generator GenMap ParserTree
  ParserProofs ParserSound ParserKeys ParserRule Build Lookup TableSpec LookupSpec RuleSpec LoopSpec LoopTree LoopParse
  MarkSpec MarkWords MarkTree MarkParse.
From Coq Require Import Lia.
Local Open Scope N_scope.

(** The marked words, and also behind a beginning of line if the rule is not to
    look at it. *)
Definition marked_tree (k : gcfg) (m : charset_map) (s : store) (w : list token) (seen : bool) (n : node) : Prop :=
  forall mf, mext m mf -> mfine k mf -> forall r W, mgram GRegex r w -> mlang r W ->
    mden (token_sem k mf) s n (mencw (g_bytes k) W) /\
    (seen = true -> (forall x, gram GRegex x w -> forall v, ~ xlang (g_bytes k) x (SBol :: v)) ->
     mden (token_sem k mf) s n ((SBol, false) :: mencw (g_bytes k) W)).
Lemma marked_tree_ext k m m' s s' w seen n : mext m m' -> hmono s s' ->
  marked_tree k m s w seen n -> marked_tree k m' s' w seen n.
Proof.
  intros X H M mf Xf Ff r W G L. destruct (M mf (mext_trans _ _ _ X Xf) Ff r W G L) as [M1 M2]. split.
  - eapply mden_mono; eauto.
  - intros Hs Hn. eapply mden_mono; eauto.
Qed.

Theorem parse_marks k B w E e seen s root s' o d : wide_ok k -> tk_type B = BEGIN -> tk_type E = END ->
  Forall (tok_ok (g_bytes k)) w -> ps_stack s = [] -> fst (ps_tree s) = [] -> mgood k (ps_map s) ->
  bol_tok k <> gnpos k -> parse k (B :: w ++ [E]) e seen s = Ok (root, s') ->
  parsed k w e seen s root s' o d -> marked_tree k (ps_map s') (snd (ps_tree s')) w seen (dr_tree d).
Proof.
  intros WO HB HE TO Es Et MG NB EP PD mf Xf Ff r W GR LW. unfold parse in EP.
  apply bind_ok in EP as (x & Ef & EP). apply bind_ok in EP as (s2 & E2 & EP).
  assert (St : stream E x w).
  { unfold fetch in Ef. destruct w as [|t w]; cbn in Ef.
    - injection Ef as <-. reflexivity.
    - injection Ef as <-. cbn. destruct (w ++ [E]) eqn:Q; auto. destruct w; discriminate. }
  rewrite Es in E2. set (s1 := with_stack [B] s) in *.
  assert (V : vals k (snd (ps_tree s)) (ps_map s) s1 []).
  { unfold s1. split; [|split]; cbn [with_stack ps_tree ps_map].
    - rewrite Et. repeat split; auto; try constructor. intros ? [].
    - rewrite Et. constructor.
    - split; [auto|apply mext_refl]. }
  destruct (q_gram k E WO _ _ GRegex r w GR TO [] B x [] s1 [] eq_refl V) as (x3 & R & s3 & n & S3 & HR & Es3 & A & GW).
  { now rewrite app_nil_r. } { now rewrite HB. } { cbn. now rewrite HE. }
  cbn in HR. cbn [stream] in S3. subst x3.
  destruct (gw_vals _ _ _ _ _ _ _ _ _ _ GW) as (y & Gy & V3).
  (* the end of the loop *)
  assert (S2 : exists s4, psteps k (with_stack [B] s, x) (s4, (E, [E])) /\ ps_stack s4 = [B] /\
     ps_tree s4 = ps_tree s3 /\ ps_map s4 = ps_map s3).
  { exists (with_stack [B] (push REGEX (with_stack [B] s3))). split; [|auto].
    eapply psteps_trans; [exact A|].
    eapply psteps_trans; [apply (q_unit k s3 [] B R (E, [E]) REGEX); auto|].
    - now rewrite HB, HR.
    - cbn [fst]. now rewrite HR, HE.
    - eapply q_red; [reflexivity| | |discriminate].
      + cbn [fst tok tk_type]. now rewrite HE.
      + unfold reduce. cbn [push with_stack ps_stack]. rewrite pop_lt by (now rewrite HB). reflexivity. }
  destruct S2 as (s4 & A4 & Es4 & Et4 & Em4).
  assert (E4 : s2 = with_stack [] s4).
  { eapply (psteps_loop k _ _ (with_stack [] s4, (E, [E])) A4); [| |exact E2]; [|reflexivity].
    unfold pstep. cbn [fst snd]. rewrite Es4, HB, HE. cbn [precedence]. unfold reduce. rewrite Es4.
    cbn [pop_handle bind fst snd]. rewrite HB. reflexivity. }
  subst s2. cbn [with_stack ps_tree] in EP. rewrite Et4 in EP.
  destruct GW as [T3 H3 M3 _ K3]. cbn [s1 with_stack ps_tree] in T3. rewrite Et in T3.
  destruct V3 as (TW & F3 & MG3 & _). destruct (ps_tree s3) as [ns st] eqn:Q3. cbn [fst snd] in *. subst ns.
  inversion TW as (TW1 & _). inversion TW1 as [|? ? On _]; subst.
  inversion F3 as [|? ? ? ? Mn _]; subst.
  set (info := end_info e (if has_lazy (B :: w ++ [E]) then GNo else GYes)) in *.
  cbn [mk_end fst snd] in EP. set (en := length st) in *.
  assert (EE : nth_error (st ++ [PEnd info]) en = Some (PEnd info)).
  { unfold en. rewrite nth_error_app2, Nat.sub_diag; auto. }
  assert (Os : okn (st ++ [PEnd info]) n).
  { eapply okn_frame; [exact On|]. intros p Hp. rewrite nth_error_app1; auto. eapply okn_lt; eauto. }
  destruct (attach_end _ n en info Os EE) as (st' & Ea & Ln & Oth & Sh).
  rewrite Ea in EP. cbn [bind fst snd] in EP. apply mk_seq_hard in Ea as [_ Ha].
  assert (HM : hmono st st') by (eapply hmono_trans; [apply app_hard|exact Ha]).
  assert (Mx : forall mf, mext (ps_map s3) mf -> mfine k mf -> mden (token_sem k mf) st' n (mencw (g_bytes k) W)).
  { intros mf' X' F'. eapply mden_mono; [exact HM|]. apply K3; auto. }
  pose proof (pd_root _ _ _ _ _ _ _ _ _ PD) as RO.
  (* the root is n and the end *)
  assert (Plain : forall s'', root = NSeq n (NEnd en) -> hmono st' s'' ->
     mden (token_sem k mf) st' n (mencw (g_bytes k) W) -> mden (token_sem k mf) s'' (dr_tree d) (mencw (g_bytes k) W)).
  { intros s'' Er Hs Hm. destruct RO as [[RO|[RO _]]|(pb & n1 & r0 & D1 & RO & D2)]; rewrite Er in *.
    - injection RO as <- _. eapply mden_mono; eauto.
    - discriminate.
    - injection D2 as -> <-. destruct RO as [RO|[_ ->]]; [discriminate|]. rewrite D1.
      exists (mencw (g_bytes k) W), []. rewrite app_nil_r. split; [auto|].
      split; [eapply mden_mono; eauto|reflexivity]. }
  destruct seen.
  - unfold fixup_bol in EP.
    destruct (any_bol_ok k st' n en info (proj1 Os) Sh (firstpos (NSeq n (NEnd en)))) as [[Hb Eb]|[Hb Eb]].
    { intros p Hp. cbn [firstpos] in Hp. apply in_app_or in Hp as [Hp|Hp]; [now left|].
      destruct (nullable n); [|easy]. destruct Hp as [<-|[]]. now right. }
    + rewrite Eb in EP. cbn [bind fst snd] in EP. injection EP as <- <-.
      cbn [with_tree with_stack ps_tree ps_map snd] in *. rewrite Em4 in Xf.
      split; [apply Plain; auto using hmono_refl|]. intros _ NBW. exfalso.
      destruct Hb as (p & H1 & H2).
      assert (H1' : In p (firstpos n)).
      { cbn [firstpos] in H1. apply in_app_or in H1 as [H1|H1]; [auto|]. exfalso.
        destruct (nullable n); [|easy]. destruct H1 as [<-|[]].
        apply (rs_leaf _ _ Sh) in H2 as (g & f & X & _). pose proof (rs_end _ _ Sh). cbn in *. congruence. }
      destruct (proj1 (bol_word k (ps_map s3) n _ (mgood_fine k _ _ MG3 Xf Ff) Mn (proj1 On) (proj1 (proj2 On)))) as (v & Hv).
      { eauto. }
      now apply (NBW y Gy v).
    + rewrite Eb in EP. cbn [bind fst snd] in EP.
      assert (NL : (nullable (NSeq n (NEnd en))) = false) by (cbn; apply andb_false_r).
      destruct (fixup_shape k st' (NSeq n (NEnd en)) n en info NB Sh) as (s5 & E5 & Ln5 & Old5 & Sh5); auto.
      { intros z. cbn [firstpos]. rewrite in_app_iff. destruct (nullable n); cbn; intuition congruence. }
      rewrite E5 in EP. cbn [bind fst snd] in EP. injection EP as <- <-.
      cbn [with_tree with_stack ps_tree ps_map snd] in *. rewrite Em4 in Xf.
      assert (H5 : hmono st' s5).
      { intros p (t & f & Ep). exists t, f. rewrite Old5; [auto|]. apply nth_error_Some. congruence. }
      assert (D : dr_tree d = with_bol k (length st') n).
      { destruct RO as [[RO|[RO _]]|(pb & n1 & r0 & D1 & RO & D2)]; [discriminate|discriminate|].
        injection D2 as <- <-. destruct RO as [RO|[RO _]]; [|discriminate]. injection RO as -> _. exact D1. }
      rewrite D. pose proof (mden_mono (token_sem k mf) _ _ n H5 _ (Mx mf Xf Ff)) as HM5. split.
      * exists [], (mencw (g_bytes k) W). split; [auto|]. split; [now right|auto].
      * intros _ _. exists [(SBol, false)], (mencw (g_bytes k) W). split; [auto|]. split; [|auto].
        left. exists SBol, false. split; [auto|]. split; [now apply sem_bol|discriminate].
  - cbn [bind fst snd] in EP. injection EP as <- <-. cbn [with_tree with_stack ps_tree ps_map snd] in *.
    rewrite Em4 in Xf. split; [|discriminate]. apply Plain; auto using hmono_refl.
Qed.
