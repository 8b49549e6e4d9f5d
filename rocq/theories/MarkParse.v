(** The parser run on a rule: the tree it builds reads the marked words of the
    rule. *)
From Verif Require Import Base StringToken StringTokenSpec StringTokenProofs RegexSpec StateMachine Slice
  ReToken DfaSpec Grammar Tree TreeSpec Glushkov TreeProofs EolFix Partition Parser Generator GenMap ParserTree
  ParserProofs ParserSound ParserKeys ParserRule Build Lookup TableSpec LookupSpec RuleSpec LoopSpec LoopTree LoopParse MarkSpec MarkWords MarkTree.
From Coq Require Import Lia.
Local Open Scope N_scope.

(** ** Marked words in bytes: the mark stays at the first byte *)
Definition first_marked (m : bool) (l : list sym) : list (sym * bool) :=
  match l with [] => [] | x :: l' => (x, m) :: map (fun y => (y, false)) l' end.
Definition menc (b : N) (x : csym * bool) : list (sym * bool) :=
  match fst x with
  | CChar c => first_marked (snd x) (map SByte (enc b c))
  | CBol => [(SBol, snd x)]
  | CEol => [(SEol, snd x)]
  end.
Definition mencw (b : N) (W : list (csym * bool)) : list (sym * bool) := flat_map (menc b) W.
Lemma mencw_app b u v : mencw b (u ++ v) = mencw b u ++ mencw b v.
Proof. apply flat_map_app. Qed.
Lemma enc_ne b c : enc b c <> [].
Proof. unfold enc. destruct (b =? 1); [discriminate|]. destruct (b =? 2); discriminate. Qed.
Lemma mencw_begin b W : mencw b (begin_mark W) = begin_mark (mencw b W).
Proof.
  destruct W as [|[a m] W]; [reflexivity|]. cbn [begin_mark mencw flat_map]. unfold menc. cbn [fst snd].
  destruct a as [c| |]; [|reflexivity|reflexivity]. pose proof (enc_ne b c).
  destruct (enc b c) as [|x l]; [easy|]. reflexivity.
Qed.
Lemma mencw_rounds b (L : list (csym * bool) -> Prop) (M : list (sym * bool) -> Prop) g mn mx W :
  (forall W, L W -> M (mencw b W)) -> rounds L g mn mx W -> rounds M g mn mx (mencw b W).
Proof.
  intros H (u & v & j & -> & Pu & Hj & Pv). exists (mencw b u), (mencw b v), j.
  split; [apply mencw_app|]. split; [|split; [auto|]].
  - clear Hj Pv. revert u Pu. induction (N.to_nat mn) as [|n IH]; cbn; [intros u ->; reflexivity|].
    intros u (x & y & -> & Hx & Hy). exists (mencw b x), (mencw b y). rewrite mencw_app. auto.
  - clear Hj Pu. revert v Pv. induction j as [|n IH]; cbn; [intros v ->; reflexivity|].
    intros v (x & y & -> & (x0 & Hx & ->) & Hy). eexists (mencw b _), (mencw b y). rewrite mencw_app.
    split; [reflexivity|]. split; [|auto]. exists (mencw b x0). split; [auto|].
    destruct g; [apply mencw_begin|auto].
Qed.

Lemma den_mden {A} (sem : N -> A -> Prop) s n : forall w, den sem n w ->
  mden sem s n (map (fun a => (a, false)) w).
Proof.
  induction n as [g|t p|l IHl r IHr|l IHl r IHr|n IH g|p]; cbn; intros w.
  - intros ->. reflexivity.
  - intros (a & -> & S). exists a, false. split; [auto|]. split; [auto|discriminate].
  - intros (u & v & -> & Hu & Hv). rewrite map_app. eauto 7.
  - intros [H|H]; auto.
  - induction 1; [constructor|]. rewrite map_app. constructor; auto.
  - tauto.
Qed.

Section Run.
Variables (k : gcfg) (E : token).
Notation bsz := (g_bytes k).
Hypothesis WO : wide_ok k.
Hypothesis Eend : tk_type E = END.
Variables (s0 : store) (m0 : charset_map).
Notation vals := (vals k s0 m0).
Notation psteps := (psteps k).

(** The steps leave one tree more, for [r]. *)
Record grown (X : nt) (w : list token) (s : pstate) (ls : list (list sym -> Prop)) (s' : pstate) (n : node)
    (r : mrx) : Prop := {
  gw_tree : fst (ps_tree s') = n :: fst (ps_tree s);
  gw_hard : hmono (snd (ps_tree s)) (snd (ps_tree s'));
  gw_map : mext (ps_map s) (ps_map s');
  gw_vals : exists x, gram X x w /\ vals s' (xlang bsz x :: ls);
  gw_marks : forall mf, mext (ps_map s') mf -> mfine k mf ->
    forall W, mlang r W -> mden (token_sem k mf) (snd (ps_tree s')) n (mencw bsz W)
}.
Lemma vals_pure s ls n ns : vals s ls -> fst (ps_tree s) = n :: ns -> pure n = true.
Proof. intros ((F & _) & _) E0. rewrite E0 in F. inversion F as [|? ? O]; subst. apply O. Qed.
Lemma vals_pure2 s ls n m ns : vals s ls -> fst (ps_tree s) = n :: m :: ns -> pure m = true.
Proof. intros ((F & _) & _) E0. rewrite E0 in F. inversion F as [|? ? O F']; subst. inversion F' as [|? ? O']; subst. apply O'. Qed.

(** *** Character sets *)
(** Pushing leaves the trees below alone. *)
Definition pushes (s s' : pstate) : Prop :=
  (exists n, fst (ps_tree s') = n :: fst (ps_tree s)) /\ hmono (snd (ps_tree s)) (snd (ps_tree s')).
Lemma push_leaf_pushes id s : pushes s (push_leaf k id s).
Proof.
  unfold push_leaf, pushes. cbn [with_tree ps_tree fst snd]. split; [eauto|]. unfold mk_leaf.
  destruct (id =? gnpos k); cbn [snd]; [apply hmono_refl|apply app_hard].
Qed.
Lemma push_range_pushes t s : pushes s (push_range k t s).
Proof. unfold push_range. apply (push_leaf_pushes _ (with_map _ s)). Qed.
Lemma pushes_seq s s1 s2 s3 : pushes s s1 -> pushes s1 s2 -> on_tree t_sequence s2 = Ok s3 -> pushes s s3.
Proof.
  intros [[n1 E1] H1] [[n2 E2] H2] E3. unfold on_tree in E3. apply bind_ok in E3 as (t & E3 & X).
  injection X as <-. destruct (ps_tree s2) as [ns st]. cbn [fst snd] in *. subst ns. rewrite E1 in E3.
  cbn [t_sequence] in E3. apply bind_ok in E3 as ([n st'] & E3 & X). injection X as <-.
  apply mk_seq_hard in E3 as [-> H3]. split; cbn [with_tree ps_tree fst snd]; [eauto|].
  eapply hmono_trans; [eauto|]. eapply hmono_trans; eauto.
Qed.
Lemma pushes_or s s1 s2 s3 : pushes s s1 -> pushes s1 s2 -> on_tree t_or s2 = Ok s3 -> pushes s s3.
Proof.
  intros [[n1 E1] H1] [[n2 E2] H2] E3. unfold on_tree in E3. apply bind_ok in E3 as (t & E3 & X).
  injection X as <-. destruct (ps_tree s2) as [ns st]. cbn [fst snd] in *. subst ns. rewrite E1 in E3.
  cbn [t_or] in E3. injection E3 as <-. split; cbn [with_tree ps_tree fst snd]; [eauto|].
  eapply hmono_trans; eauto.
Qed.
Section Pd.
  Context {D : Type}.
  Variable pd : D -> pstate -> res pstate.
  Hypothesis pd_pushes : forall d s s', pd d s = Ok s' -> pushes s s'.
  Lemma push_more_pushes ds : forall s s1 s', pushes s s1 -> push_more pd ds s1 = Ok s' -> pushes s s'.
  Proof.
    induction ds as [|d ds IH]; cbn [push_more]; intros s s1 s' P E0; [now injection E0 as <-|].
    apply bind_ok in E0 as (s2 & E2 & E0). apply bind_ok in E0 as (s3 & E3 & E0).
    apply (IH s s3 s'); [|auto]. eapply pushes_or; eauto.
  Qed.
  Lemma push_ranges_pushes ds s s' : push_ranges pd ds s = Ok s' -> pushes s s'.
  Proof.
    destruct ds as [|d ds]; [discriminate|]. cbn [push_ranges]. intros E0.
    apply bind_ok in E0 as (s1 & E1 & E0). eapply push_more_pushes; eauto.
  Qed.
End Pd.
Lemma p_charset_pushes t s s' : p_charset k t s = Ok s' -> pushes s s'.
Proof.
  unfold p_charset. destruct (compressed k).
  - unfold create_sequence. intros E0. apply bind_ok in E0 as (s1 & E1 & X). injection X as <-.
    change (pushes s s1). destruct (bsz =? 2).
    + eapply push_ranges_pushes; [|exact E1]. intros d a a' Ed. unfold push_data2 in Ed.
      eapply pushes_seq; [| |exact Ed]; apply push_range_pushes.
    + eapply push_ranges_pushes; [|exact E1]. intros [[t1 t2] t3] a a' Ed. unfold push_data3 in Ed.
      apply bind_ok in Ed as (a1 & Ed1 & Ed2).
      eapply pushes_seq; [|apply push_range_pushes|exact Ed2].
      eapply pushes_seq; [| |exact Ed1]; apply push_range_pushes.
  - intros X. injection X as <-. apply (push_range_pushes t s).
Qed.

(** A tree that means the words of an atom. *)
Lemma atom_grown w0 s ls s' r x : gram GAtom x w0 -> pushes s s' -> vals s ls -> (forall m, mext m (ps_map s) ->
    ParserTree.vals k s0 m s ls -> ParserTree.vals k s0 m s' (xlang bsz x :: ls)) ->
  (forall W, mlang r W -> exists w, mencw bsz W = map (fun a => (a, false)) w /\ xlang bsz x w) ->
  exists n, grown GAtom w0 s ls s' n r.
Proof.
  intros GA [[n En] H] V VS LX. exists n.
  assert (V' : ParserTree.vals k s0 (ps_map s) s' (xlang bsz x :: ls)).
  { apply VS; [apply mext_refl|]. destruct V as (V1 & V2 & V3 & _). split; [auto|]. split; [auto|].
    split; [auto|apply mext_refl]. }
  destruct V' as (T & F & G & X). constructor; auto.
  - exists x. split; [auto|]. split; [auto|]. split; [auto|]. split; [auto|].
    destruct V as (_ & _ & _ & V4). eapply mext_trans; eauto.
  - intros mf Xm Fm W HW. destruct (LX W HW) as (w & -> & Hw). apply den_mden.
    rewrite En in F. inversion F as [|? ? ? ? [M _]]; subst. now apply M.
Qed.
Lemma p_lookup_ext t m : mgood k m -> bt t -> mext m (snd (p_lookup k t m)).
Proof. intros G B. apply (p_lookup_ok k t m B G). Qed.

(** *** Steps *)
Lemma q_shift s st a x t rest : ps_stack s = a :: st -> stream E x (t :: rest) ->
  (precedence (tk_type a) (tk_type t) = Some L_ \/ precedence (tk_type a) (tk_type t) = Some E_) ->
  exists x', stream E x' rest /\ psteps (s, x) (with_stack (t :: a :: st) s, x').
Proof.
  destruct x as [la it]. intros Es S P. assert (X : la = t) by (cbn in S; congruence). subst la.
  destruct (stream_fetch E t it rest S) as (x' & Ef & S'). exists x'. split; [auto|].
  apply ps_step with (c1 := (with_stack (t :: a :: st) s, x')); [|discriminate|apply ps_refl].
  unfold pstep. cbn [fst snd]. rewrite Es, Ef. now destruct P as [-> | ->].
Qed.
Lemma q_red s st a x s' : ps_stack s = a :: st -> precedence (tk_type a) (tk_type (fst x)) = Some G_ ->
  reduce k s = Ok s' -> ps_stack s' <> [] -> psteps (s, x) (s', x).
Proof.
  intros Es P R N. apply ps_step with (c1 := (s', x)); [|exact N|apply ps_refl]. unfold pstep. cbn [fst snd]. now rewrite Es, P, R.
Qed.
(** Reductions that keep the trees. *)
Lemma q_unit s st a b x t : ps_stack s = b :: a :: st -> precedence (tk_type a) (tk_type b) = Some L_ ->
  precedence (tk_type b) (tk_type (fst x)) = Some G_ ->
  (tk_type b = OREXP /\ t = REGEX \/ tk_type b = SEQUENCE /\ t = OREXP \/ tk_type b = SUB /\ t = SEQUENCE \/
   tk_type b = EXPRESSION /\ t = SUB \/ tk_type b = REPEAT /\ t = EXPRESSION) ->
  psteps (s, x) (push t (with_stack (a :: st) s), x).
Proof.
  intros Es P G D. eapply q_red; [exact Es|exact G| |discriminate].
  unfold reduce. rewrite Es, pop_lt by auto. cbn [bind fst snd].
  destruct D as [[-> ->]|[[-> ->]|[[-> ->]|[[-> ->]|[-> ->]]]]]; reflexivity.
Qed.

Lemma dup_marks t g mn mx {A} (sem : N -> A -> Prop) : mdup t g mn mx -> tok_ok bsz t ->
  marks_op sem (op_of t) (fun L => rounds L g mn mx).
Proof.
  intros D T n ns s st' E0 P.
  assert (RP : forall h, tk_type t = REPEATN \/ tk_type t = AREPEATN -> counts (tk_extra t) mn mx ->
     p_repeatn h (tk_extra t) (n :: ns, s) = Ok st' ->
     exists n' s', st' = (n' :: ns, s') /\ pure n' = true /\ hmono s s' /\
       forall w, rounds (mden sem s n) (ghard h) mn mx w -> mden sem s' n' w).
  { intros h Ht C0 Er. unfold tok_ok in T.
    assert (T' : exists mn mx, counts (tk_extra t) mn mx /\ counts_ok mn mx /\
      (mx = Some 1 -> mn = 1) /\ (mx = Some mn -> ~ In 44 (tk_extra t)))
      by (destruct Ht as [Ht|Ht]; rewrite Ht in T; exact T).
    destruct T' as (mn' & mx' & C & [O1 O2] & N1 & N2).
    destruct (counts_fun _ _ _ _ _ C0 C) as [<- <-].
    destruct (counts_p _ _ _ C O1) as (comma & m & Ec & Cs).
    { destruct mx; [tauto|auto]. }
    assert (RA : rep_args mn comma m).
    { destruct Cs as [(-> & -> & _)|[(-> & -> & -> & _)|(-> & -> & Hi)]].
      - left. split; [auto|]. lia.
      - right. left. auto.
      - right. right. split; [auto|]. split.
        + destruct (N.eq_dec mn m) as [->|]; [|lia]. exfalso. now apply N2.
        + destruct (N.eq_dec m 1) as [->|]; [|lia]. exfalso. rewrite (N1 eq_refl) in N2. now apply N2. }
    assert (RM : rmax mn comma m = mx).
    { destruct Cs as [(-> & -> & _)|[(-> & -> & -> & _)|(-> & -> & Hi)]]; cbn [rmax]; auto.
      destruct (N.eqb_spec m 0); [|auto]. lia. }
    unfold p_repeatn in Er. rewrite Ec in Er.
    destruct (repeat_marks sem h mn comma m RA n ns s st' Er P) as (n' & s' & H1 & H2 & H3 & H4).
    rewrite RM in H4. eauto 8. }
  assert (OP : forall h, t_optional h (n :: ns, s) = Ok st' ->
     exists n' s', st' = (n' :: ns, s') /\ pure n' = true /\ hmono s s' /\
       forall w, rounds (mden sem s n) (ghard h) 0 (Some 1) w -> mden sem s' n' w).
  { intros h Er. destruct (optional_marks sem h n ns s st' Er P) as (n' & s' & H1 & H2 & H3 & H4).
    exists n', s'. split; [auto|]. split; [auto|]. split; [auto|].
    intros w (u & v & j & -> & Pu & Hj & Pv). apply H4. cbn in Pu. subst u.
    destruct j as [|[|j]]; [cbn in Pv; auto| |lia]. right. cbn [app].
    apply power1 in Pv as (y & Hy & ->). exists y. auto. }
  assert (ST : forall h, t_star h (n :: ns, s) = Ok st' ->
     exists n' s', st' = (n' :: ns, s') /\ pure n' = true /\ hmono s s' /\
       forall w, rounds (mden sem s n) (ghard h) 0 None w -> mden sem s' n' w).
  { intros h Er. destruct (star_marks sem h n ns s st' Er P) as (n' & s' & H1 & H2 & H3 & H4).
    exists n', s'. split; [auto|]. split; [auto|]. split; [auto|].
    intros w (u & v & j & -> & Pu & Hj & Pv). apply H4. cbn in Pu. subst u. cbn [app].
    apply power_star. exists j. exact Pv. }
  assert (PL : forall h, t_plus h (n :: ns, s) = Ok st' ->
     exists n' s', st' = (n' :: ns, s') /\ pure n' = true /\ hmono s s' /\
       forall w, rounds (mden sem s n) (ghard h) 1 None w -> mden sem s' n' w).
  { intros h Er. destruct (plus_marks sem h n ns s st' Er P) as (n' & s' & H1 & H2 & H3 & H4).
    exists n', s'. split; [auto|]. split; [auto|]. split; [auto|].
    intros w (u & v & j & -> & Pu & Hj & Pv). apply H4. exists u, v. split; [auto|].
    split; [now apply power1|]. apply power_star. exists j. exact Pv. }
  unfold op_of in E0. destruct D as [t Ht|t Ht|t Ht|t Ht|t Ht|t Ht|t mn mx Ht C|t mn mx Ht C];
    rewrite Ht in E0.
  - apply (OP GHard E0).
  - apply (OP GNo E0).
  - apply (ST GHard E0).
  - apply (ST GNo E0).
  - apply (PL GHard E0).
  - apply (PL GNo E0).
  - apply (RP GHard); auto.
  - apply (RP GNo); auto.
Qed.

Lemma mdup_is t g mn mx : mdup t g mn mx -> is_dup (tk_type t) = true.
Proof. intros D. destruct D as [t Ht|t Ht|t Ht|t Ht|t Ht|t Ht|t mn mx Ht C|t mn mx Ht C]; now rewrite Ht. Qed.

Lemma grown_stack X w s ls s' n r st : grown X w s ls s' n r -> grown X w s ls (with_stack st s') n r.
Proof. intros [H1 H2 H3 H4 H5]. constructor; auto. Qed.
Lemma grown_from X w s ls s' n r st : grown X w (with_stack st s) ls s' n r -> grown X w s ls s' n r.
Proof. intros [H1 H2 H3 H4 H5]. constructor; auto. Qed.
Lemma grown_push X w s ls s' n r t : grown X w s ls s' n r -> grown X w s ls (push t s') n r.
Proof. apply grown_stack. Qed.
Lemma grown_nt X Y w s ls s' n r : (forall x, gram X x w -> gram Y x w) -> grown X w s ls s' n r -> grown Y w s ls s' n r.
Proof. intros G [H1 H2 H3 (x & H4 & V) H5]. constructor; auto. exists x. auto. Qed.

Lemma q_atom st a x t rest s ls r : ps_stack s = a :: st -> vals s ls ->
  stream E x (t :: rest) -> starts GAtom (tk_type a) = true -> tok_ok bsz t ->
  (tk_type t = CHARSET /\ r = MSet (tk_str t) \/ tk_type t = BOL /\ r = MBol \/ tk_type t = EOL /\ r = MEol) ->
  ends GAtom (tk_type (hd E rest)) = true ->
  exists x' R s' n, stream E x' rest /\ tk_type R = REPEAT /\ ps_stack s' = R :: a :: st /\
    psteps (s, x) (s', x') /\ grown GAtom [t] s ls s' n r.
Proof.
  intros Es V S Sa TO Ht En.
  assert (PL : precedence (tk_type a) (tk_type t) = Some L_).
  { destruct (tk_type a); try discriminate; destruct Ht as [[-> _]|[[-> _]|[-> _]]]; reflexivity. }
  destruct (q_shift s st a x t rest Es S (or_introl PL)) as (x' & S' & A1).
  assert (PG : precedence (tk_type t) (tk_type (fst x')) = Some G_).
  { rewrite (stream_head E x' rest S').
    destruct (tk_type (hd E rest)); try discriminate; destruct Ht as [[-> _]|[[-> _]|[-> _]]]; reflexivity. }
  exists x'.
  assert (Red : forall s', reduce k (with_stack (t :: a :: st) s) = Ok s' -> ps_stack s' <> [] ->
     psteps (s, x) (s', x')).
  { intros s' R N. eapply psteps_trans; [exact A1|]. eapply q_red; [reflexivity|exact PG|exact R|exact N]. }
  unfold reduce in Red. cbn [with_stack ps_stack] in Red. rewrite pop_lt in Red by auto. cbn [bind fst snd] in Red.
  destruct Ht as [[Ht ->]|[[Ht ->]|[Ht ->]]]; rewrite Ht in Red.
  - unfold tok_ok in TO. rewrite Ht in TO.
    destruct (p_charset_ok k s0 m0 (tk_str t) (with_stack (a :: st) s) ls WO TO V) as (s1 & E1 & V1 & St1).
    assert (GR : exists n, grown GAtom [t] s ls s1 n (MSet (tk_str t))).
    { apply (atom_grown [t] s ls s1 _ (XSet (tk_str t))); auto.
      - now constructor.
      - apply (p_charset_pushes (tk_str t) (with_stack (a :: st) s) s1 E1).
      - intros m Xm Vm. destruct (p_charset_ok k s0 m (tk_str t) (with_stack (a :: st) s) ls WO TO Vm) as (s2 & E2 & V2 & _).
        rewrite E1 in E2. injection E2 as <-. exact V2.
      - cbn [mlang]. intros W (c & Mc & ->). exists (map SByte (enc bsz c)). split.
        + cbn [mencw flat_map]. rewrite app_nil_r. unfold menc. cbn [fst snd].
          destruct (map SByte (enc bsz c)); reflexivity.
        + exists c. auto. }
    destruct GR as (n & GR).
    specialize (Red s1 E1). cbn [with_stack ps_stack] in St1. unfold set_stack in St1.
    destruct (compressed k) eqn:Ek.
    + (* ( REGEX ) *)
      assert (N1 : ps_stack s1 <> []) by (rewrite St1; discriminate). specialize (Red N1).
      exists (tok REPEAT), (push REPEAT (with_stack (a :: st) s1)), n.
      split; [auto|]. split; [auto|]. split; [auto|]. split; [|now apply grown_push, grown_stack].
      eapply psteps_trans; [exact Red|]. eapply q_red; [exact St1| | |discriminate].
      * rewrite (stream_head E x' rest S'). destruct (tk_type (hd E rest)); try discriminate; reflexivity.
      * unfold reduce. rewrite St1. rewrite pop_eq by reflexivity. rewrite pop_eq by reflexivity.
        rewrite pop_lt; [reflexivity|]. cbn. destruct (tk_type a); try discriminate; reflexivity.
    + exists (tok REPEAT), s1, n. split; [auto|]. split; [auto|]. split; [auto|].
      split; [apply Red; rewrite St1; discriminate|auto].
  - destruct (p_bol_ok k s0 m0 (with_stack (a :: st) s) ls V) as [V1 St1].
    assert (GR : exists n, grown GAtom [t] s ls (p_bol k (with_stack (a :: st) s)) n MBol).
    { apply (atom_grown [t] s ls _ _ XBol); auto.
      - now constructor.
      - apply (push_leaf_pushes (bol_tok k) s).
      - intros m Xm Vm. apply (p_bol_ok k s0 m (with_stack (a :: st) s) ls Vm).
      - cbn [mlang]. intros W ->. exists [SBol]. split; reflexivity. }
    destruct GR as (n & GR). exists (tok REPEAT), (p_bol k (with_stack (a :: st) s)), n.
    split; [auto|]. split; [auto|]. split; [auto|]. split; [|auto]. apply Red; [reflexivity|discriminate].
  - destruct (p_eol_ok k s0 m0 (with_stack (a :: st) s) ls V) as [V1 St1].
    assert (GR : exists n, grown GAtom [t] s ls (p_eol k (with_stack (a :: st) s)) n MEol).
    { apply (atom_grown [t] s ls _ _ XEol); auto.
      - now constructor.
      - unfold p_eol. match goal with |- pushes _ (push _ (push_leaf _ _ ?z)) => apply (push_leaf_pushes (eol_tok k) z) end.
      - intros m Xm Vm. apply (p_eol_ok k s0 m (with_stack (a :: st) s) ls Vm).
      - cbn [mlang]. intros W ->. exists [SEol]. split; reflexivity. }
    destruct GR as (n & GR). exists (tok REPEAT), (p_eol k (with_stack (a :: st) s)), n.
    split; [auto|]. split; [auto|]. split; [auto|]. split; [|auto]. apply Red; [reflexivity|discriminate].
Qed.

(** *** A derivation is followed by the parser *)
Ltac tk x := destruct (tk_type x); try discriminate; reflexivity.
Lemma q_gram X r w : mgram X r w -> Forall (tok_ok bsz) w -> forall st a x rest s ls,
  ps_stack s = a :: st -> vals s ls ->
  stream E x (w ++ rest) -> starts X (tk_type a) = true -> ends X (tk_type (hd E rest)) = true ->
  exists x' R s' n, stream E x' rest /\ tk_type R = symbol X /\ ps_stack s' = R :: a :: st /\
    psteps (s, x) (s', x') /\ grown X w s ls s' n r.
Proof.
  induction 1 as [r w G IH|a b u v t G1 IH1 Ht G2 IH2|r w G IH|a b u v G1 IH1 G2 IH2
                 |r w G IH|r w t g mn mx G IH D|t Ht|t Ht|t Ht|r w o c Ho G IH Hc];
    intros TO st z x rest s ls Es V S Sz En.
  - (* regex from sequence *)
    destruct (IH TO st z x rest s ls Es V S) as (x' & R & s' & n & S' & HR & Es' & A & GW).
    { cbn in *. tk z. }
    { cbn in *. destruct (tk_type (hd E rest)); auto; discriminate. }
    cbn in HR, Sz, En. exists x', (tok OREXP), (push OREXP (with_stack (z :: st) (push SEQUENCE (with_stack (z :: st) s')))), n.
    split; [auto|]. split; [auto|]. split; [auto|].
    split; [|apply grown_push, grown_stack, grown_push, grown_stack; eapply grown_nt; [|exact GW]; intros; now constructor].
    eapply psteps_trans; [exact A|]. eapply psteps_trans; [apply (q_unit s' st z R x' SEQUENCE); auto|].
    + rewrite HR. tk z.
    + rewrite HR, (stream_head E x' rest S'). tk (hd E rest).
    + apply (q_unit _ st z (tok SEQUENCE) x' OREXP); auto.
      * cbn. tk z.
      * cbn [tk_type tok]. rewrite (stream_head E x' rest S'). tk (hd E rest).
  - (* or *)
    apply Forall_app in TO as [TO1 TO2]. inversion TO2 as [|? ? _ TO3]; subst.
    rewrite <- app_assoc in S. cbn [app] in S.
    destruct (IH1 TO1 st z x (t :: v ++ rest) s ls Es V S Sz) as (x1 & R1 & s1 & n1 & S1 & HR1 & Es1 & A1 & GW1).
    { cbn [hd]. now rewrite Ht. }
    cbn in HR1. destruct (q_shift s1 (z :: st) R1 x1 t (v ++ rest) Es1 S1) as (x2 & S2 & A2).
    { right. now rewrite HR1, Ht. }
    destruct (gw_vals _ _ _ _ _ _ _ GW1) as (y1 & Gy1 & V1).
    destruct (IH2 TO3 (R1 :: z :: st) t x2 rest (with_stack (t :: R1 :: z :: st) s1) (xlang bsz y1 :: ls) eq_refl V1 S2)
      as (x3 & R3 & s3 & n3 & S3 & HR3 & Es3 & A3 & GW3).
    { cbn. now rewrite Ht. }
    { cbn in *. destruct (tk_type (hd E rest)); auto; discriminate. }
    apply grown_from in GW3. cbn in HR3, Sz, En. destruct (gw_vals _ _ _ _ _ _ _ GW3) as (y3 & Gy3 & V3).
    set (s4 := push SEQUENCE (with_stack (t :: R1 :: z :: st) s3)).
    assert (A4 : psteps (s3, x3) (s4, x3)).
    { apply (q_unit s3 (R1 :: z :: st) t R3 x3 SEQUENCE); auto.
      - now rewrite HR3, Ht.
      - rewrite HR3, (stream_head E x3 rest S3). tk (hd E rest). }
    destruct (or_vals k s0 m0 (with_stack (z :: st) s4) (xlang bsz y1) (xlang bsz y3) ls V3) as (s5 & E5 & V5 & St5).
    assert (A5 : psteps (s4, x3) (push OREXP s5, x3)).
    { eapply q_red; [reflexivity| | |discriminate].
      - cbn [tk_type tok]. rewrite (stream_head E x3 rest S3). tk (hd E rest).
      - unfold reduce. cbn [s4 push with_stack ps_stack].
        rewrite pop_eq by (rewrite Ht; reflexivity). rewrite pop_eq by (rewrite Ht, HR1; reflexivity).
        rewrite pop_lt by (rewrite HR1; tk z). cbn [bind fst snd]. rewrite HR1. fold s4.
        change (with_stack (z :: st) (push SEQUENCE (with_stack (t :: R1 :: z :: st) s3))) with (with_stack (z :: st) s4).
        rewrite E5. reflexivity. }
    destruct GW1 as [T1 H1 M1 _ K1]. destruct GW3 as [T3 H3 M3 _ K3].
    unfold on_tree in E5. cbn [s4 with_stack push ps_tree] in E5. apply bind_ok in E5 as (tr & E5 & X5).
    destruct (ps_tree s3) as [ns3 st3] eqn:Et3. cbn [fst snd] in *. subst ns3. rewrite T1 in E5.
    cbn [t_or] in E5. injection E5 as <-. injection X5 as <-.
    exists x3, (tok OREXP). eexists. exists (NSel n1 n3). split; [exact S3|]. split; [reflexivity|].
    split; [|split; [eapply psteps_trans; [exact A1|eapply psteps_trans; [exact A2|eapply psteps_trans; [exact A3|eapply psteps_trans; [exact A4|exact A5]]]]|]].
    { cbn. reflexivity. }
    constructor; cbn [push with_stack with_tree ps_tree ps_map fst snd s4].
    + auto.
    + eapply hmono_trans; eauto.
    + eapply mext_trans; eauto.
    + exists (XAlt y1 y3). split; [now constructor|exact V5].
    + intros mf Xm Fm W [HW|HW]; cbn [mden].
      * left. eapply mden_mono; [exact H3|]. apply K1; auto. eapply mext_trans; eauto.
      * right. auto.
  - (* sequence from expression *)
    destruct (IH TO st z x rest s ls Es V S) as (x' & R & s' & n & S' & HR & Es' & A & GW); auto.
    { cbn in *. tk z. }
    cbn in HR, Sz, En. exists x', (tok SUB), (push SUB (with_stack (z :: st) s')), n.
    split; [auto|]. split; [auto|]. split; [auto|]. split; [|apply grown_push, grown_stack; eapply grown_nt; [|exact GW]; intros; now constructor].
    eapply psteps_trans; [exact A|]. apply (q_unit s' st z R x' SUB); auto 6.
    + rewrite HR. tk z.
    + rewrite HR, (stream_head E x' rest S'). tk (hd E rest).
  - (* concatenation *)
    apply Forall_app in TO as [TO1 TO2]. rewrite <- app_assoc in S.
    destruct (IH1 TO1 st z x (v ++ rest) s ls Es V S Sz) as (x1 & R1 & s1 & n1 & S1 & HR1 & Es1 & A1 & GW1).
    { cbn. destruct (mgram_erase _ _ _ G2) as (y & Gy & _). eapply hd_ends; eauto. }
    cbn in HR1. destruct (gw_vals _ _ _ _ _ _ _ GW1) as (y1 & Gy1 & V1).
    destruct (IH2 TO2 (z :: st) R1 x1 rest s1 (xlang bsz y1 :: ls) Es1 V1 S1)
      as (x3 & R3 & s3 & n3 & S3 & HR3 & Es3 & A3 & GW3); auto.
    { cbn. now rewrite HR1. }
    cbn in HR3, Sz, En. destruct (gw_vals _ _ _ _ _ _ _ GW3) as (y3 & Gy3 & V3).
    destruct (seq_vals k s0 m0 (with_stack (z :: st) s3) (xlang bsz y1) (xlang bsz y3) ls V3) as (s5 & E5 & V5 & St5).
    assert (A5 : psteps (s3, x3) (push SUB s5, x3)).
    { eapply q_red; [exact Es3| | |discriminate].
      - rewrite HR3, (stream_head E x3 rest S3). tk (hd E rest).
      - unfold reduce. rewrite Es3. rewrite pop_eq by (rewrite HR1, HR3; reflexivity).
        rewrite pop_lt by (rewrite HR1; tk z). cbn [bind fst snd]. rewrite HR1, E5. reflexivity. }
    pose proof (vals_pure _ _ _ _ V3 (gw_tree _ _ _ _ _ _ _ GW3)) as P3.
    assert (P1 : pure n1 = true).
    { eapply vals_pure2; [exact V3|]. rewrite (gw_tree _ _ _ _ _ _ _ GW3), (gw_tree _ _ _ _ _ _ _ GW1). reflexivity. }
    destruct GW1 as [T1 H1 M1 _ K1]. destruct GW3 as [T3 H3 M3 _ K3].
    unfold on_tree in E5. cbn [with_stack push ps_tree] in E5. apply bind_ok in E5 as (tr & E5 & X5).
    destruct (ps_tree s3) as [ns3 st3] eqn:Et3. cbn [fst snd] in *. subst ns3. rewrite T1 in E5.
    injection X5 as <-. pose proof E5 as E6.
    destruct (sequence_marks eq n1 n3 _ _ _ E6 P1 P3) as (s6 & Etr & _ & H6 & _).
    exists x3, (tok SUB). eexists. exists (NSeq n1 n3). split; [exact S3|]. split; [reflexivity|].
    split; [|split; [eapply psteps_trans; [exact A1|eapply psteps_trans; [exact A3|exact A5]]|]].
    { cbn. reflexivity. }
    constructor; cbn [push with_stack with_tree ps_tree ps_map fst snd]; rewrite ?Etr; cbn [fst snd].
    + auto.
    + eapply hmono_trans; [exact H1|]. eapply hmono_trans; eauto.
    + eapply mext_trans; eauto.
    + exists (XCat y1 y3). split; [now constructor|]. rewrite Etr in V5. exact V5.
    + intros mf Xm Fm W (p & q & -> & Hp & Hq). rewrite mencw_app. cbn [mden].
      exists (mencw bsz p), (mencw bsz q). split; [auto|]. split.
      * eapply mden_mono; [|apply K1; [|exact Fm|exact Hp]]; [eapply hmono_trans; eauto|eapply mext_trans; eauto].
      * eapply mden_mono; [exact H6|]. auto.
  - (* expression from atom *)
    destruct (IH TO st z x rest s ls Es V S) as (x' & R & s' & n & S' & HR & Es' & A & GW); auto.
    { cbn in *. rewrite En. reflexivity. }
    cbn in HR, Sz, En. exists x', (tok EXPRESSION), (push EXPRESSION (with_stack (z :: st) s')), n.
    split; [auto|]. split; [auto|]. split; [auto|]. split; [|apply grown_push, grown_stack; eapply grown_nt; [|exact GW]; intros; now constructor].
    eapply psteps_trans; [exact A|]. apply (q_unit s' st z R x' EXPRESSION); auto 7.
    + rewrite HR. tk z.
    + rewrite HR, (stream_head E x' rest S'). tk (hd E rest).
  - (* duplication *)
    apply Forall_app in TO as [TO1 TO2]. inversion TO2 as [|? ? Tt _]; subst.
    rewrite <- app_assoc in S. cbn [app] in S. pose proof (mdup_is _ _ _ _ D) as Dt.
    destruct (IH TO1 st z x (t :: rest) s ls Es V S Sz) as (x1 & R1 & s1 & n1 & S1 & HR1 & Es1 & A1 & GW1).
    { cbn. rewrite Dt. apply orb_true_r. }
    cbn in HR1, Sz, En. destruct (q_shift s1 (z :: st) R1 x1 t rest Es1 S1) as (x2 & S2 & A2).
    { left. rewrite HR1. tk t. }
    destruct (gw_vals _ _ _ _ _ _ _ GW1) as (y1 & Gy1 & V1).
    destruct (op_of_ok k t Dt Tt) as (f & F & Df & HO & HX & HF).
    destruct (unary_vals k s0 m0 (op_of t) F (with_stack (R1 :: z :: st) s1) (xlang bsz y1) ls HO HX V1) as (s3 & E3 & V3 & St3).
    assert (A3 : psteps (with_stack (t :: R1 :: z :: st) s1, x2) (push DUP s3, x2)).
    { eapply q_red; [reflexivity| | |discriminate].
      - rewrite (stream_head E x2 rest S2). destruct (tk_type t); try discriminate; tk (hd E rest).
      - rewrite (reduce_dup k _ t [] (R1 :: z :: st)); [|cbn [with_stack ps_stack]; apply pop_lt; rewrite HR1; tk t|auto].
        unfold dup_op. change (with_stack (R1 :: z :: st) (with_stack (t :: R1 :: z :: st) s1)) with (with_stack (R1 :: z :: st) s1).
        rewrite E3. reflexivity. }
    set (s4 := push REPEAT (with_stack (z :: st) s3)).
    assert (A4 : psteps (push DUP s3, x2) (s4, x2)).
    { eapply q_red; [cbn; rewrite St3; reflexivity| | |discriminate].
      - cbn [tk_type tok]. rewrite (stream_head E x2 rest S2). tk (hd E rest).
      - unfold reduce. cbn [push with_stack ps_stack]. rewrite St3. cbn [with_stack ps_stack].
        rewrite pop_eq by (rewrite HR1; reflexivity). rewrite pop_lt by (rewrite HR1; tk z).
        cbn [bind fst snd]. rewrite HR1. reflexivity. }
    assert (A5 : psteps (s4, x2) (push EXPRESSION (with_stack (z :: st) s4), x2)).
    { apply (q_unit s4 st z (tok REPEAT) x2 EXPRESSION); auto 7.
      - cbn. tk z.
      - cbn [tk_type tok]. rewrite (stream_head E x2 rest S2). tk (hd E rest). }
    pose proof (vals_pure _ _ _ _ V1 (gw_tree _ _ _ _ _ _ _ GW1)) as P1.
    destruct GW1 as [T1 H1 M1 _ K1].
    unfold on_tree in E3. cbn [with_stack push ps_tree] in E3. apply bind_ok in E3 as (tr & E3 & X3).
    destruct (ps_tree s1) as [ns1 st1] eqn:Et1. cbn [fst snd] in *. subst ns1. injection X3 as <-.
    destruct (dup_marks t g mn mx (fun t a => t = a) D Tt _ _ _ _ E3 P1) as (n3 & st3 & Etr & _ & H3 & _).
    exists x2, (tok EXPRESSION), (push EXPRESSION (with_stack (z :: st) s4)), n3.
    split; [exact S2|]. split; [reflexivity|]. split; [reflexivity|].
    split; [eapply psteps_trans; [exact A1|eapply psteps_trans; [exact A2|eapply psteps_trans; [exact A3|eapply psteps_trans; [exact A4|exact A5]]]]|].
    constructor; cbn [s4 push with_stack with_tree ps_tree ps_map fst snd]; rewrite ?Etr; cbn [fst snd].
    + auto.
    + eapply hmono_trans; eauto.
    + auto.
    + exists (f y1). split; [now constructor|]. eapply vals_iff; [|exact V3]. intros w0. apply HF.
    + intros mf Xm Fm W HW. cbn [mlang] in HW.
      destruct (dup_marks t g mn mx (token_sem k mf) D Tt _ _ _ _ E3 P1) as (n3' & st3' & Etr' & _ & _ & K).
      rewrite Etr in Etr'. injection Etr' as <- <-. apply K. eapply mencw_rounds; [|exact HW]. auto.
  - inversion TO; subst. eapply q_atom; eauto.
  - inversion TO; subst. eapply q_atom; eauto 6.
  - inversion TO; subst. eapply q_atom; eauto 6.
  - (* parentheses *)
    inversion TO as [|? ? _ TO']; subst. apply Forall_app in TO' as [TO1 _].
    cbn [app] in S. rewrite <- app_assoc in S. cbn [app] in S. cbn in Sz, En.
    destruct (q_shift s st z x o (w ++ c :: rest) Es S) as (x1 & S1 & A1).
    { left. rewrite Ho. tk z. }
    destruct (IH TO1 (z :: st) o x1 (c :: rest) (with_stack (o :: z :: st) s) ls eq_refl V S1)
      as (x2 & R2 & s2 & n2 & S2 & HR2 & Es2 & A2 & GW2).
    { cbn. now rewrite Ho. }
    { cbn. now rewrite Hc. }
    cbn in HR2. apply grown_from in GW2.
    set (s3 := push REGEX (with_stack (o :: z :: st) s2)).
    assert (A3 : psteps (s2, x2) (s3, x2)).
    { apply (q_unit s2 (z :: st) o R2 x2 REGEX); auto.
      - now rewrite HR2, Ho.
      - rewrite HR2, (stream_head E x2 (c :: rest) S2). cbn [hd]. now rewrite Hc. }
    destruct (q_shift s3 (o :: z :: st) (tok REGEX) x2 c rest eq_refl S2) as (x3 & S3 & A4).
    { right. rewrite Hc. reflexivity. }
    set (s4 := with_stack (c :: tok REGEX :: o :: z :: st) s3) in *.
    exists x3, (tok REPEAT), (push REPEAT (with_stack (z :: st) s4)), n2.
    split; [auto|]. split; [auto|]. split; [auto|].
    split; [|apply grown_push, grown_stack, grown_stack, grown_push, grown_stack; destruct GW2 as [T2 H2 M2 (y & Gy & V2) K2]; constructor; auto; exists y; split; [now constructor|auto]].
    eapply psteps_trans; [exact A1|]. eapply psteps_trans; [exact A2|]. eapply psteps_trans; [exact A3|].
    eapply psteps_trans; [exact A4|]. eapply q_red; [reflexivity| | |discriminate].
    + rewrite Hc, (stream_head E x3 rest S3). tk (hd E rest).
    + unfold reduce. cbn [s4 s3 push with_stack ps_stack]. rewrite pop_eq by (rewrite Hc; reflexivity).
      rewrite pop_eq by (rewrite Ho; reflexivity). rewrite pop_lt by (rewrite Ho; tk z).
      cbn [bind fst snd]. rewrite Ho. reflexivity.
Qed.
End Run.
