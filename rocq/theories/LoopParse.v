(** The run of the parser on a rule with one abstemious repeat. *)
From Verif Require Import Base StringToken StringTokenSpec StringTokenProofs RegexSpec StateMachine Slice
  ReToken DfaSpec Grammar Tree TreeSpec Glushkov TreeProofs Partition Parser Generator GenMap ParserTree
  ParserProofs ParserKeys ParserRule LoopSpec LoopTree.
Local Open Scope N_scope.

Section Parse.
Variables (k : gcfg) (A : list stoken) (c0 n0 : N) (E : token).
Hypothesis CB : g_bytes k = 1.
Hypothesis HA : N.of_nat (length A) < eol_tok k.
Hypothesis Eend : tk_type E = END.

Inductive psteps : pconf -> pconf -> Prop :=
| ps_refl c : psteps c c
| ps_step c c1 c2 : pstep k c = Ok c1 -> ps_stack (fst c1) <> [] -> psteps c1 c2 -> psteps c c2.
Lemma psteps_trans a b c : psteps a b -> psteps b c -> psteps a c.
Proof. induction 1; auto. intros. econstructor; eauto. Qed.
Lemma psteps_loop a b c : psteps a b -> pstep k b = Ok c -> ps_stack (fst c) = [] ->
  forall f s, ploop f k a = Ok s -> s = fst c.
Proof.
  induction 1 as [b|a a1 b H1 H2 H3 IH]; intros Ec Es f s Ef; destruct f as [|f]; cbn [ploop] in Ef; try discriminate.
  - rewrite Ec in Ef. cbn [bind] in Ef. rewrite Es in Ef. now injection Ef.
  - rewrite H1 in Ef. cbn [bind] in Ef. destruct (ps_stack (fst a1)) eqn:Q; [congruence|]. eauto.
Qed.

Definition cf (st : list token) (m : charset_map) (ns : list node) (s : store) : pstate :=
  {| ps_stack := st; ps_tree := (ns, s); ps_map := m; ps_cr := c0; ps_nl := n0 |}.
Definition fit (m : charset_map) : Prop := mgood k m /\ kok A m.
Lemma fit_fine m : fit m -> mfine k m.
Proof.
  intros [MG [ND I]]. assert (N.of_nat (length m) < eol_tok k).
  { apply N.le_lt_trans with (2 := HA). pose proof (NoDup_incl_length ND I) as H. unfold keys in H.
    rewrite map_length in H. lia. }
  split; auto.
Qed.
Definition known_set (t : token) : Prop := tk_type t = CHARSET /\ set_ok 1 (tk_str t) /\ In (tk_str t) A.
Lemma set_bt t : set_ok 1 t -> bt t.
Proof.
  intros (W & NE & B). split; [auto|]. split; [auto|]. apply Forall_forall. intros r Hr.
  rewrite Forall_forall in B. specialize (B r Hr). pose proof (wf_from_In 0 t r W Hr).
  change (1 =? 1) with true in B. cbv iota in B. lia.
Qed.

Lemma p_shift st a x t rest m ns s : stream E x (t :: rest) ->
  (precedence (tk_type a) (tk_type t) = Some L_ \/ precedence (tk_type a) (tk_type t) = Some E_) ->
  exists x', stream E x' rest /\ pstep k (cf (a :: st) m ns s, x) = Ok (cf (t :: a :: st) m ns s, x').
Proof.
  destruct x as [la it]. intros S P. assert (X : la = t) by (cbn in S; congruence). subst la.
  destruct (stream_fetch E t it rest S) as (x' & Ef & S'). exists x'. split; [auto|].
  unfold pstep. cbn [fst snd cf ps_stack]. rewrite Ef. now destruct P as [-> | ->].
Qed.
Lemma p_red st a x m ns s s' :
  precedence (tk_type a) (tk_type (fst x)) = Some G_ -> reduce k (cf (a :: st) m ns s) = Ok s' ->
  pstep k (cf (a :: st) m ns s, x) = Ok (s', x).
Proof. intros P R. unfold pstep. cbn [fst snd cf ps_stack]. now rewrite P, R. Qed.

Lemma p_set st a x t rest m ns s : stream E x (t :: rest) -> starts GAtom (tk_type a) = true ->
  known_set t -> ends GAtom (tk_type (hd E rest)) = true -> fit m ->
  exists x' i m', stream E x' rest /\ In (tk_str t, i) m' /\ incl m m' /\ fit m' /\
    psteps (cf (a :: st) m ns s, x)
      (cf (tok REPEAT :: a :: st) m' (NLeaf i (length s) :: ns) (s ++ [PLeaf i GYes []]), x').
Proof.
  intros S Sa (Ht & SO & HI) En FM.
  destruct (p_shift st a x t rest m ns s S) as (x' & S' & E1).
  { left. destruct (tk_type a); try discriminate; rewrite Ht; reflexivity. }
  destruct (p_lookup_ok k (tk_str t) m (set_bt _ SO) (proj1 FM)) as (X1 & X2 & X3).
  pose proof (kok_lookup k A (tk_str t) m (proj2 FM) HI) as X4.
  set (lk := p_lookup k (tk_str t) m) in *. assert (FM' : fit (snd lk)) by (split; auto).
  exists x', (fst lk), (snd lk). split; [auto|]. split; [auto|]. split; [apply X1|]. split; [auto|].
  pose proof (mfine_lt k _ _ _ (fit_fine _ FM') X3) as LT. pose proof (mfine_npos k _ (fit_fine _ FM')) as NP.
  eapply ps_step; [exact E1|discriminate|]. eapply ps_step; [apply p_red| |apply ps_refl].
  - rewrite (stream_head E x' rest S'), Ht. destruct (tk_type (hd E rest)); try discriminate; reflexivity.
  - unfold reduce. cbn [ps_stack cf]. rewrite pop_lt.
    2:{ rewrite Ht. destruct (tk_type a); try discriminate; reflexivity. }
    cbn [bind fst snd]. rewrite Ht. unfold p_charset, compressed. rewrite CB. change (1 <? 1) with false. cbv iota.
    unfold push_range, push_leaf, mk_leaf. cbn [cf with_stack with_map with_tree ps_map ps_tree ps_stack ps_cr ps_nl fst snd].
    fold lk. rewrite (proj2 (N.eqb_neq (fst lk) (gnpos k))) by lia. reflexivity.
  - discriminate.
Qed.
Lemma p_sub st a x m ns s : starts GSeq (tk_type a) = true -> ends_expr (tk_type (fst x)) = true ->
  psteps (cf (tok REPEAT :: a :: st) m ns s, x) (cf (tok SUB :: a :: st) m ns s, x).
Proof.
  intros Sa En. eapply ps_step; [apply p_red| |eapply ps_step; [apply p_red| |apply ps_refl]].
  - destruct (tk_type (fst x)); try discriminate; reflexivity.
  - unfold reduce. cbn [ps_stack cf]. rewrite pop_lt; [reflexivity|].
    destruct (tk_type a); try discriminate; reflexivity.
  - discriminate.
  - destruct (tk_type (fst x)); try discriminate; reflexivity.
  - unfold reduce. cbn [ps_stack with_stack cf fst snd]. rewrite pop_lt; [reflexivity|].
    destruct (tk_type a); try discriminate; reflexivity.
  - discriminate.
Qed.
Lemma p_join st a x m ns s ns' s' : starts GSeq (tk_type a) = true -> ends_expr (tk_type (fst x)) = true ->
  t_sequence (ns, s) = Ok (ns', s') ->
  psteps (cf (tok REPEAT :: tok SUB :: a :: st) m ns s, x) (cf (tok SUB :: a :: st) m ns' s', x).
Proof.
  intros Sa En Et. eapply ps_step; [apply p_red| |eapply ps_step; [apply p_red| |apply ps_refl]].
  - destruct (tk_type (fst x)); try discriminate; reflexivity.
  - unfold reduce. cbn [ps_stack cf]. rewrite pop_lt by reflexivity. reflexivity.
  - discriminate.
  - destruct (tk_type (fst x)); try discriminate; reflexivity.
  - unfold reduce. cbn [ps_stack with_stack with_tree cf fst snd]. rewrite pop_eq by reflexivity. rewrite pop_lt.
    + cbn [bind fst snd]. unfold on_tree. cbn [tk_type tok ps_tree with_stack cf fst snd]. rewrite Et. reflexivity.
    + destruct (tk_type a); try discriminate; reflexivity.
  - discriminate.
Qed.
Lemma p_orexp st a x m ns s : starts GRegex (tk_type a) = true -> ends_seq (tk_type (fst x)) = true ->
  psteps (cf (tok SUB :: a :: st) m ns s, x) (cf (tok OREXP :: a :: st) m ns s, x).
Proof.
  intros Sa En. eapply ps_step; [apply p_red| |eapply ps_step; [apply p_red| |apply ps_refl]].
  - destruct (tk_type (fst x)); try discriminate; reflexivity.
  - unfold reduce. cbn [ps_stack cf]. rewrite pop_lt; [reflexivity|].
    destruct (tk_type a); try discriminate; reflexivity.
  - discriminate.
  - destruct (tk_type (fst x)); try discriminate; reflexivity.
  - unfold reduce. cbn [ps_stack with_stack with_tree cf fst snd]. rewrite pop_lt; [reflexivity|].
    destruct (tk_type a); try discriminate; reflexivity.
  - discriminate.
Qed.
Lemma p_or st a o x m ns s ns' s' : starts GRegex (tk_type a) = true -> tk_type o = OR ->
  ends_seq (tk_type (fst x)) = true -> t_or (ns, s) = Ok (ns', s') ->
  psteps (cf (tok SUB :: o :: tok OREXP :: a :: st) m ns s, x) (cf (tok OREXP :: a :: st) m ns' s', x).
Proof.
  intros Sa Ho En Et. eapply ps_step; [apply p_red| |eapply ps_step; [apply p_red| |apply ps_refl]].
  - destruct (tk_type (fst x)); try discriminate; reflexivity.
  - unfold reduce. cbn [ps_stack cf]. rewrite pop_lt by (rewrite Ho; reflexivity). reflexivity.
  - discriminate.
  - destruct (tk_type (fst x)); try discriminate; reflexivity.
  - unfold reduce. cbn [ps_stack with_stack with_tree cf fst snd]. rewrite pop_eq by (rewrite Ho; reflexivity).
    rewrite pop_eq by (rewrite Ho; reflexivity). rewrite pop_lt.
    + cbn [bind fst snd]. unfold on_tree. cbn [tk_type tok ps_tree with_stack cf fst snd]. rewrite Et. reflexivity.
    + destruct (tk_type a); try discriminate; reflexivity.
  - discriminate.
Qed.
Lemma p_paren st a o c x rest m ns s : starts GAtom (tk_type a) = true -> tk_type o = OPENPAREN ->
  tk_type c = CLOSEPAREN -> stream E x (c :: rest) -> ends GAtom (tk_type (hd E rest)) = true ->
  exists x', stream E x' rest /\
    psteps (cf (tok OREXP :: o :: a :: st) m ns s, x) (cf (tok REPEAT :: a :: st) m ns s, x').
Proof.
  intros Sa Ho Hc S En.
  destruct (p_shift (o :: a :: st) (tok REGEX) x c rest m ns s S) as (x' & S' & E1).
  { right. rewrite Hc. reflexivity. }
  exists x'. split; [auto|]. pose proof (stream_head E x _ S) as Hx. cbn [hd] in Hx.
  eapply ps_step; [apply p_red| |eapply ps_step; [exact E1| |eapply ps_step; [apply p_red| |apply ps_refl]]].
  - rewrite Hx, Hc. reflexivity.
  - unfold reduce. cbn [ps_stack cf]. rewrite pop_lt by (rewrite Ho; reflexivity). reflexivity.
  - discriminate.
  - discriminate.
  - rewrite (stream_head E x' rest S'), Hc. destruct (tk_type (hd E rest)); try discriminate; reflexivity.
  - unfold reduce. cbn [ps_stack with_stack with_tree cf fst snd]. rewrite pop_eq by (rewrite Hc; reflexivity).
    rewrite pop_eq by (rewrite Ho; reflexivity). rewrite pop_lt.
    + cbn [bind fst snd]. rewrite Ho. reflexivity.
    + rewrite Ho. destruct (tk_type a); try discriminate; reflexivity.
  - discriminate.
Qed.
Lemma p_star st a z x rest m ns s ns' s' : starts GAtom (tk_type a) = true -> tk_type z = AZEROORMORE ->
  stream E x (z :: rest) -> ends_expr (tk_type (hd E rest)) = true -> t_star GNo (ns, s) = Ok (ns', s') ->
  exists x', stream E x' rest /\
    psteps (cf (tok REPEAT :: a :: st) m ns s, x) (cf (tok REPEAT :: a :: st) m ns' s', x').
Proof.
  intros Sa Hz S En Et.
  destruct (p_shift (a :: st) (tok REPEAT) x z rest m ns s S) as (x' & S' & E1).
  { left. rewrite Hz. reflexivity. }
  exists x'. split; [auto|].
  eapply ps_step; [exact E1| |eapply ps_step; [apply p_red| |eapply ps_step; [apply p_red| |apply ps_refl]]].
  - discriminate.
  - rewrite (stream_head E x' rest S'), Hz. destruct (tk_type (hd E rest)); try discriminate; reflexivity.
  - unfold reduce. cbn [ps_stack cf]. rewrite pop_lt by (rewrite Hz; reflexivity). cbn [bind fst snd]. rewrite Hz.
    unfold dup_op, on_tree. cbn [ps_tree with_stack cf fst snd]. rewrite Et. reflexivity.
  - discriminate.
  - rewrite (stream_head E x' rest S'). destruct (tk_type (hd E rest)); try discriminate; reflexivity.
  - unfold reduce. cbn [ps_stack with_stack with_tree cf fst snd]. rewrite pop_eq by reflexivity. rewrite pop_lt.
    + reflexivity.
    + destruct (tk_type a); try discriminate; reflexivity.
  - discriminate.
Qed.
Lemma p_end B x m ns s : tk_type B = BEGIN -> tk_type (fst x) = END ->
  exists c, psteps (cf [tok OREXP; B] m ns s, x) c /\ pstep k c = Ok (cf [] m ns s, x).
Proof.
  intros HB Hx. exists (cf [B] m ns s, x). split.
  - eapply ps_step; [apply p_red| |eapply ps_step; [apply p_red| |apply ps_refl]].
    + rewrite Hx. reflexivity.
    + unfold reduce. cbn [ps_stack cf]. rewrite pop_lt by (rewrite HB; reflexivity). reflexivity.
    + discriminate.
    + rewrite Hx. reflexivity.
    + unfold reduce. cbn [ps_stack with_stack cf fst snd]. rewrite pop_lt by (rewrite HB; reflexivity). reflexivity.
    + discriminate.
  - apply p_red.
    + rewrite Hx, HB. reflexivity.
    + unfold reduce. cbn [ps_stack cf pop_handle bind fst snd]. rewrite HB. reflexivity.
Qed.

(** ** The parts of the rule *)
Lemma chain_bound m s n ps p : chain m s n ps -> In p ps -> (p < length s)%nat.
Proof. intros C Hp. destruct (ch_leaf _ _ _ _ C p Hp) as (t & f & L & _). eapply leaf_at_lt; eauto. Qed.
Lemma set_next X rest : Forall known_set X -> ends_expr (tk_type (hd E rest)) = true ->
  ends_expr (tk_type (hd E (X ++ rest))) = true.
Proof. intros K En. destruct K as [|t X (Ht & _) K]; cbn; [auto|]. now rewrite Ht. Qed.
Lemma run_chain B : tk_type B = BEGIN -> forall X, Forall known_set X -> forall m n s ps x rest,
  stream E x (X ++ rest) -> ends_expr (tk_type (hd E rest)) = true -> fit m -> chain m s n ps ->
  exists m' n' s' ps' x', psteps (cf [tok SUB; B] m [n] s, x) (cf [tok SUB; B] m' [n'] s', x') /\
    stream E x' rest /\ fit m' /\ chain m' s' n' ps'.
Proof.
  intros HB X K. induction K as [|t X Ht K IH]; intros m n s ps x rest S En FM C.
  - exists m, n, s, ps, x. split; [apply ps_refl|]. auto.
  - pose proof (set_next X rest K En) as En'. cbn [app] in S.
    destruct (p_set [B] (tok SUB) x t (X ++ rest) m [n] s S eq_refl Ht) as (x1 & i & m1 & S1 & Hi & I1 & F1 & P1).
    { cbn [ends]. now rewrite En'. } { auto. }
    assert (C1 : chain m1 s n ps) by (eapply chain_frame; eauto).
    destruct (chain_more m1 s n ps i (tk_str t) C1 Hi) as (s' & Es & Ls & C').
    destruct (IH m1 _ s' _ x1 rest S1 En F1 C') as (m2 & n2 & s2 & ps2 & x2 & P2 & R).
    exists m2, n2, s2, ps2, x2. split; [|exact R]. eapply psteps_trans; [exact P1|].
    eapply psteps_trans; [|exact P2]. apply p_join.
    + cbn. now rewrite HB.
    + now rewrite (stream_head E x1 _ S1).
    + cbn [t_sequence]. rewrite Es. reflexivity.
Qed.
Lemma run_pre B X : tk_type B = BEGIN -> Forall known_set X -> X <> [] -> forall m s x rest,
  stream E x (X ++ rest) -> ends_expr (tk_type (hd E rest)) = true -> fit m ->
  exists m' n' s' ps' x', psteps (cf [B] m [] s, x) (cf [tok SUB; B] m' [n'] s', x') /\
    stream E x' rest /\ fit m' /\ chain m' s' n' ps'.
Proof.
  intros HB K NE m s x rest S En FM. destruct K as [|t X Ht K]; [congruence|].
  pose proof (set_next X rest K En) as En'. cbn [app] in S.
  destruct (p_set [] B x t (X ++ rest) m [] s S) as (x1 & i & m1 & S1 & Hi & I1 & F1 & P1); auto.
  { cbn. now rewrite HB. } { cbn [ends]. now rewrite En'. }
  destruct (run_chain B HB X K m1 _ _ _ x1 rest S1 En F1 (chain_one m1 s i (tk_str t) Hi))
    as (m2 & n2 & s2 & ps2 & x2 & P2 & R).
  exists m2, n2, s2, ps2, x2. split; [|exact R]. eapply psteps_trans; [exact P1|].
  eapply psteps_trans; [|exact P2]. apply p_sub.
  - cbn. now rewrite HB.
  - now rewrite (stream_head E x1 _ S1).
Qed.

Lemma alts_next w ts c rest : alts w ts -> tk_type c = CLOSEPAREN ->
  ends_seq (tk_type (hd E (w ++ c :: rest))) = true.
Proof. intros [|o t w' ts' Ho Ht H] Hc; cbn; [now rewrite Hc|now rewrite Ho]. Qed.
Lemma seq_expr t : ends_seq t = true -> ends_expr t = true.
Proof. destruct t; auto; discriminate. Qed.
Lemma run_alts o st a : tk_type o = OPENPAREN -> forall w ts, alts w ts -> Forall known_set ts ->
  forall m n ps l s acc b loop x c rest, stream E x (w ++ c :: rest) -> tk_type c = CLOSEPAREN ->
  fit m -> chain m s n ps -> (b <= length s)%nat -> picks m s l acc b loop GYes [] ->
  exists m' l' s' loop' x', psteps (cf (tok OREXP :: o :: a :: st) m [l; n] s, x)
      (cf (tok OREXP :: o :: a :: st) m' [l'; n] s', x') /\
    stream E x' (c :: rest) /\ fit m' /\ chain m' s' n ps /\ picks m' s' l' (acc ++ ts) b loop' GYes [].
Proof.
  intros Ho w ts H. induction H as [|r t w ts Hr Ht H IH]; intros K m n ps l s acc b loop x c rest S Hc FM C Hb P.
  - exists m, l, s, loop, x. rewrite app_nil_r. split; [apply ps_refl|]. auto.
  - inversion K as [|? ? K1 K2]; subst. cbn [app] in S.
    destruct (p_shift (o :: a :: st) (tok OREXP) x r (t :: w ++ c :: rest) m [l; n] s S) as (x1 & S1 & E1).
    { right. rewrite Hr. reflexivity. }
    pose proof (alts_next w ts c rest H Hc) as En. pose proof (seq_expr _ En) as En2.
    destruct (p_set (tok OREXP :: o :: a :: st) r x1 t (w ++ c :: rest) m [l; n] s S1)
      as (x2 & i & m2 & S2 & Hi & I2 & F2 & P2); auto.
    { cbn. now rewrite Hr. } { cbn [ends]. now rewrite En2. }
    pose proof (stream_head E x2 _ S2) as Hd.
    destruct (IH K2 m2 n ps (NSel l (NLeaf i (length s))) (s ++ [PLeaf i GYes []]) (acc ++ [t]) b
      (loop ++ [length s]) x2 c rest S2 Hc F2) as (m3 & l3 & s3 & loop3 & x3 & P3 & R1 & R2 & R3 & R4).
    { eapply chain_frame; [exact C|auto|]. intros p Hp. now apply snoc_old. }
    { rewrite app_length. lia. }
    { apply picks_more; auto. eapply picks_frame; [exact P|auto|auto]. }
    exists m3, l3, s3, loop3, x3. rewrite <- app_assoc in R4. cbn [app] in R4. split; [|auto].
    eapply ps_step; [exact E1|discriminate|]. eapply psteps_trans; [exact P2|].
    eapply psteps_trans; [|eapply psteps_trans; [|exact P3]].
    + apply p_sub; [cbn; now rewrite Hr|now rewrite Hd].
    + eapply p_or; [cbn; now rewrite Ho|auto|now rewrite Hd|reflexivity].
Qed.
Lemma run_choice B b bs : tk_type B = BEGIN -> choice b bs -> Forall known_set bs ->
  forall m n ps s x z rest, stream E x (b ++ z :: rest) -> tk_type z = AZEROORMORE -> fit m -> chain m s n ps ->
  exists m' l s' loop x', psteps (cf [tok SUB; B] m [n] s, x) (cf [tok REPEAT; tok SUB; B] m' [l; n] s', x') /\
    stream E x' (z :: rest) /\ fit m' /\ chain m' s' n ps /\ picks m' s' l bs (length s) loop GYes [].
Proof.
  intros HB H. destruct H as [t Ht|o t w ts c Ho Ht Ha Hc]; intros K m n ps s x z rest S Hz FM C.
  - inversion K as [|? ? K1 K2]; subst. cbn [app] in S.
    destruct (p_set [B] (tok SUB) x t (z :: rest) m [n] s S eq_refl K1) as (x1 & i & m1 & S1 & Hi & I1 & F1 & P1).
    { cbn. now rewrite Hz. } { auto. }
    exists m1, (NLeaf i (length s)), (s ++ [PLeaf i GYes []]), [length s], x1. split; [exact P1|]. split; [auto|].
    split; [auto|]. split.
    + eapply chain_frame; [exact C|auto|]. intros p Hp. now apply snoc_old.
    + now apply picks_one.
  - inversion K as [|? ? K1 K2]; subst. cbn [app] in S. rewrite <- app_assoc in S. cbn [app] in S.
    destruct (p_shift [B] (tok SUB) x o (t :: w ++ c :: z :: rest) m [n] s S) as (x0 & S0 & E0).
    { left. rewrite Ho. reflexivity. }
    pose proof (alts_next w ts c (z :: rest) Ha Hc) as En. pose proof (seq_expr _ En) as En2.
    destruct (p_set [tok SUB; B] o x0 t (w ++ c :: z :: rest) m [n] s S0)
      as (x1 & i & m1 & S1 & Hi & I1 & F1 & P1); auto.
    { cbn. now rewrite Ho. } { cbn [ends]. now rewrite En2. }
    pose proof (stream_head E x1 _ S1) as Hd.
    destruct (run_alts o [B] (tok SUB) Ho w ts Ha K2 m1 n ps (NLeaf i (length s)) (s ++ [PLeaf i GYes []]) [t]
      (length s) [length s] x1 c (z :: rest) S1 Hc F1) as (m2 & l2 & s2 & loop & x2 & P2 & S2 & F2 & C2 & PK).
    { eapply chain_frame; [exact C|auto|]. intros p Hp. now apply snoc_old. }
    { rewrite app_length. lia. }
    { now apply picks_one. }
    destruct (p_paren [B] (tok SUB) o c x2 (z :: rest) m2 [l2; n] s2 eq_refl Ho Hc S2) as (x3 & S3 & P3).
    { cbn. now rewrite Hz. }
    exists m2, l2, s2, loop, x3. cbn [app] in PK. split; [|auto].
    eapply ps_step; [exact E0|discriminate|]. eapply psteps_trans; [exact P1|].
    eapply psteps_trans; [apply p_sub; [cbn; now rewrite Ho|now rewrite Hd]|].
    eapply psteps_trans; [apply p_orexp; [cbn; now rewrite Ho|now rewrite Hd]|].
    eapply psteps_trans; [exact P2|exact P3].
Qed.

Lemma run_post B ts : tk_type B = BEGIN -> forall Y, Forall known_set Y ->
  (forall y c, In y Y -> mem c (tk_str y) -> exists t, In t ts /\ mem c (tk_str t)) ->
  forall m n s pre loop post x, stream E x Y -> fit m -> looped m s n ts pre loop post post ->
  exists m' n' s' post' x', psteps (cf [tok SUB; B] m [n] s, x) (cf [tok SUB; B] m' [n'] s', x') /\
    stream E x' [] /\ fit m' /\ looped m' s' n' ts pre loop post' post'.
Proof.
  intros HB Y K. induction K as [|t Y Ht K IH]; intros CV m n s pre loop post x S FM L.
  - exists m, n, s, post, x. split; [apply ps_refl|]. auto.
  - assert (En' : ends_expr (tk_type (hd E Y)) = true).
    { rewrite <- (app_nil_r Y). apply set_next; auto. cbn. now rewrite Eend. }
    destruct (p_set [B] (tok SUB) x t Y m [n] s S eq_refl Ht) as (x1 & i & m1 & S1 & Hi & I1 & F1 & P1).
    { cbn [ends]. now rewrite En'. } { auto. }
    assert (C1 : looped m1 s n ts pre loop post post) by (eapply looped_frame; eauto).
    destruct (looped_more m1 s n ts pre loop post i (tk_str t) C1 Hi) as (s' & Es & Ls & C').
    { intros c. apply CV. now left. }
    destruct (IH (fun y c Hy => CV y c (or_intror Hy)) m1 _ s' pre loop _ x1 S1 F1 C') as (m2 & n2 & s2 & ps2 & x2 & P2 & R).
    exists m2, n2, s2, ps2, x2. split; [|exact R]. eapply psteps_trans; [exact P1|].
    eapply psteps_trans; [|exact P2]. apply p_join.
    + cbn. now rewrite HB.
    + now rewrite (stream_head E x1 _ S1).
    + cbn [t_sequence]. rewrite Es. reflexivity.
Qed.

(** The whole rule. *)
Theorem run_loop B w X b bs z Y m s x f s2 : tk_type B = BEGIN -> loop_tokens w X b bs z Y ->
  Forall known_set (X ++ bs ++ Y) -> fit m -> stream E x w -> ploop f k (cf [B] m [] s, x) = Ok s2 ->
  exists m' n s' pre loop post, s2 = cf [] m' [n] s' /\ fit m' /\ looped m' s' n bs pre loop post post.
Proof.
  intros HB [-> NE HX HC Hz HY CV] K FM S E2. apply Forall_app in K as [KX K]. apply Forall_app in K as [Kb KY].
  destruct (run_pre B X HB KX NE m s x (b ++ z :: Y) S) as (m1 & n1 & s1 & ps & x1 & P1 & S1 & F1 & C1); auto.
  { destruct HC as [t Ht|o t w ts c Ho Ht Ha Hc]; cbn; [now rewrite Ht|now rewrite Ho]. }
  destruct (run_choice B b bs HB HC Kb m1 n1 ps s1 x1 z Y S1 Hz F1 C1)
    as (m2 & l & s3 & loop & x2 & P2 & S2 & F2 & C2 & PK).
  destruct (picks_star _ _ _ _ _ _ PK) as (s4 & E4 & L4 & O4 & PK4).
  destruct (p_star [B] (tok SUB) z x2 Y m2 [l; n1] s3 [NIter l GNo; n1] s4 eq_refl Hz S2) as (x3 & S3 & P3).
  { rewrite <- (app_nil_r Y). apply set_next; auto. cbn. now rewrite Eend. }
  { cbn [t_star]. rewrite E4. reflexivity. }
  assert (BD : forall p, In p ps -> (p < length s1)%nat) by (intros p; eapply chain_bound; eauto).
  assert (C4 : chain m2 s4 n1 ps).
  { destruct C2 as [A1 A2 A3 A4 A5]. constructor; auto. intros p Hp. destruct (A5 p Hp) as (tk & f0 & L & D).
    exists tk, f0. split; [|auto]. eapply leaf_at_frame; [exact L|apply incl_refl|]. apply O4. auto. }
  destruct (chain_picks m2 s4 n1 ps (NIter l GNo) bs (length s1) loop C4 BD PK4 eq_refl) as (s5 & E5 & L5 & LD).
  destruct (run_post B bs HB Y KY CV m2 _ s5 ps loop [] x3 S3 F2 LD) as (m6 & n6 & s6 & post & x6 & P6 & S6 & F6 & LD6).
  pose proof (stream_head E x6 _ S6) as Hd. cbn [hd] in Hd.
  destruct (p_end B x6 m6 [n6] s6 HB) as (cc & P7 & E7); [now rewrite Hd|].
  exists m6, n6, s6, ps, loop, post. split; [|auto].
  refine (psteps_loop _ _ _ _ E7 eq_refl f s2 E2).
  eapply psteps_trans; [exact P1|]. eapply psteps_trans; [exact P2|]. eapply psteps_trans; [exact P3|].
  eapply psteps_trans.
  { apply p_join; [cbn; now rewrite HB| |cbn [t_sequence]; rewrite E5; reflexivity].
    rewrite (stream_head E x3 _ S3). rewrite <- (app_nil_r Y). apply set_next; auto. cbn. now rewrite Eend. }
  eapply psteps_trans; [exact P6|]. eapply psteps_trans; [|exact P7].
  apply p_orexp; [cbn; now rewrite HB|]. now rewrite Hd, Eend.
Qed.
End Parse.
