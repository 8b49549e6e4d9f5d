(** The tree of a rule with one abstemious repeat, as parse() leaves it. *)
From Verif Require Import Base StringToken StringTokenSpec StringTokenProofs RegexSpec StateMachine Slice
  ReToken DfaSpec Grammar Tree TreeSpec Glushkov TreeProofs Partition Parser Generator GenMap ParserTree
  ParserProofs ParserKeys ParserRule LoopSpec LoopTree LoopParse.
Local Open Scope N_scope.

Local Lemma bind_ok {X Y} (x : res X) (f : X -> res Y) y : bind x f = Ok y -> exists a, x = Ok a /\ f a = Ok y.
Proof. destruct x; try discriminate. eauto. Qed.

Record loop_tree (k : gcfg) (m : charset_map) (s : store) (d : drule) (pre loop post : list nat) : Prop := {
  lt_nodup : NoDup loop;
  lt_pre : forall p, In p pre -> exists t f, nth_error s p = Some (PLeaf t GYes f) /\
    ((exists q, f = [q] /\ In q pre) \/ exists rest, f = loop ++ rest /\ incl rest (dr_end d :: post));
  lt_loop : forall p, In p loop -> exists t rest, nth_error s p = Some (PLeaf t GNo (loop ++ rest)) /\
    incl rest (dr_end d :: post);
  lt_post : forall p, In p post -> exists tk f, leaf_at m s p tk GYes f /\ incl f (dr_end d :: post) /\
    forall c, mem c tk -> exists q tk' g f', In q loop /\ leaf_at m s q tk' g f' /\ mem c tk';
  lt_first : exists x tk g f, leaf_at m s x tk g f /\ In x pre /\
    (firstpos (dr_tree d) = [x] \/
     exists pb g f', firstpos (dr_tree d) = [pb; x] /\ In pb pre /\ nth_error s pb = Some (PLeaf (bol_tok k) g f'));
  lt_null : nullable (dr_tree d) = false;
  lt_in : incl (pre ++ loop ++ post) (poss (dr_tree d));
  lt_lazy : e_greedy (dr_info d) = GNo
}.
Lemma loop_tree_frame k m m' s s' d pre loop post : loop_tree k m s d pre loop post -> incl m m' ->
  (forall p, (p < length s)%nat -> nth_error s' p = nth_error s p) -> loop_tree k m' s' d pre loop post.
Proof.
  intros [H1 H2 H3 H4 (x & tk & g & f & L & Hx & D) H6 H7 H8] I F.
  assert (N : forall p y, nth_error s p = Some y -> nth_error s' p = Some y).
  { intros p y E. rewrite F; auto. apply nth_error_Some. congruence. }
  assert (X : forall p tk g f, leaf_at m s p tk g f -> leaf_at m' s' p tk g f).
  { intros p tk0 g0 f0 (t & E & Ht). exists t. auto. }
  constructor; auto.
  - intros p Hp. destruct (H2 p Hp) as (t & f0 & E & D0). eauto.
  - intros p Hp. destruct (H3 p Hp) as (t & f0 & E & D0). eauto.
  - intros p Hp. destruct (H4 p Hp) as (t & f0 & E & D0 & C). exists t, f0. split; [auto|]. split; [auto|].
    intros c Hc. destruct (C c Hc) as (q & tk' & g' & f' & Hq & L' & M'). exists q, tk', g', f'. auto.
  - exists x, tk, g, f. split; [auto|]. split; [auto|].
    destruct D as [D|(pb & g' & f' & D & Hb & E)]; [now left|]. right. exists pb, g', f'. auto.
Qed.

Theorem parse_loop k A B w E X b bs z Y e seen s root s' o d : g_bytes k = 1 -> N.of_nat (length A) < eol_tok k ->
  tk_type B = BEGIN -> tk_type E = END -> loop_tokens w X b bs z Y -> Forall (known_set A) (X ++ bs ++ Y) ->
  ps_stack s = [] -> fst (ps_tree s) = [] -> fit k A (ps_map s) ->
  parse k (B :: w ++ [E]) e seen s = Ok (root, s') -> parsed k w e seen s root s' o d ->
  exists pre loop post, loop_tree k (ps_map s') (snd (ps_tree s')) d pre loop post.
Proof.
  intros CB HA HB HE LT KS Es Et FM EP PD. unfold parse in EP.
  assert (LZ : has_lazy (B :: w ++ [E]) = true).
  { unfold has_lazy. cbn [existsb]. rewrite existsb_app. destruct LT as [-> _ _ _ Hz _ _].
    rewrite !existsb_app. cbn [existsb]. rewrite Hz. cbn. now rewrite !orb_true_r. }
  rewrite LZ in EP.
  apply bind_ok in EP as (x & Ef & EP). apply bind_ok in EP as (s2 & E2 & EP).
  assert (St : stream E x w).
  { unfold fetch in Ef. destruct w as [|t w]; cbn in Ef.
    - injection Ef as <-. reflexivity.
    - injection Ef as <-. cbn. destruct (w ++ [E]) eqn:Q; auto. destruct w; discriminate. }
  assert (Ec : with_stack (B :: ps_stack s) s = cf (ps_cr s) (ps_nl s) [B] (ps_map s) [] (snd (ps_tree s))).
  { unfold with_stack, cf. rewrite Es. f_equal. destruct (ps_tree s) as [ns st]. cbn in Et |- *. now subst ns. }
  rewrite Ec in E2.
  destruct (run_loop k A (ps_cr s) (ps_nl s) E CB HA HE B w X b bs z Y (ps_map s) (snd (ps_tree s)) x _ s2 HB LT KS FM St E2)
    as (m2 & n & st & pre & loop & post & -> & FM2 & LD).
  cbn [cf ps_tree fst snd mk_end] in EP.
  set (info := end_info e GNo) in *.
  set (en := length st) in *.
  assert (LD1 : looped m2 (st ++ [PEnd info]) n bs pre loop post post).
  { eapply looped_frame; [exact LD|apply incl_refl|]. intros p Hp. now apply snoc_old. }
  destruct (looped_add _ _ _ _ _ _ _ _ en (NEnd en) LD1 eq_refl) as (s3 & E3 & L3 & O3 & LD3).
  rewrite E3 in EP. cbn [bind fst snd] in EP.
  assert (BD : forall p, In p (pre ++ loop ++ post) -> (p < en)%nat).
  { intros p Hp. destruct LD as [_ H2 H3 H4 _ _ _ _ _].
    apply in_app_or in Hp as [Hp|Hp]; [|apply in_app_or in Hp as [Hp|Hp]].
    - destruct (H2 p Hp) as (t & f & L & _). eapply leaf_at_lt; eauto.
    - destruct (H3 p Hp) as (t & f & L & _). eapply leaf_at_lt; eauto.
    - destruct (H4 p Hp) as (t & f & L & _). eapply leaf_at_lt; eauto. }
  assert (EE : nth_error s3 en = Some (PEnd info)).
  { rewrite O3; [apply snoc_new|]. intros H. apply (ld_last _ _ _ _ _ _ _ _ LD), BD in H. lia. }
  assert (F1 : firstpos (NSeq n (NEnd en)) = firstpos n).
  { cbn [firstpos]. rewrite (ld_null _ _ _ _ _ _ _ _ LD). apply app_nil_r. }
  (* the tree as seen in a larger store *)
  assert (Main : forall st' d' pb, dr_end d' = en -> dr_info d' = info ->
    (forall p, (p < length s3)%nat -> nth_error st' p = nth_error s3 p) ->
    (dr_tree d' = n \/ (dr_tree d' = with_bol k pb n /\
       exists g, nth_error st' pb = Some (PLeaf (bol_tok k) g (firstpos n)) /\ g = GYes)) ->
    exists pre loop post, loop_tree k m2 st' d' pre loop post).
  { intros st' d' pb Ee Ei FR D.
    assert (LD4 : looped m2 st' n bs pre loop post (en :: post)).
    { eapply looped_frame; [exact LD3|apply incl_refl|exact FR]. }
    destruct LD4 as [H1 H2 H3 H4 H5 (x0 & Fx & Hx) H7 H8 H9].
    destruct (H2 x0 Hx) as (tkx & fx & Lx & _).
    assert (D' : exists pre', (dr_tree d' = n /\ pre' = pre) \/ (dr_tree d' = with_bol k pb n /\ pre' = pb :: pre /\
       nth_error st' pb = Some (PLeaf (bol_tok k) GYes (firstpos n)))).
    { destruct D as [D|(D & g & Eb & ->)]; eauto 6. }
    clear D. destruct D' as (pre' & D). exists pre', loop, post.
    constructor; rewrite ?Ee, ?Ei; auto.
    - intros p Hp. destruct D as [[D ->]|(D & -> & Eb)].
      + destruct (H2 p Hp) as (tk & f & (t & E0 & _) & [(_ & q & Hq)|Hq]); exists t, f; eauto.
      + destruct Hp as [<-|Hp].
        * exists (bol_tok k), (firstpos n). split; [auto|]. left. rewrite Fx. exists x0. split; [auto|now right].
        * destruct (H2 p Hp) as (tk & f & (t & E0 & _) & [(_ & q & Hq & Iq)|Hq]); exists t, f; split; auto.
          left. exists q. split; [auto|now right].
    - intros p Hp. destruct (H3 p Hp) as (tk & rest & (t & E0 & _) & I). eauto.
    - intros p Hp. destruct (H4 p Hp) as (tk & f & L & I & C). exists tk, f. split; [auto|]. split; [auto|].
      intros c Hc. destruct (C c Hc) as (t & Ht & Mt). destruct (H5 t Ht) as (q & rest & Hq & L'). eauto 10.
    - exists x0, tkx, GYes, fx. split; [auto|]. destruct D as [[D ->]|(D & -> & Eb)]; rewrite D.
      + split; [auto|]. now left.
      + split; [now right|]. right. exists pb, GYes, (firstpos n). split; [|split; [now left|auto]].
        cbn. now rewrite Fx.
    - destruct D as [[D _]|(D & _)]; rewrite D; [auto|]. cbn. auto.
    - destruct D as [[D ->]|(D & -> & _)]; rewrite D; [auto|]. unfold poss in *. cbn. intros p [<-|Hp]; [now left|right; auto]. }
  pose proof (pd_root _ _ _ _ _ _ _ _ _ PD) as RO. pose proof (rs_end _ _ (pd_shape _ _ _ _ _ _ _ _ _ PD)) as RE.
  destruct seen.
  - unfold fixup_bol in EP. cbn [fst snd] in EP. rewrite F1 in EP.
    destruct (ld_first _ _ _ _ _ _ _ _ LD3) as (x0 & Fx & Hx).
    destruct (ld_pre _ _ _ _ _ _ _ _ LD3 x0 Hx) as (tkx & fx & (tx & Ex & Mx) & _).
    pose proof (mfine_lt k _ _ _ (fit_fine k A CB HA _ FM2) Mx) as LT0.
    pose proof (mfine_npos k _ (fit_fine k A CB HA _ FM2)) as NP.
    rewrite Fx in EP. cbn [any_bol] in EP. unfold is_bol in EP. rewrite Ex in EP. cbn [bind] in EP.
    rewrite (proj2 (N.eqb_neq tx (bol_tok k))) in EP by lia. cbn [bind] in EP.
    unfold mk_leaf in EP. rewrite (proj2 (N.eqb_neq (bol_tok k) (gnpos k))) in EP by lia.
    rewrite N.eqb_refl in EP. cbn [fst snd] in EP.
    assert (EB : nth_error (s3 ++ [PLeaf (bol_tok k) GYes []]) (length s3) = Some (PLeaf (bol_tok k) GYes []))
      by apply snoc_new.
    unfold mk_seq, append_follows in EP. cbn [lastpos app forallb] in EP.
    unfold is_leaf in EP. rewrite EB in EP. cbn [andb bind fold_left] in EP.
    unfold append_follow in EP. rewrite EB in EP. rewrite F1 in EP. cbn [app fst snd] in EP.
    injection EP as <- <-. cbn [with_tree ps_tree ps_map fst snd cf] in *.
    destruct RO as [RO|(pb & n1 & r0 & D1 & RO & D2)].
    { destruct RO as [RO|[RO _]]; discriminate RO. }
    injection D2 as <- <-. destruct RO as [RO|[RO _]]; [|discriminate RO]. injection RO as -> Ee.
    apply (Main _ d (length s3)).
    + auto.
    + rewrite <- Ee in RE. rewrite nth_error_upd_neq in RE.
      2:{ intros H. apply (f_equal S) in H. assert (en < length s3)%nat by (apply nth_error_Some; congruence). lia. }
      rewrite snoc_old in RE by (apply nth_error_Some; congruence). rewrite EE in RE. now injection RE.
    + intros p Hp. rewrite nth_error_upd_neq by lia. now apply snoc_old.
    + right. split; [auto|]. exists GYes. split; [|auto]. apply nth_error_upd_eq. rewrite app_length. cbn. lia.
  - cbn [bind fst snd] in EP. injection EP as <- <-. cbn [with_tree ps_tree ps_map fst snd cf] in *.
    destruct RO as [RO|(pb & n1 & r0 & D1 & RO & D2)].
    + destruct RO as [RO|[RO _]]; [|discriminate RO]. injection RO as E4 E5.
      apply (Main s3 d 0%nat); auto. rewrite <- E5 in RE. rewrite EE in RE. now injection RE.
    + exfalso. injection D2 as D3 D4. destruct RO as [RO|[RO _]]; rewrite RO in D4; try discriminate.
      pose proof (ld_null _ _ _ _ _ _ _ _ LD) as NN. rewrite D3 in NN. cbn in NN. discriminate.
Qed.
