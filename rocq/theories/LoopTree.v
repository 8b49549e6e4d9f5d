(** The tree that the parser makes from a rule with one abstemious repeat (LoopSpec.v). *)
From Verif Require Import Base StringToken StringTokenSpec StringTokenProofs RegexSpec StateMachine Slice
  ReToken DfaSpec Grammar Tree TreeSpec Glushkov TreeProofs Partition Parser Generator ParserTree
  ParserProofs ParserKeys ParserRule LoopSpec.
Local Open Scope N_scope.

(** Position [p] reads the character class [tk]. *)
Definition leaf_at (m : charset_map) (s : store) (p : nat) (tk : stoken) (g : greedy) (f : list nat) : Prop :=
  exists t, nth_error s p = Some (PLeaf t g f) /\ In (tk, t) m.

(** ** The store *)
Lemma follow_exact fs ps : forall s p t g f, nth_error s p = Some (PLeaf t g f) ->
  exists ext, nth_error (fold_left (append_follow fs) ps s) p = Some (PLeaf t g (f ++ ext)) /\
    incl ext fs /\ (~ In p ps -> ext = []) /\ (In p ps -> NoDup ps -> ext = fs).
Proof.
  induction ps as [|q ps IH]; intros s p t g f E; cbn [fold_left].
  - exists []. rewrite app_nil_r. split; [auto|]. split; [intros ? []|]. split; [auto|intros []].
  - destruct (Nat.eq_dec q p) as [->|Hn].
    + destruct (IH (append_follow fs s p) p t g (f ++ fs)) as (ext & E' & I & N1 & N2).
      { unfold append_follow. rewrite E. apply nth_error_upd_eq. apply nth_error_Some. congruence. }
      exists (fs ++ ext). rewrite app_assoc. split; [auto|]. split.
      { apply incl_app; [apply incl_refl|auto]. }
      split; [intros H; exfalso; apply H; now left|]. intros _ ND. inversion ND; subst.
      rewrite N1 by auto. now rewrite app_nil_r.
    + destruct (IH (append_follow fs s q) p t g f) as (ext & E' & I & N1 & N2).
      { unfold append_follow. destruct (nth_error s q) as [[]|]; auto. rewrite nth_error_upd_neq; auto. }
      exists ext. split; [auto|]. split; [auto|]. split.
      * intros H. apply N1. intros H'. apply H. now right.
      * intros [H|H] ND; [congruence|]. inversion ND; subst. auto.
Qed.
Lemma greedy_exact g ps : forall s p t g0 f, nth_error s p = Some (PLeaf t g0 f) -> g <> GHard -> g0 <> GHard ->
  nth_error (fold_left (set_greedy g) ps s) p = Some (PLeaf t (if in_dec Nat.eq_dec p ps then g else g0) f).
Proof.
  induction ps as [|q ps IH]; intros s p t g0 f E Hg H0; cbn [fold_left]; [auto|].
  destruct (Nat.eq_dec q p) as [->|Hn].
  - rewrite (IH (set_greedy g s p) p t g f); auto.
    2:{ unfold set_greedy. rewrite E. rewrite nth_error_upd_eq by (apply nth_error_Some; congruence).
        destruct g0; congruence. }
    destruct (in_dec _ p ps), (in_dec _ p (p :: ps)) as [|H]; auto; exfalso; apply H; now left.
  - rewrite (IH (set_greedy g s q) p t g0 f); auto.
    2:{ unfold set_greedy. destruct (nth_error s q) as [[]|]; auto. rewrite nth_error_upd_neq; auto. }
    destruct (in_dec _ p ps) as [|N1], (in_dec _ p (q :: ps)) as [H|H]; auto.
    + exfalso; apply H; now right.
    + destruct H as [H|H]; [congruence|]. contradiction.
Qed.
Lemma leaves_leaf s ps : (forall p, In p ps -> exists t g f, nth_error s p = Some (PLeaf t g f)) ->
  forallb (is_leaf s) ps = true.
Proof.
  intros H. apply forallb_forall. intros p Hp. apply H in Hp as (t & g & f & E). unfold is_leaf. now rewrite E.
Qed.

(** ** Stages *)
(** Characters one after the other. *)
Record chain (m : charset_map) (s : store) (n : node) (ps : list nat) : Prop := {
  ch_null : nullable n = false;
  ch_first : exists x, firstpos n = [x] /\ In x ps;
  ch_last : exists y, lastpos n = [y] /\ In y ps;
  ch_in : incl ps (poss n);
  ch_leaf : forall p, In p ps -> exists tk f, leaf_at m s p tk GYes f /\
    ((~ In p (lastpos n) /\ exists q, f = [q] /\ In q ps) \/ (In p (lastpos n) /\ f = []))
}.
(** A choice of characters. *)
Record picks (m : charset_map) (s : store) (n : node) (ts : list token) (b : nat) (ps : list nat) (g : greedy)
    (f : list nat) : Prop := {
  pi_first : firstpos n = ps;
  pi_last : lastpos n = ps;
  pi_poss : poss n = ps;
  pi_nodup : NoDup ps;
  pi_new : forall p, In p ps -> (b <= p)%nat;
  pi_leaf : forall p, In p ps -> exists tk, leaf_at m s p tk g f;
  pi_all : forall t, In t ts -> exists p, In p ps /\ leaf_at m s p (tk_str t) g f
}.
(** Then the repeat and more characters; [e] may follow too. *)
Record looped (m : charset_map) (s : store) (n : node) (ts : list token) (pre loop post after : list nat) : Prop := {
  ld_nodup : NoDup loop;
  ld_pre : forall p, In p pre -> exists tk f, leaf_at m s p tk GYes f /\
    ((~ In p (lastpos n) /\ exists q, f = [q] /\ In q pre) \/ exists rest, f = loop ++ rest /\ incl rest after);
  ld_loop : forall p, In p loop -> exists tk rest, leaf_at m s p tk GNo (loop ++ rest) /\ incl rest after;
  ld_post : forall p, In p post -> exists tk f, leaf_at m s p tk GYes f /\ incl f after /\
    forall c, mem c tk -> exists t, In t ts /\ mem c (tk_str t);
  ld_all : forall t, In t ts -> exists p rest, In p loop /\ leaf_at m s p (tk_str t) GNo (loop ++ rest);
  ld_first : exists x, firstpos n = [x] /\ In x pre;
  ld_null : nullable n = false;
  ld_in : incl (pre ++ loop ++ post) (poss n);
  ld_last : incl (lastpos n) (pre ++ loop ++ post)
}.

Lemma leaf_at_frame m m' s s' p tk g f : leaf_at m s p tk g f -> incl m m' ->
  nth_error s' p = nth_error s p -> leaf_at m' s' p tk g f.
Proof. intros (t & E & H) I F. exists t. rewrite F. auto. Qed.
Lemma leaf_at_lt m s p tk g f : leaf_at m s p tk g f -> (p < length s)%nat.
Proof. intros (t & E & _). apply nth_error_Some. congruence. Qed.
Lemma chain_frame m m' s s' n ps : chain m s n ps -> incl m m' ->
  (forall p, (p < length s)%nat -> nth_error s' p = nth_error s p) -> chain m' s' n ps.
Proof.
  intros [H1 H2 H3 H4 H5] I F. constructor; auto. intros p Hp. destruct (H5 p Hp) as (tk & f & L & D).
  exists tk, f. split; [|auto]. eapply leaf_at_frame; eauto. apply F. eapply leaf_at_lt; eauto.
Qed.
Lemma picks_frame m m' s s' n ts b ps g f : picks m s n ts b ps g f -> incl m m' ->
  (forall p, (p < length s)%nat -> (b <= p)%nat -> nth_error s' p = nth_error s p) -> picks m' s' n ts b ps g f.
Proof.
  intros [H1 H2 H3 H4 H5 H6 H7] I F. constructor; auto.
  - intros p Hp. destruct (H6 p Hp) as (tk & L). exists tk. eapply leaf_at_frame; eauto. apply F; [|auto].
    eapply leaf_at_lt; eauto.
  - intros t Ht. destruct (H7 t Ht) as (p & Hp & L). exists p. split; [auto|]. eapply leaf_at_frame; eauto.
    apply F; [|auto]. eapply leaf_at_lt; eauto.
Qed.
Lemma looped_frame m m' s s' n ts pre loop post after : looped m s n ts pre loop post after -> incl m m' ->
  (forall p, (p < length s)%nat -> nth_error s' p = nth_error s p) -> looped m' s' n ts pre loop post after.
Proof.
  intros [H1 H2 H3 H4 H5 H6 H7 H8 H9] I F.
  assert (X : forall p tk g f, leaf_at m s p tk g f -> leaf_at m' s' p tk g f).
  { intros p tk g f L. eapply leaf_at_frame; eauto. apply F. eapply leaf_at_lt; eauto. }
  constructor; auto.
  - intros p Hp. destruct (H2 p Hp) as (tk & f & L & D). eauto.
  - intros p Hp. destruct (H3 p Hp) as (tk & f & L & D). eauto.
  - intros p Hp. destruct (H4 p Hp) as (tk & f & L & D). eauto.
  - intros t Ht. destruct (H5 t Ht) as (p & rest & Hp & L). eauto.
Qed.

(** ** Steps *)
Lemma snoc_old {A} (l : list A) x p : (p < length l)%nat -> nth_error (l ++ [x]) p = nth_error l p.
Proof. apply nth_error_app1. Qed.
Lemma snoc_new {A} (l : list A) x : nth_error (l ++ [x]) (length l) = Some x.
Proof. rewrite nth_error_app2, Nat.sub_diag; auto. Qed.

Lemma chain_one m s i tk : In (tk, i) m ->
  chain m (s ++ [PLeaf i GYes []]) (NLeaf i (length s)) [length s].
Proof.
  intros H. constructor; cbn; auto.
  - eexists. split; [reflexivity|now left].
  - eexists. split; [reflexivity|now left].
  - apply incl_refl.
  - intros p [<-|[]]. exists tk, []. split; [exists i; split; [apply snoc_new|auto]|]. right. auto.
Qed.
(** One more character. *)
Lemma chain_more m s n ps i tk : chain m s n ps -> In (tk, i) m ->
  exists s', mk_seq n (NLeaf i (length s)) (s ++ [PLeaf i GYes []]) = Ok (NSeq n (NLeaf i (length s)), s') /\
    length s' = S (length s) /\ chain m s' (NSeq n (NLeaf i (length s))) (length s :: ps).
Proof.
  intros C H. assert (C' : chain m (s ++ [PLeaf i GYes []]) n ps).
  { eapply chain_frame; [exact C|apply incl_refl|]. intros p Hp. now apply snoc_old. }
  assert (LT : forall p, In p ps -> (p < length s)%nat).
  { intros p Hp. destruct (ch_leaf _ _ _ _ C p Hp) as (t & f & L & _). eapply leaf_at_lt; eauto. }
  destruct C' as [N1 (x & F1 & F2) (y & L1 & L2) I LF]. unfold mk_seq, append_follows. rewrite leaves_leaf.
  2:{ intros p Hp. rewrite L1 in Hp. destruct Hp as [<-|[]]. destruct (LF y L2) as (t & f & (j & E & _) & _). eauto. }
  cbn [bind firstpos]. eexists. split; [reflexivity|]. split.
  { rewrite append_follow_len, app_length. cbn. lia. }
  constructor.
  - cbn. now rewrite N1.
  - exists x. split; [|now right]. cbn [firstpos]. rewrite F1, N1. reflexivity.
  - exists (length s). split; [reflexivity|now left].
  - unfold poss. cbn [leaves]. rewrite map_app. intros p [<-|Hp]; apply in_or_app; [right; now left|left; auto].
  - intros p Hp. cbn [lastpos nullable]. destruct (Nat.eq_dec p (length s)) as [->|Hn].
    + exists tk, []. split; [|right; split; [now left|auto]]. exists i. split; [|auto].
      rewrite append_follow_out; [apply snoc_new|]. rewrite L1. intros [E|[]]. apply LT in L2. lia.
    + destruct Hp as [Hp|Hp]; [congruence|]. destruct (LF p Hp) as (t & f & (j & E & Hj) & D).
      destruct (follow_exact [length s] (lastpos n) _ p j GYes f E) as (ext & E' & _ & X1 & X2).
      exists t, (f ++ ext). split; [exists j; auto|]. left. split; [intros [E0|[]]; congruence|].
      destruct D as [(D & q & -> & Hq)|(D & ->)].
      * rewrite X1 by auto. exists q. split; [auto|now right].
      * exists (length s). split; [|now left]. cbn. apply X2; [auto|]. rewrite L1. repeat constructor. intros [].
Qed.
(** One more alternative. *)
Lemma picks_one m s b t i : In (tk_str t, i) m -> (b <= length s)%nat ->
  picks m (s ++ [PLeaf i GYes []]) (NLeaf i (length s)) [t] b [length s] GYes [].
Proof.
  intros H Hb. constructor; auto.
  - repeat constructor. intros [].
  - intros p [<-|[]]. auto.
  - intros p [<-|[]]. exists (tk_str t), i. split; [apply snoc_new|auto].
  - intros t' [<-|[]]. exists (length s). split; [now left|]. exists i. split; [apply snoc_new|auto].
Qed.
Lemma picks_more m s n ts b ps t i : picks m s n ts b ps GYes [] -> In (tk_str t, i) m -> (b <= length s)%nat ->
  picks m (s ++ [PLeaf i GYes []]) (NSel n (NLeaf i (length s))) (ts ++ [t]) b (ps ++ [length s]) GYes [].
Proof.
  intros C H Hb. assert (LT : forall p, In p ps -> (p < length s)%nat).
  { intros p Hp. destruct (pi_leaf _ _ _ _ _ _ _ _ C p Hp) as (tk & L). eapply leaf_at_lt; eauto. }
  assert (C' : picks m (s ++ [PLeaf i GYes []]) n ts b ps GYes []).
  { eapply picks_frame; [exact C|apply incl_refl|]. intros p Hp _. now apply snoc_old. }
  destruct C' as [P1 P2 P3 P4 P5 P6 P7]. constructor.
  - cbn. now rewrite P1.
  - cbn. now rewrite P2.
  - unfold poss in *. cbn. rewrite map_app, P3. reflexivity.
  - clear - P4 LT. induction ps as [|p ps IH]; cbn; [repeat constructor; intros []|].
    inversion P4; subst. constructor.
    + intros H. apply in_app_or in H as [H|[H|[]]]; [auto|]. specialize (LT p (or_introl eq_refl)). lia.
    + apply IH; auto. intros q Hq. apply LT. now right.
  - intros p Hp. apply in_app_or in Hp as [Hp|[<-|[]]]; auto.
  - intros p Hp. apply in_app_or in Hp as [Hp|[<-|[]]]; auto. exists (tk_str t), i. split; [apply snoc_new|auto].
  - intros t' Ht. apply in_app_or in Ht as [Ht|[<-|[]]].
    + destruct (P7 t' Ht) as (p & Hp & L). exists p. split; [apply in_or_app; now left|auto].
    + exists (length s). split; [apply in_or_app; right; now left|]. exists i. split; [apply snoc_new|auto].
Qed.
(** The repeat. *)
Lemma picks_star m s n ts b ps : picks m s n ts b ps GYes [] ->
  exists s', mk_iter n GNo s = Ok (NIter n GNo, s') /\ length s' = length s /\
    (forall p, (p < b)%nat -> nth_error s' p = nth_error s p) /\ picks m s' (NIter n GNo) ts b ps GNo ps.
Proof.
  intros [P1 P2 P3 P4 P5 P6 P7]. unfold mk_iter, append_follows. rewrite P1, P2.
  rewrite leaves_leaf by (intros p Hp; destruct (P6 p Hp) as (tk & t & E & _); eauto). cbn [bind].
  set (s1 := fold_left (append_follow ps) ps s).
  assert (L1 : forall p t g f, In p ps -> nth_error s p = Some (PLeaf t g f) -> nth_error s1 p = Some (PLeaf t g (f ++ ps))).
  { intros p t g f Hp E. destruct (follow_exact ps ps s p t g f E) as (ext & E' & _ & _ & X).
    rewrite (X Hp P4) in E'. exact E'. }
  unfold set_greedies. rewrite leaves_leaf.
  2:{ intros p Hp. destruct (P6 p Hp) as (tk & t & E & _). apply L1 in E; eauto. }
  cbn [bind]. eexists. split; [reflexivity|]. split.
  { rewrite set_greedy_len. unfold s1. apply append_follow_len. }
  split.
  { intros p Hp. rewrite set_greedy_out; [unfold s1; rewrite append_follow_out; [auto|]|]; intros H; apply P5 in H; lia. }
  assert (L2 : forall p tk, In p ps -> leaf_at m s p tk GYes [] ->
    leaf_at m (fold_left (set_greedy GNo) ps s1) p tk GNo ps).
  { intros p tk Hp (t & E & H). exists t. split; [|auto]. apply (L1 p) in E; [|auto]. cbn [app] in E.
    rewrite (greedy_exact GNo ps s1 p t GYes ps E) by discriminate.
    destruct (in_dec _ p ps); [reflexivity|contradiction]. }
  constructor; auto.
  - intros p Hp. destruct (P6 p Hp) as (tk & L). exists tk. auto.
  - intros t Ht. destruct (P7 t Ht) as (p & Hp & L). exists p. auto.
Qed.
(** X and the repeat. *)
Lemma chain_picks m s n ps l ts b loop : chain m s n ps -> (forall p, In p ps -> (p < b)%nat) ->
  picks m s l ts b loop GNo loop -> nullable l = true ->
  exists s', mk_seq n l s = Ok (NSeq n l, s') /\ length s' = length s /\
    looped m s' (NSeq n l) ts ps loop [] [].
Proof.
  intros [N1 (x & F1 & F2) (y & Y1 & Y2) I LF] LB [P1 P2 P3 P4 P5 P6 P7] NL.
  unfold mk_seq, append_follows. rewrite leaves_leaf.
  2:{ intros p Hp. rewrite Y1 in Hp. destruct Hp as [<-|[]]. destruct (LF y Y2) as (t & f & (j & E & _) & _). eauto. }
  cbn [bind]. rewrite P1. eexists. split; [reflexivity|]. split; [apply append_follow_len|].
  assert (OUT : forall p, In p loop -> ~ In p (lastpos n)).
  { intros p Hp. rewrite Y1. intros [<-|[]]. apply LB in Y2. apply P5 in Hp. lia. }
  assert (LP : forall p tk g f, In p loop -> leaf_at m s p tk g f ->
    leaf_at m (fold_left (append_follow loop) (lastpos n) s) p tk g f).
  { intros p tk g f Hp L. eapply leaf_at_frame; [exact L|apply incl_refl|]. apply append_follow_out. auto. }
  constructor; auto.
  - intros p Hp. destruct (LF p Hp) as (t & f & (j & E & Hj) & D).
    destruct (follow_exact loop (lastpos n) _ p j GYes f E) as (ext & E' & _ & X1 & X2).
    exists t, (f ++ ext). split; [exists j; auto|]. destruct D as [(D & q & -> & Hq)|(D & ->)].
    + left. split.
      * cbn [lastpos]. rewrite NL, P2. intros H. apply in_app_or in H as [H|H]; [auto|].
        apply LB in Hp. apply P5 in H. lia.
      * rewrite X1 by auto. exists q. auto.
    + right. exists []. split; [|intros ? []]. cbn. rewrite app_nil_r. apply X2; [auto|]. rewrite Y1.
      repeat constructor. intros [].
  - intros p Hp. destruct (P6 p Hp) as (tk & L). exists tk, []. rewrite app_nil_r. split; [auto|intros ? []].
  - intros ? [].
  - intros t Ht. destruct (P7 t Ht) as (p & Hp & L). exists p, []. rewrite app_nil_r. auto.
  - exists x. split; [|auto]. cbn. now rewrite F1, N1.
  - cbn. now rewrite N1.
  - unfold poss in *. cbn. rewrite map_app, P3, app_nil_r. apply incl_app.
    + apply incl_appl. auto.
    + apply incl_appr, incl_refl.
  - cbn [lastpos]. rewrite NL, P2, Y1, app_nil_r. intros p Hp. apply in_app_or in Hp as [[<-|[]]|Hp]; apply in_or_app; auto.
Qed.
(** What follows is added to the last positions. *)
Lemma looped_add m s n ts pre loop post after y l : looped m s n ts pre loop post after -> firstpos l = [y] ->
  exists s', mk_seq n l s = Ok (NSeq n l, s') /\ length s' = length s /\
    (forall p, ~ In p (lastpos n) -> nth_error s' p = nth_error s p) /\
    looped m s' n ts pre loop post (y :: after).
Proof.
  intros [H1 H2 H3 H4 H5 H6 H7 H8 H9] Fy. unfold mk_seq, append_follows. rewrite leaves_leaf.
  2:{ intros p Hp. apply H9 in Hp. apply in_app_or in Hp as [Hp|Hp]; [|apply in_app_or in Hp as [Hp|Hp]].
      - destruct (H2 p Hp) as (t & f & (j & E & _) & _). eauto.
      - destruct (H3 p Hp) as (t & f & (j & E & _) & _). eauto.
      - destruct (H4 p Hp) as (t & f & (j & E & _) & _). eauto. }
  cbn [bind]. rewrite Fy. eexists. split; [reflexivity|]. split; [apply append_follow_len|].
  split; [intros p Hp; now apply append_follow_out|].
  assert (X : forall p tk g f, leaf_at m s p tk g f -> exists ext,
    leaf_at m (fold_left (append_follow [y]) (lastpos n) s) p tk g (f ++ ext) /\ incl ext (y :: after) /\
    (~ In p (lastpos n) -> ext = [])).
  { intros p tk g f (j & E & Hj). destruct (follow_exact [y] (lastpos n) s p j g f E) as (ext & E' & I & X1 & _).
    exists ext. split; [exists j; auto|]. split; [|auto]. intros a Ha. apply I in Ha as [<-|[]]. now left. }
  assert (IA : incl after (y :: after)) by (apply incl_tl, incl_refl).
  constructor; auto.
  - intros p Hp. destruct (H2 p Hp) as (tk & f & L & D). destruct (X p tk GYes f L) as (ext & L' & I & N).
    exists tk, (f ++ ext). split; [auto|]. destruct D as [(D & q & -> & Hq)|(rest & -> & Ir)].
    + left. split; [auto|]. exists q. rewrite N by auto. auto.
    + right. exists (rest ++ ext). rewrite app_assoc. split; [auto|]. apply incl_app; [eapply incl_tran; eauto|auto].
  - intros p Hp. destruct (H3 p Hp) as (tk & rest & L & Ir). destruct (X p tk GNo _ L) as (ext & L' & I & N).
    exists tk, (rest ++ ext). rewrite app_assoc. split; [auto|]. apply incl_app; [eapply incl_tran; eauto|auto].
  - intros p Hp. destruct (H4 p Hp) as (tk & f & L & Ir & C). destruct (X p tk GYes _ L) as (ext & L' & I & N).
    exists tk, (f ++ ext). split; [auto|]. split; [|auto]. apply incl_app; [eapply incl_tran; eauto|auto].
  - intros t Ht. destruct (H5 t Ht) as (p & rest & Hp & L). destruct (X p _ GNo _ L) as (ext & L' & I & N).
    exists p, (rest ++ ext). rewrite app_assoc. auto.
Qed.
Lemma looped_more m s n ts pre loop post i tk : looped m s n ts pre loop post post -> In (tk, i) m ->
  (forall c, mem c tk -> exists t, In t ts /\ mem c (tk_str t)) ->
  exists s', mk_seq n (NLeaf i (length s)) (s ++ [PLeaf i GYes []]) = Ok (NSeq n (NLeaf i (length s)), s') /\
    length s' = S (length s) /\
    looped m s' (NSeq n (NLeaf i (length s))) ts pre loop (length s :: post) (length s :: post).
Proof.
  intros LD H C.
  assert (LT : forall p, In p (pre ++ loop ++ post) -> (p < length s)%nat).
  { intros p Hp. destruct LD as [_ H2 H3 H4 _ _ _ _ _].
    apply in_app_or in Hp as [Hp|Hp]; [|apply in_app_or in Hp as [Hp|Hp]].
    - destruct (H2 p Hp) as (t & f & L & _). eapply leaf_at_lt; eauto.
    - destruct (H3 p Hp) as (t & f & L & _). eapply leaf_at_lt; eauto.
    - destruct (H4 p Hp) as (t & f & L & _). eapply leaf_at_lt; eauto. }
  assert (LD' : looped m (s ++ [PLeaf i GYes []]) n ts pre loop post post).
  { eapply looped_frame; [exact LD|apply incl_refl|]. intros p Hp. now apply snoc_old. }
  destruct (looped_add _ _ _ _ _ _ _ _ (length s) (NLeaf i (length s)) LD' eq_refl) as (s' & E & Ln & Oth & L2).
  exists s'. split; [auto|]. split; [rewrite Ln, app_length; cbn; lia|].
  pose proof (ld_last _ _ _ _ _ _ _ _ LD) as LL. destruct L2 as [H1 H2 H3 H4 H5 H6 H7 H8 H9].
  constructor; auto.
  - intros p Hp. destruct (H2 p Hp) as (t & f & L & D). exists t, f. split; [auto|].
    destruct D as [(D & q & Hq)|D]; [left|right; auto]. split; [|eauto]. cbn. intros [E0|[]].
    assert (p < length s)%nat by (apply LT, in_or_app; now left). lia.
  - intros p [<-|Hp].
    + exists tk, []. split; [|split; [intros ? []|auto]]. exists i. split; [|auto].
      rewrite Oth; [apply snoc_new|]. intros Hl. apply LL, LT in Hl. lia.
    + destruct (H4 p Hp) as (t & f & L & I & Cv). eauto.
  - destruct H6 as (x & F1 & F2). exists x. split; [|auto]. cbn. now rewrite F1, H7.
  - cbn. now rewrite H7.
  - unfold poss in *. cbn. rewrite map_app. intros p Hp. apply in_or_app.
    assert (p = length s \/ In p (pre ++ loop ++ post)) as [->|Hp'].
    { apply in_app_or in Hp as [Hp|Hp]; [right; apply in_or_app; auto|].
      apply in_app_or in Hp as [Hp|[<-|Hp]]; auto; right; apply in_or_app; right; apply in_or_app; auto. }
    + right. now left.
    + left. auto.
  - cbn. intros p [<-|[]]. apply in_or_app. right. apply in_or_app. right. now left.
Qed.
