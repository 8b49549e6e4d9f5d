(** rules.hpp:386-400, 969-1050: reverse(). *)
From Verif Require Import Base StringToken StringTokenSpec RegexSpec ReToken DfaSpec Grammar GramUnique ParserProofs RuleSpec Parser ReTokeniser Rules
  TokeniseSpec TokeniseProofs TokeniseGram.
Local Open Scope N_scope.

(** ** What it does *)
Definition anchor (ty : ttype) : bool := match ty with BOL | EOL => true | _ => false end.
Definition turned (ty : ttype) : ttype := match ty with BOL => EOL | EOL => BOL | _ => ty end.
Inductive mirr : list token -> list token -> Prop :=
| m_nil : mirr [] []
| m_app u v u' v' : mirr u u' -> mirr v v' -> mirr (u ++ v) (v' ++ u')
| m_tok t : tk_type t = CHARSET \/ tk_type t = OR -> mirr [t] [t]
| m_anchor t : anchor (tk_type t) = true -> mirr [t] [retype (turned (tk_type t)) t]
| m_dup t d : tk_type t = CHARSET -> dupb (tk_type d) = true -> mirr [t; d] [t; d]
| m_paren o w w' c : tk_type o = OPENPAREN -> tk_type c = CLOSEPAREN -> mirr w w' ->
    mirr (o :: w ++ [c]) (retype OPENPAREN c :: w' ++ [retype CLOSEPAREN o])
| m_pdup o w w' c d : tk_type o = OPENPAREN -> tk_type c = CLOSEPAREN -> dupb (tk_type d) = true -> mirr w w' ->
    mirr (o :: w ++ [c; d]) (retype OPENPAREN c :: w' ++ [retype CLOSEPAREN o; d]).

Lemma retype_back ty ty' t : tk_type t = ty -> retype ty (retype ty' t) = t.
Proof. intros <-. now destruct t. Qed.
Lemma mirr_sym w w' : mirr w w' -> mirr w' w.
Proof.
  induction 1 as [|u v u' v' M1 IH1 M2 IH2|t H|t H|t d H1 H2|o w w' c H1 H2 M IH|o w w' c d H1 H2 H3 M IH].
  - constructor.
  - now apply m_app.
  - now apply m_tok.
  - set (t' := retype (turned (tk_type t)) t). assert (E : t = retype (turned (tk_type t')) t').
    { unfold t'. destruct t as [ty x s]; cbn in *. destruct ty; (discriminate || reflexivity). }
    assert (M : mirr [t'] [retype (turned (tk_type t')) t']); [|now rewrite <- E in M]. apply m_anchor. unfold t'. destruct t as [ty x s]; cbn in *. destruct ty; (discriminate || reflexivity).
  - now apply m_dup.
  - pose proof (m_paren (retype OPENPAREN c) w' w (retype CLOSEPAREN o) eq_refl eq_refl IH) as R. now rewrite !retype_back in R by auto.
  - pose proof (m_pdup (retype OPENPAREN c) w' w (retype CLOSEPAREN o) d eq_refl eq_refl H3 IH) as R. now rewrite !retype_back in R by auto.
Qed.
Lemma mirr_loop w w' : mirr w w' -> forall l st, rev_loop (rev w ++ l) st = (do x <- rev_loop l st; Ok (w' ++ x)).
Proof.
  assert (RET : forall (x : res (list token)), x = (do y <- x; Ok y)) by (intros []; reflexivity).
  assert (ASSOC : forall (x : res (list token)) (u v : list token), (do y <- (do y <- x; Ok (u ++ y)); Ok (v ++ y)) = (do y <- x; Ok ((v ++ u) ++ y))).
  { intros [x| | |] u v; cbn; auto. now rewrite app_assoc. }
  induction 1 as [|u v u' v' M1 IH1 M2 IH2|t H|t H|t d H1 H2|o w w' c H1 H2 M IH|o w w' c d H1 H2 H3 M IH]; intros l st.
  - cbn. apply RET.
  - rewrite rev_app_distr, <- app_assoc, IH2, IH1. apply ASSOC.
  - cbn. destruct H as [-> | ->]; reflexivity.
  - cbn. destruct (tk_type t); try discriminate; reflexivity.
  - cbn [rev app rev_loop]. assert (IT : is_type CLOSEPAREN t = false) by (unfold is_type; now rewrite H1). rewrite IT.
    destruct (tk_type d); try discriminate; reflexivity.
  - cbn [rev]. rewrite rev_app_distr. cbn [rev app rev_loop]. rewrite H2, <- app_assoc, IH. cbn [app rev_loop]. rewrite H1.
    destruct (rev_loop l st); cbn [bind]; auto. rewrite <- app_assoc. reflexivity.
  - cbn [rev]. rewrite rev_app_distr. cbn [rev app rev_loop]. assert (IT : is_type CLOSEPAREN c = true) by (unfold is_type; now rewrite H2). rewrite IT.
    assert (E : (do x <- rev_loop ((rev w ++ [o]) ++ l) (Some d :: st); Ok (retype OPENPAREN c :: x)) =
                (do x <- rev_loop l st; Ok ((retype OPENPAREN c :: w' ++ [retype CLOSEPAREN o; d]) ++ x))).
    { rewrite <- app_assoc, IH. cbn [app rev_loop]. rewrite H1. destruct (rev_loop l st); cbn [bind]; auto. rewrite <- app_assoc. reflexivity. }
    destruct (tk_type d); try discriminate; exact E.
Qed.
Lemma mirr_length w w' : mirr w w' -> length w' = length w.
Proof. induction 1; cbn; rewrite ?app_length in *; cbn; lia. Qed.
Theorem reverse_between w w' : mirr w w' -> reverse_tokens (between w) = Ok (between w').
Proof.
  intros M. unfold reverse_tokens, between. cbn [rev]. rewrite rev_app_distr. cbn [rev app]. cbn [rev_loop tok tk_type].
  rewrite (mirr_loop w w' M). cbn [rev_loop tok tk_type bind]. f_equal.
  change (tok BEGIN :: w ++ [tok END]) with ((tok BEGIN :: w) ++ [tok END]).
  replace (length ((tok BEGIN :: w) ++ [tok END]) - _)%nat with 0%nat; [cbn [repeat]; now rewrite app_nil_r|].
  rewrite !app_length. cbn [length]. rewrite app_length. cbn [length]. rewrite (mirr_length _ _ M). lia.
Qed.

(** ** Its meaning *)
Definition flip (s : csym) : csym := match s with CBol => CEol | CEol => CBol | _ => s end.
Definition mirror (w : list csym) : list csym := rev (map flip w).
Lemma flip_flip s : flip (flip s) = s.
Proof. now destruct s. Qed.
Lemma mirror_mirror w : mirror (mirror w) = w.
Proof. unfold mirror. rewrite map_rev, rev_involutive, map_map. rewrite <- (map_id w) at 2. apply map_ext. apply flip_flip. Qed.
Lemma mirror_app u v : mirror (u ++ v) = mirror v ++ mirror u.
Proof. unfold mirror. now rewrite map_app, rev_app_distr. Qed.
Lemma mirror_nil w : mirror w = [] <-> w = [].
Proof. split; [|intros ->; reflexivity]. intros E. rewrite <- (mirror_mirror w), E. reflexivity. Qed.

(** No duplication directly behind ^ or $. *)
Fixpoint free_anchors (w : list token) : Prop :=
  match w with
  | t :: w' => match w' with d :: _ => ~ (anchor (tk_type t) = true /\ dupb (tk_type d) = true) | [] => True end /\ free_anchors w'
  | [] => True
  end.
Lemma free_app u v : free_anchors (u ++ v) -> free_anchors u /\ free_anchors v.
Proof.
  induction u as [|t u IH]; cbn; [auto|]. intros [H1 H2]. destruct (IH H2) as [A B]. split; [|auto]. split; [|auto].
  destruct u; [auto|exact H1].
Qed.

Definition means (r : rx) (L : list csym -> Prop) : Prop := forall w, clang r w <-> L w.
Definition catl (A B : list csym -> Prop) (w : list csym) : Prop := exists u v, w = u ++ v /\ A u /\ B v.
Lemma seq_app a u b v : gram GSeq b v -> gram GSeq a u -> exists r, gram GSeq r (u ++ v) /\ means r (catl (clang a) (clang b)).
Proof.
  intros G. remember GSeq as X eqn:EX. revert a u. induction G as [| |r w G IH|x y p q G1 IH1 G2 IH2| | | | | |]; try discriminate; intros a u H.
  - exists (XCat a r). split; [now constructor|]. intros w'. reflexivity.
  - destruct (IH1 EX a u H) as (r & R1 & R2). exists (XCat r y). split; [rewrite app_assoc; now constructor|].
    intros w'. cbn [clang]. split.
    + intros (l1 & l2 & -> & L1 & L2). apply R2 in L1. destruct L1 as (m1 & m2 & -> & A1 & A2). exists m1, (m2 ++ l2). rewrite app_assoc.
      split; [auto|]. split; [auto|]. cbn. eauto 6.
    + intros (l1 & l2 & -> & L1 & (m1 & m2 & -> & A1 & A2)). exists (l1 ++ m1), m2. rewrite app_assoc. split; [auto|]. split; [|auto]. apply R2. exists l1, m1. auto.
Qed.
Lemma alt_app a u b v t : tk_type t = OR -> gram GRegex b v -> gram GRegex a u -> exists r, gram GRegex r (u ++ t :: v) /\ means r (fun w => clang a w \/ clang b w).
Proof.
  intros Ht G. remember GRegex as X eqn:EX. revert a u. induction G as [r w G IH|x y p q s G1 IH1 Hs G2 IH2| | | | | | | |]; try discriminate; intros a u H.
  - exists (XAlt a r). split; [now apply g_or|]. intros w'. reflexivity.
  - destruct (IH1 EX a u H) as (r & R1 & R2). exists (XAlt r y). split.
    + change (u ++ t :: p ++ s :: q) with (u ++ (t :: p) ++ s :: q). rewrite app_assoc. now apply g_or.
    + intros w'. cbn [clang]. rewrite (R2 w'). tauto.
Qed.
Lemma power_mirror (A B : list csym -> Prop) : (forall w, A w <-> B (mirror w)) -> forall n w, power A n w <-> power B n (mirror w).
Proof.
  assert (SNOC : forall (B : list csym -> Prop) n w, power B (S n) w <-> exists u v, w = u ++ v /\ power B n u /\ B v).
  { intros C n. induction n as [|n IH]; intros w.
    - cbn. split.
      + intros (u & v & -> & H & ->). exists [], u. rewrite app_nil_r. auto.
      + intros (u & v & -> & -> & H). exists v, []. rewrite app_nil_r. auto.
    - change (power C (S (S n)) w) with (exists u v, w = u ++ v /\ C u /\ power C (S n) v). split.
      + intros (u & v & -> & H & P). apply IH in P. destruct P as (a & c & -> & P1 & P2). exists (u ++ a), c. rewrite app_assoc. split; [auto|]. split; [|auto]. cbn. eauto 6.
      + intros (u & v & -> & (a & c & -> & P1 & P2) & H). exists a, (c ++ v). rewrite app_assoc. split; [auto|]. split; [auto|]. apply IH. eauto 6. }
  intros H. induction n as [|n IH]; intros w.
  - cbn. symmetry. apply mirror_nil.
  - rewrite (SNOC B). cbn [power]. split.
    + intros (u & v & -> & P1 & P2). exists (mirror v), (mirror u). rewrite mirror_app. split; [auto|]. split; [now apply IH|now apply H].
    + intros (u & v & E & P1 & P2). exists (mirror v), (mirror u). split; [now rewrite <- mirror_app, <- E, mirror_mirror|].
      split; [apply H|apply IH]; now rewrite mirror_mirror.
Qed.
Lemma dup_mirror t f x y : dup t f -> means x (fun w => clang y (mirror w)) -> means (f x) (fun w => clang (f y) (mirror w)).
Proof.
  intros D M. assert (P := power_mirror (clang x) (clang y) M). destruct D; intros w; cbn [clang].
  - rewrite (M w), mirror_nil. tauto.
  - split; intros (n & H'); exists n; now apply P.
  - split; intros (n & H' & H''); exists n; (split; [auto|now apply P]).
  - split; intros (n & H1 & H2 & H3); exists n; (split; [auto|]); (split; [auto|now apply P]).
Qed.
Lemma dup_dupb t f : dup t f -> dupb (tk_type t) = true.
Proof. destruct 1 as [t H|t H|t H|t mn mx H]; destruct H as [-> | ->]; reflexivity. Qed.

Theorem gram_mirror X r w : gram X r w -> free_anchors w -> exists w' r', mirr w w' /\ gram X r' w' /\ means r' (fun v => clang r (mirror v)) /\
  (X = GAtom -> forall o i c, w = o :: i ++ [c] -> tk_type o = OPENPAREN -> exists i', mirr i i' /\ w' = retype OPENPAREN c :: i' ++ [retype CLOSEPAREN o]).
Proof.
  induction 1 as [r w G IH|a b u v t G1 IH1 Et G2 IH2|r w G IH|a b u v G1 IH1 G2 IH2|r w G IH|r w t f G IH D|t Et|t Et|t Et|r w o c Eo G IH Ec]; intros F.
  - destruct (IH F) as (w' & r' & M & G' & L & _). exists w', r'. split; [auto|]. split; [now constructor|]. split; [auto|discriminate].
  - destruct (free_app u (t :: v) F) as [F1 F2]. change (t :: v) with ([t] ++ v) in F2. destruct (free_app [t] v F2) as [_ F3].
    destruct (IH1 F1) as (u' & a' & M1 & G1' & L1 & _). destruct (IH2 F3) as (v' & b' & M2 & G2' & L2 & _).
    destruct (alt_app b' v' a' u' t Et G1' (g_regex _ _ G2')) as (r & Gr & Lr). exists (v' ++ t :: u'), r.
    split.
    + pose proof (m_app u ([t] ++ v) u' (v' ++ [t]) M1 (m_app [t] v [t] v' (m_tok t (or_intror Et)) M2)) as M. cbn [app] in M. now rewrite <- app_assoc in M.
    + split; [auto|]. split; [|discriminate]. intros x. rewrite (Lr x), (L1 x), (L2 x). cbn [clang]. tauto.
  - destruct (IH F) as (w' & r' & M & G' & L & _). exists w', r'. split; [auto|]. split; [now constructor|]. split; [auto|discriminate].
  - destruct (free_app u v F) as [F1 F2]. destruct (IH1 F1) as (u' & a' & M1 & G1' & L1 & _). destruct (IH2 F2) as (v' & b' & M2 & G2' & L2 & _).
    destruct (seq_app b' v' a' u' G1' (g_seq _ _ G2')) as (r & Gr & Lr). exists (v' ++ u'), r. split; [now apply m_app|]. split; [auto|]. split; [|discriminate].
    intros x. rewrite (Lr x). unfold catl. cbn [clang]. split.
    + intros (p & q & -> & H1 & H2). exists (mirror q), (mirror p). rewrite mirror_app. split; [auto|]. split; [now apply L1|now apply L2].
    + intros (p & q & E & H1 & H2). exists (mirror q), (mirror p). split; [now rewrite <- mirror_app, <- E, mirror_mirror|].
      split; [apply L2|apply L1]; now rewrite mirror_mirror.
  - destruct (IH F) as (w' & r' & M & G' & L & _). exists w', r'. split; [auto|]. split; [now constructor|]. split; [auto|discriminate].
  - destruct (free_app w [t] F) as [F1 F2]. destruct (IH F1) as (w' & r' & M & G' & L & SH). pose proof (dup_dupb _ _ D) as Hd.
    clear IH. remember GAtom as X eqn:EX. destruct G as [| | | | | |s Es|s Es|s Es|r w o c Eo G Ec]; try discriminate EX.
    + exists [s; t], (f (XSet (tk_str s))). split; [now apply m_dup|]. split; [change [s; t] with ([s] ++ [t]); apply g_dup; [now constructor|auto]|]. split; [|discriminate].
      apply dup_mirror with (1 := D). intros v. cbn. split; intros (ch & H1 & H2); exists ch; (split; [auto|]).
      * now rewrite H2.
      * rewrite <- (mirror_mirror v), H2. reflexivity.
    + exfalso. cbn in F. rewrite Es in F. cbn in F. tauto.
    + exfalso. cbn in F. rewrite Es in F. cbn in F. tauto.
    + (* a group *)
      destruct (SH eq_refl o w c eq_refl Eo) as (w1 & MW & ->).
      exists (retype OPENPAREN c :: w1 ++ [retype CLOSEPAREN o; t]), (f r').
      split; [|split; [|split; [|discriminate]]].
      * rewrite app_comm_cons, <- app_assoc. cbn [app]. now apply m_pdup.
      * change (retype OPENPAREN c :: w1 ++ [retype CLOSEPAREN o; t]) with (retype OPENPAREN c :: w1 ++ [retype CLOSEPAREN o] ++ [t]).
        rewrite app_assoc, app_comm_cons. now apply g_dup.
      * now apply (dup_mirror t).
  - exists [t], (XSet (tk_str t)). split; [apply m_tok; auto|]. split; [now constructor|]. split; [|intros _ o i c E Eo; injection E as -> E; destruct i; discriminate].
    intros v. cbn. split; intros (ch & H1 & H2); exists ch; (split; [auto|]).
    + now rewrite H2.
    + rewrite <- (mirror_mirror v), H2. reflexivity.
  - exists [retype EOL t], XEol. split; [pose proof (m_anchor t) as M; rewrite Et in M; now apply M|]. split; [now constructor|]. split; [|intros _ o i c E Eo; injection E as -> E; destruct i; discriminate]. intros v. cbn. split.
    + now intros ->.
    + intros H. rewrite <- (mirror_mirror v), H. reflexivity.
  - exists [retype BOL t], XBol. split; [pose proof (m_anchor t) as M; rewrite Et in M; now apply M|]. split; [now constructor|]. split; [|intros _ o i c E Eo; injection E as -> E; destruct i; discriminate]. intros v. cbn. split.
    + now intros ->.
    + intros H. rewrite <- (mirror_mirror v), H. reflexivity.
  - change (o :: w ++ [c]) with ([o] ++ w ++ [c]) in F. destruct (free_app _ _ F) as [_ F1]. destruct (free_app _ _ F1) as [F2 _].
    destruct (IH F2) as (w' & r' & M & G' & L & _). exists (retype OPENPAREN c :: w' ++ [retype CLOSEPAREN o]), r'. split; [now apply m_paren|].
    split; [now constructor|]. split; [auto|]. intros _ o' i c' E _. injection E as <- E. apply app_inj_tail in E. destruct E as [<- <-]. eauto.
Qed.
Theorem reverse_ok o w : ogram o w -> free_anchors w -> exists w' o',
  reverse_tokens (between w) = Ok (between w') /\ reverse_tokens (between w') = Ok (between w) /\
  ogram o' w' /\ forall v, oclang o' v <-> oclang o (mirror v).
Proof.
  intros G F. destruct o as [r|].
  - destruct (gram_mirror GRegex r w G F) as (w' & r' & M & G' & L & _). exists w', (Some r'). split; [now apply reverse_between|].
    split; [apply reverse_between; now apply mirr_sym|]. split; [exact G'|exact L].
  - cbn in G. subst w. exists [], None. split; [reflexivity|]. split; [reflexivity|]. split; [reflexivity|]. intros v. cbn. symmetry. apply mirror_nil.
Qed.

(** ** The object *)
Definition turnable (t : list token) : Prop := t = [] \/ exists w o, t = between w /\ ogram o w /\ free_anchors w.
Lemma turn t : turnable t -> exists t', reverse_tokens t = Ok t' /\ reverse_tokens t' = Ok t.
Proof.
  intros [->|(w & o & -> & G & F)]; [exists []; auto|]. destruct (reverse_ok o w G F) as (w' & o' & A & B & _). eauto.
Qed.
Lemma turn_all l : Forall turnable l -> exists l', reverse_all l = Ok l' /\ reverse_all l' = Ok l.
Proof.
  induction 1 as [|t l H F (l' & E1 & E2)]; [exists []; auto|]. destruct (turn t H) as (t' & T1 & T2). exists (t' :: l').
  cbn. rewrite T1, E1. split; [reflexivity|]. cbn. now rewrite T2, E2.
Qed.
Lemma turn_states l : Forall (Forall turnable) l -> exists l', reverse_states l = Ok l' /\ reverse_states l' = Ok l.
Proof.
  induction 1 as [|t l H F (l' & E1 & E2)]; [exists []; auto|]. destruct (turn_all t H) as (t' & T1 & T2). exists (t' :: l').
  cbn. rewrite T1, E1. split; [reflexivity|]. cbn. now rewrite T2, E2.
Qed.
Lemma turn_macros m : Forall (fun e => turnable (snd e)) m -> exists m', reverse_macros m = Ok m' /\ reverse_macros m' = Ok m.
Proof.
  induction 1 as [|[n t] l H F (l' & E1 & E2)]; [exists []; auto|]. destruct (turn t H) as (t' & T1 & T2). exists ((n, t') :: l').
  cbn. rewrite T1, E1. split; [reflexivity|]. cbn. now rewrite T2, E2.
Qed.
Theorem reverse_twice r : Forall (Forall turnable) (ru_regexes r) -> Forall (fun e => turnable (snd e)) (ru_macros r) ->
  exists r', reverse r = Ok r' /\ reverse r' = Ok r.
Proof.
  intros H1 H2. destruct (turn_states _ H1) as (x & A1 & A2). destruct (turn_macros _ H2) as (m & B1 & B2). unfold reverse. rewrite A1, B1. cbn [bind].
  eexists. split; [reflexivity|]. cbn [ru_regexes ru_macros]. rewrite A2, B2. cbn [bind]. now destruct r.
Qed.
