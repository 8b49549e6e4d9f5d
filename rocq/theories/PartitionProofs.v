(** The partitioning loops: disjoint pieces, and every point carries the combined
    payload of exactly the inputs that contain it, in order. *)
From Verif Require Import Base StringToken StringTokenSpec StringTokenProofs Tree Partition.
From Coq Require Import Sorted.
Local Open Scope N_scope.

Section WL.
  Context {X P V : Type}.
  Variable empty : X -> bool.
  Variable inter : X -> X -> res (X * X * X).
  Variable good : X -> Prop.
  Variable pin : X -> P -> bool.
  Variable pay : X -> V.
  Variable comb : V -> V -> V.

  Hypothesis empty_spec : forall x, good x -> (empty x = true <-> forall c, pin x c = false).
  Hypothesis inter_spec : forall l r, good l -> good r ->
    exists l' r' ov, inter l r = Ok (l', r', ov) /\ good l' /\ good r' /\ good ov /\
      (forall c, pin ov c = pin l c && pin r c) /\
      (forall c, pin l' c = pin l c && negb (pin r c)) /\
      (forall c, pin r' c = pin r c && negb (pin l c)) /\
      (empty l' = false -> pay l' = pay l) /\
      (empty r' = false -> pay r' = pay r) /\
      (empty ov = false -> pay ov = comb (pay l) (pay r)).

  Definition get (l : list X) (c : P) : option V :=
    option_map pay (find (fun x => pin x c) l).
  Definition add (acc : option V) (v : V) : option V :=
    Some (match acc with Some a => comb a v | None => v end).
  Definition value (l : list X) (c : P) : option V :=
    fold_left (fun acc x => if pin x c then add acc (pay x) else acc) l None.

  Definition disj (x y : X) : Prop := forall c, pin x c = true -> pin y c = true -> False.
  Definition ok (l : list X) : Prop :=
    Forall (fun x => good x /\ empty x = false) l /\ ForallOrdPairs disj l.

  Lemma get_cons x l c : get (x :: l) c = if pin x c then Some (pay x) else get l c.
  Proof. unfold get. cbn. destruct (pin x c); reflexivity. Qed.
  Lemma get_none l c : get l c = None <-> forall x, In x l -> pin x c = false.
  Proof.
    induction l as [|x l IH]; [cbn; unfold get; cbn; split; [intros _ ? []|auto]|].
    rewrite get_cons. destruct (pin x c) eqn:E.
    - split; [discriminate|]. intros H. rewrite H in E; [discriminate|left; auto].
    - rewrite IH. split; intros H y; [intros [<-|Hy]; auto|intros Hy; apply H; right; auto].
  Qed.
  Lemma get_app l m c : get (l ++ m) c = match get l c with Some v => Some v | None => get m c end.
  Proof.
    induction l as [|x l IH]; [reflexivity|]. cbn [app]. rewrite !get_cons, IH.
    destruct (pin x c); reflexivity.
  Qed.

  Definition tail_of (r : X) : list X := if empty r then [] else [r].

  Lemma inner_ok lhs : forall r, ok lhs -> good r ->
    exists lhs' r', inner empty inter lhs r = Ok (lhs', r') /\ good r' /\
      ok (lhs' ++ tail_of r') /\
      forall c, get (lhs' ++ tail_of r') c =
                if pin r c then add (get lhs c) (pay r) else get lhs c.
  Proof.
    induction lhs as [|l rest IH]; intros r [HG HD] Hr.
    - exists [], r. split; [reflexivity|]. split; [auto|]. cbn [app]. split.
      + unfold tail_of. destruct (empty r) eqn:E; split; constructor; auto; constructor.
      + intros c. unfold tail_of. destruct (empty r) eqn:E.
        * rewrite (proj1 (empty_spec r Hr) E c). reflexivity.
        * rewrite get_cons. destruct (pin r c); reflexivity.
    - cbn [inner]. destruct (empty r) eqn:Er.
      { exists (l :: rest), r. split; [reflexivity|]. split; [auto|].
        unfold tail_of. rewrite Er, app_nil_r. split; [split; auto|].
        intros c. rewrite (proj1 (empty_spec r Hr) Er c). reflexivity. }
      inversion HG as [|? ? [Gl El] HG']; subst. inversion HD as [|? ? Dl HD']; subst.
      destruct (inter_spec l r Gl Hr) as (l' & r' & ov & E & Gl' & Gr' & Go & Po & Pl & Pr & Vl & Vr & Vo).
      rewrite E. cbn [bind].
      assert (OKR : ok rest) by (split; auto).
      destruct (IH r' OKR Gr') as (rest' & r2 & E2 & G2 & OK2 & V2).
      assert (Sub : forall x c, In x (rest' ++ tail_of r2) -> pin x c = true ->
                pin r' c = true \/ exists y, In y rest /\ pin y c = true).
      { intros x c Hx Hc. destruct (pin r' c) eqn:Er'; [auto|]. right.
        destruct (get rest c) eqn:Eg.
        - unfold get in Eg. destruct (find (fun x0 => pin x0 c) rest) eqn:Ef; [|discriminate].
          apply find_some in Ef as [Hi Hp]. eauto.
        - specialize (V2 c). rewrite Er', Eg in V2. apply (proj1 (get_none _ _)) with (x := x) in V2; auto.
          congruence. }
      assert (Dl' : forall x, (forall c, pin x c = true -> pin l c = true) ->
                Forall (disj x) (rest' ++ tail_of r2)).
      { intros x Hx. apply Forall_forall. intros y Hy c Hc1 Hc2.
        apply Hx in Hc1. destruct (Sub y c Hy Hc2) as [H|(z & Hz & H)].
        - rewrite Pr, Hc1 in H. now rewrite andb_false_r in H.
        - rewrite Forall_forall in Dl. apply (Dl z Hz c); auto. }
      destruct (empty ov) eqn:Eo; [|destruct (empty l') eqn:El'; [|destruct (empty r') eqn:Er']].
      + rewrite E2. cbn [bind fst snd]. do 2 eexists; split; [reflexivity|]. split; [auto|].
        assert (Hd : forall c, pin l c = true -> pin r c = false).
        { intros c Hc. pose proof (proj1 (empty_spec ov Go) Eo c) as H. rewrite Po, Hc in H. auto. }
        assert (Nl' : empty l' = false).
        { destruct (empty l') eqn:F; auto. rewrite <- El. symmetry. apply empty_spec; auto.
          intros c. destruct (pin l c) eqn:Hc; auto.
          pose proof (proj1 (empty_spec l' Gl') F c) as H. rewrite Pl, Hc, (Hd c Hc) in H. auto. }
        cbn [app]. split.
        * destruct OK2 as [OG OD]. split; constructor; auto. apply Dl'.
          intros c Hc. rewrite Pl in Hc. now apply andb_prop in Hc.
        * intros c. rewrite !get_cons, V2, Pl, Pr. destruct (pin l c) eqn:Hc.
          -- rewrite (Hd c Hc). cbn. now rewrite (Vl Nl').
          -- cbn. rewrite andb_true_r. destruct (pin r c) eqn:Hrc; [|auto].
             destruct (empty r') eqn:F.
             ++ pose proof (proj1 (empty_spec r' Gr') F c) as H.
                rewrite Pr, Hrc, Hc in H. discriminate.
             ++ now rewrite (Vr eq_refl).
      + rewrite E2. cbn [bind fst snd]. do 2 eexists; split; [reflexivity|]. split; [auto|].
        assert (Hs : forall c, pin l c = true -> pin r c = true).
        { intros c Hc. pose proof (proj1 (empty_spec l' Gl') El' c) as H. rewrite Pl, Hc in H.
          destruct (pin r c); auto. }
        cbn [app]. split.
        * destruct OK2 as [OG OD]. split; constructor; auto. apply Dl'.
          intros c Hc. rewrite Po in Hc. now apply andb_prop in Hc.
        * intros c. rewrite !get_cons, V2, Po, Pr. destruct (pin l c) eqn:Hc.
          -- rewrite (Hs c Hc). cbn. now rewrite (Vo eq_refl).
          -- cbn. rewrite andb_true_r. destruct (pin r c) eqn:Hrc; [|auto].
             destruct (empty r') eqn:F.
             ++ pose proof (proj1 (empty_spec r' Gr') F c) as H.
                rewrite Pr, Hrc, Hc in H. discriminate.
             ++ now rewrite (Vr eq_refl).
      + do 2 eexists; split; [reflexivity|]. split; [auto|].
        assert (Hs : forall c, pin r c = true -> pin l c = true).
        { intros c Hc. pose proof (proj1 (empty_spec r' Gr') Er' c) as H. rewrite Pr, Hc in H.
          destruct (pin l c); auto. }
        unfold tail_of. rewrite Eo. cbn [app]. split.
        * split.
          -- constructor; [auto|]. apply Forall_app. split; [auto|]. constructor; auto.
          -- constructor.
             ++ apply Forall_app. split.
                ** rewrite Forall_forall in *. intros y Hy c H1 H2. apply (Dl y Hy c); auto.
                   rewrite Pl in H1. now apply andb_prop in H1.
                ** constructor; [|constructor]. intros c H1 H2. rewrite Pl in H1. rewrite Po in H2.
                   apply andb_prop in H1 as [_ H1]. apply andb_prop in H2 as [_ H2].
                   rewrite H2 in H1. discriminate.
             ++ clear - HD' Dl Po. induction HD' as [|x xs Hx HD IHx]; cbn; [repeat constructor|].
                inversion Dl; subst. constructor; [|auto]. apply Forall_app. split; [auto|].
                constructor; [|constructor]. intros c H1' H2'. rewrite Po in H2'.
                apply andb_prop in H2' as [H2' _]. eauto.
        * intros c. rewrite !get_cons, get_app, Pl. destruct (pin l c) eqn:Hc.
          -- destruct (pin r c) eqn:Hrc; cbn; [|now rewrite (Vl eq_refl)].
             assert (Hn : get rest c = None).
             { apply get_none. intros y Hy. destruct (pin y c) eqn:Hyc; auto.
               rewrite Forall_forall in Dl. exfalso. apply (Dl y Hy c); auto. }
             rewrite Hn, get_cons, Po, Hc, Hrc. cbn. now rewrite (Vo eq_refl).
          -- cbn. destruct (pin r c) eqn:Hrc.
             ++ apply Hs in Hrc. congruence.
             ++ rewrite get_cons, Po, Hc. cbn. now destruct (get rest c).
      + rewrite E2. cbn [bind fst snd]. do 2 eexists; split; [reflexivity|]. split; [auto|].
        cbn [app]. split.
        * destruct OK2 as [OG OD]. split; [constructor; [auto|constructor; auto]|].
          constructor.
          -- constructor.
             ++ intros c H1 H2. rewrite Pl in H1. rewrite Po in H2.
                apply andb_prop in H1 as [_ H1]. apply andb_prop in H2 as [_ H2].
                rewrite H2 in H1. discriminate.
             ++ apply Dl'. intros c Hc. rewrite Pl in Hc. now apply andb_prop in Hc.
          -- constructor; [|auto]. apply Dl'. intros c Hc. rewrite Po in Hc.
             now apply andb_prop in Hc.
        * intros c. rewrite !get_cons, V2, Po, Pl, Pr. destruct (pin l c) eqn:Hc.
          -- destruct (pin r c) eqn:Hrc; cbn; [now rewrite (Vo eq_refl)|now rewrite (Vl eq_refl)].
          -- cbn. rewrite andb_true_r. destruct (pin r c); [now rewrite (Vr eq_refl)|auto].
  Qed.

  Lemma outer_ok rhs : forall lhs, ok lhs -> Forall (fun x => good x /\ empty x = false) rhs ->
    exists out, outer empty inter lhs rhs = Ok out /\ ok out /\
      forall c, get out c =
        fold_left (fun acc x => if pin x c then add acc (pay x) else acc) rhs (get lhs c).
  Proof.
    induction rhs as [|r rhs IH]; intros lhs HL HR.
    - exists lhs. auto.
    - inversion HR as [|? ? [Gr Er] HR']; subst.
      destruct (inner_ok lhs r HL Gr) as (lhs' & r' & E & G' & OK' & V').
      cbn [outer]. rewrite E. cbn [bind fst snd].
      assert (Ee : (if empty r' then lhs' else lhs' ++ [r']) = lhs' ++ tail_of r').
      { unfold tail_of. destruct (empty r'); [now rewrite app_nil_r|auto]. }
      rewrite Ee. destruct (IH _ OK' HR') as (out & E2 & OK2 & V2).
      exists out. split; [auto|]. split; [auto|]. intros c. rewrite V2, V'. reflexivity.
  Qed.

  Theorem worklist_ok xs : Forall (fun x => good x /\ empty x = false) xs ->
    exists out, worklist empty inter xs = Ok out /\ ok out /\ forall c, get out c = value xs c.
  Proof.
    destruct xs as [|x xs]; intros H.
    - exists []. split; [reflexivity|]. split; [split; constructor|reflexivity].
    - inversion H; subst. destruct (outer_ok xs [x]) as (out & E & OK & V'); auto.
      { split; repeat constructor; tauto. }
      exists out. split; [auto|]. split; [auto|]. intros c. rewrite V'. unfold value. cbn.
      rewrite get_cons. destruct (pin x c); reflexivity.
  Qed.
End WL.

(** ** Sorted lists as sets *)
Notation sorted := (StronglySorted N.lt).
Definition inb (x : N) (l : list N) : bool := existsb (N.eqb x) l.
Lemma inb_In x l : inb x l = true <-> In x l.
Proof.
  unfold inb. rewrite existsb_exists. split.
  - intros (y & Hy & E). apply N.eqb_eq in E. now subst.
  - intros H. exists x. split; [auto|]. apply N.eqb_refl.
Qed.
Lemma inb_not x l : inb x l = false <-> ~ In x l.
Proof. rewrite <- inb_In. destruct (inb x l); split; intuition congruence. Qed.

Lemma sins_In a l x : In x (sins a l) <-> x = a \/ In x l.
Proof.
  induction l as [|y l IH]; cbn; [intuition congruence|].
  destruct (N.ltb_spec a y); cbn; [intuition congruence|].
  destruct (N.eqb_spec a y); cbn; [subst; intuition congruence|]. rewrite IH.
  intuition congruence.
Qed.
Lemma sins_sorted a l : sorted l -> sorted (sins a l).
Proof.
  induction 1 as [|y l HS IH HF]; cbn; [repeat constructor|].
  destruct (N.ltb_spec a y).
  - constructor; [constructor; auto|]. constructor; [auto|]. rewrite Forall_forall in *.
    intros z Hz. apply HF in Hz. lia.
  - destruct (N.eqb_spec a y); [constructor; auto|]. constructor; [auto|].
    rewrite Forall_forall in *. intros z Hz. apply sins_In in Hz as [->|Hz]; [lia|auto].
Qed.
Lemma sins_fold_In is : forall l x,
  In x (fold_left (fun s i => sins i s) is l) <-> In x is \/ In x l.
Proof.
  induction is as [|i is IH]; cbn; intros l x; [tauto|]. rewrite IH, sins_In.
  intuition congruence.
Qed.
Lemma sins_fold_sorted is : forall l, sorted l -> sorted (fold_left (fun s i => sins i s) is l).
Proof.
  induction is as [|i is IH]; cbn; intros l H; [auto|]. apply IH, sins_sorted, H.
Qed.
Lemma sorted_cons_inv x l : sorted (x :: l) -> sorted l /\ forall y, In y l -> x < y.
Proof.
  intros H. inversion H as [|? ? HS HF]; subst. split; [auto|]. now apply Forall_forall.
Qed.

Lemma sinter_cons x l y r : sinter (x :: l) (y :: r) =
  if x <? y then sinter l (y :: r) else if y <? x then sinter (x :: l) r else x :: sinter l r.
Proof. reflexivity. Qed.
Lemma sinter_nil_r l : sinter l [] = [].
Proof. destruct l; reflexivity. Qed.
Lemma sinter_nil_l r : sinter [] r = [].
Proof. destruct r; reflexivity. Qed.
Lemma sinter_spec l : forall r, sorted l -> sorted r ->
  sorted (sinter l r) /\ forall x, In x (sinter l r) <-> In x l /\ In x r.
Proof.
  induction l as [|x l IHl]; intros r Hl Hr.
  { rewrite sinter_nil_l. split; [constructor|cbn; tauto]. }
  induction r as [|y r IHr].
  { rewrite sinter_nil_r. split; [constructor|cbn; tauto]. }
  rewrite sinter_cons. apply sorted_cons_inv in Hl as Hl'. destruct Hl' as [Sl Fl].
  apply sorted_cons_inv in Hr as Hr'. destruct Hr' as [Sr Fr].
  destruct (N.ltb_spec x y); [|destruct (N.ltb_spec y x)].
  - destruct (IHl (y :: r) Sl Hr) as [H1 H2]. split; [auto|]. intros z. rewrite H2. cbn.
    split; [tauto|]. intros [[->|Hz] [->|Hy]]; auto; try lia. apply Fr in Hy. lia.
  - destruct (IHr Sr) as [H1 H2]. split; [auto|]. intros z. rewrite H2. cbn.
    split; [tauto|]. intros [[->|Hz] [->|Hy]]; auto; try lia. apply Fl in Hz. lia.
  - assert (x = y) by lia. subst y. destruct (IHl r Sl Sr) as [H1 H2]. split.
    + constructor; [auto|]. apply Forall_forall. intros z Hz. apply H2 in Hz. apply Fl, Hz.
    + intros z. cbn. rewrite H2. split; [intuition congruence|].
      intros [[->|Hz] [Hy|Hy]]; auto; subst; auto.
Qed.

Lemma rm_loop_len src : forall dest d, rm_loop src dest = Ok d ->
  (length d + length src = length dest)%nat.
Proof.
  assert (H : forall dest src d, rm_loop src dest = Ok d ->
    (length d + length src = length dest)%nat).
  { induction dest as [|x dest IH]; intros src0 d; destruct src0 as [|y src0]; cbn [rm_loop].
    - intros E; injection E as <-. reflexivity.
    - discriminate.
    - intros E; injection E as <-. cbn; lia.
    - destruct (x =? y).
      + intros E. apply IH in E. cbn in *. lia.
      + destruct (rm_loop (y :: src0) dest) eqn:F; try discriminate. cbn [bind].
        intros E; injection E as <-. apply IH in F. cbn in *. lia. }
  intros dest d. apply H.
Qed.
Lemma rm_loop_spec dest : forall src, sorted src -> sorted dest ->
  (forall x, In x src -> In x dest) ->
  exists d, rm_loop src dest = Ok d /\ sorted d /\
    forall x, In x d <-> In x dest /\ ~ In x src.
Proof.
  induction dest as [|x dest IH]; intros src Hs Hd Hi.
  - destruct src as [|y src]; [|destruct (Hi y); left; auto].
    exists []. split; [reflexivity|]. split; [constructor|]. cbn. tauto.
  - destruct src as [|y src].
    { exists (x :: dest). split; [reflexivity|]. split; [auto|]. cbn. tauto. }
    apply sorted_cons_inv in Hs as Hs'. destruct Hs' as [Ss Fs].
    apply sorted_cons_inv in Hd as Hd'. destruct Hd' as [Sd Fd].
    cbn [rm_loop]. destruct (N.eqb_spec x y) as [->|Hn].
    + destruct (IH src Ss Sd) as (d & E & Sd' & H).
      { intros z Hz. destruct (Hi z) as [->|H]; [right; auto|apply Fs in Hz; lia|auto]. }
      exists d. split; [auto|]. split; [auto|]. intros z. rewrite H. cbn.
      split.
      * intros [Hz Hnz]. split; [auto|]. intros [->|Hz']; [|auto]. apply Fd in Hz. lia.
      * intros [[->|Hz] Hnz]; [exfalso; apply Hnz; auto|]. split; [auto|]. intros Hz'. apply Hnz; auto.
    + assert (Hy : In y dest) by (destruct (Hi y); [left; auto|congruence|auto]).
      assert (x < y) by (now apply Fd).
      destruct (IH (y :: src) Hs Sd) as (d & E & Sd' & H').
      { intros z Hz. destruct (Hi z Hz) as [->|]; [|auto]. destruct Hz as [->|Hz]; [lia|].
        apply Fs in Hz. lia. }
      rewrite E. exists (x :: d). split; [reflexivity|]. split.
      * constructor; [auto|]. apply Forall_forall. intros z Hz. apply H' in Hz. apply Fd, Hz.
      * intros z. cbn [In]. rewrite H'. cbn [In]. split.
        -- intros [<-|[H1 H2]]; [|tauto]. split; [auto|]. intros [->|Hz]; [lia|].
           apply Fs in Hz. lia.
        -- intros [[->|H1] H2]; auto.
Qed.
Lemma find_split_spec y dest : In y dest ->
  exists a b, find_split y dest = (a, y :: b) /\ dest = a ++ y :: b /\ ~ In y a.
Proof.
  induction dest as [|x dest IH]; [easy|]. cbn [find_split]. intros H.
  destruct (N.eqb_spec x y) as [->|Hn].
  - exists [], dest. split; [auto|]. split; [auto|]. intros [].
  - destruct H as [->|H]; [congruence|]. destruct (IH H) as (a & b & E & -> & Hy).
    rewrite E. exists (x :: a), b. cbn. split; [auto|]. split; [auto|]. intros [->|Ha]; auto.
Qed.
Lemma sorted_app_inv a : forall b, sorted (a ++ b) ->
  sorted a /\ sorted b /\ forall x y, In x a -> In y b -> x < y.
Proof.
  induction a as [|x a IH]; cbn; intros b H.
  - split; [constructor|]. split; [auto|]. intros ? ? [].
  - apply sorted_cons_inv in H as [H F]. apply IH in H as (H1 & H2 & H3).
    split; [constructor; auto; apply Forall_forall; intros z Hz; apply F, in_or_app; auto|].
    split; [auto|]. intros u v [->|Hu] Hv; [apply F, in_or_app; auto|auto].
Qed.
Lemma sorted_app a : forall b, sorted a -> sorted b ->
  (forall x y, In x a -> In y b -> x < y) -> sorted (a ++ b).
Proof.
  induction a as [|x a IH]; cbn; intros b Ha Hb H; [auto|].
  apply sorted_cons_inv in Ha as [Ha F]. constructor.
  - apply IH; auto.
  - apply Forall_forall. intros z Hz. apply in_app_or in Hz as [Hz|Hz]; auto.
Qed.

Lemma vremove_spec src dest : src <> [] -> sorted src -> sorted dest ->
  (forall x, In x src -> In x dest) ->
  exists d, vremove src dest = Ok d /\ sorted d /\
    forall x, In x d <-> In x dest /\ ~ In x src.
Proof.
  intros Hne Hs Hd Hi. destruct src as [|y src]; [congruence|]. unfold vremove.
  destruct (find_split_spec y dest) as (a & b & E & -> & Hy); [apply Hi; left; auto|].
  rewrite E. cbn [fst snd].
  apply sorted_app_inv in Hd as (Sa & Sb & Hab).
  apply sorted_cons_inv in Hs as Hs'. destruct Hs' as [Ss Fs].
  destruct (rm_loop_spec (y :: b) (y :: src) Hs Sb) as (d & Ed & Sd & HD).
  { intros x Hx. specialize (Hi x Hx). apply in_app_or in Hi as [Ha|Hb]; [|auto].
    assert (x < y) by (apply Hab; [auto|left; auto]).
    destruct Hx as [->|Hx]; [lia|]. apply Fs in Hx. lia. }
  rewrite Ed. cbn [bind].
  assert (L : (length (a ++ y :: b) - length (y :: src) = length (a ++ d))%nat).
  { apply rm_loop_len in Ed. rewrite !app_length. cbn in *. lia. }
  rewrite L. exists (a ++ d). split; [|split].
  - f_equal. rewrite firstn_app, Nat.sub_diag, firstn_all. cbn. now rewrite app_nil_r.
  - apply sorted_app; auto. intros u v Hu Hv. apply HD in Hv. apply Hab; [auto|tauto].
  - intros x. rewrite in_app_iff, HD, in_app_iff. split.
    + intros [Ha|H]; [|tauto]. split; [auto|]. intros Hx.
      assert (x < y) by (apply Hab; [auto|left; auto]).
      destruct Hx as [->|Hx]; [lia|]. apply Fs in Hx. lia.
    + tauto.
Qed.

(** ** Charsets *)
Definition cs_good (c : charset) : Prop :=
  wf (cs_token c) /\ (cs_token c = [] -> cs_index c = []).
Definition cs_pin (x : charset) (c : N) : bool := memb c (cs_token x).
Definition cs_comb (a b : list N) : list N :=
  fold_left (fun s i => sins i s) b (fold_left (fun s i => sins i s) a []).

Lemma memb_not c t : memb c t = false <-> ~ mem c t.
Proof. rewrite <- memb_mem. destruct (memb c t); split; intuition congruence. Qed.
Lemma wf_no_mem t : wf t -> (forall c, ~ mem c t) -> t = [].
Proof.
  destruct t as [|(a, b) t]; [auto|]. intros (_ & H & _) Hn. exfalso. apply (Hn a).
  exists a, b. split; [left; auto|]. lia.
Qed.

Lemma cs_empty_spec x : cs_good x -> (cs_empty x = true <-> forall c, cs_pin x c = false).
Proof.
  intros [W HI]. unfold cs_empty, cs_pin. split.
  - destruct (cs_token x); [|discriminate]. reflexivity.
  - intros H. assert (E : cs_token x = []).
    { apply wf_no_mem; auto. intros c. apply memb_not, H. }
    rewrite E, (HI E). reflexivity.
Qed.

Lemma bool_iff (a b : bool) : (a = true <-> b = true) -> a = b.
Proof. destruct a, b; intuition congruence. Qed.

Lemma cs_inter_spec l r : cs_good l -> cs_good r ->
    exists l' r' ov, cs_intersect l r = Ok (l', r', ov) /\ cs_good l' /\ cs_good r' /\ cs_good ov /\
      (forall c, cs_pin ov c = cs_pin l c && cs_pin r c) /\
      (forall c, cs_pin l' c = cs_pin l c && negb (cs_pin r c)) /\
      (forall c, cs_pin r' c = cs_pin r c && negb (cs_pin l c)) /\
      (cs_empty l' = false -> cs_index l' = cs_index l) /\
      (cs_empty r' = false -> cs_index r' = cs_index r) /\
      (cs_empty ov = false -> cs_index ov = cs_comb (cs_index l) (cs_index r)).
Proof.
  intros [Wl Il] [Wr Ir]. unfold cs_intersect, cs_pin.
  destruct (intersect_correct (cs_token l) (cs_token r) [] Wl Wr I)
    as (lt & rt & ot & E & W1 & W2 & W3 & M1 & M2 & M3).
  rewrite E. cbn [bind].
  assert (P1 : forall c, memb c ot = memb c (cs_token l) && memb c (cs_token r)).
  { intros c. apply bool_iff. rewrite andb_true_iff, !memb_mem, M3, mem_nil. tauto. }
  assert (P2 : forall c, memb c lt = memb c (cs_token l) && negb (memb c (cs_token r))).
  { intros c. apply bool_iff. rewrite andb_true_iff, negb_true_iff, memb_not, !memb_mem, M1. tauto. }
  assert (P3 : forall c, memb c rt = memb c (cs_token r) && negb (memb c (cs_token l))).
  { intros c. apply bool_iff. rewrite andb_true_iff, negb_true_iff, memb_not, !memb_mem, M2. tauto. }
  assert (Q : ot = [] -> forall c, ~ (mem c (cs_token l) /\ mem c (cs_token r))).
  { intros -> c Hc. apply (proj1 (mem_nil c)), M3. auto. }
  destruct ot as [|o ot].
  - do 3 eexists. split; [reflexivity|]. cbn [cs_token cs_index cs_empty].
    assert (G1 : lt = [] -> cs_token l = []).
    { intros ->. apply wf_no_mem; auto. intros c Hc.
      assert (mem c []) as X by (apply M1; split; [auto|]; intros Hr; apply (Q eq_refl c); auto).
      now apply mem_nil in X. }
    assert (G2 : rt = [] -> cs_token r = []).
    { intros ->. apply wf_no_mem; auto. intros c Hc.
      assert (mem c []) as X by (apply M2; split; [auto|]; intros Hr; apply (Q eq_refl c); auto).
      now apply mem_nil in X. }
    repeat split; cbn [cs_token cs_index]; auto. discriminate.
  - do 3 eexists. split; [reflexivity|].
    repeat split; cbn [cs_token cs_index]; auto; try (intros ->; reflexivity); try discriminate.
    + unfold cs_empty. cbn [cs_token cs_index]. destruct lt; [discriminate|reflexivity].
    + unfold cs_empty. cbn [cs_token cs_index]. destruct rt; [discriminate|reflexivity].
Qed.

(** ** Equivsets *)
Definition eq_good (q : equivset) : Prop :=
  sorted (q_index q) /\ (q_index q = [] -> q_follow q = []).
Definition eq_pin (q : equivset) (c : N) : bool := inb c (q_index q).
Definition eq_pay (q : equivset) : greedy * list nat := (q_greedy q, q_follow q).
Definition eq_comb (a b : greedy * list nat) : greedy * list nat :=
  (process_greedy (fst a) (fst b), fold_left add_follow (snd b) (snd a)).

Lemma eq_empty_spec x : eq_good x -> (eq_empty x = true <-> forall c, eq_pin x c = false).
Proof.
  intros [S HI]. unfold eq_empty, eq_pin. split.
  - destruct (q_index x); [|discriminate]. reflexivity.
  - intros H. assert (E : q_index x = []).
    { destruct (q_index x) as [|a l]; [auto|]. specialize (H a). cbn in H.
      rewrite N.eqb_refl in H. discriminate. }
    rewrite E, (HI E). reflexivity.
Qed.

Lemma eq_inter_spec l r : eq_good l -> eq_good r ->
    exists l' r' ov, eq_intersect l r = Ok (l', r', ov) /\ eq_good l' /\ eq_good r' /\ eq_good ov /\
      (forall c, eq_pin ov c = eq_pin l c && eq_pin r c) /\
      (forall c, eq_pin l' c = eq_pin l c && negb (eq_pin r c)) /\
      (forall c, eq_pin r' c = eq_pin r c && negb (eq_pin l c)) /\
      (eq_empty l' = false -> eq_pay l' = eq_pay l) /\
      (eq_empty r' = false -> eq_pay r' = eq_pay r) /\
      (eq_empty ov = false -> eq_pay ov = eq_comb (eq_pay l) (eq_pay r)).
Proof.
  intros [Wl Il] [Wr Ir]. unfold eq_intersect.
  destruct (sinter_spec (q_index l) (q_index r) Wl Wr) as [So Ho].
  destruct (sinter (q_index l) (q_index r)) as [|o ov] eqn:Eo.
  - exists l, r. eexists. split; [reflexivity|]. split; [split; auto|]. split; [split; auto|].
    split; [split; [constructor|reflexivity]|]. unfold eq_pin.
    assert (D : forall c, inb c (q_index l) && inb c (q_index r) = false).
    { intros c. apply not_true_is_false. rewrite andb_true_iff, !inb_In. intros H.
      now apply Ho in H. }
    split; [intros c; now rewrite D|].
    repeat split; auto; try discriminate; intros c; specialize (D c);
      destruct (inb c (q_index l)), (inb c (q_index r)); auto.
  - destruct (vremove_spec (o :: ov) (q_index l)) as (li & El & Sl & Hl); auto;
      [discriminate|intros x Hx; now apply Ho in Hx|].
    destruct (vremove_spec (o :: ov) (q_index r)) as (ri & Er & Sr & Hr); auto;
      [discriminate|intros x Hx; now apply Ho in Hx|].
    rewrite El, Er. cbn [bind]. do 3 eexists. split; [reflexivity|].
    split; [split; cbn [q_index q_follow]; [auto|intros ->; reflexivity]|].
    split; [split; cbn [q_index q_follow]; [auto|intros ->; reflexivity]|].
    split; [split; cbn [q_index q_follow]; [auto|discriminate]|].
    unfold eq_pin. cbn [q_index q_follow].
    split; [intros c; apply bool_iff; rewrite andb_true_iff, !inb_In; apply Ho|].
    split; [intros c; apply bool_iff; rewrite andb_true_iff, negb_true_iff, inb_not, !inb_In, Hl, Ho;
            tauto|].
    split; [intros c; apply bool_iff; rewrite andb_true_iff, negb_true_iff, inb_not, !inb_In, Hr, Ho;
            tauto|].
    unfold eq_empty, eq_pay. cbn [q_index q_follow q_greedy].
    split; [destruct li; [discriminate|reflexivity]|].
    split; [destruct ri; [discriminate|reflexivity]|]. reflexivity.
Qed.

(** The two theorems *)
Definition cs_get := get cs_pin cs_index.
Definition cs_value := value cs_pin cs_index cs_comb.
Definition cs_ok := ok cs_empty cs_good cs_pin.
Theorem partition_ok m : Forall (fun p => wf (fst p) /\ fst p <> []) m ->
  exists out, partition_charsets m = Ok out /\ cs_ok out /\
    forall c, cs_get out c = cs_value (fill_charsets m) c.
Proof.
  intros H. unfold partition_charsets.
  apply (worklist_ok cs_empty cs_intersect cs_good cs_pin cs_index cs_comb);
    [apply cs_empty_spec|apply cs_inter_spec|].
  unfold fill_charsets. apply Forall_map. eapply Forall_impl; [|exact H]. intros (t, i) [W Hn].
  cbn in *. split; [split; cbn; [auto|intros; congruence]|]. unfold cs_empty. cbn.
  destruct t; [congruence|reflexivity].
Qed.

Definition eq_get := get eq_pin eq_pay.
Definition eq_value := value eq_pin eq_pay eq_comb.
Definition eq_ok := ok eq_empty eq_good eq_pin.
Theorem equivs_ok qs : Forall (fun q => sorted (q_index q) /\ q_index q <> []) qs ->
  exists out, worklist eq_empty eq_intersect qs = Ok out /\ eq_ok out /\
    forall c, eq_get out c = eq_value qs c.
Proof.
  intros H. apply (worklist_ok eq_empty eq_intersect eq_good eq_pin eq_pay eq_comb);
    [apply eq_empty_spec|apply eq_inter_spec|].
  eapply Forall_impl; [|exact H]. intros q [S Hn]. split; [split; [auto|intros; congruence]|].
  unfold eq_empty. destruct (q_index q); [congruence|reflexivity].
Qed.
