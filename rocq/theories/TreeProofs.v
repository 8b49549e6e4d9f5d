(** The tree building operations keep followpos exact and denote what the regex
    operators mean. *)
From Verif Require Import Base Tree RegexSpec TreeSpec Glushkov.
From Coq Require Import Lia Permutation.

Definition okn (s : store) (n : node) : Prop :=
  pure n = true /\ NoDup (poss n) /\
  forall p t, In (p, t) (leaves n) ->
    exists g f, nth_error s p = Some (PLeaf t g f) /\ forall q, In q f <-> fol n p q.

(** [s'] extends [s] and differs from it only at positions of [X]; the node [n']
    uses only positions of [X] and new ones. *)
Definition step (X : list nat) (s : store) (n' : node) (s' : store) : Prop :=
  okn s' n' /\ (length s <= length s')%nat /\
  (forall p, (p < length s)%nat -> ~ In p X -> nth_error s' p = nth_error s p) /\
  (forall p, In p (poss n') -> In p X \/ (length s <= p)%nat).

(** The trees [ns] are exact and share no position; they were all made after
    [s0], and what was in [s0] is untouched. *)
Definition twf (s0 : store) (ns : list node) (s : store) : Prop :=
  Forall (okn s) ns /\ NoDup (concat (map poss ns)) /\
  (length s0 <= length s)%nat /\
  (forall p, (p < length s0)%nat -> nth_error s p = nth_error s0 p) /\
  (forall p, In p (concat (map poss ns)) -> (length s0 <= p)%nat).

Lemma okn_lt s n p : okn s n -> In p (poss n) -> (p < length s)%nat.
Proof.
  intros (_ & _ & H) Hp. unfold poss in Hp. apply in_map_iff in Hp as ((q, t) & <- & Hp).
  apply H in Hp as (g & f & E & _). apply nth_error_Some. cbn. congruence.
Qed.
Lemma okn_frame s s' n : okn s n ->
  (forall p, In p (poss n) -> nth_error s' p = nth_error s p) -> okn s' n.
Proof.
  intros (P & ND & H) F. split; [auto|]. split; [auto|]. intros p t Hp.
  rewrite F; auto. apply (in_map fst) in Hp. exact Hp.
Qed.
Lemma okn_leaf_ok s n p : okn s n -> In p (poss n) -> is_leaf s p = true.
Proof.
  intros (_ & _ & H) Hp. unfold poss in Hp. apply in_map_iff in Hp as ((q, t) & <- & Hp).
  apply H in Hp as (g & f & E & _). unfold is_leaf. cbn. now rewrite E.
Qed.

(** ** The loops over positions *)
Lemma append_follow_len fs ps s : length (fold_left (append_follow fs) ps s) = length s.
Proof.
  revert s. induction ps as [|p ps IH]; cbn; intros s; [auto|]. rewrite IH.
  unfold append_follow. destruct (nth_error s p) as [[]|]; auto. apply upd_length.
Qed.
Lemma append_follow_out fs ps s p : ~ In p ps ->
  nth_error (fold_left (append_follow fs) ps s) p = nth_error s p.
Proof.
  revert s. induction ps as [|q ps IH]; cbn; intros s H; [auto|]. rewrite IH by tauto.
  unfold append_follow. destruct (nth_error s q) as [[]|]; auto.
  rewrite nth_error_upd_neq; auto.
Qed.
Lemma append_follow_in fs ps s p t g f : nth_error s p = Some (PLeaf t g f) ->
  exists f', nth_error (fold_left (append_follow fs) ps s) p = Some (PLeaf t g f') /\
    forall q, In q f' <-> In q f \/ (In p ps /\ In q fs).
Proof.
  revert s f. induction ps as [|r ps IH]; cbn; intros s f E.
  - exists f. split; [auto|]. tauto.
  - destruct (Nat.eq_dec r p) as [->|Hn].
    + destruct (IH (append_follow fs s p) (f ++ fs)) as (f' & E' & H').
      { unfold append_follow. rewrite E. apply nth_error_upd_eq. apply nth_error_Some. congruence. }
      exists f'. split; [auto|]. intros q. rewrite H', in_app_iff. tauto.
    + destruct (IH (append_follow fs s r) f) as (f' & E' & H').
      { unfold append_follow. destruct (nth_error s r) as [[]|]; auto. rewrite nth_error_upd_neq; auto. }
      exists f'. split; [auto|]. intros q. rewrite H'. tauto.
Qed.
Lemma set_greedy_len g ps s : length (fold_left (set_greedy g) ps s) = length s.
Proof.
  revert s. induction ps as [|p ps IH]; cbn; intros s; [auto|]. rewrite IH.
  unfold set_greedy. destruct (nth_error s p) as [[]|]; auto. apply upd_length.
Qed.
Lemma set_greedy_out g ps s p : ~ In p ps ->
  nth_error (fold_left (set_greedy g) ps s) p = nth_error s p.
Proof.
  revert s. induction ps as [|q ps IH]; cbn; intros s H; [auto|]. rewrite IH by tauto.
  unfold set_greedy. destruct (nth_error s q) as [[]|]; auto.
  rewrite nth_error_upd_neq; auto.
Qed.
Lemma set_greedy_in g ps s p t g0 f : nth_error s p = Some (PLeaf t g0 f) ->
  exists g', nth_error (fold_left (set_greedy g) ps s) p = Some (PLeaf t g' f).
Proof.
  revert s g0. induction ps as [|r ps IH]; cbn; intros s g0 E; [eauto|].
  destruct (Nat.eq_dec r p) as [->|Hn].
  - eapply IH. unfold set_greedy. rewrite E. apply nth_error_upd_eq. apply nth_error_Some. congruence.
  - eapply IH. unfold set_greedy. destruct (nth_error s r) as [[]|]; eauto.
    rewrite nth_error_upd_neq; eauto.
Qed.

Lemma set_greedies_ok s n g : okn s n ->
  exists s', set_greedies s (firstpos n) g = Ok s' /\ step (poss n) s n s'.
Proof.
  intros H. unfold set_greedies.
  rewrite (proj2 (forallb_forall _ _)).
  2:{ intros p Hp. eapply okn_leaf_ok; eauto. apply firstpos_poss; [apply H|auto]. }
  eexists; split; [reflexivity|]. split; [|split; [|split]].
  - destruct H as (P & ND & H). split; [auto|]. split; [auto|]. intros p t Hp.
    apply H in Hp as (g0 & f & E & Hf).
    destruct (set_greedy_in g (firstpos n) s p t g0 f E) as (g' & E'). eauto.
  - rewrite set_greedy_len. auto.
  - intros p _ Hp. apply set_greedy_out. intros Hi. apply Hp, firstpos_poss; auto. apply H.
  - auto.
Qed.

(** ** Constructors *)
Lemma poss_app l r : map fst (leaves l ++ leaves r) = poss l ++ poss r.
Proof. apply map_app. Qed.

Lemma mk_leaf_ok s npos t g n' s' : mk_leaf npos t g s = (n', s') ->
  step [] s n' s'.
Proof.
  unfold mk_leaf. destruct (N.eqb t npos); intros E; injection E as <- <-.
  - split; [|split; [|split]]; auto.
    split; [auto|]. split; [constructor|]. intros ? ? [].
  - split; [|split; [|split]]; auto.
    + split; [auto|]. split; [repeat constructor; auto|].
      intros p u [H|[]]. injection H as <- <-. exists g, [].
      rewrite nth_error_app2, Nat.sub_diag by lia. cbn. split; [auto|]. tauto.
    + rewrite app_length. lia.
    + intros p Hp _. apply nth_error_app1; auto.
    + intros p [<-|[]]. auto.
Qed.

Lemma mk_seq_ok s l r : okn s l -> okn s r -> NoDup (poss l ++ poss r) ->
  exists s', mk_seq l r s = Ok (NSeq l r, s') /\ step (poss l ++ poss r) s (NSeq l r) s'.
Proof.
  intros Hl Hr ND. unfold mk_seq, append_follows.
  rewrite (proj2 (forallb_forall _ _)).
  2:{ intros p Hp. apply (okn_leaf_ok s l); auto. apply lastpos_poss; [apply Hl|auto]. }
  cbn [bind]. eexists; split; [reflexivity|].
  pose proof (NoDup_app_disj _ _ ND) as D.
  destruct Hl as (Pl & Nl & Hl), Hr as (Pr & Nr & Hr).
  split; [|split; [|split]].
  - split; [cbn; now rewrite Pl, Pr|]. split; [unfold poss; cbn; now rewrite poss_app|].
    intros p t Hp. cbn in Hp. apply in_app_or in Hp as [Hp|Hp].
    + pose proof (in_map fst _ _ Hp) as Hi. cbn in Hi.
      apply Hl in Hp as (g & f & E & Hf).
      destruct (append_follow_in (firstpos r) (lastpos l) s p t g f E) as (f' & E' & Hf').
      exists g, f'. split; [auto|]. intros q. rewrite Hf', Hf. cbn.
      split; [tauto|]. intros [H|[H|H]]; auto. apply fol_poss in H as [H _]; auto.
      exfalso; eapply D; eauto.
    + pose proof (in_map fst _ _ Hp) as Hi. cbn in Hi.
      apply Hr in Hp as (g & f & E & Hf).
      destruct (append_follow_in (firstpos r) (lastpos l) s p t g f E) as (f' & E' & Hf').
      exists g, f'. split; [auto|]. intros q. rewrite Hf', Hf. cbn.
      split; [tauto|]. intros [H|[H|H]]; auto. apply fol_poss in H as [H _]; auto.
      exfalso; eapply D; eauto.
  - rewrite append_follow_len. auto.
  - intros p _ Hp. apply append_follow_out. intros Hi. apply Hp, in_or_app. left.
    apply lastpos_poss; auto.
  - intros p Hp. left. unfold poss in Hp; cbn in Hp. now rewrite poss_app in Hp.
Qed.

Lemma mk_sel_ok s l r : okn s l -> okn s r -> NoDup (poss l ++ poss r) -> okn s (NSel l r).
Proof.
  intros (Pl & Nl & Hl) (Pr & Nr & Hr) ND. pose proof (NoDup_app_disj _ _ ND) as D.
  split; [cbn; now rewrite Pl, Pr|]. split; [unfold poss; cbn; now rewrite poss_app|].
  intros p t Hp. cbn in Hp. apply in_app_or in Hp as [Hp|Hp];
    pose proof (in_map fst _ _ Hp) as Hi; cbn in Hi.
  - apply Hl in Hp as (g & f & E & Hf). exists g, f. split; [auto|]. intros q. rewrite Hf. cbn.
    split; [tauto|]. intros [H|H]; auto. apply fol_poss in H as [H _]; auto.
    exfalso; eapply D; eauto.
  - apply Hr in Hp as (g & f & E & Hf). exists g, f. split; [auto|]. intros q. rewrite Hf. cbn.
    split; [tauto|]. intros [H|H]; auto. apply fol_poss in H as [H _]; auto.
    exfalso; eapply D; eauto.
Qed.

Lemma mk_iter_ok s n g : okn s n ->
  exists s', mk_iter n g s = Ok (NIter n g, s') /\ step (poss n) s (NIter n g) s'.
Proof.
  intros Hn. unfold mk_iter, append_follows.
  rewrite (proj2 (forallb_forall _ _)).
  2:{ intros p Hp. eapply okn_leaf_ok; eauto. apply lastpos_poss; [apply Hn|auto]. }
  cbn [bind].
  set (s1 := fold_left (append_follow (firstpos n)) (lastpos n) s).
  assert (L : forall p, In p (poss n) -> is_leaf s1 p = true).
  { intros p Hp. destruct Hn as (_ & _ & H). unfold poss in Hp.
    apply in_map_iff in Hp as ((q, t) & <- & Hp). apply H in Hp as (g0 & f & E & _).
    destruct (append_follow_in (firstpos n) (lastpos n) s _ t g0 f E) as (f' & E' & _).
    unfold is_leaf, s1. cbn. now rewrite E'. }
  unfold set_greedies. rewrite (proj2 (forallb_forall _ _)).
  2:{ intros p Hp. apply L, firstpos_poss; [apply Hn|auto]. }
  cbn [bind]. eexists; split; [reflexivity|].
  destruct Hn as (P & ND & H). split; [|split; [|split]].
  - split; [auto|]. split; [auto|]. intros p t Hp. cbn in Hp.
    apply H in Hp as (g0 & f & E & Hf).
    destruct (append_follow_in (firstpos n) (lastpos n) s p t g0 f E) as (f' & E' & Hf').
    destruct (set_greedy_in g (firstpos n) s1 p t g0 f' E') as (g' & E'').
    exists g', f'. split; [auto|]. intros q. rewrite Hf', Hf. cbn. tauto.
  - unfold s1. rewrite set_greedy_len, append_follow_len. auto.
  - intros p _ Hp. unfold s1. rewrite set_greedy_out, append_follow_out; auto;
      intros Hi; apply Hp; [apply lastpos_poss|apply firstpos_poss]; auto.
  - auto.
Qed.

(** ** copy *)
Fixpoint copy_rec (n : node) (s : store) : res (node * store) :=
  match n with
  | NSeq l r => do a <- copy_rec l s; do b <- copy_rec r (snd a); mk_seq (fst a) (fst b) (snd b)
  | NSel l r => do a <- copy_rec l s; do b <- copy_rec r (snd a); Ok (NSel (fst a) (fst b), snd b)
  | NIter m g => do a <- copy_rec m s; mk_iter (fst a) g (snd a)
  | _ => copy_leaf s n
  end.

Definition cst nodes ops down new s :=
  {| cs_nodes := nodes; cs_ops := ops; cs_down := down; cs_new := new; cs_store := s |}.

(** Number of iterations spent on a node that is reached with down_ set. *)
Fixpoint csteps (n : node) : nat :=
  match n with
  | NSeq l r | NSel l r =>
    S (csteps l + (if compound r then S (csteps r) else 1) + 1)
  | NIter m _ => S (csteps m + 1)
  | _ => 2
  end.

Definition copies (n : node) : Prop := forall rest ops new s f,
    copy_loop (csteps n + f) (cst (n :: rest) ops true new s) =
    do p <- copy_rec n s; copy_loop f (cst rest ops false (fst p :: new) (snd p)).

Lemma bind_assoc {A B C} (x : res A) (f : A -> res B) (g : B -> res C) :
  (do y <- (do a <- x; f a); g y) = do a <- x; do y <- f a; g y.
Proof. destruct x; reflexivity. Qed.
Lemma bind_ext {A B} (x : res A) (f g : A -> res B) :
  (forall a, f a = g a) -> (do a <- x; f a) = do a <- x; g a.
Proof. intros H. destruct x; cbn; auto. Qed.

Lemma copy_loop_down f nodes top ops new s :
  copy_loop (S f) (cst (top :: nodes) ops true new s) =
  copy_loop f (traverse (cst (top :: nodes) ops true new s) top).
Proof. reflexivity. Qed.
Lemma copy_loop_up f nodes top ops new s :
  copy_loop (S f) (cst (top :: nodes) ops false new s) =
  do c' <- copy_step (cst (top :: nodes) ops false new s) top nodes; copy_loop f c'.
Proof. reflexivity. Qed.

(** The right child, reached with down_ cleared. *)
Lemma copies_right r : pure r = true -> copies r -> forall rest ops new s f,
    copy_loop ((if compound r then S (csteps r) else 1) + f)
      (cst (r :: rest) ((if compound r then [false; true] else [true]) ++ ops) false new s) =
    do p <- copy_rec r s; copy_loop f (cst rest (true :: ops) false (fst p :: new) (snd p)).
Proof.
  intros P H rest ops new s f. destruct (compound r) eqn:C.
  - specialize (H rest (true :: ops) new s f).
    cbn [Nat.add app]. rewrite copy_loop_up, <- H.
    destruct r; try discriminate; reflexivity.
  - cbn [Nat.add app]. rewrite copy_loop_up.
    destruct r; try discriminate; cbn [copy_step copy_rec cst cs_store]; rewrite bind_assoc;
      apply bind_ext; reflexivity.
Qed.

Lemma copies_two l r top : pure r = true -> (top = NSeq l r \/ top = NSel l r) ->
  copies l -> copies r -> copies top.
Proof.
  intros Pr Ht Hl Hr rest ops new s f.
  assert (E : (csteps top + f)%nat =
    S (csteps l + ((if compound r then S (csteps r) else 1) + S f))%nat)
    by (destruct Ht as [-> | ->]; cbn [csteps]; lia).
  rewrite E, copy_loop_down.
  replace (traverse (cst (top :: rest) ops true new s) top) with
    (cst (l :: r :: top :: rest) ((if compound r then [false; true] else [true]) ++ ops) true new s)
    by (destruct Ht as [-> | ->]; reflexivity).
  rewrite Hl.
  assert (Hrec : copy_rec top s = do a <- copy_rec l s; do b <- copy_rec r (snd a);
            match top with
            | NSeq _ _ => mk_seq (fst a) (fst b) (snd b)
            | _ => Ok (NSel (fst a) (fst b), snd b)
            end)
    by (destruct Ht as [-> | ->]; reflexivity).
  rewrite Hrec, bind_assoc. apply bind_ext. intros a.
  rewrite copies_right, bind_assoc; auto. apply bind_ext. intros b.
  rewrite copy_loop_up. destruct Ht as [-> | ->]; [|reflexivity].
  cbn [copy_step rebuild cst cs_ops cs_new cs_store]. rewrite !bind_assoc. apply bind_ext.
  reflexivity.
Qed.

Lemma copies_all n : pure n = true -> copies n.
Proof.
  induction n; cbn [pure]; intros P.
  - intros rest ops new s f. reflexivity.
  - intros rest ops new s f. change (csteps (NLeaf tok p) + f)%nat with (S (S f)).
    rewrite copy_loop_down.
    change (traverse (cst (NLeaf tok p :: rest) ops true new s) (NLeaf tok p))
      with (cst (NLeaf tok p :: rest) ops false new s).
    rewrite copy_loop_up. cbn [copy_step]. rewrite bind_assoc. apply bind_ext. reflexivity.
  - apply andb_prop in P as [P1 P2]. eapply copies_two; eauto.
  - apply andb_prop in P as [P1 P2]. eapply copies_two; eauto.
  - intros rest ops new s f.
    replace (csteps (NIter n g) + f)%nat with (S (csteps n + S f))%nat by (cbn; lia).
    rewrite copy_loop_down.
    change (traverse (cst (NIter n g :: rest) ops true new s) (NIter n g))
      with (cst (n :: NIter n g :: rest) (true :: ops) true new s).
    rewrite IHn by auto. cbn [copy_rec]. rewrite bind_assoc. apply bind_ext. intros a.
    rewrite copy_loop_up. cbn [copy_step rebuild cst cs_ops cs_new cs_store].
    rewrite !bind_assoc. apply bind_ext. reflexivity.
  - discriminate.
Qed.

Lemma csteps_le n : (csteps n <= nsize n)%nat.
Proof.
  induction n; cbn [csteps nsize]; try lia; destruct (compound n2); lia.
Qed.

Lemma copy_is_rec n s : pure n = true -> copy n s = copy_rec n s.
Proof.
  intros P. unfold copy. pose proof (csteps_le n).
  replace (nsize n) with (csteps n + (nsize n - csteps n))%nat by lia.
  rewrite (copies_all n P [] [] [] s). destruct (copy_rec n s) as [[n' s']| | |]; cbn; auto.
  destruct (nsize n - csteps n)%nat; reflexivity.
Qed.

(** Same shape and tokens. *)
Fixpoint same (n m : node) : Prop :=
  match n, m with
  | NNull _, NNull _ => True
  | NLeaf t _, NLeaf u _ => t = u
  | NSeq a b, NSeq c d | NSel a b, NSel c d => same a c /\ same b d
  | NIter a g, NIter b h => same a b /\ g = h
  | _, _ => False
  end.

Lemma step_sub X Y s n s' : step X s n s' -> (forall p, In p X -> In p Y) -> step Y s n s'.
Proof.
  intros (H1 & H2 & H3 & H4) H. split; [auto|]. split; [auto|]. split.
  - intros p Hp Hn. apply H3; auto.
  - intros p Hp. destruct (H4 p Hp); auto.
Qed.
Lemma step_frame X s n s' m : step X s n s' -> okn s m ->
  (forall p, In p (poss m) -> ~ In p X) -> okn s' m.
Proof.
  intros (H1 & H2 & H3 & H4) Hm D. eapply okn_frame; eauto. intros p Hp. apply H3; auto.
  eapply okn_lt; eauto.
Qed.
(** Two steps one after the other, the second working on the node made by the
    first and other old positions. *)
Lemma step_trans X Y s n s1 m s2 : step X s n s1 -> step Y s1 m s2 ->
  (forall p, In p Y -> In p X \/ (length s <= p)%nat) -> step X s m s2.
Proof.
  intros (A1 & A2 & A3 & A4) (B1 & B2 & B3 & B4) H. split; [auto|]. split; [lia|]. split.
  - intros p Hp Hn. rewrite B3, A3; auto; [lia|]. intros Hy. destruct (H p Hy); auto; lia.
  - intros p Hp. destruct (B4 p Hp) as [Hy|Hy]; [auto|lia].
Qed.

Lemma disj_app {A} (l r : list A) : NoDup l -> NoDup r ->
  (forall x, In x l -> In x r -> False) -> NoDup (l ++ r).
Proof.
  induction l as [|a l IH]; cbn; intros Hl Hr D; [auto|]. inversion Hl; subst. constructor.
  - rewrite in_app_iff. intros [H|H]; eauto.
  - apply IH; auto. intros x; eauto.
Qed.

Lemma copy_rec_ok n : forall s, okn s n ->
  exists n' s', copy_rec n s = Ok (n', s') /\ step [] s n' s' /\ same n n'.
Proof.
  assert (Sub : forall s n, pure n = true -> NoDup (poss n) ->
    (forall p t, In (p, t) (leaves n) -> exists g f, nth_error s p = Some (PLeaf t g f)) ->
    exists n' s', copy_rec n s = Ok (n', s') /\ step [] s n' s' /\ same n n').
  { clear n. intros s n. revert s. induction n; intros s HP ND HL; cbn [pure] in HP.
    - exists (NNull g), s. split; [reflexivity|]. split; [|exact I].
      split; [|split; [|split]]; auto. split; [auto|]. split; [constructor|]. intros ? ? [].
    - destruct (HL p tok) as (g & f & E); [left; auto|]. cbn [copy_rec copy_leaf]. rewrite E.
      do 2 eexists; split; [reflexivity|]. split; [|reflexivity].
      apply (mk_leaf_ok s (N.succ tok) tok g). unfold mk_leaf.
      destruct (N.eqb_spec tok (N.succ tok)); [lia|reflexivity].
    - apply andb_prop in HP as [P1 P2]. unfold poss in ND; cbn in ND. rewrite poss_app in ND.
      apply NoDup_app_inv in ND as [N1 N2].
      destruct (IHn1 s) as (l & s1 & E1 & S1 & A1); auto.
      { intros q t Hq. apply HL. cbn. apply in_or_app; auto. }
      destruct (IHn2 s1) as (r & s2 & E2 & S2 & A2); auto.
      { intros q t Hq. destruct (HL q t) as (g & f & E); [cbn; apply in_or_app; auto|].
        exists g, f. destruct S1 as (_ & _ & S1 & _). rewrite S1; auto.
        apply nth_error_Some. congruence. }
      cbn [copy_rec]. rewrite E1. cbn [bind fst snd]. rewrite E2. cbn [bind fst snd].
      assert (O1 : okn s2 l) by (eapply step_frame; eauto; apply S1).
      assert (O2 : okn s2 r) by apply S2.
      assert (D : NoDup (poss l ++ poss r)).
      { apply disj_app; [apply O1|apply O2|]. intros x Hx Hy.
        destruct S2 as (_ & _ & _ & S2). apply S2 in Hy as [[]|Hy].
        assert (x < length s1)%nat by (eapply okn_lt; eauto; apply S1). lia. }
      destruct (mk_seq_ok s2 l r O1 O2 D) as (s3 & E3 & S3). rewrite E3.
      do 2 eexists; split; [reflexivity|]. split; [|split; auto].
      pose proof (step_trans _ _ _ _ _ _ _ S1 S2) as S12.
      eapply step_trans; [apply S12|exact S3|]; [intros ? []|].
      intros x Hx. right. apply in_app_or in Hx as [Hx|Hx].
      + destruct S1 as (_ & _ & _ & S1). now apply S1 in Hx as [[]|Hx].
      + destruct S1 as (_ & S1 & _). destruct S2 as (_ & _ & _ & S2).
        apply S2 in Hx as [[]|Hx]. lia.
    - apply andb_prop in HP as [P1 P2]. unfold poss in ND; cbn in ND. rewrite poss_app in ND.
      apply NoDup_app_inv in ND as [N1 N2].
      destruct (IHn1 s) as (l & s1 & E1 & S1 & A1); auto.
      { intros q t Hq. apply HL. cbn. apply in_or_app; auto. }
      destruct (IHn2 s1) as (r & s2 & E2 & S2 & A2); auto.
      { intros q t Hq. destruct (HL q t) as (g & f & E); [cbn; apply in_or_app; auto|].
        exists g, f. destruct S1 as (_ & _ & S1 & _). rewrite S1; auto.
        apply nth_error_Some. congruence. }
      cbn [copy_rec]. rewrite E1. cbn [bind fst snd]. rewrite E2. cbn [bind fst snd].
      assert (O1 : okn s2 l) by (eapply step_frame; eauto; apply S1).
      assert (O2 : okn s2 r) by apply S2.
      assert (D : NoDup (poss l ++ poss r)).
      { apply disj_app; [apply O1|apply O2|]. intros x Hx Hy.
        destruct S2 as (_ & _ & _ & S2). apply S2 in Hy as [[]|Hy].
        assert (x < length s1)%nat by (eapply okn_lt; eauto; apply S1). lia. }
      do 2 eexists; split; [reflexivity|]. split; [|split; auto].
      split; [now apply mk_sel_ok|].
      destruct S1 as (_ & L1 & F1 & Q1), S2 as (_ & L2 & F2 & Q2).
      split; [lia|]. split.
      + intros x Hx Hn. rewrite F2, F1; auto. lia.
      + intros x Hx. right. unfold poss in Hx; cbn in Hx. rewrite poss_app in Hx.
        apply in_app_or in Hx as [Hx|Hx]; [now apply Q1 in Hx as [[]|Hx]|].
        apply Q2 in Hx as [[]|Hx]. lia.
    - destruct (IHn s) as (m & s1 & E1 & S1 & A1); auto.
      cbn [copy_rec]. rewrite E1. cbn [bind fst snd].
      destruct (mk_iter_ok s1 m g) as (s2 & E2 & S2); [apply S1|]. rewrite E2.
      do 2 eexists; split; [reflexivity|]. split; [|split; auto].
      eapply step_trans; eauto. intros x Hx. destruct S1 as (_ & _ & _ & S1). auto.
    - discriminate. }
  intros s (P & ND & H). apply Sub; auto. intros p t Hp. destruct (H p t Hp) as (g & f & E & _).
  eauto.
Qed.

Lemma same_den {A} (sem : N -> A -> Prop) n : forall m, same n m ->
  forall w, den sem n w <-> den sem m w.
Proof.
  induction n; destruct m; cbn [same]; try tauto; intros H w; cbn [den].
  - subst. tauto.
  - destruct H as [H1 H2]. split; intros (u & v & E & Hu & Hv); exists u, v; split; auto;
      (split; [eapply IHn1|eapply IHn2]; eauto).
  - destruct H as [H1 H2]. rewrite (IHn1 m1 H1), (IHn2 m2 H2). tauto.
  - destruct H as [H1 _]. apply star_ext. apply IHn. auto.
Qed.

Lemma copy_ok n s : okn s n ->
  exists n' s', copy n s = Ok (n', s') /\ step [] s n' s' /\ same n n'.
Proof.
  intros H. rewrite copy_is_rec by apply H. now apply copy_rec_ok.
Qed.

(** ** The operators on the parser's node stack *)
Section Ops.
  Context {A : Type}.
  Variable sem : N -> A -> Prop.
  Notation den := (den sem).
  Variable s0 : store.
  Notation twf := (twf s0).

Lemma twf_step X s n' s' ns : step X s n' s' ->
  twf ns s -> (forall p, In p X -> (length s0 <= p)%nat) ->
  (forall p, In p X -> In p (concat (map poss ns)) -> False) ->
  twf (n' :: ns) s'.
Proof.
  intros S (F & ND & L & B & G) GX D. split; [|split; [|split; [|split]]].
  - constructor; [apply S|]. rewrite Forall_forall in *. intros m Hm.
    eapply step_frame; eauto. intros p Hp Hx. apply (D p Hx). apply in_concat.
    exists (poss m). split; [now apply in_map|auto].
  - cbn. apply disj_app; auto; [apply S|]. intros p Hp Hq.
    destruct S as (_ & _ & _ & S). apply S in Hp as [Hp|Hp]; [eauto|].
    apply in_concat in Hq as (ps & Hps & Hq). apply in_map_iff in Hps as (m & <- & Hm).
    rewrite Forall_forall in F. pose proof (okn_lt s m p (F m Hm) Hq). lia.
  - destruct S as (_ & S & _). lia.
  - intros p Hp. destruct S as (_ & _ & S & _). rewrite S, B; auto; [lia|].
    intros Hx. apply GX in Hx. lia.
  - cbn. intros p Hp. apply in_app_or in Hp as [Hp|Hp]; [|auto].
    destruct S as (_ & _ & _ & S). apply S in Hp as [Hp|Hp]; [auto|lia].
Qed.
Lemma twf_cons n ns s : twf (n :: ns) s -> okn s n /\ twf ns s /\
  (forall p, In p (poss n) -> (length s0 <= p)%nat) /\
  (forall p, In p (poss n) -> In p (concat (map poss ns)) -> False).
Proof.
  intros (F & ND & L & B & G). inversion F; subst. cbn in ND, G.
  split; [auto|]. split; [split; [auto|split; [|split; [|split]]]|split]; auto.
  - now apply NoDup_app_inv in ND.
  - intros p Hp. apply G, in_or_app; auto.
  - intros p Hp. apply G, in_or_app; auto.
  - now apply NoDup_app_disj.
Qed.
Lemma twf_swap a b ns s : twf (a :: b :: ns) s -> twf (b :: a :: ns) s.
Proof.
  intros (F & ND & L & B & G). inversion F as [|? ? Ha F1]; subst. inversion F1; subst.
  split; [auto|]. split; [|split; [auto|split; [auto|]]].
  - cbn in *. rewrite app_assoc in *. apply NoDup_app_inv in ND as ND'. destruct ND' as [N1 N2].
    apply disj_app; auto.
    + apply NoDup_app_inv in N1 as N1'. apply disj_app; try tauto.
      intros x Hx Hy. eapply (NoDup_app_disj _ _ N1); eauto.
    + intros x Hx. apply (NoDup_app_disj _ _ ND). apply in_app_or in Hx. apply in_or_app. tauto.
  - cbn in *. intros p Hp. apply G. rewrite !in_app_iff in *. tauto.
Qed.

  Lemma t_leaf_ok npos t g ns s n' s' : twf ns s -> mk_leaf npos t g s = (n', s') ->
    twf (n' :: ns) s'.
  Proof.
    intros H E. apply mk_leaf_ok in E. eapply twf_step; eauto; intros p [].
  Qed.

  Lemma t_sequence_ok l r ns s : twf (r :: l :: ns) s ->
    exists s', (forall vis, t_sequence (r :: l :: vis, s) = Ok (NSeq l r :: vis, s')) /\ twf (NSeq l r :: ns) s'.
  Proof.
    intros H. apply twf_cons in H as (Hr & H & G1 & D1).
    apply twf_cons in H as (Hl & W & G2 & D2).
    cbn in D1. assert (N1 : NoDup (poss l ++ poss r)).
    { apply disj_app; [apply Hl|apply Hr|]. intros x Hx Hy. apply (D1 x Hy).
      apply in_or_app; auto. }
    destruct (mk_seq_ok s l r Hl Hr N1) as (s' & E & S).
    exists s'. split; [intros vis; cbn; now rewrite E|].
    eapply twf_step; eauto.
    - intros p Hp. apply in_app_or in Hp as [Hp|Hp]; auto.
    - intros p Hp Hq. apply in_app_or in Hp as [Hp|Hp]; [eauto|].
      apply (D1 p Hp). apply in_or_app; auto.
  Qed.

  Lemma t_or_ok l r ns s : twf (r :: l :: ns) s ->
    t_or (r :: l :: ns, s) = Ok (NSel l r :: ns, s) /\ twf (NSel l r :: ns) s.
  Proof.
    intros H. split; [reflexivity|].
    apply twf_cons in H as (Hr & H & G1 & D1). apply twf_cons in H as (Hl & W & G2 & D2).
    cbn in D1. assert (N1 : NoDup (poss l ++ poss r)).
    { apply disj_app; [apply Hl|apply Hr|]. intros x Hx Hy. apply (D1 x Hy).
      apply in_or_app; auto. }
    apply (twf_step (poss l ++ poss r) s).
    - split; [now apply mk_sel_ok|]. split; [auto|]. split; [auto|].
      intros p Hp. left. unfold poss in Hp; cbn in Hp. now rewrite poss_app in Hp.
    - auto.
    - intros p Hp. apply in_app_or in Hp as [Hp|Hp]; auto.
    - intros p Hp Hq. apply in_app_or in Hp as [Hp|Hp]; [eauto|].
      apply (D1 p Hp). apply in_or_app; auto.
  Qed.

  Lemma t_optional_ok g n ns s : twf (n :: ns) s ->
    exists n' s', (forall vis, t_optional g (n :: vis, s) = Ok (n' :: vis, s')) /\ twf (n' :: ns) s' /\
      forall w, den n' w <-> w = [] \/ den n w.
  Proof.
    intros H. apply twf_cons in H as (Hn & W & G & D).
    destruct (set_greedies_ok s n g Hn) as (s' & E & S).
    exists (NSel n (NNull g)), s'. split; [intros vis; cbn; now rewrite E|].
    assert (S' : step (poss n) s (NSel n (NNull g)) s').
    { destruct S as (S1 & S2 & S3 & S4). split; [|split; [auto|]].
      - apply mk_sel_ok; auto.
        + split; [auto|]. split; [constructor|]. intros ? ? [].
        + cbn. rewrite app_nil_r. apply S1.
      - split; [auto|]. intros p Hp. unfold poss in Hp. cbn in Hp. rewrite app_nil_r in Hp. auto. }
    split; [eapply twf_step; eauto|]. intros w. cbn. tauto.
  Qed.

  Lemma t_star_ok g n ns s : twf (n :: ns) s ->
    exists n' s', (forall vis, t_star g (n :: vis, s) = Ok (n' :: vis, s')) /\ twf (n' :: ns) s' /\
      forall w, den n' w <-> star (den n) w.
  Proof.
    intros H. apply twf_cons in H as (Hn & W & G & D).
    destruct (mk_iter_ok s n g Hn) as (s' & E & S).
    exists (NIter n g), s'. split; [intros vis; cbn; now rewrite E|].
    split; [eapply twf_step; eauto|]. intros w. reflexivity.
  Qed.

  Lemma copy_twf n ns s : twf ns s -> okn s n ->
    exists n' s', copy n s = Ok (n', s') /\ twf (n' :: ns) s' /\
      forall w, den n' w <-> den n w.
  Proof.
    intros W Hn. destruct (copy_ok n s Hn) as (n' & s' & E & S & Hs).
    exists n', s'. split; [auto|]. split; [eapply twf_step; eauto; intros ? []|].
    intros w. symmetry. now apply same_den.
  Qed.

  Definition cat (L M : list A -> Prop) (w : list A) : Prop :=
    exists u v, w = u ++ v /\ L u /\ M v.

  Lemma t_plus_ok g n ns s : twf (n :: ns) s ->
    exists n' s', (forall vis, t_plus g (n :: vis, s) = Ok (n' :: vis, s')) /\ twf (n' :: ns) s' /\
      forall w, den n' w <-> exists k, (1 <= k)%nat /\ power (den n) k w.
  Proof.
    intros H. assert (Hn : okn s n) by now apply twf_cons in H.
    destruct (copy_twf n (n :: ns) s H Hn) as (c & s1 & E1 & W1 & D1).
    destruct (t_star_ok g c (n :: ns) s1 W1) as (i & s2 & E2 & W2 & D2).
    destruct (t_sequence_ok n i ns s2 W2) as (s3 & E3 & W3).
    exists (NSeq n i), s3. split.
    { intros vis. specialize (E2 []). specialize (E3 vis). cbn. rewrite E1. cbn [bind fst snd].
      cbn in E2. destruct (mk_iter c g s1) as [[i' s2']| | |]; try discriminate.
      cbn in E2. injection E2 as -> ->. cbn [bind fst snd]. exact E3. }
    split; [auto|].
    intros w. assert (Dr : forall v, den i v <-> star (den n) v).
    { intros v. rewrite D2. now apply star_ext. }
    split.
    - intros (u & v & -> & Hu & Hv). apply Dr, power_star in Hv as [k Hk].
      exists (S k). split; [lia|]. exists u, v. auto.
    - intros (k & Hk & Hp). destruct k as [|k]; [lia|]. destruct Hp as (u & v & -> & Hu & Hv).
      exists u, v. split; [auto|]. split; [auto|]. apply Dr, power_star. eauto.
  Qed.

  (** ** Bounded repeats *)
  Lemma twf_perm ns ns' s : Permutation ns ns' -> twf ns s -> twf ns' s.
  Proof.
    intros P (F & ND & L & B & G).
    assert (P' : Permutation (concat (map poss ns)) (concat (map poss ns'))).
    { clear -P. induction P; cbn; auto.
      - now apply Permutation_app_head.
      - rewrite !app_assoc. apply Permutation_app_tail, Permutation_app_comm.
      - etransitivity; eauto. }
    split; [|split; [|split; [|split]]]; auto.
    - eapply Permutation_Forall; eauto.
    - eapply Permutation_NoDup; eauto.
    - intros p Hp. apply G. eapply Permutation_in; [symmetry|]; eauto.
  Qed.

  Lemma rep_step_ok prev n ns s : twf (prev :: n :: ns) s ->
    exists prev' s', (forall vis, rep_step prev (n :: vis, s) = Ok (prev', (NSeq n prev :: vis, s'))) /\
      twf (prev' :: NSeq n prev :: ns) s' /\ forall w, den prev' w <-> den prev w.
  Proof.
    intros H. assert (Hp : okn s prev) by now apply twf_cons in H.
    destruct (copy_twf prev (prev :: n :: ns) s H Hp) as (c & s1 & E1 & W1 & D1).
    assert (W1' : twf (prev :: n :: c :: ns) s1).
    { eapply twf_perm; [|exact W1].
      transitivity (prev :: c :: n :: ns); [apply perm_swap|apply perm_skip, perm_swap]. }
    destruct (t_sequence_ok n prev (c :: ns) s1 W1') as (s2 & E2 & W2).
    exists c, s2. split; [|split; [now apply twf_swap|auto]].
    intros vis. unfold rep_step. cbn [fst snd]. rewrite E1. cbn [bind fst snd].
    rewrite E2. reflexivity.
  Qed.

  Lemma rep_steps_ok k prev n ns s : twf (prev :: n :: ns) s ->
    exists prev' n' s', (forall vis, rep_steps k prev (n :: vis, s) = Ok (prev', (n' :: vis, s'))) /\
      twf (prev' :: n' :: ns) s' /\ (forall w, den prev' w <-> den prev w) /\
      forall w, den n' w <-> cat (den n) (power (den prev) k) w.
  Proof.
    revert prev n s. induction k as [|k IH]; intros prev n s H.
    - exists prev, n, s. split; [reflexivity|]. split; [auto|]. split; [tauto|].
      intros w. split.
      + intros Hw. exists w, []. rewrite app_nil_r. cbn. auto.
      + intros (u & v & -> & Hu & Hv). cbn in Hv. subst. now rewrite app_nil_r.
    - destruct (rep_step_ok prev n ns s H) as (p1 & s1 & E1 & W1 & D1).
      destruct (IH p1 (NSeq n prev) s1 W1) as (p2 & n2 & s2 & E2 & W2 & D2 & L2).
      exists p2, n2, s2. split; [|split; [auto|split]].
      + intros vis. cbn [rep_steps]. rewrite E1. cbn [bind fst snd]. apply E2.
      + intros w. now rewrite D2, D1.
      + intros w. rewrite L2. split.
        * intros (u & v & -> & (u1 & u2 & -> & Hu1 & Hu2) & Hv).
          exists u1, (u2 ++ v). rewrite app_assoc. split; [auto|]. split; [auto|].
          exists u2, v. split; [auto|]. split; [auto|]. revert Hv. now apply power_ext.
        * intros (u & v & -> & Hu & (v1 & v2 & -> & Hv1 & Hv2)).
          exists (u ++ v1), v2. rewrite app_assoc. split; [auto|]. split.
          -- exists u, v1. auto.
          -- apply (power_ext _ (den prev)); auto.
  Qed.

  Lemma power_opt (L : list A -> Prop) m w :
    power (fun w => w = [] \/ L w) m w <-> exists k, (k <= m)%nat /\ power L k w.
  Proof.
    revert w. induction m; cbn [power]; intros w.
    - split; [intros ->; exists O; cbn; auto|]. intros (k & Hk & H). destruct k; [auto|lia].
    - split.
      + intros (u & v & -> & Hu & Hv). apply IHm in Hv as (k & Hk & Hv).
        destruct Hu as [->|Hu]; [exists k; auto|]. exists (S k). split; [lia|].
        exists u, v. auto.
      + intros (k & Hk & H). destruct k as [|k].
        * cbn in H. subst. exists [], []. split; [auto|]. split; [auto|]. apply IHm.
          exists O. cbn. split; [lia|auto].
        * destruct H as (u & v & -> & Hu & Hv). exists u, v. split; [auto|]. split; [auto|].
          apply IHm. exists k. split; [lia|auto].
  Qed.
  Lemma cat_ext (L L' M M' : list A -> Prop) w :
    (forall u, L u <-> L' u) -> (forall u, M u <-> M' u) -> cat L M w <-> cat L' M' w.
  Proof.
    intros H1 H2. split; intros (u & v & E & Hu & Hv); exists u, v; split; auto; split;
      try (now apply H1); now apply H2.
  Qed.
  Lemma cat_power (L : list A -> Prop) j k w : cat (power L j) (power L k) w <-> power L (j + k) w.
  Proof. symmetry. apply power_add. Qed.
  Lemma cat_assoc (L M K : list A -> Prop) w : cat (cat L M) K w <-> cat L (cat M K) w.
  Proof.
    split.
    - intros (x & v & -> & (u & u' & -> & H1 & H2) & H3). exists u, (u' ++ v).
      rewrite app_assoc. split; [auto|]. split; [auto|]. exists u', v. auto.
    - intros (u & x & -> & H1 & (u' & v & -> & H2 & H3)). exists (u ++ u'), v.
      rewrite app_assoc. split; [auto|]. split; [|auto]. exists u, u'. auto.
  Qed.

  (** The arguments that re_tokeniser.hpp:547-700 lets through: {n}, {n,} with
      n > 1, {n,m} with n < m other than {0,1}. *)
  Definition rep_args (min : N) (comma : bool) (max : N) : Prop :=
    (comma = false /\ (1 <= min)%N) \/
    (comma = true /\ max = 0%N /\ (2 <= min)%N) \/
    (comma = true /\ (min < max)%N /\ (2 <= max)%N).
  Definition rep_max (min : N) (comma : bool) (max : N) : option nat :=
    if comma then if N.eqb max 0 then None else Some (N.to_nat max) else Some (N.to_nat min).

  Lemma on_prev_ok op prev top rest s n' s' :
    (forall vis, op (prev :: vis, s) = Ok (n' :: vis, s')) ->
    on_prev op prev (top :: rest, s) = Ok (n', (top :: rest, s')).
  Proof. intros H. unfold on_prev. cbn [fst snd]. now rewrite H. Qed.

  Lemma t_repeat_ok g min comma max n ns s : twf (n :: ns) s -> rep_args min comma max ->
    exists n' s', (forall vis, t_repeat g min comma max (n :: vis, s) = Ok (n' :: vis, s')) /\
      twf (n' :: ns) s' /\
      forall w, den n' w <->
        exists k, (N.to_nat min <= k)%nat /\
          match rep_max min comma max with Some m => (k <= m)%nat | None => True end /\
          power (den n) k w.
  Proof.
    intros H HA. unfold t_repeat, rep_max.
    destruct ((min =? 1)%N && negb comma) eqn:E1.
    { apply andb_prop in E1 as [E1 E2]. apply N.eqb_eq in E1. subst min.
      apply negb_true_iff in E2. subst comma.
      exists n, s. split; [reflexivity|]. split; [auto|]. intros w. split.
      - intros Hw. exists 1%nat. repeat split; auto. now apply power1.
      - intros (k & K1 & K2 & K3). assert (k = 1%nat) by lia. subst. now apply power1. }
    assert (O : exists m s1, (forall vis,
        (if (min =? 0)%N then t_optional g (n :: vis, s) else Ok (n :: vis, s)) = Ok (m :: vis, s1)) /\
        twf (m :: ns) s1 /\
        forall w, den m w <-> if (min =? 0)%N then w = [] \/ den n w else den n w).
    { destruct (min =? 0)%N.
      - destruct (t_optional_ok g n ns s H) as (m & s1 & Em & Wm & Dm). exists m, s1. auto.
      - exists n, s. split; [reflexivity|]. split; [auto|]. tauto. }
    destruct O as (m & s1 & Em & Wm & Dm).
    assert (Om : okn s1 m) by now apply twf_cons in Wm.
    destruct (copy_twf m (m :: ns) s1 Wm Om) as (c & s2 & Ec & Wc & Dc).
    set (top := if (0 <? min)%N then min else max) in *.
    destruct (rep_steps_ok (N.to_nat (top - 2)) c m ns s2 Wc) as (p3 & n3 & s3 & E3 & W3 & D3 & L3).
    assert (C3 : forall w, den p3 w <-> den m w) by (intros w; now rewrite D3, Dc).
    assert (N3 : forall w, den n3 w <-> power (den m) (S (N.to_nat (top - 2))) w).
    { intros w. rewrite L3. change (S (N.to_nat (top - 2))) with (1 + N.to_nat (top - 2))%nat.
      rewrite <- cat_power. apply cat_ext; intros u; [symmetry; apply power1|].
      now apply power_ext. }
    destruct (comma && (0 <? min)%N) eqn:E4.
    2:{ destruct (t_sequence_ok n3 p3 ns s3 W3) as (s4 & E5 & W5).
        exists (NSeq n3 p3), s4. split; [|split; [auto|]].
        - intros vis. rewrite Em. cbn [bind fst snd]. rewrite Ec. cbn [bind fst snd].
          rewrite E3. cbn [bind fst snd]. apply E5.
        - intros w. change (den (NSeq n3 p3) w) with (cat (den n3) (den p3) w).
          rewrite (cat_ext _ (power (den m) (S (N.to_nat (top - 2)))) _ (power (den m) 1));
            [|apply N3|intros u; rewrite C3; symmetry; apply power1].
          rewrite cat_power.
          destruct HA as [[-> Hmin]|[(-> & -> & Hmin)|(-> & Hlt & Hmax)]].
          + assert (min <> 1)%N by (intros ->; discriminate).
            assert (Hm0 : (min =? 0)%N = false) by (apply N.eqb_neq; lia).
            assert (top = min) by (unfold top; destruct (N.ltb_spec 0 min); lia).
            replace (S (N.to_nat (top - 2)) + 1)%nat with (N.to_nat min) by lia.
            rewrite (power_ext _ (den n)); [|intros u; rewrite Dm, Hm0; tauto].
            split.
            * intros Hw. exists (N.to_nat min). auto.
            * intros (k & K1 & K2 & K3). now replace (N.to_nat min) with k by lia.
          + cbn in E4. apply N.ltb_ge in E4. lia.
          + cbn in E4. apply N.ltb_ge in E4. assert (min = 0%N) by lia. subst min.
            assert (top = max) by reflexivity.
            replace (S (N.to_nat (top - 2)) + 1)%nat with (N.to_nat max) by lia.
            rewrite (power_ext _ (fun w => w = [] \/ den n w)); [|intros u; apply Dm].
            rewrite power_opt. destruct (N.eqb_spec max 0); [lia|]. split.
            * intros (k & K1 & K2). exists k. cbn. split; [lia|auto].
            * intros (k & K1 & K2 & K3). exists k. auto. }
    apply andb_prop in E4 as [-> E4]. apply N.ltb_lt in E4.
    assert (Hm0 : (min =? 0)%N = false) by (apply N.eqb_neq; lia).
    assert (Htop : top = min) by (unfold top; destruct (N.ltb_spec 0 min); lia).
    assert (Dm' : forall w, den m w <-> den n w) by (intros w; rewrite Dm, Hm0; tauto).
    (* the extra copy when min > 1 *)
    assert (X : exists p4 n4 s4, (forall vis,
        (if (1 <? min)%N then rep_step p3 (n3 :: vis, s3) else Ok (p3, (n3 :: vis, s3)))
          = Ok (p4, (n4 :: vis, s4))) /\ twf (p4 :: n4 :: ns) s4 /\
        (forall w, den p4 w <-> den n w) /\
        (forall w, den n4 w <-> power (den n) (N.to_nat min) w)).
    { destruct (N.ltb_spec 1 min).
      - destruct (rep_step_ok p3 n3 ns s3 W3) as (p4 & s4 & E5 & W5 & D5).
        exists p4, (NSeq n3 p3), s4. split; [auto|]. split; [auto|]. split.
        + intros w. now rewrite D5, C3.
        + intros w. change (den (NSeq n3 p3) w) with (cat (den n3) (den p3) w).
          rewrite (cat_ext _ (power (den n) (S (N.to_nat (top - 2)))) _ (power (den n) 1)).
          * rewrite cat_power.
            replace (S (N.to_nat (top - 2)) + 1)%nat with (N.to_nat min) by lia. tauto.
          * intros u. rewrite N3. now apply power_ext.
          * intros u. rewrite C3, Dm'. symmetry. apply power1.
      - exists p3, n3, s3. split; [auto|]. split; [auto|]. split.
        + intros w. now rewrite C3.
        + intros w. rewrite N3. replace (S (N.to_nat (top - 2)))%nat with (N.to_nat min) by lia.
          now apply power_ext. }
    destruct X as (p4 & n4 & s4 & E5 & W5 & D5 & N5).
    destruct (max =? 0)%N eqn:Emax; cbn [negb].
    - (* {n,} *)
      destruct (t_star_ok g p4 (n4 :: ns) s4 W5) as (p6 & s6 & E6 & W6 & D6).
      destruct (t_sequence_ok n4 p6 ns s6 W6) as (s7 & E7 & W7).
      exists (NSeq n4 p6), s7. split; [|split; [auto|]].
      + intros vis. rewrite Em. cbn [bind fst snd]. rewrite Ec. cbn [bind fst snd].
        rewrite E3. cbn [bind fst snd andb].
        rewrite E5. cbn [bind fst snd]. rewrite (on_prev_ok _ _ _ _ _ p6 s6 E6).
        cbn [bind fst snd]. apply E7.
      + intros w. change (den (NSeq n4 p6) w) with (cat (den n4) (den p6) w). split.
        * intros (u & v & -> & Hu & Hv). apply N5 in Hu.
          apply D6 in Hv. rewrite (star_ext _ (den n)) in Hv by auto.
          apply power_star in Hv as [k Hk]. exists (N.to_nat min + k)%nat.
          split; [lia|]. split; [auto|]. apply cat_power. exists u, v. auto.
        * intros (k & K1 & _ & K3).
          replace k with (N.to_nat min + (k - N.to_nat min))%nat in K3 by lia.
          apply cat_power in K3 as (u & v & -> & Hu & Hv). exists u, v. split; [auto|].
          split; [now apply N5|]. apply D6. rewrite (star_ext _ (den n)) by auto.
          apply power_star. eauto.
    - (* {n,m} *)
      apply N.eqb_neq in Emax.
      assert (Hlt : (min < max)%N).
      { destruct HA as [[HA _]|[(_ & HA & _)|(_ & HA & _)]]; [discriminate|lia|auto]. }
      destruct (t_optional_ok g p4 (n4 :: ns) s4 W5) as (p6 & s6 & E6 & W6 & D6).
      destruct (rep_steps_ok (N.to_nat (max - min - 1)) p6 n4 ns s6 W6)
        as (p7 & n7 & s7 & E7 & W7 & D7 & L7).
      destruct (t_sequence_ok n7 p7 ns s7 W7) as (s8 & E8 & W8).
      exists (NSeq n7 p7), s8. split; [|split; [auto|]].
      + intros vis. rewrite Em. cbn [bind fst snd]. rewrite Ec. cbn [bind fst snd].
        rewrite E3. cbn [bind fst snd andb].
        rewrite E5. cbn [bind fst snd]. rewrite (on_prev_ok _ _ _ _ _ p6 s6 E6).
        cbn [bind fst snd]. rewrite E7. cbn [bind fst snd]. apply E8.
      + intros w. change (den (NSeq n7 p7) w) with (cat (den n7) (den p7) w).
        set (OL := fun w => w = [] \/ den n w).
        assert (O6 : forall w, den p6 w <-> OL w)
          by (intros x; rewrite D6; unfold OL; now rewrite D5).
        rewrite (cat_ext _ (cat (power (den n) (N.to_nat min)) (power OL (N.to_nat (max - min - 1))))
                   _ (power OL 1)).
        2:{ intros u. rewrite L7. apply cat_ext; [auto|]. intros v. now apply power_ext. }
        2:{ intros u. rewrite D7, O6. symmetry. apply power1. }
        rewrite cat_assoc.
        rewrite (cat_ext _ (power (den n) (N.to_nat min)) _ (power OL (N.to_nat (max - min))));
          [|tauto|].
        2:{ intros u. rewrite cat_power.
            replace (N.to_nat (max - min - 1) + 1)%nat with (N.to_nat (max - min)) by lia. tauto. }
        split.
        * intros (u & v & -> & Hu & Hv).
          apply power_opt in Hv as (k & Hk & Hv). exists (N.to_nat min + k)%nat.
          split; [lia|]. split; [lia|]. apply cat_power. exists u, v. auto.
        * intros (k & K1 & K2 & K3).
          replace k with (N.to_nat min + (k - N.to_nat min))%nat in K3 by lia.
          apply cat_power in K3 as (u & v & -> & Hu & Hv). exists u, v. split; [auto|].
          split; [auto|]. apply power_opt. exists (k - N.to_nat min)%nat. split; [lia|auto].
  Qed.
End Ops.
