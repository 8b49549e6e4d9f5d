(** Lexers with start states: all the tokens of an input, one call after the other. *)
From Verif Require Import Base StringToken StateMachine ReToken DfaSpec Grammar Tree Parser
  Generator Build Lookup TableSpec LookupSpec RuleSpec BuildSpec BuildLookup BuildErrs BuildThms BuildClean Minimise TableSim MinimiseProofs Iterator GenCpp GenCppSpec GenBuilt GenMade FlagsSpec
  BuildCheck ReTokeniser ReTokeniserNext Rules TokeniseSpec RulesSpec RulesBuild
  SourceSpec SourceLexer SourceTop SourceStates StatesTop TokenList Routes.
Local Open Scope N_scope.

(** ** The tokens that the texts allow *)
Section Spec.
  Variables (none skip : N) (see : bool) (ds : list decl) (inp : list N).
  (** From state [n] with stack [st] on. The list ends with a token that begins at
      the end of the input, or with the exception of an empty stack. A token with
      the id 0 that begins earlier is what is left of one that was not finished. *)
  Inductive mtokens : list N -> stack -> bool -> nat -> list shows -> option err -> Prop :=
  | mt_end n st bol p id uid j b m st' : mreads none skip see ds inp p n st bol p (Token id uid (length inp) j b m st') -> mtokens n st bol p [] None
  | mt_more n st bol p id uid i j b m st' l e : mreads none skip see ds inp p n st bol p (Token id uid i j b m st') -> i <> length inp ->
      mtokens m st' b j l e -> mtokens n st bol p ((id, uid, i, j) :: l) e
  | mt_throw n st bol p i j b m : mreads none skip see ds inp p n st bol p (Underflow i j b m) -> mtokens n st bol p [] (Some EUnderflow).

  Theorem mtokens_det n st bol p l e : mtokens n st bol p l e -> forall l' e', mtokens n st bol p l' e' -> l = l' /\ e = e'.
  Proof.
    induction 1 as [n st bol p id uid j b m st' R|n st bol p id uid i j b m st' l e R N T IH|n st bol p i j b m R]; intros l' e' T'; inversion T'; subst;
      match goal with A : mreads _ _ _ _ _ _ _ _ _ _ _, B : mreads _ _ _ _ _ _ _ _ _ _ _ |- _ => pose proof (mreads_det _ _ _ _ _ _ _ _ _ _ _ A _ B) as E end;
      try discriminate E; auto.
    - injection E. intros. congruence.
    - injection E. intros. congruence.
    - injection E. intros. subst. match goal with K : mtokens _ _ _ _ l0 _ |- _ => destruct (IH _ _ K) as [-> ->] end. auto.
  Qed.

  Hypothesis NN : none <> 0.
  Lemma mreads_prog first n st bol p a : mreads none skip see ds inp first n st bol p a -> (first <= p)%nat -> (p <= length inp)%nat ->
    match a with
    | Token id uid i j b m st' => (first <= i)%nat /\ ((id = 0 /\ (i <= length inp)%nat /\ j = length inp) \/ (id <> 0 /\ (p < j)%nat /\ (i < j <= length inp)%nat))
    | Underflow _ _ _ _ => (p < length inp)%nat
    end.
  Proof.
    induction 1 as [first n st bol p H|first n st bol p d q m st' H MV N G|first n st bol p d q m st' a H MV N K IH|first n st bol p d q m st' a H MV N G K IH|first n st bol p c H N|first n bol p d q H P]; intros L1 L2.
    - split; [lia|left]. split; [reflexivity|]. split; [lia|exact H].
    - destruct H as (H & _). split; [lia|right]. split; [intros E; apply G; now left|lia].
    - destruct H as (H & _). specialize (IH ltac:(lia) ltac:(lia)). destruct a as [id uid i j b m' st2|i j b m']; [|lia]. destruct IH as (I1 & [I2|I2]); (split; [lia|]); [now left|right]. split; [tauto|lia].
    - destruct H as (H & _). specialize (IH ltac:(lia) ltac:(lia)). destruct a as [id uid i j b m' st2|i j b m']; [|lia]. destruct IH as (I1 & [I2|I2]); (split; [lia|]); [now left|right]. split; [tauto|lia].
    - assert (p < length inp)%nat by (apply nth_error_Some; congruence). split; [lia|right]. split; [exact NN|lia].
    - destruct H as (H & _). lia.
  Qed.
  Lemma mtokens_at_end n st bol l e : mtokens n st bol (length inp) l e -> l = [] /\ e = None.
  Proof.
    intros T. inversion T as [? ? ? ? id uid j b m st' R|? ? ? ? id uid i j b m st' l1 e1 R N T1|? ? ? ? i j b m R]; subst; auto;
      pose proof (mreads_prog _ _ _ _ _ _ R (Nat.le_refl _) (Nat.le_refl _)) as P; cbn in P; lia.
  Qed.
  (** Where the tokens lie: in order, not empty, apart from the last one. *)
  Lemma mtokens_fit n st bol p l e : mtokens n st bol p l e -> (p <= length inp)%nat -> ordered (length inp) p l /\ (length l <= length inp - p)%nat.
  Proof.
    induction 1 as [n st bol p id uid j b m st' R|n st bol p id uid i j b m st' l e R N T IH|n st bol p i j b m R]; intros L; cbn [ordered length]; try (split; lia).
    pose proof (mreads_prog _ _ _ _ _ _ R (Nat.le_refl _) L) as (P1 & P2).
    destruct IH as (I1 & I2); [lia|]. split; [split; [lia|exact I1]|lia].
  Qed.
End Spec.

(** The text of a replacement: it ends before a token that is not finished. *)
Fixpoint changed (inp : list N) (f : format) (last : nat) (l : list shows) : list N :=
  match l with
  | [] => skipn last inp
  | (id, _, i, j) :: l' =>
    if id =? 0 then between_pos inp last i
    else between_pos inp last i ++ (match f id with Some h => h (between_pos inp i j) | None => between_pos inp i j end) ++ changed inp f j l'
  end.
(** The tokens before one that is not finished. *)
Fixpoint finished (l : list shows) : list shows :=
  match l with
  | [] => []
  | (id, uid, i, j) :: l' => if id =? 0 then [] else (id, uid, i, j) :: finished l'
  end.

Lemma range_is inp a b : (a <= b)%nat -> (b <= length inp)%nat -> range inp a b = Ok (between_pos inp a b).
Proof. intros H1 H2. unfold range. rewrite (proj2 (Nat.leb_le _ _) H1), (proj2 (Nat.leb_le _ _) H2). reflexivity. Qed.
Lemma rest_is inp last : between_pos inp last (length inp) = skipn last inp.
Proof. unfold between_pos. apply firstn_all2. rewrite skipn_length. lia. Qed.

Section Calls.
  Variables (kc : cfg) (m : internals) (inp : list N) (fuel inner : nat) (names : list (list N)) (ds : list decl).
  Notation reads := (mreads (npos kc) (skip_id kc) (f_bol kc) ds inp).
  Notation toks := (mtokens (npos kc) (skip_id kc) (f_bol kc) ds inp).
  Hypothesis NN : npos kc <> 0.
  Hypothesis STEP : forall r n st, placed names inp r n st -> exists r' o a, lookup fuel inner kc m inp r = Ok (r', o) /\ answers names inp r' o a /\
    reads (r_second r) n st (r_bol r) (r_second r) a.

  Lemma some_tokens k : forall r n st, placed names inp r n st -> (length inp - r_second r <= k)%nat -> exists l e, toks n st (r_bol r) (r_second r) l e.
  Proof.
    induction k as [|k IH]; intros r n st PL L; pose proof PL as (_ & _ & LS); destruct (STEP r n st PL) as (r' & o & a & _ & A & R);
      pose proof (mreads_prog _ _ _ _ _ NN _ _ _ _ _ _ R (Nat.le_refl _) LS) as P; destruct a as [id uid i j b n' st'|i j b n']; try (eexists _, _; eapply mt_throw; exact R);
      destruct (Nat.eq_dec i (length inp)) as [E|E]; try (subst i; eexists _, _; eapply mt_end; exact R); destruct P as (P1 & P2).
    - lia.
    - destruct A as (_ & PL' & A1 & A2 & A3 & A4 & A5). destruct (IH r' n' st' PL') as (l & e & T); [lia|]. rewrite A4, A5 in T. eexists _, _. eapply mt_more; eauto.
  Qed.

  (** *** Iterators *)
  Definition go_on (n : nat) (r : results) : res (list results * option err) :=
    do p <- iter_lookup fuel inner kc m inp {| it_res := r; it_live := true |};
    let '(it, o) := p in
    match o with
    | Some e => Ok ([], Some e)
    | None => visit n fuel inner kc m inp it
    end.
  Lemma visit_live n r : visit (S n) fuel inner kc m inp {| it_res := r; it_live := true |} = do q <- go_on n r; Ok (r :: fst q, snd q).
  Proof.
    cbn [visit]. unfold iter_eqb, go_on. cbn [it_live iter_end Bool.eqb andb]. destruct (iter_lookup _ _ _ _ _ _) as [[it o]| | |]; cbn [bind]; try reflexivity.
    destruct o as [e|]; [reflexivity|]. destruct (visit _ _ _ _ _ _ _) as [[l o]| | |]; reflexivity.
  Qed.
  Lemma visit_dead n r : visit n fuel inner kc m inp {| it_res := r; it_live := false |} = Ok ([], None).
  Proof. destruct n; reflexivity. Qed.
  Theorem go_on_list n0 st bol p l e : toks n0 st bol p l e -> forall r n, placed names inp r n0 st -> r_bol r = bol -> r_second r = p -> (length l <= n)%nat ->
    exists rs, go_on n r = Ok (rs, e) /\ map seen rs = l.
  Proof.
    induction 1 as [n0 st bol p id uid j b m0 st' R|n0 st bol p id uid i j b m0 st' l e R N T IH|n0 st bol p i j b m0 R]; intros r n PL <- <- L;
      destruct (STEP r n0 st PL) as (r' & o & a & EL & A & R'); pose proof (mreads_det _ _ _ _ _ _ _ _ _ _ _ R _ R') as E; subst a.
    - destruct A as (-> & _ & _ & _ & A & _). unfold go_on, iter_lookup. cbn [it_live it_res]. rewrite EL. cbn [bind]. rewrite A, Nat.eqb_refl. cbn [negb]. rewrite visit_dead. exists []. auto.
    - destruct A as (-> & PL' & A1 & A2 & A3 & A4 & A5). unfold go_on, iter_lookup. cbn [it_live it_res]. rewrite EL. cbn [bind]. rewrite A3, (proj2 (Nat.eqb_neq _ _) N). cbn [negb].
      cbn [length] in L. destruct n as [|n]; [lia|]. rewrite visit_live. destruct (IH r' n PL' A5 A4 ltac:(lia)) as (rs & G & E). rewrite G. cbn [bind fst snd]. exists (r' :: rs). split; [reflexivity|].
      cbn [map]. rewrite E. unfold seen. now rewrite A1, A2, A3, A4.
    - destruct A as (-> & _). unfold go_on, iter_lookup. cbn [it_live it_res]. rewrite EL. cbn [bind]. exists []. auto.
  Qed.

  (** *** Replacing *)
  Theorem replaced f n0 st bol p l e : toks n0 st bol p l e -> forall r n last out, placed names inp r n0 st -> r_bol r = bol -> r_second r = p -> last = p -> (length l <= n)%nat ->
    (do q <- lookup fuel inner kc m inp r; let '(r', o) := q in match o with Some e => Throw e | None => replace_loop n fuel inner kc m inp f insert r' last out end) =
    match e with None => Ok (out ++ changed inp f last l) | Some e => Throw e end.
  Proof.
    induction 1 as [n0 st bol p id uid j b m0 st' R|n0 st bol p id uid i j b m0 st' l e R N T IH|n0 st bol p i j b m0 R]; intros r n last out PL <- <- LA L; pose proof PL as (_ & _ & LS);
      destruct (STEP r n0 st PL) as (r' & o & a & EL & A & R'); pose proof (mreads_det _ _ _ _ _ _ _ _ _ _ _ R _ R') as E; subst a; rewrite EL; cbn [bind]; subst last;
      pose proof (mreads_prog _ _ _ _ _ NN _ _ _ _ _ _ R (Nat.le_refl _) LS) as P.
    - destruct A as (-> & _ & A1 & _ & A & _). destruct P as (P1 & P2). assert (Z : id = 0) by (destruct P2 as [P2|P2]; [apply P2|lia]). rewrite Z in A1.
      assert (EQ : replace_loop n fuel inner kc m inp f insert r' (r_second r) out = do t <- range inp (r_second r) (r_first r'); Ok (insert out t)) by (destruct n; cbn [replace_loop]; rewrite A1; reflexivity).
      rewrite EQ, A, range_is by lia. cbn [bind changed]. now rewrite rest_is.
    - destruct A as (-> & PL' & A1 & A2 & A3 & A4 & A5). destruct P as (P1 & P2). cbn [changed]. destruct P2 as [(P2 & P3 & P4)|(P2 & P3 & P4)].
      + rewrite P2, N.eqb_refl. rewrite P4 in T. destruct (mtokens_at_end _ _ _ _ _ NN _ _ _ _ _ T) as (_ & ->).
        assert (EQ : replace_loop n fuel inner kc m inp f insert r' (r_second r) out = do t <- range inp (r_second r) (r_first r'); Ok (insert out t)) by (destruct n; cbn [replace_loop]; rewrite A1, P2; reflexivity).
        rewrite EQ, A3, range_is by lia. reflexivity.
      + rewrite (proj2 (N.eqb_neq _ _) P2). cbn [length] in L. destruct n as [|n]; [lia|]. cbn [replace_loop]. rewrite A1, (proj2 (N.eqb_neq _ _) P2), A3, A4. rewrite !range_is by lia. cbn [bind].
        rewrite (IH r' n j _ PL' A5 A4 eq_refl ltac:(lia)). destruct e; [reflexivity|]. unfold insert. now rewrite <- !app_assoc.
    - destruct A as (-> & _). reflexivity.
  Qed.

  (** *** Generated code that follows lookup() *)
  Variables (ptrs : bool) (n2 : nat).
  Variable like : results -> results -> Prop.
  Hypothesis LIKE : forall r r0, like r r0 -> seen r = seen r0.
  Hypothesis GEN : forall r r0 r' o n st, placed names inp r n st -> like r r0 -> lookup fuel inner kc m inp r = Ok (r', o) ->
    match o with
    | None => exists r0', gen_lookup n2 inner (c_bits kc) (c_bytes kc) ptrs m inp r0 = Ok r0' /\ like r' r0'
    | Some _ => gen_lookup n2 inner (c_bits kc) (c_bytes kc) ptrs m inp r0 = UB
    end.
  Theorem generated n0 st bol p l e : toks n0 st bol p l e -> forall r r0 n, placed names inp r n0 st -> like r r0 -> r_bol r = bol -> r_second r = p -> (length l < n)%nat ->
    match e with
    | None => exists rs, gen_all n n2 inner (c_bits kc) (c_bytes kc) ptrs m inp r0 = Ok rs /\ map seen rs = finished l
    | Some _ => gen_all n n2 inner (c_bits kc) (c_bytes kc) ptrs m inp r0 = UB
    end.
  Proof.
    induction 1 as [n0 st bol p id uid j b m0 st' R|n0 st bol p id uid i j b m0 st' l e R N T IH|n0 st bol p i j b m0 R]; intros r r0 n PL LK <- <- L; pose proof PL as (_ & _ & LS);
      destruct (STEP r n0 st PL) as (r' & o & a & EL & A & R'); pose proof (mreads_det _ _ _ _ _ _ _ _ _ _ _ R _ R') as E; subst a;
      pose proof (GEN _ _ _ _ _ _ PL LK EL) as G; pose proof (mreads_prog _ _ _ _ _ NN _ _ _ _ _ _ R (Nat.le_refl _) LS) as P; destruct n as [|n]; try lia; cbn [gen_all].
    - destruct A as (-> & _ & A1 & _). destruct G as (r0' & -> & LK'). cbn [bind]. destruct P as (P1 & P2). assert (Z : id = 0) by (destruct P2 as [P2|P2]; [apply P2|lia]). rewrite Z in A1.
      pose proof (LIKE _ _ LK') as SE. unfold seen in SE. injection SE as S1 S2 S3 S4. rewrite <- S1, A1. exists []. auto.
    - destruct A as (-> & PL' & A1 & A2 & A3 & A4 & A5). destruct G as (r0' & -> & LK'). cbn [bind]. pose proof (LIKE _ _ LK') as SE. unfold seen in SE. injection SE as S1 S2 S3 S4. rewrite <- S1, A1.
      destruct P as (P1 & P2). cbn [finished]. destruct P2 as [(P2 & P3 & P4)|(P2 & P3 & P4)].
      + rewrite P2, N.eqb_refl. rewrite P4 in T. destruct (mtokens_at_end _ _ _ _ _ NN _ _ _ _ _ T) as (_ & ->). exists []. auto.
      + rewrite (proj2 (N.eqb_neq _ _) P2). cbn [length] in L. pose proof (IH r' r0' n PL' LK' A5 A4 ltac:(lia)) as K. destruct e as [e|].
        * rewrite K. reflexivity.
        * destruct K as (rs & -> & E). cbn [bind]. exists (r0' :: rs). split; [reflexivity|]. cbn [map]. rewrite E. unfold seen. now rewrite <- S1, <- S2, <- S3, <- S4, A1, A2, A3, A4.
    - destruct A as (-> & _). rewrite G. reflexivity.
  Qed.
End Calls.

(** ** What a replacement without formats leaves *)
Lemma firstn_between (l : list N) a b : (a <= b)%nat -> firstn a l ++ between_pos l a b = firstn b l.
Proof.
  intros H. unfold between_pos. rewrite <- (firstn_skipn a l) at 3. rewrite firstn_app. f_equal; [rewrite firstn_firstn, Nat.min_r by lia; reflexivity|].
  destruct (Nat.le_gt_cases a (length l)) as [L|L].
  - rewrite firstn_length, Nat.min_l by lia. reflexivity.
  - rewrite skipn_all2 by lia. now rewrite !firstn_nil.
Qed.
Theorem changed_same inp l : ordered (length inp) 0 l ->
  exists p, changed inp (fun _ => None) 0 l = firstn p inp /\ ((forall id uid i j, In (id, uid, i, j) l -> id <> 0) -> p = length inp).
Proof.
  assert (G : forall l last, ordered (length inp) last l ->
    exists p, firstn last inp ++ changed inp (fun _ => None) last l = firstn p inp /\ ((forall id uid i j, In (id, uid, i, j) l -> id <> 0) -> p = length inp)).
  { clear l. induction l as [|[[[id uid] i] j] l IH]; intros last; cbn [changed ordered].
    - intros L. exists (length inp). split; [now rewrite firstn_all, firstn_skipn|auto].
    - intros (H1 & H2). destruct (N.eqb_spec id 0) as [E|E].
      + exists i. split; [apply firstn_between; lia|]. intros H. elim (H id uid i j); [now left|exact E].
      + rewrite !app_assoc, !firstn_between by lia. destruct (IH j H2) as (p & P1 & P2). exists p. split; [exact P1|]. intros H. apply P2. intros. eapply H. right. eauto. }
  intros H. exact (G l 0%nat H).
Qed.
