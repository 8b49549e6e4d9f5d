(** lookup() through any iterators that represent a list does what it does on the list. *)
From Verif Require Import Base StateMachine Lookup Iterator Utf AnyIter.
Local Open Scope N_scope.

(** [rep p x]: the iterator [x] is at the character [p] of [inp]. Moving on may throw
    [bad] errors. *)
Record represents {I : Type} (ops : iops I) (eoi : I) (inp : list N) (bad : err -> Prop) (rep : nat -> I -> Prop) : Prop := {
  rp_end : forall p x, rep p x -> it_same ops x eoi = Nat.eqb p (length inp);
  rp_get : forall p x c, rep p x -> nth_error inp p = Some c -> it_get ops x = Ok c;
  rp_next : forall p x c, rep p x -> nth_error inp p = Some c ->
    match it_next ops x with Ok y => rep (S p) y | Throw e => bad e | _ => False end
}.
(** The same results. *)
Definition alike_at {I : Type} (rep : nat -> I -> Prop) (r : results) (a : aresults I) : Prop :=
  a_id a = r_id r /\ a_uid a = r_uid r /\ rep (r_first r) (a_first a) /\ rep (r_second r) (a_second a) /\
  a_bol a = r_bol r /\ a_state a = r_state r /\ a_stack a = r_stack r.
(** Either the same, or a bad error. *)
Definition same_or {A B : Type} (bad : err -> Prop) (R : A -> B -> Prop) (x : A) (y : res B) : Prop :=
  match y with Ok b => R x b | Throw e => bad e | _ => False end.

Section Any.
  Variables (I : Type) (ops : iops I) (eoi : I) (inp : list N) (bad : err -> Prop) (rep : nat -> I -> Prop).
  Hypothesis RP : represents ops eoi inp bad rep.

  Lemma aend_same k t s et curr y x : rep et y -> rep curr x ->
    match end_state k t s et curr with
    | Some (s', et') => exists y', aend_state I k t s y x = Some (s', y') /\ rep et' y'
    | None => aend_state I k t s y x = None
    end.
  Proof.
    intros RE RC. unfold end_state, aend_state. destruct (cell t (ls_ptr s) ix_end) as [e|]; [|reflexivity].
    destruct (e =? 0); [eauto|]. destruct (cell t (ls_ptr s) ix_id), (cell t (ls_ptr s) ix_uid), (cell t (ls_ptr s) ix_push), (cell t (ls_ptr s) ix_next); eauto.
  Qed.
  Lemma ascan_same k t fuel : forall curr et s x y s' et' curr', scan fuel k t inp curr et s = Ok (s', et', curr') -> rep curr x -> rep et y ->
    match ascan I ops eoi fuel k t x y s with
    | Ok (s'', y', x') => s'' = s' /\ rep et' y' /\ rep curr' x'
    | Throw e => bad e
    | _ => False
    end.
  Proof.
    induction fuel as [|fuel IH]; intros curr et s x y s' et' curr' E RC RE; cbn [scan ascan] in *; rewrite (rp_end _ _ _ _ _ RP _ _ RC).
    - destruct (Nat.eqb curr (length inp)); [|discriminate]. injection E as <- <- <-. auto.
    - destruct (Nat.eqb curr (length inp)); [injection E as <- <- <-; auto|].
      destruct (nth_error inp curr) as [c|] eqn:Ec; [|discriminate]. rewrite (rp_get _ _ _ _ _ RP _ _ _ RC Ec). cbn [bind].
      destruct (is_eol k t c s) as [[[] s1]|]; [| |discriminate].
      + pose proof (aend_same k t s1 et curr y x RE RC) as H. destruct (end_state k t s1 et curr) as [[s2 et2]|]; [|discriminate].
        destruct H as (y' & -> & RY). eapply IH; eauto.
      + destruct (next_char k t c (ls_ptr s1)) as [[st p]|]; [|discriminate]. cbv zeta in *. destruct (st =? 0).
        * destruct (is_eol k t (npos k) _) as [[b s4]|]; [|discriminate]. injection E as <- <- <-. auto.
        * pose proof (rp_next _ _ _ _ _ RP _ _ _ RC Ec) as N. destruct (it_next ops x) as [x'| | |]; cbn [bind]; try contradiction; [|exact N].
          set (s3 := if f_bol k then _ else _) in *. pose proof (aend_same k t s3 et (S curr) y x' RE N) as H.
          destruct (end_state k t s3 et (S curr)) as [[s4 et2]|]; [|discriminate]. destruct H as (y' & -> & RY). eapply IH; eauto.
  Qed.
  Lemma aattempt_same fuel k m bol state curr x s et : attempt fuel k m inp bol state curr = Ok (s, et) -> rep curr x ->
    match aattempt I ops eoi fuel k m bol state x with
    | Ok (s', y) => s' = s /\ rep et y
    | Throw e => bad e
    | _ => False
    end.
  Proof.
    intros E RC. unfold attempt in E. unfold aattempt. destruct (get_table m state) as [t|]; [|discriminate]. destruct (ls_init t bol state) as [s0|]; [|discriminate].
    destruct (bol_start k t s0) as [s1|]; [|discriminate]. destruct (scan fuel k t inp curr curr s1) as [[[s2 et2] curr2]| | |] eqn:ES; try discriminate.
    pose proof (ascan_same k t fuel curr curr s1 x x _ _ _ ES RC RC) as H. destruct (ascan I ops eoi fuel k t x x s1) as [[[s2' y] x']| | |]; cbn [bind] in *; try contradiction; [|exact H].
    destruct H as (-> & RY & RX). unfold check_eol in E. unfold acheck_eol. rewrite (rp_end _ _ _ _ _ RP _ _ RX). destruct (f_eol k && negb (ls_eol s2 =? npos k) && Nat.eqb curr2 (length inp)).
    - destruct (cell t (ls_ptr s2) ix_eol) as [e|]; [|discriminate]. cbv zeta in *. destruct (e =? 0); [injection E as <- <-; auto|].
      pose proof (aend_same k t (set_ptr (set_eol s2 e) e) et2 curr2 y x' RY RX) as H. destruct (end_state k t _ et2 curr2) as [[s4 et4]|]; [|discriminate].
      injection E as <- <-. destruct H as (y' & -> & RY'). auto.
    - injection E as <- <-. auto.
  Qed.
  Lemma aagain_same inner k m fuel : forall r curr a x r' o, again fuel inner k m inp r curr = Ok (r', o) -> alike_at rep r a -> rep curr x ->
    same_or bad (fun p q => alike_at rep (fst p) (fst q) /\ snd q = snd p) (r', o) (aagain I ops eoi fuel inner k m a x).
  Proof.
    induction fuel as [|fuel IH]; intros r curr a x r' o E AL RC; cbn [again aagain] in *; rewrite (rp_end _ _ _ _ _ RP _ _ RC).
    - destruct (Nat.eqb curr (length inp)); [|discriminate]. injection E as <- <-. destruct AL as (A1 & A2 & A3 & A4 & A5 & A6 & A7). cbn. unfold alike_at; cbn. tauto.
    - destruct (Nat.eqb curr (length inp)); [injection E as <- <-; destruct AL as (A1 & A2 & A3 & A4 & A5 & A6 & A7); cbn; unfold alike_at; cbn; tauto|].
      destruct AL as (A1 & A2 & A3 & A4 & A5 & A6 & A7). rewrite A5, A6, A7.
      destruct (attempt inner k m inp (r_bol r) (r_state r) curr) as [[s et]| | |] eqn:EA; try discriminate. cbn [bind] in E.
      pose proof (aattempt_same _ _ _ _ _ _ x _ _ EA RC) as H. destruct (aattempt I ops eoi inner k m (r_bol r) (r_state r) x) as [[s' y]| | |]; try contradiction; [|exact H].
      destruct H as (-> & RY). cbn [bind]. destruct (ls_end s).
      + destruct (pop k s (r_stack r)) as [[start stack]|].
        * cbv zeta in *. cbn [r_id r_uid r_first r_second r_bol r_state r_stack a_id a_uid a_first a_second a_bol a_state a_stack] in *. destruct (ls_id s =? skip_id k).
          { eapply IH; [exact E| |exact RY]. unfold alike_at; cbn. repeat (split; [assumption || reflexivity|]). reflexivity. }
          destruct (is_id_eoi k (i_eoi m) s stack).
          { eapply IH; [exact E| |exact RY]. unfold alike_at; cbn. repeat (split; [assumption || reflexivity|]). reflexivity. }
          injection E as <- <-. cbn. unfold alike_at; cbn. repeat (split; [assumption || reflexivity || (repeat (split; [assumption || reflexivity|]); reflexivity)|]). reflexivity.
        * injection E as <- <-. cbn. unfold alike_at. tauto.
      + destruct (nth_error inp et) as [c|] eqn:Ec; [|discriminate]. rewrite (rp_get _ _ _ _ _ RP _ _ _ RY Ec). cbn [bind]. injection E as <- <-. destruct (f_adv k).
        * pose proof (rp_next _ _ _ _ _ RP _ _ _ RY Ec) as N. destruct (it_next ops y) as [y'| | |]; cbn [bind]; try contradiction; [|exact N].
          cbn. unfold alike_at; cbn. tauto.
        * cbn. unfold alike_at; cbn. tauto.
  Qed.
  Theorem alookup_same fuel inner k m r a r' o : lookup fuel inner k m inp r = Ok (r', o) -> alike_at rep r a ->
    same_or bad (fun p q => alike_at rep (fst p) (fst q) /\ snd q = snd p) (r', o) (alookup I ops eoi fuel inner k m a).
  Proof.
    intros E (A1 & A2 & A3 & A4 & A5 & A6 & A7). unfold lookup in E. unfold alookup. eapply aagain_same; [exact E| |exact A4]. unfold alike_at; cbn. tauto.
  Qed.
  Theorem avisit_same fuel inner k m n : forall r a live l o, visit n fuel inner k m inp {| it_res := r; it_live := live |} = Ok (l, o) -> alike_at rep r a ->
    same_or bad (fun p q => Forall2 (alike_at rep) (fst p) (fst q) /\ snd q = snd p) (l, o) (avisit I ops eoi n fuel inner k m a live).
  Proof.
    assert (EQ : forall r live, iter_eqb {| it_res := r; it_live := live |} (iter_end k) = negb live).
    { intros r []; reflexivity. }
    induction n as [|n IH]; intros r a live l o E AL; cbn [visit avisit] in *; rewrite EQ in E; destruct live; cbn [negb] in E; try discriminate;
      try (injection E as <- <-; cbn; split; [constructor|reflexivity]).
    unfold iter_lookup in E. cbn [it_live it_res] in E. destruct (lookup fuel inner k m inp r) as [[r' o1]| | |] eqn:EL; try discriminate. cbn [bind] in E.
    pose proof (alookup_same fuel inner k m r a r' o1 EL AL) as H. destruct (alookup I ops eoi fuel inner k m a) as [[a' o2]| | |]; try contradiction; [|exact H].
    cbn in H. destruct H as (AL' & ->). cbn [bind]. destruct o1 as [e|]; cbn [bind] in E.
    - injection E as <- <-. cbn. split; [constructor; [exact AL|constructor]|reflexivity].
    - destruct (visit n fuel inner k m inp _) as [[l1 o3]| | |] eqn:EV; try discriminate. cbn in E. injection E as <- <-.
      destruct AL' as (A1 & A2 & A3 & A4 & A5 & A6 & A7). rewrite (rp_end _ _ _ _ _ RP _ _ A3).
      pose proof (IH r' a' _ l1 o3 EV ltac:(unfold alike_at; tauto)) as H. destruct (avisit I ops eoi n fuel inner k m a' _) as [[l2 o4]| | |]; try contradiction; [|exact H].
      cbn in H |- *. destruct H as (F & ->). split; [constructor; [exact AL|exact F]|reflexivity].
  Qed.
  Theorem avisit_all_same n fuel inner k m p x bol state l o : visit_all n fuel inner k m inp p bol state = Ok (l, o) -> rep p x ->
    same_or bad (fun p q => Forall2 (alike_at rep) (fst p) (fst q) /\ snd q = snd p) (l, o) (avisit_all I ops eoi n fuel inner k m x bol state).
  Proof.
    intros E RX. unfold visit_all, iter_begin, iter_lookup in E. cbn [it_live it_res] in E. unfold avisit_all.
    destruct (lookup fuel inner k m inp (new_results k p bol state)) as [[r' o1]| | |] eqn:EL; try discriminate. cbn [bind] in E.
    pose proof (alookup_same fuel inner k m _ (anew k x bol state) r' o1 EL ltac:(unfold alike_at; cbn; tauto)) as H.
    destruct (alookup I ops eoi fuel inner k m (anew k x bol state)) as [[a' o2]| | |]; try contradiction; [|exact H].
    cbn in H. destruct H as (AL' & ->). cbn [bind]. destruct o1 as [e|]; cbn [bind] in E.
    - injection E as <- <-. cbn. split; [constructor|reflexivity].
    - destruct AL' as (A1 & A2 & A3 & A4 & A5 & A6 & A7). rewrite (rp_end _ _ _ _ _ RP _ _ A3).
      apply (avisit_same fuel inner k m n r' a' _ l o E). unfold alike_at. tauto.
  Qed.
End Any.

(** str(): the text between two iterators, if they can be told apart. *)
Theorem astr_same {I : Type} (ops : iops I) eoi inp rep : represents ops eoi inp (fun _ => False) rep ->
  (forall p q x y, rep p x -> rep q y -> it_same ops x y = Nat.eqb p q) ->
  forall fuel p q x y, rep p x -> rep q y -> (p <= q <= length inp)%nat -> (q - p <= fuel)%nat ->
  astr I ops fuel x y = Ok (firstn (q - p) (skipn p inp)).
Proof.
  intros RP SM. induction fuel as [|fuel IH]; intros p q x y RX RY L Lf; cbn [astr]; rewrite (SM p q x y RX RY).
  - replace (q - p)%nat with 0%nat by lia. replace (Nat.eqb p q) with true by (symmetry; apply Nat.eqb_eq; lia). reflexivity.
  - destruct (Nat.eqb_spec p q) as [->|N]; [rewrite Nat.sub_diag; reflexivity|].
    destruct (nth_error inp p) as [c|] eqn:Ec; [|apply nth_error_None in Ec; lia]. rewrite (rp_get _ _ _ _ _ RP _ _ _ RX Ec). cbn [bind].
    pose proof (rp_next _ _ _ _ _ RP _ _ _ RX Ec) as H. destruct (it_next ops x) as [x'| | |]; try contradiction. cbn [bind].
    rewrite (IH (S p) q x' y H RY) by lia. cbn [bind]. replace (q - p)%nat with (S (q - S p)) by lia.
    assert (E : skipn p inp = c :: skipn (S p) inp).
    { clear - Ec. revert p Ec. induction inp as [|a l IHl]; intros [|p] E; cbn in *; try discriminate; [now injection E as ->|]. now apply IHl. }
    rewrite E. reflexivity.
Qed.

(** If no iterator is at the end, an iteration that would end there throws. *)
Section Never.
  Variables (I : Type) (ops : iops I) (eoi : I) (inp : list N) (bad : err -> Prop) (rep : nat -> I -> Prop).
  Hypothesis RP : represents ops eoi inp bad rep.
  Hypothesis NO : forall x, ~ rep (length inp) x.
  Lemma avisit_never fuel inner k m n : forall r a l, visit n fuel inner k m inp {| it_res := r; it_live := negb (Nat.eqb (r_first r) (length inp)) |} = Ok (l, None) -> alike_at rep r a ->
    exists e, avisit I ops eoi n fuel inner k m a (negb (Nat.eqb (r_first r) (length inp))) = Throw e /\ bad e.
  Proof.
    assert (EQ : forall r live, iter_eqb {| it_res := r; it_live := live |} (iter_end k) = negb live).
    { intros r []; reflexivity. }
    induction n as [|n IH]; intros r a l E AL; cbn [visit avisit] in *; rewrite EQ in E;
      (destruct (Nat.eqb_spec (r_first r) (length inp)) as [F|F]; cbn [negb] in *; [exfalso; destruct AL as (_ & _ & A3 & _); rewrite F in A3; exact (NO _ A3)|]); [discriminate|].
    unfold iter_lookup in E. cbn [it_live it_res] in E. destruct (lookup fuel inner k m inp r) as [[r' o1]| | |] eqn:EL; try discriminate. cbn [bind] in E.
    pose proof (alookup_same I ops eoi inp bad rep RP fuel inner k m r a r' o1 EL AL) as H. destruct (alookup I ops eoi fuel inner k m a) as [[a' o2]|e| |]; try contradiction; [|exists e; auto].
    cbn in H. destruct H as (AL' & ->). cbn [bind]. destruct o1 as [e|]; cbn [bind] in E; [discriminate|].
    destruct (visit n fuel inner k m inp _) as [[l1 o3]| | |] eqn:EV; try discriminate. cbn in E. injection E as <- ->.
    pose proof AL' as (A1 & A2 & A3 & _). rewrite (rp_end _ _ _ _ _ RP _ _ A3).
    destruct (IH r' a' l1 EV AL') as (e & -> & B). cbn [bind]. eauto.
  Qed.
  Theorem avisit_all_never n fuel inner k m p x bol state l : visit_all n fuel inner k m inp p bol state = Ok (l, None) -> rep p x ->
    exists e, avisit_all I ops eoi n fuel inner k m x bol state = Throw e /\ bad e.
  Proof.
    intros E RX. unfold visit_all, iter_begin, iter_lookup in E. cbn [it_live it_res] in E. unfold avisit_all.
    destruct (lookup fuel inner k m inp (new_results k p bol state)) as [[r' o1]| | |] eqn:EL; try discriminate. cbn [bind] in E.
    pose proof (alookup_same I ops eoi inp bad rep RP fuel inner k m _ (anew k x bol state) r' o1 EL ltac:(unfold alike_at; cbn; tauto)) as H.
    destruct (alookup I ops eoi fuel inner k m (anew k x bol state)) as [[a' o2]|e| |]; try contradiction; [|exists e; auto].
    cbn in H. destruct H as (AL' & ->). cbn [bind]. destruct o1 as [e|]; cbn [bind] in E; [discriminate|].
    pose proof AL' as (A1 & A2 & A3 & _). rewrite (rp_end _ _ _ _ _ RP _ _ A3). exact (avisit_never fuel inner k m n r' a' l E AL').
  Qed.
End Never.
