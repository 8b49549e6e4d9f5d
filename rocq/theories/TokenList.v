(** All the tokens of an input, one call after the other. *)
From Verif Require Import Base StateMachine Lookup Iterator GenCpp SourceLexer SourceTop.
Local Open Scope N_scope.

(** What a token shows: id, user id, first and last position. *)
Definition shows := (N * N * nat * nat)%type.
Definition seen (r : results) : shows := (r_id r, r_uid r, r_first r, r_second r).
(** [rd]: one call, as [sreads]; the end is told by the id 0. *)
Inductive tokens (rd : bool -> nat -> N -> N -> nat -> nat -> bool -> Prop) : bool -> nat -> list shows -> Prop :=
| to_end bol p uid i j b : rd bol p 0 uid i j b -> tokens rd bol p []
| to_more bol p id uid i j b l : rd bol p id uid i j b -> id <> 0 -> tokens rd b j l -> tokens rd bol p ((id, uid, i, j) :: l).
(** The input with the text of each token changed; [last]: what is copied already. *)
Fixpoint rewritten (inp : list N) (f : format) (last : nat) (l : list shows) : list N :=
  match l with
  | [] => skipn last inp
  | (id, _, i, j) :: l' =>
    between_pos inp last i ++ (match f id with Some h => h (between_pos inp i j) | None => between_pos inp i j end) ++ rewritten inp f j l'
  end.
(** Generated code called until it returns the id 0. *)
Fixpoint gen_all (n fuel inner : nat) (bits bytes : N) (ptrs : bool) (m : internals) (inp : list N) (r : results) : res (list results) :=
  match n with
  | O => Fuel
  | S n' =>
    do r' <- gen_lookup fuel inner bits bytes ptrs m inp r;
    if r_id r' =? 0 then Ok [] else do l <- gen_all n' fuel inner bits bytes ptrs m inp r'; Ok (r' :: l)
  end.

Definition determined (rd : bool -> nat -> N -> N -> nat -> nat -> bool -> Prop) : Prop :=
  forall bol p id uid i j b id' uid' i' j' b', rd bol p id uid i j b -> rd bol p id' uid' i' j' b' -> id = id' /\ uid = uid' /\ i = i' /\ j = j' /\ b = b'.
Theorem tokens_det rd : determined rd -> forall bol p l, tokens rd bol p l -> forall l', tokens rd bol p l' -> l = l'.
Proof.
  intros D. induction 1 as [bol p uid i j b R|bol p id uid i j b l R N T IH]; intros l' T'; inversion T' as [? ? uid' i' j' b' R'|? ? id' uid' i' j' b' l2 R' N' T2]; subst.
  - reflexivity.
  - destruct (D _ _ _ _ _ _ _ _ _ _ _ _ R R') as (E & _). congruence.
  - destruct (D _ _ _ _ _ _ _ _ _ _ _ _ R R') as (E & _). congruence.
  - destruct (D _ _ _ _ _ _ _ _ _ _ _ _ R R') as (-> & -> & -> & -> & ->). f_equal. auto.
Qed.

Section Calls.
  Variables (kc : cfg) (m : internals) (inp : list N) (fuel inner : nat).
  Variable rd : bool -> nat -> N -> N -> nat -> nat -> bool -> Prop.
  Hypothesis STEP : forall r, ready inp r -> exists r', lookup fuel inner kc m inp r = Ok (r', None) /\ ready inp r' /\
    rd (r_bol r) (r_second r) (r_id r') (r_uid r') (r_first r') (r_second r') (r_bol r').
  Hypothesis PROG : forall bol p id uid i j b, (p <= length inp)%nat -> rd bol p id uid i j b ->
    (id = 0 /\ i = length inp) \/ (id <> 0 /\ (p <= i < j)%nat /\ (j <= length inp)%nat).
  Lemma ready_second r : ready inp r -> (r_second r <= length inp)%nat.
  Proof. intros (_ & _ & H). exact H. Qed.
  Lemma ready_new start bol : (start <= length inp)%nat -> ready inp (new_results kc start bol 0).
  Proof. intros H. split; [reflexivity|]. split; [reflexivity|exact H]. Qed.
  Lemma visit_list n : forall bol p r, (p <= length inp)%nat -> rd bol p (r_id r) (r_uid r) (r_first r) (r_second r) (r_bol r) -> ready inp r ->
    (length inp - r_second r < n)%nat ->
    exists rs, visit n fuel inner kc m inp {| it_res := r; it_live := negb (Nat.eqb (r_first r) (length inp)) |} = Ok (rs, None) /\ tokens rd bol p (map seen rs).
  Proof.
    induction n as [|n IH]; intros bol p r Lp R RY L; [lia|]. pose proof (ready_second r RY) as LS.
    destruct (PROG _ _ _ _ _ _ _ Lp R) as [(E1 & E2)|(N & B1 & B2)].
    - exists []. rewrite E2, Nat.eqb_refl. split; [reflexivity|]. rewrite E1 in R. eapply to_end; eauto.
    - destruct (STEP r RY) as (r' & EL & RY' & R'). 
      assert (P : r_id r' = 0 \/ (length inp - r_second r' < n)%nat).
      { destruct (PROG _ _ _ _ _ _ _ LS R') as [(F1 & _)|(_ & F2 & F3)]; [now left|right; lia]. }
      assert (NE : Nat.eqb (r_first r) (length inp) = false) by (apply Nat.eqb_neq; lia). rewrite NE. cbn [negb].
      assert (K : exists rs, visit n fuel inner kc m inp {| it_res := r'; it_live := negb (Nat.eqb (r_first r') (length inp)) |} = Ok (rs, None) /\ tokens rd (r_bol r) (r_second r) (map seen rs)).
      { destruct P as [P|P]; [|now apply (IH (r_bol r) (r_second r) r')].
        destruct (PROG _ _ _ _ _ _ _ LS R') as [(F1 & F2)|(F1 & _)]; [|congruence]. exists []. rewrite F2, Nat.eqb_refl. split; [destruct n; reflexivity|]. rewrite P in R'. eapply to_end; eauto. }
      destruct K as (rs & V & T). exists (r :: rs). split.
      + cbn [visit]. unfold iter_eqb. cbn [it_live iter_end Bool.eqb andb]. unfold iter_lookup. cbn [it_live it_res]. rewrite EL. cbn [bind]. rewrite V. reflexivity.
      + cbn [map]. unfold seen at 1. eapply to_more; eauto.
  Qed.
  Theorem visit_all_list start bol n : (start <= length inp)%nat -> (length inp < n)%nat ->
    exists rs, visit_all n fuel inner kc m inp start bol 0 = Ok (rs, None) /\ tokens rd bol start (map seen rs).
  Proof.
    intros L Ln. pose proof (ready_new start bol L) as RY. destruct (STEP _ RY) as (r & EL & RY' & R). unfold visit_all, iter_begin, iter_lookup. cbn [it_live it_res]. rewrite EL. cbn [bind].
    apply (visit_list n bol start r L R RY'). lia.
  Qed.
  Lemma range_ok a b : (a <= b)%nat -> (b <= length inp)%nat -> range inp a b = Ok (between_pos inp a b).
  Proof. intros H1 H2. unfold range. rewrite (proj2 (Nat.leb_le _ _) H1), (proj2 (Nat.leb_le _ _) H2). reflexivity. Qed.
  Lemma rest_all last : between_pos inp last (length inp) = skipn last inp.
  Proof. unfold between_pos. apply firstn_all2. rewrite skipn_length. lia. Qed.
  Lemma replace_list f n : forall bol p r last out, (p <= length inp)%nat -> rd bol p (r_id r) (r_uid r) (r_first r) (r_second r) (r_bol r) -> ready inp r ->
    (last <= p)%nat -> (length inp - r_second r < n)%nat ->
    exists l, replace_loop n fuel inner kc m inp f insert r last out = Ok (out ++ rewritten inp f last l) /\ tokens rd bol p l.
  Proof.
    induction n as [|n IH]; intros bol p r last out Lp R RY LA L; [lia|]. pose proof (ready_second r RY) as LS. cbn [replace_loop].
    destruct (PROG _ _ _ _ _ _ _ Lp R) as [(E1 & E2)|(N & B1 & B2)].
    - exists []. rewrite E1, E2. change (0 =? 0) with true. cbv iota. rewrite range_ok by lia. cbn [bind]. rewrite rest_all. split; [reflexivity|]. rewrite E1 in R. eapply to_end; eauto.
    - rewrite (proj2 (N.eqb_neq _ _) N). rewrite !range_ok by lia. cbn [bind]. destruct (STEP r RY) as (r' & EL & RY' & R'). rewrite EL. cbn [bind].
      assert (K : forall out, exists l, replace_loop n fuel inner kc m inp f insert r' (r_second r) out = Ok (out ++ rewritten inp f (r_second r) l) /\ tokens rd (r_bol r) (r_second r) l).
      { intros out'. destruct (PROG _ _ _ _ _ _ _ LS R') as [(F1 & F2)|(_ & F2 & F3)]; [|apply (IH (r_bol r) (r_second r) r' (r_second r) out' LS R' RY'); lia].
        exists []. split; [|rewrite F1 in R'; eapply to_end; eauto]. assert (E : replace_loop n fuel inner kc m inp f insert r' (r_second r) out' = do t <- range inp (r_second r) (r_first r'); Ok (insert out' t)).
        { destruct n; cbn [replace_loop]; rewrite F1; reflexivity. }
        rewrite E, F2, range_ok by lia. cbn [bind]. now rewrite rest_all. }
      unfold insert at 2 3. destruct (K ((out ++ between_pos inp last (r_first r)) ++ match f (r_id r) with Some h => h (between_pos inp (r_first r) (r_second r)) | None => between_pos inp (r_first r) (r_second r) end)) as (l & V & T).
      exists ((r_id r, r_uid r, r_first r, r_second r) :: l). rewrite V. split; [|eapply to_more; eauto]. cbn [rewritten]. now rewrite !app_assoc.
  Qed.
  Theorem replace_all f n out : (length inp < n)%nat ->
    exists l, replace n fuel inner kc m inp f insert out = Ok (out ++ rewritten inp f 0 l) /\ tokens rd true 0 l.
  Proof.
    intros Ln. pose proof (ready_new 0 true (Nat.le_0_l _)) as RY. destruct (STEP _ RY) as (r & EL & RY' & R). unfold replace. rewrite EL. cbn [bind].
    apply (replace_list f n true 0%nat r 0%nat out); auto; lia.
  Qed.
  (** Generated code that follows lookup(). *)
  Variables (ptrs : bool) (n2 : nat).
  Variable like : results -> results -> Prop.
  Hypothesis LIKE : forall r r0, like r r0 -> seen r = seen r0.
  Hypothesis GEN : forall r r0 r', ready inp r -> like r r0 -> lookup fuel inner kc m inp r = Ok (r', None) ->
    exists r0', gen_lookup n2 inner (c_bits kc) (c_bytes kc) ptrs m inp r0 = Ok r0' /\ like r' r0'.
  Theorem gen_all_list n : forall r r0, ready inp r -> like r r0 -> (length inp - r_second r < n)%nat ->
    exists rs, gen_all n n2 inner (c_bits kc) (c_bytes kc) ptrs m inp r0 = Ok rs /\ tokens rd (r_bol r) (r_second r) (map seen rs).
  Proof.
    induction n as [|n IH]; intros r r0 RY LK L; [lia|]. destruct (STEP r RY) as (r' & EL & RY' & R'). destruct (GEN r r0 r' RY LK EL) as (r0' & G & LK'). cbn [gen_all]. rewrite G. cbn [bind].
    pose proof (LIKE _ _ LK') as SE. unfold seen in SE. injection SE as S1 S2 S3 S4. pose proof (ready_second r RY) as LS.
    destruct (PROG _ _ _ _ _ _ _ LS R') as [(F1 & F2)|(F1 & F2 & F3)].
    - rewrite <- S1, F1. exists []. split; [reflexivity|]. rewrite F1 in R'. eapply to_end; eauto.
    - rewrite <- S1, (proj2 (N.eqb_neq _ _) F1). destruct (IH r' r0' RY' LK' ltac:(lia)) as (rs & V & T). rewrite V. exists (r0' :: rs). split; [reflexivity|].
      cbn [map]. rewrite <- (LIKE _ _ LK'). unfold seen at 1. eapply to_more; eauto.
  Qed.
End Calls.
