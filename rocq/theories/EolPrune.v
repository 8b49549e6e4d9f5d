(** Pruning changes nothing where no rule goes on with the end of a line. *)
From Verif Require Import Base StringToken StateMachine Tree Partition Generator GenPrune EolFix.
Local Open Scope N_scope.

Section Same.
  Variables (k : gcfg) (s : store) (sm : list (list N)) (cr nl : N).
  Definition eol_leaf (p : nat) : Prop := exists g f, nth_error s p = Some (PLeaf (eol_tok k) g f).
  (** Position [p] reads the column of \r or \n. *)
  Definition reads_line (p : nat) : Prop := exists t g f set, nth_error s p = Some (PLeaf t g f) /\
    nth_error sm (N.to_nat t) = Some set /\ (In cr set \/ In nl set).

  Lemma erase_eols_same fuel : forall fp j node fp' node', (forall p, In p fp -> ~ eol_leaf p) ->
    erase_eols fuel k s fp j node = Ok (fp', node') -> fp' = fp.
  Proof.
    induction fuel as [|fuel IH]; intros fp j node fp' node' H E; [discriminate|]. cbn [erase_eols] in E.
    destruct (nth_error fp j) as [p|] eqn:Ep; [|injection E as <- <-; auto].
    unfold end_node, token_of in E. destruct (nth_error s p) as [[t g f|e]|] eqn:Es; [| |discriminate].
    - cbn [bind negb andb] in E. destruct (N.eqb_spec t (eol_tok k)) as [->|]; [|eapply IH; eauto].
      exfalso. apply (H p (nth_error_In _ _ Ep)). exists g, f. auto.
    - cbn [bind negb andb] in E. eapply IH; eauto.
  Qed.
  Lemma prune_eol_cr_same crf : forall fp i node fp' node', (forall p, In p fp -> ~ eol_leaf p) ->
    prune_eol_cr k s sm nl crf fp i node = Ok (fp', node') -> fp' = fp.
  Proof.
    induction crf as [|c crf IH]; intros fp i node fp' node' H E; cbn [prune_eol_cr] in E; [injection E as <- <-; auto|].
    apply bind_ok in E as (e & _ & E). destruct e; [eapply IH; eauto|].
    apply bind_ok in E as (h & _ & E). destruct h; [|eapply IH; eauto].
    apply bind_ok in E as (nf & _ & E). apply bind_ok in E as (fd & _ & E). destruct fd; [|eapply IH; eauto].
    apply bind_ok in E as ((fp1, n1) & E1 & E). cbn [fst snd] in E.
    apply erase_eols_same in E1; [|auto]. subst fp1. eapply IH; eauto.
  Qed.
  Lemma existsb_col c set : existsb (N.eqb c) set = true <-> In c set.
  Proof.
    rewrite existsb_exists. split; [|intros H; exists c; rewrite N.eqb_refl; auto].
    intros (x & H & E). apply N.eqb_eq in E. now subst.
  Qed.
  Lemma token_has_in c p : token_has s sm c p = Ok true -> exists t g f set, nth_error s p = Some (PLeaf t g f) /\
    nth_error sm (N.to_nat t) = Some set /\ In c set.
  Proof.
    unfold token_has, token_of. destruct (nth_error s p) as [[t g f|e]|] eqn:Es; try discriminate. cbn [bind].
    destruct (nth_error sm (N.to_nat t)) as [set|] eqn:Em; [|discriminate]. intros E. injection E as E.
    apply existsb_col in E. exists t, g, f, set. auto.
  Qed.
  Lemma prune_NL_same fuel : forall fp j fp', (forall p, In p fp -> ~ reads_line p) ->
    prune_NL fuel s sm cr nl fp j = Ok fp' -> fp' = fp.
  Proof.
    induction fuel as [|fuel IH]; intros fp j fp' H E; [discriminate|]. cbn [prune_NL] in E.
    destruct (nth_error fp j) as [p|] eqn:Ep; [|injection E as <-; auto]. apply nth_error_In in Ep.
    apply bind_ok in E as (e & _ & E). destruct e; [eapply IH; eauto|].
    apply bind_ok in E as (h & E1 & E). destruct h.
    { exfalso. apply (H p Ep). apply token_has_in in E1 as (t & g & f & set & A & B & C). exists t, g, f, set. auto. }
    cbn [bind] in E. destruct (Nat.eqb j (length fp)); [injection E as <-; auto|].
    apply bind_ok in E as (h & E2 & E). destruct h.
    { exfalso. apply (H p Ep). apply token_has_in in E2 as (t & g & f & set & A & B & C). exists t, g, f, set. auto. }
    eapply IH; eauto.
  Qed.
  Theorem prune_clashes_same fuel : forall fp i fp',
    (forall p q, In p fp -> In q fp -> eol_leaf p -> ~ reads_line q) ->
    prune_clashes fuel k s sm cr nl fp i = Ok fp' -> fp' = fp.
  Proof.
    induction fuel as [|fuel IH]; intros fp i fp' H E; [discriminate|]. cbn [prune_clashes] in E.
    destruct (nth_error fp i) as [p|] eqn:Ep; [|injection E as <-; auto]. apply nth_error_In in Ep.
    apply bind_ok in E as (e & _ & E). destruct e; [eapply IH; eauto|].
    apply bind_ok in E as (t & E1 & E). unfold token_of in E1.
    destruct (nth_error s p) as [[t' g f|e]|] eqn:Es; try discriminate. injection E1 as ->.
    apply bind_ok in E as (x & E1 & E).
    assert (x = fp); [|subst x; eapply IH; eauto]. clear E IH.
    destruct (N.eqb_spec t (eol_tok k)) as [->|Ht].
    - apply prune_NL_same in E1; [auto|]. intros q Hq. apply (H p q); auto. exists g, f. auto.
    - unfold prune_eol, token_of in E1. rewrite Es in E1. cbn [bind] in E1.
      destruct (nth_error sm (N.to_nat t)) as [set|] eqn:Em; [|discriminate].
      assert (Q : In cr set \/ In nl set -> forall q, In q fp -> ~ eol_leaf q).
      { intros C q Hq L. apply (H q p Hq Ep L). exists t, g, f, set. auto. }
      apply bind_ok in E1 as ((fp1, n1) & E2 & E1). cbn [fst snd] in E1.
      assert (fp1 = fp).
      { destruct (existsb (N.eqb cr) set) eqn:X1; [|injection E2 as <- <-; auto]. apply existsb_col in X1.
        apply bind_ok in E2 as (cf & _ & E2). apply prune_eol_cr_same in E2; auto. }
      subst fp1. destruct (existsb (N.eqb nl) set) eqn:X2; [|injection E1 as <-; auto]. apply existsb_col in X2.
      apply bind_ok in E1 as (nf & _ & E1). apply bind_ok in E1 as (fd & _ & E1).
      destruct fd; [|injection E1 as <-; auto]. apply bind_ok in E1 as ((fp2, n2) & E3 & E1). cbn [fst] in E1.
      injection E1 as <-. apply erase_eols_same in E3; auto.
  Qed.
End Same.

(** Nor does the resolution of clashes in the table. *)
Section Fix.
  Variables (k : gcfg) (width : nat) (cr nl zero : N).
  Definition lim : nat := if 2 <? g_bytes k then 2%nat else 1%nat.
  (** No transition on \r or \n out of [row], for wide characters also behind
      zero bytes. *)
  Definition unlined (rows : list (list N)) (row : N) : Prop :=
    forall n p c x, (n = O \/ (compressed k = true /\ n = lim)) -> zero_steps n zero rows row = Ok p ->
      (c = cr \/ c = nl) -> get_cell rows p (ix_trans + c) = Ok x -> x = 0.
  Lemma fix_one_same eol rows rows' : unlined rows eol -> fix_one cr nl eol rows = Ok rows' -> rows' = rows.
  Proof.
    intros U E. unfold fix_one in E. apply bind_ok in E as (es & _ & E). apply bind_ok in E as (cs & E1 & E).
    apply bind_ok in E as (ns & E2 & E). rewrite (N.add_comm cr) in E1. rewrite (N.add_comm nl) in E2.
    rewrite (U O eol cr cs) in E by auto. rewrite N.eqb_refl in E. cbn [bind snd fst] in E.
    rewrite (U O eol nl ns) in E by auto. rewrite N.eqb_refl in E. now injection E as <-.
  Qed.
  Lemma fix_one_wide_same eol i i' rows rows' : compressed k = true -> unlined rows eol -> i = O \/ i = lim ->
    fix_one_wide k width cr nl zero eol i rows = Ok (i', rows') -> rows' = rows /\ i' = lim.
  Proof.
    intros C U Hi E. unfold fix_one_wide in E. fold lim in E. apply bind_ok in E as (es & _ & E).
    apply bind_ok in E as (p & E1 & E). apply bind_ok in E as (cs & E2 & E).
    assert (Hl : (lim - i)%nat = O \/ (compressed k = true /\ (lim - i)%nat = lim)) by (destruct Hi; subst; [right; split; [auto|lia]|left; lia]).
    rewrite (U (lim - i)%nat p cr cs) in E by auto. rewrite N.eqb_refl in E. cbn [bind] in E.
    apply bind_ok in E as (ns & E3 & E). rewrite (U (lim - i)%nat p nl ns) in E by auto. rewrite N.eqb_refl in E.
    injection E as <- <-. split; [auto|]. destruct Hi as [->| ->]; lia.
  Qed.
  Theorem fix_clashes_same eols : forall i rows rows', Forall (unlined rows) eols -> i = O \/ i = lim ->
    fix_clashes k width cr nl zero eols i rows = Ok rows' -> rows' = rows.
  Proof.
    induction eols as [|e eols IH]; intros i rows rows' F Hi E; cbn [fix_clashes] in E; [now injection E|].
    inversion F; subst. destruct (compressed k) eqn:C.
    - apply bind_ok in E as ((i1, r1) & E1 & E). cbn [fst snd] in E.
      apply fix_one_wide_same in E1 as [-> ->]; auto. eapply IH; [|right; reflexivity|exact E]. auto.
    - apply bind_ok in E as (r1 & E1 & E). apply fix_one_same in E1; [|auto]. subst r1. eapply IH; eauto.
  Qed.
End Fix.
