(** The loop bounds do not influence what lookup returns. *)
From Verif Require Import Base StateMachine Lookup LookupSpec LookupTile.
Local Open Scope N_scope.

Lemma scan_more f k t inp : forall c e s x f', (f <= f')%nat -> scan f k t inp c e s = Ok x -> scan f' k t inp c e s = Ok x.
Proof.
  induction f as [|f IH]; intros c e s x f' Hle H.
  - destruct f'; cbn [scan] in *; destruct (Nat.eqb c (length inp)); auto; discriminate.
  - destruct f' as [|f']; [lia|]. apply le_S_n in Hle. cbn [scan] in *.
    destruct (Nat.eqb c (length inp)); auto.
    destruct (nth_error inp c); auto. destruct (is_eol k t n s) as [[[] s1]|]; auto.
    + destruct (end_state k t s1 e c) as [[s2 e']|]; auto.
    + destruct (next_char k t n (ls_ptr s1)) as [[st p]|]; auto.
      destruct (st =? 0); auto. destruct (end_state _ _ _ _ _) as [[s4 e']|]; auto.
Qed.

Lemma attempt_more f f' k m inp bol st c x : (f <= f')%nat ->
  attempt f k m inp bol st c = Ok x -> attempt f' k m inp bol st c = Ok x.
Proof.
  intros Hle. unfold attempt. destruct (get_table m st); auto. destruct (ls_init _ _ _); auto.
  destruct (bol_start _ _ _); auto.
  destruct (scan f k t inp c c l0) eqn:E; cbn [bind]; try discriminate.
  rewrite (scan_more _ _ _ _ _ _ _ _ _ Hle E). auto.
Qed.

Lemma again_more i i' k m inp : (i <= i')%nat -> forall f f' r c x, (f <= f')%nat ->
  again f i k m inp r c = Ok x -> again f' i' k m inp r c = Ok x.
Proof.
  intros Hi. induction f as [|f IH]; intros f' r c x Hf H.
  - destruct f'; cbn [again] in *; destruct (Nat.eqb c (length inp)); auto; discriminate.
  - destruct f' as [|f']; [lia|]. apply le_S_n in Hf. cbn [again] in *.
    destruct (Nat.eqb c (length inp)); auto.
    destruct (attempt i k m inp (r_bol r) (r_state r) c) as [[s e]| | |] eqn:E; cbn [bind] in H; try discriminate.
    rewrite (attempt_more _ _ _ _ _ _ _ _ _ Hi E). cbn [bind].
    destruct (ls_end s); auto. destruct (pop k s (r_stack r)) as [[start stack]|]; auto.
    destruct (ls_id s =? skip_id k); auto. destruct (is_id_eoi _ _ _ _); auto.
Qed.

Theorem lookup_det f f' i i' k m inp r x y :
  lookup f i k m inp r = Ok x -> lookup f' i' k m inp r = Ok y -> x = y.
Proof.
  unfold lookup. intros H1 H2.
  apply (again_more _ (max i i') _ _ _ (Nat.le_max_l _ _) _ (max f f') _ _ _ (Nat.le_max_l _ _)) in H1.
  apply (again_more _ (max i i') _ _ _ (Nat.le_max_r _ _) _ (max f f') _ _ _ (Nat.le_max_r _ _)) in H2.
  congruence.
Qed.

(** There is one sequence of tokens. *)
Theorem lexes_det k m inp r l : lexes k m inp r l -> forall l', lexes k m inp r l' -> l = l'.
Proof.
  induction 1 as [f i r r' Hl Hid|f i r r' l Hl Hid Hx IH]; intros l' H'; inversion H' as [f' i' q q' Hl' Hid' E1 E2|f' i' q q' l2 Hl' Hid' Hx' E1 E2]; subst; auto;
    pose proof (lookup_det _ _ _ _ _ _ _ _ _ _ Hl Hl') as E; inversion E; subst; try congruence.
  f_equal. auto.
Qed.
