(** What pruning of end of line clashes leaves: a part of the vector, in order,
    in which every position was looked at. *)
From Verif Require Import Base StringToken StateMachine Tree Partition Generator.
From Coq Require Import Sorted.

Inductive subl {A} : list A -> list A -> Prop :=
| subl_nil : subl [] []
| subl_skip x l m : subl l m -> subl l (x :: m)
| subl_keep x l m : subl l m -> subl (x :: l) (x :: m).
Lemma subl_refl {A} (l : list A) : subl l l.
Proof. induction l; [apply subl_nil|apply subl_keep; auto]. Qed.
Lemma subl_trans {A} (b c : list A) : subl b c -> forall a, subl a b -> subl a c.
Proof.
  induction 1 as [|x l m H IH|x l m H IH]; intros a Ha; [auto|apply subl_skip; auto|].
  inversion Ha; subst; [apply subl_skip; auto|apply subl_keep; auto].
Qed.
Lemma subl_In {A} (a b : list A) : subl a b -> forall x, In x a -> In x b.
Proof.
  induction 1 as [|y l m H IH|y l m H IH]; intros x Hx; [auto|right; auto|].
  destruct Hx as [->|Hx]; [left; auto|right; auto].
Qed.
Lemma subl_sorted {A} (R : A -> A -> Prop) (a b : list A) : subl a b ->
  StronglySorted R b -> StronglySorted R a.
Proof.
  induction 1 as [|y l m H IH|y l m H IH]; intros HS; [auto|inversion HS; auto|].
  inversion HS as [|? ? S1 F1]; subst. constructor; [auto|]. apply Forall_forall. intros x Hx.
  rewrite Forall_forall in F1. apply F1. eapply subl_In; eauto.
Qed.
Lemma erase_subl {A} (l : list A) : forall i, subl (erase_at l i) l.
Proof.
  induction l as [|x l IH]; intros i; [destruct i; constructor|].
  destruct i as [|i]; [apply subl_skip, subl_refl|]. unfold erase_at. cbn. apply subl_keep. apply IH.
Qed.
Lemma erase_firstn {A} (l : list A) : forall i j, j <= i -> firstn j (erase_at l i) = firstn j l.
Proof.
  induction l as [|x l IH]; intros i j H; [destruct i; reflexivity|].
  destruct j as [|j]; [reflexivity|]. destruct i as [|i]; [lia|].
  unfold erase_at. cbn. f_equal. apply IH. lia.
Qed.

(** [b] is [a] with some elements from position [j] on left out. *)
Definition thins (j : nat) (a b : list nat) : Prop := subl b a /\ firstn j b = firstn j a.
Lemma thins_refl j a : thins j a a.
Proof. split; [apply subl_refl|auto]. Qed.
Lemma thins_trans j a b c : thins j a b -> thins j b c -> thins j a c.
Proof. intros [A1 A2] [B1 B2]. split; [eapply subl_trans; eauto|congruence]. Qed.
Lemma thins_erase j i a : j <= i -> thins j a (erase_at a i).
Proof. intros H. split; [apply erase_subl|now apply erase_firstn]. Qed.
Lemma thins_less i j a b : i <= j -> thins j a b -> thins i a b.
Proof.
  intros H [A B]. split; [auto|].
  replace (firstn i b) with (firstn i (firstn j b)) by (rewrite firstn_firstn; f_equal; lia).
  rewrite B, firstn_firstn. f_equal. lia.
Qed.

Ltac bok H := match type of H with
  | bind ?e _ = Ok _ => let x := fresh "x" in let E := fresh "E" in
      destruct e as [x| | |] eqn:E; cbn [bind] in H; try discriminate
  end.

Section Prune.
Variables (k : gcfg) (s : store) (sm : list (list N)).

Lemma prune_cr_thins nl crf : forall fp j fp', prune_cr s sm nl crf fp j = Ok fp' -> thins j fp fp'.
Proof.
  induction crf as [|c crf IH]; intros fp j fp' H; cbn [prune_cr] in H.
  - injection H as <-. apply thins_refl.
  - bok H. destruct x; [auto|]. bok H. destruct x; [|auto]. bok H. bok H. destruct x0; [|auto].
    destruct (Nat.ltb j (length fp)); [|discriminate].
    eapply thins_trans; [apply (thins_erase j j); auto|auto].
Qed.
Lemma prune_NL_thins cr nl fuel : forall fp j fp', prune_NL fuel s sm cr nl fp j = Ok fp' -> thins j fp fp'.
Proof.
  induction fuel as [|fuel IH]; intros fp j fp' H; cbn [prune_NL] in H; [discriminate|].
  destruct (nth_error fp j) as [p|]; [|injection H as <-; apply thins_refl].
  bok H. destruct x; [apply (thins_less j (S j)); auto|]. bok H.
  destruct (if x then _ else _) as [fp1| | |] eqn:E1 in H; cbn [bind] in H; try discriminate.
  assert (T : thins j fp fp1).
  { destruct x.
    - bok E1. eapply prune_cr_thins; eauto.
    - injection E1 as <-. apply thins_refl. }
  destruct (Nat.eqb j (length fp1)); [injection H as <-; auto|]. bok H.
  eapply thins_trans; [exact T|]. destruct x0.
  - bok H. bok H. destruct x1.
    + eapply thins_trans; [apply (thins_erase j j); auto|auto].
    + apply (thins_less j (S j)); auto.
  - apply (thins_less j (S j)); auto.
Qed.
Lemma erase_eols_thins fuel : forall fp j node r, erase_eols fuel k s fp j node = Ok r -> thins j fp (fst r).
Proof.
  induction fuel as [|fuel IH]; intros fp j node r H; cbn [erase_eols] in H; [discriminate|].
  destruct (nth_error fp j) as [p|]; [|injection H as <-; apply thins_refl].
  bok H. bok H. destruct (negb x && (x0 =? eol_tok k)%N).
  - eapply thins_trans; [apply (thins_erase j j); auto|eauto].
  - apply (thins_less j (S j)); eauto.
Qed.
Lemma prune_eol_cr_thins nl crf : forall fp i node r, prune_eol_cr k s sm nl crf fp i node = Ok r ->
  thins (S i) fp (fst r).
Proof.
  induction crf as [|c crf IH]; intros fp i node r H; cbn [prune_eol_cr] in H.
  - injection H as <-. apply thins_refl.
  - bok H. destruct x; [eauto|]. bok H. destruct x; [|eauto]. bok H. bok H. destruct x0; [|eauto].
    bok H. eapply thins_trans; [eapply erase_eols_thins; eauto|eauto].
Qed.
Lemma prune_eol_thins cr nl fp i p fp' : prune_eol k s sm cr nl fp i p = Ok fp' -> thins (S i) fp fp'.
Proof.
  unfold prune_eol. intros H. bok H. destruct (nth_error sm (N.to_nat x)) as [set|]; [|discriminate].
  destruct (if existsb (N.eqb cr) set then _ else _) as [y| | |] eqn:E1 in H; cbn [bind] in H; try discriminate.
  assert (T : thins (S i) fp (fst y)).
  { destruct (existsb (N.eqb cr) set).
    - bok E1. eapply prune_eol_cr_thins; eauto.
    - injection E1 as <-. apply thins_refl. }
  destruct (existsb (N.eqb nl) set); [|injection H as <-; auto]. bok H. bok H.
  destruct x1; [|injection H as <-; auto]. bok H. injection H as <-.
  eapply thins_trans; [exact T|]. eapply erase_eols_thins; eauto.
Qed.

(** A position that pruning can look at. *)
Definition seen_leaf (p : nat) : Prop :=
  forall t g f, nth_error s p = Some (PLeaf t g f) -> t = eol_tok k \/ nth_error sm (N.to_nat t) <> None.
Lemma thins_nth j a b i : thins j a b -> (i < j)%nat -> nth_error b i = nth_error a i.
Proof.
  intros [_ E] H. assert (X : forall l : list nat, nth_error (firstn j l) i = nth_error l i).
  { clear - H. revert i H. induction j as [|j IH]; intros i H l; [lia|].
    destruct l, i; cbn; auto. apply IH. lia. }
  now rewrite <- (X b), <- (X a), E.
Qed.
Theorem prune_clashes_ok cr nl fuel : forall fp i fp', prune_clashes fuel k s sm cr nl fp i = Ok fp' ->
  thins i fp fp' /\ forall j p, (i <= j)%nat -> nth_error fp' j = Some p -> seen_leaf p.
Proof.
  induction fuel as [|fuel IH]; intros fp i fp' H; cbn [prune_clashes] in H; [discriminate|].
  destruct (nth_error fp i) as [p|] eqn:Ep.
  2:{ injection H as <-. split; [apply thins_refl|]. intros j q Hj Hq.
      assert (j < length fp)%nat by (apply nth_error_Some; congruence).
      apply nth_error_None in Ep. lia. }
  bok H.
  assert (NEXT : forall fp1, thins (S i) fp fp1 -> seen_leaf p ->
     prune_clashes fuel k s sm cr nl fp1 (S i) = Ok fp' ->
     thins i fp fp' /\ forall j q, (i <= j)%nat -> nth_error fp' j = Some q -> seen_leaf q).
  { intros fp1 T HP H1. destruct (IH _ _ _ H1) as [T1 O1]. split.
    - apply (thins_less i (S i)); [lia|]. eapply thins_trans; eauto.
    - intros j q Hj Hq. destruct (Nat.eq_dec j i) as [->|Hn]; [|apply (O1 j q); auto; lia].
      rewrite (thins_nth (S i) fp1 fp' i T1), (thins_nth (S i) fp fp1 i T), Ep in Hq by lia. injection Hq as <-. exact HP. }
  unfold end_node in E. destruct (nth_error s p) as [[t g f|e]|] eqn:Es; try discriminate; injection E as <-.
  - unfold token_of in H. rewrite Es in H. cbn [bind] in H. bok H.
    apply (NEXT x); auto.
    + destruct (t =? eol_tok k)%N; [eapply prune_NL_thins; eauto|eapply prune_eol_thins; eauto].
    + intros t' g' f' Et. rewrite Es in Et. injection Et as <- <- <-.
      destruct (N.eqb_spec t (eol_tok k)) as [->|]; [auto|]. right.
      unfold prune_eol, token_of in E. rewrite Es in E. cbn [bind] in E.
      destruct (nth_error sm (N.to_nat t)); [discriminate|discriminate].
  - apply (NEXT fp); [apply thins_refl| |auto]. intros t' g' f' Et. congruence.
Qed.
End Prune.
