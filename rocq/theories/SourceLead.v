(** Proofs: what stands in front of a token. *)
From Verif Require Import Base StringToken RegexSpec Grammar RuleSpec ReToken
  ReTokeniser ReTokeniserProofs ReTokeniserNext SourceSpec SourceSets SourceEsc SourceClass.
Local Open Scope N_scope.

(** ** Flags *)
Lemma has_bit fl k : has fl (2 ^ k) = N.testbit fl k.
Proof.
  unfold has. destruct (N.testbit fl k) eqn:E.
  - destruct (N.eqb_spec (N.land fl (2 ^ k)) 0) as [Z|]; [|reflexivity]. exfalso.
    assert (X : N.testbit (N.land fl (2 ^ k)) k = true) by (rewrite N.land_spec, E, N.pow2_bits_true; reflexivity).
    rewrite Z, N.bits_0 in X. discriminate.
  - replace (N.land fl (2 ^ k)) with 0; [reflexivity|]. symmetry. apply N.bits_inj. intros i. rewrite N.land_spec, N.bits_0.
    destruct (N.eqb_spec k i) as [<-|H]; [rewrite E; reflexivity|]. rewrite N.pow2_bits_false by exact H. apply andb_false_r.
Qed.
Lemma has_icase fl : has fl rf_icase = f_icase fl.
Proof. apply (has_bit fl 0). Qed.
Lemma has_newline fl : has fl rf_dot_not_newline = f_dot_not_newline fl.
Proof. apply (has_bit fl 1). Qed.
Lemma has_cr_lf fl : has fl rf_dot_not_cr_lf = f_dot_not_cr_lf fl.
Proof. apply (has_bit fl 2). Qed.
Lemma has_skip fl : has fl rf_skip_ws = f_skip_ws fl.
Proof. apply (has_bit fl 3). Qed.
Lemma is_white_iff c : is_white c = true <-> is_space c.
Proof. unfold is_white, white, is_space. cbn [existsb]. lia. Qed.

(** ** Fuel *)
Lemma skip_enough f : forall f' c inp sk, (length inp < f)%nat -> (length inp < f')%nat -> skip_loop f c inp sk = skip_loop f' c inp sk.
Proof.
  induction f as [|f IH]; intros [|f'] c inp sk H1 H2; try lia. cbn [skip_loop].
  destruct ((c =? 47) && (peek inp =? 42)).
  - destruct (c_comment_end (tl inp)) as [[|d r]|] eqn:E; auto. apply c_comment_end_tail, sfx_len in E.
    assert (length (tl inp) <= length inp)%nat by (destruct inp; cbn [tl length]; lia). cbn [length] in E. apply IH; lia.
  - destruct (is_white c); [|reflexivity]. destruct inp as [|d r]; [reflexivity|]. cbn [length] in *. apply IH; lia.
Qed.
Lemma skip_true f : forall c inp, match skip_loop f c inp true with Ok (_, _, k) => k = true | _ => True end.
Proof.
  induction f as [|f IH]; intros c inp; cbn [skip_loop]; [auto|]. destruct (_ && _).
  - destruct (c_comment_end (tl inp)) as [[|d r]|]; auto. apply IH.
  - destruct (is_white c); [|auto]. destruct inp as [|d r]; auto. apply IH.
Qed.
Lemma lead_enough f : forall f' fl c inp str, (length inp < f)%nat -> (length inp < f')%nat -> lead f fl c inp str = lead f' fl c inp str.
Proof.
  induction f as [|f IH]; intros [|f'] fl c inp str H1 H2; try lia. cbn [lead].
  pose proof (quotes_ok inp c str) as Q. destruct (quotes c inp str) as [[[c1|] r1] str1]; [|auto].
  destruct Q as [Q _]. pose proof (comment_ok c1 r1 str1) as C.
  assert (L1 : (length r1 <= length inp)%nat) by (pose proof (sfx_len _ _ Q); cbn [length] in *; lia).
  destruct (comment c1 r1 str1) as [[[[c2|] r2]|]| | |]; cbn [bind]; auto.
  - assert (L2 : (length r2 < length r1)%nat) by (pose proof (sfx_len _ _ C); cbn [length] in *; lia).
    pose proof (skip_ok fl c2 r2 str1) as K. destruct (skip fl c2 r2 str1) as [[[[c3|] r3] sk]| | |]; cbn [bind]; auto.
    destruct K as [K _]. pose proof (sfx_len _ _ K) as L3. cbn [length] in L3. apply IH; lia.
  - pose proof (skip_ok fl c1 r1 str1) as K. destruct (skip fl c1 r1 str1) as [[[[c3|] r3] sk]| | |]; cbn [bind]; auto.
    destruct K as [K K2]. destruct sk; [|reflexivity].
    assert (L3 : (length r3 < length r1)%nat).
    { destruct K2 as [(K2 & _)|K2]; [discriminate|]. apply tail_len in K2. cbn [length] in K2. lia. }
    apply IH; lia.
Qed.

Definition leadl (fl : N) (inp : list N) (str : bool) : res (option N * list N * bool) :=
  match inp with [] => Ok (None, [], str) | c :: r => lead (S (length r)) fl c r str end.
Lemma next_lead b lhs s : next b lhs s =
  do x <- leadl (rs_flags s) (rs_inp s) (rs_string s);
  let '(oc, r, str) := x in
  let s1 := {| rs_inp := r; rs_size := rs_size s; rs_flags := rs_flags s; rs_stack := rs_stack s;
               rs_parens := rs_parens s; rs_string := str |} in
  match oc with
  | None =>
    if str then Throw ETokenise
    else if negb (rs_parens s =? 0) then Throw ETokenise
    else Ok (tok END, s1)
  | Some c => on_char b lhs c s1
  end.
Proof. reflexivity. Qed.

(** ** Strings *)
Lemma lead_quote fl r str : leadl fl (34 :: r) str = leadl fl r (negb str).
Proof.
  cbn [leadl]. destruct r as [|d r]; [reflexivity|]. cbn [leadl].
  rewrite <- (lead_enough (S (length (d :: r))) (S (length r)) fl d r (negb str)) by (cbn [length]; lia). reflexivity.
Qed.
Lemma quotes_other c inp str : c <> 34 -> quotes c inp str = (Some c, inp, str).
Proof. intros H. apply N.eqb_neq in H. destruct inp; cbn [quotes]; now rewrite H. Qed.
Lemma lead_in_string fl c r : c <> 34 -> leadl fl (c :: r) true = Ok (Some c, r, true).
Proof.
  intros H. cbn [leadl lead]. rewrite quotes_other by exact H. unfold comment, skip. cbn [negb andb]. rewrite andb_false_r. reflexivity.
Qed.

(** ** Outside of strings *)
Definition plain_start (fl c : N) (r : list N) : Prop :=
  c <> 34 /\ (c = 40 -> forall t, r <> 63 :: 35 :: t) /\
  (f_skip_ws fl = true -> ~ is_space c /\ (c = 47 -> ~ begins (eq 42) r)).
Lemma no_comment c r : (c = 40 -> forall t, r <> 63 :: 35 :: t) -> comment c r false = Ok None.
Proof.
  intros H. unfold comment. cbn [negb andb]. destruct (N.eqb_spec c 40) as [->|]; [|reflexivity]. cbn [andb].
  destruct (N.eqb_spec (peek r) 63) as [E|]; [|reflexivity]. cbn [andb]. destruct (N.eqb_spec (peek (tl r)) 35) as [E2|]; [|reflexivity].
  exfalso. destruct r as [|x [|y t]]; cbn in E, E2; try discriminate. subst. now apply (H eq_refl t).
Qed.
Lemma lead_plain fl c r : plain_start fl c r -> leadl fl (c :: r) false = Ok (Some c, r, false).
Proof.
  intros (H1 & H2 & H3). cbn [leadl lead]. rewrite quotes_other by exact H1. rewrite no_comment by exact H2. cbn [bind].
  unfold skip. rewrite has_skip. cbn [negb]. rewrite andb_true_r. destruct (f_skip_ws fl); [|reflexivity]. destruct (H3 eq_refl) as [H4 H5].
  cbn [skip_loop]. replace ((c =? 47) && (peek r =? 42)) with false.
  2:{ symmetry. destruct (N.eqb_spec c 47) as [->|]; [|reflexivity]. cbn [andb]. apply peek_isnt; [auto|discriminate]. }
  destruct (is_white c) eqn:E; [apply is_white_iff in E; tauto|]. reflexivity.
Qed.
(** Skipping and looking again is looking. *)
Lemma after_skip fl n f f' c inp : f_skip_ws fl = true -> (length inp < n)%nat -> (length inp < f)%nat -> (length inp < f')%nat ->
  (do x <- skip_loop n c inp true;
   match x with
   | (None, r3, _) => Ok (None, r3, false)
   | (Some c3, r3, _) => lead f fl c3 r3 false
   end) = lead f' fl c inp false.
Proof.
  intros FS Hn Hf Hf'. destruct n as [|n]; [lia|]. destruct f' as [|f']; [lia|].
  destruct ((c =? 47) && (peek inp =? 42) || is_white c) eqn:E.
  - assert (C : c <> 34 /\ c <> 40).
    { apply orb_true_iff in E as [E|E]; [lia|]. apply is_white_iff in E. unfold is_space in E. lia. }
    destruct C as [C1 C2]. cbn [lead]. rewrite quotes_other by exact C1. rewrite no_comment by (intros; contradiction). cbn [bind].
    unfold skip. rewrite has_skip, FS. cbn [negb andb]. rewrite <- (skip_enough (S n) (S (length inp))) by lia.
    pose proof (skip_ok fl c inp false) as K. unfold skip in K. rewrite has_skip, FS in K. cbn [negb andb] in K.
    rewrite <- (skip_enough (S n) (S (length inp))) in K by lia.
    cbn [skip_loop] in *. destruct ((c =? 47) && (peek inp =? 42)).
    + destruct (c_comment_end (tl inp)) as [[|d r]|]; auto. pose proof (skip_true n d r) as T.
      destruct (skip_loop n d r true) as [[[[c3|] r3] k]| | |]; cbn [bind]; auto. subst k.
      destruct K as [_ [(K & _)|K]]; [discriminate|]. apply tail_len in K. cbn [length] in K. apply lead_enough; lia.
    + cbn [orb] in E. rewrite E in *. destruct inp as [|d r]; [reflexivity|]. pose proof (skip_true n d r) as T.
      destruct (skip_loop n d r true) as [[[[c3|] r3] k]| | |]; cbn [bind]; auto. subst k.
      destruct K as [_ [(K & _)|K]]; [discriminate|]. apply tail_len in K. cbn [length] in *. apply lead_enough; lia.
  - apply orb_false_iff in E as [E1 E2]. cbn [skip_loop]. rewrite E1, E2. cbn [bind]. apply lead_enough; lia.
Qed.
Lemma after_comment fl f f' c inp : (length inp < f)%nat -> (length inp < f')%nat ->
  (do x <- skip fl c inp false;
   match x with
   | (None, r3, _) => Ok (None, r3, false)
   | (Some c3, r3, _) => lead f fl c3 r3 false
   end) = lead f' fl c inp false.
Proof.
  intros Hf Hf'. unfold skip. rewrite has_skip. cbn [negb]. rewrite andb_true_r. destruct (f_skip_ws fl) eqn:FS.
  - rewrite <- (after_skip fl (S (length inp)) f f' c inp FS) by lia. cbn [skip_loop]. destruct (_ && _); [reflexivity|]. destruct (is_white c); reflexivity.
  - cbn [bind]. apply lead_enough; lia.
Qed.

(** ** Text that means nothing *)
Lemma comment_end_nested t : nested t -> forall n r, 1 <= n -> comment_end n (t ++ r) = comment_end n r.
Proof.
  induction 1 as [|c t H1 H2 H IH|t u H1 IH1 H2 IH2]; intros n r Hn; cbn [app comment_end]; [reflexivity| |].
  - rewrite (proj2 (N.eqb_neq c 40)), (proj2 (N.eqb_neq c 41)) by assumption. now apply IH.
  - change (40 =? 40) with true. cbv iota. rewrite <- app_assoc. rewrite IH1 by lia. cbn [app comment_end].
    change (41 =? 40) with false. change (41 =? 41) with true. cbv iota. rewrite (proj2 (N.eqb_neq (n + 1) 1)) by lia.
    replace (n + 1 - 1) with n by lia. now apply IH2.
Qed.
Lemma c_comment_text t r : (forall u v, t <> u ++ 42 :: 47 :: v) -> c_comment_end (t ++ 42 :: 47 :: r) = Some r.
Proof.
  induction t as [|c t IH]; intros H; [reflexivity|]. cbn [app c_comment_end].
  replace ((c =? 42) && (peek (t ++ 42 :: 47 :: r) =? 47)) with false.
  - apply IH. intros u v E. apply (H (c :: u) v). now rewrite E.
  - symmetry. destruct (N.eqb_spec c 42) as [->|]; [|reflexivity]. cbn [andb]. apply N.eqb_neq. destruct t as [|d t]; cbn [app peek hd]; [discriminate|].
    intros ->. now apply (H [] t).
Qed.
Lemma lead_pad fl p r : pad fl p -> leadl fl (p ++ r) false = leadl fl r false.
Proof.
  intros H. destruct H as [t H| |c H1 H2|t H1 H2].
  - cbn [app leadl]. rewrite <- app_assoc. cbn [app lead]. rewrite quotes_other by discriminate.
    unfold comment. cbn [negb andb peek hd tl]. change (40 =? 40) with true. change (63 =? 63) with true. change (35 =? 35) with true. cbn [andb].
    rewrite (comment_end_nested t H 1 (41 :: r)) by lia. cbn [comment_end]. change (41 =? 40) with false. change (41 =? 41) with true. change (1 =? 1) with true. cbn [bind].
    destruct r as [|d r]; cbn [ch_next]; [reflexivity|]. cbn [leadl]. apply after_comment; cbn [length]; [rewrite app_length; cbn [length]; lia|lia].
  - cbn [app]. now rewrite !lead_quote.
  - cbn [app leadl lead]. assert (C : c <> 34 /\ c <> 40 /\ c <> 47) by (unfold is_space in H2; lia). destruct C as (C1 & C2 & C3).
    rewrite quotes_other by exact C1. rewrite no_comment by (intros; contradiction). cbn [bind].
    unfold skip. rewrite has_skip, H1. cbn [negb andb skip_loop]. rewrite (proj2 (N.eqb_neq c 47)) by exact C3. cbn [andb].
    apply is_white_iff in H2. rewrite H2. destruct r as [|d r]; [reflexivity|]. cbn [leadl].
    rewrite <- (after_skip fl (length (d :: r)) (length (d :: r)) (S (length r)) d r H1) by (cbn [length]; lia).
    pose proof (skip_true (length (d :: r)) d r) as T. destruct (skip_loop (length (d :: r)) d r true) as [[[[c3|] r3] k]| | |]; auto. subst k. reflexivity.
  - cbn [app leadl lead]. rewrite quotes_other by discriminate. rewrite no_comment by discriminate. cbn [bind].
    unfold skip. rewrite has_skip, H1. cbn [negb andb skip_loop]. cbn [peek hd tl]. change (47 =? 47) with true. change (42 =? 42) with true. cbn [andb].
    rewrite <- app_assoc. cbn [app]. rewrite c_comment_text by exact H2. destruct r as [|d r]; [reflexivity|]. cbn [leadl].
    set (n := length (42 :: t ++ 42 :: 47 :: d :: r)).
    assert (L : (S (S (length r)) < n)%nat) by (unfold n; cbn [length]; rewrite app_length; cbn [length]; lia).
    rewrite <- (after_skip fl n n (S (length r)) d r H1) by lia.
    pose proof (skip_true n d r) as T. destruct (skip_loop n d r true) as [[[[c3|] r3] k]| | |]; auto. subst k. reflexivity.
Qed.
