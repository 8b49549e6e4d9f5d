(** The feature bits announce what the rules of a start state need. *)
From Verif Require Import Base StringToken StringTokenSpec StateMachine Tree Generator ReToken Parser Build ReTokeniser ReTokeniserNext Rules
  TokeniseSpec PruneProofs TokeniseAll RulesSpec RulesInv RulesContent.
Local Open Scope N_scope.

Lemma bit_lor f g b : bit (N.lor f g) b <-> bit f b \/ bit g b.
Proof.
  unfold bit. rewrite N.land_lor_distr_l. split.
  - intros H. destruct (N.eq_dec (N.land f b) 0) as [E|E]; [|auto]. right. intros E'. apply H. now rewrite E, E'.
  - intros H E. apply N.lor_eq_0_iff in E. tauto.
Qed.
Lemma removelast_nth (l : list token) x y : nth_error l (length l - 2) = Some y -> (2 <= length l)%nat -> starts x (rev (removelast l)) = is_type x y.
Proof.
  destruct l as [|b l _] using rev_ind; [cbn; lia|]. rewrite removelast_last, app_length. cbn [length].
  destruct l as [|a l _] using rev_ind; [cbn; lia|]. rewrite rev_app_distr. cbn [rev app starts]. rewrite app_length. cbn [length].
  replace (length l + 1 + 1 - 2)%nat with (length l) by lia. rewrite <- app_assoc, nth_error_app2, Nat.sub_diag by lia. cbn. intros [= <-]. reflexivity.
Qed.
Lemma feature_bits_says k Q h l id rec bits : feature_bits k h l id rec = Ok bits -> mvec Q h -> mvec Q l -> 1 < rnpos k ->
  (starts BOL (tl h) = true -> bit bits fb_bol) /\ (ends EOL (removelast l) = true -> bit bits fb_eol) /\
  (id = rskip k -> bit bits fb_skip) /\ (id = 0 -> bit bits fb_again) /\ (rec = true -> bit bits fb_rec).
Proof.
  intros E (w & -> & _) (v & -> & _) HN. unfold feature_bits in E. destruct (nth_error (between w) 1) as [f|] eqn:E1; [|discriminate].
  destruct (nth_error (between v) (length (between v) - 2)) as [t|] eqn:E2; [|discriminate]. injection E as <-.
  assert (S1 : starts BOL (tl (between w)) = is_type BOL f).
  { unfold between in *. cbn [tl nth_error] in *. destruct (w ++ [tok END]); cbn in E1; [discriminate|]. injection E1 as ->. reflexivity. }
  assert (S2 : ends EOL (removelast (between v)) = is_type EOL t) by (apply removelast_nth; [auto|cbn; rewrite app_length; cbn; lia]).
  rewrite !bit_lor, S1, S2. assert (RS : rskip k <> 0) by (unfold rskip; lia).
  split; [intros ->; left; left; discriminate|]. split; [intros ->; left; right; discriminate|].
  split; [intros ->; rewrite N.eqb_refl; right; left; discriminate|].
  split; [intros ->; right; left; destruct (N.eqb_spec 0 (rskip k)); [congruence|]; discriminate|].
  intros ->. right. right. discriminate.
Qed.

Section Feat.
  Variable k : rcfg.
  Hypothesis NPOS : 1 < rnpos k.
  Notation b := (r_bytes k).
  Definition feats (r : rules) : Prop := forall i, Forall (announced k (nth i (ru_features r) 0)) (rules_at r i).
  Lemma announced_more f g x : announced k f x -> announced k (N.lor f g) x.
  Proof. intros (A & B & C & D & E). unfold announced. rewrite !bit_lor. auto 10. Qed.
  Lemma feats_same r r' : ru_features r' = ru_features r -> (forall i, rules_at r' i = rules_at r i) -> feats r -> feats r'.
  Proof. intros E1 E2 F i. rewrite E1, E2. apply F. Qed.
  Lemma feats_new flags : feats (make_rules k flags).
  Proof.
    unfold make_rules, push_state. change (validate initial) with true. cbn [no_rules ru_map map_get].
    destruct (rnpos k <? _); cbn [fst]; intros [|[|i]]; unfold rules_at; cbn [ru_regexes ru_ids ru_uids ru_nexts ru_pushes ru_pops app nth]; constructor.
  Qed.
  Lemma feats_push_state name r : aligned k r -> feats r -> feats (fst (push_state k name r)).
  Proof.
    intros A F. unfold push_state. destruct (validate name); [|auto]. destruct (map_get _ _); [auto|].
    assert (G : forall i, Forall (announced k (nth i (ru_features r ++ [0]) 0)) (rules_at r i)).
    { intros i. destruct (Nat.lt_ge_cases i (length (ru_features r))) as [H|H].
      - rewrite app_nth1 by auto. apply F.
      - unfold rules_at. destruct (al_states _ _ A) as (E1 & _ & E3 & _). rewrite (nth_overflow (ru_regexes r)) by lia. constructor. }
    destruct (_ <? _); cbn [fst]; intros i; unfold rules_at; cbn [ru_regexes ru_ids ru_uids ru_nexts ru_pushes ru_pops ru_features]; rewrite !nth_snoc; apply G.
  Qed.
  Lemma feats_add i x v bits id uid next push pop r : aligned k r -> feats r ->
    Forall (fun t => announced k bits (mk_rule id uid next push pop t)) v -> feats (add_rules i x v bits id uid next push pop r).
  Proof.
    intros A F V j. rewrite (rules_at_add k) by auto. unfold add_rules. cbn [ru_features]. rewrite nth_upd. destruct (al_states _ _ A) as (_ & _ & E3 & _).
    rewrite E3. destruct (Nat.eqb_spec i j) as [->|N]; cbn [andb].
    - destruct (Nat.ltb j (length (ru_map r))) eqn:L.
      + apply Forall_app. split.
        * eapply Forall_impl; [|apply F]. intros y. apply announced_more.
        * rewrite Forall_map. eapply Forall_impl; [|exact V]. intros t. cbv beta. rewrite N.lor_comm. apply announced_more.
      + rewrite app_nil_r. apply F.
    - rewrite app_nil_r. apply F.
  Qed.
  (** The rules of one call. *)
  Lemma last_mvec (v : list (list token)) Q : v <> [] -> Forall (mvec Q) v -> mvec Q (last v []).
  Proof. intros N F. destruct v as [|t v _] using rev_ind; [congruence|]. rewrite last_last. apply Forall_app in F. destruct F as [_ F]. now inversion F. Qed.
  Lemma parts_announced h v id uid next push pop rec bits : feature_bits k h (last v []) id rec = Ok bits ->
    v <> [] -> Forall (mvec (chars b)) v -> edges v -> mvec (chars b) h -> (starts BOL (tl (hd [] v)) = true -> starts BOL (tl h) = true) ->
    (pop = true \/ push <> rnpos k -> rec = true) ->
    Forall (fun t => announced k bits (mk_rule id uid next push pop t)) v.
  Proof.
    intros E Hv M [D1 D2] Mh Hh Hr. destruct (feature_bits_says _ _ _ _ _ _ _ E Mh (last_mvec v _ Hv M) NPOS) as (B1 & B2 & B3 & B4 & B5).
    apply Forall_forall. intros t Ht. unfold announced, mk_rule. cbn [gr_tokens gr_id gr_pop gr_push].
    split; [|split; [|split; [auto|split; auto]]].
    - intros S. apply B1, Hh. destruct v as [|x v]; [congruence|]. cbn [hd tl] in *. destruct Ht as [->|Ht]; [auto|].
      rewrite Forall_forall in D1. specialize (D1 t Ht). congruence.
    - intros S. apply B2. destruct v as [|x v _] using rev_ind; [congruence|]. rewrite last_last. rewrite removelast_last in D2.
      apply in_app_iff in Ht. destruct Ht as [Ht|[->|[]]]; [|auto]. rewrite Forall_forall in D2. specialize (D2 t Ht). congruence.
  Qed.
  Lemma last_cons_d (t : list token) ts d : last (t :: ts) d = last ts t.
  Proof. destruct ts as [|u ts _] using rev_ind; [reflexivity|]. change (t :: ts ++ [u]) with ((t :: ts) ++ [u]). now rewrite !last_last. Qed.
  Lemma feats_push_rule x id uid r : aligned k r -> content k r -> text_ok k r (ru_macros r) x true -> feats r -> feats (fst (push_rule k x id uid r)).
  Proof.
    intros A C (T1 & T2 & T3) F. unfold push_rule. destruct (bad_id k id); [auto|].
    pose proof (tokenise_ok b (ru_flags r) _ x true (co_macros _ _ C) T1 T2 T3) as O.
    destruct (tokenise _ _ _ _ _) as [[|t ts]| | |]; cbn [fst]; auto. destruct O as (O1 & O2 & O3).
    destruct (feature_bits k t (last ts t) id false) eqn:E; cbn [fst]; auto. apply feats_add; auto.
    rewrite <- (last_cons_d t ts []) in E. inversion O2; subst. eapply parts_announced; eauto. intros [H|H]; congruence.
  Qed.
  Lemma feats_push_each x id uid e is : id <> rnpos k -> forall r, aligned k r -> content k r -> text_ok k r (ru_macros r) x true ->
    exit_ok (length (ru_map r)) e -> Forall (fun i => i < N.of_nat (length (ru_map r))) is ->
    (forall v, tokenise b (ru_flags r) (ru_macros r) x true = Ok v -> starts BOL (tl (hd [] v)) = true -> length v = 1%nat) ->
    feats r -> feats (fst (push_each k x id uid e is r)).
  Proof.
    intros Hid. induction is as [|i is IH]; intros r A C T He Hi HU F; [auto|].
    cbn [push_each]. pose proof T as (T1 & T2 & T3). pose proof (tokenise_ok b (ru_flags r) _ x true (co_macros _ _ C) T1 T2 T3) as O.
    destruct (tokenise b _ _ x true) as [[|t ts]| | |] eqn:ET; cbn [fst]; auto. destruct O as (O1 & O2 & O3).
    destruct (feature_bits k _ _ id (exit_rec e)) as [bits| | |] eqn:E; cbn [fst]; auto.
    inversion Hi as [|? ? Hi1 Hi2]; subst. destruct (Nat.ltb_spec (N.to_nat i) (length (ru_regexes r))) as [L|L]; [|auto].
    apply (IH (add_rules (N.to_nat i) x (t :: ts) bits id uid (exit_next e i k) (exit_push e i k) (exit_pop e) r)); auto.
    - now apply aligned_add_rules.
    - apply content_add; auto.
      + destruct e; cbn [exit_next exit_pop exit_ok] in *; auto; left; tauto.
      + destruct e as [| | |n [q|]]; cbn [exit_push exit_ok] in *; auto; right; tauto.
    - cbn [add_rules ru_flags ru_macros]. rewrite ET. auto.
    - apply feats_add; auto. rewrite <- (last_cons_d t ts []) in E. eapply parts_announced; eauto.
      + now apply last_mvec.
      + intros S. specialize (HU _ eq_refl S). destruct ts; [exact S|discriminate].
      + destruct e as [| | |n [q|]]; cbn [exit_pop exit_push exit_rec]; intros [H|H]; congruence.
  Qed.
  Theorem feats_apply o r : aligned k r -> content k r -> op_ok k r o -> op_unsplit k r o -> feats r -> feats (fst (apply k o r)).
  Proof.
    assert (PS : forall c x id n check uid, aligned k r -> content k r -> text_ok k r (ru_macros r) x true -> (check = false -> id <> rnpos k) ->
      (forall v, tokenise b (ru_flags r) (ru_macros r) x true = Ok v -> starts BOL (tl (hd [] v)) = true -> length v = 1%nat) ->
      feats r -> feats (fst (push_states k c x id n check uid r))).
    { intros c x id n check uid A C T H U F. unfold push_states. destruct (check && bad_id k id) eqn:B; [auto|].
      assert (Hid : id <> rnpos k).
      { destruct check; [|auto]. cbn in B. unfold bad_id in B. apply orb_false_iff in B. destruct B as [_ B]. now apply N.eqb_neq. }
      pose proof (parse_exit_ok k n r A) as E. destruct (parse_exit n r); auto.
      pose proof (parse_states_ok k c r A) as S. destruct (parse_states k c r); auto. now apply feats_push_each. }
    intros A C H U F. destruct o; cbn [apply op_ok op_unsplit] in *.
    - cbv zeta. now apply feats_push_state.
    - unfold insert_macro. destruct (validate name); [|auto]. destruct (macro_find _ _); [auto|]. destruct (tokenise _ _ _ _ _) as [[|t ts]| | |]; exact F.
    - now apply feats_push_rule.
    - apply PS; auto. discriminate.
    - apply PS; auto. lia.
    - apply feats_new.
    - unfold clear_state. cbn [fst]. destruct (Nat.ltb_spec i (length (ru_regexes r))); [|auto]. intros j. unfold rules_at.
      cbn [ru_regexes ru_ids ru_uids ru_nexts ru_pushes ru_pops ru_features]. destruct (Nat.eq_dec i j) as [<-|N].
      + rewrite (nth_upd _ (ru_regexes r)), Nat.eqb_refl. apply Nat.ltb_lt in H0. rewrite H0. constructor.
      + rewrite !nth_upd. apply Nat.eqb_neq in N. rewrite N. apply F.
    - exact F.
    - destruct H.
  Qed.
  Theorem unsplit_feats r : proper_unsplit k r -> aligned k r /\ content k r /\ feats r.
  Proof.
    induction 1 as [flags|o r P (A & C & F) H U]; [split; [apply aligned_new|split; [apply content_new|apply feats_new]]|].
    split; [now apply aligned_apply|]. split; [apply content_apply; auto; lia|now apply feats_apply].
  Qed.
End Feat.
