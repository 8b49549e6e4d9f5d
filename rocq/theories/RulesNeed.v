(** The feature bits of a start state announce nothing that its rules do not need. *)
From Verif Require Import Base StringToken StringTokenSpec StateMachine Tree Generator ReToken Parser Build ReTokeniser ReTokeniserNext Rules
  TokeniseSpec PruneProofs TokeniseAll RulesSpec RulesInv RulesContent RulesFeat RulesTop.
Local Open Scope N_scope.

Lemma bit_if (c : bool) x b : bit (if c then x else 0) b -> c = true.
Proof. destruct c; [auto|]. intros H. destruct H. apply N.land_0_l. Qed.
Lemma no_bit x b : N.land x b = 0 -> ~ bit x b.
Proof. intros E H. now apply H. Qed.
Lemma feature_bits_only k Q h l id rec bits : feature_bits k h l id rec = Ok bits -> mvec Q h -> mvec Q l ->
  (bit bits fb_bol -> starts BOL (tl h) = true) /\ (bit bits fb_eol -> ends EOL (removelast l) = true) /\
  (bit bits fb_skip -> id = rskip k) /\ (bit bits fb_again -> id = 0) /\ (bit bits fb_rec -> rec = true) /\ ~ bit bits fb_multi.
Proof.
  intros E (w & -> & _) (v & -> & _). unfold feature_bits in E. destruct (nth_error (between w) 1) as [f|] eqn:E1; [|discriminate].
  destruct (nth_error (between v) (length (between v) - 2)) as [t|] eqn:E2; [|discriminate]. injection E as <-.
  assert (S1 : starts BOL (tl (between w)) = is_type BOL f).
  { unfold between in *. cbn [tl nth_error] in *. destruct (w ++ [tok END]); cbn in E1; [discriminate|]. injection E1 as ->. reflexivity. }
  assert (S2 : ends EOL (removelast (between v)) = is_type EOL t) by (apply removelast_nth; [auto|cbn; rewrite app_length; cbn; lia]).
  rewrite !bit_lor, S1, S2.
  assert (D : forall y x b, N.land x b = 0 -> ~ bit (if (y : bool) then x else 0) b).
  { intros y x b H. destruct y; apply no_bit; [exact H|apply N.land_0_l]. }
  assert (D3 : forall b, N.land fb_skip b = 0 -> N.land fb_again b = 0 -> ~ bit (if id =? rskip k then fb_skip else if id =? 0 then fb_again else 0) b).
  { intros b H1 H2. destruct (id =? rskip k); [now apply no_bit|now apply D]. }
  repeat split.
  - intros [[H|H]|[H|H]]; [now apply bit_if in H| | |]; exfalso; revert H; first [apply D; reflexivity|apply D3; reflexivity].
  - intros [[H|H]|[H|H]]; [|now apply bit_if in H| |]; exfalso; revert H; first [apply D; reflexivity|apply D3; reflexivity].
  - intros [[H|H]|[H|H]]; [exfalso; revert H; apply D; reflexivity..| |exfalso; revert H; apply D; reflexivity].
    destruct (N.eqb_spec id (rskip k)) as [->|_]; [reflexivity|]. exfalso. revert H. apply D. reflexivity.
  - intros [[H|H]|[H|H]]; [exfalso; revert H; apply D; reflexivity..| |exfalso; revert H; apply D; reflexivity].
    destruct (id =? rskip k); [exfalso; revert H; apply no_bit; reflexivity|]. apply bit_if in H. now apply N.eqb_eq.
  - intros [[H|H]|[H|H]]; [| | |now apply bit_if in H]; exfalso; revert H; first [apply D; reflexivity|apply D3; reflexivity].
  - intros [[H|H]|[H|H]]; revert H; first [apply D; reflexivity|apply D3; reflexivity].
Qed.

(** Every bit of [f] is asked for by one of the rules [xs]; [n] start states. *)
Definition asked (k : rcfg) (n : nat) (f : N) (xs : list grule) : Prop :=
  (bit f fb_bol -> exists x, In x xs /\ starts BOL (tl (gr_tokens x)) = true) /\
  (bit f fb_eol -> exists x, In x xs /\ ends EOL (removelast (gr_tokens x)) = true) /\
  (bit f fb_skip -> exists x, In x xs /\ gr_id x = rskip k) /\
  (bit f fb_again -> exists x, In x xs /\ gr_id x = 0) /\
  (bit f fb_rec -> exists x, In x xs /\ (gr_pop x = true \/ gr_push x <> rnpos k \/ rnpos k < N.of_nat n)) /\
  ~ bit f fb_multi.

Section Need.
  Variable k : rcfg.
  Hypothesis NPOS : 1 < rnpos k.
  Notation b := (r_bytes k).
  Definition needed (r : rules) : Prop := forall i, asked k (length (ru_map r)) (nth i (ru_features r) 0) (rules_at r i).
  Lemma asked_zero n xs : asked k n 0 xs.
  Proof. assert (Z : forall x, ~ bit 0 x) by (intros x; apply no_bit, N.land_0_l). unfold asked. repeat split; intros H; now apply Z in H. Qed.
  Lemma asked_app n f g xs ys : asked k n f xs -> asked k n g ys -> asked k n (N.lor f g) (xs ++ ys).
  Proof.
    intros (A1 & A2 & A3 & A4 & A5 & A6) (B1 & B2 & B3 & B4 & B5 & B6). unfold asked. rewrite !bit_lor.
    assert (W : forall (P : Prop) (Q : Prop) (R : grule -> Prop), (P -> exists x, In x xs /\ R x) -> (Q -> exists x, In x ys /\ R x) -> P \/ Q -> exists x, In x (xs ++ ys) /\ R x).
    { intros P Q R HP HQ [H|H]; [destruct (HP H) as (x & I & K)|destruct (HQ H) as (x & I & K)]; exists x; (split; [apply in_or_app; auto|exact K]). }
    repeat (split; [apply W; assumption|]). tauto.
  Qed.
  Lemma asked_more n m f xs : (n <= m)%nat -> asked k n f xs -> asked k m f xs.
  Proof.
    intros L (A1 & A2 & A3 & A4 & A5 & A6). unfold asked. repeat (split; [assumption|]). split; [|assumption].
    intros H. destruct (A5 H) as (x & I & [K|[K|K]]); exists x; (split; [exact I|]); [auto|auto|]. right. right. lia.
  Qed.
  Lemma needed_new flags : needed (make_rules k flags).
  Proof.
    unfold make_rules, push_state. change (validate initial) with true. cbn [no_rules ru_map map_get].
    destruct (rnpos k <? _); cbn [fst]; intros [|[|i]]; cbn [ru_features nth app]; apply asked_zero.
  Qed.
  Lemma needed_push_state name r : aligned k r -> needed r -> needed (fst (push_state k name r)).
  Proof.
    intros A F. unfold push_state. destruct (validate name); [|auto]. destruct (map_get _ _); [auto|].
    assert (G : forall i, asked k (length (ru_map r) + 1) (nth i (ru_features r ++ [0]) 0) (rules_at r i)).
    { intros i. destruct (Nat.lt_ge_cases i (length (ru_features r))) as [H|H].
      - rewrite app_nth1 by auto. eapply asked_more; [|apply F]. lia.
      - rewrite app_nth2 by auto. destruct (i - length (ru_features r))%nat as [|[|]]; apply asked_zero. }
    destruct (_ <? _); cbn [fst]; intros i; unfold rules_at; cbn [ru_regexes ru_ids ru_uids ru_nexts ru_pushes ru_pops ru_features ru_map];
      rewrite !nth_snoc, app_length; apply G.
  Qed.
  Lemma needed_add i x v bits id uid next push pop r : aligned k r -> needed r ->
    asked k (length (ru_map r)) bits (map (mk_rule id uid next push pop) v) -> needed (add_rules i x v bits id uid next push pop r).
  Proof.
    intros A F V j. rewrite (rules_at_add k) by auto. unfold add_rules. cbn [ru_features ru_map]. rewrite nth_upd. destruct (al_states _ _ A) as (_ & _ & E3 & _).
    rewrite E3. destruct (Nat.eqb_spec i j) as [->|N]; cbn [andb]; [|rewrite app_nil_r; apply F].
    destruct (Nat.ltb j (length (ru_map r))) eqn:L; [|rewrite app_nil_r; apply F]. now apply asked_app.
  Qed.
  Lemma parts_asked n h v id uid next push pop rec bits : feature_bits k h (last v []) id rec = Ok bits ->
    v <> [] -> Forall (mvec (chars b)) v -> In h v -> (rec = true -> pop = true \/ push <> rnpos k \/ rnpos k < N.of_nat n) ->
    asked k n bits (map (mk_rule id uid next push pop) v).
  Proof.
    intros E Hv M Ih Hr. assert (Il : In (last v []) v). { destruct v as [|t v _] using rev_ind; [congruence|]. rewrite last_last. apply in_or_app. right. now left. }
    pose proof M as M'. rewrite Forall_forall in M'.
    destruct (feature_bits_only _ _ _ _ _ _ _ E (M' _ Ih) (M' _ Il)) as (B1 & B2 & B3 & B4 & B5 & B6).
    assert (G : forall t, In t v -> In (mk_rule id uid next push pop t) (map (mk_rule id uid next push pop) v)) by (intros t; apply in_map).
    split; [intros H; exists (mk_rule id uid next push pop h); split; [auto|now apply B1]|].
    split; [intros H; exists (mk_rule id uid next push pop (last v [])); split; [auto|now apply B2]|].
    split; [intros H; exists (mk_rule id uid next push pop h); split; [auto|now apply B3]|].
    split; [intros H; exists (mk_rule id uid next push pop h); split; [auto|now apply B4]|].
    split; [intros H; exists (mk_rule id uid next push pop h); split; [auto|now apply Hr, B5]|]. exact B6.
  Qed.
  Lemma needed_push_rule x id uid r : aligned k r -> content k r -> text_ok k r (ru_macros r) x true -> needed r -> needed (fst (push_rule k x id uid r)).
  Proof.
    intros A C (T1 & T2 & T3) F. unfold push_rule. destruct (bad_id k id); [auto|].
    pose proof (tokenise_ok b (ru_flags r) _ x true (co_macros _ _ C) T1 T2 T3) as O.
    destruct (tokenise _ _ _ _ _) as [[|t ts]| | |]; cbn [fst]; auto. destruct O as (O1 & O2 & O3).
    destruct (feature_bits k t (last ts t) id false) eqn:E; cbn [fst]; auto. apply needed_add; auto.
    rewrite <- (last_cons_d t ts []) in E. eapply (parts_asked _ t); [exact E|discriminate|exact O2|now left|discriminate].
  Qed.
  Lemma needed_push_each x id uid e is : id <> rnpos k -> forall r, aligned k r -> content k r -> text_ok k r (ru_macros r) x true ->
    exit_ok (length (ru_map r)) e -> Forall (fun i => i < N.of_nat (length (ru_map r))) is ->
    needed r -> needed (fst (push_each k x id uid e is r)).
  Proof.
    intros Hid. induction is as [|i is IH]; intros r A C T He Hi F; [auto|].
    cbn [push_each]. pose proof T as (T1 & T2 & T3). pose proof (tokenise_ok b (ru_flags r) _ x true (co_macros _ _ C) T1 T2 T3) as O.
    destruct (tokenise b _ _ x true) as [[|t ts]| | |] eqn:ET; cbn [fst]; auto. destruct O as (O1 & O2 & O3).
    destruct (feature_bits k _ _ id (exit_rec e)) as [bits| | |] eqn:E; cbn [fst]; auto.
    inversion Hi as [|? ? Hi1 Hi2]; subst. destruct (Nat.ltb_spec (N.to_nat i) (length (ru_regexes r))) as [L|L]; [|auto].
    apply (IH (add_rules (N.to_nat i) x (t :: ts) bits id uid (exit_next e i k) (exit_push e i k) (exit_pop e) r)); auto.
    - now apply aligned_add_rules.
    - apply content_add; auto.
      + destruct e; cbn [exit_next exit_pop exit_ok] in *; auto; left; tauto.
      + destruct e as [| | |n [q|]]; cbn [exit_push exit_ok] in *; auto; right; tauto.
    - apply needed_add; auto. rewrite <- (last_cons_d t ts []) in E. eapply parts_asked; eauto.
      + destruct ts as [|u ts _] using rev_ind; [now left|]. change (t :: ts ++ [u]) with ((t :: ts) ++ [u]). rewrite last_last. apply in_or_app. right. now left.
      + destruct e as [| | |n [q|]]; cbn [exit_pop exit_push exit_rec exit_ok] in *; intros H; try discriminate; auto; right.
        * destruct (N.eq_dec q (rnpos k)) as [Eq|]; [right; rewrite <- Eq; apply He|auto].
        * destruct (N.eq_dec i (rnpos k)) as [Eq|]; [right; rewrite <- Eq; exact Hi1|auto].
  Qed.
  Theorem needed_apply o r : aligned k r -> content k r -> op_ok k r o -> needed r -> needed (fst (apply k o r)).
  Proof.
    assert (PS : forall c x id n check uid, aligned k r -> content k r -> text_ok k r (ru_macros r) x true -> (check = false -> id <> rnpos k) ->
      needed r -> needed (fst (push_states k c x id n check uid r))).
    { intros c x id n check uid A C T H F. unfold push_states. destruct (check && bad_id k id) eqn:B; [auto|].
      assert (Hid : id <> rnpos k).
      { destruct check; [|auto]. cbn in B. unfold bad_id in B. apply orb_false_iff in B. destruct B as [_ B]. now apply N.eqb_neq. }
      pose proof (parse_exit_ok k n r A) as E. destruct (parse_exit n r); auto.
      pose proof (parse_states_ok k c r A) as S. destruct (parse_states k c r); auto. now apply needed_push_each. }
    intros A C H F. destruct o; cbn [apply op_ok] in *.
    - cbv zeta. now apply needed_push_state.
    - unfold insert_macro. destruct (validate name); [|auto]. destruct (macro_find _ _); [auto|]. destruct (tokenise _ _ _ _ _) as [[|t ts]| | |]; exact F.
    - now apply needed_push_rule.
    - apply PS; auto. discriminate.
    - apply PS; auto. lia.
    - apply needed_new.
    - unfold clear_state. cbn [fst]. destruct (Nat.ltb_spec i (length (ru_regexes r))); [|auto]. intros j. unfold rules_at.
      cbn [ru_regexes ru_ids ru_uids ru_nexts ru_pushes ru_pops ru_features ru_map]. destruct (Nat.eq_dec i j) as [<-|N].
      + destruct (al_states _ _ A) as (E1 & _ & E3 & _). rewrite (nth_upd _ (ru_features r)), Nat.eqb_refl, (proj2 (Nat.ltb_lt _ _)) by lia. apply asked_zero.
      + rewrite !nth_upd. apply Nat.eqb_neq in N. rewrite N. apply F.
    - exact F.
    - destruct H.
  Qed.
  Theorem proper_needed r : proper k r -> needed r.
  Proof.
    induction 1 as [flags|o r P IH H]; [apply needed_new|]. destruct (proper_content k ltac:(lia) r P) as (A & C). now apply needed_apply.
  Qed.

  Theorem made_needs f g r m : proper k r -> build f g (grules_of r) = Ok m -> let has := fun P => exists i x, In x (rules_at r i) /\ P x in
    (bit (i_features m) fb_bol -> has (fun x => starts BOL (tl (gr_tokens x)) = true)) /\
    (bit (i_features m) fb_eol -> has (fun x => ends EOL (removelast (gr_tokens x)) = true)) /\
    (bit (i_features m) fb_skip -> has (fun x => gr_id x = rskip k)) /\
    (bit (i_features m) fb_again -> has (fun x => gr_id x = 0)) /\
    (bit (i_features m) fb_rec -> has (fun x => gr_pop x = true \/ gr_push x <> rnpos k \/ rnpos k < N.of_nat (length (ru_map r)))) /\
    (bit (i_features m) fb_multi <-> (1 < length (ru_map r))%nat).
  Proof.
    intros P HB has. pose proof (proper_needed r P) as NE.
    assert (L : length (gr_states (grules_of r)) = length (ru_map r)) by (cbn; now rewrite map_length, seq_length).
    assert (UP : forall c, ~ bit fb_multi c -> bit (i_features m) c -> exists i, bit (nth i (ru_features r) 0) c).
    { intros c NM H. apply (machine_features f g _ m HB) in H. destruct H as [(s & Hs & H)|[_ H]]; [|contradiction].
      cbn in Hs. apply in_map_iff in Hs as (i & <- & _). exists i. exact H. }
    assert (NM : forall c, N.land fb_multi c = 0 -> ~ bit fb_multi c) by (intros c; apply no_bit).
    split; [intros H; apply UP in H as (i & H); [|now apply NM]; destruct (NE i) as (A & _); destruct (A H) as (x & X); exists i, x; exact X|].
    split; [intros H; apply UP in H as (i & H); [|now apply NM]; destruct (NE i) as (_ & A & _); destruct (A H) as (x & X); exists i, x; exact X|].
    split; [intros H; apply UP in H as (i & H); [|now apply NM]; destruct (NE i) as (_ & _ & A & _); destruct (A H) as (x & X); exists i, x; exact X|].
    split; [intros H; apply UP in H as (i & H); [|now apply NM]; destruct (NE i) as (_ & _ & _ & A & _); destruct (A H) as (x & X); exists i, x; exact X|].
    split; [intros H; apply UP in H as (i & H); [|now apply NM]; destruct (NE i) as (_ & _ & _ & _ & A & _); destruct (A H) as (x & X); exists i, x; exact X|].
    rewrite (machine_features f g _ m HB), L. split.
    - intros [(s & Hs & H)|[H _]]; [|exact H]. exfalso. cbn in Hs. apply in_map_iff in Hs as (i & <- & _). destruct (NE i) as (_ & _ & _ & _ & _ & A). exact (A H).
    - intros H. right. split; [exact H|]. unfold bit. discriminate.
  Qed.
End Need.

(** ** clear() *)
Theorem clear_all k os r : history k os r -> apply k OClear r = (make_rules k rf_dot_not_newline, Ok tt).
Proof. reflexivity. Qed.
Theorem clear_one k os r i : history k os r -> let r' := fst (apply k (OClearState i) r) in
  snd (apply k (OClearState i) r) = Ok tt /\ rules_at r' i = [] /\ nth i (ru_strings r') [] = [] /\ nth i (ru_features r') 0 = 0 /\
  (forall j, j <> i -> rules_at r' j = rules_at r j /\ nth j (ru_strings r') [] = nth j (ru_strings r) [] /\ nth j (ru_features r') 0 = nth j (ru_features r) 0) /\
  ru_map r' = ru_map r /\ ru_macros r' = ru_macros r /\ ru_flags r' = ru_flags r /\ ru_names r' = ru_names r.
Proof.
  intros H. apply history_aligned in H. destruct (al_states _ _ H) as (E1 & E2 & E3 & E4 & E5 & E6 & E7 & E8). cbn [apply fst snd]. unfold clear_state.
  split; [reflexivity|]. destruct (Nat.ltb_spec i (length (ru_regexes r))) as [L|L].
  - unfold rules_at. cbn [ru_regexes ru_strings ru_features ru_ids ru_uids ru_nexts ru_pushes ru_pops ru_map ru_macros ru_flags ru_names].
    rewrite !nth_upd, !Nat.eqb_refl, !(proj2 (Nat.ltb_lt _ _)) by lia. cbn [andb]. split; [reflexivity|]. split; [reflexivity|]. split; [reflexivity|].
    split; [|auto]. intros j NE. rewrite !nth_upd. replace (Nat.eqb i j) with false by (symmetry; apply Nat.eqb_neq; auto). auto.
  - unfold rules_at. rewrite (nth_overflow (ru_regexes r)), (nth_overflow (ru_strings r)), (nth_overflow (ru_features r)) by lia. repeat split.
Qed.
