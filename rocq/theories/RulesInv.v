(** The tables of rules.hpp stay aligned. *)
From Verif Require Import Base StringToken StateMachine Tree Generator ReToken Parser Build ReTokeniser ReTokeniserNext Rules
  TokeniseSpec PruneProofs TokeniseAll RulesSpec.
Local Open Scope N_scope.

Lemma nth_upd A (l : list A) i j v d : nth j (upd l i v) d = if Nat.eqb i j && Nat.ltb j (length l) then v else nth j l d.
Proof.
  destruct (Nat.eqb_spec i j) as [->|N]; cbn [andb].
  - destruct (Nat.ltb_spec j (length l)) as [H|H].
    + apply nth_error_nth. now apply nth_error_upd_eq.
    + rewrite !nth_overflow; auto. now rewrite upd_length.
  - pose proof (nth_error_upd_neq A l i j v N) as E. destruct (nth_error l j) as [x|] eqn:Ej.
    + rewrite (nth_error_nth _ _ _ E). symmetry. now apply nth_error_nth.
    + apply nth_error_None in E, Ej. now rewrite !nth_overflow.
Qed.
Lemma append_length A (l : list (list A)) i xs : length (append l i xs) = length l.
Proof. apply upd_length. Qed.
Lemma nth_append A (l : list (list A)) i j xs :
  nth j (append l i xs) [] = nth j l [] ++ (if Nat.eqb i j && Nat.ltb j (length l) then xs else []).
Proof.
  unfold append. rewrite nth_upd. destruct (Nat.eqb_spec i j) as [->|N]; cbn [andb]; [|now rewrite app_nil_r].
  destruct (Nat.ltb j (length l)); [reflexivity|now rewrite app_nil_r].
Qed.
Lemma nth_snoc A (l : list (list A)) i : nth i (l ++ [[]]) [] = nth i l [].
Proof.
  destruct (Nat.lt_ge_cases i (length l)); [now rewrite app_nth1|]. rewrite (nth_overflow l) by auto.
  rewrite app_nth2 by auto. destruct (i - length l)%nat as [|[|]]; reflexivity.
Qed.

Lemma text_eqb_refl s : text_eqb s s = true.
Proof. now apply text_eqb_iff. Qed.
Lemma map_get_in name m i : map_get name m = Some i -> In (name, i) m.
Proof.
  induction m as [|[n j] m IH]; cbn; [discriminate|]. destruct (text_eqb name n) eqn:E.
  - apply text_eqb_iff in E. subst. intros [= ->]. now left.
  - intros H. right. auto.
Qed.
Lemma map_get_none name m : map_get name m = None -> ~ In name (map fst m).
Proof.
  induction m as [|[n j] m IH]; cbn; [auto|]. destruct (text_eqb name n) eqn:E; [discriminate|].
  intros H [->|K]; [rewrite text_eqb_refl in E; discriminate|]. now apply IH.
Qed.
Lemma map_get_app name m m' : map_get name (m ++ m') = match map_get name m with Some i => Some i | None => map_get name m' end.
Proof. induction m as [|[n j] m IH]; cbn; [auto|]. now destruct (text_eqb name n). Qed.

Lemma aligned_new k flags : aligned k (make_rules k flags).
Proof.
  unfold make_rules, push_state. change (validate initial) with true. cbn [no_rules ru_map map_get].
  assert (A : forall n : N, aligned k (fst (if rnpos k <? 1 then
     ({| ru_map := [(initial, 0 mod 2 ^ r_bits k)]; ru_macros := []; ru_regexes := [[]]; ru_strings := [[]]; ru_features := [0]; ru_ids := [[]];
         ru_uids := [[]]; ru_nexts := [[]]; ru_pushes := [[]]; ru_pops := [[]]; ru_flags := flags; ru_names := [] |}, Throw EOverflow)
     else ({| ru_map := [(initial, 0 mod 2 ^ r_bits k)]; ru_macros := []; ru_regexes := [[]]; ru_strings := [[]]; ru_features := [0]; ru_ids := [[]];
         ru_uids := [[]]; ru_nexts := [[]]; ru_pushes := [[]]; ru_pops := [[]]; ru_flags := flags; ru_names := [] |}, Ok n)))).
  { intros n. destruct (rnpos k <? 1); cbn [fst]; (constructor; cbn [ru_map ru_macros ru_regexes ru_strings ru_features ru_ids ru_uids ru_nexts ru_pushes ru_pops ru_flags ru_names]).
    all: try (repeat split; fail).
    all: try (intros [|[|i]]; repeat split; fail).
    all: try (constructor; [auto|constructor]; fail).
    all: try (intros [|[|j]] name i E; cbn in E; try discriminate; injection E as <- <-; reflexivity).
    all: exists []; split; [|reflexivity]; f_equal; f_equal; apply N.mod_small; apply N.neq_0_lt_0, N.pow_nonzero; discriminate. }
  apply (A (N.of_nat 0 mod 2 ^ r_bits k)).
Qed.

Lemma aligned_push_state k name r : aligned k r -> aligned k (fst (push_state k name r)).
Proof.
  intros A. unfold push_state. destruct (validate name) eqn:V; [|exact A]. destruct (map_get name (ru_map r)) as [i|] eqn:G; [exact A|].
  set (r' := {| ru_map := _ |}).
  assert (A' : aligned k r').
  { destruct A as [A1 A2 A3 A4 A5 A6]. constructor; cbn [r' ru_map ru_macros ru_regexes ru_strings ru_features ru_ids ru_uids ru_nexts ru_pushes ru_pops ru_flags ru_names].
    - rewrite !app_length. cbn [length]. intuition lia.
    - intros i. rewrite !nth_snoc. apply A2.
    - rewrite map_app. cbn [map fst]. apply map_get_none in G.
      clear - A3 G. induction (map fst (ru_map r)) as [|x l IH]; cbn; [repeat constructor; auto|]. inversion A3; subst. constructor.
      + rewrite in_app_iff. intros [H|[->|[]]]; [auto|]. apply G. now left.
      + apply IH; auto. intros H. apply G. now right.
    - intros j n i E. destruct (Nat.lt_ge_cases j (length (ru_map r))) as [H|H].
      + rewrite nth_error_app1 in E by auto. eauto.
      + rewrite nth_error_app2 in E by auto. destruct (j - length (ru_map r))%nat as [|[|]] eqn:Ej; cbn in E; try discriminate.
        injection E as <- <-. repeat f_equal. lia.
    - destruct A5 as (m & E1 & E2). exists (m ++ [(name, N.of_nat (length (ru_map r)) mod 2 ^ r_bits k)]). rewrite E1, E2, map_app.
      split; [reflexivity|]. cbn [map fst]. destruct (text_eqb name initial) eqn:E; [|reflexivity].
      exfalso. rewrite E1 in G. cbn [map_get] in G. rewrite E in G. discriminate.
    - apply Forall_app. split; auto. }
  destruct (rnpos k <? _); exact A'.
Qed.

Lemma aligned_same k r r' : ru_map r' = ru_map r -> ru_regexes r' = ru_regexes r -> ru_strings r' = ru_strings r ->
  ru_features r' = ru_features r -> ru_ids r' = ru_ids r -> ru_uids r' = ru_uids r -> ru_nexts r' = ru_nexts r ->
  ru_pushes r' = ru_pushes r -> ru_pops r' = ru_pops r -> ru_names r' = ru_names r -> aligned k r -> aligned k r'.
Proof.
  intros E1 E2 E3 E4 E5 E6 E7 E8 E9 E10 [A1 A2 A3 A4 A5 A6].
  constructor; rewrite ?E1, ?E2, ?E3, ?E4, ?E5, ?E6, ?E7, ?E8, ?E9, ?E10; assumption.
Qed.
Lemma aligned_insert_macro k name x r : aligned k r -> aligned k (fst (insert_macro k name x r)).
Proof.
  intros A. unfold insert_macro. destruct (validate name); [|exact A]. destruct (macro_find name (ru_macros r)); [exact A|].
  destruct (tokenise _ _ _ _ _) as [[|t ts]| | |]; cbn [fst]; (apply (aligned_same k r); auto).
Qed.
Lemma aligned_add_rules k i x v bits id uid next push pop r : aligned k r -> aligned k (add_rules i x v bits id uid next push pop r).
Proof.
  intros [A1 A2 A3 A4 A5 A6]. unfold add_rules. constructor; cbn [ru_map ru_macros ru_regexes ru_strings ru_features ru_ids ru_uids ru_nexts ru_pushes ru_pops ru_flags ru_names]; auto.
  - now rewrite !append_length, upd_length.
  - intros j. cbv zeta. rewrite !nth_append, !app_length. destruct (A2 j) as (B1 & B2 & B3 & B4 & B5 & B6).
    destruct A1 as (C1 & C2 & C3 & C4 & C5 & C6 & C7 & C8). rewrite B1, B2, B3, B4, B5, B6, C1, C2, C4, C5, C6, C7, C8.
    destruct (_ && _); rewrite ?map_length; auto 7.
Qed.
Lemma aligned_push_rule k x id uid r : aligned k r -> aligned k (fst (push_rule k x id uid r)).
Proof.
  intros A. unfold push_rule. destruct (bad_id k id); [exact A|]. destruct (tokenise _ _ _ _ _) as [[|t ts]| | |]; try exact A.
  destruct (feature_bits _ _ _ _ _); try exact A. now apply aligned_add_rules.
Qed.
Lemma aligned_push_each k x id uid e is : forall r, aligned k r -> aligned k (fst (push_each k x id uid e is r)).
Proof.
  induction is as [|i is IH]; intros r A; [exact A|]. cbn [push_each]. destruct (tokenise _ _ _ _ _) as [[|t ts]| | |]; try exact A.
  destruct (feature_bits _ _ _ _ _); try exact A. destruct (Nat.ltb _ _); [|exact A]. apply IH. now apply aligned_add_rules.
Qed.
Lemma aligned_push_states k c x id n check uid r : aligned k r -> aligned k (fst (push_states k c x id n check uid r)).
Proof.
  intros A. unfold push_states. destruct (check && bad_id k id); [exact A|]. destruct (parse_exit n r); try exact A.
  destruct (parse_states k c r); try exact A. now apply aligned_push_each.
Qed.
Lemma aligned_clear_state k i r : aligned k r -> aligned k (clear_state i r).
Proof.
  intros A. unfold clear_state. destruct (Nat.ltb i (length (ru_regexes r))) eqn:Hi; [|exact A]. destruct A as [A1 A2 A3 A4 A5 A6].
  constructor; cbn [ru_map ru_macros ru_regexes ru_strings ru_features ru_ids ru_uids ru_nexts ru_pushes ru_pops ru_flags ru_names]; auto.
  - now rewrite !upd_length.
  - intros j. cbv zeta. rewrite !nth_upd. destruct A1 as (C1 & C2 & C3 & C4 & C5 & C6 & C7 & C8). rewrite C1, C2, C4, C5, C6, C7, C8.
    destruct (_ && _); [auto 7|apply A2].
Qed.
Lemma reverse_all_length l : match reverse_all l with Ok x => length x = length l | _ => True end.
Proof.
  induction l as [|t l IH]; cbn; [auto|]. destruct (reverse_tokens t); cbn; auto. destruct (reverse_all l); cbn; auto.
Qed.
Lemma reverse_states_length l : match reverse_states l with
  Ok x => length x = length l /\ forall i, length (nth i x []) = length (nth i l []) | _ => True end.
Proof.
  induction l as [|t l IH]; cbn; [auto|]. pose proof (reverse_all_length t) as E. destruct (reverse_all t); cbn; auto.
  destruct (reverse_states l); cbn; auto. destruct IH as [I1 I2]. split; [auto|]. intros [|i]; auto.
Qed.
Lemma aligned_reverse k r : aligned k r -> match reverse r with Ok r' => aligned k r' | _ => True end.
Proof.
  intros [A1 A2 A3 A4 A5 A6]. unfold reverse. pose proof (reverse_states_length (ru_regexes r)) as E. destruct (reverse_states _) as [x| | |]; cbn; auto.
  destruct (reverse_macros _); cbn; auto. destruct E as [E1 E2].
  constructor; cbn [ru_map ru_macros ru_regexes ru_strings ru_features ru_ids ru_uids ru_nexts ru_pushes ru_pops ru_flags ru_names]; auto.
  - now rewrite E1.
  - intros i. cbv zeta. rewrite E2. apply A2.
Qed.
Lemma aligned_apply k o r : aligned k r -> aligned k (fst (apply k o r)).
Proof.
  intros A. destruct o; cbn [apply]; cbv zeta; cbn [fst].
  - now apply aligned_push_state.
  - now apply aligned_insert_macro.
  - now apply aligned_push_rule.
  - now apply aligned_push_states.
  - now apply aligned_push_states.
  - apply aligned_new.
  - now apply aligned_clear_state.
  - now apply (aligned_same k r).
  - pose proof (aligned_reverse k r A). destruct (reverse r); auto.
Qed.
Theorem history_aligned k os r : history k os r -> aligned k r.
Proof. induction 1; [apply aligned_new|now apply aligned_apply]. Qed.

(** ** State indexes are stable *)
Lemma push_each_map k x id uid e is : forall r, ru_map (fst (push_each k x id uid e is r)) = ru_map r.
Proof.
  induction is as [|i is IH]; intros r; [reflexivity|]. cbn [push_each]. destruct (tokenise _ _ _ _ _) as [[|t ts]| | |]; try reflexivity.
  destruct (feature_bits _ _ _ _ _); try reflexivity. destruct (Nat.ltb _ _); [|reflexivity]. now rewrite IH.
Qed.
Lemma push_states_map k c x id n check uid r : ru_map (fst (push_states k c x id n check uid r)) = ru_map r.
Proof.
  unfold push_states. destruct (check && bad_id k id); [reflexivity|]. destruct (parse_exit n r); try reflexivity.
  destruct (parse_states k c r); try reflexivity. apply push_each_map.
Qed.
Theorem apply_grows k o r : o <> OClear -> exists m, ru_map (fst (apply k o r)) = ru_map r ++ m.
Proof.
  intros N. assert (NIL : forall x, x = ru_map r -> exists m, x = ru_map r ++ m) by (intros x ->; exists []; now rewrite app_nil_r).
  destruct o; cbn [apply]; cbv zeta; cbn [fst]; [|apply NIL..].
  - unfold push_state. destruct (validate name); [|now apply NIL]. destruct (map_get name (ru_map r)); [now apply NIL|].
    destruct (_ <? _); cbn [fst ru_map]; eauto.
  - unfold insert_macro. destruct (validate name); [|reflexivity]. destruct (macro_find name (ru_macros r)); [reflexivity|].
    destruct (tokenise _ _ _ _ _) as [[|t ts]| | |]; reflexivity.
  - unfold push_rule. destruct (bad_id k id); [reflexivity|]. destruct (tokenise _ _ _ _ _) as [[|t ts]| | |]; try reflexivity.
    destruct (feature_bits _ _ _ _ _); reflexivity.
  - apply push_states_map.
  - apply push_states_map.
  - congruence.
  - unfold clear_state. destruct (Nat.ltb _ _); reflexivity.
  - reflexivity.
  - unfold reverse. destruct (reverse_states _); cbn; try reflexivity. destruct (reverse_macros _); reflexivity.
Qed.
Theorem apply_keeps_index k o r name : o <> OClear -> state_index k name r <> rnpos k ->
  state_index k name (fst (apply k o r)) = state_index k name r.
Proof.
  intros N. destruct (apply_grows k o r N) as (m & E). unfold state_index. rewrite E, map_get_app. destruct (map_get name (ru_map r)); [reflexivity|congruence].
Qed.

(** Names and indexes correspond as long as the id type can number the states. *)
Lemma map_get_nth k r j name i : aligned k r -> nth_error (ru_map r) j = Some (name, i) -> map_get name (ru_map r) = Some i.
Proof.
  intros A E. pose proof (al_once _ _ A) as D. clear A. revert j E. induction (ru_map r) as [|[n x] m IH]; intros j E; [destruct j; discriminate|].
  cbn. inversion D as [|? ? D1 D2]; subst. destruct j as [|j]; cbn in E.
  - injection E as -> ->. now rewrite text_eqb_refl.
  - destruct (text_eqb name n) eqn:EN.
    + apply text_eqb_iff in EN. subst. exfalso. apply D1. apply nth_error_In in E. apply (in_map fst) in E. exact E.
    + eauto.
Qed.
Theorem names_indexes k r name i : aligned k r -> (N.of_nat (length (ru_map r)) <= rnpos k) -> rnpos k < 2 ^ r_bits k ->
  (state_index k name r = i /\ i <> rnpos k <-> state_name i r = Some name /\ i < N.of_nat (length (ru_map r))).
Proof.
  intros A L B.
  assert (F : forall j n x, nth_error (ru_map r) j = Some (n, x) -> x = N.of_nat j /\ (j < length (ru_map r))%nat).
  { intros j n x E. pose proof (nth_error_Some (ru_map r) j) as H. rewrite E in H. assert (j < length (ru_map r))%nat by (apply H; congruence).
    split; [|auto]. rewrite (al_index _ _ A _ _ _ E). apply N.mod_small. lia. }
  assert (NM : forall j n x, nth_error (ru_map r) j = Some (n, x) -> state_name (N.of_nat j) r = Some n).
  { intros j n x E. destruct (al_first _ _ A) as (m & E1 & E2). rewrite E1 in E. unfold state_name. rewrite E2. destruct j as [|j]; cbn in E.
    - injection E as <- <-. reflexivity.
    - destruct (N.eqb_spec (N.of_nat (S j)) 0); [lia|]. replace (N.to_nat (N.of_nat (S j) - 1)) with j by lia.
      rewrite (map_nth_error fst _ _ E). reflexivity. }
  unfold state_index. split.
  - intros [E N]. destruct (map_get name (ru_map r)) as [x|] eqn:G; [|congruence]. subst x. apply map_get_in in G. apply In_nth_error in G.
    destruct G as (j & G). destruct (F _ _ _ G) as [-> H]. split; [eauto|lia].
  - intros [E H]. destruct (nth_error (ru_map r) (N.to_nat i)) as [[n x]|] eqn:G; [|apply nth_error_None in G; lia].
    pose proof (NM _ _ _ G) as E'. rewrite N2Nat.id in E'. rewrite E in E'. injection E' as <-.
    rewrite (map_get_nth _ _ _ _ _ A G). destruct (F _ _ _ G) as [-> _]. split; lia.
Qed.

(** ** Failing calls *)
Lemma push_each_fails k x id uid e is : forall r, match push_each k x id uid e is r with
  | (r', Throw _) => r' = r
  | _ => True
  end.
Proof.
  intros r. destruct is as [|i is]; [exact Logic.I|].
  assert (STEP : forall is r0, ru_flags r0 = ru_flags r -> ru_macros r0 = ru_macros r ->
    (exists t ts b, tokenise (r_bytes k) (ru_flags r) (ru_macros r) x true = Ok (t :: ts) /\ feature_bits k (last ts t) (last ts t) id (exit_rec e) = Ok b) ->
    forall er, snd (push_each k x id uid e is r0) <> Throw er).
  { clear i is. induction is as [|i is IH]; intros r0 E1 E2 (t & ts & b & E3 & E4) er; [discriminate|].
    cbn [push_each]. rewrite E1, E2, E3, E4. destruct (Nat.ltb _ _); [|discriminate]. apply IH; auto. eauto 6. }
  cbn [push_each]. destruct (tokenise _ _ _ _ _) as [[|t ts]|er| |] eqn:ET; auto. destruct (feature_bits _ _ _ _ _) as [b|er| |] eqn:EF; auto.
  destruct (Nat.ltb _ _); auto. specialize (STEP is (add_rules (N.to_nat i) x (t :: ts) b id uid (exit_next e i k) (exit_push e i k) (exit_pop e) r) eq_refl eq_refl).
  destruct (push_each _ _ _ _ _ _ _) as [r' [ | | | ]] eqn:EP; auto. exfalso. apply (STEP ltac:(eauto 7) e0). reflexivity.
Qed.
Theorem push_fails k o r e : snd (apply k o r) = Throw e ->
  match o with OPush _ _ _ | OPushIn _ _ _ _ _ | OPushNoId _ _ _ => fst (apply k o r) = r | _ => True end.
Proof.
  assert (PS : forall c x id n check uid, snd (push_states k c x id n check uid r) = Throw e -> fst (push_states k c x id n check uid r) = r).
  { intros c x id n check uid. unfold push_states. destruct (check && bad_id k id); [auto|]. destruct (parse_exit n r); auto.
    destruct (parse_states k c r); auto. pose proof (push_each_fails k x id uid a a0 r) as P. destruct (push_each _ _ _ _ _ _ _) as [r' [ | | | ]]; cbn; auto; discriminate. }
  destruct o; cbn [apply]; auto.
  unfold push_rule. destruct (bad_id k id); [auto|]. destruct (tokenise _ _ _ _ _) as [[|t ts]| | |]; auto. destruct (feature_bits _ _ _ _ _); auto. discriminate.
Qed.
