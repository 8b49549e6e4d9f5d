(** rules.hpp:292-351, 1052-1252: which rules a push adds to which start states. *)
From Verif Require Import Base StringToken StateMachine Tree Generator ReToken Parser Build ReTokeniser ReTokeniserNext Rules
  TokeniseSpec TokeniseProofs PruneProofs TokeniseAll RulesSpec RulesInv RulesContent.
Local Open Scope N_scope.

(** ** Names in a text *)
Fixpoint commas (ns : list (list N)) : list N :=
  match ns with
  | [] => []
  | [n] => n
  | n :: ns' => n ++ 44 :: commas ns'
  end.
(** The text of a new state and what it says about the next state, the state that
    is pushed and popping, for a rule of the start state [cur]. *)
Inductive exits (k : rcfg) (r : rules) : list N -> (N -> N * N * bool) -> Prop :=
| ex_stay : exits k r [46] (fun cur => (cur, rnpos k, false))
| ex_go n i : map_get n (ru_map r) = Some i -> exits k r n (fun _ => (i, rnpos k, false))
| ex_push n i : map_get n (ru_map r) = Some i -> exits k r (62 :: n) (fun cur => (i, cur, false))
| ex_push_to n i p q : map_get n (ru_map r) = Some i -> map_get p (ru_map r) = Some q ->
    exits k r (62 :: n ++ 58 :: p) (fun _ => (i, q, false))
| ex_pop s : exits k r (60 :: s) (fun _ => (rnpos k, rnpos k, true)).
(** The text of the current states and the states it names. *)
Inductive currents (k : rcfg) (r : rules) : list N -> list N -> Prop :=
| cu_all : currents k r [42] (map N.of_nat (seq 0 (length (ru_map r))))
| cu_named ns is : ns <> [] -> Forall2 (fun n i => map_get n (ru_map r) = Some i) ns is -> currents k r (commas ns) is.

Lemma name_char_not c x : name_char c = true -> name_char x = false -> c <> x.
Proof. congruence. Qed.
Lemma first_char c : name_first c = true -> name_char c = true.
Proof. unfold name_first, name_char. repeat rewrite orb_true_iff. tauto. Qed.
Lemma validate_chars n : validate n = true -> n <> [] /\ Forall (fun c => name_char c = true) n.
Proof.
  destruct n as [|c n]; cbn; [discriminate|]. rewrite andb_true_iff, forallb_forall. intros [H1 H2]. split; [discriminate|].
  constructor; [now apply first_char|]. now apply Forall_forall.
Qed.
Definition nameless (x : N) : Prop := name_char x = false.
Lemma not_in n x : Forall (fun c => name_char c = true) n -> name_char x = false -> ~ In x n.
Proof. intros F H I. rewrite Forall_forall in F. specialize (F _ I). congruence. Qed.
Lemma at_colon_none n : ~ In 58 n -> at_colon n = (n, None).
Proof.
  induction n as [|c n IH]; intros H; [reflexivity|]. cbn in H. cbn [at_colon]. destruct (N.eqb_spec c 58) as [->|_]; [tauto|].
  rewrite IH by tauto. reflexivity.
Qed.
Lemma at_colon_some n p : ~ In 58 n -> at_colon (n ++ 58 :: p) = (n, Some p).
Proof.
  induction n as [|c n IH]; intros H; [reflexivity|]. cbn in H. cbn [app at_colon]. destruct (N.eqb_spec c 58) as [->|_]; [tauto|].
  rewrite IH by tauto. reflexivity.
Qed.
Lemma at_commas_one n : forall cur, ~ In 44 n -> n <> [] \/ cur <> [] -> at_commas n cur = [rev cur ++ n].
Proof.
  induction n as [|c n IH]; intros cur H E.
  - cbn. destruct E as [E|E]; [congruence|]. destruct cur; [congruence|]. now rewrite app_nil_r.
  - cbn in H. cbn [at_commas]. destruct (N.eqb_spec c 44) as [->|_]; [tauto|]. rewrite IH; [cbn; now rewrite <- app_assoc|tauto|right; discriminate].
Qed.
Lemma at_commas_more n s : forall cur, ~ In 44 n -> at_commas (n ++ 44 :: s) cur = (rev cur ++ n) :: at_commas s [].
Proof.
  induction n as [|c n IH]; intros cur H; [cbn; now rewrite app_nil_r|].
  cbn in H. cbn [app at_commas]. destruct (N.eqb_spec c 44) as [->|_]; [tauto|]. rewrite IH; [cbn; now rewrite <- app_assoc|tauto].
Qed.
Lemma at_commas_commas ns : ns <> [] -> Forall (fun n => validate n = true) ns -> at_commas (commas ns) [] = ns.
Proof.
  intros N F. induction F as [|n ns H F IH]; [congruence|]. destruct (validate_chars n H) as [H1 H2].
  destruct ns as [|m ns].
  - cbn [commas]. rewrite at_commas_one; [reflexivity|now apply not_in|auto].
  - change (commas (n :: m :: ns)) with (n ++ 44 :: commas (m :: ns)). rewrite at_commas_more by now apply not_in.
    rewrite IH by discriminate. reflexivity.
Qed.

Section Push.
  Variable k : rcfg.
  Lemma known_valid r n i : aligned k r -> map_get n (ru_map r) = Some i -> validate n = true.
  Proof.
    intros A G. apply map_get_in in G. pose proof (al_names _ _ A) as F. rewrite Forall_forall in F. exact (F _ G).
  Qed.
  Lemma text_neq s t : s <> t -> text_eqb s t = false.
  Proof. intros H. destruct (text_eqb s t) eqn:E; [|auto]. apply text_eqb_iff in E. congruence. Qed.
  Lemma valid_head n : validate n = true -> exists c n', n = c :: n' /\ name_char c = true.
  Proof. destruct n as [|c n]; cbn; [discriminate|]. rewrite andb_true_iff. intros [H _]. exists c, n. split; [auto|now apply first_char]. Qed.
  Lemma parse_exit_eq s r : parse_exit s r =
    if text_eqb s [46] then Ok XSame
    else if peek s =? 60 then Ok XPop
    else
      let push := peek s =? 62 in
      let x := at_colon (if push then tl s else s) in
      if validate (fst x) then
        match snd x with
        | None => do n <- get_state (fst x) r; Ok (if push then XPush n None else XGo n)
        | Some p =>
          if push then
            if validate p then
              do n <- get_state (fst x) r; do q <- get_state p r; Ok (XPush n (Some q))
            else Throw EBadName
          else Throw EBadName
        end
      else Throw EBadName.
  Proof.
    unfold parse_exit. destruct (text_eqb s [46]); [reflexivity|]. destruct s as [|c s]; [reflexivity|]. destruct c as [|p]; [reflexivity|].
    repeat (destruct p as [p|p|]; try reflexivity).
  Qed.
  Lemma exits_parse r s f : aligned k r -> exits k r s f ->
    exists e, parse_exit s r = Ok e /\ forall cur, f cur = (exit_next e cur k, exit_push e cur k, exit_pop e).
  Proof.
    intros A H. assert (GS : forall n i, map_get n (ru_map r) = Some i -> get_state n r = Ok i) by (intros n i G; unfold get_state; now rewrite G).
    destruct H as [|n i G|n i G|n i p q G G2|s'].
    - exists XSame. split; reflexivity.
    - pose proof (known_valid r n i A G) as V. destruct (validate_chars n V) as [_ F]. destruct (valid_head n V) as (c & n' & E & C).
      exists (XGo i). split; [|reflexivity]. rewrite parse_exit_eq.
      assert (D : text_eqb n [46] = false) by (apply text_neq; rewrite E; intros X; injection X as -> ->; discriminate C). rewrite D.
      assert (P : forall x, name_char x = false -> peek n =? x = false).
      { intros x Hx. rewrite E. cbn [peek hd]. destruct (N.eqb_spec c x) as [->|]; [congruence|auto]. }
      rewrite !P by reflexivity. cbv zeta. rewrite at_colon_none by now apply not_in. cbn [fst snd]. rewrite V, (GS n i G). reflexivity.
    - pose proof (known_valid r n i A G) as V. destruct (validate_chars n V) as [NE F].
      exists (XPush i None). split; [|reflexivity]. rewrite parse_exit_eq. rewrite text_neq by (intros X; injection X as X; congruence).
      change (peek (62 :: n) =? 60) with false. change (peek (62 :: n) =? 62) with true. cbv zeta. cbn [tl]. rewrite at_colon_none by now apply not_in. cbn [fst snd].
      rewrite V, (GS n i G). reflexivity.
    - pose proof (known_valid r n i A G) as V. destruct (validate_chars n V) as [NE F]. pose proof (known_valid r p q A G2) as V2.
      exists (XPush i (Some q)). split; [|reflexivity]. rewrite parse_exit_eq. rewrite text_neq by (intros X; injection X as X; congruence).
      change (peek (62 :: n ++ 58 :: p) =? 60) with false. change (peek (62 :: n ++ 58 :: p) =? 62) with true. cbv zeta. cbn [tl]. rewrite at_colon_some by now apply not_in. cbn [fst snd].
      rewrite V, V2, (GS n i G). cbn [bind]. rewrite (GS p q G2). reflexivity.
    - exists XPop. split; [|reflexivity]. rewrite parse_exit_eq. rewrite text_neq by (intros X; injection X as X; congruence). reflexivity.
  Qed.
  Lemma currents_parse r s is : aligned k r -> N.of_nat (length (ru_map r)) < 2 ^ r_bits k -> currents k r s is -> parse_states k s r = Ok is.
  Proof.
    intros A L [|ns is' N F].
    - unfold parse_states. cbn [text_eqb]. change (text_eqb [42] [42]) with true. cbv iota. now rewrite N.mod_small, Nat2N.id.
    - assert (V : Forall (fun n => validate n = true) ns).
      { clear N. induction F as [|n i ns js G F IH]; constructor; auto. eapply known_valid; eauto. }
      unfold parse_states. rewrite text_neq.
      + rewrite at_commas_commas by auto. clear N. induction F as [|n i ns js G F IH]; [reflexivity|]. inversion V as [|? ? V1 V2]; subst.
        cbn [get_states]. rewrite V1. unfold get_state. rewrite G. cbn [bind]. now rewrite IH.
      + destruct V as [|n ns V1 V2]; [congruence|]. destruct (valid_head n V1) as (c & n' & -> & C). intros X.
        destruct ns; cbn in X; injection X as -> X; discriminate C.
  Qed.

  (** ** What is added *)
  Theorem pushed x id uid r : aligned k r -> snd (push_rule k x id uid r) = Ok tt ->
    exists v, tokenise (r_bytes k) (ru_flags r) (ru_macros r) x true = Ok v /\
    forall i, rules_at (fst (push_rule k x id uid r)) i =
      rules_at r i ++ if Nat.eqb i 0 then map (mk_rule id uid 0 (rnpos k) false) v else [].
  Proof.
    intros A. unfold push_rule. destruct (bad_id k id); [discriminate|]. destruct (tokenise _ _ _ _ _) as [[|t ts]| | |]; try discriminate.
    destruct (feature_bits _ _ _ _ _); try discriminate. intros _. exists (t :: ts). split; [reflexivity|]. intros i. cbn [fst].
    rewrite (rules_at_add k) by auto. f_equal. destruct (al_first _ _ A) as (m & E & _). rewrite E. destruct i; reflexivity.
  Qed.
  Definition added (id uid : N) (f : N -> N * N * bool) (v : list (list token)) (is : list N) (i : nat) : list grule :=
    flat_map (fun j => if N.to_nat j =? i then let '(next, push, pop) := f j in map (mk_rule id uid next push pop) v else [])%nat is.
  Theorem pushed_in s x id n check uid r f is : aligned k r -> N.of_nat (length (ru_map r)) < 2 ^ r_bits k ->
    exits k r n f -> currents k r s is -> snd (push_states k s x id n check uid r) = Ok tt ->
    exists v, (is <> [] -> tokenise (r_bytes k) (ru_flags r) (ru_macros r) x true = Ok v) /\
    forall i, rules_at (fst (push_states k s x id n check uid r)) i = rules_at r i ++ added id uid f v is i.
  Proof.
    intros A L HE HC. destruct (exits_parse r n f A HE) as (e & Ee & He). unfold push_states. rewrite Ee, (currents_parse r s is A L HC).
    destruct (check && bad_id k id); [discriminate|]. clear L HE HC Ee. destruct is as [|i0 is].
    { intros _. exists []. split; [congruence|]. intros i. cbn. now rewrite app_nil_r. }
    destruct (tokenise (r_bytes k) (ru_flags r) (ru_macros r) x true) as [v| | |] eqn:ET; try (cbn [push_each]; rewrite ET; discriminate).
    intros HO. exists v. split; [auto|]. revert HO. generalize (i0 :: is) as js. clear i0 is. intros js. revert r A ET.
    induction js as [|j js IH]; intros r A ET HO i; [cbn; now rewrite app_nil_r|]. cbn [push_each] in *. rewrite ET in *.
    destruct v as [|t ts]; [discriminate|]. destruct (feature_bits _ _ _ _ _); try discriminate.
    destruct (Nat.ltb_spec (N.to_nat j) (length (ru_regexes r))) as [LT|]; [|discriminate].
    rewrite IH; auto; [|now apply aligned_add_rules]. rewrite (rules_at_add k) by auto. rewrite <- app_assoc. f_equal.
    unfold added. cbn [flat_map]. f_equal. rewrite He. destruct (al_states _ _ A) as (A1 & _). rewrite A1 in LT.
    destruct (Nat.eqb_spec (N.to_nat j) i) as [<-|]; [|reflexivity]. apply Nat.ltb_lt in LT. now rewrite LT.
  Qed.
  (** Unknown names. *)
  Theorem unknown_next x id n check uid s r : validate n = true -> map_get n (ru_map r) = None -> (check = true -> bad_id k id = false) ->
    push_states k s x id n check uid r = (r, Throw EUnknownState).
  Proof.
    intros V G B. destruct (validate_chars n V) as [_ F]. destruct (valid_head n V) as (c & n' & E & C). unfold push_states.
    replace (check && bad_id k id) with false by (destruct check; [now rewrite B|reflexivity]). rewrite parse_exit_eq.
    assert (D : text_eqb n [46] = false) by (apply text_neq; rewrite E; intros X; injection X as -> ->; discriminate C). rewrite D.
    assert (P : forall x, name_char x = false -> peek n =? x = false).
    { intros y Hx. rewrite E. cbn [peek hd]. destruct (N.eqb_spec c y) as [->|]; [congruence|auto]. }
    rewrite !P by reflexivity. cbv zeta. rewrite at_colon_none by now apply not_in. cbn [fst snd]. rewrite V. unfold get_state. now rewrite G.
  Qed.
End Push.
