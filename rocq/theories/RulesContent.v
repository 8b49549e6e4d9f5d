(** The rules a client can make: well formed token vectors, existing start states
    and feature bits. *)
From Verif Require Import Base StringToken StringTokenSpec StateMachine Tree Generator ReToken Parser Build ReTokeniser ReTokeniserNext Rules
  TokeniseSpec PruneProofs TokeniseAll RulesSpec RulesInv.
Local Open Scope N_scope.

Definition mk_rule (id uid next push : N) (pop : bool) (t : list token) : grule :=
  {| gr_tokens := t; gr_id := id; gr_uid := uid; gr_next := next; gr_push := push; gr_pop := pop |}.
Lemma zip_app t1 : forall i1 u1 n1 p1 b1 t2 i2 u2 n2 p2 b2, let n := length t1 in
  length i1 = n -> length u1 = n -> length n1 = n -> length p1 = n -> length b1 = n ->
  zip_rules (t1 ++ t2) (i1 ++ i2) (u1 ++ u2) (n1 ++ n2) (p1 ++ p2) (b1 ++ b2) = zip_rules t1 i1 u1 n1 p1 b1 ++ zip_rules t2 i2 u2 n2 p2 b2.
Proof.
  induction t1 as [|t t1 IH]; intros i1 u1 n1 p1 b1 t2 i2 u2 n2 p2 b2 n H1 H2 H3 H4 H5; subst n; cbn in H1, H2, H3, H4, H5.
  - destruct i1, u1, n1, p1, b1; try discriminate. reflexivity.
  - destruct i1, u1, n1, p1, b1; try discriminate. cbn. f_equal. cbn in H1, H2, H3, H4, H5; apply IH; lia.
Qed.
Lemma zip_all v id uid next push pop :
  zip_rules v (map (fun _ => id) v) (map (fun _ => uid) v) (map (fun _ => next) v) (map (fun _ => push) v) (map (fun _ => pop) v) =
  map (mk_rule id uid next push pop) v.
Proof. induction v as [|t v IH]; cbn; [reflexivity|]. now rewrite IH. Qed.
Lemma rules_at_add k i x v bits id uid next push pop r j : aligned k r ->
  rules_at (add_rules i x v bits id uid next push pop r) j =
  rules_at r j ++ (if Nat.eqb i j && Nat.ltb j (length (ru_map r)) then map (mk_rule id uid next push pop) v else []).
Proof.
  intros [A1 A2 _ _ _ _]. destruct (A2 j) as (B1 & B2 & B3 & B4 & B5 & B6). destruct A1 as (C1 & C2 & C3 & C4 & C5 & C6 & C7 & C8).
  unfold rules_at, add_rules. cbn [ru_regexes ru_ids ru_uids ru_nexts ru_pushes ru_pops]. rewrite !nth_append, C1, C4, C5, C6, C7, C8.
  rewrite zip_app by congruence. f_equal. destruct (_ && _); [apply zip_all|reflexivity].
Qed.
Lemma good_more k n m x : (n <= m)%nat -> good_rule k n x -> good_rule k m x.
Proof. intros H (A & B & C & D). repeat split; auto; [destruct B|destruct C]; (tauto || (left; lia) || (right; lia)). Qed.

Lemma index_bound k r name i : aligned k r -> map_get name (ru_map r) = Some i -> i < N.of_nat (length (ru_map r)).
Proof.
  intros A G. apply map_get_in in G. apply In_nth_error in G. destruct G as (j & G). rewrite (al_index _ _ A _ _ _ G).
  assert (j < length (ru_map r))%nat by (apply nth_error_Some; congruence).
  assert (N.of_nat j mod 2 ^ r_bits k <= N.of_nat j) by (apply N.mod_le, N.pow_nonzero; discriminate). lia.
Qed.
Lemma get_state_ok k r name : aligned k r -> match get_state name r with Ok i => i < N.of_nat (length (ru_map r)) | Throw _ => True | _ => False end.
Proof. intros A. unfold get_state. destruct (map_get name (ru_map r)) eqn:G; [eapply index_bound; eauto|auto]. Qed.
Definition exit_ok (n : nat) (e : exit_state) : Prop :=
  match e with
  | XSame | XPop => True
  | XGo i => i < N.of_nat n
  | XPush i o => i < N.of_nat n /\ match o with Some q => q < N.of_nat n | None => True end
  end.
Lemma parse_exit_ok k s r : aligned k r -> match parse_exit s r with Ok e => exit_ok (length (ru_map r)) e | Throw _ => True | _ => False end.
Proof.
  intros A. unfold parse_exit. destruct (text_eqb s [46]); [exact Logic.I|].
  assert (REST : match (let push := peek s =? 62 in
      let x := at_colon (if push then tl s else s) in
      if validate (fst x) then
        match snd x with
        | None => do n <- get_state (fst x) r; Ok (if push then XPush n None else XGo n)
        | Some p =>
          if push then
            if validate p then
              do n <- get_state (fst x) r; do q <- get_state p r; Ok (XPush n (Some q))
            else Throw EBadName
          else Throw EBadName
        end
      else Throw EBadName) with Ok e => exit_ok (length (ru_map r)) e | Throw _ => True | _ => False end).
  { cbv zeta. destruct (validate _); [|auto]. destruct (snd _) as [p|].
    - destruct (_ =? _); [|auto]. destruct (validate p); [|auto]. pose proof (get_state_ok k r (fst (at_colon (tl s))) A) as H.
      destruct (get_state _ r); cbn; auto. pose proof (get_state_ok k r p A) as H'. destruct (get_state p r); cbn; auto.
    - pose proof (fun n => get_state_ok k r n A) as H. destruct (_ =? _); match goal with |- context[get_state ?n r] => specialize (H n); destruct (get_state n r) end; cbn; auto. }
  destruct s as [|c s]; [exact REST|]. destruct c as [|p]; [exact REST|].
  repeat (destruct p as [p|p|]; try exact REST).
Qed.
Lemma parse_states_ok k s r : aligned k r -> match parse_states k s r with
  | Ok is => Forall (fun i => i < N.of_nat (length (ru_map r))) is | Throw _ => True | _ => False end.
Proof.
  intros A. unfold parse_states. destruct (text_eqb s [42]).
  - apply Forall_forall. intros i Hi. apply in_map_iff in Hi. destruct Hi as (j & <- & Hj). apply in_seq in Hj.
    assert (N.of_nat (length (ru_map r)) mod 2 ^ r_bits k <= N.of_nat (length (ru_map r))) by (apply N.mod_le, N.pow_nonzero; discriminate). lia.
  - generalize (at_commas s []). induction l as [|n l IH]; cbn; [auto|]. destruct (validate n); [|auto]. pose proof (get_state_ok k r n A) as H.
    destruct (get_state n r); cbn; auto. destruct (get_states l r); cbn; auto.
Qed.
Lemma feature_bits_ok k x y id rec Q : mvec Q x -> mvec Q y -> exists b, feature_bits k x y id rec = Ok b.
Proof.
  intros (w & -> & _) (v & -> & _). unfold feature_bits.
  assert (N1 : nth_error (between w) 1 <> None) by (apply nth_error_Some; cbn; rewrite app_length; cbn; lia).
  assert (N2 : nth_error (between v) (length (between v) - 2) <> None) by (apply nth_error_Some; cbn; rewrite app_length; cbn; lia).
  destruct (nth_error (between w) 1); [|congruence]. destruct (nth_error (between v) _); [|congruence]. eauto.
Qed.
Lemma forall_last_d A (P : A -> Prop) l d : P d -> Forall P l -> P (last l d).
Proof. intros Hd F. induction F as [|x l Hx F IH]; [auto|]. destruct l; auto. Qed.

(** How a call may end: only a macro whose text was not accepted, or that uses
    itself, leads out of the vectors (finding 30). *)
Definition ends_ok {A} (ms : macros) (x : res A) : Prop :=
  match x with Ok _ | Throw _ => True | UB => exists name, macro_find name ms = Some [] | Fuel => False end.

Section Inv.
  Variable k : rcfg.
  Notation b := (r_bytes k).

  Lemma content_new flags : content k (make_rules k flags).
  Proof.
    assert (M : ru_macros (make_rules k flags) = [] /\ forall i, rules_at (make_rules k flags) i = []).
    { unfold make_rules, push_state. change (validate initial) with true. cbn [no_rules ru_map map_get].
      destruct (rnpos k <? _); cbn [fst]; (split; [reflexivity|]); unfold rules_at; cbn [ru_regexes ru_ids ru_uids ru_nexts ru_pushes ru_pops app]; intros [|[|i]]; reflexivity. }
    destruct M as [M R]. constructor; [rewrite M; intros n mt E; discriminate|]. intros i. rewrite R. constructor.
  Qed.
  Lemma content_push_state name r : content k r -> content k (fst (push_state k name r)).
  Proof.
    intros [C1 C2]. unfold push_state. destruct (validate name); [|now constructor]. destruct (map_get _ _); [now constructor|].
    destruct (_ <? _); cbn [fst]; (constructor; cbn [ru_macros ru_map]; [auto|]; intros i; unfold rules_at;
      cbn [ru_regexes ru_ids ru_uids ru_nexts ru_pushes ru_pops]; rewrite !nth_snoc;
      (eapply Forall_impl; [|apply (C2 i)]); intros x; apply good_more; rewrite app_length; lia).
  Qed.
  Lemma content_macros r ms : macros_ok (chars b) ms -> content k r -> content k (with_macros ms r).
  Proof. intros H [C1 C2]. constructor; [exact H|exact C2]. Qed.
  Lemma macros_snoc ms name t : macros_ok (chars b) ms -> t = [] \/ mvec (chars b) t -> macros_ok (chars b) (ms ++ [(name, t)]).
  Proof.
    intros H Ht n mt E. specialize (H n mt). induction ms as [|[n' t'] ms IH]; cbn in E, H.
    - destruct (text_eqb n name); [|discriminate]. now injection E as <-.
    - destruct (text_eqb n n'); auto.
  Qed.
  Lemma content_insert_macro name x r : content k r -> text_ok k r (ru_macros r ++ [(name, [])]) x false ->
    content k (fst (insert_macro k name x r)) /\ ends_ok (ru_macros r ++ [(name, [])]) (snd (insert_macro k name x r)).
  Proof.
    intros C (T1 & T2 & T3). unfold insert_macro. destruct (validate name); [|now split]. destruct (macro_find name (ru_macros r)); [now split|].
    pose proof (macros_snoc _ name [] (co_macros _ _ C) (or_introl eq_refl)) as M. cbv zeta.
    pose proof (tokenise_ok b (ru_flags r) _ x false M T1 T2 T3) as O.
    destruct (tokenise _ _ _ _ _) as [[|t ts]| | |]; cbn [fst snd].
    - destruct O as [O _]. congruence.
    - destruct O as (_ & O & _). inversion O; subst. split; [|exact Logic.I]. apply content_macros; [|auto]. apply macros_snoc; [apply C|]. right. now apply forall_last_d.
    - split; [now apply content_macros|exact Logic.I].
    - split; [now apply content_macros|exact O].
    - destruct O.
  Qed.

  Lemma content_add i x v bits id uid next push pop r : aligned k r -> content k r ->
    Forall (mvec (chars b)) v -> (next < N.of_nat (length (ru_map r)) \/ pop = true) ->
    (push = rnpos k \/ push < N.of_nat (length (ru_map r))) -> id <> rnpos k ->
    content k (add_rules i x v bits id uid next push pop r).
  Proof.
    intros A [C1 C2] V H1 H2 H3. constructor; [exact C1|]. intros j. rewrite (rules_at_add k) by auto. apply Forall_app. split; [apply C2|].
    destruct (_ && _); [|constructor]. rewrite Forall_map. eapply Forall_impl; [|exact V]. intros t Ht. repeat split; auto.
  Qed.
  Lemma content_push_rule x id uid r : aligned k r -> content k r -> text_ok k r (ru_macros r) x true ->
    content k (fst (push_rule k x id uid r)) /\ ends_ok (ru_macros r) (snd (push_rule k x id uid r)).
  Proof.
    intros A C (T1 & T2 & T3). unfold push_rule. destruct (bad_id k id) eqn:B; [now split|].
    pose proof (tokenise_ok b (ru_flags r) _ x true (co_macros _ _ C) T1 T2 T3) as O.
    destruct (tokenise _ _ _ _ _) as [[|t ts]| | |]; cbn [fst snd].
    - destruct O as [O _]. congruence.
    - destruct O as (_ & O & _). inversion O as [|? ? O1 O2]; subst.
      destruct (feature_bits_ok k t (last ts t) id false (chars b) O1 (forall_last_d _ _ _ _ O1 O2)) as (bits & ->).
      split; [|exact Logic.I]. unfold bad_id in B. apply orb_false_iff in B. destruct B as [B1 B2]. apply N.eqb_neq in B1, B2.
      apply content_add; auto. left. destruct (al_first _ _ A) as (m & -> & _). cbn [length]. lia.
    - now split.
    - now split.
    - destruct O.
  Qed.
  Lemma content_push_each x id uid e is : id <> rnpos k -> forall r, aligned k r -> content k r -> text_ok k r (ru_macros r) x true ->
    exit_ok (length (ru_map r)) e -> Forall (fun i => i < N.of_nat (length (ru_map r))) is ->
    content k (fst (push_each k x id uid e is r)) /\ ends_ok (ru_macros r) (snd (push_each k x id uid e is r)).
  Proof.
    intros Hid. induction is as [|i is IH]; intros r A C (T1 & T2 & T3) He Hi; [now split|].
    cbn [push_each]. pose proof (tokenise_ok b (ru_flags r) _ x true (co_macros _ _ C) T1 T2 T3) as O.
    destruct (tokenise _ _ _ _ _) as [[|t ts]| | |]; cbn [fst snd].
    - destruct O as [O _]. congruence.
    - destruct O as (_ & O & _). inversion O as [|? ? O1 O2]; subst.
      destruct (feature_bits_ok k (last ts t) (last ts t) id (exit_rec e) (chars b) (forall_last_d _ _ _ _ O1 O2) (forall_last_d _ _ _ _ O1 O2)) as (bits & ->).
      inversion Hi as [|? ? Hi1 Hi2]; subst. destruct (Nat.ltb_spec (N.to_nat i) (length (ru_regexes r))) as [L|L].
      + apply (IH (add_rules (N.to_nat i) x (t :: ts) bits id uid (exit_next e i k) (exit_push e i k) (exit_pop e) r)); auto.
        * now apply aligned_add_rules.
        * apply content_add; auto.
          -- destruct e; cbn [exit_next exit_pop exit_ok] in *; auto; left; tauto.
          -- destruct e as [| | |n [q|]]; cbn [exit_push exit_ok] in *; auto; right; tauto.
        * repeat split; auto.
      + exfalso. destruct (al_states _ _ A) as [E _]. lia.
    - now split.
    - now split.
    - destruct O.
  Qed.
  Lemma content_push_states c x id n check uid r : aligned k r -> content k r -> text_ok k r (ru_macros r) x true -> (check = false -> id <> rnpos k) ->
    content k (fst (push_states k c x id n check uid r)) /\ ends_ok (ru_macros r) (snd (push_states k c x id n check uid r)).
  Proof.
    intros A C T H. unfold push_states. destruct (check && bad_id k id) eqn:B; [now split|].
    assert (Hid : id <> rnpos k).
    { destruct check; [|auto]. cbn in B. unfold bad_id in B. apply orb_false_iff in B. destruct B as [_ B]. now apply N.eqb_neq. }
    pose proof (parse_exit_ok k n r A) as E. destruct (parse_exit n r); try now split.
    pose proof (parse_states_ok k c r A) as S. destruct (parse_states k c r); try now split.
    now apply content_push_each.
  Qed.
  Lemma content_clear_state i r : content k r -> content k (clear_state i r).
  Proof.
    intros [C1 C2]. unfold clear_state. destruct (Nat.ltb _ _); [|now constructor]. constructor; [exact C1|]. intros j.
    unfold rules_at. cbn [ru_regexes ru_ids ru_uids ru_nexts ru_pushes ru_pops ru_map]. rewrite (nth_upd _ (ru_regexes r)).
    destruct (Nat.eqb i j && _) eqn:E; [constructor|]. specialize (C2 j). unfold rules_at in C2.
    destruct (Nat.eqb_spec i j) as [->|N].
    - cbn [andb] in E. apply Nat.ltb_ge in E. rewrite (nth_overflow (ru_regexes r)) by auto. constructor.
    - rewrite !nth_upd. apply Nat.eqb_neq in N. rewrite N. exact C2.
  Qed.

  Definition op_macros (o : op) (r : rules) : macros :=
    match o with OMacro name _ => ru_macros r ++ [(name, [])] | _ => ru_macros r end.
  Hypothesis NPOS : rnpos k <> 0.
  Theorem content_apply o r : aligned k r -> content k r -> op_ok k r o ->
    content k (fst (apply k o r)) /\ ends_ok (op_macros o r) (snd (apply k o r)).
  Proof.
    intros A C H. destruct o; cbn [apply op_ok op_macros] in *.
    - cbv zeta. cbn [fst snd]. split; [now apply content_push_state|]. unfold push_state. destruct (validate name); [|exact Logic.I].
      destruct (map_get _ _); [exact Logic.I|]. destruct (_ <? _); exact Logic.I.
    - now apply content_insert_macro.
    - now apply content_push_rule.
    - apply content_push_states; auto. discriminate.
    - apply content_push_states; auto.
    - split; [apply content_new|exact Logic.I].
    - split; [now apply content_clear_state|exact Logic.I].
    - split; [|exact Logic.I]. destruct C. now constructor.
    - destruct H.
  Qed.
  Theorem proper_content r : proper k r -> aligned k r /\ content k r.
  Proof.
    induction 1 as [flags|o r P [A C] H]; [split; [apply aligned_new|apply content_new]|].
    split; [now apply aligned_apply|now apply content_apply].
  Qed.
End Inv.
