(** A check of the hypotheses about calls on a rules object that computes. *)
From Verif Require Import Base StringToken StateMachine ReToken Grammar Tree Parser ParserProofs Generator Build ParserKeys GramUnique RuleSpec BuildSpec BolWords BuildCheck
  ReTokeniser ReTokeniserNext Rules TokeniseSpec TokeniseProofs PruneProofs TokeniseAll RulesSpec RulesBuild.
Local Open Scope N_scope.

(** ** Texts *)
(** The longest run of digits, with [n] digits before the text. *)
Fixpoint run_max (n : nat) (l : list N) : nat :=
  match l with
  | [] => n
  | c :: l' => if (48 <=? c) && (c <=? 57) then run_max (S n) l' else Nat.max n (run_max 0 l')
  end.
Lemma run_max_ge l : forall n, (n <= run_max n l)%nat.
Proof. induction l as [|c l IH]; intros n; cbn; [lia|]. destruct (_ && _); [specialize (IH (S n)); lia|lia]. Qed.
Lemma run_max_mono l : forall n m, (n <= m)%nat -> (run_max n l <= run_max m l)%nat.
Proof. induction l as [|c l IH]; intros n m H; cbn; [lia|]. destruct (_ && _); [apply IH; lia|lia]. Qed.
Lemma run_max_digits ds : forall n r, Forall digit ds -> (n + length ds <= run_max n (ds ++ r))%nat.
Proof.
  induction ds as [|d ds IH]; intros n r F; [cbn; pose proof (run_max_ge r n); lia|]. inversion F as [|? ? D F']; subst.
  cbn. replace ((48 <=? d) && (d <=? 57)) with true by (unfold digit in D; symmetry; apply andb_true_iff; split; apply N.leb_le; lia).
  specialize (IH (S n) r F'). lia.
Qed.
Lemma run_max_app p : forall n l, (run_max 0 l <= run_max n (p ++ l))%nat.
Proof.
  induction p as [|c p IH]; intros n l; [apply run_max_mono; lia|]. cbn. destruct (_ && _); [apply IH|]. specialize (IH 0%nat l). lia.
Qed.
Lemma dval_lt ds : Forall digit ds -> dval ds < 10 ^ N.of_nat (length ds).
Proof.
  unfold dval. intros F. induction ds as [|d ds IH] using rev_ind; [cbn; lia|]. apply Forall_app in F. destruct F as [F1 F2].
  inversion F2 as [|? ? D _]; subst. unfold digit in D. rewrite fold_left_app, app_length. cbn [fold_left length]. specialize (IH F1).
  replace (N.of_nat (length ds + 1)) with (N.succ (N.of_nat (length ds))) by lia. rewrite N.pow_succ_r'. lia.
Qed.
Definition text_okb (k : rcfg) (r : rules) (ms : macros) (regex : list N) (rule : bool) : bool :=
  forallb (fun c => c <=? max_char (r_bytes k)) regex && Nat.leb (run_max 0 regex) 19 &&
  (if rule then
     match tok_loop (S (length regex)) (r_bytes k) ms (start_state (ru_flags r) regex) [tok BEGIN] [] None with
     | Ok ts => forallb (fun t => negb (is_type AREPEATN t) ||
                                  match to_comma (tk_extra t) with [c] => true | l => negb (dval l =? 0) end) ts
     | _ => true
     end
   else true).
Lemma text_okb_ok k r ms x rule : text_okb k r ms x rule = true -> text_ok k r ms x rule.
Proof.
  unfold text_okb. rewrite !andb_true_iff. intros [[H1 H2] H3]. split; [|split].
  - apply Forall_forall. intros c Hc. rewrite forallb_forall in H1. now apply N.leb_le, H1.
  - intros p ds q -> F. apply Nat.leb_le in H2. pose proof (run_max_app p 0 (ds ++ q)) as A. pose proof (run_max_digits ds 0 q F) as B.
    apply N.lt_le_trans with (1 := dval_lt ds F).
    apply N.le_trans with (10 ^ 19); [apply N.pow_le_mono_r; lia|]. vm_compute. discriminate.
  - intros -> w E. rewrite E in H3. rewrite forallb_forall in H3. apply Forall_forall. intros t Ht ET (D1 & D2 & D3).
    assert (I : In t (between w)) by (right; apply in_app_iff; now left). specialize (H3 t I). cbv beta in H3. unfold is_type in H3. rewrite ET in H3. cbn [ttype_eqb negb orb] in H3.
    destruct (to_comma (tk_extra t)) as [|c [|c2 l]]; [congruence| |].
    + inversion D2 as [|? ? D _]; subst. unfold digit in D. cbn [fold_left] in D3. f_equal. lia.
    + assert (Z : dval (c :: c2 :: l) = 0) by (symmetry; exact D3). rewrite Z in H3. discriminate.
Qed.

(** ** Calls *)
Definition op_okb (k : rcfg) (r : rules) (o : op) : bool :=
  match o with
  | OMacro name x => text_okb k r (ru_macros r ++ [(name, [])]) x false
  | OPush x _ _ => text_okb k r (ru_macros r) x true
  | OPushIn _ x _ _ _ | OPushNoId _ x _ => text_okb k r (ru_macros r) x true &&
      match tokenise (r_bytes k) (ru_flags r) (ru_macros r) x true with
      | Ok v => negb (starts BOL (tl (hd [] v))) || Nat.eqb (length v) 1
      | _ => true
      end
  | OReverse => false
  | _ => true
  end.
Lemma op_okb_ok k r o : op_okb k r o = true -> op_ok k r o /\ op_unsplit k r o.
Proof.
  assert (U : forall x : list N, match tokenise (r_bytes k) (ru_flags r) (ru_macros r) x true with
      | Ok v => negb (starts BOL (tl (hd [] v))) || Nat.eqb (length v) 1 | _ => true end = true ->
    forall v, tokenise (r_bytes k) (ru_flags r) (ru_macros r) x true = Ok v -> starts BOL (tl (hd [] v)) = true -> length v = 1%nat).
  { intros x H v E S. rewrite E in H. rewrite S in H. now apply Nat.eqb_eq. }
  destruct o; cbn [op_okb op_ok op_unsplit]; intros H.
  all: try (apply andb_true_iff in H as [H1 H2]; split; [now apply text_okb_ok|now apply U]).
  all: try (split; [now apply text_okb_ok|exact Logic.I]).
  all: try (split; exact Logic.I). discriminate.
Qed.
Fixpoint calls_okb (k : rcfg) (os : list op) (r : rules) : bool :=
  match os with
  | [] => true
  | o :: os' => op_okb k r o && calls_okb k os' (fst (apply k o r))
  end.
Definition calls (k : rcfg) (os : list op) (r : rules) : rules := fold_left (fun r o => fst (apply k o r)) os r.
Theorem calls_proper k os : forall r, proper_unsplit k r -> calls_okb k os r = true -> proper_unsplit k (calls k os r).
Proof.
  induction os as [|o os IH]; intros r P H; [exact P|]. cbn in H. apply andb_true_iff in H as [H1 H2].
  destruct (op_okb_ok k r o H1) as [A B]. apply IH; auto. now constructor.
Qed.
Lemma unsplit_proper k r : proper_unsplit k r -> proper k r.
Proof. induction 1; constructor; auto. Qed.
Theorem calls_history k os : forall os0 r, history k os0 r -> history k (os0 ++ os) (calls k os r).
Proof.
  induction os as [|o os IH]; intros os0 r H; [now rewrite app_nil_r|]. cbn. specialize (IH (os0 ++ [o]) (fst (apply k o r))).
  rewrite <- app_assoc in IH. apply IH. now constructor.
Qed.

(** ** The rules of the object *)
Definition earlyb (x : grule) : bool :=
  match gr_tokens x with
  | B :: b :: v => is_type BEGIN B && is_type BOL b && is_type END (last v b) && negb (existsb is_bolb (removelast v)) &&
      match removelast v with d :: _ => negb (ParserProofs.is_dup (tk_type d)) | [] => true end
  | _ => false
  end.
Lemma earlyb_ok x : earlyb x = true -> bol_rule true x.
Proof.
  unfold earlyb. destruct (gr_tokens x) as [|B [|b v]] eqn:E; try discriminate. rewrite !andb_true_iff. intros [[[[H1 H2] H3] H4] H6].
  assert (V : v <> []). { intros ->. cbn in H3. unfold is_type in H2, H3. destruct (tk_type b); discriminate. }
  apply (early_tokens x b (removelast v)).
  - exists B, (last v b). split; [rewrite E; cbn [app]; now rewrite <- app_removelast_last|]. split; apply is_type_iff; auto.
  - now apply is_type_iff.
  - intros d v' E1. rewrite E1 in H6. now apply negb_true_iff.
  - apply no_bolb. now apply negb_true_iff.
Qed.
Definition simpleb (g : gcfg) (r : rules) : bool :=
  forallb (fun i => forallb (fun x =>
      negb (ends EOL (removelast (gr_tokens x))) &&
      (negb (starts BOL (tl (gr_tokens x))) || earlyb x) &&
      forallb (fun t => negb (is_type CHARSET t) || (g_bytes g =? 1) || (g_bytes g =? 2) || forallb tameb (tk_str t)) (gr_tokens x)) (rules_at r i)) (seq 0 (length (ru_regexes r))) &&
  forallb (fun s => N.of_nat (length (all_sets (g_bytes g) s)) <? eol_tok g) (gr_states (grules_of r)).
Lemma simpleb_ok g r : simpleb g r = true -> simple g r.
Proof.
  unfold simpleb. rewrite andb_true_iff, !forallb_forall. intros [H1 H2].
  assert (A : forall i x, In x (rules_at r i) -> negb (ends EOL (removelast (gr_tokens x))) = true /\
      (negb (starts BOL (tl (gr_tokens x))) || earlyb x) = true /\ (forall t, In t (gr_tokens x) -> sliceable (g_bytes g) t)).
  { intros i x Hx. destruct (Nat.lt_ge_cases i (length (ru_regexes r))) as [L|L].
    - specialize (H1 i). rewrite in_seq, forallb_forall in H1. specialize (H1 ltac:(lia) x Hx). cbv beta in H1. rewrite !andb_true_iff, forallb_forall in H1. destruct H1 as [[H1 H3] H4]. split; [exact H1|]. split; [exact H3|].
      intros t Ht Et. specialize (H4 t Ht). unfold is_type in H4. rewrite Et in H4. cbn [ttype_eqb negb orb] in H4. rewrite !orb_true_iff, !N.eqb_eq in H4.
      destruct H4 as [[[H4|H4]|H4]|H4]; [discriminate|auto|auto|]. right. right. apply Forall_forall. rewrite forallb_forall in H4. intros c Hc. now apply tameb_ok, H4.
    - unfold rules_at in Hx. rewrite (nth_overflow (ru_regexes r)) in Hx by lia. destruct Hx. }
  split; [|split; [|split]].
  - intros i x Hx. destruct (A i x Hx) as [B _]. now apply negb_true_iff.
  - intros i x Hx S. destruct (A i x Hx) as (_ & B & _). rewrite S in B. cbn in B. now apply earlyb_ok.
  - intros s Hs. apply N.ltb_lt. now apply H2.
  - intros i x t Hx. now apply (A i x Hx).
Qed.
