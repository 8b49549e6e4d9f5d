(** Texts that stand for themselves: every metacharacter escaped, or in quotes. *)
From Verif Require Import Base StringToken RegexSpec ReToken Grammar RuleSpec Rules SourceSpec SourceClass SourceClass2.
Local Open Scope N_scope.

(** A backslash in front of every metacharacter; quotes around the text and a
    backslash in front of every quote and backslash. *)
Definition isin (l : list N) (c : N) : bool := existsb (N.eqb c) l.
Definition escaped (s : list N) : list N := flat_map (fun c => if isin meta c then [92; c] else [c]) s.
Definition in_quotes (s : list N) : list N :=
  34 :: flat_map (fun c => if isin [34; 92] c then [92; c] else [c]) s ++ [34].
Fixpoint literal (b fl : N) (s : list N) : sx :=
  match s with
  | [] => SSet (fun _ => False)
  | [c] => SSet (cased b (f_icase fl) (eq c))
  | c :: s' => SCat (SSet (cased b (f_icase fl) (eq c))) (literal b fl s')
  end.

Lemma isin_iff l c : isin l c = true <-> In c l.
Proof.
  unfold isin. rewrite existsb_exists. split; [intros (x & H & E); apply N.eqb_eq in E; now subst|].
  intros H. exists c. split; [exact H|apply N.eqb_refl].
Qed.
Lemma isin_not l c : isin l c = false -> ~ In c l.
Proof. intros H I. apply isin_iff in I. congruence. Qed.
Lemma meta_self c : In c meta -> ~ In c not_itself.
Proof.
  intros H I. assert (E : forallb (fun c => negb (isin not_itself c)) meta = true) by (vm_compute; reflexivity).
  rewrite forallb_forall in E. specialize (E c H). apply isin_iff in I. rewrite I in E. discriminate.
Qed.
Lemma escaped_char b fl first rest c : f_skip_ws fl = false ->
  satom b fl first rest (if isin meta c then [92; c] else [c]) (cased b (f_icase fl) (eq c)).
Proof.
  intros F. destruct (isin meta c) eqn:E.
  - apply isin_iff in E. apply (sa_escape b fl first rest [c] c). apply ec_self. now apply meta_self.
  - apply isin_not in E. apply sa_plain; [exact E|congruence].
Qed.
Theorem escaped_means b E fl s : f_skip_ws fl = false -> s <> [] -> regex_means b E fl (escaped s) (literal b fl s).
Proof.
  intros F N. unfold regex_means. apply sr_regex. generalize true. induction s as [|c s IH]; [easy|]. intros first.
  unfold escaped. cbn [flat_map literal]. destruct s as [|d s].
  - cbn [flat_map]. rewrite app_nil_r. apply sr_seq, sr_expr, sr_atom, as_atom. now apply escaped_char.
  - apply sr_cat; [apply sr_seq, sr_expr, sr_atom, as_atom; now apply escaped_char|]. apply IH. discriminate.
Qed.
Lemma quoted_char b fl rest c : qchar b fl rest (if isin [34; 92] c then [92; c] else [c]) (cased b (f_icase fl) (eq c)).
Proof.
  destruct (isin [34; 92] c) eqn:E.
  - apply isin_iff in E. apply (qc_escape b fl rest [c] c). apply ec_self. apply meta_self. cbn in E.
    destruct E as [<-|[<-|[]]]; vm_compute; auto 20.
  - apply isin_not in E. cbn in E. apply qc_plain; intros ->; tauto.
Qed.
Theorem quoted_means b E fl s : s <> [] -> regex_means b E fl (in_quotes s) (literal b fl s).
Proof.
  intros N. unfold regex_means, in_quotes. apply sr_regex, sr_quoted. generalize [34]. intros rest.
  induction s as [|c s IH]; [easy|]. cbn [flat_map literal]. destruct s as [|d s].
  - cbn [flat_map]. rewrite app_nil_r. apply qu_one. apply quoted_char.
  - apply qu_more; [apply quoted_char|]. apply IH. discriminate.
Qed.
Lemma literal_lang b fl s : s <> [] -> forall w, slang (literal b fl s) w <->
  exists cs, w = map CChar cs /\ Forall2 (fun c d => cased b (f_icase fl) (eq c) d) s cs.
Proof.
  induction s as [|c s IH]; [easy|]. intros _ w. cbn [literal]. destruct s as [|d s].
  - cbn [slang]. split.
    + intros (x & H & ->). exists [x]. split; [reflexivity|]. constructor; [exact H|constructor].
    + intros (cs & -> & H). inversion H as [|? x ? cs' H1 H2]; subst. inversion H2; subst. exists x. auto.
  - set (t := d :: s) in *. cbn [slang]. split.
    + intros (u & v & -> & (x & H & ->) & K). apply IH in K; [|discriminate]. destruct K as (cs & -> & K).
      exists (x :: cs). split; [reflexivity|now constructor].
    + intros (cs & -> & H). inversion H as [|? x ? cs' H1 H2]; subst. exists [CChar x], (map CChar cs').
      split; [reflexivity|]. split; [eauto|]. apply IH; [discriminate|eauto].
Qed.
(** Without icase the text itself and nothing else. *)
Lemma same_chars b s cs : Forall2 (fun c d => cased b false (eq c) d) s cs <-> cs = s.
Proof.
  split.
  - induction 1 as [|c d s cs [H|[H _]] _ IH]; [reflexivity|congruence|discriminate].
  - intros ->. induction s; constructor; [now left|auto].
Qed.
Lemma small_escaped b s : small b s -> small b (escaped s).
Proof.
  intros H. unfold escaped. apply Forall_flat_map. eapply Forall_impl; [|exact H]. intros c Hc. cbv beta in *. pose proof (ReTokeniserProofs.max_char_ge b).
  destruct (isin meta c); repeat constructor; try exact Hc. lia.
Qed.
Lemma small_quoted b s : small b s -> small b (in_quotes s).
Proof.
  intros H. unfold in_quotes. pose proof (ReTokeniserProofs.max_char_ge b). constructor; [lia|]. apply Forall_app. split; [|repeat constructor; lia].
  apply Forall_flat_map. eapply Forall_impl; [|exact H]. intros c Hc. cbv beta in *. destruct (isin _ c); repeat constructor; try exact Hc. lia.
Qed.

(** ** Case *)
Definition closed (P : N -> Prop) : Prop := forall c d, P c -> other_case 1 c d -> P d.
Lemma other_case_one c d : other_case 1 c d <-> (upper c /\ d = c + 32) \/ (lower c /\ c = d + 32).
Proof. unfold other_case. change (1 =? 1) with true. cbv iota. reflexivity. Qed.
Lemma closed_cased P : closed (cased 1 true P).
Proof.
  intros c d [H|(_ & e & H & K)] O.
  - right. split; [reflexivity|]. eauto.
  - apply (proj1 (other_case_one _ _)) in K. apply (proj1 (other_case_one _ _)) in O. left. unfold upper, lower in *. assert (E : e = d) by lia. now rewrite <- E.
Qed.
Lemma closed_not P : closed P -> closed (outside 1 P).
Proof.
  intros C c d [H1 H2] O. pose proof O as O'. apply (proj1 (other_case_one _ _)) in O'. unfold upper, lower in O'. split.
  - unfold top in *. change (1 =? 1) with true in *. cbv iota in *. lia.
  - intros K. apply H2. apply (C d c K). apply (proj2 (other_case_one _ _)). unfold upper, lower. lia.
Qed.
Lemma classes_closed : (forall t P, eclass 1 true t P -> closed P) /\
  (forall first rest t P, citem 1 true first rest t P -> closed P) /\
  (forall first t P, cbody 1 true first t P -> closed P) /\ (forall t P, class 1 true t P -> closed P).
Proof.
  apply (class_mutual 1 true (fun _ P => closed P) (fun _ _ _ P => closed P) (fun _ _ P => closed P) (fun _ P => closed P));
    intros; try apply closed_not; try apply closed_cased; try assumption.
  - intros c d H O. apply (proj1 (other_case_one _ _)) in O. unfold is_dec, upper, lower in *. lia.
  - intros c d H O. apply (proj1 (other_case_one _ _)) in O. unfold is_dec, upper, lower in *. lia.
  - intros c d H O. apply (proj1 (other_case_one _ _)) in O. unfold is_space, upper, lower in *. lia.
  - intros c d H O. apply (proj1 (other_case_one _ _)) in O. unfold is_space, upper, lower in *. lia.
  - intros c d [].
  - intros c d [X|X] O; [left|right]; eauto.
Qed.
