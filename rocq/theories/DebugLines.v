(** Lines of text, and what they say. *)
From Verif Require Import Base StringToken ReToken ReTokeniser Rules GenCpp Debug StringTokenSpec StringTokenProofs RuleSpec Grammar SourceSpec
  DebugSpec DebugText DebugClass.
From Coq Require Import String.
Local Open Scope N_scope.
Local Open Scope list_scope.

(** ** Characters of the text *)
Definition visible (c : N) : Prop := 32 <= c <= 126.
Definition numeral (c : N) : Prop := 48 <= c <= 57.
Lemma digit_visible d : d < 16 -> visible (GenCpp.digit d).
Proof. intros H. unfold visible, GenCpp.digit. destruct (N.ltb_spec d 10); lia. Qed.
Lemma digits_forall (P : N -> Prop) b : 2 <= b -> (forall d, d < b -> P (GenCpp.digit d)) -> forall f n, Forall P (digits f b n []).
Proof.
  intros B H. induction f as [|f IH]; intros n; cbn [digits]; [constructor|]. destruct (N.ltb_spec n b); [auto|].
  rewrite digits_app. apply Forall_app. split; [apply IH|]. constructor; [|constructor]. apply H. apply N.mod_lt. lia.
Qed.
Lemma print_numeral n : Forall numeral (print 10 n).
Proof. apply digits_forall; [lia|]. intros d H. unfold numeral, GenCpp.digit. destruct (N.ltb_spec d 10); lia. Qed.
Lemma print_visible b n : 2 <= b <= 16 -> Forall visible (print b n).
Proof. intros B. apply digits_forall; [lia|]. intros d H. apply digit_visible. lia. Qed.
Lemma escape_visible b c : 2 <= b <= 16 -> Forall visible (escape_char b c).
Proof.
  intros B. unfold escape_char.
  repeat match goal with |- context [if ?x =? ?y then _ else _] => destruct (N.eqb_spec x y) as [->|?]; [repeat constructor; unfold visible; lia|] end.
  destruct ((c <? 32) || (126 <? c)) eqn:E.
  - repeat (constructor; [unfold visible; lia|]). now apply print_visible.
  - constructor; [unfold visible; lia|constructor].
Qed.
Lemma range_visible b r : 2 <= b <= 16 -> Forall visible (dump_range b r).
Proof.
  intros B. destruct r as [x y]. unfold dump_range.
  assert (V : forall (z : bool) c, visible c -> Forall visible (if z then [c] else [])) by (intros [|] c H; auto).
  destruct (x =? y); repeat (apply Forall_app; split); auto using escape_visible; apply V; unfold visible; lia.
Qed.
Lemma charset_visible max b t x : 2 <= b <= 16 -> dump_charset max b t = Ok x -> Forall visible x.
Proof.
  intros B. unfold dump_charset. destruct (opening t) as [o| | |] eqn:O; try discriminate. cbn [bind].
  destruct (closing _ _) as [c| | |] eqn:C; try discriminate. cbn [bind]. intros [= <-].
  assert (VO : Forall visible o).
  { destruct t as [|[a d] [|? ?]]; cbn [opening] in O; [discriminate| |injection O as <-; repeat constructor; unfold visible; lia].
    destruct (a =? d); [destruct (has_char a _)|]; injection O as <-; repeat constructor; unfold visible; lia. }
  assert (VC : Forall visible c).
  { unfold closing in C. destruct (if _ : bool then _ else t) as [|[a d] [|? ?]]; repeat match type of C with context [if ?z then _ else _] => destruct z end; try discriminate; injection C as <-; repeat constructor; unfold visible; lia. }
  repeat (apply Forall_app; split); auto.
  - destruct (_ && _); repeat constructor; unfold visible; lia.
  - apply Forall_flat_map. apply Forall_forall. intros r _. now apply range_visible.
Qed.

(** ** Cutting at a character *)
Lemma cut_at (x : N) : forall u u' v v', ~ In x u -> ~ In x u' -> u ++ x :: v = u' ++ x :: v' -> u = u' /\ v = v'.
Proof.
  induction u as [|a u IH]; intros [|a' u'] v v' H H' E; cbn in *.
  - injection E as <-. auto.
  - injection E as -> _. tauto.
  - injection E as -> _. tauto.
  - injection E as -> E. destruct (IH u' v v' ltac:(tauto) ltac:(tauto) E) as [-> ->]. auto.
Qed.
Lemma cut_end (x : N) u u' v v' : ~ In x v -> ~ In x v' -> u ++ x :: v = u' ++ x :: v' -> u = u' /\ v = v'.
Proof.
  intros H H' E. apply (f_equal (@rev N)) in E. rewrite !rev_app_distr in E. cbn in E. rewrite <- !app_assoc in E. cbn in E.
  apply cut_at in E as [E1 E2]; [|rewrite <- in_rev; tauto|rewrite <- in_rev; tauto].
  apply (f_equal (@rev N)) in E1, E2. rewrite !rev_involutive in *. auto.
Qed.
Lemma visible_not (P : N -> Prop) x l : (forall c, P c -> c <> x) -> Forall P l -> ~ In x l.
Proof. intros H F I. rewrite Forall_forall in F. exact (H x (F x I) eq_refl). Qed.

(** ** Groups of lines, each closed by an empty line *)
Definition line_ok (l : list N) : Prop := l <> [] /\ ~ In 10 l.
Definition paragraph (g : list (list N)) : list N := flat_map (fun l => l ++ [10]) g ++ [10].
Lemma paragraph_cut g : forall g' v v', Forall line_ok g -> Forall line_ok g' -> paragraph g ++ v = paragraph g' ++ v' -> g = g' /\ v = v'.
Proof.
  induction g as [|l g IH]; intros [|l' g'] v v' H H' E; unfold paragraph in *; cbn [flat_map app] in E.
  - injection E as <-. auto.
  - apply Forall_cons_iff in H' as [[NE NI] _]. destruct l' as [|c l']; [contradiction|]. cbn in E. injection E as <- _. cbn in NI. tauto.
  - apply Forall_cons_iff in H as [[NE NI] _]. destruct l as [|c l]; [contradiction|]. cbn in E. injection E as -> _. cbn in NI. tauto.
  - apply Forall_cons_iff in H as [[NE NI] H], H' as [[NE' NI'] H']. rewrite <- !app_assoc in E. cbn [app] in E.
    apply cut_at in E as [<- E]; auto. destruct (IH g' v v' H H') as [<- <-]; auto. rewrite <- !app_assoc. exact E.
Qed.
Lemma paragraphs_cut gs : forall gs', Forall (Forall line_ok) gs -> Forall (Forall line_ok) gs' -> flat_map paragraph gs = flat_map paragraph gs' -> gs = gs'.
Proof.
  induction gs as [|g gs IH]; intros [|g' gs'] H H' E; auto; cbn [flat_map] in E.
  - unfold paragraph in E. destruct (flat_map _ g'); discriminate.
  - unfold paragraph in E. destruct (flat_map _ g); discriminate.
  - apply Forall_cons_iff in H as [H1 H2], H' as [H1' H2']. apply paragraph_cut in E as [<- E]; auto. f_equal. now apply IH.
Qed.
