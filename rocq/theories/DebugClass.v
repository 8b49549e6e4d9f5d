(** dump_charset: its text is read as the class, and as nothing else. *)
From Verif Require Import Base StringToken ReToken ReTokeniser Rules GenCpp Debug StringTokenSpec StringTokenProofs RuleSpec Grammar SourceSpec
  DebugSpec DebugText.
From Coq Require Import String.
Local Open Scope N_scope.
Local Open Scope list_scope.

Lemma top_big b : 255 <= top b.
Proof. unfold top. destruct (b =? 1); [lia|]. destruct (b =? 2); lia. Qed.
Lemma bounded_ranges max t : wf t -> bounded max t -> Forall (fun r => snd r <= max) t.
Proof.
  intros W B. apply Forall_forall. intros [a d] I. cbn. apply B. exists a, d. split; [exact I|].
  destruct (wf_from_In 0 t _ W I) as [H _]. cbn in H. lia.
Qed.
Lemma one_small b c d : c = d -> negatable (top b) [(c, d)] = false.
Proof.
  intros ->. unfold negatable. cbn [fold_left fst snd]. pose proof (top_big b). apply N.ltb_ge.
  assert (1 <= top b / 2) by (apply N.div_le_lower_bound; lia). lia.
Qed.
Lemma wf_empty t : wf t -> (forall c, ~ mem c t) -> t = [].
Proof. destruct t as [|[a d] t]; [auto|]. intros (_ & H & _) K. exfalso. apply (K a). rewrite mem_cons. left. lia. Qed.

(** ** One character *)
Definition special : list N := txt "|()?*+{}[]./".
Lemma alone_reads b fl first rest c : f_icase fl = false -> f_skip_ws fl = false -> c <= top b -> closed c rest -> (c = 36 -> rest <> []) ->
  exists P, satom b fl first rest (opt (has_char c special) [92] ++ dump_range 16 (c, c)) P /\ forall d, P d <-> d = c.
Proof.
  intros IC SW T C D. rewrite dump_one.
  assert (S : forall c, satom b fl first rest (92 :: [c]) (cased b (f_icase fl) (eq c)) -> exists P, satom b fl first rest [92; c] P /\ forall d, P d <-> d = c).
  { intros x H. eexists. split; [exact H|]. intros d. rewrite IC, cased_off. intuition congruence. }
  destruct (has_char c special) eqn:E.
  - assert (I : In c special). { unfold has_char in E. apply existsb_exists in E as (x & I & Ex). apply N.eqb_eq in Ex. now subst x. }
    assert (opt ((c =? 45) || (c =? 94)) [92] ++ escape_char 16 c = [c]) as ->.
    { vm_compute in I. repeat (destruct I as [<-|I]; [reflexivity|]). destruct I. }
    cbn [opt app]. apply S. apply sa_escape, ec_self. vm_compute in I. intros K. vm_compute in K.
    repeat (destruct I as [<-|I]; [intuition discriminate|]). destruct I.
  - cbn [opt app]. destruct ((c =? 45) || (c =? 94)) eqn:M; cbn [opt app].
    + assert (escape_char 16 c = [c]) as -> by (destruct (N.eq_dec c 45) as [->|]; [reflexivity|]; assert (c = 94) as -> by lia; reflexivity).
      apply S. apply sa_escape, ec_self. intros K. vm_compute in K. destruct (N.eq_dec c 45) as [->|]; [intuition discriminate|].
      assert (c = 94) by lia. subst c. intuition discriminate.
    + destruct (escape_echar b rest c T C) as [((H1 & H2 & H3 & H4) & ->)|(_ & e & -> & X)].
      * destruct (N.eq_dec c 36) as [->|Z].
        -- exists (eq 36). split; [apply sa_dollar; auto|]. intuition congruence.
        -- eexists. split; [apply sa_plain; [|congruence]|intros d; rewrite IC, cased_off; intuition congruence].
           intros K. unfold has_char in E. assert (N0 : ~ In c special).
           { intros I. enough (existsb (N.eqb c) special = true) by congruence. apply existsb_exists. exists c. split; [exact I|apply N.eqb_refl]. }
           apply N0. vm_compute in K. vm_compute. intuition lia.
      * eexists. split; [apply sa_escape; exact X|]. intros d. rewrite IC, cased_off. intuition congruence.
Qed.

(** ** A class in brackets *)
Lemma class_reads b u neg : Forall (fun r => snd r <= top b) u -> wf u -> legible_ranges true u -> u <> [] ->
  (neg = true -> exists c, c <= top b /\ ~ mem c u) ->
  exists P, class b false (opt neg [94] ++ flat_map (dump_range 16) u ++ [93]) P /\
    forall c, P c <-> if neg then c <= top b /\ ~ mem c u else mem c u.
Proof.
  intros F W L NE X. destruct (body_reads b u true F W L ltac:(intros; contradiction)) as (P & P1 & P2).
  destruct neg; cbn [opt app].
  - exists (outside b P). split; [apply cl_not; [exact P1|]|].
    + destruct (X eq_refl) as (c & X1 & X2). exists c. split; [exact X1|]. now rewrite P2.
    + intros c. unfold outside. now rewrite P2.
  - exists P. split; [apply cl_of; [exact P1| |]|exact P2].
    + destruct (body_head b true u F W L) as (h & t & -> & H). intros K. apply begins_cons in K.
      destruct H as [H|[H|(? & ? & ? & _ & H & _ & H')]]; congruence || lia.
    + destruct u as [|[a d] u]; [contradiction|]. exists a. rewrite P2, mem_cons. left. destruct W as (_ & W & _). lia.
Qed.

Theorem charset_reads b fl first rest t : f_icase fl = false -> f_skip_ws fl = false -> wf t -> t <> [] -> bounded (top b) t ->
  legible (top b) t rest ->
  exists text P, dump_charset (top b) 16 t = Ok text /\ satom b fl first rest text P /\ forall c, P c <-> mem c t.
Proof.
  intros IC SW W NE B L. unfold dump_charset, legible, written in *.
  set (neg := negb (any (top b) t) && negatable (top b) t) in *.
  assert (G : (exists c d, t = [(c, d)] /\ c = d) \/ (opening t = Ok [91] /\ legible_ranges true (if neg then negate (top b) t else t))).
  { destruct t as [|[c d] [|x t']]; [contradiction| |].
    - cbn [opening]. destruct (N.eqb_spec c d); [left; eauto|right; auto].
    - right. auto. }
  destruct G as [(c & d & -> & E)|(O & L')].
  - subst neg. rewrite (one_small b c d E), andb_false_r in *. subst d. rewrite N.eqb_refl in L. destruct L as [C D].
    cbn [opening closing bind]. rewrite N.eqb_refl. cbn [bind negb orb flat_map app].
    destruct (alone_reads b fl first rest c IC SW) as (P & P1 & P2); auto.
    { apply B. rewrite mem_cons. left. lia. }
    eexists. exists P. split; [reflexivity|]. rewrite !app_nil_r. split; [exact P1|].
    intros x. rewrite P2, mem_cons, mem_nil. intuition lia.
  - rewrite O. cbn [bind].
    set (u := if neg then negate (top b) t else t) in *.
    destruct (negate_correct (top b) t W B) as [NW NM].
    assert (U : wf u /\ bounded (top b) u /\ u <> [] /\ (neg = true -> exists c, c <= top b /\ ~ mem c u) /\
      forall c, mem c t <-> if neg then c <= top b /\ ~ mem c u else mem c u).
    { subst u. destruct neg eqn:E.
      - split; [exact NW|]. split; [intros c K; apply NM in K; tauto|]. split; [|split].
        + intros Z. apply andb_true_iff in E as [E _]. apply negb_true_iff in E. apply not_true_iff_false in E. apply E.
          apply any_correct; auto. intros c Hc. destruct (memb c t) eqn:M; [now apply memb_mem|]. exfalso.
          assert (mem c (negate (top b) t)) as K. { apply NM. split; [exact Hc|]. rewrite <- memb_mem. congruence. }
          rewrite Z in K. now apply mem_nil in K.
        + intros _. destruct t as [|[a d] t']; [contradiction|]. exists a. assert (M : mem a ((a, d) :: t')) by (rewrite mem_cons; left; destruct W as (_ & W & _); lia).
          split; [now apply B|]. rewrite NM. tauto.
        + intros c. rewrite NM. split; [intros M; split; [now apply B|tauto]|]. intros [Hc K]. destruct (memb c t) eqn:M; [now apply memb_mem|]. exfalso. apply K. split; [exact Hc|]. rewrite <- memb_mem. congruence.
      - split; [exact W|]. split; [exact B|]. split; [exact NE|]. split; [discriminate|tauto]. }
    destruct U as (U1 & U2 & U3 & U4 & U5).
    destruct (class_reads b u neg (bounded_ranges _ _ U1 U2) U1 L' U3 U4) as (P & P1 & P2).
    assert (CL : closing neg u = Ok [93]).
    { destruct u as [|[a d] [|x u']] eqn:Eu; [contradiction| |reflexivity]. cbn [closing]. destruct neg; [reflexivity|]. cbn [orb].
      destruct (N.eqb_spec a d); [|reflexivity]. exfalso. subst u t d. cbn [opening] in O. rewrite N.eqb_refl in O. destruct (has_char _ _); discriminate. }
    rewrite CL. cbn [bind]. eexists. exists P. split; [reflexivity|]. split.
    + cbn [app]. apply sa_class. rewrite IC. exact P1.
    + intros c. rewrite P2, U5. reflexivity.
Qed.
