(** ^ in the words of a rule. *)
From Verif Require Import Base Build ReToken Lookup RuleSpec BuildSpec.
Local Open Scope N_scope.

Lemma rmatch_natural r b bol cs : rmatch r b cs -> (b = true -> bol = true) -> natural r bol cs.
Proof.
  unfold rmatch, natural. intros M H. destruct b; [destruct M as [M|[_ M]]|]; auto.
Qed.
Lemma no_words_anchor r : plain_rule r -> ~ has_anchor r.
Proof. intros P (v & H). apply (P _ H). now left. Qed.
Lemma natural_rmatch r bol cs : plain_rule r \/ anchored_rule r -> (rmatch r bol cs <-> natural r bol cs).
Proof.
  intros RB. split; [intros M; eapply rmatch_natural; eauto|]. unfold rmatch, natural. intros [H|[-> H]]; [|auto].
  destruct bol; [|auto]. destruct RB as [P|A]; [right; split; [now apply no_words_anchor|auto]|].
  exfalso. destruct (A _ H) as (v & E & _). destruct cs; discriminate.
Qed.
Lemma plain_match x bol cs : plain_rule x -> (rmatch x bol cs <-> rmatch x false cs).
Proof.
  intros P. rewrite !natural_rmatch by auto. unfold natural. split; intros [H|[E H]]; try discriminate; auto.
  exfalso. apply (P _ H). now left.
Qed.
Lemma shaped_bol seen r : plain_rule r \/ (seen = true /\ anchored_rule r) -> bol_rule seen r.
Proof.
  intros [P|[Es A]] u v H.
  - exfalso. apply (P _ H). apply in_or_app. right. now left.
  - split; [|auto]. destruct (A _ H) as (v' & E & NI). destruct u as [|a u]; [auto|]. exfalso. cbn in E.
    injection E as -> <-. apply NI. apply in_or_app. right. now left.
Qed.

Lemma natural_cases r bol cs : natural r bol cs -> rmatch r false cs \/ (bol = true /\ rmatch r true cs).
Proof. unfold natural, rmatch. intros [H|[E H]]; auto. Qed.
