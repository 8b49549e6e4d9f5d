(** A dump has a line for every end state and for every move. *)
From Verif Require Import Base StringToken StringTokenSpec GenCpp ReToken ReTokeniser Rules CharMachine Debug DumpSpec.
From Coq Require Import String.
Local Open Scope N_scope.
Local Open Scope list_scope.
Local Opaque txt.

Definition shows (x line : list N) : Prop := exists pre post, x = pre ++ line ++ post.

Lemma shows_l a b y : shows a y -> shows (a ++ b) y.
Proof. intros (p & q & ->). exists p, (q ++ b). now rewrite <- !app_assoc. Qed.
Lemma shows_r a b y : shows b y -> shows (a ++ b) y.
Proof. intros (p & q & ->). exists (a ++ p), q. now rewrite <- !app_assoc. Qed.
Lemma shows_here a b : shows (a ++ b) a.
Proof. exists [], b. reflexivity. Qed.
Lemma shows_all a : shows a a.
Proof. exists [], []. now rewrite app_nil_r. Qed.

Lemma ok_eq {A} (a b : A) : Ok a = Ok b -> b = a.
Proof. now injection 1. Qed.
Ltac step H := match type of H with bind ?r _ = Ok _ => let v := fresh "v" in let E := fresh "E" in destruct r as [v| | |] eqn:E; cbn [bind] in H; try discriminate H end.

Lemma transitions_show max base l x q t : dump_transitions max base l = Ok x -> In (q, t) l ->
  exists text, dump_charset max base t = Ok text /\ shows x (txt "  " ++ text ++ txt " -> " ++ print 10 q ++ [10]).
Proof.
  revert x. induction l as [|[q1 t1] l IH]; intros x H I; [easy|]. cbn [dump_transitions] in H. step H. step H. apply ok_eq in H; subst.
  destruct I as [E1|I].
  - injection E1 as -> ->. unfold dump_transition in E. cbn [fst snd] in E. step E. apply ok_eq in E; subst. exists v1. split; [reflexivity|]. apply shows_l, shows_all.
  - destruct (IH _ eq_refl I) as (text & A & B). exists text. split; [exact A|]. now apply shows_r.
Qed.
Lemma states_show npos max base bol l : forall i x j s, dump_states npos max base bol i l = Ok x -> nth_error l j = Some s ->
  exists y, dump_state npos max base bol (i + N.of_nat j) s = Ok y /\ shows x y.
Proof.
  induction l as [|s1 l IH]; intros i x [|j] s H N; try easy; cbn [dump_states] in H; step H; step H; apply ok_eq in H; subst.
  - injection N as ->. exists v. rewrite N.add_0_r. split; [exact E|apply shows_here].
  - destruct (IH _ _ _ _ E0 N) as (y & A & B). exists y. replace (i + N.of_nat (S j)) with (i + 1 + N.of_nat j) by lia.
    split; [exact A|now apply shows_r].
Qed.
Lemma csm_shows npos max base name l : forall i x a d, dump_csm npos max base name i l = Ok x -> nth_error l a = Some d ->
  exists n y, name (i + N.of_nat a) = Some n /\ dump_ex npos max base d = Ok y /\ shows x (txt "Lexer state: " ++ n ++ [10; 10] ++ y).
Proof.
  induction l as [|d1 l IH]; intros i x [|a] d H N; try easy; cbn [dump_csm] in H; destruct (name i) as [n|] eqn:Q; try discriminate H;
    step H; step H; apply ok_eq in H; subst.
  - injection N as ->. exists n, v. rewrite N.add_0_r. split; [exact Q|]. split; [exact E|].
    exists [], v0. cbn [app]. now rewrite <- !app_assoc.
  - destruct (IH _ _ _ _ E0 N) as (n' & y & A & B & C). exists n', y. replace (i + N.of_nat (S a)) with (i + 1 + N.of_nat a) by lia.
    split; [exact A|]. split; [exact B|]. now do 5 apply shows_r.
Qed.
Lemma shows_trans a b c : shows a b -> shows b c -> shows a c.
Proof. intros (p & q & ->) (p' & q' & ->). exists (p ++ p'), (q' ++ q). now rewrite <- !app_assoc. Qed.

(** How an end state is described. *)
Definition operation (s : cstate) (op : list N) : Prop :=
  match cs_kind s with KNeither => op = [] | KPop => op = txt ", POP" | KPush => op = txt ", PUSH " ++ print 10 (cs_push s) end.

Section SHOW.
Variables (npos max base : N) (name : N -> option (list N)) (l : list cdfa) (x : list N).
Hypothesis H : dump_csm npos max base name 0 l = Ok x.

Theorem state_shown a d j s : nth_error l a = Some d -> nth_error (cd_states d) j = Some s ->
  exists n y z, name (N.of_nat a) = Some n /\ shows x (txt "Lexer state: " ++ n ++ [10; 10] ++ y) /\
    dump_state npos max base (cd_bol d) (N.of_nat j) s = Ok z /\ shows y z /\ shows x z.
Proof.
  intros A B. destruct (csm_shows _ _ _ _ _ _ _ _ _ H A) as (n & y & P & Q & R). rewrite N.add_0_l in P.
  destruct (states_show _ _ _ _ _ _ _ _ _ Q B) as (z & U & V). rewrite N.add_0_l in U. exists n, y, z.
  split; [exact P|]. split; [exact R|]. split; [exact U|]. split; [exact V|]. eapply shows_trans; [exact R|]. now do 3 apply shows_r.
Qed.
Theorem end_shown a d j s : nth_error l a = Some d -> nth_error (cd_states d) j = Some s -> cs_end s = true ->
  exists op, operation s op /\ shows x (txt "State: " ++ print 10 (N.of_nat j) ++ [10] ++ txt "  END STATE" ++ op ++
    txt ", Id = " ++ print 10 (cs_id s) ++ txt ", User Id = " ++ print 10 (cs_uid s) ++ txt ", dfa = " ++ print 10 (cs_next s) ++ [10]).
Proof.
  intros A B C. destruct (state_shown _ _ _ _ A B) as (n & y & z & _ & _ & Z & _ & S).
  unfold dump_state in Z. step Z. apply ok_eq in Z; subst. unfold dump_end in S. rewrite C in S.
  eexists. split; [|eapply shows_trans; [exact S|]].
  - instantiate (1 := match cs_kind s with KPush => txt ", PUSH " ++ print 10 (cs_push s) | KPop => txt ", POP" | KNeither => [] end).
    unfold operation. now destruct (cs_kind s).
  - exists []. eexists. cbn [app]. unfold newline. rewrite <- !app_assoc. cbn [app]. rewrite <- !app_assoc. reflexivity.
Qed.
Theorem move_shown a d j s q t : nth_error l a = Some d -> nth_error (cd_states d) j = Some s -> In (q, t) (cs_trans s) ->
  exists text, dump_charset max base t = Ok text /\ shows x (txt "  " ++ text ++ txt " -> " ++ print 10 q ++ [10]).
Proof.
  intros A B C. destruct (state_shown _ _ _ _ A B) as (n & y & z & _ & _ & Z & _ & S).
  unfold dump_state in Z. step Z. apply ok_eq in Z; subst. destruct (transitions_show _ _ _ _ _ _ E C) as (text & P & Q).
  exists text. split; [exact P|]. eapply shows_trans; [exact S|]. do 6 apply shows_r. now apply shows_l.
Qed.
(** The moves at the line's ends. *)
Theorem eol_shown a d j s : nth_error l a = Some d -> nth_error (cd_states d) j = Some s -> cs_eol s <> npos ->
  shows x (txt "  EOL -> " ++ print 10 (cs_eol s) ++ [10]).
Proof.
  intros A B C. destruct (state_shown _ _ _ _ A B) as (n & y & z & _ & _ & Z & _ & S).
  unfold dump_state in Z. step Z. apply ok_eq in Z; subst. eapply shows_trans; [exact S|]. do 5 apply shows_r. apply shows_l.
  unfold dump_index. destruct (N.eqb_spec (cs_eol s) npos); [contradiction|]. apply shows_all.
Qed.
Theorem bol_shown a d : nth_error l a = Some d -> cd_states d <> [] -> cd_bol d <> npos ->
  shows x (txt "  BOL -> " ++ print 10 (cd_bol d) ++ [10]).
Proof.
  intros A B C. destruct (cd_states d) as [|s r] eqn:Q; [contradiction|].
  destruct (state_shown _ _ 0%nat s A ltac:(now rewrite Q)) as (n & y & z & _ & _ & Z & _ & S).
  unfold dump_state in Z. step Z. apply ok_eq in Z; subst. eapply shows_trans; [exact S|]. do 4 apply shows_r. apply shows_l.
  change (N.of_nat 0 =? 0) with true. cbn iota.
  unfold dump_index. destruct (N.eqb_spec (cd_bol d) npos); [contradiction|]. apply shows_all.
Qed.
End SHOW.
