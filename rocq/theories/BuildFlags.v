(** What the flags of the rules mean to build(): they say when it refuses, and
    nothing about the machine. *)
From Verif Require Import Base StringToken StateMachine ReToken Tree Partition Parser Generator Build.
Local Open Scope N_scope.

(** Two runs that end alike. *)
Definition both {A} (R : A -> A -> Prop) (x y : res A) : Prop :=
  match x, y with
  | Ok a, Ok b => R a b
  | Throw e, Throw e' => e = e'
  | UB, UB | Fuel, Fuel => True
  | _, _ => False
  end.
Lemma both_bind {A B} (R : A -> A -> Prop) (S : B -> B -> Prop) x y f g : both R x y -> (forall a b, R a b -> both S (f a) (g b)) -> both S (bind x f) (bind y g).
Proof. destruct x, y; cbn; try easy. intros H K. now apply K. Qed.
Lemma both_same {A B} (S : B -> B -> Prop) (x : res A) f g : (forall a, both S (f a) (g a)) -> both S (bind x f) (bind x g).
Proof. destruct x; cbn; auto. Qed.

Definition asame (a b : cacc) : Prop := a_end a = a_end b /\ a_vec a = a_vec b.
Definition dsame (a b : dstate) : Prop := d_seen a = d_seen b /\ d_rows a = d_rows b /\ d_eol a = d_eol b.
Definition osame (a b : dfa_out) : Prop := o_lookup a = o_lookup b /\ o_width a = o_width b /\ o_rows a = o_rows b /\ o_classes a = o_classes b.

Section Two.
  Variables fl fl' : gflags.
  Lemma ex_same s a b p : asame a b -> both asame (closure_ex fl s a p) (closure_ex fl' s b p).
  Proof.
    intros [E V]. unfold closure_ex. destruct (nth_error s p) as [[t g f|e]|]; cbn; rewrite <- ?E, ?V.
    - split; auto.
    - destruct (a_end a); cbn; split; auto.
    - easy.
  Qed.
  Lemma exs_same s ps : forall a b, asame a b -> both asame (closure_exs fl s a ps) (closure_exs fl' s b ps).
  Proof.
    induction ps as [|p ps IH]; intros a b H; cbn [closure_exs]; [exact H|]. eapply both_bind; [apply ex_same; exact H|exact IH].
  Qed.
  Lemma closure_same s width fp d d' : dsame d d' ->
    both (fun x y => fst x = fst y /\ dsame (snd x) (snd y)) (closure fl s width fp d) (closure fl' s width fp d').
  Proof.
    intros (E1 & E2 & E3). unfold closure. destruct fp as [|p fp]; [split; [reflexivity|split; auto]|].
    eapply both_bind; [apply exs_same; split; reflexivity|]. intros a b [A1 A2]. rewrite A1, A2, E1, E2, E3.
    destruct (find_seen _ _); cbn; unfold dsame; cbn; auto.
  Qed.
  Lemma tr_same k tr row d d' i : dsame d d' -> both dsame (set_transition k tr row d i) (set_transition k tr row d' i).
  Proof.
    intros (E1 & E2 & E3). unfold set_transition. rewrite E1, E2, E3. destruct (i =? bol_tok k); [|destruct (i =? eol_tok k)]; apply both_same; intros rows; unfold dsame; cbn; auto.
  Qed.
  Lemma trs_same k tr row is : forall d d', dsame d d' -> both dsame (set_transitions k tr row is d) (set_transitions k tr row is d').
  Proof. induction is as [|i is IH]; intros d d' H; cbn [set_transitions]; [exact H|]. eapply both_bind; [apply tr_same; exact H|exact IH]. Qed.
  Lemma equiv_same k s sm cr nl width row d d' q : dsame d d' -> both dsame (do_equiv k fl s sm cr nl width row d q) (do_equiv k fl' s sm cr nl width row d' q).
  Proof.
    intros H. unfold do_equiv. apply both_same. intros fp. eapply both_bind; [apply closure_same; exact H|]. intros [o x] [o' y] [E S]. cbn [fst snd] in *. subst o'.
    destruct o as [tr|]; [|exact S]. assert (E2 := proj1 (proj2 S)). rewrite E2. destruct (nth_error (d_rows y) row) as [[|e r]|]; try exact Logic.I.
    destruct (abstains e (q_greedy q)); [exact S|]. apply trs_same. exact S.
  Qed.
  Lemma equivs_same k s sm cr nl width row qs : forall d d', dsame d d' -> both dsame (do_equivs k fl s sm cr nl width row d qs) (do_equivs k fl' s sm cr nl width row d' qs).
  Proof. induction qs as [|q qs IH]; intros d d' H; cbn [do_equivs]; [exact H|]. eapply both_bind; [apply equiv_same; exact H|exact IH]. Qed.
  Lemma loop_same k s sm cr nl width fuel : forall index d d', dsame d d' ->
    both dsame (state_loop fuel k fl s sm cr nl width index d) (state_loop fuel k fl' s sm cr nl width index d').
  Proof.
    induction fuel as [|f IH]; intros index d d' H; cbn [state_loop]; [exact Logic.I|]. rewrite (proj1 H). destruct (nth_error _ _) as [v|]; [|exact H].
    apply both_same. intros qs. eapply both_bind; [apply equivs_same; exact H|]. intros a b. apply IH.
  Qed.
  Lemma dfa_same fuel k s root mp cr nl used used' : both osame (build_dfa fuel k fl s root mp cr nl used) (build_dfa fuel k fl' s root mp cr nl used').
  Proof.
    unfold build_dfa. apply both_same. intros cl. apply both_same. intros x. cbv zeta. apply both_same. intros cr'. apply both_same. intros nl'. apply both_same. intros zero.
    destruct (gnpos k <? _); [reflexivity|]. eapply both_bind; [apply closure_same; unfold dsame; cbn; auto|]. intros [o a] [o' b] [_ S]. cbn [snd] in *.
    eapply both_bind; [apply loop_same; exact S|]. intros d d' (E1 & E2 & E3). rewrite E2, E3. apply both_same. intros rows. unfold osame. cbn. auto.
  Qed.
End Two.

(** build() without checks. *)
Definition lax : gflags := {| zero_len_ok := true; suppressed_ok := true |}.
Lemma lax_end s ps : forall a, (exists b, closure_exs lax s a ps = Ok b) -> exists b, any_end s ps = Ok b.
Proof.
  induction ps as [|p ps IH]; intros a (b & H); cbn in *; [eauto|]. unfold closure_ex, end_node in *. destruct (nth_error s p) as [[t g f|e]|]; [| |discriminate H]; cbn in *; [|eauto].
  destruct (a_end a); cbn in H; eapply IH; eauto.
Qed.
Lemma dfa_end fuel k s root mp cr nl used o : build_dfa fuel k lax s root mp cr nl used = Ok o -> exists b, any_end s (firstpos root) = Ok b.
Proof.
  unfold build_dfa. repeat match goal with |- bind ?x _ = _ -> _ => destruct x eqn:?; cbn [bind]; try discriminate | |- (if ?c then Throw _ else _) = _ -> _ => destruct c; try discriminate | |- context [let _ := _ in _] => cbv zeta end.
  intros _. destruct (firstpos root) as [|p ps] eqn:F; [exists false; reflexivity|]. rewrite ?F in *. unfold closure in *.
  match goal with H : bind (closure_exs lax s ?a _) _ = Ok _ |- _ => apply (lax_end s (p :: ps) a); destruct (closure_exs lax s a (p :: ps)) as [q| | |]; [exists q; reflexivity| | |]; discriminate H end.
Qed.
Definition ysame (x y : dfa_out * N * store) : Prop := osame (fst (fst x)) (fst (fst y)) /\ snd (fst x) = snd (fst y) /\ snd x = snd y.
Section Lax.
  Variable fl : gflags.
  Lemma one_lax fuel k g uniq st used used' y : build_one fuel k lax g uniq st used = Ok y ->
    (exists x, build_one fuel k fl g uniq st used' = Ok x /\ ysame x y) \/ (zero_len_ok fl = false /\ build_one fuel k fl g uniq st used' = Throw EZeroLen).
  Proof.
    unfold build_one. destruct (gs_rules g) as [|r rs]; [discriminate|]. destruct (build_tree k g uniq st) as [[[root u] s]| | |]; cbn [bind]; try discriminate.
    intros H. destruct (build_dfa fuel k lax (snd (ps_tree s)) root (ps_map s) (ps_cr s) (ps_nl s) used) as [o| | |] eqn:D; try discriminate H.
    assert (Z : check_zero_len fl (snd (ps_tree s)) root = Ok tt \/ (zero_len_ok fl = false /\ check_zero_len fl (snd (ps_tree s)) root = Throw EZeroLen)).
    { unfold check_zero_len. destruct (zero_len_ok fl); [now left|]. destruct (dfa_end _ _ _ _ _ _ _ _ _ D) as (b & ->). destruct b; [right|left]; auto. }
    destruct Z as [->|[Z ->]]; [left|now right]. cbn [bind check_zero_len zero_len_ok lax] in *.
    pose proof (dfa_same fl lax fuel k (snd (ps_tree s)) root (ps_map s) (ps_cr s) (ps_nl s) used' used) as S. rewrite D in S.
    destruct (build_dfa fuel k fl _ _ _ _ _ used') as [o'| | |]; try contradiction. cbn [bind] in *. destruct S as (S1 & S2 & S3 & S4). rewrite S2, S3.
    destruct (gnpos k <=? _); [discriminate H|]. injection H as <-. eexists. split; [reflexivity|]. unfold ysame, osame. cbn. auto.
  Qed.
  Lemma one_strict fuel k g uniq st used used' x : build_one fuel k fl g uniq st used = Ok x ->
    exists y, build_one fuel k lax g uniq st used' = Ok y /\ ysame x y.
  Proof.
    unfold build_one. destruct (gs_rules g) as [|r rs]; [discriminate|]. destruct (build_tree k g uniq st) as [[[root u] s]| | |]; cbn [bind]; try discriminate.
    destruct (check_zero_len fl _ _); cbn [bind]; try discriminate. change (check_zero_len lax (snd (ps_tree s)) root) with (Ok tt). cbn [bind].
    pose proof (dfa_same fl lax fuel k (snd (ps_tree s)) root (ps_map s) (ps_cr s) (ps_nl s) used used') as S.
    destruct (build_dfa fuel k fl _ _ _ _ _ used) as [o| | |]; try discriminate. destruct (build_dfa fuel k lax _ _ _ _ _ used') as [o'| | |]; try contradiction.
    cbn [bind both] in *. destruct S as (S1 & S2 & S3 & S4). rewrite S2, S3. destruct (gnpos k <=? _); [discriminate|]. intros H. injection H as <-. eexists. split; [reflexivity|]. unfold ysame, osame. cbn. auto.
  Qed.
  Definition zsame (x y : list dfa_out * N * list N) : Prop := Forall2 osame (fst (fst x)) (fst (fst y)) /\ snd (fst x) = snd (fst y).
  Lemma states_lax fuel k gs : forall uniq st used used' y, build_states fuel k lax gs uniq st used = Ok y ->
    (exists x, build_states fuel k fl gs uniq st used' = Ok x /\ zsame x y) \/ (zero_len_ok fl = false /\ build_states fuel k fl gs uniq st used' = Throw EZeroLen).
  Proof.
    induction gs as [|g gs IH]; intros uniq st used used' y H; cbn [build_states] in *; [injection H as <-; left; eexists; split; [reflexivity|split; [constructor|reflexivity]]|].
    destruct (build_one fuel k lax g uniq st used) as [[[o u] st']| | |] eqn:O; cbn [bind] in H; try discriminate H.
    destruct (one_lax _ _ _ _ _ _ used' _ O) as [([[o1 u1] st1] & -> & S1 & S2 & S3)|[Z ->]]; [|right; auto]. cbn [fst snd] in *. subst u1 st1. cbn [bind].
    destruct (build_states fuel k lax gs u st' (o_used o)) as [[[os u'] us]| | |] eqn:B; cbn [bind] in H; try discriminate H. injection H as <-.
    destruct (IH _ _ _ (o_used o1) _ B) as [([[os1 u1] us1] & -> & T1 & T2)|[Z ->]]; [|right; auto]. left. eexists. split; [reflexivity|]. split; [constructor; auto|exact T2].
  Qed.
  Lemma states_strict fuel k gs : forall uniq st used used' x, build_states fuel k fl gs uniq st used = Ok x ->
    exists y, build_states fuel k lax gs uniq st used' = Ok y /\ zsame x y.
  Proof.
    induction gs as [|g gs IH]; intros uniq st used used' x H; cbn [build_states] in *; [injection H as <-; eexists; split; [reflexivity|split; [constructor|reflexivity]]|].
    destruct (build_one fuel k fl g uniq st used) as [[[o u] st']| | |] eqn:O; cbn [bind] in H; try discriminate H.
    destruct (one_strict _ _ _ _ _ _ used' _ O) as ([[o1 u1] st1] & -> & S1 & S2 & S3). cbn [fst snd] in *. subst u1 st1. cbn [bind].
    destruct (build_states fuel k fl gs u st' (o_used o)) as [[[os u'] us]| | |] eqn:B; cbn [bind] in H; try discriminate H. injection H as <-.
    destruct (IH _ _ _ (o_used o1) _ B) as ([[os1 u1] us1] & -> & T1 & T2). eexists. split; [reflexivity|]. split; [constructor; auto|exact T2].
  Qed.
End Lax.
Lemma create_same eoi os os' fs : Forall2 osame os os' -> create eoi os fs = create eoi os' fs.
Proof.
  intros F. unfold create. f_equal.
  - induction F as [|a b os os' (H & _) F IH]; cbn; congruence.
  - induction F as [|a b os os' (_ & H & _) F IH]; cbn; congruence.
  - assert (L : length os = length os') by (induction F; cbn; congruence). now rewrite L.
  - induction F as [|a b os os' (_ & _ & H & _) F IH]; cbn; congruence.
Qed.
Definition flagged (fl : gflags) (R : grules) : grules := {| gr_eoi := gr_eoi R; gr_states := gr_states R; gr_flags := fl |}.
Theorem build_lax fl f g R m : build f g (flagged lax R) = Ok m ->
  build f g (flagged fl R) = Ok m \/ (zero_len_ok fl = false /\ build f g (flagged fl R) = Throw EZeroLen) \/ (suppressed_ok fl = false /\ build f g (flagged fl R) = Throw ESuppressed).
Proof.
  unfold build. cbn [flagged gr_eoi gr_states gr_flags]. intros H. destruct (build_states f g lax (gr_states R) 0 [] []) as [[[os u] us]| | |] eqn:B; cbn [bind] in H; try discriminate H.
  change (check_suppressed lax u us) with (Ok tt) in H. cbn [bind] in H. injection H as <-.
  destruct (states_lax fl _ _ _ _ _ _ [] _ B) as [([[os1 u1] us1] & -> & T1 & T2)|[Z ->]]; [|right; left; auto]. cbn [bind fst snd] in *. subst u1.
  unfold check_suppressed. destruct (suppressed_ok fl); [|destruct (forallb _ _)]; cbn [bind]; [left|left|right; right; auto]; now rewrite (create_same _ _ _ _ T1).
Qed.
Theorem build_strict fl f g R m : build f g (flagged fl R) = Ok m -> build f g (flagged lax R) = Ok m.
Proof.
  unfold build. cbn [flagged gr_eoi gr_states gr_flags]. intros H. destruct (build_states f g fl (gr_states R) 0 [] []) as [[[os u] us]| | |] eqn:B; cbn [bind] in H; try discriminate H.
  destruct (states_strict fl _ _ _ _ _ _ [] _ B) as ([[os1 u1] us1] & -> & T1 & T2). cbn [bind fst snd] in *. subst u1. change (check_suppressed lax u us1) with (Ok tt). cbn [bind].
  destruct (check_suppressed fl u us); cbn [bind] in H; try discriminate H. injection H as <-. now rewrite (create_same _ _ _ _ T1).
Qed.
