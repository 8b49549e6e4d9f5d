(** build as a whole. *)
From Verif Require Import Base StringToken StringTokenSpec StringTokenProofs RegexSpec StateMachine Slice
  ReToken DfaSpec Grammar Tree TreeSpec Glushkov TreeProofs Partition Parser Generator GenMap Build ParserTree
  ParserKeys ParserSound ParserLoop TreeWords ParserRule Lookup TableSpec LookupSpec RuleSpec RuleWords
  BuildSpec BuildTree GenRules GenTable GenWalk BuildState BuildFuel BuildMachine.
Local Open Scope N_scope.

Definition total (gs : list gstate) : nat := fold_right (fun g n => (length (gs_rules g) + n)%nat) O gs.
Fixpoint useful_in (k : gcfg) (gs : list gstate) (u v : N) : Prop :=
  match gs with
  | [] => False
  | g :: gs' => useful k g u v \/ useful_in k gs' (after k (length (gs_rules g)) u) v
  end.
Record state_ok (k : gcfg) (fl : gflags) (g : gstate) (o : dfa_out) : Prop := {
  so_ne : gs_rules g <> [];
  so_parses : Forall parses (gs_rules g);
  so_table : state_table k g (out_table o);
  so_zero : zero_len_ok fl = true \/ forall r, In r (gs_rules g) -> ~ rmatch r false []
}.

Lemma after_app k a b u : after k (a + b) u = after k b (after k a u).
Proof. revert u. induction a as [|a IH]; intros u; cbn; auto. Qed.

Theorem build_states_ok k fl : wide_ok k -> forall gs u st used, Forall (state_wf k) gs ->
  exists f0, forall f, (f0 <= f)%nat ->
  (exists e g, build_states f k fl gs u st used = Throw e /\ In g gs /\ gives_up fl g e) \/
  (exists os used', build_states f k fl gs u st used = Ok (os, after k (total gs) u, used') /\
     Forall2 (state_ok k fl) gs os /\
     (forall v, In v used' -> In v used \/ (suppressed_ok fl = false /\ useful_in k gs u v)) /\
     (forall v, In v used -> In v used') /\
     (forall v, suppressed_ok fl = false -> Forall (fun g => Forall eager (gs_rules g)) gs ->
        useful_in k gs u v -> In v used')).
Proof.
  intros WO. induction gs as [|g gs IH]; intros u st used F.
  - exists O. intros f _. right. exists [], used. cbn. split; [auto|]. split; [constructor|]. split; [auto|]. split; [auto|]. intros v _ _ [].
  - inversion F as [|? ? F1 F2]; subst. destruct (build_one_ok k fl g u st used WO F1) as (f1 & H1).
    (* the first state's result does not depend on the fuel beyond f1 *)
    destruct (H1 f1 (Nat.le_refl _)) as [(e & E & GU)|(o & st' & E & S1 & S2 & S3 & S4 & S5 & S6 & S7)].
    { exists f1. intros f Hf. left. exists e, g. cbn [build_states].
      rewrite (build_one_mono f1 f _ _ _ _ _ _ _ Hf E) by discriminate. cbn. auto. }
    destruct (IH (after k (length (gs_rules g)) u) st' (o_used o) F2) as (f2 & H2).
    exists (max f1 f2). intros f Hf. cbn [build_states].
    rewrite (build_one_mono f1 f _ _ _ _ _ _ _ ltac:(lia) E) by discriminate. cbn [bind].
    destruct (H2 f ltac:(lia)) as [(e & g' & E2 & Hg & GU)|(os & used' & E2 & T1 & T2 & T3 & T4)]; rewrite E2; cbn [bind].
    + left. exists e, g'. split; [auto|]. split; [now right|auto].
    + right. exists (o :: os), used'. cbn [total fold_right]. fold (total gs). rewrite after_app. split; [auto|].
      split; [constructor; auto; constructor; auto|]. split; [|split].
      * intros v Hv. apply T2 in Hv as [Hv|(Sp & Hv)]; [|right; cbn; auto].
        apply S5 in Hv as [Hv|(Sp & Hv)]; [auto|]. right. cbn. auto.
      * auto.
      * intros v Sp HE [Hv|Hv]; inversion HE; subst; [|auto]. apply T3. auto.
Qed.

(** ** Numbering *)
Lemma next_uniq_small k u : u + 1 < 2 ^ g_bits k -> next_uniq k u = u + 1.
Proof. intros H. unfold next_uniq. now apply N.mod_small. Qed.
Lemma after_small k n : forall u, u + N.of_nat n < 2 ^ g_bits k -> after k n u = u + N.of_nat n.
Proof.
  induction n as [|n IH]; intros u H; cbn [after]; [lia|]. rewrite next_uniq_small by lia. rewrite IH by lia. lia.
Qed.
Lemma uniqs_nth k n : forall u j, u + N.of_nat n < 2 ^ g_bits k -> (j < n)%nat ->
  nth_error (uniqs k n u) j = Some (u + N.of_nat j + 1).
Proof.
  induction n as [|n IH]; intros u j H Hj; [lia|]. cbn [uniqs]. rewrite next_uniq_small by lia.
  destruct j as [|j]; cbn [nth_error]; [f_equal; lia|]. rewrite IH by lia. f_equal. lia.
Qed.
Lemma uniqs_length k n u : length (uniqs k n u) = n.
Proof. revert u. induction n as [|n IH]; intros u; cbn; auto. Qed.

Lemma useful_lt k gs : forall u v, u + N.of_nat (total gs) < 2 ^ g_bits k -> useful_in k gs u v -> u < v.
Proof.
  induction gs as [|g gs IH]; intros u v H; cbn [useful_in]; [easy|]. cbn [total fold_right] in H. fold (total gs) in H.
  intros [(j & E & _)|HU].
  - assert (Hj : (j < length (gs_rules g))%nat).
    { rewrite <- (uniqs_length k (length (gs_rules g)) u). apply nth_error_Some. congruence. }
    rewrite uniqs_nth in E by (auto; lia). injection E as <-. lia.
  - rewrite after_small in HU by lia. apply IH in HU; lia.
Qed.
(** All numbers are used iff every rule is matched by some text. *)
Definition all_matchable (gs : list gstate) : Prop :=
  forall g j, In g gs -> (j < length (gs_rules g))%nat -> exists bol cs, first_at (gs_rules g) bol cs j.
Lemma useful_all k gs : forall u, u + N.of_nat (total gs) < 2 ^ g_bits k ->
  (forall v, u < v <= u + N.of_nat (total gs) -> useful_in k gs u v) <-> all_matchable gs.
Proof.
  induction gs as [|g gs IH]; intros u H; cbn [useful_in].
  - split; [intros _ g j []|]. cbn. intros _ v. lia.
  - cbn [total fold_right] in *. fold (total gs) in *. rewrite after_small by lia. split.
    + intros A g' j [<-|Hg] Hj.
      * destruct (A (u + N.of_nat j + 1)) as [(j' & E & FA)|HU]; [lia| |].
        -- assert (Hj' : (j' < length (gs_rules g))%nat).
           { rewrite <- (uniqs_length k (length (gs_rules g)) u). apply nth_error_Some. congruence. }
           rewrite uniqs_nth in E by (auto; lia). injection E as E. replace j with j' by lia. auto.
        -- apply useful_lt in HU; lia.
      * apply (proj1 (IH (u + N.of_nat (length (gs_rules g))) ltac:(lia))) with (g := g'); auto.
        intros v Hv. destruct (A v) as [(j' & E & _)|HU]; [lia| |auto].
        assert (Hj' : (j' < length (gs_rules g))%nat).
        { rewrite <- (uniqs_length k (length (gs_rules g)) u). apply nth_error_Some. congruence. }
        rewrite uniqs_nth in E by (auto; lia). injection E as <-. lia.
    + intros A v Hv. destruct (N.le_gt_cases v (u + N.of_nat (length (gs_rules g)))) as [L|L].
      * left. exists (N.to_nat (v - u - 1)). split.
        -- rewrite uniqs_nth by lia. f_equal. lia.
        -- apply (A g); [now left|lia].
      * right. apply IH; [lia| |lia]. intros g' j Hg. apply A. now right.
Qed.
Lemma check_suppressed_spec fl n used :
  (check_suppressed fl n used = Ok tt /\ (suppressed_ok fl = true \/ forall v, 0 < v <= n -> In v used)) \/
  (check_suppressed fl n used = Throw ESuppressed /\ suppressed_ok fl = false /\ exists v, 0 < v <= n /\ ~ In v used).
Proof.
  unfold check_suppressed. destruct (suppressed_ok fl); [left; auto|].
  destruct (forallb _ _) eqn:E.
  - left. split; [auto|]. right. intros v Hv. rewrite forallb_forall in E.
    specialize (E (N.to_nat (v - 1))). rewrite in_seq in E. specialize (E ltac:(lia)).
    apply existsb_exists in E as (x & Hx & Ex). apply N.eqb_eq in Ex. replace v with x by lia. auto.
  - right. split; [auto|]. split; [auto|].
    assert (X : exists i, In i (seq 0 (N.to_nat n)) /\ existsb (N.eqb (N.of_nat i + 1)) used = false).
    { revert E. induction (seq 0 (N.to_nat n)) as [|i l IH]; cbn; [discriminate|]. intros E.
      apply andb_false_iff in E as [E|E]; [exists i; auto|]. destruct (IH E) as (x & Hx & Ex). exists x. auto. }
    destruct X as (i & Hi & Ei). apply in_seq in Hi. exists (N.of_nat i + 1). split; [lia|]. intros Hv.
    enough (true = false) by discriminate. rewrite <- Ei. symmetry. apply existsb_exists.
    exists (N.of_nat i + 1). split; [auto|apply N.eqb_refl].
Qed.

(** ** The built machine *)
(** Every table stands for the rules of its state. *)
Definition machine_ok (k : gcfg) (R : grules) (m : internals) : Prop :=
  i_eoi m = gr_eoi R /\ length (i_dfa m) = length (gr_states R) /\
  forall st g, nth_error (gr_states R) (N.to_nat st) = Some g ->
    exists t, get_table m st = Some t /\ state_table k g t.
Definition why_not (k : gcfg) (R : grules) (e : err) : Prop :=
  (exists g, In g (gr_states R) /\ gives_up (gr_flags R) g e) \/
  (e = ESuppressed /\ suppressed_ok (gr_flags R) = false /\
   exists v, 0 < v <= after k (total (gr_states R)) 0 /\
     (Forall (fun g => Forall eager (gs_rules g)) (gr_states R) -> ~ useful_in k (gr_states R) 0 v)).

Lemma create_tables k fl R os : Forall2 (state_ok k fl) (gr_states R) os ->
  machine_ok k R (create (gr_eoi R) os (map gs_features (gr_states R))).
Proof.
  intros F. split; [reflexivity|]. assert (L : length os = length (gr_states R)) by (clear - F; induction F; cbn; auto).
  split; [cbn; now rewrite map_length|]. intros st g E. unfold get_table, create. cbn [i_lookup i_alphabet i_dfa].
  rewrite !nth_error_map.
  assert (X : exists o, nth_error os (N.to_nat st) = Some o /\ state_ok k fl g o).
  { clear L. revert E. generalize (N.to_nat st). induction F as [|g' o gs os H F IH]; intros i E; [destruct i; discriminate|].
    destruct i as [|i]; [|apply IH; auto]. cbn in *. injection E as <-. eauto. }
  destruct X as (o & -> & SO). cbn. eexists. split; [reflexivity|]. apply SO.
Qed.

Theorem build_ok k R : wide_ok k -> rules_wf k R ->
  exists f0, forall f, (f0 <= f)%nat ->
  (exists e, build f k R = Throw e /\ why_not k R e) \/
  (exists m os, build f k R = Ok m /\ machine_ok k R m /\
     m = create (gr_eoi R) os (map gs_features (gr_states R)) /\
     Forall2 (state_ok k (gr_flags R)) (gr_states R) os /\
     (suppressed_ok (gr_flags R) = true \/
      forall v, 0 < v <= after k (total (gr_states R)) 0 -> useful_in k (gr_states R) 0 v)).
Proof.
  intros WO RW. destruct (build_states_ok k (gr_flags R) WO (gr_states R) 0 [] [] RW) as (f0 & H).
  exists f0. intros f Hf. unfold build.
  destruct (H f Hf) as [(e & g & E & Hg & GU)|(os & used & E & F & U1 & U2 & U3)]; rewrite E; cbn [bind].
  - left. exists e. split; [auto|]. left. eauto.
  - destruct (check_suppressed_spec (gr_flags R) (after k (total (gr_states R)) 0) used)
      as [(C & C1)|(C & C1 & v & Hv & NI)]; rewrite C; cbn [bind].
    + right. exists (create (gr_eoi R) os (map gs_features (gr_states R))), os. split; [auto|].
      split; [eapply create_tables; eauto|]. split; [auto|]. split; [auto|].
      destruct C1 as [C1|C1]; [auto|]. destruct (suppressed_ok (gr_flags R)); [auto|]. right. intros v Hv.
      destruct (U1 v (C1 v Hv)) as [[]|[_ Q]]. auto.
    + left. exists ESuppressed. split; [auto|]. right. split; [auto|]. split; [auto|]. exists v. split; [auto|].
      intros HE HU. apply NI. apply U3; auto.
Qed.

(** For any fuel. *)
Theorem build_machine f k R m : wide_ok k -> rules_wf k R -> build f k R = Ok m ->
  machine_ok k R m /\ exists os, m = create (gr_eoi R) os (map gs_features (gr_states R)) /\
     Forall2 (state_ok k (gr_flags R)) (gr_states R) os /\
     (suppressed_ok (gr_flags R) = true \/
      forall v, 0 < v <= after k (total (gr_states R)) 0 -> useful_in k (gr_states R) 0 v).
Proof.
  intros WO RW E. destruct (build_ok k R WO RW) as (f0 & H).
  assert (E' : build (max f f0) k R = Ok m) by (apply (build_mono f); [lia|auto|discriminate]).
  destruct (H (max f f0) ltac:(lia)) as [(e & Q & _)|(m' & os & Q & H1 & H2 & H3 & H4)]; rewrite E' in Q; [discriminate|].
  injection Q as <-. split; [auto|]. exists os. auto.
Qed.
Theorem build_throw f k R e : wide_ok k -> rules_wf k R -> build f k R = Throw e -> why_not k R e.
Proof.
  intros WO RW E. destruct (build_ok k R WO RW) as (f0 & H).
  assert (E' : build (max f f0) k R = Throw e) by (apply (build_mono f); [lia|auto|discriminate]).
  destruct (H (max f f0) ltac:(lia)) as [(e' & Q & W)|(m' & os & Q & _)]; rewrite E' in Q; [|discriminate].
  now injection Q as <-.
Qed.
(** Never undefined, and total with enough fuel. *)
Theorem build_defined f k R : wide_ok k -> rules_wf k R -> build f k R <> UB.
Proof.
  intros WO RW E. destruct (build_ok k R WO RW) as (f0 & H).
  assert (E' : build (max f f0) k R = UB) by (apply (build_mono f); [lia|auto|discriminate]).
  destruct (H (max f f0) ltac:(lia)) as [(e & Q & _)|(m' & os & Q & _)]; rewrite E' in Q; discriminate.
Qed.
Theorem build_terminates k R : wide_ok k -> rules_wf k R -> exists f0, forall f, (f0 <= f)%nat -> build f k R <> Fuel.
Proof.
  intros WO RW. destruct (build_ok k R WO RW) as (f0 & H). exists f0. intros f Hf E.
  destruct (H f Hf) as [(e & Q & _)|(m' & os & Q & _)]; rewrite E in Q; discriminate.
Qed.
