(** What basic_char_state_machine::minimise loses, exactly: nothing when no two
    states are equal, and otherwise the ids and the push/pop information of all
    states. *)
From Verif Require Import Base StateMachine StringToken CharMachine CharMinProofs.
Local Open Scope N_scope.

(** The values that new_state gives to the fields that it does not copy. *)
Definition washed (npos : N) (s : cstate) : Prop :=
  cs_kind s = KNeither /\ cs_push s = npos /\ cs_id s = (if cs_end s then 1 else 0).

Lemma new_states_washed npos lks : forall l mk l', new_states npos lks l mk = Some l' -> Forall (washed npos) l'.
Proof.
  induction l as [|s l IH]; intros [|[dup x] mk] l' E; cbn [new_states] in E; try (injection E as <-; constructor).
  destruct dup; [eauto|]. destruct (new_state npos lks s) as [a|] eqn:Ea; [|discriminate].
  destruct (new_states npos lks l mk) as [b|] eqn:Eb; [|discriminate]. injection E as <-. constructor; [|eauto].
  unfold new_state in Ea. destruct (if cs_eol s =? npos then _ else _); [|discriminate].
  destruct (retarget lks (cs_trans s) []); [|discriminate]. injection Ea as <-. repeat split.
Qed.

Lemma pass_washed npos d d' : cminimise_dfa npos d = Some d' -> d' = d \/ Forall (washed npos) (cd_states d').
Proof.
  unfold cminimise_dfa. set (marks := cnumber _ _ _ _). destruct (existsb fst marks); [|intros [= <-]; auto].
  destruct (if cd_bol d =? npos then _ else _); [|discriminate].
  destruct (new_states _ _ _ _) as [l|] eqn:E; [|discriminate]. intros [= <-]. right. exact (new_states_washed _ _ _ _ _ E).
Qed.

Lemma loop_washed npos : forall fuel d d', cminimise_loop fuel npos d = Ok d' ->
  d' = d \/ Forall (washed npos) (cd_states d').
Proof.
  induction fuel as [|fuel IH]; intros d d' E; cbn [cminimise_loop] in E;
    destruct (cminimise_dfa npos d) as [d1|] eqn:E1; try discriminate.
  - destruct (Nat.eqb _ _); [|discriminate]. injection E as <-. exact (pass_washed _ _ _ E1).
  - destruct (Nat.eqb _ _); [injection E as <-; exact (pass_washed _ _ _ E1)|].
    destruct (IH _ _ E) as [->|H]; auto. exact (pass_washed _ _ _ E1).
Qed.

(** Each machine either has no two equal states and comes out as it was, or it
    has, and then no state of the result has an id or a push or pop. *)
Theorem minimise_lost npos l l' : Forall (cwf npos) l -> cminimise npos l = Ok l' ->
  Forall2 (fun d d' => (NoDup (cd_states d) /\ d' = d) \/
                       (~ NoDup (cd_states d) /\ Forall (washed npos) (cd_states d'))) l l'.
Proof.
  intros W. revert l'. induction W as [|d l Hd Hl IH]; intros l' E; cbn [cminimise] in E.
  - injection E as <-. constructor.
  - destruct (Nat.eqb_spec (length (cd_states d)) 0) as [E0|E0]; cbn [bind] in E.
    + destruct (cminimise npos l) as [r| | |]; try discriminate. cbn [bind] in E. injection E as <-.
      constructor; [|auto]. left. split; auto. destruct (cd_states d); [constructor|discriminate].
    + destruct (cminimise_loop_ok npos (length (cd_states d)) d (Nat.le_refl _) Hd) as (d' & E' & _ & N' & K & _).
      rewrite E' in E. cbn [bind] in E. destruct (cminimise npos l) as [r| | |]; try discriminate. cbn [bind] in E.
      injection E as <-. constructor; [|auto]. destruct (loop_washed _ _ _ _ E') as [->|H]; [left; auto|].
      pose proof (pass_ok npos d Hd) as (d1 & E1 & [(ND & _)|(ND & _)]); [left; split; auto|right; split; auto].
Qed.

(** So the fields survive on every state exactly when there was nothing to do or
    nothing to lose. *)
Definition keeps (d d' : cdfa) (f : N -> N) : Prop :=
  forall i s s', nth_error (cd_states d) (N.to_nat i) = Some s -> nth_error (cd_states d') (N.to_nat (f i)) = Some s' ->
    cs_id s' = cs_id s /\ cs_kind s' = cs_kind s /\ cs_push s' = cs_push s.

Theorem minimise_keeps npos d d' : cwf npos d -> cminimise npos [d] = Ok [d'] ->
  exists f, csim npos f d d' /\
    (keeps d d' f <-> (NoDup (cd_states d) \/ Forall (washed npos) (cd_states d))).
Proof.
  intros W E. destruct (cminimise_ok npos [d]) as (l' & E' & F); [constructor; [exact W|constructor]|].
  rewrite E in E'. injection E' as <-. inversion F as [|? ? ? ? (W' & N' & K & f & S) _]; subst.
  pose proof (minimise_lost npos [d] [d'] ltac:(constructor; [exact W|constructor]) E) as L.
  inversion L as [|? ? ? ? L1 _]; subst. destruct L1 as [(ND & ->)|(ND & A)].
  - exists (fun i => i). split; [apply csim_refl|]. split; [auto|]. intros _ i s s' H1 H2. rewrite H1 in H2.
    injection H2 as <-. auto.
  - exists f. split; auto. rewrite Forall_forall in A. destruct S as (S1 & S2 & S3). split.
    + intros H. right. apply Forall_forall. intros s Hs. apply In_nth_error in Hs as (i & Hi).
      rewrite <- (Nat2N.id i) in Hi. destruct (S2 _ _ Hi) as (s' & Hs' & Lk).
      destruct (H _ _ _ Hi Hs') as (H1 & H2 & H3). destruct (A s' (nth_error_In _ _ Hs')) as (A1 & A2 & A3).
      assert (He : cs_end s' = cs_end s) by exact (proj1 Lk).
      unfold washed. rewrite <- H1, <- H2, <- H3, A1, A2, A3, He. auto.
    + intros [H|H]; [contradiction|]. rewrite Forall_forall in H. intros i s s' Hi Hs'.
      destruct (S2 _ _ Hi) as (s2 & Hs2 & Lk). rewrite Hs' in Hs2. injection Hs2 as <-.
      destruct (A s' (nth_error_In _ _ Hs')) as (A1 & A2 & A3). destruct (H s (nth_error_In _ _ Hi)) as (B1 & B2 & B3).
      assert (He : cs_end s' = cs_end s) by exact (proj1 Lk).
      rewrite A1, A2, A3, B1, B2, B3, He. auto.
Qed.
