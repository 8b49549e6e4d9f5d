(** Properties C21 and C22: character based machines. *)
From Verif Require Import Base StringToken StringTokenSpec StateMachine Lookup TableSpec LookupSpec LookupCheck Minimise TableSim
  MinimiseProofs StringTokenProofs CharMachine CharProofs CharMinProofs CharMinLost Generator Build RuleSpec BuildSpec BuildThms BuildLookup BuildClean P_Minimise P_Build.
Local Open Scope N_scope.

(** ** C21: sm_to_csm returns one machine per start state; each of its states
    holds the cells of one row, moves on a character exactly where the table
    does, and has no moves on anything but bytes. *)
Theorem C21_conversion_is_exact : forall k m, mwf k m -> mclean k m ->
  exists l, sm_to_csm (npos k) m = Some l /\ length l = length (i_dfa m) /\
    forall st t n, get_table m st = Some t -> twf k t n ->
      exists d, nth_error l (N.to_nat st) = Some d /\ N.of_nat (length (cd_states d)) = n - 1 /\
        same_dfa (npos k) t d.
Proof. exact sm_to_csm_ok. Qed.
Print Assumptions C21_conversion_is_exact.

(** Hence the words it reads are those the table reads. *)
Theorem C21_same_words : forall k t n d, twf k t n -> same_dfa (npos k) t d ->
  N.of_nat (length (cd_states d)) = n - 1 ->
  forall w i q, i < n - 1 ->
    (cpath d i w q <-> Forall (fun c => c < 256) w /\ walk t (i + 1) w (q + 1)).
Proof. exact cpath_walk. Qed.
Print Assumptions C21_same_words.

(** What build makes can be converted and minimised. *)
Theorem C21_built_machines : forall f k g R m inp r, setting f k g R m inp r -> mwf k m /\ mclean k m.
Proof.
  intros f k g R m inp r SE. split; [exact (se_mwf _ _ _ _ _ _ _ SE)|].
  pose proof (se_machine _ _ _ _ _ _ _ SE) as MO. destruct SE. eapply built_mclean; eauto.
Qed.
Print Assumptions C21_built_machines.
Theorem C20_built_machines : forall f k g R m inp r, setting f k g R m inp r ->
  exists m', minimise (c_bits k) m = Ok m' /\
    forall fuel inner, lookup fuel inner k m' inp r = lookup fuel inner k m inp r.
Proof.
  intros f k g R m inp r SE. destruct (C21_built_machines _ _ _ _ _ _ _ SE) as (H1 & H2).
  destruct (C20_minimise_preserves_lookup k m H1 H2) as (m' & E & L & _). exists m'. split; [exact E|].
  intros fuel inner. apply L. exact (se_chars _ _ _ _ _ _ _ SE).
Qed.
Print Assumptions C20_built_machines.

Lemma moves_check s c q : existsb (fun p => (fst p =? q) && memb c (snd p)) (cs_trans s) = true -> cmoves s c q.
Proof.
  intros H. apply existsb_exists in H as ([p tok] & Hin & H). apply andb_true_iff in H as [H1 H2].
  apply N.eqb_eq in H1. cbn in H1. subst p. exists tok. split; [exact Hin|]. apply memb_mem. exact H2.
Qed.
(** The machine of P_Build: [Ry] has two start states; "if" is read to the
    state with id 1. *)
Definition csm (m : internals) : list cdfa := match sm_to_csm 65535 m with Some l => l | None => [] end.
Example C21_nonvacuous : mwf kx my /\ mclean kx my /\ sm_to_csm (npos kx) my = Some (csm my) /\
  exists a b, csm my = [a; b] /\ length (cd_states a) = 8%nat /\ length (cd_states b) = 5%nat /\ cd_bol a = 1 /\
    cpath a 0 [105; 102] 7 /\ cpath a 1 [35; 105] 6 /\
    exists s, nth_error (cd_states a) 7 = Some s /\ cs_end s = true /\ cs_id s = 1 /\
      cs_trans s = [(3, [(97, 122)])].
Proof.
  destruct (C21_built_machines _ _ _ _ _ _ _ (Ry_setting false 0 0 ltac:(lia) ltac:(lia))) as (H1 & H2).
  split; [exact H1|]. split; [exact H2|]. split; [vm_compute; reflexivity|].
  eexists. eexists. split; [vm_compute; reflexivity|]. split; [reflexivity|]. split; [reflexivity|]. split; [reflexivity|].
  split; [|split].
  - eapply cp_cons with (j := 2); [reflexivity|apply moves_check; reflexivity|].
    eapply cp_cons with (j := 7); [reflexivity|apply moves_check; reflexivity|].
    constructor.
  - eapply cp_cons with (j := 6); [reflexivity|apply moves_check; reflexivity|].
    eapply cp_cons with (j := 6); [reflexivity|apply moves_check; reflexivity|].
    constructor.
  - eexists. split; [reflexivity|]. split; [reflexivity|]. split; reflexivity.
Qed.

(** No rule of [Ry] pushes, but states are marked as pushing: rows that do not
    accept hold 0 where the test expects npos. *)
Theorem C21_push_kind_refuted : exists f k g R m inp r, setting f k g R m inp r /\
  (forall gs x, In gs (gr_states R) -> In x (gs_rules gs) -> gr_push x = npos k) /\
  exists a l s, sm_to_csm (npos k) m = Some (a :: l) /\ nth_error (cd_states a) 0 = Some s /\
    cs_end s = false /\ cs_kind s = KPush.
Proof.
  exists 100%nat, kx, gx, Ry, my, inp, (pos false 0 0). split; [apply Ry_setting; lia|]. split.
  - intros gs x Hg Hx.
    assert (F : forallb (fun gs => forallb (fun x => gr_push x =? 65535) (gs_rules gs)) (gr_states Ry) = true) by reflexivity.
    rewrite forallb_forall in F. specialize (F gs Hg). cbv beta in F. rewrite forallb_forall in F.
    apply N.eqb_eq. exact (F x Hx).
  - do 3 eexists. split; [vm_compute; reflexivity|]. split; [reflexivity|]. split; reflexivity.
Qed.
Print Assumptions C21_push_kind_refuted.

(** ** C22. [partial]: the id and the push/pop information of a state are not
    kept (see the refutations). What is kept: minimise() ends, needs no index out
    of range, leaves no two equal states, does nothing when there are none, and
    maps each state to one that accepts the same words with the same user id and
    next start state; the start state stays first, bol and eol targets follow. *)
Theorem C22_minimise_partial : forall npos l, Forall (cwf npos) l ->
  exists l', cminimise npos l = Ok l' /\
    Forall2 (fun d d' => cwf npos d' /\ NoDup (cd_states d') /\ (NoDup (cd_states d) -> d' = d) /\
       exists f, csim npos f d d') l l'.
Proof. exact cminimise_ok. Qed.
Print Assumptions C22_minimise_partial.
Theorem C22_same_words_partial : forall npos f d d', cwf npos d -> csim npos f d d' ->
  forall i w uid next, i < N.of_nat (length (cd_states d)) ->
    (caccepts d' (f i) w uid next <-> caccepts d i w uid next).
Proof. exact csim_accepts. Qed.
Print Assumptions C22_same_words_partial.
Theorem C22_start_state : forall npos f d d', csim npos f d d' -> cd_states d <> [] ->
  f 0 = 0 /\ cd_bol d' = (if cd_bol d =? npos then npos else f (cd_bol d)).
Proof. intros npos f d d' (H1 & _ & H3) Hn. split; [exact (H3 Hn)|exact H1]. Qed.
Print Assumptions C22_start_state.
(** All of it applies to what sm_to_csm makes. *)
Theorem C22_converted_machines : forall k m l, mwf k m -> mclean k m -> sm_to_csm (npos k) m = Some l ->
  Forall (cwf (npos k)) l.
Proof.
  intros k m l H1 H2 E. destruct (sm_to_csm_ok k m H1 H2) as (l' & E' & L & H).
  rewrite E in E'. injection E' as <-. exact (same_csm_cwf k m l H1 L H).
Qed.
Print Assumptions C22_converted_machines.

(** a and b lead to equal states with id 7, x to a state with id 5 and y to one
    with id 6. *)
Definition acc (id push : N) (kd : kind) : cstate :=
  {| cs_end := true; cs_kind := kd; cs_id := id; cs_uid := 0; cs_push := push; cs_next := 0; cs_eol := 65535; cs_trans := [] |}.
Definition root (push : N) (kd : kind) (tr : list (N * stoken)) : cstate :=
  {| cs_end := false; cs_kind := kd; cs_id := 0; cs_uid := 0; cs_push := push; cs_next := 0; cs_eol := 65535; cs_trans := tr |}.
Definition cz : cdfa :=
  {| cd_bol := 65535;
     cd_states := [ root 0 KPush [(1, [(97, 97)]); (2, [(98, 98)]); (3, [(120, 120)]); (4, [(121, 121)])];
                    acc 7 65535 KNeither; acc 7 65535 KNeither; acc 5 65535 KNeither; acc 6 65535 KNeither ] |}.
Ltac cwf_check :=
  split; [vm_compute; discriminate|]; split; [left; reflexivity|];
  repeat first [apply Forall_cons|apply Forall_nil];
  (split; [left; reflexivity|split; [vm_compute; repeat split; try discriminate|
    cbn; intros q tok H; repeat (destruct H as [H|H]; [injection H as <- <-; reflexivity|]); destruct H]]).
Lemma cz_cwf : cwf 65535 cz.
Proof.
  cwf_check.
Qed.
(** The ids 5, 6 and 7 become one state with id 1. *)
Theorem C22_ids_lost_refuted : exists d, cwf 65535 d /\
  exists d', cminimise 65535 [d] = Ok [d'] /\
    (exists s, In s (cd_states d) /\ cpath d 0 [120] 3 /\ nth_error (cd_states d) 3 = Some s /\ cs_id s = 5) /\
    (exists s, cpath d 0 [121] 4 /\ nth_error (cd_states d) 4 = Some s /\ cs_id s = 6) /\
    length (cd_states d') = 2%nat /\ cpath d' 0 [120] 1 /\ cpath d' 0 [121] 1 /\
    exists s, nth_error (cd_states d') 1 = Some s /\ cs_end s = true /\ cs_id s = 1.
Proof.
  exists cz. split; [exact cz_cwf|]. eexists. split; [vm_compute; reflexivity|].
  split; [|split; [|split; [reflexivity|split; [|split]]]].
  - eexists. split; [do 3 right; left; reflexivity|]. split; [|split; reflexivity].
    eapply cp_cons with (j := 3); [reflexivity|apply moves_check; reflexivity|constructor].
  - eexists. split; [|split; reflexivity].
    eapply cp_cons with (j := 4); [reflexivity|apply moves_check; reflexivity|constructor].
  - eapply cp_cons with (j := 1); [reflexivity|apply moves_check; reflexivity|constructor].
  - eapply cp_cons with (j := 1); [reflexivity|apply moves_check; reflexivity|constructor].
  - eexists. split; [reflexivity|]. split; reflexivity.
Qed.
Print Assumptions C22_ids_lost_refuted.
(** A pushing and a popping state stop doing so. *)
Definition cp : cdfa :=
  {| cd_bol := 65535;
     cd_states := [ root 0 KPush [(1, [(97, 97)]); (2, [(98, 98)]); (3, [(120, 120)]); (4, [(121, 121)])];
                    acc 7 65535 KNeither; acc 7 65535 KNeither; acc 5 3 KPush; acc 6 65535 KPop ] |}.
Theorem C22_push_pop_lost_refuted : exists d, cwf 65535 d /\
  (exists s, nth_error (cd_states d) 3 = Some s /\ cs_kind s = KPush /\ cs_push s = 3) /\
  (exists s, nth_error (cd_states d) 4 = Some s /\ cs_kind s = KPop) /\
  exists d', cminimise 65535 [d] = Ok [d'] /\
    Forall (fun s => cs_kind s = KNeither /\ cs_push s = 65535) (cd_states d').
Proof.
  exists cp. split.
  { cwf_check. }
  split; [eexists; split; [reflexivity|split; reflexivity]|].
  split; [eexists; split; reflexivity|].
  eexists. split; [vm_compute; reflexivity|]. repeat constructor.
Qed.
Print Assumptions C22_push_pop_lost_refuted.

(** What is lost, exactly. A machine without equal states comes out as it was. Any
    other comes out with no push or pop at all, and with the id 1 on every end
    state and 0 on every other. *)
Theorem C22_what_is_lost : forall npos l l', Forall (cwf npos) l -> cminimise npos l = Ok l' ->
  Forall2 (fun d d' =>
      (NoDup (cd_states d) /\ d' = d) \/
      (~ NoDup (cd_states d) /\
       Forall (fun s => cs_kind s = KNeither /\ cs_push s = npos /\ cs_id s = (if cs_end s then 1 else 0))
         (cd_states d'))) l l'.
Proof. exact minimise_lost. Qed.
Print Assumptions C22_what_is_lost.
(** So each state keeps its id, push and pop exactly when there were no equal
    states or when all states had these values before. *)
Theorem C22_when_all_is_kept : forall npos d d', cwf npos d -> cminimise npos [d] = Ok [d'] ->
  exists f, csim npos f d d' /\
    ((forall i s s', nth_error (cd_states d) (N.to_nat i) = Some s ->
        nth_error (cd_states d') (N.to_nat (f i)) = Some s' ->
        cs_id s' = cs_id s /\ cs_kind s' = cs_kind s /\ cs_push s' = cs_push s) <->
     (NoDup (cd_states d) \/
      Forall (fun s => cs_kind s = KNeither /\ cs_push s = npos /\ cs_id s = (if cs_end s then 1 else 0))
        (cd_states d))).
Proof. exact minimise_keeps. Qed.
Print Assumptions C22_when_all_is_kept.
(** [C22_minimise_partial] applied: [cz] has duplicate states. *)
Example C22_nonvacuous : cwf 65535 cz /\ ~ NoDup (cd_states cz) /\ caccepts cz 0 [98] 0 0.
Proof.
  split; [exact cz_cwf|]. split.
  - intros H. inversion H as [|? ? _ H1]; subst. inversion H1 as [|? ? H2 _]; subst. apply H2. left. reflexivity.
  - exists 2, (acc 7 65535 KNeither). split; [|split; [reflexivity|split; [reflexivity|split; reflexivity]]].
    eapply cp_cons with (j := 2); [reflexivity|apply moves_check; reflexivity|constructor].
Qed.
(** Both sides of [C22_when_all_is_kept]: [cz] loses its ids, and a machine with
    equal states, the id 1 and no push keeps all it has. *)
Definition cw : cdfa :=
  {| cd_bol := 65535;
     cd_states := [ root 65535 KNeither [(1, [(97, 97)]); (2, [(98, 98)])];
                    acc 1 65535 KNeither; acc 1 65535 KNeither ] |}.
Example C22_kept_case : cwf 65535 cw /\ ~ NoDup (cd_states cw) /\
  (exists d', cminimise 65535 [cw] = Ok [d'] /\ length (cd_states d') = 2%nat) /\
  Forall (fun s => cs_kind s = KNeither /\ cs_push s = 65535 /\ cs_id s = (if cs_end s then 1 else 0)) (cd_states cw) /\
  ~ Forall (fun s => cs_kind s = KNeither /\ cs_push s = 65535 /\ cs_id s = (if cs_end s then 1 else 0)) (cd_states cz).
Proof.
  split; [cwf_check|]. split; [|split; [|split]].
  - intros H. inversion H as [|? ? _ H1]; subst. inversion H1 as [|? ? H2 _]; subst. apply H2. left. reflexivity.
  - eexists. split; [vm_compute; reflexivity|reflexivity].
  - repeat constructor.
  - intros H. inversion H as [|? ? (H1 & _) _]. discriminate.
Qed.
