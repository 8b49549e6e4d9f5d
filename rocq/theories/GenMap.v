(** The alphabet: lookup table and set mapping of the generator. *)
From Verif Require Import Base StringToken StringTokenSpec StringTokenProofs StateMachine
  Tree Partition PartitionProofs Generator.
From Coq Require Import Sorted.
Local Open Scope N_scope.

(** ** fill_lookup *)
Lemma fill_fold_len col a : forall is (lk : list N),
  length (fold_left (fun lk i => upd lk (a + i) col) is lk) = length lk.
Proof. induction is as [|i is IH]; intros lk; cbn; [auto|]. now rewrite IH, upd_length. Qed.
Lemma fill_fold_nth col a n : forall m (lk : list N) x, (a + m + n <= length lk)%nat ->
  nth_error (fold_left (fun lk i => upd lk (a + i) col) (seq m n) lk) x =
  if (Nat.leb (a + m) x && Nat.ltb x (a + m + n))%bool then Some col else nth_error lk x.
Proof.
  induction n as [|n IH]; intros m lk x H; cbn [seq fold_left].
  - destruct (Nat.leb_spec (a + m) x), (Nat.ltb_spec x (a + m + 0)); cbn; auto; lia.
  - rewrite IH by (rewrite upd_length; lia).
    destruct (Nat.leb_spec (a + S m) x), (Nat.ltb_spec x (a + S m + n)),
             (Nat.leb_spec (a + m) x), (Nat.ltb_spec x (a + m + S n)); cbn; auto; try lia.
    + rewrite nth_error_upd_neq by lia. reflexivity.
    + assert (x = a + m)%nat by lia. subst x. rewrite nth_error_upd_eq by lia. reflexivity.
    + rewrite nth_error_upd_neq by lia. reflexivity.
Qed.

Definition bytes_tok (t : stoken) : Prop := Forall (fun r => fst r <= snd r /\ snd r < 256) t.

Lemma memb_cons c a b t : memb c ((a, b) :: t) = (((a <=? c) && (c <=? b)) || memb c t)%bool.
Proof. reflexivity. Qed.
Lemma fill_lookup_ok col t : forall lk, length lk = 256%nat -> bytes_tok t ->
  exists lk', fill_lookup col t lk = Ok lk' /\ length lk' = 256%nat /\
    forall c, c < 256 -> nth_error lk' (N.to_nat c) =
      if memb c t then Some col else nth_error lk (N.to_nat c).
Proof.
  induction t as [|(a, b) t IH]; intros lk L H; cbn [fill_lookup].
  - exists lk. auto.
  - inversion H as [|? ? [H1 H2] H3]; subst. cbn [fst snd] in *. unfold fill_range. cbn [fst snd].
    destruct (N.ltb_spec b (N.of_nat (length lk))); [|lia]. cbn [bind].
    edestruct IH as (lk' & E & L' & HN); [|exact H3|].
    { rewrite fill_fold_len. exact L. }
    rewrite E. exists lk'. split; [reflexivity|]. split; [auto|]. intros c Hc.
    rewrite HN by auto. rewrite fill_fold_nth by lia.
    rewrite memb_cons. destruct (memb c t); [now rewrite orb_true_r|]. rewrite orb_false_r.
    destruct (N.leb_spec a c), (N.leb_spec c b), (Nat.leb_spec (N.to_nat a + 0) (N.to_nat c)),
      (Nat.ltb_spec (N.to_nat c) (N.to_nat a + 0 + (N.to_nat b + 1 - N.to_nat a)));
      cbn; auto; lia.
Qed.

(** ** set_mapping *)
Lemma map_inserts_ok index is : forall sm, Forall (fun i => i < N.of_nat (length sm)) is ->
  exists sm', map_inserts index is sm = Ok sm' /\ length sm' = length sm /\
    (Forall (fun l => StronglySorted N.lt l) sm -> Forall (fun l => StronglySorted N.lt l) sm') /\
    forall i s', nth_error sm' i = Some s' -> exists s, nth_error sm i = Some s /\
      forall x, In x s' <-> In x s \/ (x = index /\ In (N.of_nat i) is).
Proof.
  induction is as [|i is IH]; intros sm H; cbn [map_inserts].
  - exists sm. split; [auto|]. split; [auto|]. split; [auto|]. intros i s' E. exists s'.
    split; [auto|]. cbn. tauto.
  - inversion H as [|? ? H1 H2]; subst. unfold map_insert.
    destruct (nth_error sm (N.to_nat i)) as [s0|] eqn:E0;
      [|apply nth_error_None in E0; lia]. cbn [bind].
    destruct (IH (upd sm (N.to_nat i) (sins index s0))) as (sm' & E & L & S & HN).
    { now rewrite upd_length. }
    exists sm'. split; [auto|]. split; [now rewrite L, upd_length|]. split.
    + intros HS. apply S. apply Forall_forall. intros l Hl. apply In_nth_error in Hl as (j & Hj).
      rewrite Forall_forall in HS.
      destruct (Nat.eq_dec j (N.to_nat i)) as [->|Hn].
      * rewrite nth_error_upd_eq in Hj by lia. injection Hj as <-.
        apply sins_sorted, HS. eapply nth_error_In; eauto.
      * rewrite nth_error_upd_neq in Hj by auto. apply HS. eapply nth_error_In; eauto.
    + intros j s' Es'. destruct (HN j s' Es') as (s & Es & HI).
      destruct (Nat.eq_dec j (N.to_nat i)) as [->|Hn].
      * rewrite nth_error_upd_eq in Es by lia. injection Es as <-. exists s0. split; [auto|].
        intros x. rewrite HI, sins_In. rewrite N2Nat.id. cbn. intuition.
      * rewrite nth_error_upd_neq in Es by auto. exists s. split; [auto|]. intros x. rewrite HI.
        cbn. intuition; subst; exfalso; apply Hn; lia.
Qed.

Lemma build_set_mapping_ok l : forall index lk sm, length lk = 256%nat ->
  Forall (fun c => bytes_tok (cs_token c)) l ->
  Forall (fun c => Forall (fun i => i < N.of_nat (length sm)) (cs_index c)) l ->
  ForallOrdPairs (disj cs_pin) l ->
  exists lk' sm', build_set_mapping index l lk sm = Ok (lk', sm') /\
    length lk' = 256%nat /\ length sm' = length sm /\
    (forall c j cl, c < 256 -> nth_error l j = Some cl -> memb c (cs_token cl) = true ->
       nth_error lk' (N.to_nat c) = Some (index + N.of_nat j + ix_trans)) /\
    (forall c, c < 256 -> (forall cl, In cl l -> memb c (cs_token cl) = false) ->
       nth_error lk' (N.to_nat c) = nth_error lk (N.to_nat c)) /\
    (Forall (fun l => StronglySorted N.lt l) sm -> Forall (fun l => StronglySorted N.lt l) sm') /\
    forall i s', nth_error sm' i = Some s' -> exists s, nth_error sm i = Some s /\
      forall x, In x s' <-> In x s \/
        exists j cl, nth_error l j = Some cl /\ x = index + N.of_nat j /\
                     In (N.of_nat i) (cs_index cl).
Proof.
  induction l as [|cl l IH]; intros index lk sm L HB HI HD; cbn [build_set_mapping].
  - exists lk, sm. split; [auto|]. split; [auto|]. split; [auto|].
    split; [intros c [|j] ? ? E; discriminate|]. split; [auto|]. split; [auto|].
    intros i s' E. exists s'. split; [auto|]. intros x. split; [auto|].
    intros [H|([|j] & ? & E' & _)]; [auto|discriminate|discriminate].
  - inversion HB as [|? ? B1 B2]; subst. inversion HI as [|? ? I1 I2]; subst.
    inversion HD as [|? ? D1 D2]; subst.
    destruct (fill_lookup_ok (index + ix_trans) _ lk L B1) as (lk1 & E1 & L1 & N1).
    destruct (map_inserts_ok index _ sm I1) as (sm1 & E2 & L2 & S2 & N2).
    rewrite E1, E2. cbn [bind].
    destruct (IH (index + 1) lk1 sm1) as (lk' & sm' & E & L' & Ls & A1 & A2 & S0 & A3); auto.
    { now rewrite L2. }
    exists lk', sm'. split; [auto|]. split; [auto|]. split; [now rewrite Ls|].
    split; [|split; [|split]].
    + intros c [|j] x Hc Ex Hm; cbn in Ex.
      * injection Ex as <-. rewrite A2; auto.
        -- rewrite N1, Hm by auto. f_equal. lia.
        -- intros y Hy. rewrite Forall_forall in D1. specialize (D1 y Hy c).
           unfold cs_pin in D1. destruct (memb c (cs_token y)); [|auto]. destruct D1; auto.
      * rewrite (A1 c j x) by auto. f_equal. lia.
    + intros c Hc Hn. rewrite A2 by (auto; intros; apply Hn; right; auto).
      rewrite N1, Hn by (auto; left; auto). reflexivity.
    + auto.
    + intros i s' Es'. destruct (A3 i s' Es') as (s1 & Es1 & H1).
      destruct (N2 i s1 Es1) as (s0 & Es0 & H0). exists s0. split; [auto|]. intros x.
      rewrite H1, H0. split.
      * intros [[H|[-> H]]|(j & y & Ey & -> & Hy)]; [auto| |].
        -- right. exists O, cl. split; [auto|]. split; [lia|auto].
        -- right. exists (S j), y. split; [auto|]. split; [lia|auto].
      * intros [H|([|j] & y & Ey & -> & Hy)]; [auto| |].
        -- cbn in Ey. injection Ey as <-. left. right. split; [lia|auto].
        -- right. exists j, y. split; [auto|]. split; [lia|auto].
Qed.

(** ** The value of a character: the ids of the tokens that contain it *)
Lemma cs_comb_In a b x : In x (cs_comb a b) <-> In x a \/ In x b.
Proof. unfold cs_comb. rewrite !sins_fold_In. cbn. tauto. Qed.
Definition oin (x : N) (o : option (list N)) : Prop :=
  match o with Some v => In x v | None => False end.
Lemma add_In o v x : oin x (add cs_comb o v) <-> oin x o \/ In x v.
Proof. destruct o; cbn; [apply cs_comb_In|tauto]. Qed.

Lemma cs_value_In m c : forall i,
  oin i (cs_value (fill_charsets m) c) <-> exists t, In (t, i) m /\ memb c t = true.
Proof.
  unfold cs_value, value.
  assert (H : forall acc i, oin i
    (fold_left (fun acc x => if cs_pin x c then add cs_comb acc (cs_index x) else acc)
      (fill_charsets m) acc) <-> oin i acc \/ exists t, In (t, i) m /\ memb c t = true).
  { induction m as [|(t, j) m IH]; intros acc i; cbn [fill_charsets map fold_left].
    - cbn. firstorder.
    - change (map _ m) with (fill_charsets m). rewrite IH. cbn [cs_pin cs_token cs_index].
      unfold cs_pin. cbn [cs_token fst snd].
      destruct (memb c t) eqn:E.
      + rewrite add_In. cbn [In]. split.
        * intros [[H|[->|[]]]|(u & H & Hu)]; [auto| |]; right; eauto.
        * intros [H|(u & [H|H] & Hu)]; [auto| |right; eauto]. injection H as -> ->. auto.
      + cbn [In]. split.
        * intros [H|(u & H & Hu)]; [auto|]; right; eauto.
        * intros [H|(u & [H|H] & Hu)]; [auto| |right; eauto]. injection H as -> ->. congruence. }
  intros i. rewrite H. cbn. tauto.
Qed.
Lemma cs_value_none m c :
  cs_value (fill_charsets m) c = None <-> forall t i, In (t, i) m -> memb c t = false.
Proof.
  unfold cs_value, value.
  assert (H : forall acc,
    fold_left (fun acc x => if cs_pin x c then add cs_comb acc (cs_index x) else acc)
      (fill_charsets m) acc = None <-> acc = None /\ forall t i, In (t, i) m -> memb c t = false).
  { induction m as [|(t, j) m IH]; intros acc; cbn [fill_charsets map fold_left].
    - cbn. firstorder.
    - change (map _ m) with (fill_charsets m). rewrite IH. unfold cs_pin. cbn [cs_token cs_index fst snd].
      destruct (memb c t) eqn:E.
      + unfold add. split; [intros [H _]; discriminate|]. intros [_ H].
        rewrite (H t j) in E; [discriminate|left; auto].
      + split; intros [H1 H2]; (split; [auto|]).
        * intros u i [H|H]; [injection H as -> ->; auto|eauto].
        * intros u i H. apply (H2 u i). right; auto. }
  rewrite H. tauto.
Qed.

(** ** Together *)
Record alphabet (m : charset_map) (lk : list N) (sm : list (list N)) (n : nat) : Prop := {
  al_lk : length lk = 256%nat;
  al_sm : length sm = length m;
  al_sorted : Forall (fun l => StronglySorted N.lt l) sm;
  al_range : forall i s x, nth_error sm i = Some s -> In x s -> x < N.of_nat n;
  al_nonempty : forall t i s, In (t, i) m -> nth_error sm (N.to_nat i) = Some s -> s <> [];
  al_col : forall c, c < 256 -> exists col, nth_error lk (N.to_nat c) = Some col /\
     (col = ix_dead \/ exists x, x < N.of_nat n /\ col = x + ix_trans);
  al_mem : forall t i s c col, In (t, i) m -> nth_error sm (N.to_nat i) = Some s -> c < 256 ->
     nth_error lk (N.to_nat c) = Some col ->
     (memb c t = true <-> exists x, In x s /\ col = x + ix_trans);
  al_surj : forall x, x < N.of_nat n -> exists c, c < 256 /\
     nth_error lk (N.to_nat c) = Some (x + ix_trans);
  al_dead : forall c, c < 256 -> (forall t i, In (t, i) m -> memb c t = false) ->
     nth_error lk (N.to_nat c) = Some ix_dead
}.

Definition map_wf (m : charset_map) : Prop :=
  Forall (fun p => wf (fst p) /\ fst p <> [] /\ bytes_tok (fst p) /\
                   snd p < N.of_nat (length m)) m /\ NoDup (map snd m).

Lemma nth_fop {A} (R : A -> A -> Prop) l : ForallOrdPairs R l -> forall i j x y,
  (i < j)%nat -> nth_error l i = Some x -> nth_error l j = Some y -> R x y.
Proof.
  induction 1 as [|a l Ha Hl IH]; intros i j x y Hij Hx Hy; [destruct i; discriminate|].
  destruct i as [|i], j as [|j]; cbn in *; try lia.
  - injection Hx as <-. rewrite Forall_forall in Ha. apply Ha. eapply nth_error_In; eauto.
  - apply (IH i j); auto. lia.
Qed.

Lemma memb_bytes t c : bytes_tok t -> memb c t = true -> c < 256.
Proof.
  intros H M. apply memb_mem in M as (a & b & Hi & Hc).
  unfold bytes_tok in H. rewrite Forall_forall in H. apply H in Hi. cbn in Hi. lia.
Qed.
Lemma wf_bytes_mem t : wf t -> (forall c, memb c t = true -> c < 256) -> bytes_tok t.
Proof.
  intros W H. apply Forall_forall. intros (a, b) Hi. cbn.
  assert (a <= b).
  { clear H. unfold wf in W. revert W. generalize 0 at 1.
    induction t as [|(u, v) t IH]; [destruct Hi|]. intros lo W. destruct Hi as [Hi|Hi].
    - injection Hi as -> ->. apply W.
    - destruct W as (_ & _ & W). apply (IH Hi _ W). }
  split; [auto|]. apply H. apply memb_mem. exists a, b. split; [auto|lia].
Qed.

Theorem alphabet_ok m : map_wf m ->
  exists cl lk sm, partition_charsets m = Ok cl /\
    build_set_mapping 0 cl (repeat ix_dead 256) (repeat [] (length m)) = Ok (lk, sm) /\
    alphabet m lk sm (length cl) /\ cs_ok cl /\
    (forall c, (exists x, In x cl /\ memb c (cs_token x) = true) <->
               (exists t i, In (t, i) m /\ memb c t = true)).
Proof.
  intros [HM ND]. rewrite Forall_forall in HM.
  destruct (partition_ok m) as (cl & EP & OK & HG).
  { apply Forall_forall. intros p Hp. apply HM in Hp. tauto. }
  assert (OK' := OK). destruct OK' as [OKg OKd]. rewrite Forall_forall in OKg.
  (* a class and its index set *)
  assert (HC : forall j x c i, nth_error cl j = Some x -> memb c (cs_token x) = true ->
    (In i (cs_index x) <-> exists t, In (t, i) m /\ memb c t = true)).
  { intros j x c i Ex Hc. rewrite <- cs_value_In, <- HG. unfold cs_get, get.
    assert (F : find (fun x => cs_pin x c) cl = Some x).
    { destruct (find (fun x => cs_pin x c) cl) as [y|] eqn:F.
      - apply find_some in F as [Hy Py]. apply In_nth_error in Hy as (j' & Ey).
        destruct (Nat.lt_trichotomy j j') as [Hlt|[->|Hlt]].
        + exfalso. apply (nth_fop _ _ OKd j j' x y Hlt Ex Ey c); auto.
        + congruence.
        + exfalso. apply (nth_fop _ _ OKd j' j y x Hlt Ey Ex c); auto.
      - eapply find_none in F; [|eapply nth_error_In; eauto]. cbn in F. unfold cs_pin in F. congruence. }
    rewrite F. reflexivity. }
  assert (HE : forall c, (exists x, In x cl /\ memb c (cs_token x) = true) <->
                         (exists t i, In (t, i) m /\ memb c t = true)).
  { intros c.
    assert (G : (forall x, In x cl -> cs_pin x c = false) <-> (forall t i, In (t, i) m -> memb c t = false)).
    { rewrite <- cs_value_none, <- HG. unfold cs_get. symmetry. apply get_none. }
    split.
    - intros (x & Hx & Hc). destruct (existsb (fun p => memb c (fst p)) m) eqn:E.
      + apply existsb_exists in E as ((t, i) & Hi & Ht). eauto.
      + exfalso. assert (X : forall t i, In (t, i) m -> memb c t = false).
        { intros t i Hi. destruct (memb c t) eqn:Et; [|auto].
          rewrite <- E. symmetry. apply existsb_exists. exists (t, i). auto. }
        rewrite <- G in X. apply X in Hx. unfold cs_pin in Hx. congruence.
    - intros (t & i & Hi & Hc). destruct (existsb (fun x => cs_pin x c) cl) eqn:E.
      + apply existsb_exists in E as (x & Hx & Px). exists x. auto.
      + exfalso. assert (X : forall x, In x cl -> cs_pin x c = false).
        { intros x Hx. destruct (cs_pin x c) eqn:Et; [|auto].
          rewrite <- E. symmetry. apply existsb_exists. exists x. auto. }
        rewrite G in X. apply X in Hi. congruence. }
  assert (HB : forall x, In x cl -> bytes_tok (cs_token x)).
  { intros x Hx. apply wf_bytes_mem; [apply OKg; auto|]. intros c Hc.
    destruct (proj1 (HE c)) as (t & i & Hi & Ht); [eauto|].
    apply HM in Hi. eapply memb_bytes; [|exact Ht]. tauto. }
  assert (HNE : forall x, In x cl -> exists c, memb c (cs_token x) = true).
  { intros x Hx. destruct (OKg x Hx) as [[W HI] He].
    destruct (cs_token x) as [|(a, b) t] eqn:Et.
    - unfold cs_empty in He. rewrite Et, (HI eq_refl) in He. discriminate.
    - exists a. apply memb_mem. exists a, b. split; [left; auto|]. destruct W as (_ & H1 & _). cbn in H1. lia. }
  destruct (build_set_mapping_ok cl 0 (repeat ix_dead 256) (repeat [] (length m)))
    as (lk & sm & EB & L1 & L2 & A1 & A2 & A3 & A4); auto.
  { apply Forall_forall. auto. }
  { apply Forall_forall. intros x Hx. apply Forall_forall. intros i Hi. rewrite repeat_length.
    destruct (HNE x Hx) as (c & Hc). apply In_nth_error in Hx as (j & Ej).
    destruct (proj1 (HC j x c i Ej Hc) Hi) as (t & Hi' & _). apply HM in Hi'. cbn in Hi'. tauto. }
  exists cl, lk, sm. split; [auto|]. split; [auto|]. split; [|auto].
  assert (A4' : forall i s, nth_error sm i = Some s ->
    forall x, In x s <-> exists j cl', nth_error cl j = Some cl' /\ x = N.of_nat j /\
                     In (N.of_nat i) (cs_index cl')).
  { intros i s Es x. destruct (A4 i s Es) as (s0 & Es0 & H). rewrite H.
    apply nth_error_In, repeat_spec in Es0. subst s0. cbn [In]. split.
    - intros [[]|(j & y & ? & ? & ?)]. exists j, y. split; [auto|]. split; [lia|auto].
    - intros (j & y & ? & ? & ?). right. exists j, y. split; [auto|]. split; [lia|auto]. }
  assert (DEC : forall c, (exists j x, nth_error cl j = Some x /\ memb c (cs_token x) = true) \/
                          (forall x, In x cl -> memb c (cs_token x) = false)).
  { intros c. destruct (existsb (fun x => cs_pin x c) cl) eqn:E.
    - apply existsb_exists in E as (x & Hx & Px). left. apply In_nth_error in Hx as (j & Ej). eauto.
    - right. intros x Hx. destruct (memb c (cs_token x)) eqn:Et; [|auto].
      rewrite <- E. symmetry. apply existsb_exists. exists x. auto. }
  constructor; auto.
  - now rewrite L2, repeat_length.
  - apply A3. apply Forall_forall. intros s Hs. apply repeat_spec in Hs. subst s. constructor.
  - intros i s x Es Hx. apply (A4' i s Es) in Hx as (j & y & Ey & -> & _).
    assert (j < length cl)%nat by (apply nth_error_Some; congruence). lia.
  - intros t i s Hi Es. destruct (HM _ Hi) as (W & Hn & _ & _). cbn [fst snd] in *.
    destruct t as [|(a, b) t]; [congruence|].
    assert (Ha : memb a ((a, b) :: t) = true).
    { apply memb_mem. exists a, b. split; [left; auto|]. destruct W as (_ & H1 & _). cbn in H1. lia. }
    destruct (proj2 (HE a)) as (x & Hx & Hxa); [eauto|]. apply In_nth_error in Hx as (j & Ej).
    assert (In (N.of_nat j) s).
    { apply (A4' _ s Es). exists j, x. split; [auto|]. split; [auto|]. rewrite N2Nat.id.
      apply (HC j x a i Ej Hxa). eauto. }
    intros ->. now cbn in *.
  - intros c Hc. destruct (DEC c) as [(j & x & Ej & Hx)|Hn].
    + exists (0 + N.of_nat j + ix_trans). split; [eapply A1; eauto|]. right.
      exists (N.of_nat j). split; [|lia].
      assert (j < length cl)%nat by (apply nth_error_Some; congruence). lia.
    + exists ix_dead. split; [|auto]. rewrite A2 by auto. rewrite nth_error_repeat; [auto|lia].
  - intros t i s c col Hi Es Hc Ecol. destruct (DEC c) as [(j & x & Ej & Hx)|Hn].
    + rewrite (A1 c j x) in Ecol by auto. injection Ecol as <-. split.
      * intros Ht. exists (N.of_nat j). split; [|lia]. apply (A4' _ s Es). exists j, x.
        split; [auto|]. split; [auto|]. rewrite N2Nat.id. apply (HC j x c i Ej Hx). eauto.
      * intros (y & Hy & Ey). apply (A4' _ s Es) in Hy as (j' & x' & Ej' & -> & Hi').
        assert (j' = j) by lia. subst j'. rewrite N2Nat.id in Hi'.
        assert (x' = x) by congruence. subst x'.
        apply (HC j x c i Ej Hx) in Hi' as (t' & Hi' & Ht').
        assert (t' = t).
        { clear - ND Hi Hi'. induction m as [|(u, v) m IH]; [destruct Hi|].
          inversion ND as [|? ? H1 H2]; subst. cbn in *.
          destruct Hi as [Hi|Hi], Hi' as [Hi'|Hi'].
          - congruence.
          - injection Hi as -> ->. exfalso. apply H1. apply in_map_iff. exists (t', i). auto.
          - injection Hi' as -> ->. exfalso. apply H1. apply in_map_iff. exists (t, i). auto.
          - auto. }
        now subst t'.
    + rewrite A2 in Ecol by auto. rewrite nth_error_repeat in Ecol by lia.
      injection Ecol as <-. split.
      * intros Ht. destruct (proj2 (HE c)) as (x & Hx & Hxc); [eauto|].
        rewrite Hn in Hxc by auto. discriminate.
      * intros (y & Hy & Ey). unfold ix_dead, ix_trans in Ey. lia.
  - intros x Hx. destruct (nth_error cl (N.to_nat x)) as [y|] eqn:Ey;
      [|apply nth_error_None in Ey; lia].
    assert (Hy := nth_error_In _ _ Ey). destruct (HNE y Hy) as (c & Hc).
    assert (c < 256) by (eapply memb_bytes; [apply HB; eauto|auto]).
    exists c. split; [auto|]. rewrite (A1 c (N.to_nat x) y) by auto. f_equal. lia.
  - intros c Hc Hn. destruct (DEC c) as [(j & x & Ej & Hx)|Hd].
    + exfalso. destruct (proj1 (HE c)) as (t & i & Hi & Ht); [|rewrite (Hn t i Hi) in Ht; discriminate].
      exists x. split; [eapply nth_error_In; eauto|auto].
    + rewrite A2 by auto. rewrite nth_error_repeat; [auto|lia].
Qed.

(** The same without the record, and what follows for pairs of characters. *)
Theorem alphabet_spec m : map_wf m ->
  exists cl lk sm, partition_charsets m = Ok cl /\
    build_set_mapping 0 cl (repeat ix_dead 256) (repeat [] (length m)) = Ok (lk, sm) /\
    length lk = 256%nat /\
    (forall c, c < 256 -> exists col, nth_error lk (N.to_nat c) = Some col /\
       (col = ix_dead \/ ix_trans <= col < ix_trans + N.of_nat (length cl))) /\
    (forall col, ix_trans <= col < ix_trans + N.of_nat (length cl) ->
       exists c, c < 256 /\ nth_error lk (N.to_nat c) = Some col) /\
    (forall t i s c col, In (t, i) m -> nth_error sm (N.to_nat i) = Some s -> c < 256 ->
       nth_error lk (N.to_nat c) = Some col -> (mem c t <-> exists x, In x s /\ col = x + ix_trans)) /\
    (forall c c' col t i, c < 256 -> c' < 256 -> nth_error lk (N.to_nat c) = Some col ->
       nth_error lk (N.to_nat c') = Some col -> In (t, i) m -> (mem c t <-> mem c' t)) /\
    (forall c, c < 256 -> (nth_error lk (N.to_nat c) = Some ix_dead <-> forall t i, In (t, i) m -> ~ mem c t)).
Proof.
  intros HM. destruct (alphabet_ok m HM) as (cl & lk & sm & E1 & E2 & [A1 A2 A3 A4 A5 A6 A7 A8 A9] & _ & _).
  assert (SM : forall t i, In (t, i) m -> exists s, nth_error sm (N.to_nat i) = Some s).
  { intros t i Hi. destruct HM as [HM _]. rewrite Forall_forall in HM. destruct (HM _ Hi) as (_ & _ & _ & H). cbn in H.
    destruct (nth_error sm (N.to_nat i)) eqn:E; [eauto|]. apply nth_error_None in E. rewrite A2 in E. lia. }
  exists cl, lk, sm. split; [auto|]. split; [auto|]. split; [auto|]. split; [|split; [|split; [|split]]].
  - intros c Hc. destruct (A6 c Hc) as (col & E & [H|(x & Hx & ->)]); eexists; (split; [exact E|]); [now left|right; lia].
  - intros col Hc. destruct (A8 (col - ix_trans)) as (c & H1 & H2); [lia|]. exists c. split; [auto|]. rewrite H2. f_equal. lia.
  - intros t i s c col Hi Es Hc Ec. rewrite <- (A7 t i s c col Hi Es Hc Ec). symmetry. apply memb_mem.
  - intros c c' col t i Hc Hc' Ec Ec' Hi. destruct (SM t i Hi) as (s & Es).
    rewrite <- !memb_mem, (A7 t i s c col Hi Es Hc Ec), (A7 t i s c' col Hi Es Hc' Ec'). tauto.
  - intros c Hc. split.
    + intros E t i Hi M. destruct (SM t i Hi) as (s & Es). apply memb_mem in M. destruct (proj1 (A7 t i s c _ Hi Es Hc E) M) as (x & _ & H).
      unfold ix_dead, ix_trans in H. lia.
    + intros H. apply A9; [auto|]. intros t i Hi. specialize (H t i Hi). rewrite <- memb_mem in H. now destruct (memb c t).
Qed.
