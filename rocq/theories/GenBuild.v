(** build_dfa for one start state. *)
From Verif Require Import Base StringToken StringTokenSpec StateMachine Tree Partition PartitionProofs
  Generator GenMap GenPrune GenDfa.
From Coq Require Import Sorted.
Local Open Scope N_scope.

(** Positions that do not read the beginning of line. *)
Definition nobol (k : gcfg) (s : store) (V : nat -> Prop) (p : nat) : Prop :=
  V p /\ forall t g f, nth_error s p = Some (PLeaf t g f) -> t <> bol_tok k.
(** The result of pruning, where there is one. *)
Definition prf (k : gcfg) (s : store) (sm : list (list N)) (cr nl : N) (f : list nat) : list nat :=
  match prune_clashes (S (length f)) k s sm cr nl f 0 with Ok f' => f' | _ => [] end.

(** The number of the first column of a set. *)
Definition col_of (k : gcfg) (sm : list (list N)) (id c : N) : Prop :=
  (id = gnpos k /\ c = gnpos k) \/ (id <> gnpos k /\ exists l, nth_error sm (N.to_nat id) = Some (c :: l)).

Section Plain.
  Variables (k : gcfg) (fl : gflags) (s : store) (root : node) (m : charset_map) (used : list N).
  Variables (V : nat -> Prop) (rk : nat -> nat).

  Hypothesis HM : map_wf m.
  Hypothesis HL : N.of_nat (length m) < eol_tok k.
  Hypothesis V_lt : forall p, V p -> (p < length s)%nat.
  Hypothesis V_tok : forall p t g f, V p -> nth_error s p = Some (PLeaf t g f) ->
    t = bol_tok k \/ t = eol_tok k \/ exists tk, In (tk, t) m.
  Hypothesis V_follow : forall p t g f, V p -> nth_error s p = Some (PLeaf t g f) ->
    Forall V f /\ Forall (fun q => rk q = rk p) f.
  Hypothesis end_inj : forall p q e e', V p -> V q ->
    nth_error s p = Some (PEnd e) -> nth_error s q = Some (PEnd e') -> rk p = rk q -> p = q.
  Hypothesis root_ne : firstpos root <> [].
  Hypothesis root_V : Forall V (firstpos root).
  Hypothesis root_sorted : rksorted rk (firstpos root).
  Let W := nobol k s V.

  Lemma tok_small t tk : In (tk, t) m -> t < N.of_nat (length m).
  Proof using HM.
    clear - HM. intros H. destruct HM as [H1 _]. rewrite Forall_forall in H1. apply H1 in H. cbn in H. tauto.
  Qed.
  Lemma tok_ord t tk : In (tk, t) m -> t <> bol_tok k /\ t <> eol_tok k /\ t <> gnpos k.
  Proof using HM HL. clear - HM HL. intros H. apply tok_small in H. unfold bol_tok, eol_tok in *. lia. Qed.

  Section Sm.
    Variables (lk : list N) (sm : list (list N)) (n w : nat).
    Hypothesis AL : alphabet m lk sm n.
    Hypothesis Hnw : (n + 7 <= w)%nat.
    Hypothesis Hn : N.of_nat w <= gnpos k.

    Lemma cset_ord t tk : In (tk, t) m -> exists l, nth_error sm (N.to_nat t) = Some l /\ cset k sm t = l.
    Proof using HM HL AL.
      clear - HM HL AL.
      intros H. assert (T := tok_small _ _ H). destruct (tok_ord _ _ H) as (N1 & N2 & _).
      destruct (nth_error sm (N.to_nat t)) as [l|] eqn:E.
      - exists l. split; [auto|]. unfold cset.
        destruct (N.eqb_spec t (bol_tok k)); [congruence|]. destruct (N.eqb_spec t (eol_tok k)); [congruence|].
        cbn. now rewrite E.
      - apply nth_error_None in E. rewrite (al_sm _ _ _ _ AL) in E. lia.
    Qed.
    Lemma plain_leaf p t g f : V p -> nth_error s p = Some (PLeaf t g f) ->
      t <> gnpos k /\ (special k t \/ (exists l, nth_error sm (N.to_nat t) = Some l)) /\
      StronglySorted N.lt (cset k sm t) /\ cset k sm t <> [] /\
      (special k t \/ (forall c, In c (cset k sm t) -> (N.to_nat c + 7 < w)%nat)) /\
      Forall V f /\ Forall (fun q => rk q = rk p) f.
    Proof.
      intros Hp E. destruct (V_follow p t g f Hp E) as [F1 F2].
      destruct (V_tok p t g f Hp E) as [->|[->|(tk & Ht)]].
      - assert (EB : cset k sm (bol_tok k) = [bol_tok k]).
        { unfold cset. now rewrite N.eqb_refl. }
        rewrite EB. split; [unfold bol_tok; unfold eol_tok in HL; lia|].
        split; [left; left; auto|]. split; [repeat constructor|]. split; [discriminate|].
        split; [left; left; auto|]. auto.
      - assert (EB : cset k sm (eol_tok k) = [eol_tok k]).
        { unfold cset. now rewrite N.eqb_refl, orb_true_r. }
        rewrite EB. split; [unfold eol_tok in *; lia|].
        split; [left; right; auto|]. split; [repeat constructor|]. split; [discriminate|].
        split; [left; right; auto|]. auto.
      - destruct (cset_ord t tk Ht) as (l & El & Ec). rewrite Ec.
        destruct (tok_ord _ _ Ht) as (N1 & N2 & N3).
        split; [auto|]. split; [right; eauto|].
        split; [assert (S := al_sorted _ _ _ _ AL); rewrite Forall_forall in S; apply S;
                eapply nth_error_In; eauto|].
        split; [eapply (al_nonempty _ _ _ _ AL); eauto|].
        split; [|auto]. right. intros c Hc. assert (R := al_range _ _ _ _ AL _ _ _ El Hc). lia.
    Qed.
    Lemma gen_prune cr nl f f' : Forall V f -> pruned k s sm cr nl f f' ->
      f' = prf k s sm cr nl f /\ (forall x, In x (prf k s sm cr nl f) -> In x f) /\
      (rksorted rk f -> rksorted rk (prf k s sm cr nl f)) /\ Forall W (prf k s sm cr nl f).
    Proof.
      intros HV P. unfold prf. unfold pruned in P. rewrite P.
      apply prune_clashes_ok in P as [[SB _] SN]. split; [auto|]. split; [now apply subl_In|].
      split; [now apply subl_sorted|]. apply Forall_forall. intros p Hp.
      rewrite Forall_forall in HV. assert (Vp := HV p (subl_In _ _ SB p Hp)).
      split; [auto|]. intros t g f2 Es Et. apply In_nth_error in Hp as (j & Ej).
      destruct (SN j p ltac:(lia) Ej t g f2 Es) as [H|H].
      - subst t. unfold bol_tok, eol_tok in H. unfold eol_tok in HL. lia.
      - apply H. apply nth_error_None. rewrite (al_sm _ _ _ _ AL). subst t.
        unfold bol_tok. unfold eol_tok in HL. lia.
    Qed.
    (** Without end of line tokens nothing is pruned. *)
    Lemma plain_prune f : Forall W f ->
      (forall p t g f', V p -> nth_error s p = Some (PLeaf t g f') -> t <> eol_tok k) ->
      prune_clashes (S (length f)) k s sm (gnpos k) (gnpos k) f 0 = Ok f.
    Proof.
      intros H NE.
      assert (G : forall fuel i, (i <= length f < fuel + i)%nat ->
        prune_clashes fuel k s sm (gnpos k) (gnpos k) f i = Ok f).
      { induction fuel as [|fuel IH]; intros i Hi; cbn [prune_clashes].
        - lia.
        - destruct (nth_error f i) as [p|] eqn:E; [|auto].
          assert (i < length f)%nat by (apply nth_error_Some; congruence).
          rewrite Forall_forall in H. destruct (H p (nth_error_In _ _ E)) as [Vp Wp].
          assert (Lp := V_lt p Vp). unfold end_node, token_of.
          destruct (nth_error s p) as [[t g f'|e]|] eqn:Ep; [| |apply nth_error_None in Ep; lia].
          + cbn [bind].
            destruct (V_tok p t g f' Vp Ep) as [->|[->|(tk & Ht)]];
              [exfalso; eapply Wp; eauto|exfalso; eapply NE; eauto|].
            destruct (tok_ord _ _ Ht) as (N1 & N2 & N3).
            destruct (N.eqb_spec t (eol_tok k)); [congruence|].
            unfold prune_eol, token_of. rewrite Ep. cbn [bind].
            destruct (cset_ord t tk Ht) as (l & El & _). rewrite El.
            assert (X : existsb (N.eqb (gnpos k)) l = false).
            { apply not_true_is_false. rewrite existsb_exists. intros (y & Hy & Ey).
              apply N.eqb_eq in Ey. subst y. assert (R := al_range _ _ _ _ AL _ _ _ El Hy). lia. }
            rewrite X. cbn [bind fst snd]. apply IH. lia.
          + cbn [bind]. apply IH. lia. }
      apply G. lia.
    Qed.
  End Sm.

  Definition gen_inv (pf : list nat -> list nat) (sm : list (list N)) (w : nat) (d : dstate) (i : nat)
      : Prop :=
    inv k fl s sm w used V W rk pf (firstpos root) d i.
  Definition plain_inv (sm : list (list N)) (w : nat) (d : dstate) : Prop :=
    gen_inv (fun f => f) sm w d (length (d_seen d)).

  Definition gen_width (n : nat) (cr nl : N) : nat :=
    (n + 7 + (if ((cr =? gnpos k) && (nl =? gnpos k))%N then 0 else 1))%nat.

  Lemma first_of_ok lk sm n id : alphabet m lk sm n -> id = gnpos k \/ (exists tk, In (tk, id) m) ->
    exists c, (if id =? gnpos k then Ok id else first_of sm id) = Ok c /\ col_of k sm id c.
  Proof.
    intros AL [->|(tk & Hi)].
    - rewrite N.eqb_refl. exists (gnpos k). split; [auto|]. left. auto.
    - destruct (tok_ord _ _ Hi) as (_ & _ & Hne). destruct (N.eqb_spec id (gnpos k)); [congruence|].
      unfold first_of. destruct (nth_error sm (N.to_nat id)) as [l|] eqn:E.
      + assert (L := al_nonempty _ _ _ _ AL _ _ _ Hi E). destruct l as [|c l]; [congruence|].
        exists c. split; [auto|]. right. eauto.
      + apply nth_error_None in E. apply tok_small in Hi. rewrite (al_sm _ _ _ _ AL) in E. lia.
  Qed.

  (** The column of the zero byte; only needed for wide characters with end of
      line tokens. *)
  Definition zero_col (sm : list (list N)) (cr nl zero : N) : Prop :=
    if negb ((cr =? gnpos k) && (nl =? gnpos k)) && compressed k then
      exists i l, map_find [(0, 0)] m = Some i /\ nth_error sm (N.to_nat i) = Some (zero :: l)
    else zero = gnpos k.

  Theorem build_dfa_gen fuel cr nl : (2 ^ length s < fuel)%nat ->
    cr = gnpos k \/ (exists tk, In (tk, cr) m) -> nl = gnpos k \/ (exists tk, In (tk, nl) m) ->
    exists cl lk sm, partition_charsets m = Ok cl /\ alphabet m lk sm (length cl) /\ cs_ok cl /\
      (forall c, (exists x, In x cl /\ memb c (cs_token x) = true) <->
                 (exists t i, In (t, i) m /\ memb c t = true)) /\
      exists cr' nl', col_of k sm cr cr' /\ col_of k sm nl nl' /\
      let w := gen_width (length cl) cr' nl' in
      ((exists zero, zero_col sm cr nl zero /\
        ((gnpos k < N.of_nat w /\ build_dfa fuel k fl s root m cr nl used = Throw EOverflow) \/
         (N.of_nat w <= gnpos k /\
          jams k fl s sm cr' nl' w used V W rk (prf k s sm cr' nl') (firstpos root) /\
          forall o, build_dfa fuel k fl s root m cr nl used <> Ok o) \/
         (N.of_nat w <= gnpos k /\
          exists d, gen_inv (prf k s sm cr' nl') sm w d (length (d_seen d)) /\
           (forall i v c g f, nth_error (d_seen d) i = Some v -> tval k s sm v c = Some (g, f) ->
              prune_clashes (S (length f)) k s sm cr' nl' f 0 = Ok (prf k s sm cr' nl' f)) /\
           build_dfa fuel k fl s root m cr nl used =
            (do rows <- fix_clashes k w cr' nl' zero (d_eol d) 0 (d_rows d);
             Ok {| o_lookup := lk; o_width := N.of_nat w; o_rows := rows;
                   o_used := d_used d; o_classes := map cs_token cl |})))) \/
       ((forall zero, ~ zero_col sm cr nl zero) /\ forall o, build_dfa fuel k fl s root m cr nl used <> Ok o)).
  Proof.
    intros Hf Hcr Hnl. destruct (alphabet_ok m HM) as (cl & lk & sm & E1 & E2 & AL & OK & HE).
    exists cl, lk, sm. split; [auto|]. split; [auto|]. split; [auto|]. split; [auto|].
    destruct (first_of_ok lk sm (length cl) cr AL Hcr) as (cr' & Ecr & Ccr).
    destruct (first_of_ok lk sm (length cl) nl AL Hnl) as (nl' & Enl & Cnl).
    exists cr', nl'. split; [auto|]. split; [auto|]. intros w.
    unfold build_dfa. rewrite E1. cbn [bind]. rewrite E2. cbn [bind fst snd].
    rewrite Ecr. cbn [bind]. rewrite Enl. cbn [bind].
    assert (Z : (exists zero, zero_col sm cr nl zero /\
       (if negb ((cr =? gnpos k) && (nl =? gnpos k)) && compressed k then
                match map_find [(0, 0)] m with Some i => first_of sm i | None => UB end
              else Ok (gnpos k)) = Ok zero) \/
       ((forall zero, ~ zero_col sm cr nl zero) /\ forall z,
       (if negb ((cr =? gnpos k) && (nl =? gnpos k)) && compressed k then
                match map_find [(0, 0)] m with Some i => first_of sm i | None => UB end
              else Ok (gnpos k)) <> Ok z)).
    { unfold zero_col. destruct (negb _ && compressed k).
      - destruct (map_find [(0, 0)] m) as [i|].
        + unfold first_of. destruct (nth_error sm (N.to_nat i)) as [[|z l]|] eqn:En.
          * right. split; [|discriminate]. intros z (i' & l & [= <-] & E). congruence.
          * left. exists z. split; [|auto]. exists i, l. auto.
          * right. split; [|discriminate]. intros z (i' & l & [= <-] & E). congruence.
        + right. split; [|discriminate]. intros z (i' & l & E & _). discriminate.
      - left. exists (gnpos k). auto. }
    destruct Z as [(zero & HZ & EZ)|[HZ EZ]].
    2:{ right. split; [auto|]. intros o H.
        destruct (if negb _ && compressed k then _ else _) as [z| | |] eqn:X in H; try discriminate.
        eapply EZ; eauto. }
    left. exists zero. split; [auto|]. rewrite EZ. cbn [bind].
    change (length cl + N.to_nat ix_trans + (if ((cr' =? gnpos k) && (nl' =? gnpos k))%N then 0 else 1))%nat with w.
    assert (Hw7 : (length cl + 7 <= w)%nat) by (unfold w, gen_width; lia).
    destruct (N.ltb_spec (gnpos k) (N.of_nat w)) as [Hw|Hw]; [left; auto|]. right.
    destruct (init_ok k fl s sm cr' nl' w used V W rk (prf k s sm cr' nl'))
      with (v0 := firstpos root) as (d0 & E0 & I0 & L0); auto.
    { lia. }
    { intros p [H _]. auto. }
    { intros p t g f Hp Ep. eapply plain_leaf; eauto. }
    { intros f f' HV HP. apply gen_prune with (lk := lk) (n := length cl) (w := w); auto. }
    { intros p t g f [_ H]. apply H. }
    rewrite E0. cbn [bind snd].
    destruct (state_loop_ok k fl s sm cr' nl' w used V W rk (prf k s sm cr' nl'))
      with (v0 := firstpos root) (fuel := fuel) (d := d0) (index := O) as [[J NO]|(d & Ed & Id & _ & PR)]; auto.
    { lia. }
    { intros p [H _]. auto. }
    { intros p t g f Hp Ep. eapply plain_leaf; eauto. }
    { intros f f' HV HP. apply gen_prune with (lk := lk) (n := length cl) (w := w); auto. }
    { intros p t g f [_ H]. apply H. }
    { lia. }
    { lia. }
    - left. split; [auto|]. split; [auto|]. intros o H.
      destruct (state_loop fuel k fl s sm cr' nl' w 0 d0) as [d| | |] eqn:Ed; try discriminate.
      now apply (NO d).
    - right. split; [auto|]. exists d. split; [exact Id|]. split; [|rewrite Ed; reflexivity].
      intros i v c g f Ev T. destruct (PR i v c g f ltac:(lia) Ev T) as (f' & P). unfold pruned in P.
      unfold prf. now rewrite P.
  Qed.

  (** What is met on the way. *)
  Lemma tval_follow sm n w lk v c g f : alphabet m lk sm n -> (n + 7 <= w)%nat -> N.of_nat w <= gnpos k ->
    Forall V v -> rksorted rk v -> tval k s sm v c = Some (g, f) ->
    (exists p, In p v /\ rd k s sm p c) /\ (forall x, In x f <-> exists p, In p v /\ nx k s sm p c x).
  Proof.
    intros AL H1 H2 HV HS T.
    assert (TS := tval_spec k s sm w V W rk (fun f => f)
        (fun p t g f Hp Ep => plain_leaf lk sm n w AL H1 H2 p t g f Hp Ep) v c HV HS).
    rewrite T in TS. tauto.
  Qed.

  Theorem build_dfa_plain fuel : (2 ^ length s < fuel)%nat ->
    (forall p t g f, V p -> nth_error s p = Some (PLeaf t g f) -> t <> eol_tok k /\ Forall W f) ->
    exists cl lk sm, partition_charsets m = Ok cl /\ alphabet m lk sm (length cl) /\ cs_ok cl /\
      (forall c, (exists x, In x cl /\ memb c (cs_token x) = true) <->
                 (exists t i, In (t, i) m /\ memb c t = true)) /\
      ((gnpos k < N.of_nat (length cl + 7) ->
        build_dfa fuel k fl s root m (gnpos k) (gnpos k) used = Throw EOverflow) /\
       (N.of_nat (length cl + 7) <= gnpos k -> exists d,
        build_dfa fuel k fl s root m (gnpos k) (gnpos k) used =
          Ok {| o_lookup := lk; o_width := N.of_nat (length cl + 7); o_rows := d_rows d;
                o_used := d_used d; o_classes := map cs_token cl |} /\
        plain_inv sm (length cl + 7) d)).
  Proof.
    intros Hf HP.
    destruct (build_dfa_gen fuel (gnpos k) (gnpos k) Hf (or_introl eq_refl) (or_introl eq_refl))
      as (cl & lk & sm & E1 & AL & OK & HE & cr' & nl' & Ccr & Cnl & H).
    exists cl, lk, sm. split; [auto|]. split; [auto|]. split; [auto|]. split; [auto|].
    destruct Ccr as [[_ ->]|[? _]]; [|congruence]. destruct Cnl as [[_ ->]|[? _]]; [|congruence].
    unfold gen_width, zero_col in H. rewrite N.eqb_refl in H. cbn [andb negb] in H. rewrite Nat.add_0_r in H.
    destruct H as [(zero & -> & H)|[H _]]; [|exfalso; eapply H; eauto].
    destruct (N.ltb_spec (gnpos k) (N.of_nat (length cl + 7))) as [Hw|Hw].
    { split; [|lia]. intros _. destruct H as [[_ H]|[[? _]|[? _]]]; [auto|lia|lia]. }
    split; [lia|]. intros _. destruct H as [[? _]|[(_ & J & _)|(_ & d & I & _ & E)]]; [lia| |].
    - exfalso. destruct J as (d & i & v & c & g & f & I & Ev & T & Hc & ST).
      assert (B := i_b _ _ _ _ _ _ _ _ _ _ _ _ _ I).
      assert (HV := b_V _ _ _ _ _ _ _ B _ _ Ev). assert (HS := b_sorted _ _ _ _ _ _ _ B _ _ Ev).
      destruct (tval_follow sm (length cl) (length cl + 7) lk v c g f AL ltac:(lia) Hw HV HS T) as [_ HF].
      apply (ST f). apply (plain_prune lk sm (length cl) (length cl + 7)); auto.
      + apply Forall_forall. intros x Hx. apply HF in Hx as (p & Hp & t & g' & f' & Ep & _ & Hx).
        rewrite Forall_forall in HV. destruct (HP p t g' f' (HV p Hp) Ep) as [_ HW].
        rewrite Forall_forall in HW. auto.
      + intros p t g' f' Hp Ep. apply (HP p t g' f' Hp Ep).
    - exists d. assert (PI : plain_inv sm (length cl + 7) d).
      { unfold plain_inv, gen_inv. eapply inv_pf_ext; [exact I|]. intros i v c g f Ev Hc T.
        assert (B := i_b _ _ _ _ _ _ _ _ _ _ _ _ _ I).
        assert (HV := b_V _ _ _ _ _ _ _ B _ _ Ev). assert (HS := b_sorted _ _ _ _ _ _ _ B _ _ Ev).
        destruct (tval_follow sm (length cl) (length cl + 7) lk v c g f AL ltac:(lia) Hw HV HS T) as [_ HF].
        unfold prf. rewrite (plain_prune lk sm (length cl) (length cl + 7)); auto.
        + apply Forall_forall. intros x Hx. apply HF in Hx as (p & Hp & t & g' & f' & Ep & _ & Hx).
          rewrite Forall_forall in HV. destruct (HP p t g' f' (HV p Hp) Ep) as [_ HW].
          rewrite Forall_forall in HW. auto.
        + intros p t g' f' Hp Ep. apply (HP p t g' f' Hp Ep). }
      split; [|exact PI]. rewrite E.
      assert (EE : d_eol d = []).
      { destruct (d_eol d) as [|x l] eqn:El; [auto|]. exfalso.
        assert (X : In x (d_eol d)) by (rewrite El; left; auto).
        apply (i_eol _ _ _ _ _ _ _ _ _ _ _ _ _ I) in X as (i & v & _ & _ & Ev & T).
        apply T. clear T. assert (B := i_b _ _ _ _ _ _ _ _ _ _ _ _ _ I).
        assert (HV := b_V _ _ _ _ _ _ _ B _ _ Ev). assert (HS := b_sorted _ _ _ _ _ _ _ B _ _ Ev).
        unfold tgt. destruct (tval k s sm v (eol_tok k)) as [(g, f)|] eqn:T; [|reflexivity].
        destruct (tval_follow sm (length cl) (length cl + 7) lk v _ g f AL ltac:(lia) Hw HV HS T)
          as [(p & Hp & t & g' & f' & Ep & Hc) _].
        exfalso. rewrite Forall_forall in HV.
        destruct (V_tok p t g' f' (HV p Hp) Ep) as [->|[->|(tk & Ht)]].
        - unfold cset in Hc. rewrite N.eqb_refl in Hc. destruct Hc as [Hc|[]].
          unfold bol_tok, eol_tok in *. lia.
        - destruct (HP p (eol_tok k) g' f' (HV p Hp) Ep) as [HX _]. congruence.
        - destruct (cset_ord lk sm (length cl) AL t tk Ht) as (l' & El' & Ec). rewrite Ec in Hc.
          assert (R := al_range _ _ _ _ AL _ _ _ El' Hc). unfold eol_tok in *. lia. }
      rewrite EE. reflexivity.
  Qed.
End Plain.
