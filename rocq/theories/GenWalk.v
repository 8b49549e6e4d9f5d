(** Walks over the generated table follow the position automaton. *)
From Verif Require Import Base StringToken StringTokenSpec StringTokenProofs StateMachine Tree TreeSpec
  Partition PartitionProofs Generator GenMap GenDfa GenBuild Lookup TableSpec DfaSpec.
From Coq Require Import Sorted.
Local Open Scope N_scope.

Lemma concat_nth {A} (w : nat) (rows : list (list A)) : Forall (fun r => length r = w) rows ->
  forall i j, (j < w)%nat ->
  nth_error (concat rows) (i * w + j) =
  match nth_error rows i with Some r => nth_error r j | None => None end.
Proof.
  induction 1 as [|r rows Hr HF IH]; intros i j Hj; cbn [concat].
  - rewrite !(proj2 (nth_error_None _ _)) by (cbn; lia). destruct i; reflexivity.
  - destruct i as [|i].
    + cbn [nth_error]. rewrite nth_error_app1 by lia. f_equal; lia.
    + rewrite nth_error_app2 by lia. cbn [nth_error]. rewrite <- IH by auto. f_equal. lia.
Qed.
Lemma cell_at w t rows row col : Forall (fun r => length r = w) rows -> t_dfa t = concat rows ->
  t_width t = N.of_nat w -> col < N.of_nat w ->
  cell t row col = at_ rows (N.to_nat row) (N.to_nat col).
Proof.
  intros HF HD HW Hc. unfold cell, at_. rewrite HD, HW.
  replace (N.to_nat (row * N.of_nat w + col)) with (N.to_nat row * w + N.to_nat col)%nat by lia.
  apply concat_nth; auto. lia.
Qed.

(** ** Paths through positions *)
Section Path.
  Variables (k : gcfg) (m : charset_map) (s : store).
  Definition psem (p : nat) (a : sym) : Prop :=
    exists t g f, nth_error s p = Some (PLeaf t g f) /\ token_sem k m t a.
  Definition pfol (p x : nat) : Prop :=
    exists t g f, nth_error s p = Some (PLeaf t g f) /\ In x f.
  Fixpoint path (p : nat) (w : list sym) (q : nat) : Prop :=
    match w with
    | [] => p = q
    | a :: w' => psem p a /\ exists p', pfol p p' /\ path p' w' q
    end.
End Path.

Section Walk.
  Variables (k : gcfg) (fl : gflags) (s : store) (root : node) (m : charset_map) (used : list N).
  Variables (V : nat -> Prop) (rk : nat -> nat).
  Let W := nobol k s V.
  Hypothesis HM : map_wf m.
  Hypothesis HL : N.of_nat (length m) < eol_tok k.
  Hypothesis V_lt : forall p, V p -> (p < length s)%nat.
  Hypothesis V_tok : forall p t g f, V p -> nth_error s p = Some (PLeaf t g f) ->
    t = bol_tok k \/ t = eol_tok k \/ exists tk, In (tk, t) m.
  Hypothesis V_follow : forall p t g f, V p -> nth_error s p = Some (PLeaf t g f) ->
    Forall V f /\ Forall (fun q => rk q = rk p) f.
  Hypothesis end_inj : forall p q e e', V p -> V q ->
    nth_error s p = Some (PEnd e) -> nth_error s q = Some (PEnd e') -> rk p = rk q -> p = q.
  Hypothesis root_ne : firstpos root <> [].
  Hypothesis root_V : Forall V (firstpos root).
  Hypothesis root_sorted : rksorted rk (firstpos root).
  Variables (lk : list N) (sm : list (list N)) (n w : nat) (d : dstate).
  Hypothesis AL : alphabet m lk sm n.
  Hypothesis Hnw : (n + 7 <= w)%nat.
  Hypothesis Hn : N.of_nat w <= gnpos k.
  Hypothesis PI : plain_inv k fl s root used V rk sm w d.

  Let t := {| t_lookup := lk; t_width := N.of_nat w; t_dfa := concat (d_rows d) |}.

  Let B := i_b _ _ _ _ _ _ _ _ _ _ _ _ _ PI.
  Lemma cell_d row col : col < N.of_nat w ->
    cell t row col = at_ (d_rows d) (N.to_nat row) (N.to_nat col).
  Proof. apply cell_at; [apply (b_shape _ _ _ _ _ _ _ B)|reflexivity|reflexivity]. Qed.

  Lemma cset_ord' tk tt : In (tt, tk) m ->
    exists l, nth_error sm (N.to_nat tk) = Some l /\ cset k sm tk = l.
  Proof. intros H. eapply cset_ord with (m := m) (lk := lk) (n := n); eauto. Qed.

  (** A byte read by a position, through the column. *)
  Lemma psem_byte p b col : V p -> b < 256 -> column t b = Some col ->
    (psem k m s p (SByte b) <-> exists c, col = c + 7 /\ rd k s sm p c).
  Proof.
    intros Hp Hb Hc. unfold column in Hc. cbn [t_lookup t] in Hc. split.
    - intros (tk & g & f & E & (tt & Ht & Hm)).
      destruct (cset_ord' tk tt Ht) as (l & El & Ec).
      apply memb_mem in Hm.
      destruct (proj1 (al_mem _ _ _ _ AL _ _ _ _ _ Ht El Hb Hc) Hm) as (x & Hx & ->).
      exists x. split; [reflexivity|]. exists tk, g, f. split; [auto|]. now rewrite Ec.
    - intros (c & -> & (tk & g & f & E & Hi)). exists tk, g, f. split; [auto|]. cbn.
      destruct (V_tok p tk g f Hp E) as [->|[->|(tt & Ht)]].
      + unfold cset in Hi. rewrite N.eqb_refl in Hi. destruct Hi as [<-|[]]. exfalso.
        destruct (al_col _ _ _ _ AL b Hb) as (col & Ecol & HC). rewrite Hc in Ecol.
        injection Ecol as <-. unfold bol_tok, ix_dead, ix_trans in *.
        destruct HC as [HC|(x & Hx & HC)]; lia.
      + unfold cset in Hi. rewrite N.eqb_refl, orb_true_r in Hi. destruct Hi as [<-|[]]. exfalso.
        destruct (al_col _ _ _ _ AL b Hb) as (col & Ecol & HC). rewrite Hc in Ecol.
        injection Ecol as <-. unfold eol_tok, ix_dead, ix_trans in *.
        destruct HC as [HC|(x & Hx & HC)]; lia.
      + destruct (cset_ord' tk tt Ht) as (l & El & Ec). rewrite Ec in Hi.
        exists tt. split; [auto|]. apply memb_mem.
        apply (al_mem _ _ _ _ AL _ _ _ _ _ Ht El Hb Hc). eauto.
  Qed.

  (** The set of positions after one symbol. *)
  Definition next_set (v : list nat) (a : sym) (x : nat) : Prop :=
    exists p, In p v /\ psem k m s p a /\ pfol s p x.

  Lemma V_leaf' p tk g f : V p -> nth_error s p = Some (PLeaf tk g f) ->
      tk <> gnpos k /\ (special k tk \/ (exists l, nth_error sm (N.to_nat tk) = Some l)) /\
      StronglySorted N.lt (cset k sm tk) /\ cset k sm tk <> [] /\
      (special k tk \/ (forall c, In c (cset k sm tk) -> (N.to_nat c + 7 < w)%nat)) /\
      Forall V f /\ Forall (fun q => rk q = rk p) f.
  Proof. intros. eapply plain_leaf; eauto. Qed.

  Lemma nx_char p c x : nx k s sm p c x <-> rd k s sm p c /\ pfol s p x.
  Proof.
    split.
    - intros (tk & g & f & E & H1 & H2). split; exists tk, g, f; auto.
    - intros [(tk & g & f & E & H1) (tk' & g' & f' & E' & H2)].
      rewrite E in E'. injection E' as <- <- <-. exists tk, g, f. auto.
  Qed.

  (** Transitions on byte [b] out of state [i]. *)
  Lemma step_byte i v b col : nth_error (d_seen d) i = Some v -> b < 256 -> column t b = Some col ->
    (forall x, cell t (N.of_nat (S i)) col = Some x -> x <> 0 ->
       exists i' v', x = N.of_nat (S i') /\ nth_error (d_seen d) i' = Some v' /\
         forall q, In q v' <-> next_set v (SByte b) q) /\
    (exists x, cell t (N.of_nat (S i)) col = Some x) /\
    (cell t (N.of_nat (S i)) col = Some 0 ->
       (forall q, ~ next_set v (SByte b) q) \/
       exists g f, tval k s sm v (col - 7) = Some (g, f) /\ 7 <= col /\ f <> [] /\
                   abstains (cell0 s v) g = true).
  Proof.
    intros Ev Hb Hc. assert (Hv := b_V _ _ _ _ _ _ _ B _ _ Ev). assert (Hs := b_sorted _ _ _ _ _ _ _ B _ _ Ev).
    assert (Hv' := Hv). rewrite Forall_forall in Hv'.
    destruct (al_col _ _ _ _ AL b Hb) as (col' & Ecol & HC).
    assert (Hi : (i < length (d_seen d))%nat) by (apply nth_error_Some; congruence).
    unfold column in Hc. cbn [t_lookup t] in Hc. rewrite Hc in Ecol. injection Ecol as <-.
    assert (Ccol : cell t (N.of_nat (S i)) col = at_ (d_rows d) (S i) (N.to_nat col)).
    { rewrite cell_d; [now rewrite Nat2N.id|]. unfold ix_dead, ix_trans in HC.
      destruct HC as [->|(x & Hx & ->)]; lia. }
    rewrite Ccol. destruct HC as [->|(c & Hcn & ->)].
    - rewrite (b_dead _ _ _ _ _ _ _ B) by lia. split; [|split].
      + intros x E Hx. injection E as <-. congruence.
      + eauto.
      + intros _. left. intros q (p & Hp & Hr & _).
        apply (psem_byte p b ix_dead) in Hr as (c & E & _); auto. unfold ix_dead in E. lia.
    - assert (Hal : allowed k w c) by (right; lia).
      assert (Hnb : c <> bol_tok k /\ c <> eol_tok k).
      { unfold bol_tok, eol_tok. lia. }
      assert (D := i_done _ _ _ _ _ _ _ _ _ _ _ _ _ PI i v c Hi Ev Hal (proj1 Hnb)).
      unfold loc in D. destruct (N.eqb_spec c (bol_tok k)); [tauto|].
      destruct (N.eqb_spec c (eol_tok k)); [tauto|]. unfold at2 in D. cbn [fst snd] in D.
      replace (N.to_nat (c + ix_trans)) with (N.to_nat c + 7)%nat by (unfold ix_trans; lia).
      assert (T := tval_spec k s sm w V W rk (fun f => f) V_leaf' v c Hv Hs).
      assert (NS : forall q, next_set v (SByte b) q <-> exists p, In p v /\ nx k s sm p c q).
      { intros q. unfold next_set. split; intros (p & Hp & H).
        - destruct H as [H1 H2]. exists p. split; [auto|]. apply nx_char. split; [|auto].
          apply (psem_byte p b (c + ix_trans)) in H1 as (c' & E & H1); auto.
          replace c with c' by (unfold ix_trans in E; lia). auto.
        - exists p. split; [auto|]. apply nx_char in H as [H1 H2]. split; [|auto].
          apply (psem_byte p b (c + ix_trans)); auto. exists c. split; [reflexivity|auto]. }
      unfold tgt, otgt in D. replace (c + ix_trans - 7) with c by (unfold ix_trans; lia).
      destruct (tval k s sm v c) as [(g, f)|].
      + destruct T as (_ & _ & _ & T & _).
        assert (Tf : forall q, In q f <-> next_set v (SByte b) q).
        { intros q. now rewrite T, NS. }
        destruct f as [|f0 f'].
        * cbn [cell_ok] in D. rewrite D. split; [|split].
          -- intros x E Hx. injection E as <-. congruence.
          -- eauto.
          -- intros _. left. intros q Hq. apply Tf in Hq. destruct Hq.
        * destruct (abstains (cell0 s v) g) eqn:Eab.
          -- cbn [cell_ok] in D. rewrite D. split; [|split].
             ++ intros x E Hx. injection E as <-. congruence.
             ++ eauto.
             ++ intros _. right. exists g, (f0 :: f'). split; [auto|]. split; [unfold ix_trans; lia|].
                split; [discriminate|auto].
          -- cbn [cell_ok] in D. destruct D as (i' & v1 & D1 & D2 & D3). rewrite D1. split; [|split].
             ++ intros x E Hx. injection E as <-. exists i', v1. split; [auto|]. split; [auto|].
                intros q. now rewrite (D3 q), Tf.
             ++ eauto.
             ++ intros E. injection E as E. lia.
      + cbn [cell_ok] in D. rewrite D. split; [|split].
        * intros x E Hx. injection E as <-. congruence.
        * eauto.
        * intros _. left. intros q Hq. apply NS in Hq as (p & Hp & H). apply nx_char in H as [H _].
          eapply T; eauto.
  Qed.

  (** ** Whole walks *)
  Definition byte_word (bs : list N) : list sym := map SByte bs.
  (** States are reached exactly by paths, as long as no transition is dropped. *)
  Definition no_abstain : Prop := forall i v c g f, nth_error (d_seen d) i = Some v ->
    tval k s sm v c = Some (g, f) -> abstains (cell0 s v) g = false.

  Lemma walk_sound bs : Forall (fun b => b < 256) bs -> forall i v row,
    nth_error (d_seen d) i = Some v -> walk t (N.of_nat (S i)) bs row ->
    exists i' v', row = N.of_nat (S i') /\ nth_error (d_seen d) i' = Some v' /\
      (forall q, In q v' <-> exists p, In p v /\ path k m s p (byte_word bs) q).
  Proof.
    induction 1 as [|b bs Hb Hbs IH]; intros i v row Ev Hw; inversion Hw as [|? ? col row1 ? ? H1 H2 H3 H6]; subst.
    - exists i, v. split; [auto|]. split; [auto|]. intros q. cbn. split; [eauto|].
      intros (p & Hp & ->). auto.
    - destruct (step_byte i v b col Ev Hb H1) as (S1 & _ & _).
      destruct (S1 row1 H2 H3) as (i1 & v1 & -> & Ev1 & Hv1).
      destruct (IH i1 v1 row Ev1 H6) as (i' & v' & -> & Ev' & Hv').
      exists i', v'. split; [auto|]. split; [auto|]. intros q. rewrite Hv'. cbn [byte_word map path]. split.
      + intros (p & Hp & P). apply Hv1 in Hp as (p0 & Hp0 & Hr & Hf).
        exists p0. split; [auto|]. split; [auto|]. exists p. auto.
      + intros (p0 & Hp0 & Hr & p & Hf & P). exists p. split; [|auto]. apply Hv1. exists p0. auto.
  Qed.
  Lemma walk_complete bs : no_abstain -> Forall (fun b => b < 256) bs -> forall i v p q,
    nth_error (d_seen d) i = Some v -> In p v -> path k m s p (byte_word bs) q ->
    exists row, walk t (N.of_nat (S i)) bs row.
  Proof.
    intros NA. induction 1 as [|b bs Hb Hbs IH]; intros i v p q Ev Hp P.
    - eexists. constructor.
    - cbn [byte_word map path] in P. destruct P as (Hr & p1 & Hf & P).
      destruct (al_col _ _ _ _ AL b Hb) as (col & Ecol & _).
      assert (Hc : column t b = Some col) by exact Ecol.
      destruct (step_byte i v b col Ev Hb Hc) as (S1 & (x & Ex) & S3).
      destruct (N.eq_dec x 0) as [->|Hx].
      + exfalso. destruct (S3 Ex) as [H|(g & f & T & _ & _ & A)].
        * apply (H p1). exists p. auto.
        * rewrite (NA i v _ g f Ev T) in A. discriminate.
      + destruct (S1 x Ex Hx) as (i1 & v1 & -> & Ev1 & Hv1).
        destruct (IH i1 v1 p1 q Ev1) as (row & Hw); auto.
        { apply Hv1. exists p. auto. }
        exists row. econstructor; eauto.
  Qed.

  (** The start rows. *)
  Lemma start_1 : exists v, nth_error (d_seen d) 0 = Some v /\ seteq v (firstpos root).
  Proof. apply (i_start _ _ _ _ _ _ _ _ _ _ _ _ _ PI). Qed.

  Lemma rd_bol p : V p -> (rd k s sm p (bol_tok k) <-> psem k m s p SBol).
  Proof.
    intros Hp. split.
    - intros (tk & g & f & E & Hi). exists tk, g, f. split; [auto|]. cbn.
      destruct (V_leaf' p tk g f Hp E) as (_ & _ & _ & _ & H & _).
      destruct H as [[->| ->]|H]; [auto| |].
      + unfold cset in Hi. rewrite N.eqb_refl, orb_true_r in Hi. destruct Hi as [Hi|[]]. auto.
      + apply H in Hi. unfold bol_tok in Hi. lia.
    - intros (tk & g & f & E & ->). exists (bol_tok k), g, f. split; [auto|].
      unfold cset. rewrite N.eqb_refl. left; auto.
  Qed.

  Lemma start_bol v : nth_error (d_seen d) 0 = Some v ->
    (exists b, cell t 0 0 = Some b) /\
    (forall b, cell t 0 0 = Some b -> b <> 0 ->
       exists i' v', b = N.of_nat (S i') /\ nth_error (d_seen d) i' = Some v' /\
         forall q, In q v' <-> next_set v SBol q) /\
    (cell t 0 0 = Some 0 -> (forall q, ~ next_set v SBol q) \/
       exists g f, tval k s sm v (bol_tok k) = Some (g, f) /\ abstains (cell0 s v) g = true).
  Proof.
    intros Ev. assert (Hv := b_V _ _ _ _ _ _ _ B _ _ Ev). assert (Hs := b_sorted _ _ _ _ _ _ _ B _ _ Ev).
    assert (Hv' := Hv). rewrite Forall_forall in Hv'.
    assert (Hi : (0 < length (d_seen d))%nat) by (apply nth_error_Some; congruence).
    assert (D := i_bol _ _ _ _ _ _ _ _ _ _ _ _ _ PI v Hi Ev). unfold at2 in D. cbn [fst snd] in D.
    rewrite cell_d by lia. cbn [N.to_nat].
    assert (T := tval_spec k s sm w V W rk (fun f => f) V_leaf' v (bol_tok k) Hv Hs).
    assert (NS : forall q, next_set v SBol q <-> exists p, In p v /\ nx k s sm p (bol_tok k) q).
    { intros q. unfold next_set. split; intros (p & Hp & H).
      - destruct H as [H1 H2]. exists p. split; [auto|]. apply nx_char. split; [|auto]. apply rd_bol; auto.
      - exists p. split; [auto|]. apply nx_char in H as [H1 H2]. split; [|auto]. apply rd_bol; auto. }
    unfold tgt, otgt in D.
    destruct (tval k s sm v (bol_tok k)) as [(g, f)|] eqn:TV.
    - destruct T as (_ & _ & _ & T & _).
      assert (Tf : forall q, In q f <-> next_set v SBol q) by (intros q; now rewrite T, NS).
      destruct f as [|f0 f'].
      + cbn [cell_ok] in D. rewrite D. split; [eauto|]. split.
        * intros x E Hx. injection E as <-. congruence.
        * intros _. left. intros q Hq. apply Tf in Hq. destruct Hq.
      + destruct (abstains (cell0 s v) g) eqn:Eab.
        * cbn [cell_ok] in D. rewrite D. split; [eauto|]. split.
          -- intros x E Hx. injection E as <-. congruence.
          -- intros _. right. eauto.
        * cbn [cell_ok] in D. destruct D as (i' & v1 & D1 & D2 & D3). rewrite D1. split; [eauto|]. split.
          -- intros x E Hx. injection E as <-. exists i', v1. split; [auto|]. split; [auto|].
             intros q. now rewrite (D3 q), Tf.
          -- intros E. injection E as E. lia.
    - cbn [cell_ok] in D. rewrite D. split; [eauto|]. split.
      + intros x E Hx. injection E as <-. congruence.
      + intros _. left. intros q Hq. apply NS in Hq as (p & Hp & H). apply nx_char in H as [H _]. eapply T; eauto.
  Qed.

  (** End of line transitions. *)
  Lemma rd_eol p : V p -> (rd k s sm p (eol_tok k) <-> psem k m s p SEol).
  Proof.
    intros Hp. split.
    - intros (tk & g & f & E & Hi). exists tk, g, f. split; [auto|]. cbn.
      destruct (V_leaf' p tk g f Hp E) as (_ & _ & _ & _ & H & _).
      destruct H as [[->| ->]|H]; [|auto|].
      + unfold cset in Hi. rewrite N.eqb_refl in Hi. destruct Hi as [Hi|[]]. auto.
      + apply H in Hi. unfold eol_tok in *. lia.
    - intros (tk & g & f & E & ->). exists (eol_tok k), g, f. split; [auto|].
      unfold cset. rewrite N.eqb_refl, orb_true_r. left; auto.
  Qed.
  Lemma step_eol i v : nth_error (d_seen d) i = Some v ->
    (exists b, cell t (N.of_nat (S i)) ix_eol = Some b) /\
    (forall b, cell t (N.of_nat (S i)) ix_eol = Some b -> b <> 0 ->
       exists i' v', b = N.of_nat (S i') /\ nth_error (d_seen d) i' = Some v' /\
         forall q, In q v' <-> next_set v SEol q) /\
    (cell t (N.of_nat (S i)) ix_eol = Some 0 -> (forall q, ~ next_set v SEol q) \/
       exists g f, tval k s sm v (eol_tok k) = Some (g, f) /\ abstains (cell0 s v) g = true).
  Proof.
    intros Ev. assert (Hv := b_V _ _ _ _ _ _ _ B _ _ Ev). assert (Hs := b_sorted _ _ _ _ _ _ _ B _ _ Ev).
    assert (Hv' := Hv). rewrite Forall_forall in Hv'.
    assert (Hi : (i < length (d_seen d))%nat) by (apply nth_error_Some; congruence).
    assert (D := i_done _ _ _ _ _ _ _ _ _ _ _ _ _ PI i v (eol_tok k) Hi Ev (or_introl (or_intror eq_refl))).
    assert (NE : eol_tok k <> bol_tok k) by (unfold eol_tok, bol_tok in *; lia).
    specialize (D NE). unfold loc in D. destruct (N.eqb_spec (eol_tok k) (bol_tok k)); [congruence|].
    rewrite N.eqb_refl in D. unfold at2 in D. cbn [fst snd] in D.
    rewrite cell_d by (unfold ix_eol; lia). rewrite Nat2N.id. change (N.to_nat ix_eol) with 5%nat.
    assert (T := tval_spec k s sm w V W rk (fun f => f) V_leaf' v (eol_tok k) Hv Hs).
    assert (NS : forall q, next_set v SEol q <-> exists p, In p v /\ nx k s sm p (eol_tok k) q).
    { intros q. unfold next_set. split; intros (p & Hp & H).
      - destruct H as [H1 H2]. exists p. split; [auto|]. apply nx_char. split; [|auto]. apply rd_eol; auto.
      - exists p. split; [auto|]. apply nx_char in H as [H1 H2]. split; [|auto]. apply rd_eol; auto. }
    unfold tgt, otgt in D.
    destruct (tval k s sm v (eol_tok k)) as [(g, f)|] eqn:TV.
    - destruct T as (_ & _ & _ & T & _).
      assert (Tf : forall q, In q f <-> next_set v SEol q) by (intros q; now rewrite T, NS).
      destruct f as [|f0 f'].
      + cbn [cell_ok] in D. rewrite D. split; [eauto|]. split.
        * intros x E Hx. injection E as <-. congruence.
        * intros _. left. intros q Hq. apply Tf in Hq. destruct Hq.
      + destruct (abstains (cell0 s v) g) eqn:Eab.
        * cbn [cell_ok] in D. rewrite D. split; [eauto|]. split.
          -- intros x E Hx. injection E as <-. congruence.
          -- intros _. right. eauto.
        * cbn [cell_ok] in D. destruct D as (i' & v1 & D1 & D2 & D3). rewrite D1. split; [eauto|]. split.
          -- intros x E Hx. injection E as <-. exists i', v1. split; [auto|]. split; [auto|].
             intros q. now rewrite (D3 q), Tf.
          -- intros E. injection E as E. lia.
    - cbn [cell_ok] in D. rewrite D. split; [eauto|]. split.
      + intros x E Hx. injection E as <-. congruence.
      + intros _. left. intros q Hq. apply NS in Hq as (p & Hp & H). apply nx_char in H as [H _]. eapply T; eauto.
  Qed.

  Lemma swalk_sound u : Forall line_sym u -> forall i v row,
    nth_error (d_seen d) i = Some v -> swalk t (N.of_nat (S i)) u row ->
    exists i' v', row = N.of_nat (S i') /\ nth_error (d_seen d) i' = Some v' /\
      (forall q, In q v' <-> exists p, In p v /\ path k m s p u q).
  Proof.
    induction 1 as [|a u Ha Hu IH]; intros i v row Ev Hw.
    - inversion Hw; subst. exists i, v. split; [auto|]. split; [auto|]. intros q. cbn. split; [eauto|].
      intros (p & Hp & ->). auto.
    - assert (ST : exists i1 v1, nth_error (d_seen d) i1 = Some v1 /\
        (forall q, In q v1 <-> next_set v a q) /\ swalk t (N.of_nat (S i1)) u row).
      { inversion Hw as [|? b col row1 ? ? H1 H2 H3 H4|? row1 ? ? H2 H3 H4]; subst.
        - destruct (step_byte i v b col Ev Ha H1) as (S1 & _ & _).
          destruct (S1 row1 H2 H3) as (i1 & v1 & -> & Ev1 & Hv1). eauto.
        - destruct (step_eol i v Ev) as (_ & S1 & _).
          destruct (S1 row1 H2 H3) as (i1 & v1 & -> & Ev1 & Hv1). eauto. }
      destruct ST as (i1 & v1 & Ev1 & Hv1 & H6).
      destruct (IH i1 v1 row Ev1 H6) as (i' & v' & -> & Ev' & Hv').
      exists i', v'. split; [auto|]. split; [auto|]. intros q. rewrite Hv'. cbn [path]. split.
      + intros (p & Hp & P). apply Hv1 in Hp as (p0 & Hp0 & Hr & Hf).
        exists p0. split; [auto|]. split; [auto|]. exists p. auto.
      + intros (p0 & Hp0 & Hr & p & Hf & P). exists p. split; [|auto]. apply Hv1. exists p0. auto.
  Qed.
  Lemma swalk_complete u : no_abstain -> Forall line_sym u -> forall i v p q,
    nth_error (d_seen d) i = Some v -> In p v -> path k m s p u q ->
    exists row, swalk t (N.of_nat (S i)) u row.
  Proof.
    intros NA. induction 1 as [|a u Ha Hu IH]; intros i v p q Ev Hp P.
    - eexists. constructor.
    - cbn [path] in P. destruct P as (Hr & p1 & Hf & P). destruct a as [b| |]; [|destruct Ha|].
      + destruct (al_col _ _ _ _ AL b Ha) as (col & Ecol & _).
        assert (Hc : column t b = Some col) by exact Ecol.
        destruct (step_byte i v b col Ev Ha Hc) as (S1 & (x & Ex) & S3).
        destruct (N.eq_dec x 0) as [->|Hx].
        * exfalso. destruct (S3 Ex) as [H|(g & f & T & _ & _ & A)].
          -- apply (H p1). exists p. auto.
          -- rewrite (NA i v _ g f Ev T) in A. discriminate.
        * destruct (S1 x Ex Hx) as (i1 & v1 & -> & Ev1 & Hv1).
          destruct (IH i1 v1 p1 q Ev1) as (row & Hw); auto.
          { apply Hv1. exists p. auto. }
          exists row. eapply sw_byte; eauto.
      + destruct (step_eol i v Ev) as ((x & Ex) & S1 & S3).
        destruct (N.eq_dec x 0) as [->|Hx].
        * exfalso. destruct (S3 Ex) as [H|(g & f & T & A)].
          -- apply (H p1). exists p. auto.
          -- rewrite (NA i v _ g f Ev T) in A. discriminate.
        * destruct (S1 x Ex Hx) as (i1 & v1 & -> & Ev1 & Hv1).
          destruct (IH i1 v1 p1 q Ev1) as (row & Hw); auto.
          { apply Hv1. exists p. auto. }
          exists row. eapply sw_eol; eauto.
  Qed.

  (** Accepting rows. *)
  Lemma end_bits_pos e : end_bits e <> 0.
  Proof.
    unfold end_bits. destruct (greedyb (e_greedy e)), (e_pop e); discriminate.
  Qed.
  Lemma row_accepts i v : nth_error (d_seen d) i = Some v ->
    match first_end s v with
    | None => cell t (N.of_nat (S i)) ix_end = Some 0 /\ ~ accepting t (N.of_nat (S i))
    | Some e => row_data t (N.of_nat (S i)) e
    end.
  Proof.
    intros Ev. assert (I := b_info _ _ _ _ _ _ _ B i v).
    assert (C : forall j, (j < 5)%nat -> cell t (N.of_nat (S i)) (N.of_nat j) =
      nth_error (fresh_row w (first_end s v)) j).
    { intros j Hj. rewrite cell_d by lia. rewrite !Nat2N.id. apply I; auto. }
    destruct (first_end s v) as [e|].
    - split; [apply (C 0%nat); lia|]. split; [apply (C 1%nat); lia|]. split; [apply (C 2%nat); lia|].
      split; [apply (C 3%nat); lia|apply (C 4%nat); lia].
    - assert (X : cell t (N.of_nat (S i)) ix_end = Some 0).
      { change ix_end with (N.of_nat 0). rewrite (C 0%nat) by lia. cbn [fresh_row].
        apply nth_repeat_lt. lia. }
      split; [auto|]. intros (e & E & He). congruence.
  Qed.
  Lemma row_data_accepts row e : row_data t row e -> accepting t row.
  Proof. intros (H & _). exists (end_bits e). split; [auto|apply end_bits_pos]. Qed.
End Walk.
