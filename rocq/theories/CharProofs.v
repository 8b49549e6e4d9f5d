(** Proofs about the conversion to a character based machine. *)
From Verif Require Import Base StateMachine StringToken StringTokenSpec StringTokenProofs Lookup TableSpec
  LookupProofs LookupSpec Minimise MinimiseProofs CharMachine.
Local Open Scope N_scope.

(** The character based machine can go from state [s] to state [q] by [c]. *)
Definition cmoves (s : cstate) (c q : N) : Prop :=
  exists tok, In (q, tok) (cs_trans s) /\ mem c tok.

(** ** Maps *)
Definition tmem (l : list (N * stoken)) (q c : N) : Prop := exists tok, In (q, tok) l /\ mem c tok.
Fixpoint map_wf (lo : N) (l : list (N * stoken)) : Prop :=
  match l with
  | [] => True
  | (q, tok) :: l' => lo <= q /\ wf tok /\ map_wf (q + 1) l'
  end.
Lemma map_wf_le lo lo' l : lo' <= lo -> map_wf lo l -> map_wf lo' l.
Proof. destruct l as [|[q t] l]; cbn; auto. intros; intuition lia. Qed.
Lemma tmem_nil q c : tmem [] q c <-> False.
Proof. unfold tmem; cbn; firstorder. Qed.
Lemma tmem_cons q t l p c : tmem ((q, t) :: l) p c <-> (p = q /\ mem c t) \/ tmem l p c.
Proof.
  unfold tmem; cbn; split.
  - intros (tok & [E|H] & M); [injection E as -> ->; auto|right; eauto].
  - intros [(-> & M)|(tok & H & M)]; eauto.
Qed.
Lemma madd_ok q tok l : forall lo, lo <= q -> wf tok -> map_wf lo l ->
  map_wf lo (madd q tok l) /\ forall p c, tmem (madd q tok l) p c <-> tmem l p c \/ (p = q /\ mem c tok).
Proof.
  induction l as [|[p u] l IH]; intros lo Hlo Ht Hl; cbn [madd].
  - cbn [map_wf]. split; auto. intros. rewrite tmem_cons, tmem_nil. tauto.
  - cbn [map_wf] in Hl. destruct Hl as (L1 & L2 & L3).
    destruct (N.ltb_spec q p) as [H|H].
    + cbn [map_wf]. split; [repeat split; auto; lia|]. intros. rewrite !tmem_cons. tauto.
    + destruct (N.eqb_spec q p) as [->|E].
      * destruct (insert_token_correct u tok L2 Ht) as (W & M). cbn [map_wf]. split; [auto|].
        intros x c. rewrite !tmem_cons, M. tauto.
      * destruct (IH (p + 1)) as (I1 & I2); auto; [lia|]. cbn [map_wf]. split; [auto|].
        intros x c. rewrite !tmem_cons, I2. tauto.
Qed.

(** ** The classes of the columns *)
Lemma column_tokens_ok lk : forall c tv,
  Forall (fun v => v < ix_trans + N.of_nat (length tv)) lk -> Forall wf tv ->
  exists tv', column_tokens c lk tv = Some tv' /\ length tv' = length tv /\ Forall wf tv' /\
    forall j tok', nth_error tv' j = Some tok' -> exists tok, nth_error tv j = Some tok /\
      forall x, mem x tok' <-> mem x tok \/ (c <= x /\ nth_error lk (N.to_nat (x - c)) = Some (N.of_nat j + ix_trans)).
Proof.
  induction lk as [|v lk IH]; intros c tv Hl Hw; cbn [column_tokens].
  - exists tv. split; auto. split; auto. split; auto. intros j tok' Hj. exists tok'. split; auto.
    intros x. split; auto. intros [H|(_ & H)]; auto. destruct (N.to_nat (x - c)); discriminate.
  - inversion Hl as [|? ? Hv Hl']; subst.
    assert (SH : forall x j, c <= x -> nth_error (v :: lk) (N.to_nat (x - c)) = Some j <->
       (x = c /\ v = j) \/ (c + 1 <= x /\ nth_error lk (N.to_nat (x - (c + 1))) = Some j)).
    { intros x j Hx. destruct (N.eq_dec x c) as [->|E].
      - rewrite N.sub_diag. cbn. split; [intros [= ->]; auto|]. intros [(_ & ->)|(H & _)]; [auto|lia].
      - replace (N.to_nat (x - c)) with (S (N.to_nat (x - (c + 1)))) by lia. cbn [nth_error].
        split; [intros H; right; split; [lia|auto]|]. intros [(H & _)|(_ & H)]; [lia|auto]. }
    destruct (N.ltb_spec v ix_trans) as [Hs|Hs].
    + destruct (IH (c + 1) tv Hl' Hw) as (tv' & E & L & W & M). exists tv'. split; auto. split; auto. split; auto.
      intros j tok' Hj. destruct (M j tok' Hj) as (tok & T1 & T2). exists tok. split; auto.
      intros x. rewrite T2. split.
      * intros [H|(Hx & H)]; auto. right. split; [lia|]. apply SH; [lia|]. auto.
      * intros [H|(Hx & H)]; auto. apply SH in H; [|lia]. destruct H as [(-> & ->)|(H1 & H2)]; auto.
        unfold ix_trans in *. lia.
    + destruct (nth_error tv (N.to_nat (v - ix_trans))) as [tok0|] eqn:E0.
      2:{ apply nth_error_None in E0. unfold ix_trans in *. lia. }
      assert (W0 : wf tok0) by (rewrite Forall_forall in Hw; apply Hw; eapply nth_error_In; eauto).
      destruct (insert_correct tok0 (c, c) W0 (N.le_refl c)) as (W1 & M1). cbn [fst snd] in M1.
      assert (Hlt : (N.to_nat (v - ix_trans) < length tv)%nat) by (apply nth_error_Some; congruence).
      destruct (IH (c + 1) (upd tv (N.to_nat (v - ix_trans)) (insert tok0 (c, c)))) as (tv' & E & L & W & M).
      { rewrite upd_length. auto. }
      { apply Forall_forall. intros y Hy. apply In_nth_error in Hy as (i & Hi).
        destruct (Nat.eq_dec (N.to_nat (v - ix_trans)) i) as [<-|Ni].
        - rewrite nth_error_upd_eq in Hi by auto. injection Hi as <-. auto.
        - rewrite nth_error_upd_neq in Hi by auto. rewrite Forall_forall in Hw. apply Hw. eapply nth_error_In; eauto. }
      exists tv'. split; auto. split; [rewrite L; apply upd_length|]. split; auto.
      intros j tok' Hj. destruct (M j tok' Hj) as (tok1 & T1 & T2).
      destruct (Nat.eq_dec (N.to_nat (v - ix_trans)) j) as [Ej|Ej].
      * subst j. rewrite nth_error_upd_eq in T1 by auto. injection T1 as <-. exists tok0. split; auto.
        intros x. rewrite T2, M1. replace (N.of_nat (N.to_nat (v - ix_trans)) + ix_trans) with v by lia. split.
        -- intros [[H|H]|(Hx & H)]; auto; right; (split; [lia|]); (apply SH; [lia|]).
           ++ left. split; [lia|auto].
           ++ right. split; [lia|auto].
        -- intros [H|(Hx & H)]; auto. apply SH in H; [|lia]. destruct H as [(-> & _)|(H1 & H2)]; [left; right; lia|auto].
      * rewrite nth_error_upd_neq in T1 by auto. exists tok1. split; auto. intros x. rewrite T2. split.
        -- intros [H|(Hx & H)]; auto. right. split; [lia|]. apply SH; [lia|]. right; split; [lia|auto].
        -- intros [H|(Hx & H)]; auto. apply SH in H; [|lia]. destruct H as [(-> & ->)|(H1 & H2)]; [lia|auto].
Qed.

(** ** One row *)
Lemma add_columns_ok cols : forall tv l, length tv = length cols -> Forall wf tv -> map_wf 0 l ->
  exists l', add_columns tv cols l = Some l' /\ map_wf 0 l' /\
    forall q c, tmem l' q c <-> tmem l q c \/
      exists j tok, nth_error cols j = Some (q + 1) /\ nth_error tv j = Some tok /\ mem c tok.
Proof.
  induction cols as [|v cols IH]; intros tv l Hlen Hw Hl; cbn [add_columns].
  - exists l. split; auto. split; auto. intros q c. split; auto. intros [H|(j & tok & H & _)]; auto. destruct j; discriminate.
  - destruct tv as [|tok tv]; [discriminate|]. cbn [tl]. injection Hlen as Hlen. inversion Hw; subst.
    assert (SH : forall q c, (exists j t, nth_error (v :: cols) j = Some (q + 1) /\ nth_error (tok :: tv) j = Some t /\ mem c t) <->
      (v = q + 1 /\ mem c tok) \/ (exists j t, nth_error cols j = Some (q + 1) /\ nth_error tv j = Some t /\ mem c t)).
    { intros q c. split.
      - intros ([|j] & t & A & B & C); cbn in A, B; [injection A as ->; injection B as ->; auto|right; eauto].
      - intros [(-> & M)|(j & t & A & B & C)]; [exists 0%nat, tok; auto|exists (S j), t; auto]. }
    destruct (N.ltb_spec 0 v) as [Hv|Hv].
    + destruct (madd_ok (v - 1) tok l 0) as (W & M); auto; [lia|].
      destruct (IH tv (madd (v - 1) tok l)) as (l' & E & W' & M'); auto. exists l'. split; auto. split; auto.
      intros q c. rewrite M', M, SH. split.
      * intros [[A|(-> & A)]|A]; auto. right; left. split; [lia|auto].
      * intros [A|[(-> & A)|A]]; auto. left; right. split; [lia|auto].
    + destruct (IH tv l) as (l' & E & W' & M'); auto. exists l'. split; auto. split; auto.
      intros q c. rewrite M', SH. split; [tauto|]. intros [A|[(-> & A)|A]]; auto. lia.
Qed.

Lemma madd_keys q tok l p u : In (p, u) (madd q tok l) -> p = q \/ exists v, In (p, v) l.
Proof.
  induction l as [|[a b] l IH]; cbn [madd].
  - intros [[= <- <-]|[]]. auto.
  - destruct (q <? a); [intros [[= <- <-]|H]; eauto|].
    destruct (q =? a); (intros [[= <- <-]|H]; [right; eexists; left; reflexivity|]).
    + right. eexists. right. eauto.
    + destruct (IH H) as [->|(v & Hv)]; auto. right. eexists. right. eauto.
Qed.
Lemma add_columns_keys cols : forall tv l l' q u, add_columns tv cols l = Some l' -> In (q, u) l' ->
  In (q + 1) cols \/ exists v, In (q, v) l.
Proof.
  induction cols as [|v cols IH]; intros tv l l' q u; cbn [add_columns].
  - intros [= <-]. eauto.
  - destruct (N.ltb_spec 0 v) as [Hv|Hv].
    + destruct tv as [|tok tv]; [discriminate|]. intros H1 H2. destruct (IH _ _ _ _ _ H1 H2) as [H|(w & Hw)]; [left; right; auto|].
      apply madd_keys in Hw. destruct Hw as [->|Hw]; auto. left. left. lia.
    + intros H1 H2. destruct (IH _ _ _ _ _ H1 H2) as [H|H]; auto. left; right; auto.
Qed.

(** A state holds what a row of the table holds. *)
Definition same_state (npos : N) (t : table) (row : N) (s : cstate) : Prop :=
  (exists e, cell t row ix_end = Some e /\ cs_end s = negb (e =? 0) /\
     exists p, cell t row ix_push = Some p /\ cs_push s = p /\
       cs_kind s = (if negb (p =? npos) then KPush else if negb (N.land e sb_pop =? 0) then KPop else KNeither)) /\
  cell t row ix_id = Some (cs_id s) /\ cell t row ix_uid = Some (cs_uid s) /\
  cell t row ix_next = Some (cs_next s) /\
  (exists e, cell t row ix_eol = Some e /\ cs_eol s = (if e =? 0 then npos else e - 1)) /\
  (forall c q, c < 256 -> (cmoves s c q <-> walk t row [c] (q + 1))) /\
  (forall c q, cmoves s c q -> c < 256) /\ map_wf 0 (cs_trans s) /\
  (forall q tok, In (q, tok) (cs_trans s) -> exists col, ix_trans <= col < t_width t /\ cell t row col = Some (q + 1)).

Definition same_dfa (npos : N) (t : table) (d : cdfa) : Prop :=
  (exists b, cell t 0 0 = Some b /\ cd_bol d = (if b =? 0 then npos else b - 1)) /\
  forall i s, nth_error (cd_states d) i = Some s -> same_state npos t (N.of_nat i + 1) s.

Lemma char_states_nth npos tv rows : forall l, char_states npos tv rows = Some l ->
  length l = length rows /\
  forall i s, nth_error l i = Some s -> exists row, nth_error rows i = Some row /\ char_state npos tv row = Some s.
Proof.
  induction rows as [|r rows IH]; intros l; cbn [char_states].
  - intros [= <-]. split; auto. intros [|i] s H; discriminate.
  - destruct (char_state npos tv r) as [a|] eqn:Ea; [|discriminate].
    destruct (char_states npos tv rows) as [b|] eqn:Eb; [|discriminate]. intros [= <-].
    destruct (IH b eq_refl) as (L & I). split; [cbn; lia|]. intros [|i] s H; cbn in H.
    + injection H as <-. exists r. auto.
    + destruct (I i s H) as (row & A & B). exists row. auto.
Qed.
Lemma char_states_some npos tv rows : Forall (fun r => exists s, char_state npos tv r = Some s) rows ->
  exists l, char_states npos tv rows = Some l.
Proof.
  induction 1 as [|r rows (s & E) _ (l & IH)]; cbn; eauto. rewrite E, IH. eauto.
Qed.

Lemma chunk_skip w l n : chunk (S n) w l = firstn w l :: chunk n w (skipn w l).
Proof. reflexivity. Qed.

Lemma cell_chunk t n r c : length (t_dfa t) = (n * N.to_nat (t_width t))%nat -> c < t_width t ->
  cell t r c = match nth_error (chunk n (N.to_nat (t_width t)) (t_dfa t)) (N.to_nat r) with
               | Some row => nth_error row (N.to_nat c) | None => None end.
Proof.
  intros HL Hc. unfold cell. rewrite <- (chunk_concat n (N.to_nat (t_width t)) (t_dfa t) HL) at 1.
  replace (N.to_nat (r * t_width t + c)) with (N.to_nat r * N.to_nat (t_width t) + N.to_nat c)%nat by lia.
  apply nth_concat; [apply chunk_rows; auto|lia].
Qed.

Theorem table_to_csm_ok k t n : twf k t n -> (forall row, 0 < row < n -> cell t row ix_dead = Some 0) ->
  exists d, table_to_csm (npos k) t = Some d /\ N.of_nat (length (cd_states d)) = n - 1 /\ same_dfa (npos k) t d.
Proof.
  intros Hwf Hdead. pose proof Hwf as (N2 & Nn & W7 & Hlen & Hlk & Hcols & Htgt & Hbol).
  unfold table_to_csm.
  rewrite Hlk, (proj2 (N.ltb_ge (t_width t) ix_trans) W7). cbn [Nat.ltb Nat.leb orb].
  rewrite <- Hlk, firstn_all.
  destruct (column_tokens_ok (t_lookup t) 0 (repeat [] (N.to_nat (t_width t - ix_trans)))) as (tv & E & L & W & M).
  { rewrite repeat_length. eapply Forall_impl; [|exact Hcols]. cbn beta. intros v Hv. lia. }
  { apply Forall_forall. intros x Hx. apply repeat_spec in Hx. subst. exact Logic.I. }
  rewrite E. unfold append. rewrite repeat_length in L.
  set (w := N.to_nat (t_width t)) in *. assert (Hw7 : (7 <= w)%nat) by (unfold w, ix_trans in *; lia).
  assert (HL : length (t_dfa t) = (N.to_nat n * w)%nat) by (unfold w; lia).
  assert (Hn1 : exists n1, N.to_nat n = S n1) by (exists (N.to_nat n - 1)%nat; lia). destruct Hn1 as (n1 & En).
  rewrite (proj2 (Nat.ltb_ge (length (t_dfa t)) w)) by (rewrite HL, En; nia).
  rewrite (proj2 (Nat.ltb_ge w 7)) by lia. cbn [orb].
  replace ((length (t_dfa t) - w) / w)%nat with n1.
  2:{ rewrite HL, En. replace (S n1 * w - w)%nat with (n1 * w)%nat by lia. symmetry. apply Nat.div_mul. lia. }
  assert (Hb : cell t 0 0 = nth_error (t_dfa t) 0) by reflexivity.
  assert (Hrows : chunk (N.to_nat n) w (t_dfa t) = firstn w (t_dfa t) :: chunk n1 w (skipn w (t_dfa t))) by (rewrite En; reflexivity).
  assert (CR : forall r c, c < t_width t -> cell t (r + 1) c =
     match nth_error (chunk n1 w (skipn w (t_dfa t))) (N.to_nat r) with Some row => nth_error row (N.to_nat c) | None => None end).
  { intros r c Hc. rewrite (cell_chunk t (N.to_nat n) (r + 1) c HL Hc). fold w. rewrite Hrows.
    replace (N.to_nat (r + 1)) with (S (N.to_nat r)) by lia. reflexivity. }
  assert (RW : Forall (fun r => length r = w) (chunk n1 w (skipn w (t_dfa t)))).
  { apply chunk_rows. rewrite skipn_length, HL, En. lia. }
  assert (ROW : forall row, In row (chunk n1 w (skipn w (t_dfa t))) -> exists e id uid push next eol dead cols l,
     row = e :: id :: uid :: push :: next :: eol :: dead :: cols /\ length cols = (w - 7)%nat /\
     add_columns tv cols [] = Some l /\ map_wf 0 l /\
     forall q c, tmem l q c <-> exists j tok, nth_error cols j = Some (q + 1) /\ nth_error tv j = Some tok /\ mem c tok).
  { intros row Hr. rewrite Forall_forall in RW. specialize (RW row Hr).
    destruct row as [|e [|id [|uid [|push [|next [|eol [|dead cols]]]]]]]; cbn [length] in RW; try lia.
    destruct (add_columns_ok cols tv []) as (l & A & B & C); auto; [unfold w, ix_trans in *; lia|exact Logic.I|].
    exists e, id, uid, push, next, eol, dead, cols, l. split; auto. split; [lia|]. split; auto. split; auto.
    intros q c. rewrite C, tmem_nil. tauto. }
  destruct (char_states_some (npos k) tv (chunk n1 w (skipn w (t_dfa t)))) as (l & El).
  { apply Forall_forall. intros row Hr. destruct (ROW row Hr) as (e & id & uid & push & next & eol & dead & cols & l & -> & _ & A & _).
    cbn [char_state]. rewrite A. eauto. }
  case_eq (t_dfa t); [intros Ed|intros bol rest Ed].
  { exfalso. rewrite Ed in HL. cbn in HL. rewrite En in HL. nia. }
  rewrite <- Ed. rewrite El. eexists. split; [reflexivity|].
  destruct (char_states_nth _ _ _ _ El) as (LL & LN). cbn [cd_states cd_bol].
  split; [rewrite LL, chunk_length; lia|]. split.
  { cbn [cd_bol]. exists bol. split; auto. rewrite Hb, Ed. reflexivity. }
  cbn [cd_states]. intros i s Hi. destruct (LN i s Hi) as (row & Hrow & Hst).
  assert (Hir : N.of_nat i < n - 1).
  { assert (i < length (chunk n1 w (skipn w (t_dfa t))))%nat by (apply nth_error_Some; congruence). rewrite chunk_length in H. lia. }
  destruct (ROW row (nth_error_In _ _ Hrow)) as (e & id & uid & push & next & eol & dead & cols & tr & -> & Lc & A & B & C).
  cbn [char_state] in Hst. rewrite A in Hst. injection Hst as <-.
  assert (CC : forall c, c < t_width t -> cell t (N.of_nat i + 1) c = nth_error (e :: id :: uid :: push :: next :: eol :: dead :: cols) (N.to_nat c)).
  { intros c Hc. rewrite CR by auto. rewrite Nat2N.id, Hrow. reflexivity. }
  assert (D0 : dead = 0).
  { assert (H := Hdead (N.of_nat i + 1) ltac:(lia)). rewrite CC in H by (unfold ix_dead, ix_trans in *; lia). change (N.to_nat ix_dead) with 6%nat in H. cbn [nth_error] in H. congruence. }
  subst dead.
  assert (LT : forall x, x < 7 -> x < t_width t) by (unfold ix_trans in W7; lia).
  assert (MV : forall c q, tmem tr q c <-> c < 256 /\ walk t (N.of_nat i + 1) [c] (q + 1)).
  { intros c q. rewrite C. split.
    - intros (j & tok & J1 & J2 & J3). destruct (M j tok J2) as (tok0 & T1 & T2).
      apply nth_error_In in T1. apply repeat_spec in T1. subst tok0.
      apply T2 in J3. destruct J3 as [J3|(_ & J3)]; [apply mem_nil in J3; tauto|]. rewrite N.sub_0_r in J3.
      assert (Hc : c < 256) by (assert (N.to_nat c < length (t_lookup t))%nat by (apply nth_error_Some; congruence); lia).
      split; auto. apply walk_cons with (N.of_nat j + ix_trans) (q + 1); auto; [|lia|constructor].
      assert (j < length cols)%nat by (apply nth_error_Some; congruence).
      rewrite CC by (unfold w, ix_trans in *; lia).
      replace (N.to_nat (N.of_nat j + ix_trans)) with (S (S (S (S (S (S (S j))))))) by (unfold ix_trans; lia). exact J1.
    - intros (Hc & Hw). inversion Hw as [|? ? col row1 ? ? H1 H2 H3 H4]; subst. inversion H4; subst.
      assert (HC : ix_dead <= col < t_width t).
      { rewrite Forall_forall in Hcols. apply Hcols. unfold column in H1. eapply nth_error_In; eauto. }
      rewrite CC in H2 by lia.
      destruct (N.eq_dec col ix_dead) as [->|Hd].
      + change (N.to_nat ix_dead) with 6%nat in H2. cbn [nth_error] in H2. injection H2 as H2. lia.
      + assert (HT : exists j, N.to_nat col = S (S (S (S (S (S (S j)))))) /\ col = N.of_nat j + ix_trans).
        { exists (N.to_nat (col - ix_trans)). unfold ix_dead, ix_trans in *. lia. }
        destruct HT as (j & Ej & Ec). rewrite Ej in H2. cbn [nth_error] in H2.
        assert (Hj : (j < length tv)%nat).
        { rewrite L. assert (j < length cols)%nat by (apply nth_error_Some; congruence). unfold w, ix_trans in *. lia. }
        destruct (nth_error tv j) as [tok|] eqn:Et; [|apply nth_error_None in Et; lia].
        exists j, tok. split; auto. split; auto. destruct (M j tok Et) as (tok0 & T1 & T2). apply T2. right.
        split; [lia|]. rewrite N.sub_0_r, <- Ec. exact H1. }
  unfold same_state. cbn [cs_end cs_kind cs_id cs_uid cs_push cs_next cs_eol cs_trans].
  split; [|split; [|split; [|split; [|split; [|split; [|split; [|split]]]]]]].
  - exists e. rewrite CC by (apply LT; reflexivity). split; auto. split; auto.
    exists push. rewrite CC by (apply LT; reflexivity). auto.
  - rewrite CC by (apply LT; reflexivity). reflexivity.
  - rewrite CC by (apply LT; reflexivity). reflexivity.
  - rewrite CC by (apply LT; reflexivity). reflexivity.
  - exists eol. rewrite CC by (apply LT; reflexivity). auto.
  - intros c q Hc. change (cmoves _ c q) with (tmem tr q c). rewrite MV. tauto.
  - intros c q H. change (tmem tr q c) in H. apply MV in H. tauto.
  - exact B.
  - intros q tok Hin. destruct (add_columns_keys _ _ _ _ _ _ A Hin) as [H|(v & [])].
    apply In_nth_error in H as (j & Ej). exists (ix_trans + N.of_nat j).
    assert (j < length cols)%nat by (apply nth_error_Some; congruence).
    split; [unfold w, ix_trans in *; lia|]. rewrite CC by (unfold w, ix_trans in *; lia).
    replace (N.to_nat (ix_trans + N.of_nat j)) with (S (S (S (S (S (S (S j))))))) by (unfold ix_trans; lia). exact Ej.
Qed.

(** ** The whole machine *)
Lemma tables_to_csm_ok k m : mwf k m -> mclean k m -> forall n i,
  N.of_nat n + i <= N.of_nat (length (i_dfa m)) ->
  exists l, tables_to_csm (npos k) m n i = Some l /\ length l = n /\
    forall j d, nth_error l j = Some d -> exists t, get_table m (i + N.of_nat j) = Some t /\
      table_to_csm (npos k) t = Some d.
Proof.
  intros Hm Hc. induction n as [|n IH]; intros i Hi; cbn [tables_to_csm].
  - exists []. split; auto. split; auto. intros [|j] d H; discriminate.
  - destruct (Hm i ltac:(lia)) as (t & nr & Ht & Hwf & _). rewrite Ht.
    destruct (table_to_csm_ok k t nr Hwf) as (d & Ed & _). { apply (Hc _ _ _ Ht Hwf). }
    assert (W : (t_width t =? 0) = false).
    { apply N.eqb_neq. destruct Hwf as (_ & _ & H & _). unfold ix_trans in H. lia. }
    rewrite W, Ed. destruct (IH (i + 1)) as (l & El & Ll & Nl); [lia|]. rewrite El.
    exists (d :: l). split; auto. split; [cbn; lia|]. intros [|j] d' H; cbn in H.
    + injection H as <-. exists t. replace (i + N.of_nat 0) with i by lia. auto.
    + destruct (Nl j d' H) as (t' & A & B). exists t'. replace (i + N.of_nat (S j)) with (i + 1 + N.of_nat j) by lia. auto.
Qed.

Theorem sm_to_csm_ok k m : mwf k m -> mclean k m ->
  exists l, sm_to_csm (npos k) m = Some l /\ length l = length (i_dfa m) /\
    forall st t n, get_table m st = Some t -> twf k t n ->
      exists d, nth_error l (N.to_nat st) = Some d /\ N.of_nat (length (cd_states d)) = n - 1 /\ same_dfa (npos k) t d.
Proof.
  intros Hm Hc. unfold sm_to_csm. destruct (tables_to_csm_ok k m Hm Hc (length (i_dfa m)) 0) as (l & E & L & Nl); [lia|].
  exists l. split; auto. split; auto. intros st t n Ht Hwf.
  assert (Hst : st < N.of_nat (length (i_dfa m))).
  { unfold get_table in Ht. destruct (nth_error (i_dfa m) (N.to_nat st)) eqn:Ed.
    - assert (N.to_nat st < length (i_dfa m))%nat by (apply nth_error_Some; congruence). lia.
    - destruct (nth_error (i_lookup m) (N.to_nat st)), (nth_error (i_alphabet m) (N.to_nat st)); discriminate. }
  destruct (nth_error l (N.to_nat st)) as [d|] eqn:Ed; [|apply nth_error_None in Ed; lia].
  destruct (Nl _ _ Ed) as (t' & A & B). rewrite N2Nat.id, N.add_0_l in A. rewrite Ht in A. injection A as <-.
  destruct (table_to_csm_ok k t n Hwf) as (d' & E' & L' & S'). { apply (Hc _ _ _ Ht Hwf). }
  rewrite B in E'. injection E' as <-. eauto.
Qed.

(** ** Words *)
Inductive cpath (d : cdfa) : N -> list N -> N -> Prop :=
| cp_nil i : cpath d i [] i
| cp_cons i s c j w q : nth_error (cd_states d) (N.to_nat i) = Some s -> cmoves s c j -> cpath d j w q ->
    cpath d i (c :: w) q.

Lemma cpath_walk k t n d : twf k t n -> same_dfa (npos k) t d -> N.of_nat (length (cd_states d)) = n - 1 ->
  forall w i q, i < n - 1 -> (cpath d i w q <-> Forall (fun c => c < 256) w /\ walk t (i + 1) w (q + 1)).
Proof.
  intros Hwf (_ & Hs) Hl. induction w as [|c w IH]; intros i q Hi.
  - split.
    + intros H. inversion H; subst. split; constructor.
    + intros (_ & H). inversion H as [? E|]; subst. replace q with i by lia. constructor.
  - split.
    + intros H. inversion H as [|? s ? j ? ? E M P]; subst.
      pose proof (Hs _ _ E) as (_ & _ & _ & _ & _ & Hm & Hb & _). rewrite N2Nat.id in Hm.
      pose proof (Hb _ _ M) as Hc. apply Hm in M; auto. inversion M as [|? ? col r1 ? ? A B C D]; subst. inversion D; subst.
      assert (Hj : j + 1 < n).
      { destruct Hwf as (_ & _ & _ & _ & _ & Hcols & Htgt & _). apply (Htgt (i + 1) col); auto; [lia|].
        rewrite Forall_forall in Hcols. unfold column in A. apply nth_error_In in A. apply Hcols in A.
        unfold ix_dead, ix_eol in *. lia. }
      apply IH in P; [|lia]. destruct P as (P1 & P2). split; [constructor; auto|]. econstructor; eauto.
    + intros (Hf & H). inversion Hf; subst. inversion H as [|? ? col r1 ? ? A B C D]; subst.
      destruct (nth_error (cd_states d) (N.to_nat i)) as [s|] eqn:E; [|apply nth_error_None in E; lia].
      pose proof (Hs _ _ E) as (_ & _ & _ & _ & _ & Hm & _). rewrite N2Nat.id in Hm.
      assert (Hj : r1 < n).
      { destruct Hwf as (_ & _ & _ & _ & _ & Hcols & Htgt & _). apply (Htgt (i + 1) col); auto; [lia|].
        rewrite Forall_forall in Hcols. unfold column in A. apply nth_error_In in A. apply Hcols in A.
        unfold ix_dead, ix_eol in *. lia. }
      apply cp_cons with s (r1 - 1); auto.
      * apply Hm; auto. replace (r1 - 1 + 1) with r1 by lia. econstructor; eauto. constructor.
      * apply IH; [lia|]. split; auto. replace (r1 - 1 + 1) with r1 by lia. auto.
Qed.
