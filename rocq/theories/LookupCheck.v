(** Boolean checks of the hypotheses of the lookup theorems, used for the
    concrete examples. *)
From Verif Require Import Base StateMachine Lookup TableSpec LookupSpec.
Local Open Scope N_scope.

Definition upto (n : N) : list N := map N.of_nat (seq 0 (N.to_nat n)).
Lemma in_upto n x : x < n -> In x (upto n).
Proof.
  intros H. unfold upto. apply in_map_iff. exists (N.to_nat x). split; [lia|].
  apply in_seq. lia.
Qed.

Definition ltb_opt (o : option N) (n : N) : bool :=
  match o with Some v => v <? n | None => true end.

Definition twfb (k : cfg) (t : table) (n : N) : bool :=
  (2 <=? n) && (n <=? npos k) && (ix_trans <=? t_width t) &&
  (N.of_nat (length (t_dfa t)) =? n * t_width t) &&
  Nat.eqb (length (t_lookup t)) 256 &&
  forallb (fun col => (ix_dead <=? col) && (col <? t_width t)) (t_lookup t) &&
  forallb (fun row => forallb (fun col => (col <? ix_eol) || ltb_opt (cell t row col) n)
    (upto (t_width t))) (upto n) &&
  ltb_opt (cell t 0 0) n.

Lemma twfb_ok k t n : twfb k t n = true -> twf k t n.
Proof.
  unfold twfb. rewrite !andb_true_iff. intros (((((((H1 & H2) & H3) & H4) & H5) & H6) & H7) & H8).
  unfold twf. rewrite forallb_forall in H6, H7. repeat split; try lia.
  - apply Forall_forall. intros x Hx. specialize (H6 x Hx). lia.
  - intros row col v Hr Hc Hv. specialize (H7 row (in_upto _ _ Hr)).
    rewrite forallb_forall in H7. specialize (H7 col (in_upto (t_width t) col (proj2 Hc))).
    rewrite Hv in H7. cbn in H7. lia.
  - intros v Hv. rewrite Hv in H8. cbn in H8. lia.
Qed.

Definition acceptb (t : table) (row : N) : bool :=
  match cell t row ix_end with Some e => negb (e =? 0) | None => false end.
Lemma acceptb_ok t row : accepting t row <-> acceptb t row = true.
Proof.
  unfold accepting, acceptb. destruct (cell t row ix_end) as [e|]; split.
  - intros (e' & H & Hn). inversion H; subst. lia.
  - intros H. exists e. split; auto. lia.
  - intros (e' & H & _); discriminate.
  - discriminate.
Qed.

Definition rows_of (t : table) : N := N.of_nat (length (t_dfa t)) / t_width t.

Definition mwfb (k : cfg) (m : internals) : bool :=
  forallb (fun st =>
    match get_table m st with
    | None => false
    | Some t =>
      twfb k t (rows_of t) &&
      forallb (fun row => negb (acceptb t row) ||
        (match cell t row ix_next with
         | Some v => (v <? N.of_nat (length (i_dfa m))) ||
             (negb (row =? 0) && f_rec k &&
              match cell t row ix_end with Some e => negb (N.land e sb_pop =? 0) | None => false end)
         | None => false end &&
         match cell t row ix_push with
         | Some v => (v =? npos k) || (v <? N.of_nat (length (i_dfa m))) | None => false end))
        (upto (rows_of t))
    end) (upto (N.of_nat (length (i_dfa m)))).

Lemma mwfb_ok k m : mwfb k m = true -> mwf k m.
Proof.
  unfold mwfb, mwf. rewrite forallb_forall. intros H st Hst.
  specialize (H st (in_upto _ _ Hst)). destruct (get_table m st) as [t|]; [|discriminate].
  apply andb_true_iff in H as [H1 H2]. exists t, (rows_of t). split; auto. split; [apply twfb_ok; auto|].
  rewrite forallb_forall in H2. intros row Hr Ha. specialize (H2 row (in_upto _ _ Hr)).
  apply acceptb_ok in Ha. rewrite Ha in H2. cbn [negb orb] in H2. apply andb_true_iff in H2 as [H2 H3].
  destruct (cell t row ix_next) as [v|]; [|discriminate].
  destruct (cell t row ix_push) as [w|]; [|discriminate].
  split; eexists; split; eauto; [|lia]. apply orb_true_iff in H2 as [H2|H2]; [left; lia|right].
  rewrite !andb_true_iff in H2. destruct H2 as [[H4 H5] H6]. split; [lia|]. split; [auto|].
  destruct (cell t row ix_end) as [e|]; [|discriminate]. exists e. split; [auto|lia].
Qed.

Lemma get_table_lt m st t : get_table m st = Some t -> st < N.of_nat (length (i_dfa m)).
Proof.
  unfold get_table. destruct (nth_error (i_lookup m) (N.to_nat st)), (nth_error (i_alphabet m) (N.to_nat st)),
    (nth_error (i_dfa m) (N.to_nat st)) eqn:E; try discriminate. intros _.
  assert (N.to_nat st < length (i_dfa m))%nat by (apply nth_error_Some; congruence). lia.
Qed.

(** All end of line targets have no end of line transition themselves, and are
    accepting only if allowed. *)
Definition eol_shallow (k : cfg) (t : table) (n : N) : bool :=
  forallb (fun row => match cell t row ix_eol with
    | Some e => (e =? 0) || match cell t e ix_eol with Some e' => e' =? 0 | None => true end
    | None => true end) (upto n).

Lemma cell_row_lt t n row col v : N.of_nat (length (t_dfa t)) = n * t_width t ->
  cell t row col = Some v -> row < n.
Proof.
  unfold cell. intros Hl Hc.
  assert (N.to_nat (row * t_width t + col) < length (t_dfa t))%nat by (apply nth_error_Some; congruence).
  assert (H0 : row * t_width t < n * t_width t) by lia.
  apply N.mul_lt_mono_pos_r in H0; auto. destruct (t_width t); [lia|reflexivity].
Qed.

Lemma eol_shallow_ok k t n : N.of_nat (length (t_dfa t)) = n * t_width t ->
  eol_shallow k t n = true -> eol_ranked t 1.
Proof.
  intros Hl H. unfold eol_shallow in H. rewrite forallb_forall in H.
  exists (fun row => match cell t row ix_eol with Some e => if e =? 0 then 0%nat else 1%nat | None => 0%nat end).
  intros row. split.
  - destruct (cell t row ix_eol) as [e|]; [destruct (e =? 0)|]; lia.
  - intros e He Hne. rewrite He. specialize (H row (in_upto _ _ (cell_row_lt _ _ _ _ _ Hl He))).
    rewrite He in H. destruct (N.eqb_spec e 0); [congruence|]. cbn [orb] in H.
    destruct (cell t e ix_eol) as [e'|]; [rewrite H|]; lia.
Qed.

Definition start_rows (k : cfg) (t : table) : list N :=
  1 :: match cell t 0 0 with Some b => if b =? 0 then [] else [b] | None => [] end.

Lemma start_rows_ok k t bol row : start_row k t bol row -> In row (start_rows k t).
Proof.
  unfold start_row, start_rows. destruct (f_bol k && bol).
  - intros (b & Hb & ->). rewrite Hb. destruct (b =? 0); cbn; auto.
  - intros ->; cbn; auto.
Qed.

Definition no_emptyb (k : cfg) (m : internals) : bool :=
  forallb (fun st =>
    match get_table m st with
    | None => true
    | Some t => negb (acceptb t 1) && eol_shallow k t (rows_of t) &&
        (N.of_nat (length (t_dfa t)) =? rows_of t * t_width t) &&
        forallb (fun row => match cell t row ix_eol with
          | Some e => (e =? 0) || negb (acceptb t e) | None => true end) (start_rows k t)
    end) (upto (N.of_nat (length (i_dfa m)))).

Lemma no_emptyb_ok k m : no_emptyb k m = true -> no_empty_match k m /\ eol_acyclic m 1.
Proof.
  unfold no_emptyb. rewrite forallb_forall. intros H. 
  assert (G : forall st t, get_table m st = Some t ->
    (~ accepting t 1 /\ forall bol row row', start_row k t bol row -> eol_chain k t row row' -> ~ accepting t row') /\
    eol_ranked t 1).
  { intros st t Ht. specialize (H st (in_upto _ _ (get_table_lt _ _ _ Ht))). rewrite Ht in H.
    rewrite !andb_true_iff in H. destruct H as (((H1 & H2) & H3) & H4). apply N.eqb_eq in H3.
    pose proof (eol_shallow_ok k t _ H3 H2) as Hr.
    split; auto. split.
    - rewrite acceptb_ok. destruct (acceptb t 1); cbn in H1; congruence.
    - intros bol row row' Hs Hc. rewrite forallb_forall in H4.
      specialize (H4 row (start_rows_ok _ _ _ _ Hs)).
      inversion Hc as [a b He|a b c He Hc']; subst.
      + destruct He as (_ & He & Hne). rewrite He in H4. rewrite acceptb_ok.
        destruct (acceptb t row'); auto. destruct (N.eqb_spec row' 0); [congruence|]. cbn in H4. discriminate.
      + exfalso. destruct He as (_ & He & Hne).
        unfold eol_shallow in H2. rewrite forallb_forall in H2.
        specialize (H2 row (in_upto _ _ (cell_row_lt _ _ _ _ _ H3 He))). rewrite He in H2.
        destruct (N.eqb_spec b 0); [congruence|]. cbn [orb] in H2.
        assert (exists e2, cell t b ix_eol = Some e2 /\ e2 <> 0) as (e2 & E2 & N2)
          by (inversion Hc'; subst; match goal with X : eol_to _ _ b _ |- _ => destruct X as (_ & ? & ?); eauto end).
        rewrite E2 in H2. apply N.eqb_eq in H2. congruence. }
  split; intros st t Ht; apply (G st t Ht).
Qed.
