(** Tiling of the input and stack discipline, from [looks]. *)
From Verif Require Import Base StateMachine Lookup TableSpec LookupProofs LookupSpec LookupThms.
Local Open Scope N_scope.

(** The text of a token (match_results.hpp:59-62: str()). *)
Definition text (inp : list N) (r : results) : list N :=
  firstn (r_second r - r_first r) (skipn (r_first r) inp).

(** All tokens returned by calling lookup until eoi. *)
Inductive lexes (k : cfg) (m : internals) (inp : list N) : results -> list results -> Prop :=
| lexes_end fuel inner r r' :
    lookup fuel inner k m inp r = Ok (r', None) -> r_id r' = i_eoi m -> lexes k m inp r []
| lexes_tok fuel inner r r' l :
    lookup fuel inner k m inp r = Ok (r', None) -> r_id r' <> i_eoi m ->
    lexes k m inp r' l -> lexes k m inp r (r' :: l).

(** Zero or more skipped pieces. *)
Inductive skipped (k : cfg) (m : internals) (inp : list N) : results -> results -> Prop :=
| skipped_nil r : skipped k m inp r r
| skipped_cons r e uid r1 r2 :
    eats k m inp r e (skip_id k) uid r1 -> skipped k m inp r1 r2 -> skipped k m inp r r2.

(** Stack entries that cannot make a token continue. *)
Definition no_join_stack (m : internals) (r : results) : Prop :=
  Forall (fun p => snd p <> i_eoi m) (r_stack r).

Lemma walk_nonzero t row bs row' : walk t row bs row' -> bs <> [] -> row' <> 0.
Proof.
  induction 1 as [row|row b col row1 bs row2 H1 H2 H3 H4 IH]; intros Hb; [congruence|].
  destruct bs; [inversion H4; subst; auto|apply IH; discriminate].
Qed.
Lemma vplus_nonzero k t inp a b : vplus k t inp a b -> crow b <> 0.
Proof.
  assert (S : forall a b, vstep k t inp a b -> crow b <> 0).
  { intros x y H. destruct H as [? ? c ? _ _ Hw|? ? ? ? _ _ (_ & _ & He)|? ? (_ & _ & He)]; cbn; auto.
    apply walk_nonzero in Hw; auto. unfold char_bytes. destruct (c_bytes k =? 1), (c_bytes k =? 2); discriminate. }
  induction 1; eauto.
Qed.
Lemma hits_row k m inp r e push next id uid q : hits k m inp r e push next id uid q ->
  exists t row, get_table m (r_state r) = Some t /\ row <> 0 /\ accepting t row /\ cell t row ix_id = Some id.
Proof.
  intros (t & Ht & [(row & (start & b & _ & (Hv & Ha & _) & <- & _) & _ & _ & _ & Hi & _)|(_ & _ & Hne & He & _ & _ & Hi & _)]).
  - exists t, (crow b). split; [auto|]. split; [eapply vplus_nonzero; eauto|auto].
  - exists t, 1. split; [auto|]. split; [easy|]. split; [exists e; auto|auto].
Qed.

Lemma eats_no_join k m inp r e id uid r' : no_row_id m (i_eoi m) -> no_join_stack m r ->
  eats k m inp r e id uid r' -> no_join_stack m r' /\ ~ joins k m e id (r_stack r').
Proof.
  intros Hno Hs (push & next & q & Hh & Hst & _).
  destruct (hits_row _ _ _ _ _ _ _ _ _ _ Hh) as (t & row & Ht & H0r & Ha & Hi).
  assert (Hid : id <> i_eoi m) by (intros ->; eapply Hno; eauto).
  assert (Hs' : no_join_stack m r').
  { unfold no_join_stack, stack_step in *. destruct (f_rec k).
    - destruct (negb (N.land e sb_pop =? 0)).
      + destruct Hst as (s & i & E & _). rewrite E in Hs. inversion Hs; auto.
      + destruct Hst as (-> & _). destruct (push =? npos k); auto.
    - destruct Hst as (-> & _); auto. }
  split; auto. intros [H|(_ & _ & (s & rest & E))]; [congruence|].
  unfold no_join_stack in Hs'. rewrite E in Hs'. inversion Hs'; subst. cbn in *. congruence.
Qed.

(** One call, without rules that join. *)
Lemma looks_shape k m inp first r r' :
  no_row_id m (i_eoi m) -> no_join_stack m r -> first = r_second r ->
  looks k m inp first r r' None ->
  exists r1, skipped k m inp r r1 /\ r_second r1 = r_first r' /\ no_join_stack m r' /\
    ((r_second r1 = length inp /\ r_id r' = i_eoi m /\ r_uid r' = npos k /\ r_second r' = r_second r1) \/
     (exists e, eats k m inp r1 e (r_id r') (r_uid r') r' /\ r_id r' <> skip_id k /\ r_id r' <> i_eoi m) \/
     (misses k m inp r1 /\ r_id r' = npos k /\ r_uid r' = npos k /\
      (r_second r1 < length inp)%nat /\
      r_second r' = if f_adv k then S (r_second r1) else r_second r1)).
Proof.
  intros Hno Hs Hf H. remember None as o. induction H; subst; try discriminate.
  - exists r. split; [constructor|]. cbn. split; [reflexivity|]. split; [exact Hs|]. left. auto.
  - exists r. split; [constructor|]. split; auto.
    destruct (eats_no_join _ _ _ _ _ _ _ _ Hno Hs H0) as (Hn & Hj). split; auto.
    right; left. exists e. split; auto. split; auto. intros E. apply Hj. left. auto.
  - destruct (eats_no_join _ _ _ _ _ _ _ _ Hno Hs H0) as (Hn & _).
    destruct (IHlooks Hn eq_refl eq_refl) as (r2 & S1 & S2 & S3).
    exists r2. split; [econstructor; eauto|]. auto.
  - exfalso. destruct (eats_no_join _ _ _ _ _ _ _ _ Hno Hs H0) as (_ & Hj). auto.
  - exists r. split; [constructor|]. cbn. split; auto. split; auto. right; right.
    repeat split; auto. apply nth_error_Some; congruence.
Qed.

Theorem lookup_shape fuel inner k m inp r r' :
  mwf k m -> chars_ok k inp -> rwf m inp r ->
  no_row_id m (i_eoi m) -> no_join_stack m r ->
  lookup fuel inner k m inp r = Ok (r', None) ->
  exists r1, skipped k m inp r r1 /\ r_second r1 = r_first r' /\ no_join_stack m r' /\
    ((r_second r1 = length inp /\ r_id r' = i_eoi m /\ r_uid r' = npos k /\ r_second r' = r_second r1) \/
     (exists e, eats k m inp r1 e (r_id r') (r_uid r') r' /\ r_id r' <> skip_id k /\ r_id r' <> i_eoi m) \/
     (misses k m inp r1 /\ r_id r' = npos k /\ r_uid r' = npos k /\
      (r_second r1 < length inp)%nat /\
      r_second r' = if f_adv k then S (r_second r1) else r_second r1)).
Proof.
  intros Hm Hch Hr Hno Hs Hl.
  pose proof (lookup_looks fuel inner k m inp r Hm Hch Hr) as H. rewrite Hl in H.
  destruct H as (H & _). eapply looks_shape; eauto.
Qed.

Lemma skipped_none k m inp r r1 : no_row_id m (skip_id k) -> skipped k m inp r r1 -> r1 = r.
Proof.
  intros Hno H. inversion H; subst; auto.
  destruct H0 as (push & next & q & Hh & _).
  destruct (hits_row _ _ _ _ _ _ _ _ _ _ Hh) as (t & row & Ht & H0r & Ha & Hi).
  exfalso. eapply Hno; eauto.
Qed.

Lemma hits_pos k m inp r e push next id uid q : (r_second r <= length inp)%nat ->
  hits k m inp r e push next id uid q -> (r_second r <= q <= length inp)%nat.
Proof.
  intros Hpos (t & Ht & [(row & (start & b & Hs & (H1 & H2 & H3) & <- & <-) & _)|(_ & -> & _)]).
  - apply (vplus_pos _ _ _ _ _ H1 Hpos).
  - lia.
Qed.

Lemma firstn_skipn_cat {A} : forall a b (l : list A), (a <= b)%nat ->
  firstn (b - a) (skipn a l) ++ skipn b l = skipn a l.
Proof.
  induction a as [|a IH]; intros b l H.
  - rewrite Nat.sub_0_r. apply firstn_skipn.
  - destruct b as [|b]; [lia|]. destruct l as [|x l].
    + rewrite !skipn_nil, firstn_nil. reflexivity.
    + cbn [skipn Nat.sub]. apply IH. lia.
Qed.

Theorem lexes_tile k m inp r l :
  mwf k m -> chars_ok k inp -> rwf m inp r -> f_adv k = true ->
  no_row_id m (i_eoi m) -> no_row_id m (skip_id k) -> no_join_stack m r -> i_eoi m <> npos k ->
  lexes k m inp r l -> concat (map (text inp) l) = skipn (r_second r) inp.
Proof.
  intros Hm Hch Hr Hadv Hno Hnos Hs Hne H. induction H as [fuel inner r r' Hl Hid|fuel inner r r' l Hl Hid Hx IH].
  - destruct (lookup_shape _ _ _ _ _ _ _ Hm Hch Hr Hno Hs Hl) as (r1 & S1 & S2 & S3 & D).
    apply skipped_none in S1; auto. subst r1. cbn.
    destruct D as [(E & _)|[(e & _ & _ & Hn)|(_ & E & _)]]; try congruence.
    rewrite E, skipn_all; auto.
  - destruct (lookup_shape _ _ _ _ _ _ _ Hm Hch Hr Hno Hs Hl) as (r1 & S1 & S2 & S3 & D).
    pose proof (lookup_looks fuel inner k m inp r Hm Hch Hr) as HL. rewrite Hl in HL. destruct HL as (_ & Hr').
    apply skipped_none in S1; auto. subst r1. cbn [map concat]. rewrite IH; auto.
    unfold text. rewrite <- S2. apply firstn_skipn_cat.
    destruct Hr as (_ & _ & Hp).
    destruct D as [(E & _ & _ & E2)|[(e & (push & next & q & Hh & _ & E & _) & _)|(_ & _ & _ & _ & E2)]].
    + lia.
    + apply hits_pos in Hh; auto. lia.
    + rewrite Hadv in E2. lia.
Qed.

(** Skipped text: the positions covered by skipped pieces are contiguous. *)
Lemma skipped_pos k m inp r r1 : (r_second r <= length inp)%nat -> skipped k m inp r r1 ->
  (r_second r <= r_second r1 <= length inp)%nat.
Proof.
  intros Hp H. induction H; auto.
  destruct H as (push & next & q & Hh & _ & E & _). apply hits_pos in Hh; auto. 
  specialize (IHskipped ltac:(lia)). lia.
Qed.

(** End of input. *)
Theorem lookup_at_end fuel inner k m inp r : r_second r = length inp ->
  lookup fuel inner k m inp r =
  Ok ({| r_id := i_eoi m; r_uid := npos k; r_first := r_second r; r_second := r_second r;
         r_bol := r_bol r; r_state := r_state r; r_stack := r_stack r |}, None).
Proof.
  intros H. unfold lookup. destruct fuel; cbn [again]; rewrite H, Nat.eqb_refl; cbn; rewrite ?H; reflexivity.
Qed.

(** The stack over one call. *)
Lemma looks_throw_stack k m inp first r r' e : looks k m inp first r r' (Some e) ->
  e = EUnderflow /\ r_stack r' = [] /\
  exists r1 f push next id uid q, r_second r1 = r_second r' /\ r_state r1 = r_state r' /\
    r_bol r1 = r_bol r' /\ r_stack r1 = [] /\ hits k m inp r1 f push next id uid q /\
    N.land f sb_pop <> 0.
Proof.
  intros H. remember (Some e) as o. induction H; subst; try discriminate; auto.
  inversion Heqo; subst. destruct H1 as (_ & H1 & H7). split; auto. split; [congruence|].
  exists r, e0, push, next, id, uid, q. repeat split; auto; congruence.
Qed.

(** One accepted piece, with the flags and push value of its row. *)
Definition piece (k : cfg) (m : internals) (inp : list N) (r : results)
    (e push id : N) (r' : results) : Prop :=
  exists next uid q, hits k m inp r e push next id uid q /\
    stack_step k e push next id (r_state r) (r_state r') (r_stack r) (r_stack r') /\
    r_second r' = q /\
    r_bol r' = (if f_bol k then bol_at inp (r_bol r) (r_second r) q else r_bol r).

Inductive trail (k : cfg) (m : internals) (inp : list N) : results -> results -> Prop :=
| trail_nil r : trail k m inp r r
| trail_cons r e push id r1 r2 :
    piece k m inp r e push id r1 -> trail k m inp r1 r2 -> trail k m inp r r2.

Lemma eats_piece k m inp r e id uid r' : eats k m inp r e id uid r' -> exists push, piece k m inp r e push id r'.
Proof. intros (push & next & q & H). exists push, next, uid, q. exact H. Qed.

Lemma looks_trail k m inp first r r' : looks k m inp first r r' None ->
  exists r1, trail k m inp r r1 /\ r_stack r' = r_stack r1 /\ r_state r' = r_state r1.
Proof.
  intros H. remember None as o. induction H; subst; try discriminate.
  - exists r. split; [constructor|]. auto.
  - apply eats_piece in H0 as (push & Hp). exists r'. split; [|auto]. econstructor; eauto. constructor.
  - apply eats_piece in H0 as (push & Hp). destruct (IHlooks eq_refl) as (r2 & T & E).
    exists r2. split; [|auto]. econstructor; eauto.
  - apply eats_piece in H0 as (push & Hp). destruct (IHlooks eq_refl) as (r2 & T & E).
    exists r2. split; [|auto]. econstructor; eauto.
  - exists r. split; [constructor|]. auto.
Qed.

(** Well nested sequences of pieces. *)
Inductive balanced (k : cfg) (m : internals) (inp : list N) : results -> results -> Prop :=
| bal_nil r : balanced k m inp r r
| bal_plain r e id r1 r2 :
    piece k m inp r e (npos k) id r1 -> N.land e sb_pop = 0 ->
    balanced k m inp r1 r2 -> balanced k m inp r r2
| bal_nest r e push id r1 r2 e' push' id' r3 r4 :
    piece k m inp r e push id r1 -> N.land e sb_pop = 0 -> push <> npos k ->
    balanced k m inp r1 r2 ->
    piece k m inp r2 e' push' id' r3 -> N.land e' sb_pop <> 0 ->
    balanced k m inp r3 r4 -> balanced k m inp r r4.

Lemma piece_plain k m inp r e push id r' : f_rec k = true -> piece k m inp r e push id r' ->
  (N.land e sb_pop = 0 -> push = npos k -> r_stack r' = r_stack r) /\
  (N.land e sb_pop = 0 -> push <> npos k -> r_stack r' = (push, id) :: r_stack r) /\
  (N.land e sb_pop <> 0 -> exists s i, r_stack r = (s, i) :: r_stack r' /\ (f_multi k = true -> r_state r' = s)).
Proof.
  intros Hf (next & uid & q & _ & Hst & _). unfold stack_step in Hst. rewrite Hf in Hst.
  destruct (N.eqb_spec (N.land e sb_pop) 0) as [E|E]; cbn [negb] in Hst.
  - destruct Hst as (-> & _). split; [|split]; intros; try congruence.
    + subst. rewrite N.eqb_refl. auto.
    + destruct (N.eqb_spec push (npos k)); congruence.
  - destruct Hst as (s & i & H1 & H2). split; [|split]; intros; try congruence.
    exists s, i. split; auto. intros Hm. rewrite Hm in H2. auto.
Qed.

Lemma balanced_stack k m inp r r' : f_rec k = true -> balanced k m inp r r' -> r_stack r' = r_stack r.
Proof.
  intros Hf H. induction H; auto.
  - rewrite IHbalanced. eapply piece_plain in H; eauto. apply H; auto.
  - rewrite IHbalanced2. destruct (piece_plain _ _ _ _ _ _ _ _ Hf H) as (_ & P & _).
    destruct (piece_plain _ _ _ _ _ _ _ _ Hf H3) as (_ & _ & Q).
    destruct (Q H4) as (s & i & E & _). rewrite IHbalanced1, P in E; auto. congruence.
Qed.

Theorem pop_returns k m inp r e push id r1 r2 e' push' id' r3 :
  f_rec k = true -> f_multi k = true ->
  piece k m inp r e push id r1 -> N.land e sb_pop = 0 -> push <> npos k ->
  balanced k m inp r1 r2 ->
  piece k m inp r2 e' push' id' r3 -> N.land e' sb_pop <> 0 ->
  r_state r3 = push /\ r_stack r3 = r_stack r.
Proof.
  intros Hf Hm H1 H2 H3 Hb H4 H5.
  destruct (piece_plain _ _ _ _ _ _ _ _ Hf H1) as (_ & P & _). specialize (P H2 H3).
  destruct (piece_plain _ _ _ _ _ _ _ _ Hf H4) as (_ & _ & Q).
  destruct (Q H5) as (s & i & E & E2). apply balanced_stack in Hb; auto.
  rewrite Hb, P in E. inversion E; subst. auto.
Qed.

Theorem lookup_trail fuel inner k m inp r r' o :
  mwf k m -> chars_ok k inp -> rwf m inp r ->
  lookup fuel inner k m inp r = Ok (r', o) ->
  match o with
  | None => exists r1, trail k m inp r r1 /\ r_stack r' = r_stack r1 /\ r_state r' = r_state r1
  | Some e => e = EUnderflow /\ r_stack r' = [] /\
     exists r1 f push next id uid q, r_second r1 = r_second r' /\ r_state r1 = r_state r' /\
       r_bol r1 = r_bol r' /\ r_stack r1 = [] /\ hits k m inp r1 f push next id uid q /\
       N.land f sb_pop <> 0
  end.
Proof.
  intros Hm Hch Hr Hl.
  pose proof (lookup_looks fuel inner k m inp r Hm Hch Hr) as H. rewrite Hl in H. destruct H as (H & _).
  destruct o; [eapply looks_throw_stack; eauto|eapply looks_trail; eauto].
Qed.

Theorem lookup_end_stable fuel inner k m inp r : r_second r = length inp ->
  exists r', lookup fuel inner k m inp r = Ok (r', None) /\
    r_id r' = i_eoi m /\ r_uid r' = npos k /\ r_first r' = length inp /\ r_second r' = length inp /\
    r_bol r' = r_bol r /\ r_state r' = r_state r /\ r_stack r' = r_stack r /\
    forall fuel' inner', lookup fuel' inner' k m inp r' = Ok (r', None).
Proof.
  intros H. eexists. split; [apply lookup_at_end; auto|]. cbn. repeat split; auto.
  intros f i. rewrite lookup_at_end by auto. reflexivity.
Qed.
