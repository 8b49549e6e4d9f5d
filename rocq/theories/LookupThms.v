(** The whole of lookup() against LookupSpec. *)
From Verif Require Import Base StateMachine Lookup TableSpec LookupProofs LookupSpec.
Local Open Scope N_scope.

Lemma walk_lt k t n row bs row' : twf k t n -> Forall (fun b => b < 256) bs -> row < n ->
  walk t row bs row' -> row' < n.
Proof.
  intros Hwf Hb Hr Hw; revert Hb Hr; induction Hw as [row|row b col row1 bs row2 Hc Hd Hn Hw IH]; intros Hb Hr; auto.
  inversion Hb; subst. apply IH; auto.
  destruct (column_some k t n Hwf b) as (col' & Ec & Hcol); auto.
  replace col' with col in * by congruence.
  eapply target_ok; [exact Hwf|exact Hr| |exact Hd]. unfold ix_dead, ix_eol in *; lia.
Qed.

Lemma char_bytes_lt k inp c : chars_ok k inp -> In c inp -> Forall (fun b => b < 256) (char_bytes k c).
Proof.
  intros Hch Hin. unfold char_bytes. destruct (N.eqb_spec (c_bytes k) 1) as [E|E].
  - specialize (Hch E). rewrite Forall_forall in Hch. constructor; auto.
  - destruct (c_bytes k =? 2); repeat constructor; apply N.mod_lt; discriminate.
Qed.

Lemma vstep_lt k t n inp a b : twf k t n -> chars_ok k inp -> vstep k t inp a b ->
  crow a < n -> crow b < n.
Proof.
  intros Hwf Hch H. inversion H; subst; cbn; intros Hr.
  - eapply (walk_lt k t n row (char_bytes k c)); auto. eapply char_bytes_lt; eauto. eapply nth_error_In; eauto.
  - destruct H2 as (_ & He & _). eapply target_ok; [exact Hwf|exact Hr| |exact He].
    split; [reflexivity|eapply width7; eauto; reflexivity].
  - destruct H0 as (_ & He & _). eapply target_ok; [exact Hwf|exact Hr| |exact He].
    split; [reflexivity|eapply width7; eauto; reflexivity].
Qed.

Lemma vplus_lt k t n inp a b : twf k t n -> chars_ok k inp -> vplus k t inp a b ->
  crow a < n -> crow b < n.
Proof. intros Hwf Hch H; induction H; intros; eauto using vstep_lt. Qed.

Lemma vstep_pos k t inp a b : vstep k t inp a b -> (cpos a <= cpos b <= length inp)%nat \/ (length inp < cpos a)%nat.
Proof.
  intros H; inversion H; subst; cbn.
  1, 2: assert (p < length inp)%nat by (apply nth_error_Some; congruence); lia.
  lia.
Qed.

Lemma vplus_pos k t inp a b : vplus k t inp a b -> (cpos a <= length inp)%nat ->
  (cpos a <= cpos b <= length inp)%nat.
Proof.
  intros H; induction H as [a b H|a b c H Hp IH]; intros.
  - destruct (vstep_pos _ _ _ _ _ H); lia.
  - destruct (vstep_pos _ _ _ _ _ H); lia.
Qed.

(** A walk that stays at the same position only took end of line steps. *)
Lemma vplus_stay k t inp a b : vplus k t inp a b -> (cpos a <= length inp)%nat -> cpos a = cpos b ->
  eol_chain k t (crow a) (crow b).
Proof.
  intros H; induction H as [a b H|a b c H Hp IH]; intros Hl He.
  - inversion H; subst; cbn in *; try lia; constructor; auto.
  - pose proof (vplus_pos _ _ _ _ _ Hp).
    inversion H; subst; cbn in *.
    + assert (p < length inp)%nat by (apply nth_error_Some; congruence). lia.
    + econstructor 2; eauto.
    + econstructor 2; eauto.
Qed.

(** The spec and facts extracted from one attempt. *)
Lemma attempt_hits fuel k m inp r s et :
  mwf k m -> rwf m inp r -> chars_ok k inp ->
  attempt fuel k m inp (r_bol r) (r_state r) (r_second r) = Ok (s, et) ->
  (ls_end s = true /\ exists e push next,
     hits k m inp r e push next (ls_id s) (ls_uid s) et /\
     (f_multi k = true -> next = ls_start s) /\
     (f_rec k = true -> ls_pop s = negb (N.land e sb_pop =? 0) /\ ls_push s = push) /\
     (f_bol k = true -> ls_end_bol s = bol_at inp (r_bol r) (r_second r) et) /\
     (next < N.of_nat (length (i_dfa m)) \/ (f_rec k = true /\ N.land e sb_pop <> 0)) /\
     (push = npos k \/ push < N.of_nat (length (i_dfa m))) /\ (r_second r <= et <= length inp)%nat) \/
  (ls_end s = false /\ et = r_second r /\ misses k m inp r).
Proof.
  intros Hm (Hst & Hstk & Hpos) Hch Ha.
  destruct (Hm _ Hst) as (t & n & Ht & Hwf & Hacc).
  pose proof (attempt_spec fuel k m t n inp (r_bol r) (r_state r) (r_second r) Ht Hwf Hch Hpos) as HS.
  rewrite Ha in HS. destruct HS as (row & Hrow & Hn & [(Hno & -> & HI & Hs1 & Hs2)|(b & Hl & Hmk)]).
  - destruct HI as (I1 & I2 & I3 & (e & I4 & I5) & I6).
    destruct (ls_end s) eqn:Els.
    + left. split; auto. assert (Hac : accepting t 1) by tauto.
      assert (H1n : 1 < n) by (destruct Hwf; lia).
      destruct (Hacc 1 H1n Hac) as ((v & V1 & V2) & (w & W1 & W2)).
      exists e, (ls_push s), (r_state r). split; [|repeat split; auto].
      * exists t. split; auto. right. split; [exists row; auto|].
        repeat split; auto. destruct Hac as (e' & E' & Hne). congruence.
      * unfold bol_at. rewrite Nat.eqb_refl. auto.
      * replace (ls_push s) with w by congruence. auto.
    + right. repeat split; auto. exists t. split; auto. split; [exists row; auto|].
      destruct (N.eq_dec e 0) as [->|Hne]; auto. exfalso.
      assert (false = true) by (apply I1; exists e; auto). discriminate.
  - left. destruct Hmk as (M1 & -> & (R1 & R2 & R3 & R4) & M4).
    destruct Hl as (L1 & L2 & L3).
    assert (Hbn : crow b < n) by (eapply vplus_lt; eauto).
    destruct (Hacc _ Hbn L2) as ((v & V1 & V2) & (w & W1 & W2)).
    pose proof (vplus_pos _ _ _ _ _ L1 Hpos) as Hbp. cbn [cpos snd fst] in Hbp.
    split; auto. destruct L2 as (e & E1 & E2).
    exists e, w, v. split; [|split; [|split; [|split; [|split; [|split]]]]]; auto; try lia.
    + exists t. split; auto. left. exists (crow b). repeat split; auto.
      exists row, b. repeat split; auto. exists e; auto.
    + intros Hf. specialize (R3 Hf). congruence.
    + intros Hf. destruct (R4 Hf) as (e' & Q1 & Q2 & Q3). 
      replace e' with e in * by congruence. split; auto. congruence.
    + destruct V2 as [V2|(_ & V2 & e' & V3 & V4)]; [left; auto|right]. split; auto. congruence.
Qed.

Lemma again_looks k m inp inner : mwf k m -> chars_ok k inp ->
  forall fuel r cur, cur = r_second r -> rwf m inp r ->
  match again fuel inner k m inp r cur with
  | Ok (r', o) => looks k m inp (r_first r) r r' o /\ rwf m inp r'
  | Fuel => True
  | _ => False
  end.
Proof.
  intros Hm Hch. induction fuel as [|fuel IH]; intros r cur -> Hr; cbn [again];
    destruct (Nat.eqb_spec (r_second r) (length inp)) as [He|He]; auto.
  1, 2: split; [apply looks_eoi; auto|]; exact Hr.
  destruct Hr as (Hst & Hstk & Hpos) eqn:Er. rename Hr into Hr'. assert (Hr : rwf m inp r) by exact Hr'. clear Er.
  assert (Hlt : (r_second r < length inp)%nat) by lia.
  destruct (attempt inner k m inp (r_bol r) (r_state r) (r_second r)) as [[s et]| | |] eqn:Ea; cbn [bind].
  2-4: destruct (Hm _ Hst) as (t & n & Ht & Hwf & _);
    pose proof (attempt_spec inner k m t n inp (r_bol r) (r_state r) (r_second r) Ht Hwf Hch Hpos) as HS;
    rewrite Ea in HS; auto.
  destruct (attempt_hits _ _ _ _ _ _ _ Hm Hr Hch Ea) as [(Els & e & push & next & Hh & Hn & Hp & Hb & Hnx & Hpu & Het)|(Els & -> & Hmiss)];
    rewrite Els.
  - destruct (pop k s (r_stack r)) as [[start stack]|] eqn:Ep.
    + set (r1 := {| r_id := r_id r; r_second := et; r_bol := if f_bol k then ls_end_bol s else r_bol r;
         r_state := if f_multi k then start else r_state r; r_stack := stack |}).
      assert (He1 : forall i u f, eats k m inp r e (ls_id s) (ls_uid s)
         {| r_id := i; r_uid := u; r_first := f; r_second := et; r_bol := r_bol r1;
            r_state := r_state r1; r_stack := stack |} /\
         rwf m inp {| r_id := i; r_uid := u; r_first := f; r_second := et; r_bol := r_bol r1;
            r_state := r_state r1; r_stack := stack |}).
      { intros i u f. subst r1; cbn [r_bol r_state]. unfold pop in Ep.
        split.
        - exists push, next, et. split; [exact Hh|]. cbn. split; [|split; auto].
          + unfold stack_step. destruct (f_rec k) eqn:Fr.
            * destruct (Hp eq_refl) as (P1 & P2). rewrite <- P1. destruct (ls_pop s).
              { destruct (r_stack r) as [|[a b] stk]; inversion Ep; subst. exists start, b. auto. }
              { rewrite P2 in Ep. destruct (push =? npos k); cbn [negb] in Ep; inversion Ep; subst; split; auto.
                - destruct (f_multi k); auto. symmetry; auto.
                - destruct (f_multi k); auto. symmetry; auto. }
            * inversion Ep; subst. split; auto. destruct (f_multi k); auto. symmetry; auto.
          + destruct (f_bol k); auto.
        - unfold rwf; cbn. split; [|split; [|lia]].
          + destruct (f_multi k) eqn:Fm; auto. destruct (f_rec k).
            * destruct (ls_pop s).
              { destruct (r_stack r) as [|[a b] stk]; inversion Ep; subst. inversion Hstk; auto. }
              { destruct (Hp eq_refl) as (P1 & _).
                assert (next < N.of_nat (length (i_dfa m))) by (destruct Hnx as [|(_ & Hnx)]; [auto|]; lia).
                destruct (negb (ls_push s =? npos k)); inversion Ep; subst; rewrite <- Hn; auto. }
            * assert (next < N.of_nat (length (i_dfa m))) by (destruct Hnx as [|(Hnx & _)]; [auto|discriminate]).
              inversion Ep; subst. rewrite <- Hn; auto.
          + destruct (f_rec k).
            * destruct (ls_pop s).
              { destruct (r_stack r) as [|[a b] stk]; inversion Ep; subst. inversion Hstk; auto. }
              { destruct (Hp eq_refl) as (_ & P2). rewrite P2 in Ep.
                destruct (N.eqb_spec push (npos k)) as [Hq|Hq]; cbn [negb] in Ep; inversion Ep; subst; auto.
                constructor; auto. cbn. destruct Hpu; [congruence|auto]. }
            * inversion Ep; subst; auto. }
      destruct (N.eqb_spec (ls_id s) (skip_id k)) as [Hsk|Hsk].
      * specialize (IH {| r_id := r_id r1; r_uid := r_uid r1; r_first := et; r_second := et;
                          r_bol := r_bol r1; r_state := r_state r1; r_stack := stack |} et eq_refl
                       (proj2 (He1 _ _ _))).
        destruct (again fuel inner k m inp _ et) as [[r' o]| | |]; auto.
        destruct IH as (IH1 & IH2). split; auto.
        apply (looks_skip k m inp (r_first r) r e (ls_uid s)
          {| r_id := r_id r1; r_uid := r_uid r1; r_first := et; r_second := et;
             r_bol := r_bol r1; r_state := r_state r1; r_stack := stack |} r' o Hlt).
        { rewrite <- Hsk. apply (proj1 (He1 _ _ _)). }
        { exact IH1. }
      * assert (Hj : is_id_eoi k (i_eoi m) s stack = true <-> joins k m e (ls_id s) stack).
        { unfold is_id_eoi, joins. rewrite orb_true_iff, !andb_true_iff, N.eqb_eq.
          split; (intros [H|H]; [left; auto|right]).
          - destruct H as ((F & P) & Q). destruct (Hp F) as (P1 & _). rewrite P1 in P.
            repeat split; auto; [lia|]. destruct stack as [|[a b] stk]; [discriminate|].
            apply N.eqb_eq in Q; subst. eauto.
          - destruct H as (F & P & (a & rest & ->)). destruct (Hp F) as (P1 & _).
            repeat split; auto; [rewrite P1; lia|]. apply N.eqb_refl. }
        destruct (is_id_eoi k (i_eoi m) s stack) eqn:Ej.
        { specialize (IH r1 et eq_refl (proj2 (He1 _ _ _))).
          destruct (again fuel inner k m inp r1 et) as [[r' o]| | |]; auto.
          destruct IH as (IH1 & IH2). split; auto.
          eapply (looks_join k m inp (r_first r) r e (ls_id s) (ls_uid s) r1); eauto.
          - apply (proj1 (He1 _ _ _)).
          - apply Hj. reflexivity. }
        { split; [|apply (proj2 (He1 _ _ _))].
          eapply looks_token; [exact Hlt|apply (proj1 (He1 _ _ _))|exact Hsk| | | |]; auto.
          - cbn. rewrite <- Hj. discriminate. }
    + split; [|exact Hr]. eapply looks_throw; eauto.
      unfold pop in Ep. unfold underflows. destruct (f_rec k) eqn:Fr; [|discriminate].
      destruct (Hp eq_refl) as (P1 & _). destruct (ls_pop s).
      * split; auto. split; [lia|]. destruct (r_stack r) as [|[a b] stk]; auto; discriminate.
      * destruct (negb (ls_push s =? npos k)); discriminate.
  - destruct (nth_error inp (r_second r)) as [c|] eqn:Ec; [|apply nth_error_None in Ec; lia].
    split.
    + eapply looks_none; eauto.
    + unfold rwf; cbn. repeat split; auto. destruct (f_adv k); lia.
Qed.

Definition at_label (r : results) : results :=
  {| r_id := r_id r; r_uid := r_uid r; r_first := r_second r; r_second := r_second r;
     r_bol := r_bol r; r_state := r_state r; r_stack := r_stack r |}.

(** lookup never misbehaves and does what [looks] says. *)
Theorem lookup_looks fuel inner k m inp r :
  mwf k m -> chars_ok k inp -> rwf m inp r ->
  match lookup fuel inner k m inp r with
  | Ok (r', o) => looks k m inp (r_second r) r r' o /\ rwf m inp r'
  | Fuel => True
  | _ => False
  end.
Proof.
  intros Hm Hch Hr. unfold lookup.
  pose proof (again_looks k m inp inner Hm Hch fuel (at_label r) (r_second r) eq_refl Hr) as H.
  unfold at_label in H. destruct (again _ _ _ _ _ _ _) as [[r' o]| | |]; auto.
  destruct H as (H & H'). split; auto. cbn in H.
  (* looks does not depend on id, uid, first of its input *)
  revert H. clear. intros H.
  inversion H; subst; cbn in *.
  - eapply looks_eoi; eauto.
  - eapply looks_token; eauto.
  - eapply looks_skip; eauto.
  - eapply looks_join; eauto.
  - eapply looks_none; eauto.
  - eapply looks_throw; eauto.
Qed.

(** Progress. *)
Lemma hits_progress k m inp r e push next id uid q :
  no_empty_match k m -> (r_second r <= length inp)%nat ->
  hits k m inp r e push next id uid q -> (r_second r < q <= length inp)%nat.
Proof.
  intros Hne Hpos (t & Ht & [(row & (start & b & Hs & (H1 & H2 & H3) & <- & <-) & _)|(_ & _ & He & H1 & _)]).
  - pose proof (vplus_pos _ _ _ _ _ H1 Hpos) as Hp. cbn [cpos snd fst] in Hp.
    destruct (Nat.eq_dec (r_second r) (cpos b)) as [E|E]; [|lia].
    exfalso. destruct (Hne _ _ Ht) as (_ & Hn).
    eapply Hn; [exact Hs| |exact H2].
    apply (vplus_stay _ _ _ _ _ H1); auto.
  - exfalso. destruct (Hne _ _ Ht) as (Hn & _). apply Hn. exists e; auto.
Qed.

Lemma looks_progress k m inp first r r' o :
  no_empty_match k m -> f_adv k = true -> (r_second r <= length inp)%nat ->
  looks k m inp first r r' o -> 
  (r_second r <= r_second r' <= length inp)%nat /\
  (o = None -> r_id r' <> i_eoi m -> (r_second r < r_second r')%nat).
Proof.
  intros Hne Hadv Hpos H. induction H; subst; cbn.
  - split; [lia|congruence].
  - destruct H0 as (push & next & q & Hh & _ & -> & _).
    apply hits_progress in Hh; auto; lia.
  - destruct H0 as (push & next & q & Hh & _ & E & _).
    apply hits_progress in Hh; auto. rewrite <- E in Hh.
    specialize (IHlooks ltac:(lia)). split; [lia|]. intros; lia.
  - destruct H0 as (push & next & q & Hh & _ & E & _).
    apply hits_progress in Hh; auto. rewrite <- E in Hh.
    specialize (IHlooks ltac:(lia)). split; [lia|]. intros; lia.
  - rewrite Hadv. assert (r_second r < length inp)%nat by (apply nth_error_Some; congruence). lia.
  - rewrite H3. split; [lia|discriminate].
Qed.

(** Termination of one call. *)
Lemma again_terminates k m inp inner b : mwf k m -> chars_ok k inp -> no_empty_match k m ->
  eol_acyclic m b -> (length inp * S b + b < inner)%nat ->
  forall fuel r cur, cur = r_second r -> rwf m inp r ->
  (length inp - r_second r < fuel)%nat ->
  again fuel inner k m inp r cur <> Fuel.
Proof.
  intros Hm Hch Hne Hac Hin. induction fuel as [|fuel IH]; intros r cur -> Hr Hf; [lia|].
  cbn [again]. destruct (Nat.eqb_spec (r_second r) (length inp)) as [He|He]; [discriminate|].
  pose proof Hr as Hr0. destruct Hr0 as (Hst & Hstk & Hpos).
  destruct (attempt inner k m inp (r_bol r) (r_state r) (r_second r)) as [[s et]| | |] eqn:Ea; cbn [bind]; try discriminate.
  2:{ exfalso. revert Ea. destruct (Hm _ Hst) as (t & n & Ht & Hwf & _).
      apply (attempt_terminates inner k m t n inp (r_bol r) (r_state r) (r_second r) b); auto.
      - eapply Hac; eauto.
      - nia. }
  destruct (attempt_hits _ _ _ _ _ _ _ Hm Hr Hch Ea) as [(Els & e & push & next & Hh & Hn & Hp & Hb & Hnx & Hpu & Het)|(Els & -> & Hmiss)];
    rewrite Els.
  2:{ destruct (nth_error inp (r_second r)); discriminate. }
  destruct (pop k s (r_stack r)) as [[start stack]|] eqn:Ep; [|discriminate].
  pose proof (hits_progress _ _ _ _ _ _ _ _ _ _ Hne Hpos Hh) as Hprog.
  assert (Hok : r_state r < N.of_nat (length (i_dfa m)) /\ 
     (f_multi k = true -> start < N.of_nat (length (i_dfa m))) /\
     Forall (fun p => fst p < N.of_nat (length (i_dfa m))) stack).
  { split; auto. unfold pop in Ep. destruct (f_rec k).
    - destruct (ls_pop s).
      + destruct (r_stack r) as [|[x y] stk]; inversion Ep; subst. inversion Hstk; subst; auto.
      + destruct (Hp eq_refl) as (P1 & P2). rewrite P2 in Ep.
        assert (next < N.of_nat (length (i_dfa m))) by (destruct Hnx as [|(_ & Hnx)]; [auto|lia]).
        destruct (N.eqb_spec push (npos k)) as [Hq|Hq]; cbn [negb] in Ep; inversion Ep; subst; split; auto;
          try (intros Hfm; rewrite <- Hn; auto).
        constructor; auto. cbn. destruct Hpu; [congruence|auto].
    - assert (next < N.of_nat (length (i_dfa m))) by (destruct Hnx as [|(Hnx & _)]; [auto|discriminate]).
      inversion Ep; subst. split; auto. intros Hfm; rewrite <- Hn; auto. }
  destruct Hok as (O1 & O2 & O3).
  match goal with |- (if ?c then _ else _) <> _ => destruct c end.
  - apply IH; auto; cbn; [|lia]. unfold rwf; cbn. repeat split; auto; [|lia].
    destruct (f_multi k); auto.
  - match goal with |- (if ?c then _ else _) <> _ => destruct c end; [|discriminate].
    apply IH; auto; cbn; [|lia]. unfold rwf; cbn. repeat split; auto; [|lia].
    destruct (f_multi k); auto.
Qed.

Theorem lookup_terminates k m inp r b fuel inner :
  mwf k m -> chars_ok k inp -> no_empty_match k m -> eol_acyclic m b -> rwf m inp r ->
  (length inp < fuel)%nat -> (length inp * S b + b < inner)%nat ->
  exists r' o, lookup fuel inner k m inp r = Ok (r', o).
Proof.
  intros Hm Hch Hne Hac Hr Hf Hi.
  pose proof (lookup_looks fuel inner k m inp r Hm Hch Hr) as H.
  assert (HF : lookup fuel inner k m inp r <> Fuel).
  { unfold lookup. eapply again_terminates; eauto. cbn. lia. }
  destruct (lookup fuel inner k m inp r) as [[r' o]| | |]; try tauto; eauto; congruence.
Qed.

Theorem lookup_progress k m inp r fuel inner r' :
  mwf k m -> chars_ok k inp -> no_empty_match k m -> f_adv k = true -> rwf m inp r ->
  lookup fuel inner k m inp r = Ok (r', None) -> r_id r' <> i_eoi m ->
  (r_second r < r_second r' <= length inp)%nat.
Proof.
  intros Hm Hch Hne Hadv Hr Hl Hid.
  pose proof (lookup_looks fuel inner k m inp r Hm Hch Hr) as H. rewrite Hl in H.
  destruct H as (H & _). eapply looks_progress in H; eauto; [|apply Hr]. intuition lia.
Qed.

(** The loop "while (results.id != eoi) lookup" ends. *)
Theorem lex_loop_ends k m inp b : mwf k m -> chars_ok k inp -> no_empty_match k m ->
  eol_acyclic m b -> f_adv k = true -> f_rec k = false ->
  forall r, rwf m inp r ->
  exists j r', (j <= length inp - r_second r + 1)%nat /\ calls k m inp j r r' /\ r_id r' = i_eoi m.
Proof.
  intros Hm Hch Hne Hac Hadv Hrec r.
  remember (length inp - r_second r)%nat as d eqn:Ed. revert r Ed.
  induction d as [d IH] using lt_wf_ind. intros r Ed Hr.
  destruct (lookup_terminates k m inp r b (S (length inp)) (S (length inp * S b + b))) as (r1 & o & Hl); auto.
  pose proof (lookup_looks (S (length inp)) (S (length inp * S b + b)) k m inp r Hm Hch Hr) as Hlk.
  rewrite Hl in Hlk. destruct Hlk as (Hlk & Hr1).
  assert (o = None).
  { clear - Hlk Hrec. induction Hlk; auto. destruct H1; congruence. }
  subst o. destruct (N.eq_dec (r_id r1) (i_eoi m)) as [He|He].
  - exists 1%nat, r1. split; [lia|]. split; auto. econstructor; eauto. constructor.
  - pose proof (lookup_progress _ _ _ _ _ _ _ Hm Hch Hne Hadv Hr Hl He) as Hp.
    destruct (IH (length inp - r_second r1)%nat ltac:(lia) r1 eq_refl Hr1) as (j & r' & Hj & Hc & Hid).
    exists (S j), r'. split; [lia|]. split; auto. econstructor; eauto.
Qed.
