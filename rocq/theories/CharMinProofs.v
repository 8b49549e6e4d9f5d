(** Proofs about minimise of character based machines. *)
From Verif Require Import Base StateMachine StringToken StringTokenSpec StringTokenProofs Lookup TableSpec LookupSpec Minimise CharMachine CharProofs.
Local Open Scope N_scope.

Lemma kind_eqb_eq a b : kind_eqb a b = true <-> a = b.
Proof. destruct a, b; cbn; split; congruence. Qed.
Lemma trans_eqb_eq a : forall b, trans_eqb a b = true <-> a = b.
Proof.
  induction a as [|[p t] a IH]; intros [|[q u] b]; cbn [trans_eqb]; split; try congruence.
  - intros H. apply andb_true_iff in H as [H H3]. apply andb_true_iff in H as [H1 H2].
    apply N.eqb_eq in H1. apply st_eqb_eq in H2. apply IH in H3. congruence.
  - intros [= <- <- <-]. rewrite N.eqb_refl, (proj2 (st_eqb_eq t t) eq_refl), (proj2 (IH a) eq_refl). reflexivity.
Qed.
Lemma cstate_eqb_eq a b : cstate_eqb a b = true <-> a = b.
Proof.
  destruct a as [a1 a2 a3 a4 a5 a6 a7 a8], b as [b1 b2 b3 b4 b5 b6 b7 b8]. unfold cstate_eqb. cbn.
  rewrite !andb_true_iff, eqb_true_iff, kind_eqb_eq, !N.eqb_eq, trans_eqb_eq. split.
  - intros (((((((-> & ->) & ->) & ->) & ->) & ->) & ->) & ->). reflexivity.
  - intros [= -> -> -> -> -> -> -> ->]. tauto.
Qed.

(** ** Numbering *)
Definition centry_of (npos : N) (D : cstate -> option N) (x : cstate) : centry :=
  match D x with Some k => (x, true, k) | None => (x, false, npos) end.
Definition cadd (D : cstate -> option N) (x : cstate) (k : N) : cstate -> option N :=
  fun y => match D y with Some j => Some j | None => if cstate_eqb x y then Some k else None end.
Fixpoint cnum (D : cstate -> option N) (new : N) (rows : list cstate) : list (bool * N) :=
  match rows with
  | [] => []
  | x :: r => match D x with
              | Some k => (true, k) :: cnum D new r
              | None => (false, new) :: cnum (cadd D x new) (new + 1) r
              end
  end.

Lemma cnumber_cnum npos rows : forall D new,
  new + N.of_nat (length rows) <= npos -> (forall y k, D y = Some k -> k < npos) ->
  cnumber npos (length rows) new (map (centry_of npos D) rows) = cnum D new rows.
Proof.
  induction rows as [|x rows IH]; intros D new Hn HD; cbn [length cnumber map cnum]; auto.
  cbn [length] in Hn.
  unfold centry_of at 1. destruct (D x) as [k|] eqn:E.
  - rewrite (proj2 (N.eqb_neq k npos)) by (specialize (HD _ _ E); lia).
    f_equal. rewrite <- (IH D new) by (auto; lia). f_equal. rewrite map_map. apply map_ext.
    intros y. unfold centry_of, cmark. destruct (D y) eqn:Ey; auto.
    destruct (cstate_eqb x y) eqn:Er; auto. apply cstate_eqb_eq in Er. congruence.
  - rewrite N.eqb_refl. f_equal. rewrite <- IH; [|lia|].
    + f_equal. rewrite map_map. apply map_ext. intros y. unfold centry_of, cmark, cadd.
      destruct (D y) eqn:Ey; auto. destruct (cstate_eqb x y); auto.
    + intros y k. unfold cadd. destruct (D y) eqn:Ey; [intros [= <-]; eauto|].
      destruct (cstate_eqb x y); [intros [= <-]; lia|discriminate].
Qed.

Fixpoint ckept (rows : list cstate) (marks : list (bool * N)) : list cstate :=
  match rows, marks with
  | x :: rows', (d, _) :: marks' => if d then ckept rows' marks' else x :: ckept rows' marks'
  | _, _ => []
  end.
Lemma cnum_length D new rows : length (cnum D new rows) = length rows.
Proof. revert D new; induction rows as [|x r IH]; intros D new; cbn; auto. destruct (D x); cbn; rewrite IH; auto. Qed.
Lemma cnum_spec rows : forall D new i x d k,
  nth_error rows i = Some x -> nth_error (cnum D new rows) i = Some (d, k) ->
  D x = Some k \/
  (D x = None /\ new <= k /\ nth_error (ckept rows (cnum D new rows)) (N.to_nat (k - new)) = Some x).
Proof.
  induction rows as [|y rows IH]; intros D new i x d k Hx Hm; [destruct i; discriminate|].
  destruct i as [|i]; cbn in Hx, Hm.
  - injection Hx as ->. cbn [cnum ckept]. destruct (D x) as [j|] eqn:E.
    + cbn in Hm. injection Hm as <- <-. auto.
    + right. cbn in Hm. injection Hm as <- <-. rewrite N.sub_diag. cbn. split; auto. split; auto. lia.
  - cbn [cnum ckept]. destruct (D y) as [j|] eqn:E; cbn in Hm.
    + destruct (IH _ _ _ _ _ _ Hx Hm) as [H|H]; auto.
    + destruct (IH _ _ _ _ _ _ Hx Hm) as [H|(H1 & H2 & H3)].
      * unfold cadd in H. destruct (D x) eqn:Ex; auto.
        destruct (cstate_eqb y x) eqn:Er; [|discriminate]. injection H as <-. apply cstate_eqb_eq in Er; subst.
        right. split; auto. split; [lia|]. rewrite N.sub_diag. reflexivity.
      * unfold cadd in H1. destruct (D x) eqn:Ex; [discriminate|]. right. split; auto. split; [lia|].
        replace (N.to_nat (k - new)) with (S (N.to_nat (k - (new + 1)))) by lia. exact H3.
Qed.
Lemma ckept_length_lt rows marks : length marks = length rows -> existsb fst marks = true ->
  (length (ckept rows marks) < length rows)%nat.
Proof.
  assert (LE : forall rows marks, (length (ckept rows marks) <= length rows)%nat).
  { clear. induction rows as [|y rows IH]; intros [|[d k] marks]; cbn; try lia.
    specialize (IH marks). destruct d; cbn; lia. }
  revert marks; induction rows as [|y rows IH]; intros [|[d k] marks]; cbn; try discriminate.
  intros [= H] He. destruct d; cbn in *.
  - pose proof (LE rows marks). lia.
  - specialize (IH _ H He). lia.
Qed.
Lemma ckept_in rows marks x : In x (ckept rows marks) -> In x rows.
Proof.
  revert marks; induction rows as [|y rows IH]; intros [|[d k] marks]; cbn; try tauto.
  destruct d; cbn; intuition eauto.
Qed.
Lemma cnum_distinct rows : forall D new, NoDup rows -> (forall x, In x rows -> D x = None) ->
  existsb fst (cnum D new rows) = false.
Proof.
  induction rows as [|y rows IH]; intros D new Hn HD; cbn; auto. inversion Hn; subst.
  rewrite (HD y) by (cbn; auto). cbn. apply IH; auto.
  intros x Hx. unfold cadd. rewrite HD by (cbn; auto).
  destruct (cstate_eqb y x) eqn:E; auto. apply cstate_eqb_eq in E; subst. tauto.
Qed.
Lemma cnum_none rows : forall D new, existsb fst (cnum D new rows) = false -> NoDup rows /\ forall x, In x rows -> D x = None.
Proof.
  induction rows as [|y rows IH]; intros D new; cbn; [split; [constructor|tauto]|].
  destruct (D y) eqn:E; cbn; [discriminate|]. intros H. destruct (IH _ _ H) as (I1 & I2). split.
  - constructor; auto. intros Hy. apply I2 in Hy. unfold cadd in Hy. rewrite E, (proj2 (cstate_eqb_eq y y) eq_refl) in Hy. discriminate.
  - intros x [<-|Hx]; auto. apply I2 in Hx. unfold cadd in Hx. destruct (D x); congruence.
Qed.

(** ** Well formed machines and simulation *)
Definition cwf (npos : N) (d : cdfa) : Prop :=
  let n := N.of_nat (length (cd_states d)) in
  n <= npos /\ (cd_bol d = npos \/ cd_bol d < n) /\
  Forall (fun s => (cs_eol s = npos \/ cs_eol s < n) /\ map_wf 0 (cs_trans s) /\
                   forall q tok, In (q, tok) (cs_trans s) -> q < n) (cd_states d).

(** [f] maps the states of [d] to states of [d'] that behave alike, as far as
    acceptance, user id, next start state and transitions go. *)
Definition move_ix (npos : N) (f : N -> N) (i : N) : N := if i =? npos then npos else f i.
Definition like (npos : N) (f : N -> N) (s s' : cstate) : Prop :=
  cs_end s' = cs_end s /\ cs_uid s' = cs_uid s /\ cs_next s' = cs_next s /\
  cs_eol s' = move_ix npos f (cs_eol s) /\
  (forall c q', cmoves s' c q' <-> exists q, cmoves s c q /\ q' = f q).
Definition csim (npos : N) (f : N -> N) (d d' : cdfa) : Prop :=
  cd_bol d' = move_ix npos f (cd_bol d) /\
  (forall i s, nth_error (cd_states d) (N.to_nat i) = Some s ->
     exists s', nth_error (cd_states d') (N.to_nat (f i)) = Some s' /\ like npos f s s') /\
  (cd_states d <> [] -> f 0 = 0).

Lemma csim_refl npos d : csim npos (fun x => x) d d.
Proof.
  unfold csim, move_ix. split; [destruct (N.eqb_spec (cd_bol d) npos); auto|]. split; [|auto].
  intros i s H. exists s. split; auto. unfold like, move_ix. split; auto. split; auto. split; auto. split.
  - destruct (N.eqb_spec (cs_eol s) npos); auto.
  - intros c q'. split; [eauto|]. intros (q & H1 & ->). auto.
Qed.
Lemma csim_trans npos f g d1 d2 d3 : cwf npos d1 -> cwf npos d2 ->
  csim npos f d1 d2 -> csim npos g d2 d3 -> csim npos (fun x => g (f x)) d1 d3.
Proof.
  intros (W1 & W2 & W3) (V1 & V2 & V3) (A1 & A2 & A3) (B1 & B2 & B3).
  assert (FN : forall i, i < N.of_nat (length (cd_states d1)) -> f i <> npos).
  { intros i Hi E. destruct (nth_error (cd_states d1) (N.to_nat i)) as [s|] eqn:Es; [|apply nth_error_None in Es; lia].
    destruct (A2 i s Es) as (s' & Es' & _). assert (N.to_nat (f i) < length (cd_states d2))%nat by (apply nth_error_Some; congruence). lia. }
  assert (MV : forall i, i = npos \/ i < N.of_nat (length (cd_states d1)) ->
     move_ix npos g (move_ix npos f i) = move_ix npos (fun x => g (f x)) i).
  { intros i Hi. unfold move_ix. destruct (N.eqb_spec i npos) as [->|E]; [now rewrite N.eqb_refl|].
    destruct Hi as [->|Hi]; [congruence|]. rewrite (proj2 (N.eqb_neq (f i) npos)); auto. }
  split; [rewrite B1, A1; apply MV; auto|]. split.
  - intros i s Es. destruct (A2 i s Es) as (s' & Es' & L1 & L2 & L3 & L4 & L5).
    destruct (B2 (f i) s' Es') as (s2 & Es2 & M1 & M2 & M3 & M4 & M5). exists s2. split; auto.
    split; [congruence|]. split; [congruence|]. split; [congruence|]. split.
    + rewrite M4, L4. apply MV. rewrite Forall_forall in W3. apply (W3 s). eapply nth_error_In; eauto.
    + intros c q'. rewrite M5. split.
      * intros (q & Hq & ->). apply L5 in Hq. destruct Hq as (q0 & Hq0 & ->). eauto.
      * intros (q & Hq & ->). exists (f q). split; auto. apply L5. eauto.
  - intros Hne. rewrite A3 by auto. apply B3. intros E. destruct (cd_states d1) as [|s l] eqn:El; [congruence|].
    destruct (A2 0 s eq_refl) as (s' & Es' & _). rewrite E in Es'. destruct (N.to_nat (f 0)); discriminate.
Qed.

(** ** One pass *)
Lemma retarget_ok lks tr : (forall q tok, In (q, tok) tr -> q < N.of_nat (length lks)) -> Forall (fun p => wf (snd p)) tr ->
  forall l, map_wf 0 l -> exists l', retarget lks tr l = Some l' /\ map_wf 0 l' /\
  forall q' c, tmem l' q' c <-> tmem l q' c \/ exists q, tmem tr q c /\ q' = nth (N.to_nat q) lks 0.
Proof.
  induction tr as [|[q tok] tr IH]; intros Hq Hw l Hl; cbn [retarget].
  - exists l. split; auto. split; auto. intros q' c. split; auto. intros [H|(q & H & _)]; auto. apply tmem_nil in H. tauto.
  - inversion Hw; subst. cbn [snd] in *. pose proof (Hq q tok (or_introl eq_refl)) as Hlt.
    rewrite (nth_error_nth' lks 0) by lia.
    destruct (madd_ok (nth (N.to_nat q) lks 0) tok l 0) as (W & M); auto; [lia|].
    destruct (IH ltac:(intros; eapply Hq; right; eauto) ltac:(auto) (madd (nth (N.to_nat q) lks 0) tok l) W) as (l' & E & W' & M').
    exists l'. split; auto. split; auto. intros q' c. rewrite M', M. split.
    + intros [[A|(-> & A)]|(p & A & B)]; auto; right; [exists q|exists p]; rewrite tmem_cons; auto.
    + intros [A|(p & A & B)]; auto. apply tmem_cons in A. destruct A as [(-> & A)|A]; auto. right; eauto.
Qed.
Lemma map_wf_toks lo l : map_wf lo l -> Forall (fun p => wf (snd p)) l.
Proof. revert lo. induction l as [|[q t] l IH]; intros lo; cbn; constructor; [tauto|eapply IH; apply H]. Qed.
Lemma map_wf_key lo l q tok : map_wf lo l -> In (q, tok) l -> lo <= q.
Proof.
  revert lo. induction l as [|[p t] l IH]; intros lo; cbn; [tauto|]. intros (A & B & C) [[= -> ->]|H]; auto.
  specialize (IH _ C H). lia.
Qed.

Section Pass.
Variables (npos : N) (d : cdfa).
Hypothesis Hwf : cwf npos d.
Let marks := cnum (fun _ => None) 0 (cd_states d).
Let lks := map snd marks.
Let f := fun i : N => nth (N.to_nat i) lks 0.

Lemma cnumber_is : cnumber npos (length (cd_states d)) 0 (map (fun s => (s, false, npos)) (cd_states d)) = marks.
Proof.
  unfold marks. rewrite <- cnumber_cnum with (npos := npos); [reflexivity| |discriminate].
  destruct Hwf as (H & _). lia.
Qed.
Lemma lks_len : length lks = length (cd_states d).
Proof. unfold lks, marks. now rewrite map_length, cnum_length. Qed.
Lemma f_kept i s : nth_error (cd_states d) (N.to_nat i) = Some s ->
  nth_error (ckept (cd_states d) marks) (N.to_nat (f i)) = Some s.
Proof.
  intros Hs. assert (Hi : (N.to_nat i < length (cd_states d))%nat) by (apply nth_error_Some; congruence).
  destruct (nth_error marks (N.to_nat i)) as [[dup lk]|] eqn:Em.
  2:{ apply nth_error_None in Em. unfold marks in Em. rewrite cnum_length in Em. lia. }
  assert (E : f i = lk).
  { unfold f, lks. apply nth_error_nth. rewrite nth_error_map, Em. reflexivity. }
  destruct (cnum_spec _ _ _ _ _ _ _ Hs Em) as [H|(_ & _ & H)]; [discriminate|].
  rewrite N.sub_0_r in H. rewrite E. exact H.
Qed.
Lemma f_first : cd_states d <> [] -> f 0 = 0.
Proof. unfold f, lks, marks. destruct (cd_states d); [congruence|]. intros _. reflexivity. Qed.

Lemma new_state_ok s : In s (cd_states d) -> exists s', new_state npos lks s = Some s' /\ like npos f s s' /\
  (forall n', (forall i, i < N.of_nat (length (cd_states d)) -> f i < n') ->
     (cs_eol s' = npos \/ cs_eol s' < n') /\ map_wf 0 (cs_trans s') /\ forall q tok, In (q, tok) (cs_trans s') -> q < n') .
Proof.
  intros Hs. destruct Hwf as (W1 & W2 & W3). rewrite Forall_forall in W3. destruct (W3 s Hs) as (S1 & S2 & S3).
  unfold new_state.
  assert (EE : (if cs_eol s =? npos then Some npos else nth_error lks (N.to_nat (cs_eol s))) = Some (move_ix npos f (cs_eol s))).
  { unfold move_ix. destruct (N.eqb_spec (cs_eol s) npos) as [E|E]; auto.
    unfold f. apply nth_error_nth'. rewrite lks_len. destruct S1; [congruence|lia]. }
  rewrite EE.
  destruct (retarget_ok lks (cs_trans s)) with (l := @nil (N * stoken)) as (tr & E & W & M).
  { rewrite lks_len. auto. }
  { eapply map_wf_toks; eauto. }
  { exact Logic.I. }
  rewrite E. eexists. split; [reflexivity|].
  assert (MV : forall c q', tmem tr q' c <-> exists q, cmoves s c q /\ q' = f q).
  { intros c q'. rewrite M, tmem_nil. split; [intros [[]|H]; exact H|intros H; right; exact H]. }
  split.
  - unfold like. cbn. auto 10.
  - intros n' Hn'. cbn. split; [|split; auto].
    + unfold move_ix. destruct (N.eqb_spec (cs_eol s) npos) as [E'|E']; auto. right. apply Hn'. destruct S1; [congruence|lia].
    + intros q tok Hin.
      assert (RK : forall tr l l', retarget lks tr l = Some l' -> (forall q t, In (q, t) tr -> q < N.of_nat (length (cd_states d))) ->
         (forall q t, In (q, t) l -> q < n') -> forall q t, In (q, t) l' -> q < n').
      { clear E W M Hin MV. intros tr0. induction tr0 as [|[p t] tr0 IH]; intros l l' E Hk Hl q1 t1 H1; cbn [retarget] in E.
        - injection E as <-. eauto.
        - destruct (nth_error lks (N.to_nat p)) as [p'|] eqn:Ep; [|discriminate].
          refine (IH _ _ E _ _ q1 t1 H1); [intros; eapply Hk; right; eauto|].
          assert (Hp' : p' < n').
          { rewrite <- (Nat2N.id (N.to_nat p)) in Ep. apply nth_error_nth with (d := 0) in Ep. rewrite Nat2N.id in Ep. rewrite <- Ep.
            apply (Hn' p). eapply Hk. left. reflexivity. }
          clear - Hl Hp'. revert Hl. generalize t as tk. intros tk Hl. clear t. induction l as [|[a b] l IHl]; cbn [madd]; intros q t.
          + intros [[= <- <-]|[]]. auto.
          + destruct (p' <? a); [intros [[= <- <-]|H]; eauto|].
            destruct (p' =? a); [intros [[= <- <-]|H]|intros [[= <- <-]|H]].
            * eapply Hl. left. reflexivity.
            * eapply Hl. right. eauto.
            * eapply Hl. left. reflexivity.
            * eapply IHl; [|exact H]. intros. eapply Hl. right. eauto. }
      refine (RK _ _ _ E S3 _ q tok Hin). intros ? ? [].
Qed.

Lemma new_states_ok : forall l mk, (forall s, In s l -> In s (cd_states d)) ->
  exists l', new_states npos lks l mk = Some l' /\
    length l' = length (ckept l mk) /\
    forall i s, nth_error (ckept l mk) i = Some s -> exists s', nth_error l' i = Some s' /\ new_state npos lks s = Some s'.
Proof.
  induction l as [|s l IH]; intros [|[dup x] mk] Hl; cbn [new_states ckept].
  - exists []. split; auto. split; auto. intros [|i] ? H; discriminate.
  - exists []. split; auto. split; auto. intros [|i] ? H; discriminate.
  - exists []. split; auto. split; auto. intros [|i] ? H; discriminate.
  - destruct (IH mk) as (l' & E & L & Nn); [intros; apply Hl; right; auto|]. destruct dup.
    + exists l'. auto.
    + destruct (new_state_ok s) as (s' & Es & _); [apply Hl; left; auto|]. rewrite Es, E. exists (s' :: l').
      split; auto. split; [cbn; lia|]. intros [|i] y Hy; cbn in Hy |- *; [injection Hy as <-; eauto|eauto].
Qed.

Theorem pass_ok : exists d', cminimise_dfa npos d = Some d' /\
  ((NoDup (cd_states d) /\ d' = d) \/
   (~ NoDup (cd_states d) /\ (length (cd_states d') < length (cd_states d))%nat /\
    cwf npos d' /\ exists g, csim npos g d d')).
Proof.
  unfold cminimise_dfa. rewrite cnumber_is. fold lks. destruct (existsb fst marks) eqn:Ex.
  2:{ exists d. split; auto. left. split; auto. apply (cnum_none _ _ _ Ex). }
  assert (BB : (if cd_bol d =? npos then Some npos else nth_error lks (N.to_nat (cd_bol d))) = Some (move_ix npos f (cd_bol d))).
  { unfold move_ix. destruct (N.eqb_spec (cd_bol d) npos) as [E|E]; auto.
    unfold f. apply nth_error_nth'. rewrite lks_len. destruct Hwf as (_ & [H|H] & _); [congruence|lia]. }
  rewrite BB. destruct (new_states_ok (cd_states d) marks) as (l' & E & L & Nn); auto. rewrite E.
  eexists. split; [reflexivity|]. right. cbn [cd_states].
  assert (LT : (length l' < length (cd_states d))%nat).
  { rewrite L. apply ckept_length_lt; auto. unfold marks. apply cnum_length. }
  assert (ND : ~ NoDup (cd_states d)).
  { intros ND. unfold marks in Ex. rewrite cnum_distinct in Ex; auto. discriminate. }
  split; auto. split; auto.
  assert (FL : forall i, i < N.of_nat (length (cd_states d)) -> f i < N.of_nat (length l')).
  { intros i Hi. destruct (nth_error (cd_states d) (N.to_nat i)) as [s|] eqn:Es; [|apply nth_error_None in Es; lia].
    apply f_kept in Es. assert (N.to_nat (f i) < length (ckept (cd_states d) marks))%nat by (apply nth_error_Some; congruence). lia. }
  split.
  - destruct Hwf as (W1 & W2 & W3). unfold cwf. cbn [cd_states cd_bol]. split; [lia|]. split.
    + unfold move_ix. destruct (N.eqb_spec (cd_bol d) npos) as [Eb|Eb]; auto. right. apply FL. destruct W2; [congruence|lia].
    + apply Forall_forall. intros s' Hs'. apply In_nth_error in Hs' as (i & Hi).
      assert (Hik : (i < length (ckept (cd_states d) marks))%nat) by (rewrite <- L; apply nth_error_Some; congruence).
      destruct (nth_error (ckept (cd_states d) marks) i) as [s|] eqn:Es; [|apply nth_error_None in Es; lia].
      destruct (Nn i s Es) as (s2 & E2 & En). rewrite Hi in E2. injection E2 as <-.
      destruct (new_state_ok s) as (s3 & E3 & _ & C3); [eapply ckept_in; eapply nth_error_In; eauto|].
      rewrite En in E3. injection E3 as <-. apply C3. auto.
  - exists f. unfold csim. cbn [cd_states cd_bol]. split; auto. split; [|exact f_first].
    intros i s Es. pose proof (f_kept i s Es) as Ek. destruct (Nn _ _ Ek) as (s' & Es' & En).
    exists s'. split; auto. destruct (new_state_ok s) as (s3 & E3 & C2 & _); [eapply nth_error_In; eauto|].
    rewrite En in E3. injection E3 as <-. auto.
Qed.
End Pass.

Theorem cminimise_loop_ok npos : forall fuel d, (length (cd_states d) <= fuel)%nat -> cwf npos d ->
  exists d', cminimise_loop fuel npos d = Ok d' /\ cwf npos d' /\ NoDup (cd_states d') /\
    (NoDup (cd_states d) -> d' = d) /\ exists f, csim npos f d d'.
Proof.
  induction fuel as [|fuel IH]; intros d Hf Hw.
  - destruct (pass_ok npos d Hw) as (d' & E & [(ND & ->)|(_ & LT & _)]); [|lia].
    exists d. cbn [cminimise_loop]. rewrite E, Nat.eqb_refl. split; auto. split; auto. split; auto. split; auto.
    eexists. apply csim_refl.
  - destruct (pass_ok npos d Hw) as (d' & E & [(ND & ->)|(ND & LT & W' & g & G)]).
    + exists d. cbn [cminimise_loop]. rewrite E, Nat.eqb_refl. split; auto. split; auto. split; auto. split; auto.
      eexists. apply csim_refl.
    + cbn [cminimise_loop]. rewrite E. rewrite (proj2 (Nat.eqb_neq _ _)) by lia.
      destruct (IH d') as (d2 & E2 & W2 & N2 & _ & f & F); [lia|auto|]. exists d2. split; auto. split; auto. split; auto.
      split; [tauto|]. eexists. eapply csim_trans; [exact Hw|exact W'|eauto|eauto].
Qed.

Theorem cminimise_ok npos : forall l, Forall (cwf npos) l ->
  exists l', cminimise npos l = Ok l' /\
    Forall2 (fun d d' => cwf npos d' /\ NoDup (cd_states d') /\ (NoDup (cd_states d) -> d' = d) /\ exists f, csim npos f d d') l l'.
Proof.
  induction 1 as [|d l Hd Hl (l' & E & F)]; cbn [cminimise].
  - exists []. auto.
  - destruct (Nat.eqb_spec (length (cd_states d)) 0) as [E0|E0]; cbn [bind].
    + rewrite E. cbn [bind]. exists (d :: l'). split; auto. constructor; auto. split; auto.
      split. { destruct (cd_states d); [constructor|discriminate]. } split; auto. eexists. apply csim_refl.
    + destruct (cminimise_loop_ok npos (length (cd_states d)) d (Nat.le_refl _) Hd) as (d' & E' & F').
      rewrite E'. cbn [bind]. rewrite E. cbn [bind]. exists (d' :: l'). split; auto.
Qed.

(** ** Words *)
Definition caccepts (d : cdfa) (i : N) (w : list N) (uid next : N) : Prop :=
  exists q s, cpath d i w q /\ nth_error (cd_states d) (N.to_nat q) = Some s /\ cs_end s = true /\
    cs_uid s = uid /\ cs_next s = next.

Lemma csim_path npos f d d' : cwf npos d -> csim npos f d d' -> forall w i q',
  i < N.of_nat (length (cd_states d)) ->
  (cpath d' (f i) w q' <-> exists q, cpath d i w q /\ q' = f q).
Proof.
  intros (W1 & W2 & W3) (A1 & A2 & A3). rewrite Forall_forall in W3. induction w as [|c w IH]; intros i q' Hi.
  - split.
    + intros H. inversion H; subst. exists i. split; [constructor|auto].
    + intros (q & H & ->). inversion H; subst. constructor.
  - destruct (nth_error (cd_states d) (N.to_nat i)) as [s|] eqn:Es; [|apply nth_error_None in Es; lia].
    destruct (A2 i s Es) as (s' & Es' & _ & _ & _ & _ & Mv).
    assert (KEY : forall j, cmoves s c j -> j < N.of_nat (length (cd_states d))).
    { intros j (tok & Hj & _). destruct (W3 s (nth_error_In _ _ Es)) as (_ & _ & H). eauto. }
    split.
    + intros H. inversion H as [|? s2 ? j ? ? E2 M2 P2]; subst. rewrite Es' in E2. injection E2 as <-.
      apply Mv in M2 as (j0 & M0 & ->). apply IH in P2 as (q & P & ->); [|eauto].
      exists q. split; auto. econstructor; eauto.
    + intros (q & H & ->). inversion H as [|? s2 ? j ? ? E2 M2 P2]; subst. rewrite Es in E2. injection E2 as <-.
      econstructor; [exact Es'|apply Mv; eauto|]. apply IH; eauto.
Qed.

Theorem csim_accepts npos f d d' : cwf npos d -> csim npos f d d' -> forall i w uid next,
  i < N.of_nat (length (cd_states d)) ->
  (caccepts d' (f i) w uid next <-> caccepts d i w uid next).
Proof.
  intros Hw Hs i w uid next Hi. pose proof Hs as (A1 & A2 & A3).
  assert (LT : forall q, cpath d i w q -> exists s, nth_error (cd_states d) (N.to_nat q) = Some s).
  { intros q H. clear - H Hi Hw. destruct Hw as (_ & _ & W3). rewrite Forall_forall in W3.
    assert (Hq : q < N.of_nat (length (cd_states d))).
    { induction H as [|i s c j w q E (tok & M & _) P IH]; auto. apply IH.
      destruct (W3 s (nth_error_In _ _ E)) as (_ & _ & H). eauto. }
    destruct (nth_error (cd_states d) (N.to_nat q)) eqn:E; eauto. apply nth_error_None in E. lia. }
  split.
  - intros (q' & s' & P & Es' & E1 & E2 & E3). apply (csim_path npos f d d' Hw Hs w i q' Hi) in P as (q & P & ->).
    destruct (LT q P) as (s & Es). destruct (A2 q s Es) as (s2 & Es2 & L1 & L2 & L3 & _).
    rewrite Es' in Es2. injection Es2 as <-. exists q, s. repeat split; auto; congruence.
  - intros (q & s & P & Es & E1 & E2 & E3). destruct (A2 q s Es) as (s2 & Es2 & L1 & L2 & L3 & _).
    exists (f q), s2. split; [apply (csim_path npos f d d' Hw Hs w i (f q) Hi); eauto|]. repeat split; auto; congruence.
Qed.

(** ** Converted machines are well formed *)
Lemma same_dfa_cwf k t n d : twf k t n -> same_dfa (npos k) t d -> N.of_nat (length (cd_states d)) = n - 1 -> cwf (npos k) d.
Proof.
  intros Hwf ((b & Hb & Eb) & HS) HL. pose proof Hwf as (N2 & Nn & W7 & Hlen & Hlk & Hcols & Htgt & Hbol).
  unfold cwf. rewrite HL. split; [lia|]. split.
  - rewrite Eb. destruct (N.eqb_spec b 0); auto. specialize (Hbol b Hb). lia.
  - apply Forall_forall. intros s Hs. apply In_nth_error in Hs as (i & Hi).
    assert (Hin : (i < length (cd_states d))%nat) by (apply nth_error_Some; congruence).
    destruct (HS i s Hi) as (_ & _ & _ & _ & (e & He & Ee) & _ & _ & W & K). split; [|split; auto].
    + rewrite Ee. destruct (N.eqb_spec e 0); auto. right.
      assert (e < n) by (eapply Htgt; [| |exact He]; unfold ix_eol, ix_trans in *; lia). lia.
    + intros q tok Hq. destruct (K q tok Hq) as (col & C1 & C2).
      assert (q + 1 < n) by (eapply Htgt; [| |exact C2]; unfold ix_eol, ix_trans in *; lia). lia.
Qed.
Lemma same_csm_cwf k m l : mwf k m -> length l = length (i_dfa m) ->
  (forall st t n, get_table m st = Some t -> twf k t n ->
      exists d, nth_error l (N.to_nat st) = Some d /\ N.of_nat (length (cd_states d)) = n - 1 /\ same_dfa (npos k) t d) ->
  Forall (cwf (npos k)) l.
Proof.
  intros Hm HL H. apply Forall_forall. intros d Hd. apply In_nth_error in Hd as (i & Hi).
  assert (i < length l)%nat by (apply nth_error_Some; congruence).
  destruct (Hm (N.of_nat i) ltac:(lia)) as (t & n & Ht & Hwf & _).
  destruct (H _ _ _ Ht Hwf) as (d' & E & L & S). rewrite Nat2N.id, Hi in E. injection E as <-.
  eapply same_dfa_cwf; eauto.
Qed.
