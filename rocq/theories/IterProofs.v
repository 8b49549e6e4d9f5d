(** Proofs about iterators and replace, from [looks]. *)
From Verif Require Import Base StateMachine Lookup TableSpec LookupSpec LookupThms LookupTile Iterator.
Local Open Scope N_scope.

(** The tokens up to the end of input and the result that reports the end. *)
Inductive lexed (k : cfg) (m : internals) (inp : list N) : results -> list results -> results -> Prop :=
| lexed_end fuel inner r r' :
    lookup fuel inner k m inp r = Ok (r', None) -> r_id r' = i_eoi m -> lexed k m inp r [] r'
| lexed_tok fuel inner r r' l z :
    lookup fuel inner k m inp r = Ok (r', None) -> r_id r' <> i_eoi m ->
    lexed k m inp r' l z -> lexed k m inp r (r' :: l) z.

Lemma lexed_lexes k m inp r l z : lexed k m inp r l z -> lexes k m inp r l.
Proof. induction 1; econstructor; eauto. Qed.

(** Text with the given ranges replaced: (first, second, new text). *)
Fixpoint edit (inp : list N) (p : nat) (l : list (nat * nat * list N)) : list N :=
  match l with
  | [] => skipn p inp
  | (a, b, s) :: l' => firstn (a - p) (skipn p inp) ++ s ++ edit inp b l'
  end.
Fixpoint ordered (inp : list N) (p : nat) (l : list results) : Prop :=
  match l with
  | [] => (p <= length inp)%nat
  | r :: l' => (p <= r_first r <= r_second r)%nat /\ ordered inp (r_second r) l'
  end.
Definition edits (inp : list N) (f : format) (l : list results) : list (nat * nat * list N) :=
  map (fun r => (r_first r, r_second r,
    match f (r_id r) with Some g => g (text inp r) | None => text inp r end)) l.

Lemma last_head {A} : forall (l : list A) x d, last (x :: l) d = last l x.
Proof.
  induction l as [|y l IH]; intros x d; [reflexivity|].
  change (last (x :: y :: l) d) with (last (y :: l) d). rewrite !IH. reflexivity.
Qed.

Section S.
Variables (k : cfg) (m : internals) (inp : list N).
Hypothesis Hm : mwf k m.
Hypothesis Hch : chars_ok k inp.

Lemma looks_first first r r' : (first <= r_second r)%nat -> (r_second r <= length inp)%nat ->
  looks k m inp first r r' None -> i_eoi m <> npos k ->
  (first <= r_first r' <= r_second r')%nat /\ (r_second r' <= length inp)%nat /\
  (r_id r' = i_eoi m -> r_second r' = length inp) /\
  (r_id r' <> i_eoi m -> (r_first r' < length inp)%nat).
Proof.
  intros Hf Hp H Hne. remember None as o eqn:Eo. revert Hf Hp Eo.
  induction H as [first r r' H1 ->|first r e id uid r' H1 H2 H3 H4 H5 H6 H7|first r e uid r1 r' o H1 H2 H3 IH
                 |first r e id uid r1 r' o H1 H2 H3 H4 H5 IH|first r c r' H1 H2 ->|]; intros Hf Hp Eo; subst; try discriminate; cbn [r_first r_second r_id].
  - split; [lia|]. split; [lia|]. split; [auto|congruence].
  - destruct H2 as (push & next & q & Hh & _ & -> & _). apply hits_pos in Hh; [|lia].
    split; [lia|]. split; [lia|]. split; [|lia]. intros E. exfalso. apply H4. left. auto.
  - destruct H2 as (push & next & q & Hh & _ & E & _). apply hits_pos in Hh; [|lia].
    rewrite <- E in Hh. destruct IH as (A & B & C); auto; lia.
  - destruct H2 as (push & next & q & Hh & _ & E & _). apply hits_pos in Hh; [|lia].
    rewrite <- E in Hh. destruct IH as (A & B & C); auto; lia.
  - assert (r_second r < length inp)%nat by (apply nth_error_Some; congruence).
    destruct (f_adv k); (split; [lia|]; split; [lia|]; split; [congruence|lia]).
Qed.

Lemma lookup_first fuel inner r r' : rwf m inp r -> i_eoi m <> npos k ->
  lookup fuel inner k m inp r = Ok (r', None) ->
  rwf m inp r' /\ (r_second r <= r_first r' <= r_second r')%nat /\ (r_second r' <= length inp)%nat /\
  (r_id r' = i_eoi m -> r_second r' = length inp) /\
  (r_id r' <> i_eoi m -> (r_first r' < length inp)%nat).
Proof.
  intros Hr Hne Hl. pose proof (lookup_looks fuel inner k m inp r Hm Hch Hr) as H. rewrite Hl in H.
  destruct H as (H & Hr'). split; auto. apply looks_first in H; auto. apply Hr.
Qed.

Lemma visit_dead n fuel inner r : visit n fuel inner k m inp {| it_res := r; it_live := false |} = Ok ([], None).
Proof. destruct n; reflexivity. Qed.
Lemma visit_live n fuel inner r r' : lookup fuel inner k m inp r = Ok (r', None) ->
  visit (S n) fuel inner k m inp {| it_res := r; it_live := true |} =
  (do q <- visit n fuel inner k m inp {| it_res := r'; it_live := negb (Nat.eqb (r_first r') (length inp)) |};
   let '(l, o') := q in Ok (r :: l, o')).
Proof. intros H. cbn [visit]. unfold iter_eqb at 1. cbn. unfold iter_lookup. cbn. rewrite H. reflexivity. Qed.
Lemma visit_other n fuel inner r l : visit n fuel inner k m inp {| it_res := r; it_live := true |} = Ok (l, None) ->
  exists n' r', n = S n' /\ lookup fuel inner k m inp r = Ok (r', None).
Proof.
  destruct n as [|n]; cbn [visit]; unfold iter_eqb at 1; cbn; [discriminate|]. unfold iter_lookup. cbn.
  destruct (lookup fuel inner k m inp r) as [[r' [e|]]| | |]; cbn; try discriminate. eauto.
Qed.

(** Not counting the first result of the range. *)
Lemma visit_spec fuel inner : i_eoi m <> npos k -> forall n r l,
  rwf m inp r -> r_id r <> i_eoi m ->
  visit n fuel inner k m inp {| it_res := r; it_live := true |} = Ok (l, None) ->
  exists l' z, lexed k m inp r l' z /\
    l = r :: l' ++ (if Nat.eqb (r_first z) (length inp) then [] else [z]).
Proof.
  intros Hne. induction n as [|n IH]; intros r l Hr Hid H.
  - destruct (visit_other _ _ _ _ _ H) as (n' & r' & E & _). discriminate.
  - destruct (visit_other _ _ _ _ _ H) as (n' & r' & E & El). inversion E; subst n'.
    rewrite (visit_live _ _ _ _ _ El) in H.
    destruct (lookup_first _ _ _ _ Hr Hne El) as (Hr' & Hp & Hlen & He & Hn).
    destruct (N.eq_dec (r_id r') (i_eoi m)) as [E'|E'].
    + exists [], r'. split; [econstructor; eauto|]. cbn [app].
      destruct (Nat.eqb_spec (r_first r') (length inp)) as [F|F]; cbn [negb] in H.
      * rewrite visit_dead in H. inversion H; reflexivity.
      * destruct n as [|n]; [discriminate|].
        rewrite (visit_live _ _ _ _ _ (lookup_at_end fuel inner k m inp r' (He E'))) in H.
        cbn [r_first] in H. rewrite (He E'), Nat.eqb_refl in H. cbn [negb] in H.
        rewrite visit_dead in H. inversion H; reflexivity.
    + assert (F : Nat.eqb (r_first r') (length inp) = false) by (apply Nat.eqb_neq; specialize (Hn E'); lia).
      rewrite F in H. cbn [negb] in H.
      destruct (visit n fuel inner k m inp {| it_res := r'; it_live := true |}) as [[l1 o1]| | |] eqn:Ev;
        cbn [bind] in H; try discriminate. inversion H; subst l o1.
      destruct (IH r' l1 Hr' E' Ev) as (l' & z & Hx & ->).
      exists (r' :: l'), z. split; [econstructor; eauto|]. reflexivity.
Qed.

Theorem visit_all_spec n fuel inner start bol state l : i_eoi m <> npos k ->
  rwf m inp (new_results k start bol state) ->
  visit_all n fuel inner k m inp start bol state = Ok (l, None) ->
  exists l' z, lexed k m inp (new_results k start bol state) l' z /\
    l = l' ++ (if Nat.eqb (r_first z) (length inp) then [] else [z]).
Proof.
  intros Hne Hr H. unfold visit_all, iter_begin, iter_lookup in H. cbn [it_live it_res] in H.
  destruct (lookup fuel inner k m inp _) as [[r o]| | |] eqn:El; cbn [bind] in H; try discriminate.
  destruct o as [e|]; [discriminate|]. cbn [bind] in H.
  destruct (lookup_first _ _ _ _ Hr Hne El) as (Hr' & Hp & Hlen & He & Hn).
  destruct (N.eq_dec (r_id r) (i_eoi m)) as [E|E].
  - exists [], r. split; [econstructor; eauto|]. cbn [app].
    destruct (Nat.eqb_spec (r_first r) (length inp)) as [F|F]; cbn [negb] in H.
    + rewrite visit_dead in H. inversion H; reflexivity.
    + destruct n as [|n]; [discriminate|].
      rewrite (visit_live _ _ _ _ _ (lookup_at_end fuel inner k m inp r (He E))) in H.
      cbn [r_first] in H. rewrite (He E), Nat.eqb_refl in H. cbn [negb] in H.
      rewrite visit_dead in H. inversion H; reflexivity.
  - assert (F : Nat.eqb (r_first r) (length inp) = false) by (apply Nat.eqb_neq; specialize (Hn E); lia).
    rewrite F in H. cbn [negb] in H.
    destruct (visit_spec fuel inner Hne n r l Hr' E H) as (l' & z & Hx & ->).
    exists (r :: l'), z. split; [econstructor; eauto|]. reflexivity.
Qed.

(** Without rules that join, the end is reported at the end. *)
Lemma lexed_last r l z : no_row_id m (i_eoi m) -> no_join_stack m r -> rwf m inp r -> i_eoi m <> npos k ->
  lexed k m inp r l z -> r_first z = length inp /\ r_second z = length inp.
Proof.
  intros Hno Hs Hr Hne H. revert Hs Hr.
  induction H as [fuel inner r z Hl Hid|fuel inner r r' l z Hl Hid Hx IH]; intros Hs Hr.
  - destruct (lookup_shape _ _ _ _ _ _ _ Hm Hch Hr Hno Hs Hl) as (r1 & _ & S2 & _ & D).
    destruct D as [(E & _ & _ & E')|[(e & _ & _ & Hn)|(_ & E & _)]]; try congruence.
    split; congruence.
  - destruct (lookup_shape _ _ _ _ _ _ _ Hm Hch Hr Hno Hs Hl) as (r1 & _ & S2 & S3 & _).
    destruct (lookup_first _ _ _ _ Hr Hne Hl) as (Hr' & _). auto.
Qed.

Theorem visit_tokens n fuel inner start bol state l : i_eoi m <> npos k -> no_row_id m (i_eoi m) ->
  rwf m inp (new_results k start bol state) ->
  visit_all n fuel inner k m inp start bol state = Ok (l, None) ->
  lexes k m inp (new_results k start bol state) l /\ Forall (fun r => r_id r <> i_eoi m) l.
Proof.
  intros Hne Hno Hr H. destruct (visit_all_spec _ _ _ _ _ _ _ Hne Hr H) as (l' & z & Hx & ->).
  destruct (lexed_last (new_results k start bol state) _ _ Hno (Forall_nil _) Hr Hne Hx) as (E & _).
  rewrite E, Nat.eqb_refl, app_nil_r. split; [eapply lexed_lexes; eauto|].
  clear - Hx. induction Hx; auto.
Qed.

(** The loop ends. *)
Lemma looks_no_throw first r r' o : f_rec k = false -> looks k m inp first r r' o -> o = None.
Proof. intros Hrec H. induction H; auto. destruct H1; congruence. Qed.

Section T.
Variables (b fuel inner : nat).
Hypothesis Hne0 : no_empty_match k m.
Hypothesis Hac : eol_acyclic m b.
Hypothesis Hadv : f_adv k = true.
Hypothesis Hrec : f_rec k = false.
Hypothesis Hfuel : (length inp < fuel)%nat.
Hypothesis Hinner : (length inp * S b + b < inner)%nat.

Lemma lookup_total r : rwf m inp r -> exists r', lookup fuel inner k m inp r = Ok (r', None).
Proof.
  intros Hr. destruct (lookup_terminates k m inp r b fuel inner) as (r1 & o & Hl); auto.
  pose proof (lookup_looks fuel inner k m inp r Hm Hch Hr) as H. rewrite Hl in H. destruct H as (H & _).
  apply looks_no_throw in H; auto. subst. eauto.
Qed.

Lemma visit_total : i_eoi m <> npos k -> forall n r live, rwf m inp r ->
  (length inp - r_second r + 2 <= n)%nat ->
  exists l, visit n fuel inner k m inp {| it_res := r; it_live := live |} = Ok (l, None).
Proof.
  intros Hne. induction n as [|n IH]; intros r live Hr Hn; [lia|].
  destruct live; [|rewrite visit_dead; eauto].
  destruct (lookup_total _ Hr) as (r' & El). rewrite (visit_live _ _ _ _ _ El).
  destruct (lookup_first _ _ _ _ Hr Hne El) as (Hr' & Hp & Hlen & He & Hf).
  assert (HV : exists l, visit n fuel inner k m inp {| it_res := r'; it_live := negb (r_first r' =? length inp)%nat |} = Ok (l, None)).
  { destruct (N.eq_dec (r_id r') (i_eoi m)) as [E|E].
    - destruct (Nat.eq_dec (r_second r) (length inp)) as [F|F].
      + rewrite (proj2 (Nat.eqb_eq (r_first r') (length inp))) by lia.
        cbn [negb]. rewrite visit_dead. eauto.
      + apply IH; auto. rewrite (He E); lia.
    - pose proof (lookup_progress _ _ _ _ _ _ _ Hm Hch Hne0 Hadv Hr El E).
      apply IH; auto; lia. }
  destruct HV as (l & ->). cbn [bind]. eauto.
Qed.

Theorem visit_all_total n start bol state : i_eoi m <> npos k ->
  rwf m inp (new_results k start bol state) -> (length inp + 2 <= n)%nat ->
  exists l, visit_all n fuel inner k m inp start bol state = Ok (l, None).
Proof.
  intros Hne Hr Hn. unfold visit_all, iter_begin, iter_lookup. cbn [it_live it_res].
  destruct (lookup_total _ Hr) as (r & El). rewrite El. cbn [bind].
  destruct (lookup_first _ _ _ _ Hr Hne El) as (Hr' & Hp & Hlen & He & Hf).
  apply visit_total; cbn [it_res]; auto; lia.
Qed.

Lemma replace_loop_total f put : i_eoi m = 0 -> i_eoi m <> npos k -> forall n r last out, rwf m inp r ->
  (last <= r_first r <= r_second r)%nat ->
  (r_id r <> i_eoi m -> (length inp - r_second r < n)%nat) ->
  exists t, replace_loop n fuel inner k m inp f put r last out = Ok t.
Proof.
  intros H0 Hne. induction n as [|n IH]; intros r last out Hr Hl Hn; cbn [replace_loop].
  - destruct (N.eqb_spec (r_id r) 0) as [E|E]; [|exfalso; rewrite H0 in Hn; specialize (Hn E); lia].
    unfold range. destruct Hr as (_ & _ & Hr).
    rewrite (proj2 (Nat.leb_le last (r_first r))), (proj2 (Nat.leb_le (r_first r) (length inp))) by lia.
    cbn. eauto.
  - assert (Hr0 := Hr). destruct Hr0 as (_ & _ & Hr0). unfold range.
    rewrite (proj2 (Nat.leb_le last (r_first r))), (proj2 (Nat.leb_le (r_first r) (length inp))),
            (proj2 (Nat.leb_le (r_first r) (r_second r))), (proj2 (Nat.leb_le (r_second r) (length inp))) by lia.
    cbn [andb bind]. destruct (N.eqb_spec (r_id r) 0) as [E|E]; [eauto|].
    destruct (lookup_total _ Hr) as (r' & El). rewrite El. cbn [bind].
    destruct (lookup_first _ _ _ _ Hr Hne El) as (Hr' & Hp & Hlen & He & Hf).
    rewrite H0 in Hn. specialize (Hn E).
    apply IH; auto. intros E'. pose proof (lookup_progress _ _ _ _ _ _ _ Hm Hch Hne0 Hadv Hr El E'). lia.
Qed.

Theorem replace_total f put n out : i_eoi m = 0 -> i_eoi m <> npos k ->
  rwf m inp (new_results k 0 true 0) -> (length inp < n)%nat ->
  exists t, replace n fuel inner k m inp f put out = Ok t.
Proof.
  intros H0 Hne Hr Hn. unfold replace.
  destruct (lookup_total _ Hr) as (r' & El). rewrite El. cbn [bind].
  destruct (lookup_first _ _ _ _ Hr Hne El) as (Hr' & Hp & Hlen & He & Hf).
  cbn [new_results r_second] in *.
  apply replace_loop_total; auto; lia.
Qed.
End T.

Lemma replace_loop_spec fuel inner f : i_eoi m = 0 -> i_eoi m <> npos k -> forall n r last out t,
  rwf m inp r -> (last <= r_first r <= r_second r)%nat ->
  replace_loop n fuel inner k m inp f insert r last out = Ok t ->
  (r_id r = 0 /\ t = out ++ firstn (r_first r - last) (skipn last inp)) \/
  (r_id r <> 0 /\ exists l z, lexed k m inp r l z /\ ordered inp last (r :: l) /\
    (r_first z = length inp -> t = out ++ edit inp last (edits inp f (r :: l)))).
Proof.
  intros H0 Hne. induction n as [|n IH]; intros r last out t Hr Hl H; cbn [replace_loop] in H.
  - destruct (N.eqb_spec (r_id r) 0) as [E|E]; [|discriminate].
    unfold range in H. destruct (_ && _)%bool; cbn in H; inversion H. left. auto.
  - destruct (N.eqb_spec (r_id r) 0) as [E|E].
    { unfold range in H. destruct (_ && _)%bool; cbn in H; inversion H. left. auto. }
    right. split; auto. unfold range in H.
    assert (Hr0 := Hr). destruct Hr0 as (_ & _ & Hr0).
    rewrite (proj2 (Nat.leb_le last (r_first r))), (proj2 (Nat.leb_le (r_first r) (length inp))),
            (proj2 (Nat.leb_le (r_first r) (r_second r))), (proj2 (Nat.leb_le (r_second r) (length inp))) in H by lia.
    cbn [andb bind] in H.
    destruct (lookup fuel inner k m inp r) as [[r' o]| | |] eqn:El; cbn [bind] in H; try discriminate.
    destruct o as [e|]; [discriminate|].
    destruct (lookup_first _ _ _ _ Hr Hne El) as (Hr' & Hp & Hlen & He & Hf).
    apply IH in H; auto; try lia. cbn [ordered].
    assert (T : forall x y : list N, insert (insert out x) y = out ++ x ++ y) by (intros; unfold insert; rewrite app_assoc; auto).
    destruct H as [(E' & ->)|(E' & l & z & Hx & Ho & Ht)].
    + exists [], r'. rewrite <- H0 in E'. split; [econstructor; eauto|]. cbn [ordered]. split; [lia|].
      intros Hz. rewrite T. cbn [edits edit map].
      rewrite Hz, <- (skipn_length (r_second r) inp), firstn_all, <- !app_assoc. reflexivity.
    + rewrite <- H0 in E'. exists (r' :: l), z. split; [econstructor; eauto|].
      split; [split; [lia|exact Ho]|]. intros Hz. rewrite (Ht Hz), T, <- !app_assoc. reflexivity.
Qed.

(** Everything a call of replace returns. *)
Theorem replace_spec n fuel inner f out t : i_eoi m = 0 -> i_eoi m <> npos k -> no_row_id m (i_eoi m) ->
  rwf m inp (new_results k 0 true 0) ->
  replace n fuel inner k m inp f insert out = Ok t ->
  exists l, lexes k m inp (new_results k 0 true 0) l /\ ordered inp 0 l /\
    t = out ++ edit inp 0 (edits inp f l).
Proof.
  intros H0 Hne Hno Hr H. unfold replace in H.
  destruct (lookup fuel inner k m inp _) as [[r o]| | |] eqn:El; cbn [bind] in H; try discriminate.
  destruct o as [e|]; [discriminate|].
  destruct (lookup_first _ _ _ _ Hr Hne El) as (Hr' & Hp & Hlen & He & Hf). cbn [new_results r_second] in Hp.
  apply replace_loop_spec in H; auto; try lia.
  destruct H as [(E & ->)|(E & l & z & Hx & Ho & Ht)].
  - exists []. rewrite <- H0 in E.
    assert (HL : lexed k m inp (new_results k 0 true 0) [] r) by (econstructor; eauto).
    split; [eapply lexed_lexes; eauto|]. split; [cbn; lia|].
    destruct (lexed_last (new_results k 0 true 0) _ _ Hno (Forall_nil _) Hr Hne HL) as (-> & _).
    cbn [edits edit map]. rewrite Nat.sub_0_r. cbn [skipn]. rewrite firstn_all. reflexivity.
  - exists (r :: l). rewrite <- H0 in E.
    assert (HL : lexed k m inp (new_results k 0 true 0) (r :: l) z) by (econstructor; eauto).
    split; [eapply lexed_lexes; eauto|]. split; [exact Ho|].
    apply Ht. eapply (lexed_last (new_results k 0 true 0) _ _ Hno (Forall_nil _) Hr Hne HL).
Qed.

(** The pieces between the tokens were consumed by skip rules. *)
Lemma lexes_gaps r l : no_row_id m (i_eoi m) -> no_join_stack m r -> rwf m inp r -> i_eoi m <> npos k ->
  lexes k m inp r l -> forall l1 t l2, l = l1 ++ t :: l2 ->
  exists r1, skipped k m inp (last l1 r) r1 /\ r_second r1 = r_first t.
Proof.
  intros Hno Hs Hr Hne H. revert Hs Hr.
  induction H as [fuel inner r z Hl Hid|fuel inner r r' l Hl Hid Hx IH]; intros Hs Hr l1 t l2 E.
  - destruct l1; discriminate.
  - destruct (lookup_shape _ _ _ _ _ _ _ Hm Hch Hr Hno Hs Hl) as (r1 & S1 & S2 & S3 & _).
    destruct (lookup_first _ _ _ _ Hr Hne Hl) as (Hr' & _).
    destruct l1 as [|x l1]; cbn [app] in E; inversion E; subst.
    + exists r1. auto.
    + destruct (IH S3 Hr' l1 t l2 eq_refl) as (r2 & A & B). exists r2. split; auto.
      rewrite last_head. exact A.
Qed.
End S.

(** Keeping every token gives the input back. *)
Lemma edit_same inp f : (forall id, f id = None) -> forall l p, ordered inp p l ->
  edit inp p (edits inp f l) = skipn p inp.
Proof.
  intros Hf. induction l as [|r l IH]; intros p Ho; [reflexivity|].
  cbn [edits map edit]. destruct Ho as (Hp & Ho). rewrite Hf.
  change (map _ l) with (edits inp f l). rewrite (IH _ Ho). unfold text.
  rewrite firstn_skipn_cat by lia. apply firstn_skipn_cat. lia.
Qed.
