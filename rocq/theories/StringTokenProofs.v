(** Proofs about string_token.hpp: every operation is the exact set operation
    and keeps the normal form. *)
From Verif Require Import Base StringToken StringTokenSpec.
Local Open Scope N_scope.

Lemma mem_nil c : mem c [] <-> False.
Proof. unfold mem; firstorder. Qed.

Lemma mem_cons c a b t : mem c ((a, b) :: t) <-> (a <= c <= b) \/ mem c t.
Proof.
  unfold mem; split.
  - intros (a' & b' & [H|H] & Hc); [inversion H; subst; auto|right; eauto].
  - intros [H|(a' & b' & H & Hc)]; [exists a, b|exists a', b']; cbn; auto.
Qed.

Lemma mem_cons_r c (x : range) t :
  mem c (x :: t) <-> (fst x <= c <= snd x) \/ mem c t.
Proof. destruct x; apply mem_cons. Qed.

Lemma mem_app c t u : mem c (t ++ u) <-> mem c t \/ mem c u.
Proof.
  induction t as [|[a b] t IH]; cbn [app].
  - rewrite mem_nil; tauto.
  - rewrite !mem_cons, IH; tauto.
Qed.

Lemma memb_mem c t : memb c t = true <-> mem c t.
Proof.
  induction t as [|[a b] t IH]; cbn [memb existsb fst snd].
  - rewrite mem_nil; split; [discriminate|tauto].
  - rewrite mem_cons, orb_true_iff, <- IH. unfold memb. lia.
Qed.

Lemma wf_from_le lo lo' t : lo' <= lo -> wf_from lo t -> wf_from lo' t.
Proof. destruct t as [|[a b] t]; cbn [wf_from]; intuition lia. Qed.

Lemma wf_from_mem lo t c : wf_from lo t -> mem c t -> lo <= c.
Proof.
  revert lo; induction t as [|[a b] t IH]; cbn [wf_from]; intros lo.
  - rewrite mem_nil; tauto.
  - intros (? & ? & H) Hm. rewrite mem_cons in Hm. destruct Hm; [lia|].
    apply IH in H; auto; lia.
Qed.

(** Lower bound after passing [p]. *)
Fixpoint nxt (lo : N) (p : stoken) : N :=
  match p with [] => lo | x :: p' => nxt (snd x + 2) p' end.

Lemma wf_from_app lo p q :
  wf_from lo (p ++ q) <-> wf_from lo p /\ wf_from (nxt lo p) q.
Proof.
  revert lo; induction p as [|[a b] p IH]; intros lo; cbn [app wf_from nxt snd].
  - tauto.
  - rewrite IH; tauto.
Qed.

Lemma nxt_app lo p q : nxt lo (p ++ q) = nxt (nxt lo p) q.
Proof. revert lo; induction p as [|x p IH]; intros lo; cbn; auto. Qed.

Lemma nxt_ge lo p : wf_from lo p -> lo <= nxt lo p.
Proof.
  revert lo; induction p as [|[a b] p IH]; intros lo; cbn [wf_from nxt snd].
  - lia.
  - intros (? & ? & H); apply IH in H; lia.
Qed.

Lemma mem_nxt lo p c : wf_from lo p -> mem c p -> c + 2 <= nxt lo p.
Proof.
  revert lo; induction p as [|[a b] p IH]; intros lo; cbn [wf_from nxt snd].
  - rewrite mem_nil; tauto.
  - intros (? & ? & H) Hm. rewrite mem_cons in Hm. destruct Hm as [Hc|Hc].
    + apply nxt_ge in H; lia.
    + eapply IH; eauto.
Qed.

(** Membership as booleans, so that [lia] decides set reasoning. *)
Ltac mlia := rewrite <- ?memb_mem in *; lia.

Ltac tests := repeat match goal with
  | |- context [?a <? ?b] => destruct (N.ltb_spec a b)
  | |- context [?a =? ?b] => destruct (N.eqb_spec a b)
  end.

Lemma ins_true pre r rest :
  fst r <= snd r -> wf_from (fst r + 1) rest ->
  exists q rest', ins_loop pre true r rest = (pre ++ (fst r, q) :: rest', S (length pre))
    /\ snd r <= q /\ wf_from (q + 2) rest'
    /\ forall c, mem c ((fst r, q) :: rest') <-> (fst r <= c <= snd r) \/ mem c rest.
Proof.
  revert r; induction rest as [|[a b] rest IH]; intros [u v] Huv Hwf;
    cbn [ins_loop fst snd wf_from] in *.
  - exists v, []. unfold ins_finish. repeat split; cbn [wf_from]; auto; try lia.
    all: rewrite mem_cons; auto.
  - destruct Hwf as (Ha & Hab & Hwf).
    tests; try lia;
    match goal with
    | |- context [ins_loop pre true (?p, ?s) rest] =>
      destruct (IH (p, s)) as (q & rest' & E & Hq & Hw & Hm); cbn [fst snd] in *;
      [lia|eapply wf_from_le; [|eassumption]; lia|];
      exists q, rest'; split; [exact E|]; split; [lia|]; split; [exact Hw|];
      intros c; rewrite Hm, mem_cons; mlia
    | _ =>
      exists v, ((a, b) :: rest); unfold ins_finish; split; [reflexivity|];
      split; [lia|]; split; [cbn [wf_from]; repeat split; auto; lia|];
      intros c; rewrite !mem_cons; tauto
    end.
Qed.

Lemma ins_false lo pre r rest :
  fst r <= snd r -> lo <= fst r -> wf_from lo rest ->
  exists l' i, ins_loop pre false r rest = (pre ++ l', i)
    /\ wf_from lo l'
    /\ forall c, mem c l' <-> (fst r <= c <= snd r) \/ mem c rest.
Proof.
  revert lo pre r; induction rest as [|[a b] rest IH]; intros lo pre [u v] Huv Hlo Hwf;
    cbn [ins_loop fst snd wf_from] in *.
  - exists [(u, v)], (length pre). unfold ins_finish. repeat split; cbn [wf_from]; auto; try lia.
    all: rewrite mem_cons; auto.
  - destruct Hwf as (Ha & Hab & Hwf).
    tests; try lia;
    match goal with
    | |- context [ins_loop pre true (?p, ?s) rest] =>
      destruct (ins_true pre (p, s) rest) as (q & rest' & E & Hq & Hw & Hm); cbn [fst snd] in *;
      [lia|eapply wf_from_le; [|eassumption]; lia|];
      exists ((p, q) :: rest'), (S (length pre)); split; [exact E|];
      split; [cbn [wf_from]; repeat split; auto; lia|];
      intros c; rewrite Hm, mem_cons; mlia
    | |- context [ins_loop ?pp false ?rr rest] =>
      destruct (IH (b + 2) pp rr) as (l' & i & E & Hw & Hm);
        cbn [fst snd]; [lia|lia|auto|];
      exists ((a, b) :: l'), i; rewrite E, <- app_assoc; split; [reflexivity|];
      split; [cbn [wf_from]; auto|];
      intros c; cbn [fst snd] in Hm; rewrite !mem_cons, Hm; tauto
    | |- context [ins_finish] =>
      exists ((u, v) :: (a, b) :: rest), (length pre); split; [reflexivity|];
      split; [cbn [wf_from]; repeat split; auto; lia|];
      intros c; rewrite !mem_cons; tauto
    | _ =>
      exists ((a, b) :: rest), (length (pre ++ (a, b) :: rest)); split; [reflexivity|];
      split; [cbn [wf_from]; repeat split; auto; lia|];
      intros c; rewrite !mem_cons; mlia
    end.
Qed.

Theorem insert_correct t r :
  wf t -> fst r <= snd r ->
  wf (insert t r) /\ forall c, mem c (insert t r) <-> mem c t \/ (fst r <= c <= snd r).
Proof.
  intros Hw Hr. unfold insert, insert_idx.
  destruct (ins_false 0 [] r t) as (l' & i & E & Hw' & Hm); auto; try lia.
  rewrite E; cbn [fst app]. split; auto. intros c; rewrite Hm; tauto.
Qed.

Theorem insert_token_correct t u :
  wf t -> wf u ->
  wf (insert_token t u) /\ forall c, mem c (insert_token t u) <-> mem c t \/ mem c u.
Proof.
  unfold insert_token, wf at 2. intros Ht.
  generalize 0. revert t Ht. induction u as [|[a b] u IH]; intros t Ht lo; cbn [fold_left wf_from].
  - split; auto. intros; rewrite mem_nil; tauto.
  - intros (H1 & H2 & H3).
    destruct (insert_correct t (a, b)) as [Hw Hm]; auto.
    edestruct IH as [Hw' Hm']; eauto. split; auto.
    intros c. rewrite Hm', Hm, mem_cons. cbn [fst snd]. tauto.
Qed.

Lemma neg_loop_correct max l : forall next temp,
  wf_from next l -> (forall c, mem c l -> c <= max) -> next <= max ->
  wf temp -> (forall c, mem c temp -> c + 1 <= next) ->
  wf (neg_loop max next temp l) /\
  forall c, mem c (neg_loop max next temp l) <->
    mem c temp \/ (next <= c <= max /\ ~ mem c l).
Proof.
  induction l as [|[a b] l IH]; intros next temp Hl Hmx Hn Ht Htn;
    cbn [neg_loop wf_from fst snd] in *.
  - destruct (insert_correct temp (next, max)) as [Hw Hm]; auto.
    split; auto. intros c; rewrite Hm, mem_nil; cbn [fst snd]. tauto.
  - destruct Hl as (H1 & H2 & H3).
    assert (Hb : b <= max) by (apply Hmx; rewrite mem_cons; lia).
    set (temp' := if next <? a then _ else _).
    assert (Ht' : wf temp' /\ forall c, mem c temp' <-> mem c temp \/ next <= c < a).
    { subst temp'. destruct (N.ltb_spec next a).
      - destruct (insert_correct temp (next, a - 1)) as [Hw Hm]; auto; [cbn; lia|].
        split; auto. intros c; rewrite Hm; cbn [fst snd].
        split; intros [?|?]; auto; right; lia.
      - split; auto. intros c; split; intros [?|?] || intros ?; auto; lia. }
    clearbody temp'. destruct Ht' as [Hw' Hm'].
    destruct (N.ltb_spec b max).
    + destruct (IH (b + 1) temp') as [Hw Hm]; auto.
      * eapply wf_from_le; [|eassumption]; lia.
      * intros c Hc; apply Hmx; rewrite mem_cons; auto.
      * lia.
      * intros c Hc; rewrite Hm' in Hc. destruct Hc as [Hc|Hc]; [apply Htn in Hc|]; lia.
      * split; auto. intros c. rewrite Hm, Hm', mem_cons.
        assert (mem c l -> b + 2 <= c) by (intros; eapply wf_from_mem; eauto).
        split.
        -- intros [[?|?]|[? ?]]; auto; right; split; try lia; intros [?|?]; try lia; tauto.
        -- intros [?|[? Hno]]; auto.
           destruct (N.lt_ge_cases c a); [left; right; lia|].
           right. split; [|tauto]. assert (~ (a <= c <= b)) by tauto. lia.
    + split; auto. intros c. rewrite Hm', mem_cons.
      assert (mem c l -> b + 2 <= c) by (intros; eapply wf_from_mem; eauto).
      split; intros [?|?]; auto; right.
      * split; [lia|]. intros [?|?]; [lia|]. assert (b + 2 <= c) by auto. lia.
      * assert (~ (a <= c <= b)) by tauto. lia.
Qed.

Theorem negate_correct max t :
  wf t -> bounded max t ->
  wf (negate max t) /\ forall c, mem c (negate max t) <-> c <= max /\ ~ mem c t.
Proof.
  intros Hw Hb. unfold negate.
  destruct (neg_loop_correct max t 0 []) as [H1 H2]; auto; try lia.
  - exact I.
  - intros c; rewrite mem_nil; tauto.
  - split; auto. intros c; rewrite H2, mem_nil. split; intros; intuition lia.
Qed.

(** *** adjust *)
Lemma ins_skip r p : forall pre rest,
  (forall x, In x p -> snd x + 1 < fst r) ->
  ins_loop pre false r (p ++ rest) = ins_loop (pre ++ p) false r rest.
Proof.
  induction p as [|x p IH]; intros pre rest H; cbn [app].
  - rewrite app_nil_r; auto.
  - cbn [ins_loop]. assert (snd x + 1 < fst r) by (apply H; cbn; auto).
    tests; try lia.
    rewrite IH by (intros; apply H; cbn; auto). rewrite <- app_assoc; auto.
Qed.

Lemma ins_stop r pre rest :
  wf_from (snd r + 2) rest -> fst r <= snd r ->
  ins_loop pre false r rest = (pre ++ r :: rest, length pre).
Proof.
  destruct rest as [|[a b] rest]; intros H Hr; [reflexivity|].
  cbn [ins_loop wf_from fst snd] in *. tests; try lia. reflexivity.
Qed.

Lemma wf_from_In lo t x : wf_from lo t -> In x t -> fst x <= snd x /\ snd x + 2 <= nxt lo t.
Proof.
  revert lo; induction t as [|[a b] t IH]; intros lo; cbn [wf_from nxt snd In]; [tauto|].
  intros (H1 & H2 & H3) [H|H].
  - subst; cbn. apply nxt_ge in H3; lia.
  - eapply IH; eauto.
Qed.

Lemma firstn_here A (p q : list A) : firstn (length p) (p ++ q) = p.
Proof. induction p; cbn; congruence. Qed.
Lemma skipn_here A (p q : list A) : skipn (length p) (p ++ q) = q.
Proof. induction p; cbn; auto. Qed.

Lemma adjust_eq rg pre x rest :
  wf (pre ++ x :: rest) -> fst x <= fst rg -> fst rg <= snd rg -> snd rg <= snd x ->
  adjust rg pre x rest =
    if fst x <? fst rg then
      if snd rg <? snd x then
        (pre ++ [(fst x, fst rg - 1)], (snd rg + 1, snd x) :: rest)
      else (pre, (fst x, fst rg - 1) :: rest)
    else if snd rg <? snd x then (pre, (snd rg + 1, snd x) :: rest)
    else (pre, rest).
Proof.
  intros Hw H1 H2 H3. unfold adjust. destruct x as [a b], rg as [u v]; cbn [fst snd] in *.
  tests; auto.
  unfold wf in Hw. rewrite wf_from_app in Hw. cbn [wf_from] in Hw. destruct Hw as (Hp & Ha & Hb & Hr).
  unfold insert_idx.
  change (pre ++ (a, u - 1) :: rest) with (pre ++ [(a, u - 1)] ++ rest).
  rewrite app_assoc, ins_skip.
  - cbn [app]. rewrite ins_stop by (cbn [fst snd]; auto; lia).
    rewrite firstn_here, skipn_here. reflexivity.
  - intros x Hx. apply in_app_or in Hx. cbn [fst]. destruct Hx as [Hx|[Hx|[]]].
    + destruct (wf_from_In _ _ _ Hp Hx); lia.
    + subst x; cbn; lia.
Qed.

(** What adjust does to the split token, as sets. *)
Lemma adjust_correct rg pre x rest pre' rest' :
  wf (pre ++ x :: rest) -> fst x <= fst rg -> fst rg <= snd rg -> snd rg <= snd x ->
  adjust rg pre x rest = (pre', rest') ->
  wf (pre' ++ rest') /\
  (forall c, mem c (pre' ++ rest') <-> mem c (pre ++ x :: rest) /\ ~ (fst rg <= c <= snd rg)) /\
  (forall c, mem c pre' <-> mem c pre \/ (fst x <= c < fst rg /\ snd rg < snd x)) /\
  (forall c, mem c rest' -> mem c (x :: rest)).
Proof.
  intros Hw H1 H2 H3. rewrite adjust_eq by auto.
  destruct x as [a b], rg as [u v]; cbn [fst snd] in *.
  assert (Hd1 : forall c, mem c pre -> c + 2 <= a).
  { unfold wf in Hw. rewrite wf_from_app in Hw. cbn [wf_from] in Hw.
    destruct Hw as (Hp & Ha & _). intros c Hc. pose proof (mem_nxt _ _ _ Hp Hc). lia. }
  assert (Hd2 : forall c, mem c rest -> b + 2 <= c).
  { unfold wf in Hw. rewrite wf_from_app in Hw. cbn [wf_from] in Hw.
    destruct Hw as (_ & _ & _ & Hr). intros c Hc. eapply wf_from_mem; eauto. }
  unfold wf in *. rewrite wf_from_app in Hw. cbn [wf_from] in Hw.
  destruct Hw as (Hp & Ha & Hb & Hr).
  tests; intros E; inversion E; subst; clear E.
  - split; [|split; [|split]].
    + rewrite <- app_assoc. rewrite wf_from_app; cbn [app wf_from].
      repeat split; auto; lia.
    + intros c. rewrite <- app_assoc. cbn [app]. rewrite !mem_app, !mem_cons.
      specialize (Hd1 c); specialize (Hd2 c). split.
      * intros [?|[?|[?|?]]]; split; try tauto; lia || (right; left; lia) || idtac.
        all: intros ?; intuition lia.
      * intros [[?|[?|?]] ?]; try tauto. destruct (N.lt_ge_cases c u).
        -- right; left; lia.
        -- right; right; left; lia.
    + intros c. rewrite mem_app, mem_cons, mem_nil. split; intuition lia.
    + intros c. rewrite !mem_cons. intuition lia.
  - split; [|split; [|split]].
    + rewrite wf_from_app; cbn [app wf_from].
      repeat split; auto; try lia. eapply wf_from_le; [|eassumption]; lia.
    + intros c. rewrite !mem_app, !mem_cons.
      specialize (Hd1 c); specialize (Hd2 c). split; intuition lia.
    + intros c. intuition lia.
    + intros c. rewrite !mem_cons. intuition lia.
  - split; [|split; [|split]].
    + rewrite wf_from_app; cbn [app wf_from]. repeat split; auto; try lia.
    + intros c. rewrite !mem_app, !mem_cons.
      specialize (Hd1 c); specialize (Hd2 c). split; intuition lia.
    + intros c. intuition lia.
    + intros c. rewrite !mem_cons. intuition lia.
  - split; [|split; [|split]].
    + rewrite wf_from_app. split; auto. eapply wf_from_le; [|eassumption]; lia.
    + intros c. rewrite !mem_app, !mem_cons.
      specialize (Hd1 c); specialize (Hd2 c). split; intuition lia.
    + intros c. intuition lia.
    + intros c. rewrite !mem_cons. intuition lia.
Qed.

Lemma wf_zip pre x rest : wf (pre ++ x :: rest) ->
  fst x <= snd x /\ (forall c, mem c pre -> c + 2 <= fst x)
  /\ (forall c, mem c rest -> snd x + 2 <= c).
Proof.
  destruct x as [a b]. unfold wf. rewrite wf_from_app. cbn [wf_from fst snd].
  intros (Hp & Ha & Hb & Hr). repeat split; auto.
  - intros c Hc. pose proof (mem_nxt _ _ _ Hp Hc). lia.
  - intros c Hc. eapply wf_from_mem; eauto.
Qed.

Definition ovl (l r : stoken) : nat :=
  match l, r with
  | x :: _, y :: _ => if (snd x <? fst y) || (snd y <? fst x) then 0 else 1
  | _, _ => 0
  end.
Definition meas (l r : stoken) : nat := (2 * length l + 2 * length r + ovl l r)%nat.

Lemma ovl_le l r : (ovl l r <= 1)%nat.
Proof. unfold ovl. destruct l, r; auto. destruct (_ || _); auto. Qed.

Lemma zip_snoc (pre : stoken) x rest : (pre ++ [x]) ++ rest = pre ++ x :: rest.
Proof. rewrite <- app_assoc; auto. Qed.

Ltac fin H1 H2 :=
  rewrite ?app_nil_r in *;
  repeat match goal with
  | |- _ /\ _ => split
  | |- Ok _ = Ok _ => reflexivity
  | |- wf _ => assumption
  | |- forall c, _ => let c := fresh "c" in intros c; specialize (H1 c); specialize (H2 c);
      rewrite ?mem_app, ?mem_cons_r, ?mem_nil in *; mlia
  end.

Lemma isect_loop_correct fuel : forall lpre lrest rpre rrest ov,
  (meas lrest rrest <= fuel)%nat ->
  wf (lpre ++ lrest) -> wf (rpre ++ rrest) -> wf ov ->
  (forall c, mem c lpre -> ~ mem c (rpre ++ rrest)) ->
  (forall c, mem c rpre -> ~ mem c (lpre ++ lrest)) ->
  exists l' r' ov', isect_loop fuel lpre lrest rpre rrest ov = Ok (l', r', ov') /\
    wf l' /\ wf r' /\ wf ov' /\
    (forall c, mem c l' <-> mem c (lpre ++ lrest) /\ ~ mem c (rpre ++ rrest)) /\
    (forall c, mem c r' <-> mem c (rpre ++ rrest) /\ ~ mem c (lpre ++ lrest)) /\
    (forall c, mem c ov' <-> mem c ov \/ (mem c (lpre ++ lrest) /\ mem c (rpre ++ rrest))).
Proof.
  induction fuel as [|fuel IH]; intros lpre lrest rpre rrest ov Hf Hl Hr Ho H1 H2.
  - destruct lrest as [|x lrest], rrest as [|y rrest]; unfold meas in Hf; cbn [length] in Hf; try lia.
    cbn. exists (lpre ++ []), (rpre ++ []), ov. fin H1 H2.
  - destruct lrest as [|x lrest].
    { cbn. exists (lpre ++ []), (rpre ++ rrest), ov. fin H1 H2. }
    destruct rrest as [|y rrest].
    { cbn. exists (lpre ++ x :: lrest), (rpre ++ []), ov. fin H1 H2. }
    destruct (wf_zip _ _ _ Hl) as (Hx & Hlp & Hlr).
    destruct (wf_zip _ _ _ Hr) as (Hy & Hrp & Hrr).
    cbn [isect_loop].
    destruct (N.ltb_spec (snd x) (fst y)) as [Hlt|Hge].
    { assert (Hm : (meas lrest (y :: rrest) <= fuel)%nat).
      { unfold meas in *; cbn [length] in *. pose proof (ovl_le lrest (y :: rrest)). lia. }
      destruct (IH (lpre ++ [x]) lrest rpre (y :: rrest) ov) as (l' & r' & ov' & E & R); auto.
      - rewrite zip_snoc; auto.
      - intros c Hc. rewrite mem_app, mem_cons_r, mem_nil in Hc.
        destruct Hc as [Hc|[Hc|[]]]; [apply H1; auto|].
        intros Hc'. rewrite mem_app, mem_cons_r in Hc'. destruct Hc' as [Hc'|[Hc'|Hc']].
        + apply (H2 c Hc'). rewrite mem_app, mem_cons_r; auto.
        + lia.
        + apply Hrr in Hc'; lia.
      - rewrite zip_snoc; auto.
      - rewrite zip_snoc in R. exists l', r', ov'. auto. }
    destruct (N.ltb_spec (snd y) (fst x)) as [Hlt|Hge2].
    { assert (Hm : (meas (x :: lrest) rrest <= fuel)%nat).
      { unfold meas in *; cbn [length] in *. pose proof (ovl_le (x :: lrest) rrest). lia. }
      destruct (IH lpre (x :: lrest) (rpre ++ [y]) rrest ov) as (l' & r' & ov' & E & R); auto.
      - rewrite zip_snoc; auto.
      - rewrite zip_snoc; auto.
      - intros c Hc. rewrite mem_app, mem_cons_r, mem_nil in Hc.
        destruct Hc as [Hc|[Hc|[]]]; [apply H2; auto|].
        intros Hc'. rewrite mem_app, mem_cons_r in Hc'. destruct Hc' as [Hc'|[Hc'|Hc']].
        + apply (H1 c Hc'). rewrite mem_app, mem_cons_r; auto.
        + lia.
        + apply Hlr in Hc'; lia.
      - rewrite zip_snoc in R. exists l', r', ov'. auto. }
    (* overlap *)
    set (rg := common x y).
    assert (Hrg : fst x <= fst rg /\ fst y <= fst rg /\ fst rg <= snd rg /\ snd rg <= snd x
       /\ snd rg <= snd y /\ (fst rg = fst x \/ fst rg = fst y) /\ (snd rg = snd x \/ snd rg = snd y)).
    { subst rg; unfold common; cbn [fst snd]. tests; lia. }
    clearbody rg. destruct Hrg as (R1 & R2 & R3 & R4 & R5 & R6 & R7).
    destruct (adjust rg lpre x lrest) as [lpre' lrest'] eqn:EL.
    destruct (adjust rg rpre y rrest) as [rpre' rrest'] eqn:ER.
    destruct (adjust_correct _ _ _ _ _ _ Hl R1 R3 R4 EL) as (La & Lb & Lc & Ld).
    destruct (adjust_correct _ _ _ _ _ _ Hr R2 R3 R5 ER) as (Ra & Rb & Rc & Rd).
    destruct (insert_correct ov rg Ho R3) as (Oa & Ob).
    destruct (IH lpre' lrest' rpre' rrest' (insert ov rg)) as (l' & r' & ov' & E & G); auto.
    + (* measure *)
      rewrite adjust_eq in EL, ER by auto.
      unfold meas in *; cbn [length ovl] in Hf.
      destruct (N.ltb_spec (snd x) (fst y)); [lia|].
      destruct (N.ltb_spec (snd y) (fst x)); [lia|]. cbn [orb] in Hf.
      pose proof (ovl_le lrest' rrest').
      destruct (N.ltb_spec (fst x) (fst rg)), (N.ltb_spec (snd rg) (snd x)),
        (N.ltb_spec (fst y) (fst rg)), (N.ltb_spec (snd rg) (snd y)); try lia;
        inversion EL; inversion ER; subst; cbn [length] in *; try lia.
      all: cbn [ovl fst snd].
      all: match goal with |- context [if ?b then _ else _] => destruct b eqn:E' end; try lia.
    + intros c Hc Hc'. rewrite Rb in Hc'. destruct Hc' as [Hc' Hn].
      rewrite Lc in Hc. destruct Hc as [Hc|Hc]; [apply (H1 c); auto|].
      rewrite mem_app, mem_cons_r in Hc'. destruct Hc' as [Hc'|[Hc'|Hc']].
      * apply (H2 c Hc'). rewrite mem_app, mem_cons_r. right; left; lia.
      * lia.
      * apply Hrr in Hc'; lia.
    + intros c Hc Hc'. rewrite Lb in Hc'. destruct Hc' as [Hc' Hn].
      rewrite Rc in Hc. destruct Hc as [Hc|Hc]; [apply (H2 c); auto|].
      rewrite mem_app, mem_cons_r in Hc'. destruct Hc' as [Hc'|[Hc'|Hc']].
      * apply (H1 c Hc'). rewrite mem_app, mem_cons_r. right; left; lia.
      * lia.
      * apply Hlr in Hc'; lia.
    + exists l', r', ov'. split; [exact E|].
      destruct G as (G1 & G2 & G3 & G4 & G5 & G6). repeat split; auto.
      * apply G4 in H. rewrite Lb, Rb in H. tauto.
      * apply G4 in H. rewrite Lb, Rb in H. destruct H as [[Ha Hb] Hc]. intros Hd. tauto.
      * intros [Ha Hb]. apply G4. rewrite Lb, Rb. split; [split; auto|tauto].
        intros Hc. apply Hb. rewrite mem_app, mem_cons_r. right; left; lia.
      * apply G5 in H. rewrite Lb, Rb in H. tauto.
      * apply G5 in H. rewrite Lb, Rb in H. destruct H as [[Ha Hb] Hc]. intros Hd. tauto.
      * intros [Ha Hb]. apply G5. rewrite Lb, Rb. split; [split; auto|tauto].
        intros Hc. apply Hb. rewrite mem_app, mem_cons_r. right; left; lia.
      * intros Hc. apply G6 in Hc. rewrite Ob, Lb, Rb in Hc.
        destruct Hc as [[Hc|Hc]|Hc]; auto; [|tauto].
        right. rewrite !mem_app, !mem_cons_r. split; right; left; lia.
      * intros Hc. apply G6. rewrite Ob, Lb, Rb.
        destruct Hc as [Hc|[Ha Hb]]; auto.
        destruct (N.le_gt_cases (fst rg) c); [destruct (N.le_gt_cases c (snd rg))|];
          [left; right; lia| |]; right; repeat split; auto; lia.
Qed.

Theorem intersect_correct l r ov :
  wf l -> wf r -> wf ov ->
  exists l' r' ov', intersect l r ov = Ok (l', r', ov') /\
    wf l' /\ wf r' /\ wf ov' /\
    (forall c, mem c l' <-> mem c l /\ ~ mem c r) /\
    (forall c, mem c r' <-> mem c r /\ ~ mem c l) /\
    (forall c, mem c ov' <-> mem c ov \/ (mem c l /\ mem c r)).
Proof.
  intros Hl Hr Ho. unfold intersect.
  apply (isect_loop_correct _ [] l [] r ov); auto.
  - unfold meas. pose proof (ovl_le l r). lia.
  - intros c; rewrite mem_nil; tauto.
  - intros c; rewrite mem_nil; tauto.
Qed.

Lemma remove_loop_correct fuel : forall lpre lrest rpre rrest,
  (meas lrest rrest <= fuel)%nat ->
  wf (lpre ++ lrest) -> wf (rpre ++ rrest) ->
  (forall c, mem c lpre -> ~ mem c (rpre ++ rrest)) ->
  (forall c, mem c rpre -> ~ mem c (lpre ++ lrest)) ->
  exists l', remove_loop fuel lpre lrest rrest = Ok l' /\ wf l' /\
    (forall c, mem c l' <-> mem c (lpre ++ lrest) /\ ~ mem c (rpre ++ rrest)).
Proof.
  induction fuel as [|fuel IH]; intros lpre lrest rpre rrest Hf Hl Hr H1 H2.
  - destruct lrest as [|x lrest], rrest as [|y rrest]; unfold meas in Hf; cbn [length] in Hf; try lia.
    cbn. exists (lpre ++ []). fin H1 H2.
  - destruct lrest as [|x lrest].
    { cbn. exists (lpre ++ []). fin H1 H2. }
    destruct rrest as [|y rrest].
    { cbn. exists (lpre ++ x :: lrest). fin H1 H2. }
    destruct (wf_zip _ _ _ Hl) as (Hx & Hlp & Hlr).
    destruct (wf_zip _ _ _ Hr) as (Hy & Hrp & Hrr).
    cbn [remove_loop].
    destruct (N.ltb_spec (snd x) (fst y)) as [Hlt|Hge].
    { assert (Hm : (meas lrest (y :: rrest) <= fuel)%nat).
      { unfold meas in *; cbn [length] in *. pose proof (ovl_le lrest (y :: rrest)). lia. }
      destruct (IH (lpre ++ [x]) lrest rpre (y :: rrest)) as (l' & E & R); auto.
      - rewrite zip_snoc; auto.
      - intros c Hc. rewrite mem_app, mem_cons_r, mem_nil in Hc.
        destruct Hc as [Hc|[Hc|[]]]; [apply H1; auto|].
        intros Hc'. rewrite mem_app, mem_cons_r in Hc'. destruct Hc' as [Hc'|[Hc'|Hc']].
        + apply (H2 c Hc'). rewrite mem_app, mem_cons_r; auto.
        + lia.
        + apply Hrr in Hc'; lia.
      - rewrite zip_snoc; auto.
      - rewrite zip_snoc in R. exists l'. auto. }
    destruct (N.ltb_spec (snd y) (fst x)) as [Hlt|Hge2].
    { assert (Hm : (meas (x :: lrest) rrest <= fuel)%nat).
      { unfold meas in *; cbn [length] in *. pose proof (ovl_le (x :: lrest) rrest). lia. }
      destruct (IH lpre (x :: lrest) (rpre ++ [y]) rrest) as (l' & E & R); auto.
      - rewrite zip_snoc; auto.
      - rewrite zip_snoc; auto.
      - intros c Hc. rewrite mem_app, mem_cons_r, mem_nil in Hc.
        destruct Hc as [Hc|[Hc|[]]]; [apply H2; auto|].
        intros Hc'. rewrite mem_app, mem_cons_r in Hc'. destruct Hc' as [Hc'|[Hc'|Hc']].
        + apply (H1 c Hc'). rewrite mem_app, mem_cons_r; auto.
        + lia.
        + apply Hlr in Hc'; lia.
      - rewrite zip_snoc in R. exists l'. auto. }
    set (rg := common x y).
    assert (Hrg : fst x <= fst rg /\ fst y <= fst rg /\ fst rg <= snd rg /\ snd rg <= snd x
       /\ snd rg <= snd y /\ (fst rg = fst x \/ fst rg = fst y) /\ (snd rg = snd x \/ snd rg = snd y)).
    { subst rg; unfold common; cbn [fst snd]. tests; lia. }
    clearbody rg. destruct Hrg as (R1 & R2 & R3 & R4 & R5 & R6 & R7).
    destruct (adjust rg lpre x lrest) as [lpre' lrest'] eqn:EL.
    destruct (adjust_correct _ _ _ _ _ _ Hl R1 R3 R4 EL) as (La & Lb & Lc & Ld).
    destruct (IH lpre' lrest' rpre (y :: rrest)) as (l' & E & G); auto.
    + rewrite adjust_eq in EL by auto.
      unfold meas in *; cbn [length ovl] in Hf.
      destruct (N.ltb_spec (snd x) (fst y)); [lia|].
      destruct (N.ltb_spec (snd y) (fst x)); [lia|]. cbn [orb] in Hf.
      pose proof (ovl_le lrest' (y :: rrest)).
      destruct (N.ltb_spec (fst x) (fst rg)), (N.ltb_spec (snd rg) (snd x)); try lia;
        inversion EL; subst; cbn [length] in *; try lia.
      all: cbn [ovl fst snd].
      all: match goal with |- context [if ?b then _ else _] => destruct b eqn:E' end; try lia.
    + intros c Hc Hc'.
      rewrite Lc in Hc. destruct Hc as [Hc|Hc]; [apply (H1 c); auto|].
      rewrite mem_app, mem_cons_r in Hc'. destruct Hc' as [Hc'|[Hc'|Hc']].
      * apply (H2 c Hc'). rewrite mem_app, mem_cons_r. right; left; lia.
      * lia.
      * apply Hrr in Hc'; lia.
    + intros c Hc Hc'. rewrite Lb in Hc'. apply (H2 c); tauto.
    + exists l'. split; [exact E|]. destruct G as (G1 & G2). split; auto.
      intros c. rewrite G2, Lb. split; [tauto|]. intros [Ha Hb]. repeat split; auto.
      intros Hc. apply Hb. rewrite mem_app, mem_cons_r. right; left; lia.
Qed.

Theorem remove_correct l r :
  wf l -> wf r ->
  exists l', remove l r = Ok l' /\ wf l' /\ (forall c, mem c l' <-> mem c l /\ ~ mem c r).
Proof.
  intros Hl Hr. unfold remove.
  apply (remove_loop_correct _ [] l [] r); auto.
  - unfold meas. pose proof (ovl_le l r). lia.
  - intros c; rewrite mem_nil; tauto.
  - intros c; rewrite mem_nil; tauto.
Qed.

(** *** Canonicity *)
Lemma wf_from_canonical t : forall lo u,
  wf_from lo t -> wf_from lo u -> (forall c, mem c t <-> mem c u) -> t = u.
Proof.
  induction t as [|[a b] t IH]; intros lo [|[a' b'] u] Ht Hu H; auto.
  - exfalso. cbn in Hu. specialize (H a'). rewrite mem_nil, mem_cons in H. apply H. lia.
  - exfalso. cbn in Ht. specialize (H a). rewrite mem_nil, mem_cons in H. apply H. lia.
  - cbn in Ht, Hu. destruct Ht as (T1 & T2 & T3), Hu as (U1 & U2 & U3).
    assert (Ht' : forall c, mem c t -> b + 2 <= c) by (intros; eapply wf_from_mem; eauto).
    assert (Hu' : forall c, mem c u -> b' + 2 <= c) by (intros; eapply wf_from_mem; eauto).
    assert (Ea : a = a').
    { pose proof (H a) as Ha. pose proof (H a') as Ha'. rewrite !mem_cons in Ha, Ha'.
      destruct (N.lt_trichotomy a a') as [L|[L|L]]; auto; exfalso.
      - destruct (proj1 Ha) as [?|X]; [left; lia|lia|]. apply Hu' in X; lia.
      - destruct (proj2 Ha') as [?|X]; [left; lia|lia|]. apply Ht' in X; lia. }
    subst a'.
    assert (Eb : b = b').
    { destruct (N.lt_trichotomy b b') as [L|[L|L]]; auto; exfalso.
      - specialize (H (b + 1)). rewrite !mem_cons in H. destruct (proj2 H) as [?|X]; [left; lia|lia|].
        apply Ht' in X; lia.
      - specialize (H (b' + 1)). rewrite !mem_cons in H. destruct (proj1 H) as [?|X]; [left; lia|lia|].
        apply Hu' in X; lia. }
    subst b'. f_equal. eapply IH; eauto. intros c. specialize (H c). rewrite !mem_cons in H.
    split; intros X.
    + pose proof (Ht' _ X). destruct (proj1 H) as [?|?]; auto; lia.
    + pose proof (Hu' _ X). destruct (proj2 H) as [?|?]; auto; lia.
Qed.

Theorem canonical t u : wf t -> wf u -> (forall c, mem c t <-> mem c u) -> t = u.
Proof. apply wf_from_canonical. Qed.

(** *** The ordering used by std::map *)
Lemma range_cmp_eq a b : range_cmp a b = Eq <-> a = b.
Proof.
  destruct a as [a1 a2], b as [b1 b2]; unfold range_cmp; cbn [fst snd].
  destruct (N.compare_spec a1 b1).
  - subst. rewrite N.compare_eq_iff. split; intros; [subst; auto|congruence].
  - split; [discriminate|]. intros E; inversion E; lia.
  - split; [discriminate|]. intros E; inversion E; lia.
Qed.

Lemma range_cmp_antisym a b : range_cmp b a = CompOpp (range_cmp a b).
Proof.
  destruct a as [a1 a2], b as [b1 b2]; unfold range_cmp; cbn [fst snd].
  rewrite (N.compare_antisym a1 b1), (N.compare_antisym a2 b2).
  destruct (a1 ?= b1); auto.
Qed.

Lemma range_cmp_trans a b c : range_cmp a b = Lt -> range_cmp b c = Lt -> range_cmp a c = Lt.
Proof.
  destruct a as [a1 a2], b as [b1 b2], c as [c1 c2]; unfold range_cmp; cbn [fst snd].
  destruct (N.compare_spec a1 b1), (N.compare_spec b1 c1), (N.compare_spec a1 c1);
    rewrite ?N.compare_lt_iff; try discriminate; try lia; auto.
Qed.

Lemma st_cmp_eq a b : st_cmp a b = Eq <-> a = b.
Proof.
  revert b; induction a as [|x a IH]; intros [|y b]; cbn [st_cmp]; split; try discriminate; auto.
  - destruct (range_cmp x y) eqn:E; try discriminate. intros H.
    apply range_cmp_eq in E. apply IH in H. subst; auto.
  - intros H; inversion H; subst. assert (E : range_cmp y y = Eq) by (apply range_cmp_eq; auto).
    rewrite E. apply IH; auto.
Qed.

Lemma st_cmp_refl a : st_cmp a a = Eq.
Proof. apply st_cmp_eq; auto. Qed.

Lemma st_eqb_eq a b : st_eqb a b = true <-> a = b.
Proof.
  unfold st_eqb. rewrite <- st_cmp_eq. destruct (st_cmp a b); split; congruence.
Qed.

Lemma st_cmp_antisym a b : st_cmp b a = CompOpp (st_cmp a b).
Proof.
  revert b; induction a as [|x a IH]; intros [|y b]; cbn [st_cmp CompOpp]; auto.
  rewrite (range_cmp_antisym x y), IH. destruct (range_cmp x y); auto.
Qed.

Lemma st_cmp_trans a b c : st_cmp a b = Lt -> st_cmp b c = Lt -> st_cmp a c = Lt.
Proof.
  revert b c; induction a as [|x a IH]; intros [|y b] [|z c]; cbn [st_cmp]; try discriminate; auto.
  destruct (range_cmp x y) eqn:E1; try discriminate;
    destruct (range_cmp y z) eqn:E2; try discriminate; intros H1 H2.
  - apply range_cmp_eq in E1, E2. subst.
    assert (E : range_cmp z z = Eq) by (apply range_cmp_eq; auto). rewrite E. eauto.
  - apply range_cmp_eq in E1. subst. rewrite E2; auto.
  - apply range_cmp_eq in E2. subst. rewrite E1; auto.
  - rewrite (range_cmp_trans _ _ _ E1 E2); auto.
Qed.

Lemma any_correct max t : wf t -> bounded max t ->
  any max t = true <-> (forall c, c <= max -> mem c t).
Proof.
  intros Hw Hb. split.
  - unfold any. destruct t as [|[a b] [|? ?]]; try discriminate.
    intros H c Hc. apply mem_cons. left. lia.
  - intros H. assert (E : t = [(0, max)]).
    { apply canonical; auto.
      - cbn. lia.
      - intros c. rewrite mem_cons, mem_nil. split; intros X.
        + left. apply Hb in X. lia.
        + apply H. destruct X as [?|[]]. lia. }
    subst t. cbn. lia.
Qed.

Theorem inserts_correct rs : forall t,
  wf t -> Forall (fun r => fst r <= snd r) rs ->
  wf (fold_left insert rs t) /\
  forall c, mem c (fold_left insert rs t) <->
            mem c t \/ exists r, In r rs /\ fst r <= c <= snd r.
Proof.
  induction rs as [|r rs IH]; intros t Hw Hrs; cbn [fold_left].
  - split; auto. intros c; split; [auto|]. intros [?|(r & [] & _)]; auto.
  - inversion Hrs; subst.
    destruct (insert_correct t r) as [Hw' Hm]; auto.
    destruct (IH (insert t r)) as [Hw'' Hm']; auto.
    split; auto. intros c. rewrite Hm', Hm. split.
    + intros [[?|?]|(r' & ? & ?)]; auto; right; [exists r|exists r']; cbn; auto.
    + intros [?|(r' & [?|?] & ?)]; subst; auto. right; exists r'; auto.
Qed.

Theorem negate_negate max t : wf t -> bounded max t -> negate max (negate max t) = t.
Proof.
  intros Hw Hb. destruct (negate_correct max t Hw Hb) as [H1 H2].
  assert (Hb' : bounded max (negate max t)) by (intros c Hc; apply H2 in Hc; tauto).
  destruct (negate_correct max _ H1 Hb') as [H3 H4].
  apply canonical; auto. intros c. specialize (Hb c). rewrite H4, H2. mlia.
Qed.

Theorem built_wf max t : built max t -> wf t /\ bounded max t.
Proof.
  unfold bounded.
  induction 1 as [|t a b _ [W B] H1 H2|t u _ [W B] _ [W' B']|t _ [W B]
    |t u ov t' u' ov' _ [W B] _ [W' B'] _ [W'' B''] E|t u ov t' u' ov' _ [W B] _ [W' B'] _ [W'' B''] E
    |t u ov t' u' ov' _ [W B] _ [W' B'] _ [W'' B''] E|t u t' _ [W B] _ [W' B'] E].
  - split; [exact I|]. intros c; rewrite mem_nil; tauto.
  - destruct (insert_correct t (a, b) W H1) as [X Y]. split; auto.
    intros c Hc; apply Y in Hc. cbn in Hc. destruct Hc; [auto|lia].
  - destruct (insert_token_correct t u W W') as [X Y]. split; auto.
    intros c Hc; apply Y in Hc. destruct Hc; auto.
  - destruct (negate_correct max t W B) as [X Y]. split; auto.
    intros c Hc; apply Y in Hc. tauto.
  - destruct (intersect_correct t u ov W W' W'') as (x & y & z & E' & A1 & A2 & A3 & A4 & A5 & A6).
    rewrite E in E'; inversion E'; subst. split; auto. intros c Hc. apply A4 in Hc. apply B; tauto.
  - destruct (intersect_correct t u ov W W' W'') as (x & y & z & E' & A1 & A2 & A3 & A4 & A5 & A6).
    rewrite E in E'; inversion E'; subst. split; auto. intros c Hc. apply A5 in Hc. apply B'; tauto.
  - destruct (intersect_correct t u ov W W' W'') as (x & y & z & E' & A1 & A2 & A3 & A4 & A5 & A6).
    rewrite E in E'; inversion E'; subst. split; auto. intros c Hc. apply A6 in Hc.
    destruct Hc as [?|[? ?]]; auto.
  - destruct (remove_correct t u W W') as (x & E' & A1 & A2).
    rewrite E in E'; inversion E'; subst. split; auto. intros c Hc. apply A2 in Hc. apply B; tauto.
Qed.

Theorem built_equal max t u : built max t -> built max u ->
  (st_eqb t u = true <-> forall c, mem c t <-> mem c u).
Proof.
  intros Ht Hu. apply built_wf in Ht, Hu. destruct Ht, Hu. rewrite st_eqb_eq. split.
  - intros ->; tauto.
  - apply canonical; auto.
Qed.
