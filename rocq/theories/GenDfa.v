(** The subset construction of generator.hpp: every row of the table stands for
    a set of positions, and its cells lead to the rows of the follow sets. *)
From Verif Require Import Base StringToken StateMachine Tree Partition PartitionProofs Generator.
From Coq Require Import Sorted.

(** ** Vectors of positions *)
Lemma add_follow_In fs p x : In x (add_follow fs p) <-> In x fs \/ x = p.
Proof.
  unfold add_follow. destruct (existsb (Nat.eqb p) fs) eqn:E.
  - apply existsb_exists in E as (y & Hy & Ey). apply Nat.eqb_eq in Ey. subst y.
    split; [auto|]. intros [H|H]; subst; auto.
  - rewrite in_app_iff. cbn. intuition.
Qed.
Lemma add_follows_In ps : forall fs x,
  In x (fold_left add_follow ps fs) <-> In x fs \/ In x ps.
Proof.
  induction ps as [|p ps IH]; cbn; intros fs x; [tauto|]. rewrite IH, add_follow_In.
  intuition.
Qed.
Lemma NoDup_snoc {A} (l : list A) a : NoDup l -> ~ In a l -> NoDup (l ++ [a]).
Proof.
  induction 1 as [|x l Hx Hl IH]; cbn; intros Ha; [constructor; [auto|constructor]|].
  constructor; [|apply IH; tauto]. rewrite in_app_iff. cbn. intuition.
Qed.
Lemma add_follow_NoDup fs p : NoDup fs -> NoDup (add_follow fs p).
Proof.
  intros H. unfold add_follow. destruct (existsb (Nat.eqb p) fs) eqn:E; [auto|].
  apply NoDup_snoc; [auto|]. intros Hi. rewrite <- not_true_iff_false in E. apply E.
  apply existsb_exists. exists p. split; [auto|]. apply Nat.eqb_refl.
Qed.
Lemma add_follows_NoDup ps : forall fs, NoDup fs -> NoDup (fold_left add_follow ps fs).
Proof. induction ps as [|p ps IH]; cbn; intros fs H; [auto|]. apply IH, add_follow_NoDup, H. Qed.

Definition vec (f : list nat) : list nat := fold_left add_follow f [].
Lemma vec_In f x : In x (vec f) <-> In x f.
Proof. unfold vec. rewrite add_follows_In. cbn. tauto. Qed.
Lemma vec_NoDup f : NoDup (vec f).
Proof. apply add_follows_NoDup. constructor. Qed.

Definition seteq (a b : list nat) : Prop := forall x, In x a <-> In x b.
Lemma subsetb_spec a b : subsetb a b = true <-> forall x, In x a -> In x b.
Proof.
  unfold subsetb. rewrite forallb_forall. split; intros H x Hx.
  - apply H in Hx. apply existsb_exists in Hx as (y & Hy & E). apply Nat.eqb_eq in E. now subst.
  - apply existsb_exists. exists x. split; [auto|]. apply Nat.eqb_refl.
Qed.
Lemma seteqb_spec a b : seteqb a b = true <-> seteq a b.
Proof.
  unfold seteqb, seteq. rewrite andb_true_iff, !subsetb_spec. firstorder.
Qed.
Lemma find_seen_some v seen : forall i, find_seen v seen = Some i ->
  exists w, nth_error seen i = Some w /\ seteq w v.
Proof.
  induction seen as [|x seen IH]; cbn; intros i H; [discriminate|].
  destruct (seteqb x v) eqn:E.
  - injection H as <-. exists x. split; [auto|]. now apply seteqb_spec.
  - destruct (find_seen v seen) as [j|]; [|discriminate]. injection H as <-. cbn. now apply IH.
Qed.
Lemma find_seen_none v seen : find_seen v seen = None ->
  forall i w, nth_error seen i = Some w -> ~ seteq w v.
Proof.
  induction seen as [|x seen IH]; cbn; intros H i w E; [destruct i; discriminate|].
  destruct (seteqb x v) eqn:Ex; [discriminate|].
  destruct (find_seen v seen) as [j|] eqn:F; [discriminate|].
  destruct i as [|i]; cbn in E; [|apply (IH eq_refl i w E)].
  injection E as <-. rewrite <- seteqb_spec. congruence.
Qed.

(** ** Tables *)
Definition at_ (rows : list (list N)) (i j : nat) : option N :=
  match nth_error rows i with Some r => nth_error r j | None => None end.

Lemma set_cell_ok w rows i j v : Forall (fun r => length r = w) rows ->
  (i < length rows)%nat -> (j < w)%nat ->
  exists rows', set_cell rows i j v = Ok rows' /\ length rows' = length rows /\
    Forall (fun r => length r = w) rows' /\ at_ rows' i j = Some v /\
    forall a b, (a, b) <> (i, j) -> at_ rows' a b = at_ rows a b.
Proof.
  intros HF Hi Hj. unfold set_cell.
  destruct (nth_error rows i) as [r|] eqn:E; [|apply nth_error_None in E; lia].
  assert (Lr : length r = w) by (rewrite Forall_forall in HF; apply HF; eapply nth_error_In; eauto).
  destruct (Nat.ltb_spec j (length r)); [|lia].
  eexists. split; [reflexivity|]. split; [apply upd_length|]. split; [|split].
  - apply Forall_forall. intros x Hx. apply In_nth_error in Hx as (a & Ea).
    destruct (Nat.eq_dec a i) as [->|Hn].
    + rewrite nth_error_upd_eq in Ea by auto. injection Ea as <-. now rewrite upd_length.
    + rewrite nth_error_upd_neq in Ea by auto. rewrite Forall_forall in HF. apply HF.
      eapply nth_error_In; eauto.
  - unfold at_. rewrite nth_error_upd_eq by auto. now apply nth_error_upd_eq.
  - intros a b Hab. unfold at_. destruct (Nat.eq_dec a i) as [->|Hn].
    + rewrite nth_error_upd_eq by auto. rewrite E. apply nth_error_upd_neq. congruence.
    + now rewrite nth_error_upd_neq by auto.
Qed.

Lemma at_defined w rows i j : Forall (fun r => length r = w) rows ->
  (i < length rows)%nat -> (j < w)%nat -> exists v, at_ rows i j = Some v.
Proof.
  intros HF Hi Hj. unfold at_.
  destruct (nth_error rows i) as [r|] eqn:E; [|apply nth_error_None in E; lia].
  assert (Lr : length r = w) by (rewrite Forall_forall in HF; apply HF; eapply nth_error_In; eauto).
  destruct (nth_error r j) as [v|] eqn:Ev; [eauto|apply nth_error_None in Ev; lia].
Qed.
Lemma at_app rows x i j : (i < length rows)%nat -> at_ (rows ++ x) i j = at_ rows i j.
Proof. intros H. unfold at_. now rewrite nth_error_app1. Qed.
Lemma at_lt rows i j v : at_ rows i j = Some v -> (i < length rows)%nat.
Proof. unfold at_. destruct (nth_error rows i) eqn:E; [|discriminate]. intros _. apply nth_error_Some. congruence. Qed.

Lemma nth_repeat_lt {A} (x : A) n i : (i < n)%nat -> nth_error (repeat x n) i = Some x.
Proof. intros H. now apply nth_error_repeat. Qed.

Lemma fresh_row_len w o : (7 <= w)%nat -> length (fresh_row w o) = w.
Proof.
  intros H. destruct o as [e|]; cbn [fresh_row]; [|apply repeat_length].
  rewrite app_length, repeat_length. cbn. lia.
Qed.
Lemma fresh_row_zero w o j : (5 <= j < w)%nat -> nth_error (fresh_row w o) j = Some 0%N.
Proof.
  intros H. destruct o as [e|]; cbn [fresh_row]; [|apply nth_repeat_lt; lia].
  rewrite nth_error_app2 by (cbn; lia). apply nth_repeat_lt. cbn. lia.
Qed.

(** ** Powerset bound *)
Fixpoint psets (l : list nat) : list (list nat) :=
  match l with
  | [] => [[]]
  | x :: l' => map (cons x) (psets l') ++ psets l'
  end.
Lemma psets_len l : length (psets l) = (2 ^ length l)%nat.
Proof.
  induction l as [|x l IH]; cbn; [auto|]. rewrite app_length, map_length, IH. lia.
Qed.
Lemma psets_filter f l : In (filter f l) (psets l).
Proof.
  induction l as [|x l IH]; cbn; [auto|]. apply in_or_app. destruct (f x); [|auto].
  left. now apply in_map.
Qed.
Definition canon (n : nat) (v : list nat) : list nat :=
  filter (fun x => existsb (Nat.eqb x) v) (seq 0 n).
Lemma canon_eq n v w : Forall (fun p => (p < n)%nat) v -> Forall (fun p => (p < n)%nat) w ->
  canon n v = canon n w -> seteq v w.
Proof.
  intros Hv Hw E x.
  assert (H : forall u, Forall (fun p => (p < n)%nat) u -> (In x u <-> In x (canon n u))).
  { intros u Hu. unfold canon. rewrite filter_In, in_seq, existsb_exists. split.
    - intros Hx. rewrite Forall_forall in Hu. split; [specialize (Hu x Hx); lia|].
      exists x. split; [auto|apply Nat.eqb_refl].
    - intros [_ (y & Hy & Ey)]. apply Nat.eqb_eq in Ey. now subst. }
  now rewrite (H v Hv), (H w Hw), E.
Qed.
Lemma distinct_bound n (seen : list (list nat)) :
  (forall i v, nth_error seen i = Some v -> Forall (fun p => (p < n)%nat) v) ->
  (forall i j v w, (i < j)%nat -> nth_error seen i = Some v -> nth_error seen j = Some w ->
     ~ seteq v w) ->
  (length seen <= 2 ^ n)%nat.
Proof.
  intros HB HD.
  assert (ND : NoDup (map (canon n) seen)).
  { clear -HB HD. induction seen as [|v seen IH]; cbn; constructor.
    - intros Hi. apply in_map_iff in Hi as (w & E & Hw). apply In_nth_error in Hw as (j & Ej).
      apply (HD 0%nat (S j) v w); auto; [lia|].
      apply (canon_eq n); [apply (HB 0%nat); auto|apply (HB (S j)); auto|auto].
    - apply IH.
      + intros i w Ei. apply (HB (S i)); auto.
      + intros i j u w Hij Eu Ew. apply (HD (S i) (S j)); auto. lia. }
  assert (L : (length (map (canon n) seen) <= length (psets (seq 0 n)))%nat).
  { apply NoDup_incl_length; [auto|]. intros x Hx. apply in_map_iff in Hx as (v & <- & _).
    apply psets_filter. }
  now rewrite map_length, psets_len, seq_length in L.
Qed.

(** ** The section *)
Section Dfa.
  Variables (k : gcfg) (fl : gflags) (s : store) (sm : list (list N)).
  Variables (cr nl : N) (width : nat) (used0 : list N).
  (** [V]: positions that can occur; [W]: positions that can occur after a step. *)
  Variables (V W : nat -> Prop).
  (** The rule a position belongs to. *)
  Variable rk : nat -> nat.
  (** The vector after pruning. *)
  Variable pf : list nat -> list nat.

  Definition special (t : N) : Prop := t = bol_tok k \/ t = eol_tok k.
  (** The columns of a token. *)
  Definition cset (t : N) : list N :=
    if ((t =? bol_tok k) || (t =? eol_tok k))%N then [t]
    else match nth_error sm (N.to_nat t) with Some l => l | None => [] end.

  Definition rksorted (v : list nat) : Prop := StronglySorted (fun p q => (rk p <= rk q)%nat) v.

  (** The first end node of a vector. *)
  Fixpoint first_end (v : list nat) : option einfo :=
    match v with
    | [] => None
    | p :: v' => match nth_error s p with Some (PEnd e) => Some e | _ => first_end v' end
    end.

  Lemma first_end_min v e : rksorted v -> first_end v = Some e ->
    exists p, In p v /\ nth_error s p = Some (PEnd e) /\
      forall q e', In q v -> nth_error s q = Some (PEnd e') -> (rk p <= rk q)%nat.
  Proof.
    induction 1 as [|p v HS IH HF]; cbn; [discriminate|]. intros E.
    destruct (nth_error s p) as [[t g f|e0]|] eqn:Ep.
    - destruct (IH E) as (p' & H1 & H2 & H3). exists p'. split; [auto|]. split; [auto|].
      intros q e' [<-|Hq] Eq; [congruence|eauto].
    - injection E as ->. exists p. split; [auto|]. split; [auto|]. intros q e' [<-|Hq] _; [auto|].
      rewrite Forall_forall in HF. auto.
    - destruct (IH E) as (p' & H1 & H2 & H3). exists p'. split; [auto|]. split; [auto|].
      intros q e' [<-|Hq] Eq; [congruence|eauto].
  Qed.
  Lemma first_end_none v : first_end v = None <->
    forall p e, In p v -> nth_error s p <> Some (PEnd e).
  Proof.
    induction v as [|p v IH]; cbn; [split; [intros _ ? ? []|auto]|].
    destruct (nth_error s p) as [[t g f|e0]|] eqn:Ep.
    - rewrite IH. split; intros H q e; [intros [<-|Hq]; [congruence|auto]|intros Hq; apply H; auto].
    - split; [discriminate|]. intros H. exfalso. apply (H p e0); auto.
    - rewrite IH. split; intros H q e; [intros [<-|Hq]; [congruence|auto]|intros Hq; apply H; auto].
  Qed.
  Lemma rksorted_snoc v p : rksorted v -> (forall q, In q v -> (rk q <= rk p)%nat) ->
    rksorted (v ++ [p]).
  Proof.
    induction 1 as [|x v HS IH HF]; cbn; intros H; [repeat constructor|].
    constructor; [apply IH; auto|]. apply Forall_app. split; [auto|]. constructor; [auto|constructor].
  Qed.
  Lemma rksorted_add v p : rksorted v -> (forall q, In q v -> (rk q <= rk p)%nat) ->
    rksorted (add_follow v p).
  Proof.
    intros H1 H2. unfold add_follow. destruct (existsb _ v); [auto|]. now apply rksorted_snoc.
  Qed.
  Lemma rksorted_adds ps : forall v, rksorted v -> rksorted ps ->
    (forall q p, In q v -> In p ps -> (rk q <= rk p)%nat) -> rksorted (fold_left add_follow ps v).
  Proof.
    induction ps as [|p ps IH]; cbn; intros v Hv Hp H; [auto|].
    inversion Hp as [|? ? HS HF]; subst. apply IH; auto.
    - apply rksorted_add; auto.
    - intros q p' Hq Hp'. apply add_follow_In in Hq as [Hq| ->]; [auto|].
      rewrite Forall_forall in HF. auto.
  Qed.
  Lemma rksorted_vec f : rksorted f -> rksorted (vec f).
  Proof. intros H. apply rksorted_adds; auto; [constructor|intros ? ? []]. Qed.
  Lemma rksorted_const f r : Forall (fun q => rk q = r) f -> rksorted f.
  Proof.
    induction 1 as [|x f Hx HF IH]; constructor; auto. eapply Forall_impl; [|exact HF].
    intros y Hy. cbn in *. lia.
  Qed.
  Lemma first_end_adds ps : forall v, first_end (fold_left add_follow ps v) =
    match first_end v with Some e => Some e | None => first_end ps end.
  Proof.
    assert (A : forall v w, first_end (v ++ w) =
      match first_end v with Some e => Some e | None => first_end w end).
    { induction v as [|p v IH]; intros w; [auto|]. cbn [app first_end].
      destruct (nth_error s p) as [[| ]|]; auto. }
    assert (B : forall v p, In p v -> first_end v = None -> forall e, nth_error s p <> Some (PEnd e)).
    { intros v p Hp H e. now apply (proj1 (first_end_none v) H). }
    induction ps as [|p ps IH]; cbn [fold_left]; intros v.
    - cbn. destruct (first_end v); auto.
    - rewrite IH. unfold add_follow. destruct (existsb (Nat.eqb p) v) eqn:E.
      + apply existsb_exists in E as (y & Hy & Ey). apply Nat.eqb_eq in Ey. subst y.
        destruct (first_end v) eqn:Ev; [auto|]. cbn [first_end].
        destruct (nth_error s p) as [[|e]|] eqn:Ep; auto. exfalso. apply (B v p Hy Ev e Ep).
      + rewrite A. destruct (first_end v) eqn:Ev; [auto|]. cbn [first_end].
        destruct (nth_error s p) as [[|e]|] eqn:Ep; auto.
  Qed.
  Lemma first_end_vec f : first_end (vec f) = first_end f.
  Proof. unfold vec. rewrite first_end_adds. reflexivity. Qed.

  Hypothesis width_ge : (7 <= width)%nat.
  Hypothesis width_le : (N.of_nat width <= gnpos k)%N.
  Hypothesis W_V : forall p, W p -> V p.
  Hypothesis V_lt : forall p, V p -> (p < length s)%nat.
  Hypothesis V_leaf : forall p t g f, V p -> nth_error s p = Some (PLeaf t g f) ->
    t <> gnpos k /\ (special t \/ (exists l, nth_error sm (N.to_nat t) = Some l)) /\
    StronglySorted N.lt (cset t) /\ cset t <> [] /\
    (special t \/ (forall c, In c (cset t) -> (N.to_nat c + 7 < width)%nat)) /\
    Forall V f /\ Forall (fun q => rk q = rk p) f.
  Hypothesis end_inj : forall p q e e', V p -> V q ->
    nth_error s p = Some (PEnd e) -> nth_error s q = Some (PEnd e') -> rk p = rk q -> p = q.
  (** Pruning as it was done, where it does something defined. *)
  Definition pruned (f f' : list nat) : Prop := prune_clashes (S (length f)) k s sm cr nl f 0 = Ok f'.
  Definition stuck (f : list nat) : Prop := forall f', ~ pruned f f'.
  Hypothesis prune_ok : forall f f', Forall V f -> pruned f f' ->
    f' = pf f /\ (forall x, In x (pf f) -> In x f) /\ (rksorted f -> rksorted (pf f)) /\ Forall W (pf f).

  Lemma first_end_seteq v w : Forall V v -> Forall V w -> rksorted v -> rksorted w ->
    seteq v w -> first_end v = first_end w.
  Proof.
    intros Vv Vw Sv Sw E. rewrite Forall_forall in Vv, Vw.
    destruct (first_end v) as [e|] eqn:Ev, (first_end w) as [e'|] eqn:Ew; auto.
    - apply first_end_min in Ev as (p & P1 & P2 & P3); auto.
      apply first_end_min in Ew as (q & Q1 & Q2 & Q3); auto.
      assert (p = q).
      { apply (end_inj p q e e'); auto. apply Nat.le_antisymm.
        - apply (P3 q e'); auto. now apply E.
        - apply (Q3 p e); auto. now apply E. }
      congruence.
    - apply first_end_min in Ev as (p & P1 & P2 & P3); auto. exfalso.
      apply (proj1 (first_end_none w) Ew p e); auto. now apply E.
    - apply first_end_min in Ew as (p & P1 & P2 & P3); auto. exfalso.
      apply (proj1 (first_end_none v) Ev p e'); auto. now apply E.
  Qed.


  (** ** closure *)

  Definition used_with (o : option einfo) (u : list N) : list N :=
    match o with
    | Some e => if suppressed_ok fl then u else sins (e_unique e) u
    | None => u
    end.
  Lemma closure_exs_ok ps : forall a, Forall V ps ->
    closure_exs fl s a ps = Ok {|
      a_end := match a_end a with Some e => Some e | None => first_end ps end;
      a_vec := fold_left add_follow ps (a_vec a);
      a_used := match a_end a with Some _ => a_used a | None => used_with (first_end ps) (a_used a) end |}.
  Proof.
    induction ps as [|p ps IH]; intros a H; cbn [closure_exs fold_left first_end].
    - destruct a as [[e|] v u]; reflexivity.
    - inversion H as [|? ? H1 H2]; subst. apply V_lt in H1. unfold closure_ex.
      destruct (nth_error s p) as [i|] eqn:E; [|apply nth_error_None in E; lia].
      destruct i as [t g f|e].
      + cbn [bind]. destruct a as [[e|] v u]; cbn [a_end a_vec a_used bind]; rewrite IH by auto; reflexivity.
      + destruct a as [[e'|] v u]; cbn [a_end a_vec a_used bind]; rewrite IH by auto; reflexivity.
  Qed.

  (** What holds of the registers at any time. *)
  Record binv (d : dstate) : Prop := {
    b_len : length (d_rows d) = S (length (d_seen d));
    b_shape : Forall (fun r => length r = width) (d_rows d);
    b_nodup : forall i v, nth_error (d_seen d) i = Some v -> NoDup v;
    b_V : forall i v, nth_error (d_seen d) i = Some v -> Forall V v;
    b_ne : forall i v, nth_error (d_seen d) i = Some v -> v <> [];
    b_sorted : forall i v, nth_error (d_seen d) i = Some v -> rksorted v;
    b_dist : forall i j v w, (i < j)%nat -> nth_error (d_seen d) i = Some v ->
       nth_error (d_seen d) j = Some w -> ~ seteq v w;
    b_info : forall i v j, nth_error (d_seen d) i = Some v -> (j < 5)%nat ->
       at_ (d_rows d) (S i) j = nth_error (fresh_row width (first_end v)) j;
    b_dead : forall i, (i <= length (d_seen d))%nat -> at_ (d_rows d) i 6 = Some 0%N;
    b_zero : forall j, (0 < j < width)%nat -> at_ (d_rows d) 0 j = Some 0%N;
    b_used : forall u, In u (d_used d) <-> In u used0 \/
       (suppressed_ok fl = false /\
        exists i v e, nth_error (d_seen d) i = Some v /\ first_end v = Some e /\ e_unique e = u)
  }.

  (** [d'] is [d] with more states. *)
  Definition grows (d d' : dstate) : Prop :=
    (exists more, d_seen d' = d_seen d ++ more) /\
    (forall i j, (i < length (d_rows d))%nat -> at_ (d_rows d') i j = at_ (d_rows d) i j) /\
    (forall i j, (length (d_rows d) <= i < length (d_rows d'))%nat -> (5 <= j < width)%nat ->
       at_ (d_rows d') i j = Some 0%N) /\
    d_eol d' = d_eol d.

  Lemma seen_app (d d' : dstate) more i v : d_seen d' = d_seen d ++ more ->
    nth_error (d_seen d) i = Some v -> nth_error (d_seen d') i = Some v.
  Proof.
    intros E H. rewrite E, nth_error_app1; [auto|]. apply nth_error_Some. congruence.
  Qed.

  Lemma closure_nil d : closure fl s width [] d = Ok (None, d).
  Proof. reflexivity. Qed.
  Lemma closure_ok f d : binv d -> f <> [] -> Forall V f -> rksorted f ->
    exists i w d', closure fl s width f d = Ok (Some (N.of_nat (S i)), d') /\
      binv d' /\ grows d d' /\ nth_error (d_seen d') i = Some w /\ seteq w f /\
      forall j u, nth_error (d_seen d') j = Some u -> nth_error (d_seen d) j = Some u \/ u = vec f.
  Proof.
    intros B Hne HV HS. unfold closure. destruct f as [|f0 f']; [congruence|].
    remember (f0 :: f') as f. rewrite closure_exs_ok by auto. cbn [bind a_vec a_used a_end].
    change (fold_left add_follow f []) with (vec f).
    destruct (find_seen (vec f) (d_seen d)) as [i|] eqn:F.
    - apply find_seen_some in F as (w & Ew & HE). exists i, w. eexists. split; [reflexivity|].
      split; [|split; [|split; [exact Ew|]]]; cycle 2.
      { split; [intros x; rewrite (HE x); apply vec_In|]. auto. }
      + destruct B. constructor; cbn [d_seen d_rows d_used d_eol]; auto.
        intros u. unfold used_with. destruct (first_end f) as [e|] eqn:Ee; [|apply b_used0].
        destruct (suppressed_ok fl) eqn:Es; [apply b_used0|].
        rewrite sins_In, b_used0. split.
        * intros [->|H]; [|auto]. right. split; [auto|]. exists i, w, e. split; [auto|]. split; [|auto].
          rewrite <- Ee. transitivity (first_end (vec f)); [|apply first_end_vec].
          apply first_end_seteq; eauto.
          -- apply Forall_forall. intros x Hx. rewrite vec_In in Hx. rewrite Forall_forall in HV. auto.
          -- now apply rksorted_vec.
        * intros [H|H]; auto.
      + split; [exists []; now rewrite app_nil_r|]. split; [auto|]. split; [|reflexivity].
        cbn [d_rows]. lia.
    - assert (NS := find_seen_none _ _ F). exists (length (d_seen d)), (vec f).
      eexists. split; [reflexivity|]. split; [|split; [|split]].
      + assert (LR : length (d_rows d) = S (length (d_seen d))) by apply (b_len _ B).
        assert (SP : forall i v, nth_error (d_seen d ++ [vec f]) i = Some v ->
          nth_error (d_seen d) i = Some v \/ (i = length (d_seen d) /\ v = vec f)).
        { intros i v E. destruct (Nat.lt_ge_cases i (length (d_seen d))) as [Hi|Hi].
          - rewrite nth_error_app1 in E by auto. auto.
          - rewrite nth_error_app2 in E by auto. destruct (i - length (d_seen d))%nat as [|y] eqn:Ey.
            + cbn in E. injection E as <-. right. split; [lia|auto].
            + destruct y; discriminate. }
        destruct B. constructor; cbn [d_seen d_rows d_used d_eol].
        * rewrite !app_length. cbn. lia.
        * apply Forall_app. split; [auto|]. constructor; [|constructor]. now apply fresh_row_len.
        * intros i v E. apply SP in E as [E|[-> ->]]; [eauto|apply vec_NoDup].
        * intros i v E. apply SP in E as [E|[-> ->]]; [eauto|].
          apply Forall_forall. intros x Hx. rewrite vec_In in Hx. rewrite Forall_forall in HV. auto.
        * intros i v E. apply SP in E as [E|[-> ->]]; [eauto|].
          intros Ev. assert (X : In f0 (vec f)) by (apply vec_In; subst f; left; auto).
          rewrite Ev in X. destruct X.
        * intros i v E. apply SP in E as [E|[-> ->]]; [eauto|now apply rksorted_vec].
        * intros i j v w Hij Ev Ew. apply SP in Ev as [Ev|[-> ->]].
          -- apply SP in Ew as [Ew|[-> ->]]; eauto.
          -- apply SP in Ew as [Ew|[-> ->]]; [|lia].
             assert (j < length (d_seen d))%nat by (apply nth_error_Some; congruence). lia.
        * intros i v j E Hj. apply SP in E as [E|[-> ->]].
          -- rewrite at_app; [eauto|].
             assert (i < length (d_seen d))%nat by (apply nth_error_Some; congruence). lia.
          -- unfold at_. rewrite nth_error_app2 by lia.
             replace (S (length (d_seen d)) - length (d_rows d))%nat with O by lia. cbn [nth_error].
             now rewrite first_end_vec.
        * intros i Hi. rewrite app_length in Hi. cbn in Hi.
          destruct (Nat.lt_ge_cases i (length (d_rows d))) as [Hi'|Hi'].
          -- rewrite at_app by auto. apply b_dead0. lia.
          -- unfold at_. rewrite nth_error_app2 by lia.
             replace (i - length (d_rows d))%nat with O by lia. cbn [nth_error].
             apply (fresh_row_zero width (first_end f) 6). lia.
        * intros j Hj. rewrite at_app by lia. auto.
        * intros u. unfold used_with.
          assert (X : (exists i v e, nth_error (d_seen d ++ [vec f]) i = Some v /\
                        first_end v = Some e /\ e_unique e = u) <->
                      (exists i v e, nth_error (d_seen d) i = Some v /\
                        first_end v = Some e /\ e_unique e = u) \/
                      (exists e, first_end f = Some e /\ e_unique e = u)).
          { split.
            - intros (i & v & e & E & H1 & H2). apply SP in E as [E|[-> ->]]; [left; exists i, v, e; auto|].
              right. exists e. split; [now rewrite <- first_end_vec|auto].
            - intros [(i & v & e & E & H1 & H2)|(e & H1 & H2)].
              + exists i, v, e. split; [|auto]. rewrite nth_error_app1; [auto|].
                apply nth_error_Some. congruence.
              + exists (length (d_seen d)), (vec f), e. split; [|now rewrite first_end_vec].
                rewrite nth_error_app2, Nat.sub_diag by lia. reflexivity. }
          rewrite X. destruct (first_end f) as [e|] eqn:Ee.
          -- destruct (suppressed_ok fl).
             ++ rewrite b_used0. intuition congruence.
             ++ rewrite sins_In, b_used0. split.
                ** intros [->|[H|[_ H]]]; [right|left; auto|right]; split; auto. right. exists e. auto.
                ** intros [H|[_ [H|(e' & H1 & H2)]]]; auto. injection H1 as <-. auto.
          -- rewrite b_used0. split; [intros [H|[H1 H]]; auto|].
             intros [H|[H1 [H|(e' & H2 & H3)]]]; auto. discriminate.
      + split; [exists [vec f]; reflexivity|]. cbn [d_rows d_eol]. split; [|split; [|reflexivity]].
        * intros i j Hi. now apply at_app.
        * intros i j Hi Hj. rewrite app_length in Hi. cbn in Hi. unfold at_.
          rewrite nth_error_app2 by lia.
          replace (i - length (d_rows d))%nat with O by lia. cbn [nth_error]. now apply fresh_row_zero.
      + cbn [d_seen]. rewrite nth_error_app2, Nat.sub_diag by lia. reflexivity.
      + split; [intros x; apply vec_In|]. intros j u E. cbn [d_seen] in E.
        destruct (Nat.lt_ge_cases j (length (d_seen d))) as [Hi|Hi].
        * rewrite nth_error_app1 in E by auto. auto.
        * rewrite nth_error_app2 in E by auto. destruct (j - length (d_seen d))%nat as [|y] eqn:Ey.
          -- cbn in E. injection E as <-. auto.
          -- destruct y; discriminate.
  Qed.

  (** ** Equivalence sets of one state *)
  Fixpoint equivs (v : list nat) : list equivset :=
    match v with
    | [] => []
    | p :: v' =>
      match nth_error s p with
      | Some (PLeaf t g f) =>
        {| q_index := cset t; q_id := t; q_greedy := g; q_follow := f |} :: equivs v'
      | _ => equivs v'
      end
    end.
  Lemma fill_equivs_ok v : Forall V v -> fill_equivs k s sm v = Ok (equivs v).
  Proof.
    induction 1 as [|p v Hp HF IH]; cbn [fill_equivs equivs]; [auto|].
    destruct (nth_error s p) as [[t g f|e]|] eqn:E; [|auto|].
    - destruct (V_leaf p t g f Hp E) as (H1 & H2 & _).
      destruct (N.eqb_spec t (gnpos k)); [congruence|].
      unfold cset. destruct ((t =? bol_tok k) || (t =? eol_tok k))%N eqn:Es.
      + cbn [bind]. rewrite IH. reflexivity.
      + destruct H2 as [[->| ->]|(l & El)].
        * rewrite N.eqb_refl in Es. discriminate.
        * rewrite N.eqb_refl, orb_true_r in Es. discriminate.
        * rewrite El. cbn [of_opt bind]. rewrite IH. reflexivity.
    - apply V_lt in Hp. apply nth_error_None in E. lia.
  Qed.
  Lemma equivs_In v q : In q (equivs v) <-> exists p t g f, In p v /\
    nth_error s p = Some (PLeaf t g f) /\
    q = {| q_index := cset t; q_id := t; q_greedy := g; q_follow := f |}.
  Proof.
    induction v as [|p v IH]; cbn [equivs].
    - split; [intros []|]. intros (p & t & g & f & [] & _).
    - assert (X : (exists p0 t g f, In p0 v /\ nth_error s p0 = Some (PLeaf t g f) /\
         q = {| q_index := cset t; q_id := t; q_greedy := g; q_follow := f |}) ->
         exists p0 t g f, In p0 (p :: v) /\ nth_error s p0 = Some (PLeaf t g f) /\
         q = {| q_index := cset t; q_id := t; q_greedy := g; q_follow := f |}).
      { intros (p0 & t & g & f & H & H'). exists p0, t, g, f. split; [right; auto|auto]. }
      destruct (nth_error s p) as [[t g f|e]|] eqn:E.
      + cbn [In]. rewrite IH. split.
        * intros [<-|H]; [|auto]. exists p, t, g, f. split; [left; auto|auto].
        * intros (p0 & t0 & g0 & f0 & [<-|Hp] & E0 & ->).
          -- left. congruence.
          -- right. exists p0, t0, g0, f0. auto.
      + rewrite IH. split; [auto|]. intros (p0 & t0 & g0 & f0 & [<-|Hp] & E0 & ->); [congruence|].
        exists p0, t0, g0, f0. auto.
      + rewrite IH. split; [auto|]. intros (p0 & t0 & g0 & f0 & [<-|Hp] & E0 & ->); [congruence|].
        exists p0, t0, g0, f0. auto.
  Qed.

  (** [q] comes after a position of [v] that reads column [c]. *)
  Definition rd (p : nat) (c : N) : Prop :=
    exists t g f, nth_error s p = Some (PLeaf t g f) /\ In c (cset t).
  Definition nx (p : nat) (c : N) (x : nat) : Prop :=
    exists t g f, nth_error s p = Some (PLeaf t g f) /\ In c (cset t) /\ In x f.
  Definition gr (p : nat) (g : greedy) : Prop :=
    exists t f, nth_error s p = Some (PLeaf t g f).
  Definition tval (v : list nat) (c : N) : option (greedy * list nat) := eq_value (equivs v) c.

  Lemma tval_gen v c : Forall V v -> rksorted v -> forall acc,
    (match acc with
     | Some (g, f) => rksorted f /\ Forall V f /\
         forall p x, In p v -> In x f -> (rk x <= rk p)%nat
     | None => True end) ->
    match fold_left (fun acc x => if eq_pin x c then add eq_comb acc (eq_pay x) else acc)
            (equivs v) acc with
    | None => acc = None /\ forall p, In p v -> ~ rd p c
    | Some (g', f') =>
       (acc <> None \/ exists p, In p v /\ rd p c) /\
       rksorted f' /\ Forall V f' /\
       (forall x, In x f' <-> (match acc with Some (_, f) => In x f | None => False end) \/
                               exists p, In p v /\ nx p c x) /\
       ((match acc with Some (g, _) => g <> GNo | None => True end) ->
        (forall p g, In p v -> rd p c -> gr p g -> g <> GNo) -> g' <> GNo) /\
       ((match acc with Some (g, _) => g = GNo | None => True end) ->
        (forall p g, In p v -> rd p c -> gr p g -> g = GNo) -> g' = GNo)
    end.
  Proof using V_leaf pf W.
    clear prune_ok end_inj W_V V_lt width_le width_ge.
    induction v as [|p v IH]; intros HV HS acc Hacc; cbn [equivs fold_left].
    - destruct acc as [(g, f)|].
      + destruct Hacc as (H1 & H2 & H3). split; [left; discriminate|]. split; [auto|].
        split; [auto|]. split; [|auto]. intros x. split; [auto|]. intros [H|(p & [] & _)]; auto.
      + split; [auto|]. intros p [].
    - inversion HV as [|? ? Vp Vv]; subst. inversion HS as [|? ? Sv Fp]; subst.
      rewrite Forall_forall in Fp.
      assert (NL : (forall t g f, nth_error s p <> Some (PLeaf t g f)) ->
        forall c', ~ rd p c' /\ forall x, ~ nx p c' x).
      { intros H c'. split; [intros (t & g & f & E & _)|intros x (t & g & f & E & _)]; eapply H; eauto. }
      assert (SKIP : ~ rd p c -> (forall x, ~ nx p c x) ->
        match fold_left (fun acc x => if eq_pin x c then add eq_comb acc (eq_pay x) else acc)
                (equivs v) acc with
        | None => acc = None /\ forall p', In p' (p :: v) -> ~ rd p' c
        | Some (g', f') =>
           (acc <> None \/ exists p', In p' (p :: v) /\ rd p' c) /\
           rksorted f' /\ Forall V f' /\
           (forall x, In x f' <-> (match acc with Some (_, f) => In x f | None => False end) \/
                                   exists p', In p' (p :: v) /\ nx p' c x) /\
           ((match acc with Some (g, _) => g <> GNo | None => True end) ->
            (forall p' g, In p' (p :: v) -> rd p' c -> gr p' g -> g <> GNo) -> g' <> GNo) /\
           ((match acc with Some (g, _) => g = GNo | None => True end) ->
            (forall p' g, In p' (p :: v) -> rd p' c -> gr p' g -> g = GNo) -> g' = GNo)
        end).
      { intros N1 N2. specialize (IH Vv Sv acc).
        destruct (fold_left _ (equivs v) acc) as [(g', f')|].
        - destruct IH as (I1 & I2 & I3 & I4 & I5 & I6).
          { destruct acc as [(g, f)|]; [|auto]. destruct Hacc as (H1 & H2 & H3).
            split; [auto|]. split; [auto|]. intros p' x Hp' Hx. apply H3; [right; auto|auto]. }
          split; [destruct I1 as [|(p' & ? & ?)]; [auto|right; exists p'; split; [right; auto|auto]]|].
          split; [auto|]. split; [auto|]. split; [|split].
          + intros x. rewrite I4. split.
            * intros [H|(p' & ? & ?)]; [auto|right; exists p'; split; [right; auto|auto]].
            * intros [H|(p' & [<-|?] & Hn)]; [auto|exfalso; eapply N2; eauto|right; eauto].
          + intros H1 H2. apply I5; auto. intros p' g Hp'. apply H2. right; auto.
          + intros H1 H2. apply I6; auto. intros p' g Hp'. apply H2. right; auto.
        - destruct IH as (I1 & I2).
          { destruct acc as [(g, f)|]; [|auto]. destruct Hacc as (H1 & H2 & H3).
            split; [auto|]. split; [auto|]. intros p' x Hp' Hx. apply H3; [right; auto|auto]. }
          split; [auto|]. intros p' [<-|Hp']; auto. }
      destruct (nth_error s p) as [[t g f|e]|] eqn:E.
      + cbn [fold_left]. unfold eq_pin at 2, eq_pay at 2. cbn [q_index q_greedy q_follow].
        destruct (inb c (cset t)) eqn:Ei.
        2:{ apply inb_not in Ei. apply SKIP.
            - intros (t' & g' & f' & E' & Hc). rewrite E in E'. injection E' as -> -> ->. auto.
            - intros x (t' & g' & f' & E' & Hc & _). rewrite E in E'. injection E' as -> -> ->. auto. }
        apply inb_In in Ei. destruct (V_leaf p t g f Vp E) as (_ & _ & _ & _ & _ & Wf & Rf).
        assert (Hrd : rd p c) by (exists t, g, f; auto).
        assert (Hnx : forall x, nx p c x <-> In x f).
        { intros x. split.
          - intros (t' & g' & f' & E' & _ & Hx). rewrite E in E'. injection E' as -> -> ->. auto.
          - intros Hx. exists t, g, f. auto. }
        assert (Hgr : forall g0, gr p g0 -> g0 = g).
        { intros g0 (t' & f' & E'). rewrite E in E'. now injection E' as -> -> ->. }
        specialize (IH Vv Sv (add eq_comb acc (g, f))).
        rewrite Forall_forall in Rf.
        destruct acc as [(g0, f0)|].
        * unfold add in *. cbn [eq_comb fst snd] in *. unfold eq_comb in *. cbn [fst snd] in *.
          destruct Hacc as (H1 & H2 & H3).
          specialize (IH ltac:(
            split; [apply rksorted_adds; [auto|apply (rksorted_const _ (rk p)); apply Forall_forall; auto|
                     intros q q' Hq Hq'; rewrite (Rf q' Hq'); apply H3; [left; auto|auto]]|];
            split; [apply Forall_forall; intros x Hx; apply add_follows_In in Hx as [Hx|Hx];
                    [rewrite Forall_forall in H2; auto|rewrite Forall_forall in Wf; auto]|];
            intros p' x Hp' Hx; apply add_follows_In in Hx as [Hx|Hx];
              [apply H3; [right; auto|auto]|rewrite (Rf x Hx); apply Fp; auto])).
          destruct (fold_left _ (equivs v) _) as [(g', f')|]; [|destruct IH; discriminate].
          destruct IH as (I1 & I2 & I3 & I4 & I5 & I6).
          split; [left; discriminate|]. split; [auto|]. split; [auto|]. split; [|split].
          -- intros x. rewrite I4, add_follows_In. split.
             ++ intros [[H|H]|(p' & ? & ?)]; [auto| |].
                ** right. exists p. split; [left; auto|]. now apply Hnx.
                ** right. exists p'. split; [right; auto|auto].
             ++ intros [H|(p' & [<-|?] & Hn)]; [auto| |right; eauto]. left. right. now apply Hnx.
          -- intros Hg HA. apply I5.
             ++ unfold process_greedy. destruct g0; [congruence|discriminate|discriminate].
             ++ intros p' g1 Hp'. apply HA. right; auto.
          -- intros Hg HA. apply I6.
             ++ subst g0. assert (g = GNo) by (apply (HA p); [left; auto|auto|exists t, f; auto]).
                subst g. reflexivity.
             ++ intros p' g1 Hp'. apply HA. right; auto.
        * unfold add in *.
          specialize (IH ltac:(
            split; [apply (rksorted_const _ (rk p)); apply Forall_forall; auto|];
            split; [auto|]; intros p' x Hp' Hx; rewrite (Rf x Hx); apply Fp; auto)).
          destruct (fold_left _ (equivs v) _) as [(g', f')|]; [|destruct IH; discriminate].
          destruct IH as (I1 & I2 & I3 & I4 & I5 & I6).
          split; [right; exists p; split; [left; auto|auto]|]. split; [auto|]. split; [auto|]. split; [|split].
          -- intros x. rewrite I4. split.
             ++ intros [H|(p' & ? & ?)].
                ** right. exists p. split; [left; auto|]. now apply Hnx.
                ** right. exists p'. split; [right; auto|auto].
             ++ intros [[]|(p' & [<-|?] & Hn)]; [|right; eauto]. left. now apply Hnx.
          -- intros _ HA. apply I5.
             ++ apply (HA p); [left; auto|auto|exists t, f; auto].
             ++ intros p' g1 Hp'. apply HA. right; auto.
          -- intros _ HA. apply I6.
             ++ apply (HA p); [left; auto|auto|exists t, f; auto].
             ++ intros p' g1 Hp'. apply HA. right; auto.
      + destruct (NL ltac:(discriminate) c). apply SKIP; auto.
      + destruct (NL ltac:(discriminate) c). apply SKIP; auto.
  Qed.

  Lemma tval_spec v c : Forall V v -> rksorted v ->
    match tval v c with
    | None => forall p, In p v -> ~ rd p c
    | Some (g, f) => (exists p, In p v /\ rd p c) /\ rksorted f /\ Forall V f /\
        (forall x, In x f <-> exists p, In p v /\ nx p c x) /\
        ((forall p g, In p v -> rd p c -> gr p g -> g <> GNo) -> g <> GNo) /\
        ((forall p g, In p v -> rd p c -> gr p g -> g = GNo) -> g = GNo)
    end.
  Proof using V_leaf pf W.
    clear prune_ok end_inj W_V V_lt width_le width_ge.
    intros HV HS. assert (H := tval_gen v c HV HS None I). unfold tval, eq_value, value.
    destruct (fold_left _ (equivs v) None) as [(g, f)|].
    - destruct H as (H1 & H2 & H3 & H4 & H5 & H6). split; [destruct H1; [congruence|auto]|].
      split; [auto|]. split; [auto|]. split; [|split; auto]. intros x. rewrite H4. tauto.
    - tauto.
  Qed.

  (** ** Writing transitions *)
  Definition loc (row : nat) (c : N) : nat * nat :=
    if (c =? bol_tok k)%N then (O, O)
    else if (c =? eol_tok k)%N then (row, 5%nat) else (row, (N.to_nat c + 7)%nat).
  Definition allowed (c : N) : Prop := special c \/ (N.to_nat c + 7 < width)%nat.

  Lemma bol_eol : bol_tok k <> eol_tok k.
  Proof. unfold bol_tok, eol_tok. lia. Qed.
  Lemma small_not_special c : (N.to_nat c + 7 < width)%nat -> ~ special c.
  Proof. unfold special, bol_tok, eol_tok. intros H [->| ->]; lia. Qed.
  Lemma loc_inj row c c' : (1 <= row)%nat -> allowed c -> allowed c' ->
    loc row c = loc row c' -> c = c'.
  Proof.
    intros Hr H1 H2. unfold loc.
    destruct (N.eqb_spec c (bol_tok k)), (N.eqb_spec c' (bol_tok k)); try congruence.
    - destruct (N.eqb_spec c' (eol_tok k)); intros E; injection E; lia.
    - destruct (N.eqb_spec c (eol_tok k)); intros E; injection E; lia.
    - destruct (N.eqb_spec c (eol_tok k)), (N.eqb_spec c' (eol_tok k)); intros E; try congruence;
        injection E; lia.
  Qed.
  Definition at2 (d : dstate) (x : nat * nat) : option N := at_ (d_rows d) (fst x) (snd x).

  Lemma set_transition_ok tr row d c : binv d -> (1 <= row <= length (d_seen d))%nat ->
    allowed c ->
    exists d', set_transition k tr row d c = Ok d' /\ binv d' /\
      d_seen d' = d_seen d /\ length (d_rows d') = length (d_rows d) /\
      at2 d' (loc row c) = Some tr /\
      (forall x, x <> loc row c -> at2 d' x = at2 d x) /\
      (forall x, In x (d_eol d') <-> In x (d_eol d) \/ (x = N.of_nat row /\ c = eol_tok k)).
  Proof.
    intros B Hr Hc. unfold set_transition, loc.
    assert (LR := b_len _ B). assert (SH := b_shape _ B). assert (BE := bol_eol).
    assert (GO : forall i j eol', (i < length (d_rows d))%nat -> (j < width)%nat ->
      ((i = O /\ j = O) \/ (i = row /\ (j = 5 \/ 7 <= j)%nat)) ->
      (forall x, In x eol' <-> In x (d_eol d) \/ (x = N.of_nat row /\ c = eol_tok k)) ->
      exists d', (do rows <- set_cell (d_rows d) i j tr;
        Ok {| d_seen := d_seen d; d_rows := rows; d_used := d_used d; d_eol := eol' |}) = Ok d' /\
        binv d' /\ d_seen d' = d_seen d /\ length (d_rows d') = length (d_rows d) /\
        at2 d' (i, j) = Some tr /\
        (forall x, x <> (i, j) -> at2 d' x = at2 d x) /\
        (forall x, In x (d_eol d') <-> In x (d_eol d) \/ (x = N.of_nat row /\ c = eol_tok k))).
    { intros i j eol' Hi Hj Hij He.
      destruct (set_cell_ok width (d_rows d) i j tr SH Hi Hj) as (rows' & E & L & SH' & A1 & A2).
      rewrite E. cbn [bind]. eexists. split; [reflexivity|].
      split; [|split; [reflexivity|split; [exact L|split; [exact A1|split; [|exact He]]]]].
      - destruct B. constructor; cbn [d_seen d_rows d_used d_eol]; auto.
        + now rewrite L.
        + intros i' v j' Ev Hj'. rewrite A2; [eauto|]. intros X. injection X as <- <-. lia.
        + intros i' Hi'. rewrite A2; [eauto|]. intros X. injection X as <- <-. lia.
        + intros j' Hj'. rewrite A2; [eauto|]. intros X. injection X as <- <-. lia.
      - intros (a, b) Hx. unfold at2. cbn [fst snd d_rows]. now apply A2. }
    destruct (N.eqb_spec c (bol_tok k)) as [->|Hb]; [|destruct (N.eqb_spec c (eol_tok k)) as [->|He]].
    - apply GO; auto; [lia|lia|]. intros x. split; [auto|]. intros [H|[_ H]]; [auto|congruence].
    - apply GO; [lia|cbn; lia|right; cbn; lia|]. intros x. rewrite sins_In. intuition.
    - replace (N.to_nat (c + ix_trans))%nat with (N.to_nat c + 7)%nat by (unfold ix_trans; lia).
      destruct Hc as [[->| ->]|Hc]; [congruence|congruence|].
      apply GO; [lia|lia|right; lia|]. intros x. split; [auto|]. intros [H|[_ H]]; [auto|congruence].
  Qed.
  Lemma set_transitions_ok tr row is : forall d, binv d -> (1 <= row <= length (d_seen d))%nat ->
    Forall allowed is ->
    exists d', set_transitions k tr row is d = Ok d' /\ binv d' /\
      d_seen d' = d_seen d /\ length (d_rows d') = length (d_rows d) /\
      (forall c, In c is -> at2 d' (loc row c) = Some tr) /\
      (forall x, (forall c, In c is -> x <> loc row c) -> at2 d' x = at2 d x) /\
      (forall x, In x (d_eol d') <-> In x (d_eol d) \/ (x = N.of_nat row /\ In (eol_tok k) is)).
  Proof.
    induction is as [|c is IH]; intros d B Hr Hc; cbn [set_transitions].
    - exists d. split; [auto|]. split; [auto|]. split; [auto|]. split; [auto|].
      split; [intros ? []|]. split; [auto|]. cbn. tauto.
    - inversion Hc as [|? ? H1 H2]; subst.
      destruct (set_transition_ok tr row d c B Hr H1) as (d1 & E1 & B1 & S1 & L1 & A1 & F1 & G1).
      rewrite E1. cbn [bind].
      destruct (IH d1 B1 ltac:(rewrite S1; auto) H2) as (d2 & E2 & B2 & S2 & L2 & A2 & F2 & G2).
      exists d2. split; [auto|]. split; [auto|]. split; [congruence|]. split; [congruence|].
      split; [|split].
      + intros c' [<-|Hc']; [|auto].
        destruct (in_dec N.eq_dec c is) as [Hi|Hi]; [auto|].
        rewrite F2; [auto|]. intros c' Hc' E. apply Hi. replace c with c'; [auto|].
        symmetry. rewrite Forall_forall in H2. apply (loc_inj row); auto. lia.
      + intros x Hx. rewrite F2, F1; [auto|apply Hx; left; auto|intros c' Hc'; apply Hx; right; auto].
      + intros x. rewrite G2, G1. cbn [In]. intuition.
  Qed.

  (** ** One equivalence set *)
  Definition cell0 (v : list nat) : N :=
    match first_end v with Some e => end_bits e | None => 0%N end.
  Definition otgt (v : list nat) (o : option (greedy * list nat)) : option (list nat) :=
    match o with
    | None => None
    | Some (g, f) =>
      match pf f with [] => None | _ => if abstains (cell0 v) g then None else Some (pf f) end
    end.
  Definition tgt (v : list nat) (c : N) : option (list nat) := otgt v (tval v c).
  Definition cell_ok (d : dstate) (x : option N) (o : option (list nat)) : Prop :=
    match o with
    | None => x = Some 0%N
    | Some f => exists i w, x = Some (N.of_nat (S i)) /\ nth_error (d_seen d) i = Some w /\ seteq w f
    end.
  Lemma cell_ok_mono d d' x o : (exists more, d_seen d' = d_seen d ++ more) ->
    cell_ok d x o -> cell_ok d' x o.
  Proof.
    intros (more & E). destruct o as [f|]; [|auto]. intros (i & w & H1 & H2 & H3).
    exists i, w. split; [auto|]. split; [eapply seen_app; eauto|auto].
  Qed.

  Definition qok (q : equivset) : Prop :=
    Forall allowed (q_index q) /\ Forall V (q_follow q) /\ rksorted (q_follow q).

  (** New vectors contain only positions of [W] and come from one of [qs]. *)
  Definition news (qs : list equivset) (d d' : dstate) : Prop :=
    forall j u, nth_error (d_seen d') j = Some u -> nth_error (d_seen d) j = Some u \/
      (Forall W u /\ exists q, In q qs /\ pf (q_follow q) <> [] /\ u = vec (pf (q_follow q))).

  Lemma do_equiv_ok v i0 q d : binv d -> nth_error (d_seen d) i0 = Some v -> qok q ->
    (forall c, In c (q_index q) -> at2 d (loc (S i0) c) = Some 0%N) ->
    (stuck (q_follow q) /\ forall d', do_equiv k fl s sm cr nl width (S i0) d q <> Ok d') \/
    exists d', do_equiv k fl s sm cr nl width (S i0) d q = Ok d' /\ binv d' /\
      (exists more, d_seen d' = d_seen d ++ more) /\ news [q] d d' /\
      (forall c, In c (q_index q) ->
         cell_ok d' (at2 d' (loc (S i0) c)) (otgt v (Some (q_greedy q, q_follow q)))) /\
      (forall a b, (a < length (d_rows d))%nat ->
         (forall c, In c (q_index q) -> (a, b) <> loc (S i0) c) -> at2 d' (a, b) = at2 d (a, b)) /\
      (forall a b, (length (d_rows d) <= a < length (d_rows d'))%nat -> (5 <= b < width)%nat ->
         at2 d' (a, b) = Some 0%N) /\
      (forall x, In x (d_eol d') <-> In x (d_eol d) \/
         (x = N.of_nat (S i0) /\ In (eol_tok k) (q_index q) /\
          otgt v (Some (q_greedy q, q_follow q)) <> None)).
  Proof.
    intros B Hv (Q1 & Q2 & Q3) HZ. unfold do_equiv.
    destruct (prune_clashes (S (length (q_follow q))) k s sm cr nl (q_follow q) 0) as [fp| | |] eqn:P1;
      try (left; split; [intros f' Hf; unfold pruned in Hf; congruence|cbn [bind]; discriminate]).
    destruct (prune_ok _ fp Q2 P1) as (-> & P2 & P3 & P4). right. cbn [bind].
    assert (LI : (i0 < length (d_seen d))%nat) by (apply nth_error_Some; congruence).
    unfold otgt. destruct (pf (q_follow q)) as [|f0 f'] eqn:Ef.
    - cbn [closure bind fst snd]. exists d. split; [auto|]. split; [auto|].
      split; [exists []; now rewrite app_nil_r|]. split; [intros j u; auto|].
      split; [exact HZ|]. split; [auto|]. split; [lia|]. intros x. intuition.
    - assert (FW : Forall W (f0 :: f')).
      { exact P4. }
      assert (FV : Forall V (f0 :: f')) by (eapply Forall_impl; [|exact FW]; auto).
      assert (LR := b_len _ B).
      destruct (closure_ok (f0 :: f') d B ltac:(discriminate) FV (P3 Q3))
        as (i & w & d1 & E1 & B1 & ((more & M1) & G1 & G2 & G3) & W1 & SQ & NW).
      rewrite E1. cbn [bind fst snd].
      assert (R0 : at_ (d_rows d1) (S i0) 0 = Some (cell0 v)).
      { rewrite (b_info _ B1 i0 v 0); [|rewrite M1, nth_error_app1; auto|lia].
        unfold cell0. destruct (first_end v); [reflexivity|]. cbn [fresh_row].
        apply nth_repeat_lt. lia. }
      assert (LR1 := b_len _ B1). rewrite M1, app_length in LR1.
      assert (NW' : news [q] d d1).
      { intros j u E. destruct (NW j u E) as [H|H]; [auto|]. right. split.
        - apply Forall_forall. intros x Hx. rewrite H, vec_In in Hx. rewrite Forall_forall in FW. auto.
        - exists q. split; [left; auto|]. rewrite Ef. split; [discriminate|auto]. }
      unfold at_ in R0. destruct (nth_error (d_rows d1) (S i0)) as [r|] eqn:Er; [|discriminate].
      destruct r as [|e r]; [discriminate|]. cbn in R0. injection R0 as ->.
      destruct (abstains (cell0 v) (q_greedy q)).
      + exists d1. split; [auto|]. split; [auto|]. split; [eauto|]. split; [auto|].
        split; [|split; [|split]].
        * intros c Hc. cbn [cell_ok]. rewrite <- (HZ c Hc). unfold at2. apply G1.
          unfold loc. destruct (c =? bol_tok k)%N; [cbn; lia|]. destruct (c =? eol_tok k)%N; cbn; lia.
        * intros a b Ha _. now apply G1.
        * intros a b Ha Hb. now apply G2.
        * intros x. rewrite G3. intuition.
      + destruct (set_transitions_ok (N.of_nat (S i)) (S i0) (q_index q) d1 B1)
          as (d2 & E2 & B2 & S2 & L2 & A2 & F2 & H2).
        { rewrite M1, app_length. lia. }
        { auto. }
        exists d2. split; [auto|]. split; [auto|]. split; [exists more; congruence|].
        split; [intros j u E; rewrite S2 in E; auto|]. split; [|split; [|split]].
        * intros c Hc. exists i, w. split; [auto|]. split; [congruence|auto].
        * intros a b Ha Hn. rewrite F2 by auto. now apply G1.
        * intros a b Ha Hb. rewrite F2.
          -- apply (G2 a b); [lia|auto].
          -- intros c Hc. unfold loc. destruct (c =? bol_tok k)%N; [intros X; injection X; lia|].
             destruct (c =? eol_tok k)%N; intros X; injection X; lia.
        * intros x. rewrite H2, G3. split.
          -- intros [H|[H H']]; [auto|]. right. split; [auto|]. split; [auto|discriminate].
          -- intros [H|(H & H' & _)]; auto.
  Qed.

  Lemma do_equivs_ok v i0 qs : forall d, binv d -> nth_error (d_seen d) i0 = Some v ->
    Forall qok qs -> ForallOrdPairs (disj eq_pin) qs ->
    (forall q c, In q qs -> In c (q_index q) -> at2 d (loc (S i0) c) = Some 0%N) ->
    ((exists q, In q qs /\ stuck (q_follow q)) /\
     forall d', do_equivs k fl s sm cr nl width (S i0) d qs <> Ok d') \/
    exists d', do_equivs k fl s sm cr nl width (S i0) d qs = Ok d' /\ binv d' /\
      (exists more, d_seen d' = d_seen d ++ more) /\ news qs d d' /\
      (forall q c, In q qs -> In c (q_index q) ->
         cell_ok d' (at2 d' (loc (S i0) c)) (otgt v (Some (q_greedy q, q_follow q)))) /\
      (forall a b, (a < length (d_rows d))%nat ->
         (forall q c, In q qs -> In c (q_index q) -> (a, b) <> loc (S i0) c) ->
         at2 d' (a, b) = at2 d (a, b)) /\
      (forall a b, (length (d_rows d) <= a < length (d_rows d'))%nat -> (5 <= b < width)%nat ->
         at2 d' (a, b) = Some 0%N) /\
      (forall x, In x (d_eol d') <-> In x (d_eol d) \/
         (x = N.of_nat (S i0) /\ exists q, In q qs /\ In (eol_tok k) (q_index q) /\
          otgt v (Some (q_greedy q, q_follow q)) <> None)).
  Proof.
    induction qs as [|q qs IH]; intros d B Hv HQ HD HZ; cbn [do_equivs].
    - right. exists d. split; [auto|]. split; [auto|]. split; [exists []; now rewrite app_nil_r|].
      split; [intros j u; auto|]. split; [intros ? ? []|]. split; [auto|]. split; [lia|].
      intros x. split; [auto|]. intros [H|(_ & q & [] & _)]; auto.
    - inversion HQ as [|? ? Q1 Q2]; subst. inversion HD as [|? ? D1 D2]; subst.
      rewrite Forall_forall in D1.
      assert (LI : (i0 < length (d_seen d))%nat) by (apply nth_error_Some; congruence).
      assert (LR := b_len _ B).
      assert (LOC : forall c, (fst (loc (S i0) c) < length (d_rows d))%nat).
      { intros c. unfold loc. destruct (c =? bol_tok k)%N; [cbn; lia|]. destruct (c =? eol_tok k)%N; cbn; lia. }
      destruct (do_equiv_ok v i0 q d B Hv Q1)
        as [[ST NO]|(d1 & E1 & B1 & (m1 & M1) & N1 & C1 & F1 & Z1 & O1)].
      { intros c Hc. apply (HZ q c); [left; auto|auto]. }
      { left. split; [exists q; split; [left; auto|auto]|]. intros d' H.
        destruct (do_equiv k fl s sm cr nl width (S i0) d q) as [d1| | |] eqn:E1; try discriminate.
        now apply (NO d1). }
      rewrite E1. cbn [bind].
      assert (SEP : forall q' c c', In q' qs -> In c (q_index q) -> In c' (q_index q') ->
         loc (S i0) c' <> loc (S i0) c).
      { intros q' c c' Hq' Hc Hc' X. apply loc_inj in X; [|lia| |].
        - subst c'. apply (D1 q' Hq' c); unfold eq_pin; now apply inb_In.
        - rewrite Forall_forall in Q2. destruct (Q2 q' Hq') as [X1 _]. rewrite Forall_forall in X1. auto.
        - destruct Q1 as [X1 _]. rewrite Forall_forall in X1. auto. }
      destruct (IH d1 B1) as [[(q' & Hq' & ST) NO]|(d2 & E2 & B2 & (m2 & M2) & N2 & C2 & F2 & Z2 & O2)]; auto.
      { rewrite M1, nth_error_app1; auto. }
      { intros q' c Hq' Hc. specialize (LOC c). specialize (HZ q' c (or_intror Hq') Hc).
        specialize (SEP q'). destruct (loc (S i0) c) as (a, b) eqn:El. rewrite F1; auto.
        intros c' Hc'. rewrite <- El. now apply SEP. }
      { left. split; [exists q'; split; [right; auto|auto]|auto]. }
      right.
      assert (LR1 := b_len _ B1). rewrite M1, app_length in LR1.
      exists d2. split; [auto|]. split; [auto|]. split; [exists (m1 ++ m2); now rewrite M2, M1, app_assoc|].
      split; [|split; [|split; [|split]]].
      + intros j u E. apply N2 in E as [E|(E & q' & Hq' & E')].
        * apply N1 in E as [E|(E & q' & [<-|[]] & E')]; [auto|].
          right. split; [auto|]. exists q. split; [left; auto|auto].
        * right. split; [auto|]. exists q'. split; [right; auto|auto].
      + intros q' c [<-|Hq'] Hc; [|auto].
        assert (X : at2 d2 (loc (S i0) c) = at2 d1 (loc (S i0) c)).
        { specialize (LOC c). specialize (SEP). destruct (loc (S i0) c) as (a, b) eqn:El.
          apply F2; [cbn in LOC; lia|]. intros q' c' Hq' Hc'. rewrite <- El.
          intros Y. symmetry in Y. revert Y. now apply (SEP q'). }
        rewrite X. eapply cell_ok_mono; [|apply C1; auto]. eauto.
      + intros a b Ha Hn. rewrite F2, F1; auto.
        * intros c Hc. apply (Hn q); [left; auto|auto].
        * lia.
        * intros q' c Hq' Hc. apply (Hn q'); [right; auto|auto].
      + intros a b Ha Hb. destruct (Nat.lt_ge_cases a (length (d_rows d1))) as [Hlt|Hge].
        * rewrite F2; auto.
          -- apply Z1; [lia|auto].
          -- intros q' c Hq' Hc X. specialize (LOC c). rewrite <- X in LOC. cbn in LOC. lia.
        * apply Z2; auto. lia.
      + intros x. rewrite O2, O1. split.
        * intros [[H|(H1 & H2 & H3)]|(H1 & q' & H2 & H3)]; [auto| |].
          -- right. split; [auto|]. exists q. split; [left; auto|auto].
          -- right. split; [auto|]. exists q'. split; [right; auto|auto].
        * intros [H|(H1 & q' & [<-|H2] & H3)]; [auto| |].
          -- left. right. auto.
          -- right. split; [auto|]. exists q'. auto.
  Qed.

  (** ** The loop over states *)
  Variable v0 : list nat.
  Hypothesis W_nobol : forall p t g f, W p -> nth_error s p = Some (PLeaf t g f) -> t <> bol_tok k.

  Record inv (d : dstate) (index : nat) : Prop := {
    i_b : binv d;
    i_0 : nth_error (d_seen d) 0 = Some (vec v0);
    i_W : forall i v, nth_error (d_seen d) (S i) = Some v -> Forall W v;
    i_from : forall i u, nth_error (d_seen d) (S i) = Some u ->
       exists j v c g f, (j <= i)%nat /\ nth_error (d_seen d) j = Some v /\ allowed c /\
         tval v c = Some (g, f) /\ pf f <> [] /\ u = vec (pf f);
    i_done : forall i v c, (i < index)%nat -> nth_error (d_seen d) i = Some v ->
       allowed c -> c <> bol_tok k -> cell_ok d (at2 d (loc (S i) c)) (tgt v c);
    i_bol0 : index = O -> at2 d (0, 0)%nat = Some 0%N;
    i_bol : forall v, (0 < index)%nat -> nth_error (d_seen d) 0 = Some v ->
       cell_ok d (at2 d (0, 0)%nat) (tgt v (bol_tok k));
    i_todo : forall i b, (index <= i < length (d_seen d))%nat -> (5 <= b < width)%nat ->
       at2 d (S i, b) = Some 0%N;
    i_eol : forall x, In x (d_eol d) <-> exists i v, (i < index)%nat /\ x = N.of_nat (S i) /\
       nth_error (d_seen d) i = Some v /\ tgt v (eol_tok k) <> None
  }.

  Lemma i_start d index : inv d index -> exists u, nth_error (d_seen d) 0 = Some u /\ seteq u v0.
  Proof using. intros I. exists (vec v0). split; [apply (i_0 _ _ I)|]. intros x. apply vec_In. Qed.
  Lemma i_came d index : inv d index -> forall i u, nth_error (d_seen d) (S i) = Some u ->
    exists j v c g f, (j <= i)%nat /\ nth_error (d_seen d) j = Some v /\ allowed c /\
      tval v c = Some (g, f) /\ pf f <> [] /\ seteq u (pf f).
  Proof using.
    intros I i u E. destruct (i_from _ _ I i u E) as (j & v & c & g & f & H1 & H2 & H3 & H4 & H5 & ->).
    exists j, v, c, g, f. do 5 (split; [auto|]). intros x. apply vec_In.
  Qed.

  Lemma cset_bol t : In (bol_tok k) (cset t) -> 
    (special t \/ (forall c, In c (cset t) -> (N.to_nat c + 7 < width)%nat)) -> t = bol_tok k.
  Proof.
    intros H [[->| ->]|H'].
    - reflexivity.
    - unfold cset in H. rewrite N.eqb_refl, orb_true_r in H. destruct H as [H|[]]; auto.
    - apply H' in H. exfalso. apply (small_not_special _ H). left; auto.
  Qed.
  Lemma cset_allowed p t g f : V p -> nth_error s p = Some (PLeaf t g f) -> Forall allowed (cset t).
  Proof.
    intros Hp E. destruct (V_leaf p t g f Hp E) as (_ & _ & _ & _ & H & _).
    apply Forall_forall. intros c Hc. destruct H as [H|H].
    - left. unfold cset in Hc. destruct H as [->| ->].
      + rewrite N.eqb_refl in Hc. destruct Hc as [<-|[]]. left; auto.
      + rewrite N.eqb_refl, orb_true_r in Hc. destruct Hc as [<-|[]]. right; auto.
    - right. auto.
  Qed.

  Lemma do_equivs_pruned row qs : forall d d', do_equivs k fl s sm cr nl width row d qs = Ok d' ->
    forall q, In q qs -> exists f', pruned (q_follow q) f'.
  Proof.
    induction qs as [|x qs IH]; intros d d' E q Hq; [destruct Hq|]. cbn [do_equivs] in E.
    destruct (do_equiv k fl s sm cr nl width row d x) as [d1| | |] eqn:E1; try discriminate. cbn [bind] in E.
    destruct Hq as [<-|Hq]; [|eapply IH; eauto]. unfold do_equiv in E1. unfold pruned.
    destruct (prune_clashes _ _ _ _ _ _ _ _) as [f'| | |]; try discriminate. eauto.
  Qed.
  Lemma step_ok d index v : inv d index -> nth_error (d_seen d) index = Some v ->
    exists qs, build_equiv_list k s sm v = Ok qs /\
      (((exists c g f, tval v c = Some (g, f) /\ allowed c /\ stuck f) /\
        forall d', do_equivs k fl s sm cr nl width (S index) d qs <> Ok d') \/
       exists d', do_equivs k fl s sm cr nl width (S index) d qs = Ok d' /\ inv d' (S index) /\
        (exists more, d_seen d' = d_seen d ++ more) /\
        (forall c g f, tval v c = Some (g, f) -> exists f', pruned f f')).
  Proof.
    intros I Ev. assert (B := i_b _ _ I). assert (HV := b_V _ B _ _ Ev).
    assert (HS := b_sorted _ B _ _ Ev). unfold build_equiv_list. rewrite fill_equivs_ok by auto.
    cbn [bind].
    destruct (equivs_ok (equivs v)) as (qs & EQ & [OKg OKd] & HG).
    { apply Forall_forall. intros q Hq. apply equivs_In in Hq as (p & t & g & f & Hp & E & ->).
      rewrite Forall_forall in HV. destruct (V_leaf p t g f (HV p Hp) E) as (_ & _ & H3 & H4 & _).
      cbn. auto. }
    rewrite EQ. exists qs. rewrite Forall_forall in OKg.
    (* each column of a piece *)
    assert (PC : forall q c, In q qs -> In c (q_index q) -> tval v c = Some (q_greedy q, q_follow q)).
    { intros q c Hq Hc. unfold tval. rewrite <- HG. unfold eq_get, get.
      assert (F : find (fun x => eq_pin x c) qs = Some q).
      { apply In_nth_error in Hq as (j & Ej).
        destruct (find (fun x => eq_pin x c) qs) as [y|] eqn:F.
        - apply find_some in F as [Hy Py]. apply In_nth_error in Hy as (j' & Ey).
          assert (NF : forall i j x y, (i < j)%nat -> nth_error qs i = Some x -> nth_error qs j = Some y ->
             disj eq_pin x y).
          { clear -OKd. induction OKd as [|a l Ha Hl IH]; intros i j x y Hij Hx Hy; [destruct i; discriminate|].
            destruct i as [|i], j as [|j]; cbn in *; try lia.
            - injection Hx as <-. rewrite Forall_forall in Ha. apply Ha. eapply nth_error_In; eauto.
            - apply (IH i j); auto. lia. }
          assert (Pq : eq_pin q c = true) by (unfold eq_pin; now apply inb_In).
          destruct (Nat.lt_trichotomy j j') as [Hlt|[->|Hlt]].
          + exfalso. apply (NF j j' q y Hlt Ej Ey c); auto.
          + congruence.
          + exfalso. apply (NF j' j y q Hlt Ey Ej c); auto.
        - eapply find_none in F; [|eapply nth_error_In; eauto]. cbn in F.
          unfold eq_pin in F. apply inb_not in F. contradiction. }
      rewrite F. reflexivity. }
    assert (NE : forall q, In q qs -> exists c, In c (q_index q)).
    { intros q Hq. destruct (OKg q Hq) as [[_ G] He]. destruct (q_index q) as [|c l] eqn:Ei.
      - unfold eq_empty in He. rewrite Ei, (G eq_refl) in He. discriminate.
      - exists c. left; auto. }
    assert (CV : forall q c, In q qs -> In c (q_index q) -> exists p, In p v /\ rd p c).
    { intros q c Hq Hc. assert (T := tval_spec v c HV HS). rewrite (PC q c Hq Hc) in T. apply T. }
    assert (RDA : forall p c, In p v -> rd p c -> allowed c).
    { intros p c Hp (t & g & f & E & Hc). rewrite Forall_forall in HV.
      assert (X := cset_allowed p t g f (HV p Hp) E). rewrite Forall_forall in X. auto. }
    assert (QOK : Forall qok qs).
    { apply Forall_forall. intros q Hq. split; [|].
      - apply Forall_forall. intros c Hc. destruct (CV q c Hq Hc) as (p & Hp & Hr). eauto.
      - destruct (NE q Hq) as (c & Hc). assert (T := tval_spec v c HV HS).
        rewrite (PC q c Hq Hc) in T. tauto. }
    assert (LI : (index < length (d_seen d))%nat) by (apply nth_error_Some; congruence).
    assert (BOLV : forall q, In q qs -> In (bol_tok k) (q_index q) -> index = O).
    { intros q Hq Hc. destruct (CV q _ Hq Hc) as (p & Hp & t & g & f & E & Hct).
      destruct index as [|i']; [auto|]. exfalso.
      assert (Wv := i_W _ _ I _ _ Ev). rewrite Forall_forall in Wv, HV.
      apply cset_bol in Hct; [|apply (V_leaf p t g f (HV p Hp) E)].
      apply (W_nobol p t g f (Wv p Hp) E Hct). }
    destruct (do_equivs_ok v index qs d B Ev QOK OKd)
      as [[(q & Hq & ST) NO]|(d' & E' & B' & (more & M) & NWS & C & F & Z & EO)].
    { intros q c Hq Hc. unfold loc. destruct (N.eqb_spec c (bol_tok k)) as [->|].
      - apply (i_bol0 _ _ I). eapply BOLV; eauto.
      - rewrite Forall_forall in QOK. destruct (QOK q Hq) as (QA & _). rewrite Forall_forall in QA.
        apply QA in Hc. destruct (N.eqb_spec c (eol_tok k)) as [->|].
        + apply (i_todo _ _ I); lia.
        + destruct Hc as [[->| ->]|Hc]; [congruence|congruence|]. apply (i_todo _ _ I); lia. }
    { split; [auto|]. left. split; [|auto]. destruct (NE q Hq) as (c & Hc).
      exists c, (q_greedy q), (q_follow q). split; [now apply PC|]. split; [|auto].
      rewrite Forall_forall in QOK. destruct (QOK q Hq) as (QA & _). rewrite Forall_forall in QA. auto. }
    split; [auto|]. right. exists d'. split; [auto|]. split; [|split; [eauto|]].
    2:{ intros c g f T. unfold tval in T. rewrite <- HG in T. unfold eq_get, get in T.
        destruct (find (fun x => eq_pin x c) qs) as [q|] eqn:Fq; [|discriminate].
        apply find_some in Fq as [Hq _]. cbn in T. unfold eq_pay in T. injection T as <- <-.
        eapply do_equivs_pruned; eauto. }
    assert (ME : exists more, d_seen d' = d_seen d ++ more) by eauto.
    assert (LR := b_len _ B). assert (LR' := b_len _ B').
    assert (OLD : forall i u, (i < length (d_seen d))%nat -> nth_error (d_seen d') i = Some u ->
              nth_error (d_seen d) i = Some u).
    { intros i u Hi Eu. now rewrite M, nth_error_app1 in Eu. }
    (* the columns of this state *)
    assert (COL : forall c, allowed c -> (c = bol_tok k -> index = O) ->
              cell_ok d' (at2 d' (loc (S index) c)) (tgt v c)).
    { intros c Hc Hb. unfold tgt. destruct (existsb (fun q => inb c (q_index q)) qs) eqn:Ex.
      - apply existsb_exists in Ex as (q & Hq & Hi). apply inb_In in Hi. rewrite (PC q c Hq Hi).
        now apply C.
      - assert (NI : forall q, In q qs -> ~ In c (q_index q)).
        { intros q Hq Hi. apply inb_In in Hi. rewrite <- not_true_iff_false in Ex. apply Ex.
          apply existsb_exists. eauto. }
        assert (TN : tval v c = None).
        { unfold tval. rewrite <- HG. apply get_none. intros q Hq. unfold eq_pin. apply inb_not. auto. }
        rewrite TN. cbn [otgt cell_ok].
        assert (X : at2 d' (loc (S index) c) = at2 d (loc (S index) c)).
        { destruct (loc (S index) c) as (a, b) eqn:El. apply F.
          - unfold loc in El. destruct (c =? bol_tok k)%N; [injection El as <- <-; lia|].
            destruct (c =? eol_tok k)%N; injection El as <- <-; lia.
          - intros q c' Hq Hc' Y. rewrite <- El in Y. apply loc_inj in Y; [|lia|auto|].
            + subst c'. apply (NI q); auto.
            + rewrite Forall_forall in QOK. destruct (QOK q Hq) as (QA & _).
              rewrite Forall_forall in QA. auto. }
        rewrite X. unfold loc. destruct (N.eqb_spec c (bol_tok k)) as [E|].
        + apply (i_bol0 _ _ I). auto.
        + destruct (N.eqb_spec c (eol_tok k)) as [->|].
          * apply (i_todo _ _ I); lia.
          * destruct Hc as [[->| ->]|Hc]; [congruence|congruence|]. apply (i_todo _ _ I); lia. }
    assert (FRAME : forall a b, (0 < a)%nat -> a <> S index -> (a < length (d_rows d))%nat ->
              at2 d' (a, b) = at2 d (a, b)).
    { intros a b Ha Hn Hl. apply F; auto. intros q c Hq Hc. unfold loc.
      destruct (c =? bol_tok k)%N; [intros X; injection X; lia|].
      destruct (c =? eol_tok k)%N; intros X; injection X; lia. }
    constructor; auto.
    - eapply seen_app; [eauto|]. apply (i_0 _ _ I).
    - intros i u E. apply NWS in E as [E|[E _]]; [|auto]. eapply (i_W _ _ I); eauto.
    - intros i u E. assert (E0 := E). apply NWS in E as [E|(_ & q & Hq & Q2 & Q3)].
      + destruct (i_from _ _ I _ _ E) as (j & v' & c & g & f & H1 & H2 & H3).
        exists j, v', c, g, f. split; [auto|]. split; [eapply seen_app; eauto|auto].
      + destruct (Nat.lt_ge_cases (S i) (length (d_seen d))) as [Hl|Hl].
        * apply OLD in E0; [|auto]. destruct (i_from _ _ I _ _ E0) as (j & v' & c & g & f & H1 & H2 & H3).
          exists j, v', c, g, f. split; [auto|]. split; [eapply seen_app; eauto|auto].
        * destruct (NE q Hq) as (c & Hc). exists index, v, c, (q_greedy q), (q_follow q).
          split; [lia|]. split; [eapply seen_app; eauto|]. split.
          { rewrite Forall_forall in QOK. destruct (QOK q Hq) as (QA & _). rewrite Forall_forall in QA. auto. }
          split; [now apply PC|auto].
    - intros i u c Hi Eu Hc Hb. destruct (Nat.eq_dec i index) as [->|Hn].
      + assert (u = v) by (apply OLD in Eu; [congruence|auto]). subst u. apply COL; auto. congruence.
      + assert (Hi' : (i < index)%nat) by lia.
        assert (X : at2 d' (loc (S i) c) = at2 d (loc (S i) c)).
        { unfold loc. destruct (N.eqb_spec c (bol_tok k)); [congruence|].
          destruct (c =? eol_tok k)%N; apply FRAME; lia. }
        rewrite X. eapply cell_ok_mono; [eauto|]. apply (i_done _ _ I); auto. apply OLD; auto. lia.
    - discriminate.
    - intros u _ Eu. destruct index as [|i'].
      + assert (u = v) by (apply OLD in Eu; [congruence|auto]). subst u.
        assert (X := COL (bol_tok k) (or_introl (or_introl eq_refl)) (fun _ => eq_refl)).
        unfold loc in X. rewrite N.eqb_refl in X. exact X.
      + assert (X : at2 d' (0, 0)%nat = at2 d (0, 0)%nat).
        { apply F; [lia|]. intros q c Hq Hc Y.
          unfold loc in Y. destruct (N.eqb_spec c (bol_tok k)) as [->|].
          - apply BOLV in Hc; auto. discriminate.
          - destruct (c =? eol_tok k)%N; discriminate. }
        rewrite X. eapply cell_ok_mono; [eauto|]. apply (i_bol _ _ I); [lia|]. apply OLD; auto. lia.
    - intros i b Hi Hb. destruct (Nat.lt_ge_cases i (length (d_seen d))) as [Hl|Hl].
      + rewrite FRAME by lia. apply (i_todo _ _ I); lia.
      + apply Z; lia.
    - intros x. rewrite EO, (i_eol _ _ I). split.
      + intros [(i & u & H1 & H2 & H3 & H4)|(H1 & q & Hq & Hc & H2)].
        * exists i, u. split; [lia|]. split; [auto|]. split; [eapply seen_app; eauto|auto].
        * exists index, v. split; [lia|]. split; [auto|]. split; [eapply seen_app; eauto|].
          unfold tgt. rewrite (PC q _ Hq Hc). auto.
      + intros (i & u & H1 & H2 & H3 & H4). destruct (Nat.eq_dec i index) as [->|Hn].
        * right. split; [auto|]. assert (u = v) by (apply OLD in H3; [congruence|auto]). subst u.
          destruct (existsb (fun q => inb (eol_tok k) (q_index q)) qs) eqn:Ex.
          -- apply existsb_exists in Ex as (q & Hq & Hi). apply inb_In in Hi. exists q.
             split; [auto|]. split; [auto|]. unfold tgt in H4. now rewrite (PC q _ Hq Hi) in H4.
          -- exfalso. apply H4. unfold tgt.
             assert (TN : tval v (eol_tok k) = None).
             { unfold tval. rewrite <- HG. apply get_none. intros q Hq. unfold eq_pin. apply inb_not.
               intros Hi. apply inb_In in Hi. rewrite <- not_true_iff_false in Ex. apply Ex.
               apply existsb_exists. eauto. }
             now rewrite TN.
        * left. exists i, u. split; [lia|]. split; [auto|]. split; [|auto]. apply OLD; auto. lia.
  Qed.

  Lemma seen_bound d : binv d -> (length (d_seen d) <= 2 ^ length s)%nat.
  Proof.
    intros B. apply distinct_bound.
    - intros i v E. apply (b_V _ B) in E. eapply Forall_impl; [|exact E]. auto.
    - apply (b_dist _ B).
  Qed.

  (** A set of positions was reached from which pruning is undefined. *)
  Definition jams : Prop :=
    exists d index v c g f, inv d index /\ nth_error (d_seen d) index = Some v /\
      tval v c = Some (g, f) /\ allowed c /\ stuck f.
  Theorem state_loop_ok fuel : forall d index, inv d index ->
    (index <= length (d_seen d))%nat -> (2 ^ length s < fuel + index)%nat ->
    (jams /\ forall d', state_loop fuel k fl s sm cr nl width index d <> Ok d') \/
    exists d', state_loop fuel k fl s sm cr nl width index d = Ok d' /\
      inv d' (length (d_seen d')) /\ (exists more, d_seen d' = d_seen d ++ more) /\
      (forall i v c g f, (index <= i)%nat -> nth_error (d_seen d') i = Some v -> tval v c = Some (g, f) ->
         exists f', pruned f f').
  Proof.
    induction fuel as [|fuel IH]; intros d index I Hi Hf.
    - assert (X := seen_bound d (i_b _ _ I)). lia.
    - cbn [state_loop]. destruct (nth_error (d_seen d) index) as [v|] eqn:Ev.
      + destruct (step_ok d index v I Ev) as (qs & E1 & [[(c & g & f & T & Hc & ST) NO]|(d1 & E2 & I1 & (m1 & M1) & PR)]).
        { left. split; [exists d, index, v, c, g, f; auto|]. intros d' H. rewrite E1 in H. cbn [bind] in H.
          destruct (do_equivs k fl s sm cr nl width (S index) d qs) as [d1| | |] eqn:E2; try discriminate.
          now apply (NO d1). }
        rewrite E1. cbn [bind]. rewrite E2. cbn [bind].
        assert (index < length (d_seen d))%nat by (apply nth_error_Some; congruence).
        destruct (IH d1 (S index) I1) as [H'|(d' & E & I' & (m2 & M2) & PR')].
        * rewrite M1, app_length. lia.
        * lia.
        * left. exact H'.
        * right. exists d'. split; [auto|]. split; [auto|]. 
          split; [exists (m1 ++ m2); now rewrite M2, M1, app_assoc|].
          intros i u c g f Hi' Eu T. destruct (Nat.eq_dec i index) as [->|Hn].
          -- rewrite M2, nth_error_app1 in Eu by (rewrite M1, app_length; lia).
             rewrite M1, nth_error_app1, Ev in Eu by lia. injection Eu as <-. eauto.
          -- eapply PR'; [|eauto|eauto]. lia.
      + apply nth_error_None in Ev. right. exists d. split; [auto|].
        assert (index = length (d_seen d)) by lia. subst index. split; [auto|].
        split; [exists []; now rewrite app_nil_r|]. intros i u c g f Hi' Eu.
        assert (i < length (d_seen d))%nat by (apply nth_error_Some; congruence). lia.
  Qed.

  (** The initial closure. *)
  Lemma init_ok : v0 <> [] -> Forall V v0 -> rksorted v0 ->
    exists d, closure fl s width v0
        {| d_seen := []; d_rows := [repeat 0%N width]; d_used := used0; d_eol := [] |} =
      Ok (Some 1%N, d) /\ inv d 0 /\ length (d_seen d) = 1%nat.
  Proof.
    intros H1 H2 H3.
    assert (B : binv {| d_seen := []; d_rows := [repeat 0%N width]; d_used := used0; d_eol := [] |}).
    { constructor; cbn [d_seen d_rows d_used d_eol]; try (intros [|] ? E; discriminate);
        try (intros [|] ? ? E; discriminate).
      - reflexivity.
      - constructor; [apply repeat_length|constructor].
      - intros i Hi. assert (i = O) by (cbn in Hi; lia). subst i. unfold at_. cbn [nth_error].
        now apply (nth_repeat_lt 0%N width 6).
      - intros j Hj. unfold at_. cbn [nth_error]. apply nth_repeat_lt. lia.
      - intros u. split; [auto|]. intros [H|(_ & [|] & ? & ? & E & _)]; [auto|discriminate|discriminate]. }
    destruct (closure_ok v0 _ B H1 H2 H3) as (i & w & d & E & B' & ((more & M) & G1 & G2 & G3) & Ew & SQ & NW).
    cbn [d_seen d_rows] in *. cbn [app] in M.
    assert (L : length (d_seen d) = 1%nat /\ i = O).
    { unfold closure in E. destruct v0 as [|f0 f']; [congruence|].
      rewrite closure_exs_ok in E by auto. cbn [bind d_seen find_seen length app] in E.
      injection E as E1 E2. subst d. split; [reflexivity|]. lia. }
    destruct L as [L ->]. exists d. split; [auto|]. split; [|auto].
    assert (LR := b_len _ B').
    constructor; auto.
    - destruct (NW O w Ew) as [X|X]; [discriminate|]. congruence.
    - intros j v Ev. assert (S j < length (d_seen d))%nat by (apply nth_error_Some; congruence). lia.
    - intros j v Ev. assert (S j < length (d_seen d))%nat by (apply nth_error_Some; congruence). lia.
    - lia.
    - intros _. unfold at2. cbn [fst snd]. rewrite G1 by (cbn; lia). unfold at_. cbn [nth_error].
      destruct width; [lia|reflexivity].
    - lia.
    - intros j b Hj Hb. unfold at2. cbn [fst snd]. apply G2; [cbn; lia|auto].
    - intros x. rewrite G3. cbn. split; [intros []|]. intros (j & v & Hj & _). lia.
  Qed.
End Dfa.

(** Pruning functions that agree on what is met. *)
Lemma inv_pf_ext k fl s sm width used0 V W rk pf pf' v0 d index :
  inv k fl s sm width used0 V W rk pf v0 d index ->
  (forall i v c g f, nth_error (d_seen d) i = Some v -> allowed k width c ->
     tval k s sm v c = Some (g, f) -> pf f = pf' f) ->
  inv k fl s sm width used0 V W rk pf' v0 d index.
Proof.
  intros I H.
  assert (T : forall i v c, nth_error (d_seen d) i = Some v -> allowed k width c ->
    tgt k s sm pf v c = tgt k s sm pf' v c).
  { intros i v c Ev Hc. unfold tgt, otgt. destruct (tval k s sm v c) as [(g, f)|] eqn:E; [|auto].
    now rewrite (H i v c g f Ev Hc E). }
  destruct I. constructor; auto.
  - intros i u Eu. destruct (i_from0 i u Eu) as (j & v & c & g & f & H1 & H2 & H3 & H4 & H5 & H6).
    exists j, v, c, g, f. rewrite <- (H j v c g f) by auto. auto 10.
  - intros i v c Hi Ev Hc Hb. rewrite <- (T i v c) by auto. auto.
  - intros v Hi Ev. rewrite <- (T 0%nat v _); auto. left. left. auto.
  - intros x. rewrite i_eol0. split; intros (i & v & H1 & H2 & H3 & H4); exists i, v;
      (split; [auto|split; [auto|split; [auto|]]]).
    + rewrite <- (T i v); auto. left. right. auto.
    + rewrite (T i v); auto. left. right. auto.
Qed.
