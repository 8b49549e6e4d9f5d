(** The parser's charset map and node stack: what each tree operation means. *)
From Verif Require Import Base StringToken StringTokenSpec SliceSpec StringTokenProofs Tree TreeSpec RegexSpec
  Glushkov TreeProofs StateMachine Partition Generator GenMap DfaSpec Slice SliceProofs ReToken
  Parser Grammar.
Local Open Scope N_scope.

(** ** Byte classes *)
Definition bt (t : stoken) : Prop := wf t /\ t <> [] /\ bytes_tok t.
Lemma bt_iff t : bt t <-> wf t /\ (exists c, mem c t) /\ forall c, mem c t -> c < 256.
Proof.
  split.
  - intros (W & NE & B). split; [auto|]. split.
    + destruct t as [|[a b] t]; [easy|]. exists a. apply mem_cons. left.
      inversion B; cbn in *; lia.
    + intros c (a & b & Hi & Hc). unfold bytes_tok in B. rewrite Forall_forall in B.
      apply B in Hi. cbn in Hi. lia.
  - intros (W & (c & Hc) & H). split; [auto|]. split.
    + intros ->. now apply mem_nil in Hc.
    + apply Forall_forall. intros [a b] Hi. cbn.
      pose proof (wf_from_In 0 t (a, b) W Hi) as [Hab _]. cbn in Hab. split; [auto|].
      apply H. exists a, b. split; [auto|lia].
Qed.
Lemma bt_range a b : a < 256 -> b < 256 -> bt (mk_range a b).
Proof.
  intros. split; [apply mk_range_wf|]. split; [discriminate|]. unfold mk_range.
  repeat constructor; cbn; destruct (N.ltb_spec b a); lia.
Qed.
Lemma bt_insert t u : bt t -> bt u -> bt (insert_token t u).
Proof.
  rewrite !bt_iff. intros (W1 & (c & Hc) & B1) (W2 & _ & B2).
  destruct (insert_token_correct t u W1 W2) as [W M]. split; [auto|]. split.
  - exists c. apply M; auto.
  - intros x Hx. apply M in Hx as [Hx|Hx]; auto.
Qed.

Definition good2 (d : data2) : Prop := Forall (fun p => bt (fst p) /\ bt (snd p)) d.
Definition good3 (d : data3) : Prop :=
  Forall (fun p => bt (fst (fst p)) /\ bt (snd (fst p)) /\ bt (snd p)) d.
Lemma good2_insert t1 t2 d : bt t1 -> bt t2 -> good2 d -> good2 (insert2 t1 t2 d).
Proof.
  intros H1 H2. induction 1 as [|[u1 u2] d [Ha Hb] Hd IH]; cbn [insert2].
  - constructor; [auto|constructor].
  - destruct (st_eqb t1 u1); constructor; auto. cbn in *. split; [auto|]. now apply bt_insert.
Qed.
Lemma good3_insert t1 t2 t3 d : bt t1 -> bt t2 -> bt t3 -> good3 d -> good3 (insert3 t1 t2 t3 d).
Proof.
  intros H1 H2 H3. induction 1 as [|[[u1 u2] u3] d (Ha & Hb & Hc) Hd IH]; cbn [insert3].
  - constructor; [auto|constructor].
  - cbn in *. destruct (st_eqb t1 u1 && st_eqb u2 t2); constructor; auto. cbn in *.
    split; [auto|]. split; [auto|]. now apply bt_insert.
Qed.
Lemma good2_slice_range r d : good2 d -> good2 (slice_range16 r d).
Proof.
  intros H. unfold slice_range16, insert_range16, uchar, uchar_pred. cbv zeta.
  repeat match goal with
         | |- good2 (if ?c then _ else _) => destruct c
         | |- good2 (insert2 _ _ _) => apply good2_insert
         | |- bt _ => apply bt_range; lia
         end; auto.
Qed.
Lemma good2_slice t : good2 (slice16 t).
Proof.
  unfold slice16. assert (H : good2 []) by constructor. revert H. generalize (@nil (stoken * stoken)).
  induction t as [|r t IH]; cbn; intros d H; [auto|]. apply IH. now apply good2_slice_range.
Qed.
Lemma good3_slice_range r d : good3 d -> good3 (slice_range24 r d).
Proof.
  intros H. unfold slice_range24, insert_range24, msb, mid, lsb, uchar, uchar_pred. cbv zeta.
  destruct (_ =? _) at 1.
  - assert (G : good2 (slice_range16 r [])) by (apply good2_slice_range; constructor).
    revert d H. induction G as [|[u1 u2] l [H1 H2] _ IH]; cbn [fold_left]; intros d H; [auto|].
    apply IH. apply good3_insert; auto.
    replace [(fst r / 65536 mod 256, fst r / 65536 mod 256)]
      with (mk_range (fst r / 65536 mod 256) (fst r / 65536 mod 256)).
    + apply bt_range; lia.
    + unfold mk_range. now rewrite N.ltb_irrefl.
  - repeat match goal with
           | |- good3 (if ?c then _ else _) => destruct c
           | |- good3 (insert3 _ _ _ _) => apply good3_insert
           | |- bt _ => apply bt_range; lia
           end; auto.
Qed.
Lemma good3_slice t : good3 (slice24 t).
Proof.
  unfold slice24. assert (H : good3 []) by constructor. revert H.
  generalize (@nil (stoken * stoken * stoken)).
  induction t as [|r t IH]; cbn; intros d H; [auto|]. apply IH. now apply good3_slice_range.
Qed.

(** ** The charset map *)
Definition mext (m m' : charset_map) : Prop := (length m <= length m')%nat /\ incl m m'.
Lemma mext_refl m : mext m m.
Proof. split; [lia|apply incl_refl]. Qed.
Lemma mext_trans a b c : mext a b -> mext b c -> mext a c.
Proof. intros [] []. split; [lia|eapply incl_tran; eauto]. Qed.

Lemma map_find_some t m i : map_find t m = Some i -> In (t, i) m.
Proof.
  induction m as [|[u j] m IH]; cbn; [discriminate|]. destruct (st_eqb u t) eqn:E.
  - apply st_eqb_eq in E as ->. intros [= ->]. auto.
  - auto.
Qed.
Lemma cm_insert_ok t i m : map_find t m = None ->
  length (cm_insert t i m) = S (length m) /\
  forall x, In x (cm_insert t i m) <-> x = (t, i) \/ In x m.
Proof.
  induction m as [|[u j] m IH]; cbn; intros H; [intuition|].
  destruct (st_eqb u t) eqn:E; [discriminate|].
  assert (N : st_cmp t u <> Eq).
  { intros X. apply st_cmp_eq in X as ->.
    rewrite (proj2 (st_eqb_eq u u) eq_refl) in E. discriminate. }
  destruct (st_cmp t u); [easy| |].
  - cbn. split; [auto|]. intuition congruence.
  - destruct (IH H) as [L M]. cbn. rewrite L. split; [auto|]. intros x. rewrite M. tauto.
Qed.

Section ParserTree.
Variable k : gcfg.
Notation bsz := (g_bytes k).

(** Every map that is small enough is a proper one. *)
Definition mgood (m : charset_map) : Prop := N.of_nat (length m) < eol_tok k -> map_wf m.
Definition mfine (m : charset_map) : Prop := map_wf m /\ N.of_nat (length m) < eol_tok k.

Lemma small_bits n : n < eol_tok k -> n < 2 ^ g_bits k.
Proof.
  unfold eol_tok, gnpos, npos_of. intros H.
  pose proof (N.pow_nonzero 2 (g_bits k)). lia.
Qed.

Lemma p_lookup_ok t m : bt t -> mgood m ->
  let x := p_lookup k t m in
  mext m (snd x) /\ mgood (snd x) /\ In (t, fst x) (snd x).
Proof.
  intros B G x. subst x. unfold p_lookup. destruct (map_find t m) as [i|] eqn:E; cbn [fst snd].
  { split; [apply mext_refl|]. split; [auto|]. now apply map_find_some. }
  set (i := N.of_nat (length m) mod 2 ^ g_bits k).
  destruct (cm_insert_ok t i m E) as [L M]. split; [|split].
  - split; [lia|]. intros y Hy. apply M; auto.
  - intros S. rewrite L in S.
    assert (S' : N.of_nat (length m) < eol_tok k) by lia.
    assert (Ei : i = N.of_nat (length m)).
    { unfold i. apply N.mod_small. apply small_bits. lia. }
    destruct (G S') as [F ND]. rewrite Forall_forall in F. split.
    + apply Forall_forall. intros y Hy. rewrite L. apply M in Hy as [->|Hy].
      * cbn [fst snd]. destruct B as (? & ? & ?).
        split; [auto|]. split; [auto|]. split; [auto|]. lia.
      * apply F in Hy as (? & ? & ? & ?).
        split; [auto|]. split; [auto|]. split; [auto|]. lia.
    + assert (P : Permutation.Permutation ((t, i) :: m) (cm_insert t i m)).
      { clearbody i. clear -E. revert E. induction m as [|[u j] m IH]; cbn; intros E; [auto|].
        destruct (st_eqb u t) eqn:Eu; [discriminate|]. destruct (st_cmp t u) eqn:C.
        - apply st_cmp_eq in C as ->. rewrite (proj2 (st_eqb_eq u u) eq_refl) in Eu. discriminate.
        - auto.
        - rewrite Permutation.perm_swap. auto. }
      apply (Permutation.Permutation_NoDup (Permutation.Permutation_map snd P)).
      cbn. constructor; [|auto]. intros Hi. apply in_map_iff in Hi as (y & Ey & Hy).
      apply F in Hy as (_ & _ & _ & Hy). rewrite Ey in Hy. lia.
  - apply M; auto.
Qed.

(** Tokens of leaves in a fine map. *)
Lemma mfine_lt m t i : mfine m -> In (t, i) m -> i < eol_tok k.
Proof.
  intros [[F _] L] H. rewrite Forall_forall in F. apply F in H as (_ & _ & _ & H). cbn in H. lia.
Qed.
Lemma mfine_npos m : mfine m -> eol_tok k < bol_tok k < gnpos k.
Proof. intros [_ L]. unfold eol_tok, bol_tok in *. lia. Qed.
Lemma mfine_unique m t u i : mfine m -> In (t, i) m -> In (u, i) m -> t = u.
Proof.
  intros [[_ ND] _]. induction m as [|[v j] m IH]; cbn; [tauto|].
  cbn in ND. inversion ND as [|? ? N1 N2]; subst.
  assert (X : forall w, In (w, j) m -> False).
  { intros w Hw. apply N1. now apply (in_map snd) in Hw. }
  intros [H1|H1] [H2|H2]; auto.
  - congruence.
  - injection H1 as -> ->. now apply X in H2.
  - injection H2 as -> ->. now apply X in H1.
Qed.
Lemma sem_set m t i a : mfine m -> In (t, i) m ->
  token_sem k m i a <-> exists b, a = SByte b /\ mem b t.
Proof.
  intros F H. destruct a as [b| |]; cbn [token_sem].
  - split.
    + intros (u & Hu & Hb). exists b. now rewrite (mfine_unique m t u i).
    + intros (b' & [= <-] & Hb). eauto.
  - split; [|now intros (? & ? & _)]. intros ->. apply mfine_lt in H; auto.
    pose proof (mfine_npos m F). lia.
  - split; [|now intros (? & ? & _)]. intros ->. apply mfine_lt in H; auto. lia.
Qed.
Lemma sem_bol m a : mfine m -> token_sem k m (bol_tok k) a <-> a = SBol.
Proof.
  intros F. pose proof (mfine_npos m F). destruct a as [b| |]; cbn [token_sem].
  - split; [|discriminate]. intros (u & Hu & _). apply mfine_lt in Hu; auto. lia.
  - tauto.
  - split; [lia|discriminate].
Qed.
Lemma sem_eol m a : mfine m -> token_sem k m (eol_tok k) a <-> a = SEol.
Proof.
  intros F. pose proof (mfine_npos m F). destruct a as [b| |]; cbn [token_sem].
  - split; [|discriminate]. intros (u & Hu & _). apply mfine_lt in Hu; auto. lia.
  - split; [lia|discriminate].
  - tauto.
Qed.

(** ** Nodes that mean something *)
Definition known (m : charset_map) (t : N) : Prop :=
  t = bol_tok k \/ t = eol_tok k \/ exists tk, In (tk, t) m.
(** [n] stands for the words [L], whatever is added to the map later, as long as
    the map stays fine; and its leaves have known tokens. *)
Definition means (m : charset_map) (n : node) (L : list sym -> Prop) : Prop :=
  (forall mf, mext m mf -> mfine mf -> forall w, den (token_sem k mf) n w <-> L w) /\
  (forall w, den eq n w -> Forall (known m) w).
Definition node_is (m : charset_map) (n : node) (r : rx) : Prop := means m n (xlang bsz r).

Lemma known_ext m m' t : mext m m' -> known m t -> known m' t.
Proof. intros [_ I] [H|[H|(tk & H)]]; unfold known; eauto. Qed.
Lemma means_ext m m' n L : mext m m' -> means m n L -> means m' n L.
Proof.
  intros X [H1 H2]. split.
  - intros mf Y. apply H1. eapply mext_trans; eauto.
  - intros w Hw. apply H2 in Hw. eapply Forall_impl; [|exact Hw]. intros t.
    now apply known_ext.
Qed.
Lemma means_iff m n L L' : (forall w, L w <-> L' w) -> means m n L -> means m n L'.
Proof. intros X [H1 H2]. split; [|auto]. intros. rewrite H1 by auto. auto. Qed.

Lemma means_seq m a b A B : means m a A -> means m b B ->
  means m (NSeq a b) (fun w => exists u v, w = u ++ v /\ A u /\ B v).
Proof.
  intros [A1 A2] [B1 B2]. split.
  - intros mf X F w. cbn [den]. split; intros (u & v & -> & H1 & H2); exists u, v;
      (split; [auto|]; split; [apply (A1 mf)|apply (B1 mf)]; auto).
  - intros w (u & v & -> & H1 & H2). apply Forall_app. auto.
Qed.
Lemma means_sel m a b A B : means m a A -> means m b B -> means m (NSel a b) (fun w => A w \/ B w).
Proof.
  intros [A1 A2] [B1 B2]. split.
  - intros mf X F w. cbn [den]. rewrite (A1 mf X F), (B1 mf X F). tauto.
  - intros w [H|H]; auto.
Qed.

(** A tree operation whose effect on words is [F]. *)
Definition unary_op (op : tstate -> res tstate)
    (F : forall A, (list A -> Prop) -> list A -> Prop) : Prop :=
  forall A (sem : N -> A -> Prop) s0 n ns s, twf s0 (n :: ns) s ->
    exists n' s', (forall vis, op (n :: vis, s) = Ok (n' :: vis, s')) /\ twf s0 (n' :: ns) s' /\
      forall w, den sem n' w <-> F A (den sem n) w.
Definition ext_op (F : forall A, (list A -> Prop) -> list A -> Prop) : Prop :=
  (forall A (L L' : list A -> Prop), (forall w, L w <-> L' w) -> forall w, F A L w <-> F A L' w) /\
  (forall A (L : list A -> Prop) (P : A -> Prop), (forall w, L w -> Forall P w) ->
     forall w, F A L w -> Forall P w).
Lemma unary_means op F s0 m n ns s L : unary_op op F -> ext_op F ->
  twf s0 (n :: ns) s -> means m n L ->
  exists n' s', op (n :: ns, s) = Ok (n' :: ns, s') /\ twf s0 (n' :: ns) s' /\ means m n' (F _ L).
Proof.
  intros HO [X1 X2] W [M1 M2].
  destruct (HO N eq s0 n ns s W) as (n' & s' & E & W' & D).
  exists n', s'. split; [apply E|]. split; [auto|]. split.
  - intros mf X Fm w.
    destruct (HO sym (token_sem k mf) s0 n ns s W) as (n1 & s1 & E1 & _ & D1).
    specialize (E ns). specialize (E1 ns). rewrite E in E1. injection E1 as -> ->.
    rewrite D1. apply X1. intros v. now apply M1.
  - intros w Hw. apply D in Hw. revert w Hw. now apply X2.
Qed.

Lemma power_ext {A} (L L' : list A -> Prop) : (forall w, L w <-> L' w) ->
  forall n w, power L n w <-> power L' n w.
Proof.
  intros H. induction n as [|n IH]; intros w; cbn [power]; [tauto|].
  split; intros (u & v & -> & H1 & H2); exists u, v; (split; [auto|]; split;
    [now apply H|now apply IH]).
Qed.
Lemma power_all {A} (L : list A -> Prop) (P : A -> Prop) : (forall w, L w -> Forall P w) ->
  forall n w, power L n w -> Forall P w.
Proof.
  intros H. induction n as [|n IH]; cbn [power]; intros w; [intros ->; constructor|].
  intros (u & v & -> & H1 & H2). apply Forall_app. eauto.
Qed.
Lemma star_power {A} (L : list A -> Prop) w : star L w <-> exists n, power L n w.
Proof.
  split.
  - induction 1 as [|u v Hu _ (n & Hn)]; [now exists O|]. exists (S n), u, v. auto.
  - intros (n & H). revert w H. induction n as [|n IH]; cbn [power]; intros w.
    + intros ->. constructor.
    + intros (u & v & -> & H1 & H2). constructor; auto.
Qed.

Lemma opt_op g : unary_op (t_optional g) (fun _ L w => w = [] \/ L w).
Proof. intros A sem s0 n ns s W. now apply t_optional_ok. Qed.
Lemma star_op g : unary_op (t_star g) (fun _ L w => exists n, power L n w).
Proof.
  intros A sem s0 n ns s W. destruct (t_star_ok sem s0 g n ns s W) as (n' & s' & E & W' & D).
  exists n', s'. split; [auto|]. split; [auto|]. intros w. rewrite D. apply star_power.
Qed.
Lemma plus_op g : unary_op (t_plus g) (fun _ L w => exists n, (1 <= n)%nat /\ power L n w).
Proof. intros A sem s0 n ns s W. now apply t_plus_ok. Qed.
Lemma rep_op g mn c mx : rep_args mn c mx ->
  unary_op (t_repeat g mn c mx) (fun _ L w => exists n, (N.to_nat mn <= n)%nat /\
    match rep_max mn c mx with Some m => (n <= m)%nat | None => True end /\ power L n w).
Proof. intros HA A sem s0 n ns s W. now apply t_repeat_ok. Qed.

Lemma opt_ext : ext_op (fun _ L w => w = [] \/ L w).
Proof.
  split.
  - intros A L L' H w. now rewrite H.
  - intros A L P H w [->|Hw]; auto.
Qed.
Lemma rep_ext (P : nat -> Prop) : ext_op (fun _ L w => exists n, P n /\ power L n w).
Proof.
  split.
  - intros A L L' H w. split; intros (n & Hn & Hw); exists n; (split; [auto|]);
      now apply (power_ext _ _ H).
  - intros A L Q H w (n & _ & Hw). eapply power_all; eauto.
Qed.
Lemma star_ext : ext_op (fun _ L w => exists n, power L n w).
Proof.
  split.
  - intros A L L' H w. split; intros (n & Hw); exists n; now apply (power_ext _ _ H).
  - intros A L Q H w (n & Hw). eapply power_all; eauto.
Qed.
Lemma rep_ext2 (P Q : nat -> Prop) : ext_op (fun _ L w => exists n, P n /\ Q n /\ power L n w).
Proof.
  split.
  - intros A L L' H w. split; intros (n & Hn & Hq & Hw); exists n; (split; [auto|]; split; [auto|]);
      now apply (power_ext _ _ H).
  - intros A L R H w (n & _ & _ & Hw). eapply power_all; eauto.
Qed.

(** ** The parser state: the node stack means [ls] *)
Variable s0 : store.
Variable m0 : charset_map.
(** The map is good and extends [m0]. *)
Definition mgood2 (m : charset_map) : Prop := mgood m /\ mext m0 m.
Definition vals (s : pstate) (ls : list (list sym -> Prop)) : Prop :=
  twf s0 (fst (ps_tree s)) (snd (ps_tree s)) /\
  Forall2 (means (ps_map s)) (fst (ps_tree s)) ls /\ mgood2 (ps_map s).
Lemma p_lookup_ok2 t m : bt t -> mgood2 m ->
  let x := p_lookup k t m in
  mext m (snd x) /\ mgood2 (snd x) /\ In (t, fst x) (snd x).
Proof.
  intros B [G X]. destruct (p_lookup_ok t m B G) as (H1 & H2 & H3). cbv zeta.
  split; [auto|]. split; [|auto]. split; [auto|]. eapply mext_trans; eauto.
Qed.

Lemma vals_ext m m' ns ls : mext m m' -> Forall2 (means m) ns ls -> Forall2 (means m') ns ls.
Proof. intros X. induction 1; constructor; auto. eapply means_ext; eauto. Qed.
Lemma vals_iff s L L' ls : (forall w, L w <-> L' w) -> vals s (L :: ls) -> vals s (L' :: ls).
Proof.
  intros X (W & F & G). split; [auto|]. split; [|auto]. inversion F; subst. constructor; auto.
  eapply means_iff; eauto.
Qed.

Lemma push_leaf_ok s ls id L : vals s ls ->
  (forall p, id <> gnpos k -> means (ps_map s) (NLeaf id p) L) ->
  (id = gnpos k -> means (ps_map s) (NNull GYes) L) ->
  vals (push_leaf k id s) (L :: ls).
Proof.
  intros (W & F & G) H1 H2. unfold push_leaf, vals. cbn [with_tree ps_tree ps_map fst snd].
  destruct (mk_leaf (gnpos k) id GYes (snd (ps_tree s))) as [n' s'] eqn:E. cbn [fst snd].
  split; [|split; [|auto]].
  - eapply t_leaf_ok; eauto.
  - constructor; [|auto]. unfold mk_leaf in E. destruct (N.eqb_spec id (gnpos k));
      injection E as <- <-; auto.
Qed.

Definition one (t : stoken) (w : list sym) : Prop := exists b, w = [SByte b] /\ mem b t.
Lemma push_range_ok s ls t : bt t -> vals s ls -> vals (push_range k t s) (one t :: ls).
Proof.
  intros B (W & F & G). unfold push_range.
  destruct (p_lookup_ok2 t (ps_map s) B G) as (X & G' & I).
  destruct (p_lookup k t (ps_map s)) as [id m']; cbn [fst snd] in *.
  apply push_leaf_ok; cbn [with_map ps_map].
  - split; [auto|]. split; [|auto]. cbn. eapply vals_ext; eauto.
  - intros p _. split.
    + intros mf Xf Ff w. cbn [den]. assert (If : In (t, id) mf) by (apply Xf; auto).
      split.
      * intros (a & -> & Ha). apply (sem_set mf t id a Ff If) in Ha as (b & -> & Hb). now exists b.
      * intros (b & -> & Hb). exists (SByte b). split; [auto|]. apply (sem_set mf t id); eauto.
    + intros w (a & -> & Ha). subst a. constructor; [|constructor]. right. right. eauto.
  - intros ->. split.
    + intros mf Xf Ff. assert (If : In (t, gnpos k) mf) by (apply Xf; auto).
      apply mfine_lt in If; auto. pose proof (mfine_npos mf Ff). lia.
    + intros w ->. constructor.
Qed.

Definition lcat (A B : list sym -> Prop) (w : list sym) : Prop :=
  exists u v, w = u ++ v /\ A u /\ B v.
Lemma seq_vals s A B ls : vals s (B :: A :: ls) ->
  exists s', on_tree t_sequence s = Ok s' /\ vals s' (lcat A B :: ls) /\
    ps_stack s' = ps_stack s.
Proof.
  intros (W & F & G). unfold on_tree. destruct s as [st [ns s] m cr nl]; cbn [ps_tree ps_map fst snd] in *.
  inversion F as [|b ? ns1 ? Mb F1]; subst. inversion F1 as [|a ? ns2 ? Ma F2]; subst.
  destruct (t_sequence_ok s0 a b ns2 s W) as (s' & E & W'). rewrite E. cbn [bind].
  eexists. split; [reflexivity|]. split; [|reflexivity]. split; [exact W'|]. split; [|exact G].
  cbn. constructor; [|auto]. now apply means_seq.
Qed.
Lemma or_vals s A B ls : vals s (B :: A :: ls) ->
  exists s', on_tree t_or s = Ok s' /\ vals s' ((fun w => A w \/ B w) :: ls) /\
    ps_stack s' = ps_stack s.
Proof.
  intros (W & F & G). unfold on_tree. destruct s as [st [ns s] m cr nl]; cbn [ps_tree ps_map fst snd] in *.
  inversion F as [|b ? ns1 ? Mb F1]; subst. inversion F1 as [|a ? ns2 ? Ma F2]; subst.
  destruct (t_or_ok s0 a b ns2 s W) as [E W']. rewrite E. cbn [bind].
  eexists. split; [reflexivity|]. split; [|reflexivity]. split; [exact W'|]. split; [|exact G].
  cbn. constructor; [|auto]. now apply means_sel.
Qed.
Lemma unary_vals op F s L ls : unary_op op F -> ext_op F -> vals s (L :: ls) ->
  exists s', on_tree op s = Ok s' /\ vals s' (F _ L :: ls) /\ ps_stack s' = ps_stack s.
Proof.
  intros HO HX (W & Fl & G). unfold on_tree.
  destruct s as [st [ns s] m cr nl]; cbn [ps_tree ps_map fst snd] in *.
  inversion Fl as [|n ? ns1 ? M F1]; subst.
  destruct (unary_means op F s0 m n ns1 s L HO HX W M) as (n' & s' & E & W' & M').
  rewrite E. cbn [bind]. eexists. split; [reflexivity|]. split; [|reflexivity].
  split; [exact W'|]. split; [|exact G]. cbn. constructor; auto.
Qed.

(** ** Sliced classes *)
Lemma stack_push_range t s : ps_stack (push_range k t s) = ps_stack s.
Proof. reflexivity. Qed.

Definition two (d : stoken * stoken) : list sym -> Prop := lcat (one (fst d)) (one (snd d)).
Definition three (d : stoken * stoken * stoken) : list sym -> Prop :=
  lcat (lcat (one (fst (fst d))) (one (snd (fst d)))) (one (snd d)).

Lemma push_data2_ok d s ls : bt (fst d) /\ bt (snd d) -> vals s ls ->
  exists s', push_data2 k d s = Ok s' /\ vals s' (two d :: ls) /\ ps_stack s' = ps_stack s.
Proof.
  intros [B1 B2] V. unfold push_data2.
  destruct (seq_vals (push_range k (snd d) (push_range k (fst d) s)) (one (fst d)) (one (snd d)) ls)
    as (s' & E & V' & St).
  { apply push_range_ok; auto. apply push_range_ok; auto. }
  exists s'. split; [exact E|]. split; [exact V'|]. now rewrite St.
Qed.
Lemma push_data3_ok d s ls : bt (fst (fst d)) /\ bt (snd (fst d)) /\ bt (snd d) -> vals s ls ->
  exists s', push_data3 k d s = Ok s' /\ vals s' (three d :: ls) /\ ps_stack s' = ps_stack s.
Proof.
  destruct d as [[t1 t2] t3]. cbn [fst snd]. intros (B1 & B2 & B3) V. unfold push_data3.
  destruct (seq_vals (push_range k t2 (push_range k t1 s)) (one t1) (one t2) ls)
    as (s1 & E1 & V1 & St1).
  { apply push_range_ok; auto. apply push_range_ok; auto. }
  rewrite E1. cbn [bind].
  destruct (seq_vals (push_range k t3 s1) (lcat (one t1) (one t2)) (one t3) ls)
    as (s2 & E2 & V2 & St2).
  { apply push_range_ok; auto. }
  exists s2. split; [exact E2|]. split; [exact V2|]. now rewrite St2.
Qed.

Section Pd.
  Context {D : Type}.
  Variable pd : D -> pstate -> res pstate.
  Variable good : D -> Prop.
  Variable sem : D -> list sym -> Prop.
  Hypothesis pd_ok : forall d s ls, good d -> vals s ls ->
    exists s', pd d s = Ok s' /\ vals s' (sem d :: ls) /\ ps_stack s' = ps_stack s.
  Lemma push_more_ok ds : forall s L ls, Forall good ds -> vals s (L :: ls) ->
    exists s', push_more pd ds s = Ok s' /\
      vals s' ((fun w => L w \/ exists d, In d ds /\ sem d w) :: ls) /\ ps_stack s' = ps_stack s.
  Proof.
    induction ds as [|d ds IH]; intros s L ls G V; cbn [push_more].
    - exists s. split; [auto|]. split; [|auto]. eapply vals_iff; [|exact V].
      intros w. split; [auto|]. now intros [H|(d & [] & _)].
    - inversion G; subst. destruct (pd_ok d s (L :: ls)) as (s1 & E1 & V1 & S1); auto.
      rewrite E1. cbn [bind]. destruct (or_vals s1 L (sem d) ls V1) as (s2 & E2 & V2 & S2).
      rewrite E2. cbn [bind]. edestruct IH as (s3 & E3 & V3 & S3); eauto.
      exists s3. split; [auto|]. split; [|congruence].
      eapply vals_iff; [|exact V3]. intros w. cbn [In]. split.
      + intros [[H|H]|(d' & Hd & H)]; eauto 6.
      + intros [H|(d' & [<-|Hd] & H)]; eauto 6.
  Qed.
  Lemma push_ranges_ok ds s ls : ds <> [] -> Forall good ds -> vals s ls ->
    exists s', push_ranges pd ds s = Ok s' /\
      vals s' ((fun w => exists d, In d ds /\ sem d w) :: ls) /\ ps_stack s' = ps_stack s.
  Proof.
    intros NE G V. destruct ds as [|d ds]; [easy|]. inversion G; subst. cbn [push_ranges].
    destruct (pd_ok d s ls) as (s1 & E1 & V1 & S1); auto. rewrite E1. cbn [bind].
    destruct (push_more_ok ds s1 (sem d) ls) as (s2 & E2 & V2 & S2); auto.
    exists s2. split; [auto|]. split; [|congruence]. eapply vals_iff; [|exact V2].
    intros w. cbn [In]. split.
    - intros [H|(d' & Hd & H)]; eauto.
    - intros (d' & [<-|Hd] & H); eauto.
  Qed.
End Pd.

Lemma two_accepts d w : (exists x, In x d /\ two x w) <->
  exists h l, w = [SByte h; SByte l] /\ accepts2 d h l.
Proof.
  split.
  - intros ([t1 t2] & Hi & u & v & -> & (h & -> & Hh) & (l & -> & Hl)). exists h, l.
    split; [auto|]. exists t1, t2. auto.
  - intros (h & l & -> & t1 & t2 & Hi & Hh & Hl). exists (t1, t2). split; [auto|].
    exists [SByte h], [SByte l]. split; [auto|]. split; [now exists h|now exists l].
Qed.
Lemma three_accepts d w : (exists x, In x d /\ three x w) <->
  exists h m l, w = [SByte h; SByte m; SByte l] /\ accepts3 d h m l.
Proof.
  split.
  - intros ([[t1 t2] t3] & Hi & x & v & -> & (u & y & -> & (h & -> & Hh) & (m & -> & Hm)) & (l & -> & Hl)).
    exists h, m, l. split; [auto|]. exists t1, t2, t3. auto.
  - intros (h & m & l & -> & t1 & t2 & t3 & Hi & Hh & Hm & Hl). exists (t1, t2, t3).
    split; [auto|]. exists [SByte h; SByte m], [SByte l]. split; [auto|]. split; [|now exists l].
    exists [SByte h], [SByte m]. split; [auto|]. split; [now exists h|now exists m].
Qed.

Definition wide_ok : Prop := bsz = 1 \/ bsz = 2 \/ 2 < bsz.

Lemma set_ok_range t : set_ok bsz t -> Forall (fun r => fst r <= snd r) t.
Proof.
  intros (W & _ & _). apply Forall_forall. intros r Hr. now apply (wf_from_In 0 t r W).
Qed.
Lemma slice16_ne t : t <> [] -> slice16 t <> [].
Proof.
  assert (I : forall t1 t2 d, insert2 t1 t2 d <> []).
  { intros t1 t2 [|[u1 u2] d]; cbn; [easy|]. now destruct (st_eqb t1 u1). }
  assert (R : forall r d, slice_range16 r d <> []).
  { intros r d. unfold slice_range16, insert_range16. cbv zeta. destruct (_ =? _); apply I. }
  intros NE. unfold slice16. destruct t as [|r t]; [easy|]. cbn. generalize (R r []).
  generalize (slice_range16 r []). clear NE. induction t as [|r' t IH]; cbn; intros d H; [auto|].
  apply IH, R.
Qed.
Lemma slice24_ne t : t <> [] -> slice24 t <> [].
Proof.
  assert (I : forall t1 t2 t3 d, insert3 t1 t2 t3 d <> []).
  { intros t1 t2 t3 [|[[u1 u2] u3] d]; cbn; [easy|]. now destruct (st_eqb t1 u1 && st_eqb u2 t2). }
  assert (R : forall r d, slice_range24 r d <> []).
  { intros r d. unfold slice_range24, insert_range24. cbv zeta. destruct (_ =? _).
    - assert (NE : slice_range16 r [] <> []).
      { unfold slice_range16, insert_range16. cbv zeta.
        assert (I2 : forall t1 t2 d, insert2 t1 t2 d <> []).
        { intros t1 t2 [|[u1 u2] d']; cbn; [easy|]. now destruct (st_eqb t1 u1). }
        destruct (_ =? _); apply I2. }
      destruct (slice_range16 r []) as [|x l]; [easy|]. cbn [fold_left]. clear NE.
      generalize (I [(msb (fst r), msb (fst r))] (fst x) (snd x) d).
      generalize (insert3 [(msb (fst r), msb (fst r))] (fst x) (snd x) d).
      induction l as [|y l IH]; cbn; intros d' H; [auto|]. apply IH, I.
    - destruct (negb _); apply I. }
  intros NE. unfold slice24. destruct t as [|r t]; [easy|]. cbn. generalize (R r []).
  generalize (slice_range24 r []). clear NE. induction t as [|r' t IH]; cbn; intros d H; [auto|].
  apply IH, R.
Qed.

(** parser.hpp:434-479: a charset token. *)
Definition set_stack (t : list token) : list token :=
  if compressed k then tok CLOSEPAREN :: tok REGEX :: tok OPENPAREN :: t else tok REPEAT :: t.
Lemma p_charset_ok t s ls : wide_ok -> set_ok bsz t -> vals s ls ->
  exists s', p_charset k t s = Ok s' /\ vals s' (xlang bsz (XSet t) :: ls) /\
    ps_stack s' = set_stack (ps_stack s).
Proof.
  intros WO SO V. pose proof (set_ok_range t SO) as HR. destruct SO as (W & NE & B).
  assert (P : forall x s', vals s' ls -> vals (push x s') ls) by (intros; auto).
  assert (P2 : forall x s' L, vals s' (L :: ls) -> vals (push x s') (L :: ls)) by (intros; auto).
  rewrite Forall_forall in HR, B.
  unfold p_charset, compressed, set_stack. destruct WO as [E|[E|E]]; unfold compressed; try rewrite E in *.
  - cbn [N.ltb N.compare Pos.compare Pos.compare_cont]. change (1 <? 1) with false. cbv iota.
    eexists. split; [reflexivity|]. split; [|reflexivity]. apply P2.
    eapply vals_iff; [|apply push_range_ok; [|exact V]].
    + intros w. cbn [xlang]. change (enc 1) with (fun c : N => [c]). cbn [map].
      assert (LO : forall c, takes t c <-> mem c t).
      { intros c. apply takes_low, Forall_forall. intros r Hr. specialize (B r Hr). change (1 =? 1) with true in B. cbv iota in B. lia. }
      split; intros (c & H1 & H2); exists c; (split; [|now apply LO] || (split; [now apply LO|])); exact H1 || exact H2.
    + split; [auto|]. split; [auto|]. apply Forall_forall. intros r Hr.
      specialize (HR r Hr). specialize (B r Hr). change (1 =? 1) with true in B. cbv iota in B. lia.
  - change (1 <? 2) with true. cbv iota. unfold create_sequence. rewrite E.
    change (2 =? 2) with true. cbv iota.
    destruct (push_ranges_ok (push_data2 k) _ _ push_data2_ok (slice16 t) s ls)
      as (s1 & E1 & V1 & St); [now apply slice16_ne|exact (good2_slice t)|auto|].
    rewrite E1. cbn [bind]. eexists. split; [reflexivity|].
    split; [|cbn; now rewrite St]. do 3 apply P2. eapply vals_iff; [|exact V1].
    intros w. rewrite two_accepts. cbn [xlang].
    assert (X : Forall (fun r => fst r <= snd r <= 0xffff) t).
    { apply Forall_forall. intros r Hr. specialize (HR r Hr). specialize (B r Hr).
      change (2 =? 1) with false in B. change (2 =? 2) with true in B. cbv iota in B. lia. }
    assert (LO : forall c, takes t c <-> mem c t).
    { intros c. apply takes_low, Forall_forall. intros r Hr. rewrite Forall_forall in X. specialize (X r Hr). lia. }
    split.
    + intros (h & l & -> & Ha). apply slice16_exact in Ha as (Hh & Hl & Hm); [|auto].
      exists (h * 256 + l). split; [now apply LO|]. unfold enc. change (2 =? 1) with false.
      change (2 =? 2) with true. cbv iota. cbn [map].
      replace ((h * 256 + l) / 256 mod 256) with h by lia.
      replace ((h * 256 + l) mod 256) with l by lia. reflexivity.
    + intros (c & Hc & ->). apply LO in Hc. unfold enc. change (2 =? 1) with false.
      change (2 =? 2) with true. cbv iota. cbn [map]. eexists _, _. split; [reflexivity|].
      assert (Lc : c <= 65535).
      { destruct Hc as (a & b & Hi & Hc). rewrite Forall_forall in X. apply X in Hi. cbn in Hi. lia. }
      apply slice16_exact; [auto|]. split; [lia|]. split; [lia|].
      replace (c / 256 mod 256 * 256 + c mod 256) with c by lia. auto.
  - assert (B1 : (bsz =? 1) = false) by (apply N.eqb_neq; lia). assert (B2 : (bsz =? 2) = false) by (apply N.eqb_neq; lia).
    assert (B3 : (1 <? bsz) = true) by (apply N.ltb_lt; lia). rewrite B3. unfold create_sequence. rewrite B2.
    destruct (push_ranges_ok (push_data3 k) _ _ push_data3_ok (slice24 t) s ls)
      as (s1 & E1 & V1 & St); [now apply slice24_ne|exact (good3_slice t)|auto|].
    rewrite E1. cbn [bind]. eexists. split; [reflexivity|].
    split; [|cbn; now rewrite St]. do 3 apply P2. eapply vals_iff; [|exact V1].
    intros w. rewrite three_accepts. cbn [xlang].
    assert (X : Forall (fun r => fst r <= snd r <= 0x10ffff /\ tame r) t).
    { apply Forall_forall. intros r Hr. specialize (HR r Hr). specialize (B r Hr).
      rewrite B1, B2 in B. destruct B. split; [lia|auto]. }
    assert (TOP : forall c, takes t c -> c < 16777216).
    { intros c [(a & b & Hi & Hc)|(L & _)]; [|lia]. rewrite Forall_forall in X. apply X in Hi. cbn in Hi. lia. }
    split.
    + intros (h & m & l & -> & Ha). apply slice24_exact in Ha as (Hm & Hl & Hi); [|auto].
      exists (h * 65536 + m * 256 + l). split; [auto|].
      assert (Lc := TOP _ Hi).
      unfold enc. rewrite B1, B2. cbn [map].
      replace ((h * 65536 + m * 256 + l) / 65536 mod 256) with h by lia.
      replace ((h * 65536 + m * 256 + l) / 256 mod 256) with m by lia.
      replace ((h * 65536 + m * 256 + l) mod 256) with l by lia. reflexivity.
    + intros (c & Hc & ->). unfold enc. rewrite B1, B2. cbn [map]. eexists _, _, _. split; [reflexivity|].
      assert (Lc := TOP _ Hc).
      apply slice24_exact; [auto|]. split; [lia|]. split; [lia|].
      replace (c / 65536 mod 256 * 65536 + c / 256 mod 256 * 256 + c mod 256) with c by lia. auto.
Qed.

Lemma p_bol_ok s ls : vals s ls ->
  vals (p_bol k s) (xlang bsz XBol :: ls) /\ ps_stack (p_bol k s) = tok REPEAT :: ps_stack s.
Proof.
  intros V. split; [|reflexivity]. unfold p_bol.
  apply (push_leaf_ok s ls (bol_tok k) (xlang bsz XBol)) in V; [exact V| |].
  - intros p _. split.
    + intros mf X F w. cbn [den xlang]. split.
      * intros (a & -> & Ha). apply (sem_bol mf a F) in Ha as ->. reflexivity.
      * intros ->. exists SBol. split; [auto|]. now apply sem_bol.
    + intros w (a & -> & <-). repeat constructor.
  - intros E. split.
    + intros mf X F. pose proof (mfine_npos mf F). lia.
    + intros w ->. constructor.
Qed.
Lemma p_eol_ok s ls : vals s ls ->
  vals (p_eol k s) (xlang bsz XEol :: ls) /\ ps_stack (p_eol k s) = tok REPEAT :: ps_stack s.
Proof.
  intros (W & Fl & G). split; [|reflexivity]. unfold p_eol.
  assert (B : forall c, c < 256 -> bt [(c, c)]).
  { intros c Hc. split; [cbn; lia|]. split; [discriminate|]. repeat constructor; cbn; lia. }
  destruct (p_lookup_ok2 [(13, 13)] (ps_map s) (B 13 ltac:(lia)) G) as (X1 & G1 & I1).
  destruct (p_lookup k [(13, 13)] (ps_map s)) as [c m1]; cbn [fst snd] in *.
  destruct (p_lookup_ok2 [(10, 10)] m1 (B 10 ltac:(lia)) G1) as (X2 & G2 & I2).
  destruct (p_lookup k [(10, 10)] m1) as [n m2]; cbn [fst snd] in *.
  match goal with |- vals (push _ (push_leaf _ _ ?s1)) _ => set (s1' := s1) end.
  assert (V : vals s1' ls).
  { split; [auto|]. split; [|auto]. cbn. eapply vals_ext; [|exact Fl]. eapply mext_trans; eauto. }
  apply (push_leaf_ok s1' ls (eol_tok k) (xlang bsz XEol)) in V; [exact V| |].
  - intros p _. split.
    + intros mf X F w. cbn [den xlang]. split.
      * intros (a & -> & Ha). apply (sem_eol mf a F) in Ha as ->. reflexivity.
      * intros ->. exists SEol. split; [auto|]. now apply sem_eol.
    + intros w (a & -> & <-). constructor; [right; left; auto|constructor].
  - intros E. split.
    + intros mf X F. pose proof (mfine_npos mf F). lia.
    + intros w ->. constructor.
Qed.
End ParserTree.
