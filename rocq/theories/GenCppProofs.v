(** The generated function follows lookup(). *)
From Verif Require Import Base StateMachine Lookup TableSpec LookupSpec GenCpp GenCppSpec.
Local Open Scope N_scope.

Lemma npos_no_eol k : (npos k =? 13) || (npos k =? 10) = false.
Proof.
  unfold npos, npos_of. assert (2 ^ c_bits k <> 14 /\ 2 ^ c_bits k <> 11); [|lia].
  destruct (N.le_gt_cases 4 (c_bits k)) as [L|L].
  - pose proof (N.pow_le_mono_r 2 4 (c_bits k) ltac:(lia) L) as H. change (2 ^ 4) with 16 in H. lia.
  - assert (C : c_bits k = 0 \/ c_bits k = 1 \/ c_bits k = 2 \/ c_bits k = 3) by lia.
    decompose [or] C; match goal with H : c_bits k = _ |- _ => rewrite H end; split; discriminate.
Qed.

Lemma nb_cases b : 1 <= b -> b <> 1 -> (if b <? 3 then b else 3) = 2 /\ b = 2 \/ (if b <? 3 then b else 3) = 3 /\ b <> 2.
Proof. destruct (N.ltb_spec b 3); lia. Qed.
Lemma wide_b b : 1 <= b -> b <> 1 -> (1 <? b) = true.
Proof. destruct (N.ltb_spec 1 b); [reflexivity|lia]. Qed.
Section Sim.
  Variables (k : cfg) (ptrs : bool) (m : internals) (inp : list N) (inner : nat).
  Let nb := if c_bytes k <? 3 then c_bytes k else 3.
  Let g := gen_of m ptrs (1 <? c_bytes k).
  Notation ev := (eval (c_bits k) nb ptrs inp).
  Notation ex := (exec (c_bits k) nb ptrs m inp inner).
  Hypothesis SU : suits k m.
  Hypothesis PS : ptrs = true -> pointers_suit k m.

  Lemma g_bol : gc_bol g = f_bol k. Proof. symmetry. apply SU. Qed.
  Lemma g_eol : gc_eol g = f_eol k. Proof. symmetry. apply SU. Qed.
  Lemma g_rec : gc_rec g = f_rec k. Proof. symmetry. apply SU. Qed.
  Lemma g_multi : gc_multi g = f_multi k. Proof. symmetry. apply SU. Qed.
  Lemma g_ptrs : gc_ptrs g = ptrs. Proof. reflexivity. Qed.

  (** ** Cells *)
  Section Table.
    Variables (t : table) (n : N).
    Hypothesis TW : twf k t n.
    Lemma w_pos : ix_trans <= t_width t. Proof. apply TW. Qed.
    Lemma load_any row col v : cell t row col = Some v -> col < t_width t ->
      dump_at ptrs t (row * t_width t + col) = Some (dump_cell ptrs (t_width t) row col v).
    Proof.
      intros H L. unfold dump_at. unfold cell in H. rewrite H. rewrite N.div_add_l, N.div_small, N.add_0_r by lia.
      rewrite (N.add_comm _ col), N.mod_add, N.mod_small by lia. reflexivity.
    Qed.
    Lemma load_num row col v : cell t row col = Some v -> col < ix_trans -> (col = 0 -> row <> 0) ->
      dump_at ptrs t (row * t_width t + col) = Some (VN v).
    Proof.
      intros H L Z. pose proof w_pos. rewrite (load_any _ _ v) by (auto; lia). unfold dump_cell. destruct ptrs; [|reflexivity].
      destruct (N.eqb_spec col 0) as [->|]; [|destruct (N.ltb_spec col ix_trans); [reflexivity|lia]].
      destruct (N.eqb_spec row 0); [lia|reflexivity].
    Qed.
    Definition link (v : N) : val := if ptrs then if v =? 0 then VN 0 else VP (v * t_width t) else VN v.
    Lemma load_link row col v : cell t row col = Some v -> ix_dead <= col < t_width t ->
      (ptrs = true -> col = ix_dead -> v = 0) ->
      dump_at ptrs t (row * t_width t + col) = Some (link v).
    Proof.
      intros H L Z. rewrite (load_any _ _ v) by (auto; lia). unfold dump_cell, link. destruct ptrs; [|reflexivity].
      unfold ix_dead, ix_trans in *. destruct (N.eqb_spec col 0); [lia|]. destruct (N.ltb_spec col 7).
      - rewrite Z by (auto; lia). reflexivity.
      - destruct (v =? 0); reflexivity.
    Qed.
    Lemma truth_link v : truth (Some (link v)) = Some (negb (v =? 0)).
    Proof. unfold link. destruct ptrs; [|reflexivity]. destruct (v =? 0) eqn:E; reflexivity. Qed.
    Lemma link_def v : link v <> VU.
    Proof. unfold link. destruct ptrs; [destruct (v =? 0)|]; discriminate. Qed.
    Lemma row_link s v x : me_tab s = Some t -> v <> 0 -> get s x = link v ->
      ev (row_expr g (EVar x)) s = Some (VP (v * t_width t)).
    Proof.
      intros M V G. unfold row_expr. rewrite g_ptrs. unfold link in G. destruct ptrs; cbn [eval]; rewrite G.
      - destruct (N.eqb_spec v 0); [congruence|reflexivity].
      - now rewrite M.
    Qed.

    (** ** The variables of an attempt *)
    Record rel (r : results) (s : lstate) (et curr : nat) (e : mem) : Prop := {
      re_tab : me_tab e = Some t;
      re_ptr : get e Vptr = VP (ls_ptr s * t_width t);
      re_end : get e Vend_state = nval (ls_end s);
      re_id : get e Vid = VN (ls_id s);
      re_uid : get e Vuid = VN (ls_uid s);
      re_pop : f_rec k = true -> get e Vpop = nval (ls_pop s);
      re_push : f_rec k = true -> get e Vpush = VN (ls_push s);
      re_start : f_multi k = true -> get e Vstart = VN (ls_start s);
      re_bol : f_bol k = true -> get e Vbol = nval (ls_bol s);
      re_ebol : f_bol k = true -> get e Vend_bol = nval (ls_end_bol s);
      re_et : get e Vend_token = VI et;
      re_curr : get e Vcurr = VI curr;
      re_first : get e Rfirst = VI (r_first r);
      re_second : get e Rsecond = VI (r_second r);
      re_rbol : get e Rbol = nval (r_bol r);
      re_state : get e Rstate = VN (r_state r);
      re_stack : me_stack e = r_stack r
    }.

    Lemma ptr_cell_ok e row i v : me_tab e = Some t -> get e Vptr = VP (row * t_width t) -> row <> 0 ->
      cell t row i = Some v -> i < ix_trans -> ev (ptr_cell g i) e = Some (VN v).
    Proof.
      intros M P R C L. unfold ptr_cell. rewrite g_ptrs.
      assert (E : ev (ELoad (EVar Vptr) (ENum i)) e = Some (VN v)).
      { cbn [eval]. rewrite M, P. rewrite (load_num _ _ v); auto. }
      destruct ptrs; [|exact E]. cbn [eval] in E |- *. now rewrite E.
    Qed.
    Lemma get_put e v x : get (put e v x) v = x.
    Proof. unfold get, put. cbn. destruct v; reflexivity. Qed.
    Lemma tab_put e v x : me_tab (put e v x) = me_tab e. Proof. reflexivity. Qed.
    Lemma stack_put e v x : me_stack (put e v x) = me_stack e. Proof. reflexivity. Qed.

    Lemma x_seq a b e e1 : ex a e = Ok (Next, e1) -> ex (SSeq a b) e = ex b e1.
    Proof. intros H. cbn [exec bind]. now rewrite H. Qed.
    Lemma x_set v x e y : ev x e = Some y -> ex (SSet v x) e = Ok (Next, put e v y).
    Proof. intros H. cbn [exec]. now rewrite H. Qed.
    Lemma x_decl v x e y : ev x e = Some y -> ex (SDecl v x) e = Ok (Next, put e v y).
    Proof. intros H. cbn [exec]. now rewrite H. Qed.
    Lemma x_if x a b e y : truth (ev x e) = Some y -> ex (SIf x a b) e = ex (if y then a else b) e.
    Proof. intros H. cbn [exec]. rewrite H. now destruct y. Qed.
    Lemma truth_nval b : truth (Some (nval b)) = Some b. Proof. now destruct b. Qed.
    Lemma ev_nz x e y : truth (ev x e) = Some y -> ev (ENz x) e = Some (nval y).
    Proof. intros H. cbn [eval]. now rewrite H. Qed.
    Lemma ev_not x e y : truth (ev x e) = Some y -> ev (ENot x) e = Some (nval (negb y)).
    Proof. intros H. cbn [eval]. now rewrite H. Qed.
    Lemma ev_var v e x : get e v = x -> x <> VU -> ev (EVar v) e = Some x.
    Proof. intros <- H. cbn [eval]. destruct (get e v); congruence. Qed.
    Lemma t_var v e b : get e v = nval b -> truth (ev (EVar v) e) = Some b.
    Proof. intros H. rewrite (ev_var _ _ _ H) by (destruct b; discriminate). apply truth_nval. Qed.
    Lemma t_nz x e y : truth (ev x e) = Some y -> truth (ev (ENz x) e) = Some y.
    Proof. intros H. rewrite (ev_nz _ _ _ H). apply truth_nval. Qed.
    Lemma t_not x e y : truth (ev x e) = Some y -> truth (ev (ENot x) e) = Some (negb y).
    Proof. intros H. rewrite (ev_not _ _ _ H). apply truth_nval. Qed.
    Lemma t_and x y e a b : truth (ev x e) = Some a -> (a = true -> truth (ev y e) = Some b) -> truth (ev (EAnd x y) e) = Some (a && b).
    Proof.
      intros H1 H2. cbn [eval]. rewrite H1. destruct a; cbn [andb].
      - rewrite H2 by reflexivity. apply truth_nval.
      - reflexivity.
    Qed.
    Lemma t_or x y e a b : truth (ev x e) = Some a -> (a = false -> truth (ev y e) = Some b) -> truth (ev (EOr x y) e) = Some (a || b).
    Proof.
      intros H1 H2. cbn [eval]. rewrite H1. destruct a; cbn [orb].
      - reflexivity.
      - rewrite H2 by reflexivity. apply truth_nval.
    Qed.
    Lemma t_eq x y e a b : ev x e = Some (VN a) -> ev y e = Some (VN b) -> truth (ev (EEq x y) e) = Some (a =? b).
    Proof. intros H1 H2. cbn [eval]. rewrite H1, H2. apply truth_nval. Qed.
    Lemma t_num x e a : ev x e = Some (VN a) -> truth (ev x e) = Some (negb (a =? 0)).
    Proof. intros H. now rewrite H. Qed.
    Lemma ev_char x e p c : ev x e = Some (VI p) -> nth_error inp p = Some c -> ev (EChar x) e = Some (VN c).
    Proof. intros H1 H2. cbn [eval]. now rewrite H1, H2. Qed.
    Lemma pop_expr_ok e row v : me_tab e = Some t -> get e Vptr = VP (row * t_width t) -> row <> 0 ->
      cell t row ix_end = Some v -> ev (pop_expr g) e = Some (nval (negb (N.land v sb_pop =? 0))).
    Proof.
      intros M P R C. unfold pop_expr. apply ev_nz. cbn [eval]. rewrite (ptr_cell_ok e row ix_end v) by (auto; reflexivity).
      reflexivity.
    Qed.
    Ltac cells R := first [ eapply ptr_cell_ok; [exact (re_tab _ _ _ _ _ R)|exact (re_ptr _ _ _ _ _ R)|assumption|eassumption|reflexivity]
                          | eapply pop_expr_ok; [exact (re_tab _ _ _ _ _ R)|exact (re_ptr _ _ _ _ _ R)|assumption|eassumption] ].
    Ltac vars R := eapply ev_var; [first [refine (re_bol _ _ _ _ _ R _); assumption|exact (re_curr _ _ _ _ _ R)]|let b := fresh in
      try (match goal with |- nval ?x <> _ => destruct x end); discriminate].
    Ltac go R := repeat (erewrite x_seq; [|first [apply x_set | apply x_decl]; first [reflexivity | cells R | vars R]]).

    Lemma note_end_ok r s et curr e s' et' : rel r s et curr e -> ls_ptr s <> 0 ->
      end_state k t s et curr = Some (s', et') ->
      exists e', ex (note_end g) e = Ok (Next, e') /\ rel r s' et' curr e'.
    Proof.
      intros R P E. unfold end_state in E. destruct (cell t (ls_ptr s) ix_end) as [v|] eqn:C0; [|discriminate].
      assert (L0 : ev (ELoad (EVar Vptr) (ENum 0)) e = Some (VN v)).
      { cbn [eval]. rewrite (re_tab _ _ _ _ _ R), (re_ptr _ _ _ _ _ R). apply (load_num _ 0); auto. reflexivity. }
      unfold note_end. erewrite x_if; [|apply t_nz; rewrite L0; reflexivity].
      destruct (N.eqb_spec v 0) as [->|NZ]; cbn [negb].
      - injection E as <- <-. exists e. split; [reflexivity|exact R].
      - destruct (cell t (ls_ptr s) ix_id) as [i|] eqn:C1; [|discriminate].
        destruct (cell t (ls_ptr s) ix_uid) as [u|] eqn:C2; [|discriminate].
        destruct (cell t (ls_ptr s) ix_push) as [p|] eqn:C3; [|discriminate].
        destruct (cell t (ls_ptr s) ix_next) as [x|] eqn:C4; [|discriminate]. injection E as <- <-.
        rewrite g_bol, g_rec, g_multi.
        destruct (f_rec k) eqn:FR, (f_multi k) eqn:FM, (f_bol k) eqn:FB; cbn [opt app block fold_right]; eexists;
          (split; [go R; reflexivity|]).
        all: destruct R; constructor; try assumption; try reflexivity; try discriminate; try (intros; auto; fail).
    Qed.

    Lemma rel_eol r s et curr e x : rel r s et curr e -> rel r (set_eol s x) et curr e.
    Proof. intros R. destruct R. constructor; assumption. Qed.
    Lemma rel_put r s et curr e v x : rel r s et curr e -> v = Vstate \/ v = Vprev \/ v = Veol \/ v = Vi -> rel r s et curr (put e v x).
    Proof. intros R V. destruct R. decompose [or] V; subst v; constructor; assumption. Qed.
    Lemma rel_ptr r s et curr e p : rel r s et curr e -> rel r (set_ptr s p) et curr (put e Vptr (VP (p * t_width t))).
    Proof. intros R. destruct R. constructor; try assumption. reflexivity. Qed.
    Lemma set_ptr_same s : set_ptr s (ls_ptr s) = s. Proof. now destruct s. Qed.

    Hypothesis DZ : ptrs = true -> forall row v, cell t row ix_dead = Some v -> v = 0.
    Lemma column_range b col : column t b = Some col -> ix_dead <= col < t_width t.
    Proof.
      intros H. destruct TW as (_ & _ & _ & _ & _ & F & _). rewrite Forall_forall in F. apply F. unfold column in H.
      eapply nth_error_In; eauto.
    Qed.
    (** ptr_[lookup_[b]] *)
    Lemma follow r s et curr e x b col v : rel r s et curr e -> ev x e = Some (VN b) -> column t b = Some col ->
      cell t (ls_ptr s) col = Some v -> ev (ELoad (EVar Vptr) (ECol x)) e = Some (link v).
    Proof.
      intros R X C V. cbn [eval]. rewrite (re_tab _ _ _ _ _ R), (re_ptr _ _ _ _ _ R), X, C.
      apply load_link; auto. { eapply column_range; eauto. } intros P ->. eapply DZ; eauto.
    Qed.

    Let wide := 1 <? c_bytes k.
    Definition after_char (s : lstate) (c p : N) : lstate :=
      if f_bol k then set_bol (set_ptr s p) (c =? 10) else set_ptr s p.

    Definition miss_block (l : list stmt) : stmt := block (opt (gc_eol g) [SSet Veol (ENum 0)] ++ l).
    Lemma miss_ok r s et curr e c sg : rel r s et curr e -> (forall e, ex c e = Ok (sg, e)) -> sg <> Next ->
      exists e', ex (miss_block [c]) e = Ok (sg, e') /\ rel r s et curr e'.
    Proof.
      intros R C SG. unfold miss_block. rewrite g_eol. destruct (f_eol k); cbn [opt app block fold_right].
      - erewrite x_seq; [|apply x_set; reflexivity]. eexists. split; [cbn [exec]; rewrite C; cbn [bind]; destruct sg; [congruence| | |]; reflexivity|].
        apply rel_put; auto.
      - exists e. split; [cbn [exec]; rewrite C; cbn [bind]; destruct sg; [congruence| | |]; reflexivity|assumption].
    Qed.

    Lemma narrow_ok r s et curr e c st p : rel r s et curr e -> nth_error inp curr = Some c -> c_bytes k = 1 ->
      next_char k t c (ls_ptr s) = Some (st, p) ->
      exists e' sg, ex (block (char_narrow g)) e = Ok (sg, e') /\ rel r (after_char s c p) et (S curr) e' /\
        sg = (if st =? 0 then Brk else Next).
    Proof.
      intros R I B1 NC. unfold next_char in NC. rewrite B1 in NC. change (1 =? 1) with true in NC. cbv iota in NC.
      destruct (column t c) as [col|] eqn:C1; [|discriminate]. destruct (cell t (ls_ptr s) col) as [v|] eqn:C2; [|discriminate].
      injection NC as <- <-. unfold char_narrow. cbn [app block fold_right].
      erewrite x_seq; [|apply x_decl; cbn [eval]; rewrite (re_curr _ _ _ _ _ R), I; reflexivity].
      erewrite x_seq; [|cbn [exec]; change (get (put e Vprev (VN c)) Vcurr) with (get e Vcurr); rewrite (re_curr _ _ _ _ _ R); reflexivity].
      set (e1 := put (put e Vprev (VN c)) Vcurr (VI (S curr))).
      assert (R1 : rel r s et (S curr) e1) by (destruct R; constructor; try assumption; reflexivity).
      erewrite x_seq; [|apply x_decl; eapply (follow _ _ _ _ _ _ c); eauto; reflexivity].
      assert (R2 : rel r s et (S curr) (put e1 Vstate (link v))) by (apply rel_put; auto).
      assert (G : get (put e1 Vstate (link v)) Vstate = link v) by reflexivity.
      assert (Gp : get (put e1 Vstate (link v)) Vprev = VN c) by reflexivity.
      revert R2 G Gp. generalize (put e1 Vstate (link v)). clear e1 R1. intros e2 R2 G Gp.
      set (s2 := if f_bol k then set_bol s (c =? 10) else s).
      assert (H : exists e3, ex (fold_right SSeq SNop (opt (gc_bol g) [SSet Vbol (EEq (EVar Vprev) (ENum 10))] ++
          [SIf (ENot (ENz (EVar Vstate))) (miss_block [SBreak]) SNop; SSet Vptr (row_expr g (EVar Vstate))])) e2 =
          ex (fold_right SSeq SNop [SIf (ENot (ENz (EVar Vstate))) (miss_block [SBreak]) SNop; SSet Vptr (row_expr g (EVar Vstate))]) e3
          /\ rel r s2 et (S curr) e3 /\ get e3 Vstate = link v).
      { rewrite g_bol. unfold s2. destruct (f_bol k) eqn:FB; cbn [opt app fold_right]; [|exists e2; auto].
        eexists. split; [apply x_seq, x_set; cbn [eval]; rewrite Gp; reflexivity|]. split; [|exact G].
        destruct R2; constructor; try assumption. intros _. reflexivity. }
      destruct H as (e3 & E3 & R3 & G3). unfold block. change (fold_right SSeq SNop (opt (gc_eol g) [SSet Veol (ENum 0)] ++ [SBreak])) with (miss_block [SBreak]).
      rewrite E3. cbn [fold_right].
      assert (T : truth (ev (ENot (ENz (EVar Vstate))) e3) = Some (negb (negb (v =? 0)))).
      { apply t_not, t_nz. rewrite (ev_var _ _ _ G3). - apply truth_link. - apply link_def. }
      assert (AC : forall q, after_char s c q = set_ptr s2 q) by (intros q; unfold after_char, s2; destruct (f_bol k); reflexivity).
      destruct (N.eqb_spec v 0) as [->|NZ].
      - destruct (miss_ok _ _ _ _ _ SBreak Brk R3) as (e4 & E4 & R4); [reflexivity|discriminate|]. exists e4, Brk. split; [|split; [|reflexivity]].
        + cbn [exec] in T |- *. rewrite T. cbn [negb]. now rewrite E4.
        + rewrite AC. replace (ls_ptr s) with (ls_ptr s2) by (unfold s2; destruct (f_bol k); reflexivity). rewrite set_ptr_same. exact R4.
      - eexists _, Next. split; [|split; [|reflexivity]].
        + erewrite x_seq; [|rewrite (x_if _ _ _ _ _ T); reflexivity].
          erewrite x_seq; [|apply x_set; apply row_link; eauto; exact (re_tab _ _ _ _ _ R3)]. reflexivity.
        + rewrite AC. now apply rel_ptr.
    Qed.

    Definition byte_body : stmt :=
      block [SDecl Vstate (ELoad (EVar Vptr) (ECol (EByte (EVar Vprev) (EVar Vi))));
             SIf (ENot (ENz (EVar Vstate))) (miss_block [SGoto Lquit]) SNop; SSet Vptr (row_expr g (EVar Vstate))].
    Lemma byte_ok r s et curr e c i col v : rel r s et curr e -> get e Vprev = VN c -> get e Vi = VN i ->
      column t ((c / 256 ^ (nb - 1 - i)) mod 256) = Some col -> cell t (ls_ptr s) col = Some v ->
      exists e', ex byte_body e = Ok (if v =? 0 then Jump Lquit else Next, e') /\
        rel r (if v =? 0 then s else set_ptr s v) et curr e' /\ get e' Vprev = VN c.
    Proof.
      intros R G I C1 C2. unfold byte_body. cbn [block fold_right].
      erewrite x_seq; [|apply x_decl; eapply follow; eauto; cbn [eval]; rewrite G, I; reflexivity].
      assert (R2 : rel r s et curr (put e Vstate (link v))) by (apply rel_put; auto).
      assert (G2 : get (put e Vstate (link v)) Vstate = link v) by reflexivity.
      assert (Gp : get (put e Vstate (link v)) Vprev = VN c) by exact G.
      revert R2 G2 Gp. generalize (put e Vstate (link v)). clear e R G I. intros e R G I.
      assert (T : truth (ev (ENot (ENz (EVar Vstate))) e) = Some (negb (negb (v =? 0)))).
      { apply t_not, t_nz. rewrite (ev_var _ _ _ G). - apply truth_link. - apply link_def. }
      destruct (N.eqb_spec v 0) as [->|NZ].
      - assert (E : exists e', ex (miss_block [SGoto Lquit]) e = Ok (Jump Lquit, e') /\ rel r s et curr e' /\ get e' Vprev = VN c).
        { unfold miss_block. rewrite g_eol. destruct (f_eol k); cbn [opt app block fold_right].
          - erewrite x_seq; [|apply x_set; reflexivity]. eexists. split; [reflexivity|]. split; [apply rel_put; auto|exact I].
          - exists e. split; [reflexivity|auto]. }
        destruct E as (e' & E & R' & G'). exists e'. split; [|auto]. cbn [exec] in T |- *. rewrite T. cbn [negb]. now rewrite E.
      - eexists. split; [|split].
        + erewrite x_seq; [|rewrite (x_if _ _ _ _ _ T); reflexivity].
          erewrite x_seq; [|apply x_set; apply row_link; eauto; exact (re_tab _ _ _ _ _ R)]. reflexivity.
        + now apply rel_ptr.
        + exact I.
    Qed.
    Lemma bytes_ok r et curr c : forall sh i s e st p x, rel r s et curr e -> get e Vprev = VN c -> i + N.of_nat sh + 1 = nb ->
      next_bytes t c sh (ls_ptr s) x = Some (st, p) ->
      exists e' sg, count (S sh) i (ex byte_body) e = Ok (sg, e') /\ rel r (set_ptr s p) et curr e' /\
        sg = (if st =? 0 then Jump Lquit else Next).
    Proof.
      induction sh as [|sh IH]; intros i s e st p x R G I NB; cbn [next_bytes] in NB;
        (destruct (column t _) as [col|] eqn:C1 in NB; [|discriminate]); (destruct (cell t (ls_ptr s) col) as [v|] eqn:C2; [|discriminate]).
      all: destruct (byte_ok r s et curr (put e Vi (VN i)) c i col v) as (e' & E & R' & G'); [apply rel_put; auto|exact G|reflexivity| |exact C2|];
        [rewrite <- C1; do 4 f_equal; lia|].
      all: cbn [count]; rewrite E; cbn [bind].
      - destruct (N.eqb_spec v 0) as [->|NZ]; injection NB as <- <-.
        + exists e', (Jump Lquit). split; [reflexivity|]. rewrite set_ptr_same. auto.
        + exists e', Next. split; [reflexivity|]. split; [exact R'|]. destruct (N.eqb_spec v 0); [congruence|reflexivity].
      - destruct (N.eqb_spec v 0) as [->|NZ].
        + injection NB as <- <-. exists e', (Jump Lquit). split; [reflexivity|]. rewrite set_ptr_same. auto.
        + destruct (IH (i + 1) (set_ptr s v) e' st p v R' G') as (e2 & sg & E2 & R2 & SG); [lia|exact NB|]. exists e2, sg. auto.
    Qed.
    Lemma wide_ok r s et curr e c st p : rel r s et curr e -> nth_error inp curr = Some c -> c_bytes k <> 1 ->
      next_char k t c (ls_ptr s) = Some (st, p) ->
      exists e' sg, ex (block (char_wide g)) e = Ok (sg, e') /\ rel r (after_char s c p) et (S curr) e' /\
        sg = (if st =? 0 then Jump Lquit else Next).
    Proof.
      intros R I B1 NC. unfold next_char in NC. destruct (N.eqb_spec (c_bytes k) 1) as [|_]; [congruence|].
      change (block (char_wide g)) with (SSeq (SDecl Vprev (EChar (EVar Vcurr))) (SSeq (SNext Vcurr)
        (fold_right SSeq SNop (opt (gc_bol g) [SSet Vbol (EEq (EVar Vprev) (ENum 10))] ++ [SBytes byte_body])))).
      erewrite x_seq; [|apply x_decl; cbn [eval]; rewrite (re_curr _ _ _ _ _ R), I; reflexivity].
      erewrite x_seq; [|cbn [exec]; change (get (put e Vprev (VN c)) Vcurr) with (get e Vcurr); rewrite (re_curr _ _ _ _ _ R); reflexivity].
      assert (R1 : rel r s et (S curr) (put (put e Vprev (VN c)) Vcurr (VI (S curr)))) by (destruct R; constructor; try assumption; reflexivity).
      assert (G1 : get (put (put e Vprev (VN c)) Vcurr (VI (S curr))) Vprev = VN c) by reflexivity.
      revert R1 G1. generalize (put (put e Vprev (VN c)) Vcurr (VI (S curr))). clear e R. intros e R G.
      set (s2 := if f_bol k then set_bol s (c =? 10) else s).
      assert (H : exists e3, ex (fold_right SSeq SNop (opt (gc_bol g) [SSet Vbol (EEq (EVar Vprev) (ENum 10))] ++ [SBytes byte_body])) e =
          ex (fold_right SSeq SNop [SBytes byte_body]) e3 /\ rel r s2 et (S curr) e3 /\ get e3 Vprev = VN c).
      { rewrite g_bol. unfold s2. destruct (f_bol k) eqn:FB; cbn [opt app fold_right]; [|exists e; auto].
        eexists. split; [apply x_seq, x_set; cbn [eval]; rewrite G; reflexivity|]. split; [|exact G].
        destruct R; constructor; try assumption. intros _. reflexivity. }
      destruct H as (e3 & E3 & R3 & G3). rewrite E3. cbn [fold_right].
      assert (AC : forall q, after_char s c q = set_ptr s2 q) by (intros q; unfold after_char, s2; destruct (f_bol k); reflexivity).
      assert (Pp : ls_ptr s2 = ls_ptr s) by (unfold s2; destruct (f_bol k); reflexivity). rewrite <- Pp in NC. rewrite AC.
      assert (NB : nb = 2 /\ c_bytes k = 2 \/ nb = 3 /\ c_bytes k <> 2) by (apply nb_cases; [apply SU|exact B1]).
      assert (Q : exists sh, (if c_bytes k =? 2 then 1%nat else 2%nat) = sh /\ N.to_nat nb = S sh).
      { destruct NB as [[-> ->]|[-> NB]]; [exists 1%nat; auto|]. destruct (N.eqb_spec (c_bytes k) 2); [congruence|]. exists 2%nat. auto. }
      destruct Q as (sh & Q1 & Q2). rewrite Q1 in NC.
      destruct (bytes_ok r et (S curr) c sh 0 s2 e3 st p 0 R3 G3) as (e4 & sg & E4 & R4 & SG); [rewrite N.add_0_l; clear - Q2; lia|exact NC|].
      exists e4, sg. split; [|auto]. cbn [exec]. rewrite Q2, E4. cbn [bind]. destruct sg; reflexivity.
    Qed.
    Lemma char_ok r s et curr e c st p : rel r s et curr e -> nth_error inp curr = Some c ->
      next_char k t c (ls_ptr s) = Some (st, p) ->
      exists e' sg, ex (char_loop g) e = Ok (sg, e') /\ rel r (after_char s c p) et (S curr) e' /\
        sg = (if st =? 0 then if wide then Jump Lquit else Brk else Next).
    Proof.
      intros R I NC. unfold char_loop. change (gc_wide g) with wide.
      destruct (N.eqb_spec (c_bytes k) 1) as [B1|B1].
      - unfold wide at 1 2. rewrite B1. change (1 <? 1) with false. cbv iota. eapply narrow_ok; eauto.
      - replace wide with true by (symmetry; apply wide_b; [apply SU|exact B1]). eapply wide_ok; eauto.
    Qed.

    Hypothesis EC : f_eol k = false \/ (ptrs = false /\ lines_suit k inp).
    Lemma eol_cell e row v : f_eol k = true -> me_tab e = Some t -> get e Vptr = VP (row * t_width t) -> cell t row ix_eol = Some v ->
      ev (ELoad (EVar Vptr) (ENum ix_eol)) e = Some (VN v).
    Proof.
      intros F M P C. cbn [eval]. rewrite M, P. apply load_num; auto; [reflexivity|discriminate].
    Qed.
    Lemma eol_row e v : f_eol k = true -> me_tab e = Some t -> get e Veol = VN v -> ev (row_expr g (EVar Veol)) e = Some (VP (v * t_width t)).
    Proof.
      intros F M G. destruct EC as [|[P _]]; [congruence|]. unfold row_expr. rewrite g_ptrs, P. cbn [eval]. now rewrite G, M.
    Qed.
    Lemma is_eol_false c s s1 : is_eol k t c s = Some (false, s1) -> exists x, s1 = set_eol s x.
    Proof.
      unfold is_eol. destruct (f_eol k).
      - destruct (cell t _ _) as [v|]; [|discriminate]. destruct (negb _ && _); [discriminate|]. intros [= <-]. eauto.
      - intros [= <-]. exists (ls_eol s). now destruct s.
    Qed.
    Lemma is_eol_npos s b s1 : is_eol k t (npos k) s = Some (b, s1) -> exists x, s1 = set_eol s x.
    Proof.
      unfold is_eol. destruct (f_eol k).
      - destruct (cell t _ _) as [v|]; [|discriminate]. rewrite npos_no_eol, andb_false_r. intros [= <- <-]. eauto.
      - intros [= <- <-]. exists (ls_eol s). now destruct s.
    Qed.

    Definition body : stmt :=
      block ((if gc_eol g then
               [SSet Veol (ELoad (EVar Vptr) (ENum ix_eol));
                SIf (EAnd (ENz (EVar Veol)) (EEq (EChar (EVar Vcurr)) (ENum 10)))
                  (SSet Vptr (row_expr g (EVar Veol))) (char_loop g)]
             else [char_loop g]) ++ [note_end g]).
    (** A character is read, or an end of line is taken, before the row is looked at. *)
    Lemma body_eol r s et curr e c s1 : rel r s et curr e -> nth_error inp curr = Some c -> is_eol k t c s = Some (true, s1) ->
      exists e', ex body e = ex (block [note_end g]) e' /\ rel r s1 et curr e' /\ ls_ptr s1 <> 0.
    Proof.
      intros R I E. unfold is_eol in E. destruct (bool_dec (f_eol k) true) as [F|F]; [|apply not_true_is_false in F]; rewrite F in E; [|discriminate].
      destruct (cell t (ls_ptr s) ix_eol) as [v|] eqn:C; [|discriminate].
      destruct (negb (v =? 0) && ((c =? 13) || (c =? 10))) eqn:B; [|discriminate]. injection E as <-.
      apply andb_true_iff in B as (B1 & B2). unfold body. rewrite g_eol, F. cbn [app block fold_right].
      erewrite x_seq; [|apply x_set; eapply eol_cell; eauto; [exact (re_tab _ _ _ _ _ R)|exact (re_ptr _ _ _ _ _ R)]].
      assert (C10 : c = 10).
      { destruct EC as [|[_ (_ & N13 & _)]]; [congruence|]. assert (In c inp) by (eapply nth_error_In; eauto).
        destruct (N.eqb_spec c 13); [subst; contradiction|]. destruct (N.eqb_spec c 10); [assumption|discriminate]. }
      subst c. erewrite x_seq.
      2: { erewrite x_if; [|apply t_and with (b := true); [apply t_nz; apply t_num; reflexivity|intros _]].
           2: { apply (t_eq _ _ _ 10 10); [|reflexivity]. eapply ev_char; [|exact I]. apply ev_var; [exact (re_curr _ _ _ _ _ R)|discriminate]. }
           rewrite B1. cbn [andb].
           cbv iota. apply x_set. apply eol_row; [exact F|exact (re_tab _ _ _ _ _ R)|reflexivity]. }
      eexists. split; [reflexivity|]. split.
      - change (set_ptr (set_eol s v) v) with (set_eol (set_ptr s v) v). apply rel_eol, rel_ptr, rel_put; auto.
      - cbn. destruct (N.eqb_spec v 0); [discriminate|assumption].
    Qed.
    Lemma body_char r s et curr e c s1 : rel r s et curr e -> nth_error inp curr = Some c -> is_eol k t c s = Some (false, s1) ->
      exists e', ex body e = ex (block [char_loop g; note_end g]) e' /\ rel r s1 et curr e'.
    Proof.
      intros R I E. destruct (is_eol_false _ _ _ E) as (x & ->). unfold is_eol in E. unfold body. rewrite g_eol.
      destruct (bool_dec (f_eol k) true) as [F|F]; [|apply not_true_is_false in F]; rewrite F in E |- *; cbn [app block fold_right].
      - destruct (cell t (ls_ptr s) ix_eol) as [v|] eqn:C; [|discriminate].
        destruct (negb (v =? 0) && ((c =? 13) || (c =? 10))) eqn:B; [discriminate|]. injection E as _.
        erewrite x_seq; [|apply x_set; eapply eol_cell; eauto; [exact (re_tab _ _ _ _ _ R)|exact (re_ptr _ _ _ _ _ R)]].
        exists (put e Veol (VN v)). split; [|apply rel_eol, rel_put; auto].
        cbn [exec]. assert (T : truth (ev (EAnd (ENz (EVar Veol)) (EEq (EChar (EVar Vcurr)) (ENum 10))) (put e Veol (VN v))) = Some false).
        { erewrite t_and; [|apply t_nz; apply t_num; reflexivity|intros _].
          2: { apply (t_eq _ _ _ c 10); [|reflexivity]. eapply ev_char; [|exact I]. apply ev_var; [exact (re_curr _ _ _ _ _ R)|discriminate]. }
          f_equal. destruct (v =? 0); cbn [negb andb] in *; [reflexivity|]. destruct (c =? 13), (c =? 10); try discriminate. reflexivity. }
        rewrite T. reflexivity.
      - exists e. split; [reflexivity|]. now apply rel_eol.
    Qed.

    Definition cond : mem -> option bool := fun e => truth (ev (ENot (EAtEnd (EVar Vcurr))) e).
    Lemma cond_ok r s et curr e : rel r s et curr e -> cond e = Some (negb (Nat.eqb curr (length inp))).
    Proof. intros R. unfold cond. apply t_not. cbn [eval]. rewrite (re_curr _ _ _ _ _ R). apply truth_nval. Qed.

    (** The loop was left at the end of the input, or at a character that cannot follow. *)
    Definition left_loop (r : results) (s : lstate) (et curr : nat) (sg : sig) (e : mem) : Prop :=
      (sg = Next /\ curr = length inp /\ rel r s et curr e /\ ls_ptr s <> 0) \/
      (sg = (if wide then Jump Lquit else Next) /\ (curr < length inp)%nat /\ rel r s et (S curr) e /\
       (f_eol k = true -> S curr = length inp -> cell t (ls_ptr s) ix_eol = Some 0)).

    Lemma next_char_ptr c p st q : next_char k t c p = Some (st, q) -> st <> 0 -> q = st.
    Proof.
      unfold next_char. destruct (c_bytes k =? 1).
      - destruct (column t c); [|discriminate]. destruct (cell t p n0) as [v|]; [|discriminate]. intros [= <- <-] NZ.
        destruct (N.eqb_spec v 0); [congruence|reflexivity].
      - assert (A : forall sh p x, next_bytes t c sh p x = Some (st, q) -> st <> 0 -> q = st); [|apply A].
        clear p. induction sh as [|sh IH]; intros p x H NZ; cbn [next_bytes] in H;
          (destruct (column t _) in H; [|discriminate]); (destruct (cell t p _) as [v|] in H; [|discriminate]);
          destruct (v =? 0); try (injection H as <- <-; congruence). eauto.
    Qed.

    Lemma end_state_ptr s et curr s' et' : end_state k t s et curr = Some (s', et') -> ls_ptr s' = ls_ptr s.
    Proof.
      unfold end_state. destruct (cell t (ls_ptr s) ix_end) as [v|]; [|discriminate]. destruct (v =? 0); [now intros [= <- <-]|].
      destruct (cell t (ls_ptr s) ix_id), (cell t (ls_ptr s) ix_uid), (cell t (ls_ptr s) ix_push), (cell t (ls_ptr s) ix_next); try discriminate.
      now intros [= <- <-].
    Qed.

    Lemma loop_ok r : forall fuel s et curr e s' et' curr', rel r s et curr e -> ls_ptr s <> 0 ->
      scan fuel k t inp curr et s = Ok (s', et', curr') ->
      exists e' sg, loop fuel cond (ex body) e = Ok (sg, e') /\ left_loop r s' et' curr' sg e'.
    Proof.
      induction fuel as [|f IH]; intros s et curr e s' et' curr' R P E; cbn [scan loop] in *; rewrite (cond_ok _ _ _ _ _ R);
        destruct (Nat.eqb_spec curr (length inp)) as [->|NE]; cbn [negb]; try discriminate.
      1,2: injection E as <- <- <-; exists e, Next; split; [reflexivity|]; left; auto.
      destruct (nth_error inp curr) as [c|] eqn:I; [|discriminate].
      destruct (is_eol k t c s) as [[[|] s1]|] eqn:EO; [| |discriminate].
      - destruct (end_state k t s1 et curr) as [[s2 et2]|] eqn:ES; [|discriminate].
        destruct (body_eol _ _ _ _ _ _ _ R I EO) as (e1 & X1 & R1 & P1).
        destruct (note_end_ok _ _ _ _ _ _ _ R1 P1 ES) as (e2 & X2 & R2).
        rewrite X1. cbn [block fold_right exec]. rewrite X2. cbn [bind]. eapply IH; eauto.
        rewrite (end_state_ptr _ _ _ _ _ ES). exact P1.
      - destruct (body_char _ _ _ _ _ _ _ R I EO) as (e1 & X1 & R1).
        destruct (next_char k t c (ls_ptr s1)) as [[st p]|] eqn:NC; [|discriminate].
        destruct (char_ok _ _ _ _ _ _ _ _ R1 I NC) as (e2 & sg & X2 & R2 & SG). fold (after_char s1 c p) in E.
        rewrite X1. cbn [block fold_right]. cbn [exec]. rewrite X2. cbn [bind].
        destruct (N.eqb_spec st 0) as [->|NZ].
        + destruct (is_eol k t (npos k) (after_char s1 c p)) as [[b s4]|] eqn:E4; [|discriminate]. injection E as <- <- <-.
          destruct (is_eol_npos _ _ _ E4) as (x & ->).
          exists e2, (if wide then Jump Lquit else Next). split.
          { rewrite SG. destruct wide; reflexivity. }
          right. split; [reflexivity|]. split; [apply nth_error_Some; congruence|]. split; [now apply rel_eol|].
          intros F LL. destruct EC as [|[_ (B1 & N13 & LS)]]; [congruence|].
          assert (C10 : c = 10).
          { assert (Q : inp = firstn curr inp ++ [c]).
            { rewrite <- (firstn_skipn curr inp) at 1. f_equal. clear -I LL. revert inp I LL. induction curr as [|q IH]; intros [|a l] H L; try discriminate.
              - cbn in H. injection H as ->. destruct l; [reflexivity|discriminate].
              - cbn in *. apply IH; auto. }
            rewrite Q, last_last in LS. exact LS. }
          subst c. unfold is_eol in EO. rewrite F in EO. unfold next_char in NC. rewrite B1 in NC. change (1 =? 1) with true in NC. cbv iota in NC.
          destruct (cell t (ls_ptr s) ix_eol) as [v|] eqn:CE; [|discriminate].
          change ((10 =? 13) || (10 =? 10)) with true in EO. rewrite andb_true_r in EO. destruct (N.eqb_spec v 0) as [->|]; [|discriminate].
          cbn [negb] in EO. injection EO as <-. cbn [ls_ptr set_eol] in NC. destruct (column t 10); [|discriminate].
          destruct (cell t (ls_ptr s) n0) as [v|]; [|discriminate]. injection NC as -> <-. change (0 =? 0) with true. cbv iota.
          unfold after_char. destruct (f_bol k); exact CE.
        + destruct (end_state k t (after_char s1 c p) et (S curr)) as [[s4 et4]|] eqn:ES; [|discriminate].
          assert (Pn : ls_ptr (after_char s1 c p) <> 0).
          { unfold after_char. rewrite (next_char_ptr _ _ _ _ NC NZ). destruct (f_bol k); exact NZ. }
          destruct (note_end_ok _ _ _ _ _ _ _ R2 Pn ES) as (e3 & X3 & R3). rewrite SG, X3. cbn [bind]. eapply IH; eauto.
          rewrite (end_state_ptr _ _ _ _ _ ES). exact Pn.
    Qed.

    (** ** What the loop keeps *)
    Definition keeps (s : lstate) : Prop :=
      ls_eol s <> npos k /\
      (ls_end s = true -> exists row, row <> 0 /\ accepting t row /\ cell t row ix_id = Some (ls_id s)).
    Lemma eol_not_npos row v : cell t row ix_eol = Some v -> v <> npos k.
    Proof.
      intros C. destruct TW as (N2 & NN & W & LE & _ & _ & T & _).
      assert (row * t_width t + ix_eol < n * t_width t).
      { rewrite <- LE. assert (H : (N.to_nat (row * t_width t + ix_eol) < length (t_dfa t))%nat) by (apply nth_error_Some; unfold cell in C; congruence). lia. }
      assert (row < n) by (unfold ix_eol, ix_trans in *; nia).
      specialize (T row ix_eol v ltac:(assumption) ltac:(unfold ix_eol, ix_trans in *; lia) C). lia.
    Qed.
    Lemma keeps_eq s s' : ls_eol s' = ls_eol s -> ls_end s' = ls_end s -> ls_id s' = ls_id s -> keeps s -> keeps s'.
    Proof. unfold keeps. intros -> -> ->. auto. Qed.
    Lemma end_state_keeps s et curr s' et' : ls_ptr s <> 0 -> keeps s -> end_state k t s et curr = Some (s', et') -> keeps s'.
    Proof.
      intros P (K1 & K2) E. unfold end_state in E. destruct (cell t (ls_ptr s) ix_end) as [v|] eqn:C; [|discriminate].
      destruct (N.eqb_spec v 0); [injection E as <- <-; split; auto|].
      destruct (cell t (ls_ptr s) ix_id) as [i|] eqn:C1; [|discriminate]. destruct (cell t (ls_ptr s) ix_uid); [|discriminate].
      destruct (cell t (ls_ptr s) ix_push); [|discriminate]. destruct (cell t (ls_ptr s) ix_next); [|discriminate]. injection E as <- <-.
      split; cbn; [exact K1|]. intros _. exists (ls_ptr s). split; [exact P|]. split; [|exact C1]. exists v. auto.
    Qed.
    Lemma is_eol_keeps c s b s1 : ls_ptr s <> 0 -> keeps s -> is_eol k t c s = Some (b, s1) -> keeps s1 /\ ls_ptr s1 <> 0.
    Proof.
      intros P (K1 & K2) E. unfold is_eol in E. destruct (f_eol k) in E; [|injection E as <- <-; repeat split; auto].
      destruct (cell t (ls_ptr s) ix_eol) as [v|] eqn:C; [|discriminate]. pose proof (eol_not_npos _ _ C).
      destruct (negb (v =? 0) && _) eqn:B; injection E as <- <-.
      - split; [split; auto|]. cbn. destruct (N.eqb_spec v 0); [discriminate|assumption].
      - split; [split; auto|]. exact P.
    Qed.
    Lemma scan_keeps : forall fuel s et curr s' et' curr', ls_ptr s <> 0 -> keeps s ->
      scan fuel k t inp curr et s = Ok (s', et', curr') -> keeps s'.
    Proof.
      induction fuel as [|f IH]; intros s et curr s' et' curr' P K E; cbn [scan] in E; destruct (Nat.eqb curr (length inp));
        try discriminate; try (injection E as <- <- <-; exact K).
      destruct (nth_error inp curr) as [c|]; [|discriminate]. destruct (is_eol k t c s) as [[[|] s1]|] eqn:EO; [| |discriminate];
        destruct (is_eol_keeps _ _ _ _ P K EO) as (K1 & P1).
      - destruct (end_state k t s1 et curr) as [[s2 et2]|] eqn:ES; [|discriminate].
        eapply IH; [|eapply (end_state_keeps s1); eauto|exact E]. rewrite (end_state_ptr _ _ _ _ _ ES). exact P1.
      - destruct (next_char k t c (ls_ptr s1)) as [[st p]|] eqn:NC; [|discriminate]. fold (after_char s1 c p) in E.
        assert (K2 : keeps (after_char s1 c p)) by (apply (keeps_eq s1); unfold after_char; try (destruct (f_bol k); reflexivity); exact K1).
        destruct (N.eqb_spec st 0).
        + destruct (is_eol k t (npos k) (after_char s1 c p)) as [[b s4]|] eqn:E4; [|discriminate]. injection E as <- <- <-.
          unfold is_eol in E4. destruct (f_eol k) in E4; [|injection E4 as <- <-; exact K2].
          destruct (cell t (ls_ptr (after_char s1 c p)) ix_eol) as [v|] eqn:C; [|discriminate]. pose proof (eol_not_npos _ _ C).
          rewrite npos_no_eol, andb_false_r in E4. injection E4 as <- <-. destruct K2. split; auto.
        + destruct (end_state k t (after_char s1 c p) et (S curr)) as [[s4 et4]|] eqn:ES; [|discriminate].
          assert (Pn : ls_ptr (after_char s1 c p) <> 0).
          { unfold after_char. rewrite (next_char_ptr _ _ _ _ NC ltac:(assumption)). destruct (f_bol k); assumption. }
          eapply IH; [|eapply (end_state_keeps (after_char s1 c p)); eauto|exact E]. rewrite (end_state_ptr _ _ _ _ _ ES). exact Pn.
    Qed.

    (** ** The end of the input as an end of line *)
    Lemma end_eol_ok r s et curr sg e s' et' : left_loop r s et curr sg e -> keeps s -> check_eol k t inp s et curr = Some (s', et') ->
      exists e' curr', ex (block (end_eol g)) e = Ok (Next, e') /\ rel r s' et' curr' e' /\ keeps s'.
    Proof.
      intros L K E. unfold end_eol. rewrite g_eol. unfold check_eol in E.
      destruct (bool_dec (f_eol k) true) as [F|F]; [|apply not_true_is_false in F]; rewrite F in E |- *; cbn [opt block fold_right].
      2: { injection E as <- <-. destruct L as [(_ & -> & R & _)|(_ & _ & R & _)]; eexists _, _; split; [reflexivity|eauto|reflexivity|eauto]. }
      destruct L as [(_ & -> & R & P)|(_ & LT & R & Z)].
      - rewrite Nat.eqb_refl in E. destruct K as (K1 & K2). destruct (N.eqb_spec (ls_eol s) (npos k)); [congruence|]. cbn [negb andb] in E.
        destruct (cell t (ls_ptr s) ix_eol) as [v|] eqn:C; [|discriminate].
        assert (A : exists e1 curr', ex (block [SSet Veol (ELoad (EVar Vptr) (ENum ix_eol));
               SIf (ENz (EVar Veol)) (block [SSet Vptr (row_expr g (EVar Veol)); note_end g]) SNop]) e = Ok (Next, e1) /\
               rel r s' et' curr' e1 /\ keeps s').
        { cbn [block fold_right]. erewrite x_seq; [|apply x_set; eapply eol_cell; eauto; [exact (re_tab _ _ _ _ _ R)|exact (re_ptr _ _ _ _ _ R)]].
          assert (R1 : rel r (set_eol s v) et (length inp) (put e Veol (VN v))) by (apply rel_eol, rel_put; auto).
          assert (T : truth (ev (ENz (EVar Veol)) (put e Veol (VN v))) = Some (negb (v =? 0))) by (apply t_nz, t_num; reflexivity).
          pose proof (eol_not_npos _ _ C) as NN.
          destruct (N.eqb_spec v 0) as [->|NZ].
          - injection E as <- <-. eexists _, _. split; [erewrite x_seq; [|rewrite (x_if _ _ _ _ _ T); reflexivity]; reflexivity|].
            split; [exact R1|]. split; auto.
          - assert (R2 : rel r (set_ptr (set_eol s v) v) et (length inp) (put (put e Veol (VN v)) Vptr (VP (v * t_width t)))) by (now apply rel_ptr).
            destruct (note_end_ok _ _ _ _ _ _ _ R2 NZ E) as (e3 & X3 & R3).
            exists e3, (length inp). split; [|split; [exact R3|]].
            + erewrite x_seq; [reflexivity|]. rewrite (x_if _ _ _ _ _ T). cbn [negb].
              erewrite x_seq; [|apply x_set; apply eol_row; [exact F|exact (re_tab _ _ _ _ _ R)|reflexivity]].
              erewrite x_seq; [|exact X3]. reflexivity.
            + eapply end_state_keeps; [| |exact E]; [exact NZ|]. split; auto. }
        destruct A as (e1 & c1 & X & R1 & K'). exists e1, c1. split; [|auto].
        erewrite x_seq; [reflexivity|]. erewrite x_if; [|cbn [eval]; rewrite (re_curr _ _ _ _ _ R), Nat.eqb_refl; reflexivity]. exact X.
      - destruct (Nat.eqb_spec curr (length inp)); [lia|]. rewrite andb_false_r in E. injection E as <- <-.
        destruct (Nat.eqb_spec (S curr) (length inp)) as [Q|Q].
        + specialize (Z F Q). eexists _, (S curr). split; [|split; [apply (rel_put _ _ _ _ _ Veol (VN 0) R); auto|exact K]].
          erewrite x_seq; [reflexivity|]. erewrite x_if; [|cbn [eval]; rewrite (re_curr _ _ _ _ _ R), Q, Nat.eqb_refl; reflexivity].
          cbv iota. change (negb (1 =? 0)) with true. cbv iota. cbn [block fold_right].
          erewrite x_seq; [|apply x_set; eapply eol_cell; eauto; [exact (re_tab _ _ _ _ _ R)|exact (re_ptr _ _ _ _ _ R)]].
          erewrite x_seq; [|erewrite x_if; [|apply t_nz, t_num; reflexivity]; reflexivity]. reflexivity.
        + exists e, (S curr). split; [|split; [exact R|exact K]].
          erewrite x_seq; [reflexivity|]. erewrite x_if; [|cbn [eval]; rewrite (re_curr _ _ _ _ _ R); destruct (Nat.eqb_spec (S curr) (length inp)); [congruence|reflexivity]].
          reflexivity.
    Qed.

    (** ** One attempt *)
    Record pre (r : results) (curr : nat) (e : mem) : Prop := {
      pr_et : get e Vend_token = VI curr;
      pr_curr : get e Vcurr = VI curr;
      pr_first : get e Rfirst = VI (r_first r);
      pr_second : get e Rsecond = VI (r_second r);
      pr_bol : get e Rbol = nval (r_bol r);
      pr_state : get e Rstate = VN (r_state r);
      pr_stack : me_stack e = r_stack r
    }.
    Lemma row1 e : me_tab e = Some t -> ev ERow1 e = Some (VP (1 * t_width t)).
    Proof. intros H. cbn [eval]. rewrite H, N.mul_1_l. reflexivity. Qed.
    Lemma first_cell e row v : me_tab e = Some t -> get e Vptr = VP (row * t_width t) -> row <> 0 -> cell t row ix_end = Some v ->
      ev (ELoad (EVar Vptr) (ENum 0)) e = Some (VN v).
    Proof. intros M P R C. cbn [eval]. rewrite M, P. apply (load_num _ 0); auto. reflexivity. Qed.
    Hypothesis MS : forall st, get_table m st = Some t -> f_multi k = false -> st = 0.

    Lemma vars_ok r curr e bol s0 : pre r curr e -> get_table m (r_state r) = Some t ->
      (f_bol k = true -> r_bol r = bol) -> ls_init t bol (r_state r) = Some s0 ->
      exists e', ex (block (gen_vars g)) e = Ok (Next, e') /\ rel r s0 curr curr e' /\ ls_ptr s0 = 1 /\ keeps s0.
    Proof.
      intros P GT B LI. unfold ls_init in LI.
      destruct (cell t 1 ix_end) as [v|] eqn:C0; [|discriminate]. destruct (cell t 1 ix_id) as [i|] eqn:C1; [|discriminate].
      destruct (cell t 1 ix_uid) as [u|] eqn:C2; [|discriminate]. destruct (cell t 1 ix_push) as [q|] eqn:C3; [|discriminate].
      injection LI as <-.
      assert (K : keeps {| ls_ptr := 1; ls_end := negb (v =? 0); ls_id := i; ls_uid := u; ls_bol := bol; ls_end_bol := bol;
                           ls_eol := 0; ls_start := r_state r; ls_pop := negb (N.land v sb_pop =? 0); ls_push := q |}).
      { split; cbn.
        - destruct TW as (N2 & NN & _). lia.
        - intros H. exists 1. split; [discriminate|]. split; [|exact C1]. exists v. split; [exact C0|]. destruct (N.eqb_spec v 0); [discriminate|assumption]. }
      assert (HP : exists e', ex (block (gen_vars g)) e = Ok (Next, e') /\
        rel r {| ls_ptr := 1; ls_end := negb (v =? 0); ls_id := i; ls_uid := u; ls_bol := bol; ls_end_bol := bol;
                 ls_eol := 0; ls_start := r_state r; ls_pop := negb (N.land v sb_pop =? 0); ls_push := q |} curr curr e'); [|destruct HP as (e' & H1 & H2); eauto].
      clear K. unfold gen_vars. rewrite g_bol, g_rec, g_multi, g_eol.
      assert (XB : forall e, get e Rbol = nval (r_bol r) -> ev (EVar Rbol) e = Some (nval (r_bol r))).
      { intros e0 H. apply ev_var; [exact H|]. destruct (r_bol r); discriminate. }
      assert (XV : forall e, get e Vbol = nval (r_bol r) -> ev (EVar Vbol) e = Some (nval (r_bol r))).
      { intros e0 H. apply ev_var; [exact H|]. destruct (r_bol r); discriminate. }
      assert (XS : forall e, get e Rstate = VN (r_state r) -> ev (EVar Rstate) e = Some (VN (r_state r))).
      { intros e0 H. apply ev_var; [exact H|]. discriminate. }
      assert (XT : forall e, get e Rstate = VN (r_state r) -> ex (STables (if f_multi k then EVar Rstate else ENum 0)) e = Ok (Next, set_tab e t)).
      { intros e0 H. cbn [exec]. destruct (f_multi k) eqn:FM.
        - rewrite (XS _ H), GT. reflexivity.
        - cbn [eval]. rewrite <- (MS _ GT eq_refl), GT. reflexivity. }
      assert (PB := pr_bol _ _ _ P). assert (PS' := pr_state _ _ _ P).
      destruct (f_bol k) eqn:FB, (f_rec k) eqn:FR, (f_eol k) eqn:FE, (f_multi k) eqn:FM; cbn [opt app block fold_right]; eexists;
        (split; [
          repeat (lazymatch goal with
            | |- ex (SSeq (SDecl _ (EVar Rbol)) _) _ = _ => erewrite x_seq; [|apply x_decl; apply XB; exact PB]
            | |- ex (SSeq (STables _) _) _ = _ => erewrite x_seq; [|apply XT; exact PS']
            | |- ex (SSeq (SDecl _ ERow1) _) _ = _ => erewrite x_seq; [|apply x_decl; apply row1; reflexivity]
            | |- ex (SSeq (SDecl Vend_state _) _) _ = _ =>
              erewrite x_seq; [|apply x_decl; apply ev_nz; erewrite first_cell; [reflexivity|reflexivity|reflexivity|discriminate|exact C0]]
            | |- ex (SSeq (SDecl Vpop _) _) _ = _ => erewrite x_seq; [|apply x_decl; eapply pop_expr_ok; [reflexivity|reflexivity|discriminate|exact C0]]
            | |- ex (SSeq (SDecl Vid _) _) _ = _ => erewrite x_seq; [|apply x_decl; eapply (ptr_cell_ok _ 1); [reflexivity|reflexivity|discriminate|exact C1|reflexivity]]
            | |- ex (SSeq (SDecl Vuid _) _) _ = _ => erewrite x_seq; [|apply x_decl; eapply (ptr_cell_ok _ 1); [reflexivity|reflexivity|discriminate|exact C2|reflexivity]]
            | |- ex (SSeq (SDecl Vpush _) _) _ = _ => erewrite x_seq; [|apply x_decl; eapply (ptr_cell_ok _ 1); [reflexivity|reflexivity|discriminate|exact C3|reflexivity]]
            | |- ex (SSeq (SDecl _ (EVar Rstate)) _) _ = _ => erewrite x_seq; [|apply x_decl; apply XS; exact PS']
            | |- ex (SSeq (SDecl _ (EVar Vbol)) _) _ = _ => erewrite x_seq; [|apply x_decl; apply XV; reflexivity]
            | |- ex (SSeq (SDecl _ (ENum 0)) _) _ = _ => erewrite x_seq; [|apply x_decl; reflexivity]
            end); reflexivity|]).
      all: destruct P; constructor; try assumption; try reflexivity; try congruence; try (intros; rewrite ?(B eq_refl); reflexivity).
    Qed.

    Hypothesis BZ : ptrs = true -> f_bol k = true -> cell t 0 0 <> Some 0.
    Lemma bol_ok r s et curr e s1 : rel r s et curr e -> keeps s -> ls_ptr s <> 0 -> bol_start k t s = Some s1 ->
      exists e', ex (block (gen_bol g)) e = Ok (Next, e') /\ rel r s1 et curr e' /\ ls_ptr s1 <> 0 /\ keeps s1.
    Proof.
      intros R K P E. unfold bol_start in E. unfold gen_bol. rewrite g_bol.
      destruct (bool_dec (f_bol k) true) as [F|F]; [|apply not_true_is_false in F]; rewrite F in E |- *; cbn [opt andb] in *.
      2: { injection E as <-. exists e. auto. }
      cbn [block fold_right].
      assert (T : truth (ev (ENz (EVar Vbol)) e) = Some (ls_bol s)) by (apply t_nz, t_var, (re_bol _ _ _ _ _ R F)).
      destruct (ls_bol s).
      2: { injection E as <-. exists e. split; [|auto]. erewrite x_seq; [|rewrite (x_if _ _ _ _ _ T); reflexivity]. reflexivity. }
      destruct (cell t 0 0) as [b|] eqn:C; [|discriminate]. injection E as <-.
      assert (X : exists e', ex (SSeq (SDecl Vstate (ELoad EDfa (ENum 0))) (SSeq (SIf (ENz (EVar Vstate)) (SSet Vptr (row_expr g (EVar Vstate))) SNop) SNop)) e = Ok (Next, e') /\
        rel r (if b =? 0 then s else set_ptr s b) et curr e').
      { assert (L : ev (ELoad EDfa (ENum 0)) e = Some (link b)).
        { cbn [eval]. rewrite (re_tab _ _ _ _ _ R). pose proof w_pos. change (0 + 0) with (0 * t_width t + 0).
          rewrite (load_any _ _ b) by (auto; unfold ix_trans in *; lia). unfold dump_cell, link. change (0 =? 0) with true. cbv iota.
          destruct (bool_dec ptrs true) as [Q|Q]; [|apply not_true_is_false in Q]; rewrite Q; [|reflexivity].
          destruct (N.eqb_spec b 0) as [->|]; [|reflexivity]. exfalso. now apply BZ. }
        erewrite x_seq; [|apply x_decl; exact L].
        assert (G : get (put e Vstate (link b)) Vstate = link b) by reflexivity.
        assert (R1 : rel r s et curr (put e Vstate (link b))) by (apply rel_put; auto).
        assert (T1 : truth (ev (ENz (EVar Vstate)) (put e Vstate (link b))) = Some (negb (b =? 0))).
        { apply t_nz. rewrite (ev_var _ _ _ G) by apply link_def. apply truth_link. }
        destruct (N.eqb_spec b 0) as [->|NZ].
        - eexists. split; [erewrite x_seq; [|rewrite (x_if _ _ _ _ _ T1); reflexivity]; reflexivity|exact R1].
        - eexists. split; [erewrite x_seq; [|rewrite (x_if _ _ _ _ _ T1); cbn [negb]; apply x_set; apply row_link; eauto; exact (re_tab _ _ _ _ _ R1)]; reflexivity|].
          now apply rel_ptr. }
      destruct X as (e' & X & R'). exists e'. split; [|split; [exact R'|]].
      - erewrite x_seq; [reflexivity|]. rewrite (x_if _ _ _ _ _ T). exact X.
      - destruct (N.eqb_spec b 0) as [->|NZ]; auto.
    Qed.

    Lemma x_app a b e e1 : ex (block a) e = Ok (Next, e1) -> ex (block (a ++ b)) e = ex (block b) e1.
    Proof.
      revert e. induction a as [|c a IH]; intros e H; cbn [block fold_right app exec] in *; [injection H as ->; reflexivity|].
      destruct (ex c e) as [[[] e2]| | |]; cbn [bind] in *; try discriminate. now apply IH.
    Qed.
    Lemma x_leave a b e e1 sg : ex (block a) e = Ok (sg, e1) -> sg <> Next -> ex (block (a ++ b)) e = Ok (sg, e1).
    Proof.
      revert e. induction a as [|c a IH]; intros e H N; cbn [block fold_right app exec] in *; [congruence|].
      destruct (ex c e) as [[[] e2]| | |]; cbn [bind] in *; try discriminate; auto.
    Qed.
    Lemma x_ub a b e : ex (block a) e = UB -> ex (block (a ++ b)) e = UB.
    Proof.
      revert e. induction a as [|c a IH]; intros e H; cbn [block fold_right app exec] in *; [discriminate|].
      destruct (ex c e) as [[[] e2]| | |]; cbn [bind] in *; try discriminate; auto.
    Qed.
    Lemma x_stop a b e e1 sg : ex a e = Ok (sg, e1) -> sg <> Next -> ex (SSeq a b) e = Ok (sg, e1).
    Proof. intros H N. cbn [exec]. rewrite H. cbn [bind]. destruct sg; congruence. Qed.
    Notation rf := (run_from (c_bits k) nb ptrs m inp inner).
    Lemma r_cont f w p q e e1 : ex (block p) e = ex (block q) e1 -> rf f w p e = rf f w q e1.
    Proof. intros H. destruct f; cbn [run_from]; now rewrite H. Qed.
    Lemma r_jump f w p e e1 l p' : ex (block p) e = Ok (Jump l, e1) -> after l w = Some p' -> rf (S f) w p e = rf f w p' e1.
    Proof. intros H A. cbn [run_from]. rewrite H. cbn [bind]. now rewrite A. Qed.

    Definition gen_result : list stmt :=
      [SIf (ENz (EVar Vend_state)) (on_match g) (on_miss g); SSet Rid (EVar Vid); SSet Ruid (EVar Vuid)].
    Lemma after_quit : wide = true -> after Lquit (gen_code g) = Some (gen_finish g).
    Proof.
      intros W. unfold gen_code. change (gc_wide g) with wide. rewrite W.
      unfold gen_attempt, gen_vars, gen_bol, gen_entry.
      destruct (gc_skip g), (gc_again g), (gc_bol g), (gc_rec g), (gc_multi g), (gc_eol g); reflexivity.
    Qed.

    Lemma attempt_ok r curr e bol s et : pre r curr e -> get_table m (r_state r) = Some t -> (f_bol k = true -> r_bol r = bol) ->
      attempt inner k m inp bol (r_state r) curr = Ok (s, et) ->
      exists e' curr' j, rel r s et curr' e' /\ keeps s /\ (j <= 1)%nat /\
        forall f, rf (j + f) (gen_code g) (gen_attempt g ++ opt (gc_wide g) [SLabel Lquit] ++ gen_finish g) e =
                  rf f (gen_code g) gen_result e'.
    Proof.
      intros P GT B A. unfold attempt in A. rewrite GT in A.
      destruct (ls_init t bol (r_state r)) as [s0|] eqn:LI; [|discriminate].
      destruct (bol_start k t s0) as [s1|] eqn:BS; [|discriminate].
      destruct (scan inner k t inp curr curr s1) as [[[s2 et2] curr2]| | |] eqn:SC; try discriminate. cbn [bind] in A.
      destruct (check_eol k t inp s2 et2 curr2) as [[s3 et3]|] eqn:CE; [|discriminate]. injection A as <- <-.
      destruct (vars_ok _ _ _ _ _ P GT B LI) as (e0 & X0 & R0 & P0 & K0).
      destruct (bol_ok _ _ _ _ _ _ R0 K0 ltac:(rewrite P0; discriminate) BS) as (e1 & X1 & R1 & P1 & K1).
      destruct (loop_ok _ _ _ _ _ _ _ _ _ R1 P1 SC) as (e2 & sg & X2 & L2).
      pose proof (scan_keeps _ _ _ _ _ _ _ P1 K1 SC) as K2.
      destruct (end_eol_ok _ _ _ _ _ _ _ _ L2 K2 CE) as (e3 & c3 & X3 & R3 & K3).
      assert (XA : ex (block (gen_attempt g)) e = Ok (sg, e2)).
      { unfold gen_attempt. rewrite (x_app _ _ _ _ X0), (x_app _ _ _ _ X1).
        change (ex (block [main_loop g]) e1) with (do p <- loop inner cond (ex body) e1; let '(sg0, s4) := p in match sg0 with Next => Ok (Next, s4) | _ => Ok (sg0, s4) end).
        rewrite X2. cbn [bind]. destruct sg; reflexivity. }
      assert (D : sg = Next \/ wide = true /\ sg = Jump Lquit).
      { destruct L2 as [(-> & _)|(-> & _)]; auto. destruct wide; auto. }
      destruct D as [->|(W & ->)].
      - exists e3, c3, 0%nat. split; [exact R3|]. split; [exact K3|]. split; [lia|]. intros f. cbn [Nat.add]. apply r_cont.
        rewrite (x_app _ _ _ _ XA). assert (Q : ex (block (opt (gc_wide g) [SLabel Lquit])) e2 = Ok (Next, e2)) by (destruct (gc_wide g); reflexivity).
        rewrite (x_app _ _ _ _ Q). unfold gen_finish. rewrite (x_app _ _ _ _ X3). reflexivity.
      - exists e3, c3, 1%nat. split; [exact R3|]. split; [exact K3|]. split; [lia|]. intros f. cbn [Nat.add].
        rewrite (r_jump f _ _ e e2 Lquit (gen_finish g)); [|apply x_leave; [exact XA|discriminate]|now apply after_quit].
        apply r_cont. unfold gen_finish. rewrite (x_app _ _ _ _ X3). reflexivity.
    Qed.

    (** ** The result of an attempt *)
    Lemma nval_back b : negb ((if b : bool then 1 else 0) =? 0) = b.
    Proof. destruct b; reflexivity. Qed.
    Lemma end_test r s et curr e : rel r s et curr e -> truth (ev (ENz (EVar Vend_state)) e) = Some (ls_end s).
    Proof. intros R. apply t_nz, t_var, (re_end _ _ _ _ _ R). Qed.
    Lemma opt_set b v x e y : (b = true -> ev x e = Some y) -> ex (block (opt b [SSet v x])) e = Ok (Next, if b then put e v y else e).
    Proof. intros H. destruct b; cbn [opt block fold_right]; [|reflexivity]. erewrite x_seq; [|apply x_set, H; reflexivity]. reflexivity. Qed.

    Lemma miss_final r s et curr e c : rel r s et curr e -> ls_end s = false -> nth_error inp et = Some c ->
      exists e', ex (block gen_result) e = Ok (Next, e') /\
        leave e' = Some {| r_id := npos k; r_uid := npos k; r_first := et; r_second := S et;
                           r_bol := if f_bol k then c =? 10 else r_bol r; r_state := r_state r; r_stack := r_stack r |}.
    Proof.
      intros R EF I. assert (T := end_test _ _ _ _ _ R). rewrite EF in T. unfold gen_result. cbn [block fold_right].
      assert (X : exists e1, ex (on_miss g) e = Ok (Next, e1) /\ get e1 Rfirst = VI et /\ get e1 Rsecond = VI (S et) /\
        get e1 Vid = VN (npos k) /\ get e1 Vuid = VN (npos k) /\ get e1 Rbol = nval (if f_bol k then c =? 10 else r_bol r) /\
        get e1 Rstate = VN (r_state r) /\ me_stack e1 = r_stack r).
      { unfold on_miss. rewrite g_bol.
        rewrite (x_app _ _ _ (put e Rsecond (VI et))).
        2: { cbn [block fold_right]. erewrite x_seq; [|apply x_set; apply ev_var; [exact (re_et _ _ _ _ _ R)|discriminate]]. reflexivity. }
        erewrite x_app; [|apply opt_set; intros _; cbn [eval]; rewrite get_put, I; reflexivity].
        set (e1 := if f_bol k then _ else _).
        assert (G1 : get e1 Rsecond = VI et) by (unfold e1; destruct (f_bol k); reflexivity).
        cbn [block fold_right].
        erewrite x_seq; [|apply x_set; apply ev_var; [exact G1|discriminate]].
        erewrite x_seq; [|cbn [exec]; change (get (put e1 Rfirst (VI et)) Rsecond) with (get e1 Rsecond); rewrite G1; reflexivity].
        erewrite x_seq; [|apply x_set; reflexivity]. erewrite x_seq; [|apply x_set; reflexivity].
        eexists. split; [reflexivity|]. repeat split; try reflexivity.
        - change (get e1 Rbol = nval (if f_bol k then c =? 10 else r_bol r)). unfold e1. destruct (f_bol k); [reflexivity|]. exact (re_rbol _ _ _ _ _ R).
        - change (get e1 Rstate = VN (r_state r)). unfold e1. destruct (f_bol k); exact (re_state _ _ _ _ _ R).
        - change (me_stack e1 = r_stack r). unfold e1. destruct (f_bol k); exact (re_stack _ _ _ _ _ R). }
      destruct X as (e1 & X & G1 & G2 & G3 & G4 & G5 & G6 & G7).
      erewrite x_seq; [|rewrite (x_if _ _ _ _ _ T); exact X].
      erewrite x_seq; [|apply x_set; apply ev_var; [exact G3|discriminate]].
      erewrite x_seq; [|apply x_set; apply ev_var; [exact G4|discriminate]]. eexists. split; [reflexivity|].
      unfold leave. rewrite get_put. set (e2 := put _ _ _).
      change (get e2 Rid) with (VN (npos k)). change (get e2 Rfirst) with (get e1 Rfirst). change (get e2 Rsecond) with (get e1 Rsecond).
      change (get e2 Rbol) with (get e1 Rbol). change (get e2 Rstate) with (get e1 Rstate). change (me_stack e2) with (me_stack e1).
      rewrite G1, G2, G5, G6, G7. unfold nval. cbv iota. now rewrite nval_back.
    Qed.

    Definition stack_part : list stmt :=
      opt (gc_rec g)
           [SIf (ENz (EVar Vpop)) (block [SSet Vstart ETop1; SPop])
              (SIf (ENot (EEq (EVar Vpush) ENpos)) (SPush (EVar Vpush) (EVar Vid)) SNop)].
    Lemma stack_none r s et curr e : rel r s et curr e -> pop k s (r_stack r) = None -> ex (block stack_part) e = UB.
    Proof.
      intros R E. unfold pop in E. unfold stack_part. rewrite g_rec. destruct (f_rec k) eqn:F; [|discriminate].
      assert (T : truth (ev (ENz (EVar Vpop)) e) = Some (ls_pop s)) by (apply t_nz, t_var, (re_pop _ _ _ _ _ R); exact F).
      destruct (ls_pop s); [|destruct (negb _); discriminate]. destruct (r_stack r) as [|[a b] l] eqn:Q; [|discriminate].
      cbn [opt block fold_right exec] in T |- *. rewrite T. cbn [eval]. now rewrite (re_stack _ _ _ _ _ R), Q.
    Qed.
    Lemma stack_some r s et curr e start stack : rel r s et curr e -> pop k s (r_stack r) = Some (start, stack) ->
      exists e1, ex (block stack_part) e = Ok (Next, e1) /\ me_stack e1 = stack /\ (f_multi k = true -> get e1 Vstart = VN start) /\
        forall v, v <> Vstart -> get e1 v = get e v.
    Proof.
      intros R E. unfold pop in E. unfold stack_part. rewrite g_rec.
      destruct (bool_dec (f_rec k) true) as [F|F]; [|apply not_true_is_false in F]; rewrite F in E |- *; cbn [opt block fold_right].
      2: { injection E as <- <-. exists e. split; [reflexivity|]. split; [exact (re_stack _ _ _ _ _ R)|]. split; [exact (re_start _ _ _ _ _ R)|auto]. }
      assert (T : truth (ev (ENz (EVar Vpop)) e) = Some (ls_pop s)) by (apply t_nz, t_var, (re_pop _ _ _ _ _ R); exact F).
      assert (SE := re_stack _ _ _ _ _ R).
      destruct (ls_pop s).
      - destruct (r_stack r) as [|[a b] l] eqn:Q; [discriminate|]. injection E as -> ->.
        eexists. split.
        + erewrite x_seq; [reflexivity|]. rewrite (x_if _ _ _ _ _ T). erewrite x_seq; [|apply x_set; cbn [eval]; rewrite SE; reflexivity].
          erewrite x_seq; [reflexivity|]. cbn [exec]. change (me_stack (put e Vstart (VN start))) with (me_stack e). rewrite SE. reflexivity.
        + split; [reflexivity|]. split; [reflexivity|]. intros v V. destruct v; try congruence; reflexivity.
      - assert (GP := re_push _ _ _ _ _ R F).
        assert (T2 : truth (ev (ENot (EEq (EVar Vpush) ENpos)) e) = Some (negb (ls_push s =? npos k))).
        { apply t_not. apply t_eq; [apply ev_var; [exact GP|discriminate]|reflexivity]. }
        destruct (ls_push s =? npos k); cbn [negb] in *; injection E as <- <-.
        + exists e. split; [|split; [exact SE|split; [exact (re_start _ _ _ _ _ R)|auto]]].
          erewrite x_seq; [reflexivity|]. rewrite (x_if _ _ _ _ _ T), (x_if _ _ _ _ _ T2). reflexivity.
        + eexists. split.
          * erewrite x_seq; [reflexivity|]. rewrite (x_if _ _ _ _ _ T), (x_if _ _ _ _ _ T2). cbn [exec eval]. rewrite GP, (re_id _ _ _ _ _ R). reflexivity.
          * split; [cbn; now rewrite SE|]. split; [exact (re_start _ _ _ _ _ R)|]. auto.
    Qed.

    (** Where the function goes on after a match. *)
    Definition moved (r : results) (s : lstate) (et : nat) (start : N) (stack : list (N * N)) : results :=
      {| r_id := r_id r; r_uid := r_uid r; r_first := r_first r; r_second := et;
         r_bol := if f_bol k then ls_end_bol s else r_bol r; r_state := if f_multi k then start else r_state r; r_stack := stack |}.
    Definition again_expr : expr :=
      let e := EEq (EVar Vid) (ENum (gc_eoi g)) in
      if gc_rec g then EOr e (EAnd (ENz (EVar Vpop)) (EAnd (ENot EEmpty) (EEq ETop2 (ENum (gc_eoi g))))) else e.
    Definition again_stmts : list stmt :=
      opt (gc_again g) [SIf again_expr (block [SSet Vcurr (EVar Vend_token); SGoto Lagain]) SNop].
    Definition again_test (s : lstate) (stack : list (N * N)) : bool := is_id_eoi k (i_eoi m) s stack.
    Lemma match_final r s et curr e start stack : rel r s et curr e -> ls_end s = true -> pop k s (r_stack r) = Some (start, stack) ->
      exists e' sg, ex (block gen_result) e = Ok (sg, e') /\
      (if gc_skip g && (ls_id s =? skip_id k) then
         sg = Jump Lskip /\ get e' Vend_token = VI et /\ get e' Rsecond = VI et /\ get e' Rbol = nval (r_bol (moved r s et start stack)) /\
         get e' Rstate = VN (r_state (moved r s et start stack)) /\ me_stack e' = stack
       else if gc_again g && again_test s stack then sg = Jump Lagain /\ pre (moved r s et start stack) et e'
       else sg = Next /\ leave e' = Some {| r_id := ls_id s; r_uid := ls_uid s; r_first := r_first r; r_second := et;
              r_bol := r_bol (moved r s et start stack); r_state := r_state (moved r s et start stack); r_stack := stack |}).
    Proof.
      intros R EF PO. assert (T := end_test _ _ _ _ _ R). rewrite EF in T. unfold gen_result. cbn [block fold_right].
      destruct (stack_some _ _ _ _ _ _ _ R PO) as (e1 & X1 & S1 & G1 & K1).
      assert (X : forall rest, exists e4, ex (block (stack_part ++ opt (gc_multi g) [SSet Rstate (EVar Vstart)] ++ opt (gc_bol g) [SSet Rbol (EVar Vend_bol)] ++
           [SSet Rsecond (EVar Vend_token)] ++ rest)) e = ex (block rest) e4 /\
           get e4 Rsecond = VI et /\ get e4 Rbol = nval (r_bol (moved r s et start stack)) /\ get e4 Rstate = VN (r_state (moved r s et start stack)) /\
           me_stack e4 = stack /\ forall v, In v [Vend_token; Vid; Vuid; Vpop; Rfirst] -> get e4 v = get e v).
      { intros rest. rewrite (x_app _ _ _ _ X1). rewrite g_multi, g_bol.
        erewrite x_app; [|apply opt_set; intros F; apply ev_var; [apply G1, F|discriminate]].
        set (e2 := if f_multi k then _ else _).
        assert (K2 : forall v, v <> Rstate -> get e2 v = get e1 v).
        { intros v V. unfold e2. destruct (f_multi k); [|reflexivity]. destruct v; try congruence; reflexivity. }
        erewrite x_app; [|apply opt_set; intros F; apply ev_var; [rewrite K2, K1 by discriminate; exact (re_ebol _ _ _ _ _ R F)|destruct (ls_end_bol s); discriminate]].
        set (e3 := if f_bol k then _ else _).
        assert (K3 : forall v, v <> Rbol -> get e3 v = get e2 v).
        { intros v V. unfold e3. destruct (f_bol k); [|reflexivity]. destruct v; try congruence; reflexivity. }
        cbn [app]. exists (put e3 Rsecond (VI et)). split.
        { unfold block at 1. cbn [fold_right]. apply x_seq, x_set, ev_var; [|discriminate]. rewrite K3, K2, K1 by discriminate. exact (re_et _ _ _ _ _ R). }
        split; [reflexivity|]. split.
        { change (get e3 Rbol = nval (r_bol (moved r s et start stack))). unfold e3, moved. cbn [r_bol]. destruct (f_bol k); [reflexivity|].
          rewrite K2, K1 by discriminate. exact (re_rbol _ _ _ _ _ R). }
        split.
        { change (get e3 Rstate = VN (r_state (moved r s et start stack))). rewrite K3 by discriminate. unfold e2, moved. cbn [r_state].
          destruct (f_multi k); [reflexivity|]. rewrite K1 by discriminate. exact (re_state _ _ _ _ _ R). }
        split.
        { change (me_stack e3 = stack). unfold e3, e2. destruct (f_bol k), (f_multi k); exact S1. }
        intros v V. assert (N4 : v <> Rsecond /\ v <> Rbol /\ v <> Rstate /\ v <> Vstart)
          by (cbn in V; decompose [or] V; subst; try contradiction; repeat split; discriminate).
        destruct N4 as (N1 & N2 & N3 & N4). transitivity (get e3 v); [destruct v; try congruence; reflexivity|]. now rewrite K3, K2, K1. }
      destruct (X (opt (gc_skip g) [SIf (EEq (EVar Vid) ESkip) (SGoto Lskip) SNop] ++
         again_stmts)) as (e4 & X4 & H1 & H2 & H3 & H4 & K4). clear X.
      change (ex (on_match g) e = ex (block (opt (gc_skip g) [SIf (EEq (EVar Vid) ESkip) (SGoto Lskip) SNop] ++
         again_stmts)) e4) in X4.
      assert (GI : get e4 Vid = VN (ls_id s)) by (rewrite K4 by (cbn; auto 10); exact (re_id _ _ _ _ _ R)).
      assert (GU : get e4 Vuid = VN (ls_uid s)) by (rewrite K4 by (cbn; auto 10); exact (re_uid _ _ _ _ _ R)).
      assert (GE : get e4 Vend_token = VI et) by (rewrite K4 by (cbn; auto 10); exact (re_et _ _ _ _ _ R)).
      assert (GF : get e4 Rfirst = VI (r_first r)) by (rewrite K4 by (cbn; auto 10); exact (re_first _ _ _ _ _ R)).
      assert (TS : truth (ev (EEq (EVar Vid) ESkip) e4) = Some (ls_id s =? skip_id k)).
      { apply t_eq; [apply ev_var; [exact GI|discriminate]|reflexivity]. }
      assert (TA : truth (ev again_expr e4) = Some (again_test s stack)).
      { assert (TE : truth (ev (EEq (EVar Vid) (ENum (gc_eoi g))) e4) = Some (ls_id s =? i_eoi m)).
        { apply t_eq; [apply ev_var; [exact GI|discriminate]|reflexivity]. }
        unfold again_expr, again_test, is_id_eoi. rewrite g_rec. destruct (f_rec k) eqn:FR; [|rewrite TE; cbn [andb]; now rewrite orb_false_r].
        apply t_or; [exact TE|intros _]. cbn [andb]. apply t_and; [|intros _].
        - apply t_nz, t_var. rewrite K4 by (cbn; auto 10). exact (re_pop _ _ _ _ _ R FR).
        - destruct stack as [|[a b] l].
          + erewrite t_and with (b := false); [|apply t_not; cbn [eval]; rewrite H4; apply truth_nval|discriminate]. reflexivity.
          + erewrite t_and; [|apply t_not; cbn [eval]; rewrite H4; apply truth_nval|intros _; apply t_eq; [cbn [eval]; rewrite H4; reflexivity|reflexivity]]. reflexivity. }
      assert (AG : exists e5, if gc_again g && again_test s stack then
          ex (block (again_stmts)) e4 = Ok (Jump Lagain, e5) /\ pre (moved r s et start stack) et e5
          else ex (block (again_stmts)) e4 = Ok (Next, e4)).
      { unfold again_stmts. destruct (gc_again g); [|exists e4; reflexivity]. cbn [andb opt]. change (block [?a]) with (SSeq a SNop). destruct (again_test s stack).
        - exists (put e4 Vcurr (VI et)). split.
          + apply x_stop; [|discriminate]. rewrite (x_if _ _ _ _ _ TA). cbn [block fold_right].
            erewrite x_seq; [|apply x_set; apply ev_var; [exact GE|discriminate]]. reflexivity.
          + constructor; try assumption; try reflexivity.
        - exists e4. erewrite x_seq; [|rewrite (x_if _ _ _ _ _ TA); reflexivity]. reflexivity. }
      destruct AG as (e5 & AG). clear TA.
      destruct (gc_skip g && (ls_id s =? skip_id k)) eqn:SK.
      - apply andb_true_iff in SK as (SK1 & SK2). exists e4, (Jump Lskip). split.
        + apply x_stop; [|discriminate]. rewrite (x_if _ _ _ _ _ T), X4. apply x_leave; [|discriminate]. rewrite SK1. cbn [opt].
          change (block [?a]) with (SSeq a SNop). apply x_stop; [|discriminate]. rewrite (x_if _ _ _ _ _ TS), SK2. reflexivity.
        + split; [reflexivity|]. split; [exact GE|]. auto.
      - assert (XS : ex (block (opt (gc_skip g) [SIf (EEq (EVar Vid) ESkip) (SGoto Lskip) SNop])) e4 = Ok (Next, e4)).
        { destruct (gc_skip g); [|reflexivity]. cbn [andb opt] in *. change (block [?a]) with (SSeq a SNop). rewrite SK in TS.
          erewrite x_seq; [|rewrite (x_if _ _ _ _ _ TS); reflexivity]. reflexivity. }
        rewrite (x_app _ _ _ _ XS) in X4.
        destruct (gc_again g && again_test s stack).
        + destruct AG as (XA & PA). exists e5, (Jump Lagain). split; [|auto]. apply x_stop; [|discriminate]. rewrite (x_if _ _ _ _ _ T), X4. exact XA.
        + rewrite AG in X4. eexists _, Next. split; [|split; [reflexivity|]].
          * erewrite x_seq; [|rewrite (x_if _ _ _ _ _ T); exact X4].
            erewrite x_seq; [|apply x_set; apply ev_var; [exact GI|discriminate]].
            erewrite x_seq; [|apply x_set; apply ev_var; [exact GU|discriminate]]. reflexivity.
          * unfold leave. rewrite get_put. set (e6 := put _ _ _).
            change (get e6 Rid) with (VN (ls_id s)). change (get e6 Rfirst) with (get e4 Rfirst). change (get e6 Rsecond) with (get e4 Rsecond).
            change (get e6 Rbol) with (get e4 Rbol). change (get e6 Rstate) with (get e4 Rstate). change (me_stack e6) with (me_stack e4).
            rewrite GF, H1, H2, H3, H4. unfold nval. cbv iota. now rewrite nval_back.
    Qed.
    Lemma match_none r s et curr e : rel r s et curr e -> ls_end s = true -> pop k s (r_stack r) = None -> ex (block gen_result) e = UB.
    Proof.
      intros R EF PO. assert (T := end_test _ _ _ _ _ R). rewrite EF in T. unfold gen_result. unfold block. cbn [fold_right].
      change (ex (SSeq ?a ?b) e) with (do p <- ex a e; let '(sg, s1) := p in match sg with Next => ex b s1 | _ => Ok (sg, s1) end).
      rewrite (x_if _ _ _ _ _ T). unfold on_match. fold stack_part. rewrite x_ub; [reflexivity|]. eapply stack_none; eauto.
    Qed.
  End Table.

  (** ** The whole function *)
  Hypothesis MW : mwf k m.
  Hypothesis EC : f_eol k = false \/ (ptrs = false /\ lines_suit k inp).
  Notation rf := (run_from (c_bits k) nb ptrs m inp inner).
  Definition main_part : list stmt := [at_eoi g] ++ gen_attempt g ++ opt (gc_wide g) [SLabel Lquit] ++ gen_finish g.
  Lemma after_again : gc_again g = true -> after Lagain (gen_code g) = Some main_part.
  Proof. intros H. unfold gen_code, gen_entry. rewrite H. destruct (gc_skip g); reflexivity. Qed.
  Lemma after_skip : gc_skip g = true -> after Lskip (gen_code g) =
    Some ([SDecl Vcurr (EVar Rsecond); SSet Rfirst (EVar Vcurr)] ++ opt (gc_again g) [SLabel Lagain] ++ main_part).
  Proof. intros H. unfold gen_code, gen_entry. rewrite H. reflexivity. Qed.
  Lemma table_lt st t : get_table m st = Some t -> st < N.of_nat (length (i_dfa m)).
  Proof.
    unfold get_table. intros G. destruct (nth_error (i_lookup m) (N.to_nat st)); [|discriminate].
    destruct (nth_error (i_alphabet m) (N.to_nat st)); [|discriminate].
    destruct (nth_error (i_dfa m) (N.to_nat st)) eqn:E; [|discriminate].
    assert (H : (N.to_nat st < length (i_dfa m))%nat) by (apply nth_error_Some; congruence). lia.
  Qed.
  Lemma table_of st t : get_table m st = Some t -> (exists n, twf k t n) /\
    (ptrs = true -> forall row v, cell t row ix_dead = Some v -> v = 0) /\
    (ptrs = true -> f_bol k = true -> cell t 0 0 <> Some 0).
  Proof.
    intros G. split; [|split].
    - assert (L := table_lt _ _ G).
      destruct (MW st L) as (t' & n & G' & T & _). exists n. congruence.
    - intros P. apply (PS P st t G).
    - intros P. apply (PS P st t G).
  Qed.
  Lemma single st t : get_table m st = Some t -> f_multi k = false -> st = 0.
  Proof.
    intros G F. rewrite (su_multi _ _ SU) in F. apply Nat.ltb_ge in F. apply table_lt in G. lia.
  Qed.
  (** The same position and environment. *)
  Definition close (a b : results) : Prop :=
    r_first a = r_first b /\ r_second a = r_second b /\ r_state a = r_state b /\ r_stack a = r_stack b /\
    (f_bol k = true -> r_bol a = r_bol b).

  Lemma attempt_table bol st curr x : attempt inner k m inp bol st curr = Ok x -> exists t, get_table m st = Some t.
  Proof. unfold attempt. destruct (get_table m st); [eauto|discriminate]. Qed.

  Lemma popped_suits s stack start stack' : has (i_features m) fb_again = false -> ls_id s <> i_eoi m ->
    Forall (fun p => snd p <> i_eoi m) stack -> pop k s stack = Some (start, stack') -> Forall (fun p : N * N => snd p <> i_eoi m) stack'.
  Proof.
    intros A I F P. unfold pop in P. destruct (f_rec k); [|injection P as <- <-; exact F].
    destruct (ls_pop s); [destruct stack as [|[a b] l]; [discriminate|]; injection P as <- <-; now inversion F|].
    destruct (negb _); injection P as <- <-; [constructor; assumption|exact F].
  Qed.

  Lemma eoi_part r curr e n : pre r curr e -> curr = length inp ->
    rf n (gen_code g) main_part e = Ok (put (put e Rid (VN (i_eoi m))) Ruid (VN (npos k))).
  Proof.
    intros P Q. assert (X : ex (block main_part) e = Ok (Ret, put (put e Rid (VN (i_eoi m))) Ruid (VN (npos k)))).
    { unfold main_part, block. cbn [app fold_right]. apply x_stop; [|discriminate].
      unfold at_eoi. rewrite (x_if _ _ _ _ true); [reflexivity|]. cbn [eval]. rewrite (pr_curr _ _ _ P), Q, Nat.eqb_refl. reflexivity. }
    destruct n; cbn [run_from]; rewrite X; reflexivity.
  Qed.

  Theorem again_ok : forall fuel r r0 curr e r' o, pre r0 curr e -> close r r0 -> stack_suits m r ->
    again fuel inner k m inp r curr = Ok (r', o) -> forall n, (2 * fuel <= n)%nat ->
    match o with
    | None => exists e' r0', rf n (gen_code g) main_part e = Ok e' /\ leave e' = Some r0' /\ same k r' r0' /\ stack_suits m r'
    | Some _ => rf n (gen_code g) main_part e = UB
    end.
  Proof.
    induction fuel as [|f IH]; intros r r0 curr e r' o P C SS E n L; cbn [again] in E;
      (destruct (Nat.eqb_spec curr (length inp)) as [Q|Q]; [|try discriminate]).
    1,2: injection E as <- <-; destruct C as (C1 & C2 & C3 & C4 & C5); 
      exists (put (put e Rid (VN (i_eoi m))) Ruid (VN (npos k))); eexists; (split; [exact (eoi_part _ _ _ _ P Q)|]); destruct P;
      (split; [unfold leave, get, put; cbn [me_vars me_stack var_eqb]; fold (get e Rfirst) (get e Rsecond) (get e Rbol) (get e Rstate);
        rewrite pr_first0, pr_second0, pr_bol0, pr_state0; reflexivity|]);
      (split; [|exact SS]); repeat split; cbn; try congruence; intros F; rewrite nval_back; auto.
    destruct (attempt inner k m inp (r_bol r) (r_state r) curr) as [[s et]| | |] eqn:A; try discriminate. cbn [bind] in E.
    destruct C as (C1 & C2 & C3 & C4 & C5). rewrite C3 in A.
    destruct (attempt_table _ _ _ _ A) as (t & GT). destruct (table_of _ _ GT) as ((nn & TW) & DZ & BZ).
    destruct (attempt_ok t nn TW DZ EC (fun st H => single st t H) BZ r0 curr e (r_bol r) s et P GT (fun F => eq_sym (C5 F)) A) as (e1 & c1 & j & R1 & K1 & J & X1).
    assert (XM : rf n (gen_code g) main_part e = rf (n - j) (gen_code g) gen_result e1).
    { rewrite <- (X1 (n - j)%nat). replace (j + (n - j))%nat with n by (clear -L J; lia). apply r_cont. unfold main_part. unfold block. cbn [app fold_right].
      apply x_seq. unfold at_eoi. erewrite x_if; [|cbn [eval]; rewrite (pr_curr _ _ _ P); destruct (Nat.eqb_spec curr (length inp)); [congruence|reflexivity]]. reflexivity. }
    destruct (ls_end s) eqn:LE.
    - rewrite C4 in E. destruct (pop k s (r_stack r0)) as [[start stack]|] eqn:PO.
      2: { injection E as <- <-. rewrite XM. pose proof (match_none t _ _ _ _ _ R1 LE PO) as X. destruct (n - j)%nat; cbn [run_from]; rewrite X; reflexivity. }
      destruct (match_final t (fun st H => single st t H) BZ _ _ _ _ _ _ _ R1 LE PO) as (e2 & sg & X2 & M).
      assert (KI : forall id, no_row_id m id -> ls_id s <> id).
      { intros id NR <-. destruct K1 as (_ & K). destruct (K LE) as (row & RN & RA & RI). exact (NR _ _ _ GT RN RA RI). }
      assert (ST : has (i_features m) fb_again = false -> Forall (fun p => snd p <> i_eoi m) stack).
      { intros H. refine (popped_suits s (r_stack r0) start stack H _ _ PO). - apply KI. now apply (su_again _ _ SU). - rewrite <- C4. now apply SS. }
      destruct (N.eqb_spec (ls_id s) (skip_id k)) as [SK|SK].
      + assert (GS : gc_skip g = true).
        { destruct (gc_skip g) eqn:GS; [reflexivity|]. exfalso. apply (KI (skip_id k)); auto. now apply (su_skip _ _ SU). }
        rewrite GS in M. cbn [andb] in M. destruct M as (-> & M1 & M2 & M3 & M4 & M5).
        destruct n as [|n]; [clear -L; lia|]. assert (XS : exists n', (2 * f <= n')%nat /\ rf (S n) (gen_code g) main_part e =
            rf n' (gen_code g) main_part (put (put e2 Vcurr (VI et)) Rfirst (VI et))).
        { exists (S n - j - 1)%nat. split; [clear -L J; lia|]. rewrite XM. replace (S n - j)%nat with (S (S n - j - 1)) at 1 by (clear -L J; lia).
          rewrite (r_jump _ _ _ _ _ _ _ X2 (after_skip GS)). apply r_cont. unfold block. cbn [app fold_right].
          erewrite x_seq; [|apply x_decl, ev_var; [exact M2|discriminate]]. erewrite x_seq; [|apply x_set, ev_var; [reflexivity|discriminate]].
          fold (block (opt (gc_again g) [SLabel Lagain] ++ main_part)). destruct (gc_again g); reflexivity. }
        destruct XS as (n' & L' & ->). eapply IH; [| | |exact E|exact L'].
        * instantiate (1 := {| r_id := r_id r0; r_uid := r_uid r0; r_first := et; r_second := et; r_bol := r_bol (moved r0 s et start stack);
            r_state := r_state (moved r0 s et start stack); r_stack := stack |}). constructor; try assumption; try reflexivity.
        * unfold close. cbn. rewrite C3. repeat split. intros F. rewrite F. reflexivity.
        * exact ST.
      + rewrite andb_false_r in M. fold (again_test s stack) in E. destruct (again_test s stack) eqn:AT.
        * assert (GA : gc_again g = true).
          { destruct (gc_again g) eqn:GA; [reflexivity|]. exfalso. unfold again_test, is_id_eoi in AT. apply orb_true_iff in AT as [AT|AT].
            - apply N.eqb_eq in AT. apply (KI (i_eoi m)); auto. now apply (su_again _ _ SU).
            - specialize (ST GA). destruct stack as [|[a b] l]; [now rewrite andb_false_r in AT|]. apply andb_true_iff in AT as (_ & AT).
              apply N.eqb_eq in AT. inversion ST; subst. cbn in *. congruence. }
          rewrite GA in M. cbn [andb] in M. destruct M as (-> & M).
          destruct n as [|n]; [clear -L; lia|]. assert (XS : exists n', (2 * f <= n')%nat /\ rf (S n) (gen_code g) main_part e = rf n' (gen_code g) main_part e2).
          { exists (S n - j - 1)%nat. split; [clear -L J; lia|]. rewrite XM. replace (S n - j)%nat with (S (S n - j - 1)) at 1 by (clear -L J; lia).
            exact (r_jump _ _ _ _ _ _ _ X2 (after_again GA)). }
          destruct XS as (n' & L' & ->). eapply IH; [exact M| | |exact E|exact L']; [|exact ST].
          unfold close, moved. cbn. rewrite C3. repeat split; auto. intros F. rewrite F. reflexivity.
        * rewrite andb_false_r in M. destruct M as (-> & M). injection E as <- <-.
          exists e2. eexists. split; [rewrite XM; destruct (n - j)%nat; cbn [run_from]; rewrite X2; reflexivity|]. split; [exact M|]. split.
          -- unfold same, moved. cbn. rewrite C3. repeat split; auto. intros F. rewrite F. reflexivity.
          -- exact ST.
    - destruct (nth_error inp et) as [c|] eqn:I; [|discriminate]. injection E as <- <-.
      destruct (miss_final t BZ _ _ _ _ _ _ R1 LE I) as (e2 & X2 & M). exists e2. eexists.
      split; [rewrite XM; destruct (n - j)%nat; cbn [run_from]; rewrite X2; reflexivity|]. split; [exact M|]. split; [|exact SS].
      unfold same. cbn. rewrite (su_adv _ _ SU). repeat split; auto. intros F. rewrite F. reflexivity.
  Qed.

  Theorem gen_ok fuel r r0 r' o : same k r r0 -> stack_suits m r -> lookup fuel inner k m inp r = Ok (r', o) -> forall n, (2 * fuel <= n)%nat ->
    match o with
    | None => exists r0', gen_lookup n inner (c_bits k) (c_bytes k) ptrs m inp r0 = Ok r0' /\ same k r' r0' /\ stack_suits m r'
    | Some _ => gen_lookup n inner (c_bits k) (c_bytes k) ptrs m inp r0 = UB
    end.
  Proof.
    intros S SS E n L. unfold lookup in E. destruct S as (S1 & S2 & S3 & S4 & S5 & S6 & S7).
    assert (X : exists e, rf n (gen_code g) (gen_code g) (enter r0) = rf n (gen_code g) main_part e /\
      pre {| r_id := r_id r0; r_uid := r_uid r0; r_first := r_second r0; r_second := r_second r0; r_bol := r_bol r0; r_state := r_state r0; r_stack := r_stack r0 |} (r_second r) e).
    { eexists. split.
      - apply r_cont. unfold gen_code at 1, gen_entry. fold main_part. unfold block.
        cbn [app fold_right]. erewrite x_seq; [|apply x_decl, ev_var; [reflexivity|discriminate]].
        assert (Q : forall e, exists q, ex (fold_right SSeq SNop ((opt (gc_skip g) [SLabel Lskip] ++ [SDecl Vcurr (EVar Rsecond); SSet Rfirst (EVar Vcurr)]) ++
          opt (gc_again g) [SLabel Lagain] ++ main_part)) e = q) by eauto.
        clear Q. instantiate (1 := put (put (put (enter r0) Vend_token (VI (r_second r0))) Vcurr (VI (r_second r0))) Rfirst (VI (r_second r0))).
        destruct (gc_skip g), (gc_again g); reflexivity.
      - constructor; cbn; try congruence; reflexivity. }
    destruct X as (e & X & P).
    assert (C : close {| r_id := r_id r; r_uid := r_uid r; r_first := r_second r; r_second := r_second r; r_bol := r_bol r; r_state := r_state r; r_stack := r_stack r |}
       {| r_id := r_id r0; r_uid := r_uid r0; r_first := r_second r0; r_second := r_second r0; r_bol := r_bol r0; r_state := r_state r0; r_stack := r_stack r0 |}).
    { unfold close. cbn. auto. }
    pose proof (again_ok fuel _ _ _ e r' o P C SS E n L) as H. unfold gen_lookup. fold g. fold nb. rewrite X.
    destruct o; [now rewrite H|]. destruct H as (e' & r0' & H1 & H2 & H3). rewrite H1. cbn [bind]. rewrite H2. exists r0'. split; [reflexivity|exact H3].
  Qed.
End Sim.
