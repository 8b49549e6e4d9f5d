(** Lexing a stream through stream_shared_iterator gives the tokens of its text. *)
From Verif Require Import Base StateMachine Lookup Iterator StreamIter StreamSpec StreamProofs AnyIter AnyIterProofs StreamLex.
Local Open Scope N_scope.

(** Programs do on the shared buffer what they do on the places. *)
Theorem prun_ok {A} strm (p : prog A) : forall a w a' x, inv strm a w -> aprun strm a p = Ok (a', x) ->
  exists w', prun false w p = Ok (w', x) /\ inv strm a' w'.
Proof.
  induction p as [r|o f IH]; intros a w a' x IV E; cbn [aprun prun] in *.
  - destruct r as [y| | |]; try discriminate. cbn [bind] in *. injection E as <- <-. eauto.
  - destruct (aexec strm a o) as [[a1 b]|] eqn:EX; [|discriminate]. destruct (exec_ok _ _ _ _ _ _ IV EX) as (w1 & -> & I1). cbn [bind]. eapply IH; eauto.
Qed.
Theorem prun_strict {A} (p : prog A) : forall w, prun true w p = prun false w p \/ prun true w p = UB.
Proof.
  induction p as [r|o f IH]; intros w; cbn [prun]; [now left|]. destruct (exec_strict w o) as [->| ->]; [|now right].
  destruct (exec false w o) as [[w1 b]| | |]; cbn [bind]; auto.
Qed.
Lemma aprun_bind {A B} strm (p : prog A) (g : A -> prog B) : forall a, aprun strm a (pbind p g) = do q <- aprun strm a p; aprun strm (fst q) (g (snd q)).
Proof.
  induction p as [r|o f IH]; intros a; cbn [pbind aprun].
  - destruct r; reflexivity.
  - destruct (aexec strm a o) as [[a1 b]|]; [apply IH|reflexivity].
Qed.
Lemma aprun_step {A B} strm (p : prog A) (g : A -> prog B) a a' x : aprun strm a p = Ok (a', x) -> aprun strm a (pbind p g) = aprun strm a' (g x).
Proof. intros E. rewrite aprun_bind, E. reflexivity. Qed.

Section Places.
  Variable strm : list N.
  Notation len := (length strm).
  (** The place of a position. *)
  Definition pl (p : nat) : place := if Nat.ltb p len then AAt p else AEnd.
  Lemma pl_at p : (p < len)%nat -> pl p = AAt p.
  Proof. intros H. unfold pl. now rewrite (proj2 (Nat.ltb_lt _ _) H). Qed.
  Lemma pl_end : pl len = AEnd.
  Proof. unfold pl. now rewrite Nat.ltb_irrefl. Qed.
  Lemma pl_use p : pl p <> AMaster.
  Proof. unfold pl. destruct (Nat.ltb p len); discriminate. Qed.
  Lemma pl_eq p q : (p <= len)%nat -> (q <= len)%nat -> place_eqb (pl p) (pl q) = Nat.eqb p q.
  Proof.
    intros H1 H2. unfold pl. destruct (Nat.ltb_spec p len), (Nat.ltb_spec q len); cbn; try reflexivity; symmetry; try (apply Nat.eqb_neq; lia). apply Nat.eqb_eq. lia.
  Qed.
  Lemma avar_lt a x p : avar a x = Some p -> (x < length (a_vars a))%nat.
  Proof. unfold avar. intros H. apply nth_error_Some. destruct (nth_error (a_vars a) x); congruence. Qed.
  Lemma put_length {T} (l : list T) x v : length (put l x v) = length l.
  Proof. revert x. induction l; intros [|x]; cbn; congruence. Qed.
  Lemma avar_put a x q m z : (x < length (a_vars a))%nat -> avar {| a_vars := put (a_vars a) x q; a_moved := m |} z = if Nat.eqb x z then q else avar a z.
  Proof.
    intros H. pose proof (avar_aset a x q z) as E. unfold aset, avar in *. cbn [a_vars] in *. rewrite E. destruct (Nat.eqb x z); [|reflexivity].
    destruct (nth_error (a_vars a) x) eqn:N; [reflexivity|]. apply nth_error_None in N. lia.
  Qed.

  Lemma do_eq a x y p q : avar a x = Some (pl p) -> avar a y = Some (pl q) -> (p <= len)%nat -> (q <= len)%nat -> aprun strm a (peq x y) = Ok (a, Nat.eqb p q).
  Proof.
    intros H1 H2 L1 L2. unfold peq. cbn [aprun aexec]. rewrite H1, H2, <- (pl_eq p q L1 L2). pose proof (pl_use p). pose proof (pl_use q). destruct (pl p), (pl q); try congruence; reflexivity.
  Qed.
  Lemma put_get a x p : avar a x = Some p -> aset a x (Some p) = a.
  Proof.
    intros H. unfold aset. rewrite put_same; [destruct a; reflexivity|]. unfold avar in H. destruct (nth_error (a_vars a) x) as [[v|]|]; congruence.
  Qed.
  Lemma do_get a x p c : avar a x = Some (pl p) -> nth_error strm p = Some c -> aprun strm a (pget x) = Ok (a, c).
  Proof.
    intros H N. assert (p < len)%nat by (apply nth_error_Some; congruence). rewrite pl_at in H by auto. unfold pget. cbn [aprun aexec]. unfold place_of. rewrite H, N.
    rewrite put_get by exact H. reflexivity.
  Qed.
  Lemma do_assign a x y p q : avar a x = Some (pl p) -> avar a y = Some (pl q) -> exists a', aprun strm a (pcmd (OAssign x y)) = Ok (a', tt) /\
    length (a_vars a') = length (a_vars a) /\ forall z, avar a' z = if Nat.eqb x z then Some (pl q) else avar a z.
  Proof.
    intros H1 H2. exists (aset a x (Some (pl q))). split; [|split].
    - unfold pcmd. cbn [aprun aexec]. rewrite H1, H2. pose proof (pl_use p). pose proof (pl_use q). destruct (pl p), (pl q); try congruence; reflexivity.
    - apply put_length.
    - intros z. apply avar_put. eapply avar_lt; eauto.
  Qed.
  Lemma do_destroy a x p : avar a x = Some (pl p) -> exists a', aprun strm a (pcmd (ODestroy x)) = Ok (a', tt) /\
    length (a_vars a') = length (a_vars a) /\ forall z, avar a' z = if Nat.eqb x z then None else avar a z.
  Proof.
    intros H1. exists (aset a x None). split; [|split].
    - unfold pcmd. cbn [aprun aexec]. now rewrite H1.
    - apply put_length.
    - intros z. apply avar_put. eapply avar_lt; eauto.
  Qed.
  Lemma do_inc a x p : avar a x = Some (pl p) -> (p < len)%nat -> exists a', aprun strm a (pcmd (OInc x)) = Ok (a', tt) /\
    length (a_vars a') = length (a_vars a) /\ forall z, avar a' z = if Nat.eqb x z then Some (pl (S p)) else avar a z.
  Proof.
    intros H1 L. pose proof H1 as H. rewrite pl_at in H by auto. eexists. split; [|split].
    - unfold pcmd. cbn [aprun aexec]. unfold place_of. rewrite H. reflexivity.
    - apply put_length.
    - intros z. apply avar_put. eapply avar_lt; eauto.
  Qed.
  Lemma avar_add a p z : avar (aadd a p) z = if Nat.eqb z (length (a_vars a)) then Some p else avar a z.
  Proof.
    unfold avar, aadd. cbn [a_vars]. destruct (Nat.eqb_spec z (length (a_vars a))) as [->|N].
    - rewrite nth_error_app2 by lia. now rewrite Nat.sub_diag.
    - destruct (Nat.lt_ge_cases z (length (a_vars a))) as [L|L]; [now rewrite nth_error_app1|].
      rewrite nth_error_app2 by lia. destruct (z - length (a_vars a))%nat as [|d] eqn:D; [lia|]. cbn. destruct (nth_error (a_vars a) z) eqn:X; [|now destruct d].
      assert (z < length (a_vars a))%nat by (apply nth_error_Some; congruence). lia.
  Qed.
  Lemma do_copy a y p : avar a y = Some (pl p) -> exists a', aprun strm a (pcmd (OCopy y)) = Ok (a', tt) /\
    length (a_vars a') = S (length (a_vars a)) /\ forall z, avar a' z = if Nat.eqb z (length (a_vars a)) then Some (pl p) else avar a z.
  Proof.
    intros H. exists (aadd a (pl p)). split; [|split].
    - unfold pcmd. cbn [aprun aexec]. unfold place_of. rewrite H. pose proof (pl_use p). destruct (pl p); try congruence; reflexivity.
    - unfold aadd. cbn [a_vars]. rewrite app_length. cbn. lia.
    - apply avar_add.
  Qed.

  (** The iterators of the results, and the two of lookup(). *)
  Section Vars.
    Variables f s e : nat.
    Hypothesis DIFF : f <> s /\ f <> e /\ s <> e.
    Definition three (a : ideal) (n pf ps : nat) : Prop :=
      avar a f = Some (pl pf) /\ avar a s = Some (pl ps) /\ avar a e = Some (pl len) /\ length (a_vars a) = n /\ (f < n)%nat /\ (s < n)%nat /\ (e < n)%nat /\ (pf <= len)%nat /\ (ps <= len)%nat.
    Definition apart2 (et c : nat) : Prop := et <> f /\ et <> s /\ et <> e /\ c <> f /\ c <> s /\ c <> e /\ et <> c.
    Definition five (a : ideal) (n et c pf ps pe pc : nat) : Prop :=
      three a n pf ps /\ avar a et = Some (pl pe) /\ avar a c = Some (pl pc) /\ (et < n)%nat /\ (c < n)%nat /\ (pe <= len)%nat /\ (pc <= len)%nat /\ apart2 et c.
    Ltac look H := rewrite H; repeat (match goal with |- context [Nat.eqb ?x ?y] => destruct (Nat.eqb_spec x y); try congruence; try lia end); auto.

    Lemma five_assign_et a n et c pf ps pe pc : five a n et c pf ps pe pc -> exists a', aprun strm a (pcmd (OAssign et c)) = Ok (a', tt) /\ five a' n et c pf ps pc pc.
    Proof.
      intros ((T1 & T2 & T3 & T4 & T5 & T6 & T7 & T8 & T9) & F1 & F2 & F3 & F4 & F5 & F6 & (A1 & A2 & A3 & A4 & A5 & A6 & A7)).
      destruct (do_assign a et c _ _ F1 F2) as (a' & E & L & H). exists a'. split; [exact E|]. unfold five, three, apart2. repeat split; auto; try (look H); congruence.
    Qed.
    Lemma pend_ok k t ls et c s' pe' a n pf ps pe pc : end_state k t ls pe pc = Some (s', pe') -> five a n et c pf ps pe pc ->
      exists a', aprun strm a (pend_state k t ls et c) = Ok (a', s') /\ five a' n et c pf ps pe' pc.
    Proof.
      intros E F. unfold end_state in E. unfold pend_state, aend_state. destruct (cell t (ls_ptr ls) ix_end) as [v|]; [|discriminate]. destruct (v =? 0).
      - injection E as <- <-. exists a. auto.
      - destruct (cell t (ls_ptr ls) ix_id), (cell t (ls_ptr ls) ix_uid), (cell t (ls_ptr ls) ix_push), (cell t (ls_ptr ls) ix_next); try discriminate. injection E as <- <-.
        destruct (five_assign_et _ _ _ _ _ _ _ _ F) as (a' & E & F'). exists a'. split; [|exact F']. rewrite (aprun_step _ _ _ _ _ _ E). reflexivity.
    Qed.
    Lemma five_eq a n et c pf ps pe pc : five a n et c pf ps pe pc -> aprun strm a (peq c e) = Ok (a, Nat.eqb pc len).
    Proof. intros ((_ & _ & T3 & _) & _ & F2 & _ & _ & _ & F6 & _). apply do_eq; auto. Qed.
    Lemma pscan_ok k t et c n pf ps fuel : forall a ls pe pc s' pe' pc', scan fuel k t strm pc pe ls = Ok (s', pe', pc') -> five a n et c pf ps pe pc ->
      exists a', aprun strm a (pscan fuel k t c et e ls) = Ok (a', s') /\ five a' n et c pf ps pe' pc'.
    Proof.
      induction fuel as [|fuel IH]; intros a ls pe pc s' pe' pc' E F; cbn [scan pscan] in *; rewrite (aprun_step _ _ _ _ _ _ (five_eq _ _ _ _ _ _ _ _ F)).
      - destruct (Nat.eqb pc len); [|discriminate]. injection E as <- <- <-. exists a. auto.
      - destruct (Nat.eqb pc len); [injection E as <- <- <-; exists a; auto|]. destruct (nth_error strm pc) as [ch|] eqn:Ec; [|discriminate].
        pose proof F as (_ & _ & F2 & _). rewrite (aprun_step _ _ _ _ _ _ (do_get a c pc ch F2 Ec)).
        destruct (is_eol k t ch ls) as [[[] s1]|]; [| |discriminate].
        + destruct (end_state k t s1 pe pc) as [[s2 pe2]|] eqn:EE; [|discriminate]. destruct (pend_ok _ _ _ _ _ _ _ _ _ _ _ _ _ EE F) as (a2 & R & F').
          rewrite (aprun_step _ _ _ _ _ _ R). eapply IH; eauto.
        + rewrite (aprun_step _ _ _ _ _ _ (do_get a c pc ch F2 Ec)). destruct (next_char k t ch (ls_ptr s1)) as [[st p]|]; [|discriminate]. cbv zeta in *. destruct (st =? 0).
          * destruct (is_eol k t (npos k) _) as [[b s4]|]; [|discriminate]. injection E as <- <- <-. exists a. auto.
          * set (s3 := if f_bol k then _ else _) in *. destruct (end_state k t s3 pe (S pc)) as [[s4 pe4]|] eqn:EE; [|discriminate].
            assert (L : (pc < len)%nat) by (apply nth_error_Some; congruence). destruct (do_inc a c pc F2 L) as (a1 & R & LL & H). rewrite (aprun_step _ _ _ _ _ _ R).
            assert (F' : five a1 n et c pf ps pe (S pc)).
            { destruct F as ((T1 & T2 & T3 & T4 & T5 & T6 & T7 & T8 & T9) & F1 & _ & F3 & F4 & F5 & F6 & (A1 & A2 & A3 & A4 & A5 & A6 & A7)).
              unfold five, three, apart2. repeat split; auto; try (look H); congruence. }
            destruct (pend_ok _ _ _ _ _ _ _ _ _ _ _ _ _ EE F') as (a2 & R2 & F2'). rewrite (aprun_step _ _ _ _ _ _ R2). eapply IH; eauto.
    Qed.
    Lemma pcheck_ok k t et c n pf ps a ls pe pc s' pe' : check_eol k t strm ls pe pc = Some (s', pe') -> five a n et c pf ps pe pc ->
      exists a', aprun strm a (pcheck_eol k t n et c e ls) = Ok (a', s') /\ five a' (S n) et c pf ps pe' pc.
    Proof.
      intros E F. unfold pcheck_eol. pose proof F as ((T1 & T2 & T3 & T4 & T5 & T6 & T7 & T8 & T9) & F1 & F2 & F3 & F4 & F5 & F6 & (A1 & A2 & A3 & A4 & A5 & A6 & A7)).
      destruct (do_copy a e _ T3) as (a1 & R1 & L1 & H1). rewrite (aprun_step _ _ _ _ _ _ R1).
      assert (F' : five a1 (S n) et c pf ps pe pc). { rewrite T4 in *. unfold five, three, apart2. repeat split; auto; try (look H1); lia. }
      assert (N : avar a1 n = Some (pl len)) by (rewrite H1, T4, Nat.eqb_refl; reflexivity).
      match goal with |- exists a', aprun strm a1 (pbind ?P _) = _ /\ _ => assert (X : exists a2, aprun strm a1 P = Ok (a2, s') /\ five a2 (S n) et c pf ps pe' pc /\ avar a2 n = Some (pl len)) end.
      { unfold check_eol in E. destruct (f_eol k && negb (ls_eol ls =? npos k)); cbn [andb] in E.
        2: { injection E as <- <-. exists a1. auto. }
        assert (Q : aprun strm a1 (peq c n) = Ok (a1, Nat.eqb pc len)) by (apply do_eq; auto; apply F'). rewrite (aprun_step _ _ _ _ _ _ Q).
        destruct (Nat.eqb pc len); [|injection E as <- <-; exists a1; auto].
        destruct (cell t (ls_ptr ls) ix_eol) as [v|]; [|discriminate]. cbv zeta in *. destruct (v =? 0); [injection E as <- <-; exists a1; auto|].
        clear H1 R1. revert E. generalize (set_ptr (set_eol ls v) v). intros ls2 E.
        unfold end_state in E. unfold pend_state, aend_state. destruct (cell t (ls_ptr ls2) ix_end) as [w|]; [|discriminate]. destruct (w =? 0); [injection E as <- <-; exists a1; auto|].
        destruct (cell t (ls_ptr ls2) ix_id), (cell t (ls_ptr ls2) ix_uid), (cell t (ls_ptr ls2) ix_push), (cell t (ls_ptr ls2) ix_next); try discriminate. injection E as <- <-.
        pose proof F' as ((G1 & G2 & G3 & G4 & _) & G5 & G6 & _). destruct (do_assign a1 et c _ _ G5 G6) as (a2 & R2 & L2 & H2). exists a2.
        rewrite (aprun_step _ _ _ _ _ _ R2). split; [reflexivity|]. split; [|look H2]. unfold five, three, apart2. repeat split; auto; try (look H2); try lia; congruence. }
      destruct X as (a2 & R2 & F2' & N2). rewrite (aprun_step _ _ _ _ _ _ R2). destruct (do_destroy a2 n _ N2) as (a3 & R3 & L3 & H3). rewrite (aprun_step _ _ _ _ _ _ R3).
      exists a3. split; [reflexivity|]. destruct F2' as ((G1 & G2 & G3 & G4 & G5 & G6 & G7 & G8 & G9) & G10 & G11 & G12 & G13 & G14 & G15 & G16).
      unfold five, three. repeat split; auto; try (look H3); try congruence; apply G16.
    Qed.
    Lemma pattempt_ok fuel k m bol state et c n pf ps a pc s' pe' : attempt fuel k m strm bol state pc = Ok (s', pe') -> five a n et c pf ps pc pc ->
      exists a' pc', aprun strm a (pattempt fuel k m bol state n c et e) = Ok (a', s') /\ five a' (S n) et c pf ps pe' pc'.
    Proof.
      intros E F. unfold attempt in E. unfold pattempt. destruct (get_table m state) as [t|]; [|discriminate]. destruct (ls_init t bol state) as [s0|]; [|discriminate].
      destruct (bol_start k t s0) as [s1|]; [|discriminate]. destruct (scan fuel k t strm pc pc s1) as [[[s2 pe2] pc2]| | |] eqn:ES; try discriminate. cbn [bind] in E.
      destruct (check_eol k t strm s2 pe2 pc2) as [q|] eqn:EC; [|discriminate]. injection E as ->.
      destruct (pscan_ok _ _ _ _ _ _ _ _ _ _ _ _ _ _ _ ES F) as (a1 & R1 & F1). rewrite (aprun_step _ _ _ _ _ _ R1).
      destruct (pcheck_ok _ _ _ _ _ _ _ _ _ _ _ _ _ EC F1) as (a2 & R2 & F2). eauto.
    Qed.
    Lemma pleave_ok {A} (x : A) a n et c pf ps pe pc : five a n et c pf ps pe pc -> exists a', aprun strm a (pleave c et x) = Ok (a', x) /\ three a' n pf ps.
    Proof.
      intros ((T1 & T2 & T3 & T4 & T5 & T6 & T7 & T8 & T9) & F1 & F2 & F3 & F4 & F5 & F6 & (A1 & A2 & A3 & A4 & A5 & A6 & A7)). unfold pleave.
      destruct (do_destroy a c _ F2) as (a1 & R1 & L1 & H1). rewrite (aprun_step _ _ _ _ _ _ R1).
      destruct (do_destroy a1 et pe) as (a2 & R2 & L2 & H2); [look H1|]. rewrite (aprun_step _ _ _ _ _ _ R2). exists a2. split; [reflexivity|].
      unfold three. repeat split; auto; try congruence; rewrite H2; destruct (Nat.eqb_spec et f), (Nat.eqb_spec et s), (Nat.eqb_spec et e); try congruence; look H1.
    Qed.
    (** The same results. *)
    Definition same_as (r : results) (q : presults) : Prop :=
      p_id q = r_id r /\ p_uid q = r_uid r /\ p_bol q = r_bol r /\ p_state q = r_state r /\ p_stack q = r_stack r.
    Lemma pagain_ok inner k m fuel : forall r pc q a n et c r' o, again fuel inner k m strm r pc = Ok (r', o) -> same_as r q -> five a n et c (r_first r) (r_second r) pc pc ->
      exists a' q' n', aprun strm a (pagain fuel inner k m f s e q n c et) = Ok (a', (q', o, n')) /\ same_as r' q' /\ three a' n' (r_first r') (r_second r').
    Proof.
      induction fuel as [|fuel IH]; intros r pc q a n et c r' o E (S1 & S2 & S3 & S4 & S5) F; cbn [again pagain] in *; rewrite (aprun_step _ _ _ _ _ _ (five_eq _ _ _ _ _ _ _ _ F)).
      - destruct (Nat.eqb pc len); [|discriminate]. injection E as <- <-. destruct (pleave_ok ({| p_id := i_eoi m; p_uid := npos k; p_bol := p_bol q; p_state := p_state q; p_stack := p_stack q |}, @None err, n) _ _ _ _ _ _ _ _ F) as (a' & R & T).
        exists a'. eexists. exists n. split; [exact R|]. split; [unfold same_as; cbn; auto|exact T].
      - destruct (Nat.eqb pc len).
        { injection E as <- <-. destruct (pleave_ok ({| p_id := i_eoi m; p_uid := npos k; p_bol := p_bol q; p_state := p_state q; p_stack := p_stack q |}, @None err, n) _ _ _ _ _ _ _ _ F) as (a' & R & T).
          exists a'. eexists. exists n. split; [exact R|]. split; [unfold same_as; cbn; auto|exact T]. }
        rewrite S3, S4, S5. destruct (attempt inner k m strm (r_bol r) (r_state r) pc) as [[ls pe]| | |] eqn:EA; try discriminate. cbn [bind] in E.
        destruct (pattempt_ok _ _ _ _ _ _ _ _ _ _ _ _ _ _ EA F) as (a1 & pc1 & R1 & F1). rewrite (aprun_step _ _ _ _ _ _ R1). destruct (ls_end ls).
        + destruct (pop k ls (r_stack r)) as [[start stack]|].
          * pose proof F1 as ((T1 & T2 & T3 & T4 & T5 & T6 & T7 & T8 & T9) & G1 & G2 & G3 & G4 & G5 & G6 & (A1 & A2 & A3 & A4 & A5 & A6 & A7)).
            destruct (do_assign a1 s et _ _ T2 G1) as (a2 & R2 & L2 & H2). rewrite (aprun_step _ _ _ _ _ _ R2).
            assert (F2 : five a2 (S n) et c (r_first r) pe pe pc1) by (unfold five, three, apart2; repeat split; auto; try (look H2); congruence).
            cbv zeta in *. cbn [r_id r_uid r_first r_second r_bol r_state r_stack p_id p_uid p_bol p_state p_stack] in *. destruct (ls_id ls =? skip_id k).
            { pose proof F2 as ((U1 & U2 & U3 & U4 & _) & V1 & V2 & _). destruct (do_destroy a2 c _ V2) as (a3 & R3 & L3 & H3). rewrite (aprun_step _ _ _ _ _ _ R3).
              assert (X3 : avar a3 s = Some (pl pe)) by (look H3). destruct (do_copy a3 s _ X3) as (a4 & R4 & L4 & H4). rewrite (aprun_step _ _ _ _ _ _ R4).
              assert (N3 : length (a_vars a3) = S n) by congruence. rewrite N3 in *.
              assert (X4 : avar a4 f = Some (pl (r_first r))) by (rewrite H4; destruct (Nat.eqb_spec f (S n)); [lia|look H3]).
              assert (Y4 : avar a4 (S n) = Some (pl pe)) by (rewrite H4, Nat.eqb_refl; reflexivity).
              destruct (do_assign a4 f (S n) _ _ X4 Y4) as (a5 & R5 & L5 & H5). rewrite (aprun_step _ _ _ _ _ _ R5).
              eapply IH; [exact E|unfold same_as; cbn; auto 10|]. cbn [r_first r_second].
              assert (Z : forall z, z <> f -> z <> c -> z <> S n -> avar a5 z = avar a2 z).
              { intros z Z1 Z2 Z3. rewrite H5. destruct (Nat.eqb_spec f z); [congruence|]. rewrite H4. destruct (Nat.eqb_spec z (S n)); [congruence|]. look H3. }
              assert (Zf : avar a5 f = Some (pl pe)) by (look H5).
              assert (Zn : avar a5 (S n) = Some (pl pe)) by (rewrite H5; destruct (Nat.eqb_spec f (S n)); [lia|exact Y4]).
              unfold five, three, apart2. rewrite (Z s), (Z e), (Z et) by lia. repeat split; auto; lia. }
            destruct (is_id_eoi k (i_eoi m) ls stack).
            { pose proof F2 as ((U1 & U2 & U3 & U4 & _) & V1 & V2 & _). destruct (do_assign a2 c et _ _ V2 V1) as (a3 & R3 & L3 & H3). rewrite (aprun_step _ _ _ _ _ _ R3).
              eapply IH; [exact E|unfold same_as; cbn; auto 10|]. cbn [r_first r_second]. unfold five, three, apart2. repeat split; auto; try (look H3); congruence. }
            injection E as <- <-. destruct (pleave_ok ({| p_id := ls_id ls; p_uid := ls_uid ls; p_bol := if f_bol k then ls_end_bol ls else r_bol r; p_state := if f_multi k then start else r_state r; p_stack := stack |}, @None err, S n) _ _ _ _ _ _ _ _ F2) as (a3 & R3 & T).
            exists a3. eexists. exists (S n). split; [exact R3|]. split; [unfold same_as; cbn; auto|exact T].
          * injection E as <- <-. destruct (pleave_ok (q, Some EUnderflow, S n) _ _ _ _ _ _ _ _ F1) as (a3 & R3 & T). exists a3. eexists. exists (S n). split; [exact R3|]. split; [unfold same_as; auto|exact T].
        + destruct (nth_error strm pe) as [ch|] eqn:Ec; [|discriminate]. injection E as <- <-.
          pose proof F1 as ((T1 & T2 & T3 & T4 & T5 & T6 & T7 & T8 & T9) & G1 & G2 & G3 & G4 & G5 & G6 & (A1 & A2 & A3 & A4 & A5 & A6 & A7)).
          destruct (do_assign a1 s et _ _ T2 G1) as (a2 & R2 & L2 & H2). rewrite (aprun_step _ _ _ _ _ _ R2).
          assert (X2 : avar a2 s = Some (pl pe)) by (look H2). rewrite (aprun_step _ _ _ _ _ _ (do_get a2 s pe ch X2 Ec)).
          assert (Y2 : avar a2 f = Some (pl (r_first r))) by (look H2). destruct (do_assign a2 f s _ _ Y2 X2) as (a3 & R3 & L3 & H3). rewrite (aprun_step _ _ _ _ _ _ R3).
          assert (Lp : (pe < len)%nat) by (apply nth_error_Some; congruence).
          assert (X3 : avar a3 s = Some (pl pe)) by (look H3).
          assert (Z3 : forall z, z <> f -> z <> s -> avar a3 z = avar a1 z) by (intros z Z1 Z2; rewrite H3; destruct (Nat.eqb_spec f z); [congruence|look H2]).
          assert (B : exists a4, aprun strm a3 (if f_adv k then pcmd (OInc s) else pval tt) = Ok (a4, tt) /\ five a4 (S n) et c pe (if f_adv k then S pe else pe) pe pc1).
          { destruct (f_adv k).
            - destruct (do_inc a3 s pe X3 Lp) as (a4 & R4 & L4 & H4). exists a4. split; [exact R4|].
              assert (Z4 : forall z, z <> f -> z <> s -> avar a4 z = avar a1 z) by (intros z Z1 Z2; rewrite H4; destruct (Nat.eqb_spec s z); [congruence|now apply Z3]).
              assert (avar a4 f = Some (pl pe)) by (rewrite H4; destruct (Nat.eqb_spec s f); [lia|]; look H3). assert (avar a4 s = Some (pl (S pe))) by (look H4).
              unfold five, three, apart2. rewrite (Z4 e), (Z4 et), (Z4 c) by lia. repeat split; auto; try lia; congruence.
            - exists a3. split; [reflexivity|]. assert (avar a3 f = Some (pl pe)) by (look H3). unfold five, three, apart2. rewrite (Z3 e), (Z3 et), (Z3 c) by lia. repeat split; auto; try lia; congruence. }
          destruct B as (a4 & R4 & F4). rewrite (aprun_step _ _ _ _ _ _ R4).
          destruct (pleave_ok ({| p_id := npos k; p_uid := npos k; p_bol := ch =? 10; p_state := p_state q; p_stack := p_stack q |}, @None err, S n) _ _ _ _ _ _ _ _ F4) as (a5 & R5 & T).
          rewrite S4, S5 in R5. exists a5. eexists. exists (S n). split; [exact R5|]. split; [unfold same_as; cbn; auto|exact T].
    Qed.
    Theorem plookup_ok fuel inner k m r q a n r' o : lookup fuel inner k m strm r = Ok (r', o) -> same_as r q -> three a n (r_first r) (r_second r) ->
      exists a' q' n', aprun strm a (plookup fuel inner k m f s e q n) = Ok (a', (q', o, n')) /\ same_as r' q' /\ three a' n' (r_first r') (r_second r').
    Proof.
      intros E SA (T1 & T2 & T3 & T4 & T5 & T6 & T7 & T8 & T9). unfold lookup in E. unfold plookup.
      destruct (do_copy a s _ T2) as (a1 & R1 & L1 & H1). rewrite (aprun_step _ _ _ _ _ _ R1). rewrite T4 in *.
      assert (X1 : avar a1 s = Some (pl (r_second r))) by (look H1). destruct (do_copy a1 s _ X1) as (a2 & R2 & L2 & H2). rewrite (aprun_step _ _ _ _ _ _ R2). rewrite L1 in *.
      assert (Z2 : forall z, (z < n)%nat -> avar a2 z = avar a z) by (intros z Hz; rewrite H2; destruct (Nat.eqb_spec z (S n)); [lia|]; look H1).
      assert (Y2 : avar a2 (S n) = Some (pl (r_second r))) by (look H2). assert (W2 : avar a2 n = Some (pl (r_second r))) by (rewrite H2; destruct (Nat.eqb_spec n (S n)); [lia|]; look H1).
      destruct (do_assign a2 f (S n) (r_first r) (r_second r)) as (a3 & R3 & L3 & H3); [now rewrite Z2|exact Y2|]. rewrite (aprun_step _ _ _ _ _ _ R3).
      eapply pagain_ok; [exact E|destruct SA as (S1 & S2 & S3 & S4 & S5); unfold same_as; cbn; auto|]. cbn [r_first r_second].
      assert (Z3 : forall z, z <> f -> avar a3 z = avar a2 z) by (intros z Hz; look H3). assert (avar a3 f = Some (pl (r_second r))) by (look H3).
      unfold five, three, apart2. rewrite (Z3 s), (Z3 e), (Z3 n), (Z3 (S n)) by lia. rewrite (Z2 s), (Z2 e) by lia. repeat split; auto; lia.
    Qed.
    (** str() *)
    Lemma pread_ok x y pq fuel : x <> y -> forall a n pf ps p, three a n pf ps -> avar a x = Some (pl p) -> avar a y = Some (pl pq) -> x <> f -> x <> s -> x <> e -> (p <= pq <= len)%nat -> (pq - p <= fuel)%nat ->
      exists a', aprun strm a (pread fuel x y) = Ok (a', firstn (pq - p) (skipn p strm)) /\ three a' n pf ps /\ avar a' x = Some (pl pq) /\ avar a' y = Some (pl pq).
    Proof.
      intros XY. induction fuel as [|fuel IH]; intros a n pf ps p T X Y N1 N2 N3 L Lf; cbn [pread];
        (assert (Q : aprun strm a (peq x y) = Ok (a, Nat.eqb p pq)) by (apply do_eq; auto; lia)); rewrite (aprun_step _ _ _ _ _ _ Q).
      - assert (p = pq) as -> by lia. rewrite Nat.eqb_refl, Nat.sub_diag. exists a. auto.
      - destruct (Nat.eqb_spec p pq) as [->|N]; [rewrite Nat.sub_diag; exists a; auto|].
        destruct (nth_error strm p) as [c|] eqn:Ec; [|apply nth_error_None in Ec; lia]. rewrite (aprun_step _ _ _ _ _ _ (do_get a x p c X Ec)).
        destruct (do_inc a x p X ltac:(lia)) as (a1 & R1 & L1 & H1). rewrite (aprun_step _ _ _ _ _ _ R1).
        destruct (IH a1 n pf ps (S p)) as (a2 & R2 & T2 & X2 & Y2); try (look H1); try lia.
        { destruct T as (T1 & T2 & T3 & T4 & T5 & T6 & T7 & T8 & T9). unfold three. repeat split; auto; try (look H1); congruence. }
        rewrite (aprun_step _ _ _ _ _ _ R2). exists a2. split; [|auto]. replace (pq - p)%nat with (S (pq - S p)) by lia.
        assert (E : skipn p strm = c :: skipn (S p) strm).
        { clear - Ec. revert p Ec. induction strm as [|b l IHl]; intros [|p] E; cbn in *; try discriminate; [now injection E as ->|]. now apply IHl. }
        rewrite E. reflexivity.
    Qed.
    Lemma pstr_ok fuel a n pf ps : three a n pf ps -> (pf <= ps)%nat -> (len <= fuel)%nat ->
      exists a', aprun strm a (pstr fuel f s n) = Ok (a', firstn (ps - pf) (skipn pf strm)) /\ three a' (S (S n)) pf ps.
    Proof.
      intros (T1 & T2 & T3 & T4 & T5 & T6 & T7 & T8 & T9) L Lf. unfold pstr.
      destruct (do_copy a f _ T1) as (a1 & R1 & L1 & H1). rewrite (aprun_step _ _ _ _ _ _ R1). rewrite T4 in *.
      assert (X1 : avar a1 s = Some (pl ps)) by (look H1). destruct (do_copy a1 s _ X1) as (a2 & R2 & L2 & H2). rewrite (aprun_step _ _ _ _ _ _ R2). rewrite L1 in *.
      assert (Z2 : forall z, (z < n)%nat -> avar a2 z = avar a z) by (intros z Hz; rewrite H2; destruct (Nat.eqb_spec z (S n)); [lia|]; look H1).
      assert (Y2 : avar a2 (S n) = Some (pl ps)) by (look H2). assert (W2 : avar a2 n = Some (pl pf)) by (rewrite H2; destruct (Nat.eqb_spec n (S n)); [lia|]; look H1).
      destruct (pread_ok n (S n) ps fuel ltac:(lia) a2 (S (S n)) pf ps pf) as (a3 & R3 & (U1 & U2 & U3 & U4 & U5 & U6 & U7 & U8 & U9) & X3 & Y3); auto; try lia.
      { unfold three. rewrite !Z2 by lia. repeat split; auto; lia. }
      rewrite (aprun_step _ _ _ _ _ _ R3). destruct (do_destroy a3 n _ X3) as (a4 & R4 & L4 & H4). rewrite (aprun_step _ _ _ _ _ _ R4).
      destruct (do_destroy a4 (S n) ps) as (a5 & R5 & L5 & H5); [look H4|]. rewrite (aprun_step _ _ _ _ _ _ R5). exists a5. split; [reflexivity|].
      assert (Z5 : forall z, (z < n)%nat -> avar a5 z = avar a3 z) by (intros z Hz; rewrite H5; destruct (Nat.eqb_spec (S n) z); [lia|]; look H4).
      unfold three. rewrite !Z5 by lia. repeat split; auto; lia.
    Qed.
    (** What is seen of a token: its ids and its text. *)
    Definition worded (r : results) : word := (r_id r, r_uid r, firstn (r_second r - r_first r) (skipn (r_first r) strm)).
    Theorem pvisit_ok fuel inner k m cnt : (len <= fuel)%nat -> forall r live q a n l o, visit cnt fuel inner k m strm {| it_res := r; it_live := live |} = Ok (l, o) ->
      Forall (fun x => (r_first x <= r_second x)%nat) l -> same_as r q -> three a n (r_first r) (r_second r) ->
      exists a', aprun strm a (pvisit cnt fuel inner k m f s e q live n) = Ok (a', (map worded l, o)).
    Proof.
      intros Lf. assert (EQ : forall r live, iter_eqb {| it_res := r; it_live := live |} (iter_end k) = negb live) by (intros r []; reflexivity).
      induction cnt as [|cnt IH]; intros r live q a n l o E FA SA T; cbn [visit pvisit] in *; rewrite EQ in E; destruct live; cbn [negb] in E; try discriminate;
        try (injection E as <- <-; exists a; reflexivity).
      unfold iter_lookup in E. cbn [it_live it_res] in E. destruct (lookup fuel inner k m strm r) as [[r' o1]| | |] eqn:EL; try discriminate. cbn [bind] in E.
      assert (LE : (r_first r <= r_second r)%nat).
      { destruct o1 as [er|]; [injection E as <- <-; now inversion FA|]. cbn in E. destruct (visit cnt fuel inner k m strm _) as [[l1 o3]| | |]; try discriminate. injection E as <- <-. now inversion FA. }
      destruct (pstr_ok fuel a n _ _ T LE Lf) as (a1 & R1 & T1). rewrite (aprun_step _ _ _ _ _ _ R1).
      destruct (plookup_ok fuel inner k m r q a1 (S (S n)) r' o1 EL SA T1) as (a2 & q' & n' & R2 & SA' & T2). rewrite (aprun_step _ _ _ _ _ _ R2).
      assert (W : (p_id q, p_uid q, firstn (r_second r - r_first r) (skipn (r_first r) strm)) = worded r) by (destruct SA as (-> & -> & _); reflexivity).
      destruct o1 as [er|]; cbn [bind] in E.
      - injection E as <- <-. exists a2. cbn [aprun pval bind map]. now rewrite W.
      - destruct (visit cnt fuel inner k m strm _) as [[l1 o3]| | |] eqn:EV; try discriminate. cbn in E. injection E as <- <-.
        assert (Q : aprun strm a2 (peq f e) = Ok (a2, Nat.eqb (r_first r') len)) by (destruct T2 as (U1 & U2 & U3 & _ & _ & _ & _ & U8 & _); apply do_eq; auto).
        rewrite (aprun_step _ _ _ _ _ _ Q). destruct (IH r' _ q' a2 n' l1 o3 EV) as (a3 & R3); [now inversion FA|exact SA'|exact T2|].
        rewrite (aprun_step _ _ _ _ _ _ R3). exists a3. cbn [aprun pval bind map]. now rewrite W.
    Qed.
  End Vars.
  Theorem pvisit_all_ok cnt fuel inner k m bol state l o : strm <> [] -> (len <= fuel)%nat -> visit_all cnt fuel inner k m strm 0 bol state = Ok (l, o) ->
    Forall (fun x => (r_first x <= r_second x)%nat) l ->
    exists a', aprun strm ideal_start (pvisit_all cnt fuel inner k m bol state) = Ok (a', (map worded l, o)).
  Proof.
    intros NE Lf E FA. assert (L0 : (0 < len)%nat) by (destruct strm; [congruence|cbn; lia]).
    set (a4 := {| a_vars := [Some AMaster; Some AEnd; Some (AAt 0); Some (AAt 0); Some AEnd]; a_moved := false |}).
    assert (R0 : forall g : unit -> prog (list word * option err), aprun strm ideal_start (go _ <- pcmd ODefault; go _ <- pcmd (OCopy 0); go _ <- pcmd (OCopy 0); go _ <- pcmd (OCopy 1); g tt) = aprun strm a4 (g tt)).
    { intros g. cbn. unfold place_of, avar, first_place, aadd. destruct strm; [congruence|]. reflexivity. }
    unfold pvisit_all. rewrite (R0 (fun _ => go p <- plookup fuel inner k m 2 3 4 {| p_id := 0; p_uid := npos k; p_bol := bol; p_state := state; p_stack := [] |} 5; _)). clear R0.
    assert (T : three 2 3 4 a4 5 0 0).
    { unfold three. rewrite pl_end, pl_at by exact L0. repeat split; lia. }
    unfold visit_all, iter_begin, iter_lookup in E. cbn [it_live it_res] in E.
    destruct (lookup fuel inner k m strm (new_results k 0 bol state)) as [[r' o1]| | |] eqn:EL; try discriminate. cbn [bind] in E.
    destruct (plookup_ok 2 3 4 ltac:(lia) fuel inner k m _ {| p_id := 0; p_uid := npos k; p_bol := bol; p_state := state; p_stack := [] |} a4 5 r' o1 EL ltac:(unfold same_as; cbn; auto) T) as (a2 & q' & n' & R2 & SA' & T2).
    rewrite (aprun_step _ _ _ _ _ _ R2). destruct o1 as [er|]; cbn [bind] in E.
    - injection E as <- <-. exists a2. reflexivity.
    - assert (Q : aprun strm a2 (peq 2 4) = Ok (a2, Nat.eqb (r_first r') len)) by (destruct T2 as (U1 & U2 & U3 & _ & _ & _ & _ & U8 & _); apply do_eq; auto).
      rewrite (aprun_step _ _ _ _ _ _ Q). eapply (pvisit_ok 2 3 4 ltac:(lia)); eauto.
  Qed.
  Theorem stream_words_ok size incr cnt fuel inner k m l o : (1 <= size)%nat -> (1 <= incr)%nat -> strm <> [] -> (len <= fuel)%nat -> visit_all cnt fuel inner k m strm 0 true 0 = Ok (l, o) ->
    Forall (fun x => (r_first x <= r_second x)%nat) l -> stream_words false strm size incr cnt fuel inner k m = Ok (map worded l, o).
  Proof.
    intros H1 H2 NE Lf E FA. destruct (pvisit_all_ok cnt fuel inner k m true 0 l o NE Lf E FA) as (a' & R).
    destruct (start_ok strm size incr H1 H2) as (w & ES & IV). unfold stream_words. rewrite ES. cbn [bind].
    destruct (prun_ok strm _ _ _ _ _ IV R) as (w' & -> & _). reflexivity.
  Qed.
  Theorem stream_words_strict size incr cnt fuel inner k m : stream_words true strm size incr cnt fuel inner k m = stream_words false strm size incr cnt fuel inner k m \/
    stream_words true strm size incr cnt fuel inner k m = UB.
  Proof.
    unfold stream_words. destruct (start strm size incr) as [w| | |]; cbn [bind]; auto. destruct (prun_strict (pvisit_all cnt fuel inner k m true 0) w) as [->| ->]; auto.
  Qed.
End Places.
