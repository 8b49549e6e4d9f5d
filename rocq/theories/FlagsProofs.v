(** Unused feature flags change nothing. *)
From Verif Require Import Base StateMachine Lookup TableSpec LookupSpec LookupProofs FlagsSpec.
From Coq Require Import Bool.
Local Open Scope N_scope.

Lemma next_bytes_lt k t n : twf k t n -> forall sh c p s0 st q, p < n -> next_bytes t c sh p s0 = Some (st, q) ->
  q < n /\ (p <> 0 -> q <> 0) /\ (st <> 0 -> q = st).
Proof.
  intros TW. destruct TW as (_ & _ & _ & _ & _ & CO & T & _). rewrite Forall_forall in CO.
  induction sh as [|sh IH]; intros c p s0 st q L E; cbn [next_bytes] in E;
    (destruct (column t _) as [col|] eqn:C; [|discriminate]); (destruct (cell t p col) as [x|] eqn:X; [|discriminate]);
    (assert (B : ix_dead <= col < t_width t) by (apply CO; eapply nth_error_In; exact C));
    (assert (LX : x < n) by (eapply T; [exact L| |exact X]; unfold ix_dead, ix_eol in *; lia));
    (destruct (N.eqb_spec x 0) as [Z|Z]; [injection E as <- <-; split; [exact L|split; [auto|congruence]]|]).
  - injection E as <- <-. auto.
  - destruct (IH c x x st q LX E) as (H1 & H2 & H3). auto.
Qed.
Lemma next_char_lt k t n c p st q : twf k t n -> p < n -> next_char k t c p = Some (st, q) ->
  q < n /\ (p <> 0 -> q <> 0) /\ (st <> 0 -> q = st).
Proof.
  intros TW L E. unfold next_char in E. destruct (c_bytes k =? 1); [|eapply next_bytes_lt; eauto].
  destruct (column t c) as [col|] eqn:C; [|discriminate]. destruct (cell t p col) as [x|] eqn:X; [|discriminate].
  destruct TW as (_ & _ & _ & _ & _ & CO & T & _). rewrite Forall_forall in CO.
  assert (B : ix_dead <= col < t_width t) by (apply CO; eapply nth_error_In; exact C).
  assert (LX : x < n) by (eapply T; [exact L| |exact X]; unfold ix_dead, ix_eol in *; lia).
  injection E as <- <-. destruct (N.eqb_spec x 0); auto. split; [exact L|]. split; [auto|congruence].
Qed.

Section Flags.
  Variables (k k' : cfg) (m : internals) (inp : list N).
  Hypothesis IF : idle_flags k k' m.
  Hypothesis MW : mwf k m.

  Section Table.
    Variables (st n : N) (t : table).
    Hypothesis GT : get_table m st = Some t.
    Hypothesis TW : twf k t n.
    Hypothesis ROWS : forall row, row < n -> accepting t row ->
        (exists v, cell t row ix_next = Some v /\
           (v < N.of_nat (length (i_dfa m)) \/
            (row <> 0 /\ f_rec k = true /\ exists e, cell t row ix_end = Some e /\ N.land e sb_pop <> 0))) /\
        (exists v, cell t row ix_push = Some v /\ (v = npos k \/ v < N.of_nat (length (i_dfa m)))).

    Record lrel (a b : lstate) : Prop := {
      la_ptr : ls_ptr a = ls_ptr b;
      la_row : ls_ptr a < n /\ ls_ptr a <> 0;
      la_end : ls_end a = ls_end b;
      la_id : ls_id a = ls_id b;
      la_uid : ls_uid a = ls_uid b;
      la_bol : f_bol k = true -> f_bol k' = true -> ls_bol a = ls_bol b /\ ls_end_bol a = ls_end_bol b;
      la_eol : f_eol k = f_eol k' -> ls_eol a = ls_eol b;
      la_pop : f_rec k = f_rec k' -> ls_pop a = ls_pop b /\ ls_push a = ls_push b;
      la_rec : f_rec k <> f_rec k' -> ls_end a = true ->
        (f_rec k = true -> ls_pop a = false /\ ls_push a = npos k) /\ (f_rec k' = true -> ls_pop b = false /\ ls_push b = npos k);
      la_start : f_multi k = f_multi k' -> ls_start a = ls_start b;
      la_st : one_state m -> (f_multi k = false -> ls_start a = 0) /\ (f_multi k' = false -> ls_start b = 0);
      la_push : one_state m -> ls_end a = true -> f_rec k = true -> ls_push a = npos k \/ ls_push a = 0;
      la_zero : one_state m -> ls_end a = true ->
        (f_rec k = f_rec k' /\ f_rec k = true /\ ls_pop a = true) \/ (ls_start a = 0 /\ ls_start b = 0)
    }.

    Lemma cell_five row : row < n -> exists v, cell t row ix_eol = Some v.
    Proof. intros L. apply (cell_some k t n TW); [exact L|]. destruct TW as (_ & _ & W & _). unfold ix_trans, ix_eol in *. lia. Qed.
    Lemma five_zero row v : f_eol k <> f_eol k' -> cell t row ix_eol = Some v -> v = 0.
    Proof. intros D C. destruct (id_eol _ _ _ IF) as [H|H]; [congruence|]. eapply H; eauto. Qed.
    Lemma rec_row row e : f_rec k <> f_rec k' -> row <> 0 -> cell t row ix_end = Some e -> e <> 0 ->
      N.land e sb_pop = 0 /\ cell t row ix_push = Some (npos k).
    Proof.
      intros D R E NZ. destruct (id_rec _ _ _ IF) as [H|H]; [congruence|].
      destruct (H st t row GT R) as ((e' & E' & Z) & P); [exists e; auto|]. split; [congruence|exact P].
    Qed.
    Lemma push_row row e v : one_state m -> row < n -> cell t row ix_end = Some e -> e <> 0 -> cell t row ix_push = Some v -> v = npos k \/ v = 0.
    Proof.
      intros H L E NZ V. unfold one_state in H. destruct (ROWS row L) as (_ & v' & V' & B); [exists e; auto|].
      rewrite H in B. replace v' with v in B by congruence. lia.
    Qed.
    Lemma next_row row e v : one_state m -> row < n -> row <> 0 -> cell t row ix_end = Some e -> e <> 0 -> cell t row ix_next = Some v ->
      (f_rec k = f_rec k' /\ f_rec k = true /\ N.land e sb_pop <> 0) \/ v = 0.
    Proof.
      intros H L R E NZ V. unfold one_state in H.
      destruct (ROWS row L) as ((v' & V' & [B|(_ & F & e' & E' & P)]) & _); [exists e; auto| |].
      - right. rewrite H in B. replace v' with v in B by congruence. lia.
      - left. replace e' with e in P by congruence. split; [|auto].
        destruct (bool_dec (f_rec k) (f_rec k')) as [Q|Q]; [exact Q|]. destruct (rec_row row e Q R E NZ). congruence.
    Qed.
    Lemma diff (a b : bool) : a <> b -> a = true \/ b = true. Proof. destruct a, b; auto. Qed.

    Lemma init_rel bol bol' a : (f_bol k = true -> f_bol k' = true -> bol = bol') -> (one_state m -> st = 0) -> ls_init t bol st = Some a ->
      exists b, ls_init t bol' st = Some b /\ lrel a b.
    Proof.
      intros B S E. unfold ls_init in *. destruct (cell t 1 ix_end) as [e|] eqn:C1; [|discriminate].
      destruct (cell t 1 ix_id) as [i|]; [|discriminate]. destruct (cell t 1 ix_uid) as [u|]; [|discriminate].
      destruct (cell t 1 ix_push) as [p|] eqn:C4; [|discriminate]. injection E as <-. eexists. split; [reflexivity|].
      assert (N1 : 1 < n) by (destruct TW; lia).
      constructor; cbn; auto; try (split; [exact N1|discriminate]).
      - intros D NE. destruct (N.eqb_spec e 0); [discriminate|]. destruct (rec_row 1 e D ltac:(discriminate) C1 n0) as (Z & P).
        rewrite Z. replace p with (npos k) by congruence. auto.
      - intros H NE _. destruct (N.eqb_spec e 0); [discriminate|]. eapply push_row; eauto.
    Qed.
    Lemma start_rel a b a' : lrel a b -> bol_start k t a = Some a' -> exists b', bol_start k' t b = Some b' /\ lrel a' b'.
    Proof.
      intros R E. unfold bol_start in *. destruct (cell t 0 0) as [x|] eqn:C.
      2: { destruct (cell_some k t n TW 0 0) as (v & V); [destruct TW; lia|destruct TW as (_ & _ & W & _); unfold ix_trans in W; lia|congruence]. }
      assert (LX : x < n) by (destruct TW as (_ & _ & _ & _ & _ & _ & _ & B0); auto).
      assert (Q : (f_bol k && ls_bol a = f_bol k' && ls_bol b) \/ x = 0).
      { destruct (bool_dec (f_bol k) (f_bol k')) as [Q|Q].
        - left. destruct (f_bol k) eqn:F; rewrite <- Q; [|reflexivity]. cbn. apply (la_bol _ _ R); auto.
        - right. destruct (id_bol _ _ _ IF) as [H|H]; [congruence|]. specialize (H st t GT). congruence. }
      destruct (N.eqb_spec x 0) as [->|NX].
      - assert (a' = a) by (destruct (f_bol k && ls_bol a); congruence). subst a'. exists b. split; [destruct (f_bol k' && ls_bol b); reflexivity|exact R].
      - destruct Q as [Q|Q]; [|congruence]. rewrite <- Q. destruct (f_bol k && ls_bol a); [|injection E as <-; eauto].
        injection E as <-. eexists. split; [reflexivity|]. destruct R. constructor; cbn; auto.
    Qed.
    Lemma end_rel a b et c a' et' : lrel a b -> end_state k t a et c = Some (a', et') -> exists b', end_state k' t b et c = Some (b', et') /\ lrel a' b'.
    Proof.
      intros R E. unfold end_state in *. rewrite <- (la_ptr _ _ R). destruct (cell t (ls_ptr a) ix_end) as [e|] eqn:C1; [|discriminate].
      destruct (N.eqb_spec e 0) as [Z|Z]; [injection E as <- <-; eauto|].
      destruct (cell t (ls_ptr a) ix_id) as [i|]; [|discriminate]. destruct (cell t (ls_ptr a) ix_uid) as [u|]; [|discriminate].
      destruct (cell t (ls_ptr a) ix_push) as [p|] eqn:C4; [|discriminate]. destruct (cell t (ls_ptr a) ix_next) as [x|] eqn:C5; [|discriminate].
      injection E as <- <-. eexists. split; [reflexivity|]. destruct (la_row _ _ R) as (L & NZ). constructor; cbn; try apply R; auto.
      - intros F F'. rewrite F, F'. destruct (la_bol _ _ R F F'). auto.
      - intros F. pose proof (la_pop _ _ R F) as Q. rewrite <- F. clear ROWS. destruct (f_rec k); [auto|exact Q].
      - intros D _. destruct (rec_row _ e D NZ C1 Z) as (H1 & H2). rewrite H1. replace p with (npos k) by congruence.
        split; intros F; rewrite F; auto.
      - intros F. pose proof (la_start _ _ R F) as Q. rewrite <- F. destruct (f_multi k); [auto|exact Q].
      - intros D. destruct (la_st _ _ R D). split; intros F; rewrite F; auto.
      - intros D _ F. rewrite F. eapply push_row; eauto.
      - intros D _. destruct (next_row _ e x D L NZ C1 Z C5) as [(H1 & H2 & H3)|H].
        + left. split; [auto|]. split; [auto|]. rewrite H2. destruct (N.eqb_spec (N.land e sb_pop) 0); [congruence|reflexivity].
        + right. subst x. destruct (la_st _ _ R D) as (S1 & S2). split; [destruct (f_multi k); auto|destruct (f_multi k'); auto].
    Qed.
    Lemma set_ptr_rel a b p : lrel a b -> p < n -> p <> 0 -> lrel (set_ptr a p) (set_ptr b p).
    Proof. intros R L NZ. destruct R. constructor; cbn; auto. Qed.
    Lemma set_eol_rel a b e : lrel a b -> lrel (set_eol a e) (set_eol b e).
    Proof. intros R. destruct R. constructor; cbn; auto. Qed.
    Lemma lone_eol_a a b e : f_eol k <> f_eol k' -> lrel a b -> lrel (set_eol a e) b.
    Proof. intros D R. destruct R. constructor; cbn; auto. congruence. Qed.
    Lemma lone_eol_b a b e : f_eol k <> f_eol k' -> lrel a b -> lrel a (set_eol b e).
    Proof. intros D R. destruct R. constructor; cbn; auto. congruence. Qed.
    Lemma eol_rel a b c a' y : lrel a b -> is_eol k t c a = Some (y, a') -> exists b', is_eol k' t c b = Some (y, b') /\ lrel a' b'.
    Proof.
      intros R E. unfold is_eol in *. rewrite <- (la_ptr _ _ R). destruct (la_row _ _ R) as (L & NZ).
      destruct (cell_five _ L) as (v & V). rewrite V in *. destruct (bool_dec (f_eol k) (f_eol k')) as [Q|Q].
      - rewrite <- Q. destruct (f_eol k); [|injection E as <- <-; eauto].
        destruct (N.eqb_spec v 0) as [Z|Z]; cbn [negb andb] in *; [injection E as <- <-; eauto using set_eol_rel|].
        assert (LV : v < n) by (eapply target_ok; [exact TW|exact L| |exact V]; destruct TW as (_ & _ & W & _); unfold ix_trans, ix_eol in *; lia).
        destruct ((c =? 13) || (c =? 10)); injection E as <- <-; eauto using set_ptr_rel, set_eol_rel.
      - assert (v = 0) by (eapply five_zero; eauto). subst v. cbn [N.eqb negb andb] in *.
        destruct (f_eol k) eqn:F1, (f_eol k') eqn:F2; try congruence; injection E as <- <-; eexists; (split; [reflexivity|]);
          [apply lone_eol_a|apply lone_eol_b]; auto; congruence.
    Qed.
    Lemma check_rel a b et c a' et' : lrel a b -> check_eol k t inp a et c = Some (a', et') -> exists b', check_eol k' t inp b et c = Some (b', et') /\ lrel a' b'.
    Proof.
      intros R E. unfold check_eol in *. rewrite <- (la_ptr _ _ R). destruct (la_row _ _ R) as (L & NZ).
      destruct (cell_five _ L) as (v & V). rewrite V in *. unfold npos in *. rewrite <- (id_bits _ _ _ IF).
      destruct (bool_dec (f_eol k) (f_eol k')) as [Q|Q].
      - rewrite <- Q. rewrite <- (la_eol _ _ R Q). destruct (f_eol k && _ && _); [|injection E as <- <-; eauto].
        destruct (N.eqb_spec v 0) as [Z|Z]; [injection E as <- <-; eauto using set_eol_rel|].
        assert (LV : v < n) by (eapply target_ok; [exact TW|exact L| |exact V]; destruct TW as (_ & _ & W & _); unfold ix_trans, ix_eol in *; lia).
        eapply end_rel; [|exact E]. apply set_ptr_rel; auto. now apply set_eol_rel.
      - assert (v = 0) by (eapply five_zero; eauto). subst v. cbn [N.eqb] in *.
        destruct (f_eol k && _ && _), (f_eol k' && _ && _); injection E as <- <-; eexists; (split; [reflexivity|]);
          auto using set_eol_rel, lone_eol_a, lone_eol_b.
    Qed.
    Lemma scan_rel f : forall c et a b a' et' c', lrel a b -> scan f k t inp c et a = Ok (a', et', c') ->
      exists b', scan f k' t inp c et b = Ok (b', et', c') /\ lrel a' b'.
    Proof.
      induction f as [|f IH]; intros c et a b a' et' c' R E; cbn [scan] in *; (destruct (Nat.eqb c (length inp)); [injection E as <- <- <-; eauto|]); [discriminate|].
      destruct (nth_error inp c) as [x|]; [|discriminate]. destruct (is_eol k t x a) as [[y a1]|] eqn:I; [|discriminate].
      destruct (eol_rel _ _ _ _ _ R I) as (b1 & I' & R1). rewrite I'. destruct y.
      - destruct (end_state k t a1 et c) as [[a2 et2]|] eqn:N2; [|discriminate].
        destruct (end_rel _ _ _ _ _ _ R1 N2) as (b2 & N2' & R2). rewrite N2'. eapply IH; eauto.
      - assert (NC : next_char k' t x (ls_ptr b1) = next_char k t x (ls_ptr a1)).
        { rewrite (la_ptr _ _ R1). unfold next_char. now rewrite (id_bytes _ _ _ IF). }
        rewrite NC. destruct (next_char k t x (ls_ptr a1)) as [[z p]|] eqn:NX; [|discriminate].
        destruct (la_row _ _ R1) as (L & NZ). destruct (next_char_lt _ _ _ _ _ _ _ TW L NX) as (LP & PZ & _).
        assert (R2 := set_ptr_rel _ _ p R1 LP (PZ NZ)).
        assert (R3 : lrel (if f_bol k then set_bol (set_ptr a1 p) (x =? 10) else set_ptr a1 p) (if f_bol k' then set_bol (set_ptr b1 p) (x =? 10) else set_ptr b1 p)).
        { clear E. destruct R2. destruct (f_bol k) eqn:F, (f_bol k') eqn:F'; constructor; cbn in *; auto; try congruence.
          intros _ _. split; [reflexivity|]. now apply la_bol0. }
        destruct (z =? 0).
        + unfold npos in *. rewrite <- (id_bits _ _ _ IF). destruct (is_eol k t (npos_of (c_bits k)) _) as [[y a4]|] eqn:I4; [|discriminate].
          destruct (eol_rel _ _ _ _ _ R3 I4) as (b4 & I4' & R4). rewrite I4'. injection E as <- <- <-. eauto.
        + destruct (end_state k t _ et (S c)) as [[a4 et4]|] eqn:N4; [|discriminate].
          destruct (end_rel _ _ _ _ _ _ R3 N4) as (b4 & N4' & R4). rewrite N4'. eapply IH; eauto.
    Qed.
    Lemma attempt_rel f bol bol' c a et : (f_bol k = true -> f_bol k' = true -> bol = bol') -> (one_state m -> st = 0) ->
      attempt f k m inp bol st c = Ok (a, et) -> exists b, attempt f k' m inp bol' st c = Ok (b, et) /\ lrel a b.
    Proof.
      intros B S E. unfold attempt in *. rewrite GT in *. destruct (ls_init t bol st) as [a0|] eqn:I; [|discriminate].
      destruct (init_rel _ _ _ B S I) as (b0 & I' & R0). rewrite I'. destruct (bol_start k t a0) as [a1|] eqn:T; [|discriminate].
      destruct (start_rel _ _ _ R0 T) as (b1 & T' & R1). rewrite T'. destruct (scan f k t inp c c a1) as [[[a2 et2] c2]| | |] eqn:SC; try discriminate. cbn [bind] in E.
      destruct (scan_rel _ _ _ _ _ _ _ _ R1 SC) as (b2 & SC' & R2). rewrite SC'. cbn [bind].
      destruct (check_eol k t inp a2 et2 c2) as [[a3 et3]|] eqn:CE; [|discriminate]. injection E as <- <-.
      destruct (check_rel _ _ _ _ _ _ R2 CE) as (b3 & CE' & R3). rewrite CE'. eauto.
    Qed.
  End Table.

  Lemma table_known st t : get_table m st = Some t -> exists n, twf k t n /\ forall row, row < n -> accepting t row ->
        (exists v, cell t row ix_next = Some v /\
           (v < N.of_nat (length (i_dfa m)) \/
            (row <> 0 /\ f_rec k = true /\ exists e, cell t row ix_end = Some e /\ N.land e sb_pop <> 0))) /\
        (exists v, cell t row ix_push = Some v /\ (v = npos k \/ v < N.of_nat (length (i_dfa m)))).
  Proof.
    intros G. assert (L : st < N.of_nat (length (i_dfa m))).
    { unfold get_table in G. destruct (nth_error (i_lookup m) (N.to_nat st)); [|discriminate].
      destruct (nth_error (i_alphabet m) (N.to_nat st)); [|discriminate].
      destruct (nth_error (i_dfa m) (N.to_nat st)) eqn:E; [|discriminate].
      assert (H : (N.to_nat st < length (i_dfa m))%nat) by (apply nth_error_Some; congruence). lia. }
    destruct (MW st L) as (t' & n & G' & T & H). replace t' with t in * by congruence. eauto.
  Qed.
  (** With one start state there is no other to go to. *)
  Definition inv (r : results) : Prop := one_state m -> r_state r = 0 /\ Forall (fun p => fst p = 0) (r_stack r).
  Definition near (a b : results) : Prop :=
    r_first a = r_first b /\ r_second a = r_second b /\ r_state a = r_state b /\ r_stack a = r_stack b /\
    (f_bol k = true -> f_bol k' = true -> r_bol a = r_bol b).

  Lemma pop_rel n a b stack s1 stack1 : lrel n a b -> ls_end a = true -> (one_state m -> Forall (fun p : N * N => fst p = 0) stack) ->
    pop k a stack = Some (s1, stack1) -> exists s2, pop k' b stack = Some (s2, stack1) /\ (f_multi k = f_multi k' -> s1 = s2) /\
      (one_state m -> s1 = 0 /\ s2 = 0 /\ Forall (fun p : N * N => fst p = 0) stack1).
  Proof.
    intros R E S P. unfold pop in *. assert (NP : npos k' = npos k) by (unfold npos; now rewrite (id_bits _ _ _ IF)). rewrite NP.
    pose proof (la_zero _ _ _ R) as Z. pose proof (la_start _ _ _ R) as ST. pose proof (la_push _ _ _ R) as PU.
    rewrite <- (la_id _ _ _ R).
    destruct (bool_dec (f_rec k) (f_rec k')) as [Q|Q].
    - rewrite <- Q. destruct (la_pop _ _ _ R Q) as (P1 & P2). rewrite <- P1, <- P2. destruct (f_rec k) eqn:F.
      + destruct (ls_pop a) eqn:LP.
        * destruct stack as [|[x y] l]; [discriminate|]. injection P as <- <-. exists x. split; [auto|]. split; [auto|].
          intros H. specialize (S H). inversion S; subst. cbn in *. auto.
        * assert (Z' : one_state m -> ls_start a = 0 /\ ls_start b = 0).
          { intros H. destruct (Z H E) as [(_ & _ & X)|X]; [discriminate|exact X]. }
          destruct (N.eqb_spec (ls_push a) (npos k)) as [N|N]; cbn [negb] in *; injection P as <- <-; exists (ls_start b);
            (split; [reflexivity|]); (split; [exact ST|]); intros H; destruct (Z' H); repeat split; auto.
          constructor; [|auto]. cbn. destruct (PU H E eq_refl); congruence.
      + injection P as <- <-. exists (ls_start b). split; [auto|]. split; [exact ST|]. intros H.
        destruct (Z H E) as [(_ & X & _)|X]; [congruence|]. destruct X. auto.
    - destruct (la_rec _ _ _ R Q E) as (R1 & R2).
      assert (X : pop k a stack = Some (ls_start a, stack)).
      { unfold pop. destruct (f_rec k); [|reflexivity]. destruct (R1 eq_refl) as (-> & ->). now rewrite N.eqb_refl. }
      assert (Y : pop k' b stack = Some (ls_start b, stack)).
      { unfold pop. rewrite NP. destruct (f_rec k'); [|reflexivity]. destruct (R2 eq_refl) as (-> & ->). now rewrite N.eqb_refl. }
      unfold pop in X, Y. rewrite X in P. rewrite NP in Y. rewrite (la_id _ _ _ R), Y. injection P as <- <-. exists (ls_start b). split; [auto|]. split; [exact ST|].
      intros H. destruct (Z H E) as [(X' & _)|X']; [congruence|]. destruct X'. auto.
  Qed.
  Lemma pop_none n a b stack : lrel n a b -> ls_end a = true -> pop k a stack = None -> pop k' b stack = None.
  Proof.
    intros R E P. unfold pop in *. destruct (bool_dec (f_rec k) (f_rec k')) as [Q|Q].
    - rewrite <- Q. destruct (la_pop _ _ _ R Q) as (P1 & P2). rewrite <- P1. destruct (f_rec k); [|discriminate].
      destruct (ls_pop a); [destruct stack as [|[x y] l]; [reflexivity|discriminate]|]. destruct (negb _); discriminate.
    - destruct (la_rec _ _ _ R Q E) as (R1 & R2). destruct (f_rec k); [|discriminate]. destruct (R1 eq_refl) as (X1 & X2). rewrite X1, X2 in P.
      destruct (negb _); discriminate.
  Qed.
  Lemma eoi_rel n a b e stack : lrel n a b -> ls_end a = true -> is_id_eoi k' e b stack = is_id_eoi k e a stack.
  Proof.
    intros R E. unfold is_id_eoi. rewrite (la_id _ _ _ R). f_equal. destruct (bool_dec (f_rec k) (f_rec k')) as [Q|Q].
    - rewrite <- Q. now destruct (la_pop _ _ _ R Q) as (-> & _).
    - destruct (la_rec _ _ _ R Q E) as (R1 & R2). destruct (f_rec k), (f_rec k'); try reflexivity; try (destruct (R1 eq_refl) as (-> & _)); try (destruct (R2 eq_refl) as (-> & _)); reflexivity.
  Qed.

  Theorem again_rel inner : forall fuel r s curr r' o, near r s -> r_id r = r_id s -> r_uid r = r_uid s -> inv r ->
    again fuel inner k m inp r curr = Ok (r', o) ->
    exists s', again fuel inner k' m inp s curr = Ok (s', o) /\ alike k k' r' s'.
  Proof.
    assert (NP : npos k' = npos k) by (unfold npos; now rewrite (id_bits _ _ _ IF)).
    assert (SP : skip_id k' = skip_id k) by (unfold skip_id; now rewrite (id_bits _ _ _ IF)).
    induction fuel as [|f IH]; intros r s curr r' o NR I1 I2 IV E; cbn [again] in *; pose proof NR as (C1 & C2 & C3 & C4 & C5);
      (destruct (Nat.eqb curr (length inp)); [injection E as <- <-; eexists; split; [reflexivity|]; unfold alike; cbn; repeat split; auto|]); [discriminate|].
    destruct (attempt inner k m inp (r_bol r) (r_state r) curr) as [[a et]| | |] eqn:A; try discriminate. cbn [bind] in E.
    assert (G : exists t, get_table m (r_state r) = Some t) by (unfold attempt in A; destruct (get_table m (r_state r)); [eauto|discriminate]).
    destruct G as (t & G). destruct (table_known _ _ G) as (n & TW & RO).
    destruct (attempt_rel (r_state r) n t G TW RO inner (r_bol r) (r_bol s) curr a et C5 (fun H => proj1 (IV H)) A) as (b & B & R).
    rewrite <- C3, B. cbn [bind]. rewrite <- (la_end _ _ _ R). destruct (ls_end a) eqn:LE.
    - rewrite <- C4. destruct (pop k a (r_stack r)) as [[s1 st1]|] eqn:P.
      2: { rewrite (pop_none _ _ _ _ R LE P). injection E as <- <-. eexists. split; [reflexivity|]. unfold alike. repeat split; auto. }
      destruct (pop_rel _ _ _ _ _ _ R LE (fun H => proj2 (IV H)) P) as (s2 & P2 & S1 & S2). rewrite P2.
      rewrite (eoi_rel _ _ _ _ _ R LE), SP, <- (la_id _ _ _ R), <- (la_uid _ _ _ R).
      assert (EQ : (if f_multi k then s1 else r_state r) = (if f_multi k' then s2 else r_state r)).
      { destruct (id_multi _ _ _ IF) as [Q|Q]; [pose proof (S1 Q) as X; rewrite <- Q, X; reflexivity|].
        destruct (S2 Q) as (-> & -> & _). destruct (IV Q) as (-> & _). destruct (f_multi k), (f_multi k'); reflexivity. }
      assert (ZQ : one_state m -> (if f_multi k then s1 else r_state r) = 0).
      { intros Q. destruct (S2 Q) as (-> & _). destruct (IV Q) as (-> & _). now destruct (f_multi k). }
      assert (BQ : f_bol k = true -> f_bol k' = true -> (if f_bol k then ls_end_bol a else r_bol r) = (if f_bol k' then ls_end_bol b else r_bol s)).
      { intros F F'. rewrite F, F'. now apply (la_bol _ _ _ R). }
      destruct (ls_id a =? skip_id k); [|destruct (is_id_eoi k (i_eoi m) a st1)].
      + eapply IH; [| | | |exact E]; cbn; auto.
        * unfold near. cbn. repeat split; auto.
        * intros Q. cbn. split; [auto|]. now apply S2.
      + eapply IH; [| | | |exact E]; cbn; auto.
        * unfold near. cbn. repeat split; auto.
        * intros Q. cbn. split; [auto|]. now apply S2.
      + injection E as <- <-. eexists. split; [reflexivity|]. unfold alike. cbn. repeat split; auto.
    - destruct (nth_error inp et) as [c|]; [|discriminate]. injection E as <- <-. eexists. split; [reflexivity|].
      unfold alike. cbn. rewrite NP, (id_adv _ _ _ IF). repeat split; auto.
  Qed.
  Theorem flags_ok fuel inner r s r' o : alike k k' r s -> rwf m inp r -> lookup fuel inner k m inp r = Ok (r', o) ->
    exists s', lookup fuel inner k' m inp s = Ok (s', o) /\ alike k k' r' s'.
  Proof.
    intros (C1 & C2 & C3 & C4 & C5 & C6 & C7) (W1 & W2 & _) E. unfold lookup in *. rewrite <- C4.
    eapply again_rel; [| | | |exact E]; cbn; auto.
    - unfold near. cbn. auto 10.
    - intros Q. unfold one_state in Q. rewrite Q in *. cbn. split; [lia|]. eapply Forall_impl; [|exact W2]. cbn. intros. lia.
  Qed.
End Flags.
