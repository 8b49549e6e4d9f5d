(** Lexing with a machine built from any rules, $ and ^ anywhere. *)
From Verif Require Import Base StringToken StringTokenSpec StateMachine Slice ReToken DfaSpec Grammar Tree
  Parser Generator Build ParserTree ParserKeys ParserRule Lookup TableSpec LookupSpec LookupThms LookupTile
  RuleSpec BuildSpec BuildThms BuildLookup EolTable EolSpec EolBuild EolCheck.
Local Open Scope N_scope.

Lemma rdata_row r t row : rdata r t row -> rule_row t row r.
Proof.
  intros (v & gr & D1 & D2 & D3 & D4 & D5). exists (end_bits (end_info (rule_info r v) gr)). split; [auto|].
  destruct (end_bits_ok (end_info (rule_info r v) gr)) as [Q1 Q2]. split; [auto|]. split; [exact Q2|]. auto.
Qed.
Lemma table_lt k rs t n row col v : line_table k rs t n -> col < t_width t -> cell t row col = Some v -> row < n.
Proof.
  intros LT Hc E. destruct (N.lt_ge_cases row n) as [?|Hr]; [auto|]. exfalso. unfold cell in E.
  assert (X : nth_error (t_dfa t) (N.to_nat (row * t_width t + col)) = None).
  { apply nth_error_None. pose proof (lt_len _ _ _ _ LT). nia. }
  congruence.
Qed.

Section Machine.
  Variables (k : cfg) (g : gcfg) (R : grules) (m : internals).
  Hypothesis NP : npos k = gnpos g.
  Hypothesis MO : line_machine g R m.

  Lemma line_state st t : get_table m st = Some t ->
    exists gs n, In gs (gr_states R) /\ line_table g (gs_rules gs) t n.
  Proof.
    intros E. destruct MO as (_ & L & H & _).
    destruct (nth_error (gr_states R) (N.to_nat st)) as [gs|] eqn:Eg.
    - destruct (H st gs Eg) as (t' & n & E' & S). rewrite E in E'. injection E' as <-.
      exists gs, n. split; [eapply nth_error_In; eauto|auto].
    - exfalso. apply nth_error_None in Eg. unfold get_table in E.
      assert (X : nth_error (i_dfa m) (N.to_nat st) = None) by (apply nth_error_None; lia). rewrite X in E.
      destruct (nth_error (i_lookup m) (N.to_nat st)), (nth_error (i_alphabet m) (N.to_nat st)); discriminate.
  Qed.
  Lemma line_row rs t n row : line_table g rs t n -> row <> 0 -> accepting t row ->
    exists x, In x rs /\ rule_row t row x.
  Proof.
    intros LT R0 (e & Ee & He). pose proof (lt_width _ _ _ _ LT) as W. unfold ix_trans in W.
    assert (Hr : row < n) by (eapply table_lt; [exact LT| |exact Ee]; unfold ix_end; lia).
    destruct (lt_info _ _ _ _ LT row) as [H|(x & Hx & D)]; [lia|congruence|].
    exists x. split; [auto|]. now apply rdata_row.
  Qed.

  Theorem line_mwf : targets_ok g R ->
    (forall gs x, In gs (gr_states R) -> In x (gs_rules gs) -> gr_pop x = true -> f_rec k = true) -> mwf k m.
  Proof.
    intros TO PO st Hst. pose proof MO as (_ & L & H & _).
    destruct (nth_error (gr_states R) (N.to_nat st)) as [gs|] eqn:Eg; [|apply nth_error_None in Eg; lia].
    destruct (H st gs Eg) as (t & n & Et & LT). pose proof (lt_width _ _ _ _ LT) as W. unfold ix_trans in W.
    exists t, n. split; [auto|]. split.
    { pose proof (lt_n _ _ _ _ LT). split; [lia|]. split; [rewrite NP; lia|]. split; [unfold ix_trans; lia|].
      split; [apply LT|]. split; [apply LT|]. split; [apply LT|]. split; [apply LT|].
      intros v E. destruct (lt_cell0 _ _ _ _ LT) as (v' & E' & Hv). congruence. }
    rewrite L. intros row Hr Ha. destruct (N.eq_dec row 0) as [->|R0].
    - split; exists 0.
      + rewrite (lt_row0 _ _ _ _ LT) by (unfold ix_next, ix_trans; lia). split; [auto|left; lia].
      + rewrite (lt_row0 _ _ _ _ LT) by (unfold ix_push, ix_trans; lia). split; [auto|]. right. lia.
    - destruct (line_row (gs_rules gs) t n row LT R0 Ha) as (x & Hx & e & E0 & _ & EP & _ & _ & E1 & E2).
      destruct (TO gs x (nth_error_In _ _ Eg) Hx) as [T1 T2]. split; eexists; split; eauto; [|rewrite NP; auto].
      destruct T1 as [T1|T1]; [auto|right]. split; [auto|]. split; [eapply PO; eauto using nth_error_In|].
      exists e. split; [auto|]. now apply EP.
  Qed.

  (** Length of the run of end of line transitions that begins at a row. *)
  Fixpoint run_len (t : table) (f : nat) (row : N) : nat :=
    match f with
    | O => O
    | S f' => match cell t row ix_eol with
              | Some e => if e =? 0 then O else S (run_len t f' e)
              | None => O
              end
    end.
  Lemma run_len_run t f : forall row, exists e, eol_run t (run_len t f row) row e.
  Proof.
    induction f as [|f IH]; intros row; cbn [run_len]; [exists row; constructor|].
    destruct (cell t row ix_eol) as [e|] eqn:E; [|exists row; constructor].
    destruct (N.eqb_spec e 0); [exists row; constructor|]. destruct (IH e) as (x & H). exists x.
    econstructor; eauto.
  Qed.
  Lemma run_len_more t f : forall row j, eol_run t j row 0 \/ True -> (run_len t f row < f)%nat ->
    run_len t (S f) row = run_len t f row.
  Proof.
    induction f as [|f IH]; intros row j _ H; [lia|]. cbn [run_len] in *.
    destruct (cell t row ix_eol) as [e|]; [|auto]. destruct (N.eqb_spec e 0); [auto|].
    f_equal. apply (IH e O); [auto|]. lia.
  Qed.
  Theorem line_acyclic b : each_rule R (eol_bounded b) -> eol_acyclic m b.
  Proof.
    intros EB st t Et. destruct (line_state st t Et) as (gs & n & Hg & LT).
    assert (FB : Forall (eol_bounded b) (gs_rules gs)) by (apply Forall_forall; intros x Hx; eapply EB; eauto).
    pose proof (lt_width _ _ _ _ LT) as W. unfold ix_trans in W.
    assert (Q : forall row f, (run_len t f row <= b)%nat).
    { intros row f. destruct (run_len_run t f row) as (e & HR).
      destruct (run_len t f row) as [|j] eqn:EQ; [lia|]. inversion HR; subst.
      apply (lt_run _ _ _ _ LT b FB _ row e); [eapply table_lt; [exact LT| |eassumption]; unfold ix_eol; lia|econstructor; eauto]. }
    exists (run_len t (S b)). intros row. split; [apply Q|]. intros e E He.
    assert (X := run_len_more t (S b) row O (or_intror Logic.I)). specialize (Q row (S b)) as Q1.
    specialize (X ltac:(lia)). rewrite <- X. cbn [run_len]. rewrite E. destruct (N.eqb_spec e 0); [congruence|].
    change (run_len t (S b) e < S (run_len t (S b) e))%nat. lia.
  Qed.
  Lemma chain_run t a c : eol_chain k t a c -> exists j, eol_run t (S j) a c.
  Proof.
    induction 1 as [a b (_ & E & H)|a b c (_ & E & H) HC (j & IH)].
    - exists O. econstructor; eauto. constructor.
    - exists (S j). econstructor; eauto.
  Qed.
  Theorem line_no_empty : each_rule R consumes -> no_empty_match k m.
  Proof.
    intros NE st t Et. destruct (line_state st t Et) as (gs & n & Hg & LT). split.
    - intros Ha. destruct (lt_one _ _ _ _ LT Ha) as (x & Hx & _ & M).
      exact (proj1 (NE gs x Hg Hx O) M).
    - intros bol row row' HS HC HA. apply chain_run in HC as (j & HR).
      assert (X : exists w0, from_row t row w0).
      { unfold start_row in HS. destruct (f_bol k && bol); [|exists []; left; auto].
        destruct HS as (b & E & ->). destruct (N.eqb_spec b 0); [exists []; left; auto|].
        exists [SBol]. right. auto. }
      destruct X as (w0 & HF). destruct (lt_blank _ _ _ _ LT row w0 (S j) row' HF HR HA) as (x & Hx & [M|[_ M]]).
      + exact (proj1 (NE gs x Hg Hx (S j)) M).
      + exact (proj2 (NE gs x Hg Hx j) M).
  Qed.

  (** ** Rules that end with $ *)
  Variable inp : list N.
  Lemma walk_end t row bs row' : walk t row bs row' -> bs <> [] ->
    exists a c col, column t c = Some col /\ cell t a col = Some row' /\ row' <> 0.
  Proof.
    induction 1 as [row|row b col row1 bs row2 H1 H2 H3 HW IH]; intros H; [congruence|].
    destruct bs as [|x bs]; [|apply IH; discriminate]. exists row, b, col. inversion HW; subst. auto.
  Qed.
  Lemma char_bytes_ne c : char_bytes k c <> [].
  Proof. unfold char_bytes. destruct (c_bytes k =? 1), (c_bytes k =? 2); discriminate. Qed.
  Lemma vplus_last t a c : vplus k t inp a c -> exists b, vstep k t inp b c.
  Proof. induction 1; eauto. Qed.
  Lemma hits_line r e push next id uid q :
    each_rule R (fun x => gr_id x = id -> ends_line x) -> hits k m inp r e push next id uid q ->
    at_line_end inp q.
  Proof.
    intros EL (t & Et & H). destruct (line_state _ _ Et) as (gs & n & Hg & LT).
    assert (W := lt_width _ _ _ _ LT). unfold ix_trans in W.
    assert (Q : forall x row i, In x (gs_rules gs) -> rdata x t row -> cell t row ix_id = Some i -> i = id -> ends_line x).
    { intros x row i Hx D E ->. apply (EL gs x Hg Hx). apply rdata_row in D as (e' & _ & _ & _ & E' & _). congruence. }
    destruct H as [(row & (start & b & HS & (HV & HA & _) & <- & <-) & D1 & D2 & D3 & D4 & D5)|
                   (HU & -> & He & D1 & D2 & -> & D4 & D5)].
    - apply vplus_last in HV as (a & HV). inversion HV as [row p c row' Hc Hn HW|row p c e' Hc Hor HE|row e' HE]; subst.
      + exfalso. cbn [crow cpos fst snd] in *. apply walk_end in HW as (x & bt & col & C1 & C2 & C3); [|apply char_bytes_ne].
        assert (HC : ix_dead <= col < t_width t).
        { pose proof (lt_cols _ _ _ _ LT) as F. rewrite Forall_forall in F. apply F. eapply nth_error_In; exact C1. }
        assert (Hx := table_lt _ _ _ _ _ _ _ LT (proj2 HC) C2).
        destruct (N.eq_dec col ix_dead) as [->|ND].
        { rewrite (lt_dead _ _ _ _ LT x Hx) in C2. congruence. }
        destruct (lt_char _ _ _ _ LT x col row' Hx) as (y & Hy & Dy & Ny); auto.
        { unfold ix_trans, ix_dead in *. lia. }
        apply Ny. eapply Q; eauto.
      + cbn [cpos fst snd]. unfold at_line_end. destruct Hor as [->| ->]; auto.
      + cbn [cpos fst snd]. right. right. reflexivity.
    - exfalso. destruct (lt_one _ _ _ _ LT) as (x & Hx & D & M); [exists e; auto|].
      destruct (Q x 1 id Hx D D4 eq_refl [] M) as (v & E). destruct v; discriminate.
  Qed.
  Lemma looks_line first r r' o : looks k m inp first r r' o -> o = None ->
    each_rule R (fun x => gr_id x = r_id r' -> ends_line x) -> r_id r' <> npos k -> r_id r' <> i_eoi m ->
    at_line_end inp (r_second r').
  Proof.
    induction 1 as [first r r' Hp ->|first r e id uid r' Hp He Hs Hj Hi Hu Hf|first r e uid r1 r' o Hp He HL IH|
                    first r e id uid r1 r' o Hp He Hs Hj HL IH|first r c r' Hc Hm ->|
                    first r e push next id uid q r' Hp Hh Hu H1 H2 H3 H4 H5]; intros Eo EL N1 N2; auto.
    - exfalso. apply N2. reflexivity.
    - destruct He as (push & next & q & Hh & _ & -> & _). rewrite Hi in EL. eapply hits_line; eauto.
    - exfalso. apply N1. reflexivity.
    - discriminate.
  Qed.
End Machine.

(** ** Top level *)
Section Top.
  Variables (f : nat) (k : cfg) (g : gcfg) (R : grules) (m : internals) (inp : list N) (r : results).
  Hypothesis SE : fair_setting f k g R m inp r.
  Lemma fs_machine : line_machine g R m.
  Proof. destruct SE. eapply build_line; eauto. Qed.
  Lemma fs_mwf : mwf k m.
  Proof. pose proof fs_machine. eapply line_mwf; eauto; apply SE. Qed.
  Lemma fs_chars : chars_ok k inp.
  Proof. destruct SE. eapply fits_chars; eauto. Qed.
  Lemma fs_range r' : rwf m inp r' <-> in_range R inp r'.
  Proof. destruct fs_machine as (_ & L & _). unfold rwf, in_range. now rewrite L. Qed.
  Lemma fs_rwf : rwf m inp r.
  Proof. apply fs_range. apply SE. Qed.
  Lemma fs_no_empty : each_rule R consumes -> no_empty_match k m.
  Proof. intros H. exact (line_no_empty k g R m (proj1 (fs_agree _ _ _ _ _ _ _ SE)) fs_machine H). Qed.
  Lemma fs_acyclic b : each_rule R (eol_bounded b) -> eol_acyclic m b.
  Proof. intros H. exact (line_acyclic k g R m (proj1 (fs_agree _ _ _ _ _ _ _ SE)) fs_machine b H). Qed.

  (** lookup() never leaves the tables or the input. *)
  Theorem line_defined fuel inner :
    match lookup fuel inner k m inp r with
    | Ok (r', _) => in_range R inp r'
    | Fuel => True
    | _ => False
    end.
  Proof.
    pose proof (lookup_looks fuel inner k m inp r fs_mwf fs_chars fs_rwf) as H.
    destruct (lookup fuel inner k m inp r) as [[r' o]| | |]; auto. destruct H as [_ H]. now apply fs_range.
  Qed.
  Theorem line_total b fuel inner : each_rule R consumes -> each_rule R (eol_bounded b) ->
    (length inp < fuel)%nat -> (length inp * S b + b < inner)%nat ->
    exists r' o, lookup fuel inner k m inp r = Ok (r', o).
  Proof.
    intros HC HB Hf Hi. apply (lookup_terminates k m inp r b); auto using fs_mwf, fs_chars, fs_rwf, fs_no_empty, fs_acyclic.
  Qed.
  Theorem line_forward fuel inner r' : each_rule R consumes -> f_adv k = true ->
    lookup fuel inner k m inp r = Ok (r', None) -> r_id r' <> gr_eoi R ->
    (r_second r < r_second r' <= length inp)%nat.
  Proof.
    intros HC HA HL Hid. apply (lookup_progress k m inp r fuel inner r'); auto using fs_mwf, fs_chars, fs_rwf, fs_no_empty.
    destruct fs_machine as (E & _). congruence.
  Qed.
  Theorem line_loop_ends b : each_rule R consumes -> each_rule R (eol_bounded b) -> f_adv k = true -> f_rec k = false ->
    exists j r', (j <= length inp - r_second r + 1)%nat /\ calls k m inp j r r' /\ r_id r' = gr_eoi R.
  Proof.
    intros HC HB HA HR. destruct fs_machine as (E & _). rewrite <- E.
    apply (lex_loop_ends k m inp b); auto using fs_mwf, fs_chars, fs_rwf, fs_no_empty, fs_acyclic.
  Qed.
  Lemma each_consumes : each_rule R dollar_last -> each_rule R substantial -> each_rule R consumes.
  Proof.
    intros H1 H2 gs x Hg Hx. destruct (H1 gs x Hg Hx) as (ts & T & L), (H2 gs x Hg Hx). eapply last_consumes; eauto.
  Qed.
  Lemma each_bounded : each_rule R dollar_last -> each_rule R (eol_bounded 1).
  Proof. intros H1 gs x Hg Hx. destruct (H1 gs x Hg Hx) as (ts & T & L). eapply last_bounded; eauto. Qed.
  (** A rule that ends with $ is returned only at the end of a line. *)
  Theorem line_end_only fuel inner r' :
    lookup fuel inner k m inp r = Ok (r', None) -> r_id r' <> npos k -> r_id r' <> gr_eoi R ->
    each_rule R (fun x => gr_id x = r_id r' -> ends_line x) -> at_line_end inp (r_second r').
  Proof.
    intros HL N1 N2 EL. pose proof (lookup_looks fuel inner k m inp r fs_mwf fs_chars fs_rwf) as H. rewrite HL in H.
    destruct H as [H _]. destruct fs_machine as (E & _).
    eapply (looks_line k g R m (proj1 (fs_agree _ _ _ _ _ _ _ SE)) fs_machine inp); eauto. congruence.
  Qed.
End Top.
