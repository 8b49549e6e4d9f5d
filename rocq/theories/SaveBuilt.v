(** Machines made by build fit what save() writes. *)
From Verif Require Import Base StringToken StateMachine ReToken Tree Parser Generator GenDfa Build DfaSpec GenWalk Lookup TableSpec LookupSpec RuleSpec BuildSpec
  BuildState BuildFuel BuildMachine BuildThms BuildLookup ParserTree Minimise MinimiseProofs Serialise SerialiseProofs.
Local Open Scope N_scope.

(** ** Rows without an end state hold no ids *)
Definition blank_row (r : list N) : Prop := nth_error r 0 = Some 0 -> forall j, (j < 5)%nat -> nth_error r j = Some 0.
Definition blank (w : nat) (rows : list (list N)) : Prop :=
  Forall (fun r => length r = w) rows /\ forall i r, nth_error rows (S i) = Some r -> blank_row r.

Ltac step H := match type of H with
  | bind ?x _ = Ok _ => let E := fresh "E" in destruct x eqn:E; cbn [bind] in H; try discriminate H
  end.
Ltac cond H := match type of H with (if ?c then _ else _) = Ok _ => destruct c end.
Lemma blank_set w rows row col v rows' : (row = O \/ 5 <= col)%nat -> blank w rows -> set_cell rows row col v = Ok rows' -> blank w rows'.
Proof.
  intros C [L B]. unfold set_cell. destruct (nth_error rows row) as [r|] eqn:E; [|discriminate].
  destruct (Nat.ltb_spec col (length r)) as [H|H]; [|discriminate]. intros [= <-]. split.
  - apply Forall_forall. intros x Hx. apply In_nth_error in Hx as (j & Ej). rewrite Forall_forall in L.
    destruct (Nat.eq_dec row j) as [<-|N].
    + rewrite nth_error_upd_eq in Ej by (apply nth_error_Some; congruence). injection Ej as <-. rewrite upd_length. apply L. eapply nth_error_In; eauto.
    + rewrite nth_error_upd_neq in Ej by auto. apply L. eapply nth_error_In; eauto.
  - intros i x Ex. destruct (Nat.eq_dec row (S i)) as [->|N].
    + destruct C as [C|C]; [discriminate|]. rewrite nth_error_upd_eq in Ex by (apply nth_error_Some; congruence). injection Ex as <-.
      intros Z j Hj. rewrite nth_error_upd_neq in * by lia. apply (B i r E); auto.
    + rewrite nth_error_upd_neq in Ex by auto. eauto.
Qed.
Lemma blank_snoc w rows x : blank w rows -> length x = w -> blank_row x -> blank w (rows ++ [x]).
Proof.
  intros [L B] Lx Bx. split; [apply Forall_app; auto|]. intros i r E. destruct (Nat.lt_ge_cases (S i) (length rows)) as [H|H].
  - rewrite nth_error_app1 in E by auto. eauto.
  - rewrite nth_error_app2 in E by auto. destruct (S i - length rows)%nat as [|[|z]]; cbn in E; try discriminate. now injection E as <-.
Qed.
Lemma blank_zeros w : (7 <= w)%nat -> blank_row (repeat 0 w).
Proof. intros W _ j Hj. apply nth_repeat_lt. lia. Qed.
Lemma blank_fresh w o : (7 <= w)%nat -> blank_row (fresh_row w o).
Proof.
  intros W. destruct o as [e|]; [|now apply blank_zeros]. intros E. cbn in E. exfalso. destruct (end_bits_ok e) as [Q _]. congruence.
Qed.

Section Rows.
  Variables (k : gcfg) (fl : gflags) (s : store) (w : nat).
  Hypothesis W : (7 <= w)%nat.
  Lemma blank_closure fp d x d' : blank w (d_rows d) -> closure fl s w fp d = Ok (x, d') -> blank w (d_rows d').
  Proof.
    intros B. unfold closure. destruct fp; [intros [= <- <-]; auto|]. intros H. step H. destruct (find_seen _ _); injection H as <- <-; cbn [d_rows]; [auto|].
    apply blank_snoc; [auto|now apply fresh_row_len|now apply blank_fresh].
  Qed.
  Lemma blank_transition tr row d i d' : blank w (d_rows d) -> set_transition k tr row d i = Ok d' -> blank w (d_rows d').
  Proof.
    intros B. unfold set_transition. intros H; cond H; [|cond H]; step H; injection H as <-; cbn [d_rows];
      (eapply blank_set; [|exact B|exact E]); auto; right; change ix_eol with 5; unfold ix_trans; lia.
  Qed.
  Lemma blank_transitions tr row is : forall d d', blank w (d_rows d) -> set_transitions k tr row is d = Ok d' -> blank w (d_rows d').
  Proof.
    induction is as [|i is IH]; intros d d' B H; cbn [set_transitions] in H; [injection H as <-; auto|]. step H.
    eapply IH; [|exact H]. eapply blank_transition; eauto.
  Qed.
  Lemma blank_equiv sm cr nl row d q d' : blank w (d_rows d) -> do_equiv k fl s sm cr nl w row d q = Ok d' -> blank w (d_rows d').
  Proof.
    intros B H. unfold do_equiv in H. step H. step H. destruct a0 as [x d1]. cbn [fst snd] in H.
    assert (B1 : blank w (d_rows d1)) by (eapply blank_closure; eauto).
    destruct x as [tr|]; [|injection H as <-; auto]. destruct (nth_error (d_rows d1) row) as [[|e r]|]; try discriminate.
    cond H; [injection H as <-; auto|]. eapply blank_transitions; eauto.
  Qed.
  Lemma blank_equivs sm cr nl row qs : forall d d', blank w (d_rows d) -> do_equivs k fl s sm cr nl w row d qs = Ok d' -> blank w (d_rows d').
  Proof.
    induction qs as [|q qs IH]; intros d d' B H; cbn [do_equivs] in H; [injection H as <-; auto|]. step H.
    eapply IH; [|exact H]. eapply blank_equiv; eauto.
  Qed.
  Lemma blank_loop sm cr nl f : forall index d d', blank w (d_rows d) -> state_loop f k fl s sm cr nl w index d = Ok d' -> blank w (d_rows d').
  Proof.
    induction f as [|f IH]; intros index d d' B H; cbn [state_loop] in H; [discriminate|].
    destruct (nth_error (d_seen d) index); [|injection H as <-; auto]. step H. step H. eapply IH; [|exact H]. eapply blank_equivs; eauto.
  Qed.
  Lemma blank_put rows row col v rows' : blank w rows -> put_cell rows row (ix_trans + col) v = Ok rows' -> blank w rows'.
  Proof. intros B H. unfold put_cell in H. eapply blank_set; [|exact B|exact H]. right. unfold ix_trans. lia. Qed.
  Lemma blank_fix_one cr nl e rows rows' : blank w rows -> fix_one cr nl e rows = Ok rows' -> blank w rows'.
  Proof.
    intros B H. unfold fix_one in H. step H. step H. step H. step H. destruct a2 as [p r]. cbn [fst snd] in H.
    assert (B1 : blank w r).
    { cond E2; [injection E2 as <- <-; auto|]. step E2. step E2. step E2. injection E2 as <- <-.
      assert (blank w a2) by (eapply blank_put; [exact B|exact E3]). cond E5; [eapply blank_put; eauto|injection E5 as <-; auto]. }
    cond H; [injection H as <-; auto|]. step H. step H.
    assert (blank w a2) by (eapply blank_put; [exact B1|exact E3]). cond H; [eapply blank_put; eauto|injection H as <-; auto].
  Qed.
  Lemma blank_part zero id es target rows y : blank w rows -> fix_part k w zero id es target rows = Ok y ->
    match y with Some (_, r) => blank w r | None => True end.
  Proof.
    intros B H. unfold fix_part in H. step H. cond H; [injection H as <-; auto|]. step H.
    assert (B1 : blank w (a0 ++ [repeat 0 w])).
    { apply blank_snoc; [eapply blank_put; eauto|apply repeat_length|now apply blank_zeros]. }
    step H. assert (B2 : blank w a1).
    { cond E1; [|injection E1 as <-; auto]. step E1. injection E1 as <-.
      apply blank_snoc; [eapply blank_put; eauto|apply repeat_length|now apply blank_zeros]. }
    step H. injection H as <-. eapply blank_put; [exact B2|exact E2].
  Qed.
  Lemma blank_wide cr nl zero e i rows x : blank w rows -> fix_one_wide k w cr nl zero e i rows = Ok x -> blank w (snd x).
  Proof.
    intros B H. unfold fix_one_wide in H. step H. step H. step H. step H.
    assert (B1 : match a2 with (Some (_, r), _) => blank w r | _ => True end).
    { cond E2; [injection E2 as <-; auto|]. step E2. injection E2 as <-. apply (blank_part _ _ _ _ _ _ B E3). }
    destruct a2 as [[[p r]|] i']; [|injection H as <-; auto]. step H. cond H; [injection H as <-; auto|].
    step H. pose proof (blank_part _ _ _ _ _ _ B1 E4) as B2. destruct a3 as [[p' r']|]; injection H as <-; auto.
  Qed.
  Lemma blank_fix cr nl zero eols : forall i rows rows', blank w rows -> fix_clashes k w cr nl zero eols i rows = Ok rows' -> blank w rows'.
  Proof.
    induction eols as [|e eols IH]; intros i rows rows' B H; cbn [fix_clashes] in H; [injection H as <-; auto|].
    cond H; step H; (eapply IH; [|exact H]); [eapply blank_wide|eapply blank_fix_one]; eauto.
  Qed.
End Rows.
Lemma blank_dfa f k fl s root m cr nl used o : build_dfa f k fl s root m cr nl used = Ok o -> blank (N.to_nat (o_width o)) (o_rows o).
Proof.
  intros H. unfold build_dfa in H. step H. step H. step H. step H. step H.
  match type of H with context [N.of_nat ?x] => remember x as w eqn:Ew in H end.
  assert (W : (7 <= w)%nat) by (subst w; unfold ix_trans; lia). clear Ew.
  cond H; [discriminate|]. step H. step H. step H. injection H as <-. cbn [o_width o_rows]. rewrite Nat2N.id.
  eapply blank_fix; [exact W| |exact E6]. eapply blank_loop; [exact W| |exact E5]. destruct a4 as [x d]. eapply blank_closure; [exact W| |exact E4].
  cbn [d_rows]. split; [constructor; [apply repeat_length|constructor]|]. intros i r Q. destruct i; discriminate.
Qed.
Lemma blank_states f k fl gs : forall u st used os u' used', build_states f k fl gs u st used = Ok (os, u', used') ->
  Forall (fun o => blank (N.to_nat (o_width o)) (o_rows o)) os.
Proof.
  induction gs as [|g gs IH]; intros u st used os u' used' H; cbn [build_states] in H; [injection H as <- _ _; constructor|].
  step H. destruct a as [[o u1] st1]. step H. destruct a as [[os1 u2] used2]. injection H as <- _ _. constructor; [|eapply IH; eauto].
  unfold build_one in E. destruct (gs_rules g); [discriminate|]. step E. destruct a as [[root u3] s3]. step E. step E.
  cond E; [discriminate|]. injection E as <- _ _. eapply blank_dfa; eauto.
Qed.

(** ** The values are those of the id_type *)
Lemma lor_small n a b : a < 2 ^ n -> b < 2 ^ n -> N.lor a b < 2 ^ n.
Proof.
  intros Ha Hb. destruct (N.eq_dec (N.lor a b) 0) as [E|E]; [rewrite E; apply N.neq_0_lt_0, N.pow_nonzero; lia|].
  apply N.log2_lt_pow2; [lia|]. rewrite N.log2_lor. apply N.max_lub_lt.
  - destruct (N.eq_dec a 0) as [->|Na].
    + cbn. destruct n; [|lia]. cbn in Hb. assert (b = 0) by lia. subst b. now elim E.
    + apply N.log2_lt_pow2; [lia|auto].
  - destruct (N.eq_dec b 0) as [->|Nb].
    + cbn. destruct n; [|lia]. cbn in Ha. assert (a = 0) by lia. subst a. now elim E.
    + apply N.log2_lt_pow2; [lia|auto].
Qed.
Lemma lors_small n l : forall a, a < 2 ^ n -> Forall (fun x => x < 2 ^ n) l -> fold_left N.lor l a < 2 ^ n.
Proof.
  induction l as [|x l IH]; intros a Ha F; [exact Ha|]. inversion F; subst. cbn [fold_left]. apply IH; [|auto]. now apply lor_small.
Qed.
(** What the types of the C++ members say about the rules. *)
Definition rule_in (B : N) (x : grule) : Prop := gr_id x < B /\ gr_uid x < B /\ gr_next x < B /\ gr_push x < B.
Definition typed (B : N) (R : grules) : Prop :=
  gr_eoi R < B /\ Forall (fun s => gs_features s < B /\ Forall (rule_in B) (gs_rules s)) (gr_states R).
(** std::vector cannot be longer. *)
Definition in_memory (m : internals) : Prop :=
  N.of_nat (length (i_dfa m)) < size_lim /\ Forall (fun d => N.of_nat (length d) < size_lim) (i_dfa m).

Lemma end_bits_8 e : end_bits e < 8.
Proof. unfold end_bits. destruct (greedyb _), (e_pop e); reflexivity. Qed.

Section Fits.
  Variables (g : gcfg) (gs : gstate) (o : dfa_out) (B : N).
  Hypothesis HB : B = 2 ^ g_bits g.
  Hypothesis B8 : 8 <= B.
  Hypothesis TB : state_table g gs (out_table o).
  Hypothesis BL : blank (N.to_nat (o_width o)) (o_rows o).
  Hypothesis RI : Forall (rule_in B) (gs_rules gs).
  Lemma npos_small : gnpos g < B.
  Proof. unfold gnpos, npos_of. rewrite <- HB. lia. Qed.
  Lemma cell_rows row col : (col < N.to_nat (o_width o))%nat ->
    cell (out_table o) row (N.of_nat col) = match nth_error (o_rows o) (N.to_nat row) with Some r => nth_error r col | None => None end.
  Proof.
    intros H. unfold cell, out_table. cbn [t_dfa t_width]. rewrite N2Nat.inj_add, N2Nat.inj_mul, Nat2N.id.
    apply nth_concat; [apply BL|exact H].
  Qed.
  Lemma cells_small : Forall (fun v => v < B) (concat (o_rows o)).
  Proof.
    pose proof npos_small as NS. destruct TB as (s & ds & n & RC & Hn & ST & _). pose proof (rc_width _ _ _ _ _ _ RC) as W.
    pose proof (rc_len _ _ _ _ _ _ RC) as L. cbn [out_table t_width t_dfa] in W, L. unfold ix_trans in W.
    apply Forall_forall. intros v Hv. apply In_nth_error in Hv as (i & Ei).
    assert (Hi : (i < length (concat (o_rows o)))%nat) by (apply nth_error_Some; congruence).
    remember (N.of_nat i / o_width o) as row eqn:Er. remember (N.of_nat i mod o_width o) as col eqn:Ec.
    assert (D : N.of_nat i = row * o_width o + col) by (subst; rewrite N.mul_comm; apply N.div_mod; lia).
    assert (Hc : col < o_width o) by (subst col; apply N.mod_lt; lia). clear Er Ec.
    assert (Hr : row < n) by nia.
    assert (EC : cell (out_table o) row col = Some v).
    { unfold cell, out_table. cbn [t_dfa t_width]. rewrite <- D, Nat2N.id. exact Ei. }
    destruct (N.eq_dec row 0) as [->|R0].
    { destruct (N.eq_dec col 0) as [->|C0].
      - destruct (rc_cell0 _ _ _ _ _ _ RC) as (v' & E' & H). assert (v' = v) by congruence. lia.
      - rewrite (rc_row0 _ _ _ _ _ _ RC) in EC by (cbn [out_table t_width]; lia). injection EC as <-. lia. }
    destruct (N.lt_ge_cases col 5) as [C5|C5].
    2:{ assert (v < n); [|lia]. apply (rc_cell _ _ _ _ _ _ RC row col v Hr); [|exact EC]. unfold ix_eol. cbn [out_table t_width]. lia. }
    destruct (rc_info _ _ _ _ _ _ RC row ltac:(lia)) as [E0|(d & Hd & D1 & D2 & D3 & D4 & D5)].
    - change ix_end with (N.of_nat 0) in E0. replace col with (N.of_nat (N.to_nat col)) in EC by apply N2Nat.id.
      rewrite cell_rows in E0, EC by lia. destruct (nth_error (o_rows o) (N.to_nat row)) as [r|] eqn:Q; [|discriminate].
      destruct (N.to_nat row) as [|j] eqn:J; [lia|]. destruct BL as [_ BR]. rewrite (BR j r Q E0) in EC by lia. injection EC as <-. lia.
    - apply In_nth_error in Hd as (j & Ed). destruct (nth_error (gs_rules gs) j) as [x|] eqn:Ex.
      + destruct (stands_nth _ _ _ _ _ ST j x d Ex Ed) as ((_ & (u & gr & EI & _)) & Hx). rewrite Forall_forall in RI. destruct (RI x Hx) as (I1 & I2 & I3 & I4).
        rewrite EI in *. cbn in D2, D3, D4, D5. pose proof (end_bits_8 (end_info (rule_info x u) gr)) as EB.
        assert (CC : col = ix_end \/ col = ix_id \/ col = ix_uid \/ col = ix_push \/ col = ix_next) by (unfold ix_end, ix_id, ix_uid, ix_push, ix_next; lia).
        destruct CC as [->|[->|[->|[->| ->]]]]; [rewrite D1 in EC|rewrite D2 in EC|rewrite D3 in EC|rewrite D4 in EC|rewrite D5 in EC]; injection EC as <-; auto. lia.
      + exfalso. apply nth_error_None in Ex. pose proof (stands_len _ _ _ _ _ ST) as LL.
        assert (j < length ds)%nat by (apply nth_error_Some; congruence). lia.
  Qed.
  Lemma lookup_small : Forall (fun v => v < B) (o_lookup o) /\ length (o_lookup o) = 256%nat.
  Proof.
    pose proof npos_small as NS. destruct TB as (s & ds & n & RC & _). pose proof (rc_width _ _ _ _ _ _ RC) as W. pose proof (rc_cols _ _ _ _ _ _ RC) as C.
    split; [|exact (rc_lk _ _ _ _ _ _ RC)]. eapply Forall_impl; [|exact C]. cbn [out_table t_width] in *. cbv beta. intros a Ha. lia.
  Qed.
  Lemma width_small : o_width o < B.
  Proof. pose proof npos_small as NS. destruct TB as (s & ds & n & RC & _). pose proof (rc_width _ _ _ _ _ _ RC) as W. cbn [out_table t_width] in W. lia. Qed.
End Fits.

Theorem built_fits f g R m bytes : wide_ok g -> rules_wf g R -> build f g R = Ok m -> g_bits g = 8 * bytes -> 1 <= bytes ->
  typed (2 ^ (8 * bytes)) R -> in_memory m -> fits bytes m.
Proof.
  intros WO RW HB Hbits Hby (T1 & T2) (M1 & M2). unfold build in HB. step HB. destruct a as [[os u] used]. step HB. injection HB as <-.
  assert (BL := blank_states _ _ _ _ _ _ _ _ _ _ E).
  assert (SO : Forall2 (state_ok g (gr_flags R)) (gr_states R) os).
  { destruct (build_states_ok g (gr_flags R) WO (gr_states R) 0 [] [] RW) as (f0 & H).
    destruct (H (max f f0) ltac:(lia)) as [(e & gg & Q & _)|(os' & used' & Q & F & _)].
    - rewrite (build_states_mono f (max f f0) _ _ ltac:(lia) _ _ _ _ _ E) in Q by discriminate. discriminate.
    - rewrite (build_states_mono f (max f f0) _ _ ltac:(lia) _ _ _ _ _ E) in Q by discriminate. injection Q as -> _ _. exact F. }
  assert (B8 : 8 <= 2 ^ (8 * bytes)).
  { change 8 with (2 ^ 3) at 1. apply N.pow_le_mono_r; lia. }
  assert (SM : size_lim > 256) by reflexivity.
  assert (LO : length os = length (gr_states R)) by (clear - SO; induction SO; cbn; auto).
  cbn [create i_dfa] in M1, M2. rewrite map_length in M1.
  assert (ALL : Forall (fun o => Forall (fun v => v < 2 ^ (8 * bytes)) (o_lookup o) /\ length (o_lookup o) = 256%nat /\ o_width o < 2 ^ (8 * bytes) /\
     Forall (fun v => v < 2 ^ (8 * bytes)) (concat (o_rows o))) os).
  { clear - SO BL T2 Hbits B8. induction SO as [|gs o gss os S SO IH]; [constructor|]. inversion BL; subst. inversion T2 as [|? ? (F1 & F2) T2']; subst.
    constructor; [|now apply IH]. destruct S as [_ _ TB _]. assert (Q : 2 ^ (8 * bytes) = 2 ^ g_bits g) by now rewrite Hbits.
    destruct (lookup_small g gs o _ Q B8 TB). split; [auto|]. split; [auto|]. split; [eapply width_small; eauto|]. eapply cells_small; eauto. }
  unfold fits, create; cbn [i_eoi i_features i_lookup i_alphabet i_dfa]. rewrite !map_length.
  split; [exact T1|]. split.
  { apply lor_small; [apply lors_small; [lia|]|].
    - rewrite Forall_map. eapply Forall_impl; [|exact T2]. now intros z (A & _).
    - destruct (Nat.ltb _ _); [|lia]. unfold fb_multi. apply N.lt_le_trans with (2 ^ 8); [reflexivity|]. apply N.pow_le_mono_r; lia. }
  split; [exact M1|]. split.
  { rewrite Forall_map. eapply Forall_impl; [|exact ALL]. intros o (A1 & A2 & _). split; [exact A1|]. rewrite A2. reflexivity. }
  split; [split; [|exact M1]|split; [exact M1|]].
  - rewrite Forall_map. eapply Forall_impl; [|exact ALL]. now intros o (_ & _ & A & _).
  - rewrite Forall_map in *. rewrite Forall_forall in *. intros o Ho. split; [apply (ALL o Ho)|apply (M2 o Ho)].
Qed.

(** ** Minimised machines *)
Lemma number_bound np n : forall i l, Forall (fun e : entry => snd e = np \/ snd e <= i) l -> Forall (fun x => snd x <= i + N.of_nat n) (number np n i l).
Proof.
  induction n as [|n IH]; intros i l F; [constructor|]. destruct l as [|[[x dup] lk] l]; [constructor|]. cbn [number].
  inversion F as [|? ? F1 F2]; subst. cbn [snd] in F1.
  assert (M : Forall (fun e : entry => snd e = np \/ snd e <= i) (map (mark x i) l)).
  { rewrite Forall_map. eapply Forall_impl; [|exact F2]. intros [[y d] q] H. unfold mark. destruct d; [exact H|]. destruct (row_eqb x y); [|exact H]. cbn. right. lia. }
  destruct (N.eqb_spec lk np) as [E|E].
  - constructor; [cbn [snd]; lia|]. eapply Forall_impl; [|apply (IH (i + 1))].
    + intros a Ha. cbv beta in *. lia.
    + eapply Forall_impl; [|exact M]. intros a [Ha|Ha]; [auto|right; lia].
  - constructor; [cbn [snd]; destruct F1; [congruence|lia]|]. eapply Forall_impl; [|apply (IH i)]; [|exact M]. intros a Ha. cbv beta in *. lia.
Qed.
Section Kept.
  Variable B : N.
  Hypothesis B0 : 0 < B.
  Notation small := (Forall (fun v => v < B)).
  Lemma renumbered lks v a : small lks -> renumber lks v = Some a -> a < B.
  Proof. intros F E. unfold renumber in E. rewrite Forall_forall in F. apply F. eapply nth_error_In; eauto. Qed.
  Lemma renumbered_all lks l : forall a, small lks -> renumber_all lks l = Some a -> small a /\ length a = length l.
  Proof.
    induction l as [|v l IH]; intros a F E; cbn [renumber_all] in E; [injection E as <-; split; [constructor|reflexivity]|].
    destruct (renumber lks v) eqn:E1; [|discriminate]. destruct (renumber_all lks l) eqn:E2; [|discriminate]. injection E as <-.
    destruct (IH _ F eq_refl). split; [constructor; [exact (renumbered _ _ _ F E1)|assumption]|cbn [length]; congruence].
  Qed.
  Lemma row_kept lks r a : small lks -> small r -> new_row lks r = Some a -> small a /\ length a = length r.
  Proof.
    intros F R E. unfold new_row in E. destruct r as [|c0 [|c1 [|c2 [|c3 [|c4 [|e [|q tr]]]]]]]; try discriminate.
    destruct (renumber lks e) eqn:E1; [|discriminate]. destruct (renumber_all lks tr) eqn:E2; [|discriminate]. injection E as <-.
    destruct (renumbered_all _ _ _ F E2) as (S & L). repeat match goal with H : small (_ :: _) |- _ => inversion H; clear H; subst end.
    split; [repeat (apply Forall_cons; [first [assumption|exact (renumbered _ _ _ F E1)]|]); exact S|cbn [length]; congruence].
  Qed.
  Lemma rows_kept lks rows : forall marks a, small lks -> Forall small rows -> new_rows lks rows marks = Some a ->
    Forall small a /\ (length (concat a) <= length (concat rows))%nat.
  Proof.
    induction rows as [|r rows IH]; intros marks a F R E; cbn [new_rows] in E; [injection E as <-; split; [constructor|reflexivity]|].
    destruct marks as [|[dup q] marks]; [injection E as <-; cbn [concat length]; split; [constructor|lia]|]. inversion R; subst.
    destruct dup.
    - destruct (IH _ _ F H2 E). split; [auto|]. cbn [concat]. rewrite app_length. lia.
    - destruct (new_row lks r) eqn:E1; [|discriminate]. destruct (new_rows lks rows marks) eqn:E2; [|discriminate]. injection E as <-.
      destruct (IH _ _ F H2 E2). destruct (row_kept _ _ _ F H1 E1). split; [constructor; auto|]. cbn [concat]. rewrite !app_length. lia.
  Qed.
  Lemma minimised_rows np rows a : Forall small rows -> N.of_nat (length rows) < B -> minimise_rows np rows = Some a ->
    Forall small a /\ (length (concat a) <= length (concat rows))%nat.
  Proof.
    intros R L E. unfold minimise_rows in E. destruct rows as [|row0 rest]; [injection E as <-; auto|]. cbn [length] in L.
    set (marks := number _ _ _ _) in E. destruct (existsb fst marks); [|injection E as <-; auto].
    assert (K : small (0 :: map snd marks)).
    { constructor; [auto|]. rewrite Forall_map. eapply Forall_impl; [|apply number_bound].
      - intros x Hx. cbv beta in Hx. lia.
      - rewrite Forall_map. apply Forall_forall. intros x _. now left. }
    inversion R as [|? ? R1 R2]; subst. destruct row0 as [|bol row0]; [discriminate|].
    destruct (if bol =? 0 then Some 0 else renumber _ bol) as [b|] eqn:E1; [|discriminate].
    destruct (new_rows _ rest marks) as [rs|] eqn:E2; [|discriminate]. injection E as <-.
    destruct (rows_kept _ _ _ _ K R2 E2) as (S & Q). inversion R1; subst. split.
    - constructor; [|auto]. constructor; [|auto]. destruct (bol =? 0); [injection E1 as <-; auto|]. exact (renumbered _ _ _ K E1).
    - cbn [concat]. rewrite !app_length. cbn [length]. lia.
  Qed.
  Lemma chunk_small n w : forall l, small l -> Forall small (chunk n w l) /\ length (chunk n w l) = n.
  Proof.
    induction n as [|n IH]; intros l F; cbn [chunk]; [split; [constructor|reflexivity]|]. rewrite <- (firstn_skipn w l) in F. apply Forall_app in F. destruct F as [F1 F2].
    destruct (IH _ F2). split; [constructor; auto|cbn [length]; congruence].
  Qed.
  Lemma small_concat rows : Forall small rows -> small (concat rows).
  Proof. induction 1; cbn [concat]; [constructor|]. apply Forall_app. auto. Qed.
  Lemma minimised_dfa np w d a : 0 < w -> small d -> N.of_nat (length d) < B * w -> minimise_dfa np w d = Some a ->
    small a /\ (length a <= length d)%nat.
  Proof.
    intros W F L E. unfold minimise_dfa in E. destruct (N.eqb_spec (N.of_nat (length d) mod w) 0) as [Q|Q]; [|discriminate].
    destruct (minimise_rows _ _) as [rs|] eqn:E1; [|discriminate]. injection E as <-.
    destruct (chunk_small (N.to_nat (N.of_nat (length d) / w)) (N.to_nat w) d F) as (C1 & C2).
    assert (X : (length d = N.to_nat (N.of_nat (length d) / w) * N.to_nat w)%nat).
    { pose proof (N.div_mod (N.of_nat (length d)) w ltac:(lia)). lia. }
    assert (NB : N.of_nat (length (chunk (N.to_nat (N.of_nat (length d) / w)) (N.to_nat w) d)) < B).
    { rewrite C2, N2Nat.id. apply N.div_lt_upper_bound; lia. }
    destruct (minimised_rows _ _ _ C1 NB E1) as (S & LL).
    split; [now apply small_concat|]. rewrite (chunk_concat _ _ _ X) in LL. exact LL.
  Qed.
  Lemma minimised_loop np w f : 0 < w -> forall d a, small d -> N.of_nat (length d) < B * w -> minimise_loop f np w d = Ok a ->
    small a /\ (length a <= length d)%nat.
  Proof.
    intros W. induction f as [|f IH]; intros d a F L E; cbn [minimise_loop] in E; destruct (minimise_dfa np w d) as [d'|] eqn:E1; try discriminate;
      destruct (minimised_dfa _ _ _ _ W F L E1) as (S & LL); destruct (Nat.eqb _ _); try discriminate; try (injection E as <-; auto; fail).
    destruct (IH d' a S ltac:(lia) E). split; [auto|lia].
  Qed.
  Lemma minimised_all np dfas : forall ws a, Forall small dfas -> Forall2 (fun w d => N.of_nat (length d) < B * w) (firstn (length dfas) ws) dfas ->
    minimise_all np ws dfas = Ok a -> Forall2 (fun d d' => small d' /\ (length d' <= length d)%nat) dfas a.
  Proof.
    induction dfas as [|d dfas IH]; intros ws a F L E; destruct ws as [|w ws]; cbn [minimise_all] in E; try discriminate; try (injection E as <-; constructor).
    step E. step E. injection E as <-. cbn [length firstn] in L. inversion F; subst. inversion L; subst.
    constructor; [|eapply IH; eauto]. revert E0. destruct (N.eqb_spec w 0) as [->|W]; intros E0; [injection E0 as <-; auto|]. eapply minimised_loop; [|eassumption|eassumption|exact E0]. lia.
  Qed.
End Kept.
Theorem minimised_fits k m m' bytes : mwf k m -> fits bytes m -> c_bits k = 8 * bytes -> minimise (c_bits k) m = Ok m' -> fits bytes m'.
Proof.
  intros MW (F1 & F2 & F3 & F4 & F5 & F6 & F7) HB E. unfold minimise in E. step E. injection E as <-.
  assert (P0 : 0 < 2 ^ (8 * bytes)) by (apply N.neq_0_lt_0, N.pow_nonzero; lia).
  assert (MA := fun H1 H2 => minimised_all (2 ^ (8 * bytes)) P0 (npos_of (c_bits k)) (i_dfa m) (i_alphabet m) a H1 H2 E0).
  assert (H1 : Forall (Forall (fun v => v < 2 ^ (8 * bytes))) (i_dfa m)) by (eapply Forall_impl; [|exact F7]; now intros z (A & _)).
  specialize (MA H1).
  assert (H2 : Forall2 (fun w d => N.of_nat (length d) < 2 ^ (8 * bytes) * w) (firstn (length (i_dfa m)) (i_alphabet m)) (i_dfa m)).
  { destruct (mwf_lengths k m MW) as (L1 & _).
    assert (X : forall i w d, nth_error (i_alphabet m) i = Some w -> nth_error (i_dfa m) i = Some d -> N.of_nat (length d) < 2 ^ (8 * bytes) * w).
    { intros i w d Ew Ed. assert (Hi : (i < length (i_dfa m))%nat) by (apply nth_error_Some; congruence).
      destruct (MW (N.of_nat i) ltac:(lia)) as (t & n & Et & (T1 & T2 & T3 & T4 & _) & _). unfold get_table in Et. rewrite Nat2N.id, Ew, Ed in Et.
      destruct (nth_error (i_lookup m) i); [|discriminate]. injection Et as <-. cbn [t_dfa t_width] in *. unfold npos, npos_of in T2. rewrite HB in T2. unfold ix_trans in T3. rewrite T4. nia. }
    clear - L1 X. revert X L1. generalize (i_alphabet m). induction (i_dfa m) as [|d l IH]; intros ws X L1; [constructor|].
    destruct ws as [|w ws]; [cbn in L1; lia|]. cbn [length firstn]. constructor; [apply (X O w d); reflexivity|]. apply IH; [|cbn in L1; lia].
    intros i w' d'. apply (X (S i)). }
  specialize (MA H2). unfold fits. cbn [i_eoi i_features i_lookup i_alphabet i_dfa].
  split; [exact F1|]. split; [exact F2|]. split; [exact F3|]. split; [exact F4|]. split; [exact F5|].
  clear - MA F6 F7. split.
  - assert (length a = length (i_dfa m)) by (clear - MA; induction MA; cbn; auto). lia.
  - clear F6. induction MA as [|d d' l l' (S & L) MA IH]; [constructor|]. inversion F7 as [|? ? (G1 & G2) G3]; subst. constructor; [|now apply IH]. split; [exact S|lia].
Qed.
