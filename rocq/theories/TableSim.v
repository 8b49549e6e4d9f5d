(** Two tables related by a renaming of rows behave the same under lookup. *)
From Verif Require Import Base StateMachine Lookup TableSpec LookupProofs.
Local Open Scope N_scope.

Record table_sim (f : N -> N) (n : N) (t t' : table) : Prop := {
  ts_lookup : t_lookup t' = t_lookup t;
  ts_width : t_width t' = t_width t;
  ts_zero : f 0 = 0;
  ts_one : f 1 = 1;
  ts_nz : forall r, r < n -> f r = 0 -> r = 0;
  ts_bol : cell t' 0 0 = option_map f (cell t 0 0);
  ts_info : forall r c, 0 < r < n -> c < ix_eol -> cell t' (f r) c = cell t r c;
  ts_next : forall r c, 0 < r < n -> ix_eol <= c < t_width t -> cell t' (f r) c = option_map f (cell t r c)
}.

(** lookup states equal up to the row. *)
Definition ls_sim (f : N -> N) (s s' : lstate) : Prop :=
  ls_ptr s' = f (ls_ptr s) /\ ls_end s' = ls_end s /\ ls_id s' = ls_id s /\ ls_uid s' = ls_uid s /\
  ls_bol s' = ls_bol s /\ ls_end_bol s' = ls_end_bol s /\ ls_eol s' = f (ls_eol s) /\
  ls_start s' = ls_start s /\ ls_pop s' = ls_pop s /\ ls_push s' = ls_push s.

Section Sim.
Variables (k : cfg) (f : N -> N) (n : N) (t t' : table) (inp : list N).
Hypothesis Hs : table_sim f n t t'.
Hypothesis Hwf : twf k t n.
Hypothesis Hch : chars_ok k inp.
Hypothesis Hnp : forall r, r < n -> f r <> npos k.

Lemma sim_nzb r : r < n -> (f r =? 0) = (r =? 0).
Proof.
  intros H. destruct (N.eqb_spec r 0) as [->|Hr].
  - rewrite (ts_zero _ _ _ _ Hs). reflexivity.
  - destruct (N.eqb_spec (f r) 0); auto. exfalso. apply Hr. eapply ts_nz; eauto.
Qed.

Definition ptr_ok (s : lstate) : Prop := 0 < ls_ptr s < n.

Definition sim_opt {A} (R : A -> A -> Prop) (a b : option A) : Prop :=
  match a, b with Some x, Some y => R x y | None, None => True | _, _ => False end.

Lemma sim_end_state s s' et cur : ls_sim f s s' -> ptr_ok s ->
  sim_opt (fun a b => ls_sim f (fst a) (fst b) /\ ptr_ok (fst a) /\ snd a = snd b /\ ls_eol (fst a) = ls_eol s)
    (end_state k t s et cur) (end_state k t' s' et cur).
Proof.
  intros (E1 & E2 & E3 & E4 & E5 & E6 & E7 & E8 & E9 & E10) Hp. unfold end_state. rewrite E1.
  rewrite !(ts_info _ _ _ _ Hs) by (auto; reflexivity).
  destruct (cell t (ls_ptr s) ix_end) as [e|]; cbn; auto.
  destruct (e =? 0).
  - cbn. repeat split; auto; apply Hp.
  - destruct (cell t (ls_ptr s) ix_id), (cell t (ls_ptr s) ix_uid), (cell t (ls_ptr s) ix_push),
      (cell t (ls_ptr s) ix_next); cbn; auto.
    repeat split; cbn; rewrite ?E1, ?E5, ?E6, ?E8, ?E9, ?E10; auto; apply Hp.
Qed.

Lemma sim_is_eol c s s' : ls_sim f s s' -> ptr_ok s ->
  sim_opt (fun a b => fst a = fst b /\ ls_sim f (snd a) (snd b) /\ ptr_ok (snd a) /\
      (ls_eol s < n -> ls_eol (snd a) < n))
    (is_eol k t c s) (is_eol k t' c s').
Proof.
  intros E Hp. pose proof E as (E1 & E2 & E3 & E4 & E5 & E6 & E7 & E8 & E9 & E10).
  unfold is_eol. destruct (f_eol k).
  - rewrite E1. rewrite (ts_next _ _ _ _ Hs); [|exact Hp|split; [reflexivity|eapply width7; eauto; reflexivity]].
    destruct (cell t (ls_ptr s) ix_eol) as [e|] eqn:He; cbn [option_map sim_opt]; auto.
    assert (Hen : e < n).
    { eapply target_ok; [exact Hwf| | |exact He]; [apply Hp|]. split; [reflexivity|eapply width7; eauto; reflexivity]. }
    rewrite sim_nzb by auto.
    destruct (N.eqb_spec e 0); cbn [negb andb].
    + cbn. repeat split; cbn; auto; apply Hp.
    + destruct ((c =? 13) || (c =? 10)); cbn; repeat split; cbn; auto; try apply Hp; lia.
  - cbn. repeat split; auto; apply Hp.
Qed.

Lemma sim_column b : column t' b = column t b.
Proof. unfold column. rewrite (ts_lookup _ _ _ _ Hs). reflexivity. Qed.

Lemma sim_bytes c sh : forall p st st', 0 < p < n ->
  sim_opt (fun a b => fst b = f (fst a) /\ fst a < n /\ snd b = f (snd a) /\ 0 < snd a < n)
    (next_bytes t c sh p st) (next_bytes t' c sh (f p) st').
Proof.
  induction sh as [|sh IH]; intros p st st' Hp; cbn [next_bytes]; rewrite sim_column.
  all: match goal with |- context [column t ?b] =>
         destruct (column_some k t n Hwf b) as (col & Ec & Hcol); [apply N.mod_lt; discriminate|] end;
       rewrite Ec; rewrite (ts_next _ _ _ _ Hs); [|exact Hp|unfold ix_dead, ix_eol in *; lia];
       destruct (cell t p col) as [v|] eqn:Ev; cbn [option_map sim_opt]; auto;
       assert (Hv : v < n) by (eapply target_ok; [exact Hwf| | |exact Ev]; [apply Hp|unfold ix_dead, ix_eol in *; lia]);
       rewrite sim_nzb by auto; destruct (N.eqb_spec v 0) as [->|Hz].
  1, 3: cbn; rewrite (ts_zero _ _ _ _ Hs); repeat split; auto; try apply Hp; destruct Hwf; lia.
  - cbn. repeat split; auto; lia.
  - apply IH. lia.
Qed.

Lemma sim_next_char c p : 0 < p < n -> In c inp ->
  sim_opt (fun a b => fst b = f (fst a) /\ fst a < n /\ snd b = f (snd a) /\ 0 < snd a < n)
    (next_char k t c p) (next_char k t' c (f p)).
Proof.
  intros Hp Hin. unfold next_char. destruct (N.eqb_spec (c_bytes k) 1) as [E|E].
  - rewrite sim_column. assert (Hc : c < 256).
    { specialize (Hch E). rewrite Forall_forall in Hch. auto. }
    destruct (column_some k t n Hwf c Hc) as (col & Ec & Hcol). rewrite Ec.
    rewrite (ts_next _ _ _ _ Hs); [|exact Hp|unfold ix_dead, ix_eol in *; lia].
    destruct (cell t p col) as [v|] eqn:Ev; cbn [option_map sim_opt]; auto.
    assert (Hv : v < n) by (eapply target_ok; [exact Hwf| | |exact Ev]; [apply Hp|unfold ix_dead, ix_eol in *; lia]).
    rewrite sim_nzb by auto. destruct (N.eqb_spec v 0) as [->|Hz]; cbn; repeat split; auto; try apply Hp; lia.
  - apply sim_bytes; auto.
Qed.

Definition sim_res {A} (R : A -> A -> Prop) (a b : res A) : Prop :=
  match a, b with
  | Ok x, Ok y => R x y
  | Throw e, Throw e' => e = e'
  | UB, UB => True
  | Fuel, Fuel => True
  | _, _ => False
  end.

Lemma sim_scan fuel : forall cur et s s', ls_sim f s s' -> ptr_ok s -> ls_eol s < n ->
  sim_res (fun a b => ls_sim f (fst (fst a)) (fst (fst b)) /\ ptr_ok (fst (fst a)) /\
      ls_eol (fst (fst a)) < n /\ snd (fst a) = snd (fst b) /\ snd a = snd b)
    (scan fuel k t inp cur et s) (scan fuel k t' inp cur et s').
Proof.
  induction fuel as [|fuel IH]; intros cur et s s' E Hp He; cbn [scan];
    destruct (Nat.eqb cur (length inp)); cbn; auto.
  destruct (nth_error inp cur) as [c|] eqn:Ec; cbn; auto.
  pose proof (sim_is_eol c s s' E Hp) as H1.
  destruct (is_eol k t c s) as [[b s1]|], (is_eol k t' c s') as [[b' s1']|]; cbn in H1; try tauto.
  destruct H1 as (<- & E1 & P1 & L1). specialize (L1 He). destruct b.
  - pose proof (sim_end_state s1 s1' et cur E1 P1) as H2.
    destruct (end_state k t s1 et cur) as [[s2 et2]|], (end_state k t' s1' et cur) as [[s2' et2']|]; cbn in H2; try tauto.
    destruct H2 as (E2 & P2 & <- & L2). apply IH; auto. congruence.
  - pose proof E1 as (F1 & F2 & F3 & F4 & F5 & F6 & F7 & F8 & F9 & F10).
    rewrite F1. pose proof (sim_next_char c (ls_ptr s1) P1 (nth_error_In _ _ Ec)) as H2.
    destruct (next_char k t c (ls_ptr s1)) as [[st p]|], (next_char k t' c (f (ls_ptr s1))) as [[st' p']|]; cbn in H2; try tauto.
    destruct H2 as (-> & Hst & -> & Hpn). rewrite sim_nzb by auto.
    set (s3 := if f_bol k then set_bol (set_ptr s1 p) (c =? 10) else set_ptr s1 p).
    set (s3' := if f_bol k then set_bol (set_ptr s1' (f p)) (c =? 10) else set_ptr s1' (f p)).
    assert (E3 : ls_sim f s3 s3' /\ ptr_ok s3 /\ ls_eol s3 < n).
    { subst s3 s3'. unfold ls_sim, ptr_ok. destruct (f_bol k); cbn; repeat split; auto; try apply Hpn. }
    destruct E3 as (E3 & P3 & L3). clearbody s3 s3'.
    destruct (N.eqb_spec st 0).
    + pose proof (sim_is_eol (npos k) s3 s3' E3 P3) as H4.
      destruct (is_eol k t (npos k) s3) as [[b4 s4]|], (is_eol k t' (npos k) s3') as [[b4' s4']|]; cbn in H4 |- *; try tauto.

    + pose proof (sim_end_state s3 s3' et (S cur) E3 P3) as H4.
      destruct (end_state k t s3 et (S cur)) as [[s4 et4]|], (end_state k t' s3' et (S cur)) as [[s4' et4']|]; cbn in H4; try tauto.
      destruct H4 as (E4 & P4 & <- & L4). apply IH; auto. congruence.
Qed.

Lemma sim_check_eol s s' et cur : ls_sim f s s' -> ptr_ok s -> ls_eol s < n ->
  sim_opt (fun a b => ls_sim f (fst a) (fst b) /\ snd a = snd b)
    (check_eol k t inp s et cur) (check_eol k t' inp s' et cur).
Proof.
  intros E Hp He. pose proof E as (F1 & F2 & F3 & F4 & F5 & F6 & F7 & F8 & F9 & F10).
  unfold check_eol. rewrite F7.
  rewrite (proj2 (N.eqb_neq (f (ls_eol s)) (npos k))) by (apply Hnp; auto).
  rewrite (proj2 (N.eqb_neq (ls_eol s) (npos k))) by (destruct Hwf as (_ & ? & _); lia).
  destruct (f_eol k && negb false && Nat.eqb cur (length inp)); [|cbn; auto].
  rewrite F1. rewrite (ts_next _ _ _ _ Hs); [|exact Hp|split; [reflexivity|eapply width7; eauto; reflexivity]].
  destruct (cell t (ls_ptr s) ix_eol) as [e|] eqn:Ee; cbn [option_map sim_opt]; auto.
  assert (Hen : e < n).
  { eapply target_ok; [exact Hwf| | |exact Ee]; [apply Hp|]. split; [reflexivity|eapply width7; eauto; reflexivity]. }
  rewrite sim_nzb by auto. destruct (N.eqb_spec e 0).
  - cbn. repeat split; auto.
  - pose proof (sim_end_state (set_ptr (set_eol s e) e) (set_ptr (set_eol s' (f e)) (f e)) et cur) as H.
    assert (H' := H ltac:(repeat split; auto) ltac:(unfold ptr_ok; cbn; lia)). clear H.
    destruct (end_state k t (set_ptr (set_eol s e) e) et cur) as [[s2 et2]|], (end_state k t' (set_ptr (set_eol s' (f e)) (f e)) et cur) as [[s2' et2']|]; cbn in H' |- *; try tauto.
Qed.

Definition same_ls (s s' : lstate) : Prop :=
  ls_end s' = ls_end s /\ ls_id s' = ls_id s /\ ls_uid s' = ls_uid s /\
  ls_end_bol s' = ls_end_bol s /\ ls_start s' = ls_start s /\ ls_pop s' = ls_pop s /\ ls_push s' = ls_push s.

Lemma sim_attempt m m' fuel bol state p :
  get_table m state = Some t -> get_table m' state = Some t' ->
  sim_res (fun a b => same_ls (fst a) (fst b) /\ snd a = snd b)
    (attempt fuel k m inp bol state p) (attempt fuel k m' inp bol state p).
Proof.
  intros Ht Ht'. unfold attempt. rewrite Ht, Ht'. unfold ls_init.
  assert (H1 : 0 < 1 < n) by (destruct Hwf; lia).
  assert (Hrow1 : forall c, c < ix_eol -> cell t' 1 c = cell t 1 c).
  { intros c Hc. rewrite <- (ts_one _ _ _ _ Hs) at 1. apply (ts_info _ _ _ _ Hs); auto. }
  rewrite !Hrow1 by reflexivity.
  destruct (cell t 1 ix_end) as [e|], (cell t 1 ix_id) as [i|], (cell t 1 ix_uid) as [u|], (cell t 1 ix_push) as [ps|]; cbn [sim_res]; auto.
  set (s0 := {| ls_ptr := 1 |}).
  assert (Hb : sim_opt (fun a b => ls_sim f a b /\ ptr_ok a /\ ls_eol a < n) (bol_start k t s0) (bol_start k t' s0)).
  { unfold bol_start. assert (E0 : ls_sim f s0 s0).
    { subst s0. unfold ls_sim; cbn. rewrite (ts_one _ _ _ _ Hs), (ts_zero _ _ _ _ Hs). repeat split; auto. }
    destruct (f_bol k && ls_bol s0).
    - rewrite (ts_bol _ _ _ _ Hs). destruct (cell t 0 0) as [b|] eqn:Eb; cbn [option_map sim_opt]; auto.
      assert (Hbn : b < n) by (destruct Hwf as (_&_&_&_&_&_&_&Hz); auto).
      rewrite sim_nzb by auto. destruct (N.eqb_spec b 0); cbn.
      + split; auto. split; [|lia]. unfold ptr_ok; cbn. lia.
      + split; [|split; [unfold ptr_ok; cbn; lia|lia]].
        destruct E0 as (? & ? & ? & ? & ? & ? & ? & ? & ? & ?). unfold ls_sim; cbn. repeat split; auto.
    - cbn. split; auto. split; [unfold ptr_ok; cbn; lia|lia]. }
  destruct (bol_start k t s0) as [s1|], (bol_start k t' s0) as [s1'|]; cbn in Hb; try tauto.
  destruct Hb as (E1 & P1 & L1).
  pose proof (sim_scan fuel p p s1 s1' E1 P1 L1) as H2.
  destruct (scan fuel k t inp p p s1) as [[[s2 et2] c2]| | |], (scan fuel k t' inp p p s1') as [[[s2' et2'] c2']| | |]; cbn in H2; try tauto; cbn [bind sim_res]; auto.
  destruct H2 as (E2 & P2 & L2 & <- & <-).
  pose proof (sim_check_eol s2 s2' et2 c2 E2 P2 L2) as H3.
  destruct (check_eol k t inp s2 et2 c2) as [[s3 et3]|], (check_eol k t' inp s2' et2 c2) as [[s3' et3']|]; cbn in H3 |- *; try tauto.
  destruct H3 as ((? & ? & ? & ? & ? & ? & ? & ? & ? & ?) & ->). unfold same_ls. repeat split; auto.
Qed.

End Sim.

(** Two machines whose start states are pairwise related. *)
Definition machine_sim (k : cfg) (m m' : internals) : Prop :=
  i_eoi m' = i_eoi m /\ length (i_dfa m') = length (i_dfa m) /\
  forall st, st < N.of_nat (length (i_dfa m)) ->
    exists t t' n f, get_table m st = Some t /\ get_table m' st = Some t' /\ twf k t n /\
      table_sim f n t t' /\ (forall r, r < n -> f r <> npos k).

Lemma attempt_none k m m' fuel inp bol st p :
  get_table m st = None -> get_table m' st = None ->
  attempt fuel k m inp bol st p = attempt fuel k m' inp bol st p.
Proof. intros H H'. unfold attempt. rewrite H, H'. reflexivity. Qed.

Lemma get_table_big m st : N.of_nat (length (i_dfa m)) <= st -> get_table m st = None.
Proof.
  intros H. unfold get_table. rewrite (proj2 (nth_error_None (i_dfa m) (N.to_nat st))) by lia.
  destruct (nth_error (i_lookup m) (N.to_nat st)), (nth_error (i_alphabet m) (N.to_nat st)); reflexivity.
Qed.

Lemma again_sim k m m' inp inner : machine_sim k m m' -> chars_ok k inp ->
  forall fuel r cur, again fuel inner k m' inp r cur = again fuel inner k m inp r cur.
Proof.
  intros (He & Hl & Hm) Hch. induction fuel as [|fuel IH]; intros r cur; cbn [again];
    rewrite He; destruct (Nat.eqb cur (length inp)); auto.
  assert (H : sim_res (fun a b => same_ls (fst a) (fst b) /\ snd a = snd b)
     (attempt inner k m inp (r_bol r) (r_state r) cur) (attempt inner k m' inp (r_bol r) (r_state r) cur)).
  { destruct (N.lt_ge_cases (r_state r) (N.of_nat (length (i_dfa m)))) as [Hlt|Hge].
    - destruct (Hm _ Hlt) as (t & t' & n & f & H1 & H2 & H3 & H4 & H5).
      eapply sim_attempt; eauto.
    - rewrite <- (attempt_none k m m'); [|apply get_table_big; auto|apply get_table_big; rewrite Hl; auto].
      unfold attempt. rewrite get_table_big by auto. cbn. auto. }
  destruct (attempt inner k m inp (r_bol r) (r_state r) cur) as [[s et]| | |],
    (attempt inner k m' inp (r_bol r) (r_state r) cur) as [[s' et']| | |]; cbn in H; try tauto; cbn [bind]; subst; auto.
  destruct H as ((E1 & E2 & E3 & E4 & E5 & E6 & E7) & ->). unfold pop, is_id_eoi.
  rewrite E1, E2, E3, E4, E5, E6, E7.
  destruct (ls_end s); auto.
  match goal with |- match ?x with _ => _ end = _ => destruct x as [[start stack]|] end; auto.
  rewrite !IH. reflexivity.
Qed.

Theorem lookup_sim k m m' inp fuel inner r : machine_sim k m m' -> chars_ok k inp ->
  lookup fuel inner k m' inp r = lookup fuel inner k m inp r.
Proof. intros. unfold lookup. apply again_sim; auto. Qed.
