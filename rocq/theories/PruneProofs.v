(** abstemious.hpp: what prune() does to a token vector. *)
From Verif Require Import Base StringToken StringTokenSpec ReToken ReTokeniser Grammar GramUnique ParserProofs Parser
  Generator Rules TokeniseSpec TokeniseProofs TokeniseGram.
Local Open Scope N_scope.

(** ** Positions *)
Definition head (q : list token) : token := hd (tok END) q.
Lemma between_app a q : between (a ++ q) = (tok BEGIN :: a) ++ (q ++ [tok END]).
Proof. unfold between. now rewrite <- app_assoc. Qed.
Lemma nth_between_at a q i : i = S (length a) -> nth_error (between (a ++ q)) i = Some (head q).
Proof.
  intros ->. rewrite between_app. rewrite nth_error_app2 by (cbn; lia). cbn [length]. rewrite Nat.sub_diag.
  destruct q; reflexivity.
Qed.
Lemma nth_between_before a q : exists x, nth_error (between (a ++ q)) (length a) = Some x /\
  tk_type x = tlast BEGIN a /\ (a <> [] -> exists a', a = a' ++ [x]).
Proof.
  destruct a as [|x a _] using rev_ind.
  - exists (tok BEGIN). split; [reflexivity|]. split; [reflexivity|]. congruence.
  - exists x. rewrite <- app_assoc, app_length. cbn [length]. rewrite Nat.add_1_r.
    split; [now apply (nth_between_at a (x :: q))|]. split; [now rewrite tlast_snoc|eauto].
Qed.
Lemma firstn_between a q : firstn (S (length a)) (between (a ++ q)) = tok BEGIN :: a.
Proof. rewrite between_app. apply (firstn_app_all _ (tok BEGIN :: a)). reflexivity. Qed.
Lemma skipn_between a q : skipn (S (length a)) (between (a ++ q)) = q ++ [tok END].
Proof.
  rewrite between_app. change (S (length a)) with (length (tok BEGIN :: a)). now rewrite skipn_app, skipn_all, Nat.sub_diag.
Qed.
Lemma cut_between a m q i : i = (length a + length m)%nat ->
  firstn (S (length a)) (between (a ++ m ++ q)) ++ skipn (S i) (between (a ++ m ++ q)) = between (a ++ q).
Proof.
  intros ->. rewrite firstn_between, app_assoc. rewrite <- app_length, skipn_between. unfold between. cbn. now rewrite app_assoc.
Qed.
Lemma erase_between a x q i : i = S (length a) -> erase_at (between (a ++ x :: q)) i = between (a ++ q).
Proof. intros ->. unfold erase_at. apply (cut_between a [x] q). cbn. lia. Qed.
Lemma upd_between a x y q i : i = S (length a) -> upd (between (a ++ x :: q)) i y = between (a ++ y :: q).
Proof.
  intros ->. unfold between. cbn. f_equal. induction a; cbn; [reflexivity|]. now f_equal.
Qed.

(** ** is_end *)
Lemma end_block_ge l : forall idx p, (idx <= end_block l idx p)%nat.
Proof.
  induction l as [|t l IH]; intros idx p; cbn; [lia|].
  pose proof (IH (S idx) p). pose proof (IH (S idx) (S p)). pose proof (IH (S idx) (p - 1)%nat).
  destruct (tk_type t); try lia; destruct (Nat.eqb p 0); lia.
Qed.
Lemma is_end_total f : forall l idx, (length l <= idx + f)%nat -> exists e, is_end_loop (S f) l idx = Ok e.
Proof.
  induction f as [|f IH]; intros l idx Hf; cbn [is_end_loop].
  - rewrite (proj2 (nth_error_None l idx)) by lia. eauto.
  - destruct (nth_error l idx) as [t|] eqn:E; [|eauto].
    destruct (tk_type t); eauto.
    + apply IH. pose proof (end_block_ge (skipn (idx + 2) l) (idx + 2) 0). lia.
    + apply IH. lia.
Qed.
(** What can follow an operator at the end. *)
Definition closing (ty : ttype) : Prop := ty = CLOSEPAREN \/ ty = OR \/ ty = END.
Definition parens (ty : ttype) (l : list token) : Prop := Forall (fun t => tk_type t = ty) l.
Lemma is_end_closing cs : forall fuel a q, is_end_loop fuel (between (a ++ cs ++ q)) (S (length a)) = Ok true ->
  parens CLOSEPAREN cs -> closing (tk_type (head q)).
Proof.
  induction cs as [|c cs IH]; intros fuel a q E Hc; (destruct fuel as [|f]; [discriminate|]); cbn [is_end_loop] in E.
  - rewrite app_nil_l, (nth_between_at a q) in E by reflexivity. unfold closing. destruct (tk_type (head q)); auto; discriminate.
  - inversion Hc as [|? ? Hc1 Hc2]; subst. rewrite (nth_between_at a (_ ++ q)) in E by reflexivity. cbn [app head hd] in E. rewrite Hc1 in E.
    apply (IH f (a ++ [c]) q); [|auto]. rewrite <- app_assoc, app_length. cbn. now rewrite Nat.add_1_r.
Qed.
Definition at_end (q : list token) : Prop := forall cs q1, q = cs ++ q1 -> parens CLOSEPAREN cs -> closing (tk_type (head q1)).
Lemma is_end_ok a op q : exists e, is_end (between (a ++ op :: q)) (S (length a)) = Ok e /\ (e = true -> at_end q).
Proof.
  unfold is_end. destruct (is_end_total (length (between (a ++ op :: q))) (between (a ++ op :: q)) (S (S (length a)))) as (e & E); [lia|].
  exists e. split; [exact E|]. intros -> cs q1 -> Hc. apply (is_end_closing cs (S (length (between (a ++ op :: cs ++ q1)))) (a ++ [op]) q1); [|auto].
  rewrite <- app_assoc, app_length. cbn [length app]. rewrite Nat.add_1_r. exact E.
Qed.

(** ** The operand *)
Lemma match_close a : forall n, depth 0 a = Some (S n) ->
  exists a0 o inner, a = a0 ++ o :: inner /\ tk_type o = OPENPAREN /\ balanced inner /\ depth 0 a0 = Some n.
Proof.
  induction a as [a IH] using (well_founded_induction (Wf_nat.well_founded_ltof _ (@length token))). intros n D.
  destruct a as [|t a _] using rev_ind; [discriminate|].
  assert (L : Wf_nat.ltof _ (@length token) a (a ++ [t])) by (unfold Wf_nat.ltof; rewrite app_length; cbn; lia).
  rewrite depth_app in D. destruct (depth 0 a) as [m|] eqn:Da; [|discriminate]. cbn in D.
  assert (OTHER : (m = S n -> depth 0 [t] = Some O -> exists a0 o inner, a ++ [t] = a0 ++ o :: inner /\ tk_type o = OPENPAREN /\ balanced inner /\ depth 0 a0 = Some n)).
  { intros -> Ht. destruct (IH a L n Da) as (a0 & o & inner & -> & H1 & H2 & H3).
    exists a0, o, (inner ++ [t]). rewrite <- app_assoc. split; [reflexivity|]. split; [auto|]. split; [|auto].
    unfold balanced in *. now rewrite depth_app, H2. }
  destruct (tk_type t) eqn:Et; try (apply OTHER; [congruence|cbn; now rewrite Et]).
  - injection D as ->. exists a, t, []. repeat split; auto.
  - destruct m as [|m]; [discriminate|]. injection D as ->.
    destruct (IH a L _ Da) as (a0 & o & inner & E & H1 & H2 & H3).
    assert (L0 : Wf_nat.ltof _ (@length token) a0 (a ++ [t])) by (unfold Wf_nat.ltof; rewrite E, !app_length; cbn; lia).
    destruct (IH a0 L0 n H3) as (a1 & o1 & inner1 & -> & G1 & G2 & G3).
    exists a1, o1, (inner1 ++ o :: inner ++ [t]). split; [rewrite E, <- !app_assoc; reflexivity|]. split; [auto|].
    split; [|auto]. unfold balanced in *. rewrite depth_app, G2. cbn. rewrite H1. rewrite depth_app.
    rewrite (depth_add inner 1 H2). cbn. now rewrite Et.
Qed.
Lemma block_begin_ok inner : forall d fuel pre o post, depth 0 inner = Some d -> (length inner < fuel)%nat -> tk_type o = OPENPAREN ->
  block_begin fuel (pre ++ o :: inner ++ post) (length pre + S (length inner)) (S d) = Ok (length pre).
Proof.
  induction inner as [|t inner IH] using rev_ind; intros d fuel pre o post D Hf Ho.
  - destruct fuel as [|f]; [cbn in Hf; lia|]. cbn in D. injection D as <-. cbn [length]. rewrite Nat.add_1_r. cbn [block_begin].
    rewrite nth_error_app2, Nat.sub_diag by lia. cbn. now rewrite Ho.
  - rewrite app_length in *. cbn [length] in *. destruct fuel as [|f]; [lia|].
    replace (length pre + S (length inner + 1))%nat with (S (length pre + S (length inner))) by lia. cbn [block_begin].
    rewrite <- app_assoc. rewrite nth_error_app2 by lia. replace (length pre + S (length inner) - length pre)%nat with (S (length inner)) by lia.
    cbn [nth_error app]. rewrite nth_error_app2, Nat.sub_diag by lia. cbn [nth_error].
    rewrite depth_app in D. destruct (depth 0 inner) as [m|] eqn:Dm; [|discriminate]. cbn in D.
    specialize (IH m f pre o ([t] ++ post) eq_refl).
    destruct (tk_type t) eqn:Et; try (injection D as ->; apply IH; [lia|auto]).
    + injection D as <-. cbn [Nat.eqb]. replace (S (S m) - 1)%nat with (S m) by lia. apply IH; [lia|auto].
    + destruct m as [|m]; [discriminate|]. injection D as ->. apply IH; [lia|auto].
Qed.

(** ** Parentheses around it *)
Lemma widen_ok fuel : forall a mid q, (length a < fuel)%nat ->
  exists a1 os cs q1, a = a1 ++ os /\ q = cs ++ q1 /\ parens OPENPAREN os /\ parens CLOSEPAREN cs /\ length os = length cs /\
    widen fuel (between (a ++ mid ++ q)) (S (length a)) (length a + length mid) =
      Ok (S (length a1), length a1 + length (os ++ mid ++ cs))%nat /\
    ~ (tlast BEGIN a1 = OPENPAREN /\ tk_type (head q1) = CLOSEPAREN).
Proof.
  induction fuel as [|f IH]; intros a mid q Hf; [lia|]. cbn [widen].
  destruct (nth_between_before a (mid ++ q)) as (o & E1 & E2 & E3). rewrite E1.
  assert (E4 : nth_error (between (a ++ mid ++ q)) (S (length a + length mid)) = Some (head q)).
  { rewrite app_assoc. apply nth_between_at. now rewrite app_length. }
  rewrite E4. destruct (is_type OPENPAREN o && is_type CLOSEPAREN (head q)) eqn:EB.
  - apply andb_true_iff in EB. destruct EB as [B1 B2]. apply is_type_iff in B1, B2.
    assert (Ha : a <> []) by (intros ->; cbn in E2; congruence). destruct (E3 Ha) as (a' & ->).
    destruct q as [|c q]; [discriminate|]. cbn in B2.
    rewrite app_length in Hf. cbn [length] in Hf.
    destruct (IH a' (o :: mid ++ [c]) q) as (a1 & os & cs & q1 & H1 & H2 & H3 & H4 & H5 & H6 & H7); [lia|].
    exists a1, (os ++ [o]), (c :: cs), q1. split; [now rewrite H1, app_assoc|]. split; [now rewrite H2|].
    split; [apply Forall_app; split; [auto|now repeat constructor]|]. split; [now constructor|].
    split; [rewrite app_length; cbn; lia|]. split; [|auto].
    rewrite app_length. cbn [length].
    replace ((a' ++ [o]) ++ mid ++ c :: q) with (a' ++ (o :: mid ++ [c]) ++ q) by (rewrite <- !app_assoc; cbn; now rewrite <- app_assoc).
    replace (length a' + 1)%nat with (S (length a')) by lia.
    replace (S (S (length a') + length mid)) with (length a' + length (o :: mid ++ [c]))%nat by (cbn; rewrite app_length; cbn; lia).
    rewrite H6. f_equal. f_equal. rewrite !app_length. cbn. rewrite !app_length. cbn. lia.
  - exists a, [], [], q. split; [now rewrite app_nil_r|]. split; [reflexivity|]. split; [constructor|]. split; [constructor|]. split; [reflexivity|].
    split; [rewrite app_nil_l, app_nil_r; reflexivity|].
    intros [B1 B2]. rewrite <- E2 in B1. apply is_type_iff in B1, B2. rewrite B1, B2 in EB. discriminate.
Qed.

(** ** The removal *)
Definition ends_or (a : list token) : bool := match tlast BEGIN a with OR => true | _ => false end.
Definition glue (a q : list token) : list token :=
  if is_type OR (head q) then a ++ tl q else if ends_or a then removelast a ++ q else a ++ q.
(** An operand: one token or a pair of parentheses. *)
Definition single (ty : ttype) : bool := match ty with CHARSET | BOL | EOL => true | _ => false end.
Definition operand_of (m : list token) : Prop :=
  (exists t, m = [t] /\ single (tk_type t) = true) \/
  (exists o inner c, m = o :: inner ++ [c] /\ tk_type o = OPENPAREN /\ tk_type c = CLOSEPAREN /\ balanced inner).
Lemma remove_sequence_ok a m op q : operand_of m -> at_end q ->
  exists a1 os cs q1, a = a1 ++ os /\ q = cs ++ q1 /\ parens OPENPAREN os /\ parens CLOSEPAREN cs /\ length os = length cs /\
    remove_sequence (between (a ++ m ++ op :: q)) (S (length a + length m)) =
      Ok (between (glue a1 q1), S (length a1), length a1 + length (os ++ (m ++ [op]) ++ cs))%nat /\
    ~ (tlast BEGIN a1 = OPENPAREN /\ tk_type (head q1) = CLOSEPAREN).
Proof.
  intros Hm Hq. unfold remove_sequence.
  assert (ST : exists t, nth_error (between (a ++ m ++ op :: q)) (length a + length m) = Some t /\
     (if is_type CLOSEPAREN t then block_begin (S (length (between (a ++ m ++ op :: q)))) (between (a ++ m ++ op :: q)) (length a + length m) 1
      else Ok (length a + length m)%nat) = Ok (S (length a))).
  { destruct Hm as [(t & -> & Ht)|(o & inner & c & -> & Ho & Hc & Hb)].
    - exists t. cbn [length]. rewrite Nat.add_1_r. split; [now apply (nth_between_at a ([t] ++ op :: q))|].
      destruct (is_type CLOSEPAREN t) eqn:E; [|reflexivity]. apply is_type_iff in E. rewrite E in Ht. discriminate.
    - exists c. split.
      + replace (a ++ (o :: inner ++ [c]) ++ op :: q) with ((a ++ o :: inner) ++ c :: op :: q) by (rewrite <- !app_assoc; cbn; now rewrite <- app_assoc).
        apply (nth_between_at (a ++ o :: inner) (c :: op :: q)). rewrite !app_length. cbn. rewrite app_length. cbn. lia.
      + apply is_type_iff in Hc. rewrite Hc.
        assert (EL : between (a ++ (o :: inner ++ [c]) ++ op :: q) = (tok BEGIN :: a) ++ o :: inner ++ (c :: op :: q ++ [tok END])).
        { unfold between. cbn. rewrite <- !app_assoc. cbn. now rewrite <- !app_assoc. }
        rewrite EL. replace (length a + length (o :: inner ++ [c]))%nat with (length (tok BEGIN :: a) + S (length inner))%nat
          by (cbn; rewrite app_length; cbn; lia).
        rewrite (block_begin_ok inner 0); [reflexivity|exact Hb| |exact Ho]. rewrite !app_length. cbn. rewrite app_length. lia. }
  destruct ST as (t & Et & ES). rewrite Et, ES. cbn [bind].
  destruct (widen_ok (S (length (between (a ++ m ++ op :: q)))) a (m ++ [op]) q) as (a1 & os & cs & q1 & H1 & H2 & H3 & H4 & H5 & H6 & H7).
  { rewrite between_len, app_length. lia. }
  exists a1, os, cs, q1. do 5 (split; [auto|]). split; [|auto].
  replace (a ++ (m ++ [op]) ++ q) with (a ++ m ++ op :: q) in H6 by (rewrite <- app_assoc; reflexivity).
  replace (length a + length (m ++ [op]))%nat with (S (length a + length m)) in H6 by (rewrite app_length; cbn; lia).
  rewrite H6. cbn [bind].
  assert (EC : firstn (S (length a1)) (between (a ++ m ++ op :: q)) ++ skipn (S (length a1 + length (os ++ (m ++ [op]) ++ cs))) (between (a ++ m ++ op :: q)) = between (a1 ++ q1)).
  { replace (a ++ m ++ op :: q) with (a1 ++ (os ++ (m ++ [op]) ++ cs) ++ q1); [now apply cut_between|].
    rewrite H1, H2. rewrite <- !app_assoc. reflexivity. }
  cbv zeta. rewrite EC. rewrite (nth_between_at a1 q1) by reflexivity.
  assert (Hq1 : closing (tk_type (head q1))) by now apply (Hq cs q1).
  unfold glue. destruct (is_type OR (head q1)) eqn:E1.
  - destruct q1 as [|x q1]; [discriminate|]. rewrite (erase_between a1 x q1) by reflexivity. reflexivity.
  - destruct (is_type BEGIN (head q1)) eqn:E2.
    { apply is_type_iff in E2. rewrite E2 in Hq1. unfold closing in Hq1. exfalso. intuition discriminate. }
    replace (S (length a1) - 1)%nat with (length a1) by lia.
    destruct (nth_between_before a1 q1) as (x & G1 & G2 & G3). rewrite G1. unfold ends_or. rewrite <- G2.
    destruct (is_type OR x) eqn:E3.
    + apply is_type_iff in E3. assert (Ha : a1 <> []) by (intros ->; cbn in G2; congruence). destruct (G3 Ha) as (a' & ->).
      rewrite removelast_last, E3. rewrite <- (app_assoc a' [x] q1). cbn [app]. rewrite (erase_between a' x q1); [reflexivity|]. rewrite app_length. cbn. lia.
    + apply is_type_not in E3. destruct (tk_type x); congruence.
Qed.

(** ** One step *)
(** What a step does to the tokens: *)
Inductive pruned : list token -> list token -> Prop :=
| pr_keep w : pruned w w
| pr_plus a op q : tk_type op = AONEORMORE -> closing (tk_type (head q)) -> pruned (a ++ op :: q) (a ++ q)
| pr_count a op q : tk_type op = AREPEATN -> closing (tk_type (head q)) -> to_comma (tk_extra op) <> [48] ->
    pruned (a ++ op :: q) (a ++ {| tk_type := REPEATN; tk_extra := to_comma (tk_extra op); tk_str := tk_str op |} :: q)
| pr_drop a os m op cs q : operand_of m -> parens OPENPAREN os -> parens CLOSEPAREN cs -> length os = length cs ->
    (tk_type op = AOPT \/ tk_type op = AZEROORMORE \/ tk_type op = AREPEATN /\ to_comma (tk_extra op) = [48]) ->
    closing (tk_type (head q)) -> ~ (tlast BEGIN a = OPENPAREN /\ tk_type (head q) = CLOSEPAREN) ->
    pruned (a ++ os ++ m ++ op :: cs ++ q) (glue a q).
Lemma text_eqb_iff u : forall v, text_eqb u v = true <-> u = v.
Proof.
  induction u as [|x u IH]; intros [|y v]; cbn; split; intros H; try congruence; try discriminate.
  - apply andb_true_iff in H. destruct H as [H1 H2]. apply N.eqb_eq in H1. apply IH in H2. congruence.
  - injection H as -> ->. rewrite N.eqb_refl. now apply IH.
Qed.

(** The positions of lazy operators. *)
Definition lazy_at (w : list token) (i : nat) : Prop := exists j t, i = S j /\ nth_error w j = Some t /\ lazy_type (tk_type t) = true.

Lemma before_dup Q a op q : vec Q (a ++ op :: q) -> lazy_type (tk_type op) = true ->
  exists a' m, a = a' ++ m /\ operand_of m.
Proof.
  intros V Hop. destruct a as [|t a _] using rev_ind.
  - exfalso. pose proof (ve_chain _ _ V) as C. cbn in C. destruct C as [C _]. destruct (tk_type op); discriminate.
  - pose proof (ve_chain _ _ V) as C. rewrite <- !app_assoc in C. apply chain_app in C. destruct C as [_ C]. cbn in C.
    destruct C as (C1 & C2 & _). pose proof (ve_toks _ _ V) as T. rewrite <- app_assoc in T. apply Forall_app in T. destruct T as [_ T]. inversion T as [|? ? T1 _]; subst. apply vtok_term in T1.
    destruct (tk_type t) eqn:Et; try (exfalso; destruct (tk_type op); discriminate);
      try (exists a, [t]; split; [reflexivity|left; exists t; rewrite Et; auto; fail]).
    pose proof (ve_bal _ _ V) as B. unfold balanced in B. rewrite <- app_assoc, depth_app in B. destruct (depth 0 a) as [n|] eqn:D; [|discriminate]. cbn in B. rewrite Et in B.
    destruct n as [|n]; [discriminate|]. destruct (match_close _ _ D) as (a0 & o & inner & -> & H1 & H2 & H3).
    exists a0, (o :: inner ++ [t]). split; [now rewrite <- app_assoc|]. right. exists o, inner, t. auto.
Qed.

Lemma nth_glue a q M j t : (j < length a)%nat -> nth_error (a ++ M) j = Some t -> tk_type t <> OR -> nth_error (glue a q) j = Some t.
Proof.
  intros Hj E Ht. rewrite nth_error_app1 in E by lia. unfold glue.
  destruct (is_type OR (head q)); [now rewrite nth_error_app1 by lia|].
  destruct (ends_or a) eqn:Eo; [|now rewrite nth_error_app1 by lia].
  destruct a as [|x a _] using rev_ind; [cbn in Hj; lia|]. rewrite removelast_last. unfold ends_or in Eo. rewrite tlast_snoc in Eo.
  rewrite app_length in Hj. cbn in Hj. destruct (Nat.eq_dec j (length a)) as [->|Hne].
  - rewrite nth_error_app2, Nat.sub_diag in E by lia. injection E as ->. destruct (tk_type t); congruence.
  - rewrite nth_error_app1 in E |- * by lia. exact E.
Qed.
Theorem prune_one_ok Q w i : vec Q w -> lazy_at w i ->
  exists w' st ix, prune_one (between w) i = Ok (between w', st, ix) /\ pruned w w' /\ (st <= i <= ix)%nat /\
    (forall k, (k < st)%nat -> lazy_at w k -> lazy_at w' k).
Proof.
  intros V (j & op & -> & Ej & Hop). destruct (nth_error_split _ _ Ej) as (a & q & -> & <-).
  assert (Hdup : is_dup (tk_type op) = true) by (destruct (tk_type op); (reflexivity || discriminate)).
  unfold prune_one. destruct (is_end_ok a op q) as (e & Ee & He). rewrite Ee. cbn [bind].
  assert (KEEP : forall r, r = Ok (between (a ++ op :: q), S (length a), S (length a)) ->
    exists w' st ix, r = Ok (between w', st, ix) /\ pruned (a ++ op :: q) w' /\ (st <= S (length a) <= ix)%nat /\
    (forall k, (k < st)%nat -> lazy_at (a ++ op :: q) k -> lazy_at w' k)).
  { intros r ->. exists (a ++ op :: q), (S (length a)), (S (length a)). split; [reflexivity|]. split; [apply pr_keep|]. split; [lia|auto]. }
  destruct e; [|now apply KEEP]. specialize (He eq_refl).
  assert (Hq : closing (tk_type (head q))) by (apply (He [] q); [reflexivity|constructor]).
  rewrite (nth_between_at a (op :: q)) by reflexivity. cbn [head hd].
  assert (DROP : forall op1, (tk_type op = AOPT \/ tk_type op = AZEROORMORE \/ tk_type op = AREPEATN /\ to_comma (tk_extra op) = [48]) ->
    exists w' st ix, remove_sequence (between (a ++ op1 :: q)) (S (length a)) = Ok (between w', st, ix) /\ pruned (a ++ op :: q) w' /\ (st <= S (length a) <= ix)%nat /\
    (forall k, (k < st)%nat -> lazy_at (a ++ op :: q) k -> lazy_at w' k)).
  { intros op1 Hk. destruct (before_dup _ _ _ _ V Hop) as (a' & m & -> & Hm).
    destruct (remove_sequence_ok a' m op1 q Hm He) as (a1 & os & cs & q1 & -> & -> & H3 & H4 & H5 & H6 & H7).
    rewrite <- app_assoc, app_length, H6. exists (glue a1 q1), (S (length a1)), (length a1 + length (os ++ (m ++ [op1]) ++ cs))%nat.
    split; [reflexivity|]. assert (Hq1 : closing (tk_type (head q1))) by now apply (He cs q1).
    split; [rewrite <- !app_assoc; now apply pr_drop|]. split; [rewrite !app_length; cbn; lia|].
    intros k Hk1 (j & t & -> & G1 & G2). exists j, t. split; [reflexivity|]. split; [|auto].
    rewrite <- !app_assoc in G1. eapply nth_glue; [|exact G1|]; [lia|]. intros E. now rewrite E in G2. }
  destruct (tk_type op) eqn:Et; try discriminate; try (now apply KEEP); try (apply DROP; auto).
  - rewrite (erase_between a op q) by reflexivity. exists (a ++ q), (S (length a)), (S (length a)). split; [reflexivity|].
    split; [now apply pr_plus|]. split; [lia|]. intros k Hk (j & t & -> & G1 & G2). exists j, t. split; [reflexivity|]. split; [|auto].
    rewrite nth_error_app1 in G1 |- * by lia. exact G1.
  - cbv zeta. rewrite (upd_between a op _ q) by reflexivity. destruct (text_eqb (to_comma (tk_extra op)) [48]) eqn:Ex.
    + apply DROP. right. right. split; [auto|]. now apply text_eqb_iff.
    + eexists _, (S (length a)), (S (length a)). split; [reflexivity|]. split; [apply pr_count; auto; intros E; apply text_eqb_iff in E; congruence|].
      split; [lia|]. intros k Hk (j & t & -> & G1 & G2). exists j, t. split; [reflexivity|]. split; [|auto].
      rewrite nth_error_app1 in G1 |- * by lia. exact G1.
Qed.

(** ** The vector stays one *)
Inductive sub : list token -> list token -> Prop :=
| sub_nil : sub [] []
| sub_skip t u v : sub u v -> sub u (t :: v)
| sub_take t u v : sub u v -> sub (t :: u) (t :: v).
Lemma sub_refl u : sub u u.
Proof. induction u; [constructor|now constructor 3]. Qed.
Lemma sub_none u : sub [] u.
Proof. induction u; [constructor|now constructor 2]. Qed.
Lemma sub_app u v u' v' : sub u v -> sub u' v' -> sub (u ++ u') (v ++ v').
Proof. induction 1; intros; cbn; [auto|constructor 2; auto|constructor 3; auto]. Qed.
Lemma sub_empty u : sub u [] -> u = [].
Proof. intros H. now inversion H. Qed.
Lemma sub_split w' w : sub w' w -> forall u t v, w' = u ++ t :: v ->
  exists u0 v0, w = u0 ++ t :: v0 /\ sub u u0 /\ sub v v0.
Proof.
  induction 1 as [|x w' w H IH|x w' w H IH]; intros u t v E.
  - now destruct u.
  - destruct (IH u t v E) as (u0 & v0 & -> & H1 & H2). exists (x :: u0), v0. repeat split; [now constructor|auto].
  - destruct u as [|y u]; cbn in E; injection E as -> ->.
    + exists [], w. repeat split; [constructor|auto].
    + destruct (IH u t v eq_refl) as (u0 & v0 & -> & H1 & H2). exists (y :: u0), v0. repeat split; [now constructor|auto].
Qed.
Lemma sub_forall (P : token -> Prop) w' w : sub w' w -> Forall P w -> Forall P w'.
Proof. induction 1; intros F; [auto|inversion F; auto|inversion F; subst; constructor; auto]. Qed.
Lemma sub_bol w' w : sub w' w -> bol_first w -> bol_first w'.
Proof.
  intros H B u t v E Ht. destruct (sub_split _ _ H _ _ _ E) as (u0 & v0 & E0 & S1 & S2).
  rewrite (B _ _ _ E0 Ht) in S1. now apply sub_empty.
Qed.
Lemma sub_eol w' w : sub w' w -> eol_last w -> eol_last w'.
Proof.
  intros H B u t v E Ht. destruct (sub_split _ _ H _ _ _ E) as (u0 & v0 & E0 & S1 & S2).
  rewrite (B _ _ _ E0 Ht) in S2. now apply sub_empty.
Qed.
Lemma removelast_sub a : sub (removelast a) a.
Proof.
  destruct a as [|x a _] using rev_ind; [constructor|]. rewrite removelast_last.
  rewrite <- (app_nil_r a) at 1. apply sub_app; [apply sub_refl|apply sub_none].
Qed.
Lemma tl_sub q : sub (tl q) q.
Proof. destruct q; cbn; [constructor|]. apply sub_skip, sub_refl. Qed.
Lemma glue_sub a M q : sub (glue a q) (a ++ M ++ q).
Proof.
  unfold glue. assert (H : forall q', sub q' q -> sub q' (M ++ q)) by (intros; apply (sub_app [] M q' q); [apply sub_none|auto]).
  destruct (is_type OR (head q)); [apply sub_app; [apply sub_refl|apply H, tl_sub]|].
  destruct (ends_or a); apply sub_app; auto using sub_refl, removelast_sub.
Qed.

Lemma depth_cut a M q : balanced M -> depth 0 (a ++ M ++ q) = depth 0 (a ++ q).
Proof.
  intros B. rewrite !depth_app. destruct (depth 0 a) as [n|]; [|reflexivity]. rewrite depth_app. now rewrite (depth_add M n B).
Qed.
Lemma depth_one t n w : tk_type t <> OPENPAREN -> tk_type t <> CLOSEPAREN -> depth n (t :: w) = depth n w.
Proof. intros H1 H2. cbn. destruct (tk_type t); congruence. Qed.
Lemma balanced_one t : tk_type t <> OPENPAREN -> tk_type t <> CLOSEPAREN -> balanced [t].
Proof. intros H1 H2. unfold balanced. now rewrite depth_one. Qed.
Lemma balanced_app u v : balanced u -> balanced v -> balanced (u ++ v).
Proof. unfold balanced. intros H1 H2. rewrite depth_app, H1. exact H2. Qed.
Lemma balanced_paren o u c : tk_type o = OPENPAREN -> tk_type c = CLOSEPAREN -> balanced u -> balanced (o :: u ++ [c]).
Proof. intros Ho Hc B. unfold balanced. cbn. rewrite Ho, depth_app, (depth_add u 1 B). cbn. now rewrite Hc. Qed.
Lemma balanced_parens_around os : forall cs u, parens OPENPAREN os -> parens CLOSEPAREN cs -> length os = length cs -> balanced u ->
  balanced (os ++ u ++ cs).
Proof.
  induction os as [|o os IH]; intros cs u Ho Hc L B.
  - destruct cs; [|discriminate]. cbn. now rewrite app_nil_r.
  - destruct cs as [|c cs _] using rev_ind; [discriminate|]. apply Forall_app in Hc. destruct Hc as [Hc1 Hc2]. inversion Hc2; subst. inversion Ho; subst.
    cbn [app]. rewrite app_assoc, app_assoc, <- (app_assoc os u cs). apply balanced_paren; auto. apply IH; auto. rewrite app_length in L. cbn in L. lia.
Qed.
Lemma operand_balanced m : operand_of m -> balanced m.
Proof.
  intros [(t & -> & Ht)|(o & u & c & -> & Ho & Hc & B)]; [|now apply balanced_paren].
  apply balanced_one; intros E; rewrite E in Ht; discriminate.
Qed.
Lemma glue_balanced a q : balanced (a ++ q) -> balanced (glue a q).
Proof.
  unfold balanced, glue. intros B. destruct (is_type OR (head q)) eqn:E1.
  - destruct q as [|x q]; [discriminate|]. cbn in E1. apply is_type_iff in E1. cbn [tl]. change (x :: q) with ([x] ++ q) in B. rewrite depth_cut in B; [auto|].
    apply balanced_one; congruence.
  - destruct (ends_or a) eqn:E2; [|auto]. destruct a as [|x a _] using rev_ind; [discriminate|]. unfold ends_or in E2. rewrite tlast_snoc in E2. rewrite removelast_last.
    rewrite <- app_assoc, depth_cut in B; [auto|]. apply balanced_one; destruct (tk_type x); congruence.
Qed.

Definition dropped (os m : list token) (op : token) (cs : list token) : list token := os ++ (m ++ [op]) ++ cs.
Lemma dropped_balanced os m op cs : operand_of m -> parens OPENPAREN os -> parens CLOSEPAREN cs -> length os = length cs ->
  is_dup (tk_type op) = true -> balanced (dropped os m op cs).
Proof.
  intros Hm Ho Hc L Hop. unfold dropped. apply balanced_parens_around; auto. apply balanced_app; [now apply operand_balanced|].
  apply balanced_one; destruct (tk_type op); discriminate.
Qed.
Lemma dropped_head os m op cs : operand_of m -> parens OPENPAREN os -> exists t l, dropped os m op cs = t :: l /\
  (tk_type t = OPENPAREN \/ single (tk_type t) = true).
Proof.
  intros Hm Ho. unfold dropped. destruct os as [|o os].
  - destruct Hm as [(t & -> & Ht)|(o & u & c & -> & Ho' & Hc & B)]; cbn; eauto.
  - inversion Ho; subst. cbn. eauto.
Qed.
Lemma glue_adj x y z : start x = true -> term y = true -> adj x z = true -> (z = OPENPAREN \/ single z = true) -> adj OR y = true -> adj x y = true.
Proof.
  intros Sx Ty A Hz Hy. destruct Hz as [->|Hz].
  - destruct x; try discriminate; destruct y; (discriminate || reflexivity).
  - destruct z; try discriminate; destruct x; try discriminate; destruct y; (discriminate || reflexivity).
Qed.
Lemma or_adj x y : adj x OR = true -> y = CLOSEPAREN \/ y = END -> adj x y = true.
Proof. intros A [->| ->]; destruct x; (discriminate || reflexivity). Qed.
Lemma chain_tail x y q : (forall t l, q = t :: l -> adj x (tk_type t) = true -> adj y (tk_type t) = true) -> chain x q -> chain y q.
Proof. destruct q as [|t q]; cbn; [auto|]. intros H [C1 C2]. split; [eapply H; eauto|auto]. Qed.
Lemma chain_glue a M q : chain BEGIN (a ++ M ++ q ++ [tok END]) ->
  (exists t l, M = t :: l /\ (tk_type t = OPENPAREN \/ single (tk_type t) = true)) ->
  balanced (a ++ q) -> closing (tk_type (head q)) -> ~ (tlast BEGIN a = OPENPAREN /\ tk_type (head q) = CLOSEPAREN) ->
  Forall (fun t => term (tk_type t) = true) a -> Forall (fun t => term (tk_type t) = true) q ->
  chain BEGIN (glue a q ++ [tok END]).
Proof.
  intros C (t & l & -> & Ht) B Hq Hn Ha Fq. apply chain_app in C. destruct C as [Ca C]. cbn in C. destruct C as [Ct C].
  apply chain_app in C. destruct C as [_ C]. set (z := tlast (tk_type t) l) in C. unfold glue.
  destruct (is_type OR (head q)) eqn:E1.
  - destruct q as [|x q]; [discriminate|]. cbn in E1. apply is_type_iff in E1. cbn [tl]. cbn in C. rewrite E1 in C. destruct C as [_ C].
    rewrite <- app_assoc. apply chain_app. split; [auto|]. eapply chain_tail; [|exact C]. intros y q' E Hy.
    destruct q as [|x' q]; cbn in E; injection E as <- _; [discriminate|]. inversion Fq as [|? ? _ Fq']; subst. inversion Fq'; subst.
    eapply glue_adj; eauto. destruct a as [|z' a _] using rev_ind; [reflexivity|]. rewrite tlast_snoc. apply Forall_app in Ha. destruct Ha as [_ Ha]. inversion Ha as [|? ? Hz _]; subst. destruct (tk_type z'); (discriminate || reflexivity).
  - assert (Hq' : tk_type (head q) = CLOSEPAREN \/ tk_type (head q) = END).
    { apply is_type_not in E1. destruct Hq as [?|[?|?]]; auto; congruence. }
    assert (Cq : forall y, adj y (tk_type (head q)) = true -> chain y (q ++ [tok END])).
    { intros y Hy. eapply chain_tail; [|exact C]. intros x q' E _. destruct q; cbn in E; injection E as <- _; exact Hy. }
    destruct (ends_or a) eqn:E2.
    + destruct a as [|x a _] using rev_ind; [discriminate|]. unfold ends_or in E2. rewrite tlast_snoc in E2. rewrite removelast_last, <- app_assoc.
      apply chain_app in Ca. destruct Ca as [Ca [Cx _]]. apply chain_app. split; [auto|]. apply Cq. apply or_adj; [|auto].
      destruct (tk_type x); try discriminate. exact Cx.
    + rewrite <- app_assoc. apply chain_app. split; [auto|]. apply Cq.
      assert (Hx : tlast BEGIN a = BEGIN /\ a = [] \/ term (tlast BEGIN a) = true).
      { destruct a as [|x a _] using rev_ind; [left; auto|right]. rewrite tlast_snoc. apply Forall_app in Ha. destruct Ha as [_ Ha]. now inversion Ha. }
      unfold ends_or in E2. unfold balanced in B.
      assert (NB : ~ (a = [] /\ tk_type (head q) = CLOSEPAREN)).
      { intros [-> E]. destruct q as [|y q]; [discriminate|]. cbn in B, E. rewrite E in B. discriminate. }
      assert (NO : ~ (tlast BEGIN a = OPENPAREN /\ tk_type (head q) = END)).
      { intros [E E']. destruct q as [|y q].
        - destruct a as [|x a _] using rev_ind; [discriminate|]. rewrite tlast_snoc in E. rewrite app_nil_r, depth_app in B. destruct (depth 0 a); [|discriminate]. cbn in B. rewrite E in B. discriminate.
        - cbn in E'. pose proof C as C'. cbn in C'. rewrite E' in C'. destruct C' as [_ C']. destruct q as [|y' q]; cbn in C'; destruct C' as [C' _]; [discriminate|]. destruct (tk_type y'); discriminate. }
      destruct Hq' as [E|E]; rewrite E in *; destruct Hx as [[Hx1 Hx2]|Hx].
      * exfalso; apply NB; auto.
      * destruct (tlast BEGIN a) eqn:El; try discriminate; try reflexivity; exfalso; auto.
      * rewrite Hx1. reflexivity.
      * destruct (tlast BEGIN a) eqn:El; try discriminate; try reflexivity; exfalso; auto.
Qed.

Lemma bol_change a op t q : tk_type t <> BOL -> bol_first (a ++ op :: q) -> bol_first (a ++ t :: q).
Proof.
  intros Ht B. destruct a as [|x a]; cbn in *; apply bol_first_cons in B; apply bol_first_cons; [auto|].
  apply Forall_app in B. destruct B as [B1 B2]. inversion B2; subst. apply Forall_app. split; [auto|]. now constructor.
Qed.
Lemma eol_change a op t q : tk_type t <> EOL -> eol_last (a ++ op :: q) -> eol_last (a ++ t :: q).
Proof.
  intros Ht B. destruct q as [|x q _] using rev_ind.
  - apply eol_last_snoc in B. now apply eol_last_snoc.
  - rewrite app_comm_cons, app_assoc in B |- *. apply eol_last_snoc in B. apply eol_last_snoc.
    apply Forall_app in B. destruct B as [B1 B2]. inversion B2; subst. apply Forall_app. split; [auto|]. now constructor.
Qed.

Definition zero_plain (t : token) : Prop :=
  tk_type t = AREPEATN -> decimal (to_comma (tk_extra t)) 0 -> to_comma (tk_extra t) = [48].
Lemma digits_comma ds : Forall digit ds -> ~ In 44 ds.
Proof. intros F I. rewrite Forall_forall in F. apply F in I. unfold digit in I. lia. Qed.
Lemma to_comma_digits ds rest : Forall digit ds -> (rest = [] \/ exists r, rest = 44 :: r) -> to_comma (ds ++ rest) = ds.
Proof.
  induction 1 as [|d ds Hd F IH]; intros Hr; cbn.
  - destruct Hr as [->|(r & ->)]; reflexivity.
  - destruct (d =? 44) eqn:E; [apply N.eqb_eq in E; unfold digit in Hd; lia|]. now rewrite IH.
Qed.
Lemma counts_comma e mn mx : counts e mn mx -> decimal (to_comma e) mn.
Proof.
  intros [ds n D|ds n D|ds n ds' n' D D']; pose proof (proj1 (proj2 D)) as F.
  - rewrite <- (app_nil_r ds), to_comma_digits; auto.
  - rewrite to_comma_digits; eauto.
  - rewrite to_comma_digits; eauto.
Qed.
Theorem pruned_vec Q w w' : pruned w w' -> vec Q w -> Forall zero_plain w -> vec Q w' /\ Forall zero_plain w'.
Proof.
  intros [w0|a op q Hop Hq|a op q Hop Hq Hx|a os m op cs q Hm Ho Hc L Hop Hq Hn] V Z.
  - auto.
  - assert (S : sub (a ++ q) (a ++ op :: q)) by (apply sub_app; [apply sub_refl|apply sub_skip, sub_refl]).
    split; [|eapply sub_forall; eauto]. destruct V as [V1 V2 V3 V4 V5]. split; [eapply sub_forall; eauto| | |eapply sub_bol; eauto|eapply sub_eol; eauto].
    + rewrite <- app_assoc in *. apply chain_app in V2. destruct V2 as [C1 C2]. apply chain_app. split; [auto|]. cbn in C2. rewrite Hop in C2. destruct C2 as [C2 C3].
      eapply chain_tail; [|exact C3]. intros t l E _. assert (Ht : closing (tk_type t)) by (destruct q; cbn in E; injection E as <- _; exact Hq).
      unfold closing in Ht. destruct Ht as [->|[->| ->]]; destruct (tlast BEGIN a); (discriminate || reflexivity).
    + unfold balanced in *. change (op :: q) with ([op] ++ q) in V3. rewrite depth_cut in V3; [auto|]. apply balanced_one; congruence.
  - set (t := {| tk_type := REPEATN; tk_extra := to_comma (tk_extra op); tk_str := tk_str op |}).
    destruct V as [V1 V2 V3 V4 V5]. apply Forall_app in V1. destruct V1 as [V1 V1']. inversion V1' as [|? ? T1 T2]; subst.
    unfold vtok in T1. rewrite Hop in T1. destruct T1 as (mn & mx & T3 & T4 & T5 & T6).
    pose proof (counts_comma _ _ _ T3) as D. apply Forall_app in Z. destruct Z as [Z1 Z2]. inversion Z2 as [|? ? Z3 Z4]; subst.
    assert (Hmn : 1 <= mn). { destruct (N.eq_dec mn 0) as [->|]; [|lia]. exfalso. apply Hx. now apply Z3. }
    split; [|apply Forall_app; split; [auto|constructor; [intros E; discriminate|auto]]].
    assert (NT : forall ty, ty <> AREPEATN -> ty <> REPEATN -> tk_type t = ty -> False) by (intros ty H1 H2 E; cbn in E; congruence).
    split.
    + apply Forall_app. split; [auto|]. constructor; [|auto]. unfold vtok. cbn [tk_type t tk_extra]. exists mn, (Some mn).
      split; [now constructor|]. split; [|split; [congruence|intros _; apply digits_comma, (proj1 (proj2 D))]].
      destruct T4 as [T4 _]. repeat split; auto; lia.
    + rewrite <- app_assoc in *. apply chain_app in V2. destruct V2 as [C1 C2]. apply chain_app. split; [auto|]. cbn in C2 |- *. rewrite Hop in C2. destruct C2 as [C2 C3].
      split; [destruct (tlast BEGIN a); (discriminate || reflexivity)|]. eapply chain_tail; [|exact C3]. intros y l _. destruct (tk_type y); (discriminate || reflexivity).
    + unfold balanced in *. rewrite depth_app in *. destruct (depth 0 a); [|discriminate]. cbn in *. now rewrite Hop in V3.
    + eapply bol_change; [|exact V4]. discriminate.
    + eapply eol_change; [|exact V5]. discriminate.
  - assert (EM : a ++ os ++ m ++ op :: cs ++ q = a ++ dropped os m op cs ++ q) by (unfold dropped; now rewrite <- !app_assoc).
    rewrite EM in *. set (M := dropped os m op cs) in *.
    assert (S : sub (glue a q) (a ++ M ++ q)) by apply glue_sub.
    assert (BM : balanced M) by (apply dropped_balanced; auto; destruct Hop as [->|[->|[-> _]]]; reflexivity).
    split; [|eapply sub_forall; eauto]. destruct V as [V1 V2 V3 V4 V5].
    assert (Baq : balanced (a ++ q)) by (unfold balanced in *; now rewrite depth_cut in V3).
    split; [eapply sub_forall; eauto| |now apply glue_balanced|eapply sub_bol; eauto|eapply sub_eol; eauto].
    rewrite <- !app_assoc in V2. eapply chain_glue; eauto; [now apply dropped_head| |].
    all: apply Forall_app in V1; destruct V1 as [V1 V1']; apply Forall_app in V1'; destruct V1' as [_ V1'].
    + eapply Forall_impl; [|exact V1]. intros t. apply vtok_term.
    + eapply Forall_impl; [|exact V1']. intros t. apply vtok_term.
Qed.

(** ** All steps *)
Inductive prunes : list token -> list token -> Prop :=
| ps_nil w : prunes w w
| ps_step w w1 w2 : pruned w w1 -> prunes w1 w2 -> prunes w w2.
Fixpoint descending (is : list nat) : Prop :=
  match is with i :: is' => Forall (fun k => (k < i)%nat) is' /\ descending is' | [] => True end.
Lemma drop_inside_ok lo hi is : descending is -> Forall (fun k => (k <= hi)%nat) is ->
  descending (drop_inside lo hi is) /\ Forall (fun k => (k < lo)%nat) (drop_inside lo hi is) /\
  (length (drop_inside lo hi is) <= length is)%nat /\ forall k, In k (drop_inside lo hi is) -> In k is.
Proof.
  induction is as [|i is IH]; intros D F; [cbn; repeat split; [constructor|auto|auto]|]. cbn [drop_inside]. cbn [descending] in D. destruct D as [D1 D2].
  inversion F as [|? ? F1 F2]; subst. destruct (Nat.leb lo i && Nat.leb i hi) eqn:E.
  - destruct (IH D2 F2) as (H1 & H2 & H3 & H4). repeat split; auto; [cbn; lia|]. intros k Hk. right. auto.
  - apply andb_false_iff in E. rewrite !Nat.leb_gt in E. assert (Hi : (i < lo)%nat) by lia.
    repeat split; auto. constructor; [auto|]. eapply Forall_impl; [|exact D1]. cbn. intros k Hk. lia.
Qed.
Theorem prune_loop_ok Q fuel : forall w is, vec Q w -> Forall zero_plain w -> descending is -> Forall (lazy_at w) is ->
  (length is <= fuel)%nat -> exists w', prune_loop fuel (between w) is = Ok (between w') /\ prunes w w' /\ vec Q w'.
Proof.
  induction fuel as [|f IH]; intros w is V Z D F L.
  - destruct is; [|cbn in L; lia]. exists w. split; [reflexivity|]. split; [constructor|auto].
  - destruct is as [|i is]; [exists w; split; [reflexivity|split; [constructor|auto]]|]. cbn [prune_loop]. inversion F as [|? ? F1 F2]; subst. destruct D as [D1 D2].
    destruct (prune_one_ok Q w i V F1) as (w1 & st & ix & -> & P & Hi & K). cbn [bind].
    destruct (pruned_vec Q _ _ P V Z) as [V1 Z1].
    destruct (drop_inside_ok st ix is D2) as (G1 & G2 & G3 & G4); [eapply Forall_impl; [|exact D1]; cbn; intros; lia|].
    destruct (IH w1 (drop_inside st ix is) V1 Z1 G1) as (w2 & E & P2 & V2).
    + apply Forall_forall. intros k Hk. rewrite Forall_forall in G2, F2. apply K; auto.
    + cbn in L. lia.
    + exists w2. split; [auto|]. split; [|auto]. econstructor; eauto.
Qed.
Lemma descending_snoc is i : descending is -> Forall (fun k => (i < k)%nat) is -> descending (is ++ [i]).
Proof.
  induction is as [|j is IH]; cbn; intros D F; [auto|]. destruct D as [D1 D2]. inversion F; subst. split; [|auto].
  apply Forall_app. split; [auto|]. now constructor.
Qed.
Lemma descending_filter f n : forall k, descending (rev (filter f (seq k n))).
Proof.
  induction n as [|n IH]; intros k; cbn; [auto|].
  assert (H : Forall (fun i => (k < i)%nat) (rev (filter f (seq (S k) n)))).
  { apply Forall_forall. intros i Hi. apply in_rev, filter_In in Hi. destruct Hi as [Hi _]. apply in_seq in Hi. lia. }
  destruct (f k); cbn; [|apply IH]. apply descending_snoc; auto.
Qed.
Theorem prune_ok Q w : vec Q w -> Forall zero_plain w ->
  exists w', prune (between w) = Ok (between w') /\ prunes w w' /\ vec Q w'.
Proof.
  intros V Z. unfold prune. apply (prune_loop_ok Q); auto; [apply descending_filter|].
  unfold lazy_indexes. apply Forall_forall. intros i Hi. apply in_rev in Hi. apply filter_In in Hi. destruct Hi as [_ Hi].
  unfold between in Hi. destruct i as [|j]; [discriminate|]. cbn [nth_error] in Hi. destruct (Nat.lt_ge_cases j (length w)) as [L|L].
  - rewrite nth_error_app1 in Hi by auto. destruct (nth_error w j) as [t|] eqn:E; [|discriminate]. exists j, t. auto.
  - rewrite nth_error_app2 in Hi by auto. destruct (j - length w)%nat as [|k]; [discriminate|]. cbn in Hi. destruct k; discriminate.
Qed.
