(** Every step of the parser keeps the stacks in line with a derivation; so
    what is accepted is in the grammar and the tree has its meaning. *)
From Verif Require Import Base StringToken StringTokenSpec Tree TreeSpec RegexSpec
  TreeProofs StateMachine Partition Generator GenMap DfaSpec ReToken Parser Grammar ParserTree
  ParserProofs.
Local Open Scope N_scope.

Section Sound.
Variable k : gcfg.
Notation bsz := (g_bytes k).
Hypothesis WO : wide_ok k.
Variable s0 : store.
Variable m0 : charset_map.
Notation vals := (vals k s0 m0).
Notation langs vs := (map (xlang bsz) vs).
Notation a_reduce := (a_reduce k).

(** The token stack with the words its symbols stand for. *)
Inductive stk : list token -> list rx -> list token -> Prop :=
| stk_begin b : tk_type b = BEGIN -> stk [b] [] []
| stk_val a s vs u b X r w : stk (a :: s) vs u -> below a b -> nt_of (tk_type b) = Some X ->
    gram X r w -> stk (b :: a :: s) (r :: vs) (u ++ w)
| stk_term a s vs u b : stk (a :: s) vs u -> below a b -> tok_ok bsz b ->
    stk (b :: a :: s) vs (u ++ [b]).

Inductive inv : list token -> token -> list rx -> list token -> Prop :=
| inv_stk s la vs u : stk s vs u -> inv s la vs u
| inv_expr a s la vs u R r w : stk (a :: s) vs u -> tk_type R = REPEAT -> below a R ->
    gram GExpr r w -> is_dup (tk_type la) = false -> inv (R :: a :: s) la (r :: vs) (u ++ w)
| inv_dup a s la vs u D R r w : stk (a :: s) vs u -> tk_type R = REPEAT -> below a R ->
    tk_type D = DUP -> gram GExpr r w -> inv (D :: R :: a :: s) la (r :: vs) (u ++ w)
| inv_wide a s la vs u r w : stk (a :: s) vs u -> below a (tok REPEAT) -> gram GAtom r w ->
    inv (tok CLOSEPAREN :: tok REGEX :: tok OPENPAREN :: a :: s) la (r :: vs) (u ++ w)
| inv_doom D z s la vs u : tk_type D = DUP -> is_dup (tk_type z) = true ->
    inv (D :: z :: s) la vs u
| inv_done b la r u : tk_type b = BEGIN -> tk_type la = END -> gram GRegex r u ->
    inv [b] la [r] u.

Fixpoint opens (s : list token) : nat :=
  match s with
  | [] => 0
  | t :: s' => (match tk_type t with OPENPAREN => 1 | _ => 0 end) + opens s'
  end.

Lemma stk_depth s vs u : stk s vs u ->
  match s with a :: _ => tk_type a <> CLOSEPAREN | [] => True end ->
  depth 0 u = Some (opens s).
Proof.
  induction 1 as [b Hb|a s vs u b X r w H IH Bl Nt G|a s vs u b H IH Bl T]; intros NC.
  - cbn. now rewrite Hb.
  - assert (Na : tk_type a <> CLOSEPAREN).
    { intros Ea. unfold below in Bl. rewrite Ea in Bl.
      destruct (tk_type b); destruct Bl; discriminate. }
    rewrite depth_app, (IH Na), (gram_depth _ _ _ G). cbn [opens].
    destruct (tk_type b); try discriminate; reflexivity.
  - assert (Na : tk_type a <> CLOSEPAREN).
    { intros Ea. unfold below in Bl. rewrite Ea in Bl.
      destruct (tk_type b); destruct Bl; discriminate. }
    rewrite depth_app, (IH Na). cbn [opens depth].
    destruct (tk_type b); try reflexivity; easy.
Qed.

(** ** Duplication *)
Definition op_of (t : token) : tstate -> res tstate :=
  match tk_type t with
  | OPT => t_optional GHard
  | AOPT => t_optional GNo
  | ZEROORMORE => t_star GHard
  | AZEROORMORE => t_star GNo
  | ONEORMORE => t_plus GHard
  | AONEORMORE => t_plus GNo
  | REPEATN => p_repeatn GHard (tk_extra t)
  | _ => p_repeatn GNo (tk_extra t)
  end.
Lemma op_of_ok t : is_dup (tk_type t) = true -> tok_ok bsz t ->
  exists f F, dup t f /\ unary_op (op_of t) F /\ ext_op F /\
    forall r w, F _ (xlang bsz r) w <-> xlang bsz (f r) w.
Proof.
  intros D T. unfold op_of.
  assert (RP : forall g, tk_type t = REPEATN \/ tk_type t = AREPEATN ->
    exists f F, dup t f /\ unary_op (p_repeatn g (tk_extra t)) F /\ ext_op F /\
      forall r w, F _ (xlang bsz r) w <-> xlang bsz (f r) w).
  { intros g Ht. unfold tok_ok in T.
    assert (T' : exists mn mx, counts (tk_extra t) mn mx /\ counts_ok mn mx /\
      (mx = Some 1 -> mn = 1) /\ (mx = Some mn -> ~ In 44 (tk_extra t)))
      by (destruct Ht as [Ht|Ht]; rewrite Ht in T; exact T).
    destruct T' as (mn & mx & C & [O1 O2] & N1 & N2).
    destruct (counts_p _ _ _ C O1) as (comma & m & E & Cs).
    { destruct mx; [tauto|auto]. }
    assert (RA : rep_args mn comma m).
    { destruct Cs as [(-> & -> & _)|[(-> & -> & -> & _)|(-> & -> & Hi)]].
      - left. split; [auto|]. lia.
      - right. left. auto.
      - right. right. split; [auto|]. split.
        + destruct (N.eq_dec mn m) as [->|]; [|lia]. exfalso. now apply N2.
        + destruct (N.eq_dec m 1) as [->|]; [|lia]. exfalso. rewrite (N1 eq_refl) in N2. now apply N2. }
    exists (fun a => XRep a mn mx), (fun _ L w => exists n, (N.to_nat mn <= n)%nat /\
      match rep_max mn comma m with Some m => (n <= m)%nat | None => True end /\ power L n w).
    split; [constructor; auto|].
    split; [|split].
    - intros A sem s1 n ns s W. unfold p_repeatn. rewrite E.
      apply (rep_op g mn comma m RA A sem s1 n ns s W).
    - apply (rep_ext2 (fun n => (N.to_nat mn <= n)%nat)
        (fun n => match rep_max mn comma m with Some m => (n <= m)%nat | None => True end)).
    - intros r w. cbn [xlang]. split; intros (n & H1 & H2 & H3); exists n;
        (split; [lia|]; split; [|auto]);
        destruct Cs as [(-> & -> & _)|[(-> & -> & -> & _)|(-> & -> & Hi)]]; cbn [rep_max] in *; auto; try lia;
        destruct (N.eqb_spec m 0); lia. }
  destruct (tk_type t) eqn:Ht; try discriminate.
  - exists XOpt. eexists. split; [constructor; auto|]. split; [apply opt_op|]. split; [apply opt_ext|].
    intros; reflexivity.
  - exists XOpt. eexists. split; [constructor; auto|]. split; [apply opt_op|]. split; [apply opt_ext|].
    intros; reflexivity.
  - exists XStar. eexists. split; [constructor; auto|]. split; [apply star_op|]. split; [apply star_ext|].
    intros; reflexivity.
  - exists XStar. eexists. split; [constructor; auto|]. split; [apply star_op|]. split; [apply star_ext|].
    intros; reflexivity.
  - exists XPlus. eexists. split; [constructor; auto|]. split; [apply plus_op|]. split; [apply rep_ext|].
    intros; reflexivity.
  - exists XPlus. eexists. split; [constructor; auto|]. split; [apply plus_op|]. split; [apply rep_ext|].
    intros; reflexivity.
  - apply RP; auto.
  - apply RP; auto.
Qed.

Lemma reduce_dup s r more st : pop_handle (ps_stack s) [] = Ok (r :: more, st) ->
  is_dup (tk_type r) = true -> reduce k s = dup_op (op_of r) (with_stack st s).
Proof.
  intros E D. unfold reduce. rewrite E. cbn [bind fst snd]. unfold op_of.
  destruct (tk_type r); try discriminate; reflexivity.
Qed.
Lemma a_reduce_dup stack r more st : pop_handle stack [] = Ok (r :: more, st) ->
  is_dup (tk_type r) = true -> a_reduce stack = Some (tok DUP :: st).
Proof.
  intros E D. unfold ParserProofs.a_reduce. rewrite E. destruct (tk_type r); try discriminate; reflexivity.
Qed.
Lemma vals_stack s ls st : vals s ls -> vals (with_stack st s) ls.
Proof. auto. Qed.
Lemma vals_push s ls t : vals s ls -> vals (push t s) ls.
Proof. auto. Qed.

(** What a reduction does. *)
Definition fin (vs : list rx) (u : list token) : Prop :=
  (vs = [] /\ u = []) \/ exists r, vs = [r] /\ gram GRegex r u.
Definition red_ok (s : pstate) (la : token) (u : list token) : Prop :=
  (exists s' vs', reduce k s = Ok s' /\ a_reduce (ps_stack s) = Some (ps_stack s') /\
     vals s' (langs vs') /\
     (inv (ps_stack s') la vs' u \/ (ps_stack s' = [] /\ tk_type la = END /\ fin vs' u))) \/
  (exists e, reduce k s = Throw e /\ a_reduce (ps_stack s) = None).

(** The symbol below, from the table. *)
Ltac below_inv H a :=
  unfold below in H;
  destruct (tk_type a) eqn:?; try (destruct H; discriminate).

Lemma stk_top_begin b s vs u : stk (b :: s) vs u -> tk_type b = BEGIN -> s = [] /\ vs = [] /\ u = [].
Proof.
  intros H E. inversion H; subst; auto.
  - rewrite E in *. discriminate.
  - unfold tok_ok in *. rewrite E in *. tauto.
Qed.
Lemma stk_top_val b s vs u X : stk (b :: s) vs u -> nt_of (tk_type b) = Some X ->
  exists a s' r w vs' u', s = a :: s' /\ stk (a :: s') vs' u' /\ below a b /\ gram X r w /\
    vs = r :: vs' /\ u = u' ++ w.
Proof.
  intros H E. inversion H as [b0 Hb|a s1 vs1 u1 b0 X0 r w H1 Bl Nt G|a s1 vs1 u1 b0 H1 Bl T]; subst.
  - rewrite Hb in E. discriminate.
  - assert (X0 = X) by congruence. subst. eauto 12.
  - unfold tok_ok in *. destruct (tk_type b); discriminate || tauto.
Qed.
Lemma stk_top_term b s vs u : stk (b :: s) vs u -> nt_of (tk_type b) = None -> tk_type b <> BEGIN ->
  exists a s' u', s = a :: s' /\ stk (a :: s') vs u' /\ below a b /\ tok_ok bsz b /\ u = u' ++ [b].
Proof.
  intros H E N. inversion H; subst.
  - easy.
  - congruence.
  - eauto 10.
Qed.
Lemma below_dup a b : below a b -> is_dup (tk_type b) = true ->
  is_dup (tk_type a) = true \/ tk_type a = REPEAT.
Proof.
  unfold below. intros H D. destruct (tk_type a), (tk_type b); try discriminate; auto;
    destruct H; discriminate.
Qed.
Lemma stk_dup_val b s vs u : stk (b :: s) vs u -> is_dup (tk_type b) = true ->
  exists r vs', vs = r :: vs'.
Proof.
  remember (b :: s) as st. intros H. revert b s Heqst.
  induction H as [b Hb|a s vs u b X r w H IH Bl Nt G|a s vs u b H IH Bl T]; intros b' s' [= <- <-] D.
  - rewrite Hb in D. discriminate.
  - eauto.
  - destruct (below_dup a b Bl D) as [Da|Ea]; [eauto|].
    destruct (stk_top_val a s vs u GAtom H) as (? & ? & ? & ? & ? & ? & ? & ? & ? & ? & -> & ?); eauto.
    now rewrite Ea.
Qed.

Ltac redu := unfold red_ok, reduce, ParserProofs.a_reduce.

Lemma reduce_stk s la vs u : stk (ps_stack s) vs u -> vals s (langs vs) ->
  match ps_stack s with b :: _ => precedence (tk_type b) (tk_type la) = Some G_ | [] => False end ->
  depth 0 u <> None -> (tk_type la = END -> depth 0 u = Some 0%nat) ->
  red_ok s la u.
Proof.
  intros K V P P1 P2. destruct (ps_stack s) as [|b st] eqn:Est; [tauto|].
  destruct (nt_of (tk_type b)) as [X|] eqn:Nb.
  - (* a nonterminal *)
    destruct (stk_top_val b st vs u X K Nb) as (a & s' & r & w & vs' & u' & -> & K' & Bl & G & -> & ->).
    assert (Below : forall t, tk_type t = tk_type b -> below a t) by (unfold below; intros t ->; auto).
    cbn [map] in V. unfold red_ok. rewrite Est.
    destruct (tk_type b) eqn:Eb; try discriminate; injection Nb as <-.
    + (* REGEX *)
      unfold below in Bl. rewrite Eb in Bl. destruct (tk_type a) eqn:Ea; try (destruct Bl; discriminate).
      * (* below is BEGIN *)
        destruct (stk_top_begin _ _ _ _ K' Ea) as (-> & -> & ->).
        left. exists (with_stack [a] s), [r]. unfold reduce, ParserProofs.a_reduce. rewrite Est.
        rewrite pop_lt by (now rewrite Ea, Eb). cbn [bind fst snd]. rewrite Eb.
        split; [auto|]. split; [auto|]. split; [auto|]. left. cbn [ps_stack with_stack app].
        apply inv_done; auto. destruct (tk_type la); try discriminate. auto.
      * (* an open parenthesis is left *)
        exfalso. assert (El : tk_type la = END) by (destruct (tk_type la); discriminate || auto).
        specialize (P2 El). rewrite (stk_depth _ _ _ K) in P2 by (now rewrite Eb).
        cbn [opens] in P2. rewrite Eb, Ea in P2. discriminate.
    + (* OREXP -> REGEX *)
      left. exists (push REGEX (with_stack (a :: s') s)), (r :: vs').
      assert (L : precedence (tk_type a) (tk_type b) = Some L_).
      { unfold below in Bl. rewrite Eb in *. destruct (tk_type a); destruct Bl; auto; discriminate. }
      unfold reduce, ParserProofs.a_reduce. rewrite Est. rewrite pop_lt by auto.
      cbn [bind fst snd]. rewrite Eb. split; [auto|]. split; [auto|]. split; [auto|]. left.
      apply inv_stk. cbn. eapply stk_val; [exact K'| |reflexivity|exact G].
      unfold below in *. rewrite Eb in *. cbn [tok tk_type].
      destruct (tk_type a); destruct Bl; try discriminate; auto.
    + (* SEQUENCE: alone or after OREXP | *)
      unfold below in Bl. rewrite Eb in Bl.
      assert (C : precedence (tk_type a) (tk_type b) = Some L_ \/ tk_type a = OR).
      { rewrite Eb. destruct (tk_type a); destruct Bl; auto; discriminate. }
      destruct C as [L|Ea].
      * left. exists (push OREXP (with_stack (a :: s') s)), (r :: vs').
        unfold reduce, ParserProofs.a_reduce. rewrite Est. rewrite pop_lt by auto.
        cbn [bind fst snd]. rewrite Eb. split; [auto|]. split; [auto|]. split; [auto|]. left.
        apply inv_stk. cbn. eapply stk_val; [exact K'| |reflexivity|now apply g_regex].
        unfold below in *. rewrite Eb in *. cbn [tok tk_type].
        destruct (tk_type a); try discriminate; auto.
      * destruct (stk_top_term a s' vs' u' K') as (c & s1 & u1 & -> & K1 & Bl1 & T1 & ->).
        { now rewrite Ea. } { now rewrite Ea. }
        assert (Ec : tk_type c = OREXP).
        { unfold below in Bl1. rewrite Ea in Bl1. destruct (tk_type c); destruct Bl1; auto; discriminate. }
        destruct (stk_top_val c s1 vs' u1 GRegex K1) as (d & s2 & r2 & w2 & vs2 & u2 & -> & K2 & Bl2 & G2 & -> & ->).
        { now rewrite Ec. }
        cbn [map] in V.
        destruct (or_vals k s0 m0 (with_stack (d :: s2) s) (xlang bsz r2) (xlang bsz r) (langs vs2)
                    (vals_stack _ _ _ V)) as (s3 & E3 & V3 & St3).
        left. exists (push OREXP s3), (XAlt r2 r :: vs2).
        assert (L2 : precedence (tk_type d) (tk_type c) = Some L_).
        { unfold below in Bl2. rewrite Ec in *. destruct (tk_type d); destruct Bl2; auto; discriminate. }
        unfold reduce, ParserProofs.a_reduce. rewrite Est.
        rewrite pop_eq by (rewrite Ea, Eb; auto).
        rewrite pop_eq by (rewrite Ea, Ec; auto).
        rewrite pop_lt by auto. cbn [bind fst snd]. rewrite Ec, E3. cbn [bind].
        split; [auto|]. split; [cbn; now rewrite St3|]. split; [auto|]. left.
        apply inv_stk. cbn. rewrite St3. cbn [with_stack ps_stack].
        rewrite <- !app_assoc. cbn [app]. rewrite (app_assoc u2).
        change (u2 ++ w2) with (u2 ++ w2).
        rewrite <- app_assoc. eapply stk_val; [exact K2| |reflexivity|now apply g_or].
        unfold below. cbn [tok tk_type]. rewrite Ec in L2. auto.
    + (* SUB -> SEQUENCE *)
      left. exists (push SEQUENCE (with_stack (a :: s') s)), (r :: vs').
      assert (L : precedence (tk_type a) (tk_type b) = Some L_).
      { unfold below in Bl. rewrite Eb in *. destruct (tk_type a); destruct Bl; auto; discriminate. }
      unfold reduce, ParserProofs.a_reduce. rewrite Est. rewrite pop_lt by auto.
      cbn [bind fst snd]. rewrite Eb. split; [auto|]. split; [auto|]. split; [auto|]. left.
      apply inv_stk. cbn. eapply stk_val; [exact K'| |reflexivity|exact G].
      unfold below in *. rewrite Eb in *. cbn [tok tk_type].
      destruct (tk_type a); destruct Bl; try discriminate; auto.
    + (* EXPRESSION: alone or after SUB *)
      unfold below in Bl. rewrite Eb in Bl.
      assert (C : precedence (tk_type a) (tk_type b) = Some L_ \/ tk_type a = SUB).
      { rewrite Eb. destruct (tk_type a); destruct Bl; auto; discriminate. }
      destruct C as [L|Ea].
      * left. exists (push SUB (with_stack (a :: s') s)), (r :: vs').
        unfold reduce, ParserProofs.a_reduce. rewrite Est. rewrite pop_lt by auto.
        cbn [bind fst snd]. rewrite Eb. split; [auto|]. split; [auto|]. split; [auto|]. left.
        apply inv_stk. cbn. eapply stk_val; [exact K'| |reflexivity|now apply g_seq].
        unfold below in *. rewrite Eb in *. cbn [tok tk_type].
        destruct (tk_type a); try discriminate; auto.
      * destruct (stk_top_val a s' vs' u' GSeq K') as (d & s2 & r2 & w2 & vs2 & u2 & -> & K2 & Bl2 & G2 & -> & ->).
        { now rewrite Ea. }
        cbn [map] in V.
        destruct (seq_vals k s0 m0 (with_stack (d :: s2) s) (xlang bsz r2) (xlang bsz r) (langs vs2)
                    (vals_stack _ _ _ V)) as (s3 & E3 & V3 & St3).
        left. exists (push SUB s3), (XCat r2 r :: vs2).
        assert (L2 : precedence (tk_type d) (tk_type a) = Some L_).
        { unfold below in Bl2. rewrite Ea in *. destruct (tk_type d); destruct Bl2; auto; discriminate. }
        unfold reduce, ParserProofs.a_reduce. rewrite Est.
        rewrite pop_eq by (rewrite Ea, Eb; auto).
        rewrite pop_lt by auto. cbn [bind fst snd]. rewrite Ea, E3. cbn [bind].
        split; [auto|]. split; [cbn; now rewrite St3|]. split; [auto|]. left.
        apply inv_stk. cbn. rewrite St3. cbn [with_stack ps_stack].
        rewrite <- app_assoc. eapply stk_val; [exact K2| |reflexivity|now apply g_cat].
        unfold below. cbn [tok tk_type]. rewrite Ea in L2. auto.
    + (* REPEAT -> EXPRESSION *)
      left. exists (push EXPRESSION (with_stack (a :: s') s)), (r :: vs').
      assert (L : precedence (tk_type a) (tk_type b) = Some L_).
      { unfold below in Bl. rewrite Eb in *. destruct (tk_type a); destruct Bl; auto; discriminate. }
      unfold reduce, ParserProofs.a_reduce. rewrite Est. rewrite pop_lt by auto.
      cbn [bind fst snd]. rewrite Eb. split; [auto|]. split; [auto|]. split; [auto|]. left.
      apply inv_stk. cbn. eapply stk_val; [exact K'| |reflexivity|now apply g_expr].
      unfold below in *. rewrite Eb in *. cbn [tok tk_type].
      destruct (tk_type a); destruct Bl; try discriminate; auto.
  - destruct (ttype_eqb (tk_type b) BEGIN) eqn:Bb.
    { (* BEGIN *)
      assert (Eb : tk_type b = BEGIN) by (destruct (tk_type b); try discriminate; auto).
      destruct (stk_top_begin _ _ _ _ K Eb) as (-> & -> & ->).
      left. exists (with_stack [] s), []. unfold reduce, ParserProofs.a_reduce. rewrite Est.
      cbn [pop_handle bind fst snd]. rewrite Eb. split; [auto|]. split; [auto|]. split; [auto|].
      right. split; [auto|]. split; [|left; auto]. rewrite Eb in P. now destruct (tk_type la). }
    destruct (stk_top_term b st vs u K Nb) as (a & s' & u' & -> & K' & Bl & T & ->).
    { intros Eb. rewrite Eb in Bb. discriminate. }
    destruct (is_dup (tk_type b)) eqn:Db.
    { (* a duplication operator *)
      assert (L : precedence (tk_type a) (tk_type b) = Some L_).
      { unfold below in Bl. destruct (tk_type a), (tk_type b); try discriminate; destruct Bl; auto; discriminate. }
      destruct (op_of_ok b Db T) as (f & F & Df & HO & HX & HF).
      destruct (stk_dup_val _ _ _ _ K Db) as (r & vs' & ->). cbn [map] in V.
      destruct (unary_vals k s0 m0 (op_of b) F (with_stack (a :: s') s) (xlang bsz r) (langs vs') HO HX
                  (vals_stack _ _ _ V)) as (s3 & E3 & V3 & St3).
      left. exists (push DUP s3), (f r :: vs').
      rewrite (reduce_dup s b [] (a :: s')) by (rewrite ?Est, ?pop_lt; auto).
      rewrite Est, (a_reduce_dup _ b [] (a :: s')) by (rewrite ?pop_lt; auto).
      unfold dup_op. rewrite E3. cbn [bind]. split; [auto|]. split; [cbn; now rewrite St3|].
      split. { cbn [map]. eapply vals_iff; [|exact V3]. intros w. apply HF. }
      left. cbn. rewrite St3. cbn.
      destruct (below_dup a b Bl Db) as [Da|Ea].
      - now apply inv_doom.
      - destruct (stk_top_val a s' (r :: vs') u' GAtom K') as (d & s2 & r2 & w2 & vs2 & u2 & -> & K2 & Bl2 & G2 & [= -> ->] & ->).
        { now rewrite Ea. }
        rewrite <- app_assoc. apply inv_dup; auto. now apply g_dup. }
    destruct (tk_type b) eqn:Eb; try discriminate; unfold tok_ok in T; rewrite Eb in T; try tauto.
    + (* OR *) destruct (tk_type la); discriminate.
    + (* CHARSET *)
      assert (L : precedence (tk_type a) (tk_type b) = Some L_).
      { unfold below in Bl. rewrite Eb in *. destruct (tk_type a); destruct Bl; auto; discriminate. }
      destruct (p_charset_ok k s0 m0 (tk_str b) (with_stack (a :: s') s) (langs vs) WO T
                  (vals_stack _ _ _ V)) as (s3 & E3 & V3 & St3).
      left. exists s3, (XSet (tk_str b) :: vs).
      unfold reduce, ParserProofs.a_reduce. rewrite Est. rewrite pop_lt by auto.
      cbn [bind fst snd]. rewrite Eb. split; [auto|]. split; [now rewrite St3|]. split; [auto|].
      left. rewrite St3. cbn [with_stack ps_stack]. unfold set_stack.
      assert (Bl' : below a (tok REPEAT)).
      { unfold below in *. rewrite Eb in *. cbn [tok tk_type].
        destruct (tk_type a); destruct Bl; try discriminate; auto. }
      destruct (compressed k).
      * apply inv_wide; auto. now apply g_set.
      * apply inv_stk. eapply stk_val; [exact K'|auto|reflexivity|now apply g_set].
    + (* BOL *)
      assert (L : precedence (tk_type a) (tk_type b) = Some L_).
      { unfold below in Bl. rewrite Eb in *. destruct (tk_type a); destruct Bl; auto; discriminate. }
      destruct (p_bol_ok k s0 m0 (with_stack (a :: s') s) (langs vs) (vals_stack _ _ _ V)) as (V3 & St3).
      left. eexists _, (XBol :: vs).
      unfold reduce, ParserProofs.a_reduce. rewrite Est. rewrite pop_lt by auto.
      cbn [bind fst snd]. rewrite Eb. split; [reflexivity|]. split; [auto|]. split; [exact V3|].
      left. rewrite St3. apply inv_stk. eapply stk_val; [exact K'| |reflexivity|now apply g_bol].
      unfold below in *. rewrite Eb in *. cbn [tok tk_type].
      destruct (tk_type a); destruct Bl; try discriminate; auto.
    + (* EOL *)
      assert (L : precedence (tk_type a) (tk_type b) = Some L_).
      { unfold below in Bl. rewrite Eb in *. destruct (tk_type a); destruct Bl; auto; discriminate. }
      destruct (p_eol_ok k s0 m0 (with_stack (a :: s') s) (langs vs) (vals_stack _ _ _ V)) as (V3 & St3).
      left. eexists _, (XEol :: vs).
      unfold reduce, ParserProofs.a_reduce. rewrite Est. rewrite pop_lt by auto.
      cbn [bind fst snd]. rewrite Eb. split; [reflexivity|]. split; [auto|]. split; [exact V3|].
      left. rewrite St3. apply inv_stk. eapply stk_val; [exact K'| |reflexivity|now apply g_eol].
      unfold below in *. rewrite Eb in *. cbn [tok tk_type].
      destruct (tk_type a); destruct Bl; try discriminate; auto.
    + (* MACRO *)
      right. exists EInternal.
      assert (L : precedence (tk_type a) (tk_type b) = Some L_).
      { unfold below in Bl. rewrite Eb in *. destruct (tk_type a); destruct Bl; auto; discriminate. }
      unfold reduce, ParserProofs.a_reduce. rewrite Est. rewrite pop_lt by auto.
      cbn [bind fst snd]. rewrite Eb. auto.
    + (* OPENPAREN *) destruct (tk_type la); discriminate.
    + (* CLOSEPAREN *)
      assert (Ea : tk_type a = REGEX).
      { unfold below in Bl. rewrite Eb in Bl. destruct (tk_type a); destruct Bl; auto; discriminate. }
      destruct (stk_top_val a s' vs u' GRegex K') as (c & s2 & r & w & vs2 & u2 & -> & K2 & Bl2 & G & -> & ->).
      { now rewrite Ea. }
      cbn [map] in V. pose proof Bl2 as Bl2'. unfold below in Bl2'. rewrite Ea in Bl2'.
      destruct (tk_type c) eqn:Ec; try (destruct Bl2'; discriminate).
      * exfalso. destruct (stk_top_begin _ _ _ _ K2 Ec) as (-> & -> & ->). apply P1.
        cbn [app]. rewrite depth_app, (gram_depth _ _ _ G). cbn. now rewrite Eb.
      * destruct (stk_top_term c s2 vs2 u2 K2) as (d & s3 & u3 & -> & K3 & Bl3 & T3 & ->).
        { now rewrite Ec. } { now rewrite Ec. }
        assert (L : precedence (tk_type d) (tk_type c) = Some L_).
        { unfold below in Bl3. rewrite Ec in *. destruct (tk_type d); destruct Bl3; auto; discriminate. }
        left. exists (push REPEAT (with_stack (d :: s3) s)), (r :: vs2).
        unfold reduce, ParserProofs.a_reduce. rewrite Est.
        rewrite pop_eq by (rewrite Ea, Eb; auto).
        rewrite pop_eq by (rewrite Ea, Ec; auto).
        rewrite pop_lt by auto. cbn [bind fst snd]. rewrite Ec.
        split; [auto|]. split; [auto|]. split; [auto|]. left.
        apply inv_stk. cbn. rewrite <- !app_assoc. cbn [app].
        eapply stk_val; [exact K3| |reflexivity|now apply g_paren].
        unfold below in *. rewrite Ec in *. cbn [tok tk_type].
        destruct (tk_type d); destruct Bl3; try discriminate; auto.
Qed.

Lemma reduce_ok s la vs u : inv (ps_stack s) la vs u -> vals s (langs vs) ->
  match ps_stack s with b :: _ => precedence (tk_type b) (tk_type la) = Some G_ | [] => False end ->
  depth 0 u <> None -> (tk_type la = END -> depth 0 u = Some 0%nat) ->
  red_ok s la u.
Proof.
  intros K V P P1 P2. remember (ps_stack s) as st eqn:Est. symmetry in Est.
  destruct K as [st la vs u K|a st la vs u R r w K ER Bl G ND|a st la vs u D R r w K ER Bl ED G
                |a st la vs u r w K Bl G|D z st la vs u ED Dz|b la r u Eb El G].
  - rewrite <- Est in *. eapply reduce_stk; eauto.
  - (* REPEAT -> EXPRESSION *)
    assert (L : precedence (tk_type a) (tk_type R) = Some L_).
    { unfold below in Bl. rewrite ER in *. destruct (tk_type a); destruct Bl; auto; discriminate. }
    left. exists (push EXPRESSION (with_stack (a :: st) s)), (r :: vs).
    unfold reduce, ParserProofs.a_reduce. rewrite Est. rewrite pop_lt by auto.
    cbn [bind fst snd]. rewrite ER. split; [auto|]. split; [auto|]. split; [auto|]. left.
    apply inv_stk. cbn. eapply stk_val; [exact K| |reflexivity|exact G].
    unfold below in *. rewrite ER in *. cbn [tok tk_type].
    destruct (tk_type a); destruct Bl; try discriminate; auto.
  - (* REPEAT DUP -> REPEAT *)
    assert (L : precedence (tk_type a) (tk_type R) = Some L_).
    { unfold below in Bl. rewrite ER in *. destruct (tk_type a); destruct Bl; auto; discriminate. }
    left. exists (push REPEAT (with_stack (a :: st) s)), (r :: vs).
    unfold reduce, ParserProofs.a_reduce. rewrite Est.
    rewrite pop_eq by (now rewrite ER, ED). rewrite pop_lt by auto.
    cbn [bind fst snd]. rewrite ER. split; [auto|]. split; [auto|]. split; [auto|]. left.
    cbn. apply inv_expr; auto.
    + unfold below in *. rewrite ER in Bl. exact Bl.
    + rewrite ED in P. destruct (tk_type la); try discriminate; auto.
  - (* the parentheses around a sliced class *)
    assert (L : precedence (tk_type a) OPENPAREN = Some L_).
    { unfold below in Bl. cbn [tok tk_type] in Bl. destruct (tk_type a); destruct Bl; auto; discriminate. }
    left. exists (push REPEAT (with_stack (a :: st) s)), (r :: vs).
    unfold reduce, ParserProofs.a_reduce. rewrite Est.
    rewrite pop_eq by reflexivity. rewrite pop_eq by reflexivity. rewrite pop_lt by auto.
    cbn [bind fst snd tok tk_type]. split; [auto|]. split; [auto|]. split; [auto|]. left.
    apply inv_stk. cbn. eapply stk_val; [exact K|auto|reflexivity|exact G].
  - (* doomed *)
    right. exists EInternal. unfold reduce, ParserProofs.a_reduce. rewrite Est. cbn [pop_handle].
    rewrite ED. replace (precedence (tk_type z) DUP) with (Some N_)
      by (destruct (tk_type z); try discriminate; reflexivity).
    cbn [bind fst snd]. rewrite ED. auto.
  - (* finished *)
    left. exists (with_stack [] s), [r]. unfold reduce, ParserProofs.a_reduce. rewrite Est.
    cbn [pop_handle bind fst snd]. rewrite Eb. split; [auto|]. split; [auto|]. split; [auto|].
    right. split; [auto|]. split; [auto|]. right. eauto.
Qed.
End Sound.
