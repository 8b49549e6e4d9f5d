(** The text of a class is read as the class. *)
From Verif Require Import Base StringToken ReTokeniser Rules GenCpp Debug StringTokenSpec StringTokenProofs RuleSpec SourceSpec DebugSpec.
Local Open Scope N_scope.

(** ** Numbers *)
Lemma digits_app f b : forall n acc, digits f b n acc = digits f b n [] ++ acc.
Proof.
  induction f as [|f IH]; intros n acc; cbn [digits]; [reflexivity|].
  destruct (n <? b); [reflexivity|]. rewrite (IH _ (_ :: acc)), (IH _ [_]), <- app_assoc. reflexivity.
Qed.
Lemma digit_hex d : d < 16 -> hex_digit (digit d) d.
Proof.
  intros H. unfold digit. destruct (N.ltb_spec d 10).
  - replace d with (48 + d - 48) at 2 by lia. apply hx_digit. lia.
  - replace d with (87 + d - 87) at 2 by lia. apply hx_lower. lia.
Qed.
Lemma digits_hex f : forall n, n < 16 ^ N.of_nat f -> hex_number (digits f 16 n []) n.
Proof.
  induction f as [|f IH]; intros n H.
  - cbn in H. assert (n = 0) as -> by (change (16 ^ 0) with 1 in H; lia). constructor.
  - cbn [digits]. destruct (N.ltb_spec n 16).
    + pose proof (hn_digit [] 0 _ _ hn_nil (digit_hex n H0)) as K. exact K.
    + rewrite digits_app. rewrite (N.div_mod n 16) at 3 by lia. rewrite (N.mul_comm 16). apply hn_digit.
      * apply IH. apply N.div_lt_upper_bound; [lia|]. rewrite Nat2N.inj_succ, N.pow_succ_r' in H. exact H.
      * apply digit_hex. apply N.mod_lt. lia.
Qed.
Lemma print_hex n : hex_number (print 16 n) n.
Proof.
  apply digits_hex. rewrite Nat2N.inj_succ, N2Nat.id. destruct (N.eq_dec n 0) as [->|Z]; [reflexivity|].
  destruct (N.log2_spec n ltac:(lia)) as [_ K]. eapply N.lt_le_trans; [exact K|]. apply N.pow_le_mono_l. lia.
Qed.
Lemma digits_cons f b n acc : digits (S f) b n acc <> [].
Proof. cbn [digits]. destruct (n <? b); [discriminate|]. rewrite digits_app. intros E. apply app_eq_nil in E as [_ E]. discriminate. Qed.
Lemma print_cons b n : print b n <> [].
Proof. apply digits_cons. Qed.

(** ** One character *)
Local Ltac lett := apply ec_letter; vm_compute; tauto.
Definition itself (c : N) : Prop := 32 <= c <= 126 /\ c <> 34 /\ c <> 39 /\ c <> 92.
Lemma escape_echar b rest c : c <= top b -> closed c rest ->
  (itself c /\ escape_char 16 c = [c]) \/ (~ itself c /\ exists e, escape_char 16 c = 92 :: e /\ echar b rest e c).
Proof.
  intros T [H O]. unfold escape_char.
  repeat match goal with |- context [if ?x =? ?y then _ else _] => destruct (N.eqb_spec x y) as [->|?] end.
  - right. split; [unfold itself; lia|]. eexists. split; [reflexivity|]. apply ec_octal; [|discriminate|cbn; lia|right; auto|exact T].
    apply (on_digit [] 0 48 on_nil). unfold octal_digit. lia.
  - right. split; [unfold itself; lia|]. eexists. split; [reflexivity|]. lett.
  - right. split; [unfold itself; lia|]. eexists. split; [reflexivity|]. lett.
  - right. split; [unfold itself; lia|]. eexists. split; [reflexivity|]. apply ec_hex; [|discriminate|apply H; unfold by_number; lia|exact T].
    apply (hn_digit [49] 1 98 11); [apply (hn_digit [] 0 49 1 hn_nil)|]; [apply (hx_digit 49)|apply (hx_lower 98)]; lia.
  - right. split; [unfold itself; lia|]. eexists. split; [reflexivity|]. lett.
  - right. split; [unfold itself; lia|]. eexists. split; [reflexivity|]. lett.
  - right. split; [unfold itself; lia|]. eexists. split; [reflexivity|]. lett.
  - right. split; [unfold itself; lia|]. eexists. split; [reflexivity|]. lett.
  - right. split; [unfold itself; lia|]. eexists. split; [reflexivity|]. lett.
  - right. split; [unfold itself; lia|]. eexists. split; [reflexivity|]. apply ec_self. vm_compute. intuition discriminate.
  - right. split; [unfold itself; lia|]. eexists. split; [reflexivity|]. apply ec_self. vm_compute. intuition discriminate.
  - right. split; [unfold itself; lia|]. eexists. split; [reflexivity|]. apply ec_self. vm_compute. intuition discriminate.
  - destruct ((c <? 32) || (126 <? c)) eqn:E.
    + right. split; [unfold itself; lia|]. eexists. split; [reflexivity|]. apply ec_hex; auto using print_hex, print_cons.
      apply H. unfold by_number. lia.
    + left. split; [unfold itself; lia|reflexivity].
Qed.

(** ** A character of a class *)
Lemma cased_off b P d : cased b false P d <-> P d.
Proof. unfold cased. split; [intros [H|[H _]]; [exact H|discriminate]|auto]. Qed.
Lemma esc_cchar b first rest c : c <= top b -> closed c rest -> (c = 93 -> first = true) -> (c = 91 -> ~ begins (eq 58) rest) ->
  cchar b first rest (escape_char 16 c) c.
Proof.
  intros T C B O. destruct (escape_echar b rest c T C) as [((H1 & H2 & H3 & H4) & ->)|(_ & e & -> & E)].
  - apply cc_plain; auto. intros F ->. specialize (B eq_refl). congruence.
  - now apply cc_escape.
Qed.
Lemma back_cchar b first rest c : c = 45 \/ c = 93 \/ c = 94 -> cchar b first rest [92; c] c.
Proof. intros H. apply cc_escape, ec_self. vm_compute. intuition (subst; discriminate). Qed.
(** The first character of what is written for a character. *)
Lemma escape_head b c : c <= top b -> exists h t, escape_char 16 c = h :: t /\ ((h = 92 /\ ~ itself c) \/ (h = c /\ itself c)).
Proof.
  intros T. assert (C : closed c []) by (split; intros _ (x & y & D & _); discriminate).
  destruct (escape_echar b [] c T C) as [(I & ->)|(I & e & -> & E)].
  - do 2 eexists. split; [reflexivity|auto].
  - do 2 eexists. split; [reflexivity|auto].
Qed.

(** ** A range *)
Definition opt (x : bool) (l : list N) : list N := if x then l else [].
Lemma dump_one c : dump_range 16 (c, c) = opt ((c =? 45) || (c =? 94)) [92] ++ escape_char 16 c.
Proof. unfold dump_range, opt. rewrite N.eqb_refl. cbn [negb]. rewrite andb_false_r, orb_false_r. reflexivity. Qed.
Lemma dump_many lo hi : lo < hi -> hi <> 45 -> hi <> 93 -> hi <> 94 ->
  dump_range 16 (lo, hi) = opt ((lo =? 45) || (lo =? 94) || (lo =? 93)) [92] ++ escape_char 16 lo ++ opt (lo + 1 <? hi) [45] ++ escape_char 16 hi.
Proof.
  intros L H1 H2 H3. unfold dump_range, opt. destruct (N.eqb_spec lo hi); [lia|]. cbn [negb]. rewrite andb_true_r.
  destruct (N.eqb_spec hi 45); [lia|]. destruct (N.eqb_spec hi 94); [lia|]. destruct (N.eqb_spec hi 93); [lia|]. reflexivity.
Qed.
(** A low end, and what goes in front of it. *)
Lemma low_cchar b first rest c : c <= top b -> closed c rest -> (c = 91 -> ~ begins (eq 58) rest) ->
  cchar b first rest (opt ((c =? 45) || (c =? 94) || (c =? 93)) [92] ++ escape_char 16 c) c.
Proof.
  intros T C O. destruct ((c =? 45) || (c =? 94) || (c =? 93)) eqn:E; cbn [opt app].
  - assert (escape_char 16 c = [c]) as -> by (destruct (N.eq_dec c 45) as [->|]; [reflexivity|]; destruct (N.eq_dec c 94) as [->|]; [reflexivity|]; assert (c = 93) as -> by lia; reflexivity).
    apply back_cchar. lia.
  - apply esc_cchar; auto. lia.
Qed.
Lemma one_cchar b first rest c : c <= top b -> closed c rest -> (c = 93 -> first = true) -> (c = 91 -> ~ begins (eq 58) rest) ->
  cchar b first rest (opt ((c =? 45) || (c =? 94)) [92] ++ escape_char 16 c) c.
Proof.
  intros T C B O. destruct ((c =? 45) || (c =? 94)) eqn:E; cbn [opt app].
  - assert (escape_char 16 c = [c]) as -> by (destruct (N.eq_dec c 45) as [->|]; [reflexivity|]; assert (c = 94) as -> by lia; reflexivity).
    apply back_cchar. lia.
  - now apply esc_cchar.
Qed.

(** The first character of what is written for a class. *)
Definition heads (u : stoken) (h : N) : Prop := h = 92 \/ h = 93 \/ exists lo hi u', u = (lo, hi) :: u' /\ h = lo /\ lo <> 45 /\ lo <> 94.
Lemma body_head b first u : Forall (fun r => snd r <= top b) u -> wf u -> legible_ranges first u ->
  exists h t, flat_map (dump_range 16) u ++ [93] = h :: t /\ heads u h.
Proof.
  intros F W L. destruct u as [|[lo hi] u']; [exists 93, []; split; [reflexivity|]; unfold heads; auto|].
  apply Forall_cons_iff in F as [F _]. cbn in F. destruct W as (_ & W & _). cbn [legible_ranges] in L. destruct L as (L1 & L2 & _).
  assert (T : lo <= top b) by lia. cbn [flat_map].
  destruct (escape_head b lo T) as (h & t & E & H).
  destruct (N.eq_dec lo hi) as [<-|X].
  - rewrite dump_one, E. unfold opt. destruct ((lo =? 45) || (lo =? 94)) eqn:K.
    + do 2 eexists. split; [reflexivity|]. left. reflexivity.
    + do 2 eexists. split; [reflexivity|]. destruct H as [[-> _]|[-> _]]; [left; reflexivity|]. right. right. exists lo, lo, u'. repeat split; lia.
  - destruct (L1 ltac:(lia)) as (? & ? & ?). rewrite dump_many by lia. rewrite E. unfold opt. destruct ((lo =? 45) || (lo =? 94) || (lo =? 93)) eqn:K.
    + do 2 eexists. split; [reflexivity|]. left. reflexivity.
    + do 2 eexists. split; [reflexivity|]. destruct H as [[-> _]|[-> _]]; [left; reflexivity|]. right. right. exists lo, hi, u'. repeat split; lia.
Qed.
Lemma not_hex c : c = 92 \/ c = 93 \/ c = 45 \/ c = 32 -> ~ hexadecimal c.
Proof. intros H (v & K). inversion K; lia. Qed.
Lemma begins_cons P c t : begins P (c :: t) -> P c.
Proof. intros (d & t' & E & H). inversion E; subst. exact H. Qed.

Lemma body_reads b u : forall first, Forall (fun r => snd r <= top b) u -> wf u -> legible_ranges first u -> (u = [] -> first = false) ->
  exists P, cbody b false first (flat_map (dump_range 16) u ++ [93]) P /\ forall c, P c <-> mem c u.
Proof.
  induction u as [|[lo hi] u IH]; intros first F W L E.
  - rewrite (E eq_refl). exists (fun _ => False). split; [apply cb_end|]. intros c. now rewrite mem_nil.
  - apply Forall_cons_iff in F as [F1 F2]. cbn in F1. destruct W as (_ & W1 & W2). cbn [legible_ranges] in L. destruct L as (L1 & L2 & L3 & L4).
    assert (W3 : wf u) by (eapply wf_from_le; [|exact W2]; lia).
    destruct (IH false F2 W3 L4 ltac:(auto)) as (Q & Q1 & Q2).
    destruct (body_head b false u F2 W3 L4) as (h & t & H1 & H2).
    cbn [flat_map]. rewrite <- app_assoc. set (rest := flat_map (dump_range 16) u ++ [93]) in *.
    assert (ND : no_dash rest). { intros t' Et. rewrite H1 in Et. inversion Et; subst h. destruct H2 as [H2|[H2|(? & ? & ? & _ & H2 & ? & _)]]; lia. }
    assert (C : closed hi rest).
    { rewrite H1. split; intros B K; apply begins_cons in K.
      - destruct H2 as [H2|[H2|(a & d & u' & -> & -> & _)]]; [apply (not_hex h); auto|apply (not_hex h); auto|]. now apply (proj1 L3).
      - destruct H2 as [H2|[H2|(a & d & u' & -> & -> & _)]]; [unfold octal_digit in K; lia|unfold octal_digit in K; lia|]. now apply (proj2 L3). }
    assert (BR : hi = 91 -> ~ begins (eq 58) rest).
    { intros -> K. rewrite H1 in K. apply begins_cons in K. destruct H2 as [H2|[H2|(a & d & u' & Eu & H2 & _)]]; [lia|lia|]. subst u. destruct W2 as (W2 & _). lia. }
    destruct (N.eq_dec lo hi) as [<-|X].
    + rewrite dump_one. eexists. split.
      * apply cb_item; [|exact Q1]. apply ci_char; [|exact ND]. apply one_cchar; auto.
      * intros c. rewrite mem_cons, cased_off, Q2. intuition lia.
    + destruct (L1 ltac:(lia)) as (G1 & G2 & G3). rewrite dump_many by lia. unfold opt at 2. destruct (N.ltb_spec (lo + 1) hi) as [R|R].
      * rewrite app_assoc. cbn [app]. eexists. split.
        -- apply cb_item; [|exact Q1]. apply ci_range; [| |exact W1].
           ++ apply low_cchar; [lia| |intros _ K; apply begins_cons in K; lia]. split; intros _ K; apply begins_cons in K; [apply (not_hex 45); auto|unfold octal_digit in K; lia].
           ++ apply esc_cchar; auto; lia.
        -- intros c. rewrite mem_cons, cased_off, Q2. tauto.
      * assert (hi = lo + 1) by lia. cbn [app]. rewrite app_assoc, <- app_assoc.
        destruct (escape_head b hi F1) as (g & s & G & GH).
        eexists. split.
        -- apply cb_item; [|apply cb_item; [|exact Q1]].
           ++ apply ci_char.
              ** apply low_cchar; [lia| |].
                 --- rewrite G. cbn [app]. split; intros B K; apply begins_cons in K.
                     +++ destruct GH as [[-> _]|[-> I]]; [apply (not_hex 92); auto|]. unfold by_number, itself in *. apply (not_hex hi); auto. lia.
                     +++ destruct GH as [[-> _]|[-> I]]; unfold octal_digit, itself in *; lia.
                 --- intros -> K. rewrite G in K. cbn [app] in K. apply begins_cons in K. destruct GH as [[-> _]|[-> I]]; lia.
              ** intros t' Et. rewrite G in Et. inversion Et. destruct GH as [[? _]|[? _]]; lia.
           ++ apply ci_char; [|exact ND]. apply esc_cchar; auto; lia.
        -- intros c. rewrite mem_cons, !cased_off, Q2. intuition lia.
Qed.
