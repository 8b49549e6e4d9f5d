(** Property C31: lexers built from rules ended by $ that do not compete with
    other rules for the ends of lines return exactly what the rules say. *)
From Verif Require Import Base StringToken StringTokenSpec StateMachine ReToken RegexSpec DfaSpec Grammar Tree Parser
  Generator Build ParserTree Lookup TableSpec LookupSpec RuleSpec RuleWords TokeniseSpec BuildSpec BuildLookup
  BuildCheck EolSpec EolCheck EolLookup EolLexSpec EolLex P_Build P_Eol BolWords.
Local Open Scope N_scope.

Theorem C31_dollar_exact f k g R m inp r fuel inner : fair_setting f k g R m inp r ->
  Forall (line_rules (g_bytes g)) (gr_states R) ->
  match lookup fuel inner k m inp r with
  | Ok (r', o) => llex k R inp (r_second r) r r' o /\ in_range R inp r'
  | Fuel => True
  | _ => False
  end.
Proof. intros H1 H2. exact (lookup_llex f k g R m inp r H1 H2 fuel inner). Qed.
Print Assumptions C31_dollar_exact.

(** The rules  [a-z]+$   [a-z]+   \n  meet the conditions. *)
Lemma xa_chars w : clang xa w -> exists cs, w = map CChar cs /\ Forall (fun c => 97 <= c <= 122) cs.
Proof.
  intros (n & _ & H). revert w H. induction n as [|n IH]; intros w H.
  - cbn in H. subst w. exists []. auto.
  - destruct H as (u & v & -> & (c & [(lo & hi & [[= <- <-]|[]] & Hc)|(_ & lo & [I|[]] & _)] & ->) & Hv); [|discriminate]. destruct (IH v Hv) as (cs & -> & F).
    exists (c :: cs). split; [reflexivity|]. constructor; [lia|auto].
Qed.
Lemma Re_plain x : In x (gs_rules (hd {| gs_rules := []; gs_features := 0 |} (gr_states Re))) -> plain_rule x.
Proof.
  intros Hx w Hw Hi. cbn in Hx. destruct Hx as [<-|[<-|[<-|[]]]].
  - apply lang1 in Hw as (u & v & -> & Hu & ->). apply in_app_or in Hi as [Hi|[Hi|[]]]; [|discriminate].
    apply xa_chars in Hu as (cs & -> & _). apply in_map_iff in Hi as (c & E & _). discriminate.
  - apply lang2 in Hw. apply xa_chars in Hw as (cs & -> & _). apply in_map_iff in Hi as (c & E & _). discriminate.
  - apply lang3 in Hw as (c & _ & ->). destruct Hi as [E|[]]. discriminate.
Qed.
Lemma reading_plain r w : plain_rule r -> reading r w -> exists v, rule_lang r v /\ (w = v \/ w = CBol :: v).
Proof. intros _ [H|(v & -> & H)]; eauto. Qed.
Lemma Re_lines : Forall (line_rules 1) (gr_states Re).
Proof.
  constructor; [|constructor]. constructor.
  - apply Forall_forall. intros x Hx. apply (Re_last _ x (or_introl eq_refl) Hx).
  - apply Forall_forall. intros x Hx. apply (Re_substantial _ x (or_introl eq_refl) Hx).
  - apply Forall_forall. intros x Hx. apply shaped_bol. left. now apply Re_plain.
  - repeat constructor.
  - intros r1 r2 u v1 v2 c H1 H2 R1 R2.
    (* only the first rule has an end of line, after letters *)
    assert (Q : exists cs, (u = map CChar cs \/ u = CBol :: map CChar cs) /\ cs <> []).
    { apply reading_plain in R1 as (w & Hw & E); [|now apply Re_plain]. cbn in H1. destruct H1 as [<-|[<-|[<-|[]]]].
      - apply lang1 in Hw as (a & b & -> & Ha & ->). pose proof Ha as Ha'. apply xa_chars in Ha as (cs & -> & _).
        exists cs. assert (SP : forall x y, map CChar x ++ [CEol] = y ++ CEol :: v1 -> y = map CChar x).
        { clear. induction x as [|c x IH]; intros y E; destruct y as [|a y]; try discriminate; auto.
          - exfalso. destruct y; discriminate.
          - cbn in E. injection E as <- E. cbn. f_equal. auto. }
        split.
        + destruct E as [E|E].
          * left. symmetry in E. now apply SP.
          * destruct u as [|a u]; [discriminate|]. cbn in E. injection E as -> E. right. f_equal. symmetry in E. now apply SP.
        + intros ->. apply xa_char in Ha' as (x & y & E'). discriminate.
      - exfalso. apply lang2 in Hw. apply xa_chars in Hw as (cs & -> & _).
        assert (I : In CEol (u ++ CEol :: v1)) by (apply in_or_app; right; now left).
        destruct E as [E|E]; rewrite E in I; [|destruct I as [I|I]; [discriminate|]];
          apply in_map_iff in I as (x & Ex & _); discriminate.
      - exfalso. apply lang3 in Hw as (x & _ & ->).
        assert (I : In CEol (u ++ CEol :: v1)) by (apply in_or_app; right; now left).
        destruct E as [E|E]; rewrite E in I; cbn in I; decompose [or] I; try discriminate; auto. }
    destruct Q as (cs & Hu & NE).
    assert (L : 97 <= c <= 122).
    { assert (T : forall x y, map CChar cs ++ CChar c :: v2 = map CChar x ++ y -> Forall (fun c => 97 <= c <= 122) x ->
        (y = [] \/ y = [CEol]) -> 97 <= c <= 122).
      { clear. induction cs as [|a cs IH]; intros x y E F Hy; destruct x as [|b x]; cbn in E.
        - destruct Hy as [->| ->]; discriminate.
        - injection E as <- _. now inversion F.
        - destruct Hy as [->| ->]; discriminate.
        - injection E as _ E. inversion F. eauto. }
      apply reading_plain in R2 as (w & Hw & E); [|now apply Re_plain].
      assert (E' : w = map CChar cs ++ CChar c :: v2).
      { destruct Hu as [->| ->], E as [E|E]; cbn in E.
        - auto.
        - destruct cs; discriminate.
        - exfalso. subst w. apply (Re_plain r2 H2 _ Hw). now left.
        - now injection E. }
      subst w. clear E. cbn in H2. destruct H2 as [<-|[<-|[<-|[]]]].
      - apply lang1 in Hw as (a & b & E & Ha & ->). apply xa_chars in Ha as (x & -> & F). eapply T; eauto.
      - apply lang2 in Hw. apply xa_chars in Hw as (x & E & F). eapply (T x []); eauto. now rewrite app_nil_r.
      - exfalso. apply lang3 in Hw as (x & _ & E). destruct cs as [|a [|b cs]]; [congruence| |]; discriminate. }
    unfold breaks, enc. change (1 =? 1) with true. cbn [hd]. lia.
Qed.
Example C31_dollar_exact_case : fair_setting 100 ke gx Re me inpe (pos true 0 3) /\
  Forall (line_rules (g_bytes gx)) (gr_states Re).
Proof. split; [apply Re_setting; lia|exact Re_lines]. Qed.

(** With characters of two bytes the repairs for $ look at bytes: the rules
    a$   a\x{d0a}   a   are refused, as U+0D0A has the bytes of \r\n, while
    a$   a\x{d29}   a   are built. *)
Definition g2 : gcfg := {| g_bits := 16; g_bytes := 2 |}.
Definition wide_rules c := state1 fb_eol [rul [ch 97; dollar] 1 0; rul [ch 97; ch c] 2 0; rul [ch 97] 3 0].
Theorem C31_wide_clash_refuted : exists c, c <> 10 /\ c <> 13 /\ build 200 g2 (wide_rules c) = Throw ESuppressed /\
  exists m, build 200 g2 (wide_rules 3369) = Ok m.
Proof.
  exists 3338. do 2 (split; [lia|]). split; [vm_compute; reflexivity|]. eexists. vm_compute. reflexivity.
Qed.
Print Assumptions C31_wide_clash_refuted.

(** generator.hpp:612-634: when a state before $ goes on with \r and with \n,
    the transition on \n is cleared in the wrong state, as ptr_ was moved while
    treating \r. All rules share the state behind $, so with the rules
    (a|b)$   a\nx   b[\r\n]y  the second is lost: a\nx is not matched, and a\ny
    is returned as the third rule. With \r for \n in the second rule, or with
    only one of the two in the third, the second rule is kept. *)
Definition breaks : token := {| tk_type := CHARSET; tk_extra := []; tk_str := [(10, 10); (13, 13)] |}.
Definition first_token (k : cfg) (g : gcfg) (rs : list grule) (x : list N) : res (N * nat) :=
  do m <- build 300 g (state1 fb_eol rs); do r <- lookup 100 100 k m x (pos true 0 0); Ok (r_id (fst r), r_second (fst r)).
Definition ab_end : grule := rul [tok OPENPAREN; ch 97; tok OR; ch 98; tok CLOSEPAREN; dollar] 1 0.
Definition a_on (c : N) : grule := rul [ch 97; ch c; ch 120] 2 0.
Definition b_to (t : token) : grule := rul [ch 98; t; ch 121] 3 0.
Theorem C31_moved_pointer_refuted : exists rs, rs = [ab_end; a_on 10; b_to breaks] /\
  first_token ke gx rs [97; 10; 120] = Ok (1, 1%nat) /\ first_token ke gx rs [97; 10; 121] = Ok (3, 3%nat) /\
  first_token ke gx [ab_end; a_on 13; b_to breaks] [97; 13; 120] = Ok (2, 3%nat) /\
  first_token ke gx [ab_end; a_on 10; b_to (ch 10)] [97; 10; 120] = Ok (2, 3%nat) /\
  first_token ke gx [ab_end; a_on 10; b_to (ch 13)] [97; 10; 120] = Ok (2, 3%nat).
Proof. eexists. split; [reflexivity|]. repeat split; vm_compute; reflexivity. Qed.
Print Assumptions C31_moved_pointer_refuted.

(** generator.hpp:645-657: with wide characters i_ is not set back, so after a
    state before $ that needs no repair the next ones are looked at in the
    wrong place. The rules  b$   b\nx  give the second rule for b\nx; with the
    rule  a$  before them they do not. Narrow characters give it either way. *)
Definition k2 : cfg := {| f_bol := true; f_eol := true; f_multi := false; f_rec := false; f_adv := true; c_bytes := 2; c_bits := 16 |}.
Definition a_end : grule := rul [ch 97; dollar] 1 0.
Definition b_end : grule := rul [ch 98; dollar] 2 0.
Definition b_on (t : token) : grule := rul [ch 98; t; ch 120] 3 0.
Theorem C31_kept_counter_refuted : exists rs, rs = [b_end; b_on (ch 10)] /\
  first_token k2 g2 rs [98; 10; 120] = Ok (3, 3%nat) /\ first_token k2 g2 (a_end :: rs) [98; 10; 120] = Ok (2, 1%nat) /\
  first_token ke gx rs [98; 10; 120] = Ok (3, 3%nat) /\ first_token ke gx (a_end :: rs) [98; 10; 120] = Ok (3, 3%nat).
Proof. eexists. split; [reflexivity|]. repeat split; vm_compute; reflexivity. Qed.
Print Assumptions C31_kept_counter_refuted.

(** generator.hpp:659-686: nl_state_ is read after ptr_ was moved to the new
    row, so of a clash with both line breaks only that with \r is repaired: the
    rules  b$   b[\r\n]x  match b\rx and not b\nx. *)
Theorem C31_one_break_repaired_refuted : exists rs, rs = [b_end; b_on breaks] /\
  first_token k2 g2 rs [98; 13; 120] = Ok (3, 3%nat) /\ first_token k2 g2 rs [98; 10; 120] = Ok (2, 1%nat) /\
  first_token ke gx rs [98; 13; 120] = Ok (3, 3%nat) /\ first_token ke gx rs [98; 10; 120] = Ok (3, 3%nat).
Proof. eexists. split; [reflexivity|]. repeat split; vm_compute; reflexivity. Qed.
Print Assumptions C31_one_break_repaired_refuted.
