(** Words over characters and words over bytes. *)
From Verif Require Import Base StringToken StringTokenSpec SliceSpec StringTokenProofs RegexSpec StateMachine ReToken
  DfaSpec Grammar Tree Parser Generator Build GramUnique ParserRule Lookup TableSpec LookupSpec RuleSpec.
Local Open Scope N_scope.

Definition enc1 (b : N) (a : csym) : list sym :=
  match a with CChar c => map SByte (enc b c) | CBol => [SBol] | CEol => [SEol] end.
Definition encw (b : N) (w : list csym) : list sym := flat_map (enc1 b) w.
Lemma encw_app b u v : encw b (u ++ v) = encw b u ++ encw b v.
Proof. apply flat_map_app. Qed.

Lemma power_enc b (L : list sym -> Prop) (C : list csym -> Prop) :
  (forall u, L u <-> exists w, C w /\ u = encw b w) ->
  forall n u, power L n u <-> exists w, power C n w /\ u = encw b w.
Proof.
  intros H. induction n as [|n IH]; intros u; cbn [power].
  - split; [intros ->; exists []; auto|]. intros (w & -> & ->). reflexivity.
  - split.
    + intros (x & y & -> & Hx & Hy). apply H in Hx as (wx & Cx & ->). apply IH in Hy as (wy & Cy & ->).
      exists (wx ++ wy). split; [eauto|now rewrite encw_app].
    + intros (w & (x & y & -> & Cx & Cy) & ->). exists (encw b x), (encw b y).
      split; [apply encw_app|]. split; [apply H; eauto|apply IH; eauto].
Qed.

Lemma xlang_clang b r : forall u, xlang b r u <-> exists w, clang r w /\ u = encw b w.
Proof.
  induction r as [t| | |x IHx y IHy|x IHx y IHy|x IHx|x IHx|x IHx|x IHx mn mx]; intros u; cbn [xlang clang].
  - split.
    + intros (c & Hc & ->). exists [CChar c]. split; [eauto|]. cbn. now rewrite app_nil_r.
    + intros (w & (c & Hc & ->) & ->). exists c. split; [auto|]. cbn. now rewrite app_nil_r.
  - split; [intros ->; exists [CBol]; auto|intros (w & -> & ->); reflexivity].
  - split; [intros ->; exists [CEol]; auto|intros (w & -> & ->); reflexivity].
  - split.
    + intros (a & c & -> & Ha & Hc). apply IHx in Ha as (wa & Ca & ->). apply IHy in Hc as (wc & Cc & ->).
      exists (wa ++ wc). split; [eauto|now rewrite encw_app].
    + intros (w & (a & c & -> & Ca & Cc) & ->). exists (encw b a), (encw b c). split; [apply encw_app|].
      split; [apply IHx; eauto|apply IHy; eauto].
  - split.
    + intros [H|H]; [apply IHx in H as (w & C & ->)|apply IHy in H as (w & C & ->)]; eauto.
    + intros (w & [C|C] & ->); [left; apply IHx|right; apply IHy]; eauto.
  - split.
    + intros [->|H]; [exists []; auto|]. apply IHx in H as (w & C & ->). eauto.
    + intros (w & [->|C] & ->); [now left|right; apply IHx; eauto].
  - split.
    + intros (n & H). apply (power_enc b _ _ IHx) in H as (w & C & ->). eauto.
    + intros (w & (n & C) & ->). exists n. apply (power_enc b _ _ IHx). eauto.
  - split.
    + intros (n & Hn & H). apply (power_enc b _ _ IHx) in H as (w & C & ->). eauto.
    + intros (w & (n & Hn & C) & ->). exists n. split; [auto|]. apply (power_enc b _ _ IHx). eauto.
  - split.
    + intros (n & Hn & Hm & H). apply (power_enc b _ _ IHx) in H as (w & C & ->). eauto 7.
    + intros (w & (n & Hn & Hm & C) & ->). exists n. split; [auto|]. split; [auto|].
      apply (power_enc b _ _ IHx). eauto.
Qed.
Lemma olang_oclang b o u : olang b o u <-> exists w, oclang o w /\ u = encw b w.
Proof.
  destruct o as [r|]; [apply xlang_clang|]. cbn.
  split; [intros ->; exists []; auto|intros (w & -> & ->); reflexivity].
Qed.

(** ** Encoding is injective on characters that fit *)
Definition fitw (b : N) (w : list csym) : Prop :=
  Forall (fun a => match a with CChar c => fits b c | _ => True end) w.

Lemma enc_inj b c c' : fits b c -> fits b c' -> enc b c = enc b c' -> c = c'.
Proof.
  unfold fits, enc. destruct (b =? 1); [intros _ _ [= H]; auto|].
  destruct (b =? 2).
  - intros H H' [= E1 E2].
    rewrite (N.div_mod c 256), (N.div_mod c' 256) by discriminate.
    rewrite E2. rewrite !N.mod_small in E1 by (apply N.div_lt_upper_bound; lia). now rewrite E1.
  - intros H H' [= E1 E2 E3].
    assert (D : c / 256 = c' / 256).
    { rewrite (N.div_mod (c / 256) 256), (N.div_mod (c' / 256) 256) by discriminate. rewrite E2.
      rewrite !N.div_div by discriminate. change (256 * 256) with 65536.
      rewrite !N.mod_small in E1 by (apply N.div_lt_upper_bound; lia). now rewrite E1. }
    rewrite (N.div_mod c 256), (N.div_mod c' 256) by discriminate. now rewrite D, E3.
Qed.
Lemma enc_len b c c' : length (enc b c) = length (enc b c').
Proof. unfold enc. destruct (b =? 1); [auto|]. destruct (b =? 2); auto. Qed.
Lemma enc_ne b c : enc b c <> [].
Proof. unfold enc. destruct (b =? 1); [easy|]. destruct (b =? 2); easy. Qed.
Lemma app_inv_len {A} (a b c d : list A) : length a = length c -> a ++ b = c ++ d -> a = c /\ b = d.
Proof.
  revert c. induction a as [|x a IH]; intros [|y c] L E; try discriminate; [auto|].
  cbn in *. injection E as -> E. injection L as L. destruct (IH c L E) as [-> ->]. auto.
Qed.
Lemma map_inj {A B} (f : A -> B) : (forall x y, f x = f y -> x = y) -> forall l l', map f l = map f l' -> l = l'.
Proof.
  intros H. induction l as [|x l IH]; intros [|y l'] E; try discriminate; auto.
  cbn in E. injection E as E1 E2. f_equal; auto.
Qed.
Lemma sbyte_inj l l' : map SByte l = map SByte l' -> l = l'.
Proof. apply map_inj. now intros x y [= ->]. Qed.

Lemma encw_inj b w w' : fitw b w -> fitw b w' -> encw b w = encw b w' -> w = w'.
Proof.
  revert w'. induction w as [|a w IH]; intros w' F F' E.
  - destruct w' as [|a' w']; [auto|]. exfalso. cbn in E. symmetry in E. apply app_eq_nil in E as [E _].
    destruct a' as [c| |]; try discriminate. cbn in E. apply map_eq_nil in E. now apply enc_ne in E.
  - inversion F as [|? ? Fa Fw]; subst. destruct w' as [|a' w'].
    + exfalso. cbn in E. apply app_eq_nil in E as [E _].
      destruct a as [c| |]; try discriminate. cbn in E. apply map_eq_nil in E. now apply enc_ne in E.
    + inversion F' as [|? ? Fa' Fw']; subst. cbn [encw flat_map] in E.
      assert (X : a = a' /\ encw b w = encw b w').
      { destruct a as [c| |], a' as [c'| |]; cbn [enc1 app] in E;
          try (injection E as E; auto; fail);
          try (exfalso; destruct (enc b c) eqn:Q; [now apply enc_ne in Q|discriminate]);
          try (exfalso; destruct (enc b c') eqn:Q; [now apply enc_ne in Q|discriminate]);
          try discriminate.
        apply app_inv_len in E as [E1 E2]; [|rewrite !map_length; apply enc_len].
        apply sbyte_inj in E1. apply enc_inj in E1; auto. subst. auto. }
      destruct X as [-> X]. f_equal. auto.
Qed.

(** ** The characters of an expression fit *)
Lemma set_fits b t c : set_ok b t -> takes t c -> fits b c.
Proof.
  intros (_ & _ & F) [(x & y & Hi & Hc)|(Hc & x & Hi & _)]; rewrite Forall_forall in F; specialize (F _ Hi); cbn [fst snd] in F;
  unfold fits; (destruct (b =? 1); [lia|]); (destruct (b =? 2); lia).
Qed.
Lemma power_forall {A} (P : A -> Prop) (L : list A -> Prop) : (forall w, L w -> Forall P w) ->
  forall n w, power L n w -> Forall P w.
Proof.
  intros H. induction n as [|n IH]; cbn [power]; intros w; [intros ->; constructor|].
  intros (u & v & -> & Hu & Hv). apply Forall_app. auto.
Qed.
(** A property of all symbols of the words, from the tokens. *)
Lemma gram_symbols (P : csym -> Prop) X r ts : gram X r ts ->
  (forall t c, In t ts -> tk_type t = CHARSET -> takes (tk_str t) c -> P (CChar c)) ->
  ((exists t, In t ts /\ tk_type t = BOL) -> P CBol) ->
  ((exists t, In t ts /\ tk_type t = EOL) -> P CEol) ->
  forall w, clang r w -> Forall P w.
Proof.
  induction 1 as [r w G IH|a b u v t G1 IH1 Et G2 IH2|r w G IH|a b u v G1 IH1 G2 IH2|r w G IH|
    r w t f G IH D|t Et|t Et|t Et|r w o c Eo G IH Ec]; intros HC HB HE.
  - apply IH; auto.
  - cbn [clang]. intros x [Hx|Hx].
    + apply IH1; auto.
      * intros t0 c Ht. apply HC. apply in_or_app. auto.
      * intros (t0 & Ht & E0). apply HB. exists t0. split; [apply in_or_app; auto|auto].
      * intros (t0 & Ht & E0). apply HE. exists t0. split; [apply in_or_app; auto|auto].
    + apply IH2; auto.
      * intros t0 c Ht. apply HC. apply in_or_app. right; now right.
      * intros (t0 & Ht & E0). apply HB. exists t0. split; [apply in_or_app; right; now right|auto].
      * intros (t0 & Ht & E0). apply HE. exists t0. split; [apply in_or_app; right; now right|auto].
  - apply IH; auto.
  - cbn [clang]. intros x (p & q & -> & Hp & Hq). apply Forall_app. split.
    + apply IH1; auto.
      * intros t0 c Ht. apply HC. apply in_or_app. auto.
      * intros (t0 & Ht & E0). apply HB. exists t0. split; [apply in_or_app; auto|auto].
      * intros (t0 & Ht & E0). apply HE. exists t0. split; [apply in_or_app; auto|auto].
    + apply IH2; auto.
      * intros t0 c Ht. apply HC. apply in_or_app. auto.
      * intros (t0 & Ht & E0). apply HB. exists t0. split; [apply in_or_app; auto|auto].
      * intros (t0 & Ht & E0). apply HE. exists t0. split; [apply in_or_app; auto|auto].
  - apply IH; auto.
  - assert (H : forall x, clang r x -> Forall P x).
    { apply IH.
      - intros t0 c Ht. apply HC. apply in_or_app. auto.
      - intros (t0 & Ht & E0). apply HB. exists t0. split; [apply in_or_app; auto|auto].
      - intros (t0 & Ht & E0). apply HE. exists t0. split; [apply in_or_app; auto|auto]. }
    destruct D; cbn [clang]; intros x Hx.
    + destruct Hx as [->|Hx]; [constructor|auto].
    + destruct Hx as (n & Hx). eapply power_forall; eauto.
    + destruct Hx as (n & _ & Hx). eapply power_forall; eauto.
    + destruct Hx as (n & _ & _ & Hx). eapply power_forall; eauto.
  - cbn [clang]. intros x (c & Hc & ->). constructor; [|constructor]. eapply HC; [now left|auto|auto].
  - cbn [clang]. intros x ->. constructor; [|constructor]. apply HB. exists t. split; [now left|auto].
  - cbn [clang]. intros x ->. constructor; [|constructor]. apply HE. exists t. split; [now left|auto].
  - apply IH; auto.
    + intros t0 x Ht. apply HC. right. apply in_or_app. auto.
    + intros (t0 & Ht & E0). apply HB. exists t0. split; [right; apply in_or_app; auto|auto].
    + intros (t0 & Ht & E0). apply HE. exists t0. split; [right; apply in_or_app; auto|auto].
Qed.
Lemma ogram_symbols (P : csym -> Prop) o ts : ogram o ts ->
  (forall t c, In t ts -> tk_type t = CHARSET -> takes (tk_str t) c -> P (CChar c)) ->
  ((exists t, In t ts /\ tk_type t = BOL) -> P CBol) ->
  ((exists t, In t ts /\ tk_type t = EOL) -> P CEol) ->
  forall w, oclang o w -> Forall P w.
Proof.
  destruct o as [r|]; cbn; [intros; eapply gram_symbols; eauto|]. intros -> _ _ _ w ->. constructor.
Qed.
Lemma ogram_fits b o ts w : ogram o ts -> Forall (tok_ok b) ts -> oclang o w -> fitw b w.
Proof.
  intros G F. revert w. apply (ogram_symbols _ o ts G); auto.
  intros t c Ht Et Hc. rewrite Forall_forall in F. specialize (F t Ht). unfold tok_ok in F. rewrite Et in F.
  eapply set_fits; eauto.
Qed.
Lemma ogram_no_eol o ts w : ogram o ts -> no_eol ts -> oclang o w -> ~ In CEol w.
Proof.
  intros G F H. assert (Q : Forall (fun a => a <> CEol) w).
  { revert w H. apply (ogram_symbols _ o ts G); try discriminate. intros (t & Ht & Et) _.
    unfold no_eol in F. rewrite Forall_forall in F. eapply F; eauto. }
  rewrite Forall_forall in Q. intros Hi. now apply (Q CEol).
Qed.
Lemma ogram_no_bol o ts w : ogram o ts -> Forall (fun t => tk_type t <> BOL) ts -> oclang o w -> ~ In CBol w.
Proof.
  intros G F H. assert (Q : Forall (fun a => a <> CBol) w).
  { revert w H. apply (ogram_symbols _ o ts G); try discriminate. intros (t & Ht & Et) _.
    rewrite Forall_forall in F. eapply F; eauto. }
  rewrite Forall_forall in Q. intros Hi. now apply (Q CBol).
Qed.

(** ** One parse per rule *)
Lemma ogram_unique o o' ts : ogram o ts -> ogram o' ts -> o = o'.
Proof.
  destruct o as [r|], o' as [r'|]; cbn; intros G G'.
  - f_equal. eapply gram_unique; eauto.
  - subst. now apply ParserProofs.gram_ne in G.
  - subst. now apply ParserProofs.gram_ne in G'.
  - reflexivity.
Qed.
Lemma rule_tokens_unique r ts ts' : rule_tokens r ts -> rule_tokens r ts' -> ts = ts'.
Proof.
  intros (B & E & Q & _) (B' & E' & Q' & _). rewrite Q in Q'. injection Q' as _ Q'.
  now apply app_inj_tail in Q' as [-> _].
Qed.
Lemma rule_lang_o r ts o w : rule_tokens r ts -> ogram o ts -> (rule_lang r w <-> oclang o w).
Proof.
  intros T G. split; [|intros H; exists ts, o; auto]. intros (ts' & o' & T' & G' & H).
  rewrite (rule_tokens_unique r ts' ts T' T) in G'. now rewrite (ogram_unique _ _ _ G' G) in H.
Qed.

(** ** Text as words of bytes *)
Lemma encw_chars b cs : encw b (map CChar cs) = map SByte (flat_map (enc b) cs).
Proof.
  unfold encw. induction cs as [|c cs IH]; cbn; [auto|]. now rewrite map_app, IH.
Qed.
Lemma text_lang b o ts cs : ogram o ts -> Forall (tok_ok b) ts -> Forall (fits b) cs ->
  (olang b o (map SByte (flat_map (enc b) cs)) <-> oclang o (map CChar cs)).
Proof.
  intros G F H. rewrite olang_oclang, <- encw_chars. split; [|eauto].
  intros (w & C & E). apply encw_inj in E; [now subst| |].
  - apply Forall_map. exact H.
  - eapply ogram_fits; eauto.
Qed.
Lemma bol_lang b o ts cs : ogram o ts -> Forall (tok_ok b) ts -> Forall (fits b) cs ->
  (olang b o (SBol :: map SByte (flat_map (enc b) cs)) <-> oclang o (CBol :: map CChar cs)).
Proof.
  intros G F H. rewrite olang_oclang, <- encw_chars.
  change (SBol :: encw b (map CChar cs)) with (encw b (CBol :: map CChar cs)). split; [|eauto].
  intros (w & C & E). apply encw_inj in E; [now subst| |].
  - constructor; [auto|]. apply Forall_map. exact H.
  - eapply ogram_fits; eauto.
Qed.
(** Markers in byte words come from markers in character words. *)
Lemma encw_bol b w u v : encw b w = u ++ SBol :: v -> exists x y, w = x ++ CBol :: y /\ u = encw b x /\ v = encw b y.
Proof.
  revert u. induction w as [|a w IH]; intros u E; [destruct u; discriminate|]. cbn [encw flat_map] in E.
  destruct a as [c| |]; cbn [enc1] in E.
  - assert (Q : exists u', u = map SByte (enc b c) ++ u' /\ encw b w = u' ++ SBol :: v).
    { revert E. generalize (enc b c). intros l. clear. revert u. induction l as [|n l IH]; intros u E; [exists u; auto|].
      destruct u as [|s u]; [discriminate|]. cbn in E. injection E as <- E.
      destruct (IH u E) as (u' & -> & H). exists u'. auto. }
    destruct Q as (u' & -> & E'). destruct (IH u' E') as (x & y & -> & -> & ->).
    exists (CChar c :: x), y. auto.
  - destruct u as [|s u]; cbn in E.
    + injection E as E. exists [], w. auto.
    + injection E as <- E. destruct (IH u E) as (x & y & -> & -> & ->). exists (CBol :: x), y. auto.
  - destruct u as [|s u]; [discriminate|]. cbn in E. injection E as <- E.
    destruct (IH u E) as (x & y & -> & -> & ->). exists (CEol :: x), y. auto.
Qed.
Lemma encw_eol b w : In SEol (encw b w) -> In CEol w.
Proof.
  unfold encw. intros H. apply in_flat_map in H as (a & Ha & H). destruct a as [c| |]; cbn in H.
  - apply in_map_iff in H as (x & E & _). discriminate.
  - destruct H as [H|[]]. discriminate.
  - auto.
Qed.
