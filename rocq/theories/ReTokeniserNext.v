(** The regex tokeniser: what a call of next() returns. *)
From Coq Require Import String.
From Verif Require Import Base StringToken StringTokenSpec StringTokenProofs ReToken ReTokeniser Grammar ReTokeniserProofs.
Local Open Scope N_scope.

Definition sfx (r inp : list N) : Prop := exists p, inp = p ++ r.
Lemma sfx_refl r : sfx r r.
Proof. now exists []. Qed.
Lemma sfx_tail r inp : tail_of r inp -> sfx r inp.
Proof. intros (p & _ & H). now exists p. Qed.
Lemma sfx_cons c r inp : sfx r inp -> sfx r (c :: inp).
Proof. intros (p & ->). now exists (c :: p). Qed.
Lemma sfx_trans a b c : sfx a b -> sfx b c -> sfx a c.
Proof. intros (p & ->) (q & ->). exists (q ++ p). now rewrite app_assoc. Qed.
Lemma sfx_forall P r inp : sfx r inp -> Forall P inp -> Forall P r.
Proof. intros (p & ->) H. now apply Forall_app in H. Qed.
Lemma sfx_len r inp : sfx r inp -> (length r <= length inp)%nat.
Proof. intros (p & ->). rewrite app_length. lia. Qed.
Lemma sfx_pull c r inp : sfx (c :: r) inp -> tail_of r inp.
Proof. intros (p & ->). exists (p ++ [c]). split; [destruct p; discriminate|now rewrite <- app_assoc]. Qed.
Lemma sfx_push c r inp : tail_of r (c :: inp) -> sfx r inp.
Proof. intros (p & Hp & E). destruct p as [|d p]; [now destruct Hp|]. injection E as <- ->. now exists p. Qed.
Lemma tail_sfx a b c : tail_of a b -> sfx b c -> tail_of a c.
Proof.
  intros (p & Hp & ->) (q & ->). exists (q ++ p). split; [|now rewrite app_assoc]. destruct q; [auto|discriminate].
Qed.
Lemma sfx_tl r inp : sfx r (tl inp) -> sfx r inp.
Proof. destruct inp; cbn; auto using sfx_cons. Qed.
Lemma sfx_nil inp : sfx [] inp.
Proof. exists inp. now rewrite app_nil_r. Qed.

(** ** In front of a token *)
Lemma quotes_ok inp : forall c str,
  match quotes c inp str with
  | (Some c', r, _) => sfx (c' :: r) (c :: inp) /\ c' <> 34
  | (None, r, _) => r = []
  end.
Proof.
  induction inp as [|d r IH]; intros c str; cbn [quotes]; destruct (N.eqb_spec c 34) as [->|H]; auto using sfx_refl.
  specialize (IH d (negb str)). destruct (quotes d r (negb str)) as [[[c'|] r'] s']; [|auto].
  destruct IH. split; auto using sfx_cons.
Qed.
Lemma comment_end_tail inp : forall n r, comment_end n inp = Some r -> tail_of r inp.
Proof.
  induction inp as [|c inp IH]; cbn; intros n r H; [discriminate|].
  destruct (c =? 40); [apply tail_cons_of; eauto|]. destruct (c =? 41); [|apply tail_cons_of; eauto].
  destruct (n =? 1); [|apply tail_cons_of; eauto]. injection H as ->. apply tail_cons.
Qed.
Lemma c_comment_end_tail inp : forall r, c_comment_end inp = Some r -> sfx r inp.
Proof.
  induction inp as [|c inp IH]; cbn; intros r H; [discriminate|].
  destruct ((c =? 42) && (peek inp =? 47)); [|apply sfx_cons; eauto]. injection H as <-.
  apply sfx_cons, sfx_tl, sfx_refl.
Qed.
Lemma comment_ok c inp str :
  match comment c inp str with
  | Ok (Some (Some c', r)) => sfx (c' :: r) inp
  | Ok (Some (None, r)) => r = []
  | Ok None => True
  | Throw _ => True
  | _ => False
  end.
Proof.
  unfold comment. destruct (_ && _); [|auto].
  destruct (comment_end 1 (tl (tl inp))) as [r|] eqn:E; [|auto]. apply comment_end_tail in E.
  unfold ch_next. destruct r as [|d r]; [auto|]. apply sfx_tl, sfx_tl. now apply sfx_tail.
Qed.
Lemma skip_loop_ok fuel : forall c inp sk, (length inp < fuel)%nat ->
  match skip_loop fuel c inp sk with
  | Ok (Some c', r, sk') => sfx (c' :: r) (c :: inp) /\ (sk' = sk /\ c' = c /\ r = inp \/ tail_of (c' :: r) (c :: inp))
  | Ok (None, r, _) => r = []
  | Throw _ => True
  | _ => False
  end.
Proof.
  induction fuel as [|f IH]; intros c inp sk Hf; [lia|]. cbn [skip_loop].
  destruct ((c =? 47) && (peek inp =? 42)).
  - destruct (c_comment_end (tl inp)) as [r|] eqn:E; [|auto]. apply c_comment_end_tail in E.
    destruct r as [|d r]; [auto|].
    assert (T : sfx (d :: r) inp) by now apply sfx_tl.
    specialize (IH d r true). pose proof (sfx_len _ _ T) as L. cbn [length] in L.
    destruct (skip_loop f d r true) as [[[[c'|] r'] sk']| | |]; auto; try (apply IH; lia).
    destruct IH as [I1 _]; [lia|]. split; [eapply sfx_trans; [exact I1|]; now apply sfx_cons|].
    right. destruct (sfx_trans _ _ _ I1 T) as (p & Hp). exists (c :: p). split; [discriminate|]. cbn. now rewrite <- Hp.
  - destruct (is_white c); [|split; auto using sfx_refl]. destruct inp as [|d r]; [auto|]. cbn [length] in Hf.
    specialize (IH d r true). destruct (skip_loop f d r true) as [[[[c'|] r'] sk']| | |]; auto; try (apply IH; lia).
    destruct IH as [I1 _]; [lia|]. split; [now apply sfx_cons|]. right. destruct I1 as (p & Hp).
    exists (c :: p). split; [discriminate|]. cbn. now rewrite <- Hp.
Qed.
Lemma skip_ok fl c inp str :
  match skip fl c inp str with
  | Ok (Some c', r, sk) => sfx (c' :: r) (c :: inp) /\ (sk = false /\ c' = c /\ r = inp \/ tail_of (c' :: r) (c :: inp))
  | Ok (None, r, _) => r = []
  | Throw _ => True
  | _ => False
  end.
Proof.
  unfold skip. destruct (_ && _); [|split; auto using sfx_refl].
  apply skip_loop_ok. lia.
Qed.
Lemma lead_ok fuel : forall fl c inp str, (length inp < fuel)%nat ->
  match lead fuel fl c inp str with
  | Ok (Some c', r, _) => sfx (c' :: r) (c :: inp)
  | Ok (None, r, _) => r = []
  | Throw _ => True
  | _ => False
  end.
Proof.
  induction fuel as [|f IH]; intros fl c inp str Hf; [lia|]. cbn [lead].
  pose proof (quotes_ok inp c str) as Q. destruct (quotes c inp str) as [[[c1|] r1] str1]; [|auto].
  destruct Q as [Q _]. pose proof (comment_ok c1 r1 str1) as C.
  assert (L1 : (length r1 <= length inp)%nat) by (pose proof (sfx_len _ _ Q); cbn [length] in *; lia).
  destruct (comment c1 r1 str1) as [[[[c2|] r2]|]| | |]; cbn [bind]; auto.
  - assert (L2 : (length r2 < length r1)%nat) by (pose proof (sfx_len _ _ C); cbn [length] in *; lia).
    assert (S2 : sfx (c2 :: r2) (c :: inp)) by (eapply sfx_trans; [|exact Q]; now apply sfx_cons).
    pose proof (skip_ok fl c2 r2 str1) as K. destruct (skip fl c2 r2 str1) as [[[[c3|] r3] sk]| | |]; cbn [bind]; auto.
    destruct K as [K _]. specialize (IH fl c3 r3 str1). pose proof (sfx_len _ _ K) as L3. cbn [length] in L3.
    destruct (lead f fl c3 r3 str1) as [[[[c4|] r4] s4]| | |]; auto; try (apply IH; lia).
    eapply sfx_trans; [apply IH; lia|]. eapply sfx_trans; eauto.
  - pose proof (skip_ok fl c1 r1 str1) as K. destruct (skip fl c1 r1 str1) as [[[[c3|] r3] sk]| | |]; cbn [bind]; auto.
    destruct K as [K K2]. destruct sk.
    + assert (L3 : (length r3 < length r1)%nat).
      { destruct K2 as [(K2 & _)|K2]; [discriminate|]. apply tail_len in K2. cbn [length] in K2. lia. }
      specialize (IH fl c3 r3 str1).
      destruct (lead f fl c3 r3 str1) as [[[[c4|] r4] s4]| | |]; auto; try (apply IH; lia).
      eapply sfx_trans; [apply IH; lia|]. eapply sfx_trans; eauto.
    + eapply sfx_trans; eauto.
Qed.

(** ** Numbers *)
(** Every number written in the text is less than 2^64. *)
Definition dval (ds : list N) : N := fold_left (fun a c => a * 10 + (c - 48)) ds 0.
Definition numbers_fit (inp : list N) : Prop :=
  forall p ds r, inp = p ++ ds ++ r -> Forall digit ds -> dval ds < 2 ^ 64.
Lemma numbers_sfx r inp : sfx r inp -> numbers_fit inp -> numbers_fit r.
Proof. intros (p & ->) H q ds r' E. apply (H (p ++ q) ds r'). rewrite E. now rewrite app_assoc. Qed.
Lemma is_digit_iff c : is_digit c = true <-> digit c.
Proof. unfold is_digit, digit. rewrite andb_true_iff, !N.leb_le. tauto. Qed.
Lemma fold_mono ds : forall a, a <= fold_left (fun a c => a * 10 + (c - 48)) ds a.
Proof. induction ds as [|c ds IH]; intros a; cbn [fold_left]; [lia|]. specialize (IH (a * 10 + (c - 48))). lia. Qed.
Lemma digits_ok inp : forall acc, exists n ds r, digits acc inp = (n, ds, r) /\ inp = ds ++ r /\ Forall digit ds /\
  match r with c :: _ => is_digit c = false | [] => True end /\
  (fold_left (fun a c => a * 10 + (c - 48)) ds acc < 2 ^ 64 -> n = fold_left (fun a c => a * 10 + (c - 48)) ds acc).
Proof.
  induction inp as [|c inp IH]; intros acc; cbn [digits].
  - exists acc, [], []. repeat split; auto.
  - destruct (is_digit c) eqn:D.
    + destruct (IH ((acc * 10 + (c - 48)) mod 2 ^ 64)) as (n & ds & r & E & H1 & H2 & H3 & H4). rewrite E.
      exists n, (c :: ds), r. split; [reflexivity|]. subst inp. split; [reflexivity|].
      split; [constructor; [now apply is_digit_iff|auto]|]. split; [auto|].
      cbn [fold_left]. intros HL. pose proof (fold_mono ds (acc * 10 + (c - 48))) as M.
      rewrite N.mod_small in H4 by lia. auto.
    + exists acc, [], (c :: inp). repeat split; auto.
Qed.
Lemma lazy_sfx a l inp : sfx (snd (lazy a l inp)) inp.
Proof. unfold lazy. destruct (peek inp =? 63); cbn; auto using sfx_refl, sfx_tl. Qed.
Lemma lazy_type_is a l inp : fst (lazy a l inp) = a \/ fst (lazy a l inp) = l.
Proof. unfold lazy. destruct (peek inp =? 63); cbn; auto. Qed.

(** The condition on repeat counts of Grammar.tok_ok. *)
Definition rep_ok (t : token) : Prop :=
  match tk_type t with
  | REPEATN | AREPEATN => exists mn mx, counts (tk_extra t) mn mx /\ counts_ok mn mx /\
      (mx = Some 1 -> mn = 1) /\ (mx = Some mn -> ~ In 44 (tk_extra t))
  | _ => True
  end.
Definition is_dup (t : ttype) : Prop :=
  In t [OPT; AOPT; ZEROORMORE; AZEROORMORE; ONEORMORE; AONEORMORE; REPEATN; AREPEATN].
Lemma no_comma ds : Forall digit ds -> ~ In 44 ds.
Proof. rewrite Forall_forall. intros H I. specialize (H _ I). unfold digit in H. lia. Qed.
Lemma repeat_end_ok ty mn mx both extra inp :
  (forall y, ty = Some y -> In y [ZEROORMORE; ONEORMORE; OPT]) ->
  (ty = None -> (mn <> 0 \/ mx <> 0) -> (both = true -> mn <= mx) ->
    forall z, rep_ok {| tk_type := z; tk_extra := extra; tk_str := [] |}) ->
  match repeat_end ty mn mx both extra inp with
  | Ok (t, r) => tail_of r inp /\ is_dup (tk_type t) /\ rep_ok t
  | Throw _ => True
  | _ => False
  end.
Proof.
  intros HT HN. unfold repeat_end. destruct inp as [|c r]; [auto|]. destruct (c =? 125); [|auto].
  assert (G : forall x, sfx (snd x) r -> is_dup (fst x) -> rep_ok (t_of (fst x) extra) ->
    match Ok (A := token * list N) (t_of (fst x) extra, snd x) with Ok (t, r') => tail_of r' (c :: r) /\ is_dup (tk_type t) /\ rep_ok t | Throw _ => True | _ => False end).
  { intros x (p & Hx) Hd Ho. split; [|auto]. exists (c :: p). split; [discriminate|]. cbn. now rewrite <- Hx. }
  destruct ty as [y|].
  - destruct (HT y eq_refl) as [<-|[<-|[<-|[]]]]; cbv zeta; apply G; try apply lazy_sfx.
    all: match goal with |- context [lazy ?a ?l ?r] => destruct (lazy_type_is a l r) as [-> | ->] end.
    all: unfold is_dup, rep_ok; cbn; auto 10.
  - destruct ((mn =? 0) && (mx =? 0)) eqn:E0; [auto|]. destruct (both && (mx <? mn)) eqn:E1; [auto|].
    cbv zeta. apply G; [apply lazy_sfx| |].
    + destruct (lazy_type_is REPEATN AREPEATN r) as [-> | ->]; unfold is_dup; cbn; auto 10.
    + apply HN; auto.
      * destruct (N.eqb_spec mn 0); [|auto]. destruct (N.eqb_spec mx 0); [discriminate|auto].
      * intros ->. cbn in E1. lia.
Qed.
Lemma repeat_n_ok inp : numbers_fit inp -> (exists c r, inp = c :: r /\ is_digit c = true) ->
  match repeat_n inp with
  | Ok (t, r) => tail_of r inp /\ is_dup (tk_type t) /\ rep_ok t
  | Throw _ => True
  | _ => False
  end.
Proof.
  intros HF (c0 & r0 & E0 & Hc0). unfold repeat_n.
  destruct (digits_ok inp 0) as (mn & ds & r & Ed & Ei & Hd & Hr & Hn). rewrite Ed.
  assert (Hne : ds <> []).
  { intros ->. cbn in Ei. rewrite <- Ei, E0 in Hr. congruence. }
  assert (Hv : dval ds < 2 ^ 64) by (apply (HF [] ds r); auto).
  assert (Dm : decimal ds mn) by (unfold decimal; auto).
  assert (Lm : mn < 2 ^ 64) by (rewrite Hn by auto; auto).
  assert (One : mn <> 0 -> forall z, rep_ok {| tk_type := z; tk_extra := ds; tk_str := [] |}).
  { intros Hz z. unfold rep_ok. cbn.
    assert (Ex : exists mn0 mx, counts ds mn0 mx /\ counts_ok mn0 mx /\ (mx = Some 1 -> mn0 = 1) /\ (mx = Some mn0 -> ~ In 44 ds)).
    { exists mn, (Some mn). split; [now constructor|]. split; [unfold counts_ok; lia|].
      split; [now intros [=]|]. intros _. now apply no_comma. }
    destruct z; auto. }
  destruct r as [|comma r1]; [auto|].
  assert (Tr : forall r', tail_of r' (comma :: r1) -> tail_of r' inp).
  { intros r' Ht. eapply tail_sfx; [exact Ht|]. now exists ds. }
  destruct (N.eqb_spec comma 44) as [->|Hcm].
  2:{ pose proof (repeat_end_ok None mn 0 false ds (comma :: r1)) as R.
      destruct (repeat_end None mn 0 false ds (comma :: r1)) as [[t r']| | |]; auto; try (apply R; [discriminate|intros _ [Hz|Hz] _; [auto|lia]]).
      destruct R as (R1 & R2 & R3); [discriminate|intros _ [Hz|Hz] _; [auto|lia]|]. auto. }
  destruct r1 as [|c r1]; [auto|]. destruct (N.eqb_spec c 125) as [->|Hc].
  - match goal with |- context [repeat_end ?ty _ _ _ ?e _] => set (y := ty); set (ex := e) end.
    assert (H1 : forall z, y = Some z -> In z [ZEROORMORE; ONEORMORE; OPT]).
    { unfold y. intros z Hz. destruct (mn =? 0); [injection Hz as <-; cbn; auto|].
      destruct (mn =? 1); [injection Hz as <-; cbn; auto|discriminate]. }
    assert (H2 : y = None -> (mn <> 0 \/ 0 <> 0) -> (false = true -> mn <= 0) ->
                 forall z, rep_ok {| tk_type := z; tk_extra := ex; tk_str := [] |}).
    { unfold y, ex. intros Hy _ _ z. destruct (N.eqb_spec mn 0); [discriminate|]. destruct (N.eqb_spec mn 1); [discriminate|].
      assert (Ex : exists mn0 mx, counts (ds ++ [44]) mn0 mx /\ counts_ok mn0 mx /\ (mx = Some 1 -> mn0 = 1) /\ (mx = Some mn0 -> ~ In 44 (ds ++ [44]))).
      { exists mn, None. split; [now constructor|]. split; [unfold counts_ok; lia|]. split; discriminate. }
      unfold rep_ok. cbn. destruct z; auto. }
    pose proof (repeat_end_ok y mn 0 false ex (125 :: r1) H1 H2) as R.
    destruct (repeat_end y mn 0 false ex (125 :: r1)) as [[t r']| | |]; auto.
    destruct R as (R1 & R2 & R3). split; [|auto]. apply Tr. now apply tail_cons_of.
  - destruct (is_digit c) eqn:Hdc; [|auto].
    destruct (digits_ok (c :: r1) 0) as (mx & es & r2 & Ee & Ei2 & He & Hr2 & Hm). rewrite Ee.
    assert (Hne2 : es <> []).
    { intros ->. cbn in Ei2. rewrite <- Ei2 in Hr2. congruence. }
    assert (Hv2 : dval es < 2 ^ 64).
    { apply (HF (ds ++ [44]) es r2); auto. rewrite Ei, Ei2, <- app_assoc. reflexivity. }
    assert (Dx : decimal es mx) by (unfold decimal; auto).
    assert (Lx : mx < 2 ^ 64) by (rewrite Hm by auto; auto).
    destruct r2 as [|q r2]; [auto|].
    assert (Tr2 : forall r', tail_of r' (q :: r2) -> tail_of r' inp).
    { intros r' Ht. apply Tr. apply tail_cons_of. rewrite Ei2. eapply tail_sfx; [exact Ht|]. now exists es. }
    assert (Done : forall ty m both ex,
      (forall z, ty = Some z -> In z [ZEROORMORE; ONEORMORE; OPT]) ->
      (ty = None -> (mn <> 0 \/ m <> 0) -> (both = true -> mn <= m) ->
                 forall z, rep_ok {| tk_type := z; tk_extra := ex; tk_str := [] |}) ->
      match repeat_end ty mn m both ex (q :: r2) with
      | Ok (t, r) => tail_of r inp /\ is_dup (tk_type t) /\ rep_ok t
      | Throw _ => True
      | _ => False
      end).
    { intros ty m both ex H1 H2. pose proof (repeat_end_ok ty mn m both ex (q :: r2) H1 H2) as R.
      destruct (repeat_end ty mn m both ex (q :: r2)) as [[t r']| | |]; auto.
      destruct R as (R1 & R2 & R3). auto. }
    destruct ((mn =? 0) && (mx =? 1)) eqn:Eo.
    + apply Done; [|discriminate]. intros z [= <-]. cbn. auto.
    + destruct (N.eqb_spec mn mx) as [Emx|Nmx].
      * apply Done; [discriminate|]. intros _ [Hz|Hz] _; [auto|lia].
      * apply Done; [discriminate|]. intros _ Hz Hb z. specialize (Hb eq_refl).
        assert (Ex : exists mn0 mx, counts (ds ++ 44 :: es) mn0 mx /\ counts_ok mn0 mx /\ (mx = Some 1 -> mn0 = 1) /\ (mx = Some mn0 -> ~ In 44 (ds ++ 44 :: es))).
        { exists mn, (Some mx). split; [now constructor|]. split; [unfold counts_ok; lia|].
          split; [|intros [= ->]; lia]. intros [= ->]. destruct (N.eqb_spec mn 0); [discriminate Eo|lia]. }
        unfold rep_ok. cbn. destruct z; auto.
Qed.

(** ** The token *)
Lemma name_chars_sfx inp : sfx (snd (name_chars inp)) inp.
Proof.
  induction inp as [|c r IH]; cbn; [apply sfx_refl|]. destruct (name_char c); cbn; [now apply sfx_cons|apply sfx_refl].
Qed.
Lemma macro_ok inp :
  match macro inp with Ok (t, r) => tail_of r inp /\ tk_type t = MACRO | Throw _ => True | _ => False end.
Proof.
  unfold macro. destruct inp as [|c r]; [auto|]. destruct (name_first c); [|auto]. cbv zeta.
  pose proof (name_chars_sfx r) as S. destruct (snd (name_chars r)) as [|d r']; [auto|]. destruct (d =? 125); [|auto].
  split; [|reflexivity]. apply tail_cons_of. eapply sfx_pull; eauto.
Qed.
Lemma options_sfx inp : forall neg fl, match options neg fl inp with Ok x => sfx (snd x) inp | Throw _ => True | _ => False end.
Proof.
  induction inp as [|c r IH]; intros neg fl; cbn [options]; [apply sfx_refl|].
  repeat match goal with
  | |- context [if ?b then _ else _] => destruct b
  end; cbn [snd]; auto using sfx_cons, sfx_refl;
  match goal with |- context [options ?n ?f r] => specialize (IH n f); destruct (options n f r); auto using sfx_cons end.
Qed.
Definition curly_type (lhs : ttype) (t : token) : Prop :=
  is_dup (tk_type t) \/ tk_type t = MACRO \/
  tk_type t = DIFF /\ lhs = CHARSET /\ (tk_extra t = [45] \/ tk_extra t = [43]).
Lemma open_curly_ok lhs inp : numbers_fit inp ->
  match open_curly lhs inp with
  | Ok (t, r) => tail_of r inp /\ curly_type lhs t /\ rep_ok t
  | Throw _ => True
  | _ => False
  end.
Proof.
  intros HF. unfold open_curly. destruct inp as [|c r]; [auto|].
  destruct ((c =? 45) || (c =? 43)) eqn:E.
  - destruct (ttype_eqb lhs CHARSET) eqn:EL; [|auto]. destruct r as [|d r']; [auto|]. destruct (d =? 125); [|auto].
    split; [apply tail_cons_of, tail_cons|]. split; [|exact I]. right. right.
    split; [reflexivity|]. split; [destruct lhs; try discriminate; reflexivity|].
    apply orb_true_iff in E. destruct E as [E|E]; apply N.eqb_eq in E; subst; auto.
  - destruct (is_digit c) eqn:D.
    + pose proof (repeat_n_ok (c :: r) HF) as R. destruct (repeat_n (c :: r)) as [[t r']| | |]; auto; try (apply R; eauto).
      destruct R as (R1 & R2 & R3); [eauto|]. repeat split; auto. now left.
    + pose proof (macro_ok (c :: r)) as M. destruct (macro (c :: r)) as [[t r']| | |]; auto. destruct M as [M1 M2].
      split; [auto|]. split; [right; now left|]. unfold rep_ok. now rewrite M2.
Qed.

Section Next.
  Variable b : N.
  (** What is claimed of the sets, by the state of the icase flag. *)
  Variable P : bool -> stoken -> Prop.
  Notation small := (Forall (fun c => c <= max_char b)).
  Hypothesis Pset : forall ic inp t r, small inp -> charset nesting b ic inp = Ok (t, r) -> P ic t.
  Hypothesis Padd : forall ic c, c <= max_char b -> P ic (add_range b ic [] (c, c)).
  Hypothesis Pchr : forall ic c, c = 94 \/ c = 36 -> P ic (insert [] (c, c)).
  Hypothesis Pdot : forall ic fl, P ic (dot_set b fl).

  (** What next() returns. *)
  Record got (s : rstate) (lhs : ttype) (t : token) (s' : rstate) : Prop := {
    go_set : tk_type t = CHARSET -> P (has (rs_flags s) rf_icase) (tk_str t);
    go_rep : rep_ok t;
    go_bol : tk_type t = BOL -> rs_size s = S (length (rs_inp s'));
    go_eol : tk_type t = EOL -> rs_inp s' = [];
    go_diff : tk_type t = DIFF -> lhs = CHARSET /\ (tk_extra t = [45] \/ tk_extra t = [43]);
    go_type : In (tk_type t) [OR; CHARSET; BOL; EOL; MACRO; DIFF; OPENPAREN; CLOSEPAREN] \/ is_dup (tk_type t);
    go_size : rs_size s' = rs_size s;
    go_parens : rs_parens s' = match tk_type t with
                               | OPENPAREN => rs_parens s + 1
                               | CLOSEPAREN => rs_parens s - 1
                               | _ => rs_parens s
                               end;
    go_close : tk_type t = CLOSEPAREN -> rs_parens s <> 0
  }.

  Lemma escape_set s : small (rs_inp s) ->
    match escape b s with
    | Ok (t, r) => P (has (rs_flags s) rf_icase) t /\ tail_of r (rs_inp s)
    | Throw _ => True
    | _ => False
    end.
  Proof.
    intros F. unfold escape. cbv zeta. pose proof (escape_ok b (rs_inp s)) as E.
    destruct (escape_sequence b (rs_inp s)) as [[[t|c] r]| | |]; cbn [bind fst snd]; auto.
    2:{ destruct E as [E1 E2]. auto. }
    - destruct E as (E1 & E2 & E3).
      assert (F1 : small (tl t)) by (apply tl_forall; now apply consts_bound).
      pose proof (charset_built b (has (rs_flags s) rf_icase) (tl t) F1) as C.
      destruct (charset nesting b (has (rs_flags s) rf_icase) (tl t)) as [[u r']| | |] eqn:EC; cbn [bind fst]; auto.
      split; [|auto]. eauto.
  Qed.

  Lemma dup_got s lhs t s' : is_dup (tk_type t) -> rep_ok t -> rs_size s' = rs_size s -> rs_parens s' = rs_parens s ->
    got s lhs t s'.
  Proof.
    intros H1 H2 H3 H4. destruct t as [ty ex st]. pose proof H1 as H0. unfold is_dup in H0. cbn in H0.
    destruct ty; try (exfalso; intuition discriminate); constructor; auto; try discriminate.
  Qed.
  Lemma set_got s lhs u s' : P (has (rs_flags s) rf_icase) u -> rs_size s' = rs_size s -> rs_parens s' = rs_parens s ->
    got s lhs (t_set u) s'.
  Proof.
    intros H1 H2 H3. constructor; cbn; auto 12; try discriminate.
  Qed.

  Lemma on_char_ok lhs c s : c <= max_char b -> small (rs_inp s) -> numbers_fit (rs_inp s) ->
    match on_char b lhs c s with
    | Ok (t, s') => got s lhs t s' /\ sfx (rs_inp s') (rs_inp s)
    | Throw _ => True
    | _ => False
    end.
  Proof.
    intros Hc F HF. unfold on_char. cbv zeta.
    destruct (c =? 92).
    { pose proof (escape_set s F) as E. destruct (escape b s) as [[t r]| | |]; cbn [bind fst snd]; auto.
      destruct E as [E1 E2]. split; [now apply set_got|]. now apply sfx_tail. }
    destruct (rs_string s). { split; [apply set_got; auto|apply sfx_refl]. }
    destruct (c =? 40).
    { unfold read_options. cbn [rs_inp rs_flags rs_size rs_stack rs_parens rs_string].
      destruct (peek (rs_inp s) =? 63).
      - pose proof (options_sfx (tl (rs_inp s)) false (rs_flags s)) as O.
        destruct (options false (rs_flags s) (tl (rs_inp s))) as [[fl r]| | |]; cbn [bind fst snd]; auto.
        split; [|now apply sfx_tl]. constructor; cbn; auto 10; try discriminate.
      - cbn [bind]. split; [|apply sfx_refl]. constructor; cbn; auto 10; try discriminate. }
    destruct (c =? 41).
    { destruct (N.eqb_spec (rs_parens s) 0) as [Hp|Hp]; [auto|].
      split; [|destruct (rs_stack s); apply sfx_refl].
      destruct (rs_stack s); constructor; cbn; auto 12; try discriminate. }
    destruct (c =? 63).
    { split; [|apply lazy_sfx]. destruct (lazy_type_is OPT AOPT (rs_inp s)) as [E|E]; rewrite E; apply dup_got; try exact I; unfold is_dup; cbn; auto 10. }
    destruct (c =? 42).
    { split; [|apply lazy_sfx]. destruct (lazy_type_is ZEROORMORE AZEROORMORE (rs_inp s)) as [E|E]; rewrite E; apply dup_got; try exact I; unfold is_dup; cbn; auto 10. }
    destruct (c =? 43).
    { split; [|apply lazy_sfx]. destruct (lazy_type_is ONEORMORE AONEORMORE (rs_inp s)) as [E|E]; rewrite E; apply dup_got; try exact I; unfold is_dup; cbn; auto 10. }
    destruct (c =? 123).
    { pose proof (open_curly_ok lhs (rs_inp s) HF) as O. destruct (open_curly lhs (rs_inp s)) as [[t r]| | |]; cbn [bind fst snd]; auto.
      destruct O as (O1 & O2 & O3). split; [|now apply sfx_tail]. destruct O2 as [O2|[O2|(O2 & O4)]].
      - now apply dup_got.
      - constructor; rewrite ?O2; try discriminate; cbn; auto 10.
      - constructor; rewrite ?O2; try discriminate; cbn; auto 10. }
    destruct (c =? 124). { split; [|apply sfx_refl]. constructor; cbn; auto 12; try discriminate. }
    destruct (N.eqb_spec c 94) as [E94|_].
    { destruct (Nat.eqb_spec (rs_size s) (S (length (rs_inp s)))) as [E|E].
      - split; [|apply sfx_refl]. constructor; cbn; auto 12; try discriminate.
      - split; [apply set_got; auto|apply sfx_refl]. }
    destruct (N.eqb_spec c 36) as [E36|_].
    { destruct (rs_inp s) eqn:E.
      - split; [|rewrite E; apply sfx_refl]. constructor; cbn; auto 12; try discriminate.
      - split; [apply set_got; auto|rewrite E; apply sfx_refl]. }
    destruct (c =? 46). { split; [apply set_got; auto|apply sfx_refl]. }
    destruct (c =? 91).
    { pose proof (charset_built b (has (rs_flags s) rf_icase) (rs_inp s) F) as C.
      destruct (charset nesting b (has (rs_flags s) rf_icase) (rs_inp s)) as [[u r]| | |] eqn:EC; cbn [bind fst snd]; auto.
      destruct C as (_ & _ & C). split; [|now apply sfx_tail]. apply set_got; auto. eauto. }
    destruct (c =? 47); [auto|]. split; [apply set_got; auto|apply sfx_refl].
  Qed.

  Theorem next_ok lhs s : small (rs_inp s) -> numbers_fit (rs_inp s) ->
    match next b lhs s with
    | Ok (t, s') =>
      t = tok END /\ rs_inp s' = [] /\ rs_parens s = 0 /\ rs_string s' = false \/
      got s lhs t s' /\ tail_of (rs_inp s') (rs_inp s)
    | Throw _ => True
    | _ => False
    end.
  Proof.
    intros F HF. unfold next.
    assert (E0 : match Ok (A := option N * list N * bool) (None, [], rs_string s) with
                 | Ok (Some c', r, _) => sfx (c' :: r) (rs_inp s) | Ok (None, r, _) => r = [] | Throw _ => True | _ => False end) by reflexivity.
    assert (L : match match rs_inp s with [] => Ok (None, [], rs_string s) | c :: r => lead (S (length r)) (rs_flags s) c r (rs_string s) end with
                 | Ok (Some c', r, _) => sfx (c' :: r) (rs_inp s) | Ok (None, r, _) => r = [] | Throw _ => True | _ => False end).
    { destruct (rs_inp s) as [|c r]; [exact E0|]. apply lead_ok. lia. }
    destruct (match rs_inp s with [] => _ | _ :: _ => _ end) as [[[[c|] r] str]| | |]; cbn [bind]; auto.
    - match goal with |- context [on_char b lhs c ?x] => set (s1 := x) end.
      assert (F1 : small (c :: r)) by (eapply sfx_forall; eauto). inversion F1; subst.
      assert (HF1 : numbers_fit r) by (eapply numbers_sfx; [|exact HF]; eapply sfx_trans; [|exact L]; apply sfx_cons, sfx_refl).
      pose proof (on_char_ok lhs c s1 ltac:(auto) ltac:(auto) HF1) as O.
      destruct (on_char b lhs c s1) as [[t s']| | |]; auto. destruct O as [[] O2]. right. split.
      + constructor; auto.
      + destruct O2 as (p & O2). cbn in O2. rewrite O2 in L. destruct L as (q & L).
        exists (q ++ c :: p). split; [destruct q; discriminate|]. now rewrite L, <- app_assoc.
    - subst r. destruct str; [auto|]. destruct (N.eqb_spec (rs_parens s) 0) as [Hp|]; cbn [negb]; [|auto]. left. auto.
  Qed.
End Next.
