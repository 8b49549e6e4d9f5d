(** Escapes: the functions after a backslash against SourceSpec.echar. *)
From Coq Require Import String Ascii.
From Verif Require Import Base StringToken ReToken ReTokeniser Grammar RuleSpec SourceSpec.
Local Open Scope N_scope.

Lemma is_oct_iff c : is_oct c = true <-> octal_digit c.
Proof. unfold is_oct, octal_digit. rewrite andb_true_iff, !N.leb_le. tauto. Qed.
Lemma is_hex_iff c : is_hex c = true <-> exists v, hex_digit c v.
Proof.
  unfold is_hex, is_digit. rewrite !orb_true_iff, !andb_true_iff, !N.leb_le. split.
  - intros [[?|?]|?]; eexists; [apply hx_digit|apply hx_lower|apply hx_upper]; lia.
  - intros [v H]. inversion H; subst; lia.
Qed.
Lemma hex_val_iff c v : hex_digit c v <-> is_hex c = true /\ v = hex_val c.
Proof.
  split.
  - intros H. split; [apply is_hex_iff; eauto|]. unfold hex_val, is_digit. inversion H; subst.
    + destruct (N.leb_spec 48 c), (N.leb_spec c 57); cbn [andb]; lia.
    + destruct (N.leb_spec 48 c), (N.leb_spec c 57); cbn [andb]; try lia;
      destruct (N.leb_spec 97 c), (N.leb_spec c 102); cbn [andb]; lia.
    + destruct (N.leb_spec 48 c), (N.leb_spec c 57); cbn [andb]; try lia;
      destruct (N.leb_spec 97 c), (N.leb_spec c 102); cbn [andb]; lia.
  - intros [H ->]. apply is_hex_iff in H as [v H]. replace (hex_val c) with v; [exact H|].
    unfold hex_val, is_digit. inversion H; subst.
    + destruct (N.leb_spec 48 c), (N.leb_spec c 57); cbn [andb]; lia.
    + destruct (N.leb_spec 48 c), (N.leb_spec c 57); cbn [andb]; try lia;
      destruct (N.leb_spec 97 c), (N.leb_spec c 102); cbn [andb]; lia.
    + destruct (N.leb_spec 48 c), (N.leb_spec c 57); cbn [andb]; try lia;
      destruct (N.leb_spec 97 c), (N.leb_spec c 102); cbn [andb]; lia.
Qed.

(** Values by folding. *)
Definition oval (ds : list N) (a : N) : N := fold_left (fun a c => a * 8 + (c - 48)) ds a.
Definition hval (ds : list N) (a : N) : N := fold_left (fun a c => a * 16 + hex_val c) ds a.
Lemma octal_number_iff ds n : octal_number ds n <-> Forall octal_digit ds /\ n = oval ds 0.
Proof.
  split.
  - induction 1 as [|ds n c H [IH1 IH2] Hc]; [auto|]. split; [apply Forall_app; auto|].
    unfold oval. rewrite fold_left_app. cbn. unfold oval in IH2. now rewrite <- IH2.
  - revert n. induction ds as [|c ds IH] using rev_ind; intros n [H1 H2]; [subst; constructor|].
    apply Forall_app in H1 as [H1 H3]. inversion H3; subst. unfold oval. rewrite fold_left_app. cbn [fold_left].
    constructor; auto.
Qed.
Lemma hex_number_iff ds n : hex_number ds n <-> Forall (fun c => is_hex c = true) ds /\ n = hval ds 0.
Proof.
  split.
  - induction 1 as [|ds n c v H [IH1 IH2] Hc]; [auto|]. apply hex_val_iff in Hc as [Hc ->]. split; [apply Forall_app; auto|].
    unfold hval. rewrite fold_left_app. cbn [fold_left]. unfold hval in IH2. now rewrite <- IH2.
  - revert n. induction ds as [|c ds IH] using rev_ind; intros n [H1 H2]; [subst; constructor|].
    apply Forall_app in H1 as [H1 H3]. inversion H3; subst. unfold hval. rewrite fold_left_app. cbn [fold_left].
    constructor; [auto|]. now apply hex_val_iff.
Qed.
Lemma octal_run n : forall acc inp, exists ds, fst (octal n acc inp) = oval ds acc /\ inp = ds ++ snd (octal n acc inp) /\
  Forall octal_digit ds /\ (length ds <= n)%nat /\ (length ds = n \/ ~ begins octal_digit (snd (octal n acc inp))).
Proof.
  induction n as [|n IH]; intros acc inp; cbn [octal].
  - exists []. destruct inp; cbn; repeat split; auto.
  - destruct inp as [|c r]; [exists []; cbn; repeat split; auto; [lia|right; intros (x & y & H & _); discriminate]|].
    destruct (is_oct c) eqn:E.
    + destruct (IH (acc * 8 + (c - 48)) r) as (ds & H1 & H2 & H3 & H4 & H5). exists (c :: ds). cbn [app length oval fold_left].
      split; [exact H1|]. split; [now rewrite <- H2|]. split; [constructor; [now apply is_oct_iff|auto]|].
      split; [lia|]. destruct H5 as [H5|H5]; [left; lia|auto].
    + exists []. cbn [fst snd app length]. repeat split; auto; [lia|]. right. intros (x & y & [= -> ->] & H). apply is_oct_iff in H. congruence.
Qed.
Lemma octal_app n : forall ds acc rest, Forall octal_digit ds -> (length ds <= n)%nat ->
  length ds = n \/ ~ begins octal_digit rest -> octal n acc (ds ++ rest) = (oval ds acc, rest).
Proof.
  induction n as [|n IH]; intros ds acc rest F L H.
  - destruct ds; [|cbn in L; lia]. reflexivity.
  - destruct ds as [|c ds]; cbn [octal app].
    + destruct rest as [|c r]; [reflexivity|]. destruct (is_oct c) eqn:E; [|reflexivity].
      destruct H as [H|H]; [discriminate H|]. exfalso. apply H. exists c, r. split; [auto|]. now apply is_oct_iff.
    + inversion F; subst. rewrite (proj2 (is_oct_iff c)) by auto. cbn [length] in L. rewrite IH; [reflexivity|auto|lia|].
      destruct H as [H|H]; [left; cbn in H; lia|auto].
Qed.
Theorem decode_octal_iff b inp n r : decode_octal b inp = Ok (n, r) <->
  exists ds, inp = ds ++ r /\ octal_number ds n /\ (length ds <= 3)%nat /\ (length ds = 3%nat \/ ~ begins octal_digit r) /\ n <= top b.
Proof.
  unfold decode_octal. change (top b) with (max_char b). split.
  - destruct (octal_run 3 0 inp) as (ds & H1 & H2 & H3 & H4 & H5). destruct (octal 3 0 inp) as [m r']. cbn [fst snd] in *.
    destruct (N.ltb_spec (max_char b) m); [discriminate|]. intros [= -> ->]. exists ds. split; [auto|]. split; [apply octal_number_iff; auto|auto].
  - intros (ds & -> & H & L & E & M). apply octal_number_iff in H as [H ->]. cbv zeta. rewrite octal_app by auto. cbn [fst].
    destruct (N.ltb_spec (max_char b) (oval ds 0)); [lia|reflexivity].
Qed.
Lemma hval_mono ds : forall a, a <= hval ds a.
Proof. induction ds as [|c ds IH]; intros a; cbn; [lia|]. specialize (IH (a * 16 + hex_val c)). unfold hval in IH. lia. Qed.
Lemma hval_mod ds : forall a, hval ds (a mod 2 ^ 64) mod 2 ^ 64 = hval ds a mod 2 ^ 64.
Proof.
  induction ds as [|c ds IH]; intros a; cbn [hval fold_left]; [apply N.mod_mod; discriminate|].
  change (hval ds (a mod 2 ^ 64 * 16 + hex_val c) mod 2 ^ 64 = hval ds (a * 16 + hex_val c) mod 2 ^ 64).
  rewrite <- IH, <- (IH (a * 16 + hex_val c)). do 2 f_equal.
  rewrite N.add_mod, N.mul_mod, N.mod_mod, <- N.mul_mod, <- N.add_mod by discriminate. reflexivity.
Qed.
Lemma hex_run inp : forall acc, exists ds, fst (hex_digits (acc mod 2 ^ 64) inp) = hval ds acc mod 2 ^ 64 /\
  inp = ds ++ snd (hex_digits (acc mod 2 ^ 64) inp) /\ Forall (fun c => is_hex c = true) ds /\
  ~ begins (fun c => exists v, hex_digit c v) (snd (hex_digits (acc mod 2 ^ 64) inp)).
Proof.
  induction inp as [|c inp IH]; intros acc; cbn [hex_digits].
  - exists []. cbn. repeat split; auto. intros (x & y & H & _); discriminate.
  - destruct (is_hex c) eqn:E.
    + destruct (IH (acc mod 2 ^ 64 * 16 + hex_val c)) as (ds & H1 & H2 & H3 & H4). exists (c :: ds).
      split; [|split; [cbn [app]; now rewrite <- H2|split; [auto|auto]]].
      rewrite H1. cbn [hval fold_left]. change (hval ds (acc mod 2 ^ 64 * 16 + hex_val c) mod 2 ^ 64 = hval ds (acc * 16 + hex_val c) mod 2 ^ 64).
      rewrite <- hval_mod, <- (hval_mod ds (acc * 16 + hex_val c)). do 2 f_equal.
      rewrite N.add_mod, N.mul_mod, N.mod_mod, <- N.mul_mod, <- N.add_mod by discriminate. reflexivity.
    + exists []. cbn [fst snd app]. repeat split; auto. intros (x & y & [= -> ->] & H). apply is_hex_iff in H. congruence.
Qed.
Lemma hex_split ds : forall ds' r r', ds ++ r = ds' ++ r' -> Forall (fun c => is_hex c = true) ds -> Forall (fun c => is_hex c = true) ds' ->
  ~ begins (fun c => exists v, hex_digit c v) r -> ~ begins (fun c => exists v, hex_digit c v) r' -> ds = ds' /\ r = r'.
Proof.
  induction ds as [|c ds IH]; intros ds' r r' E F F' B B'; destruct ds' as [|c' ds']; cbn [app] in E.
  - auto.
  - exfalso. apply B. subst r. exists c', (ds' ++ r'). split; [auto|]. inversion F'; subst. now apply is_hex_iff.
  - exfalso. apply B'. subst r'. exists c, (ds ++ r). split; [auto|]. inversion F; subst. now apply is_hex_iff.
  - injection E as -> E. inversion F; inversion F'; subst. destruct (IH ds' r r') as [-> ->]; auto.
Qed.
Theorem decode_hex_iff b inp n r : decode_hex b inp = Ok (n, r) <->
  exists ds m, inp = ds ++ r /\ hex_number ds m /\ ds <> [] /\ ~ begins (fun c => exists v, hex_digit c v) r /\
    n = m mod 2 ^ 64 /\ n <= top b.
Proof.
  unfold decode_hex. change (top b) with (max_char b). destruct (hex_run inp 0) as (ds & H1 & H2 & H3 & H4). change (0 mod 2 ^ 64) with 0 in *. split.
  - destruct inp as [|c inp]; [discriminate|]. destruct (is_hex c) eqn:E; [|discriminate]. cbv zeta.
    destruct (hex_digits 0 (c :: inp)) as [m r']. cbn [fst snd] in *.
    destruct (N.ltb_spec (max_char b) m); [discriminate|]. intros [= -> ->]. exists ds, (hval ds 0). split; [auto|].
    split; [apply hex_number_iff; auto|]. split; [|auto]. intros ->. apply H4. cbn [app] in H2. subst r.
    exists c, inp. split; [auto|]. now apply is_hex_iff.
  - intros (ds' & m & E & H & NE & B & -> & M). apply hex_number_iff in H as [H ->].
    assert (EE : ds ++ snd (hex_digits 0 inp) = ds' ++ r) by (rewrite <- H2; exact E).
    destruct (hex_split _ _ _ _ EE H3 H H4 B) as [-> E2]. destruct inp as [|c inp]; [destruct ds'; [easy|discriminate E]|].
    destruct ds' as [|c' ds']; [easy|]. injection E as <- E. inversion H as [|? ? Hc]; subst. rewrite Hc. cbv zeta.
    destruct (hex_digits 0 (c :: ds' ++ r)) as [m' r']. cbn [fst snd] in *. subst m' r'.
    destruct (N.ltb_spec (max_char b) (hval (c :: ds') 0 mod 2 ^ 64)); [lia|reflexivity].
Qed.
Theorem decode_control_iff inp n r : decode_control inp = Ok (n, r) <->
  exists c, inp = c :: r /\ ((lower c /\ n = c - 96) \/ (upper c /\ n = c - 64) \/ (c = 64 /\ n = 0)).
Proof.
  unfold decode_control, lower, upper. split.
  - destruct inp as [|c inp]; [discriminate|].
    destruct ((97 <=? c) && (c <=? 122)) eqn:E1; [|destruct ((65 <=? c) && (c <=? 90)) eqn:E2; [|destruct (N.eqb_spec c 64); [|discriminate]]];
      intros [= <- <-]; exists c; (split; [reflexivity|]); rewrite ?andb_true_iff, ?N.leb_le in *; auto; lia.
  - intros (c & -> & [[H ->]|[[H ->]|[-> ->]]]).
    + destruct (N.leb_spec 97 c), (N.leb_spec c 122); cbn [andb]; try lia. reflexivity.
    + destruct (N.leb_spec 97 c), (N.leb_spec c 122); cbn [andb]; try lia;
      destruct (N.leb_spec 65 c), (N.leb_spec c 90); cbn [andb]; try lia; reflexivity.
    + reflexivity.
Qed.

(** ** A character after a backslash *)
Lemma not_itself_out c : ~ In c not_itself -> is_oct c = false /\ Forall (fun d => c <> d) not_itself.
Proof.
  intros H. assert (F : Forall (fun d => c <> d) not_itself) by (apply Forall_forall; intros d Hd ->; auto). split; [|exact F].
  destruct (is_oct c) eqn:E; [|reflexivity]. exfalso. apply H. apply is_oct_iff in E. unfold octal_digit in E.
  assert (K : c = 48 \/ c = 49 \/ c = 50 \/ c = 51 \/ c = 52 \/ c = 53 \/ c = 54 \/ c = 55) by lia.
  vm_compute. repeat (destruct K as [->|K]; [auto 12|]). subst. auto 12.
Qed.
Definition hex_fits (inp : list N) : Prop :=
  forall ds m r, inp = 120 :: ds ++ r -> hex_number ds m -> ~ begins (fun c => exists v, hex_digit c v) r -> m < 2 ^ 64.
Lemma top_small b : top b < 2 ^ 64.
Proof. unfold top. destruct (b =? 1); [reflexivity|]. destruct (b =? 2); reflexivity. Qed.
Lemma echar_escape b e r c : echar b r e c -> escape_sequence b (e ++ r) = Ok (EChar c, r).
Proof.
  intros H. destruct H as [c H1|c d H1|d H1|d H1| |ds c H1 H2 H3 H4 H5|ds c H1 H2 H3 H4].
  - apply not_itself_out in H1 as [O F]. unfold not_itself in F. vm_compute in F.
    repeat (apply Forall_cons_iff in F as [? F]). cbn [app escape_sequence].
    unfold chr. rewrite O.
    repeat (match goal with |- context [if ?x =? ?y then _ else _] => destruct (N.eqb_spec x y); [now subst|] end). reflexivity.
  - cbn in H1. repeat (destruct H1 as [[= <- <-]|H1]; [reflexivity|]). destruct H1.
  - cbn [app escape_sequence chr is_oct N.leb N.compare Pos.compare Pos.compare_cont andb N.eqb Pos.eqb].
    rewrite (proj2 (decode_control_iff (d :: r) (d - 96) r)); [reflexivity|]. exists d. auto.
  - cbn [app escape_sequence chr is_oct N.leb N.compare Pos.compare Pos.compare_cont andb N.eqb Pos.eqb].
    rewrite (proj2 (decode_control_iff (d :: r) (d - 64) r)); [reflexivity|]. exists d. auto.
  - reflexivity.
  - destruct ds as [|d ds]; [easy|]. pose proof (proj1 (octal_number_iff _ _) H1) as [F _]. inversion F as [|? ? Hd F']; subst.
    assert (E : decode_octal b ((d :: ds) ++ r) = Ok (c, r)) by (apply decode_octal_iff; exists (d :: ds); auto).
    unfold octal_digit in Hd. cbn [app escape_sequence] in *.
    repeat (match goal with |- (if ?x =? ?y then _ else _) = _ => destruct (N.eqb_spec x y); [lia|] end).
    unfold chr. rewrite (proj2 (is_oct_iff d)) by exact Hd. rewrite E. reflexivity.
  - cbn [app escape_sequence chr is_oct N.leb N.compare Pos.compare Pos.compare_cont andb N.eqb Pos.eqb].
    rewrite (proj2 (decode_hex_iff b (ds ++ r) c r)); [reflexivity|]. exists ds, c. repeat split; auto.
    rewrite N.mod_small; [reflexivity|]. pose proof (top_small b). lia.
Qed.
Theorem escape_char_iff b inp c r : hex_fits inp ->
  (escape_sequence b inp = Ok (EChar c, r) <-> exists e, inp = e ++ r /\ echar b r e c).
Proof.
  intros HF. split; [|intros (e & -> & H); now apply echar_escape].
  unfold escape_sequence. destruct inp as [|d inp]; [discriminate|]. intros H.
  destruct (N.eqb_spec d 100); [discriminate|]. destruct (N.eqb_spec d 68); [discriminate|].
  destruct (N.eqb_spec d 112). { destruct (unicode_escape inp); discriminate. }
  destruct (N.eqb_spec d 115); [discriminate|]. destruct (N.eqb_spec d 83); [discriminate|].
  destruct (N.eqb_spec d 119); [discriminate|]. destruct (N.eqb_spec d 87); [discriminate|].
  destruct (chr b (d :: inp)) as [[c' r']| | |] eqn:E; try discriminate. cbn [bind fst snd] in H. injection H as -> ->.
  unfold chr in E. destruct (is_oct d) eqn:O.
  { apply decode_octal_iff in E as (ds & E1 & E2 & E3 & E4 & E5). exists ds. split; [exact E1|]. apply ec_octal; auto.
    intros ->. cbn [app] in E1. subst r. destruct E4 as [E4|E4]; [discriminate E4|]. apply E4. exists d, inp. split; [auto|]. now apply is_oct_iff. }
  Ltac letter E := injection E as <- <-; eexists [_]; split; [reflexivity|]; apply ec_letter; vm_compute; auto 10.
  destruct (N.eqb_spec d 97) as [->|]; [letter E|]. destruct (N.eqb_spec d 98) as [->|]; [letter E|].
  destruct (N.eqb_spec d 99) as [->|].
  { apply decode_control_iff in E as (x & -> & [[X ->]|[[X ->]|[-> ->]]]); [exists [99; x]|exists [99; x]|exists [99; 64]]; (split; [reflexivity|]);
      [now apply ec_control_lower|now apply ec_control_upper|apply ec_control_at]. }
  destruct (N.eqb_spec d 101) as [->|]; [letter E|]. destruct (N.eqb_spec d 102) as [->|]; [letter E|].
  destruct (N.eqb_spec d 110) as [->|]; [letter E|]. destruct (N.eqb_spec d 114) as [->|]; [letter E|].
  destruct (N.eqb_spec d 116) as [->|]; [letter E|]. destruct (N.eqb_spec d 118) as [->|]; [letter E|].
  destruct (N.eqb_spec d 120) as [->|].
  { apply decode_hex_iff in E as (ds & m & E1 & E2 & E3 & E4 & E5 & E6). exists (120 :: ds). split; [cbn [app]; now rewrite E1|].
    assert (m < 2 ^ 64) by (apply (HF ds m r); [now rewrite E1|auto|auto]). rewrite N.mod_small in E5 by auto. subst m. apply ec_hex; auto. }
  injection E as <- <-. exists [d]. split; [reflexivity|]. apply ec_self. intros K.
  assert (d <> 48 /\ d <> 49 /\ d <> 50 /\ d <> 51 /\ d <> 52 /\ d <> 53 /\ d <> 54 /\ d <> 55).
  { assert (~ octal_digit d) by (intros X; apply is_oct_iff in X; congruence). unfold octal_digit in *. lia. }
  vm_compute in K. repeat (destruct K as [<-|K]; [lia|]). destruct K.
Qed.
(** Every other text after a backslash is a class or refused. *)
Theorem escape_total b inp : match escape_sequence b inp with Ok _ | Throw ETokenise => True | _ => False end.
Proof.
  unfold escape_sequence. destruct inp as [|d inp]; [exact I|].
  repeat (match goal with |- context [if ?x =? ?y then _ else _] => destruct (x =? y) end; cbn [bind]; auto).
  - unfold unicode_escape. destruct inp as [|o [|e r]]; cbn [bind]; auto. destruct (o =? 123); cbn [bind]; auto.
    destruct (to_brace r) as [[n r']|]; cbn [bind]; auto. destruct (find_text (e :: n) props); cbn [bind]; auto.
  - assert (H : match chr b (d :: inp) with Ok _ | Throw ETokenise => True | _ => False end).
    { unfold chr. destruct (is_oct d). { unfold decode_octal. destruct (max_char b <? _); exact I. }
      repeat (match goal with |- context [if ?x =? ?y then _ else _] => destruct (x =? y) end; auto).
      - unfold decode_control. destruct inp as [|e r]; auto. repeat (match goal with |- context [if ?x then _ else _] => destruct x end; auto).
      - unfold decode_hex. destruct inp as [|e r]; auto. destruct (is_hex e); auto. destruct (max_char b <? _); exact I. }
    destruct (chr b (d :: inp)) as [x|[]| |]; cbn [bind]; auto.
Qed.
