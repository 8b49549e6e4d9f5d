(** Proofs: character classes as written in SourceSpec.v are read as the sets they mean. *)
From Coq Require Import String Ascii.
From Verif Require Import Base StringToken StringTokenSpec StringTokenProofs RegexSpec Grammar RuleSpec FoldData UnicodeData ReToken
  ReTokeniser ReTokeniserProofs ReTokeniserNext SourceSpec SourceSets SourceEsc.
Local Open Scope N_scope.

Definition small (b : N) (t : list N) : Prop := Forall (fun c => c <= max_char b) t.
Lemma small_app b t u : small b (t ++ u) <-> small b t /\ small b u.
Proof. apply Forall_app. Qed.
Lemma txt_chars s : txt s = chars_of_string s.
Proof. induction s as [|a s IH]; cbn; [reflexivity|]. now rewrite IH. Qed.
Lemma begins_app P u r : u <> [] -> (begins P (u ++ r) <-> begins P u).
Proof.
  destruct u as [|c u]; [easy|]. intros _. split; intros (d & t & E & H).
  - injection E as <- E. exists c, u. auto.
  - injection E as <- E. exists c, (u ++ r). auto.
Qed.
Lemma echar_more b u r e c : u <> [] -> echar b u e c -> echar b (u ++ r) e c.
Proof.
  intros U H. destruct H; [apply ec_self|apply ec_letter|apply ec_control_lower|apply ec_control_upper|apply ec_control_at|apply ec_octal|apply ec_hex]; auto.
  - rewrite begins_app by auto. auto.
  - rewrite begins_app by auto. auto.
Qed.
Lemma echar_small b u e c : small b e -> echar b u e c -> c <= max_char b.
Proof.
  intros S H. pose proof (max_char_ge b). destruct H; auto.
  - now inversion S.
  - cbn in H. repeat (destruct H as [[= <- <-]|H]; [lia|]). destruct H.
  - unfold lower in *. lia.
  - unfold upper in *. lia.
  - lia.
Qed.
Lemma echar_ne b u e c : echar b u e c -> e <> [].
Proof. intros H. destruct H; auto; discriminate. Qed.
Lemma cchar_ne b f u e c : cchar b f u e c -> e <> [].
Proof. intros H. destruct H; discriminate. Qed.
Lemma cchar_more b f u r e c : u <> [] -> cchar b f u e c -> cchar b f (u ++ r) e c.
Proof.
  intros U H. destruct H; [apply cc_plain|apply cc_escape]; auto.
  - intros X. rewrite begins_app; auto.
  - now apply echar_more.
Qed.
Lemma cchar_small b f u e c : small b e -> cchar b f u e c -> c <= max_char b.
Proof. intros S H. destruct H; [now inversion S|]. eapply echar_small; [|eauto]. now inversion S. Qed.
Lemma no_dash_more u r : u <> [] -> no_dash u -> no_dash (u ++ r).
Proof.
  intros U H t E. destruct u as [|c u]; [easy|]. injection E as -> <-. destruct (H u eq_refl) as (d & t & -> & X).
  exists d, (t ++ r). auto.
Qed.
Lemma peek_is inp c : c <> 0 -> (peek inp =? c) = true -> begins (eq c) inp.
Proof. intros C H. apply N.eqb_eq in H. destruct inp as [|d r]; cbn in H; [congruence|]. exists d, r. auto. Qed.
Lemma peek_isnt inp c : ~ begins (eq c) inp -> c <> 0 -> (peek inp =? c) = false.
Proof. intros H C. apply N.eqb_neq. intros E. apply H. destruct inp as [|d r]; cbn in E; [congruence|]. exists d, r. auto. Qed.

(** ** Digits and white space have one case *)
Definition caseless (lo hi : N) (t : list (range * range)) : bool :=
  forallb (fun e => (snd (fst e) <? lo) || (hi <? fst (fst e))) t.
Lemma caseless_paired lo hi t c d : caseless lo hi t = true -> lo <= c <= hi -> ~ paired t c d.
Proof.
  unfold caseless. rewrite forallb_forall. intros H C (ff & fs & tf & ts & I & X & _). specialize (H _ I). cbn [fst snd] in H. lia.
Qed.
Lemma caseless_other lo hi b c d :
  (hi < 65 \/ (90 < lo /\ hi < 97) \/ 122 < lo) -> caseless lo hi fold2_table = true -> caseless lo hi fold4_table = true ->
  lo <= c <= hi -> ~ other_case b c d.
Proof.
  intros A H2 H4 C. unfold other_case, upper, lower. destruct (b =? 1); [lia|].
  pose proof (caseless_paired _ _ _ c d H2 C). pose proof (caseless_paired _ _ _ c d H4 C). destruct (b =? 2); tauto.
Qed.
Lemma cased_id b ic (P : N -> Prop) : (forall c d, P c -> ~ other_case b c d) -> forall d, cased b ic P d <-> P d.
Proof. intros H d. unfold cased. split; [intros [X|(_ & c & X & Y)]; [auto|exfalso; eapply H; eauto]|auto]. Qed.
Lemma dec_case b ic d : cased b ic is_dec d <-> is_dec d.
Proof. apply cased_id. intros c e H. apply (caseless_other 48 57); [lia|vm_compute; reflexivity|vm_compute; reflexivity|exact H]. Qed.
Lemma space_case b ic d : cased b ic is_space d <-> is_space d.
Proof.
  apply cased_id. intros c e [->|H].
  - apply (caseless_other 32 32); [lia|vm_compute; reflexivity|vm_compute; reflexivity|lia].
  - apply (caseless_other 9 13); [lia|vm_compute; reflexivity|vm_compute; reflexivity|exact H].
Qed.

(** ** The shortcuts *)
Ltac small_char := match goal with |- _ <= max_char ?b => pose proof (max_char_ge b); lia end.
Lemma digits_den b ic : den b (add_range b ic [] (48, 57)) is_dec.
Proof.
  eapply den_ext; [apply add_range_den; [apply den_nil|lia|small_char]|]. intros c. cbv beta. rewrite <- (dec_case b ic c).
  unfold is_dec. tauto.
Qed.
Lemma space_den b ic :
  den b (fold_left (fun t c => add_range b ic t (c, c)) white []) is_space.
Proof.
  cbn [white fold_left]. eapply den_ext.
  { do 6 (apply add_char_den; [|small_char]). apply den_nil. }
  intros c. cbv beta. rewrite <- (space_case b ic c).
  rewrite (cased_ext b ic is_space (fun c => ((((32 = c \/ 9 = c) \/ 10 = c) \/ 13 = c) \/ 12 = c) \/ 11 = c)) by (unfold is_space; intros; lia).
  rewrite !cased_or. tauto.
Qed.
Definition words (b : N) (ic : bool) : stoken :=
  add_range b ic (add_range b ic (add_range b ic (add_range b ic [] (95, 95)) (48, 57)) (65, 90)) (97, 122).
Lemma words_den b ic : den b (words b ic) (cased b ic is_word).
Proof.
  unfold words. eapply den_ext.
  { do 3 (apply add_range_den; [|lia|small_char]). apply add_char_den; [apply den_nil|small_char]. }
  intros c. cbv beta.
  rewrite (cased_ext b ic is_word (fun c => ((95 = c \/ 48 <= c <= 57) \/ 65 <= c <= 90) \/ 97 <= c <= 122))
    by (unfold is_word, is_dec, upper, lower; intros; lia).
  rewrite !cased_or. tauto.
Qed.
Lemma outside_has b (P : N -> Prop) t : den b t P -> (exists c, outside b P c) ->
  exists u, match negate (max_char b) t with [] => Throw ETokenise | _ => Ok (negate (max_char b) t, @nil N) end = Ok (u, []) /\ den b u (outside b P).
Proof.
  intros D (c & H). pose proof (den_negate _ _ _ D) as D'. exists (negate (max_char b) t). split; [|exact D'].
  pose proof (den_ne _ _ _ _ D' H) as X. destruct (negate (max_char b) t); [easy|reflexivity].
Qed.
(** Some character is no digit, white space or word: the 0. *)
Lemma table_no0 b (P : N -> Prop) ic : ~ P 0 -> (forall c, P c -> ~ other_case b c 0) -> outside b (cased b ic P) 0.
Proof. intros H1 H2. split; [unfold top; destruct (b =? 1), (b =? 2); lia|]. intros [X|(_ & c & X & Y)]; [auto|eapply H2; eauto]. Qed.
Definition nozero (t : list (range * range)) : bool := forallb (fun e => 0 <? N.min (fst (snd e)) (snd (snd e))) t.
Lemma no_zero b c : ~ other_case b c 0.
Proof.
  assert (Z : forall t, nozero t = true -> ~ paired t c 0).
  { intros t. unfold nozero. rewrite forallb_forall. intros H (ff & fs & tf & ts & I & X & Y). specialize (H _ I). cbn [fst snd] in H. lia. }
  pose proof (Z fold2_table ltac:(vm_compute; reflexivity)). pose proof (Z fold4_table ltac:(vm_compute; reflexivity)).
  unfold other_case, upper, lower. destruct (b =? 1); [lia|]. destruct (b =? 2); tauto.
Qed.

(** ** POSIX classes of one byte characters *)
Definition upper_b (c : N) : bool := (65 <=? c) && (c <=? 90).
Definition lower_b (c : N) : bool := (97 <=? c) && (c <=? 122).
Definition posix_b : list (list N * (N -> bool)) :=
  [ (txt "alnum", fun c => is_digit c || upper_b c || lower_b c);
    (txt "alpha", fun c => upper_b c || lower_b c);
    (txt "blank", fun c => (c =? 32) || (c =? 9));
    (txt "cntrl", fun c => (c <=? 31) || (c =? 127));
    (txt "digit", is_digit);
    (txt "graph", fun c => (33 <=? c) && (c <=? 126));
    (txt "lower", lower_b);
    (txt "print", fun c => (32 <=? c) && (c <=? 126));
    (txt "punct", fun c => (33 <=? c) && (c <=? 126) && negb (is_digit c || upper_b c || lower_b c));
    (txt "space", fun c => (c =? 32) || ((9 <=? c) && (c <=? 13)));
    (txt "upper", upper_b);
    (txt "xdigit", is_hex) ].
Lemma posix_b_ok name P : In (name, P) posix_narrow -> exists p, In (chars_of_string name, p) posix_b /\ forall c, P c <-> p c = true.
Proof.
  intros H. unfold posix_narrow in H.
  Ltac one p := exists p; split; [vm_compute; auto 20|intros c; unfold is_dec, upper, lower, is_space, is_digit, upper_b, lower_b; lia].
  cbn [In] in H. destruct H as [[= <- <-]|H]; [one (fun c => is_digit c || upper_b c || lower_b c)|].
  destruct H as [[= <- <-]|H]; [one (fun c => upper_b c || lower_b c)|].
  destruct H as [[= <- <-]|H]; [one (fun c => (c =? 32) || (c =? 9))|].
  destruct H as [[= <- <-]|H]; [one (fun c => (c <=? 31) || (c =? 127))|].
  destruct H as [[= <- <-]|H]; [one is_digit|].
  destruct H as [[= <- <-]|H]; [one (fun c => (33 <=? c) && (c <=? 126))|].
  destruct H as [[= <- <-]|H]; [one lower_b|].
  destruct H as [[= <- <-]|H]; [one (fun c => (32 <=? c) && (c <=? 126))|].
  destruct H as [[= <- <-]|H]; [one (fun c => (33 <=? c) && (c <=? 126) && negb (is_digit c || upper_b c || lower_b c))|].
  destruct H as [[= <- <-]|H]; [one (fun c => (c =? 32) || ((9 <=? c) && (c <=? 13)))|].
  destruct H as [[= <- <-]|H]; [one upper_b|].
  destruct H as [[= <- <-]|[]].
  exists is_hex. split; [vm_compute; auto 20|]. intros c. split; [intros (v & X); apply is_hex_iff; eauto|intros X; apply is_hex_iff in X; auto].
Qed.
Definition cased_b (ic : bool) (p : N -> bool) (d : N) : bool :=
  p d || (ic && ((lower_b d && p (d - 32)) || (upper_b d && p (d + 32)))).
Lemma cased_b_ok ic (P : N -> Prop) p : (forall c, P c <-> p c = true) -> forall d, cased 1 ic P d <-> cased_b ic p d = true.
Proof.
  intros H d. unfold cased, cased_b. rewrite orb_true_iff, andb_true_iff, orb_true_iff, !andb_true_iff, <- !H.
  unfold other_case. cbn [N.eqb Pos.eqb]. unfold upper, lower, lower_b, upper_b. split.
  - intros [?|(-> & c & X & [[Y ->]|[Y ->]])]; [auto| |].
    + right. split; [auto|]. left. split; [lia|]. now replace (c + 32 - 32) with c by lia.
    + right. split; [auto|]. right. split; [lia|]. exact X.
  - intros [?|(-> & [[X Y]|[X Y]])]; [auto| |].
    + right. split; [auto|]. exists (d - 32). split; [auto|]. left. lia.
    + right. split; [auto|]. exists (d + 32). split; [auto|]. right. lia.
Qed.
Definition same_set (ic : bool) (p : N -> bool) (t : stoken) : bool :=
  forallb (fun c => Bool.eqb (memb c t) (cased_b ic p c)) (map N.of_nat (seq 0 256)).
Definition narrow_ok (name : list N) (p : N -> bool) : Prop :=
  exists s, (forall rest, posix 1 (name ++ 58 :: 93 :: rest) = Ok (s, false, rest)) /\
    (forall rest, posix 1 (94 :: name ++ 58 :: 93 :: rest) = Ok (s, true, rest)) /\
    forallb (fun c => c <=? 255) s = true /\
    forall ic, exists t, (forall d, charset (S d) 1 ic (tl s) = Ok (t, [])) /\ same_set ic p t = true.
Lemma narrow_all : Forall (fun e => narrow_ok (fst e) (snd e)) posix_b.
Proof.
  unfold posix_b.
  repeat (apply Forall_cons; [cbn [fst snd]; eexists; split; [intros rest; lazy; reflexivity|split; [intros rest; lazy; reflexivity|split; [vm_compute; reflexivity|]]];
    intros ic; destruct ic; eexists; (split; [intros d; lazy; reflexivity|vm_compute; reflexivity])|]).
  constructor.
Qed.
Lemma narrow_low : Forall (fun e => forall c, snd e c = true -> c <= 255) posix_b.
Proof. unfold posix_b. repeat (apply Forall_cons; [cbn [snd]; intros c; unfold is_hex, is_digit, upper_b, lower_b; lia|]). constructor. Qed.
Lemma narrow_den name P : In (name, P) posix_narrow ->
  exists s, (forall rest, posix 1 (chars_of_string name ++ 58 :: 93 :: rest) = Ok (s, false, rest)) /\
    (forall rest, posix 1 (94 :: chars_of_string name ++ 58 :: 93 :: rest) = Ok (s, true, rest)) /\
    forall ic, exists t, (forall d, charset (S d) 1 ic (tl s) = Ok (t, [])) /\ den 1 t (cased 1 ic P).
Proof.
  intros H. apply posix_b_ok in H as (p & I & E). pose proof narrow_all as A. rewrite Forall_forall in A.
  specialize (A _ I). cbn [fst snd] in A. destruct A as (s & A1 & A2 & A3 & A4). exists s. split; [exact A1|]. split; [exact A2|].
  intros ic. destruct (A4 ic) as (t & B1 & B2). exists t. split; [exact B1|].
  assert (K : Forall (fun c => c <= max_char 1) (tl s)).
  { apply tl_forall. apply Forall_forall. intros c Hc. rewrite forallb_forall in A3. specialize (A3 _ Hc). change (max_char 1) with 255. lia. }
  pose proof (charset_built 1 ic (tl s) K) as C. unfold nesting in C. rewrite B1 in C. destruct C as (C & _ & _).
  split; [exact C|]. intros c. rewrite (cased_b_ok ic P p E). rewrite <- memb_mem. unfold same_set in B2. rewrite forallb_forall in B2.
  destruct (N.leb_spec c 255) as [L|L].
  - specialize (B2 c). rewrite eqb_true_iff in B2. rewrite B2; [reflexivity|]. apply in_map_iff. exists (N.to_nat c). split; [lia|]. apply in_seq. lia.
  - split; intros X.
    + apply memb_mem in X. apply built_wf in C as [_ C]. apply C in X. change (max_char 1) with 255 in X. lia.
    + exfalso. pose proof narrow_low as B. rewrite Forall_forall in B. specialize (B _ I). cbn [snd] in B.
      pose proof (B c). unfold cased_b, lower_b, upper_b in X. destruct (p c); [lia|]. destruct ic; cbn [orb andb] in X; lia.
Qed.
