(** Proof that load inverts save. *)
From Verif Require Import Base StateMachine Serialise.
Local Open Scope N_scope.
Ltac Zify.zify_post_hook ::= Z.div_mod_to_equations.

Lemma read_digits_app acc a b :
  Forall (fun c => is_digit c = true) a ->
  read_digits acc (a ++ b) =
  read_digits (fold_left (fun v c => v * 10 + (c - 48)) a acc) b.
Proof.
  intros H; revert acc; induction H as [|c a Hc Ha IH]; intros acc; cbn [app read_digits fold_left]; auto.
  rewrite Hc. apply IH.
Qed.

Lemma dec_loop_spec fuel : forall n acc,
  n < 2 ^ N.of_nat fuel ->
  exists p, dec_loop fuel n acc = p ++ acc /\ p <> [] /\
    Forall (fun c => is_digit c = true) p /\
    fold_left (fun v c => v * 10 + (c - 48)) p 0 = n.
Proof.
  induction fuel as [|fuel IH]; intros n acc Hn.
  - change (2 ^ N.of_nat 0) with 1 in Hn. cbn [dec_loop]. exists [48 + n mod 10].
    repeat split; [discriminate| |cbn; lia].
    constructor; [|constructor]. unfold is_digit. lia.
  - cbn [dec_loop]. destruct (N.eqb_spec (n / 10) 0) as [E|E].
    + exists [48 + n mod 10]. repeat split; [discriminate| |cbn; lia].
      constructor; [|constructor]. unfold is_digit. lia.
    + destruct (IH (n / 10) ((48 + n mod 10) :: acc)) as (p & E1 & E2 & E3 & E4).
      { rewrite Nat2N.inj_succ, N.pow_succ_r' in Hn.
        apply N.div_lt_upper_bound; [discriminate|]. 
        apply N.lt_le_trans with (2 * 2 ^ N.of_nat fuel); auto.
        apply N.mul_le_mono_r. lia. }
      exists (p ++ [48 + n mod 10]). rewrite E1, <- app_assoc. split; [reflexivity|].
      split; [destruct p; discriminate|]. split.
      * apply Forall_app. split; auto. constructor; [|constructor]. unfold is_digit. lia.
      * rewrite fold_left_app, E4. cbn [fold_left]. lia.
Qed.

Lemma dec_spec n : exists p, dec n = p /\ p <> [] /\
  Forall (fun c => is_digit c = true) p /\
  fold_left (fun v c => v * 10 + (c - 48)) p 0 = n.
Proof.
  unfold dec. destruct (dec_loop_spec (N.size_nat n) n []) as (p & E & R).
  - rewrite <- N.size_log2 || idtac. destruct n as [|q]; [cbn; lia|].
    clear. cbn [N.size_nat]. induction q as [q IH|q IH|]; cbn [Pos.size_nat].
    + rewrite Nat2N.inj_succ, N.pow_succ_r'. lia.
    + rewrite Nat2N.inj_succ, N.pow_succ_r'. lia.
    + reflexivity.
  - rewrite app_nil_r in E. exists p; auto.
Qed.

Lemma skip_ws_space s t : Forall (fun c => is_space c = true) s ->
  skip_ws (s ++ t) = skip_ws t.
Proof. induction 1 as [|c s Hc Hs IH]; cbn [app skip_ws]; auto. rewrite Hc; auto. Qed.

Lemma digit_not_space c : is_digit c = true -> is_space c = false.
Proof. unfold is_digit, is_space. lia. Qed.

(** A printed number followed by white space is read back. *)
Lemma get_dec lim old ws n c rest :
  Forall (fun c => is_space c = true) ws -> is_space c = true -> n < lim ->
  get_num lim old {| st_chars := ws ++ dec n ++ c :: rest; st_fail := false |}
  = (n, {| st_chars := c :: rest; st_fail := false |}).
Proof.
  intros Hws Hc Hn. unfold get_num. cbn [st_fail st_chars]. rewrite skip_ws_space by auto.
  destruct (dec_spec n) as (p & -> & Hne & Hd & Hv).
  destruct p as [|d p]; [congruence|]. cbn [app].
  inversion Hd; subst. cbn [skip_ws]. rewrite digit_not_space by auto. rewrite H1.
  change (d :: p ++ c :: rest) with ((d :: p) ++ c :: rest).
  rewrite read_digits_app by auto. cbn [read_digits].
  assert (is_digit c = false) by (unfold is_digit, is_space in *; lia). rewrite H.
  destruct (N.ltb_spec (fold_left (fun v c => v * 10 + (c - 48)) (d :: p) 0) lim); [reflexivity|lia].
Qed.

Lemma size_lim_bytes bytes v : bytes <= 8 -> v < 2 ^ (8 * bytes) -> v < size_lim.
Proof.
  intros Hb Hv. unfold size_lim. apply N.lt_le_trans with (1 := Hv).
  apply N.pow_le_mono_r; lia.
Qed.

(** [at_ws st rest]: the stream is good, and what is left is white space
    followed by [rest]. *)
Definition at_ws (st : stream) (rest : list N) : Prop :=
  exists ws, Forall (fun c => is_space c = true) ws /\
    st = {| st_chars := ws ++ rest; st_fail := false |}.

Lemma get_dec_at lim old st n c rest :
  at_ws st (dec n ++ c :: rest) -> is_space c = true -> n < lim ->
  exists st', get_num lim old st = (n, st') /\ at_ws st' rest.
Proof.
  intros (ws & Hws & ->) Hc Hn. rewrite get_dec by auto. eexists; split; [reflexivity|].
  exists [c]. split; [constructor; auto|reflexivity].
Qed.

Lemma in_loop_correct bytes (Hb : 2 <= bytes <= 8) vec : forall line_len st rest,
  Forall (fun v => v < 2 ^ (8 * bytes)) vec ->
  at_ws st (out_loop bytes line_len vec ++ rest) ->
  exists st', in_loop bytes (length vec) st = (vec, st') /\ at_ws st' rest.
Proof.
  induction vec as [|v vec IH]; intros line_len st rest Hv Hst; cbn [length in_loop out_loop] in *.
  - exists st; split; auto.
  - inversion Hv; subst.
    assert (Hst' : exists ll, at_ws st (dec v ++ sp :: out_loop bytes ll vec ++ rest)).
    { unfold put_id in Hst. destruct (N.eqb_spec bytes 1); [lia|].
      destruct Hst as (ws & Hws & Est). subst st. cbv zeta in *.
      match goal with |- context [if ?b then _ else _] => destruct b end.
      - eexists. exists (ws ++ [nl]). split; [apply Forall_app; split; auto|].
        rewrite <- !app_assoc. cbn [app]. rewrite <- app_assoc. reflexivity.
      - eexists. exists ws. split; auto. rewrite <- !app_assoc. reflexivity. }
    destruct Hst' as [ll Hst'].
    destruct (get_dec_at size_lim 0 st v sp _ Hst') as (st1 & E1 & A1); [reflexivity|eapply size_lim_bytes; eauto; lia|].
    rewrite E1. destruct (IH ll st1 rest) as (st2 & E2 & A2); auto.
    rewrite E2. exists st2. split; auto. rewrite N.mod_small by auto. reflexivity.
Qed.

Lemma at_ws_more st c rest : is_space c = true -> at_ws st (c :: rest) -> at_ws st rest.
Proof.
  intros Hc (ws & Hws & ->). exists (ws ++ [c]). split; [apply Forall_app; auto|].
  rewrite <- app_assoc; reflexivity.
Qed.

Lemma input_vec_correct bytes (Hb : 2 <= bytes <= 8) vec st rest :
  Forall (fun v => v < 2 ^ (8 * bytes)) vec -> N.of_nat (length vec) < size_lim ->
  at_ws st (output_vec bytes vec ++ rest) ->
  exists st', input_vec bytes st = (vec, st') /\ at_ws st' rest.
Proof.
  intros Hv Hl Hst. unfold output_vec in Hst. unfold input_vec.
  rewrite <- app_assoc in Hst. cbn [app] in Hst. rewrite <- app_assoc in Hst. cbn [app] in Hst.
  destruct (get_dec_at size_lim 0 st _ nl _ Hst) as (st1 & E1 & A1); auto.
  rewrite E1, Nat2N.id.
  destruct (in_loop_correct bytes Hb vec 0 st1 (nl :: rest) Hv A1) as (st2 & E2 & A2).
  exists st2. split; auto. eapply at_ws_more; [|eassumption]. reflexivity.
Qed.

Lemma input_vecs_correct bytes (Hb : 2 <= bytes <= 8) vecs : forall st rest,
  Forall (fun l => Forall (fun v => v < 2 ^ (8 * bytes)) l /\ N.of_nat (length l) < size_lim) vecs ->
  at_ws st (concat (map (output_vec bytes) vecs) ++ rest) ->
  exists st', input_vecs bytes (length vecs) st = (vecs, st') /\ at_ws st' rest.
Proof.
  induction vecs as [|v vecs IH]; intros st rest Hv Hst; cbn [length input_vecs map concat] in *.
  - exists st; auto.
  - inversion Hv as [|? ? [H1 H2] H3]; subst. rewrite <- app_assoc in Hst.
    destruct (input_vec_correct bytes Hb v st _ H1 H2 Hst) as (st1 & E1 & A1).
    rewrite E1. destruct (IH st1 rest H3 A1) as (st2 & E2 & A2).
    rewrite E2. exists st2; auto.
Qed.

Theorem load_save csize bytes m old st rest :
  csize < size_lim -> 2 <= bytes <= 8 -> fits bytes m ->
  at_ws st (save csize bytes m ++ rest) ->
  exists st', load csize bytes old st = Ok (m, st') /\ at_ws st' rest.
Proof.
  intros Hcs Hb (F1 & F2 & F3 & F4 & (F5 & F6) & F7 & F8) Hst.
  unfold save, put_id in Hst. destruct (N.eqb_spec bytes 1) as [|_]; [lia|].
  repeat (rewrite <- app_assoc in Hst; cbn [app] in Hst).
  assert (L64 : forall x, x < 2 ^ (8 * bytes) -> x < size_lim).
  { intros; eapply size_lim_bytes; eauto; lia. }
  unfold load.
  destruct (get_dec_at size_lim 0 _ _ nl _ Hst) as (st0 & E0 & A0); [reflexivity|reflexivity|].
  rewrite E0. clear E0 Hst.
  destruct (get_dec_at size_lim 1 _ _ nl _ A0) as (st1 & E1 & A1); [reflexivity|auto|].
  rewrite E1, N.eqb_refl. cbn [negb]. clear E1 A0.
  destruct (get_dec_at size_lim csize _ _ nl _ A1) as (st2 & E2 & A2);
    [reflexivity|unfold size_lim; change (2 ^ 64) with 18446744073709551616; lia|].
  rewrite E2, N.eqb_refl. cbn [negb]. clear E2 A1.
  unfold get_id. destruct (N.eqb_spec bytes 1) as [|_]; [lia|].
  destruct (get_dec_at (2 ^ (8 * bytes)) 0 _ _ nl _ A2) as (st3 & E3 & A3); [reflexivity|auto|].
  rewrite E3. clear E3 A2.
  destruct (get_dec_at size_lim bytes _ _ nl _ A3) as (st4 & E4 & A4); [reflexivity|auto|].
  rewrite E4, Nat2N.id. clear E4 A3.
  destruct (input_vecs_correct bytes Hb _ _ _ F4 A4) as (st5 & E5 & A5).
  rewrite E5. clear E5 A4.
  destruct (input_vec_correct bytes Hb _ _ _ F5 F6 A5) as (st6 & E6 & A6).
  rewrite E6. clear E6 A5.
  destruct (get_dec_at (2 ^ (8 * bytes)) 0 _ _ nl _ A6) as (st7 & E7 & A7); [reflexivity|auto|].
  rewrite E7. clear E7 A6.
  destruct (get_dec_at size_lim (N.of_nat (length (i_lookup m))) _ _ nl _ A7) as (st8 & E8 & A8); [reflexivity|auto|].
  rewrite E8, Nat2N.id. clear E8 A7.
  destruct (input_vecs_correct bytes Hb _ _ _ F8 A8) as (st9 & E9 & A9).
  rewrite E9. exists st9. split; auto. destruct m; reflexivity.
Qed.
