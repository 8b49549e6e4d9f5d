(** Proofs: repeat counts. *)
From Verif Require Import Base StringToken RegexSpec Glushkov Grammar RuleSpec ReToken
  ReTokeniser ReTokeniserProofs ReTokeniserNext SourceSpec SourceSets SourceEsc SourceClass.
Local Open Scope N_scope.

(** The counts that make sense: not {0} and not {0,0}, and in order. *)
Definition sound_counts (mn : N) (mx : option N) : Prop := match mx with Some m => mn <= m /\ 1 <= m | None => True end.
(** What a token of counts makes of an expression; [lz]: the abstemious one. *)
Definition repeats (t : token) (mn : N) (mx : option N) : Prop :=
  exists f, dup t f /\ forall r w, clang (f r) w <->
    exists n, mn <= N.of_nat n /\ match mx with Some m => N.of_nat n <= m | None => True end /\ power (clang r) n w.
Definition is_lazy_type (t : ttype) : bool :=
  match t with AOPT | AZEROORMORE | AONEORMORE | AREPEATN => true | _ => false end.

Lemma digits_run ds : forall acc r, Forall digit ds -> ~ begins digit r ->
  fold_left (fun a c => a * 10 + (c - 48)) ds acc < 2 ^ 64 ->
  digits acc (ds ++ r) = (fold_left (fun a c => a * 10 + (c - 48)) ds acc, ds, r).
Proof.
  induction ds as [|c ds IH]; intros acc r F N L.
  - cbn [app fold_left]. destruct r as [|d r]; [reflexivity|]. cbn [digits]. destruct (is_digit d) eqn:E; [|reflexivity].
    exfalso. apply N. exists d, r. split; [auto|]. now apply is_digit_iff.
  - inversion F as [|? ? H1 H2]; subst. cbn [app digits fold_left] in *. rewrite (proj2 (is_digit_iff c)) by exact H1.
    pose proof (fold_mono ds (acc * 10 + (c - 48))). rewrite N.mod_small by lia. rewrite IH; auto.
Qed.
Lemma decimal_run ds n r : decimal ds n -> n < 2 ^ 64 -> ~ begins digit r -> digits 0 (ds ++ r) = (n, ds, r).
Proof. intros (H1 & H2 & ->) L N. now apply digits_run. Qed.
Lemma not_digit c r : ~ digit c -> ~ begins digit (c :: r).
Proof. intros H (d & t & E & D). injection E as <- _. auto. Qed.
Lemma decimal_head ds n : decimal ds n -> exists c ds', ds = c :: ds' /\ digit c.
Proof. intros (H1 & H2 & _). destruct ds as [|c ds]; [easy|]. inversion H2. eauto. Qed.

Definition pairs : list (ttype * ttype) :=
  [(OPT, AOPT); (ZEROORMORE, AZEROORMORE); (ONEORMORE, AONEORMORE); (REPEATN, AREPEATN)].
(** The token of counts, in front of any text. *)
Lemma repeat_n_reads ds mn mx : counts ds mn mx -> sound_counts mn mx -> mn < 2 ^ 64 ->
  match mx with Some m => m < 2 ^ 64 | None => True end ->
  exists e a extra, In (e, a) pairs /\
    (forall R, repeat_n (ds ++ 125 :: R) = Ok (t_of (fst (lazy e a R)) extra, snd (lazy e a R))) /\
    forall t, tk_type t = e \/ tk_type t = a -> tk_extra t = extra -> repeats t mn mx.
Proof.
  intros C V L1 L2. destruct C as [ds n D|ds n D|ds n ds' n' D D'].
  - exists REPEATN, AREPEATN, ds. split; [cbn; auto|]. split.
    + intros R. unfold repeat_n. rewrite (decimal_run _ _ _ D L1) by (apply not_digit; unfold digit; lia).
      change (125 =? 44) with false. cbv iota. unfold repeat_end. change (125 =? 125) with true. cbv iota.
      cbn [sound_counts] in V. rewrite (proj2 (N.eqb_neq n 0)) by lia. reflexivity.
    + intros t T E. exists (fun x => XRep x n (Some n)). split; [apply dp_rep; [exact T|rewrite E; now apply cn_one]|reflexivity].
  - assert (N : ~ begins digit (44 :: 125 :: [])) by (apply not_digit; unfold digit; lia).
    assert (X : forall R, repeat_n ((ds ++ [44]) ++ 125 :: R) =
      repeat_end (if n =? 0 then Some ZEROORMORE else if n =? 1 then Some ONEORMORE else None) n 0 false (ds ++ [44]) (125 :: R)).
    { intros R. unfold repeat_n. rewrite <- app_assoc. cbn [app].
      rewrite (decimal_run _ _ _ D L1) by (apply not_digit; unfold digit; lia).
      change (44 =? 44) with true. change (125 =? 125) with true. reflexivity. }
    unfold repeat_end in X. change (125 =? 125) with true in X. cbv iota in X. destruct (N.eqb_spec n 0) as [->|].
    + exists ZEROORMORE, AZEROORMORE, (ds ++ [44]). split; [cbn; auto|]. split; [exact X|].
      intros t T _. exists XStar. split; [now apply dp_star|]. intros r w. cbn [clang]. split; intros (k & K); exists k; [|tauto]. split; [lia|auto].
    + destruct (N.eqb_spec n 1) as [->|].
      * exists ONEORMORE, AONEORMORE, (ds ++ [44]). split; [cbn; auto|]. split; [exact X|].
        intros t T _. exists XPlus. split; [now apply dp_plus|]. intros r w. cbn [clang].
        split; intros (k & K1 & K2); exists k; [split; [lia|auto]|split; [lia|tauto]].
      * exists REPEATN, AREPEATN, (ds ++ [44]). split; [cbn; auto|]. split.
        -- intros R. rewrite X. reflexivity.
        -- intros t T E. exists (fun x => XRep x n None). split; [apply dp_rep; [exact T|rewrite E; now apply cn_open]|reflexivity].
  - cbn [sound_counts] in V. destruct (decimal_head _ _ D') as (c & es & E' & Hc).
    assert (X : forall R, repeat_n ((ds ++ 44 :: ds') ++ 125 :: R) =
      if (n =? 0) && (n' =? 1) then repeat_end (Some OPT) n n' true (ds ++ 44 :: ds') (125 :: R)
      else if n =? n' then repeat_end None n 0 false ds (125 :: R)
      else repeat_end None n n' true (ds ++ 44 :: ds') (125 :: R)).
    { intros R. unfold repeat_n. rewrite <- app_assoc. cbn [app].
      rewrite (decimal_run _ _ _ D L1) by (apply not_digit; unfold digit; lia).
      change (44 =? 44) with true. cbv iota. rewrite (decimal_run _ _ (125 :: R) D' L2) by (apply not_digit; unfold digit; lia).
      rewrite E'. cbn [app]. replace (c =? 125) with false by (symmetry; apply N.eqb_neq; unfold digit in Hc; lia).
      rewrite (proj2 (is_digit_iff c) Hc). reflexivity. }
    unfold repeat_end in X. change (125 =? 125) with true in X. cbv iota in X. destruct ((n =? 0) && (n' =? 1)) eqn:E1.
    + exists OPT, AOPT, (ds ++ 44 :: ds'). split; [cbn; auto|]. split; [exact X|].
      intros t T _. exists XOpt. split; [now apply dp_opt|]. intros r w. cbn [clang]. assert (n = 0 /\ n' = 1) as [-> ->] by lia. split.
      * intros [->|H]; [exists 0%nat; repeat split; lia|]. exists 1%nat. split; [lia|]. split; [lia|]. now apply power1.
      * intros (k & _ & K1 & K2). destruct k as [|[|k]]; [left; exact K2|right; now apply power1|lia].
    + destruct (N.eqb_spec n n') as [->|].
      * exists REPEATN, AREPEATN, ds. split; [cbn; auto|]. split.
        -- intros R. rewrite X. replace (n' =? 0) with false by (symmetry; apply N.eqb_neq; lia). reflexivity.
        -- intros t T E. exists (fun x => XRep x n' (Some n')). split; [apply dp_rep; [exact T|rewrite E; now apply cn_one]|reflexivity].
      * exists REPEATN, AREPEATN, (ds ++ 44 :: ds'). split; [cbn; auto|]. split.
        -- intros R. rewrite X. replace (n' =? 0) with false by (symmetry; apply N.eqb_neq; lia). rewrite andb_false_r. cbn [andb].
           rewrite (proj2 (N.ltb_ge n' n)) by lia. reflexivity.
        -- intros t T E. exists (fun x => XRep x n (Some n')). split; [apply dp_rep; [exact T|rewrite E; now apply cn_two]|reflexivity].
Qed.

(** The texts that are counts. *)
Lemma repeat_n_text inp t r : numbers_fit inp -> begins digit inp -> repeat_n inp = Ok (t, r) ->
  exists ds mn mx R, inp = ds ++ 125 :: R /\ counts ds mn mx /\ sound_counts mn mx /\ mn < 2 ^ 64 /\
    match mx with Some m => m < 2 ^ 64 | None => True end.
Proof.
  intros HF (c0 & r0 & E0 & Hc0) H. unfold repeat_n in H.
  destruct (digits_ok inp 0) as (mn & ds & r1 & Ed & Ei & Hd & Hr & Hn). rewrite Ed in H.
  assert (Hne : ds <> []).
  { intros ->. cbn in Ei. rewrite <- Ei, E0 in Hr. apply is_digit_iff in Hc0. congruence. }
  assert (Hv : dval ds < 2 ^ 64) by (apply (HF [] ds r1); auto).
  assert (Dm : decimal ds mn) by (unfold decimal; auto).
  assert (Lm : mn < 2 ^ 64) by (rewrite Hn by auto; auto).
  destruct r1 as [|comma r1]; [discriminate|]. destruct (N.eqb_spec comma 44) as [->|Hcm].
  2:{ unfold repeat_end in H. destruct (N.eqb_spec comma 125) as [->|]; [|discriminate].
      destruct (N.eqb_spec mn 0); [discriminate|]. exists ds, mn, (Some mn), r1. split; [exact Ei|]. split; [now constructor|].
      cbn [sound_counts]. repeat split; auto; lia. }
  destruct r1 as [|c r1]; [discriminate|]. destruct (N.eqb_spec c 125) as [->|Hc].
  { exists (ds ++ [44]), mn, None, r1. rewrite <- app_assoc. split; [exact Ei|]. split; [now constructor|]. cbn [sound_counts]. auto. }
  destruct (is_digit c) eqn:Hdc; [|discriminate].
  destruct (digits_ok (c :: r1) 0) as (mx & es & r2 & Ee & Ei2 & He & Hr2 & Hm). rewrite Ee in H.
  assert (Hne2 : es <> []).
  { intros ->. cbn in Ei2. rewrite <- Ei2 in Hr2. congruence. }
  assert (Hv2 : dval es < 2 ^ 64).
  { apply (HF (ds ++ [44]) es r2); auto. rewrite Ei, Ei2, <- app_assoc. reflexivity. }
  assert (Dx : decimal es mx) by (unfold decimal; auto).
  assert (Lx : mx < 2 ^ 64) by (rewrite Hm by auto; auto).
  destruct r2 as [|q r2]; [discriminate|].
  assert (Q : q = 125 /\ mn <= mx /\ 1 <= mx).
  { unfold repeat_end in H. destruct ((mn =? 0) && (mx =? 1)) eqn:Eo; [|destruct (N.eqb_spec mn mx)]; (destruct (N.eqb_spec q 125); [|discriminate]).
    - lia.
    - destruct (N.eqb_spec mn 0); [discriminate|lia].
    - destruct (N.eqb_spec mn 0), (N.eqb_spec mx 0), (N.ltb_spec mx mn); cbn [andb] in H; try discriminate; lia. }
  destruct Q as (-> & Q1 & Q2). exists (ds ++ 44 :: es), mn, (Some mx), r2.
  split; [rewrite Ei, Ei2, <- app_assoc; reflexivity|]. split; [now constructor|]. cbn [sound_counts]. auto.
Qed.
(** Every text of counts is read as the counts it shows; other texts are refused. *)
Theorem counts_iff lhs inp : numbers_fit inp -> begins digit inp ->
  (forall t r, open_curly lhs inp = Ok (t, r) ->
    exists ds mn mx (lz : bool), inp = ds ++ 125 :: (if lz then 63 :: r else r) /\ (lz = false -> ~ begins (eq 63) r) /\
      counts ds mn mx /\ sound_counts mn mx /\ repeats t mn mx /\ is_lazy_type (tk_type t) = lz) /\
  (forall ds mn mx (lz : bool) r, inp = ds ++ 125 :: (if lz then 63 :: r else r) -> (lz = false -> ~ begins (eq 63) r) ->
    counts ds mn mx -> sound_counts mn mx -> exists t, open_curly lhs inp = Ok (t, r)).
Proof.
  intros HF HB. pose proof HB as (c0 & r0 & E0 & Hc0).
  assert (O : open_curly lhs inp = repeat_n inp).
  { rewrite E0. unfold open_curly. unfold digit in Hc0. rewrite (proj2 (N.eqb_neq c0 45)), (proj2 (N.eqb_neq c0 43)) by lia. cbn [orb].
    rewrite (proj2 (is_digit_iff c0)) by exact Hc0. reflexivity. }
  assert (LZ : forall (lz : bool) r e a, (lz = false -> ~ begins (eq 63) r) ->
    lazy e a (if lz then 63 :: r else r) = (if lz then a else e, r)).
  { intros lz r e a H. unfold lazy. destruct lz; [reflexivity|]. rewrite peek_isnt by (auto; discriminate). reflexivity. }
  split.
  - intros t r H. rewrite O in H. destruct (repeat_n_text inp t r HF HB H) as (ds & mn & mx & R & E & C & V & L1 & L2).
    destruct (repeat_n_reads ds mn mx C V L1 L2) as (e & a & extra & I & X & Y). rewrite E, X in H.
    destruct (N.eqb_spec (peek R) 63) as [P|P].
    + destruct R as [|x R]; [discriminate|]. cbn in P. subst x. exists ds, mn, mx, true.
      unfold lazy in H. cbn [peek hd tl] in H. change (63 =? 63) with true in H. cbn [fst snd] in H. injection H as <- <-.
      split; [exact E|]. split; [discriminate|]. split; [exact C|]. split; [exact V|]. split; [apply Y; auto|].
      cbn [tk_type t_of]. cbn in I. destruct I as [[= <- <-]|[[= <- <-]|[[= <- <-]|[[= <- <-]|[]]]]]; reflexivity.
    + unfold lazy in H. rewrite (proj2 (N.eqb_neq _ _) P) in H. cbn [fst snd] in H. injection H as <- <-.
      exists ds, mn, mx, false. split; [exact E|]. split; [intros _ (x & R' & -> & <-); now apply P|]. split; [exact C|]. split; [exact V|]. split; [apply Y; auto|].
      cbn [tk_type t_of]. cbn in I. destruct I as [[= <- <-]|[[= <- <-]|[[= <- <-]|[[= <- <-]|[]]]]]; reflexivity.
  - intros ds mn mx lz r E N C V. rewrite O, E.
    assert (L : forall es p q m, inp = p ++ es ++ q -> decimal es m -> m < 2 ^ 64) by (intros es p q m E1 (_ & D & ->); eapply HF; eauto).
    destruct (repeat_n_reads ds mn mx C V) as (e & a & extra & I & X & Y).
    + destruct C as [ds n D|ds n D|ds n ds' n' D D'].
      * eapply (L ds []); [exact E|exact D].
      * rewrite <- app_assoc in E. eapply (L ds []); [exact E|exact D].
      * rewrite <- app_assoc in E. eapply (L ds []); [exact E|exact D].
    + destruct C as [ds n D|ds n D|ds n ds' n' D D']; [| exact Logic.I|].
      * eapply (L ds []); [exact E|exact D].
      * rewrite <- app_assoc in E. cbn [app] in E. eapply (L ds' (ds ++ [44])); [|exact D']. rewrite E, <- app_assoc. reflexivity.
    + rewrite X, LZ by exact N. eauto.
Qed.
