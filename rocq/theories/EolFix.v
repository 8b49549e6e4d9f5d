(** fix_clashes: what it leaves alone. *)
From Verif Require Import Base StateMachine Tree Generator GenDfa.
Local Open Scope N_scope.

(** A transition of [rows]. *)
Definition moves (rows : list (list N)) (v : N) : Prop :=
  exists i j, (7 <= j)%nat /\ at_ rows i j = Some v /\ v <> 0.

(** [rows] is [rows0] with other transitions and with more rows: the first
    seven cells of the rows stay, new rows have zeros there, and a transition is
    zero, one of those of [rows0], or a new row below [b]. *)
Record fixed (w : nat) (rows0 rows : list (list N)) (b : N) : Prop := {
  fx_shape : Forall (fun r => length r = w) rows;
  fx_len : (length rows0 <= length rows)%nat;
  fx_old : forall i j, (i < length rows0)%nat -> (j < 7)%nat -> at_ rows i j = at_ rows0 i j;
  fx_new : forall i j, (length rows0 <= i < length rows)%nat -> (j < 7)%nat -> at_ rows i j = Some 0;
  fx_cell : forall i j v, (7 <= j)%nat -> at_ rows i j = Some v ->
    v = 0 \/ N.of_nat (length rows0) <= v < b \/ moves rows0 v
}.

Lemma fixed_refl w rows b : Forall (fun r => length r = w) rows -> fixed w rows rows b.
Proof.
  intros H. constructor; auto; try lia. intros i j v Hj E.
  destruct (N.eq_dec v 0); [auto|]. right. right. exists i, j. auto.
Qed.
Lemma fixed_mono w rows0 rows b b' : b <= b' -> fixed w rows0 rows b -> fixed w rows0 rows b'.
Proof.
  intros Hb [H1 H2 H3 H4 H5]. constructor; auto. intros i j v Hj E.
  destruct (H5 i j v Hj E) as [H|[H|H]]; [auto|right; left; lia|auto].
Qed.
Lemma set_cell_inv w rows i j v rows' : Forall (fun r => length r = w) rows ->
  set_cell rows i j v = Ok rows' ->
  (i < length rows)%nat /\ (j < w)%nat /\ length rows' = length rows /\
  Forall (fun r => length r = w) rows' /\ at_ rows' i j = Some v /\
  (forall a c, (a, c) <> (i, j) -> at_ rows' a c = at_ rows a c).
Proof.
  intros HF E.
  assert (H : (i < length rows)%nat /\ (j < w)%nat).
  { unfold set_cell in E. destruct (nth_error rows i) as [r|] eqn:Er; [|discriminate].
    assert (length r = w) by (rewrite Forall_forall in HF; apply HF; eapply nth_error_In; eauto).
    split; [apply nth_error_Some; congruence|]. destruct (Nat.ltb_spec j (length r)); [lia|discriminate]. }
  destruct H as [Hi Hj]. destruct (set_cell_ok w rows i j v HF Hi Hj) as (r2 & E2 & L & S & A1 & A2).
  rewrite E in E2. injection E2 as <-. auto 10.
Qed.
Lemma put_fixed w rows0 rows b row col v rows' : fixed w rows0 rows b ->
  v = 0 \/ N.of_nat (length rows0) <= v < b \/ moves rows0 v ->
  put_cell rows row (ix_trans + col) v = Ok rows' -> fixed w rows0 rows' b /\ length rows' = length rows.
Proof.
  intros [H1 H2 H3 H4 H5] Hv E. assert (Hc : 7 <= ix_trans + col) by (unfold ix_trans; lia).
  revert Hc E. generalize (ix_trans + col). clear col. intros col Hc E. unfold put_cell in E.
  destruct (set_cell_inv w rows _ _ _ _ H1 E) as (Hi & Hj & L & S & A1 & A2).
  split; [|auto]. constructor; auto.
  - lia.
  - intros i j Hi' Hj'. rewrite A2; [auto|]. intros X. injection X as -> ->. lia.
  - intros i j Hi' Hj'. rewrite A2; [apply H4; lia|]. intros X. injection X as -> ->. lia.
  - intros i j u Hj' Eu. destruct (Nat.eq_dec i (N.to_nat row)) as [->|N1];
      [destruct (Nat.eq_dec j (N.to_nat col)) as [->|N2]|].
    + rewrite A1 in Eu. injection Eu as <-. auto.
    + rewrite A2 in Eu by congruence. eauto.
    + rewrite A2 in Eu by congruence. eauto.
Qed.
Lemma get_fixed w rows0 rows b row col v : fixed w rows0 rows b ->
  get_cell rows row (ix_trans + col) = Ok v -> v = 0 \/ N.of_nat (length rows0) <= v < b \/ moves rows0 v.
Proof.
  intros F E. assert (Hc : 7 <= ix_trans + col) by (unfold ix_trans; lia).
  revert Hc E. generalize (ix_trans + col). clear col. intros col Hc E.
  apply (fx_cell _ _ _ _ F (N.to_nat row) (N.to_nat col)); [lia|].
  unfold get_cell, at_ in *. destruct (nth_error rows (N.to_nat row)); [|discriminate].
  destruct (nth_error l (N.to_nat col)); [|discriminate]. cbn in E. congruence.
Qed.
Lemma app_fixed w rows0 rows b : (7 <= w)%nat -> fixed w rows0 rows b -> fixed w rows0 (rows ++ [repeat 0 w]) b.
Proof.
  intros Hw [H1 H2 H3 H4 H5].
  assert (NEW : forall i j v, at_ (rows ++ [repeat 0 w]) i j = Some v -> (length rows <= i)%nat -> v = 0).
  { intros i j v E Hi. unfold at_ in E. rewrite nth_error_app2 in E by auto.
    destruct (i - length rows)%nat as [|x]; [|destruct x; discriminate]. cbn [nth_error] in E.
    apply nth_error_In in E. now apply repeat_spec in E. }
  constructor.
  - apply Forall_app. split; [auto|]. constructor; [apply repeat_length|constructor].
  - rewrite app_length. lia.
  - intros i j Hi Hj. rewrite at_app by lia. auto.
  - intros i j Hi Hj. rewrite app_length in Hi. cbn [length] in Hi.
    destruct (Nat.lt_ge_cases i (length rows)) as [L|L].
    + rewrite at_app by auto. apply H4; lia.
    + unfold at_. rewrite nth_error_app2 by auto. replace (i - length rows)%nat with O by lia.
      cbn [nth_error]. apply nth_repeat_lt. lia.
  - intros i j v Hj E. destruct (Nat.lt_ge_cases i (length rows)) as [L|L].
    + rewrite at_app in E by auto. eauto.
    + left. eauto.
Qed.
Lemma bind_ok {A B} (x : res A) (f : A -> res B) y : bind x f = Ok y -> exists a, x = Ok a /\ f a = Ok y.
Proof. destruct x; cbn; try discriminate. eauto. Qed.

Ltac step E v := let Q := fresh "H" in apply bind_ok in E as (v & Q & E).

Lemma fix_one_fixed w rows0 rows b cr nl eol rows' : fixed w rows0 rows b ->
  fix_one cr nl eol rows = Ok rows' -> fixed w rows0 rows' b /\ length rows' = length rows.
Proof.
  intros F E. unfold fix_one in E. rewrite !(N.add_comm _ ix_trans) in E. step E es. step E cs. step E ns. step E x.
  assert (Vc := get_fixed _ _ _ _ _ _ _ F H0).
  assert (Vn := get_fixed _ _ _ _ _ _ _ F H1).
  assert (X : fixed w rows0 (snd x) b /\ length (snd x) = length rows).
  { destruct (cs =? 0); [injection H2 as <-; auto|].
    step H2 r1. step H2 o. step H2 r2.
    destruct (put_fixed _ _ _ _ _ _ _ _ F (or_introl eq_refl) H3) as [F1 L1].
    injection H2 as <-. cbn [snd]. destruct (o =? 0).
    - destruct (put_fixed _ _ _ _ _ _ _ _ F1 Vc H5) as [F2 L2]. split; [auto|lia].
    - injection H5 as <-. auto. }
  destruct X as [FX LX]. destruct (ns =? 0); [injection E as <-; auto|].
  step E r1. step E o.
  destruct (put_fixed _ _ _ _ _ _ _ _ FX (or_introl eq_refl) H3) as [F1 L1].
  destruct (o =? 0).
  - destruct (put_fixed _ _ _ _ _ _ _ _ F1 Vn E) as [F2 L2]. split; [auto|lia].
  - injection E as <-. split; [auto|lia].
Qed.

Definition ffixed (w : nat) (rows0 rows : list (list N)) : Prop := fixed w rows0 rows (N.of_nat (length rows)).

Lemma fix_part_fixed k w rows0 rows zero id es target x : (7 <= w)%nat -> ffixed w rows0 rows ->
  target = 0 \/ N.of_nat (length rows0) <= target < N.of_nat (length rows) \/ moves rows0 target ->
  fix_part k w zero id es target rows = Ok x ->
  match x with None => True | Some (_, rows') => ffixed w rows0 rows' /\ (length rows <= length rows')%nat end.
Proof.
  intros Hw F HT E. unfold fix_part in E. step E z.
  destruct (negb (z =? 0)); [injection E as <-; auto|].
  step E r1. cbv zeta in E. step E r3. step E r4. injection E as <-.
  assert (LR := fx_len _ _ _ _ F).
  assert (B0 : N.of_nat (length rows) <= N.of_nat (S (length rows))) by lia.
  destruct (put_fixed w rows0 rows (N.of_nat (S (length rows))) es zero (N.of_nat (length rows)) r1
    (fixed_mono w rows0 rows _ _ B0 F) ltac:(right; left; lia) H0) as [F1 L1].
  assert (F2 := app_fixed w rows0 r1 _ Hw F1).
  assert (X : fixed w rows0 r3 (N.of_nat (length r3)) /\ (length rows < length r3)%nat).
  { destruct (2 <? g_bytes k).
    - step H1 r. injection H1 as <-.
      assert (L2 : length (r1 ++ [repeat 0 w]) = S (length rows)) by (rewrite app_length; cbn; lia).
      assert (B1 : N.of_nat (S (length rows)) <= N.of_nat (S (S (length rows)))) by lia.
      destruct (put_fixed w rows0 _ (N.of_nat (S (S (length rows)))) _ zero (N.of_nat (length (r1 ++ [repeat 0 w]))) r
        (fixed_mono w rows0 _ _ _ B1 F2) ltac:(right; left; rewrite L2; lia) H3) as [F3 L3].
      assert (F4 := app_fixed w rows0 r _ Hw F3).
      assert (L4 : length (r ++ [repeat 0 w]) = S (S (length rows))) by (rewrite app_length; cbn; lia).
      rewrite L4. split; [exact F4|lia].
    - injection H1 as <-. assert (L2 : length (r1 ++ [repeat 0 w]) = S (length rows)) by (rewrite app_length; cbn; lia).
      rewrite L2. split; [exact F2|lia]. }
  destruct X as [F3 L3].
  destruct (put_fixed w rows0 r3 (N.of_nat (length r3)) (N.of_nat (length r3) - 1) id target r4 F3) as [F4 L4];
    [destruct HT as [|[|]]; [auto|right; left; lia|auto]|exact H2|].
  unfold ffixed. rewrite L4. split; [auto|lia].
Qed.

Lemma fix_one_wide_fixed k w rows0 rows cr nl zero eol i y : (7 <= w)%nat -> ffixed w rows0 rows ->
  fix_one_wide k w cr nl zero eol i rows = Ok y -> ffixed w rows0 (snd y).
Proof.
  intros Hw F E. unfold fix_one_wide in E. step E es. step E p. cbv zeta in E. step E cs. step E x.
  assert (Vc := get_fixed _ _ _ _ _ _ _ F H1).
  assert (X : match fst x with None => True | Some (_, rows') => ffixed w rows0 rows' end).
  { destruct (cs =? 0).
    - injection H2 as <-. exact F.
    - step H2 z. injection H2 as <-. cbn [fst].
      assert (Q := fix_part_fixed _ _ _ _ _ _ _ _ _ Hw F Vc H3). destruct z as [(q, rows')|]; tauto. }
  destruct x as ([(p', rows1)|] & i'); cbn [fst] in X; [|injection E as <-; exact F].
  step E ns. destruct (ns =? 0); [injection E as <-; exact X|]. step E z.
  assert (Vn := get_fixed _ _ _ _ _ _ _ X H3).
  assert (Q := fix_part_fixed _ _ _ _ _ _ _ _ _ Hw X Vn H4).
  destruct z as [(q, rows')|]; injection E as <-; [apply Q|exact X].
Qed.

Theorem fix_clashes_fixed k w rows0 cr nl zero eols : (7 <= w)%nat -> forall i rows rows',
  ffixed w rows0 rows -> fix_clashes k w cr nl zero eols i rows = Ok rows' -> ffixed w rows0 rows'.
Proof.
  intros Hw. induction eols as [|e eols IH]; intros i rows rows' F E; cbn [fix_clashes] in E.
  - injection E as <-. auto.
  - destruct (compressed k).
    + step E x. eapply IH; [|exact E]. eapply fix_one_wide_fixed; eauto.
    + step E r. eapply IH; [|exact E]. destruct (fix_one_fixed _ _ _ _ _ _ _ _ F H) as [F1 L].
      unfold ffixed. now rewrite L.
Qed.
