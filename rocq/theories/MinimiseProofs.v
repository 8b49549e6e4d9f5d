(** Proofs about minimise: rows are merged only with equal rows, so the result
    is the old table with rows renumbered. *)
From Verif Require Import Base StateMachine Lookup TableSpec LookupProofs LookupSpec LookupCheck TableSim Minimise.
Local Open Scope N_scope.

Lemma row_eqb_eq a b : row_eqb a b = true <-> a = b.
Proof.
  revert b; induction a as [|x a IH]; intros [|y b]; cbn; split; intros H; try congruence; auto.
  - apply andb_true_iff in H as [H1 H2]. apply N.eqb_eq in H1. apply IH in H2. congruence.
  - inversion H; subst. rewrite N.eqb_refl. cbn. apply IH. reflexivity.
Qed.

(** ** chunk and concat *)
Lemma chunk_length n w l : length (chunk n w l) = n.
Proof. revert l; induction n; cbn; auto. Qed.

Lemma chunk_rows n w l : length l = (n * w)%nat -> Forall (fun r => length r = w) (chunk n w l).
Proof.
  revert l; induction n as [|n IH]; intros l H; cbn; constructor.
  - rewrite firstn_length. cbn in H. lia.
  - apply IH. rewrite skipn_length. cbn in H. lia.
Qed.

Lemma chunk_concat n w l : length l = (n * w)%nat -> concat (chunk n w l) = l.
Proof.
  revert l; induction n as [|n IH]; intros l H; cbn.
  - destruct l; cbn in *; auto; lia.
  - rewrite IH by (rewrite skipn_length; cbn in H; lia). apply firstn_skipn.
Qed.

Lemma concat_length_rows w (rows : list (list N)) : Forall (fun r => length r = w) rows ->
  length (concat rows) = (length rows * w)%nat.
Proof. induction 1; cbn; auto. rewrite app_length. lia. Qed.

Lemma chunk_of_concat w rows : Forall (fun r => length r = w) rows ->
  chunk (length rows) w (concat rows) = rows.
Proof.
  induction 1 as [|x rows Hx H IH]; cbn; auto.
  rewrite firstn_app, skipn_app. rewrite Hx, Nat.sub_diag. cbn.
  rewrite (firstn_all2 x) by lia. rewrite (skipn_all2 x) by lia. cbn. rewrite app_nil_r, IH. reflexivity.
Qed.

Lemma nth_concat w (rows : list (list N)) r c : Forall (fun x => length x = w) rows -> (c < w)%nat ->
  nth_error (concat rows) (r * w + c) =
  match nth_error rows r with Some row => nth_error row c | None => None end.
Proof.
  intros H Hc. revert r; induction H as [|x rows Hx H IH]; intros r.
  - cbn. destruct r; cbn; [destruct c; auto|destruct (w + r * w + c)%nat; auto].
  - cbn. destruct r as [|r]; cbn.
    + rewrite nth_error_app1 by lia. reflexivity.
    + rewrite nth_error_app2 by lia. rewrite <- IH. f_equal. lia.
Qed.

(** ** The numbering *)
Definition entry_of (npos : N) (D : list N -> option N) (x : list N) : entry :=
  match D x with Some k => (x, true, k) | None => (x, false, npos) end.
Definition add (D : list N -> option N) (x : list N) (k : N) : list N -> option N :=
  fun y => match D y with Some j => Some j | None => if row_eqb x y then Some k else None end.

Fixpoint num (D : list N -> option N) (new : N) (rows : list (list N)) : list (bool * N) :=
  match rows with
  | [] => []
  | x :: r => match D x with
              | Some k => (true, k) :: num D new r
              | None => (false, new) :: num (add D x new) (new + 1) r
              end
  end.

Lemma number_num npos rows : forall D new,
  new + N.of_nat (length rows) <= npos -> (forall y k, D y = Some k -> k < npos) ->
  number npos (length rows) new (map (entry_of npos D) rows) = num D new rows.
Proof.
  induction rows as [|x rows IH]; intros D new Hn HD; cbn [length number map num]; auto.
  cbn [length] in Hn.
  unfold entry_of at 1. destruct (D x) as [k|] eqn:E.
  - rewrite (proj2 (N.eqb_neq k npos)) by (specialize (HD _ _ E); lia).
    f_equal. rewrite <- (IH D new) by (auto; lia). f_equal. rewrite map_map. apply map_ext.
    intros y. unfold entry_of, mark. destruct (D y) eqn:Ey; auto.
    destruct (row_eqb x y) eqn:Er; auto. apply row_eqb_eq in Er. congruence.
  - rewrite N.eqb_refl. f_equal. rewrite <- IH; [|lia|].
    + f_equal. rewrite map_map. apply map_ext. intros y. unfold entry_of, mark, add.
      destruct (D y) eqn:Ey; auto. destruct (row_eqb x y); auto.
    + intros y k. unfold add. destruct (D y) eqn:Ey; [intros [= <-]; eauto|].
      destruct (row_eqb x y); [intros [= <-]; lia|discriminate].
Qed.

Fixpoint kept (rows : list (list N)) (marks : list (bool * N)) : list (list N) :=
  match rows, marks with
  | x :: rows', (d, _) :: marks' => if d then kept rows' marks' else x :: kept rows' marks'
  | _, _ => []
  end.

Lemma num_length D new rows : length (num D new rows) = length rows.
Proof. revert D new; induction rows as [|x r IH]; intros D new; cbn; auto. destruct (D x); cbn; rewrite IH; auto. Qed.

Lemma num_spec rows : forall D new i x d k,
  nth_error rows i = Some x -> nth_error (num D new rows) i = Some (d, k) ->
  D x = Some k \/
  (D x = None /\ new <= k /\ nth_error (kept rows (num D new rows)) (N.to_nat (k - new)) = Some x).
Proof.
  induction rows as [|y rows IH]; intros D new i x d k Hx Hm; [destruct i; discriminate|].
  destruct i as [|i]; cbn in Hx, Hm.
  - injection Hx as ->. cbn [num kept]. destruct (D x) as [j|] eqn:E.
    + cbn in Hm. injection Hm as <- <-. auto.
    + right. cbn in Hm. injection Hm as <- <-. rewrite N.sub_diag. cbn. split; auto. split; auto. lia.
  - cbn [num kept]. destruct (D y) as [j|] eqn:E; cbn in Hm.
    + destruct (IH _ _ _ _ _ _ Hx Hm) as [H|H]; auto.
    + destruct (IH _ _ _ _ _ _ Hx Hm) as [H|(H1 & H2 & H3)].
      * unfold add in H. destruct (D x) eqn:Ex; auto.
        destruct (row_eqb y x) eqn:Er; [|discriminate]. injection H as <-. apply row_eqb_eq in Er; subst.
        right. split; auto. split; [lia|]. rewrite N.sub_diag. reflexivity.
      * unfold add in H1. destruct (D x) eqn:Ex; [discriminate|]. right. split; auto. split; [lia|].
        replace (N.to_nat (k - new)) with (S (N.to_nat (k - (new + 1)))) by lia. exact H3.
Qed.

(** Kept rows are pairwise different and not in D. *)
Lemma kept_nodup rows : forall D new,
  NoDup (kept rows (num D new rows)) /\ forall x, In x (kept rows (num D new rows)) -> D x = None.
Proof.
  induction rows as [|y rows IH]; intros D new; cbn; [split; [constructor|tauto]|].
  destruct (D y) eqn:E; cbn.
  - apply IH.
  - destruct (IH (add D y new) (new + 1)) as [H1 H2]. split.
    + constructor; auto. intros Hin. apply H2 in Hin. unfold add in Hin. rewrite E in Hin.
      rewrite (proj2 (row_eqb_eq y y) eq_refl) in Hin. discriminate.
    + intros x [<-|Hin]; auto. apply H2 in Hin. unfold add in Hin. destruct (D x); congruence.
Qed.

Lemma kept_in rows marks x : In x (kept rows marks) -> In x rows.
Proof.
  revert marks; induction rows as [|y rows IH]; intros [|[d k] marks]; cbn; try tauto.
  destruct d; cbn; intuition eauto.
Qed.

Lemma kept_length rows marks : (length (kept rows marks) <= length rows)%nat.
Proof.
  revert marks; induction rows as [|y rows IH]; intros [|[d k] marks]; cbn; try lia.
  specialize (IH marks). destruct d; cbn; lia.
Qed.

Lemma kept_length_lt rows marks : length marks = length rows -> existsb fst marks = true ->
  (length (kept rows marks) < length rows)%nat.
Proof.
  revert marks; induction rows as [|y rows IH]; intros [|[d k] marks]; cbn; try discriminate.
  intros [= H] He. destruct d; cbn in *.
  - pose proof (kept_length rows marks). lia.
  - specialize (IH _ H He). lia.
Qed.

Lemma num_none rows : forall D new, existsb fst (num D new rows) = false ->
  kept rows (num D new rows) = rows.
Proof.
  induction rows as [|y rows IH]; intros D new; cbn; auto.
  destruct (D y); cbn; [discriminate|]. intros H. rewrite IH; auto.
Qed.

Lemma num_distinct rows : forall D new, NoDup rows -> (forall x, In x rows -> D x = None) ->
  existsb fst (num D new rows) = false.
Proof.
  induction rows as [|y rows IH]; intros D new Hn HD; cbn; auto. inversion Hn; subst.
  rewrite (HD y) by (cbn; auto). cbn. apply IH; auto.
  intros x Hx. unfold add. rewrite HD by (cbn; auto).
  destruct (row_eqb y x) eqn:E; auto. apply row_eqb_eq in E; subst. tauto.
Qed.

(** ** The new rows *)
Definition ren (lks : list N) (v : N) : N := nth (N.to_nat v) lks 0.
Definition nrow (lks : list N) (row : list N) : list N :=
  firstn 5 row ++ ren lks (nth 5 row 0) :: 0 :: map (ren lks) (skipn 7 row).

Lemma renumber_ok lks v : v < N.of_nat (length lks) -> renumber lks v = Some (ren lks v).
Proof. intros H. unfold renumber, ren. apply nth_error_nth'. lia. Qed.

Lemma renumber_all_ok lks l : Forall (fun v => v < N.of_nat (length lks)) l ->
  renumber_all lks l = Some (map (ren lks) l).
Proof. induction 1 as [|v l Hv Hl IH]; cbn; auto. rewrite renumber_ok, IH; auto. Qed.

Definition row_ok (n : N) (row : list N) : Prop :=
  (7 <= length row)%nat /\ nth 5 row 0 < n /\ nth 6 row 0 = 0 /\ Forall (fun v => v < n) (skipn 7 row).

Lemma new_row_ok lks row : row_ok (N.of_nat (length lks)) row -> new_row lks row = Some (nrow lks row).
Proof.
  intros (H1 & H2 & H3 & H4).
  do 7 (destruct row as [|? row]; [cbn in H1; lia|]).
  cbn in H2, H4. unfold nrow. cbn. rewrite renumber_ok, renumber_all_ok by auto. reflexivity.
Qed.

Lemma new_rows_ok lks rows marks : Forall (row_ok (N.of_nat (length lks))) rows ->
  new_rows lks rows marks = Some (map (nrow lks) (kept rows marks)).
Proof.
  intros H; revert marks; induction H as [|x rows Hx H IH]; intros [|[d k] marks]; cbn; auto.
  destruct d; auto. rewrite new_row_ok, IH; auto.
Qed.

Lemma nrow_length lks row : (7 <= length row)%nat -> length (nrow lks row) = length row.
Proof.
  intros H. unfold nrow. rewrite app_length. cbn [length]. rewrite map_length, firstn_length, skipn_length. lia.
Qed.

Lemma nrow_info lks row c : (7 <= length row)%nat -> (c < 5)%nat -> nth_error (nrow lks row) c = nth_error row c.
Proof.
  intros H Hc. do 5 (destruct row as [|? row]; [cbn in H; lia|]).
  do 5 (destruct c as [|c]; [reflexivity|]). lia.
Qed.

Lemma nrow_next lks row c : (7 <= length row)%nat -> nth 6 row 0 = 0 -> ren lks 0 = 0 -> (5 <= c)%nat ->
  nth_error (nrow lks row) c = option_map (ren lks) (nth_error row c).
Proof.
  intros H H6 Hr Hc. do 7 (destruct row as [|? row]; [cbn in H; lia|]).
  do 5 (destruct c as [|c]; [lia|]). cbn in H6; subst.
  destruct c as [|c]; [reflexivity|]. destruct c as [|c]; [cbn; congruence|].
  unfold nrow. cbn. apply nth_error_map.
Qed.

(** ** One pass *)
Section Pass.
Variables (k : cfg) (t : table) (n : N).
Hypothesis Hwf : twf k t n.
Hypothesis Hdead : forall row, 0 < row < n -> cell t row ix_dead = Some 0.
Hypothesis Hjam : forall col, ix_eol <= col < t_width t -> cell t 0 col = Some 0.

Let w := N.to_nat (t_width t).
Let rows := chunk (N.to_nat n) w (t_dfa t).

Lemma wN : N.of_nat w = t_width t.
Proof. unfold w. lia. Qed.

Lemma wf_len : length (t_dfa t) = (N.to_nat n * w)%nat.
Proof. destruct Hwf as (_ & _ & _ & H & _). pose proof wN; lia. Qed.

Lemma w7 : (7 <= w)%nat.
Proof. destruct Hwf as (_ & _ & H & _). unfold ix_trans in H. pose proof wN; lia. Qed.

Lemma rows_w : Forall (fun r => length r = w) rows.
Proof. apply chunk_rows, wf_len. Qed.

Lemma cell_rows r c : c < t_width t ->
  cell t r c = match nth_error rows (N.to_nat r) with Some row => nth_error row (N.to_nat c) | None => None end.
Proof.
  intros Hc. unfold cell. rewrite <- (chunk_concat (N.to_nat n) w (t_dfa t)) at 1 by apply wf_len.
  fold rows. replace (N.to_nat (r * t_width t + c)) with (N.to_nat r * w + N.to_nat c)%nat by (pose proof wN; lia).
  apply nth_concat; [apply rows_w|pose proof wN; lia].
Qed.

Lemma row_is_ok r row : 0 < r -> nth_error rows (N.to_nat r) = Some row -> row_ok n row.
Proof.
  intros Hr Hrow. pose proof w7 as W.
  assert (Hl : length row = w) by (pose proof rows_w as F; rewrite Forall_forall in F; apply F; eapply nth_error_In; eauto).
  assert (Hn : r < n).
  { assert (N.to_nat r < length rows)%nat by (apply nth_error_Some; congruence).
    subst rows. rewrite chunk_length in H. lia. }
  assert (Ht : forall c v, (5 <= c)%nat -> nth_error row c = Some v -> v < n).
  { intros c v Hc Hv. assert (c < w)%nat by (rewrite <- Hl; apply nth_error_Some; congruence).
    assert (H' : cell t r (N.of_nat c) = Some v).
    { rewrite cell_rows by (pose proof wN; lia). rewrite Hrow, Nat2N.id. auto. }
    eapply target_ok; [exact Hwf|exact Hn| |exact H']. unfold ix_eol. pose proof wN; lia. }
  split; [lia|]. split; [|split].
  - apply (Ht 5%nat); [lia|]. apply nth_error_nth'. lia.
  - assert (H := Hdead r ltac:(lia)). rewrite cell_rows in H by (unfold ix_dead; pose proof wN; lia).
    rewrite Hrow in H. change (N.to_nat ix_dead) with 6%nat in H. apply nth_error_nth with (d := 0) in H. auto.
  - apply Forall_forall. intros v Hv. apply In_nth_error in Hv as (i & Hi).
    apply (Ht (7 + i)%nat); [lia|]. rewrite <- Hi.
    rewrite <- (firstn_skipn 7 row) at 1. rewrite nth_error_app2; rewrite firstn_length; [f_equal; lia|lia].
Qed.

(** The marks and the renaming for this table. *)
Definition D0 : list N -> option N := fun _ => None.
Definition marks_of := num D0 1 (tl rows).
Definition lks_of := 0 :: map snd marks_of.
Definition f_of := ren lks_of.

Lemma rows_cons : exists row0, nth_error rows 0 = Some row0 /\ rows = row0 :: tl rows /\ length (tl rows) = (N.to_nat n - 1)%nat.
Proof.
  assert (L : length rows = N.to_nat n) by (subst rows; apply chunk_length).
  destruct Hwf as (H2 & _). destruct rows as [|x l] eqn:E; cbn in *; [lia|].
  exists x. split; auto. split; auto. lia.
Qed.

Lemma number_is : number (npos k) (length (tl rows)) 1 (map (fun r => (r, false, npos k)) (tl rows)) = marks_of.
Proof.
  unfold marks_of. rewrite <- (number_num (npos k)).
  - f_equal.
  - destruct rows_cons as (_ & _ & _ & ->). destruct Hwf as (? & ? & _). lia.
  - discriminate.
Qed.

Lemma lks_length : length lks_of = N.to_nat n.
Proof.
  unfold lks_of, marks_of. cbn. rewrite map_length, num_length.
  destruct rows_cons as (_ & _ & _ & ->). destruct Hwf. lia.
Qed.

Lemma f_zero : f_of 0 = 0. Proof. reflexivity. Qed.

Lemma f_row r row : 0 < r -> nth_error rows (N.to_nat r) = Some row ->
  0 < f_of r /\ nth_error (kept (tl rows) marks_of) (N.to_nat (f_of r - 1)) = Some row.
Proof.
  intros Hr Hrow. destruct rows_cons as (row0 & _ & E & L).
  rewrite E in Hrow. destruct (N.to_nat r) as [|i] eqn:Ei; [lia|]. cbn in Hrow.
  assert (Hi : (i < length marks_of)%nat).
  { unfold marks_of. rewrite num_length. apply nth_error_Some. congruence. }
  destruct (nth_error marks_of i) as [[d kk]|] eqn:Em; [|apply nth_error_None in Em; lia].
  assert (Hf : f_of r = kk).
  { unfold f_of, ren, lks_of. rewrite Ei. cbn. apply nth_error_nth. rewrite nth_error_map, Em. reflexivity. }
  rewrite Hf. destruct (num_spec _ _ _ _ _ _ _ Hrow Em) as [H|(_ & H1 & H2)]; [discriminate|].
  split; [lia|]. auto.
Qed.

Lemma f_one : f_of 1 = 1.
Proof.
  destruct rows_cons as (row0 & _ & E & L). unfold f_of, ren, lks_of, marks_of.
  destruct Hwf as (H2 & _). destruct (tl rows) as [|x r]; [cbn in L; lia|]. reflexivity.
Qed.

Definition rows' := map (nrow lks_of) (kept (tl rows) marks_of).
Definition row0' := f_of (hd 0 (hd [] rows)) :: tl (hd [] rows).
Definition t' := {| t_lookup := t_lookup t; t_width := t_width t; t_dfa := concat (row0' :: rows') |}.
Definition n' : N := 1 + N.of_nat (length (kept (tl rows) marks_of)).

Lemma kept_rows_ok row : In row (tl rows) -> row_ok n row.
Proof.
  intros H. apply In_nth_error in H as (i & Hi). destruct rows_cons as (row0 & _ & E & _).
  apply (row_is_ok (N.of_nat (S i))); [lia|]. rewrite E, Nat2N.id. exact Hi.
Qed.

Lemma tl_ok : Forall (row_ok (N.of_nat (length lks_of))) (tl rows).
Proof.
  apply Forall_forall. intros row H. rewrite lks_length, N2Nat.id. apply kept_rows_ok; auto.
Qed.

Lemma rows'_w : Forall (fun r => length r = w) (row0' :: rows').
Proof.
  constructor.
  - unfold row0'. destruct rows_cons as (row0 & E0 & E & _).
    pose proof rows_w as F. rewrite E in F. apply Forall_inv in F.
    rewrite E. cbn. pose proof w7. destruct row0; cbn in *; lia.
  - apply Forall_forall. intros x Hx. apply in_map_iff in Hx as (y & <- & Hy).
    apply kept_in in Hy. pose proof (kept_rows_ok _ Hy) as (H7 & _). rewrite nrow_length by auto.
    destruct rows_cons as (row0 & _ & E & _). pose proof rows_w as F. rewrite Forall_forall in F. apply F.
    rewrite E. right; auto.
Qed.

Lemma pass_rows : existsb fst marks_of = true ->
  minimise_rows (npos k) rows = Some (row0' :: rows').
Proof.
  intros He. destruct rows_cons as (row0 & E0 & E & _). unfold minimise_rows.
  rewrite E. rewrite E in *. cbn [tl] in *.
  pose proof number_is as Hn. rewrite Hn, He. fold lks_of.
  pose proof rows_w as F. rewrite E in F. apply Forall_inv in F. pose proof w7.
  destruct row0 as [|b row0]; [cbn in F; lia|].
  rewrite new_rows_ok by (apply tl_ok).
  assert (Hb : (if b =? 0 then Some 0 else renumber lks_of b) = Some (f_of b)).
  { destruct (N.eqb_spec b 0) as [->|Hb]; [reflexivity|].
    apply renumber_ok. rewrite lks_length, N2Nat.id. destruct Hwf as (_&_&_&_&_&_&_&Hz). apply Hz.
    rewrite cell_rows by (destruct Hwf as (_ & _ & H7 & _); unfold ix_trans in H7; lia). rewrite E. reflexivity. }
  rewrite Hb. unfold row0'. rewrite E. reflexivity.
Qed.

Lemma pass_none : existsb fst marks_of = false -> minimise_rows (npos k) rows = Some rows.
Proof.
  intros He. destruct rows_cons as (row0 & E0 & E & _). unfold minimise_rows.
  rewrite E. rewrite E in *. cbn [tl] in *. rewrite number_is, He. reflexivity.
Qed.

Lemma cell' r c : c < t_width t ->
  cell t' r c = match nth_error (row0' :: rows') (N.to_nat r) with
                | Some row => nth_error row (N.to_nat c) | None => None end.
Proof.
  intros Hc. unfold cell. cbn [t_width t_dfa t'].
  replace (N.to_nat (r * t_width t + c)) with (N.to_nat r * w + N.to_nat c)%nat by (pose proof wN; lia).
  apply nth_concat; [apply rows'_w|pose proof wN; lia].
Qed.

Lemma row_exists r : r < n -> exists row, nth_error rows (N.to_nat r) = Some row.
Proof.
  clear Hwf Hdead Hjam.
  intros H. destruct (nth_error rows (N.to_nat r)) eqn:E; eauto.
  apply nth_error_None in E. subst rows. rewrite chunk_length in E. lia.
Qed.

Lemma cell'_row r row c : 0 < r -> nth_error rows (N.to_nat r) = Some row -> c < t_width t ->
  cell t' (f_of r) c = nth_error (nrow lks_of row) (N.to_nat c).
Proof.
  intros Hr Hrow Hc. destruct (f_row _ _ Hr Hrow) as [H1 H2]. rewrite cell' by auto.
  replace (N.to_nat (f_of r)) with (S (N.to_nat (f_of r - 1))) by lia. cbn [nth_error].
  unfold rows'. rewrite nth_error_map, H2. reflexivity.
Qed.

Lemma f_lt r : r < n -> f_of r < n'.
Proof.
  intros H. destruct (N.eq_dec r 0) as [->|Hr]; [rewrite f_zero; unfold n'; lia|].
  destruct (row_exists r H) as (row & E). destruct (f_row r row ltac:(lia) E) as [H1 H2].
  assert (N.to_nat (f_of r - 1) < length (kept (tl rows) marks_of))%nat by (apply nth_error_Some; congruence).
  unfold n'. lia.
Qed.

Lemma n'_le : n' <= n.
Proof.
  unfold n'. pose proof (kept_length (tl rows) marks_of). destruct rows_cons as (_ & _ & _ & L). destruct Hwf. lia.
Qed.

Lemma pass_sim : table_sim f_of n t t'.
Proof.
  constructor; auto.
  - apply f_one.
  - intros r Hr Hf. destruct (N.eq_dec r 0); auto. destruct (row_exists r Hr) as (row & E).
    destruct (f_row r row ltac:(lia) E). lia.
  - pose proof w7. rewrite cell' by (pose proof wN; lia). rewrite cell_rows by (pose proof wN; lia).
    destruct rows_cons as (row0 & E0 & E & _). cbn [N.to_nat]. rewrite E0. cbn. unfold row0'. rewrite E. cbn.
    pose proof rows_w as F. rewrite E in F. apply Forall_inv in F. destruct row0; [cbn in F; lia|]. reflexivity.
  - intros r c Hr Hc. destruct (row_exists r ltac:(lia)) as (row & E). unfold ix_eol in Hc.
    assert (c < t_width t) by (pose proof w7; pose proof wN; lia).
    rewrite (cell'_row r row) by (auto; lia). rewrite cell_rows, E by auto.
    apply nrow_info; [|lia]. apply (row_is_ok r); auto; lia.
  - intros r c Hr Hc. destruct (row_exists r ltac:(lia)) as (row & E). unfold ix_eol in Hc.
    rewrite (cell'_row r row) by (auto; lia). rewrite cell_rows, E by lia.
    destruct (row_is_ok r row ltac:(lia) E) as (H1 & H2 & H3 & H4).
    apply nrow_next; auto. lia.
Qed.

Lemma f_onto r : 0 < r < n' -> exists q row, 0 < q < n /\ nth_error rows (N.to_nat q) = Some row /\
  nth_error rows' (N.to_nat (r - 1)) = Some (nrow lks_of row).
Proof.
  intros Hr. unfold n' in Hr.
  destruct (nth_error (kept (tl rows) marks_of) (N.to_nat (r - 1))) as [row|] eqn:E.
  - pose proof (kept_in _ _ _ (nth_error_In _ _ E)) as Hin. apply In_nth_error in Hin as (i & Hi).
    destruct rows_cons as (row0 & _ & E1 & L).
    assert (i < length (tl rows))%nat by (apply nth_error_Some; congruence).
    exists (N.of_nat (S i)), row. split; [lia|]. rewrite Nat2N.id. split; [rewrite E1; exact Hi|].
    unfold rows'. rewrite nth_error_map, E. reflexivity.
  - apply nth_error_None in E. lia.
Qed.

Lemma pass_cell r c : 0 < r < n' -> c < t_width t -> exists q, 0 < q < n /\
  cell t' r c = if c <? ix_eol then cell t q c else option_map f_of (cell t q c).
Proof.
  intros Hr Hc. destruct (f_onto r Hr) as (q & row & Hq & E & E').
  exists q. split; auto. rewrite cell' by auto.
  replace (N.to_nat r) with (S (N.to_nat (r - 1))) by lia. cbn [nth_error]. rewrite E'.
  rewrite cell_rows, E by auto.
  destruct (row_is_ok q row ltac:(lia) E) as (H1 & H2 & H3 & H4).
  unfold ix_eol. destruct (N.ltb_spec c 5).
  - apply nrow_info; auto; lia.
  - apply nrow_next; auto; lia.
Qed.

Lemma pass_wf : twf k t' n'.
Proof.
  pose proof Hwf as (H1 & H2 & H3 & H4 & H5 & H6 & H7 & H8).
  pose proof (f_lt 1 ltac:(lia)) as F1. rewrite f_one in F1.
  unfold twf. split; [lia|]. split; [pose proof n'_le; lia|]. split; [auto|]. split; [|split; [auto|split; [auto|split]]].
  - cbn [t_dfa t' t_width]. rewrite (concat_length_rows w) by apply rows'_w. cbn [length]. unfold rows', n'.
    rewrite map_length. pose proof wN; lia.
  - intros row col v Hr Hc Hv. cbn [t' t_width] in Hc. destruct (N.eq_dec row 0) as [->|Hz].
    + rewrite cell' in Hv by lia. cbn in Hv. unfold row0' in Hv. destruct rows_cons as (row0 & E0 & E & _).
      rewrite E in Hv. cbn in Hv. unfold ix_eol in Hc.
      replace (N.to_nat col) with (S (N.to_nat (col - 1))) in Hv by lia. cbn in Hv.
      assert (H0 := Hjam col ltac:(unfold ix_eol; lia)). rewrite cell_rows, E in H0 by lia. cbn in H0.
      replace (N.to_nat col) with (S (N.to_nat (col - 1))) in H0 by lia. cbn in H0.
      destruct row0; cbn in H0, Hv; [discriminate|]. rewrite H0 in Hv. injection Hv as <-. lia.
    + destruct (pass_cell row col ltac:(lia) ltac:(lia)) as (q & Hq & E). rewrite E in Hv.
      destruct (N.ltb_spec col ix_eol); [lia|]. destruct (cell t q col) as [x|] eqn:Ex; [|discriminate].
      injection Hv as <-. apply f_lt. eapply H7; [|exact Hc|exact Ex]. lia.
  - intros v Hv. rewrite (ts_bol _ _ _ _ pass_sim) in Hv. destruct (cell t 0 0) as [x|]; [|discriminate].
    injection Hv as <-. apply f_lt. auto.
Qed.

Lemma pass_dead row : 0 < row < n' -> cell t' row ix_dead = Some 0.
Proof.
  intros Hr. pose proof w7. destruct (pass_cell row ix_dead Hr ltac:(unfold ix_dead; pose proof wN; lia)) as (q & Hq & E).
  rewrite E. rewrite Hdead by auto. reflexivity.
Qed.

Lemma pass_jam col : ix_eol <= col < t_width t -> cell t' 0 col = Some 0.
Proof.
  intros Hc. unfold ix_eol in Hc. rewrite cell' by lia. cbn. unfold row0'. destruct rows_cons as (row0 & E0 & E & _).
  assert (H0 := Hjam col ltac:(unfold ix_eol; lia)). rewrite cell_rows, E in H0 by lia. cbn in H0. rewrite E. cbn.
  replace (N.to_nat col) with (S (N.to_nat (col - 1))) in * by lia. cbn in *.
  destruct row0; cbn in *; [discriminate|]. auto.
Qed.

Lemma pass_onto r : 0 < r < n' -> exists q, 0 < q < n /\ f_of q = r.
Proof.
  intros Hr. unfold n' in Hr.
  destruct (nth_error (kept (tl rows) marks_of) (N.to_nat (r - 1))) as [row|] eqn:E; [|apply nth_error_None in E; lia].
  pose proof (kept_in _ _ _ (nth_error_In _ _ E)) as Hin. apply In_nth_error in Hin as (i & Hi).
  destruct rows_cons as (row0 & _ & E1 & L).
  assert (i < length (tl rows))%nat by (apply nth_error_Some; congruence).
  exists (N.of_nat (S i)). split; [lia|].
  destruct (f_row (N.of_nat (S i)) row ltac:(lia)) as [H1 H2]; [rewrite Nat2N.id, E1; exact Hi|].
  pose proof (proj1 (kept_nodup (tl rows) D0 1)) as Hn. rewrite NoDup_nth_error in Hn.
  assert (HH : N.to_nat (f_of (N.of_nat (S i)) - 1) = N.to_nat (r - 1)); [|lia].
  apply Hn; [apply nth_error_Some; fold marks_of; congruence|fold marks_of; congruence].
Qed.

Lemma pass_row0 c : 0 < c < ix_eol -> cell t' 0 c = cell t 0 c.
Proof.
  intros Hc. unfold ix_eol in Hc. pose proof w7. pose proof wN. rewrite cell', cell_rows by lia.
  destruct rows_cons as (row0 & E0 & E & _). change (N.to_nat 0) with O. rewrite E0. cbn [nth_error]. unfold row0'. rewrite E. cbn [hd tl].
  replace (N.to_nat c) with (S (N.to_nat (c - 1))) by lia. cbn [nth_error].
  destruct row0; [|reflexivity]. destruct (N.to_nat (c - 1)); reflexivity.
Qed.

End Pass.

(** Every new row stands for an old one. *)
Definition covers (f : N -> N) (n n2 : N) (t t2 : table) : Prop :=
  (forall r, 0 < r < n2 -> exists q, 0 < q < n /\ f q = r) /\
  (forall c, 0 < c < ix_eol -> cell t2 0 c = cell t 0 c).

(** ** The loop *)
Lemma table_sim_refl n t : table_sim (fun x => x) n t t.
Proof.
  constructor; auto; intros; destruct (cell t _ _); reflexivity.
Qed.

Lemma table_sim_trans f g n n2 t t2 t3 :
  table_sim f n t t2 -> table_sim g n2 t2 t3 -> (forall r, r < n -> f r < n2) ->
  table_sim (fun x => g (f x)) n t t3.
Proof.
  intros A B Hf. destruct A as [A1 A2 A3 A4 A5 A6 A7 A8], B as [B1 B2 B3 B4 B5 B6 B7 B8].
  assert (Hp : forall r, 0 < r < n -> 0 < f r < n2).
  { intros r Hr. split; [|apply Hf; lia]. destruct (N.eq_dec (f r) 0) as [E|E]; [|lia].
    apply A5 in E; lia. }
  constructor; try congruence.
  - intros r Hr E. apply A5; auto.
  - rewrite B6, A6. destruct (cell t 0 0); reflexivity.
  - intros r c Hr Hc. rewrite B7 by auto. auto.
  - intros r c Hr Hc. rewrite B8 by (rewrite ?A2; auto). rewrite A8 by auto. destruct (cell t r c); reflexivity.
Qed.

(** Tables as build makes them: the jam row has no transitions, and neither
    has the dead column. *)
Definition clean (t : table) (n : N) : Prop :=
  (forall row, 0 < row < n -> cell t row ix_dead = Some 0) /\
  (forall col, ix_eol <= col < t_width t -> cell t 0 col = Some 0).

Definition with_dfa (t : table) (d : list N) : table :=
  {| t_lookup := t_lookup t; t_width := t_width t; t_dfa := d |}.

(** No two rows after the jam row are equal. *)
Definition rows_distinct (t : table) (n : N) : Prop :=
  forall a b, 0 < a < n -> 0 < b < n ->
    (forall c, c < t_width t -> cell t a c = cell t b c) -> a = b.

Lemma minimise_dfa_rows k t n : twf k t n ->
  minimise_dfa (npos k) (t_width t) (t_dfa t) =
  option_map (@concat N) (minimise_rows (npos k) (chunk (N.to_nat n) (N.to_nat (t_width t)) (t_dfa t))).
Proof.
  intros (H1 & H2 & H3 & H4 & _). unfold ix_trans in H3. unfold minimise_dfa. rewrite H4.
  rewrite N.mod_mul by lia. rewrite N.div_mul by lia. reflexivity.
Qed.

Lemma nodup_rows_distinct k t n : twf k t n -> clean t n ->
  NoDup (tl (chunk (N.to_nat n) (N.to_nat (t_width t)) (t_dfa t))) -> rows_distinct t n.
Proof.
  intros Hwf [Hd Hj] Hn a b Ha Hb Hc.
  destruct (rows_cons k t n Hwf Hd Hj) as (row0 & _ & E & L).
  destruct (row_exists t n a ltac:(lia)) as (ra & Ea). destruct (row_exists t n b ltac:(lia)) as (rb & Eb).
  assert (ra = rb).
  { pose proof (rows_w k t n Hwf Hd Hj) as W. rewrite Forall_forall in W.
    pose proof (W _ (nth_error_In _ _ Ea)) as La. pose proof (W _ (nth_error_In _ _ Eb)) as Lb.
    apply nth_ext with (d := 0) (d' := 0); [congruence|]. intros i Hi.
    assert (Hi' : N.of_nat i < t_width t) by lia.
    specialize (Hc _ Hi'). rewrite !(cell_rows k t n Hwf Hd Hj) in Hc by auto. rewrite Ea, Eb, Nat2N.id in Hc.
    rewrite !(nth_error_nth' _ 0) in Hc by lia. congruence. }
  subst rb. rewrite E in Ea, Eb. replace (N.to_nat a) with (S (N.to_nat (a - 1))) in Ea by lia.
  replace (N.to_nat b) with (S (N.to_nat (b - 1))) in Eb by lia. cbn in Ea, Eb.
  rewrite NoDup_nth_error in Hn. assert (N.to_nat (a - 1) = N.to_nat (b - 1)); [|lia].
  apply Hn; [apply nth_error_Some; congruence|congruence].
Qed.

Lemma minimise_dfa_spec k t n : twf k t n -> clean t n ->
  exists d', minimise_dfa (npos k) (t_width t) (t_dfa t) = Some d' /\
    ((d' = t_dfa t /\ rows_distinct t n) \/
     exists f n2, n2 < n /\ twf k (with_dfa t d') n2 /\ clean (with_dfa t d') n2 /\
       (length d' < length (t_dfa t))%nat /\
       table_sim f n t (with_dfa t d') /\ covers f n n2 t (with_dfa t d') /\ forall r, r < n -> f r < n2).
Proof.
  intros Hwf [Hd Hj]. rewrite (minimise_dfa_rows k t n Hwf).
  destruct (existsb fst (marks_of t n)) eqn:He.
  - rewrite (pass_rows k t n Hwf Hd Hj He). eexists; split; [reflexivity|]. right.
    pose proof (pass_wf k t n Hwf Hd Hj) as W. change (t' t n) with (with_dfa t (concat (row0' t n :: rows' t n))) in W.
    assert (Hn : n' t n < n).
    { unfold n'. destruct (rows_cons k t n Hwf Hd Hj) as (_ & _ & _ & L).
      pose proof (kept_length_lt (tl (chunk (N.to_nat n) (N.to_nat (t_width t)) (t_dfa t))) (marks_of t n)) as H.
      unfold marks_of in H at 1. rewrite num_length in H. specialize (H eq_refl He). lia. }
    exists (f_of t n), (n' t n). split; [exact Hn|]. split; [exact W|]. split; [|split; [|split]].
    + split; [apply (pass_dead k t n Hwf Hd Hj)|apply (pass_jam k t n Hwf Hd Hj)].
    + destruct W as (_ & _ & W3 & W & _). destruct Hwf as (_ & _ & _ & V & _). unfold ix_trans in W3.
      cbn [with_dfa t_width t_dfa] in W, W3. assert (n' t n * t_width t < n * t_width t) by nia. lia.
    + apply (pass_sim k t n Hwf Hd Hj).
    + split; [split; [apply (pass_onto k t n Hwf Hd Hj)|apply (pass_row0 k t n Hwf Hd Hj)]|].
      apply (f_lt k t n Hwf Hd Hj).
  - rewrite (pass_none k t n Hwf Hd Hj He). cbn. rewrite chunk_concat by apply (wf_len k t n Hwf Hd Hj).
    eexists; split; [reflexivity|]. left. split; auto.
    apply (nodup_rows_distinct k); [auto|split; auto|].
    pose proof (proj1 (kept_nodup (tl (chunk (N.to_nat n) (N.to_nat (t_width t)) (t_dfa t))) D0 1)) as H.
    rewrite num_none in H; auto.
Qed.

Lemma minimise_loop_spec fuel : forall k t n, (N.to_nat n <= fuel)%nat -> twf k t n -> clean t n ->
  exists d' f n2, minimise_loop fuel (npos k) (t_width t) (t_dfa t) = Ok d' /\ n2 <= n /\
    (length d' <= length (t_dfa t))%nat /\
    twf k (with_dfa t d') n2 /\ clean (with_dfa t d') n2 /\ rows_distinct (with_dfa t d') n2 /\
    table_sim f n t (with_dfa t d') /\ covers f n n2 t (with_dfa t d') /\ (forall r, r < n -> f r < n2) /\
    minimise_dfa (npos k) (t_width t) d' = Some d'.
Proof.
  induction fuel as [|fuel IH]; intros k t n Hf Hwf Hc.
  - destruct Hwf; lia.
  - cbn [minimise_loop]. destruct (minimise_dfa_spec k t n Hwf Hc) as (d' & E & H). rewrite E.
    destruct H as [(-> & Hdis)|(f & n2 & Hn2 & W & C & L & S & K & F)].
    + rewrite Nat.eqb_refl. exists (t_dfa t), (fun x => x), n.
      replace (with_dfa t (t_dfa t)) with t by (destruct t; reflexivity).
      split; [reflexivity|]. split; [lia|]. split; [lia|]. split; [exact Hwf|]. split; [exact Hc|].
      split; [exact Hdis|]. split; [apply table_sim_refl|].
      split; [split; eauto|]. split; auto.
    + rewrite (proj2 (Nat.eqb_neq (length d') (length (t_dfa t)))) by lia.
      destruct (IH k (with_dfa t d') n2 ltac:(lia) W C) as (d2 & g & n3 & E2 & H1 & H2 & H3 & H4 & H5 & H6 & [K1 K2] & H7 & H8).
      cbn [with_dfa t_width t_dfa] in *. exists d2, (fun x => g (f x)), n3. split; [exact E2|].
      split; [lia|]. split; [lia|]. split; [exact H3|]. split; [exact H4|]. split; [exact H5|].
      split; [|split; [split|split; [|exact H8]]].
      * eapply table_sim_trans; [exact S|exact H6|auto].
      * intros r Hr. destruct (K1 r Hr) as (q & Hq & <-). destruct K as [K3 _].
        destruct (K3 q Hq) as (p & Hp & <-). eauto.
      * intros c Hcc. rewrite K2 by auto. apply K. auto.
      * intros r Hr. apply H7. apply F. auto.
Qed.

Lemma minimise_all_spec k : forall dfas alph lks,
  (length dfas <= length alph)%nat -> (length dfas <= length lks)%nat ->
  (forall i l w d, nth_error lks i = Some l -> nth_error alph i = Some w -> nth_error dfas i = Some d ->
     exists n, let t := {| t_lookup := l; t_width := w; t_dfa := d |} in twf k t n /\ clean t n) ->
  exists dfas', minimise_all (npos k) alph dfas = Ok dfas' /\ length dfas' = length dfas /\
    minimise_all (npos k) alph dfas' = Ok dfas' /\
    forall i l w d, nth_error lks i = Some l -> nth_error alph i = Some w -> nth_error dfas i = Some d ->
      exists d' n n2 f, let t := {| t_lookup := l; t_width := w; t_dfa := d |} in
        nth_error dfas' i = Some d' /\ twf k t n /\ twf k (with_dfa t d') n2 /\ clean (with_dfa t d') n2 /\
        (length d' <= length d)%nat /\ rows_distinct (with_dfa t d') n2 /\
        table_sim f n t (with_dfa t d') /\ covers f n n2 t (with_dfa t d') /\ (forall r, r < n -> f r < n2).
Proof.
  induction dfas as [|d dfas IH]; intros alph lks L1 L2 H.
  - exists []. split; [destruct alph; reflexivity|]. split; auto.
    split; [destruct alph; reflexivity|]. intros [|i]; discriminate.
  - destruct alph as [|w alph], lks as [|l lks]; cbn in L1, L2; try lia. cbn.
    destruct (H O l w d eq_refl eq_refl eq_refl) as (n & W & C). cbn zeta in *.
    set (t := {| t_lookup := l; t_width := w; t_dfa := d |}) in *.
    assert (Hw : w <> 0) by (destruct W as (_ & _ & W & _); unfold ix_trans in W; cbn in W; lia).
    rewrite (proj2 (N.eqb_neq w 0) Hw).
    assert (Hfuel : (N.to_nat n <= length d)%nat).
    { destruct W as (_ & _ & W3 & W4 & _). unfold ix_trans in W3. cbn in W3, W4. nia. }
    destruct (minimise_loop_spec (length d) k t n Hfuel W C) as (d' & f & n2 & E & H1 & H2 & H3 & H4 & H5 & H6 & H6' & H7 & Hfix).
    cbn [t t_width t_dfa] in E. rewrite E. cbn [bind].
    destruct (IH alph lks ltac:(lia) ltac:(lia)) as (dfas' & E2 & L3 & E3 & H8).
    { intros i l0 w0 d0. apply (H (S i)). }
    rewrite E2. cbn [bind]. exists (d' :: dfas'). split; auto. split; [cbn; lia|].
    cbn [t t_width] in Hfix. split.
    {       replace (minimise_loop (length d') (npos k) w d') with (Ok d').
      - cbn [bind]. rewrite E3. reflexivity.
      - destruct (length d') eqn:Ed; cbn [minimise_loop]; rewrite Hfix, Nat.eqb_refl; reflexivity. }
    intros [|i] l0 w0 d0; cbn.
    + intros [= <-] [= <-] [= <-]. exists d', n, n2, f. fold t.
      repeat (split; [assumption || reflexivity|]). assumption.
    + apply H8.
Qed.

(** The machine part: every table is replaced by one simulating it. *)
Definition mclean (k : cfg) (m : internals) : Prop :=
  forall st t n, get_table m st = Some t -> twf k t n -> clean t n.

Definition mdistinct (m : internals) : Prop :=
  forall st t, get_table m st = Some t ->
    exists n, N.of_nat (length (t_dfa t)) = n * t_width t /\ rows_distinct t n.

Lemma mwf_lengths k m : mwf k m -> (length (i_dfa m) <= length (i_alphabet m))%nat /\ (length (i_dfa m) <= length (i_lookup m))%nat.
Proof.
  intros H. destruct (i_dfa m) as [|d l] eqn:E; [cbn; lia|].
  destruct (H (N.of_nat (length (i_dfa m) - 1))) as (t & n & Ht & _); [rewrite E; cbn [length]; lia|].
  unfold get_table in Ht. rewrite Nat2N.id in Ht.
  destruct (nth_error (i_lookup m) (length (i_dfa m) - 1)) eqn:E1; [|discriminate].
  destruct (nth_error (i_alphabet m) (length (i_dfa m) - 1)) eqn:E2; [|discriminate].
  assert (length (i_dfa m) - 1 < length (i_lookup m))%nat by (apply nth_error_Some; congruence).
  assert (length (i_dfa m) - 1 < length (i_alphabet m))%nat by (apply nth_error_Some; congruence).
  rewrite E in *. cbn [length] in *. lia.
Qed.

Theorem minimise_spec k m : mwf k m -> mclean k m ->
  exists m', minimise (c_bits k) m = Ok m' /\ machine_sim k m m' /\
    i_eoi m' = i_eoi m /\ i_lookup m' = i_lookup m /\ i_alphabet m' = i_alphabet m /\
    i_features m' = i_features m /\
    (forall i d, nth_error (i_dfa m) i = Some d ->
       exists d', nth_error (i_dfa m') i = Some d' /\ (length d' <= length d)%nat) /\
    mdistinct m' /\ mwf k m' /\ mclean k m' /\ minimise (c_bits k) m' = Ok m'.
Proof.
  intros Hm Hc. destruct (mwf_lengths k m Hm) as [L1 L2].
  destruct (minimise_all_spec k (i_dfa m) (i_alphabet m) (i_lookup m) L1 L2) as (ds & E & L & Efix & H).
  { intros i l w d El Ew Ed. assert (i < length (i_dfa m))%nat by (apply nth_error_Some; congruence).
    destruct (Hm (N.of_nat i)) as (t & n & Ht & Hwf & _); [lia|]. pose proof (Hc _ _ _ Ht Hwf) as Hcl.
    unfold get_table in Ht. rewrite Nat2N.id, El, Ew, Ed in Ht. injection Ht as <-. exists n. split; auto. }
  unfold minimise. change (npos_of (c_bits k)) with (npos k). rewrite E. cbn [bind].
  eexists; split; [reflexivity|].
  set (m' := {| i_eoi := i_eoi m |}).
  assert (Hg : forall st t, get_table m st = Some t -> exists d' n n2 f,
     get_table m' st = Some (with_dfa t d') /\ twf k t n /\ twf k (with_dfa t d') n2 /\ clean (with_dfa t d') n2 /\
     (length d' <= length (t_dfa t))%nat /\ rows_distinct (with_dfa t d') n2 /\
     table_sim f n t (with_dfa t d') /\ covers f n n2 t (with_dfa t d') /\ (forall r, r < n -> f r < n2)).
  { intros st t Ht. unfold get_table in Ht.
    destruct (nth_error (i_lookup m) (N.to_nat st)) as [l|] eqn:E1; [|discriminate].
    destruct (nth_error (i_alphabet m) (N.to_nat st)) as [w|] eqn:E2; [|discriminate].
    destruct (nth_error (i_dfa m) (N.to_nat st)) as [d|] eqn:E3; [|discriminate]. injection Ht as <-.
    destruct (H _ _ _ _ E1 E2 E3) as (d' & n & n2 & f & H1 & H2). exists d', n, n2, f. cbn zeta in H2.
    split; [|exact H2]. unfold get_table. cbn [m' i_lookup i_alphabet i_dfa]. rewrite E1, E2, H1. reflexivity. }
  assert (Hg' : forall st t', get_table m' st = Some t' -> exists t, get_table m st = Some t).
  { intros st t' Ht. apply get_table_lt in Ht. cbn [m' i_dfa] in Ht. rewrite L in Ht.
    destruct (Hm st Ht) as (t & n & H1 & _). eauto. }
  split; [|repeat (split; [reflexivity|]); split; [|split; [|split; [|split]]]].
  - split; [reflexivity|]. split; [exact L|]. intros st Hst. destruct (Hm st Hst) as (t & n & Ht & _).
    destruct (Hg _ _ Ht) as (d' & n1 & n2 & f & G1 & G2 & G3 & G4 & G5 & G6 & G7 & K & G8).
    exists t, (with_dfa t d'), n1, f. repeat (split; auto).
    intros r Hr. specialize (G8 r Hr). destruct G3 as (_ & G3 & _). lia.
  - intros i d Hd. assert (i < length (i_dfa m))%nat by (apply nth_error_Some; congruence).
    destruct (Hm (N.of_nat i)) as (t & n & Ht & _); [lia|].
    destruct (Hg _ _ Ht) as (d' & n1 & n2 & f & G1 & G2 & G3 & G4 & G5 & _).
    unfold get_table in Ht, G1. rewrite Nat2N.id in *. rewrite Hd in Ht.
    destruct (nth_error (i_lookup m) i); [|discriminate]. destruct (nth_error (i_alphabet m) i); [|discriminate].
    injection Ht as <-. cbn [m' i_lookup i_alphabet i_dfa] in *.
    destruct (nth_error (i_lookup m) i) as [l0|]; [|discriminate]. destruct (nth_error (i_alphabet m) i) as [a0|]; [|discriminate].
    destruct (nth_error ds i) as [d1|]; [|discriminate]. injection G1 as -> _ ->. exists d'. auto.
  - intros st t' Ht. destruct (Hg' _ _ Ht) as (t & Ht0).
    destruct (Hg _ _ Ht0) as (d' & n1 & n2 & f & G1 & G2 & G3 & G4 & G5 & G6 & _).
    rewrite G1 in Ht. injection Ht as <-. exists n2. split; auto. apply G3.
  - intros st Hst. cbn [m' i_dfa] in Hst. rewrite L in Hst. destruct (Hm st Hst) as (t & n & Ht & Hwf & Ha).
    destruct (Hg _ _ Ht) as (d' & n1 & n2 & f & G1 & G2 & G3 & G4 & G5 & G6 & G7 & K & G8).
    exists (with_dfa t d'), n2. split; auto. split; auto. cbn [m' i_dfa]. rewrite L.
    assert (n1 = n).
    { destruct Hwf as (_ & _ & W3 & W4 & _). destruct G2 as (_ & _ & _ & W5 & _). unfold ix_trans in W3. nia. }
    subst n1. intros row Hr (e & He & Hnz).
    assert (Hq : exists q, q < n /\ (exists e, cell t q ix_end = Some e /\ e <> 0) /\
       (cell (with_dfa t d') row ix_next = cell t q ix_next /\ cell (with_dfa t d') row ix_push = cell t q ix_push) /\
       (q <> 0 -> row <> 0 /\ cell (with_dfa t d') row ix_end = cell t q ix_end)).
    { destruct (N.eq_dec row 0) as [->|Hz].
      - exists 0. destruct Hwf as (W1 & _). split; [lia|].
        change ix_end with 0 in *. rewrite (ts_bol _ _ _ _ G7) in He.
        destruct (cell t 0 0) as [b|] eqn:Eb; [|discriminate]. injection He as <-.
        split; [exists b; split; auto; intros ->; apply Hnz; apply (ts_zero _ _ _ _ G7)|].
        split; [split; apply K; vm_compute; auto|]. intros []; auto.
      - destruct K as [K _]. destruct (K row ltac:(lia)) as (q & Hq & <-). exists q. split; [lia|].
        rewrite (ts_info _ _ _ _ G7) in He by (auto; reflexivity). split; [eauto|].
        split; [split; apply (ts_info _ _ _ _ G7); auto; reflexivity|]. intros _. split; [auto|].
        apply (ts_info _ _ _ _ G7); auto; reflexivity. }
    destruct Hq as (q & Hq & Hacc & (-> & ->) & Hend). destruct (Ha q Hq Hacc) as ((v & V1 & V2) & V3).
    split; [|exact V3]. exists v. split; [exact V1|]. destruct V2 as [V2|(V2 & V4 & V5)]; [auto|right].
    destruct (Hend V2) as [H1 ->]. auto.
  - intros st t2 n3 Ht Hw. destruct (Hg' _ _ Ht) as (t & Ht0).
    destruct (Hg _ _ Ht0) as (d' & n1 & n2 & f & G1 & G2 & G3 & G4 & _).
    rewrite G1 in Ht. injection Ht as <-.
    assert (n3 = n2); [|subst; exact G4].
    destruct Hw as (_ & _ & W3 & W4 & _). destruct G3 as (_ & _ & _ & W5 & _). unfold ix_trans in W3.
    cbn [with_dfa t_width t_dfa] in *. nia.
  - unfold minimise. change (npos_of (c_bits k)) with (npos k). cbn [m' i_alphabet i_dfa]. rewrite Efix. reflexivity.
Qed.

Theorem minimise_correct k m : mwf k m -> mclean k m ->
  exists m', minimise (c_bits k) m = Ok m' /\
    (forall fuel inner inp r, chars_ok k inp ->
       lookup fuel inner k m' inp r = lookup fuel inner k m inp r) /\
    (forall i d, nth_error (i_dfa m) i = Some d ->
       exists d', nth_error (i_dfa m') i = Some d' /\ (length d' <= length d)%nat) /\
    mdistinct m' /\
    minimise (c_bits k) m' = Ok m' /\
    i_eoi m' = i_eoi m /\ i_lookup m' = i_lookup m /\ i_alphabet m' = i_alphabet m /\
    i_features m' = i_features m /\ mwf k m' /\ mclean k m'.
Proof.
  intros Hm Hc. destruct (minimise_spec k m Hm Hc) as (m' & E & S & H1 & H2 & H3 & H4 & H5 & H6 & H7 & H8 & H9).
  exists m'. split; [exact E|]. split.
  - intros. apply lookup_sim; auto.
  - repeat (split; [assumption|]). assumption.
Qed.

(** A checker for [mclean]. *)
Definition cleanb (t : table) (n : N) : bool :=
  forallb (fun row => (row =? 0) || match cell t row ix_dead with Some v => v =? 0 | None => false end) (upto n) &&
  forallb (fun col => (col <? ix_eol) || match cell t 0 col with Some v => v =? 0 | None => false end) (upto (t_width t)).
Definition mcleanb (m : internals) : bool :=
  forallb (fun st => match get_table m st with
    | None => true
    | Some t => cleanb t (rows_of t)
    end) (upto (N.of_nat (length (i_dfa m)))).

Lemma mcleanb_ok k m : mcleanb m = true -> mclean k m.
Proof.
  unfold mcleanb. rewrite forallb_forall. intros H st t n Ht Hw.
  specialize (H st (in_upto _ _ (get_table_lt _ _ _ Ht))). rewrite Ht in H.
  assert (n = rows_of t).
  { unfold rows_of. destruct Hw as (_ & _ & H3 & -> & _). unfold ix_trans in H3. rewrite N.div_mul; lia. }
  subst n. apply andb_true_iff in H as [H1 H2]. rewrite forallb_forall in H1, H2. split.
  - intros row Hr. specialize (H1 row (in_upto _ _ (proj2 Hr))).
    rewrite (proj2 (N.eqb_neq row 0)) in H1 by lia. cbn in H1.
    destruct (cell t row ix_dead); [|discriminate]. apply N.eqb_eq in H1. congruence.
  - intros col Hc. specialize (H2 col (in_upto _ _ (proj2 Hc))).
    rewrite (proj2 (N.ltb_ge col ix_eol)) in H2 by lia. cbn in H2.
    destruct (cell t 0 col); [|discriminate]. apply N.eqb_eq in H2. congruence.
Qed.
