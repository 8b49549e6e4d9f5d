(** How save() breaks the numbers of a table into lines. *)
From Verif Require Import Base StateMachine Serialise.
Local Open Scope N_scope.

(** A line: numbers, each followed by a space. *)
Definition line_of (g : list N) : list N := concat (map (fun v => dec v ++ [sp]) g).
Definition len (l : list N) : N := N.of_nat (List.length l).

(** The lines after one of length [n]: each begins with a number for which
    there was no room, and is short enough itself. *)
Fixpoint filled (n : N) (gs : list (list N)) : Prop :=
  match gs with
  | [] => True
  | g :: gs' => (exists v g', g = v :: g' /\ 80 < n + len (dec v) + 1) /\ len (line_of g) <= 80 /\ filled (len (line_of g)) gs'
  end.

Lemma dec_loop_len fuel : forall n acc, (List.length (dec_loop fuel n acc) <= S fuel + List.length acc)%nat.
Proof.
  induction fuel as [|f IH]; intros n acc; cbn [dec_loop]; [cbn; lia|].
  destruct (_ =? _); [cbn; lia|]. eapply Nat.le_trans; [apply IH|]. cbn; lia.
Qed.
Lemma dec_loop_high fuel : forall n acc, Forall (fun c => 48 <= c) acc -> Forall (fun c => 48 <= c) (dec_loop fuel n acc).
Proof.
  induction fuel as [|f IH]; intros n acc H; cbn [dec_loop]; [constructor; [lia|auto]|].
  destruct (_ =? _); [constructor; [lia|auto]|]. apply IH. constructor; [lia|auto].
Qed.
Lemma size_nat_le m : forall n, n < 2 ^ N.of_nat m -> (N.size_nat n <= m)%nat.
Proof.
  intros n H. destruct n as [|p]; [cbn; lia|]. cbn [N.size_nat].
  assert (E : N.of_nat (Pos.size_nat p) = N.size (N.pos p)).
  { cbn [N.size]. clear. induction p; cbn [Pos.size_nat Pos.size]; try reflexivity; rewrite Nat2N.inj_succ, IHp; cbn; lia. }
  assert (L : 2 ^ N.size (N.pos p) <= 2 * N.pos p) by (rewrite N.size_log2 by discriminate; rewrite N.pow_succ_r'; pose proof (N.log2_spec (N.pos p) ltac:(lia)); lia).
  assert (2 ^ N.of_nat (Pos.size_nat p) < 2 ^ N.of_nat (S m)).
  { rewrite E, Nat2N.inj_succ, N.pow_succ_r'. lia. }
  apply N.pow_lt_mono_r_iff in H0; lia.
Qed.
Lemma dec_len n : n < 2 ^ 64 -> len (dec n) <= 65.
Proof.
  intros H. unfold len, dec. pose proof (dec_loop_len (N.size_nat n) n []) as L. cbn [List.length] in L.
  pose proof (size_nat_le 64 n H). lia.
Qed.
Lemma line_no_break g : ~ In nl (line_of g).
Proof.
  unfold line_of. intros I. apply in_concat in I as (x & Hx & I). apply in_map_iff in Hx as (v & <- & _).
  apply in_app_or in I as [I|[I|[]]]; [|discriminate].
  assert (F : Forall (fun c => 48 <= c) (dec v)) by (apply dec_loop_high; constructor).
  rewrite Forall_forall in F. specialize (F _ I). unfold nl in F. lia.
Qed.

Lemma len_app a b : len (a ++ b) = len a + len b.
Proof. unfold len. rewrite app_length. lia. Qed.
Lemma line_cons v g : line_of (v :: g) = dec v ++ sp :: line_of g.
Proof. unfold line_of. cbn [map concat]. rewrite <- app_assoc. reflexivity. Qed.
Lemma len_line_cons v g : len (line_of (v :: g)) = len (dec v) + 1 + len (line_of g).
Proof. rewrite line_cons, len_app. unfold len. cbn [List.length]. lia. Qed.

Lemma out_lines bytes : 2 <= bytes -> forall vec n, Forall (fun v => v < 2 ^ 64) vec -> n <= 80 ->
  exists g gs, vec = g ++ concat gs /\ out_loop bytes n vec = line_of g ++ concat (map (fun h => nl :: line_of h) gs) /\
    n + len (line_of g) <= 80 /\ filled (n + len (line_of g)) gs.
Proof.
  intros B. induction vec as [|v vec IH]; intros n F L.
  - exists [], []. cbn. repeat split; lia.
  - inversion F as [|? ? Fv Fr]; subst. pose proof (dec_len v Fv) as D. cbn [out_loop].
    assert (P : put_id bytes v = dec v) by (unfold put_id; destruct (N.eqb_spec bytes 1); [lia|reflexivity]).
    rewrite P. fold (len (dec v)). destruct (80 <? n + len (dec v) + 1) eqn:E.
    + destruct (IH (len (dec v) + 1) Fr ltac:(lia)) as (g & gs & E1 & E2 & E3 & E4).
      exists [], ((v :: g) :: gs). cbn [app concat map filled]. rewrite len_line_cons.
      change (len (line_of [])) with 0. split; [rewrite E1; reflexivity|]. split.
      { rewrite E2, line_cons. cbn [line_of map concat app]. rewrite <- app_assoc. reflexivity. }
      split; [lia|]. split; [exists v, g; split; [reflexivity|lia]|]. split; [lia|exact E4].
    + destruct (IH (n + (len (dec v) + 1)) Fr ltac:(lia)) as (g & gs & E1 & E2 & E3 & E4).
      exists (v :: g), gs. rewrite len_line_cons. split; [rewrite E1; reflexivity|]. split.
      { rewrite E2, line_cons, <- app_assoc. reflexivity. }
      split; [lia|]. replace (n + (len (dec v) + 1 + len (line_of g))) with (n + (len (dec v) + 1) + len (line_of g)) by lia. exact E4.
Qed.

Theorem saved_lines bytes vec : 2 <= bytes -> Forall (fun v => v < 2 ^ 64) vec ->
  exists g gs, vec = g ++ concat gs /\
    output_vec bytes vec = dec (N.of_nat (List.length vec)) ++ nl :: line_of g ++ concat (map (fun h => nl :: line_of h) gs) ++ [nl] /\
    len (line_of g) <= 80 /\ filled (len (line_of g)) gs /\ forall h, In h (g :: gs) -> ~ In nl (line_of h).
Proof.
  intros B F. destruct (out_lines bytes B vec 0 F ltac:(lia)) as (g & gs & E1 & E2 & E3 & E4).
  exists g, gs. split; [exact E1|]. split; [unfold output_vec; rewrite E2, <- app_assoc; reflexivity|].
  split; [lia|]. split; [exact E4|]. intros h _. apply line_no_break.
Qed.
