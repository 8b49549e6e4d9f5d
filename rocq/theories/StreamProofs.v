(** Proofs about stream_shared_iterator. *)
From Verif Require Import Base StreamIter StreamSpec.
Local Open Scope nat_scope.

(** ** Lists *)
Lemma put_length {A} (l : list A) x a : length (put l x a) = length l.
Proof. revert x; induction l as [|b l IH]; intros [|x]; cbn; auto. Qed.
Lemma put_nth {A} (l : list A) x a y : nth_error (put l x a) y = if Nat.eqb x y then match nth_error l x with Some _ => Some a | None => None end else nth_error l y.
Proof.
  revert x y; induction l as [|b l IH]; intros [|x] [|y]; cbn; auto. destruct (Nat.eqb x y); auto.
Qed.
Lemma low_spec l : match low l with
  | Some i => In (Some i) l /\ forall j, In (Some j) l -> i <= j
  | None => forall j, ~ In (Some j) l end.
Proof.
  induction l as [|[i|] l IH]; cbn [low]; [cbn; auto| |].
  - destruct (low l) as [j|].
    + destruct IH as (I1 & I2). split.
      * destruct (Nat.min_spec i j) as [(_ & ->)|(_ & ->)]; cbn; auto.
      * intros q [[= <-]|H]; [lia|]. specialize (I2 q H). lia.
    + split; [left; auto|]. intros q [[= <-]|H]; auto. exfalso. eapply IH; eauto.
  - destruct (low l) as [j|].
    + destruct IH as (I1 & I2). split; [right; auto|]. intros q [[=]|H]; auto.
    + intros q [[=]|H]. eapply IH; eauto.
Qed.
Lemma alow_spec l : match alow l with
  | Some p => In (Some (AAt p)) l /\ forall q, In (Some (AAt q)) l -> p <= q
  | None => forall q, ~ In (Some (AAt q)) l end.
Proof.
  induction l as [|a l IH]; cbn [alow]; [cbn; auto|].
  assert (SK : (forall q, a <> Some (AAt q)) -> match alow l with
    | Some p => In (Some (AAt p)) (a :: l) /\ forall q, In (Some (AAt q)) (a :: l) -> p <= q
    | None => forall q, ~ In (Some (AAt q)) (a :: l) end).
  { intros Ha. destruct (alow l).
    - destruct IH as (I1 & I2). split; [right; auto|]. intros q [H|H]; auto. apply Ha in H. tauto.
    - intros q [H|H]; [apply Ha in H; auto|]. eapply IH; eauto. }
  destruct a as [[|p|]|]; try (apply SK; discriminate).
  destruct (alow l) as [q0|].
  - destruct IH as (I1 & I2). split.
    + destruct (Nat.min_spec p q0) as [(_ & ->)|(_ & ->)]; cbn; auto.
    + intros q [[= <-]|H]; [lia|]. specialize (I2 q H). lia.
  - split; [left; auto|]. intros q [[= <-]|H]; auto. exfalso. eapply IH; eauto.
Qed.
Lemma high_spec l : (forall j, In (Some j) l -> j <= high l) /\ (high l = 0 \/ In (Some (high l)) l).
Proof.
  induction l as [|[i|] l (I1 & I2)]; cbn [high].
  - split; [intros j []|auto].
  - split.
    + intros j [[= <-]|H]; [lia|]. specialize (I1 j H). lia.
    + destruct (Nat.max_spec i (high l)) as [(_ & ->)|(_ & ->)]; [destruct I2; [auto|right; right; auto]|right; left; auto].
  - split; [intros j [[=]|H]; auto|]. destruct I2; [auto|right; right; auto].
Qed.
Lemma indexes_spec w l : (forall x, In x l -> exists it, var w x = Some it) ->
  exists r, indexes w l = Some r /\ forall i, In i r <-> exists x it, In x l /\ var w x = Some it /\ s_index it = i.
Proof.
  induction l as [|x l IH]; intros H; cbn [indexes].
  - exists []. split; auto. intros i. split; [intros []|intros (x & it & [] & _)].
  - destruct (H x (or_introl eq_refl)) as (it & E). rewrite E. destruct IH as (r & Er & R); [intros; apply H; right; auto|].
    rewrite Er. eexists. split; [reflexivity|]. intros i. cbn [In]. rewrite R. split.
    + intros [<-|(y & jt & A & B & C)]; [exists x, it; auto|exists y, jt; auto].
    + intros (y & jt & [->|A] & B & C); [left; congruence|right; eauto].
Qed.
Lemma remove_first_in x y l : NoDup l -> (In y (remove_first x l) <-> In y l /\ y <> x).
Proof.
  induction 1 as [|z l Hz Hl IH]; cbn; [tauto|]. destruct (Nat.eqb_spec x z) as [->|E].
  - split; [intros H; split; auto; intros ->; auto|]. intros [[->|H] H']; auto. congruence.
  - cbn. rewrite IH. split; [intros [->|[H1 H2]]; auto|]. intros [[->|H] H']; auto.
Qed.
Lemma remove_first_nodup x l : NoDup l -> NoDup (remove_first x l).
Proof.
  induction 1 as [|z l Hz Hl IH]; cbn; [constructor|]. destruct (Nat.eqb x z); auto. constructor; auto.
  rewrite remove_first_in by auto. tauto.
Qed.

(** ** Invariant *)
Definition vrel (base len : nat) (v : option siter) (p : option place) : Prop :=
  match v, p with
  | None, None => True
  | Some it, Some AMaster => it = {| s_master := true; s_live := false; s_index := None; s_shared := true |}
  | Some it, Some (AAt p) => it = {| s_master := false; s_live := true; s_index := Some (p - base); s_shared := true |} /\ base <= p <= base + len
  | Some it, Some AEnd => s_master it = false /\ s_index it = None /\ (s_live it = true -> s_shared it = true)
  | _, _ => False
  end.
Definition registered (it : siter) : bool := s_master it || s_live it.
Definition b2n (b : bool) : nat := if b then 1 else 0.
Definition shares (v : option siter) : nat := match v with Some it => b2n (s_shared it) | None => 0 end.
Fixpoint count (l : list (option siter)) : nat := match l with [] => 0 | v :: l' => shares v + count l' end.

Record winv (strm : list N) (a : ideal) (w : world) (base : nat) : Prop := {
  wi_buf : firstn (sh_len (w_sh w)) (sh_buf (w_sh w)) = firstn (sh_len (w_sh w)) (skipn base strm);
  wi_len : sh_len (w_sh w) <= length (sh_buf (w_sh w));
  wi_in : base + sh_len (w_sh w) <= length strm;
  wi_rest : sh_rest (w_sh w) = skipn (base + sh_len (w_sh w)) strm;
  wi_full : sh_len (w_sh w) < length (sh_buf (w_sh w)) -> sh_rest (w_sh w) = [];
  wi_incr : 1 <= sh_incr (w_sh w);
  wi_vlen : length (w_vars w) = length (a_vars a);
  wi_vars : forall x v p, nth_error (w_vars w) x = Some v -> nth_error (a_vars a) x = Some p -> vrel base (sh_len (w_sh w)) v p;
  wi_nodup : NoDup (sh_clients (w_sh w));
  wi_clients : forall x, In x (sh_clients (w_sh w)) <-> exists it, var w x = Some it /\ registered it = true;
  wi_ref : count (w_vars w) <= sh_ref (w_sh w);
  wi_alive : sh_alive (w_sh w) = true \/ count (w_vars w) = 0
}.

Lemma var_nth w x it : var w x = Some it <-> nth_error (w_vars w) x = Some (Some it).
Proof. unfold var. destruct (nth_error (w_vars w) x) as [[v|]|]; split; congruence. Qed.
Lemma avar_nth a x p : avar a x = Some p <-> nth_error (a_vars a) x = Some (Some p).
Proof. unfold avar. destruct (nth_error (a_vars a) x) as [[v|]|]; split; congruence. Qed.
Lemma rel_a strm a w base x p : winv strm a w base -> avar a x = Some p ->
  exists it, var w x = Some it /\ vrel base (sh_len (w_sh w)) (Some it) (Some p).
Proof.
  intros W E. apply avar_nth in E. destruct (nth_error (w_vars w) x) as [v|] eqn:Ev.
  - pose proof (wi_vars _ _ _ _ W _ _ _ Ev E) as R. destruct v as [it|]; [|destruct R]. exists it. split; auto. now apply var_nth.
  - apply nth_error_None in Ev. rewrite (wi_vlen _ _ _ _ W) in Ev. apply nth_error_None in Ev. congruence.
Qed.
Lemma rel_w strm a w base x it : winv strm a w base -> var w x = Some it ->
  exists p, avar a x = Some p /\ vrel base (sh_len (w_sh w)) (Some it) (Some p).
Proof.
  intros W E. apply var_nth in E. destruct (nth_error (a_vars a) x) as [v|] eqn:Ev.
  - pose proof (wi_vars _ _ _ _ W _ _ _ E Ev) as R. destruct v as [p|]; [|destruct R]. exists p. split; auto. now apply avar_nth.
  - apply nth_error_None in Ev. rewrite <- (wi_vlen _ _ _ _ W) in Ev. apply nth_error_None in Ev. congruence.
Qed.

(** The indexes of the clients are the places of the iterators. *)
Lemma client_places strm a w base : winv strm a w base ->
  exists r, indexes w (sh_clients (w_sh w)) = Some r /\
    forall i, In (Some i) r <-> exists x, avar a x = Some (AAt (base + i)).
Proof.
  intros W. destruct (indexes_spec w (sh_clients (w_sh w))) as (r & E & R).
  { intros x Hx. apply (wi_clients _ _ _ _ W) in Hx as (it & H & _). eauto. }
  exists r. split; auto. intros i. rewrite R. split.
  - intros (x & it & Hx & Hv & Hi). destruct (rel_w _ _ _ _ _ _ W Hv) as (p & Hp & RR). exists x. destruct p as [|p|]; cbn in RR.
    + subst it. discriminate.
    + destruct RR as (-> & Hb). cbn in Hi. injection Hi as <-. replace (base + (p - base)) with p by lia. auto.
    + destruct RR as (_ & H & _). congruence.
  - intros (x & Hx). destruct (rel_a _ _ _ _ _ _ W Hx) as (it & Hv & (-> & Hb)). exists x. eexists. split; [|split; [eassumption|]].
    + apply (wi_clients _ _ _ _ W). eexists. split; [eassumption|]. reflexivity.
    + cbn. f_equal. lia.
Qed.
Lemma avar_in a p : (exists x, avar a x = Some p) <-> In (Some p) (a_vars a).
Proof.
  split; [intros (x & H); apply avar_nth in H; eapply nth_error_In; eauto|].
  intros H. apply In_nth_error in H as (x & H). exists x. now apply avar_nth.
Qed.
Lemma lowest_ok strm a w base : winv strm a w base ->
  exists l, lowest w = Ok l /\ match alow (a_vars a) with Some p => p = base + l | None => l = 0 end.
Proof.
  intros W. destruct (client_places _ _ _ _ W) as (r & E & R). unfold lowest. rewrite E. eexists. split; [reflexivity|].
  pose proof (low_spec r) as L. pose proof (alow_spec (a_vars a)) as A.
  destruct (alow (a_vars a)) as [p|].
  - destruct A as (A1 & A2). apply avar_in in A1 as (x & Hx).
    assert (Hp : base <= p). { destruct (rel_a _ _ _ _ _ _ W Hx) as (it & _ & _ & H). lia. }
    assert (IN : In (Some (p - base)) r) by (apply R; exists x; replace (base + (p - base)) with p by lia; auto).
    destruct (low r) as [i|]; [|exfalso; eapply L; eauto]. destruct L as (L1 & L2).
    specialize (L2 _ IN). apply R in L1. apply avar_in, A2 in L1. lia.
  - destruct (low r) as [i|]; auto. destruct L as (L1 & _). apply R, avar_in in L1. exfalso. eapply A; eauto.
Qed.

(** ** subtract *)
Definition shift (n : nat) (it : siter) : siter :=
  set_index it (match s_index it with Some i => Some (i - n) | None => None end).
Lemma shift_none n it : s_index it = None -> shift n it = it.
Proof. destruct it; unfold shift, set_index; cbn. intros ->. reflexivity. Qed.
Lemma subtract_ok n l : forall w, NoDup l ->
  (forall x, In x l -> exists it, var w x = Some it /\ forall i, s_index it = Some i -> n <= i) ->
  exists w', subtract w n l = Ok w' /\ w_sh w' = w_sh w /\ length (w_vars w') = length (w_vars w) /\
    count (w_vars w') = count (w_vars w) /\
    forall y, nth_error (w_vars w') y = if existsb (Nat.eqb y) l
       then option_map (option_map (shift n)) (nth_error (w_vars w) y) else nth_error (w_vars w) y.
Proof.
  induction l as [|x l IH]; intros w Hn H; cbn [subtract].
  - exists w. auto 6.
  - inversion Hn as [|? ? Hx Hl]; subst. destruct (H x (or_introl eq_refl)) as (it & E & Hi). rewrite E.
    assert (Ex : existsb (Nat.eqb x) l = false).
    { destruct (existsb (Nat.eqb x) l) eqn:F; auto. apply existsb_exists in F as (y & Hy & F). apply Nat.eqb_eq in F. subst. tauto. }
    pose proof (proj1 (var_nth _ _ _) E) as En. destruct (s_index it) as [i|] eqn:Ei.
    + rewrite (proj2 (Nat.ltb_ge i n)) by (apply Hi; auto).
      set (w1 := set_var w x (set_index it (Some (i - n)))).
      assert (V1 : forall y, nth_error (w_vars w1) y = if Nat.eqb x y then Some (Some (shift n it)) else nth_error (w_vars w) y).
      { intros y. unfold w1, set_var. cbn [w_vars with_vars]. rewrite put_nth, En. unfold shift. rewrite Ei. reflexivity. }
      destruct (IH w1 Hl) as (w' & E' & S' & L' & C' & V').
      { intros y Hy. destruct (H y (or_intror Hy)) as (jt & Ej & Hj). exists jt. split; auto. apply var_nth.
        rewrite V1. apply var_nth in Ej. destruct (Nat.eqb_spec x y) as [->|]; auto. tauto. }
      exists w'. split; auto. split; [rewrite S'; reflexivity|]. split; [rewrite L'; apply put_length|]. split.
      * rewrite C'. unfold w1, set_var. cbn [w_vars with_vars]. clear - En. revert En. generalize (w_vars w). intros vs. revert x.
        induction vs as [|v vs IH]; intros [|x]; cbn; try discriminate; [intros [= ->]; reflexivity|]. intros F. rewrite (IH _ F). reflexivity.
      * intros y. rewrite V', V1. cbn [existsb]. destruct (Nat.eqb_spec y x) as [->|Ne].
        { rewrite Ex, Nat.eqb_refl, En. reflexivity. }
        { rewrite (proj2 (Nat.eqb_neq x y)) by auto. reflexivity. }
    + destruct (IH w Hl) as (w' & E' & S' & L' & C' & V').
      { intros y Hy. apply H. right; auto. }
      exists w'. split; auto. split; auto. split; auto. split; auto. intros y. rewrite V'. cbn [existsb].
      destruct (Nat.eqb_spec y x) as [->|Ne]; auto. rewrite Ex, En. cbn. rewrite shift_none by auto. reflexivity.
Qed.

(** ** Buffer contents *)
Lemma firstn_app_full {A} (a b : list A) n : length a = n -> firstn n (a ++ b) = a.
Proof. intros <-. rewrite firstn_app, Nat.sub_diag, firstn_all. cbn. apply app_nil_r. Qed.
Lemma read_at_first buf at_ got : at_ <= length buf -> firstn (at_ + length got) (read_at buf at_ got) = firstn at_ buf ++ got.
Proof.
  intros H. unfold read_at. rewrite app_assoc. apply firstn_app_full. rewrite app_length, firstn_length. lia.
Qed.
Lemma read_at_length buf at_ got : at_ + length got <= length buf -> length (read_at buf at_ got) = length buf.
Proof. intros H. unfold read_at. rewrite !app_length, firstn_length, skipn_length. lia. Qed.
Lemma skipn_skipn {A} n : forall m (l : list A), skipn n (skipn m l) = skipn (n + m) l.
Proof.
  intros m; induction m as [|m IH]; intros l; [now rewrite Nat.add_0_r|]. rewrite Nat.add_succ_r.
  destruct l; cbn; [apply skipn_nil|apply IH].
Qed.
Lemma firstn_skipn_add {A} (l : list A) b n m : firstn n (skipn b l) ++ firstn m (skipn (b + n) l) = firstn (n + m) (skipn b l).
Proof.
  rewrite <- (firstn_skipn n (firstn (n + m) (skipn b l))). f_equal.
  - rewrite firstn_firstn. f_equal. lia.
  - rewrite skipn_firstn_comm. replace (n + m - n) with m by lia. rewrite skipn_skipn. f_equal. f_equal. lia.
Qed.
Lemma skipn_firstn_sub {A} (l : list A) n m : skipn n (firstn m l) = firstn (m - n) (skipn n l).
Proof. apply skipn_firstn_comm. Qed.

Lemma reload_ok strm a w base x : winv strm a w base -> avar a x = Some (AAt (base + sh_len (w_sh w))) ->
  exists w' base' more, reload false w = Ok (w', more) /\ winv strm a w' base' /\
    (more = true -> base + sh_len (w_sh w) < base' + sh_len (w_sh w')) /\
    (more = false -> base' + sh_len (w_sh w') = base + sh_len (w_sh w) /\ base + sh_len (w_sh w) = length strm).
Proof.
  intros W Hx. pose proof W as [B1 B2 B3 B4 B5 B6 B7 B8 B9 B10 B11 B12].
  destruct (lowest_ok _ _ _ _ W) as (lo & El & Hlo). unfold reload. rewrite El. cbn [bind].
  set (s := w_sh w) in *. destruct (Nat.eqb_spec lo 0) as [->|Hl0].
  - (* grow *)
    set (got := firstn (sh_incr s) (sh_rest s)).
    set (buf := read_at (sh_buf s ++ repeat 0%N (sh_incr s)) (length (sh_buf s)) got).
    assert (Lg : length got <= sh_incr s) by (unfold got; rewrite firstn_length; lia).
    assert (Lb : length buf = length (sh_buf s) + sh_incr s).
    { unfold buf. rewrite read_at_length; rewrite app_length, repeat_length; lia. }
    assert (Fb : firstn (length (sh_buf s) + length got) buf = sh_buf s ++ got).
    { unfold buf. rewrite read_at_first by (rewrite app_length; lia). f_equal. apply firstn_app_full. auto. }
    set (len' := if Nat.eqb (length got) 0 then sh_len s else length got + length (sh_buf s)).
    assert (RG : sh_rest s = got ++ skipn (sh_incr s) (sh_rest s)) by (unfold got; now rewrite firstn_skipn).
    assert (CASE : (length got = 0 /\ len' = sh_len s /\ sh_rest s = [] /\ base + sh_len s = length strm) \/
                   (length got > 0 /\ len' = length (sh_buf s) + length got /\ sh_len s = length (sh_buf s))).
    { unfold len'. destruct (Nat.eqb_spec (length got) 0) as [G|G].
      - left. split; auto. split; auto. assert (sh_rest s = []).
        { unfold got in G. rewrite firstn_length in G. destruct (sh_rest s); auto. cbn in G. lia. }
        split; auto. rewrite B4 in H. assert (LL := skipn_length (base + sh_len s) strm). rewrite H in LL. cbn in LL. lia.
      - right. split; [lia|]. split; [lia|]. destruct (Nat.eq_dec (sh_len s) (length (sh_buf s))) as [|Ne]; auto.
        rewrite (B5 ltac:(lia)) in RG. destruct got; [|discriminate]. cbn in G. lia. }
    assert (FB : firstn len' buf = firstn len' (skipn base strm) /\ base + len' <= length strm /\
                 skipn (sh_incr s) (sh_rest s) = skipn (base + len') strm /\ len' <= length buf /\
                 (len' < length buf -> skipn (sh_incr s) (sh_rest s) = [])).
    { destruct CASE as [(G & -> & R0 & BL)|(G & -> & LS)].
      - split. { assert (got = []) by (destruct got; [auto|discriminate]). rewrite H, app_nil_r in Fb. cbn [length] in Fb. rewrite Nat.add_0_r in Fb.
          rewrite <- B1, <- Fb. rewrite firstn_firstn. f_equal. lia. }
        split; auto. split; [rewrite <- B4, R0, skipn_nil; auto|]. split; [lia|]. intros _. rewrite R0. apply skipn_nil.
      - rewrite Fb. split.
        { rewrite <- firstn_skipn_add. rewrite <- LS, <- B1, LS, firstn_all. f_equal. rewrite <- LS. rewrite <- B4. unfold got.
          rewrite firstn_length. destruct (Nat.min_spec (sh_incr s) (length (sh_rest s))) as [(_ & ->)|(Hm & ->)]; auto.
          rewrite firstn_all. apply firstn_all2. auto. }
        split. { assert (LL := f_equal (@length N) B4). rewrite skipn_length in LL. rewrite RG, app_length in LL. lia. }
        split. { unfold got. rewrite firstn_length. rewrite <- LS. rewrite Nat.add_assoc. rewrite B4.
          destruct (Nat.min_spec (sh_incr s) (length (skipn (base + sh_len s) strm))) as [(_ & ->)|(Hm & ->)].
          - rewrite skipn_skipn. f_equal. lia.
          - rewrite !skipn_all2; auto; rewrite skipn_length; lia. }
        split; [lia|]. intros H. unfold got in H. rewrite firstn_length in H. apply skipn_all2. lia. }
    destruct FB as (F1 & F2 & F3 & F4 & F5).
    eexists. exists base. eexists. split; [reflexivity|]. split; [|split].
    + constructor; cbn [w_sh with_sh set_data sh_len sh_buf sh_rest sh_incr sh_clients sh_alive sh_ref w_vars]; auto; fold got buf len'; auto.
      intros y v p Hv Hp. pose proof (B8 y v p Hv Hp) as R. destruct v as [it|], p as [[|p|]|]; cbn in R |- *; auto.
      destruct R as (-> & R). split; auto. destruct CASE as [(_ & -> & _)|(_ & -> & LS)]; lia.
    + cbn [w_sh with_sh set_data sh_len]. fold got len'. intros Hm. apply negb_true_iff, Nat.eqb_neq in Hm.
      destruct CASE as [(G & _)|(G & -> & LS)]; [congruence|]. lia.
    + cbn [w_sh with_sh set_data sh_len]. fold got len'. intros Hm. apply negb_false_iff, Nat.eqb_eq in Hm.
      destruct CASE as [(G & -> & R0 & BL)|(G & _)]; [auto|lia].
  - (* move *)
    destruct (alow (a_vars a)) as [pm|] eqn:Ea; [|congruence].
    assert (LOW : forall y q, avar a y = Some (AAt q) -> base + lo <= q).
    { intros y q Hq. pose proof (alow_spec (a_vars a)) as A. rewrite Ea in A. destruct A as (_ & A). subst pm. apply A. apply avar_in. eauto. }
    assert (Hlen : lo <= sh_len s) by (specialize (LOW _ _ Hx); lia).
    rewrite (proj2 (Nat.ltb_ge (length (sh_buf s)) lo)) by lia. cbn [andb].
    set (start := length (sh_buf s) - lo). replace (length (sh_buf s) - start) with lo by (unfold start; lia).
    set (moved := skipn lo (sh_buf s) ++ skipn start (sh_buf s)).
    set (got := firstn lo (sh_rest s)). set (buf := read_at moved start got).
    assert (Lg : length got <= lo) by (unfold got; rewrite firstn_length; lia).
    assert (Lm : length moved = length (sh_buf s)) by (unfold moved, start; rewrite app_length, !skipn_length; lia).
    assert (Lb : length buf = length (sh_buf s)) by (unfold buf; rewrite read_at_length; rewrite Lm; unfold start; lia).
    assert (Fb : firstn (start + length got) buf = skipn lo (sh_buf s) ++ got).
    { unfold buf. rewrite read_at_first by (rewrite Lm; unfold start; lia). f_equal. unfold moved. apply firstn_app_full.
      rewrite skipn_length. reflexivity. }
    destruct (subtract_ok lo (sh_clients s) (with_sh w (set_data s (skipn lo (sh_rest s)) (sh_len s) buf)) B9) as (w1 & E1 & S1 & L1 & C1 & V1).
    { intros y Hy. apply B10 in Hy as (it & Hv & Hr). exists it. split; auto. intros i Hi.
      destruct (rel_w _ _ _ _ _ _ W Hv) as (p & Hp & R). destruct p as [|p|]; cbn in R.
      - subst it. discriminate.
      - destruct R as (-> & R). cbn in Hi. injection Hi as <-. specialize (LOW _ _ Hp). lia.
      - destruct R as (_ & R & _). congruence. }
    rewrite E1. cbn [bind]. cbn [w_vars with_sh] in L1, C1, V1.
    assert (REG : forall y it, var w y = Some it -> registered it = true -> nth_error (w_vars w1) y = Some (Some (shift lo it))).
    { intros y it Hv Hr. rewrite V1. rewrite (proj2 (existsb_exists (Nat.eqb y) (sh_clients s))).
      - apply var_nth in Hv. rewrite Hv. reflexivity.
      - exists y. split; [apply B10; eauto|apply Nat.eqb_refl]. }
    assert (UNR : forall y it, var w y = Some it -> registered it = false -> nth_error (w_vars w1) y = Some (Some it)).
    { intros y it Hv Hr. rewrite V1. destruct (existsb (Nat.eqb y) (sh_clients s)) eqn:F.
      - apply existsb_exists in F as (z & Hz & F). apply Nat.eqb_eq in F. subst z. apply B10 in Hz as (jt & Hj & Hjr). congruence.
      - now apply var_nth. }
    assert (NON : forall y, nth_error (w_vars w) y = Some None -> nth_error (w_vars w1) y = Some None).
    { intros y Hv. rewrite V1, Hv. destruct (existsb (Nat.eqb y) (sh_clients s)); reflexivity. }
    assert (VR : forall len', sh_len s - lo <= len' -> forall y v p, nth_error (w_vars w1) y = Some v -> nth_error (a_vars a) y = Some p -> vrel (base + lo) len' v p).
    { intros len' Hle y v p Hv Hp. destruct (nth_error (w_vars w) y) as [[it|]|] eqn:Ew.
      - pose proof (B8 _ _ _ Ew Hp) as R. apply var_nth in Ew. destruct (registered it) eqn:Er.
        + rewrite (REG _ _ Ew Er) in Hv. injection Hv as <-. destruct p as [[|q|]|]; cbn in R |- *; auto.
          * subst it. reflexivity.
          * destruct R as (-> & R). apply avar_nth in Hp. specialize (LOW _ _ Hp). split; [|lia]. unfold shift, set_index. cbn. f_equal. f_equal. lia.
          * destruct R as (R1 & R2 & R3). rewrite R2. cbn. auto.
        + rewrite (UNR _ _ Ew Er) in Hv. injection Hv as <-. destruct p as [[|q|]|]; cbn in R |- *; auto.
          destruct R as (-> & R). discriminate.
      - rewrite (NON _ Ew) in Hv. injection Hv as <-. pose proof (B8 _ _ _ Ew Hp) as R. destruct p; [destruct R|exact Logic.I].
      - assert (nth_error (w_vars w1) y = None) by (apply nth_error_None; rewrite L1; apply nth_error_None; auto). congruence. }
    assert (CL : forall y, In y (sh_clients s) <-> exists it, var w1 y = Some it /\ registered it = true).
    { intros y. rewrite B10. split.
      - intros (it & Hv & Hr). exists (shift lo it). split; [apply var_nth; auto|]. exact Hr.
      - intros (it & Hv & Hr). destruct (nth_error (w_vars w) y) as [[jt|]|] eqn:Ew.
        + apply var_nth in Ew. exists jt. split; auto. destruct (registered jt) eqn:Er; auto.
          rewrite (proj2 (var_nth _ _ _) (UNR _ _ Ew Er)) in Hv. congruence.
        + apply var_nth in Hv. rewrite (NON _ Ew) in Hv. discriminate.
        + apply var_nth in Hv. assert (nth_error (w_vars w1) y = None) by (apply nth_error_None; rewrite L1; apply nth_error_None; auto). congruence. }
    assert (RG : sh_rest s = got ++ skipn lo (sh_rest s)) by (unfold got; now rewrite firstn_skipn).
    destruct (Nat.eqb_spec (length got) 0) as [G|G].
    + (* nothing read *)
      assert (G0 : got = []) by (destruct got; [auto|discriminate]).
      assert (R0 : sh_rest s = []).
      { unfold got in G. rewrite firstn_length in G. destruct (sh_rest s); auto. cbn in G. lia. }
      assert (BL : base + sh_len s = length strm).
      { assert (LL := skipn_length (base + sh_len s) strm). rewrite <- B4, R0 in LL. cbn in LL. lia. }
      assert (HI : highest w1 = Ok (sh_len s - lo)).
      { unfold highest. rewrite S1. cbn [w_sh with_sh set_data sh_clients].
        destruct (indexes_spec w1 (sh_clients s)) as (r & Er & RR).
        { intros y Hy. apply CL in Hy as (it & H & _). eauto. }
        rewrite Er. f_equal. destruct (high_spec r) as (H1 & H2).
        assert (IDX : forall i, In (Some i) r -> i <= sh_len s - lo).
        { intros i Hi. apply RR in Hi as (y & it & Hy & Hv & Hi). apply var_nth in Hv.
          destruct (nth_error (a_vars a) y) as [p|] eqn:Ep.
          - pose proof (VR (sh_len s - lo) ltac:(lia) _ _ _ Hv Ep) as R. destruct p as [[|q|]|]; cbn in R.
            + subst it. discriminate.
            + destruct R as (-> & R). cbn in Hi. injection Hi as <-. lia.
            + destruct R as (_ & R & _). congruence.
            + destruct R.
          - apply nth_error_None in Ep. rewrite <- B7, <- L1 in Ep. apply nth_error_None in Ep. congruence. }
        assert (TOP : In (Some (sh_len s - lo)) r).
        { apply RR. destruct (rel_a _ _ _ _ _ _ W Hx) as (it & Hv & (Eit & _)).
          assert (Hr : registered it = true) by (subst it; reflexivity).
          exists x, (shift lo it). split; [apply B10; eauto|]. split; [apply var_nth; auto|]. subst it. cbn. f_equal. fold s. lia. }
        specialize (H1 _ TOP). destruct H2 as [H2|H2]; [lia|]. specialize (IDX _ H2). lia. }
      rewrite HI. cbn [bind]. eexists. exists (base + lo). eexists. split; [reflexivity|]. rewrite S1.
      cbn [w_sh with_sh set_data sh_len sh_buf sh_rest sh_incr sh_clients sh_alive sh_ref w_vars]. fold got.
      assert (LS : skipn lo (sh_rest s) = []) by (rewrite R0; apply skipn_nil).
      split; [|split; [discriminate|]].
      * constructor; cbn [w_sh with_sh set_data sh_len sh_buf sh_rest sh_incr sh_clients sh_alive sh_ref w_vars]; auto; try lia.
        -- rewrite G0, app_nil_r in Fb. cbn [length] in Fb. rewrite Nat.add_0_r in Fb.
           assert (firstn (sh_len s - lo) buf = firstn (sh_len s - lo) (firstn start buf)) by (rewrite firstn_firstn; f_equal; unfold start; lia).
           rewrite H, Fb. rewrite <- skipn_firstn_sub, B1, skipn_firstn_sub, skipn_skipn. f_equal. f_equal. lia.
        -- rewrite LS. symmetry. apply skipn_all2. lia.
        -- intros y v p Hv Hp. apply (VR (sh_len s - lo) ltac:(lia) y); auto.
      * split; [lia|lia].
    + assert (LS : sh_len s = length (sh_buf s)).
      { destruct (Nat.eq_dec (sh_len s) (length (sh_buf s))) as [|Ne]; auto.
        rewrite (B5 ltac:(lia)) in RG. destruct got; [|discriminate]. cbn in G. lia. }
      eexists. exists (base + lo). eexists. split; [reflexivity|]. rewrite S1.
      cbn [w_sh with_sh set_data sh_len sh_buf sh_rest sh_incr sh_clients sh_alive sh_ref w_vars]. fold got.
      assert (BL : base + lo + start = base + sh_len s) by (unfold start; lia).
      split; [|split; [intros _; lia|discriminate]].
      constructor; cbn [w_sh with_sh set_data sh_len sh_buf sh_rest sh_incr sh_clients sh_alive sh_ref w_vars]; auto; try lia.
      * rewrite (Nat.add_comm (length got)). rewrite Fb. rewrite <- firstn_skipn_add. f_equal.
        -- rewrite <- (firstn_all (sh_buf s)), <- LS, B1, skipn_firstn_sub, skipn_skipn. unfold start. rewrite <- LS. f_equal. f_equal. lia.
        -- rewrite BL, <- B4. unfold got. rewrite firstn_length.
           destruct (Nat.min_spec lo (length (sh_rest s))) as [(_ & ->)|(Hm & ->)]; auto. rewrite firstn_all. apply firstn_all2. auto.
      * assert (LL := f_equal (@length N) B4). rewrite skipn_length in LL. rewrite RG, app_length in LL. lia.
      * rewrite (Nat.add_comm (length got)), Nat.add_assoc, BL, B4. unfold got. rewrite firstn_length, B4.
        destruct (Nat.min_spec lo (length (skipn (base + sh_len s) strm))) as [(_ & ->)|(Hm & ->)].
        -- rewrite skipn_skipn. f_equal. lia.
        -- rewrite !skipn_all2; auto; rewrite skipn_length; lia.
      * rewrite Lb. intros H. apply skipn_all2. unfold start in H. unfold got in H. rewrite firstn_length in H. lia.
      * intros y v p Hv Hp. apply (VR (length got + start) ltac:(unfold start; lia) y); auto.
Qed.

(** ** Operations *)
Lemma count_put l x old v : nth_error l x = Some old -> count (put l x v) + shares old = count l + shares v.
Proof.
  revert x; induction l as [|u l IH]; intros [|x]; cbn; try discriminate.
  - intros [= ->]. lia.
  - intros H. specialize (IH _ H). lia.
Qed.
Lemma count_app l v : count (l ++ [v]) = count l + shares v.
Proof. induction l as [|u l IH]; cbn; [lia|]. rewrite IH. lia. Qed.
Lemma count_var w x it : var w x = Some it -> s_shared it = true -> 1 <= count (w_vars w).
Proof.
  intros H Hs. apply var_nth in H. revert x H. generalize (w_vars w). intros l. induction l as [|u l IH]; intros [|x]; cbn; try discriminate.
  - intros [= ->]. cbn. rewrite Hs. cbn. lia.
  - intros H. specialize (IH _ H). lia.
Qed.
Definition same_data (s s' : shared) : Prop :=
  sh_len s' = sh_len s /\ sh_buf s' = sh_buf s /\ sh_rest s' = sh_rest s /\ sh_incr s' = sh_incr s.

Lemma upd_ok strm a w base x old v p s' : winv strm a w base -> nth_error (w_vars w) x = Some old ->
  vrel base (sh_len (w_sh w)) v p -> same_data (w_sh w) s' -> NoDup (sh_clients s') ->
  (forall y, In y (sh_clients s') <-> if Nat.eqb x y then (exists it, v = Some it /\ registered it = true) else In y (sh_clients (w_sh w))) ->
  count (put (w_vars w) x v) <= sh_ref s' -> (sh_alive s' = true \/ count (put (w_vars w) x v) = 0) ->
  winv strm (aset a x p) {| w_sh := s'; w_vars := put (w_vars w) x v |} base.
Proof.
  intros [B1 B2 B3 B4 B5 B6 B7 B8 B9 B10 B11 B12] Ho R (D1 & D2 & D3 & D4) ND CL RF AL.
  constructor; cbn [w_sh w_vars]; rewrite ?D1, ?D2, ?D3, ?D4; auto.
  - unfold aset. cbn [a_vars]. now rewrite !put_length.
  - intros y u q. unfold aset. cbn [a_vars]. rewrite !put_nth, Ho. destruct (Nat.eqb_spec x y) as [->|Ne].
    + destruct (nth_error (a_vars a) y); [|discriminate]. intros [= <-] [= <-]. exact R.
    + apply B8.
  - intros y. rewrite CL. unfold var. cbn [w_vars]. rewrite put_nth, Ho. destruct (Nat.eqb_spec x y) as [->|Ne].
    + split.
      * intros (it & -> & H). eauto.
      * intros (it & H & Hr). destruct v as [jt|]; [|discriminate]. injection H as ->. eauto.
    + rewrite B10. unfold var. reflexivity.
Qed.
Lemma add_ok strm a w base it p s' : winv strm a w base ->
  vrel base (sh_len (w_sh w)) (Some it) (Some p) -> same_data (w_sh w) s' -> NoDup (sh_clients s') ->
  (forall y, In y (sh_clients s') <-> In y (sh_clients (w_sh w)) \/ (y = length (w_vars w) /\ registered it = true)) ->
  count (w_vars w) + shares (Some it) <= sh_ref s' -> (sh_alive s' = true \/ count (w_vars w) + shares (Some it) = 0) ->
  winv strm (aadd a p) {| w_sh := s'; w_vars := w_vars w ++ [Some it] |} base.
Proof.
  intros [B1 B2 B3 B4 B5 B6 B7 B8 B9 B10 B11 B12] R (D1 & D2 & D3 & D4) ND CL RF AL.
  constructor; cbn [w_sh w_vars]; rewrite ?D1, ?D2, ?D3, ?D4, ?count_app; auto.
  - unfold aadd. cbn [a_vars]. rewrite !app_length. cbn. lia.
  - intros y u q. unfold aadd. cbn [a_vars]. destruct (Nat.lt_ge_cases y (length (w_vars w))) as [L|L].
    + rewrite !nth_error_app1 by lia. apply B8.
    + rewrite !nth_error_app2 by lia. rewrite <- B7. destruct (y - length (w_vars w)) as [|z]; cbn.
      * intros [= <-] [= <-]. exact R.
      * destruct z; discriminate.
  - intros y. rewrite CL. unfold var. cbn [w_vars]. destruct (Nat.lt_ge_cases y (length (w_vars w))) as [L|L].
    + rewrite nth_error_app1 by lia. rewrite B10. unfold var. split; [intros [H|(H & _)]; [auto|lia]|auto].
    + rewrite nth_error_app2 by lia. split.
      * intros [H|(-> & H)].
        -- apply B10 in H as (jt & H & _). apply var_nth in H. assert (y < length (w_vars w)) by (apply nth_error_Some; congruence). lia.
        -- rewrite Nat.sub_diag. cbn. eauto.
      * intros (jt & H & Hr). destruct (y - length (w_vars w)) as [|z] eqn:Ez; cbn in H.
        -- injection H as ->. right. split; [lia|auto].
        -- destruct z; discriminate.
Qed.

Definition inv (strm : list N) (a : ideal) (w : world) : Prop := exists base, winv strm a w base /\
  (forall x p, avar a x = Some (AAt p) -> p < base + sh_len (w_sh w)) /\
  (a_moved a = false -> base = 0 /\ (forall x p, avar a x = Some (AAt p) -> p = 0) /\ (strm <> [] -> 0 < sh_len (w_sh w))).

Lemma avar_aset a x p y : avar (aset a x p) y = if Nat.eqb x y then match nth_error (a_vars a) x with Some _ => p | None => None end else avar a y.
Proof.
  unfold avar, aset. cbn [a_vars]. rewrite put_nth. destruct (Nat.eqb x y); auto. destruct (nth_error (a_vars a) x); auto. destruct p; auto.
Qed.
Lemma avar_aadd a p y q : avar (aadd a p) y = Some q -> avar a y = Some q \/ q = p.
Proof.
  unfold avar, aadd. cbn [a_vars]. destruct (Nat.lt_ge_cases y (length (a_vars a))) as [L|L].
  - rewrite nth_error_app1 by lia. auto.
  - rewrite nth_error_app2 by lia. destruct (y - length (a_vars a)) as [|z]; cbn; [intros [= ->]; auto|]. destruct z; discriminate.
Qed.

Lemma put_same {A} (l : list A) x v : nth_error l x = Some v -> put l x v = l.
Proof. revert x; induction l as [|u l IH]; intros [|x]; cbn; try discriminate; [intros [= ->]; auto|]. intros H. rewrite IH; auto. Qed.
Lemma existsb_var {P : Prop} v : (v = None -> P) -> (forall it : siter, v = Some it -> P) -> P.
Proof. destruct v; eauto. Qed.

Lemma alive_of strm a w base x it : winv strm a w base -> var w x = Some it -> s_shared it = true -> sh_alive (w_sh w) = true.
Proof. intros W H Hs. destruct (wi_alive _ _ _ _ W) as [A|A]; auto. pose proof (count_var _ _ _ H Hs). lia. Qed.

(** Where a master is taken to. *)
Lemma first_ok strm a w base x p :
  winv strm a w base ->
  (forall x p, avar a x = Some (AAt p) -> p < base + sh_len (w_sh w)) ->
  (a_moved a = false -> base = 0 /\ (forall x p, avar a x = Some (AAt p) -> p = 0) /\ (strm <> [] -> 0 < sh_len (w_sh w))) ->
  avar a x = Some AMaster -> first_place strm a = Some p ->
  exists l, lowest w = Ok l /\ l = p - base /\ base <= p < base + sh_len (w_sh w) /\ (a_moved a = false -> p = 0).
Proof.
  intros W LT MV Hx Hf. destruct (lowest_ok _ _ _ _ W) as (l & El & Hl). exists l. split; auto.
  unfold first_place in Hf. destruct strm as [|c0 strm']; [discriminate|]. destruct (alow (a_vars a)) as [q|] eqn:Ea.
  - injection Hf as ->. subst p. pose proof (alow_spec (a_vars a)) as A. rewrite Ea in A. destruct A as (A & _).
    apply avar_in in A as (y & Hy). pose proof (LT _ _ Hy). split; [lia|]. split; [lia|]. intros Hm. destruct (MV Hm) as (_ & Z & _). eapply Z; eauto.
  - destruct (a_moved a); [discriminate|]. injection Hf as <-. destruct (MV eq_refl) as (-> & _ & H). split; [lia|]. split; [|auto].
    specialize (H ltac:(discriminate)). lia.
Qed.

Lemma check_ok strm a w x p : inv strm a w -> place_of strm a x = Some (AAt p) ->
  exists w1, check_master w x = Ok w1 /\ inv strm (aset a x (Some (AAt p))) w1.
Proof.
  intros (base & W & LT & MV) Hp. unfold place_of in Hp. unfold check_master.
  destruct (avar a x) as [[|q|]|] eqn:Ex; try discriminate.
  - destruct (first_place strm a) as [q|] eqn:Ef; [|discriminate]. injection Hp as ->.
    destruct (rel_a _ _ _ _ _ _ W Ex) as (it & Hv & R). cbn in R. rewrite Hv. subst it. cbn [s_shared s_master negb].
    rewrite (alive_of _ _ _ _ _ _ W Hv eq_refl). cbn [negb].
    destruct (first_ok _ _ _ _ _ _ W LT MV Ex Ef) as (l & -> & El & Hr & Hz). cbn [bind]. eexists. split; [reflexivity|].
    pose proof (proj1 (var_nth _ _ _) Hv) as Hn. exists base. split; [|split].
    + unfold set_var, with_vars. eapply upd_ok; eauto.
      * cbn. split; [congruence|lia].
      * repeat split.
      * apply W.
      * intros y. destruct (Nat.eqb_spec x y) as [<-|]; [|tauto]. split; [intros _; eexists; split; reflexivity|].
        intros _. apply (wi_clients _ _ _ _ W). eexists. split; [exact Hv|reflexivity].
      * pose proof (count_put _ _ _ (Some {| s_master := false; s_live := true; s_index := Some l; s_shared := true |}) Hn). cbn in H. pose proof (wi_ref _ _ _ _ W). lia.
      * left. eapply alive_of; eauto.
    + cbn [set_var with_vars w_sh]. intros y q. rewrite avar_aset. destruct (Nat.eqb_spec x y) as [->|]; [|apply LT].
      destruct (nth_error (a_vars a) y); [|discriminate]. intros [= <-]. lia.
    + cbn [set_var with_vars w_sh aset a_moved]. intros Hm. destruct (MV Hm) as (Hb & Z & L0). split; auto. split; auto.
      intros y q. change (avar {| a_vars := put (a_vars a) x (Some (AAt p)); a_moved := a_moved a |} y) with (avar (aset a x (Some (AAt p))) y).
      rewrite avar_aset. destruct (Nat.eqb_spec x y) as [->|]; [|apply Z].
      destruct (nth_error (a_vars a) y); [|discriminate]. intros [= <-]. auto.
  - injection Hp as ->. destruct (rel_a _ _ _ _ _ _ W Ex) as (it & Hv & R). cbn in R. rewrite Hv. destruct R as (-> & R). cbn [s_shared s_master negb].
    rewrite (alive_of _ _ _ _ _ _ W Hv eq_refl). cbn [negb]. eexists. split; [reflexivity|].
    replace (aset a x (Some (AAt p))) with a; [exists base; auto|].
    unfold aset. rewrite put_same by (apply avar_nth; auto). destruct a; reflexivity.
Qed.

Lemma nth_firstn {A} (l : list A) n i : i < n -> nth_error (firstn n l) i = nth_error l i.
Proof. revert n i; induction l as [|c l IH]; intros [|n] [|i] H; cbn; auto; try lia. apply IH. lia. Qed.
Lemma nth_skipn {A} (l : list A) n i : nth_error (skipn n l) i = nth_error l (n + i).
Proof. revert n; induction l as [|c l IH]; intros [|n]; cbn; auto. destruct i; auto. Qed.
Lemma char_at strm a w base p : winv strm a w base -> base <= p < base + sh_len (w_sh w) ->
  nth_error (sh_buf (w_sh w)) (p - base) = nth_error strm p.
Proof.
  intros W H. rewrite <- (nth_firstn _ (sh_len (w_sh w))) by lia. rewrite (wi_buf _ _ _ _ W), nth_firstn by lia.
  rewrite nth_skipn. f_equal. lia.
Qed.

Lemma inc_ok strm a w x p : inv strm a w -> avar a x = Some (AAt p) ->
  exists it w2, var w x = Some it /\ s_index it <> None /\
    update_state false (set_var w x (set_index it (match s_index it with None => Some 0 | Some i => Some (S i) end))) x = Ok w2 /\
    inv strm {| a_vars := put (a_vars a) x (Some (if Nat.ltb (S p) (length strm) then AAt (S p) else AEnd)); a_moved := true |} w2.
Proof.
  intros (base & W & LT & MV) Ex. destruct (rel_a _ _ _ _ _ _ W Ex) as (it & Hv & R). cbn in R. destruct R as (-> & R).
  pose proof (LT _ _ Ex) as Hlt. eexists. pose proof (proj1 (var_nth _ _ _) Hv) as Hn. cbn [s_index set_index].
  set (len := sh_len (w_sh w)) in *.
  (* the state after ++_index *)
  set (it1 := {| s_master := false; s_live := true; s_index := Some (S (p - base)); s_shared := true |}).
  set (w1 := set_var w x it1). set (a1 := aset a x (Some (AAt (S p)))).
  assert (W1 : winv strm a1 w1 base).
  { unfold w1, set_var, with_vars, a1. eapply upd_ok; eauto.
    - cbn [vrel]. split; [unfold it1; f_equal; f_equal; lia|fold len; lia].
    - repeat split.
    - apply W.
    - intros y. destruct (Nat.eqb_spec x y) as [<-|]; [|tauto]. split; [intros _; eexists; split; reflexivity|].
      intros _. apply (wi_clients _ _ _ _ W). eexists. split; [exact Hv|reflexivity].
    - pose proof (count_put _ _ _ (Some it1) Hn) as H. cbn in H. pose proof (wi_ref _ _ _ _ W). lia.
    - left. eapply alive_of; eauto. }
  assert (V1 : var w1 x = Some it1).
  { apply var_nth. unfold w1, set_var. cbn [with_vars w_vars]. rewrite put_nth, Nat.eqb_refl, Hn. reflexivity. }
  assert (An : exists o, nth_error (a_vars a) x = Some o) by (apply avar_nth in Ex; eauto). destruct An as (ao & An).
  assert (A1 : avar a1 x = Some (AAt (S p))) by (unfold a1; rewrite avar_aset, Nat.eqb_refl, An; reflexivity).
  assert (A1o : forall y q, y <> x -> avar a1 y = Some q -> avar a y = Some q).
  { intros y q Hy. unfold a1. rewrite avar_aset. rewrite (proj2 (Nat.eqb_neq x y)) by auto. auto. }
  assert (SH1 : w_sh w1 = w_sh w) by reflexivity.
  destruct (Nat.leb_spec len (S (p - base))) as [Hl|Hl].
  - assert (EP : S p = base + len) by lia.
    destruct (reload_ok strm a1 w1 base x W1) as (w2 & base2 & more & E2 & W2 & M1 & M2).
    { rewrite SH1. fold len. rewrite A1. f_equal. f_equal. auto. }
    rewrite SH1 in M1, M2. fold len in M1, M2.
    destruct more.
    + exists w2. split; [exact Hv|]. split; [discriminate|]. split.
      { transitivity (update_state false w1 x); [reflexivity|]. unfold update_state. rewrite V1. cbn [s_index it1]. rewrite SH1. fold len. rewrite (proj2 (Nat.leb_le len (S (p - base))) Hl).
        rewrite E2. reflexivity. }
      specialize (M1 eq_refl).
      assert (S p < length strm) by (pose proof (wi_in _ _ _ _ W2); lia). rewrite (proj2 (Nat.ltb_lt _ _) H).
      exists base2. split; [|split; [|discriminate]].
      { destruct W2 as [C1 C2 C3 C4 C5 C6 C7 C8 C9 C10 C11 C12]. constructor; auto. }
      intros y q. change (avar {| a_vars := _; a_moved := true |} y) with (avar a1 y).
      destruct (Nat.eq_dec y x) as [->|Ne]; [rewrite A1; intros [= <-]; lia|]. intros Hq. apply A1o in Hq; auto. apply LT in Hq. lia.
    + destruct (M2 eq_refl) as (M3 & M4). clear M1 M2.
      destruct (rel_a _ _ _ _ _ _ W2 A1) as (it2 & Hv2 & (E2t & _)).
      eexists. split; [exact Hv|]. split; [discriminate|]. split.
      { transitivity (update_state false w1 x); [reflexivity|]. unfold update_state. rewrite V1. cbn [s_index it1]. rewrite SH1. fold len. rewrite (proj2 (Nat.leb_le len (S (p - base))) Hl).
        rewrite E2. cbn [bind]. rewrite Hv2. reflexivity. }
      rewrite (proj2 (Nat.ltb_ge (S p) (length strm))) by lia. exists base2. pose proof (proj1 (var_nth _ _ _) Hv2) as Hn2. split; [|split; [|discriminate]].
      * assert (U : winv strm (aset a1 x (Some AEnd)) {| w_sh := w_sh (erase w2 x); w_vars := put (w_vars w2) x (Some {| s_master := s_master it2; s_live := false; s_index := None; s_shared := s_shared it2 |}) |} base2).
        { eapply upd_ok; eauto.
          - subst it2. cbn. auto.
          - repeat split.
          - cbn. apply remove_first_nodup, W2.
          - intros y. cbn [erase with_sh w_sh set_clients sh_clients]. rewrite remove_first_in by apply W2. subst it2.
            destruct (Nat.eqb_spec x y) as [<-|Ne]; [|split; [tauto|intros; split; auto]]. split; [tauto|]. intros (jt & [= <-] & H). discriminate.
          - cbn. pose proof (count_put _ _ _ (Some {| s_master := s_master it2; s_live := false; s_index := None; s_shared := s_shared it2 |}) Hn2) as H.
            cbn in H. pose proof (wi_ref _ _ _ _ W2). lia.
          - left. cbn. eapply alive_of; [exact W2|exact Hv2|]. subst it2; reflexivity. }
        destruct U as [C1 C2 C3 C4 C5 C6 C7 C8 C9 C10 C11 C12]. constructor; auto.
        { unfold a1 in C7. cbn in C7 |- *. rewrite !put_length in C7. rewrite !put_length. exact C7. }
        { intros y u q. cbn [a_vars]. intros Hu Hq. apply (C8 y u q Hu). revert Hq. unfold aset, a1. cbn [a_vars aset]. rewrite !put_nth, Nat.eqb_refl.
          destruct (Nat.eqb x y); rewrite ?An; auto. }
      * cbn [set_var with_vars w_sh erase with_sh set_clients sh_len]. intros y q. unfold avar. cbn [a_vars]. rewrite put_nth, An.
        destruct (Nat.eqb_spec x y) as [->|Ne]; [discriminate|]. intros Hq. assert (avar a y = Some (AAt q)) by exact Hq. apply LT in H. lia.
  - exists w1. split; [exact Hv|]. split; [discriminate|]. split.
    { transitivity (update_state false w1 x); [reflexivity|]. unfold update_state. rewrite V1. cbn [s_index it1]. rewrite SH1. fold len. rewrite (proj2 (Nat.leb_gt len (S (p - base))) Hl). reflexivity. }
    assert (S p < length strm) by (pose proof (wi_in _ _ _ _ W) as H; fold len in H; lia). rewrite (proj2 (Nat.ltb_lt _ _) H).
    exists base. split; [|split; [|discriminate]].
    { destruct W1 as [C1 C2 C3 C4 C5 C6 C7 C8 C9 C10 C11 C12]. constructor; auto. }
    intros y q. change (avar {| a_vars := _; a_moved := true |} y) with (avar a1 y). rewrite SH1. fold len.
    destruct (Nat.eq_dec y x) as [->|Ne]; [rewrite A1; intros [= <-]; lia|]. intros Hq. apply A1o in Hq; [|auto]. exact (LT _ _ Hq).
Qed.

Lemma moved_aset strm a w base x q :
  winv strm a w base -> (a_moved a = false -> base = 0 /\ (forall x p, avar a x = Some (AAt p) -> p = 0) /\ (strm <> [] -> 0 < sh_len (w_sh w))) ->
  (forall p, q = Some (AAt p) -> exists y, avar a y = Some (AAt p)) ->
  a_moved (aset a x q) = false -> base = 0 /\ (forall y p, avar (aset a x q) y = Some (AAt p) -> p = 0) /\ (strm <> [] -> 0 < sh_len (w_sh w)).
Proof.
  intros W MV Hq Hm. destruct (MV Hm) as (H1 & H2 & H3). split; auto. split; auto. intros y p. rewrite avar_aset.
  destruct (Nat.eqb x y); [|apply H2]. destruct (nth_error (a_vars a) x); [|discriminate]. intros H. apply Hq in H as (z & H). eauto.
Qed.

Theorem exec_ok strm a w o a' b : inv strm a w -> aexec strm a o = Some (a', b) ->
  exists w', exec false w o = Ok (w', b) /\ inv strm a' w'.
Proof.
  intros I. pose proof I as (base & W & LT & MV). destruct o as [|y|x y|x|x|x|x y]; cbn [aexec exec].
  - (* default *)
    intros [= <- <-]. eexists. split; [reflexivity|]. exists base. split; [|split].
    + apply add_ok with (1 := W); auto; [cbn; auto|repeat split|apply W| | |].
      * intros y. split; auto. intros [H|(_ & H)]; auto. discriminate.
      * cbn. rewrite Nat.add_0_r. apply W.
      * cbn. rewrite Nat.add_0_r. apply W.
    + intros y p H. apply avar_aadd in H as [H|H]; [|discriminate]. eauto.
    + intros Hm. destruct (MV Hm) as (H1 & H2 & H3). split; auto. split; auto.
      intros y p H. apply avar_aadd in H as [H|H]; [|discriminate]. eauto.
  - (* copy *)
    destruct (place_of strm a y) as [p|] eqn:Ep; [|discriminate]. intros [= <- <-].
    assert (CP : exists it i, var w y = Some it /\ the_index w it = Ok i /\
        vrel base (sh_len (w_sh w)) (Some {| s_master := false; s_live := s_shared it; s_index := i; s_shared := s_shared it |}) (Some p) /\
        (forall q, p = AAt q -> q < base + sh_len (w_sh w) /\ (a_moved a = false -> q = 0))).
    { unfold place_of in Ep. destruct (avar a y) as [[|q|]|] eqn:Ey; try discriminate.
      - destruct (first_place strm a) as [q|] eqn:Ef; [|discriminate]. injection Ep as <-.
        destruct (rel_a _ _ _ _ _ _ W Ey) as (it & Hv & R). cbn in R. subst it.
        destruct (first_ok _ _ _ _ _ _ W LT MV Ey Ef) as (l & El & -> & Hr & Hz).
        do 2 eexists. split; [exact Hv|]. unfold the_index. cbn [s_master]. rewrite El. split; [reflexivity|].
        split; [cbn; split; [reflexivity|lia]|]. intros q' [= <-]. split; [lia|auto].
      - injection Ep as <-. destruct (rel_a _ _ _ _ _ _ W Ey) as (it & Hv & R). cbn in R. destruct R as (-> & R).
        do 2 eexists. split; [exact Hv|]. split; [reflexivity|]. split; [cbn; split; [reflexivity|lia]|].
        intros q' [= <-]. split; [eauto|]. intros Hm. destruct (MV Hm) as (_ & Z & _). eauto.
      - injection Ep as <-. destruct (rel_a _ _ _ _ _ _ W Ey) as (it & Hv & R). cbn in R. destruct R as (R1 & R2 & R3).
        exists it, None. split; [exact Hv|]. unfold the_index. rewrite R1, R2. split; [reflexivity|]. split; [cbn; auto|]. discriminate. }
    destruct CP as (it & i & Hv & Hi & R & RB). rewrite Hv, Hi.
    assert (FIN : forall s', same_data (w_sh w) s' ->
      winv strm (aadd a p) {| w_sh := s'; w_vars := w_vars w ++ [Some {| s_master := false; s_live := s_shared it; s_index := i; s_shared := s_shared it |}] |} base ->
      inv strm (aadd a p) {| w_sh := s'; w_vars := w_vars w ++ [Some {| s_master := false; s_live := s_shared it; s_index := i; s_shared := s_shared it |}] |}).
    { intros s' (D1 & _) W'. exists base. cbn [w_sh]. rewrite D1. split; [exact W'|]. split.
      - intros z q H. apply avar_aadd in H as [H|H]; [eauto|]. symmetry in H. apply RB in H. tauto.
      - intros Hm. destruct (MV Hm) as (H1 & H2 & H3). split; auto. split; auto.
        intros z q H. apply avar_aadd in H as [H|H]; [eauto|]. symmetry in H. apply RB in H. tauto. }
    destruct (s_shared it) eqn:Es; cbn [andb].
    + rewrite (alive_of _ _ _ _ _ _ W Hv Es). cbn [negb bind]. eexists. split; [reflexivity|]. apply FIN; [repeat split|].
      apply add_ok with (1 := W); auto.
      * repeat split.
      * cbn [set_ref set_clients sh_clients].
        assert (NI : ~ In (length (w_vars w)) (sh_clients (w_sh w))).
        { intros H. apply (wi_clients _ _ _ _ W) in H as (jt & H & _). apply var_nth in H.
          assert (length (w_vars w) < length (w_vars w)) by (apply nth_error_Some; congruence). lia. }
        pose proof (wi_nodup _ _ _ _ W) as ND. revert NI ND. generalize (sh_clients (w_sh w)). intros l NI ND.
        induction ND as [|z l Hz Hl IH]; cbn; [repeat constructor; auto|]. constructor; [rewrite in_app_iff; cbn in *; intuition|]. apply IH. cbn in NI. tauto.
      * intros z. cbn [set_ref set_clients sh_clients]. rewrite in_app_iff. cbn. intuition.
      * cbn. pose proof (wi_ref _ _ _ _ W). lia.
      * left. cbn. apply (alive_of _ _ _ _ _ _ W Hv Es).
    + cbn [bind]. eexists. split; [reflexivity|]. unfold with_vars. apply FIN; [repeat split|].
      apply add_ok with (1 := W); auto.
      * repeat split.
      * apply W.
      * intros z. split; auto. intros [H|(_ & H)]; auto. discriminate.
      * cbn. rewrite Nat.add_0_r. apply W.
      * cbn. rewrite Nat.add_0_r. apply W.
  - (* assign *)
    destruct (avar a x) as [px|] eqn:Ex; [|destruct (avar a y) as [[| |]|]; discriminate]. destruct (avar a y) as [py|] eqn:Ey; [|destruct px; discriminate].
    intros H. assert (G : px <> AMaster /\ py <> AMaster /\ a' = aset a x (Some py) /\ b = ONone).
    { destruct px, py; try discriminate; injection H as <- <-; repeat split; congruence. }
    clear H. destruct G as (Gx & Gy & -> & ->).
    destruct (rel_a _ _ _ _ _ _ W Ex) as (ix & Hx & Rx). destruct (rel_a _ _ _ _ _ _ W Ey) as (iy & Hy & Ry). rewrite Hx, Hy.
    destruct (Nat.eqb_spec x y) as [<-|Nxy].
    { eexists. split; [reflexivity|]. rewrite Ex in Ey. injection Ey as <-.
      replace (aset a x (Some px)) with a; auto. unfold aset. rewrite put_same by (apply avar_nth; auto). destruct a; reflexivity. }
    assert (AL : (s_shared ix || s_shared iy) && negb (sh_alive (w_sh w)) = false).
    { destruct (s_shared ix) eqn:E1; [rewrite (alive_of _ _ _ _ _ _ W Hx E1); apply andb_false_r|].
      destruct (s_shared iy) eqn:E2; [rewrite (alive_of _ _ _ _ _ _ W Hy E2); apply andb_false_r|]. reflexivity. }
    rewrite AL. assert (Miy : s_master iy = false) by (destruct py; cbn in Ry; [congruence|destruct Ry as (-> & _); reflexivity|tauto]).
    assert (Mix : s_master ix = false) by (destruct px; cbn in Rx; [congruence|destruct Rx as (-> & _); reflexivity|tauto]).
    assert (Lx : s_live ix = true -> s_shared ix = true) by (destruct px; cbn in Rx; [congruence|destruct Rx as (-> & _); auto|tauto]).
    assert (Ly : s_live iy = true -> s_shared iy = true) by (destruct py; cbn in Ry; [congruence|destruct Ry as (-> & _); auto|tauto]).
    unfold the_index. rewrite Miy. cbn [bind]. eexists. split; [reflexivity|].
    pose proof (proj1 (var_nth _ _ _) Hx) as Hnx.
    set (new := {| s_master := false; s_live := s_live iy; s_index := s_index iy; s_shared := s_shared iy |}).
    assert (Enew : new = iy) by (destruct iy; cbn in *; unfold new; cbn; congruence). rewrite Enew.
    match goal with |- inv _ _ (set_var (with_sh w ?s) _ _) => set (s' := s) end.
    pose proof (count_put _ _ _ (Some iy) Hnx) as CP. cbn [shares] in CP. pose proof (wi_ref _ _ _ _ W) as RF.
    pose proof (wi_nodup _ _ _ _ W) as ND.
    assert (CLx : In x (sh_clients (w_sh w)) <-> s_live ix = true).
    { rewrite (wi_clients _ _ _ _ W). unfold registered. split.
      - intros (jt & Hj & Hr). rewrite Hx in Hj. injection Hj as <-. rewrite Mix in Hr. exact Hr.
      - intros H. exists ix. rewrite Mix, H. auto. }
    assert (DD : same_data (w_sh w) s').
    { unfold s'. destruct (s_live ix), (s_live iy), (s_shared ix), (s_shared iy); repeat split. }
    exists base. split; [|split].
    + unfold set_var, with_vars, with_sh. cbn [w_sh w_vars]. eapply upd_ok; eauto.
      * unfold s'. destruct (s_live ix) eqn:E1, (s_live iy) eqn:E2; cbn [negb andb].
        -- exact ND.
        -- destruct (s_shared iy); cbn; apply remove_first_nodup; exact ND.
        -- assert (ND2 : NoDup (sh_clients (w_sh w) ++ [x])).
           { assert (NI : ~ In x (sh_clients (w_sh w))) by (rewrite CLx; discriminate). revert NI ND. generalize (sh_clients (w_sh w)). clear. intros l NI ND.
             induction ND as [|z l Hz Hl IH]; cbn; [repeat constructor; auto|]. constructor; [rewrite in_app_iff; cbn in *; intuition|]. apply IH. cbn in NI. tauto. }
           destruct (s_shared ix); cbn; exact ND2.
        -- destruct (s_shared iy); cbn; exact ND.
      * intros z. assert (RG : (exists it, Some iy = Some it /\ registered it = true) <-> s_live iy = true).
        { unfold registered. split; [intros (jt & [= <-] & H); rewrite Miy in H; exact H|]. intros H. exists iy. rewrite Miy, H. auto. }
        unfold s'. destruct (s_live ix) eqn:E1, (s_live iy) eqn:E2; cbn [negb andb].
        -- destruct (Nat.eqb_spec x z) as [<-|Nz]; [rewrite RG, CLx; tauto|tauto].
        -- transitivity (In z (remove_first x (sh_clients (w_sh w)))); [destruct (s_shared iy); reflexivity|].
           rewrite remove_first_in by exact ND. destruct (Nat.eqb_spec x z) as [<-|Nz]; [rewrite RG; split; [tauto|discriminate]|split; [tauto|intros; split; auto]].
        -- transitivity (In z (sh_clients (w_sh w) ++ [x])); [destruct (s_shared ix); reflexivity|].
           rewrite in_app_iff. cbn. destruct (Nat.eqb_spec x z) as [<-|Nz]; [rewrite RG; tauto|tauto].
        -- transitivity (In z (sh_clients (w_sh w))); [destruct (s_shared iy); reflexivity|].
           destruct (Nat.eqb_spec x z) as [<-|Nz]; [rewrite RG, CLx; tauto|tauto].
      * unfold s'. destruct (s_live ix) eqn:E1, (s_live iy) eqn:E2; cbn [negb andb];
          try (rewrite (Lx eq_refl) in *); try (rewrite (Ly eq_refl) in *); destruct (s_shared ix), (s_shared iy); cbn in *; lia.
      * pose proof (wi_alive _ _ _ _ W) as AV.
        assert (A' : sh_alive s' = sh_alive (w_sh w)) by (unfold s'; destruct (s_live ix), (s_live iy), (s_shared ix), (s_shared iy); reflexivity).
        rewrite A'. destruct AV as [AV|AV]; [auto|]. destruct (s_shared iy) eqn:E2; [left; apply (alive_of _ _ _ _ _ _ W Hy E2)|]. right. cbn in CP. lia.
    + cbn [set_var with_vars with_sh w_sh]. destruct DD as (-> & _). intros z q. rewrite avar_aset. destruct (Nat.eqb x z); [|apply LT].
      destruct (nth_error (a_vars a) x); [|discriminate]. intros [= ->]. eauto.
    + cbn [set_var with_vars with_sh w_sh]. destruct DD as (-> & _). apply moved_aset; auto. intros q [= ->]. eauto.
  - (* destroy *)
    destruct (avar a x) as [px|] eqn:Ex; [|discriminate]. intros [= <- <-].
    destruct (rel_a _ _ _ _ _ _ W Ex) as (it & Hx & R). rewrite Hx. pose proof (proj1 (var_nth _ _ _) Hx) as Hn.
    pose proof (count_put _ _ _ None Hn) as CP. cbn [shares] in CP. pose proof (wi_ref _ _ _ _ W) as RF.
    assert (RL : registered it = true -> s_shared it = true).
    { destruct px; cbn in R; [subst it; auto|destruct R as (-> & _); auto|]. destruct R as (R1 & R2 & R3). unfold registered. rewrite R1. auto. }
    assert (FIN : forall s', same_data (w_sh w) s' -> winv strm (aset a x None) {| w_sh := s'; w_vars := put (w_vars w) x None |} base ->
       inv strm (aset a x None) {| w_sh := s'; w_vars := put (w_vars w) x None |}).
    { intros s' (D1 & _) W'. exists base. cbn [w_sh]. rewrite D1. split; [exact W'|]. split.
      - intros z q. rewrite avar_aset. destruct (Nat.eqb x z); [|apply LT]. destruct (nth_error (a_vars a) x); discriminate.
      - apply moved_aset; auto. discriminate. }
    destruct (s_shared it) eqn:Es.
    + rewrite (alive_of _ _ _ _ _ _ W Hx Es). cbn [negb]. eexists. split; [reflexivity|].
      match goal with |- inv _ _ (with_vars (with_sh _ ?s) _) => set (s' := s) end.
      assert (D : same_data (w_sh w) s') by (unfold s'; destruct (Nat.eqb _ 0); repeat split).
      assert (C' : sh_clients s' = remove_first x (sh_clients (w_sh w))) by (unfold s'; destruct (Nat.eqb _ 0); reflexivity).
      assert (R' : sh_ref s' = sh_ref (w_sh w) - 1) by (unfold s'; destruct (Nat.eqb _ 0); reflexivity).
      apply (FIN s' D). eapply upd_ok; eauto.
      * exact Logic.I.
      * rewrite C'. apply remove_first_nodup, W.
      * intros z. rewrite C', remove_first_in by apply W. destruct (Nat.eqb_spec x z) as [<-|Nz].
        -- split; [tauto|]. intros (jt & H & _). discriminate.
        -- split; [tauto|]. intros H. split; auto.
      * rewrite R'. cbn [b2n] in CP. lia.
      * unfold s'. cbn [erase with_sh w_sh set_clients sh_ref]. destruct (Nat.eqb_spec (sh_ref (w_sh w) - 1) 0) as [Z|Z].
        -- right. cbn [b2n] in CP. lia.
        -- left. cbn. apply (alive_of _ _ _ _ _ _ W Hx Es).
    + eexists. split; [reflexivity|]. unfold with_vars. cbn [b2n] in CP. apply FIN; [repeat split|]. eapply upd_ok; eauto.
      * exact Logic.I.
      * repeat split.
      * apply W.
      * intros z. destruct (Nat.eqb_spec x z) as [<-|Nz]; [|tauto]. split; [|intros (jt & H & _); discriminate].
        intros H. apply (wi_clients _ _ _ _ W) in H as (jt & Hj & Hr). rewrite Hx in Hj. injection Hj as <-. apply RL in Hr. congruence.
      * lia.
      * destruct (wi_alive _ _ _ _ W); [auto|right; lia].
  - (* dereference *)
    destruct (place_of strm a x) as [[|p|]|] eqn:Ep; try discriminate. destruct (nth_error strm p) as [c|] eqn:Ec; [|discriminate]. intros [= <- <-].
    destruct (check_ok _ _ _ _ _ I Ep) as (w1 & E1 & I1). rewrite E1. cbn [bind].
    pose proof I1 as (base1 & W1 & LT1 & MV1).
    assert (A1 : avar (aset a x (Some (AAt p))) x = Some (AAt p)).
    { rewrite avar_aset, Nat.eqb_refl. unfold place_of in Ep. destruct (avar a x) eqn:Ea; [|discriminate]. apply avar_nth in Ea. rewrite Ea. reflexivity. }
    destruct (rel_a _ _ _ _ _ _ W1 A1) as (it & Hv & (-> & R)). rewrite Hv. cbn [s_index].
    rewrite (char_at _ _ _ _ _ W1) by (split; [lia|eauto]). rewrite Ec. eauto.
  - (* advance *)
    destruct (place_of strm a x) as [[|p|]|] eqn:Ep; try discriminate. intros [= <- <-].
    destruct (check_ok _ _ _ _ _ I Ep) as (w1 & E1 & I1). rewrite E1. cbn [bind].
    assert (A1 : avar (aset a x (Some (AAt p))) x = Some (AAt p)).
    { rewrite avar_aset, Nat.eqb_refl. unfold place_of in Ep. destruct (avar a x) eqn:Ea; [|discriminate]. apply avar_nth in Ea. rewrite Ea. reflexivity. }
    destruct (inc_ok _ _ _ _ _ I1 A1) as (it & w2 & Hv & Hi & E2 & I2). rewrite Hv.
    destruct (s_index it) as [i|]; [|congruence]. rewrite E2. cbn [bind]. eexists. split; [reflexivity|].
    replace (put (a_vars a) x (Some (if S p <? length strm then AAt (S p) else AEnd)))
      with (put (a_vars (aset a x (Some (AAt p)))) x (Some (if S p <? length strm then AAt (S p) else AEnd))); [exact I2|].
    cbn [aset a_vars]. generalize (a_vars a). clear. intros l. revert x. induction l as [|u l IH]; intros [|x]; cbn; auto. rewrite IH. reflexivity.
  - (* compare *)
    destruct (avar a x) as [px|] eqn:Ex; [|destruct (avar a y) as [[| |]|]; discriminate]. destruct (avar a y) as [py|] eqn:Ey; [|destruct px; discriminate].
    intros H. assert (G : px <> AMaster /\ py <> AMaster /\ a' = a /\ b = OBool (place_eqb px py)).
    { destruct px, py; try discriminate; injection H as <- <-; repeat split; congruence. }
    clear H. destruct G as (Gx & Gy & -> & ->).
    destruct (rel_a _ _ _ _ _ _ W Ex) as (ix & Hx & Rx). destruct (rel_a _ _ _ _ _ _ W Ey) as (iy & Hy & Ry). rewrite Hx, Hy.
    eexists. split; [|exact I]. f_equal. f_equal. f_equal.
    destruct px as [|p|], py as [|q|]; try congruence; cbn in Rx, Ry.
    + destruct Rx as (-> & Rx), Ry as (-> & Ry). cbn. rewrite andb_true_r.
      destruct (Nat.eqb_spec (p - base) (q - base)), (Nat.eqb_spec p q); auto; lia.
    + destruct Rx as (-> & Rx), Ry as (R1 & -> & R3). reflexivity.
    + destruct Ry as (-> & Ry), Rx as (R1 & -> & R3). reflexivity.
    + destruct Rx as (R1 & -> & R3), Ry as (T1 & -> & T3). cbn. destruct (s_shared ix), (s_shared iy); reflexivity.
Qed.

Theorem run_ok strm l : forall a w r, inv strm a w -> arun strm a l = Some r -> run false w l = Ok r.
Proof.
  induction l as [|o l IH]; intros a w r I; cbn [arun run]; [intros [= <-]; auto|].
  destruct (aexec strm a o) as [[a1 b]|] eqn:Ea; [|discriminate].
  destruct (exec_ok _ _ _ _ _ _ I Ea) as (w1 & -> & I1). cbn [bind].
  destruct (arun strm a1 l) as [r1|] eqn:Er; [|discriminate]. intros [= <-]. rewrite (IH _ _ _ I1 Er). reflexivity.
Qed.

Lemma start_ok strm size incr : 1 <= size -> 1 <= incr ->
  exists w, start strm size incr = Ok w /\ inv strm ideal_start w.
Proof.
  intros Hs Hi. unfold start. rewrite (proj2 (Nat.eqb_neq size 0)) by lia. eexists. split; [reflexivity|].
  assert (LG : length (firstn size strm) = Nat.min size (length strm)) by apply firstn_length.
  assert (LB : length (read_at (repeat 0%N size) 0 (firstn size strm)) = size) by (rewrite read_at_length; rewrite repeat_length; lia).
  exists 0. cbn [w_sh sh_len a_moved ideal_start]. split; [|split].
  - constructor; cbn [w_sh w_vars sh_len sh_buf sh_rest sh_incr sh_clients sh_alive sh_ref a_vars ideal_start]; auto; try lia.
    + cbn [skipn]. unfold read_at. cbn [firstn app]. rewrite firstn_app_full by auto.
      rewrite LG. destruct (Nat.min_spec size (length strm)) as [(_ & ->)|(H & ->)]; auto. rewrite firstn_all. apply firstn_all2. auto.
    + rewrite LG. cbn [plus]. destruct (Nat.min_spec size (length strm)) as [(_ & ->)|(H & ->)]; auto. rewrite !skipn_all2; auto.
    + rewrite LB. intros H. apply skipn_all2. lia.
    + intros [|x] v p; cbn; [intros [= <-] [= <-]; reflexivity|destruct x; discriminate].
    + repeat constructor; cbn; tauto.
    + intros x. unfold var. cbn. split.
      * intros [<-|[]]. eexists. split; reflexivity.
      * destruct x as [|[|x]]; cbn; auto; intros (it & H & _); discriminate.
  - intros [|[|x]] p H; discriminate.
  - intros _. split; auto. split; [intros [|[|x]] p H; discriminate|]. intros Hn. rewrite LG. destruct strm; [congruence|]. cbn. lia.
Qed.

Theorem session_ok strm size incr l r : 1 <= size -> 1 <= incr -> arun strm ideal_start l = Some r ->
  session false strm size incr l = Ok r.
Proof.
  intros Hs Hi H. destruct (start_ok strm size incr Hs Hi) as (w & E & I). unfold session. rewrite E. cbn [bind]. eapply run_ok; eauto.
Qed.

(** ** memcpy *)
Lemma reload_strict w : reload true w = reload false w \/ reload true w = UB.
Proof.
  unfold reload. destruct (lowest w) as [lo| | |]; cbn [bind]; auto. destruct (Nat.eqb lo 0); auto. destruct (Nat.ltb _ lo); auto.
  destruct (Nat.ltb lo _); cbn [andb]; auto.
Qed.
Lemma exec_strict w o : exec true w o = exec false w o \/ exec true w o = UB.
Proof.
  destruct o; auto. cbn [exec]. destruct (check_master w x) as [w1| | |]; cbn [bind]; auto.
  destruct (var w1 x) as [it|]; auto. unfold update_state.
  destruct (var _ x) as [jt|]; auto. destruct (match s_index jt with None => true | Some i => Nat.leb _ i end); auto.
  match goal with |- context [reload true ?w] => destruct (reload_strict w) as [->| ->] end; auto.
Qed.
Lemma run_strict l : forall w, run true w l = run false w l \/ run true w l = UB.
Proof.
  induction l as [|o l IH]; intros w; cbn [run]; auto. destruct (exec_strict w o) as [->| ->]; auto.
  destruct (exec false w o) as [[w1 b]| | |]; cbn [bind]; auto. destruct (IH w1) as [->| ->]; auto.
Qed.
Theorem session_strict strm size incr l : session true strm size incr l = session false strm size incr l \/ session true strm size incr l = UB.
Proof. unfold session. destruct (start strm size incr); cbn [bind]; auto. apply run_strict. Qed.
