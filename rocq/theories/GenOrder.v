(** The order in which the positions of a state enter the next one, and the
    greediness of a transition. *)
From Verif Require Import Base StringToken StateMachine Tree Partition PartitionProofs Generator GenDfa.

(** ** Vectors *)
Lemma add_follow_mem v p : In p v -> add_follow v p = v.
Proof.
  intros H. unfold add_follow. destruct (existsb (Nat.eqb p) v) eqn:E; [auto|]. exfalso.
  rewrite <- not_true_iff_false in E. apply E. apply existsb_exists. exists p. split; [auto|apply Nat.eqb_refl].
Qed.
Lemma add_follow_new v p : ~ In p v -> add_follow v p = v ++ [p].
Proof.
  intros H. unfold add_follow. destruct (existsb (Nat.eqb p) v) eqn:E; [|auto]. exfalso.
  apply existsb_exists in E as (y & Hy & Ey). apply Nat.eqb_eq in Ey. now subst.
Qed.
Lemma vec_add v p : vec (add_follow v p) = add_follow (vec v) p.
Proof.
  destruct (in_dec Nat.eq_dec p v) as [H|H].
  - rewrite (add_follow_mem v) by auto. now rewrite add_follow_mem by (now apply vec_In).
  - rewrite (add_follow_new v) by auto. unfold vec. now rewrite fold_left_app.
Qed.
Lemma vec_adds f : forall v, vec (fold_left add_follow f v) = fold_left add_follow f (vec v).
Proof. induction f as [|p f IH]; intros v; cbn [fold_left]; [auto|]. now rewrite IH, vec_add. Qed.
Lemma filter_add P v p : filter P (add_follow v p) = if P p then add_follow (filter P v) p else filter P v.
Proof.
  destruct (in_dec Nat.eq_dec p v) as [H|H].
  - rewrite (add_follow_mem v) by auto. destruct (P p) eqn:E; [|auto]. rewrite add_follow_mem; [auto|].
    apply filter_In. auto.
  - rewrite (add_follow_new v) by auto. rewrite filter_app. cbn. destruct (P p) eqn:E; [|apply app_nil_r].
    rewrite add_follow_new; [auto|]. rewrite filter_In. tauto.
Qed.
Lemma filter_adds P f : forall v, filter P (fold_left add_follow f v) = fold_left add_follow (filter P f) (filter P v).
Proof.
  induction f as [|p f IH]; intros v; cbn; [auto|]. rewrite IH, filter_add. destruct (P p); reflexivity.
Qed.
Lemma adds_mem f : forall v, incl f v -> fold_left add_follow f v = v.
Proof.
  induction f as [|p f IH]; intros v H; cbn; [auto|].
  rewrite add_follow_mem by (apply H; now left). apply IH. intros x Hx. apply H. now right.
Qed.
(** What is appended. *)
Lemma adds_app f : forall v, exists x, fold_left add_follow f v = v ++ x /\
  forall y, In y x -> In y f /\ ~ In y v.
Proof.
  induction f as [|p f IH]; intros v; cbn [fold_left]; [exists []; split; [now rewrite app_nil_r|intros x []]|].
  destruct (IH (add_follow v p)) as (x & E & H). destruct (in_dec Nat.eq_dec p v) as [Hp|Hp].
  - rewrite add_follow_mem in * by auto. exists x. split; [auto|]. intros y Hy. destruct (H y Hy). split; [now right|auto].
  - rewrite (add_follow_new v p) in * by auto. exists (p :: x). split; [now rewrite E, <- app_assoc|].
    intros y [<-|Hy]; [split; [now left|auto]|]. destruct (H y Hy) as [H1 H2]. split; [now right|].
    intros Hv. apply H2. apply in_or_app. auto.
Qed.
Lemma adds_nodup f : forall v, NoDup f -> (forall x, In x f -> ~ In x v) -> fold_left add_follow f v = v ++ f.
Proof.
  induction f as [|p f IH]; intros v ND H; cbn; [now rewrite app_nil_r|]. inversion ND as [|? ? H1 H2]; subst.
  rewrite add_follow_new by (apply H; now left). rewrite IH; auto.
  - now rewrite <- app_assoc.
  - intros x Hx Hi. apply in_app_or in Hi as [Hi|[<-|[]]]; [|auto]. apply (H x); [now right|auto].
Qed.

Section Order.
  Variables (k : gcfg) (s : store) (sm : list (list N)).

  (** What the positions of [v] that read column [c] contribute, in order. *)
  Fixpoint covers (v : list nat) (c : N) : list (greedy * list nat) :=
    match v with
    | [] => []
    | p :: v' =>
      match nth_error s p with
      | Some (PLeaf t g f) => if inb c (cset k sm t) then (g, f) :: covers v' c else covers v' c
      | _ => covers v' c
      end
    end.
  Lemma covers_fold v c : forall acc,
    fold_left (fun acc x => if eq_pin x c then add eq_comb acc (eq_pay x) else acc) (equivs k s sm v) acc =
    fold_left (add eq_comb) (covers v c) acc.
  Proof.
    induction v as [|p v IH]; intros acc; [auto|]. cbn [equivs covers].
    destruct (nth_error s p) as [[t g f|e]|]; auto. cbn [fold_left].
    unfold eq_pin at 2, eq_pay at 2. cbn [q_index q_greedy q_follow].
    destruct (inb c (cset k sm t)); cbn [fold_left]; apply IH.
  Qed.
  Lemma add_some l : forall x, fold_left (add eq_comb) l (Some x) = Some (fold_left eq_comb l x).
  Proof. induction l as [|y l IH]; intros x; cbn; [auto|]. apply IH. Qed.
  Theorem tval_covers v c : tval k s sm v c =
    match covers v c with [] => None | x :: l => Some (fold_left eq_comb l x) end.
  Proof.
    unfold tval, eq_value, value. rewrite covers_fold. destruct (covers v c) as [|x l]; [reflexivity|].
    cbn [fold_left add]. apply add_some.
  Qed.

  Definition follows (l : list (greedy * list nat)) (v : list nat) : list nat :=
    fold_left (fun v x => fold_left add_follow (snd x) v) l v.
  Lemma comb_follow l : forall x, snd (fold_left eq_comb l x) = follows l (snd x).
  Proof. induction l as [|y l IH]; intros x; cbn; [auto|]. rewrite IH. reflexivity. Qed.
  Lemma vec_follows l : forall v, vec (follows l v) = follows l (vec v).
  Proof.
    unfold follows. induction l as [|y l IH]; intros v; cbn [fold_left]; [auto|]. now rewrite IH, vec_adds.
  Qed.
  (** The vector of the next state. *)
  Theorem tval_vec v c g f : tval k s sm v c = Some (g, f) -> vec f = follows (covers v c) [].
  Proof.
    rewrite tval_covers. destruct (covers v c) as [|x l]; [discriminate|]. intros H. injection H as H.
    apply (f_equal snd) in H. cbn [snd] in H. rewrite <- H, comb_follow, vec_follows. reflexivity.
  Qed.

  (** Only the part of one rule. *)
  Variable P : nat -> bool.
  Lemma covers_filter v c : (forall p t g f, In p v -> nth_error s p = Some (PLeaf t g f) ->
      forall q, In q f -> P q = P p) ->
    forall a, filter P (follows (covers v c) a) = follows (covers (filter P v) c) (filter P a).
  Proof.
    induction v as [|p v IH]; intros H a; [auto|].
    assert (Hv : forall p t g f, In p v -> nth_error s p = Some (PLeaf t g f) -> forall q, In q f -> P q = P p).
    { intros q t g f Hq. apply H. now right. }
    cbn [covers filter]. destruct (nth_error s p) as [[t g f|e]|] eqn:E.
    - specialize (H p t g f (or_introl eq_refl) E). destruct (inb c (cset k sm t)) eqn:Ei.
      + cbn [follows fold_left snd]. change (fold_left ?x (covers v c) ?y) with (follows (covers v c) y).
        rewrite IH by auto. rewrite filter_adds. destruct (P p) eqn:Ep; cbn [covers].
        * rewrite E, Ei. assert (X : filter P f = f).
          { clear - H. induction f as [|x f IH]; [auto|]. cbn. rewrite H by (now left). f_equal. apply IH.
            intros y Hy. apply H. now right. }
          rewrite X. reflexivity.
        * assert (X : filter P f = []).
          { clear - H. induction f as [|x f IH]; [auto|]. cbn. rewrite H by (now left). apply IH. intros y Hy. apply H. now right. }
          now rewrite X.
      + rewrite IH by auto. destruct (P p); cbn [covers]; [rewrite E, Ei|]; reflexivity.
    - rewrite IH by auto. destruct (P p); cbn [covers]; [rewrite E|]; reflexivity.
    - rewrite IH by auto. destruct (P p); cbn [covers]; [rewrite E|]; reflexivity.
  Qed.
  Lemma covers_only v c : (forall p, In p v -> rd k s sm p c -> P p = true) -> covers v c = covers (filter P v) c.
  Proof.
    induction v as [|p v IH]; intros H; [auto|]. cbn [covers filter].
    assert (Hv : forall p, In p v -> rd k s sm p c -> P p = true) by (intros q Hq; apply H; now right).
    destruct (nth_error s p) as [[t g f|e]|] eqn:E.
    - destruct (inb c (cset k sm t)) eqn:Ei.
      + assert (X : P p = true) by (apply H; [now left|]; exists t, g, f; split; [auto|now apply inb_In]).
        rewrite X. cbn [covers]. rewrite E, Ei.
        f_equal. auto.
      + rewrite IH by auto. destruct (P p); cbn [covers]; [rewrite E, Ei|]; reflexivity.
    - rewrite IH by auto. destruct (P p); cbn [covers]; [rewrite E|]; reflexivity.
    - rewrite IH by auto. destruct (P p); cbn [covers]; [rewrite E|]; reflexivity.
  Qed.
  Lemma covers_app u v c : covers (u ++ v) c = covers u c ++ covers v c.
  Proof.
    induction u as [|p u IH]; [auto|]. cbn [covers app]. destruct (nth_error s p) as [[t g f|e]|]; auto.
    destruct (inb c (cset k sm t)); rewrite IH; auto.
  Qed.
  Lemma covers_In v c g f : In (g, f) (covers v c) -> exists p t, In p v /\ nth_error s p = Some (PLeaf t g f) /\
    In c (cset k sm t).
  Proof.
    induction v as [|p v IH]; [intros []|]. cbn [covers].
    assert (X : In (g, f) (covers v c) -> exists p' t, In p' (p :: v) /\ nth_error s p' = Some (PLeaf t g f) /\
      In c (cset k sm t)).
    { intros H. destruct (IH H) as (q & t & Hq & H'). exists q, t. split; [now right|auto]. }
    destruct (nth_error s p) as [[t g' f'|e]|] eqn:E; auto. destruct (inb c (cset k sm t)) eqn:Ei; auto.
    intros [[= -> ->]|H]; [|auto]. exists p, t. split; [now left|]. split; [auto|now apply inb_In].
  Qed.
  Lemma covers_rd v c p : In p v -> rd k s sm p c -> covers v c <> [].
  Proof.
    intros Hp (t & g & f & E & Hc). apply in_split in Hp as (u & w & ->). rewrite covers_app. cbn [covers]. rewrite E.
    apply inb_In in Hc. rewrite Hc. destruct (covers u c); discriminate.
  Qed.
  (** The greediness. *)
  Lemma comb_greedy l : forall x, fst x = GNo -> Forall (fun y => fst y <> GHard) l -> fst (fold_left eq_comb l x) = GNo.
  Proof.
    induction l as [|y l IH]; intros x Hx H; cbn; [auto|]. inversion H as [|? ? H1 H2]; subst. apply IH; auto.
    cbn. rewrite Hx. destruct (fst y); cbn; congruence.
  Qed.
End Order.
