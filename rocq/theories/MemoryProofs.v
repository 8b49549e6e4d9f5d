(* Proofs about the model of memory_file.hpp. *)
From Verif Require Import Base MemoryFile MemorySpec.

Lemma find_page_app p l m :
  find_page p (l ++ m) = match find_page p l with Some x => Some x | None => find_page p m end.
Proof. induction l as [|[q b] l IH]; simpl; auto. destruct (Nat.eqb q p); auto. Qed.

Lemma find_page_filter (f : nat -> bool) p l :
  find_page p (filter (fun x => f (fst x)) l) = if f p then find_page p l else None.
Proof.
  induction l as [|[q b] l IH]; simpl.
  - destruct (f p); auto.
  - destruct (f q) eqn:E; simpl.
    + destruct (Nat.eqb_spec q p); [subst; rewrite E; auto|auto].
    + rewrite IH. destruct (Nat.eqb_spec q p); [subst; rewrite E; auto|auto].
Qed.

Lemma find_page_in p l b : find_page p l = Some b -> In p (map fst l).
Proof.
  induction l as [|[q c] l IH]; simpl; try discriminate.
  destruct (Nat.eqb_spec q p); auto.
Qed.

Lemma find_page_seq (f : nat -> list N) a : forall n s i, s <= i < s + n ->
  find_page (a + i) (map (fun i => (a + i, f i)) (seq s n)) = Some (f i).
Proof.
  induction n as [|n IH]; intros s i H; simpl; [lia|].
  destruct (Nat.eqb_spec (a + s) (a + i)) as [E|E].
  - replace i with s by lia; auto.
  - apply IH; lia.
Qed.

Lemma keys_seq (f : nat -> list N) a p : forall n s,
  In p (map fst (map (fun i => (a + i, f i)) (seq s n))) -> exists i, s <= i < s + n /\ p = a + i.
Proof.
  intros n s H. rewrite map_map in H. apply in_map_iff in H. destruct H as (i & H1 & H2).
  simpl in H1. apply in_seq in H2. exists i; split; [lia|auto].
Qed.

Lemma keys_filter (f : nat -> bool) p (l : list (nat * list N)) :
  In p (map fst (filter (fun x => f (fst x)) l)) <-> f p = true /\ In p (map fst l).
Proof.
  rewrite !in_map_iff. split.
  - intros ([q b] & <- & H). apply filter_In in H. simpl in *. split; [tauto|]. exists (q, b); tauto.
  - intros (H & [q b] & <- & K). exists (q, b). split; auto. apply filter_In; auto.
Qed.

Lemma pages_mono o m n : m <= n -> pages o m <= pages o n.
Proof.
  unfold pages. intros H. destruct (os_page o) eqn:E; [simpl; auto|].
  apply Nat.div_le_mono; lia.
Qed.

Lemma pages_cover o n i : 0 < os_page o -> i < n -> i / os_page o < pages o n.
Proof.
  unfold pages. intros P H.
  pose proof (Nat.div_mod i (os_page o)) as E1.
  pose proof (Nat.mod_upper_bound i (os_page o)) as E2.
  apply Nat.lt_le_trans with (S (i / os_page o)); [lia|].
  apply Nat.div_le_lower_bound; [lia|].
  set (q := i / os_page o) in *. set (r := i mod os_page o) in *. nia.
Qed.

Lemma nth_error_skip {A} : forall i (l : list A) j, nth_error (skipn i l) j = nth_error l (i + j).
Proof.
  induction i as [|i IH]; intros [|x l] j; simpl; auto.
  - destruct j; auto.
Qed.

Lemma nth_error_first {A} : forall n (l : list A) j, j < n -> nth_error (firstn n l) j = nth_error l j.
Proof.
  induction n as [|n IH]; intros [|x l] [|j] H; simpl; auto; try lia. apply IH; lia.
Qed.

Lemma page_bytes_nth o bs i : 0 < os_page o -> i < length bs ->
  nth_error (page_bytes o bs (i / os_page o)) (i mod os_page o) = nth_error bs i.
Proof.
  intros P H. unfold page_bytes.
  pose proof (Nat.mod_upper_bound i (os_page o)).
  pose proof (Nat.div_mod i (os_page o)).
  rewrite nth_error_first by lia.
  rewrite nth_error_app1; [rewrite nth_error_skip; f_equal; lia|].
  rewrite skipn_length. lia.
Qed.

Definition cur_of (cur : nat -> option (list N)) (x : nat) (e : option (list N)) :=
  fun y => if Nat.eqb y x then e else cur y.

(* the page range an object owns *)
Definition owns o (m : mfile) (e : option (list N)) (p : nat) : Prop :=
  exists a bs i, mf_data m = Some a /\ e = Some bs /\ i < pages o (length bs) /\ p = a + i.

Record inv (o : os) (sz : nat) (w0 w : world) (ob : objects) (cur : nat -> option (list N))
    (L : list nat) (M : list (nat * list N)) : Prop := {
  v_fds : w_fds w = L ++ w_fds w0;
  v_fd_new : forall d, In d L -> ~ In d (w_fds w0);
  v_fd : forall x d, mf_fh (ob x) = Z.of_nat d -> 0 < d -> In d L;
  v_fd_one : forall x y d, mf_fh (ob x) = Z.of_nat d -> mf_fh (ob y) = Z.of_nat d -> 0 < d -> x = y;
  v_mem : w_mem w = M ++ w_mem w0;
  v_new : forall p, In p (map fst M) -> ~ In p (map fst (w_mem w0));
  v_none : forall x, cur x = None -> mf_data (ob x) = None /\ mf_size (ob x) = 0;
  v_some : forall x bs, cur x = Some bs -> exists a, mf_data (ob x) = Some a /\ 0 < a /\
             mf_size (ob x) = length bs / sz /\
             forall i, i < pages o (length bs) -> find_page (a + i) M = Some (page_bytes o bs i);
  v_apart : forall x y p, owns o (ob x) (cur x) p -> owns o (ob y) (cur y) p -> x = y }.

(* nothing is lost: what was taken belongs to an object that shows something *)
Record kept (o : os) (ob : objects) (cur : nat -> option (list N))
    (L : list nat) (M : list (nat * list N)) : Prop := {
  k_fd : forall d, In d L -> 0 < d /\ exists x, mf_fh (ob x) = Z.of_nat d;
  k_none : forall x, cur x = None -> (mf_fh (ob x) <= 0)%Z;
  k_page : forall p, In p (map fst M) -> exists x, owns o (ob x) (cur x) p }.

Lemma set_same ob x m : set_obj ob x m x = m.
Proof. unfold set_obj; rewrite Nat.eqb_refl; auto. Qed.
Lemma set_other ob x m y : y <> x -> set_obj ob x m y = ob y.
Proof. unfold set_obj; intros; destruct (Nat.eqb_spec y x); tauto. Qed.
Lemma cur_same c x e : cur_of c x e x = e.
Proof. unfold cur_of; rewrite Nat.eqb_refl; auto. Qed.
Lemma cur_other c x e y : y <> x -> cur_of c x e y = c y.
Proof. unfold cur_of; intros; destruct (Nat.eqb_spec y x); tauto. Qed.

Definition drop_pages (o : os) (m : mfile) (M : list (nat * list N)) :=
  match mf_data m with
  | None => M
  | Some a => if Nat.eqb (mf_size m) 0 then M
              else filter (fun p => negb (Nat.leb a (fst p) && Nat.ltb (fst p) (a + pages o (mf_size m)))) M
  end.

Definition drop_fd (m : mfile) (L : list nat) :=
  if (mf_fh m <=? 0)%Z then L else filter (fun d => negb (Nat.eqb d (Z.to_nat (mf_fh m)))) L.

Lemma filter_all {A} (f : A -> bool) l : (forall x, In x l -> f x = true) -> filter f l = l.
Proof.
  induction l as [|x l IH]; simpl; auto. intros H. rewrite H by auto. f_equal; auto.
Qed.

Lemma close_step o sz w0 w ob cur L M x :
  0 < sz ->
  inv o sz w0 w ob cur L M ->
  let y := mf_close o w (ob x) in
  inv o sz w0 (fst y) (set_obj ob x (snd y)) (cur_of cur x None) (drop_fd (ob x) L) (drop_pages o (ob x) M).
Proof.
  intros Hsz I y. subst y.
  assert (OWN : forall y p, owns o (set_obj ob x (snd (mf_close o w (ob x))) y) (cur_of cur x None y) p ->
                  y <> x /\ owns o (ob y) (cur y) p).
  { intros y p (a & bs & i & H1 & H2 & H3). destruct (Nat.eq_dec y x) as [->|N].
    - rewrite cur_same in H2; discriminate.
    - rewrite set_other in H1 by auto. rewrite cur_other in H2 by auto. split; auto. exists a, bs, i; tauto. }
  assert (DATA : forall a, mf_data (ob x) = Some a -> exists bs, cur x = Some bs).
  { intros a H. destruct (cur x) eqn:E; eauto. destruct (v_none _ _ _ _ _ _ _ _ I x E); congruence. }
  assert (FD : forall y d, mf_fh (set_obj ob x (snd (mf_close o w (ob x))) y) = Z.of_nat d -> 0 < d ->
                 y <> x /\ mf_fh (ob y) = Z.of_nat d).
  { intros y d H H0. destruct (Nat.eq_dec y x) as [->|N].
    - rewrite set_same in H. unfold mf_close in H. simpl in H. lia.
    - rewrite set_other in H by auto. auto. }
  constructor.
  - unfold mf_close; simpl.
    assert (E : w_fds (match mf_data (ob x) with Some a => sys_munmap o w a (mf_size (ob x)) | None => w end) = w_fds w).
    { destruct (mf_data (ob x)); auto. unfold sys_munmap. destruct (Nat.eqb _ 0); auto. }
    unfold drop_fd. destruct (Z.eqb_spec (mf_fh (ob x)) 0) as [Z0|Z0].
    + rewrite E, Z0. simpl. apply (v_fds _ _ _ _ _ _ _ _ I).
    + unfold sys_close. destruct (Z.ltb_spec (mf_fh (ob x)) 0) as [N|N].
      * rewrite E. replace (mf_fh (ob x) <=? 0)%Z with true by lia. apply (v_fds _ _ _ _ _ _ _ _ I).
      * simpl. rewrite E. replace (mf_fh (ob x) <=? 0)%Z with false by lia.
        rewrite (v_fds _ _ _ _ _ _ _ _ I), filter_app. f_equal.
        apply filter_all. intros d Hd. destruct (Nat.eqb_spec d (Z.to_nat (mf_fh (ob x)))); auto.
        exfalso. apply (v_fd_new _ _ _ _ _ _ _ _ I d); auto.
        apply (v_fd _ _ _ _ _ _ _ _ I x); lia.
  - intros d H. apply (v_fd_new _ _ _ _ _ _ _ _ I). unfold drop_fd in H.
    destruct (mf_fh (ob x) <=? 0)%Z; auto. apply filter_In in H. tauto.
  - intros y d H H0. destruct (FD y d H H0) as [N H1].
    unfold drop_fd. destruct (Z.leb_spec (mf_fh (ob x)) 0); [apply (v_fd _ _ _ _ _ _ _ _ I y); auto|].
    apply filter_In. split; [apply (v_fd _ _ _ _ _ _ _ _ I y); auto|].
    destruct (Nat.eqb_spec d (Z.to_nat (mf_fh (ob x)))); auto.
    exfalso. apply N. apply (v_fd_one _ _ _ _ _ _ _ _ I y x d); auto. lia.
  - intros y z d H H0 H1. destruct (FD y d H H1) as [_ A]. destruct (FD z d H0 H1) as [_ B].
    apply (v_fd_one _ _ _ _ _ _ _ _ I y z d); auto.
  - unfold mf_close; simpl.
    assert (E : w_mem (match mf_data (ob x) with Some a => sys_munmap o w a (mf_size (ob x)) | None => w end)
                = drop_pages o (ob x) M ++ w_mem w0).
    { unfold drop_pages. destruct (mf_data (ob x)) as [a|] eqn:D; [|apply (v_mem _ _ _ _ _ _ _ _ I)].
      unfold sys_munmap. destruct (Nat.eqb_spec (mf_size (ob x)) 0); [apply (v_mem _ _ _ _ _ _ _ _ I)|].
      simpl. rewrite (v_mem _ _ _ _ _ _ _ _ I), filter_app. f_equal. apply filter_all. intros [p b] Hp. simpl.
      destruct (DATA a eq_refl) as [bs C]. destruct (v_some _ _ _ _ _ _ _ _ I x bs C) as (a' & A1 & A2 & A3 & A4).
      rewrite D in A1; injection A1 as <-.
      destruct (Nat.leb_spec a p); auto. simpl. destruct (Nat.ltb_spec p (a + pages o (mf_size (ob x)))); auto.
      exfalso. apply (v_new _ _ _ _ _ _ _ _ I p).
      - apply find_page_in with (page_bytes o bs (p - a)). replace p with (a + (p - a)) at 1 by lia. apply A4.
        apply Nat.lt_le_trans with (pages o (mf_size (ob x))); [lia|]. apply pages_mono. rewrite A3.
        apply Nat.div_le_upper_bound; [lia|]. nia.
      - apply in_map_iff. exists (p, b); auto. }
    destruct (mf_fh (ob x) =? 0)%Z; auto. unfold sys_close. destruct (mf_fh (ob x) <? 0)%Z; auto.
  - intros p H. apply (v_new _ _ _ _ _ _ _ _ I). unfold drop_pages in H.
    destruct (mf_data (ob x)); auto. destruct (Nat.eqb _ 0); auto.
    apply (keys_filter (fun p => negb (Nat.leb n p && Nat.ltb p (n + pages o (mf_size (ob x)))))) in H. tauto.
  - intros y H. destruct (Nat.eq_dec y x) as [->|N].
    + rewrite set_same. unfold mf_close; simpl. split; auto. destruct (mf_data (ob x)) eqn:D; auto.
      destruct (cur x) eqn:C; [|apply (v_none _ _ _ _ _ _ _ _ I x C)].
      destruct (v_some _ _ _ _ _ _ _ _ I x l C) as (a & A & _). congruence.
    + rewrite set_other by auto. rewrite cur_other in H by auto. apply (v_none _ _ _ _ _ _ _ _ I); auto.
  - intros y bs H. destruct (Nat.eq_dec y x) as [->|N]; [rewrite cur_same in H; discriminate|].
    rewrite set_other by auto. rewrite cur_other in H by auto.
    destruct (v_some _ _ _ _ _ _ _ _ I y bs H) as (a & A1 & A2 & A3 & A4).
    exists a. repeat (split; auto). intros i Hi. unfold drop_pages.
    destruct (mf_data (ob x)) as [b|] eqn:D; [|auto]. destruct (Nat.eqb_spec (mf_size (ob x)) 0); [auto|].
    rewrite (find_page_filter (fun p => negb (Nat.leb b p && Nat.ltb p (b + pages o (mf_size (ob x)))))).
    destruct (Nat.leb_spec b (a + i)); simpl; auto.
    destruct (Nat.ltb_spec (a + i) (b + pages o (mf_size (ob x)))); simpl; auto.
    exfalso. apply N. apply (v_apart _ _ _ _ _ _ _ _ I y x (a + i)).
    + exists a, bs, i; auto.
    + destruct (DATA b eq_refl) as [cs C]. destruct (v_some _ _ _ _ _ _ _ _ I x cs C) as (b' & B1 & B2 & B3 & B4).
      rewrite D in B1; injection B1 as <-. exists b, cs, (a + i - b). repeat (split; auto); [|lia].
      apply Nat.lt_le_trans with (pages o (mf_size (ob x))); [lia|]. apply pages_mono. rewrite B3.
      apply Nat.div_le_upper_bound; [lia|]. nia.
  - intros y z p H H0. destruct (OWN y p H) as [_ A]. destruct (OWN z p H0) as [_ B].
    apply (v_apart _ _ _ _ _ _ _ _ I y z p); auto.
Qed.

Lemma owns_eq o m e p a bs : owns o m e p -> mf_data m = Some a -> e = Some bs ->
  exists i, i < pages o (length bs) /\ p = a + i.
Proof. intros (a' & bs' & i & H1 & H2 & H3 & H4) A B. exists i. split; congruence. Qed.

(* open() on an object that shows nothing: the three ways it can go *)
Lemma open_none o sz r w m : mf_data m = None ->
  (re_open r = false /\ mf_open o sz r w m = (w, {| mf_data := None; mf_size := mf_size m; mf_fh := (-1)%Z |}))
  \/ (re_open r = true /\ offered r = None /\
      mf_open o sz r w m =
      ({| w_fds := os_fd o (w_fds w) :: w_fds w; w_mem := w_mem w |},
       {| mf_data := None; mf_size := mf_size m; mf_fh := Z.of_nat (os_fd o (w_fds w)) |}))
  \/ (offered r = Some (re_bytes r) /\
      let n := pages o (length (re_bytes r)) in
      let a := os_place o (map fst (w_mem w)) n in
      mf_open o sz r w m =
      ({| w_fds := os_fd o (w_fds w) :: w_fds w;
          w_mem := map (fun i => (a + i, page_bytes o (re_bytes r) i)) (seq 0 n) ++ w_mem w |},
       {| mf_data := Some a; mf_size := length (re_bytes r) / sz;
          mf_fh := Z.of_nat (os_fd o (w_fds w)) |})).
Proof.
  intros D. unfold mf_open. rewrite D. unfold sys_open, offered. destruct (re_open r) eqn:O; simpl.
  2: { left. rewrite D. auto. }
  replace (-1 <? Z.of_nat (os_fd o (w_fds w)))%Z with true by lia.
  destruct (re_stat r) eqn:S; simpl.
  2: { right; left. rewrite D. destruct (re_bytes r); auto. }
  unfold sys_mmap. simpl. destruct (re_map r) eqn:Mp; simpl.
  2: { right; left. destruct (re_bytes r); auto. }
  destruct (re_bytes r) eqn:B; simpl; [right; left; auto|].
  right; right. split; auto.
Qed.

Lemma open_fd_step o sz w0 w ob cur L M x d sz' :
  inv o sz w0 w ob cur L M -> cur x = None -> sz' = mf_size (ob x) -> ~ In d (w_fds w) ->
  inv o sz w0 {| w_fds := d :: w_fds w; w_mem := w_mem w |}
    (set_obj ob x {| mf_data := None; mf_size := sz'; mf_fh := Z.of_nat d |})
    (cur_of cur x None) (d :: L) M.
Proof.
  intros I C -> Hd. destruct (v_none _ _ _ _ _ _ _ _ I x C) as [D S].
  assert (FRESH : ~ In d L /\ ~ In d (w_fds w0)).
  { rewrite (v_fds _ _ _ _ _ _ _ _ I), in_app_iff in Hd. tauto. }
  constructor; simpl.
  - f_equal. apply (v_fds _ _ _ _ _ _ _ _ I).
  - intros e [<-|H]; [tauto|]. apply (v_fd_new _ _ _ _ _ _ _ _ I); auto.
  - intros y e H H0. destruct (Nat.eq_dec y x) as [->|N].
    + rewrite set_same in H. simpl in H. left; lia.
    + rewrite set_other in H by auto. right. apply (v_fd _ _ _ _ _ _ _ _ I y); auto.
  - intros y z e H H0 H1.
    destruct (Nat.eq_dec y x) as [->|N]; destruct (Nat.eq_dec z x) as [->|K]; auto.
    + rewrite set_same in H. rewrite set_other in H0 by auto. simpl in H.
      exfalso. apply (proj1 FRESH). apply (v_fd _ _ _ _ _ _ _ _ I z); [lia|lia].
    + rewrite set_same in H0. rewrite set_other in H by auto. simpl in H0.
      exfalso. apply (proj1 FRESH). apply (v_fd _ _ _ _ _ _ _ _ I y); [lia|lia].
    + rewrite set_other in H, H0 by auto. apply (v_fd_one _ _ _ _ _ _ _ _ I y z e); auto.
  - apply (v_mem _ _ _ _ _ _ _ _ I).
  - apply (v_new _ _ _ _ _ _ _ _ I).
  - intros y H. destruct (Nat.eq_dec y x) as [->|N]; [rewrite set_same; auto|].
    rewrite set_other by auto. rewrite cur_other in H by auto. apply (v_none _ _ _ _ _ _ _ _ I); auto.
  - intros y bs H. destruct (Nat.eq_dec y x) as [->|N]; [rewrite cur_same in H; discriminate|].
    rewrite set_other by auto. rewrite cur_other in H by auto. apply (v_some _ _ _ _ _ _ _ _ I); auto.
  - intros y z p (a & bs & i & H1 & H2 & H3) (b & cs & j & K1 & K2 & K3).
    destruct (Nat.eq_dec y x) as [->|N]; [rewrite cur_same in H2; discriminate|].
    destruct (Nat.eq_dec z x) as [->|N']; [rewrite cur_same in K2; discriminate|].
    rewrite set_other in H1, K1 by auto. rewrite cur_other in H2, K2 by auto.
    apply (v_apart _ _ _ _ _ _ _ _ I y z p); [exists a, bs, i|exists b, cs, j]; auto.
Qed.

Lemma open_fail_step o sz w0 w ob cur L M x :
  inv o sz w0 w ob cur L M -> cur x = None ->
  inv o sz w0 w (set_obj ob x {| mf_data := None; mf_size := mf_size (ob x); mf_fh := (-1)%Z |})
    (cur_of cur x None) L M.
Proof.
  intros I C. destruct (v_none _ _ _ _ _ _ _ _ I x C) as [D S].
  constructor; simpl.
  - apply (v_fds _ _ _ _ _ _ _ _ I).
  - apply (v_fd_new _ _ _ _ _ _ _ _ I).
  - intros y e H H0. destruct (Nat.eq_dec y x) as [->|N].
    + rewrite set_same in H. simpl in H. lia.
    + rewrite set_other in H by auto. apply (v_fd _ _ _ _ _ _ _ _ I y); auto.
  - intros y z e H H0 H1.
    destruct (Nat.eq_dec y x) as [->|N]; destruct (Nat.eq_dec z x) as [->|K]; auto.
    + rewrite set_same in H. simpl in H. lia.
    + rewrite set_same in H0. simpl in H0. lia.
    + rewrite set_other in H, H0 by auto. apply (v_fd_one _ _ _ _ _ _ _ _ I y z e); auto.
  - apply (v_mem _ _ _ _ _ _ _ _ I).
  - apply (v_new _ _ _ _ _ _ _ _ I).
  - intros y H. destruct (Nat.eq_dec y x) as [->|N]; [rewrite set_same; auto|].
    rewrite set_other by auto. rewrite cur_other in H by auto. apply (v_none _ _ _ _ _ _ _ _ I); auto.
  - intros y bs H. destruct (Nat.eq_dec y x) as [->|N]; [rewrite cur_same in H; discriminate|].
    rewrite set_other by auto. rewrite cur_other in H by auto. apply (v_some _ _ _ _ _ _ _ _ I); auto.
  - intros y z p (a & bs & i & H1 & H2 & H3) (b & cs & j & K1 & K2 & K3).
    destruct (Nat.eq_dec y x) as [->|N]; [rewrite cur_same in H2; discriminate|].
    destruct (Nat.eq_dec z x) as [->|N']; [rewrite cur_same in K2; discriminate|].
    rewrite set_other in H1, K1 by auto. rewrite cur_other in H2, K2 by auto.
    apply (v_apart _ _ _ _ _ _ _ _ I y z p); [exists a, bs, i|exists b, cs, j]; auto.
Qed.

Lemma map_step o sz w0 w ob cur L M x bs a d fh0 s0 :
  inv o sz w0 {| w_fds := d :: w_fds w; w_mem := w_mem w |}
    (set_obj ob x {| mf_data := None; mf_size := s0; mf_fh := fh0 |}) (cur_of cur x None) L M ->
  0 < a -> (forall i, i < pages o (length bs) -> ~ In (a + i) (map fst (w_mem w))) ->
  inv o sz w0
    {| w_fds := d :: w_fds w;
       w_mem := map (fun i => (a + i, page_bytes o bs i)) (seq 0 (pages o (length bs))) ++ w_mem w |}
    (set_obj ob x {| mf_data := Some a; mf_size := length bs / sz; mf_fh := fh0 |})
    (cur_of cur x (Some bs)) L
    (map (fun i => (a + i, page_bytes o bs i)) (seq 0 (pages o (length bs))) ++ M).
Proof.
  intros I A0 FR.
  assert (FH : forall y, mf_fh (set_obj ob x {| mf_data := Some a; mf_size := length bs / sz; mf_fh := fh0 |} y)
             = mf_fh (set_obj ob x {| mf_data := None; mf_size := s0; mf_fh := fh0 |} y)).
  { intros y. unfold set_obj. destruct (Nat.eqb y x); auto. }
  assert (FRM : forall i, i < pages o (length bs) -> ~ In (a + i) (map fst M)).
  { intros i Hi K. apply (FR i Hi). pose proof (v_mem _ _ _ _ _ _ _ _ I) as E. simpl in E.
    rewrite E, map_app, in_app_iff. auto. }
  assert (FR0 : forall i, i < pages o (length bs) -> ~ In (a + i) (map fst (w_mem w0))).
  { intros i Hi K. apply (FR i Hi). pose proof (v_mem _ _ _ _ _ _ _ _ I) as E. simpl in E.
    rewrite E, map_app, in_app_iff. auto. }
  assert (INM : forall y p, y <> x -> owns o (ob y) (cur y) p -> In p (map fst M)).
  { intros y p N (b & cs & j & H1 & H2 & H3 & ->).
    destruct (v_some _ _ _ _ _ _ _ _ I y cs) as (b' & B1 & _ & _ & B2); [rewrite cur_other; auto|].
    rewrite set_other in B1 by auto. rewrite H1 in B1; injection B1 as <-.
    apply (find_page_in _ _ _ (B2 j H3)). }
  constructor; simpl.
  - apply (v_fds _ _ _ _ _ _ _ _ I).
  - apply (v_fd_new _ _ _ _ _ _ _ _ I).
  - intros y e H. rewrite FH in H. apply (v_fd _ _ _ _ _ _ _ _ I y); auto.
  - intros y z e H H0. rewrite FH in H, H0. apply (v_fd_one _ _ _ _ _ _ _ _ I y z e); auto.
  - rewrite <- app_assoc. f_equal. apply (v_mem _ _ _ _ _ _ _ _ I).
  - intros p H. rewrite map_app, in_app_iff in H. destruct H as [H|H].
    + apply keys_seq in H. destruct H as (i & Hi & ->). apply FR0; lia.
    + apply (v_new _ _ _ _ _ _ _ _ I); auto.
  - intros y H. destruct (Nat.eq_dec y x) as [->|N]; [rewrite cur_same in H; discriminate|].
    rewrite set_other by auto. rewrite cur_other in H by auto.
    destruct (v_none _ _ _ _ _ _ _ _ I y) as [P Q]; [rewrite cur_other; auto|]. rewrite set_other in P, Q by auto. auto.
  - intros y cs H. destruct (Nat.eq_dec y x) as [->|N].
    + rewrite cur_same in H; injection H as <-. rewrite set_same. exists a. simpl. repeat (split; auto).
      intros i Hi. rewrite find_page_app. rewrite find_page_seq by lia. auto.
    + rewrite set_other by auto. rewrite cur_other in H by auto.
      destruct (v_some _ _ _ _ _ _ _ _ I y cs) as (b & B1 & B2 & B3 & B4); [rewrite cur_other; auto|].
      rewrite set_other in B1, B3 by auto. exists b. repeat (split; auto).
      intros i Hi. rewrite find_page_app.
      destruct (find_page (b + i) (map (fun i => (a + i, page_bytes o bs i)) (seq 0 (pages o (length bs))))) eqn:E; auto.
      exfalso. apply find_page_in in E. apply keys_seq in E. destruct E as (j & Hj & E).
      apply (FRM j); [lia|]. rewrite <- E. apply (find_page_in _ _ _ (B4 i Hi)).
  - intros y z p H K.
    destruct (Nat.eq_dec y x) as [->|N]; destruct (Nat.eq_dec z x) as [->|N']; auto.
    + rewrite set_same, cur_same in H. rewrite set_other, cur_other in K by auto.
      destruct (owns_eq o _ _ p a bs H eq_refl eq_refl) as (i & Hi & ->).
      exfalso. apply (FRM i Hi). apply (INM z); auto.
    + rewrite set_same, cur_same in K. rewrite set_other, cur_other in H by auto.
      destruct (owns_eq o _ _ p a bs K eq_refl eq_refl) as (i & Hi & ->).
      exfalso. apply (FRM i Hi). apply (INM y); auto.
    + rewrite set_other, cur_other in H, K by auto.
      apply (v_apart _ _ _ _ _ _ _ _ I y z p); rewrite set_other, cur_other by auto; auto.
Qed.

(* The lists of descriptors and pages that were taken, after one call of open()
   on an object that shows nothing *)
Lemma open_step_none o sz w0 w ob cur L M x r :
  os_ok o -> inv o sz w0 w ob cur L M -> cur x = None ->
  let y := mf_open o sz r w (ob x) in
  exists L' M', inv o sz w0 (fst y) (set_obj ob x (snd y)) (cur_of cur x (offered r)) L' M' /\
    (all_or_none (MOpen x r) -> kept o ob cur L M -> In 0 (w_fds w0) ->
     kept o (set_obj ob x (snd y)) (cur_of cur x (offered r)) L' M').
Proof.
  intros O I C y. subst y. destruct (v_none _ _ _ _ _ _ _ _ I x C) as [D S].
  pose proof (oo_fd o O (w_fds w)) as HD.
  destruct (open_none o sz r w (ob x) D) as [(R & E)|[(R1 & R2 & E)|(R & E)]]; rewrite E; simpl.
  - assert (OF : offered r = None) by (unfold offered; rewrite R; destruct (re_bytes r); auto).
    rewrite OF. exists L, M. split; [apply open_fail_step; auto|].
    intros _ K Z0. constructor.
    + intros d H. destruct (k_fd _ _ _ _ _ K d H) as (P & z & Q). split; auto. exists z.
      rewrite set_other; auto. intros ->. pose proof (k_none _ _ _ _ _ K x C). lia.
    + intros z H. destruct (Nat.eq_dec z x) as [->|N]; [rewrite set_same; simpl; lia|].
      rewrite set_other by auto. rewrite cur_other in H by auto. apply (k_none _ _ _ _ _ K); auto.
    + intros p H. destruct (k_page _ _ _ _ _ K p H) as (z & a & bs & i & P). exists z.
      destruct (Nat.eq_dec z x) as [->|N]; [destruct P as (_ & P & _); congruence|].
      rewrite set_other, cur_other by auto. exists a, bs, i; auto.
  - rewrite R2. exists (os_fd o (w_fds w) :: L), M. split; [apply open_fd_step; auto|].
    intros [A|A]; congruence.
  - rewrite R. destruct (oo_place o O (map fst (w_mem w)) (pages o (length (re_bytes r)))) as [P1 P2].
    eexists _, _. split.
    + apply (map_step o sz w0 w ob cur (os_fd o (w_fds w) :: L) M x (re_bytes r) _ _ _ (mf_size (ob x))); auto.
      apply open_fd_step; auto.
    + intros _ K Z0. constructor.
      * intros d [<-|H].
        { split; [|exists x; rewrite set_same; auto].
          destruct (os_fd o (w_fds w)) eqn:Q; [|lia]. exfalso. apply HD.
          rewrite (v_fds _ _ _ _ _ _ _ _ I), in_app_iff. auto. }
        destruct (k_fd _ _ _ _ _ K d H) as (P & z & Q). split; auto. exists z.
        rewrite set_other; auto. intros ->. pose proof (k_none _ _ _ _ _ K x C). lia.
      * intros z H. destruct (Nat.eq_dec z x) as [->|N]; [rewrite cur_same in H; discriminate|].
        rewrite set_other by auto. rewrite cur_other in H by auto. apply (k_none _ _ _ _ _ K); auto.
      * intros p H. rewrite map_app, in_app_iff in H. destruct H as [H|H].
        { apply keys_seq in H. destruct H as (i & Hi & ->). exists x. rewrite set_same, cur_same.
          eexists _, _, i. simpl. repeat split; auto; lia. }
        destruct (k_page _ _ _ _ _ K p H) as (z & a & bs & i & P). exists z.
        destruct (Nat.eq_dec z x) as [->|N]; [destruct P as (_ & P & _); congruence|].
        rewrite set_other, cur_other by auto. exists a, bs, i; auto.
Qed.

Lemma close_kept o sz w0 w ob cur L M x :
  sz = 1 -> inv o sz w0 w ob cur L M -> kept o ob cur L M ->
  kept o (set_obj ob x (snd (mf_close o w (ob x)))) (cur_of cur x None)
    (drop_fd (ob x) L) (drop_pages o (ob x) M).
Proof.
  intros -> I K. constructor.
  - intros d H. unfold drop_fd in H.
    assert (H' : In d L /\ (mf_fh (ob x) <> Z.of_nat d \/ d = 0)).
    { destruct (Z.leb_spec (mf_fh (ob x)) 0); [split; auto; destruct d; [auto|left; lia]|].
      apply filter_In in H. destruct H as [H1 H2]. split; auto. left. intros E. rewrite E, Nat2Z.id, Nat.eqb_refl in H2.
      discriminate. }
    destruct H' as [H1 H2]. destruct (k_fd _ _ _ _ _ K d H1) as (P & z & Q). split; auto. exists z.
    rewrite set_other; auto. intros ->. destruct H2; [congruence|lia].
  - intros z H. destruct (Nat.eq_dec z x) as [->|N].
    + rewrite set_same. unfold mf_close; simpl. lia.
    + rewrite set_other by auto. rewrite cur_other in H by auto. apply (k_none _ _ _ _ _ K); auto.
  - intros p H.
    assert (HM : In p (map fst M) /\ ~ owns o (ob x) (cur x) p).
    { unfold drop_pages in H. destruct (mf_data (ob x)) as [a|] eqn:D.
      2: { split; auto. intros (a & bs & i & P & _). congruence. }
      destruct (cur x) as [bs|] eqn:C.
      2: { destruct (v_none _ _ _ _ _ _ _ _ I x C); congruence. }
      destruct (v_some _ _ _ _ _ _ _ _ I x bs C) as (a' & A1 & A2 & A3 & A4).
      rewrite D in A1; injection A1 as <-. rewrite Nat.div_1_r in A3.
      destruct (Nat.eqb_spec (mf_size (ob x)) 0) as [Z|Z].
      - split; auto. intros (b & cs & i & P1 & P2 & P3 & P4). injection P2 as <-.
        rewrite Z in A3. rewrite <- A3 in P3. unfold pages in P3.
        destruct (os_page o) as [|n] eqn:Q; [simpl in P3; lia|].
        rewrite Nat.div_small in P3 by lia. lia.
      - apply (keys_filter (fun p => negb (Nat.leb a p && Nat.ltb p (a + pages o (mf_size (ob x)))))) in H.
        destruct H as [H1 H2]. split; auto. intros (b & cs & i & P1 & P2 & P3 & ->).
        injection P2 as <-. assert (b = a) by congruence. subst b. rewrite A3 in H1.
        replace (Nat.leb a (a + i)) with true in H1 by (symmetry; apply Nat.leb_le; lia).
        replace (Nat.ltb (a + i) (a + pages o (length bs))) with true in H1 by (symmetry; apply Nat.ltb_lt; lia).
        discriminate. }
    destruct HM as [H1 H2]. destruct (k_page _ _ _ _ _ K p H1) as (z & Q). exists z.
    destruct (Nat.eq_dec z x) as [->|N]; [tauto|]. rewrite set_other, cur_other by auto. auto.
Qed.

Definition next_cur (cur : nat -> option (list N)) (p : mop) : nat -> option (list N) :=
  match p with MOpen x r => cur_of cur x (offered r) | MClose x => cur_of cur x None end.

Lemma inv_ext o sz w0 w ob ob' cur cur' L M :
  (forall x, ob x = ob' x) -> (forall x, cur x = cur' x) ->
  inv o sz w0 w ob cur L M -> inv o sz w0 w ob' cur' L M.
Proof.
  intros E F I. constructor; intros *.
  - apply (v_fds _ _ _ _ _ _ _ _ I).
  - apply (v_fd_new _ _ _ _ _ _ _ _ I).
  - rewrite <- E. apply (v_fd _ _ _ _ _ _ _ _ I).
  - rewrite <- !E. apply (v_fd_one _ _ _ _ _ _ _ _ I).
  - apply (v_mem _ _ _ _ _ _ _ _ I).
  - apply (v_new _ _ _ _ _ _ _ _ I).
  - rewrite <- E, <- F. apply (v_none _ _ _ _ _ _ _ _ I).
  - rewrite <- E, <- F. apply (v_some _ _ _ _ _ _ _ _ I).
  - rewrite <- !E, <- !F. apply (v_apart _ _ _ _ _ _ _ _ I).
Qed.

Lemma kept_ext o ob ob' cur cur' L M :
  (forall x, ob x = ob' x) -> (forall x, cur x = cur' x) -> kept o ob cur L M -> kept o ob' cur' L M.
Proof.
  intros E F K. constructor; intros *.
  - intros H. destruct (k_fd _ _ _ _ _ K _ H) as (P & z & Q). split; auto. exists z. rewrite <- E; auto.
  - rewrite <- E, <- F. apply (k_none _ _ _ _ _ K).
  - intros H. destruct (k_page _ _ _ _ _ K _ H) as (z & Q). exists z. rewrite <- E, <- F; auto.
Qed.

Lemma exec_step o sz w0 w ob cur L M p :
  os_ok o -> 0 < sz -> inv o sz w0 w ob cur L M ->
  exists L' M', let s := mexec o sz (w, ob) p in
    inv o sz w0 (fst s) (snd s) (next_cur cur p) L' M' /\
    (sz = 1 -> all_or_none p -> In 0 (w_fds w0) -> kept o ob cur L M ->
     kept o (snd s) (next_cur cur p) L' M').
Proof.
  intros O Hsz I. destruct p as [x r|x]; simpl.
  2: { eexists _, _. split; [apply close_step; eauto|]. intros S _ _ K. eapply close_kept; eauto. }
  destruct (cur x) as [bs|] eqn:C.
  - destruct (v_some _ _ _ _ _ _ _ _ I x bs C) as (a & A & _).
    pose proof (close_step o sz w0 w ob cur L M x Hsz I) as J. simpl in J.
    destruct (open_step_none o sz w0 _ _ _ _ _ x r O J (cur_same _ _ _)) as (L' & M' & J1 & J2).
    assert (E : mf_open o sz r w (ob x) =
                mf_open o sz r (fst (mf_close o w (ob x))) (set_obj ob x (snd (mf_close o w (ob x))) x)).
    { rewrite set_same. unfold mf_open at 1. rewrite A. reflexivity. }
    rewrite E.
    assert (E1 : forall m y, set_obj (set_obj ob x (snd (mf_close o w (ob x)))) x m y = set_obj ob x m y)
      by (intros m y; unfold set_obj; destruct (Nat.eqb y x); auto).
    assert (E2 : forall e y, cur_of (cur_of cur x None) x e y = cur_of cur x e y)
      by (intros e y; unfold cur_of; destruct (Nat.eqb y x); auto).
    exists L', M'. split; [eapply inv_ext; eauto; intros; apply E1|].
    intros S Q Z K. eapply kept_ext; [intros; apply E1|intros; apply E2|].
    apply J2; auto. eapply close_kept; eauto.
  - destruct (open_step_none o sz w0 w ob cur L M x r O I C) as (L' & M' & J1 & J2).
    exists L', M'. split; auto.
Qed.

Lemma init_inv o sz w : inv o sz w w (fun _ => mf_new) (fun _ => None) [] [].
Proof.
  constructor; simpl; auto; try tauto; try discriminate.
  - intros x d H. lia.
  - intros x y d H. lia.
  - intros x y p (a & bs & i & H & _). discriminate.
Qed.

Lemma init_kept o : kept o (fun _ => mf_new) (fun _ => None) [] [].
Proof. constructor; simpl; try tauto. intros; lia. Qed.

Lemma run_inv o sz w : os_ok o -> 0 < sz -> forall ps s cur L M,
  inv o sz w (fst s) (snd s) cur L M ->
  exists L' M', let s' := fold_left (mexec o sz) ps s in
    inv o sz w (fst s') (snd s') (fold_left next_cur ps cur) L' M' /\
    (sz = 1 -> Forall all_or_none ps -> In 0 (w_fds w) -> kept o (snd s) cur L M ->
     kept o (snd s') (fold_left next_cur ps cur) L' M').
Proof.
  intros O Hsz. induction ps as [|p ps IH]; intros s cur L M I; simpl; [exists L, M; auto|].
  destruct s as [w1 ob].
  destruct (exec_step o sz w w1 ob cur L M p O Hsz I) as (L1 & M1 & I1 & K1).
  destruct (IH _ _ _ _ I1) as (L2 & M2 & I2 & K2). exists L2, M2. split; auto.
  intros S F Z K. apply Forall_cons_iff in F. destruct F as [F1 F2]. apply K2; auto.
Qed.

Lemma cur_showing x : forall ps cur,
  fold_left next_cur ps cur x =
  fold_left (fun cur p => match p with
                          | MOpen y r => if Nat.eqb y x then offered r else cur
                          | MClose y => if Nat.eqb y x then None else cur
                          end) ps (cur x).
Proof.
  induction ps as [|p ps IH]; intros cur; simpl; auto. rewrite IH. f_equal.
  destruct p; simpl; unfold cur_of; rewrite Nat.eqb_sym; auto.
Qed.

Theorem contents o sz w ps x : os_ok o -> 0 < sz ->
  let s := mrun o sz w ps in shows_bytes o sz (fst s) (snd s x) (showing x ps).
Proof.
  intros O Hsz s. destruct (run_inv o sz w O Hsz ps (w, fun _ => mf_new) _ _ _ (init_inv o sz w)) as (L & M & I & _).
  fold (mrun o sz w ps) in I. fold s in I.
  unfold showing. pose proof (cur_showing x ps (fun _ => None)) as E. rewrite <- E.
  unfold shows_bytes. destruct (fold_left next_cur ps (fun _ => None) x) as [bs|] eqn:C.
  - destruct (v_some _ _ _ _ _ _ _ _ I x bs C) as (a & A1 & A2 & A3 & A4). exists a. repeat (split; auto).
    intros i Hi. unfold read_byte. rewrite (v_mem _ _ _ _ _ _ _ _ I), find_page_app, A4.
    + apply page_bytes_nth; [apply (oo_page o O)|auto].
    + apply pages_cover; [apply (oo_page o O)|auto].
  - apply (v_none _ _ _ _ _ _ _ _ I x C).
Qed.

Theorem foreign o sz w ps : os_ok o -> 0 < sz ->
  let s := mrun o sz w ps in
  (forall d, In d (w_fds w) -> In d (w_fds (fst s))) /\
  (forall p bs, find_page p (w_mem w) = Some bs -> find_page p (w_mem (fst s)) = Some bs).
Proof.
  intros O Hsz s. destruct (run_inv o sz w O Hsz ps (w, fun _ => mf_new) _ _ _ (init_inv o sz w)) as (L & M & I & _).
  fold (mrun o sz w ps) in I. fold s in I. split.
  - intros d H. rewrite (v_fds _ _ _ _ _ _ _ _ I). apply in_or_app; auto.
  - intros p bs H. rewrite (v_mem _ _ _ _ _ _ _ _ I), find_page_app.
    destruct (find_page p M) eqn:E; auto. exfalso.
    apply (v_new _ _ _ _ _ _ _ _ I p); [apply (find_page_in _ _ _ E)|apply (find_page_in _ _ _ H)].
Qed.

Theorem released o w ps : os_ok o -> In 0 (w_fds w) -> Forall all_or_none ps ->
  (forall x, showing x ps = None) -> fst (mrun o 1 w ps) = w.
Proof.
  intros O Z F H.
  destruct (run_inv o 1 w O Nat.lt_0_1 ps (w, fun _ => mf_new) _ _ _ (init_inv o 1 w)) as (L & M & I & K).
  fold (mrun o 1 w ps) in I, K. specialize (K eq_refl F Z (init_kept o)).
  assert (C : forall x, fold_left next_cur ps (fun _ => None) x = None).
  { intros x. rewrite (cur_showing x ps (fun _ => None)). apply H. }
  assert (EL : L = []).
  { destruct L as [|d L]; auto. destruct (k_fd _ _ _ _ _ K d (or_introl eq_refl)) as (P & x & Q).
    pose proof (k_none _ _ _ _ _ K x (C x)). lia. }
  assert (EM : M = []).
  { destruct M as [|[p b] M]; auto. destruct (k_page _ _ _ _ _ K p (or_introl eq_refl)) as (x & a & bs & i & P & Q & _).
    rewrite C in Q; discriminate. }
  subst. pose proof (v_fds _ _ _ _ _ _ _ _ I) as E1. pose proof (v_mem _ _ _ _ _ _ _ _ I) as E2. simpl in E1, E2.
  destruct (fst (mrun o 1 w ps)), w; simpl in *; congruence.
Qed.

Lemma filter_seq_length (f : nat -> list N) a k : forall n s,
  length (filter (fun p => negb (Nat.leb a (fst p) && Nat.ltb (fst p) (a + k)))
            (map (fun i => (a + i, f i)) (seq s n))) = s + n - Nat.max s k.
Proof.
  induction n as [|n IH]; intros s; [simpl; lia|].
  cbn [seq map filter fst].
  destruct (Nat.leb_spec a (a + s)); [|lia]. destruct (Nat.ltb_spec (a + s) (a + k)); simpl; rewrite IH; lia.
Qed.

(* How many pages stay mapped after one file was opened and closed. *)
Theorem left_behind o sz w r x bs : os_ok o -> 0 < sz -> offered r = Some bs ->
  length (w_mem (fst (mrun o sz w [MOpen x r; MClose x]))) =
  length (w_mem w) + (pages o (length bs) - pages o (length bs / sz)).
Proof.
  intros O Hsz Hr. unfold mrun. simpl.
  destruct (open_none o sz r w mf_new eq_refl) as [(R & E)|[(R1 & R2 & E)|(R & E)]].
  - unfold offered in Hr. rewrite R in Hr. destruct (re_bytes r); discriminate.
  - congruence.
  - rewrite Hr in R. injection R as ->. set (bs := re_bytes r) in *. cbv zeta in E. rewrite E. clear E.
    destruct (oo_place o O (map fst (w_mem w)) (pages o (length bs))) as [_ FR].
    set (a := os_place o (map fst (w_mem w)) (pages o (length bs))) in *. simpl. rewrite set_same.
    unfold mf_close. simpl.
    assert (LE : pages o (length bs / sz) <= pages o (length bs)).
    { apply pages_mono. apply Nat.div_le_upper_bound; [lia|]. nia. }
    match goal with |- context [sys_munmap o ?W a ?S] =>
      assert (E : length (w_mem (sys_munmap o W a S)) =
                  length (w_mem w) + (pages o (length bs) - pages o (length bs / sz))) end.
    { unfold sys_munmap. destruct (Nat.eqb_spec (length bs / sz) 0) as [Z|Z]; simpl.
      - rewrite app_length, map_length, seq_length, Z. unfold pages at 3.
        destruct (os_page o) as [|n]; [simpl; lia|]. rewrite (Nat.div_small (0 + S n - 1)) by lia. lia.
      - rewrite filter_app, app_length, filter_seq_length.
        rewrite (filter_all _ (w_mem w)); [lia|]. intros [p b] Hp. simpl.
        destruct (Nat.leb_spec a p); auto. simpl.
        destruct (Nat.ltb_spec p (a + pages o (length bs / sz))); auto. exfalso.
        apply (FR (p - a)); [lia|]. replace (a + (p - a)) with p by lia. apply in_map_iff. exists (p, b); auto. }
    destruct (Z.of_nat (os_fd o (w_fds w)) =? 0)%Z; auto.
    unfold sys_close. destruct (Z.of_nat (os_fd o (w_fds w)) <? 0)%Z; auto.
Qed.
