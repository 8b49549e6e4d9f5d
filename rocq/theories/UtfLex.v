(** Lexing through the iterators of utf_iterators.hpp. *)
From Verif Require Import Base StateMachine Lookup Iterator Utf UtfSpec UtfProofs AnyIter AnyIterProofs
  GenCpp SourceLexer SourceTop TokenList Routes StateTokens StateRoutes.
Local Open Scope N_scope.

Definition utf_error (e : err) : Prop := e = ETruncatedUtf \/ e = EInvalidUtf.
(** Where the sequence number [i] starts. *)
Definition offset (chunks : list (list N)) (i : nat) : nat := length (concat (firstn i chunks)).

Lemma firstn_all_app {A} (a b : list A) : firstn (length a) (a ++ b) = a.
Proof. rewrite firstn_app, Nat.sub_diag, firstn_all. cbn. apply app_nil_r. Qed.
Lemma cut_at {A} (l : list A) p : (p < length l)%nat -> exists a c b, l = a ++ c :: b /\ length a = p.
Proof.
  intros H. exists (firstn p l). destruct (skipn p l) as [|c b] eqn:E; [apply (f_equal (@length A)) in E; rewrite skipn_length in E; cbn in E; lia|].
  exists c, b. split; [rewrite <- E; symmetry; apply firstn_skipn|apply firstn_length_le; lia].
Qed.

Section Chunks.
  Variables (shape : list N -> Prop) (val : list N -> N) (okb : N -> Prop) (nxt : list N -> uin -> res uin).
  Hypothesis NE : forall c, shape c -> (1 <= length c)%nat.
  Hypothesis NIL : forall pre e ch, nxt pre {| u_it := length pre; u_end := e; u_char := ch |} = Ok {| u_it := length pre; u_end := e; u_char := ch |}.
  Hypothesis CHUNK : forall pre chunk post e ch, shape chunk -> Forall okb (chunk ++ post) ->
    nxt (pre ++ chunk ++ post) {| u_it := length pre; u_end := e; u_char := ch |} = Ok {| u_it := length pre; u_end := length pre + length chunk; u_char := val chunk |}.
  Variables (chunks : list (list N)) (junk : list N).
  Hypothesis SH : Forall shape chunks.
  Hypothesis OKB : Forall okb (concat chunks ++ junk).
  Hypothesis JUNK : junk <> [] -> forall pre e ch, exists er, nxt (pre ++ junk) {| u_it := length pre; u_end := e; u_char := ch |} = Throw er /\ utf_error er.
  Let buf := concat chunks ++ junk.
  Let ops : iops uin := {| it_get := fun s => Ok (u_char s); it_next := fun s => nxt buf {| u_it := u_end s; u_end := u_end s; u_char := u_char s |}; it_same := fun a b => Nat.eqb (u_it a) (u_it b) |}.
  Definition cinp : list N := map val chunks ++ (match junk with [] => [] | _ => [0] end).
  Definition cbad (e : err) : Prop := utf_error e /\ junk <> [].
  Definition crep (p : nat) (x : uin) : Prop :=
    exists pre post, chunks = pre ++ post /\ length pre = p /\ u_it x = length (concat pre) /\
      match post with c :: _ => u_end x = (u_it x + length c)%nat /\ u_char x = val c | [] => junk = [] end.

  Lemma enter pre post e ch : chunks = pre ++ post ->
    match nxt buf {| u_it := length (concat pre); u_end := e; u_char := ch |} with Ok y => crep (length pre) y | Throw er => cbad er | _ => False end.
  Proof.
    intros E. assert (EB : buf = concat pre ++ concat post ++ junk) by (unfold buf; rewrite E, concat_app, app_assoc; reflexivity).
    destruct post as [|c post].
    - cbn in EB. destruct junk as [|j js] eqn:EJ.
      + rewrite app_nil_r in EB. rewrite EB, NIL. exists pre, []. auto.
      + rewrite EB. destruct (JUNK ltac:(discriminate) (concat pre) e ch) as (er & -> & U). split; [exact U|congruence].
    - rewrite EB. cbn [concat]. rewrite <- app_assoc. rewrite CHUNK.
      + exists pre, (c :: post). cbn. auto.
      + rewrite E in SH. apply Forall_app in SH as (_ & F). now inversion F.
      + unfold buf in EB. rewrite EB in OKB. apply Forall_app in OKB as (_ & F). cbn in F. rewrite <- app_assoc in F. exact F.
  Qed.
  Lemma chunk_bytes pre c post : chunks = pre ++ c :: post -> (length (concat pre) < length buf)%nat.
  Proof.
    intros E. unfold buf. rewrite E, concat_app, !app_length. cbn [concat]. rewrite app_length.
    rewrite E in SH. apply Forall_app in SH as (_ & F). inversion F as [|? ? S _]; subst. apply NE in S. lia.
  Qed.
  Lemma cinp_length : length cinp = (length chunks + match junk with [] => 0 | _ => 1 end)%nat.
  Proof. clear - val chunks junk. unfold cinp. rewrite app_length, map_length. destruct junk; reflexivity. Qed.
  Theorem crepresents eoi : u_it eoi = length buf -> represents ops eoi cinp cbad crep.
  Proof.
    intros EE. constructor.
    - intros p x (pre & post & E & L & U & M). cbn [it_same ops]. rewrite U, EE, cinp_length. destruct post as [|c post].
      + rewrite M. rewrite app_nil_r in E. subst p. rewrite E, Nat.add_0_r, Nat.eqb_refl. unfold buf. rewrite M, app_nil_r, E. apply Nat.eqb_refl.
      + pose proof (chunk_bytes _ _ _ E). replace (Nat.eqb (length (concat pre)) (length buf)) with false by (symmetry; apply Nat.eqb_neq; lia).
        symmetry. apply Nat.eqb_neq. rewrite E, app_length. cbn [length]. lia.
    - intros p x c (pre & post & E & L & U & M) Hc. cbn [it_get ops]. unfold cinp in Hc. destruct post as [|d post].
      + rewrite M, app_nil_r, E, app_nil_r in Hc. assert (nth_error (map val pre) p <> None) by congruence. apply nth_error_Some in H. rewrite map_length in H. lia.
      + destruct M as (_ & ->). rewrite E, map_app, <- app_assoc in Hc. rewrite nth_error_app2 in Hc by (rewrite map_length; lia). rewrite map_length, L, Nat.sub_diag in Hc. cbn in Hc. congruence.
    - intros p x c (pre & post & E & L & U & M) Hc. cbn [it_next ops]. unfold cinp in Hc. destruct post as [|d post].
      + rewrite M, app_nil_r, E, app_nil_r in Hc. assert (nth_error (map val pre) p <> None) by congruence. apply nth_error_Some in H. rewrite map_length in H. lia.
      + destruct M as (-> & _). pose proof (enter (pre ++ [d]) post (u_it x + length d) (u_char x) ltac:(rewrite E, <- app_assoc; reflexivity)) as H.
        rewrite concat_app, app_length in H. cbn [concat] in H. rewrite app_nil_r, <- U in H. rewrite app_length in H. cbn [length] in H. rewrite L in H.
        rewrite Nat.add_1_r in H. exact H.
  Qed.
  Lemma crep_offset p x : crep p x -> (p <= length chunks)%nat /\ u_it x = offset chunks p.
  Proof. clear - val chunks junk.
    intros (pre & post & E & L & U & M). split; [rewrite E, app_length; lia|]. unfold offset. rewrite E, <- L, firstn_all_app. exact U.
  Qed.
  Lemma crep_end x : junk <> [] -> ~ crep (length cinp) x.
  Proof. clear - val chunks junk. intros J R. apply crep_offset in R as (H & _). rewrite cinp_length in H. destruct junk; [congruence|lia]. Qed.
  Lemma offset_lt p q : (p < q <= length chunks)%nat -> (offset chunks p < offset chunks q)%nat.
  Proof.
    intros H. destruct (cut_at chunks p ltac:(lia)) as (a & c & b & E & L). unfold offset. rewrite E, <- L, firstn_all_app.
    rewrite (firstn_app q a), (firstn_all2 a) by lia. destruct (q - length a)%nat as [|d] eqn:D; [lia|]. cbn [firstn]. rewrite concat_app, app_length. cbn [concat]. rewrite app_length.
    rewrite E in SH. apply Forall_app in SH as (_ & F). inversion F as [|? ? S _]; subst. apply NE in S. lia.
  Qed.
  Lemma crep_same p q x y : crep p x -> crep q y -> it_same ops x y = Nat.eqb p q.
  Proof.
    intros R1 R2. apply crep_offset in R1 as (L1 & O1). apply crep_offset in R2 as (L2 & O2). cbn [it_same ops]. rewrite O1, O2.
    destruct (Nat.eqb_spec p q) as [->|N]; [apply Nat.eqb_refl|]. apply Nat.eqb_neq. destruct (Nat.lt_gt_cases p q) as (H & _). destruct (H N) as [G|G].
    - pose proof (offset_lt p q ltac:(lia)). lia.
    - pose proof (offset_lt q p ltac:(lia)). lia.
  Qed.
  (** The bytes between two offsets are the sequences between them. *)
  Lemma offset_between p q : (p <= q <= length chunks)%nat ->
    firstn (offset chunks q - offset chunks p) (skipn (offset chunks p) buf) = concat (firstn (q - p) (skipn p chunks)).
  Proof. clear - chunks junk.
    intros H. unfold buf, offset. assert (E1 : chunks = firstn p chunks ++ firstn (q - p) (skipn p chunks) ++ skipn (q - p) (skipn p chunks)) by (now rewrite !firstn_skipn).
    assert (E2 : firstn q chunks = firstn p chunks ++ firstn (q - p) (skipn p chunks)).
    { rewrite E1 at 1. rewrite app_assoc. replace q with (length (firstn p chunks ++ firstn (q - p) (skipn p chunks))) at 1; [apply firstn_all_app|].
      rewrite app_length, !firstn_length, skipn_length. lia. }
    rewrite E2. set (a := firstn p chunks) in *. set (b := firstn (q - p) (skipn p chunks)) in *. set (c := skipn (q - p) (skipn p chunks)) in *. rewrite E1.
    rewrite !concat_app, app_length, <- !app_assoc. rewrite skipn_app, skipn_all, Nat.sub_diag. cbn [app skipn].
    replace (length (concat a) + length (concat b) - length (concat a))%nat with (length (concat b)) by lia. apply firstn_all_app.
  Qed.

  (** All tokens. *)
  Definition ctokens (n fuel inner : nat) (k : cfg) (m : internals) (bol : bool) (state : N) : res (list (aresults uin) * option err) :=
    do e <- nxt buf {| u_it := length buf; u_end := length buf; u_char := 0 |}; do s <- nxt buf {| u_it := 0; u_end := 0; u_char := 0 |};
    avisit_all uin ops e n fuel inner k m s bol state.
  Theorem ctokens_same n fuel inner k m bol state l o : visit_all n fuel inner k m cinp 0 bol state = Ok (l, o) ->
    same_or cbad (fun p q => Forall2 (alike_at crep) (fst p) (fst q) /\ snd q = snd p) (l, o) (ctokens n fuel inner k m bol state).
  Proof.
    intros E. unfold ctokens. rewrite NIL. cbn [bind]. pose proof (enter [] chunks 0 0 eq_refl) as H. cbn [concat length] in H.
    destruct (nxt buf {| u_it := 0; u_end := 0; u_char := 0 |}) as [s| | |]; cbn [bind]; try contradiction; [|exact H].
    eapply avisit_all_same; [apply crepresents; reflexivity|exact E|exact H].
  Qed.
  Theorem ctokens_never n fuel inner k m bol state l : junk <> [] -> visit_all n fuel inner k m cinp 0 bol state = Ok (l, None) ->
    exists e, ctokens n fuel inner k m bol state = Throw e /\ utf_error e.
  Proof.
    intros J E. unfold ctokens. rewrite NIL. cbn [bind]. pose proof (enter [] chunks 0 0 eq_refl) as H. cbn [concat length] in H.
    destruct (nxt buf {| u_it := 0; u_end := 0; u_char := 0 |}) as [s|e| |]; cbn [bind]; try contradiction; [|exists e; split; [reflexivity|apply H]].
    destruct (avisit_all_never uin ops {| u_it := length buf; u_end := length buf; u_char := 0 |} cinp cbad crep (crepresents {| u_it := length buf; u_end := length buf; u_char := 0 |} eq_refl) (fun x => crep_end x J)
      n fuel inner k m 0%nat s bol state l E H) as (e & X & B & _). eauto.
  Qed.
End Chunks.

(** ** The tokens as shown by the iterators *)
Definition aseen (a : aresults uin) : shows := (a_id a, a_uid a, u_it (a_first a), u_it (a_second a)).
Definition shifted (chunks : list (list N)) (s : shows) : shows := let '(id, uid, i, j) := s in (id, uid, offset chunks i, offset chunks j).
(** The tokens [l] of [cps] come out of the buffer, and the exception [o] if there is
    one; str() gives their text. *)
Definition u_iterates (run : nat -> nat -> nat -> res (list (aresults uin) * option err)) (ops : iops uin) (chunks : list (list N)) (cps : list N) (l : list shows) (o : option err) : Prop :=
  forall n fuel inner, (length cps < n)%nat -> (length cps < fuel)%nat -> (length cps < inner)%nat ->
  exists rs, run n fuel inner = Ok (rs, o) /\ map aseen rs = map (shifted chunks) l /\
    forall x a, In (x, a) (combine l rs) -> forall f, (length cps <= f)%nat -> astr uin ops f (a_first a) (a_second a) = Ok (between_pos cps (snd (fst x)) (snd x)).

Lemma ordered_le len : forall l p, ordered len p l -> (p <= len)%nat.
Proof. induction l as [|[[[id uid] i] j] l IH]; cbn; [auto|]. intros p (H & O). apply IH in O. lia. Qed.
Lemma ordered_in len : forall l p id uid i j, ordered len p l -> In (id, uid, i, j) l -> (i <= j <= len)%nat.
Proof.
  induction l as [|[[[id' uid'] i'] j'] l IH]; intros p id uid i j O; [intros []|intros [E|E]].
  - injection E as -> -> -> ->. destruct O as (H & O). apply ordered_le in O. lia.
  - destruct O as (_ & O). eapply IH; eauto.
Qed.

Section Iterates.
  Variables (shape : list N -> Prop) (val : list N -> N) (okb : N -> Prop) (nxt : list N -> uin -> res uin).
  Hypothesis NE : forall c, shape c -> (1 <= length c)%nat.
  Hypothesis NIL : forall pre e ch, nxt pre {| u_it := length pre; u_end := e; u_char := ch |} = Ok {| u_it := length pre; u_end := e; u_char := ch |}.
  Hypothesis CHUNK : forall pre chunk post e ch, shape chunk -> Forall okb (chunk ++ post) ->
    nxt (pre ++ chunk ++ post) {| u_it := length pre; u_end := e; u_char := ch |} = Ok {| u_it := length pre; u_end := length pre + length chunk; u_char := val chunk |}.
  Variables (chunks : list (list N)) (k : cfg) (m : internals).
  Hypothesis SH : Forall shape chunks.
  Hypothesis OKB : Forall okb (concat chunks).
  Let ops : iops uin := {| it_get := fun s => Ok (u_char s); it_next := fun s => nxt (concat chunks) {| u_it := u_end s; u_end := u_end s; u_char := u_char s |}; it_same := fun a b => Nat.eqb (u_it a) (u_it b) |}.
  Let run n fuel inner := do e <- nxt (concat chunks) {| u_it := length (concat chunks); u_end := length (concat chunks); u_char := 0 |}; do s <- nxt (concat chunks) {| u_it := 0; u_end := 0; u_char := 0 |};
    avisit_all uin ops e n fuel inner k m s true 0.
  Theorem iterates_utf l oe : ordered (length chunks) 0 l -> iterates_to k m (map val chunks) l oe -> u_iterates run ops chunks (map val chunks) l oe.
  Proof.
    intros O IT n fuel inner L1 L2 L3. destruct (IT n fuel inner L1 L2 L3) as (rs & V & ES).
    assert (NJ : ([] : list N) <> [] -> forall pre e ch, exists er, nxt (pre ++ []) {| u_it := length pre; u_end := e; u_char := ch |} = Throw er /\ utf_error er) by congruence.
    assert (OK' : Forall okb (concat chunks ++ [])) by (now rewrite app_nil_r).
    assert (CI : cinp val chunks [] = map val chunks) by (unfold cinp; apply app_nil_r).
    pose proof (ctokens_same shape val okb nxt NE NIL CHUNK chunks [] SH OK' NJ n fuel inner k m true 0 rs oe) as H. rewrite CI in H. specialize (H V).
    unfold ctokens in H. rewrite app_nil_r in H. fold ops in H. change (same_or (cbad []) (fun p q => Forall2 (alike_at (crep val chunks [])) (fst p) (fst q) /\ snd q = snd p) (rs, oe) (run n fuel inner)) in H.
    destruct (run n fuel inner) as [[ras o]|e| |]; cbn in H; [|destruct H as (_ & H); congruence|contradiction|contradiction].
    destruct H as (F & ->). exists ras. split; [reflexivity|]. subst l. split.
    - rewrite map_map. clear V O IT. induction F as [|r a rs' as' (A1 & A2 & A3 & A4 & _) F IH]; [reflexivity|]. cbn [map]. f_equal; [|exact IH].
      apply crep_offset in A3 as (_ & A3). apply crep_offset in A4 as (_ & A4). unfold aseen, shifted, seen. congruence.
    - intros x a I f Lf.
      assert (exists r, x = seen r /\ alike_at (crep val chunks []) r a) as (r & -> & A1 & A2 & A3 & A4 & _).
      { clear V O IT. revert I. induction F as [|r b rs' as' A F IH]; cbn; [tauto|]. intros [E|I]; [|now apply IH]. injection E as <- <-. eauto. }
      assert (X : In (r_id r, r_uid r, r_first r, r_second r) (map seen rs)) by (apply in_combine_l in I; exact I).
      pose proof (ordered_in _ _ _ _ _ _ _ O X) as OO.
      pose proof (crepresents shape val okb nxt NE NIL CHUNK chunks [] SH OK' NJ {| u_it := length (concat chunks ++ []); u_end := 0; u_char := 0 |} eq_refl) as RP.
      assert (RP' : represents ops {| u_it := length (concat chunks ++ []); u_end := 0; u_char := 0 |} (map val chunks) (fun _ => False) (crep val chunks [])).
      { rewrite CI in RP. rewrite app_nil_r in RP. rewrite app_nil_r. fold ops in RP. destruct RP as [P1 P2 P3]. constructor; auto. intros p y c R N. specialize (P3 p y c R N). destruct (it_next ops y); auto. destruct P3 as (_ & P3). congruence. }
      unfold seen, between_pos. cbn [fst snd].
      refine (astr_same ops _ (map val chunks) _ RP' _ f (r_first r) (r_second r) _ _ A3 A4 _ _).
      + intros p q y z R1 R2. pose proof (crep_same shape val okb nxt NE NIL CHUNK chunks [] SH OK' NJ p q y z R1 R2) as CS. exact CS.
      + rewrite map_length. lia.
      + rewrite map_length in Lf. lia.
  Qed.
End Iterates.

(** ** UTF-8 *)
Lemma u8_errors buf s e : u8_next buf s = Throw e -> utf_error e.
Proof.
  assert (C : forall i, u8_cont buf i = Throw e -> utf_error e).
  { intros i. unfold u8_cont, deref. destruct (Nat.eqb i (length buf)); [intros E; injection E as <-; now left|]. destruct (nth_error buf i) as [b|]; cbn; [|discriminate].
    destruct (_ =? _); [discriminate|]. intros E; injection E as <-. now right. }
  assert (X : forall i (g : N -> res uin), (forall b, g b = Throw e -> utf_error e) -> (do b <- u8_cont buf i; g b) = Throw e -> utf_error e).
  { intros i g G. destruct (u8_cont buf i) as [b|e'| |] eqn:E; cbn [bind]; try discriminate; [apply G|]. intros H. injection H as ->. eapply C; eauto. }
  unfold u8_next, deref. destruct (Nat.eqb _ _); [discriminate|]. destruct (nth_error buf (u_it s)) as [b|]; cbn [of_opt bind]; [|discriminate].
  assert (D : (let ch := N.land b 0xff in match u8_len b with 1 => Ok {| u_it := u_it s; u_end := u_it s + 1; u_char := ch |} | 2 => u8_next2 buf (u_it s) ch | 3 => u8_next3 buf (u_it s) ch
    | 4 => u8_next4 buf (u_it s) ch | _ => Throw EInvalidUtf end) = Throw e -> utf_error e); [|exact D]. cbv zeta.
  assert (T : Throw (A:=uin) EInvalidUtf = Throw e -> utf_error e) by (intros E; injection E as <-; now right).
  destruct (u8_len b) as [|[[q|[q|q|]|]|[q|[q|q|]|]|]]; try exact T; try discriminate.
  - unfold u8_next3. apply X. intros b1. cbv zeta. apply X. intros b2. discriminate.
  - unfold u8_next4. apply X. intros b1. cbv zeta. apply X. intros b2. cbv zeta. apply X. intros b3. discriminate.
  - unfold u8_next2. apply X. intros b1. discriminate.
Qed.
Lemma u8_split : forall n rest, (length rest <= n)%nat -> exists chunks junk, rest = concat chunks ++ junk /\ Forall u8_shape chunks /\ (junk <> [] -> u8_prefix junk = None).
Proof.
  induction n as [|n IH]; intros rest L.
  - destruct rest; [|cbn in L; lia]. exists [], []. cbn. split; [reflexivity|split; [constructor|congruence]].
  - destruct (u8_prefix rest) as [c|] eqn:E.
    + destruct (u8_prefix_some _ _ E) as (chunk & post & -> & _ & S). pose proof (u8_shape_nonempty _ S). rewrite app_length in L.
      destruct (IH post ltac:(lia)) as (cs & junk & -> & F & J). exists (chunk :: cs), junk. cbn. rewrite app_assoc. auto.
    + exists [], rest. cbn. auto.
Qed.
Lemma u8_bad junk pre e ch : Forall is_byte junk -> junk <> [] -> u8_prefix junk = None -> exists er, u8_next (pre ++ junk) {| u_it := length pre; u_end := e; u_char := ch |} = Throw er /\ utf_error er.
Proof.
  intros B J P. destruct (u8_next_spec pre junk e ch B) as (_ & H). destruct (H J P) as (er & E). exists er. split; [exact E|]. eapply u8_errors; eauto.
Qed.
Theorem utf8_iterates k m cps l o : Forall (fun c => c <= 0x10ffff) cps -> ordered (length cps) 0 l -> iterates_to k m cps l o ->
  let chunks := map utf8 cps in u_iterates (fun n fuel inner => u8_tokens n fuel inner k m (concat chunks) true 0) (u8_ops (concat chunks)) chunks cps l o.
Proof.
  intros F O IT chunks. assert (V : map u8_val chunks = cps).
  { unfold chunks. rewrite map_map. transitivity (map (fun c => c) cps); [|apply map_id]. apply map_ext_in. intros c I. rewrite Forall_forall in F. now apply utf8_shape, F. }
  pose proof (iterates_utf u8_shape u8_val is_byte u8_next u8_shape_nonempty u8_next_nil u8_next_chunk chunks k m) as H. rewrite V in H. apply H; auto.
  - apply Forall_map. eapply Forall_impl; [|exact F]. intros c L. now apply utf8_shape.
  - apply Forall_concat', Forall_map. eapply Forall_impl; [|exact F]. intros c L. now apply utf8_shape.
  - unfold chunks. now rewrite map_length.
Qed.
(** Bytes that are not UTF-8: the iteration throws, and nothing else goes wrong. *)
Theorem utf8_malformed k m buf : Forall (fun b => b < 256) buf -> ~ (exists chunks, buf = concat chunks /\ Forall u8_shape chunks) ->
  exists chunks junk, buf = concat chunks ++ junk /\ Forall u8_shape chunks /\ junk <> [] /\
    forall n fuel inner bol state l, visit_all n fuel inner k m (map u8_val chunks ++ [0]) 0 bol state = Ok (l, None) ->
    exists e, u8_tokens n fuel inner k m buf bol state = Throw e /\ utf_error e.
Proof.
  intros B N. destruct (u8_split (length buf) buf (le_n _)) as (chunks & junk & E & F & J). exists chunks, junk. split; [exact E|]. split; [exact F|].
  assert (NJ : junk <> []). { intros ->. apply N. exists chunks. rewrite app_nil_r in E. auto. }
  split; [exact NJ|]. intros n fuel inner bol state l V. specialize (J NJ).
  assert (CI : cinp u8_val chunks junk = map u8_val chunks ++ [0]) by (unfold cinp; destruct junk; congruence).
  pose proof (ctokens_never u8_shape u8_val is_byte u8_next u8_shape_nonempty u8_next_nil u8_next_chunk chunks junk F ltac:(rewrite <- E; exact B)) as H.
  rewrite CI in H. rewrite E. rewrite E in B. apply Forall_app in B as (_ & B). exact (H (fun J' pre e ch => u8_bad junk pre e ch B J' J) n fuel inner k m bol state l NJ V).
Qed.
(** ** UTF-16 *)
Lemma u16_split : forall n rest, (length rest <= n)%nat -> exists chunks junk, rest = concat chunks ++ junk /\ Forall u16_shape chunks /\ (junk <> [] -> u16_prefix junk = None).
Proof.
  induction n as [|n IH]; intros rest L.
  - destruct rest; [|cbn in L; lia]. exists [], []. cbn. split; [reflexivity|split; [constructor|congruence]].
  - destruct (u16_prefix rest) as [c|] eqn:E.
    + destruct (u16_prefix_some _ _ E) as (chunk & post & -> & _ & S). pose proof (u16_shape_nonempty _ S). rewrite app_length in L.
      destruct (IH post ltac:(lia)) as (cs & junk & -> & F & J). exists (chunk :: cs), junk. cbn. rewrite app_assoc. auto.
    + exists [], rest. cbn. auto.
Qed.
Lemma u16_bad junk pre e ch : junk <> [] -> u16_prefix junk = None -> exists er, u16_next (pre ++ junk) {| u_it := length pre; u_end := e; u_char := ch |} = Throw er /\ utf_error er.
Proof.
  intros J P. destruct junk as [|a r]; [congruence|]. rewrite u16_next_cons, P. destruct (_ <? _); [exists EInvalidUtf; split; [reflexivity|now right]|].
  destruct r; [exists ETruncatedUtf; split; [reflexivity|now left]|exists EInvalidUtf; split; [reflexivity|now right]].
Qed.
Theorem utf16_iterates k m cps l o : Forall scalar cps -> ordered (length cps) 0 l -> iterates_to k m cps l o ->
  let chunks := map utf16 cps in u_iterates (fun n fuel inner => u16_tokens n fuel inner k m (concat chunks) true 0) (u16_ops (concat chunks)) chunks cps l o.
Proof.
  intros F O IT chunks. assert (V : map u16_val chunks = cps).
  { unfold chunks. rewrite map_map. transitivity (map (fun c => c) cps); [|apply map_id]. apply map_ext_in. intros c I. rewrite Forall_forall in F. now apply utf16_shape, F. }
  pose proof (iterates_utf u16_shape u16_val (fun _ => True) u16_next u16_shape_nonempty u16_next_nil (fun pre c post e ch S _ => u16_next_chunk pre c post e ch S) chunks k m) as H. rewrite V in H. apply H; auto.
  - apply Forall_map. eapply Forall_impl; [|exact F]. intros c L. now apply utf16_shape.
  - apply Forall_forall. auto.
  - unfold chunks. now rewrite map_length.
Qed.
Theorem utf16_malformed k m buf : ~ (exists chunks, buf = concat chunks /\ Forall u16_shape chunks) ->
  exists chunks junk, buf = concat chunks ++ junk /\ Forall u16_shape chunks /\ junk <> [] /\
    forall n fuel inner bol state l, visit_all n fuel inner k m (map u16_val chunks ++ [0]) 0 bol state = Ok (l, None) ->
    exists e, u16_tokens n fuel inner k m buf bol state = Throw e /\ utf_error e.
Proof.
  intros N. destruct (u16_split (length buf) buf (le_n _)) as (chunks & junk & E & F & J). exists chunks, junk. split; [exact E|]. split; [exact F|].
  assert (NJ : junk <> []). { intros ->. apply N. exists chunks. rewrite app_nil_r in E. auto. }
  split; [exact NJ|]. intros n fuel inner bol state l V. specialize (J NJ).
  assert (CI : cinp u16_val chunks junk = map u16_val chunks ++ [0]) by (unfold cinp; destruct junk; congruence).
  pose proof (ctokens_never u16_shape u16_val (fun _ => True) u16_next u16_shape_nonempty u16_next_nil (fun pre c post e ch S _ => u16_next_chunk pre c post e ch S) chunks junk F ltac:(apply Forall_forall; auto)) as H.
  rewrite CI in H. rewrite E. exact (H (fun J' pre e ch => u16_bad junk pre e ch J' J) n fuel inner k m bol state l NJ V).
Qed.
(** The units of the buffer that a token covers are the encoding of its text. *)
Theorem utf_slice (enc : N -> list N) cps i j : (i <= j <= length cps)%nat ->
  between_pos (concat (map enc cps)) (offset (map enc cps) i) (offset (map enc cps) j) = concat (map enc (between_pos cps i j)).
Proof.
  intros H. unfold between_pos. pose proof (offset_between (map enc cps) [] i j ltac:(rewrite map_length; exact H)) as E. rewrite app_nil_r in E. rewrite E.
  now rewrite skipn_map, firstn_map.
Qed.
(** ** Flipped bytes *)
Theorem flip_represents w buf inp : Forall2 (fun b c => flip w b = Ok c) buf inp -> represents (flip_ops w buf) (length buf) inp (fun _ => False) (fun p x => x = p /\ (p <= length inp)%nat).
Proof.
  intros F. assert (L : length buf = length inp) by (induction F; cbn; congruence). constructor.
  - intros p x (-> & _). cbn. now rewrite L.
  - intros p x c (-> & _) N. cbn. clear L. revert p N. induction F as [|b d bs ds E F IH]; intros [|p] N; cbn in *; try discriminate; [congruence|]. now apply IH.
  - intros p x c (-> & _) N. cbn. split; [reflexivity|]. assert (p < length inp)%nat by (apply nth_error_Some; congruence). lia.
Qed.
Theorem list_represents inp : represents (list_ops inp) (length inp) inp (fun _ => False) (fun p x => x = p /\ (p <= length inp)%nat).
Proof.
  constructor.
  - intros p x (-> & _). reflexivity.
  - intros p x c (-> & _) N. cbn. now rewrite N.
  - intros p x c (-> & _) N. cbn. split; [reflexivity|]. assert (p < length inp)%nat by (apply nth_error_Some; congruence). lia.
Qed.
