(** Moving the UTF input iterators by several characters: operator+ and
    operator- with any count, on text encoded in UTF-8 or UTF-16. *)
From Verif Require Import Base Utf UtfSpec UtfProofs.
Local Open Scope N_scope.

(** utf_iterators.hpp:437-448: basic_utf16_in_iterator operator+. *)
Fixpoint u16_plus (buf : list N) (s : uin) (n : nat) : res uin :=
  match n with
  | O => Ok s
  | S n' => do s' <- u16_incr buf s; u16_plus buf s' n'
  end.

(** Where character [i] of the text starts in the encoded buffer. *)
Definition pos_of (enc : N -> list N) (cps : list N) (i : nat) : nat :=
  List.length (concat (map enc (firstn i cps))).

(** [s] stands on character [i] of the text (at its end when [i] is its
    length): its three members. *)
Definition stands (enc : N -> list N) (cps : list N) (i : nat) (s : uin) : Prop :=
  (i <= List.length cps)%nat /\ u_it s = pos_of enc cps i /\ u_end s = pos_of enc cps (S i) /\
  ((i < List.length cps)%nat -> nth_error cps i = Some (u_char s)).

Section Move.
  Variable enc : N -> list N.
  Variable ok : N -> Prop.
  Variable next : list N -> uin -> res uin.
  Variable loop : list N -> uin -> nat -> res uin.
  Hypothesis next_chunk : forall pre c post e ch, ok c -> Forall ok post ->
    next (pre ++ enc c ++ concat (map enc post)) {| u_it := List.length pre; u_end := e; u_char := ch |}
    = Ok {| u_it := List.length pre; u_end := List.length pre + List.length (enc c); u_char := c |}.
  Hypothesis next_nil : forall pre e ch,
    next pre {| u_it := List.length pre; u_end := e; u_char := ch |} = Ok {| u_it := List.length pre; u_end := e; u_char := ch |}.
  Hypothesis loop_0 : forall buf s, loop buf s 0 = Ok s.
  Hypothesis loop_S : forall pre c post e ch n, ok c -> Forall ok post ->
    loop (pre ++ enc c ++ concat (map enc post)) {| u_it := List.length (pre ++ enc c); u_end := e; u_char := ch |} (S n)
    = loop (pre ++ enc c ++ concat (map enc post)) {| u_it := List.length pre; u_end := List.length (pre ++ enc c); u_char := ch |} n.
  Hypothesis loop_UB : forall buf s n, u_it s = O -> loop buf s (S n) = UB.

  Variable cps : list N.
  Hypothesis good : Forall ok cps.
  Let buf := concat (map enc cps).

  Lemma cut_at i : (i < List.length cps)%nat -> exists c, nth_error cps i = Some c /\ ok c /\ Forall ok (skipn (S i) cps) /\
    buf = concat (map enc (firstn i cps)) ++ enc c ++ concat (map enc (skipn (S i) cps)) /\
    concat (map enc (firstn (S i) cps)) = concat (map enc (firstn i cps)) ++ enc c.
  Proof.
    intros L. destruct (nth_error cps i) as [c|] eqn:E; [|apply nth_error_None in E; lia].
    exists c. split; [reflexivity|].
    assert (S1 : cps = firstn i cps ++ c :: skipn (S i) cps).
    { clear -E. revert i E. induction cps as [|x l IH]; intros [|i] E; cbn in *; try discriminate.
      - congruence.
      - f_equal. auto. }
    assert (S2 : firstn (S i) cps = firstn i cps ++ [c]).
    { clear -E. revert i E. induction cps as [|x l IH]; intros [|i] E; cbn in *; try discriminate.
      - congruence.
      - f_equal. apply IH, E. }
    pose proof good as G. rewrite S1 in G. apply Forall_app in G. destruct G as [_ G]. inversion G; subst.
    split; [assumption|]. split; [assumption|]. split.
    - unfold buf. rewrite S1 at 1. rewrite map_app, concat_app. reflexivity.
    - rewrite S2, map_app, concat_app. cbn. rewrite app_nil_r. reflexivity.
  Qed.

  Lemma at_end i : (List.length cps <= i)%nat -> pos_of enc cps i = List.length buf.
  Proof. intros L. unfold pos_of, buf. rewrite firstn_all2 by lia. reflexivity. Qed.

  Lemma next_stands i e ch : (i <= List.length cps)%nat -> ((i = List.length cps) -> e = List.length buf) ->
    exists s, next buf {| u_it := pos_of enc cps i; u_end := e; u_char := ch |} = Ok s /\ stands enc cps i s.
  Proof.
    intros L E. destruct (Nat.eq_dec i (List.length cps)) as [X|X].
    - rewrite at_end by lia. rewrite next_nil. eexists; split; [reflexivity|].
      unfold stands; cbn [u_it u_end u_char]. rewrite !at_end by lia. split; [lia|]. split; [reflexivity|]. split; [exact (E X)|]. intros Y. exfalso. lia.
    - destruct (cut_at i) as (c & Ec & Oc & Op & Eb & Ef); [lia|].
      rewrite Eb. unfold pos_of at 1. rewrite next_chunk by auto. eexists; split; [reflexivity|].
      unfold stands; cbn [u_it u_end u_char]. unfold pos_of. rewrite Ef, app_length. repeat split; auto.
  Qed.

  (** operator+ *)
  Lemma plus_stands (plus : list N -> uin -> nat -> res uin) :
    (forall b s, plus b s 0%nat = Ok s) ->
    (forall b s n, plus b s (S n) = do s' <- next b {| u_it := u_end s; u_end := u_end s; u_char := u_char s |}; plus b s' n) ->
    forall n i s, stands enc cps i s -> exists s', plus buf s n = Ok s' /\ stands enc cps (Nat.min (i + n) (List.length cps)) s'.
  Proof.
    intros P0 PS. induction n as [|n IH]; intros i s S.
    - rewrite P0. exists s. split; [reflexivity|]. rewrite Nat.add_0_r, Nat.min_l; [exact S|apply S].
    - rewrite PS. destruct S as (L & I & E & C). rewrite E.
      set (j := Nat.min (S i) (List.length cps)).
      assert (J : pos_of enc cps (S i) = pos_of enc cps j).
      { unfold j. destruct (Nat.le_ge_cases (S i) (List.length cps)); [rewrite Nat.min_l by lia; reflexivity|].
        rewrite Nat.min_r by lia. rewrite !at_end by lia. reflexivity. }
      rewrite J. destruct (next_stands j (pos_of enc cps j) (u_char s)) as (s1 & N1 & S1); [lia|intros X; apply at_end; lia|].
      rewrite N1. cbn [bind]. destruct (IH j s1 S1) as (s2 & P2 & S2). exists s2. split; [exact P2|].
      replace (Nat.min (i + S n) (List.length cps)) with (Nat.min (j + n) (List.length cps)) by lia. exact S2.
  Qed.

  (** operator- *)
  Lemma loop_stands : forall n i e ch, (n <= i <= List.length cps)%nat -> exists e' ch',
    loop buf {| u_it := pos_of enc cps i; u_end := e; u_char := ch |} n = Ok {| u_it := pos_of enc cps (i - n); u_end := e'; u_char := ch' |} /\
    (n = 0%nat -> e' = e).
  Proof.
    induction n as [|n IH]; intros i e ch L.
    - rewrite loop_0, Nat.sub_0_r. eauto.
    - destruct i as [|i]; [lia|]. destruct (cut_at i) as (c & Ec & Oc & Op & Eb & Ef); [lia|].
      destruct (IH i (pos_of enc cps (S i)) ch) as (e' & ch' & E & _); [lia|].
      exists e', ch'. split; [|lia]. cbn [Nat.sub]. rewrite <- E. unfold pos_of. rewrite Ef. rewrite Eb. apply loop_S; auto.
  Qed.

  Lemma loop_before : forall n i e ch, (i <= List.length cps)%nat -> (i < n)%nat ->
    loop buf {| u_it := pos_of enc cps i; u_end := e; u_char := ch |} n = UB.
  Proof.
    induction n as [|n IH]; intros i e ch L B; [lia|].
    destruct i as [|i]; [apply loop_UB; reflexivity|].
    destruct (cut_at i) as (c & Ec & Oc & Op & Eb & Ef); [lia|].
    rewrite <- (IH i (pos_of enc cps (S i)) ch) by lia. unfold pos_of. rewrite Ef. rewrite Eb. apply loop_S; auto.
  Qed.

  Lemma minus_stands n i s : stands enc cps i s ->
    ((n <= i)%nat -> exists s', (do t <- loop buf s n; next buf t) = Ok s' /\ stands enc cps (i - n) s') /\
    ((i < n)%nat -> (do t <- loop buf s n; next buf t) = UB).
  Proof.
    intros (L & I & E & C). destruct s as [it e ch]. cbn [u_it u_end u_char] in I, E, C. subst it. split; intros B.
    - destruct (loop_stands n i e ch) as (e' & ch' & X & Y); [lia|]. rewrite X. cbn [bind].
      apply next_stands; [lia|]. intros Z. rewrite Y by lia. rewrite E. apply at_end. lia.
    - rewrite loop_before by lia. reflexivity.
  Qed.
End Move.

Lemma u8_texts_bytes cps : Forall (fun c => c <= 0x10ffff) cps -> Forall is_byte (concat (map utf8 cps)).
Proof.
  intros G. apply Forall_concat'. apply Forall_map. eapply Forall_impl; [|exact G]. intros c L. apply utf8_shape, L.
Qed.

Lemma u8_chunk_here pre c post e ch : c <= 0x10ffff -> Forall (fun c => c <= 0x10ffff) post ->
  u8_next (pre ++ utf8 c ++ concat (map utf8 post)) {| u_it := List.length pre; u_end := e; u_char := ch |}
  = Ok {| u_it := List.length pre; u_end := List.length pre + List.length (utf8 c); u_char := c |}.
Proof.
  intros L G. destruct (utf8_shape c L) as (S & B & V). rewrite u8_next_chunk; auto.
  - rewrite V. reflexivity.
  - apply Forall_app. split; [exact B|apply u8_texts_bytes, G].
Qed.

Lemma u8_loop_here pre c post e ch n : c <= 0x10ffff -> Forall (fun c => c <= 0x10ffff) post ->
  u8_minus_loop (pre ++ utf8 c ++ concat (map utf8 post)) {| u_it := List.length (pre ++ utf8 c); u_end := e; u_char := ch |} (S n)
  = u8_minus_loop (pre ++ utf8 c ++ concat (map utf8 post)) {| u_it := List.length pre; u_end := List.length (pre ++ utf8 c); u_char := ch |} n.
Proof.
  intros L G. destruct (utf8_shape c L) as (S & B & V). destruct (u8_shape_split _ S) as (a & cs & E & Hn & Hc).
  cbn [u8_minus_loop u_it].
  assert (X : List.length (pre ++ utf8 c) = Datatypes.S (List.length pre + List.length cs)).
  { rewrite app_length, E; cbn; lia. }
  rewrite X. rewrite E at 1. cbn [app]. rewrite u8_back_conts; auto. rewrite E in B. inversion B; auto.
Qed.

Lemma u8_loop_UB buf s n : u_it s = O -> u8_minus_loop buf s (S n) = UB.
Proof. intros Z. cbn [u8_minus_loop]. rewrite Z. reflexivity. Qed.

Theorem u8_moves cps n i s : Forall (fun c => c <= 0x10ffff) cps -> stands utf8 cps i s ->
  (exists s', u8_plus (concat (map utf8 cps)) s n = Ok s' /\ stands utf8 cps (Nat.min (i + n) (List.length cps)) s') /\
  ((n <= i)%nat -> exists s', u8_minus (concat (map utf8 cps)) s n = Ok s' /\ stands utf8 cps (i - n) s') /\
  ((i < n)%nat -> u8_minus (concat (map utf8 cps)) s n = UB).
Proof.
  intros G S. split.
  - exact (plus_stands utf8 (fun c => c <= 0x10ffff) u8_next u8_minus_loop u8_chunk_here u8_next_nil (fun _ _ => eq_refl) u8_loop_here u8_loop_UB cps G u8_plus (fun _ _ => eq_refl) (fun _ _ _ => eq_refl) n i s S).
  - exact (minus_stands utf8 (fun c => c <= 0x10ffff) u8_next u8_minus_loop u8_chunk_here u8_next_nil (fun _ _ => eq_refl) u8_loop_here u8_loop_UB cps G n i s S).
Qed.

Theorem u8_stands_first cps : Forall (fun c => c <= 0x10ffff) cps ->
  exists s, u8_begin (concat (map utf8 cps)) 0 = Ok s /\ stands utf8 cps 0 s.
Proof.
  intros G. refine (next_stands utf8 (fun c => c <= 0x10ffff) u8_next u8_minus_loop u8_chunk_here u8_next_nil (fun _ _ => eq_refl) u8_loop_here u8_loop_UB cps G 0 0%nat 0 _ _); [lia|].
  intros X. destruct cps; [reflexivity|discriminate].
Qed.

Lemma u16_chunk_here pre c post e ch : scalar c -> Forall scalar post ->
  u16_next (pre ++ utf16 c ++ concat (map utf16 post)) {| u_it := List.length pre; u_end := e; u_char := ch |}
  = Ok {| u_it := List.length pre; u_end := List.length pre + List.length (utf16 c); u_char := c |}.
Proof. intros L G. destruct (utf16_shape c L) as (S & V). rewrite u16_next_chunk; auto. rewrite V. reflexivity. Qed.

Lemma u16_loop_here pre c post e ch n : scalar c -> Forall scalar post ->
  u16_minus_loop (pre ++ utf16 c ++ concat (map utf16 post)) {| u_it := List.length (pre ++ utf16 c); u_end := e; u_char := ch |} (S n)
  = u16_minus_loop (pre ++ utf16 c ++ concat (map utf16 post)) {| u_it := List.length pre; u_end := List.length (pre ++ utf16 c); u_char := ch |} n.
Proof.
  intros L G. destruct (utf16_shape c L) as (S & V). generalize (concat (map utf16 post)) as q. intros q.
  unfold u16_shape in S. destruct (utf16 c) as [|a [|b [|? ?]]]; try tauto; clear V L.
  - rewrite !app_length. cbn [List.length]. rewrite Nat.add_1_r. cbn [u16_minus_loop u_it app].
    rewrite deref_app by auto. cbn [bind]. destruct ((0xdc00 <=? a) && (a <=? 0xdfff)) eqn:E; [lia|]. reflexivity.
  - rewrite !app_length. cbn [List.length]. replace (List.length pre + 2)%nat with (Datatypes.S (Datatypes.S (List.length pre))) by lia.
    cbn [u16_minus_loop u_it app].
    assert (D : deref (pre ++ a :: b :: q) (Datatypes.S (List.length pre)) = Ok b).
    { rewrite app2. apply deref_app. rewrite app_length; cbn; lia. }
    rewrite D. cbn [bind]. destruct ((0xdc00 <=? b) && (b <=? 0xdfff)) eqn:E; [reflexivity|lia].
Qed.

Lemma u16_loop_UB buf s n : u_it s = O -> u16_minus_loop buf s (S n) = UB.
Proof. intros Z. cbn [u16_minus_loop]. rewrite Z. reflexivity. Qed.

Theorem u16_moves cps n i s : Forall scalar cps -> stands utf16 cps i s ->
  (exists s', u16_plus (concat (map utf16 cps)) s n = Ok s' /\ stands utf16 cps (Nat.min (i + n) (List.length cps)) s') /\
  ((n <= i)%nat -> exists s', u16_minus (concat (map utf16 cps)) s n = Ok s' /\ stands utf16 cps (i - n) s') /\
  ((i < n)%nat -> u16_minus (concat (map utf16 cps)) s n = UB).
Proof.
  intros G S. split.
  - exact (plus_stands utf16 scalar u16_next u16_minus_loop u16_chunk_here u16_next_nil (fun _ _ => eq_refl) u16_loop_here u16_loop_UB cps G u16_plus (fun _ _ => eq_refl) (fun _ _ _ => eq_refl) n i s S).
  - exact (minus_stands utf16 scalar u16_next u16_minus_loop u16_chunk_here u16_next_nil (fun _ _ => eq_refl) u16_loop_here u16_loop_UB cps G n i s S).
Qed.

Theorem u16_stands_first cps : Forall scalar cps ->
  exists s, u16_begin (concat (map utf16 cps)) 0 = Ok s /\ stands utf16 cps 0 s.
Proof.
  intros G. refine (next_stands utf16 scalar u16_next u16_minus_loop u16_chunk_here u16_next_nil (fun _ _ => eq_refl) u16_loop_here u16_loop_UB cps G 0 0%nat 0 _ _); [lia|].
  intros X. destruct cps; [reflexivity|discriminate].
Qed.

