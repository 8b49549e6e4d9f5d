(** Properties C28 and C29: slicing of wide classes into bytes. *)
From Verif Require Import Base StringToken StringTokenSpec Slice SliceSpec SliceProofs SliceAll.
Local Open Scope N_scope.

Theorem C28_slice16_exact : forall t h l,
  Forall (fun r => fst r <= snd r <= 0xffff) t ->
  accepts2 (slice16 t) h l <-> (h < 256 /\ l < 256 /\ mem (h * 256 + l) t).
Proof. exact slice16_exact. Qed.
Print Assumptions C28_slice16_exact.

Example C28_nonvacuous :
  slice16 [(0x20, 0x25); (0x0fe, 0x301); (0x3ff, 0x3ff)] =
    [([(0, 0)], [(0x20, 0x25); (0xfe, 0xff)]); ([(1, 2)], [(0, 255)]);
     ([(3, 3)], [(0, 1); (255, 255)])].
Proof. vm_compute; reflexivity. Qed.

(** C29 in full would be the second statement without [tame]; that is false, see
    below. [tame r]: the range touches at most two consecutive planes, or in its
    ends the middle and the high bytes agree, or it ends with 0x10ffff. *)
Theorem C29_slice24_numbers_partial : forall t h m l,
  Forall (fun r => fst r <= snd r <= 0x10ffff /\ tame r) t ->
  accepts3 (slice24 t) h m l <->
  (m < 256 /\ l < 256 /\ takes t (h * 65536 + m * 256 + l)).
Proof. exact slice24_exact. Qed.
Theorem C29_slice24_exact_partial : forall t h m l,
  Forall (fun r => fst r <= snd r <= 0x10ffff /\ tame r) t -> h * 65536 + m * 256 + l <= 0x10ffff ->
  accepts3 (slice24 t) h m l <->
  (m < 256 /\ l < 256 /\ mem (h * 65536 + m * 256 + l) t).
Proof. exact slice24_unicode. Qed.
(** Ranges in few planes are tame, and ranges from one of the first 256 characters to the
    last character. *)
Theorem C29_tame_ranges r : snd r / 65536 <= fst r / 65536 + 1 \/ (fst r < 256 /\ snd r = 0x10ffff) -> tame r.
Proof. exact (tame_ranges r). Qed.
Print Assumptions C29_slice24_numbers_partial.
Print Assumptions C29_slice24_exact_partial.
Print Assumptions C29_tame_ranges.

Example C29_nonvacuous :
  Forall (fun r => fst r <= snd r <= 0x10ffff /\ tame r) [(0x0fe, 0x10001)] /\
  slice24 [(0x0fe, 0x10001)] =
    [([(0, 0)], [(0, 0)], [(0xfe, 0xff)]); ([(0, 0)], [(1, 255)], [(0, 255)]);
     ([(1, 1)], [(0, 0)], [(0, 1)])].
Proof.
  split; [|vm_compute; reflexivity]. constructor; [|constructor].
  cbn. split; [lia|]. apply tame_ranges. left. vm_compute; discriminate.
Qed.
(** A full stop: every character but a newline. *)
Example C29_full_stop :
  Forall (fun r => fst r <= snd r <= 0x10ffff /\ tame r) [(0, 9); (11, 0x10ffff)] /\
  (0 * 65536 + 0 * 256 + 10 <= 0x10ffff /\ ~ accepts3 (slice24 [(0, 9); (11, 0x10ffff)]) 0 0 10) /\
  (1 * 65536 + 246 * 256 + 0 <= 0x10ffff /\ accepts3 (slice24 [(0, 9); (11, 0x10ffff)]) 1 246 0).
Proof.
  assert (T : Forall (fun r => fst r <= snd r <= 0x10ffff /\ tame r) [(0, 9); (11, 0x10ffff)]).
  { constructor; [|constructor; [|constructor]]; cbn [fst snd]; (split; [lia|]); apply tame_ranges; [left; vm_compute; discriminate|right; split; [reflexivity|reflexivity]]. }
  split; [exact T|]. split; (split; [vm_compute; discriminate|]); rewrite (C29_slice24_exact_partial _ _ _ _ T) by (vm_compute; discriminate).
  - intros (_ & _ & lo & hi & [E|[E|[]]] & H); injection E as <- <-; lia.
  - split; [lia|]. split; [lia|]. exists 11, 0x10ffff. split; [right; now left|lia].
Qed.
(** A range of characters over more than two planes takes numbers after the last
    character; they are no characters. *)
Theorem C29_numbers_refuted : exists t h m l, Forall (fun r => fst r <= snd r <= 0x10ffff /\ tame r) t /\
  ~ mem (h * 65536 + m * 256 + l) t /\ accepts3 (slice24 t) h m l.
Proof.
  exists [(11, 0x10ffff)], 0x11, 0, 0. split; [|split].
  - constructor; [|constructor]. split; [cbn; lia|]. apply tame_ranges. right. split; reflexivity.
  - intros (lo & hi & [E|[]] & H). injection E as <- <-. lia.
  - apply C29_slice24_numbers_partial; [constructor; [|constructor]; split; [cbn; lia|apply tame_ranges; right; split; reflexivity]|].
    split; [lia|]. split; [lia|]. right. split; [lia|]. exists 11. split; [now left|lia].
Qed.
Print Assumptions C29_numbers_refuted.

(** The class of all characters from 0x100 to 0x10ffff does not accept the
    character 0x10000 ... *)
Theorem C29_slice24_misses_refuted :
  exists t h m l, Forall (fun r => fst r <= snd r <= 0x10ffff) t /\
    m < 256 /\ l < 256 /\ mem (h * 65536 + m * 256 + l) t /\ ~ accepts3 (slice24 t) h m l.
Proof.
  exists [(0x100, 0x10ffff)], 1, 0, 0. split; [|split; [|split; [|try split]]]; try lia.
  - constructor; [cbn [fst snd]; lia|constructor].
  - exists 0x100, 0x10ffff. split; [left; reflexivity|]. lia.
  - intros (t1 & t2 & t3 & Hin & (a & b & H1 & Hab) & (a2 & b2 & H2 & Hab2) & (a3 & b3 & H3 & Hab3)).
    vm_compute in Hin.
    repeat (destruct Hin as [Hin|Hin]; [inversion Hin; subst; clear Hin;
      cbn in H1, H2, H3; repeat match goal with H : _ \/ False |- _ => destruct H as [H|[]]; inversion H; subst end; lia|]).
    exact Hin.
Qed.
Print Assumptions C29_slice24_misses_refuted.

(** ... and the class from 0 to 0x20000 accepts the character 0x30000. *)
Theorem C29_slice24_overaccepts_refuted :
  exists t h m l, Forall (fun r => fst r <= snd r <= 0x10ffff) t /\
    h * 65536 + m * 256 + l <= 0x10ffff /\
    ~ mem (h * 65536 + m * 256 + l) t /\ accepts3 (slice24 t) h m l.
Proof.
  exists [(0, 0x20000)], 3, 0, 0. split; [|split; [|split; [|try split]]]; try lia.
  - constructor; [cbn [fst snd]; lia|constructor].
  - intros (a & b & [H|[]] & Hc). inversion H; subst. lia.
  - exists [(1, 255)], [(0, 255)], [(0, 255)]. split; [vm_compute; tauto|].
    repeat split; do 2 eexists; (split; [left; reflexivity|lia]).
Qed.
Print Assumptions C29_slice24_overaccepts_refuted.

(** What the code does with every class, right or wrong: [taken]. *)
Theorem C29_slice24_all : forall t h m l, Forall (fun r => fst r <= snd r < 2 ^ 24) t ->
  accepts3 (slice24 t) h m l <->
  (m < 256 /\ l < 256 /\ exists r, In r t /\ taken r (h * 65536 + m * 256 + l)).
Proof. exact slice24_all. Qed.
Print Assumptions C29_slice24_all.
(** The ranges of Unicode characters for which that is right, and no others. *)
Theorem C29_right_ranges : forall r, fst r <= snd r <= 0x10ffff ->
  right_range r <-> forall c, c <= 0x10ffff -> taken r c <-> fst r <= c <= snd r.
Proof. exact right_range_iff. Qed.
Print Assumptions C29_right_ranges.
Theorem C29_tame_are_right : forall r, fst r <= snd r <= 0x10ffff -> tame r -> right_range r.
Proof. exact tame_right. Qed.
Print Assumptions C29_tame_are_right.
(** A range of many planes that is right, one that takes too much, one that misses some. *)
Example C29_three_ranges :
  right_range (0x20203, 0x50520) /\
  (~ right_range (0, 0x20000) /\ taken (0, 0x20000) 0x30000) /\
  (~ right_range (0x100, 0x10ffff) /\ ~ taken (0x100, 0x10ffff) 0x10000).
Proof.
  split; [right; split; left; vm_compute; reflexivity|].
  assert (T : taken (0, 0x20000) 0x30000) by (right; right; vm_compute; split; discriminate).
  assert (T2 : ~ taken (0x100, 0x10ffff) 0x10000).
  { intros [[_ K]|[[_ K]|[K1 K2]]]; [vm_compute in K; discriminate|vm_compute in K; discriminate|].
    vm_compute in K1. now apply K1. }
  split; (split; [|assumption]); intros R.
  - apply C29_right_ranges with (c := 0x30000) in R; [|cbn; lia|lia]. apply R in T. cbn in T. lia.
  - apply C29_right_ranges with (c := 0x10000) in R; [|cbn; lia|lia]. apply T2, R. cbn. lia.
Qed.
