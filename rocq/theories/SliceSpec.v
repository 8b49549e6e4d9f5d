(** What slicing makes of the classes of machines for 32 bit characters. *)
From Verif Require Import Base StringToken StringTokenSpec.
Local Open Scope N_scope.

(** The ranges that slice_range (parser.hpp:516-582) handles. Ranges in one or two
    planes are always sliced well. For wider ranges parser.hpp:561 uses the
    middle bytes where the high bytes are meant, so these have to agree; a
    range up to the last character 0x10ffff may end as it does. *)
Definition tame (r : range) : Prop :=
  snd r / 65536 <= fst r / 65536 + 1 \/
  (fst r / 256) mod 256 = fst r / 65536 /\
  (snd r = 0x10ffff \/ (snd r / 256) mod 256 = snd r / 65536).

(** The characters that a class stands for: its own, and, if a range over more
    than two planes ends with the last character, numbers after it that are
    no characters of Unicode. *)
Definition takes (t : stoken) (c : N) : Prop :=
  mem c t \/ (0x10ffff < c <= 0xfeffff /\ exists lo, In (lo, 0x10ffff) t /\ lo < 0xf0000).

(** Among the characters of Unicode a class stands for its own. *)
Lemma takes_mem t c : c <= 0x10ffff -> takes t c <-> mem c t.
Proof. intros H. split; [intros [M|(L & _)]; [auto|lia]|now left]. Qed.
Lemma takes_low t c : Forall (fun r => snd r <> 0x10ffff) t -> takes t c <-> mem c t.
Proof.
  intros F. split; [|now left]. intros [M|(_ & lo & I & _)]; [auto|]. rewrite Forall_forall in F.
  now specialize (F _ I).
Qed.
Lemma mem_takes t c : mem c t -> takes t c.
Proof. now left. Qed.

(** Ranges in few planes are tame, and ranges from one of the first 256 characters to the
    last one. *)
Lemma tame_ranges r : snd r / 65536 <= fst r / 65536 + 1 \/ (fst r < 256 /\ snd r = 0x10ffff) -> tame r.
Proof.
  intros [H|[H1 H2]]; [now left|]. right. split; [|now left].
  rewrite N.div_small by exact H1. rewrite (N.div_small (fst r) 65536) by (eapply N.lt_trans; [exact H1|reflexivity]). reflexivity.
Qed.
