(** What a lexer with one start state and rules written as texts should return.
    Only the meaning of the texts is used. *)
From Verif Require Import Base RuleSpec SourceSpec.
Local Open Scope N_scope.

Record srule := { s_text : list N; s_sx : sx; s_id : N; s_uid : N }.
(** Macros, with what they mean; each may use those before it. *)
Record smacro := { m_name : list N; m_text : list N; m_sx : sx }.
Definition meanings (ms : list smacro) : menv := map (fun m => (m_name m, m_sx m)) ms.
(** The words of a rule hold no ^ and no $; they all begin with ^. *)
Definition unanchored (s : sx) : Prop := forall w, slang s w -> exists cs, w = map CChar cs.
Definition anchored (s : sx) : Prop := forall w, slang s w -> exists cs, w = CBol :: map CChar cs.
(** ^ stands nowhere but at the beginning of a word, and $ nowhere. *)
Definition early (s : sx) : Prop := forall w, slang s w -> exists cs, w = map CChar cs \/ w = CBol :: map CChar cs.
Definition anchors (s : sx) : Prop := exists v, slang s (CBol :: v).

(** [cs] is matched, at the beginning of a line or not. At the beginning of a line a
    rule some of whose words begin with ^ matches by these words only. *)
Definition smatch (x : srule) (bol : bool) (cs : list N) : Prop :=
  if bol then slang (s_sx x) (CBol :: map CChar cs) \/ (~ anchors (s_sx x) /\ slang (s_sx x) (map CChar cs))
  else slang (s_sx x) (map CChar cs).
Lemma unanchored_early s : unanchored s -> early s.
Proof. intros U w H. destruct (U w H) as (cs & ->). eauto. Qed.
Lemma anchored_early s : anchored s -> early s.
Proof. intros U w H. destruct (U w H) as (cs & ->). eauto. Qed.
(** Rules without ^ match as their words say, and so do rules whose words all begin
    with it. *)
Lemma smatch_words x bol cs : unanchored (s_sx x) \/ anchored (s_sx x) ->
  (smatch x bol cs <-> slang (s_sx x) (map CChar cs) \/ (bol = true /\ slang (s_sx x) (CBol :: map CChar cs))).
Proof.
  intros H. unfold smatch, anchors. destruct bol.
  - split; [tauto|]. intros [A|[_ A]]; [|tauto]. right. split; [|exact A]. intros (v & V). destruct H as [H|H].
    + destruct (H _ V) as ([|c cs'] & E); discriminate.
    + destruct (H _ A) as (cs' & E). destruct cs; discriminate.
  - split; [tauto|]. intros [A|[A _]]; [exact A|discriminate].
Qed.
Definition between_pos (inp : list N) (p q : nat) : list N := firstn (q - p) (skipn p inp).
(** [x] is the first of the rules with the longest match from [p] on. *)
Definition slongest (xs : list srule) (inp : list N) (bol : bool) (p : nat) (x : srule) (q : nat) : Prop :=
  (p < q <= length inp)%nat /\
  (exists j, nth_error xs j = Some x /\ smatch x bol (between_pos inp p q) /\
     forall j' y, (j' < j)%nat -> nth_error xs j' = Some y -> ~ smatch y bol (between_pos inp p q)) /\
  forall q' y, (q < q' <= length inp)%nat -> In y xs -> ~ smatch y bol (between_pos inp p q').
Definition snone (xs : list srule) (inp : list N) (bol : bool) (p : nat) : Prop :=
  forall q y, (p < q <= length inp)%nat -> In y xs -> ~ smatch y bol (between_pos inp p q).

(** One call from position [p]: id, user id, first and last position of the token
    and the line flag afterwards. [none], [skip]: the ids for no match and for
    rules whose tokens are skipped; [see]: ^ is looked for. *)
Section Reads.
Variables (none skip : N) (see : bool) (xs : list srule) (inp : list N).
Definition line (bol : bool) (q : nat) : bool :=
  if see then match nth_error inp (q - 1) with Some c => c =? 10 | None => false end else bol.
Inductive sreads : bool -> nat -> N -> N -> nat -> nat -> bool -> Prop :=
| sd_end bol p : p = length inp -> sreads bol p 0 none p p bol
| sd_token bol p x q : slongest xs inp (see && bol) p x q -> s_id x <> skip ->
    sreads bol p (s_id x) (s_uid x) p q (line bol q)
| sd_skip bol p x q id uid i j b : slongest xs inp (see && bol) p x q -> s_id x = skip ->
    sreads (line bol q) q id uid i j b -> sreads bol p id uid i j b
| sd_none bol p c : nth_error inp p = Some c -> snone xs inp (see && bol) p ->
    sreads bol p none none p (S p) (c =? 10).
End Reads.
