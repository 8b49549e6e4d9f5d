(** A left to right reading of token sequences that builds the expression the
    grammar gives them. *)
From Verif Require Import Base StringToken StringTokenSpec ReToken Grammar GramUnique ParserProofs.
Local Open Scope N_scope.

(** Within one pair of parentheses: the finished alternatives, then the finished
    sequence and its last operand. *)
Definition frame := (option rx * option (option rx * rx))%type.
Definition cat (s : option rx) (e : rx) : rx := match s with None => e | Some x => XCat x e end.
Definition alt (a : option rx) (x : rx) : rx := match a with None => x | Some y => XAlt y x end.
Definition done (c : option (option rx * rx)) : option rx := match c with None => None | Some (s, e) => Some (cat s e) end.
Definition operand (f : frame) (r : rx) : frame := (fst f, Some (done (snd f), r)).
Inductive step : list frame -> token -> list frame -> Prop :=
| s_set f st t : tk_type t = CHARSET -> step (f :: st) t (operand f (XSet (tk_str t)) :: st)
| s_bol f st t : tk_type t = BOL -> step (f :: st) t (operand f XBol :: st)
| s_eol f st t : tk_type t = EOL -> step (f :: st) t (operand f XEol :: st)
| s_or a s e st t : tk_type t = OR -> step ((a, Some (s, e)) :: st) t ((Some (alt a (cat s e)), None) :: st)
| s_dup a s e st t g : dup t g -> step ((a, Some (s, e)) :: st) t ((a, Some (s, g e)) :: st)
| s_open st t : tk_type t = OPENPAREN -> step st t ((None, None) :: st)
| s_close a s e f st t : tk_type t = CLOSEPAREN ->
    step ((a, Some (s, e)) :: f :: st) t (operand f (alt a (cat s e)) :: st).
Inductive run : list frame -> list token -> list frame -> Prop :=
| r_nil st : run st [] st
| r_cons st t st1 w st2 : step st t st1 -> run st1 w st2 -> run st (t :: w) st2.

Lemma run_app st u st1 v st2 : run st u st1 -> run st1 v st2 -> run st (u ++ v) st2.
Proof. induction 1; cbn; [auto|]. intros. econstructor; eauto. Qed.
Lemma run_split u : forall st v st2, run st (u ++ v) st2 -> exists st1, run st u st1 /\ run st1 v st2.
Proof.
  induction u as [|t u IH]; intros st v st2 H; [exists st; split; [constructor|auto]|].
  inversion H; subst. destruct (IH _ _ _ H5) as (st1' & R1 & R2). exists st1'. split; [econstructor; eauto|auto].
Qed.
Lemma run_one st t st' : step st t st' -> run st [t] st'.
Proof. intros H. econstructor; [exact H|constructor]. Qed.
Lemma run_one_inv st t st' : run st [t] st' -> step st t st'.
Proof. intros H. inversion H; subst. inversion H5; subst. auto. Qed.
Lemma dup_not t f ty : dup t f -> tk_type t = ty -> is_dup ty = true.
Proof. intros H <-. eapply dup_type; eauto. Qed.
Lemma step_fun st t a b : step st t a -> step st t b -> a = b.
Proof.
  intros H1 H2. inversion H1; subst; inversion H2; subst; try congruence;
    try (exfalso; match goal with D : dup _ _, E : tk_type _ = _ |- _ => pose proof (dup_not _ _ _ D E); discriminate end).
  match goal with D : dup t ?f, E : dup t ?g |- _ => now rewrite (dup_fun t f g D E) end.
Qed.
Lemma run_fun st w a : run st w a -> forall b, run st w b -> a = b.
Proof.
  induction 1 as [|st t st1 w st2 H R IH]; intros b G; inversion G as [|? ? st1' ? ? H' R']; subst; [auto|].
  rewrite (step_fun _ _ _ _ H H') in *. auto.
Qed.

(** ** From the grammar *)
Definition reads (X : nt) (r : rx) (w : list token) : Prop :=
  match X with
  | GAtom | GExpr => forall f st, run (f :: st) w (operand f r :: st)
  | GSeq => forall a st, exists s e, run ((a, None) :: st) w ((a, Some (s, e)) :: st) /\ cat s e = r
  | GRegex => forall st, exists a s e, run ((None, None) :: st) w ((a, Some (s, e)) :: st) /\ alt a (cat s e) = r
  end.
Theorem gram_reads X r w : gram X r w -> reads X r w.
Proof.
  induction 1; cbn [reads] in *; intros.
  - destruct (IHgram None st) as (s & e & R & E). exists None, s, e. auto.
  - destruct (IHgram1 st) as (a0 & s & e & R & E).
    destruct (IHgram2 (Some a) st) as (s' & e' & R' & E').
    exists (Some a), s', e'. split; [|now rewrite E']. eapply run_app; [exact R|]. econstructor; [now constructor|]. now rewrite E.
  - exists None, r. split; [exact (IHgram (a, None) st)|reflexivity].
  - destruct (IHgram1 a0 st) as (s & e & R & E). exists (Some a), b. split; [|reflexivity].
    eapply run_app; [exact R|]. specialize (IHgram2 (a0, Some (s, e)) st). unfold operand in IHgram2. cbn in IHgram2. now rewrite E in IHgram2.
  - apply IHgram.
  - eapply run_app; [apply IHgram|]. apply run_one. unfold operand. now apply s_dup.
  - apply run_one. now constructor.
  - apply run_one. now constructor.
  - apply run_one. now constructor.
  - destruct (IHgram (f :: st)) as (a & s & e & R & E). econstructor; [now constructor|].
    eapply run_app; [exact R|]. apply run_one. rewrite <- E. now constructor.
Qed.

