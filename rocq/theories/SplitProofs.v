(** rules.hpp:917-967: split() cuts a regex into its alternatives. *)
From Verif Require Import Base StringToken StringTokenSpec RegexSpec DfaSpec ReToken ReTokeniser Grammar GramUnique ParserProofs
  Rules TokeniseSpec TokeniseProofs StripProofs.
Local Open Scope N_scope.

(** The depth after the tokens if no alternative starts at depth nought. *)
Fixpoint scan (k : nat) (w : list token) : option nat :=
  match w with
  | [] => Some k
  | t :: w' =>
    match tk_type t with
    | OPENPAREN => scan (S k) w'
    | CLOSEPAREN => match k with O => None | S k' => scan k' w' end
    | OR => match k with O => None | S _ => scan k w' end
    | END => None
    | _ => scan k w'
    end
  end.
Lemma scan_app u v : forall k, scan k (u ++ v) = match scan k u with Some n => scan n v | None => None end.
Proof.
  induction u as [|t u IH]; intros k; [reflexivity|]. cbn. destruct (tk_type t); auto; destruct k; auto.
Qed.
Lemma scan_split w rest : forall k n cur, scan k w = Some n -> split_loop (w ++ rest) k cur = split_loop rest n (rev w ++ cur).
Proof.
  induction w as [|t w IH]; intros k n cur H; cbn in H; [injection H as ->; reflexivity|].
  cbn [app split_loop rev]. rewrite <- app_assoc. cbn [app].
  destruct (tk_type t); try (now apply IH); try discriminate; destruct k; try discriminate; now apply IH.
Qed.
Lemma gram_scan X r w : gram X r w -> forall k, scan (match X with GRegex => S k | _ => k end) w = Some (match X with GRegex => S k | _ => k end).
Proof.
  induction 1 as [r w G IH|x y u v t G1 IH1 Ht G2 IH2|r w G IH|x y u v G1 IH1 G2 IH2|r w G IH|r w t g G IH D|t Ht|t Ht|t Ht|r w o c Ho G IH Hc]; intros k;
    try (cbn; rewrite Ht; reflexivity).
  - apply (IH (S k)).
  - rewrite scan_app, IH1. cbn. rewrite Ht. apply (IH2 (S k)).
  - apply IH.
  - rewrite scan_app, IH1. apply IH2.
  - apply IH.
  - rewrite scan_app, (IH k). cbn. apply dup_type in D. destruct (tk_type t); try discriminate; reflexivity.
  - cbn. rewrite Ho, scan_app, (IH k). cbn. now rewrite Hc.
Qed.
(** The alternatives of a regex. *)
Inductive alternatives : rx -> list rx -> Prop :=
| al_one r : alternatives r [r]
| al_more a b rs : alternatives a rs -> alternatives (XAlt a b) (rs ++ [b]).
Lemma alternatives_lang b r rs : alternatives r rs -> forall x, xlang b r x <-> Exists (fun s => xlang b s x) rs.
Proof.
  induction 1 as [r|y z rs H IH]; intros x.
  - split; [auto|]. intros E. inversion E as [? ? H|? ? H]; subst; [auto|inversion H].
  - rewrite Exists_app, <- IH. cbn. split; (intros [H1|H1]; [now left|right]); [auto|]. inversion H1 as [? ? H2|? ? H2]; subst; [auto|inversion H2].
Qed.
Lemma part_between p : part (rev p) = between p.
Proof. unfold part, between. now rewrite rev_involutive. Qed.
Lemma split_gram r w : gram GRegex r w -> exists ps p rs s,
  (forall rest, split_loop (w ++ rest) 0 [] = do x <- split_loop rest 0 (rev p); Ok (map between ps ++ x)) /\
  alternatives r (rs ++ [s]) /\ Forall2 (gram GSeq) rs ps /\ gram GSeq s p.
Proof.
  remember GRegex as X eqn:EX. intros G. revert EX. induction G; intros EX; try discriminate.
  - exists [], w, [], r. split; [|split; [constructor|split; [constructor|auto]]].
    intros rest. rewrite (scan_split w rest 0 0 []) by exact (gram_scan _ _ _ G 0%nat). rewrite app_nil_r. now destruct (split_loop rest 0 (rev w)).
  - destruct (IHG1 eq_refl) as (ps & p & rs & s & H1 & H2 & H3 & H4).
    exists (ps ++ [p]), v, (rs ++ [s]), b. split; [|split; [now constructor|split; [apply Forall2_app; auto|auto]]].
    intros rest. rewrite <- app_assoc, H1. cbn [app split_loop]. rewrite H. cbn [Nat.eqb].
    rewrite (scan_split v rest 0 0 []) by exact (gram_scan _ _ _ G2 0%nat). rewrite app_nil_r.
    destruct (split_loop rest 0 (rev v)) as [x| | |]; cbn [bind]; try reflexivity.
    rewrite part_between, map_app, <- app_assoc. reflexivity.
Qed.
Theorem split_ok r w : gram GRegex r w -> exists ps rs, split (between w) = Ok (map between ps) /\
  alternatives r rs /\ Forall2 (gram GSeq) rs ps.
Proof.
  intros G. destruct (split_gram r w G) as (ps & p & rs & s & H1 & H2 & H3 & H4). exists (ps ++ [p]), (rs ++ [s]).
  split; [|split; [auto|apply Forall2_app; auto]].
  unfold split, between at 1. cbn [tl]. rewrite H1. cbn [split_loop tk_type tok bind]. now rewrite part_between, map_app.
Qed.
