(** Denotation of syntax trees and the abstract position automaton. *)
From Verif Require Import Base Tree RegexSpec.

Fixpoint leaves (n : node) : list (nat * N) :=
  match n with
  | NNull _ | NEnd _ => []
  | NLeaf t p => [(p, t)]
  | NSeq l r | NSel l r => leaves l ++ leaves r
  | NIter n _ => leaves n
  end.
Definition poss (n : node) : list nat := map fst (leaves n).

(** No end node inside. *)
Fixpoint pure (n : node) : bool :=
  match n with
  | NNull _ | NLeaf _ _ => true
  | NSeq l r | NSel l r => pure l && pure r
  | NIter n _ => pure n
  | NEnd _ => false
  end.

(** Position [q] can come directly after position [p]. *)
Fixpoint fol (n : node) (p q : nat) : Prop :=
  match n with
  | NNull _ | NLeaf _ _ | NEnd _ => False
  | NSeq l r => fol l p q \/ fol r p q \/ (In p (lastpos l) /\ In q (firstpos r))
  | NSel l r => fol l p q \/ fol r p q
  | NIter n _ => fol n p q \/ (In p (lastpos n) /\ In q (firstpos n))
  end.

Section Den.
  Context {A : Type}.
  Variable sem : N -> A -> Prop.

  Fixpoint den (n : node) (w : list A) : Prop :=
    match n with
    | NNull _ => w = []
    | NLeaf t _ => exists a, w = [a] /\ sem t a
    | NSeq l r => exists u v, w = u ++ v /\ den l u /\ den r v
    | NSel l r => den l w \/ den r w
    | NIter n _ => star (den n) w
    | NEnd _ => False
    end.

  Definition reads (n : node) (p : nat) (a : A) : Prop :=
    exists t, In (p, t) (leaves n) /\ sem t a.

  (** The words that lead from position [p] (next to be read) to the end of [n]. *)
  Fixpoint suf (n : node) (w : list A) (p : nat) : Prop :=
    match w with
    | [] => False
    | a :: w' => reads n p a /\
                 ((w' = [] /\ In p (lastpos n)) \/ exists q, fol n p q /\ suf n w' q)
    end.

  Definition auto (n : node) (w : list A) : Prop :=
    (w = [] /\ nullable n = true) \/ exists p, In p (firstpos n) /\ suf n w p.
End Den.
