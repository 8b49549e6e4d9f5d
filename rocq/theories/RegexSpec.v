(** Specification of regular expressions over an arbitrary alphabet: the
    language of an expression, independent of trees and automata. *)
From Verif Require Import Base.

(** Zero or more words of [L] one after the other. *)
Inductive star {A} (L : list A -> Prop) : list A -> Prop :=
| star_nil : star L []
| star_app u v : L u -> star L v -> star L (u ++ v).

(** Exactly [k] words of [L] one after the other. *)
Fixpoint power {A} (L : list A -> Prop) (k : nat) (w : list A) : Prop :=
  match k with
  | O => w = []
  | S k' => exists u v, w = u ++ v /\ L u /\ power L k' v
  end.

(** Regular expressions; [RTok t] stands for one symbol of class number [t]. *)
Inductive re :=
| REps
| RTok (t : N)
| RCat (a b : re)
| RAlt (a b : re)
| RStar (a : re)
| RPlus (a : re)
| ROpt (a : re)
| RRep (a : re) (min : nat) (max : option nat).

Section Lang.
  Context {A : Type}.
  Variable sem : N -> A -> Prop.
  Fixpoint lang (r : re) (w : list A) : Prop :=
    match r with
    | REps => w = []
    | RTok t => exists a, w = [a] /\ sem t a
    | RCat a b => exists u v, w = u ++ v /\ lang a u /\ lang b v
    | RAlt a b => lang a w \/ lang b w
    | RStar a => exists k, power (lang a) k w
    | RPlus a => exists k, (1 <= k)%nat /\ power (lang a) k w
    | ROpt a => w = [] \/ lang a w
    | RRep a mn mx =>
      exists k, (mn <= k)%nat /\ match mx with Some m => (k <= m)%nat | None => True end
                /\ power (lang a) k w
    end.
End Lang.
