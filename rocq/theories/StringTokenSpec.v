(** Independent meaning of character classes: sets of characters. *)
From Verif Require Import Base StringToken.
Local Open Scope N_scope.

(** Character [c] belongs to class [t]. *)
Definition mem (c : N) (t : stoken) : Prop :=
  exists a b, In (a, b) t /\ a <= c <= b.

Definition memb (c : N) (t : stoken) : bool :=
  existsb (fun r => (fst r <=? c) && (c <=? snd r)) t.

(** Normal form: non-empty ranges, sorted, with a gap of at least one
    character between consecutive ranges. *)
Fixpoint wf_from (lo : N) (t : stoken) : Prop :=
  match t with
  | [] => True
  | (a, b) :: t' => lo <= a /\ a <= b /\ wf_from (b + 2) t'
  end.
Definition wf (t : stoken) : Prop := wf_from 0 t.

(** All characters of [t] are at most [max]. *)
Definition bounded (max : N) (t : stoken) : Prop := forall c, mem c t -> c <= max.

(** Classes obtainable through the public operations of string_token over the
    characters 0..max, starting from the empty class. *)
Inductive built (max : N) : stoken -> Prop :=
| built_empty : built max []
| built_insert t a b : built max t -> a <= b -> b <= max -> built max (insert t (a, b))
| built_insert_token t u : built max t -> built max u -> built max (insert_token t u)
| built_negate t : built max t -> built max (negate max t)
| built_isect t u ov t' u' ov' : built max t -> built max u -> built max ov ->
    intersect t u ov = Ok (t', u', ov') -> built max t'
| built_isect_r t u ov t' u' ov' : built max t -> built max u -> built max ov ->
    intersect t u ov = Ok (t', u', ov') -> built max u'
| built_isect_ov t u ov t' u' ov' : built max t -> built max u -> built max ov ->
    intersect t u ov = Ok (t', u', ov') -> built max ov'
| built_remove t u t' : built max t -> built max u ->
    remove t u = Ok t' -> built max t'.
