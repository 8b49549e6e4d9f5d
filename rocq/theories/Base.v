(** Common vocabulary of the model: outcomes of C++ functions. *)
From Coq Require Export List Arith NArith ZArith Lia Bool.
From Coq Require Export ZifyBool ZifyNat ZifyN.
Export ListNotations.

Arguments N.add : simpl never.
Arguments N.sub : simpl never.
Arguments N.mul : simpl never.
Arguments N.eqb : simpl never.
Arguments N.ltb : simpl never.
Arguments N.leb : simpl never.
Arguments N.div : simpl never.
Arguments N.modulo : simpl never.
Arguments N.land : simpl never.
Arguments N.lor : simpl never.
Arguments N.shiftl : simpl never.
Arguments N.shiftr : simpl never.
Arguments N.pow : simpl never.

(** Which exception was thrown; one constructor per distinguishable C++ throw
    site family (the text of the message is not modelled). *)
Inductive err : Type :=
| ESyntax            (* parser.hpp:130-140, rules.hpp:644-672 *)
| EInternal          (* parser.hpp:299-303 *)
| EEmptyState        (* generator.hpp:62-69 *)
| EZeroLen           (* generator.hpp:539-561 *)
| ESuppressed        (* generator.hpp:563-582 *)
| EOverflow          (* generator.hpp:87-93, 232-237; rules.hpp:222-227 *)
| EUnderflow         (* lookup.hpp:315-317 *)
| EInvalidUtf        (* utf_iterators.hpp:249-252, 510-513 *)
| ETruncatedUtf      (* utf_iterators.hpp:244-247, 505-508 *)
| EBadId             (* rules.hpp:1294-1306 *)
| EBadName           (* rules.hpp:1254-1292 *)
| EUnknownState      (* rules.hpp:1119-1143, 1181-1190 *)
| EMacro             (* rules.hpp:263-268, 684-693 *)
| EDiff              (* rules.hpp:710-732, 807-826, 837-882 *)
| EEmptyRegex        (* rules.hpp:893-915 *)
| ETokenise          (* re_tokeniser.hpp, re_tokeniser_helper.hpp *)
| ELoad              (* serialise.hpp *)
| EOther.

(** Outcome of a C++ call: normal return, exception, undefined behaviour,
    or exhaustion of a model-only loop bound. *)
Inductive res (A : Type) : Type :=
| Ok (a : A)
| Throw (e : err)
| UB
| Fuel.
Arguments Ok {A} a.
Arguments Throw {A} e.
Arguments UB {A}.
Arguments Fuel {A}.

Definition bind {A B} (x : res A) (f : A -> res B) : res B :=
  match x with
  | Ok a => f a
  | Throw e => Throw e
  | UB => UB
  | Fuel => Fuel
  end.
Notation "'do' p <- x ; y" := (bind x (fun p => y))
  (at level 200, p pattern, x at level 100, y at level 200).

Definition of_opt {A} (x : option A) : res A :=
  match x with Some a => Ok a | None => UB end.

(** Replace element [i] of a list ([ptr_[i] = v]); no effect out of range. *)
Fixpoint upd {A} (l : list A) (i : nat) (v : A) : list A :=
  match l, i with
  | [], _ => []
  | _ :: t, O => v :: t
  | x :: t, S i' => x :: upd t i' v
  end.

Lemma upd_length A (l : list A) i v : length (upd l i v) = length l.
Proof. revert i; induction l as [|x l IH]; intros [|i]; cbn; auto. Qed.

Lemma nth_error_upd_eq A (l : list A) i v :
  i < length l -> nth_error (upd l i v) i = Some v.
Proof.
  revert i; induction l as [|x l IH]; intros [|i] H; cbn in *; try lia; auto.
  apply IH; lia.
Qed.

Lemma nth_error_upd_neq A (l : list A) i j v :
  i <> j -> nth_error (upd l i v) j = nth_error l j.
Proof.
  revert i j; induction l as [|x l IH]; intros [|i] [|j] H; cbn; auto; try lia.
Qed.
