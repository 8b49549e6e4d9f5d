(** What iterators over a stream should do: each variable is a place in the
    stream or the end. *)
From Verif Require Import Base StreamIter.
Local Open Scope nat_scope.

(** [AMaster]: made from the stream and not used yet. *)
Inductive place := AMaster | AAt (p : nat) | AEnd.

(** [a_moved]: some iterator has been advanced. *)
Record ideal := { a_vars : list (option place); a_moved : bool }.

Definition avar (a : ideal) (x : nat) : option place :=
  match nth_error (a_vars a) x with Some (Some p) => Some p | _ => None end.

(** The least place of the iterators. *)
Fixpoint alow (l : list (option place)) : option nat :=
  match l with
  | [] => None
  | Some (AAt p) :: l' => match alow l' with Some q => Some (Nat.min p q) | None => Some p end
  | _ :: l' => alow l'
  end.
(** Where the first use of the master takes it: to the beginning of the stream,
    or to the hindmost iterator once some have been advanced. *)
Definition first_place (strm : list N) (a : ideal) : option nat :=
  match strm with
  | [] => None
  | _ => match alow (a_vars a) with
         | Some p => Some p
         | None => if a_moved a then None else Some 0
         end
  end.
Definition place_of (strm : list N) (a : ideal) (x : nat) : option place :=
  match avar a x with
  | Some AMaster => match first_place strm a with Some p => Some (AAt p) | None => None end
  | o => o
  end.
Definition aset (a : ideal) (x : nat) (p : option place) : ideal :=
  {| a_vars := put (a_vars a) x p; a_moved := a_moved a |}.
Definition aadd (a : ideal) (p : place) : ideal := {| a_vars := a_vars a ++ [Some p]; a_moved := a_moved a |}.
Definition place_eqb (p q : place) : bool :=
  match p, q with
  | AAt i, AAt j => Nat.eqb i j
  | AEnd, AEnd => true
  | _, _ => false
  end.

(** [None]: not a proper use. Masters that have not been used can be copied,
    dereferenced, advanced and destroyed only. *)
Definition aexec (strm : list N) (a : ideal) (o : op) : option (ideal * out) :=
  match o with
  | ODefault => Some (aadd a AEnd, ONone)
  | OCopy y => match place_of strm a y with Some p => Some (aadd a p, ONone) | None => None end
  | OAssign x y =>
    match avar a x, avar a y with
    | Some AMaster, _ | _, Some AMaster => None
    | Some _, Some q => Some (aset a x (Some q), ONone)
    | _, _ => None
    end
  | ODestroy x => match avar a x with Some _ => Some (aset a x None, ONone) | None => None end
  | ODeref x =>
    match place_of strm a x with
    | Some (AAt p) => match nth_error strm p with
                      | Some c => Some (aset a x (Some (AAt p)), OChar c)
                      | None => None
                      end
    | _ => None
    end
  | OInc x =>
    match place_of strm a x with
    | Some (AAt p) =>
      Some ({| a_vars := put (a_vars a) x (Some (if Nat.ltb (S p) (length strm) then AAt (S p) else AEnd)); a_moved := true |}, ONone)
    | _ => None
    end
  | OEq x y =>
    match avar a x, avar a y with
    | Some AMaster, _ | _, Some AMaster => None
    | Some p, Some q => Some (a, OBool (place_eqb p q))
    | _, _ => None
    end
  end.
Fixpoint arun (strm : list N) (a : ideal) (l : list op) : option (list out) :=
  match l with
  | [] => Some []
  | o :: l' =>
    match aexec strm a o with
    | None => None
    | Some (a1, b) => match arun strm a1 l' with Some r => Some (b :: r) | None => None end
    end
  end.
Definition ideal_start : ideal := {| a_vars := [Some AMaster]; a_moved := false |}.
