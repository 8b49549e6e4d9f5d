(** Model of state_machine.hpp:66-206: basic_state_machine::minimise. The flat
    vector is cut into rows of dfa_alphabet_ cells, which is how the pointers
    first_, second_, ptr_ and new_ptr_ step over it. *)
From Verif Require Import Base StateMachine.
Local Open Scope N_scope.

(** Cut a flat vector into [n] rows of [w] cells. *)
Fixpoint chunk (n : nat) (w : nat) (l : list N) : list (list N) :=
  match n with
  | O => []
  | S n' => firstn w l :: chunk n' w (skipn w l)
  end.

(** memcmp(first_, second_, ...) == 0 (state_machine.hpp:145-146). *)
Fixpoint row_eqb (a b : list N) : bool :=
  match a, b with
  | [], [] => true
  | x :: a', y :: b' => (x =? y) && row_eqb a' b'
  | _, _ => false
  end.

(** What is known about a row: its cells, membership in index_set_ and its
    entry in lookup_. *)
Definition entry := (list N * bool * N)%type.

(** state_machine.hpp:132-151: the inner loop for row [x]. *)
Definition mark (x : list N) (new_index : N) (e : entry) : entry :=
  let '(y, dup, lk) := e in
  if dup then e else if row_eqb x y then (y, true, new_index) else e.

(** state_machine.hpp:127-158: the outer loop; [n] is the number of rows left.
    Gives index_set_ and lookup_ for those rows. *)
Fixpoint number (npos : N) (n : nat) (new_index : N) (l : list entry) : list (bool * N) :=
  match n, l with
  | S n', (x, dup, lk) :: rest =>
    let rest' := map (mark x new_index) rest in
    if lk =? npos then (dup, new_index) :: number npos n' (new_index + 1) rest'
    else (dup, lk) :: number npos n' new_index rest'
  | _, _ => []
  end.

(** lookup_ptr_[v]. *)
Definition renumber (lks : list N) (v : N) : option N := nth_error lks (N.to_nat v).
Fixpoint renumber_all (lks : list N) (l : list N) : option (list N) :=
  match l with
  | [] => Some []
  | v :: l' => match renumber lks v, renumber_all lks l' with
               | Some a, Some b => Some (a :: b)
               | _, _ => None
               end
  end.

(** state_machine.hpp:184-200: one copied row. The dead column keeps the 0 it
    got from resize (171). *)
Definition new_row (lks : list N) (row : list N) : option (list N) :=
  match row with
  | c0 :: c1 :: c2 :: c3 :: c4 :: eol :: _ :: trans =>
    match renumber lks eol, renumber_all lks trans with
    | Some e, Some t => Some (c0 :: c1 :: c2 :: c3 :: c4 :: e :: 0 :: t)
    | _, _ => None
    end
  | _ => None
  end.

(** state_machine.hpp:176-202: the rows that are kept. *)
Fixpoint new_rows (lks : list N) (rows : list (list N)) (marks : list (bool * N))
    : option (list (list N)) :=
  match rows, marks with
  | row :: rows', (dup, _) :: marks' =>
    if dup then new_rows lks rows' marks'
    else match new_row lks row, new_rows lks rows' marks' with
         | Some a, Some b => Some (a :: b)
         | _, _ => None
         end
  | _, _ => Some []
  end.

(** state_machine.hpp:108-206: minimise_dfa, on rows. *)
Definition minimise_rows (npos : N) (rows : list (list N)) : option (list (list N)) :=
  match rows with
  | [] => Some []                                         (* 113 *)
  | row0 :: rest =>
    let marks := number npos (length rest) 1 (map (fun r => (r, false, npos)) rest) in
    if existsb fst marks then
      let lks := 0 :: map snd marks in
      match row0 with
      | [] => None
      | bol :: row0' =>
        match (if bol =? 0 then Some 0 else renumber lks bol), new_rows lks rest marks with
        | Some b, Some rs => Some ((b :: row0') :: rs)
        | _, _ => None
        end
      end
    else Some rows
  end.

(** state_machine.hpp:108-206: minimise_dfa. A vector that is not made of whole
    rows would be overrun. *)
Definition minimise_dfa (npos w : N) (dfa : list N) : option (list N) :=
  let size := N.of_nat (length dfa) in
  if (size mod w =? 0) then
    option_map (@concat N)
      (minimise_rows npos (chunk (N.to_nat (size / w)) (N.to_nat w) dfa))
  else None.

(** state_machine.hpp:76-82: the do-while loop. *)
Fixpoint minimise_loop (fuel : nat) (npos w : N) (dfa : list N) : res (list N) :=
  match minimise_dfa npos w dfa with
  | None => UB
  | Some dfa' =>
    if Nat.eqb (length dfa') (length dfa) then Ok dfa'
    else match fuel with O => Fuel | S f => minimise_loop f npos w dfa' end
  end.

Fixpoint minimise_all (npos : N) (alphabets : list N) (dfas : list (list N))
    : res (list (list N)) :=
  match dfas with
  | [] => Ok []
  | d :: dfas' =>
    match alphabets with
    | [] => UB
    | w :: alphabets' =>
      do d' <- (if w =? 0 then Ok d else minimise_loop (length d) npos w d);
      do l <- minimise_all npos alphabets' dfas';
      Ok (d' :: l)
    end
  end.

(** state_machine.hpp:66-86: minimise. *)
Definition minimise (bits : N) (m : internals) : res internals :=
  do d <- minimise_all (npos_of bits) (i_alphabet m) (i_dfa m);
  Ok {| i_eoi := i_eoi m; i_lookup := i_lookup m; i_alphabet := i_alphabet m;
        i_features := i_features m; i_dfa := d |}.
