(** Model of basic_char_state_machine (state_machine.hpp:213-510) and of
    sm_to_csm.hpp. A std::map from state index to character class is the list of
    its entries, in the order of the keys. *)
From Verif Require Import Base StateMachine StringToken Lookup Minimise.
Local Open Scope N_scope.

(** state_machine.hpp:228: push_pop_dfa. *)
Inductive kind := KNeither | KPush | KPop.

(** state_machine.hpp:223-237. *)
Record cstate := {
  cs_end : bool; cs_kind : kind; cs_id : N; cs_uid : N; cs_push : N; cs_next : N;
  cs_eol : N; cs_trans : list (N * stoken)
}.

(** state_machine.hpp:258-261. *)
Record cdfa := { cd_bol : N; cd_states : list cstate }.

(** find, then insert or insert into what is there (346-358, 487-500). *)
Fixpoint madd (q : N) (tok : stoken) (l : list (N * stoken)) : list (N * stoken) :=
  match l with
  | [] => [(q, tok)]
  | (p, u) :: l' =>
    if q <? p then (q, tok) :: l
    else if q =? p then (p, insert_token u tok) :: l'
    else (p, u) :: madd q tok l'
  end.

(** state_machine.hpp:339-360: the columns of one row; [tv] is token_vector_
    from the current column on. *)
Fixpoint add_columns (tv : list stoken) (cols : list N) (l : list (N * stoken))
    : option (list (N * stoken)) :=
  match cols with
  | [] => Some l
  | v :: cols' =>
    if 0 <? v then
      match tv with
      | [] => None
      | tok :: tv' => add_columns tv' cols' (madd (v - 1) tok l)
      end
    else add_columns (tl tv) cols' l
  end.

(** state_machine.hpp:312-361: one state. [npos] is the default of the indexes
    (232-236). *)
Definition char_state (npos : N) (tv : list stoken) (row : list N) : option cstate :=
  match row with
  | e :: id :: uid :: push :: next :: eol :: _ :: cols =>
    match add_columns tv cols [] with
    | None => None
    | Some tr =>
      Some {| cs_end := negb (e =? 0);
              cs_kind := if negb (push =? npos) then KPush
                         else if negb (N.land e sb_pop =? 0) then KPop else KNeither;
              cs_id := id; cs_uid := uid; cs_push := push; cs_next := next;
              cs_eol := if eol =? 0 then npos else eol - 1;
              cs_trans := tr |}
    end
  | _ => None
  end.
Fixpoint char_states (npos : N) (tv : list stoken) (rows : list (list N)) : option (list cstate) :=
  match rows with
  | [] => Some []
  | row :: rows' =>
    match char_state npos tv row, char_states npos tv rows' with
    | Some a, Some b => Some (a :: b)
    | _, _ => None
    end
  end.

(** state_machine.hpp:288-362: append. The number of states is that of the whole
    rows after the first one; a vector shorter than one row, or a width below 7,
    would be overrun. *)
Definition append (npos : N) (tv : list stoken) (t : table) : option cdfa :=
  let w := N.to_nat (t_width t) in
  if Nat.ltb (length (t_dfa t)) w || Nat.ltb w 7 then None
  else
    match t_dfa t with
    | [] => None
    | bol :: _ =>
      match char_states npos tv (chunk ((length (t_dfa t) - w) / w) w (skipn w (t_dfa t))) with
      | None => None
      | Some l => Some {| cd_bol := if bol =? 0 then npos else bol - 1; cd_states := l |}
      end
    end.

(** sm_to_csm.hpp:38-48: the classes of the columns; [c] is the current
    character. *)
Fixpoint column_tokens (c : N) (lk : list N) (tv : list stoken) : option (list stoken) :=
  match lk with
  | [] => Some tv
  | v :: lk' =>
    if v <? ix_trans then column_tokens (c + 1) lk' tv
    else
      match nth_error tv (N.to_nat (v - ix_trans)) with
      | None => None
      | Some tok => column_tokens (c + 1) lk' (upd tv (N.to_nat (v - ix_trans)) (insert tok (c, c)))
      end
  end.

(** sm_to_csm.hpp:33-50: one start state. The lookup vector has to have 256
    entries; exactly the first 256 are read. *)
Definition table_to_csm (npos : N) (t : table) : option cdfa :=
  if Nat.ltb (length (t_lookup t)) 256 || (t_width t <? ix_trans) then None
  else
    match column_tokens 0 (firstn 256 (t_lookup t)) (repeat [] (N.to_nat (t_width t - ix_trans))) with
    | None => None
    | Some tv => append npos tv t
    end.

(** sm_to_csm.hpp:29-51, from start state [i]. *)
Fixpoint tables_to_csm (npos : N) (m : internals) (n : nat) (i : N) : option (list cdfa) :=
  match n with
  | O => Some []
  | S n' =>
    match get_table m i with
    | None => None
    | Some t =>
      if t_width t =? 0 then tables_to_csm npos m n' (i + 1)            (* 31 *)
      else
        match table_to_csm npos t, tables_to_csm npos m n' (i + 1) with
        | Some d, Some l => Some (d :: l)
        | _, _ => None
        end
    end
  end.
Definition sm_to_csm (npos : N) (m : internals) : option (list cdfa) :=
  tables_to_csm npos m (length (i_dfa m)) 0.

(** state_machine.hpp:239-249: operator ==. *)
Definition kind_eqb (a b : kind) : bool :=
  match a, b with
  | KNeither, KNeither | KPush, KPush | KPop, KPop => true
  | _, _ => false
  end.
Fixpoint trans_eqb (a b : list (N * stoken)) : bool :=
  match a, b with
  | [], [] => true
  | (p, t) :: a', (q, u) :: b' => (p =? q) && st_eqb t u && trans_eqb a' b'
  | _, _ => false
  end.
Definition cstate_eqb (a b : cstate) : bool :=
  Bool.eqb (cs_end a) (cs_end b) && kind_eqb (cs_kind a) (cs_kind b) && (cs_id a =? cs_id b) &&
  (cs_uid a =? cs_uid b) && (cs_push a =? cs_push b) && (cs_next a =? cs_next b) &&
  (cs_eol a =? cs_eol b) && trans_eqb (cs_trans a) (cs_trans b).

(** What is known about a state: membership in index_set_ and its entry in
    lookup_. *)
Definition centry := (cstate * bool * N)%type.

(** state_machine.hpp:432-445: the inner loop for state [x]. *)
Definition cmark (x : cstate) (new_index : N) (e : centry) : centry :=
  let '(y, dup, lk) := e in
  if dup then e else if cstate_eqb x y then (y, true, new_index) else e.

(** state_machine.hpp:428-452: the outer loop; [n] states are left. *)
Fixpoint cnumber (npos : N) (n : nat) (new_index : N) (l : list centry) : list (bool * N) :=
  match n, l with
  | S n', (x, dup, lk) :: rest =>
    let rest' := map (cmark x new_index) rest in
    if lk =? npos then (dup, new_index) :: cnumber npos n' (new_index + 1) rest'
    else (dup, lk) :: cnumber npos n' new_index rest'
  | _, _ => []
  end.

(** state_machine.hpp:485-501: the transitions of a copied state. *)
Fixpoint retarget (lks : list N) (tr : list (N * stoken)) (l : list (N * stoken))
    : option (list (N * stoken)) :=
  match tr with
  | [] => Some l
  | (q, tok) :: tr' =>
    match nth_error lks (N.to_nat q) with
    | None => None
    | Some q' => retarget lks tr' (madd q' tok l)
    end
  end.

(** state_machine.hpp:475-501: a copied state. _id is set from _end_state, and
    _push_pop_dfa and _push_dfa keep their defaults. *)
Definition new_state (npos : N) (lks : list N) (s : cstate) : option cstate :=
  match (if cs_eol s =? npos then Some npos else nth_error lks (N.to_nat (cs_eol s))),
        retarget lks (cs_trans s) [] with
  | Some eol, Some tr =>
    Some {| cs_end := cs_end s; cs_kind := KNeither; cs_id := if cs_end s then 1 else 0;
            cs_uid := cs_uid s; cs_push := npos; cs_next := cs_next s; cs_eol := eol;
            cs_trans := tr |}
  | _, _ => None
  end.

(** state_machine.hpp:467-505: the states that are kept. *)
Fixpoint new_states (npos : N) (lks : list N) (l : list cstate) (marks : list (bool * N))
    : option (list cstate) :=
  match l, marks with
  | s :: l', (dup, _) :: marks' =>
    if dup then new_states npos lks l' marks'
    else match new_state npos lks s, new_states npos lks l' marks' with
         | Some a, Some b => Some (a :: b)
         | _, _ => None
         end
  | _, _ => Some []
  end.

(** state_machine.hpp:418-509: minimise_dfa. *)
Definition cminimise_dfa (npos : N) (d : cdfa) : option cdfa :=
  let marks := cnumber npos (length (cd_states d)) 0 (map (fun s => (s, false, npos)) (cd_states d)) in
  if existsb fst marks then
    let lks := map snd marks in
    match (if cd_bol d =? npos then Some npos else nth_error lks (N.to_nat (cd_bol d))),
          new_states npos lks (cd_states d) marks with
    | Some b, Some l => Some {| cd_bol := b; cd_states := l |}
    | _, _ => None
    end
  else Some d.

(** state_machine.hpp:384-390: the do-while loop. *)
Fixpoint cminimise_loop (fuel : nat) (npos : N) (d : cdfa) : res cdfa :=
  match cminimise_dfa npos d with
  | None => UB
  | Some d' =>
    if Nat.eqb (length (cd_states d')) (length (cd_states d)) then Ok d'
    else match fuel with O => Fuel | S f => cminimise_loop f npos d' end
  end.

(** state_machine.hpp:374-393: minimise. *)
Fixpoint cminimise (npos : N) (l : list cdfa) : res (list cdfa) :=
  match l with
  | [] => Ok []
  | d :: l' =>
    do d' <- (if Nat.eqb (length (cd_states d)) 0 then Ok d
              else cminimise_loop (length (cd_states d)) npos d);
    do r <- cminimise npos l';
    Ok (d' :: r)
  end.
