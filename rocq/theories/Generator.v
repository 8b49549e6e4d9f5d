(** Model of include/lexertl/generator.hpp: from the syntax tree of one start
    state to its transition table. The table is kept as a list of rows of equal
    width; in the code it is the concatenation of these rows. State numbers are
    unbounded here: the code computes them modulo 2^bits, but a table with
    npos or more rows is rejected at the end in both (generator.hpp:87-93).
    Sets of nodes are compared as sets: equal sets of pointers have equal
    hashes (generator.hpp:929-934). *)
From Verif Require Import Base StringToken StateMachine Tree Partition.
Local Open Scope N_scope.

(** Template arguments: number of bits of id_type, bytes of the input character
    type (more than 1 means compressed). *)
Record gcfg := { g_bits : N; g_bytes : N }.
Definition gnpos (k : gcfg) : N := npos_of (g_bits k).
(** parser.hpp:181-189, node.hpp:39-42 *)
Definition bol_tok (k : gcfg) : N := gnpos k - 1.
Definition eol_tok (k : gcfg) : N := gnpos k - 2.
Definition compressed (k : gcfg) : bool := 1 <? g_bytes k.

(** enums.hpp: the two regex flags the generator looks at. *)
Record gflags := { zero_len_ok : bool; suppressed_ok : bool }.

(** generator.hpp:879-894: fill_lookup for one charset. *)
Definition fill_range (col : N) (lk : list N) (r : N * N) : res (list N) :=
  if snd r <? N.of_nat (length lk) then
    Ok (fold_left (fun lk i => upd lk (N.to_nat (fst r) + i) col)
          (seq 0 (N.to_nat (snd r) + 1 - N.to_nat (fst r))) lk)
  else UB.
Fixpoint fill_lookup (col : N) (t : stoken) (lk : list N) : res (list N) :=
  match t with
  | [] => Ok lk
  | r :: t' => do lk' <- fill_range col lk r; fill_lookup col t' lk'
  end.

(** generator.hpp:866-869: set_mapping_[i_].insert(index_). *)
Definition map_insert (index : N) (sm : list (list N)) (i : N) : res (list (list N)) :=
  match nth_error sm (N.to_nat i) with
  | Some s => Ok (upd sm (N.to_nat i) (sins index s))
  | None => UB
  end.
Fixpoint map_inserts (index : N) (is : list N) (sm : list (list N)) : res (list (list N)) :=
  match is with
  | [] => Ok sm
  | i :: is' => do sm' <- map_insert index sm i; map_inserts index is' sm'
  end.

(** generator.hpp:854-871: build_set_mapping. *)
Fixpoint build_set_mapping (index : N) (l : list charset) (lk : list N) (sm : list (list N))
    : res (list N * list (list N)) :=
  match l with
  | [] => Ok (lk, sm)
  | c :: l' =>
    do lk' <- fill_lookup (index + ix_trans) (cs_token c) lk;
    do sm' <- map_inserts index (cs_index c) sm;
    build_set_mapping (index + 1) l' lk' sm'
  end.

(** ** Node accessors *)
Definition end_node (s : store) (p : nat) : res bool :=
  match nth_error s p with Some (PEnd _) => Ok true | Some (PLeaf _ _ _) => Ok false | None => UB end.
Definition token_of (s : store) (p : nat) : res N :=
  match nth_error s p with Some (PLeaf t _ _) => Ok t | Some (PEnd _) => Throw EInternal | None => UB end.
Definition follow_of (s : store) (p : nat) : res (list nat) :=
  match nth_error s p with Some (PLeaf _ _ f) => Ok f | Some (PEnd _) => Ok [] | None => UB end.

(** set_mapping_[node_->token()], then a search for [id] in it. *)
Definition token_has (s : store) (sm : list (list N)) (id : N) (p : nat) : res bool :=
  do t <- token_of s p;
  match nth_error sm (N.to_nat t) with
  | Some set => Ok (existsb (N.eqb id) set)
  | None => UB
  end.

(** Is there an end node among [ps]? (generator.hpp:365-371, 394-400, ...) *)
Fixpoint any_end (s : store) (ps : list nat) : res bool :=
  match ps with
  | [] => Ok false
  | p :: ps' => do b <- end_node s p; if b then Ok true else any_end s ps'
  end.

Definition erase_at {A} (l : list A) (i : nat) : list A := firstn i l ++ skipn (S i) l.

(** generator.hpp:347-384: the loop over cr_followpos_ inside prune_NL. [j] is
    nl_iter_; erase at the end is undefined. *)
Fixpoint prune_cr (s : store) (sm : list (list N)) (nl : N) (crf : list nat)
    (fp : list nat) (j : nat) : res (list nat) :=
  match crf with
  | [] => Ok fp
  | c :: crf' =>
    do e <- end_node s c;
    if e then prune_cr s sm nl crf' fp j
    else
      do h <- token_has s sm nl c;
      if h then
        do nf <- follow_of s c;
        do found <- any_end s nf;
        if found then
          if Nat.ltb j (length fp) then prune_cr s sm nl crf' (erase_at fp j) j else UB
        else prune_cr s sm nl crf' fp j
      else prune_cr s sm nl crf' fp j
  end.

(** generator.hpp:324-416: prune_NL, from nl_iter_ = [j] on. *)
Fixpoint prune_NL (fuel : nat) (s : store) (sm : list (list N)) (cr nl : N)
    (fp : list nat) (j : nat) : res (list nat) :=
  match fuel with
  | O => Fuel
  | S f =>
    match nth_error fp j with
    | None => Ok fp
    | Some p =>
      do e <- end_node s p;
      if e then prune_NL f s sm cr nl fp (S j)                      (* 339-343 *)
      else
        do hc <- token_has s sm cr p;                               (* 345-347 *)
        do fp1 <- (if hc then do cf <- follow_of s p; prune_cr s sm nl cf fp j else Ok fp);
        if Nat.eqb j (length fp1) then Ok fp1                       (* 386-387 *)
        else
          do hn <- token_has s sm nl p;                             (* 389-391 *)
          if hn then
            do nf <- follow_of s p;
            do found <- any_end s nf;
            if found then prune_NL f s sm cr nl (erase_at fp1 j) j  (* 404-411 *)
            else prune_NL f s sm cr nl fp1 (S j)
          else prune_NL f s sm cr nl fp1 (S j)
    end
  end.

(** generator.hpp:461-477 and 495-511: erase all EOL tokens from nl_iter_ on.
    The last node looked at stays in node_. *)
Fixpoint erase_eols (fuel : nat) (k : gcfg) (s : store) (fp : list nat) (j : nat) (node : nat)
    : res (list nat * nat) :=
  match fuel with
  | O => Fuel
  | S f =>
    match nth_error fp j with
    | None => Ok (fp, node)
    | Some p =>
      do e <- end_node s p;
      do t <- (if e then Ok 0 else token_of s p);
      if negb e && (t =? eol_tok k) then erase_eols f k s (erase_at fp j) j p
      else erase_eols f k s fp (S j) p
    end
  end.

(** generator.hpp:431-480: the cr part of prune_eol. Note that node_ is
    overwritten by the search (466) and used again afterwards (485). *)
Fixpoint prune_eol_cr (k : gcfg) (s : store) (sm : list (list N)) (nl : N) (crf : list nat)
    (fp : list nat) (i node : nat) : res (list nat * nat) :=
  match crf with
  | [] => Ok (fp, node)
  | c :: crf' =>
    do e <- end_node s c;
    if e then prune_eol_cr k s sm nl crf' fp i node
    else
      do h <- token_has s sm nl c;
      if h then
        do nf <- follow_of s c;
        do found <- any_end s nf;
        if found then
          do x <- erase_eols (S (length fp)) k s fp (S i) node;
          prune_eol_cr k s sm nl crf' (fst x) i (snd x)
        else prune_eol_cr k s sm nl crf' fp i node
      else prune_eol_cr k s sm nl crf' fp i node
  end.

(** generator.hpp:418-515: prune_eol at iter_ = [i]. *)
Definition prune_eol (k : gcfg) (s : store) (sm : list (list N)) (cr nl : N)
    (fp : list nat) (i p : nat) : res (list nat) :=
  do t <- token_of s p;
  match nth_error sm (N.to_nat t) with
  | None => UB
  | Some set =>
    do x <- (if existsb (N.eqb cr) set then
               do cf <- follow_of s p; prune_eol_cr k s sm nl cf fp i p
             else Ok (fp, p));
    if existsb (N.eqb nl) set then                                  (* 483 *)
      do nf <- follow_of s (snd x);                                 (* 485 *)
      do found <- any_end s nf;
      if found then
        do y <- erase_eols (S (length (fst x))) k s (fst x) (S i) (snd x);
        Ok (fst y)
      else Ok (fst x)
    else Ok (fst x)
  end.

(** generator.hpp:297-322: prune_eol_clashes, from iter_ = [i] on. *)
Fixpoint prune_clashes (fuel : nat) (k : gcfg) (s : store) (sm : list (list N)) (cr nl : N)
    (fp : list nat) (i : nat) : res (list nat) :=
  match fuel with
  | O => Fuel
  | S f =>
    match nth_error fp i with
    | None => Ok fp
    | Some p =>
      do e <- end_node s p;
      if e then prune_clashes f k s sm cr nl fp (S i)
      else
        do t <- token_of s p;
        do fp' <- (if t =? eol_tok k then prune_NL (S (length fp)) s sm cr nl fp (S i)
                   else prune_eol k s sm cr nl fp i p);
        prune_clashes f k s sm cr nl fp' (S i)
    end
  end.

(** ** closure *)
(** generator.hpp:972-1008: closure_ex. The first end node decides the row. *)
Record cacc := { a_end : option einfo; a_vec : list nat; a_used : list N }.
Definition closure_ex (fl : gflags) (s : store) (a : cacc) (p : nat) : res cacc :=
  match nth_error s p with
  | None => UB
  | Some i =>
    let vec := add_follow (a_vec a) p in
    match i, a_end a with
    | PEnd e, None =>
      Ok {| a_end := Some e; a_vec := vec;
            a_used := if suppressed_ok fl then a_used a else sins (e_unique e) (a_used a) |}
    | _, _ => Ok {| a_end := a_end a; a_vec := vec; a_used := a_used a |}
    end
  end.
Fixpoint closure_exs (fl : gflags) (s : store) (a : cacc) (ps : list nat) : res cacc :=
  match ps with
  | [] => Ok a
  | p :: ps' => do a' <- closure_ex fl s a p; closure_exs fl s a' ps'
  end.

(** operator== of std::set<node*>; both vectors are without repetition. *)
Definition subsetb (a b : list nat) : bool := forallb (fun x => existsb (Nat.eqb x) b) a.
Definition seteqb (a b : list nat) : bool := subsetb a b && subsetb b a.

(** generator.hpp:924-934: position among the sets seen so far. *)
Fixpoint find_seen (v : list nat) (seen : list (list nat)) : option nat :=
  match seen with
  | [] => None
  | x :: seen' =>
    if seteqb x v then Some O
    else match find_seen v seen' with Some i => Some (S i) | None => None end
  end.

(** generator.hpp:946-966: a new row. *)
Definition greedyb (g : greedy) : bool := match g with GNo => false | _ => true end.
Definition end_bits (e : einfo) : N :=
  N.lor (N.lor sb_end (if greedyb (e_greedy e) then sb_greedy else 0))
        (if e_pop e then sb_pop else 0).
Definition fresh_row (width : nat) (i : option einfo) : list N :=
  match i with
  | None => repeat 0 width
  | Some e => [end_bits e; e_id e; e_uid e; e_push e; e_next e] ++ repeat 0 (width - 5)
  end.

Record dstate := { d_seen : list (list nat); d_rows : list (list N); d_used : list N;
                   d_eol : list N }.

(** generator.hpp:897-970: closure; None is npos. *)
Definition closure (fl : gflags) (s : store) (width : nat) (fp : list nat) (d : dstate)
    : res (option N * dstate) :=
  match fp with
  | [] => Ok (None, d)
  | _ =>
    do a <- closure_exs fl s {| a_end := None; a_vec := []; a_used := d_used d |} fp;
    match find_seen (a_vec a) (d_seen d) with
    | Some i => Ok (Some (N.of_nat (S i)),
                    {| d_seen := d_seen d; d_rows := d_rows d; d_used := a_used a;
                       d_eol := d_eol d |})
    | None =>
      Ok (Some (N.of_nat (S (length (d_seen d)))),
          {| d_seen := d_seen d ++ [a_vec a];
             d_rows := d_rows d ++ [fresh_row width (a_end a)];
             d_used := a_used a; d_eol := d_eol d |})
    end
  end.

(** ** Transitions *)
(** generator.hpp:1077-1110: fill_rhs_list. *)
Fixpoint fill_equivs (k : gcfg) (s : store) (sm : list (list N)) (v : list nat)
    : res (list equivset) :=
  match v with
  | [] => Ok []
  | p :: v' =>
    match nth_error s p with
    | None => UB
    | Some (PEnd _) => fill_equivs k s sm v'
    | Some (PLeaf t g f) =>
      if t =? gnpos k then fill_equivs k s sm v'
      else
        do set <- (if (t =? bol_tok k) || (t =? eol_tok k) then Ok [t]
                   else of_opt (nth_error sm (N.to_nat t)));
        do l <- fill_equivs k s sm v';
        Ok ({| q_index := set; q_id := t; q_greedy := g; q_follow := f |} :: l)
    end
  end.

(** generator.hpp:1020-1075 *)
Definition build_equiv_list (k : gcfg) (s : store) (sm : list (list N)) (v : list nat)
    : res (list equivset) :=
  do l <- fill_equivs k s sm v; worklist eq_empty eq_intersect l.

(** Write one cell of the table. *)
Definition set_cell (rows : list (list N)) (row col : nat) (v : N) : res (list (list N)) :=
  match nth_error rows row with
  | Some r => if Nat.ltb col (length r) then Ok (upd rows row (upd r col v)) else UB
  | None => UB
  end.

(** generator.hpp:517-537: set_transitions. *)
Definition set_transition (k : gcfg) (tr : N) (row : nat) (d : dstate) (i : N) : res dstate :=
  if i =? bol_tok k then
    do rows <- set_cell (d_rows d) 0 0 tr;
    Ok {| d_seen := d_seen d; d_rows := rows; d_used := d_used d; d_eol := d_eol d |}
  else if i =? eol_tok k then
    do rows <- set_cell (d_rows d) row (N.to_nat ix_eol) tr;
    Ok {| d_seen := d_seen d; d_rows := rows; d_used := d_used d;
          d_eol := sins (N.of_nat row) (d_eol d) |}
  else
    do rows <- set_cell (d_rows d) row (N.to_nat (i + ix_trans)) tr;
    Ok {| d_seen := d_seen d; d_rows := rows; d_used := d_used d; d_eol := d_eol d |}.
Fixpoint set_transitions (k : gcfg) (tr : N) (row : nat) (is : list N) (d : dstate) : res dstate :=
  match is with
  | [] => Ok d
  | i :: is' => do d' <- set_transition k tr row d i; set_transitions k tr row is' d'
  end.

(** generator.hpp:265-269: the transition is dropped. *)
Definition abstains (e : N) (g : greedy) : bool :=
  negb (e =? 0) && (N.land e sb_greedy =? 0) && negb (greedyb g).

(** generator.hpp:246-283: one equivset of the state with row number [row]. *)
Definition do_equiv (k : gcfg) (fl : gflags) (s : store) (sm : list (list N)) (cr nl : N)
    (width row : nat) (d : dstate) (q : equivset) : res dstate :=
  do fp <- prune_clashes (S (length (q_follow q))) k s sm cr nl (q_follow q) 0;
  do x <- closure fl s width fp d;
  match fst x with
  | None => Ok (snd x)
  | Some tr =>
    match nth_error (d_rows (snd x)) row with
    | Some (e :: _) =>
      if abstains e (q_greedy q) then Ok (snd x)
      else set_transitions k tr row (q_index q) (snd x)
    | _ => UB
    end
  end.
Fixpoint do_equivs (k : gcfg) (fl : gflags) (s : store) (sm : list (list N)) (cr nl : N)
    (width row : nat) (d : dstate) (qs : list equivset) : res dstate :=
  match qs with
  | [] => Ok d
  | q :: qs' =>
    do d' <- do_equiv k fl s sm cr nl width row d q;
    do_equivs k fl s sm cr nl width row d' qs'
  end.

(** generator.hpp:241-284: the loop over states, from state number [index] on. *)
Fixpoint state_loop (fuel : nat) (k : gcfg) (fl : gflags) (s : store) (sm : list (list N))
    (cr nl : N) (width index : nat) (d : dstate) : res dstate :=
  match fuel with
  | O => Fuel
  | S f =>
    match nth_error (d_seen d) index with
    | None => Ok d
    | Some v =>
      do qs <- build_equiv_list k s sm v;
      do d' <- do_equivs k fl s sm cr nl width (S index) d qs;
      state_loop f k fl s sm cr nl width (S index) d'
    end
  end.

(** ** fix_clashes *)
Definition get_cell (rows : list (list N)) (row col : N) : res N :=
  match nth_error rows (N.to_nat row) with
  | Some r => of_opt (nth_error r (N.to_nat col))
  | None => UB
  end.
Definition put_cell (rows : list (list N)) (row col v : N) : res (list (list N)) :=
  set_cell rows (N.to_nat row) (N.to_nat col) v.

(** generator.hpp:599-638: one end of line row, uncompressed. [ptr_] is the row
    number [p]. *)
Definition fix_one (cr nl eol : N) (rows : list (list N)) : res (list (list N)) :=
  do es <- get_cell rows eol ix_eol;
  do cs <- get_cell rows eol (cr + ix_trans);
  do ns <- get_cell rows eol (nl + ix_trans);
  do x <- (if cs =? 0 then Ok (eol, rows)
           else
             do r1 <- put_cell rows eol (ix_trans + cr) 0;
             do o <- get_cell r1 es (ix_trans + cr);
             do r2 <- (if o =? 0 then put_cell r1 es (ix_trans + cr) cs else Ok r1);
             Ok (es, r2));
  if ns =? 0 then Ok (snd x)
  else
    do r1 <- put_cell (snd x) (fst x) (ix_trans + nl) 0;
    do o <- get_cell r1 es (ix_trans + nl);
    if o =? 0 then put_cell r1 es (ix_trans + nl) ns else Ok r1.

(** generator.hpp:649-656 (and 668-674, 696-702): [for (; i_ < n; ++i_)] moving
    along the transition on the zero byte. *)
Fixpoint zero_steps (n : nat) (zero : N) (rows : list (list N)) (p : N) : res N :=
  match n with
  | O => Ok p
  | S n' => do q <- get_cell rows p (ix_trans + zero); zero_steps n' zero rows q
  end.

(** generator.hpp:660-680 / 684-708: copy the transition behind the end of line
    state. Result: None for [continue], otherwise ptr_ and the table. *)
Definition fix_part (k : gcfg) (width : nat) (zero id es target : N) (rows : list (list N))
    : res (option (N * list (list N))) :=
  do z <- get_cell rows es (ix_trans + zero);
  if negb (z =? 0) then Ok None
  else
    do r1 <- put_cell rows es (ix_trans + zero) (N.of_nat (length rows));
    let r2 := r1 ++ [repeat 0 width] in
    do r3 <- (if 2 <? g_bytes k then
                do r <- put_cell r2 (N.of_nat (length r2) - 1) (ix_trans + zero)
                          (N.of_nat (length r2));
                Ok (r ++ [repeat 0 width])
              else Ok r2);
    let p := N.of_nat (length r3) - 1 in
    do r4 <- put_cell r3 p (ix_trans + id) target;
    Ok (Some (p, r4)).

(** generator.hpp:640-712, compressed. i_ is declared outside the loop; [i] is
    its value at the start of an iteration. *)
Definition fix_one_wide (k : gcfg) (width : nat) (cr nl zero eol : N)
    (i : nat) (rows : list (list N)) : res (nat * list (list N)) :=
  let lim := if 2 <? g_bytes k then 2%nat else 1%nat in
  let again := if 2 <? g_bytes k then 1%nat else O in
  do es <- get_cell rows eol ix_eol;
  do p <- zero_steps (lim - i) zero rows eol;
  let i := Nat.max i lim in
  do cs <- get_cell rows p (ix_trans + cr);
  do x <- (if cs =? 0 then Ok (Some (p, rows), i)
           else do y <- fix_part k width zero cr es cs rows;
                Ok (y, match y with None => i | Some _ => again end));
  match x with
  | (None, i) => Ok (i, rows)
  | (Some (p, rows), i) =>
    do ns <- get_cell rows p (ix_trans + nl);
    if ns =? 0 then Ok (i, rows)
    else do y <- fix_part k width zero nl es ns rows;
         match y with
         | None => Ok (i, rows)
         | Some (_, rows') => Ok (again, rows')
         end
  end.

Fixpoint fix_clashes (k : gcfg) (width : nat) (cr nl zero : N) (eols : list N) (i : nat)
    (rows : list (list N)) : res (list (list N)) :=
  match eols with
  | [] => Ok rows
  | e :: eols' =>
    if compressed k then
      do x <- fix_one_wide k width cr nl zero e i rows;
      fix_clashes k width cr nl zero eols' (fst x) (snd x)
    else
      do r <- fix_one cr nl e rows; fix_clashes k width cr nl zero eols' i r
  end.

(** ** One start state *)
Record dfa_out := { o_lookup : list N; o_width : N; o_rows : list (list N); o_used : list N;
                    o_classes : list stoken }.

(** *set.begin() (generator.hpp:213, 218, 222-223); undefined on an empty set. *)
Definition first_of (sm : list (list N)) (t : N) : res N :=
  match nth_error sm (N.to_nat t) with
  | Some (x :: _) => Ok x
  | _ => UB
  end.

Fixpoint map_find (t : stoken) (m : charset_map) : option N :=
  match m with
  | [] => None
  | (u, i) :: m' => if st_eqb u t then Some i else map_find t m'
  end.

(** generator.hpp:188-289: build_dfa. *)
Definition build_dfa (fuel : nat) (k : gcfg) (fl : gflags) (s : store) (root : node)
    (m : charset_map) (cr nl : N) (used : list N) : res dfa_out :=
  do cl <- partition_charsets m;
  do x <- build_set_mapping 0 cl (repeat ix_dead 256) (repeat [] (length m));
  let sm := snd x in
  let eols := negb ((cr =? gnpos k) && (nl =? gnpos k)) in
  do cr' <- (if cr =? gnpos k then Ok cr else first_of sm cr);
  do nl' <- (if nl =? gnpos k then Ok nl else first_of sm nl);
  do zero <- (if eols && compressed k then
                match map_find [(0, 0)] m with Some i => first_of sm i | None => UB end
              else Ok (gnpos k));
  let width := (length cl + N.to_nat ix_trans +
                (if ((cr' =? gnpos k) && (nl' =? gnpos k))%N then 0 else 1))%nat in
  if gnpos k <? N.of_nat width then Throw EOverflow
  else
    do c <- closure fl s width (firstpos root)
              {| d_seen := []; d_rows := [repeat 0 width]; d_used := used; d_eol := [] |};
    do d <- state_loop fuel k fl s sm cr' nl' width 0 (snd c);
    do rows <- fix_clashes k width cr' nl' zero (d_eol d) 0 (d_rows d);
    Ok {| o_lookup := fst x; o_width := N.of_nat width; o_rows := rows; o_used := d_used d;
          o_classes := map cs_token cl |}.

(** generator.hpp:539-561: check_zero_len. *)
Definition check_zero_len (fl : gflags) (s : store) (root : node) : res unit :=
  if zero_len_ok fl then Ok tt
  else do b <- any_end s (firstpos root); if b then Throw EZeroLen else Ok tt.
