(** Model of include/lexertl/partition/charset.hpp, partition/equivset.hpp and of
    the two partitioning loops of generator.hpp (partition_charsets and
    build_equiv_list), which are the same code over different element types. *)
From Verif Require Import Base StringToken Tree.
Local Open Scope N_scope.

(** ** The worklist (generator.hpp:782-843 and 1020-1075) *)
Section Worklist.
  Context {X : Type}.
  Variable empty : X -> bool.
  (** [inter l r] is l.intersect(r, overlap) with a fresh overlap: new l, new r
      and overlap. *)
  Variable inter : X -> X -> res (X * X * X).

  (** generator.hpp:804-835 (1038-1069): one r_ against lhs_. Result: lhs_, r_. *)
  Fixpoint inner (lhs : list X) (r : X) : res (list X * X) :=
    match lhs with
    | [] => Ok ([], r)
    | l :: rest =>
      if empty r then Ok (lhs, r)
      else
        do x <- inter l r;
        let '(l', r', ov) := x in
        if empty ov then                                   (* 812-815 *)
          do y <- inner rest r'; Ok (l' :: fst y, snd y)
        else if empty l' then                              (* 816-821 *)
          do y <- inner rest r'; Ok (ov :: fst y, snd y)
        else if empty r' then Ok (l' :: rest, ov)          (* 822-827 *)
        else                                               (* 828-835 *)
          do y <- inner rest r'; Ok (l' :: ov :: fst y, snd y)
    end.

  (** generator.hpp:799-841: the loop over rhs_. *)
  Fixpoint outer (lhs rhs : list X) : res (list X) :=
    match rhs with
    | [] => Ok lhs
    | r :: rhs' =>
      do y <- inner lhs r;
      outer (if empty (snd y) then fst y else fst y ++ [snd y]) rhs'
    end.

  (** generator.hpp:790-797. *)
  Definition worklist (rhs : list X) : res (list X) :=
    match rhs with
    | [] => Ok []
    | x :: rhs' => outer [x] rhs'
    end.
End Worklist.

(** ** Sets of ids (std::set<id_type>) as sorted lists *)
Fixpoint sins (a : N) (l : list N) : list N :=
  match l with
  | [] => [a]
  | x :: l' => if a <? x then a :: l else if a =? x then l else x :: sins a l'
  end.

(** ** charset.hpp *)
Record charset := { cs_token : stoken; cs_index : list N }.

(** charset.hpp:36-39 *)
Definition cs_empty (c : charset) : bool :=
  match cs_token c, cs_index c with [], [] => true | _, _ => false end.

(** charset.hpp:41-62. std::merge through an inserter into a std::set is
    insertion of both. *)
Definition cs_intersect (l r : charset) : res (charset * charset * charset) :=
  do x <- intersect (cs_token l) (cs_token r) [];
  let '(lt, rt, ot) := x in
  match ot with
  | [] => Ok ({| cs_token := lt; cs_index := cs_index l |},
              {| cs_token := rt; cs_index := cs_index r |},
              {| cs_token := []; cs_index := [] |})
  | _ =>
    Ok ({| cs_token := lt; cs_index := match lt with [] => [] | _ => cs_index l end |},
        {| cs_token := rt; cs_index := match rt with [] => [] | _ => cs_index r end |},
        {| cs_token := ot;
           cs_index := fold_left (fun s i => sins i s) (cs_index r)
                         (fold_left (fun s i => sins i s) (cs_index l) []) |})
  end.

(** parser.hpp:80: charset_map, a std::map from string_token to id; iteration is
    in increasing order of the key. *)
Definition charset_map := list (stoken * N).

(** generator.hpp:845-852 *)
Definition fill_charsets (m : charset_map) : list charset :=
  map (fun p => {| cs_token := fst p; cs_index := [snd p] |}) m.

(** generator.hpp:782-843 *)
Definition partition_charsets (m : charset_map) : res (list charset) :=
  worklist cs_empty cs_intersect (fill_charsets m).

(** ** equivset.hpp *)
Record equivset := { q_index : list N; q_id : N; q_greedy : greedy; q_follow : list nat }.

(** equivset.hpp:46-49 *)
Definition eq_empty (q : equivset) : bool :=
  match q_index q, q_follow q with [], [] => true | _, _ => false end.

(** std::set_intersection on sorted vectors (equivset.hpp:104-106). *)
Fixpoint sinter (l : list N) : list N -> list N :=
  fix go (r : list N) : list N :=
    match l, r with
    | x :: l', y :: r' =>
      if x <? y then sinter l' r else if y <? x then go r' else x :: sinter l' r'
    | _, _ => []
    end.

(** equivset.hpp:122-135: the two loops of remove() from the first common
    element on. Reading past the end of dest_ would be [UB]; it happens when
    dest_ runs out first. *)
Fixpoint rm_loop (src dest : list N) : res (list N) :=
  match src, dest with
  | [], _ => Ok dest
  | _ :: _, [] => UB
  | y :: src', x :: dest' =>
    if x =? y then rm_loop src' dest' else do d <- rm_loop src dest'; Ok (x :: d)
  end.

(** std::find in equivset.hpp:118: what lies before and from the first [y] on. *)
Fixpoint find_split (y : N) (dest : list N) : list N * list N :=
  match dest with
  | [] => ([], [])
  | x :: d => if x =? y then ([], dest) else let p := find_split y d in (x :: fst p, snd p)
  end.

(** equivset.hpp:114-138. After the loops everything up to writer_ has been
    written; the resize cuts the vector to size() - source_.size(). *)
Definition vremove (source dest : list N) : res (list N) :=
  match source with
  | [] => UB
  | y :: _ =>
    let p := find_split y dest in
    do d <- rm_loop source (snd p);
    let written := fst p ++ d in
    Ok (firstn (length dest - length source)
          (written ++ skipn (length written) dest))
  end.

(** equivset.hpp:87-98 *)
Definition process_greedy (l r : greedy) : greedy :=
  match l with
  | GNo => match r with GHard => GHard | _ => GNo end
  | _ => l
  end.

(** equivset.hpp:66-74: append what is not there yet. *)
Definition add_follow (fs : list nat) (p : nat) : list nat :=
  if existsb (Nat.eqb p) fs then fs else fs ++ [p].

(** equivset.hpp:51-85 and 100-112 *)
Definition eq_intersect (l r : equivset) : res (equivset * equivset * equivset) :=
  match sinter (q_index l) (q_index r) with
  | [] => Ok (l, r, {| q_index := []; q_id := 0; q_greedy := GYes; q_follow := [] |})
  | ov =>
    do li <- vremove ov (q_index l);
    do ri <- vremove ov (q_index r);
    Ok ({| q_index := li; q_id := q_id l; q_greedy := q_greedy l;
           q_follow := match li with [] => [] | _ => q_follow l end |},
        {| q_index := ri; q_id := q_id r; q_greedy := q_greedy r;
           q_follow := match ri with [] => [] | _ => q_follow r end |},
        {| q_index := ov; q_id := q_id l; q_greedy := process_greedy (q_greedy l) (q_greedy r);
           q_follow := fold_left add_follow (q_follow r) (q_follow l) |})
  end.
