(** What a generated table should do, in terms of the rules' syntax trees. *)
From Verif Require Import Base StringToken StringTokenSpec StateMachine Tree TreeSpec Partition
  Generator Lookup TableSpec.
Local Open Scope N_scope.

(** Input symbols of the trees: bytes and the two line markers. *)
Inductive sym := SByte (b : N) | SBol | SEol.

(** The symbols a token stands for, given the charset map. *)
Definition token_sem (k : gcfg) (m : charset_map) (t : N) (a : sym) : Prop :=
  match a with
  | SByte b => exists tk, In (tk, t) m /\ mem b tk
  | SBol => t = bol_tok k
  | SEol => t = eol_tok k
  end.

(** One rule: its tree, the position of its end node and its data. *)
Record drule := { dr_tree : node; dr_end : nat; dr_info : einfo }.

(** Words of a rule. *)
Definition dr_lang (k : gcfg) (m : charset_map) (r : drule) (w : list sym) : Prop :=
  den (token_sem k m) (dr_tree r) w.

(** The table made from the rows. *)
Definition out_table (o : dfa_out) : table :=
  {| t_lookup := o_lookup o; t_width := o_width o; t_dfa := concat (o_rows o) |}.

(** [r] is the first rule that has the word [w]. *)
Definition first_rule (k : gcfg) (m : charset_map) (rules : list drule) (w : list sym)
    (r : drule) : Prop :=
  exists j, nth_error rules j = Some r /\ dr_lang k m r w /\
    forall j' r', (j' < j)%nat -> nth_error rules j' = Some r' -> ~ dr_lang k m r' w.

(** The first rule that has the word [w] is abstemious. *)
Definition lazy_at (k : gcfg) (m : charset_map) (rules : list drule) (w : list sym) : Prop :=
  exists r, first_rule k m rules w r /\ e_greedy (dr_info r) = GNo.

(** Row [row] carries the data of [e]. *)
Definition row_data (t : table) (row : N) (e : einfo) : Prop :=
  cell t row ix_end = Some (end_bits e) /\ cell t row ix_id = Some (e_id e) /\
  cell t row ix_uid = Some (e_uid e) /\ cell t row ix_push = Some (e_push e) /\
  cell t row ix_next = Some (e_next e).

(** The trees of one start state inside the store: exact follow sets, the end
    node after the last positions, only known tokens. *)
Definition dr_poss (r : drule) : list nat := dr_end r :: poss (dr_tree r).
Record rule_ok (k : gcfg) (m : charset_map) (s : store) (r : drule) : Prop := {
  ro_pure : pure (dr_tree r) = true;
  ro_nodup : NoDup (poss (dr_tree r));
  ro_end : nth_error s (dr_end r) = Some (PEnd (dr_info r));
  ro_leaf : forall p t, In (p, t) (leaves (dr_tree r)) ->
    exists g f, nth_error s p = Some (PLeaf t g f) /\
      forall q, In q f <-> fol (dr_tree r) p q \/ (In p (lastpos (dr_tree r)) /\ q = dr_end r);
  ro_tok : forall p t, In (p, t) (leaves (dr_tree r)) ->
    t = bol_tok k \/ t = eol_tok k \/ exists tk, In (tk, t) m
}.
(** A beginning of line token comes nowhere but at the start. *)
Definition bol_first (k : gcfg) (rules : list drule) : Prop :=
  forall r p q t, In r rules -> fol (dr_tree r) p q -> In (q, t) (leaves (dr_tree r)) -> t <> bol_tok k.
Definition rules_ok (k : gcfg) (m : charset_map) (s : store) (rules : list drule) : Prop :=
  Forall (rule_ok k m s) rules /\
  forall i j ri rj p, nth_error rules i = Some ri -> nth_error rules j = Some rj ->
    In p (dr_poss ri) -> In p (dr_poss rj) -> i = j.

(** The first positions of the root are those of the rules, in rule order. *)
Definition root_ok (rules : list drule) (root : node) : Prop :=
  rules <> [] /\
  exists vs, firstpos root = concat vs /\
    Forall2 (fun r v => v <> [] /\ forall x, In x v <-> In x (firstpos (dr_tree r)) \/
               (nullable (dr_tree r) = true /\ x = dr_end r)) rules vs.

(** No position or no end node is lazy. *)
Definition no_lazy (s : store) (rules : list drule) : Prop :=
  (forall r p t g f, In r rules -> In p (poss (dr_tree r)) ->
     nth_error s p = Some (PLeaf t g f) -> g <> GNo) \/
  (forall r, In r rules -> e_greedy (dr_info r) <> GNo).

(** Where a scan starts: row 1, or at the beginning of a line the row in cell 0
    of row 0, if any. [w0] is what counts as read then. *)
Definition from_row (t : table) (row0 : N) (w0 : list sym) : Prop :=
  (row0 = 1 /\ w0 = []) \/ (cell t 0 0 = Some row0 /\ row0 <> 0 /\ w0 = [SBol]).

(** Reading a word with end of line markers. *)
Inductive swalk (t : table) : N -> list sym -> N -> Prop :=
| sw_nil row : swalk t row [] row
| sw_byte row b col row1 w row2 :
    column t b = Some col -> cell t row col = Some row1 -> row1 <> 0 ->
    swalk t row1 w row2 -> swalk t row (SByte b :: w) row2
| sw_eol row row1 w row2 :
    cell t row ix_eol = Some row1 -> row1 <> 0 ->
    swalk t row1 w row2 -> swalk t row (SEol :: w) row2.
(** Bytes and end of line markers. *)
Definition line_sym (a : sym) : Prop := match a with SByte b => b < 256 | SBol => False | SEol => True end.

(** No rule has an end of line token. *)
Definition eolless (k : gcfg) (rules : list drule) : Prop :=
  forall r p, In r rules -> ~ In (p, eol_tok k) (leaves (dr_tree r)).

(** Table [t] with [n] rows recognises [rules], end of line tokens included. *)
Record erecognises (k : gcfg) (m : charset_map) (s : store) (rules : list drule) (t : table)
    (n : N) : Prop := {
  er_width : ix_trans <= t_width t <= gnpos k;
  er_n : 2 <= n;
  er_len : N.of_nat (length (t_dfa t)) = n * t_width t;
  er_lk : length (t_lookup t) = 256%nat;
  er_cols : Forall (fun col => ix_dead <= col < t_width t) (t_lookup t);
  er_cell : forall row col v, row < n -> ix_eol <= col < t_width t -> cell t row col = Some v -> v < n;
  er_cell0 : exists v, cell t 0 0 = Some v /\ v < n;
  er_row0 : forall col, 0 < col < t_width t -> cell t 0 col = Some 0;
  er_eol : eolless k rules -> forall row, row < n -> cell t row ix_eol = Some 0;
  er_dead : forall row, row < n -> cell t row ix_dead = Some 0;
  er_info : forall row, 0 < row < n ->
    cell t row ix_end = Some 0 \/ exists r, In r rules /\ row_data t row (dr_info r);
  er_sound : forall row0 w0 w row, from_row t row0 w0 -> Forall line_sym w ->
    swalk t row0 w row ->
    (accepting t row -> exists r, first_rule k m rules (w0 ++ w) r /\
                                  row_data t row (dr_info r)) /\
    (~ accepting t row -> forall r, In r rules -> ~ dr_lang k m r (w0 ++ w));
  er_complete : forall row0 w0 w r, no_lazy s rules -> from_row t row0 w0 ->
    Forall line_sym w -> In r rules -> dr_lang k m r (w0 ++ w) ->
    exists row, swalk t row0 w row /\ accepting t row;
  er_bol : no_lazy s rules -> cell t 0 0 = Some 0 ->
    forall r w, In r rules -> ~ dr_lang k m r (SBol :: w);
  er_stop : forall row0 w0 w row a w' r, from_row t row0 w0 -> Forall line_sym w ->
    swalk t row0 w row -> line_sym a -> In r rules -> dr_lang k m r (w0 ++ w ++ a :: w') ->
    (exists row1, swalk t row [a] row1) \/ lazy_at k m rules (w0 ++ w);
  er_bol_stop : forall r w, cell t 0 0 = Some 0 -> In r rules -> dr_lang k m r (SBol :: w) ->
    lazy_at k m rules [];
  er_bol_leaf : forall b, cell t 0 0 = Some b -> b <> 0 ->
    exists r p, In r rules /\ In p (firstpos (dr_tree r)) /\ In (p, bol_tok k) (leaves (dr_tree r))
}.

(** Table [t] with [n] rows recognises [rules]: the shape of the table, what
    accepting means, and that no word is lost unless something is lazy. *)
Record recognises (k : gcfg) (m : charset_map) (s : store) (rules : list drule) (t : table)
    (n : N) : Prop := {
  rc_width : ix_trans <= t_width t <= gnpos k;
  rc_n : 2 <= n;
  rc_len : N.of_nat (length (t_dfa t)) = n * t_width t;
  rc_lk : length (t_lookup t) = 256%nat;
  rc_cols : Forall (fun col => ix_dead <= col < t_width t) (t_lookup t);
  rc_cell : forall row col v, row < n -> ix_eol <= col < t_width t -> cell t row col = Some v -> v < n;
  rc_cell0 : exists v, cell t 0 0 = Some v /\ v < n;
  rc_row0 : forall col, 0 < col < t_width t -> cell t 0 col = Some 0;
  rc_eol : forall row, row < n -> cell t row ix_eol = Some 0;
  rc_dead : forall row, row < n -> cell t row ix_dead = Some 0;
  rc_info : forall row, 0 < row < n ->
    cell t row ix_end = Some 0 \/ exists r, In r rules /\ row_data t row (dr_info r);
  rc_sound : forall row0 w0 bs row, from_row t row0 w0 -> Forall (fun b => b < 256) bs ->
    walk t row0 bs row ->
    (accepting t row -> exists r, first_rule k m rules (w0 ++ map SByte bs) r /\
                                  row_data t row (dr_info r)) /\
    (~ accepting t row -> forall r, In r rules -> ~ dr_lang k m r (w0 ++ map SByte bs));
  rc_complete : forall row0 w0 bs r, no_lazy s rules -> from_row t row0 w0 ->
    Forall (fun b => b < 256) bs -> In r rules -> dr_lang k m r (w0 ++ map SByte bs) ->
    exists row, walk t row0 bs row /\ accepting t row;
  rc_bol : no_lazy s rules -> cell t 0 0 = Some 0 ->
    forall r w, In r rules -> ~ dr_lang k m r (SBol :: w);
  rc_stop : forall row0 w0 bs row b w' r, from_row t row0 w0 -> Forall (fun b => b < 256) bs ->
    walk t row0 bs row -> b < 256 -> In r rules -> dr_lang k m r (w0 ++ map SByte bs ++ SByte b :: w') ->
    (exists row1, walk t row [b] row1) \/ lazy_at k m rules (w0 ++ map SByte bs);
  rc_bol_stop : forall r w, cell t 0 0 = Some 0 -> In r rules -> dr_lang k m r (SBol :: w) ->
    lazy_at k m rules [];
  rc_bol_leaf : forall b, cell t 0 0 = Some b -> b <> 0 ->
    exists r p, In r rules /\ In p (firstpos (dr_tree r)) /\ In (p, bol_tok k) (leaves (dr_tree r))
}.

(** The input from [p] to [q] as bytes, and the word it stands for when a scan
    starts at [p]: with the marker if the start row for the beginning of a line
    is used. *)
Definition text_of (inp : list N) (p q : nat) : list N := firstn (q - p) (skipn p inp).
Definition bytes_of (k : cfg) (cs : list N) : list N := flat_map (char_bytes k) cs.
Definition sees_bol (k : cfg) (t : table) (bol : bool) : bool :=
  f_bol k && bol && negb (match cell t 0 0 with Some b => b =? 0 | None => true end).
Definition word_of (k : cfg) (inp : list N) (bol : bool) (p q : nat) : list sym :=
  (if bol then [SBol] else []) ++ map SByte (bytes_of k (text_of inp p q)).

(** [r] is the first rule with the longest match, which ends at [q]. *)
Definition longest (k : cfg) (g : gcfg) (m : charset_map) (rules : list drule) (inp : list N)
    (bol : bool) (p : nat) (r : drule) (q : nat) : Prop :=
  (p < q <= length inp)%nat /\ first_rule g m rules (word_of k inp bol p q) r /\
  forall q' r', (q < q' <= length inp)%nat -> In r' rules ->
    ~ dr_lang g m r' (word_of k inp bol p q').
(** No rule matches at least one character. *)
Definition none_matches (k : cfg) (g : gcfg) (m : charset_map) (rules : list drule) (inp : list N)
    (bol : bool) (p : nat) : Prop :=
  forall q r, (p < q <= length inp)%nat -> In r rules -> ~ dr_lang g m r (word_of k inp bol p q).
