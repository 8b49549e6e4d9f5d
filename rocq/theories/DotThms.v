(** A drawing has the nodes and edges of the machine. *)
From Verif Require Import Base StringToken StringTokenSpec ReTokeniser GenCpp CharMachine DebugText DebugLines DebugInj Dot DotSpec DotLines.
From Coq Require Import String.
Local Open Scope N_scope.
Local Open Scope list_scope.

Lemma print_not c n : ~ 48 <= c <= 57 -> ~ In c (print 10 n).
Proof. intros H. eapply visible_not; [|apply print_numeral]. unfold numeral. lia. Qed.
Lemma node_name_not a i : ~ In 32 (node_name a i).
Proof. unfold node_name. rewrite !in_app_iff. intros [K|[K|[K|K]]]; try (cbn in K; intuition discriminate); apply print_not in K; auto; lia. Qed.
Lemma node_name_inj a i b j : node_name a i = node_name b j -> a = b /\ i = j.
Proof.
  unfold node_name. intros E. change (txt "L") with [76] in E. change (txt "_S") with [95; 83] in E. cbn [app] in E. injection E as E.
  apply cut_at in E as [E1 E2]; [|apply print_not; lia|apply print_not; lia]. injection E2 as E2.
  split; now apply DebugInj.print_inj.
Qed.
Lemma called_name a i : called a i = node_name (N.of_nat a) (N.of_nat i).
Proof. reflexivity. Qed.
Local Opaque node_name.
Lemma name_cut a i b j v w : node_name a i ++ 32 :: v = node_name b j ++ 32 :: w -> a = b /\ i = j /\ v = w.
Proof. intros E. apply cut_at in E as [E ->]; auto using node_name_not. apply node_name_inj in E as [-> ->]. auto. Qed.

(** Lines are of one of these forms. *)
Definition node_form (a i : N) (what : list N) : list N := txt "    " ++ node_name a i ++ txt " [" ++ what ++ txt "];".
Definition edge_form (a i b j : N) (what : list N) : list N := txt "    " ++ node_name a i ++ txt " -> " ++ node_name b j ++ txt " [" ++ what ++ txt "];".
Lemma node_form_inj a i w b j v : node_form a i w = node_form b j v -> a = b /\ i = j /\ w = v.
Proof.
  unfold node_form. intros E. apply app_inv_head in E. change (txt " [") with [32; 91] in E. cbn [app] in E.
  apply name_cut in E as (-> & -> & E). apply (f_equal (skipn 1)) in E. cbn [skipn] in E. apply app_inv_tail in E. auto.
Qed.
Lemma edge_form_inj a i b j w a' i' b' j' w' : edge_form a i b j w = edge_form a' i' b' j' w' -> a = a' /\ i = i' /\ b = b' /\ j = j' /\ w = w'.
Proof.
  unfold edge_form. intros E. apply app_inv_head in E. change (txt " -> ") with [32; 45; 62; 32] in E. change (txt " [") with [32; 91] in E. cbn [app] in E.
  apply name_cut in E as (-> & -> & E). apply (f_equal (skipn 3)) in E. cbn [skipn] in E. apply name_cut in E as (-> & -> & E).
  apply (f_equal (skipn 1)) in E. cbn [skipn] in E. apply app_inv_tail in E. auto 6.
Qed.
Lemma node_edge a i w a' i' b' j' w' : node_form a i w <> edge_form a' i' b' j' w'.
Proof.
  unfold node_form, edge_form. intros E. apply app_inv_head in E. change (txt " -> ") with [32; 45; 62; 32] in E. change (txt " [") with [32; 91] in E. cbn [app] in E.
  apply name_cut in E as (_ & _ & E). discriminate E.
Qed.
(** The header and the trailer are of neither. *)
Lemma name_head a i v : exists w, node_name a i ++ v = 76 :: w.
Proof. Local Transparent node_name. unfold node_name. cbn. eauto. Local Opaque node_name. Qed.
Lemma form_head a i v : exists w, txt "    " ++ node_name a i ++ v = 32 :: 32 :: 32 :: 32 :: 76 :: w.
Proof. destruct (name_head a i v) as (w & E). exists w. rewrite E. reflexivity. Qed.

Section DRAWING.
Variables (max : N) (name : N -> option (list N)) (l : list cdfa).
Hypothesis NM : forall i n, name i = Some n -> ~ In 10 n.
Let x := dot_dump max name l.

Lemma line_cases ln w : is_line x ln -> ln = 32 :: 32 :: 32 :: 32 :: 76 :: w ->
  exists b d, nth_error l b = Some d /\ (In ln (node_lines name (N.of_nat b) 0 (cd_states d)) \/
    In ln (edge_lines max (N.of_nat (List.length l)) (N.of_nat b) 0 (cd_states d))).
Proof.
  unfold x. rewrite dump_text, is_line_iff by now apply dump_lines_free. unfold dump_lines. intros [H|[H|H]] E.
  - subst ln. discriminate E.
  - subst ln. discriminate E.
  - apply in_app_or in H as [H|[H|[]]]; [|subst ln; discriminate E]. apply dfa_lines_in in H as (b & d & H & K). exists b, d. split; [exact H|].
    destruct K as [->|K]; [discriminate E|]. exact K.
Qed.
Lemma line_intro b d ln : nth_error l b = Some d ->
  In ln (node_lines name (N.of_nat b) 0 (cd_states d)) \/ In ln (edge_lines max (N.of_nat (List.length l)) (N.of_nat b) 0 (cd_states d)) -> is_line x ln.
Proof.
  intros H K. unfold x. rewrite dump_text, is_line_iff by now apply dump_lines_free. unfold dump_lines. right. right. apply in_or_app. left.
  apply dfa_lines_in. exists b, d. auto.
Qed.
Lemma node_line_form b i s : exists what, node_line name (N.of_nat b) (N.of_nat i) s = node_form (N.of_nat b) (N.of_nat i) what /\
  drawn name b i s what.
Proof.
  unfold node_line, node_form. eexists. split; [reflexivity|]. destruct i as [|i].
  - change (N.of_nat 0 =? 0) with true. cbn iota. unfold quote. destruct (name (N.of_nat b)) eqn:E; now constructor.
  - destruct (N.eqb_spec (N.of_nat (S i)) 0); [lia|]. unfold quote. destruct (cs_end s) eqn:E; now constructor.
Qed.
Lemma drawn_det b i s v w : drawn name b i s v -> drawn name b i s w -> v = w.
Proof. intros H K. inversion H; subst; inversion K; subst; congruence. Qed.

Theorem node_iff a i what : has_node x a i what <-> exists s, state_at l a i s /\ drawn name a i s what.
Proof.
  unfold has_node. rewrite called_name. change (is_line x (node_form (N.of_nat a) (N.of_nat i) what) <-> exists s, state_at l a i s /\ drawn name a i s what). split.
  - intros H. destruct (form_head (N.of_nat a) (N.of_nat i) (txt " [" ++ what ++ txt "];")) as (w & Hw).
    destruct (line_cases _ _ H Hw) as (b & d & Hb & [K|K]).
    + apply node_lines_in in K as (j & s & Hj & E). rewrite N.add_0_l in E. destruct (node_line_form b j s) as (v & E' & D).
      rewrite E' in E. apply node_form_inj in E as (E1 & E2 & ->). apply Nat2N.inj in E1, E2. subst b j. exists s. split; [exists d; auto|exact D].
    + exfalso. apply edge_lines_in in K as (j & s & _ & [K|K]).
      * apply in_map_iff in K as (tr & K & _). symmetry in K. exact (node_edge _ _ _ _ _ _ _ _ K).
      * unfold next_lines in K. destruct (_ && _); [|destruct K]. destruct K as [K|[]]. symmetry in K. exact (node_edge _ _ _ _ _ _ _ _ K).
  - intros (s & (d & Hd & Hs) & D). apply (line_intro a d _ Hd). left. apply node_lines_in. exists i, s. split; [exact Hs|]. rewrite N.add_0_l.
    destruct (node_line_form a i s) as (v & -> & D'). now rewrite (drawn_det _ _ _ _ _ D D').
Qed.

(** What is drawn between two nodes. *)
Definition joins (a i b j : nat) (s : cstate) (what : list N) : Prop :=
  (a = b /\ exists t, In (N.of_nat j, t) (cs_trans s) /\ what = shows_class (dot_label max t)) \/
  ((1 < List.length l)%nat /\ cs_end s = true /\ cs_next s = N.of_nat b /\ j = 0%nat /\ what = dashed).
Theorem edge_iff a i b j what : has_edge x a i b j what <-> exists s, state_at l a i s /\ joins a i b j s what.
Proof.
  unfold has_edge. rewrite !called_name.
  change (is_line x (edge_form (N.of_nat a) (N.of_nat i) (N.of_nat b) (N.of_nat j) what) <-> exists s, state_at l a i s /\ joins a i b j s what). split.
  - intros H. destruct (form_head (N.of_nat a) (N.of_nat i) (txt " -> " ++ node_name (N.of_nat b) (N.of_nat j) ++ txt " [" ++ what ++ txt "];")) as (w & Hw).
    destruct (line_cases _ _ H Hw) as (c & d & Hb & [K|K]).
    + exfalso. apply node_lines_in in K as (u & s & _ & E). rewrite N.add_0_l in E. destruct (node_line_form c u s) as (v & E' & D).
      rewrite E' in E. symmetry in E. exact (node_edge _ _ _ _ _ _ _ _ E).
    + apply edge_lines_in in K as (u & s & Hs & K). rewrite N.add_0_l in K. exists s. destruct K as [K|K].
      * apply in_map_iff in K as ([q t] & K & I). unfold move_line in K. cbn [fst snd] in K.
        apply (edge_form_inj (N.of_nat c) (N.of_nat u) (N.of_nat c) q) in K as (E1 & E2 & E3 & E4 & E5). apply Nat2N.inj in E1, E2. subst c u q.
        apply Nat2N.inj in E3. subst b. split; [exists d; auto|]. left. split; [reflexivity|]. exists t. auto.
      * unfold next_lines in K. destruct (_ && _) eqn:C; [|destruct K]. destruct K as [K|[]]. apply andb_true_iff in C as [C1 C2]. apply N.ltb_lt in C1.
        apply (edge_form_inj (N.of_nat c) (N.of_nat u) (cs_next s) 0) in K as (E1 & E2 & E3 & E4 & E5). apply Nat2N.inj in E1, E2. subst c u.
        split; [exists d; auto|]. right. split; [lia|]. split; [exact C2|]. split; [exact E3|]. split; [lia|auto].
  - intros (s & (d & Hd & Hs) & D). apply (line_intro a d _ Hd). right. apply edge_lines_in. exists i, s. split; [exact Hs|]. rewrite N.add_0_l.
    destruct D as [(-> & t & I & ->)|(L & E & N & -> & ->)].
    + left. apply in_map_iff. exists (N.of_nat j, t). auto.
    + right. unfold next_lines. rewrite E, N. replace (1 <? N.of_nat (List.length l)) with true by (symmetry; apply N.ltb_lt; lia). left. reflexivity.
Qed.
End DRAWING.
