(** The lines of a drawing. *)
From Verif Require Import Base StringToken StringTokenSpec ReTokeniser GenCpp CharMachine DebugText DebugLines DebugInj Dot DotSpec.
From Coq Require Import String.
Local Open Scope N_scope.
Local Open Scope list_scope.

Definition ended (l : list N) : list N := l ++ [10].
Lemma lines_cut ls : forall ln pre post, Forall (fun l => ~ In 10 l) ls -> ~ In 10 ln ->
  flat_map ended ls = pre ++ ln ++ 10 :: post -> (pre = [] \/ exists p, pre = p ++ [10]) -> In ln ls.
Proof.
  induction ls as [|l ls IH]; intros ln pre post F NI E B; cbn [flat_map] in E.
  - apply (f_equal (@List.length N)) in E. rewrite !app_length in E. cbn in E. lia.
  - apply Forall_cons_iff in F as [F1 F2]. unfold ended at 1 in E. rewrite <- app_assoc in E. cbn [app] in E.
    destruct B as [->|(p & ->)].
    + cbn [app] in E. apply cut_at in E as [-> _]; auto. now left.
    + assert (X : exists q, p ++ [10] = l ++ 10 :: q /\ (q = [] \/ exists q', q = q' ++ [10])).
      { clear IH F2 NI. revert l F1 E. induction p as [|c p IHp]; intros l F1 E.
        - destruct l as [|c l]; [exists []; auto|]. cbn in E. injection E as -> _. cbn in F1. tauto.
        - destruct l as [|c' l].
          + cbn in E. injection E as <- _. exists (p ++ [10]). split; [reflexivity|right; eauto].
          + cbn in E. injection E as -> E. destruct (IHp l ltac:(cbn in F1; tauto) E) as (q & Q & Q').
            exists q. split; [cbn; now rewrite Q|exact Q']. }
      destruct X as (q & Q & Q'). rewrite Q, <- app_assoc in E. cbn [app] in E. apply app_inv_head in E. injection E as E.
      right. eapply IH; eauto.
Qed.
Theorem is_line_iff ls ln : Forall (fun l => ~ In 10 l) ls -> (is_line (flat_map ended ls) ln <-> In ln ls).
Proof.
  intros F. split.
  - intros (NI & pre & post & E & B). eapply lines_cut; eauto.
  - intros I. split; [rewrite Forall_forall in F; auto|]. apply in_split in I as (l1 & l2 & ->).
    exists (flat_map ended l1), (flat_map ended l2). split.
    + rewrite flat_map_app. cbn [flat_map]. unfold ended at 2. now rewrite <- app_assoc.
    + clear F. destruct l1 as [|a l1 _] using rev_ind; [now left|]. right. rewrite flat_map_app. cbn [flat_map]. rewrite app_nil_r. unfold ended at 2.
      rewrite app_assoc. eauto.
Qed.

(** ** The text in lines *)
Definition node_line (name : N -> option (list N)) (dfa i : N) (s : cstate) : list N :=
  txt "    " ++ node_name dfa i ++ txt " [" ++
  (if i =? 0 then txt "shape = circle, xlabel=" ++ quote ++ match name dfa with Some n => n | None => print 10 dfa end ++ quote
   else if cs_end s then txt "shape = doublecircle, xlabel=" ++ quote ++ txt "id = " ++ print 10 (cs_id s) ++ quote
   else txt "shape = circle") ++ txt "];".
Fixpoint node_lines name (dfa i : N) (l : list cstate) : list (list N) :=
  match l with [] => [] | s :: l' => node_line name dfa i s :: node_lines name dfa (i + 1) l' end.
Definition move_line (max dfa i : N) (tr : N * stoken) : list N :=
  txt "    " ++ node_name dfa i ++ txt " -> " ++ node_name dfa (fst tr) ++ txt " [" ++ shows_class (dot_label max (snd tr)) ++ txt "];".
Definition next_lines (dfas dfa i : N) (s : cstate) : list (list N) :=
  if (1 <? dfas) && cs_end s then [txt "    " ++ node_name dfa i ++ txt " -> " ++ node_name (cs_next s) 0 ++ txt " [" ++ dashed ++ txt "];"] else [].
Fixpoint edge_lines (max dfas dfa i : N) (l : list cstate) : list (list N) :=
  match l with
  | [] => []
  | s :: l' => map (move_line max dfa i) (cs_trans s) ++ next_lines dfas dfa i s ++ edge_lines max dfas dfa (i + 1) l'
  end.
Fixpoint dfa_lines (max : N) name (dfas dfa : N) (l : list cdfa) : list (list N) :=
  match l with
  | [] => []
  | d :: l' => [] :: node_lines name dfa 0 (cd_states d) ++ [] :: edge_lines max dfas dfa 0 (cd_states d) ++ dfa_lines max name dfas (dfa + 1) l'
  end.
Definition dump_lines (max : N) name (l : list cdfa) : list (list N) :=
  txt "digraph DFAs {" :: txt "    rankdir = LR;" :: dfa_lines max name (N.of_nat (List.length l)) 0 l ++ [txt "}"].

Ltac same := repeat rewrite <- app_assoc; cbn [app]; reflexivity.
Lemma node_text name dfa i s : dot_node name dfa i s = ended (node_line name dfa i s).
Proof.
  unfold dot_node, ended, node_line, endl, quote.
  destruct (i =? 0); [destruct (name dfa)|destruct (cs_end s)]; repeat rewrite <- app_assoc; reflexivity.
Qed.
Lemma nodes_text name dfa l : forall i, dot_nodes name dfa i l = flat_map ended (node_lines name dfa i l).
Proof. induction l as [|s l IH]; intros i; cbn [dot_nodes node_lines flat_map]; [reflexivity|]. now rewrite node_text, IH. Qed.
Lemma move_text max dfa i tr : dot_move max dfa i tr = ended (move_line max dfa i tr).
Proof.
  unfold dot_move, ended, move_line, endl, quote, shows_class. repeat rewrite <- app_assoc. reflexivity.
Qed.
Lemma next_text dfas dfa i s : dot_next dfas dfa i s = flat_map ended (next_lines dfas dfa i s).
Proof.
  unfold dot_next, next_lines, ended, endl, quote, dashed. destruct (_ && _); cbn [flat_map]; [|reflexivity]. rewrite app_nil_r.
  repeat rewrite <- app_assoc. reflexivity.
Qed.
Lemma edges_text max dfas dfa l : forall i, dot_edges max dfas dfa i l = flat_map ended (edge_lines max dfas dfa i l).
Proof.
  induction l as [|s l IH]; intros i; cbn [dot_edges edge_lines flat_map]; [reflexivity|]. rewrite !flat_map_app, <- next_text, <- IH. f_equal.
  induction (cs_trans s) as [|tr r IHr]; cbn [flat_map map]; [reflexivity|]. now rewrite move_text, IHr.
Qed.
Lemma dfas_text max name dfas l : forall dfa, dot_dfas max name dfas dfa l = flat_map ended (dfa_lines max name dfas dfa l).
Proof.
  induction l as [|d l IH]; intros dfa; cbn [dot_dfas dfa_lines flat_map]; [reflexivity|]. unfold dot_dfa, endl.
  rewrite flat_map_app. cbn [flat_map]. rewrite flat_map_app, <- nodes_text, <- edges_text, <- IH. unfold ended. cbn [app]. repeat rewrite <- app_assoc. reflexivity.
Qed.
Theorem dump_text max name l : dot_dump max name l = flat_map ended (dump_lines max name l).
Proof.
  unfold dot_dump, dump_lines, endl. cbn [flat_map]. rewrite flat_map_app, <- dfas_text. cbn [flat_map]. unfold ended. rewrite app_nil_r.
  repeat rewrite <- app_assoc. reflexivity.
Qed.

(** ** No line has a newline in it *)
Definition free (l : list N) : Prop := ~ In 10 l.
Lemma free_app a b : free a -> free b -> free (a ++ b).
Proof. unfold free. rewrite in_app_iff. tauto. Qed.
Lemma visible_free l : Forall visible l -> free l.
Proof. apply visible_not. unfold visible. lia. Qed.
Lemma print_free10 b n : 2 <= b <= 16 -> free (print b n).
Proof. intros B. now apply visible_free, print_visible. Qed.
Lemma escape_free c : free (double_escape_char c).
Proof.
  unfold double_escape_char.
  repeat match goal with |- context [if ?x =? ?y then _ else _] => destruct (N.eqb_spec x y) as [->|?]; [intros K; cbn in K; intuition discriminate|] end.
  destruct ((c <? 32) || (126 <? c)) eqn:E.
  - change (92 :: 120 :: print 16 c) with ([92; 120] ++ print 16 c). apply free_app; [intros K; cbn in K; intuition discriminate|apply print_free10; lia].
  - intros [K|[]]. lia.
Qed.
Ltac fixed := let K := fresh in intros K; vm_compute in K; intuition discriminate.
Lemma label_free max t : free (dot_label max t).
Proof.
  unfold dot_label, dump_ranges. repeat apply free_app; try fixed.
  - destruct (_ && _); fixed.
  - set (u := if _ : bool then _ else t). induction u as [|[a b] u IH]; [fixed|]. cbn [flat_map]. apply free_app; [|exact IH]. unfold dot_range.
    destruct (a =? b); repeat apply free_app; try apply escape_free; match goal with |- free (if ?c then _ else _) => destruct c; fixed end.
Qed.
Lemma node_name_free a i : free (node_name a i).
Proof. unfold node_name. repeat apply free_app; try fixed; apply print_free10; lia. Qed.
Local Opaque node_name dot_label.
Lemma dump_lines_free max name l : (forall i n, name i = Some n -> free n) -> Forall free (dump_lines max name l).
Proof.
  intros NM.
  assert (ND : forall dfa s i, Forall free (node_lines name dfa i s)).
  { induction s as [|s r IH]; intros i; cbn [node_lines]; constructor; auto. unfold node_line.
    repeat apply free_app; try fixed; auto using node_name_free. destruct (i =? 0); [|destruct (cs_end s)]; repeat apply free_app; try fixed.
    - destruct (name dfa) eqn:E; [exact (NM _ _ E)|apply print_free10; lia].
    - apply print_free10; lia. }
  assert (ED : forall dfas dfa s i, Forall free (edge_lines max dfas dfa i s)).
  { induction s as [|s r IH]; intros i; cbn [edge_lines]; [constructor|]. apply Forall_app. split; [|apply Forall_app; split; auto].
    - apply Forall_map, Forall_forall. intros tr _. unfold move_line, shows_class. repeat apply free_app; try fixed; auto using node_name_free, label_free.
    - unfold next_lines. destruct (_ && _); constructor; [|constructor]. unfold dashed. repeat apply free_app; try fixed; auto using node_name_free. }
  assert (DF : forall dfas s dfa, Forall free (dfa_lines max name dfas dfa s)).
  { induction s as [|d r IH]; intros dfa; cbn [dfa_lines]; [constructor|]. constructor; [fixed|]. apply Forall_app. split; [auto|]. constructor; [fixed|]. apply Forall_app. auto. }
  unfold dump_lines. constructor; [fixed|]. constructor; [fixed|]. apply Forall_app. split; [auto|]. constructor; [fixed|constructor].
Qed.

(** ** Which lines there are *)
Lemma node_lines_in name dfa ln l : forall i, In ln (node_lines name dfa i l) <->
  exists j s, nth_error l j = Some s /\ ln = node_line name dfa (i + N.of_nat j) s.
Proof.
  induction l as [|s l IH]; intros i; cbn [node_lines In].
  - split; [easy|]. intros ([|j] & s & H & _); discriminate.
  - rewrite IH. split.
    + intros [<-|(j & u & H & ->)]; [exists 0%nat, s; rewrite N.add_0_r; auto|]. exists (S j), u. split; [exact H|f_equal; lia].
    + intros ([|j] & u & H & ->); cbn in H; [injection H as <-; left; now rewrite N.add_0_r|]. right. exists j, u. split; [exact H|f_equal; lia].
Qed.
Lemma edge_lines_in max dfas dfa ln l : forall i, In ln (edge_lines max dfas dfa i l) <->
  exists j s, nth_error l j = Some s /\ (In ln (map (move_line max dfa (i + N.of_nat j)) (cs_trans s)) \/ In ln (next_lines dfas dfa (i + N.of_nat j) s)).
Proof.
  induction l as [|s l IH]; intros i; cbn [edge_lines].
  - split; [easy|]. intros ([|j] & s & H & _); discriminate.
  - rewrite !in_app_iff, IH. split.
    + intros [H|[H|(j & u & H & K)]]; [exists 0%nat, s; rewrite N.add_0_r; auto|exists 0%nat, s; rewrite N.add_0_r; auto|].
      exists (S j), u. split; [exact H|]. now replace (i + N.of_nat (S j)) with (i + 1 + N.of_nat j) by lia.
    + intros ([|j] & u & H & K); cbn in H; [injection H as <-; rewrite N.add_0_r in K; tauto|]. right. right. exists j, u. split; [exact H|].
      now replace (i + N.of_nat (S j)) with (i + 1 + N.of_nat j) in K by lia.
Qed.
Lemma dfa_lines_in max name dfas ln l : forall a, In ln (dfa_lines max name dfas a l) <->
  exists b d, nth_error l b = Some d /\ (ln = [] \/ In ln (node_lines name (a + N.of_nat b) 0 (cd_states d)) \/ In ln (edge_lines max dfas (a + N.of_nat b) 0 (cd_states d))).
Proof.
  induction l as [|d l IH]; intros a; cbn [dfa_lines].
  - split; [easy|]. intros ([|j] & s & H & _); discriminate.
  - cbn [In]. rewrite in_app_iff. cbn [In]. rewrite in_app_iff, IH. split.
    + intros [H|[H|[H|[H|(b & u & H & K)]]]]; try (exists 0%nat, d; rewrite N.add_0_r; split; [reflexivity|]; now auto).
      exists (S b), u. split; [exact H|]. now replace (a + N.of_nat (S b)) with (a + 1 + N.of_nat b) by lia.
    + intros ([|b] & u & H & K); cbn in H; [injection H as <-; rewrite N.add_0_r in K; destruct K as [K|[K|K]]; auto|].
      do 4 right. exists b, u. split; [exact H|]. now replace (a + N.of_nat (S b)) with (a + 1 + N.of_nat b) in K by lia.
Qed.
