(** Case folding and escapes as SourceSpec.v describes them. *)
From Coq Require Import String Ascii.
From Verif Require Import Base StringToken StringTokenSpec StringTokenProofs ReToken ReTokeniser ReTokeniserProofs Grammar RuleSpec
  FoldData UnicodeData SourceSpec.
Local Open Scope N_scope.

(** [t] represents the characters [P]. *)
Definition den (b : N) (t : stoken) (P : N -> Prop) : Prop := built (max_char b) t /\ forall c, mem c t <-> P c.
Lemma top_max b : top b = max_char b.
Proof. reflexivity. Qed.
Lemma den_nil b : den b [] (fun _ => False).
Proof. split; [constructor|]. intros c. apply mem_nil. Qed.
Lemma den_insert b t P x y : den b t P -> x <= y -> y <= max_char b -> den b (insert t (x, y)) (fun c => P c \/ x <= c <= y).
Proof.
  intros [B D] H1 H2. split; [now apply built_insert|]. intros c. destruct (built_wf _ _ B) as [W _].
  destruct (insert_correct t (x, y) W H1) as [_ E]. rewrite E, D. reflexivity.
Qed.
Lemma den_union b t P u Q : den b t P -> den b u Q -> den b (insert_token t u) (fun c => P c \/ Q c).
Proof.
  intros [B D] [B' D']. split; [now apply built_insert_token|]. intros c. destruct (built_wf _ _ B) as [W _], (built_wf _ _ B') as [W' _].
  destruct (insert_token_correct t u W W') as [_ E]. rewrite E, D, D'. reflexivity.
Qed.
Lemma den_negate b t P : den b t P -> den b (negate (max_char b) t) (outside b P).
Proof.
  intros [B D]. split; [now apply built_negate|]. intros c. destruct (built_wf _ _ B) as [W K].
  destruct (negate_correct (max_char b) t W K) as [_ E]. rewrite E, D. reflexivity.
Qed.
Lemma den_ext b t P Q : den b t P -> (forall c, P c <-> Q c) -> den b t Q.
Proof. intros [B D] H. split; [auto|]. intros c. now rewrite D. Qed.
Lemma den_top b t P c : den b t P -> P c -> c <= top b.
Proof. intros [B D] H. destruct (built_wf _ _ B) as [_ K]. change (top b) with (max_char b). apply K. now apply D. Qed.
Lemma den_ne b t P c : den b t P -> P c -> t <> [].
Proof. intros [_ D] H ->. apply D in H. now apply mem_nil in H. Qed.

(** ** Case folding *)
Lemma fold1_den r : fst r <= snd r -> snd r <= 255 ->
  den 1 (fold1 r) (fun d => exists c, fst r <= c <= snd r /\ other_case 1 c d).
Proof.
  intros H1 H2. unfold fold1.
  assert (G : forall l t P, (forall i, In i l -> fst r + N.of_nat i <= 255) -> den 1 t P ->
     den 1 (fold_left (fun out i => fold1_char out (fst r + N.of_nat i)) l t)
           (fun d => P d \/ exists i, In i l /\ other_case 1 (fst r + N.of_nat i) d)).
  { induction l as [|i l IH]; cbn [fold_left]; intros t P Hl Ht.
    - eapply den_ext; [exact Ht|]. intros c. split; [auto|]. intros [H|(i & [] & _)]. exact H.
    - set (x := fst r + N.of_nat i).
      assert (Hi : x <= 255) by (apply Hl; left; reflexivity).
      eapply den_ext.
      + apply (IH (fold1_char t x) (fun d => P d \/ other_case 1 x d)); [intros j Hj; apply Hl; right; exact Hj|].
        unfold fold1_char, to_upper, to_lower, other_case, upper, lower. change (1 =? 1) with true. cbv iota zeta.
        destruct ((97 <=? x) && (x <=? 122)) eqn:E1; destruct ((65 <=? x) && (x <=? 90)) eqn:E2;
          rewrite ?andb_true_iff, ?andb_false_iff, ?N.leb_le, ?N.leb_gt in *.
        * lia.
        * destruct (N.eqb_spec (x - 32) x); [lia|]. rewrite N.eqb_refl.
          eapply den_ext; [apply den_insert; [exact Ht|lia|change (max_char 1) with 255; lia]|]. intros d. cbv beta.
          split; intros [?|?]; auto; right; lia.
        * rewrite N.eqb_refl. destruct (N.eqb_spec (x + 32) x); [lia|].
          eapply den_ext; [apply den_insert; [exact Ht|lia|change (max_char 1) with 255; lia]|]. intros d. cbv beta.
          split; intros [?|?]; auto; right; lia.
        * rewrite !N.eqb_refl. eapply den_ext; [exact Ht|]. intros d. split; [auto|]. intros [?|?]; [auto|]. lia.
      + intros d. cbv beta. split.
        * intros [[?|?]|(j & Hj & ?)]; [auto| |]; right; [exists i|exists j]; cbn; auto.
        * intros [?|(j & [->|Hj] & ?)]; [auto|auto|]. right. exists j. auto. }
  eapply den_ext; [apply (G _ [] (fun _ => False))|].
  - intros i Hi. apply in_seq in Hi. lia.
  - apply den_nil.
  - intros d. cbv beta. split.
    + intros [[]|(i & Hi & H)]. apply in_seq in Hi. exists (fst r + N.of_nat i). split; [lia|auto].
    + intros (c & Hc & H). right. exists (N.to_nat (c - fst r)). split; [apply in_seq; lia|].
      replace (fst r + N.of_nat (N.to_nat (c - fst r))) with c by lia. exact H.
Qed.
(** The entries of the tables map intervals to intervals, in increasing order. *)
Definition entry_exact (up : bool) (e : range * range) : bool :=
  let '((ff, fs), (tf, ts)) := e in
  (ff <=? fs) && (N.min tf ts + (fs - ff) =? N.max tf ts) && (negb up || (tf <=? ts)).
Fixpoint ordered (lo : N) (t : list (range * range)) : bool :=
  match t with [] => true | e :: t' => (lo <=? fst (fst e)) && ordered (fst (fst e)) t' end.
Lemma fold2_exact : forallb (entry_exact false) fold2_table && ordered 0 fold2_table && forallb (fun e => (snd (fst e) <? 0x10000)) fold2_table = true.
Proof. vm_compute. reflexivity. Qed.
Lemma fold4_exact : forallb (entry_exact true) fold4_table && ordered 0 fold4_table = true.
Proof. vm_compute. reflexivity. Qed.
(** What one entry adds. *)
Definition by_entry (e : range * range) (r : range) (d : N) : Prop :=
  let '((ff, fs), (tf, ts)) := e in exists c, fst r <= c <= snd r /\ ff <= c <= fs /\ d = N.min tf ts + (c - ff).
Lemma entry_den b (lo hi ff fs : N) out P r : ff <= fs -> lo + (fs - ff) = hi -> hi <= max_char b -> fst r <= snd r -> den b out P ->
  den b (if (ff <=? fst r) && (fst r <=? fs) then
           insert out (lo + (fst r - ff), if fs <? snd r then hi else lo + (snd r - ff))
         else if (ff <=? snd r) && (snd r <=? fs) then insert out (lo, lo + (snd r - ff))
         else if (fst r <=? ff) && (ff <=? snd r) then insert out (lo, hi)
         else out)
    (fun d => P d \/ exists c, fst r <= c <= snd r /\ ff <= c <= fs /\ d = lo + (c - ff)).
Proof.
  intros H1 H2 H3 H4 D.
  destruct ((ff <=? fst r) && (fst r <=? fs)) eqn:E1; rewrite ?andb_true_iff, ?andb_false_iff, ?N.leb_le, ?N.leb_gt in E1.
  - destruct (N.ltb_spec fs (snd r)).
    + eapply den_ext; [apply den_insert; [exact D|lia|lia]|]. intros d. cbv beta. split; intros [?|K]; auto; right.
      * exists (ff + (d - lo)). lia.
      * destruct K as (c & K). lia.
    + eapply den_ext; [apply den_insert; [exact D|lia|lia]|]. intros d. cbv beta. split; intros [?|K]; auto; right.
      * exists (ff + (d - lo)). lia.
      * destruct K as (c & K). lia.
  - destruct ((ff <=? snd r) && (snd r <=? fs)) eqn:E2; rewrite ?andb_true_iff, ?andb_false_iff, ?N.leb_le, ?N.leb_gt in E2.
    + eapply den_ext; [apply den_insert; [exact D|lia|lia]|]. intros d. cbv beta. split; intros [?|K]; auto; right.
      * exists (ff + (d - lo)). lia.
      * destruct K as (c & K). lia.
    + destruct ((fst r <=? ff) && (ff <=? snd r)) eqn:E3; rewrite ?andb_true_iff, ?andb_false_iff, ?N.leb_le, ?N.leb_gt in E3.
      * eapply den_ext; [apply den_insert; [exact D|lia|lia]|]. intros d. cbv beta. split; intros [?|K]; auto; right.
        -- exists (ff + (d - lo)). lia.
        -- destruct K as (c & K). lia.
      * eapply den_ext; [exact D|]. intros d. split; [auto|]. intros [?|(c & K)]; [auto|lia].
Qed.
Lemma table_den b entry r t : fst r <= snd r ->
  (forall e out P, In e t -> den b out P -> den b (entry r out e) (fun d => P d \/ by_entry e r d)) ->
  forall lo out P, ordered lo t = true -> den b out P ->
  den b (fold_table entry t r out) (fun d => P d \/ exists e, In e t /\ by_entry e r d).
Proof.
  intros Hr. induction t as [|e t IH]; cbn [fold_table ordered]; intros HE lo out P HO D.
  - eapply den_ext; [exact D|]. intros d. split; [auto|]. intros [?|(e & [] & _)]. auto.
  - apply andb_true_iff in HO as [HO1 HO2]. destruct (N.ltb_spec (snd r) (fst (fst e))) as [HB|HB].
    + eapply den_ext; [exact D|]. intros d. split; [auto|]. intros [?|(e' & He & K)]; [auto|]. exfalso.
      assert (L : forall t lo e', ordered lo t = true -> In e' t -> lo <= fst (fst e')).
      { clear. induction t as [|e t IH]; cbn; intros lo e' HO Hi; [easy|]. apply andb_true_iff in HO as [H1 H2]. apply N.leb_le in H1.
        destruct Hi as [->|Hi]; [auto|]. specialize (IH _ _ H2 Hi). lia. }
      assert (fst (fst e) <= fst (fst e')) by (destruct He as [->|He]; [lia|eauto]).
      destruct e' as [[ff fs] [tf ts]]. cbn [by_entry fst] in *. destruct K as (c & K). lia.
    + eapply den_ext; [apply (IH (fun e' o Q Hi => HE e' o Q (or_intror Hi)) _ _ _ HO2 (HE e out P (or_introl eq_refl) D))|].
      intros d. cbv beta. split.
      * intros [[?|?]|(e' & He & ?)]; [auto| |]; right; [exists e|exists e']; cbn; auto.
      * intros [?|(e' & [->|He] & ?)]; [auto|auto|]. right. eauto.
Qed.
Lemma min_max tf ts : N.min tf ts = (if tf <=? ts then tf else ts) /\ N.max tf ts = (if tf <=? ts then ts else tf).
Proof. destruct (N.leb_spec tf ts); lia. Qed.
Lemma fold2_den b r out P : fst r <= snd r -> 0xffff <= max_char b -> den b out P ->
  den b (fold2 r out) (fun d => P d \/ exists c, fst r <= c <= snd r /\ paired fold2_table c d).
Proof.
  intros Hr HM D. pose proof fold2_exact as X. rewrite !andb_true_iff in X. destruct X as [[X1 X2] X3]. rewrite forallb_forall in X1.
  pose proof fold2_entries as Y. rewrite forallb_forall in Y.
  eapply den_ext; [apply (table_den b fold2_entry r fold2_table Hr) with (lo := 0) (P := P); [|exact X2|exact D]|].
  - intros [[ff fs] [tf ts]] o Q Hi Do. specialize (X1 _ Hi). specialize (Y _ Hi). cbn [entry_exact] in X1. unfold entry2_ok in Y.
    rewrite !andb_true_iff, N.eqb_eq, N.leb_le in X1. cbv zeta in Y. rewrite !andb_true_iff, !N.leb_le in Y.
    destruct X1 as [[A1 A2] _]. destruct Y as [_ Y].
    destruct (min_max tf ts) as [M1 M2]. rewrite <- M2 in Y. unfold fold2_entry. cbv zeta. cbn [by_entry]. rewrite <- M1, <- M2.
    apply entry_den; try lia; auto.
  - intros d. cbv beta. split; (intros [?|K]; [auto|right]).
    + destruct K as ([[ff fs] [tf ts]] & Hi & c & K1 & K2 & K3). exists c. split; [auto|]. exists ff, fs, tf, ts. auto.
    + destruct K as (c & K & ff & fs & tf & ts & Hi & K2 & K3). exists ((ff, fs), (tf, ts)). split; [auto|]. exists c. auto.
Qed.
Lemma fold4_den b r : fst r <= snd r -> 0x10ffff <= max_char b ->
  den b (fold4 r) (fun d => exists c, fst r <= c <= snd r /\ (paired fold2_table c d \/ paired fold4_table c d)).
Proof.
  intros Hr HM. pose proof fold2_exact as X0. rewrite !andb_true_iff in X0. destruct X0 as [_ X0]. rewrite forallb_forall in X0.
  pose proof fold4_exact as X. rewrite !andb_true_iff in X. destruct X as [X1 X2]. rewrite forallb_forall in X1.
  pose proof fold4_entries as Y. rewrite forallb_forall in Y. unfold fold4.
  assert (D : den b (if fst r <? 0x10000 then fold2 r [] else []) (fun d => exists c, fst r <= c <= snd r /\ paired fold2_table c d)).
  { destruct (N.ltb_spec (fst r) 0x10000) as [HL|HL].
    - eapply den_ext; [apply fold2_den; [auto|lia|apply den_nil]|]. intros d. cbv beta. tauto.
    - eapply den_ext; [apply den_nil|]. intros d. split; [easy|]. intros (c & K & ff & fs & tf & ts & Hi & K2 & K3).
      specialize (X0 _ Hi). cbn [fst snd] in X0. apply N.ltb_lt in X0. lia. }
  eapply den_ext; [apply (table_den b fold4_entry r fold4_table Hr) with (lo := 0); [|exact X2|exact D]|].
  - intros [[ff fs] [tf ts]] o Q Hi Do. specialize (X1 _ Hi). specialize (Y _ Hi). cbn [entry_exact negb orb] in X1. unfold entry4_ok in Y.
    rewrite !andb_true_iff, N.eqb_eq, !N.leb_le in X1. rewrite !andb_true_iff, !N.leb_le in Y. destruct X1 as [[A1 A2] A3]. destruct Y as [_ Y]. unfold fold4_entry. cbn [by_entry].
    rewrite N.min_l, N.max_r in * by lia. apply entry_den; try lia; auto.
  - intros d. cbv beta. split.
    + intros [(c & K & H)|K]; [eauto|]. destruct K as ([[ff fs] [tf ts]] & Hi & c & K1 & K2 & K3). exists c. split; [auto|]. right.
      exists ff, fs, tf, ts. auto.
    + intros (c & K & [H|H]); [left; eauto|right]. destruct H as (ff & fs & tf & ts & Hi & K2 & K3).
      exists ((ff, fs), (tf, ts)). split; [auto|]. exists c. auto.
Qed.
Theorem fold_range_den b r : fst r <= snd r -> snd r <= max_char b ->
  den b (fold_range b r) (fun d => exists c, fst r <= c <= snd r /\ other_case b c d).
Proof.
  intros H1 H2. unfold fold_range, other_case. destruct (N.eqb_spec b 1) as [->|].
  - now apply fold1_den.
  - destruct (N.eqb_spec b 2) as [->|].
    + eapply den_ext; [apply fold2_den; [auto|apply N.le_refl|apply den_nil]|]. intros d. cbv beta. tauto.
    + apply fold4_den; [auto|]. unfold max_char. destruct (N.eqb_spec b 1); [lia|]. destruct (N.eqb_spec b 2); lia.
Qed.
Theorem add_range_den b ic t P x y : den b t P -> x <= y -> y <= max_char b ->
  den b (add_range b ic t (x, y)) (fun d => P d \/ cased b ic (fun c => x <= c <= y) d).
Proof.
  intros D H1 H2. unfold add_range, cased. cbv zeta. pose proof (den_insert b t P x y D H1 H2) as I. destruct ic.
  - eapply den_ext; [apply den_union; [exact I|apply fold_range_den; assumption]|]. intros d. cbv beta. cbn [fst snd]. tauto.
  - eapply den_ext; [exact I|]. intros d. cbv beta. split; [tauto|]. intros [?|[?|[? _]]]; [auto|auto|discriminate].
Qed.
Lemma cased_ext b ic P Q : (forall c, P c <-> Q c) -> forall d, cased b ic P d <-> cased b ic Q d.
Proof. intros H d. unfold cased. rewrite H. split; (intros [?|(? & c & ? & ?)]; [auto|right; split; [auto|exists c; split; [apply H|]; auto]]). Qed.
Lemma cased_or b ic P Q d : cased b ic (fun c => P c \/ Q c) d <-> cased b ic P d \/ cased b ic Q d.
Proof.
  unfold cased. split.
  - intros [[?|?]|(? & c & [?|?] & ?)]; [left; left; auto|right; left; auto|left; right; eauto|right; right; eauto].
  - intros [[?|(? & c & ? & ?)]|[?|(? & c & ? & ?)]]; [left; auto|right; split; eauto|left; auto|right; split; eauto].
Qed.
Lemma add_char_den b ic t P x : den b t P -> x <= max_char b -> den b (add_range b ic t (x, x)) (fun d => P d \/ cased b ic (eq x) d).
Proof.
  intros D H. eapply den_ext; [apply add_range_den; [exact D|lia|exact H]|]. intros d. cbv beta.
  rewrite (cased_ext b ic (fun c => x <= c <= x) (eq x)); [reflexivity|]. intros c. lia.
Qed.
