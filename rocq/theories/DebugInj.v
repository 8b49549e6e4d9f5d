(** Machines with the same dump are the same. *)
From Verif Require Import Base StringToken GenCpp GenNames ReToken ReTokeniser Rules CharMachine Debug StringTokenSpec StringTokenProofs RuleSpec
  Grammar SourceSpec SourceClass SourceAll SourceTop DebugSpec DumpSpec DebugText DebugClass DebugLines.
From Coq Require Import String.
Local Open Scope N_scope.
Local Open Scope list_scope.

(** ** Classes *)
Lemma legible_after max t r r' : legible max t r -> (forall c, closed c r') -> r' <> [] -> legible max t r'.
Proof.
  intros L C NE. unfold legible in *. destruct t as [|[c d] [|x t]]; auto. destruct (c =? d); auto.
Qed.
Lemma closed_paren c : closed c [41].
Proof. split; intros _ K; apply begins_cons in K; [destruct K as (v & K); inversion K; lia|unfold octal_digit in K; lia]. Qed.
Theorem class_text_unique b t t' x : clear_class (top b) t -> clear_class (top b) t' ->
  dump_charset (top b) 16 t = Ok x -> dump_charset (top b) 16 t' = Ok x -> t = t'.
Proof.
  intros (W & NE & B & L) (W' & NE' & B' & L') E E'.
  assert (P1 : legible (top b) t [41]) by (eapply legible_after; eauto using closed_paren; discriminate).
  assert (P2 : legible (top b) t' [41]) by (eapply legible_after; eauto using closed_paren; discriminate).
  destruct (charset_reads b 0 false [41] t eq_refl eq_refl W NE B P1) as (y & P & Y & S & M). rewrite E in Y. injection Y as <-.
  destruct (charset_reads b 0 false [41] t' eq_refl eq_refl W' NE' B' P2) as (y & P' & Y & S' & M'). rewrite E' in Y. injection Y as <-.
  assert (R : forall Q, satom b 0 false [41] x Q -> regex_means b [] 0 (40 :: x ++ [41]) (SSet Q)).
  { intros Q H. unfold regex_means. apply sr_regex, sr_seq, sr_expr, sr_group, sr_regex, sr_seq, sr_expr, sr_atom, as_atom. exact H. }
  assert (SM : small b (40 :: x ++ [41])).
  { assert (T : 255 <= max_char b) by (exact (top_big b)). unfold small. constructor; [lia|]. apply Forall_app. split; [|constructor; [lia|constructor]].
    eapply Forall_impl; [|exact (charset_visible _ 16 _ _ ltac:(lia) E)]. unfold visible. intros c. lia. }
  pose proof (one_meaning b [] 0 [] _ _ _ (mtable_nil b []) SM (R _ S) (R _ S')) as U.
  apply canonical; auto. intros c. rewrite <- M, <- M'. specialize (U [CChar c]). cbn [slang] in U.
  split; intros H; [assert (K : exists c0, P c0 /\ [CChar c] = [CChar c0]) by eauto; apply U in K|assert (K : exists c0, P' c0 /\ [CChar c] = [CChar c0]) by eauto; apply U in K];
    destruct K as (d & K1 & K2); injection K2 as <-; exact K1.
Qed.

(** ** Lines *)
Local Opaque txt.
Definition move_line (max : N) (tr : N * stoken) (l : list N) : Prop :=
  exists c, dump_charset max 16 (snd tr) = Ok c /\ l = txt "  " ++ c ++ txt " -> " ++ print 10 (fst tr).
Definition stack_text (s : cstate) : list N :=
  match cs_kind s with KPush => txt ", PUSH " ++ print 10 (cs_push s) | KPop => txt ", POP" | KNeither => [] end.
Definition end_text (s : cstate) : list N :=
  txt "  END STATE" ++ stack_text s ++ txt ", Id = " ++ print 10 (cs_id s) ++ txt ", User Id = " ++ print 10 (cs_uid s) ++
  txt ", dfa = " ++ print 10 (cs_next s).
Definition end_lines (s : cstate) : list (list N) := if cs_end s then [end_text s] else [].
Definition index_lines (npos : N) (label : string) (i : N) : list (list N) := if i =? npos then [] else [txt label ++ print 10 i].
Definition state_group (npos max bol i : N) (s : cstate) (g : list (list N)) : Prop :=
  exists ms, Forall2 (move_line max) (cs_trans s) ms /\
    g = (txt "State: " ++ print 10 i) ::
        end_lines s ++ (if i =? 0 then index_lines npos "  BOL -> " bol else []) ++ index_lines npos "  EOL -> " (cs_eol s) ++ ms.

Definition closed_by (l : list N) : list N := l ++ [10].
Lemma moves_lines max l : forall x, dump_transitions max 16 l = Ok x -> exists ms, Forall2 (move_line max) l ms /\ x = flat_map closed_by ms.
Proof.
  induction l as [|[q t] l IH]; intros x; cbn [dump_transitions].
  - intros [= <-]. exists []. split; [constructor|reflexivity].
  - unfold dump_transition at 1. cbn [fst snd]. destruct (dump_charset max 16 t) as [c| | |] eqn:C; try discriminate. cbn [bind].
    destruct (dump_transitions max 16 l) as [y| | |] eqn:Y; try discriminate. cbn [bind]. intros [= <-]. destruct (IH y eq_refl) as (ms & M1 & M2).
    exists ((txt "  " ++ c ++ txt " -> " ++ print 10 q) :: ms). split; [constructor; [exists c; auto|exact M1]|].
    cbn [flat_map]. rewrite M2. unfold closed_by at 2, newline. rewrite <- !app_assoc. reflexivity.
Qed.
Lemma end_lines_text s : dump_end s = flat_map closed_by (end_lines s).
Proof.
  unfold dump_end, end_lines. destruct (cs_end s); [|reflexivity]. cbn [flat_map]. unfold closed_by, end_text, stack_text, newline. rewrite app_nil_r, <- !app_assoc. reflexivity.
Qed.
Lemma index_lines_text npos k i : dump_index npos k i = flat_map closed_by (index_lines npos k i).
Proof. unfold dump_index, index_lines. destruct (i =? npos); [reflexivity|]. cbn [flat_map]. unfold closed_by, newline. now rewrite app_nil_r, <- app_assoc. Qed.
Lemma state_text npos max bol i s x : dump_state npos max 16 bol i s = Ok x -> exists g, state_group npos max bol i s g /\ x = paragraph g.
Proof.
  unfold dump_state. destruct (dump_transitions max 16 (cs_trans s)) as [y| | |] eqn:Y; try discriminate. cbn [bind]. intros E. injection E as <-.
  destruct (moves_lines _ _ _ Y) as (ms & M1 & ->). eexists. split; [exists ms; split; [exact M1|reflexivity]|].
  unfold paragraph. cbn [flat_map]. change (fun l : list N => l ++ [10]) with closed_by. rewrite !flat_map_app, <- !app_assoc, end_lines_text, <- index_lines_text. unfold newline.
  cbn [app]. destruct (i =? 0); [rewrite <- index_lines_text|]; reflexivity.
Qed.
Fixpoint state_groups (npos max bol i : N) (l : list cstate) (gs : list (list (list N))) : Prop :=
  match l, gs with
  | [], [] => True
  | s :: l', g :: gs' => state_group npos max bol i s g /\ state_groups npos max bol (i + 1) l' gs'
  | _, _ => False
  end.
Lemma states_text npos max bol l : forall i x, dump_states npos max 16 bol i l = Ok x -> exists gs, state_groups npos max bol i l gs /\ x = flat_map paragraph gs.
Proof.
  induction l as [|s l IH]; intros i x; cbn [dump_states].
  - intros [= <-]. exists []. split; [exact I|reflexivity].
  - destruct (dump_state npos max 16 bol i s) as [a| | |] eqn:A; try discriminate. cbn [bind].
    destruct (dump_states npos max 16 bol (i + 1) l) as [y| | |] eqn:Y; try discriminate. cbn [bind]. intros [= <-].
    destruct (state_text _ _ _ _ _ _ A) as (g & G & ->). destruct (IH _ _ Y) as (gs & GS & ->). exists (g :: gs). split; [split; auto|reflexivity].
Qed.
Definition header (n : list N) : list (list N) := [txt "Lexer state: " ++ n].
Fixpoint machine_groups (npos max : N) (name : N -> option (list N)) (i : N) (l : list cdfa) (gs : list (list (list N))) : Prop :=
  match l with
  | [] => gs = []
  | d :: l' => exists n a b, name i = Some n /\ gs = header n :: a ++ b /\ state_groups npos max (cd_bol d) 0 (cd_states d) a /\
      machine_groups npos max name (i + 1) l' b
  end.
Lemma machine_text npos max name l : forall i x, dump_csm npos max 16 name i l = Ok x ->
  exists gs, machine_groups npos max name i l gs /\ x = flat_map paragraph gs.
Proof.
  induction l as [|d l IH]; intros i x; cbn [dump_csm].
  - intros [= <-]. exists []. split; reflexivity.
  - destruct (name i) as [n|] eqn:En; [|discriminate]. unfold dump_ex. destruct (dump_states npos max 16 (cd_bol d) 0 (cd_states d)) as [a| | |] eqn:A; try discriminate. cbn [bind].
    destruct (dump_csm npos max 16 name (i + 1) l) as [b| | |] eqn:B; try discriminate. cbn [bind]. intros E. injection E as <-.
    destruct (states_text _ _ _ _ _ _ A) as (ga & GA & ->). destruct (IH _ _ B) as (gb & GB & ->).
    exists (header n :: ga ++ gb). split; [exists n, ga, gb; auto|]. cbn [flat_map]. rewrite flat_map_app. unfold paragraph at 3, header, newline. cbn [flat_map]. rewrite app_nil_r, <- !app_assoc. reflexivity.
Qed.
Local Transparent txt.

(** ** Numbers and lines read back *)
Lemma print_inj n m : print 10 n = print 10 m -> n = m.
Proof. intros E. rewrite <- (read_print 10 n), <- (read_print 10 m) by lia. now rewrite E. Qed.
Lemma print_free x n : ~ numeral x -> ~ In x (print 10 n).
Proof. intros H. apply (visible_not numeral); [congruence|apply print_numeral]. Qed.
Lemma print_cut x n m v v' : ~ numeral x -> print 10 n ++ x :: v = print 10 m ++ x :: v' -> n = m /\ v = v'.
Proof. intros H E. apply cut_at in E as [E ->]; auto using print_free. split; [now apply print_inj|reflexivity]. Qed.

Lemma move_inj b tr tr' l : clear_class (top b) (snd tr) -> clear_class (top b) (snd tr') -> move_line (top b) tr l -> move_line (top b) tr' l -> tr = tr'.
Proof.
  destruct tr as [q t], tr' as [q' t']. cbn [fst snd]. intros C C' (c & E & ->) (c' & E' & L). cbn [fst snd] in *. change (txt " -> ") with [32; 45; 62; 32] in L.
  apply app_inv_head in L. change ([32; 45; 62; 32] ++ print 10 q) with ([32; 45; 62] ++ 32 :: print 10 q) in L.
  change ([32; 45; 62; 32] ++ print 10 q') with ([32; 45; 62] ++ 32 :: print 10 q') in L. rewrite !app_assoc in L.
  apply cut_end in L as [L1 L2]; [|apply print_free; unfold numeral; lia|apply print_free; unfold numeral; lia].
  apply app_inv_tail in L1 as <-. apply print_inj in L2 as <-. f_equal. eapply class_text_unique; eauto.
Qed.
Lemma moves_inj b l : forall l' ms, (forall q t, In (q, t) l -> clear_class (top b) t) -> (forall q t, In (q, t) l' -> clear_class (top b) t) ->
  Forall2 (move_line (top b)) l ms -> Forall2 (move_line (top b)) l' ms -> l = l'.
Proof.
  induction l as [|[q t] l IH]; intros l' ms C C' F F'; inversion F; subst; inversion F'; subst; auto.
  destruct x as [q' t']. f_equal.
  - eapply move_inj; eauto; [apply (C q t)|apply (C' q' t')]; now left.
  - eapply IH; eauto; intros; [eapply C|eapply C']; right; eauto.
Qed.
Lemma end_inj s s' : end_text s = end_text s' ->
  cs_kind s = cs_kind s' /\ cs_id s = cs_id s' /\ cs_uid s = cs_uid s' /\ cs_next s = cs_next s' /\ (cs_kind s = KPush -> cs_push s = cs_push s').
Proof.
  unfold end_text. intros E. apply app_inv_head in E.
  assert (T : forall n u d n' u' d', txt ", Id = " ++ print 10 n ++ txt ", User Id = " ++ print 10 u ++ txt ", dfa = " ++ print 10 d =
      txt ", Id = " ++ print 10 n' ++ txt ", User Id = " ++ print 10 u' ++ txt ", dfa = " ++ print 10 d' -> n = n' /\ u = u' /\ d = d').
  { clear. intros n u d n' u' d' E. apply app_inv_head in E. 
    change (txt ", User Id = ") with (44 :: txt " User Id = ") in E. cbn [app] in E. apply print_cut in E as [-> E]; [|unfold numeral; lia].
    apply app_inv_head in E. change (txt ", dfa = ") with (44 :: txt " dfa = ") in E. cbn [app] in E. apply print_cut in E as [-> E]; [|unfold numeral; lia].
    apply app_inv_head in E. apply print_inj in E as ->. auto. }
  assert (K1 : forall x y, txt ", PUSH " ++ x = txt ", POP" ++ y -> False) by (intros x y H; discriminate H).
  assert (K2 : forall x y, txt ", PUSH " ++ x = txt ", Id = " ++ y -> False) by (intros x y H; discriminate H).
  assert (K3 : forall x y, txt ", POP" ++ x = txt ", Id = " ++ y -> False) by (intros x y H; discriminate H).
  unfold stack_text in E. destruct (cs_kind s) eqn:Ks, (cs_kind s') eqn:Ks'; cbn [app] in E.
  - apply T in E. intuition congruence.
  - exfalso. symmetry in E. rewrite <- app_assoc in E. now apply K2 in E.
  - exfalso. symmetry in E. now apply K3 in E.
  - exfalso. rewrite <- app_assoc in E. now apply K2 in E.
  - rewrite <- !app_assoc in E. apply app_inv_head in E.
    change (txt ", Id = ") with (44 :: txt " Id = ") in E. cbn [app] in E. apply print_cut in E as [P E]; [|unfold numeral; lia].
    apply (f_equal (cons 44)) in E. apply T in E. intuition congruence.
  - exfalso. rewrite <- app_assoc in E. now apply K1 in E.
  - exfalso. now apply K3 in E.
  - exfalso. symmetry in E. rewrite <- app_assoc in E. now apply K1 in E.
  - apply app_inv_head in E. apply T in E. intuition congruence.
Qed.

(** ** Kinds of lines *)
Definition starts (k : string) (l : list N) : bool := if list_eq_dec N.eq_dec (firstn 4 l) (txt k) then true else false.
Lemma class_shape b t c : wf t -> dump_charset (top b) 16 t = Ok c -> (exists x, c = [x]) \/ (exists y, c = 91 :: y) \/ (exists y, c = 92 :: y).
Proof.
  intros W. unfold dump_charset.
  assert (G : opening t = Ok [91] \/ opening t = UB \/ exists y, t = [(y, y)]).
  { destruct t as [|[x y] t]; [auto|]. cbn [opening]. destruct t; [|auto]. destruct (N.eqb_spec x y) as [->|]; eauto. }
  destruct G as [->|[->|(y & ->)]].
  - cbn [bind]. destruct (closing _ _); cbn [bind]; intros E; try discriminate. injection E as <-. right. left. eauto.
  - discriminate.
  - rewrite (one_small b y y eq_refl), andb_false_r. cbn [opening closing flat_map]. rewrite N.eqb_refl. cbn [bind negb orb app]. rewrite !app_nil_r, dump_one.
    destruct (has_char y _); intros E; injection E as <-; [right; right; cbn [app]; eauto|]. cbn [app]. unfold opt. destruct ((y =? 45) || (y =? 94)); [right; right; cbn [app]; eauto|].
    cbn [app]. unfold escape_char. repeat match goal with |- context [if ?x =? ?y then _ else _] => destruct (x =? y); [eauto|] end.
    destruct (_ || _); eauto.
Qed.
Lemma starts_move b tr l k : wf (snd tr) -> move_line (top b) tr l -> k = "  EN"%string \/ k = "  BO"%string \/ k = "  EO"%string -> starts k l = false.
Proof.
  intros W (c & E & ->) K. unfold starts. destruct (list_eq_dec _ _ _) as [X|]; [exfalso|reflexivity].
  destruct (class_shape b _ _ W E) as [(x & ->)|[(y & ->)|(y & ->)]]; destruct K as [->|[->| ->]]; cbn in X; discriminate.
Qed.
Lemma filter_none {A} (f : A -> bool) l : (forall x, In x l -> f x = false) -> filter f l = [].
Proof. induction l as [|x l IH]; intros H; [reflexivity|]. cbn. rewrite (H x (or_introl eq_refl)). apply IH. intros; apply H; now right. Qed.
Lemma filter_every {A} (f : A -> bool) l : (forall x, In x l -> f x = true) -> filter f l = l.
Proof. induction l as [|x l IH]; intros H; [reflexivity|]. cbn. rewrite (H x (or_introl eq_refl)). f_equal. apply IH. intros; apply H; now right. Qed.
Lemma end_starts s k x : In x (end_lines s) -> k = "  EN"%string \/ k = "  BO"%string \/ k = "  EO"%string -> starts k x = (k =? "  EN")%string.
Proof. unfold end_lines. destruct (cs_end s); [|intros []]. intros [<-|[]] [->|[->| ->]]; reflexivity. Qed.
Lemma bol_starts npos i k x : In x (index_lines npos "  BOL -> " i) -> k = "  EN"%string \/ k = "  BO"%string \/ k = "  EO"%string -> starts k x = (k =? "  BO")%string.
Proof. unfold index_lines. destruct (i =? npos); [intros []|]. intros [<-|[]] [->|[->| ->]]; reflexivity. Qed.
Lemma eol_starts npos i k x : In x (index_lines npos "  EOL -> " i) -> k = "  EN"%string \/ k = "  BO"%string \/ k = "  EO"%string -> starts k x = (k =? "  EO")%string.
Proof. unfold index_lines. destruct (i =? npos); [intros []|]. intros [<-|[]] [->|[->| ->]]; reflexivity. Qed.
Lemma index_inj npos k i j : index_lines npos k i = index_lines npos k j -> i = j.
Proof.
  unfold index_lines. destruct (N.eqb_spec i npos) as [->|], (N.eqb_spec j npos) as [->|]; intros E; try discriminate; auto.
  injection E as E. apply app_inv_head in E. now apply print_inj.
Qed.
Lemma moves_in b l ms : (forall q t, In (q, t) l -> clear_class (top b) t) -> Forall2 (move_line (top b)) l ms ->
  forall x k, In x ms -> k = "  EN"%string \/ k = "  BO"%string \/ k = "  EO"%string -> starts k x = false.
Proof.
  intros C F x k I K. induction F as [|[q t] y l ms M F IH]; [destruct I|]. destruct I as [->|I].
  - eapply starts_move; eauto. cbn. apply (C q t). now left.
  - apply IH; auto. intros; eapply C; right; eauto.
Qed.
Definition bol_part (npos i bol : N) : list (list N) := if i =? 0 then index_lines npos "  BOL -> " bol else [].
Lemma parts npos b i bol s ms : (forall q t, In (q, t) (cs_trans s) -> clear_class (top b) t) -> Forall2 (move_line (top b)) (cs_trans s) ms ->
  let l := end_lines s ++ bol_part npos i bol ++ index_lines npos "  EOL -> " (cs_eol s) ++ ms in
  filter (starts "  EN") l = end_lines s /\ filter (starts "  BO") l = bol_part npos i bol /\ filter (starts "  EO") l = index_lines npos "  EOL -> " (cs_eol s).
Proof.
  intros C F l. assert (B : forall x k, In x (bol_part npos i bol) -> k = "  EN"%string \/ k = "  BO"%string \/ k = "  EO"%string -> starts k x = (k =? "  BO")%string).
  { unfold bol_part. intros x k. destruct (i =? 0); [apply bol_starts|intros []]. }
  pose proof (moves_in b _ _ C F) as M. unfold l. rewrite !filter_app. repeat split.
  - rewrite (filter_every _ (end_lines s)), (filter_none _ (bol_part npos i bol)), (filter_none _ (index_lines _ _ _)), (filter_none _ ms), !app_nil_r; auto; intros x I.
    + rewrite (eol_starts _ _ _ _ I); auto.
    + rewrite (B _ _ I); auto.
    + rewrite (end_starts _ _ _ I); auto.
  - rewrite (filter_none _ (end_lines s)), (filter_every _ (bol_part npos i bol)), (filter_none _ (index_lines _ _ _)), (filter_none _ ms), !app_nil_r; auto; intros x I.
    + rewrite (eol_starts _ _ _ _ I); auto.
    + rewrite (B _ _ I); auto.
    + rewrite (end_starts _ _ _ I); auto.
  - rewrite (filter_none _ (end_lines s)), (filter_none _ (bol_part npos i bol)), (filter_every _ (index_lines _ _ _)), (filter_none _ ms), !app_nil_r; auto; intros x I.
    + rewrite (eol_starts _ _ _ _ I); auto.
    + rewrite (B _ _ I); auto.
    + rewrite (end_starts _ _ _ I); auto.
Qed.

(** ** States, machines *)
Lemma group_inj npos b bol bol' i s s' g : (forall q t, In (q, t) (cs_trans s) -> clear_class (top b) t) -> (forall q t, In (q, t) (cs_trans s') -> clear_class (top b) t) ->
  state_group npos (top b) bol i s g -> state_group npos (top b) bol' i s' g -> looks_like s s' /\ (i = 0 -> bol = bol').
Proof.
  intros C C' (ms & F & ->) (ms' & F' & E). injection E as E. fold (bol_part npos i bol) in E. fold (bol_part npos i bol') in E.
  destruct (parts npos b i bol s ms C F) as (P1 & P2 & P3). destruct (parts npos b i bol' s' ms' C' F') as (P1' & P2' & P3'). cbv zeta in *.
  rewrite E in P1, P2, P3. rewrite P1 in P1'. rewrite P2 in P2'. rewrite P3 in P3'. rewrite P1', P2', P3' in E. do 3 apply app_inv_head in E. subst ms'.
  split.
  - assert (EE : cs_end s = cs_end s') by (unfold end_lines in P1'; destruct (cs_end s), (cs_end s'); auto; discriminate).
    assert (EI : cs_end s = true -> end_text s = end_text s'). { intros T. unfold end_lines in P1'. rewrite <- EE, T in P1'. congruence. }
    constructor; auto.
    + intros T. destruct (end_inj _ _ (EI T)) as (? & ? & ? & ? & _). auto.
    + intros T. apply (end_inj _ _ (EI T)).
    + exact (index_inj _ _ _ _ P3').
    + exact (moves_inj b _ _ _ C C' F F').
  - intros ->. exact (index_inj _ _ _ _ P2').
Qed.
Lemma states_inj npos b bol bol' l : forall i l' a v v', (forall s q t, In s l -> In (q, t) (cs_trans s) -> clear_class (top b) t) ->
  (forall s q t, In s l' -> In (q, t) (cs_trans s) -> clear_class (top b) t) ->
  (forall g n, hd_error v = Some g -> hd_error g <> Some (txt "State: " ++ n)) -> (forall g n, hd_error v' = Some g -> hd_error g <> Some (txt "State: " ++ n)) ->
  forall a', state_groups npos (top b) bol i l a -> state_groups npos (top b) bol' i l' a' -> a ++ v = a' ++ v' ->
  Forall2 looks_like l l' /\ v = v' /\ (l <> [] -> i = 0 -> bol = bol').
Proof.
  induction l as [|s l IH]; intros i [|s' l'] [|g a] v v' C C' V V' [|g' a'] G G' E; try contradiction; cbn [app] in E.
  - split; [constructor|]. split; [exact E|congruence].
  - exfalso. subst v. destruct G' as [(ms & _ & ->) _]. exact (V _ _ eq_refl eq_refl).
  - exfalso. subst v'. destruct G as [(ms & _ & ->) _]. exact (V' _ _ eq_refl eq_refl).
  - injection E as <- E. destruct G as [G1 G2], G' as [G1' G2'].
    destruct (group_inj npos b bol bol' i s s' g) as [L B]; auto; [intros q t; apply C; now left|intros q t; apply C'; now left|].
    destruct (IH (i + 1) l' a v v' ltac:(intros s0 q t I; apply C; now right) ltac:(intros s0 q t I; apply C'; now right) V V' a' G2 G2' E) as (I1 & I2 & _).
    split; [constructor; auto|]. split; auto.
Qed.
Lemma machine_head npos max name i l gs : machine_groups npos max name i l gs -> forall g n, hd_error gs = Some g -> hd_error g <> Some (txt "State: " ++ n).
Proof.
  destruct l as [|d l]; cbn [machine_groups].
  - intros -> g n H. discriminate.
  - intros (m & a & b & _ & -> & _) g n H. cbn in H. injection H as <-. unfold header. cbn [hd_error]. intros K. discriminate.
Qed.
Lemma machines_inj npos b name l : forall i l' gs, (forall d, In d l -> clear_moves (top b) d) -> (forall d, In d l' -> clear_moves (top b) d) ->
  machine_groups npos (top b) name i l gs -> machine_groups npos (top b) name i l' gs -> Forall2 dfa_like l l'.
Proof.
  induction l as [|d l IH]; intros i [|d' l'] gs C C' G G'; cbn [machine_groups] in *.
  - constructor.
  - destruct G' as (n & a & v & _ & E & _). congruence.
  - destruct G as (n & a & v & _ & E & _). congruence.
  - destruct G as (n & a & v & Hn & -> & G1 & G2), G' as (n' & a' & v' & Hn' & E & G1' & G2'). injection E as _ E.
    destruct (states_inj npos b (cd_bol d) (cd_bol d') (cd_states d) 0 (cd_states d') a v v' ltac:(intros s q t I1 I2; exact (C d (or_introl eq_refl) s q t I1 I2)) ltac:(intros s q t I1 I2; exact (C' d' (or_introl eq_refl) s q t I1 I2))
      (machine_head _ _ _ _ _ _ G2) (machine_head _ _ _ _ _ _ G2') a' G1 G1' E) as (S1 & <- & S3).
    constructor; [constructor; auto|]. eapply IH; eauto; intros x I; [apply C|apply C']; now right.
Qed.

(** ** The lines are lines *)
Lemma txt_line k l : (exists c r, txt k = c :: r) -> ~ In 10 (txt k) -> ~ In 10 l -> line_ok (txt k ++ l).
Proof. intros (c & r & E) N1 N2. split; [rewrite E; discriminate|]. intros I. apply in_app_or in I. tauto. Qed.
Lemma no_line_feed (P : N -> Prop) l : (forall c, P c -> c <> 10) -> Forall P l -> ~ In 10 l.
Proof. apply visible_not. Qed.
Lemma num_line n : ~ In 10 (print 10 n).
Proof. apply print_free. unfold numeral. lia. Qed.
Local Ltac here := vm_compute; intuition discriminate.
Local Ltac label := apply txt_line; [do 2 eexists; reflexivity|here|].
Local Ltac nolf := repeat match goal with |- ~ In 10 (_ ++ _) => let I := fresh in intros I; apply in_app_or in I as [I|I]; revert I end; try exact (num_line _); try here.
Lemma group_lines npos max bol i s g : state_group npos max bol i s g -> Forall line_ok g.
Proof.
  intros (ms & F & ->). constructor; [label; apply num_line|].
  assert (X : forall k j, k = "  BOL -> "%string \/ k = "  EOL -> "%string -> Forall line_ok (index_lines npos k j)).
  { intros k j K. unfold index_lines. destruct (j =? npos); [constructor|]. constructor; [|constructor]. destruct K as [->| ->]; label; apply num_line. }
  repeat (apply Forall_app; split).
  - unfold end_lines. destruct (cs_end s); [|constructor]. constructor; [|constructor]. unfold end_text. label.
    unfold stack_text. intros I. repeat (apply in_app_or in I as [I|I]; try (revert I; first [exact (num_line _)|here])).
    + destruct (cs_kind s); [destruct I| |revert I; here]. apply in_app_or in I as [I|I]; revert I; [here|apply num_line].
  - destruct (i =? 0); [auto|constructor].
  - auto.
  - clear X. induction F as [|tr l ts ls (c & E & ->) F IH]; [constructor|]. constructor; [|exact IH]. label.
    pose proof (visible_not visible 10 c ltac:(unfold visible; lia) (charset_visible _ 16 _ _ ltac:(lia) E)) as V.
    intros I. apply in_app_or in I as [I|I]; [tauto|]. apply in_app_or in I as [I|I]; revert I; [here|apply num_line].
Qed.
Lemma groups_lines npos max bol l : forall i gs, state_groups npos max bol i l gs -> Forall (Forall line_ok) gs.
Proof. induction l as [|s l IH]; intros i [|g gs]; cbn [state_groups]; try contradiction; [constructor|]. intros [G H]. constructor; [eapply group_lines; eauto|eauto]. Qed.
Lemma machine_lines npos max name l : (forall i n, name i = Some n -> ~ In 10 n) -> forall i gs, machine_groups npos max name i l gs -> Forall (Forall line_ok) gs.
Proof.
  intros NM. induction l as [|d l IH]; intros i gs; cbn [machine_groups]; [intros ->; constructor|].
  intros (n & a & b & E & -> & G & H). constructor; [constructor; [label; eauto|constructor]|]. apply Forall_app. split; [eapply groups_lines; eauto|eauto].
Qed.

Theorem dump_unique npos b name l l' x : (forall i n, name i = Some n -> ~ In 10 n) ->
  (forall d, In d l -> clear_moves (top b) d) -> (forall d, In d l' -> clear_moves (top b) d) ->
  dump_csm npos (top b) 16 name 0 l = Ok x -> dump_csm npos (top b) 16 name 0 l' = Ok x -> Forall2 dfa_like l l'.
Proof.
  intros NM C C' E E'. destruct (machine_text _ _ _ _ _ _ E) as (gs & G & ->). destruct (machine_text _ _ _ _ _ _ E') as (gs' & G' & X).
  apply paragraphs_cut in X as <-; [|eapply machine_lines; eauto|eapply machine_lines; eauto]. eapply machines_inj; eauto.
Qed.
