(** From the text of a regular expression to the token vector of its rule. *)
From Verif Require Import Base StringToken StringTokenSpec StringTokenProofs RegexSpec ReToken ReTokeniser Grammar RuleSpec
  Parser Rules TokeniseSpec TokeniseProofs StripProofs PruneProofs
  SourceSpec SourceSets SourceClass SourceRep SourceLex SourceLead.
Local Open Scope N_scope.

(** ** Tokens of the grammar may stand next to each other *)
Definition opens (x : ttype) : Prop :=
  adj x CHARSET = true /\ adj x BOL = true /\ adj x EOL = true /\ adj x OPENPAREN = true.
Definition closes (y : ttype) : Prop :=
  opens y /\ adj y OR = true /\ adj y CLOSEPAREN = true /\ adj y END = true.
Definition bare_end (y : ttype) : Prop := y = CHARSET \/ y = BOL \/ y = EOL \/ y = CLOSEPAREN.
Lemma bare_closes y : bare_end y -> closes y.
Proof. intros [->|[->|[->| ->]]]; repeat split. Qed.
Lemma dup_type t f : dup t f -> closes (tk_type t) /\ (forall y, bare_end y -> adj y (tk_type t) = true) /\
  tk_type t <> MACRO /\ tk_type t <> DIFF /\ tk_type t <> END.
Proof.
  intros H. destruct H as [t H|t H|t H|t mn mx H _]; destruct H as [-> | ->]; (split; [repeat split|]);
    (split; [intros y [->|[->|[->| ->]]]; reflexivity|]); repeat split; discriminate.
Qed.
Definition plain_type (t : token) : Prop := tk_type t <> MACRO /\ tk_type t <> DIFF /\ tk_type t <> END.
Lemma gram_chain X r w : gram X r w ->
  (forall x, opens x -> chain x w) /\ (forall x, closes (tlast x w)) /\ (X = GAtom -> forall x, bare_end (tlast x w)) /\ Forall plain_type w.
Proof.
  induction 1 as [r w G IH|p q u v t G1 IH1 T G2 IH2|r w G IH|p q u v G1 IH1 G2 IH2|r w G IH|r w t f G IH D|t T|t T|t T|r w o c O G IH C].
  - destruct IH as (A & B & _ & F). repeat split; try discriminate; try assumption; apply B.
  - destruct IH1 as (A & B & _ & F). destruct IH2 as (A2 & B2 & _ & F2). split; [|split; [|split; [discriminate|]]].
    + intros x Hx. apply chain_app. split; [now apply A|]. cbn [chain]. rewrite T. split; [apply (B x)|]. apply A2. repeat split.
    + intros x. unfold tlast. rewrite map_app. cbn [map].
      replace (last (map tk_type u ++ tk_type t :: map tk_type v) x) with (tlast (tk_type t) v); [apply B2|].
      unfold tlast. induction (map tk_type u) as [|y l IHl]; cbn [app]; [|rewrite IHl; destruct (l ++ tk_type t :: map tk_type v) eqn:E; [destruct l; discriminate|reflexivity]].
      clear. revert x. generalize (tk_type t). induction (map tk_type v) as [|y l IHl]; intros z x; [reflexivity|]. cbn [last] in *. destruct l; [reflexivity|]. now rewrite IHl with (x := x).
    + apply Forall_app. split; [exact F|]. constructor; [repeat split; rewrite T; discriminate|exact F2].
  - destruct IH as (A & B & _ & F). repeat split; try discriminate; try assumption; apply B.
  - destruct IH1 as (A & B & _ & F). destruct IH2 as (A2 & B2 & _ & F2). split; [|split; [|split; [discriminate|]]].
    + intros x Hx. apply chain_app. split; [now apply A|]. apply A2. apply (B x).
    + intros x. apply gram_nonempty in G2. destruct v as [|y v]; [easy|].
      replace (tlast x (u ++ y :: v)) with (tlast x (y :: v)); [apply B2|]. unfold tlast. rewrite map_app. cbn [map].
      induction (map tk_type u) as [|z l IHl]; cbn [app]; [reflexivity|]. rewrite IHl. destruct (l ++ tk_type y :: map tk_type v) eqn:E; [destruct l; discriminate|reflexivity].
    + now apply Forall_app.
  - destruct IH as (A & B & _ & F). repeat split; try discriminate; try assumption; apply B.
  - destruct IH as (A & B & K & F). destruct (dup_type _ _ D) as (D1 & D2 & D3). split; [|split; [|split; [discriminate|]]].
    + intros x Hx. apply chain_app. split; [now apply A|]. cbn [chain]. split; [apply D2, K; reflexivity|exact Logic.I].
    + intros x. rewrite tlast_snoc. exact D1.
    + apply Forall_app. split; [exact F|]. constructor; [exact D3|constructor].
  - split; [|split; [|split]].
    + intros x Hx. cbn [chain]. rewrite T. split; [apply Hx|exact Logic.I].
    + intros x. cbn. rewrite T. apply bare_closes. unfold bare_end. auto.
    + intros _ x. cbn. rewrite T. unfold bare_end. auto.
    + constructor; [repeat split; rewrite T; discriminate|constructor].
  - split; [|split; [|split]].
    + intros x Hx. cbn [chain]. rewrite T. split; [apply Hx|exact Logic.I].
    + intros x. cbn. rewrite T. apply bare_closes. unfold bare_end. auto.
    + intros _ x. cbn. rewrite T. unfold bare_end. auto.
    + constructor; [repeat split; rewrite T; discriminate|constructor].
  - split; [|split; [|split]].
    + intros x Hx. cbn [chain]. rewrite T. split; [apply Hx|exact Logic.I].
    + intros x. cbn. rewrite T. apply bare_closes. unfold bare_end. auto.
    + intros _ x. cbn. rewrite T. unfold bare_end. auto.
    + constructor; [repeat split; rewrite T; discriminate|constructor].
  - destruct IH as (A & B & _ & F). split; [|split; [|split]].
    + intros x Hx. cbn [chain]. rewrite O. split; [apply Hx|]. apply chain_app. split; [apply A; repeat split|]. cbn [chain]. rewrite C. split; [apply B|exact Logic.I].
    + intros x. rewrite app_comm_cons, tlast_snoc, C. apply bare_closes. unfold bare_end. auto.
    + intros _ x. rewrite app_comm_cons, tlast_snoc, C. unfold bare_end. auto.
    + constructor; [repeat split; rewrite O; discriminate|]. apply Forall_app. split; [exact F|]. constructor; [repeat split; rewrite C; discriminate|constructor].
Qed.

(** ** The loop of tokenise *)
Lemma is_type_neq a t : tk_type t <> a -> is_type a t = false.
Proof. intros H. destruct (is_type a t) eqn:E; [|reflexivity]. apply is_type_iff in E. contradiction. Qed.
Lemma loop_reads b ms k s t s1 : reads b k s t s1 -> plain_type t -> forall x acc n mac, adj (tk_type x) (tk_type t) = true ->
  tok_loop (k + n) b ms s (x :: acc) mac None = tok_loop n b ms s1 (t :: x :: acc) [] None.
Proof.
  induction 1 as [s t s1 H|k s t s1 d s2 c t2 s3 t3 R IH T Hd D Hc H2 T2 C]; intros (F1 & F2 & F3) x acc n mac A.
  - cbn [Nat.add tok_loop]. rewrite H. cbn [bind]. unfold adj in A. rewrite (is_type_neq _ _ F2), (is_type_neq _ _ F1). cbn [bind]. rewrite (is_type_neq _ _ F3).
    destruct (precedence (tk_type x) (tk_type t)) as [[]|]; try discriminate; reflexivity.
  - assert (T3 : tk_type t3 = CHARSET).
    { unfold check_diff in C. destruct (is_type _ _); [|discriminate]. destruct (c =? 45); [destruct (remove _ _) as [[|? ?]| | |]; cbn in C; try discriminate|]; injection C as <-; exact T. }
    rewrite T3 in A. rewrite <- Nat.add_assoc. rewrite IH; [|repeat split; rewrite T; discriminate|now rewrite T].
    cbn [Nat.add tok_loop]. rewrite T, Hd. cbn [bind]. unfold is_type at 1. rewrite D. change (ttype_eqb DIFF DIFF) with true. cbv iota. cbn [bind]. rewrite Hc. cbn [of_opt bind].
    rewrite H2. cbn [bind]. unfold is_type at 1 2. rewrite T2. change (ttype_eqb CHARSET DIFF) with false. change (ttype_eqb CHARSET MACRO) with false. cbv iota.
    change (precedence CHARSET CHARSET) with (Some G_). cbv iota. cbn [bind].
    rewrite (is_type_neq MACRO t2) by (rewrite T2; discriminate). cbn [bind]. rewrite C. cbn [bind]. unfold is_type. rewrite T3. reflexivity.
Qed.
Lemma adj_macro x y : adj x y = true -> y = OPENPAREN \/ y = CHARSET -> adj x MACRO = true.
Proof. intros H [->| ->]; destruct x; try discriminate H; reflexivity. Qed.
Lemma macro_in ms acc rhs e u : macro_find (tk_extra rhs) ms = Some (between u) -> u <> [] -> Forall inside u ->
  process_macro ms acc rhs e None = Ok (grouped u, rhs).
Proof.
  intros F N I. unfold process_macro. rewrite F. destruct u as [|t u]; [easy|]. cbn [between nth_error app].
  destruct (exists_last (l := t :: u)) as (v & y & E); [discriminate|].
  assert (LE : length (tok BEGIN :: t :: u ++ [tok END]) = S (S (S (length u)))) by (cbn [length]; rewrite app_length; cbn [length]; lia).
  assert (NY : nth_error (tok BEGIN :: t :: u ++ [tok END]) (length (tok BEGIN :: t :: u ++ [tok END]) - 2) = Some y).
  { rewrite LE. change (tok BEGIN :: t :: u ++ [tok END]) with (tok BEGIN :: (t :: u) ++ [tok END]). rewrite E. assert (LV : length (t :: u) = S (length v)) by (rewrite E, app_length; cbn; lia).
    cbn [length] in LV. replace (S (S (S (length u))) - 2)%nat with (S (length v)) by lia. cbn [nth_error]. rewrite <- app_assoc. rewrite nth_error_app2 by lia. now rewrite Nat.sub_diag. }
  change (length (tok BEGIN :: t :: u ++ [tok END])) with (length (between (t :: u))) in *. unfold between in NY, LE. cbn [app] in NY, LE. unfold between. cbn [app]. rewrite NY, LE.
  cbn [Nat.leb]. assert (IT : inside t) by (now inversion I). assert (IY : inside y) by (rewrite Forall_forall in I; apply I; rewrite E; apply in_or_app; right; now left).
  rewrite (is_type_neq BOL t), (is_type_neq EOL y) by apply IT || apply IY. cbv zeta. rewrite ?andb_false_r. cbn [orb negb]. rewrite ?andb_true_r.
  cbn [skipn app]. replace (S (S (S (length u))) - 1 - 1)%nat with (length (t :: u)) by (cbn; lia). change (t :: u ++ [tok END]) with ((t :: u) ++ [tok END]).
  rewrite firstn_app, Nat.sub_diag, firstn_all. cbn [firstn]. rewrite !app_nil_r. unfold grouped. cbn [length].
  replace (Nat.ltb 3 (S (S (S (length u))))) with (Nat.ltb 1 (S (length u))) by (destruct (length u); reflexivity). reflexivity.
Qed.
Lemma chain_rev x us ts : us <> [] -> chain x (us ++ ts) -> exists y l, rev us = y :: l /\ chain (tk_type y) ts.
Proof.
  intros N. destruct (exists_last N) as (v & y & ->). rewrite <- app_assoc. intros C. exists y, (rev v). rewrite rev_app_distr. split; [reflexivity|].
  apply chain_app in C as [_ C]. cbn [app chain] in C. tauto.
Qed.
Lemma loop_lexes b ms k s ts s1 : lexes b ms k s ts s1 -> Forall plain_type ts -> Forall (fun t => tk_type t <> END) ts -> forall x acc n mac sz fl st,
  chain (tk_type x) (ts ++ [tok END]) -> at_ s1 sz fl st 0 [] false -> (k < n)%nat ->
  tok_loop n b ms s (x :: acc) mac None = Ok (rev (x :: acc) ++ ts ++ [tok END]).
Proof.
  induction 1 as [s|j k s t s1 ts s2 H H1 IH|k s t s1 u r ts s2 H T M G I H1 IH]; intros F NE x acc n mac sz fl st C A L.
  - destruct n as [|n]; [lia|]. cbn [tok_loop]. destruct (next_end b (tk_type x) s _ _ _ A) as (s' & E). rewrite E. cbn [bind]. cbn [app chain] in C. destruct C as [C _]. unfold adj in C.
    change (is_type DIFF (tok END)) with false. cbv iota. destruct (precedence (tk_type x) (tk_type (tok END))) as [[]|]; try discriminate;
      change (is_type MACRO (tok END)) with false; cbn [bind]; change (is_type END (tok END)) with true; cbv iota; reflexivity.
  - inversion F as [|? ? F1 F']; subst. inversion NE as [|? ? _ NE']; subst. cbn [app chain] in C. destruct C as [C C'].
    replace n with (j + (n - j))%nat by lia. rewrite (loop_reads _ _ _ _ _ _ H F1 _ _ _ _ C).
    rewrite (IH F' NE' t (x :: acc) (n - j)%nat [] sz fl st C' A) by lia. cbn [rev]. rewrite <- !app_assoc. reflexivity.
  - pose proof (gram_nonempty _ _ _ G) as N. apply Forall_app in F as [Fu F']. apply Forall_app in NE as [NEu NE']. rewrite <- app_assoc in C.
    assert (GN : grouped u <> []) by (unfold grouped; destruct (Nat.ltb _ _); [discriminate|exact N]).
    destruct n as [|n]; [lia|]. cbn [tok_loop]. rewrite H. cbn [bind]. rewrite (is_type_neq DIFF t) by (rewrite T; discriminate). rewrite T.
    assert (AM : adj (tk_type x) MACRO = true).
    { unfold grouped in C. destruct (Nat.ltb_spec 1 (length u)) as [LU|LU].
      - cbn [app chain] in C. apply (adj_macro _ OPENPAREN); [apply C|auto].
      - destruct u as [|y [|z u]]; [easy| |cbn in LU; lia]. cbn [app chain] in C. inversion I as [|? ? [I1 I2] _]; subst. destruct C as [C C'].
        apply (adj_macro _ (tk_type y)); [exact C|]. right. pose proof (gram_single _ _ _ G eq_refl) as GA. clear - GA I1 I2.
        inversion GA; subst; try contradiction; [assumption|]. match goal with H : _ ++ [_] = [] |- _ => destruct (app_cons_not_nil _ _ _ (eq_sym H)) end. }
    unfold adj in AM. rewrite (proj2 (is_type_iff MACRO t) T), (macro_in _ _ _ _ _ M N I). cbn [bind fst snd].
    destruct (chain_rev _ _ _ GN C) as (y & l & ER & CY).
    assert (EY : is_type END y = false). { apply is_type_neq. rewrite Forall_forall in NEu. apply NEu. apply in_rev. rewrite ER. now left. }
    assert (K : forall nm, tok_loop n b ms s1 (rev (grouped u) ++ x :: acc) nm None = Ok (rev (x :: acc) ++ (grouped u ++ ts) ++ [tok END])).
    { intros nm. rewrite ER. cbn [app]. rewrite (IH F' NE' y (l ++ x :: acc) n nm sz fl st CY A) by lia.
      change (y :: l ++ x :: acc) with ((y :: l) ++ x :: acc). rewrite <- ER, rev_app_distr, rev_involutive, <- !app_assoc. reflexivity. }
    destruct (precedence (tk_type x) MACRO) as [[]|]; try discriminate.
    all: rewrite <- (K (tk_extra t)), ER; cbn [app]; rewrite EY; reflexivity.
Qed.

Lemma eager_has w : Forall eager w -> has_lazy (between w) = false.
Proof.
  intros F. unfold has_lazy, between. cbn [existsb]. rewrite existsb_app. cbn. rewrite !orb_false_r.
  induction F as [|t w H F IH]; [reflexivity|]. cbn [existsb]. rewrite IH. unfold eager, is_lazy_type in H. unfold lazy_type. rewrite H. reflexivity.
Qed.
Lemma prune_eager l : has_lazy l = false -> prune l = Ok l.
Proof.
  intros H. unfold prune. replace (lazy_indexes l) with (@nil nat); [reflexivity|]. unfold lazy_indexes. symmetry.
  replace (filter _ (seq 0 (length l))) with (@nil nat); [reflexivity|]. symmetry.
  induction (seq 0 (length l)) as [|i is IH]; [reflexivity|]. cbn [filter]. destruct (nth_error l i) as [t|] eqn:E; [|exact IH].
  destruct (lazy_type (tk_type t)) eqn:Z; [|exact IH]. exfalso. unfold has_lazy in H. apply nth_error_In in E.
  assert (T : existsb (fun t => lazy_type (tk_type t)) l = true) by (apply existsb_exists; eauto). congruence.
Qed.
Lemma strips_forall (P : token -> Prop) w w' : strips w w' -> Forall P w -> Forall P w'.
Proof. induction 1 as [w|o c inner w' O C B S IH]; intros F; [exact F|]. apply IH. inversion F as [|? ? _ F']; subst. apply Forall_app in F'. tauto. Qed.

Lemma strips_csets w w' : strips w w' -> (csets w' <= csets w)%nat.
Proof. induction 1 as [w|o c inner w' O C B S IH]; [lia|]. rewrite csets_cons, csets_app. lia. Qed.

(** A text that means [s] is read as tokens of an expression with the language of
    [s]. *)
Lemma source_loop b E fl ms text s : mtable b E ms -> regex_means b E fl text s -> small b text ->
  exists ts r, tok_loop (S (length text)) b ms (start_state fl text) [tok BEGIN] [] None = Ok (between ts) /\
    gram GRegex r ts /\ sem b r s /\ Forall eager ts /\ (csets ts <= leaves s)%nat.
Proof.
  intros MT H Sm. unfold regex_means in H.
  assert (Sm' : small b (text ++ [])) by now rewrite app_nil_r.
  assert (A : at_ (start_state fl text) (length text) fl [] 0 (text ++ []) false) by (rewrite app_nil_r; constructor; reflexivity).
  assert (Sz : sized (length text) true (text ++ [])) by (rewrite app_nil_r; reflexivity).
  destruct (src_lexes b E ms fl true GRegex [] text s MT H _ _ [] 0 Sm' Sz A) as (k & ts & s' & r & L & A' & G & M & F & LE & N).
  destruct (gram_chain _ _ _ G) as (C1 & C2 & _ & P). exists ts, r. split; [|auto].
  rewrite (loop_lexes _ ms _ _ _ _ L P) with (sz := length text) (fl := fl) (st := []); [reflexivity| | |exact A'|lia].
  - eapply Forall_impl; [|exact P]. intros t (_ & _ & K). exact K.
  - apply chain_app. split; [apply C1; repeat split|]. cbn [chain]. split; [apply C2|exact Logic.I].
Qed.
(** It is accepted, and its tokens are such an expression. *)
Theorem source_tokenise b E fl ms text s rule : mtable b E ms -> regex_means b E fl text s -> small b text ->
  exists w r, tokenise b fl ms text rule = Ok [between w] /\ gram GRegex r w /\ (forall u, slang s u <-> clang r u /\ known b u) /\ has_lazy (between w) = false /\
    Forall eager w /\ (csets w <= leaves s)%nat.
Proof.
  intros MT H Sm. destruct (source_loop b E fl ms text s MT H Sm) as (ts & r & T & G & M & F & LN).
  destruct (strip_parens_ok ts) as (w & Es & S & _). apply (strips_gram _ _ S) in G. apply (strips_forall _ _ _ S) in F.
  apply strips_csets in S.
  exists w, r. split; [|split; [exact G|split; [exact M|split; [now apply eager_has|split; [exact F|lia]]]]].
  unfold tokenise. rewrite T. cbn [bind]. rewrite Es. rewrite (prune_eager _ (eager_has _ F)).
  assert (D : (if rule then Ok (between w) else Ok (between w)) = Ok (between w)) by (destruct rule; reflexivity). rewrite D. cbn [bind].
  rewrite (eager_has _ F), andb_false_r. apply gram_nonempty in G.
  replace (Nat.eqb (length (between w)) 2) with false; [reflexivity|]. symmetry. apply Nat.eqb_neq. unfold between. cbn [length].
  rewrite app_length. cbn [length]. destruct w; [easy|]. cbn [length]. lia.
Qed.
Lemma mtable_nil b ms : mtable b [] ms.
Proof. intros name s []. Qed.
