(** rules.hpp: the token vectors made by the loop of tokenise(). *)
From Coq Require Import String.
From Verif Require Import Base StringToken StringTokenSpec StringTokenProofs ReToken ReTokeniser Grammar
  GramUnique ParserProofs ReTokeniserProofs ReTokeniserNext Rules TokeniseSpec.
Local Open Scope N_scope.

Lemma is_type_iff ty t : is_type ty t = true <-> tk_type t = ty.
Proof. unfold is_type. destruct (tk_type t), ty; cbn; split; congruence. Qed.
Lemma is_type_not ty t : is_type ty t = false <-> tk_type t <> ty.
Proof. rewrite <- is_type_iff. destruct (is_type ty t); split; congruence. Qed.

Definition tlast (x : ttype) (l : list token) : ttype := last (map tk_type l) x.
Lemma tlast_cons x t l : tlast x (t :: l) = tlast (tk_type t) l.
Proof.
  unfold tlast. cbn [map]. revert x t. induction l as [|u l IH]; intros x t; [reflexivity|].
  cbn [map]. change (last (tk_type t :: tk_type u :: map tk_type l) x) with (last (tk_type u :: map tk_type l) x).
  rewrite (IH x u). symmetry. apply IH.
Qed.
Lemma tlast_snoc x l t : tlast x (l ++ [t]) = tk_type t.
Proof. unfold tlast. rewrite map_app. apply last_last. Qed.
Lemma chain_app u v : forall x, chain x (u ++ v) <-> chain x u /\ chain (tlast x u) v.
Proof.
  induction u as [|t u IH]; intros x; [cbn; tauto|]. rewrite tlast_cons. cbn [app chain]. rewrite IH. tauto.
Qed.

(** The types in a vector. *)
Definition term (ty : ttype) : bool :=
  match ty with
  | OR | CHARSET | BOL | EOL | OPENPAREN | CLOSEPAREN | OPT | AOPT | ZEROORMORE | AZEROORMORE
  | ONEORMORE | AONEORMORE | REPEATN | AREPEATN => true
  | _ => false
  end.
Lemma vtok_term Q t : vtok Q t -> term (tk_type t) = true.
Proof. unfold vtok, term. destruct (tk_type t); tauto. Qed.
Definition start (ty : ttype) : bool := match ty with BEGIN => true | _ => term ty end.
(** Any token that can begin a regex can stand wherever a macro can. *)
Lemma adj_macro x y : start x = true -> term y = true -> adj x MACRO = true -> adj BEGIN y = true -> adj x y = true.
Proof. destruct x; try discriminate; destruct y; try discriminate; reflexivity. Qed.
Lemma adj_begin x : start x = true -> adj x MACRO = adj x OPENPAREN.
Proof. destruct x; try discriminate; reflexivity. Qed.
Lemma adj_close x : term x = true -> adj x END = true -> adj x CLOSEPAREN = true.
Proof. destruct x; try discriminate; reflexivity. Qed.

Lemma bol_first_cons t w : bol_first (t :: w) <-> Forall (fun x => tk_type x <> BOL) w.
Proof.
  split.
  - intros H. rewrite Forall_forall. intros x Hx E. apply in_split in Hx. destruct Hx as (u & v & ->).
    specialize (H (t :: u) x v eq_refl E). discriminate.
  - intros H u x v E Ex. destruct u as [|y u]; [reflexivity|]. injection E as -> ->. apply Forall_app in H. destruct H as [_ H].
    inversion H; subst; congruence.
Qed.
Lemma eol_last_snoc t w : eol_last (w ++ [t]) <-> Forall (fun x => tk_type x <> EOL) w.
Proof.
  split.
  - intros H. rewrite Forall_forall. intros x Hx E. apply in_split in Hx. destruct Hx as (u & v & ->).
    specialize (H u x (v ++ [t])). rewrite <- app_assoc in H. specialize (H eq_refl E). destruct v; discriminate.
  - intros H u x v E Ex. destruct v as [|y v] using rev_ind; [reflexivity|].
    rewrite app_comm_cons, app_assoc in E. apply app_inj_tail in E. destruct E as [-> _].
    apply Forall_app in H. destruct H as [_ H]. inversion H; subst; congruence.
Qed.
Definition no_type (ty : ttype) (w : list token) : Prop := Forall (fun x => tk_type x <> ty) w.
Lemma no_bol_first w : no_type BOL w -> bol_first w.
Proof.
  intros H u x v -> E. apply Forall_app in H. destruct H as [_ H]. inversion H; subst; congruence.
Qed.
Lemma no_eol_last w : no_type EOL w -> eol_last w.
Proof.
  intros H u x v -> E. apply Forall_app in H. destruct H as [_ H]. inversion H; subst; congruence.
Qed.
Lemma bol_first_app u v : no_type BOL v -> (u = [] -> False) -> bol_first u -> bol_first (u ++ v).
Proof.
  intros Hv Hn Hu. destruct u as [|t u]; [now destruct Hn|]. cbn. apply bol_first_cons. apply bol_first_cons in Hu.
  apply Forall_app. auto.
Qed.
Lemma depth_add w n : balanced w -> depth n w = Some n.
Proof. intros H. apply (depth_mono 0 n) in H. cbn in H. exact H. Qed.

(** ** Macro bodies *)
Lemma lit_eol_snoc u t : lit_eol (u ++ [t]) = u ++ [if is_type EOL t then t_set [(36, 36)] else t].
Proof.
  induction u as [|x u IH]; cbn [app lit_eol].
  - destruct (is_type EOL t); reflexivity.
  - destruct (u ++ [t]) eqn:E; [destruct u; discriminate|]. now rewrite IH.
Qed.
Lemma lit_eol_not u : ends EOL u = false -> lit_eol u = u.
Proof.
  destruct u as [|t u _] using rev_ind; [reflexivity|]. unfold ends. rewrite rev_app_distr, lit_eol_snoc. cbn.
  now intros ->.
Qed.
Lemma lit_bol_not u : starts BOL u = false -> lit_bol u = u.
Proof. destruct u; cbn; [reflexivity|]. now intros ->. Qed.

Lemma between_len w : length (between w) = S (S (length w)).
Proof. unfold between. cbn. rewrite app_length. cbn. lia. Qed.
Lemma firstn_app_all A (u v : list A) n : n = length u -> firstn n (u ++ v) = u.
Proof. intros ->. now rewrite firstn_app, Nat.sub_diag, firstn_all, app_nil_r. Qed.

Lemma process_macro_eq ms acc rhs at_end u : macro_find (tk_extra rhs) ms = Some (between u) ->
  process_macro ms acc rhs at_end None = Ok (expand (Nat.eqb (length acc) 1) at_end u, rhs).
Proof.
  intros H. unfold process_macro. rewrite H, between_len. cbv zeta. cbn [Nat.leb].
  destruct u as [|x u'] eqn:Eu.
  - cbn. destruct (Nat.eqb (length acc) 1), at_end; reflexivity.
  - assert (E1 : nth_error (between u) 1 = Some x) by now subst.
    rewrite <- Eu in *. destruct (exists_last (l := u)) as (v & y & Ev); [subst; discriminate|].
    assert (E2 : nth_error (between u) (S (S (length u)) - 2) = Some y).
    { rewrite Ev. unfold between. rewrite app_length. cbn [length].
      replace (S (S (length v + 1)) - 2)%nat with (S (length v)) by lia. cbn [nth_error].
      rewrite <- app_assoc. rewrite nth_error_app2 by lia. now rewrite Nat.sub_diag. }
    rewrite E1, E2.
    assert (S1 : starts BOL u = is_type BOL x) by now subst.
    assert (S2 : ends EOL u = is_type EOL y) by (unfold ends; rewrite Ev, rev_app_distr; reflexivity).
    set (front := Nat.eqb (length acc) 1).
    assert (EB : (if negb (front && is_type BOL x) && is_type BOL x then [t_set [(94, 94)]] else []) ++
                 firstn (S (S (length u)) - (if negb (front && is_type BOL x) && is_type BOL x then 2 else 1) -
                           (if negb (at_end && is_type EOL y) && is_type EOL y then 2 else 1))
                   (skipn (if negb (front && is_type BOL x) && is_type BOL x then 2 else 1) (between u)) ++
                 (if negb (at_end && is_type EOL y) && is_type EOL y then [t_set [(36, 36)]] else []) =
                 (if front then id else lit_bol) ((if at_end then id else lit_eol) u)).
    { assert (Efr : negb (front && is_type BOL x) && is_type BOL x = negb front && is_type BOL x)
        by (destruct front, (is_type BOL x); reflexivity).
      assert (Ebk : negb (at_end && is_type EOL y) && is_type EOL y = negb at_end && is_type EOL y)
        by (destruct at_end, (is_type EOL y); reflexivity).
      rewrite Efr, Ebk. clear Efr Ebk.
      assert (EL : (if at_end then id else lit_eol) u = v ++ [if negb at_end && is_type EOL y then t_set [(36, 36)] else y]).
      { destruct at_end; cbn [negb andb]; [exact Ev|]. now rewrite Ev, lit_eol_snoc. }
      rewrite EL.
      assert (EF : forall z, (if front then id else lit_bol) (v ++ [z]) =
                  if negb front then lit_bol (v ++ [z]) else v ++ [z]) by (intros; destruct front; reflexivity).
      rewrite EF. clear EF EL. unfold between.
      destruct (negb front) eqn:Ef; cbn [andb].
      - destruct (is_type BOL x) eqn:Ex; cbn [skipn].
        + (* the first token is replaced *)
          rewrite Eu. cbn [app]. destruct v as [|x' v].
          * rewrite Eu in Ev. injection Ev as -> ->.
            assert (is_type EOL y = false) by (apply is_type_not; apply is_type_iff in Ex; congruence).
            rewrite H0, Bool.andb_false_r. cbn. now rewrite Ex.
          * rewrite Eu in Ev. injection Ev as -> Ev. cbn [lit_bol app]. rewrite Ex. cbn [length].
            f_equal. rewrite Ev, app_length. cbn [length]. destruct (negb at_end && is_type EOL y).
            -- rewrite <- app_assoc. rewrite firstn_app_all by lia. reflexivity.
            -- rewrite firstn_app_all by (rewrite app_length; cbn; lia). now rewrite app_nil_r.
        + rewrite lit_bol_not.
          * cbn [app]. rewrite Ev, app_length. cbn [length]. destruct (negb at_end && is_type EOL y).
            -- rewrite <- app_assoc. rewrite firstn_app_all by lia. reflexivity.
            -- rewrite firstn_app_all by (rewrite app_length; cbn; lia). now rewrite app_nil_r.
          * destruct v as [|x' v]; rewrite Eu in Ev; injection Ev as -> Ev; cbn; [|exact Ex].
            subst u'. destruct (negb at_end && is_type EOL y); [reflexivity|exact Ex].
      - cbn [skipn]. cbn [app]. rewrite Ev, app_length. cbn [length]. destruct (negb at_end && is_type EOL y).
        + rewrite <- app_assoc. rewrite firstn_app_all by lia. reflexivity.
        + rewrite firstn_app_all by (rewrite app_length; cbn; lia). now rewrite app_nil_r. }
    rewrite EB. unfold expand. cbv zeta. rewrite S1, S2. cbn [Nat.ltb Nat.leb]. reflexivity.
Qed.

(** Tokens equal up to anchors turned into characters. *)
Definition lit (t s : token) : Prop :=
  s = t \/ (tk_type t = BOL \/ tk_type t = EOL) /\ (s = t_set [(94, 94)] \/ s = t_set [(36, 36)]).
Lemma lit_refl u : Forall2 lit u u.
Proof. induction u; constructor; unfold lit; auto. Qed.
Lemma lit_trans u v w : Forall2 lit u v -> Forall2 lit v w -> Forall2 lit u w.
Proof.
  intros H. revert w. induction H; intros w G; inversion G; subst; constructor; auto.
  unfold lit in *. destruct H as [->|[H1 H2]]; [auto|].
  destruct H3 as [->|[[H3|H3] H4]]; [auto| |]; destruct H2 as [-> | ->]; discriminate.
Qed.
Lemma lit_bol_lit u : Forall2 lit u (lit_bol u).
Proof.
  destruct u as [|t u]; cbn; [constructor|]. destruct (is_type BOL t) eqn:E; [|apply lit_refl].
  constructor; [|apply lit_refl]. right. apply is_type_iff in E. auto.
Qed.
Lemma lit_eol_lit u : Forall2 lit u (lit_eol u).
Proof.
  induction u as [|t u IH]; [constructor|]. cbn [lit_eol]. destruct u.
  - destruct (is_type EOL t) eqn:E; [|apply lit_refl]. constructor; [|constructor]. right. apply is_type_iff in E. auto.
  - constructor; [now left|exact IH].
Qed.
Definition kind (ty : ttype) : ttype := match ty with BOL | EOL => CHARSET | _ => ty end.
Lemma adj_kind x y : adj (kind x) (kind y) = adj x y.
Proof. destruct x, y; reflexivity. Qed.
Lemma lit_kind t s : lit t s -> kind (tk_type s) = kind (tk_type t).
Proof. intros [-> |[[H1|H1] [-> | ->]]]; [reflexivity|now rewrite H1..]. Qed.
Lemma lit_chain u v : Forall2 lit u v -> forall x y, kind x = kind y -> chain x u -> chain y v.
Proof.
  induction 1 as [|t s u v H H0 IH]; intros x y E; [auto|]. cbn. intros [C1 C2]. apply lit_kind in H. split; [|eauto].
  rewrite <- adj_kind in *. congruence.
Qed.
Lemma lit_depth u v : Forall2 lit u v -> forall n, depth n v = depth n u.
Proof.
  induction 1 as [|t s u v H H0 IH]; intros n; [reflexivity|]. cbn.
  destruct H as [->|[[H1|H1] [-> | ->]]]; try (rewrite H1; cbn; apply IH).
  destruct (tk_type t); auto. destruct n; auto.
Qed.
Lemma lit_vtok (Q : stoken -> Prop) u v : Q [(94, 94)] -> Q [(36, 36)] -> Forall2 lit u v -> Forall (vtok Q) u -> Forall (vtok Q) v.
Proof.
  intros Q1 Q2. induction 1 as [|t s u v H H0 IH]; intros F; [auto|]. inversion F; subst. constructor; [|auto].
  destruct H as [->|[_ [-> | ->]]]; auto.
Qed.
Lemma lit_no ty u v : ty <> CHARSET -> Forall2 lit u v -> no_type ty u -> no_type ty v.
Proof.
  intros Ht. induction 1 as [|t s u v H H0 IH]; intros F; [constructor|]. inversion F; subst. constructor; [|now apply IH].
  destruct H as [->|[_ [-> | ->]]]; cbn; congruence.
Qed.
Lemma chain_last x l y : chain x (l ++ [y]) -> adj (tlast x l) (tk_type y) = true.
Proof. intros H. apply chain_app in H. now destruct H as [_ [H _]]. Qed.
Lemma tlast_kind x u v : Forall2 lit u v -> kind (tlast x u) = kind (tlast x v).
Proof.
  intros H. revert x. induction H as [|t s u v H H0 IH]; intros x; [reflexivity|]. rewrite !tlast_cons.
  apply lit_kind in H. destruct H0 as [|t' s' u v]; [cbn; auto|]. specialize (IH x). rewrite !tlast_cons in *. exact IH.
Qed.
Lemma chain_start w x : (forall t l, w = t :: l -> adj BEGIN (tk_type t) = true -> adj x (tk_type t) = true) ->
  chain BEGIN w -> chain x w.
Proof. destruct w as [|t l]; [auto|]. cbn. intros H [C1 C2]. split; [eapply H; eauto|auto]. Qed.
Lemma tlast_ne x y w : w <> [] -> tlast x w = tlast y w.
Proof. destruct w as [|t w]; [congruence|]. intros _. now rewrite !tlast_cons. Qed.
Lemma forall_last (P : token -> Prop) x w : Forall P w -> w <> [] -> exists t, P t /\ tlast x w = tk_type t.
Proof.
  destruct w as [|t w _] using rev_ind; [congruence|]. intros F _. apply Forall_app in F. destruct F as [_ F].
  inversion F; subst. exists t. rewrite tlast_snoc. auto.
Qed.
Lemma vec_bol_head (Q : stoken -> Prop) u : vec Q u -> starts BOL u = false -> no_type BOL u.
Proof.
  intros H E. destruct u as [|t u]; [constructor|]. cbn in E. apply is_type_not in E. constructor; [auto|].
  apply (bol_first_cons t). apply (ve_bol _ _ H).
Qed.
Lemma vec_eol_back (Q : stoken -> Prop) u : vec Q u -> ends EOL u = false -> no_type EOL u.
Proof.
  intros H E. destruct u as [|t u _] using rev_ind; [constructor|]. unfold ends in E. rewrite rev_app_distr in E. cbn in E.
  apply is_type_not in E. pose proof (ve_eol _ _ H) as L. apply eol_last_snoc in L. apply Forall_app. auto.
Qed.
Lemma no_lit_bol (Q : stoken -> Prop) u : vec Q u -> no_type BOL (lit_bol u).
Proof.
  intros H. destruct (starts BOL u) eqn:E.
  - destruct u as [|t u]; [discriminate|]. cbn in *. rewrite E. constructor; [discriminate|].
    apply (bol_first_cons t). apply (ve_bol _ _ H).
  - rewrite lit_bol_not by auto. eapply vec_bol_head; eauto.
Qed.
Lemma no_lit_eol (Q : stoken -> Prop) u : vec Q u -> no_type EOL (lit_eol u).
Proof.
  intros H. destruct (ends EOL u) eqn:E.
  - destruct u as [|t u _] using rev_ind; [discriminate|]. rewrite lit_eol_snoc. unfold ends in E. rewrite rev_app_distr in E. cbn in E.
    rewrite E. apply Forall_app. split; [|repeat constructor; discriminate]. apply (eol_last_snoc t). apply (ve_eol _ _ H).
  - rewrite lit_eol_not by auto. eapply vec_eol_back; eauto.
Qed.
Lemma lit_bol_eol ty u v : (ty = BOL \/ ty = EOL) -> Forall2 lit u v -> no_type ty u -> no_type ty v.
Proof. intros H. apply lit_no. destruct H as [-> | ->]; discriminate. Qed.

(** What follows for the tokens of a macro used after a token of type [x]. *)
Record expanded (Q : stoken -> Prop) (front back : bool) (x : ttype) (e : list token) : Prop := {
  ex_toks : Forall (vtok Q) e;
  ex_chain : chain x e;
  ex_bal : forall n, depth n e = Some n;
  ex_bol : if front then bol_first e else no_type BOL e;
  ex_eol : if back then eol_last e else no_type EOL e
}.
Lemma expand_ok (Q : stoken -> Prop) front back u x : Q [(94, 94)] -> Q [(36, 36)] -> vec Q u ->
  start x = true -> adj x MACRO = true -> expanded Q front back x (expand front back u).
Proof.
  intros Q1 Q2 V Hx Hm. unfold expand. cbv zeta. set (body := (if front then id else lit_bol) ((if back then id else lit_eol) u)).
  assert (HE : Forall2 lit u ((if back then id else lit_eol) u)) by (destruct back; [apply lit_refl|apply lit_eol_lit]).
  assert (HB : Forall2 lit u body).
  { eapply lit_trans; [exact HE|]. unfold body. destruct front; [apply lit_refl|apply lit_bol_lit]. }
  assert (NB : front = false -> no_type BOL body).
  { intros ->. unfold body, id. destruct back.
    - eapply no_lit_bol; eauto.
    - assert (G : no_type BOL (lit_eol (lit_bol u))).
      { eapply lit_no; [discriminate|apply lit_eol_lit|]. eapply no_lit_bol; eauto. }
      assert (C : lit_bol (lit_eol u) = lit_eol (lit_bol u) \/ lit_bol (lit_eol u) = lit_eol u /\ no_type BOL (lit_eol u)).
      { destruct u as [|t u']; [now left|]. destruct u' as [|t' u'].
        - cbn. destruct (is_type EOL t) eqn:E1, (is_type BOL t) eqn:E2; cbn; rewrite ?E1, ?E2; auto.
          right. split; [reflexivity|]. repeat constructor. discriminate.
        - left. cbn [lit_eol lit_bol]. destruct (is_type BOL t); reflexivity. }
      destruct C as [-> |[-> C]]; auto. }
  assert (NE : back = false -> no_type EOL body).
  { intros ->. unfold body, id. destruct front.
    - eapply no_lit_eol; eauto.
    - eapply lit_no; [discriminate|apply lit_bol_lit|]. eapply no_lit_eol; eauto. }
  assert (CB : chain BEGIN (body ++ [tok END])).
  { eapply lit_chain; [|reflexivity|exact (ve_chain _ _ V)]. apply Forall2_app; [exact HB|]. repeat constructor; now left. }
  assert (FB : Forall (vtok Q) body) by (eapply lit_vtok; eauto using ve_toks).
  assert (DB : forall n, depth n body = Some n).
  { intros n. rewrite (lit_depth _ _ HB). apply depth_add, (ve_bal _ _ V). }
  assert (Lu : length u = length body) by (clear - HB; induction HB; cbn; auto).
  assert (CX : forall y, start y = true -> adj y MACRO = true -> chain y body).
  { intros y Hy Hy2. apply chain_app in CB. destruct CB as [CB _]. eapply chain_start; [|exact CB].
    intros t l E A. rewrite E in FB. inversion FB; subst. apply adj_macro; auto. eapply vtok_term; eauto. }
  destruct (Nat.ltb 1 (length u) && negb (front && starts BOL u || back && ends EOL u)) eqn:EM.
  - apply andb_true_iff in EM. destruct EM as [EM EN]. apply Nat.ltb_lt in EM. apply negb_true_iff, orb_false_iff in EN.
    destruct EN as [EN1 EN2].
    assert (NB' : no_type BOL body).
    { destruct front; [|auto]. cbn in EN1. unfold body, id. eapply lit_no; [discriminate|exact HE|]. eapply vec_bol_head; eauto. }
    assert (NE' : no_type EOL body).
    { destruct back; [|auto]. cbn in EN2. eapply lit_no; [discriminate|exact HB|]. eapply vec_eol_back; eauto. }
    assert (NB2 : no_type BOL (paren_open :: body ++ [paren_close])).
    { constructor; [discriminate|]. apply Forall_app. split; [auto|]. repeat constructor; discriminate. }
    assert (NE2 : no_type EOL (paren_open :: body ++ [paren_close])).
    { constructor; [discriminate|]. apply Forall_app. split; [auto|]. repeat constructor; discriminate. }
    constructor.
    + constructor; [exact I|]. apply Forall_app. split; [auto|]. repeat constructor.
    + split; [cbn; rewrite <- adj_begin; auto|]. cbn [tk_type paren_open]. apply chain_app. split; [apply CX; reflexivity|].
      cbn. split; [|exact I]. apply chain_last in CB. cbn [tk_type tok] in CB.
      assert (Nb : body <> []) by (destruct body; [cbn in Lu; lia|discriminate]).
      rewrite (tlast_ne _ BEGIN) by auto. destruct (forall_last _ BEGIN _ FB Nb) as (t & T1 & T2).
      rewrite T2 in *. apply adj_close; [eapply vtok_term; eauto|auto].
    + intros n. cbn. rewrite depth_app, DB. reflexivity.
    + destruct front; [now apply no_bol_first|auto].
    + destruct back; [now apply no_eol_last|auto].
  - constructor; auto.
    + destruct front; [|auto]. unfold body, id. intros p t q E Et.
      assert (G : bol_first u) by apply V.
      destruct back; unfold id in E; [eapply G; eauto|].
      destruct p as [|y p]; [reflexivity|]. exfalso.
      destruct u as [|z u']; [discriminate|]. apply bol_first_cons in G.
      assert (G2 : no_type BOL (tl (lit_eol (z :: u')))).
      { destruct u' as [|z' u']; [cbn; destruct (is_type EOL z); constructor|].
        change (tl (lit_eol (z :: z' :: u'))) with (lit_eol (z' :: u')).
        eapply lit_no; [discriminate|apply lit_eol_lit|exact G]. }
      rewrite E in G2. cbn in G2. apply Forall_app in G2. destruct G2 as [_ G2]. inversion G2; subst; congruence.
    + destruct back; [|auto]. unfold body, id. intros p t q E Et.
      assert (G : eol_last u) by apply V.
      destruct front; unfold id in E; [eapply G; eauto|].
      destruct q as [|y q] using rev_ind; [reflexivity|]. exfalso.
      destruct u as [|z u' _] using rev_ind; [destruct p; discriminate|]. apply eol_last_snoc in G.
      assert (G2 : exists z', lit_bol (u' ++ [z]) = lit_bol u' ++ [z'] \/ u' = [] /\ lit_bol (u' ++ [z]) = [z']).
      { destruct u' as [|z' u']; cbn; [|destruct (is_type BOL z')].
        - exists (if is_type BOL z then t_set [(94, 94)] else z). right. destruct (is_type BOL z); auto.
        - exists z. now left.
        - exists z. now left. }
      destruct G2 as (z' & [G2|[-> G2]]).
      * rewrite G2 in E. rewrite app_comm_cons, app_assoc in E. apply app_inj_tail in E. destruct E as [E _].
        assert (G3 : no_type EOL (lit_bol u')) by (eapply lit_no; [discriminate|apply lit_bol_lit|exact G]).
        rewrite E in G3. apply Forall_app in G3. destruct G3 as [_ G3]. inversion G3; subst; congruence.
      * rewrite G2 in E. destruct p as [|? [|]]; try discriminate. injection E as _ E. destruct q; discriminate.
Qed.

(** ** The loop *)
Section TokLoop.
  Variable b : N.
  Variable Q : stoken -> Prop.
  Notation small := (Forall (fun c => c <= max_char b)).
  Hypothesis Qset : forall ic inp t r, small inp -> charset nesting b ic inp = Ok (t, r) -> Q t.
  Hypothesis Qadd : forall ic c, c <= max_char b -> Q (add_range b ic [] (c, c)).
  Hypothesis Qchr : forall c, c = 94 \/ c = 36 -> Q [(c, c)].
  Hypothesis Qdot : forall fl, Q (dot_set b fl).
  Hypothesis Qrem : forall t u, Q t -> Q u -> match remove t u with Ok v => v <> [] -> Q v | _ => False end.
  Hypothesis Qins : forall t u, Q t -> Q u -> Q (insert_token t u).
  Variable ms : macros.
  Hypothesis Hms : macros_ok Q ms.

  Record inv (s : rstate) (w : list token) : Prop := {
    in_small : small (rs_inp s);
    in_num : numbers_fit (rs_inp s);
    in_toks : Forall (vtok Q) w;
    in_chain : chain BEGIN w;
    in_depth : exists n, depth 0 w = Some n /\ N.of_nat n = rs_parens s;
    in_bol : bol_first w;
    in_eol : eol_last w;
    in_eol2 : rs_inp s <> [] -> no_type EOL w;
    in_front : w <> [] -> (length (rs_inp s) < rs_size s)%nat;
    in_size : (length (rs_inp s) <= rs_size s)%nat
  }.

  Lemma inv_tlast s w : inv s w -> start (tlast BEGIN w) = true.
  Proof.
    intros H. destruct w as [|t w1] eqn:E; [reflexivity|]. rewrite <- E in *.
    destruct (forall_last _ BEGIN _ (in_toks _ _ H)) as (x & X1 & X2); [subst; discriminate|].
    rewrite X2. pose proof (vtok_term _ _ X1) as T. destruct (tk_type x); auto; discriminate.
  Qed.
  Lemma acc_head (w : list token) lhs acc' : rev w ++ [tok BEGIN] = lhs :: acc' -> tk_type lhs = tlast BEGIN w.
  Proof.
    destruct w as [|t w1 _] using rev_ind; intros E; [injection E as <- _; reflexivity|].
    rewrite rev_app_distr in E. injection E as <- _. now rewrite tlast_snoc.
  Qed.
  Lemma adj_some x y p : precedence x y = Some p -> p <> N_ -> adj x y = true.
  Proof. unfold adj. intros ->. now destruct p. Qed.
  Lemma prec_some x y : start x = true -> y <> DIFF -> precedence x y <> None.
  Proof. destruct x; try discriminate; destruct y; try discriminate; congruence. Qed.
  Lemma no_char c : c = 94 \/ c = 36 -> Q (insert [] (c, c)).
  Proof. intros H. specialize (Qchr c H). destruct H as [-> | ->]; exact Qchr. Qed.

  (** One more token. *)
  Lemma inv_push s w lhs t s' : inv s w -> got (fun _ => Q) s lhs t s' -> tail_of (rs_inp s') (rs_inp s) ->
    tk_type t <> DIFF -> tk_type t <> MACRO -> adj (tlast BEGIN w) (tk_type t) = true -> inv s' (w ++ [t]).
  Proof.
    intros I G T N1 N2 A. destruct I as [I1 I2 I3 I4 I5 I6 I7 I8 I9 I10], G as [G1 G2 G3 G4 G5 G6 G7 G8 G9].
    assert (NE : no_type EOL w) by (apply I8; destruct T as (p & Hp & T); intros E; rewrite E in T; destruct p; [congruence|discriminate]).
    assert (LT : (length (rs_inp s') < length (rs_inp s))%nat) by now apply tail_len.
    constructor.
    - eapply tail_forall; eauto.
    - eapply numbers_sfx; [|exact I2]. now apply sfx_tail.
    - apply Forall_app. split; [auto|]. constructor; [|constructor]. unfold vtok, rep_ok in *.
      destruct G6 as [G6|G6]; unfold is_dup in *; cbn in G6;
        destruct (tk_type t); auto; decompose [or] G6; try congruence; try contradiction.
    - apply chain_app. split; [auto|]. cbn. auto.
    - destruct I5 as (n & D & E). rewrite depth_app, D. cbn. destruct (tk_type t); try (exists n; split; [reflexivity|lia]).
      + exists (S n). split; [reflexivity|lia].
      + destruct n; [exfalso; apply G9; [reflexivity|lia]|]. exists n. split; [reflexivity|lia].
    - destruct w as [|x w].
      + intros p y q E _. destruct p as [|? [|]]; [reflexivity|discriminate..].
      + apply bol_first_app; [|discriminate|exact I6]. constructor; [|constructor]. intros E. specialize (G3 E).
        assert (x :: w <> []) by discriminate. specialize (I9 H). lia.
    - apply eol_last_snoc. exact NE.
    - intros Hne. apply Forall_app. split; [exact NE|]. constructor; [|constructor]. intros E. auto.
    - intros _. rewrite G7. lia.
    - rewrite G7. lia.
  Qed.

  (** A macro in its place. *)
  Lemma inv_macro s w lhs t s' u : inv s w -> got (fun _ => Q) s lhs t s' -> tail_of (rs_inp s') (rs_inp s) ->
    tk_type t = MACRO -> adj (tlast BEGIN w) MACRO = true -> vec Q u ->
    inv s' (w ++ expand (Nat.eqb (length (rev w ++ [tok BEGIN])) 1) (match rs_inp s' with [] => true | _ => false end) u).
  Proof.
    intros I G T Ht A V. pose proof (inv_tlast _ _ I) as S0.
    destruct I as [I1 I2 I3 I4 I5 I6 I7 I8 I9 I10], G as [G1 G2 G3 G4 G5 G6 G7 G8 G9].
    assert (NE : no_type EOL w) by (apply I8; destruct T as (p & Hp & T); intros E; rewrite E in T; destruct p; [congruence|discriminate]).
    assert (LT : (length (rs_inp s') < length (rs_inp s))%nat) by now apply tail_len.
    set (front := Nat.eqb (length (rev w ++ [tok BEGIN])) 1).
    set (back := match rs_inp s' with [] => true | _ => false end).
    assert (EF : front = true -> w = []).
    { unfold front. rewrite app_length, rev_length. cbn. intros E. apply Nat.eqb_eq in E. destruct w; [auto|cbn in E; lia]. }
    destruct (expand_ok Q front back u (tlast BEGIN w) (Qchr 94 (or_introl eq_refl)) (Qchr 36 (or_intror eq_refl)) V S0 A) as [X1 X2 X3 X4 X5].
    constructor.
    - eapply tail_forall; eauto.
    - eapply numbers_sfx; [|exact I2]. now apply sfx_tail.
    - apply Forall_app. auto.
    - apply chain_app. auto.
    - destruct I5 as (n & D & E). exists n. rewrite depth_app, D, X3. split; [reflexivity|]. rewrite Ht in G8. lia.
    - destruct front; [rewrite (EF eq_refl); exact X4|].
      destruct w as [|x w]; [now apply no_bol_first|]. now apply bol_first_app.
    - destruct (expand front back u) as [|y e _] using rev_ind; [rewrite app_nil_r; auto|].
      rewrite app_assoc. apply eol_last_snoc. apply Forall_app. split; [exact NE|].
      destruct back; [now apply eol_last_snoc in X5|]. apply Forall_app in X5. apply X5.
    - intros Hne. apply Forall_app. split; [exact NE|]. unfold back in X5. destruct (rs_inp s'); [congruence|exact X5].
    - intros _. rewrite G7. lia.
    - rewrite G7. lia.
  Qed.

  (** {+} and {-}. *)
  Lemma inv_diff s w l lhs t s' l' : inv s (w ++ [l]) -> got (fun _ => Q) s lhs t s' -> tail_of (rs_inp s') (rs_inp s) ->
    In (tk_type t) [CHARSET; MACRO; DIFF] -> tk_type l = CHARSET -> tk_type l' = CHARSET -> Q (tk_str l') ->
    inv s' (w ++ [l']).
  Proof.
    intros I G T Ht Hl Hl' HQ.
    destruct I as [I1 I2 I3 I4 I5 I6 I7 I8 I9 I10], G as [G1 G2 G3 G4 G5 G6 G7 G8 G9].
    assert (NE : no_type EOL (w ++ [l])) by (apply I8; destruct T as (p & Hp & T); intros E; rewrite E in T; destruct p; [congruence|discriminate]).
    assert (LT : (length (rs_inp s') < length (rs_inp s))%nat) by now apply tail_len.
    apply Forall_app in NE. destruct NE as [NE _]. apply Forall_app in I3. destruct I3 as [I3 _].
    apply chain_app in I4. destruct I4 as [I4 [I4' _]].
    assert (NE' : no_type EOL (w ++ [l'])).
    { apply Forall_app. split; [exact NE|]. constructor; [rewrite Hl'; discriminate|constructor]. }
    constructor.
    - eapply tail_forall; eauto.
    - eapply numbers_sfx; [|exact I2]. now apply sfx_tail.
    - apply Forall_app. split; [auto|]. constructor; [|constructor]. unfold vtok. now rewrite Hl'.
    - apply chain_app. split; [auto|]. split; [|exact I]. now rewrite Hl', <- Hl.
    - destruct I5 as (n & D & E). exists n. rewrite depth_app in *. destruct (depth 0 w); [|discriminate].
      cbn in *. rewrite Hl in D. rewrite Hl'. split; [exact D|]. destruct Ht as [H|[H|[H|[]]]]; rewrite <- H in G8; lia.
    - destruct w as [|x w].
      + intros p y q E _. destruct p as [|? [|]]; [reflexivity|discriminate..].
      + cbn in *. apply bol_first_cons. apply bol_first_cons in I6. apply Forall_app in I6. apply Forall_app.
        split; [apply I6|]. constructor; [rewrite Hl'; discriminate|constructor].
    - now apply no_eol_last.
    - auto.
    - intros _. rewrite G7. lia.
    - rewrite G7. lia.
  Qed.
  Lemma inv_skip s w lhs t s' : inv s w -> got (fun _ => Q) s lhs t s' -> tail_of (rs_inp s') (rs_inp s) ->
    tk_type t = DIFF -> inv s' w.
  Proof.
    intros I G T Ht. destruct I as [I1 I2 I3 I4 I5 I6 I7 I8 I9 I10], G as [G1 G2 G3 G4 G5 G6 G7 G8 G9].
    assert (NE : no_type EOL w) by (apply I8; destruct T as (p & Hp & T); intros E; rewrite E in T; destruct p; [congruence|discriminate]).
    assert (LT : (length (rs_inp s') < length (rs_inp s))%nat) by now apply tail_len.
    constructor; auto.
    - eapply tail_forall; eauto.
    - eapply numbers_sfx; [|exact I2]. now apply sfx_tail.
    - rewrite Ht in G8. rewrite G8. auto.
    - rewrite G7. lia.
    - rewrite G7. lia.
  Qed.

  Definition outcome (x : res (list token)) : Prop :=
    match x with
    | Ok ts => mvec Q ts
    | Throw _ => True
    | UB => exists name, macro_find name ms = Some []
    | Fuel => False
    end.
  Lemma check_diff_ok l rhs d : tk_type l = CHARSET -> Q (tk_str l) -> (tk_type rhs = CHARSET -> Q (tk_str rhs)) ->
    match check_diff l rhs d with
    | Ok l' => tk_type l' = CHARSET /\ Q (tk_str l') /\ tk_type rhs = CHARSET
    | Throw _ => True
    | _ => False
    end.
  Proof.
    intros Hl H1 H2. unfold check_diff. destruct (is_type CHARSET rhs) eqn:E; [|auto]. apply is_type_iff in E.
    specialize (H2 E). destruct (d =? 45); [|cbn; auto].
    pose proof (Qrem _ _ H1 H2) as R. destruct (remove (tk_str l) (tk_str rhs)) as [v| | |]; cbn [bind]; auto.
    destruct v; [auto|]. cbn. split; [auto|]. split; [apply R; discriminate|auto].
  Qed.
  Lemma nth_between u : exists t, nth_error (between u) 1 = Some t /\
    (tk_type t = CHARSET -> vec Q u -> Q (tk_str t)).
  Proof.
    destruct u as [|x u].
    - exists (tok END). split; [reflexivity|]. discriminate.
    - exists x. split; [reflexivity|]. intros Hx V. pose proof (ve_toks _ _ V) as F. inversion F; subst. unfold vtok in H1. now rewrite Hx in H1.
  Qed.

  Lemma tok_loop_ok fuel : forall s w mac diff, inv s w -> (length (rs_inp s) < fuel)%nat ->
    (mac <> [] -> macro_find mac ms <> None) ->
    (diff <> None -> exists w' l, w = w' ++ [l] /\ tk_type l = CHARSET) ->
    outcome (tok_loop fuel b ms s (rev w ++ [tok BEGIN]) mac diff).
  Proof.
    induction fuel as [|f IH]; intros s w mac diff I Hf Hmac Hdiff; [lia|].
    cbn [tok_loop]. destruct (rev w ++ [tok BEGIN]) as [|lhs acc'] eqn:EA; [destruct (rev w); discriminate|].
    pose proof (acc_head _ _ _ EA) as Hlhs. pose proof (inv_tlast _ _ I) as S0.
    pose proof (next_ok b (fun _ => Q) Qset Qadd (fun _ => no_char) (fun _ => Qdot) (tk_type lhs) s (in_small _ _ I) (in_num _ _ I)) as NX.
    destruct (next b (tk_type lhs) s) as [[rhs s']| | |]; cbn [bind]; try exact NX; try contradiction.
    destruct NX as [(-> & E1 & E2 & E3)|[G T]].
    - (* the end *)
      cbn [is_type tok tk_type ttype_eqb]. change (is_type DIFF (tok END)) with false.
      change (is_type MACRO (tok END)) with false. cbv iota.
      destruct (precedence (tk_type lhs) END) as [p|] eqn:EP.
      2:{ exfalso. rewrite Hlhs in EP. revert EP. apply prec_some; [auto|discriminate]. }
      destruct p; try exact Logic.I.
      all: destruct diff as [d|]; cbn [bind]; [cbn; exact Logic.I|].
      all: cbn [is_type tok tk_type ttype_eqb]; change (is_type END (tok END)) with true; cbv iota; cbn [outcome].
      all: exists w; split; [unfold between; rewrite <- EA; cbn [rev]; rewrite rev_app_distr, rev_involutive; reflexivity|].
      all: destruct I as [I1 I2 I3 I4 I5 I6 I7 I8 I9 I10]; constructor; auto;
        [apply chain_app; split; [auto|]; split; [|exact Logic.I]; rewrite <- Hlhs; eapply adj_some; [exact EP|discriminate]|
         destruct I5 as (n & D & E); rewrite E2 in E; assert (n = O) by lia; subst n; exact D].
    - pose proof (tail_len _ _ T) as LT.
      destruct (is_type DIFF rhs) eqn:ED.
      + apply is_type_iff in ED. destruct (go_diff _ _ _ _ _ G ED) as [L1 L2].
        destruct mac as [|m0 mac0] eqn:EM; [|destruct (macro_find (m0 :: mac0) ms) as [mt|] eqn:EF; [destruct (Nat.ltb 3 (length mt)); cbn [bind outcome]; [exact Logic.I|]|exfalso; apply Hmac; [discriminate|reflexivity]]].
        all: cbn [bind]; destruct L2 as [L2|L2]; rewrite L2; cbn [nth_error of_opt bind]; rewrite <- EA.
        all: apply IH; [eapply inv_skip; eauto|lia|congruence|].
        all: intros _; destruct w as [|l w1 _] using rev_ind; [cbn in Hlhs; congruence|].
        all: rewrite tlast_snoc in Hlhs; exists w1, l; split; [reflexivity|congruence].
      + apply is_type_not in ED.
        destruct (precedence (tk_type lhs) (tk_type rhs)) as [p|] eqn:EP.
        2:{ exfalso. rewrite Hlhs in EP. revert EP. now apply prec_some. }
        assert (AD : p <> N_ -> adj (tlast BEGIN w) (tk_type rhs) = true).
        { intros Hp. rewrite <- Hlhs. eapply adj_some; eauto. }
        assert (MAIN : adj (tlast BEGIN w) (tk_type rhs) = true -> outcome (
          do y <- (if is_type MACRO rhs then
                     do z <- process_macro ms (lhs :: acc') rhs (match rs_inp s' with [] => true | _ => false end) diff;
                     Ok (rev (fst z) ++ lhs :: acc', snd z, tk_extra rhs)
                   else
                     match diff with
                     | None => Ok (rhs :: lhs :: acc', rhs, [])
                     | Some _ => Ok (lhs :: acc', rhs, mac)
                     end);
          let '(acc1, rhs1, mac1) := y in
          do acc2 <- match diff with
                     | None => Ok acc1
                     | Some d => do l <- check_diff lhs rhs1 d; Ok (l :: acc')
                     end;
          match acc2 with
          | [] => UB
          | t :: _ => if is_type END t then Ok (rev acc2) else tok_loop f b ms s' acc2 mac1 None
          end)).
        2:{ destruct p; [exact Logic.I|apply MAIN, AD; discriminate..]. }
        clear AD. intros AD.
        assert (GO : forall w' mac', inv s' w' -> (mac' <> [] -> macro_find mac' ms <> None) ->
                  outcome (match rev w' ++ [tok BEGIN] with
                           | [] => UB
                           | t :: _ => if is_type END t then Ok (rev (rev w' ++ [tok BEGIN])) else tok_loop f b ms s' (rev w' ++ [tok BEGIN]) mac' None
                           end)).
        { intros w' mac' I' HM'. destruct (rev w' ++ [tok BEGIN]) as [|t acc2] eqn:EA2; [destruct (rev w'); discriminate|].
          pose proof (acc_head _ _ _ EA2) as Ht. pose proof (inv_tlast _ _ I') as ST. rewrite <- Ht in ST.
          destruct (is_type END t) eqn:EE; [apply is_type_iff in EE; rewrite EE in ST; discriminate|].
          rewrite <- EA2. apply IH; auto; [lia|congruence]. }
        destruct diff as [d|].
        * destruct Hdiff as (w' & l & Ew & Hl); [discriminate|].
          assert (EL : lhs = l /\ acc' = rev w' ++ [tok BEGIN]).
          { rewrite Ew, rev_app_distr in EA. cbn in EA. now injection EA as -> ->. }
          destruct EL as [-> ->].
          assert (Ql : Q (tk_str l)).
          { pose proof (in_toks _ _ I) as F. rewrite Ew in F. apply Forall_app in F. destruct F as [_ F]. inversion F as [|? ? F1 _]; subst.
            unfold vtok in F1. now rewrite Hl in F1. }
          assert (STEP : forall rhs1 mac1, (tk_type rhs1 = CHARSET -> Q (tk_str rhs1)) -> (mac1 <> [] -> macro_find mac1 ms <> None) ->
              (tk_type rhs1 = CHARSET -> In (tk_type rhs) [CHARSET; MACRO; DIFF]) ->
              outcome (do acc2 <- (do l0 <- check_diff l rhs1 d; Ok (l0 :: rev w' ++ [tok BEGIN]));
                match acc2 with
                | [] => UB
                | t :: _ => if is_type END t then Ok (rev acc2) else tok_loop f b ms s' acc2 mac1 None
                end)).
          { intros rhs1 mac1 HQ HM HT. pose proof (check_diff_ok l rhs1 d Hl Ql HQ) as C.
            destruct (check_diff l rhs1 d) as [l'| | |]; cbn [bind outcome]; auto; try contradiction.
            destruct C as (C1 & C2 & C3).
            specialize (GO (w' ++ [l']) mac1). rewrite rev_app_distr in GO. cbn [rev app] in GO. apply GO; [|auto].
            rewrite Ew in I. eapply inv_diff; eauto. }
          destruct (is_type MACRO rhs) eqn:EMac.
          -- apply is_type_iff in EMac. unfold process_macro.
             destruct (macro_find (tk_extra rhs) ms) as [mt|] eqn:EF; [|exact Logic.I].
             destruct (Hms _ _ EF) as [-> |(u & -> & V)]; [cbn; eauto|].
             destruct (nth_between u) as (t1 & N1 & N2). rewrite N1.
             rewrite between_len. cbn [Nat.leb].
             assert (N3 : nth_error (between u) (S (S (length u)) - 2) <> None).
             { apply nth_error_Some. rewrite between_len. lia. }
             destruct (nth_error (between u) (S (S (length u)) - 2)) as [t2|]; [|congruence].
             cbv zeta. destruct (Nat.ltb 3 (S (S (length u)))); cbn [bind fst snd rev app]; [exact Logic.I|].
             apply STEP; auto; [congruence|]. intros _. rewrite EMac. cbn; auto.
          -- cbn [bind]. apply STEP; auto; [apply (go_set _ _ _ _ _ G)|]. intros ->. cbn; auto.
        * destruct (is_type MACRO rhs) eqn:EMac.
          -- apply is_type_iff in EMac.
             destruct (macro_find (tk_extra rhs) ms) as [mt|] eqn:EF; [|unfold process_macro; rewrite EF; exact Logic.I].
             destruct (Hms _ _ EF) as [-> |(u & -> & V)]; [unfold process_macro; rewrite EF; cbn; eauto|].
             rewrite (process_macro_eq _ _ _ _ _ EF). cbn [bind fst snd].
             rewrite <- EA. set (e := expand _ _ u).
             specialize (GO (w ++ e) (tk_extra rhs)). rewrite rev_app_distr, <- app_assoc in GO. apply GO; [|congruence].
             eapply inv_macro; eauto. now rewrite EMac in AD.
          -- cbn [bind]. apply is_type_not in EMac. rewrite <- EA.
             specialize (GO (w ++ [rhs]) []). rewrite rev_app_distr in GO. cbn [rev app] in GO. cbn [app]. apply GO; [|congruence].
             eapply inv_push; eauto.
  Qed.
End TokLoop.
