(** The parser accepts exactly the grammar and builds a tree for the meaning of
    the expression. *)
From Verif Require Import Base StringToken StringTokenSpec Tree TreeSpec RegexSpec
  TreeProofs StateMachine Partition Generator GenMap DfaSpec ReToken Parser Grammar ParserTree.
Local Open Scope N_scope.

(** ** Counts *)
Definition n_digits := fix n_digits (acc : N) (cs : list N) : N * list N :=
  match cs with
  | c :: cs' => if is_dec c then n_digits (acc * 10 + (c - 48)) cs' else (acc, cs)
  | [] => (acc, [])
  end.
Lemma digit_dec c : digit c -> is_dec c = true.
Proof. unfold digit, is_dec. intros. apply andb_true_intro. lia. Qed.
Lemma n_digits_app ds cs : Forall digit ds -> forall acc,
  n_digits acc (ds ++ cs) = n_digits (fold_left (fun a c => a * 10 + (c - 48)) ds acc) cs.
Proof.
  induction 1 as [|c ds Hc _ IH]; intros acc; cbn [app n_digits fold_left]; [auto|].
  rewrite digit_dec by auto. apply IH.
Qed.
Lemma n_digits_ge cs : forall acc, acc <= fst (n_digits acc cs).
Proof.
  induction cs as [|c cs IH]; intros acc; cbn [n_digits fst]; [lia|].
  destruct (is_dec c); cbn [fst]; [|lia]. specialize (IH (acc * 10 + (c - 48))). lia.
Qed.
Lemma p_digits_n cs : forall acc, fst (n_digits acc cs) < 2 ^ 64 -> p_digits acc cs = n_digits acc cs.
Proof.
  induction cs as [|c cs IH]; intros acc; cbn [n_digits p_digits]; [auto|].
  destruct (is_dec c); [|auto]. intros H. pose proof (n_digits_ge cs (acc * 10 + (c - 48))).
  rewrite N.mod_small by lia. now apply IH.
Qed.
Lemma decimal_digits ds n cs : decimal ds n ->
  match cs with c :: _ => is_dec c = false | [] => True end ->
  n_digits 0 (ds ++ cs) = (n, cs).
Proof.
  intros (_ & F & ->) H. rewrite n_digits_app by auto.
  destruct cs as [|c cs]; cbn [n_digits]; [auto|]. now rewrite H.
Qed.

(** The text of the braces as read by the parser. *)
Lemma counts_p e mn mx : counts e mn mx -> mn < 2 ^ 64 ->
  match mx with Some m => m < 2 ^ 64 | None => True end ->
  exists comma m, p_counts e = (mn, comma, m) /\
    ((comma = false /\ mx = Some mn /\ ~ In 44 e) \/
     (comma = true /\ mx = None /\ m = 0 /\ In 44 e) \/
     (comma = true /\ mx = Some m /\ In 44 e)).
Proof.
  intros H H1 H2. unfold p_counts. destruct H as [ds n D|ds n D|ds n ds' n' D D'].
  - pose proof (decimal_digits ds n [] D I) as E. rewrite app_nil_r in E.
    rewrite p_digits_n by (rewrite E; auto). rewrite E. cbn [fst snd].
    exists false, (fst (p_digits 0 [])). split; [auto|]. left. split; [auto|]. split; [auto|].
    destruct D as (_ & F & _). rewrite Forall_forall in F. intros Hi. apply F in Hi.
    unfold digit in Hi. lia.
  - pose proof (decimal_digits ds n [44] D eq_refl) as E.
    rewrite p_digits_n by (rewrite E; auto). rewrite E. cbn [fst snd].
    exists true, 0. split; [auto|]. right. left. rewrite in_app_iff. cbn. tauto.
  - pose proof (decimal_digits ds n (44 :: ds') D eq_refl) as E.
    rewrite p_digits_n by (rewrite E; auto). rewrite E. cbn [fst snd].
    pose proof (decimal_digits ds' n' [] D' I) as E'. rewrite app_nil_r in E'.
    rewrite p_digits_n by (rewrite E'; auto). rewrite E'. cbn [fst].
    exists true, n'. split; [auto|]. right. right. rewrite in_app_iff. cbn. tauto.
Qed.
Lemma counts_fun e mn mx mn' mx' : counts e mn mx -> counts e mn' mx' -> mn = mn' /\ mx = mx'.
Proof.
  assert (X : forall e mn mx, counts e mn mx ->
    exists cs, n_digits 0 e = (mn, cs) /\
      match cs with
      | [] => mx = Some mn
      | _ :: [] => mx = None
      | _ :: cs' => mx = Some (fst (n_digits 0 cs'))
      end).
  { clear. intros e mn mx [ds n D|ds n D|ds n ds' n' D D'].
    - exists []. split; [|auto]. pose proof (decimal_digits ds n [] D I) as E.
      now rewrite app_nil_r in E.
    - exists [44]. split; [|auto]. now apply decimal_digits.
    - exists (44 :: ds'). split; [now apply decimal_digits|].
      pose proof (decimal_digits ds' n' [] D' I) as E'. rewrite app_nil_r in E'. rewrite E'.
      destruct D' as (NE & _). destruct ds'; [easy|]. reflexivity. }
  intros H1 H2. apply X in H1 as (c1 & E1 & M1). apply X in H2 as (c2 & E2 & M2).
  rewrite E1 in E2. injection E2 as -> ->. split; [auto|]. destruct c2 as [|? []]; congruence.
Qed.

(** ** Types *)
Definition is_dup (t : ttype) : bool :=
  match t with
  | OPT | AOPT | ZEROORMORE | AZEROORMORE | ONEORMORE | AONEORMORE | REPEATN | AREPEATN => true
  | _ => false
  end.
Definition nt_of (t : ttype) : option nt :=
  match t with
  | REGEX | OREXP => Some GRegex
  | SEQUENCE | SUB => Some GSeq
  | EXPRESSION => Some GExpr
  | REPEAT => Some GAtom
  | _ => None
  end.
Definition below (a b : token) : Prop :=
  precedence (tk_type a) (tk_type b) = Some L_ \/ precedence (tk_type a) (tk_type b) = Some E_.

(** ** Parentheses *)
Lemma depth_app u v : forall n, depth n (u ++ v) = match depth n u with Some m => depth m v | None => None end.
Proof.
  induction u as [|t u IH]; intros n; cbn [app depth]; [auto|].
  destruct (tk_type t); auto. destruct n; auto.
Qed.
Lemma gram_depth X r w : gram X r w -> forall n, depth n w = Some n.
Proof.
  induction 1; intros n; rewrite ?depth_app, ?IHgram, ?IHgram1; auto.
  - cbn [depth]. rewrite H0, IHgram2. auto.
  - destruct H0; cbn [depth]; destruct H0 as [-> | ->]; auto.
  - cbn [depth]. now rewrite H.
  - cbn [depth]. now rewrite H.
  - cbn [depth]. now rewrite H.
  - cbn [depth]. rewrite H. rewrite depth_app, IHgram. cbn [depth]. now rewrite H1.
Qed.

(** ** The token stack alone *)
Section Abs.
Variable k : gcfg.
Definition a_reduce (stack : list token) : option (list token) :=
  match pop_handle stack [] with
  | Ok (r :: more, st) =>
    match tk_type r with
    | BEGIN | REGEX => Some st
    | OREXP => Some (match more with [] => tok REGEX :: st | _ => tok OREXP :: st end)
    | SEQUENCE => Some (tok OREXP :: st)
    | SUB => Some (match more with [] => tok SEQUENCE :: st | _ => tok SUB :: st end)
    | EXPRESSION => Some (tok SUB :: st)
    | REPEAT => Some (match more with [] => tok EXPRESSION :: st | _ => tok REPEAT :: st end)
    | BOL | EOL | OPENPAREN => Some (tok REPEAT :: st)
    | CHARSET => Some (set_stack k st)
    | OPT | AOPT | ZEROORMORE | AZEROORMORE | ONEORMORE | AONEORMORE | REPEATN | AREPEATN =>
      Some (tok DUP :: st)
    | _ => None
    end
  | _ => None
  end.
Definition aconf := (list token * (token * list token))%type.
Definition astep (c : aconf) : option aconf :=
  match fst c with
  | [] => None
  | l :: _ =>
    match precedence (tk_type l) (tk_type (fst (snd c))) with
    | Some L_ | Some E_ =>
      match fetch (snd (snd c)) with Ok x => Some (fst (snd c) :: fst c, x) | _ => None end
    | Some G_ => match a_reduce (fst c) with Some st => Some (st, snd c) | None => None end
    | _ => None
    end
  end.
Inductive aruns : aconf -> aconf -> Prop :=
| ar_refl c : aruns c c
| ar_step c c1 c2 : astep c = Some c1 -> fst c1 <> [] -> aruns c1 c2 -> aruns c c2.
Lemma aruns_trans a b c : aruns a b -> aruns b c -> aruns a c.
Proof. induction 1; auto. intros. econstructor; eauto. Qed.
Lemma aruns_one a b c : astep a = Some b -> fst b <> [] -> aruns b c -> aruns a c.
Proof. intros. econstructor; eauto. Qed.

Lemma pop_lt r l st h : precedence (tk_type l) (tk_type r) = Some L_ ->
  pop_handle (r :: l :: st) h = Ok (r :: h, l :: st).
Proof. intros E. cbn [pop_handle]. now rewrite E. Qed.
Lemma pop_eq r l st h : precedence (tk_type l) (tk_type r) = Some E_ ->
  pop_handle (r :: l :: st) h = pop_handle (l :: st) (r :: h).
Proof. intros E. cbn [pop_handle]. now rewrite E. Qed.

(** The tokens that can follow. *)
Definition ends_expr (t : ttype) : bool :=
  match t with OR | CHARSET | BOL | EOL | OPENPAREN | CLOSEPAREN | END => true | _ => false end.
Definition ends_seq (t : ttype) : bool :=
  match t with OR | CLOSEPAREN | END => true | _ => false end.
Definition ends_regex (t : ttype) : bool :=
  match t with CLOSEPAREN | END => true | _ => false end.
Definition ends (X : nt) (t : ttype) : bool :=
  match X with
  | GAtom => ends_expr t || is_dup t
  | GExpr => ends_expr t
  | GSeq => ends_expr t
  | GRegex => ends_seq t
  end.
(** What can be below a nonterminal, and the symbol it is reduced to. *)
Definition starts (X : nt) (t : ttype) : bool :=
  match X with
  | GAtom | GExpr => match t with BEGIN | OR | OPENPAREN | SUB => true | _ => false end
  | GSeq => match t with BEGIN | OR | OPENPAREN => true | _ => false end
  | GRegex => match t with BEGIN | OPENPAREN => true | _ => false end
  end.
Definition symbol (X : nt) : ttype :=
  match X with GAtom => REPEAT | GExpr => EXPRESSION | GSeq => SUB | GRegex => OREXP end.

(** The lookahead and what is left of the input, [E] being the last token. *)
Definition stream (E : token) (x : token * list token) (rest : list token) : Prop :=
  match rest with
  | [] => x = (E, [E])
  | t :: rest' => x = (t, rest' ++ [E])
  end.
Lemma stream_fetch E t it rest : stream E (t, it) (t :: rest) ->
  exists x, fetch it = Ok x /\ stream E x rest.
Proof.
  cbn. intros [= ->]. destruct rest as [|t' rest]; cbn [app fetch].
  - eexists. split; [reflexivity|]. reflexivity.
  - eexists. split; [reflexivity|]. destruct (rest ++ [E]) eqn:X.
    + destruct rest; discriminate.
    + cbn [stream]. now rewrite X.
Qed.
Lemma stream_head E x rest : stream E x rest -> fst x = hd E rest.
Proof. destruct rest; cbn; intros ->; reflexivity. Qed.

Variable E : token.
Hypothesis Eend : tk_type E = END.

Lemma a_shift st a x t rest : stream E x (t :: rest) ->
  (precedence (tk_type a) (tk_type t) = Some L_ \/ precedence (tk_type a) (tk_type t) = Some E_) ->
  exists x', stream E x' rest /\ astep (a :: st, x) = Some (t :: a :: st, x').
Proof.
  destruct x as [la it]. intros S P. assert (X : la = t) by (cbn in S; congruence). subst la.
  destruct (stream_fetch E t it rest S) as (x' & Ef & S'). exists x'. split; [auto|].
  unfold astep. cbn [fst snd]. rewrite Ef. now destruct P as [-> | ->].
Qed.
Lemma a_red st a x st' :
  precedence (tk_type a) (tk_type (fst x)) = Some G_ -> a_reduce (a :: st) = Some st' ->
  astep (a :: st, x) = Some (st', x).
Proof. intros P R. unfold astep. cbn [fst snd]. now rewrite P, R. Qed.

Lemma ttype_of (x : token) t : tk_type x = t -> tk_type x = t.
Proof. auto. Qed.

(** Shift a one token atom and reduce it to REPEAT. *)
Lemma a_atom st a x t rest : stream E x (t :: rest) -> starts GAtom (tk_type a) = true ->
  (tk_type t = CHARSET \/ tk_type t = BOL \/ tk_type t = EOL) ->
  ends GAtom (tk_type (hd E rest)) = true ->
  exists x' R, stream E x' rest /\ tk_type R = REPEAT /\
    aruns (a :: st, x) (R :: a :: st, x').
Proof.
  intros S Sa Ht En.
  destruct (a_shift st a x t rest S) as (x' & S' & E1).
  { left. destruct (tk_type a); try discriminate; destruct Ht as [-> | [-> | ->]]; reflexivity. }
  exists x', (tok REPEAT). split; [auto|]. split; [auto|].
  eapply aruns_one; [exact E1|discriminate|].
  assert (P : precedence (tk_type t) (tk_type (fst x')) = Some G_).
  { rewrite (stream_head E x' rest S').
    destruct (tk_type (hd E rest)); try discriminate; destruct Ht as [-> | [-> | ->]]; reflexivity. }
  assert (PL : precedence (tk_type a) (tk_type t) = Some L_).
  { destruct (tk_type a); try discriminate; destruct Ht as [-> | [-> | ->]]; reflexivity. }
  destruct (a_reduce (t :: a :: st)) as [st'|] eqn:R.
  2:{ unfold a_reduce in R. rewrite pop_lt in R by auto. destruct Ht as [Ht|[Ht|Ht]]; rewrite Ht in R; discriminate. }
  eapply aruns_one; [apply a_red; eauto| |].
  { cbn. unfold a_reduce in R. rewrite pop_lt in R by auto.
    destruct Ht as [Ht|[Ht|Ht]]; rewrite Ht in R; injection R as <-; try discriminate.
    unfold set_stack. destruct (compressed k); discriminate. }
  unfold a_reduce in R. rewrite pop_lt in R by auto.
  destruct Ht as [Ht|[Ht|Ht]]; rewrite Ht in R; injection R as <-; [|constructor|constructor].
  unfold set_stack. destruct (compressed k); [|constructor].
  eapply aruns_one; [apply a_red; [|]| |constructor]; [| |discriminate].
  - rewrite (stream_head E x' rest S'). destruct (tk_type (hd E rest)); try discriminate; reflexivity.
  - unfold a_reduce. rewrite pop_eq by reflexivity. rewrite pop_eq by reflexivity.
    rewrite pop_lt; [reflexivity|]. cbn. destruct (tk_type a); try discriminate; reflexivity.
Qed.

Lemma gram_ne X r w : gram X r w -> w <> [].
Proof.
  induction 1; auto; try discriminate; destruct u || destruct w; discriminate || easy.
Qed.
Lemma gram_hd X r w : gram X r w -> forall d,
  match tk_type (hd d w) with CHARSET | BOL | EOL | OPENPAREN => true | _ => false end = true.
Proof.
  induction 1; intros d; auto; cbn [hd tk_type]; rewrite ?H; auto;
    match goal with H : gram _ _ ?u |- context [hd d (?u ++ _)] =>
      pose proof (gram_ne _ _ _ H); destruct u; [easy|]; cbn in * end; auto.
Qed.
Lemma hd_ends X r w rest : gram X r w -> ends_expr (tk_type (hd E (w ++ rest))) = true.
Proof.
  intros H. pose proof (gram_hd X r w H E). pose proof (gram_ne X r w H).
  destruct w as [|t w]; [easy|]. cbn in *. destruct (tk_type t); try discriminate; auto.
Qed.

(** A derivation is followed by the machine. *)
Lemma a_gram X r w : gram X r w -> forall st a x rest,
  stream E x (w ++ rest) -> starts X (tk_type a) = true -> ends X (tk_type (hd E rest)) = true ->
  exists x' R, stream E x' rest /\ tk_type R = symbol X /\ aruns (a :: st, x) (R :: a :: st, x').
Proof.
  induction 1 as [r w G IH|a b u v t G1 IH1 Ht G2 IH2|r w G IH|a b u v G1 IH1 G2 IH2
                 |r w G IH|r w t f G IH D|t Ht|t Ht|t Ht|r w o c Ho G IH Hc];
    intros st z x rest S Sz En.
  - (* regex from sequence *)
    destruct (IH st z x rest S) as (x' & R & S' & HR & A).
    { cbn in *. destruct (tk_type z); auto; discriminate. }
    { cbn in *. destruct (tk_type (hd E rest)); auto; discriminate. }
    exists x', (tok OREXP). split; [auto|]. split; [auto|]. eapply aruns_trans; [exact A|].
    cbn in HR. eapply aruns_one; [apply a_red; [|]| |].
    + rewrite HR, (stream_head E x' rest S').
      destruct (tk_type (hd E rest)); try discriminate; reflexivity.
    + unfold a_reduce. rewrite pop_lt; [now rewrite HR|].
      rewrite HR. destruct (tk_type z); try discriminate; reflexivity.
    + discriminate.
    + eapply aruns_one; [apply a_red; [|]| |constructor].
      * cbn [tk_type tok]. rewrite (stream_head E x' rest S').
        destruct (tk_type (hd E rest)); try discriminate; reflexivity.
      * unfold a_reduce. rewrite pop_lt; [reflexivity|].
        cbn [tk_type tok]. destruct (tk_type z); try discriminate; reflexivity.
      * discriminate.
  - (* or *)
    rewrite <- app_assoc in S. cbn [app] in S.
    destruct (IH1 st z x (t :: v ++ rest) S Sz) as (x1 & R1 & S1 & HR1 & A1).
    { cbn [hd]. now rewrite Ht. }
    cbn in HR1. destruct (a_shift (z :: st) R1 x1 t (v ++ rest) S1) as (x2 & S2 & E2).
    { right. now rewrite HR1, Ht. }
    destruct (IH2 (R1 :: z :: st) t x2 rest S2) as (x3 & R3 & S3 & HR3 & A3).
    { cbn. now rewrite Ht. }
    { cbn in *. destruct (tk_type (hd E rest)); auto; discriminate. }
    cbn in HR3. exists x3, (tok OREXP). split; [auto|]. split; [auto|].
    eapply aruns_trans; [exact A1|]. eapply aruns_one; [exact E2|discriminate|].
    eapply aruns_trans; [exact A3|].
    eapply aruns_one; [apply a_red; [|]| |].
    + rewrite HR3, (stream_head E x3 rest S3).
      destruct (tk_type (hd E rest)); try discriminate; reflexivity.
    + unfold a_reduce. rewrite pop_lt; [now rewrite HR3|]. now rewrite HR3, Ht.
    + discriminate.
    + eapply aruns_one; [apply a_red; [|]| |constructor].
      * cbn [tk_type tok]. rewrite (stream_head E x3 rest S3).
        destruct (tk_type (hd E rest)); try discriminate; reflexivity.
      * unfold a_reduce. rewrite pop_eq by (rewrite Ht; reflexivity).
        rewrite pop_eq by (rewrite Ht, HR1; reflexivity).
        rewrite pop_lt; [now rewrite HR1|].
        rewrite HR1. destruct (tk_type z); try discriminate; reflexivity.
      * discriminate.
  - (* sequence from expression *)
    destruct (IH st z x rest S) as (x' & R & S' & HR & A); auto.
    { cbn in *. destruct (tk_type z); auto; discriminate. }
    exists x', (tok SUB). split; [auto|]. split; [auto|]. eapply aruns_trans; [exact A|].
    cbn in HR. eapply aruns_one; [apply a_red; [|]| |constructor].
    + rewrite HR, (stream_head E x' rest S').
      destruct (tk_type (hd E rest)); try discriminate; reflexivity.
    + unfold a_reduce. rewrite pop_lt; [now rewrite HR|].
      rewrite HR. destruct (tk_type z); try discriminate; reflexivity.
    + discriminate.
  - (* concatenation *)
    rewrite <- app_assoc in S.
    destruct (IH1 st z x (v ++ rest) S Sz) as (x1 & R1 & S1 & HR1 & A1).
    { cbn. eapply hd_ends; eauto. }
    cbn in HR1. destruct (IH2 (z :: st) R1 x1 rest S1) as (x2 & R2 & S2 & HR2 & A2); auto.
    { cbn. now rewrite HR1. }
    cbn in HR2. exists x2, (tok SUB). split; [auto|]. split; [auto|].
    eapply aruns_trans; [exact A1|]. eapply aruns_trans; [exact A2|].
    eapply aruns_one; [apply a_red; [|]| |constructor].
    + rewrite HR2, (stream_head E x2 rest S2). cbn in En.
      destruct (tk_type (hd E rest)); try discriminate; reflexivity.
    + unfold a_reduce. rewrite pop_eq by (rewrite HR1, HR2; reflexivity).
      rewrite pop_lt; [now rewrite HR1|].
      rewrite HR1. destruct (tk_type z); try discriminate; reflexivity.
    + discriminate.
  - (* expression from atom *)
    destruct (IH st z x rest S) as (x' & R & S' & HR & A); auto.
    { cbn in *. rewrite En. reflexivity. }
    exists x', (tok EXPRESSION). split; [auto|]. split; [auto|]. eapply aruns_trans; [exact A|].
    cbn in HR. eapply aruns_one; [apply a_red; [|]| |constructor].
    + rewrite HR, (stream_head E x' rest S'). cbn in En.
      destruct (tk_type (hd E rest)); try discriminate; reflexivity.
    + unfold a_reduce. rewrite pop_lt; [now rewrite HR|].
      rewrite HR. destruct (tk_type z); try discriminate; reflexivity.
    + discriminate.
  - (* duplication *)
    rewrite <- app_assoc in S. cbn [app] in S.
    assert (Ht : is_dup (tk_type t) = true).
    { destruct D as [t [-> | ->]|t [-> | ->]|t [-> | ->]|t mn mx [-> | ->] _]; reflexivity. }
    destruct (IH st z x (t :: rest) S Sz) as (x1 & R1 & S1 & HR1 & A1).
    { cbn. rewrite Ht. apply orb_true_r. }
    cbn in HR1. destruct (a_shift (z :: st) R1 x1 t rest S1) as (x2 & S2 & E2).
    { left. rewrite HR1. destruct (tk_type t); try discriminate; reflexivity. }
    exists x2, (tok EXPRESSION). split; [auto|]. split; [auto|].
    eapply aruns_trans; [exact A1|]. eapply aruns_one; [exact E2|discriminate|].
    eapply aruns_one; [apply a_red; [|]| |].
    + rewrite (stream_head E x2 rest S2). cbn in En.
      destruct (tk_type t); try discriminate;
      destruct (tk_type (hd E rest)); try discriminate; reflexivity.
    + unfold a_reduce. rewrite pop_lt.
      * instantiate (1 := tok DUP :: R1 :: z :: st). destruct (tk_type t); try discriminate; reflexivity.
      * rewrite HR1. destruct (tk_type t); try discriminate; reflexivity.
    + discriminate.
    + eapply aruns_one; [apply a_red; [|]| |].
      * cbn [tk_type tok]. rewrite (stream_head E x2 rest S2). cbn in En.
        destruct (tk_type (hd E rest)); try discriminate; reflexivity.
      * unfold a_reduce. rewrite pop_eq by (rewrite HR1; reflexivity).
        rewrite pop_lt; [now rewrite HR1|].
        rewrite HR1. destruct (tk_type z); try discriminate; reflexivity.
      * discriminate.
      * eapply aruns_one; [apply a_red; [|]| |constructor].
        -- cbn [tk_type tok]. rewrite (stream_head E x2 rest S2). cbn in En.
           destruct (tk_type (hd E rest)); try discriminate; reflexivity.
        -- unfold a_reduce. rewrite pop_lt; [reflexivity|].
           cbn [tk_type tok]. destruct (tk_type z); try discriminate; reflexivity.
        -- discriminate.
  - apply a_atom with (t := t); auto.
  - apply a_atom with (t := t); auto.
  - apply a_atom with (t := t); auto.
  - (* parentheses *)
    cbn [app] in S. rewrite <- app_assoc in S. cbn [app] in S.
    destruct (a_shift st z x o (w ++ c :: rest) S) as (x1 & S1 & E1).
    { left. rewrite Ho. cbn in Sz. destruct (tk_type z); try discriminate; reflexivity. }
    destruct (IH (z :: st) o x1 (c :: rest) S1) as (x2 & R2 & S2 & HR2 & A2).
    { cbn. now rewrite Ho. }
    { cbn. now rewrite Hc. }
    cbn in HR2.
    destruct (a_shift (o :: z :: st) (tok REGEX) x2 c rest S2) as (x3 & S3 & E3).
    { right. rewrite Hc. reflexivity. }
    exists x3, (tok REPEAT). split; [auto|]. split; [auto|].
    eapply aruns_one; [exact E1|discriminate|]. eapply aruns_trans; [exact A2|].
    eapply aruns_one; [apply a_red; [|]| |].
    + rewrite HR2, (stream_head E x2 (c :: rest) S2). cbn [hd]. rewrite Hc. reflexivity.
    + unfold a_reduce. rewrite pop_lt; [now rewrite HR2|]. rewrite HR2, Ho. reflexivity.
    + discriminate.
    + eapply aruns_one; [exact E3|discriminate|].
      eapply aruns_one; [apply a_red; [|]| |constructor].
      * rewrite Hc, (stream_head E x3 rest S3). cbn in En.
        destruct (tk_type (hd E rest)); try discriminate; reflexivity.
      * unfold a_reduce. rewrite pop_eq by (rewrite Hc; reflexivity).
        rewrite pop_eq by (rewrite Ho; reflexivity).
        rewrite pop_lt; [now rewrite Ho|].
        rewrite Ho. cbn in Sz. destruct (tk_type z); try discriminate; reflexivity.
      * discriminate.
Qed.

(** A whole expression (or nothing) between BEGIN and END is accepted. *)
Lemma a_accepts B w x : tk_type B = BEGIN -> stream E x w ->
  w = [] \/ (exists r, gram GRegex r w) ->
  exists st, aruns ([B], x) (st, (E, [E])) /\ astep (st, (E, [E])) = Some ([], (E, [E])).
Proof.
  intros HB S [->|(r & G)].
  - cbn in S. subst x. exists [B]. split; [constructor|].
    apply a_red; cbn [fst]; [now rewrite HB, Eend|]. unfold a_reduce. cbn. now rewrite HB.
  - destruct (a_gram GRegex r w G [] B x []) as (x' & R & S' & HR & A).
    + now rewrite app_nil_r.
    + cbn. now rewrite HB.
    + cbn. now rewrite Eend.
    + cbn in S'. subst x'. cbn in HR. exists [B]. split.
      * eapply aruns_trans; [exact A|]. eapply aruns_one; [apply a_red; [|]| |].
        -- cbn [fst]. rewrite HR, Eend. reflexivity.
        -- unfold a_reduce. rewrite pop_lt; [now rewrite HR|]. now rewrite HB, HR.
        -- discriminate.
        -- eapply aruns_one; [apply a_red; [|]| |constructor].
           ++ cbn [fst tk_type tok]. rewrite Eend. reflexivity.
           ++ unfold a_reduce. rewrite pop_lt; [reflexivity|]. cbn [tk_type tok]. now rewrite HB.
           ++ discriminate.
      * apply a_red; cbn [fst]; [now rewrite HB, Eend|]. unfold a_reduce. cbn. now rewrite HB.
Qed.
End Abs.
