(** The regex tokeniser: it always ends, and the classes it makes are classes of
    the alphabet. *)
From Coq Require Import String.
From Verif Require Import Base StringToken StringTokenSpec StringTokenProofs ReToken ReTokeniser UnicodeData FoldData.
Local Open Scope N_scope.

(** ** Rests of texts *)
Definition tail_of (r inp : list N) : Prop := exists p, p <> [] /\ inp = p ++ r.
Lemma tail_cons c r : tail_of r (c :: r).
Proof. exists [c]. now split. Qed.
Lemma tail_len r inp : tail_of r inp -> (length r < length inp)%nat.
Proof. intros (p & Hp & ->). rewrite app_length. destruct p; [now destruct Hp|]. cbn. lia. Qed.
Lemma tail_forall P r inp : tail_of r inp -> Forall P inp -> Forall P r.
Proof. intros (p & _ & ->) H. now apply Forall_app in H. Qed.
Lemma tail_trans a b c : tail_of a b -> tail_of b c -> tail_of a c.
Proof.
  intros (p & Hp & ->) (q & Hq & ->). exists (q ++ p). split; [|now rewrite app_assoc].
  destruct q; [now destruct Hq|discriminate].
Qed.
Lemma tail_cons_of a c r : tail_of a r -> tail_of a (c :: r).
Proof. intros H. eapply tail_trans; [eauto|apply tail_cons]. Qed.
Lemma tail_tl r inp : tail_of r (tl inp) -> tail_of r inp.
Proof. destruct inp; [auto|]. apply tail_cons_of. Qed.
Lemma tl_forall (P : N -> Prop) inp : Forall P inp -> Forall P (tl inp).
Proof. intros H. destruct H; cbn; auto. Qed.
Lemma peek_tl c inp : peek inp = c -> c <> 0 -> inp = c :: tl inp.
Proof. destruct inp; cbn; congruence. Qed.

(** ** Escapes *)
Lemma max_char_ge b : 255 <= max_char b.
Proof. unfold max_char. destruct (b =? 1), (b =? 2); lia. Qed.

Lemma octal_tail n : forall acc inp, exists p, inp = p ++ snd (octal n acc inp).
Proof.
  induction n as [|n IH]; intros acc [|c r]; cbn; try (exists []; reflexivity).
  destruct (is_oct c); [|exists []; reflexivity].
  destruct (IH (acc * 8 + (c - 48)) r) as (p & Hp). exists (c :: p). cbn. now rewrite <- Hp.
Qed.
Lemma hex_tail inp : forall acc, exists p, inp = p ++ snd (hex_digits acc inp).
Proof.
  induction inp as [|c r IH]; intros acc; cbn [hex_digits]; [exists []; reflexivity|].
  destruct (is_hex c); [|exists []; reflexivity].
  destruct (IH ((acc * 16 + hex_val c) mod 2 ^ 64)) as (p & Hp). exists (c :: p). cbn [app]. now rewrite <- Hp.
Qed.
Lemma chr_ok b inp :
  match chr b inp with
  | Ok (c, r) => (Forall (fun c => c <= max_char b) inp -> c <= max_char b) /\ tail_of r inp
  | Throw _ => True
  | _ => False
  end.
Proof.
  pose proof (max_char_ge b) as M. destruct inp as [|c r]; cbn [chr]; [auto|].
  destruct (is_oct c) eqn:O.
  { unfold decode_octal. cbv zeta. destruct (N.ltb_spec (max_char b) (fst (octal 3 0 (c :: r)))); [auto|].
    destruct (octal 3 0 (c :: r)) as [v r'] eqn:E. split; [auto|].
    cbn [octal] in E. rewrite O in E. destruct (octal_tail 2 (0 * 8 + (c - 48)) r) as (p & Hp).
    exists (c :: p). split; [discriminate|]. cbn [octal] in Hp. rewrite E in Hp. cbn [snd app] in *. now rewrite <- Hp. }
  assert (T : tail_of r (c :: r)) by apply tail_cons.
  destruct (c =? 97); [split; [lia|auto]|]. destruct (c =? 98); [split; [lia|auto]|].
  destruct (c =? 99).
  { unfold decode_control. destruct r as [|d r']; [auto|]. assert (T' : tail_of r' (c :: d :: r')) by (apply tail_cons_of, tail_cons).
    destruct ((97 <=? d) && (d <=? 122)) eqn:E1; [apply andb_true_iff in E1; split; [lia|auto]|].
    destruct ((65 <=? d) && (d <=? 90)) eqn:E2; [apply andb_true_iff in E2; split; [lia|auto]|].
    destruct (d =? 64); [split; [lia|auto]|auto]. }
  destruct (c =? 101); [split; [lia|auto]|]. destruct (c =? 102); [split; [lia|auto]|].
  destruct (c =? 110); [split; [lia|auto]|]. destruct (c =? 114); [split; [lia|auto]|].
  destruct (c =? 116); [split; [lia|auto]|]. destruct (c =? 118); [split; [lia|auto]|].
  destruct (c =? 120).
  { unfold decode_hex. destruct r as [|d r']; [auto|]. destruct (is_hex d); [|auto]. cbv zeta.
    destruct (N.ltb_spec (max_char b) (fst (hex_digits 0 (d :: r')))); [auto|].
    destruct (hex_digits 0 (d :: r')) as [v r2] eqn:E. split; [auto|].
    destruct (hex_tail (d :: r') 0) as (p & Hp). rewrite E in Hp. cbn [snd] in Hp. exists (c :: p).
    split; [discriminate|]. cbn [app]. now rewrite <- Hp. }
  split; [|auto]. intros F. now inversion F.
Qed.

Lemma to_brace_tail inp : forall n r, to_brace inp = Some (n, r) -> tail_of r inp.
Proof.
  induction inp as [|c inp IH]; cbn; intros n r H; [discriminate|].
  destruct (c =? 125); [injection H as <- <-; apply tail_cons|].
  destruct (to_brace inp) as [[m r']|]; [|discriminate]. injection H as <- <-.
  apply tail_cons_of. eapply IH; eauto.
Qed.
Lemma find_text_in name t s : find_text name t = Some s -> In s (map snd t).
Proof.
  induction t as [|[n u] t IH]; cbn; [discriminate|]. destruct (text_eqb name n); [|auto].
  injection 1 as <-. auto.
Qed.

(** The texts of all the classes in the code. *)
Definition shortcuts : list (list N) :=
  [txt "[0-9]"; txt "[^0-9]"; 91 :: white ++ [93]; 91 :: 94 :: white ++ [93]; txt "[_0-9A-Za-z]"; txt "[^_0-9A-Za-z]"].
Definition consts : list (list N) :=
  shortcuts ++ map snd props ++ map (fun p => fst (snd p)) posix_table ++ map (fun p => snd (snd p)) posix_table.

Lemma escape_ok b inp :
  match escape_sequence b inp with
  | Ok (EClass s, r) => In s consts /\ tail_of r inp /\ forall b', escape_sequence b' inp = Ok (EClass s, r)
  | Ok (EChar c, r) => (Forall (fun c => c <= max_char b) inp -> c <= max_char b) /\ tail_of r inp
  | Throw _ => True
  | _ => False
  end.
Proof.
  destruct inp as [|c r]; cbn [escape_sequence]; [auto|].
  assert (T : tail_of r (c :: r)) by apply tail_cons.
  assert (S : forall s, In s shortcuts -> In s consts) by (intros; apply in_or_app; auto).
  destruct (c =? 100); [split; [apply S; unfold shortcuts; cbn [In]; auto 10|auto]|].
  destruct (c =? 68); [split; [apply S; unfold shortcuts; cbn [In]; auto 10|auto]|].
  destruct (c =? 112).
  { unfold unicode_escape. destruct r as [|d r]; [cbn; auto|].
    destruct r as [|e r]; [cbn; auto|]. destruct (d =? 123); [|cbn; auto].
    destruct (to_brace r) as [[n r']|] eqn:E; [|cbn; auto].
    destruct (find_text (e :: n) props) as [s|] eqn:E2; [|cbn; auto]. cbn [bind fst snd].
    split; [|split; [|auto]].
    - apply in_or_app. right. apply in_or_app. left. eapply find_text_in; eauto.
    - do 3 apply tail_cons_of. eapply to_brace_tail; eauto. }
  destruct (c =? 115); [split; [apply S; unfold shortcuts; cbn [In]; auto 10|auto]|].
  destruct (c =? 83); [split; [apply S; unfold shortcuts; cbn [In]; auto 10|auto]|].
  destruct (c =? 119); [split; [apply S; unfold shortcuts; cbn [In]; auto 10|auto]|].
  destruct (c =? 87); [split; [apply S; unfold shortcuts; cbn [In]; auto 10|auto]|].
  pose proof (chr_ok b (c :: r)) as H. destruct (chr b (c :: r)) as [[d r']| | |]; cbn; auto.
Qed.

(** ** POSIX classes *)
Lemma strip_prefix_app p : forall inp r, strip_prefix p inp = Some r -> inp = p ++ r.
Proof.
  induction p as [|x p IH]; cbn; intros inp r H; [now injection H|].
  destruct inp as [|y inp]; [discriminate|]. destruct (N.eqb_spec x y) as [->|]; [|discriminate].
  now rewrite (IH _ _ H).
Qed.
Lemma posix_find_ok t inp s w r : posix_find t inp = Some (s, w, r) ->
  exists n, In (n, (s, w)) t /\ inp = n ++ r.
Proof.
  induction t as [|[n [s' w']] t IH]; cbn; [discriminate|].
  destruct (strip_prefix n inp) as [r'|] eqn:E.
  - injection 1 as <- <- <-. exists n. split; [auto|]. now apply strip_prefix_app.
  - intros H. destruct (IH H) as (m & H1 & H2). exists m. auto.
Qed.
Lemma posix_ok b inp :
  match posix b inp with
  | Ok (s, _, r) => In s consts /\ tail_of r inp
  | Throw _ => True
  | _ => False
  end.
Proof.
  unfold posix. set (inp1 := if peek inp =? 94 then tl inp else inp).
  destruct (posix_find posix_table inp1) as [[[s w] r]|] eqn:E; [|auto].
  destruct (posix_find_ok _ _ _ _ _ E) as (n & H1 & H2).
  destruct r as [|c1 r]; [auto|]. destruct r as [|c2 r]; [auto|].
  destruct ((c1 =? 58) && (c2 =? 93)); [|auto].
  split.
  - unfold consts. destruct (b =? 1).
    + do 2 (apply in_or_app; right). apply in_or_app; left. apply (in_map (fun p => fst (snd p)) _ _ H1).
    + do 3 (apply in_or_app; right). apply (in_map (fun p => snd (snd p)) _ _ H1).
  - assert (T : tail_of r inp1) by (exists (n ++ [c1; c2]); split; [destruct n; discriminate|now rewrite <- app_assoc]).
    subst inp1. destruct (peek inp =? 94); [now apply tail_tl|auto].
Qed.

(** ** Character classes *)
(** The classes that charset() may ask for while it reads a text. *)
Definition cand_at (inp : list N) : list (list N) :=
  match inp with
  | c :: r =>
    (if c =? 92 then match escape_sequence 1 r with Ok (EClass s, _) => [s] | _ => [] end else []) ++
    (if (c =? 91) && (peek r =? 58) then
       match posix 1 (tl r) with Ok (s, _, _) => [s] | _ => [] end ++
       match posix 2 (tl r) with Ok (s, _, _) => [s] | _ => [] end
     else [])
  | [] => []
  end.
Fixpoint cands (inp : list N) : list (list N) :=
  cand_at inp ++ match inp with [] => [] | _ :: r => cands r end.
Lemma cands_app p inp s : In s (cands inp) -> In s (cands (p ++ inp)).
Proof. induction p as [|c p IH]; [auto|]. intros H. cbn [app cands]. apply in_or_app. right. auto. Qed.
Lemma cands_tail r inp s : tail_of r inp -> In s (cands r) -> In s (cands inp).
Proof. intros (p & _ & ->). apply cands_app. Qed.
Lemma posix_bytes b inp : posix b inp = posix 1 inp \/ posix b inp = posix 2 inp.
Proof. destruct (N.eqb_spec b 1) as [->|H]; [auto|right]. unfold posix. now rewrite (proj2 (N.eqb_neq b 1) H). Qed.

Section Loop.
  Variables (b : N) (icase : bool) (P : stoken -> Prop) (sub : list N -> res stoken).
  Hypothesis Pnil : P [].
  Hypothesis Padd : forall t x y, P t -> x <= y -> y <= max_char b -> P (add_range b icase t (x, y)).
  Hypothesis Ptok : forall t u, P t -> P u -> P (insert_token t u).
  Hypothesis Pneg : forall t, P t -> P (negate (max_char b) t).
  Notation small := (Forall (fun c => c <= max_char b)).

  Lemma range_ok prev inp t : small inp -> P t -> prev <= max_char b ->
    match charset_range b icase prev inp t with
    | Ok (c, r, t') => P t' /\ tail_of (c :: r) inp
    | Throw _ => True
    | _ => False
    end.
  Proof.
    intros F Pt Hp. unfold charset_range. destruct inp as [|c r]; [auto|].
    assert (H : match (if c =? 92
          then do e <- escape_sequence b r; match fst e with EClass _ => Throw ETokenise | EChar d => Ok (d, snd e) end
          else if (c =? 91) && (peek r =? 58) then Throw ETokenise else Ok (c, r)) with
      | Ok (d, r') => d <= max_char b /\ tail_of r' (c :: r) | Throw _ => True | _ => False end).
    { inversion F; subst. destruct (c =? 92).
      - pose proof (escape_ok b r) as E. destruct (escape_sequence b r) as [[[s|d] r']| | |]; cbn; auto.
        destruct E. split; [auto|]. now apply tail_cons_of.
      - destruct ((c =? 91) && (peek r =? 58)); [auto|]. split; [auto|apply tail_cons]. }
    destruct (if c =? 92 then _ else _) as [[d r']| | |]; cbn [bind]; auto. destruct H as [H1 H2]. cbn [snd fst].
    destruct r' as [|ch r']; [auto|]. destruct (N.ltb_spec d prev); [auto|]. split; [|auto]. now apply Padd.
  Qed.

  Lemma loop_ok : forall fuel ch inp t,
    (forall s, In s (cands (ch :: inp)) -> match sub s with Ok u => P u | Throw _ => True | _ => False end) ->
    (length inp < fuel)%nat -> small (ch :: inp) -> P t ->
    match charset_loop b icase sub fuel ch inp t with
    | Ok (t', r) => P t' /\ tail_of r inp
    | Throw _ => True
    | _ => False
    end.
  Proof.
    induction fuel as [|f IH]; intros ch inp t HS HL F Pt; [lia|]. cbn [charset_loop].
    assert (Fi : small inp) by (inversion F; auto).
    set (first := if ch =? 92 then _ else _).
    assert (H : match first with
      | Ok (prev, t1, inp1) => P t1 /\ (inp1 = inp \/ tail_of inp1 inp) /\
          match prev with Some p => p <= max_char b | None => True end
      | Throw _ => True | _ => False end).
    { subst first. destruct (N.eqb_spec ch 92) as [->|H92].
      - pose proof (escape_ok b inp) as E. destruct (escape_sequence b inp) as [[[s|d] r']| | |]; cbn; auto.
        + destruct E as (E1 & E2 & E3). assert (HC : In s (cands (92 :: inp))).
          { cbn [cands]. apply in_or_app. left. unfold cand_at. cbn [N.eqb Pos.eqb]. rewrite (E3 1). left. reflexivity. }
          specialize (HS s HC). destruct (sub s); cbn; auto.
        + destruct E. auto.
      - destruct ((ch =? 91) && (peek inp =? 58)) eqn:EP.
        + pose proof (posix_ok b (tl inp)) as E. destruct (posix b (tl inp)) as [[[s neg] r']| | |] eqn:EX; cbn; auto.
          destruct E as (E1 & E2). assert (HC : In s (cands (ch :: inp))).
          { cbn [cands]. apply in_or_app. left. unfold cand_at. apply in_or_app. right. rewrite EP.
            apply in_or_app. destruct (posix_bytes b (tl inp)) as [X|X]; rewrite X in EX; rewrite EX; cbn; auto. }
          specialize (HS s HC). destruct (sub s); cbn; auto. split; [|split; auto using tail_tl].
          apply Ptok; [auto|]. destruct neg; auto.
        + split; [auto|]. split; [auto|]. inversion F; auto. }
    destruct first as [[[prev t1] inp1]| | |]; cbn [bind]; auto. destruct H as (Pt1 & HT & HP).
    destruct inp1 as [|c r]; [auto|].
    assert (T : tail_of r inp) by (destruct HT as [<- |HT]; [apply tail_cons|eapply tail_trans; [apply tail_cons|exact HT]]).
    assert (Fr : small (c :: r)) by (destruct HT as [<- |HT]; [auto|eapply tail_forall; eauto]).
    set (second := if (c =? 45) && negb (peek r =? 93) then _ else _).
    assert (H : match second with
      | Ok (c', r', t2) => P t2 /\ ((c' = c /\ r' = r) \/ tail_of (c' :: r') r)
      | Throw _ => True | _ => False end).
    { subst second. destruct ((c =? 45) && negb (peek r =? 93)).
      - destruct prev as [p|]; [|exact I]. pose proof (range_ok p r t1) as H. destruct (charset_range b icase p r t1) as [[[c' r'] t2]| | |]; auto.
        + destruct H as [H1 H2]; auto. inversion Fr; auto.
        + apply H; auto. inversion Fr; auto.
        + apply H; auto. inversion Fr; auto.
      - split; [|auto]. destruct prev as [p|]; [apply Padd; auto; lia|auto]. }
    destruct second as [[[c' r'] t2]| | |]; cbn [bind]; auto. destruct H as (Pt2 & HR).
    assert (T' : tail_of r' inp).
    { destruct HR as [[-> ->]|HR]; [auto|]. eapply tail_trans; [eapply tail_trans; [apply tail_cons|exact HR]|exact T]. }
    destruct (c' =? 93); [auto|].
    specialize (IH c' r' t2).
    assert (TT : (c' :: r') = inp \/ tail_of (c' :: r') inp).
    { destruct HR as [[-> ->]|HR]; [destruct HT as [<- |HT]; auto|]. right. eapply tail_trans; eauto. }
    assert (HL' : (length r' < f)%nat) by (pose proof (tail_len _ _ T'); lia).
    assert (F' : small (c' :: r')) by (destruct TT as [-> |TT]; [auto|eapply tail_forall; eauto]).
    assert (HS' : forall s, In s (cands (c' :: r')) -> match sub s with Ok u => P u | Throw _ => True | _ => False end).
    { intros s Hs. apply HS. cbn [cands]. apply in_or_app. right. destruct TT as [<- |TT]; [auto|]. eapply cands_tail; eauto. }
    specialize (IH HS' HL' F' Pt2). destruct (charset_loop b icase sub f c' r' t2) as [[t' r2]| | |]; auto.
    destruct IH as [I1 I2]. split; [auto|]. eapply tail_trans; eauto.
  Qed.

  Lemma body_ok inp :
    (forall s, In s (cands inp) -> match sub s with Ok u => P u | Throw _ => True | _ => False end) ->
    small inp ->
    match charset_body b icase sub inp with
    | Ok (t, r) => P t /\ t <> [] /\ tail_of r inp
    | Throw _ => True
    | _ => False
    end.
  Proof.
    intros HS F. unfold charset_body. set (inp1 := if peek inp =? 94 then tl inp else inp).
    assert (T : forall r, tail_of r inp1 -> tail_of r inp) by (subst inp1; destruct (peek inp =? 94); auto using tail_tl).
    assert (F1 : small inp1) by (subst inp1; destruct (peek inp =? 94); auto using tl_forall).
    assert (C1 : forall s, In s (cands inp1) -> In s (cands inp)).
    { subst inp1. destruct (peek inp =? 94); [|auto]. intros s. destruct inp as [|c r]; [auto|]. cbn [tl].
      apply (cands_app [c]). }
    destruct inp1 as [|ch r] eqn:E1; [auto|].
    pose proof (loop_ok (S (length r)) ch r [] (fun s Hs => HS s (C1 s Hs)) (Nat.lt_succ_diag_r _) F1 Pnil) as H.
    destruct (charset_loop b icase sub (S (length r)) ch r []) as [[t r']| | |]; cbn [bind].
    - destruct H as [H1 H2]. cbv zeta. cbn [fst snd].
      destruct (if peek inp =? 94 then negate (max_char b) t else t) as [|x t'] eqn:E; [auto|]. split; [|split; [discriminate|]].
      + rewrite <- E. destruct (peek inp =? 94); auto.
      + apply T. now apply tail_cons_of.
    - auto.
    - exact H.
    - exact H.
  Qed.
End Loop.

(** ** The nesting of the classes *)
Fixpoint rank (d : nat) (inp : list N) : bool :=
  match d with O => false | S d' => forallb (fun s => rank d' (tl s)) (cands inp) end.
Lemma consts_rank : forallb (fun s => rank 4 (tl s)) consts = true.
Proof. vm_compute. reflexivity. Qed.
Lemma consts_small : forallb (forallb (fun c => c <=? 255)) consts = true.
Proof. vm_compute. reflexivity. Qed.
Lemma cands_consts s inp : In s (cands inp) -> In s consts.
Proof.
  induction inp as [|c r IH]; cbn [cands]; intros H; [destruct H|].
  apply in_app_or in H as [H|H]; [|auto]. unfold cand_at in H. apply in_app_or in H as [H|H].
  - destruct (c =? 92); [|destruct H]. pose proof (escape_ok 1 r) as E.
    destruct (escape_sequence 1 r) as [[[u|d] r']| | |]; try destruct H. { subst. apply E. } destruct H.
  - destruct ((c =? 91) && (peek r =? 58)); [|destruct H]. apply in_app_or in H as [H|H].
    + pose proof (posix_ok 1 (tl r)) as E. destruct (posix 1 (tl r)) as [[[u n] r']| | |]; try destruct H. { subst. apply E. } destruct H.
    + pose proof (posix_ok 2 (tl r)) as E. destruct (posix 2 (tl r)) as [[[u n] r']| | |]; try destruct H. { subst. apply E. } destruct H.
Qed.
Lemma consts_bound b s : In s consts -> Forall (fun c => c <= max_char b) s.
Proof.
  intros H. pose proof consts_small as C. rewrite forallb_forall in C. specialize (C s H).
  rewrite forallb_forall in C. apply Forall_forall. intros c Hc. specialize (C c Hc). pose proof (max_char_ge b). lia.
Qed.

Section Nested.
  Variables (b : N) (icase : bool) (P : stoken -> Prop).
  Hypothesis Pnil : P [].
  Hypothesis Padd : forall t x y, P t -> x <= y -> y <= max_char b -> P (add_range b icase t (x, y)).
  Hypothesis Ptok : forall t u, P t -> P u -> P (insert_token t u).
  Hypothesis Pneg : forall t, P t -> P (negate (max_char b) t).
  Notation small := (Forall (fun c => c <= max_char b)).
  Lemma charset_ranked d : forall inp, rank d inp = true -> small inp ->
    match charset d b icase inp with
    | Ok (t, r) => P t /\ t <> [] /\ tail_of r inp
    | Throw _ => True
    | _ => False
    end.
  Proof.
    induction d as [|d IH]; intros inp HR F; [discriminate|]. cbn [charset rank] in *.
    apply (body_ok b icase P); auto. intros s Hs. rewrite forallb_forall in HR.
    pose proof (IH (tl s) (HR s Hs) (tl_forall _ _ (consts_bound b s (cands_consts _ _ Hs)))) as H.
    destruct (charset d b icase (tl s)) as [[t r]| | |]; cbn; auto. apply H.
  Qed.
  Lemma charset_const s : In s consts ->
    match charset 4 b icase (tl s) with
    | Ok (t, r) => P t /\ t <> [] /\ tail_of r (tl s)
    | Throw _ => True
    | _ => False
    end.
  Proof.
    intros H. apply charset_ranked; [|now apply tl_forall, consts_bound].
    pose proof consts_rank as C. rewrite forallb_forall in C. auto.
  Qed.
  Lemma rank_mono d : forall inp, rank d inp = true -> rank (S d) inp = true.
  Proof.
    induction d as [|d IH]; intros inp H; [discriminate|]. cbn [rank] in *. rewrite forallb_forall in *.
    intros s Hs. apply (IH (tl s)). auto.
  Qed.
  Lemma charset_ok inp : small inp ->
    match charset nesting b icase inp with
    | Ok (t, r) => P t /\ t <> [] /\ tail_of r inp
    | Throw _ => True
    | _ => False
    end.
  Proof.
    intros F. apply charset_ranked; [|auto]. unfold nesting. cbn [rank]. apply forallb_forall.
    intros s Hs. pose proof consts_rank as C. rewrite forallb_forall in C. apply C. eapply cands_consts; eauto.
  Qed.
End Nested.

(** ** Case folding stays inside the alphabet *)
Lemma built_max max t x y : built max t -> x <= y -> y <= max -> built max (insert t (x, y)).
Proof. apply built_insert. Qed.
Lemma fold1_built r : fst r <= snd r -> snd r <= 255 -> built 255 (fold1 r).
Proof.
  intros H1 H2. unfold fold1.
  assert (G : forall l t, (forall i, In i l -> fst r + N.of_nat i <= 255) -> built 255 t ->
     built 255 (fold_left (fun out i => fold1_char out (fst r + N.of_nat i)) l t)).
  { induction l as [|i l IH]; cbn; intros t Hl Ht; [auto|]. apply IH; [auto|].
    assert (Hi : fst r + N.of_nat i <= 255) by auto. set (c := fst r + N.of_nat i) in *.
    unfold fold1_char, to_upper, to_lower.
    assert (built 255 (if (if (97 <=? c) && (c <=? 122) then c - 32 else c) =? c then t
       else insert t (if (97 <=? c) && (c <=? 122) then c - 32 else c, if (97 <=? c) && (c <=? 122) then c - 32 else c))).
    { destruct (_ =? c); [auto|]. apply built_insert; [auto|lia|]. destruct (_ && _); lia. }
    cbv zeta. destruct ((if (65 <=? c) && (c <=? 90) then c + 32 else c) =? c); [auto|]. apply built_insert; [auto|lia|].
    destruct ((65 <=? c) && (c <=? 90)) eqn:E; [apply andb_true_iff in E|]; lia. }
  apply G; [|constructor]. intros i Hi. apply in_seq in Hi. lia.
Qed.
Definition entry2_ok (max : N) (e : range * range) : bool :=
  let '((ff, fs), (tf, ts)) := e in
  let lo := if tf <=? ts then tf else ts in
  let hi := if tf <=? ts then ts else tf in
  (ff <=? fs) && (lo + (fs - ff) <=? hi) && (hi <=? max).
Definition entry4_ok (max : N) (e : range * range) : bool :=
  let '((ff, fs), (tf, ts)) := e in (ff <=? fs) && (tf + (fs - ff) <=? ts) && (ts <=? max).
Lemma fold2_entries : forallb (entry2_ok 0xffff) fold2_table = true.
Proof. vm_compute. reflexivity. Qed.
Lemma fold4_entries : forallb (entry4_ok 0x10ffff) fold4_table = true.
Proof. vm_compute. reflexivity. Qed.
Lemma fold_table_built max entry t r : forall out,
  (forall e out, In e t -> built max out -> built max (entry r out e)) -> built max out ->
  built max (fold_table entry t r out).
Proof.
  induction t as [|e t IH]; cbn; intros out He Ho; [auto|]. destruct (snd r <? fst (fst e)); [auto|].
  apply IH; auto.
Qed.
Lemma fold2_built max r out : 0xffff <= max -> fst r <= snd r -> built max out -> built max (fold2 r out).
Proof.
  intros HM Hr Ho. apply fold_table_built; [|auto]. intros [[ff fs] [tf ts]] o He Hb.
  pose proof fold2_entries as C. rewrite forallb_forall in C. specialize (C _ He). unfold entry2_ok in C. cbv zeta in C.
  rewrite !andb_true_iff in C. destruct C as [[C1 C2] C3]. unfold fold2_entry. cbv zeta.
  set (lo := if tf <=? ts then tf else ts) in *. set (hi := if tf <=? ts then ts else tf) in *.
  apply N.leb_le in C1, C2, C3.
  destruct ((ff <=? fst r) && (fst r <=? fs)) eqn:E1.
  - apply andb_true_iff in E1. apply built_insert; [auto| |]; destruct (N.ltb_spec fs (snd r)); lia.
  - destruct ((ff <=? snd r) && (snd r <=? fs)) eqn:E2.
    + apply andb_true_iff in E2. apply built_insert; [auto| |]; lia.
    + destruct ((fst r <=? ff) && (ff <=? snd r)); [|auto]. apply built_insert; [auto| |]; lia.
Qed.
Lemma fold4_built r : fst r <= snd r -> built 0x10ffff (fold4 r).
Proof.
  intros Hr. unfold fold4. apply fold_table_built.
  - intros [[ff fs] [tf ts]] o He Hb.
    pose proof fold4_entries as C. rewrite forallb_forall in C. specialize (C _ He). unfold entry4_ok in C.
    rewrite !andb_true_iff in C. destruct C as [[C1 C2] C3]. unfold fold4_entry.
    apply N.leb_le in C1, C2, C3.
    destruct ((ff <=? fst r) && (fst r <=? fs)) eqn:E1.
    + apply andb_true_iff in E1. apply built_insert; [auto| |]; destruct (N.ltb_spec fs (snd r)); lia.
    + destruct ((ff <=? snd r) && (snd r <=? fs)) eqn:E2.
      * apply andb_true_iff in E2. apply built_insert; [auto| |]; lia.
      * destruct ((fst r <=? ff) && (ff <=? snd r)); [|auto]. apply built_insert; [auto| |]; lia.
  - destruct (fst r <? 0x10000); [|constructor]. apply fold2_built; [lia|auto|constructor].
Qed.
Lemma fold_range_built b r : fst r <= snd r -> snd r <= max_char b -> built (max_char b) (fold_range b r).
Proof.
  unfold fold_range, max_char. intros H1 H2. destruct (b =? 1); [now apply fold1_built|].
  destruct (b =? 2); [apply fold2_built; [lia|auto|constructor]|now apply fold4_built].
Qed.
Lemma add_range_built b icase t x y : built (max_char b) t -> x <= y -> y <= max_char b ->
  built (max_char b) (add_range b icase t (x, y)).
Proof.
  intros Ht H1 H2. unfold add_range. cbv zeta. pose proof (built_insert _ _ _ _ Ht H1 H2) as B.
  destruct icase; [|auto]. apply built_insert_token; [auto|]. now apply fold_range_built.
Qed.
Theorem charset_built b icase inp : Forall (fun c => c <= max_char b) inp ->
  match charset nesting b icase inp with
  | Ok (t, r) => built (max_char b) t /\ t <> [] /\ tail_of r inp
  | Throw _ => True
  | _ => False
  end.
Proof.
  apply charset_ok.
  - constructor.
  - intros. now apply add_range_built.
  - intros. now apply built_insert_token.
  - intros. now apply built_negate.
Qed.
