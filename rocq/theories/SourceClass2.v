(** Proofs: classes are read as the sets they mean, whatever follows. *)
From Coq Require Import String Ascii.
From Verif Require Import Base StringToken StringTokenSpec StringTokenProofs RegexSpec Grammar RuleSpec FoldData UnicodeData ReToken
  ReTokeniser ReTokeniserProofs ReTokeniserNext SourceSpec SourceSets SourceEsc SourceClass.
Local Open Scope N_scope.

Scheme eclass_m := Minimality for eclass Sort Prop
  with citem_m := Minimality for citem Sort Prop
  with cbody_m := Minimality for cbody Sort Prop
  with class_m := Minimality for class Sort Prop.
Combined Scheme class_mutual from eclass_m, citem_m, cbody_m, class_m.

(** ** Property names *)
Definition prop_ok (e : string * string) : bool :=
  match chars_of_string (fst e) with [] => false | _ => true end &&
  forallb (fun c => negb (c =? 125)) (chars_of_string (fst e)) &&
  match find_text (chars_of_string (fst e)) props with Some s => text_eqb s (chars_of_string (snd e)) | None => false end &&
  existsb (text_eqb (chars_of_string (snd e))) consts.
Lemma props_all_ok : forallb prop_ok unicode_table = true.
Proof. vm_compute. reflexivity. Qed.
Lemma text_eqb_eq a : forall b, text_eqb a b = true -> a = b.
Proof.
  induction a as [|x a IH]; intros [|y b]; cbn; try discriminate; [auto|]. rewrite andb_true_iff, N.eqb_eq. intros [-> H]. now rewrite (IH _ H).
Qed.
Lemma to_brace_app n r : forallb (fun c => negb (c =? 125)) n = true -> to_brace (n ++ 125 :: r) = Some (n, r).
Proof.
  induction n as [|c n IH]; cbn [forallb app to_brace]; [reflexivity|]. rewrite andb_true_iff. intros [H1 H2]. destruct (c =? 125); [discriminate|]. now rewrite IH.
Qed.
Lemma prop_escape b name s r : In (name, s) unicode_table ->
  escape_sequence b (112 :: 123 :: chars_of_string name ++ 125 :: r) = Ok (EClass (chars_of_string s), r) /\ In (chars_of_string s) consts.
Proof.
  intros H. pose proof props_all_ok as A. rewrite forallb_forall in A. specialize (A _ H). unfold prop_ok in A. cbn [fst snd] in A.
  rewrite !andb_true_iff in A. destruct A as [[[A1 A2] A3] A4]. split.
  - destruct (chars_of_string name) as [|c n] eqn:E; [discriminate|].
    cbn [forallb] in A2. rewrite andb_true_iff in A2. destruct A2 as [_ A2].
    cbn [escape_sequence app N.eqb Pos.eqb unicode_escape]. rewrite to_brace_app by exact A2.
    destruct (find_text (c :: n) props) as [u|]; [|discriminate]. apply text_eqb_eq in A3. subst u. reflexivity.
  - rewrite existsb_exists in A4. destruct A4 as (u & U & V). apply text_eqb_eq in V. now rewrite V.
Qed.

Section Class.
  Variables (b : N) (ic : bool).
  Definition subd (d : nat) (s : list N) : res stoken := do x <- charset d b ic (tl s); Ok (fst x).
  (** The loop, at an item or at the bracket. *)
  Definition from (d : nat) (first : bool) (f : nat) (inp : list N) (t : stoken) : res (stoken * list N) :=
    match inp with
    | [] => Throw ETokenise
    | c :: r => if negb first && (c =? 93) then Ok (t, r) else charset_loop b ic (subd d) f c r t
    end.
  Definition reads (t : list N) (P : N -> Prop) : Prop :=
    forall d, charset d b ic t = Fuel \/ exists u, charset d b ic t = Ok (u, []) /\ den b u P.
  Definition PE (t : list N) (P : N -> Prop) : Prop :=
    exists s, (forall r, escape_sequence b (t ++ r) = Ok (EClass s, r)) /\ reads (tl s) P.
  Definition PI (first : bool) (rest t : list N) (P : N -> Prop) : Prop :=
    small b t -> rest <> [] -> forall d R f t0 P0, den b t0 P0 ->
    from d first f (t ++ rest ++ R) t0 = Fuel \/
    exists t1 f', from d first f (t ++ rest ++ R) t0 = from d false f' (rest ++ R) t1 /\ den b t1 (fun c => P0 c \/ P c).
  Definition PB (first : bool) (t : list N) (P : N -> Prop) : Prop :=
    small b t -> t <> [] /\ forall d R f t0 P0, den b t0 P0 ->
    from d first f (t ++ R) t0 = Fuel \/
    exists t1, from d first f (t ++ R) t0 = Ok (t1, R) /\ den b t1 (fun c => P0 c \/ P c).
  Definition PC (t : list N) (P : N -> Prop) : Prop :=
    small b t -> forall d R, charset d b ic (t ++ R) = Fuel \/ exists u, charset d b ic (t ++ R) = Ok (u, R) /\ den b u P.

  Lemma PC_reads t P : PC t P -> small b t -> reads t P.
  Proof. intros H S d. specialize (H S d []). now rewrite app_nil_r in H. Qed.

  Lemma neg_reads s t P : (forall d, charset (S d) b ic s = match negate (max_char b) t with [] => Throw ETokenise | _ => Ok (negate (max_char b) t, []) end) ->
    den b t P -> (exists c, outside b P c) -> reads s (outside b P).
  Proof.
    intros H D E [|d]; [left; reflexivity|right]. destruct (outside_has _ _ _ D E) as (u & U & V). exists u. rewrite H. auto.
  Qed.
  Lemma pos_reads s t P : (forall d, charset (S d) b ic s = Ok (t, [])) -> den b t P -> reads s P.
  Proof. intros H D [|d]; [left; reflexivity|right]. eauto. Qed.
  Lemma match_ne (t : stoken) r : t <> [] -> match t with [] => Throw ETokenise | _ => Ok (t, r) end = @Ok (stoken * list N) (t, r).
  Proof. now destruct t. Qed.
  Lemma pos_body s t P : (forall d, charset (S d) b ic s = match t with [] => Throw ETokenise | _ => Ok (t, []) end) -> den b t P -> (exists c, P c) -> reads s P.
  Proof. intros H D (c & C). apply (pos_reads _ t); [|exact D]. intros d. rewrite H. apply match_ne. eapply den_ne; eauto. Qed.

  Lemma pe_d : PE [100] is_dec.
  Proof.
    exists (txt "[0-9]"). split; [reflexivity|]. eapply pos_body; [|apply (digits_den b ic)|exists 48; unfold is_dec; lia]. reflexivity.
  Qed.
  Lemma pe_D : PE [68] (outside b is_dec).
  Proof.
    exists (txt "[^0-9]"). split; [reflexivity|]. eapply neg_reads; [|apply (digits_den b ic)|]. { reflexivity. }
    exists 0. split; [unfold top; destruct (b =? 1), (b =? 2); lia|unfold is_dec; lia].
  Qed.
  Lemma pe_s : PE [115] is_space.
  Proof.
    exists (91 :: white ++ [93]). split; [reflexivity|]. eapply pos_body; [|apply (space_den b ic)|exists 32; unfold is_space; lia]. reflexivity.
  Qed.
  Lemma pe_S : PE [83] (outside b is_space).
  Proof.
    exists (91 :: 94 :: white ++ [93]). split; [reflexivity|]. eapply neg_reads; [|apply (space_den b ic)|]. { reflexivity. }
    exists 0. split; [unfold top; destruct (b =? 1), (b =? 2); lia|unfold is_space; lia].
  Qed.
  Lemma pe_w : PE [119] (cased b ic is_word).
  Proof.
    exists (txt "[_0-9A-Za-z]"). split; [reflexivity|].
    eapply pos_body; [|apply (words_den b ic)|exists 48; left; unfold is_word, is_dec; lia]. reflexivity.
  Qed.
  Lemma pe_W : PE [87] (outside b (cased b ic is_word)).
  Proof.
    exists (txt "[^_0-9A-Za-z]"). split; [reflexivity|].
    eapply neg_reads; [|apply (words_den b ic)|]. { reflexivity. }
    exists 0. apply table_no0; [unfold is_word, is_dec, upper, lower; lia|]. intros c _. apply no_zero.
  Qed.

  (** ** Items *)
  Definition head (d : nat) (ch : N) (inp : list N) (t : stoken) : res (option N * stoken * list N) :=
    if ch =? 92 then
      do e <- escape_sequence b inp;
      match fst e with
      | EClass s => do u <- subd d s; Ok (None, insert_token t u, snd e)
      | EChar c => Ok (Some c, t, snd e)
      end
    else if (ch =? 91) && (peek inp =? 58) then
      do p <- posix b (tl inp);
      let '(s, neg, r) := p in
      do u <- subd d s;
      Ok (None, insert_token t (if neg then negate (max_char b) u else u), r)
    else Ok (Some ch, t, inp).
  Definition tail (d f : nat) (x : option N * stoken * list N) : res (stoken * list N) :=
    let '(prev, t1, inp1) := x in
    match inp1 with
    | [] => Throw ETokenise
    | c :: r =>
      do y <- (if (c =? 45) && negb (peek r =? 93) then
                 match prev with
                 | None => Throw ETokenise
                 | Some p => charset_range b ic p r t1
                 end
               else
                 Ok (c, r, match prev with
                           | None => t1
                           | Some p => add_range b ic t1 (p, p)
                           end));
      let '(c', r', t2) := y in
      if c' =? 93 then Ok (t2, r') else charset_loop b ic (subd d) f c' r' t2
    end.
  Lemma loop_step d f ch inp t : charset_loop b ic (subd d) (S f) ch inp t = do x <- head d ch inp t; tail d f x.
  Proof. reflexivity. Qed.
  Lemma from_step d first f ch inp t x : negb first && (ch =? 93) = false -> head d ch inp t = Ok x ->
    from d first (S f) (ch :: inp) t = tail d f x.
  Proof. intros H E. unfold from. rewrite H, loop_step, E. reflexivity. Qed.
  Lemma from_fuel d first f ch inp t : negb first && (ch =? 93) = false -> head d ch inp t = Fuel ->
    from d first (S f) (ch :: inp) t = Fuel.
  Proof. intros H E. unfold from. rewrite H, loop_step, E. reflexivity. Qed.
  Lemma from_0 d first ch inp t : negb first && (ch =? 93) = false -> from d first 0 (ch :: inp) t = Fuel.
  Proof. intros H. unfold from. rewrite H. reflexivity. Qed.
  Lemma tail_plain d f prev t rest : rest <> [] -> no_dash rest ->
    tail d f (prev, t, rest) = from d false f rest (match prev with None => t | Some p => add_range b ic t (p, p) end).
  Proof.
    intros H N. destruct rest as [|c r]; [easy|]. unfold tail, from. cbn [negb andb].
    replace ((c =? 45) && negb (peek r =? 93)) with false; [reflexivity|]. symmetry.
    destruct (N.eqb_spec c 45) as [->|]; [|reflexivity]. destruct (N r eq_refl) as (x & t' & -> & <-). reflexivity.
  Qed.
  Lemma tail_range d f lo hi u t rest : rest <> [] -> cchar b false rest u hi -> lo <= hi ->
    tail d f (Some lo, t, 45 :: u ++ rest) = from d false f rest (add_range b ic t (lo, hi)).
  Proof.
    intros HR H L. destruct rest as [|c' r']; [easy|]. unfold tail.
    replace ((45 =? 45) && negb (peek (u ++ c' :: r') =? 93)) with true
      by (symmetry; destruct H as [c H1 H2 H3|e c H1]; cbn [app peek hd]; [rewrite (proj2 (N.eqb_neq c 93)) by auto; reflexivity|reflexivity]).
    replace (charset_range b ic lo (u ++ c' :: r') t) with (@Ok (N * list N * stoken) (c', r', add_range b ic t (lo, hi))).
    { cbn [bind]. unfold from. reflexivity. }
    symmetry. destruct H as [c H1 H2 H3|e c H1]; cbn [app charset_range].
    - rewrite (proj2 (N.eqb_neq c 92)) by exact H1. destruct (N.eqb_spec c 91) as [->|].
      + rewrite peek_isnt by (auto; discriminate). cbn [andb bind fst snd]. rewrite (proj2 (N.ltb_ge _ _)) by exact L. reflexivity.
      + cbn [andb bind fst snd]. rewrite (proj2 (N.ltb_ge _ _)) by exact L. reflexivity.
    - change (92 =? 92) with true. cbv iota. rewrite (echar_escape _ _ _ _ H1). cbn [bind fst snd]. rewrite (proj2 (N.ltb_ge _ _)) by exact L. reflexivity.
  Qed.
  Lemma head_char d first rest t c t0 : cchar b first rest t c ->
    exists ch inp, t = ch :: inp /\ negb first && (ch =? 93) = false /\ head d ch (inp ++ rest) t0 = Ok (Some c, t0, rest).
  Proof.
    intros H. destruct H as [c H1 H2 H3|e c H1].
    - exists c, []. split; [reflexivity|]. split.
      + destruct first; [reflexivity|]. cbn [negb andb]. apply N.eqb_neq. auto.
      + unfold head. rewrite (proj2 (N.eqb_neq c 92)) by exact H1. destruct (N.eqb_spec c 91) as [->|]; [|reflexivity].
        cbn [app]. rewrite peek_isnt by (auto; discriminate). reflexivity.
    - exists 92, e. split; [reflexivity|]. split; [destruct first; reflexivity|].
      unfold head. cbn [N.eqb Pos.eqb]. rewrite (echar_escape _ _ _ _ H1). reflexivity.
  Qed.

  Lemma pi_char first rest t c : cchar b first rest t c -> no_dash rest -> PI first rest t (cased b ic (eq c)).
  Proof.
    intros H N Sm HR d R f t0 P0 D.
    destruct (head_char d first (rest ++ R) t c t0 (cchar_more _ _ _ R _ _ HR H)) as (ch & inp & -> & H1 & H2).
    destruct f as [|f]; [left; now apply from_0|right]. exists (add_range b ic t0 (c, c)), f. split.
    - cbn [app]. rewrite (from_step _ _ _ _ _ _ _ H1 H2). rewrite tail_plain; [reflexivity|destruct rest; easy|now apply no_dash_more].
    - apply add_char_den; [exact D|]. eapply cchar_small; eauto.
  Qed.
  Lemma pi_range first rest t lo u hi : cchar b first (45 :: u ++ rest) t lo -> cchar b false rest u hi -> lo <= hi ->
    PI first rest (t ++ 45 :: u) (cased b ic (fun c => lo <= c <= hi)).
  Proof.
    intros H K L Sm HR d R f t0 P0 D. apply small_app in Sm as [S1 S2].
    assert (X : 45 :: u ++ rest <> []) by discriminate.
    destruct (head_char d first ((45 :: u ++ rest) ++ R) t lo t0 (cchar_more _ _ _ R _ _ X H)) as (ch & inp & -> & H1 & H2).
    destruct f as [|f]; [left; now apply from_0|right]. exists (add_range b ic t0 (lo, hi)), f. split.
    - replace (((ch :: inp) ++ 45 :: u) ++ rest ++ R) with (ch :: inp ++ (45 :: u ++ rest) ++ R)
        by (cbn [app]; rewrite <- !app_assoc; reflexivity).
      replace ((45 :: u ++ rest) ++ R) with (45 :: u ++ rest ++ R) in * by (cbn [app]; rewrite <- app_assoc; reflexivity).
      rewrite (from_step _ _ _ _ _ _ _ H1 H2).
      apply tail_range; [destruct rest; easy| |exact L]. now apply cchar_more.
    - apply add_range_den; [exact D|exact L|]. eapply cchar_small; [|exact K]. inversion S2. assumption.
  Qed.
  Lemma sub_reads d s P : reads (tl s) P -> subd d s = Fuel \/ exists u, subd d s = Ok u /\ den b u P.
  Proof. intros H. unfold subd. destruct (H d) as [->|(u & -> & D)]; [left; reflexivity|right; exists u; auto]. Qed.
  Lemma head_class d t P r t0 P0 : PE t P -> den b t0 P0 ->
    head d 92 (t ++ r) t0 = Fuel \/ exists t1, head d 92 (t ++ r) t0 = Ok (None, t1, r) /\ den b t1 (fun c => P0 c \/ P c).
  Proof.
    intros (s & E & H) D. unfold head. cbn [N.eqb Pos.eqb]. rewrite E. cbn [bind fst snd].
    destruct (sub_reads d s P H) as [->|(u & -> & U)]; [left; reflexivity|right]. cbn [bind]. eexists. split; [reflexivity|]. now apply den_union.
  Qed.
  Lemma pi_of_head first rest t P : (forall d r t0 P0, den b t0 P0 -> exists ch inp, t = ch :: inp /\ ch <> 93 /\
      (head d ch (inp ++ r) t0 = Fuel \/ exists t1, head d ch (inp ++ r) t0 = Ok (None, t1, r) /\ den b t1 (fun c => P0 c \/ P c))) ->
    no_dash rest -> PI first rest t P.
  Proof.
    intros H N Sm HR d R f t0 P0 D. destruct (H d (rest ++ R) t0 P0 D) as (ch & inp & -> & C & X).
    assert (C' : negb first && (ch =? 93) = false) by (rewrite (proj2 (N.eqb_neq _ _) C); apply andb_false_r).
    cbn [app]. destruct f as [|f]; [left; now apply from_0|]. destruct X as [X|(t1 & X & Y)].
    - left. now apply from_fuel.
    - right. exists t1, f. split; [|exact Y]. rewrite (from_step _ _ _ _ _ _ _ C' X). rewrite tail_plain; [reflexivity|destruct rest; easy|now apply no_dash_more].
  Qed.
  Lemma pi_class first rest t P : PE t P -> no_dash rest -> PI first rest (92 :: t) P.
  Proof.
    intros H N. apply pi_of_head; [|exact N]. intros d r t0 P0 D. exists 92, t. split; [reflexivity|]. split; [discriminate|]. now apply head_class.
  Qed.
  (** A POSIX class. *)
  Lemma pi_posix first rest name s (neg : bool) P :
    (forall r, posix b (name ++ 58 :: 93 :: r) = Ok (s, neg, r)) -> reads (tl s) P -> no_dash rest ->
    PI first rest (91 :: 58 :: name ++ [58; 93]) (if neg then outside b P else P).
  Proof.
    intros H Rd N. apply pi_of_head; [|exact N]. intros d r t0 P0 D. exists 91, (58 :: name ++ [58; 93]). split; [reflexivity|]. split; [discriminate|].
    unfold head. cbn [app N.eqb Pos.eqb peek hd andb tl]. rewrite <- app_assoc. cbn [app]. rewrite H. cbn [bind].
    destruct (sub_reads d s P Rd) as [->|(u & -> & U)]; [left; reflexivity|right]. cbn [bind]. eexists. split; [reflexivity|].
    destruct neg; apply den_union; auto. now apply den_negate.
  Qed.

  (** ** All classes *)
  Lemma wide_find : b <> 1 -> forall name t, In (name, t) posix_wide ->
    exists s, tl s = t /\ In s consts /\ (forall r, posix b (chars_of_string name ++ 58 :: 93 :: r) = Ok (s, false, r)) /\
      forall r, posix b (94 :: chars_of_string name ++ 58 :: 93 :: r) = Ok (s, true, r).
  Proof.
    intros B name t H. assert (E : (b =? 1) = false) by now apply N.eqb_neq.
    assert (A : Forall (fun e => exists s, tl s = snd e /\ existsb (text_eqb s) consts = true /\ (forall r, posix 2 (chars_of_string (fst e) ++ 58 :: 93 :: r) = Ok (s, false, r)) /\
      forall r, posix 2 (94 :: chars_of_string (fst e) ++ 58 :: 93 :: r) = Ok (s, true, r)) posix_wide).
    { unfold posix_wide.
      repeat (apply Forall_cons; [cbn [fst snd]; match goal with |- exists s, tl s = ?x /\ _ => exists (91 :: x) end;
        split; [reflexivity|split; [vm_compute; reflexivity|split; intros r; lazy; reflexivity]]|]). constructor. }
    rewrite Forall_forall in A. destruct (A _ H) as (s & A1 & A2 & A3 & A4). cbn [fst snd] in *. exists s. split; [exact A1|]. split.
    { rewrite existsb_exists in A2. destruct A2 as (u & U & V). apply text_eqb_eq in V. now subst u. }
    unfold posix in *. rewrite E. change (2 =? 1) with false in *. auto.
  Qed.
  Theorem classes : (forall t P, eclass b ic t P -> PE t P) /\ (forall f r t P, citem b ic f r t P -> PI f r t P) /\
    (forall f t P, cbody b ic f t P -> PB f t P) /\ (forall t P, class b ic t P -> PC t P).
  Proof.
    apply class_mutual.
    - apply pe_d.
    - apply pe_D.
    - apply pe_s.
    - apply pe_S.
    - apply pe_w.
    - apply pe_W.
    - intros name s P H _ IH. exists (chars_of_string s). split.
      + intros r. cbn [app]. rewrite <- app_assoc. cbn [app]. now apply prop_escape.
      + apply PC_reads; [exact IH|]. apply tl_forall. apply consts_bound. apply (proj2 (prop_escape b name s [] H)).
    - intros. now apply pi_char.
    - intros. now apply pi_range.
    - intros. now apply pi_class.
    - intros first rest name P B H N. destruct (narrow_den _ _ H) as (s & A1 & A2 & A3). destruct (A3 ic) as (t & T1 & T2).
      apply (pi_posix first rest (chars_of_string name) s false (cased b ic P)); [now rewrite B| |exact N].
      apply (pos_reads _ t); [intros d; rewrite B; apply T1|now rewrite B].
    - intros first rest name P B H N. destruct (narrow_den _ _ H) as (s & A1 & A2 & A3). destruct (A3 ic) as (t & T1 & T2).
      apply (pi_posix first rest (94 :: chars_of_string name) s true (cased b ic P)); [now rewrite B| |exact N].
      apply (pos_reads _ t); [intros d; rewrite B; apply T1|now rewrite B].
    - intros first rest name t P B H _ IH N. destruct (wide_find B _ _ H) as (s & <- & C & A1 & A2).
      apply (pi_posix first rest (chars_of_string name) s false P); [exact A1| |exact N]. apply PC_reads; [exact IH|]. apply tl_forall. now apply consts_bound.
    - intros first rest name t P B H _ IH N. destruct (wide_find B _ _ H) as (s & <- & C & A1 & A2).
      apply (pi_posix first rest (94 :: chars_of_string name) s true P); [exact A2| |exact N]. apply PC_reads; [exact IH|]. apply tl_forall. now apply consts_bound.
    - intros _. split; [discriminate|]. intros d R f t0 P0 D. right. exists t0. split; [reflexivity|]. eapply den_ext; [exact D|]. intros c. tauto.
    - intros first t P u Q H IH _ IH2 Sm. apply small_app in Sm as [S1 S2]. destruct (IH2 S2) as [U K]. split; [destruct t, u; easy|].
      intros d R f t0 P0 D.
      rewrite <- app_assoc. destruct (IH S1 U d R f t0 P0 D) as [X|(t1 & f' & X & Y)]; [left; exact X|].
      rewrite X. destruct (K d R f' t1 _ Y) as [Z|(t2 & Z & W)]; [left; exact Z|right]. exists t2. split; [exact Z|].
      eapply den_ext; [exact W|]. intros c. cbv beta. tauto.
    - intros t P H IH N (c & C) Sm [|d] R; [left; reflexivity|]. destruct (IH Sm) as [U K].
      change (charset (S d) b ic (t ++ R)) with (charset_body b ic (subd d) (t ++ R)). unfold charset_body. cbv zeta. rewrite peek_isnt; [|rewrite begins_app by exact U; exact N|discriminate].
      destruct (t ++ R) as [|ch r] eqn:E; [destruct t; easy|].
      specialize (K d R (S (length r)) [] _ (den_nil b)). rewrite E in K. unfold from in K. cbn [negb andb] in K.
      destruct K as [X|(t1 & X & Y)].
      + left. rewrite X. reflexivity.
      + right. exists t1. rewrite X. cbn [bind fst snd]. split; [|eapply den_ext; [exact Y|]; intros; cbv beta; tauto].
        apply match_ne. eapply den_ne; [exact Y|]. right. exact C.
    - intros t P H IH (c & C) Sm [|d] R; [left; reflexivity|]. inversion Sm as [|? ? _ Sm']; subst. destruct (IH Sm') as [U K].
      cbn [app]. change (charset (S d) b ic (94 :: t ++ R)) with (charset_body b ic (subd d) (94 :: t ++ R)). unfold charset_body. cbv zeta. cbn [peek hd tl]. change (94 =? 94) with true. cbv iota.
      destruct (t ++ R) as [|ch r] eqn:E; [destruct t; easy|].
      specialize (K d R (S (length r)) [] _ (den_nil b)). rewrite E in K. unfold from in K. cbn [negb andb] in K.
      destruct K as [X|(t1 & X & Y)].
      + left. rewrite X. reflexivity.
      + right. rewrite X. cbn [bind fst snd]. 
        assert (Y' : den b t1 P) by (eapply den_ext; [exact Y|]; intros; cbv beta; tauto). apply den_negate in Y'.
        exists (negate (max_char b) t1). split; [|exact Y'].
        apply match_ne. eapply den_ne; [exact Y'|]. exact C.
  Qed.
End Class.

(** With the nesting the tokeniser uses. *)
Theorem class_reads b ic t P R : class b ic t P -> small b (t ++ R) ->
  exists u, charset nesting b ic (t ++ R) = Ok (u, R) /\ den b u P.
Proof.
  intros H Sm. destruct (classes b ic) as (_ & _ & _ & C). pose proof Sm as Sm2. apply small_app in Sm2 as [Sm2 _].
  destruct (C _ _ H Sm2 nesting R) as [X|X]; [|exact X].
  pose proof (charset_built b ic (t ++ R) Sm) as Y. rewrite X in Y. destruct Y.
Qed.
Theorem eclass_reads b ic t P : eclass b ic t P ->
  exists s u, (forall r, escape_sequence b (t ++ r) = Ok (EClass s, r)) /\ charset nesting b ic (tl s) = Ok (u, []) /\ den b u P.
Proof.
  intros H. destruct (classes b ic) as (C & _ & _ & _). destruct (C _ _ H) as (s & E & F). destruct (F nesting) as [X|(u & X & Y)]; [|eauto].
  pose proof (escape_ok b (t ++ [])) as K. rewrite E in K. destruct K as (K & _).
  pose proof (charset_built b ic (tl s) (tl_forall _ _ (consts_bound b s K))) as Y. rewrite X in Y. destruct Y.
Qed.
