(** Exactness of slicing. *)
From Verif Require Import Base StringToken StringTokenSpec StringTokenProofs Slice SliceSpec.
Local Open Scope N_scope.
Ltac Zify.zify_post_hook ::= Z.div_mod_to_equations.

Lemma mk_range_wf a b : wf (mk_range a b).
Proof. unfold wf, mk_range; cbn [wf_from]. tests; lia. Qed.

Lemma mk_range_mem a b c : a <= b -> mem c (mk_range a b) <-> a <= c <= b.
Proof. intros. unfold mk_range. rewrite mem_cons, mem_nil. tests; lia. Qed.

Definition wf2 (d : data2) : Prop := Forall (fun p => wf (snd p)) d.
Definition wf3 (d : data3) : Prop := Forall (fun p => wf (snd p)) d.

Lemma accepts2_cons t1 t2 d h l :
  accepts2 ((t1, t2) :: d) h l <-> (mem h t1 /\ mem l t2) \/ accepts2 d h l.
Proof.
  unfold accepts2, mem. split.
  - intros (u1 & u2 & [E|Hin] & H1 & H2); [inversion E; subst; auto|right; eauto 10].
  - intros [[H1 H2]|(u1 & u2 & Hin & H)]; [exists t1, t2|exists u1, u2]; cbn; auto.
Qed.

Lemma accepts2_nil h l : accepts2 [] h l <-> False.
Proof. unfold accepts2; firstorder. Qed.

Lemma insert2_ok t1 t2 d : wf t2 -> wf2 d -> wf2 (insert2 t1 t2 d) /\
  forall h l, accepts2 (insert2 t1 t2 d) h l <-> accepts2 d h l \/ (mem h t1 /\ mem l t2).
Proof.
  intros Ht. induction d as [|[u1 u2] d IH]; intros Hd; cbn [insert2].
  - split; [repeat constructor; auto|]. intros. rewrite accepts2_cons. tauto.
  - inversion Hd as [|? ? Hu Hd']; subst; cbn [snd] in Hu.
    destruct (st_eqb t1 u1) eqn:E.
    + apply st_eqb_eq in E; subst u1.
      destruct (insert_token_correct u2 t2 Hu Ht) as [Hw Hm].
      split; [constructor; auto|]. intros. rewrite !accepts2_cons, Hm. tauto.
    + destruct (IH Hd') as [Hw Hm]. split; [constructor; auto|].
      intros. rewrite !accepts2_cons, Hm. tauto.
Qed.

Lemma insert_range16_ok a b a2 b2 d : a <= b -> a2 <= b2 -> wf2 d ->
  wf2 (insert_range16 a b a2 b2 d) /\
  forall h l, accepts2 (insert_range16 a b a2 b2 d) h l <->
    accepts2 d h l \/ (a <= h <= b /\ a2 <= l <= b2).
Proof.
  intros H1 H2 Hd. unfold insert_range16.
  destruct (insert2_ok (mk_range a b) (mk_range a2 b2) d (mk_range_wf _ _) Hd) as [Hw Hm].
  split; auto. intros. rewrite Hm, !mk_range_mem by auto. tauto.
Qed.

Ltac ins16 := match goal with
  | |- context [insert_range16 ?a ?b ?a2 ?b2 ?d] =>
    lazymatch d with
    | context [insert_range16] => fail
    | _ => let Hw := fresh "Hw" in let Hm := fresh "Hm" in
      destruct (insert_range16_ok a b a2 b2 d) as [Hw Hm];
      [try lia|try lia|auto|
       generalize dependent (insert_range16 a b a2 b2 d); intros]
    end
  end.

Lemma slice_range16_ok r d : fst r <= snd r -> fst r / 65536 = snd r / 65536 -> wf2 d ->
  wf2 (slice_range16 r d) /\
  forall h l, accepts2 (slice_range16 r d) h l <->
    accepts2 d h l \/
    (h < 256 /\ l < 256 /\ fst r mod 65536 <= h * 256 + l <= snd r mod 65536).
Proof.
  destruct r as [a b]; cbn [fst snd]. intros Hab Hhi Hd.
  unfold slice_range16, uchar, uchar_pred; cbn [fst snd]. cbv zeta.
  set (am := (a / 256) mod 256). set (al := a mod 256).
  set (bm := (b / 256) mod 256). set (bl := b mod 256).
  assert (Ea : a mod 65536 = am * 256 + al) by (subst am al; lia).
  assert (Eb : b mod 65536 = bm * 256 + bl) by (subst bm bl; lia).
  assert (La : a mod 65536 <= b mod 65536) by lia.
  assert (am < 256 /\ al < 256 /\ bm < 256 /\ bl < 256) by (subst am al bm bl; lia).
  clearbody am al bm bl. rewrite Ea, Eb in *. clear Ea Eb Hhi Hab.
  destruct (N.eqb_spec am bm).
  - ins16. split; auto. intros. rewrite Hm. intuition lia.
  - ins16. destruct (N.ltb_spec (am + 1) bm).
    + replace ((bm + 255) mod 256) with (bm - 1) by lia.
      replace ((am + 1) mod 256) with (am + 1) by lia.
      ins16. ins16. split; auto. intros h l. rewrite Hm1, Hm0, Hm.
      clear - H La n H0. split; intros; intuition lia.
    + ins16. split; auto. intros h l. rewrite Hm0, Hm.
      clear - H La n H0. split; intros; intuition lia.
Qed.

Theorem slice16_exact t h l :
  Forall (fun r => fst r <= snd r <= 0xffff) t ->
  accepts2 (slice16 t) h l <-> (h < 256 /\ l < 256 /\ mem (h * 256 + l) t).
Proof.
  intros Ht. unfold slice16.
  enough (G : forall d, wf2 d -> accepts2 (fold_left (fun d r => slice_range16 r d) t d) h l <->
             accepts2 d h l \/ (h < 256 /\ l < 256 /\ mem (h * 256 + l) t)).
  { rewrite G by constructor. rewrite accepts2_nil. tauto. }
  induction Ht as [|[a b] t Hr Ht IH]; intros d Hd; cbn [fold_left fst snd] in *.
  - rewrite mem_nil. tauto.
  - destruct (slice_range16_ok (a, b) d) as [Hw Hm]; cbn [fst snd] in *; auto; try lia.
    rewrite IH by auto. rewrite Hm, mem_cons.
    rewrite !N.mod_small by lia. tauto.
Qed.

(** 24 bit *)
Lemma accepts3_cons t1 t2 t3 d h m l :
  accepts3 ((t1, t2, t3) :: d) h m l <-> (mem h t1 /\ mem m t2 /\ mem l t3) \/ accepts3 d h m l.
Proof.
  unfold accepts3, mem. split.
  - intros (u1 & u2 & u3 & [E|Hin] & H1 & H2 & H3); [inversion E; subst; auto|right; eauto 10].
  - intros [(H1 & H2 & H3)|(u1 & u2 & u3 & Hin & H)]; [exists t1, t2, t3|exists u1, u2, u3]; cbn; auto.
Qed.

Lemma accepts3_nil h m l : accepts3 [] h m l <-> False.
Proof. unfold accepts3; firstorder. Qed.

Lemma insert3_ok t1 t2 t3 d : wf t3 -> wf3 d -> wf3 (insert3 t1 t2 t3 d) /\
  forall h m l, accepts3 (insert3 t1 t2 t3 d) h m l <->
    accepts3 d h m l \/ (mem h t1 /\ mem m t2 /\ mem l t3).
Proof.
  intros Ht. induction d as [|[[u1 u2] u3] d IH]; intros Hd; cbn [insert3].
  - split; [repeat constructor; auto|]. intros. rewrite accepts3_cons. tauto.
  - inversion Hd as [|? ? Hu Hd']; subst; cbn [snd] in Hu.
    destruct (st_eqb t1 u1 && st_eqb u2 t2) eqn:E.
    + apply andb_true_iff in E as [E1 E2]. apply st_eqb_eq in E1, E2; subst u1 u2.
      destruct (insert_token_correct u3 t3 Hu Ht) as [Hw Hm].
      split; [constructor; auto|]. intros. rewrite !accepts3_cons, Hm. tauto.
    + destruct (IH Hd') as [Hw Hm]. split; [constructor; auto|].
      intros. rewrite !accepts3_cons, Hm. tauto.
Qed.

Lemma insert_range24_ok a b a2 b2 a3 b3 d : a <= b -> a2 <= b2 -> a3 <= b3 -> wf3 d ->
  wf3 (insert_range24 a b a2 b2 a3 b3 d) /\
  forall h m l, accepts3 (insert_range24 a b a2 b2 a3 b3 d) h m l <->
    accepts3 d h m l \/ (a <= h <= b /\ a2 <= m <= b2 /\ a3 <= l <= b3).
Proof.
  intros H1 H2 H3 Hd. unfold insert_range24.
  destruct (insert3_ok (mk_range a b) (mk_range a2 b2) (mk_range a3 b3) d (mk_range_wf _ _) Hd) as [Hw Hm].
  split; auto. intros. rewrite Hm, !mk_range_mem by auto. tauto.
Qed.

Ltac ins24 := match goal with
  | |- context [insert_range24 ?a ?b ?a2 ?b2 ?a3 ?b3 ?d] =>
    lazymatch d with
    | context [insert_range24] => fail
    | _ => let Hw := fresh "Hw" in let Hm := fresh "Hm" in
      destruct (insert_range24_ok a b a2 b2 a3 b3 d) as [Hw Hm];
      [try lia|try lia|try lia|auto|
       generalize dependent (insert_range24 a b a2 b2 a3 b3 d); intros]
    end
  end.

Lemma fold_insert3_ok f d2 : forall d, wf2 d2 -> wf3 d ->
  let d' := fold_left (fun d p => insert3 [(f, f)] (fst p) (snd p) d) d2 d in
  wf3 d' /\ forall h m l, accepts3 d' h m l <-> accepts3 d h m l \/ (h = f /\ accepts2 d2 m l).
Proof.
  induction d2 as [|[u1 u2] d2 IH]; intros d H2 Hd; cbn [fold_left fst snd].
  - split; auto. intros. rewrite accepts2_nil. tauto.
  - inversion H2; subst; cbn [snd] in *.
    destruct (insert3_ok [(f, f)] u1 u2 d) as [Hw Hm]; auto.
    destruct (IH _ H3 Hw) as [Hw' Hm']. split; auto. intros.
    rewrite Hm', Hm, accepts2_cons, mem_cons, mem_nil.
    assert (Heq : f <= h <= f <-> h = f) by lia. tauto.
Qed.

(** A range for which the middle part of the slicing is not needed. *)
Definition narrow (r : range) : Prop := snd r / 65536 <= fst r / 65536 + 1.

Lemma slice_range24_ok r d : fst r <= snd r -> snd r < 2 ^ 24 -> narrow r -> wf3 d ->
  wf3 (slice_range24 r d) /\
  forall h m l, accepts3 (slice_range24 r d) h m l <->
    accepts3 d h m l \/
    (m < 256 /\ l < 256 /\ fst r <= h * 65536 + m * 256 + l <= snd r).
Proof.
  change (2 ^ 24) with 16777216.
  destruct r as [a b]; cbn [fst snd]. unfold narrow; cbn [fst snd].
  intros Hab Hb Hn Hd. unfold slice_range24, msb, mid, lsb, uchar, uchar_pred; cbn [fst snd]. cbv zeta.
  destruct (N.eqb_spec ((a / 65536) mod 256) ((b / 65536) mod 256)) as [E|E].
  - destruct (slice_range16_ok (a, b) []) as [Hw16 Hm16]; cbn [fst snd];
      [lia|lia|constructor|]. cbn [fst snd] in Hm16.
    destruct (fold_insert3_ok ((a / 65536) mod 256) (slice_range16 (a, b) []) d Hw16 Hd) as [Hw Hm].
    split; [exact Hw|]. intros h m l. rewrite Hm, Hm16, accepts2_nil.
    set (ah := (a / 65536) mod 256) in *. set (ar := a mod 65536). set (br := b mod 65536).
    assert (Ha : a = ah * 65536 + ar) by (subst ah ar; lia).
    assert (Hb' : b = ah * 65536 + br) by (subst br; rewrite E; lia).
    assert (ar < 65536 /\ br < 65536) by (subst ar br; lia).
    clearbody ah ar br. clear - Ha Hb' H. split; intros; intuition (subst; lia).
  - set (ah := (a / 65536) mod 256) in *. set (bh := (b / 65536) mod 256) in *.
    set (am := (a / 256) mod 256). set (al := a mod 256).
    set (bm := (b / 256) mod 256). set (bl := b mod 256).
    assert (Ea : a = ah * 65536 + am * 256 + al) by (subst ah am al; lia).
    assert (Eb : b = bh * 65536 + bm * 256 + bl) by (subst bh bm bl; lia).
    assert (Hh : bh = ah + 1) by (subst ah bh; lia).
    assert (am < 256 /\ al < 256 /\ bm < 256 /\ bl < 256) by (subst am al bm bl; lia).
    clearbody ah bh am al bm bl. subst a b bh. clear Hn E Hb Hab.
    destruct (N.ltb_spec (ah + 1) (ah + 1)); [lia|].
    ins24. destruct (N.eqb_spec am 255); cbn [negb].
    + destruct (N.eqb_spec bm 0); cbn [negb].
      * ins24. split; auto. intros h m l. rewrite Hm0, Hm. clear - H e e0.
        split; intros; intuition lia.
      * replace ((bm + 255) mod 256) with (bm - 1) by lia.
        ins24. ins24. split; auto. intros h m l. rewrite Hm1, Hm0, Hm. clear - H e n.
        split; intros; intuition lia.
    + replace ((am + 1) mod 256) with (am + 1) by lia.
      ins24. destruct (N.eqb_spec bm 0); cbn [negb].
      * ins24. split; auto. intros h m l. rewrite Hm1, Hm0, Hm. clear - H n e.
        split; intros; intuition lia.
      * replace ((bm + 255) mod 256) with (bm - 1) by lia.
        ins24. ins24. split; auto. intros h m l. rewrite Hm2, Hm1, Hm0, Hm. clear - H n n0.
        split; intros; intuition lia.
Qed.


(** A range over more than two planes. *)
Lemma wide_planes ah al bh bm bl h m l : ah < 256 /\ al < 256 /\ bm < 256 /\ bl < 256 -> bh <= 16 -> ah + 1 < bh ->
  bm = bh \/ bh = 16 /\ bm = 255 /\ bl = 255 ->
  (m < 256 /\ l < 256 /\ (ah * 65536 + ah * 256 + al <= h * 65536 + m * 256 + l <= bh * 65536 + bm * 256 + bl \/
     bh * 65536 + bm * 256 + bl = 0x10ffff /\ 0x10ffff < h * 65536 + m * 256 + l <= 0xfeffff)) <->
  (ah <= h <= ah /\ ah <= m <= ah /\ al <= l <= 255) \/ (ah <= h <= ah /\ ah + 1 <= m <= 255 /\ 0 <= l <= 255) \/
  (ah + 1 <= h <= bm - 1 /\ 0 <= m <= 255 /\ 0 <= l <= 255) \/ (bh <= h <= bh /\ 0 <= m <= bm - 1 /\ 0 <= l <= 255) \/
  (bh <= h <= bh /\ bm <= m <= bm /\ 0 <= l <= bl).
Proof.
  intros H H0 H1 Bm. split.
  - intros (M & L & [K|K]).
    + assert (C1 : ah <= h) by lia. assert (C2 : h <= bh) by lia.
      destruct (N.eq_dec h ah) as [->|N1].
      { assert (ah <= m) by lia. destruct (N.eq_dec m ah) as [->|N2]; [left; lia|right; left; lia]. }
      destruct (N.eq_dec h bh) as [->|N2].
      { assert (m <= bm) by lia. destruct (N.eq_dec m bm) as [->|N3]; [do 4 right; lia|do 3 right; left; lia]. }
      right; right; left. destruct Bm as [->|(-> & -> & ->)]; lia.
    + right; right; left. destruct Bm as [->|(-> & -> & ->)]; lia.
  - intros [K|[K|[K|[K|K]]]]; (split; [lia|]); (split; [lia|]).
    + left; lia. + left; lia.
    + destruct Bm as [->|(-> & -> & ->)]; [left; lia|]. destruct (N.le_gt_cases h 16) as [C|C]; [|right; lia].
      left. lia.
    + left; lia. + left; lia.
Qed.
Lemma slice_range24_wide a b d : a <= b -> b <= 0x10ffff -> a / 65536 + 1 < b / 65536 -> tame (a, b) -> wf3 d ->
  wf3 (slice_range24 (a, b) d) /\
  forall h m l, accepts3 (slice_range24 (a, b) d) h m l <->
    accepts3 d h m l \/
    (m < 256 /\ l < 256 /\ (a <= h * 65536 + m * 256 + l <= b \/
       b = 0x10ffff /\ 0x10ffff < h * 65536 + m * 256 + l <= 0xfeffff)).
Proof.
  unfold tame; cbn [fst snd]. intros Hab Hb Hn Ht Hd.
  unfold slice_range24, msb, mid, lsb, uchar, uchar_pred; cbn [fst snd]. cbv zeta.
  destruct (N.eqb_spec ((a / 65536) mod 256) ((b / 65536) mod 256)) as [E|E]; [lia|].
  replace ((a / 65536) mod 256) with (a / 65536) in * by lia.
  replace ((b / 65536) mod 256) with (b / 65536) in * by lia.
  set (ah := a / 65536) in *. set (bh := b / 65536) in *.
  set (am := (a / 256) mod 256) in *. set (al := a mod 256).
  set (bm := (b / 256) mod 256) in *. set (bl := b mod 256).
  assert (Ea : a = ah * 65536 + am * 256 + al) by (subst ah am al; lia).
  assert (Eb : b = bh * 65536 + bm * 256 + bl) by (subst bh bm bl; lia).
  assert (am < 256 /\ al < 256 /\ bm < 256 /\ bl < 256) by (subst am al bm bl; lia).
  assert (bh <= 16) by (subst bh; lia).
  clearbody ah bh am al bm bl. destruct Ht as [Ht|[Ht1 Ht2]]; [lia|]. subst am.
  assert (Bm : bm = bh \/ bh = 16 /\ bm = 255 /\ bl = 255) by lia. clear Ht2.
  assert (Bl : b = 0x10ffff <-> bh = 16 /\ bm = 255 /\ bl = 255) by lia. subst a b.
  destruct (N.ltb_spec (ah + 1) bh); [|lia].
  replace ((ah + 1) mod 256) with (ah + 1) by lia.
  replace ((bm + 255) mod 256) with (bm - 1) by lia.
  ins24. destruct (N.eqb_spec ah 255); cbn [negb]; [lia|]. ins24. ins24.
  destruct (N.eqb_spec bm 0); cbn [negb]; [lia|]. ins24. ins24.
  split; auto. intros h m l. rewrite Hm3, Hm2, Hm1, Hm0, Hm.
  clear - H H0 Bm H1 n0 Bl.
  rewrite (wide_planes ah al bh bm bl h m l) by tauto. tauto.
Qed.

Theorem slice24_exact t h m l :
  Forall (fun r => fst r <= snd r <= 0x10ffff /\ tame r) t ->
  accepts3 (slice24 t) h m l <->
  (m < 256 /\ l < 256 /\ takes t (h * 65536 + m * 256 + l)).
Proof.
  intros Ht. unfold slice24.
  enough (G : forall d, wf3 d -> accepts3 (fold_left (fun d r => slice_range24 r d) t d) h m l <->
             accepts3 d h m l \/ (m < 256 /\ l < 256 /\ takes t (h * 65536 + m * 256 + l))).
  { rewrite G by constructor. rewrite accepts3_nil. tauto. }
  set (c := h * 65536 + m * 256 + l).
  assert (TC : forall a b t, takes ((a, b) :: t) c <->
    ((a <= c <= b \/ a < 0xf0000 /\ b = 0x10ffff /\ 0x10ffff < c <= 0xfeffff) \/ takes t c)).
  { clear. intros a b t. unfold takes. rewrite mem_cons. split.
    - intros [[M|M]|(L & lo & [[= -> ->]|I] & J)]; [tauto|tauto|left; right; tauto|right; right; split; [auto|exists lo; auto]].
    - intros [[M|(A & -> & L)]|[M|(L & lo & I & J)]]; [tauto| |tauto|].
      + right. split; [auto|]. exists a. split; [now left|auto].
      + right. split; [auto|]. exists lo. split; [now right|auto]. }
  induction Ht as [|[a b] t [Hr HT] Ht IH]; intros d Hd; cbn [fold_left fst snd] in *.
  - assert (takes [] c <-> False). { unfold takes. rewrite mem_nil. split; [intros [[]|(_ & lo & [] & _)]|tauto]. }
    tauto.
  - assert (N1 : a / 65536 + 1 < b / 65536 \/ b / 65536 <= a / 65536 + 1) by lia. destruct N1 as [N1|N1].
    + destruct (slice_range24_wide a b d) as [Hw Hm]; try tauto; try lia.
      rewrite IH by auto. rewrite Hm, TC. fold c. assert (b = 0x10ffff -> a < 0xf0000) by lia. tauto.
    + destruct (slice_range24_ok (a, b) d) as [Hw Hm]; cbn [fst snd] in *; try tauto.
      { change (2 ^ 24) with 16777216. lia. }
      rewrite IH by auto. rewrite Hm, TC. fold c. assert (b = 0x10ffff -> ~ a < 0xf0000) by lia. tauto.
Qed.

Theorem slice24_unicode t h m l : Forall (fun r => fst r <= snd r <= 0x10ffff /\ tame r) t -> h * 65536 + m * 256 + l <= 0x10ffff ->
  accepts3 (slice24 t) h m l <-> (m < 256 /\ l < 256 /\ mem (h * 65536 + m * 256 + l) t).
Proof. intros H B. rewrite (slice24_exact t h m l H), (takes_mem t _ B). tauto. Qed.
