(** What slicing into three bytes makes of every range, and for which ranges it is right. *)
From Verif Require Import Base StringToken StringTokenSpec StringTokenProofs Slice SliceSpec SliceProofs.
Local Open Scope N_scope.

(** The characters that slice_range (parser.hpp:516-582) takes for a range: in up to two
    planes its own; else the rest of its first plane, the beginning of its last
    plane, and all planes between the number after the middle byte of its first
    character and the number before the middle byte of its last one (parser.hpp:561),
    in whichever order. *)
Definition low_plane (r : range) : N :=
  N.min (((fst r / 256) mod 256 + 1) mod 256) (((snd r / 256) mod 256 + 255) mod 256).
Definition high_plane (r : range) : N :=
  N.max (((fst r / 256) mod 256 + 1) mod 256) (((snd r / 256) mod 256 + 255) mod 256).
Definition taken (r : range) (c : N) : Prop :=
  if snd r / 65536 <=? fst r / 65536 + 1 then fst r <= c <= snd r
  else fst r <= c /\ c / 65536 = fst r / 65536 \/
       c <= snd r /\ c / 65536 = snd r / 65536 \/
       low_plane r <= c / 65536 <= high_plane r.

(** The ranges for which these are the characters of the range, among those of Unicode. *)
Definition right_range (r : range) : Prop :=
  snd r / 65536 <= fst r / 65536 + 1 \/
  (low_plane r = fst r / 65536 + 1 \/ low_plane r = fst r / 65536 /\ fst r mod 65536 = 0) /\
  (N.min (high_plane r) 16 = snd r / 65536 - 1 \/
   N.min (high_plane r) 16 = snd r / 65536 /\ snd r mod 65536 = 65535).

Lemma mk_range_any a b c : mem c (mk_range a b) <-> N.min a b <= c <= N.max a b.
Proof.
  unfold mk_range. destruct (N.ltb_spec b a); rewrite mem_cons, mem_nil; lia.
Qed.
Lemma insert_range24_any a b d : wf3 d ->
  wf3 (insert_range24 a b 0 255 0 255 d) /\
  forall h m l, accepts3 (insert_range24 a b 0 255 0 255 d) h m l <->
    accepts3 d h m l \/ (N.min a b <= h <= N.max a b /\ 0 <= m <= 255 /\ 0 <= l <= 255).
Proof.
  intros Hd. unfold insert_range24.
  destruct (insert3_ok (mk_range a b) (mk_range 0 255) (mk_range 0 255) d (mk_range_wf _ _) Hd) as [Hw Hm].
  split; auto. intros. rewrite Hm, mk_range_any, !mk_range_mem by lia. tauto.
Qed.

Lemma slice_range24_planes a b d : a <= b -> b < 2 ^ 24 -> a / 65536 + 1 < b / 65536 -> wf3 d ->
  wf3 (slice_range24 (a, b) d) /\
  forall h m l, accepts3 (slice_range24 (a, b) d) h m l <->
    accepts3 d h m l \/ (m < 256 /\ l < 256 /\ taken (a, b) (h * 65536 + m * 256 + l)).
Proof.
  change (2 ^ 24) with 16777216. intros Hab Hb Hn Hd.
  assert (T : forall h m l, m < 256 -> l < 256 -> taken (a, b) (h * 65536 + m * 256 + l) <->
    (a <= h * 65536 + m * 256 + l /\ h = a / 65536 \/ h * 65536 + m * 256 + l <= b /\ h = b / 65536 \/
     low_plane (a, b) <= h <= high_plane (a, b))).
  { intros h m l Hm Hl. unfold taken. cbn [fst snd]. destruct (N.leb_spec (b / 65536) (a / 65536 + 1)); [lia|].
    replace ((h * 65536 + m * 256 + l) / 65536) with h by lia. tauto. }
  assert (T' : forall h m l, (m < 256 /\ l < 256 /\ taken (a, b) (h * 65536 + m * 256 + l)) <->
    (m < 256 /\ l < 256 /\ (a <= h * 65536 + m * 256 + l /\ h = a / 65536 \/ h * 65536 + m * 256 + l <= b /\ h = b / 65536 \/
     low_plane (a, b) <= h <= high_plane (a, b)))).
  { intros h m l. split; intros (H1 & H2 & H3); (split; [auto|]); (split; [auto|]); now apply T. }
  clear T. unfold low_plane, high_plane in T'. cbn [fst snd] in T'.
  unfold slice_range24, msb, mid, lsb, uchar, uchar_pred; cbn [fst snd]. cbv zeta.
  destruct (N.eqb_spec ((a / 65536) mod 256) ((b / 65536) mod 256)) as [E|E]; [lia|].
  replace ((a / 65536) mod 256) with (a / 65536) in * by lia.
  replace ((b / 65536) mod 256) with (b / 65536) in * by lia.
  set (ah := a / 65536) in *. set (bh := b / 65536) in *.
  set (am := (a / 256) mod 256) in *. set (al := a mod 256).
  set (bm := (b / 256) mod 256) in *. set (bl := b mod 256).
  assert (Ea : a = ah * 65536 + am * 256 + al) by (subst ah am al; lia).
  assert (Eb : b = bh * 65536 + bm * 256 + bl) by (subst bh bm bl; lia).
  assert (am < 256 /\ al < 256 /\ bm < 256 /\ bl < 256) by (subst am al bm bl; lia).
  set (lo := (am + 1) mod 256) in *. set (hi := (bm + 255) mod 256) in *.
  assert (Elo : am <> 255 -> lo = am + 1) by (intros; subst lo; lia).
  assert (Ehi : bm <> 0 -> hi = bm - 1) by (intros; subst hi; lia).
  assert (Hlo : N.min lo hi <= N.max lo hi) by lia.
  clearbody ah bh am al bm bl lo hi.
  destruct (N.ltb_spec (ah + 1) bh); [|lia].
  ins24. 
  assert (P1 : exists d1, d1 = (if negb (am =? 255) then insert_range24 ah ah lo 255 0 255 d0 else d0) /\ wf3 d1 /\
     forall h m l, accepts3 d1 h m l <-> accepts3 d h m l \/ (h = ah /\ m < 256 /\ l < 256 /\ am * 256 + al <= m * 256 + l)).
  { destruct (N.eqb_spec am 255); cbn [negb].
    - eexists. split; [reflexivity|]. split; [auto|]. intros h m l. rewrite Hm. clear - H e.
      split; intros [K|K]; auto; right; lia.
    - rewrite Elo by auto. destruct (insert_range24_ok ah ah (am + 1) 255 0 255 d0) as [Hw1 Hm1]; [lia|lia|lia|auto|].
      eexists. split; [reflexivity|]. split; [auto|]. intros h m l. rewrite Hm1, Hm. clear - H n.
      split; [intros [[K|K]|K]; auto; right; lia|]. intros [K|K]; [auto|].
      destruct (N.eq_dec m am) as [->|M]; [left; right; lia|right; lia]. }
  destruct P1 as (d1 & <- & Hw1 & Hm1).
  destruct (insert_range24_any lo hi d1 Hw1) as [Hw2 Hm2].
  generalize dependent (insert_range24 lo hi 0 255 0 255 d1). intros d2 Hw2 Hm2.
  assert (P3 : forall x, x = (if negb (bm =? 0) then insert_range24 bh bh bm bm 0 bl (insert_range24 bh bh 0 hi 0 255 d2)
      else insert_range24 bh bh 0 bm 0 bl d2) -> wf3 x /\
     forall h m l, accepts3 x h m l <-> accepts3 d2 h m l \/ (h = bh /\ m < 256 /\ l < 256 /\ m * 256 + l <= bm * 256 + bl)).
  { intros x ->. destruct (N.eqb_spec bm 0); cbn [negb].
    - destruct (insert_range24_ok bh bh 0 bm 0 bl d2) as [Hw3 Hm3]; [lia|lia|lia|auto|].
      split; [auto|]. intros h m l. rewrite Hm3. clear - H e. split; intros [K|K]; auto; right; lia.
    - rewrite Ehi by auto. destruct (insert_range24_ok bh bh 0 (bm - 1) 0 255 d2) as [Hw3 Hm3]; [lia|lia|lia|auto|].
      destruct (insert_range24_ok bh bh bm bm 0 bl (insert_range24 bh bh 0 (bm - 1) 0 255 d2)) as [Hw4 Hm4]; [lia|lia|lia|auto|].
      split; [auto|]. intros h m l. rewrite Hm4, Hm3. clear - H n.
      split; [intros [[K|K]|K]; auto; right; lia|]. intros [K|K]; [auto|].
      destruct (N.eq_dec m bm) as [->|M]; [right; lia|left; right; lia]. }
  destruct (P3 _ eq_refl) as [Hw3 Hm3]. split; [exact Hw3|]. intros h m l.
  rewrite Hm3, Hm2, Hm1, T'. clear - H Ea Eb Hlo. subst a b. split.
  - intros [[[K|K]|K]|K]; [auto|right..]; (split; [lia|]); (split; [lia|]); [left; lia|right; right; lia|right; left; lia].
  - intros [K|(K1 & K2 & [K|[K|K]])]; [auto| | |].
    + left. left. right. lia.
    + right. lia.
    + left. right. lia.
Qed.

(** Slicing a class, whatever its ranges. *)
Theorem slice24_all t h m l :
  Forall (fun r => fst r <= snd r < 2 ^ 24) t ->
  accepts3 (slice24 t) h m l <->
  (m < 256 /\ l < 256 /\ exists r, In r t /\ taken r (h * 65536 + m * 256 + l)).
Proof.
  intros Ht. unfold slice24.
  enough (G : forall d, wf3 d -> accepts3 (fold_left (fun d r => slice_range24 r d) t d) h m l <->
             accepts3 d h m l \/ (m < 256 /\ l < 256 /\ exists r, In r t /\ taken r (h * 65536 + m * 256 + l))).
  { rewrite G by constructor. rewrite accepts3_nil. tauto. }
  set (c := h * 65536 + m * 256 + l).
  induction Ht as [|[a b] t Hr Ht IH]; intros d Hd; cbn [fold_left].
  - split; [auto|]. intros [K|(_ & _ & r & [] & _)]; auto.
  - assert (S : wf3 (slice_range24 (a, b) d) /\ (accepts3 (slice_range24 (a, b) d) h m l <->
        accepts3 d h m l \/ (m < 256 /\ l < 256 /\ taken (a, b) c))).
    { cbn [fst snd] in Hr. assert (N1 : a / 65536 + 1 < b / 65536 \/ b / 65536 <= a / 65536 + 1) by lia. destruct N1 as [N1|N1].
      - destruct (slice_range24_planes a b d) as [Hw Hm]; [tauto|tauto|exact N1|exact Hd|]. split; [exact Hw|apply Hm].
      - destruct (slice_range24_ok (a, b) d) as [Hw Hm]; [cbn [fst snd]; tauto|cbn [fst snd]; tauto|exact N1|exact Hd|].
        split; [exact Hw|]. rewrite Hm. unfold taken. cbn [fst snd].
        destruct (N.leb_spec (b / 65536) (a / 65536 + 1)); [fold c; tauto|lia]. }
    destruct S as [Hw Hm]. rewrite (IH _ Hw), Hm. split.
    + intros [[K|(K1 & K2 & K3)]|(K1 & K2 & r & I & K3)]; [auto| |]; right; (split; [auto|]); (split; [auto|]).
      * exists (a, b). split; [now left|exact K3].
      * exists r. split; [now right|exact K3].
    + intros [K|(K1 & K2 & r & [<-|I] & K3)]; [auto|auto|]. right. split; [auto|]. split; [auto|]. eauto.
Qed.

(** For which ranges slicing is right. *)
Theorem right_range_iff r : fst r <= snd r <= 0x10ffff ->
  right_range r <-> forall c, c <= 0x10ffff -> taken r c <-> fst r <= c <= snd r.
Proof.
  destruct r as [a b]. cbn [fst snd]. intros [Hab Hb]. unfold right_range, taken. cbn [fst snd].
  destruct (N.leb_spec (b / 65536) (a / 65536 + 1)) as [L|L].
  - split; [tauto|]. auto.
  - generalize (low_plane (a, b)) (high_plane (a, b)). intros lo hi.
    set (ah := a / 65536) in *. set (bh := b / 65536) in *. set (ar := a mod 65536). set (br := b mod 65536).
    assert (Ea : a = ah * 65536 + ar /\ ar < 65536) by (subst ah ar; lia).
    assert (Eb : b = bh * 65536 + br /\ br < 65536) by (subst bh br; lia).
    assert (Hbh : bh <= 16) by (subst bh; lia). clearbody ah bh ar br. destruct Ea as [-> Ha]. destruct Eb as [-> Hbr].
    assert (D : forall h x, x < 65536 -> (h * 65536 + x) / 65536 = h) by (intros; lia).
    split.
    + intros [K|[K1 K2]]; [lia|]. intros c Hc.
      set (h := c / 65536). set (x := c mod 65536). assert (Ec : c = h * 65536 + x /\ x < 65536) by (subst h x; lia).
      clearbody h x. destruct Ec as [-> Hx]. split.
      * intros [K|[K|K]]; lia.
      * intros K. destruct (N.eq_dec h ah) as [->|N1]; [left; lia|]. destruct (N.eq_dec h bh) as [->|N2]; [right; left; lia|].
        right. right. lia.
    + intros K. right.
      assert (M : forall h, ah < h -> h < bh -> lo <= h <= hi).
      { intros h H1 H2. destruct (proj2 (K (h * 65536 + 0) ltac:(lia)) ltac:(lia)) as [Q|[Q|Q]]; rewrite ?D in Q by lia; lia. }
      assert (O : forall h, h <= 16 -> lo <= h <= hi -> ah * 65536 + ar <= h * 65536 /\ h * 65536 + 65535 <= bh * 65536 + br).
      { intros h H1 H2. assert (A1 : ah * 65536 + ar <= h * 65536 + 0 <= bh * 65536 + br).
        { apply (K (h * 65536 + 0)); [lia|]. right. right. rewrite D by lia. lia. }
        assert (A2 : ah * 65536 + ar <= h * 65536 + 65535 <= bh * 65536 + br).
        { apply (K (h * 65536 + 65535)); [lia|]. right. right. rewrite D by lia. lia. }
        lia. }
      pose proof (M (ah + 1) ltac:(lia) ltac:(lia)) as M1. pose proof (M (bh - 1) ltac:(lia) ltac:(lia)) as M2.
      split.
      * pose proof (O lo ltac:(lia) ltac:(lia)). lia.
      * pose proof (O (N.min hi 16) ltac:(lia) ltac:(lia)). lia.
Qed.

Lemma tame_right r : fst r <= snd r <= 0x10ffff -> tame r -> right_range r.
Proof.
  destruct r as [a b]. cbn [fst snd]. intros [Hab Hb] T.
  unfold right_range, low_plane, high_plane. unfold tame in T. cbn [fst snd] in *. destruct T as [T|[T1 T2]]; [now left|].
  destruct (N.le_gt_cases (b / 65536) (a / 65536 + 1)) as [L|L]; [now left|]. right.
  set (ah := a / 65536) in *. set (bh := b / 65536) in *. rewrite T1.
  assert (bh <= 16) by (subst bh; lia).
  replace ((ah + 1) mod 256) with (ah + 1) by lia.
  destruct T2 as [T2|T2].
  - assert (bh = 16) by (subst bh b; reflexivity). subst b. change (((0x10ffff / 256) mod 256 + 255) mod 256) with 254.
    change (0x10ffff mod 65536) with 65535. lia.
  - rewrite T2. replace ((bh + 255) mod 256) with (bh - 1) by lia. lia.
Qed.
