(** Proofs about utf_iterators.hpp. *)
From Verif Require Import Base Utf UtfSpec.
Local Open Scope N_scope.
Ltac Zify.zify_post_hook ::= Z.div_mod_to_equations.

(** *** Bytes and bits *)
Definition all_bytes : list N := map N.of_nat (seq 0 256).
Lemma byte_sweep (P : N -> bool) :
  forallb P all_bytes = true -> forall b, b < 256 -> P b = true.
Proof.
  intros H b Hb. rewrite forallb_forall in H. apply H. unfold all_bytes.
  apply in_map_iff. exists (N.to_nat b). split; [lia|]. apply in_seq. lia.
Qed.

Lemma land_7f_sweep b : b < 256 -> N.land b 0xff = b.
Proof. intros H. apply N.eqb_eq. revert b H. apply byte_sweep. vm_compute. reflexivity. Qed.

Lemma land_c0 b : b < 256 -> (N.land b 0xc0 =? 0x80) = ((128 <=? b) && (b <? 192)).
Proof.
  intros H. apply eqb_prop. revert b H. apply byte_sweep. vm_compute. reflexivity.
Qed.

Lemma u8_len_spec b : b < 256 ->
  u8_len b = if b <? 128 then 1 else if (192 <=? b) && (b <? 224) then 2
             else if (224 <=? b) && (b <? 240) then 3
             else if (240 <=? b) && (b <? 248) then 4 else 127.
Proof. intros H. apply N.eqb_eq. revert b H. apply byte_sweep. vm_compute. reflexivity. Qed.

Lemma lor_add a b n : b < 2 ^ n -> N.lor (a * 2 ^ n) b = a * 2 ^ n + b.
Proof.
  intros H. symmetry. rewrite <- N.lxor_lor. apply N.add_nocarry_lxor.
  all: apply N.bits_inj_iff; intros k; rewrite N.land_spec, N.bits_0;
    destruct (N.lt_ge_cases k n);
    [rewrite N.mul_pow2_bits_low by auto; auto|].
  all: replace (N.testbit b k) with false; [apply andb_false_r|];
    symmetry; destruct (N.eq_dec b 0) as [->|]; [apply N.bits_0|];
    apply N.bits_above_log2;
    apply N.lt_le_trans with n; auto; apply N.log2_lt_pow2; lia.
Qed.

Lemma land_mod a n : N.land a (N.ones n) = a mod 2 ^ n.
Proof. apply N.land_ones. Qed.
Lemma land_3f a : N.land a 0x3f = a mod 64.
Proof. exact (land_mod a 6). Qed.
Lemma land_3ff a : N.land a 0x3ff = a mod 1024.
Proof. exact (land_mod a 10). Qed.
Lemma land_ff a : N.land a 0xff = a mod 256.
Proof. exact (land_mod a 8). Qed.
Lemma land_7ff a : N.land a 0x7ff = a mod 2048.
Proof. exact (land_mod a 11). Qed.
Lemma land_fff a : N.land a 0xfff = a mod 4096.
Proof. exact (land_mod a 12). Qed.
Lemma land_ffff a : N.land a 0xffff = a mod 65536.
Proof. exact (land_mod a 16). Qed.
Lemma land_3ffff a : N.land a 0x3ffff = a mod 262144.
Proof. exact (land_mod a 18). Qed.
Lemma land_1fffff a : N.land a 0x1fffff = a mod 2097152.
Proof. exact (land_mod a 21). Qed.
Lemma shl6 a : N.shiftl a 6 = a * 64. Proof. exact (N.shiftl_mul_pow2 a 6). Qed.
Lemma shl10 a : N.shiftl a 10 = a * 1024. Proof. exact (N.shiftl_mul_pow2 a 10). Qed.
Lemma shl12 a : N.shiftl a 12 = a * 4096. Proof. exact (N.shiftl_mul_pow2 a 12). Qed.
Lemma shl18 a : N.shiftl a 18 = a * 262144. Proof. exact (N.shiftl_mul_pow2 a 18). Qed.
Lemma shr6 a : N.shiftr a 6 = a / 64. Proof. exact (N.shiftr_div_pow2 a 6). Qed.
Lemma shr10 a : N.shiftr a 10 = a / 1024. Proof. exact (N.shiftr_div_pow2 a 10). Qed.
Lemma shr12 a : N.shiftr a 12 = a / 4096. Proof. exact (N.shiftr_div_pow2 a 12). Qed.
Lemma shr18 a : N.shiftr a 18 = a / 262144. Proof. exact (N.shiftr_div_pow2 a 18). Qed.

Ltac bits := rewrite ?land_3f, ?land_3ff, ?land_7ff, ?land_fff, ?land_ffff, ?land_3ffff,
  ?land_1fffff, ?land_ff, ?shl6, ?shl10, ?shl12, ?shl18, ?shr6, ?shr10, ?shr12, ?shr18 in *.

(** Disjoint [lor]: [a] is a multiple of 2^n and [b] is below it. *)
Lemma lor_disj n a b : a mod 2 ^ n = 0 -> b < 2 ^ n -> N.lor a b = a + b.
Proof.
  intros Ha Hb. assert (E : a = a / 2 ^ n * 2 ^ n).
  { pose proof (N.div_mod a (2 ^ n)). rewrite Ha in H. rewrite N.mul_comm.
    rewrite N.add_0_r in H. apply H. apply N.pow_nonzero; lia. }
  rewrite E. apply lor_add; auto.
Qed.
Lemma lor6 a b : a mod 64 = 0 -> b < 64 -> N.lor a b = a + b.
Proof. exact (lor_disj 6 a b). Qed.
Lemma lor10 a b : a mod 1024 = 0 -> b < 1024 -> N.lor a b = a + b.
Proof. exact (lor_disj 10 a b). Qed.
Lemma lor12 a b : a mod 4096 = 0 -> b < 4096 -> N.lor a b = a + b.
Proof. exact (lor_disj 12 a b). Qed.
Lemma lor18 a b : a mod 262144 = 0 -> b < 262144 -> N.lor a b = a + b.
Proof. exact (lor_disj 18 a b). Qed.

(** *** One decoding step *)
(** Value of a sequence of bytes of the right shape. *)
Definition u8_val (l : list N) : N :=
  match l with
  | [a] => a
  | [a; b] => (a - 192) * 64 + (b - 128)
  | [a; b; c] => (a - 224) * 4096 + (b - 128) * 64 + (c - 128)
  | [a; b; c; d] => (a - 240) * 262144 + (b - 128) * 4096 + (c - 128) * 64 + (d - 128)
  | _ => 0
  end.

Lemma val2 a b : 192 <= a < 224 -> cont_byte b ->
  N.lor (N.land (N.shiftl (N.land a 0xff) 6) 0x7ff) (N.land b 0x3f) = (a - 192) * 64 + (b - 128).
Proof.
  unfold cont_byte. intros Ha Hb. bits.
  rewrite (N.mod_small a) by lia.
  assert (E1 : (a * 64) mod 2048 = (a - 192) * 64) by lia. rewrite E1.
  assert (E2 : b mod 64 = b - 128) by lia. rewrite E2.
  apply lor6; lia.
Qed.
Lemma val3 a b c : 224 <= a < 240 -> cont_byte b -> cont_byte c ->
  N.lor (N.lor (N.land (N.shiftl (N.land a 0xff) 12) 0xffff)
     (N.land (N.shiftl (N.land b 0xff) 6) 0xfff)) (N.land c 0x3f)
  = (a - 224) * 4096 + (b - 128) * 64 + (c - 128).
Proof.
  unfold cont_byte. intros Ha Hb Hc. bits.
  rewrite (N.mod_small a), (N.mod_small b) by lia.
  assert (E1 : (a * 4096) mod 65536 = (a - 224) * 4096) by lia. rewrite E1.
  assert (E2 : (b * 64) mod 4096 = (b - 128) * 64) by lia. rewrite E2.
  assert (E3 : c mod 64 = c - 128) by lia. rewrite E3.
  generalize (a - 224). intros x. assert (Hy : b - 128 < 64) by lia. revert Hy.
  generalize (b - 128). intros y Hy.
  rewrite (lor12 (x * 4096) (y * 64)); [|apply N.mod_mul; discriminate|lia].
  apply lor6; [|lia]. replace (x * 4096 + y * 64) with ((x * 64 + y) * 64) by lia.
  apply N.mod_mul; discriminate.
Qed.
Lemma val4 a b c d : 240 <= a < 248 -> cont_byte b -> cont_byte c -> cont_byte d ->
  N.lor (N.lor (N.lor (N.land (N.shiftl (N.land a 0xff) 18) 0x1fffff)
                   (N.land (N.shiftl (N.land b 0xff) 12) 0x3ffff))
         (N.land (N.shiftl (N.land c 0xff) 6) 0xfff)) (N.land d 0x3f)
  = (a - 240) * 262144 + (b - 128) * 4096 + (c - 128) * 64 + (d - 128).
Proof.
  unfold cont_byte. intros Ha Hb Hc Hd. bits.
  rewrite (N.mod_small a), (N.mod_small b), (N.mod_small c) by lia.
  assert (E1 : (a * 262144) mod 2097152 = (a - 240) * 262144) by lia. rewrite E1.
  assert (E2 : (b * 4096) mod 262144 = (b - 128) * 4096) by lia. rewrite E2.
  assert (E3 : (c * 64) mod 4096 = (c - 128) * 64) by lia. rewrite E3.
  assert (E4 : d mod 64 = d - 128) by lia. rewrite E4.
  generalize (a - 240). intros x. assert (Hy : b - 128 < 64) by lia. revert Hy.
  generalize (b - 128). intros y Hy. assert (Hz : c - 128 < 64) by lia. revert Hz.
  generalize (c - 128). intros z Hz.
  rewrite (lor18 (x * 262144) (y * 4096)); [|apply N.mod_mul; discriminate|lia].
  replace (x * 262144 + y * 4096) with ((x * 64 + y) * 4096) by lia.
  rewrite (lor12 ((x * 64 + y) * 4096) (z * 64)); [|apply N.mod_mul; discriminate|lia].
  apply lor6; [|lia]. replace ((x * 64 + y) * 4096 + z * 64) with (((x * 64 + y) * 64 + z) * 64) by lia.
  apply N.mod_mul; discriminate.
Qed.

Lemma deref_app pre x rest i : i = length pre -> deref (pre ++ x :: rest) i = Ok x.
Proof.
  intros ->. unfold deref. rewrite nth_error_app2 by lia.
  rewrite Nat.sub_diag. reflexivity.
Qed.

Definition is_byte (b : N) : Prop := b < 256.

(** The continuation check at index [length pre]. *)
Lemma u8_cont_spec pre rest i : i = length pre -> Forall is_byte rest ->
  u8_cont (pre ++ rest) i =
    match rest with
    | [] => Throw ETruncatedUtf
    | b :: _ => if (128 <=? b) && (b <? 192) then Ok b else Throw EInvalidUtf
    end.
Proof.
  intros -> Hb. unfold u8_cont. rewrite app_length.
  destruct rest as [|b rest]; cbn [length].
  - rewrite Nat.add_0_r, Nat.eqb_refl. reflexivity.
  - destruct (Nat.eqb_spec (length pre) (length pre + S (length rest))); [lia|].
    rewrite deref_app by auto. cbn [bind]. inversion Hb; subst. rewrite land_c0 by auto. reflexivity.
Qed.

(** First chunk of [rest], if it starts with a sequence of the right shape. *)
Definition u8_prefix (rest : list N) : option nat :=
  match rest with
  | [] => None
  | a :: r =>
    let isc x := (128 <=? x) && (x <? 192) in
    if a <? 128 then Some 1%nat
    else if (192 <=? a) && (a <? 224) then
      match r with b :: _ => if isc b then Some 2%nat else None | _ => None end
    else if (224 <=? a) && (a <? 240) then
      match r with b :: c :: _ => if isc b && isc c then Some 3%nat else None | _ => None end
    else if (240 <=? a) && (a <? 248) then
      match r with
      | b :: c :: d :: _ => if isc b && isc c && isc d then Some 4%nat else None
      | _ => None
      end
    else None
  end.

Lemma u8_prefix_shape chunk post : u8_shape chunk -> u8_prefix (chunk ++ post) = Some (length chunk).
Proof.
  unfold u8_shape, cont_byte.
  destruct chunk as [|a [|b [|c [|d [|? ?]]]]]; try tauto; intros H; cbn [app u8_prefix length].
  all: repeat match goal with |- context [if ?x then _ else _] =>
         destruct x eqn:?; try lia; try reflexivity end.
Qed.

Lemma u8_prefix_some rest n : u8_prefix rest = Some n ->
  exists chunk post, rest = chunk ++ post /\ length chunk = n /\ u8_shape chunk.
Proof.
  destruct rest as [|a r]; [discriminate|]. unfold u8_prefix.
  Local Ltac oif := match goal with
    | |- (if ?x then _ else _) = _ -> _ => let E := fresh "E" in destruct x eqn:E end.
  oif; [intros H; inversion H; exists [a], r; cbn; repeat split; lia|].
  oif.
  { destruct r as [|b r]; [discriminate|]. cbv zeta. oif; [|discriminate].
    intros H; inversion H; exists [a; b], r; cbn; unfold cont_byte; repeat split; lia. }
  oif.
  { destruct r as [|b [|c r]]; try discriminate. cbv zeta. oif; [|discriminate].
    intros H; inversion H; exists [a; b; c], r; cbn; unfold cont_byte; repeat split; lia. }
  oif; [|discriminate].
  destruct r as [|b [|c [|d r]]]; try discriminate. cbv zeta. oif; [|discriminate].
  intros H; inversion H; exists [a; b; c; d], r; cbn; unfold cont_byte; repeat split; lia.
Qed.

Lemma app2 (pre : list N) a rest : pre ++ a :: rest = (pre ++ [a]) ++ rest.
Proof. rewrite <- app_assoc; reflexivity. Qed.

Lemma u8_next_spec pre rest e ch : Forall is_byte rest ->
  u8_next (pre ++ rest) {| u_it := length pre; u_end := e; u_char := ch |} =
  match rest with
  | [] => Ok {| u_it := length pre; u_end := e; u_char := ch |}
  | _ :: _ =>
    match u8_prefix rest with
    | Some n => Ok {| u_it := length pre; u_end := length pre + n;
                      u_char := u8_val (firstn n rest) |}
    | None => u8_next (pre ++ rest) {| u_it := length pre; u_end := e; u_char := ch |}
    end
  end /\
  (rest <> [] -> u8_prefix rest = None ->
   exists er, u8_next (pre ++ rest) {| u_it := length pre; u_end := e; u_char := ch |} = Throw er).
Proof.
  intros Hb. destruct rest as [|a r].
  { split; [|tauto]. unfold u8_next; cbn [u_it]. rewrite app_nil_r, Nat.eqb_refl. reflexivity. }
  assert (Hn : u8_next (pre ++ a :: r) {| u_it := length pre; u_end := e; u_char := ch |} =
    match u8_len a with
    | 1 => Ok {| u_it := length pre; u_end := length pre + 1; u_char := N.land a 0xff |}
    | 2 => u8_next2 (pre ++ a :: r) (length pre) (N.land a 0xff)
    | 3 => u8_next3 (pre ++ a :: r) (length pre) (N.land a 0xff)
    | 4 => u8_next4 (pre ++ a :: r) (length pre) (N.land a 0xff)
    | _ => Throw EInvalidUtf
    end).
  { unfold u8_next; cbn [u_it]. rewrite app_length; cbn [length].
    destruct (Nat.eqb_spec (length pre) (length pre + S (length r))); [lia|].
    rewrite deref_app by auto. reflexivity. }
  rewrite Hn. clear Hn. inversion Hb as [|? ? Ha Hr]; subst.
  rewrite u8_len_spec by auto. unfold u8_prefix.
  assert (C1 : u8_cont (pre ++ a :: r) (length pre + 1) = match r with [] => Throw ETruncatedUtf
    | b :: _ => if (128 <=? b) && (b <? 192) then Ok b else Throw EInvalidUtf end).
  { rewrite app2. apply u8_cont_spec; auto. rewrite app_length; auto. }
  assert (C2 : forall b r', r = b :: r' -> u8_cont (pre ++ a :: r) (length pre + 2) = match r' with [] => Throw ETruncatedUtf
    | b :: _ => if (128 <=? b) && (b <? 192) then Ok b else Throw EInvalidUtf end).
  { intros b r' ->. inversion Hr; subst. rewrite app2, app2. apply u8_cont_spec; auto. rewrite !app_length; cbn; lia. }
  assert (C3 : forall b c r', r = b :: c :: r' -> u8_cont (pre ++ a :: r) (length pre + 3) = match r' with [] => Throw ETruncatedUtf
    | b :: _ => if (128 <=? b) && (b <? 192) then Ok b else Throw EInvalidUtf end).
  { intros b c r' ->. inversion Hr as [|? ? ? Hr2]; subst. inversion Hr2; subst.
    rewrite app2, app2, app2. apply u8_cont_spec; auto. rewrite !app_length; cbn; lia. }
  destruct (a <? 128) eqn:E1.
  { split; [|discriminate]. cbn [firstn u8_val]. rewrite land_7f_sweep by auto. reflexivity. }
  destruct ((192 <=? a) && (a <? 224)) eqn:E2.
  { unfold u8_next2. rewrite C1. destruct r as [|b r]; cbn [bind].
    - split; [reflexivity|eauto].
    - destruct ((128 <=? b) && (b <? 192)) eqn:E3; cbn [bind].
      + split; [|discriminate]. cbn [firstn u8_val]. rewrite val2 by (unfold cont_byte; lia). reflexivity.
      + split; [reflexivity|eauto]. }
  destruct ((224 <=? a) && (a <? 240)) eqn:E3.
  { unfold u8_next3. rewrite C1. destruct r as [|b r]; cbn [bind].
    - split; [reflexivity|eauto].
    - destruct ((128 <=? b) && (b <? 192)) eqn:E4; cbn [bind].
      + rewrite (C2 b r) by auto. destruct r as [|c r]; cbn [bind andb].
        * split; [reflexivity|eauto].
        * destruct ((128 <=? c) && (c <? 192)) eqn:E5; cbn [bind andb].
          -- split; [|discriminate]. cbn [firstn u8_val]. rewrite val3 by (unfold cont_byte; lia). reflexivity.
          -- split; [reflexivity|eauto].
      + split; [destruct r; reflexivity|eauto]. }
  destruct ((240 <=? a) && (a <? 248)) eqn:E4.
  { unfold u8_next4. rewrite C1. destruct r as [|b r]; cbn [bind].
    - split; [reflexivity|eauto].
    - destruct ((128 <=? b) && (b <? 192)) eqn:E5; cbn [bind].
      + rewrite (C2 b r) by auto. destruct r as [|c r]; cbn [bind andb].
        * split; [reflexivity|eauto].
        * destruct ((128 <=? c) && (c <? 192)) eqn:E6; cbn [bind andb].
          -- rewrite (C3 b c r) by auto. destruct r as [|d r]; cbn [bind andb].
             ++ split; [reflexivity|eauto].
             ++ destruct ((128 <=? d) && (d <? 192)) eqn:E7; cbn [bind andb].
                ** split; [|discriminate]. cbn [firstn u8_val]. rewrite val4 by (unfold cont_byte; lia). reflexivity.
                ** split; [reflexivity|eauto].
          -- split; [destruct r; reflexivity|eauto].
      + split; [destruct r as [|? [|? ?]]; reflexivity|eauto]. }
  split; [reflexivity|eauto].
Qed.

Lemma firstn_len_app A (p q : list A) : firstn (length p) (p ++ q) = p.
Proof. induction p; cbn; congruence. Qed.

Lemma u8_shape_nonempty c : u8_shape c -> (1 <= length c)%nat.
Proof. destruct c; cbn; [tauto|lia]. Qed.

Lemma u8_next_nil pre e ch :
  u8_next pre {| u_it := length pre; u_end := e; u_char := ch |}
  = Ok {| u_it := length pre; u_end := e; u_char := ch |}.
Proof. unfold u8_next; cbn [u_it]. rewrite Nat.eqb_refl. reflexivity. Qed.

Lemma u8_next_chunk pre chunk post e ch : u8_shape chunk -> Forall is_byte (chunk ++ post) ->
  u8_next (pre ++ chunk ++ post) {| u_it := length pre; u_end := e; u_char := ch |}
  = Ok {| u_it := length pre; u_end := length pre + length chunk; u_char := u8_val chunk |}.
Proof.
  intros Hs Hb. destruct (u8_next_spec pre (chunk ++ post) e ch Hb) as [H _].
  rewrite H. clear H. rewrite u8_prefix_shape by auto. rewrite firstn_len_app.
  destruct (chunk ++ post) eqn:E; auto. destruct chunk; [destruct Hs|discriminate].
Qed.

(** *** The whole buffer *)
Definition u8_go (buf : list N) (fuel : nat) (st : uin) : res (list N) :=
  do s <- u8_next buf st; u_collect (u8_incr buf) (length buf) fuel s.

Lemma u8_cancel chunk post chunks : u8_shape chunk -> Forall u8_shape chunks ->
  chunk ++ post = concat chunks -> exists chunks', chunks = chunk :: chunks' /\ post = concat chunks'.
Proof.
  intros Hs E2 E1. pose proof (u8_shape_nonempty _ Hs).
  destruct chunks as [|c1 chunks].
  { cbn in E1. destruct chunk; cbn in *; [lia|discriminate]. }
  cbn in E1. inversion E2; subst.
  assert (L : length chunk = length c1).
  { assert (X : Some (length chunk) = Some (length c1)); [|inversion X; auto].
    rewrite <- (u8_prefix_shape chunk post), <- (u8_prefix_shape c1 (concat chunks)) by auto.
    congruence. }
  assert (chunk = c1).
  { pose proof (f_equal (firstn (length chunk)) E1) as F. rewrite firstn_len_app, L, firstn_len_app in F. auto. }
  subst c1. apply app_inv_head in E1. eauto.
Qed.

Lemma u8_go_correct fuel : forall pre rest e ch, Forall is_byte rest ->
  (length rest <= fuel)%nat ->
  match u8_go (pre ++ rest) fuel {| u_it := length pre; u_end := e; u_char := ch |} with
  | Ok cs => exists chunks, rest = concat chunks /\ Forall u8_shape chunks /\ cs = map u8_val chunks
  | Throw _ => ~ exists chunks, rest = concat chunks /\ Forall u8_shape chunks
  | UB => False
  | Fuel => False
  end.
Proof.
  induction fuel as [|fuel IH]; intros pre rest e ch Hb Hf.
  - destruct rest; cbn in Hf; [|lia]. unfold u8_go. rewrite app_nil_r, u8_next_nil. cbn.
    rewrite Nat.eqb_refl. exists []; auto.
  - destruct rest as [|x rest0].
    { unfold u8_go. rewrite app_nil_r, u8_next_nil. cbn [bind u_collect u_it].
      rewrite Nat.eqb_refl. exists []; auto. }
    remember (x :: rest0) as rest. destruct (u8_prefix rest) as [n|] eqn:Ep.
    + destruct (u8_prefix_some _ _ Ep) as (chunk & post & E & Hl & Hs).
      pose proof (u8_shape_nonempty _ Hs) as Hne.
      rewrite E in Hb, Hf |- *. unfold u8_go. rewrite u8_next_chunk by auto.
      cbn [bind u_collect u_it]. rewrite !app_length in *.
      destruct (Nat.eqb_spec (length pre) (length pre + (length chunk + length post))); [lia|].
      specialize (IH (pre ++ chunk) post (length (pre ++ chunk)) (u8_val chunk)).
      unfold u8_go in IH. rewrite <- app_assoc, !app_length in IH.
      unfold u8_incr at 1. cbn [u_end u_char].
      apply Forall_app in Hb. destruct Hb as [Hb1 Hb2].
      specialize (IH Hb2 ltac:(lia)).
      destruct (u8_next _ _) as [s'| | |] eqn:En; cbn [bind] in *; auto.
      * destruct (u_collect _ _ _ s') as [l| | |]; cbn [bind]; auto.
        -- destruct IH as (chunks & E1 & E2 & E3). exists (chunk :: chunks). cbn. subst.
           repeat split; auto.
        -- intros (chunks & E1 & E2). apply IH.
           destruct (u8_cancel _ _ _ Hs E2 E1) as (chunks' & -> & ->). inversion E2; subst; eauto.
      * intros (chunks & E1 & E2). apply IH.
        destruct (u8_cancel _ _ _ Hs E2 E1) as (chunks' & -> & ->). inversion E2; subst; eauto.
    + destruct (u8_next_spec pre rest e ch Hb) as [_ H].
      destruct H as [er Her]; auto; [subst; discriminate|].
      unfold u8_go. rewrite Her. cbn [bind].
      intros (chunks & E1 & E2). destruct chunks as [|c1 chunks]; [subst; discriminate|].
      inversion E2; subst c1. cbn in E1. rewrite E1, u8_prefix_shape in Ep by auto. discriminate.
Qed.

Theorem u8_decode_total buf : Forall is_byte buf ->
  match u8_decode buf with
  | Ok cs => exists chunks, buf = concat chunks /\ Forall u8_shape chunks /\ cs = map u8_val chunks
  | Throw _ => ~ exists chunks, buf = concat chunks /\ Forall u8_shape chunks
  | _ => False
  end.
Proof. intros H. exact (u8_go_correct (length buf) [] buf 0 0 H (le_n _)). Qed.

Lemma utf8_shape c : c <= 0x10ffff -> u8_shape (utf8 c) /\ Forall is_byte (utf8 c) /\ u8_val (utf8 c) = c.
Proof.
  intros H. unfold utf8.
  destruct (N.ltb_spec c 128); [|destruct (N.ltb_spec c 2048); [|destruct (N.ltb_spec c 65536)]];
    unfold is_byte; cbn [u8_shape u8_val]; unfold cont_byte.
  all: split; [lia|split; [repeat constructor; lia|lia]].
Qed.

Lemma chunks_unique cs1 : forall cs2, Forall u8_shape cs1 -> Forall u8_shape cs2 ->
  concat cs1 = concat cs2 -> cs1 = cs2.
Proof.
  induction cs1 as [|c1 cs1 IH]; intros [|c2 cs2] H1 H2 E; auto.
  - inversion H2; subst. apply u8_shape_nonempty in H3. destruct c2; cbn in *; [lia|discriminate].
  - inversion H1; subst. apply u8_shape_nonempty in H3. destruct c1; cbn in *; [lia|discriminate].
  - inversion H1; subst. inversion H2; subst. cbn in E.
    assert (L : length c1 = length c2).
    { assert (X : Some (length c1) = Some (length c2)); [|inversion X; auto].
      rewrite <- (u8_prefix_shape c1 (concat cs1)), <- (u8_prefix_shape c2 (concat cs2)) by auto. congruence. }
    assert (E1 : c1 = c2).
    { apply (f_equal (firstn (length c1))) in E. rewrite firstn_len_app, L, firstn_len_app in E. auto. }
    subst c2. apply app_inv_head in E. f_equal. auto.
Qed.

Lemma Forall_concat' A (P : A -> Prop) ls : Forall (Forall P) ls -> Forall P (concat ls).
Proof. induction 1; cbn; auto. apply Forall_app; auto. Qed.

Theorem u8_decode_correct cps : Forall (fun c => c <= 0x10ffff) cps ->
  u8_decode (concat (map utf8 cps)) = Ok cps.
Proof.
  intros H.
  assert (Hs : Forall u8_shape (map utf8 cps)).
  { apply Forall_map. eapply Forall_impl; [|exact H]. intros; apply utf8_shape; auto. }
  assert (Hb : Forall is_byte (concat (map utf8 cps))).
  { apply Forall_concat'. apply Forall_map. eapply Forall_impl; [|exact H]. intros; apply utf8_shape; auto. }
  pose proof (u8_decode_total _ Hb) as T.
  destruct (u8_decode (concat (map utf8 cps))); try tauto.
  - destruct T as (chunks & E1 & E2 & E3). f_equal.
    apply chunks_unique in E1; auto. subst.
    rewrite map_map. clear -H. induction H; cbn; auto. rewrite IHForall. f_equal.
    apply utf8_shape; auto.
  - exfalso. apply T. eauto.
Qed.

(** *** operator- *)
Lemma u8_back_conts pre a cs : forall post,
  Forall cont_byte cs -> is_byte a -> ~ cont_byte a ->
  u8_back (pre ++ a :: cs ++ post) (length pre + length cs) = Ok (length pre).
Proof.
  induction cs as [|c cs IH] using rev_ind; intros post Hc Ha Hn.
  - cbn [app length]. rewrite Nat.add_0_r.
    assert (D : deref (pre ++ a :: post) (length pre) = Ok a) by (apply deref_app; auto).
    destruct (length pre); cbn [u8_back]; rewrite D; cbn [bind]; rewrite land_c0 by auto;
      destruct (_ && _) eqn:E; auto; unfold cont_byte in Hn; lia.
  - apply Forall_app in Hc. destruct Hc as [Hc1 Hc2]. inversion Hc2; subst.
    rewrite app_length, Nat.add_assoc. cbn [length]. rewrite Nat.add_1_r. cbn [u8_back].
    rewrite <- app_assoc. cbn [app].
    assert (D : deref (pre ++ a :: cs ++ c :: post) (S (length pre + length cs)) = Ok c).
    { change (a :: cs ++ c :: post) with ((a :: cs) ++ c :: post). rewrite app_assoc.
      apply deref_app. rewrite app_length; cbn; lia. }
    rewrite D. cbn [bind]. rewrite land_c0 by (unfold cont_byte in *; lia).
    destruct (_ && _) eqn:E; [|unfold cont_byte in *; lia].
    apply (IH (c :: post)); auto.
Qed.

Lemma u8_shape_split chunk : u8_shape chunk ->
  exists a cs, chunk = a :: cs /\ ~ cont_byte a /\ Forall cont_byte cs.
Proof.
  unfold u8_shape. destruct chunk as [|a [|b [|c [|d [|? ?]]]]]; try tauto; intros H.
  all: eexists; eexists; split; [reflexivity|]; split; [unfold cont_byte in *; lia|].
  all: repeat (apply Forall_cons; [tauto|]); apply Forall_nil.
Qed.

(** From the position after [chunk], [it - 1] is the iterator on [chunk]. *)
Lemma u8_minus_one pre chunk post e ch :
  u8_shape chunk -> Forall is_byte (chunk ++ post) ->
  u8_minus (pre ++ chunk ++ post)
    {| u_it := length (pre ++ chunk); u_end := e; u_char := ch |} 1
  = Ok {| u_it := length pre; u_end := length (pre ++ chunk); u_char := u8_val chunk |}.
Proof.
  intros Hs Hb. destruct (u8_shape_split _ Hs) as (a & cs & E & Hn & Hc).
  unfold u8_minus. cbn [u8_minus_loop u_it].
  assert (L : length (pre ++ chunk) = S (length pre + length cs)).
  { rewrite app_length, E; cbn; lia. }
  rewrite L. rewrite E at 1. cbn [app].
  rewrite u8_back_conts; auto.
  2:{ rewrite E in Hb. inversion Hb; auto. }
  cbn [bind u_char]. rewrite u8_next_chunk by auto. f_equal. f_equal. rewrite E; cbn; lia.
Qed.

Theorem u8_minus_undoes_incr pre chunk post :
  Forall u8_shape pre -> u8_shape chunk -> Forall u8_shape post ->
  Forall is_byte (concat pre ++ chunk ++ concat post) ->
  let buf := concat pre ++ chunk ++ concat post in
  exists s s' s'',
    u8_begin buf (length (concat pre)) = Ok s /\
    u8_incr buf s = Ok s' /\ u8_minus buf s' 1 = Ok s'' /\
    u_it s'' = u_it s /\ u_end s'' = u_end s /\ u_char s'' = u_char s /\ u_it s' <> u_it s.
Proof.
  intros Hpre Hs Hpost Hb buf. subst buf.
  apply Forall_app in Hb. destruct Hb as [_ Hb].
  pose proof (u8_shape_nonempty _ Hs) as Hne.
  assert (N1 : exists e ch, u8_next (concat pre ++ chunk ++ concat post)
     {| u_it := length (concat pre) + length chunk; u_end := length (concat pre) + length chunk;
        u_char := u8_val chunk |}
     = Ok {| u_it := length (concat pre) + length chunk; u_end := e; u_char := ch |}).
  { rewrite <- app_length, app_assoc. destruct post as [|c2 post].
    - cbn [concat]. rewrite app_nil_r, u8_next_nil. eauto.
    - cbn [concat]. inversion Hpost; subst.
      apply Forall_app in Hb. rewrite u8_next_chunk; [eauto|auto|apply Hb]. }
  destruct N1 as (e & ch & N1).
  eexists. eexists. eexists. split; [unfold u8_begin; apply u8_next_chunk; auto|].
  split; [unfold u8_incr; cbn [u_end u_char]; exact N1|].
  split; [rewrite <- app_length; apply u8_minus_one; auto|].
  cbn [u_it u_end u_char]. rewrite app_length. repeat split; lia.
Qed.

(** *** Output iterators *)
Section Out.
  Variable len : N -> nat.
  Variable enc : N -> list N -> list N.
  Variable spec : N -> list N.
  Variable ok : N -> Prop.
  Variable w : nat.
  Hypothesis Hlen : forall c, ok c -> len c = length (spec c).
  Hypothesis Hpos : forall c, ok c -> (1 <= length (spec c) <= w)%nat.
  Hypothesis Henc : forall c old, ok c -> length old = w ->
    length (enc c old) = w /\ forall k x, nth_error (spec c) k = Some x -> nth_error (enc c old) k = Some x.

  Lemma uo_collect_correct : forall rest pre fuel bytes cnt idx,
    Forall ok rest -> length bytes = w -> (w * length rest <= fuel)%nat ->
    (do s <- uo_next len enc (pre ++ rest)
       {| o_it := length pre; o_bytes := bytes; o_count := cnt; o_index := idx |};
     uo_collect len enc (pre ++ rest) fuel s) = Ok (concat (map spec rest)).
  Proof.
    induction rest as [|c rest IH]; intros pre fuel bytes cnt idx Hok Hw Hf.
    - unfold uo_next; cbn [o_it]. rewrite app_nil_r, Nat.eqb_refl. cbn [bind map concat].
      destruct fuel; cbn; rewrite Nat.eqb_refl; reflexivity.
    - pose proof (Forall_inv Hok) as Hc. pose proof (Forall_inv_tail Hok) as Hrest. unfold uo_next; cbn [o_it o_bytes].
      rewrite app_length; cbn [length].
      destruct (Nat.eqb_spec (length pre) (length pre + S (length rest))); [lia|].
      rewrite deref_app by auto. cbn [bind].
      destruct (Henc c bytes Hc Hw) as [Hw' Hget].
      specialize (Hlen c Hc). specialize (Hpos c Hc). rewrite Hlen.
      set (bs := enc c bytes) in *. clearbody bs.
      (* inner loop over the remaining bytes of c *)
      assert (G : forall m k fuel, (k + m = length (spec c))%nat -> (1 <= m)%nat ->
         (w * length rest + m <= fuel)%nat ->
         uo_collect len enc (pre ++ c :: rest) fuel
           {| o_it := length pre; o_bytes := bs; o_count := length (spec c); o_index := k |}
         = Ok (skipn k (spec c) ++ concat (map spec rest))).
      { clear Hf fuel. induction m as [|m IHm]; intros k fuel Hk Hm Hf; [lia|].
        destruct fuel as [|fuel]; [lia|]. cbn [uo_collect o_it].
        rewrite app_length; cbn [length].
        destruct (Nat.eqb_spec (length pre) (length pre + S (length rest))); [lia|].
        destruct (nth_error (spec c) k) as [x|] eqn:Ex; [|apply nth_error_None in Ex; lia].
        unfold uo_deref; cbn [o_bytes o_index]. rewrite (Hget _ _ Ex). cbn [of_opt bind].
        assert (Esk : skipn k (spec c) = x :: skipn (S k) (spec c)).
        { clear -Ex. revert k Ex. induction (spec c) as [|y l IHl]; intros [|k] Ex; cbn in *; try discriminate.
          - inversion Ex; auto.
          - apply IHl in Ex. rewrite Ex. destruct l; auto. }
        unfold uo_incr; cbn [o_index o_count o_it o_bytes].
        destruct (Nat.leb_spec (length (spec c)) (S k)).
        - assert (m = 0)%nat by lia. subst m.
          specialize (IH (pre ++ [c]) fuel bs (length (spec c)) (S k) Hrest Hw' ltac:(lia)).
          rewrite <- app_assoc in IH. cbn [app] in IH. rewrite app_length, Nat.add_1_r in IH.
          destruct (uo_next _ _ _ _) as [s'| | |]; cbn [bind] in *; try discriminate.
          rewrite IH. cbn [bind]. rewrite Esk, skipn_all2 by lia. reflexivity.
        - cbn [bind]. rewrite (IHm (S k) fuel) by lia. cbn [bind]. rewrite Esk. reflexivity. }
      rewrite (G (length (spec c)) 0%nat fuel); try lia; [reflexivity|].
      cbn [length] in Hf. nia.
  Qed.
End Out.

Lemma lor_c0 x : x < 32 -> byte (N.lor x 0xc0) = 192 + x.
Proof.
  intros H. apply N.eqb_eq.
  assert (forall b, b < 256 -> (negb (b <? 32) || (byte (N.lor b 0xc0) =? 192 + b)) = true)
    by (apply byte_sweep; vm_compute; reflexivity).
  specialize (H0 x ltac:(lia)). lia.
Qed.
Lemma lor_e0 x : x < 16 -> byte (N.lor x 0xe0) = 224 + x.
Proof.
  intros H. apply N.eqb_eq.
  assert (forall b, b < 256 -> (negb (b <? 16) || (byte (N.lor b 0xe0) =? 224 + b)) = true)
    by (apply byte_sweep; vm_compute; reflexivity).
  specialize (H0 x ltac:(lia)). lia.
Qed.
Lemma lor_f0 x : x < 8 -> byte (N.lor x 0xf0) = 240 + x.
Proof.
  intros H. apply N.eqb_eq.
  assert (forall b, b < 256 -> (negb (b <? 8) || (byte (N.lor b 0xf0) =? 240 + b)) = true)
    by (apply byte_sweep; vm_compute; reflexivity).
  specialize (H0 x ltac:(lia)). lia.
Qed.
Lemma lor_80 x : x < 64 -> byte (N.lor x 0x80) = 128 + x.
Proof.
  intros H. apply N.eqb_eq.
  assert (forall b, b < 256 -> (negb (b <? 64) || (byte (N.lor b 0x80) =? 128 + b)) = true)
    by (apply byte_sweep; vm_compute; reflexivity).
  specialize (H0 x ltac:(lia)). lia.
Qed.

Theorem u8_encode_correct cps junk : Forall (fun c => c <= 0x10ffff) cps -> length junk = 4%nat ->
  u8_encode cps junk = Ok (concat (map utf8 cps)).
Proof.
  intros H Hj. unfold u8_encode, uo_begin.
  apply (uo_collect_correct u8_olen u8_obytes utf8 (fun c => c <= 0x10ffff) 4) with (pre := []); auto.
  - intros c Hc. unfold u8_olen, utf8.
    destruct (c <? 128); [|destruct (c <? 2048); [|destruct (c <? 65536)]]; reflexivity.
  - intros c Hc. unfold utf8.
    destruct (c <? 128); [|destruct (c <? 2048); [|destruct (c <? 65536)]]; cbn; lia.
  - intros c old Hc Hold. destruct old as [|o0 [|o1 [|o2 [|o3 [|? ?]]]]]; try discriminate.
    unfold u8_obytes, u8_olen, utf8.
    destruct (N.ltb_spec c 0x80); [|destruct (N.ltb_spec c 0x800); [|destruct (N.ltb_spec c 0x10000)]];
      cbn [upd length]; split; auto; intros k x Hx; rewrite ?land_3f, ?shr6, ?shr12, ?shr18;
      rewrite ?lor_c0, ?lor_e0, ?lor_f0, ?lor_80 by lia.
    + destruct k as [|[|k]]; cbn in *; auto; try discriminate. unfold byte. rewrite land_ff.
      rewrite N.mod_small by lia. auto.
    + destruct k as [|[|[|k]]]; cbn in *; auto; try discriminate.
    + destruct k as [|[|[|[|k]]]]; cbn in *; auto; try discriminate.
    + destruct k as [|[|[|[|[|k]]]]]; cbn in *; auto; try discriminate.
Qed.

(** *** UTF-16 *)
Definition u16_val (l : list N) : N :=
  match l with
  | [a] => a
  | [a; b] => (a - 0xd800) * 1024 + (b - 0xdc00) + 0x10000
  | _ => 0
  end.

Definition u16_prefix (rest : list N) : option nat :=
  match rest with
  | [] => None
  | a :: r =>
    if (a <? 0xd800) || (0xdfff <? a) then Some 1%nat
    else if 0xdbff <? a then None
    else match r with
         | b :: _ => if (b <? 0xdc00) || (0xdfff <? b) then None else Some 2%nat
         | [] => None
         end
  end.

Lemma u16_prefix_shape chunk post : u16_shape chunk -> u16_prefix (chunk ++ post) = Some (length chunk).
Proof.
  unfold u16_shape. destruct chunk as [|a [|b [|? ?]]]; try tauto; intros H; cbn [app u16_prefix length].
  all: repeat match goal with |- context [if ?x then _ else _] =>
         destruct x eqn:?; try lia; try reflexivity end.
Qed.

Lemma u16_prefix_some rest n : u16_prefix rest = Some n ->
  exists chunk post, rest = chunk ++ post /\ length chunk = n /\ u16_shape chunk.
Proof.
  destruct rest as [|a r]; [discriminate|]. unfold u16_prefix.
  destruct ((a <? 0xd800) || (0xdfff <? a)) eqn:E1; [intros H; inversion H; exists [a], r; cbn; repeat split; lia|].
  destruct (0xdbff <? a) eqn:E2; [discriminate|].
  destruct r as [|b r]; [discriminate|]. destruct ((b <? 0xdc00) || (0xdfff <? b)) eqn:E3; [discriminate|].
  intros H; inversion H; exists [a; b], r; cbn; repeat split; lia.
Qed.

Lemma u16_next_nil pre e ch :
  u16_next pre {| u_it := length pre; u_end := e; u_char := ch |}
  = Ok {| u_it := length pre; u_end := e; u_char := ch |}.
Proof. unfold u16_next; cbn [u_it]. rewrite Nat.eqb_refl. reflexivity. Qed.

Lemma u16_next_cons pre a r e ch :
  u16_next (pre ++ a :: r) {| u_it := length pre; u_end := e; u_char := ch |} =
  match u16_prefix (a :: r) with
  | Some n => Ok {| u_it := length pre; u_end := length pre + n; u_char := u16_val (firstn n (a :: r)) |}
  | None => if 0xdbff <? a then Throw EInvalidUtf
            else match r with [] => Throw ETruncatedUtf | _ => Throw EInvalidUtf end
  end.
Proof.
  unfold u16_next; cbn [u_it]. rewrite app_length; cbn [length].
  destruct (Nat.eqb_spec (length pre) (length pre + S (length r))); [lia|].
  rewrite deref_app by auto. cbn [bind u16_prefix].
  destruct ((a <? 0xd800) || (0xdfff <? a)) eqn:E1; [reflexivity|].
  destruct (0xdbff <? a) eqn:E2; [reflexivity|].
  destruct r as [|b r].
  - cbn [length]. rewrite Nat.eqb_refl. reflexivity.
  - cbn [length]. destruct (Nat.eqb_spec (length pre + 1) (length pre + S (S (length r)))); [lia|].
    assert (D : deref (pre ++ a :: b :: r) (length pre + 1) = Ok b).
    { rewrite app2. apply deref_app. rewrite app_length; cbn; lia. }
    rewrite D. cbn [bind]. destruct ((b <? 0xdc00) || (0xdfff <? b)) eqn:E3; [reflexivity|].
    cbn [firstn u16_val]. rewrite shl10, lor10 by lia. reflexivity.
Qed.

Lemma u16_next_chunk pre chunk post e ch : u16_shape chunk ->
  u16_next (pre ++ chunk ++ post) {| u_it := length pre; u_end := e; u_char := ch |}
  = Ok {| u_it := length pre; u_end := length pre + length chunk; u_char := u16_val chunk |}.
Proof.
  intros Hs. destruct chunk as [|a chunk]; [destruct Hs|].
  cbn [app]. rewrite u16_next_cons.
  change (a :: chunk ++ post) with ((a :: chunk) ++ post).
  rewrite u16_prefix_shape by auto. rewrite firstn_len_app. reflexivity.
Qed.

Lemma u16_shape_nonempty c : u16_shape c -> (1 <= length c)%nat.
Proof. destruct c; cbn; [tauto|lia]. Qed.

Definition u16_go (buf : list N) (fuel : nat) (st : uin) : res (list N) :=
  do s <- u16_next buf st; u_collect (u16_incr buf) (length buf) fuel s.

Lemma u16_cancel chunk post chunks : u16_shape chunk -> Forall u16_shape chunks ->
  chunk ++ post = concat chunks -> exists chunks', chunks = chunk :: chunks' /\ post = concat chunks'.
Proof.
  intros Hs E2 E1. pose proof (u16_shape_nonempty _ Hs).
  destruct chunks as [|c1 chunks].
  { cbn in E1. destruct chunk; cbn in *; [lia|discriminate]. }
  cbn in E1. inversion E2; subst.
  assert (L : length chunk = length c1).
  { assert (X : Some (length chunk) = Some (length c1)); [|inversion X; auto].
    rewrite <- (u16_prefix_shape chunk post), <- (u16_prefix_shape c1 (concat chunks)) by auto.
    congruence. }
  assert (chunk = c1).
  { pose proof (f_equal (firstn (length chunk)) E1) as F. rewrite firstn_len_app, L, firstn_len_app in F. auto. }
  subst c1. apply app_inv_head in E1. eauto.
Qed.

Lemma u16_go_correct fuel : forall pre rest e ch,
  (length rest <= fuel)%nat ->
  match u16_go (pre ++ rest) fuel {| u_it := length pre; u_end := e; u_char := ch |} with
  | Ok cs => exists chunks, rest = concat chunks /\ Forall u16_shape chunks /\ cs = map u16_val chunks
  | Throw _ => ~ exists chunks, rest = concat chunks /\ Forall u16_shape chunks
  | UB => False
  | Fuel => False
  end.
Proof.
  induction fuel as [|fuel IH]; intros pre rest e ch Hf.
  - destruct rest; cbn in Hf; [|lia]. unfold u16_go. rewrite app_nil_r, u16_next_nil. cbn.
    rewrite Nat.eqb_refl. exists []; auto.
  - destruct rest as [|x rest0].
    { unfold u16_go. rewrite app_nil_r, u16_next_nil. cbn [bind u_collect u_it].
      rewrite Nat.eqb_refl. exists []; auto. }
    destruct (u16_prefix (x :: rest0)) as [n|] eqn:Ep.
    + destruct (u16_prefix_some _ _ Ep) as (chunk & post & E & Hl & Hs).
      pose proof (u16_shape_nonempty _ Hs) as Hne.
      rewrite E in Hf |- *. unfold u16_go. rewrite u16_next_chunk by auto.
      cbn [bind u_collect u_it]. rewrite !app_length in *.
      destruct (Nat.eqb_spec (length pre) (length pre + (length chunk + length post))); [lia|].
      specialize (IH (pre ++ chunk) post (length (pre ++ chunk)) (u16_val chunk)).
      unfold u16_go in IH. rewrite <- app_assoc, !app_length in IH.
      unfold u16_incr at 1. cbn [u_end u_char].
      specialize (IH ltac:(lia)).
      destruct (u16_next _ _) as [s'| | |] eqn:En; cbn [bind] in *; auto.
      * destruct (u_collect _ _ _ s') as [l| | |]; cbn [bind]; auto.
        -- destruct IH as (chunks & E1 & E2 & E3). exists (chunk :: chunks). cbn. subst.
           repeat split; auto.
        -- intros (chunks & E1 & E2). apply IH.
           destruct (u16_cancel _ _ _ Hs E2 E1) as (chunks' & -> & ->). inversion E2; subst; eauto.
      * intros (chunks & E1 & E2). apply IH.
        destruct (u16_cancel _ _ _ Hs E2 E1) as (chunks' & -> & ->). inversion E2; subst; eauto.
    + unfold u16_go. rewrite u16_next_cons, Ep.
      assert (X : ~ exists chunks, x :: rest0 = concat chunks /\ Forall u16_shape chunks).
      { intros (chunks & E1 & E2). destruct chunks as [|c1 chunks]; [discriminate|].
        inversion E2; subst. cbn in E1. rewrite E1, u16_prefix_shape in Ep by auto. discriminate. }
      destruct (0xdbff <? x); [exact X|]. destruct rest0; exact X.
Qed.

Theorem u16_decode_total buf :
  match u16_decode buf with
  | Ok cs => exists chunks, buf = concat chunks /\ Forall u16_shape chunks /\ cs = map u16_val chunks
  | Throw _ => ~ exists chunks, buf = concat chunks /\ Forall u16_shape chunks
  | _ => False
  end.
Proof. exact (u16_go_correct (length buf) [] buf 0 0 (le_n _)). Qed.

Lemma utf16_shape c : scalar c -> u16_shape (utf16 c) /\ u16_val (utf16 c) = c.
Proof.
  unfold scalar. intros H. unfold utf16.
  destruct (N.ltb_spec c 65536); cbn [u16_shape u16_val]; lia.
Qed.

Lemma chunks16_unique cs1 : forall cs2, Forall u16_shape cs1 -> Forall u16_shape cs2 ->
  concat cs1 = concat cs2 -> cs1 = cs2.
Proof.
  induction cs1 as [|c1 cs1 IH]; intros cs2 H1 H2 E.
  - destruct cs2 as [|c2 cs2]; auto. inversion H2; subst. apply u16_shape_nonempty in H3.
    destruct c2; cbn in *; [lia|discriminate].
  - inversion H1; subst. destruct (u16_cancel _ _ _ H3 H2 E) as (cs2' & -> & E').
    inversion H2; subst. f_equal; auto.
Qed.

Theorem u16_decode_correct cps : Forall scalar cps ->
  u16_decode (concat (map utf16 cps)) = Ok cps.
Proof.
  intros H.
  assert (Hs : Forall u16_shape (map utf16 cps)).
  { apply Forall_map. eapply Forall_impl; [|exact H]. intros; apply utf16_shape; auto. }
  pose proof (u16_decode_total (concat (map utf16 cps))) as T.
  destruct (u16_decode (concat (map utf16 cps))); try tauto.
  - destruct T as (chunks & E1 & E2 & E3). f_equal.
    apply chunks16_unique in E1; auto. subst.
    rewrite map_map. clear -H. induction H; cbn; auto. rewrite IHForall. f_equal.
    apply utf16_shape; auto.
  - exfalso. apply T. eauto.
Qed.

Theorem u16_encode_correct cps junk : Forall (fun c => c <= 0x10ffff) cps -> length junk = 2%nat ->
  u16_encode cps junk = Ok (concat (map utf16 cps)).
Proof.
  intros H Hj. unfold u16_encode, uo_begin.
  apply (uo_collect_correct u16_olen u16_ochars utf16 (fun c => c <= 0x10ffff) 2) with (pre := []); auto.
  - intros c Hc. unfold u16_olen, utf16.
    destruct (N.ltb_spec 0xffff c), (N.ltb_spec c 0x10000); try lia; reflexivity.
  - intros c Hc. unfold utf16. destruct (c <? 65536); cbn; lia.
  - intros c old Hc Hold. destruct old as [|o0 [|o1 [|? ?]]]; try discriminate.
    unfold u16_ochars, u16_olen, utf16.
    destruct (N.ltb_spec 0xffff c), (N.ltb_spec c 0x10000); try lia;
      cbn [upd length]; split; auto; intros k x Hx; rewrite ?land_3ff, ?land_ffff, ?shr10.
    + destruct k as [|[|[|k]]]; cbn in *; auto; try discriminate.
      * inversion Hx. f_equal. lia.
      * inversion Hx. f_equal. lia.
    + destruct k as [|[|k]]; cbn in *; auto; try discriminate. inversion Hx. f_equal. lia.
Qed.

Lemma u16_minus_one pre chunk post e ch :
  u16_shape chunk ->
  u16_minus (pre ++ chunk ++ post)
    {| u_it := length (pre ++ chunk); u_end := e; u_char := ch |} 1
  = Ok {| u_it := length pre; u_end := length (pre ++ chunk); u_char := u16_val chunk |}.
Proof.
  intros Hs. unfold u16_minus. destruct chunk as [|a [|b [|? ?]]]; try destruct Hs as [].
  - assert (L : length (pre ++ [a]) = S (length pre)) by (rewrite app_length; cbn; lia).
    rewrite L. cbn [u16_minus_loop u_it]. cbn [app]. rewrite deref_app by auto. cbn [bind].
    destruct (_ && _) eqn:E; [lia|]. cbn [bind u_char].
    change (pre ++ a :: post) with (pre ++ [a] ++ post). rewrite u16_next_chunk by (cbn; lia).
    f_equal. f_equal. cbn; lia.
  - assert (L : length (pre ++ [a]) = S (length pre)) by (rewrite app_length; cbn; lia).
    rewrite L. cbn [u16_minus_loop u_it]. cbn [app]. rewrite deref_app by auto. cbn [bind].
    destruct (_ && _) eqn:E; [lia|]. cbn [bind u_char].
    change (pre ++ a :: post) with (pre ++ [a] ++ post). rewrite u16_next_chunk by (cbn; lia).
    f_equal. f_equal. cbn; lia.
  - assert (L : length (pre ++ [a; b]) = S (S (length pre))) by (rewrite app_length; cbn; lia).
    rewrite L. cbn [u16_minus_loop u_it].
    assert (D : deref (pre ++ [a; b] ++ post) (S (length pre)) = Ok b).
    { cbn [app]. rewrite app2. apply deref_app. rewrite app_length; cbn; lia. }
    rewrite D. cbn [bind].
    destruct (_ && _) eqn:E; [|lia]. cbn [bind u_char].
    rewrite u16_next_chunk by (cbn; auto).
    f_equal. f_equal. cbn; lia.
Qed.

(** *** flip *)
Lemma upd_app A (p : list A) x q v : upd (p ++ x :: q) (length p) v = p ++ v :: q.
Proof. induction p; cbn; congruence. Qed.

Lemma flip_loop_rev fuel : forall p m q,
  (length m <= 2 * fuel + 1)%nat ->
  flip_loop fuel (p ++ m ++ q) (length p) (length p + length m - 1) = Ok (p ++ rev m ++ q).
Proof.
  induction fuel as [|fuel IH]; intros p m q Hf.
  - destruct m as [|a [|b m]]; cbn [length] in *; try lia; cbn [flip_loop];
      destruct (Nat.ltb_spec (length p) (length p + 0 - 1)); try lia; auto;
      destruct (Nat.ltb_spec (length p) (length p + 1 - 1)); try lia; auto.
  - cbn [flip_loop].
    destruct m as [|a m]; [cbn [length] in *;
      destruct (Nat.ltb_spec (length p) (length p + 0 - 1)); [lia|reflexivity]|].
    destruct m as [|b m] using rev_ind; [cbn [length] in *;
      destruct (Nat.ltb_spec (length p) (length p + 1 - 1)); [lia|reflexivity]|].
    clear IHm. cbn [length] in *. rewrite app_length in *. cbn [length] in *.
    destruct (Nat.ltb_spec (length p) (length p + S (length m + 1) - 1)); [|lia].
    unfold swap_at.
    assert (E1 : p ++ (a :: m ++ [b]) ++ q = (p ++ a :: m) ++ b :: q).
    { repeat (rewrite <- app_assoc; cbn [app]). reflexivity. }
    assert (E2 : p ++ (a :: m ++ [b]) ++ q = p ++ a :: (m ++ b :: q)).
    { cbn [app]. repeat (rewrite <- app_assoc; cbn [app]). reflexivity. }
    assert (Ni : nth (length p) (p ++ (a :: m ++ [b]) ++ q) 0 = a).
    { rewrite E2, app_nth2, Nat.sub_diag by lia. reflexivity. }
    assert (Nj : nth (length p + S (length m + 1) - 1) (p ++ (a :: m ++ [b]) ++ q) 0 = b).
    { rewrite E1. replace (length p + S (length m + 1) - 1)%nat with (length (p ++ a :: m))
        by (rewrite app_length; cbn; lia).
      rewrite app_nth2, Nat.sub_diag by lia. reflexivity. }
    rewrite Ni, Nj. rewrite E2, upd_app.
    replace (p ++ b :: m ++ b :: q) with ((p ++ b :: m) ++ b :: q)
      by (rewrite <- !app_assoc; reflexivity).
    replace (length p + S (length m + 1) - 1)%nat with (length (p ++ b :: m)) at 1
        by (rewrite app_length; cbn; lia).
    rewrite upd_app.
    specialize (IH (p ++ [b]) m (a :: q)).
    rewrite !app_length in IH; cbn [length] in IH.
    replace (length p + S (length m + 1) - 1 - 1)%nat with (length p + 1 + length m - 1)%nat by lia.
    replace (S (length p)) with (length p + 1)%nat by lia.
    replace ((p ++ b :: m) ++ a :: q) with ((p ++ [b]) ++ m ++ a :: q)
      by (rewrite <- !app_assoc; reflexivity).
    rewrite IH by lia. f_equal. cbn. rewrite rev_app_distr. cbn.
    rewrite <- !app_assoc. reflexivity.
Qed.

Theorem flip_bytes_rev l : flip_bytes l = Ok (rev l).
Proof.
  unfold flip_bytes. pose proof (flip_loop_rev (length l) [] l []) as H.
  rewrite !app_nil_r in H. cbn in H. apply H. lia.
Qed.

Lemma to_bytes_length w v : length (to_bytes w v) = w.
Proof. revert v; induction w; intros; cbn; auto. Qed.
Lemma to_bytes_byte w v : Forall is_byte (to_bytes w v).
Proof. revert v; induction w; intros; cbn [to_bytes]; constructor; auto. unfold is_byte. lia. Qed.
Lemma of_to_bytes w v : v < 256 ^ N.of_nat w -> of_bytes (to_bytes w v) = v.
Proof.
  revert v; induction w as [|w IH]; intros v H; cbn [to_bytes of_bytes].
  - change (256 ^ N.of_nat 0) with 1 in H. lia.
  - rewrite IH; [lia|]. rewrite Nat2N.inj_succ, N.pow_succ_r' in H.
    apply N.div_lt_upper_bound; [discriminate|exact H].
Qed.
Lemma to_of_bytes l : Forall is_byte l -> to_bytes (length l) (of_bytes l) = l.
Proof.
  induction 1 as [|b l Hb Hl IH]; cbn [length to_bytes of_bytes]; auto. unfold is_byte in Hb.
  f_equal.
  - lia.
  - replace ((b + 256 * of_bytes l) / 256) with (of_bytes l) by lia. exact IH.
Qed.

Theorem flip_involutive w v : v < 256 ^ N.of_nat w ->
  exists u, flip w v = Ok u /\ to_bytes w u = rev (to_bytes w v) /\ flip w u = Ok v.
Proof.
  intros H. unfold flip. rewrite flip_bytes_rev. cbn [bind].
  exists (of_bytes (rev (to_bytes w v))). split; [reflexivity|].
  assert (E : to_bytes w (of_bytes (rev (to_bytes w v))) = rev (to_bytes w v)).
  { rewrite <- (to_bytes_length w v) at 1. rewrite <- rev_length. apply to_of_bytes.
    apply Forall_rev. apply to_bytes_byte. }
  split; [exact E|]. rewrite E, flip_bytes_rev, rev_involutive. cbn [bind].
  rewrite of_to_bytes by auto. reflexivity.
Qed.

Lemma u16_round_trip cps junk : Forall scalar cps -> length junk = 2%nat ->
  (do us <- u16_encode cps junk; u16_decode us) = Ok cps.
Proof.
  intros H Hj. rewrite u16_encode_correct; auto.
  - cbn [bind]. apply u16_decode_correct; auto.
  - eapply Forall_impl; [|exact H]. intros c Hc. unfold scalar in Hc. cbv beta. lia.
Qed.
