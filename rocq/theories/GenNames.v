(** Numbers and names in the generated text. *)
From Verif Require Import Base StateMachine Lookup GenCpp.
Local Open Scope N_scope.

(** What a compiler reads: the value of a digit and of a number in base [b]. *)
Definition undigit (c : N) : N := if c <? 58 then c - 48 else c - 87.
Definition read (b : N) (l : list N) : N := fold_left (fun a c => a * b + undigit c) l 0.

Lemma undigit_digit d : d < 16 -> undigit (digit d) = d.
Proof.
  intros H. unfold undigit, digit. destruct (N.ltb_spec d 10).
  - destruct (N.ltb_spec (48 + d) 58); lia.
  - destruct (N.ltb_spec (87 + d) 58); lia.
Qed.
Lemma read_digits b : 2 <= b <= 16 -> forall f n acc a, n < b ^ N.of_nat f -> (0 < f)%nat ->
  exists l, digits f b n acc = l ++ acc /\ fold_left (fun a c => a * b + undigit c) l a = a * b ^ N.of_nat (length l) + n /\ (1 <= length l)%nat.
Proof.
  intros B. induction f as [|f IH]; intros n acc a H F; [lia|]. cbn [digits]. destruct (N.ltb_spec n b) as [L|L].
  - exists [digit n]. split; [reflexivity|]. cbn [fold_left length]. rewrite undigit_digit by lia. change (N.of_nat 1) with 1. rewrite N.pow_1_r. split; [reflexivity|lia].
  - assert (0 < f)%nat. { destruct f; [|lia]. change (N.of_nat 1) with 1 in H. rewrite N.pow_1_r in H. lia. }
    assert (D : n / b < b ^ N.of_nat f).
    { apply N.div_lt_upper_bound; [lia|]. rewrite <- N.pow_succ_r by lia. replace (N.succ (N.of_nat f)) with (N.of_nat (S f)) by lia. exact H. }
    destruct (IH (n / b) (digit (n mod b) :: acc) a D ltac:(lia)) as (l & E & V & LL). exists (l ++ [digit (n mod b)]). split; [rewrite E, <- app_assoc; reflexivity|].
    assert (M : n mod b < b) by (apply N.mod_upper_bound; lia).
    rewrite fold_left_app, V. cbn [fold_left]. rewrite undigit_digit by lia. rewrite app_length. cbn [length]. split; [|lia].
    replace (N.of_nat (length l + 1)) with (N.succ (N.of_nat (length l))) by lia. rewrite N.pow_succ_r by lia.
    pose proof (N.div_mod n b ltac:(lia)). nia.
Qed.
Theorem read_print b n : 2 <= b <= 16 -> read b (print b n) = n.
Proof.
  intros B. unfold read, print. destruct (read_digits b B (S (N.to_nat (N.log2 n))) n [] 0) as (l & E & V & _); [|lia|].
  - replace (N.of_nat (S (N.to_nat (N.log2 n)))) with (N.succ (N.log2 n)) by lia.
    apply N.lt_le_trans with (2 ^ N.succ (N.log2 n)); [|apply N.pow_le_mono_l; lia].
    destruct (N.eq_dec n 0) as [->|Z]; [reflexivity|]. apply N.log2_spec. lia.
  - rewrite E, app_nil_r, V. lia.
Qed.
Lemma print_inj b x y : 2 <= b <= 16 -> print b x = print b y -> x = y.
Proof. intros B E. rewrite <- (read_print b x B), <- (read_print b y B). now rewrite E. Qed.
Lemma print_small b n : n < b -> print b n = [digit n].
Proof. intros H. unfold print. cbn [digits]. destruct (N.ltb_spec n b); [reflexivity|lia]. Qed.

Theorem names_distinct dfas i j : i < dfas -> j < dfas -> declared_name dfas i = declared_name dfas j -> i = j.
Proof.
  intros Hi Hj. unfold declared_name. destruct (N.ltb_spec 1 dfas); [|lia]. intros E. cbn in E. injection E as E.
  apply app_inj_tail in E as (E & _). apply print_inj in E; lia.
Qed.
Theorem names_in_table dfas i : 1 < dfas -> table_name i = declared_name dfas i.
Proof. intros H. unfold table_name, declared_name. destruct (N.ltb_spec 1 dfas); [|lia]. destruct (N.eqb_spec i 0) as [->|]; reflexivity. Qed.
(** The names in the addresses are those of the declarations for up to ten dfas. *)
Theorem names_agree dfas : (forall i, i < dfas -> used_name dfas i = declared_name dfas i) <-> dfas <= 10.
Proof.
  split.
  - intros H. destruct (N.le_gt_cases dfas 10) as [L|L]; [exact L|]. specialize (H 10 L). unfold used_name, declared_name in H.
    destruct (N.ltb_spec 1 dfas); [|lia]. vm_compute in H. discriminate.
  - intros L i Hi. unfold used_name, declared_name. destruct (1 <? dfas); [|reflexivity]. now rewrite !print_small by lia.
Qed.
