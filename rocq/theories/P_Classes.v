(** Properties C09-C12: character classes. *)
From Verif Require Import Base StringToken StringTokenSpec StringTokenProofs.
Local Open Scope N_scope.

(** C09: any sequence of range insertions gives exactly the union. *)
Theorem C09_insert_ranges_union : forall t rs,
  wf t -> Forall (fun r => fst r <= snd r) rs ->
  wf (fold_left insert rs t) /\
  forall c, mem c (fold_left insert rs t) <->
            mem c t \/ exists r, In r rs /\ fst r <= c <= snd r.
Proof. exact (fun t rs => inserts_correct rs t). Qed.
Print Assumptions C09_insert_ranges_union.

Theorem C09_insert_class_union : forall t u,
  wf t -> wf u ->
  wf (insert_token t u) /\ forall c, mem c (insert_token t u) <-> mem c t \/ mem c u.
Proof. exact insert_token_correct. Qed.
Print Assumptions C09_insert_class_union.

Example C09_nonvacuous :
  wf [(10, 20); (30, 40); (50, 60)] /\
  Forall (fun r => fst r <= snd r) [(21, 29); (0, 3); (39, 52)] /\
  fold_left insert [(21, 29); (0, 3); (39, 52)] [(10, 20); (30, 40); (50, 60)]
    = [(0, 3); (10, 60)].
Proof. split; [cbv; intuition discriminate|]. split; [|reflexivity]. repeat constructor; discriminate. Qed.

(** C10: complement. *)
Theorem C10_negate_complement : forall max t,
  wf t -> bounded max t ->
  wf (negate max t) /\ forall c, mem c (negate max t) <-> c <= max /\ ~ mem c t.
Proof. exact negate_correct. Qed.
Print Assumptions C10_negate_complement.

Theorem C10_negate_involutive : forall max t,
  wf t -> bounded max t -> negate max (negate max t) = t.
Proof. exact negate_negate. Qed.
Print Assumptions C10_negate_involutive.

Example C10_nonvacuous :
  wf [(0, 9); (12, 255)] /\ bounded 255 [(0, 9); (12, 255)] /\
  negate 255 [(0, 9); (12, 255)] = [(10, 11)].
Proof.
  split; [cbv; intuition discriminate|]. split; [|reflexivity].
  intros c Hc. rewrite !mem_cons, mem_nil in Hc. lia.
Qed.

(** C11: intersection and difference; also termination, with the bound on
    steps of the model's loops shown sufficient. *)
Theorem C11_intersect_exact : forall l r ov,
  wf l -> wf r -> wf ov ->
  exists l' r' ov', intersect l r ov = Ok (l', r', ov') /\
    wf l' /\ wf r' /\ wf ov' /\
    (forall c, mem c l' <-> mem c l /\ ~ mem c r) /\
    (forall c, mem c r' <-> mem c r /\ ~ mem c l) /\
    (forall c, mem c ov' <-> mem c ov \/ (mem c l /\ mem c r)).
Proof. exact intersect_correct. Qed.
Print Assumptions C11_intersect_exact.

Theorem C11_remove_exact : forall l r,
  wf l -> wf r ->
  exists l', remove l r = Ok l' /\ wf l' /\ (forall c, mem c l' <-> mem c l /\ ~ mem c r).
Proof. exact remove_correct. Qed.
Print Assumptions C11_remove_exact.

Example C11_nonvacuous :
  wf [(0, 50); (60, 90)] /\ wf [(10, 20); (40, 70)] /\
  intersect [(0, 50); (60, 90)] [(10, 20); (40, 70)] []
  = Ok ([(0, 9); (21, 39); (71, 90)], [(51, 59)], [(10, 20); (40, 50); (60, 70)]).
Proof. split; [cbv; intuition discriminate|]. split; [cbv; intuition discriminate|reflexivity]. Qed.

(** C12: equality of classes is equality of sets; every class built through
    the public operations is in normal form and inside the alphabet. *)
Theorem C12_equal_iff_same_characters : forall max t u,
  built max t -> built max u ->
  (st_eqb t u = true <-> forall c, mem c t <-> mem c u).
Proof. exact built_equal. Qed.
Print Assumptions C12_equal_iff_same_characters.

Theorem C12_built_normal_form : forall max t, built max t -> wf t /\ bounded max t.
Proof. exact built_wf. Qed.
Print Assumptions C12_built_normal_form.

Example C12_nonvacuous :
  built 255 [(97, 122)] /\ built 255 (negate 255 (negate 255 (insert (insert [] (98, 122)) (97, 97)))) /\
  st_eqb [(97, 122)] (negate 255 (negate 255 (insert (insert [] (98, 122)) (97, 97)))) = true.
Proof.
  split; [|split; [|reflexivity]].
  - apply (built_insert 255 [] 97 122); [constructor|lia|lia].
  - repeat constructor; lia.
Qed.
