(** Properties C34 and C35: lexertl::iterator and replace. *)
From Verif Require Import Base StateMachine Lookup TableSpec LookupSpec LookupThms LookupTile LookupCheck
  LookupDet Iterator IterProofs P_Lookup.
Local Open Scope N_scope.

(** One sequence of tokens belongs to each start. *)
Theorem C34_tokens_unique : forall k m inp r l, lexes k m inp r l -> forall l', lexes k m inp r l' -> l = l'.
Proof. exact lexes_det. Qed.
Print Assumptions C34_tokens_unique.

(** What the range yields is what repeated lookup returns before eoi. *)
Theorem C34_iterator_visits_tokens : forall k m inp n fuel inner start bol state l,
  mwf k m -> chars_ok k inp -> i_eoi m <> npos k -> no_row_id m (i_eoi m) ->
  rwf m inp (new_results k start bol state) ->
  visit_all n fuel inner k m inp start bol state = Ok (l, None) ->
  lexes k m inp (new_results k start bol state) l /\ Forall (fun r => r_id r <> i_eoi m) l.
Proof. intros k m inp n fuel inner start bol state l H1 H2. exact (visit_tokens k m inp H1 H2 n fuel inner start bol state l). Qed.
Print Assumptions C34_iterator_visits_tokens.

(** The range ends, on machines that make progress. *)
Theorem C34_iterator_ends : forall k m inp b fuel inner n start bol state,
  mwf k m -> chars_ok k inp -> no_empty_match k m -> eol_acyclic m b -> f_adv k = true -> f_rec k = false ->
  i_eoi m <> npos k -> rwf m inp (new_results k start bol state) ->
  (length inp < fuel)%nat -> (length inp * S b + b < inner)%nat -> (length inp + 2 <= n)%nat ->
  exists l, visit_all n fuel inner k m inp start bol state = Ok (l, None).
Proof.
  intros k m inp b fuel inner n start bol state H1 H2 H3 H4 H5 H6 H7 H8 H9 H10 H11.
  exact (visit_all_total k m inp H1 H2 b fuel inner H3 H4 H5 H6 H9 H10 n start bol state H7 H8 H11).
Qed.
Print Assumptions C34_iterator_ends.

(** With rules that join their text to the next token ("again") the range may
    also yield the result that reports the end of input, exactly when text was
    left to join. *)
Theorem C34_with_joining : forall k m inp n fuel inner start bol state l,
  mwf k m -> chars_ok k inp -> i_eoi m <> npos k -> rwf m inp (new_results k start bol state) ->
  visit_all n fuel inner k m inp start bol state = Ok (l, None) ->
  exists l' z, lexed k m inp (new_results k start bol state) l' z /\
    l = l' ++ (if Nat.eqb (r_first z) (length inp) then [] else [z]).
Proof. intros k m inp n fuel inner start bol state l H1 H2. exact (visit_all_spec k m inp H1 H2 n fuel inner start bol state l). Qed.
Print Assumptions C34_with_joining.

(** The machine [my] with a rule "c" that joins. *)
Definition kn : cfg := {| f_bol := true; f_eol := true; f_multi := true; f_rec := false;
                          f_adv := true; c_bytes := 1; c_bits := 16 |}.
Definition mj : internals :=
  {| i_eoi := 0; i_lookup := [lkx]; i_alphabet := [11]; i_features := 0;
     i_dfa := [[0;0;0;0;0;0;0; 0;0;0;0;
                0;0;0;0;0;0;0; 2;0;0;3;
                1;1;7;65535;0;0;0; 2;0;0;0;
                1;0;65535;65535;0;0;0; 0;0;0;0]] |}.
Theorem C34_again_refuted : exists k m inp l, mwf k m /\ chars_ok k inp /\ i_eoi m <> npos k /\
  no_empty_match k m /\ rwf m inp (new_results k 0 true 0) /\
  visit_all 9 9 99 k m inp 0 true 0 = Ok (l, None) /\ Exists (fun r => r_id r = i_eoi m) l.
Proof.
  exists kn, mj, [97; 99]. eexists. split; [apply mwfb_ok; vm_compute; reflexivity|].
  split; [repeat constructor|]. split; [discriminate|].
  split; [apply no_emptyb_ok; vm_compute; reflexivity|].
  split; [unfold rwf; split; [vm_compute; reflexivity|split; [constructor|cbn; lia]]|].
  split; [vm_compute; reflexivity|]. right; left. reflexivity.
Qed.
Print Assumptions C34_again_refuted.

Example C34_nonvacuous : mwf kx mx /\ no_row_id mx (i_eoi mx) /\ i_eoi mx <> npos kx /\
  (exists l, visit_all 9 9 99 kx mx [97; 97; 32; 98; 97] 0 true 0 = Ok (l, None) /\
     map (text [97; 97; 32; 98; 97]) l = [[97; 97]; [98]; [97]]) /\
  mwf kn my /\ no_empty_match kn my /\ eol_acyclic my 1 /\ f_adv kn = true /\ f_rec kn = false /\
  rwf my [97; 97] (new_results kn 0 true 0).
Proof.
  split; [exact kx_mwf|]. split; [apply no_row_id_check; vm_compute; reflexivity|]. split; [discriminate|].
  split; [eexists; split; vm_compute; reflexivity|].
  split; [apply mwfb_ok; vm_compute; reflexivity|].
  assert (H : no_empty_match kn my /\ eol_acyclic my 1) by (apply no_emptyb_ok; vm_compute; reflexivity).
  split; [apply H|]. split; [apply H|]. split; [reflexivity|]. split; [reflexivity|].
  unfold rwf; split; [vm_compute; reflexivity|split; [constructor|cbn; lia]].
Qed.

(** C35: the output is the input with the ranges of the tokens replaced. *)
Theorem C35_replace : forall k m inp n fuel inner f out t,
  mwf k m -> chars_ok k inp -> i_eoi m = 0 -> i_eoi m <> npos k -> no_row_id m (i_eoi m) ->
  rwf m inp (new_results k 0 true 0) ->
  replace n fuel inner k m inp f insert out = Ok t ->
  exists l, lexes k m inp (new_results k 0 true 0) l /\ ordered inp 0 l /\
    t = out ++ edit inp 0 (edits inp f l).
Proof. intros k m inp n fuel inner f out t H1 H2. exact (replace_spec k m inp H1 H2 n fuel inner f out t). Qed.
Print Assumptions C35_replace.

(** What is copied between two tokens was consumed by skip rules. *)
Theorem C35_gaps_are_skipped : forall k m inp r l, mwf k m -> chars_ok k inp ->
  no_row_id m (i_eoi m) -> no_join_stack m r -> rwf m inp r -> i_eoi m <> npos k ->
  lexes k m inp r l -> forall l1 t l2, l = l1 ++ t :: l2 ->
  exists r1, skipped k m inp (last l1 r) r1 /\ r_second r1 = r_first t.
Proof. intros k m inp r l H1 H2. exact (lexes_gaps k m inp H1 H2 r l). Qed.
Print Assumptions C35_gaps_are_skipped.

(** replace returns, whatever the map and the output iterator. *)
Theorem C35_replace_returns : forall k m inp b fuel inner f put n out,
  mwf k m -> chars_ok k inp -> no_empty_match k m -> eol_acyclic m b -> f_adv k = true -> f_rec k = false ->
  i_eoi m = 0 -> i_eoi m <> npos k -> rwf m inp (new_results k 0 true 0) ->
  (length inp < fuel)%nat -> (length inp * S b + b < inner)%nat -> (length inp < n)%nat ->
  exists t, replace n fuel inner k m inp f put out = Ok t.
Proof.
  intros k m inp b fuel inner f put n out H1 H2 H3 H4 H5 H6 H7 H8 H9 H10 H11 H12.
  exact (replace_total k m inp H1 H2 b fuel inner H3 H4 H5 H6 H10 H11 f put n out H7 H8 H9 H12).
Qed.
Print Assumptions C35_replace_returns.

(** A map without entries copies the input. *)
Theorem C35_empty_map_copies : forall inp f, (forall id, f id = None) -> forall l p, ordered inp p l ->
  edit inp p (edits inp f l) = skipn p inp.
Proof. exact edit_same. Qed.
Print Assumptions C35_empty_map_copies.

(** Text waiting to be joined at the end of the input is lost. *)
Theorem C35_again_refuted : exists k m inp t, mwf k m /\ chars_ok k inp /\ i_eoi m = 0 /\
  no_empty_match k m /\ rwf m inp (new_results k 0 true 0) /\
  replace 9 9 99 k m inp (map_format []) insert [] = Ok t /\ t <> inp.
Proof.
  exists kn, mj, [97; 99], [97]. split; [apply mwfb_ok; vm_compute; reflexivity|].
  split; [repeat constructor|]. split; [reflexivity|].
  split; [apply no_emptyb_ok; vm_compute; reflexivity|].
  split; [unfold rwf; split; [vm_compute; reflexivity|split; [constructor|cbn; lia]]|].
  split; [vm_compute; reflexivity|discriminate].
Qed.
Print Assumptions C35_again_refuted.

(** Through an output iterator that is not an inserter every piece is written to
    the same place. *)
Theorem C35_output_iterator_refuted : exists k m inp t, mwf k m /\ chars_ok k inp /\ i_eoi m = 0 /\
  no_empty_match k m /\ no_row_id m (i_eoi m) /\ rwf m inp (new_results k 0 true 0) /\
  replace 9 9 99 k m inp (map_format []) overwrite (repeat 0 (length inp)) = Ok t /\ t <> inp.
Proof.
  exists kn, my, [97; 98], [98; 0]. split; [apply mwfb_ok; vm_compute; reflexivity|].
  split; [repeat constructor|]. split; [reflexivity|].
  split; [apply no_emptyb_ok; vm_compute; reflexivity|].
  split; [apply no_row_id_check; vm_compute; reflexivity|].
  split; [unfold rwf; split; [vm_compute; reflexivity|split; [constructor|cbn; lia]]|].
  split; [vm_compute; reflexivity|discriminate].
Qed.
Print Assumptions C35_output_iterator_refuted.

(** A format string is also written for each character that no rule matches. *)
Theorem C35_unmatched_refuted : exists k m inp s t, mwf k m /\ no_row_id m (npos k) /\
  replace 9 9 99 k m inp (const_format s) insert [] = Ok t /\
  exists l r, lexes k m inp (new_results k 0 true 0) l /\ l = [r] /\ r_id r = npos k /\ t = s /\ t <> inp.
Proof.
  exists kn, my, [98], [120], [120]. split; [apply mwfb_ok; vm_compute; reflexivity|].
  split; [apply no_row_id_check; vm_compute; reflexivity|].
  split; [vm_compute; reflexivity|]. do 2 eexists. split.
  - eapply (lexes_tok _ _ _ 9 99); [vm_compute; reflexivity|discriminate|].
    eapply (lexes_end _ _ _ 9 99); [vm_compute; reflexivity|reflexivity].
  - split; [reflexivity|]. split; [reflexivity|]. split; [reflexivity|discriminate].
Qed.
Print Assumptions C35_unmatched_refuted.

(** Skip rule for spaces; a+ becomes "xy". *)
Example C35_nonvacuous : mwf kx mx /\ no_row_id mx (i_eoi mx) /\ i_eoi mx = 0 /\
  rwf mx [97; 97; 32; 98; 97] (new_results kx 0 true 0) /\
  replace 9 9 99 kx mx [97; 97; 32; 98; 97; 32] (map_format [(1, [120; 121])]) insert [] =
  Ok [120; 121; 32; 98; 120; 121; 32].
Proof.
  split; [exact kx_mwf|]. split; [apply no_row_id_check; vm_compute; reflexivity|]. split; [reflexivity|].
  split; [unfold rwf; split; [vm_compute; reflexivity|split; [constructor|cbn; lia]]|].
  vm_compute. reflexivity.
Qed.
