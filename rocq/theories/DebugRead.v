(** The tokeniser reads the text of a class as the class. *)
From Verif Require Import Base StringToken StringTokenSpec GenCpp ReToken ReTokeniser Rules Debug RuleSpec Grammar TokeniseSpec
  SourceSpec SourceClass SourceAll DebugSpec DebugText DebugClass DebugLines.
Local Open Scope N_scope.

Theorem class_read_back b fl ms t rule : f_icase fl = false -> f_skip_ws fl = false ->
  wf t -> t <> [] -> bounded (top b) t -> legible (top b) t [] ->
  exists text w r, dump_charset (top b) 16 t = Ok text /\ tokenise b fl ms text rule = Ok [between w] /\ gram GRegex r w /\
    forall u, clang r u /\ known b u <-> exists c, u = [CChar c] /\ StringTokenSpec.mem c t.
Proof.
  intros IC SW W NE B L. destruct (charset_reads b fl true [] t IC SW W NE B L) as (text & P & E & S & M).
  assert (H : regex_means b [] fl text (SSet P)) by (apply sr_regex, sr_seq, sr_expr, sr_atom, as_atom; exact S).
  assert (SM : small b text).
  { pose proof (top_big b) as T. change (top b) with (max_char b) in T. eapply Forall_impl; [|exact (charset_visible _ 16 _ _ ltac:(lia) E)]. unfold visible. intros c. lia. }
  destruct (source_tokenise b [] fl ms text _ rule (mtable_nil b ms) H SM) as (w & r & T & G & LN & _).
  exists text, w, r. split; [exact E|]. split; [exact T|]. split; [exact G|]. intros u. rewrite <- LN. cbn [slang].
  split; [intros (c & Hc & ->)|intros (c & -> & Hc)]; exists c; (split; [|]); try reflexivity; now apply M.
Qed.
