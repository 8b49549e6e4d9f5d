(** The errors the regex parser can report. *)
From Verif Require Import Base StringToken StateMachine Slice ReToken Tree Partition Generator Parser Build.
Local Open Scope N_scope.

Definition perr (e : err) : Prop := e = ESyntax \/ e = EInternal.
Definition pthrows {A} (x : res A) : Prop := forall e, x = Throw e -> perr e.

Lemma pt_ok A (a : A) : pthrows (Ok a).
Proof. intros e [=]. Qed.
Lemma pt_ub A : pthrows (UB : res A).
Proof. intros e [=]. Qed.
Lemma pt_fuel A : pthrows (Fuel : res A).
Proof. intros e [=]. Qed.
Lemma pt_syn A : pthrows (Throw ESyntax : res A).
Proof. intros e [= <-]. now left. Qed.
Lemma pt_int A : pthrows (Throw EInternal : res A).
Proof. intros e [= <-]. now right. Qed.
Lemma pt_bind A B (x : res A) (f : A -> res B) : pthrows x -> (forall a, pthrows (f a)) -> pthrows (bind x f).
Proof. intros H1 H2 e. destruct x as [a|e'| |]; cbn; try discriminate; [apply H2|]. intros [= <-]. now apply H1. Qed.
#[local] Hint Resolve pt_ok pt_ub pt_fuel pt_syn pt_int : core.
Ltac pt := repeat first [progress auto | apply pt_bind; [|intros] | match goal with
  | |- pthrows (match ?x with _ => _ end) => destruct x end ].

Lemma pt_follow s ps fs : pthrows (append_follows s ps fs). Proof. unfold append_follows. pt. Qed.
Lemma pt_greedy s ps g : pthrows (set_greedies s ps g). Proof. unfold set_greedies. pt. Qed.
#[local] Hint Resolve pt_follow pt_greedy : core.
Lemma pt_mkseq l r s : pthrows (mk_seq l r s). Proof. unfold mk_seq. pt. Qed.
Lemma pt_mkiter n g s : pthrows (mk_iter n g s). Proof. unfold mk_iter. pt. Qed.
#[local] Hint Resolve pt_mkseq pt_mkiter : core.
Lemma pt_copy_leaf s n : pthrows (copy_leaf s n). Proof. unfold copy_leaf. pt. Qed.
Lemma pt_rebuild a b c : pthrows (rebuild a b c). Proof. unfold rebuild. pt. Qed.
#[local] Hint Resolve pt_copy_leaf pt_rebuild : core.
Lemma pt_copy_step a b c : pthrows (copy_step a b c). Proof. unfold copy_step. pt. Qed.
#[local] Hint Resolve pt_copy_step : core.
Lemma pt_copy_loop f : forall c, pthrows (copy_loop f c).
Proof. induction f as [|f IH]; intros c; cbn [copy_loop]; pt. Qed.
Lemma pt_copy n s : pthrows (copy n s). Proof. apply pt_copy_loop. Qed.
#[local] Hint Resolve pt_copy : core.
Lemma pt_tseq t : pthrows (t_sequence t). Proof. unfold t_sequence. pt. Qed.
Lemma pt_tor t : pthrows (t_or t). Proof. unfold t_or. pt. Qed.
Lemma pt_topt g t : pthrows (t_optional g t). Proof. unfold t_optional. pt. Qed.
Lemma pt_tstar g t : pthrows (t_star g t). Proof. unfold t_star. pt. Qed.
Lemma pt_tplus g t : pthrows (t_plus g t). Proof. unfold t_plus. pt. Qed.
#[local] Hint Resolve pt_tseq pt_tor pt_topt pt_tstar pt_tplus : core.
Lemma pt_rep_step p t : pthrows (rep_step p t). Proof. unfold rep_step. pt. Qed.
#[local] Hint Resolve pt_rep_step : core.
Lemma pt_rep_steps n : forall p t, pthrows (rep_steps n p t).
Proof. induction n as [|n IH]; intros p t; cbn [rep_steps]; pt. Qed.
#[local] Hint Resolve pt_rep_steps : core.
Lemma pt_on_prev op p t : (forall x, pthrows (op x)) -> pthrows (on_prev op p t).
Proof. intros H. unfold on_prev. pt. Qed.
#[local] Hint Resolve pt_on_prev : core.
Lemma pt_repeat g a b c t : pthrows (t_repeat g a b c t). Proof. unfold t_repeat. pt. Qed.
#[local] Hint Resolve pt_repeat : core.
Lemma pt_repeatn g e t : pthrows (p_repeatn g e t). Proof. unfold p_repeatn. pt. Qed.
#[local] Hint Resolve pt_repeatn : core.
Lemma pt_on_tree op s : (forall x, pthrows (op x)) -> pthrows (on_tree op s).
Proof. intros H. unfold on_tree. pt. Qed.
#[local] Hint Resolve pt_on_tree : core.
Lemma pt_dup op s : (forall x, pthrows (op x)) -> pthrows (dup_op op s).
Proof. intros H. unfold dup_op. pt. Qed.
#[local] Hint Resolve pt_dup : core.
Lemma pt_data2 k d s : pthrows (push_data2 k d s). Proof. unfold push_data2. pt. Qed.
Lemma pt_data3 k d s : pthrows (push_data3 k d s). Proof. unfold push_data3. pt. Qed.
#[local] Hint Resolve pt_data2 pt_data3 : core.
Lemma pt_more D (pd : D -> pstate -> res pstate) : (forall d s, pthrows (pd d s)) ->
  forall ds s, pthrows (push_more pd ds s).
Proof. intros H. induction ds as [|d ds IH]; intros s; cbn [push_more]; pt. Qed.
#[local] Hint Resolve pt_more : core.
Lemma pt_ranges D (pd : D -> pstate -> res pstate) ds s : (forall d s, pthrows (pd d s)) -> pthrows (push_ranges pd ds s).
Proof. intros H. unfold push_ranges. pt. Qed.
#[local] Hint Resolve pt_ranges : core.
Lemma pt_charset k t s : pthrows (p_charset k t s). Proof. unfold p_charset, create_sequence. pt. Qed.
#[local] Hint Resolve pt_charset : core.
Lemma pt_handle : forall st h, pthrows (pop_handle st h).
Proof. induction st as [|r st IH]; intros h; cbn [pop_handle]; pt. Qed.
#[local] Hint Resolve pt_handle : core.
Lemma pt_reduce k s : pthrows (reduce k s). Proof. unfold reduce. pt. Qed.
Lemma pt_fetch it : pthrows (fetch it). Proof. unfold fetch. pt. Qed.
#[local] Hint Resolve pt_reduce pt_fetch : core.
Lemma pt_pstep k c : pthrows (pstep k c). Proof. unfold pstep. pt. Qed.
#[local] Hint Resolve pt_pstep : core.
Lemma pt_ploop f k : forall c, pthrows (ploop f k c).
Proof. induction f as [|f IH]; intros c; cbn [ploop]; pt. Qed.
#[local] Hint Resolve pt_ploop : core.
Lemma pt_is_bol k s p : pthrows (is_bol k s p). Proof. unfold is_bol. pt. Qed.
#[local] Hint Resolve pt_is_bol : core.
Lemma pt_any_bol k s ps : pthrows (any_bol k s ps). Proof. induction ps as [|p ps IH]; cbn [any_bol]; pt. Qed.
#[local] Hint Resolve pt_any_bol : core.
Lemma pt_fixup k r s : pthrows (fixup_bol k r s). Proof. unfold fixup_bol. pt. Qed.
#[local] Hint Resolve pt_fixup : core.
Lemma pt_parse k r e b s : pthrows (parse k r e b s). Proof. unfold parse. pt. Qed.
#[local] Hint Resolve pt_parse : core.
Lemma pt_rest k seen : forall rs root u s, pthrows (build_rest k seen rs root u s).
Proof. induction rs as [|r rs IH]; intros; cbn [build_rest]; pt. Qed.
#[local] Hint Resolve pt_rest : core.
Lemma build_tree_errs k g u st e : build_tree k g u st = Throw e -> perr e.
Proof. revert e. change (pthrows (build_tree k g u st)). unfold build_tree. pt. Qed.
