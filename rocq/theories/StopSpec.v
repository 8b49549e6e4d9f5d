(** Where a rule with one abstemious repeat of characters stops. Nothing here
    refers to the generator or its tables. *)
From Verif Require Import Base StringToken StringTokenSpec RegexSpec StateMachine ReToken DfaSpec Grammar
  Tree Parser Generator Build Lookup TableSpec LookupSpec RuleSpec BuildSpec LazySpec LoopSpec.
Local Open Scope N_scope.

(** The text of a sequence of character classes. *)
Definition reads (ts : list token) (cs : list N) : Prop := Forall2 (fun t c => mem c (tk_str t)) ts cs.
(** The texts of such a rule. *)
Definition loop_text (X bs Y : list token) (cs : list N) : Prop :=
  exists u v w, cs = u ++ v ++ w /\ reads X u /\
    Forall (fun c => exists t, In t bs /\ mem c (tk_str t)) v /\ reads Y w.

(** Rule [x] of [rs] has the form of LoopSpec and is the first one that matches from
    [p] to [q]; no other rule matches a text that goes on with the next character. *)
Definition rstops (rs : list grule) (inp : list N) (bol : bool) (p q : nat) (x : grule) : Prop :=
  exists i, nth_error rs i = Some x /\ loop_rule x /\ rmatch x bol (text_of inp p q) /\
    (forall j r', (j < i)%nat -> nth_error rs j = Some r' -> ~ rmatch r' bol (text_of inp p q)) /\
    forall c j r' cs, nth_error inp q = Some c -> j <> i -> nth_error rs j = Some r' ->
      ~ rmatch r' bol (text_of inp p q ++ c :: cs).

(** As [rtakes], and no such rule is passed by. *)
Definition rtakes_stop (rs : list grule) (inp : list N) (bol : bool) (p : nat) (x : grule) (q : nat) : Prop :=
  rtakes rs inp bol p x q /\ forall q1 y, (p <= q1 < q)%nat -> ~ rstops rs inp bol p q1 y.

Definition rhits_stop (k : cfg) (R : grules) (inp : list N) (r : results) (x : grule) (q : nat) : Prop :=
  exists rs, rules_of R (r_state r) rs /\
    (rtakes_stop rs inp (f_bol k && r_bol r) (r_second r) x q \/
     (rnone rs inp (f_bol k && r_bol r) (r_second r) /\ q = r_second r /\
      rfirst_match rs false [] x)).
Definition rlex_stop (k : cfg) (R : grules) (inp : list N) :=
  rlooks k R inp (rhits_stop k R inp) (rmisses k R inp).
