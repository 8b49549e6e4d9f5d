(** Tokens that leave no round of a greedy repeat unread. Nothing here refers to
    the generator or its tables. *)
From Verif Require Import Base StringToken StringTokenSpec RegexSpec StateMachine ReToken DfaSpec Grammar
  Tree Parser Generator Build Lookup TableSpec LookupSpec RuleSpec BuildSpec LazySpec MarkSpec.

(** As [rtakes], and no rule goes on with a further round of a greedy repeat. *)
Definition rtakes_kept (rs : list grule) (inp : list N) (bol : bool) (p : nat) (x : grule) (q : nat) : Prop :=
  rtakes rs inp bol p x q /\ kept rs inp bol p q.
Definition rhits_kept (k : cfg) (R : grules) (inp : list N) (r : results) (x : grule) (q : nat) : Prop :=
  exists rs, rules_of R (r_state r) rs /\
    (rtakes_kept rs inp (f_bol k && r_bol r) (r_second r) x q \/
     (rnone rs inp (f_bol k && r_bol r) (r_second r) /\ q = r_second r /\
      rfirst_match rs false [] x)).
Definition rlex_kept (k : cfg) (R : grules) (inp : list N) :=
  rlooks k R inp (rhits_kept k R inp) (rmisses k R inp).
