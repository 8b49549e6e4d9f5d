(** What a lexer with abstemious repeats should do. Nothing here refers to the
    generator or its tables. *)
From Verif Require Import Base StringToken StringTokenSpec RegexSpec StateMachine ReToken DfaSpec Grammar
  Tree Parser Generator Build Lookup TableSpec LookupSpec RuleSpec BuildSpec.
Local Open Scope N_scope.

(** No rule with an abstemious repeat matches nothing, at the beginning of a line
    or elsewhere. *)
Definition lazy_nonempty (R : grules) : Prop :=
  forall gs x, In gs (gr_states R) -> In x (gs_rules gs) -> ~ eager x -> ~ natural x true [].

(** Rule [x] is the first one that matches from [p] to [q]; if its repeats are all
    greedy, no rule matches any longer text. *)
Definition rtakes (rs : list grule) (inp : list N) (bol : bool) (p : nat) (x : grule) (q : nat) : Prop :=
  (p < q <= length inp)%nat /\ rfirst_match rs bol (text_of inp p q) x /\
  (eager x -> rlongest rs inp bol p x q).

Definition rhits_lazy (k : cfg) (R : grules) (inp : list N) (r : results) (x : grule) (q : nat) : Prop :=
  exists rs, rules_of R (r_state r) rs /\
    (rtakes rs inp (f_bol k && r_bol r) (r_second r) x q \/
     (rnone rs inp (f_bol k && r_bol r) (r_second r) /\ q = r_second r /\
      rfirst_match rs false [] x)).

(** One call of lookup(); a character is passed over only if no rule matches. *)
Definition rlex_lazy (k : cfg) (R : grules) (inp : list N) :=
  rlooks k R inp (rhits_lazy k R inp) (rmisses k R inp).
