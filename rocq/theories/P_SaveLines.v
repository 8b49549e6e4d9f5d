(** C23: the layout of what save() writes. *)
From Verif Require Import Base StateMachine Serialise SaveLines.
Local Open Scope N_scope.

(** The numbers of a vector follow its size in lines of at most 80 characters,
    and a line ends only where the next number does not fit. *)
Theorem C23_saved_lines : forall bytes vec, 2 <= bytes -> Forall (fun v => v < 2 ^ 64) vec ->
  exists g gs, vec = g ++ concat gs /\
    output_vec bytes vec = dec (N.of_nat (List.length vec)) ++ nl :: line_of g ++ concat (map (fun h => nl :: line_of h) gs) ++ [nl] /\
    len (line_of g) <= 80 /\ filled (len (line_of g)) gs /\ forall h, In h (g :: gs) -> ~ In nl (line_of h).
Proof. exact saved_lines. Qed.
Print Assumptions C23_saved_lines.

(** Seventeen numbers: sixteen of four digits fill a line of exactly 80. *)
Example C23_lines_case : Forall (fun v => v < 2 ^ 64) (repeat 1000 16 ++ [7]) /\
  output_vec 2 (repeat 1000 16 ++ [7]) = dec 17 ++ nl :: line_of (repeat 1000 16) ++ nl :: line_of [7] ++ [nl] /\
  len (line_of (repeat 1000 16)) = 80.
Proof. split; [repeat (apply Forall_cons; [reflexivity|]); apply Forall_nil|]. split; vm_compute; reflexivity. Qed.
