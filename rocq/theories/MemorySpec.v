(* What memory_file is expected to do. *)
From Verif Require Import Base MemoryFile.

(* The system gives descriptors and pages that are not in use; pages have
   bytes, and no mapping is at address 0. *)
Record os_ok (o : os) : Prop := {
  oo_page : 0 < os_page o;
  oo_fd : forall used, ~ In (os_fd o used) used;
  oo_place : forall used n, 0 < os_place o used n /\
               forall i, i < n -> ~ In (os_place o used n + i) used }.

(* The bytes an object shows after a call of open() that got these answers. *)
Definition offered (r : reply) : option (list N) :=
  match re_bytes r with
  | [] => None
  | _ => if re_open r && re_stat r && re_map r then Some (re_bytes r) else None
  end.

(* The bytes object x has to show after some calls: those its last call gave. *)
Definition showing (x : nat) (ps : list mop) : option (list N) :=
  fold_left (fun cur p => match p with
                          | MOpen y r => if Nat.eqb y x then offered r else cur
                          | MClose y => if Nat.eqb y x then None else cur
                          end) ps None.

(* An open() that either finds no file or maps it. *)
Definition all_or_none (p : mop) : Prop :=
  match p with
  | MOpen _ r => re_open r = false \/ offered r <> None
  | MClose _ => True
  end.

(* What an object shows: null and size 0, or these bytes, sz to a character. *)
Definition shows_bytes (o : os) (sz : nat) (w : world) (m : mfile) (e : option (list N)) : Prop :=
  match e with
  | None => mf_data m = None /\ mf_size m = 0
  | Some bs => exists a, mf_data m = Some a /\ 0 < a /\ mf_size m = length bs / sz /\
                 forall i, i < length bs -> read_byte o w a i = nth_error bs i
  end.
