(* Model of memory_file.hpp (the POSIX branch).

   The operating system is modelled as far as the class uses it: the set of
   descriptors in use and the pages of memory that are mapped, with their
   bytes. What a call of open(), fstat() or mmap() answers is part of the
   operation ([reply]), so every call may fail, and files may change between
   calls. A file does not change while it is mapped (simplification). *)
From Coq Require Import ZArith NArith List Bool Arith Lia.
From Verif Require Import Base.
Import ListNotations.

(* The choices of the system: page size, the descriptor open() gives when some
   are in use, the page where mmap() puts so many pages when some are in use. *)
Record os := {
  os_page : nat;
  os_fd : list nat -> nat;
  os_place : list nat -> nat -> nat }.

(* Descriptors in use; mapped pages with their bytes. *)
Record world := { w_fds : list nat; w_mem : list (nat * list N) }.

(* What the system answers during one call of open(): whether ::open, ::fstat
   and ::mmap succeed, and the bytes of the file. *)
Record reply := { re_open : bool; re_stat : bool; re_map : bool; re_bytes : list N }.

(* memory_file.hpp:145-153: _data (a page), _size, _fh *)
Record mfile := { mf_data : option nat; mf_size : nat; mf_fh : Z }.

(* memory_file.hpp:30 *)
Definition mf_new : mfile := {| mf_data := None; mf_size := 0; mf_fh := 0%Z |}.

Definition sys_open (o : os) (w : world) (r : reply) : Z * world :=
  if re_open r then
    let d := os_fd o (w_fds w) in
    (Z.of_nat d, {| w_fds := d :: w_fds w; w_mem := w_mem w |})
  else ((-1)%Z, w).

(* ::close; on -1 it fails with EBADF *)
Definition sys_close (w : world) (fh : Z) : world :=
  if (fh <? 0)%Z then w
  else {| w_fds := filter (fun d => negb (Nat.eqb d (Z.to_nat fh))) (w_fds w); w_mem := w_mem w |}.

Definition pages (o : os) (n : nat) : nat := (n + os_page o - 1) / os_page o.

(* the bytes of page i of a mapped file, filled up with zeros *)
Definition page_bytes (o : os) (bs : list N) (i : nat) : list N :=
  firstn (os_page o) (skipn (i * os_page o) bs ++ repeat 0%N (os_page o)).

(* ::mmap; a length of 0 is an error (EINVAL) *)
Definition sys_mmap (o : os) (w : world) (r : reply) : option nat * world :=
  if re_map r && Nat.ltb 0 (length (re_bytes r)) then
    let n := pages o (length (re_bytes r)) in
    let a := os_place o (map fst (w_mem w)) n in
    (Some a, {| w_fds := w_fds w;
                w_mem := map (fun i => (a + i, page_bytes o (re_bytes r) i)) (seq 0 n) ++ w_mem w |})
  else (None, w).

(* ::munmap; all pages that hold one of the [len] bytes; a length of 0 is an error *)
Definition sys_munmap (o : os) (w : world) (a len : nat) : world :=
  if Nat.eqb len 0 then w
  else {| w_fds := w_fds w;
          w_mem := filter (fun p => negb (Nat.leb a (fst p) && Nat.ltb (fst p) (a + pages o len))) (w_mem w) |}.

(* memory_file.hpp:112-143 *)
Definition mf_close (o : os) (w : world) (m : mfile) : world * mfile :=
  let w1 := match mf_data m with
            | Some a => sys_munmap o w a (mf_size m)                 (* 119 *)
            | None => w
            end in
  let size := match mf_data m with Some _ => 0 | None => mf_size m end in
  let w2 := if (mf_fh m =? 0)%Z then w1 else sys_close w1 (mf_fh m) in (* 136-137 *)
  (w2, {| mf_data := None; mf_size := size; mf_fh := 0%Z |}).

(* memory_file.hpp:48-100; sz is sizeof(char_type) *)
Definition mf_open (o : os) (sz : nat) (r : reply) (w : world) (m : mfile) : world * mfile :=
  let x := match mf_data m with Some _ => mf_close o w m | None => (w, m) end in (* 50-53 *)
  let m1 := snd x in
  let y := sys_open o (fst x) r in                                   (* 77 *)
  if (-1 <? fst y)%Z then
    if re_stat r then                                                (* 83 *)
      match sys_mmap o (snd y) r with                                (* 85-87 *)
      | (None, w2) => (w2, {| mf_data := None; mf_size := mf_size m1; mf_fh := fst y |})
      | (Some a, w2) =>
        (w2, {| mf_data := Some a; mf_size := length (re_bytes r) / sz; mf_fh := fst y |})
      end
    else (snd y, {| mf_data := mf_data m1; mf_size := mf_size m1; mf_fh := fst y |})
  else (snd y, {| mf_data := mf_data m1; mf_size := mf_size m1; mf_fh := fst y |}).

(* Programs work on numbered objects; the destructor (42-45) is close(). *)
Inductive mop := MOpen (x : nat) (r : reply) | MClose (x : nat).

Definition objects := nat -> mfile.

Definition set_obj (os : objects) (x : nat) (m : mfile) : objects :=
  fun y => if Nat.eqb y x then m else os y.

Definition mexec (o : os) (sz : nat) (s : world * objects) (p : mop) : world * objects :=
  match p with
  | MOpen x r => let y := mf_open o sz r (fst s) (snd s x) in (fst y, set_obj (snd s) x (snd y))
  | MClose x => let y := mf_close o (fst s) (snd s x) in (fst y, set_obj (snd s) x (snd y))
  end.

Definition mrun (o : os) (sz : nat) (w : world) (ps : list mop) : world * objects :=
  fold_left (mexec o sz) ps (w, fun _ => mf_new).

(* Reading the byte at offset i behind page a; None: the page is not mapped. *)
Fixpoint find_page (p : nat) (l : list (nat * list N)) : option (list N) :=
  match l with
  | [] => None
  | (q, bs) :: l' => if Nat.eqb q p then Some bs else find_page p l'
  end.

Definition read_byte (o : os) (w : world) (a i : nat) : option N :=
  match find_page (a + i / os_page o) (w_mem w) with
  | Some bs => nth_error bs (i mod os_page o)
  | None => None
  end.
