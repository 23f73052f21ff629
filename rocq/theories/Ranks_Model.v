(** Model of the splitting of MPI ranks (tools/split_mpi_communicators.cpp) and
    of the distribution of samples (optimization/MrHyDE_Sample_Set_Reader.hpp).

    MPI is modelled by its specification on rank lists: a communicator is the
    list of its world ranks in order of their rank in it. *)
From Coq Require Import List Arith Bool Reals.
From Verif Require Import Outcome.
Import ListNotations.

(** MPI_Comm_split(MPI_COMM_WORLD, color, key): all world ranks with the same
    colour, here with [key q = q], hence in increasing order. *)
Definition comm_split (N : nat) (color : nat -> nat) (r : nat) : list nat :=
  filter (fun q => color q =? color r) (seq 0 N).

(** MPI_Comm_rank: position of the calling world rank. *)
Fixpoint position (r : nat) (l : list nat) : option nat :=
  match l with
  | [] => None
  | x :: l' => if x =? r then Some 0
               else match position r l' with Some k => Some (S k) | None => None end
  end.

Fixpoint nodupb (l : list nat) : bool :=
  match l with
  | [] => true
  | x :: l' => negb (existsb (Nat.eqb x) l') && nodupb l'
  end.

(** MPI_Group_incl: erroneous if a rank is invalid or repeated. *)
Definition group_incl (N : nat) (granks : list nat) : outcome (list nat) :=
  if forallb (fun g => g <? N) granks && nodupb granks then Ok granks else UB.

(** Lines 53-83.  Result on world rank [r]: the linear algebra communicator and
    the sampling communicator.  Line 73 takes the address of element 0 of
    [granks]; on a rank outside of its own group MPI_Comm_create returns
    MPI_COMM_NULL, on which MPI_Comm_rank (line 80) is erroneous. *)
Definition split_comm (N M Ngroups r : nat) : outcome (list nat * list nat) :=
  if M =? 0 then UB (* rank/M *)
  else
    let la := comm_split N (fun q => q / M) r in
    match position r la with
    | None => UB
    | Some comRank =>
        let granks := map (fun i => comRank + i * M) (seq 0 Ngroups) in
        if Ngroups =? 0 then UB
        else obind (group_incl N granks) (fun g =>
             match position r g with
             | None => UB
             | Some _ => Ok (la, g)
             end)
    end.

(** Lines 20-30: analysis type "SOL" with the user's number of linear algebra
    processors.  [numGroups] is computed before [numLA] is reset. *)
Definition split_SOL (N numLA r : nat) : outcome (list nat * list nat) :=
  if numLA =? 0 then UB
  else
    let numGroups := N / numLA in
    let numLA' := if N mod numLA =? 0 then numLA else N in
    split_comm N numLA' numGroups r.

(** Lines 20-21, 41-43: every other analysis type. *)
Definition split_default (N r : nat) : outcome (list nat * list nat) :=
  split_comm N N 1 r.

(** Lines 31-40 and 90-119 (include_main = true): world ranks of the main
    communicator.  [granks] has [Nmain] entries; writing beyond is undefined. *)
Fixpoint fill_main (k : nat) (ranks : list nat) (prog : nat) (granks : list nat)
  : outcome (list nat) :=
  match ranks with
  | [] => Ok granks
  | i :: rest =>
      if i mod k =? 0 then
        if prog <? length granks then
          fill_main k rest (S prog)
            (firstn prog granks ++ i :: skipn (S prog) granks)
        else UB
      else fill_main k rest prog granks
  end.

Definition main_ranks (N numMacro : nat) : outcome (list nat) :=
  if numMacro =? 0 then UB
  else
    let Nmain := if N mod numMacro =? 0 then numMacro else N in
    let k := N / Nmain in
    if k =? 0 then UB (* i % procsPerGroup *)
    else obind (fill_main k (seq 0 N) 0 (repeat 0 Nmain)) (group_incl N).

(* ------------------------------------------------------------------ *)
(** ** Samples — MrHyDE_Sample_Set_Reader.hpp:27-99 *)

(** [input >> x]: the next number of the stream; at the end of the stream the
    extraction fails and [x] keeps its value. *)
Definition extract {A} (x : A) (st : list A) : A * list A :=
  match st with [] => (x, []) | y :: st' => (y, st') end.

(** Lines 51-54: overwrite the components of [point] one by one. *)
Fixpoint read_point {A} (point : list A) (st : list A) : list A * list A :=
  match point with
  | [] => ([], st)
  | x :: p' => let '(y, st1) := extract x st in
               let '(q, st2) := read_point p' st1 in (y :: q, st2)
  end.

(** Lines 48-56. *)
Fixpoint read_points {A} (n : nat) (point : list A) (st : list A) : list (list A) :=
  match n with
  | 0 => []
  | S n' => let '(p, st') := read_point point st in p :: read_points n' p st'
  end.

Section Read.
  Context {A : Type} (zero : A) (inv_n : nat -> A).

  (** Lines 33, 37-58.  [None]: the file cannot be opened; every point is then
      an empty vector. *)
  Definition read_pt (n dim : nat) (file : option (list A)) : list (list A) :=
    match file with
    | None => repeat [] n
    | Some st => read_points n (repeat zero dim) st
    end.

  (** Lines 34, 60-77. *)
  Definition read_wt (n : nat) (file : option (list A)) : list A :=
    match file with
    | Some st => fst (read_point (repeat zero n) st)
    | None => repeat (inv_n n) n
    end.
End Read.

(** Lines 79-96, for one of the two arrays. *)
Definition my_part {A} (n nProc rank : nat) (v : list A) : outcome (list A) :=
  if nProc =? 0 then UB
  else
    let frac := n / nProc in
    let rem := n mod nProc in
    let N := if rank <? rem then S frac else frac in
    map_outcome (fun i => at_ v (i * nProc + rank)) (seq 0 N).

(** The samples of one process: points paired with weights. *)
Definition my_samples {A} (zero : A) (inv_n : nat -> A) (n dim nProc rank : nat)
    (fpt fwt : option (list A)) : outcome (list (list A * A)) :=
  obind (my_part n nProc rank (read_pt zero n dim fpt)) (fun p =>
  obind (my_part n nProc rank (read_wt zero inv_n n fwt)) (fun w =>
  Ok (combine p w))).
