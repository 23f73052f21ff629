(** Model of the option "enable memory purge": what the driver frees, and what
    the setup that follows reads. *)
From Coq Require Import List Arith Bool.
From Verif Require Import Outcome.
Import ListNotations.

(** ** Settings that matter (driver.cpp:165-200,
    linearAlgebraInterface_construct.hpp:181-188).  There is no phase space. *)
Record pcfg := mkPcfg {
  purge : bool; write_solution : bool; opt_movie : bool;
  fully_explicit : bool; matrix_free : bool; nprocs : nat }.

(** ** What can be freed.  Lists that are cleared become empty; reading past
    the end of a list, and going through a null pointer, is [UB].  The element
    lists are those of the blocks; [dof_lids] and [dof_os] those of the physics
    sets; orientations are listed by element (discretizationInterface.hpp:880-911). *)
Record dstate := mkDstate {
  dmesh : bool;                          (* disc->mesh is not null *)
  my_elements : list (list nat);         (* [block][index] *)
  dof_lids : list (list (list nat));     (* [set][elem][k] *)
  dof_os : list (list nat);              (* [set][lid] *)
  orients : list nat }.

(** driver.cpp:170-190; discretizationInterface_util.hpp:241-244, 261-266;
    meshInterface_util.hpp:365-378.  The orientations become a list of one
    default entry.  The other purge functions called here do nothing that this
    model has (they clear what was read into mesh fields, or nothing). *)
Definition driver_purge (c : pcfg) (d : dstate) : dstate :=
  if purge c
  then mkDstate (dmesh d && (write_solution c || opt_movie c)) [] [] (dof_os d) [0]
  else d.

(** getNumPhaseDOFs and getNumPhaseElements without phase space,
    discretizationInterface_util.hpp:228-234, meshInterface_util.hpp:445-451:
    both go through disc->mesh. *)
Definition num_phase (d : dstate) : outcome nat := if dmesh d then Ok 1 else UB.

(** getGIDs, discretizationInterface_dof.hpp:785-795 *)
Definition get_gids (d : dstate) (set elem : nat) : outcome (list nat) :=
  match at_ (dof_lids d) set, at_ (dof_os d) set with
  | Ok L, Ok os =>
      match at_ L elem with
      | Ok row => map_outcome (at_ os) row
      | _ => UB
      end
  | _, _ => UB
  end.

(** The elements' lists of unknowns from which the graph of a physics set is
    built, linearAlgebraInterface_construct.hpp:213-263 *)
Definition block_gids (d : dstate) (set b : nat) : outcome (list (list nat)) :=
  match at_ (my_elements d) b with
  | Ok EIDs => map_outcome (fun e => match num_phase d with
                                     | Ok _ => get_gids d set e
                                     | _ => UB end) EIDs
  | _ => UB
  end.
Definition allocate_matrices (c : pcfg) : bool := negb (fully_explicit c && matrix_free c).
(** One physics set in setupLinearAlgebra, construct.hpp:159-283: the number of
    unknowns in phase space, then the graph. *)
Definition setup_set (c : pcfg) (d : dstate) (nblocks set : nat) : outcome (list (list (list nat))) :=
  match num_phase d with
  | Ok _ => if allocate_matrices c
            then map_outcome (block_gids d set) (seq 0 nblocks)
            else Ok []
  | _ => UB
  end.
Definition setup_linalg (c : pcfg) (d : dstate) (nblocks nsets : nat) :=
  map_outcome (setup_set c d nblocks) (seq 0 nsets).

(** Output of the solution, postprocessManager_exodus.hpp:70-80: the elements
    of every block. *)
Definition write_elements (c : pcfg) (d : dstate) (nblocks : nat) : outcome (list (list nat)) :=
  if write_solution c then map_outcome (at_ (my_elements d)) (seq 0 nblocks) else Ok [].

(** Orientation of an element asked for by its number in the process,
    discretizationInterface_basis.hpp:941-952 with use_block false. *)
Definition orientation_of (d : dstate) (e : nat) : outcome nat :=
  if e <? length (orients d) then at_ (orients d) e else at_ (orients d) 0.

(** The run: purge, set up the linear algebra, write (driver.cpp:170-200). *)
Definition run (c : pcfg) (d : dstate) (nblocks nsets : nat) :=
  let d' := driver_purge c d in
  match setup_linalg c d' nblocks nsets with
  | Ok g => match write_elements c d' nblocks with
            | Ok w => Ok (g, w)
            | _ => UB
            end
  | _ => UB
  end.
