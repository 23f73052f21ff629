(** What MrHyDE writes to and recovers from files, and the choice of the analysis:
    src/managers/analysis/analysisManager_solve.hpp (run 26-126, restartSolve 1241-1304,
    recoverParametersFromFile 1309-1401, writeOptVectorToFile 1406-1482),
    src/managers/analysis/analysisManager_util.hpp (recoverSolution 12-68, writeSolutionToText 291-325),
    src/interfaces/linear_algebra/linearAlgebraInterface_util.hpp (writeStateToFile 336-347,
    readStateVectorFromFile 373-378), src/managers/solver/solverManager_util.hpp (setForwardStates
    369-383, recoverForwardStateFromFile 388-405), src/managers/postprocess/postprocessManager_util.hpp
    (record 60-70, setForwardStates 1315-1322).

    File contents are what is read back from them.  A file name made of a base and numbers is
    identified with the tuple of its parts (the numbers are printed in decimal and separated by dots).
    Matrix Market files are Tpetra's and are taken to return the vector written. *)
From Coq Require Import String Bool Arith ZArith Reals List.
From Flocq Require Import Core.
Import ListNotations.
Local Open Scope R_scope.

(* ------------------------------------------------------------------ numbers in text files *)

Definition radix10 : radix := Build_radix 10 (refl_equal true).
(** fout.precision(12); fout << x: the nearest decimal with twelve digits (1430, 1450). *)
Definition fl_print (x : R) : R := round radix10 (FLX_exp 12) ZnearestE x.
(** fin >> number: the nearest double (1342, 1358); over- and underflow are not modelled. *)
Definition fl_parse (x : R) : R := round radix2 (FLX_exp 53) ZnearestE x.
Definition fl_trip (x : R) : R := fl_parse (fl_print x).

(* ------------------------------------------------------------------ parameter files *)

(** A vector of parameters: scalar parameters and fields, one entry per time step
    (MrHyDE_OptVector.hpp 60-105). *)
Record fvec := { fv_scalar : list (list R); fv_field : list (list R) }.
Inductive fkey := FScalar (base : string) (t : nat) | FField (base : string) (t : nat)
                | FState (base : string) (set step : nat).
Definition fdisk := fkey -> option (list R).
Definition fkey_dec (a b : fkey) : {a = b} + {a <> b}.
Proof. decide equality; try apply Nat.eq_dec; apply string_dec. Defined.
Definition fput (k : fkey) (v : list R) (d : fdisk) : fdisk := fun k' => if fkey_dec k k' then Some v else d k'.

(** haveDynamicScalar: more than one entry (MrHyDE_OptVector.hpp 81-86). *)
Definition fl_many {A} (l : list A) : bool := Nat.ltb 1 (List.length l).
(** Writing a list of vectors under numbered names: all of them if dynamic, the first otherwise. *)
Fixpoint fl_write (mk : nat -> fkey) (enc : list R -> list R) (t : nat) (l : list (list R)) (d : fdisk) : fdisk :=
  match l with nil => d | v :: r => fl_write mk enc (S t) r (fput (mk t) (enc v) d) end.
Definition fl_write_all (mk : nat -> fkey) (enc : list R -> list R) (l : list (list R)) (d : fdisk) : fdisk :=
  match l with
  | nil => d
  | v :: _ => if fl_many l then fl_write mk enc 0 l d else fput (mk 0%nat) (enc v) d
  end.
(** writeOptVectorToFile, 1406-1482; the scalar files are written by rank 0. *)
Definition fl_write_opt (base : string) (v : fvec) (d : fdisk) : fdisk :=
  fl_write_all (FField base) (fun x => x) (fv_field v)
    (fl_write_all (FScalar base) (map fl_print) (fv_scalar v) d).

(** Reading n numbered files; a missing file is an error. *)
Fixpoint fl_read (mk : nat -> fkey) (dec : list R -> list R) (t n : nat) (d : fdisk) : option (list (list R)) :=
  match n with
  | O => Some nil
  | S n' =>
      match d (mk t), fl_read mk dec (S t) n' d with
      | Some v, Some r => Some (dec v :: r)
      | _, _ => None
      end
  end.
(** recoverParametersFromFile, 1309-1401: as many files as the current vector has entries. *)
Definition fl_read_opt (base : string) (cur : fvec) (d : fdisk) : option fvec :=
  match fl_read (FScalar base) (map fl_parse) 0 (List.length (fv_scalar cur)) d,
        fl_read (FField base) (fun x => x) 0 (List.length (fv_field cur)) d with
  | Some s, Some f => Some {| fv_scalar := s; fv_field := f |}
  | _, _ => None
  end.

(* ------------------------------------------------------------------ state files *)

(** record: each recorded state of each set goes to base.set.step.mm (postprocessManager_util.hpp
    67-69, linearAlgebraInterface_util.hpp 336-347); states: step by step, the sets of the step. *)
Fixpoint fl_write_sets (base : string) (step set : nat) (l : list (list R)) (d : fdisk) : fdisk :=
  match l with nil => d | v :: r => fl_write_sets base step (S set) r (fput (FState base set step) v d) end.
Fixpoint fl_write_states (base : string) (step : nat) (states : list (list (list R))) (d : fdisk) : fdisk :=
  match states with nil => d | s :: r => fl_write_states base (S step) r (fl_write_sets base step 0 s d) end.
(** recoverForwardStateFromFile, 388-405, for one set: numsteps[set] files, numsteps being the number
    of history terms of the BDF formula (solverManager_setup.hpp 502-512). *)
Definition fl_recover_set (base : string) (nhist set : nat) (d : fdisk) : option (list (list R)) :=
  fl_read (fun t => FState base set t) (fun x => x) 0 nhist d.
(** The states are stored with the times initial_time + t*deltat (setForwardStates). *)
Fixpoint fl_stamp (t dt : R) (l : list (list R)) : list (R * list R) :=
  match l with nil => nil | v :: r => (t, v) :: fl_stamp (t + dt) dt r end.

(* ------------------------------------------------------------------ text files of solutions *)

(** writeSolutionToText, 291-325: a row per unknown, a column per stored vector (or the last one);
    soln: the stored vectors. *)
Definition fl_text (soln : list (list R)) (only_final : bool) : list (list R) :=
  map (fun i => if only_final then [fl_print (nth i (last soln nil) 0)]
                else map (fun v => fl_print (nth i v 0)) soln)
      (seq 0 (List.length (hd nil soln))).
(** recoverSolution from text, 35-52: the first entry of every row. *)
Definition fl_recover_text (rows : list (list R)) : list R := map (fun r => fl_parse (hd 0 r)) rows.
(** The name read: the last four characters are the extension, the rank goes before it, 17-25. *)
Definition fl_recover_name (filename rank : string) : string :=
  let n := String.length filename in
  (substring 0 (n - 4) filename ++ "." ++ rank ++ substring (n - 4) (n - 1) filename)%string.

(* ------------------------------------------------------------------ choice of the analysis *)

Inductive faction :=
  | ReadParams | WriteParams | Forward | Adjoint | ReadState | WriteGradient
  | Sample | Optimize (which : nat) | Invert | RecoverState | Message | Fail.
Local Open Scope string_scope.
Local Open Scope list_scope.
(** run, 26-126; HDSA is an optional package and left out.  restartSolve only recovers (state
    given); its modes do nothing (1288-1299); the scalable solvers are empty (1206-1237). *)
Definition fl_analysis (kind recovery mode : string) (has_state writesens : bool) : list faction :=
  if kind =? "forward" then [Forward]
  else if kind =? "adjoint" then
    (if recovery =? "file" then [ReadState] else if recovery =? "recompute" then [Forward] else [Fail]) ++
    [Adjoint] ++ (if writesens then [WriteGradient] else [])
  else if kind =? "forward+adjoint" then [Forward; Adjoint] ++ (if writesens then [WriteGradient] else [])
  else if kind =? "dry run" then [Message]
  else if kind =? "UQ" then [Sample]
  else if kind =? "ROL" then [Optimize 1]
  else if kind =? "ROL2" then [Optimize 2]
  else if kind =? "ROLStoch" then [Optimize 3]
  else if kind =? "DCI" then [Invert]
  else if kind =? "Scalable DCI" then []
  else if kind =? "Scalable Bayes" then []
  else if kind =? "restart" then
    (if has_state then [RecoverState] else []) ++
    (if (mode =? "forward") || (mode =? "ROL") || (mode =? "ROL2") then [] else [Message])
  else [Message].
(** An exception ends the run. *)
Fixpoint fl_cut (l : list faction) : list faction :=
  match l with nil => nil | Fail :: _ => [Fail] | a :: r => a :: fl_cut r end.
Definition fl_run (kind recovery mode : string) (from_file to_file has_state writesens : bool) : list faction :=
  fl_cut ((if from_file then [ReadParams] else []) ++ fl_analysis kind recovery mode has_state writesens ++
          (if to_file then [WriteParams] else [])).
