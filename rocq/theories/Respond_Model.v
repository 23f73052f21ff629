(** Responses of a realization and the weighted norm:
    src/managers/postprocess/postprocessManager_util.hpp, collectResponses (lines 984-1124) and
    computeWeightedNorm (lines 901-950); the weights of getWeightVector are given numbers,
    one per unknown, and the sums run over all processes; and what is written after an optimization:
    src/managers/analysis/analysisManager_solve.hpp, ROLSolve (lines 342-580) and ROL2Solve,
    with src/optimization/MrHyDE_Objective.hpp, value and gradient (lines 61-97).

    Simplified: the responses of one sensor over all times (and solutions, directions) are one
    sequence of [L] numbers; every process has the same objectives; real numbers. *)
From Coq Require Import Bool Arith Reals List.
Import ListNotations.
Local Open Scope R_scope.

(** An objective on one process. [Sens found L v]: which of all sensors this process owns, number
    of values per sensor, value [c] of the [i]-th own sensor; [Integ T v]: integrated response,
    contribution of this process at each time; [Control]: a type that is not collected
    (integrated control, discrete control). *)
Inductive resp_obj :=
| Sens (found : list bool) (L : nat) (v : nat -> nat -> R)
| Integ (T : nat) (v : nat -> R)
| Control.

(** response_sizes, lines 1002-1025: one entry per collected objective. *)
Definition resp_sizes (os : list resp_obj) : list nat :=
  flat_map (fun o => match o with Sens found L _ => [(length found * L)%nat] | Integ T _ => [T] | Control => [] end) os.

(** sensorIDs, lines 1053-1063. *)
Definition sensor_ids (found : list bool) : list nat := filter (fun s => nth s found false) (seq 0 (length found)).

(** Assignments to localarraydata for the objective at offset [off], lines 1049-1110. *)
Definition resp_writes (off : nat) (o : resp_obj) : list (nat * R) :=
  match o with
  | Sens found L v =>
      flat_map (fun i => map (fun c => ((off + nth i (sensor_ids found) 0%nat * L + c)%nat, v i c)) (seq 0 L))
        (seq 0 (length (sensor_ids found)))
  | Integ T v => map (fun t => ((off + t)%nat, v t)) (seq 0 T)
  | Control => []
  end.

(** The loop over the objectives; overallprog += response_sizes[obj] (line 1111) reads entry number
    [j] of the sizes, [None] if there is none. *)
Fixpoint resp_fill (sizes : list nat) (j off : nat) (os : list resp_obj) : option (list (nat * R)) :=
  match os with
  | [] => Some []
  | o :: os =>
      match nth_error sizes j with
      | None => None
      | Some n => option_map (app (resp_writes off o)) (resp_fill sizes (S j) (off + n) os)
      end
  end.

(** The array after the assignments, first filled with 0. *)
Definition array_of (ws : list (nat * R)) (k : nat) : R := fold_left (fun a w => if Nat.eqb (fst w) k then snd w else a) ws 0.

(** Nothing is done if there is nothing to collect (totalresp > 0, line 1032). *)
Definition resp_local (os : list resp_obj) : option (nat -> R) :=
  if Nat.ltb 0 (list_sum (resp_sizes os)) then option_map array_of (resp_fill (resp_sizes os) 0 0 os) else Some (fun _ => 0).

(** reduceAll with SUM. *)
Fixpoint resp_collect (procs : list (list resp_obj)) : option (nat -> R) :=
  match procs with
  | [] => Some (fun _ => 0)
  | p :: procs => match resp_local p, resp_collect procs with Some a, Some b => Some (fun k => a k + b k) | _, _ => None end
  end.

(** *** Weighted norm *)

(** norm2 of the vector of products w u u, for one set, then the sum over sets. *)
Definition rsum_list (l : list R) : R := fold_right Rplus 0 l.
Definition weighted_set (wu : list (R * R)) : R :=
  sqrt (rsum_list (map (fun p => Rsqr (fst p * snd p * snd p)) wu)).
Definition weighted_norm (sets : list (list (R * R))) : R := rsum_list (map weighted_set sets).

(** *** After an optimization *)

Section Opt.
Variable X : Type.
Variable is_new : X -> X -> bool.   (* checkNewParams: current, given *)

Inductive ocall := OValue (x : X) | OGradient (x : X).

(** The parameters held by the parameter manager after a call. *)
Definition ocall_params (cur : X) (c : ocall) : X :=
  match c with
  | OValue x => x
  | OGradient x => if is_new cur x then x else cur
  end.
Definition opt_params (cur : X) (calls : list ocall) : X := fold_left ocall_params calls cur.

(** output_after_optimization.exo and the file of saved parameters are made from the parameters
    held by the manager, final_params_.dat from the vector [x] the optimizer ended with. *)
Record opt_output := { oo_solution_for : X; oo_saved : X; oo_final : X }.
Definition opt_finish (cur : X) (calls : list ocall) (x : X) : opt_output :=
  {| oo_solution_for := opt_params cur calls; oo_saved := opt_params cur calls; oo_final := x |}.
End Opt.
