(** Field ("discretized") parameters and parameter bounds.
    Files modelled (all in /repo/src):
    - managers/parameter/parameterManager_setup.hpp 20-150 (reading of the
      parameter entries), 305-385 (parameter unknowns of groups, stochastic
      field parameters), 387-448 (initial values);
    - managers/parameter/parameterManager_util.hpp 13-34 (setInitialParams);
    - managers/parameter/parameterManager_access.hpp 148-171, 186-200, 298-318
      (bounds of the active scalars), 324-385 (bounds of the field parameters);
    - managers/analysis/analysisManager_solve.hpp 400-417, 628-641 (use of both);
    - optimization/MrHyDE_OptVector.hpp 60-120, 286-317 (constructors),
      1264-1279 (applyBinary).
    Numbers are rationals.  Single precision is an arbitrary function. *)
From Coq Require Import QArith List Bool Arith ZArith Lia.
Import ListNotations.

(* ------------------------------------------------------------------ *)
(** ** Field parameters *)

(** Settings of one field parameter as written by the user; a missing entry
    is [None].  parameterManager_setup.hpp 120-150. *)
Record fentry : Type := FE {
  fe_init : option Q; fe_lower : option Q; fe_upper : option Q;
  fe_var : option Q }.

(** parameterManager_setup.hpp 139-143: what is kept (the distribution name
    is left out). *)
Record fparam : Type := FP { p_init : Q; p_lower : Q; p_upper : Q; p_var : Q }.

Definition get {A : Type} (o : option A) (d : A) : A :=
  match o with Some v => v | None => d end.

Definition read_fparam (e : fentry) : fparam :=
  FP (get (fe_init e) 1%Q) (get (fe_lower e) (-(1))%Q)
     (get (fe_upper e) 1%Q) (get (fe_var e) 1%Q).

(** One block on one process: the positions of each parameter's unknowns in
    an element's list of unknowns, and those lists for the elements owned by
    the process (paramDOF->getGIDFieldOffsets, disc->my_elements,
    paramDOF->getElementGIDs). *)
Record pblock : Type := PB { pb_off : list (list nat); pb_elem : list (list Z) }.

(** One process: its blocks, and the unknowns of its overlapped vector. *)
Record prank : Type := PR { pr_block : list pblock; pr_over : list Z }.

(** parameterManager_setup.hpp 411-425: param_dofs_OS[num]. *)
Definition dofs_OS (r : prank) (n : nat) : list Z :=
  flat_map (fun b =>
    flat_map (fun gids => map (fun o => nth o gids 0%Z) (nth n (pb_off b) []))
             (pb_elem b)) (pr_block r).

(** A process's part of a distributed vector: unknown and value. *)
Definition pvec : Type := list (Z * Q).

(** replaceGlobalValue: sets the entry of that unknown when the process has
    it, and nothing otherwise. *)
Definition replace_gid (v : pvec) (g : Z) (x : Q) : pvec :=
  map (fun p => if Z.eqb (fst p) g then (fst p, x) else p) v.

Fixpoint lookup (v : pvec) (g : Z) : option Q :=
  match v with
  | [] => None
  | (k, x) :: t => if Z.eqb k g then Some x else lookup t g
  end.

(** putScalar(0.0) on a new vector (parameterManager_util.hpp 26-31). *)
Definition zero_vec (gids : list Z) : pvec := map (fun g => (g, 0%Q)) gids.

(** parameterManager_setup.hpp 427-435 and access.hpp 350-354: the value of
    parameter n is written to each of its unknowns, parameter after
    parameter. *)
Definition fill_over (vals : list Q) (r : prank) : pvec :=
  fold_left (fun v n => fold_left (fun w g => replace_gid w g (nth n vals 0%Q))
                                  (dofs_OS r n) v)
            (seq 0 (length vals)) (zero_vec (pr_over r)).

(** doExport(over, exporter, REPLACE) for one owned unknown: entries of the
    processes having it replace each other in some order [ord]
    (setup.hpp 443, access.hpp 364-365). *)
Definition export_gid (ord : list nat) (over : list pvec) (g : Z) : Q :=
  fold_left (fun acc k => match lookup (nth k over []) g with
                          | Some x => x | None => acc end) ord 0%Q.

(** parameterManager_setup.hpp 427-446 with util.hpp 21-31: initial values,
    one vector per time step when some field parameter is dynamic.  With
    "use custom initial param guess" nothing is written. *)
Definition initial_field (custom dynamic : bool) (nsteps : nat)
    (ps : list fparam) (rs : list prank) (ord : list nat) (g : Z) : list Q :=
  map (fun _ =>
         export_gid ord
           (if custom then map (fun r => zero_vec (pr_over r)) rs
            else map (fill_over (map p_init ps)) rs) g)
      (seq 0 (if dynamic then nsteps else 1%nat)).

(** parameterManager_access.hpp 328-365. *)
Definition lower_field (ps : list fparam) (rs : list prank) (ord : list nat)
    (g : Z) : Q := export_gid ord (map (fill_over (map p_lower ps)) rs) g.
Definition upper_field (ps : list fparam) (rs : list prank) (ord : list nat)
    (g : Z) : Q := export_gid ord (map (fill_over (map p_upper ps)) rs) g.

(** parameterManager_setup.hpp 373-383: (mean, variance, min, max) pushed for
    each overlapped unknown of the process, always those of parameter 0. *)
Definition stoch_entries (ps : list fparam) (r : prank) : list (Q*Q*Q*Q) :=
  let p := nth 0 ps (FP 0 0 0 0) in
  map (fun _ => (p_init p, p_var p, p_lower p, p_upper p)) (pr_over r).

(** Unknowns given to the elements of a volume group: setup.hpp 325-347
    ([geid] = disc->my_elements of the block, [eids] = localElemID of the
    group, [lids] = paramDOF->getLIDs). *)
Definition vol_lids (lids : list (list nat)) (geid : list nat)
    (eids : list nat) : list (list nat) :=
  map (fun e => nth (nth e geid 0%nat) lids []) eids.

(** ... and to those of a boundary group: setup.hpp 350-371. *)
Definition bnd_lids (lids : list (list nat)) (eids : list nat)
    : list (list nat) := map (fun e => nth e lids []) eids.

(* ------------------------------------------------------------------ *)
(** ** Bounds of the active scalars *)

(** A line of a bounds file as fgets and sscanf "%f %f" see it: the empty
    string (end of file), two numbers, one number, or no number (a line with
    only a newline, a comment).  Lines over 99 characters are left out. *)
Inductive bline : Type :=
| BEmpty | BPair (a b : Q) | BOne (a : Q) | BNone.

(** Values of the two floats after the scan ([None]: not set yet). *)
Definition scan (fl : Q -> Q) (l : bline) (ab : option Q * option Q)
    : option Q * option Q :=
  match l with
  | BEmpty | BNone => ab
  | BPair a b => (Some (fl a), Some (fl b))
  | BOne a => (Some (fl a), snd ab)
  end.

Fixpoint set_nth {A : Type} (l : list A) (i : nat) (x : A) : option (list A) :=
  match l, i with
  | [], _ => None
  | _ :: t, O => Some (x :: t)
  | h :: t, S i' => match set_nth t i' x with Some t' => Some (h :: t')
                                            | None => None end
  end.

(** setup.hpp 74-90.  [None]: a write outside of the two vectors, or of a
    float that was never set. *)
Fixpoint read_bounds (fl : Q -> Q) (ls : list bline) (i : nat)
    (ab : option Q * option Q) (bs : list (Q * Q)) : option (list (Q * Q)) :=
  match ls with
  | [] => Some bs
  | l :: t =>
    let ab' := scan fl l ab in
    match l with
    | BEmpty => read_bounds fl t (S i) ab' bs
    | _ => match ab' with
           | (Some a, Some b) =>
               match set_nth bs i (a, b) with
               | Some bs' => read_bounds fl t (S i) ab' bs'
               | None => None
               end
           | _ => None
           end
    end
  end.

(** One scalar or vector parameter: whether it is active, its values, and the
    lines of its bounds file if it names one. *)
Record sentry : Type := SE {
  se_active : bool; se_vals : list Q; se_file : option (list bline) }.

(** setup.hpp 53-54 and 66-91. *)
Definition entry_bounds (fl : Q -> Q) (e : sentry) : option (list (Q * Q)) :=
  let blank := map (fun _ => (0%Q, 0%Q)) (se_vals e) in
  if se_active e then
    match se_file e with
    | Some ls => read_bounds fl ls 0 (None, None) blank
    | None => Some blank
    end
  else Some blank.

(** access.hpp 298-318: lower and upper bounds, active entries in order. *)
Fixpoint active_bounds (fl : Q -> Q) (es : list sentry)
    : option (list (Q * Q)) :=
  match es with
  | [] => Some []
  | e :: t =>
    match entry_bounds fl e, active_bounds fl t with
    | Some b, Some r => Some (if se_active e then b ++ r else r)
    | _, _ => None
    end
  end.

(** access.hpp 186-200: the active values, in order. *)
Definition active_vals (es : list sentry) : list Q :=
  flat_map (fun e => if se_active e then se_vals e else []) es.

(* ------------------------------------------------------------------ *)
(** ** Bounded optimization *)

(** An optimization vector: its field vectors and its scalar vectors, one per
    time step when dynamic (OptVector field_vec and scalar_vec). *)
Record ovec : Type := OV { ov_f : list (list Q); ov_s : list (list Q) }.

(** access.hpp 148-171 with OptVector 60-120: the current parameters. *)
Definition current_vec (steps_f : nat) (f : list Q) (steps_s : nat)
    (s : list Q) : ovec :=
  OV (match f with [] => [] | _ => repeat f steps_f end)
     (match s with [] => [] | _ => repeat s steps_s end).

(** access.hpp 328 and analysisManager_solve.hpp 411-413 with OptVector
    286-317: there is one field vector and one scalar vector.  Without field
    parameters the field vector is a null pointer, which the constructor
    dereferences. *)
Definition bound_vec (f : option (list Q)) (s : list Q) : option ovec :=
  match f with Some v => Some (OV [v] [s]) | None => None end.

Definition bound_field (f : list Q) : option (list Q) :=
  match f with [] => None | _ => Some f end.

Fixpoint zip2 (op : Q -> Q -> Q) (x y : list Q) : list Q :=
  match x, y with
  | a :: x', b :: y' => op a b :: zip2 op x' y'
  | _, _ => x
  end.

(** One list of vectors against another: [None] when the other list is
    shorter (an access past its end). *)
Fixpoint apply_all (op : Q -> Q -> Q) (x y : list (list Q))
    : option (list (list Q)) :=
  match x, y with
  | [], _ => Some []
  | a :: x', b :: y' =>
      match apply_all op x' y' with Some r => Some (zip2 op a b :: r)
                                  | None => None end
  | _ :: _, [] => None
  end.

(** OptVector 1264-1279. *)
Definition apply_binary (op : Q -> Q -> Q) (x y : ovec) : option ovec :=
  match apply_all op (ov_f x) (ov_f y), apply_all op (ov_s x) (ov_s y) with
  | Some f, Some s => Some (OV f s)
  | _, _ => None
  end.

Definition qmax (a b : Q) : Q := if Qle_bool a b then b else a.
Definition qmin (a b : Q) : Q := if Qle_bool a b then a else b.

(** Projection on the bounds as the optimizer's bound object does it: the
    larger of vector and lower bound, then the smaller of that and the upper
    bound. *)
Definition project (x lo up : ovec) : option ovec :=
  match apply_binary qmax x lo with
  | Some y => apply_binary qmin y up
  | None => None
  end.

(** analysisManager_solve.hpp 406-417, then a projection of the current
    parameters: (values) lower and upper bounds of the fields and scalars. *)
Definition bounded_start (steps_f : nat) (f flo fup : list Q)
    (steps_s : nat) (s slo sup : list Q) : option ovec :=
  match bound_vec (bound_field flo) slo, bound_vec (bound_field fup) sup with
  | Some lo, Some up => project (current_vec steps_f f steps_s s) lo up
  | _, _ => None
  end.
