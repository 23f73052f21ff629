(** Flux responses: weighted fluxes through side sets, summed over the recorded
    times and written at the end of a run.
    Files modelled (all in /repo/src):
    - managers/postprocess/postprocessManager_flux_response.hpp 14-81
      (addFluxResponses, computeFluxResponse);
    - tools/postprocessTools.hpp 205-216 (fluxResponse);
    - managers/postprocess/postprocessManager_util.hpp 652-705 (report);
    - managers/assembly/assemblyManager_workset.hpp 682-740
      (updateWorksetBoundary: which solution the flux sees).
    The flux of the modules, the weight function and the quadrature weights of a
    boundary group are functions; [V] is the type of solution vectors, [L] of
    local solutions. *)
From Coq Require Import String Bool Arith List Reals.
From Verif Require Import BProj_Model.
Import ListNotations.
Local Open Scope R_scope.

(** A boundary group: side name, gather of its elements, its own copy of the
    solution if it keeps one, flux of variables (elements, points), weight of a
    response, quadrature weights and sizes. *)
Record bgroup (V L : Type) := BG {
  bg_side : string;
  bg_gather : V -> L;
  bg_own : option L;
  bg_flux : L -> nat -> nat -> nat -> R;
  bg_wt : string -> L -> nat -> nat -> R;
  bg_iwt : nat -> nat -> R;
  bg_elems : nat;
  bg_pts : nat }.
Arguments BG {V L}. Arguments bg_side {V L}. Arguments bg_gather {V L}.
Arguments bg_own {V L}. Arguments bg_flux {V L}. Arguments bg_wt {V L}.
Arguments bg_iwt {V L}. Arguments bg_elems {V L}. Arguments bg_pts {V L}.

(** postprocessTools.hpp 205-216. *)
Record fresp := FR { fr_name : string; fr_sides : string; fr_weight : string;
                     fr_block : nat; fr_vals : list R }.

(** Entry of the "Flux responses" list: side sets, weight, number. *)
Record fentry := FE { fe_name : string; fe_sides : option string;
                      fe_weight : option string; fe_number : option nat }.

Definition dflt {A} (d : A) (o : option A) : A := match o with Some a => a | None => d end.

Definition new_resp (block : nat) (e : fentry) : fresp :=
  FR (fe_name e) (dflt "all"%string (fe_sides e)) (dflt "1.0"%string (fe_weight e)) block
     (repeat 0 (dflt 1%nat (fe_number e))).

(** flux_response.hpp 14-26, called for each block (construct.hpp 296). *)
Definition add_fluxes (lists : list (list fentry)) : list fresp :=
  flat_map (fun bl => map (new_resp (fst bl)) (snd bl))
           (combine (seq 0 (length lists)) lists).

(** assembly_workset.hpp 718-727: the solution in the workset is the copy of the
    group, or else the buffer shared by all groups of the block. *)
Definition wk_sol {V L} (shared : L) (g : bgroup V L) : L :=
  match bg_own g with Some l => l | None => shared end.

(** flux_response.hpp 57-59: std::string::find. *)
Definition meant (sides name : string) : bool :=
  match index 0 name sides with Some _ => true | None => false end.

(** flux_response.hpp 65-75. *)
Definition contribution {V L} (name : string) (l : L) (g : bgroup V L) (v : nat) : R :=
  sm (seq 0 (bg_elems g)) (fun e => sm (seq 0 (bg_pts g)) (fun p =>
    bg_flux g l v e p * bg_wt g name l e p * bg_iwt g e p)).

Definition mapi {A B} (f : nat -> A -> B) (l : list A) : list B :=
  map (fun ia => f (fst ia) (snd ia)) (combine (seq 0 (length l)) l).

Definition visit {V L} (shared : L) (block : nat) (g : bgroup V L) (f : fresp) : fresp :=
  if (fr_block f =? block)%nat && meant (fr_sides f) (bg_side g) then
    FR (fr_name f) (fr_sides f) (fr_weight f) (fr_block f)
       (mapi (fun v x => x + contribution (fr_name f) (wk_sol shared g) g v) (fr_vals f))
  else f.

(** What computeFluxResponse finds when it is called: the shared buffer of each
    block, and the boundary groups of each block. *)
Record snap (V L : Type) := SN { sn_shared : nat -> L; sn_groups : list (list (bgroup V L)) }.
Arguments SN {V L}. Arguments sn_shared {V L}. Arguments sn_groups {V L}.

(** flux_response.hpp 32-80. *)
Definition compute_flux {V L} (s : snap V L) (fs : list fresp) : list fresp :=
  fold_left (fun fs bg => fold_left (fun fs g => map (visit (sn_shared s (fst bg)) (fst bg) g) fs)
                                    (snd bg) fs)
            (combine (seq 0 (length (sn_groups s))) (sn_groups s)) fs.

(** The recorded times of a run on one process. *)
Definition run_flux {V L} (ss : list (snap V L)) (fs : list fresp) : list fresp :=
  fold_left (fun fs s => compute_flux s fs) ss fs.

(** util.hpp 664-677: sums over processes, then the values are reset. *)
Definition report_line (procs : list (list fresp)) : list R :=
  match procs with
  | [] => []
  | p0 :: _ => flat_map (fun k => map (fun v => sm procs (fun p =>
                 nth v (fr_vals (nth k p (FR "" "" "" 0 []))) 0))
                 (seq 0 (length (fr_vals (nth k p0 (FR "" "" "" 0 []))))))
               (seq 0 (length p0))
  end.
Definition reset (fs : list fresp) : list fresp :=
  map (fun f => FR (fr_name f) (fr_sides f) (fr_weight f) (fr_block f)
                   (map (fun _ => 0) (fr_vals f))) fs.
