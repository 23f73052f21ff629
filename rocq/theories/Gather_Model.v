(** Model of the gathers of an assembly sweep and of the state they hand to the residual.

    Source: /repo/src/managers/assembly/assemblyManager_gather.hpp
      14-76    performGather of one group (which vector goes where)
      84-144   performBoundaryGather (the same with the boundary groups)
      181-236  performGather into a three-dimensional buffer
      242-295  performGather4D
      299-420  the boundary versions
    /repo/src/managers/assembly/assemblyManager_jacres.hpp
      208-212, 711-715  use_only_sol
      335-380, 505-525, 781-870  the loops over the groups and boundary groups of a block
      280, 743          the vector of parameter rates, never filled
    /repo/src/managers/assembly/assemblyManager_workset.hpp
      703-740, 1017-1050  updateWorkset(Boundary): which buffers are evaluated
    /repo/src/tools/workset.cpp 520-598 computeSolnTransientSeeded, 838-860 computeSolnSteadySeeded

    The buffers belong to the block and are reused by every group.  Vectors are functions
    of the local index; a buffer is a function of its indices.  Only the values are
    modelled (no derivative seeds); groups that store their own copy (have_sols) are not. *)
From Coq Require Import Arith Bool Reals List.
From Verif Require Import Sparse_Model Tableau_Model.
Import ListNotations.
Local Open Scope R_scope.

Definition gvec := nat -> R.

(** Buffers of a block, groupMetaData.cpp 136-200. *)
Definition buf3 := nat -> nat -> nat -> R.            (* elem, var, dof *)
Definition buf4 := nat -> nat -> nat -> nat -> R.     (* elem, var, dof, entry *)
Record buffers :=
  { b_sol : nat -> buf3; b_phi : nat -> buf3;
    b_sstage : nat -> buf4; b_sprev : nat -> buf4; b_pstage : nat -> buf4; b_pprev : nat -> buf4;
    b_param : buf3 }.

(** A group (or boundary group): number of elements, local ids by set, parameter ids. *)
Record group := { g_n : nat; g_lids : nat -> nat -> nat -> nat; g_plids : nat -> nat -> nat }.

(** Offsets by set and variable, offsets of the discretized parameters; the number of
    unknowns of a variable is the length of its list. *)
Record layout := { y_off : nat -> list (list nat); y_poff : list (list nat) }.

Definition put3 (b : buf3) (e v d : nat) (x : R) : buf3 :=
  fun e' v' d' => if Nat.eqb e' e && Nat.eqb v' v && Nat.eqb d' d then x else b e' v' d'.

Definition put4 (b : buf4) (e v d k : nat) (x : R) : buf4 :=
  fun e' v' d' k' => if Nat.eqb e' e && Nat.eqb v' v && Nat.eqb d' d && Nat.eqb k' k then x else b e' v' d' k'.

(** The triple loop, 221-232. *)
Definition slots (n : nat) (offs : list (list nat)) : list (nat * nat * nat) :=
  flat_map (fun e => flat_map (fun v => map (fun d => (e, v, d)) (seq 0 (length (nth v offs []))))
                       (seq 0 (length offs))) (seq 0 n).

Definition lid (offs : list (list nat)) (lids : nat -> nat -> nat) (p : nat * nat * nat) : nat :=
  let '(e, v, d) := p in lids e (nth d (nth v offs []) 0%nat).

Definition gather3 (n : nat) (offs : list (list nat)) (lids : nat -> nat -> nat) (x : gvec) (b : buf3) : buf3 :=
  fold_left (fun b p => let '(e, v, d) := p in put3 b e v d (x (lid offs lids p))) (slots n offs) b.

(** 280-292 *)
Definition gather4 (n : nat) (offs : list (list nat)) (lids : nat -> nat -> nat) (k : nat) (x : gvec) (b : buf4) : buf4 :=
  fold_left (fun b p => let '(e, v, d) := p in put4 b e v d k (x (lid offs lids p))) (slots n offs) b.

Definition at_set {B} (f : nat -> B) (s : nat) (b : B) : nat -> B := fun s' => if Nat.eqb s' s then b else f s'.

(** The cases of the switch, 193-219 and 252-277. *)
Section One.
Context (y : layout) (g : group).

Definition load_sol (s : nat) (x : gvec) (b : buffers) : buffers :=
  {| b_sol := at_set (b_sol b) s (gather3 (g_n g) (y_off y s) (g_lids g s) x (b_sol b s));
     b_phi := b_phi b; b_sstage := b_sstage b; b_sprev := b_sprev b;
     b_pstage := b_pstage b; b_pprev := b_pprev b; b_param := b_param b |}.

Definition load_phi (s : nat) (x : gvec) (b : buffers) : buffers :=
  {| b_sol := b_sol b;
     b_phi := at_set (b_phi b) s (gather3 (g_n g) (y_off y s) (g_lids g s) x (b_phi b s));
     b_sstage := b_sstage b; b_sprev := b_sprev b;
     b_pstage := b_pstage b; b_pprev := b_pprev b; b_param := b_param b |}.

Definition load_sstage (s k : nat) (x : gvec) (b : buffers) : buffers :=
  {| b_sol := b_sol b; b_phi := b_phi b;
     b_sstage := at_set (b_sstage b) s (gather4 (g_n g) (y_off y s) (g_lids g s) k x (b_sstage b s));
     b_sprev := b_sprev b; b_pstage := b_pstage b; b_pprev := b_pprev b; b_param := b_param b |}.

Definition load_sprev (s k : nat) (x : gvec) (b : buffers) : buffers :=
  {| b_sol := b_sol b; b_phi := b_phi b; b_sstage := b_sstage b;
     b_sprev := at_set (b_sprev b) s (gather4 (g_n g) (y_off y s) (g_lids g s) k x (b_sprev b s));
     b_pstage := b_pstage b; b_pprev := b_pprev b; b_param := b_param b |}.

Definition load_pstage (s k : nat) (x : gvec) (b : buffers) : buffers :=
  {| b_sol := b_sol b; b_phi := b_phi b; b_sstage := b_sstage b; b_sprev := b_sprev b;
     b_pstage := at_set (b_pstage b) s (gather4 (g_n g) (y_off y s) (g_lids g s) k x (b_pstage b s));
     b_pprev := b_pprev b; b_param := b_param b |}.

Definition load_pprev (s k : nat) (x : gvec) (b : buffers) : buffers :=
  {| b_sol := b_sol b; b_phi := b_phi b; b_sstage := b_sstage b; b_sprev := b_sprev b;
     b_pstage := b_pstage b;
     b_pprev := at_set (b_pprev b) s (gather4 (g_n g) (y_off y s) (g_lids g s) k x (b_pprev b s));
     b_param := b_param b |}.

Definition load_param (x : gvec) (b : buffers) : buffers :=
  {| b_sol := b_sol b; b_phi := b_phi b; b_sstage := b_sstage b; b_sprev := b_sprev b;
     b_pstage := b_pstage b; b_pprev := b_pprev b;
     b_param := gather3 (g_n g) (y_poff y) (g_plids g) x (b_param b) |}.
End One.

(** What the caller of assembleJacRes/assembleRes passes. *)
Record call :=
  { c_set : nat; c_stage : nat; c_adjoint : bool;
    c_sol : list gvec; c_sol_stage : list gvec; c_sol_prev : list gvec;
    c_phi : list gvec; c_phi_stage : list gvec; c_phi_prev : list gvec;
    c_param : gvec; c_params : nat }.

Definition use_only_sol (c : call) : bool :=
  Nat.eqb (length (c_sol_stage c)) 0 && Nat.eqb (length (c_sol_prev c)) 0.

Definition zerov : gvec := fun _ => 0.
Definition vnth (l : list gvec) (i : nat) : gvec := nth i l zerov.

(** for i in 0..length l: if keep i then load i (l i) *)
Definition each (l : list gvec) (keep : nat -> bool) (load : nat -> gvec -> buffers -> buffers) (b : buffers) : buffers :=
  fold_left (fun b i => if keep i then load i (vnth l i) b else b) (seq 0 (length l)) b.

Definition always (_ : nat) : bool := true.

(** performGather, 14-76 *)
Definition perform_gather (y : layout) (c : call) (g : group) (b : buffers) : buffers :=
  let cur := c_set c in
  let b1 :=
    if use_only_sol c then
      let b := each (c_sol c) always (load_sol y g) b in
      if c_adjoint c then each (c_phi c) always (load_phi y g) b else b
    else
      let b := each (c_sol c) (fun s => negb (Nat.eqb s cur)) (load_sol y g) b in
      let b := load_sol y g cur (vnth (c_sol_stage c) (c_stage c)) b in
      let b := each (c_sol_stage c) (fun s => Nat.ltb s (c_stage c)) (load_sstage y g cur) b in
      let b := each (c_sol_prev c) always (load_sprev y g cur) b in
      if c_adjoint c then
        let b := each (c_phi c) (fun s => negb (Nat.eqb s cur)) (load_phi y g) b in
        let b := load_phi y g cur (vnth (c_phi_stage c) (c_stage c)) b in
        let b := each (c_phi_stage c) (fun s => Nat.ltb s (c_stage c)) (load_pstage y g cur) b in
        each (c_phi_prev c) always (load_pprev y g cur) b
      else b in
  if Nat.ltb 0 (c_params c) then load_param y g (c_param c) b1 else b1.

(** The workset: evaluated unknowns and their rates. *)
Record wset := { w_u : nat -> buf3; w_dot : nat -> buf3; w_param : buf3 }.

(** The time integrator of the current set. *)
Record integrator := { i_tab : tab; i_wts : list R; i_dt : R }.

(** computeSolnTransientSeeded / computeSolnSteadySeeded for all sets, then the parameters. *)
Definition update_wset (transient : bool) (ti : integrator) (c : call) (nparams : nat) (b : buffers) (w : wset) : wset :=
  {| w_u := fun s e v d =>
       if transient && Nat.eqb s (c_set c) then
         state_of scalars (i_tab ti) (c_stage c) (b_sprev b s e v d 0%nat) (fun k => b_sstage b s e v d k) (b_sol b s e v d)
       else b_sol b s e v d;
     w_dot := fun s e v d =>
       if transient && Nat.eqb s (c_set c) then
         dot_of scalars (i_tab ti) (i_wts ti) (i_dt ti) (c_stage c) (fun k => b_sprev b s e v d k) (b_sol b s e v d)
       else w_dot w s e v d;
     w_param := fun e v d => if Nat.ltb 0 nparams then b_param b e v d else w_param w e v d |}.

(** The loop over the groups followed by the boundary groups; the result lists the
    workset and buffers the residual of each group sees. *)
Fixpoint sweep (y : layout) (transient : bool) (ti : integrator) (c : call) (gs : list group)
    (b : buffers) (w : wset) : list (buffers * wset) * (buffers * wset) :=
  match gs with
  | [] => ([], (b, w))
  | g :: tl =>
      let b1 := perform_gather y c g b in
      let w1 := update_wset transient ti c (c_params c) b1 w in
      let '(seen, last) := sweep y transient ti c tl b1 w1 in
      ((b1, w1) :: seen, last)
  end.

(** computeDiscreteSensitivities, postprocessManager_objective_gradient.hpp 1660-1719:
    the call passes empty stage and previous vectors. *)
Definition param_jacobian_call (sol : list gvec) (p : gvec) (n : nat) : call :=
  {| c_set := 0; c_stage := 0; c_adjoint := false;
     c_sol := sol; c_sol_stage := []; c_sol_prev := [];
     c_phi := sol; c_phi_stage := []; c_phi_prev := [];
     c_param := p; c_params := n |}.
