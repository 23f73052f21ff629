(** Multiscale management: src/managers/multiscale/multiscaleManager.cpp, with
    AssemblyManager::identifySubgridModels (src/managers/assembly/assemblyManager_util.hpp 292-358),
    the multiscale flag of GroupMetaData (src/tools/groupMetaData.cpp 59-62), the dispatch of
    assembleJacRes (src/managers/assembly/assemblyManager_jacres.hpp 364-384) and
    SolverManager::finalizeMultiscale (src/managers/solver/solverManager_setup.hpp 773-803).

    Subgrid models are numbered in the order of the vector subgridModels.  The solve of a subgrid
    model is a parameter: the residual it adds to the macro workset.  Not modelled: timers,
    files and the Python calls (the predictions read back are a parameter), the macro-element
    workset, sensitivities. *)
From Coq Require Import String Bool Arith ZArith Reals List.
From Verif Require Import Mass_Model BProj_Model.
Import ListNotations.
Local Open Scope R_scope.

(* ------------------------------------------------------------------ constructor *)

(** What the constructor reads from one sublist of "Subgrid" (multiscaleManager.cpp 123-155). *)
Record sgdeck := { sd_type : string; sd_block : string; sd_usage : option R }.
(** The fields the constructor sets (147, 155). *)
Record sgmodel := { sg_kind : string; sg_block : nat; sg_usage : R }.

(** macro_block: default 0, then the last block of that name, 128-134. *)
Definition ms_lookup (blocks : list string) (nm : string) : nat :=
  fold_left (fun acc m => if String.eqb (nth m blocks ""%string) nm then m else acc)
            (seq 0 (List.length blocks)) 0%nat.

(** subgridModels[subgridModels.size()-1]->macro_block = ...; ->usage = ...
    (out of range when the vector is empty: None). *)
Definition ms_setlast (l : list sgmodel) (b : nat) (u : R) : option (list sgmodel) :=
  match rev l with
  | nil => None
  | m :: r => Some (rev ({| sg_kind := sg_kind m; sg_block := b; sg_usage := u |} :: r))
  end.

(** One pass of the loop 123-156; j is the index of the sublist. *)
Definition ms_step (blocks : list string) (st : option (list sgmodel)) (jd : nat * sgdeck) : option (list sgmodel) :=
  match st with
  | None => None
  | Some l =>
      let d := snd jd in
      let b := ms_lookup blocks (sd_block d) in
      let pushed :=
        if String.eqb (sd_type d) "DtN" || String.eqb (sd_type d) "DtN2"
        then (l ++ [{| sg_kind := sd_type d; sg_block := 0; sg_usage := 0 |}])%list else l in
      let u := match sd_usage d with Some u => u | None => if Nat.eqb (fst jd) 0 then 1 else 0 end in
      ms_setlast pushed b u
  end.
(** Lines 72-85 and 122-156: the sublists in order, at most "number of models" of them. *)
Definition ms_construct (blocks : list string) (limit : nat) (decks : list sgdeck) : option (list sgmodel) :=
  let ds := firstn limit decks in
  fold_left (ms_step blocks) (combine (seq 0 (List.length ds)) ds) (Some nil).

(* ------------------------------------------------------------------ voting *)

(** Does any model belong to this block?  assemblyManager_util.hpp 301-306, multiscaleManager.cpp 240-245 *)
Definition ms_uses (ms : list sgmodel) (b : nat) : bool := existsb (fun m => Nat.eqb (sg_block m) b) ms.

(** sgvotes for one group: models of the block count the points where the usage is at least one,
    the others stay at zero, 313-342. *)
Definition ms_votes (ms : list sgmodel) (b : nat) (usage : nat -> nat -> nat -> R) (ne np : nat) : list Z :=
  map (fun s =>
         match nth_error ms s with
         | Some m =>
             if Nat.eqb (sg_block m) b
             then Z.of_nat (List.length (filter (fun ep => if Rle_dec 1 (usage s (fst ep) (snd ep)) then true else false)
                                           (list_prod (seq 0 ne) (seq 0 np))))
             else 0%Z
         | None => 0%Z
         end) (seq 0 (List.length ms)).

(** The scan of the votes, 344-351. *)
Fixpoint ms_scan (votes : list Z) (i : nat) (mx : Z) (w : nat) : nat :=
  match votes with
  | nil => w
  | v :: r => if Z.leb mx v then ms_scan r (S i) v i else ms_scan r (S i) mx w
  end.
Definition ms_winner (votes : list Z) : nat := ms_scan votes 0 (-1)%Z 0.

(** identifySubgridModels, 292-358: usage is indexed by block, group, model, element, point. *)
Definition ms_identify (ms : list sgmodel) (sizes : list (list nat)) (np : nat)
    (usage : nat -> nat -> nat -> nat -> nat -> R) : list (list nat) :=
  map (fun b =>
         if ms_uses ms b
         then map (fun g => ms_winner (ms_votes ms b (usage b g) (nth g (nth b sizes nil) 0%nat) np))
                  (seq 0 (List.length (nth b sizes nil)))
         else nil) (seq 0 (List.length sizes)).

(* ------------------------------------------------------------------ initialize *)

(** What the manager keeps of a group: block, elements, model in use and user number. *)
Record sggrp := { gr_block : nat; gr_ne : nat; gr_idx : nat; gr_user : nat }.

(** MultiscaleManager::initialize 236-266: the groups in order of block and number, w being the
    list sgmodels flattened over the blocks that use subgrid models.  Each model's macroData grows
    by one per group (subgridDtN2.cpp 88-102), so that the number returned is the running count.
    my_cost is assigned, not accumulated (262). *)
Fixpoint ms_init (ms : list sgmodel) (cost : nat -> R) (gs : list sggrp) (w : list nat) (n : nat) (my : R)
  : list sggrp * nat * R :=
  match gs with
  | nil => (nil, n, my)
  | g :: r =>
      if ms_uses ms (gr_block g)
      then let k := hd 0%nat w in
           let g' := {| gr_block := gr_block g; gr_ne := gr_ne g; gr_idx := k; gr_user := n |} in
           let '(r', n', my') := ms_init ms cost r (tl w) (S n) (cost k * INR (gr_ne g)) in
           (g' :: r', n', my')
      else let '(r', n', my') := ms_init ms cost r w n my in (g :: r', n', my')
  end.

(** active lists (295-305, 311-322; update 420-431): a write outside the vector has no
    defined effect in C++ and is dropped here. *)
Fixpoint ms_set (l : list bool) (u : nat) : list bool :=
  match l, u with
  | nil, _ => nil
  | _ :: r, O => true :: r
  | b :: r, S u' => b :: ms_set r u'
  end.
Definition ms_active (gs : list sggrp) (nusers s : nat) : list bool :=
  fold_left (fun a g => if Nat.eqb (gr_idx g) s then ms_set a (gr_user g) else a) gs (repeat false nusers).

(** The printed load balancing factor: both reductions write gmin, gmax keeps its initial zero
    (update 848-855, solverManager_setup.hpp 791-799). *)
Definition ms_balance (costs : list R) : R :=
  let gmin := fold_right Rmin (hd 0 costs) costs in
  let gmax := 0 in
  let gmin := fold_right Rmax (hd 0 costs) costs in
  gmax / gmin.

(** my_cost of update for static subgrids (372-385). *)
Definition ms_update_cost (cost : nat -> R) (gs : list sggrp) : R :=
  fold_left (fun a g => a + cost (gr_idx g) * INR (gr_ne g)) gs 1.

(* ------------------------------------------------------------------ update *)

(** prev_soln of every model and user, and the previous time of every model. *)
Record sgstate := { st_prev : nat -> nat -> list R; st_time : nat -> R }.
Record sgproj := { pj_map : nat -> nat -> list R -> list R; pj_solve : nat -> list R -> list R }.

(** update 394-416 (user-defined selection) and 661-681 (ML): if the model changes, its previous
    solution is the projection of that of the old model, and its previous time the old one's. *)
Definition ms_switch (P : sgproj) (st : sgstate) (g : sggrp) (w : nat) : sgstate * sggrp :=
  let g' := {| gr_block := gr_block g; gr_ne := gr_ne g; gr_idx := w; gr_user := gr_user g |} in
  if Nat.eqb w (gr_idx g) then (st, g')
  else
    let rhs := pj_map P w (gr_idx g) (st_prev st (gr_idx g) (gr_user g)) in
    let nv := pj_solve P w rhs in
    ({| st_prev := fun m u => if Nat.eqb m w && Nat.eqb u (gr_user g) then nv else st_prev st m u;
        st_time := fun m => if Nat.eqb m w then st_time st (gr_idx g) else st_time st m |}, g').
Fixpoint ms_update (P : sgproj) (st : sgstate) (gs : list sggrp) (w : list nat) : sgstate * list sggrp :=
  match gs with
  | nil => (st, nil)
  | g :: r =>
      let '(st1, g1) := ms_switch P st g (hd 0%nat w) in
      let '(st2, r1) := ms_update P st1 r (tl w) in (st2, g1 :: r1)
  end.

(* ------------------------------------------------------------------ hierarchical selection *)

(** A residual as the list of its entries; sqrt of the sum of squares, 951-961 *)
Definition ms_norm (r : list R) : R := sqrt (fold_right (fun x a => x * x + a) 0 r).
(** prev_res and res are compared entry by entry, 963-973. *)
Fixpoint ms_diff (a b : list R) : list R :=
  match a, b with x :: a', y :: b' => (x - y) :: ms_diff a' b' | _, _ => nil end.
(** error < reltol, where error = sqrt(resdiff)/resnorm; a quotient by zero is an infinity or not
    a number, for which the comparison is false, 975-976. *)
Definition ms_close (prev res : list R) (tol : R) : bool :=
  if Req_EM_T (ms_norm res) 0 then false
  else if Rlt_dec (ms_norm (ms_diff res prev) / ms_norm res) tol then true else false.

(** The loop 930-984 from cmodel on, with the residual prev of the model before; n the number of
    models; fuel bounds the passes. *)
Fixpoint ms_hier_loop (n : nat) (solve : nat -> list R) (tol : R) (fuel cmodel : nat) (prev : list R) : nat * list R :=
  let res := solve cmodel in
  match fuel with
  | O => (cmodel, res)
  | S f =>
      if Nat.eqb cmodel (n - 1) then (cmodel, res)
      else if ms_close prev res tol then (cmodel, res)
      else ms_hier_loop n solve tol f (S cmodel) res
  end.
(** evaluateMacroMicroMacroMap for the hierarchical selection, 920-990: the model the group
    is left with (unchanged if there is one model only) and the residual. *)
Definition ms_hier (n : nat) (solve : nat -> list R) (tol : R) (old : nat) : nat * list R :=
  if Nat.ltb 1 n then ms_hier_loop n solve tol n 1 (solve 0%nat) else (old, solve 0%nat).

(* ------------------------------------------------------------------ ML selection *)

(** error < abstol || error/resnorm < reltol, 1150-1157: one element; res and ref its rows. *)
Definition ms_label (res ref : list R) (abstol reltol : R) : R :=
  let err := ms_norm (ms_diff res ref) in
  if Rlt_dec err abstol then 1
  else if Req_EM_T (ms_norm ref) 0 then 0
  else if Rlt_dec (err / ms_norm ref) reltol then 1 else 0.

(** Training data of every model: inputs and labels. *)
Record sgtrain := { tr_in : nat -> list (list R); tr_out : nat -> list R }.
(** evaluateMacroMicroMacroMap while training, 997-1176: nw rows (the extent of the block's
    solution array), row e of the input and of the residual of model m.  Returns the residual left
    in the workset. *)
Definition ms_train (n nw : nat) (inp : nat -> list R) (solve : nat -> nat -> list R) (abstol reltol : R)
    (t : sgtrain) : sgtrain * (nat -> list R) :=
  let fine := solve (n - 1)%nat in
  ({| tr_in := fun m => if Nat.ltb m n then (tr_in t m ++ map inp (seq 0 nw))%list else tr_in t m;
      tr_out := fun m => if Nat.ltb m (n - 1)
                         then (tr_out t m ++ map (fun e => ms_label (solve m e) (fine e) abstol reltol) (seq 0 nw))%list
                         else tr_out t m |}, fine).

(** The rows written for prediction: the extent of the block's solution array for each group
    (457-577); here each row is tagged with its group and element. *)
Definition ms_rows (groups : list (nat * nat)) : list (nat * nat) :=
  flat_map (fun gi => map (fun e => (gi, e)) (seq 0 (snd (nth gi groups (0%nat, 0%nat))))) (seq 0 (List.length groups)).
(** sg_model_pred < 0.5 with integer entries, 643: accepted from 1 on. *)
Definition ms_ok (pred : list Z) (prog ne : nat) : bool :=
  forallb (fun e => Z.leb 1 (nth (prog + e) pred 0%Z)) (seq 0 ne).
(** The loop over the models for one group, 636-658. *)
Fixpoint ms_first (preds : list (list Z)) (prog ne k : nat) : nat :=
  match preds with
  | nil => k
  | p :: r => if ms_ok p prog ne then k else ms_first r prog ne (S k)
  end.
(** All groups: prog advances by the number of elements of the group, 632-659. *)
Fixpoint ms_predict (preds : list (list Z)) (groups : list (nat * nat)) (prog : nat) : list nat :=
  match groups with
  | nil => nil
  | (ne, _) :: r => ms_first preds prog ne 0 :: ms_predict preds r (prog + ne)
  end.

(** The training state, 39-42 and update 437-441, 699-700. *)
Record sgphase := { ph_train : bool; ph_steps : nat; ph_have : bool }.
Definition ms_phase0 (have : bool) : sgphase := {| ph_train := true; ph_steps := 0; ph_have := have |}.
Definition ms_phase (maxs : nat) (p : sgphase) : sgphase :=
  if Nat.ltb (ph_steps p) maxs then {| ph_train := ph_train p; ph_steps := S (ph_steps p); ph_have := ph_have p |}
  else if ph_have p then p
  else {| ph_train := false; ph_steps := ph_steps p; ph_have := true |}.
(** Does update choose models from the predictions?  438-441 *)
Definition ms_predicts (maxs : nat) (p : sgphase) : bool := negb (Nat.ltb (ph_steps p) maxs) && ph_have p.
(** The model whose residual the evaluation returns, 997 and 1178-1188. *)
Definition ms_used (p : sgphase) (nl_iter n idx : nat) : nat :=
  if ph_train p && Nat.ltb 0 nl_iter then (n - 1)%nat else idx.

(* ------------------------------------------------------------------ dispatch *)

(** groupMetaData.cpp 59-62 and assemblyManager_jacres.hpp 366-383: which residual a group gets,
    its own physics (None) or the macro-micro-macro map with model index k (Some k). *)
Definition ms_dispatch (has_subgrid : bool) (g : sggrp) : option nat := if has_subgrid then Some (gr_idx g) else None.
