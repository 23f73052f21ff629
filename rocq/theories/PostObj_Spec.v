(** What objectives and their gradients are meant to be. *)
From Coq Require Import Arith Reals List Permutation.
Import ListNotations.
From Verif Require Import BProj_Model PostObj_Model.
Local Open Scope R_scope.

(** The elements and the sensors of a run, whatever process and group holds them. *)
Definition elements (ranks : list proc) : list melem := flat_map (fun pr => concat (groups pr)) ranks.
Definition all_sensors (ranks : list proc) : list sensor := flat_map sensors ranks.
(** The integral over the mesh of a function of the point. *)
Definition over (mesh : list melem) (f : melem -> nat -> R) : R :=
  sm mesh (fun e => sm (seq 0 (npt e)) (fun x => wt e x * f e x)).
(** The objective's function at a point: the state and the parameters are those of its element. *)
Definition density (o : objective) (u : nat -> R) (p : pars) (e : melem) (x : nat) : R :=
  func o (fun k => u (lid e k)) {| disc := fun k => disc p (plid e k); scal := scal p |} e x.
Definition reading (q : sensor) (u : nat -> R) (p : pars) : R :=
  resp q (fun k => u (lid (s_elem q) k)) {| disc := fun k => disc p (plid (s_elem q) k); scal := scal p |}.
(** The regularization terms. *)
Definition penalty (mesh : list melem) (ns : nat) (p : pars) (g : reg) : R :=
  match g with
  | Integrated w rf _ => w * over mesh (fun e => rf {| disc := fun k => disc p (plid e k); scal := scal p |} e)
  | L2Norm w => w * sm (seq 0 ns) (fun k => (scal p k) ^ 2)
  end.
Definition penalties (mesh : list melem) (ns : nat) (o : objective) (p : pars) : R := sm (regs o) (penalty mesh ns p).

(** The time integral of a quantity recorded at [times]: the value of a single record is that of
    a steady problem, otherwise each step counts with the value at its end. *)
Definition in_time (h : history) (g : nat -> R) : R :=
  if (nrec h =? 1)%nat then g 0%nat else sm (seq 1 (nrec h - 1)) (fun t => (times h t - times h (t - 1)) * g t).
(** The sum of a quantity over the steps. *)
Definition over_steps (h : history) (g : nat -> R) : R :=
  if (nrec h =? 1)%nat then g 0%nat else sm (seq 1 (nrec h - 1)) g.
(** The time of datum [i] is the time [cur] of a record. *)
Definition simultaneous (l : list R) (cur : R) (i : nat) : Prop := Rabs (cur - nth i l 0) < 1 / 10 ^ 12.
(** Two data of a sensor never belong to the same record. *)
Definition separated (l : list R) : Prop :=
  forall i j, (i < length l)%nat -> (j < length l)%nat -> i <> j -> 2 / 10 ^ 12 <= Rabs (nth i l 0 - nth j l 0).

(** Automatic differentiation computes derivatives. *)
Definition diff_state (o : objective) : Prop := forall u p e x v,
  derivable_pt_lim (fun s => func o (fun k => u k + s * v k) p e x) 0 (sm (seq 0 (ndof e)) (fun k => dfu o u p e x k * v k)).
Definition diff_sensors (ranks : list proc) : Prop := forall q, In q (all_sensors ranks) -> forall u p v,
  derivable_pt_lim (fun s => resp q (fun k => u k + s * v k) p) 0 (sm (seq 0 (ndof (s_elem q))) (fun k => dresp q u p k * v k)).
Definition diff_disc (o : objective) : Prop := forall u p e x v,
  derivable_pt_lim (fun s => func o u {| disc := fun k => disc p k + s * v k; scal := scal p |} e x) 0
    (sm (seq 0 (npdof e)) (fun k => dfp o u p e x k * v k)).
Definition diff_regs (o : objective) : Prop := forall w rf drf, In (Integrated w rf drf) (regs o) -> forall p e x v,
  derivable_pt_lim (fun s => rf {| disc := fun k => disc p k + s * v k; scal := scal p |} e x) 0
    (sm (seq 0 (npdof e)) (fun k => drf p e x k * v k)).
Definition diff_scal (o : objective) (ns : nat) : Prop := forall u p e x v,
  derivable_pt_lim (fun s => func o u {| disc := disc p; scal := fun k => scal p k + s * v k |} e x) 0
    (sm (seq 0 ns) (fun k => dfs o u p e x k * v k)).
(** The unknowns of every element are among those of the problem. *)
Definition numbered (n np : nat) (ranks : list proc) : Prop :=
  (forall e, In e (elements ranks) -> (forall k, (k < ndof e)%nat -> (lid e k < n)%nat) /\ (forall k, (k < npdof e)%nat -> (plid e k < np)%nat)) /\
  (forall q, In q (all_sensors ranks) -> forall k, (k < ndof (s_elem q))%nat -> (lid (s_elem q) k < n)%nat).

(** The run with the state of record [k] moved by [s] in direction [v]. *)
Definition moved (h : history) (k : nat) (v : nat -> R) (s : R) : history :=
  {| nrec := nrec h; times := times h;
     states := fun t i => if (t =? k)%nat then states h t i + s * v i else states h t i |}.
(** The parameters moved by [s] in direction [v]. *)
Definition moved_disc (p : pars) (v : nat -> R) (s : R) : pars := {| disc := fun k => disc p k + s * v k; scal := scal p |}.
Definition moved_scal (p : pars) (v : nat -> R) (s : R) : pars := {| disc := disc p; scal := fun k => scal p k + s * v k |}.
(** A record that counts, told apart from the others by its time. *)
Definition counted (h : history) (k : nat) : Prop :=
  (nrec h = 1%nat /\ k = 0%nat) \/
  ((1 <= k < nrec h)%nat /\ 0 < times h k /\
   forall t, (1 <= t < nrec h)%nat -> t <> k -> times h k / 10 ^ 12 <= Rabs (times h t - times h k)).
