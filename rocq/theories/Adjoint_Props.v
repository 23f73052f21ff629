(** C56: the transient adjoint gradient. *)
From Coq Require Import Bool Arith Lia Reals Lra List.
From Verif Require Import Mass_Props Newton_Model Newton_Props PCG_Model PCG_Props Adjoint_Model Assembly_Model Assembly_Props.
Import ListNotations.
Local Open Scope R_scope.

Lemma transp_dot n A u v : dotp n (apply n (transp A) u) v = dotp n u (apply n A v).
Proof.
  unfold dotp, apply, transp.
  rewrite (vs_ext n _ (fun i => vsum n (fun j => A j i * u j * v i))).
  2:{ intros i _. rewrite Rmult_comm, <- vs_scal. apply vs_ext. intros. ring. }
  rewrite vs_swap. apply vs_ext. intros j _. rewrite <- vs_scal. apply vs_ext. intros. ring.
Qed.

Fixpoint upto (N : nat) (f : nat -> R) : R := match N with O => 0 | S m => upto m f + f (S m) end.

(** The matrix assembled in adjoint mode from the derivatives [D] of the residual: the
    rows of the fixed unknowns are [c] times identity rows, the others are transposed
    (C19_jacobian_fixed, C19_jacobian_free). *)
Definition adjoint_of (n : nat) (fx : nat -> bool) (c : R) (D A : nat -> nat -> R) : Prop :=
  forall i j, (i < n)%nat -> (j < n)%nat -> A i j = if fx i then (if (i =? j)%nat then c else 0) else D j i.

Lemma adjoint_fixed n fx c D A x i : adjoint_of n fx c D A -> (i < n)%nat -> fx i = true -> apply n A x i = c * x i.
Proof.
  intros H Hi F. unfold apply. rewrite (vs_ext n _ (fun j => if (j =? i)%nat then c * x j else 0)).
  - unfold vsum. apply (rsum_single n i (fun j => c * x j)). auto.
  - intros j Hj. rewrite (H i j Hi Hj), F, Nat.eqb_sym. destruct (j =? i)%nat; ring.
Qed.

Lemma adjoint_dot n fx c D A x y : adjoint_of n fx c D A -> (forall i, (i < n)%nat -> fx i = true -> y i = 0) ->
  dotp n (apply n A x) y = dotp n x (apply n D y).
Proof.
  intros H Hy. rewrite <- transp_dot. apply vs_ext. intros i Hi. destruct (fx i) eqn:F; [rewrite (Hy i Hi F); ring|].
  f_equal. unfold apply. apply vs_ext. intros j Hj. rewrite (H i j Hi Hj), F. reflexivity.
Qed.

Section Gradient.
Variable n : nat.
Variable fx : nat -> bool.
Variable c : R.
Hypothesis Hc : c <> 0.
(** Derivatives of the residual and the matrices assembled from them. *)
Variable J K JA KA : nat -> nat -> nat -> R.
Hypothesis HJ : forall m, adjoint_of n fx c (J m) (JA m).
Hypothesis HK : forall m, adjoint_of n fx c (K m) (KA m).
Variable P : nat -> nat -> nvec.
Variable g : nat -> nvec.
Variable h : nat -> nat -> R.
(** Scattering leaves out the fixed unknowns. *)
Hypothesis HP : forall m p i, (i < n)%nat -> fx i = true -> P m p i = 0.
Hypothesis Hg : forall m i, (i < n)%nat -> fx i = true -> g m i = 0.
Variable solveT : nat -> nvec -> nvec.
Hypothesis Hsolve : forall m r i, (i < n)%nat -> apply n (JA m) (solveT m r) i = r i.
(** Tangents of the forward solution with respect to each parameter. *)
Variable w : nat -> nat -> nvec.
Hypothesis Hfix : forall m p i, (i < n)%nat -> fx i = true -> w m p i = 0.
Hypothesis Htan : forall m p i, (1 <= m)%nat -> (i < n)%nat -> fx i = false ->
  apply n (J m) (w m p) i + apply n (K m) (w (m - 1) p) i + P m p i = 0.

Lemma loop_gradient N : forall s st, a_store s = [[st]] -> (forall i, (i < n)%nat -> fx i = true -> st i = 0) ->
  exists s' st', adj_loop n JA KA P g h solveT N s = Some s' /\ a_store s' = [[st']] /\
    forall p, a_grad s' p = a_grad s p + upto N (fun m => dotp n (g m) (w m p) + h m p)
                            + dotp n st (w N p) - dotp n st' (w 0 p).
Proof.
  induction N as [|N IH]; intros s st Hst Hz.
  - exists s, st. split; auto. split; auto. intros p. cbn [upto]. ring.
  - cbn [adj_loop]. unfold adj_step. rewrite Hst. cbn [diagonal nth_error put00].
    set (phi := adjoint_solver (apply n (JA (S N))) (solveT (S N)) (fun i => - g (S N) i) [st] (a_phi s)).
    set (s1 := {| a_phi := phi; a_store := [[apply n (KA (S N)) phi]]; a_grad := _ |}).
    assert (AD : forall i, (i < n)%nat -> apply n (JA (S N)) phi i = - g (S N) i - st i).
    { intros i Hi. unfold phi. rewrite (C55_adjoint n (apply n (JA (S N))) (solveT (S N))); auto.
      - cbn [fold_right]. ring.
      - intros u v k Hk. rewrite (apply_ext n _ _ (fun j => 1 * u j + 1 * v j)) by (intros; ring). rewrite apply_lin. ring. }
    assert (PZ : forall i, (i < n)%nat -> fx i = true -> phi i = 0).
    { intros i Hi F. pose proof (AD i Hi) as E. rewrite (adjoint_fixed n fx c _ _ phi i (HJ (S N)) Hi F), (Hg _ _ Hi F), (Hz i Hi F) in E.
      assert (E0 : c * phi i = 0) by lra. apply Rmult_integral in E0 as [E0|E0]; [contradiction|auto]. }
    destruct (IH s1 (apply n (KA (S N)) phi) eq_refl) as (s' & st' & E & ES & EG).
    { intros i Hi F. rewrite (adjoint_fixed n fx c _ _ phi i (HK (S N)) Hi F), PZ by auto. ring. }
    exists s', st'. split; auto. split; auto. intros p. rewrite EG. unfold s1 at 1. cbn [a_grad upto].
    assert (SE : - vsum n (fun i => phi i * - P (S N) p i) = dotp n (g (S N)) (w (S N) p) + dotp n st (w (S N) p)
       - dotp n (apply n (KA (S N)) phi) (w N p)).
    { assert (E1 : - vsum n (fun i => phi i * - P (S N) p i) = dotp n phi (P (S N) p)).
      { rewrite (vs_ext n _ (fun i => -1 * (phi i * P (S N) p i))) by (intros; ring). rewrite vs_scal. unfold dotp. ring. }
      rewrite E1.
      assert (E2 : dotp n phi (P (S N) p) = dotp n phi (fun i => -1 * apply n (J (S N)) (w (S N) p) i + -1 * apply n (K (S N)) (w N p) i)).
      { apply vs_ext. intros i Hi. destruct (fx i) eqn:F; [rewrite (PZ i Hi F); ring|].
        pose proof (Htan (S N) p i ltac:(lia) Hi F) as T. replace (S N - 1)%nat with N in T by lia. f_equal. lra. }
      rewrite E2, dot_lin_r.
      rewrite <- (adjoint_dot n fx c (J (S N)) (JA (S N)) phi), <- (adjoint_dot n fx c (K (S N)) (KA (S N)) phi) by (auto; intros; apply Hfix; auto).
      rewrite (dot_ext n (apply n (JA (S N)) phi) (fun i => -1 * g (S N) i + -1 * st i) _ (w (S N) p)) by (auto; intros; rewrite AD by auto; ring).
      rewrite dot_lin. ring. }
    rewrite SE. ring.
Qed.

(** One-step method, one set, Dirichlet conditions that do not depend on the parameters:
    for every number of steps, unknowns and parameters and every starting vector, the
    accumulated gradient is the derivative of the summed objective along the tangents, up
    to the derivative of the initial state. *)
Theorem C56_dirichlet N phi0 : exists s' st',
  adj_loop n JA KA P g h solveT N (adj_init 1 1 phi0) = Some s' /\ a_store s' = [[st']] /\
  forall p, a_grad s' p = upto N (fun m => dotp n (g m) (w m p) + h m p) - dotp n st' (w 0 p).
Proof.
  destruct (loop_gradient N (adj_init 1 1 phi0) (fun _ => 0) eq_refl ltac:(auto)) as (s' & st' & E & ES & EG).
  exists s', st'. split; auto. split; auto. intros p. rewrite EG. cbn [adj_init a_grad].
  rewrite (dot_zero n (fun _ => 0)) by auto. ring.
Qed.

Theorem C56_fixed_initial N phi0 : (forall p i, (i < n)%nat -> w 0 p i = 0) -> exists s',
  adj_loop n JA KA P g h solveT N (adj_init 1 1 phi0) = Some s' /\
  forall p, a_grad s' p = upto N (fun m => dotp n (g m) (w m p) + h m p).
Proof.
  intros H. destruct (C56_dirichlet N phi0) as (s' & st' & E & _ & EG). exists s'. split; auto. intros p. rewrite EG.
  rewrite dot_comm, dot_zero; [ring|]. intros. apply H. auto.
Qed.
End Gradient.
Print Assumptions C56_dirichlet.
Print Assumptions C56_fixed_initial.

(** Without Dirichlet conditions. *)
Theorem C56_gradient n J K P g h solveT w N phi0 :
  (forall m r i, (i < n)%nat -> apply n (transp (J m)) (solveT m r) i = r i) ->
  (forall m p i, (1 <= m)%nat -> (i < n)%nat -> apply n (J m) (w m p) i + apply n (K m) (w (m - 1)%nat p) i + P m p i = 0) ->
  exists s' st',
  adj_loop n (fun m => transp (J m)) (fun m => transp (K m)) P g h solveT N (adj_init 1 1 phi0) = Some s' /\ a_store s' = [[st']] /\
  forall p, a_grad s' p = upto N (fun m => dotp n (g m) (w m p) + h m p) - dotp n st' (w 0%nat p).
Proof.
  intros HS HT. apply (C56_dirichlet n (fun _ => false) 1 ltac:(lra) J K); auto; try discriminate; intros m i j _ _; reflexivity.
Qed.
Print Assumptions C56_gradient.

(** The matrices that [Assembly_Model] assembles in adjoint mode are of this form. *)
Theorem C56_assembled n ps fx : ps <> [] ->
  (forall i p, In p ps -> wf_proc p /\ pblocks p <> [] /\ ppoint p = [] /\ flag (pfixed p) i = fx i) ->
  adjoint_of n fx (INR (length ps)) (raw_jac ps) (asm_jac (Stored true) None ps) /\ INR (length ps) <> 0.
Proof.
  intros HP H. split; [|apply not_0_INR; destruct ps; [congruence|discriminate]].
  intros i j _ _. destruct (fx i) eqn:F.
  - apply C19_jacobian_fixed. intros p Hp. destruct (H i p Hp) as (? & ? & ? & E). rewrite F in E. apply flag_spec in E. auto.
  - rewrite C19_jacobian_free; [reflexivity|]. intros p Hp. destruct (H i p Hp) as (? & ? & E & E'). split; auto.
    intros [C|C]; [apply flag_spec in C; congruence|rewrite E in C; destruct C].
Qed.
Print Assumptions C56_assembled.

(** A parameter in the initial state: u_n = u_(n-1), objective u_1, u_0 = p.  The true
    derivative is 1, the computed gradient 0. *)
Theorem C56_initial_refuted : exists J K P g h solveT w,
  (forall m r i, (i < 1)%nat -> apply 1 (transp (J m)) (solveT m r) i = r i) /\
  (forall m p i, (1 <= m)%nat -> (i < 1)%nat -> apply 1 (J m) (w m p) i + apply 1 (K m) (w (m - 1)%nat p) i + P m p i = 0) /\
  upto 1 (fun m => dotp 1 (g m) (w m 0%nat) + h m 0%nat) = 1 /\
  exists s', adj_loop 1 (fun m => transp (J m)) (fun m => transp (K m)) P g h solveT 1 (adj_init 1 1 (fun _ => 0)) = Some s' /\ a_grad s' 0%nat = 0.
Proof.
  exists (fun _ _ _ => 1), (fun _ _ _ => -1), (fun _ _ _ => 0), (fun _ _ => 1), (fun _ _ => 0), (fun _ r => r), (fun _ _ _ => 1).
  split; [intros m r i Hi; replace i with 0%nat by lia; unfold apply, transp, vsum; cbn; ring|].
  split; [intros; unfold apply, vsum; cbn; ring|].
  split; [cbn; ring|]. eexists. split; [reflexivity|]. cbn. ring.
Qed.
Print Assumptions C56_initial_refuted.

(** Two or more steps in the method and one set: the first adjoint step reads outside the
    stored vectors. *)
Theorem C56_multistep_refuted n JA KA P g h solveT numsteps N phi0 : (2 <= numsteps)%nat ->
  adj_loop n JA KA P g h solveT (S N) (adj_init numsteps 1 phi0) = None.
Proof.
  intros H. destruct numsteps as [|[|k]]; try lia. reflexivity.
Qed.
Print Assumptions C56_multistep_refuted.

(** A fixed unknown whose objective derivative is not masked, as for the "discrete
    control" objective (postprocessManager_objective_gradient.hpp lines 1327-1346):
    unknown 0 is fixed, the residual of unknown 1 is u_1 + u_0 - p, the objective u_0 + u_1.
    The derivative is 1, the computed gradient 2. *)
Theorem C56_unmasked_refuted : exists (fx : nat -> bool) (J K JA KA : nat -> nat -> nat -> R) (P : nat -> nat -> nvec) (g : nat -> nvec) (solveT : nat -> nvec -> nvec) (w : nat -> nat -> nvec),
  (forall m : nat, adjoint_of 2 fx 1 (J m) (JA m)) /\ (forall m : nat, adjoint_of 2 fx 1 (K m) (KA m)) /\ (forall m p i, (i < 2)%nat -> fx i = true -> P m p i = 0 /\ w m p i = 0) /\ (forall m r i, (i < 2)%nat -> apply 2 (JA m) (solveT m r) i = r i) /\ (forall m p i, (1 <= m)%nat -> (i < 2)%nat -> fx i = false -> apply 2 (J m) (w m p) i + apply 2 (K m) (w (m - 1)%nat p) i + P m p i = 0) /\ upto 1 (fun m => dotp 2 (g m) (w m 0%nat)) = 1 /\ exists s', adj_loop 2 JA KA P g (fun _ _ => 0) solveT 1 (adj_init 1 1 (fun _ => 0)) = Some s' /\ a_grad s' 0%nat = 2.
Proof.
  set (J := fun (m i j : nat) => if (i =? 1)%nat then 1 else if (j =? 0)%nat then 1 else -1).
  set (JA := fun (m i j : nat) => if (i =? 0)%nat then (if (i =? j)%nat then 1 else 0) else J m j i).
  set (KA := fun (m i j : nat) => if (i =? 0)%nat then (if (i =? j)%nat then 1 else 0) else 0).
  exists (fun i => (i =? 0)%nat), J, (fun _ _ _ => 0), JA, KA, (fun _ _ i => if (i =? 0)%nat then 0 else -1), (fun _ _ => 1),
    (fun _ r i => if (i =? 0)%nat then r 0%nat else r 1%nat + r 0%nat), (fun _ _ i => if (i =? 0)%nat then 0 else 1).
  split; [intros m i j _ _; reflexivity|]. split; [intros m i j _ _; reflexivity|].
  split; [intros m p [|i] _ F; [auto|discriminate]|].
  split; [intros m r [|[|i]] Hi; [| |lia]; unfold apply, vsum, JA, J; cbn; ring|].
  split; [intros m p [|[|i]] _ Hi F; [discriminate| |lia]; unfold apply, vsum, J; cbn; ring|].
  split; [cbn; ring|]. eexists. split; [reflexivity|]. cbv -[IZR Rplus Rmult Ropp Rminus]. ring.
Qed.
Print Assumptions C56_unmasked_refuted.

(** The hypotheses are met by a nontrivial 2 by 2 example with two steps. *)
Example C56_hypotheses_met : exists (J K : nat -> nat -> nat -> R) (P : nat -> nat -> nvec) (solveT : nat -> nvec -> nvec) (w : nat -> nat -> nvec),
  (forall m r i, (i < 2)%nat -> apply 2 (transp (J m)) (solveT m r) i = r i) /\
  (forall m p i, (1 <= m)%nat -> (i < 2)%nat -> apply 2 (J m) (w m p) i + apply 2 (K m) (w (m - 1)%nat p) i + P m p i = 0) /\
  (forall p i, w 0%nat p i = 0) /\ w 2%nat 0%nat 0%nat <> 0 /\ J 1%nat 0%nat 1%nat <> J 1%nat 1%nat 0%nat.
Proof.
  set (w := fun (m p i : nat) => match m with O => 0 | S _ => INR m + INR i end).
  set (J := fun (m i j : nat) => if Nat.eqb i j then 1 else if Nat.ltb i j then 2 else 0).
  set (K := fun (m i j : nat) => if Nat.eqb i j then -1 else 0).
  exists J, K, (fun m p i => - (apply 2 (J m) (w m p) i + apply 2 (K m) (w (m - 1)%nat p) i)),
    (fun m r i => if Nat.eqb i 0 then r 0%nat else r 1%nat - 2 * r 0%nat), w.
  split; [intros m r [|[|i]] Hi; [| |lia]; unfold apply, transp, vsum, J; cbn; ring|].
  split; [intros; ring|]. split; [reflexivity|]. split; unfold w, J; cbn; lra.
Qed.
