(** C28: outcome of the nonlinear solver; C54: linear problems; C55: adjoint solve. *)
From Coq Require Import Bool Arith ZArith Lia Reals Lra List.
From Verif Require Import Newton_Model.
Import ListNotations.
Local Open Scope R_scope.

Section Outcome.
Variable o : nlopts.
Variable resnorm : nvec -> R.
Variable linsolve : nat -> nvec -> nvec.
Notation body := (nl_body o resnorm linsolve).
Notation loop := (nl_loop o resnorm linsolve).
Notation solver := (nonlinear_solver o resnorm linsolve).

(** The tolerance test in plain words, for a residual norm r and a first norm r0. *)
Definition tolerance_met (r0 r : R) : Prop :=
  if nl_rel o then (r0 <> 0 /\ r < nl_tol o * r0) \/ r < / 10 ^ 100 else nl_abs o = true /\ r < nl_abstol o.

Lemma body_iter s : n_iter (fst (body s)) = S (n_iter s).
Proof.
  unfold nl_body. destruct (nl_backtrack o && _); [reflexivity|]. destruct (stops o _ _); reflexivity.
Qed.

(** Induction over the passes of a finished loop. *)
Inductive reaches : nlstate -> nlstate -> Prop :=
| r_last s s' : body s = (s', false) -> reaches s s'
| r_more s s1 s' : body s = (s1, true) -> reaches s1 s' -> reaches s s'.

Lemma loop_reaches f s s' : loop f s = Some s' -> reaches s s'.
Proof.
  revert s. induction f as [|f IH]; intros s H; [discriminate|]. cbn in H.
  destruct (body s) as [s1 [|]] eqn:E; [eapply r_more; eauto|]. injection H as <-. apply r_last; auto.
Qed.

(** The loop ends within max(1, limit) passes, for every residual and linear solver. *)
Lemma loop_ends n s : (Z.to_nat (nl_max o) <= n + n_iter s)%nat -> (1 <= n)%nat ->
  exists s', loop n s = Some s' /\ (n_iter s' <= n + n_iter s)%nat.
Proof.
  revert s. induction n as [|n IH]; intros s H H1; [lia|]. cbn [nl_loop].
  pose proof (body_iter s) as I.
  destruct (body s) as [s1 go] eqn:E. cbn [fst] in I. destruct go.
  - assert (G : (Z.of_nat (n_iter s1) < nl_max o)%Z).
    { unfold nl_body in E. destruct (nl_backtrack o && _) in E; [|destruct (stops o _ _) in E];
      injection E as <- E; cbn [n_iter andb] in *; try discriminate; apply Z.ltb_lt in E; auto. }
    destruct (IH s1) as (s' & A & B); [lia|lia|]. exists s'. split; auto. lia.
  - exists s1. split; auto. lia.
Qed.

Theorem C28_terminates u du0 : exists s,
  loop (S (Z.to_nat (nl_max o))) (nl_start o u du0) = Some s /\
  (1 <= n_iter s)%nat /\ (Z.of_nat (n_iter s) <= Z.max 1 (nl_max o))%Z /\
  solver u du0 = Some (n_u s, nl_status o s).
Proof.
  destruct (Z.leb_spec (nl_max o) 0) as [L|G].
  - replace (Z.to_nat (nl_max o)) with 0%nat by lia.
    destruct (loop_ends 1 (nl_start o u du0)) as (s & A & B); [cbn; lia|lia|]. exists s. split; auto.
    assert (I : (1 <= n_iter s)%nat).
    { apply loop_reaches in A. clear -A. induction A as [s s' E|s s1 s' E _ IH]; auto.
      pose proof (body_iter s). rewrite E in H. cbn in H. lia. }
    split; auto. cbn in B. split; [lia|]. unfold nonlinear_solver. replace (Z.to_nat (nl_max o)) with 0%nat by lia. rewrite A. auto.
  - destruct (loop_ends (Z.to_nat (nl_max o)) (nl_start o u du0)) as (s & A & B); [cbn; lia|lia|].
    assert (M : forall f g z z', loop f z = Some z' -> (f <= g)%nat -> loop g z = Some z').
    { clear. induction f as [|f IH]; intros [|g] z z' H L; try discriminate; try lia. cbn in *.
      destruct (body z) as [z1 [|]]; auto. apply IH; auto. lia. }
    exists s. split; [eapply M; eauto; lia|].
    assert (I : (1 <= n_iter s)%nat).
    { apply loop_reaches in A. clear -A. induction A as [s s' E|s s1 s' E _ IH]; auto.
      pose proof (body_iter s). rewrite E in H. cbn in H. lia. }
    split; auto. cbn in B. split; [lia|]. unfold nonlinear_solver. rewrite (M _ (S (Z.to_nat (nl_max o))) _ _ A) by lia. auto.
Qed.

(** A loop that ends before the limit ends with the tolerance met at the returned
    solution: the residual norm there is below the tolerance times the first one, below
    1e-100, or below the absolute tolerance, as configured. *)
Lemma q_lt_first r r0 x : q_lt (quotient r r0) x = true -> 0 <= r0 -> r0 <> 0 /\ r < x * r0.
Proof.
  unfold q_lt, quotient. destruct (Req_EM_T r0 0); [destruct (Req_EM_T r 0); discriminate|].
  destruct (Rlt_dec (r / r0) x) as [H|]; [|discriminate]. intros _ P. split; auto.
  apply Rmult_lt_compat_r with (r := r0) in H; [|lra]. unfold Rdiv in H. rewrite Rmult_assoc, Rinv_l, Rmult_1_r in H by auto. auto.
Qed.

Theorem C28_early_exit_partial u du0 s : (forall v, 0 <= resnorm v) ->
  loop (S (Z.to_nat (nl_max o))) (nl_start o u du0) = Some s -> (Z.of_nat (n_iter s) < nl_max o)%Z ->
  (n_iter s = 1%nat /\ nl_rel o = true /\ 1 < nl_tol o /\ n_u s = u) \/ tolerance_met (resnorm u) (resnorm (n_u s)).
Proof.
  intros HP HL HI. apply loop_reaches in HL.
  assert (G : forall z, reaches z s -> (n_iter z = 0%nat /\ n_u z = u) \/ ((0 < n_iter z)%nat /\ n_first z = resnorm u) ->
    (n_iter s = 1%nat /\ nl_rel o = true /\ 1 < nl_tol o /\ n_u s = u) \/ tolerance_met (resnorm u) (resnorm (n_u s))).
  { intros z H. induction H as [z s E|z s1 s E H IH]; intros HZ.
    - unfold nl_body in E.
      destruct (nl_backtrack o && _) in E.
      { injection E as <- E. cbn [n_iter andb] in *. apply Z.ltb_ge in E. lia. }
      destruct (stops o _ _) eqn:ES in E.
      2:{ injection E as <- E. cbn [n_iter andb] in *. apply Z.ltb_ge in E. lia. }
      injection E as <-. cbn [n_u n_iter] in *. unfold stops, tolerance_met in *.
      destruct HZ as [[Z0 Zu]|[Zp Zf]].
      + rewrite Z0 in ES. cbn [Nat.eqb] in ES. destruct (nl_rel o).
        * apply orb_prop in ES. destruct ES as [ES|ES].
          -- left. cbn in ES. destruct (Rlt_dec 1 (nl_tol o)); [auto|discriminate].
          -- right. right. unfold r_lt in ES. destruct (Rlt_dec _ _); [auto|discriminate].
        * right. apply andb_prop in ES. destruct ES as [E1 ES]. unfold r_lt in ES. destruct (Rlt_dec _ _); [auto|discriminate].
      + replace (Nat.eqb (n_iter z) 0) with false in ES by (symmetry; apply Nat.eqb_neq; lia). rewrite Zf in ES.
        right. destruct (nl_rel o).
        * apply orb_prop in ES. destruct ES as [ES|ES]; [left; apply q_lt_first; auto|].
          right. unfold r_lt in ES. destruct (Rlt_dec _ _); [auto|discriminate].
        * apply andb_prop in ES. destruct ES as [E1 ES]. unfold r_lt in ES. destruct (Rlt_dec _ _); [auto|discriminate].
    - apply IH; auto. right.
      assert (I := body_iter z). rewrite E in I. cbn [fst] in I. split; [lia|].
      assert (F : n_first s1 = if Nat.eqb (n_iter z) 0 then resnorm (n_u z) else n_first z).
      { unfold nl_body in E. destruct (nl_backtrack o && _) in E; [|destruct (stops o _ _) in E]; injection E as <- E; reflexivity. }
      rewrite F. destruct HZ as [[Z0 Zu]|[Zp Zf]].
      + rewrite Z0. cbn [Nat.eqb]. rewrite Zu. auto.
      + replace (Nat.eqb (n_iter z) 0) with false by (symmetry; apply Nat.eqb_neq; lia). auto. }
  apply (G _ HL). left. auto.
Qed.

(** With a positive limit the status is success on every rank and verbosity, converged
    or not. *)
Theorem C28_never_fails u du0 : (1 <= nl_max o)%Z -> exists v, solver u du0 = Some (v, 0%nat).
Proof.
  intros H. destruct (C28_terminates u du0) as (s & _ & _ & L & E). rewrite E. exists (n_u s). f_equal. f_equal.
  unfold nl_status. replace (nl_max o <? Z.of_nat (n_iter s))%Z with false by (symmetry; apply Z.ltb_ge; lia).
  rewrite andb_false_r. auto.
Qed.

(** k halvings after a full step leave the iterate at u + 2^-k du. *)
Theorem C28_backtracking u du k :
  let back s := {| n_u := fun i => n_u s i - n_alpha s * (1 / 2) * n_du s i; n_du := n_du s;
                   n_alpha := n_alpha s * (1 / 2); n_iter := S (n_iter s); n_first := n_first s |} in
  forall it f i, n_u (Nat.iter k back {| n_u := fun j => u j + 1 * du j; n_du := du; n_alpha := 1; n_iter := it; n_first := f |}) i
     = u i + / 2 ^ k * du i.
Proof.
  intros back it f i.
  assert (G : let s := Nat.iter k back {| n_u := fun j => u j + 1 * du j; n_du := du; n_alpha := 1; n_iter := it; n_first := f |} in
    n_du s = du /\ n_alpha s = / 2 ^ k /\ n_u s i = u i + / 2 ^ k * du i).
  { induction k as [|k IH]; cbn zeta in *.
    - cbn. split; auto. split; [field|]. field.
    - destruct IH as (A & B & C). set (z := Nat.iter k back _) in *. change (Nat.iter (S k) back _) with (back z).
      unfold back. cbn [n_u n_du n_alpha]. rewrite A, B, C.
      split; auto. assert (2 ^ k <> 0) by (apply pow_nonzero; lra). cbn [pow]. split; field; auto. }
  apply G.
Qed.
(** A pass in the backtracking branch is that halving. *)
Theorem C28_backtrack_pass s : nl_backtrack o = true -> (0 < n_iter s)%nat -> n_first s <> 0 ->
  11 / 10 < resnorm (n_u s) / n_first s ->
  fst (body s) = {| n_u := fun i => n_u s i - n_alpha s * (1 / 2) * n_du s i; n_du := n_du s;
                    n_alpha := n_alpha s * (1 / 2); n_iter := S (n_iter s); n_first := n_first s |}.
Proof.
  intros HB HI HF HR. unfold nl_body. rewrite HB. replace (Nat.eqb (n_iter s) 0) with false by (symmetry; apply Nat.eqb_neq; lia).
  unfold quotient. destruct (Req_EM_T (n_first s) 0); [contradiction|]. cbn [andb q_gt].
  destruct (Rlt_dec (11 / 10) (resnorm (n_u s) / n_first s)); [reflexivity|contradiction].
Qed.

(** Whole runs: a Newton step from s, then k passes that each find the residual grown
    by more than a tenth over the first one.  The iterate is the starting point plus
    2^-k times the Newton update, whatever happened in earlier passes. *)
Definition pass (s : nlstate) : nlstate := fst (body s).
Definition grown (s : nlstate) : Prop := (0 < n_iter s)%nat /\ n_first s <> 0 /\ 11 / 10 < resnorm (n_u s) / n_first s.
Theorem C28_backtrack_run s k i : nl_backtrack o = true -> (0 < n_iter s)%nat -> n_first s <> 0 ->
  resnorm (n_u s) / n_first s <= 11 / 10 -> 0 <= n_first s -> 0 <= resnorm (n_u s) ->
  ~ tolerance_met (n_first s) (resnorm (n_u s)) ->
  (forall j, (j < k)%nat -> grown (Nat.iter j pass (pass s))) ->
  n_u (Nat.iter k pass (pass s)) i = n_u s i + / 2 ^ k * linsolve (n_iter s) (n_u s) i.
Proof.
  intros HB HI HF HR HP HQ HT HG.
  assert (P0 : pass s = {| n_u := fun j => n_u s j + 1 * linsolve (n_iter s) (n_u s) j; n_du := linsolve (n_iter s) (n_u s);
    n_alpha := 1; n_iter := S (n_iter s); n_first := n_first s |}).
  { unfold pass, nl_body. rewrite HB. replace (Nat.eqb (n_iter s) 0) with false by (symmetry; apply Nat.eqb_neq; lia).
    assert (quotient (resnorm (n_u s)) (n_first s) = Fin (resnorm (n_u s) / n_first s)) as Q.
    { unfold quotient. destruct (Req_EM_T (n_first s) 0); [contradiction|reflexivity]. }
    rewrite Q. cbn [andb q_gt]. destruct (Rlt_dec (11 / 10) (resnorm (n_u s) / n_first s)); [lra|].
    destruct (stops o (Fin (resnorm (n_u s) / n_first s)) (resnorm (n_u s))) eqn:ES; [|reflexivity].
    exfalso. apply HT. unfold stops, tolerance_met in *. destruct (nl_rel o).
    - apply orb_prop in ES. destruct ES as [ES|ES]; [left; rewrite <- Q in ES; apply q_lt_first in ES; auto|].
      right. unfold r_lt in ES. destruct (Rlt_dec _ _); [auto|discriminate].
    - apply andb_prop in ES. destruct ES as [E1 ES]. unfold r_lt in ES. destruct (Rlt_dec _ _); [auto|discriminate]. }
  set (du := linsolve (n_iter s) (n_u s)) in *.
  assert (G : forall j, (j <= k)%nat -> let z := Nat.iter j pass (pass s) in
    n_du z = du /\ n_alpha z = / 2 ^ j /\ n_u z i = n_u s i + / 2 ^ j * du i).
  { induction j as [|j IH]; intros Hj; cbn zeta.
    - cbn [Nat.iter nat_rect]. rewrite P0. cbn [n_du n_alpha n_u pow]. repeat split; field.
    - destruct (IH ltac:(lia)) as (A & B & C). cbn zeta in *. specialize (HG j ltac:(lia)).
      change (Nat.iter (S j) pass (pass s)) with (pass (Nat.iter j pass (pass s))). set (z := Nat.iter j pass (pass s)) in *.
      destruct HG as (I & F & L). pose proof (C28_backtrack_pass z HB I F L) as E. fold (pass z) in E. rewrite E.
      cbn [n_u n_du n_alpha]. rewrite A, B, C. assert (2 ^ j <> 0) by (apply pow_nonzero; lra). cbn [pow].
      split; auto. split; field; auto. }
  apply (G k). lia.
Qed.
End Outcome.
Print Assumptions C28_backtrack_run.
Print Assumptions C28_terminates.
Print Assumptions C28_early_exit_partial.
Print Assumptions C28_never_fails.
Print Assumptions C28_backtracking.
Print Assumptions C28_backtrack_pass.

(** Failure is not reported: x^2 + 1 = 0 from x = 1/2, limit 3, rank 0, full output:
    success, while the residual at the returned value is above 1. *)
Definition bad_opts : nlopts := {| nl_backtrack := false; nl_rel := true; nl_abs := false; nl_tol := 1 / 1000000;
  nl_abstol := 1 / 1000000; nl_max := 3; nl_rank := 0; nl_verbosity := 10 |}.
Definition bad_norm (v : nvec) : R := v 0%nat * v 0%nat + 1.
Definition bad_solve (_ : nat) (v : nvec) : nvec := fun _ => - (v 0%nat * v 0%nat + 1) / (2 * v 0%nat).
Theorem C28_failure_reported_refuted : exists v, nonlinear_solver bad_opts bad_norm bad_solve (fun _ => 1 / 2) (fun _ => 0) = Some (v, 0%nat) /\
  1 <= bad_norm v /\ ~ tolerance_met bad_opts (bad_norm (fun _ => 1 / 2)) (bad_norm v).
Proof.
  destruct (C28_never_fails bad_opts bad_norm bad_solve (fun _ => 1 / 2) (fun _ => 0)) as (v & E); [cbn; lia|].
  exists v. split; auto. assert (P : 1 <= bad_norm v) by (unfold bad_norm; pose proof (Rle_0_sqr (v 0%nat)) as S; unfold Rsqr in S; lra).
  split; auto. unfold tolerance_met. cbn [bad_opts nl_rel]. intros [[_ H]|H].
  - cbn [nl_tol bad_opts] in H. unfold bad_norm in H at 2. lra.
  - assert (X : / 10 ^ 100 <= / 1).
    { apply Rinv_le_contravar; [lra|]. apply pow_R1_Rle. lra. }
    lra.
Qed.
Print Assumptions C28_failure_reported_refuted.

(** With a limit of zero the ranks return different statuses. *)
Theorem C28_ranks_refuted : exists norm lin o0 o1 u d v,
  nl_max o0 = 0%Z /\ o1 = {| nl_backtrack := nl_backtrack o0; nl_rel := nl_rel o0; nl_abs := nl_abs o0; nl_tol := nl_tol o0;
    nl_abstol := nl_abstol o0; nl_max := nl_max o0; nl_rank := 1; nl_verbosity := nl_verbosity o0 |} /\
  nonlinear_solver o0 norm lin u d = Some (v, 1%nat) /\ nonlinear_solver o1 norm lin u d = Some (v, 0%nat).
Proof.
  set (o0 := {| nl_backtrack := false; nl_rel := false; nl_abs := false; nl_tol := 0; nl_abstol := 0; nl_max := 0; nl_rank := 0; nl_verbosity := 2 |}).
  exists (fun _ => 1), (fun _ _ _ => 0), o0, {| nl_backtrack := nl_backtrack o0; nl_rel := nl_rel o0; nl_abs := nl_abs o0; nl_tol := nl_tol o0;
    nl_abstol := nl_abstol o0; nl_max := nl_max o0; nl_rank := 1; nl_verbosity := nl_verbosity o0 |}, (fun _ => 0), (fun _ => 0).
  eexists. split; [reflexivity|]. split; [reflexivity|]. split; reflexivity.
Qed.
Print Assumptions C28_ranks_refuted.

(** *** C54: a linear problem is solved by the first solve. *)
Section Linear.
Variable o : nlopts.
Variable n : nat.
Variable A : nvec -> nvec.
Variable b : nvec.
Variable norm : nvec -> R.       (* norm of the first n entries *)
Variable solveA : nvec -> nvec.
Hypothesis A_ext : forall u v, (forall i, (i < n)%nat -> u i = v i) -> forall i, (i < n)%nat -> A u i = A v i.
Hypothesis A_lin : forall u v i, (i < n)%nat -> A (fun j => u j + 1 * v j) i = A u i + A v i.
Hypothesis A_inv : forall r i, (i < n)%nat -> A (solveA r) i = r i.
Hypothesis norm_zero : forall r, (forall i, (i < n)%nat -> r i = 0) -> norm r = 0.
Hypothesis norm_pos : forall r i, (i < n)%nat -> r i <> 0 -> 0 < norm r.
Hypothesis norm_nonneg : forall r, 0 <= norm r.
Definition lin_res (u : nvec) : nvec := fun i => b i - A u i.

(** With at least two passes allowed and a relative tolerance in (0,1]: the solver
    returns the exact solution, unless the initial residual is below 1e-100. *)
Theorem C54_linear_problem u du0 : nl_rel o = true -> 0 < nl_tol o <= 1 -> (2 <= nl_max o)%Z ->
  / 10 ^ 100 <= norm (lin_res u) ->
  exists v, nonlinear_solver o (fun w => norm (lin_res w)) (fun _ w => solveA (lin_res w)) u du0 = Some (v, 0%nat) /\
    (forall i, (i < n)%nat -> A v i = b i) /\
    exists s, nl_loop o (fun w => norm (lin_res w)) (fun _ w => solveA (lin_res w)) (S (Z.to_nat (nl_max o))) (nl_start o u du0) = Some s /\ n_iter s = 2%nat.
Proof.
  intros HR HT HM HN.
  set (v := fun i => u i + 1 * solveA (lin_res u) i).
  assert (SV : forall i, (i < n)%nat -> A v i = b i).
  { intros i Hi. unfold v. rewrite A_lin by auto. rewrite A_inv by auto. unfold lin_res. ring. }
  assert (NV : norm (lin_res v) = 0) by (apply norm_zero; intros i Hi; unfold lin_res; rewrite SV by auto; ring).
  assert (P100 : 0 < / 10 ^ 100) by (apply Rinv_0_lt_compat; apply pow_lt; lra).
  assert (B1 : nl_body o (fun w => norm (lin_res w)) (fun _ w => solveA (lin_res w)) (nl_start o u du0) =
    ({| n_u := v; n_du := solveA (lin_res u); n_alpha := 1; n_iter := 1; n_first := norm (lin_res u) |}, true)).
  { unfold nl_body. cbn [n_iter nl_start Nat.eqb n_u].
    replace (q_gt (Fin 1) (11 / 10)) with false by (cbn; destruct (Rlt_dec (11 / 10) 1); [lra|auto]). rewrite andb_false_r.
    unfold stops. rewrite HR. cbn [q_lt]. destruct (Rlt_dec 1 (nl_tol o)); [lra|]. cbn [orb]. unfold r_lt.
    destruct (Rlt_dec (norm (lin_res u)) (/ 10 ^ 100)); [lra|]. cbn [andb n_iter].
    replace (Z.of_nat 1 <? nl_max o)%Z with true by (symmetry; apply Z.ltb_lt; lia). reflexivity. }
  set (s1 := {| n_u := v; n_du := solveA (lin_res u); n_alpha := 1; n_iter := 1; n_first := norm (lin_res u) |}) in *.
  assert (B2 : nl_body o (fun w => norm (lin_res w)) (fun _ w => solveA (lin_res w)) s1 =
    ({| n_u := v; n_du := solveA (lin_res u); n_alpha := 1; n_iter := 2; n_first := norm (lin_res u) |}, false)).
  { unfold nl_body. cbn [n_iter s1 Nat.eqb n_u n_first]. rewrite NV.
    unfold quotient. destruct (Req_EM_T (norm (lin_res u)) 0) as [Z|NZ]; [lra|].
    replace (0 / norm (lin_res u)) with 0 by (unfold Rdiv; ring).
    replace (q_gt (Fin 0) (11 / 10)) with false by (cbn; destruct (Rlt_dec (11 / 10) 0); [lra|auto]). rewrite andb_false_r.
    unfold stops. rewrite HR. cbn [q_lt]. destruct (Rlt_dec 0 (nl_tol o)); [|lra]. reflexivity. }
  assert (L : nl_loop o (fun w => norm (lin_res w)) (fun _ w => solveA (lin_res w)) (S (Z.to_nat (nl_max o))) (nl_start o u du0) =
    Some {| n_u := v; n_du := solveA (lin_res u); n_alpha := 1; n_iter := 2; n_first := norm (lin_res u) |}).
  { destruct (Z.to_nat (nl_max o)) as [|m] eqn:EM; [lia|]. cbn [nl_loop]. rewrite B1. cbv beta iota. rewrite B2. reflexivity. }
  exists v. split; [|split; auto].
  - unfold nonlinear_solver. rewrite L. cbn [option_map n_u]. f_equal. f_equal. unfold nl_status. cbn [n_iter].
    replace (nl_max o <? Z.of_nat 2)%Z with false by (symmetry; apply Z.ltb_ge; lia). rewrite andb_false_r. auto.
  - eexists. split; [exact L|reflexivity].
Qed.

(** With a limit of one the solution is exact too (it is just not checked). *)
Theorem C54_one_pass u du0 : nl_rel o = true -> nl_tol o <= 1 -> nl_max o = 1%Z -> / 10 ^ 100 <= norm (lin_res u) ->
  exists v, nonlinear_solver o (fun w => norm (lin_res w)) (fun _ w => solveA (lin_res w)) u du0 = Some (v, 0%nat) /\
    forall i, (i < n)%nat -> A v i = b i.
Proof.
  intros HR HT HM HN. exists (fun i => u i + 1 * solveA (lin_res u) i). split.
  - unfold nonlinear_solver. rewrite HM. change (S (Z.to_nat 1)) with 2%nat. cbn [nl_loop]. unfold nl_body at 1. cbn [n_iter nl_start Nat.eqb n_u].
    replace (q_gt (Fin 1) (11 / 10)) with false by (cbn; destruct (Rlt_dec (11 / 10) 1); [lra|auto]). rewrite andb_false_r.
    unfold stops. rewrite HR. cbn [q_lt]. destruct (Rlt_dec 1 (nl_tol o)); [lra|]. cbn [orb]. unfold r_lt.
    destruct (Rlt_dec (norm (lin_res u)) (/ 10 ^ 100)); [lra|]. rewrite HM. cbn [n_iter Z.of_nat Pos.of_succ_nat Z.ltb Z.compare Pos.compare Pos.compare_cont andb].
    cbn [option_map n_u]. f_equal. f_equal. unfold nl_status. cbn [n_iter]. rewrite HM. cbn. rewrite andb_false_r. reflexivity.
  - intros i Hi. rewrite A_lin by auto. rewrite A_inv by auto. unfold lin_res. ring.
Qed.
End Linear.
Print Assumptions C54_linear_problem.
Print Assumptions C54_one_pass.

Example C54_hypotheses_met : exists A solveA norm,
  (forall u v, (forall i, (i < 2)%nat -> u i = v i) -> forall i, (i < 2)%nat -> A u i = A v i) /\
  (forall u v i, (i < 2)%nat -> A (fun j => u j + 1 * v j) i = A u i + A v i) /\
  (forall r i, (i < 2)%nat -> A (solveA r) i = r i) /\
  (forall r, (forall i, (i < 2)%nat -> r i = 0) -> norm r = 0) /\
  (forall r : nvec, forall i, (i < 2)%nat -> r i <> 0 -> 0 < norm r) /\ (forall r, 0 <= norm r).
Proof.
  exists (fun u i => if Nat.eqb i 0 then 2 * u 0%nat + u 1%nat else u 1%nat),
         (fun r i => if Nat.eqb i 0 then (r 0%nat - r 1%nat) / 2 else r 1%nat),
         (fun r => Rmax (Rabs (r 0%nat)) (Rabs (r 1%nat))).
  split; [intros u v H i Hi; destruct (Nat.eqb i 0); rewrite !H by lia; auto|].
  split; [intros u v i Hi; destruct (Nat.eqb i 0); ring|].
  split; [intros r i Hi; destruct i as [|[|i]]; [cbn; field|reflexivity|lia]|].
  split; [intros r H; rewrite !H by lia; rewrite Rabs_R0; apply Rmax_left; lra|].
  split.
  - intros r i Hi N. destruct i as [|[|i]]; [| |lia].
    + eapply Rlt_le_trans; [apply Rabs_pos_lt; exact N|apply Rmax_l].
    + eapply Rlt_le_trans; [apply Rabs_pos_lt; exact N|apply Rmax_r].
  - intros r. eapply Rle_trans; [apply Rabs_pos|apply Rmax_l].
Qed.

(** *** C55: the adjoint solve gives the solution of the adjoint equation whatever the
    starting vector and right-hand side. *)
Section Adj.
Variable n : nat.
Variable A : nvec -> nvec.
Variable solveA : nvec -> nvec.
Hypothesis A_lin : forall u v i, (i < n)%nat -> A (fun j => u j + 1 * v j) i = A u i + A v i.
Hypothesis A_inv : forall r i, (i < n)%nat -> A (solveA r) i = r i.
Theorem C55_adjoint grad prev phi i : (i < n)%nat ->
  A (adjoint_solver A solveA grad prev phi) i = grad i - fold_right (fun v a => v i + a) 0 prev.
Proof.
  intros Hi. unfold adjoint_solver. rewrite A_lin by auto. rewrite A_inv by auto. unfold adjoint_rhs.
  assert (G : forall l a, fold_left (fun a (v : nvec) => a - v i) l a = a - fold_right (fun v a => v i + a) 0 l).
  { induction l as [|v l IH]; intros a; cbn [fold_left fold_right]; [ring|]. rewrite IH. ring. }
  rewrite G. ring.
Qed.
End Adj.
Print Assumptions C55_adjoint.
