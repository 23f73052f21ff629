(** Theorems about the solver of the subgrid problems (C285-C297). *)
From Coq Require Import Bool Reals List Arith Lia Lra FinFun.
From Verif Require Import Tableau_Model SGSolve_Model.
Import ListNotations.
Local Open Scope R_scope.
Local Notation length := List.length.

(** Equality of vectors of n entries. *)
Definition veqn (n : nat) (u v : gvec) : Prop := forall i, (i < n)%nat -> u i = v i.
Definition veq (u v : gvec) : Prop := forall i, u i = v i.

(* ================================================================ Newton *)
Section Newton.
Variable norm : gvec -> R.
Variable lsolve : (gvec -> gvec) -> gvec -> gvec.
Variable tol : R.
Variable p : gproblem.

(** Specification: n Newton updates lead from u to v. *)
Inductive updates (c : gctx) : nat -> gvec -> gvec -> Prop :=
  | up0 u : updates c 0 u u
  | upS n u v : updates c n (fun i => u i + lsolve (p_ju p c u) (fun k => - p_res p c u k) i) v -> updates c (S n) u v.
Definition resnorm (c : gctx) (u : gvec) : R := norm (fun i => - p_res p c u i).

Lemma iter_done c k sc r0 iter u f a : sc <= tol -> g_iter norm lsolve tol p k c sc r0 iter u f a = (u, f, a).
Proof. intros H. destruct k; [reflexivity|]. cbn [g_iter]. destruct (Rlt_dec tol sc); [lra|reflexivity]. Qed.
Lemma iter_spec c r0 : forall k sc iter u f a u' f' a', tol < sc -> (0 < iter)%nat ->
  g_iter norm lsolve tol p k c sc r0 iter u f a = (u', f', a') ->
  exists n, (n <= k)%nat /\ updates c n u u' /\ (n = k \/ resnorm c u' / r0 <= tol /\ a' = p_ju p c u').
Proof.
  induction k; intros sc iter u f a u' f' a' Hs Hi E; cbn [g_iter] in E.
  - injection E as <- <- <-. exists 0%nat. split; [lia|]. split; [constructor|]. left. reflexivity.
  - destruct (Rlt_dec tol sc); [|lra]. destruct (Nat.eqb_spec iter 0); [lia|].
    destruct (Rlt_dec tol (norm (fun i => - p_res p c u i) / r0)) as [H|H].
    + destruct (IHk _ (S iter) _ _ _ _ _ _ H ltac:(lia) E) as (n1 & B1 & B2 & B3). exists (S n1). split; [lia|]. split; [constructor; exact B2|].
      destruct B3 as [-> |B3]; [left; reflexivity|right; exact B3].
    + rewrite iter_done in E by lra. injection E as <- <- <-. exists 0%nat. split; [lia|]. split; [constructor|]. right.
      split; [unfold resnorm; lra|reflexivity].
Qed.

(** C285: the subgrid solver takes at most the allowed number of Newton updates, and stops before
    that only if the norm of the residual has fallen below the tolerance times its first value. *)
Theorem C285_newton : forall maxit c u f u' f' a', 0 < tol -> (forall v, 0 <= norm v) ->
  g_newton norm lsolve tol maxit p c u f = (u', f', a') ->
  exists n, (n <= maxit)%nat /\ updates c n u u' /\ (n = maxit \/ resnorm c u' <= tol * resnorm c u).
Proof.
  intros maxit c u f u' f' a' Ht Hn E. unfold g_newton in E. destruct maxit; cbn [g_iter] in E.
  { injection E as <- <- <-. exists 0%nat. split; [lia|]. split; [constructor|]. left; reflexivity. }
  destruct (Rlt_dec tol (10 * tol)) as [_|?]; [|lra]. cbn [Nat.eqb] in E.
  pose proof (Hn (fun i => - p_res p c u i)) as P0. fold (resnorm c u) in *.
  destruct (Rlt_dec 0 (resnorm c u)) as [Hp|Hp].
  - destruct (Rlt_dec tol 1) as [H1|H1].
    + destruct (iter_spec c _ _ _ 1%nat _ _ _ _ _ _ H1 ltac:(lia) E) as (n & B1 & B2 & B3). exists (S n).
      split; [lia|]. split; [constructor; exact B2|]. destruct B3 as [-> |[B3 _]]; [left; reflexivity|right].
      apply (Rmult_le_compat_r (resnorm c u)) in B3; [|lra]. unfold Rdiv in B3. rewrite Rmult_assoc, Rinv_l, Rmult_1_r in B3 by lra. exact B3.
    + rewrite iter_done in E by lra. injection E as <- <- <-. exists 0%nat. split; [lia|]. split; [constructor|]. right.
      replace (resnorm c u) with (1 * resnorm c u) at 1 by ring. apply Rmult_le_compat_r; lra.
  - destruct (Rlt_dec tol 0); [lra|]. rewrite iter_done in E by lra. injection E as <- <- <-.
    exists 0%nat. split; [lia|]. split; [constructor|]. right. assert (resnorm c u = 0) as -> by lra. lra.
Qed.
End Newton.
Print Assumptions C285_newton.

(** Solver for diagonal operators, used in the examples. *)
Definition dsolve (op : gvec -> gvec) (b : gvec) : gvec := fun i => b i / op (fun _ => 1) i.
Definition anorm (v : gvec) : R := Rabs (v 0%nat).
Lemma anorm_pos v : 0 <= anorm v.
Proof. apply Rabs_pos. Qed.

(** C286: the subgrid solution meets the tolerance — not when the allowed number of updates is
    used up, which nobody is told: for u^3 - 2u + 2 from 0 no number of updates is enough. *)
Definition cycle : gproblem :=
  {| p_res := fun _ u i => u i * u i * u i - 2 * u i + 2; p_ju := fun _ u v i => (3 * u i * u i - 2) * v i;
     p_jl := fun _ _ _ => gv0; p_jp := fun _ _ _ _ => gv0; p_js := fun _ _ _ _ => gv0 |}.
Lemma cycle_iter tol c : tol < 1 / 2 -> forall k sc iter u f a u' f' a', (0 < iter)%nat -> veq u (fun _ => 0) \/ veq u (fun _ => 1) ->
  g_iter anorm dsolve tol cycle k c sc 2 iter u f a = (u', f', a') -> veq u' (fun _ => 0) \/ veq u' (fun _ => 1).
Proof.
  intros Ht. induction k; intros sc iter u f a u' f' a' Hi Hu E; cbn [g_iter] in E.
  - injection E as <- <- <-. exact Hu.
  - destruct (Rlt_dec tol sc); [|injection E as <- <- <-; exact Hu]. destruct (Nat.eqb_spec iter 0); [lia|].
    destruct (Rlt_dec _ _) in E; [|rewrite iter_done in E by lra; injection E as <- <- <-; exact Hu].
    eapply IHk; [|..|exact E]; [lia|]. cbn [p_res p_ju cycle]. unfold dsolve.
    destruct Hu as [Hu|Hu]; [right|left]; intros i; cbn beta; rewrite (Hu i); field.
Qed.
Theorem C286_refuted : forall tol maxit c f, 0 < tol < 1 / 2 ->
  let u := fst (fst (g_newton anorm dsolve tol maxit cycle c gv0 f)) in
  tol * resnorm anorm cycle c gv0 < resnorm anorm cycle c u.
Proof.
  intros tol maxit c f Ht u.
  assert (R0 : forall v, veq v (fun _ => 0) -> resnorm anorm cycle c v = 2).
  { intros v H. unfold resnorm, anorm. cbn [p_res cycle]. rewrite (H 0%nat). replace (- (0 * 0 * 0 - 2 * 0 + 2)) with (-2) by ring. rewrite Rabs_left by lra. ring. }
  assert (R1 : forall v, veq v (fun _ => 1) -> resnorm anorm cycle c v = 1).
  { intros v H. unfold resnorm, anorm. cbn [p_res cycle]. rewrite (H 0%nat). replace (- (1 * 1 * 1 - 2 * 1 + 2)) with (-1) by ring. rewrite Rabs_left by lra. ring. }
  assert (G : veq u (fun _ => 0) \/ veq u (fun _ => 1)).
  { subst u. unfold g_newton. destruct maxit; cbn [g_iter]; [left; intros i; reflexivity|].
    destruct (Rlt_dec tol (10 * tol)); [|left; intros i; reflexivity]. cbn [Nat.eqb].
    change (anorm (fun i => - p_res cycle c gv0 i)) with (resnorm anorm cycle c gv0). rewrite R0 by (intros i; reflexivity).
    destruct (Rlt_dec 0 2); [|lra]. destruct (Rlt_dec tol 1); [|lra].
    destruct (g_iter _ _ _ _ _ _ _ _ _ _ _ _) as [[u f'] a'] eqn:E. cbn [fst].
    eapply cycle_iter; [|..|exact E]; [lra|lia|]. right. intros i. unfold dsolve. cbn [p_ju p_res cycle]. unfold gv0. field. }
  rewrite (R0 gv0) by (intros i; reflexivity). destruct G as [G|G]; [rewrite (R0 _ G)|rewrite (R1 _ G)]; lra.
Qed.
Print Assumptions C286_refuted.

(* ================================================================ linear problems *)
Definition linear (N : nat) (F : gvec -> gvec) : Prop :=
  (forall x y, veqn N x y -> veqn N (F x) (F y)) /\ (forall a x y i, (i < N)%nat -> F (fun k => x k + a * y k) i = F x i + a * F y i).

Lemma gsum_ext n f g : (forall k, (k < n)%nat -> f k = g k) -> gsum n f = gsum n g.
Proof.
  unfold gsum. intros H. assert (G : forall l, (forall k, In k l -> f k = g k) ->
    fold_right (fun k a => f k + a) 0 l = fold_right (fun k a => g k + a) 0 l).
  { induction l; intros K; cbn; [reflexivity|]. rewrite K by (left; reflexivity). rewrite IHl; [reflexivity|intros; apply K; right; assumption]. }
  apply G. intros k Hk. apply in_seq in Hk. apply H. lia.
Qed.
Lemma gsum_lin n f g a : gsum n (fun k => f k + a * g k) = gsum n f + a * gsum n g.
Proof. unfold gsum. induction (seq 0 n); cbn; [ring|]. rewrite IHl. ring. Qed.
Lemma gset_length {A} (l : list A) n x : length (gset l n x) = length l.
Proof.
  unfold gset. rewrite <- (firstn_skipn n l) at 3. rewrite !app_length. f_equal. destruct (skipn n l); reflexivity.
Qed.
Lemma gset_nth {A} (l : list A) n x j d : (n < length l)%nat -> nth j (gset l n x) d = if Nat.eqb j n then x else nth j l d.
Proof.
  revert n j. unfold gset. induction l; intros n j H; cbn in H; [lia|]. destruct n; cbn [firstn skipn app].
  - destruct j; reflexivity.
  - destruct j; cbn [nth Nat.eqb]; [reflexivity|]. apply IHl. lia.
Qed.

Section Linear.
Variable N : nat.
Variables A L : R -> nat -> R -> gvec -> gvec.
Variables P Q : R -> nat -> R -> nat -> gvec -> gvec.
Variable f : R -> nat -> R -> gvec.
(** A linear subgrid problem: A u + L lambda + sum P_q u^(n-q) + sum_(s<stage) Q_s u_s + f = 0. *)
Definition lin_problem : gproblem :=
  {| p_res := fun c u i => A (x_time c) (x_stage c) (x_dt c) u i + L (x_time c) (x_stage c) (x_dt c) (x_lam c) i
       + gsum (length (x_hist c)) (fun q => P (x_time c) (x_stage c) (x_dt c) q (nth q (x_hist c) gv0) i)
       + gsum (x_stage c) (fun s => Q (x_time c) (x_stage c) (x_dt c) s (nth s (x_stg c) gv0) i)
       + f (x_time c) (x_stage c) (x_dt c) i;
     p_ju := fun c u => A (x_time c) (x_stage c) (x_dt c); p_jl := fun c u => L (x_time c) (x_stage c) (x_dt c);
     p_jp := fun c u => P (x_time c) (x_stage c) (x_dt c); p_js := fun c u => Q (x_time c) (x_stage c) (x_dt c) |}.
Variable norm : gvec -> R.
Variable lsolve : (gvec -> gvec) -> gvec -> gvec.
Variable tol : R.
Variable maxit : nat.
Hypothesis LA : forall t s d, linear N (A t s d).
Hypothesis LL : forall t s d, linear N (L t s d).
Hypothesis LP : forall t s d q, linear N (P t s d q).
Hypothesis LQ : forall t s d q, linear N (Q t s d q).
Hypothesis HS : forall t s d b, veqn N (A t s d (lsolve (A t s d) b)) b.
Hypothesis HI : forall t s d x, veqn N (A t s d x) gv0 -> veqn N x gv0.
Hypothesis N0 : forall v, 0 <= norm v.
Hypothesis N1 : forall v, norm v <= 0 -> veqn N v gv0.
Hypothesis N2 : forall v, veqn N v gv0 -> norm v = 0.
Hypothesis Ht : 0 < tol < 1.
Hypothesis Hm : (1 <= maxit)%nat.

Lemma newton_lin c u g u' g' a' : g_newton norm lsolve tol maxit lin_problem c u g = (u', g', a') ->
  veqn N (p_res lin_problem c u') gv0 /\ a' = A (x_time c) (x_stage c) (x_dt c) /\ (g' = A (x_time c) (x_stage c) (x_dt c) \/ g' = g) /\
  (norm (fun i => - p_res lin_problem c u i) <= 0 -> g' = g).
Proof.
  intros E. unfold g_newton in E. destruct maxit as [|m]; [lia|]. cbn [g_iter] in E.
  destruct (Rlt_dec tol (10 * tol)) as [_|?]; [|lra]. cbn [Nat.eqb] in E.
  set (r := fun i => - p_res lin_problem c u i) in E. pose proof (N0 r) as Pr.
  destruct (Rlt_dec 0 (norm r)) as [Hp|Hp].
  - destruct (Rlt_dec tol 1); [|lra].
    assert (Z : veqn N (p_res lin_problem c (fun i => u i + lsolve (p_ju lin_problem c u) r i)) gv0).
    { intros i Hi. cbn [p_res lin_problem]. set (op := A (x_time c) (x_stage c) (x_dt c)). change (p_ju lin_problem c u) with op.
      destruct (LA (x_time c) (x_stage c) (x_dt c)) as [X1 X2]. fold op in X1, X2.
      rewrite (X1 _ (fun k => u k + 1 * lsolve op r k)) by (first [intros k _; ring | exact Hi]). rewrite X2 by exact Hi.
      pose proof (HS (x_time c) (x_stage c) (x_dt c) r i Hi : op (lsolve op r) i = r i) as K. rewrite K. change (gv0 i) with 0. unfold r. cbn [p_res lin_problem]. fold op. ring. }
    destruct m; cbn [g_iter] in E.
    + injection E as <- <- <-. split; [exact Z|]. split; [reflexivity|]. split; [left; reflexivity|]. intros K0. fold r in K0. lra.
    + destruct (Rlt_dec tol 1); [|lra]. cbn [Nat.eqb] in E.
      rewrite (N2 (fun i => - p_res lin_problem c _ i)) in E by (intros i Hi; rewrite (Z i Hi); unfold gv0; ring).
      destruct (Rlt_dec tol (0 / norm r)) as [K|K]; [unfold Rdiv in K; rewrite Rmult_0_l in K; lra|].
      rewrite iter_done in E by lra. injection E as <- <- <-. split; [exact Z|]. split; [reflexivity|]. split; [left; reflexivity|]. intros K0. fold r in K0. lra.
  - destruct (Rlt_dec tol 0); [lra|]. rewrite iter_done in E by lra. injection E as <- <- <-.
    split; [|split; [reflexivity|split; [right; reflexivity|reflexivity]]]. assert (K : veqn N r gv0) by (apply N1; lra).
    intros i Hi. specialize (K i Hi). unfold r, gv0 in K. unfold gv0. lra.
Qed.

Variable direct : bool.
Variable T : tab.
Variable mbeta : R.
Variable e : gvec.
Variable kap : R.
Variables lam lam' : R -> gvec * R.
Hypothesis HL : forall t i, fst (lam' t) i = fst (lam t) i + kap * (snd (lam t) * mbeta) * e i.
(** The direct solver keeps the operator factored last: all of them have to be the same. *)
Variable g0 : gvec -> gvec.
Definition facts : Prop := direct = false \/ (forall t s d, A t s d = g0).
Hypothesis HF : facts.

(** Two runs, the second with the coarse values changed by kap in the direction e. *)
Record close (s : nat) (x x' : gstate) : Prop := {
  cl_cur : veqn N (s_cur x') (fun i => s_cur x i + kap * s_d x i);
  cl_tmp : veqn N (s_tmp x') (fun i => s_tmp x i + kap * nth 0 (s_dp x) gv0 i);
  cl_hist : exists h h', s_hist x = [h] /\ s_hist x' = [h'] /\ veqn N h' (fun i => h i + kap * nth 0 (s_dp x) gv0 i);
  cl_dp : length (s_dp x) = 1%nat;
  cl_len : length (s_stg x) = nst T /\ length (s_stg x') = nst T /\ length (s_ds x) = nst T;
  cl_stg : forall j, (j < s)%nat -> veqn N (nth j (s_stg x') gv0) (fun i => nth j (s_stg x) gv0 i + kap * nth j (s_ds x) gv0 i);
  cl_fact : direct = false \/ s_fact x = g0 }.

Lemma stage_close t d s x x' : (s < nst T)%nat -> close s x x' ->
  close (S s) (g_stage norm lsolve tol maxit direct lin_problem T lam mbeta e t d x s)
              (g_stage norm lsolve tol maxit direct lin_problem T lam' mbeta e t d x' s).
Proof.
  intros Hs C. destruct C as [C1 C2 (h & h' & C3 & C3' & C3v) C4 (C5 & C5' & C5d) C6 C7]. unfold g_stage.
  set (ts := t + ci T s * d). set (c := {| x_time := ts; x_stage := s |}). set (c' := {| x_time := ts; x_stage := s; x_lam := fst (lam' ts) |}).
  destruct (g_newton norm lsolve tol maxit lin_problem c (s_tmp x) (s_fact x)) as [[u g] a] eqn:E.
  destruct (g_newton norm lsolve tol maxit lin_problem c' (s_tmp x') (s_fact x')) as [[u' g'] a'] eqn:E'.
  destruct (newton_lin _ _ _ _ _ _ E) as (Z & Ea & Eg & _). destruct (newton_lin _ _ _ _ _ _ E') as (Z' & _ & _ & _).
  assert (Op : (if direct then g else a) = A ts s d).
  { destruct HF as [F|F]; [rewrite F; exact Ea|]. destruct C7 as [C7|C7]; [rewrite C7; exact Ea|]. destruct direct; [|exact Ea].
    destruct Eg as [-> | ->]; [reflexivity|]. rewrite C7, F. reflexivity. }
  rewrite Op. set (dv := g_sens lsolve lin_problem c u (A ts s d) (snd (lam ts) * mbeta) e (s_dp x) (s_ds x)).
  set (dv' := g_sens _ _ _ _ _ _ _ _ _).
  assert (D : veqn N u' (fun i => u i + kap * dv i)).
  { destruct (LA ts s d) as [A1 A2]. destruct (LL ts s d) as [L1 L2].
    assert (K : veqn N (A ts s d (fun k => (u' k + -1 * u k) + - kap * dv k)) gv0).
    { intros i Hi. rewrite A2, A2 by exact Hi. pose proof (Z i Hi) as Zi. pose proof (Z' i Hi) as Zi'. cbn [p_res lin_problem x_time x_stage x_dt x_lam x_hist x_stg c c'] in Zi, Zi'.
      rewrite C3 in Zi. rewrite C3' in Zi'. cbn [length] in Zi, Zi'.
      unfold dv, g_sens. rewrite (HS ts s d _ i Hi). cbn [p_jl p_jp p_js lin_problem x_time x_stage x_dt c]. rewrite C4.
      rewrite (L1 (fst (lam' ts)) (fun k => fst (lam ts) k + (kap * (snd (lam ts) * mbeta)) * e k)) in Zi' by (first [intros k _; rewrite HL; ring | exact Hi]).
      rewrite L2 in Zi' by exact Hi. cbn [gsum seq fold_right nth] in Zi, Zi' |- *.
      destruct (LP ts s d 0%nat) as [P1 P2]. rewrite (P1 h' _ C3v i Hi) in Zi'. rewrite P2 in Zi' by exact Hi.
      rewrite (gsum_ext s _ (fun j => Q ts s d j (nth j (s_stg x) gv0) i + kap * Q ts s d j (nth j (s_ds x) gv0) i)) in Zi'.
      2:{ intros j Hj. destruct (LQ ts s d j) as [Q1 Q2]. rewrite (Q1 _ _ (C6 j Hj) i Hi). apply Q2. exact Hi. }
      rewrite gsum_lin in Zi'. change (gv0 i) with 0 in Zi, Zi' |- *.
      unfold gsum in Zi, Zi' |- *. cbn [fold_right seq] in Zi, Zi' |- *. lra. }
    intros i Hi. pose proof (HI _ _ _ _ K i Hi) as Ki. cbn beta in Ki. change (gv0 i) with 0 in Ki. lra. }
  split; cbn [s_cur s_tmp s_hist s_stg s_d s_dp s_ds s_fact].
  - intros i Hi. rewrite (C1 i Hi), (C2 i Hi), (D i Hi). ring.
  - exact C2.
  - exists h, h'. auto.
  - exact C4.
  - rewrite !gset_length. auto.
  - intros j Hj. rewrite !gset_nth by lia. destruct (Nat.eqb_spec j s) as [-> |Hn]; [exact D|apply C6; lia].
  - destruct C7 as [C7|C7]; [left; exact C7|]. destruct HF as [F|F]; [left; exact F|]. right.
    destruct Eg as [-> | ->]; [apply F|exact C7].
Qed.
Lemma step_close td x x' : close 0 x x' ->
  close 0 (g_step norm lsolve tol maxit direct lin_problem T lam mbeta e x td)
          (g_step norm lsolve tol maxit direct lin_problem T lam' mbeta e x' td).
Proof.
  intros C. unfold g_step.
  assert (G : forall k, (k <= nst T)%nat ->
    close k (fold_left (g_stage norm lsolve tol maxit direct lin_problem T lam mbeta e (fst td) (snd td)) (seq 0 k) x)
            (fold_left (g_stage norm lsolve tol maxit direct lin_problem T lam' mbeta e (fst td) (snd td)) (seq 0 k) x')).
  { induction k; intros Hk; [exact C|]. rewrite seq_S, !fold_left_app. cbn [fold_left Nat.add]. apply stage_close; [lia|]. apply IHk. lia. }
  specialize (G (nst T) (le_n _)).
  set (y := fold_left _ (seq 0 (nst T)) x) in *. set (y' := fold_left _ (seq 0 (nst T)) x') in *.
  destruct G as [C1 C2 (h & h' & C3 & C3' & C3v) C4 (C5 & C5' & C5d) C6 C7].
  destruct (s_dp y) as [|d0 [|? ?]] eqn:Ed; cbn in C4; try lia.
  split; cbn [s_cur s_tmp s_hist s_stg s_d s_dp s_ds s_fact]; rewrite ?Ed; cbn [gset firstn skipn app nth length].
  - exact C1.
  - exact C1.
  - rewrite C3, C3'. cbn [removelast]. exists (s_cur y), (s_cur y'). auto.
  - reflexivity.
  - rewrite !repeat_length. auto.
  - intros j Hj. lia.
  - exact C7.
Qed.
Lemma solve_close n ptime time prev x x' :
  length (s_hist x) = 1%nat -> length (s_hist x') = 1%nat -> length (s_dp x) = 1%nat ->
  length (s_stg x) = nst T -> length (s_stg x') = nst T -> length (s_ds x) = nst T ->
  (direct = false \/ s_fact x = g0) ->
  let y := g_solve norm lsolve tol maxit direct lin_problem T lam mbeta e n ptime time prev x in
  let y' := g_solve norm lsolve tol maxit direct lin_problem T lam' mbeta e n ptime time prev x' in
  veqn N (s_cur y') (fun i => s_cur y i + kap * s_d y i).
Proof.
  intros H1 H2 H3 H4 H5 H6 H7. cbv zeta. unfold g_solve.
  assert (C : close 0 (g_start prev x) (g_start prev x')).
  { unfold g_start. destruct (s_dp x) as [|d0 [|? ?]] eqn:Ed; cbn in H3; try lia.
    destruct (s_hist x) as [|a [|? ?]]; cbn in H1; try lia. destruct (s_hist x') as [|a' [|? ?]]; cbn in H2; try lia.
    split; cbn [s_cur s_tmp s_hist s_stg s_d s_dp s_ds s_fact gset firstn skipn app nth length removelast].
    - intros i Hi. unfold gv0. ring.
    - intros i Hi. unfold gv0. ring.
    - exists prev, prev. split; [reflexivity|]. split; [reflexivity|]. intros i Hi. unfold gv0. ring.
    - reflexivity.
    - rewrite !repeat_length. auto.
    - intros j Hj. lia.
    - exact H7. }
  apply (cl_cur 0). revert C. generalize (g_start prev x), (g_start prev x'). generalize (g_times ptime ((time - ptime) / INR n) n).
  induction l; intros y y' C; cbn [fold_left]; [exact C|]. apply IHl. apply step_close. exact C.
Qed.
End Linear.

(** A linear subgrid problem with invertible operators and a linear solver that solves. *)
Definition well_posed (N : nat) (A L : R -> nat -> R -> gvec -> gvec) (P Q : R -> nat -> R -> nat -> gvec -> gvec)
  (norm : gvec -> R) (lsolve : (gvec -> gvec) -> gvec -> gvec) : Prop :=
  (forall t s d, linear N (A t s d) /\ linear N (L t s d)) /\ (forall t s d q, linear N (P t s d q) /\ linear N (Q t s d q)) /\
  (forall t s d b, veqn N (A t s d (lsolve (A t s d) b)) b) /\ (forall t s d x, veqn N (A t s d x) gv0 -> veqn N x gv0) /\
  (forall v, 0 <= norm v) /\ (forall v, norm v <= 0 <-> veqn N v gv0).

Lemma interp_change hist cur pt dt kap mbeta e : (length hist = 1 \/ length hist = 2)%nat -> forall t i,
  fst (g_interp hist (fun k => cur k + kap * mbeta * e k) pt dt t) i =
  fst (g_interp hist cur pt dt t) i + kap * (snd (g_interp hist cur pt dt t) * mbeta) * e i.
Proof.
  intros H t i. destruct hist as [|h0 [|h1 [|? ?]]]; cbn in H; try lia; cbn [g_interp fst snd]; ring.
Qed.

(** C287: for a linear subgrid problem solved iteratively, with a one-step local integrator, the
    derivative handed to the coarse scale is exact: for every number of local steps and stages,
    changing the coarse stage unknown by kap in the direction e (hence the coarse values by
    kap * mbeta * e) changes the subgrid solution by kap times that derivative. *)
Theorem C287_exact : forall N A L P Q f norm lsolve tol maxit T mbeta e kap hist cur n ptime time prev x x',
  well_posed N A L P Q norm lsolve -> 0 < tol < 1 -> (1 <= maxit)%nat ->
  (length hist = 1 \/ length hist = 2)%nat ->
  length (s_hist x) = 1%nat -> length (s_hist x') = 1%nat -> length (s_dp x) = 1%nat ->
  length (s_stg x) = nst T -> length (s_stg x') = nst T -> length (s_ds x) = nst T ->
  let run := fun c => g_solve norm lsolve tol maxit false (lin_problem A L P Q f) T (g_interp hist c ptime (time - ptime)) mbeta e n ptime time prev in
  veqn N (s_cur (run (fun i => cur i + kap * mbeta * e i) x')) (fun i => s_cur (run cur x) i + kap * s_d (run cur x) i).
Proof.
  intros N A L P Q f norm lsolve tol maxit T mbeta e kap hist cur n ptime time prev x x' (W1 & W2 & W3 & W4 & W5 & W6) Ht Hm Hh H1 H2 H3 H4 H5 H6 run.
  unfold run. apply (solve_close N A L P Q f norm lsolve tol maxit) with (g0 := fun v => v); try assumption; try (left; reflexivity).
  - intros; apply W1.
  - intros; apply W1.
  - intros; apply W2.
  - intros; apply W2.
  - intros v H. apply W6. exact H.
  - intros v H. apply Rle_antisym; [apply W6; exact H|apply W5].
  - apply interp_change. exact Hh.
Qed.
Print Assumptions C287_exact.
(** C288: the same with the direct solver — if every operator met is the one factored last. *)
Theorem C288_same_operator_partial : forall N A L P Q f norm lsolve tol maxit T mbeta e kap hist cur n ptime time prev x x' g0,
  well_posed N A L P Q norm lsolve -> 0 < tol < 1 -> (1 <= maxit)%nat ->
  (length hist = 1 \/ length hist = 2)%nat ->
  length (s_hist x) = 1%nat -> length (s_hist x') = 1%nat -> length (s_dp x) = 1%nat ->
  length (s_stg x) = nst T -> length (s_stg x') = nst T -> length (s_ds x) = nst T ->
  (forall t s d, A t s d = g0) -> s_fact x = g0 ->
  let run := fun c => g_solve norm lsolve tol maxit true (lin_problem A L P Q f) T (g_interp hist c ptime (time - ptime)) mbeta e n ptime time prev in
  veqn N (s_cur (run (fun i => cur i + kap * mbeta * e i) x')) (fun i => s_cur (run cur x) i + kap * s_d (run cur x) i).
Proof.
  intros N A L P Q f norm lsolve tol maxit T mbeta e kap hist cur n ptime time prev x x' g0 (W1 & W2 & W3 & W4 & W5 & W6) Ht Hm Hh H1 H2 H3 H4 H5 H6 H7 H8 run.
  unfold run. apply (solve_close N A L P Q f norm lsolve tol maxit) with (g0 := g0); try assumption; try (right; assumption).
  - intros; apply W1.
  - intros; apply W1.
  - intros; apply W2.
  - intros; apply W2.
  - intros v H. apply W6. exact H.
  - intros v H. apply Rle_antisym; [apply W6; exact H|apply W5].
  - apply interp_change. exact Hh.
Qed.
Print Assumptions C288_same_operator_partial.


(** Examples have one unknown. *)
Definition times (k : R) (v : gvec) : gvec := fun i => k * v i.
Lemma times_linear k : linear 1 (times k).
Proof. split; intros; [intros i Hi; unfold times; rewrite H by exact Hi; reflexivity|unfold times; ring]. Qed.
Definition const (F : gvec -> gvec) : R -> nat -> R -> gvec -> gvec := fun _ _ _ => F.
Definition const2 (F : nat -> gvec -> gvec) : R -> nat -> R -> nat -> gvec -> gvec := fun _ _ _ => F.
Lemma example_well_posed a l pq qq : a <> 0 ->
  well_posed 1 (const (times a)) (const (times l)) (const2 (fun q => times (pq q))) (const2 (fun q => times (qq q))) anorm dsolve.
Proof.
  intros Ha. split; [intros; split; apply times_linear|]. split; [intros; split; apply times_linear|].
  split; [|split; [|split]].
  - intros t s d b i Hi. unfold const, times, dsolve. field. exact Ha.
  - intros t s d x H i Hi. specialize (H i Hi). unfold const, times, gv0 in *. apply Rmult_integral in H. destruct H; [contradiction|assumption].
  - apply anorm_pos.
  - intros v. unfold anorm. split; intros H.
    + intros i Hi. assert (i = 0%nat) as -> by lia. pose proof (Rabs_pos (v 0%nat)). destruct (Req_dec (v 0%nat) 0) as [E|E]; [exact E|].
      apply Rabs_no_R0 in E. lra.
    + rewrite (H 0%nat) by lia. unfold gv0. rewrite Rabs_R0. lra.
Qed.
(** u = lambda at every stage. *)
Definition idp : gproblem := lin_problem (const (times 1)) (const (times (-1))) (const2 (fun _ => times 0)) (const2 (fun _ => times 0)) (fun _ _ _ => gv0).
Definition start1 (fact : gvec -> gvec) : gstate :=
  {| s_cur := gv0; s_tmp := gv0; s_hist := [gv0]; s_stg := [gv0]; s_d := gv0; s_dp := [gv0]; s_ds := [gv0]; s_fact := fact |}.
Definition one : gvec := fun _ => 1.
Example ex_C287 : well_posed 1 (const (times 1)) (const (times (-1))) (const2 (fun _ => times 0)) (const2 (fun _ => times 0)) anorm dsolve /\
  length (s_hist (start1 (times 1))) = 1%nat /\ length (s_stg (start1 (times 1))) = nst bwe.
Proof. split; [apply example_well_posed; lra|split; reflexivity]. Qed.

Lemma lam_end cur : fst (g_interp [gv0] cur 0 (1 - 0) (0 + 1 * ((1 - 0) / 1))) 0%nat = cur 0%nat.
Proof. cbn [g_interp fst]. unfold gv0. field. Qed.
Lemma beta_end cur : snd (g_interp [gv0] cur 0 (1 - 0) (0 + 1 * ((1 - 0) / 1))) = 1.
Proof. cbn [g_interp snd]. field. Qed.

(** Newton for a linear problem of one unknown. *)
Lemma newton1 a l pq qq f tol maxit c u g u' g' a' : a <> 0 -> 0 < tol < 1 -> (1 <= maxit)%nat ->
  let p := lin_problem (const (times a)) (const (times l)) (const2 (fun q => times (pq q))) (const2 (fun q => times (qq q))) f in
  g_newton anorm dsolve tol maxit p c u g = (u', g', a') ->
  p_res p c u' 0%nat = 0 /\ a' = times a /\ (p_res p c u 0%nat = 0 -> g' = g).
Proof.
  intros Ha Ht Hm p E. destruct (example_well_posed a l pq qq Ha) as (W1 & W2 & W3 & W4 & W5 & W6).
  destruct (newton_lin 1 (const (times a)) (const (times l)) (const2 (fun q => times (pq q))) (const2 (fun q => times (qq q))) f anorm dsolve tol maxit ltac:(intros; apply W1) W3 W5 ltac:(intros v H; apply W6; exact H)
    ltac:(intros v H; apply Rle_antisym; [apply W6; exact H|apply W5]) Ht Hm _ _ _ _ _ _ E) as (Z & Ea & _ & Eg).
  split; [apply Z; lia|]. split; [exact Ea|]. intros H. apply Eg. fold p. unfold anorm. rewrite H, Ropp_0, Rabs_R0. lra.
Qed.

(** C288: with the direct solver the derivative is that of the operator factored last, possibly for
    another macro element: if the local residual happens to be zero nothing is factored.  Here u
    follows lambda (derivative 1), lambda is zero, the operator factored before was twice: 1/2. *)
Theorem C288_stale_refuted : forall tol maxit, 0 < tol < 1 -> (1 <= maxit)%nat ->
  let run := fun c => g_solve anorm dsolve tol maxit true idp bwe (g_interp [gv0] c 0 (1 - 0)) 1 one 1 0 1 gv0 (start1 (times 2)) in
  (forall kap, s_cur (run (fun _ => kap)) 0%nat = kap) /\ s_d (run gv0) 0%nat = 1 / 2.
Proof.
  intros tol maxit Ht Hm run.
  split.
  - intros kap. unfold run, g_solve. cbn [g_times fold_left INR]. unfold g_step. cbn [bwe nst tb length seq fold_left fst snd]. unfold g_stage.
    change (ci bwe 0) with 1. set (c := {| x_time := _ |}).
    destruct (g_newton _ _ _ _ _ _ _ _) as [[v g] a] eqn:E. apply newton1 in E; [|lra|exact Ht|exact Hm]. destruct E as (K & _ & _).
    cbn [s_cur s_tmp g_start]. cbn [p_res lin_problem c x_time x_stage x_dt x_lam x_hist x_stg g_start s_hist start1 removelast length] in K.
    unfold const, const2, times, gsum in K. cbn [seq fold_right nth] in K. rewrite lam_end in K. unfold gv0 in *. lra.
  - unfold run, g_solve. cbn [g_times fold_left INR]. unfold g_step. cbn [bwe nst tb length seq fold_left fst snd]. unfold g_stage.
    change (ci bwe 0) with 1. set (c := {| x_time := _ |}).
    destruct (g_newton _ _ _ _ _ _ _ _) as [[v g] a] eqn:E. apply newton1 in E; [|lra|exact Ht|exact Hm]. destruct E as (_ & _ & K).
    cbn [s_d s_dp g_start]. rewrite K.
    2:{ cbn [p_res lin_problem c x_time x_stage x_dt x_lam x_hist x_stg g_start s_hist start1 removelast length s_tmp].
        unfold const, const2, times, gsum. cbn [seq fold_right nth]. rewrite lam_end. cbn [s_cur g_start]. unfold gv0. ring. }
    unfold g_sens. cbn [x_stage c s_dp s_ds g_start start1 gset firstn skipn app length s_fact]. rewrite beta_end.
    unfold dsolve, times. cbn [p_jl p_jp p_js idp lin_problem]. unfold const, const2, times, gsum. cbn [seq fold_right nth].
    unfold gv0, one. field.
Qed.
Print Assumptions C288_stale_refuted.

(** u = lambda again, as the root of (u - lambda)(1 + 2u^2). *)
Definition nlp : gproblem :=
  {| p_res := fun c u i => (u i - x_lam c i) * (1 + 2 * u i * u i);
     p_ju := fun c u v i => (1 + 2 * u i * u i + (u i - x_lam c i) * (4 * u i)) * v i;
     p_jl := fun c u v i => - (1 + 2 * u i * u i) * v i; p_jp := fun _ _ _ _ => gv0; p_js := fun _ _ _ _ => gv0 |}.
Lemma nl_newton tol maxit c g u' g' a' : 0 < tol < 1 -> (1 <= maxit)%nat ->
  g_newton anorm dsolve tol maxit nlp c gv0 g = (u', g', a') ->
  u' 0%nat = x_lam c 0%nat /\ (x_lam c 0%nat <> 0 -> g' = p_ju nlp c gv0).
Proof.
  intros Ht Hm E. unfold g_newton in E. destruct maxit as [|m]; [lia|]. cbn [g_iter] in E.
  destruct (Rlt_dec tol (10 * tol)) as [_|?]; [|lra]. cbn [Nat.eqb] in E.
  set (r := fun i => - p_res nlp c gv0 i) in E.
  assert (Er : anorm r = Rabs (x_lam c 0%nat)).
  { unfold anorm, r. cbn [p_res nlp]. unfold gv0. f_equal. ring. }
  rewrite Er in E.
  assert (V : gv0 0%nat + dsolve (p_ju nlp c gv0) r 0%nat = x_lam c 0%nat).
  { unfold dsolve, r. cbn [p_res p_ju nlp]. unfold gv0. field. }
  destruct (Rlt_dec 0 (Rabs (x_lam c 0%nat))) as [Hp|Hp].
  - destruct (Rlt_dec tol 1); [|lra].
    destruct m; cbn [g_iter] in E.
    + injection E as <- <- <-. split; [exact V|reflexivity].
    + destruct (Rlt_dec tol 1); [|lra]. cbn [Nat.eqb] in E.
      set (w := fun i => gv0 i + dsolve (p_ju nlp c gv0) r i) in E.
      assert (Z : anorm (fun i => - p_res nlp c w i) = 0).
      { unfold anorm. cbn [p_res nlp]. change (w 0%nat) with (gv0 0%nat + dsolve (p_ju nlp c gv0) r 0%nat). rewrite V.
        rewrite <- Rabs_R0. f_equal. ring. }
      rewrite Z in E.
      destruct (Rlt_dec tol (0 / Rabs (x_lam c 0%nat))) as [K|K]; [unfold Rdiv in K; rewrite Rmult_0_l in K; lra|].
      rewrite iter_done in E by lra. injection E as <- <- <-. split; [exact V|reflexivity].
  - destruct (Rlt_dec tol 0); [lra|]. rewrite iter_done in E by lra. injection E as <- <- <-.
    assert (Z : x_lam c 0%nat = 0).
    { destruct (Req_dec (x_lam c 0%nat) 0) as [K|K]; [exact K|]. apply Rabs_pos_lt in K. contradiction. }
    split; [rewrite Z; reflexivity|]. intros K. contradiction.
Qed.
(** C288: nor is the factored operator that of the solution, but of the iterate before: the
    solution is lambda for every lambda, and 3 is returned for its derivative at 1. *)
Theorem C288_nonlinear_refuted : forall tol maxit g, 0 < tol < 1 -> (1 <= maxit)%nat ->
  let run := fun c => g_solve anorm dsolve tol maxit true nlp bwe (g_interp [gv0] c 0 (1 - 0)) 1 one 1 0 1 gv0 (start1 g) in
  (forall kap, s_cur (run (fun _ => kap)) 0%nat = kap) /\ s_d (run one) 0%nat = 3.
Proof.
  intros tol maxit g0 Ht Hm run. split.
  - intros kap. unfold run, g_solve. cbn [g_times fold_left INR]. unfold g_step. cbn [bwe nst tb length seq fold_left fst snd]. unfold g_stage.
    change (ci bwe 0) with 1. set (c := {| x_time := _ |}). cbn [s_tmp g_start s_fact start1].
    destruct (g_newton _ _ _ _ _ _ _ _) as [[v g] a] eqn:E. apply nl_newton in E; [|exact Ht|exact Hm]. destruct E as (K & _).
    cbn [s_cur]. rewrite K. cbn [c x_lam]. rewrite lam_end. cbn [s_cur g_start]. unfold gv0. ring.
  - unfold run, g_solve. cbn [g_times fold_left INR]. unfold g_step. cbn [bwe nst tb length seq fold_left fst snd]. unfold g_stage.
    change (ci bwe 0) with 1. set (c := {| x_time := _ |}). cbn [s_tmp g_start s_fact start1].
    destruct (g_newton _ _ _ _ _ _ _ _) as [[v g] a] eqn:E. apply nl_newton in E; [|exact Ht|exact Hm]. destruct E as (Kv & K).
    assert (El : x_lam c 0%nat = 1) by (cbn [c x_lam]; rewrite lam_end; reflexivity).
    cbn [s_d s_dp g_start]. rewrite K by (rewrite El; lra).
    unfold g_sens. cbn [s_dp s_ds gset firstn skipn app length]. change (x_stage c) with 0%nat. rewrite beta_end.
    unfold dsolve. cbn [p_jl p_jp p_js p_ju nlp]. unfold gsum. cbn [seq fold_right nth]. rewrite Kv, El.
    unfold gv0, one. cbn [s_dp start1 length seq fold_right nth]. field.
Qed.
Print Assumptions C288_nonlinear_refuted.

(* ================================================================ multistep local integrators *)
(** u = u^(n-1) + lambda, with a two-step history. *)
Definition twop (k l : R) : gproblem :=
  lin_problem (const (times 1)) (const (times l)) (const2 (fun q => times (match q with 1%nat => k | _ => 0 end))) (const2 (fun _ => times 0)) (fun _ _ _ => gv0).
Definition start2 : gstate :=
  {| s_cur := gv0; s_tmp := gv0; s_hist := [gv0; one]; s_stg := [gv0]; s_d := gv0; s_dp := [gv0; gv0]; s_ds := [gv0]; s_fact := times 1 |}.
(** One local step of backward Euler type with a two-step history. *)
Lemma two_step tol maxit dir k l lam mbeta e t d x : 0 < tol < 1 -> (1 <= maxit)%nat -> length (s_hist x) = 2%nat -> length (s_dp x) = 2%nat ->
  dir = false -> s_cur x 0%nat = s_tmp x 0%nat ->
  let y := g_step anorm dsolve tol maxit dir (twop k l) bwe lam mbeta e x (t, d) in
  length (s_hist y) = 2%nat /\ length (s_dp y) = 2%nat /\ s_cur y 0%nat = s_tmp y 0%nat /\
  nth 0 (s_hist y) gv0 0%nat = s_cur y 0%nat /\ nth 1 (s_hist y) gv0 = nth 0 (s_hist x) gv0 /\
  nth 1 (s_dp y) gv0 = nth 1 (s_dp x) gv0 /\ nth 0 (s_dp y) gv0 = s_d y /\
  s_cur y 0%nat = - k * nth 1 (s_hist x) gv0 0%nat - l * fst (lam (t + d)) 0%nat /\
  s_d y 0%nat = s_d x 0%nat - nth 0 (s_dp x) gv0 0%nat - k * nth 1 (s_dp x) gv0 0%nat - l * (snd (lam (t + d)) * mbeta) * e 0%nat.
Proof.
  intros Ht Hm H1 H2 -> Hc y. unfold y, g_step. cbn [bwe nst tb length seq fold_left fst snd]. unfold g_stage. clear y.
  change (ci bwe 0) with 1. rewrite Rmult_1_l. set (c := {| x_time := _ |}).
  destruct (g_newton _ _ _ _ _ _ _ _) as [[v g] a] eqn:E. apply newton1 in E; [|lra|exact Ht|exact Hm]. destruct E as (K & Ka & _). subst a.
  destruct (s_hist x) as [|h0 [|h1 [|? ?]]] eqn:Eh; cbn in H1; try lia. destruct (s_dp x) as [|d0 [|d1 [|? ?]]] eqn:Ed; cbn in H2; try lia.
  cbn [p_res lin_problem c x_time x_stage x_dt x_lam x_hist x_stg length] in K. unfold const, const2, times, gsum in K. cbn [seq fold_right nth] in K.
  cbn [s_hist s_dp s_cur s_tmp s_d s_stg s_ds]. cbn [gset firstn skipn app length removelast nth].
  do 7 (split; [reflexivity|]). split.
  - rewrite Hc. unfold gv0 in K. lra.
  - unfold g_sens, dsolve. cbn [p_jl p_jp p_js lin_problem twop c x_stage x_time x_dt]. unfold const, const2, times, gsum. cbn [length seq fold_right nth]. field.
Qed.

(** C289: the derivative is exact with a multistep local integrator too — the earlier steps but
    the last are taken not to depend on the coarse values: after three local steps of a two-step
    method the solution changes by 4/3 of the coarse value, the derivative is 1. *)
Theorem C289_refuted : forall tol maxit, 0 < tol < 1 -> (1 <= maxit)%nat ->
  let run := fun c => g_solve anorm dsolve tol maxit false (twop (-1) (-1)) bwe (g_interp [gv0] c 0 (3 - 0)) 1 one 3 0 3 gv0 start2 in
  (forall kap, s_cur (run (fun _ => kap)) 0%nat = 4 / 3 * kap) /\ s_d (run gv0) 0%nat = 1.
Proof.
  intros tol maxit Ht Hm run.
  assert (G : forall c : gvec, s_cur (run c) 0%nat = 4 / 3 * c 0%nat /\ s_d (run c) 0%nat = 1).
  { intros c. unfold run, g_solve. set (x0 := g_start gv0 start2).
    replace ((3 - 0) / INR 3) with 1 by (cbn; field). cbn [g_times fold_left].
    set (st := fun x t => g_step anorm dsolve tol maxit false (twop (-1) (-1)) bwe (g_interp [gv0] c 0 (3 - 0)) 1 one x (t, 1)).
    change (s_cur (st (st (st x0 0) (0 + 1)) (0 + 1 + 1)) 0%nat = 4 / 3 * c 0%nat /\ s_d (st (st (st x0 0) (0 + 1)) (0 + 1 + 1)) 0%nat = 1).
    destruct (two_step tol maxit false (-1) (-1) (g_interp [gv0] c 0 (3 - 0)) 1 one 0 1 x0 Ht Hm eq_refl eq_refl eq_refl eq_refl) as (A1 & A2 & A3 & A4 & A5 & A6 & A7 & A8 & A9).
    fold (st x0 0) in *. set (x1 := st x0 0) in *.
    destruct (two_step tol maxit false (-1) (-1) (g_interp [gv0] c 0 (3 - 0)) 1 one (0 + 1) 1 x1 Ht Hm A1 A2 eq_refl A3) as (B1 & B2 & B3 & B4 & B5 & B6 & B7 & B8 & B9).
    fold (st x1 (0 + 1)) in *. set (x2 := st x1 (0 + 1)) in *.
    destruct (two_step tol maxit false (-1) (-1) (g_interp [gv0] c 0 (3 - 0)) 1 one (0 + 1 + 1) 1 x2 Ht Hm B1 B2 eq_refl B3) as (C1 & C2 & C3 & C4 & C5 & C6 & C7 & C8 & C9).
    fold (st x2 (0 + 1 + 1)) in *. set (x3 := st x2 (0 + 1 + 1)) in *.
    rewrite B5 in C8. rewrite A4 in C8. rewrite B6, A6, B7 in C9. cbn [x0 g_start start2 s_hist s_dp s_d gset firstn skipn app nth removelast] in A8, A9, C9.
    cbn [g_interp fst snd] in A8, C8, C9. unfold gv0, one in *. split.
    - rewrite C8, A8. field.
    - rewrite C9. field. }
  split; [intros kap; apply G|]. apply G.
Qed.
Print Assumptions C289_refuted.

(* ================================================================ repeated solves *)
Lemma iter_fact norm lsolve tol p c : forall k sc r0 it u f a f2 a2,
  fst (fst (g_iter norm lsolve tol p k c sc r0 it u f a)) = fst (fst (g_iter norm lsolve tol p k c sc r0 it u f2 a2)).
Proof.
  induction k; intros; cbn [g_iter]; [reflexivity|]. destruct (Rlt_dec tol sc); [|reflexivity].
  destruct (Rlt_dec _ _); apply IHk.
Qed.
(** C290: with a one-step local integrator a subgrid solve does not depend on the ones before it
    (at other coarse Newton iterates, or for other values): only on the solution at the previous
    coarse time. *)
Theorem C290_repeat : forall norm lsolve tol maxit direct p T lam mbeta e n ptime time prev x x',
  length (s_hist x) = 1%nat -> length (s_hist x') = 1%nat -> length (s_stg x) = length (s_stg x') ->
  s_cur (g_solve norm lsolve tol maxit direct p T lam mbeta e n ptime time prev x) =
  s_cur (g_solve norm lsolve tol maxit direct p T lam mbeta e n ptime time prev x').
Proof.
  intros norm lsolve tol maxit direct p T lam mbeta e n ptime time prev x x' H1 H2 H3.
  set (same := fun y y' : gstate => s_cur y = s_cur y' /\ s_tmp y = s_tmp y' /\ s_hist y = s_hist y' /\ s_stg y = s_stg y').
  assert (S1 : forall t d s y y', same y y' -> same (g_stage norm lsolve tol maxit direct p T lam mbeta e t d y s) (g_stage norm lsolve tol maxit direct p T lam mbeta e t d y' s)).
  { intros t d s y y' (E1 & E2 & E3 & E4). unfold same, g_stage. rewrite E1, E2, E3, E4.
    set (c := {| x_time := _ |}). pose proof (iter_fact norm lsolve tol p c maxit (10 * tol) (10 * tol) 0 (s_tmp y') (s_fact y) (s_fact y) (s_fact y') (s_fact y')) as K.
    unfold g_newton. destruct (g_iter _ _ _ _ _ _ _ _ _ _ (s_fact y) _) as [[u g] a]. destruct (g_iter _ _ _ _ _ _ _ _ _ _ (s_fact y') _) as [[u' g'] a'].
    cbn [fst] in K. subst u'. cbn [s_cur s_tmp s_hist s_stg]. auto. }
  assert (S2 : forall td y y', same y y' -> same (g_step norm lsolve tol maxit direct p T lam mbeta e y td) (g_step norm lsolve tol maxit direct p T lam mbeta e y' td)).
  { intros td y y' E. unfold g_step.
    assert (G : forall l z z', same z z' -> same (fold_left (g_stage norm lsolve tol maxit direct p T lam mbeta e (fst td) (snd td)) l z)
      (fold_left (g_stage norm lsolve tol maxit direct p T lam mbeta e (fst td) (snd td)) l z')).
    { induction l; intros z z' Hz; cbn [fold_left]; [exact Hz|]. apply IHl. apply S1. exact Hz. }
    destruct (G (seq 0 (nst T)) y y' E) as (F1 & F2 & F3 & F4). unfold same. cbn [s_cur s_tmp s_hist s_stg]. rewrite F1, F3, F4. auto. }
  unfold g_solve. assert (S0 : same (g_start prev x) (g_start prev x')).
  { unfold same, g_start. cbn [s_cur s_tmp s_hist s_stg]. rewrite H3.
    destruct (s_hist x) as [|a [|? ?]]; cbn in H1; try lia. destruct (s_hist x') as [|a' [|? ?]]; cbn in H2; try lia. cbn. auto. }
  revert S0. generalize (g_start prev x), (g_start prev x'). generalize (g_times ptime ((time - ptime) / INR n) n).
  induction l; intros y y' E; cbn [fold_left]; [apply E|]. apply IHl. apply S2. exact E.
Qed.
Print Assumptions C290_repeat.
Example ex_C290 : length (s_hist (start1 (times 1))) = 1%nat /\ length (s_stg (start1 (times 1))) = length (s_stg (start1 (times 2))).
Proof. split; reflexivity. Qed.
(** C291: a second solve of the same coarse step gives the same — not with a two-step local
    method: the first one has moved the history. *)
Theorem C291_refuted : forall tol maxit, 0 < tol < 1 -> (1 <= maxit)%nat ->
  let run := g_solve anorm dsolve tol maxit false (twop (-2) 0) bwe (g_interp [gv0] one 0 (1 - 0)) 1 one 1 0 1 gv0 in
  s_cur (run {| s_cur := gv0; s_tmp := gv0; s_hist := [one; gv0]; s_stg := [gv0]; s_d := gv0; s_dp := [gv0; gv0]; s_ds := [gv0]; s_fact := times 1 |}) 0%nat = 2 /\
  s_cur (run (run {| s_cur := gv0; s_tmp := gv0; s_hist := [one; gv0]; s_stg := [gv0]; s_d := gv0; s_dp := [gv0; gv0]; s_ds := [gv0]; s_fact := times 1 |})) 0%nat = 4.
Proof.
  intros tol maxit Ht Hm run. set (x0 := {| s_cur := gv0 |}).
  assert (G : forall x, length (s_hist x) = 2%nat -> length (s_dp x) = 2%nat ->
    s_cur (run x) 0%nat = 2 * nth 0 (s_hist x) gv0 0%nat /\ length (s_hist (run x)) = 2%nat /\ length (s_dp (run x)) = 2%nat /\
    nth 0 (s_hist (run x)) gv0 0%nat = s_cur (run x) 0%nat).
  { intros x H1 H2. unfold run, g_solve. cbn [g_times fold_left].
    assert (L1 : length (s_hist (g_start gv0 x)) = 2%nat).
    { destruct (s_hist x) as [|h0 [|h1 [|? ?]]] eqn:Eh; cbn in H1; try lia. unfold g_start. rewrite Eh. reflexivity. }
    assert (L2 : length (s_dp (g_start gv0 x)) = 2%nat).
    { unfold g_start. cbn [s_dp]. rewrite gset_length. exact H2. }
    destruct (two_step tol maxit false (-2) 0 (g_interp [gv0] one 0 (1 - 0)) 1 one 0 ((1 - 0) / INR 1) (g_start gv0 x) Ht Hm L1 L2 eq_refl eq_refl) as (A1 & A2 & A3 & A4 & A5 & A6 & A7 & A8 & A9).
    split; [|auto]. rewrite A8. unfold g_start. cbn [s_hist].
    destruct (s_hist x) as [|h0 [|h1 [|? ?]]] eqn:Eh; cbn in H1; try lia. cbn [removelast nth]. ring. }
  destruct (G x0 eq_refl eq_refl) as (A & B & C & D). split.
  - rewrite A. cbn [x0 s_hist nth]. unfold one. ring.
  - destruct (G (run x0) B C) as (A' & _). rewrite A', D, A. cbn [x0 s_hist nth]. unfold one. ring.
Qed.
Print Assumptions C291_refuted.

(* ================================================================ coarse values in time *)
(** C292: between coarse times the subgrid problem sees the coarse solution interpolated exactly
    when it is affine (one earlier step) or quadratic in time (two, equal steps), together with the
    derivative of what it sees; the local steps are equal and cover the coarse one. *)
Theorem C292_interpolation : forall (a b q : gvec) (ptime dt t : R), dt <> 0 ->
  let at_ := fun s i => a i + b i * s in let at2 := fun s i => a i + b i * s + q i * (s * s) in
  (forall i, fst (g_interp [at_ ptime] (at_ (ptime + dt)) ptime dt t) i = at_ t i) /\
  (forall i, fst (g_interp [at2 ptime; at2 (ptime - dt)] (at2 (ptime + dt)) ptime dt t) i = at2 t i) /\
  (forall hist cur e s i, length hist = 1%nat \/ length hist = 2%nat ->
     fst (g_interp hist (fun k => cur k + s * e k) ptime dt t) i = fst (g_interp hist cur ptime dt t) i + s * (snd (g_interp hist cur ptime dt t) * e i)) /\
  (forall hist cur i, length hist = 1%nat \/ length hist = 2%nat ->
     fst (g_interp hist cur ptime dt (ptime + dt)) i = cur i /\ fst (g_interp hist cur ptime dt ptime) i = nth 0 hist gv0 i).
Proof.
  intros a b q ptime dt t Hd at_ at2. repeat split.
  - intros i. cbn [g_interp fst]. unfold at_. field. lra.
  - intros i. cbn [g_interp fst]. unfold at2. field. lra.
  - intros [|h0 [|h1 [|? ?]]] cur e s i [H|H]; cbn in H; try lia; cbn [g_interp fst snd]; field; lra.
  - destruct hist as [|h0 [|h1 [|? ?]]]; destruct H as [H|H]; cbn in H; try lia; cbn [g_interp fst snd]; field; lra.
  - destruct hist as [|h0 [|h1 [|? ?]]]; destruct H as [H|H]; cbn in H; try lia; cbn [g_interp fst snd nth]; field; lra.
Qed.
Print Assumptions C292_interpolation.
Theorem C292_times : forall ptime time n k, (k < n)%nat ->
  length (g_times ptime ((time - ptime) / INR n) n) = n /\
  nth k (g_times ptime ((time - ptime) / INR n) n) (0, 0) = (ptime + INR k * ((time - ptime) / INR n), (time - ptime) / INR n) /\
  (S k = n -> ptime + INR k * ((time - ptime) / INR n) + (time - ptime) / INR n = time).
Proof.
  intros ptime time n k Hk.
  assert (L : forall m t d, length (g_times t d m) = m) by (induction m; intros; cbn; [|rewrite IHm]; reflexivity).
  assert (G : forall m j t d, (j < m)%nat -> nth j (g_times t d m) (0, 0) = (t + INR j * d, d)).
  { induction m; intros j t d H; [lia|]. destruct j; cbn [g_times nth].
    - f_equal. cbn. ring.
    - rewrite IHm by lia. f_equal. rewrite S_INR. ring. }
  split; [apply L|]. split; [apply G; exact Hk|]. intros <-. rewrite S_INR. field.
  pose proof (pos_INR k). lra.
Qed.
Print Assumptions C292_times.
Example ex_C292 : fst (g_interp [one] (fun _ => 3) 0 2 1) 0%nat = 2 /\ (2 <> 0).
Proof. split; [cbn [g_interp fst]; unfold one; field|lra]. Qed.
(** C293: whatever the coarse integrator — with three or more earlier steps zeros are seen, and
    after a change of the step size the earlier value is taken to be at the wrong time. *)
Theorem C293_refuted :
  (forall h0 h1 h2 r cur ptime dt t i, fst (g_interp (h0 :: h1 :: h2 :: r) cur ptime dt t) i = 0) /\
  (exists (g : R -> gvec), (forall t i, g t i = t) /\
     fst (g_interp [g 0; g (- 2)] (g 1) 0 1 (1 / 2)) 0%nat = 5 / 8).
Proof.
  split; [reflexivity|]. exists (fun t _ => t). split; [reflexivity|]. cbn [g_interp fst]. field.
Qed.
Print Assumptions C293_refuted.

(* ================================================================ clocks *)
Lemma iter_any sync run fl time : forall n k, let k' := Nat.iter n (g_visit sync run fl time) k in
  k_prev k' = k_prev k /\ k_psol k' = k_psol k /\ ((1 <= n)%nat -> k_cur k' = time).
Proof. induction n; intros k; cbn; [split; [|split]; auto; lia|]. destruct (IHn k) as (A & B & _). destruct sync; cbn; rewrite ?A, ?B; auto. Qed.
(** C294: with a single-stage coarse integrator with its stage at the end of the step (backward
    Euler, BDF) every accepted coarse step moves the subgrid problem over exactly that step, from
    the subgrid solution at its beginning. *)
Theorem C294_step_partial : forall sync run T t dt visits k, nst T = 1%nat -> ci T 0 = 1 -> (1 <= visits 0)%nat -> k_prev k = t ->
  let k' := g_coarse_step sync run T t dt visits true k in
  k_prev k' = t + dt /\ forall i, k_psol k' i = run t (t + dt) (k_psol k) i.
Proof.
  intros sync run T t dt visits k Hn Hc Hv Hp k'. unfold k', g_coarse_step. rewrite Hn. cbn [seq fold_left]. unfold g_coarse_stage.
  cbn [Nat.eqb]. rewrite Hc, Rmult_1_l. destruct (visits 0%nat) as [|n]; [lia|].
  destruct (iter_any sync run true (t + dt) n k) as (A & B & _). cbn [Nat.iter]. cbn [Nat.iter nat_rect] in *.
  set (k1 := Nat.iter n _ k) in *. change (nat_rect _ _ _ n) with k1 in *. clearbody k1.
  unfold g_visit, g_advance_stage, g_advance. destruct sync; cbn [k_prev k_psol k_csol k_cur k_stage]; rewrite A, B, Hp; split; try reflexivity; intros i; ring.
Qed.
Print Assumptions C294_step_partial.
(** ... and a sequence of them the whole interval. *)
Theorem C294_steps_partial : forall run T visits dts t k, nst T = 1%nat -> ci T 0 = 1 -> (forall n, (1 <= visits n 0)%nat) -> k_prev k = t ->
  let k' := snd (fold_left (fun a d => (fst (fst a) + d, S (snd (fst a)), g_coarse_step false run T (fst (fst a)) d (visits (snd (fst a))) true (snd a)))
                   dts (t, 0%nat, k)) in
  k_prev k' = t + fold_right Rplus 0 dts /\
  k_psol k' = snd (fold_left (fun a d => (fst a + d, run (fst a) (fst a + d) (snd a))) dts (t, k_psol k)).
Proof.
  intros run T visits dts t k Hn Hc Hv Hp. cbv zeta.
  assert (G : forall n t k, k_prev k = t ->
    let k' := snd (fold_left (fun a d => (fst (fst a) + d, S (snd (fst a)), g_coarse_step false run T (fst (fst a)) d (visits (snd (fst a))) true (snd a)))
                   dts (t, n, k)) in
    k_prev k' = t + fold_right Rplus 0 dts /\
    k_psol k' = snd (fold_left (fun a d => (fst a + d, run (fst a) (fst a + d) (snd a))) dts (t, k_psol k))).
  { clear t k Hp. induction dts as [|d r IH]; intros n t k Hp.
    - cbn. split; [rewrite Hp; ring|reflexivity].
    - cbn [fold_left fst snd fold_right]. set (k1 := g_coarse_step _ _ _ _ _ _ _ _).
      assert (P : k_prev k1 = t + d /\ k_psol k1 = run t (t + d) (k_psol k)).
      { unfold k1, g_coarse_step. rewrite Hn. cbn [seq fold_left]. unfold g_coarse_stage. cbn [Nat.eqb]. rewrite Hc, Rmult_1_l.
        specialize (Hv n). destruct (visits n 0%nat) as [|m]; [lia|].
        destruct (iter_any false run true (t + d) m k) as (A & B & _). cbn [Nat.iter nat_rect] in *.
        set (k2 := Nat.iter m _ k) in *. change (nat_rect _ _ _ m) with k2 in *. clearbody k2.
        unfold g_visit, g_advance_stage, g_advance. cbn [k_prev k_psol k_csol k_cur]. rewrite A, B, Hp. auto. }
      destruct P as (P1 & P2). destruct (IH (S n) (t + d) k1 P1) as (Q1 & Q2). rewrite Q1, Q2, P2. split; [ring|reflexivity]. }
  apply G. exact Hp.
Qed.
Print Assumptions C294_steps_partial.
Example ex_C294 : nst bwe = 1%nat /\ ci bwe 0 = 1.
Proof. split; reflexivity. Qed.
(** Not with others: after an accepted step of the implicit midpoint rule the subgrid problem is
    at the middle of the step; within a two-stage step (DIRK-2,2) it
    takes the coarse values of the beginning of the step to be those of the first stage. *)
Theorem C294_refuted : forall run t dt k, dt <> 0 -> k_prev k = t ->
  k_prev (g_coarse_step false run dirk12 t dt (fun _ => 1%nat) true k) <> t + dt /\
  (forall T, ci T 0 <> 0 -> ci T 1 <> ci T 0 -> 
     let k1 := g_coarse_stage false run (ci T) t dt (fun _ => 1%nat) k 0 in
     let te := t + ci T 1 * dt in
     fst (g_interp [fun _ => t] (fun _ => te) (k_prev k1) (te - k_prev k1) (k_prev k1)) 0%nat <> k_prev k1).
Proof.
  intros run t dt k Hd Hp. split.
  - unfold g_coarse_step. cbn. lra.
  - intros T H0 H1 k1 te. unfold k1, g_coarse_stage. cbn [Nat.iter nat_rect Nat.eqb g_visit g_advance_stage k_prev k_cur]. cbn [g_interp fst].
    set (a := t + ci T 0 * dt).
    assert (N : te - a <> 0). { unfold te, a. replace (t + ci T 1 * dt - (t + ci T 0 * dt)) with ((ci T 1 - ci T 0) * dt) by ring. apply Rmult_integral_contrapositive. split; lra. }
    assert (N2 : a - t <> 0). { unfold a. replace (t + ci T 0 * dt - t) with (ci T 0 * dt) by ring. apply Rmult_integral_contrapositive. split; lra. }
    intros E. apply N2. replace (a + (te - a) - a) with (te - a) in E by ring. assert (E2 : (a + (te - a) - a) = te - a) by ring. 
    replace ((a + (te - a) - a) / (te - a)) with 1 in E by (field; exact N).
    replace ((te - a) / (te - a)) with 1 in E by (field; exact N). unfold Rdiv in E. rewrite Rminus_diag_eq in E by reflexivity. lra.
Qed.
Print Assumptions C294_refuted.
Example ex_C294_dirk22 : ci dirk22 0 <> 0 /\ ci dirk22 1 <> ci dirk22 0.
Proof. cbn. lra. Qed.

(** C295: after a rejected coarse step the next attempt starts from the same subgrid state — with
    synchronous stepping: the attempt after a rejected one is the attempt without it. *)
Theorem C295_synchronous_partial : forall run T t dt visits dt' visits' acc k, (1 <= nst T)%nat -> (1 <= visits' 0%nat)%nat ->
  g_coarse_step true run T t dt' visits' acc (g_coarse_step true run T t dt visits false k) =
  g_coarse_step true run T t dt' visits' acc k.
Proof.
  intros run T t dt visits dt' visits' acc k Hn Hv.
  assert (I : forall l k, let k' := fold_left (g_coarse_stage true run (ci T) t dt visits) l k in k_prev k' = k_prev k /\ k_psol k' = k_psol k).
  { induction l as [|s l IH]; intros k0; cbn [fold_left]; [auto|].
    destruct (IH (g_coarse_stage true run (ci T) t dt visits k0 s)) as (A & B).
    destruct (iter_any true run (Nat.eqb s 0) (t + ci T s * dt) (visits s) k0) as (C & D & _).
    cbv zeta. rewrite A, B. unfold g_coarse_stage, g_advance_stage. cbn [k_prev k_psol]. auto. }
  assert (J : forall n k k', k_prev k = k_prev k' -> k_psol k = k_psol k' ->
    Nat.iter (S n) (g_visit true run true (t + ci T 0 * dt')) k = Nat.iter (S n) (g_visit true run true (t + ci T 0 * dt')) k').
  { induction n; intros k0 k1 E1 E2.
    - cbn. unfold g_visit. rewrite E1, E2. reflexivity.
    - change (g_visit true run true (t + ci T 0 * dt') (Nat.iter (S n) (g_visit true run true (t + ci T 0 * dt')) k0) = g_visit true run true (t + ci T 0 * dt') (Nat.iter (S n) (g_visit true run true (t + ci T 0 * dt')) k1)).
      rewrite (IHn k0 k1 E1 E2). reflexivity. }
  set (k0 := g_coarse_step true run T t dt visits false k).
  assert (E : k_prev k0 = k_prev k /\ k_psol k0 = k_psol k) by apply I. destruct E as (E1 & E2).
  unfold g_coarse_step. destruct (nst T) as [|n]; [lia|]. cbn [seq fold_left].
  replace (g_coarse_stage true run (ci T) t dt' visits' k0 0) with (g_coarse_stage true run (ci T) t dt' visits' k 0); [reflexivity|].
  unfold g_coarse_stage. cbn [Nat.eqb]. destruct (visits' 0%nat) as [|m]; [lia|]. rewrite (J m k k0); auto.
Qed.
Print Assumptions C295_synchronous_partial.
Example ex_C295 : (1 <= nst bwe)%nat. Proof. cbn. lia. Qed.
(** Without it the subgrid problem has advanced over the rejected step: the attempt with half the
    step integrates it backwards. *)
Theorem C295_refuted :
  let run := fun (a b : R) (u : gvec) (i : nat) => b - a in
  let k := {| k_prev := 0; k_cur := 0; k_psol := gv0; k_csol := gv0; k_stage := gv0 |} in
  let once := fun _ : nat => 1%nat in
  k_psol (g_coarse_step false run bwe 0 (1 / 2) once true k) 0%nat = 1 / 2 /\
  k_prev (g_coarse_step false run bwe 0 1 once false k) = 1 /\
  k_psol (g_coarse_step false run bwe 0 (1 / 2) once true (g_coarse_step false run bwe 0 1 once false k)) 0%nat = - (1 / 2).
Proof. cbn. split; [|split]; lra. Qed.
Print Assumptions C295_refuted.

(* ================================================================ flux *)
Definition in_range (nvars : nat) (card : nat -> nat) (n j : nat) := (n < nvars)%nat /\ (j < card n)%nat.
Definition share (m n j : nat) (q : gpoint) : R := if Nat.eqb m (q_elem q) then q_basis q n j * q_flux q n * q_wt q else 0.
Lemma add_other off q m k : forall pairs res, (forall n j, In (n, j) pairs -> off n j <> k) -> g_add off q pairs res m k = res m k.
Proof.
  induction pairs as [|[n j] r IH]; intros res H; cbn [g_add]; [reflexivity|]. rewrite IH by (intros; apply H; right; assumption).
  assert (K : Nat.eqb k (off n j) = false) by (apply Nat.eqb_neq; intros ->; apply (H n j); [left|]; reflexivity).
  rewrite K, andb_false_r. reflexivity.
Qed.
Lemma add_mine off q m n j : forall pairs res, NoDup pairs -> In (n, j) pairs ->
  (forall n' j', In (n', j') pairs -> off n' j' = off n j -> n' = n /\ j' = j) ->
  g_add off q pairs res m (off n j) = res m (off n j) + share m n j q.
Proof.
  induction pairs as [|[n0 j0] r IH]; intros res ND Hin Hinj; [destruct Hin|]. cbn [g_add]. inversion ND as [|? ? Hnot ND']; subst.
  destruct Hin as [E|Hin].
  - injection E as -> ->. rewrite add_other.
    + rewrite Nat.eqb_refl, andb_true_r. unfold share. destruct (Nat.eqb m (q_elem q)); [reflexivity|ring].
    + intros n' j' Hi Ho. destruct (Hinj n' j' (or_intror Hi) Ho) as (-> & ->). contradiction.
  - rewrite IH; [|assumption|assumption|intros; apply Hinj; [right|]; assumption].
    assert (K : Nat.eqb (off n j) (off n0 j0) = false).
    { apply Nat.eqb_neq. intros E. destruct (Hinj n0 j0 (or_introl eq_refl) (eq_sym E)) as (-> & ->). contradiction. }
    rewrite K, andb_false_r. reflexivity.
Qed.
Lemma pairs_in nvars card n j : In (n, j) (g_pairs nvars card) <-> in_range nvars card n j.
Proof.
  unfold g_pairs, in_range. rewrite in_flat_map. split.
  - intros (x & Hx & Hm). apply in_map_iff in Hm. destruct Hm as (y & E & Hy). injection E as -> ->. apply in_seq in Hx, Hy. lia.
  - intros (A & B). exists n. split; [apply in_seq; lia|]. apply in_map_iff. exists j. split; [reflexivity|apply in_seq; lia].
Qed.
Lemma pairs_nodup nvars card : NoDup (g_pairs nvars card).
Proof.
  unfold g_pairs. generalize 0%nat at 2. induction nvars as [|k IH]; intros s; [constructor|]. cbn [seq flat_map].
  assert (A : NoDup (map (fun j => (s, j)) (seq 0 (card s)))).
  { apply FinFun.Injective_map_NoDup; [intros x y E; injection E; auto|apply seq_NoDup]. }
  revert A. generalize (seq 0 (card s)). intros l A. induction l as [|x l IHl]; cbn [map app]; [apply IH|].
  cbn [map] in A. inversion A; subst. constructor; [|apply IHl; assumption].
  rewrite in_app_iff. intros [K|K]; [contradiction|]. apply in_flat_map in K. destruct K as (y & Hy & Hm). apply in_map_iff in Hm.
  destruct Hm as (z & E & _). injection E as -> _. apply in_seq in Hy. lia.
Qed.
(** C296: the flux handed to the coarse problem: in the row of test function j of variable n of a
    macro element, the sum of basis times flux times weight over the subgrid boundary points of the
    element, and nothing anywhere else; if the test functions add up to one, the total flux of the
    subgrid problem is handed over. *)
Theorem C296_flux : forall off nvars card pts,
  (forall n j n' j', in_range nvars card n j -> in_range nvars card n' j' -> off n' j' = off n j -> n' = n /\ j' = j) ->
  (forall m n j, in_range nvars card n j ->
     g_flux off nvars card pts m (off n j) =
     fold_right Rplus 0 (map (fun q => q_basis q n j * q_flux q n * q_wt q) (filter (fun q => Nat.eqb m (q_elem q)) pts))) /\
  (forall m k, (forall n j, in_range nvars card n j -> off n j <> k) -> g_flux off nvars card pts m k = 0) /\
  (forall m n, (n < nvars)%nat -> (forall q, In q pts -> gsum (card n) (q_basis q n) = 1) ->
     gsum (card n) (fun j => g_flux off nvars card pts m (off n j)) =
     fold_right Rplus 0 (map (fun q => q_flux q n * q_wt q) (filter (fun q => Nat.eqb m (q_elem q)) pts))).
Proof.
  intros off nvars card pts Hinj.
  assert (A : forall m n j, in_range nvars card n j ->
     g_flux off nvars card pts m (off n j) =
     fold_right Rplus 0 (map (fun q => q_basis q n j * q_flux q n * q_wt q) (filter (fun q => Nat.eqb m (q_elem q)) pts))).
  { intros m n j Hr. unfold g_flux.
    assert (G : forall l res, fold_left (fun res q => g_add off q (g_pairs nvars card) res) l res m (off n j) =
      res m (off n j) + fold_right Rplus 0 (map (fun q => q_basis q n j * q_flux q n * q_wt q) (filter (fun q => Nat.eqb m (q_elem q)) l))).
    { induction l as [|q l IH]; intros res; cbn [fold_left filter map fold_right]; [ring|]. rewrite IH.
      rewrite add_mine; [|apply pairs_nodup|apply pairs_in; exact Hr|intros n' j' Hi; apply pairs_in in Hi; apply Hinj; assumption].
      unfold share. destruct (Nat.eqb m (q_elem q)); cbn [map fold_right]; ring. }
    rewrite G. ring. }
  split; [exact A|]. split.
  - intros m k H. unfold g_flux.
    assert (G : forall l res, fold_left (fun res q => g_add off q (g_pairs nvars card) res) l res m k = res m k).
    { induction l as [|q l IH]; intros res; cbn [fold_left]; [reflexivity|]. rewrite IH. apply add_other. intros n j Hi. apply H. apply pairs_in. exact Hi. }
    apply G.
  - intros m n Hn Hpu.
    transitivity (gsum (card n) (fun j => fold_right Rplus 0 (map (fun q => q_basis q n j * q_flux q n * q_wt q) (filter (fun q => Nat.eqb m (q_elem q)) pts)))).
    { apply gsum_ext. intros j Hj. apply A. split; assumption. }
    assert (Hpu' : forall q, In q (filter (fun q => Nat.eqb m (q_elem q)) pts) -> gsum (card n) (q_basis q n) = 1).
    { intros q Hq. apply filter_In in Hq. apply Hpu. apply Hq. }
    revert Hpu'. generalize (filter (fun q => Nat.eqb m (q_elem q)) pts). clear. induction l as [|q l IH]; intros H; cbn [map fold_right].
    + unfold gsum. induction (seq 0 (card n)); cbn [fold_right]; [reflexivity|]. rewrite IHl. ring.
    + rewrite <- IH by (intros; apply H; right; assumption).
      assert (E : forall N f g, gsum N (fun j => f j + g j) = gsum N f + gsum N g).
      { intros N f g. unfold gsum. induction (seq 0 N); cbn [fold_right]; [ring|]. rewrite IHl0. ring. }
      rewrite E. f_equal.
      assert (E2 : forall N f c, gsum N (fun j => f j * c) = gsum N f * c).
      { intros N f c. unfold gsum. induction (seq 0 N); cbn [fold_right]; [ring|]. rewrite IHl0. ring. }
      transitivity (gsum (card n) (fun j => q_basis q n j * (q_flux q n * q_wt q))).
      { apply gsum_ext. intros; ring. }
      rewrite E2, H by (left; reflexivity). ring.
Qed.
Print Assumptions C296_flux.
Example ex_C296 : let off := fun n j => (2 * n + j)%nat in
  (forall n j n' j', in_range 2 (fun _ => 2%nat) n j -> in_range 2 (fun _ => 2%nat) n' j' -> off n' j' = off n j -> n' = n /\ j' = j) /\
  gsum 2 (fun j => match j with O => 1 / 3 | _ => 2 / 3 end) = 1.
Proof. split; [unfold in_range; intros; lia|]. unfold gsum. cbn. field. Qed.

(** C297: the time average of the flux is the mean of the fluxes of the local steps, if they do not
    depend on the time or the coarse values except through the subgrid solution ... *)
Theorem C297_average_partial : forall flux time lam (steps : list (R * gvec * gvec)), steps <> nil ->
  (forall t t' l l' u, flux t l u = flux t' l' u) ->
  INR (length steps) * g_average flux time lam (map snd steps) =
  fold_right Rplus 0 (map (fun s => flux (fst (fst s)) (snd (fst s)) (snd s)) steps).
Proof.
  intros flux time lam steps Hne Hind. unfold g_average. rewrite map_length.
  assert (Hp : INR (length steps) <> 0) by (apply not_0_INR; destruct steps; [contradiction|discriminate]).
  revert Hp. generalize (INR (length steps)). clear Hne. intros N HN.
  assert (G : forall l a, fold_left (fun a u => a + flux time lam u / N) (map snd l) a =
    a + fold_right Rplus 0 (map (fun s => flux (fst (fst s)) (snd (fst s)) (snd s)) l) / N).
  { induction l as [|s l IH]; intros a; cbn [map fold_left fold_right]; [field; exact HN|]. rewrite IH.
    rewrite (Hind time (fst (fst s)) lam (snd (fst s)) (snd s)). field. exact HN. }
  rewrite G. field. exact HN.
Qed.
Print Assumptions C297_average_partial.
(** ... and in general not: every local step sees the coarse values of the end. *)
Theorem C297_refuted : let flux := fun (t : R) (lam u : gvec) => lam 0%nat in let lam := fun (t : R) (_ : nat) => t in
  g_average flux 1 (lam 1) [gv0; gv0] = 1 /\ (flux (1 / 2) (lam (1 / 2)) gv0 + flux 1 (lam 1) gv0) / 2 = 3 / 4.
Proof. cbn. split; lra. Qed.
Print Assumptions C297_refuted.
