(** C81: unconditional stability of the implicit methods.

    The stage formulas of workset.cpp 521-834 (Tableau_Model [state_of], [dot_of]) and the
    update of solverManager_solvers.hpp (u + sum of the stage differences) applied to
    u' = lambda u with complex lambda.  Methods that an implicit user picks for large
    steps must not amplify a decaying mode, whatever the step. *)
From Coq Require Import Bool Arith Lia Reals Lra Psatz String List Ring.
From Verif Require Import Sparse_Model Tableau_Model Tableau_Props.
Import ListNotations.
Local Open Scope R_scope.

(** *** Complex numbers *)
Definition cx : Type := R * R.
Definition ofR (x : R) : cx := (x, 0).
Definition cadd (a b : cx) : cx := (fst a + fst b, snd a + snd b).
Definition csub (a b : cx) : cx := (fst a - fst b, snd a - snd b).
Definition cmul (a b : cx) : cx := (fst a * fst b - snd a * snd b, fst a * snd b + snd a * fst b).
Definition copp (a : cx) : cx := (- fst a, - snd a).
Definition csq (a : cx) : R := fst a * fst a + snd a * snd a.

Lemma cx_ring : ring_theory (ofR 0) (ofR 1) cadd cmul csub copp eq.
Proof. constructor; intros; repeat match goal with x : cx |- _ => destruct x end; unfold cadd, cmul, csub, copp, ofR; cbn [fst snd]; f_equal; ring. Qed.
Add Ring cx_r : cx_ring.

Definition complexes : arith cx :=
  {| inj := ofR; vadd := cadd; vsub := csub; vscal := fun r x => cmul (ofR r) x |}.

(** *** Specification *)
(** [U] solves the stage equations of one step of size dt from u0 for u' = lam u. *)
Definition solves (t : tab) (dt : R) (lam u0 : cx) (U : nat -> cx) : Prop :=
  forall s, (s < nst t)%nat ->
    dot_of complexes t (bdf 1) dt s (fun _ => u0) (U s) = cmul lam (state_of complexes t s u0 U (U s)).
(** The solution at the end of the step. *)
Definition advance (t : tab) (u0 : cx) (U : nat -> cx) : cx :=
  fold_left (fun acc s => cadd acc (csub (U s) u0)) (seq 0 (nst t)) u0.
(** No decaying or oscillating mode grows, for any step. *)
Definition a_stable (t : tab) : Prop :=
  forall dt lam u0 U, 0 < dt -> fst lam <= 0 -> solves t dt lam u0 U -> csq (advance t u0 U) <= csq u0.

(** *** Proofs *)
Lemma csq_mul a b : csq (cmul a b) = csq a * csq b.
Proof. unfold csq, cmul; cbn [fst snd]; ring. Qed.
Lemma csq_nonneg a : 0 <= csq a.
Proof. unfold csq; nra. Qed.
Lemma growth D N u0 u1 : cmul D u1 = cmul N u0 -> csq N <= csq D -> 0 < csq D -> csq u1 <= csq u0.
Proof.
  intros E L P. assert (csq D * csq u1 = csq N * csq u0) by (rewrite <- !csq_mul, E; reflexivity).
  pose proof (csq_nonneg u0). apply Rmult_le_reg_l with (csq D); auto. rewrite H. apply Rmult_le_compat_r; auto.
Qed.

(** Stage equation in the form K_s = z (b_s u0 + ...), z = dt lam. *)
Definition zz (dt : R) (lam : cx) : cx := cmul (ofR dt) lam.
Lemma ofR_mul a b : ofR (a * b) = cmul (ofR a) (ofR b).
Proof. unfold ofR, cmul; cbn [fst snd]; f_equal; ring. Qed.
Lemma ofR_inv a : a <> 0 -> cmul (ofR a) (ofR (/ a)) = ofR 1.
Proof. intros. rewrite <- ofR_mul. f_equal. field; auto. Qed.
Lemma cx_cancel a x y : a <> 0 -> cmul (ofR a) x = cmul (ofR a) y -> x = y.
Proof.
  intros N E. assert (cmul (ofR (/ a)) (cmul (ofR a) x) = cmul (ofR (/ a)) (cmul (ofR a) y)) as H by (rewrite E; auto).
  assert (forall v, cmul (ofR (/ a)) (cmul (ofR a) v) = v) as I.
  { intros v. transitivity (cmul (cmul (ofR a) (ofR (/ a))) v); [ring|]. rewrite ofR_inv by auto. ring. }
  rewrite !I in H. auto.
Qed.
Lemma stage_eq t dt lam u0 U s : (s < nst t)%nat -> 0 < dt -> bi t s <> 0 -> solves t dt lam u0 U ->
  csub (U s) u0 = cmul (cmul (zz dt lam) (ofR (bi t s))) (state_of complexes t s u0 U (U s)).
Proof.
  intros Hs Hd Hb H. specialize (H s Hs).
  assert (dot_of complexes t (bdf 1) dt s (fun _ => u0) (U s) = cmul (ofR (1 / dt / bi t s)) (csub (U s) u0)) as E.
  { unfold dot_of. cbn [bdf length Nat.sub seq fold_left nth complexes vadd vscal inj].
    generalize (1 / dt / bi t s). intros q. unfold cadd, cmul, csub, ofR; cbn [fst snd]; f_equal; ring. }
  rewrite E in H. unfold zz.
  transitivity (cmul (ofR (dt * bi t s)) (cmul (ofR (1 / dt / bi t s)) (csub (U s) u0))).
  - transitivity (cmul (cmul (ofR (dt * bi t s)) (ofR (1 / dt / bi t s))) (csub (U s) u0)); [|ring].
    rewrite <- ofR_mul. replace (dt * bi t s * (1 / dt / bi t s)) with 1 by (field; split; lra). ring.
  - rewrite H, ofR_mul. ring.
Qed.

Lemma z_left dt lam : 0 < dt -> fst lam <= 0 -> fst (zz dt lam) <= 0.
Proof. intros. unfold zz, cmul, ofR; cbn [fst snd]. nra. Qed.


Definition K (u0 : cx) (U : nat -> cx) (s : nat) : cx := csub (U s) u0.
Lemma state_K t u0 U s : state_of complexes t s u0 U (U s) =
  fold_left (fun acc j => cadd acc (cmul (ofR (aij t s j / bi t j)) (K u0 U j))) (seq 0 s)
    (cadd u0 (cmul (ofR (aij t s s / bi t s)) (K u0 U s))).
Proof.
  unfold state_of. cbn [complexes vadd vscal vsub].
  assert (forall l a b, cadd a (fold_left (fun acc j => cadd acc (cmul (ofR (aij t s j / bi t j)) (csub (U j) u0))) l b) =
    fold_left (fun acc j => cadd acc (cmul (ofR (aij t s j / bi t j)) (K u0 U j))) l (cadd a b)) as G.
  { induction l as [|j l IH]; intros a b; cbn [fold_left]; auto. rewrite IH. unfold K. f_equal. ring. }
  rewrite G. f_equal. unfold K. generalize (aij t s s / bi t s). intros q.
  unfold cadd, cmul, csub, ofR; cbn [fst snd]; f_equal; ring.
Qed.
Lemma advance_K t u0 U : advance t u0 U = fold_left (fun acc s => cadd acc (K u0 U s)) (seq 0 (nst t)) u0.
Proof. reflexivity. Qed.

(** The step is a quotient of two polynomials in z = dt lam. *)
Section Tables.
Variables (t : tab) (dt : R) (lam u0 : cx) (U : nat -> cx).
Hypothesis Hd : 0 < dt.
Hypothesis Hs : solves t dt lam u0 U.
Let z := zz dt lam.
Let a i j := ofR (aij t i j).
Let b i := ofR (bi t i).

Lemma ratio x y : y <> 0 -> cmul (ofR y) (ofR (x / y)) = ofR x.
Proof. intros. rewrite <- ofR_mul. f_equal. field. auto. Qed.

Lemma one_stage : nst t = 1%nat -> bi t 0 <> 0 ->
  cmul (csub (ofR 1) (cmul (a 0 0) z)) (advance t u0 U) = cmul (cadd (csub (ofR 1) (cmul (a 0 0) z)) (cmul (b 0) z)) u0.
Proof.
  intros N B0. pose proof (stage_eq t dt lam u0 U 0 ltac:(lia) Hd B0 Hs) as E0.
  rewrite state_K in E0. rewrite advance_K, N. cbn [seq fold_left] in *.
  fold (K u0 U 0) in E0. fold z in E0. pose proof (ratio (aij t 0 0) (bi t 0) B0) as R0.
  fold (b 0) in *. unfold a in *. set (k0 := K u0 U 0) in *.
  assert (cmul (csub (ofR 1) (cmul (ofR (aij t 0 0)) z)) k0 = cmul (cmul (b 0) z) u0) as F0.
  { rewrite <- R0. transitivity (csub k0 (cmul (cmul (cmul (b 0) (ofR (aij t 0 0 / bi t 0))) z) k0)); [ring|].
    rewrite E0 at 1. ring. }
  transitivity (cadd (cmul (csub (ofR 1) (cmul (ofR (aij t 0 0)) z)) u0) (cmul (csub (ofR 1) (cmul (ofR (aij t 0 0)) z)) k0)); [ring|].
  rewrite F0. ring.
Qed.

Lemma two_stage : nst t = 2%nat -> bi t 0 <> 0 -> bi t 1 <> 0 ->
  let d0 := csub (ofR 1) (cmul (a 0 0) z) in let d1 := csub (ofR 1) (cmul (a 1 1) z) in
  cmul (cmul d0 d1) (advance t u0 U) =
  cmul (cadd (cadd (cmul d0 d1) (cmul (cadd (cmul d1 (b 0)) (cmul d0 (b 1))) z)) (cmul (cmul (b 1) (a 1 0)) (cmul z z))) u0.
Proof.
  intros N B0 B1 d0 d1. pose proof (stage_eq t dt lam u0 U 0 ltac:(lia) Hd B0 Hs) as E0.
  pose proof (stage_eq t dt lam u0 U 1 ltac:(lia) Hd B1 Hs) as E1.
  rewrite state_K in E0, E1. rewrite advance_K, N. cbn [seq fold_left] in *.
  fold (K u0 U 0) in E0. fold (K u0 U 1) in E1. fold z in E0, E1.
  pose proof (ratio (aij t 0 0) (bi t 0) B0) as R0. pose proof (ratio (aij t 1 0) (bi t 0) B0) as R10.
  pose proof (ratio (aij t 1 1) (bi t 1) B1) as R1.
  fold (b 0) in *. fold (b 1) in *. unfold d0, d1, a in *. set (k0 := K u0 U 0) in *. set (k1 := K u0 U 1) in *.
  assert (cmul (csub (ofR 1) (cmul (ofR (aij t 0 0)) z)) k0 = cmul (cmul (b 0) z) u0) as F0.
  { rewrite <- R0. transitivity (csub k0 (cmul (cmul (cmul (b 0) (ofR (aij t 0 0 / bi t 0))) z) k0)); [ring|].
    rewrite E0 at 1. ring. }
  assert (cmul (csub (ofR 1) (cmul (ofR (aij t 1 1)) z)) k1 =
          cmul (cmul (b 1) z) (cadd u0 (cmul (ofR (aij t 1 0 / bi t 0)) k0))) as F1.
  { rewrite <- R1. transitivity (csub k1 (cmul (cmul (cmul (b 1) (ofR (aij t 1 1 / bi t 1))) z) k1)); [ring|].
    rewrite E1 at 1. ring. }
  rewrite <- R10. set (e0 := csub (ofR 1) (cmul (ofR (aij t 0 0)) z)) in *. set (e1 := csub (ofR 1) (cmul (ofR (aij t 1 1)) z)) in *.
  set (q := ofR (aij t 1 0 / bi t 0)) in *.
  transitivity (cadd (cadd (cmul (cmul e0 e1) u0) (cmul e1 (cmul e0 k0))) (cmul e0 (cmul e1 k1))); [ring|].
  rewrite F1. transitivity (cadd (cadd (cmul (cmul e0 e1) u0) (cmul e1 (cmul e0 k0)))
    (cmul (cmul (b 1) z) (cadd (cmul e0 u0) (cmul q (cmul e0 k0))))); [ring|]. rewrite F0. ring.
Qed.

Lemma three_stage : nst t = 3%nat -> bi t 0 <> 0 -> bi t 1 <> 0 -> bi t 2 <> 0 ->
  let d0 := csub (ofR 1) (cmul (a 0 0) z) in let d1 := csub (ofR 1) (cmul (a 1 1) z) in
  let d2 := csub (ofR 1) (cmul (a 2 2) z) in
  let n0 := cmul (b 0) z in (* d0 k0 = n0 u0 *)
  let n1 := cmul z (cadd (cmul (b 1) d0) (cmul (cmul (b 1) (a 1 0)) z)) in (* d0 d1 k1 = n1 u0 *)
  let n2 := cmul z (cadd (cadd (cmul (b 2) (cmul d0 d1)) (cmul (cmul (b 2) (a 2 0)) (cmul z d1)))
                         (cmul (b 2) (cmul (a 2 1) (cmul z (cadd d0 (cmul (a 1 0) z)))))) in
  cmul (cmul (cmul d0 d1) d2) (advance t u0 U) =
  cmul (cadd (cadd (cadd (cmul (cmul d0 d1) d2) (cmul n0 (cmul d1 d2))) (cmul n1 d2)) n2) u0.
Proof.
  intros N B0 B1 B2 d0 d1 d2 n0 n1 n2. pose proof (stage_eq t dt lam u0 U 0 ltac:(lia) Hd B0 Hs) as E0.
  pose proof (stage_eq t dt lam u0 U 1 ltac:(lia) Hd B1 Hs) as E1. pose proof (stage_eq t dt lam u0 U 2 ltac:(lia) Hd B2 Hs) as E2.
  rewrite state_K in E0, E1, E2. rewrite advance_K, N. cbn [seq fold_left] in *.
  fold (K u0 U 0) in E0. fold (K u0 U 1) in E1. fold (K u0 U 2) in E2. fold z in E0, E1, E2.
  pose proof (ratio (aij t 0 0) (bi t 0) B0) as R0. pose proof (ratio (aij t 1 0) (bi t 0) B0) as R10.
  pose proof (ratio (aij t 1 1) (bi t 1) B1) as R1. pose proof (ratio (aij t 2 0) (bi t 0) B0) as R20.
  pose proof (ratio (aij t 2 1) (bi t 1) B1) as R21. pose proof (ratio (aij t 2 2) (bi t 2) B2) as R2.
  fold (b 0) in *. fold (b 1) in *. fold (b 2) in *. set (k0 := K u0 U 0) in *. set (k1 := K u0 U 1) in *. set (k2 := K u0 U 2) in *.
  assert (cmul d0 k0 = cmul n0 u0) as F0.
  { unfold d0, n0, a. rewrite <- R0. transitivity (csub k0 (cmul (cmul (cmul (b 0) (ofR (aij t 0 0 / bi t 0))) z) k0)); [ring|].
    rewrite E0 at 1. ring. }
  assert (cmul d1 k1 = cmul (cmul (b 1) z) (cadd u0 (cmul (ofR (aij t 1 0 / bi t 0)) k0))) as F1.
  { unfold d1, a. rewrite <- R1. transitivity (csub k1 (cmul (cmul (cmul (b 1) (ofR (aij t 1 1 / bi t 1))) z) k1)); [ring|].
    rewrite E1 at 1. ring. }
  assert (cmul d2 k2 = cmul (cmul (b 2) z) (cadd (cadd u0 (cmul (ofR (aij t 2 0 / bi t 0)) k0)) (cmul (ofR (aij t 2 1 / bi t 1)) k1))) as F2.
  { unfold d2, a. rewrite <- R2. transitivity (csub k2 (cmul (cmul (cmul (b 2) (ofR (aij t 2 2 / bi t 2))) z) k2)); [ring|].
    rewrite E2 at 1. ring. }
  assert (cmul (cmul d0 d1) k1 = cmul n1 u0) as G1.
  { transitivity (cmul d0 (cmul d1 k1)); [ring|]. rewrite F1.
    transitivity (cmul (cmul (b 1) z) (cadd (cmul d0 u0) (cmul (ofR (aij t 1 0 / bi t 0)) (cmul d0 k0)))); [ring|].
    rewrite F0. unfold n1, n0, a. rewrite <- R10. ring. }
  assert (cmul (cmul (cmul d0 d1) d2) k2 = cmul n2 u0) as G2.
  { transitivity (cmul (cmul d0 d1) (cmul d2 k2)); [ring|]. rewrite F2.
    transitivity (cmul (cmul (b 2) z) (cadd (cadd (cmul (cmul d0 d1) u0) (cmul (cmul d1 (ofR (aij t 2 0 / bi t 0))) (cmul d0 k0)))
      (cmul (ofR (aij t 2 1 / bi t 1)) (cmul (cmul d0 d1) k1)))); [ring|].
    rewrite F0, G1. unfold n2, n1, n0, a. rewrite <- R20, <- R21. ring. }
  transitivity (cadd (cadd (cadd (cmul (cmul (cmul d0 d1) d2) u0) (cmul (cmul d1 d2) (cmul d0 k0))) (cmul d2 (cmul (cmul d0 d1) k1)))
    (cmul (cmul (cmul d0 d1) d2) k2)); [ring|]. rewrite F0, G1, G2. ring.
Qed.
End Tables.

Ltac tabv := unfold aij, bi in *; cbn [bwe fwe cn dirk12 dirk22 dirk23 dirk33 dirk33_of tA tb nth] in *.
Ltac parts x y H := let z := fresh "z" in
  match type of H with fst ?a <= 0 => set (z := a) in *; destruct z as [x y]; cbn [fst] in H end.
Ltac open := unfold csq, cmul, cadd, csub, ofR; cbn [fst snd].

(** *** C81 *)
Theorem C81_bwe : a_stable bwe.
Proof.
  intros dt lam u0 U Hd Hl H. pose proof (z_left dt lam Hd Hl) as Z.
  pose proof (one_stage bwe dt lam u0 U Hd H eq_refl ltac:(tabv; lra)) as E. tabv. parts x y Z.
  eapply growth; [exact E | |]; open; nra.
Qed.
Theorem C81_dirk12 : a_stable dirk12.
Proof.
  intros dt lam u0 U Hd Hl H. pose proof (z_left dt lam Hd Hl) as Z.
  pose proof (one_stage dirk12 dt lam u0 U Hd H eq_refl ltac:(tabv; lra)) as E. tabv. parts x y Z.
  eapply growth; [exact E | |]; open; nra.
Qed.

Lemma nn_mul a b : 0 <= a -> 0 <= b -> 0 <= a * b.
Proof. intros. apply Rmult_le_pos; auto. Qed.
Lemma nn_sq a : 0 <= a * a.
Proof. apply Rle_0_sqr. Qed.
Lemma left_half c x y : 0 < c -> x <= 0 ->
  let p := (1 + c * x) * (1 + c * x) + c * c * (y * y) in let q := (1 - c * x) * (1 - c * x) + c * c * (y * y) in
  0 <= p <= q /\ 0 < q.
Proof.
  intros C X p q. pose proof (nn_sq (1 + c * x)). pose proof (nn_sq y). pose proof (nn_mul _ _ (nn_sq c) H0).
  assert (0 <= c * (- x)) by (apply nn_mul; lra). unfold p, q. repeat split; nra.
Qed.

Theorem C81_cn : a_stable cn.
Proof.
  intros dt lam u0 U Hd Hl H. pose proof (z_left dt lam Hd Hl) as Z.
  pose proof (two_stage cn dt lam u0 U Hd H eq_refl ltac:(tabv; lra) ltac:(tabv; lra)) as E. tabv. parts x y Z.
  cbv zeta in E. destruct (left_half (1/2) x y ltac:(lra) Z) as [[P Q] V]. eapply growth; [exact E | |].
  - match goal with |- csq ?n <= csq ?d => replace (csq n) with ((1 + 1/2 * x) * (1 + 1/2 * x) + 1/2 * (1/2) * (y * y)) by (open; field);
      replace (csq d) with ((1 - 1/2 * x) * (1 - 1/2 * x) + 1/2 * (1/2) * (y * y)) by (open; field) end. exact Q.
  - match goal with |- 0 < csq ?d => replace (csq d) with ((1 - 1/2 * x) * (1 - 1/2 * x) + 1/2 * (1/2) * (y * y)) by (open; field) end. exact V.
Qed.
Theorem C81_dirk22 : a_stable dirk22.
Proof.
  intros dt lam u0 U Hd Hl H. pose proof (z_left dt lam Hd Hl) as Z.
  pose proof (two_stage dirk22 dt lam u0 U Hd H eq_refl ltac:(tabv; lra) ltac:(tabv; lra)) as E. tabv. parts x y Z.
  cbv zeta in E. pose proof (left_half (1/4) x y ltac:(lra) Z) as L. cbv zeta in L.
  match type of L with (0 <= ?a <= ?b) /\ _ => set (p := a) in *; set (q := b) in * end. destruct L as [[P Q] V].
  eapply growth; [exact E | |].
  - match goal with |- csq ?n <= csq ?d => replace (csq n) with (p * p) by (unfold p; open; field);
      replace (csq d) with (q * q) by (unfold q; open; field) end. apply Rmult_le_compat; auto.
  - match goal with |- 0 < csq ?d => replace (csq d) with (q * q) by (unfold q; open; field) end. apply Rmult_lt_0_compat; auto.
Qed.

Theorem C81_dirk23 : a_stable dirk23.
Proof.
  intros dt lam u0 U Hd Hl H. pose proof (z_left dt lam Hd Hl) as Z.
  pose proof (two_stage dirk23 dt lam u0 U Hd H eq_refl ltac:(tabv; lra) ltac:(tabv; lra)) as E. tabv. parts x y Z.
  cbv zeta in E. assert (sqrt 3 * sqrt 3 = 3) as S by (apply sqrt_sqrt; lra).
  assert (0 <= sqrt 3) as Rp by apply sqrt_pos. set (r := sqrt 3) in *. clearbody r. clear Hl Hd H.
  remember (- x) as X eqn:EX. assert (x = - X) as EX' by (rewrite EX; ring). assert (0 <= X) as PX by lra. clear EX Z. subst x.
  set (q := (1 + (1/2 + r/6) * X) * (1 + (1/2 + r/6) * X) + (1/2 + r/6) * (1/2 + r/6) * (y * y)).
  assert (0 < q) as Q.
  { unfold q. assert (0 <= (1/2 + r/6) * X) by (apply nn_mul; lra).
    pose proof (nn_mul _ _ (nn_sq (1/2 + r/6)) (nn_sq y)). pose proof (nn_sq ((1/2 + r/6) * X)). lra. }
  eapply growth; [exact E | |].
  - match goal with |- csq ?n <= csq ?d => replace (csq d) with (q * q) by (unfold q; open; field);
      assert (q * q - csq n = 2 * X + (2 + r * (4/3)) * (X * X) + (4/3 + r * (2/3)) * (X * (X * X + y * y))
        + (1/12 + r/18) * ((X * X + y * y) * (X * X + y * y))) as F by (unfold q; open; field [S]) end.
    assert (0 <= X * X + y * y) as PS by (pose proof (nn_sq X); pose proof (nn_sq y); lra).
    pose proof (nn_mul (2 + r * (4/3)) _ ltac:(lra) (nn_sq X)).
    pose proof (nn_mul (4/3 + r * (2/3)) _ ltac:(lra) (nn_mul _ _ PX PS)).
    pose proof (nn_mul (1/12 + r/18) _ ltac:(lra) (nn_mul _ _ PS PS)). lra.
  - match goal with |- 0 < csq ?d => replace (csq d) with (q * q) by (unfold q; open; field) end. apply Rmult_lt_0_compat; auto.
Qed.

(** The stage equations can be solved, so the theorems above speak of every such step. *)
Definition cinv (a : cx) : cx := (fst a / csq a, - snd a / csq a).
Lemma cinv_l a : 0 < csq a -> cmul a (cinv a) = ofR 1.
Proof. intros. destruct a as [x y]. unfold cinv, csq, cmul, ofR in *. cbn [fst snd] in *. f_equal; field; lra. Qed.
Lemma diag_pos c z : 0 <= c -> fst z <= 0 -> 0 < csq (csub (ofR 1) (cmul (ofR c) z)).
Proof.
  intros C Z. destruct z as [x y]. open. cbn [fst] in Z. assert (0 <= c * (- x)) by (apply nn_mul; lra).
  pose proof (nn_sq (0 - (c * y + 0 * x))). nra.
Qed.
Lemma dot_eq t dt lam u0 U s : 0 < dt -> bi t s <> 0 ->
  csub (U s) u0 = cmul (cmul (zz dt lam) (ofR (bi t s))) (state_of complexes t s u0 U (U s)) ->
  dot_of complexes t (bdf 1) dt s (fun _ => u0) (U s) = cmul lam (state_of complexes t s u0 U (U s)).
Proof.
  intros Hd Hb H.
  assert (dot_of complexes t (bdf 1) dt s (fun _ => u0) (U s) = cmul (ofR (1 / dt / bi t s)) (csub (U s) u0)) as E.
  { unfold dot_of. cbn [bdf length Nat.sub seq fold_left nth complexes vadd vscal inj].
    generalize (1 / dt / bi t s). intros q. unfold cadd, cmul, csub, ofR; cbn [fst snd]; f_equal; ring. }
  rewrite E, H. unfold zz. generalize (state_of complexes t s u0 U (U s)). intros v.
  transitivity (cmul (cmul (ofR (1 / dt / bi t s)) (ofR (dt * bi t s))) (cmul lam v)); [rewrite ofR_mul; ring|].
  rewrite <- ofR_mul. replace (1 / dt / bi t s * (dt * bi t s)) with 1 by (field; split; lra). ring.
Qed.
Theorem C81_solvable t dt lam u0 : 0 < dt -> fst lam <= 0 ->
  (forall s, (s < nst t)%nat -> bi t s <> 0 /\ 0 <= aij t s s) -> exists U, solves t dt lam u0 U.
Proof.
  intros Hd Hl Ht. pose proof (z_left dt lam Hd Hl) as Z.
  assert (forall n, (n <= nst t)%nat -> exists U, forall s, (s < n)%nat ->
    dot_of complexes t (bdf 1) dt s (fun _ => u0) (U s) = cmul lam (state_of complexes t s u0 U (U s))) as G.
  { induction n as [|n IH]; intros Hn; [exists (fun _ => u0); intros; lia|].
    destruct IH as [U HU]; [lia|]. destruct (Ht n ltac:(lia)) as [B A].
    set (rest := fold_left (fun acc j => cadd acc (cmul (ofR (aij t n j / bi t j)) (K u0 U j))) (seq 0 n) u0).
    set (d := csub (ofR 1) (cmul (ofR (aij t n n)) (zz dt lam))).
    set (k := cmul (cinv d) (cmul (cmul (zz dt lam) (ofR (bi t n))) rest)).
    set (V := fun s => if Nat.eqb s n then cadd u0 k else U s). exists V.
    assert (forall j, (j < n)%nat -> V j = U j) as VU by (intros j Hj; unfold V; destruct (Nat.eqb_spec j n); auto; lia).
    assert (forall m x, (m <= n)%nat -> fold_left (fun acc j => cadd acc (cmul (ofR (aij t n j / bi t j)) (K u0 V j))) (seq 0 m) x =
      fold_left (fun acc j => cadd acc (cmul (ofR (aij t n j / bi t j)) (K u0 U j))) (seq 0 m) x) as FV.
    { induction m as [|m IHm]; intros x Hm; auto. rewrite seq_S, !fold_left_app, IHm by lia. cbn [fold_left Nat.add].
      unfold K. rewrite VU by lia. reflexivity. }
    intros s Hs. destruct (Nat.eq_dec s n) as [->|N].
    - apply dot_eq; auto. rewrite state_K, FV by lia.
      assert (forall l a b, fold_left (fun acc j => cadd acc (cmul (ofR (aij t n j / bi t j)) (K u0 U j))) l (cadd a b) =
        cadd (fold_left (fun acc j => cadd acc (cmul (ofR (aij t n j / bi t j)) (K u0 U j))) l a) b) as G.
      { induction l as [|j l IHl]; intros a b; cbn [fold_left]; auto. rewrite <- IHl. f_equal. ring. }
      rewrite G. fold rest. unfold K, V. rewrite Nat.eqb_refl.
      assert (csub (cadd u0 k) u0 = k) as -> by ring.
      pose proof (ratio (aij t n n) (bi t n) B) as R0.
      assert (cmul d k = cmul (cmul (zz dt lam) (ofR (bi t n))) rest) as Q.
      { unfold k. transitivity (cmul (cmul d (cinv d)) (cmul (cmul (zz dt lam) (ofR (bi t n))) rest)); [ring|].
        rewrite cinv_l by (apply diag_pos; auto). ring. }
      transitivity (cadd (cmul d k) (cmul (cmul (ofR (aij t n n)) (zz dt lam)) k)); [unfold d; ring|].
      rewrite Q, <- R0. ring.
    - rewrite VU by lia. rewrite (HU s) by lia. f_equal. rewrite <- (VU s) by lia. unfold state_of. f_equal.
      cbn [complexes vadd vscal vsub].
      assert (forall m x, (m <= n)%nat -> fold_left (fun acc s0 => cadd acc (cmul (ofR (aij t s s0 / bi t s0)) (csub (U s0) u0))) (seq 0 m) x =
        fold_left (fun acc s0 => cadd acc (cmul (ofR (aij t s s0 / bi t s0)) (csub (V s0) u0))) (seq 0 m) x) as FW.
      { induction m as [|m IHm]; intros x Hm; auto. rewrite seq_S, !fold_left_app, IHm by lia. cbn [fold_left Nat.add].
        rewrite VU by lia. reflexivity. }
      apply FW. lia. }
  destruct (G (nst t) ltac:(lia)) as [U HU]. exists U. exact HU.
Qed.

(** Stiff modes are damped: the methods whose last stage is the end of the step
    (b equal to the last row) take them to zero. *)
Lemma dirk33_relation dt lam u0 U : 0 < dt -> solves dirk33 dt lam u0 U ->
  let z := zz dt lam in let d := csub (ofR 1) (cmul (ofR pdirk) z) in
  cmul (cmul (cmul d d) d) (advance dirk33 u0 U) =
  cmul (cadd (cadd (ofR 1) (cmul (ofR (1 - 3 * pdirk)) z))
     (cmul (ofR (3 * pdirk * pdirk - 3 * pdirk + sumf 3 (fun i => bi dirk33 i * ci dirk33 i))) (cmul z z))) u0.
Proof.
  intros Hd H. pose proof (three_stage dirk33 dt lam u0 U Hd H eq_refl) as E. cbv zeta.
  assert (weights_nonzero dirk33) as W by apply C24_dirk33_partial.
  specialize (E (W 0%nat ltac:(cbn; lia)) (W 1%nat ltac:(cbn; lia)) (W 2%nat ltac:(cbn; lia))). cbv zeta in E.
  unfold sumf, ci. unfold aij, bi in *. cbn [seq map fold_right rsum] in *. cbn [dirk33 dirk33_of tA tb tc nth] in *.
  rewrite E. f_equal. generalize pdirk. intros p. generalize (zz dt lam). intros [x y]. open. f_equal; field.
Qed.

Definition n2 : R := 3 * pdirk * pdirk - 3 * pdirk + sumf 3 (fun i => bi dirk33 i * ci dirk33 i).
Lemma n2_value : n2 = 3 * pdirk * pdirk - 3 * pdirk + ((-3 * pdirk * pdirk / 2 + 4 * pdirk - 1 / 4) * pdirk
  + (3 * pdirk * pdirk / 2 - 5 * pdirk + 5 / 4) * ((1 + pdirk) / 2) + pdirk).
Proof. unfold n2, sumf, bi, ci. cbn [seq map fold_right rsum]. cbn [dirk33 dirk33_of tb tc nth]. field. Qed.

(** DIRK-3,3: decaying modes (real lambda) never grow. *)
Theorem C81_dirk33_partial dt lam u0 U : 0 < dt -> fst lam <= 0 -> snd lam = 0 -> solves dirk33 dt lam u0 U ->
  csq (advance dirk33 u0 U) <= csq u0.
Proof.
  intros Hd Hl Hi H. pose proof (z_left dt lam Hd Hl) as Z. pose proof (dirk33_relation dt lam u0 U Hd H) as E. cbv zeta in E.
  assert (snd (zz dt lam) = 0) as ZI by (unfold zz, cmul, ofR; cbn [fst snd]; rewrite Hi; ring).
  fold n2 in E. parts x y Z. cbn [snd] in ZI. subst y.
  remember (- x) as X eqn:EX. assert (x = - X) by (rewrite EX; ring). assert (0 <= X) as PX by lra. subst x. clear EX Z.
  assert (- (1/4) < n2 < 0) as [N1 N2] by (rewrite n2_value; unfold pdirk; lra).
  set (d := 1 + pdirk * X). set (n := 1 - (1 - 3 * pdirk) * X + n2 * (X * X)).
  assert (43/100 < pdirk < 44/100) as [P1 P2] by (unfold pdirk; lra).
  assert (0 <= pdirk * X) by (apply nn_mul; lra). pose proof (nn_sq X) as SX.
  assert (n <= d * d * d) as L1 by (unfold n, d; assert (0 <= pdirk * X * (pdirk * X)) by apply nn_sq; assert (0 <= pdirk * X * (pdirk * X) * (pdirk * X)) by (apply nn_mul; auto); nra).
  assert (- (d * d * d) <= n) as L2.
  { assert (0 <= pdirk * X * (pdirk * X) * (pdirk * X)) by (apply nn_mul; auto; apply nn_sq).
    pose proof (nn_mul (6 * pdirk - 1) X ltac:(lra) PX). pose proof (nn_mul (n2 + 3 * (pdirk * pdirk)) (X * X) ltac:(nra) SX). unfold n, d. nra. }
  assert (1 <= d) as D1 by (unfold d; lra). assert (0 < d * d * d) as D3 by (apply Rmult_lt_0_compat; [apply Rmult_lt_0_compat|]; lra).
  eapply growth; [exact E | |].
  - match goal with |- csq ?a <= csq ?b => replace (csq a) with (n * n) by (unfold n; open; ring);
      replace (csq b) with (d * d * d * (d * d * d)) by (unfold d; open; ring) end. nra.
  - match goal with |- 0 < csq ?b => replace (csq b) with (d * d * d * (d * d * d)) by (unfold d; open; ring) end. apply Rmult_lt_0_compat; auto.
Qed.
Print Assumptions C81_dirk33_partial.

(** The ten digits leave the method short of A-stability: an undamped oscillation grows. *)
Theorem C81_dirk33_refuted : ~ a_stable dirk33.
Proof.
  intros A. set (lam := (0, 1 / 1000000)). set (u0 := ofR 1).
  destruct (C81_solvable dirk33 1 lam u0) as [U H]; [lra | cbn; lra | |].
  { intros s Hs. split; [apply C24_dirk33_partial; auto|]. revert Hs. unfold nst, aij. cbn [dirk33 dirk33_of tA tb length].
    intros Hs. destruct s as [|[|[|s]]]; [..|lia]; cbn [nth]; unfold pdirk; lra. }
  specialize (A 1 lam u0 U ltac:(lra) ltac:(cbn; lra) H).
  pose proof (dirk33_relation 1 lam u0 U ltac:(lra) H) as E. cbv zeta in E. fold n2 in E.
  apply (f_equal csq) in E. rewrite !csq_mul in E.
  set (u1 := csq (advance dirk33 u0 U)) in *. assert (csq u0 = 1) as U0 by (unfold u0; open; ring). rewrite U0 in *.
  assert (zz 1 lam = (0, 1 / 1000000)) as Z by (unfold zz, lam; open; f_equal; field). rewrite Z in E.
  revert E. set (q := csq (csub _ _)). set (n := csq (cadd _ _)). intros E.
  assert (q = 1 + pdirk * pdirk / 1000000000000) as Q by (unfold q; open; field).
  assert (n = (1 - n2 / 1000000000000) * (1 - n2 / 1000000000000) + (1 - 3 * pdirk) * (1 - 3 * pdirk) / 1000000000000) as NN by (unfold n; open; field).
  assert (q * q * q < n) as L. { rewrite Q, NN, n2_value. unfold pdirk. lra. }
  assert (0 < q) as Q0 by (rewrite Q; unfold pdirk; lra).
  assert (0 <= q * q * q) as Q3 by (repeat apply nn_mul; lra).
  pose proof (Rmult_le_compat_l _ _ _ Q3 A). lra.
Qed.
Print Assumptions C81_dirk33_refuted.

(** Stiff decaying modes vanish under backward Euler and DIRK-3,3, whatever small factor
    is asked for. *)
Definition damps (t : tab) : Prop := forall eps, 0 < eps -> exists M, forall dt lam u0 U,
  0 < dt -> fst lam <= 0 -> snd lam = 0 -> M <= - (dt * fst lam) -> solves t dt lam u0 U -> csq (advance t u0 U) <= eps * csq u0.
Lemma growth_by D N u0 u1 eps : cmul D u1 = cmul N u0 -> csq N <= eps * csq D -> 0 < csq D -> csq u1 <= eps * csq u0.
Proof.
  intros E L P. assert (csq D * csq u1 = csq N * csq u0) by (rewrite <- !csq_mul, E; reflexivity).
  pose proof (csq_nonneg u0). apply Rmult_le_reg_l with (csq D); auto. rewrite H.
  replace (csq D * (eps * csq u0)) with (eps * csq D * csq u0) by ring. apply Rmult_le_compat_r; auto.
Qed.
Lemma real_z dt lam : snd lam = 0 -> zz dt lam = (- - (dt * fst lam), 0).
Proof. intros H. unfold zz. open. rewrite H. f_equal; ring. Qed.
Theorem C81_bwe_damps : damps bwe.
Proof.
  intros eps He. exists (/ eps). intros dt lam u0 U Hd Hl Hi M H.
  pose proof (one_stage bwe dt lam u0 U Hd H eq_refl ltac:(tabv; lra)) as E. tabv. rewrite (real_z _ _ Hi) in E.
  set (X := - (dt * fst lam)) in *. clearbody X. assert (0 < / eps) by (apply Rinv_0_lt_compat; auto).
  assert (1 <= eps * X) by (replace 1 with (eps * / eps) by (field; lra); apply Rmult_le_compat_l; lra).
  eapply growth_by; [exact E | |]; open; nra.
Qed.
Print Assumptions C81_bwe_damps.
Theorem C81_dirk33_damps : damps dirk33.
Proof.
  intros eps He. exists (1 + 1000 * / eps). intros dt lam u0 U Hd Hl Hi M H.
  pose proof (dirk33_relation dt lam u0 U Hd H) as E. cbv zeta in E. fold n2 in E. rewrite (real_z _ _ Hi) in E.
  set (X := - (dt * fst lam)) in *. clearbody X. assert (0 < / eps) by (apply Rinv_0_lt_compat; auto).
  assert (- (1/4) < n2 < 0) as [N1 N2] by (rewrite n2_value; unfold pdirk; lra).
  assert (43/100 < pdirk < 44/100) as [P1 P2] by (unfold pdirk; lra).
  assert (1 <= X) as X1 by lra. assert (1000 <= eps * X) as EX.
  { replace 1000 with (eps * (1000 * / eps)) by (field; lra). apply Rmult_le_compat_l; lra. }
  set (d := 1 + pdirk * X). set (n := 1 - (1 - 3 * pdirk) * X + n2 * (X * X)).
  assert (2/5 * X <= d) as D1 by (unfold d; nra). assert (0 < d) as D0 by lra.
  assert (1 <= X * X) as XX by nra. assert (X <= X * X) as XX' by nra.
  assert (n * n <= 4 * (X * X) * (X * X)) as NN.
  { assert (-2 * (X * X) <= n <= 2 * (X * X)) as [A B] by (unfold n; split; nra).
    assert (0 <= (2 * (X * X) - n) * (2 * (X * X) + n)) by (apply nn_mul; lra). lra. }
  assert (1/250 * (X * X * X * (X * X * X)) <= d * d * d * (d * d * d)) as DD.
  { assert (0 <= 2/5 * X) by lra. assert (4/25 * (X * X) <= d * d) by nra.
    assert (64/1000 * (X * X * X) <= d * d * d) by (assert (0 <= X * X) by lra; nra).
    assert (0 <= X * X * X) by (repeat apply nn_mul; lra). nra. }
  assert (0 < d * d * d) as D3 by (repeat apply Rmult_lt_0_compat; auto).
  eapply growth_by; [exact E | |].
  - match goal with |- csq ?a <= _ * csq ?b => replace (csq a) with (n * n) by (unfold n; open; ring);
      replace (csq b) with (d * d * d * (d * d * d)) by (unfold d; open; ring) end.
    apply Rle_trans with (4 * (X * X) * (X * X)); auto.
    apply Rle_trans with (eps * (1/250 * (X * X * X * (X * X * X)))); [|apply Rmult_le_compat_l; lra].
    replace (eps * (1/250 * (X * X * X * (X * X * X)))) with (1/250 * (eps * X) * (X * (X * X * (X * X)))) by ring.
    replace (4 * (X * X) * (X * X)) with (4 * (X * X * (X * X))) by ring. set (F := X * X * (X * X)).
    assert (0 <= F) by (unfold F; apply nn_sq). assert (F <= X * F) by nra.
    assert (1000 * (X * F) <= eps * X * (X * F)) by (apply Rmult_le_compat_r; lra). lra.
  - match goal with |- 0 < csq ?b => replace (csq b) with (d * d * d * (d * d * d)) by (unfold d; open; ring) end. apply Rmult_lt_0_compat; auto.
Qed.
Print Assumptions C81_dirk33_damps.

(** By name. *)
Definition implicit_names : list string := ["BWE"; "DIRK-1,1"; "CN"; "DIRK-1,2"; "DIRK-2,2"; "DIRK-2,3"]%string.
Theorem C81_implicit_stable name custom : In name implicit_names -> exists t, tableau name custom = Some t /\ a_stable t /\
  forall dt lam u0, 0 < dt -> fst lam <= 0 -> exists U, solves t dt lam u0 U.
Proof.
  unfold implicit_names. cbn [In]. intros H.
  repeat (destruct H as [<-|H]; [eexists; split; [reflexivity|]|]); [..|destruct H];
    (split; [first [apply C81_bwe | apply C81_cn | apply C81_dirk12 | apply C81_dirk22 | apply C81_dirk23]|]);
    intros dt lam u0 Hd Hl; apply C81_solvable; auto; intros s Hs; unfold nst in Hs; cbn in Hs;
    repeat (destruct s as [|s]; [unfold bi, aij; cbn [bwe cn dirk12 dirk22 dirk23 tb tA nth]; pose proof (sqrt_pos 3); split; lra|]); lia.
Qed.
Print Assumptions C81_implicit_stable.

(** The explicit methods are stable only for small steps. *)
Example C81_explicit : ~ a_stable fwe.
Proof.
  intros A. specialize (A 1 (ofR (-3)) (ofR 1) (fun _ => ofR (-2)) ltac:(lra) ltac:(cbn; lra)).
  assert (solves fwe 1 (ofR (-3)) (ofR 1) (fun _ => ofR (-2))) as S.
  { intros s Hs. assert (s = 0)%nat as -> by (unfold nst in Hs; cbn in Hs; lia).
    unfold dot_of, state_of, aij, bi. cbn [fwe tA tb nth bdf length Nat.sub seq fold_left complexes vadd vscal vsub inj]. open. f_equal; field. }
  specialize (A S). unfold advance, nst in A. cbn [fwe tb length seq fold_left] in A. revert A. open. lra.
Qed.
