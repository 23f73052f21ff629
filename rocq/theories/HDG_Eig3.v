(** Three dimensions. *)
From Coq Require Import Bool Arith Lia Reals Lra List String.
From Coquelicot Require Import Coquelicot.
From Verif Require Import Sparse_Model Sparse_Props Mass_Model BProj_Model BProj_Proofs Phys_Model Phys_Spec HDG_Model HDG_Spec HDG_Proofs HDG_Eig.
Import ListNotations.
Local Open Scope R_scope.

(** The component divided by is not zero. *)
Lemma rgtb_true x y : rgtb x y = true -> y < x.
Proof. unfold rgtb. destruct (Rlt_dec y x); [auto | discriminate]. Qed.
Lemma rgtb_false x y : rgtb x y = false -> x <= y.
Proof. unfold rgtb. destruct (Rlt_dec y x); [discriminate | intros; lra]. Qed.
Lemma which nx ny nz : nx * nx + ny * ny + nz * nz = 1 ->
  (whichMat nx ny nz = 1%nat /\ nx <> 0) \/ (whichMat nx ny nz = 2%nat /\ ny <> 0) \/ (whichMat nx ny nz = 3%nat /\ nz <> 0).
Proof.
  intros N. unfold whichMat.
  assert (forall x, x = 0 -> Rabs x = 0) as Z by (intros x ->; apply Rabs_R0).
  assert (forall x, Rabs x <= 0 -> x = 0) as Z'.
  { intros x H. destruct (Req_dec x 0) as [| NE]; [assumption |]. apply Rabs_pos_lt in NE. lra. }
  pose proof (Rabs_pos nx). pose proof (Rabs_pos ny). pose proof (Rabs_pos nz).
  destruct (rgtb (Rabs ny) (Rabs nx)) eqn:A; cbn [orb].
  - apply rgtb_true in A. destruct (rgtb (Rabs nz) (Rabs ny)) eqn:B.
    + apply rgtb_true in B. right; right. split; [reflexivity |]. intros Q. apply Z in Q. lra.
    + right; left. split; [reflexivity |]. intros Q. apply Z in Q. lra.
  - apply rgtb_false in A. destruct (rgtb (Rabs nz) (Rabs nx)) eqn:C.
    + apply rgtb_true in C. destruct (rgtb (Rabs nz) (Rabs ny)) eqn:B.
      * right; right. split; [reflexivity |]. intros Q. apply Z in Q. lra.
      * apply rgtb_false in B. right; left. split; [reflexivity |]. intros Q. apply Z in Q. lra.
    + apply rgtb_false in C. left. split; [reflexivity |]. intros Q.
      pose proof (Z _ Q). assert (ny = 0) by (apply Z'; lra). assert (nz = 0) by (apply Z'; lra). subst. lra.
Qed.

Lemma eu_basis3 gamma a n S : 1 < gamma -> 0 < S 0%nat -> 0 < a -> a * a = gamma * pressure gamma 3 S / S 0%nat ->
  n 0%nat * n 0%nat + n 1%nat * n 1%nat + n 2%nat * n 2%nat = 1 ->
  let '(L, lam, X) := eu_eig3 (S 1%nat) (S 2%nat) (S 3%nat) (S 0%nat) (n 0%nat) (n 1%nat) (n 2%nat) a gamma in
  eigenbasis 5 (eu_J gamma 3 n S) X L lam.
Proof.
  intros G P A E N. apply energy in E; [| assumption | assumption]. unfold eu_eig3, eu_J, pressure.
  cbn [Nat.add seq map] in *. unfold sm in *. cbn [map rsum fold_right Nat.add] in *.
  assert (n 2%nat * n 2%nat = 1 - n 0%nat * n 0%nat - n 1%nat * n 1%nat) as N2 by lra.
  destruct (which _ _ _ N) as [[-> NZ] | [[-> NZ] | [-> NZ]]]; cbn [app].
  - split; intros i j Hi Hj; cases_lt i Hi; cases_lt j Hj; entry; rewrite ?E; field [N2]; lra.
  - split; intros i j Hi Hj; cases_lt i Hi; cases_lt j Hj; entry; rewrite ?E; field [N2]; lra.
  - split; intros i j Hi Hj; cases_lt i Hi; cases_lt j Hj; entry; rewrite ?E; field [N2]; lra.
Qed.
