(** The eigen-decompositions used by the hybridized modules, against the derivative of the flux. *)
From Coq Require Import Bool Arith Lia Reals Lra List String.
From Coquelicot Require Import Coquelicot.
From Verif Require Import Sparse_Model Sparse_Props Mass_Model BProj_Model BProj_Proofs Phys_Model Phys_Spec HDG_Model HDG_Spec HDG_Proofs.
Import ListNotations.
Local Open Scope R_scope.

Ltac below i := destruct i as [| i]; [| try (exfalso; lia); below i].
Ltac cases_lt i H := repeat (destruct i as [| i]; [clear H | try (exfalso; clear - H; lia)]).
Ltac expose := cbv [mmul dot sm rsum map seq fold_right ofm ofv nth delta Nat.eqb].

(** ** Shallow water *)
Definition sw_J1 (g H m n : R) : nat -> nat -> R := ofm [ [0; n]; [n*(g*H - m*m/(H*H)); 2*n*m/H] ].
Definition sw_J2 (g H mx my nx ny : R) : nat -> nat -> R :=
  let q := mx*nx + my*ny in
  ofm [ [0; nx; ny];
        [nx*g*H - mx*q/(H*H); q/H + mx*nx/H; mx*ny/H];
        [ny*g*H - my*q/(H*H); my*nx/H; q/H + my*ny/H] ].

Lemma sw_jac1 g n S : S 0%nat <> 0 -> jacobian 2 (normal_flux 1 (sw_F g) n) S (sw_J1 g (S 0%nat) (S 1%nat) (n 0%nat)).
Proof.
  intros HH i j Hi Hj. unfold normal_flux, sw_J1.
  cases_lt i Hi; cases_lt j Hj; expose; cbn [sw_F Nat.add];
  cbv [delta Nat.eqb]; auto_derive; rewrite ?Rmult_0_l, ?Rplus_0_r; try (repeat split; auto; fail); try (field; auto).
Qed.
Lemma sw_jac2 g n S : S 0%nat <> 0 ->
  jacobian 3 (normal_flux 2 (sw_F g) n) S (sw_J2 g (S 0%nat) (S 1%nat) (S 2%nat) (n 0%nat) (n 1%nat)).
Proof.
  intros HH i j Hi Hj. unfold normal_flux, sw_J2.
  cases_lt i Hi; cases_lt j Hj; expose; cbn [sw_F Nat.add];
  cbv [delta Nat.eqb]; auto_derive; rewrite ?Rmult_0_l, ?Rplus_0_r; try (repeat split; auto; fail); try (field; auto).
Qed.

Lemma sound g H : 0 < g -> 0 < H -> 0 < sqrt (H * g) /\ g = sqrt (H * g) * sqrt (H * g) / H.
Proof.
  intros G P. split; [apply sqrt_lt_R0, Rmult_lt_0_compat; assumption |].
  rewrite sqrt_sqrt by (apply Rlt_le, Rmult_lt_0_compat; assumption). field. lra.
Qed.

Lemma sw_basis1 g H m n : 0 < g -> 0 < H -> n * n = 1 ->
  let '(L, lam, X) := sw_eig1 g m H in eigenbasis 2 (sw_J1 g H m n) X L (fun k => n * lam k).
Proof.
  intros G P N. unfold sw_eig1, sw_J1. destruct (sound g H G P) as [A E].
  set (a := sqrt (H * g)) in *. clearbody a. subst g.
  split; intros i j Hi Hj; cases_lt i Hi; cases_lt j Hj; expose; field; lra.
Qed.
Lemma sw_basis2 g H mx my nx ny : 0 < g -> 0 < H -> nx * nx + ny * ny = 1 ->
  let '(L, lam, X) := sw_eig2 g mx my H nx ny in eigenbasis 3 (sw_J2 g H mx my nx ny) X L lam.
Proof.
  intros G P N. unfold sw_eig2, sw_J2. destruct (sound g H G P) as [A E].
  set (a := sqrt (H * g)) in *. clearbody a. subst g.
  assert (ny * ny = 1 - nx * nx) as N2 by lra.
  split; intros i j Hi Hj; cases_lt i Hi; cases_lt j Hj; expose; field [N2]; lra.
Qed.

(** ** Euler *)
Definition eu_J (gamma : R) (d : nat) (n S : nat -> R) : nat -> nat -> R := fun i j =>
  let q := sm (seq 0 d) (fun e => S (1 + e)%nat * n e) in
  let mm := sm (seq 0 d) (fun c => S (1 + c)%nat * S (1 + c)%nat) in
  let rho := S 0%nat in
  let p := pressure gamma d S in
  let dp := if Nat.eqb j 0 then (gamma - 1) * (mm / (2 * (rho * rho)))
            else if Nat.eqb j (d + 1) then gamma - 1 else - ((gamma - 1) * S j / rho) in
  let dq := if Nat.eqb j 0 then 0 else if Nat.eqb j (d + 1) then 0 else n (j - 1)%nat in
  if Nat.eqb i 0 then dq
  else if Nat.eqb i (d + 1) then
    (delta j (d + 1) + dp) * q / rho + (S (d + 1)%nat + p) * dq / rho - delta j 0 * ((S (d + 1)%nat + p) * q / (rho * rho))
  else delta i j * q / rho + S i * dq / rho - delta j 0 * (S i * q / (rho * rho)) + n (i - 1)%nat * dp.

Ltac derivs := intros HH i j Hi Hj; unfold normal_flux, eu_J, eu_F, pressure;
  cases_lt i Hi; cases_lt j Hj; cbn [seq Nat.add Nat.sub Nat.eqb]; unfold sm; cbn [map rsum fold_right];
  unfold delta; cbn [Nat.eqb]; auto_derive; rewrite ?Rmult_0_l, ?Rplus_0_r; try (repeat split; lra); try (field; auto).
Lemma eu_jac1 gamma n S : S 0%nat <> 0 -> jacobian 3 (normal_flux 1 (eu_F gamma 1) n) S (eu_J gamma 1 n S).
Proof. derivs. Qed.
Lemma eu_jac2 gamma n S : S 0%nat <> 0 -> jacobian 4 (normal_flux 2 (eu_F gamma 2) n) S (eu_J gamma 2 n S).
Proof. derivs. Qed.
Lemma eu_jac3 gamma n S : S 0%nat <> 0 -> jacobian 5 (normal_flux 3 (eu_F gamma 3) n) S (eu_J gamma 3 n S).
Proof. derivs. Qed.

(** The energy in terms of the sound speed. *)
Lemma energy gamma d S a : 1 < gamma -> 0 < S 0%nat -> a * a = gamma * pressure gamma d S / S 0%nat ->
  S (d + 1)%nat = a * a * S 0%nat / (gamma * (gamma - 1)) + sm (seq 0 d) (fun c => S (1 + c)%nat * S (1 + c)%nat) / (2 * S 0%nat).
Proof. intros G P E. unfold pressure in E. set (q := sm _ _) in *. rewrite E. field. lra. Qed.

Ltac entry := cbn [seq Nat.add Nat.sub Nat.eqb]; unfold mmul, dot, sm, ofm, ofv, delta; cbn [map rsum fold_right nth Nat.eqb seq Nat.add Nat.sub].

Lemma eu_basis2 gamma a n S : 1 < gamma -> 0 < S 0%nat -> 0 < a -> a * a = gamma * pressure gamma 2 S / S 0%nat ->
  n 0%nat * n 0%nat + n 1%nat * n 1%nat = 1 ->
  let '(L, lam, X) := eu_eig2 (S 1%nat) (S 2%nat) (S 0%nat) (n 0%nat) (n 1%nat) a gamma in
  eigenbasis 4 (eu_J gamma 2 n S) X L lam.
Proof.
  intros G P A E N. apply energy in E; [| assumption | assumption]. unfold eu_eig2, eu_J, pressure.
  cbn [Nat.add seq map] in *. unfold sm in *. cbn [map rsum fold_right Nat.add] in *.
  assert (n 1%nat * n 1%nat = 1 - n 0%nat * n 0%nat) as N2 by lra.
  split; intros i j Hi Hj; cases_lt i Hi; cases_lt j Hj; entry; rewrite ?E; field [N2]; lra.
Qed.
(** One dimension: right only for gas at rest (the left eigenvectors have a^3 where 2 a^2 belongs). *)
Lemma eu_basis1 gamma a n S : 1 < gamma -> 0 < S 0%nat -> 0 < a -> a * a = gamma * pressure gamma 1 S / S 0%nat ->
  n 0%nat * n 0%nat = 1 -> S 1%nat = 0 ->
  let '(L, lam, X) := eu_eig1 (S 1%nat) (S 0%nat) a gamma in
  eigenbasis 3 (eu_J gamma 1 n S) X L (fun k => n 0%nat * lam k).
Proof.
  intros G P A E N Z. apply energy in E; [| assumption | assumption]. unfold eu_eig1, eu_J, pressure.
  cbn [Nat.add seq map] in *. unfold sm in *. cbn [map rsum fold_right Nat.add] in *. rewrite Z in E.
  split; intros i j Hi Hj; cases_lt i Hi; cases_lt j Hj; entry; rewrite ?E, ?Z; field [N]; lra.
Qed.
