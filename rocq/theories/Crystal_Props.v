(** C209 (rotated stiffness), C210 (symmetry of the stress), C211 (isotropic default), C212
    (constants and parameters that are used), C213 (the shared rotation matrix). *)
From Coq Require Import Bool Arith Lia Reals Lra String List.
From Verif Require Import Sparse_Model Sparse_Props Mass_Model Mass_Props BProj_Model BProj_Proofs Phys_Model Phys_Spec Phys_Proofs
  Elast_Model Elast_Props NeoH_Model NeoH_Props Crystal_Model.
Import ListNotations.
Local Open Scope R_scope.
Local Notation length := List.length.

(** *** Specification *)
(** Small strain from displacement gradients g (component, direction); turning about the z and x axes. *)
Definition sym (g : nat -> nat -> R) (i j : nat) : R := (g i j + g j i) / 2.
Definition turn_z (t : R) (i j : nat) : R :=
  match i, j with 0%nat, 0%nat | 1%nat, 1%nat => cos t | 0%nat, 1%nat => - sin t | 1%nat, 0%nat => sin t | 2%nat, 2%nat => 1 | _, _ => 0 end.
Definition turn_x (t : R) (i j : nat) : R :=
  match i, j with 1%nat, 1%nat | 2%nat, 2%nat => cos t | 1%nat, 2%nat => - sin t | 2%nat, 1%nat => sin t | 0%nat, 0%nat => 1 | _, _ => 0 end.
Definition degrees (x : R) : R := x * PI / 180.
(** Q A Q^T and Q^T A Q in d dimensions; a stiffness applied to a strain. *)
Definition push (d : nat) (Q A : nat -> nat -> R) (i j : nat) : R := sm (seq 0 d) (fun a => sm (seq 0 d) (fun b => Q i a * Q j b * A a b)).
Definition pull (d : nat) (Q A : nat -> nat -> R) (a b : nat) : R := sm (seq 0 d) (fun i => sm (seq 0 d) (fun j => Q i a * Q j b * A i j)).
Definition apply4 (d : nat) (C : nat -> nat -> nat -> nat -> R) (A : nat -> nat -> R) (i j : nat) : R :=
  sm (seq 0 d) (fun k => sm (seq 0 d) (fun l => C i j k l * A k l)).
Definition eye (i j : nat) : R := delta i j.

Lemma strain_sym g i j : ce_strain g i j = sym g i j.
Proof. unfold ce_strain, sym. destruct (Nat.eqb_spec i j) as [-> |]; field. Qed.
Lemma in_range n x : In x (seq 0 n) -> (x < n)%nat.
Proof. intros I. apply in_seq in I. lia. Qed.

(** *** C209: the stiffness is the lattice stiffness turned with the crystal *)
Lemma pair_swap n (f : nat -> nat -> nat -> nat -> R) :
  sm (seq 0 n) (fun k => sm (seq 0 n) (fun l => sm (seq 0 n) (fun a => sm (seq 0 n) (fun b => f k l a b)))) =
  sm (seq 0 n) (fun a => sm (seq 0 n) (fun b => sm (seq 0 n) (fun k => sm (seq 0 n) (fun l => f k l a b)))).
Proof.
  erewrite sm_ext; [| intros k _; rewrite sm_swap; reflexivity]. rewrite sm_swap. apply sm_ext. intros a _.
  erewrite sm_ext; [| intros k _; rewrite sm_swap; reflexivity]. rewrite sm_swap. reflexivity.
Qed.
Lemma sm2_scal n c f : sm (seq 0 n) (fun k => sm (seq 0 n) (fun l => c * f k l)) = c * sm (seq 0 n) (fun k => sm (seq 0 n) (fun l => f k l)).
Proof. erewrite sm_ext; [| intros k _; apply sm_scal]. apply sm_scal. Qed.
Lemma sm2_ext n f g : (forall k l, f k l = g k l) ->
  sm (seq 0 n) (fun k => sm (seq 0 n) (fun l => f k l)) = sm (seq 0 n) (fun k => sm (seq 0 n) (fun l => g k l)).
Proof. intros H. apply sm_ext. intros k _. apply sm_ext. intros l _. apply H. Qed.
Lemma sm2_scal_r n c f : sm (seq 0 n) (fun k => sm (seq 0 n) (fun l => f k l * c)) = sm (seq 0 n) (fun k => sm (seq 0 n) (fun l => f k l)) * c.
Proof. erewrite sm_ext; [| intros k _; apply sm_scal_r]. apply sm_scal_r. Qed.

Theorem C209_turned : forall d c rl g i j,
  ce_stress d c rl g None i j = push d rl (apply4 d (lattice c) (pull d rl (sym g))) i j.
Proof.
  intros d c rl g i j. unfold ce_stress. rewrite Rplus_0_r. unfold push, apply4, ce_rotated.
  rewrite (sm2_ext d _ (fun k l => sm (seq 0 d) (fun i1 => sm (seq 0 d) (fun j1 =>
    rl i i1 * rl j j1 * sm (seq 0 d) (fun k1 => sm (seq 0 d) (fun l1 => lattice c i1 j1 k1 l1 * (rl k k1 * rl l l1 * sym g k l))))))).
  2:{ intros k l. rewrite <- sm2_scal_r. apply sm2_ext. intros i1 j1. rewrite <- sm2_scal_r, <- sm2_scal. apply sm2_ext. intros k1 l1.
      rewrite strain_sym. ring. }
  rewrite (pair_swap d (fun k l i1 j1 => rl i i1 * rl j j1 * sm (seq 0 d) (fun k1 => sm (seq 0 d) (fun l1 => lattice c i1 j1 k1 l1 * (rl k k1 * rl l l1 * sym g k l))))).
  apply sm2_ext. intros a b. rewrite sm2_scal. f_equal. rewrite pair_swap. apply sm2_ext. intros k1 l1. unfold pull. apply sm2_scal.
Qed.

(** Three angles in degrees give three successive turns, so a rotation. *)
Lemma degtorad_is x : x * (atan 1 / 45) = degrees x.
Proof. unfold degrees. rewrite atan_1. field. Qed.
Theorem C209_angles : forall a b c, rotation (bunge a b c) /\
  (forall i j, (i < 3)%nat -> (j < 3)%nat ->
     bunge a b c i j = mul3 (turn_z (degrees a)) (mul3 (turn_x (degrees b)) (turn_z (degrees c))) i j).
Proof.
  intros a b c. assert (forall x, sin x * sin x = 1 - cos x * cos x) as S2 by (intros x; pose proof (sin2_cos2 x) as H; unfold Rsqr in H; lra).
  split; [split |].
  - intros p q P Q. rewrite 3 sm_cons || unfold sm, Sparse_Model.rsum. cbn. unfold bunge. rewrite !degtorad_is.
    pose proof (S2 (degrees a)) as A. pose proof (S2 (degrees b)) as B. pose proof (S2 (degrees c)) as D.
    set (sa := sin (degrees a)) in *. set (ca := cos (degrees a)) in *. set (sb := sin (degrees b)) in *. set (cb := cos (degrees b)) in *.
    set (sc := sin (degrees c)) in *. set (cc := cos (degrees c)) in *. clearbody sa ca sb cb sc cc.
    comps p; comps q; unfold delta; cbn [Nat.eqb]; ring_simplify; repeat change (?x ^ 2) with (x * (x * 1)); rewrite ?Rmult_1_r; ring [A B D].
  - unfold det, bunge. rewrite !degtorad_is.
    pose proof (S2 (degrees a)) as A. pose proof (S2 (degrees b)) as B. pose proof (S2 (degrees c)) as D.
    set (sa := sin (degrees a)) in *. set (ca := cos (degrees a)) in *. set (sb := sin (degrees b)) in *. set (cb := cos (degrees b)) in *.
    set (sc := sin (degrees c)) in *. set (cc := cos (degrees c)) in *. clearbody sa ca sb cb sc cc. ring [A B D].
  - intros i j I J. unfold mul3, sm, Sparse_Model.rsum. cbn [seq map fold_right]. unfold bunge. rewrite !degtorad_is.
    comps i; comps j; cbn [turn_z turn_x]; ring.
Qed.

(** So a crystal turned together with its strain carries the turned stress. *)
Lemma seq_delta n c f : (c < n)%nat -> sm (seq 0 n) (fun j => delta c j * f j) = f c.
Proof.
  intros C. rewrite (sm_ext _ _ (fun j => if (j =? c)%nat then f j else 0)); [apply (sm_single n c f C) |].
  intros j _. unfold delta. rewrite (Nat.eqb_sym c j). destruct (j =? c)%nat; ring.
Qed.
Lemma pull_push Q A : (forall c d, (c < 3)%nat -> (d < 3)%nat -> sm (seq 0 3) (fun e => Q e c * Q e d) = delta c d) ->
  forall a b, (a < 3)%nat -> (b < 3)%nat -> pull 3 Q (push 3 Q A) a b = A a b.
Proof.
  intros O a b Ha Hb. unfold pull, push.
  rewrite (sm2_ext 3 _ (fun i j => sm (seq 0 3) (fun p => sm (seq 0 3) (fun q => (Q i a * Q i p) * (Q j b * Q j q) * A p q)))).
  2:{ intros i j. rewrite <- sm2_scal. apply sm2_ext. intros p q. ring. }
  rewrite pair_swap. transitivity (sm (seq 0 3) (fun p => sm (seq 0 3) (fun q => delta a p * (delta b q * A p q)))).
  - apply sm_ext. intros p Ip. apply sm_ext. intros q Iq. apply in_range in Ip, Iq.
    rewrite <- (O a p Ha Ip), <- (O b q Hb Iq).
    rewrite (sm_ext _ _ (fun i => Q i a * Q i p * (sm (seq 0 3) (fun j => Q j b * Q j q) * A p q))).
    2:{ intros i _. rewrite sm_scal_r, sm_scal. ring. }
    rewrite sm_scal_r. ring.
  - rewrite (sm_ext _ _ (fun p => delta a p * A p b)).
    2:{ intros p _. rewrite sm_scal. f_equal. apply (seq_delta 3 b (fun q => A p q) Hb). }
    apply (seq_delta 3 a (fun p => A p b) Ha).
Qed.
Lemma apply4_ext n C A B i j : (forall a b, (a < n)%nat -> (b < n)%nat -> A a b = B a b) -> apply4 n C A i j = apply4 n C B i j.
Proof. intros H. unfold apply4. apply sm_ext. intros a Ia. apply sm_ext. intros b Ib. apply in_range in Ia, Ib. rewrite H by assumption. reflexivity. Qed.
Lemma push_ext n Q A B i j : (forall a b, (a < n)%nat -> (b < n)%nat -> A a b = B a b) -> push n Q A i j = push n Q B i j.
Proof. intros H. unfold push. apply sm_ext. intros a Ia. apply sm_ext. intros b Ib. apply in_range in Ia, Ib. rewrite H by assumption. reflexivity. Qed.
Lemma pull_ext n Q A B i j : (forall a b, (a < n)%nat -> (b < n)%nat -> A a b = B a b) -> pull n Q A i j = pull n Q B i j.
Proof. intros H. unfold pull. apply sm_ext. intros a Ia. apply sm_ext. intros b Ib. apply in_range in Ia, Ib. rewrite H by assumption. reflexivity. Qed.
Lemma push_eye n A i j : (i < n)%nat -> (j < n)%nat -> push n eye A i j = A i j.
Proof.
  intros I J. unfold push, eye. rewrite (sm_ext _ _ (fun a => delta i a * A a j)).
  2:{ intros a _. rewrite (sm_ext _ _ (fun b => delta i a * (delta j b * A a b))) by (intros; ring). rewrite sm_scal.
      rewrite (seq_delta n j (fun b => A a b) J). reflexivity. }
  apply (seq_delta n i (fun a => A a j) I).
Qed.
Lemma pull_eye n A i j : (i < n)%nat -> (j < n)%nat -> pull n eye A i j = A i j.
Proof.
  intros I J. rewrite <- (push_eye n A i j I J). unfold pull, push, eye. apply sm2_ext. intros k l. unfold delta.
  rewrite (Nat.eqb_sym k i), (Nat.eqb_sym l j). reflexivity.
Qed.
Lemma unturned d c g i j : (i < d)%nat -> (j < d)%nat -> ce_stress d c eye g None i j = apply4 d (lattice c) (sym g) i j.
Proof.
  intros I J. rewrite C209_turned, push_eye by assumption. apply apply4_ext. intros a b A B. apply pull_eye; assumption.
Qed.
Theorem C209_objective : forall c Q g h, rotation Q ->
  (forall i j, (i < 3)%nat -> (j < 3)%nat -> sym h i j = push 3 Q (sym g) i j) ->
  forall i j, (i < 3)%nat -> (j < 3)%nat ->
  ce_stress 3 c Q h None i j = push 3 Q (fun a b => ce_stress 3 c eye g None a b) i j.
Proof.
  intros c Q g h [O _] E i j I J. rewrite C209_turned. apply push_ext. intros a b A B. rewrite unturned by assumption.
  apply apply4_ext. intros k l K L. rewrite (pull_ext 3 Q (sym h) (push 3 Q (sym g))) by exact E. apply pull_push; assumption.
Qed.
(** What the settings choose: no turn unless rotations are allowed and given. *)
Theorem C209_choice : forall phi rot i j, (i < 3)%nat -> (j < 3)%nat ->
  (forall ph ro, ce_rl false ph ro phi rot i j = eye i j) /\ ce_rl true false false phi rot i j = eye i j /\
  ce_rl true false true phi rot i j = rot i j /\
  (forall ro, ce_rl true true ro phi rot i j = bunge (phi 0%nat) (phi 1%nat) (phi 2%nat) i j).
Proof. intros phi rot i j I J. comps i; comps j; repeat split; reflexivity. Qed.
Print Assumptions C209_turned.
Print Assumptions C209_angles.
Print Assumptions C209_objective.
Print Assumptions C209_choice.

(** *** C210: the stress is symmetric and comes from an energy *)
Theorem C210_plane_partial : forall d c Q, (d <= 2)%nat ->
  (forall g i j, (i < d)%nat -> (j < d)%nat -> ce_stress d c Q g None i j = ce_stress d c Q g None j i) /\
  (forall g h, frob d (ce_stress d c Q g None) (sym h) = frob d (ce_stress d c Q h None) (sym g)).
Proof.
  intros d c Q D. assert (forall g i j, ce_stress d c Q g None i j = push d Q (apply4 d (lattice c) (pull d Q (sym g))) i j) as T by (intros; apply C209_turned).
  split.
  - intros g i j I J. rewrite !T. destruct d as [| [| [| d]]]; [lia | | | lia].
    + replace i with 0%nat by lia. replace j with 0%nat by lia. reflexivity.
    + comps i; comps j; try reflexivity; unfold push, apply4, pull, sm, Sparse_Model.rsum; cbn [seq map fold_right];
      cbv [lattice lattice_writes fold_left Nat.eqb andb]; unfold sym; field.
  - intros g h. unfold frob. rewrite !(sm2_ext d _ _ (fun a b => f_equal2 Rmult (T _ a b) eq_refl)).
    destruct d as [| [| [| d]]]; [reflexivity | | | lia];
    unfold push, apply4, pull, sm, Sparse_Model.rsum; cbn [seq map fold_right];
      cbv [lattice lattice_writes fold_left Nat.eqb andb]; unfold sym; field.
Qed.
(** In three dimensions a shear in the x-z plane gives two different stresses, whatever the constants. *)
Definition shear_xz (i j : nat) : R := if ((i =? 0) && (j =? 2))%nat%bool then 1 else 0.
Theorem C210_symmetric_refuted : forall c, c55 c <> 0 ->
  ce_stress 3 c eye shear_xz None 2 0 = 2 * ce_stress 3 c eye shear_xz None 0 2 /\
  ce_stress 3 c eye shear_xz None 0 2 <> ce_stress 3 c eye shear_xz None 2 0.
Proof.
  intros c N. rewrite !unturned by lia.
  assert (apply4 3 (lattice c) (sym shear_xz) 0 2 = c55 c / 2) as A.
  { unfold apply4, sm, Sparse_Model.rsum. cbn [seq map fold_right]. cbv [lattice lattice_writes fold_left Nat.eqb andb]. unfold sym, shear_xz. cbn [Nat.eqb andb]. field. }
  assert (apply4 3 (lattice c) (sym shear_xz) 2 0 = c55 c) as B.
  { unfold apply4, sm, Sparse_Model.rsum. cbn [seq map fold_right]. cbv [lattice lattice_writes fold_left Nat.eqb andb]. unfold sym, shear_xz. cbn [Nat.eqb andb]. field. }
  rewrite A, B. split; [field | lra].
Qed.
(** With no such shear it is symmetric. *)
Theorem C210_unsheared_partial : forall c g, g 0%nat 2%nat + g 2%nat 0%nat = 0 -> forall i j, (i < 3)%nat -> (j < 3)%nat ->
  ce_stress 3 c eye g None i j = ce_stress 3 c eye g None j i.
Proof.
  intros c g Z i j I J. rewrite !unturned by assumption. assert (sym g 0 2 = 0) as S1 by (unfold sym; rewrite Z; field).
  assert (sym g 2 0 = 0) as S2 by (unfold sym; rewrite Rplus_comm, Z; field).
  assert (forall a b, sym g a b = sym g b a) as SS by (intros; unfold sym; field).
  comps i; comps j; try reflexivity; unfold apply4, sm, Sparse_Model.rsum; cbn [seq map fold_right];
    cbv [lattice lattice_writes fold_left Nat.eqb andb]; rewrite S1, S2; rewrite ?(SS 1%nat 0%nat), ?(SS 2%nat 1%nat); ring.
Qed.
Print Assumptions C210_plane_partial.
Print Assumptions C210_symmetric_refuted.
Print Assumptions C210_unsheared_partial.

(** *** C211: with only Young's modulus and Poisson's ratio the solid is isotropic *)
Definition only (l : list (string * R)) (n : string) : option R :=
  match find (fun e => String.eqb (fst e) n) l with Some e => Some (snd e) | None => None end.
Definition lame (E nu : R) : R := E * nu / ((1 + nu) * (1 - 2 * nu)).
Definition shearmod (E nu : R) : R := E / (2 * (1 + nu)).
Definition iso (d : nat) (E nu : R) (g : nat -> nat -> R) (i j : nat) : R :=
  lame E nu * sm (seq 0 d) (fun a => g a a) * delta i j + 2 * shearmod E nu * sym g i j.
Definition ce_made (get par : string -> option R) : stiff := ce_update par (ce_new get).
Definition none (n : string) : option R := None.
(** Without shear strain in the axes of the crystal the stress is that of Hooke. *)
Ltac constants := unfold sm, Sparse_Model.rsum; cbn [seq map fold_right];
  cbv [lattice lattice_writes fold_left Nat.eqb andb ce_made ce_new ce_update only find fst snd String.eqb Ascii.eqb Bool.eqb dflt none negb orb
       c11 c22 c33 c44 c55 c66 c12 c13 c23 c15 c25 c35 c46 ce_lambda ce_mu delta].
Theorem C211_stretch_partial : forall d E nu g, (d <= 3)%nat -> (forall i j, i <> j -> g i j + g j i = 0) ->
  forall i j, (i < d)%nat -> (j < d)%nat ->
  ce_stress d (ce_made (only [("E"%string, E); ("nu"%string, nu)]) none) eye g None i j = iso d E nu g i j.
Proof.
  intros d E nu g D N i j I J. rewrite unturned by assumption.
  assert (forall a b, a <> b -> sym g a b = 0) as Z by (intros a b Hab; unfold sym; rewrite N by exact Hab; field).
  assert (forall a, sym g a a = g a a) as G by (intros; unfold sym; field).
  destruct d as [| [| [| [| d]]]]; try lia; comps i; comps j; try lia; unfold apply4, iso; constants; fold (lame E nu) (shearmod E nu);
    rewrite ?G; rewrite ?(Z 0 1)%nat, ?(Z 1 0)%nat, ?(Z 0 2)%nat, ?(Z 2 0)%nat, ?(Z 1 2)%nat, ?(Z 2 1)%nat by lia; ring.
Qed.
(** In shear it is twice that of Hooke. *)
Definition shear_xy (i j : nat) : R := if ((i =? 0) && (j =? 1))%nat%bool then 1 else 0.
Theorem C211_shear_refuted : forall d E nu, (2 <= d <= 3)%nat -> 0 < E -> 0 <= nu < 1 / 2 ->
  let c := ce_made (only [("E"%string, E); ("nu"%string, nu)]) none in
  ce_stress d c eye shear_xy None 0 1 = 2 * iso d E nu shear_xy 0 1 /\
  ce_stress d c eye shear_xy None 0 1 <> iso d E nu shear_xy 0 1.
Proof.
  intros d E nu D PE PN c. assert (0 < shearmod E nu) as P by (unfold shearmod; apply Rdiv_lt_0_compat; lra).
  assert (ce_stress d c eye shear_xy None 0 1 = 2 * shearmod E nu) as A.
  { rewrite unturned by lia. unfold c, apply4. destruct d as [| [| [| [| d]]]]; try lia; constants; fold (lame E nu) (shearmod E nu); unfold sym, shear_xy; cbn [Nat.eqb andb]; field. }
  assert (iso d E nu shear_xy 0 1 = shearmod E nu) as B by (unfold iso, delta, sym, shear_xy; cbn [Nat.eqb andb]; field).
  rewrite A, B. split; lra.
Qed.
(** Giving C44 as the shear modulus mends the stress in the plane, and spoils the thermal stress. *)
Theorem C211_mended_partial : forall d E nu g, (d <= 2)%nat -> forall i j, (i < d)%nat -> (j < d)%nat ->
  ce_stress d (ce_made (only [("E"%string, E); ("nu"%string, nu); ("C44"%string, shearmod E nu)]) none) eye g None i j = iso d E nu g i j.
Proof.
  intros d E nu g D i j I J. rewrite unturned by assumption.
  destruct d as [| [| [| d]]]; try lia; comps i; comps j; try lia; unfold apply4, iso; constants; fold (lame E nu) (shearmod E nu);
    unfold sym; field.
Qed.
Theorem C211_thermal_refuted : forall d E nu theta, (1 <= d)%nat -> 0 < E -> 0 <= nu < 1 / 2 -> theta <> 0 ->
  let bulk3 := 3 * lame E nu + 2 * shearmod E nu in
  let rise c := ce_stress d c eye (fun _ _ => 0) (Some theta) 0 0 - ce_stress d c eye (fun _ _ => 0) None 0 0 in
  rise (ce_made (only [("E"%string, E); ("nu"%string, nu)]) none) = - theta * bulk3 /\
  rise (ce_made (only [("E"%string, E); ("nu"%string, nu); ("C44"%string, shearmod E nu)]) none) <> - theta * bulk3.
Proof.
  intros d E nu theta D PE PN T bulk3 rise. assert (0 < shearmod E nu) as P by (unfold shearmod; apply Rdiv_lt_0_compat; lra).
  assert (forall c, rise c = - theta * (3 * ce_lambda c + 2 * ce_mu c)) as H by (intros c; unfold rise, ce_stress; cbn [Nat.eqb]; ring).
  split; rewrite H; unfold bulk3; cbv [ce_made ce_new ce_update only find fst snd String.eqb Ascii.eqb Bool.eqb dflt none negb orb ce_lambda ce_mu];
    fold (lame E nu) (shearmod E nu).
  - field.
  - intros Q. assert (theta * shearmod E nu = 0) as Z by lra. apply Rmult_integral in Z. destruct Z; lra.
Qed.
Example C211_inhabited : 0 < 1 /\ 0 <= 4 / 10 < 1 / 2 /\ shearmod 1 (4 / 10) = 5 / 14.
Proof. repeat split; unfold shearmod; try lra. Qed.
Print Assumptions C211_stretch_partial.
Print Assumptions C211_shear_refuted.
Print Assumptions C211_mended_partial.
Print Assumptions C211_thermal_refuted.

(** *** C212: the constants and the parameters given are the ones used *)
Definition stretch (a i j : nat) : R := if ((i =? a) && (j =? a))%nat%bool then 1 else 0.
Theorem C212_cubic_partial : forall A B D par a b, par "youngs_mod"%string = None \/ par "poisson_ratio"%string = None ->
  (a < 3)%nat -> (b < 3)%nat -> a <> b ->
  let c := ce_made (only [("C11"%string, A); ("C12"%string, B); ("C44"%string, D)]) par in
  ce_stress 3 c eye (stretch a) None a a = A /\ ce_stress 3 c eye (stretch a) None b b = B /\
  ce_stress 3 c eye shear_xy None 0 1 = D.
Proof.
  intros A B D par a b P Ha Hb N c.
  assert (c11 c = A /\ c22 c = A /\ c33 c = A /\ c12 c = B /\ c13 c = B /\ c23 c = B /\ c66 c = D /\ c15 c = 0 /\ c25 c = 0 /\ c35 c = 0 /\ c46 c = 0)
    as (E1 & E2 & E3 & E4 & E5 & E6 & E7 & E8 & E9 & E10 & E11).
  { unfold c, ce_made, ce_update. rewrite orb_true_r. destruct P as [-> | ->]; [| destruct (par "youngs_mod"%string)]; repeat split. }
  rewrite !unturned by (try assumption; lia). unfold apply4, sm, Sparse_Model.rsum. cbn [seq map fold_right]. unfold sym, stretch, shear_xy.
  comps a; comps b; try lia; cbv [lattice lattice_writes fold_left Nat.eqb andb]; rewrite ?E1, ?E2, ?E3, ?E4, ?E5, ?E6, ?E7, ?E8, ?E9, ?E10, ?E11;
    repeat split; field.
Qed.
(** The other constants are replaced by these before the first stress. *)
Theorem C212_constant_refuted : forall A Y par, Y <> A -> par "youngs_mod"%string = None ->
  let c := ce_made (only [("C11"%string, A); ("C22"%string, Y)]) par in
  ce_stress 3 c eye (stretch 1) None 1 1 = A /\ ce_stress 3 c eye (stretch 1) None 1 1 <> Y.
Proof.
  intros A Y par N P c. assert (ce_stress 3 c eye (stretch 1) None 1 1 = A) as H; [| split; [exact H | rewrite H; congruence]].
  rewrite unturned by lia. unfold c, ce_made, ce_update. rewrite orb_true_r, P. unfold apply4, sm, Sparse_Model.rsum. cbn [seq map fold_right]. unfold sym, stretch.
  cbv [lattice lattice_writes fold_left Nat.eqb andb ce_new only find fst snd String.eqb Ascii.eqb Bool.eqb dflt c11 c22 c33 c44 c55 c66 c12 c13 c23 c15 c25 c35 c46]. field.
Qed.
(** An active parameter "mu" is never used, nor "lambda" in the elastic part. *)
Definition with_par (par : string -> option R) (n : string) (v : R) (m : string) : option R := if String.eqb m n then Some v else par m.
Theorem C212_parameter_refuted : forall c par d rl g i j v,
  (forall theta, ce_stress d (ce_update (with_par par "mu" v) c) rl g theta i j = ce_stress d (ce_update par c) rl g theta i j) /\
  ce_stress d (ce_update (with_par par "lambda" v) c) rl g None i j = ce_stress d (ce_update par c) rl g None i j.
Proof.
  assert (forall p q x y, (forall a b k l, lattice x a b k l = lattice y a b k l) ->
    forall d rl g i j, ce_stress d x rl g None i j = p -> ce_stress d y rl g None i j = q -> p = q) as L.
  { intros p q x y H d rl g i j <- <-. rewrite !C209_turned. apply push_ext. intros a b _ _. unfold apply4. apply sm2_ext. intros k l. rewrite H. reflexivity. }
  intros c par d rl g i j v. split.
  - intros theta. f_equal. unfold ce_update, with_par. cbn [String.eqb Ascii.eqb Bool.eqb]. rewrite !orb_true_r. reflexivity.
  - eapply L; [| reflexivity | reflexivity]. intros a b k l. unfold ce_update, with_par. cbn [String.eqb Ascii.eqb Bool.eqb]. rewrite !orb_true_r.
    destruct (par "youngs_mod"%string) as [E |]; [destruct (par "poisson_ratio"%string) |]; reflexivity.
Qed.
(** Both engineering moduli together are used, as the settings E and nu would be. *)
Theorem C212_moduli_partial : forall get par E nu, par "youngs_mod"%string = Some E -> par "poisson_ratio"%string = Some nu ->
  ce_made get par = ce_made (only [("E"%string, E); ("nu"%string, nu)]) none.
Proof.
  intros get par E nu P Q. unfold ce_made, ce_update. rewrite orb_true_r, P, Q. cbn [none negb orb].
  cbv [ce_new only find fst snd String.eqb Ascii.eqb Bool.eqb dflt none c11 c44 c12 ce_lambda ce_mu]. f_equal. generalize (E / (2 * (1 + nu))). intros m. field.
Qed.
Print Assumptions C212_cubic_partial.
Print Assumptions C212_constant_refuted.
Print Assumptions C212_parameter_refuted.
Print Assumptions C212_moduli_partial.

(** *** C213: each element gets its own orientation *)
Definition in_order (es : list nat) : list step := flat_map (fun e => [Store e; Use e]) es.
Definition used (rot : nat -> nat -> nat -> R) (s : list step) : list (nat * (nat -> nat -> R)) := fst (run rot s (fun _ _ => 0)).
Lemma run_app rot s t mem : run rot (s ++ t)%list mem = (fst (run rot s mem) ++ fst (run rot t (snd (run rot s mem))), snd (run rot t (snd (run rot s mem))))%list.
Proof.
  assert (forall u acc m, fold_left (fun st x => match x with Store e => (fst st, rot e) | Use e => ((fst st ++ [(e, snd st)])%list, snd st) end) u (acc, m)
    = ((acc ++ fst (run rot u m))%list, snd (run rot u m))) as H.
  { induction u as [| x u IH]; intros acc m; cbn [fold_left]; [unfold run; cbn; rewrite app_nil_r; reflexivity |].
    unfold run. cbn [fold_left]. destruct x; cbn [fst snd]; rewrite IH; [rewrite IH; reflexivity |].
    rewrite (IH ([] ++ [(e, m)])%list). cbn [app fst snd]. rewrite <- app_assoc. reflexivity. }
  unfold run at 1. rewrite fold_left_app. destruct (fold_left _ s _) as [a m] eqn:E. rewrite H.
  assert (run rot s mem = (a, m)) as R by exact E. rewrite R. reflexivity.
Qed.
Theorem C213_serial_partial : forall rot es, used rot (in_order es) = map (fun e => (e, rot e)) es.
Proof.
  intros rot es. unfold used. generalize (fun _ _ : nat => 0). induction es as [| e es IH]; intros mem; [reflexivity |].
  unfold in_order. cbn [flat_map]. rewrite run_app. cbn [fst map]. fold (in_order es). rewrite IH. reflexivity.
Qed.
(** Two elements at once: the steps of each in order, the array shared. *)
Theorem C213_parallel_refuted : forall rot, (exists i j, rot 0%nat i j <> rot 1%nat i j) ->
  let s := [Store 0; Store 1; Use 0; Use 1]%nat in
  filter (fun x => match x with Store e | Use e => (e =? 0)%nat end) s = in_order [0%nat] /\
  filter (fun x => match x with Store e | Use e => (e =? 1)%nat end) s = in_order [1%nat] /\
  ~ In (0%nat, rot 0%nat) (used rot s).
Proof.
  intros rot (i & j & N) s. split; [reflexivity |]. split; [reflexivity |]. intros [H | [H | []]]; cbn in H; injection H; intros; try discriminate.
  apply N. congruence.
Qed.
(** One orientation for all: no schedule matters, provided each element stores before it reads. *)
Theorem C213_single_partial : forall rot s R, (forall e, rot e = R) ->
  forall e0 t, s = Store e0 :: t -> forall e M, In (e, M) (used rot s) -> M = R.
Proof.
  intros rot s R H e0 t -> e M. unfold used. change (Store e0 :: t) with ([Store e0] ++ t)%list. rewrite run_app. cbn [run fold_left fst snd app].
  rewrite (H e0). revert e M. induction t as [| x t IH]; intros e M; [intros [] |]. change (x :: t) with ([x] ++ t)%list. rewrite run_app.
  destruct x as [e' | e']; cbn [run fold_left fst snd app]; [rewrite H; apply IH | intros [E | I]; [congruence | apply (IH e M I)]].
Qed.
Example C213_inhabited : exists i j, bunge 0 0 0 i j <> bunge 0 180 0 i j.
Proof.
  exists 2%nat, 2%nat. unfold bunge. rewrite !degtorad_is. unfold degrees. replace (0 * PI / 180) with 0 by field. replace (180 * PI / 180) with PI by field.
  rewrite cos_0, cos_PI. lra.
Qed.
Print Assumptions C213_serial_partial.
Print Assumptions C213_parallel_refuted.
Print Assumptions C213_single_partial.
(** A turned crystal under a turned strain (hypotheses of C209_objective). *)
Example C209_inhabited : rotation (bunge 30 40 50) /\ exists g h,
  (forall i j, (i < 3)%nat -> (j < 3)%nat -> sym h i j = push 3 (bunge 30 40 50) (sym g) i j) /\ sym g 0%nat 0%nat <> 0.
Proof.
  split; [apply C209_angles |]. exists (stretch 0), (push 3 (bunge 30 40 50) (sym (stretch 0))). split; [| unfold sym, stretch; cbn; lra].
  intros i j I J. assert (forall a b, sym (stretch 0) a b = sym (stretch 0) b a) as S by (intros; unfold sym; field).
  assert (push 3 (bunge 30 40 50) (sym (stretch 0)) i j = push 3 (bunge 30 40 50) (sym (stretch 0)) j i) as H; [| unfold sym at 1; rewrite <- H; field].
  unfold push. rewrite sm_swap. apply sm2_ext. intros k l. rewrite (S l k). ring.
Qed.
