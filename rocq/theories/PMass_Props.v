(** The inner product of field parameters: C343-C344. *)
From Coq Require Import Bool Arith Lia Reals Lra List.
From Verif Require Import Sparse_Model Sparse_Props Assembly_Model BProj_Model BProj_Proofs Mass_Model Mass_Props MassL2_Props PMass_Model.
Import ListNotations.
Local Open Scope R_scope.

(** *** Specification *)

(** Integral over the mesh of the product of two parameter fields, summed over
    the parameters. *)
Definition l2 (bs : list block) (x y : vector) : R :=
  sm bs (fun b => sm (elems b) (fun e => sm (seq 0 (length (offs b))) (fun v =>
    sm (seq 0 (nq b)) (fun k => wts e k * sm (seq 0 (ndim b v)) (fun d => field b e x v k d * field b e y v k d))))).

(** Coefficients of the basis function of unknown r. *)
Definition unit_at (r : nat) : vector := fun i => if (i =? r)%nat then 1 else 0.

(** An element has each unknown of a parameter once. *)
Definition distinct (bs : list block) : Prop :=
  forall b e v i j, In b bs -> In e (elems b) -> In (v, i) (rows b) -> In (v, j) (rows b) ->
    lid e (off b v i) = lid e (off b v j) -> i = j.
Definition quad_nonneg (bs : list block) : Prop :=
  forall b e k, In b bs -> In e (elems b) -> 0 <= wts e k.

(** *** Proofs *)
Lemma field_param b e x v k d : field (param_block b) e x v k d = field b e x v k d.
Proof. reflexivity. Qed.

Lemma inner_param bs x y : inner (map param_block bs) x y = l2 bs x y.
Proof.
  unfold inner, l2. rewrite sm_map. apply sm_ext. intros b _. cbn [elems param_block]. apply sm_ext. intros e _.
  cbn [offs param_block]. apply sm_ext. intros v _. cbn [mwt nq ndim param_block]. rewrite Rmult_1_l.
  apply sm_ext. intros k _. reflexivity.
Qed.

Lemma wf_param n bs : (forall b, In b bs -> wf_block n b) -> forall b, In b (map param_block bs) -> wf_block n b.
Proof. intros W b H. apply in_map_iff in H as (c & <- & Hc). exact (W c Hc). Qed.

Lemma field_unit b e r v k d i : (i < num b v)%nat -> lid e (off b v i) = r ->
  (forall j, (j < num b v)%nat -> lid e (off b v j) = r -> j = i) ->
  field b e (unit_at r) v k d = bas e v i k d.
Proof.
  intros Hi E U. unfold field.
  rewrite (sm_ext _ _ (fun j => if (j =? i)%nat then bas e v j k d else 0)).
  - apply (sm_single (num b v) i (fun j => bas e v j k d) Hi).
  - intros j Hj. apply in_seq in Hj. unfold unit_at. destruct (Nat.eqb_spec (lid e (off b v j)) r) as [Q|Q].
    + rewrite (U j ltac:(lia) Q), Nat.eqb_refl. ring.
    + destruct (Nat.eqb_spec j i) as [->|]; [contradiction|ring].
Qed.
Lemma field_unit_none b e r v k d : (forall j, (j < num b v)%nat -> lid e (off b v j) <> r) ->
  field b e (unit_at r) v k d = 0.
Proof.
  intros U. apply sm_zero. intros j Hj. apply in_seq in Hj. unfold unit_at.
  destruct (Nat.eqb_spec (lid e (off b v j)) r) as [Q|Q]; [|ring]. destruct (U j ltac:(lia) Q).
Qed.

Lemma find_lid b e r v : (exists i, (i < num b v)%nat /\ lid e (off b v i) = r) \/
  (forall j, (j < num b v)%nat -> lid e (off b v j) <> r).
Proof.
  induction (num b v) as [|m [(i & Hi & E)|H]].
  - right. lia.
  - left. exists i. split; auto.
  - destruct (Nat.eq_dec (lid e (off b v m)) r) as [E|E]; [left; exists m; split; auto|].
    right. intros j Hj. destruct (Nat.eq_dec j m) as [->|]; [exact E|]. apply H. lia.
Qed.

(** Without lumping, the weight of an unknown is the integral of the square of
    its basis function. *)
Theorem C343_weight n bs avail r : (forall b, In b bs -> wf_block n b) -> distinct bs ->
  param_weights false avail bs r = l2 bs (unit_at r) (unit_at r).
Proof.
  intros W D. unfold param_weights. cbv zeta iota. rewrite scatter_val, Rplus_0_l.
  change (rsum (map (pick r) ?l)) with (sm l (pick r)). rewrite sm_flat, sm_map. unfold l2.
  apply sm_ext. intros b Hb. rewrite sm_flat. cbn [elems param_block]. apply sm_ext. intros e He.
  unfold jacobi_elem. rewrite sm_map. change (rows (param_block b)) with (rows b). rewrite rows_sum.
  apply sm_ext. intros v Hv. apply in_seq in Hv.
  assert (forall i, (i < num b v)%nat -> In (v, i) (rows b)) as R by (intros; apply rows_in; lia).
  destruct (W b Hb) as (ND & _).
  assert (forall i, (i < num b v)%nat -> stored_mass (param_block b) e (off b v i) (off b v i) =
            sm (seq 0 (nq b)) (fun k => wts e k * sm (seq 0 (ndim b v)) (fun d => bas e v i k d * bas e v i k d))) as S.
  { intros i Hi. pose proof (stored_value (param_block b) e v i i ND (R i Hi) Hi) as Q.
    change (off (param_block b) v i) with (off b v i) in Q. rewrite Q, massval_sm. cbn [nq ndim mwt param_block].
    apply sm_ext. intros k _. rewrite <- sm_scal. apply sm_ext. intros d _. ring. }
  unfold pick. cbn [fst snd].
  destruct (find_lid b e r v) as [(i & Hi & E)|N].
  - assert (forall j, (j < num b v)%nat -> lid e (off b v j) = r -> j = i) as U.
    { intros j Hj Q. apply (D b e v j i Hb He (R j Hj) (R i Hi)). congruence. }
    rewrite (sm_ext _ _ (fun j => if (j =? i)%nat then stored_mass (param_block b) e (off b v j) (off b v j) else 0)).
    + rewrite (sm_single (num b v) i (fun j => stored_mass (param_block b) e (off b v j) (off b v j)) Hi), (S i Hi).
      apply sm_ext. intros k _. f_equal. apply sm_ext. intros d _. rewrite (field_unit b e r v k d i Hi E U). reflexivity.
    + intros j Hj. apply in_seq in Hj. change (off (param_block b) v j) with (off b v j).
      destruct (Nat.eqb_spec (lid e (off b v j)) r) as [Q|Q].
      * rewrite (U j ltac:(lia) Q), Nat.eqb_refl. reflexivity.
      * destruct (Nat.eqb_spec j i) as [->|]; [contradiction|reflexivity].
  - rewrite sm_zero.
    + symmetry. apply sm_zero. intros k _. rewrite sm_zero; [ring|]. intros d _. rewrite (field_unit_none b e r v k d N). ring.
    + intros j Hj. apply in_seq in Hj. change (off (param_block b) v j) with (off b v j).
      destruct (Nat.eqb_spec (lid e (off b v j)) r) as [Q|Q]; [destruct (N j ltac:(lia) Q)|reflexivity].
Qed.
Print Assumptions C343_weight.

Lemma l2_nonneg bs x : quad_nonneg bs -> 0 <= l2 bs x x.
Proof.
  intros P. unfold l2. apply sm_nonneg. intros b Hb. apply sm_nonneg. intros e He. apply sm_nonneg. intros v _.
  apply sm_nonneg. intros k _. apply Rmult_le_pos; [apply (P b e k Hb He)|]. apply sm_nonneg. intros d _. apply Rle_0_sqr.
Qed.

(** Then the inner product is positive definite as soon as no basis function
    vanishes at all quadrature points, and the dual product is its inverse:
    the dual product of x . D and y . D is the primal one of x and y. *)
Theorem C343_definite n bs avail x : (forall b, In b bs -> wf_block n b) -> distinct bs -> quad_nonneg bs ->
  0 <= primal_dot n (param_weights false avail bs) x x /\
  ((forall r, (r < n)%nat -> l2 bs (unit_at r) (unit_at r) <> 0) ->
   primal_dot n (param_weights false avail bs) x x = 0 -> forall r, (r < n)%nat -> x r = 0).
Proof.
  intros W D P.
  assert (forall r, 0 <= x r * (x r * param_weights false avail bs r)) as N.
  { intros r. rewrite (C343_weight n bs avail r W D). rewrite <- Rmult_assoc. apply Rmult_le_pos; [apply Rle_0_sqr|].
    now apply l2_nonneg. }
  split; [apply sm_nonneg; intros r _; apply N|].
  intros H Z r Hr. unfold primal_dot in Z.
  pose proof (sm_nonneg_zero _ _ (fun r _ => N r) (Req_le _ _ Z) r ltac:(apply in_seq; lia)) as Q. cbv beta in Q.
  rewrite (C343_weight n bs avail r W D), <- Rmult_assoc in Q. apply Rmult_integral in Q as [Q|Q].
  - apply Rsqr_0_uniq. exact Q.
  - destruct (H r Hr Q).
Qed.
Print Assumptions C343_definite.

Theorem C343_dual n bs avail x y : (forall b, In b bs -> wf_block n b) -> distinct bs ->
  (forall r, (r < n)%nat -> l2 bs (unit_at r) (unit_at r) <> 0) ->
  let D := param_weights false avail bs in
  dual_dot n D (fun r => x r * D r) (fun r => y r * D r) = primal_dot n D x y.
Proof.
  intros W U H D. unfold dual_dot, primal_dot. apply sm_ext. intros r Hr. apply in_seq in Hr.
  unfold D. field. rewrite (C343_weight n bs avail r W U). apply H. lia.
Qed.
Print Assumptions C343_dual.

(** Case: the element with two hat functions. *)
Example C343_hat : (forall b, In b [hats] -> wf_block 2 b) /\ distinct [hats] /\ quad_nonneg [hats] /\
  (forall r, (r < 2)%nat -> l2 [hats] (unit_at r) (unit_at r) <> 0) /\
  param_weights false true [hats] 1%nat = 1 / 4.
Proof.
  assert (W : forall b, In b [hats] -> wf_block 2 b) by (intros b [<-|[]]; exact (proj1 C82_hat)).
  assert (Ds : distinct [hats]).
  { intros b e v i j [<-|[]] [<-|[]] Hi Hj E. apply rows_in in Hi as [V I]. apply rows_in in Hj as [_ J].
    destruct v as [|v]; [|cbn in V; lia]. cbn in I, J, E. unfold off in E. cbn in E.
    destruct i as [|[|i]], j as [|[|j]]; cbn in E; lia. }
  assert (L : forall r, (r < 2)%nat -> l2 [hats] (unit_at r) (unit_at r) = 1 / 4).
  { intros [|[|r]] H; [| |lia]; unfold l2, field, unit_at, sm, rsum; cbn; lra. }
  split; [exact W|]. split; [exact Ds|]. split; [intros b e k [<-|[]] [<-|[]]; cbn; lra|]. split.
  - intros r H. rewrite (L r H). lra.
  - rewrite (C343_weight 2 [hats] true 1 W Ds). apply L. lia.
Qed.

(** *** C344: is it the L2 inner product? *)

(** With lumping, and no negative local entry, the product of any field with
    the field of unit coefficients is their integral.  Missing: the case
    without lumping, other pairs of fields, and negative entries. *)
Theorem C344_l2_partial n bs avail x : (forall b, In b bs -> wf_block n b) ->
  (forall b e v i j, In b bs -> In e (elems b) -> In (v, i) (rows b) -> (j < num b v)%nat ->
     0 <= sm (seq 0 (nq b)) (fun k => wts e k * sm (seq 0 (ndim b v)) (fun d => bas e v i k d * bas e v j k d))) ->
  primal_dot n (param_weights true avail bs) x (fun _ => 1) = l2 bs x (fun _ => 1).
Proof.
  intros W N. pose proof (wf_param n bs W) as W'.
  assert (forall r, param_weights true avail bs r = matvec n (assemble false false (map param_block bs)) (fun _ => 1) r) as E.
  { intros r. unfold param_weights. destruct avail.
    - rewrite (C15_nonnegative_partial n false _ _ r W'); [ring|].
      intros b' e v i j Hb He Hi Hj. apply in_map_iff in Hb as (b & <- & Hb).
      cbn [local_mass]. destruct (W b Hb) as (ND & _).
      rewrite (stored_value (param_block b) e v i j ND Hi Hj), massval_sm. cbn [nq ndim mwt param_block].
      specialize (N b e v i j Hb He Hi Hj).
      rewrite (sm_ext _ _ (fun k => wts e k * sm (seq 0 (ndim b v)) (fun d => bas e v i k d * bas e v j k d))); [exact N|].
      intros k _. rewrite <- sm_scal. apply sm_ext. intros d _. ring.
    - rewrite (C15_row_sums n false _ _ r W'). ring. }
  unfold primal_dot. rewrite (sm_ext _ _ (fun r => x r * matvec n (assemble false false (map param_block bs)) (fun _ => 1) r)).
  - rewrite (C82_symmetric n _ (fun _ => 1) x W').
    assert (forall u v, sm (seq 0 n) (fun r => u r * matvec n (assemble false false (map param_block bs)) v r) = l2 bs v u) as G.
    { intros u v. rewrite <- inner_param, <- (C82_inner_product n Recompute) by (auto; exact I). apply sm_ext. intros r _. f_equal.
      rewrite (C14_matrix_free n Recompute) by (auto; exact I). cbn [from_db]. ring. }
    rewrite G. reflexivity.
  - intros r _. rewrite E. ring.
Qed.
Print Assumptions C344_l2_partial.

(** By default it is not, even for two constants: two hat functions that sum to
    one on an element of length one give one half instead of one.  And lumping
    gives two different weights depending on where the data live. *)
Theorem C344_l2_refuted :
  (exists n bs, (forall b, In b bs -> wf_block n b) /\ distinct bs /\ quad_nonneg bs /\
     (forall b e k, In b bs -> In e (elems b) -> (k < nq b)%nat -> field b e (fun _ => 1) 0 k 0 = 1) /\
     l2 bs (fun _ => 1) (fun _ => 1) = 1 /\
     forall avail, primal_dot n (param_weights false avail bs) (fun _ => 1) (fun _ => 1) = 1 / 2) /\
  (exists n bs r, (forall b, In b bs -> wf_block n b) /\ distinct bs /\ quad_nonneg bs /\
     param_weights true true bs r <> param_weights true false bs r).
Proof.
  destruct C343_hat as (W & Ds & P & _). split.
  - exists 2%nat, [hats]. split; [exact W|]. split; [exact Ds|]. split; [exact P|]. split; [|split].
    + intros b e k [<-|[]] [<-|[]] H. unfold field, sm, rsum. cbn. lra.
    + unfold l2, field, sm, rsum. cbn. lra.
    + intros avail. unfold primal_dot.
      assert (forall r, (r < 2)%nat -> param_weights false avail [hats] r = 1 / 4) as L.
      { intros r Hr. rewrite (C343_weight 2 [hats] avail r W Ds).
        destruct r as [|[|r]]; [| |lia]; unfold l2, field, unit_at, sm, rsum; cbn; lra. }
      rewrite (sm_ext _ _ (fun r => 1 / 4)).
      * unfold sm, rsum. cbn. lra.
      * intros r Hr. apply in_seq in Hr. rewrite L by lia. ring.
  - pose (e := {| lid := fun p => p; eidx := 0%nat; bas := fun _ i _ _ => if (i =? 0)%nat then 1 else -1; wts := fun _ => 1 |}).
    pose (b := {| offs := [[0%nat; 1%nat]]; elems := [e]; nq := 1; ndim := fun _ => 1%nat;
                  mwt := fun _ => 1; db := m2; ndb := 1; ndof := 2 |}).
    exists 2%nat, [b], 0%nat. split; [|split; [|split]].
    + intros b' [<-|[]]. split; [|split; [|split]]; cbn.
      * repeat constructor; cbn; intuition discriminate.
      * intros o p [<-|[]] [<-|[<-|[]]]; lia.
      * intros e' p [<-|[]] H. cbn. lia.
      * intros e' [<-|[]]. cbn. lia.
    + intros b' e' v i j [<-|[]] [<-|[]] Hi Hj E. apply rows_in in Hi as [V I]. apply rows_in in Hj as [_ J].
      destruct v as [|v]; [|cbn in V; lia]. cbn in I, J, E. unfold off in E. cbn in E.
      destruct i as [|[|i]], j as [|[|j]]; cbn in E; lia.
    + intros b' e' k [<-|[]] [<-|[]]. cbn. lra.
    + assert (param_weights true false [b] 0%nat = 0) as ->.
      { unfold param_weights, lump, lump_elem, scatter, add_at, local_mass, stored_mass, scatter2, add_at2, massval, rsum. cbn. lra. }
      assert (param_weights true true [b] 0%nat = 2) as ->.
      { unfold param_weights, lump, lump_elem, scatter, add_at, local_mass, stored_mass, scatter2, add_at2, massval, rsum. cbn.
        repeat match goal with |- context [Rabs ?t] => first [ replace (Rabs t) with 1 by (replace t with 1 by ring; rewrite Rabs_R1; reflexivity)
          | replace (Rabs t) with 1 by (replace t with (-(1)) by ring; rewrite Rabs_Ropp, Rabs_R1; reflexivity) ] end. lra. }
      lra.
Qed.
Print Assumptions C344_l2_refuted.
