(** C82: the mass operator is the weighted L2 inner product of the finite element fields. *)
From Coq Require Import Bool Arith Lia Reals Lra List.
From Verif Require Import Sparse_Model Sparse_Props Assembly_Model BProj_Model BProj_Proofs Mass_Model Mass_Props.
Import ListNotations.
Local Open Scope R_scope.

(** *** Specification *)
(** Component d at quadrature point k of the field of variable v with coefficients x. *)
Definition field (b : block) (e : elem) (x : vector) (v k d : nat) : R :=
  sm (seq 0 (num b v)) (fun j => x (lid e (off b v j)) * bas e v j k d).
(** Integral over all elements of the weighted product of two fields. *)
Definition inner (bs : list block) (x y : vector) : R :=
  sm bs (fun b => sm (elems b) (fun e => sm (seq 0 (length (offs b))) (fun v =>
    mwt b v * sm (seq 0 (nq b)) (fun k => wts e k * sm (seq 0 (ndim b v)) (fun d => field b e x v k d * field b e y v k d))))).
Definition recomputes (v : variant) : Prop := match v with Recompute | StoredLocal => True | _ => False end.

(** *** Proofs *)
Lemma rows_sum b f : sm (rows b) f = sm (seq 0 (length (offs b))) (fun v => sm (seq 0 (num b v)) (fun i => f (v, i))).
Proof. unfold rows. rewrite sm_flat. apply sm_ext. intros v _. apply sm_map. Qed.
Lemma massval_sm b e v i j : massval b e v i j =
  sm (seq 0 (nq b)) (fun k => sm (seq 0 (ndim b v)) (fun d => bas e v i k d * bas e v j k d * wts e k * mwt b v)).
Proof. reflexivity. Qed.

Lemma local_inner b e x y v :
  sm (seq 0 (num b v)) (fun i => sm (seq 0 (num b v)) (fun j =>
     y (lid e (off b v i)) * (massval b e v i j * x (lid e (off b v j))))) =
  mwt b v * sm (seq 0 (nq b)) (fun k => wts e k * sm (seq 0 (ndim b v)) (fun d => field b e x v k d * field b e y v k d)).
Proof.
  rewrite <- sm_scal.
  rewrite (sm_ext _ _ (fun i => sm (seq 0 (num b v)) (fun j => sm (seq 0 (nq b)) (fun k => sm (seq 0 (ndim b v)) (fun d =>
     y (lid e (off b v i)) * (bas e v i k d * bas e v j k d * wts e k * mwt b v * x (lid e (off b v j)))))))).
  2: { intros i _. apply sm_ext. intros j _. rewrite massval_sm, <- sm_scal_r, <- sm_scal. apply sm_ext. intros k _.
       rewrite <- sm_scal_r, <- sm_scal. reflexivity. }
  rewrite (sm_ext _ _ (fun i => sm (seq 0 (nq b)) (fun k => sm (seq 0 (num b v)) (fun j => sm (seq 0 (ndim b v)) (fun d =>
     y (lid e (off b v i)) * (bas e v i k d * bas e v j k d * wts e k * mwt b v * x (lid e (off b v j)))))))).
  2: { intros i _. apply sm_swap. }
  rewrite sm_swap. apply sm_ext. intros k _.
  rewrite (sm_ext _ _ (fun i => sm (seq 0 (ndim b v)) (fun d => sm (seq 0 (num b v)) (fun j =>
     y (lid e (off b v i)) * (bas e v i k d * bas e v j k d * wts e k * mwt b v * x (lid e (off b v j))))))).
  2: { intros i _. apply sm_swap. }
  rewrite sm_swap, <- !sm_scal. apply sm_ext. intros d _. unfold field.
  rewrite (sm_ext _ _ (fun i => y (lid e (off b v i)) * bas e v i k d * (mwt b v * wts e k * sm (seq 0 (num b v)) (fun j => x (lid e (off b v j)) * bas e v j k d)))).
  2: { intros i _. rewrite <- !sm_scal. apply sm_ext. intros j _. ring. }
  rewrite sm_scal_r. ring.
Qed.

(** y . (M x) is the integral of the product of the fields, for masses recomputed or stored. *)
Theorem C82_inner_product n m bs x y : (forall b, In b bs -> wf_block n b) -> recomputes m ->
  sm (seq 0 n) (fun r => y r * apply_mf m bs x (fun _ => 0) r) = inner bs x y.
Proof.
  intros W V.
  assert (sm (seq 0 n) (fun r => y r * apply_mf Recompute bs x (fun _ => 0) r) = inner bs x y) as G.
  { unfold apply_mf. rewrite scatter_against.
    - unfold mf_contribs, inner. rewrite sm_flat. apply sm_ext. intros b Hb. rewrite sm_flat. apply sm_ext. intros e He.
      cbn [mf_elem]. unfold mf_recompute. rewrite sm_flat, rows_sum. apply sm_ext. intros v Hv.
      rewrite <- local_inner. apply sm_ext. intros i Hi. rewrite sm_map. reflexivity.
    - intros c I. unfold mf_contribs in I. apply in_flat_map in I as (b & Hb & I). apply in_flat_map in I as (e & He & I).
      cbn [mf_elem] in I. unfold mf_recompute in I. apply in_flat_map in I as ([v i] & Hvi & I). apply in_map_iff in I as (j & <- & _).
      cbn [fst snd]. destruct (W b Hb) as (_ & HP & HL & _). apply HL; auto. apply rows_in in Hvi as [Hv Hi].
      destruct (off_in b v i Hv Hi) as [A1 A2]. eapply HP; eauto. }
  destruct m; try destruct V; auto.
  rewrite <- G. apply sm_ext. intros r _. f_equal.
  rewrite (C14_matrix_free n StoredLocal), (C14_matrix_free n Recompute) by (auto; exact I). reflexivity.
Qed.
Print Assumptions C82_inner_product.

Lemma inner_sym bs x y : inner bs x y = inner bs y x.
Proof. unfold inner. do 3 (apply sm_ext; intros ? _). f_equal. apply sm_ext; intros ? _. f_equal. apply sm_ext; intros ? _. ring. Qed.

(** The assembled matrix has the same form, so it is symmetric as an operator, ... *)
Theorem C82_symmetric n bs x y : (forall b, In b bs -> wf_block n b) ->
  sm (seq 0 n) (fun r => y r * matvec n (assemble false false bs) x r) =
  sm (seq 0 n) (fun r => x r * matvec n (assemble false false bs) y r).
Proof.
  intros W. assert (forall u v, sm (seq 0 n) (fun r => u r * matvec n (assemble false false bs) v r) = inner bs v u) as G.
  { intros u v. rewrite <- (C82_inner_product n Recompute) by (auto; exact I). apply sm_ext. intros r _. f_equal.
    rewrite (C14_matrix_free n Recompute) by (auto; exact I). cbn [from_db]. ring. }
  rewrite !G. apply inner_sym.
Qed.
Print Assumptions C82_symmetric.

(** ... and with nonnegative weights not negative, and zero only for vanishing fields. *)
Definition weights (bs : list block) : Prop := forall b e, In b bs -> In e (elems b) ->
  (forall v, 0 <= mwt b v) /\ (forall k, 0 <= wts e k).
Theorem C82_nonnegative n m bs x : (forall b, In b bs -> wf_block n b) -> recomputes m -> weights bs ->
  0 <= sm (seq 0 n) (fun r => x r * apply_mf m bs x (fun _ => 0) r).
Proof.
  intros W V P. rewrite C82_inner_product by auto. unfold inner. apply sm_nonneg. intros b Hb. apply sm_nonneg. intros e He.
  destruct (P b e Hb He) as [Pm Pw]. apply sm_nonneg. intros v _. apply Rmult_le_pos; auto. apply sm_nonneg. intros k _.
  apply Rmult_le_pos; auto. apply sm_nonneg. intros d _. apply Rle_0_sqr.
Qed.
Print Assumptions C82_nonnegative.
Theorem C82_definite n m bs x : (forall b, In b bs -> wf_block n b) -> recomputes m -> weights bs ->
  sm (seq 0 n) (fun r => x r * apply_mf m bs x (fun _ => 0) r) <= 0 ->
  forall b e v k d, In b bs -> In e (elems b) -> (v < length (offs b))%nat -> (k < nq b)%nat -> (d < ndim b v)%nat ->
    0 < mwt b v -> 0 < wts e k -> field b e x v k d = 0.
Proof.
  intros W V P Z b e v k d Hb He Hv Hk Hd M Q. rewrite C82_inner_product in Z by auto. unfold inner in Z.
  assert (forall b, In b bs -> forall e, In e (elems b) -> forall v, 0 <= mwt b v * sm (seq 0 (nq b)) (fun k => wts e k * sm (seq 0 (ndim b v)) (fun d => field b e x v k d * field b e x v k d))) as N3.
  { intros b' Hb' e' He' v'. destruct (P b' e' Hb' He') as [Pm Pw]. apply Rmult_le_pos; auto. apply sm_nonneg. intros k' _.
    apply Rmult_le_pos; auto. apply sm_nonneg. intros d' _. apply Rle_0_sqr. }
  pose proof (sm_nonneg_zero _ _ (fun b' Hb' => sm_nonneg _ _ (fun e' He' => sm_nonneg _ _ (fun v' _ => N3 b' Hb' e' He' v'))) Z b Hb) as Z1. cbv beta in Z1.
  pose proof (sm_nonneg_zero _ _ (fun e' He' => sm_nonneg _ _ (fun v' _ => N3 b Hb e' He' v')) (Req_le _ _ Z1) e He) as Z2. cbv beta in Z2.
  pose proof (sm_nonneg_zero _ _ (fun v' _ => N3 b Hb e He v') (Req_le _ _ Z2) v ltac:(apply in_seq; lia)) as Z3. cbv beta in Z3.
  apply Rmult_integral in Z3 as [Z3|Z3]; [lra|]. destruct (P b e Hb He) as [_ Pw].
  assert (forall k, 0 <= wts e k * sm (seq 0 (ndim b v)) (fun d => field b e x v k d * field b e x v k d)) as N4.
  { intros k'. apply Rmult_le_pos; auto. apply sm_nonneg. intros d' _. apply Rle_0_sqr. }
  pose proof (sm_nonneg_zero _ _ (fun k' _ => N4 k') (Req_le _ _ Z3) k ltac:(apply in_seq; lia)) as Z4. cbv beta in Z4.
  apply Rmult_integral in Z4 as [Z4|Z4]; [lra|].
  pose proof (sm_nonneg_zero _ _ (fun d' _ => Rle_0_sqr (field b e x v k d')) (Req_le _ _ Z4) d ltac:(apply in_seq; lia)) as Z5.
  apply Rsqr_0_uniq. exact Z5.
Qed.
Print Assumptions C82_definite.

(** One element of length one with two hat functions and the midpoint rule. *)
Definition hat : elem := {| lid := fun p => p; eidx := 0; bas := fun _ _ _ _ => 1/2; wts := fun _ => 1 |}.
Definition hats : block := {| offs := [[0%nat; 1%nat]]; elems := [hat]; nq := 1; ndim := fun _ => 1%nat;
  mwt := fun _ => 3; db := m2; ndb := 1; ndof := 2 |}.
Example C82_hat : wf_block 2 hats /\ weights [hats] /\ inner [hats] (fun _ => 1) (fun r => INR r) = 3 / 2.
Proof.
  split; [|split].
  - split; [|split; [|split]]; cbn.
    + repeat constructor; cbn; intuition discriminate.
    + intros o p [<-|[]] [<-|[<-|[]]]; lia.
    + intros e p [<-|[]] H. cbn. lia.
    + intros e [<-|[]]. cbn. lia.
  - intros b e [<-|[]] [<-|[]]. cbn. split; intros; lra.
  - unfold inner, field, sm, rsum. cbn. lra.
Qed.
