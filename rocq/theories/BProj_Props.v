(** Property C63: the values imposed on Dirichlet sides. *)
From Coq Require Import Bool Arith Lia Reals Lra List.
From Verif Require Import Sparse_Model Sparse_Props Mass_Model Mass_Props Assembly_Model BProj_Model BProj_Proofs.
Import ListNotations.
Local Open Scope R_scope.

(** *** Specification *)

(** The points of the Dirichlet sides: element, variable, quadrature point and component of
    the trace.  The trace is the value of a scalar function, the normal component of an HDIV
    function and the tangential part of an HCURL function. *)
Definition pt : Type := bel * bvar * nat * nat.
Definition ncomp (e : bel) (v : bvar) : nat := match bty v with BCurl => bdim e | _ => 1%nat end.
Definition trace (e : bel) (v : bvar) (f : nat -> R) (k d : nat) : R :=
  match bty v with
  | BScalar => f 0%nat
  | BDiv => dotp (bdim e) f (bn e k)
  | BCurl => f d - dotp (bdim e) f (bn e k) * bn e k d
  end.
Definition prescribed (q : pt) : R :=
  let '(e, v, k, d) := q in
  match bty v with BDiv => data v k 0%nat | _ => trace e v (data v k) k d end.
Definition traced (x : nat -> R) (q : pt) : R :=
  let '(e, v, k, d) := q in sm (seq 0 (num v)) (fun i => x (blid e (off v i)) * trace e v (psi v i k) k d).
Definition weight (q : pt) : R := let '(e, v, k, d) := q in bw e k.
Definition pts_el (e : bel) : list pt :=
  flat_map (fun v => flat_map (fun k => map (fun d => (e, v, k, d)) (seq 0 (ncomp e v))) (seq 0 (bnq e))) (bvs e).
Definition pts (ps : list bproc) : list pt := flat_map (fun p => flat_map pts_el (bels p)) ps.

(** Distance of a vector of unknowns from the prescribed values, over the Dirichlet sides. *)
Definition misfit (ps : list bproc) (x : nat -> R) : R :=
  sm (pts ps) (fun q => weight q * (prescribed q - traced x q) * (prescribed q - traced x q)).

(** An element and a variable for which the method is right: for HCURL, unit normals; for
    HDIV, normals along a coordinate axis. *)
Definition good_var (e : bel) (v : bvar) : Prop :=
  (forall o, In o (boff v) -> (o < bnloc e)%nat) /\
  match bty v with
  | BScalar => True
  | BDiv => forall k, (k < bnq e)%nat -> exists d0, forall d, d <> d0 -> bn e k d = 0
  | BCurl => forall k, (k < bnq e)%nat -> dotp (bdim e) (bn e k) (bn e k) = 1
  end.
Definition good_el (p : bproc) (e : bel) : Prop :=
  (forall k, (k < bnq e)%nat -> 0 < bw e k) /\ (forall o, (o < bnloc e)%nat -> In (blid e o) (seen p)) /\
  (forall v, In v (bvs e) -> good_var e v).
(** [n] unknowns, of which [fx] are fixed; every process that has an unknown knows whether
    it is fixed. *)
Definition good (n : nat) (fx : nat -> bool) (ps : list bproc) : Prop :=
  (forall p i, In p ps -> In i (seen p) -> (i < n)%nat /\ fixed p i = fx i) /\
  (forall i, (i < n)%nat -> exists p, In p ps /\ In i (seen p)) /\
  (forall p e, In p ps -> In e (bels p) -> good_el p e).
Definition supported (n : nat) (fx : nat -> bool) (x : nat -> R) : Prop := forall i, (i < n)%nat -> fx i = false -> x i = 0.

(** *** Proof *)
Lemma dotp_lin_l m a b f g h : dotp m (fun d => a * f d + b * g d) h = a * dotp m f h + b * dotp m g h.
Proof.
  unfold dotp. rewrite <- !sm_scal, <- sm_add. apply sm_ext. intros; ring.
Qed.
Lemma dotp_comm m f g : dotp m f g = dotp m g f.
Proof. apply sm_ext. intros; ring. Qed.
Lemma dotp_ext m f g h : (forall d, f d = g d) -> dotp m f h = dotp m g h.
Proof. intros H. apply sm_ext. intros. rewrite H. ring. Qed.
Lemma tangential m f g n : dotp m n n = 1 ->
  sm (seq 0 m) (fun d => (f d - dotp m f n * n d) * (g d - dotp m g n * n d)) = dotp m f g - dotp m f n * dotp m g n.
Proof.
  intros U. set (a := dotp m f n). set (b := dotp m g n).
  rewrite (sm_ext _ _ (fun d => (f d * g d + (- b) * (f d * n d)) + ((- a) * (g d * n d) + (a * b) * (n d * n d)))) by (intros; ring).
  rewrite !sm_add, !sm_scal. fold (dotp m f g) (dotp m f n) (dotp m g n) (dotp m n n). rewrite U. unfold a, b. ring.
Qed.
Lemma aligned m d0 a b : (forall d, d <> d0 -> a d = 0 /\ b d = 0) ->
  sm (seq 0 m) (fun d => a d * b d) = sm (seq 0 m) a * sm (seq 0 m) b.
Proof.
  intros H. assert (forall f, (forall d, d <> d0 -> f d = 0) -> sm (seq 0 m) f = if (d0 <? m)%nat then f d0 else 0) as S.
  { intros f F. destruct (Nat.ltb_spec d0 m) as [L | L].
    - rewrite <- (sm_single m d0 f L). apply sm_ext. intros d _. destruct (Nat.eqb_spec d d0); auto.
    - apply sm_zero. intros d I. apply in_seq in I. apply F. lia. }
  rewrite !S; try (intros d D; destruct (H d D) as [A B]; rewrite ?A, ?B; ring). destruct (d0 <? m)%nat; ring.
Qed.

Lemma mass_trace e v i j : good_var e v ->
  mass_entry e v i j = sm (seq 0 (bnq e)) (fun k => sm (seq 0 (ncomp e v)) (fun d =>
    bw e k * trace e v (psi v i k) k d * trace e v (psi v j k) k d)).
Proof.
  intros [_ G]. apply sm_ext. intros k Ik. apply in_seq in Ik. unfold trace, ncomp. destruct (bty v) eqn:T.
  - unfold sm, rsum. cbn. ring.
  - destruct (G k) as [d0 H]; [lia |].
    rewrite (sm_ext _ _ (fun d => (psi v i k d * bn e k d) * (psi v j k d * bn e k d) * bw e k)) by (intros; ring).
    rewrite sm_scal_r, (aligned _ d0) by (intros d D; rewrite (H d D); split; ring).
    unfold sm at 3, rsum. cbn. unfold dotp. ring.
  - rewrite (sm_ext (seq 0 (bdim e)) _ (fun d => bw e k * ((psi v i k d - dotp (bdim e) (psi v i k) (bn e k) * bn e k d) *
        (psi v j k d - dotp (bdim e) (psi v j k) (bn e k) * bn e k d)))) by (intros; ring).
    rewrite sm_scal, tangential by (apply G; lia). ring.
Qed.
Lemma rhs_trace e v i : good_var e v ->
  rhs_entry e v i = sm (seq 0 (bnq e)) (fun k => sm (seq 0 (ncomp e v)) (fun d =>
    bw e k * trace e v (psi v i k) k d * prescribed (e, v, k, d))).
Proof.
  intros [_ G]. apply sm_ext. intros k Ik. apply in_seq in Ik. unfold prescribed, trace, ncomp. destruct (bty v) eqn:T.
  - unfold sm, rsum. cbn. ring.
  - rewrite (sm_ext _ _ (fun d => (data v k 0%nat * bw e k) * (psi v i k d * bn e k d))) by (intros; ring).
    rewrite sm_scal. unfold sm at 2, rsum. cbn. unfold dotp. ring.
  - rewrite (sm_ext (seq 0 (bdim e)) _ (fun d => bw e k * ((data v k d - dotp (bdim e) (data v k) (bn e k) * bn e k d) *
        (psi v i k d - dotp (bdim e) (psi v i k) (bn e k) * bn e k d)))) by (intros; ring).
    rewrite sm_scal, tangential by (apply G; lia). ring.
Qed.

Lemma off_lt e v i : good_var e v -> (i < num v)%nat -> (off v i < bnloc e)%nat.
Proof. intros [G _] H. apply G. apply nth_In. exact H. Qed.

Lemma sm_pts_el e f : sm (pts_el e) f = sm (bvs e) (fun v => sm (seq 0 (bnq e)) (fun k => sm (seq 0 (ncomp e v)) (fun d => f (e, v, k, d)))).
Proof.
  unfold pts_el. rewrite sm_flat. apply sm_ext. intros v _. rewrite sm_flat. apply sm_ext. intros k _. rewrite sm_map. reflexivity.
Qed.

(** One element, tested with [z]. *)
Lemma el_rhs e z : (forall v, In v (bvs e) -> good_var e v) ->
  sm (seq 0 (bnloc e)) (fun o => z (blid e o) * local_rhs e o) = sm (pts_el e) (fun q => weight q * traced z q * prescribed q).
Proof.
  intros G. unfold local_rhs. rewrite (scatter_against _ (fun o => z (blid e o))).
  - rewrite sm_flat, sm_pts_el. apply sm_ext. intros v Iv. rewrite sm_map. cbn [fst snd].
    rewrite (sm_ext _ _ (fun i => sm (seq 0 (bnq e)) (fun k => sm (seq 0 (ncomp e v)) (fun d =>
      bw e k * (z (blid e (off v i)) * trace e v (psi v i k) k d) * prescribed (e, v, k, d))))).
    + rewrite sm_swap. apply sm_ext. intros k _. rewrite sm_swap. apply sm_ext. intros d _.
      rewrite sm_scal_r, sm_scal. reflexivity.
    + intros i _. rewrite (rhs_trace e v i (G v Iv)), <- sm_scal. apply sm_ext. intros k _. rewrite <- sm_scal. apply sm_ext. intros d _. ring.
  - intros c Ic. apply in_flat_map in Ic. destruct Ic as (v & Iv & Ic). apply in_map_iff in Ic. destruct Ic as (i & <- & Ii).
    apply in_seq in Ii. apply off_lt; [apply G; exact Iv | lia].
Qed.
Lemma el_mass e z x : (forall v, In v (bvs e) -> good_var e v) ->
  sm (seq 0 (bnloc e)) (fun o => z (blid e o) * sm (seq 0 (bnloc e)) (fun c => local_mass e o c * x (blid e c))) =
  sm (pts_el e) (fun q => weight q * traced z q * traced x q).
Proof.
  intros G. unfold local_mass. rewrite (scatter2_against _ (fun o => z (blid e o)) (fun c => x (blid e c))).
  - rewrite sm_flat, sm_pts_el. apply sm_ext. intros v Iv. rewrite sm_flat.
    rewrite (sm_ext _ _ (fun i => sm (seq 0 (bnq e)) (fun k => sm (seq 0 (ncomp e v)) (fun d =>
      bw e k * (z (blid e (off v i)) * trace e v (psi v i k) k d) * traced x (e, v, k, d))))).
    + rewrite sm_swap. apply sm_ext. intros k _. rewrite sm_swap. apply sm_ext. intros d _. rewrite sm_scal_r, sm_scal. reflexivity.
    + intros i _. rewrite sm_map. cbn [fst snd].
      rewrite (sm_ext _ _ (fun j => sm (seq 0 (bnq e)) (fun k => sm (seq 0 (ncomp e v)) (fun d =>
        bw e k * (z (blid e (off v i)) * trace e v (psi v i k) k d) * (x (blid e (off v j)) * trace e v (psi v j k) k d))))).
      * rewrite sm_swap. apply sm_ext. intros k _. rewrite sm_swap. apply sm_ext. intros d _. rewrite sm_scal. reflexivity.
      * intros j _. rewrite (mass_trace e v i j (G v Iv)), <- sm_scal, <- sm_scal_r. apply sm_ext. intros k _.
        rewrite <- sm_scal, <- sm_scal_r. apply sm_ext. intros d _. ring.
  - intros c Ic. apply in_flat_map in Ic. destruct Ic as (v & Iv & Ic). apply in_flat_map in Ic. destruct Ic as (i & Ii & Ic).
    apply in_map_iff in Ic. destruct Ic as (j & <- & Ij). apply in_seq in Ii, Ij. cbn. split; apply off_lt; auto; lia.
Qed.

Section Good.
Variables (n : nat) (fx : nat -> bool) (ps : list bproc).
Hypothesis G : good n fx ps.
Lemma g_seen p i : In p ps -> In i (seen p) -> (i < n)%nat /\ fixed p i = fx i.
Proof. apply G. Qed.
Lemma g_el p e : In p ps -> In e (bels p) -> good_el p e.
Proof. apply G. Qed.
Lemma g_lid p e o : In p ps -> In e (bels p) -> (o < bnloc e)%nat -> In (blid e o) (seen p).
Proof. intros Ip Ie. apply (g_el p e Ip Ie). Qed.

Lemma rhs_in p c : In p ps -> In c (flat_map (rhs_contribs p) (bels p)) -> (fst c < n)%nat /\ fx (fst c) = true.
Proof.
  intros Ip I. apply in_flat_map in I. destruct I as (e & Ie & I). apply in_flat_map in I. destruct I as (o & Io & I). apply in_seq in Io.
  destruct (g_seen p (blid e o) Ip) as [L F]; [apply g_lid; auto; lia |].
  destruct (fixed p (blid e o)); [| contradiction]. destruct I as [<- | []]. cbn. auto.
Qed.
Lemma mass_in p c : In p ps -> In c (flat_map (mass_contribs p) (bels p)) ->
  (fst (fst c) < n)%nat /\ (snd (fst c) < n)%nat /\ fx (fst (fst c)) = true.
Proof.
  intros Ip I. apply in_flat_map in I. destruct I as (e & Ie & I). apply in_flat_map in I. destruct I as (o & Io & I). apply in_seq in Io.
  destruct (g_seen p (blid e o) Ip) as [L F]; [apply g_lid; auto; lia |].
  destruct (fixed p (blid e o)); [| contradiction]. apply in_map_iff in I. destruct I as (c' & <- & Ic). apply in_seq in Ic. cbn.
  split; [exact L |]. split; [| auto]. apply (g_seen p); [exact Ip |]. apply g_lid; auto; lia.
Qed.

(** Tested with a vector that vanishes at the other unknowns. *)
Lemma form_rhs z : supported n fx z -> sm (seq 0 n) (fun i => z i * proj_rhs ps i) = sm (pts ps) (fun q => weight q * traced z q * prescribed q).
Proof.
  intros Z. unfold proj_rhs, pts. rewrite sm_flat.
  rewrite (sm_ext _ _ (fun i => sm ps (fun p => z i * proc_rhs p i))) by (intros; symmetry; apply sm_scal).
  rewrite sm_swap. apply sm_ext. intros p Ip. unfold proc_rhs. rewrite scatter_against by (intros c Ic; apply (rhs_in p c Ip Ic)).
  rewrite !sm_flat. apply sm_ext. intros e Ie. rewrite <- (el_rhs e z) by apply (g_el p e Ip Ie). unfold rhs_contribs. rewrite sm_flat.
  apply sm_ext. intros o Io. apply in_seq in Io. destruct (g_seen p (blid e o) Ip) as [L F]; [apply g_lid; auto; lia |].
  destruct (fixed p (blid e o)); unfold sm, rsum; cbn; [ring |]. rewrite (Z _ L) by auto. ring.
Qed.
Lemma form_mass z x : supported n fx z ->
  sm (seq 0 n) (fun i => z i * sm (seq 0 n) (fun j => proj_mass ps i j * x j)) = sm (pts ps) (fun q => weight q * traced z q * traced x q).
Proof.
  intros Z. unfold pts. rewrite sm_flat.
  rewrite (sm_ext _ _ (fun i => sm ps (fun p => z i * sm (seq 0 n) (fun j => scatter2 (flat_map (mass_contribs p) (bels p)) (fun _ _ => 0) i j * x j)))).
  - rewrite sm_swap. apply sm_ext. intros p Ip. rewrite scatter2_against by (intros c Ic; split; apply (mass_in p c Ip Ic)).
    rewrite !sm_flat. apply sm_ext. intros e Ie. rewrite <- (el_mass e z x) by apply (g_el p e Ip Ie). unfold mass_contribs. rewrite sm_flat.
    apply sm_ext. intros o Io. apply in_seq in Io. destruct (g_seen p (blid e o) Ip) as [L F]; [apply g_lid; auto; lia |].
    destruct (fixed p (blid e o)).
    + rewrite sm_map, <- sm_scal. apply sm_ext. intros c _. cbn. ring.
    + rewrite (Z _ L) by auto. unfold sm at 1, rsum. cbn. ring.
  - intros i Ii. apply in_seq in Ii. rewrite sm_scal. destruct (fx i) eqn:F; [| rewrite (Z i) by (auto; lia); ring]. f_equal.
    unfold proj_mass. rewrite (sm_ext _ _ (fun j => sm ps (fun p => proc_mass p i j * x j))) by (intros; symmetry; apply sm_scal_r).
    rewrite sm_swap. apply sm_ext. intros p Ip. apply sm_ext. intros j _. f_equal. unfold proc_mass. apply replaced_other.
    destruct (in_dec Nat.eq_dec i (seen p)) as [I | I]; [left; rewrite <- F; apply g_seen; auto | right; exact I].
Qed.

(** The other unknowns. *)
Lemma free_zero x : solves n (proj_mass ps) (proj_rhs ps) x -> supported n fx x.
Proof.
  intros S i Hi F. specialize (S i Hi).
  assert (proj_rhs ps i = 0) as B.
  { apply sm_zero. intros p Ip. unfold proc_rhs. rewrite scatter_val, Rplus_0_l. apply rsum_zero. intros c Ic. unfold pick.
    destruct (Nat.eqb_spec (fst c) i) as [E | N]; [| reflexivity]. destruct (rhs_in p c Ip Ic) as [_ F']. congruence. }
  assert (forall p j, In p ps -> proc_mass p i j = if in_dec Nat.eq_dec i (seen p) then (if (i =? j)%nat then 1 else 0) else 0) as M.
  { intros p j Ip. unfold proc_mass.
    assert (scatter2 (flat_map (mass_contribs p) (bels p)) (fun _ _ => 0) i j = 0) as Z.
    { rewrite scatter2_val, Rplus_0_l. apply rsum_zero. intros c Ic. unfold pick2. destruct (Nat.eqb_spec i (fst (fst c))) as [E | N]; [| reflexivity].
      destruct (mass_in p c Ip Ic) as (_ & _ & F'). congruence. }
    destruct (in_dec Nat.eq_dec i (seen p)) as [I | I].
    - rewrite replaced_diag, Z; auto. rewrite <- F. apply g_seen; auto.
    - rewrite replaced_other by (right; exact I). exact Z. }
  rewrite B in S. rewrite (sm_ext _ _ (fun j => if (j =? i)%nat then sm ps (fun p => if in_dec Nat.eq_dec i (seen p) then 1 else 0) * x j else 0)) in S.
  - rewrite (sm_single n i (fun j => _ * x j)) in S by exact Hi. apply Rmult_integral in S. destruct S as [S | S]; [| exact S]. exfalso.
    destruct (proj1 (proj2 G) i Hi) as (p & Ip & Is).
    pose proof (sm_nonneg_zero ps (fun p => if in_dec Nat.eq_dec i (seen p) then 1 else 0)
      ltac:(intros q _; cbn beta; destruct (in_dec Nat.eq_dec i (seen q)); lra) ltac:(lra) p Ip) as Q. cbn beta in Q.
    destruct (in_dec Nat.eq_dec i (seen p)); [lra | contradiction].
  - intros j _. unfold proj_mass. rewrite (Nat.eqb_sym j i). destruct (Nat.eqb_spec i j) as [<- | N].
    + f_equal. apply sm_ext. intros p Ip. rewrite (M p i Ip), Nat.eqb_refl. reflexivity.
    + rewrite (sm_zero ps); [ring |]. intros p Ip. rewrite (M p j Ip). destruct (in_dec Nat.eq_dec i (seen p)); [| reflexivity].
      destruct (Nat.eqb_spec i j); [contradiction | reflexivity].
Qed.
End Good.

Lemma traced_lin a b x y q : traced (fun i => a * x i + b * y i) q = a * traced x q + b * traced y q.
Proof.
  destruct q as [[[e v] k] d]. unfold traced. rewrite <- !sm_scal, <- sm_add. apply sm_ext. intros; ring.
Qed.
Lemma traced_ext x y q : (forall i, x i = y i) -> traced x q = traced y q.
Proof. intros H. destruct q as [[[e v] k] d]. apply sm_ext. intros i _. rewrite H. reflexivity. Qed.
Lemma weight_pos n fx ps q : good n fx ps -> In q (pts ps) -> 0 < weight q.
Proof.
  intros G I. apply in_flat_map in I. destruct I as (p & Ip & I). apply in_flat_map in I. destruct I as (e & Ie & I).
  apply in_flat_map in I. destruct I as (v & Iv & I). apply in_flat_map in I. destruct I as (k & Ik & I). apply in_map_iff in I.
  destruct I as (d & <- & _). apply in_seq in Ik. apply (proj2 (proj2 G) p e Ip Ie). lia.
Qed.

(** *** C63 *)

(** The values imposed are the best approximation of the prescribed ones on the Dirichlet
    sides, among all vectors of fixed unknowns. *)
Theorem C63_best_partial : forall n fx ps x, good n fx ps -> solves n (proj_mass ps) (proj_rhs ps) x ->
  supported n fx x /\ forall y, supported n fx y -> misfit ps x <= misfit ps y.
Proof.
  intros n fx ps x G S. pose proof (free_zero n fx ps G x S) as X. split; [exact X |]. intros y Y.
  set (z := fun i => 1 * y i + (-1) * x i).
  assert (supported n fx z) as Z by (intros i Hi F; unfold z; rewrite (X i Hi F), (Y i Hi F); ring).
  assert (sm (pts ps) (fun q => weight q * traced z q * traced x q) = sm (pts ps) (fun q => weight q * traced z q * prescribed q)) as O.
  { rewrite <- (form_rhs n fx ps G z Z), <- (form_mass n fx ps G z x Z). apply sm_ext. intros i Ii. apply in_seq in Ii. rewrite S by lia. reflexivity. }
  assert (misfit ps y = misfit ps x + (-2) * (sm (pts ps) (fun q => weight q * traced z q * prescribed q)
      - sm (pts ps) (fun q => weight q * traced z q * traced x q)) + sm (pts ps) (fun q => weight q * traced z q * traced z q)) as ->.
  { unfold misfit. rewrite <- sm_sub, <- sm_scal, <- !sm_add. apply sm_ext. intros q _.
    assert (traced y q = traced x q + traced z q) as -> by (unfold z; rewrite traced_lin; ring). ring. }
  rewrite O. assert (0 <= sm (pts ps) (fun q => weight q * traced z q * traced z q)); [| lra].
  apply sm_nonneg. intros q Iq. pose proof (weight_pos n fx ps q G Iq). rewrite Rmult_assoc. apply Rmult_le_pos; [lra | apply Rle_0_sqr].
Qed.
Print Assumptions C63_best_partial.

(** If the prescribed values are those of some vector of fixed unknowns, and the values on
    the Dirichlet sides determine the fixed unknowns, then that vector is imposed. *)
Theorem C63_exact_partial : forall n fx ps x c, good n fx ps -> solves n (proj_mass ps) (proj_rhs ps) x ->
  supported n fx c -> (forall q, In q (pts ps) -> prescribed q = traced c q) ->
  (forall z, supported n fx z -> (forall q, In q (pts ps) -> traced z q = 0) -> forall i, (i < n)%nat -> z i = 0) ->
  forall i, (i < n)%nat -> x i = c i.
Proof.
  intros n fx ps x c G S C E U i Hi. destruct (C63_best_partial n fx ps x G S) as [X B]. specialize (B c C).
  assert (misfit ps c = 0) as Z by (apply sm_zero; intros q Iq; rewrite (E q Iq); ring). rewrite Z in B.
  assert (forall q, In q (pts ps) -> prescribed q - traced x q = 0) as T.
  { intros q Iq. assert (forall r, In r (pts ps) -> 0 <= weight r * (prescribed r - traced x r) * (prescribed r - traced x r)) as P.
    { intros r Ir. pose proof (weight_pos n fx ps r G Ir). rewrite Rmult_assoc. apply Rmult_le_pos; [lra | apply Rle_0_sqr]. }
    pose proof (sm_nonneg_zero _ _ P B q Iq) as Q.
    pose proof (weight_pos n fx ps q G Iq). cbn beta in Q. apply Rmult_integral in Q. destruct Q as [Q | Q]; [| exact Q].
    apply Rmult_integral in Q. destruct Q; [lra | assumption]. }
  enough (1 * x i + (-1) * c i = 0) by lra.
  apply (U (fun i => 1 * x i + (-1) * c i)); [intros j Hj F; rewrite (X j Hj F), (C j Hj F); ring | | exact Hi].
  intros q Iq. rewrite traced_lin. specialize (T q Iq). rewrite (E q Iq) in T. lra.
Qed.
Print Assumptions C63_exact_partial.

(** *** Cases *)
Definition ex_var (t : btype) (os : list nat) (f : nat -> nat -> nat -> R) (g : nat -> nat -> R) : bvar :=
  {| bty := t; boff := os; psi := f; data := g |}.
(** Two unknowns on a side with two points, and a third unknown. *)
Definition hat (i k d : nat) : R := if (i =? k)%nat then 3 / 4 else 1 / 4.
Definition ex_el : bel := {| blid := fun o => o; bnloc := 3; bdim := 2; bnq := 2; bw := fun _ => 1 / 2; bn := fun _ d => if (d =? 0)%nat then 1 else 0;
  bvs := [ex_var BScalar [0; 1]%nat hat (fun k _ => if (k =? 0)%nat then 3 else 5)] |}.
Definition ex_fx (i : nat) : bool := (i <? 2)%nat.
Definition ex_ps : list bproc := [{| bels := [ex_el]; seen := [0; 1; 2]%nat; fixed := ex_fx |}].
Definition ex_c (i : nat) : R := if (i =? 0)%nat then 2 else if (i =? 1)%nat then 6 else 0.
Ltac ev := unfold proj_mass, proj_rhs, proc_mass, proc_rhs, sm, rsum, scatter, scatter2; cbn; unfold add_at, add_at2, set2, local_mass, local_rhs, mass_entry, rhs_entry, sm, rsum, scatter, scatter2; cbn; unfold add_at, add_at2, off, num; cbn; unfold hat, ex_c; cbn.
Example C63_case : good 3 ex_fx ex_ps /\ supported 3 ex_fx ex_c /\ (forall q, In q (pts ex_ps) -> prescribed q = traced ex_c q) /\
  (forall z, supported 3 ex_fx z -> (forall q, In q (pts ex_ps) -> traced z q = 0) -> forall i, (i < 3)%nat -> z i = 0) /\
  solves 3 (proj_mass ex_ps) (proj_rhs ex_ps) ex_c.
Proof.
  assert (forall P : pt -> Prop, P (ex_el, nth 0 (bvs ex_el) (ex_var BScalar [] hat (fun _ _ => 0)), 0%nat, 0%nat) ->
     P (ex_el, nth 0 (bvs ex_el) (ex_var BScalar [] hat (fun _ _ => 0)), 1%nat, 0%nat) -> forall q, In q (pts ex_ps) -> P q) as K.
  { intros P H0 H1 q I. cbn in I. destruct I as [<- | [<- | []]]; assumption. }
  split; [| split; [| split; [| split]]].
  - split; [| split].
    + intros p i [<- | []] I. cbn in I. split; [destruct I as [<- | [<- | [<- | []]]]; lia | reflexivity].
    + intros i Hi. eexists. split; [left; reflexivity |]. cbn. lia.
    + intros p e [<- | []] [<- | []]. split; [intros; cbn; lra |]. split; [intros o Ho; cbn in *; lia |].
      intros v [<- | []]. split; [| exact I]. intros o Io. cbn in *. lia.
  - intros i Hi F. unfold ex_fx in F. apply Nat.ltb_ge in F. unfold ex_c. destruct i as [| [| i]]; [lia | lia | reflexivity].
  - apply K; cbn; unfold hat, sm, rsum, ex_c, trace; cbn; lra.
  - intros z Z T i Hi. pose proof (T _ (or_introl eq_refl)) as T0. pose proof (T _ (or_intror (or_introl eq_refl))) as T1.
    cbn in T0, T1. unfold hat, sm, rsum, trace in T0, T1. cbn in T0, T1. destruct i as [| [| [| i]]]; [lra | lra | apply Z; auto | lia].
  - intros i Hi. destruct i as [| [| [| i]]]; [| | | lia]; ev; field.
Qed.

(** An HDIV variable on a side that is not along an axis: the matrix does not use the normal
    component, and the values imposed are not the prescribed ones. *)
Definition slant (d : nat) : R := if (d =? 0)%nat then 3 / 5 else 4 / 5.
Definition ex_div : list bproc :=
  [{| bels := [{| blid := fun o => o; bnloc := 1; bdim := 2; bnq := 1; bw := fun _ => 1; bn := fun _ => slant;
                  bvs := [ex_var BDiv [0%nat] (fun _ _ => slant) (fun _ _ => 1)] |}];
      seen := [0%nat]; fixed := fun _ => true |}].
Theorem C63_hdiv_refuted : exists ps c x,
  (forall p e k, In p ps -> In e (bels p) -> (k < bnq e)%nat -> dotp (bdim e) (bn e k) (bn e k) = 1) /\
  (forall q, In q (pts ps) -> prescribed q = traced c q) /\
  (forall z, (forall q, In q (pts ps) -> traced z q = 0) -> z 0%nat = 0) /\
  solves 1 (proj_mass ps) (proj_rhs ps) x /\ x 0%nat = 625 / 337 /\ c 0%nat = 1.
Proof.
  exists ex_div, (fun _ => 1), (fun _ => 625 / 337). split; [| split; [| split; [| split]]].
  - intros p e k [<- | []] [<- | []] _. unfold dotp, sm, rsum, slant. cbn. lra.
  - intros q [<- | []]. cbn. unfold sm, rsum, trace. cbn. unfold dotp, sm, rsum, slant. cbn. lra.
  - intros z T. specialize (T _ (or_introl eq_refl)). cbn in T. unfold sm, rsum, trace in T. cbn in T. unfold dotp, sm, rsum, slant in T. cbn in T. lra.
  - intros i Hi. destruct i; [| lia]. ev. unfold slant. cbn. field.
  - split; reflexivity.
Qed.
(** A process that has an unknown but no side next to it does not know that it is fixed: the
    value imposed is wrong. *)
Definition ex_split : list bproc :=
  [{| bels := [{| blid := fun o => o; bnloc := 1; bdim := 2; bnq := 1; bw := fun _ => 1; bn := fun _ => slant;
                  bvs := [ex_var BScalar [0%nat] (fun _ _ _ => 1) (fun _ _ => 1)] |}];
      seen := [0%nat]; fixed := fun _ => true |};
   {| bels := []; seen := [0%nat]; fixed := fun _ => false |}].
Theorem C63_unshared_refuted : exists ps c x,
  (forall p e, In p ps -> In e (bels p) -> good_el p e) /\
  (forall q, In q (pts ps) -> prescribed q = traced c q) /\
  (forall z, (forall q, In q (pts ps) -> traced z q = 0) -> z 0%nat = 0) /\
  solves 1 (proj_mass ps) (proj_rhs ps) x /\ x 0%nat = 1 / 2 /\ c 0%nat = 1.
Proof.
  exists ex_split, (fun _ => 1), (fun _ => 1 / 2). split; [| split; [| split; [| split]]].
  - intros p e [<- | [<- | []]] Ie; [| contradiction]. destruct Ie as [<- | []]. split; [intros; cbn; lra |]. split; [intros o Ho; cbn in *; lia |].
    intros v [<- | []]. split; [| exact I]. intros o Io. cbn in *. lia.
  - intros q [<- | []]. cbn. unfold sm, rsum, trace. cbn. lra.
  - intros z T. specialize (T _ (or_introl eq_refl)). cbn in T. unfold sm, rsum, trace in T. cbn in T. lra.
  - intros i Hi. destruct i; [| lia]. ev. field.
  - split; reflexivity.
Qed.
Print Assumptions C63_hdiv_refuted.
Print Assumptions C63_unshared_refuted.
