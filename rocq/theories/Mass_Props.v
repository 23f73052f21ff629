(** Properties C14 (matrix-free mass) and C15 (lumped mass). *)
From Coq Require Import Bool Arith Lia List Reals Lra Permutation.
From Verif Require Import Sparse_Model Sparse_Props Mass_Model.
Import ListNotations.
Local Open Scope R_scope.

(** Product with a matrix of [n] columns. *)
Definition matvec (n : nat) (A : nat -> nat -> R) (x : vector) (r : nat) : R :=
  rsum (map (fun c => A r c * x c) (seq 0 n)).

Definition pick (r : nat) (c : nat * R) : R := if (fst c =? r)%nat then snd c else 0.

Lemma scatter_val cs : forall y r, scatter cs y r = y r + rsum (map (pick r) cs).
Proof.
  induction cs as [|c cs IH]; intros y r; [cbn; ring|].
  change (scatter (c :: cs) y) with (scatter cs (add_at y (fst c) (snd c))).
  rewrite IH. cbn [map]. change (rsum (pick r c :: map (pick r) cs)) with (pick r c + rsum (map (pick r) cs)).
  unfold add_at, pick at 2. rewrite (Nat.eqb_sym (fst c)). destruct (r =? fst c)%nat; ring.
Qed.

Definition pick2 (r q : nat) (c : nat * nat * R) : R :=
  if ((r =? fst (fst c)) && (q =? snd (fst c)))%nat then snd c else 0.

Lemma scatter2_val cs : forall m r q, scatter2 cs m r q = m r q + rsum (map (pick2 r q) cs).
Proof.
  induction cs as [|c cs IH]; intros m r q; [cbn; ring|].
  change (scatter2 (c :: cs) m) with (scatter2 cs (add_at2 m (fst (fst c)) (snd (fst c)) (snd c))).
  rewrite IH. cbn [map]. change (rsum (pick2 r q c :: map (pick2 r q) cs)) with (pick2 r q c + rsum (map (pick2 r q) cs)).
  unfold add_at2, pick2 at 2. destruct ((r =? fst (fst c)) && (q =? snd (fst c)))%nat; ring.
Qed.

Lemma rsum_perm l m : Permutation l m -> rsum l = rsum m.
Proof. induction 1; cbn [rsum fold_right] in *; unfold rsum in *; cbn [fold_right] in *; lra. Qed.

(** *** Order of the elements *)

(** Any order in which the (atomic) additions take place gives the same vector. *)
Theorem C14_order v bs x y cs : Permutation cs (mf_contribs v bs x) ->
  forall r, scatter cs y r = apply_mf v bs x y r.
Proof.
  intros P r. unfold apply_mf. rewrite !scatter_val. f_equal. apply rsum_perm. apply Permutation_map. auto.
Qed.

(** *** Sums *)

Lemma rsum_flat_map {A} (f : A -> list R) l : rsum (flat_map f l) = rsum (map (fun x => rsum (f x)) l).
Proof.
  induction l as [|a l IH]; auto. cbn [flat_map map]. rewrite rsum_app, IH. reflexivity.
Qed.
Lemma map_flat_map {A B C} (g : B -> C) (f : A -> list B) l : map g (flat_map f l) = flat_map (fun x => map g (f x)) l.
Proof. induction l as [|a l IH]; cbn; auto. rewrite map_app, IH. auto. Qed.
Lemma rsum_ext {A} (f g : A -> R) l : (forall x, In x l -> f x = g x) -> rsum (map f l) = rsum (map g l).
Proof. intros H. f_equal. apply map_ext_in. auto. Qed.
Lemma rsum_zero {A} (f : A -> R) l : (forall x, In x l -> f x = 0) -> rsum (map f l) = 0.
Proof. intros H. rewrite (rsum_ext f (fun _ => 0)) by auto. clear. induction l; rs; auto. rewrite IHl. ring. Qed.
Lemma rsum_swap {A B} (f : A -> B -> R) l m :
  rsum (map (fun a => rsum (map (f a) m)) l) = rsum (map (fun b => rsum (map (fun a => f a b) l)) m).
Proof.
  induction l as [|a l IH]; cbn [map].
  - change (rsum []) with 0. symmetry. apply rsum_zero. auto.
  - change (rsum (?a :: ?b)) with (a + rsum b). rewrite IH.
    rewrite <- rsum_map_add. apply rsum_ext. intros b _. reflexivity.
Qed.

Lemma rsum_single n (c : nat) (f : nat -> R) : (c < n)%nat ->
  rsum (map (fun j => if (j =? c)%nat then f j else 0) (seq 0 n)) = f c.
Proof.
  assert (G : forall n a, (a <= c < a + n)%nat -> rsum (map (fun j => if (j =? c)%nat then f j else 0) (seq a n)) = f c).
  { clear n. induction n as [|n IH]; intros a H; [lia|]. cbn [seq map]. change (rsum (?x :: ?y)) with (x + rsum y).
    destruct (Nat.eqb_spec a c) as [->|N].
    - rewrite rsum_zero; [ring|]. intros j Hj. apply in_seq in Hj. destruct (Nat.eqb_spec j c); [lia|auto].
    - rewrite IH by lia. ring. }
  intros H. apply G. lia.
Qed.

(** A sum over all positions of something that vanishes off a list without repetition. *)
Lemma rsum_support n (l : list nat) (f : nat -> R) : NoDup l -> (forall c, In c l -> (c < n)%nat) ->
  (forall c, (c < n)%nat -> ~ In c l -> f c = 0) ->
  rsum (map f (seq 0 n)) = rsum (map f l).
Proof.
  intros ND HL HZ.
  assert (E : forall c, (c < n)%nat -> f c = rsum (map (fun o => if (c =? o)%nat then f c else 0) l)).
  { intros c Hc. destruct (in_dec Nat.eq_dec c l) as [I|N].
    - clear HZ HL. induction l as [|a l IH]; [destruct I|]. inversion ND as [|? ? N1 N2]; subst.
      cbn [map]. change (rsum (?x :: ?y)) with (x + rsum y). destruct (Nat.eqb_spec c a) as [->|NE].
      + rewrite rsum_zero; [ring|]. intros o Ho. destruct (Nat.eqb_spec a o); [subst; contradiction|auto].
      + destruct I as [->|I]; [congruence|]. rewrite <- IH; auto. ring.
    - rewrite HZ by auto. symmetry. apply rsum_zero. intros o Ho. destruct (c =? o)%nat; auto. }
  rewrite (rsum_ext f (fun c => rsum (map (fun o => if (c =? o)%nat then f c else 0) l))).
  2:{ intros c Hc. apply in_seq in Hc. apply E. lia. }
  rewrite rsum_swap. apply rsum_ext. intros o Ho. apply (rsum_single n o f). auto.
Qed.

(** *** The assembled matrix *)

Section Block.
Definition wf_block (n : nat) (b : block) : Prop :=
  NoDup (concat (offs b)) /\
  (forall o p, In o (offs b) -> In p o -> (p < ndof b)%nat) /\
  (forall e p, In e (elems b) -> (p < ndof b)%nat -> (lid e p < n)%nat) /\
  (forall e, In e (elems b) -> (eidx e < ndb b)%nat).

Lemma rows_in b v i : In (v, i) (rows b) <-> (v < length (offs b))%nat /\ (i < num b v)%nat.
Proof.
  unfold rows. rewrite in_flat_map. split.
  - intros (v' & Hv & Hi). apply in_map_iff in Hi as (i' & E & Hi). injection E as -> ->.
    apply in_seq in Hv, Hi. lia.
  - intros [Hv Hi]. exists v. split; [apply in_seq; lia|]. apply in_map_iff. exists i. split; auto. apply in_seq. lia.
Qed.

Lemma off_in b v i : (v < length (offs b))%nat -> (i < num b v)%nat ->
  In (nth v (offs b) []) (offs b) /\ In (off b v i) (nth v (offs b) []).
Proof. intros Hv Hi. split; [apply nth_In; auto|]. unfold off. apply nth_In. auto. Qed.

Lemma NoDup_app_inv {A} (l m : list A) : NoDup (l ++ m) -> NoDup l /\ NoDup m /\ forall x, In x l -> ~ In x m.
Proof.
  induction l as [|a l IH]; cbn; intros H.
  - split; [constructor|auto].
  - inversion H as [|? ? H1 H2]; subst. destruct (IH H2) as (I1 & I2 & I3).
    split; [constructor; auto; intros X; apply H1, in_or_app; auto|]. split; auto.
    intros x [<-|Hx] X; [apply H1, in_or_app; auto|eapply I3; eauto].
Qed.

Lemma NoDup_concat_inj (l : list (list nat)) : NoDup (concat l) ->
  forall v w p, (v < length l)%nat -> (w < length l)%nat -> In p (nth v l []) -> In p (nth w l []) -> v = w.
Proof.
  induction l as [|o l IH]; intros ND v w p Hv Hw Pv Pw; cbn in *; [lia|].
  apply NoDup_app_inv in ND as (N1 & N2 & N3).
  assert (C : forall k, (k < length l)%nat -> In p (nth k l []) -> In p (concat l)).
  { intros k Hk Pk. apply in_concat. exists (nth k l []). split; auto. apply nth_In; auto. }
  destruct v as [|v], w as [|w]; auto.
  - exfalso. eapply N3; eauto. eapply C; [|eauto]. lia.
  - exfalso. eapply N3; [eapply Pw|]. eapply C; [|eauto]. lia.
  - f_equal. eapply IH; eauto; lia.
Qed.

Lemma NoDup_concat_each (l : list (list nat)) o : NoDup (concat l) -> In o l -> NoDup o.
Proof.
  induction l as [|a l IH]; intros ND H; [destruct H|]. cbn in ND. apply NoDup_app_inv in ND as (N1 & N2 & _).
  destruct H as [->|H]; auto.
Qed.

Lemma off_inj b v i w j : NoDup (concat (offs b)) -> In (v, i) (rows b) -> In (w, j) (rows b) ->
  off b v i = off b w j -> v = w /\ i = j.
Proof.
  intros ND Hv Hw E. apply rows_in in Hv as [V1 V2]. apply rows_in in Hw as [W1 W2].
  destruct (off_in b v i V1 V2) as [A1 A2]. destruct (off_in b w j W1 W2) as [B1 B2].
  assert (v = w) by (eapply NoDup_concat_inj; eauto; rewrite E; auto). subst w. split; auto.
  assert (NV : NoDup (nth v (offs b) [])) by (eapply NoDup_concat_each; eauto).
  unfold off, num in *. exact (proj1 (NoDup_nth _ 0%nat) NV i j V2 W2 E).
Qed.

Lemma rows_nodup b : NoDup (rows b).
Proof.
  unfold rows. generalize (seq_NoDup (length (offs b)) 0). generalize (seq 0 (length (offs b))).
  induction l as [|v l IH]; intros ND; cbn; [constructor|]. inversion ND as [|? ? N1 N2]; subst.
  assert (G : forall n a, NoDup (map (fun i : nat => (v, i)) (seq a n))).
  { intros n a. apply FinFun.Injective_map_NoDup; [intros x y E; congruence|apply seq_NoDup]. }
  specialize (IH N2).
  assert (X : forall (p q : list (nat * nat)), NoDup p -> NoDup q -> (forall x, In x p -> ~ In x q) -> NoDup (p ++ q)).
  { induction p as [|x p IHp]; intros q P1 P2 P3; cbn; auto. inversion P1; subst. constructor.
    - intros Y. apply in_app_or in Y as [Y|Y]; auto. eapply P3; [left; eauto|auto].
    - apply IHp; auto. intros y Hy. apply P3. right; auto. }
  apply X; auto. intros [a c] Ha Hc. apply in_map_iff in Ha as (i & E & _). injection E as <- <-.
  apply in_flat_map in Hc as (w & Hw & Hc). apply in_map_iff in Hc as (i' & E & _). injection E as -> _. contradiction.
Qed.

(** The stored table holds the quadrature values. *)
Lemma stored_value b e v i j : NoDup (concat (offs b)) -> In (v, i) (rows b) -> (j < num b v)%nat ->
  stored_mass b e (off b v i) (off b v j) = massval b e v i j.
Proof.
  intros ND Hi Hj. unfold stored_mass. rewrite scatter2_val, map_flat_map, rsum_flat_map.
  pose proof Hi as Hi'. apply rows_in in Hi' as [Hv Hi0].
  assert (Hvj : In (v, j) (rows b)) by (apply rows_in; auto).
  assert (E : forall wk, In wk (rows b) ->
    rsum (map (pick2 (off b v i) (off b v j)) (map (fun j0 => (off b (fst wk) (snd wk), off b (fst wk) j0,
        massval b e (fst wk) (snd wk) j0)) (seq 0 (num b (fst wk))))) =
    if ((fst wk =? v) && (snd wk =? i))%nat then massval b e v i j else 0).
  { intros [w k] Hw. cbn [fst snd]. rewrite map_map. unfold pick2. cbn [fst snd].
    destruct (Nat.eqb_spec (off b v i) (off b w k)) as [E1|E1].
    - destruct (off_inj b v i w k ND Hi Hw E1) as [<- <-]. rewrite !Nat.eqb_refl. cbn [andb].
      rewrite (rsum_ext _ (fun j0 => if (j0 =? j)%nat then massval b e v i j0 else 0)).
      + apply (rsum_single (num b v) j (fun j0 => massval b e v i j0)). auto.
      + intros j0 Hj0. apply in_seq in Hj0. destruct (Nat.eqb_spec (off b v j) (off b v j0)) as [E2|E2].
        * destruct (off_inj b v j v j0 ND Hvj) as [_ <-]; auto. { apply rows_in; split; [auto|lia]. } rewrite Nat.eqb_refl. auto.
        * destruct (Nat.eqb_spec j0 j) as [->|]; [congruence|auto].
    - rewrite rsum_zero by auto.
      destruct (Nat.eqb_spec w v) as [->|]; cbn [andb]; auto.
      destruct (Nat.eqb_spec k i) as [->|]; auto. congruence. }
  rewrite (rsum_ext _ _ _ E). rewrite Rplus_0_l.
  generalize (rows_nodup b). revert Hi. generalize (rows b). clear.
  induction l as [|[w k] l IH]; intros Hi ND; [destruct Hi|]. inversion ND as [|? ? N1 N2]; subst.
  cbn [map fst snd]. change (rsum (?x :: ?y)) with (x + rsum y).
  destruct Hi as [E|Hi].
  - injection E as -> ->. rewrite !Nat.eqb_refl. cbn [andb]. rewrite rsum_zero; [ring|].
    intros [w k] Hw. cbn [fst snd]. destruct (Nat.eqb_spec w v) as [->|]; cbn [andb]; auto.
    destruct (Nat.eqb_spec k i) as [->|]; auto. contradiction.
  - rewrite IH by auto. destruct (Nat.eqb_spec w v) as [->|]; cbn [andb]; [|ring].
    destruct (Nat.eqb_spec k i) as [->|]; [contradiction|ring].
Qed.
End Block.

(** Value of a matrix-free application with tables. *)
Definition row_sum (M : block -> elem -> nat -> nat -> R) (bs : list block) (x : vector) (r : nat) : R :=
  rsum (map (fun b => rsum (map (fun e => rsum (map (fun vi =>
    if (lid e (off b (fst vi) (snd vi)) =? r)%nat then
      rsum (map (fun j => M b e (off b (fst vi) (snd vi)) (off b (fst vi) j) * x (lid e (off b (fst vi) j)))
                (seq 0 (num b (fst vi))))
    else 0) (rows b))) (elems b))) bs).

Lemma mf_table_sum M bs x y r :
  scatter (flat_map (fun b => flat_map (fun e => mf_table (M b e) b e x) (elems b)) bs) y r = y r + row_sum M bs x r.
Proof.
  rewrite scatter_val. f_equal. rewrite map_flat_map, rsum_flat_map. unfold row_sum. apply rsum_ext. intros b _.
  rewrite map_flat_map, rsum_flat_map. apply rsum_ext. intros e _.
  unfold mf_table. rewrite map_flat_map, rsum_flat_map. apply rsum_ext. intros [v i] _. cbn [fst snd].
  rewrite map_map. unfold pick. cbn [fst snd].
  destruct (lid e (off b v i) =? r)%nat; [reflexivity|]. apply rsum_zero. auto.
Qed.

Lemma matvec_sum n use_db bs x r : (forall b, In b bs -> wf_block n b) ->
  matvec n (assemble use_db false bs) x r = row_sum (local_mass use_db) bs x r.
Proof.
  intros HW. unfold matvec, assemble.
  rewrite (rsum_ext _ (fun c => rsum (map (fun b => rsum (map (fun e => rsum (map (fun vi =>
    rsum (map (fun j => pick2 r c (lid e (off b (fst vi) (snd vi)), lid e (off b (fst vi) j),
       local_mass use_db b e (off b (fst vi) (snd vi)) (off b (fst vi) j)) * x c)
      (seq 0 (num b (fst vi))))) (rows b))) (elems b))) bs))).
  2:{ intros c _. rewrite scatter2_val, Rplus_0_l, map_flat_map, rsum_flat_map, Rmult_comm, <- rsum_map_scal.
      apply rsum_ext. intros b _. rewrite map_flat_map, rsum_flat_map, <- rsum_map_scal.
      apply rsum_ext. intros e _. unfold mat_elem. rewrite map_flat_map, rsum_flat_map, <- rsum_map_scal.
      apply rsum_ext. intros vi _. rewrite map_map, <- rsum_map_scal. apply rsum_ext. intros j _. ring. }
  rewrite rsum_swap. unfold row_sum. apply rsum_ext. intros b Hb. destruct (HW b Hb) as (ND & HP & HL & _).
  rewrite rsum_swap. apply rsum_ext. intros e He.
  rewrite rsum_swap. apply rsum_ext. intros [v i] Hvi. cbn [fst snd]. apply rows_in in Hvi as [Hv Hi].
  rewrite rsum_swap. unfold pick2. cbn [fst snd].
  destruct (Nat.eqb_spec (lid e (off b v i)) r) as [E|E].
  - apply rsum_ext. intros j Hj. apply in_seq in Hj. rewrite <- E, Nat.eqb_refl. cbn [andb].
    set (q := lid e (off b v j)).
    rewrite (rsum_ext _ (fun c => if (c =? q)%nat then local_mass use_db b e (off b v i) (off b v j) * x c else 0)).
    + apply (rsum_single n q (fun c => local_mass use_db b e (off b v i) (off b v j) * x c)).
      apply HL; auto. destruct (off_in b v j Hv ltac:(lia)) as [A1 A2]. eapply HP; eauto.
    + intros c _. destruct (c =? q)%nat; [auto|ring].
  - apply rsum_zero. intros j _. apply rsum_zero. intros c _.
    destruct (Nat.eqb_spec r (lid e (off b v i))); [congruence|cbn; ring].
Qed.

Lemma row_sum_ext M M' bs x r :
  (forall b e v i j, In b bs -> In e (elems b) -> In (v, i) (rows b) -> (j < num b v)%nat ->
     M b e (off b v i) (off b v j) = M' b e (off b v i) (off b v j)) ->
  row_sum M bs x r = row_sum M' bs x r.
Proof.
  intros H. unfold row_sum. apply rsum_ext. intros b Hb. apply rsum_ext. intros e He.
  apply rsum_ext. intros [v i] Hvi. cbn [fst snd]. destruct (lid e (off b v i) =? r)%nat; auto.
  apply rsum_ext. intros j Hj. apply in_seq in Hj. rewrite H; auto. lia.
Qed.

(** *** C14 *)

(** Whether the variant takes its local masses from the database. *)
Definition from_db (v : variant) : bool :=
  match v with Recompute | StoredLocal => false | _ => true end.

(** For all connectivities, local mass data and vectors: the matrix-free application
    with recomputed, stored or (dense) database masses is the product with the
    assembled matrix, added to y. *)
Theorem C14_matrix_free n v bs x y r : (forall b, In b bs -> wf_block n b) ->
  match v with SparseDatabase _ _ => False | _ => True end ->
  apply_mf v bs x y r = y r + matvec n (assemble (from_db v) false bs) x r.
Proof.
  intros HW Hv. rewrite matvec_sum by auto. unfold apply_mf, mf_contribs.
  destruct v; cbn [mf_elem from_db]; try destruct Hv.
  - assert (E : forall b e, In b bs -> mf_recompute b e x = mf_table (stored_mass b e) b e x).
    { intros b e Hb. destruct (HW b Hb) as (ND & _). unfold mf_recompute, mf_table.
      generalize (fun v i => proj1 (rows_in b v i)). intros RI.
      assert (G : forall l, (forall z, In z l -> In z (rows b)) ->
        flat_map (fun vi => map (fun j => (lid e (off b (fst vi) (snd vi)),
           massval b e (fst vi) (snd vi) j * x (lid e (off b (fst vi) j)))) (seq 0 (num b (fst vi)))) l =
        flat_map (fun vi => map (fun j => (lid e (off b (fst vi) (snd vi)),
           stored_mass b e (off b (fst vi) (snd vi)) (off b (fst vi) j) * x (lid e (off b (fst vi) j)))) (seq 0 (num b (fst vi)))) l).
      { induction l as [|[v i] l IH]; intros HL; auto. cbn [flat_map fst snd]. f_equal.
        - apply map_ext_in. intros j Hj. apply in_seq in Hj. rewrite stored_value; auto; [apply HL; left; auto|lia].
        - apply IH. intros z Hz. apply HL. right; auto. }
      apply G. auto. }
    rewrite <- (mf_table_sum (local_mass false) bs x y r).
    f_equal. clear HW. induction bs as [|b bs IH]; auto. cbn [flat_map]. f_equal.
    + induction (elems b) as [|e l IHl]; auto. cbn [flat_map]. rewrite E by (left; auto). f_equal. auto.
    + apply IH. intros b' e Hb'. apply E. right; auto.
  - rewrite <- (mf_table_sum (local_mass false) bs x y r). reflexivity.
  - rewrite <- (mf_table_sum (local_mass true) bs x y r). reflexivity.
Qed.

(** Database variants agree with the recomputing ones when the database holds the
    element's own masses (see C18 for when that is the case). *)
Theorem C14_database n bs x y r : (forall b, In b bs -> wf_block n b) ->
  (forall b e v i j, In b bs -> In e (elems b) -> In (v, i) (rows b) -> (j < num b v)%nat ->
     db b (eidx e) (off b v i) (off b v j) = massval b e v i j) ->
  apply_mf DenseDatabase bs x y r = apply_mf Recompute bs x y r.
Proof.
  intros HW HD. rewrite (C14_matrix_free n DenseDatabase), (C14_matrix_free n Recompute) by (auto; exact I).
  f_equal. cbn [from_db]. rewrite !matvec_sum by auto. apply row_sum_ext.
  intros b e v i j Hb He Hvi Hj. destruct (HW b Hb) as (ND & _). cbn [local_mass].
  rewrite stored_value by auto. auto.
Qed.

(** The database couples only unknowns of the same variable. *)
Definition block_diagonal (b : block) : Prop :=
  forall q v i c, (q < ndb b)%nat -> In (v, i) (rows b) -> (c < ndof b)%nat ->
    ~ In c (nth v (offs b) []) -> db b q (off b v i) c = 0.

(** One row of the sparse variant against the dense one. *)
Lemma nth_map_seq {B} (l : list nat) (f : nat -> B) : map (fun j => f (nth j l 0%nat)) (seq 0 (length l)) = map f l.
Proof.
  induction l as [|a l IH]; auto. cbn [length seq map nth]. f_equal.
  rewrite <- seq_shift, map_map. exact IH.
Qed.

Lemma sparse_row_values tol b e v i x : 0 <= tol ->
  NoDup (concat (offs b)) -> block_diagonal b -> (eidx e < ndb b)%nat -> In (v, i) (rows b) ->
  rsum (map (fun k => values (ndb b) (ndof b) (ndof b) (db b) tol (eidx e) (off b v i) k
      * x (lid e (off b v (local_columns (ndb b) (ndof b) (ndof b) (db b) tol true (offs b) (eidx e) (off b v i) k))))
      (seq 0 (nnz (ndb b) (ndof b) (ndof b) (db b) tol true (eidx e) (off b v i)))) =
  sparse_row (ndb b) (ndof b) (ndof b) (db b) tol true (eidx e) (off b v i) (fun c => x (lid e c)).
Proof.
  intros Ht ND BD He Hvi. unfold sparse_row. apply rsum_ext. intros k Hk. apply in_seq in Hk.
  f_equal. f_equal. f_equal. pose proof Hvi as Hvi'. apply rows_in in Hvi' as [Hv Hi].
  destruct (off_in b v i Hv Hi) as [A1 A2].
  (* the column is kept, so it is not zero, so it belongs to the variable *)
  assert (R : In (columns (ndb b) (ndof b) (ndof b) (db b) tol (eidx e) (off b v i) k) (nth v (offs b) [])).
  { set (c := columns (ndb b) (ndof b) (ndof b) (db b) tol (eidx e) (off b v i) k).
    destruct (in_dec Nat.eq_dec c (nth v (offs b) [])) as [I|N]; auto. exfalso.
    set (js := filter (fun j => keep (ndb b) (ndof b) (ndof b) (db b) tol (db b (eidx e) (off b v i) j)) (seq 0 (ndof b))).
    assert (X : In c js).
    { unfold c, columns, entries. fold js. rewrite map_map. cbn [fst]. rewrite map_id. apply nth_In.
      unfold nnz, entries in Hk. fold js in Hk. rewrite map_length in Hk. lia. }
    apply filter_In in X as [X1 X2]. apply in_seq in X1. apply keep_spec in X2 as [M X2].
    rewrite (BD (eidx e) v i c He Hvi ltac:(lia) N), Rabs_R0 in X2.
    destruct (maxval_sup (ndb b) (ndof b) (ndof b) (db b)) as (_ & _ & P).
    assert (0 <= tol * maxval (ndb b) (ndof b) (ndof b) (db b)) by (apply Rmult_le_pos; auto). lra. }
  unfold off at 1.
  destruct (C13_local_columns (ndb b) (ndof b) (ndof b) (db b) tol true (offs b) (eidx e) (off b v i) k
    (nth v (offs b) []) ND A1 A2 ltac:(lia) R) as [Q _]. exact Q.
Qed.

Lemma dense_row_values b e v i x : NoDup (concat (offs b)) ->
  (forall o p, In o (offs b) -> In p o -> (p < ndof b)%nat) ->
  block_diagonal b -> (eidx e < ndb b)%nat -> In (v, i) (rows b) ->
  rsum (map (fun j => db b (eidx e) (off b v i) (off b v j) * x (lid e (off b v j))) (seq 0 (num b v))) =
  dense_row (ndof b) (db b) (eidx e) (off b v i) (fun c => x (lid e c)).
Proof.
  intros ND HP BD He Hvi. pose proof Hvi as Hvi'. apply rows_in in Hvi' as [Hv Hi].
  destruct (off_in b v i Hv Hi) as [A1 _]. unfold dense_row.
  rewrite (rsum_support (ndof b) (nth v (offs b) [])).
  - unfold off at 2 3, num. f_equal. apply (nth_map_seq (nth v (offs b) []) (fun c => db b (eidx e) (off b v i) c * x (lid e c))).
  - eapply NoDup_concat_each; eauto.
  - intros c Hc. eapply HP; eauto.
  - intros c Hc N. rewrite (BD (eidx e) v i c); auto. ring.
Qed.

Lemma mf_sparse_sum tol sm bs x y r :
  apply_mf (SparseDatabase tol sm) bs x y r = y r +
  rsum (map (fun b => rsum (map (fun e => rsum (map (fun vi =>
    if (lid e (off b (fst vi) (snd vi)) =? r)%nat then
      rsum (map (fun k => values (ndb b) (ndof b) (ndof b) (db b) tol (eidx e) (off b (fst vi) (snd vi)) k
      * x (lid e (off b (fst vi) (local_columns (ndb b) (ndof b) (ndof b) (db b) tol sm (offs b) (eidx e) (off b (fst vi) (snd vi)) k))))
      (seq 0 (nnz (ndb b) (ndof b) (ndof b) (db b) tol sm (eidx e) (off b (fst vi) (snd vi)))))
    else 0) (rows b))) (elems b))) bs).
Proof.
  unfold apply_mf. rewrite scatter_val. f_equal. unfold mf_contribs. rewrite map_flat_map, rsum_flat_map.
  apply rsum_ext. intros b _. rewrite map_flat_map, rsum_flat_map. apply rsum_ext. intros e _.
  cbn [mf_elem]. unfold mf_sparse. rewrite map_flat_map, rsum_flat_map. apply rsum_ext. intros [v i] _. cbn [fst snd].
  rewrite map_map. unfold pick. cbn [fst snd].
  destruct (lid e (off b v i) =? r)%nat; [reflexivity|]. apply rsum_zero. auto.
Qed.

(** Sparse database: exact with tolerance zero, and in general within the sum over the
    contributing element rows of tol*max*sum|x| (on builds with shared memory). *)
Theorem C14_sparse_error n tol bs x y r : 0 <= tol -> (forall b, In b bs -> wf_block n b /\ block_diagonal b) ->
  Rabs (apply_mf (SparseDatabase tol true) bs x y r - apply_mf DenseDatabase bs x y r) <=
  rsum (map (fun b => rsum (map (fun e => rsum (map (fun vi =>
    if (lid e (off b (fst vi) (snd vi)) =? r)%nat then
      tol * maxval (ndb b) (ndof b) (ndof b) (db b) * rsum (map (fun c => Rabs (x (lid e c))) (seq 0 (ndof b)))
    else 0) (rows b))) (elems b))) bs).
Proof.
  intros Ht HW. rewrite mf_sparse_sum. unfold apply_mf at 1, mf_contribs. cbn [mf_elem].
  rewrite (mf_table_sum (fun b e => db b (eidx e)) bs x y r). unfold row_sum.
  match goal with |- Rabs (?a + ?s - (?a + ?d)) <= _ => replace (a + s - (a + d)) with (s + (-1) * d) by ring end.
  rewrite <- rsum_map_scal, <- rsum_map_add.
  eapply Rle_trans; [apply rsum_abs|]. apply rsum_le. intros b Hb. destruct (HW b Hb) as [(ND & HP & HL & HI) BD].
  rewrite <- rsum_map_scal, <- rsum_map_add.
  eapply Rle_trans; [apply rsum_abs|]. apply rsum_le. intros e He.
  rewrite <- rsum_map_scal, <- rsum_map_add.
  eapply Rle_trans; [apply rsum_abs|]. apply rsum_le. intros [v i] Hvi. cbn [fst snd].
  destruct (lid e (off b v i) =? r)%nat.
  2:{ rewrite Rmult_0_r, Rplus_0_r, Rabs_R0. lra. }
  rewrite sparse_row_values; auto. rewrite dense_row_values; auto.
  pose proof Hvi as Hvi'. apply rows_in in Hvi' as [Hv Hi]. destruct (off_in b v i Hv Hi) as [A1 A2].
  replace (sparse_row (ndb b) (ndof b) (ndof b) (db b) tol true (eidx e) (off b v i) (fun c => x (lid e c)) +
     -1 * dense_row (ndof b) (db b) (eidx e) (off b v i) (fun c => x (lid e c)))
   with (- (dense_row (ndof b) (db b) (eidx e) (off b v i) (fun c => x (lid e c)) -
     sparse_row (ndb b) (ndof b) (ndof b) (db b) tol true (eidx e) (off b v i) (fun c => x (lid e c)))) by ring.
  rewrite Rabs_Ropp. apply C13_product_error; auto. eapply HP; eauto.
Qed.

Theorem C14_sparse_exact n bs x y r : (forall b, In b bs -> wf_block n b /\ block_diagonal b) ->
  apply_mf (SparseDatabase 0 true) bs x y r = y r + matvec n (assemble true false bs) x r.
Proof.
  intros HW. rewrite <- (C14_matrix_free n DenseDatabase) by (try exact I; intros b Hb; apply HW; auto).
  pose proof (C14_sparse_error n 0 bs x y r ltac:(lra) HW) as H.
  match type of H with _ <= ?s => assert (Z : s = 0) end.
  { apply rsum_zero. intros b _. apply rsum_zero. intros e _. apply rsum_zero. intros vi _.
    destruct (_ =? r)%nat; auto. ring. }
  rewrite Z in H. pose proof (Rabs_pos (apply_mf (SparseDatabase 0 true) bs x y r - apply_mf DenseDatabase bs x y r)).
  destruct (Req_dec (apply_mf (SparseDatabase 0 true) bs x y r - apply_mf DenseDatabase bs x y r) 0) as [E|E]; [lra|].
  apply Rabs_no_R0 in E. lra.
Qed.

(** *** C15 *)

Lemma lump_sum l bs y r : lump l bs y r = y r + rsum (map (fun b => rsum (map (fun e =>
  rsum (map (pick r) (lump_elem l b e))) (elems b))) bs).
Proof.
  unfold lump. rewrite scatter_val. f_equal. rewrite map_flat_map, rsum_flat_map. apply rsum_ext. intros b _.
  rewrite map_flat_map, rsum_flat_map. reflexivity.
Qed.

(** Without absolute values the lumped mass is the vector of row sums of the matrix. *)
Theorem C15_row_sums n use_db bs y r : (forall b, In b bs -> wf_block n b) ->
  lump (LumpDevice use_db) bs y r = y r + matvec n (assemble use_db false bs) (fun _ => 1) r.
Proof.
  intros HW. rewrite matvec_sum by auto. rewrite lump_sum. f_equal. unfold row_sum.
  apply rsum_ext. intros b _. apply rsum_ext. intros e _. unfold lump_elem. rewrite map_map.
  apply rsum_ext. intros vi _. unfold pick. cbn [fst snd]. destruct (_ =? r)%nat; auto.
  apply rsum_ext. intros j _. ring.
Qed.

(** The sparse format gives the same with tolerance zero. *)
Theorem C15_sparse_partial n bs y r : (forall b, In b bs -> wf_block n b /\ block_diagonal b) ->
  lump (LumpSparse 0 true) bs y r = y r + matvec n (assemble true false bs) (fun _ => 1) r.
Proof.
  intros HW. rewrite <- (C15_row_sums n) by (intros; apply HW; auto). rewrite !lump_sum. f_equal.
  apply rsum_ext. intros b Hb. destruct (HW b Hb) as [(ND & HP & HL & HI) BD].
  apply rsum_ext. intros e He. unfold lump_elem. rewrite !map_map. apply rsum_ext. intros [v i] Hvi.
  unfold pick. cbn [fst snd]. destruct (_ =? r)%nat; auto.
  pose proof Hvi as Hvi'. apply rows_in in Hvi' as [Hv Hi]. destruct (off_in b v i Hv Hi) as [A1 A2].
  pose proof (C13_exact (ndb b) (ndof b) (ndof b) (db b) (eidx e) (off b v i) (fun _ => 1) (HI e He) (HP _ _ A1 A2)) as Q.
  pose proof (dense_row_values b e v i (fun _ => 1) ND HP BD (HI e He) Hvi) as Q2. cbn beta in Q2. rewrite <- Q in Q2.
  cbn [local_mass]. rewrite (rsum_ext (fun k => db b (eidx e) (off b v i) (off b v k)) (fun k => db b (eidx e) (off b v i) (off b v k) * 1)) by (intros; ring).
  rewrite Q2. unfold sparse_row. apply rsum_ext. intros; ring.
Qed.

(** The format with absolute values agrees with the row sums exactly when the entries
    are not negative. *)
Lemma abs_sum_ge {A} (f : A -> R) l : rsum (map f l) <= rsum (map (fun x => Rabs (f x)) l).
Proof. apply rsum_le. intros. apply Rle_abs. Qed.

Theorem C15_nonnegative_partial n use_db bs y r : (forall b, In b bs -> wf_block n b) ->
  (forall b e v i j, In b bs -> In e (elems b) -> In (v, i) (rows b) -> (j < num b v)%nat ->
     0 <= local_mass use_db b e (off b v i) (off b v j)) ->
  lump (LumpHost use_db) bs y r = y r + matvec n (assemble use_db false bs) (fun _ => 1) r.
Proof.
  intros HW HN. rewrite <- (C15_row_sums n) by auto. rewrite !lump_sum. f_equal.
  apply rsum_ext. intros b Hb. apply rsum_ext. intros e He. unfold lump_elem. rewrite !map_map.
  apply rsum_ext. intros [v i] Hvi. unfold pick. cbn [fst snd]. destruct (_ =? r)%nat; auto.
  apply rsum_ext. intros j Hj. apply in_seq in Hj. apply Rabs_right. apply Rle_ge. apply HN; auto. lia.
Qed.

(** In general it is an upper bound. *)
Theorem C15_host_upper n use_db bs y r : (forall b, In b bs -> wf_block n b) ->
  y r + matvec n (assemble use_db false bs) (fun _ => 1) r <= lump (LumpHost use_db) bs y r.
Proof.
  intros HW. rewrite <- (C15_row_sums n) by auto. rewrite !lump_sum. apply Rplus_le_compat_l.
  apply rsum_le. intros b Hb. apply rsum_le. intros e He. unfold lump_elem. rewrite !map_map.
  apply rsum_le. intros [v i] Hvi. unfold pick. cbn [fst snd]. destruct (_ =? r)%nat; [|lra]. apply abs_sum_ge.
Qed.

Print Assumptions C14_matrix_free.
Print Assumptions C14_order.
Print Assumptions C14_database.
Print Assumptions C14_sparse_error.
Print Assumptions C14_sparse_exact.
Print Assumptions C15_row_sums.
Print Assumptions C15_sparse_partial.
Print Assumptions C15_nonnegative_partial.

(** *** Witnesses: one element with two unknowns and mass [[2,-1],[-1,2]]. *)
Definition m2 (q i j : nat) : R := if (i =? j)%nat then 2 else -1.
Definition e2 : elem := {| lid := fun p => p; eidx := 0; bas := fun _ _ _ _ => 0; wts := fun _ => 0 |}.
Definition b2 : block := {| offs := [[0%nat; 1%nat]]; elems := [e2]; nq := 0; ndim := fun _ => 1%nat;
  mwt := fun _ => 1; db := m2; ndb := 1; ndof := 2 |}.

Example C14_hypotheses_met : wf_block 2 b2 /\ block_diagonal b2.
Proof.
  split; [split; [|split; [|split]]|].
  - cbn. repeat constructor; cbn; intuition discriminate.
  - cbn. intros o p [<-|[]] [<-|[<-|[]]]; lia.
  - cbn. intros e p [<-|[]] H. cbn. lia.
  - cbn. intros e [<-|[]]. cbn. lia.
  - intros q v i c _ Hvi Hc HN. exfalso. apply HN. apply rows_in in Hvi as [Hv _]. cbn in Hv, Hc.
    assert (v = 0%nat) by lia. subst v. cbn. lia.
Qed.

Theorem C15_storage_refuted :
  exists bs, (forall b, In b bs -> wf_block 2 b /\ block_diagonal b) /\
    lump (LumpHost true) bs (fun _ => 0) 0%nat = 3 /\
    lump (LumpDevice true) bs (fun _ => 0) 0%nat = 1 /\
    lump (LumpSparse 0 true) bs (fun _ => 0) 0%nat = 1 /\
    matvec 2 (assemble true false bs) (fun _ => 1) 0%nat = 1.
Proof.
  exists [b2].
  assert (H : forall b, In b [b2] -> wf_block 2 b /\ block_diagonal b).
  { intros b [<-|[]]. apply C14_hypotheses_met. }
  assert (H' : forall b, In b [b2] -> wf_block 2 b) by (intros; apply H; auto).
  assert (D : lump (LumpDevice true) [b2] (fun _ => 0) 0%nat = 1).
  { unfold lump, lump_elem, scatter, add_at, rsum. cbn. unfold m2. cbn. lra. }
  split; auto. split; [|split; auto].
  - unfold lump, lump_elem, scatter, add_at, rsum. cbn. unfold m2. cbn.
    rewrite (Rabs_right 2), (Rabs_left (-1)) by lra. lra.
  - rewrite (C15_row_sums 2) in D by auto. cbn beta in D.
    split; [rewrite (C15_sparse_partial 2) by auto; cbn beta; lra|lra].
Qed.
Print Assumptions C15_storage_refuted.

(** With the sparse format the assembled matrix is left empty, although it is computed
    whenever mass lumping and matrix-free mode are off. *)
Theorem C14_sparse_matrix_refuted :
  exists bs x, (forall b, In b bs -> wf_block 2 b /\ block_diagonal b) /\
    apply_mf (SparseDatabase 0 true) bs x (fun _ => 0) 0%nat = 1 /\
    forall r c, assemble true true bs r c = 0.
Proof.
  exists [b2], (fun _ => 1).
  assert (H : forall b, In b [b2] -> wf_block 2 b /\ block_diagonal b).
  { intros b [<-|[]]. apply C14_hypotheses_met. }
  split; auto. split; [|reflexivity].
  rewrite (C14_sparse_exact 2) by auto. rewrite matvec_sum by (intros; apply H; auto).
  unfold row_sum, rsum. cbn. unfold m2. cbn. lra.
Qed.
Print Assumptions C14_sparse_matrix_refuted.
