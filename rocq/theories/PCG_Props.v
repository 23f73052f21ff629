(** C32: conjugate gradients. *)
From Coq Require Import Bool Arith ZArith Lia Reals Lra List.
From Verif Require Import Newton_Model PCG_Model.
Import ListNotations.
Local Open Scope R_scope.

Section Sums.
Variable n : nat.
Notation vsum := (vsum n).
Lemma vs_ext f g : (forall i, (i < n)%nat -> f i = g i) -> vsum f = vsum g.
Proof.
  intros H. unfold vsum. f_equal. apply map_ext_in. intros i Hi. apply in_seq in Hi. apply H. lia.
Qed.
Lemma vs_add f g : vsum (fun i => f i + g i) = vsum f + vsum g.
Proof. unfold vsum. induction (seq 0 n) as [|a l IH]; cbn; [ring|]. rewrite IH. ring. Qed.
Lemma vs_scal c f : vsum (fun i => c * f i) = c * vsum f.
Proof. unfold vsum. induction (seq 0 n) as [|a l IH]; cbn; [ring|]. rewrite IH. ring. Qed.
Lemma vs_zero f : (forall i, (i < n)%nat -> f i = 0) -> vsum f = 0.
Proof. intros H. rewrite (vs_ext f (fun _ => 0 * 0)) by (intros; rewrite H by auto; ring). rewrite vs_scal. ring. Qed.
Lemma vs_nonneg f : (forall i, (i < n)%nat -> 0 <= f i) -> 0 <= vsum f.
Proof.
  unfold vsum. intros H. assert (G : forall l, (forall i, In i l -> 0 <= f i) -> 0 <= fold_right Rplus 0 (map f l)).
  { induction l as [|a l IH]; intros HL; cbn; [lra|]. pose proof (HL a (or_introl eq_refl)). specialize (IH (fun i Hi => HL i (or_intror Hi))). lra. }
  apply G. intros i Hi. apply in_seq in Hi. apply H. lia.
Qed.
Lemma vs_term f k : (forall i, (i < n)%nat -> 0 <= f i) -> (k < n)%nat -> f k <= vsum f.
Proof.
  unfold vsum. intros H Hk.
  assert (G : forall l, (forall i, In i l -> 0 <= f i) -> In k l -> f k <= fold_right Rplus 0 (map f l)).
  { induction l as [|a l IH]; intros HL HI; [destruct HI|]. cbn.
    assert (P : forall l, (forall i, In i l -> 0 <= f i) -> 0 <= fold_right Rplus 0 (map f l)).
    { induction l0 as [|a' l' IH']; intros HL'; cbn; [lra|]. pose proof (HL' a' (or_introl eq_refl)).
      specialize (IH' (fun i Hi => HL' i (or_intror Hi))). lra. }
    destruct HI as [->|HI].
    - specialize (P l (fun i Hi => HL i (or_intror Hi))). lra.
    - specialize (IH (fun i Hi => HL i (or_intror Hi)) HI). pose proof (HL a (or_introl eq_refl)). lra. }
  apply G; [|apply in_seq; lia]. intros i Hi. apply in_seq in Hi. apply H. lia.
Qed.
Lemma vs_const c : vsum (fun _ => c) = INR n * c.
Proof.
  unfold vsum. generalize 0%nat. induction n as [|m IH]; intros b; cbn [seq map fold_right]; [cbn; ring|].
  rewrite IH, S_INR. ring.
Qed.
Lemma vs_le f g : (forall i, (i < n)%nat -> f i <= g i) -> vsum f <= vsum g.
Proof.
  intros H. assert (P := vs_nonneg (fun i => g i - f i) ltac:(intros i Hi; specialize (H i Hi); lra)).
  rewrite (vs_ext _ (fun i => g i + (-1) * f i)) in P by (intros; ring). rewrite vs_add, vs_scal in P. lra.
Qed.
Lemma vs_single f k : (k < n)%nat -> (forall i, (i < n)%nat -> i <> k -> f i = 0) -> vsum f = f k.
Proof.
  intros Hk H. unfold vsum.
  assert (G : forall l, NoDup l -> In k l -> (forall i, In i l -> i <> k -> f i = 0) -> fold_right Rplus 0 (map f l) = f k).
  { induction l as [|a l IH]; intros ND HI HZ; [destruct HI|]. cbn. inversion ND; subst. destruct HI as [->|HI].
    - replace (fold_right Rplus 0 (map f l)) with 0; [ring|]. symmetry.
      assert (Z : forall l, (forall i, In i l -> f i = 0) -> fold_right Rplus 0 (map f l) = 0).
      { induction l0 as [|c l0 IH0]; intros HH; cbn; auto. rewrite (HH c (or_introl eq_refl)), IH0; [ring|]. intros; apply HH; right; auto. }
      apply Z. intros i Hi. apply HZ; [right; auto|]. intros ->. contradiction.
    - rewrite (HZ a (or_introl eq_refl)) by (intros ->; contradiction). rewrite IH; auto; [ring|]. intros i Hi. apply HZ. right. auto. }
  apply G; [apply seq_NoDup|apply in_seq; lia|]. intros i Hi. apply in_seq in Hi. apply H. lia.
Qed.
End Sums.
Lemma vs_swap n m (f : nat -> nat -> R) : vsum n (fun i => vsum m (fun j => f i j)) = vsum m (fun j => vsum n (fun i => f i j)).
Proof.
  assert (G : forall l, fold_right Rplus 0 (map (fun i => vsum m (fun j => f i j)) l) =
                        vsum m (fun j => fold_right Rplus 0 (map (fun i => f i j) l))).
  { induction l as [|a l IH]; cbn [map fold_right]; [symmetry; apply vs_zero; auto|].
    rewrite IH, <- vs_add. reflexivity. }
  apply G.
Qed.

Section Dot.
Variable n : nat.
Notation dot := (dotp n).
Lemma dot_ext u u' v v' : (forall i, (i < n)%nat -> u i = u' i) -> (forall i, (i < n)%nat -> v i = v' i) -> dot u v = dot u' v'.
Proof. intros H H'. apply vs_ext. intros i Hi. rewrite H, H' by auto. auto. Qed.
Lemma dot_comm u v : dot u v = dot v u.
Proof. apply vs_ext. intros. ring. Qed.
Lemma dot_lin a b u v w : dot (fun i => a * u i + b * v i) w = a * dot u w + b * dot v w.
Proof. unfold dotp. rewrite <- !vs_scal, <- vs_add. apply vs_ext. intros. ring. Qed.
Lemma dot_lin_r a b u v w : dot w (fun i => a * u i + b * v i) = a * dot w u + b * dot w v.
Proof. rewrite dot_comm, dot_lin, (dot_comm u), (dot_comm v). auto. Qed.
Lemma dot_zero u v : (forall i, (i < n)%nat -> u i = 0) -> dot u v = 0.
Proof. intros H. apply vs_zero. intros i Hi. rewrite H by auto. ring. Qed.
Lemma dot_pos u : (exists i, (i < n)%nat /\ u i <> 0) -> 0 < dot u u.
Proof.
  intros (i & Hi & N). eapply Rlt_le_trans; [|apply (vs_term n (fun i => u i * u i) i)]; auto.
  - apply Rsqr_pos_lt in N. exact N. - intros j _. apply Rle_0_sqr.
Qed.
Lemma dot_nonneg u : 0 <= dot u u.
Proof. apply vs_nonneg. intros i _. apply Rle_0_sqr. Qed.
Variable A : nat -> nat -> R.
Hypothesis Asym : forall i j, (i < n)%nat -> (j < n)%nat -> A i j = A j i.
Lemma apply_lin a b u v i : apply n A (fun i => a * u i + b * v i) i = a * apply n A u i + b * apply n A v i.
Proof. unfold apply. rewrite <- !vs_scal, <- vs_add. apply vs_ext. intros. ring. Qed.
Lemma apply_ext u v : (forall i, (i < n)%nat -> u i = v i) -> forall i, apply n A u i = apply n A v i.
Proof. intros H i. apply vs_ext. intros j Hj. rewrite H by auto. auto. Qed.
Lemma apply_sym u v : dot u (apply n A v) = dot v (apply n A u).
Proof.
  unfold dotp, apply.
  rewrite (vs_ext n _ (fun i => vsum n (fun j => u i * A i j * v j))).
  2:{ intros i _. rewrite <- vs_scal. apply vs_ext. intros. ring. }
  rewrite vs_swap. apply vs_ext. intros j Hj. rewrite <- vs_scal. apply vs_ext. intros i Hi. rewrite Asym by auto. ring.
Qed.
End Dot.

(** At most n nonzero vectors of R^n are mutually orthogonal in a weighted product. *)
Lemma orthogonal_count n (w : nat -> R) (r : nat -> nvec) m :
  (forall i, (i < n)%nat -> 0 < w i) ->
  (forall j, (j < m)%nat -> 0 < dotp n (r j) (fun i => w i * r j i)) ->
  (forall i j, (i < m)%nat -> (j < m)%nat -> i <> j -> dotp n (r i) (fun l => w l * r j l) = 0) -> (m <= n)%nat.
Proof.
  intros HW HP HO.
  set (rho := fun j => dotp n (r j) (fun i => w i * r j i)).
  assert (HP' : forall j, (j < m)%nat -> 0 < rho j) by exact HP.
  (* Bessel's inequality for each unit vector *)
  assert (B : forall i, (i < n)%nat -> vsum m (fun j => w i * (r j i * r j i) / rho j) <= 1).
  { intros i Hi. set (S := vsum m (fun j => w i * (r j i * r j i) / rho j)).
    pose (c := fun j => w i * r j i / rho j).
    (* e_i - sum_j c_j r_j has nonnegative weighted square *)
    pose (d := fun l => (if Nat.eqb l i then 1 else 0) - vsum m (fun j => c j * r j l)).
    assert (P : 0 <= dotp n d (fun l => w l * d l)).
    { apply vs_nonneg. intros l Hl. specialize (HW l Hl). pose proof (Rle_0_sqr (d l)) as Q. unfold Rsqr in Q.
      replace (d l * (w l * d l)) with (w l * (d l * d l)) by ring. apply Rmult_le_pos; lra. }
    assert (E : dotp n d (fun l => w l * d l) = w i - w i * S).
    { unfold dotp.
      rewrite (vs_ext n _ (fun l => (if Nat.eqb l i then w l * (1 - 2 * vsum m (fun j => c j * r j l)) else 0)
                                   + w l * (vsum m (fun j => c j * r j l) * vsum m (fun j => c j * r j l)))).
      2:{ intros l _. unfold d. destruct (Nat.eqb l i); ring. }
      rewrite vs_add. rewrite (vs_single n _ i Hi).
      2:{ intros l _ NE. apply Nat.eqb_neq in NE. rewrite NE. auto. }
      rewrite Nat.eqb_refl.
      assert (E1 : vsum m (fun j => c j * r j i) = S).
      { apply vs_ext. intros j _. unfold c, Rdiv. ring. }
      rewrite E1.
      assert (E2 : vsum n (fun l => w l * (vsum m (fun j => c j * r j l) * vsum m (fun j => c j * r j l))) = w i * S).
      { rewrite (vs_ext n _ (fun l => vsum m (fun j => vsum m (fun k => c j * c k * (r j l * (w l * r k l)))))).
        2:{ intros l _. symmetry.
            rewrite (vs_ext m _ (fun j => (w l * vsum m (fun k => c k * r k l)) * (c j * r j l))).
            - rewrite vs_scal. ring.
            - intros j _. rewrite (vs_ext m _ (fun k => (c j * r j l * w l) * (c k * r k l))) by (intros; ring).
              rewrite vs_scal. ring. }
        rewrite vs_swap.
        rewrite (vs_ext m _ (fun j => c j * c j * rho j)).
        - unfold S. rewrite <- vs_scal. apply vs_ext. intros j Hj. unfold c. specialize (HP' j Hj). field. lra.
        - intros j Hj. rewrite vs_swap. rewrite (vs_single m _ j Hj).
          + rewrite vs_scal. reflexivity.
          + intros k Hk NE. rewrite vs_scal. replace (vsum n (fun l => r j l * (w l * r k l))) with 0; [ring|].
            symmetry. apply (HO j k); auto. }
      rewrite E2. ring. }
    rewrite E in P. specialize (HW i Hi).
    apply Rmult_le_reg_l with (w i); auto. lra. }
  assert (T : vsum n (fun i => vsum m (fun j => w i * (r j i * r j i) / rho j)) <= INR n).
  { rewrite <- (Rmult_1_r (INR n)), <- vs_const. apply vs_le. auto. }
  rewrite vs_swap in T. rewrite (vs_ext m _ (fun _ => 1)) in T.
  - rewrite vs_const, Rmult_1_r in T. apply INR_le. auto.
  - intros j Hj. rewrite (vs_ext n _ (fun i => / rho j * (r j i * (w i * r j i)))).
    2:{ intros. unfold Rdiv. ring. }
    rewrite vs_scal. fold (dotp n (r j) (fun i => w i * r j i)). fold (rho j). specialize (HP' j Hj). field. lra.
Qed.

Section CG.
Variable n : nat.
Variable A : nat -> nat -> R.
Variable M : nat -> R.
Variable b : nvec.
Variable x0 : nvec.
Hypothesis Asym : forall i j, (i < n)%nat -> (j < n)%nat -> A i j = A j i.
Hypothesis Apos : forall u, (exists i, (i < n)%nat /\ u i <> 0) -> 0 < dotp n u (apply n A u).
Hypothesis Mpos : forall i, (i < n)%nat -> 0 < M i.

Notation dot := (dotp n).
Notation body := (cg_body n A M).
(** State after k passes, and the quantities of pass k. *)
Definition stt (k : nat) : cg := Nat.iter k body (cg_init n A b x0).
Definition xs k := c_x (stt k).
Definition rs k := c_r (stt k).
Definition zs k : nvec := fun i => rs k i / M i.
Definition ps k := c_p (stt (S k)).
Definition rho k := dot (rs k) (zs k).
Definition pq k := dot (ps k) (apply n A (ps k)).
Definition alpha k := rho k / pq k.

Lemma stt_S k : stt (S k) = body (stt k).
Proof. reflexivity. Qed.
Lemma iter_k k : c_iter (stt k) = k.
Proof. induction k as [|k IH]; auto. rewrite stt_S. cbn [cg_body c_iter]. rewrite IH. auto. Qed.
Lemma ps_0 i : ps 0 i = zs 0 i.
Proof. reflexivity. Qed.
Lemma ps_S k i : ps (S k) i = zs (S k) i + rho (S k) / rho k * ps k i.
Proof.
  unfold ps at 1. rewrite stt_S. cbn [cg_body c_p]. rewrite iter_k. cbn [Nat.eqb].
  assert (E : c_rho (stt (S k)) = rho k) by (rewrite stt_S; reflexivity). rewrite E.
  change (dotp n (c_r (stt (S k))) (fun i => c_r (stt (S k)) i / M i)) with (rho (S k)).
  change (c_p (stt (S k)) i) with (ps k i). change (c_r (stt (S k)) i / M i) with (zs (S k) i). ring.
Qed.
Lemma xs_S k i : xs (S k) i = xs k i + alpha k * ps k i.
Proof.
  unfold xs at 1, ps, alpha, pq, ps. rewrite stt_S. cbn [cg_body c_x c_p].
  change (dotp n (c_r (stt k)) (fun i => c_r (stt k) i / M i)) with (rho k). unfold xs. ring.
Qed.
Lemma rs_S k i : rs (S k) i = rs k i - alpha k * apply n A (ps k) i.
Proof.
  unfold rs at 1, ps, alpha, pq, ps. rewrite stt_S. cbn [cg_body c_r c_p].
  change (dotp n (c_r (stt k)) (fun i => c_r (stt k) i / M i)) with (rho k). unfold rs. ring.
Qed.

(** The residual vector is the residual of the iterate. *)
Theorem C32_residual k i : rs k i = b i - apply n A (xs k) i.
Proof.
  induction k as [|k IH]; [reflexivity|]. rewrite rs_S, IH.
  rewrite (apply_ext n A (xs (S k)) (fun i => 1 * xs k i + alpha k * ps k i)) by (intros; rewrite xs_S; ring).
  rewrite apply_lin. ring.
Qed.

Lemma zs_sym i j : dot (rs i) (zs j) = dot (zs i) (rs j).
Proof. apply vs_ext. intros l Hl. unfold zs. specialize (Mpos l Hl). field. lra. Qed.

Definition nonzero (u : nvec) : Prop := exists i, (i < n)%nat /\ u i <> 0.

Lemma rho_pos k : nonzero (rs k) -> 0 < rho k.
Proof.
  intros (i & Hi & N). unfold rho, zs, dotp.
  assert (Q : forall l, (l < n)%nat -> 0 <= rs k l * (rs k l / M l)).
  { intros l Hl. specialize (Mpos l Hl). unfold Rdiv. rewrite <- Rmult_assoc. apply Rmult_le_pos; [apply Rle_0_sqr|].
    left. apply Rinv_0_lt_compat. auto. }
  eapply Rlt_le_trans; [|apply (vs_term n _ i Q Hi)]. unfold Rdiv. rewrite <- Rmult_assoc.
  apply Rmult_lt_0_compat; [apply Rsqr_pos_lt in N; exact N|]. apply Rinv_0_lt_compat. auto.
Qed.
Lemma dot_nonzero u v : dot u v <> 0 -> nonzero u.
Proof.
  intros H. unfold nonzero. destruct (Classical_Prop.classic (exists i, (i < n)%nat /\ u i <> 0)) as [E|N]; auto.
  exfalso. apply H. apply dot_zero. intros i Hi. destruct (Req_EM_T (u i) 0); auto. exfalso. apply N. eauto.
Qed.

(** The invariant up to pass k, as long as no earlier residual vanishes. *)
Lemma invariant k : (forall j, (j < k)%nat -> nonzero (rs j)) ->
  (forall i j, (i < j)%nat -> (j <= k)%nat -> dot (zs i) (rs j) = 0) /\
  (forall i j, (i < j)%nat -> (j <= k)%nat -> dot (ps i) (rs j) = 0) /\
  (forall i j, (i < j)%nat -> (j <= k)%nat -> dot (ps i) (apply n A (ps j)) = 0) /\
  (forall j, (j <= k)%nat -> dot (ps j) (rs j) = rho j).
Proof.
  induction k as [|k IH]; intros HN.
  - split; [intros; lia|]. split; [intros; lia|]. split; [intros; lia|].
    intros j Hj. replace j with 0%nat by lia. unfold rho. rewrite zs_sym. reflexivity.
  - destruct IH as (I1 & I2 & I3 & I4); [intros; apply HN; lia|].
    assert (RP : forall j, (j <= k)%nat -> 0 < rho j) by (intros; apply rho_pos, HN; lia).
    assert (PQ : forall j, (j <= k)%nat -> 0 < pq j).
    { intros j Hj. apply Apos. change (nonzero (ps j)). apply (dot_nonzero _ (rs j)). rewrite I4 by auto. specialize (RP j Hj). lra. }
    assert (D : forall u, dot u (rs (S k)) = dot u (rs k) - alpha k * dot u (apply n A (ps k))).
    { intros u. rewrite (dot_ext n u u (rs (S k)) (fun i => 1 * rs k i + (- alpha k) * apply n A (ps k) i)) by (auto; intros; rewrite rs_S; ring).
      rewrite dot_lin_r. ring. }
    assert (J2 : forall i, (i < S k)%nat -> dot (ps i) (rs (S k)) = 0).
    { intros i Hi. rewrite D. destruct (Nat.eq_dec i k) as [->|NE].
      - rewrite I4 by auto. unfold alpha. fold (pq k). specialize (PQ k (le_n _)). field. lra.
      - rewrite I2, I3 by lia. ring. }
    assert (J1 : forall i, (i < S k)%nat -> dot (zs i) (rs (S k)) = 0).
    { intros [|i] Hi.
      - rewrite (dot_ext n (zs 0) (ps 0) _ (rs (S k))) by (auto; intros; rewrite ps_0; auto). apply J2. lia.
      - rewrite (dot_ext n (zs (S i)) (fun l => 1 * ps (S i) l + (- (rho (S i) / rho i)) * ps i l) _ (rs (S k)))
          by (auto; intros; rewrite ps_S; ring).
        rewrite dot_lin, !J2 by lia. ring. }
    assert (J4 : dot (ps (S k)) (rs (S k)) = rho (S k)).
    { rewrite (dot_ext n (ps (S k)) (fun l => 1 * zs (S k) l + rho (S k) / rho k * ps k l) _ (rs (S k))) by (auto; intros; rewrite ps_S; ring).
      rewrite dot_lin, J2 by lia.
      assert (E : dot (zs (S k)) (rs (S k)) = rho (S k)) by (symmetry; apply zs_sym). rewrite E. ring. }
    (* alpha_i A p_i = r_i - r_(i+1) *)
    assert (AP : forall i, (i <= k)%nat -> alpha i * dot (apply n A (ps i)) (zs (S k)) = dot (rs i) (zs (S k)) - dot (rs (S i)) (zs (S k))).
    { intros i Hi. rewrite (dot_ext n (rs (S i)) (fun l => 1 * rs i l + (- alpha i) * apply n A (ps i) l) _ (zs (S k))) by (auto; intros; rewrite rs_S; ring).
      rewrite dot_lin. ring. }
    assert (J3 : forall i, (i < S k)%nat -> dot (ps i) (apply n A (ps (S k))) = 0).
    { intros i Hi. rewrite apply_sym by auto.
      rewrite (dot_ext n (ps (S k)) (fun l => 1 * zs (S k) l + rho (S k) / rho k * ps k l) _ (apply n A (ps i))) by (auto; intros; rewrite ps_S; ring).
      rewrite dot_lin. rewrite (dot_comm n (zs (S k))).
      assert (AI : alpha i <> 0).
      { unfold alpha. specialize (RP i ltac:(lia)). specialize (PQ i ltac:(lia)). intros E. apply Rmult_integral in E.
        destruct E as [E|E]; [lra|]. apply Rinv_neq_0_compat in E; lra. }
      pose proof (AP i ltac:(lia)) as Q. rewrite (zs_sym i), (J1 i Hi) in Q.
      destruct (Nat.eq_dec i k) as [->|NE].
      - fold (rho (S k)) in Q. fold (pq k).
        assert (E : dot (apply n A (ps k)) (zs (S k)) = - rho (S k) / alpha k).
        { apply Rmult_eq_reg_l with (alpha k); auto. rewrite Q. field. auto. }
        rewrite E. unfold alpha. specialize (RP k (le_n _)). specialize (PQ k (le_n _)). field. lra.
      - rewrite zs_sym, (J1 (S i)) in Q by lia.
        assert (E : dot (apply n A (ps i)) (zs (S k)) = 0) by (apply Rmult_eq_reg_l with (alpha i); auto; rewrite Q; ring).
        rewrite E. rewrite (apply_sym n A Asym), I3 by lia. ring. }
    split; [|split; [|split]].
    + intros i j Hi Hj. destruct (Nat.eq_dec j (S k)) as [->|]; [apply J1; auto|apply I1; lia].
    + intros i j Hi Hj. destruct (Nat.eq_dec j (S k)) as [->|]; [apply J2; auto|apply I2; lia].
    + intros i j Hi Hj. destruct (Nat.eq_dec j (S k)) as [->|]; [apply J3; auto|apply I3; lia].
    + intros j Hj. destruct (Nat.eq_dec j (S k)) as [->|]; [apply J4; auto|apply I4; lia].
Qed.

(** Residuals are orthogonal in the preconditioner's product, directions are conjugate,
    and no pass divides by zero, as long as the residuals before it do not vanish. *)
Theorem C32_orthogonal k : (forall j, (j <= k)%nat -> nonzero (rs j)) ->
  (forall i j, (i <= k)%nat -> (j <= k)%nat -> i <> j -> vsum n (fun l => rs i l * rs j l / M l) = 0) /\
  (forall i j, (i <= k)%nat -> (j <= k)%nat -> i <> j -> dot (ps i) (apply n A (ps j)) = 0) /\
  (forall j, (j <= k)%nat -> 0 < rho j /\ 0 < pq j).
Proof.
  intros HN. destruct (invariant k) as (I1 & I2 & I3 & I4); [intros; apply HN; lia|].
  assert (Z : forall i j, vsum n (fun l => rs i l * rs j l / M l) = dot (zs i) (rs j)).
  { intros. apply vs_ext. intros. unfold zs, Rdiv. ring. }
  split; [|split].
  - intros i j Hi Hj NE. rewrite Z. destruct (Nat.lt_ge_cases i j); [apply I1; lia|].
    rewrite dot_comm, zs_sym. apply I1; lia.
  - intros i j Hi Hj NE. destruct (Nat.lt_ge_cases i j); [apply I3; lia|]. rewrite apply_sym by auto. apply I3; lia.
  - intros j Hj. assert (R : 0 < rho j) by (apply rho_pos, HN; auto). split; auto.
    apply Apos. change (nonzero (ps j)). apply (dot_nonzero _ (rs j)). rewrite I4 by auto. lra.
Qed.

(** The energy of the error drops by rho^2/(p.Ap) in each pass. *)
Definition energy (sol x : nvec) : R := dot (fun i => sol i - x i) (apply n A (fun i => sol i - x i)).
Theorem C32_energy k sol : (forall j, (j <= k)%nat -> nonzero (rs j)) ->
  (forall i, (i < n)%nat -> apply n A sol i = b i) ->
  energy sol (xs (S k)) = energy sol (xs k) - rho k * rho k / pq k /\ energy sol (xs (S k)) < energy sol (xs k).
Proof.
  intros HN HS. destruct (C32_orthogonal k HN) as (_ & _ & P). destruct (P k (le_n _)) as [PR PP].
  destruct (invariant k) as (_ & _ & _ & I4); [intros; apply HN; lia|]. specialize (I4 k (le_n _)).
  assert (E : energy sol (xs (S k)) = energy sol (xs k) - rho k * rho k / pq k).
  { unfold energy. set (e := fun i => sol i - xs k i).
    assert (AE : forall i, (i < n)%nat -> apply n A e i = rs k i).
    { intros i Hi. unfold e. rewrite (apply_ext n A _ (fun i => 1 * sol i + (-1) * xs k i)) by (intros; ring).
      rewrite apply_lin, HS by auto. rewrite C32_residual. ring. }
    assert (E1 : forall i, (i < n)%nat -> sol i - xs (S k) i = 1 * e i + (- alpha k) * ps k i) by (intros; unfold e; rewrite xs_S; ring).
    rewrite (dot_ext n _ (fun i => 1 * e i + (- alpha k) * ps k i) _ (fun i => 1 * apply n A e i + (- alpha k) * apply n A (ps k) i)) by
      (auto; intros i Hi; rewrite (apply_ext n A _ (fun i => 1 * e i + (- alpha k) * ps k i)) by auto; apply apply_lin).
    rewrite dot_lin, !dot_lin_r. fold (pq k).
    assert (D1 : dot (ps k) (apply n A e) = rho k) by (rewrite <- I4; apply dot_ext; auto).
    rewrite (apply_sym n A Asym e (ps k)), D1. unfold alpha. field. lra. }
  split; auto. rewrite E. assert (0 < rho k * rho k / pq k) by (apply Rdiv_lt_0_compat; [apply Rmult_lt_0_compat|]; auto). lra.
Qed.

(** Each iterate is optimal among the starting vector plus combinations of the directions
    used so far. *)
Theorem C32_optimal k sol (c : nat -> R) : (forall j, (j < k)%nat -> nonzero (rs j)) ->
  (forall i, (i < n)%nat -> apply n A sol i = b i) ->
  energy sol (xs k) <= energy sol (fun i => x0 i + vsum k (fun j => c j * ps j i)).
Proof.
  intros HN HS. destruct (invariant k HN) as (_ & I2 & _ & _).
  (* x_k = x_0 + sum alpha_j p_j *)
  assert (XK : forall i, xs k i = x0 i + vsum k (fun j => alpha j * ps j i)).
  { intros i. clear. induction k as [|k IH]; [unfold vsum; cbn; unfold xs; cbn; ring|]. rewrite xs_S, IH.
    unfold vsum. rewrite seq_S, map_app, fold_right_app. cbn.
    assert (G : forall l a, fold_right Rplus a l = fold_right Rplus 0 l + a) by (induction l as [|x l IHl]; intros a; cbn; [ring|rewrite IHl; ring]).
    rewrite (G _ (_ + 0)). ring. }
  set (d := fun i => vsum k (fun j => (alpha j - c j) * ps j i)).
  assert (E1 : forall i, (i < n)%nat -> sol i - (x0 i + vsum k (fun j => c j * ps j i)) = 1 * (sol i - xs k i) + 1 * d i).
  { intros i _. rewrite XK. unfold d. rewrite (vs_ext k (fun j => (alpha j - c j) * ps j i) (fun j => alpha j * ps j i + (-1) * (c j * ps j i))) by (intros; ring).
    rewrite vs_add, vs_scal. ring. }
  unfold energy. set (e := fun i => sol i - xs k i) in *.
  rewrite (dot_ext n (fun i => sol i - (x0 i + _)) (fun i => 1 * e i + 1 * d i) _ (fun i => 1 * apply n A e i + 1 * apply n A d i)).
  3:{ intros i Hi. rewrite (apply_ext n A _ (fun i => 1 * e i + 1 * d i)) by auto. apply apply_lin. }
  2:{ exact E1. }
  rewrite dot_lin, !dot_lin_r. rewrite (apply_sym n A Asym e d).
  assert (DE : dot d (apply n A e) = 0).
  { rewrite (dot_ext n d d _ (rs k)) by (auto; intros i Hi; unfold e; rewrite (apply_ext n A _ (fun i => 1 * sol i + (-1) * xs k i)) by (intros; ring);
      rewrite apply_lin, HS by auto; rewrite C32_residual; ring).
    unfold dotp, d. rewrite (vs_ext n _ (fun i => vsum k (fun j => (alpha j - c j) * (ps j i * rs k i)))).
    2:{ intros i _. rewrite Rmult_comm, <- vs_scal. apply vs_ext. intros. ring. }
    rewrite vs_swap. apply vs_zero. intros j Hj. rewrite vs_scal.
    change (vsum n (fun i => ps j i * rs k i)) with (dot (ps j) (rs k)). rewrite I2 by auto. ring. }
  rewrite DE.
  assert (0 <= dot d (apply n A d)).
  { destruct (Classical_Prop.classic (nonzero d)) as [ND|NN]; [left; apply Apos; auto|].
    right. symmetry. apply dot_zero. intros i Hi. destruct (Req_EM_T (d i) 0); auto. exfalso. apply NN. exists i. auto. }
  lra.
Qed.

(** Some residual among the first n+1 vanishes. *)
Theorem C32_finite : exists k, (k <= n)%nat /\ (forall j, (j < k)%nat -> nonzero (rs j)) /\ forall i, (i < n)%nat -> rs k i = 0.
Proof.
  assert (G : forall m, (forall j, (j < m)%nat -> nonzero (rs j)) \/
     exists k, (k < m)%nat /\ (forall j, (j < k)%nat -> nonzero (rs j)) /\ forall i, (i < n)%nat -> rs k i = 0).
  { induction m as [|m [IH|(k & K1 & K2)]]; [left; intros; lia| |right; exists k; split; [lia|auto]].
    destruct (Classical_Prop.classic (nonzero (rs m))) as [E|N].
    - left. intros j Hj. destruct (Nat.eq_dec j m) as [->|]; auto. apply IH. lia.
    - right. exists m. split; [lia|]. split; auto. intros i Hi. destruct (Req_EM_T (rs m i) 0); auto. exfalso. apply N. exists i. auto. }
  destruct (G (S n)) as [H|(k & K1 & K2)]; [|exists k; split; [lia|auto]].
  exfalso. destruct (C32_orthogonal n) as (O1 & _ & O3); [intros; apply H; lia|].
  assert (X : (S n <= n)%nat); [|lia].
  apply (orthogonal_count n (fun i => / M i) rs (S n)).
  - intros i Hi. apply Rinv_0_lt_compat. auto.
  - intros j Hj. destruct (O3 j ltac:(lia)) as [P _]. unfold rho in P.
    rewrite (dot_ext n _ (rs j) _ (zs j)); auto. intros. unfold zs, Rdiv. ring.
  - intros i j Hi Hj NE. rewrite <- (O1 i j) by (auto; lia). apply vs_ext. intros. unfold Rdiv. ring.
Qed.

(** *** The function *)
Lemma norm2_zero u : norm2 n u = 0 <-> ~ nonzero u.
Proof.
  unfold norm2. split.
  - intros H N. apply dot_pos in N. apply sqrt_lt_R0 in N. lra.
  - intros H. rewrite (dot_zero n u u); [apply sqrt_0|]. intros i Hi. destruct (Req_EM_T (u i) 0); auto. exfalso. apply H. exists i. auto.
Qed.

(** The loop performs the first passes whose stopping test is false. *)
Lemma loop_steps r0 tol m k : exists j, (k <= j <= k + m)%nat /\ cg_loop n A M r0 tol m (stt k) = stt j /\
  (j = (k + m)%nat \/ q_gt (quotient (norm2 n (rs j)) r0) tol = false) /\
  forall i, (k <= i < j)%nat -> q_gt (quotient (norm2 n (rs i)) r0) tol = true.
Proof.
  revert k. induction m as [|m IH]; intros k; cbn [cg_loop].
  - exists k. split; [lia|]. split; auto. split; [left; lia|intros; lia].
  - fold (rs k). destruct (q_gt (quotient (norm2 n (rs k)) r0) tol) eqn:E.
    + rewrite <- stt_S. destruct (IH (S k)) as (j & J1 & J2 & J3 & J4). exists j. split; [lia|]. split; auto. split.
      * destruct J3; [left; lia|auto].
      * intros i Hi. destruct (Nat.eq_dec i k) as [->|]; auto. apply J4. lia.
    + exists k. split; [lia|]. split; auto. split; auto. intros; lia.
Qed.

Lemma test_false_zero r0 tol u : 0 <= tol -> ~ nonzero u -> q_gt (quotient (norm2 n u) r0) tol = false.
Proof.
  intros HT NZ. apply norm2_zero in NZ. rewrite NZ. unfold quotient. destruct (Req_EM_T r0 0).
  - destruct (Req_EM_T 0 0); [reflexivity|contradiction].
  - cbn. replace (0 / r0) with 0 by (unfold Rdiv; ring). destruct (Rlt_dec tol 0); [lra|auto].
Qed.

(** Result: never more than n passes; at the end either the limit was hit or the residual
    of the returned vector is at most tol times the first residual; every pass taken was
    free of division by zero; with tol = 0 and limit at least n the system is solved. *)
Theorem C32_result tol maxiter : 0 <= tol ->
  let s := pcg n A M b tol maxiter x0 in
  let res x := fun i => b i - apply n A x i in
  exists k, (k <= n)%nat /\ (k <= Z.to_nat maxiter)%nat /\ s = stt k /\ c_iter s = k /\
    (forall j, (j < k)%nat -> 0 < rho j /\ 0 < pq j) /\
    (k = Z.to_nat maxiter \/ norm2 n (res (c_x s)) <= tol * norm2 n (res x0)) /\
    (tol = 0 -> (n <= Z.to_nat maxiter)%nat -> forall i, (i < n)%nat -> apply n A (c_x s) i = b i).
Proof.
  intros HT s res. unfold s, pcg. change (cg_init n A b x0) with (stt 0). fold (rs 0).
  destruct (loop_steps (norm2 n (rs 0)) tol (Z.to_nat maxiter) 0) as (k & K1 & K2 & K3 & K4).
  rewrite K2. destruct C32_finite as (f & F1 & F2 & F3).
  assert (NF : ~ nonzero (rs f)) by (intros (i & Hi & N); apply N; apply F3; auto).
  assert (KF : (k <= f)%nat).
  { destruct (Nat.le_gt_cases k f); auto. exfalso. specialize (K4 f ltac:(lia)).
    rewrite test_false_zero in K4 by auto. discriminate. }
  exists k. split; [lia|]. split; [lia|]. split; auto. split; [apply iter_k|].
  assert (NR : norm2 n (res x0) = norm2 n (rs 0)) by reflexivity.
  assert (RK : forall j, norm2 n (res (xs j)) = norm2 n (rs j)).
  { intros j. unfold norm2. f_equal. apply dot_ext; intros i Hi; unfold res; rewrite C32_residual; auto. }
  assert (BND : k = Z.to_nat maxiter \/ norm2 n (res (xs k)) <= tol * norm2 n (res x0)).
  { destruct K3 as [K3|K3]; [left; lia|]. right. rewrite RK, NR.
    unfold quotient in K3. destruct (Req_EM_T (norm2 n (rs 0)) 0) as [E|NE].
    - destruct (Req_EM_T (norm2 n (rs k)) 0) as [E'|NE']; [|discriminate]. rewrite E, E'. lra.
    - cbn [q_gt] in K3. destruct (Rlt_dec tol (norm2 n (rs k) / norm2 n (rs 0))) as [|NL]; [discriminate|].
      apply Rnot_lt_le in NL. assert (P : 0 < norm2 n (rs 0)) by (destruct (sqrt_pos (dotp n (rs 0) (rs 0))) as [P|P]; [exact P|unfold norm2 in NE; lra]).
      apply Rmult_le_compat_r with (r := norm2 n (rs 0)) in NL; [|lra]. unfold Rdiv in NL. rewrite Rmult_assoc, Rinv_l, Rmult_1_r in NL by auto. auto. }
  split; [|split; [exact BND|]].
  - intros j Hj. destruct (C32_orthogonal j) as (_ & _ & P); [intros; apply F2; lia|]. apply P. auto.
  - intros -> HM i Hi.
    assert (Z : ~ nonzero (rs k)).
    { destruct BND as [E|E].
      - assert (k = f) by lia. subst f. auto.
      - rewrite RK, Rmult_0_l in E. apply norm2_zero. pose proof (sqrt_pos (dotp n (rs k) (rs k))) as P. unfold norm2 in *. lra. }
    assert (R0 : rs k i = 0) by (destruct (Req_EM_T (rs k i) 0); auto; exfalso; apply Z; exists i; auto).
    rewrite C32_residual in R0. fold (xs k). lra.
Qed.
End CG.
Print Assumptions C32_residual.
Print Assumptions C32_orthogonal.
Print Assumptions C32_energy.
Print Assumptions C32_optimal.
Print Assumptions C32_finite.
Print Assumptions C32_result.

(** Symmetric positive definite matrix and preconditioner. *)
Example C32_hypotheses_met : exists A M,
  (forall i j, (i < 2)%nat -> (j < 2)%nat -> A i j = A j i) /\ A 0%nat 1%nat <> 0 /\
  (forall u, (exists i, (i < 2)%nat /\ u i <> 0) -> 0 < dotp 2 u (apply 2 A u)) /\
  (forall i, (i < 2)%nat -> 0 < M i).
Proof.
  exists (fun i j => if Nat.eqb i j then 2 else 1), (fun _ => 2). split; [intros i j _ _; rewrite Nat.eqb_sym; auto|].
  split; [cbn; lra|]. split; [|intros; lra].
  intros u (i & Hi & N). unfold dotp, apply, vsum. cbn [seq map fold_right Nat.eqb].
  pose proof (Rle_0_sqr (u 0%nat + u 1%nat)) as S. unfold Rsqr in S.
  pose proof (Rle_0_sqr (u 0%nat)) as S0. pose proof (Rle_0_sqr (u 1%nat)) as S1. unfold Rsqr in *.
  destruct i as [|[|i]]; [| |lia]; apply Rsqr_pos_lt in N; unfold Rsqr in N; lra.
Qed.
