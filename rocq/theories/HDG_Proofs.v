(** Linear algebra for HDG_Props. *)
From Coq Require Import Bool Arith Lia Reals Lra List String.
From Coquelicot Require Import Coquelicot.
From Verif Require Import Sparse_Model Sparse_Props Mass_Model BProj_Model BProj_Proofs Phys_Model Phys_Spec HDG_Spec.
Import ListNotations.
Local Open Scope R_scope.

Lemma dot_ext n l l' x x' : (forall i, (i < n)%nat -> l i = l' i) -> (forall i, (i < n)%nat -> x i = x' i) ->
  dot n l x = dot n l' x'.
Proof. intros A B. apply sm_ext. intros i I. apply in_seq in I. rewrite A, B by lia. reflexivity. Qed.
Lemma dot_delta_r n l j : (j < n)%nat -> dot n l (fun k => delta k j) = l j.
Proof.
  intros J. unfold dot. rewrite (sm_ext _ _ (fun k => if (k =? j)%nat then l k else 0)).
  - apply (sm_single _ j l J).
  - intros k _. unfold delta. destruct (Nat.eqb k j); ring.
Qed.
Lemma dot_delta_l n x i : (i < n)%nat -> dot n (delta i) x = x i.
Proof.
  intros I. unfold dot. rewrite (sm_ext _ _ (fun k => if (k =? i)%nat then x k else 0)).
  - apply (sm_single _ i x I).
  - intros k _. unfold delta. rewrite (Nat.eqb_sym i k). destruct (Nat.eqb k i); ring.
Qed.
Lemma dot_assoc n l B x : dot n l (mvec n B x) = dot n (fun j => dot n l (fun i => B i j)) x.
Proof.
  unfold dot, mvec, dot. rewrite (sm_ext _ _ (fun i => sm (seq 0 n) (fun j => l i * (B i j * x j)))).
  2:{ intros i _. rewrite sm_scal. reflexivity. }
  rewrite sm_swap. apply sm_ext. intros j _. rewrite <- sm_scal_r. apply sm_ext. intros; ring.
Qed.
Lemma mvec_mmul n A B x i : mvec n A (mvec n B x) i = mvec n (mmul n A B) x i.
Proof. apply dot_assoc. Qed.
Lemma dot_scal n c l x : dot n (fun i => c * l i) x = c * dot n l x.
Proof. unfold dot. rewrite <- sm_scal. apply sm_ext. intros; ring. Qed.
Lemma dot_sub n l x y : dot n l (minus x y) = dot n l x - dot n l y.
Proof. unfold dot, minus. rewrite <- sm_sub. apply sm_ext. intros; ring. Qed.

Section One.
Context (n : nat) (J X Y : nat -> nat -> R) (lam : nat -> R) (E : eigenbasis n J X Y lam).

Lemma XYx x i : (i < n)%nat -> mvec n X (mvec n Y x) i = x i.
Proof.
  intros I. rewrite mvec_mmul. unfold mvec. rewrite (dot_ext n _ (delta i) x x); [apply dot_delta_l, I | | reflexivity].
  intros j Hj. apply (eb_right _ _ _ _ _ E); assumption.
Qed.
Lemma YXx x i : (i < n)%nat -> mvec n Y (mvec n X x) i = x i.
Proof.
  intros I. rewrite mvec_mmul. unfold mvec. rewrite (dot_ext n _ (delta i) x x); [apply dot_delta_l, I | | reflexivity].
  intros j Hj. apply (eb_left _ _ _ _ _ E); assumption.
Qed.
Lemma Jx x i : (i < n)%nat -> mvec n J x i = mvec n X (fun k => lam k * mvec n Y x k) i.
Proof.
  intros I. transitivity (mvec n J (mvec n X (mvec n Y x)) i).
  - apply dot_ext; [reflexivity |]. intros k K. symmetry. apply XYx, K.
  - rewrite mvec_mmul. unfold mvec at 1 3. apply sm_ext. intros k K. apply in_seq in K.
    rewrite (eb_eig _ _ _ _ _ E) by lia. ring.
Qed.
(** row eigenvectors: Y J = lambda Y *)
Lemma YJ k x : (k < n)%nat -> mvec n Y (mvec n J x) k = lam k * mvec n Y x k.
Proof.
  intros K. rewrite <- (YXx (fun k => lam k * mvec n Y x k) k K).
  apply dot_ext; [reflexivity |]. intros i I. apply Jx, I.
Qed.
Definition spread (phi : R -> R) : nat -> nat -> R := fun i j => sm (seq 0 n) (fun k => X i k * phi (lam k) * Y k j).
Lemma spread_fun phi : fun_of n phi J (spread phi).
Proof. exists X, Y, lam. split; [exact E | reflexivity]. Qed.
Lemma spread_vec phi x i : mvec n (spread phi) x i = mvec n X (fun k => phi (lam k) * mvec n Y x k) i.
Proof.
  unfold mvec at 1 2, dot, spread. rewrite (sm_ext _ _ (fun j => sm (seq 0 n) (fun k => (X i k * phi (lam k)) * (Y k j * x j)))).
  2:{ intros j _. rewrite <- sm_scal_r. apply sm_ext. intros; ring. }
  rewrite sm_swap. apply sm_ext. intros k _. rewrite sm_scal. unfold mvec, dot. ring.
Qed.
Lemma eig_is_lam mu : eigenvalue n J mu -> exists k, (k < n)%nat /\ mu = lam k.
Proof.
  intros [x [[i [I NZ]] H]].
  assert (exists k, (k < n)%nat /\ mvec n Y x k <> 0) as [k [K NK]].
  { assert (forall m, (m <= n)%nat -> (exists k, (k < m)%nat /\ mvec n Y x k <> 0) \/ (forall k, (k < m)%nat -> mvec n Y x k = 0)) as D.
    { induction m as [| m IH]; intros M; [right; intros; lia |]. destruct IH as [[k [A B]] | IH]; [lia | left; exists k; split; [lia | exact B] |].
      destruct (Req_dec (mvec n Y x m) 0) as [Z | Z]; [right | left; exists m; split; [lia | exact Z]].
      intros k A. destruct (Nat.eq_dec k m) as [-> |]; [exact Z | apply IH; lia]. }
    destruct (D n (le_n n)) as [D' | D']; [exact D' |]. exfalso. apply NZ. rewrite <- (XYx x i I).
    unfold mvec at 1. apply sm_zero. intros k A. apply in_seq in A. rewrite D' by lia. ring. }
  exists k. split; [exact K |]. assert (lam k * mvec n Y x k = mu * mvec n Y x k) as Q.
  { rewrite <- (YJ k x K). unfold mvec at 1. rewrite (dot_ext n _ (Y k) _ (fun i => mu * x i)); [| reflexivity | exact H].
    unfold mvec, dot. rewrite <- sm_scal. apply sm_ext. intros; ring. }
  apply Rmult_eq_reg_r in Q; [congruence | exact NK].
Qed.
Lemma lam_is_eig k : (k < n)%nat -> eigenvalue n J (lam k).
Proof.
  intros K. exists (fun i => X i k). split.
  - destruct (Req_dec (mmul n Y X k k) 0) as [Z | Z].
    + rewrite (eb_left _ _ _ _ _ E) in Z by exact K. unfold delta in Z. rewrite Nat.eqb_refl in Z. lra.
    + assert (forall m, (exists i, (i < m)%nat /\ X i k <> 0) \/ (forall i, (i < m)%nat -> X i k = 0)) as D.
      { induction m as [| m [[i [A B]] | IH]]; [right; intros; lia | left; exists i; split; [lia | exact B] |].
        destruct (Req_dec (X m k) 0) as [Q | Q]; [right | left; exists m; split; [lia | exact Q]].
        intros i A. destruct (Nat.eq_dec i m) as [-> |]; [exact Q | apply IH; lia]. }
      destruct (D n) as [D' | D']; [exact D' | exfalso; apply Z]. apply sm_zero. intros i A. apply in_seq in A. rewrite D' by lia. ring.
  - intros i I. change (mvec n J (fun i0 : nat => X i0 k) i) with (mmul n J X i k). rewrite (eb_eig _ _ _ _ _ E) by assumption. ring.
Qed.
End One.

(** A function of a matrix does not depend on the eigenvectors chosen. *)
Theorem fun_of_unique n phi J M M' : fun_of n phi J M -> fun_of n phi J M' ->
  forall i j, (i < n)%nat -> (j < n)%nat -> M i j = M' i j.
Proof.
  intros [X [Y [lam [E H]]]] [X' [Y' [lam' [E' H']]]] i j I Hj.
  rewrite H, H' by assumption. change (spread n X Y lam phi i j = spread n X' Y' lam' phi i j).
  rewrite <- (dot_delta_r n (spread n X Y lam phi i) j Hj), <- (dot_delta_r n (spread n X' Y' lam' phi i) j Hj).
  set (x := fun k => delta k j). change (mvec n (spread n X Y lam phi) x i = mvec n (spread n X' Y' lam' phi) x i).
  rewrite !spread_vec.
  (* apply Y' to the left hand side *)
  rewrite <- (XYx n J X' Y' lam' E' (mvec n X (fun k => phi (lam k) * mvec n Y x k)) i I).
  apply dot_ext; [reflexivity |]. intros a A.
  assert (forall b, (b < n)%nat -> phi (lam' a) * mmul n Y' X a b = mmul n Y' X a b * phi (lam b)) as C.
  { intros b B. destruct (Req_dec (mmul n Y' X a b) 0) as [Z | Z]; [rewrite Z; ring |].
    assert (lam' a = lam b) as ->; [| ring].
    pose proof (YJ n J X' Y' lam' E' a (fun k => X k b) A) as Q.
    change (mvec n Y' (fun k => X k b) a) with (mmul n Y' X a b) in Q.
    rewrite <- Rmult_comm in Q. apply (Rmult_eq_reg_l (mmul n Y' X a b)); [| exact Z]. rewrite <- Q.
    unfold mvec at 1. rewrite (dot_ext n _ (Y' a) _ (fun k => X k b * lam b)); [| reflexivity | intros k K; apply (eb_eig _ _ _ _ _ E); assumption].
    unfold mmul, dot. rewrite <- sm_scal_r. apply sm_ext. intros; ring. }
  rewrite mvec_mmul. unfold mvec at 1.
  transitivity (phi (lam' a) * mvec n Y' (mvec n X (mvec n Y x)) a).
  - rewrite mvec_mmul. unfold mvec at 2. unfold dot. rewrite <- sm_scal. apply sm_ext. intros b B. apply in_seq in B.
    rewrite <- (Rmult_assoc _ (mmul n Y' X a b)), C by lia. ring.
  - f_equal. apply dot_ext; [reflexivity |]. intros k K. apply (XYx n J X Y lam E), K.
Qed.

(** Row eigenvectors of J are row eigenvectors of phi(J). *)
Lemma fun_of_row n phi J M l mu x : fun_of n phi J M ->
  (forall y, dot n l (mvec n J y) = mu * dot n l y) -> dot n l (mvec n M x) = phi mu * dot n l x.
Proof.
  intros [X [Y [lam [E H]]]] HL.
  transitivity (dot n l (mvec n (spread n X Y lam phi) x)).
  { apply dot_ext; [reflexivity |]. intros i I. apply dot_ext; [| reflexivity]. intros j Hj. apply H; assumption. }
  rewrite (dot_ext n l l _ (mvec n X (fun k => phi (lam k) * mvec n Y x k)) (fun _ _ => eq_refl)) by (intros; apply spread_vec).
  assert (forall k, (k < n)%nat -> dot n l (fun i => X i k) * phi (lam k) = phi mu * dot n l (fun i => X i k)) as C.
  { intros k K. destruct (Req_dec (dot n l (fun i => X i k)) 0) as [Z | Z]; [rewrite Z; ring |].
    assert (lam k = mu) as ->; [| ring].
    pose proof (HL (fun i => X i k)) as Q. apply (Rmult_eq_reg_r (dot n l (fun i => X i k))); [| exact Z]. rewrite <- Q.
    rewrite (dot_ext n l l (mvec n J (fun i => X i k)) (fun i => lam k * X i k)); [| reflexivity |].
    - unfold dot. rewrite <- sm_scal. apply sm_ext. intros; ring.
    - intros i I. rewrite Rmult_comm. apply (eb_eig _ _ _ _ _ E); assumption. }
  rewrite dot_assoc. transitivity (phi mu * dot n l (mvec n X (mvec n Y x))).
  - rewrite dot_assoc. unfold dot at 1 3. rewrite <- sm_scal. apply sm_ext. intros k K. apply in_seq in K.
    rewrite <- !Rmult_assoc. rewrite C by lia. reflexivity.
  - f_equal. apply dot_ext; [reflexivity |]. intros i I. apply (XYx n J X Y lam E), I.
Qed.

Lemma pos_part_half x : (x + Rabs x) / 2 = pos_part x.
Proof. unfold pos_part, Rmax. destruct (Rle_dec x 0); [rewrite Rabs_left1 by lra | rewrite Rabs_right by lra]; lra. Qed.
Lemma neg_part_half x : (x - Rabs x) / 2 = neg_part x.
Proof. unfold neg_part, Rmin. destruct (Rle_dec x 0); [rewrite Rabs_left1 by lra | rewrite Rabs_right by lra]; lra. Qed.

(** Row eigenvectors: l J = mu l. *)
Definition row_eig (n : nat) (J : nat -> nat -> R) (l : nat -> R) (mu : R) : Prop :=
  forall y, dot n l (mvec n J y) = mu * dot n l y.
Lemma Y_row n J X Y lam k : eigenbasis n J X Y lam -> (k < n)%nat -> row_eig n J (Y k) (lam k).
Proof. intros E K y. apply (YJ n J X Y lam E k y K). Qed.

(** J+ x = J- y exactly when the outgoing part of x and the incoming part of y vanish. *)
Lemma split_zero n J Mp Mm x y : fun_of n pos_part J Mp -> fun_of n neg_part J Mm ->
  (forall i, (i < n)%nat -> mvec n Mp x i - mvec n Mm y i = 0) <->
  (forall l mu, row_eig n J l mu -> (0 < mu -> dot n l x = 0) /\ (mu < 0 -> dot n l y = 0)).
Proof.
  intros FP FM. split.
  - intros H l mu Hl.
    assert (pos_part mu * dot n l x - neg_part mu * dot n l y = 0) as Q.
    { rewrite <- (fun_of_row n pos_part J Mp l mu x FP Hl), <- (fun_of_row n neg_part J Mm l mu y FM Hl).
      unfold dot. rewrite <- sm_sub. apply sm_zero. intros i I. apply in_seq in I.
      rewrite <- Rmult_minus_distr_l, H by lia. ring. }
    unfold pos_part, neg_part in Q. split; intros S.
    + rewrite Rmax_left, Rmin_right in Q by lra. rewrite Rmult_0_l, Rminus_0_r in Q.
      apply Rmult_integral in Q. destruct Q; lra.
    + rewrite Rmax_right, Rmin_left in Q by lra. assert (mu * dot n l y = 0) as Q' by lra.
      apply Rmult_integral in Q'. destruct Q'; lra.
  - intros H i I. pose proof FP as FP0. destruct FP0 as [X [Y [lam [E _]]]].
    set (b := fun i => mvec n Mp x i - mvec n Mm y i). change (b i = 0). rewrite <- (XYx n J X Y lam E b i I).
    apply sm_zero. intros k K. apply in_seq in K. cut (mvec n Y b k = 0); [intros ->; ring |].
    assert (row_eig n J (Y k) (lam k)) as Rk by (apply (Y_row n J X Y lam); [exact E | lia]).
    assert (mvec n Y b k = dot n (Y k) (mvec n Mp x) - dot n (Y k) (mvec n Mm y)) as ->.
    { unfold mvec at 1, dot. rewrite <- sm_sub. apply sm_ext. intros; unfold b; ring. }
    rewrite (fun_of_row n pos_part J Mp _ _ x FP Rk), (fun_of_row n neg_part J Mm _ _ y FM Rk).
    destruct (H _ _ Rk) as [H1 H2]. unfold pos_part, neg_part.
    destruct (Rtotal_order (lam k) 0) as [S | [S | S]].
    + rewrite Rmax_right, Rmin_left by lra. rewrite H2 by exact S. ring.
    + rewrite S, Rmax_left, Rmin_left by lra. ring.
    + rewrite Rmax_left, Rmin_right by lra. rewrite H1 by exact S. ring.
Qed.

(** Removing the normal part, in terms of momentum along the normal and across it. *)
Lemma tangential d (n u v : nat -> R) : dot d n n = 1 ->
  (forall c, (c < d)%nat -> u c - dot d u n * n c - v c = 0) <->
  (dot d v n = 0 /\ forall t, dot d t n = 0 -> dot d v t = dot d u t).
Proof.
  intros N. split.
  - intros H. assert (forall t, dot d v t = dot d u t - dot d u n * dot d t n) as Q.
    { intros t. unfold dot at 1 2 4. rewrite <- sm_scal, <- sm_sub. apply sm_ext. intros c C. apply in_seq in C.
      assert (v c = u c - dot d u n * n c) as -> by (assert (c < d)%nat as C' by lia; specialize (H c C'); lra).
      unfold dot. ring. }
    split; [rewrite Q, N; ring |]. intros t T. rewrite Q, T. ring.
  - intros [V T] e He. set (t := fun c => delta e c - n e * n c).
    assert (forall x, dot d x t = x e - n e * dot d x n) as Q.
    { intros x. rewrite <- (dot_delta_l d x e He). unfold t, dot. rewrite <- sm_scal, <- sm_sub. apply sm_ext. intros; ring. }
    assert (dot d t n = 0) as T0.
    { transitivity (dot d n t); [apply sm_ext; intros; ring |]. rewrite Q, N. ring. }
    specialize (T t T0). rewrite !Q, V in T. lra.
Qed.
