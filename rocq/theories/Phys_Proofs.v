(** Residuals built by loops are sums over points. *)
From Coq Require Import Bool Arith Lia Reals Lra List String.
From Verif Require Import Sparse_Model Sparse_Props Mass_Model Mass_Props BProj_Model BProj_Proofs Phys_Model Phys_Spec.
Import ListNotations.
Local Open Scope R_scope.

Definition at_row (r : nat) (cs : list (nat * R)) : R := sm cs (pick r).
Lemma residual_at cs r : residual cs r = at_row r cs.
Proof. unfold residual. rewrite scatter_val. unfold at_row, sm. ring. Qed.
Lemma at_row_app r a b : at_row r (a ++ b) = at_row r a + at_row r b.
Proof. unfold at_row, sm. rewrite map_app. apply rsum_app. Qed.
Lemma at_row_nil r : at_row r [] = 0.
Proof. reflexivity. Qed.
Lemma at_row_if r (b : bool) x y : at_row r (if b then x else y) = if b then at_row r x else at_row r y.
Proof. destruct b; reflexivity. Qed.

Lemma is_var_lt w n v : is_var w n v -> (n < List.length (varlist w))%nat.
Proof. intros H. apply nth_error_Some. unfold is_var in H. congruence. Qed.
Lemma is_var_inj w n v u : is_var w n v -> is_var w n u -> v = u.
Proof. unfold is_var. congruence. Qed.
Lemma is_var_uniq w n m v : wf w -> is_var w n v -> is_var w m v -> n = m.
Proof.
  intros W A B. pose proof (wf_names w W) as N. rewrite NoDup_nth_error in N. apply N; [eapply is_var_lt; eauto |].
  unfold is_var in *. congruence.
Qed.

Lemma fill_own w b f n i : wf w -> (n < List.length (varlist w))%nat -> (i < nbas w (usebasis w n))%nat ->
  usebasis w b = usebasis w n ->
  at_row (offs w n i) (fill w b n f) = sm (seq 0 (npts w)) (fun k => f k i).
Proof.
  intros W N I E. unfold at_row, fill. rewrite sm_flat. apply sm_ext. intros k _. rewrite sm_map. rewrite E.
  rewrite (sm_ext _ _ (fun j => if (j =? i)%nat then f k j else 0)).
  - apply (sm_single _ i (fun j => f k j)). exact I.
  - intros j J. apply in_seq in J. unfold pick. cbn [fst snd].
    destruct (Nat.eqb_spec j i) as [-> | NE]; [rewrite Nat.eqb_refl; reflexivity |].
    destruct (Nat.eqb_spec (offs w n j) (offs w n i)) as [E2 | _]; [| reflexivity].
    apply (wf_offs w W) in E2; [| lia | lia | lia | lia]. lia.
Qed.
Lemma fill_other w b f n m i : wf w -> (n < List.length (varlist w))%nat -> (m < List.length (varlist w))%nat ->
  (i < nbas w (usebasis w n))%nat -> n <> m -> usebasis w b = usebasis w m ->
  at_row (offs w n i) (fill w b m f) = 0.
Proof.
  intros W N M I NE E. unfold at_row, fill. rewrite sm_flat. apply sm_zero. intros k _. rewrite sm_map. apply sm_zero.
  intros j J. apply in_seq in J. rewrite E in J. unfold pick. cbn [fst snd].
  destruct (Nat.eqb_spec (offs w m j) (offs w n i)) as [E2 | _]; [| reflexivity].
  apply (wf_offs w W) in E2; lia.
Qed.

(** setWorkset finds the position. *)
Lemma last_pos v l n u : NoDup l -> nth_error l n = Some v ->
  fold_left (fun m i => if String.eqb (nth i l EmptyString) v then i else m) (seq 0 (List.length l)) u = n.
Proof.
  intros ND E. assert (n < List.length l)%nat as L by (apply nth_error_Some; congruence).
  assert (forall s len u, (s + len <= List.length l)%nat -> ((s <= n < s + len)%nat \/ (u = n /\ ~ (s <= n < s + len)%nat)) ->
    fold_left (fun m i => if String.eqb (nth i l EmptyString) v then i else m) (seq s len) u = n) as G.
  { intros s len. revert s. induction len as [| len IH]; intros s u' B H; cbn [seq fold_left]; [lia |].
    apply IH; [lia |]. destruct (Nat.eq_dec s n) as [-> | NE].
    - right. split; [| lia]. rewrite (nth_error_nth _ _ EmptyString E), String.eqb_refl. reflexivity.
    - destruct (String.eqb_spec (nth s l EmptyString) v) as [E2 | _].
      + exfalso. apply NE. rewrite NoDup_nth_error in ND. apply ND; [lia |].
        rewrite (nth_error_nth' l EmptyString) by lia. congruence.
      + destruct H as [H | [H1 H2]]; [left; lia | right; split; [exact H1 | lia]]. }
  apply G; lia.
Qed.
Lemma var_num_is w n v u : wf w -> is_var w n v -> var_num w v u = n.
Proof. intros W H. apply last_pos; [apply (wf_names w W) | exact H]. Qed.
Lemma has_var_spec w v : has_var w v = true <-> In v (varlist w).
Proof.
  unfold has_var. rewrite existsb_exists. split.
  - intros [x [I E]]. apply String.eqb_eq in E. congruence.
  - intros I. exists v. split; [exact I | apply String.eqb_refl].
Qed.

(** Directions. *)
Lemma sumd_1 w f : dim w = 1%nat -> sumd w f = f 0%nat.
Proof. intros E. unfold sumd, sm. rewrite E. cbn. ring. Qed.
Lemma sumd_2 w f : dim w = 2%nat -> sumd w f = f 0%nat + f 1%nat.
Proof. intros E. unfold sumd, sm. rewrite E. cbn. ring. Qed.
Lemma sumd_3 w f : dim w = 3%nat -> sumd w f = f 0%nat + f 1%nat + f 2%nat.
Proof. intros E. unfold sumd, sm. rewrite E. cbn. ring. Qed.
Lemma dims w : wf w -> dim w = 1%nat \/ dim w = 2%nat \/ dim w = 3%nat.
Proof. intros W. pose proof (wf_dim w W). lia. Qed.

(** Totals and tests of a weak form. *)
Lemma sumd_swap {A} w (l : list A) f : sm l (fun i => sumd w (f i)) = sumd w (fun d => sm l (fun i => f i d)).
Proof. unfold sumd. apply sm_swap. Qed.
Lemma sumd_ext w f g : (forall d, (d < dim w)%nat -> f d = g d) -> sumd w f = sumd w g.
Proof. intros H. apply sm_ext. intros d I. apply in_seq in I. apply H. lia. Qed.
Lemma sumd_zero w f : (forall d, (d < dim w)%nat -> f d = 0) -> sumd w f = 0.
Proof. intros H. apply sm_zero. intros d I. apply in_seq in I. apply H. lia. Qed.
Lemma sumd_scal w c f : sumd w (fun d => c * f d) = c * sumd w f.
Proof. apply sm_scal. Qed.
Lemma sumd_add w f g : sumd w (fun d => f d + g d) = sumd w f + sumd w g.
Proof. apply sm_add. Qed.
Lemma integral_ext w f g : (forall k, (k < npts w)%nat -> f k = g k) -> integral w f = integral w g.
Proof. intros H. apply sm_ext. intros k I. apply in_seq in I. rewrite H by lia. reflexivity. Qed.
Lemma integral_zero w f : (forall k, (k < npts w)%nat -> f k = 0) -> integral w f = 0.
Proof. intros H. apply sm_zero. intros k I. apply in_seq in I. rewrite H by lia. ring. Qed.
Lemma integral_add w f g : integral w (fun k => f k + g k) = integral w f + integral w g.
Proof. unfold integral. rewrite <- sm_add. apply sm_ext. intros; ring. Qed.
Lemma integral_scal w c f : integral w (fun k => c * f k) = c * integral w f.
Proof. unfold integral. rewrite <- sm_scal. apply sm_ext. intros; ring. Qed.
Lemma integral_opp w f : - integral w f = integral w (fun k => - f k).
Proof. rewrite (integral_ext w (fun k => - f k) (fun k => -1 * f k)) by (intros; ring). rewrite integral_scal. ring. Qed.
Lemma integral_nonneg w f : (forall k, (k < npts w)%nat -> 0 <= wt w k /\ 0 <= f k) -> 0 <= integral w f.
Proof. intros H. apply sm_nonneg. intros k I. apply in_seq in I. apply Rmult_le_pos; apply H; lia. Qed.
Lemma integral_sum {A} w (l : list A) f : sm l (fun i => integral w (f i)) = integral w (fun k => sm l (fun i => f i k)).
Proof. unfold integral. rewrite sm_swap. apply sm_ext. intros k _. apply sm_scal. Qed.

Lemma tested_weak w b n c a F (res : nat -> R) : usebasis w n = b ->
  (forall i, (i < nbas w b)%nat -> res (offs w n i) = weak w b i a F) ->
  tested w res n c = integral w (fun k => a k * sm (seq 0 (nbas w b)) (fun i => c i * bas w b i k)
    + sumd w (fun d => F d k * sm (seq 0 (nbas w b)) (fun i => c i * bgr w b i k d))).
Proof.
  intros B H. unfold tested. rewrite B. rewrite (sm_ext _ _ (fun i => integral w (fun k => c i * (a k * bas w b i k + sumd w (fun d => F d k * bgr w b i k d))))).
  2:{ intros i I. apply in_seq in I. rewrite H by lia. unfold weak. rewrite integral_scal. reflexivity. }
  rewrite integral_sum. apply integral_ext. intros k _.
  rewrite (sm_ext _ _ (fun i => a k * (c i * bas w b i k) + sumd w (fun d => F d k * (c i * bgr w b i k d)))).
  - rewrite sm_add, sm_scal, sumd_swap. f_equal. apply sumd_ext. intros d _. apply sm_scal.
  - intros i _. rewrite Rmult_plus_distr_l. f_equal; [ring |]. rewrite <- sumd_scal. apply sumd_ext. intros; ring.
Qed.
Lemma total_tested w res n : total w res n = tested w res n (fun _ => 1).
Proof. apply sm_ext. intros; ring. Qed.
Lemma total_weak w n a F (res : nat -> R) : unity w (usebasis w n) ->
  (forall i, (i < nbas w (usebasis w n))%nat -> res (offs w n i) = weak w (usebasis w n) i a F) ->
  total w res n = integral w a.
Proof.
  intros U H. rewrite total_tested, (tested_weak w _ n _ a F res eq_refl H). apply integral_ext. intros k K.
  destruct (U k K) as [U1 U2]. rewrite (sm_ext _ _ (fun i => bas w (usebasis w n) i k)) by (intros; ring). rewrite U1.
  rewrite sumd_zero; [ring |]. intros d D. rewrite (sm_ext _ _ (fun i => bgr w (usebasis w n) i k d)) by (intros; ring).
  rewrite U2 by exact D. ring.
Qed.
Lemma tested_expands w n v c a F (res : nat -> R) : expands w n v c ->
  (forall i, (i < nbas w (usebasis w n))%nat -> res (offs w n i) = weak w (usebasis w n) i a F) ->
  tested w res n c = integral w (fun k => a k * fld w v k + sumd w (fun d => F d k * grad w v d k)).
Proof.
  intros X H. rewrite (tested_weak w _ n _ a F res eq_refl H). apply integral_ext. intros k K. destruct (X k K) as [X1 X2].
  rewrite X1. f_equal. apply sumd_ext. intros d D. rewrite (X2 d D). reflexivity.
Qed.
