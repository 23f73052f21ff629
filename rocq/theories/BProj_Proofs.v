(** Sums for the projection of boundary data. *)
From Coq Require Import Bool Arith Lia Reals Lra List.
From Verif Require Import Sparse_Model Sparse_Props Mass_Model Mass_Props Assembly_Model BProj_Model.
Import ListNotations.
Local Open Scope R_scope.

Lemma sm_ext {A} (l : list A) f g : (forall x, In x l -> f x = g x) -> sm l f = sm l g.
Proof. apply rsum_ext. Qed.
Lemma sm_zero {A} (l : list A) f : (forall x, In x l -> f x = 0) -> sm l f = 0.
Proof. apply rsum_zero. Qed.
Lemma sm_add {A} (l : list A) f g : sm l (fun x => f x + g x) = sm l f + sm l g.
Proof. apply rsum_map_add. Qed.
Lemma sm_scal {A} (l : list A) c f : sm l (fun x => c * f x) = c * sm l f.
Proof. apply rsum_map_scal. Qed.
Lemma sm_scal_r {A} (l : list A) c f : sm l (fun x => f x * c) = sm l f * c.
Proof. rewrite (sm_ext l _ (fun x => c * f x)) by (intros; ring). rewrite sm_scal. ring. Qed.
Lemma sm_sub {A} (l : list A) f g : sm l (fun x => f x - g x) = sm l f - sm l g.
Proof.
  rewrite (sm_ext l _ (fun x => f x + (-1) * g x)) by (intros; ring). rewrite sm_add, sm_scal. ring.
Qed.
Lemma sm_swap {A B} (l : list A) (m : list B) f : sm l (fun a => sm m (f a)) = sm m (fun b => sm l (fun a => f a b)).
Proof. apply rsum_swap. Qed.
Lemma sm_flat {A B} (l : list A) (g : A -> list B) f : sm (flat_map g l) f = sm l (fun a => sm (g a) f).
Proof. unfold sm. rewrite map_flat_map, rsum_flat_map. reflexivity. Qed.
Lemma sm_map {A B} (l : list A) (g : A -> B) f : sm (map g l) f = sm l (fun a => f (g a)).
Proof. unfold sm. rewrite map_map. reflexivity. Qed.
Lemma sm_single n c f : (c < n)%nat -> sm (seq 0 n) (fun j => if (j =? c)%nat then f j else 0) = f c.
Proof. apply rsum_single. Qed.
Lemma sm_nonneg {A} (l : list A) f : (forall x, In x l -> 0 <= f x) -> 0 <= sm l f.
Proof.
  intros H. unfold sm. induction l as [| a l IH]; cbn [map]; [unfold rsum; cbn; lra |]. change (rsum (?a :: ?b)) with (a + rsum b).
  specialize (IH (fun x I => H x (or_intror I))). specialize (H a (or_introl eq_refl)). lra.
Qed.
Lemma sm_nonneg_zero {A} (l : list A) f : (forall x, In x l -> 0 <= f x) -> sm l f <= 0 -> forall x, In x l -> f x = 0.
Proof.
  unfold sm. induction l as [| a l IH]; intros H Z x I; [contradiction |]. cbn [map] in Z. change (rsum (?a :: ?b)) with (a + rsum b) in Z.
  assert (0 <= rsum (map f l)) as P by (apply (sm_nonneg l f); intros y J; apply H; right; exact J).
  pose proof (H a (or_introl eq_refl)). destruct I as [<- | I]; [lra |].
  apply IH; auto; [intros y J; apply H; right; exact J | lra].
Qed.

(** A scattered vector against weights; a scattered matrix against a vector. *)
Lemma scatter_against n z cs : (forall c, In c cs -> (fst c < n)%nat) ->
  sm (seq 0 n) (fun i => z i * scatter cs (fun _ => 0) i) = sm cs (fun c => z (fst c) * snd c).
Proof.
  intros H. rewrite (sm_ext _ _ (fun i => sm cs (fun c => if (i =? fst c)%nat then z i * snd c else 0))).
  - rewrite sm_swap. apply sm_ext. intros c I. rewrite (sm_single n (fst c) (fun i => z i * snd c)) by auto. reflexivity.
  - intros i _. rewrite scatter_val, Rplus_0_l. change (rsum (map (pick i) cs)) with (sm cs (pick i)). rewrite <- sm_scal. apply sm_ext. intros c _. unfold pick. rewrite Nat.eqb_sym.
    destruct (i =? fst c)%nat; ring.
Qed.
Lemma scatter2_row n x cs i : (forall c, In c cs -> (snd (fst c) < n)%nat) ->
  sm (seq 0 n) (fun j => scatter2 cs (fun _ _ => 0) i j * x j) =
  sm cs (fun c => if (i =? fst (fst c))%nat then snd c * x (snd (fst c)) else 0).
Proof.
  intros H. rewrite (sm_ext _ _ (fun j => sm cs (fun c => if (j =? snd (fst c))%nat then (if (i =? fst (fst c))%nat then snd c * x j else 0) else 0))).
  - rewrite sm_swap. apply sm_ext. intros c I.
    rewrite (sm_single n (snd (fst c)) (fun j => if (i =? fst (fst c))%nat then snd c * x j else 0)) by auto. reflexivity.
  - intros j _. rewrite scatter2_val, Rplus_0_l. change (rsum (map (pick2 i j) cs)) with (sm cs (pick2 i j)). rewrite <- sm_scal_r. apply sm_ext. intros c _. unfold pick2.
    destruct (i =? fst (fst c))%nat, (j =? snd (fst c))%nat; cbn; ring.
Qed.
Lemma scatter2_against n z x cs : (forall c, In c cs -> (fst (fst c) < n)%nat /\ (snd (fst c) < n)%nat) ->
  sm (seq 0 n) (fun i => z i * sm (seq 0 n) (fun j => scatter2 cs (fun _ _ => 0) i j * x j)) =
  sm cs (fun c => z (fst (fst c)) * snd c * x (snd (fst c))).
Proof.
  intros H. rewrite (sm_ext _ _ (fun i => sm cs (fun c => if (i =? fst (fst c))%nat then z i * snd c * x (snd (fst c)) else 0))).
  - rewrite sm_swap. apply sm_ext. intros c I. rewrite (sm_single n (fst (fst c)) (fun i => z i * snd c * x (snd (fst c)))); [reflexivity | apply H; exact I].
  - intros i _. rewrite scatter2_row by (intros c I; apply H; exact I). rewrite <- sm_scal. apply sm_ext. intros c _.
    destruct (i =? fst (fst c))%nat; ring.
Qed.

(** The rows that are replaced. *)
Lemma replaced_other p l : forall M i j, fixed p i = true \/ ~ In i l ->
  fold_left (fun M r => if fixed p r then M else set2 M r r 1) l M i j = M i j.
Proof.
  induction l as [| r l IH]; intros M i j H; cbn; [reflexivity |]. rewrite IH by (destruct H as [H | H]; [left; exact H | right; intros I; apply H; right; exact I]).
  destruct (fixed p r) eqn:F; [reflexivity |]. unfold set2. destruct (Nat.eqb_spec i r) as [-> | N]; [| reflexivity].
  exfalso. destruct H as [H | H]; [congruence | apply H; left; reflexivity].
Qed.
Lemma replaced_diag p l : forall M i j, fixed p i = false -> In i l ->
  fold_left (fun M r => if fixed p r then M else set2 M r r 1) l M i j = if (i =? j)%nat then 1 else M i j.
Proof.
  induction l as [| r l IH]; intros M i j F I; [contradiction |]. cbn. destruct (in_dec Nat.eq_dec i l) as [J | J].
  - rewrite IH by assumption. destruct (Nat.eqb_spec i j) as [-> | N]; [reflexivity |]. destruct (fixed p r); [reflexivity |].
    unfold set2. destruct (Nat.eqb_spec i r), (Nat.eqb_spec j r); cbn; try reflexivity. exfalso. congruence.
  - rewrite replaced_other by (right; exact J). destruct I as [-> | I]; [| contradiction]. rewrite F. unfold set2. rewrite Nat.eqb_refl. cbn.
    rewrite Nat.eqb_sym. reflexivity.
Qed.
