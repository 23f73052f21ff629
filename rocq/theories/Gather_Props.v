(** What the residual of a group is evaluated with (C236-C240). *)
From Coq Require Import Arith Bool Reals Lra Lia List.
From Verif Require Import Sparse_Model Tableau_Model BProj_Model BProj_Proofs Gather_Model.
Import ListNotations.
Local Open Scope R_scope.

(** ** Specification *)

(** The entry of a global vector that belongs to unknown [d] of variable [v] on element
    [e] of the group. *)
Definition entry (y : layout) (g : group) (s e v d : nat) (x : gvec) : R :=
  x (g_lids g s e (nth d (nth v (y_off y s) []) 0%nat)).
Definition pentry (y : layout) (g : group) (e v d : nat) (x : gvec) : R :=
  x (g_plids g e (nth d (nth v (y_poff y) []) 0%nat)).

Definition has_dof (n : nat) (offs : list (list nat)) (e v d : nat) : Prop :=
  (e < n)%nat /\ (v < length offs)%nat /\ (d < length (nth v offs []))%nat.

(** The group at position [i] of the sweep and what its residual sees. *)
Definition visited y tr ti c gs b w (i : nat) (g : group) (bi : buffers) (wi : wset) : Prop :=
  nth_error gs i = Some g /\ nth_error (fst (sweep y tr ti c gs b w)) i = Some (bi, wi).

(** ** Gathers *)
Lemma in_slots n offs e v d : In (e, v, d) (slots n offs) <-> has_dof n offs e v d.
Proof.
  unfold slots, has_dof. rewrite in_flat_map. split.
  - intros (e' & He & H). apply in_flat_map in H. destruct H as (v' & Hv & H).
    apply in_map_iff in H. destruct H as (d' & E & Hd). inversion E; subst.
    apply in_seq in He. apply in_seq in Hv. apply in_seq in Hd. lia.
  - intros (He & Hv & Hd). exists e. split; [apply in_seq; lia|].
    apply in_flat_map. exists v. split; [apply in_seq; lia|].
    apply in_map. apply in_seq. lia.
Qed.

Lemma fold3 offs lids x l : forall b e v d,
  (In (e, v, d) l -> fold_left (fun b p => let '(e, v, d) := p in put3 b e v d (x (lid offs lids p))) l b e v d
                     = x (lid offs lids (e, v, d))) /\
  (~ In (e, v, d) l -> fold_left (fun b p => let '(e, v, d) := p in put3 b e v d (x (lid offs lids p))) l b e v d
                     = b e v d).
Proof.
  induction l as [|((e0, v0), d0) tl IH] using rev_ind; intros b e v d.
  - split; [intros []|reflexivity].
  - rewrite fold_left_app. cbn [fold_left].
    unfold put3 at 1 3.
    destruct (Nat.eqb e e0 && Nat.eqb v v0 && Nat.eqb d d0) eqn:E.
    + rewrite !andb_true_iff, !Nat.eqb_eq in E. destruct E as ((-> & ->) & ->). split; [reflexivity|].
      intros H. exfalso. apply H. apply in_or_app. right. left. reflexivity.
    + assert (N : (e0, v0, d0) <> (e, v, d)).
      { intros Q. inversion Q; subst. rewrite !Nat.eqb_refl in E. discriminate. }
      destruct (IH b e v d) as (A & B). split.
      * intros H. apply in_app_or in H. destruct H as [H|[H|[]]]; [apply A, H|contradiction].
      * intros H. apply B. intros Q. apply H, in_or_app. left. exact Q.
Qed.

Lemma gather3_in n offs lids x b e v d :
  has_dof n offs e v d -> gather3 n offs lids x b e v d = x (lids e (nth d (nth v offs []) 0%nat)).
Proof. intros H. apply (fold3 offs lids x). apply in_slots, H. Qed.

Lemma fold4 offs lids x k l : forall b e v d,
  (In (e, v, d) l -> fold_left (fun b p => let '(e, v, d) := p in put4 b e v d k (x (lid offs lids p))) l b e v d k
                     = x (lid offs lids (e, v, d))).
Proof.
  induction l as [|((e0, v0), d0) tl IH] using rev_ind; intros b e v d H; [destruct H|].
  rewrite fold_left_app. cbn [fold_left]. unfold put4 at 1. rewrite Nat.eqb_refl, andb_true_r.
  destruct (Nat.eqb e e0 && Nat.eqb v v0 && Nat.eqb d d0) eqn:E.
  - rewrite !andb_true_iff, !Nat.eqb_eq in E. destruct E as ((-> & ->) & ->). reflexivity.
  - apply IH. apply in_app_or in H. destruct H as [H|[H|[]]]; [exact H|].
    inversion H; subst. rewrite !Nat.eqb_refl in E. discriminate.
Qed.

Lemma fold4_other offs lids x k k' l : forall b e v d, k' <> k ->
  fold_left (fun b p => let '(e, v, d) := p in put4 b e v d k (x (lid offs lids p))) l b e v d k' = b e v d k'.
Proof.
  induction l as [|((e0, v0), d0) tl IH]; intros b e v d N; [reflexivity|].
  cbn [fold_left]. rewrite IH by exact N. unfold put4.
  replace (Nat.eqb k' k) with false by (symmetry; apply Nat.eqb_neq, N). rewrite andb_false_r. reflexivity.
Qed.

Lemma gather4_in n offs lids k x b e v d :
  has_dof n offs e v d -> gather4 n offs lids k x b e v d k = x (lids e (nth d (nth v offs []) 0%nat)).
Proof. intros H. apply (fold4 offs lids x). apply in_slots, H. Qed.

Lemma gather4_other n offs lids k k' x b e v d :
  k' <> k -> gather4 n offs lids k x b e v d k' = b e v d k'.
Proof. intros N. apply fold4_other, N. Qed.

(** ** One [each] loop *)
Lemma each_frame {B} (P : buffers -> B) l keep load b :
  (forall i x b, P (load i x b) = P b) -> P (each l keep load b) = P b.
Proof.
  intros H. unfold each. revert b. generalize (seq 0 (length l)) as idx.
  induction idx as [|i tl IH]; intros b; [reflexivity|].
  cbn [fold_left]. rewrite IH. destruct (keep i); [apply H|reflexivity].
Qed.

Lemma each_idx (l : list gvec) keep load (V : buffers -> R) (i : nat) (z : R) b :
  (i < length l)%nat -> keep i = true ->
  (forall b, V (load i (vnth l i) b) = z) ->
  (forall j b, j <> i -> V (load j (vnth l j) b) = V b) ->
  V (each l keep load b) = z.
Proof.
  intros Hi K H1 H2. unfold each.
  replace (length l) with (i + (1 + (length l - i - 1)))%nat by lia.
  rewrite seq_app, fold_left_app. cbn [seq plus fold_left]. rewrite K.
  assert (T : forall idx, (~ In i idx) -> forall b,
     V (fold_left (fun b i => if keep i then load i (vnth l i) b else b) idx b) = V b).
  { induction idx as [|j tl IH]; intros N b'; [reflexivity|]. cbn [fold_left]. rewrite IH.
    - destruct (keep j); [apply H2; intros ->; apply N; left; reflexivity|reflexivity].
    - intros Q. apply N. right. exact Q. }
  change ([i] ++ seq (S i) (length l - i - 1))%list with (i :: seq (S i) (length l - i - 1))%list || idtac.
  rewrite T; [apply H1|]. rewrite in_seq. lia.
Qed.

Lemma each_skip (l : list gvec) keep load (V : buffers -> R) b :
  (forall j b, keep j = true -> V (load j (vnth l j) b) = V b) ->
  V (each l keep load b) = V b.
Proof.
  intros H. unfold each. revert b. generalize (seq 0 (length l)) as idx.
  induction idx as [|i tl IH]; intros b; [reflexivity|].
  cbn [fold_left]. rewrite IH. destruct (keep i) eqn:K; [apply H, K|reflexivity].
Qed.

Lemma at_same {B} (f : nat -> B) s b : at_set f s b s = b.
Proof. unfold at_set. rewrite Nat.eqb_refl. reflexivity. Qed.
Lemma at_other {B} (f : nat -> B) s b s' : s' <> s -> at_set f s b s' = f s'.
Proof. intros N. unfold at_set. rewrite (proj2 (Nat.eqb_neq _ _) N). reflexivity. Qed.

(** ** The gather of a group *)
Section Group.
Context (y : layout) (c : call) (g : group).

Lemma param_frame {B} (P : buffers -> B) (b : buffers) :
  (forall x b, P (load_param y g x b) = P b) ->
  forall b1 : buffers, P (if Nat.ltb 0 (c_params c) then load_param y g (c_param c) b1 else b1) = P b1.
Proof. intros H b1. destruct (Nat.ltb 0 (c_params c)); [apply H|reflexivity]. Qed.

Ltac frame := repeat first [ rewrite each_frame by (intros; reflexivity) | progress (cbn [b_sol b_phi b_sstage b_sprev b_pstage b_pprev b_param load_sol load_phi load_sstage load_sprev load_pstage load_pprev load_param]) ].

(** Own set, stage mode. *)
Lemma gathered_cur b e v d :
  use_only_sol c = false -> has_dof (g_n g) (y_off y (c_set c)) e v d ->
  b_sol (perform_gather y c g b) (c_set c) e v d = entry y g (c_set c) e v d (vnth (c_sol_stage c) (c_stage c)).
Proof.
  intros U H. unfold perform_gather. rewrite (param_frame b_sol b) by reflexivity. rewrite U.
  destruct (c_adjoint c); frame; rewrite at_same; apply gather3_in, H.
Qed.

Lemma gathered_other b s e v d :
  use_only_sol c = false -> s <> c_set c -> (s < length (c_sol c))%nat -> has_dof (g_n g) (y_off y s) e v d ->
  b_sol (perform_gather y c g b) s e v d = entry y g s e v d (vnth (c_sol c) s).
Proof.
  intros U N Hs H. unfold perform_gather. rewrite (param_frame b_sol b) by reflexivity. rewrite U.
  destruct (c_adjoint c); frame; rewrite at_other by exact N;
    apply (each_idx _ _ _ (fun b => b_sol b s e v d) s);
    try exact Hs; try (cbn beta; apply negb_true_iff, Nat.eqb_neq, N);
    try (intros b'; cbn [b_sol load_sol]; rewrite at_same; apply gather3_in, H);
    intros j b' Nj; cbn [b_sol load_sol]; rewrite at_other by (intros Q; apply Nj; symmetry; exact Q); reflexivity.
Qed.

Lemma gathered_only b s e v d :
  use_only_sol c = true -> (s < length (c_sol c))%nat -> has_dof (g_n g) (y_off y s) e v d ->
  b_sol (perform_gather y c g b) s e v d = entry y g s e v d (vnth (c_sol c) s).
Proof.
  intros U Hs H. unfold perform_gather. rewrite (param_frame b_sol b) by reflexivity. rewrite U.
  destruct (c_adjoint c); frame;
    apply (each_idx _ _ _ (fun b => b_sol b s e v d) s);
    try exact Hs; try reflexivity;
    try (intros b'; cbn [b_sol load_sol]; rewrite at_same; apply gather3_in, H);
    intros j b' Nj; cbn [b_sol load_sol]; rewrite at_other by (intros Q; apply Nj; symmetry; exact Q); reflexivity.
Qed.

Lemma gathered_prev b e v d k :
  use_only_sol c = false -> (k < length (c_sol_prev c))%nat -> has_dof (g_n g) (y_off y (c_set c)) e v d ->
  b_sprev (perform_gather y c g b) (c_set c) e v d k = entry y g (c_set c) e v d (vnth (c_sol_prev c) k).
Proof.
  intros U Hk H. unfold perform_gather. rewrite (param_frame b_sprev b) by reflexivity. rewrite U.
  destruct (c_adjoint c); frame;
    apply (each_idx _ _ _ (fun b => b_sprev b (c_set c) e v d k) k);
    try exact Hk; try reflexivity;
    try (intros b'; cbn [b_sprev load_sprev]; rewrite at_same; apply gather4_in, H);
    intros j b' Nj; cbn [b_sprev load_sprev]; rewrite at_same; apply gather4_other;
    intros Q; apply Nj; symmetry; exact Q.
Qed.

Lemma gathered_stage b e v d k :
  use_only_sol c = false -> (k < length (c_sol_stage c))%nat -> (k < c_stage c)%nat ->
  has_dof (g_n g) (y_off y (c_set c)) e v d ->
  b_sstage (perform_gather y c g b) (c_set c) e v d k = entry y g (c_set c) e v d (vnth (c_sol_stage c) k).
Proof.
  intros U Hk Hs H. unfold perform_gather. rewrite (param_frame b_sstage b) by reflexivity. rewrite U.
  destruct (c_adjoint c); frame;
    apply (each_idx _ _ _ (fun b => b_sstage b (c_set c) e v d k) k);
    try exact Hk; try (cbn beta; apply Nat.ltb_lt, Hs);
    try (intros b'; cbn [b_sstage load_sstage]; rewrite at_same; apply gather4_in, H);
    intros j b' Nj; cbn [b_sstage load_sstage]; rewrite at_same; apply gather4_other;
    intros Q; apply Nj; symmetry; exact Q.
Qed.

Lemma gathered_param b e v d :
  (0 < c_params c)%nat -> has_dof (g_n g) (y_poff y) e v d ->
  b_param (perform_gather y c g b) e v d = pentry y g e v d (c_param c).
Proof.
  intros P H. unfold perform_gather. apply Nat.ltb_lt in P. rewrite P.
  cbn [b_param load_param]. apply gather3_in, H.
Qed.

Lemma gathered_phi_cur b e v d :
  use_only_sol c = false -> c_adjoint c = true -> has_dof (g_n g) (y_off y (c_set c)) e v d ->
  b_phi (perform_gather y c g b) (c_set c) e v d = entry y g (c_set c) e v d (vnth (c_phi_stage c) (c_stage c)).
Proof.
  intros U A H. unfold perform_gather. rewrite (param_frame b_phi b) by reflexivity. rewrite U, A.
  frame; rewrite at_same; apply gather3_in, H.
Qed.

Lemma gathered_phi_other b s e v d :
  use_only_sol c = false -> c_adjoint c = true -> s <> c_set c -> (s < length (c_phi c))%nat ->
  has_dof (g_n g) (y_off y s) e v d ->
  b_phi (perform_gather y c g b) s e v d = entry y g s e v d (vnth (c_phi c) s).
Proof.
  intros U A N Hs H. unfold perform_gather. rewrite (param_frame b_phi b) by reflexivity. rewrite U, A.
  frame; rewrite at_other by exact N;
    apply (each_idx _ _ _ (fun b => b_phi b s e v d) s);
    try exact Hs; try (cbn beta; apply negb_true_iff, Nat.eqb_neq, N);
    try (intros b'; cbn [b_phi load_phi]; rewrite at_same; apply gather3_in, H);
    intros j b' Nj; cbn [b_phi load_phi]; rewrite at_other by (intros Q; apply Nj; symmetry; exact Q); reflexivity.
Qed.

Lemma gathered_phi_only b s e v d :
  use_only_sol c = true -> c_adjoint c = true -> (s < length (c_phi c))%nat ->
  has_dof (g_n g) (y_off y s) e v d ->
  b_phi (perform_gather y c g b) s e v d = entry y g s e v d (vnth (c_phi c) s).
Proof.
  intros U A Hs H. unfold perform_gather. rewrite (param_frame b_phi b) by reflexivity. rewrite U, A.
  apply (each_idx _ _ _ (fun b => b_phi b s e v d) s);
    try exact Hs; try reflexivity;
    try (intros b'; cbn [b_phi load_phi]; rewrite at_same; apply gather3_in, H);
    intros j b' Nj; cbn [b_phi load_phi]; rewrite at_other by (intros Q; apply Nj; symmetry; exact Q); reflexivity.
Qed.

Lemma gathered_phi_prev b e v d k :
  use_only_sol c = false -> c_adjoint c = true -> (k < length (c_phi_prev c))%nat ->
  has_dof (g_n g) (y_off y (c_set c)) e v d ->
  b_pprev (perform_gather y c g b) (c_set c) e v d k = entry y g (c_set c) e v d (vnth (c_phi_prev c) k).
Proof.
  intros U A Hk H. unfold perform_gather. rewrite (param_frame b_pprev b) by reflexivity. rewrite U, A.
  apply (each_idx _ _ _ (fun b => b_pprev b (c_set c) e v d k) k);
    try exact Hk; try reflexivity;
    try (intros b'; cbn [b_pprev load_pprev]; rewrite at_same; apply gather4_in, H);
    intros j b' Nj; cbn [b_pprev load_pprev]; rewrite at_same; apply gather4_other;
    intros Q; apply Nj; symmetry; exact Q.
Qed.

Lemma gathered_phi_stage b e v d k :
  use_only_sol c = false -> c_adjoint c = true -> (k < length (c_phi_stage c))%nat -> (k < c_stage c)%nat ->
  has_dof (g_n g) (y_off y (c_set c)) e v d ->
  b_pstage (perform_gather y c g b) (c_set c) e v d k = entry y g (c_set c) e v d (vnth (c_phi_stage c) k).
Proof.
  intros U A Hk Hs H. unfold perform_gather. rewrite (param_frame b_pstage b) by reflexivity. rewrite U, A.
  frame. apply (each_idx _ _ _ (fun b => b_pstage b (c_set c) e v d k) k);
    try exact Hk; try (cbn beta; apply Nat.ltb_lt, Hs);
    try (intros b'; cbn [b_pstage load_pstage]; rewrite at_same; apply gather4_in, H);
    intros j b' Nj; cbn [b_pstage load_pstage]; rewrite at_same; apply gather4_other;
    intros Q; apply Nj; symmetry; exact Q.
Qed.

(** Without stage and history vectors the history buffers keep what they held. *)
Lemma only_keeps b s : use_only_sol c = true ->
  b_sprev (perform_gather y c g b) s = b_sprev b s /\ b_sstage (perform_gather y c g b) s = b_sstage b s.
Proof.
  intros U. unfold perform_gather.
  rewrite (param_frame b_sprev b) by reflexivity. rewrite (param_frame b_sstage b) by reflexivity. rewrite U.
  destruct (c_adjoint c); frame; split; reflexivity.
Qed.

(** A stage mode gather leaves the history of the other sets. *)
Lemma other_keeps b s : s <> c_set c ->
  (forall e v d k, b_sprev (perform_gather y c g b) s e v d k = b_sprev b s e v d k).
Proof.
  intros N e v d k. destruct (use_only_sol c) eqn:U; [rewrite (proj1 (only_keeps b s U)); reflexivity|].
  unfold perform_gather. rewrite (param_frame b_sprev b) by reflexivity. rewrite U.
  destruct (c_adjoint c); frame;
    (transitivity (b_sprev (each (c_sol_stage c) (fun s0 => Nat.ltb s0 (c_stage c)) (load_sstage y g (c_set c))
        (load_sol y g (c_set c) (vnth (c_sol_stage c) (c_stage c))
          (each (c_sol c) (fun s0 => negb (Nat.eqb s0 (c_set c))) (load_sol y g) b))) s e v d k);
     [apply (each_skip _ _ _ (fun b => b_sprev b s e v d k)); intros j b' _; cbn [b_sprev load_sprev];
      rewrite at_other by exact N; reflexivity
     |frame; reflexivity]).
Qed.
End Group.

(** ** The sweep *)
Lemma sweep_seen y tr ti c gs : forall b w i g bi wi,
  visited y tr ti c gs b w i g bi wi ->
  exists b0 w0, bi = perform_gather y c g b0 /\ wi = update_wset tr ti c (c_params c) bi w0.
Proof.
  induction gs as [|g0 tl IH]; intros b w i g bi wi (H1 & H2); [destruct i; discriminate|].
  cbn [sweep] in H2.
  destruct (sweep y tr ti c tl (perform_gather y c g0 b)
              (update_wset tr ti c (c_params c) (perform_gather y c g0 b) w)) as (seen, last) eqn:E.
  cbn [fst] in H2. destruct i as [|i]; cbn [nth_error] in H1, H2.
  - inversion H1; inversion H2; subst. exists b, w. split; reflexivity.
  - apply (IH (perform_gather y c g0 b) (update_wset tr ti c (c_params c) (perform_gather y c g0 b) w) i).
    split; [exact H1|]. rewrite E. exact H2.
Qed.

Lemma sweep_length y tr ti c gs : forall b w, length (fst (sweep y tr ti c gs b w)) = length gs.
Proof.
  induction gs as [|g tl IH]; intros b w; [reflexivity|]. cbn [sweep].
  specialize (IH (perform_gather y c g b) (update_wset tr ti c (c_params c) (perform_gather y c g b) w)).
  destruct (sweep y tr ti c tl _ _) as (seen, last). cbn [fst] in *. cbn [length]. rewrite IH. reflexivity.
Qed.

Lemma fold_rsum (f : nat -> R) l a : fold_left (fun acc s => acc + f s) l a = a + sm l f.
Proof.
  revert a. induction l as [|x tl IH]; intros a; cbn [fold_left]; [unfold sm; cbn; lra|].
  rewrite IH. change (sm (x :: tl) f) with (f x + sm tl f). lra.
Qed.

Lemma fold_ext_in {A} (f h : A -> nat -> A) l : (forall a s, In s l -> f a s = h a s) ->
  forall a, fold_left f l a = fold_left h l a.
Proof.
  induction l as [|x tl IH]; intros H a; [reflexivity|]. cbn [fold_left].
  rewrite H by (left; reflexivity). apply IH. intros a' s Hs. apply H. right. exact Hs.
Qed.

(** C236: in a time step the residual of every group and boundary group of the block is
    evaluated with the stage value combined with the group's own entries of the history
    and of the earlier stages, whatever the buffers and the workset held before and
    whichever groups were treated before. *)
Theorem C236_stage y ti c gs b w i g bi wi e v d :
  visited y true ti c gs b w i g bi wi ->
  use_only_sol c = false ->
  (c_stage c < length (c_sol_stage c))%nat -> (0 < length (c_sol_prev c))%nat ->
  (length (i_wts ti) <= S (length (c_sol_prev c)))%nat ->
  has_dof (g_n g) (y_off y (c_set c)) e v d ->
  let val := entry y g (c_set c) e v d in
  let stage := c_stage c in
  let a := aij (i_tab ti) in let bw := Tableau_Model.bi (i_tab ti) in
  w_u wi (c_set c) e v d =
    a stage stage / bw stage * val (vnth (c_sol_stage c) stage)
    + (1 - a stage stage / bw stage) * val (vnth (c_sol_prev c) 0)
    + sm (seq 0 stage) (fun s => a stage s / bw s * (val (vnth (c_sol_stage c) s) - val (vnth (c_sol_prev c) 0)))
  /\ w_dot wi (c_set c) e v d =
    1 / i_dt ti / bw stage *
      (nth 0 (i_wts ti) 0 * val (vnth (c_sol_stage c) stage)
       + sm (seq 1 (length (i_wts ti) - 1)) (fun s => nth s (i_wts ti) 0 * val (vnth (c_sol_prev c) (s - 1)))).
Proof.
  intros V U Hs Hp Hw H val stage a bw. destruct (sweep_seen _ _ _ _ _ _ _ _ _ _ _ V) as (b0 & w0 & -> & ->).
  cbn [w_u w_dot update_wset]. rewrite Nat.eqb_refl. cbn [andb].
  unfold state_of, dot_of. cbn [inj vadd vsub vscal scalars]. split.
  - rewrite (fold_ext_in _ (fun acc s => acc + a stage s / bw s *
        (val (vnth (c_sol_stage c) s) - val (vnth (c_sol_prev c) 0)))).
    + rewrite fold_rsum, gathered_cur, gathered_prev by (assumption || lia).
      fold val stage a. unfold bw, Rdiv. ring.
    + intros acc s I. apply in_seq in I. rewrite gathered_stage by (assumption || lia).
      rewrite gathered_prev by (assumption || lia). reflexivity.
  - rewrite (fold_ext_in _ (fun acc s => acc + nth s (i_wts ti) 0 * val (vnth (c_sol_prev c) (s - 1)))).
    + rewrite fold_rsum, gathered_cur by assumption. fold val stage. unfold bw, Rdiv. ring.
    + intros acc s I. apply in_seq in I. rewrite gathered_prev by (assumption || lia). reflexivity.
Qed.
Print Assumptions C236_stage.

(** C237: the other physics sets in a time step, and every set in a steady sweep, are
    evaluated with the solution vector of that set; the discretized parameters with the
    parameter vector. *)
Theorem C237_values y tr ti c gs b w i g bi wi s e v d :
  visited y tr ti c gs b w i g bi wi ->
  (s < length (c_sol c))%nat ->
  (use_only_sol c = false /\ s <> c_set c \/ use_only_sol c = true /\ (tr = false \/ s <> c_set c)) ->
  has_dof (g_n g) (y_off y s) e v d ->
  w_u wi s e v d = entry y g s e v d (vnth (c_sol c) s).
Proof.
  intros V Hs M H. destruct (sweep_seen _ _ _ _ _ _ _ _ _ _ _ V) as (b0 & w0 & -> & ->).
  cbn [w_u update_wset].
  destruct M as [(U & N)|(U & [->|N])].
  - rewrite (proj2 (Nat.eqb_neq _ _) N), andb_false_r. apply gathered_other; assumption.
  - cbn [andb]. apply gathered_only; assumption.
  - rewrite (proj2 (Nat.eqb_neq _ _) N), andb_false_r. apply gathered_only; assumption.
Qed.
Print Assumptions C237_values.

Theorem C237_parameters y tr ti c gs b w i g bi wi e v d :
  visited y tr ti c gs b w i g bi wi -> (0 < c_params c)%nat ->
  has_dof (g_n g) (y_poff y) e v d ->
  w_param wi e v d = pentry y g e v d (c_param c).
Proof.
  intros V P H. destruct (sweep_seen _ _ _ _ _ _ _ _ _ _ _ V) as (b0 & w0 & -> & ->).
  cbn [w_param update_wset]. rewrite (proj2 (Nat.ltb_lt _ _) P). apply gathered_param; assumption.
Qed.
Print Assumptions C237_parameters.

(** Only the plain vectors are used exactly when neither stage nor previous vectors are given. *)
Theorem C236_when c : use_only_sol c = true <-> c_sol_stage c = [] /\ c_sol_prev c = [].
Proof.
  unfold use_only_sol. rewrite Bool.andb_true_iff, !Nat.eqb_eq.
  destruct (c_sol_stage c), (c_sol_prev c); cbn; split; intros [H1 H2]; split; congruence.
Qed.
Print Assumptions C236_when.

(** C238: in an adjoint sweep the adjoint data of a group are its entries of the adjoint
    vectors (stage, history, earlier stages, other sets). *)
Theorem C238_adjoint y tr ti c gs b w i g bi wi e v d :
  visited y tr ti c gs b w i g bi wi -> c_adjoint c = true ->
  (forall s, (s < length (c_phi c))%nat -> has_dof (g_n g) (y_off y s) e v d ->
     use_only_sol c = true \/ s <> c_set c ->
     b_phi bi s e v d = entry y g s e v d (vnth (c_phi c) s))
  /\ (use_only_sol c = false -> has_dof (g_n g) (y_off y (c_set c)) e v d ->
      b_phi bi (c_set c) e v d = entry y g (c_set c) e v d (vnth (c_phi_stage c) (c_stage c))
      /\ (forall k, (k < length (c_phi_prev c))%nat ->
            b_pprev bi (c_set c) e v d k = entry y g (c_set c) e v d (vnth (c_phi_prev c) k))
      /\ (forall k, (k < length (c_phi_stage c))%nat -> (k < c_stage c)%nat ->
            b_pstage bi (c_set c) e v d k = entry y g (c_set c) e v d (vnth (c_phi_stage c) k))).
Proof.
  intros V A. destruct (sweep_seen _ _ _ _ _ _ _ _ _ _ _ V) as (b0 & w0 & -> & ->). split.
  - intros s Hs H [U|N]; [apply gathered_phi_only; assumption|].
    destruct (use_only_sol c) eqn:U; [apply gathered_phi_only; assumption|apply gathered_phi_other; assumption].
  - intros U H. split; [apply gathered_phi_cur; assumption|].
    split; [intros k Hk; apply gathered_phi_prev; assumption|intros k Hk Hs; apply gathered_phi_stage; assumption].
Qed.
Print Assumptions C238_adjoint.

(** Non-vacuity: two groups of one element, one variable with two unknowns, second stage. *)
Definition ex_layout : layout := {| y_off := fun _ => [[0; 1]]; y_poff := [[0]] |}%nat.
Definition ex_group (k : nat) : group :=
  {| g_n := 1; g_lids := fun _ _ o => (k + o)%nat; g_plids := fun _ _ => k |}.
Definition ex_call : call :=
  {| c_set := 0; c_stage := 1; c_adjoint := true;
     c_sol := [INR; fun i => 2 * INR i]; c_sol_stage := [fun i => 3 * INR i; fun i => 5 * INR i];
     c_sol_prev := [fun i => 7 * INR i; fun i => 11 * INR i];
     c_phi := [INR; INR]; c_phi_stage := [INR; INR]; c_phi_prev := [INR];
     c_param := INR; c_params := 1 |}.
Definition junk : buffers :=
  {| b_sol := fun _ _ _ _ => 99; b_phi := fun _ _ _ _ => 99; b_sstage := fun _ _ _ _ _ => 99;
     b_sprev := fun _ _ _ _ _ => 99; b_pstage := fun _ _ _ _ _ => 99; b_pprev := fun _ _ _ _ _ => 99;
     b_param := fun _ _ _ => 99 |}.
Definition junkw : wset := {| w_u := fun _ _ _ _ => 98; w_dot := fun _ _ _ _ => 98; w_param := fun _ _ _ => 98 |}.

Example C236_case : forall ti, exists bi wi,
  visited ex_layout true ti ex_call [ex_group 0; ex_group 1] junk junkw 1 (ex_group 1) bi wi /\
  use_only_sol ex_call = false /\ (c_stage ex_call < length (c_sol_stage ex_call))%nat /\
  has_dof (g_n (ex_group 1)) (y_off ex_layout (c_set ex_call)) 0 0 1 /\
  entry ex_layout (ex_group 1) 0 0 0 1 (vnth (c_sol_stage ex_call) 1) = 10.
Proof.
  intros ti. eexists. eexists. split; [split; reflexivity|]. split; [reflexivity|].
  split; [cbn; lia|]. split; [unfold has_dof; cbn; lia|]. unfold entry, vnth. cbn. lra.
Qed.

(** ** Sweeps without history vectors *)

(** C239: what an assembly evaluates the unknowns with is determined by the vectors, the
    integrator and the group. *)
Definition C239_determined : Prop :=
  forall y tr ti c gs b w b' w' i g bi wi bi' wi' e v d,
  visited y tr ti c gs b w i g bi wi -> visited y tr ti c gs b' w' i g bi' wi' ->
  (c_set c < length (c_sol c))%nat -> has_dof (g_n g) (y_off y (c_set c)) e v d ->
  w_dot wi (c_set c) e v d = w_dot wi' (c_set c) e v d.

(** History of the last group of the previous sweep. *)
Lemma sweep_last_prev y tr ti c gs : forall b w g e v d k,
  use_only_sol c = false -> (k < length (c_sol_prev c))%nat ->
  has_dof (g_n g) (y_off y (c_set c)) e v d ->
  b_sprev (fst (snd (sweep y tr ti c (gs ++ [g]) b w))) (c_set c) e v d k = entry y g (c_set c) e v d (vnth (c_sol_prev c) k).
Proof.
  induction gs as [|g0 tl IH]; intros b w g e v d k U Hk H.
  - cbn. apply gathered_prev; assumption.
  - cbn [app sweep].
    specialize (IH (perform_gather y c g0 b) (update_wset tr ti c (c_params c) (perform_gather y c g0 b) w) g e v d k U Hk H).
    destruct (sweep y tr ti c (tl ++ [g]) _ _) as (seen, last). cbn [snd] in *. exact IH.
Qed.

Lemma sweep_only_prev y tr ti c gs : forall b w i g bi wi s,
  use_only_sol c = true -> visited y tr ti c gs b w i g bi wi -> b_sprev bi s = b_sprev b s.
Proof.
  induction gs as [|g0 tl IH]; intros b w i g bi wi s U (H1 & H2); [destruct i; discriminate|].
  cbn [sweep] in H2.
  destruct (sweep y tr ti c tl (perform_gather y c g0 b)
              (update_wset tr ti c (c_params c) (perform_gather y c g0 b) w)) as (seen, last) eqn:E.
  cbn [fst] in H2. destruct i as [|i]; cbn [nth_error] in H1, H2.
  - inversion H2; subst. apply (only_keeps y c g0 b s U).
  - rewrite (IH (perform_gather y c g0 b) (update_wset tr ti c (c_params c) (perform_gather y c g0 b) w) i g bi wi s U).
    + apply (only_keeps y c g0 b s U).
    + split; [exact H1|]. rewrite E. exact H2.
Qed.

(** What happens instead: after a time step, a sweep without history vectors gives every
    group the history of the last group of the step, at the same position. *)
Theorem C239_determined_partial y ti c c2 gs1 glast gs2 b w i g bi wi e v d :
  use_only_sol c = false -> use_only_sol c2 = true -> c_set c2 = c_set c ->
  (length (i_wts ti) <= S (length (c_sol_prev c)))%nat ->
  has_dof (g_n glast) (y_off y (c_set c)) e v d ->
  has_dof (g_n g) (y_off y (c_set c)) e v d -> (c_set c < length (c_sol c2))%nat ->
  let last := snd (sweep y true ti c (gs1 ++ [glast]) b w) in
  visited y true ti c2 gs2 (fst last) (snd last) i g bi wi ->
  w_dot wi (c_set c) e v d =
    1 / i_dt ti / Tableau_Model.bi (i_tab ti) (c_stage c2) *
      (nth 0 (i_wts ti) 0 * entry y g (c_set c) e v d (vnth (c_sol c2) (c_set c))
       + sm (seq 1 (length (i_wts ti) - 1))
            (fun s => nth s (i_wts ti) 0 * entry y glast (c_set c) e v d (vnth (c_sol_prev c) (s - 1)))).
Proof.
  intros U U2 Ec Hw Hl Hg Hs last V.
  assert (P : b_sprev bi (c_set c) = b_sprev (fst last) (c_set c)) by (apply (sweep_only_prev _ _ _ _ _ _ _ _ _ _ _ _ U2 V)).
  destruct (sweep_seen _ _ _ _ _ _ _ _ _ _ _ V) as (b0 & w0 & Eb & ->).
  cbn [w_dot update_wset]. rewrite Ec, Nat.eqb_refl. cbn [andb].
  unfold dot_of. cbn [inj vadd vsub vscal scalars]. rewrite P.
  rewrite (fold_ext_in _ (fun acc s => acc + nth s (i_wts ti) 0 * entry y glast (c_set c) e v d (vnth (c_sol_prev c) (s - 1)))).
  - rewrite fold_rsum, Eb, gathered_only by assumption. unfold Rdiv. ring.
  - intros acc s I. apply in_seq in I. unfold last. rewrite sweep_last_prev by (assumption || lia). reflexivity.
Qed.
Print Assumptions C239_determined_partial.

Definition be : integrator := {| i_tab := {| tA := [[1]]; tb := [1]; tc := [1] |}; i_wts := [1; -1]; i_dt := 1 |}.

(** The call that assembles the Jacobian with respect to the discretized parameters. *)
Theorem C239_determined_refuted : ~ C239_determined.
Proof.
  intros H.
  set (c := param_jacobian_call [INR] INR 1).
  set (z := {| b_sol := fun _ _ _ _ => 0; b_phi := fun _ _ _ _ => 0; b_sstage := fun _ _ _ _ _ => 0;
     b_sprev := fun _ _ _ _ _ => 0; b_pstage := fun _ _ _ _ _ => 0; b_pprev := fun _ _ _ _ _ => 0;
     b_param := fun _ _ _ => 0 |}).
  specialize (H ex_layout true be c [ex_group 0] junk junkw z junkw 0%nat (ex_group 0)).
  specialize (H _ _ _ _ 0%nat 0%nat 0%nat (conj eq_refl eq_refl) (conj eq_refl eq_refl)).
  assert (L : (c_set c < length (c_sol c))%nat) by (cbn; lia).
  assert (D : has_dof (g_n (ex_group 0)) (y_off ex_layout (c_set c)) 0 0 0) by (unfold has_dof; cbn; lia).
  specialize (H L D). revert H.
  cbn [w_dot update_wset]. rewrite Nat.eqb_refl. cbn [andb].
  unfold dot_of. cbn [inj vadd vsub vscal scalars].
  assert (K : forall b s, b_sprev (perform_gather ex_layout c (ex_group 0) b) s = b_sprev b s)
    by (intros b s; apply (only_keeps ex_layout c (ex_group 0) b s eq_refl)).
  rewrite !K. rewrite !gathered_only by (reflexivity || exact L || exact D).
  cbn. intros H. lra.
Qed.
Print Assumptions C239_determined_refuted.

(** C240: the rate of every unknown the residual can read is that of the current step. *)
Definition C240_rates : Prop :=
  forall y ti c gs b w b' w' i g bi wi bi' wi' s e v d,
  visited y true ti c gs b w i g bi wi -> visited y true ti c gs b' w' i g bi' wi' ->
  use_only_sol c = false -> (s < length (c_sol c))%nat -> has_dof (g_n g) (y_off y s) e v d ->
  w_dot wi s e v d = w_dot wi' s e v d.

(** The rate of a set other than the one being advanced is whatever the workset held. *)
Theorem C240_rates_partial y ti c gs : forall b w i g bi wi s e v d,
  s <> c_set c -> visited y true ti c gs b w i g bi wi -> w_dot wi s e v d = w_dot w s e v d.
Proof.
  induction gs as [|g0 tl IH]; intros b w i g bi wi s e v d N (H1 & H2); [destruct i; discriminate|].
  cbn [sweep] in H2.
  assert (K : w_dot (update_wset true ti c (c_params c) (perform_gather y c g0 b) w) s e v d = w_dot w s e v d).
  { cbn [w_dot update_wset]. rewrite (proj2 (Nat.eqb_neq _ _) N), andb_false_r. reflexivity. }
  destruct (sweep y true ti c tl (perform_gather y c g0 b)
              (update_wset true ti c (c_params c) (perform_gather y c g0 b) w)) as (seen, last) eqn:E.
  cbn [fst] in H2. destruct i as [|i]; cbn [nth_error] in H1, H2.
  - inversion H2; subst. exact K.
  - rewrite (IH (perform_gather y c g0 b) (update_wset true ti c (c_params c) (perform_gather y c g0 b) w) i g bi wi s e v d N).
    + exact K.
    + split; [exact H1|]. rewrite E. exact H2.
Qed.
Print Assumptions C240_rates_partial.

Theorem C240_rates_refuted : ~ C240_rates.
Proof.
  intros H.
  specialize (H ex_layout be ex_call [ex_group 0] junk junkw junk
     {| w_u := fun _ _ _ _ => 98; w_dot := fun _ _ _ _ => 0; w_param := fun _ _ _ => 98 |} 0%nat (ex_group 0)).
  specialize (H _ _ _ _ 1%nat 0%nat 0%nat 0%nat (conj eq_refl eq_refl) (conj eq_refl eq_refl)).
  assert (L : (1 < length (c_sol ex_call))%nat) by (cbn; lia).
  assert (D : has_dof (g_n (ex_group 0)) (y_off ex_layout 1) 0 0 0) by (unfold has_dof; cbn; lia).
  specialize (H eq_refl L D). revert H. cbn [w_dot update_wset junkw ex_call c_set Nat.eqb andb]. lra.
Qed.
Print Assumptions C240_rates_refuted.
