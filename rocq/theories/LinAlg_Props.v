(** C229-C231 (graphs and numbering), C232 (exchange of vectors), C233 (reuse of matrices), C234,
    C235 (options of the linear solvers). *)
From Coq Require Import Bool Arith Lia ZArith Reals Lra String List Permutation.
From Verif Require Import BProj_Model BProj_Proofs Init_Props PostErr_Props LinAlg_Model.
Import ListNotations.
Local Open Scope nat_scope.
Local Notation length := List.length.

(** *** C229 *)

(** The graph couples exactly the unknowns that share an element. *)
Theorem C229_graph elems r c : In (r, c) (graph 1 1 elems) <-> exists e, In e elems /\ In r e /\ In c e.
Proof.
  unfold graph. rewrite in_flat_map. split.
  - intros (e & E & H). apply in_flat_map in H. destruct H as (g & G & H). cbn [seq flat_map app] in H. rewrite !app_nil_r in H.
    apply in_map_iff in H. destruct H as (c' & X & C). injection X as <- <-. exists e. rewrite Nat.add_0_r, Nat.add_0_r. auto.
  - intros (e & E & R & C). exists e. split; auto. apply in_flat_map. exists r. split; auto. cbn [seq flat_map app]. rewrite !app_nil_r.
    apply in_map_iff. exists c. split; auto. f_equal. lia.
Qed.

(** ... and these are the columns of a row. *)
Theorem C229_columns elems r c : In c (columns (graph 1 1 elems) r) <-> exists e, In e elems /\ In r e /\ In c e.
Proof.
  rewrite <- C229_graph. unfold columns. rewrite in_map_iff. split.
  - intros ([a b] & E & H). cbn in E. subst b. apply filter_In in H. destruct H as [H E]. cbn in E. apply Nat.eqb_eq in E. subst a. exact H.
  - intros H. exists (r, c). split; [reflexivity|]. apply filter_In. split; [exact H|]. cbn. apply Nat.eqb_refl.
Qed.
Print Assumptions C229_columns.

Lemma sum_le {A} (f g : A -> nat) l : (forall x, In x l -> f x <= g x) -> list_sum (map f l) <= list_sum (map g l).
Proof. induction l as [|a l IH]; intro H; [auto|]. change (f a + list_sum (map f l) <= g a + list_sum (map g l)). apply Nat.add_le_mono; [apply H; left; auto|apply IH; intros; apply H; right; auto]. Qed.
Lemma columns_flat {A} (f : A -> list (nat * nat)) l r : length (columns (flat_map f l) r) = list_sum (map (fun x => length (columns (f x) r)) l).
Proof.
  induction l as [|a l IH]; [reflexivity|]. cbn [flat_map map list_sum fold_right]. fold (list_sum (map (fun x => length (columns (f x) r)) l)).
  unfold columns at 1. rewrite filter_app, map_app, app_length. unfold columns in IH |- *. rewrite IH. reflexivity.
Qed.
Lemma sum_flat {A} (f : A -> list nat) l : list_sum (flat_map f l) = list_sum (map (fun x => list_sum (f x)) l).
Proof. induction l as [|a l IH]; [reflexivity|]. cbn [flat_map map]. rewrite list_sum_app, IH. reflexivity. Qed.
Lemma columns_row (a r : nat) (e : list nat) : length (columns (map (fun c => (a, c)) e) r) = if a =? r then length e else 0.
Proof.
  unfold columns. rewrite map_length. induction e as [|c e IH]; cbn [map filter fst]; [destruct (a =? r); reflexivity|].
  destruct (a =? r); cbn [length]; rewrite IH; reflexivity.
Qed.
Lemma columns_size n np elems r : length (columns (graph n np elems) r) <= row_size n np elems r.
Proof.
  unfold graph, row_size. rewrite columns_flat, sum_flat. apply sum_le. intros e _. rewrite columns_flat, sum_flat. apply sum_le. intros g _.
  rewrite columns_flat, sum_flat. apply sum_le. intros q _. rewrite columns_flat, sum_flat. apply sum_le. intros j J. apply in_seq in J.
  rewrite columns_row. destruct (n * g + j =? r); [cbn [list_sum fold_right]|cbn; lia]. destruct n as [|n]; [lia|]. nia.
Qed.
Lemma max_le n np elems r : forall rows m, (In r rows -> row_size n np elems r <= fold_left (fun m r => Nat.max m (row_size n np elems r)) rows m) /\
  m <= fold_left (fun m r => Nat.max m (row_size n np elems r)) rows m.
Proof.
  induction rows as [|a rows IH]; intro m; cbn [fold_left In]; [split; [tauto|lia]|].
  destruct (IH (Nat.max m (row_size n np elems a))) as [H1 H2]. split; [intros [->|H]; [|auto]|]; lia.
Qed.
(** What is reserved for a row is enough for its entries, with or without phase space. *)
Theorem C229_room n np elems rows r : In r rows -> length (nodup Nat.eq_dec (columns (graph n np elems) r)) <= max_size n np elems rows.
Proof.
  intro R. apply Nat.le_trans with (length (columns (graph n np elems) r)).
  - apply NoDup_incl_length; [apply NoDup_nodup|]. intros x X. apply nodup_In in X. exact X.
  - apply Nat.le_trans with (row_size n np elems r); [apply columns_size|]. apply (max_le n np elems r rows 0). exact R.
Qed.
Example C229_example : In (1, 3) (graph 1 1 [[0; 1; 2]; [1; 3]]) /\ ~ In (0, 3) (graph 1 1 [[0; 1; 2]; [1; 3]]) /\
  max_size 1 1 [[0; 1; 2]; [1; 3]] [0; 1; 2; 3] = 5.
Proof. split; [vm_compute; tauto|split; [vm_compute; intuition discriminate|reflexivity]]. Qed.

(** *** C230 *)

Lemma expand_app n a b : expand n (a ++ b) = (expand n a ++ expand n b).
Proof. apply flat_map_app. Qed.
Lemma expand_seq n N : expand n (seq 0 N) = seq 0 (N * n).
Proof.
  induction N as [|N IH]; [reflexivity|]. rewrite seq_S, expand_app, IH. cbn [expand flat_map plus]. unfold expand. cbn [flat_map]. rewrite app_nil_r.
  replace (S N * n) with (N * n + n) by lia. rewrite seq_app. f_equal. cbn [plus]. clear IH. generalize (N * n). intro a.
  rewrite <- (map_id (seq a n)). revert a. induction n as [|n IHn]; intro a; [reflexivity|]. cbn [seq map]. rewrite Nat.add_0_r. f_equal.
  rewrite <- seq_shift, map_map. specialize (IHn (S a)). rewrite <- IHn. apply map_ext. intros. lia.
Qed.
Lemma expand_concat n ls : concat (map (expand n) ls) = expand n (concat ls).
Proof. induction ls as [|l ls IH]; [reflexivity|]. cbn [map concat]. rewrite expand_app, IH. reflexivity. Qed.
(** If the spatial unknowns 0 .. N-1 are shared out among the processes, so are the N n unknowns of
    the product with phase space, each once. *)
Theorem C230_numbering n N owns : Permutation (concat owns) (seq 0 N) -> Permutation (concat (map (expand n) owns)) (seq 0 (N * n)).
Proof. intro H. rewrite expand_concat, <- expand_seq. apply Permutation_flat_map. exact H. Qed.
(** Different pairs have different numbers, and the pair can be read off. *)
Theorem C230_pairs n g p : p < n -> (g * n + p) / n = g /\ (g * n + p) mod n = p.
Proof.
  intro H. split.
  - rewrite Nat.div_add_l by lia. rewrite Nat.div_small by lia. lia.
  - rewrite Nat.add_comm, Nat.mod_add by lia. apply Nat.mod_small. exact H.
Qed.
Example C230_example : Permutation (concat [[2; 0]; [1]]) (seq 0 3) /\ concat (map (expand 2) [[2; 0]; [1]]) = [4; 5; 0; 1; 2; 3].
Proof.
  split; [|reflexivity]. cbn. apply perm_trans with [0; 2; 1]; [apply perm_swap|apply perm_skip, perm_swap].
Qed.

(** *** C231 *)

(** Two unknowns of an element and of phase space are coupled. *)
Definition coupled (n np : nat) (elems : list (list nat)) : Prop :=
  forall e g g' p p', In e elems -> In g e -> In g' e -> p < n -> p' < n -> In (g * n + p, g' * n + p') (graph n np elems).
Theorem C231_partial elems : coupled 1 1 elems.
Proof.
  intros e g g' p p' E G G' P P'. apply C229_graph. exists e. replace (g * 1 + p) with g by lia. replace (g' * 1 + p') with g' by lia. auto.
Qed.
Theorem C231_refuted : ~ coupled 2 1 [[0; 1]].
Proof.
  intro H. specialize (H [0; 1] 0 1 0 0 (or_introl eq_refl) (or_introl eq_refl) (or_intror (or_introl eq_refl)) ltac:(lia) ltac:(lia)).
  vm_compute in H. intuition discriminate.
Qed.

(** *** C232 *)

Section Exchange.
Variable ps : list pmap.
Definition owns (p k g : nat) : Prop := p < length ps /\ k < length (own (part ps p)) /\ number (own (part ps p)) k = g.
Definition holds (p i g : nat) : Prop := p < length ps /\ i < length (over (part ps p)) /\ number (over (part ps p)) i = g.
(** Each number has one owner, who has a copy; each copy has an owner; a single process has only what it owns. *)
Definition shared : Prop :=
  (forall p k q j g, owns p k g -> owns q j g -> p = q /\ k = j) /\
  (forall p k g, owns p k g -> exists i, holds p i g) /\
  (forall p i g, holds p i g -> exists q k, owns q k g) /\
  (length ps = 1 -> over (part ps 0) = own (part ps 0)).
Lemma in_copies f q i g : In (q, i) (copies f ps g) <-> q < length ps /\ i < length (f (part ps q)) /\ number (f (part ps q)) i = g.
Proof.
  unfold copies. rewrite in_flat_map. split.
  - intros (q' & Q & H). apply in_map_iff in H. destruct H as (i' & E & H). injection E as -> ->. apply filter_In in H. destruct H as [H1 H2].
    apply in_seq in Q, H1. apply Nat.eqb_eq in H2. cbn in *. lia.
  - intros (Q & I & N). exists q. split; [apply in_seq; lia|]. apply in_map_iff. exists i. split; auto. apply filter_In.
    split; [apply in_seq; lia|]. apply Nat.eqb_eq. exact N.
Qed.
Lemma sm_copies f g (F : nat * nat -> R) : sm (copies f ps g) F =
  sm (seq 0 (length ps)) (fun q => sm (seq 0 (length (f (part ps q)))) (fun i => if number (f (part ps q)) i =? g then F (q, i) else 0%R)).
Proof. unfold copies. rewrite sm_flat. apply sm_ext. intros q _. rewrite sm_map, sm_filter. reflexivity. Qed.
Lemma sm_owner (H : shared) q k g (F : nat * nat -> R) : owns q k g -> sm (copies own ps g) F = F (q, k).
Proof.
  intros (Q & K & N). destruct H as (U & _). rewrite sm_copies.
  rewrite (sm_ext _ _ (fun q' => if q' =? q then F (q, k) else 0%R)); [apply (sm_single (length ps) q (fun _ => F (q, k)) Q)|].
  intros q' Q'. apply in_seq in Q'. destruct (Nat.eqb_spec q' q) as [->|D].
  - rewrite (sm_ext _ _ (fun i => if i =? k then F (q, i) else 0%R)); [apply (sm_single _ k (fun i => F (q, i)) K)|].
    intros i I. apply in_seq in I. destruct (Nat.eqb_spec (number (own (part ps q)) i) g) as [E|E]; destruct (Nat.eqb_spec i k) as [->|D]; auto.
    + destruct (U q i q k g) as [_ ->]; [split; [|split]; auto; lia|split; [|split]; auto|]. contradiction.
    + contradiction.
  - apply sm_zero. intros i I. apply in_seq in I. destruct (Nat.eqb_spec (number (own (part ps q')) i) g) as [E|E]; auto.
    destruct (U q' i q k g) as [-> _]; [split; [|split]; auto; lia|split; [|split]; auto|]. contradiction.
Qed.

(** Export with addition: an owned entry is the sum of all copies. *)
Theorem C232_export (H : shared) v p k g : owns p k g ->
  export_add ps v p k = sm (seq 0 (length ps)) (fun q => sm (seq 0 (length (over (part ps q)))) (fun i => if number (over (part ps q)) i =? g then v q i else 0%R)).
Proof.
  intros (P & K & N). unfold export_add. destruct (Nat.eqb_spec (length ps) 1) as [E|E].
  - destruct H as (U & _ & _ & A). rewrite E. cbn [seq]. rewrite sm_cons, sm_nil, Rplus_0_r. assert (p = 0) as -> by lia. rewrite (A E).
    symmetry. rewrite (sm_ext _ _ (fun i => if i =? k then v 0 i else 0%R)); [apply (sm_single _ k (fun i => v 0 i) K)|].
    intros i I. apply in_seq in I. destruct (Nat.eqb_spec (number (own (part ps 0)) i) g) as [D|D]; destruct (Nat.eqb_spec i k) as [->|D']; auto.
    + destruct (U 0 i 0 k g) as [_ ->]; [split; [|split]; auto; lia|split; [|split]; auto|]. contradiction.
    + contradiction.
  - rewrite sm_copies, N. reflexivity.
Qed.
(** Import: every copy receives the value of the owner. *)
Theorem C232_import (H : shared) w p i g q k : holds p i g -> owns q k g -> import_over ps w p i = w q k.
Proof. intros (P & I & N) O. unfold import_over. rewrite N. rewrite (sm_owner H q k g _ O). reflexivity. Qed.
(** A vector whose copies agree survives the way to the owners and back. *)
Definition agrees (v : vec) (x : nat -> R) : Prop := forall p i g, holds p i g -> v p i = x g.
Lemma fold_same (v : vec) (a : R) : forall l b, (forall qi, In qi l -> v (fst qi) (snd qi) = a) -> l <> [] -> fold_left (fun _ qi => v (fst qi) (snd qi)) l b = a.
Proof.
  induction l as [|x l IH]; intros b H N; [congruence|]. cbn [fold_left]. destruct l as [|y l]; [cbn; apply H; left; auto|].
  apply IH; [intros; apply H; right; auto|discriminate].
Qed.
Theorem C232_replace (H : shared) v x p k g : agrees v x -> owns p k g -> export_replace ps v p k = x g.
Proof.
  intros A O. pose proof O as (P & K & N). unfold export_replace. destruct (Nat.eqb_spec (length ps) 1) as [E|E].
  - destruct H as (_ & _ & _ & S). assert (p = 0) as -> by lia. apply A. split; [auto|]. rewrite (S E). auto.
  - rewrite N. apply fold_same.
    + intros [q i] I. apply in_copies in I. cbn. apply A. exact I.
    + destruct H as (_ & C & _). destruct (C p k g O) as (i & I). intro X. assert (In (p, i) (copies over ps g)) as Y by (apply in_copies; exact I). rewrite X in Y. destruct Y.
Qed.
Theorem C232_round_trip (H : shared) v x p i g : agrees v x -> holds p i g -> import_over ps (export_replace ps v) p i = v p i.
Proof.
  intros A D. pose proof H as (_ & _ & C & _). destruct (C p i g D) as (q & k & O). rewrite (C232_import H _ p i g q k D O).
  rewrite (C232_replace H v x q k g A O). symmetry. apply A. exact D.
Qed.
(** Import is the transpose of export with addition. *)
Theorem C232_transpose (H : shared) v w :
  sm (seq 0 (length ps)) (fun p => sm (seq 0 (length (own (part ps p)))) (fun k => (export_add ps v p k * w p k)%R)) =
  sm (seq 0 (length ps)) (fun q => sm (seq 0 (length (over (part ps q)))) (fun i => (v q i * import_over ps w q i)%R)).
Proof.
  transitivity (sm (seq 0 (length ps)) (fun p => sm (seq 0 (length (own (part ps p)))) (fun k => sm (seq 0 (length ps)) (fun q =>
     sm (seq 0 (length (over (part ps q)))) (fun i => if number (over (part ps q)) i =? number (own (part ps p)) k then (v q i * w p k)%R else 0%R))))).
  - apply sm_ext. intros p P. apply sm_ext. intros k K. apply in_seq in P, K.
    rewrite (C232_export H v p k (number (own (part ps p)) k)) by (split; [|split]; auto; lia).
    rewrite <- sm_scal_r. apply sm_ext. intros q _. rewrite <- sm_scal_r. apply sm_ext. intros i _. destruct (_ =? _); lra.
  - transitivity (sm (seq 0 (length ps)) (fun q => sm (seq 0 (length (over (part ps q)))) (fun i => sm (seq 0 (length ps)) (fun p =>
      sm (seq 0 (length (own (part ps p)))) (fun k => if number (over (part ps q)) i =? number (own (part ps p)) k then (v q i * w p k)%R else 0%R))))).
    + rewrite (sm_ext (seq 0 (length ps)) _ (fun p => sm (seq 0 (length ps)) (fun q => sm (seq 0 (length (over (part ps q)))) (fun i => sm (seq 0 (length (own (part ps p)))) (fun k =>
        if number (over (part ps q)) i =? number (own (part ps p)) k then (v q i * w p k)%R else 0%R))))).
      * rewrite sm_swap. apply sm_ext. intros q _. rewrite sm_swap. reflexivity.
      * intros p _. rewrite sm_swap. apply sm_ext. intros q _. rewrite sm_swap. reflexivity.
    + apply sm_ext. intros q _. apply sm_ext. intros i _. unfold import_over. rewrite sm_copies, <- sm_scal. apply sm_ext. intros p _.
      rewrite <- sm_scal. apply sm_ext. intros k _. cbn [fst snd]. rewrite Nat.eqb_sym. destruct (_ =? _); lra.
Qed.
End Exchange.
Example C232_example : let ps := [{| own := [0; 1]; over := [0; 1; 2] |}; {| own := [2]; over := [2; 1] |}] in
  shared ps /\ (forall v, export_add ps v 0 1 = Rplus (v 0 1) (v 1 1)).
Proof.
  cbv zeta. split.
  - assert (L : forall p, p < 2 -> p = 0 \/ p = 1) by lia. assert (L3 : forall p, p < 3 -> p = 0 \/ p = 1 \/ p = 2) by lia.
    unfold shared, owns, holds. cbn [length]. repeat split.
    + destruct H as (P & K & E), H0 as (Q & J & F). destruct (L _ P) as [-> | ->], (L _ Q) as [-> | ->]; cbn in *; auto; exfalso.
      * destruct (L _ K) as [-> | ->]; assert (j = 0) as -> by lia; cbn in *; congruence.
      * destruct (L _ J) as [-> | ->]; assert (k = 0) as -> by lia; cbn in *; congruence.
    + destruct H as (P & K & E), H0 as (Q & J & F). destruct (L _ P) as [-> | ->], (L _ Q) as [-> | ->]; cbn in *; try lia.
      * destruct (L _ K) as [-> | ->], (L _ J) as [-> | ->]; cbn in *; congruence.
      * destruct (L _ K) as [-> | ->]; assert (j = 0) as -> by lia; cbn in *; congruence.
      * destruct (L _ J) as [-> | ->]; assert (k = 0) as -> by lia; cbn in *; congruence.
    + intros p k g (P & K & E). destruct (L _ P) as [-> | ->]; cbn in *.
      * exists k. split; [lia|split; [lia|]]. destruct (L _ K) as [-> | ->]; cbn in *; congruence.
      * exists 0. assert (k = 0) as -> by lia. cbn in *. auto.
    + intros p i g (P & I & E). destruct (L _ P) as [-> | ->]; cbn in *.
      * destruct (L3 _ I) as [-> | [-> | ->]]; cbn in *; [exists 0, 0|exists 0, 1|exists 1, 0]; cbn; repeat split; auto; lia.
      * destruct (L _ I) as [-> | ->]; cbn in *; [exists 1, 0|exists 0, 1]; cbn; repeat split; auto; lia.
    + intros; lia.
  - intro v. unfold export_add, copies. cbn. unfold sm. cbn. lra.
Qed.

(** *** C233 *)

Definition iterations {M} (os : list (op M)) : list (nat * option M) :=
  flat_map (fun o => match o with Iterate s j => [(s, Some j)] | _ => [] end) os.
(** Without reuse every linear system is solved with the matrix of that iteration. *)
Theorem C233_current {M} : forall (os : list (op M)) cs, (forall s, reuse (cs s) = false) -> run cs os = iterations os.
Proof.
  induction os as [|o os IH]; intros cs H; [reflexivity|]. cbn [run]. destruct o as [s m| |s j]; cbn [step].
  - unfold take. rewrite (H s). cbn [andb]. rewrite IH; [reflexivity|]. intro t. unfold upd. destruct (t =? s); auto.
  - rewrite IH; [reflexivity|]. intro t. apply H.
  - unfold take. rewrite (H s). cbn [andb]. rewrite IH; [reflexivity|]. intro t. unfold upd. destruct (t =? s); auto.
Qed.
Lemma after_reuse {M} : forall (os : list (op M)) cs s, reuse (after cs os s) = reuse (cs s).
Proof.
  induction os as [|o os IH]; intros cs s; [reflexivity|]. cbn [after]. rewrite IH.
  assert (T : forall (c : ctx M) m, reuse (fst (take c m)) = reuse c).
  { intros c m. unfold take. destruct (reuse c && have c) eqn:E; auto. destruct (reuse c) eqn:R; cbn; auto. }
  destruct o as [t m| |t j]; cbn [step]; auto.
  - pose proof (T (cs t) m) as X. destruct (take (cs t) m) as [c u]. cbn [fst] in *. unfold upd. destruct (Nat.eqb_spec s t) as [->|]; auto.
  - pose proof (T (cs t) j) as X. destruct (take (cs t) j) as [c u]. cbn [fst] in *. unfold upd. destruct (Nat.eqb_spec s t) as [->|]; auto.
Qed.
Lemma after_app {M} : forall (a b : list (op M)) cs, after cs (a ++ b) = after (after cs a) b.
Proof. induction a as [|o a IH]; intros b cs; cbn [app after]; auto. Qed.
(** Operations that leave the matrix of set [s] alone. *)
Definition elsewhere {M} (s : nat) (o : op M) : Prop := match o with Mass t _ => t <> s | Reset => False | Iterate t _ => t <> s end.
Definition no_reset {M} (s : nat) (o : op M) : Prop := match o with Mass t _ => t <> s | Reset => False | Iterate _ _ => True end.
Lemma step_elsewhere {M} (cs : nat -> ctx M) o s : elsewhere s o -> fst (step cs o) s = cs s.
Proof.
  destruct o as [t m| |t j]; cbn [elsewhere step]; intro E; [|destruct E|].
  - destruct (take (cs t) m). cbn. unfold upd. destruct (Nat.eqb_spec s t); congruence.
  - destruct (take (cs t) j). cbn. unfold upd. destruct (Nat.eqb_spec s t); congruence.
Qed.
Lemma after_elsewhere {M} s : forall (os : list (op M)) cs, Forall (elsewhere s) os -> after cs os s = cs s.
Proof. induction os as [|o os IH]; intros cs F; [reflexivity|]. inversion F; subst. cbn [after]. rewrite IH by auto. apply step_elsewhere. auto. Qed.
Lemma kept_used {M} s (j : M) : forall os cs, Forall (no_reset s) os -> reuse (cs s) = true -> have (cs s) = true -> kept (cs s) = Some j ->
  Forall (fun x => fst x = s -> snd x = Some j) (run cs os).
Proof.
  induction os as [|o os IH]; intros cs F R V K; [constructor|]. inversion F as [|? ? F1 F2]; subst. cbn [run]. destruct o as [t m| |t i]; cbn [step no_reset] in *; [| destruct F1 |].
  - destruct (take (cs t) m) as [c u]. apply IH; auto; unfold upd; destruct (Nat.eqb_spec s t); congruence.
  - destruct (Nat.eq_dec t s) as [->|D].
    + unfold take. rewrite R, V. cbn [andb]. constructor; [intros _; exact K|]. apply IH; auto; unfold upd; rewrite Nat.eqb_refl; auto.
    + destruct (take (cs t) i) as [c u]. constructor; [cbn; congruence|]. apply IH; auto; unfold upd; destruct (Nat.eqb_spec s t); congruence.
Qed.
(** With reuse every system of a run is solved with the matrix of the first iteration of that run:
    nothing from before the run, other sets or the mass matrix is taken. *)
Theorem C233_first {M} (cs : nat -> ctx M) before a s j b : reuse (cs s) = true -> Forall (elsewhere s) a -> Forall (no_reset s) b ->
  Forall (fun x => fst x = s -> snd x = Some j) (run (after cs (before ++ Reset :: a)) (Iterate s j :: b)).
Proof.
  intros R A B. rewrite after_app. cbn [after step fst]. set (c0 := after cs before).
  assert (E : after (fun t => reset_ctx (c0 t)) a s = reset_ctx (c0 s)) by exact (after_elsewhere s a (fun t => reset_ctx (c0 t)) A).
  assert (R0 : reuse (c0 s) = true) by (unfold c0; rewrite after_reuse; exact R).
  set (c1 := after (fun t => reset_ctx (c0 t)) a) in *. cbn [run step]. unfold take. rewrite E. cbn [reset_ctx reuse have]. rewrite R0. cbn [andb].
  constructor; [reflexivity|]. apply kept_used; auto; unfold upd; rewrite Nat.eqb_refl; reflexivity.
Qed.
(** A linear system is never solved with a matrix that was not filled. *)
Theorem C233_filled {M} : forall (os : list (op M)) cs, (forall s, have (cs s) = true -> kept (cs s) <> None) ->
  Forall (fun x => snd x <> None) (run cs os).
Proof.
  induction os as [|o os IH]; intros cs H; [constructor|]. cbn [run].
  assert (T : forall s m, (have (fst (take (cs s) m)) = true -> kept (fst (take (cs s) m)) <> None) /\ snd (take (cs s) m) <> None).
  { intros s m. unfold take. destruct (reuse (cs s) && have (cs s)) eqn:E; cbn [fst snd].
    - apply andb_true_iff in E. split; [|]; intros; apply H; tauto.
    - destruct (reuse (cs s)); cbn [fst snd kept]; split; try discriminate; auto. }
  destruct o as [s m| |s j]; cbn [step].
  - pose proof (T s m) as [X _]. destruct (take (cs s) m) as [c u]. cbn [fst snd] in X. apply IH. intro t. unfold upd. destruct (t =? s); auto.
  - apply IH. intros t X. cbn in X. discriminate.
  - pose proof (T s j) as [X Y]. destruct (take (cs s) j) as [c u]. cbn [fst snd] in X, Y. constructor; [exact Y|]. apply IH. intro t. unfold upd. destruct (t =? s); auto.
Qed.
Example C233_example : let c := fun _ : nat => {| reuse := true; have := false; kept := @None nat |} in
  run c [Mass 0 7; Reset; Iterate 0 1; Iterate 0 2; Iterate 1 3; Reset; Iterate 0 4] = [(0, Some 1); (0, Some 1); (1, Some 3); (0, Some 4)].
Proof. reflexivity. Qed.

(** *** C234 *)

Local Open Scope string_scope.
(** The options that are kept with a solver. *)
Definition own_options (o : options) := (o_amesos o, o_belos o, o_direct o, o_prec o, o_use_prec o, o_reuse_prec o, o_right o, o_reuse o).
(** A solver with a section of its own depends on nothing else. *)
Theorem C234_separate s s' k : sub (section_of k) (sublists s) <> None -> sub (section_of k) (sublists s') = sub (section_of k) (sublists s) ->
  own_options (options_of s k) = own_options (options_of s' k).
Proof. intros N E. unfold options_of, chosen. rewrite E. destruct (sub (section_of k) (sublists s)); [reflexivity|congruence]. Qed.
(** One without uses the general section, whatever sections the others have. *)
Theorem C234_general s s' k : sub (section_of k) (sublists s) = None -> sub (section_of k) (sublists s') = None -> entries s = entries s' ->
  options_of s k = options_of s' k.
Proof. intros N N' E. unfold options_of, chosen. rewrite N, N', E. reflexivity. Qed.
(** The entries of the section in use have the effect they name, and the defaults hold otherwise. *)
Definition in_use (s : solver_list) (k : kind) (l : olist) : Prop :=
  sub (section_of k) (sublists s) = Some l \/ sub (section_of k) (sublists s) = None /\ l = entries s.
Theorem C234_entries s k l : in_use s k l -> k <> StateBndry -> let o := options_of s k in
  (forall v, get "Amesos solver" l = Some (OS v) -> o_amesos o = v) /\ (forall v, get "Belos solver" l = Some (OS v) -> o_belos o = v) /\
  (forall v, get "use direct solver" l = Some (OB v) -> o_direct o = v) /\ (forall v, get "preconditioner type" l = Some (OS v) -> o_prec o = v) /\
  (forall v, get "use preconditioner" l = Some (OB v) -> o_use_prec o = v) /\ (forall v, get "reuse preconditioner" l = Some (OB v) -> o_reuse_prec o = v) /\
  (forall v, get "right preconditioner" l = Some (OB v) -> o_right o = v) /\ (forall v, get "reuse Jacobian" l = Some (OB v) -> o_reuse o = v) /\
  (l = [] -> o = {| o_amesos := "KLU2"; o_belos := "Block GMRES"; o_direct := false; o_prec := "AMG"; o_use_prec := true; o_reuse_prec := true;
                    o_right := false; o_reuse := false; o_iters := o_iters o; o_blocks := o_blocks o; o_variant := o_variant o; o_scaling := o_scaling o |}).
Proof.
  intros U K. cbv zeta. assert (E : chosen s k = l).
  { unfold chosen. destruct U as [->|[-> ->]]; destruct k; congruence. }
  unfold options_of. cbn [o_amesos o_belos o_direct o_prec o_use_prec o_reuse_prec o_right o_reuse o_iters o_blocks o_variant o_scaling]. rewrite E.
  unfold get_s, get_b. repeat split; try (intros v ->; reflexivity). intros ->. reflexivity.
Qed.
(** No two solvers share a section. *)
Theorem C234_sections k k' : section_of k = section_of k' -> k = k'.
Proof. destruct k, k'; cbn; intro; congruence. Qed.
Example C234_example : let s := {| entries := [("use direct solver", OB true)]; sublists := [("State L2 linear solver", [("Belos solver", OS "Block CG")])] |} in
  o_direct (options_of s State) = true /\ o_direct (options_of s StateL2) = false /\ o_belos (options_of s StateL2) = "Block CG" /\ in_use s State (entries s).
Proof. cbv zeta. repeat split. right. split; reflexivity. Qed.

(** *** C235 *)

(** Options of the whole section "Solver" that are used as given. *)
Theorem C235_partial s k : (forall z, get "max linear iters" (entries s) = Some (OI z) -> o_iters (options_of s k) = z) /\
  (forall v, get "Belos implicit residual scaling" (entries s) = Some (OS v) -> o_scaling (options_of s k) = v).
Proof. split; intros v E; cbn; unfold get_i, get_s; rewrite E; reflexivity. Qed.
(** The number of Krylov vectors has no effect. *)
Theorem C235_krylov_refuted s k z : options_of {| entries := ("krylov vectors", OI z) :: entries s; sublists := sublists s |} k = options_of s k.
Proof. unfold options_of, chosen. cbn [entries sublists]. destruct (sub (section_of k) (sublists s)); [reflexivity|]. destruct k; reflexivity. Qed.
(** The preconditioner of the boundary projection cannot be switched on, even in its own section. *)
Theorem C235_boundary_refuted s : o_use_prec (options_of s StateBndry) = false.
Proof. reflexivity. Qed.
(** The variant of the preconditioner and the number of iterations in a solver's own section are not looked at. *)
Theorem C235_own_refuted : exists s, sub (section_of State) (sublists s) = Some [("preconditioner type", OS "Ifpack2"); ("preconditioner variant", OS "RILUK"); ("max linear iters", OI 500)] /\
  o_prec (options_of s State) = "Ifpack2" /\ o_variant (options_of s State) = "RELAXATION" /\ o_iters (options_of s State) = 100%Z.
Proof.
  exists {| entries := []; sublists := [("State linear solver", [("preconditioner type", OS "Ifpack2"); ("preconditioner variant", OS "RILUK"); ("max linear iters", OI 500)])] |}.
  repeat split; reflexivity.
Qed.
Example C235_example : get "max linear iters" [("max linear iters", OI 20)] = Some (OI 20).
Proof. reflexivity. Qed.

Print Assumptions C229_graph.
Print Assumptions C229_room.
Print Assumptions C230_numbering.
Print Assumptions C230_pairs.
Print Assumptions C231_partial.
Print Assumptions C231_refuted.
Print Assumptions C232_export.
Print Assumptions C232_import.
Print Assumptions C232_replace.
Print Assumptions C232_round_trip.
Print Assumptions C232_transpose.
Print Assumptions C233_current.
Print Assumptions C233_first.
Print Assumptions C233_filled.
Print Assumptions C234_separate.
Print Assumptions C234_general.
Print Assumptions C234_entries.
Print Assumptions C234_sections.
Print Assumptions C235_partial.
Print Assumptions C235_krylov_refuted.
Print Assumptions C235_boundary_refuted.
Print Assumptions C235_own_refuted.
