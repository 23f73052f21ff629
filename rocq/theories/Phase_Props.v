(** C214 (phase-field residual), C215 (its reaction comes from an energy), C216 (the same
    equation in every dimension), C217 (test module), C218 (phase-space test module). *)
From Coq Require Import Bool Arith Lia Reals Lra String List.
From Verif Require Import Sparse_Model Sparse_Props Mass_Model Mass_Props BProj_Model BProj_Proofs Phys_Model Phys_Spec Phys_Proofs Phys_Tac
  Init_Props NeoH_Props Small_Props Phase_Model.
Import ListNotations.
Local Open Scope R_scope.
Local Notation length := List.length.

(** *** Specification *)
(** The weak Allen-Cahn equation of phase j on element e with the fields of element e:
    (phi_t,v) + M ( 16 A (phi_j (sum phi^2 - phi_j), v) + eps^2 (grad phi_j, grad v) ). *)
Definition squares (m : nat) (phi : nat -> R) : R := sm (seq 0 m) (fun l => phi l * phi l).
Definition reaction (A : R) (m : nat) (phi : nat -> R) (j : nat) : R := 16 * A * phi j * (squares m phi - phi j).
Definition bulk (A : R) (m : nat) (phi : nat -> R) : R :=
  16 * A * (squares m phi * squares m phi / 4 - sm (seq 0 m) (fun l => phi l * phi l * phi l) / 3).
Definition phi_at (p : pdata) (e k l : nat) : R := p_sol p l e k.
Definition allen_cahn (p : pdata) (M A eps : R) (e i j : nat) : R :=
  sm (seq 0 (p_npt p)) (fun k => p_wts p e k * (p_dot p j e k * p_bas p e i k
    + M * (reaction A (p_phases p) (phi_at p e k) j * p_bas p e i k
           + eps * eps * sm (seq 0 (p_dim p)) (fun d => p_grad p d j e k * p_bgr p e i k d)))).
(** Rows of different dofs of different phases are different. *)
Definition p_rows (p : pdata) : Prop := forall j i j' i', (j < p_phases p)%nat -> (i < p_nb p)%nat -> (j' < p_phases p)%nat -> (i' < p_nb p)%nat ->
  p_off p (nth j (p_nums p) 0%nat) i = p_off p (nth j' (p_nums p) 0%nat) i' -> j = j' /\ i = i'.
Definition row_of (p : pdata) (j i : nat) : nat := p_off p (nth j (p_nums p) 0%nat) i.

(** *** What the vectors hold: the values of the first point of the first element *)
Definition first_vals (p : pdata) (v : pvecs) : Prop := forall j, (j < p_phases p)%nat ->
  nth j (v_phi v) 0 = p_sol p j 0 0 /\ nth j (v_dot v) 0 = p_dot p j 0 0 /\ nth j (v_dx v) 0 = p_grad p 0 j 0 0 /\
  ((1 < p_dim p)%nat -> nth j (v_dy v) 0 = p_grad p 1 j 0 0) /\ ((2 < p_dim p)%nat -> nth j (v_dz v) 0 = p_grad p 2 j 0 0).
Definition full (p : pdata) (v : pvecs) : Prop :=
  (p_phases p <= length (v_phi v))%nat /\ (p_phases p <= length (v_dot v))%nat /\ (p_phases p <= length (v_dx v))%nat /\
  ((1 < p_dim p)%nat -> (p_phases p <= length (v_dy v))%nat) /\ ((2 < p_dim p)%nat -> (p_phases p <= length (v_dz v))%nat).
Lemma nth_seq_map m f j : (j < m)%nat -> nth j (map f (seq 0 m)) 0 = f j.
Proof.
  intros J. rewrite (nth_indep _ 0 (f 0%nat)) by (rewrite map_length, seq_length; exact J). rewrite map_nth, seq_nth by exact J. reflexivity.
Qed.
Lemma push_first p : first_vals p (p_push p 0 0 p_empty) /\ full p (p_push p 0 0 p_empty).
Proof.
  split.
  - intros j J. unfold p_push. cbn [v_phi v_dot v_dx v_dy v_dz p_empty app]. rewrite !nth_seq_map by exact J.
    repeat split; intros D; apply Nat.ltb_lt in D; rewrite D, nth_seq_map by exact J; reflexivity.
  - unfold full, p_push. cbn [v_phi v_dot v_dx v_dy v_dz p_empty app]. rewrite !map_length, !seq_length.
    repeat split; try lia; intros D; apply Nat.ltb_lt in D; rewrite D, map_length, seq_length; lia.
Qed.
Lemma push_more p e k v : first_vals p v -> full p v -> first_vals p (p_push p e k v) /\ full p (p_push p e k v).
Proof.
  intros H (F1 & F2 & F3 & F4 & F5). split.
  - intros j J. destruct (H j J) as (A & B & C & D & E). unfold p_push. cbn [v_phi v_dot v_dx v_dy v_dz].
    rewrite !app_nth1 by lia. repeat split; [exact A | exact B | exact C | |].
    + intros L. pose proof L as L'. apply Nat.ltb_lt in L'. rewrite L', app_nth1; [exact (D L) | specialize (F4 L); lia].
    + intros L. pose proof L as L'. apply Nat.ltb_lt in L'. rewrite L', app_nth1; [exact (E L) | specialize (F5 L); lia].
  - unfold full, p_push. cbn [v_phi v_dot v_dx v_dy v_dz]. rewrite !app_length, !map_length, !seq_length.
    repeat split; try lia; intros L; pose proof L as L'; apply Nat.ltb_lt in L'; rewrite L', app_length; [specialize (F4 L) | specialize (F5 L)]; lia.
Qed.
(** So every visit adds terms with those values. *)
Definition stale (p : pdata) : pvecs := p_push p 0 0 p_empty.
Lemma mobility_first p v : first_vals p v -> p_mobility p v = p_mobility p (stale p).
Proof.
  intros H. destruct (push_first p) as [H0 _]. fold (stale p) in H0. unfold p_mobility.
  assert (forall j, In j (seq 0 (p_phases p)) -> nth j (v_phi v) 0 = nth j (v_phi (stale p)) 0) as N.
  { intros j I. apply in_seq in I. destruct (H j) as (A & _); [lia |]. destruct (H0 j) as (B & _); [lia |]. congruence. }
  assert (sm (seq 0 (p_phases p)) (fun i => sm (seq 0 (p_phases p)) (fun j => nth i (v_phi v) 0 * nth i (v_phi v) 0 * nth j (v_phi v) 0 * nth j (v_phi v) 0))
    = sm (seq 0 (p_phases p)) (fun i => sm (seq 0 (p_phases p)) (fun j => nth i (v_phi (stale p)) 0 * nth i (v_phi (stale p)) 0 * nth j (v_phi (stale p)) 0 * nth j (v_phi (stale p)) 0))) as E.
  { apply sm_ext. intros i I. apply sm_ext. intros j J. rewrite (N i I), (N j J). reflexivity. }
  assert (sm (seq 0 (p_phases p)) (fun i => sm (seq 0 (p_phases p)) (fun j => p_get p "L" * nth i (v_phi v) 0 * nth i (v_phi v) 0 * nth j (v_phi v) 0 * nth j (v_phi v) 0))
    = sm (seq 0 (p_phases p)) (fun i => sm (seq 0 (p_phases p)) (fun j => p_get p "L" * nth i (v_phi (stale p)) 0 * nth i (v_phi (stale p)) 0 * nth j (v_phi (stale p)) 0 * nth j (v_phi (stale p)) 0))) as E'.
  { apply sm_ext. intros i I. apply sm_ext. intros j J. rewrite (N i I), (N j J). reflexivity. }
  rewrite E, E'. reflexivity.
Qed.
Lemma term_first p v e k i j : first_vals p v -> (j < p_phases p)%nat -> p_term p v e k i j = p_term p (stale p) e k i j.
Proof.
  intros H J. pose proof (mobility_first p v H) as M. destruct (push_first p) as [H0 _]. fold (stale p) in H0. unfold p_term. rewrite M.
  destruct (H j J) as (A & B & C & D & E). destruct (H0 j J) as (A0 & B0 & C0 & D0 & E0).
  assert (sm (seq 0 (p_phases p)) (fun l => nth l (v_phi v) 0 * nth l (v_phi v) 0) = sm (seq 0 (p_phases p)) (fun l => nth l (v_phi (stale p)) 0 * nth l (v_phi (stale p)) 0)) as Q.
  { apply sm_ext. intros l I. apply in_seq in I. destruct (H l) as (X & _); [lia |]. destruct (H0 l) as (Y & _); [lia |]. rewrite X, Y. reflexivity. }
  rewrite Q, A, B, C, A0, B0, C0. destruct (p_dim p) as [| [| [| [| n]]]]; try reflexivity.
  - rewrite D, D0 by lia. reflexivity.
  - rewrite D, D0, E, E0 by lia. reflexivity.
Qed.
Definition adds (p : pdata) (ek : nat * nat) : list (nat * nat * R) :=
  flat_map (fun i => map (fun j => (fst ek, row_of p j i, p_term p (stale p) (fst ek) (snd ek) i j)) (seq 0 (p_phases p))) (seq 0 (p_nb p)).
Lemma step_adds p s ek : first_vals p (p_push p (fst ek) (snd ek) (fst s)) -> snd (p_step p s ek) = (snd s ++ adds p ek)%list.
Proof.
  intros H. unfold p_step, adds. cbn [snd]. f_equal. apply flat_map_ext. intros i. apply map_ext_in. intros j I. apply in_seq in I.
  rewrite (term_first p _ _ _ i j H) by lia. reflexivity.
Qed.
Lemma loop_adds p l : forall s, first_vals p (fst s) -> full p (fst s) -> snd (fold_left (p_step p) l s) = (snd s ++ flat_map (adds p) l)%list.
Proof.
  induction l as [| ek l IH]; intros s H F; cbn [fold_left flat_map]; [rewrite app_nil_r; reflexivity |].
  destruct (push_more p (fst ek) (snd ek) (fst s) H F) as [H' F']. rewrite IH by assumption. rewrite (step_adds p s ek H'), <- app_assoc. reflexivity.
Qed.
Lemma volume_adds p : p_volume p = flat_map (adds p) (p_visits p).
Proof.
  unfold p_volume, p_visits. destruct (p_npt p) as [| np]; [|destruct (p_nel p) as [| ne]].
  - assert (forall l : list nat, flat_map (fun e => map (fun k => (e, k)) (seq 0 0)) l = []) as Z by (induction l; [reflexivity | assumption]).
    rewrite Z. reflexivity.
  - reflexivity.
  - cbn [seq flat_map map app fold_left]. destruct (push_first p) as [H F].
    rewrite loop_adds by assumption. rewrite (step_adds p (p_empty, []) (0%nat, 0%nat) H). reflexivity.
Qed.
Lemma res_terms p e i j : p_rows p -> (e < p_nel p)%nat -> (i < p_nb p)%nat -> (j < p_phases p)%nat ->
  p_res p e (row_of p j i) = sm (seq 0 (p_npt p)) (fun k => p_term p (stale p) e k i j).
Proof.
  intros R E I J. unfold p_res. rewrite volume_adds. unfold p_visits. rewrite sm_flat, sm_flat.
  rewrite (sm_ext _ _ (fun e' => if (e' =? e)%nat then sm (seq 0 (p_npt p)) (fun k => p_term p (stale p) e k i j) else 0)); [apply sm_single; exact E |].
  intros e' _. rewrite sm_map. destruct (Nat.eqb_spec e' e) as [-> | N].
  - apply sm_ext. intros k _. unfold adds. rewrite sm_flat.
    rewrite (sm_ext _ _ (fun i' => if (i' =? i)%nat then p_term p (stale p) e k i j else 0)); [apply (sm_single (p_nb p) i (fun _ => _) I) |].
    intros i' Ii. apply in_seq in Ii. rewrite sm_map. cbn [fst snd]. rewrite Nat.eqb_refl. cbn [andb].
    destruct (Nat.eqb_spec i' i) as [-> | Ni].
    + rewrite (sm_ext _ _ (fun j' => if (j' =? j)%nat then p_term p (stale p) e k i j' else 0)); [apply (sm_single (p_phases p) j (fun j' => p_term p (stale p) e k i j') J) |].
      intros j' Ij. apply in_seq in Ij. destruct (Nat.eqb_spec j' j) as [-> | Nj]; [rewrite Nat.eqb_refl; reflexivity |].
      destruct (Nat.eqb_spec (row_of p j' i) (row_of p j i)) as [X |]; [| reflexivity]. destruct (R j' i j i) as [? _]; try lia; try exact X; contradiction.
    + apply sm_zero. intros j' Ij. apply in_seq in Ij.
      destruct (Nat.eqb_spec (row_of p j' i') (row_of p j i)) as [X |]; [| reflexivity]. destruct (R j' i' j i) as [_ ?]; try lia; try exact X; contradiction.
  - apply sm_zero. intros k _. unfold adds. rewrite sm_flat. apply sm_zero. intros i' _. rewrite sm_map. apply sm_zero. intros j' _. cbn [fst snd].
    destruct (Nat.eqb_spec e' e); [contradiction | reflexivity].
Qed.

(** *** C214 *)
Definition no_table (p : pdata) : Prop := p_varmob p = false.
Lemma stale_vals p j : (j < p_phases p)%nat -> nth j (v_phi (stale p)) 0 = p_sol p j 0 0 /\ nth j (v_dot (stale p)) 0 = p_dot p j 0 0 /\
  nth j (v_dx (stale p)) 0 = p_grad p 0 j 0 0 /\ ((1 < p_dim p)%nat -> nth j (v_dy (stale p)) 0 = p_grad p 1 j 0 0) /\
  ((2 < p_dim p)%nat -> nth j (v_dz (stale p)) 0 = p_grad p 2 j 0 0).
Proof. intros J. exact (proj1 (push_first p) j J). Qed.
Lemma stale_squares p : sm (seq 0 (p_phases p)) (fun l => nth l (v_phi (stale p)) 0 * nth l (v_phi (stale p)) 0) = squares (p_phases p) (phi_at p 0 0).
Proof. unfold squares, phi_at. apply sm_ext. intros l I. apply in_seq in I. destruct (stale_vals p l) as (A & _); [lia |]. rewrite A. reflexivity. Qed.
(** Fields that do not vary over the elements and points (also: one element with one point). *)
Definition uniform (p : pdata) : Prop := forall j e k, (j < p_phases p)%nat -> (e < p_nel p)%nat -> (k < p_npt p)%nat ->
  p_sol p j e k = p_sol p j 0 0 /\ p_dot p j e k = p_dot p j 0 0 /\ forall d, (d < p_dim p)%nat -> p_grad p d j e k = p_grad p d j 0 0.
Theorem C214_uniform_partial : forall p, p_rows p -> p_dim p = 2%nat -> p_varmob p = false -> uniform p ->
  forall e i j, (e < p_nel p)%nat -> (i < p_nb p)%nat -> (j < p_phases p)%nat ->
  p_res p e (row_of p j i) = allen_cahn p (p_get p "L") (p_get p "A") (p_get p "thermal_diff") e i j.
Proof.
  intros p R D M U e i j E I J. rewrite res_terms by assumption. unfold allen_cahn. apply sm_ext. intros k K. apply in_seq in K.
  destruct (stale_vals p j J) as (A1 & A2 & A3 & A4 & _). destruct (U j e k J E ltac:(lia)) as (B1 & B2 & B3).
  unfold p_term. rewrite stale_squares, D, M, A1, A2, A3, A4 by lia. unfold reaction.
  replace (squares (p_phases p) (phi_at p e k)) with (squares (p_phases p) (phi_at p 0 0)).
  2:{ unfold squares, phi_at. apply sm_ext. intros l Il. apply in_seq in Il. destruct (U l e k) as (C & _); try lia. rewrite C. reflexivity. }
  unfold phi_at. rewrite B1, B2. unfold sm, Sparse_Model.rsum. cbn [seq map fold_right]. rewrite (B3 0%nat), (B3 1%nat) by lia. ring.
Qed.
(** Nothing but the first point of the first element is ever read: two problems that agree there
    have the same residual on every element. *)
Theorem C214_fields_refuted : forall p q,
  (forall j, (j < p_phases p)%nat -> p_sol p j 0%nat 0%nat = p_sol q j 0%nat 0%nat /\ p_dot p j 0%nat 0%nat = p_dot q j 0%nat 0%nat /\
     forall d, p_grad p d j 0%nat 0%nat = p_grad q d j 0%nat 0%nat) ->
  q = {| p_dim := p_dim p; p_phases := p_phases p; p_nel := p_nel p; p_npt := p_npt p; p_nb := p_nb p; p_sol := p_sol q; p_dot := p_dot q;
         p_grad := p_grad q; p_bas := p_bas p; p_bgr := p_bgr p; p_wts := p_wts p; p_off := p_off p; p_nums := p_nums p; p_par := p_par p;
         p_varmob := p_varmob p |} ->
  forall e r, p_res p e r = p_res q e r.
Proof.
  intros p q H Q e r. unfold p_res. f_equal. rewrite !volume_adds.
  assert (stale p = stale q) as S.
  { rewrite Q. unfold stale, p_push. cbn [p_dim p_phases p_sol p_dot p_grad v_phi v_dot v_dx v_dy v_dz p_empty app]. f_equal; try (apply map_ext_in; intros j I; apply in_seq in I; destruct (H j) as (A & B & C); [lia |]; rewrite ?A, ?B, ?C; reflexivity).
    - destruct (1 <? p_dim p); [| reflexivity]. apply map_ext_in. intros j I. apply in_seq in I. destruct (H j) as (_ & _ & C'); [lia |]. apply C'.
    - destruct (2 <? p_dim p); [| reflexivity]. apply map_ext_in. intros j I. apply in_seq in I. destruct (H j) as (_ & _ & C'); [lia |]. apply C'. }
  assert (p_visits p = p_visits q) as V by (rewrite Q; reflexivity). rewrite V. apply flat_map_ext. intros ek. unfold adds. rewrite <- S, Q. reflexivity.
Qed.
(** Two elements, the second one changing in time: its residual is zero. *)
Definition two : pdata := {| p_dim := 2; p_phases := 1; p_nel := 2; p_npt := 1; p_nb := 1; p_sol := fun _ _ _ => 0; p_dot := fun _ e _ => INR e;
  p_grad := fun _ _ _ _ => 0; p_bas := fun _ _ _ => 1; p_bgr := fun _ _ _ _ => 0; p_wts := fun _ _ => 1; p_off := fun _ i => i; p_nums := [0%nat];
  p_par := fun _ => None; p_varmob := false |}.
Theorem C214_equation_refuted : exists p, p_rows p /\ p_dim p = 2%nat /\ p_varmob p = false /\
  exists e, (e < p_nel p)%nat /\ p_res p e (row_of p 0 0) <> allen_cahn p (p_get p "L") (p_get p "A") (p_get p "thermal_diff") e 0 0.
Proof.
  exists two. split; [intros j i j' i' H1 H2 H3 H4 _; cbn in *; lia |]. split; [reflexivity |]. split; [reflexivity |]. exists 1%nat. split; [cbn; lia |].
  rewrite res_terms; [| intros j i j' i' H1 H2 H3 H4 _; cbn in *; lia | cbn; lia | cbn; lia | cbn; lia].
  unfold allen_cahn, p_term, stale, sm, Sparse_Model.rsum, reaction, squares, p_get. cbn. intros H. ring_simplify in H. lra.
Qed.
Print Assumptions C214_uniform_partial.
Print Assumptions C214_fields_refuted.
Print Assumptions C214_equation_refuted.

(** *** C215: the reaction is the slope of the bulk energy and vanishes in a pure phase *)
Lemma dlim_sm (l : list nat) (f : nat -> R -> R) (g : nat -> R) x : (forall a, derivable_pt_lim (f a) x (g a)) ->
  derivable_pt_lim (fun t => sm l (fun a => f a t)) x (sm l g).
Proof.
  intros H. induction l as [| a l IH].
  - refine (dlim_eq _ _ _ _ _ (derivable_pt_lim_const 0 x) _ _); reflexivity.
  - refine (dlim_eq _ _ _ _ _ (derivable_pt_lim_plus _ _ x _ _ (H a) IH) _ _); [intros t; rewrite sm_cons; reflexivity | rewrite sm_cons; reflexivity].
Qed.
Lemma dlim_line a b x : derivable_pt_lim (fun t => a + t * b) x b.
Proof.
  refine (dlim_eq _ _ _ _ _ (derivable_pt_lim_plus _ _ x _ _ (derivable_pt_lim_const a x) (derivable_pt_lim_scal _ b x _ (derivable_pt_lim_id x))) _ _).
  - intros t. unfold plus_fct, fct_cte, mult_real_fct, id. ring.
  - ring.
Qed.
Theorem C215_energy : forall A m phi psi,
  derivable_pt_lim (fun t => bulk A m (fun l => phi l + t * psi l)) 0 (sm (seq 0 m) (fun j => reaction A m phi j * psi j)).
Proof.
  intros A m phi psi. unfold bulk, squares, reaction.
  assert (forall a, derivable_pt_lim (fun t => (phi a + t * psi a) * (phi a + t * psi a)) 0 (2 * phi a * psi a)) as D2.
  { intros a. refine (dlim_eq _ _ _ _ _ (derivable_pt_lim_mult _ _ 0 _ _ (dlim_line (phi a) (psi a) 0) (dlim_line (phi a) (psi a) 0)) _ _); [reflexivity | cbv beta; ring]. }
  assert (forall a, derivable_pt_lim (fun t => (phi a + t * psi a) * (phi a + t * psi a) * (phi a + t * psi a)) 0 (3 * phi a * phi a * psi a)) as D3.
  { intros a. refine (dlim_eq _ _ _ _ _ (derivable_pt_lim_mult _ _ 0 _ _ (D2 a) (dlim_line (phi a) (psi a) 0)) _ _); [reflexivity | cbv beta; ring]. }
  pose proof (dlim_sm (seq 0 m) _ _ 0 D2) as S2. pose proof (dlim_sm (seq 0 m) _ _ 0 D3) as S3.
  refine (dlim_eq _ _ _ _ _ (derivable_pt_lim_scal _ (16 * A) 0 _ (derivable_pt_lim_minus _ _ 0 _ _
    (derivable_pt_lim_scal _ (/ 4) 0 _ (derivable_pt_lim_mult _ _ 0 _ _ S2 S2)) (derivable_pt_lim_scal _ (/ 3) 0 _ S3))) _ _).
  - intros t. unfold mult_real_fct, minus_fct, mult_fct. unfold Rdiv. ring.
  - cbv beta. rewrite (sm_ext (seq 0 m) (fun l => (phi l + 0 * psi l) * (phi l + 0 * psi l)) (fun l => phi l * phi l)) by (intros; ring).
    set (s := sm (seq 0 m) (fun l => phi l * phi l)).
    rewrite (sm_ext _ (fun j => 16 * A * phi j * (s - phi j) * psi j) (fun j => 16 * A * (s * / 2 * (2 * phi j * psi j) - / 3 * (3 * phi j * phi j * psi j)))).
    2:{ intros j _. field. }
    rewrite sm_scal, sm_sub, !sm_scal. field.
Qed.
Theorem C215_pure : forall p a, p_rows p -> (a < p_phases p)%nat ->
  (forall j e k, p_sol p j e k = (if (j =? a)%nat then 1 else 0) /\ p_dot p j e k = 0 /\ forall d, p_grad p d j e k = 0) ->
  forall e i j, (e < p_nel p)%nat -> (i < p_nb p)%nat -> (j < p_phases p)%nat -> p_res p e (row_of p j i) = 0.
Proof.
  intros p a R Ha H e i j E I J. rewrite res_terms by assumption. apply sm_zero. intros k _.
  destruct (stale_vals p j J) as (A1 & A2 & A3 & A4 & A5). destruct (H j 0%nat 0%nat) as (B1 & B2 & B3).
  assert (squares (p_phases p) (phi_at p 0 0) = 1) as S.
  { unfold squares, phi_at. rewrite (sm_ext _ _ (fun l => if (l =? a)%nat then 1 else 0)).
    - apply (sm_single (p_phases p) a (fun _ => 1) Ha).
    - intros l _. destruct (H l 0%nat 0%nat) as (C & _). rewrite C. destruct (l =? a)%nat; ring. }
  unfold p_term. rewrite stale_squares, S, A1, A2, A3, B1, B2, B3.
  destruct (p_dim p) as [| [| [| [| n]]]]; try ring; rewrite ?A4, ?A5, ?B3 by lia; destruct (j =? a)%nat; ring.
Qed.
(** A mixed state is not at rest. *)
Example C215_inhabited : reaction 1 2 (fun _ => 1) 0 = 16 /\ bulk 1 2 (fun _ => 1) = 16 / 3.
Proof. unfold reaction, bulk, squares, sm, Sparse_Model.rsum. cbn. split; field. Qed.
Print Assumptions C215_energy.
Print Assumptions C215_pure.

(** *** C216: one equation in every dimension *)
Theorem C216_plane_partial : forall p, p_rows p -> p_dim p = 2%nat -> p_varmob p = true -> uniform p ->
  / 100000000 <= sm (seq 0 (p_phases p)) (fun i => sm (seq 0 (p_phases p)) (fun j =>
      phi_at p 0 0 i * phi_at p 0 0 i * phi_at p 0 0 j * phi_at p 0 0 j)) ->
  forall e i j, (e < p_nel p)%nat -> (i < p_nb p)%nat -> (j < p_phases p)%nat ->
  p_res p e (row_of p j i) = allen_cahn p (p_get p "L") (p_get p "A") (p_get p "thermal_diff") e i j.
Proof.
  intros p R D M U P e i j E I J.
  assert (p_mobility p (stale p) = p_get p "L") as MB.
  { unfold p_mobility. assert (forall l, In l (seq 0 (p_phases p)) -> nth l (v_phi (stale p)) 0 = phi_at p 0 0 l) as N
      by (intros l Il; apply in_seq in Il; exact (proj1 (stale_vals p l ltac:(lia)))).
    match goal with |- context [Rlt_dec ?a ?b] => replace a with (sm (seq 0 (p_phases p)) (fun i => sm (seq 0 (p_phases p)) (fun j =>
      phi_at p 0 0 i * phi_at p 0 0 i * phi_at p 0 0 j * phi_at p 0 0 j))) end.
    2:{ apply sm_ext. intros x X. apply sm_ext. intros y Y. rewrite (N x X), (N y Y). reflexivity. }
    destruct (Rlt_dec _ _) as [L | _]; [exfalso; unfold Rdiv in L; lra |].
    rewrite (sm_ext (seq 0 (p_phases p)) (fun i0 => sm (seq 0 (p_phases p)) (fun j0 => p_get p "L" * _ * _ * _ * _))
      (fun x => p_get p "L" * sm (seq 0 (p_phases p)) (fun y => phi_at p 0 0 x * phi_at p 0 0 x * phi_at p 0 0 y * phi_at p 0 0 y))).
    2:{ intros x X. rewrite <- sm_scal. apply sm_ext. intros y Y. rewrite (N x X), (N y Y). ring. }
    rewrite sm_scal. field. lra. }
  set (q := {| p_dim := p_dim p; p_phases := p_phases p; p_nel := p_nel p; p_npt := p_npt p; p_nb := p_nb p; p_sol := p_sol p; p_dot := p_dot p;
         p_grad := p_grad p; p_bas := p_bas p; p_bgr := p_bgr p; p_wts := p_wts p; p_off := p_off p; p_nums := p_nums p; p_par := p_par p; p_varmob := false |}).
  transitivity (p_res q e (row_of q j i)); [| exact (C214_uniform_partial q R D eq_refl U e i j E I J)].
  rewrite (res_terms p), (res_terms q) by assumption. apply sm_ext. intros k _. unfold p_term. cbn [q p_dim p_varmob]. rewrite D, M, MB. reflexivity.
Qed.
(** In one dimension there is neither reaction nor diffusion; in three the reaction is a quarter
    and the mobility option does nothing. *)
Theorem C216_line : forall p, p_rows p -> p_dim p = 1%nat -> forall e i j, (e < p_nel p)%nat -> (i < p_nb p)%nat -> (j < p_phases p)%nat ->
  p_res p e (row_of p j i) = sm (seq 0 (p_npt p)) (fun k => p_dot p j 0 0 * p_bas p e i k * p_wts p e k).
Proof.
  intros p R D e i j E I J. rewrite res_terms by assumption. apply sm_ext. intros k _. unfold p_term. rewrite D.
  destruct (stale_vals p j J) as (_ & A & _). rewrite A. ring.
Qed.
Theorem C216_space : forall p, p_rows p -> p_dim p = 3%nat -> uniform p -> forall e i j, (e < p_nel p)%nat -> (i < p_nb p)%nat -> (j < p_phases p)%nat ->
  p_res p e (row_of p j i) = allen_cahn p (p_get p "L") (p_get p "A" / 4) (p_get p "thermal_diff") e i j.
Proof.
  intros p R D U e i j E I J. rewrite res_terms by assumption. unfold allen_cahn. apply sm_ext. intros k K. apply in_seq in K.
  destruct (stale_vals p j J) as (A1 & A2 & A3 & A4 & A5). destruct (U j e k J E ltac:(lia)) as (B1 & B2 & B3).
  unfold p_term. rewrite stale_squares, D, A1, A2, A3, A4, A5 by lia. unfold reaction.
  replace (squares (p_phases p) (phi_at p e k)) with (squares (p_phases p) (phi_at p 0 0)).
  2:{ unfold squares, phi_at. apply sm_ext. intros l Il. apply in_seq in Il. destruct (U l e k) as (C & _); try lia. rewrite C. reflexivity. }
  unfold phi_at. rewrite B1, B2. unfold sm, Sparse_Model.rsum. cbn [seq map fold_right]. rewrite (B3 0%nat), (B3 1%nat), (B3 2%nat) by lia. field.
Qed.
Definition one_cell (d : nat) : pdata := {| p_dim := d; p_phases := 1; p_nel := 1; p_npt := 1; p_nb := 1; p_sol := fun _ _ _ => 2; p_dot := fun _ _ _ => 0;
  p_grad := fun _ _ _ _ => 0; p_bas := fun _ _ _ => 1; p_bgr := fun _ _ _ _ => 0; p_wts := fun _ _ => 1; p_off := fun _ i => i; p_nums := [0%nat];
  p_par := fun _ => None; p_varmob := false |}.
Theorem C216_dimension_refuted : forall d, d = 1%nat \/ d = 3%nat ->
  p_rows (one_cell d) /\ uniform (one_cell d) /\ p_res (one_cell d) 0 (row_of (one_cell d) 0 0) <> allen_cahn (one_cell d) 1 1 1 0 0 0.
Proof.
  intros d D. assert (p_rows (one_cell d)) as R by (intros j i j' i' H1 H2 H3 H4 _; cbn in *; lia).
  assert (uniform (one_cell d)) as U by (intros j e k _ _ _; repeat split). split; [exact R |]. split; [exact U |].
  destruct D as [-> | ->].
  - rewrite C216_line; [| exact R | reflexivity | cbn; lia | cbn; lia | cbn; lia].
    unfold allen_cahn, reaction, squares, sm, Sparse_Model.rsum. cbn. lra.
  - rewrite C216_space; [| exact R | reflexivity | exact U | cbn; lia | cbn; lia | cbn; lia].
    unfold allen_cahn, reaction, squares, sm, Sparse_Model.rsum, p_get. cbn. lra.
Qed.
Print Assumptions C216_dimension_refuted.
Example C216_inhabited : p_rows two /\ uniform {| p_dim := 3; p_phases := 1; p_nel := 2; p_npt := 1; p_nb := 1; p_sol := fun _ _ _ => 2; p_dot := fun _ _ _ => 3;
  p_grad := fun _ _ _ _ => 0; p_bas := fun _ _ _ => 1; p_bgr := fun _ _ _ _ => 0; p_wts := fun _ _ => 1; p_off := fun _ i => i; p_nums := [0%nat];
  p_par := fun _ => None; p_varmob := true |}.
Proof. split; [intros j i j' i' H1 H2 H3 H4 _; cbn in *; lia | intros j e k _ _ _; repeat split]. Qed.
Print Assumptions C216_plane_partial.
Print Assumptions C216_line.
Print Assumptions C216_space.

(** *** C217: the operators of the test module *)
Lemma off_var w n u v (vs : list string) : is_var w u "p" -> is_var w n v -> ~ In v ["p"%string] -> n <> u.
Proof. intros A B H ->. apply H. left. unfold is_var in *. congruence. Qed.
Theorem C217_operators : forall w, wf w -> In "p"%string (varlist w) ->
  equation w (residual (pt_volume "projection" w)) "p" (fun k => fld w "p" k) (fun _ _ => 0) /\
  equation w (residual (pt_volume "Laplace" w)) "p" (fun _ => 0) (fun d k => grad w "p" d k) /\
  (forall op, only_rows w (residual (pt_volume op w)) ["p"%string]) /\
  (forall op, op <> "projection"%string -> op <> "Laplace"%string -> forall r, residual (pt_volume op w) r = 0).
Proof.
  intros w W V. destruct (nth_var w _ V) as [u Hu]. split; [| split; [| split]].
  - intros n i Hn Hi. pose proof (is_var_uniq w n u _ W Hn Hu); subst n. rewrite residual_at.
    unfold pt_volume. rewrite (var_num_is w u _ 0 W Hu). cbv zeta. cbn [String.eqb Ascii.eqb Bool.eqb]. rows W Hi.
    unfold weak, integral. apply sm_ext. intros k _.
    destruct (dims w W) as [D | [D | D]]; rewrite ?(sumd_1 w _ D), ?(sumd_2 w _ D), ?(sumd_3 w _ D); ring.
  - intros n i Hn Hi. pose proof (is_var_uniq w n u _ W Hn Hu); subst n. rewrite residual_at.
    unfold pt_volume. rewrite (var_num_is w u _ 0 W Hu). cbv zeta. cbn [String.eqb Ascii.eqb Bool.eqb].
    destruct (dims w W) as [D | [D | D]]; rewrite !D; rows W Hi; unfold weak, integral; apply sm_ext; intros k _;
      rewrite ?(sumd_1 w _ D), ?(sumd_2 w _ D), ?(sumd_3 w _ D); names; ring.
  - intros op n v i Hn Hv Hi. pose proof (off_var w n u v [] Hu Hn Hv). rewrite residual_at. unfold pt_volume. rewrite (var_num_is w u _ 0 W Hu). cbv zeta.
    destruct (String.eqb op "projection"); [rows W Hi; reflexivity |]. destruct (String.eqb op "Laplace"); [| reflexivity].
    destruct (dims w W) as [D | [D | D]]; rewrite !D; rows W Hi; reflexivity.
  - intros op N1 N2 r. unfold pt_volume. apply String.eqb_neq in N1, N2. rewrite N1, N2. reflexivity.
Qed.
(** The Laplace operator is dissipative, the projection tested with p is its squared norm. *)
Theorem C217_positive : forall w n c, wf w -> is_var w n "p"%string -> expands w n "p" c -> (forall k, (k < npts w)%nat -> 0 <= wt w k) ->
  tested w (residual (pt_volume "projection" w)) n c = integral w (fun k => fld w "p" k * fld w "p" k) /\
  tested w (residual (pt_volume "Laplace" w)) n c = integral w (fun k => sumd w (fun d => grad w "p" d k * grad w "p" d k)) /\
  0 <= tested w (residual (pt_volume "Laplace" w)) n c.
Proof.
  intros w n c W N X P. destruct (C217_operators w W (nth_error_In _ _ N)) as (E1 & E2 & _).
  assert (tested w (residual (pt_volume "Laplace" w)) n c = integral w (fun k => sumd w (fun d => grad w "p" d k * grad w "p" d k))) as L.
  { rewrite (tested_expands w n "p" c _ _ _ X (fun i I => E2 n i N I)). unfold integral. apply sm_ext. intros k _. ring. }
  split; [| split; [exact L |]].
  - rewrite (tested_expands w n "p" c _ _ _ X (fun i I => E1 n i N I)). unfold integral. apply sm_ext. intros k _. f_equal.
    unfold sumd. rewrite (sm_zero _ (fun d => 0 * grad w "p" d k)) by (intros; ring). ring.
  - rewrite L. apply integral_nonneg. intros k K. split; [exact (P k K) |]. apply sm_nonneg. intros d _. apply Rle_0_sqr.
Qed.
Print Assumptions C217_operators.
Print Assumptions C217_positive.
Example C217_case : let w := cell 2 ["p"%string] (fun _ => 0%nat) (fun s => if String.eqb s "grad(p)[x]" then 3 else 2) (fun _ => 1) (fun _ => ""%string) in
  wf w /\ In "p"%string (varlist w) /\ residual (pt_volume "Laplace" w) 0%nat = - residual (pt_volume "Laplace" w) 1%nat /\
  residual (pt_volume "Laplace" w) 1%nat <> 0.
Proof.
  cbv zeta. split; [apply cell_wf; [lia | nodup] |]. split; [left; reflexivity |].
  rewrite !residual_at. unfold at_row, pt_volume, sm, rsum, pick. cbn. split; lra.
Qed.

(** *** C218: the phase-space test module *)
(** Points of the product: spatial point pt, phase element pe, its point pp. *)
Definition pindex (f : phasedata) (pt pe pp : nat) : nat := (pt * (f_pel f * f_ppt f) + (pe * f_ppt f + pp))%nat.
Definition product_form (f : phasedata) (dof pdof : nat) (g : nat -> R) : R :=
  sm (seq 0 (f_npt f)) (fun pt => sm (seq 0 (f_pel f)) (fun pe => sm (seq 0 (f_ppt f)) (fun pp =>
    f_wt f pt * f_pwt f pe pp * g (pindex f pt pe pp) * f_bas f dof pt * f_pbas f pe pdof pp))).
Definition f_rows (f : phasedata) : Prop := forall d p d' p', (d < f_nb f)%nat -> (p < f_pnb f)%nat -> (d' < f_nb f)%nat -> (p' < f_pnb f)%nat ->
  (f_off f d * f_pnb f + f_poff f p = f_off f d' * f_pnb f + f_poff f p')%nat -> d = d' /\ p = p'.
Lemma f_res f dof pdof : f_rows f -> (dof < f_nb f)%nat -> (pdof < f_pnb f)%nat ->
  residual (f_volume f) (f_off f dof * f_pnb f + f_poff f pdof)%nat =
  sm (seq 0 (f_npt f)) (fun pt => sm (seq 0 (f_pel f)) (fun pe => sm (seq 0 (f_ppt f)) (fun pp =>
    let k := (pt * (f_pel f * f_ppt f) + pp)%nat in
    (f_dot f k - f_src f k) * f_wt f pt * f_pwt f pe pp * f_bas f dof pt * f_pbas f pe pdof pp))).
Proof.
  intros R D P. rewrite residual_at. unfold at_row, f_volume. cbv zeta. rewrite sm_flat.
  rewrite (sm_ext _ _ (fun d => if (d =? dof)%nat then sm (seq 0 (f_npt f)) (fun pt => sm (seq 0 (f_pel f)) (fun pe => sm (seq 0 (f_ppt f)) (fun pp =>
    (f_dot f (pt * (f_pel f * f_ppt f) + pp) - f_src f (pt * (f_pel f * f_ppt f) + pp)) * f_wt f pt * f_pwt f pe pp * f_bas f dof pt * f_pbas f pe pdof pp))) else 0));
    [apply (sm_single (f_nb f) dof (fun _ => _) D) |].
  intros d Id. apply in_seq in Id. rewrite sm_flat. destruct (Nat.eqb_spec d dof) as [-> | N].
  - apply sm_ext. intros pt _. rewrite sm_flat. apply sm_ext. intros pe _. rewrite sm_flat.
    rewrite (sm_ext _ _ (fun p => if (p =? pdof)%nat then sm (seq 0 (f_ppt f)) (fun pp =>
      (f_dot f (pt * (f_pel f * f_ppt f) + pp) - f_src f (pt * (f_pel f * f_ppt f) + pp)) * f_wt f pt * f_pwt f pe pp * f_bas f dof pt * f_pbas f pe pdof pp) else 0));
      [apply (sm_single (f_pnb f) pdof (fun _ => _) P) |].
    intros p Ip. apply in_seq in Ip. rewrite sm_map. destruct (Nat.eqb_spec p pdof) as [-> | Np].
    + apply sm_ext. intros pp _. unfold pick. cbn [fst snd]. rewrite Nat.eqb_refl. reflexivity.
    + apply sm_zero. intros pp _. unfold pick. cbn [fst snd]. destruct (Nat.eqb_spec (f_off f dof * f_pnb f + f_poff f p) (f_off f dof * f_pnb f + f_poff f pdof)) as [X |]; [| reflexivity].
      destruct (R dof p dof pdof) as [_ ?]; try lia.
  - apply sm_zero. intros pt _. rewrite sm_flat. apply sm_zero. intros pe _. rewrite sm_flat. apply sm_zero. intros p Ip. apply in_seq in Ip.
    rewrite sm_map. apply sm_zero. intros pp _. unfold pick. cbn [fst snd].
    destruct (Nat.eqb_spec (f_off f d * f_pnb f + f_poff f p) (f_off f dof * f_pnb f + f_poff f pdof)) as [X |]; [| reflexivity].
    destruct (R d p dof pdof) as [? _]; try lia.
Qed.
Theorem C218_mass_partial : forall f dof pdof, f_rows f -> (dof < f_nb f)%nat -> (pdof < f_pnb f)%nat -> f_pel f = 1%nat ->
  residual (f_volume f) (f_off f dof * f_pnb f + f_poff f pdof)%nat = product_form f dof pdof (fun k => f_dot f k - f_src f k).
Proof.
  intros f dof pdof R D P One. rewrite f_res by assumption. unfold product_form. apply sm_ext. intros pt _. rewrite One.
  change (seq 0 1) with [0%nat]. rewrite !sm_cons, !sm_nil. f_equal. apply sm_ext. intros pp _. unfold pindex. rewrite One. cbn [Nat.mul Nat.add]. ring.
Qed.
(** With several phase elements all read the values of the first: data that agree there have the
    same residual. *)
Theorem C218_index_refuted : forall f dof pdof dot' src', f_rows f -> (dof < f_nb f)%nat -> (pdof < f_pnb f)%nat ->
  (forall pt pp, (pt < f_npt f)%nat -> (pp < f_ppt f)%nat -> f_dot f (pindex f pt 0 pp) = dot' (pindex f pt 0 pp) /\ f_src f (pindex f pt 0 pp) = src' (pindex f pt 0 pp)) ->
  residual (f_volume f) (f_off f dof * f_pnb f + f_poff f pdof)%nat =
  residual (f_volume {| f_npt := f_npt f; f_pel := f_pel f; f_ppt := f_ppt f; f_nb := f_nb f; f_pnb := f_pnb f; f_wt := f_wt f; f_pwt := f_pwt f; f_bas := f_bas f;
    f_pbas := f_pbas f; f_dot := dot'; f_src := src'; f_off := f_off f; f_poff := f_poff f |}) (f_off f dof * f_pnb f + f_poff f pdof)%nat.
Proof.
  intros f dof pdof dot' src' R D P H.
  set (g := {| f_npt := f_npt f; f_pel := f_pel f; f_ppt := f_ppt f; f_nb := f_nb f; f_pnb := f_pnb f; f_wt := f_wt f; f_pwt := f_pwt f; f_bas := f_bas f;
    f_pbas := f_pbas f; f_dot := dot'; f_src := src'; f_off := f_off f; f_poff := f_poff f |}).
  rewrite (f_res f dof pdof R D P). change (f_off f dof * f_pnb f + f_poff f pdof)%nat with (f_off g dof * f_pnb g + f_poff g pdof)%nat.
  rewrite (f_res g dof pdof R D P). cbn [g f_npt f_pel f_ppt f_nb f_pnb f_wt f_pwt f_bas f_pbas f_dot f_src f_off f_poff].
  apply sm_ext. intros pt It. apply sm_ext. intros pe _. apply sm_ext. intros pp Ip. cbv zeta. apply in_seq in It, Ip.
  destruct (H pt pp) as [A B]; [lia | lia |]. unfold pindex in A, B. cbn [Nat.mul Nat.add] in A, B. rewrite A, B. reflexivity.
Qed.
Definition two_phase_cells : phasedata := {| f_npt := 1; f_pel := 2; f_ppt := 1; f_nb := 1; f_pnb := 1; f_wt := fun _ => 1; f_pwt := fun _ _ => 1; f_bas := fun _ _ => 1;
  f_pbas := fun _ _ _ => 1; f_dot := fun k => INR k; f_src := fun _ => 0; f_off := fun d => d; f_poff := fun d => d |}.
Theorem C218_mass_refuted : exists f dof pdof, f_rows f /\ (dof < f_nb f)%nat /\ (pdof < f_pnb f)%nat /\
  residual (f_volume f) (f_off f dof * f_pnb f + f_poff f pdof)%nat <> product_form f dof pdof (fun k => f_dot f k - f_src f k).
Proof.
  exists two_phase_cells, 0%nat, 0%nat. assert (f_rows two_phase_cells) as R by (intros d p d' p' H1 H2 H3 H4 _; cbn in *; lia).
  split; [exact R |]. split; [cbn; lia |]. split; [cbn; lia |]. rewrite (f_res two_phase_cells 0 0 R) by (cbn; lia).
  unfold product_form, sm, Sparse_Model.rsum. cbn. lra.
Qed.
Print Assumptions C218_mass_partial.
Print Assumptions C218_index_refuted.
Print Assumptions C218_mass_refuted.
