(** C19, C20, C21: assembly. *)
From Coq Require Import Bool Arith Lia Reals Lra List Permutation.
From Verif Require Import Sparse_Model Sparse_Props Mass_Model Mass_Props Newton_Model PCG_Model PCG_Props Assembly_Model.
Import ListNotations.
Local Open Scope R_scope.

(** *** Specification: plain sums over the elements *)

Definition contrib (e : elt) (i : nat) : R :=
  rsum (map (fun o => if (elid e o =? i)%nat then rv e o else 0) (seq 0 (ndofs e))).
Definition contrib2 (e : elt) (i j : nat) : R :=
  rsum (map (fun o => rsum (map (fun c => if ((elid e o =? i) && (elid e c =? j))%nat then rd e o c else 0) (seq 0 (ndofs e)))) (seq 0 (ndofs e))).
Definition elements (p : proc) : list elt := concat (pblocks p).
Definition raw_res (ps : list proc) (i : nat) : R := rsum (map (fun p => rsum (map (fun e => contrib e i) (elements p))) ps).
Definition raw_jac (ps : list proc) (i j : nat) : R := rsum (map (fun p => rsum (map (fun e => contrib2 e i j) (elements p))) ps).

(** The offsets of an element enumerate its degrees of freedom. *)
Definition wf_elt (e : elt) : Prop := Permutation (offsets e) (seq 0 (ndofs e)).
Definition wf_proc (p : proc) : Prop := forall e, In e (elements p) -> wf_elt e.

(** *** One element *)

Lemma rsum_cons a l : rsum (a :: l) = a + rsum l.
Proof. reflexivity. Qed.

Lemma rsum_map_if {A} (b : bool) (f : A -> R) l : rsum (map (fun x => if b then f x else 0) l) = if b then rsum (map f l) else 0.
Proof. destruct b; auto. apply rsum_zero. auto. Qed.

Lemma flag_spec l i : flag l i = true <-> In i l.
Proof.
  unfold flag. rewrite existsb_exists. split.
  - intros (x & Hx & E). apply Nat.eqb_eq in E. subst. auto.
  - intros H. exists i. split; auto. apply Nat.eqb_refl.
Qed.

Lemma rsum_offsets e (f : nat -> R) : wf_elt e -> rsum (map f (offsets e)) = rsum (map f (seq 0 (ndofs e))).
Proof. intros H. apply rsum_perm, Permutation_map. exact H. Qed.

Lemma direct_res_val fx e i : wf_elt e -> rsum (map (pick i) (direct_res fx e)) = if fx i then 0 else - contrib e i.
Proof.
  intros W. unfold direct_res. rewrite map_flat_map, rsum_flat_map.
  rewrite (rsum_ext _ (fun o => if fx i then 0 else -1 * (if (elid e o =? i)%nat then rv e o else 0))).
  2:{ intros o _. destruct (Nat.eqb_spec (elid e o) i) as [E|N].
      - rewrite E. destruct (fx i); cbn; auto. unfold pick. cbn [fst snd]. rewrite Nat.eqb_refl. ring.
      - destruct (fx (elid e o)), (fx i); cbn; auto; try ring; unfold pick; cbn [fst snd]; destruct (Nat.eqb_spec (elid e o) i); try contradiction; ring. }
  rewrite rsum_offsets by auto. destruct (fx i); [apply rsum_zero; auto|].
  rewrite rsum_map_scal. unfold contrib. ring.
Qed.

Lemma local_res_val e o : wf_elt e -> (o < ndofs e)%nat -> local_res e o = - rv e o.
Proof.
  intros W Ho. unfold local_res. rewrite scatter_val, map_map. unfold pick. cbn [fst snd].
  rewrite (rsum_offsets e (fun x => if (x =? o)%nat then - rv e x else 0)) by auto.
  rewrite (rsum_single (ndofs e) o (fun x => - rv e x)) by auto. ring.
Qed.

Lemma stored_res_val fx e i : wf_elt e -> rsum (map (pick i) (stored_res fx (local_res e) e)) = if fx i then 0 else - contrib e i.
Proof.
  intros W. unfold stored_res. rewrite map_flat_map, rsum_flat_map.
  rewrite (rsum_ext _ (fun o => if fx i then 0 else -1 * (if (elid e o =? i)%nat then rv e o else 0))).
  2:{ intros o Ho. apply in_seq in Ho. rewrite local_res_val by (auto; lia). destruct (Nat.eqb_spec (elid e o) i) as [E|N].
      - rewrite E. destruct (fx i); cbn; auto. unfold pick. cbn [fst snd]. rewrite Nat.eqb_refl. ring.
      - destruct (fx (elid e o)), (fx i); cbn; auto; try ring; unfold pick; cbn [fst snd]; destruct (Nat.eqb_spec (elid e o) i); try contradiction; ring. }
  destruct (fx i); [apply rsum_zero; auto|]. rewrite rsum_map_scal. unfold contrib. ring.
Qed.

(** The matrix of an element, with its rows or columns exchanged in adjoint mode and its
    entries moved to the diagonal by lumping. *)
Definition elt_jac (m : mode) (e : elt) (i j : nat) : R :=
  match m with
  | Direct _ false | Stored false => contrib2 e i j
  | Direct _ true => if (i =? j)%nat then
      rsum (map (fun o => rsum (map (fun c => if (elid e o =? i)%nat then rd e o c else 0) (seq 0 (ndofs e)))) (seq 0 (ndofs e))) else 0
  | Stored true => contrib2 e j i
  end.

Lemma local_jac_val adj e a b : wf_elt e -> (a < ndofs e)%nat -> (b < ndofs e)%nat ->
  local_jac adj e a b = if adj then rd e b a else rd e a b.
Proof.
  intros W Ha Hb. unfold local_jac. rewrite scatter2_val, map_flat_map, rsum_flat_map.
  rewrite (rsum_ext _ (fun o => rsum (map (fun c => if ((if adj then b else a) =? o)%nat then (if ((if adj then a else b) =? c)%nat then rd e o c else 0) else 0) (offsets e)))).
  2:{ intros o _. rewrite map_map. apply rsum_ext. intros c _. unfold pick2. destruct adj; cbn [fst snd].
      - destruct (a =? c)%nat, (b =? o)%nat; reflexivity.
      - destruct (a =? o)%nat, (b =? c)%nat; reflexivity. }
  rewrite (rsum_ext _ (fun o => if (o =? (if adj then b else a))%nat then rd e o (if adj then a else b) else 0)).
  2:{ intros o _. rewrite rsum_map_if. rewrite Nat.eqb_sym. destruct (_ =? _)%nat; auto.
      rewrite rsum_offsets by auto.
      rewrite (rsum_ext _ (fun c => if (c =? (if adj then a else b))%nat then rd e o c else 0)) by (intros c _; rewrite Nat.eqb_sym; auto).
      apply (rsum_single (ndofs e) (if adj then a else b) (fun c => rd e o c)). destruct adj; auto. }
  rewrite rsum_offsets by auto. rewrite (rsum_single (ndofs e) (if adj then b else a) (fun o => rd e o (if adj then a else b))) by (destruct adj; auto).
  destruct adj; ring.
Qed.

Lemma jac_elt_val m p e i j : wf_elt e -> rsum (map (pick2 i j) (jac_contribs m p e)) = if flag (pfixed p) i then 0 else elt_jac m e i j.
Proof.
  intros W. set (fx := flag (pfixed p)). destruct m as [junk lump|adj]; cbn [jac_contribs]; fold fx.
  - unfold direct_jac. rewrite map_flat_map, rsum_flat_map.
    rewrite (rsum_ext _ (fun o => if fx i then 0 else rsum (map (fun c => if ((elid e o =? i) && ((if lump then elid e o else elid e c) =? j))%nat then rd e o c else 0) (seq 0 (ndofs e))))).
    2:{ intros o Ho. destruct (Nat.eqb_spec (elid e o) i) as [E|N].
        - rewrite E. destruct (fx i); auto. rewrite map_map. apply rsum_ext. intros c Hc. unfold pick2. cbn [fst snd andb].
          rewrite Nat.eqb_refl. cbn [andb]. rewrite (Nat.eqb_sym j).
          assert (X : existsb (Nat.eqb c) (offsets e) = true).
          { apply (flag_spec (offsets e) c). eapply Permutation_in; [apply Permutation_sym; exact W|auto]. }
          rewrite X. reflexivity.
        - assert (Z : rsum (map (fun c : nat => if ((elid e o =? i) && ((if lump then elid e o else elid e c) =? j))%nat then rd e o c else 0) (seq 0 (ndofs e))) = 0).
          { apply rsum_zero. intros c _. destruct (Nat.eqb_spec (elid e o) i); [contradiction|auto]. }
          cbn [andb]. replace (if fx i then 0 else rsum (map (fun c : nat => 0) (seq 0 (ndofs e)))) with 0.
          2:{ destruct (fx i); auto. symmetry. apply rsum_zero. auto. }
          destruct (fx (elid e o)); auto. rewrite map_map. apply rsum_zero. intros c _. unfold pick2. cbn [fst snd].
          destruct (Nat.eqb_spec i (elid e o)); [congruence|auto]. }
    rewrite rsum_offsets by auto. destruct (fx i); [apply rsum_zero; auto|].
    destruct lump; cbn [elt_jac]; [|reflexivity].
    destruct (Nat.eqb_spec i j) as [->|N].
    + apply rsum_ext. intros o _. apply rsum_ext. intros c _. destruct (elid e o =? j)%nat; reflexivity.
    + apply rsum_zero. intros o _. apply rsum_zero. intros c _. destruct (Nat.eqb_spec (elid e o) i), (Nat.eqb_spec (elid e o) j); try reflexivity. congruence.
  - unfold stored_jac. rewrite map_flat_map, rsum_flat_map.
    rewrite (rsum_ext _ (fun o => if fx i then 0 else rsum (map (fun c => if ((elid e o =? i) && (elid e c =? j))%nat then (if adj then rd e c o else rd e o c) else 0) (seq 0 (ndofs e))))).
    2:{ intros o Ho. apply in_seq in Ho. destruct (Nat.eqb_spec (elid e o) i) as [E|N].
        - rewrite E. destruct (fx i); auto. rewrite map_map. apply rsum_ext. intros c Hc. apply in_seq in Hc. unfold pick2. cbn [fst snd].
          rewrite Nat.eqb_refl. cbn [andb]. rewrite (Nat.eqb_sym j), local_jac_val by (auto; lia). reflexivity.
        - cbn [andb]. replace (if fx i then 0 else rsum (map (fun c : nat => 0) (seq 0 (ndofs e)))) with 0.
          2:{ destruct (fx i); auto. symmetry. apply rsum_zero. auto. }
          destruct (fx (elid e o)); auto. rewrite map_map. apply rsum_zero. intros c _. unfold pick2. cbn [fst snd].
          destruct (Nat.eqb_spec i (elid e o)); [congruence|auto]. }
    destruct (fx i); [apply rsum_zero; auto|]. destruct adj; cbn [elt_jac]; [|reflexivity].
    unfold contrib2. rewrite rsum_swap. apply rsum_ext. intros o _. apply rsum_ext. intros c _. rewrite andb_comm. reflexivity.
Qed.

(** *** One process *)

Definition mask (m : mode) (p : proc) : nat -> bool :=
  match m with Direct _ _ => flag (pfixed p) | Stored _ => flag (pfixed0 p) end.

Lemma res_elt_val m p e i : wf_elt e -> rsum (map (pick i) (res_contribs m p e)) = if mask m p i then 0 else - contrib e i.
Proof. intros W. destruct m; cbn [res_contribs mask]; [apply direct_res_val|apply stored_res_val]; auto. Qed.

Lemma proc_res_val m p i : wf_proc p -> proc_res m p i = if mask m p i then 0 else - rsum (map (fun e => contrib e i) (elements p)).
Proof.
  unfold proc_res, wf_proc, elements. intros W.
  assert (G : forall bs r, (forall e, In e (concat bs) -> wf_elt e) ->
    fold_left (fun r b => scatter (flat_map (res_contribs m p) b) r) bs r i =
    r i + if mask m p i then 0 else - rsum (map (fun e => contrib e i) (concat bs))).
  { induction bs as [|b bs IH]; intros r Wb; cbn [fold_left concat].
    - destruct (mask m p i); cbn; ring.
    - rewrite IH by (intros; apply Wb; cbn; apply in_or_app; auto).
      rewrite scatter_val, map_flat_map, rsum_flat_map.
      rewrite (rsum_ext _ (fun e => if mask m p i then 0 else - contrib e i)).
      2:{ intros e He. apply res_elt_val. apply Wb. cbn. apply in_or_app. auto. }
      rewrite map_app, rsum_app. destruct (mask m p i).
      + rewrite rsum_zero by auto. ring.
      + rewrite (rsum_ext (fun e => - contrib e i) (fun e => -1 * contrib e i)) by (intros; ring). rewrite rsum_map_scal. ring. }
  rewrite G by auto. ring.
Qed.

Lemma fix_free l : forall J i j, ~ In i l -> fold_left (fun J d => set2 J d d 1) l J i j = J i j.
Proof.
  induction l as [|d l IH]; intros J i j H; cbn [fold_left]; auto. rewrite IH by (intros ?; apply H; right; auto).
  unfold set2. destruct (Nat.eqb_spec i d) as [->|N]; auto. exfalso. apply H. left. auto.
Qed.
Lemma fix_fixed l : forall J i j, In i l -> fold_left (fun J d => set2 J d d 1) l J i j = if (i =? j)%nat then 1 else J i j.
Proof.
  induction l as [|d l IH]; intros J i j H; [destruct H|]. cbn [fold_left].
  destruct (in_dec Nat.eq_dec i l) as [I|N].
  - rewrite IH by auto. unfold set2. destruct (Nat.eqb_spec i j) as [->|]; auto.
    destruct (Nat.eqb_spec i d), (Nat.eqb_spec j d); auto; congruence.
  - destruct H as [->|H]; [|contradiction]. rewrite fix_free by auto. unfold set2. rewrite Nat.eqb_refl. cbn [andb]. rewrite Nat.eqb_sym. reflexivity.
Qed.
Lemma point_free l : forall J i j, ~ In i l -> fold_left (fun J d => set2 (zero_row J d) d d 1) l J i j = J i j.
Proof.
  induction l as [|d l IH]; intros J i j H; cbn [fold_left]; auto. rewrite IH by (intros ?; apply H; right; auto).
  unfold set2, zero_row. destruct (Nat.eqb_spec i d) as [->|N]; auto. exfalso. apply H. left. auto.
Qed.
Lemma point_fixed l : forall J i j, In i l -> fold_left (fun J d => set2 (zero_row J d) d d 1) l J i j = if (i =? j)%nat then 1 else 0.
Proof.
  induction l as [|d l IH]; intros J i j H; [destruct H|]. cbn [fold_left].
  destruct (in_dec Nat.eq_dec i l) as [I|N]; [apply IH; auto|].
  destruct H as [->|H]; [|contradiction]. rewrite point_free by auto. unfold set2, zero_row. rewrite Nat.eqb_refl. cbn [andb]. rewrite Nat.eqb_sym. reflexivity.
Qed.

Definition constrained (p : proc) (i : nat) : Prop := In i (pfixed p) \/ In i (ppoint p).

Lemma constrain_free p J i j : ~ constrained p i -> constrain p J i j = J i j.
Proof. intros H. unfold constrain. rewrite point_free, fix_free; auto; intros ?; apply H; [left|right]; auto. Qed.

Lemma proc_jac_free m p i j : wf_proc p -> ~ constrained p i ->
  proc_jac m None p i j = rsum (map (fun e => elt_jac m e i j) (elements p)).
Proof.
  unfold proc_jac, wf_proc, elements. intros W HF.
  assert (F : flag (pfixed p) i = false).
  { destruct (flag (pfixed p) i) eqn:E; auto. apply flag_spec in E. exfalso. apply HF. left. auto. }
  assert (G : forall bs J, (forall e, In e (concat bs) -> wf_elt e) ->
    fold_left (fun J b => constrain p (scatter2 (flat_map (jac_contribs m p) b) J)) bs J i j =
    J i j + rsum (map (fun e => elt_jac m e i j) (concat bs))).
  { induction bs as [|b bs IH]; intros J Wb; cbn [fold_left concat]; [cbn; ring|].
    rewrite IH by (intros; apply Wb; cbn; apply in_or_app; auto).
    rewrite constrain_free by auto. rewrite scatter2_val, map_flat_map, rsum_flat_map.
    rewrite (rsum_ext _ (fun e => elt_jac m e i j)).
    2:{ intros e He. rewrite jac_elt_val, F; auto. apply Wb. cbn. apply in_or_app. auto. }
    rewrite map_app, rsum_app. ring. }
  rewrite G by auto. ring.
Qed.

Lemma proc_jac_fixed m p i j : wf_proc p -> pblocks p <> [] -> In i (pfixed p) ->
  proc_jac m None p i j = if (i =? j)%nat then 1 else 0.
Proof.
  unfold proc_jac, wf_proc, elements. intros W HB HF.
  assert (F : flag (pfixed p) i = true) by (apply flag_spec; auto).
  assert (B : forall b J, (forall e, In e b -> wf_elt e) -> (i <> j -> J i j = 0) ->
    constrain p (scatter2 (flat_map (jac_contribs m p) b) J) i j = if (i =? j)%nat then 1 else 0).
  { intros b J Wb HJ. unfold constrain.
    destruct (in_dec Nat.eq_dec i (ppoint p)) as [I|N]; [apply point_fixed; auto|].
    rewrite point_free, fix_fixed by auto. destruct (Nat.eqb_spec i j); auto.
    rewrite scatter2_val, map_flat_map, rsum_flat_map, HJ by auto. rewrite rsum_zero; [ring|].
    intros e He. rewrite jac_elt_val, F; auto. }
  destruct (pblocks p) as [|b bs]; [congruence|]. clear HB. cbn [fold_left].
  assert (G : forall bs J, (forall e, In e (concat bs) -> wf_elt e) -> J i j = (if (i =? j)%nat then 1 else 0) ->
    fold_left (fun J b => constrain p (scatter2 (flat_map (jac_contribs m p) b) J)) bs J i j = if (i =? j)%nat then 1 else 0).
  { clear W b bs. induction bs as [|b bs IH]; intros J Wb HJ; cbn [fold_left]; auto.
    apply IH; [intros; apply Wb; cbn; apply in_or_app; auto|].
    apply B; [intros; apply Wb; cbn; apply in_or_app; auto|]. intros N. rewrite HJ. destruct (Nat.eqb_spec i j); congruence. }
  apply G; [intros; apply W; cbn; apply in_or_app; auto|].
  apply B; auto. intros; apply W; cbn; apply in_or_app; auto.
Qed.

(** *** C19 *)

Theorem C19_residual_free m ps i : (forall p, In p ps -> wf_proc p /\ mask m p i = false) ->
  asm_res m ps i = - raw_res ps i.
Proof.
  intros H. unfold asm_res, raw_res.
  rewrite (rsum_ext _ (fun p => -1 * rsum (map (fun e => contrib e i) (elements p)))).
  - rewrite rsum_map_scal. ring.
  - intros p Hp. destruct (H p Hp) as [W F]. rewrite proc_res_val, F by auto. ring.
Qed.
Print Assumptions C19_residual_free.

Theorem C19_residual_fixed m ps i : (forall p, In p ps -> wf_proc p /\ mask m p i = true) -> asm_res m ps i = 0.
Proof. intros H. apply rsum_zero. intros p Hp. destruct (H p Hp) as [W F]. rewrite proc_res_val, F by auto. auto. Qed.
Print Assumptions C19_residual_fixed.

Theorem C19_jacobian_free m ps i j : (forall p, In p ps -> wf_proc p /\ ~ constrained p i) ->
  asm_jac m None ps i j = rsum (map (fun p => rsum (map (fun e => elt_jac m e i j) (elements p))) ps).
Proof. intros H. apply rsum_ext. intros p Hp. apply proc_jac_free; apply H; auto. Qed.
Print Assumptions C19_jacobian_free.

(** Forward mode, no lumping: the sum of the element matrices, for both code paths. *)
Theorem C19_jacobian_forward m ps i j : (forall p, In p ps -> wf_proc p /\ ~ constrained p i) ->
  (exists junk, m = Direct junk false) \/ m = Stored false ->
  asm_jac m None ps i j = raw_jac ps i j.
Proof. intros H E. rewrite C19_jacobian_free by auto. destruct E as [[junk ->]| ->]; reflexivity. Qed.
Print Assumptions C19_jacobian_forward.

(** Fixed rows: a multiple of the identity row, the multiple being the number of processes
    that know the row. *)
Theorem C19_jacobian_fixed m ps i j : (forall p, In p ps -> wf_proc p /\ pblocks p <> [] /\ In i (pfixed p)) ->
  asm_jac m None ps i j = if (i =? j)%nat then INR (length ps) else 0.
Proof.
  intros H. unfold asm_jac. rewrite (rsum_ext _ (fun _ => if (i =? j)%nat then 1 else 0)).
  2:{ intros p Hp. destruct (H p Hp) as (W & B & F). apply proc_jac_fixed; auto. }
  destruct (i =? j)%nat; [|apply rsum_zero; auto].
  clear H. induction ps as [|p ps IH]; auto. cbn [map]. rewrite rsum_cons, IH. cbn [length]. rewrite S_INR. ring.
Qed.
Print Assumptions C19_jacobian_fixed.

(** Hence the update of a fixed unknown is zero. *)
Theorem C19_fixed_unchanged n m ps i du : ps <> [] -> (i < n)%nat ->
  (forall p, In p ps -> wf_proc p /\ pblocks p <> [] /\ In i (pfixed p) /\ mask m p i = true) ->
  apply n (asm_jac m None ps) du i = asm_res m ps i -> du i = 0.
Proof.
  intros HP Hi H E. rewrite C19_residual_fixed in E by (intros p Hp; destruct (H p Hp) as (? & ? & ? & ?); auto).
  unfold apply in E.
  rewrite (vs_ext n _ (fun j => if (j =? i)%nat then INR (length ps) * du j else 0)) in E.
  2:{ intros j _. rewrite C19_jacobian_fixed by (intros p Hp; destruct (H p Hp) as (? & ? & ? & ?); auto). rewrite Nat.eqb_sym. destruct (j =? i)%nat; ring. }
  unfold vsum in E. change (rsum (map (fun j : nat => if (j =? i)%nat then INR (length ps) * du j else 0) (seq 0 n)) = 0) in E.
  rewrite (rsum_single n i (fun j => INR (length ps) * du j)) in E by auto.
  apply Rmult_integral in E as [E|E]; auto. exfalso. revert E. apply not_0_INR. destruct ps; [congruence|discriminate].
Qed.
Print Assumptions C19_fixed_unchanged.

(** The order in which the additions take place does not matter. *)
Theorem C19_order m p b r J cs cs' :
  Permutation cs (flat_map (res_contribs m p) b) -> Permutation cs' (flat_map (jac_contribs m p) b) ->
  (forall i, scatter cs r i = scatter (flat_map (res_contribs m p) b) r i) /\
  (forall i j, scatter2 cs' J i j = scatter2 (flat_map (jac_contribs m p) b) J i j).
Proof.
  intros P1 P2. split; intros.
  - rewrite !scatter_val. f_equal. apply rsum_perm, Permutation_map. auto.
  - rewrite !scatter2_val. f_equal. apply rsum_perm, Permutation_map. auto.
Qed.
Print Assumptions C19_order.

(** Nor does the distribution of the elements over blocks and processes. *)
Theorem C19_partition m m' ps ps' i j :
  (forall p, In p ps -> wf_proc p /\ mask m p i = false /\ ~ constrained p i) ->
  (forall p, In p ps' -> wf_proc p /\ mask m' p i = false /\ ~ constrained p i) ->
  (exists junk, m = Direct junk false) \/ m = Stored false -> (exists junk, m' = Direct junk false) \/ m' = Stored false ->
  Permutation (flat_map elements ps) (flat_map elements ps') ->
  asm_res m ps i = asm_res m' ps' i /\ asm_jac m None ps i j = asm_jac m' None ps' i j.
Proof.
  intros H H' E E' P. split.
  - rewrite !C19_residual_free by (intros p Hp; destruct (H p Hp) as (? & ? & ?) || destruct (H' p Hp) as (? & ? & ?); auto).
    f_equal. unfold raw_res. rewrite <- !rsum_flat_map, <- !map_flat_map. apply rsum_perm, Permutation_map. auto.
  - rewrite !C19_jacobian_forward by (auto; intros p Hp; destruct (H p Hp) as (? & ? & ?) || destruct (H' p Hp) as (? & ? & ?); auto).
    unfold raw_jac. rewrite <- !rsum_flat_map, <- !map_flat_map. apply rsum_perm, Permutation_map. auto.
Qed.
Print Assumptions C19_partition.

(** An element with two unknowns, used below. *)
Definition elt2 (a b : nat) : elt :=
  {| lids := [a; b]; offsets := [0%nat; 1%nat]; rv := fun o => 1 + INR o; rd := fun o c => if (o =? c)%nat then 2 else -1 |}.
Lemma elt2_wf a b : wf_elt (elt2 a b).
Proof. apply Permutation_refl. Qed.

Example C19_example : asm_jac (Stored false) None [{| pblocks := [[elt2 0 1; elt2 1 2]]; pfixed := [0%nat]; pfixed0 := [0%nat]; ppoint := [] |}] 1 1 = 4.
Proof.
  rewrite C19_jacobian_forward; auto.
  - cbn. ring.
  - intros p [<-|[]]. split.
    + intros e [<-|[<-|[]]]; apply elt2_wf.
    + intros [[E|[]]|[]]; discriminate.
Qed.

(** A process that shares a fixed degree of freedom but has no boundary face at it does
    not know that it is fixed (the lists are made from the sides of the process alone,
    discretizationInterface_dof.hpp lines 643-737), and adds its elements to the row. *)
Theorem C19_unshared_refuted : exists ps i,
  (exists p, In p ps /\ In i (pfixed p)) /\ (forall p, In p ps -> wf_proc p /\ pblocks p <> []) /\
  asm_jac (Stored false) None ps i 1 <> 0 /\ asm_res (Stored false) ps i <> 0.
Proof.
  exists [{| pblocks := [[elt2 0 2]]; pfixed := [0%nat]; pfixed0 := [0%nat]; ppoint := [] |};
          {| pblocks := [[elt2 0 1]]; pfixed := []; pfixed0 := []; ppoint := [] |}], 0%nat.
  assert (W : forall a b, wf_proc {| pblocks := [[elt2 a b]]; pfixed := []; pfixed0 := []; ppoint := [] |}) by (intros a b e [<-|[]]; apply elt2_wf).
  assert (W' : wf_proc {| pblocks := [[elt2 0 2]]; pfixed := [0%nat]; pfixed0 := [0%nat]; ppoint := [] |}) by (intros e [<-|[]]; apply elt2_wf).
  split; [eexists; split; [left; reflexivity|left; reflexivity]|]. split.
  - intros p [<-|[<-|[]]]; split; auto; discriminate.
  - split.
    + unfold asm_jac. cbn [map]. rewrite !rsum_cons. rewrite proc_jac_fixed; [|exact W'|discriminate|left; reflexivity].
      rewrite proc_jac_free; [|apply W|intros [[]|[]]]. cbn. lra.
    + unfold asm_res. cbn [map]. rewrite !rsum_cons. rewrite !proc_res_val by auto. cbn. lra.
Qed.
Print Assumptions C19_unshared_refuted.

(** Point constraints: the row becomes an identity row but keeps its residual, so the
    solve changes the constrained unknown. *)
Theorem C19_point_refuted : exists ps i, (forall p, In p ps -> wf_proc p /\ In i (ppoint p)) /\
  asm_jac (Stored false) None ps i i = 1 /\ (forall j, j <> i -> asm_jac (Stored false) None ps i j = 0) /\ asm_res (Stored false) ps i <> 0.
Proof.
  exists [{| pblocks := [[elt2 0 1]]; pfixed := []; pfixed0 := []; ppoint := [0%nat] |}], 0%nat.
  assert (W' : wf_proc {| pblocks := [[elt2 0 1]]; pfixed := []; pfixed0 := []; ppoint := [0%nat] |}) by (intros e [<-|[]]; apply elt2_wf).
  split; [intros p [<-|[]]; split; auto; left; auto|].
  assert (J : forall j, asm_jac (Stored false) None [{| pblocks := [[elt2 0 1]]; pfixed := []; pfixed0 := []; ppoint := [0%nat] |}] 0 j = if (0 =? j)%nat then 1 else 0).
  { intros j. unfold asm_jac, proc_jac. cbn [map pblocks fold_left]. rewrite rsum_cons. unfold constrain. rewrite point_fixed by (left; auto). cbn. ring. }
  split; [rewrite J; auto|]. split.
  - intros j Hj. rewrite J. destruct j; [congruence|auto].
  - unfold asm_res. cbn [map]. rewrite rsum_cons, proc_res_val by auto. cbn. lra.
Qed.
Print Assumptions C19_point_refuted.

(** The stored path masks residuals with the flags of the first set. *)
Theorem C19_other_set_refuted : exists ps i, (forall p, In p ps -> wf_proc p /\ In i (pfixed p)) /\ asm_res (Stored true) ps i <> 0.
Proof.
  exists [{| pblocks := [[elt2 0 1]]; pfixed := [0%nat]; pfixed0 := []; ppoint := [] |}], 0%nat.
  assert (W' : wf_proc {| pblocks := [[elt2 0 1]]; pfixed := [0%nat]; pfixed0 := []; ppoint := [] |}) by (intros e [<-|[]]; apply elt2_wf).
  split; [intros p [<-|[]]; split; auto; left; auto|].
  unfold asm_res. cbn [map]. rewrite rsum_cons, proc_res_val by auto. cbn. lra.
Qed.
Print Assumptions C19_other_set_refuted.

(** "fix zero rows" runs after every block: a row that belongs to a later block has been
    given a one on the diagonal before its elements are added. *)
Theorem C19_zero_rows_refuted : exists p i, wf_proc p /\ ~ constrained p i /\
  asm_jac (Stored false) (Some 3%nat) [p] i i = 1 + raw_jac [p] i i /\ raw_jac [p] i i <> 0.
Proof.
  set (p := {| pblocks := [[elt2 0 1]; [elt2 1 2]]; pfixed := []; pfixed0 := []; ppoint := [] |}).
  exists p, 2%nat.
  assert (W : wf_proc p) by (intros e [<-|[<-|[]]]; apply elt2_wf).
  split; auto. split; [intros [[]|[]]|].
  assert (Rw : raw_jac [p] 2 2 = 2) by (cbn; ring).
  split; [|rewrite Rw; lra]. rewrite Rw.
  unfold asm_jac, proc_jac. cbn [map pblocks p fold_left]. rewrite rsum_cons. change (rsum []) with 0.
  assert (T : forall b J i j, scatter2 (flat_map (jac_contribs (Stored false) p) [elt2 1 b]) J i j = J i j + contrib2 (elt2 1 b) i j).
  { intros. rewrite scatter2_val, map_flat_map, rsum_flat_map. cbn [map]. rewrite rsum_cons, jac_elt_val by apply elt2_wf. cbn [flag existsb pfixed p elt_jac]. change (rsum []) with 0. ring. }
  assert (T0 : forall i j, scatter2 (flat_map (jac_contribs (Stored false) p) [elt2 0 1]) (fun _ _ => 0) i j = contrib2 (elt2 0 1) i j).
  { intros. rewrite scatter2_val, map_flat_map, rsum_flat_map. cbn [map]. rewrite rsum_cons, jac_elt_val by apply elt2_wf. cbn [flag existsb pfixed p elt_jac]. change (rsum []) with 0. ring. }
  set (J1 := fix_zero_rows 3 (constrain p (scatter2 (flat_map (jac_contribs (Stored false) p) [elt2 0 1]) (fun _ _ => 0)))).
  assert (E1 : forall j, J1 2%nat j = if (2 =? j)%nat then 1 else 0).
  { intros j. unfold J1, fix_zero_rows. destruct (Rlt_dec _ _) as [L|L].
    - destruct (2 =? j)%nat; reflexivity.
    - exfalso. apply L. rewrite (rsum_ext _ (fun _ => 0)).
      + cbn. lra.
      + intros c _. rewrite constrain_free by (intros [[]|[]]). rewrite T0.
        replace (contrib2 (elt2 0 1) 2 c) with 0; [apply Rabs_R0|]. cbn. ring. }
  assert (E2 : forall j, constrain p (scatter2 (flat_map (jac_contribs (Stored false) p) [elt2 1 2]) J1) 2 j = J1 2%nat j + contrib2 (elt2 1 2) 2 j).
  { intros j. rewrite constrain_free by (intros [[]|[]]). apply T. }
  unfold fix_zero_rows. destruct (Rlt_dec _ _) as [L|L].
  - exfalso. revert L. apply Rle_not_lt. cbn [seq map]. rewrite !rsum_cons, !E2, !E1. cbn.
    repeat rewrite Rplus_0_l. repeat rewrite Rplus_0_r. unfold Rabs. repeat destruct (Rcase_abs _); lra.
  - rewrite E2, E1. cbn. ring.
Qed.
Print Assumptions C19_zero_rows_refuted.

(** *** C20 *)

Theorem C20_adjoint n ps x m : (forall p, In p ps -> wf_proc p) ->
  (forall p e i, In p ps -> In e (elements p) -> In i (lids e) -> (i < n)%nat) ->
  (forall p i, In p ps -> mask m p i = true -> x i = 0) ->
  rsum (map (fun i => x i * asm_res m ps i) (seq 0 n)) =
  rsum (map (fun p => rsum (map (fun e => rsum (map (fun o => gather x e o * - rv e o) (seq 0 (ndofs e)))) (elements p))) ps).
Proof.
  intros W B Hx. unfold asm_res.
  rewrite (rsum_ext _ (fun i => rsum (map (fun p => rsum (map (fun e => rsum (map (fun o => if (elid e o =? i)%nat then x i * - rv e o else 0) (seq 0 (ndofs e)))) (elements p))) ps))).
  2:{ intros i _. rewrite <- rsum_map_scal. apply rsum_ext. intros p Hp. rewrite proc_res_val by auto.
      destruct (mask m p i) eqn:M.
      - rewrite (Hx p i Hp M). rewrite Rmult_0_l. symmetry. apply rsum_zero. intros e _. apply rsum_zero. intros o _. destruct (_ =? _)%nat; ring.
      - replace (x i * - rsum (map (fun e => contrib e i) (elements p))) with (- x i * rsum (map (fun e => contrib e i) (elements p))) by ring.
        rewrite <- rsum_map_scal. apply rsum_ext. intros e _. unfold contrib. rewrite <- rsum_map_scal. apply rsum_ext. intros o _. destruct (_ =? _)%nat; ring. }
  rewrite rsum_swap. apply rsum_ext. intros p Hp. rewrite rsum_swap. apply rsum_ext. intros e He. rewrite rsum_swap. apply rsum_ext. intros o Ho.
  apply in_seq in Ho. unfold gather.
  rewrite (rsum_ext _ (fun i => if (i =? elid e o)%nat then x i * - rv e o else 0)) by (intros i _; rewrite Nat.eqb_sym; auto).
  apply (rsum_single n (elid e o) (fun i => x i * - rv e o)). apply (B p e); auto. unfold elid. apply nth_In. unfold ndofs in Ho. lia.
Qed.
Print Assumptions C20_adjoint.

Example C20_hypotheses_met : let ps := [{| pblocks := [[elt2 0 1; elt2 1 2]]; pfixed := []; pfixed0 := []; ppoint := [] |}] in
  (forall p, In p ps -> wf_proc p) /\ (forall p e i, In p ps -> In e (elements p) -> In i (lids e) -> (i < 3)%nat) /\
  rsum (map (fun i => 1 * asm_res (Stored false) ps i) (seq 0 3)) = -6.
Proof.
  cbn zeta. assert (W : forall p, In p [{| pblocks := [[elt2 0 1; elt2 1 2]]; pfixed := []; pfixed0 := []; ppoint := [] |}] -> wf_proc p) by (intros p [<-|[]] e [<-|[<-|[]]]; apply elt2_wf).
  split; [auto|]. split.
  - intros p e i [<-|[]] [<-|[<-|[]]] [<-|[<-|[]]]; lia.
  - rewrite (C20_adjoint 3 _ (fun _ => 1) (Stored false) W).
    + cbv -[IZR Rplus Rmult Ropp INR]. cbn [INR]. lra.
    + intros p e i [<-|[]] [<-|[<-|[]]] [<-|[<-|[]]]; lia.
    + intros p i [<-|[]] H. discriminate.
Qed.

(** *** C21 *)

Theorem C21_transpose ps i j : (forall p, In p ps -> wf_proc p /\ ~ constrained p i /\ ~ constrained p j) ->
  asm_jac (Stored true) None ps i j = asm_jac (Stored false) None ps j i.
Proof.
  intros H. rewrite !C19_jacobian_free by (intros p Hp; destruct (H p Hp) as (? & ? & ?); auto). reflexivity.
Qed.
Print Assumptions C21_transpose.

(** Also against the forward matrix of the direct path. *)
Theorem C21_transpose_direct junk ps i j : (forall p, In p ps -> wf_proc p /\ ~ constrained p i /\ ~ constrained p j) ->
  asm_jac (Stored true) None ps i j = asm_jac (Direct junk false) None ps j i.
Proof.
  intros H. rewrite !C19_jacobian_free by (intros p Hp; destruct (H p Hp) as (? & ? & ?); auto). reflexivity.
Qed.
Print Assumptions C21_transpose_direct.

(** With Dirichlet rows the adjoint matrix is not the transpose of the constrained forward
    matrix: the columns of the fixed unknowns keep the element derivatives. *)
Theorem C21_fixed_columns_refuted : exists ps i j, (forall p, In p ps -> wf_proc p) /\
  asm_jac (Stored true) None ps i j <> asm_jac (Stored false) None ps j i.
Proof.
  set (p := {| pblocks := [[elt2 0 1]]; pfixed := [0%nat]; pfixed0 := [0%nat]; ppoint := [] |}).
  exists [p], 1%nat, 0%nat. assert (W : wf_proc p) by (intros e [<-|[]]; apply elt2_wf).
  split; [intros q [<-|[]]; auto|]. unfold asm_jac. cbn [map]. rewrite !rsum_cons.
  rewrite proc_jac_free; [|auto|intros [[E|[]]|[]]; discriminate].
  rewrite proc_jac_fixed; [|auto|discriminate|left; auto]. cbn. lra.
Qed.
Print Assumptions C21_fixed_columns_refuted.

(** But a solution of the adjoint system whose right-hand side vanishes at the fixed
    unknowns vanishes there too, and on the other unknowns solves the transposed forward
    system. *)
Theorem C21_adjoint_solution n ps fx phi b : ps <> [] ->
  (forall i p, In p ps -> wf_proc p /\ pblocks p <> [] /\ ppoint p = [] /\ flag (pfixed p) i = fx i) ->
  (forall i, (i < n)%nat -> fx i = true -> b i = 0) ->
  (forall i, (i < n)%nat -> apply n (asm_jac (Stored true) None ps) phi i = b i) ->
  (forall i, (i < n)%nat -> fx i = true -> phi i = 0) /\
  (forall i, (i < n)%nat -> fx i = false -> apply n (fun i j => asm_jac (Stored false) None ps j i) phi i = b i).
Proof.
  intros HP H HB HS.
  assert (HF : forall i, fx i = true -> forall p, In p ps -> wf_proc p /\ pblocks p <> [] /\ In i (pfixed p)).
  { intros i Hi p Hp. destruct (H i p Hp) as (? & ? & ? & E). rewrite Hi in E. apply flag_spec in E. auto. }
  assert (HU : forall i, fx i = false -> forall p, In p ps -> wf_proc p /\ ~ constrained p i).
  { intros i Hi p Hp. destruct (H i p Hp) as (? & ? & P & E). split; auto. intros [C|C]; [|rewrite P in C; destruct C].
    apply flag_spec in C. congruence. }
  assert (Z : forall i, (i < n)%nat -> fx i = true -> phi i = 0).
  { intros i Hi Hfx. specialize (HS i Hi). rewrite HB in HS by auto. unfold apply in HS.
    rewrite (vs_ext n _ (fun j => if (j =? i)%nat then INR (length ps) * phi j else 0)) in HS.
    2:{ intros j _. rewrite (C19_jacobian_fixed _ ps i j) by (apply HF; auto). rewrite Nat.eqb_sym. destruct (j =? i)%nat; ring. }
    unfold vsum in HS. change (rsum (map (fun j : nat => if (j =? i)%nat then INR (length ps) * phi j else 0) (seq 0 n)) = 0) in HS.
    rewrite (rsum_single n i (fun j => INR (length ps) * phi j)) in HS by auto.
    apply Rmult_integral in HS as [E|E]; auto. exfalso. revert E. apply not_0_INR. destruct ps; [congruence|discriminate]. }
  split; auto. intros i Hi Hfx. rewrite <- (HS i Hi). unfold apply. apply vs_ext. intros j Hj.
  destruct (fx j) eqn:Fj; [rewrite (Z j Hj Fj); ring|]. f_equal. symmetry.
  apply C21_transpose. intros p Hp. destruct (HU i Hfx p Hp), (HU j Fj p Hp). auto.
Qed.
Print Assumptions C21_adjoint_solution.
