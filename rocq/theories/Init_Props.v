(** C184-C191: initial conditions. *)
From Coq Require Import Bool Arith Lia Reals Lra String List.
From Verif Require Import Mass_Model BProj_Model BProj_Proofs Init_Model.
Import ListNotations.
Local Open Scope R_scope.
Local Notation length := List.length.

(** *** Specification *)
(** The points: element, variable, quadrature point and component. *)
Definition ipt : Type := iel * ivar * nat * nat.
Definition iweight (q : ipt) : R := let '(e, v, k, d) := q in iwt e k.
Definition given (q : ipt) : R := let '(e, v, k, d) := q in iini v k d.
(** the finite element function with coefficients x *)
Definition field (x : nat -> R) (q : ipt) : R :=
  let '(e, v, k, d) := q in sm (seq 0 (inum v)) (fun i => x (ilid e (ioffset v i)) * ibas v i k d).
Definition ipts_el (e : iel) : list ipt := flat_map (fun v => flat_map (fun k => map (fun d => (e, v, k, d)) (seq 0 (icomp e v))) (seq 0 (inpt e))) (ivs e).
Definition all_els (ps : list iproc) : list iel := flat_map (fun p => concat (iblocks p)) ps.
Definition ipts (ps : list iproc) : list ipt := flat_map ipts_el (all_els ps).
(** squared distance of the finite element function from the given one *)
Definition distance (ps : list iproc) (x : nat -> R) : R := sm (ipts ps) (fun q => iweight q * (given q - field x q) * (given q - field x q)).
Definition touches (e : iel) (r : nat) : Prop := exists v i, In v (ivs e) /\ (i < inum v)%nat /\ ilid e (ioffset v i) = r.
Definition untouched (ps : list iproc) (r : nat) : Prop := forall e, In e (all_els ps) -> ~ touches e r.
Definition iwf (n : nat) (ps : list iproc) : Prop :=
  (forall e r, In e (all_els ps) -> touches e r -> (r < n)%nat) /\ (forall e k, In e (all_els ps) -> (k < inpt e)%nat -> 0 <= iwt e k).

(** *** Least squares *)
Lemma orthogonal_best {Q} (l : list Q) (w t a b : Q -> R) : (forall q, In q l -> 0 <= w q) ->
  sm l (fun q => w q * (t q - a q) * (b q - a q)) = 0 ->
  sm l (fun q => w q * (t q - b q) * (t q - b q)) = sm l (fun q => w q * (t q - a q) * (t q - a q)) + sm l (fun q => w q * (b q - a q) * (b q - a q)).
Proof.
  intros W O. rewrite <- sm_add. replace 0 with (2 * 0) in O by ring.
  rewrite (sm_ext l (fun q => w q * (t q - b q) * (t q - b q)) (fun q => (w q * (t q - a q) * (t q - a q) + w q * (b q - a q) * (b q - a q)) + -2 * (w q * (t q - a q) * (b q - a q)))) by (intros; ring).
  rewrite sm_add, sm_scal, O. ring.
Qed.

(** *** The system in terms of the points *)
Definition phi (r : nat) (q : ipt) : R := let '(e, v, k, d) := q in sm (seq 0 (inum v)) (fun i => if (ilid e (ioffset v i) =? r)%nat then ibas v i k d else 0).
Lemma sm_ipts_el e f : sm (ipts_el e) f = sm (ivs e) (fun v => sm (seq 0 (inpt e)) (fun k => sm (seq 0 (icomp e v)) (fun d => f (e, v, k, d)))).
Proof. unfold ipts_el. rewrite sm_flat. apply sm_ext. intros v _. rewrite sm_flat. apply sm_ext. intros k _. rewrite sm_map. reflexivity. Qed.
Lemma field_phi n x e q : (forall r, touches e r -> (r < n)%nat) -> In q (ipts_el e) -> field x q = sm (seq 0 n) (fun r => x r * phi r q).
Proof.
  intros T I. unfold ipts_el in I. apply in_flat_map in I. destruct I as (v & Iv & I). apply in_flat_map in I. destruct I as (k & Ik & I). apply in_map_iff in I. destruct I as (d & <- & Id).
  unfold field, phi. rewrite (sm_ext (seq 0 n) _ (fun r => sm (seq 0 (inum v)) (fun i => if (r =? ilid e (ioffset v i))%nat then x r * ibas v i k d else 0))).
  - rewrite sm_swap. apply sm_ext. intros i Ii. apply in_seq in Ii. rewrite (sm_single n (ilid e (ioffset v i)) (fun r => x r * ibas v i k d)); auto. apply T. exists v, i. split; auto. split; auto. lia.
  - intros r _. rewrite <- sm_scal. apply sm_ext. intros i _. rewrite Nat.eqb_sym. destruct (_ =? _)%nat; ring.
Qed.
Lemma vec_el e r : vec_of (rhs_adds e) r = sm (ipts_el e) (fun q => iweight q * phi r q * given q).
Proof.
  unfold vec_of, rhs_adds. rewrite sm_flat, sm_ipts_el. apply sm_ext. intros v _. rewrite sm_map. cbn [fst snd].
  rewrite (sm_ext _ _ (fun i => sm (seq 0 (inpt e)) (fun k => sm (seq 0 (icomp e v)) (fun d => iwt e k * (if (ilid e (ioffset v i) =? r)%nat then ibas v i k d else 0) * iini v k d)))).
  - rewrite sm_swap. apply sm_ext. intros k _. rewrite sm_swap. apply sm_ext. intros d _. cbn [iweight phi given]. rewrite sm_scal_r, sm_scal. auto.
  - intros i _. destruct (_ =? _)%nat.
    + apply sm_ext. intros k _. apply sm_ext. intros d _. ring.
    + symmetry. apply sm_zero. intros k _. apply sm_zero. intros d _. ring.
Qed.
Lemma mat_el e r c : mat_of (mass_adds false e) r c = sm (ipts_el e) (fun q => iweight q * phi r q * phi c q).
Proof.
  unfold mat_of, mass_adds. rewrite sm_flat, sm_ipts_el. apply sm_ext. intros v _. rewrite sm_flat.
  rewrite (sm_ext _ _ (fun i => sm (seq 0 (inpt e)) (fun k => sm (seq 0 (icomp e v)) (fun d => iwt e k * (if (ilid e (ioffset v i) =? r)%nat then ibas v i k d else 0) * phi c (e, v, k, d))))).
  - rewrite sm_swap. apply sm_ext. intros k _. rewrite sm_swap. apply sm_ext. intros d _. cbn [iweight phi]. rewrite sm_scal_r, sm_scal. auto.
  - intros i _. rewrite sm_map. cbn [fst snd].
    rewrite (sm_ext _ _ (fun j => sm (seq 0 (inpt e)) (fun k => sm (seq 0 (icomp e v)) (fun d => iwt e k * (if (ilid e (ioffset v i) =? r)%nat then ibas v i k d else 0) * (if (ilid e (ioffset v j) =? c)%nat then ibas v j k d else 0))))).
    + rewrite sm_swap. apply sm_ext. intros k _. rewrite sm_swap. apply sm_ext. intros d _. cbn [phi]. rewrite sm_scal. auto.
    + intros j _. destruct (_ =? _)%nat, (_ =? _)%nat; cbn [andb].
      * apply sm_ext. intros k _. apply sm_ext. intros d _. ring.
      * symmetry. apply sm_zero. intros k _. apply sm_zero. intros d _. ring.
      * symmetry. apply sm_zero. intros k _. apply sm_zero. intros d _. ring.
      * symmetry. apply sm_zero. intros k _. apply sm_zero. intros d _. ring.
Qed.
Lemma vec_flat l r : vec_of (flat_map rhs_adds l) r = sm l (fun e => vec_of (rhs_adds e) r).
Proof. unfold vec_of. apply sm_flat. Qed.
Lemma mat_flat lump l r c : mat_of (flat_map (mass_adds lump) l) r c = sm l (fun e => mat_of (mass_adds lump e) r c).
Proof. unfold mat_of. apply sm_flat. Qed.
Lemma sm_app {A} (a b : list A) f : sm (a ++ b) f = sm a f + sm b f.
Proof. induction a as [|x a IH]; [unfold sm, Sparse_Model.rsum; cbn; ring|]. change ((x :: a) ++ b)%list with (x :: (a ++ b)). unfold sm, Sparse_Model.rsum in *. cbn in *. rewrite IH. ring. Qed.

(** A row is left alone: it is not one of the process, or its entries are not all tiny after
    any of the blocks. *)
Definition kept (lump : bool) (n : nat) (p : iproc) (r : nat) : Prop :=
  In r (irows p) -> forall k, (k < length (iblocks p))%nat -> tiny <= row_abs n (mat_of (flat_map (mass_adds lump) (concat (firstn (Datatypes.S k) (iblocks p))))) r.
Lemma mat_concat lump bs b r c : mat_of (flat_map (mass_adds lump) (concat (bs ++ [b]))) r c = mat_of (flat_map (mass_adds lump) (concat bs)) r c + mat_of (flat_map (mass_adds lump) b) r c.
Proof. rewrite concat_app. cbn [concat]. rewrite app_nil_r, !mat_flat, sm_app. auto. Qed.
Lemma proc_kept lump n p r c : kept lump n p r -> proc_matrix lump n p r c = mat_of (flat_map (mass_adds lump) (concat (iblocks p))) r c.
Proof.
  intros K. unfold proc_matrix. set (step := fun M b => fix_rows (irows p) n (fun r c => M r c + mat_of (flat_map (mass_adds lump) b) r c)).
  assert (G : forall k, (k <= length (iblocks p))%nat -> forall c, fold_left step (firstn k (iblocks p)) (fun _ _ => 0) r c = mat_of (flat_map (mass_adds lump) (concat (firstn k (iblocks p)))) r c).
  2:{ rewrite <- (firstn_all (iblocks p)) at 1. rewrite G by lia. rewrite firstn_all. auto. }
  induction k as [|k IH]; intros Hk c'; [reflexivity|].
  assert (F : firstn (Datatypes.S k) (iblocks p) = (firstn k (iblocks p) ++ [nth k (iblocks p) []])%list).
  { clear -Hk. revert k Hk. induction (iblocks p) as [|b l IH]; intros [|k] H; cbn in *; try lia; auto. rewrite <- IH by lia. auto. }
  assert (A : forall c0, fold_left step (firstn k (iblocks p)) (fun _ _ => 0) r c0 + mat_of (flat_map (mass_adds lump) (nth k (iblocks p) [])) r c0 = mat_of (flat_map (mass_adds lump) (concat (firstn (Datatypes.S k) (iblocks p)))) r c0).
  { intros c0. rewrite IH, F, mat_concat by lia. auto. }
  assert (B : forall M : nat -> nat -> R, (forall c0, M r c0 = mat_of (flat_map (mass_adds lump) (concat (firstn (Datatypes.S k) (iblocks p)))) r c0) -> fix_rows (irows p) n M r c' = M r c').
  { intros M HM. unfold fix_rows. destruct (existsb (Nat.eqb r) (irows p)) eqn:X; auto. destruct (Rlt_dec _ _) as [L|]; auto. exfalso.
    apply existsb_exists in X. destruct X as (r' & I & E). apply Nat.eqb_eq in E. subst r'. specialize (K I k Hk). unfold row_abs in *.
    rewrite (sm_ext _ _ (fun c => Rabs (mat_of (flat_map (mass_adds lump) (concat (firstn (Datatypes.S k) (iblocks p)))) r c))) in L by (intros; rewrite HM; auto). lra. }
  rewrite F at 1. rewrite fold_left_app. cbn [fold_left]. unfold step at 1. rewrite B by (intros; apply A). apply A.
Qed.

Lemma phi_none e r q : ~ touches e r -> In q (ipts_el e) -> phi r q = 0.
Proof.
  intros T I. unfold ipts_el in I. apply in_flat_map in I. destruct I as (v & Iv & I). apply in_flat_map in I. destruct I as (k & Ik & I). apply in_map_iff in I. destruct I as (d & <- & Id).
  apply sm_zero. intros i Ii. apply in_seq in Ii. destruct (Nat.eqb_spec (ilid e (ioffset v i)) r); auto. exfalso. apply T. exists v, i. split; auto. split; auto. lia.
Qed.
Lemma vector_pts ps r : init_vector ps r = sm (ipts ps) (fun q => iweight q * phi r q * given q).
Proof.
  unfold init_vector, proc_vector, ipts, all_els. rewrite !sm_flat. apply sm_ext. intros p _. rewrite vec_flat. apply sm_ext. intros e _. apply vec_el.
Qed.
Lemma row_pts ps r (M : nat -> nat -> R) : (forall c, M r c = sm ps (fun p => mat_of (flat_map (mass_adds false) (concat (iblocks p))) r c)) -> forall c, M r c = sm (ipts ps) (fun q => iweight q * phi r q * phi c q).
Proof. intros H c. rewrite H. unfold ipts, all_els. rewrite !sm_flat. apply sm_ext. intros p _. rewrite mat_flat. apply sm_ext. intros e _. apply mat_el. Qed.

(** the residual of a solution is orthogonal to every finite element function *)
Lemma normal_equations n ps (M : nat -> nat -> R) x : iwf n ps -> solves n M (init_vector ps) x ->
  (forall r, (r < n)%nat -> ~ untouched ps r -> forall c, M r c = sm ps (fun p => mat_of (flat_map (mass_adds false) (concat (iblocks p))) r c)) ->
  forall y, sm (ipts ps) (fun q => iweight q * (given q - field x q) * field y q) = 0.
Proof.
  intros [T W] S0 K y.
  assert (F : forall z q, In q (ipts ps) -> field z q = sm (seq 0 n) (fun r => z r * phi r q)).
  { intros z q I. unfold ipts in I. apply in_flat_map in I. destruct I as (e & Ie & I). apply (field_phi n z e); auto. intros r; apply T; auto. }
  assert (O : forall r, (r < n)%nat -> sm (ipts ps) (fun q => iweight q * phi r q * (given q - field x q)) = 0).
  { intros r R0. assert (D : untouched ps r \/ ~ untouched ps r).
    { assert (G : forall l : list iel, (forall e, In e l -> ~ touches e r) \/ exists e, In e l /\ touches e r).
      { intros l. induction l as [|e l [IH|(e' & I & H)]]; [left; intros e []| |right; exists e'; cbn; auto].
        assert (G2 : touches e r \/ ~ touches e r).
        { destruct (existsb (fun v => existsb (fun i => (ilid e (ioffset v i) =? r)%nat) (seq 0 (inum v))) (ivs e)) eqn:X.
          - left. apply existsb_exists in X. destruct X as (v & Iv & X). apply existsb_exists in X. destruct X as (i & Ii & X). apply in_seq in Ii. apply Nat.eqb_eq in X. exists v, i. split; auto. split; auto. lia.
          - right. intros (v & i & Iv & Hi & E). enough (existsb (fun v => existsb (fun i => (ilid e (ioffset v i) =? r)%nat) (seq 0 (inum v))) (ivs e) = true) by congruence.
            apply existsb_exists. exists v. split; auto. apply existsb_exists. exists i. split; [apply in_seq; lia|]. apply Nat.eqb_eq; auto. }
        destruct G2; [right; exists e; cbn; auto|]. left. intros e' [<-|I]; auto. }
      destruct (G (all_els ps)) as [H|(e & I & H)]; [left; exact H|]. right. intros U. apply (U e I H). }
    destruct D as [U|U].
    - apply sm_zero. intros q I. unfold ipts in I. apply in_flat_map in I. destruct I as (e & Ie & I). rewrite (phi_none e r q); auto. ring.
    - specialize (S0 r R0). rewrite vector_pts in S0. rewrite (sm_ext (seq 0 n) _ (fun c => sm (ipts ps) (fun q => iweight q * phi r q * (phi c q * x c)))) in S0.
      2:{ intros c _. rewrite (row_pts ps r M) by (apply K; auto). rewrite <- sm_scal_r. apply sm_ext. intros; ring. }
      rewrite sm_swap in S0. rewrite (sm_ext (ipts ps) _ (fun q => iweight q * phi r q * given q - iweight q * phi r q * field x q)) by (intros; ring).
      rewrite sm_sub, <- S0. apply Rminus_diag_eq. apply sm_ext. intros q I. rewrite (F x q I), <- sm_scal. apply sm_ext. intros; ring. }
  rewrite (sm_ext _ _ (fun q => sm (seq 0 n) (fun r => y r * (iweight q * phi r q * (given q - field x q))))).
  - rewrite sm_swap. apply sm_zero. intros r I. apply in_seq in I. rewrite sm_scal, O by lia. ring.
  - intros q I. rewrite (F y q I), <- sm_scal. apply sm_ext. intros; ring.
Qed.
Lemma field_sub x y q : field (fun r => x r - y r) q = field x q - field y q.
Proof. destruct q as [[[e v] k] d]. cbn [field]. rewrite <- sm_sub. apply sm_ext. intros; ring. Qed.
Lemma weights n ps q : iwf n ps -> In q (ipts ps) -> 0 <= iweight q.
Proof.
  intros [_ W] I. unfold ipts in I. apply in_flat_map in I. destruct I as (e & Ie & I). unfold ipts_el in I. apply in_flat_map in I. destruct I as (v & Iv & I). apply in_flat_map in I. destruct I as (k & Ik & I).
  apply in_map_iff in I. destruct I as (d & <- & Id). apply in_seq in Ik. apply W; auto. lia.
Qed.
Lemma best n ps (M : nat -> nat -> R) x : iwf n ps -> solves n M (init_vector ps) x ->
  (forall r, (r < n)%nat -> ~ untouched ps r -> forall c, M r c = sm ps (fun p => mat_of (flat_map (mass_adds false) (concat (iblocks p))) r c)) ->
  (forall y, distance ps x <= distance ps y) /\
  (forall z, (forall q, In q (ipts ps) -> given q = field z q) -> forall q, In q (ipts ps) -> 0 < iweight q -> field x q = given q).
Proof.
  intros Wf S0 K. assert (P : forall y, distance ps y = distance ps x + sm (ipts ps) (fun q => iweight q * (field y q - field x q) * (field y q - field x q))).
  { intros y. apply (orthogonal_best (ipts ps) iweight given (field x) (field y)); [intros; eapply weights; eauto|].
    rewrite <- (normal_equations n ps M x Wf S0 K (fun r => y r - x r)). apply sm_ext. intros q _. rewrite field_sub. ring. }
  assert (N : forall y q, In q (ipts ps) -> 0 <= iweight q * (field y q - field x q) * (field y q - field x q)).
  { intros y q I. rewrite Rmult_assoc. apply Rmult_le_pos; [eapply weights; eauto|apply Rle_0_sqr]. }
  split.
  - intros y. rewrite (P y). pose proof (sm_nonneg (ipts ps) _ (N y)). lra.
  - intros z Z q I Q. assert (D : distance ps z = 0) by (apply sm_zero; intros q' I'; rewrite (Z q' I'); ring).
    pose proof (P z) as Pz. rewrite D in Pz. assert (X : 0 <= distance ps x).
    { apply sm_nonneg. intros q' I'. rewrite Rmult_assoc. apply Rmult_le_pos; [eapply weights; eauto|apply Rle_0_sqr]. }
    assert (E : iweight q * (field z q - field x q) * (field z q - field x q) = 0) by (apply (sm_nonneg_zero (ipts ps) _ (N z)); [lra|auto]).
    rewrite (Z q I). rewrite Rmult_assoc in E. apply Rmult_integral in E. destruct E as [E|E]; [lra|]. apply Rmult_integral in E. lra.
Qed.

(** *** C184, C185: projection *)
(** A process has enough mass in a row when the absolute values of what its elements add to
    the row sum up to 1e-14 at least. *)
Definition enough (n : nat) (p : iproc) (r : nat) : Prop :=
  tiny <= row_abs n (mat_of (flat_map (mass_adds false) (concat (iblocks p)))) r.

(** On a mesh of one block, the initial coefficients are those of the finite element function
    closest to the given one; a given finite element function is reproduced. *)
(** The projection has the mass of scalar and vector fields, none of other fields. *)
Theorem C184_mass e v i j :
  (ity v = IScalar -> imass e v i j = sm (seq 0 (inpt e)) (fun k => ibas v i k 0%nat * ibas v j k 0%nat * iwt e k)) /\
  (ity v = IVector -> imass e v i j = sm (seq 0 (inpt e)) (fun k => sm (seq 0 (idim e)) (fun d => ibas v i k d * ibas v j k d) * iwt e k)) /\
  (ity v = IOther -> imass e v i j = 0 /\ irhs e v i = 0).
Proof.
  unfold imass, irhs, icomp. repeat split; rewrite ?H.
  - intros ->. apply sm_ext. intros k _. unfold sm. cbn. ring.
  - intros ->. apply sm_ext. intros k _. rewrite <- sm_scal_r. apply sm_ext. intros; ring.
  - apply sm_zero. intros. reflexivity.
  - apply sm_zero. intros. reflexivity.
Qed.
Print Assumptions C184_mass.
Theorem C184_best n ps x : iwf n ps -> (forall p, In p ps -> length (iblocks p) = 1%nat) ->
  (forall p r, In p ps -> In r (irows p) -> ~ untouched ps r -> enough n p r) ->
  solves n (init_matrix false n ps) (init_vector ps) x ->
  (forall y, distance ps x <= distance ps y) /\
  (forall z, (forall q, In q (ipts ps) -> given q = field z q) -> forall q, In q (ipts ps) -> 0 < iweight q -> field x q = given q).
Proof.
  intros Wf One K S0. apply (best n ps (init_matrix false n ps) x Wf S0). intros r Hr U c. unfold init_matrix. apply sm_ext. intros p I. apply proc_kept.
  intros Ir k Hk. specialize (K p r I Ir U). unfold enough in K. specialize (One p I). destruct (iblocks p) as [|b [|]]; cbn in One, Hk; try lia. destruct k; [|lia]. exact K.
Qed.
Print Assumptions C184_best.

Lemma sm_nil {A} (f : A -> R) : sm [] f = 0. Proof. reflexivity. Qed.
Lemma sm_cons {A} (a : A) l f : sm (a :: l) f = f a + sm l f. Proof. reflexivity. Qed.
Lemma tiny_pos : 0 < tiny. Proof. unfold tiny. apply Rinv_0_lt_compat, pow_lt. lra. Qed.
Lemma tiny_small : tiny < 1 / 10.
Proof.
  unfold tiny. replace (1 / 10) with (/ 10 ^ 1) by (field). apply Rinv_lt_contravar; [apply Rmult_lt_0_compat; apply pow_lt; lra|]. apply Rlt_pow; [lra|lia].
Qed.

(** Two linear elements with three unknowns, one and two points. *)
Definition lin_var (g : nat -> R) : ivar := {| ity := IScalar; ioff := [0; 1]%nat; ibas := fun i k _ => if (i =? k)%nat then 1 else 0; iini := fun k _ => g k |}.
Definition lin_el (e : nat) (g : nat -> R) : iel := {| ilid := fun o => (e + o)%nat; idim := 1; inpt := 2; iwt := fun _ => / 2; ivs := [lin_var (fun k => g (e + k)%nat)] |}.
Definition lin_proc (g : nat -> R) : iproc := {| irows := [0; 1; 2]%nat; iblocks := [[lin_el 0 g; lin_el 1 g]] |}.
Ltac expand := unfold mat_of, vec_of; cbn; rewrite ?sm_cons, ?sm_nil; cbn; unfold imass, irhs; cbn; rewrite ?sm_cons, ?sm_nil; cbn; rewrite ?sm_cons, ?sm_nil; cbn; rewrite ?sm_cons, ?sm_nil; cbn.
Lemma lin_matrix g r c : (r < 3)%nat -> (c < 3)%nat -> mat_of (flat_map (mass_adds false) (concat (iblocks (lin_proc g)))) r c = if (r =? c)%nat then if (r =? 1)%nat then 1 else / 2 else 0.
Proof. intros Hr Hc. destruct r as [|[|[|]]]; try lia; destruct c as [|[|[|]]]; try lia; expand; lra. Qed.
Example C184_case g : let ps := [lin_proc g] in
  iwf 3 ps /\ (forall p, In p ps -> length (iblocks p) = 1%nat) /\ (forall p r, In p ps -> In r (irows p) -> ~ untouched ps r -> enough 3 p r) /\ solves 3 (init_matrix false 3 ps) (init_vector ps) g.
Proof.
  assert (E : forall p r, In p [lin_proc g] -> In r (irows p) -> enough 3 p r).
  { intros p r [<-|[]] Ir. unfold enough, row_abs. cbn [seq]. rewrite !sm_cons, sm_nil. pose proof tiny_small.
    destruct Ir as [<-|[<-|[<-|[]]]]; rewrite !lin_matrix by lia; cbn [Nat.eqb]; unfold Rabs; repeat destruct Rcase_abs; lra. }
  cbn zeta. split; [|split; [|split]].
  - split.
    + intros e r Ie (v & i & Iv & Hi & <-). cbn in Ie. destruct Ie as [<-|[<-|[]]]; destruct Iv as [<-|[]]; cbn in Hi; destruct i as [|[|]]; cbn; lia.
    + intros e k Ie _. cbn in Ie. destruct Ie as [<-|[<-|[]]]; cbn; lra.
  - intros p [<-|[]]. reflexivity.
  - intros; auto.
  - intros r Hr. cbn [seq]. rewrite !sm_cons, sm_nil. unfold init_matrix, init_vector. rewrite !sm_cons, !sm_nil.
    assert (K : forall c, proc_matrix false 3 (lin_proc g) r c = mat_of (flat_map (mass_adds false) (concat (iblocks (lin_proc g)))) r c).
    { intros c. apply proc_kept. intros Ir k Hk. destruct k; [|cbn in Hk; lia]. apply (E (lin_proc g) r); cbn; auto. }
    rewrite !K. unfold proc_vector. destruct r as [|[|[|]]]; try lia; rewrite !lin_matrix by lia; expand; lra.
Qed.

(** Meshes of several blocks: the same, if on every process every row of an element is reached
    by the first block and has enough mass then and after every further block. *)
Theorem C185_partial n ps x : iwf n ps -> (forall p r, In p ps -> ~ untouched ps r -> kept false n p r) -> solves n (init_matrix false n ps) (init_vector ps) x ->
  (forall y, distance ps x <= distance ps y) /\
  (forall z, (forall q, In q (ipts ps) -> given q = field z q) -> forall q, In q (ipts ps) -> 0 < iweight q -> field x q = given q).
Proof.
  intros Wf K S0. apply (best n ps (init_matrix false n ps) x Wf S0). intros r Hr U c. unfold init_matrix. apply sm_ext. intros p I. apply proc_kept. auto.
Qed.
Print Assumptions C185_partial.
(** An element of one unknown, of volume w, where the given function is a. *)
Definition one_el (r : nat) (w a : R) : iel := {| ilid := fun _ => r; idim := 1; inpt := 1; iwt := fun _ => w; ivs := [{| ity := IScalar; ioff := [0%nat]; ibas := fun _ _ _ => 1; iini := fun _ _ => a |}] |}.
Lemma one_matrix l r w a i j : mat_of (flat_map (mass_adds l) [one_el r w a]) i j = if (r =? i)%nat && (r =? j)%nat then w else 0.
Proof. destruct l; destruct (Nat.eqb_spec r i), (Nat.eqb_spec r j); subst; cbn [andb]; unfold mat_of; cbn; rewrite ?Nat.eqb_refl, ?(proj2 (Nat.eqb_neq _ _)) by auto; expand; lra. Qed.
Definition two_blocks : list iproc := [{| irows := [0; 1]%nat; iblocks := [[one_el 0 1 1]; [one_el 1 1 1]] |}].
Lemma fix_no rows n M r c : tiny <= row_abs n M r -> fix_rows rows n M r c = M r c.
Proof. intros H. unfold fix_rows. destruct existsb; auto. destruct Rlt_dec; auto. lra. Qed.
Lemma fix_yes rows n M r c : In r rows -> row_abs n M r < tiny -> fix_rows rows n M r c = if (r =? c)%nat then 1 else M r c.
Proof.
  intros I H. unfold fix_rows. assert (E : existsb (Nat.eqb r) rows = true) by (apply existsb_exists; exists r; split; auto; apply Nat.eqb_refl). rewrite E. destruct Rlt_dec; [auto|contradiction].
Qed.
Lemma two_step1 r c : (r < 2)%nat -> (c < 2)%nat -> fix_rows [0; 1]%nat 2 (fun r c => 0 + mat_of (flat_map (mass_adds false) [one_el 0 1 1]) r c) r c = if (r =? c)%nat then 1 else 0.
Proof.
  intros Hr Hc. pose proof tiny_small as T. pose proof tiny_pos as TP. destruct r as [|[|]]; try lia.
  - rewrite fix_no; [rewrite one_matrix; destruct c; cbn; lra|]. unfold row_abs. cbn [seq]. rewrite !sm_cons, sm_nil, !one_matrix. cbn. unfold Rabs; repeat destruct Rcase_abs; lra.
  - rewrite fix_yes; [rewrite one_matrix; destruct c as [|[|]]; cbn; lra|cbn; auto|]. unfold row_abs. cbn [seq]. rewrite !sm_cons, sm_nil, !one_matrix. cbn. unfold Rabs; repeat destruct Rcase_abs; lra.
Qed.
Lemma two_matrix r c : (r < 2)%nat -> (c < 2)%nat -> init_matrix false 2 two_blocks r c = if (r =? c)%nat then if (r =? 1)%nat then 2 else 1 else 0.
Proof.
  intros Hr Hc. unfold init_matrix, two_blocks, proc_matrix. rewrite sm_cons, sm_nil. cbn [iblocks irows fold_left]. pose proof tiny_small as T.
  assert (A : forall c', (c' < 2)%nat -> fix_rows [0; 1]%nat 2 (fun r c => 0 + mat_of (flat_map (mass_adds false) [one_el 0 1 1]) r c) r c' + mat_of (flat_map (mass_adds false) [one_el 1 1 1]) r c' = if (r =? c')%nat then if (r =? 1)%nat then 2 else 1 else 0).
  { intros c' H'. rewrite two_step1, one_matrix by lia. destruct r as [|[|]]; try lia; destruct c' as [|[|]]; try lia; cbn; lra. }
  rewrite fix_no; [rewrite A by lia; lra|]. unfold row_abs. cbn [seq]. rewrite !sm_cons, sm_nil. rewrite !A by lia. destruct r as [|[|]]; try lia; cbn; unfold Rabs; repeat destruct Rcase_abs; lra.
Qed.
(** Two blocks without common unknowns, given function one: in the second block the initial
    state is one half. *)
Theorem C185_blocks_refuted : iwf 2 two_blocks /\ (forall p r, In p two_blocks -> In r (irows p) -> enough 2 p r) /\ (exists x, solves 2 (init_matrix false 2 two_blocks) (init_vector two_blocks) x) /\
  (forall q, In q (ipts two_blocks) -> given q = 1 /\ iweight q = 1) /\
  forall x, solves 2 (init_matrix false 2 two_blocks) (init_vector two_blocks) x -> x 1%nat = / 2 /\ distance two_blocks (fun _ => 1) < distance two_blocks x.
Proof.
  assert (B : forall r, (r < 2)%nat -> init_vector two_blocks r = 1).
  { intros r Hr. unfold init_vector, two_blocks, proc_vector. rewrite sm_cons, sm_nil. destruct r as [|[|]]; try lia; expand; lra. }
  split; [|split; [|split; [|split]]].
  - split; [intros e r Ie (v & i & Iv & Hi & <-)|intros e k Ie _]; cbn in Ie; destruct Ie as [<-|[<-|[]]]; cbn; try lia; lra.
  - intros p r [<-|[]] Ir. pose proof tiny_small. unfold enough, row_abs. cbn [seq]. rewrite !sm_cons, sm_nil. destruct Ir as [<-|[<-|[]]]; expand; unfold Rabs; repeat destruct Rcase_abs; lra.
  - exists (fun r => if (r =? 0)%nat then 1 else / 2). intros r Hr. rewrite B by lia. cbn [seq]. rewrite !sm_cons, sm_nil, !two_matrix by lia. destruct r as [|[|]]; try lia; cbn; lra.
  - intros q I. cbn in I. destruct I as [<-|[<-|[]]]; cbn; auto.
  - intros x S0. pose proof (S0 1%nat ltac:(lia)) as S1. rewrite B in S1 by lia. cbn [seq] in S1. rewrite !sm_cons, sm_nil, !two_matrix in S1 by lia. cbn in S1.
    assert (X : x 1%nat = / 2) by lra. split; auto. unfold distance. cbn. rewrite ?sm_cons, ?sm_nil; cbn; rewrite ?sm_cons, ?sm_nil; cbn. rewrite ?X. pose proof (Rle_0_sqr (1 - (x 0%nat * 1 + 0))) as P. unfold Rsqr in P. lra.
Qed.
(** An element of volume 1e-15, given function one: the initial state is 1e-15. *)
Theorem C185_small_refuted : let w := / 10 ^ 15 in let ps := [{| irows := [0%nat]; iblocks := [[one_el 0 w 1]] |}] in
  iwf 1 ps /\ (exists x, solves 1 (init_matrix false 1 ps) (init_vector ps) x) /\ forall x, solves 1 (init_matrix false 1 ps) (init_vector ps) x -> x 0%nat = w.
Proof.
  intros w ps. assert (P : 0 < w) by (unfold w; apply Rinv_0_lt_compat, pow_lt; lra).
  assert (L : w < tiny). { unfold w, tiny. apply Rinv_lt_contravar; [apply Rmult_lt_0_compat; apply pow_lt; lra|]. apply Rlt_pow; [lra|lia]. }
  assert (B : init_vector ps 0%nat = w) by (unfold init_vector, ps, proc_vector; rewrite sm_cons, sm_nil; expand; lra).
  assert (M : init_matrix false 1 ps 0%nat 0%nat = 1).
  { unfold init_matrix, ps, proc_matrix. rewrite sm_cons, sm_nil. cbn [iblocks irows fold_left]. rewrite fix_yes; [cbn; lra|cbn; auto|]. unfold row_abs. cbn [seq]. rewrite sm_cons, sm_nil, one_matrix. cbn. unfold Rabs; destruct Rcase_abs; lra. }
  split; [|split].
  - split; [intros e r Ie (v & i & Iv & Hi & <-)|intros e k Ie _]; cbn in Ie; destruct Ie as [<-|[]]; cbn; try lia; lra.
  - exists (fun _ => w). intros r Hr. destruct r; [|lia]. cbn [seq]. rewrite sm_cons, sm_nil, B, M. ring.
  - intros x S0. specialize (S0 0%nat ltac:(lia)). cbn [seq] in S0. rewrite sm_cons, sm_nil, B, M in S0. lra.
Qed.
Print Assumptions C185_blocks_refuted.
Print Assumptions C185_small_refuted.

(** *** C186: lumped projection *)
(** The integral of the basis function of unknown r. *)
Definition basis_integral (ps : list iproc) (r : nat) : R := sm (ipts ps) (fun q => iweight q * phi r q).
Definition unity_at (e : iel) (v : ivar) : Prop := ity v = IScalar /\ forall k, (k < inpt e)%nat -> sm (seq 0 (inum v)) (fun j => ibas v j k 0%nat) = 1.
Lemma lumped_el e r c : (forall v, In v (ivs e) -> unity_at e v) -> mat_of (mass_adds true e) r c = if (r =? c)%nat then sm (ipts_el e) (fun q => iweight q * phi r q) else 0.
Proof.
  intros Un. unfold mat_of, mass_adds. rewrite sm_flat. destruct (Nat.eqb_spec r c) as [<-|N].
  - rewrite sm_ipts_el. apply sm_ext. intros v Iv. destruct (Un v Iv) as [Ty U]. rewrite sm_flat. unfold icomp. rewrite Ty. cbn [seq].
    rewrite (sm_ext _ _ (fun i => sm (seq 0 (inpt e)) (fun k => iwt e k * (if (ilid e (ioffset v i) =? r)%nat then ibas v i k 0%nat else 0)))).
    + rewrite sm_swap. apply sm_ext. intros k _. rewrite sm_cons, sm_nil. cbn [iweight phi]. rewrite sm_scal. ring.
    + intros i _. rewrite sm_map. cbn [fst snd].
      rewrite (sm_ext _ _ (fun j => sm (seq 0 (inpt e)) (fun k => iwt e k * (if (ilid e (ioffset v i) =? r)%nat then ibas v i k 0%nat else 0) * ibas v j k 0%nat))).
      * rewrite sm_swap. apply sm_ext. intros k Ik. apply in_seq in Ik. rewrite sm_scal, U by lia. ring.
      * intros j _. unfold imass, icomp. rewrite Ty. cbn [seq]. destruct (_ =? _)%nat; cbn [andb].
        -- apply sm_ext. intros k _. rewrite sm_cons, sm_nil. ring.
        -- symmetry. apply sm_zero. intros k _. ring.
  - apply sm_zero. intros v _. rewrite sm_flat. apply sm_zero. intros i _. rewrite sm_map. apply sm_zero. intros j _. cbn [fst snd].
    destruct (Nat.eqb_spec (ilid e (ioffset v i)) r); [|auto]. destruct (Nat.eqb_spec (ilid e (ioffset v i)) c); [congruence|auto].
Qed.
(** With lumping: where the given function is a constant around unknown r, whose basis
    function has a nonzero integral, the initial value is the constant. *)
Theorem C186_constant n ps x r a : (r < n)%nat -> (forall e v, In e (all_els ps) -> In v (ivs e) -> unity_at e v) ->
  (forall p, In p ps -> kept true n p r) -> basis_integral ps r <> 0 ->
  (forall e v i, In e (all_els ps) -> In v (ivs e) -> (i < inum v)%nat -> ilid e (ioffset v i) = r -> forall k, (k < inpt e)%nat -> iini v k 0%nat = a) ->
  solves n (init_matrix true n ps) (init_vector ps) x -> x r = a.
Proof.
  intros Hr Un K N C S0. specialize (S0 r Hr).
  assert (M : forall c, init_matrix true n ps r c = if (r =? c)%nat then basis_integral ps r else 0).
  { intros c. unfold init_matrix. rewrite (sm_ext _ _ (fun p => if (r =? c)%nat then sm (concat (iblocks p)) (fun e => sm (ipts_el e) (fun q => iweight q * phi r q)) else 0)).
    - destruct (_ =? _)%nat; [|apply sm_zero; auto]. unfold basis_integral, ipts, all_els. rewrite !sm_flat. auto.
    - intros p I. rewrite proc_kept, mat_flat by auto. rewrite (sm_ext _ _ (fun e => if (r =? c)%nat then sm (ipts_el e) (fun q => iweight q * phi r q) else 0)).
      + destruct (_ =? _)%nat; [auto|apply sm_zero; auto].
      + intros e Ie. apply lumped_el. intros v Iv. apply Un; auto. unfold all_els. apply in_flat_map. exists p. auto. }
  assert (B : init_vector ps r = a * basis_integral ps r).
  { rewrite vector_pts. unfold basis_integral. rewrite <- sm_scal. apply sm_ext. intros q I. unfold ipts in I. apply in_flat_map in I. destruct I as (e & Ie & I). unfold ipts_el in I.
    apply in_flat_map in I. destruct I as (v & Iv & I). apply in_flat_map in I. destruct I as (k & Ik & I). apply in_map_iff in I. destruct I as (d & <- & Id). apply in_seq in Ik.
    destruct (Un e v Ie Iv) as [Ty _]. unfold icomp in Id. rewrite Ty in Id. destruct Id as [<-|[]]. cbn [iweight phi given].
    rewrite (Rmult_comm a), !Rmult_assoc. f_equal. rewrite <- !sm_scal_r. apply sm_ext. intros i Ii. apply in_seq in Ii. destruct (Nat.eqb_spec (ilid e (ioffset v i)) r) as [E|]; [|ring].
    rewrite (C e v i Ie Iv ltac:(lia) E k ltac:(lia)). auto. }
  rewrite (sm_ext _ _ (fun c => if (c =? r)%nat then basis_integral ps r * x c else 0)) in S0.
  - rewrite (sm_single n r (fun c => basis_integral ps r * x c)) in S0 by auto. rewrite B in S0. apply (Rmult_eq_reg_l (basis_integral ps r)); auto. lra.
  - intros c _. rewrite M, Nat.eqb_sym. destruct (_ =? _)%nat; ring.
Qed.
Print Assumptions C186_constant.
Example C186_case : let ps := [lin_proc (fun _ => 5)] in
  (forall e v, In e (all_els ps) -> In v (ivs e) -> unity_at e v) /\ (forall p r, (r < 3)%nat -> In p ps -> kept true 3 p r) /\ basis_integral ps 1 <> 0 /\ solves 3 (init_matrix true 3 ps) (init_vector ps) (fun _ => 5).
Proof.
  cbn zeta. set (g := fun _ : nat => 5). assert (Mx : forall r c, (r < 3)%nat -> (c < 3)%nat -> mat_of (flat_map (mass_adds true) (concat (iblocks (lin_proc g)))) r c = if (r =? c)%nat then if (r =? 1)%nat then 1 else / 2 else 0).
  { intros r c Hr Hc. destruct r as [|[|[|]]]; try lia; destruct c as [|[|[|]]]; try lia; expand; lra. }
  assert (K : forall r, (r < 3)%nat -> kept true 3 (lin_proc g) r).
  { intros r Hr _ k Hk. destruct k; [|cbn in Hk; lia]. pose proof tiny_small. unfold row_abs. cbn [seq]. rewrite !sm_cons, sm_nil.
    change (concat (firstn 1 (iblocks (lin_proc g)))) with (concat (iblocks (lin_proc g))). rewrite !Mx by lia. destruct r as [|[|[|]]]; try lia; cbn [Nat.eqb]; unfold Rabs; repeat destruct Rcase_abs; lra. }
  split; [|split; [|split]].
  - intros e v Ie Iv. cbn in Ie. destruct Ie as [<-|[<-|[]]]; destruct Iv as [<-|[]]; (split; [reflexivity|]); intros k Hk; cbn in Hk; destruct k as [|[|]]; try lia; cbn; rewrite ?sm_cons, ?sm_nil; cbn; lra.
  - intros p r Hr [<-|[]]. auto.
  - unfold basis_integral. cbn. rewrite ?sm_cons, ?sm_nil; cbn; rewrite ?sm_cons, ?sm_nil; cbn. lra.
  - intros r Hr. cbn [seq]. rewrite !sm_cons, sm_nil. unfold init_matrix, init_vector. rewrite !sm_cons, !sm_nil. rewrite !proc_kept by auto. unfold proc_vector.
    destruct r as [|[|[|]]]; try lia; rewrite !Mx by lia; expand; unfold g; lra.
Qed.

(** *** C187, C188: projection on faces *)
(** The coefficients on the faces are those closest to the given function at the points of the
    faces, for any number of blocks. *)
Theorem C187_best n ps x : iwf n ps -> (forall p r, In p ps -> In r (irows p) -> ~ untouched ps r -> enough n p r) ->
  solves n (face_all n ps) (init_vector ps) x ->
  (forall y, distance ps x <= distance ps y) /\
  (forall z, (forall q, In q (ipts ps) -> given q = field z q) -> forall q, In q (ipts ps) -> 0 < iweight q -> field x q = given q).
Proof.
  intros Wf K S0. apply (best n ps (face_all n ps) x Wf S0). intros r Hr U c. unfold face_all. apply sm_ext. intros p I. unfold face_matrix, fix_rows.
  destruct (existsb (Nat.eqb r) (irows p)) eqn:X; auto. destruct Rlt_dec as [L|]; auto. exfalso. apply existsb_exists in X. destruct X as (r' & Ir & E). apply Nat.eqb_eq in E. subst r'.
  specialize (K p r I Ir U). unfold enough in K. lra.
Qed.
Print Assumptions C187_best.
Example C187_case : iwf 2 two_blocks /\ (forall p r, In p two_blocks -> In r (irows p) -> ~ untouched two_blocks r -> enough 2 p r) /\ solves 2 (face_all 2 two_blocks) (init_vector two_blocks) (fun _ => 1).
Proof.
  destruct C185_blocks_refuted as (W & E & _). split; [exact W|]. split; [auto|]. intros r Hr. cbn [seq]. rewrite !sm_cons, sm_nil. unfold face_all, init_vector, face_matrix.
  change two_blocks with [hd {| irows := []; iblocks := [] |} two_blocks] at 1 2 3. rewrite !sm_cons, !sm_nil.
  assert (L : tiny <= row_abs 2 (mat_of (flat_map (mass_adds false) (concat (iblocks (hd {| irows := []; iblocks := [] |} two_blocks))))) r).
  { apply (E _ r); [cbn; auto|]. cbn. lia. }
  rewrite !fix_no by exact L. unfold proc_vector. destruct r as [|[|]]; try lia; expand; lra.
Qed.
(** The lumped matrix on the faces (used when an adjoint is solved): rows have the sums of the
    mass matrix ... *)
Theorem C188_partial n e r : (forall i v, In v (ivs e) -> In i (ioff v) -> (ilid e i < n)%nat) ->
  sm (seq 0 n) (fun c => mat_of (face_lumped_adds e) r c) = sm (seq 0 n) (fun c => mat_of (mass_adds false e) r c).
Proof.
  intros B. assert (G : forall (v : ivar) (col : nat -> nat), In v (ivs e) -> (forall j, (j < inum v)%nat -> (col j < n)%nat) -> forall i,
    sm (seq 0 n) (fun c => sm (seq 0 (inum v)) (fun j => if (ilid e (ioffset v i) =? r)%nat && (col j =? c)%nat then imass e v i j else 0)) = if (ilid e (ioffset v i) =? r)%nat then sm (seq 0 (inum v)) (fun j => imass e v i j) else 0).
  { intros v col Iv Hc i. rewrite sm_swap. destruct (_ =? _)%nat; cbn [andb].
    - apply sm_ext. intros j Ij. apply in_seq in Ij. rewrite (sm_ext _ _ (fun c => if (c =? col j)%nat then imass e v i j else 0)) by (intros; rewrite Nat.eqb_sym; auto). rewrite (sm_single n (col j) (fun _ => imass e v i j)); auto. apply Hc. lia.
    - apply sm_zero. intros j _. apply sm_zero. auto. }
  assert (O : forall v j, In v (ivs e) -> (j < inum v)%nat -> In (ioffset v j) (ioff v)) by (intros v j _ Hj; apply nth_In; exact Hj).
  unfold mat_of, face_lumped_adds, mass_adds. cbv zeta.
  rewrite (sm_ext (seq 0 n) (fun c => sm (flat_map _ _) _) (fun c => sm (ivs e) (fun v => sm (seq 0 (inum v)) (fun i => sm (seq 0 (inum v)) (fun j => if (ilid e (ioffset v i) =? r)%nat && (ilid e (last (flat_map (fun v => ioff v) (ivs e)) 0%nat) =? c)%nat then imass e v i j else 0))))).
  2:{ intros c _. rewrite sm_flat. apply sm_ext. intros v _. rewrite sm_flat. apply sm_ext. intros i _. rewrite sm_map. auto. }
  symmetry.
  rewrite (sm_ext (seq 0 n) (fun c => sm (flat_map _ _) _) (fun c => sm (ivs e) (fun v => sm (seq 0 (inum v)) (fun i => sm (seq 0 (inum v)) (fun j => if (ilid e (ioffset v i) =? r)%nat && (ilid e (ioffset v j) =? c)%nat then imass e v i j else 0))))).
  2:{ intros c _. rewrite sm_flat. apply sm_ext. intros v _. rewrite sm_flat. apply sm_ext. intros i _. rewrite sm_map. auto. }
  rewrite !(sm_swap (seq 0 n)). apply sm_ext. intros v Iv. rewrite !(sm_swap (seq 0 n)). apply sm_ext. intros i _.
  rewrite (G v (fun j => ilid e (ioffset v j)) Iv), (G v (fun _ => ilid e (last (flat_map (fun v => ioff v) (ivs e)) 0%nat)) Iv); auto.
  - intros j Hj. destruct (exists_last (l := flat_map (fun v => ioff v) (ivs e))) as (l' & a & E).
    + intros E. assert (I : In (ioffset v j) (flat_map (fun v => ioff v) (ivs e))) by (apply in_flat_map; exists v; auto). rewrite E in I. exact I.
    + rewrite E, last_last. assert (I : In a (flat_map (fun v => ioff v) (ivs e))) by (rewrite E; apply in_or_app; cbn; auto). apply in_flat_map in I. destruct I as (u & Iu & Ia). eauto.
  - intros j Hj. eauto.
Qed.
(** ... but all of them in one column: with two unknowns the system has no solution unless the
    right-hand sides agree. *)
Definition face_el : iel := {| ilid := fun o => o; idim := 1; inpt := 2; iwt := fun _ => 1; ivs := [{| ity := IScalar; ioff := [0; 1]%nat; ibas := fun i k _ => if (i =? k)%nat then 1 else 0; iini := fun k _ => INR k |}] |}.
Theorem C188_refuted : iwf 2 [{| irows := [0; 1]%nat; iblocks := [[face_el]] |}] /\
  (forall p r, In p [{| irows := [0; 1]%nat; iblocks := [[face_el]] |}] -> In r (irows p) -> enough 2 p r) /\
  ~ exists x, solves 2 (fun r c => fix_rows [0; 1]%nat 2 (mat_of (face_lumped_adds face_el)) r c) (init_vector [{| irows := [0; 1]%nat; iblocks := [[face_el]] |}]) x.
Proof.
  pose proof tiny_small as T. split; [|split].
  - split; [intros e r Ie (v & i & Iv & Hi & <-)|intros e k Ie _]; cbn in Ie; destruct Ie as [<-|[]].
    + destruct Iv as [<-|[]]. cbn in Hi. destruct i as [|[|]]; cbn; lia.
    + cbn. lra.
  - intros p r [<-|[]] Ir. unfold enough, row_abs. cbn [seq]. rewrite !sm_cons, sm_nil. destruct Ir as [<-|[<-|[]]]; expand; unfold Rabs; repeat destruct Rcase_abs; lra.
  - assert (M : forall r c, (r < 2)%nat -> (c < 2)%nat -> mat_of (face_lumped_adds face_el) r c = if (c =? 1)%nat then 1 else 0).
    { intros r c Hr Hc. unfold face_lumped_adds. destruct r as [|[|]]; try lia; destruct c as [|[|]]; try lia; expand; lra. }
    assert (F : forall r c, (r < 2)%nat -> (c < 2)%nat -> fix_rows [0; 1]%nat 2 (mat_of (face_lumped_adds face_el)) r c = if (c =? 1)%nat then 1 else 0).
    { intros r c Hr Hc. rewrite fix_no; [apply M; auto|]. unfold row_abs. cbn [seq]. rewrite !sm_cons, sm_nil, !M by lia. cbn. unfold Rabs; repeat destruct Rcase_abs; lra. }
    intros (x & S0). pose proof (S0 0%nat ltac:(lia)) as S1. pose proof (S0 1%nat ltac:(lia)) as S2. cbn [seq] in S1, S2. rewrite !sm_cons, sm_nil, !F in S1, S2 by lia. cbn [Nat.eqb] in S1, S2.
    unfold init_vector, proc_vector in S1, S2. rewrite !sm_cons, !sm_nil in S1, S2. revert S1 S2. expand. lra.
Qed.
Print Assumptions C188_partial.
Print Assumptions C188_refuted.

(** *** C189, C190: interpolation *)
Lemma writes l : forall (f : nat -> R) j u, (forall a, In (j, a) l -> a = u) -> ((exists a, In (j, a) l) \/ f j = u) -> fold_left (fun f (p : nat * R) => write f (fst p) (snd p)) l f j = u.
Proof.
  induction l as [|[i a] l IH]; intros f j u A [(b & I)|F]; cbn in *; try tauto.
  - destruct (Nat.eq_dec i j) as [->|N].
    + apply IH; [auto|]. right. unfold write. rewrite Nat.eqb_refl. apply A. auto.
    + apply IH; [auto|]. left. destruct I as [E|I]; [injection E; intros; congruence|]. eauto.
  - apply IH; [auto|]. right. unfold write. destruct (Nat.eqb_spec j i) as [->|]; auto.
Qed.
Lemma nested {A B} (l : list A) (g : A -> list B) (st : (nat -> R) -> B -> nat -> R) f : fold_left (fun f v => fold_left st (g v) f) l f = fold_left st (flat_map g l) f.
Proof. revert f. induction l as [|a l IH]; intros f; cbn; auto. rewrite IH, fold_left_app. auto. Qed.
Lemma fold_map {A B C} (st : C -> B -> C) (g : A -> B) l c : fold_left st (map g l) c = fold_left (fun c a => st c (g a)) l c.
Proof. revert c. induction l; intros; cbn; auto. Qed.
Definition node_writes (e : nel) : list (nat * R) := flat_map (fun v => map (fun k => (nth k (noff v) 0%nat, nval v k)) (seq 0 (nnode e))) (nvs e).
Lemma node_values_writes e : node_values e = fold_left (fun f p => write f (fst p) (snd p)) (node_writes e) (fun _ => 0).
Proof.
  unfold node_values, node_writes. rewrite <- nested. f_equal. apply FunctionalExtensionality.functional_extensionality. intros f. apply FunctionalExtensionality.functional_extensionality. intros v. rewrite fold_map. reflexivity.
Qed.
Definition el_writes (e : nel) : list (nat * R) := map (fun row => (nlid e row, node_values e row)) (seq 0 (nloc e)).
Lemma interp_writes es : interpolate es = fold_left (fun f p => write f (fst p) (snd p)) (flat_map el_writes es) (fun _ => 0).
Proof.
  unfold interpolate. rewrite <- nested. f_equal. apply FunctionalExtensionality.functional_extensionality. intros f. apply FunctionalExtensionality.functional_extensionality. intros e.
  unfold interp_el, el_writes. rewrite fold_map. reflexivity.
Qed.
Definition covered (e : nel) : Prop := forall row, (row < nloc e)%nat -> exists v k, In v (nvs e) /\ (k < length (noff v))%nat /\ (k < nnode e)%nat /\ nth k (noff v) 0%nat = row.
(** a function U of the unknowns has the initial values of every variable at its nodes *)
Definition agrees (U : nat -> R) (e : nel) : Prop := forall v k, In v (nvs e) -> (k < length (noff v))%nat -> nval v k = U (nlid e (nth k (noff v) 0%nat)).
Definition unknown_of (r : nat) (e : nel) : Prop := exists row, (row < nloc e)%nat /\ nlid e row = r.
Lemma interp_at es U r : (forall e row, In e es -> (row < nloc e)%nat -> nlid e row = r -> node_values e row = U r) -> (exists e, In e es /\ unknown_of r e) -> interpolate es r = U r.
Proof.
  intros N (e & Ie & row & Hr & E). rewrite interp_writes. apply writes.
  - intros a I. apply in_flat_map in I. destruct I as (e' & Ie' & I). apply in_map_iff in I. destruct I as (row' & E' & I'). apply in_seq in I'. injection E'. intros <- E2. apply N; auto. lia.
  - left. exists (node_values e row). apply in_flat_map. exists e. split; auto. apply in_map_iff. exists row. rewrite E. split; auto. apply in_seq. lia.
Qed.
(** All variables have one unknown at each node: the unknowns are the given nodal values, and
    nothing else is set. *)
Theorem C189_nodal es U : (forall e, In e es -> covered e /\ agrees U e /\ forall v, In v (nvs e) -> length (noff v) = nnode e) -> forall r,
  ((exists e, In e es /\ unknown_of r e) -> interpolate es r = U r) /\ ((forall e, In e es -> ~ unknown_of r e) -> interpolate es r = 0).
Proof.
  intros H r. split.
  - apply interp_at. intros e row Ie Hrow E. destruct (H e Ie) as (C & A & L). rewrite node_values_writes. apply writes.
    + intros a I. unfold node_writes in I. apply in_flat_map in I. destruct I as (v & Iv & I). apply in_map_iff in I. destruct I as (k & Ek & Ik). apply in_seq in Ik. injection Ek. intros <- Er. rewrite A; auto; [congruence|]. rewrite L; auto. lia.
    + left. destruct (C row Hrow) as (v & k & Iv & Hk & Hn & Ek). exists (nval v k). apply in_flat_map. exists v. split; auto. apply in_map_iff. exists k. rewrite Ek. split; auto. apply in_seq. lia.
  - intros N. rewrite interp_writes. apply writes; [|auto]. intros a I. apply in_flat_map in I. destruct I as (e & Ie & I). apply in_map_iff in I. destruct I as (row & E & Ir). apply in_seq in Ir. exfalso.
    apply (N e Ie). exists row. injection E. intros. split; [lia|auto].
Qed.
Print Assumptions C189_nodal.
Definition mixed_el (e : nat) (f g : nat -> R) : nel :=
  {| nlid := fun o => (2 * e + o)%nat; nloc := 4; nnode := 2; nvs := [{| noff := [0; 2]%nat; nval := fun k => f (e + k)%nat |}; {| noff := [1; 3]%nat; nval := fun k => g (e + k)%nat |}] |}.
Example C189_case f g : let U := fun r => if Nat.even r then f (Nat.div2 r) else g (Nat.div2 r) in forall e, In e [mixed_el 0 f g; mixed_el 1 f g] -> covered e /\ agrees U e /\ forall v, In v (nvs e) -> length (noff v) = nnode e.
Proof.
  intros U e I. assert (E : exists m, (m < 2)%nat /\ e = mixed_el m f g) by (destruct I as [<-|[<-|[]]]; [exists 0%nat|exists 1%nat]; auto). destruct E as (m & Hm & ->). split; [|split].
  - intros row Hr. cbn in Hr. destruct row as [|[|[|[|]]]]; try lia; [exists (nth 0 (nvs (mixed_el m f g)) {| noff := []; nval := f |}), 0%nat|exists (nth 1 (nvs (mixed_el m f g)) {| noff := []; nval := f |}), 0%nat
      |exists (nth 0 (nvs (mixed_el m f g)) {| noff := []; nval := f |}), 1%nat|exists (nth 1 (nvs (mixed_el m f g)) {| noff := []; nval := f |}), 1%nat]; cbn; repeat split; auto; lia.
  - intros v k Iv Hk. destruct Iv as [<-|[<-|[]]]; cbn in Hk; destruct m as [|[|]]; try lia; destruct k as [|[|]]; try lia; reflexivity.
  - intros v [<-|[<-|[]]]; reflexivity.
Qed.
(** Variables with fewer unknowns than the element has nodes: unknowns that are not the first
    of an element get their values ... *)
Theorem C190_partial es U : (forall e, In e es -> covered e /\ agrees U e) -> forall r,
  (exists e, In e es /\ unknown_of r e) -> (forall e row, In e es -> (row < nloc e)%nat -> nlid e row = r -> row <> 0%nat) -> interpolate es r = U r.
Proof.
  intros H r X Z. apply interp_at; auto. intros e row Ie Hrow E. destruct (H e Ie) as (C & A). rewrite node_values_writes. apply writes.
  - intros a I. unfold node_writes in I. apply in_flat_map in I. destruct I as (v & Iv & I). apply in_map_iff in I. destruct I as (k & Ek & Ik). injection Ek. intros <- Er.
    destruct (Nat.lt_ge_cases k (length (noff v))) as [L|L]; [rewrite A; auto; congruence|]. rewrite nth_overflow in Er by auto. exfalso. apply (Z e row Ie Hrow E). auto.
  - left. destruct (C row Hrow) as (v & k & Iv & Hk & Hn & Ek). exists (nval v k). apply in_flat_map. exists v. split; auto. apply in_map_iff. exists k. rewrite Ek. split; auto. apply in_seq. lia.
Qed.
(** ... the first is overwritten: T (value 1 at both nodes) and the constant P (value 7). *)
Definition hvol_el : nel := {| nlid := fun o => o; nloc := 3; nnode := 2; nvs := [{| noff := [0; 1]%nat; nval := fun _ => 1 |}; {| noff := [2%nat]; nval := fun _ => 7 |}] |}.
Theorem C190_refuted : let U := fun r => if (r <? 2)%nat then 1 else 7 in (forall e, In e [hvol_el] -> covered e /\ agrees U e) /\ interpolate [hvol_el] 0%nat = 7.
Proof.
  intros U. split; [|reflexivity]. intros e [<-|[]]. split.
  - intros row Hr. cbn in Hr. destruct row as [|[|[|]]]; try lia; [exists (nth 0 (nvs hvol_el) {| noff := []; nval := fun _ => 0 |}), 0%nat|exists (nth 0 (nvs hvol_el) {| noff := []; nval := fun _ => 0 |}), 1%nat|exists (nth 1 (nvs hvol_el) {| noff := []; nval := fun _ => 0 |}), 0%nat]; cbn; repeat split; auto; lia.
  - intros v k [<-|[<-|[]]] Hk; cbn in Hk; destruct k as [|[|]]; try lia; reflexivity.
Qed.
Print Assumptions C190_partial.
Print Assumptions C190_refuted.

(** *** C191: scalar initial data, and the kind of initial data *)
(** When all sets up to s have scalar data, set s gets its own ... *)
Theorem C191_partial {A} (sets : list (bool * A)) s a : nth_error sets s = Some (true, a) -> (forall j, (j < s)%nat -> exists b, nth_error sets j = Some (true, b)) -> scalar_for sets s = Some a.
Proof.
  intros H B. unfold scalar_for. rewrite H. unfold scalar_values. revert s H B. induction sets as [|[t b] l IH]; intros s H B; [destruct s; discriminate|].
  destruct s as [|s]; cbn in H.
  - injection H. intros -> ->. reflexivity.
  - destruct (B 0%nat ltac:(lia)) as (b' & E). cbn in E. injection E. intros _ ->. cbn. apply IH; auto. intros j Hj. apply (B (Datatypes.S j)). lia.
Qed.
(** ... after a set without, the list is read past its end, or another set's data are used. *)
Theorem C191_sets_refuted {A} (x a b : A) : a <> b -> scalar_for [(false, x); (true, a)] 1 = None /\ scalar_for [(false, x); (true, a); (true, b)] 1 = Some b.
Proof. intros _. split; reflexivity. Qed.
(** Names of initial types other than the three set nothing: the initial state is zero. *)
Theorem C191_type_refuted : init_method "L2-Projection" = None /\ forall ty, ~ In ty ["L2-projection"; "L2-projection-HFACE"; "interpolation"]%string -> init_method ty = None.
Proof.
  split; [reflexivity|]. intros ty N. unfold init_method. destruct (String.eqb_spec ty "L2-projection"); [exfalso; apply N; cbn; auto|].
  destruct (String.eqb_spec ty "L2-projection-HFACE"); [exfalso; apply N; cbn; auto|]. destruct (String.eqb_spec ty "interpolation"); [exfalso; apply N; cbn; auto|auto].
Qed.
Print Assumptions C191_partial.
Print Assumptions C191_sets_refuted.
Print Assumptions C191_type_refuted.
