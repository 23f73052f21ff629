(** Proofs about the objectives. *)
From Coq Require Import Bool Arith Lia Reals Lra List Permutation.
Import ListNotations.
From Verif Require Import Sparse_Model Mass_Model BProj_Model BProj_Proofs PostObj_Model PostObj_Spec.
Local Open Scope R_scope.

Lemma sm_cons {A} (x : A) l f : sm (x :: l) f = f x + sm l f.
Proof. reflexivity. Qed.
Lemma sm_concat {A} (l : list (list A)) f : sm (concat l) f = sm l (fun g => sm g f).
Proof. rewrite <- (map_id l) at 1. rewrite <- flat_map_concat_map. apply sm_flat. Qed.
Lemma sm_perm {A} (l l' : list A) f : Permutation l l' -> sm l f = sm l' f.
Proof. induction 1; rewrite ?sm_cons; [reflexivity|rewrite IHPermutation; reflexivity|ring|congruence]. Qed.
Lemma sm_elements ranks F : sm ranks (fun pr => sm (groups pr) (fun g => sm g F)) = sm (elements ranks) F.
Proof. unfold elements. rewrite sm_flat. apply sm_ext. intros pr _. symmetry. apply sm_concat. Qed.
Lemma sm_sensors ranks F : sm ranks (fun pr => sm (sensors pr) F) = sm (all_sensors ranks) F.
Proof. unfold all_sensors. symmetry. apply sm_flat. Qed.

Lemma reduce_same ranks f : reduce ranks (fun _ pr => f pr) = sm ranks f.
Proof. destruct ranks; reflexivity. Qed.
Lemma reduce_root ranks c : ranks <> [] -> reduce ranks (fun root _ => if root then c else 0) = c.
Proof. destruct ranks; [congruence|]. intros _. cbn [reduce]. rewrite sm_zero by reflexivity. ring. Qed.
Lemma reduce_add ranks f g : reduce ranks (fun b pr => f b pr + g b pr) = reduce ranks f + reduce ranks g.
Proof. destruct ranks; cbn [reduce]; [ring|]. rewrite sm_add. ring. Qed.
Lemma reduce_sm {A} ranks (l : list A) f : reduce ranks (fun b pr => sm l (f b pr)) = sm l (fun x => reduce ranks (fun b pr => f b pr x)).
Proof.
  destruct ranks; cbn [reduce]; [symmetry; apply sm_zero; reflexivity|].
  rewrite sm_add. f_equal. apply sm_swap.
Qed.

(** The regularizations. *)
Lemma reduce_reg ranks mesh s p g : ranks <> [] -> Permutation (elements ranks) mesh ->
  reduce ranks (fun root pr => reg_value root s pr p g) = penalty mesh (nscal s) p g.
Proof.
  intros N P. destruct g as [w rf drf|w]; cbn [reg_value penalty].
  - rewrite reduce_same, sm_elements. unfold over. rewrite (sm_perm _ _ _ P), <- sm_scal.
    apply sm_ext. intros e _. rewrite <- sm_scal. reflexivity.
  - rewrite reduce_root by exact N. rewrite <- sm_scal. apply sm_ext. intros; ring.
Qed.
Lemma contrib_split o s ranks mesh h p t : ranks <> [] -> Permutation (elements ranks) mesh ->
  contrib o s ranks h p t = reduce ranks (fun root pr => main_value root o s pr (states h t) p (times h t)) + penalties mesh (nscal s) o p.
Proof.
  intros N P. unfold contrib, proc_value. rewrite reduce_add, reduce_sm. f_equal. unfold penalties.
  apply sm_ext. intros g _. apply reduce_reg; assumption.
Qed.

Lemma main_control o s ranks mesh u p cur : typ o = IntegratedControl -> Permutation (elements ranks) mesh ->
  reduce ranks (fun root pr => main_value root o s pr u p cur) = weight o * over mesh (density o u p).
Proof.
  intros T P. unfold main_value. rewrite T, reduce_same. unfold over. rewrite <- (sm_perm _ _ _ P), <- sm_elements, <- sm_scal.
  apply sm_ext. intros pr _. rewrite <- sm_scal. apply sm_ext. intros g _. unfold group_integral. f_equal.
  apply sm_ext. intros e _. apply sm_ext. intros x _. rewrite Rmult_comm. reflexivity.
Qed.
Lemma main_response o s ranks mesh u p cur : typ o = IntegratedResponse -> Permutation (elements ranks) mesh ->
  reduce ranks (fun root pr => main_value root o s pr u p cur) = over mesh (density o u p).
Proof.
  intros T P. unfold main_value. rewrite T, reduce_same. unfold over. rewrite <- (sm_perm _ _ _ P), <- sm_elements.
  apply sm_ext. intros pr _. apply sm_ext. intros g _. unfold group_integral.
  apply sm_ext. intros e _. apply sm_ext. intros x _. rewrite Rmult_comm. reflexivity.
Qed.
Lemma main_discrete o s ranks u p cur : typ o = DiscreteControl -> ranks <> [] ->
  reduce ranks (fun root pr => main_value root o s pr u p cur) = weight o * sm (seq 0 (nunk s)) (fun i => (u i - dsol s cur i) ^ 2).
Proof.
  intros T N. unfold main_value. rewrite T, reduce_root by exact N.
  rewrite Rmult_assoc, sqrt_sqrt; [reflexivity|]. apply sm_nonneg. intros i _. apply pow2_ge_0.
Qed.

(** Data and times. *)
Lemma find_time_some l : forall i cur j, find_time i l cur = Some j -> (i <= j < i + length l)%nat /\ Rabs (cur - nth (j - i) l 0) < 1 / 10 ^ 12.
Proof.
  induction l as [|t l IH]; intros i cur j H; cbn [find_time] in H; [discriminate|].
  destruct (find_time (S i) l cur) as [m|] eqn:E.
  - injection H as ->. apply IH in E. destruct E as [A B]. cbn [length]. split; [lia|].
    replace (j - i)%nat with (S (j - S i)) by lia. exact B.
  - destruct (Rlt_dec (Rabs (cur - t)) (1 / 10 ^ 12)) as [L|L]; [|discriminate]. injection H as <-.
    cbn [length]. rewrite Nat.sub_diag. split; [lia|exact L].
Qed.
Lemma find_time_none l : forall i cur, find_time i l cur = None -> forall j, (j < length l)%nat -> ~ Rabs (cur - nth j l 0) < 1 / 10 ^ 12.
Proof.
  induction l as [|t l IH]; intros i cur H j J; cbn [find_time length] in *; [lia|].
  destruct (find_time (S i) l cur) as [m|] eqn:E; [discriminate|].
  destruct (Rlt_dec (Rabs (cur - t)) (1 / 10 ^ 12)) as [L|L]; [discriminate|].
  destruct j as [|j]; [exact L|]. apply (IH _ _ E). lia.
Qed.
Lemma find_time_separated l cur (F : nat -> R) (dec : forall i, {simultaneous l cur i} + {~ simultaneous l cur i}) : separated l ->
  sm (seq 0 (length l)) (fun i => if dec i then F i else 0) = match find_time 0 l cur with Some t => F t | None => 0 end.
Proof.
  intros S. destruct (find_time 0 l cur) as [t|] eqn:E.
  - apply find_time_some in E. rewrite Nat.sub_0_r in E. destruct E as [[_ L] B]. cbn [plus] in L.
    rewrite <- (sm_single (length l) t F L). apply sm_ext. intros i I. apply in_seq in I.
    destruct (Nat.eqb_spec i t) as [->|NE].
    + destruct (dec t) as [_|C]; [reflexivity|]. elim C. exact B.
    + destruct (dec i) as [C|_]; [|reflexivity]. exfalso. unfold simultaneous in C.
      specialize (S i t ltac:(lia) L NE).
      assert (Rabs (nth i l 0 - nth t l 0) <= Rabs (cur - nth i l 0) + Rabs (cur - nth t l 0)) as T.
      { replace (nth i l 0 - nth t l 0) with (- (cur - nth i l 0) + (cur - nth t l 0)) by ring.
        eapply Rle_trans; [apply Rabs_triang|]. rewrite Rabs_Ropp. lra. }
      lra.
  - apply sm_zero. intros i I. apply in_seq in I. destruct (dec i) as [C|_]; [|reflexivity].
    elim (find_time_none l 0 cur E i); [lia|exact C].
Qed.

(** A derivative of a sum. *)
Lemma d_sm {A} (l : list A) (f : A -> R -> R) (d : A -> R) x : (forall a, In a l -> derivable_pt_lim (f a) x (d a)) ->
  derivable_pt_lim (fun s => sm l (fun a => f a s)) x (sm l d).
Proof.
  induction l as [|a l IH]; intros H; [apply derivable_pt_lim_const|].
  apply (derivable_pt_lim_plus (f a) (fun s => sm l (fun b => f b s))); [apply H; left; reflexivity|].
  apply IH. intros b B. apply H. right. exact B.
Qed.
Lemma d_ext f g x d : (forall s, f s = g s) -> derivable_pt_lim f x d -> derivable_pt_lim g x d.
Proof. intros E D eps He. destruct (D eps He) as [del K]. exists del. intros h a b. rewrite <- !E. apply K; assumption. Qed.
Lemma d_scal c f x d : derivable_pt_lim f x d -> derivable_pt_lim (fun s => c * f s) x (c * d).
Proof. intros D. apply (derivable_pt_lim_scal f c x d D). Qed.
Lemma d_val f x d d' : d = d' -> derivable_pt_lim f x d -> derivable_pt_lim f x d'.
Proof. intros ->. exact (fun D => D). Qed.
Lemma d_sq f x d : derivable_pt_lim f x d -> derivable_pt_lim (fun s => f s * f s) x (d * f x + f x * d).
Proof. intros D. apply (derivable_pt_lim_mult f f x d d D D). Qed.
Lemma d_minus_const f c x d : derivable_pt_lim f x d -> derivable_pt_lim (fun s => f s - c) x d.
Proof.
  intros D. apply (d_val _ _ (d - 0)); [ring|].
  apply (derivable_pt_lim_minus f (fun _ => c)); [exact D|apply derivable_pt_lim_const].
Qed.
Lemma d_const_minus f c x d : derivable_pt_lim f x d -> derivable_pt_lim (fun s => f s + c) x d.
Proof.
  intros D. apply (d_val _ _ (d + 0)); [ring|].
  apply (derivable_pt_lim_plus f (fun _ => c)); [exact D|apply derivable_pt_lim_const].
Qed.

(** Pairing with a scattered vector. *)
Lemma pair_hit n c w v : (c < n)%nat -> sm (seq 0 n) (fun i => (if (c =? i)%nat then w else 0) * v i) = w * v c.
Proof.
  intros L. rewrite <- (sm_single n c (fun i => w * v i) L). apply sm_ext. intros i _.
  rewrite Nat.eqb_sym. destruct (i =? c)%nat; ring.
Qed.
Lemma pair_local n m (l : nat -> nat) (f : nat -> R) v : (forall k, (k < m)%nat -> (l k < n)%nat) ->
  sm (seq 0 n) (fun i => sm (seq 0 m) (fun k => if (l k =? i)%nat then f k else 0) * v i) = sm (seq 0 m) (fun k => f k * v (l k)).
Proof.
  intros L. rewrite (sm_ext _ _ (fun i => sm (seq 0 m) (fun k => (if (l k =? i)%nat then f k else 0) * v i)))
    by (intros; symmetry; apply sm_scal_r).
  rewrite sm_swap. apply sm_ext. intros k K. apply in_seq in K. apply pair_hit. apply L. lia.
Qed.
Lemma pair_sum {A} n (l : list A) (f : A -> nat -> R) v :
  sm (seq 0 n) (fun i => sm l (fun a => f a i) * v i) = sm l (fun a => sm (seq 0 n) (fun i => f a i * v i)).
Proof.
  rewrite (sm_ext _ _ (fun i => sm l (fun a => f a i * v i))) by (intros; symmetry; apply sm_scal_r). apply sm_swap.
Qed.
Lemma pair_gather n ranks loc v : (forall e, In e (elements ranks) -> forall k, (k < ndof e)%nat -> (lid e k < n)%nat) ->
  sm (seq 0 n) (fun i => gather_add ranks loc i * v i) = sm (elements ranks) (fun e => sm (seq 0 (ndof e)) (fun k => loc e k * v (lid e k))).
Proof.
  intros L.
  rewrite (sm_ext _ _ (fun i => sm (elements ranks) (fun e => sm (seq 0 (ndof e)) (fun k => if (lid e k =? i)%nat then loc e k else 0)) * v i))
    by (intros; unfold gather_add; rewrite sm_elements; reflexivity).
  rewrite pair_sum. apply sm_ext. intros e E. apply pair_local. exact (L e E).
Qed.

(** The derivative of an integral of the density by the state and the parameters. *)
Lemma d_over mesh (f : R -> melem -> nat -> R) d : (forall e x, In e mesh -> derivable_pt_lim (fun s => f s e x) 0 (d e x)) ->
  derivable_pt_lim (fun s => over mesh (f s)) 0 (over mesh d).
Proof.
  intros H. apply (d_sm mesh (fun e s => sm (seq 0 (npt e)) (fun x => wt e x * f s e x))). intros e E.
  apply (d_sm (seq 0 (npt e)) (fun x s => wt e x * f s e x)). intros x _. apply d_scal. apply H. exact E.
Qed.

(** The step found at the time of a record. *)
Lemma dt_fold h c : forall l d, (forall t, In t l -> t <> c -> ~ Rabs (times h t - times h c) / times h c < 1 / 10 ^ 12) ->
  Rabs (times h c - times h c) / times h c < 1 / 10 ^ 12 ->
  fold_left (fun d t => if Rlt_dec (Rabs (times h t - times h c) / times h c) (1 / 10 ^ 12) then times h t - times h (t - 1) else d) l d
  = if in_dec Nat.eq_dec c l then times h c - times h (c - 1) else d.
Proof.
  induction l as [|t l IH]; intros d N Z; [reflexivity|]. cbn [fold_left]. rewrite IH; [|intros t' T'; apply N; right; exact T'|exact Z].
  destruct (Nat.eq_dec t c) as [->|NE].
  - destruct (Rlt_dec _ _) as [_|C]; [|elim C; exact Z].
    destruct (in_dec Nat.eq_dec c (c :: l)) as [_|C]; [|elim C; left; reflexivity].
    destruct (in_dec Nat.eq_dec c l); reflexivity.
  - destruct (Rlt_dec _ _) as [C|_]; [elim (N t (or_introl eq_refl) NE C)|].
    destruct (in_dec Nat.eq_dec c l) as [I|I], (in_dec Nat.eq_dec c (t :: l)) as [J|J]; try reflexivity.
    + elim J. right. exact I.
    + destruct J as [E|E]; [elim NE; exact E|elim I; exact E].
Qed.
Lemma dt_counted h k : counted h k -> dt_at h (times h k) = if (nrec h =? 1)%nat then 1 else times h k - times h (k - 1).
Proof.
  intros [[E ->]|[K [P S]]].
  - unfold dt_at. rewrite E. reflexivity.
  - unfold dt_at. rewrite (dt_fold h k).
    + destruct (in_dec Nat.eq_dec k (seq 1 (nrec h - 1))) as [_|C]; [|elim C; apply in_seq; lia].
      destruct (Nat.eqb_spec (nrec h) 1); [lia|reflexivity].
    + intros t T NE. apply in_seq in T. specialize (S t ltac:(lia) NE). intros L.
      apply (Rmult_lt_compat_r (times h k)) in L; [|exact P].
      unfold Rdiv in L at 1. rewrite Rmult_assoc, Rinv_l, Rmult_1_r in L by lra.
      replace (1 / 10 ^ 12 * times h k) with (times h k / 10 ^ 12) in L by (field; apply pow_nonzero; lra). lra.
    + rewrite Rminus_diag_eq by reflexivity. rewrite Rabs_R0. unfold Rdiv at 1. rewrite Rmult_0_l.
      apply Rdiv_lt_0_compat; [lra|apply pow_lt; lra].
Qed.

Lemma sm_one (l : list nat) c x : NoDup l -> In c l -> sm l (fun t => if (t =? c)%nat then x else 0) = x.
Proof.
  induction l as [|t l IH]; intros N I; [destruct I|]. inversion N as [|? ? NI N' E1]; subst. rewrite sm_cons.
  destruct (Nat.eqb_spec t c) as [->|NE].
  - rewrite sm_zero; [ring|]. intros t T. destruct (Nat.eqb_spec t c) as [->|_]; [contradiction|reflexivity].
  - destruct I as [E|I]; [contradiction|]. rewrite IH by assumption. ring.
Qed.

(** Moving the state of one record. *)
Definition part (o : objective) (s : setup) (ranks : list proc) (u : nat -> R) (p : pars) (cur : R) : R :=
  reduce ranks (fun root pr => main_value root o s pr u p cur).
Lemma contrib_part o s ranks h p t : contrib o s ranks h p t = part o s ranks (states h t) p (times h t) + reduce ranks (fun root pr => sm (regs o) (reg_value root s pr p)).
Proof. unfold contrib, proc_value, part. apply reduce_add. Qed.
Lemma d_value o s ranks h k v p D : counted h k ->
  derivable_pt_lim (fun x => part o s ranks (fun i => states h k i + x * v i) p (times h k)) 0 D ->
  derivable_pt_lim (fun x => value_of o s ranks (moved h k v x) p) 0 ((if is_sensors o then 1 else dt_at h (times h k)) * D).
Proof.
  intros C HD. rewrite (dt_counted h k C). set (c := reduce ranks (fun root pr => sm (regs o) (reg_value root s pr p))).
  assert (forall t, derivable_pt_lim (fun x => contrib o s ranks (moved h k v x) p t) 0 (if (t =? k)%nat then D else 0)) as K.
  { intros t. apply (d_ext (fun x => part o s ranks (states (moved h k v x) t) p (times h t) + c));
      [intros x; rewrite contrib_part; reflexivity|]. apply d_const_minus. cbn [states moved].
    destruct (Nat.eqb_spec t k) as [->|NE]; [exact HD|apply derivable_pt_lim_const]. }
  unfold value_of. cbn [nrec moved times]. destruct (Nat.eqb_spec (nrec h) 1) as [E|NE].
  - destruct C as [[_ ->]|[L _]]; [|lia]. specialize (K 0%nat). cbn [Nat.eqb] in K.
    destruct (is_sensors o); rewrite Rmult_1_l; exact K.
  - destruct C as [[E _]|[L _]]; [lia|].
    set (w := fun t => if is_sensors o then 1 else times h t - times h (t - 1)).
    apply (d_ext (fun x => sm (seq 1 (nrec h - 1)) (fun t => w t * contrib o s ranks (moved h k v x) p t))).
    { intros x. apply sm_ext. intros t _. unfold w. destruct (is_sensors o); ring. }
    apply (d_val _ _ (sm (seq 1 (nrec h - 1)) (fun t => if (t =? k)%nat then w k * D else 0))).
    { rewrite sm_one; [unfold w; reflexivity|apply seq_NoDup|apply in_seq; lia]. }
    apply (d_sm _ (fun t x => w t * contrib o s ranks (moved h k v x) p t)). intros t _.
    specialize (K t). apply d_scal with (c := w t) in K. destruct (Nat.eqb_spec t k) as [->|_]; [exact K|]. rewrite Rmult_0_r in K. exact K.
Qed.

(** The derivative of each kind of objective at one record. *)
Definition slope (o : objective) (u : nat -> R) (p : pars) (v : nat -> R) (e : melem) (x : nat) : R :=
  sm (seq 0 (ndof e)) (fun k => dfu o (at_elem u (lid e)) (pars_at p e) e x k * v (lid e k)).
Lemma d_density o u p v e x : diff_state o ->
  derivable_pt_lim (fun s => density o (fun i => u i + s * v i) p e x) 0 (slope o u p v e x).
Proof. intros A. exact (A (at_elem u (lid e)) (pars_at p e) e x (fun k => v (lid e k))). Qed.
Lemma pair_slope n ranks o u p v c (G : melem -> nat -> R) :
  (forall e, In e (elements ranks) -> forall k, (k < ndof e)%nat -> (lid e k < n)%nat) ->
  (forall e k, G e k = sm (seq 0 (npt e)) (fun x => c * dfu o (at_elem u (lid e)) (pars_at p e) e x k * wt e x)) ->
  sm (seq 0 n) (fun i => gather_add ranks G i * v i) = c * over (elements ranks) (slope o u p v).
Proof.
  intros L E. rewrite pair_gather by exact L. unfold over. rewrite <- sm_scal. apply sm_ext. intros e _.
  rewrite (sm_ext _ _ (fun k => sm (seq 0 (npt e)) (fun x => c * dfu o (at_elem u (lid e)) (pars_at p e) e x k * wt e x * v (lid e k))))
    by (intros; rewrite E, <- sm_scal_r; reflexivity).
  rewrite sm_swap, <- sm_scal. apply sm_ext. intros x _. unfold slope. rewrite <- !sm_scal. apply sm_ext. intros k _. ring.
Qed.

(** Moving the parameters. *)
Lemma d_penalties_disc mesh ns o p v : diff_regs o ->
  derivable_pt_lim (fun x => penalties mesh ns o (moved_disc p v x)) 0
    (sm (regs o) (fun g => match g with
       | Integrated w _ drf => w * over mesh (fun e x => sm (seq 0 (npdof e)) (fun k => drf (pars_at p e) e x k * v (plid e k)))
       | L2Norm _ => 0 end)).
Proof.
  intros A. apply (d_sm (regs o) (fun g x => penalty mesh ns (moved_disc p v x) g)). intros [w rf drf|w] I; cbn [penalty].
  - apply d_scal. apply (d_over mesh (fun s e => rf {| disc := fun k => disc (moved_disc p v s) (plid e k); scal := scal (moved_disc p v s) |} e)).
    intros e x _. exact (A w rf drf I (pars_at p e) e x (fun k => v (plid e k))).
  - cbn [scal moved_disc]. apply derivable_pt_lim_const.
Qed.
Lemma pair_reg n ranks o p v dt : (forall e, In e (elements ranks) -> forall k, (k < npdof e)%nat -> (plid e k < n)%nat) ->
  sm (seq 0 n) (fun i => grad_param_reg o ranks p dt i * v i) = dt *
    sm (regs o) (fun g => match g with
       | Integrated w _ drf => w * over (elements ranks) (fun e x => sm (seq 0 (npdof e)) (fun k => drf (pars_at p e) e x k * v (plid e k)))
       | L2Norm _ => 0 end).
Proof.
  intros L. unfold grad_param_reg. rewrite pair_sum.
  rewrite (sm_ext ranks _ (fun pr => sm (regs o) (fun g => sm (seq 0 n) (fun i => match g with
    | Integrated w _ drf => sm (groups pr) (fun gr => sm gr (fun e => sm (seq 0 (npt e)) (fun pt =>
        sm (seq 0 (npdof e)) (fun k => if (plid e k =? i)%nat then w * dt * (wt e pt * drf (pars_at p e) e pt k) else 0))))
    | L2Norm _ => 0 end * v i)))) by (intros; apply pair_sum).
  rewrite sm_swap, <- sm_scal. apply sm_ext. intros [w rf drf|w] _.
  - rewrite (sm_ext ranks _ (fun pr => sm (groups pr) (fun gr => sm gr (fun e => sm (seq 0 n) (fun i => sm (seq 0 (npt e)) (fun pt =>
        sm (seq 0 (npdof e)) (fun k => if (plid e k =? i)%nat then w * dt * (wt e pt * drf (pars_at p e) e pt k) else 0)) * v i))))).
    2:{ intros pr _. rewrite pair_sum. apply sm_ext. intros g _. apply pair_sum. }
    rewrite sm_elements. unfold over. rewrite <- !sm_scal. apply sm_ext. intros e E. rewrite pair_sum, <- !sm_scal.
    apply sm_ext. intros x _. rewrite pair_local by exact (L e E). rewrite <- !sm_scal. apply sm_ext. intros k _. ring.
  - rewrite Rmult_0_r. apply sm_zero. intros pr _. apply sm_zero. intros i _. ring.
Qed.

Lemma value_many o s ranks mesh h p : ranks <> [] -> Permutation (elements ranks) mesh -> is_sensors o = false -> (nrec h <> 1)%nat ->
  value_of o s ranks h p = sm (seq 1 (nrec h - 1)) (fun t => (times h t - times h (t - 1)) *
    (part o s ranks (states h t) p (times h t) + penalties mesh (nscal s) o p)).
Proof.
  intros N P S M. unfold value_of. destruct (Nat.eqb_spec (nrec h) 1) as [E|_]; [contradiction|].
  apply sm_ext. intros t _. rewrite S, (contrib_split o s ranks mesh) by assumption. unfold part. ring.
Qed.
