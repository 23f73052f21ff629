(** Properties C09 (element reductions) and C10 (storage classes do not matter). *)
From Coq Require Import Ascii String Bool Arith Lia List Relations ZArith QArith Reals Lra.
Local Close Scope Q_scope.
From Verif Require Import Outcome Interp_Model Interp_Lemmas Flat_Model FuncMan_Model FuncMan_Proofs
  FuncEval_Model FuncEval_Spec FuncEval_Proofs Number_Model Interp_Props.
Import ListNotations.

(* ------------------------------------------------------------------ *)
(** ** C10 *)

Section C10.
Context {V : Type} (O : ops V).
Variables (near : V -> option nat) (dim1 : nat) (of_nat : nat -> V).
Variables (num : str -> V) (pi_ : V) (stale_sc : V) (stale_view : nat -> nat -> V).
Hypothesis sqrt_zero : forall x, o_ge O (o_zero O) x = true -> o_gt O (o_zero O) x = false ->
  o_fun O (s_ "sqrt") x = o_zero O.
Hypothesis gt_ge : forall x y, o_gt O x y = true -> o_ge O x y = true.
Hypothesis near_pow : forall x t n, near t = Some n -> unrolled O n x = o_pow O x t.

Notation vista := (vista O near dim1 of_nat num pi_ stale_sc stale_view).
Notation ffield := (ffield O dim1 num pi_).

Definition wf_defs (Ts : list tree) : Prop :=
  good Ts /\ in_range Ts /\ no_unset Ts /\ (forall i, ~ clos_trans nat (Mentions Ts) i i).

(** For all acyclic sets of definitions (in which no definition consisting of a bare
    parameter is used by another and emean is not used): the value delivered by the
    evaluator, with constants frozen at setup and every other sub-expression stored
    in its own class, is the value of the plain point-by-point reading, whatever was
    in the storage before. *)
Theorem C10_storage_partial Ts w0 w j : wf_defs Ts -> j < length Ts ->
  exists f v, ffield Ts w (length Ts) j = Some f /\ vista Ts w0 w (length Ts) j = Some v /\
    forall e p, v e p = f e p.
Proof.
  intros (HG & HR & HU & A) Hj.
  destruct (ffield Ts w (length Ts) j) as [f|] eqn:E.
  2:{ exfalso. revert E. apply ffield_total; auto. }
  destruct (vista_value O near dim1 of_nat num pi_ stale_sc stale_view sqrt_zero gt_ge near_pow
    Ts w0 w (length Ts) j f HG E) as (v & Hv & Q).
  exists f, v. auto.
Qed.

(** Changing the storage class of leaves (constant, parameter, scalar field, solution
    field) without changing their values changes no value. *)
Fixpoint relabel (s : leaf -> leaf) (t : tree) : tree :=
  match t with
  | Leaf l => Leaf (s l)
  | Node d => Node (map (fun x => (fst x, relabel s (snd x))) d)
  end.

Definition same_values (w : world) (s : leaf -> leaf) (Ts : list tree) : Prop :=
  (forall j, s (LFun j) = LFun j) /\
  forall t l, In t Ts -> In l (leaves t) -> (forall j, l <> LFun j) ->
    exists f f', lval num pi_ w l = Some f /\ lval num pi_ w (s l) = Some f' /\
      feq f f' /\ forall j, s l <> LFun j.

Definition oeq (a b : option (nat -> nat -> V)) : Prop :=
  match a, b with Some f, Some g => feq f g | None, None => True | _, _ => False end.

Lemma fe_relabel w s ff ff' t :
  (forall j, s (LFun j) = LFun j) ->
  (forall l, In l (leaves t) -> (forall j, l <> LFun j) ->
    exists f f', lval num pi_ w l = Some f /\ lval num pi_ w (s l) = Some f' /\
      feq f f' /\ forall j, s l <> LFun j) ->
  (forall j, oeq (ff j) (ff' j)) ->
  oeq (fe O dim1 num pi_ w ff t) (fe O dim1 num pi_ w ff' (relabel s t)).
Proof.
  intros Hs. induction t as [l|d IH] using tree_ind2; intros HL HF.
  - cbn [relabel].
    assert (D : (exists j, l = LFun j) \/ forall j, l <> LFun j).
    { destruct l; try (right; intros; discriminate). left; eauto. }
    destruct D as [[j ->]|D].
    + rewrite Hs. cbn. apply HF.
    + destruct (HL l (or_introl eq_refl) D) as (f & f' & E1 & E2 & E3 & D').
      assert (Q : forall l ff, (forall j, l <> LFun j) -> fe O dim1 num pi_ w ff (Leaf l) = lval num pi_ w l).
      { intros l0 ff0 N. destruct l0; try reflexivity. destruct (N j); auto. }
      rewrite (Q l ff D), (Q (s l) ff' D'), E1, E2. exact E3.
  - cbn [relabel fe].
    assert (Q : Forall (fun x => oeq (fe O dim1 num pi_ w ff (snd x)) (fe O dim1 num pi_ w ff' (relabel s (snd x)))) d).
    { rewrite Forall_forall in *. intros x Hx. apply IH; auto. intros l Hl. apply HL.
      cbn. apply in_flat_map. eauto. }
    clear IH HL.
    assert (G : forall a b, oeq a b -> oeq
      (fold_left (fun acc x => match acc, fe O dim1 num pi_ w ff (snd x) with
                   | Some a, Some b => Some (fop O dim1 (fst x) a b) | _, _ => None end) d a)
      (fold_left (fun acc x => match acc, fe O dim1 num pi_ w ff' (snd x) with
                   | Some a, Some b => Some (fop O dim1 (fst x) a b) | _, _ => None end)
         (map (fun x => (fst x, relabel s (snd x))) d) b)).
    { induction d as [|x r IHr]; intros a b H; cbn [map fold_left fst snd]; auto.
      inversion Q as [|? ? Hx Hr]; subst. apply IHr; auto.
      destruct a as [a|], b as [b|]; cbn [oeq] in H; try contradiction; [|exact I].
      destruct (fe O dim1 num pi_ w ff (snd x)) as [c|],
               (fe O dim1 num pi_ w ff' (relabel s (snd x))) as [c'|]; cbn [oeq] in *; try contradiction; auto.
      apply fop_ext; auto. }
    apply G. intros e p. reflexivity.
Qed.

Lemma ffield_relabel w s Ts : same_values w s Ts -> forall n j,
  oeq (ffield Ts w n j) (ffield (map (relabel s) Ts) w n j).
Proof.
  intros [Hs HV]. induction n as [|n IH]; intros j; cbn [FuncEval_Spec.ffield]; [exact I|].
  destruct (nth_error Ts j) as [t|] eqn:E.
  - rewrite (map_nth_error _ _ _ E). apply fe_relabel; auto. intros l Hl. eapply HV; eauto.
    eapply nth_error_In; eauto.
  - assert (N : nth_error (map (relabel s) Ts) j = None).
    { apply nth_error_None. rewrite map_length. apply nth_error_None. auto. }
    rewrite N. exact I.
Qed.

Theorem C10_relabel_partial Ts s w0 w0' w j :
  wf_defs Ts -> wf_defs (map (relabel s) Ts) -> same_values w s Ts -> j < length Ts ->
  exists v v', vista Ts w0 w (length Ts) j = Some v /\
    vista (map (relabel s) Ts) w0' w (length Ts) j = Some v' /\
    forall e p, v e p = v' e p.
Proof.
  intros H1 H2 HS Hj.
  destruct (C10_storage_partial Ts w0 w j H1 Hj) as (f & v & A1 & A2 & A3).
  destruct (C10_storage_partial (map (relabel s) Ts) w0' w j H2) as (f' & v' & B1 & B2 & B3).
  { rewrite map_length. auto. }
  rewrite map_length in B1, B2.
  pose proof (ffield_relabel w s Ts HS (length Ts) j) as Q. rewrite A1, B1 in Q.
  exists v, v'. split; auto. split; auto. intros e p. rewrite A3, B3. apply Q.
Qed.

(** Without element reductions the value at a point is the value of the expression
    (the one of C01) on the values of its leaves at that point. *)
Definition rho_at (w : world) (ff : nat -> option (nat -> nat -> V)) (e p : nat) (l : leaf) : option V :=
  match (match l with LFun j => ff j | _ => lval num pi_ w l end) with
  | Some f => Some (f e p)
  | None => None
  end.

Theorem C10_pointwise t w ff f e p :
  no_op (s_ "emax") t = true -> no_op (s_ "emin") t = true ->
  fe O dim1 num pi_ w ff t = Some f ->
  eval (guarded O) (rho_at w ff e p) (o_zero O) t = Some (f e p).
Proof.
  revert f. induction t as [l|d IH] using tree_ind2; intros f N1 N2 H.
  - cbn [eval]. unfold rho_at. destruct l; cbn [fe] in H; rewrite H; reflexivity.
  - cbn [no_op] in N1, N2. cbn [fe] in H. cbn [eval].
    rewrite forallb_forall in N1, N2. rewrite Forall_forall in IH.
    assert (G : forall (r : list (str * tree)) a, incl r d ->
      fold_left (fun acc x => match acc, fe O dim1 num pi_ w ff (snd x) with
                   | Some a, Some b => Some (fop O dim1 (fst x) a b) | _, _ => None end) r (Some a) = Some f ->
      fold_left (fun acc x => match acc, eval (guarded O) (rho_at w ff e p) (o_zero O) (snd x) with
                   | Some data, Some td => Some (apply_op (guarded O) (fst x) data td)
                   | _, _ => None end) r (Some (a e p)) = Some (f e p)).
    { induction r as [|x r IHr]; intros a Hi K; cbn [fold_left] in *; [congruence|].
      assert (Hx : In x d) by (apply Hi; left; auto).
      specialize (N1 x Hx). specialize (N2 x Hx).
      apply andb_true_iff in N1 as [M1 N1]. apply andb_true_iff in N2 as [M2 N2].
      apply negb_true_iff in M1, M2.
      destruct (fe O dim1 num pi_ w ff (snd x)) as [b|] eqn:E.
      - rewrite (IH x Hx b N1 N2 E).
        replace (apply_op (guarded O) (fst x) (a e p) (b e p)) with (fop O dim1 (fst x) a b e p)
          by (unfold fop; rewrite M1, M2; reflexivity).
        apply IHr; auto. intros y Hy. apply Hi. right; auto.
      - exfalso. clear - K. induction r; cbn in K; [discriminate|auto]. }
    exact (G d _ (incl_refl d) H).
Qed.
End C10.
Print Assumptions C10_storage_partial.
Print Assumptions C10_relabel_partial.
Print Assumptions C10_pointwise.

(** The laws hold for the real numbers with the usual power function, so the
    theorems above apply to them. *)
Section RealLaws.
Local Open Scope R_scope.
Definition rpow (x t : R) : R :=
  if Req_EM_T t 2 then x * x else if Req_EM_T t 3 then x * x * x
  else if Req_EM_T t 4 then x * x * x * x else Rpower x t.
Definition rnear (t : R) : option nat :=
  if Req_EM_T t 2 then Some 2%nat else if Req_EM_T t 3 then Some 3%nat
  else if Req_EM_T t 4 then Some 4%nat else None.

Example C10_real_laws :
  (forall x, o_ge (Rops rpow) 0 x = true -> o_gt (Rops rpow) 0 x = false ->
     o_fun (Rops rpow) (s_ "sqrt") x = 0) /\
  (forall x y, o_gt (Rops rpow) x y = true -> o_ge (Rops rpow) x y = true) /\
  (forall x t n, rnear t = Some n -> unrolled (Rops rpow) n x = o_pow (Rops rpow) x t).
Proof.
  split; [|split].
  - intros x H1 H2. cbn in *. unfold Rgeb, Rgtb in *.
    destruct (Rge_dec 0 x), (Rgt_dec 0 x); try discriminate.
    replace x with 0 by lra. unfold Rfun. cbn. apply sqrt_0.
  - intros x y H. cbn in *. unfold Rgeb, Rgtb in *.
    destruct (Rge_dec x y), (Rgt_dec x y); try discriminate; auto; lra.
  - intros x t n H. cbn. unfold rnear, rpow in *.
    destruct (Req_EM_T t 2); [injection H as <-; reflexivity|].
    destruct (Req_EM_T t 3); [injection H as <-; reflexivity|].
    destruct (Req_EM_T t 4); [injection H as <-; reflexivity|discriminate].
Qed.
End RealLaws.

(** Witnesses over the integers. *)
Definition zw (x : nat -> nat -> Z) (p : Z) : world (V:=Z) :=
  {| w_soln := fun _ => x; w_scal := fun _ => x; w_par := fun _ _ => p; w_pardot := fun _ _ => 0%Z;
     w_time := 0%Z; w_unset := fun _ => 77%Z |}.
Definition znum (s : str) : Z := match stod s with Some q => QArith_base.Qnum (Qreduction.Qred q) | None => 0%Z end.
Definition zvista (dim1 : nat) (Ts : list tree) (w : world) (j : nat) : option (nat -> nat -> Z) :=
  vista Zops (fun _ => None) dim1 Z.of_nat znum 3%Z 55%Z (fun _ _ => 66%Z) Ts w w (length Ts) j.
Definition zfield (dim1 : nat) (Ts : list tree) (w : world) (j : nat) :=
  ffield Zops dim1 znum 3%Z Ts w (length Ts) j.
Definition at_ (f : option (nat -> nat -> Z)) (e p : nat) : option Z :=
  match f with Some f => Some (f e p) | None => None end.

Definition trees (soln scal par : list str) (defs : list (str * str)) : outcome (list tree) :=
  map_outcome (fun d => decompose (env_of soln scal par defs) (snd d)) defs.
Definition dd (n e : string) : str * str := (s_ n, s_ e).

(** A definition that is just a parameter, used by another definition: "rate" is the
    parameter [p] = 5, "src" is rate*x with x = 3: the value should be 15 and is 0. *)
Theorem C10_parameter_alias_refuted :
  exists Ts, trees [s_ "u"] [s_ "x"] [s_ "p"] [dd "rate" "p"; dd "src" "rate*x"] = Ok Ts /\
    at_ (zvista 2 Ts (zw (fun _ _ => 3%Z) 5%Z) 0) 0 0 = Some 5%Z /\
    at_ (zvista 2 Ts (zw (fun _ _ => 3%Z) 5%Z) 1) 0 0 = Some 0%Z /\
    at_ (zfield 2 Ts (zw (fun _ _ => 3%Z) 5%Z) 1) 0 0 = Some 15%Z.
Proof. eexists. split; [vm_compute; reflexivity|]. vm_compute. auto. Qed.
Print Assumptions C10_parameter_alias_refuted.

(** The element mean of the constant 2 is 2, of a field that is 2 at both points 3. *)
Theorem C10_emean_storage_refuted :
  exists Ts, trees [s_ "u"] [s_ "x"] [s_ "p"] [dd "ca" "emean(2)"; dd "cb" "emean(x)"] = Ok Ts /\
    at_ (zvista 2 Ts (zw (fun _ _ => 2%Z) 5%Z) 0) 0 0 = Some 2%Z /\
    at_ (zvista 2 Ts (zw (fun _ _ => 2%Z) 5%Z) 1) 0 0 = Some 3%Z.
Proof. eexists. split; [vm_compute; reflexivity|]. vm_compute. auto. Qed.
Print Assumptions C10_emean_storage_refuted.

(** A set of definitions satisfying the hypotheses, with all storage classes. *)
Definition c10_defs : list (str * str) :=
  [dd "top" "(left+sqrt(right))*emax(x)"; dd "left" "base*2.0+u"; dd "right" "base^2.0+p"; dd "base" "x+3*4"].
Definition c10_trees : list tree :=
  match trees [s_ "u"] [s_ "x"] [s_ "p"] c10_defs with Ok Ts => Ts | _ => [] end.

Lemma mentions_c10 i j : Mentions c10_trees i j -> i < j < 4.
Proof.
  intros (T & HT & HI).
  destruct i as [|[|[|[|i]]]]; vm_compute in HT;
    try (injection HT as <-; vm_compute in HI;
         repeat (destruct HI as [HI|HI]; [try discriminate HI; try (injection HI as <-; lia)|]);
         destruct HI).
  destruct i; discriminate.
Qed.

Example C10_hypotheses_met : length c10_trees = 4 /\ wf_defs c10_trees.
Proof.
  split; [vm_compute; reflexivity|]. split; [|split; [|split]].
  - split.
    + intros t Ht. vm_compute in Ht.
      repeat (destruct Ht as [<-|Ht]; [vm_compute; auto|]). destruct Ht.
    + intros i j t M Hj. apply mentions_c10 in M.
      destruct j as [|[|[|[|j]]]]; try lia; vm_compute in Hj; injection Hj as <-; reflexivity.
  - intros i j M. apply mentions_c10 in M. vm_compute. lia.
  - intros t s Ht Hs. vm_compute in Ht.
    repeat (destruct Ht as [<-|Ht];
      [vm_compute in Hs; repeat (destruct Hs as [Hs|Hs]; [discriminate Hs|]); destruct Hs|]). destruct Ht.
  - assert (L : forall i j, clos_trans nat (Mentions c10_trees) i j -> i < j).
    { induction 1 as [i j M|i j k _ IH1 _ IH2]; [apply mentions_c10 in M; lia|lia]. }
    intros i Hi. apply L in Hi. lia.
Qed.
Example C10_value_computed :
  at_ (zvista 2 c10_trees (zw (fun e p => Z.of_nat p) 5%Z) 0) 0 1 = Some 202%Z /\
  at_ (zfield 2 c10_trees (zw (fun e p => Z.of_nat p) 5%Z) 0) 0 1 = Some 202%Z.
Proof. vm_compute. auto. Qed.

(* ------------------------------------------------------------------ *)
(** ** C09 *)

Section C09.
Local Open Scope R_scope.
Variable pw : R -> R -> R.
Notation emaxR := (emax_row (Rops pw)).
Notation eminR := (emin_row (Rops pw)).
Notation emeanR := (emean_row (Rops pw)).

Definition is_max (n : nat) (r : nat -> R) (m : R) : Prop :=
  (exists i, (i < n)%nat /\ r i = m) /\ forall i, (i < n)%nat -> r i <= m.
Definition is_min (n : nat) (r : nat -> R) (m : R) : Prop :=
  (exists i, (i < n)%nat /\ r i = m) /\ forall i, (i < n)%nat -> m <= r i.
Fixpoint sum (n : nat) (r : nat -> R) : R :=
  match n with 0%nat => 0 | S k => sum k r + r k end.

(** emax gives the value at the last point that exceeds the first point, or the
    first point. *)
Lemma emax_last n (r : nat -> R) :
  (emaxR n r = r 0%nat /\ forall i, (i < n)%nat -> r i <= r 0%nat) \/
  (exists k, (k < n)%nat /\ r k > r 0%nat /\ emaxR n r = r k /\
     forall i, (k < i < n)%nat -> r i <= r 0%nat).
Proof.
  unfold emax_row. induction n as [|n IH].
  - left. split; auto. intros; lia.
  - rewrite seq_S, fold_left_app. cbn [fold_left plus o_gt Rops]. unfold Rgtb at 1 2 3.
    destruct (Rgt_dec (r n) (r 0%nat)) as [G|G].
    + right. exists n. split; [lia|]. split; auto. split; auto. intros; lia.
    + assert (L : r n <= r 0%nat) by lra.
      destruct IH as [[E H]|(k & K1 & K2 & K3 & K4)].
      * left. split; [exact E|]. intros i Hi. destruct (Nat.eq_dec i n) as [->|]; auto. apply H; lia.
      * right. exists k. split; [lia|]. split; auto. split; [exact K3|]. intros i Hi.
        destruct (Nat.eq_dec i n) as [->|]; auto. apply K4; lia.
Qed.

Lemma emin_last n (r : nat -> R) :
  (eminR n r = r 0%nat /\ forall i, (i < n)%nat -> r 0%nat <= r i) \/
  (exists k, (k < n)%nat /\ r k < r 0%nat /\ eminR n r = r k /\
     forall i, (k < i < n)%nat -> r 0%nat <= r i).
Proof.
  unfold emin_row. induction n as [|n IH].
  - left. split; auto. intros; lia.
  - rewrite seq_S, fold_left_app. cbn [fold_left plus o_gt Rops]. unfold Rgtb at 1 2 3.
    destruct (Rgt_dec (r 0%nat) (r n)) as [G|G].
    + right. exists n. split; [lia|]. split; [lra|]. split; auto. intros; lia.
    + assert (L : r 0%nat <= r n) by lra.
      destruct IH as [[E H]|(k & K1 & K2 & K3 & K4)].
      * left. split; [exact E|]. intros i Hi. destruct (Nat.eq_dec i n) as [->|]; auto. apply H; lia.
      * right. exists k. split; [lia|]. split; auto. split; [exact K3|]. intros i Hi.
        destruct (Nat.eq_dec i n) as [->|]; auto. apply K4; lia.
Qed.

(** emax is the maximum exactly when no point before the last one exceeding the first
    point is larger than it. *)
Theorem C09_emax_partial n (r : nat -> R) : (0 < n)%nat ->
  (is_max n r (emaxR n r) <->
   forall k, (k < n)%nat -> r k > r 0%nat -> (forall i, (k < i < n)%nat -> r i <= r 0%nat) ->
     forall i, (i < k)%nat -> r i <= r k).
Proof.
  intros Hn. destruct (emax_last n r) as [[E H]|(k & K1 & K2 & K3 & K4)]; split.
  - intros _ k Hk Gk. specialize (H k Hk). lra.
  - intros _. rewrite E. split; eauto.
  - intros [_ M] k' Hk' G' L' i Hi.
    assert (k' = k).
    { destruct (Nat.lt_trichotomy k k') as [A|[A|A]]; auto.
      - specialize (K4 k' ltac:(lia)). lra.
      - specialize (L' k ltac:(lia)). lra. }
    subst k'. rewrite <- K3. apply M. lia.
  - intros H. rewrite K3. split; eauto. intros i Hi.
    destruct (Nat.lt_trichotomy i k) as [A|[A|A]].
    + apply (H k); auto.
    + subst; lra.
    + specialize (K4 i ltac:(lia)). lra.
Qed.

Theorem C09_emin_partial n (r : nat -> R) : (0 < n)%nat ->
  (is_min n r (eminR n r) <->
   forall k, (k < n)%nat -> r k < r 0%nat -> (forall i, (k < i < n)%nat -> r 0%nat <= r i) ->
     forall i, (i < k)%nat -> r k <= r i).
Proof.
  intros Hn. destruct (emin_last n r) as [[E H]|(k & K1 & K2 & K3 & K4)]; split.
  - intros _ k Hk Gk. specialize (H k Hk). lra.
  - intros _. rewrite E. split; eauto.
  - intros [_ M] k' Hk' G' L' i Hi.
    assert (k' = k).
    { destruct (Nat.lt_trichotomy k k') as [A|[A|A]]; auto.
      - specialize (K4 k' ltac:(lia)). lra.
      - specialize (L' k ltac:(lia)). lra. }
    subst k'. rewrite <- K3. apply M. lia.
  - intros H. rewrite K3. split; eauto. intros i Hi.
    destruct (Nat.lt_trichotomy i k) as [A|[A|A]].
    + apply (H k); auto.
    + subst; lra.
    + specialize (K4 i ltac:(lia)). lra.
Qed.

(** With at most two points the maximum and minimum are right. *)
Corollary C09_two_points n (r : nat -> R) : (0 < n <= 2)%nat ->
  is_max n r (emaxR n r) /\ is_min n r (eminR n r).
Proof.
  intros Hn. split; [apply C09_emax_partial|apply C09_emin_partial]; try lia;
    intros k Hk G _ i Hi; assert (i = 0)%nat by lia; subst; lra.
Qed.

(** emean counts the first point twice: it is the mean plus r(0)/n. *)
Theorem C09_emean_partial n (r : nat -> R) : (0 < n)%nat ->
  emeanR n INR r = sum n r / INR n + r 0%nat / INR n /\
  (emeanR n INR r = sum n r / INR n <-> r 0%nat = 0).
Proof.
  intros Hn. assert (N : 0 < INR n) by (apply lt_0_INR; auto).
  assert (E : emeanR n INR r = sum n r / INR n + r 0%nat / INR n).
  { unfold emean_row. cbn [o_add o_div Rops].
    assert (G : forall m a, fold_left (fun a k => a + r k / INR n) (seq 0 m) a = a + sum m r / INR n).
    { induction m as [|m IH]; intros a; [cbn; field; lra|].
      rewrite seq_S, fold_left_app, IH. cbn [fold_left plus sum]. field. lra. }
    rewrite G. ring. }
  split; auto. rewrite E. split; intros H.
  - assert (Z : r 0%nat / INR n = 0) by lra.
    apply Rmult_eq_reg_r with (/ INR n); [|apply Rgt_not_eq, Rinv_0_lt_compat; auto].
    unfold Rdiv in Z. rewrite Z. ring.
  - rewrite H. unfold Rdiv. ring.
Qed.
End C09.
Print Assumptions C09_emax_partial.
Print Assumptions C09_emean_partial.

(** Three points with values 1, 3, 2: emax gives 2, emean of 3, 3, 3 gives 4, through
    the whole pipeline from the text to the delivered value. *)
Definition row132 (e p : nat) : Z := match p with O => 1%Z | S O => 3%Z | _ => 2%Z end.
Theorem C09_reductions_refuted :
  exists Ts, trees [s_ "u"] [s_ "x"] [] [dd "ca" "emax(x)"; dd "cb" "emean(x)"; dd "cc" "emin(0-x)"] = Ok Ts /\
    at_ (zvista 3 Ts (zw row132 0%Z) 0) 0 1 = Some 2%Z /\ row132 0 1 = 3%Z /\
    at_ (zvista 3 Ts (zw (fun _ _ => 3%Z) 0%Z) 1) 0 0 = Some 4%Z /\
    at_ (zvista 3 Ts (zw row132 0%Z) 2) 0 1 = Some (-2)%Z.
Proof. eexists. split; [vm_compute; reflexivity|]. vm_compute. auto. Qed.
Print Assumptions C09_reductions_refuted.
