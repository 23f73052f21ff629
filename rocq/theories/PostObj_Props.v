(** Objectives and their gradients: C98-C103. *)
From Coq Require Import Bool Arith Lia Reals Lra List Permutation.
Import ListNotations.
From Verif Require Import Sparse_Model Mass_Model BProj_Model BProj_Proofs PostObj_Model PostObj_Spec PostObj_Proofs.
Local Open Scope R_scope.

(** ** C98: the reported value, on any partition of the mesh into groups and processes *)
Theorem C98_control o s ranks mesh h p : typ o = IntegratedControl -> ranks <> [] -> Permutation (elements ranks) mesh ->
  report o s ranks h p = in_time h (fun t => weight o * over mesh (density o (states h t) p) + penalties mesh (nscal s) o p).
Proof.
  intros T N P. unfold report, in_time. rewrite T. destruct (Nat.eqb_spec (nrec h) 1) as [E|NE].
  - unfold value_of. rewrite E. cbn [Nat.eqb]. rewrite (contrib_split o s ranks mesh) by assumption.
    rewrite (main_control o s ranks mesh) by assumption. reflexivity.
  - rewrite (value_many o s ranks mesh) by (try assumption; unfold is_sensors; rewrite T; reflexivity).
    apply sm_ext. intros t _. unfold part. rewrite (main_control o s ranks mesh) by assumption. reflexivity.
Qed.
Print Assumptions C98_control.
Theorem C98_discrete o s ranks mesh h p : typ o = DiscreteControl -> ranks <> [] -> Permutation (elements ranks) mesh ->
  report o s ranks h p = in_time h (fun t =>
    weight o * sm (seq 0 (nunk s)) (fun i => (states h t i - dsol s (times h t) i) ^ 2) + penalties mesh (nscal s) o p).
Proof.
  intros T N P. unfold report, in_time. rewrite T. destruct (Nat.eqb_spec (nrec h) 1) as [E|NE].
  - unfold value_of. rewrite E. cbn [Nat.eqb]. rewrite (contrib_split o s ranks mesh) by assumption.
    rewrite (main_discrete o s ranks) by assumption. reflexivity.
  - rewrite (value_many o s ranks mesh) by (try assumption; unfold is_sensors; rewrite T; reflexivity).
    apply sm_ext. intros t _. unfold part. rewrite (main_discrete o s ranks) by assumption. reflexivity.
Qed.
Print Assumptions C98_discrete.
Theorem C98_response o s ranks mesh h p : typ o = IntegratedResponse -> regs o = [] -> ranks <> [] -> Permutation (elements ranks) mesh ->
  report o s ranks h p = weight o * (in_time h (fun t => over mesh (density o (states h t) p)) - target o) ^ 2.
Proof.
  intros T G N P. unfold report, in_time. rewrite T.
  assert (penalties mesh (nscal s) o p = 0) as Z by (unfold penalties; rewrite G; reflexivity).
  enough (value_of o s ranks h p = if (nrec h =? 1)%nat then over mesh (density o (states h 0%nat) p)
    else sm (seq 1 (nrec h - 1)) (fun t => (times h t - times h (t - 1)) * over mesh (density o (states h t) p))) as -> by ring.
  destruct (Nat.eqb_spec (nrec h) 1) as [E|NE].
  - unfold value_of. rewrite E. cbn [Nat.eqb]. rewrite (contrib_split o s ranks mesh) by assumption.
    rewrite (main_response o s ranks mesh) by assumption. lra.
  - rewrite (value_many o s ranks mesh) by (try assumption; unfold is_sensors; rewrite T; reflexivity).
    apply sm_ext. intros t _. unfold part. rewrite (main_response o s ranks mesh) by assumption. rewrite Z. ring.
Qed.
Print Assumptions C98_response.
(** Sensors: every datum whose time is that of a record counts once. *)
Theorem C98_sensors o s ranks obs h p : typ o = Sensors -> regs o = [] -> compute_response s = false -> compute_objective s = true ->
  separated (sensor_times o) -> Permutation (all_sensors ranks) obs ->
  report o s ranks h p = over_steps h (fun t => sm obs (fun q => sm (seq 0 (length (sensor_times o))) (fun i =>
    if Rlt_dec (Rabs (times h t - nth i (sensor_times o) 0)) (1 / 10 ^ 12)
    then weight o * (reading q (states h t) p - s_data q i) ^ 2 else 0))).
Proof.
  intros T G CR CO S P.
  assert (forall t, contrib o s ranks h p t = sm obs (fun q => sm (seq 0 (length (sensor_times o))) (fun i =>
    if Rlt_dec (Rabs (times h t - nth i (sensor_times o) 0)) (1 / 10 ^ 12)
    then weight o * (reading q (states h t) p - s_data q i) ^ 2 else 0))) as E.
  { intros t. unfold contrib, proc_value, main_value. rewrite T, G, CR, CO.
    rewrite reduce_add, reduce_same, (sm_sensors ranks), (sm_perm _ _ _ P).
    replace (reduce ranks (fun root pr => sm [] (reg_value root s pr p))) with 0 by (rewrite reduce_sm; reflexivity).
    rewrite Rplus_0_r. apply sm_ext. intros q _.
    etransitivity; [|symmetry; exact (find_time_separated (sensor_times o) (times h t) (fun i => weight o * (reading q (states h t) p - s_data q i) ^ 2)
      (fun i => Rlt_dec (Rabs (times h t - nth i (sensor_times o) 0)) (1 / 10 ^ 12)) S)].
    destruct (find_time 0 (sensor_times o) (times h t)) as [i|]; cbn [is_some orb]; [|reflexivity].
    unfold reading. change (pars_at p (s_elem q)) with {| disc := fun k => disc p (plid (s_elem q) k); scal := scal p |}.
    change (at_elem (states h t) (lid (s_elem q))) with (fun k => states h t (lid (s_elem q) k)). ring. }
  unfold report, over_steps, value_of, is_sensors. rewrite T. destruct (nrec h =? 1)%nat; [apply E|].
  apply sm_ext. intros t _. apply E.
Qed.
Print Assumptions C98_sensors.

(** ** C99: the gradient by the state *)
Theorem C99_state o s ranks h p k v :
  ranks <> [] -> numbered (nunk s) (npar s) ranks -> counted h k ->
  diff_state o -> diff_sensors ranks ->
  (typ o = Sensors -> compute_response s = false /\ compute_objective s = true) ->
  derivable_pt_lim (fun x => report o s ranks (moved h k v x) p) 0
    (- sm (seq 0 (nunk s)) (fun i => grad_state o s ranks h p (states h k) (times h k) i * v i)).
Proof.
  intros N [L LS] C A AS SO.
  assert (forall e, In e (elements ranks) -> forall j, (j < ndof e)%nat -> (lid e j < nunk s)%nat) as L'
    by (intros e E; apply (L e E)).
  set (u := states h k). set (dt := dt_at h (times h k)).
  unfold report, grad_state. destruct (typ o) eqn:T.
  - (* integrated control *)
    apply (d_val _ _ (dt * (weight o * over (elements ranks) (slope o u p v)))).
    { rewrite (sm_ext _ _ (fun i => dt * (gather_add ranks (fun e k0 => sm (seq 0 (npt e)) (fun pt =>
        - weight o * dfu o (at_elem u (lid e)) (pars_at p e) e pt k0 * wt e pt)) i * v i))) by (intros; unfold dt; ring).
      rewrite sm_scal, (pair_slope (nunk s) ranks o u p v (- weight o)) by (try assumption; reflexivity). ring. }
    pose proof (d_value o s ranks h k v p (weight o * over (elements ranks) (slope o u p v)) C) as K.
    unfold is_sensors in K. rewrite T in K. apply K. clear K.
    apply (d_ext (fun x => weight o * over (elements ranks) (density o (fun i => u i + x * v i) p))).
    { intros x. symmetry. apply main_control; [exact T|reflexivity]. }
    apply d_scal. apply (d_over (elements ranks) (fun x => density o (fun i => u i + x * v i) p)). intros e x _. apply d_density. exact A.
  - (* discrete control *)
    set (D := weight o * sm (seq 0 (nunk s)) (fun i => 2 * (u i - dsol s (times h k) i) * v i)).
    apply (d_val _ _ (dt * D)).
    { rewrite (sm_ext _ _ (fun i => (- dt * weight o) * (2 * (u i - dsol s (times h k) i) * v i))) by (intros; unfold dt; ring).
      rewrite sm_scal. unfold D. ring. }
    pose proof (d_value o s ranks h k v p D C) as K. unfold is_sensors in K. rewrite T in K. apply K. clear K.
    apply (d_ext (fun x => weight o * sm (seq 0 (nunk s)) (fun i => (u i + x * v i - dsol s (times h k) i) ^ 2))).
    { intros x. symmetry. apply main_discrete; [exact T|exact N]. }
    apply d_scal. apply (d_sm _ (fun i x => (u i + x * v i - dsol s (times h k) i) ^ 2)). intros i _.
    apply (d_ext (fun x => (v i * x + (u i - dsol s (times h k) i)) * (v i * x + (u i - dsol s (times h k) i)))); [intros; ring|].
    apply (d_val _ _ (v i * (v i * 0 + (u i - dsol s (times h k) i)) + (v i * 0 + (u i - dsol s (times h k) i)) * v i)); [ring|].
    apply (d_sq (fun x => v i * x + (u i - dsol s (times h k) i))). apply d_const_minus.
    apply (d_val _ _ (v i * 1)); [ring|]. apply (d_scal (v i) (fun x => x)). apply derivable_pt_lim_id.
  - (* integrated response *)
    set (V := value_of o s ranks h p - target o). set (D := over (elements ranks) (slope o u p v)).
    assert (derivable_pt_lim (fun x => value_of o s ranks (moved h k v x) p) 0 (dt * D)) as K.
    { pose proof (d_value o s ranks h k v p D C) as K. unfold is_sensors in K. rewrite T in K. apply K. clear K.
      apply (d_ext (fun x => over (elements ranks) (density o (fun i => u i + x * v i) p))).
      { intros x. symmetry. apply main_response; [exact T|reflexivity]. }
      apply (d_over (elements ranks) (fun x => density o (fun i => u i + x * v i) p)). intros e x _. apply d_density. exact A. }
    assert (value_of o s ranks (moved h k v 0) p = value_of o s ranks h p) as Z.
    { assert (forall t, contrib o s ranks (moved h k v 0) p t = contrib o s ranks h p t) as E.
      { intros t. rewrite !contrib_part. f_equal. unfold part. rewrite !(main_response o s ranks (elements ranks)) by (try assumption; reflexivity).
        unfold over, density. apply sm_ext. intros e _. apply sm_ext. intros x _. f_equal. f_equal.
        apply FunctionalExtensionality.functional_extensionality. intros j. cbn [states moved]. destruct (t =? k)%nat; ring. }
      unfold value_of. cbn [nrec moved times]. destruct (nrec h =? 1)%nat; [apply E|].
      apply sm_ext. intros t _. rewrite E. reflexivity. }
    apply (d_val _ _ (weight o * (dt * D * V + V * (dt * D)))).
    { rewrite (sm_ext _ _ (fun i => (dt * (2 * weight o * V)) * (gather_add ranks (fun e k0 => sm (seq 0 (npt e)) (fun pt =>
        - (dfu o (at_elem u (lid e)) (pars_at p e) e pt k0 * wt e pt))) i * v i))) by (intros; unfold dt, V; ring).
      rewrite sm_scal, (pair_slope (nunk s) ranks o u p v (- 1)); [unfold D; ring|exact L'|].
      intros e j. apply sm_ext. intros x _. ring. }
    apply (d_ext (fun x => weight o * ((value_of o s ranks (moved h k v x) p - target o) * (value_of o s ranks (moved h k v x) p - target o)))); [intros; ring|].
    apply d_scal. unfold V. rewrite <- Z. apply (d_sq (fun x => value_of o s ranks (moved h k v x) p - target o)). apply d_minus_const. exact K.
  - (* sensors *)
    destruct (SO eq_refl) as [CR CO].
    set (D := sm (all_sensors ranks) (fun q => match find_time 0 (sensor_times o) (times h k) with
      | Some t => let ul := at_elem u (lid (s_elem q)) in let pl := pars_at p (s_elem q) in let diff := resp q ul pl - s_data q t in
                  weight o * ((sm (seq 0 (ndof (s_elem q))) (fun j => dresp q ul pl j * v (lid (s_elem q) j))) * diff
                              + diff * (sm (seq 0 (ndof (s_elem q))) (fun j => dresp q ul pl j * v (lid (s_elem q) j))))
      | None => 0 end)).
    apply (d_val _ _ (1 * D)).
    { rewrite (sm_ext _ _ (fun i => sm (all_sensors ranks) (fun q =>
        match find_time 0 (sensor_times o) (times h k) with
        | Some t => let ul := at_elem u (lid (s_elem q)) in
                    let pl := pars_at p (s_elem q) in
                    let diff := resp q ul pl - s_data q t in
                    sm (seq 0 (ndof (s_elem q))) (fun k => if (lid (s_elem q) k =? i)%nat
                      then - (weight o * (dresp q ul pl k * diff + diff * dresp q ul pl k)) else 0)
        | None => 0 end) * v i)) by (intros; rewrite sm_sensors; reflexivity).
      rewrite pair_sum. unfold D. rewrite Rmult_1_l. rewrite <- (Ropp_involutive (sm (all_sensors ranks) _)). f_equal.
      rewrite <- (Rmult_1_l (sm (all_sensors ranks) _)), Ropp_mult_distr_l, <- sm_scal. apply sm_ext. intros q Q.
      destruct (find_time 0 (sensor_times o) (times h k)) as [t|].
      - cbv zeta. rewrite pair_local by (apply LS; exact Q).
        set (d := resp q (at_elem u (lid (s_elem q))) (pars_at p (s_elem q)) - s_data q t).
        symmetry. rewrite (sm_ext _ _ (fun j => (- 2 * weight o * d) * (dresp q (at_elem u (lid (s_elem q))) (pars_at p (s_elem q)) j * v (lid (s_elem q) j)))) by (intros; ring).
        rewrite sm_scal. ring.
      - rewrite sm_zero by (intros; ring). ring. }
    pose proof (d_value o s ranks h k v p D C) as K. unfold is_sensors in K. rewrite T in K. apply K. clear K.
    apply (d_ext (fun x => sm (all_sensors ranks) (fun q => match find_time 0 (sensor_times o) (times h k) with
      | Some t => weight o * ((resp q (fun j => u (lid (s_elem q) j) + x * v (lid (s_elem q) j)) (pars_at p (s_elem q)) - s_data q t) *
                              (resp q (fun j => u (lid (s_elem q) j) + x * v (lid (s_elem q) j)) (pars_at p (s_elem q)) - s_data q t))
      | None => 0 end))).
    { intros x. unfold part, main_value. rewrite T, CR, CO. rewrite (reduce_same ranks), (sm_sensors ranks). apply sm_ext. intros q _.
      destruct (find_time 0 (sensor_times o) (times h k)); cbn [is_some orb]; [|reflexivity].
      change (at_elem (fun i => states h k i + x * v i) (lid (s_elem q))) with (fun j => u (lid (s_elem q) j) + x * v (lid (s_elem q) j)). ring. }
    apply (d_sm (all_sensors ranks) (fun q x => match find_time 0 (sensor_times o) (times h k) with
      | Some t => weight o * ((resp q (fun j => u (lid (s_elem q) j) + x * v (lid (s_elem q) j)) (pars_at p (s_elem q)) - s_data q t) *
                              (resp q (fun j => u (lid (s_elem q) j) + x * v (lid (s_elem q) j)) (pars_at p (s_elem q)) - s_data q t))
      | None => 0 end)). intros q Q.
    destruct (find_time 0 (sensor_times o) (times h k)) as [t|]; [|apply derivable_pt_lim_const]. cbv zeta. apply d_scal.
    set (r := fun x => resp q (fun j => u (lid (s_elem q) j) + x * v (lid (s_elem q) j)) (pars_at p (s_elem q)) - s_data q t).
    assert (r 0 = resp q (at_elem u (lid (s_elem q))) (pars_at p (s_elem q)) - s_data q t) as <-.
    { unfold r. f_equal. f_equal. apply FunctionalExtensionality.functional_extensionality. intros j. unfold at_elem. ring. }
    apply (d_sq r). apply d_minus_const. exact (AS q Q (at_elem u (lid (s_elem q))) (pars_at p (s_elem q)) (fun j => v (lid (s_elem q) j))).
Qed.
Print Assumptions C99_state.

(** ** C100: regularizations and response output *)
Definition unregularized (o : objective) : objective :=
  {| typ := typ o; weight := weight o; target := target o; func := func o; dfu := dfu o; dfp := dfp o; dfs := dfs o;
     sensor_times := sensor_times o; regs := [] |}.
Definition with_output (s : setup) (b : bool) : setup :=
  {| nunk := nunk s; npar := npar s; nscal := nscal s; dsol := dsol s; compute_response := b; compute_objective := compute_objective s |}.
(** A regularization adds its term, integrated in time: for control objectives. *)
Theorem C100_regularization_partial o s ranks mesh h p : typ o = IntegratedControl \/ typ o = DiscreteControl ->
  ranks <> [] -> Permutation (elements ranks) mesh ->
  report o s ranks h p = report (unregularized o) s ranks h p + in_time h (fun _ => penalties mesh (nscal s) o p).
Proof.
  intros T N P. assert (forall a b, in_time h (fun t => a t + b t) = in_time h a + in_time h b) as LIN.
  { intros a b. unfold in_time. destruct (nrec h =? 1)%nat; [reflexivity|]. rewrite <- sm_add. apply sm_ext. intros; ring. }
  destruct T as [T|T].
  - rewrite (C98_control o s ranks mesh), (C98_control (unregularized o) s ranks mesh), <- LIN by assumption.
    change (penalties mesh (nscal s) (unregularized o) p) with 0. change (density (unregularized o)) with (density o).
    change (weight (unregularized o)) with (weight o).
    unfold in_time. destruct (nrec h =? 1)%nat; [ring|]. apply sm_ext. intros t _. ring.
  - rewrite (C98_discrete o s ranks mesh), (C98_discrete (unregularized o) s ranks mesh), <- LIN by assumption.
    change (penalties mesh (nscal s) (unregularized o) p) with 0. change (weight (unregularized o)) with (weight o).
    unfold in_time. destruct (nrec h =? 1)%nat; [ring|]. apply sm_ext. intros t _. ring.
Qed.
Print Assumptions C100_regularization_partial.
(** Writing the responses changes no value when every record has data. *)
Theorem C100_output_partial o s ranks h p b :
  (typ o = Sensors -> forall t, (t < nrec h)%nat -> exists i, (i < length (sensor_times o))%nat /\ simultaneous (sensor_times o) (times h t) i) ->
  (0 < nrec h)%nat ->
  report o (with_output s b) ranks h p = report o s ranks h p.
Proof.
  intros H NR.
  assert (forall t, (t < nrec h)%nat -> contrib o (with_output s b) ranks h p t = contrib o s ranks h p t) as E.
  { intros t TL. rewrite !contrib_part. f_equal. unfold part, main_value. cbn [nunk dsol compute_response compute_objective with_output].
    destruct (typ o) eqn:T; try reflexivity. destruct (H eq_refl t TL) as [i [I S]].
    destruct (find_time 0 (sensor_times o) (times h t)) as [j|] eqn:F; [|elim (find_time_none _ _ _ F i I S)].
    cbn [is_some]. rewrite !orb_true_r. reflexivity. }
  unfold report. assert (value_of o (with_output s b) ranks h p = value_of o s ranks h p) as ->; [|reflexivity].
  unfold value_of. destruct (Nat.eqb_spec (nrec h) 1) as [E1|NE]; [apply E; lia|].
  apply sm_ext. intros t T. apply in_seq in T. rewrite E by lia. reflexivity.
Qed.
Print Assumptions C100_output_partial.

(** A one-element problem. *)
Definition cell (a b : nat) : melem := {| npt := 1; wt := fun _ => 1; ndof := 1; lid := fun _ => a; npdof := 1; plid := fun _ => b |}.
Definition psum (p : pars) (e : melem) : R := sm (seq 0 (npdof e)) (disc p).
Definition usum (u : nat -> R) (e : melem) : R := sm (seq 0 (ndof e)) u.
Definition gauge (e : melem) : sensor :=
  {| s_elem := e; resp := fun u _ => usum u e; dresp := fun _ _ _ => 1; drespp := fun _ _ _ => 0; s_data := fun _ => 0 |}.
Definition pgauge (e : melem) : sensor :=
  {| s_elem := e; resp := fun _ p => psum p e; dresp := fun _ _ _ => 0; drespp := fun _ _ _ => 1; s_data := fun _ => 0 |}.
Definition volume_reg : reg := Integrated 1 (fun p e _ => psum p e) (fun _ _ _ _ => 1).
Definition sample_obj (ty : otype) (rs : list reg) : objective :=
  {| typ := ty; weight := 1; target := 0; func := fun u p e _ => usum u e + psum p e;
     dfu := fun _ _ _ _ _ => 1; dfp := fun _ _ _ _ _ => 1; dfs := fun _ _ _ _ _ => 0; sensor_times := [1]; regs := rs |}.
Definition sample_setup : setup :=
  {| nunk := 2; npar := 2; nscal := 1; dsol := fun _ _ => 0; compute_response := false; compute_objective := true |}.
Definition sample_pars : pars := {| disc := fun _ => 1; scal := fun _ => 1 |}.
(** Records at 0, [a], 2[a], ...; the state at each is 1. *)
Definition sample_run (n : nat) (a : R) : history := {| nrec := n; times := fun t => INR t * a; states := fun _ _ => 1 |}.

Lemma d_linear (f : R -> R) a b : (forall x, f x = a + b * x) -> derivable_pt_lim f 0 b.
Proof.
  intros E. apply (d_ext (fun x => b * x + a)); [intros; rewrite E; ring|]. apply d_const_minus.
  apply (d_val _ _ (b * 1)); [ring|]. apply (d_scal b (fun x => x)). apply derivable_pt_lim_id.
Qed.
Lemma diff_usum u v n : derivable_pt_lim (fun s => sm (seq 0 n) (fun k => u k + s * v k)) 0 (sm (seq 0 n) (fun k => 1 * v k)).
Proof. apply (d_sm (seq 0 n) (fun k s => u k + s * v k)). intros k _. apply (d_linear _ (u k)). intros; ring. Qed.
Example sample_diff ty rs : diff_state (sample_obj ty rs) /\ diff_disc (sample_obj ty rs) /\ diff_sensors [{| groups := []; sensors := [gauge (cell 0 0)] |}]
  /\ ((forall g, In g rs -> g = volume_reg) -> diff_regs (sample_obj ty rs)).
Proof.
  repeat split.
  - intros u p e x v. cbn [func sample_obj dfu]. apply d_const_minus. apply diff_usum.
  - intros u p e x v. cbn [func sample_obj dfp]. apply (d_ext (fun s => psum {| disc := fun k => disc p k + s * v k; scal := scal p |} e + usum u e)); [intros; ring|].
    apply d_const_minus. apply diff_usum.
  - intros q [<-|[]] u p v. cbn [resp gauge dresp s_elem]. apply diff_usum.
  - intros H w rf drf I p e x v. cbn [regs sample_obj] in I. apply H in I. injection I as -> -> ->. apply diff_usum.
Qed.

Ltac ev := cbn; unfold proc_value, main_value, at_elem; cbn; unfold at_elem; cbn.

(** An integrated response takes the regularization into its square. *)
Theorem C100_regularization_refuted : exists o s ranks h p,
  typ o = IntegratedResponse /\ ranks <> [] /\
  report o s ranks h p <> report (unregularized o) s ranks h p + in_time h (fun _ => penalties (elements ranks) (nscal s) o p).
Proof.
  exists (sample_obj IntegratedResponse [volume_reg]), sample_setup, [{| groups := [[cell 0 0]]; sensors := [] |}], (sample_run 1 0), sample_pars.
  split; [reflexivity|]. split; [discriminate|]. ev. lra.
Qed.
Print Assumptions C100_regularization_refuted.
(** Asking for responses adds misfits at times that have no data. *)
Theorem C100_output_refuted : exists o s ranks h p, typ o = Sensors /\ regs o = [] /\ separated (sensor_times o) /\
  report o (with_output s true) ranks h p <> report o (with_output s false) ranks h p.
Proof.
  exists (sample_obj Sensors []), sample_setup, [{| groups := []; sensors := [gauge (cell 0 0)] |}], (sample_run 3 1), sample_pars.
  split; [reflexivity|]. split; [reflexivity|]. split.
  - intros i j I J NE. cbn [sensor_times sample_obj length] in I, J. lia.
  - ev.
    destruct (Rlt_dec (Rabs (1 * 1 - 1)) _) as [_|A].
    2:{ elim A. replace (1 * 1 - 1) with 0 by ring. rewrite Rabs_R0. lra. }
    destruct (Rlt_dec (Rabs ((1 + 1) * 1 - 1)) _) as [A|_].
    { exfalso. replace ((1 + 1) * 1 - 1) with 1 in A by ring. rewrite Rabs_R1 in A. lra. }
    cbn. lra.
Qed.
Print Assumptions C100_output_refuted.

(** ** C101: the gradient of the regularizations by the discretized parameters *)
(** For a discrete control objective, whose misfit has no parameter in it. *)
Theorem C101_regularization_partial o s ranks h p v : typ o = DiscreteControl -> ranks <> [] -> (1 < nrec h)%nat ->
  numbered (nunk s) (npar s) ranks -> diff_regs o ->
  derivable_pt_lim (fun x => report o s ranks h (moved_disc p v x)) 0 (sm (seq 0 (npar s)) (fun i => grad_param o s ranks h p i * v i)).
Proof.
  intros T N M [L _] A.
  set (D := sm (regs o) (fun g => match g with
       | Integrated w _ drf => w * over (elements ranks) (fun e x => sm (seq 0 (npdof e)) (fun k => drf (pars_at p e) e x k * v (plid e k)))
       | L2Norm _ => 0 end)).
  apply (d_ext (fun x => sm (seq 1 (nrec h - 1)) (fun t => (times h t - times h (t - 1)) *
    (penalties (elements ranks) (nscal s) o (moved_disc p v x) + weight o * sm (seq 0 (nunk s)) (fun i => (states h t i - dsol s (times h t) i) ^ 2))))).
  { intros x. rewrite (C98_discrete o s ranks (elements ranks)) by (try assumption; reflexivity). unfold in_time.
    destruct (Nat.eqb_spec (nrec h) 1); [lia|]. apply sm_ext. intros t _. ring. }
  apply (d_val _ _ (sm (seq 1 (nrec h - 1)) (fun t => (times h t - times h (t - 1)) * D))).
  { unfold grad_param. rewrite pair_sum. apply sm_ext. intros t _.
    rewrite (sm_ext (seq 0 (npar s)) _ (fun i => grad_param_reg o ranks p (times h t - times h (t - 1)) i * v i)).
    - rewrite pair_reg by (intros e E; apply (L e E)). reflexivity.
    - intros i _. unfold grad_param_main. rewrite T. ring. }
  apply (d_sm _ (fun t x => (times h t - times h (t - 1)) * (penalties (elements ranks) (nscal s) o (moved_disc p v x) +
    weight o * sm (seq 0 (nunk s)) (fun i => (states h t i - dsol s (times h t) i) ^ 2)))).
  intros t _. apply d_scal. apply d_const_minus. apply d_penalties_disc. exact A.
Qed.
Print Assumptions C101_regularization_partial.
(** For sensors the value takes the term once a record, the gradient once a unit of time. *)
Theorem C101_regularization_refuted : exists o s ranks h p v D, typ o = Sensors /\ ranks <> [] /\ (1 < nrec h)%nat /\
  numbered (nunk s) (npar s) ranks /\ diff_regs o /\ (forall e u q x w, func o u (moved_disc q w x) e = func o u q e) /\
  derivable_pt_lim (fun x => report o s ranks h (moved_disc p v x)) 0 D /\
  D <> sm (seq 0 (npar s)) (fun i => grad_param o s ranks h p i * v i).
Proof.
  exists {| typ := Sensors; weight := 1; target := 0; func := fun u _ e _ => usum u e; dfu := fun _ _ _ _ _ => 1; dfp := fun _ _ _ _ _ => 0;
            dfs := fun _ _ _ _ _ => 0; sensor_times := []; regs := [volume_reg] |},
    sample_setup, [{| groups := [[cell 0 0]]; sensors := [] |}], (sample_run 2 2), sample_pars, (fun _ => 1), 1.
  split; [reflexivity|]. split; [discriminate|]. split; [cbn; lia|]. split.
  { split; [|intros q []]. intros e [<-|[]]. cbn. split; intros; lia. }
  split; [|split; [reflexivity|split]].
  - intros w rf drf [I|[]] q e x z. injection I as <- <- <-. apply diff_usum.
  - apply (d_linear _ 1). intros x. ev. ring.
  - ev. unfold grad_param_main. cbn. lra.
Qed.
Print Assumptions C101_regularization_refuted.

(** ** C102: the gradient of an objective that contains the discretized parameters *)
(** Integrated control, when no group has two elements. *)
Theorem C102_control_partial o s ranks h p v : typ o = IntegratedControl -> ranks <> [] -> (1 < nrec h)%nat ->
  numbered (nunk s) (npar s) ranks -> diff_disc o -> diff_regs o ->
  (forall pr g, In pr ranks -> In g (groups pr) -> (length g <= 1)%nat) ->
  derivable_pt_lim (fun x => report o s ranks h (moved_disc p v x)) 0 (sm (seq 0 (npar s)) (fun i => grad_param o s ranks h p i * v i)).
Proof.
  intros T N M [L _] A AR G1.
  set (D := sm (regs o) (fun g => match g with
       | Integrated w _ drf => w * over (elements ranks) (fun e x => sm (seq 0 (npdof e)) (fun k => drf (pars_at p e) e x k * v (plid e k)))
       | L2Norm _ => 0 end)).
  set (S := fun t e x => sm (seq 0 (npdof e)) (fun k => dfp o (at_elem (states h t) (lid e)) (pars_at p e) e x k * v (plid e k))).
  apply (d_ext (fun x => sm (seq 1 (nrec h - 1)) (fun t => (times h t - times h (t - 1)) *
    (weight o * over (elements ranks) (density o (states h t) (moved_disc p v x)) + penalties (elements ranks) (nscal s) o (moved_disc p v x))))).
  { intros x. rewrite (C98_control o s ranks (elements ranks)) by (try assumption; reflexivity). unfold in_time.
    destruct (Nat.eqb_spec (nrec h) 1); [lia|]. reflexivity. }
  apply (d_val _ _ (sm (seq 1 (nrec h - 1)) (fun t => (times h t - times h (t - 1)) * (weight o * over (elements ranks) (S t) + D)))).
  { unfold grad_param. rewrite pair_sum. apply sm_ext. intros t _. set (dt := times h t - times h (t - 1)).
    rewrite (sm_ext (seq 0 (npar s)) _ (fun i => grad_param_main o s ranks h p (states h t) (times h (t - 1)) dt i * v i + grad_param_reg o ranks p dt i * v i))
      by (intros; unfold dt; ring).
    rewrite sm_add, pair_reg by (intros e E; apply (L e E)). fold D. rewrite Rmult_plus_distr_l. f_equal.
    unfold grad_param_main. rewrite T.
    rewrite (sm_ext (seq 0 (npar s)) _ (fun i => dt * (sm (elements ranks) (fun e => sm (seq 0 (npdof e)) (fun k => if (plid e k =? i)%nat then
       weight o * sm (seq 0 (npt e)) (fun pt => dfp o (at_elem (states h t) (lid e)) (pars_at p e) e pt k * wt e pt) else 0)) * v i))).
    { rewrite sm_scal. f_equal. rewrite pair_sum. unfold over. rewrite <- sm_scal. apply sm_ext. intros e E.
      rewrite pair_local by (apply (L e E)). unfold S.
      rewrite (sm_ext (seq 0 (npt e)) _ (fun x => sm (seq 0 (npdof e)) (fun k => wt e x * (dfp o (at_elem (states h t) (lid e)) (pars_at p e) e x k * v (plid e k)))))
        by (intros; symmetry; apply sm_scal).
      rewrite sm_swap, <- sm_scal. apply sm_ext. intros k _. rewrite <- !sm_scal, <- sm_scal_r. apply sm_ext. intros x _. ring. }
    intros i _. rewrite <- sm_elements.
    match goal with |- ?a * dt * v i = dt * (?b * v i) => enough (a = b) as -> by ring end.
    apply sm_ext. intros pr PR. apply sm_ext. intros g GR. specialize (G1 pr g PR GR).
    destruct g as [|e [|e' g]]; [reflexivity| |cbn in G1; lia]. apply sm_ext. intros e0 [<-|[]]. apply sm_ext. intros k _.
    destruct (plid e k =? i)%nat; [|reflexivity]. f_equal. rewrite sm_cons. apply Rplus_0_r. }
  apply (d_sm _ (fun t x => (times h t - times h (t - 1)) * (weight o * over (elements ranks) (density o (states h t) (moved_disc p v x)) +
    penalties (elements ranks) (nscal s) o (moved_disc p v x)))).
  intros t _. apply d_scal.
  apply (derivable_pt_lim_plus (fun x => weight o * over (elements ranks) (density o (states h t) (moved_disc p v x)))
    (fun x => penalties (elements ranks) (nscal s) o (moved_disc p v x))).
  - apply d_scal. apply (d_over (elements ranks) (fun x => density o (states h t) (moved_disc p v x))). intros e x _.
    exact (A (at_elem (states h t) (lid e)) (pars_at p e) e x (fun k => v (plid e k))).
  - apply d_penalties_disc. exact AR.
Qed.
Print Assumptions C102_control_partial.
(** Two elements in a group: each is given the derivative of both. *)
Theorem C102_groups_refuted : exists o s ranks h p v D, typ o = IntegratedControl /\ ranks <> [] /\ (1 < nrec h)%nat /\
  numbered (nunk s) (npar s) ranks /\ diff_disc o /\ regs o = [] /\
  derivable_pt_lim (fun x => report o s ranks h (moved_disc p v x)) 0 D /\
  D <> sm (seq 0 (npar s)) (fun i => grad_param o s ranks h p i * v i).
Proof.
  exists (sample_obj IntegratedControl []), sample_setup, [{| groups := [[cell 0 0; cell 1 1]]; sensors := [] |}], (sample_run 2 1), sample_pars, (fun _ => 1), 2.
  split; [reflexivity|]. split; [discriminate|]. split; [cbn; lia|]. split.
  { split; [|intros q []]. intros e [<-|[<-|[]]]; cbn; split; intros; lia. }
  split; [apply sample_diff|]. split; [reflexivity|]. split.
  - apply (d_linear _ 4). intros x. ev. ring.
  - ev. unfold grad_param_main, grad_param_reg. cbn. lra.
Qed.
Print Assumptions C102_groups_refuted.
(** Sensors: when every step is compared with data that stay the same. *)
Theorem C102_sensors_partial o s ranks h p v : typ o = Sensors -> regs o = [] -> ranks <> [] -> (1 < nrec h)%nat ->
  compute_response s = true -> compute_objective s = true ->
  (forall q, In q (all_sensors ranks) -> (forall k, (k < npdof (s_elem q))%nat -> (plid (s_elem q) k < npar s)%nat) /\
     (forall t, s_data q t = s_data q 0%nat) /\
     forall u a w, derivable_pt_lim (fun x => resp q u (moved_disc a w x)) 0 (sm (seq 0 (npdof (s_elem q))) (fun k => drespp q u a k * w k))) ->
  derivable_pt_lim (fun x => report o s ranks h (moved_disc p v x)) 0 (sm (seq 0 (npar s)) (fun i => grad_param o s ranks h p i * v i)).
Proof.
  intros T G N M CR CO H.
  set (r := fun t q x => resp q (at_elem (states h t) (lid (s_elem q))) (pars_at (moved_disc p v x) (s_elem q)) - s_data q 0%nat).
  set (d := fun t q => sm (seq 0 (npdof (s_elem q))) (fun k => drespp q (at_elem (states h t) (lid (s_elem q))) (pars_at p (s_elem q)) k * v (plid (s_elem q) k))).
  apply (d_ext (fun x => sm (seq 1 (nrec h - 1)) (fun t => sm (all_sensors ranks) (fun q => weight o * (r t q x * r t q x))))).
  { intros x. unfold report, value_of. rewrite T. destruct (Nat.eqb_spec (nrec h) 1); [lia|].
    unfold is_sensors. rewrite T. apply sm_ext. intros t _. rewrite contrib_part. unfold part.
    rewrite G. cbn [sm map rsum fold_right]. rewrite (reduce_same ranks (fun _ => 0)), (sm_zero ranks) by reflexivity. rewrite Rplus_0_r.
    unfold main_value. rewrite T, CR, CO. rewrite (reduce_same ranks), (sm_sensors ranks). apply sm_ext. intros q Q.
    destruct (H q Q) as [_ [DT _]]. cbn [orb]. rewrite DT. unfold r. ring. }
  assert (forall t q, r t q 0 = resp q (at_elem (states h t) (lid (s_elem q))) (pars_at p (s_elem q)) - s_data q 0%nat) as R0.
  { intros t q. unfold r. do 2 f_equal. unfold pars_at, at_elem, moved_disc. cbn. f_equal.
    apply FunctionalExtensionality.functional_extensionality. intros j. ring. }
  apply (d_val _ _ (sm (seq 1 (nrec h - 1)) (fun t => sm (all_sensors ranks) (fun q => weight o * (d t q * r t q 0 + r t q 0 * d t q))))).
  { unfold grad_param. rewrite pair_sum. apply sm_ext. intros t _.
    rewrite (sm_ext (seq 0 (npar s)) _ (fun i => sm (all_sensors ranks) (fun q => sm (seq 0 (npdof (s_elem q))) (fun k => if (plid (s_elem q) k =? i)%nat
      then 2 * weight o * r t q 0 * drespp q (at_elem (states h t) (lid (s_elem q))) (pars_at p (s_elem q)) k else 0)) * v i)).
    - rewrite pair_sum. apply sm_ext. intros q Q. destruct (H q Q) as [L _]. rewrite pair_local by exact L.
      rewrite (sm_ext _ _ (fun k => (2 * weight o * r t q 0) * (drespp q (at_elem (states h t) (lid (s_elem q))) (pars_at p (s_elem q)) k * v (plid (s_elem q) k)))) by (intros; ring).
      rewrite sm_scal. fold (d t q). ring.
    - intros i _. f_equal. unfold grad_param_reg. rewrite G. cbn [sm map rsum fold_right]. rewrite (sm_zero ranks (fun _ => 0)) by reflexivity.
      rewrite Rplus_0_r. unfold grad_param_main. rewrite T, CR, CO. cbn [orb andb]. rewrite (sm_sensors ranks). apply sm_ext. intros q Q.
      destruct (H q Q) as [_ [DT _]]. apply sm_ext. intros k _. destruct (plid (s_elem q) k =? i)%nat; [|reflexivity]. rewrite DT, R0. ring. }
  apply (d_sm _ (fun t x => sm (all_sensors ranks) (fun q => weight o * (r t q x * r t q x)))). intros t _.
  apply (d_sm _ (fun q x => weight o * (r t q x * r t q x))). intros q Q. destruct (H q Q) as [_ [_ DR]].
  apply d_scal. apply (d_sq (r t q)). apply d_minus_const.
  exact (DR (at_elem (states h t) (lid (s_elem q))) (pars_at p (s_elem q)) (fun j => v (plid (s_elem q) j))).
Qed.
Print Assumptions C102_sensors_partial.
(** Two sensors reading a parameter, compared with zero at both ends of two steps. *)
Example C102_sensors_case : let ranks := [{| groups := []; sensors := [pgauge (cell 0 0); pgauge (cell 0 1)] |}] in
  derivable_pt_lim (fun x => report (sample_obj Sensors []) (with_output sample_setup true) ranks (sample_run 3 1) (moved_disc sample_pars (fun _ => 1) x)) 0 8.
Proof.
  intros ranks. apply (d_val _ _ (sm (seq 0 (npar (with_output sample_setup true))) (fun i => grad_param (sample_obj Sensors []) (with_output sample_setup true) ranks (sample_run 3 1) sample_pars i * 1))).
  - unfold ranks, grad_param, grad_param_main, grad_param_reg, sm. cbn. unfold psum, sm. cbn. lra.
  - apply C102_sensors_partial; try reflexivity; [discriminate|cbn; lia|].
    intros q [<-|[<-|[]]]; (split; [cbn; intros; lia|split; [reflexivity|]]); intros u a w; cbn; unfold psum; cbn [npdof cell];
      apply (d_linear _ (disc a 0%nat)); intros x; unfold sm; cbn; ring.
Qed.
(** Sensors: the parameter gradient looks for data at the start of the step. *)
Theorem C102_times_refuted : exists o s ranks h p v D, typ o = Sensors /\ ranks <> [] /\ (1 < nrec h)%nat /\
  regs o = [] /\ separated (sensor_times o) /\
  (forall q, In q (all_sensors ranks) -> forall u a w,
     derivable_pt_lim (fun x => resp q u (moved_disc a w x)) 0 (sm (seq 0 (npdof (s_elem q))) (fun k => drespp q u a k * w k))) /\
  derivable_pt_lim (fun x => report o s ranks h (moved_disc p v x)) 0 D /\
  D <> sm (seq 0 (npar s)) (fun i => grad_param o s ranks h p i * v i).
Proof.
  exists (sample_obj Sensors []), sample_setup, [{| groups := []; sensors := [pgauge (cell 0 0)] |}], (sample_run 2 1), sample_pars, (fun _ => 1), 2.
  split; [reflexivity|]. split; [discriminate|]. split; [cbn; lia|]. split; [reflexivity|]. split.
  { intros i j I J NE. cbn [sensor_times sample_obj length] in I, J. lia. }
  split; [|split].
  - intros q [<-|[]] u a w. cbn [resp pgauge drespp s_elem]. apply diff_usum.
  - apply (d_ext (fun x => (1 + x) * (1 + x))).
    + intros x. ev. destruct (Rlt_dec _ _) as [_|A]; [cbn; ring|].
      elim A. replace (1 * 1 - 1) with 0 by ring. rewrite Rabs_R0. lra.
    + apply (d_val _ _ (1 * (1 + 0) + (1 + 0) * 1)); [ring|]. apply (d_sq (fun x => 1 + x)). apply (d_linear _ 1). intros; ring.
  - ev. unfold grad_param_main, grad_param_reg. cbn. destruct (Rlt_dec _ _) as [A|_]; [|cbn; lra].
    exfalso. replace (0 * 1 - 1) with (- (1)) in A by ring. rewrite Rabs_Ropp, Rabs_R1 in A. lra.
Qed.
Print Assumptions C102_times_refuted.

(** ** C103: the gradient by scalar parameters *)
(** On one process. *)
Theorem C103_scalar_partial o s pr h p v : typ o = IntegratedControl -> (1 < nrec h)%nat ->
  diff_scal o (nscal s) -> (forall g, In g (regs o) -> exists w, g = L2Norm w) ->
  derivable_pt_lim (fun x => report o s [pr] h (moved_scal p v x)) 0 (sm (seq 0 (nscal s)) (fun j => grad_scalar o h pr p j * v j)).
Proof.
  intros T M A R2. set (mesh := elements [pr]).
  set (S := fun t e x => sm (seq 0 (nscal s)) (fun j => dfs o (at_elem (states h t) (lid e)) (pars_at p e) e x j * v j)).
  set (D := sm (regs o) (fun g => match g with L2Norm w => w * sm (seq 0 (nscal s)) (fun j => 2 * scal p j * v j) | Integrated _ _ _ => 0 end)).
  apply (d_ext (fun x => sm (seq 1 (nrec h - 1)) (fun t => (times h t - times h (t - 1)) *
    (weight o * over mesh (density o (states h t) (moved_scal p v x)) + penalties mesh (nscal s) o (moved_scal p v x))))).
  { intros x. rewrite (C98_control o s [pr] mesh) by (try assumption; (discriminate || reflexivity)). unfold in_time.
    destruct (Nat.eqb_spec (nrec h) 1); [lia|]. reflexivity. }
  apply (d_val _ _ (sm (seq 1 (nrec h - 1)) (fun t => (times h t - times h (t - 1)) * (weight o * over mesh (S t) + D)))).
  { unfold grad_scalar. rewrite pair_sum. apply sm_ext. intros t _. set (dt := times h t - times h (t - 1)). unfold grad_scalar_at. rewrite T.
    rewrite (sm_ext (seq 0 (nscal s)) _ (fun j => dt * (weight o * (sm mesh (fun e => sm (seq 0 (npt e)) (fun x =>
        wt e x * dfs o (at_elem (states h t) (lid e)) (pars_at p e) e x j)) * v j))
      + dt * (sm (regs o) (fun g => match g with L2Norm w => w * (2 * scal p j) | Integrated _ _ _ => 0 end) * v j))).
    - rewrite sm_add, !sm_scal, Rmult_plus_distr_l. f_equal; f_equal.
      + f_equal. rewrite pair_sum. unfold over. apply sm_ext. intros e _. rewrite pair_sum. apply sm_ext. intros x _. unfold S. rewrite <- sm_scal.
        apply sm_ext. intros; ring.
      + rewrite pair_sum. unfold D. apply sm_ext. intros [w rf drf|w] _; [symmetry; apply sm_zero; intros; ring|].
        rewrite <- sm_scal. apply sm_ext. intros; ring.
    - intros j _. rewrite Rmult_plus_distr_r. f_equal.
      + rewrite sm_scal. unfold mesh. rewrite <- sm_elements. change (sm [pr] ?f) with (f pr + 0). cbv beta. rewrite Rplus_0_r.
        match goal with |- weight o * ?a * dt * v j = dt * (weight o * (?b * v j)) => enough (a = b) as -> by ring end.
        apply sm_ext. intros g _. apply sm_ext. intros e _. apply sm_ext. intros x _. ring.
      + rewrite <- Rmult_assoc, <- sm_scal. f_equal. apply sm_ext. intros [w rf drf|w] _; ring. }
  apply (d_sm _ (fun t x => (times h t - times h (t - 1)) * (weight o * over mesh (density o (states h t) (moved_scal p v x)) + penalties mesh (nscal s) o (moved_scal p v x)))).
  intros t _. apply d_scal.
  apply (derivable_pt_lim_plus (fun x => weight o * over mesh (density o (states h t) (moved_scal p v x))) (fun x => penalties mesh (nscal s) o (moved_scal p v x))).
  - apply d_scal. apply (d_over mesh (fun x => density o (states h t) (moved_scal p v x))). intros e x _.
    exact (A (at_elem (states h t) (lid e)) (pars_at p e) e x v).
  - apply (d_sm (regs o) (fun g x => penalty mesh (nscal s) (moved_scal p v x) g)). intros g I. destruct (R2 g I) as [w ->]. cbn [penalty].
    apply d_scal. apply (d_sm (seq 0 (nscal s)) (fun k x => scal (moved_scal p v x) k ^ 2)). intros k _. cbn [scal moved_scal].
    apply (d_ext (fun x => (v k * x + scal p k) * (v k * x + scal p k))); [intros; ring|].
    apply (d_val _ _ (v k * (v k * 0 + scal p k) + (v k * 0 + scal p k) * v k)); [ring|].
    apply (d_sq (fun x => v k * x + scal p k)). apply (d_linear _ (scal p k)). intros; ring.
Qed.
Print Assumptions C103_scalar_partial.
(** On two processes each returns its own share. *)
Theorem C103_scalar_refuted : exists o s ranks h p v D, typ o = IntegratedControl /\ regs o = [] /\ (1 < nrec h)%nat /\ diff_scal o (nscal s) /\
  derivable_pt_lim (fun x => report o s ranks h (moved_scal p v x)) 0 D /\
  forall pr, In pr ranks -> D <> sm (seq 0 (nscal s)) (fun j => grad_scalar o h pr p j * v j).
Proof.
  exists {| typ := IntegratedControl; weight := 1; target := 0; func := fun _ p _ _ => scal p 0%nat; dfu := fun _ _ _ _ _ => 0; dfp := fun _ _ _ _ _ => 0;
            dfs := fun _ _ _ _ _ => 1; sensor_times := []; regs := [] |},
    sample_setup, [{| groups := [[cell 0 0]]; sensors := [] |}; {| groups := [[cell 1 1]]; sensors := [] |}], (sample_run 2 1), sample_pars, (fun _ => 1), 2.
  split; [reflexivity|]. split; [reflexivity|]. split; [cbn; lia|]. split; [|split].
  - intros u p e x v. cbn. apply (d_linear _ (scal p 0%nat)). intros; ring.
  - apply (d_linear _ 2). intros x. ev. ring.
  - intros pr [<-|[<-|[]]]; ev; unfold grad_scalar_at; cbn; lra.
Qed.
Print Assumptions C103_scalar_refuted.

(** The hypotheses of the theorems hold of a run on two processes. *)
Definition two_procs : list proc :=
  [{| groups := [[cell 0 0]]; sensors := [gauge (cell 0 0)] |}; {| groups := [[cell 1 1]]; sensors := [] |}].
Example run_hypotheses :
  numbered (nunk sample_setup) (npar sample_setup) two_procs /\ counted (sample_run 3 1) 1 /\ counted (sample_run 3 1) 2 /\
  Permutation (elements two_procs) [cell 1 1; cell 0 0] /\
  report (sample_obj IntegratedControl [volume_reg]) sample_setup two_procs (sample_run 3 1) sample_pars = 12 /\
  report (sample_obj IntegratedResponse []) sample_setup two_procs (sample_run 3 1) sample_pars = 64.
Proof.
  split; [|split; [|split; [|split; [|split]]]].
  - split.
    + intros e [<-|[<-|[]]]; cbn; split; intros; lia.
    + intros q [<-|[]]. cbn. intros; lia.
  - right. cbn. split; [lia|]. split; [lra|]. intros t T NE. assert (t = 2%nat) as -> by lia. cbn.
    replace ((1 + 1) * 1 - 1 * 1) with 1 by ring. rewrite Rabs_R1. lra.
  - right. cbn. split; [lia|]. split; [lra|]. intros t T NE. assert (t = 1%nat) as -> by lia. cbn.
    replace (1 * 1 - (1 + 1) * 1) with (- (1)) by ring. rewrite Rabs_Ropp, Rabs_R1. lra.
  - apply perm_swap.
  - ev. lra.
  - ev. lra.
Qed.
