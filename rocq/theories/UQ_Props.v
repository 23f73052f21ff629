(** C148-C154: sampling, statistics, density estimates, rejection and
    data-consistent inversion. *)
From Coq Require Import List Arith ZArith Bool Reals Lra Lia Permutation String.
From Verif Require Import UQ_Model UQ_Spec UQ_Proofs.
From Verif Require Params_Model Params_Props.
Import ListNotations.
Open Scope R_scope.
Local Notation length := List.length.

(** *** C148: the j-th response is the model at the j-th sample *)

Lemma fill_again t : forall types (ps ps' : list (list R)) v w, Params_Model.fill t types ps v = Some ps' -> Params_Model.fill t types ps' w = Params_Model.fill t types ps w.
Proof.
  induction types as [|ty types IH]; intros [|p ps] ps' v w; cbn [Params_Model.fill]; try congruence; [intros E; injection E as <-; auto|intros E; injection E as <-; auto|].
  destruct (Nat.eqb ty t) eqn:T.
  - destruct (Nat.ltb_spec (length v) (length p)); [discriminate|]. destruct (Params_Model.fill t types ps (skipn (length p) v)) as [q|] eqn:F; [|discriminate].
    cbn. intros E; injection E as <-. cbn [Params_Model.fill]. rewrite ?T, firstn_length, Nat.min_l by auto. erewrite IH by eauto. auto.
  - destruct (Params_Model.fill t types ps v) as [q|] eqn:F; [|discriminate]. cbn. intros E; injection E as <-. cbn [Params_Model.fill]. rewrite ?T. erewrite IH by eauto. auto.
Qed.
Lemma update_again v w t (s s' : Params_Model.pman R) : Params_Model.update_int v t s = Some s' -> Params_Model.update_int w t s' = Params_Model.update_int w t s.
Proof.
  unfold Params_Model.update_int. destruct (Params_Model.pvals s) as [|ps rest] eqn:P; [discriminate|]. destruct (Params_Model.fill t (Params_Model.ptypes s) ps v) as [q|] eqn:F; [|discriminate].
  cbn. intros E; injection E as <-. cbn. erewrite fill_again by eauto. destruct (Params_Model.fill t (Params_Model.ptypes s) ps w); auto.
Qed.
Lemma update_int_at v t (s : Params_Model.pman R) : Params_Model.pvals s <> [] -> Params_Model.update_int v t s = Params_Model.update_at 0 v t s.
Proof. intros H. unfold Params_Model.update_int, Params_Model.update_at. destruct (Params_Model.pvals s); [congruence|]. cbn. auto. Qed.
Lemma update_int_spec l v (s : Params_Model.pman R) : Params_Props.has_layout l s -> Params_Model.pvals s <> [] -> length v = Params_Props.class_size 2 l ->
  exists s', Params_Model.update_int v 2 s = Some s' /\ Params_Props.has_layout l s' /\ s' = Params_Model.with_vals s (Params_Model.pvals s') /\ length (Params_Model.pvals s') = length (Params_Model.pvals s) /\
    Params_Props.value s' 0 2 = Some v /\ (forall i t, (i, t) <> (0%nat, 2%nat) -> Params_Props.value s' i t = Params_Props.value s i t).
Proof.
  intros L N V. rewrite update_int_at by auto. destruct (Params_Props.update_at_spec l s 0 v 2 L) as (s' & U & L' & P & A & B); auto; [destruct (Params_Model.pvals s); [congruence|cbn; lia]|].
  exists s'. split; [auto|]. split; [auto|]. split; [|auto]. unfold Params_Model.update_at in U. destruct (nth_error (Params_Model.pvals s) 0); [|injection U as <-; destruct s; auto].
  destruct (Params_Model.fill 2 (Params_Model.ptypes s) l0 v); [|discriminate]. cbn in U. injection U as <-. auto.
Qed.

Lemma parameters_length E ps u j : length (parameters E ps u j) = length ps.
Proof. unfold parameters. rewrite map_length, seq_length. auto. Qed.

Lemma loop_spec {Resp} E ps u (forward : Params_Model.pman R -> Resp) l (s0 : Params_Model.pman R) : Params_Props.has_layout l s0 -> Params_Model.pvals s0 <> [] ->
  Params_Props.class_size 2 l = length ps -> ps <> [] -> forall js s, (forall v, Params_Model.update_int v 2 s = Params_Model.update_int v 2 s0) ->
  exists rs, sample_loop E ps u forward js s = Some rs /\ Forall2 (fun j r => exists sj, Params_Model.update_int (parameters E ps u j) 2 s0 = Some sj /\ r = forward sj) js rs.
Proof.
  intros L N C P. induction js as [|j js IH]; intros s H; cbn [sample_loop]; [exists []; auto|].
  replace (0 <? length ps)%nat with true by (symmetry; apply Nat.ltb_lt; destruct ps; [congruence|cbn; lia]). rewrite H.
  destruct (update_int_spec l (parameters E ps u j) s0 L N) as (sj & U & _); [rewrite parameters_length; auto|]. rewrite U.
  destruct (IH sj) as (rs & R1 & R2).
  - intros v. eapply update_again; eauto.
  - rewrite R1. cbn. eexists. split; [reflexivity|]. constructor; eauto.
Qed.

(** Every response is the forward model with the stochastic parameters of that
    sample and every other parameter as configured, whatever the earlier samples. *)
Theorem C148_responses {Resp} E ps u (forward : Params_Model.pman R -> Resp) l s : Params_Props.has_layout l s -> length (Params_Model.pvals s) = 1%nat ->
  Params_Props.class_size 2 l = length ps -> ps <> [] ->
  exists rs, uq_solve E ps u forward s = Some rs /\ length rs = num_samples E ps u /\
    forall j, (j < num_samples E ps u)%nat -> exists sj, nth_error rs j = Some (forward sj) /\
      sj = Params_Model.with_vals s (Params_Model.pvals sj) /\ length (Params_Model.pvals sj) = 1%nat /\ Params_Props.has_layout l sj /\
      Params_Props.value sj 0 2 = Some (parameters E ps u j) /\ (forall t, t <> 2%nat -> Params_Props.value sj 0 t = Params_Props.value s 0 t).
Proof.
  intros L N C P. assert (NE : Params_Model.pvals s <> []) by (intros Z; rewrite Z in N; discriminate).
  destruct (loop_spec E ps u forward l s L NE C P (seq 0 (num_samples E ps u)) s) as (rs & R1 & R2); auto. exists rs. split; [exact R1|].
  assert (Len : length rs = num_samples E ps u).
  { assert (G : forall A B (Q : A -> B -> Prop) l m, Forall2 Q l m -> length l = length m) by (induction 1; cbn; auto). apply G in R2. rewrite seq_length in R2. auto. }
  split; auto. intros j Hj.
  assert (Q : exists sj, Params_Model.update_int (parameters E ps u j) 2 s = Some sj /\ nth_error rs j = Some (forward sj)).
  { clear R1. assert (G : forall n b rs, Forall2 (fun j r => exists sj, Params_Model.update_int (parameters E ps u j) 2 s = Some sj /\ r = forward sj) (seq b n) rs ->
      forall j, (j < n)%nat -> exists sj, Params_Model.update_int (parameters E ps u (b + j)) 2 s = Some sj /\ nth_error rs j = Some (forward sj)).
    { induction n as [|n IH]; intros b rs0 F i Hi; [lia|]. cbn in F. inversion F as [|? r ? rs' (sj & U & ->) F' Ea Eb]; subst. destruct i as [|i].
      - exists sj. rewrite Nat.add_0_r. auto.
      - destruct (IH (Datatypes.S b) rs' F' i) as (si & U' & H'); [lia|]. exists si. rewrite Nat.add_succ_r. auto. }
    apply (G _ 0%nat rs R2 j Hj). }
  destruct Q as (sj & U & H). exists sj. split; auto.
  destruct (update_int_spec l (parameters E ps u j) s L NE) as (sj' & U' & L' & W & P' & A & B); [rewrite parameters_length; auto|].
  rewrite U in U'. injection U' as <-. split; [auto|]. split; [congruence|]. split; [auto|]. split; [auto|]. intros t Ht. apply B. congruence.
Qed.
Print Assumptions C148_responses.

Definition with_samples (u : uq) (n : nat) : uq :=
  {| u_samples := n; u_max := u_max u; u_seed := u_seed u; u_fd := u_fd u; u_comp := u_comp u; u_delta := u_delta u; u_file := u_file u |}.
Definition with_fd (u : uq) (b : bool) : uq :=
  {| u_samples := u_samples u; u_max := u_max u; u_seed := u_seed u; u_fd := b; u_comp := u_comp u; u_delta := u_delta u; u_file := u_file u |}.

Lemma loop_firstn {Resp} E ps u v (forward : Params_Model.pman R -> Resp) n : (forall j, parameters E ps v j = parameters E ps u j) ->
  forall js s rs, sample_loop E ps u forward js s = Some rs -> sample_loop E ps v forward (firstn n js) s = Some (firstn n rs).
Proof.
  intros P. induction n as [|n IH]; intros js s rs; [auto|]. destruct js as [|j js]; cbn [sample_loop firstn]; [intros E'; injection E' as <-; auto|].
  rewrite P. destruct (if (0 <? length ps)%nat then _ else _) as [s'|]; [|discriminate].
  destruct (sample_loop E ps u forward js s') as [r|] eqn:F; [|discriminate]. cbn. intros E'; injection E' as <-. rewrite (IH _ _ _ F). auto.
Qed.
Lemma firstn_seq_min n m b : (n <= m)%nat -> firstn n (seq b m) = seq b n.
Proof. revert m b. induction n as [|n IH]; intros [|m] b H; cbn; auto; [lia|]. rewrite IH by lia. auto. Qed.

(** With the same "max samples", asking for fewer samples gives the first of the same responses. *)
Theorem C148_prefix {Resp} E ps u n (forward : Params_Model.pman R -> Resp) s rs : (n <= u_samples u)%nat ->
  uq_solve E ps u forward s = Some rs -> uq_solve E ps (with_samples u n) forward s = Some (firstn n rs).
Proof.
  unfold uq_solve, num_samples. intros H S0. cbn [with_samples u_samples u_file u_max u_seed].
  set (m := length (samples E ps (u_file u) (u_max u) (u_seed u))) in *.
  destruct (le_lt_dec n m) as [L|L].
  - rewrite Nat.min_l by auto. rewrite <- (firstn_seq_min n (Nat.min (u_samples u) m) 0) by (apply Nat.min_glb; auto). apply (loop_firstn E ps u); auto.
  - rewrite Nat.min_r by lia. rewrite Nat.min_r in S0 by lia. rewrite <- (firstn_all2 (n := n) (seq 0 m)) by (rewrite seq_length; lia). apply (loop_firstn E ps u); auto.
Qed.
Print Assumptions C148_prefix.

(** A finite-difference run moves exactly one parameter, by delta, in every sample. *)
Theorem C148_finite_difference E ps u j i : (i < length ps)%nat ->
  nth i (parameters E ps (with_fd u true) j) 0 = nth i (parameters E ps (with_fd u false) j) 0 + (if Nat.eqb i (u_comp u) then u_delta u else 0).
Proof.
  intros H. unfold parameters. cbn [with_fd u_fd u_comp u_delta u_file u_max u_seed andb].
  set (row := nth j _ []).
  rewrite (nth_indep (map _ (seq 0 (length ps))) 0 ((fun i0 => if Nat.eqb (u_comp u) i0 then nth i0 row 0 + u_delta u else nth i0 row 0) 0%nat)) by (rewrite map_length, seq_length; auto).
  rewrite (map_nth (fun i0 => if Nat.eqb (u_comp u) i0 then nth i0 row 0 + u_delta u else nth i0 row 0)), seq_nth by auto.
  rewrite (nth_indep (map _ (seq 0 (length ps))) 0 ((fun i0 => nth i0 row 0) 0%nat)) by (rewrite map_length, seq_length; auto).
  rewrite (map_nth (fun i0 => nth i0 row 0)), seq_nth by auto. cbn. rewrite Nat.eqb_sym. destruct (Nat.eqb i (u_comp u)); lra.
Qed.
Print Assumptions C148_finite_difference.

(** A configured distribution is respected; user samples are taken as they are. *)
Lemma column_spec (E : engine) p n s k : unit_draws (units E) -> counted (normals E) -> (k < n)%nat ->
  match kind_ p with
  | Uniform => min_ p <= max_ p -> min_ p <= nth k (fst (column E p n s)) 0 <= max_ p
  | Gaussian => exists z, In z (fst (normals E n s)) /\ nth k (fst (column E p n s)) 0 = mean_ p + sqrt (var_ p) * z
  | Other => nth k (fst (column E p n s)) 0 = 0
  end.
Proof.
  intros U N K. unfold column. destruct (kind_ p).
  - intros B. destruct (U n s) as [L F]. destruct (units E n s) as [us s']. cbn [fst] in *.
    rewrite (nth_indep _ 0 ((fun u => min_ p + (max_ p - min_ p) * u) 0)) by (rewrite map_length; lia). rewrite (map_nth (fun u => min_ p + (max_ p - min_ p) * u)).
    rewrite Forall_forall in F. assert (I : In (nth k us 0) us) by (apply nth_In; lia). specialize (F _ I). nra.
  - specialize (N n s). destruct (normals E n s) as [zs s']. cbn [fst] in *. exists (nth k zs 0). split; [apply nth_In; lia|].
    rewrite (nth_indep _ 0 ((fun z => mean_ p + sqrt (var_ p) * z) 0)) by (rewrite map_length; lia). apply (map_nth (fun z => mean_ p + sqrt (var_ p) * z)).
  - cbn [fst]. apply nth_repeat.
Qed.
Lemma columns_nth (E : engine) : forall ps n s i p, nth_error ps i = Some p -> exists s', nth i (columns E ps n s) [] = fst (column E p n s').
Proof.
  induction ps as [|q ps IH]; intros n s [|i] p H; cbn in *; try discriminate.
  - injection H as ->. exists s. destruct (column E p n s). auto.
  - destruct (column E q n s) as [c s']. cbn. apply (IH n s' i p H).
Qed.
Lemma columns_length E : forall ps n s, length (columns E ps n s) = length ps.
Proof. induction ps; intros; cbn; auto. destruct (column E a n s). cbn. rewrite IHps. auto. Qed.
Lemma rows_nth n cs k i : (k < n)%nat -> nth i (nth k (rows n cs) []) 0 = nth k (nth i cs []) 0.
Proof.
  intros H. unfold rows. rewrite (nth_indep _ [] ((fun k => map (fun c => nth k c 0) cs) 0%nat)) by (rewrite map_length, seq_length; auto).
  rewrite (map_nth (fun k => map (fun c => nth k c 0) cs)), seq_nth by auto. cbn.
  destruct (le_lt_dec (length cs) i) as [L|L].
  - rewrite (nth_overflow cs) by auto. rewrite nth_overflow by (rewrite map_length; auto). destruct k; auto.
  - rewrite (nth_indep _ 0 ((fun c => nth k c 0) [])) by (rewrite map_length; auto). rewrite (map_nth (fun c => nth k c 0)). auto.
Qed.
Theorem C148_draws (E : engine) ps n seed k i p : unit_draws (units E) -> counted (normals E) -> (k < n)%nat -> nth_error ps i = Some p ->
  let x := nth i (nth k (samples E ps None n seed) []) 0 in
  length (samples E ps None n seed) = n /\
  match kind_ p with
  | Uniform => min_ p <= max_ p -> min_ p <= x <= max_ p
  | Gaussian => exists s z, In z (fst (normals E n s)) /\ x = mean_ p + sqrt (var_ p) * z
  | Other => x = 0
  end.
Proof.
  intros U N K P x. split; [cbn; unfold rows; rewrite map_length, seq_length; auto|].
  unfold x. cbn [samples]. rewrite rows_nth by auto. destruct (columns_nth E ps n (seeded E seed) i p P) as (s' & ->).
  pose proof (column_spec E p n s' k U N K) as C. destruct (kind_ p); auto. destruct C as (z & A & B). eauto.
Qed.
Print Assumptions C148_draws.
Theorem C148_user_samples E ps rows n seed j i u : u_file u = Some rows -> (i < length ps)%nat -> u_fd u = false ->
  samples E ps (Some rows) n seed = rows /\ nth i (parameters E ps u j) 0 = nth i (nth j rows []) 0 /\ num_samples E ps u = Nat.min (u_samples u) (length rows).
Proof.
  intros F I D. split; [auto|]. unfold parameters, num_samples. rewrite F, D. cbn [samples andb]. split; auto.
  rewrite (nth_indep (map _ (seq 0 (length ps))) 0 ((fun i0 => nth i0 (nth j rows []) 0) 0%nat)) by (rewrite map_length, seq_length; auto).
  rewrite (map_nth (fun i0 => nth i0 (nth j rows []) 0)), seq_nth by auto. auto.
Qed.
Print Assumptions C148_user_samples.

(** An engine: the k-th draw after the seed is 1/(k+1). *)
Definition harmonic : engine :=
  {| st := nat; seeded := fun _ => 0%nat;
     units := fun n s => (map (fun k => 1 / INR (Datatypes.S k)) (seq s n), (s + n)%nat);
     normals := fun n s => (map (fun k => INR k) (seq s n), (s + n)%nat);
     ints := fun n s => map (fun k => Z.of_nat (Datatypes.S k)) (seq s n) |}.
Lemma harmonic_units : unit_draws (units harmonic).
Proof.
  intros n s. cbn. rewrite map_length, seq_length. split; auto. apply Forall_forall. intros x Hx. apply in_map_iff in Hx as (k & <- & _).
  change (match k with 0%nat => 1 | Datatypes.S _ => INR k + 1 end) with (INR (Datatypes.S k)). rewrite S_INR. pose proof (pos_INR k).
  split; [apply Rlt_le, Rdiv_lt_0_compat; lra|]. apply Rmult_le_reg_r with (INR k + 1); [lra|]. unfold Rdiv. rewrite Rmult_assoc, Rinv_l by lra. lra.
Qed.
Lemma harmonic_normals : counted (normals harmonic).
Proof. intros n s. cbn. rewrite map_length, seq_length. auto. Qed.
Definition unif01 : dist := {| kind_ := Uniform; mean_ := 0; var_ := 1; min_ := 0; max_ := 1 |}.
Definition two_params : Params_Model.pman R :=
  {| Params_Model.pnames := ["k"; "c"; "f"]%string; Params_Model.ptypes := [2; 1; 2]%nat; Params_Model.pvals := [[[7]; [8]; [9]]]; Params_Model.plower := []; Params_Model.pupper := []; Params_Model.dynamic := false; Params_Model.tindex := 0 |}.
Definition uq_run (n m : nat) (file : option (list (list R))) : uq :=
  {| u_samples := n; u_max := m; u_seed := 1234; u_fd := false; u_comp := 0; u_delta := 0; u_file := file |}.
Example C148_case : Params_Props.has_layout [(2, 1); (1, 1); (2, 1)]%nat two_params /\ Params_Props.class_size 2 [(2, 1); (1, 1); (2, 1)]%nat = length [unif01; unif01] /\
  uq_solve harmonic [unif01; unif01] (uq_run 1 2 (Some [[1; 2]; [3; 4]])) (fun s => Params_Model.pvals s) two_params = Some [[[[1]; [8]; [2]]]].
Proof. split; [split; [reflexivity|repeat constructor]|]. split; [reflexivity|]. reflexivity. Qed.

(** *** C149: what breaks the promise *)

(** Without user samples there is an integer sample for every sample. *)
Theorem C149_partial (E : engine) ps u j : (forall n s, length (ints E n s) = n) -> u_file u = None -> (j < num_samples E ps u)%nat ->
  exists z, sample_int E u j = Some z.
Proof.
  intros I F J. unfold num_samples in J. rewrite F in J. cbn [samples] in J. unfold rows in J. rewrite map_length, seq_length in J.
  unfold sample_int. destruct (nth_error (ints E (u_max u) (seeded E (u_seed u))) j) eqn:N; eauto. apply nth_error_None in N. rewrite I in N.
  pose proof (Nat.le_min_r (u_samples u) (u_max u)). lia.
Qed.
Print Assumptions C149_partial.

(** "max samples" defaults to "samples": asking for one more sample changes the
    parameters of the first sample, with the same seed. *)
Theorem C149_more_samples_refuted : unit_draws (units harmonic) /\
  parameters harmonic [unif01; unif01] (uq_run 1 1 None) 0 <> parameters harmonic [unif01; unif01] (uq_run 2 2 None) 0.
Proof.
  split; [apply harmonic_units|]. intros H. apply (f_equal (fun l => nth 1 l 0)) in H. cbn in H. lra.
Qed.
Print Assumptions C149_more_samples_refuted.

(** A user file longer than "max samples": the integer of a later sample is read
    outside its array. *)
Theorem C149_file_refuted : let u := uq_run 3 2 (Some [[1]; [2]; [3]]) in
  num_samples harmonic [unif01] u = 3%nat /\ sample_int harmonic u 2 = None.
Proof. split; reflexivity. Qed.
Print Assumptions C149_file_refuted.

(** With a time-dependent parameter, only the first time gets the sample. *)
Theorem C149_dynamic_refuted : exists s : Params_Model.pman R, Params_Model.dynamic s = true /\ Params_Props.has_layout [(1, 1); (2, 1)]%nat s /\
  uq_solve harmonic [unif01] (uq_run 1 1 (Some [[5]])) (fun s => (Params_Props.value s 0 2, Params_Props.value s 1 2)) s = Some [(Some [5], Some [2])].
Proof.
  exists {| Params_Model.pnames := ["a"; "b"]%string; Params_Model.ptypes := [1; 2]%nat; Params_Model.pvals := [[[1]; [2]]; [[1]; [2]]]; Params_Model.plower := []; Params_Model.pupper := []; Params_Model.dynamic := true; Params_Model.tindex := 0 |}.
  split; [reflexivity|]. split; [split; [reflexivity|repeat constructor]|]. reflexivity.
Qed.
Print Assumptions C149_dynamic_refuted.

(** *** C150: rejection sampling *)

Definition is_sup (C : R) (rs : list (option R)) : Prop :=
  (forall x, In (Some x) rs -> Rabs x <= C) /\ exists x, In (Some x) rs /\ C = Rabs x.
Lemma largest_sup C rs : is_sup C rs -> largest rs = C.
Proof.
  intros [A (x & Hx & B)]. destruct (largest_spec rs 0) as (L0 & L1 & L2); [lra|]. unfold largest.
  pose proof (L1 x Hx). destruct L2 as [E|(y & Hy & E)]; [pose proof (Rabs_pos x); lra|]. pose proof (A y Hy). lra.
Qed.
Lemma combine_nth_error {A B} : forall (l : list A) (m : list B) k a b, nth_error l k = Some a -> nth_error m k = Some b -> nth_error (combine l m) k = Some (a, b).
Proof. induction l as [|x l IH]; intros [|y m] [|k] a b H1 H2; cbn in *; try discriminate; [congruence|eauto]. Qed.
Lemma rejection_nth rs us k r u : nth_error rs k = Some r -> nth_error us k = Some u -> nth_error (rejection rs us) k = Some (accepts (largest rs) r u).
Proof.
  intros H1 H2. unfold rejection. erewrite map_nth_error; [|eapply combine_nth_error; eauto]. auto.
Qed.

(** A sample is kept exactly when its draw is at most its ratio over the largest. *)
Theorem C150_rule rs us k r u C : is_sup C rs -> 0 < C -> nth_error rs k = Some r -> nth_error us k = Some u ->
  nth_error (rejection rs us) k = Some true <-> exists x, r = Some x /\ u * C <= Rabs x.
Proof.
  intros HC P H1 H2. rewrite (rejection_nth rs us k r u H1 H2), (largest_sup C rs HC). unfold accepts. destruct r as [x|].
  - destruct (Req_EM_T C 0); [lra|]. destruct (Rle_dec u (Rabs x / C)) as [L|L].
    + split; auto. intros _. exists x. split; auto. apply Rmult_le_compat_r with (r := C) in L; [|lra]. unfold Rdiv in L. rewrite Rmult_assoc, Rinv_l in L by lra. lra.
    + split; [discriminate|]. intros (y & E & M). injection E as <-. elim L. apply Rmult_le_reg_r with C; auto. unfold Rdiv. rewrite Rmult_assoc, Rinv_l by lra. lra.
  - split; [discriminate|]. intros (y & E & _). discriminate.
Qed.
Print Assumptions C150_rule.

(** The sample with the largest ratio is always kept. *)
Theorem C150_largest_kept rs us k x u : nth_error rs k = Some (Some x) -> nth_error us k = Some u -> 0 <= u <= 1 ->
  (forall y, In (Some y) rs -> Rabs y <= Rabs x) -> x <> 0 -> nth_error (rejection rs us) k = Some true.
Proof.
  intros H1 H2 U B N. apply nth_error_In in H1 as I. pose proof (Rabs_pos_lt x N).
  apply (C150_rule rs us k (Some x) u (Rabs x)); auto; [split; eauto|]. exists x. split; auto. nra.
Qed.
Print Assumptions C150_largest_kept.

(** Only the relative size of the ratios matters. *)
Lemma largest_scale c rs : largest (map (option_map (Rmult c)) rs) = Rabs c * largest rs.
Proof.
  unfold largest. assert (G : forall C, 0 <= C -> fold_left bigger (map (option_map (Rmult c)) rs) (Rabs c * C) = Rabs c * fold_left bigger rs C).
  { induction rs as [|r rs IH]; intros C HC; cbn [map fold_left]; auto.
    replace (bigger (Rabs c * C) (option_map (Rmult c) r)) with (Rabs c * bigger C r).
    - apply IH. destruct r as [x|]; cbn; [|auto]. destruct (Rlt_dec C (Rabs x)); lra.
    - destruct r as [x|]; cbn; [|auto]. rewrite Rabs_mult. pose proof (Rabs_pos c). pose proof (Rabs_pos x).
      destruct (Rlt_dec C (Rabs x)), (Rlt_dec (Rabs c * C) (Rabs c * Rabs x)); auto; nra. }
  rewrite <- G by lra. rewrite Rmult_0_r. auto.
Qed.
Theorem C150_scale c rs us : c <> 0 -> rejection (map (option_map (Rmult c)) rs) us = rejection rs us.
Proof.
  intros H. unfold rejection. rewrite largest_scale. pose proof (Rabs_pos_lt c H) as P. generalize (largest rs) as C. intros C.
  revert us. induction rs as [|r rs IH]; intros [|u us]; cbn [map combine]; auto. rewrite IH. f_equal. cbn [fst snd].
  destruct r as [x|]; cbn [option_map accepts]; auto. rewrite Rabs_mult.
  destruct (Req_EM_T C 0) as [->|N]; [rewrite Rmult_0_r; destruct (Req_EM_T 0 0); [auto|congruence]|].
  destruct (Req_EM_T (Rabs c * C) 0) as [Z|_]; [apply Rmult_integral in Z; lra|].
  replace (Rabs c * Rabs x / (Rabs c * C)) with (Rabs x / C) by (field; lra). auto.
Qed.
Print Assumptions C150_scale.

(** A better sample with a smaller draw is kept whenever the other one is. *)
Theorem C150_monotone rs us i k x y u v : nth_error rs i = Some (Some x) -> nth_error us i = Some u -> nth_error rs k = Some (Some y) -> nth_error us k = Some v ->
  Rabs x <= Rabs y -> v <= u -> nth_error (rejection rs us) i = Some true -> nth_error (rejection rs us) k = Some true.
Proof.
  intros A B C D XY UV. rewrite (rejection_nth _ _ _ _ _ A B), (rejection_nth _ _ _ _ _ C D). unfold accepts.
  destruct (Req_EM_T (largest rs) 0) as [|N]; [discriminate|]. destruct (Rle_dec u (Rabs x / largest rs)) as [L|]; [|discriminate]. intros _.
  destruct (Rle_dec v (Rabs y / largest rs)) as [|G]; auto. elim G. destruct (largest_spec rs 0) as (P & _); [lra|]. fold (largest rs) in P.
  assert (Rabs x / largest rs <= Rabs y / largest rs) by (apply Rmult_le_compat_r; [left; apply Rinv_0_lt_compat; lra|auto]). lra.
Qed.
Print Assumptions C150_monotone.
Example C150_case : is_sup 4 [Some 1; Some (-4); Some 2] /\ nth_error [1/2; 1/2; 1/2] 2 = Some (1/2) /\
  nth_error (rejection [Some 1; Some (-4); Some 2] [1/2; 1/2; 1/2]) 2 = Some true /\ nth_error (rejection [Some 1; Some (-4); Some 2] [1/2; 1/2; 1/2]) 0 = Some false.
Proof.
  assert (S4 : is_sup 4 [Some 1; Some (-4); Some 2]).
  { assert (A : Rabs 1 = 1) by (apply Rabs_right; lra). assert (B : Rabs (-4) = 4) by (rewrite Rabs_left; lra). assert (D : Rabs 2 = 2) by (apply Rabs_right; lra).
    split; [|exists (-4); cbn; auto]. intros x [E|[E|[E|[]]]]; injection E as <-; lra. }
  split; [auto|]. split; [auto|]. split.
  - apply (C150_rule _ _ 2 (Some 2) (1/2) 4); auto; [lra|]. exists 2. split; auto. rewrite Rabs_right; lra.
  - rewrite (rejection_nth _ _ 0 (Some 1) (1/2)) by auto. rewrite (largest_sup 4) by auto. unfold accepts. rewrite Rabs_right by lra.
    destruct (Req_EM_T 4 0); [lra|]. destruct (Rle_dec (1/2) (1/4)); [lra|auto].
Qed.

(** *** C151: the overload with weights *)
(** Inside the function, uniform parameters and weights are right ... *)
Lemma columns2_nth (E : engine) : forall ps n s i p, nth_error ps i = Some p -> exists s', nth i (columns2 E ps n s) [] = fst (column2 E p n s').
Proof.
  induction ps as [|q ps IH]; intros n s [|i] p H; cbn in *; try discriminate.
  - injection H as ->. exists s. destruct (column2 E p n s). auto.
  - destruct (column2 E q n s) as [c s']. cbn. apply (IH n s' i p H).
Qed.
Lemma sum_repeat c n : sum (repeat c n) = INR n * c.
Proof. induction n as [|n IH]; [cbn; lra|]. cbn [repeat sum fold_right]. unfold sum in IH. rewrite IH, S_INR. lra. Qed.
Theorem C151_partial (E : engine) ps n seed pts wts k i p : unit_draws (units E) -> counted (normals E) -> (k < n)%nat -> nth_error ps i = Some p -> kind_ p = Uniform -> min_ p <= max_ p ->
  let '((xs, ws), _) := generate2 E ps n seed pts wts in min_ p <= nth i (nth k xs []) 0 <= max_ p /\ sum ws = 1.
Proof.
  intros U N K P T B. unfold generate2. split.
  - rewrite rows_nth by auto. destruct (columns2_nth E ps n (seeded E seed) i p P) as (s' & ->). unfold column2. rewrite T.
    pose proof (column_spec E p n s' k U N K) as C. rewrite T in C. auto.
  - rewrite sum_repeat. field. apply not_0_INR. lia.
Qed.
Print Assumptions C151_partial.
(** ... but the caller's views are unchanged, ... *)
Theorem C151_caller_refuted : exists (E : engine) n pts wts, unit_draws (units E) /\ (0 < n)%nat /\ snd (generate2 E [unif01] n 1 pts wts) = (pts, wts) /\
  snd (generate2 E [unif01] n 1 pts wts) <> fst (generate2 E [unif01] n 1 pts wts).
Proof.
  exists harmonic, 1%nat, [], []. split; [apply harmonic_units|]. split; [lia|]. split; [auto|]. intros H. discriminate H.
Qed.
Print Assumptions C151_caller_refuted.
(** ... and a Gaussian has the variance as its standard deviation. *)
Theorem C151_gaussian_refuted : exists p z, kind_ p = Gaussian /\ var_ p = 4 /\ nth 0 (fst (normals harmonic 2 1%nat)) 0 = z /\
  nth 0 (fst (column harmonic p 2 1%nat)) 0 = mean_ p + 2 * z /\ nth 0 (fst (column2 harmonic p 2 1%nat)) 0 = mean_ p + 4 * z /\ z <> 0.
Proof.
  exists {| kind_ := Gaussian; mean_ := 0; var_ := 4; min_ := 0; max_ := 1 |}, 1. cbn. replace (sqrt 4) with 2; [repeat split; lra|].
  replace 4 with (2 * 2) by lra. symmetry. apply sqrt_square. lra.
Qed.
Print Assumptions C151_gaussian_refuted.

(** *** C152: statistics *)

Theorem C152_mean vs lo hi : vs <> [] -> Forall (fun v => lo <= v <= hi) vs -> lo <= mean vs <= hi.
Proof.
  intros N F. rewrite mean_average. unfold average. pose proof (INR_length_pos vs N) as P. rewrite Forall_forall in F.
  assert (A : INR (length vs) * lo <= sum vs <= INR (length vs) * hi).
  { rewrite <- !(sum_const _ vs). rewrite <- (map_id vs) at 2 3. split; apply sum_le; intros x Hx; specialize (F x Hx); lra. }
  split; apply Rmult_le_reg_r with (INR (length vs)); auto; unfold Rdiv; rewrite ?Rmult_assoc, ?Rinv_l by lra; lra.
Qed.
Print Assumptions C152_mean.
Theorem C152_mean_unique vs m : vs <> [] -> (m = mean vs <-> sum (map (fun v => v - m) vs) = 0).
Proof.
  intros N. rewrite mean_average. unfold average. pose proof (INR_length_pos vs N) as P. unfold Rminus.
  rewrite (sum_plus (fun v => v) (fun _ => - m)), sum_const, map_id. split; intros H; [rewrite H; field; lra|].
  apply Rmult_eq_reg_r with (INR (length vs)); [|lra]. unfold Rdiv. rewrite Rmult_assoc, Rinv_l by lra. lra.
Qed.
Print Assumptions C152_mean_unique.

Lemma variance_sum vs : variance vs = average (map (fun v => (v - average vs) * (v - average vs)) vs).
Proof. unfold variance. rewrite fold_sum, Rplus_0_l, mean_average. unfold average. rewrite map_length. auto. Qed.
Theorem C152_variance vs : vs <> [] -> variance vs = average (map (fun v => v * v) vs) - average vs * average vs /\ 0 <= variance vs.
Proof.
  intros N. pose proof (INR_length_pos vs N) as P. rewrite variance_sum. split.
  - unfold average at 1 4. rewrite !map_length.
    rewrite (sum_ext _ (fun v => v * v + (- 2 * average vs * v + average vs * average vs))) by (intros; ring).
    rewrite sum_plus, sum_plus, sum_const. rewrite (sum_scale (-2 * average vs) (fun v => v)), map_id. unfold average. field. lra.
  - unfold average at 1. rewrite map_length. apply Rmult_le_pos; [|left; apply Rinv_0_lt_compat; auto].
    apply sum_nonneg, Forall_forall. intros x Hx. apply in_map_iff in Hx as (v & <- & _). apply Rle_0_sqr.
Qed.
Print Assumptions C152_variance.
Theorem C152_units a b vs : vs <> [] -> mean (map (fun v => a * v + b) vs) = a * mean vs + b /\ variance (map (fun v => a * v + b) vs) = a * a * variance vs.
Proof.
  intros N. rewrite !mean_average, average_affine by auto. split; auto. rewrite !variance_sum, average_affine, map_map by auto.
  generalize (average vs). intros m. unfold average. rewrite !map_length.
  rewrite (sum_ext _ (fun v => (a * a) * ((v - m) * (v - m)))) by (intros; ring). rewrite sum_scale. unfold Rdiv. ring.
Qed.
Print Assumptions C152_units.

Definition below (level : R) (vs : list R) : list R := filter (fun v => if Rle_dec v level then true else false) vs.
Lemma below_le l1 l2 vs : l1 <= l2 -> (length (below l1 vs) <= length (below l2 vs) <= length vs)%nat.
Proof.
  unfold below. intros H. induction vs as [|v vs [I1 I2]]; cbn; [lia|]. destruct (Rle_dec v l1), (Rle_dec v l2); cbn; try lia. lra.
Qed.
(** A distribution function: monotone, 0 below all values, 1 from the largest on. *)
Theorem C152_probability vs : vs <> [] ->
  (forall l1 l2, l1 <= l2 -> 0 <= probability vs l1 <= probability vs l2 /\ probability vs l2 <= 1) /\
  (forall l, Forall (fun v => v <= l) vs <-> probability vs l = 1) /\ (forall l, Forall (fun v => l < v) vs <-> probability vs l = 0).
Proof.
  intros N. pose proof (INR_length_pos vs N) as P. pose proof (Rinv_0_lt_compat _ P) as Q. unfold probability. split; [|split].
  - intros l1 l2 H. destruct (below_le l1 l2 vs H) as [A B]. apply le_INR in A, B. unfold below in *. unfold Rdiv.
    split; [split; [apply Rmult_le_pos; [apply pos_INR|lra]|apply Rmult_le_compat_r; lra]|]. rewrite <- (Rinv_r (INR (length vs))) by lra. apply Rmult_le_compat_r; lra.
  - intros l. assert (G : Forall (fun v => v <= l) vs <-> length (below l vs) = length vs).
    { clear. induction vs as [|v vs IH]; [cbn; split; auto|]. pose proof (below_le l l vs (Rle_refl l)). unfold below in *. cbn. destruct (Rle_dec v l); cbn.
      - rewrite Nat.succ_inj_wd, <- IH. split; [inversion 1; auto|constructor; auto].
      - split; [inversion 1; lra|lia]. }
    rewrite G. fold (below l vs). split; intros H; [rewrite H; field; lra|]. apply INR_eq. apply Rmult_eq_reg_r with (/ INR (length vs)); [|lra]. unfold Rdiv in H. rewrite H. field. lra.
  - intros l. assert (G : Forall (fun v => l < v) vs <-> length (below l vs) = 0%nat).
    { clear. induction vs as [|v vs IH]; [cbn; split; auto|]. cbn. destruct (Rle_dec v l); cbn.
      - split; [inversion 1; lra|lia].
      - unfold below in IH. rewrite <- IH. split; [inversion 1; auto|constructor; auto; lra]. }
    rewrite G. fold (below l vs). split; intros H; [rewrite H; cbn; unfold Rdiv; ring|]. apply INR_eq. apply Rmult_eq_reg_r with (/ INR (length vs)); [|lra]. unfold Rdiv in H. rewrite H. cbn. ring.
Qed.
Print Assumptions C152_probability.

(** Mean, variance and probability levels do not depend on the order of the samples. *)
Theorem C152_order vs ws l : Permutation vs ws -> mean vs = mean ws /\ variance vs = variance ws /\ probability vs l = probability ws l.
Proof.
  intros H. rewrite !mean_average, !variance_sum, (average_perm _ _ H). split; auto. split; [apply average_perm, Permutation_map; auto|].
  unfold probability. rewrite (Permutation_length H). f_equal. f_equal.
  induction H; cbn; auto; repeat (match goal with |- context [Rle_dec ?a ?b] => destruct (Rle_dec a b) end; cbn; auto). congruence.
Qed.
Print Assumptions C152_order.

(** Chebyshev: the probability levels are controlled by the mean and the variance. *)
Theorem C152_chebyshev vs t : vs <> [] -> 0 < t -> probability vs (mean vs - t) <= variance vs / (t * t).
Proof.
  intros N T. pose proof (INR_length_pos vs N) as P. rewrite variance_sum, mean_average. set (m := average vs).
  unfold probability. fold (below (m - t) vs).
  assert (G : INR (length (below (m - t) vs)) * (t * t) <= sum (map (fun v => (v - m) * (v - m)) vs)).
  { generalize m. intros c. clear - T. induction vs as [|v vs IH]; [cbn; lra|]. unfold below in *. cbn [filter map sum fold_right]. unfold sum in IH.
    pose proof (Rle_0_sqr (v - c)) as W. unfold Rsqr in W.
    destruct (Rle_dec v (c - t)); [|unfold sum; lra]. cbn [length]. rewrite S_INR. unfold sum. nra. }
  unfold average. rewrite map_length. apply Rmult_le_reg_r with (INR (length vs) * (t * t)); [repeat apply Rmult_lt_0_compat; auto|].
  replace (INR (length (below (m - t) vs)) / INR (length vs) * (INR (length vs) * (t * t))) with (INR (length (below (m - t) vs)) * (t * t)) by (field; lra).
  replace (sum (map (fun v => (v - m) * (v - m)) vs) / INR (length vs) / (t * t) * (INR (length vs) * (t * t))) with (sum (map (fun v => (v - m) * (v - m)) vs)) by (field; lra). auto.
Qed.
Print Assumptions C152_chebyshev.
Example C152_case : mean [1; 2; 6] = 3 /\ variance [1; 2; 6] = 14 / 3 /\ probability [1; 2; 6] 2 = 2 / 3.
Proof.
  unfold mean, variance, mean, probability. cbn. repeat (match goal with |- context [Rle_dec ?a ?b] => destruct (Rle_dec a b); try lra end). cbn. repeat split; lra.
Qed.

(** *** C153: density estimates *)

Lemma classic_pair seeds d : varies seeds d \/ (forall v w, In v (coord seeds d) -> In w (coord seeds d) -> v = w).
Proof.
  destruct seeds as [|p0 seeds]; [right; intros v w []|].
  assert (G : forall l, (exists q, In q l /\ nth d p0 0 <> nth d q 0) \/ (forall q, In q l -> nth d q 0 = nth d p0 0)).
  { induction l as [|q l [(r & Hr & N)|H]]; [right; intros q []|left; exists r; cbn; auto|].
    destruct (Req_EM_T (nth d q 0) (nth d p0 0)) as [E|N]; [right; intros r [->|Hr]; auto|left; exists q; cbn; auto]. }
  destruct (G (p0 :: seeds)) as [(q & Hq & N)|H].
  - left. exists p0, q. cbn in *. auto.
  - right. intros v w Hv Hw. unfold coord in *. apply in_map_iff in Hv as (a & <- & Ha). apply in_map_iff in Hw as (b & <- & Hb). rewrite (H a Ha), (H b Hb). auto.
Qed.

Theorem C153_defined seeds dim : kde_defined seeds dim = true <-> (1 < length seeds)%nat /\ (forall d, (d < dim)%nat -> varies seeds d).
Proof.
  rewrite defined_spec. split; intros [L V]; split; auto; intros d Hd; specialize (V d Hd).
  - destruct (classic_pair seeds d) as [H|H]; auto. elim V. apply variance2_const. exact H.
  - destruct V as (p & q & Hp & Hq & Ne). intros E. apply Ne. apply (variance2_zero (coord seeds d)); auto; [rewrite coord_length; auto| |]; unfold coord; apply in_map_iff; eauto.
Qed.
Print Assumptions C153_defined.

Lemma kde_some seeds dim x : kde_defined seeds dim = true -> kde seeds dim x = Some (average (map (kernel seeds dim x) seeds)).
Proof. intros D. unfold kde, kde_value, average. rewrite D, fold_sum, map_length, Rplus_0_l. auto. Qed.

(** Positive everywhere, and no larger than the peak of one kernel. *)
Theorem C153_positive seeds dim x v : kde seeds dim x = Some v -> 0 < v <= kernel seeds dim x x.
Proof.
  intros H. destruct (kde_defined seeds dim) eqn:D; [|unfold kde in H; rewrite D in H; discriminate]. rewrite kde_some in H by auto. injection H as <-.
  assert (N : seeds <> []) by (apply defined_spec in D as [L _]; intros ->; cbn in L; lia). pose proof (INR_length_pos _ N) as P. unfold average. rewrite map_length. split.
  - apply Rdiv_lt_0_compat; auto. apply sum_pos; [destruct seeds; cbn; congruence|]. apply Forall_forall. intros y Hy. apply in_map_iff in Hy as (s & <- & _). apply kernel_pos; auto.
  - apply Rmult_le_reg_r with (INR (length seeds)); auto. unfold Rdiv. rewrite Rmult_assoc, Rinv_l by lra. rewrite Rmult_1_r, Rmult_comm, <- (sum_const _ seeds).
    apply sum_le. intros s _. unfold kernel. rewrite !fold_prod, !Rmult_1_l.
    assert (F : forall d, In d (seq 0 dim) -> 0 < bandwidth seeds dim d) by (intros d Hd; apply in_seq in Hd; apply bandwidth_pos; auto; lia).
    induction (seq 0 dim) as [|d l IH]; cbn [map prod fold_right]; [lra|]. unfold prod in *.
    pose proof (F d (or_introl eq_refl)) as B. pose proof (kcoeff_pos _ B) as K. apply Rmult_le_compat.
    + apply Rlt_le, Rmult_lt_0_compat; auto. apply exp_pos.
    + apply Rlt_le. apply (prod_pos (map _ l)), Forall_forall. intros y Hy. apply in_map_iff in Hy as (e & <- & He). apply Rmult_lt_0_compat; [apply kcoeff_pos, F; cbn; auto|apply exp_pos].
    + apply Rmult_le_compat_l; [lra|]. set (sg := bandwidth seeds dim d) in *. set (t := nth d x 0 - nth d s 0). replace (nth d x 0 - nth d x 0) with 0 by ring.
      assert (E : -1 * t * t / (2 * sg * sg) <= -1 * 0 * 0 / (2 * sg * sg)).
      { unfold Rdiv. apply Rmult_le_compat_r; [left; apply Rinv_0_lt_compat; nra|]. pose proof (Rle_0_sqr t) as S0. unfold Rsqr in S0. lra. }
      destruct E as [E|E]; [left; apply exp_increasing; auto|rewrite E; lra].
    + apply IH. intros e He. apply F. cbn; auto.
Qed.
Print Assumptions C153_positive.

(** The order of the data does not matter. *)
Theorem C153_order seeds seeds' dim x : Permutation seeds seeds' -> kde seeds dim x = kde seeds' dim x.
Proof.
  intros H. assert (B : forall d, bandwidth seeds dim d = bandwidth seeds' dim d).
  { intros d. unfold bandwidth. rewrite (variance2_perm _ _ (coord_perm _ _ d H)), (Permutation_length H). auto. }
  assert (D : kde_defined seeds dim = kde_defined seeds' dim).
  { apply eq_true_iff_eq. rewrite !defined_spec, (Permutation_length H). split; intros [L V]; split; auto; intros d Hd; specialize (V d Hd); [rewrite <- (variance2_perm _ _ (coord_perm _ _ d H))|rewrite (variance2_perm _ _ (coord_perm _ _ d H))]; auto. }
  destruct (kde_defined seeds' dim) eqn:D'; [|unfold kde; rewrite D, D'; auto]. rewrite !kde_some by auto. f_equal.
  rewrite (average_perm _ _ (Permutation_map (kernel seeds dim x) H)). f_equal. apply map_ext. intros s. unfold kernel. f_equal. apply map_ext. intros d. rewrite B. auto.
Qed.
Print Assumptions C153_order.

(** In other units the estimate is the same density: it is divided by the change of volume. *)
Theorem C153_units dim a b seeds x : (forall d, (d < dim)%nat -> a d <> 0) ->
  kde (map (convert dim a b) seeds) dim (convert dim a b x) = option_map (Rmult (/ jacobian dim a)) (kde seeds dim x).
Proof.
  intros A. destruct (kde_defined seeds dim) eqn:D; [|unfold kde; rewrite defined_convert, D by auto; auto].
  rewrite !kde_some by (auto; rewrite defined_convert; auto). cbn. f_equal. unfold average. rewrite !map_length, map_map.
  rewrite (sum_ext _ (fun s => / jacobian dim a * kernel seeds dim x s)) by (intros; apply kernel_convert; auto). rewrite sum_scale. unfold Rdiv. ring.
Qed.
Print Assumptions C153_units.

(** One-dimensional data: the value falls to the Gaussian of the distance. *)
Theorem C153_one_dimension seeds x : kde_defined seeds 1 = true -> let sg := bandwidth seeds 1 0 in 0 < sg /\
  kde seeds 1 x = Some (average (map (fun s => exp (- ((nth 0 x 0 - nth 0 s 0) / sg) ^ 2 / 2) / (sg * sqrt (2 * PIc))) seeds)).
Proof.
  intros D sg. assert (P : 0 < sg) by (apply bandwidth_pos; auto). split; auto. rewrite kde_some by auto. do 2 f_equal. apply map_ext. intros s.
  unfold kernel. cbn [seq map fold_left]. fold sg. rewrite kcoeff_val by auto. rewrite Rmult_1_l. pose proof sqrt_2pi.
  replace (-1 * (nth 0 x 0 - nth 0 s 0) * (nth 0 x 0 - nth 0 s 0) / (2 * sg * sg)) with (- ((nth 0 x 0 - nth 0 s 0) / sg) ^ 2 / 2) by (field; lra). field. split; lra.
Qed.
Print Assumptions C153_one_dimension.
Example C153_case : kde_defined [[0]; [1]; [3]] 1 = true /\ jacobian 1 (fun _ => -2) = 2.
Proof.
  split; [|unfold jacobian; cbn; rewrite Rabs_left; lra]. apply C153_defined. split; [cbn; lia|]. intros d Hd. assert (d = 0%nat) by lia. subst. exists [0], [1]. cbn. repeat split; auto; lra.
Qed.

(** *** C154: data-consistent inversion does not depend on the units *)

Definition convert_obs (dim : nat) (a b : nat -> R) (o : observed) : observed :=
  match o with
  | ObsGauss m v => ObsGauss (a 0%nat * m + b 0%nat) (a 0%nat * a 0%nat * v)
  | ObsUniform l h => if Rlt_dec 0 (a 0%nat) then ObsUniform (a 0%nat * l + b 0%nat) (a 0%nat * h + b 0%nat) else ObsUniform (a 0%nat * h + b 0%nat) (a 0%nat * l + b 0%nat)
  | ObsData pts => ObsData (map (convert dim a b) pts)
  end.
Definition proper (o : observed) : Prop :=
  match o with ObsGauss _ v => 0 < v | ObsUniform l h => l < h | ObsData _ => True end.

Lemma obs_convert dim a b o : (0 < dim)%nat -> (forall d, (d < dim)%nat -> a d <> 0) -> proper o ->
  exists c, c <> 0 /\ forall y, obs_density (convert_obs dim a b o) dim (convert dim a b y) = option_map (Rmult c) (obs_density o dim y).
Proof.
  intros Dm A P. pose proof (A 0%nat Dm) as A0. pose proof (Rabs_pos_lt _ A0) as Ab. destruct o as [m v|l h|pts]; cbn [convert_obs].
  - exists (/ Rabs (a 0%nat)). split; [apply Rinv_neq_0_compat; lra|]. intros y. cbn [obs_density option_map]. f_equal. rewrite convert_nth by auto. cbn in P.
    assert (Q : a 0%nat * a 0%nat <> 0) by (apply Rmult_integral_contrapositive_currified; auto).
    replace (-1 * (a 0%nat * nth 0 y 0 + b 0%nat - (a 0%nat * m + b 0%nat)) * (a 0%nat * nth 0 y 0 + b 0%nat - (a 0%nat * m + b 0%nat)) / (2 * (a 0%nat * a 0%nat * v)))
      with (-1 * (nth 0 y 0 - m) * (nth 0 y 0 - m) / (2 * v)) by (field; split; lra).
    rewrite (sqrt_mult_alt (a 0%nat * a 0%nat)) by apply Rle_0_sqr. replace (sqrt (a 0%nat * a 0%nat)) with (Rabs (a 0%nat)) by (symmetry; apply sqrt_Rsqr_abs).
    pose proof sqrt_2pi. pose proof (sqrt_lt_R0 v P). field. repeat split; lra.
  - exists (/ Rabs (a 0%nat)). split; [apply Rinv_neq_0_compat; lra|]. intros y. cbn in P.
    destruct (Rlt_dec 0 (a 0%nat)) as [H|H]; cbn [obs_density option_map]; f_equal; rewrite convert_nth by auto.
    + rewrite Rabs_right by lra.
      destruct (Rlt_dec (a 0%nat * l + b 0%nat) (a 0%nat * nth 0 y 0 + b 0%nat)), (Rlt_dec l (nth 0 y 0)); try nra.
      destruct (Rlt_dec (a 0%nat * nth 0 y 0 + b 0%nat) (a 0%nat * h + b 0%nat)), (Rlt_dec (nth 0 y 0) h); try nra.
      replace (a 0%nat * h + b 0%nat - (a 0%nat * l + b 0%nat)) with (a 0%nat * (h - l)) by ring. field. split; lra.
    + assert (a 0%nat < 0) by lra. rewrite Rabs_left by lra.
      destruct (Rlt_dec (a 0%nat * h + b 0%nat) (a 0%nat * nth 0 y 0 + b 0%nat)) as [G1|G1], (Rlt_dec l (nth 0 y 0)) as [G2|G2], (Rlt_dec (nth 0 y 0) h) as [G3|G3], (Rlt_dec (a 0%nat * nth 0 y 0 + b 0%nat) (a 0%nat * l + b 0%nat)) as [G4|G4]; try nra.
      replace (a 0%nat * l + b 0%nat - (a 0%nat * h + b 0%nat)) with (- a 0%nat * (h - l)) by ring. field. split; lra.
  - exists (/ jacobian dim a). split; [apply Rinv_neq_0_compat, Rgt_not_eq, jacobian_pos; auto|]. intros y. cbn [obs_density]. apply C153_units. auto.
Qed.

Lemma ratio_convert dim a b o pred : (0 < dim)%nat -> (forall d, (d < dim)%nat -> a d <> 0) -> proper o ->
  exists c, c <> 0 /\ forall y, ratio (convert_obs dim a b o) (map (convert dim a b) pred) dim (convert dim a b y) = option_map (Rmult c) (ratio o pred dim y).
Proof.
  intros Dm A P. destruct (obs_convert dim a b o Dm A P) as (c & C0 & H). pose proof (jacobian_pos dim a A) as J. exists (c * jacobian dim a).
  split; [apply Rmult_integral_contrapositive_currified; lra|]. intros y. unfold ratio. rewrite H, C153_units by auto. destruct (obs_density o dim y) as [u|]; cbn; auto.
  destruct (kde pred dim y) as [v|] eqn:K; cbn; auto. apply C153_positive in K as [K _]. f_equal. field. split; lra.
Qed.

(** The same samples are accepted whatever the units of the responses. *)
Theorem C154_units dim a b o pred us : dims dim pred -> pred <> [] -> (0 < dim)%nat -> (forall d, (d < dim)%nat -> a d <> 0) -> proper o ->
  dci (convert_obs dim a b o) (map (convert dim a b) pred) us = dci o pred us.
Proof.
  intros Ds N Dm A P. unfold dci.
  replace (length (nth 0 pred [])) with dim by (destruct Ds; [congruence|cbn; auto]).
  replace (length (nth 0 (map (convert dim a b) pred) [])) with dim by (destruct pred; [congruence|]; cbn; unfold convert; rewrite map_length, seq_length; auto).
  destruct (ratio_convert dim a b o pred Dm A P) as (c & C0 & H). rewrite map_map. rewrite (map_ext _ _ H), <- (map_map (ratio o pred dim) (option_map (Rmult c))). apply C150_scale. auto.
Qed.
Print Assumptions C154_units.

(** The responses kept are among the responses and their mean lies between them. *)
Theorem C154_accepted pred acc j m : accepted_mean pred acc j = Some m ->
  incl (accepted pred acc) pred /\ accepted pred acc <> [] /\ m = average (coord (accepted pred acc) j) /\
  (forall lo hi, (forall y, In y pred -> lo <= nth j y 0 <= hi) -> lo <= m <= hi).
Proof.
  unfold accepted_mean. intros H.
  assert (I : incl (accepted pred acc) pred).
  { unfold accepted. intros y Hy. apply in_map_iff in Hy as ((p, q) & <- & Hp). apply filter_In in Hp as [Hp _]. apply in_combine_l in Hp. auto. }
  destruct (accepted pred acc) as [|y l] eqn:Acc; [discriminate|]. rewrite <- Acc in *. assert (N : accepted pred acc <> []) by congruence.
  assert (M : m = average (coord (accepted pred acc) j)).
  { injection H as <-. rewrite fold_sum. unfold average. rewrite coord_length. unfold Rdiv. ring. }
  split; [auto|]. split; [auto|]. split; [auto|]. intros lo hi B. rewrite M, <- mean_average. apply C152_mean.
  - intros Z. apply N. unfold coord in Z. apply map_eq_nil in Z. auto.
  - apply Forall_forall. intros v Hv. unfold coord in Hv. apply in_map_iff in Hv as (p & <- & Hp). auto.
Qed.
Print Assumptions C154_accepted.
(** The reported variance is that of at least two accepted responses about the reported mean,
    with n - 1 in the denominator. *)
Theorem C154_variance pred acc j v : accepted_variance pred acc j = Some v ->
  (2 <= length (accepted pred acc))%nat /\ (exists m, accepted_mean pred acc j = Some m /\
   v * (INR (length (accepted pred acc)) - 1) = sum (map (fun x => (x - m) * (x - m)) (coord (accepted pred acc) j))) /\
  v * (INR (length (accepted pred acc)) - 1) = INR (length (accepted pred acc)) * variance (coord (accepted pred acc) j) /\ 0 <= v.
Proof.
  unfold accepted_variance. intros H. destruct (accepted pred acc) as [| y [| z l]] eqn:E; try discriminate. rewrite <- E in *.
  destruct (accepted_mean pred acc j) as [m|] eqn:M; [| discriminate].
  destruct (C154_accepted pred acc j m M) as (_ & _ & A & _).
  assert (L : (2 <= length (accepted pred acc))%nat) by (rewrite E; cbn; lia).
  assert (N : 2 <= INR (length (accepted pred acc))) by (apply le_INR in L; cbn in L; lra).
  assert (V : v * (INR (length (accepted pred acc)) - 1) = sum (map (fun x => (x - m) * (x - m)) (coord (accepted pred acc) j))).
  { injection H as <-. rewrite fold_sum, Rplus_0_l. generalize (coord (accepted pred acc) j) as cs. intros cs.
    induction cs as [| c cs IH]; cbn [map sum fold_right] in *; [ring |]. rewrite Rmult_plus_distr_r. change (fold_right Rplus 0) with sum in *. rewrite IH. field. lra. }
  assert (S0 : forall cs, 0 <= sum (map (fun x => (x - m) * (x - m)) cs)).
  { induction cs as [| c cs IH]; cbn [map sum fold_right]; [lra |]. change (fold_right Rplus 0) with sum. pose proof (Rle_0_sqr (c - m)). unfold Rsqr in *. lra. }
  split; [exact L |]. split; [exists m; split; [reflexivity | exact V] |]. split.
  - rewrite V, variance_sum. unfold average at 1. rewrite map_length, coord_length, <- A. field. lra.
  - apply (Rmult_le_reg_r (INR (length (accepted pred acc)) - 1)); [lra |]. rewrite Rmult_0_l, V. apply S0.
Qed.
Print Assumptions C154_variance.
Example C154_variance_case : accepted_variance [[1]; [5]; [3]] [true; false; true] 0 = Some 2.
Proof. unfold accepted_variance, accepted_mean. cbn. f_equal. field. Qed.

Lemma kde_at pred dim y : kde_defined pred dim = true -> exists v, kde pred dim y = Some v /\ 0 < v.
Proof. intros D. rewrite kde_some by auto. eexists. split; [reflexivity|]. eapply C153_positive. rewrite kde_some by eauto. reflexivity. Qed.
Lemma acc_nonempty pred acc k : nth_error acc k = Some true -> (k < length pred)%nat -> accepted pred acc <> [].
Proof.
  intros H L. destruct (nth_error pred k) as [p|] eqn:E; [|apply nth_error_None in E; lia]. pose proof (combine_nth_error _ _ _ _ _ E H) as C. apply nth_error_In in C.
  intros Z. unfold accepted in Z. apply map_eq_nil in Z. assert (In (p, true) (filter snd (combine pred acc))) by (apply filter_In; auto). rewrite Z in H0. destruct H0.
Qed.
Lemma max_exists {A} (f : A -> R) (l : list A) : l <> [] -> exists k a, nth_error l k = Some a /\ forall b, In b l -> f b <= f a.
Proof.
  intros N. induction l as [|a l IH]; [congruence|]. destruct l as [|b l]; [exists 0%nat, a; split; auto; intros c [->|[]]; lra|].
  destruct IH as (k & c & E & M); [congruence|]. destruct (Rle_dec (f a) (f c)).
  - exists (Datatypes.S k), c. split; auto. intros d [->|Hd]; auto.
  - exists 0%nat, a. split; auto. intros d [->|Hd]; [lra|]. specialize (M d Hd). lra.
Qed.
(** When the responses vary and some response has a positive observed density,
    at least one sample is accepted, so the reported mean exists. *)
Theorem C154_some_accepted o pred us dim : dims dim pred -> pred <> [] -> kde_defined pred dim = true ->
  (exists f, (forall y, obs_density o dim y = Some (f y)) /\ exists y, In y pred /\ f y <> 0) -> length us = length pred -> Forall (fun u => 0 <= u <= 1) us ->
  exists j, nth_error (dci o pred us) j = Some true /\ (j < length pred)%nat /\ forall i, exists m, accepted_mean pred (dci o pred us) i = Some m.
Proof.
  intros Ds N D (f & F & y0 & Y0 & P0) L U.
  assert (R0 : forall y, exists r, ratio o pred dim y = Some r /\ (r = 0 <-> f y = 0)).
  { intros y. unfold ratio. rewrite F. destruct (kde_at pred dim y D) as (v & -> & V). exists (f y / v). split; auto. unfold Rdiv. split; [intros Z; apply Rmult_integral in Z as [|Z]; auto; pose proof (Rinv_0_lt_compat v V); lra|intros ->; ring]. }
  set (g := fun y => match ratio o pred dim y with Some r => Rabs r | None => 0 end).
  destruct (max_exists g pred N) as (k & y & Ey & M). destruct (R0 y) as (r & Er & Zr).
  assert (K : nth_error (dci o pred us) k = Some true).
  { assert (Kl : (k < length us)%nat) by (rewrite L; apply nth_error_Some; congruence). destruct (nth_error us k) as [u|] eqn:Eu; [|apply nth_error_None in Eu; lia].
    unfold dci. replace (length (nth 0 pred [])) with dim by (destruct Ds; [congruence|cbn; auto]).
    apply (C150_largest_kept _ _ k r u); auto.
    - rewrite <- Er. apply map_nth_error. auto.
    - rewrite Forall_forall in U. apply U. eapply nth_error_In; eauto.
    - intros r' H. apply in_map_iff in H as (y' & E' & H'). specialize (M y' H'). unfold g in M. rewrite E', Er in M. auto.
    - intros Z. subst r. specialize (M y0 Y0). unfold g in M. rewrite Er, Rabs_R0 in M. destruct (R0 y0) as (r1 & E1 & Z1). rewrite E1 in M. pose proof (Rabs_pos r1). apply P0, Z1. destruct (Req_dec r1 0) as [|Nz]; auto. pose proof (Rabs_pos_lt r1 Nz). lra. }
  assert (Kp : (k < length pred)%nat) by (apply nth_error_Some; congruence). exists k. split; [auto|]. split; [auto|].
  pose proof (acc_nonempty pred _ k K Kp) as A. intros i. unfold accepted_mean. destruct (accepted pred (dci o pred us)); [congruence|]. eauto.
Qed.
Print Assumptions C154_some_accepted.
Example C154_case : dims 1 [[0]; [1]; [3]] /\ kde_defined [[0]; [1]; [3]] 1 = true /\ proper (ObsUniform 0 2) /\
  exists f, (forall y, obs_density (ObsUniform 0 2) 1 y = Some (f y)) /\ exists y, In y [[0]; [1]; [3]] /\ f y <> 0.
Proof.
  split; [repeat constructor|]. split; [apply C153_case|]. split; [cbn; lra|]. eexists. split; [intros y; reflexivity|]. exists [1]. cbn. split; [auto|].
  destruct (Rlt_dec 0 1), (Rlt_dec 1 2); lra.
Qed.

(** *** C155: what it does when the estimate or the overlap fails *)

Theorem C155_partial o pred dim y : kde_defined pred dim = true -> (forall pts, o = ObsData pts -> kde_defined pts dim = true) -> exists r, ratio o pred dim y = Some r.
Proof.
  intros D O. unfold ratio. destruct (kde_at pred dim y D) as (v & -> & _). destruct o as [m w|l h|pts]; cbn; eauto.
  destruct (kde_at pts dim y (O pts eq_refl)) as (u & -> & _). eauto.
Qed.
Print Assumptions C155_partial.

(** No response in the observed range: nothing is accepted and the mean is 0/0. *)
Theorem C155_no_overlap_refuted : proper (ObsUniform 5 6) /\ kde_defined [[0]; [1]; [3]] 1 = true /\
  forall us, length us = 3%nat -> dci (ObsUniform 5 6) [[0]; [1]; [3]] us = [false; false; false] /\ accepted_mean [[0]; [1]; [3]] (dci (ObsUniform 5 6) [[0]; [1]; [3]] us) 0 = None.
Proof.
  split; [cbn; lra|]. split; [apply C153_case|]. intros us L.
  assert (E : dci (ObsUniform 5 6) [[0]; [1]; [3]] us = [false; false; false]).
  { unfold dci. cbn [nth length]. assert (Z : forall y, In y [[0]; [1]; [3]] -> ratio (ObsUniform 5 6) [[0]; [1]; [3]] 1 y = Some 0).
    { intros y Hy. unfold ratio. destruct (kde_at [[0]; [1]; [3]] 1 y) as (v & -> & V); [apply C153_case|]. cbn [obs_density].
      destruct (Rlt_dec 5 (nth 0 y 0)) as [G|G]; [destruct Hy as [<-|[<-|[<-|[]]]]; cbn in G; lra|]. f_equal. unfold Rdiv. ring. }
    cbn [map]. rewrite !Z by (cbn; auto). destruct us as [|u1 [|u2 [|u3 [|]]]]; try discriminate. 
    assert (L0 : largest [Some 0; Some 0; Some 0] = 0) by (apply largest_sup; split; [intros x [Ex|[Ex|[Ex|[]]]]; injection Ex as <-; rewrite Rabs_R0; lra|exists 0; rewrite Rabs_R0; cbn; auto]).
    unfold rejection. rewrite L0. unfold accepts. cbn [combine map fst snd]. destruct (Req_EM_T 0 0); [auto|congruence]. }
  rewrite E. split; auto.
Qed.
Print Assumptions C155_no_overlap_refuted.

(** A single sample, or a response that does not vary (here the second one):
    no density can be estimated and nothing is accepted. *)
Theorem C155_constant_refuted : let pred := [[0; 7]; [1; 7]; [3; 7]] in proper (ObsGauss 1 1) /\
  (forall us, length us = 3%nat -> dci (ObsGauss 1 1) pred us = [false; false; false]) /\ (forall u, dci (ObsGauss 1 1) [[1]] [u] = [false]).
Proof.
  cbv zeta. assert (D : kde_defined [[0; 7]; [1; 7]; [3; 7]] 2 = false).
  { apply not_true_iff_false. intros H. apply C153_defined in H as [_ H]. destruct (H 1%nat) as (p & q & Hp & Hq & Ne); [lia|].
    destruct Hp as [<-|[<-|[<-|[]]]], Hq as [<-|[<-|[<-|[]]]]; apply Ne; reflexivity. }
  split; [cbn; lra|]. split.
  - intros us L. unfold dci. cbn [nth length map]. unfold ratio, kde. rewrite D. destruct us as [|u1 [|u2 [|u3 [|]]]]; try discriminate. reflexivity.
  - intros u. reflexivity.
Qed.
Print Assumptions C155_constant_refuted.

(** With a Gaussian or uniform observed density only the first response is
    observed, but the predicted density is of all responses: an unobserved second
    response reorders the ratios. *)
Lemma var_013 : variance2 [0; 1; 3] = 7 / 3 /\ variance2 [0; 3; 1] = 7 / 3.
Proof. unfold variance2, mean2. cbn. split; field. Qed.
Lemma exp_lt a b : a < b -> exp a < exp b.
Proof. apply exp_increasing. Qed.
Theorem C155_dimension_refuted : let o := ObsUniform (-1) 4 in let p1 := [[0]; [1]; [3]] in let p2 := [[0; 0]; [1; 3]; [3; 1]] in
  coord p1 0 = coord p2 0 /\
  (exists r0 r2, ratio o p1 1 [0] = Some r0 /\ ratio o p1 1 [3] = Some r2 /\ r0 < r2) /\
  (exists r0 r2, ratio o p2 2 [0; 0] = Some r0 /\ ratio o p2 2 [3; 1] = Some r2 /\ r2 < r0).
Proof.
  cbv zeta. split; [reflexivity|].
  assert (O : forall dim y, -1 < nth 0 y 0 < 4 -> obs_density (ObsUniform (-1) 4) dim y = Some (1 / 5)).
  { intros dim y H. cbn. destruct (Rlt_dec (-1) (nth 0 y 0)), (Rlt_dec (nth 0 y 0) 4); try lra. f_equal. lra. }
  assert (Inv : forall u v, 0 < u -> u < v -> 1 / 5 / v < 1 / 5 / u).
  { intros u v U V. unfold Rdiv. apply Rmult_lt_compat_l; [lra|]. apply Rinv_lt_contravar; [nra|auto]. }
  destruct var_013 as [V1 V2]. split.
  - assert (D : kde_defined [[0]; [1]; [3]] 1 = true) by apply C153_case.
    unfold ratio. rewrite !O by (cbn; lra). rewrite !kde_some by auto. do 2 eexists. split; [reflexivity|]. split; [reflexivity|].
    assert (B : 0 < bandwidth [[0]; [1]; [3]] 1 0) by (apply bandwidth_pos; auto).
    apply Inv; [apply Rdiv_lt_0_compat; [apply sum_pos; [discriminate|]; apply Forall_forall; intros z Hz; apply in_map_iff in Hz as (w & <- & _); apply kernel_pos; auto|cbn; lra]|].
    unfold average. cbn [length map]. apply Rmult_lt_compat_r; [apply Rinv_0_lt_compat; cbn; lra|].
    unfold sum, kernel. cbn [map seq fold_left fold_right nth]. set (sg := bandwidth [[0]; [1]; [3]] 1 0) in *. pose proof (kcoeff_pos sg B) as K.
    replace (-1 * (3 - 0) * (3 - 0) / (2 * sg * sg)) with (-1 * (0 - 3) * (0 - 3) / (2 * sg * sg)) by (unfold Rdiv; ring).
    assert (X : exp (-1 * (3 - 1) * (3 - 1) / (2 * sg * sg)) < exp (-1 * (0 - 1) * (0 - 1) / (2 * sg * sg))).
    { apply exp_lt. unfold Rdiv. apply Rmult_lt_compat_r; [apply Rinv_0_lt_compat; nra|lra]. }
    replace (-1 * (3 - 3) * (3 - 3) / (2 * sg * sg)) with (-1 * (0 - 0) * (0 - 0) / (2 * sg * sg)) by (unfold Rdiv; ring). nra.
  - assert (D : kde_defined [[0; 0]; [1; 3]; [3; 1]] 2 = true).
    { apply C153_defined. split; [cbn; lia|]. intros d Hd. exists [0; 0], [1; 3]. destruct d as [|[|d]]; [| |lia]; cbn; repeat split; auto; lra. }
    unfold ratio. rewrite !O by (cbn; lra). rewrite !kde_some by auto. do 2 eexists. split; [reflexivity|]. split; [reflexivity|].
    assert (B : 0 < bandwidth [[0; 0]; [1; 3]; [3; 1]] 2 0) by (apply bandwidth_pos; auto).
    assert (B1 : bandwidth [[0; 0]; [1; 3]; [3; 1]] 2 1 = bandwidth [[0; 0]; [1; 3]; [3; 1]] 2 0).
    { unfold bandwidth, coord. cbn [map nth]. rewrite V1, V2. auto. }
    apply Inv; [apply Rdiv_lt_0_compat; [apply sum_pos; [discriminate|]; apply Forall_forall; intros z Hz; apply in_map_iff in Hz as (w & <- & _); apply kernel_pos; auto|cbn; lra]|].
    unfold average. cbn [length map]. apply Rmult_lt_compat_r; [apply Rinv_0_lt_compat; cbn; lra|].
    unfold sum, kernel. cbn [map seq fold_left fold_right nth]. rewrite B1. set (sg := bandwidth [[0; 0]; [1; 3]; [3; 1]] 2 0) in *. pose proof (kcoeff_pos sg B) as K.
    assert (G : forall s t, 1 * (kcoeff sg * exp (-1 * s * s / (2 * sg * sg))) * (kcoeff sg * exp (-1 * t * t / (2 * sg * sg))) = kcoeff sg * kcoeff sg * exp (- (s * s + t * t) * / (2 * sg * sg))).
    { intros s t. replace (- (s * s + t * t) * / (2 * sg * sg)) with (-1 * s * s / (2 * sg * sg) + -1 * t * t / (2 * sg * sg)) by (unfold Rdiv; ring). rewrite exp_plus. ring. }
    rewrite !G.
    assert (X : exp (- ((0 - 1) * (0 - 1) + (0 - 3) * (0 - 3)) * / (2 * sg * sg)) < exp (- ((3 - 1) * (3 - 1) + (1 - 3) * (1 - 3)) * / (2 * sg * sg))).
    { apply exp_lt. apply Rmult_lt_compat_r; [apply Rinv_0_lt_compat; nra|lra]. }
    replace ((0 - 3) * (0 - 3) + (0 - 1) * (0 - 1)) with ((3 - 0) * (3 - 0) + (1 - 0) * (1 - 0)) by ring.
    replace ((3 - 3) * (3 - 3) + (1 - 1) * (1 - 1)) with ((0 - 0) * (0 - 0) + (0 - 0) * (0 - 0)) by ring.
    assert (KK : 0 < kcoeff sg * kcoeff sg) by (apply Rmult_lt_0_compat; auto). nra.
Qed.
Print Assumptions C155_dimension_refuted.
