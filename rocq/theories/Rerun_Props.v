(** C58: repeated evaluations. *)
From Coq Require Import Bool Arith Lia Reals Lra List.
From Verif Require Import Sparse_Model Sparse_Props Mass_Props Tableau_Model Tableau_Props Transient_Model Transient_Proofs Transient_Props Rerun_Model.
Import ListNotations.
Local Open Scope R_scope.

Section Same.
Context {X : Type}.
Variable opts : list options.
Variable kinds : list dkind.
Variable fixed : nat -> nat -> bool.
Variable proj : nat -> X -> R -> vec.
Variable solve : X -> nat -> nat -> nat -> R -> R -> scheme -> list vec -> list vec -> list vec -> vec * nat.
Variable init : X -> list vec.
Variable maxcuts : nat.
Variable t0 end_time : R.
Variable dt0 : R.
Variable restart : list vec.
Notation forward := (forward opts kinds fixed proj solve init false maxcuts t0 end_time).
Notation forwards := (forwards opts kinds fixed proj solve init false maxcuts t0 end_time).
Notation fresh := (fresh opts kinds dt0 restart).

Lemma upd_map {A B} (f : A -> B) l n a b : nth_error l n = Some b -> f a = f b -> map f (upd l n a) = map f l.
Proof. revert n. induction l as [|c l IH]; intros [|n] H E; cbn in *; auto; try discriminate; [injection H as ->; congruence|]. f_equal. eauto. Qed.

(** No set changes its scheme. *)
Definition one_scheme : Prop := Forall (fun o => (o_bdf o <= 1)%nat) opts.

Lemma set_scheme dbc sv a s t d acc set : one_scheme -> map x_scheme (fst (do_set opts dbc sv a s t d acc set)) = map x_scheme (fst acc).
Proof.
  intros OS. destruct acc as [xs st]. unfold do_set. cbn [fst]. destruct (nth_error xs set) as [x|] eqn:EX; [|auto]. destruct (nth_error opts set) as [o|] eqn:EO; [|auto].
  assert (B : (o_bdf o <= 1)%nat) by (unfold one_scheme in OS; rewrite Forall_forall in OS; apply OS; eapply nth_error_In; eauto).
  destruct (Nat.ltb_spec 1 (o_bdf o)); [lia|]. cbn [andb].
  destruct (fold_left _ _ _) as [[so sg] stt]. cbn [fst]. eapply upd_map; eauto.
Qed.

Lemma attempt_scheme dbc sv st : one_scheme -> map x_scheme (t_sets (attempt opts dbc sv st)) = map x_scheme (t_sets st).
Proof.
  intros OS. unfold attempt.
  assert (G : forall l acc, map x_scheme (fst (fold_left (do_set opts dbc sv (t_attempt st) (t_step st) (t_time st) (t_dt st)) l acc)) = map x_scheme (fst acc)).
  { induction l as [|n l IH]; intros acc; cbn [fold_left]; auto. rewrite IH. apply set_scheme. auto. }
  specialize (G (seq 0 (length (t_sets st))) (t_sets st, 0%nat)). destruct (fold_left _ _ _) as [xs status]. cbn [fst] in G.
  destruct (Nat.eqb status 0); cbn [t_sets]; auto. rewrite map_map. cbn [x_scheme]. exact G.
Qed.

Lemma trace_keeps dbc x : one_scheme -> always_ok (solve x) -> forall n st f l, trace opts solve maxcuts end_time dbc x n st = Some (f, l) ->
  map x_scheme (t_sets f) = map x_scheme (t_sets st) /\ t_dt f = t_dt st.
Proof.
  intros OS OK. induction n as [|n IH]; intros st f l H; cbn [trace] in H; destruct (continues maxcuts end_time st); try discriminate; try (injection H as <- <-; auto).
  destruct (trace _ _ _ _ _ _ n _) as [[f' l']|] eqn:E; [|discriminate]. injection H as <- <-.
  destruct (IH _ _ _ E) as [A B]. rewrite A, B. split; [apply attempt_scheme; auto|]. apply attempt_ok. auto.
Qed.

(** Static boundary data do not depend on the parameters. *)
Definition static_ok : Prop := forall set x y, nth_error kinds set = Some Static -> proj set x t0 = proj set y t0.

(** What remains of earlier runs. *)
Definition clean (p : psolver) : Prop :=
  v_dt p = dt0 /\ v_schemes p = map initial_scheme opts /\ length (v_bc p) = length kinds /\
  forall set v, nth_error (v_bc p) set = Some (Some v) -> nth_error kinds set = Some Static /\ exists x, v = proj set x t0.

Lemma combine_nth_error {A B} (l : list A) (m : list B) n : nth_error (combine l m) n = match nth_error l n, nth_error m n with Some a, Some b => Some (a, b) | _, _ => None end.
Proof. revert m n. induction l as [|a l IH]; intros [|b m] [|n]; cbn; auto; try (destruct (nth_error l n); auto; fail). Qed.
Lemma nth_error_seq' n : forall s k, (k < n)%nat -> nth_error (seq s n) k = Some (s + k)%nat.
Proof. induction n as [|n IH]; intros s [|k] H; cbn; try lia; [f_equal; lia|]. rewrite IH by lia. f_equal. lia. Qed.

Lemma static_nth x p set : length (v_bc p) = length kinds -> nth_error (static_data kinds proj t0 x p) set =
  match nth_error kinds set, nth_error (v_bc p) set with
  | Some Static, Some None => Some (Some (proj set x t0))
  | Some _, Some o => Some o
  | _, _ => None
  end.
Proof.
  intros L. unfold static_data. rewrite nth_error_map, combine_nth_error, combine_nth_error.
  destruct (Nat.lt_ge_cases set (length kinds)) as [H|H].
  - rewrite nth_error_seq' by auto. cbn [Nat.add]. destruct (nth_error kinds set) as [[v| |]|] eqn:K; [| | |apply nth_error_None in K; lia]; destruct (nth_error (v_bc p) set) as [[w|]|]; reflexivity.
  - replace (nth_error (seq 0 (length kinds)) set) with (@None nat) by (symmetry; apply nth_error_None; rewrite seq_length; auto).
    replace (nth_error kinds set) with (@None dkind) by (symmetry; apply nth_error_None; auto). reflexivity.
Qed.

Lemma fresh_bc set : nth_error (v_bc fresh) set = match nth_error kinds set with Some _ => Some None | None => None end.
Proof. cbn. rewrite nth_error_map. destruct (nth_error kinds set); auto. Qed.

Lemma clean_static x p : static_ok -> clean p -> forall set, nth_error (static_data kinds proj t0 x p) set = 
  match nth_error kinds set with Some Static => Some (Some (proj set x t0)) | Some _ => Some None | None => None end.
Proof.
  intros SO (_ & _ & L & H) set. rewrite static_nth by auto.
  destruct (nth_error kinds set) as [k|] eqn:K; auto.
  destruct (nth_error (v_bc p) set) as [[v|]|] eqn:B.
  - destruct (H set v B) as [K' (y & ->)]. rewrite K in K'. injection K' as ->. rewrite (SO set y x); auto.
  - destruct k; auto.
  - apply nth_error_None in B. assert (set < length kinds)%nat by (apply nth_error_Some; congruence). lia.
Qed.

Lemma clean_fresh : clean fresh.
Proof.
  split; [auto|]. split; [auto|]. split; [cbn; apply map_length|]. intros set v H. rewrite fresh_bc in H. destruct (nth_error kinds set); discriminate.
Qed.

Lemma nth_error_ext {A} (l m : list A) : (forall k, nth_error l k = nth_error m k) -> l = m.
Proof.
  revert m. induction l as [|a l IH]; intros [|b m] H; auto; try (specialize (H 0%nat); discriminate).
  pose proof (H 0%nat) as H0. cbn in H0. injection H0 as ->. f_equal. apply IH. intros k. apply (H (S k)).
Qed.

Lemma clean_same x p n : static_ok -> clean p -> option_map fst (forward n x p) = option_map fst (forward n x fresh).
Proof.
  intros SO C. unfold Rerun_Model.forward.
  assert (B : static_data kinds proj t0 x p = static_data kinds proj t0 x fresh).
  { apply nth_error_ext. intros k. rewrite !clean_static by (auto; apply clean_fresh). auto. }
  rewrite B. destruct C as (C1 & C2 & _ & _).
  assert (S : begin init false t0 x (dirichlet kinds fixed proj x (static_data kinds proj t0 x fresh)) p = begin init false t0 x (dirichlet kinds fixed proj x (static_data kinds proj t0 x fresh)) fresh).
  { unfold begin. rewrite C1, C2. reflexivity. }
  rewrite S. destruct (trace _ _ _ _ _ _ _ _) as [[f l]|]; reflexivity.
Qed.

Lemma map_scheme_begin (schs : list scheme) (initial : list vec) (g : scheme * (vec * nat) -> sset) : (forall e, x_scheme (g e) = fst e) -> length initial = length schs ->
  map x_scheme (map g (combine schs (combine initial (seq 0 (length initial))))) = schs.
Proof.
  intros G L. rewrite map_map. transitivity (map (@fst scheme (vec * nat)) (combine schs (combine initial (seq 0 (length initial))))).
  - apply map_ext. auto.
  - assert (Z : length (combine initial (seq 0 (length initial))) = length schs) by (rewrite combine_length, seq_length; lia).
    revert Z. generalize (combine initial (seq 0 (length initial))). clear. induction schs as [|s schs IH]; intros [|e l] Z; try discriminate; auto. cbn in *. f_equal. apply IH. lia.
Qed.

Lemma clean_step n x p l p' : static_ok -> one_scheme -> always_ok (solve x) -> length (init x) = length opts ->
  clean p -> forward n x p = Some (l, p') -> clean p'.
Proof.
  intros SO OS OK LI C H. unfold Rerun_Model.forward in H. destruct (trace _ _ _ _ _ _ _ _) as [[f l']|] eqn:T; [|discriminate]. injection H as <- <-.
  destruct (trace_keeps _ _ OS OK _ _ _ _ T) as [A B]. pose proof C as (C1 & C2 & C3 & C4). split; [|split; [|split]]; cbn [v_dt v_schemes v_bc].
  - rewrite B. exact C1.
  - rewrite A. unfold begin. cbn [t_sets]. rewrite map_scheme_begin; auto. rewrite C2, map_length. auto.
  - unfold static_data. rewrite map_length, !combine_length, seq_length. lia.
  - intros set v Hv. rewrite (clean_static x p SO C) in Hv. destruct (nth_error kinds set) as [[w| |]|] eqn:K; try discriminate.
    injection Hv as <-. eauto.
Qed.

(** Whatever was evaluated before, an evaluation gives what a new solver gives. *)
Theorem C58_history n xs x p : static_ok -> one_scheme -> (forall y, In y xs -> always_ok (solve y) /\ length (init y) = length opts) ->
  forwards n xs fresh = Some p -> option_map fst (forward n x p) = option_map fst (forward n x fresh).
Proof.
  intros SO OS H E. apply clean_same; auto.
  assert (G : forall xs p0, clean p0 -> (forall y, In y xs -> always_ok (solve y) /\ length (init y) = length opts) -> forwards n xs p0 = Some p -> clean p).
  { clear - SO OS. induction xs as [|y xs IH]; intros p0 C H E; cbn [Rerun_Model.forwards] in E; [injection E as <-; auto|].
    destruct (forward n y p0) as [[l p1]|] eqn:F; [|discriminate]. destruct (H y (or_introl eq_refl)) as [H1 H2].
    apply (IH p1); auto; [eapply clean_step; eauto|]. intros z Hz. apply H. right. auto. }
  eapply G; [apply clean_fresh| |exact E]. auto.
Qed.
End Same.
Print Assumptions C58_history.

(** *** Witnesses: one set *)

Definition oBE : options := {| o_tab := bwe; o_bdf := 1; o_stab := bwe; o_sbdf := 1; o_ssteps := 0 |}.
Definition last_value (r : option (list (R * list vec) * psolver)) : option R :=
  match r with Some (l, _) => Some (nth 0 (snd (last l (0, []))) vzero 0%nat) | None => None end.

Lemma go m e st : t_time st < e - timetol e -> (t_cuts st <= m)%nat -> continues m e st = true.
Proof. intros A B. apply continues_spec. auto. Qed.
Lemma stop m e st : e - timetol e <= t_time st -> continues m e st = false.
Proof. intros A. apply continues_false. auto. Qed.

Ltac rcomp := cbv -[IZR Rplus Rmult Ropp Rminus Rinv Rdiv Rlt Rle timetol].
Ltac cont := first [rewrite go by (first [rcomp; unfold timetol; lra | cbn; lia]) | rewrite stop by (rcomp; unfold timetol; lra)].

(** Boundary data that depend on the parameters, with the default "static data": the data
    for the first parameters are used for all later ones. *)
Definition keep (x : R) (a s k : nat) (t d : R) (sc : scheme) (x' y z : list vec) : vec * nat := (nth 0 y vzero, 0%nat).
Notation F1 := (forward [oBE] [Static] (fun _ _ => true) (fun _ x _ _ => x) keep (fun _ => [vzero]) false 2 0 1).
Theorem C58_static_refuted : exists l p, F1 1 1 (fresh [oBE] [Static] 1 []) = Some (l, p) /\
  last_value (F1 1 2 (fresh [oBE] [Static] 1 [])) = Some 2 /\ last_value (F1 1 2 p) = Some 1.
Proof.
  eexists _, _. unfold forward. cbn [trace]. split; [|split].
  - cont. cbn zeta. cont. reflexivity.
  - cont. cbn zeta. cont. rcomp. reflexivity.
  - cont. cbn zeta. cont. rcomp. reflexivity.
Qed.
Print Assumptions C58_static_refuted.

(** A run whose step was cut: later runs use the smaller step.  (Here the first solve for
    [true] fails; [false] always succeeds.) *)
Definition fails_once (x : bool) (a s k : nat) (t d : R) (sc : scheme) (x' y z : list vec) : vec * nat :=
  (nth 0 y vzero, if x && Nat.eqb a 0 then 1%nat else 0%nat).
Notation F2 := (forward [oBE] [Moving] (fun _ _ => false) (fun _ _ _ _ => 0) fails_once (fun _ => [vzero]) false 2 0 1).
Theorem C58_cut_refuted : exists l p l1 p1 l2 p2, F2 3 true (fresh [oBE] [Moving] 1 []) = Some (l, p) /\
  F2 3 false (fresh [oBE] [Moving] 1 []) = Some (l1, p1) /\ F2 3 false p = Some (l2, p2) /\
  map fst l1 = [0; 0 + 1] /\ map fst l2 = [0; 0 + 1 * (1 / 2); 0 + 1 * (1 / 2) + 1 * (1 / 2)].
Proof.
  do 6 eexists. unfold forward. cbn [trace]. split; [|split; [|split; [|split]]].
  - cont. cbn zeta. cont. cont. cont. reflexivity.
  - cont. cbn zeta. cont. reflexivity.
  - cont. cbn zeta. cont. cont. reflexivity.
  - reflexivity.
  - reflexivity.
Qed.
Print Assumptions C58_cut_refuted.

(** BDF2 after one first-order step, du/dt = 0, u(0) = 1: the first run gives 1; the second
    starts with the two-step formula and a zero history and gives another result. *)
Definition oB2 : options := {| o_tab := bwe; o_bdf := 2; o_stab := bwe; o_sbdf := 1; o_ssteps := 1 |}.
Definition still (x : unit) (a s k : nat) (t d : R) (sc : scheme) (x' y z : list vec) : vec * nat :=
  (fun i => - rsum (map (fun j => nth (S j) (s_wts sc) 0 * nth j z vzero i) (seq 0 (length (s_wts sc) - 1))) / nth 0 (s_wts sc) 0, 0%nat).
Notation F3 := (forward [oB2] [Moving] (fun _ _ => false) (fun _ _ _ _ => 0) still (fun _ => [fun _ => 1]) false 2 0 1).
Theorem C58_bdf_refuted : exists l p v, F3 2 tt (fresh [oB2] [Moving] (1 / 2) []) = Some (l, p) /\
  last_value (Some (l, p)) = Some 1 /\ last_value (F3 2 tt p) = Some v /\ v <> 1.
Proof.
  do 3 eexists. unfold forward. cbn [trace]. split; [|split; [|split]].
  - cont. cbn zeta. cont. cont. reflexivity.
  - rcomp. f_equal. field.
  - cont. cbn zeta. cont. cont. rcomp. reflexivity.
  - intros H. match type of H with ?a = 1 => let e := fresh in assert (e : a = 13 / 9) by field; rewrite e in H end. lra.
Qed.
Print Assumptions C58_bdf_refuted.

(** With a restart solution, du/dt = 1: the vector read from the file is advanced in place,
    so the second run starts where the first ended. *)
Definition grow (x : unit) (a s k : nat) (t d : R) (sc : scheme) (x' y z : list vec) : vec * nat := (fun i => nth 0 z vzero i + d, 0%nat).
Notation F4 := (forward [oBE] [Moving] (fun _ _ => false) (fun _ _ _ _ => 0) grow (fun _ => [vzero]) true 2 0 1).
Theorem C58_restart_refuted : exists l p, F4 1 tt (fresh [oBE] [Moving] 1 [vzero]) = Some (l, p) /\
  last_value (Some (l, p)) = Some (0 + 1) /\ last_value (F4 1 tt p) = Some (0 + 1 + 1).
Proof.
  do 2 eexists. unfold forward. cbn [trace]. split; [|split].
  - cont. cbn zeta. cont. reflexivity.
  - rcomp. reflexivity.
  - cont. cbn zeta. cont. rcomp. reflexivity.
Qed.
Print Assumptions C58_restart_refuted.

(** The hypotheses of C58_history with two different evaluations before. *)
Example C58_hypotheses_met : static_ok [Static] (fun _ (_ : R) _ _ => 5) 0 /\ one_scheme [oBE] /\
  (forall y, In y [1; 2] -> always_ok (keep y) /\ length [vzero] = length [oBE]) /\
  exists p, forwards [oBE] [Static] (fun _ _ => true) (fun _ _ _ _ => 5) keep (fun _ => [vzero]) false 2 0 1 1 [1; 2] (fresh [oBE] [Static] 1 []) = Some p.
Proof.
  split; [intros ? ? ? _; reflexivity|]. split; [repeat constructor|]. split; [intros y _; split; [intros a s k t d sc x' y' z; reflexivity|reflexivity]|].
  cbn [forwards]. unfold forward. cbn [trace]. cont. cbn zeta. cont. cont. cont. eexists. reflexivity.
Qed.
