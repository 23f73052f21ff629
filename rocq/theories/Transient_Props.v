(** Properties of the time loop: C26 (end time), C27 (rejected steps), C29 (strong
    boundary values), C30 (constants), C31 (explicit stepping). *)
From Coq Require Import Bool Arith Lia Reals Lra List.
From Verif Require Import Sparse_Model Sparse_Props Mass_Props Tableau_Model Tableau_Props Transient_Model Transient_Proofs.
Import ListNotations.
Local Open Scope R_scope.

Section Time.
Variable opts : list options.
Variable dbc : nat -> R -> nat -> option R.
Variable solve : nat -> nat -> nat -> R -> R -> scheme -> list vec -> list vec -> list vec -> vec * nat.
Variable maxcuts : nat.
Variable end_time : R.
Notation attempt := (attempt opts dbc solve).
Notation run := (run opts dbc solve maxcuts end_time).
Notation continues := (continues maxcuts end_time).
Notation E := (end_time - timetol end_time).

Lemma attempt_time st :
  (t_time (attempt st) = t_time st + t_dt st /\ t_dt (attempt st) = t_dt st /\
   t_cuts (attempt st) = t_cuts st /\ t_step (attempt st) = S (t_step st)) \/
  (t_time (attempt st) = t_time st /\ t_dt (attempt st) = t_dt st / 2 /\
   t_cuts (attempt st) = S (t_cuts st) /\ t_step (attempt st) = t_step st).
Proof.
  destruct (attempt_cases opts dbc solve st) as [[_ ->]|[_ ->]]; [left|right]; cbn; auto.
  repeat split; auto. lra.
Qed.

Lemma continues_spec st : continues st = true <-> t_time st < E /\ (t_cuts st <= maxcuts)%nat.
Proof.
  unfold Transient_Model.continues. rewrite andb_true_iff, Nat.leb_le.
  destruct (Rlt_dec (t_time st) E); split; intros [H1 H2]; split; auto; discriminate.
Qed.
Lemma continues_false st : continues st = false <-> E <= t_time st \/ (maxcuts < t_cuts st)%nat.
Proof.
  unfold Transient_Model.continues. rewrite andb_false_iff, Nat.leb_gt.
  destruct (Rlt_dec (t_time st) E); split; intros [H|H]; auto; try discriminate; try lra.
Qed.

(** *** C26 *)

(** The loop ends, whatever the outcomes of the stage solves. *)
Theorem C26_terminates st : 0 < t_dt st -> exists n st', run n st = Some st'.
Proof.
  assert (A : forall x d, 0 < d -> exists N, E <= x + INR N * d).
  { intros x d Hd. destruct (archimed (Rmax 0 ((E - x) / d))) as [A _].
    set (z := up (Rmax 0 ((E - x) / d))) in *.
    assert (Z : (0 <= z)%Z) by (apply le_IZR; pose proof (Rmax_l 0 ((E - x) / d)); lra).
    exists (Z.to_nat z). rewrite INR_IZR_INZ, Z2Nat.id by auto.
    pose proof (Rmax_r 0 ((E - x) / d)). assert ((E - x) / d < IZR z) by lra.
    apply (Rmult_lt_compat_r d) in H0; auto. unfold Rdiv in H0. rewrite Rmult_assoc, Rinv_l, Rmult_1_r in H0 by lra. lra. }
  assert (G : forall m N s, (S maxcuts <= t_cuts s + m)%nat -> 0 < t_dt s -> E <= t_time s + INR N * t_dt s ->
     exists n st', run n s = Some st').
  { induction m as [|m IHm].
    - intros N s Hc _ _. exists 0%nat, s. cbn. assert (continues s = false) by (apply continues_false; right; lia).
      rewrite H. auto.
    - induction N as [|N IHN]; intros s Hc Hd HN.
      + exists 0%nat, s. cbn. cbn in HN. assert (continues s = false) by (apply continues_false; left; lra). rewrite H. auto.
      + destruct (continues s) eqn:EC; [|exists 0%nat, s; cbn; rewrite EC; auto].
        assert (X : exists n st', run n (attempt s) = Some st').
        { destruct (attempt_time s) as [(T & D & C & _)|(T & D & C & _)].
          - apply IHN; [lia|lra|]. rewrite T, D. rewrite S_INR in HN. lra.
          - destruct (A (t_time (attempt s)) (t_dt (attempt s))) as [N' HN']; [rewrite D; lra|].
            apply (IHm N'); [lia|rewrite D; lra|auto]. }
        destruct X as (n & st' & X). exists (S n), st'. cbn [Transient_Model.run]. rewrite EC. auto. }
  intros Hd. destruct (A (t_time st) (t_dt st) Hd) as [N HN].
  apply (G (S maxcuts) N); auto. lia.
Qed.

(** At the end the time is not short of the tolerance unless the cuts are used up; it
    never decreases; it exceeds the tolerance by less than one step; a step is counted
    exactly when the time advances. *)
Theorem C26_exit n st st' : 0 < t_dt st -> run n st = Some st' ->
  (E <= t_time st' \/ (maxcuts < t_cuts st')%nat) /\
  t_time st <= t_time st' /\ (t_step st <= t_step st')%nat /\
  (st' = st \/ t_time st' < E + t_dt st) /\
  (t_step st' = t_step st -> t_time st' = t_time st) /\
  0 < t_dt st' <= t_dt st.
Proof.
  revert st. induction n as [|n IH]; intros st Hd H; cbn [Transient_Model.run] in H; destruct (continues st) eqn:EC; try discriminate.
  - injection H as <-. apply continues_false in EC. repeat split; auto; try lra.
  - apply continues_spec in EC as [EC1 EC2].
    destruct (attempt_time st) as [(T & D & C & S1)|(T & D & C & S1)].
    + destruct (IH (attempt st)) as (I1 & I2 & I3 & I4 & I5 & I6 & I7); auto; [lra|].
      rewrite T in *. rewrite D in *. rewrite S1 in *.
      split; auto. split; [lra|]. split; [lia|]. split.
      { right. destruct I4 as [->|I4]; lra. }
      split; [lia|]. lra.
    + destruct (IH (attempt st)) as (I1 & I2 & I3 & I4 & I5 & I6 & I7); auto; [lra|].
      rewrite T in *. rewrite D in *. rewrite S1 in *.
      split; auto. split; [lra|]. split; [lia|]. split.
      { right. destruct I4 as [->|I4]; lra. }
      split; [auto|]. lra.
  - injection H as <-. apply continues_false in EC. repeat split; auto; try lra.
Qed.

(** Every stage solve reports success. *)
Definition always_ok : Prop := forall a s k t d sc x y z, snd (solve a s k t d sc x y z) = 0%nat.

Lemma status_ok : always_ok -> forall st, snd (pass opts dbc solve st) = 0%nat.
Proof.
  intros OK st. unfold pass.
  assert (G : forall l acc, snd acc = 0%nat -> snd (fold_left (do_set opts dbc solve (t_attempt st) (t_step st) (t_time st) (t_dt st)) l acc) = 0%nat).
  { induction l as [|s l IH]; intros acc Ha; cbn; auto. apply IH. destruct acc as [xs k]. cbn in Ha. subst k.
    unfold do_set. destruct (nth_error xs s) as [x|]; [|auto]. destruct (nth_error opts s) as [o|]; [|auto].
    match goal with |- context [fold_left ?f ?l ?a] => assert (X : snd (fold_left f l a) = 0%nat) end.
    { assert (X : forall l acc, snd acc = 0%nat -> snd (fold_left (fun acc stage => do_stage dbc solve (t_attempt st) s stage (t_time st) (t_dt st)
         (if Nat.ltb 1 (o_bdf o) && Nat.eqb (t_step st) (o_ssteps o) then set_tab (o_tab o) (set_bdf (o_bdf o) (x_scheme x)) else x_scheme x)
         (match x_prev x with [] => [] | _ => x_sol x :: removelast (x_prev x) end) acc) l acc) = 0%nat).
      { induction l0 as [|k l0 IH0]; intros acc Ha; cbn; auto. apply IH0. destruct acc as [[so sg] stt]. cbn in Ha. subst stt.
        unfold do_stage. destruct (Nat.eqb _ 1); cbn zeta;
        match goal with |- context [solve ?a ?b ?c ?d ?e ?f ?g ?h ?i] => pose proof (OK a b c d e f g h i) as Q; destruct (solve a b c d e f g h i) as [v s0] end;
        cbn in Q |- *; auto. }
      apply X. reflexivity. }
    destruct (fold_left _ _ _) as [[so sg] stt]. cbn in X |- *. lia. }
  apply G. reflexivity.
Qed.

Lemma attempt_ok : always_ok -> forall st,
  t_time (attempt st) = t_time st + t_dt st /\ t_dt (attempt st) = t_dt st /\
  t_cuts (attempt st) = t_cuts st /\ t_step (attempt st) = S (t_step st).
Proof.
  intros OK st. destruct (attempt_cases opts dbc solve st) as [[_ ->]|[H _]]; [cbn; auto|].
  exfalso. apply H. apply status_ok. auto.
Qed.

(** If the step divides the interval and all solves succeed, the loop ends exactly at
    the final time after that many steps. *)
Theorem C26_exact_partial st N : always_ok -> 0 <= end_time -> timetol end_time < t_dt st ->
  (t_cuts st <= maxcuts)%nat -> t_time st + INR N * t_dt st = end_time ->
  exists st', run N st = Some st' /\ t_time st' = end_time /\ t_step st' = (t_step st + N)%nat.
Proof.
  intros OK He Ht. revert st Ht. induction N as [|N IH]; intros st Ht Hc HN.
  - cbn in HN. exists st. cbn. assert (X : continues st = false).
    { apply continues_false. left. assert (0 <= timetol end_time) by (unfold timetol; lra). lra. }
    rewrite X. split; [auto|]. split; [lra|lia].
  - rewrite S_INR in HN. destruct (attempt_ok OK st) as (T & D & C & S1).
    assert (X : continues st = true).
    { apply continues_spec. split; auto. pose proof (pos_INR N).
      assert (0 <= timetol end_time) by (unfold timetol; lra).
      assert (0 <= INR N * t_dt st) by (apply Rmult_le_pos; lra). lra. }
    destruct (IH (attempt st)) as (st' & R1 & R2 & R3); [rewrite D; auto|lia|rewrite T, D; lra|].
    exists st'. cbn [Transient_Model.run]. rewrite X. repeat split; auto. lia.
Qed.
End Time.
Print Assumptions C26_terminates.
Print Assumptions C26_exit.
Print Assumptions C26_exact_partial.

(** Beyond the final time: with start 0, end 1 and dt 0.3 every successful run ends at 1.2. *)
Lemma run_go opts dbc solve m e n st : continues m e st = true ->
  run opts dbc solve m e (S n) st = run opts dbc solve m e n (attempt opts dbc solve st).
Proof. intros H. cbn [run]. rewrite H. auto. Qed.
Lemma run_stop opts dbc solve m e n st : continues m e st = false -> run opts dbc solve m e n st = Some st.
Proof. intros H. destruct n; cbn [run]; rewrite H; auto. Qed.

Theorem C26_overshoot_refuted opts dbc solve maxcuts initial : always_ok solve ->
  exists st', run opts dbc solve maxcuts 1 4 (start opts dbc 0 (3 / 10) initial) = Some st' /\ t_time st' = 6 / 5.
Proof.
  intros OK. set (st := start opts dbc 0 (3 / 10) initial).
  assert (T0 : t_time st = 0) by reflexivity. assert (D0 : t_dt st = 3 / 10) by reflexivity.
  assert (C0 : t_cuts st = 0%nat) by reflexivity.
  assert (G : forall k st, t_time st = INR k * (3 / 10) -> t_dt st = 3 / 10 -> t_cuts st = 0%nat ->
    let s' := attempt opts dbc solve st in t_time s' = INR (S k) * (3 / 10) /\ t_dt s' = 3 / 10 /\ t_cuts s' = 0%nat).
  { intros k s T D C. destruct (attempt_ok opts dbc solve OK s) as (T' & D' & C' & _). cbn zeta.
    rewrite T', D', C', T, D, C, S_INR. repeat split. lra. }
  set (s1 := attempt opts dbc solve st). set (s2 := attempt opts dbc solve s1).
  set (s3 := attempt opts dbc solve s2). set (s4 := attempt opts dbc solve s3).
  destruct (G 0%nat st) as (T1 & D1 & C1); auto; [rewrite T0; cbn; lra|]. fold s1 in T1, D1, C1.
  destruct (G 1%nat s1) as (T2 & D2 & C2); auto. fold s2 in T2, D2, C2.
  destruct (G 2%nat s2) as (T3 & D3 & C3); auto. fold s3 in T3, D3, C3.
  destruct (G 3%nat s3) as (T4 & D4 & C4); auto. fold s4 in T4, D4, C4.
  cbn [INR] in T1, T2, T3, T4.
  exists s4. split; [|lra].
  assert (K : forall s, t_time s <= 9 / 10 -> t_cuts s = 0%nat -> continues maxcuts 1 s = true).
  { intros s Hs Hc. apply continues_spec. unfold timetol. split; [lra|lia]. }
  rewrite run_go by (apply K; auto; lra). fold s1. rewrite run_go by (apply K; auto; lra). fold s2.
  rewrite run_go by (apply K; auto; lra). fold s3. rewrite run_go by (apply K; auto; lra). fold s4.
  apply run_stop. apply continues_false. left. unfold timetol. lra.
Qed.
Print Assumptions C26_overshoot_refuted.

(** Negative final time: the tolerance has the wrong sign and one extra step is taken. *)
Theorem C26_negative_end_refuted opts dbc solve maxcuts initial : always_ok solve ->
  exists st', run opts dbc solve maxcuts (-1) 2 (start opts dbc (-2) 1 initial) = Some st' /\ t_time st' = 0.
Proof.
  intros OK. set (st := start opts dbc (-2) 1 initial).
  assert (T0 : t_time st = -2) by reflexivity. assert (D0 : t_dt st = 1) by reflexivity.
  assert (C0 : t_cuts st = 0%nat) by reflexivity.
  destruct (attempt_ok opts dbc solve OK st) as (T1 & D1 & C1 & _).
  destruct (attempt_ok opts dbc solve OK (attempt opts dbc solve st)) as (T2 & D2 & C2 & _).
  eexists. split.
  - rewrite run_go by (apply continues_spec; unfold timetol; split; [lra|lia]).
    rewrite run_go by (apply continues_spec; unfold timetol; rewrite T1, C1; split; [lra|lia]).
    apply run_stop. apply continues_false. left. unfold timetol. rewrite T2, D1, T1. lra.
  - rewrite T2, D1, T1. lra.
Qed.
Print Assumptions C26_negative_end_refuted.

(** If every solve fails the loop ends normally at the initial time. *)
Definition always_fails (opts : list options) (dbc : nat -> R -> nat -> option R) solve : Prop :=
  forall st, snd (pass opts dbc solve st) <> 0%nat.
Theorem C26_cuts_refuted opts dbc solve maxcuts time dt initial : always_fails opts dbc solve ->
  forall end_time, exists st', run opts dbc solve maxcuts end_time (S maxcuts) (start opts dbc time dt initial) = Some st' /\ t_time st' = time.
Proof.
  intros F e.
  assert (G : forall m st, t_time st = time -> (t_cuts st + m = S maxcuts)%nat ->
     exists st', run opts dbc solve maxcuts e m st = Some st' /\ t_time st' = time).
  { induction m as [|m IH]; intros st HT HC.
    - exists st. split; auto. apply run_stop. apply continues_false. right. lia.
    - destruct (continues maxcuts e st) eqn:EC.
      + rewrite run_go by auto. apply IH.
        * destruct (attempt_cases opts dbc solve st) as [[H _]|[_ ->]]; [destruct (F st); auto|]. auto.
        * destruct (attempt_cases opts dbc solve st) as [[H _]|[_ ->]]; [destruct (F st); auto|]. cbn. lia.
      + exists st. split; auto. apply run_stop. auto. }
  apply G; auto.
Qed.
Print Assumptions C26_cuts_refuted.

(** *** C27 *)
Lemma nth_error_ext' {A} (l m : list A) : (forall k, nth_error l k = nth_error m k) -> l = m.
Proof.
  revert m. induction l as [|a l IH]; intros [|b m] H; auto.
  - specialize (H 0%nat). discriminate. - specialize (H 0%nat). discriminate.
  - pose proof (H 0%nat) as H0. cbn in H0. injection H0 as ->. f_equal. apply IH. intros k. apply (H (S k)).
Qed.
Section Reject.
Variable opts : list options.
Variable dbc : nat -> R -> nat -> option R.
Variable solve : nat -> nat -> nat -> R -> R -> scheme -> list vec -> list vec -> list vec -> vec * nat.

Lemma pass_set st j x : (length (t_sets st) <= length opts)%nat -> nth_error (t_sets st) j = Some x ->
  exists o ys, nth_error opts j = Some o /\ length ys = length (t_sets st) /\ nth_error ys j = Some x /\
    nth_error (fst (pass opts dbc solve st)) j =
      Some (new_set dbc solve (t_attempt st) (t_step st) (t_time st) (t_dt st) ys j x o) /\
    (snd (pass opts dbc solve st) = 0%nat ->
       new_status dbc solve (t_attempt st) (t_step st) (t_time st) (t_dt st) ys j x o = 0%nat).
Proof.
  intros HL Hx. assert (HJ : (j < length (t_sets st))%nat) by (apply nth_error_Some; congruence).
  destruct (nth_error opts j) as [o|] eqn:EO; [|apply nth_error_None in EO; lia].
  destruct (attempt_sets opts dbc solve (t_attempt st) (t_step st) (t_time st) (t_dt st) (t_sets st) HL
     (length (t_sets st)) (le_n _)) as (_ & _ & P).
  destruct (P j x o HJ Hx EO) as (ys & Y1 & Y2 & _ & _ & Y3 & Y4). exists o, ys. auto.
Qed.

(** A rejected step keeps time, step count and every solution. *)
Theorem C27_solution_kept st j x : (length (t_sets st) <= length opts)%nat ->
  snd (pass opts dbc solve st) <> 0%nat -> nth_error (t_sets st) j = Some x -> x_prev x <> [] ->
  t_time (attempt opts dbc solve st) = t_time st /\ t_step (attempt opts dbc solve st) = t_step st /\
  exists x', nth_error (t_sets (attempt opts dbc solve st)) j = Some x' /\ x_sol x' = x_sol x.
Proof.
  intros HL HF Hx HP. destruct (attempt_cases opts dbc solve st) as [[H _]|[_ ->]]; [congruence|]. cbn [t_time t_step t_sets].
  split; auto. split; auto. destruct (pass_set st j x HL Hx) as (o & ys & _ & _ & _ & E & _).
  erewrite map_nth_error by exact E. eexists. split; [reflexivity|]. cbn [x_sol x_prev new_set].
  unfold shifted. destruct (x_prev x); [congruence|reflexivity].
Qed.

(** With a one-step method the retry is exactly the attempt that would have been made
    with the smaller step in the first place. *)
Definition halved (st : tstate) : tstate :=
  {| t_time := t_time st; t_dt := t_dt st * (1 / 2); t_cuts := S (t_cuts st); t_step := t_step st;
     t_attempt := S (t_attempt st); t_sets := t_sets st |}.

Definition one_step_sets (xs : list sset) : Prop :=
  forall j x o, nth_error xs j = Some x -> nth_error opts j = Some o ->
    length (x_prev x) = 1%nat /\ (o_bdf o <= 1)%nat.

Lemma do_set_prev a s time dt xs ys st j :
  (forall k x, nth_error xs k = Some x -> exists y, nth_error ys k = Some y /\ x_scheme x = x_scheme y /\ x_sol x = x_sol y /\
      ((j <= k)%nat \/ x_prev x = x_prev y)) ->
  length xs = length ys -> one_step_sets xs -> one_step_sets ys -> (length xs <= length opts)%nat -> (j < length xs)%nat ->
  let r := do_set opts dbc solve a s time dt (xs, st) j in
  let r' := do_set opts dbc solve a s time dt (ys, st) j in
  snd r = snd r' /\ length (fst r) = length (fst r') /\ length (fst r) = length xs /\ one_step_sets (fst r) /\ one_step_sets (fst r') /\
  (forall k x, nth_error (fst r) k = Some x -> exists y, nth_error (fst r') k = Some y /\ x_scheme x = x_scheme y /\ x_sol x = x_sol y /\
      ((S j <= k)%nat \/ x_prev x = x_prev y)).
Proof.
  intros H HL O1 O2 HLo Hj. cbn zeta.
  destruct (nth_error xs j) as [x|] eqn:EX; [|apply nth_error_None in EX; lia].
  destruct (nth_error opts j) as [o|] eqn:EO; [|apply nth_error_None in EO; lia].
  destruct (H j x EX) as (y & EY & Y1 & Y2 & _).
  rewrite (do_set_eq opts dbc solve a s time dt xs st j x o EX EO).
  rewrite (do_set_eq opts dbc solve a s time dt ys st j y o EY EO). cbn [fst snd].
  assert (ES : shifted x = shifted y).
  { unfold shifted. destruct (O1 j x o EX EO) as [L1 _]. destruct (O2 j y o EY EO) as [L2 _].
    destruct (x_prev x) as [|p [|? ?]]; try discriminate. destruct (x_prev y) as [|q [|? ?]]; try discriminate.
    cbn. rewrite Y2. auto. }
  assert (EN : next_scheme o s x = next_scheme o s y) by (unfold next_scheme; rewrite Y1; auto).
  assert (EM : map x_sol xs = map x_sol ys).
  { apply nth_ext with (d := vzero) (d' := vzero); [rewrite !map_length; auto|].
    intros k Hk. rewrite map_length in Hk. destruct (nth_error xs k) as [z|] eqn:EZ; [|apply nth_error_None in EZ; lia].
    destruct (H k z EZ) as (w & EW & _ & W & _).
    rewrite (nth_error_nth (map x_sol xs) k vzero (map_nth_error x_sol k xs EZ)).
    rewrite (nth_error_nth (map x_sol ys) k vzero (map_nth_error x_sol k ys EW)). auto. }
  assert (EU : new_set dbc solve a s time dt xs j x o = new_set dbc solve a s time dt ys j y o)
    by (unfold new_set; rewrite ES, EN, EM, Y2; auto).
  assert (EV : new_status dbc solve a s time dt xs j x o = new_status dbc solve a s time dt ys j y o)
    by (unfold new_status; rewrite ES, EN, EM, Y2; auto).
  rewrite EU, EV. split; auto. rewrite !upd_length. split; auto. split; auto.
  assert (OG : forall zs z, length zs = length xs -> one_step_sets zs -> nth_error zs j = Some z ->
     one_step_sets (upd zs j (new_set dbc solve a s time dt ys j y o))).
  { intros zs z LZ OZ EZ k w ow Hw How. destruct (Nat.eq_dec k j) as [->|N].
    - rewrite upd_err_same in Hw by lia. injection Hw as <-. destruct (OZ j z ow EZ How) as [_ B]. split; auto.
      cbn [x_prev new_set]. destruct (O2 j y ow EY How) as [L2 _]. unfold shifted.
      destruct (x_prev y) as [|q [|? ?]]; try discriminate. reflexivity.
    - rewrite upd_err_other in Hw by auto. eapply OZ; eauto. }
  split; [eapply OG; eauto|]. split; [eapply OG; eauto|].
  intros k z Hz. destruct (Nat.eq_dec k j) as [->|N].
  - rewrite upd_err_same in Hz by lia. injection Hz as <-.
    exists (new_set dbc solve a s time dt ys j y o). rewrite upd_err_same by lia. auto.
  - rewrite upd_err_other in Hz by auto. rewrite upd_err_other by auto.
    destruct (H k z Hz) as (w & W1 & W2 & W3 & W4). exists w. repeat split; auto. destruct W4 as [W4|W4]; [left; lia|auto].
Qed.

Lemma passes_agree a s time dt n : forall m xs ys st,
  (forall k x, nth_error xs k = Some x -> exists y, nth_error ys k = Some y /\ x_scheme x = x_scheme y /\ x_sol x = x_sol y /\
      ((m <= k)%nat \/ x_prev x = x_prev y)) ->
  length xs = length ys -> one_step_sets xs -> one_step_sets ys -> (length xs <= length opts)%nat -> (m + n = length xs)%nat ->
  fold_left (do_set opts dbc solve a s time dt) (seq m n) (xs, st) = fold_left (do_set opts dbc solve a s time dt) (seq m n) (ys, st).
Proof.
  induction n as [|n IH]; intros m xs ys st H HL O1 O2 HLo HM; cbn [seq fold_left].
  - f_equal. apply nth_error_ext'. intros k. destruct (nth_error xs k) as [x|] eqn:EX.
    + destruct (H k x EX) as (y & EY & Y1 & Y2 & Y3). rewrite EY. f_equal.
      assert (k < length xs)%nat by (apply nth_error_Some; congruence).
      destruct Y3 as [Y3|Y3]; [lia|]. destruct x, y; cbn in *; congruence.
    + apply nth_error_None in EX. symmetry. apply nth_error_None. lia.
  - destruct (do_set_prev a s time dt xs ys st m H HL O1 O2 HLo ltac:(lia)) as (R1 & R2 & R3 & R4 & R5 & R6).
    destruct (do_set opts dbc solve a s time dt (xs, st) m) as [xs1 st1].
    destruct (do_set opts dbc solve a s time dt (ys, st) m) as [ys1 st2]. cbn [fst snd] in *. subst st2.
    apply IH; auto; lia.
Qed.

Theorem C27_retry_partial st : (length (t_sets st) <= length opts)%nat -> one_step_sets (t_sets st) ->
  snd (pass opts dbc solve st) <> 0%nat ->
  attempt opts dbc solve (attempt opts dbc solve st) = attempt opts dbc solve (halved st).
Proof.
  intros HL OS HF. destruct (attempt_cases opts dbc solve st) as [[H _]|[_ EA]]; [congruence|]. rewrite EA.
  set (zs := map (fun x => {| x_scheme := x_scheme x; x_sol := nth 0 (x_prev x) vzero; x_prev := x_prev x |}) (fst (pass opts dbc solve st))).
  destruct (attempt_sets opts dbc solve (t_attempt st) (t_step st) (t_time st) (t_dt st) (t_sets st) HL
     (length (t_sets st)) (le_n _)) as (LL & _ & _). fold (pass opts dbc solve st) in LL.
  assert (LZ : length zs = length (t_sets st)) by (unfold zs; rewrite map_length; auto).
  assert (Z : forall k x, nth_error (t_sets st) k = Some x -> exists z, nth_error zs k = Some z /\
     x_scheme z = x_scheme x /\ x_sol z = x_sol x /\ length (x_prev z) = 1%nat).
  { intros k x Hx. destruct (pass_set st k x HL Hx) as (o & ys & EO & _ & _ & E & _).
    destruct (OS k x o Hx EO) as [L1 B]. unfold zs. erewrite map_nth_error by exact E. eexists. split; [reflexivity|].
    cbn [x_scheme x_sol x_prev new_set]. unfold shifted, next_scheme.
    destruct (x_prev x) as [|p [|? ?]]; try discriminate. cbn [removelast nth length].
    assert (N : Nat.ltb 1 (o_bdf o) = false) by (apply Nat.ltb_ge; auto). rewrite N. auto. }
  assert (OZ : one_step_sets zs).
  { intros k z o Hz Ho. assert (K : (k < length zs)%nat) by (apply nth_error_Some; congruence).
    destruct (nth_error (t_sets st) k) as [x|] eqn:EX; [|apply nth_error_None in EX; lia].
    destruct (Z k x EX) as (z' & Z1 & _ & _ & Z4). rewrite Hz in Z1. injection Z1 as <-.
    destruct (OS k x o EX Ho) as [_ B]. auto. }
  unfold attempt. cbn [t_attempt t_step t_time t_dt t_sets t_cuts halved]. rewrite LZ.
  rewrite (passes_agree (S (t_attempt st)) (t_step st) (t_time st) (t_dt st * (1 / 2)) (length (t_sets st)) 0 zs (t_sets st)); auto; try lia.
  intros k z Hz. assert (K : (k < length zs)%nat) by (apply nth_error_Some; congruence).
  destruct (nth_error (t_sets st) k) as [x|] eqn:EX; [|apply nth_error_None in EX; lia].
  destruct (Z k x EX) as (z' & Z1 & Z2 & Z3 & Z4). rewrite Hz in Z1. injection Z1 as <-.
  exists x. repeat split; auto. left. lia.
Qed.
End Reject.
Print Assumptions C27_solution_kept.
Print Assumptions C27_retry_partial.

(** With BDF2 the history is shifted again by the retry: the second entry becomes the
    current solution instead of the previous one. *)
Definition fails : nat -> nat -> nat -> R -> R -> scheme -> list vec -> list vec -> list vec -> vec * nat :=
  fun a s k t d sc x y z => (nth 0 y vzero, 1%nat).
Definition bdf2 : options := {| o_tab := bwe; o_bdf := 2; o_stab := bwe; o_sbdf := 1; o_ssteps := 1 |}.
Definition free : nat -> R -> nat -> option R := fun _ _ _ => None.
Definition st3 : tstate :=
  {| t_time := 2; t_dt := 1; t_cuts := 0; t_step := 2; t_attempt := 2;
     t_sets := [ {| x_scheme := set_tab bwe (set_bdf 2 (initial_scheme bdf2));
                    x_sol := fun _ => 3; x_prev := [fun _ => 2; fun _ => 1] |} ] |}.
Theorem C27_history_refuted :
  snd (pass [bdf2] free fails st3) <> 0%nat /\
  map (fun x => map (fun v => v 0%nat) (x_prev x)) (t_sets (attempt [bdf2] free fails (halved st3))) = [[3; 2]] /\
  map (fun x => map (fun v => v 0%nat) (x_prev x)) (t_sets (attempt [bdf2] free fails (attempt [bdf2] free fails st3))) = [[3; 3]].
Proof. split; [|split]; cbn; auto. Qed.
Print Assumptions C27_history_refuted.

(** *** C29 *)
Section Dirichlet.
Variable opts : list options.
Variable dbc : nat -> R -> nat -> option R.
Variable solve : nat -> nat -> nat -> R -> R -> scheme -> list vec -> list vec -> list vec -> vec * nat.
Variables (set i : nat) (g : R -> R).
(** The unknown is fixed with data g, and the solver leaves it alone. *)
Hypothesis Hfix : forall t, dbc set t i = Some (g t).
Hypothesis Hkeep : forall a k t d sch so sg pv,
  fst (solve a set k t d sch so sg pv) i = nth (if Nat.eqb (s_maxstages sch) 1 then 0 else k) sg vzero i.

(** After an accepted step the value is u_n + sum_s (g(t_n + c_s dt) - u_n). *)
Theorem C29_value st x : (length (t_sets st) <= length opts)%nat ->
  snd (pass opts dbc solve st) = 0%nat -> nth_error (t_sets st) set = Some x -> x_prev x <> [] ->
  (forall o, nth_error opts set = Some o ->
     let sch := next_scheme o (t_step st) x in (1 <= s_numstages sch <= s_maxstages sch)%nat) ->
  exists o x', nth_error opts set = Some o /\ nth_error (t_sets (attempt opts dbc solve st)) set = Some x' /\
    let sch := next_scheme o (t_step st) x in
    x_sol x' i = x_sol x i + sumf (s_numstages sch)
       (fun s => g (t_time st + ci (s_tab sch) s * t_dt st) - x_sol x i).
Proof.
  intros HL HS Hx HP HN. destruct (attempt_cases opts dbc solve st) as [[_ ->]|[H _]]; [|congruence]. cbn [t_sets].
  destruct (pass_set opts dbc solve st set x HL Hx) as (o & ys & EO & LY & EY & E & _).
  exists o. eexists. split; auto. split; [exact E|]. cbn zeta. cbn [x_sol new_set].
  specialize (HN o EO). cbn zeta in HN. set (sch := next_scheme o (t_step st) x) in *.
  assert (HJ : (set < length (t_sets st))%nat) by (apply nth_error_Some; congruence).
  assert (HU : nth set (map x_sol ys) vzero = x_sol x) by (rewrite (nth_error_nth _ _ vzero (map_nth_error x_sol _ _ EY)); auto).
  assert (HP0 : nth 0 (shifted x) vzero = x_sol x) by (unfold shifted; destruct (x_prev x); [congruence|reflexivity]).
  destruct (stages_all dbc solve (t_attempt st) set (t_time st) (t_dt st) sch (shifted x) (map x_sol ys) (x_sol x)
     ltac:(rewrite map_length; lia) HU HP0 ltac:(lia) ltac:(lia)) as (_ & V & _). rewrite V. f_equal. apply sumf_ext. intros s Hs. f_equal.
  unfold out. rewrite Hkeep. unfold given. destruct (Nat.eqb_spec (s_maxstages sch) 1) as [E1|N1].
  - cbn [snd nth]. unfold guess, set_dirichlet. rewrite Hfix. auto.
  - pose proof (given_stage dbc solve (t_attempt st) set (t_time st) (t_dt st) sch (shifted x) (map x_sol ys) (x_sol x)
      ltac:(rewrite map_length; lia) HU HP0 s s N1 ltac:(lia) (le_n _)) as G.
    unfold given in G. apply Nat.eqb_neq in N1. rewrite N1 in G. rewrite Nat.eqb_refl in G. rewrite G.
    unfold guess, set_dirichlet. rewrite Hfix. auto.
Qed.

Lemma sumf_const n a : sumf n (fun _ => a) = INR n * a.
Proof. induction n as [|n IH]; [unfold sumf; cbn; ring|]. rewrite sumf_S, IH, S_INR. ring. Qed.

(** Data that do not change in time are kept by every method. *)
Theorem C29_constant_partial st x : (forall t t', g t = g t') -> x_sol x i = g (t_time st) ->
  (length (t_sets st) <= length opts)%nat ->
  snd (pass opts dbc solve st) = 0%nat -> nth_error (t_sets st) set = Some x -> x_prev x <> [] ->
  (forall o, nth_error opts set = Some o ->
     let sch := next_scheme o (t_step st) x in (1 <= s_numstages sch <= s_maxstages sch)%nat) ->
  exists x', nth_error (t_sets (attempt opts dbc solve st)) set = Some x' /\ x_sol x' i = g (t_time st + t_dt st).
Proof.
  intros HC HX HL HS Hx HP HN. destruct (C29_value st x HL HS Hx HP HN) as (o & x' & _ & E & V).
  exists x'. split; auto. cbn zeta in V. rewrite V.
  rewrite (sumf_ext _ _ (fun _ => 0)) by (intros; rewrite HX; rewrite (HC _ (t_time st)); ring).
  rewrite sumf_const, HX. rewrite (HC (t_time st + t_dt st) (t_time st)). ring.
Qed.

(** Data affine in time are matched exactly when the stage times sum to one. *)
Theorem C29_affine_partial st x a m : (forall t, g t = a + m * t) -> x_sol x i = g (t_time st) ->
  (length (t_sets st) <= length opts)%nat ->
  snd (pass opts dbc solve st) = 0%nat -> nth_error (t_sets st) set = Some x -> x_prev x <> [] ->
  (forall o, nth_error opts set = Some o ->
     let sch := next_scheme o (t_step st) x in (1 <= s_numstages sch <= s_maxstages sch)%nat) ->
  exists o x', nth_error opts set = Some o /\ nth_error (t_sets (attempt opts dbc solve st)) set = Some x' /\
    let sch := next_scheme o (t_step st) x in
    (x_sol x' i = g (t_time st + t_dt st) <-> m * t_dt st * (sumf (s_numstages sch) (ci (s_tab sch)) - 1) = 0).
Proof.
  intros HC HX HL HS Hx HP HN. destruct (C29_value st x HL HS Hx HP HN) as (o & x' & EO & E & V).
  exists o, x'. split; auto. split; auto. cbn zeta in V |- *. rewrite V.
  set (sch := next_scheme o (t_step st) x).
  rewrite (sumf_ext _ _ (fun s => (m * t_dt st) * ci (s_tab sch) s)) by (intros; rewrite HX, !HC; ring).
  rewrite sumf_scal, HX, !HC. split; intros; lra.
Qed.
End Dirichlet.
Print Assumptions C29_value.
Print Assumptions C29_constant_partial.
Print Assumptions C29_affine_partial.

(** Sums of the stage times of the named methods. *)
Theorem C29_sums :
  sumf 1 (ci bwe) = 1 /\ sumf 2 (ci cn) = 1 /\ sumf 2 (ci dirk22) = 1 /\ sumf 2 (ci dirk23) = 1 /\
  sumf 1 (ci fwe) = 0 /\ sumf 1 (ci dirk12) = 1 / 2 /\ sumf 3 (ci ssprk33) = 3 / 2 /\ sumf 4 (ci rk44) = 2 /\
  sumf 3 (ci dirk33) <> 1.
Proof.
  unfold dirk33, pdirk. tabc. repeat split; try lra.
Qed.

(** Witness: RK-4,4, boundary value g(t) = t, one step of size 1 from t = 0: the value
    is 2 instead of 1; with DIRK-1,2 it is 1/2. *)
Definition opt1 (t : tab) : options := {| o_tab := t; o_bdf := 1; o_stab := t; o_sbdf := 1; o_ssteps := 1 |}.
Definition ramp : nat -> R -> nat -> option R := fun _ t _ => Some t.
Definition lazy : nat -> nat -> nat -> R -> R -> scheme -> list vec -> list vec -> list vec -> vec * nat :=
  fun a s k t d sc x y z => (nth (if Nat.eqb (s_maxstages sc) 1 then 0 else k) y vzero, 0%nat).

Lemma opt1_step t : (1 <= length (tA t))%nat ->
  exists x', nth_error (t_sets (attempt [opt1 t] ramp lazy (start [opt1 t] ramp 0 1 [vzero]))) 0 = Some x' /\
    x_sol x' 0%nat = sumf (length (tA t)) (ci t).
Proof.
  intros HT. set (st := start [opt1 t] ramp 0 1 [vzero]).
  destruct (C29_value [opt1 t] ramp lazy 0 0 (fun t => t) ltac:(reflexivity) ltac:(reflexivity) st
    {| x_scheme := initial_scheme (opt1 t); x_sol := set_dirichlet ramp 0 0 vzero; x_prev := [vzero] |})
    as (o & x' & EO & E & V).
  - cbn. lia.
  - apply status_ok. intros a s k t0 d sc x y z. reflexivity.
  - reflexivity.
  - discriminate.
  - intros o Ho. cbn in Ho. injection Ho as <-. cbn. lia.
  - exists x'. split; auto. cbn in EO. injection EO as <-. cbn zeta in V. rewrite V.
    assert (X0 : x_sol {| x_scheme := initial_scheme (opt1 t); x_sol := set_dirichlet ramp 0 0 vzero; x_prev := [vzero] |} 0%nat = 0) by reflexivity.
    rewrite X0. cbn [next_scheme opt1 o_bdf Nat.ltb Nat.leb andb x_scheme initial_scheme o_tab set_tab s_numstages s_tab].
    rewrite Rplus_0_l. apply sumf_ext. intros s _. change (t_time st) with 0. change (t_dt st) with 1. ring.
Qed.

Theorem C29_multistage_refuted :
  exists x y z,
    nth_error (t_sets (attempt [opt1 rk44] ramp lazy (start [opt1 rk44] ramp 0 1 [vzero]))) 0 = Some x /\ x_sol x 0%nat = 2 /\
    nth_error (t_sets (attempt [opt1 dirk12] ramp lazy (start [opt1 dirk12] ramp 0 1 [vzero]))) 0 = Some y /\ x_sol y 0%nat = 1 / 2 /\
    nth_error (t_sets (attempt [opt1 fwe] ramp lazy (start [opt1 fwe] ramp 0 1 [vzero]))) 0 = Some z /\ x_sol z 0%nat = 0.
Proof.
  destruct (opt1_step rk44) as (x & X1 & X2); [cbn; lia|].
  destruct (opt1_step dirk12) as (y & Y1 & Y2); [cbn; lia|].
  destruct (opt1_step fwe) as (z & Z1 & Z2); [cbn; lia|].
  exists x, y, z. split; auto. destruct C29_sums as (_ & _ & _ & _ & S5 & S6 & _ & S8 & _).
  split; [rewrite X2; exact S8|]. split; auto. split; [rewrite Y2; exact S6|]. split; auto. rewrite Z2; exact S5.
Qed.
Print Assumptions C29_multistage_refuted.

(** *** C30 *)
Section Constant.
Variable opts : list options.
Variable dbc : nat -> R -> nat -> option R.
Variable solve : nat -> nat -> nat -> R -> R -> scheme -> list vec -> list vec -> list vec -> vec * nat.
Variable c : nat -> vec.
(** The steady state agrees with the boundary data, and the solver returns its initial
    guess when all solutions are at the steady state and the time derivative vanishes. *)
Hypothesis Hdbc : forall set t i g, dbc set t i = Some g -> g = c set i.
Hypothesis Hsteady : forall a set k t d sch sols stages prev,
  let gs := nth (if Nat.eqb (s_maxstages sch) 1 then 0 else k) stages vzero in
  (forall i, gs i = c set i) ->
  (forall j i, (j < length sols)%nat -> nth j sols vzero i = c j i) ->
  (forall i, state_of scalars (s_tab sch) k (nth 0 prev vzero i) (fun s => nth s stages vzero i) (gs i) = c set i) ->
  (forall i, dot_of scalars (s_tab sch) (s_wts sch) d k (fun s => nth s prev vzero i) (gs i) = 0) ->
  (forall i, fst (solve a set k t d sch sols stages prev) i = c set i) /\
  snd (solve a set k t d sch sols stages prev) = 0%nat.

Lemma bdf_sum k : (1 <= k <= 6)%nat -> nth 0 (bdf k) 0 + rsum (map (fun s => nth s (bdf k) 0) (seq 1 (length (bdf k) - 1))) = 0.
Proof. intros Hk. destruct k as [|[|[|[|[|[|[|k]]]]]]]; try lia; cbn [bdf length Nat.sub seq map nth rsum fold_right]; lra. Qed.
Lemma bdf_length k : (1 <= k <= 6)%nat -> length (bdf k) = S k.
Proof. intros Hk. destruct k as [|[|[|[|[|[|[|k]]]]]]]; try lia; reflexivity. Qed.

Lemma dot_const t k dt stage prev v : (1 <= k <= 6)%nat -> (forall s, (s < k)%nat -> prev s = v) ->
  dot_of scalars t (bdf k) dt stage prev v = 0.
Proof.
  intros Hk HP. unfold dot_of. cbn [scalars vadd vscal inj]. rewrite fold_sum.
  rewrite (rsum_ext (fun s => nth s (bdf k) 0 * prev (s - 1)%nat) (fun s => v * nth s (bdf k) 0)).
  2:{ intros s Hs. apply in_seq in Hs. rewrite bdf_length in Hs by auto. rewrite HP by lia. ring. }
  rewrite rsum_map_scal. pose proof (bdf_sum k Hk) as S.
  match goal with |- ?a * ?tw * v + ?tw * (0 + v * ?r) = 0 =>
    replace (a * tw * v + tw * (0 + v * r)) with (tw * v * (a + r)) by ring end.
  rewrite S. ring.
Qed.
Lemma state_const t stage v stages : (forall s, (s < stage)%nat -> stages s = v) -> state_of scalars t stage v stages v = v.
Proof.
  intros H. unfold state_of. cbn [scalars vadd vscal vsub]. rewrite fold_sum.
  rewrite rsum_zero; [ring|]. intros s Hs. apply in_seq in Hs. rewrite H by lia. ring.
Qed.

Definition at_rest (xs : list sset) : Prop := forall j x, nth_error xs j = Some x -> forall i, x_sol x i = c j i.

(** One set: stage loop at rest. *)
Lemma set_at_rest att step time dt ys j x o k : at_rest ys -> nth_error ys j = Some x ->
  let sch := next_scheme o step x in
  s_wts sch = bdf k -> (1 <= k <= 6)%nat -> (1 <= s_numstages sch <= s_maxstages sch)%nat -> x_prev x <> [] ->
  (forall s i, (s < k)%nat -> nth s (shifted x) vzero i = c j i) ->
  (forall i, x_sol (new_set dbc solve att step time dt ys j x o) i = c j i) /\
  new_status dbc solve att step time dt ys j x o = 0%nat.
Proof.
  intros AR Hx sch HW Hk HN HP HH. unfold new_set, new_status. fold sch. cbn [x_sol].
  assert (HJ : (j < length ys)%nat) by (apply nth_error_Some; congruence).
  assert (HU : nth j (map x_sol ys) vzero = x_sol x) by (rewrite (nth_error_nth _ _ vzero (map_nth_error x_sol _ _ Hx)); auto).
  assert (HP0 : nth 0 (shifted x) vzero = x_sol x) by (unfold shifted; destruct (x_prev x); [congruence|reflexivity]).
  assert (HL : (j < length (map x_sol ys))%nat) by (rewrite map_length; auto).
  assert (UC : forall i, x_sol x i = c j i) by (apply (AR j x Hx)).
  set (OUT := out dbc solve att j time dt sch (shifted x) (map x_sol ys) (x_sol x)).
  assert (GC : forall s i, guess dbc j time dt sch (x_sol x) s i = c j i).
  { intros s i. unfold guess, set_dirichlet. destruct (dbc j (ts time dt sch s) i) eqn:ED; [eapply Hdbc; eauto|auto]. }
  assert (SO : forall n, (n <= s_numstages sch)%nat ->
     (forall s, (s < n)%nat -> (forall i, fst (OUT s) i = c j i) /\ snd (OUT s) = 0%nat)).
  { induction n as [|n IH]; intros Hn s Hs; [lia|]. specialize (IH ltac:(lia)).
    destruct (Nat.eq_dec s n) as [->|NE]; [|apply IH; lia].
    assert (SN : forall l i, (l < length (map x_sol ys))%nat ->
       nth l (tsols dbc solve att j time dt sch (shifted x) (map x_sol ys) (x_sol x) n) vzero i = c l i).
    { intros l i Hl. 
      assert (B : forall l, (l < length (map x_sol ys))%nat -> forall i, nth l (map x_sol ys) vzero i = c l i).
      { intros l0 Hl0 i0. rewrite map_length in Hl0. destruct (nth_error ys l0) as [y|] eqn:EY; [|apply nth_error_None in EY; lia].
        rewrite (nth_error_nth _ _ vzero (map_nth_error x_sol _ _ EY)). apply (AR l0 y EY). }
      destruct n as [|n]; [unfold tsols; rewrite tr_0; cbn [fst]; apply B; auto|].
      assert (N1 : s_maxstages sch <> 1%nat) by lia.
      destruct (stages_many dbc solve att j time dt sch (shifted x) (map x_sol ys) (x_sol x) HL HU HP0 N1 (S n) ltac:(lia)) as (_ & _ & _ & _ & S1 & S2 & _).
      destruct (Nat.eq_dec l j) as [->|NJ].
      - rewrite S1, UC. rewrite (sumf_ext _ _ (fun _ => 0)).
        + rewrite sumf_const. ring.
        + intros s' Hs'. fold OUT. destruct (IH s' Hs') as [I1 _]. rewrite I1, ?UC. ring.
      - rewrite S2 by auto. apply B; auto. }
    unfold OUT, out. apply Hsteady.
    - unfold given. destruct (Nat.eqb_spec (s_maxstages sch) 1) as [E1|N1].
      + cbn [snd nth]. intros i. apply GC.
      + intros i. pose proof (given_stage dbc solve att j time dt sch (shifted x) (map x_sol ys) (x_sol x) HL HU HP0 n n N1 ltac:(lia) (le_n _)) as G.
        unfold given in G. apply Nat.eqb_neq in N1. rewrite N1 in G. rewrite Nat.eqb_refl in G. rewrite G. apply GC.
    - intros l i Hl. unfold given in *. destruct (Nat.eqb_spec (s_maxstages sch) 1) as [E1|N1]; cbn [fst] in *.
      + rewrite upd_length in Hl. 
        assert (N0 : n = 0%nat) by lia. subst n.
        unfold tsols in Hl. rewrite tr_0 in Hl. cbn [fst] in Hl.
        destruct (Nat.eq_dec l j) as [->|NJ]; [rewrite upd_same by (unfold tsols; rewrite tr_0; auto); apply GC|].
        rewrite upd_other by auto. apply SN. auto.
      + apply SN. destruct (stages_many dbc solve att j time dt sch (shifted x) (map x_sol ys) (x_sol x) HL HU HP0 N1 n ltac:(lia)) as (_ & LL & _). lia.
    - intros i. rewrite HP0, UC.
      assert (ST : forall s, (s <= n)%nat -> nth (if Nat.eqb (s_maxstages sch) 1 then 0 else s) (snd (given dbc solve att j time dt sch (shifted x) (map x_sol ys) (x_sol x) n)) vzero i = c j i).
      { intros s Hs0. destruct (Nat.eqb_spec (s_maxstages sch) 1) as [E1|N1].
        - unfold given. rewrite E1. cbn [Nat.eqb snd nth]. apply GC.
        - rewrite (given_stage dbc solve att j time dt sch (shifted x) (map x_sol ys) (x_sol x) HL HU HP0 n s N1 ltac:(lia) Hs0).
          destruct (Nat.eqb_spec s n); [apply GC|]. apply IH. lia. }
      rewrite (ST n (le_n _)). apply state_const. intros s Hs0.
      destruct (Nat.eqb_spec (s_maxstages sch) 1) as [E1|N1]; [lia|]. 
      specialize (ST s ltac:(lia)). apply Nat.eqb_neq in N1. auto.
    - intros i. rewrite HW.
      assert (GX : nth (if Nat.eqb (s_maxstages sch) 1 then 0 else n) (snd (given dbc solve att j time dt sch (shifted x) (map x_sol ys) (x_sol x) n)) vzero i = c j i).
      { destruct (Nat.eqb_spec (s_maxstages sch) 1) as [E1|N1].
        - unfold given. rewrite E1. cbn [Nat.eqb snd nth]. apply GC.
        - rewrite (given_stage dbc solve att j time dt sch (shifted x) (map x_sol ys) (x_sol x) HL HU HP0 n n N1 ltac:(lia) (le_n _)).
          rewrite Nat.eqb_refl. apply GC. }
      rewrite GX. apply dot_const; auto. }
  destruct (stages_all dbc solve att j time dt sch (shifted x) (map x_sol ys) (x_sol x) HL HU HP0 ltac:(lia) ltac:(lia)) as (_ & V & _ & W).
  split.
  - intros i. rewrite V, UC. rewrite (sumf_ext _ _ (fun _ => 0)); [rewrite sumf_const; ring|].
    intros s Hs. fold OUT. destruct (SO _ (le_n _) s Hs) as [I1 _]. rewrite I1, ?UC. ring.
  - apply W. intros s Hs. apply (SO _ (le_n _) s Hs).
Qed.

(** Options: first order during start-up, and enough start-up steps. *)
Definition good (o : options) : Prop :=
  (1 <= o_bdf o <= 6)%nat /\ (1 <= length (tA (o_tab o)))%nat /\ (1 <= length (tA (o_stab o)))%nat /\
  ((1 < o_bdf o)%nat -> o_sbdf o = 1%nat /\ (o_bdf o - 1 <= o_ssteps o)%nat).

Definition rest_inv (st : tstate) : Prop :=
  length (t_sets st) = length opts /\ at_rest (t_sets st) /\
  forall j x o, nth_error (t_sets st) j = Some x -> nth_error opts j = Some o ->
    (o_bdf o <= length (x_prev x))%nat /\ (1 <= s_numstages (x_scheme x) <= s_maxstages (x_scheme x))%nat /\
    (forall s i, (s < t_step st)%nat -> (s < length (x_prev x))%nat -> nth s (x_prev x) vzero i = c j i) /\
    s_wts (x_scheme x) = bdf (if Nat.ltb 1 (o_bdf o) && Nat.leb (t_step st) (o_ssteps o) then 1 else o_bdf o)%nat.

Lemma rest_step st : (forall o, In o opts -> good o) -> rest_inv st ->
  snd (pass opts dbc solve st) = 0%nat /\ rest_inv (attempt opts dbc solve st).
Proof.
  intros HG (HL & AR & HI).
  destruct (attempt_sets opts dbc solve (t_attempt st) (t_step st) (t_time st) (t_dt st) (t_sets st) ltac:(lia)
     (length (t_sets st)) (le_n _)) as (L1 & _ & P). fold (pass opts dbc solve st) in L1, P.
  (* weights and history of each set *)
  assert (HW : forall j x o, nth_error (t_sets st) j = Some x -> nth_error opts j = Some o ->
     let sch := next_scheme o (t_step st) x in
     exists k, s_wts sch = bdf k /\ (1 <= k <= 6)%nat /\ (k <= o_bdf o)%nat /\ (k <= S (t_step st))%nat /\
       (1 <= s_numstages sch <= s_maxstages sch)%nat /\
       s_wts sch = bdf (if Nat.ltb 1 (o_bdf o) && Nat.leb (S (t_step st)) (o_ssteps o) then 1 else o_bdf o)%nat).
  { intros j x o Hx Ho. cbn zeta. destruct (HI j x o Hx Ho) as (H1 & H2 & H3 & H4).
    destruct (HG o (nth_error_In _ _ Ho)) as (G1 & G2 & G3 & G4).
    unfold next_scheme. destruct (Nat.ltb_spec 1 (o_bdf o)) as [B|B]; cbn [andb] in *.
    - destruct (G4 B) as [G5 G6]. destruct (Nat.eqb_spec (t_step st) (o_ssteps o)) as [ES|ES].
      + exists (o_bdf o). cbn [set_tab set_bdf s_wts s_numstages s_maxstages]. repeat split; auto; try lia.
        destruct (Nat.leb_spec (S (t_step st)) (o_ssteps o)); [lia|auto].
      + destruct (Nat.leb_spec (t_step st) (o_ssteps o)) as [LE|LE].
        * exists 1%nat. repeat split; auto; try lia. destruct (Nat.leb_spec (S (t_step st)) (o_ssteps o)); [auto|lia].
        * exists (o_bdf o). repeat split; auto; try lia. destruct (Nat.leb_spec (S (t_step st)) (o_ssteps o)); [lia|auto].
    - exists (o_bdf o). repeat split; auto; lia. }
  assert (HS : forall j x o, nth_error (t_sets st) j = Some x -> nth_error opts j = Some o ->
     length (shifted x) = length (x_prev x) /\ x_prev x <> [] /\
     forall s i, (s < S (t_step st))%nat -> (s < length (x_prev x))%nat -> nth s (shifted x) vzero i = c j i).
  { intros j x o Hx Ho. destruct (HI j x o Hx Ho) as (H1 & H2 & H3 & H4).
    destruct (HG o (nth_error_In _ _ Ho)) as (G1 & _).
    assert (N : x_prev x <> []) by (intros E; rewrite E in H1; cbn in H1; lia).
    assert (LS : length (removelast (x_prev x)) = (length (x_prev x) - 1)%nat).
    { clear. induction (x_prev x) as [|a l IH]; auto. cbn [removelast]. destruct l; auto. cbn [length] in *. rewrite IH. lia. }
    assert (NR : forall (l : list vec) s, (S s < length l)%nat -> nth s (removelast l) vzero = nth s l vzero).
    { clear. induction l as [|a l IH]; intros s Hs; cbn in Hs; [lia|]. destruct l as [|b l]; [cbn in Hs; lia|].
      cbn [removelast]. destruct s; auto. cbn [nth]. apply IH. cbn in *. lia. }
    unfold shifted. destruct (x_prev x) as [|p q] eqn:EP; [congruence|]. rewrite <- EP in *.
    assert (LP : (1 <= length (x_prev x))%nat) by (rewrite EP; cbn; lia).
    split; [cbn [length]; lia|]. split; [auto|].
    intros [|s] i Hs HsL; cbn [nth]; [apply (AR j x Hx)|]. rewrite NR by lia. apply H3; lia. }
  (* every processed set is at rest *)
  assert (ALL : forall j x o, nth_error (t_sets st) j = Some x -> nth_error opts j = Some o ->
     exists y, nth_error (fst (pass opts dbc solve st)) j = Some y /\ (forall i, x_sol y i = c j i) /\
       x_prev y = shifted x /\ x_scheme y = next_scheme o (t_step st) x).
  { intros j. induction j as [j IH] using lt_wf_ind. intros x o Hx Ho.
    assert (HJ : (j < length (t_sets st))%nat) by (apply nth_error_Some; congruence).
    destruct (P j x o HJ Hx Ho) as (ys & Y1 & Y2 & Y3 & Y4 & Y5 & _).
    eexists. split; [exact Y5|]. split; [|split; reflexivity].
    destruct (HW j x o Hx Ho) as (k & K1 & K2 & K3 & K4 & K5 & _).
    destruct (HS j x o Hx Ho) as (S1 & S2 & S3). destruct (HI j x o Hx Ho) as (H1 & _).
    apply (set_at_rest (t_attempt st) (t_step st) (t_time st) (t_dt st) ys j x o k); auto.
    - intros l z Hz. destruct (Nat.lt_ge_cases l j) as [Lt|Ge].
      + rewrite Y4 in Hz by auto.
        destruct (nth_error (t_sets st) l) as [xl|] eqn:EXL; [|apply nth_error_None in EXL; lia].
        destruct (nth_error opts l) as [ol|] eqn:EOL; [|apply nth_error_None in EOL; lia].
        destruct (IH l Lt xl ol EXL EOL) as (y & Q1 & Q2 & _). rewrite Hz in Q1. injection Q1 as <-. auto.
      + rewrite Y3 in Hz by auto. apply (AR l z Hz).
    - intros s i Hs. apply S3; lia. }
  assert (ST : snd (pass opts dbc solve st) = 0%nat).
  { (* the status is the sum of the statuses of the sets *)
    assert (G : forall n, (n <= length (t_sets st))%nat ->
      snd (fold_left (do_set opts dbc solve (t_attempt st) (t_step st) (t_time st) (t_dt st)) (seq 0 n) (t_sets st, 0%nat)) = 0%nat).
    { induction n as [|n IH]; intros Hn; [reflexivity|]. rewrite seq_S, fold_left_app. cbn [fold_left Nat.add].
      destruct (attempt_sets opts dbc solve (t_attempt st) (t_step st) (t_time st) (t_dt st) (t_sets st) ltac:(lia) n ltac:(lia)) as (M1 & M2 & M3).
      destruct (attempt_sets opts dbc solve (t_attempt st) (t_step st) (t_time st) (t_dt st) (t_sets st) ltac:(lia) (S n) ltac:(lia)) as (M1' & M2' & M3').
      specialize (IH ltac:(lia)).
      destruct (nth_error (t_sets st) n) as [x|] eqn:EX; [|apply nth_error_None in EX; lia].
      destruct (nth_error opts n) as [o|] eqn:EO; [|apply nth_error_None in EO; lia].
      destruct (fold_left (do_set opts dbc solve (t_attempt st) (t_step st) (t_time st) (t_dt st)) (seq 0 n) (t_sets st, 0%nat)) as [zs s0] eqn:EF.
      cbn [fst snd] in *. subst s0.
      assert (EZ : nth_error zs n = Some x) by (rewrite M2 by lia; auto).
      rewrite (do_set_eq opts dbc solve _ _ _ _ zs 0 n x o EZ EO). cbn [snd Nat.add].
      destruct (HW n x o EX EO) as (k & K1 & K2 & K3 & K4 & K5 & _).
      destruct (HS n x o EX EO) as (S1 & S2 & S3). destruct (HI n x o EX EO) as (H1 & _).
      apply (set_at_rest (t_attempt st) (t_step st) (t_time st) (t_dt st) zs n x o k); auto.
      - intros l z Hz. destruct (Nat.lt_ge_cases l n) as [Lt|Ge].
        + destruct (nth_error (t_sets st) l) as [xl|] eqn:EXL; [|apply nth_error_None in EXL; lia].
          destruct (nth_error opts l) as [ol|] eqn:EOL; [|apply nth_error_None in EOL; lia].
          destruct (ALL l xl ol EXL EOL) as (y & Q1 & Q2 & _).
          (* zs agrees with the final list below n *)
          destruct (M3 l xl ol Lt EXL EOL) as (ys & A1 & A2 & A3 & A4 & A5 & A6).
          rewrite Hz in A5. injection A5 as ->.
          destruct (HW l xl ol EXL EOL) as (k' & K1' & K2' & K3' & K4' & K5' & _).
          destruct (HS l xl ol EXL EOL) as (S1' & S2' & S3'). destruct (HI l xl ol EXL EOL) as (H1' & _).
          apply (set_at_rest (t_attempt st) (t_step st) (t_time st) (t_dt st) ys l xl ol k'); auto.
          * intros l2 z2 Hz2. destruct (Nat.lt_ge_cases l2 l) as [Lt2|Ge2].
            -- rewrite A4 in Hz2 by auto.
               (* compare with the final list: both hold the set computed at its turn *)
               destruct (nth_error (t_sets st) l2) as [x2|] eqn:EX2; [|apply nth_error_None in EX2; lia].
               destruct (nth_error opts l2) as [o2|] eqn:EO2; [|apply nth_error_None in EO2; lia].
               destruct (ALL l2 x2 o2 EX2 EO2) as (y2 & R1 & R2 & _).
               assert (SAME : nth_error (fst (pass opts dbc solve st)) l2 = nth_error zs l2).
               { unfold pass. replace (length (t_sets st)) with (n + (length (t_sets st) - n))%nat by lia.
                 rewrite seq_app, fold_left_app, EF. cbn [Nat.add].
                 assert (KEEP : forall q m acc, (l2 < m)%nat ->
                   nth_error (fst (fold_left (do_set opts dbc solve (t_attempt st) (t_step st) (t_time st) (t_dt st)) (seq m q) acc)) l2 = nth_error (fst acc) l2).
                 { induction q as [|q IHq]; intros m acc Hm; cbn [seq fold_left]; auto. rewrite IHq by lia.
                   destruct acc as [as_ ks]. destruct (nth_error as_ m) as [xm|] eqn:EM; [|unfold do_set; rewrite EM; auto].
                   destruct (nth_error opts m) as [om|] eqn:EOM; [|unfold do_set; rewrite EM, EOM; auto].
                   rewrite (do_set_eq opts dbc solve _ _ _ _ as_ ks m xm om EM EOM). cbn [fst]. apply upd_err_other. lia. }
                 rewrite KEEP by lia. auto. }
               rewrite SAME, Hz2 in R1. injection R1 as <-. auto.
            -- rewrite A3 in Hz2 by auto. apply (AR l2 z2 Hz2).
          * intros s i Hs. apply S3'; lia.
        + rewrite M2 in Hz by auto. apply (AR l z Hz).
      - intros s i Hs. apply S3; lia. }
    apply (G (length (t_sets st)) (le_n _)). }
  split; auto. destruct (attempt_cases opts dbc solve st) as [[_ EA]|[N _]]; [|congruence]. rewrite EA.
  split; [cbn [t_sets]; lia|]. split.
  - intros j y Hy i. cbn [t_sets] in Hy.
    assert (HJ : (j < length (t_sets st))%nat) by (rewrite <- L1; apply nth_error_Some; congruence).
    destruct (nth_error (t_sets st) j) as [x|] eqn:EX; [|apply nth_error_None in EX; lia].
    destruct (nth_error opts j) as [o|] eqn:EO; [|apply nth_error_None in EO; lia].
    destruct (ALL j x o EX EO) as (y' & Q1 & Q2 & _). rewrite Hy in Q1. injection Q1 as <-. auto.
  - intros j y o Hy Ho. cbn [t_sets t_step] in *.
    assert (HJ : (j < length (t_sets st))%nat) by (rewrite <- L1; apply nth_error_Some; congruence).
    destruct (nth_error (t_sets st) j) as [x|] eqn:EX; [|apply nth_error_None in EX; lia].
    destruct (ALL j x o EX Ho) as (y' & Q1 & Q2 & Q3 & Q4). rewrite Hy in Q1. injection Q1 as <-.
    destruct (HS j x o EX Ho) as (S1 & S2 & S3). destruct (HI j x o EX Ho) as (H1 & _).
    destruct (HW j x o EX Ho) as (k & K1 & K2 & K3 & K4 & K5 & K6).
    rewrite Q3, Q4, S1. split; [lia|]. split; [auto|]. split; [|exact K6]. intros s i Hs HsL. apply S3; auto.
Qed.

(** Every run started at the steady state, with first-order start-up, stays there. *)
Theorem C30_constant_partial maxcuts end_time time dt initial n st' :
  (forall o, In o opts -> good o) -> length initial = length opts ->
  (forall j i, (j < length initial)%nat -> nth j initial vzero i = c j i) ->
  run opts dbc solve maxcuts end_time n (start opts dbc time dt initial) = Some st' ->
  at_rest (t_sets st') /\ t_cuts st' = 0%nat.
Proof.
  intros HG HL HC.
  assert (R : forall n st, rest_inv st -> t_cuts st = 0%nat -> run opts dbc solve maxcuts end_time n st = Some st' ->
     at_rest (t_sets st') /\ t_cuts st' = 0%nat).
  { clear n. induction n as [|n IH]; intros st HI HZ H; cbn [run] in H; destruct (continues maxcuts end_time st); try discriminate;
    try (injection H as <-; destruct HI as (_ & A & _); auto).
    destruct (rest_step st HG HI) as [S1 S2]. apply (IH (attempt opts dbc solve st)); auto.
    destruct (attempt_cases opts dbc solve st) as [[_ EA]|[N _]]; [|congruence]. rewrite EA. auto. }
  apply R; [|reflexivity].
  assert (NE : forall j x, nth_error (t_sets (start opts dbc time dt initial)) j = Some x ->
    exists o u, nth_error opts j = Some o /\ nth_error initial j = Some u /\
      x = {| x_scheme := initial_scheme o; x_sol := set_dirichlet dbc j time u; x_prev := repeat vzero (s_maxsteps (initial_scheme o)) |}).
  { intros j x Hx. cbn [start t_sets] in Hx.
    assert (G : forall (os : list options) us b j x, 
      nth_error (map (fun ou => {| x_scheme := initial_scheme (fst ou);
          x_sol := set_dirichlet dbc (snd (snd ou)) time (fst (snd ou));
          x_prev := repeat vzero (s_maxsteps (initial_scheme (fst ou))) |}) (combine os (combine us (seq b (length us))))) j = Some x ->
      exists o u, nth_error os j = Some o /\ nth_error us j = Some u /\
        x = {| x_scheme := initial_scheme o; x_sol := set_dirichlet dbc (b + j) time u; x_prev := repeat vzero (s_maxsteps (initial_scheme o)) |}).
    { induction os as [|o os IH]; intros us b [|j'] x' H; cbn in H; try discriminate; destruct us as [|u us]; cbn in H; try discriminate.
      - injection H as <-. exists o, u. cbn. rewrite Nat.add_0_r. auto.
      - destruct (IH us (S b) j' x' H) as (o' & u' & A1 & A2 & A3). exists o', u'. cbn. 
        replace (b + S j')%nat with (S b + j')%nat by lia. auto. }
    apply (G opts initial 0%nat j x). exact Hx. }
  split; [|split].
  - cbn [start t_sets]. rewrite map_length, combine_length, combine_length, seq_length. lia.
  - intros j x Hx i. destruct (NE j x Hx) as (o & u & EO & EU & ->). cbn [x_sol]. unfold set_dirichlet.
    destruct (dbc j time i) eqn:ED; [eapply Hdbc; eauto|].
    rewrite <- (HC j i) by (apply nth_error_Some; congruence). rewrite (nth_error_nth _ _ vzero EU). auto.
  - intros j x o Hx Ho. destruct (NE j x Hx) as (o' & u & EO & EU & ->). rewrite Ho in EO. injection EO as <-.
    destruct (HG o (nth_error_In _ _ Ho)) as (G1 & G2 & G3 & G4).
    cbn [x_scheme x_prev start t_step]. rewrite repeat_length. unfold initial_scheme.
    destruct (Nat.ltb_spec 1 (o_bdf o)) as [B|B]; cbn [andb Nat.leb].
    + destruct (G4 B) as [G5 G6]. cbn [set_tab set_bdf s_maxsteps s_numstages s_maxstages s_wts]. rewrite G5.
      rewrite (bdf_length (o_bdf o)) by auto. split; [lia|]. split; [lia|]. split; [intros; lia|auto].
    + cbn [set_tab set_bdf s_maxsteps s_numstages s_maxstages s_wts]. rewrite (bdf_length (o_bdf o)) by auto.
      split; [lia|]. split; [lia|]. split; [intros; lia|auto].
Qed.
End Constant.
Print Assumptions C30_constant_partial.

(** A solver meeting the hypothesis: one Newton step for u_dot = 0. *)
Definition newton : nat -> nat -> nat -> R -> R -> scheme -> list vec -> list vec -> list vec -> vec * nat :=
  fun a s k t d sch x y z =>
    let g := nth (if Nat.eqb (s_maxstages sch) 1 then 0 else k) y vzero in
    (fun i => g i - dot_of scalars (s_tab sch) (s_wts sch) d k (fun s => nth s z vzero i) (g i)
                  / dot_of scalars (s_tab sch) (s_wts sch) d k (fun _ => 0) 1, 0%nat).

Lemma newton_steady c : forall a set k t d sch sols stages prev,
  let gs := nth (if Nat.eqb (s_maxstages sch) 1 then 0 else k) stages vzero in
  (forall i, gs i = c set i) ->
  (forall j i, (j < length sols)%nat -> nth j sols vzero i = c j i) ->
  (forall i, state_of scalars (s_tab sch) k (nth 0 prev vzero i) (fun s => nth s stages vzero i) (gs i) = c set i) ->
  (forall i, dot_of scalars (s_tab sch) (s_wts sch) d k (fun s => nth s prev vzero i) (gs i) = 0) ->
  (forall i, fst (newton a set k t d sch sols stages prev) i = c set i) /\
  snd (newton a set k t d sch sols stages prev) = 0%nat.
Proof.
  intros a set k t d sch sols stages prev gs H1 _ _ H4. split; auto. intros i. unfold newton. cbn [fst]. fold gs.
  rewrite H4, H1. unfold Rdiv. ring.
Qed.

Example C30_hypotheses_met n st' :
  run [bdf2; opt1 rk44] free newton 5 10 n (start [bdf2; opt1 rk44] free 0 1 [fun _ => 1; fun _ => 2]) = Some st' ->
  at_rest (fun j _ => INR (S j)) (t_sets st').
Proof.
  intros H. eapply (proj1 (C30_constant_partial [bdf2; opt1 rk44] free newton (fun j _ => INR (S j))
    ltac:(discriminate) (newton_steady _) 5 10 0 1 [fun _ => 1; fun _ => 2] n st' _ eq_refl _ H)).
  Unshelve.
  - intros o [<-|[<-|[]]]; unfold good; cbn; lia.
  - intros [|[|j]] i Hj; cbn [nth]; cbn in *; try lia; lra.
Qed.

(** With the default start-up (same order from the first step) the zero history enters:
    BDF2 turns the constant 1 into 4/3 in the first step. *)
Definition bdf2d : options := {| o_tab := bwe; o_bdf := 2; o_stab := bwe; o_sbdf := 2; o_ssteps := 1 |}.
Theorem C30_default_refuted :
  snd (pass [bdf2d] free newton (start [bdf2d] free 0 1 [fun _ => 1])) = 0%nat /\
  exists x, nth_error (t_sets (attempt [bdf2d] free newton (start [bdf2d] free 0 1 [fun _ => 1]))) 0 = Some x /\
    x_sol x 0%nat = 4 / 3.
Proof.
  split; [reflexivity|]. eexists. split; [reflexivity|].
  cbn [x_sol]. cbn -[Rplus Rmult Rdiv Rminus Rinv IZR dot_of set_dirichlet]. unfold newton.
  cbn -[Rplus Rmult Rdiv Rminus Rinv IZR dot_of set_dirichlet].
  unfold set_dirichlet, free, dot_of, vzero.
  cbn -[Rplus Rmult Rdiv Rminus Rinv IZR]. unfold bi. cbn -[Rplus Rmult Rdiv Rminus Rinv IZR]. field.
Qed.
Print Assumptions C30_default_refuted.

(** *** C31 *)
Section Explicit_step.
Variable opts : list options.
Variable res : nat -> R -> vec -> vec -> vec.
Variable mass : nat -> vec.
Variable norm2 : vec -> R.
Let solve := explicit_solver res mass norm2 free.

(** One accepted explicit step: there are stage states y, stage derivatives z and slopes
    k with y_s = u + dt*sum_j a_sj k_j, z_s = 0, M k_s the residual at (t + c_s dt, y_s)
    (or zero if its norm is at most 1e-100), and the new solution is u + dt*sum b_s k_s. *)
Theorem C31_step st set x : (length (t_sets st) <= length opts)%nat ->
  nth_error (t_sets st) set = Some x -> x_prev x <> [] -> t_dt st <> 0 ->
  (forall o, nth_error opts set = Some o -> let sch := next_scheme o (t_step st) x in
     s_wts sch = bdf 1 /\ s_numstages sch = nst (s_tab sch) /\ (1 <= s_numstages sch <= s_maxstages sch)%nat /\
     strictly_lower (s_tab sch) /\ weights_nonzero (s_tab sch)) ->
  snd (pass opts free solve st) = 0%nat /\
  exists o x', nth_error opts set = Some o /\ nth_error (t_sets (attempt opts free solve st)) set = Some x' /\
    let t := s_tab (next_scheme o (t_step st) x) in
    exists (y z k : nat -> vec),
      (forall s i, (s < nst t)%nat -> y s i = x_sol x i + t_dt st * sumf (nst t) (fun j => aij t s j * k j i)) /\
      (forall s i, (s < nst t)%nat -> z s i = 0) /\
      (forall s i, (s < nst t)%nat ->
         let r := res set (t_time st + ci t s * t_dt st) (y s) (z s) in
         k s i = if Rlt_dec (/ 10 ^ 100) (norm2 r) then r i / mass set i else 0) /\
      (forall i, x_sol x' i = x_sol x i + t_dt st * sumf (nst t) (fun s => bi t s * k s i)).
Proof.
  intros HL Hx HP HD HO.
  assert (HS : snd (pass opts free solve st) = 0%nat).
  { apply status_ok. intros a s k t d sc so y z. unfold solve, explicit_solver. destruct (Rlt_dec _ _); auto. }
  split; auto. destruct (attempt_cases opts free solve st) as [[_ ->]|[H _]]; [|congruence]. cbn [t_sets].
  destruct (pass_set opts free solve st set x HL Hx) as (o & ys & EO & LY & EY & E & _).
  exists o. eexists. split; auto. split; [exact E|]. cbn zeta. cbn [x_sol new_set].
  specialize (HO o EO). cbn zeta in HO. set (sch := next_scheme o (t_step st) x) in *. set (t := s_tab sch) in *.
  destruct HO as (HW & HN & HM & HT & HB).
  assert (HJ : (set < length (t_sets st))%nat) by (apply nth_error_Some; congruence).
  assert (HU : nth set (map x_sol ys) vzero = x_sol x) by (rewrite (nth_error_nth _ _ vzero (map_nth_error x_sol _ _ EY)); auto).
  assert (HP0 : nth 0 (shifted x) vzero = x_sol x) by (unfold shifted; destruct (x_prev x); [congruence|reflexivity]).
  destruct (stages_all free solve (t_attempt st) set (t_time st) (t_dt st) sch (shifted x) (map x_sol ys) (x_sol x)
     ltac:(rewrite map_length; lia) HU HP0 ltac:(lia) ltac:(lia)) as (_ & V & _).
  set (OUT := out free solve (t_attempt st) set (t_time st) (t_dt st) sch (shifted x) (map x_sol ys) (x_sol x)) in *.
  set (GIV := fun s => snd (given free solve (t_attempt st) set (t_time st) (t_dt st) sch (shifted x) (map x_sol ys) (x_sol x) s)).
  assert (GS : forall s, (s < nst t)%nat -> nth (if Nat.eqb (s_maxstages sch) 1 then 0 else s) (GIV s) vzero = x_sol x).
  { intros s Hs. unfold GIV. destruct (Nat.eqb_spec (s_maxstages sch) 1) as [E1|N1].
    - unfold given. rewrite E1. reflexivity.
    - rewrite given_stage by (auto; try rewrite map_length; lia). rewrite Nat.eqb_refl. reflexivity. }
  assert (GJ : forall s j, (s < nst t)%nat -> (j < s)%nat -> nth j (GIV s) vzero = fst (OUT j)).
  { intros s j Hs Hj. unfold GIV. rewrite given_stage by (try rewrite map_length; auto; lia).
    destruct (Nat.eqb_spec j s); [lia|]. reflexivity. }
  pose (y := fun s i => state_of scalars t s (nth 0 (shifted x) vzero i) (fun j => nth j (GIV s) vzero i) (x_sol x i)).
  pose (z := fun s i => dot_of scalars t (s_wts sch) (t_dt st) s (fun j => nth j (shifted x) vzero i) (x_sol x i)).
  pose (r := fun s => res set (t_time st + ci t s * t_dt st) (y s) (z s)).
  pose (k := fun s i => if Rlt_dec (/ 10 ^ 100) (norm2 (r s)) then r s i / mass set i else 0).
  assert (EOUT : forall s i, (s < nst t)%nat -> fst (OUT s) i = x_sol x i + t_dt st * bi t s * k s i).
  { intros s i Hs. unfold OUT, out.
    change (snd (given free solve (t_attempt st) set (t_time st) (t_dt st) sch (shifted x) (map x_sol ys) (x_sol x) s)) with (GIV s).
    clearbody OUT. revert GS. clearbody GIV. intros GS. unfold solve, explicit_solver.
    rewrite (GS s Hs). cbn [free].
    change (free set (ts (t_time st) (t_dt st) sch s)) with (fun _ : nat => @None R). cbv beta iota.
    fold t. change (ts (t_time st) (t_dt st) sch s) with (t_time st + ci t s * t_dt st). 
    change (fun i0 : nat => state_of scalars t s (nth 0 (shifted x) vzero i0) (fun s0 => nth s0 (GIV s) vzero i0) (x_sol x i0)) with (y s).
    change (fun i0 : nat => dot_of scalars t (s_wts sch) (t_dt st) s (fun s0 => nth s0 (shifted x) vzero i0) (x_sol x i0)) with (z s).
    fold (r s). unfold k. destruct (Rlt_dec (/ 10 ^ 100) (norm2 (r s))); cbn [fst]; [unfold Rdiv; ring|ring]. }
  exists y, z, k. split; [|split; [|split]].
  - intros s i Hs. unfold y. rewrite HP0. unfold state_of. cbn [scalars vadd vscal vsub]. rewrite fold_sum.
    rewrite (HT s s) by lia. rewrite (sumf_lower (nst t) s) by (auto; intros j Hj; rewrite HT by lia; ring).
    rewrite (HT s s) by lia.
    rewrite (rsum_ext _ (fun j => t_dt st * (aij t s j * k j i))).
    + rewrite rsum_map_scal. unfold sumf. unfold Rdiv. ring.
    + intros j Hj. apply in_seq in Hj. rewrite GJ by lia. rewrite EOUT by lia.
      pose proof (HB j ltac:(lia)). field. auto.
  - intros s i Hs. unfold z. rewrite HW. apply dot_const; [lia|]. intros q Hq. replace q with 0%nat by lia. rewrite HP0. auto.
  - intros s i Hs. reflexivity.
  - intros i. rewrite V. f_equal. rewrite <- sumf_scal. rewrite HN. apply sumf_ext. intros s Hs.
    rewrite EOUT by auto. ring.
Qed.
End Explicit_step.
Print Assumptions C31_step.

Example C31_hypotheses_met : strictly_lower rk44 /\ weights_nonzero rk44 /\ strictly_lower ssprk33 /\ weights_nonzero ssprk33.
Proof.
  split; [|split; [|split]].
  - intros s j Hj. unfold rk44, aij. cbn [tA]. destruct s as [|[|[|[|s]]]]; destruct j as [|[|[|[|j]]]]; cbn; try lra; try lia; try (destruct j; reflexivity); try (destruct s; reflexivity); destruct s; destruct j; reflexivity.
  - apply C24_rk44.
  - intros s j Hj. unfold ssprk33, aij. cbn [tA]. destruct s as [|[|[|s]]]; destruct j as [|[|[|j]]]; cbn; try lra; try lia; try (destruct j; reflexivity); try (destruct s; reflexivity); destruct s; destruct j; reflexivity.
  - apply C24_ssprk33.
Qed.

(** *** C23, at the level of the time loop *)
Section Step.
Variable opts : list options.
Variable dbc : nat -> R -> nat -> option R.
Variable solve : nat -> nat -> nat -> R -> R -> scheme -> list vec -> list vec -> list vec -> vec * nat.

(** For every solver, boundary data and lower triangular tableau: an accepted step has
    stage solutions U_s, each returned by the solver at time t + c_s dt when shown the
    earlier ones, and with k_s the time derivative the physics sees at U_s, the state
    it sees is u_n + dt*sum_j a_sj k_j and the new solution is u_n + dt*sum_s b_s k_s. *)
Theorem C23_step st set x : (length (t_sets st) <= length opts)%nat ->
  snd (pass opts dbc solve st) = 0%nat ->
  nth_error (t_sets st) set = Some x -> x_prev x <> [] -> t_dt st <> 0 ->
  (forall o, nth_error opts set = Some o -> let sch := next_scheme o (t_step st) x in
     s_wts sch = bdf 1 /\ s_numstages sch = nst (s_tab sch) /\ (1 <= s_numstages sch <= s_maxstages sch)%nat /\
     lower (s_tab sch) /\ weights_nonzero (s_tab sch)) ->
  exists o x', nth_error opts set = Some o /\ nth_error (t_sets (attempt opts dbc solve st)) set = Some x' /\
    let sch := next_scheme o (t_step st) x in let t := s_tab sch in
    exists (U : nat -> vec) (prev : list vec), nth 0 prev vzero = x_sol x /\
      (forall s, (s < nst t)%nat -> exists sols stages,
         U s = fst (solve (t_attempt st) set s (t_time st + ci t s * t_dt st) (t_dt st) sch sols stages prev) /\
         forall j, (j < s)%nat -> nth j stages vzero = U j) /\
      forall i, let k s := dot_of scalars t (s_wts sch) (t_dt st) s (fun j => nth j prev vzero i) (U s i) in
        (forall s, (s < nst t)%nat ->
           state_of scalars t s (nth 0 prev vzero i) (fun j => U j i) (U s i) =
           x_sol x i + t_dt st * sumf (nst t) (fun j => aij t s j * k j)) /\
        x_sol x' i = x_sol x i + t_dt st * sumf (nst t) (fun s => bi t s * k s).
Proof.
  intros HL HS Hx HP HD HO. destruct (attempt_cases opts dbc solve st) as [[_ ->]|[H _]]; [|congruence]. cbn [t_sets].
  destruct (pass_set opts dbc solve st set x HL Hx) as (o & ys & EO & LY & EY & E & _).
  exists o. eexists. split; auto. split; [exact E|]. cbn zeta. cbn [x_sol new_set].
  specialize (HO o EO). cbn zeta in HO. set (sch := next_scheme o (t_step st) x) in *. set (t := s_tab sch) in *.
  destruct HO as (HW & HN & HM & HT & HB).
  assert (HJ : (set < length (t_sets st))%nat) by (apply nth_error_Some; congruence).
  assert (HU : nth set (map x_sol ys) vzero = x_sol x) by (rewrite (nth_error_nth _ _ vzero (map_nth_error x_sol _ _ EY)); auto).
  assert (HP0 : nth 0 (shifted x) vzero = x_sol x) by (unfold shifted; destruct (x_prev x); [congruence|reflexivity]).
  assert (HLY : (set < length (map x_sol ys))%nat) by (rewrite map_length; lia).
  destruct (stages_all dbc solve (t_attempt st) set (t_time st) (t_dt st) sch (shifted x) (map x_sol ys) (x_sol x)
     HLY HU HP0 ltac:(lia) ltac:(lia)) as (_ & V & _).
  set (OUT := out dbc solve (t_attempt st) set (t_time st) (t_dt st) sch (shifted x) (map x_sol ys) (x_sol x)) in *.
  exists (fun s => fst (OUT s)), (shifted x). split; auto. split.
  - intros s Hs. eexists. eexists. split; [reflexivity|]. intros j Hj.
    rewrite given_stage by (auto; lia). destruct (Nat.eqb_spec j s); [lia|]. reflexivity.
  - intros i.
    assert (G := C23_stages t (t_dt st) HB HT HD (fun j => nth j (shifted x) vzero i) (fun j => fst (OUT j) i)).
    cbn zeta in G. rewrite HW. destruct G as [G1 G2]. rewrite HP0 in *. split; [exact G1|]. rewrite V, HN. exact G2.
Qed.
End Step.
Print Assumptions C23_step.
