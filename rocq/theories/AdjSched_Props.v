(** C313-C317: the adjoint sweep against the forward run. *)
From Coq Require Import Bool Arith Lia ZArith Reals Lra List.
From Verif Require Import AdjSched_Model.
Import ListNotations.
Local Open Scope R_scope.

(** *** Specification: consecutive steps *)

(** The steps [l] start at [t] and at number [n], each beginning where the one before ended. *)
Fixpoint chain (n : nat) (t : R) (l : list tstep) : Prop :=
  match l with
  | [] => True
  | e :: l => ts_par e = n /\ ts_from e = t /\ chain (S n) (t + ts_dt e) l
  end.
Fixpoint end_of (t : R) (l : list tstep) : R := match l with [] => t | e :: l => end_of (t + ts_dt e) l end.
(** Times at which a chain has a solution. *)
Fixpoint times_of (t : R) (l : list tstep) : list R := match l with [] => [t] | e :: l => t :: times_of (t + ts_dt e) l end.

Lemma chain_snoc : forall l n t e, chain n t l -> ts_par e = (n + length l)%nat -> ts_from e = end_of t l -> chain n t (l ++ [e]).
Proof.
  induction l as [|a l IH]; cbn [app chain end_of length]; intros n t e H P F.
  - split; [lia|]. auto.
  - destruct H as (A & B & C). repeat split; auto. apply IH; auto. lia.
Qed.
Lemma end_snoc : forall l t e, end_of t (l ++ [e]) = end_of t l + ts_dt e.
Proof. induction l as [|a l IH]; cbn [app end_of]; intros; auto. Qed.
Lemma times_snoc : forall l t e, times_of t (l ++ [e]) = times_of t l ++ [end_of t l + ts_dt e].
Proof. induction l as [|a l IH]; cbn [app end_of times_of]; intros; [reflexivity|]. rewrite IH. reflexivity. Qed.
Lemma times_len : forall l t, length (times_of t l) = S (length l).
Proof. induction l as [|a l IH]; cbn [times_of length]; intros; auto. Qed.

Definition sound (t0 : R) (s : fwd) : Prop :=
  chain 0 t0 (f_steps s) /\ f_time s = end_of t0 (f_steps s) /\ f_times s = times_of t0 (f_steps s).
Lemma attempt_sound t0 ok s : sound t0 s -> sound t0 (fwd_attempt ok s).
Proof.
  intros (A & B & C). unfold fwd_attempt. destruct ok; [|exact (conj A (conj B C))]. unfold sound. cbn [f_steps f_time f_times].
  rewrite end_snoc, times_snoc, <- C, <- B. cbn [ts_dt]. repeat split; auto. apply chain_snoc; auto.
Qed.
Lemma run_sound T m t0 : forall os s, sound t0 s -> sound t0 (fwd_run T m os s).
Proof. induction os as [|ok os IH]; intros s H; [auto|]. cbn [fwd_run]. destruct (fwd_continues T m s); auto. apply IH, attempt_sound, H. Qed.

(** What is stored is the chain of accepted steps, cuts or not. *)
Theorem C314_forward T m t0 dt os : let s := fwd_run T m os (fwd_start t0 dt) in
  chain 0 t0 (f_steps s) /\ f_times s = times_of t0 (f_steps s).
Proof. intro s. destruct (run_sound T m t0 os (fwd_start t0 dt)) as (A & B & C); [repeat split|]. auto. Qed.

Lemma nth_times : forall l n t k, chain n t l -> (k < length l)%nat -> forall d, nth k (times_of t l) 0 = ts_from (nth k l d) /\ ts_par (nth k l d) = (n + k)%nat.
Proof.
  induction l as [|a l IH]; intros n t k H K d; cbn [length] in K; [lia|]. destruct H as (A & B & C). destruct k as [|k]; cbn [times_of nth].
  - split; [auto|lia].
  - destruct (IH (S n) (t + ts_dt a) k C ltac:(lia) d) as [X Y]. split; [auto|lia].
Qed.
Lemma nth_times_next : forall l n t k, chain n t l -> (k < length l)%nat -> forall d, nth (S k) (times_of t l) 0 = ts_from (nth k l d) + ts_dt (nth k l d).
Proof.
  induction l as [|a l IH]; intros n t k H K d; cbn [length] in K; [lia|]. destruct H as (A & B & C). destruct k as [|k].
  - cbn [times_of nth]. destruct l; cbn [times_of nth]; rewrite B; auto.
  - change (nth (S (S k)) (times_of t (a :: l)) 0) with (nth (S k) (times_of (t + ts_dt a) l) 0). cbn [nth]. apply (IH (S n)); auto. lia.
Qed.
Lemma map_rev_nth {A B} (f : nat -> B) (g : A -> B) (l : list A) d : (forall k, (k < length l)%nat -> f (S k) = g (nth k l d)) ->
  map (fun i => f (length l - i)%nat) (seq 0 (length l)) = map g (rev l).
Proof.
  intro H. apply nth_ext with (d := g d) (d' := g d); [rewrite !map_length, seq_length, rev_length; auto|]. rewrite map_length, seq_length. intros i Hi.
  rewrite (nth_indep _ (g d) (f (length l - 0)%nat)) by (rewrite map_length, seq_length; auto).
  rewrite (map_nth (fun i => f (length l - i)%nat) (seq 0 (length l)) 0%nat), seq_nth by auto. rewrite (map_nth g), rev_nth by auto. cbn [Nat.add].
  rewrite <- H by lia. f_equal. lia.
Qed.

(** *** C313, C314: the steps of the sweep *)

Definition no_dt (e : tstep) : nat * R := (ts_par e, ts_from e).

(** The parameters and the starting time of every adjoint step are those of the forward step it
    undoes, and the forward solutions are the two at its ends; also after cuts. *)
Theorem C314_partial T m t0 dt os wf : let s := fwd_run T m os (fwd_start t0 dt) in
  map (fun a => (as_states a, no_dt (as_step a))) (adj_run wf s) =
  map (fun e => ((S (ts_par e), ts_par e), no_dt e)) (rev (f_steps s)) /\
  (forall a, In a (adj_run wf s) -> ts_dt (as_step a) = f_dt s).
Proof.
  intro s. destruct (C314_forward T m t0 dt os) as [CH TI]. fold s in CH, TI. unfold adj_run. rewrite TI, times_len.
  replace (S (length (f_steps s)) - 1)%nat with (length (f_steps s)) by lia. split.
  - rewrite map_map.
    apply (map_rev_nth (fun k => (as_states (adj_one wf (times_of t0 (f_steps s)) (f_dt s) k), no_dt (as_step (adj_one wf (times_of t0 (f_steps s)) (f_dt s) k))))
       (fun e => ((S (ts_par e), ts_par e), no_dt e)) (f_steps s) {| ts_par := 0; ts_from := 0; ts_dt := 0 |}).
    intros k K. destruct (nth_times _ _ _ k CH K {| ts_par := 0; ts_from := 0; ts_dt := 0 |}) as [X Y].
    unfold adj_one, no_dt. cbn [as_states as_step ts_par ts_from]. replace (S k - 1)%nat with k by lia. rewrite X, Y. cbn [Nat.add]. reflexivity.
  - intros a Ha. apply in_map_iff in Ha. destruct Ha as (i & <- & _). reflexivity.
Qed.
Print Assumptions C314_partial.

Lemma run_uncut T m : forall os s d, Forall (fun b => b = true) os -> f_dt s = d -> Forall (fun e => ts_dt e = d) (f_steps s) ->
  f_dt (fwd_run T m os s) = d /\ Forall (fun e => ts_dt e = d) (f_steps (fwd_run T m os s)).
Proof.
  induction os as [|b os IH]; intros s d F D S; [auto|]. inversion F; subst. cbn [fwd_run]. destruct (fwd_continues T m s); [|auto].
  apply IH; auto. cbn [fwd_attempt f_steps]. apply Forall_app. split; auto.
Qed.

Lemma rev_steps l : forall a : tstep, In a (rev l) <-> In a l.
Proof. intro a. symmetry. apply in_rev. Qed.
Lemma tstep_eq a b : no_dt a = no_dt b -> ts_dt a = ts_dt b -> a = b.
Proof. destruct a, b. unfold no_dt. cbn. intros E D. injection E as -> ->. subst. reflexivity. Qed.
Lemma map_tstep : forall l l' (d : R), map no_dt l = map no_dt l' -> Forall (fun e => ts_dt e = d) l -> Forall (fun e => ts_dt e = d) l' -> l = l'.
Proof.
  induction l as [|a l IH]; intros [|b l'] d E F G; try discriminate; auto. inversion F; inversion G; subst.
  assert (E1 : no_dt a = no_dt b) by (cbn [map] in E; congruence). assert (E2 : map no_dt l = map no_dt l') by (cbn [map] in E; congruence).
  f_equal; [apply tstep_eq; congruence|]. eapply IH; eauto.
Qed.

(** If no step was rejected the sweep undoes exactly the forward steps, last first: same
    parameters, same starting time, same step size, and the solutions at its two ends. *)
Theorem C313_reverse T m t0 dt os wf : Forall (fun b => b = true) os -> let s := fwd_run T m os (fwd_start t0 dt) in
  map as_step (adj_run wf s) = rev (f_steps s) /\
  map as_states (adj_run wf s) = map (fun e => (S (ts_par e), ts_par e)) (rev (f_steps s)).
Proof.
  intros F s. destruct (C314_partial T m t0 dt os wf) as [E D]. fold s in E, D.
  destruct (run_uncut T m os (fwd_start t0 dt) dt F eq_refl (Forall_nil _)) as [X Y]. fold s in X, Y. split.
  - apply (map_tstep _ _ dt).
    + rewrite map_map. apply (f_equal (map snd)) in E. rewrite !map_map in E. exact E.
    + apply Forall_forall. intros e He. apply in_map_iff in He. destruct He as (a & <- & A). rewrite (D a A). exact X.
    + apply Forall_forall. intros e He. rewrite Forall_forall in Y. apply Y. apply rev_steps. exact He.
  - apply (f_equal (map fst)) in E. rewrite !map_map in E. exact E.
Qed.
Print Assumptions C313_reverse.

Lemma lt_true x y : x < y -> (if Rlt_dec x y then true else false) = true.
Proof. intro H. destruct (Rlt_dec x y); [auto|contradiction]. Qed.
Lemma lt_false x y : y <= x -> (if Rlt_dec x y then true else false) = false.
Proof. intro H. destruct (Rlt_dec x y); [lra|auto]. Qed.

(** Two accepted steps. *)
Example C313_case : let s := fwd_run 1 3 [true; true; true] (fwd_start 0 (1 / 2)) in
  length (f_steps s) = 2%nat /\ map ts_par (map as_step (adj_run 1 s)) = [1; 0]%nat /\ f_time s = 1.
Proof.
  intro s. assert (E : s = fwd_attempt true (fwd_attempt true (fwd_start 0 (1 / 2)))).
  { unfold s. cbn [fwd_run]. unfold fwd_continues at 1. rewrite lt_true by (cbn; lra). cbn [andb Nat.leb fwd_start f_cuts].
    unfold fwd_continues at 1. rewrite lt_true by (cbn; lra). cbn [andb Nat.leb fwd_start f_cuts fwd_attempt].
    unfold fwd_continues at 1. rewrite lt_false by (cbn; lra). reflexivity. }
  rewrite E. cbn. repeat split. lra.
Qed.

(** One step accepted, then one cut: the first step is undone with the wrong step size. *)
Theorem C314_refuted : exists T m t0 dt os wf, let s := fwd_run T m os (fwd_start t0 dt) in
  map ts_dt (f_steps s) = [1; 1 / 2; 1 / 2] /\ map (fun a => ts_dt (as_step a)) (adj_run wf s) = [1 / 2; 1 / 2; 1 / 2] /\
  map as_step (adj_run wf s) <> rev (f_steps s).
Proof.
  exists 2, 3%nat, 0, 1, [true; false; true; true], 1%nat. intro s.
  assert (E : s = fwd_attempt true (fwd_attempt true (fwd_attempt false (fwd_attempt true (fwd_start 0 1))))).
  { unfold s. cbn [fwd_run]. unfold fwd_continues at 1. rewrite lt_true by (cbn; lra). cbn [andb Nat.leb fwd_start f_cuts].
    unfold fwd_continues at 1. rewrite lt_true by (cbn; lra). cbn [andb Nat.leb fwd_start f_cuts fwd_attempt].
    unfold fwd_continues at 1. rewrite lt_true by (cbn; lra). cbn [andb Nat.leb fwd_start f_cuts fwd_attempt].
    unfold fwd_continues at 1. rewrite lt_true by (cbn; lra). cbn [andb Nat.leb fwd_start f_cuts fwd_attempt]. reflexivity. }
  rewrite E. cbn. repeat split.
  - replace (1 * (1 / 2)) with (1 / 2) by lra. reflexivity.
  - replace (1 * (1 / 2)) with (1 / 2) by lra. reflexivity.
  - intro X. apply (f_equal (fun l => ts_dt (nth 2 l {| ts_par := 0; ts_from := 0; ts_dt := 0 |}))) in X. cbn in X. lra.
Qed.
Print Assumptions C314_refuted.

(** *** C315: the steps at which the objective is differentiated *)

Definition later (l : list (nat * R)) : list (nat * R) := filter (fun kt => negb (Nat.eqb (fst kt) 0)) l.

Lemma filter_map' {A B} (f : A -> B) p (l : list A) : filter p (map f l) = map f (filter (fun x => p (f x)) l).
Proof. induction l as [|a l IH]; [reflexivity|]. cbn [map filter]. destruct (p (f a)); cbn [map]; rewrite IH; reflexivity. Qed.
Lemma number_times_map ts : number_times ts = map (fun k => (k, nth k ts 0)) (seq 0 (length ts)).
Proof.
  unfold number_times. apply nth_ext with (d := (0%nat, 0)) (d' := (0%nat, 0)); [rewrite combine_length, seq_length, map_length, seq_length; lia|].
  rewrite combine_length, seq_length, Nat.min_id. intros k K. rewrite combine_nth by (rewrite seq_length; auto). rewrite seq_nth by auto.
  rewrite (nth_indep _ (0%nat, 0) (0%nat, nth 0 ts 0)) by (rewrite map_length, seq_length; auto).
  rewrite (map_nth (fun k => (k, nth k ts 0)) (seq 0 (length ts)) 0%nat), seq_nth by auto. reflexivity.
Qed.
Lemma rev_seq n : map (fun i => (n - i)%nat) (seq 0 n) = rev (seq 1 n).
Proof.
  apply nth_ext with (d := 0%nat) (d' := 0%nat); [rewrite map_length, rev_length, !seq_length; auto|]. rewrite map_length, seq_length. intros i Hi.
  rewrite (nth_indep _ 0%nat (n - 0)%nat) by (rewrite map_length, seq_length; auto).
  rewrite (map_nth (fun i => (n - i)%nat) (seq 0 n) 0%nat), seq_nth by auto. rewrite rev_nth by (rewrite seq_length; auto). rewrite seq_length, seq_nth by lia. lia.
Qed.
Lemma flat_filter {A B} (p : A -> bool) (f : A -> B) l :
  flat_map (fun x => match (if p x then Some (f x) else None) with Some y => [y] | None => [] end) l = map f (filter p l).
Proof. induction l as [|a l IH]; [reflexivity|]. cbn [flat_map filter]. rewrite IH. destruct (p a); reflexivity. Qed.
Lemma filter_rev' {A} (p : A -> bool) l : filter p (rev l) = rev (filter p l).
Proof. induction l as [|a l IH]; [reflexivity|]. cbn [rev filter]. rewrite filter_app, IH. cbn [filter]. destruct (p a); cbn [rev]; [auto|apply app_nil_r]. Qed.
Lemma flat_map_map {A B C} (g : A -> B) (f : B -> list C) l : flat_map f (map g l) = flat_map (fun x => f (g x)) l.
Proof. induction l as [|a l IH]; [reflexivity|]. cbn [map flat_map]. rewrite IH. reflexivity. Qed.

(** Without a recording window and without cuts, the objective is differentiated with respect to
    the state at exactly the recorded steps (after the initial one) and times of the forward
    run, last first, whatever the write frequency. *)
Theorem C315_partial T m t0 dt os wf start stop : Forall (fun b => b = true) os -> let s := fwd_run T m os (fwd_start t0 dt) in
  (forall t, In t (f_times s) -> start <= t <= stop) ->
  state_gradients (adj_run wf s) = rev (later (objective_evaluations wf start stop (f_times s))).
Proof.
  intros F s W. destruct (C314_forward T m t0 dt os) as [CH TI]. fold s in CH, TI.
  destruct (run_uncut T m os (fwd_start t0 dt) dt F eq_refl (Forall_nil _)) as [D Y]. fold s in D, Y.
  unfold state_gradients, adj_run. rewrite flat_map_map. unfold later, objective_evaluations. rewrite number_times_map, !filter_map', <- map_rev.
  set (n := (length (f_times s) - 1)%nat). assert (L : length (f_times s) = S n) by (unfold n; rewrite TI, times_len; lia).
  rewrite <- (flat_map_map (fun i => (n - i)%nat) (fun k => match as_state_grad (adj_one wf (f_times s) (f_dt s) k) with Some x => [x] | None => [] end)).
  rewrite rev_seq. unfold adj_one. cbn [as_state_grad]. rewrite flat_filter, filter_rev'. rewrite L. cbn [seq filter fst snd negb Nat.eqb].
  assert (Z : forall b, filter (fun x : nat => negb (x =? 0)) (if b : bool then 0%nat :: filter (fun x => records wf start stop x (nth x (f_times s) 0)) (seq 1 n) else filter (fun x => records wf start stop x (nth x (f_times s) 0)) (seq 1 n))
     = filter (fun x => (x mod wf =? 0)) (seq 1 n)).
  { intro b. transitivity (filter (fun x : nat => negb (x =? 0)) (filter (fun x => records wf start stop x (nth x (f_times s) 0)) (seq 1 n))); [destruct b; reflexivity|].
    assert (P : forall l, (forall x, In x l -> (1 <= x <= n)%nat) -> filter (fun x : nat => negb (x =? 0)) (filter (fun x => records wf start stop x (nth x (f_times s) 0)) l) = filter (fun x => (x mod wf =? 0)) l).
    { induction l as [|x l IH]; intro H; [reflexivity|]. cbn [filter]. assert (Hx := H x (or_introl eq_refl)).
      assert (R : records wf start stop x (nth x (f_times s) 0) = (x mod wf =? 0)).
      { unfold records. assert (I : In (nth x (f_times s) 0) (f_times s)) by (apply nth_In; lia). apply W in I.
        assert (E : 0 < / 10 ^ 100) by (apply Rinv_0_lt_compat, pow_lt; lra).
        destruct (Rle_dec start (nth x (f_times s) 0 + / 10 ^ 100)) as [_|N]; [|lra]. destruct (Rle_dec (nth x (f_times s) 0 - / 10 ^ 100) stop) as [_|N]; [|lra].
        rewrite !andb_true_r. reflexivity. }
      rewrite R. destruct (x mod wf =? 0); cbn [filter]; [destruct (Nat.eqb_spec x 0); [lia|]; cbn [negb]; f_equal|]; apply IH; intros y Hy; apply H; right; auto. }
    apply P. intros x Hx. apply in_seq in Hx. lia. }
  rewrite Z. apply map_ext_in. intros k Hk. apply in_rev in Hk. apply filter_In in Hk. destruct Hk as [Hk _]. apply in_seq in Hk. f_equal.
  destruct k as [|k]; [lia|]. replace (S k - 1)%nat with k by lia. rewrite TI.
  assert (K : (k < length (f_steps s))%nat) by (rewrite TI, times_len in L; lia).
  destruct (nth_times _ _ _ k CH K {| ts_par := 0; ts_from := 0; ts_dt := 0 |}) as [X _].
  rewrite (nth_times_next _ _ _ k CH K {| ts_par := 0; ts_from := 0; ts_dt := 0 |}), X, D. f_equal.
  rewrite Forall_forall in Y. symmetry. apply Y. apply nth_In. exact K.
Qed.
Print Assumptions C315_partial.

Lemma uncut2 : fwd_run 1 3 [true; true] (fwd_start 0 (1 / 2)) = fwd_attempt true (fwd_attempt true (fwd_start 0 (1 / 2))).
Proof.
  cbn [fwd_run]. unfold fwd_continues at 1. rewrite lt_true by (cbn; lra). cbn [andb Nat.leb fwd_start f_cuts].
  unfold fwd_continues at 1. rewrite lt_true by (cbn; lra). cbn [andb Nat.leb fwd_start f_cuts fwd_attempt]. reflexivity.
Qed.

(** Every second step recorded. *)
Example C315_case : let s := fwd_run 1 3 [true; true] (fwd_start 0 (1 / 2)) in state_gradients (adj_run 2 s) = [(2%nat, 0 + 1 / 2 + 1 / 2)] /\
  (forall t, In t (f_times s) -> 0 <= t <= 1).
Proof.
  rewrite uncut2. cbn. split; [reflexivity|]. intros t [H|[H|[H|[]]]]; subst; lra.
Qed.

(** With a recording window the value leaves a step out that the gradient takes in. *)
Theorem C315_refuted : exists T m t0 dt os wf start stop, Forall (fun b => b = true) os /\ let s := fwd_run T m os (fwd_start t0 dt) in
  objective_evaluations wf start stop (f_times s) = [(2%nat, 0 + 1 / 2 + 1 / 2)] /\
  state_gradients (adj_run wf s) = [(2%nat, 0 + 1 / 2 + 1 / 2); (1%nat, 0 + 1 / 2)].
Proof.
  exists 1, 3%nat, 0, (1 / 2), [true; true], 1%nat, (3 / 4), 2. split; [auto|]. intro s. unfold s. rewrite uncut2. split; [|reflexivity].
  assert (E : 0 < / 10 ^ 100 < / 10).
  { split; [apply Rinv_0_lt_compat, pow_lt; lra|]. apply Rinv_lt_contravar; [apply Rmult_lt_0_compat; [lra|apply pow_lt; lra]|].
    rewrite <- (pow_1 10) at 1. apply Rlt_pow; [lra|lia]. }
  unfold objective_evaluations, number_times. cbn [fwd_attempt fwd_start f_times f_time f_dt app length seq combine filter fst snd].
  unfold records. cbn [Nat.modulo Nat.divmod Nat.eqb andb Nat.sub snd].
  destruct (Rle_dec (3 / 4) (0 + / 10 ^ 100)) as [N|_]; [lra|]. destruct (Rle_dec (3 / 4) (0 + 1 / 2 + / 10 ^ 100)) as [N|_]; [lra|].
  destruct (Rle_dec (3 / 4) (0 + 1 / 2 + 1 / 2 + / 10 ^ 100)) as [_|N]; [|lra]. destruct (Rle_dec (0 + 1 / 2 + 1 / 2 - / 10 ^ 100) 2) as [_|N]; [|lra].
  cbn [andb]. reflexivity.
Qed.
Print Assumptions C315_refuted.

(** *** C316: the explicit dependence on the parameters *)

(** It is taken at every step, with the right state; when every step is recorded these are the
    steps at which the objective was evaluated. *)
Theorem C316_partial T m t0 dt os wf : let s := fwd_run T m os (fwd_start t0 dt) in
  map (fun a => fst (as_param_grad a)) (adj_run wf s) = map (fun e => S (ts_par e)) (rev (f_steps s)).
Proof.
  intro s. destruct (C314_partial T m t0 dt os wf) as [E _]. fold s in E. apply (f_equal (map (fun x => fst (fst x)))) in E. rewrite !map_map in E. cbn [fst] in E. rewrite <- E.
  apply map_ext_in. intros a Ha. apply in_map_iff in Ha. destruct Ha as (i & <- & _). reflexivity.
Qed.
Print Assumptions C316_partial.

(** Data at times 0 and 1, two steps of 1/2: the value has misfits at steps 0 and 2 only; the
    derivative takes the misfit of the state of step 1 against the data of time 0 and none at step
    2, because the data are looked up with the time at the beginning of the step.  With a write
    frequency of 2 it is also taken at step 1, which has no value. *)
Theorem C316_refuted : exists T m t0 dt os sensors, Forall (fun b => b = true) os /\ let s := fwd_run T m os (fwd_start t0 dt) in
  map (fun kt => (fst kt, sensor_index sensors (snd kt))) (number_times (f_times s)) = [(0%nat, Some 0%nat); (1%nat, None); (2%nat, Some 1%nat)] /\
  map (fun a => (fst (as_param_grad a), sensor_index sensors (snd (as_param_grad a)))) (adj_run 1 s) = [(2%nat, None); (1%nat, Some 0%nat)] /\
  map (fun a => fst (as_param_grad a)) (adj_run 2 s) = [2; 1]%nat /\ map fst (state_gradients (adj_run 2 s)) = [2]%nat.
Proof.
  exists 1, 3%nat, 0, (1 / 2), [true; true], [0; 1]. split; [auto|]. intro s. unfold s. rewrite uncut2.
  assert (SI : forall t, sensor_index [0; 1] t = if Rlt_dec (Rabs (t - 1)) (/ 1000000000000) then Some 1%nat else if Rlt_dec (Rabs (t - 0)) (/ 1000000000000) then Some 0%nat else None) by reflexivity.
  assert (S0 : sensor_index [0; 1] 0 = Some 0%nat).
  { rewrite SI. destruct (Rlt_dec (Rabs (0 - 1)) (/ 1000000000000)) as [N|_]; [rewrite Rabs_left in N; lra|].
    destruct (Rlt_dec (Rabs (0 - 0)) (/ 1000000000000)) as [_|N]; [auto|]. rewrite Rminus_0_r, Rabs_R0 in N. lra. }
  assert (S1 : sensor_index [0; 1] (0 + 1 / 2) = None).
  { rewrite SI. destruct (Rlt_dec (Rabs (0 + 1 / 2 - 1)) (/ 1000000000000)) as [N|_]; [rewrite Rabs_left in N; lra|].
    destruct (Rlt_dec (Rabs (0 + 1 / 2 - 0)) (/ 1000000000000)) as [N|_]; [|auto]. rewrite Rabs_right in N; lra. }
  assert (S2 : sensor_index [0; 1] (0 + 1 / 2 + 1 / 2) = Some 1%nat).
  { rewrite SI. destruct (Rlt_dec (Rabs (0 + 1 / 2 + 1 / 2 - 1)) (/ 1000000000000)) as [_|N]; [auto|].
    replace (0 + 1 / 2 + 1 / 2 - 1) with 0 in N by field. rewrite Rabs_R0 in N. lra. }
  cbn [fwd_attempt fwd_start f_times f_time f_dt app]. unfold number_times, adj_run, adj_one.
  cbn [length seq combine map fst snd f_times f_dt Nat.sub nth as_param_grad]. rewrite S0, S1, S2. repeat split.
Qed.
Print Assumptions C316_refuted.

(** *** C317: steady problems *)

(** The value was computed against the data of the initial time, its derivative against those of
    time 0 (they agree for the default initial time 0). *)
Theorem C317_refuted : exists t sensors, sensor_index sensors (steady_value_time t) = Some 0%nat /\ sensor_index sensors (steady_sensitivity_time t) = None.
Proof.
  exists 1, [1]. unfold sensor_index, number_times, steady_value_time, steady_sensitivity_time. cbn [length seq combine fold_left fst snd]. split.
  - destruct (Rlt_dec (Rabs (1 - 1)) (/ 1000000000000)) as [_|N]; [auto|]. replace (1 - 1) with 0 in N by ring. rewrite Rabs_R0 in N. lra.
  - destruct (Rlt_dec (Rabs (0 - 1)) (/ 1000000000000)) as [N|_]; [rewrite Rabs_left in N; lra|auto].
Qed.
Print Assumptions C317_refuted.
