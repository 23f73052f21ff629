(** Lemmas about the time loop. *)
From Coq Require Import Bool Arith Lia Reals Lra List.
From Verif Require Import Sparse_Model Sparse_Props Mass_Props Tableau_Model Tableau_Props Transient_Model.
Import ListNotations.
Local Open Scope R_scope.

Section Upd.
Context {A : Type}.
Lemma upd_length (l : list A) n x : length (upd l n x) = length l.
Proof. revert n. induction l as [|a l IH]; intros [|n]; cbn; auto. Qed.
Lemma upd_same (l : list A) n x d : (n < length l)%nat -> nth n (upd l n x) d = x.
Proof. revert n. induction l as [|a l IH]; intros [|n] H; cbn in *; try lia; auto. apply IH. lia. Qed.
Lemma upd_other (l : list A) n m x d : m <> n -> nth m (upd l n x) d = nth m l d.
Proof. revert n m. induction l as [|a l IH]; intros [|n] [|m] H; cbn; auto; try lia. Qed.
Lemma upd_err_same (l : list A) n x : (n < length l)%nat -> nth_error (upd l n x) n = Some x.
Proof. revert n. induction l as [|a l IH]; intros [|n] H; cbn in *; try lia; auto. apply IH. lia. Qed.
Lemma upd_err_other (l : list A) n m x : m <> n -> nth_error (upd l n x) m = nth_error l m.
Proof. revert n m. induction l as [|a l IH]; intros [|n] [|m] H; cbn; auto; try lia. Qed.
Lemma nth_repeat_lt (a d : A) n m : (m < n)%nat -> nth m (repeat a n) d = a.
Proof. revert m. induction n as [|n IH]; intros [|m] H; cbn; auto; try lia. apply IH. lia. Qed.
End Upd.

Section Stages.
Variable dbc : nat -> R -> nat -> option R.
Variable solve : nat -> nat -> nat -> R -> R -> scheme -> list vec -> list vec -> list vec -> vec * nat.
Variables (att set : nat) (time dt : R) (sch : scheme) (prev : list vec) (sols0 : list vec) (u : vec).
Hypothesis Hset : (set < length sols0)%nat.
Hypothesis Hu : nth set sols0 vzero = u.
Hypothesis Hprev : nth 0 prev vzero = u.

Notation maxst := (s_maxstages sch).
Definition tr (k : nat) : list vec * list vec * nat :=
  fold_left (fun acc stage => do_stage dbc solve att set stage time dt sch prev acc) (seq 0 k)
    (sols0, repeat u maxst, 0%nat).
Definition tsols k := fst (fst (tr k)).
Definition tstages k := snd (fst (tr k)).
Definition tstatus k := snd (tr k).
Definition ts k := time + ci (s_tab sch) k * dt.

Lemma tr_S k : tr (S k) = do_stage dbc solve att set k time dt sch prev (tr k).
Proof. unfold tr. rewrite seq_S, fold_left_app. reflexivity. Qed.
Lemma tr_0 : tr 0 = (sols0, repeat u maxst, 0%nat).
Proof. reflexivity. Qed.

(** What the solver is given and returns at stage k. *)
Definition guess k : vec := set_dirichlet dbc set (ts k) u.
Definition given k : list vec * list vec :=
  if Nat.eqb maxst 1 then (upd (tsols k) set (guess k), [guess k])
  else (tsols k, upd (tstages k) k (guess k)).
Definition out k : vec * nat := solve att set k (ts k) dt sch (fst (given k)) (snd (given k)) prev.

Lemma stages_many : maxst <> 1%nat -> forall k, (k <= maxst)%nat ->
  length (tstages k) = maxst /\ length (tsols k) = length sols0 /\
  (forall s, (s < k)%nat -> nth s (tstages k) vzero = fst (out s)) /\
  (forall s, (k <= s < maxst)%nat -> nth s (tstages k) vzero = u) /\
  (forall i, nth set (tsols k) vzero i = u i + sumf k (fun s => fst (out s) i - u i)) /\
  (forall j, j <> set -> nth j (tsols k) vzero = nth j sols0 vzero) /\
  tstatus k = fold_right Nat.add 0%nat (map (fun s => snd (out s)) (seq 0 k)).
Proof.
  intros H1. induction k as [|k IH]; intros Hk.
  - unfold tstages, tsols, tstatus. rewrite tr_0. cbn [fst snd]. rewrite repeat_length.
    split; auto. split; auto. split; [intros; lia|]. split; [intros; apply nth_repeat_lt; lia|].
    split; [intros; rewrite Hu; unfold sumf; cbn; ring|]. auto.
  - destruct IH as (L & L' & P & Q & S1 & S2 & S3); [lia|].
    assert (E : tr (S k) = (upd (tsols k) set (fun i => nth set (tsols k) vzero i + fst (out k) i - nth 0 prev vzero i),
                            upd (upd (tstages k) k (guess k)) k (fst (out k)), (tstatus k + snd (out k))%nat)).
    { rewrite tr_S. unfold do_stage, tsols, tstages, tstatus, out, given. destruct (tr k) as [[so sg] stt] eqn:ET.
      apply Nat.eqb_neq in H1. rewrite H1. cbn [fst snd].
      assert (EG : set_dirichlet dbc set (time + ci (s_tab sch) k * dt) (nth k sg vzero) = guess k).
      { unfold guess, ts. f_equal. pose proof (Q k ltac:(lia)) as X. unfold tstages in X. rewrite ET in X. exact X. }
      rewrite EG. unfold tsols, tstages. rewrite ET. cbn [fst snd]. fold (ts k).
      destruct (solve att set k (ts k) dt sch so (upd sg k (guess k)) prev) as [v st] eqn:ES. reflexivity. }
    unfold tstages, tsols, tstatus in *. rewrite E. cbn [fst snd].
    rewrite !upd_length. split; auto. split; auto. split; [|split; [|split; [|split]]].
    + intros s Hs. destruct (Nat.eq_dec s k) as [->|N].
      * apply upd_same. rewrite upd_length. lia.
      * rewrite !upd_other by auto. apply P. lia.
    + intros s Hs. rewrite !upd_other by lia. apply Q. lia.
    + intros i. rewrite upd_same by lia. rewrite S1, sumf_S, Hprev. ring.
    + intros j Hj. rewrite upd_other by auto. auto.
    + rewrite seq_S, map_app, fold_right_app. cbn [map fold_right]. rewrite S3. rewrite Nat.add_0_l.
      generalize (map (fun s => snd (out s)) (seq 0 k)) (snd (out k)). clear.
      induction l as [|a l IH]; intros n; cbn [fold_right]; [lia|]. rewrite <- (IH n). lia.
Qed.

Lemma stages_one : maxst = 1%nat ->
  length (tsols 1) = length sols0 /\
  (forall i, nth set (tsols 1) vzero i = u i + sumf 1 (fun s => fst (out s) i - u i)) /\
  (forall j, j <> set -> nth j (tsols 1) vzero = nth j sols0 vzero) /\
  tstatus 1 = snd (out 0).
Proof.
  intros H1.
  assert (E : tr 1 = (upd (upd sols0 set (guess 0)) set (fst (out 0)), [fst (out 0)], snd (out 0))).
  { rewrite tr_S, tr_0. unfold do_stage, out, given, tsols. rewrite tr_0. rewrite H1. cbn [Nat.eqb fst snd].
    rewrite Hu. fold (guess 0). change (set_dirichlet dbc set (time + ci (s_tab sch) 0 * dt) u) with (guess 0). fold (ts 0).
    destruct (solve att set 0 (ts 0) dt sch (upd sols0 set (guess 0)) [guess 0] prev) as [v st] eqn:ES. reflexivity. }
  unfold tsols, tstatus. rewrite E. cbn [fst snd]. rewrite !upd_length. split; auto. split; [|split; auto].
  - intros i. rewrite upd_same by (rewrite upd_length; auto). unfold sumf. cbn. ring.
  - intros j Hj. rewrite !upd_other by auto. auto.
Qed.

(** Both cases together. *)
Lemma stages_all : (s_numstages sch <= maxst)%nat -> (1 <= s_numstages sch)%nat ->
  length (tsols (s_numstages sch)) = length sols0 /\
  (forall i, nth set (tsols (s_numstages sch)) vzero i = u i + sumf (s_numstages sch) (fun s => fst (out s) i - u i)) /\
  (forall j, j <> set -> nth j (tsols (s_numstages sch)) vzero = nth j sols0 vzero) /\
  (tstatus (s_numstages sch) = 0%nat <-> forall s, (s < s_numstages sch)%nat -> snd (out s) = 0%nat).
Proof.
  intros H1 H2. destruct (Nat.eq_dec maxst 1) as [E|N].
  - assert (E1 : s_numstages sch = 1%nat) by lia. rewrite E1. destruct (stages_one E) as (A & B & C & D).
    split; auto. split; auto. split; auto. rewrite D. split; [intros H s Hs; replace s with 0%nat by lia; auto|].
    intros H. apply H. lia.
  - destruct (stages_many N (s_numstages sch) H1) as (_ & A & _ & _ & B & C & D).
    split; auto. split; auto. split; auto. rewrite D. clear. generalize (s_numstages sch). intros n. split.
    + intros H s Hs. assert (X : In s (seq 0 n)) by (apply in_seq; lia). revert X H. generalize (seq 0 n).
      induction l as [|a l IH]; intros I H; [destruct I|]. cbn in H. destruct I as [->|I]; [lia|]. apply IH; auto. lia.
    + intros H. assert (X : forall s, In s (seq 0 n) -> snd (out s) = 0%nat) by (intros s Hs; apply in_seq in Hs; apply H; lia).
      revert X. generalize (seq 0 n). induction l as [|a l IH]; intros X; cbn; auto.
      rewrite (X a), IH; auto; [intros; apply X; right; auto|left; auto].
Qed.

(** The stage solutions the solver sees at stage k. *)
Lemma given_stage k s : maxst <> 1%nat -> (k < maxst)%nat -> (s <= k)%nat ->
  nth s (snd (given k)) vzero = if Nat.eqb s k then guess k else fst (out s).
Proof.
  intros N Hk Hs. destruct (stages_many N k) as (L & _ & P & _); [lia|].
  unfold given. apply Nat.eqb_neq in N. rewrite N. cbn [snd].
  destruct (Nat.eqb_spec s k) as [->|NE]; [apply upd_same; lia|]. rewrite upd_other by auto. apply P. lia.
Qed.
End Stages.

Section SetLoop.
Variable opts : list options.
Variable dbc : nat -> R -> nat -> option R.
Variable solve : nat -> nat -> nat -> R -> R -> scheme -> list vec -> list vec -> list vec -> vec * nat.

(** Scheme and history used by a set in an attempt. *)
Definition next_scheme (o : options) (step : nat) (x : sset) : scheme :=
  if Nat.ltb 1 (o_bdf o) && Nat.eqb step (o_ssteps o)
  then set_tab (o_tab o) (set_bdf (o_bdf o) (x_scheme x)) else x_scheme x.
Definition shifted (x : sset) : list vec := match x_prev x with [] => [] | _ => x_sol x :: removelast (x_prev x) end.

Definition new_set (att step : nat) (time dt : R) (xs : list sset) (set : nat) (x : sset) (o : options) : sset :=
  let sch := next_scheme o step x in
  {| x_scheme := sch;
     x_sol := nth set (tsols dbc solve att set time dt sch (shifted x) (map x_sol xs) (x_sol x) (s_numstages sch)) vzero;
     x_prev := shifted x |}.
Definition new_status (att step : nat) (time dt : R) (xs : list sset) (set : nat) (x : sset) (o : options) : nat :=
  let sch := next_scheme o step x in
  tstatus dbc solve att set time dt sch (shifted x) (map x_sol xs) (x_sol x) (s_numstages sch).

Lemma do_set_eq att step time dt xs st set x o : nth_error xs set = Some x -> nth_error opts set = Some o ->
  do_set opts dbc solve att step time dt (xs, st) set =
  (upd xs set (new_set att step time dt xs set x o), (st + new_status att step time dt xs set x o)%nat).
Proof.
  intros Hx Ho. unfold do_set. rewrite Hx, Ho. fold (next_scheme o step x). fold (shifted x).
  unfold new_set, new_status, tsols, tstatus, tr.
  destruct (fold_left _ (seq 0 _) _) as [[so sg] stt] eqn:E. reflexivity.
Qed.

Lemma attempt_sets att step time dt xs : (length xs <= length opts)%nat -> forall n, (n <= length xs)%nat ->
  let r := fold_left (do_set opts dbc solve att step time dt) (seq 0 n) (xs, 0%nat) in
  length (fst r) = length xs /\
  (forall j, (n <= j)%nat -> nth_error (fst r) j = nth_error xs j) /\
  (forall j x o, (j < n)%nat -> nth_error xs j = Some x -> nth_error opts j = Some o ->
     exists ys, length ys = length xs /\ nth_error ys j = Some x /\
       (forall k, (j <= k)%nat -> nth_error ys k = nth_error xs k) /\
       (forall k, (k < j)%nat -> nth_error ys k = nth_error (fst r) k) /\
       nth_error (fst r) j = Some (new_set att step time dt ys j x o) /\
       (snd r = 0%nat -> new_status att step time dt ys j x o = 0%nat)).
Proof.
  intros HL. induction n as [|n IH]; intros Hn r.
  - cbn in r. subst r. cbn. split; auto. split; auto. intros j x o Hj. lia.
  - specialize (IH ltac:(lia)). cbn zeta in IH. destruct IH as (I1 & I2 & I3).
    assert (ER : r = do_set opts dbc solve att step time dt
       (fold_left (do_set opts dbc solve att step time dt) (seq 0 n) (xs, 0%nat)) n).
    { subst r. rewrite seq_S, fold_left_app. reflexivity. }
    destruct (fold_left (do_set opts dbc solve att step time dt) (seq 0 n) (xs, 0%nat)) as [ys st] eqn:EF.
    cbn [fst snd] in *.
    destruct (nth_error xs n) as [x|] eqn:EX; [|apply nth_error_None in EX; lia].
    destruct (nth_error opts n) as [o|] eqn:EO; [|apply nth_error_None in EO; lia].
    assert (EY : nth_error ys n = Some x) by (rewrite I2 by lia; auto).
    rewrite (do_set_eq _ _ _ _ _ _ _ _ _ EY EO) in ER. rewrite ER. cbn [fst snd].
    split; [rewrite upd_length; auto|]. split.
    + intros j Hj. rewrite upd_err_other by lia. apply I2. lia.
    + intros j x' o' Hj Hx' Ho'. destruct (Nat.eq_dec j n) as [->|N].
      * rewrite EX in Hx'. injection Hx' as <-. rewrite EO in Ho'. injection Ho' as <-.
        exists ys. split; auto. split; auto. split; [intros; apply I2; auto|].
        split; [intros k Hk; rewrite upd_err_other by lia; auto|].
        split; [apply upd_err_same; lia|lia].
      * destruct (I3 j x' o' ltac:(lia) Hx' Ho') as (zs & Z1 & Z2 & Z3 & Z4 & Z5 & Z6).
        exists zs. split; auto. split; auto. split; auto. split.
        { intros k Hk. rewrite upd_err_other by lia. auto. }
        split; [rewrite upd_err_other by auto; auto|]. intros Hz. apply Z6. lia.
Qed.

(** The two outcomes of a pass. *)
Definition pass (st : tstate) := fold_left (do_set opts dbc solve (t_attempt st) (t_step st) (t_time st) (t_dt st))
                         (seq 0 (length (t_sets st))) (t_sets st, 0%nat).

Lemma attempt_cases st :
  (snd (pass st) = 0%nat /\ attempt opts dbc solve st =
     {| t_time := t_time st + t_dt st; t_dt := t_dt st; t_cuts := t_cuts st; t_step := S (t_step st);
        t_attempt := S (t_attempt st); t_sets := fst (pass st) |}) \/
  (snd (pass st) <> 0%nat /\ attempt opts dbc solve st =
     {| t_time := t_time st; t_dt := t_dt st * (1 / 2); t_cuts := S (t_cuts st); t_step := t_step st;
        t_attempt := S (t_attempt st);
        t_sets := map (fun x => {| x_scheme := x_scheme x; x_sol := nth 0 (x_prev x) vzero; x_prev := x_prev x |}) (fst (pass st)) |}).
Proof.
  unfold attempt. fold (pass st). destruct (pass st) as [xs s] eqn:E. cbn [fst snd].
  destruct (Nat.eqb_spec s 0); [left|right]; auto.
Qed.
End SetLoop.
