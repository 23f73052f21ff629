(** C363, C364: the matrices of the transient adjoint for the previous steps. *)
From Coq Require Import Bool Arith Lia List.
From Verif Require Import PrevJac_Model.
Import ListNotations.

(** *** Specification *)

(** The matrices of the moment, of every solve. *)
Fixpoint current {M} (n : nat) (os : list (op M)) : list (list M) :=
  match os with [] => [] | Reset :: r => current n r | Solve _ cur :: r => map cur (seq 0 n) :: current n r end.
(** Those of the first solve since the last reset; [kept]: those of an earlier solve, if any. *)
Fixpoint first_since_reset {M} (n : nat) (kept : option (list M)) (os : list (op M)) : list (list M) :=
  match os with
  | [] => []
  | Reset :: r => first_since_reset n None r
  | Solve _ cur :: r => let l := match kept with Some l => l | None => map cur (seq 0 n) end in l :: first_since_reset n (Some l) r
  end.
Definition of_sets {M} (n : nat) (o : op M) : Prop := match o with Solve s _ => s < n | Reset => True end.

(** *** C363 *)

(** Without reuse, the products are made with the matrices of the moment: also for several sets, as
    long as their number is not more than that of the previous steps. *)
Theorem C363_no_reuse {M} (zero : M) numsets numsteps : 0 < numsets -> forall os s, Forall (of_sets numsteps) os ->
  run M zero false numsets numsteps s os = Some (current numsteps os).
Proof.
  intros P. induction os as [|[set cur|] os IH]; intros s F; [reflexivity| |]; inversion F; subst; cbn [run current].
  - cbn [of_sets] in H1. unfold solve. assert (R : prev_reuse M false numsets numsteps s set = Some false).
    { unfold prev_reuse. destruct (prev s) as [c|]; auto. destruct (Nat.ltb_spec set numsteps); [|lia]. f_equal. unfold contexts. destruct numsets as [|m]; [lia|]. reflexivity. }
    rewrite R. cbn [andb negb]. rewrite IH by auto. reflexivity.
  - apply IH. auto.
Qed.
(** With reuse and one set (the adjoint is not implemented for more), they are made with the matrices
    of the first solve since the last reset, and no matrix is used that has not been built. *)
Lemma map_seq_ext {A} (f g : nat -> A) n : (forall k, k < n -> f k = g k) -> map f (seq 0 n) = map g (seq 0 n).
Proof. intro H. apply map_ext_in. intros k K. apply in_seq in K. apply H. lia. Qed.
Definition holds {M} (zero : M) (numsteps : nat) (s : state M) (kept : option (nat -> M)) : Prop :=
  match kept with
  | None => main s 0 = false /\ (forall k, fst (allocated zero s k 0) = false)
  | Some f => main s 0 = true /\ prev s <> None /\ forall k, k < numsteps -> allocated zero s k 0 = (true, f k)
  end.
Lemma reuse_run {M} (zero : M) numsteps : 0 < numsteps -> forall os s kept, Forall (of_sets 1) os -> holds zero numsteps s kept ->
  run M zero true 1 numsteps s os = Some (first_since_reset numsteps (option_map (fun f => map f (seq 0 numsteps)) kept) os).
Proof.
  intros P. induction os as [|[set cur|] os IH]; intros s kept F H; [reflexivity| |]; inversion F; subst; cbn [run first_since_reset].
  - cbn [of_sets] in H2. assert (set = 0) as -> by lia. unfold solve. destruct kept as [f|].
    + destruct H as (Hm & Hp & Ha). assert (R : prev_reuse M true 1 numsteps s 0 = Some true).
      { unfold prev_reuse. unfold allocated in Ha. destruct (prev s) as [c|]; [|congruence]. destruct (Nat.ltb_spec 0 numsteps); [|lia]. cbn. rewrite (Ha 0 P). reflexivity. }
      rewrite R. cbn [option_map].
      assert (E : forall k, k < numsteps -> handed M zero true s 0 k = f k) by (intros k K; unfold handed; rewrite (Ha k K); reflexivity).
      rewrite (map_seq_ext _ f numsteps) by (intros; apply E; auto).
      rewrite (IH _ (Some f)); auto. cbn [holds main prev allocated]. repeat split; auto; [congruence|].
      intros k K. cbn [Nat.eqb andb]. destruct (Nat.ltb_spec k numsteps); [|lia]. cbn [andb]. rewrite E; auto.
    + destruct H as (Hm & Ha). assert (R : prev_reuse M true 1 numsteps s 0 = Some false).
      { unfold prev_reuse. unfold allocated in Ha. destruct (prev s) as [c|]; [|auto]. destruct (Nat.ltb_spec 0 numsteps); [|lia]. cbn. rewrite (Ha 0). reflexivity. }
      rewrite R, Hm. cbn [option_map andb negb].
      rewrite (IH _ (Some cur)); auto. cbn [holds main prev allocated]. repeat split; auto; [congruence|].
      intros k K. cbn [Nat.eqb andb]. destruct (Nat.ltb_spec k numsteps); [|lia]. reflexivity.
  - rewrite (IH _ None); auto. split; [reflexivity|]. intro k. unfold allocated, reset. cbn. destruct (prev s); reflexivity.
Qed.
Theorem C363_reuse {M} (zero : M) numsteps os : 0 < numsteps -> Forall (of_sets 1) os ->
  run M zero true 1 numsteps start os = Some (first_since_reset numsteps None os).
Proof. intros P F. apply (reuse_run zero numsteps P os start None F). split; reflexivity. Qed.
Definition example_run : list (op nat) := [Solve 0 (fun k => 10 + k); Solve 0 (fun k => 20 + k); Reset; Solve 0 (fun k => 30 + k)].
Example C363_example : Forall (of_sets 1) example_run /\
  run nat 0 true 1 2 start example_run = Some [[10; 11]; [10; 11]; [30; 31]] /\
  run nat 0 false 1 2 start example_run = Some [[10; 11]; [20; 21]; [30; 31]].
Proof. split; [repeat constructor|split; reflexivity]. Qed.

(** *** C364 *)

(** The claim: whatever the options and the number of sets, each solve uses the matrices of the
    moment or those of an earlier solve of the same set since the reset. *)
Fixpoint earlier {M} (n : nat) (found : list (list M)) (os : list (op M)) (set : nat) : list (list M) :=
  match os with
  | [] => found
  | Reset :: r => earlier n [] r set
  | Solve t cur :: r => earlier n (if t =? set then found ++ [map cur (seq 0 n)] else found) r set
  end.
Definition built_matrices (reuse : bool) (numsets numsteps : nat) : Prop :=
  forall (M : Type) (zero : M) os set cur, Forall (of_sets numsets) os -> set < numsets -> exists ls l,
    run M zero reuse numsets numsteps start (os ++ [Solve set cur]) = Some (ls ++ [l]) /\ In l (earlier numsteps [] (os ++ [Solve set cur]) set).
(** With reuse and two sets, after one solve of each, a matrix of zeros is used in the next. *)
Theorem C364_zero_refuted : ~ built_matrices true 2 2.
Proof.
  intro H. destruct (H nat 0 [Solve 0 (fun k => 10 + k); Solve 1 (fun k => 15 + k)] 0 (fun k => 20 + k)) as (ls & l & E & I); [repeat constructor|lia|].
  vm_compute in E. injection E as E. assert (l = [0; 0]) as ->.
  { change [[10; 11]; [15; 16]; [0; 0]] with ([[10; 11]; [15; 16]] ++ [[0; 0]]) in E. apply app_inj_tail in E. destruct E as [_ E]. congruence. }
  vm_compute in I. intuition discriminate.
Qed.
(** And with one previous step the second set reads past the end of the contexts, reuse or not. *)
Theorem C364_past_end_refuted reuse : ~ built_matrices reuse 2 1.
Proof.
  intro H. destruct (H nat 0 [Solve 0 (fun k => 10 + k)] 1 (fun k => 20 + k)) as (ls & l & E & _); [repeat constructor|lia|]. destruct reuse; vm_compute in E; discriminate.
Qed.
Lemma current_app {M} n : forall a b : list (op M), current n (a ++ b) = current n a ++ current n b.
Proof. induction a as [|[t cur|] a IH]; intro b; cbn [app current]; rewrite ?IH; auto. Qed.
Lemma earlier_last {M} n set cur : forall (a : list (op M)) found, In (map cur (seq 0 n)) (earlier n found (a ++ [Solve set cur]) set).
Proof.
  induction a as [|[t c|] a IH]; intro found; cbn [app earlier]; auto. rewrite Nat.eqb_refl. apply in_or_app. right. left. auto.
Qed.
Lemma first_app {M} n cur : forall (a : list (op M)) found kept, Forall (of_sets 1) a -> (forall l, kept = Some l -> In l found) ->
  exists ls l, first_since_reset n kept (a ++ [Solve 0 cur]) = ls ++ [l] /\ In l (earlier n found (a ++ [Solve 0 cur]) 0).
Proof.
  induction a as [|[t c|] a IH]; intros found kept F K; cbn [app first_since_reset earlier].
  - exists [], (match kept with Some l => l | None => map cur (seq 0 n) end). split; auto. cbn [Nat.eqb]. apply in_or_app. destruct kept; [left; auto|right; left; auto].
  - inversion F; subst. cbn in H1. assert (t = 0) as -> by lia. set (k := match kept with Some l => l | None => map c (seq 0 n) end). cbn [Nat.eqb].
    destruct (IH (found ++ [map c (seq 0 n)]) (Some k) H2) as (ls & l & E & I).
    { intros l L. injection L as <-. unfold k. apply in_or_app. destruct kept; [left; auto|right; left; auto]. }
    exists (k :: ls), l. rewrite E. auto.
  - inversion F; subst. destruct (IH [] None H2) as (ls & l & E & I); [discriminate|]. exists ls, l. auto.
Qed.
(** With one set it holds. *)
Theorem C364_one_set_partial reuse numsteps : 0 < numsteps -> built_matrices reuse 1 numsteps.
Proof.
  intros P M zero os set cur F S. assert (F' : Forall (of_sets 1) (os ++ [Solve set cur])) by (apply Forall_app; split; auto; repeat constructor; exact S). destruct reuse.
  - rewrite (C363_reuse zero numsteps _ P F'). assert (set = 0) as -> by lia. destruct (first_app numsteps cur os [] None F) as (ls & l & E & I); [discriminate|].
    exists ls, l. rewrite E. auto.
  - rewrite C363_no_reuse; [|lia|eapply Forall_impl; [|exact F']; intros [t c|]; cbn; auto; lia].
    rewrite current_app. exists (current numsteps os), (map cur (seq 0 numsteps)). split; auto. apply earlier_last.
Qed.

Print Assumptions C363_no_reuse.
Print Assumptions C363_reuse.
Print Assumptions C364_one_set_partial.
Print Assumptions C364_zero_refuted.
Print Assumptions C364_past_end_refuted.
