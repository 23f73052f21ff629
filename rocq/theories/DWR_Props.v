(** C357, C358: the dual-weighted residual. *)
From Coq Require Import Bool Arith Lia Reals Lra List.
From Verif Require Import BProj_Model BProj_Proofs Init_Props PostErr_Props LinAlg_Model LinAlg_Props DWR_Model.
Import ListNotations.
Local Open Scope nat_scope.
Local Notation length := List.length.

(** *** Specification *)

(** The sum of a quantity over all contributions: every copy on every process. *)
Definition over_copies (ps : list pmap) (F : nat -> nat -> nat -> R) : R :=
  sm (seq 0 (length ps)) (fun q => sm (seq 0 (length (over (part ps q)))) (fun i => F q i (number (over (part ps q)) i))).
(** The residual applied to the adjoint solution [x], a value per unknown. *)
Definition weighted (ps : list pmap) (res : vec) (x : nat -> R) : R := over_copies ps (fun q i g => (res q i * x g)%R).
(** How many copies there are of unknown [g]. *)
Definition held (ps : list pmap) (g : nat) : R := over_copies ps (fun _ _ g' => if g' =? g then 1%R else 0%R).

(** *** C357, C358 *)

(** On any number of processes each unknown is weighted with its adjoint value times the number of
    its copies. *)
Theorem C358_copies_partial ps res adj x : shared ps -> agrees ps adj x ->
  dwr ps res adj = over_copies ps (fun q i g => (res q i * (x g * held ps g))%R).
Proof.
  intros H A. unfold dwr. rewrite (C232_transpose ps H res (export_add ps adj)). unfold over_copies.
  apply sm_ext. intros q Q. apply sm_ext. intros i I. apply in_seq in Q, I. f_equal.
  set (g := number (over (part ps q)) i).
  assert (D : holds ps q i g) by (split; [|split]; [lia|lia|reflexivity]).
  pose proof H as (_ & _ & C & _). destruct (C q i g D) as (p & k & O).
  rewrite (C232_import ps H _ q i g p k D O), (C232_export ps H adj p k g O). unfold held, over_copies.
  rewrite <- sm_scal. apply sm_ext. intros q' Q'. rewrite <- sm_scal. apply sm_ext. intros i' I'. apply in_seq in Q', I'.
  destruct (Nat.eqb_spec (number (over (part ps q')) i') g) as [E|E]; [|lra].
  rewrite (A q' i' g) by (split; [|split]; [lia|lia|exact E]). lra.
Qed.
(** So if no unknown is shared it is the residual applied to the adjoint solution. *)
Theorem C357_unshared ps res adj x : shared ps -> agrees ps adj x -> (forall q i g, holds ps q i g -> held ps g = 1%R) ->
  dwr ps res adj = weighted ps res x.
Proof.
  intros H A U. rewrite (C358_copies_partial ps res adj x H A). unfold weighted, over_copies. apply sm_ext. intros q Q. apply sm_ext. intros i I.
  apply in_seq in Q, I. rewrite (U q i (number (over (part ps q)) i)) by (split; [|split]; [lia|lia|reflexivity]). lra.
Qed.
(** On one process it always is. *)
Theorem C357_one_process l res x : NoDup l ->
  dwr [{| own := l; over := l |}] res (fun _ i => x (nth i l 0)) = sm (seq 0 (length l)) (fun i => Rmult (res 0 i) (x (nth i l 0))).
Proof.
  intro N. set (ps := [{| own := l; over := l |}]).
  assert (Z : forall p, p < length ps -> p = 0) by (cbn; intros; lia).
  assert (H : shared ps).
  { unfold shared, owns, holds. repeat split.
    - destruct H as (P & _), H0 as (Q & _). rewrite (Z _ P), (Z _ Q). reflexivity.
    - destruct H as (P & K & E), H0 as (Q & J & F). rewrite (Z _ P) in K, E. rewrite (Z _ Q) in J, F. cbn in K, J, E, F. unfold number in *.
      apply (proj1 (NoDup_nth l 0) N); [exact K|exact J|congruence].
    - intros p k g (P & K & E). exists k. rewrite (Z _ P) in *. auto.
    - intros p i g (P & I & E). exists 0, i. rewrite (Z _ P) in *. auto. }
  rewrite (C357_unshared ps res _ x H).
  - unfold weighted, over_copies, ps. cbn [length seq]. rewrite sm_cons, sm_nil, Rplus_0_r. reflexivity.
  - intros p i g (P & I & E). rewrite (Z _ P) in E. cbn in E. unfold number in E. rewrite E. reflexivity.
  - intros q i g (Q & I & E). rewrite (Z _ Q) in I, E. cbn in I, E. unfold number in E. unfold held, over_copies, ps. cbn [length seq]. rewrite sm_cons, sm_nil, Rplus_0_r. cbn [part nth over].
    rewrite (sm_ext _ _ (fun j => if j =? i then 1%R else 0%R)); [apply (sm_single _ i (fun _ => 1%R) I)|].
    intros j J. apply in_seq in J. unfold number. destruct (Nat.eqb_spec (nth j l 0) g) as [F|F]; destruct (Nat.eqb_spec j i) as [->|D]; auto; exfalso.
    + apply D. apply (proj1 (NoDup_nth l 0) N); [lia|exact I|congruence].
    + congruence.
Qed.
Example C357_example : dwr [{| own := [4; 7]; over := [4; 7] |}] (fun _ i => if i =? 0 then 2%R else 3%R) (fun _ i => INR (nth i [4; 7] 0)) = 29%R.
Proof.
  rewrite (C357_one_process [4; 7] _ INR) by (repeat constructor; cbn; intuition lia). cbn [length seq]. rewrite !sm_cons, sm_nil. cbn. lra.
Qed.

(** The claim: on every partition the estimate is the residual applied to the adjoint solution. *)
Definition independent_of_partition : Prop :=
  forall ps res adj x, shared ps -> agrees ps adj x -> dwr ps res adj = weighted ps res x.
(** Two processes with three unknowns, of which two are on both: the partition of C232_example. *)
Definition two : list pmap := [{| own := [0; 1]; over := [0; 1; 2] |}; {| own := [2]; over := [2; 1] |}].
Theorem C358_refuted : ~ independent_of_partition.
Proof.
  intro H. specialize (H two (fun _ _ => 1%R) (fun _ _ => 1%R) (fun _ => 1%R) (proj1 C232_example) (fun _ _ _ _ => eq_refl)).
  unfold dwr, weighted, over_copies, two, export_add, copies, sm in H. cbn in H. lra.
Qed.
(** One process would give 5, two give 9. *)
Example C358_example : shared two /\ agrees two (fun _ _ => 1%R) (fun _ => 1%R) /\
  dwr two (fun _ _ => 1%R) (fun _ _ => 1%R) = 9%R /\ weighted two (fun _ _ => 1%R) (fun _ => 1%R) = 5%R /\ held two 1 = 2%R.
Proof.
  split; [exact (proj1 C232_example)|]. split; [intros p i g _; reflexivity|].
  unfold dwr, weighted, held, over_copies, two, export_add, copies, sm. cbn. repeat split; lra.
Qed.

Print Assumptions C357_unshared.
Print Assumptions C357_one_process.
Print Assumptions C358_copies_partial.
Print Assumptions C358_refuted.
