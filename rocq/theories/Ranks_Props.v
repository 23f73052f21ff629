(** Properties C37, C38 and C49: rank splitting, sample distribution, sample files. *)
From Coq Require Import List Arith Bool Lia Permutation Reals Lra.
From Verif Require Import Outcome Ranks_Model Ranks_Proofs.
Import ListNotations.

(* ------------------------------------------------------------------ *)
(** ** C37 *)

(** What a consistent two-dimensional arrangement of N ranks is, stated on the
    communicators each rank ends up with, without reference to how they are
    computed. *)
Definition consistent (N M : nat) (comms : nat -> outcome (list nat * list nat)) : Prop :=
  forall r, r < N -> exists la s,
    comms r = Ok (la, s)
    /\ NoDup la /\ NoDup s /\ In r la /\ In r s
    /\ length la = M /\ length s * M = N
    /\ (forall q, In q la -> q < N /\ exists s', comms q = Ok (la, s'))
    /\ (forall q, In q s -> q < N /\ exists la', comms q = Ok (la', s))
    /\ (forall r' la' s', r' < N -> comms r' = Ok (la', s') ->
          exists q, In q la /\ In q s' /\ forall q', In q' la -> In q' s' -> q' = q).

Lemma grid_div a M b : b < M -> (a * M + b) / M = a.
Proof. intros. rewrite Nat.div_add_l by lia. rewrite Nat.div_small by auto. lia. Qed.
Lemma grid_mod a M b : b < M -> (a * M + b) mod M = b.
Proof. intros. rewrite Nat.add_comm, Nat.mod_add by lia. apply Nat.mod_small; auto. Qed.

Lemma grid_consistent k M : 0 < M -> consistent (k * M) M (fun r => split_SOL (k * M) M r).
Proof.
  intros HM r Hr. exists (seq (r / M * M) M), (stride (r mod M) M k).
  pose proof (Nat.div_mod r M ltac:(lia)) as D. pose proof (Nat.mod_upper_bound r M ltac:(lia)) as B.
  assert (Hb : r / M < k) by (apply Nat.div_lt_upper_bound; lia).
  split; [apply split_SOL_divides; auto|].
  split; [apply seq_NoDup|]. split; [apply stride_nodup; auto|].
  split; [apply in_seq; nia|]. split; [apply stride_in; exists (r / M); split; auto; nia|].
  split; [apply seq_length|]. split; [unfold stride; rewrite map_length, seq_length; auto|].
  split; [|split].
  - intros q Hq. apply in_seq in Hq. assert (q < k * M) by nia. split; auto.
    assert (q / M = r / M) as Eq.
    { replace q with (r / M * M + (q - r / M * M)) by lia. apply grid_div. lia. }
    eexists. rewrite split_SOL_divides by auto. rewrite Eq. reflexivity.
  - intros q Hq. apply stride_in in Hq as (i & Hi & ->). assert (r mod M + i * M < k * M) by nia.
    split; auto. eexists. rewrite split_SOL_divides by auto.
    rewrite Nat.mod_add by lia. rewrite Nat.mod_mod by lia. reflexivity.
  - intros r' la' s' Hr' E'. rewrite split_SOL_divides in E' by auto. injection E' as <- <-.
    pose proof (Nat.mod_upper_bound r' M ltac:(lia)) as B'.
    exists (r / M * M + r' mod M). split; [apply in_seq; lia|]. split.
    + apply stride_in. exists (r / M). split; auto. lia.
    + intros q' H1 H2. apply in_seq in H1. apply stride_in in H2 as (i & Hi & ->).
      assert (i = r / M); [|subst; lia]. nia.
Qed.

(** If the requested group size divides the number of ranks, every rank gets a
    linear algebra group of exactly that size and a sampling group, all ranks
    agree on them, and two groups of different kind meet in exactly one rank. *)
Theorem C37_consistent_partial : forall N M, 0 < M -> N mod M = 0 ->
  consistent N M (fun r => split_SOL N M r).
Proof.
  intros N M HM HN. assert (exists k, N = k * M) as [k ->].
  { exists (N / M). pose proof (Nat.div_mod N M ltac:(lia)). lia. }
  apply grid_consistent; auto.
Qed.
Print Assumptions C37_consistent_partial.

(** Exactly which requests are carried out without an invalid MPI call. *)
Theorem C37_valid_iff : forall N numLA, 0 < N -> 0 < numLA ->
  ((forall r, r < N -> exists g, split_SOL N numLA r = Ok g)
   <-> N mod numLA = 0 \/ N / numLA = 1).
Proof. exact split_SOL_valid_iff. Qed.
Print Assumptions C37_valid_iff.

(** 5 ranks in groups of 2: the "reset" does not reset the number of groups and
    MPI_Group_incl is called with rank 5.  8 groups requested on 4 ranks: an
    empty rank list. *)
Theorem C37_reset_refuted :
  split_SOL 5 2 0 = UB /\ (forall r, r < 4 -> split_SOL 4 8 r = UB).
Proof.
  split; [reflexivity|]. intros r Hr.
  destruct r as [|[|[|[|r]]]]; try reflexivity. lia.
Qed.
Print Assumptions C37_reset_refuted.

(** Every other analysis type: one linear algebra group with all ranks, each
    rank alone in its sampling group. *)
Theorem C37_default : forall N, 0 < N ->
  consistent N N (fun r => split_default N r)
  /\ forall r, r < N -> split_default N r = Ok (seq 0 N, [r]).
Proof.
  intros N HN.
  assert (E : forall r, r < N -> split_default N r = Ok (seq 0 N, [r])).
  { intros r Hr. unfold split_default. pose proof (split_comm_ok 1 N r HN) as H.
    rewrite Nat.mul_1_l in H. rewrite H by auto.
    rewrite Nat.div_small, Nat.mod_small by auto. cbn. rewrite Nat.add_0_r. reflexivity. }
  split; auto. intros r Hr. exists (seq 0 N), [r]. rewrite (E r Hr).
  split; [auto|]. split; [apply seq_NoDup|]. split; [constructor; [auto|constructor]|].
  split; [apply in_seq; lia|]. split; [left; auto|]. split; [apply seq_length|].
  split; [cbn; lia|]. split; [|split].
  - intros q Hq. apply in_seq in Hq. split; [lia|]. exists [q]. apply E. lia.
  - intros q [<-|[]]. split; auto. exists (seq 0 N). apply E. auto.
  - intros r' la' s' Hr' H. rewrite E in H by auto. injection H as <- <-.
    exists r'. split; [apply in_seq; lia|]. split; [left; auto|].
    intros q' _ [<-|[]]. auto.
Qed.
Print Assumptions C37_default.

(** The main communicator of a multiscale split: evenly spaced valid ranks,
    starting at 0, as many as requested if that divides the number of ranks,
    all of them otherwise. *)
Theorem C37_main_ranks : forall N M, 0 < N -> 0 < M ->
  (N mod M = 0 -> main_ranks N M = Ok (map (fun i => i * (N / M)) (seq 0 M)))
  /\ (N mod M <> 0 -> main_ranks N M = Ok (seq 0 N)).
Proof.
  intros N M HN HM. split; [|apply main_ranks_reset; auto].
  intros H. assert (N = N / M * M) as E.
  { pose proof (Nat.div_mod N M ltac:(lia)). lia. }
  assert (0 < N / M) by (destruct (N / M); [simpl in E; lia|lia]).
  rewrite E at 1. rewrite main_ranks_ok by auto. reflexivity.
Qed.
Print Assumptions C37_main_ranks.

Example C37_case : 12 mod 4 = 0 /\ split_SOL 12 4 6 = Ok ([4; 5; 6; 7], [2; 6; 10])
  /\ main_ranks 12 4 = Ok [0; 3; 6; 9].
Proof. repeat split. Qed.
Example C37_reset_case : 5 mod 3 <> 0 /\ 5 / 3 = 1 /\ split_SOL 5 3 2 = Ok ([0; 1; 2; 3; 4], [2]).
Proof. repeat split; discriminate. Qed.

(* ------------------------------------------------------------------ *)
(** ** C38 *)

(** Sum of [w * f p] over a list of weighted samples. *)
Definition wsum {P} (f : P -> R) (l : list (P * R)) : R :=
  fold_right (fun s acc => snd s * f (fst s) + acc)%R 0%R l.

Lemma wsum_app {P} (f : P -> R) a b : wsum f (a ++ b) = (wsum f a + wsum f b)%R.
Proof. unfold wsum. induction a as [|x a IH]; cbn [app fold_right]; [|rewrite IH]; lra. Qed.
Lemma wsum_perm {P} (f : P -> R) a b : Permutation a b -> wsum f a = wsum f b.
Proof. unfold wsum. induction 1; cbn [fold_right]; lra. Qed.
Lemma wsum_concat {P} (f : P -> R) ls : wsum f (concat ls) = fold_right Rplus 0%R (map (wsum f) ls).
Proof. induction ls as [|a ls IH]; cbn [concat map fold_right]; auto. rewrite wsum_app, IH. auto. Qed.

(** The weighted samples that were read from the files. *)
Definition samples_read (n dim : nat) (fpt fwt : option (list R)) : list (list R * R) :=
  combine (read_pt 0%R n dim fpt) (read_wt 0%R (fun m => / INR m)%R n fwt).

Definition local_samples (n dim P r : nat) (fpt fwt : option (list R)) :=
  my_samples 0%R (fun m => / INR m)%R n dim P r fpt fwt.

Lemma local_samples_part n dim P r fpt fwt : 0 < P -> r < P ->
  local_samples n dim P r fpt fwt = my_part n P r (samples_read n dim fpt fwt).
Proof.
  intros HP Hr. unfold local_samples, my_samples, samples_read.
  destruct (my_part_combine n P r (read_pt 0%R n dim fpt) (read_wt 0%R (fun m => / INR m)%R n fwt) HP Hr)
    as (p & q & E1 & E2 & E3); [apply read_pt_length|apply read_wt_length|].
  rewrite E1, E2, E3. reflexivity.
Qed.

(** Every process gets its samples without reading out of range; together they
    hold each weighted sample exactly once; the loads differ by at most one; the
    sum of the local weighted sums is the global weighted sum, for every
    function of the sample. *)
Theorem C38_samples_once : forall n dim P fpt fwt, 0 < P ->
  exists parts,
    map_outcome (fun r => local_samples n dim P r fpt fwt) (seq 0 P) = Ok parts
    /\ Permutation (concat parts) (samples_read n dim fpt fwt)
    /\ (forall a b, In a parts -> In b parts -> length a <= S (length b))
    /\ (forall f : list R -> R,
          fold_right Rplus 0%R (map (wsum f) parts) = wsum f (samples_read n dim fpt fwt)).
Proof.
  intros n dim P fpt fwt HP.
  assert (L : length (samples_read n dim fpt fwt) = n).
  { unfold samples_read. rewrite combine_length, read_pt_length, read_wt_length. apply Nat.min_id. }
  destruct (my_part_all n P (samples_read n dim fpt fwt) HP L) as (parts & E & Hp).
  assert (E' : map_outcome (fun r => local_samples n dim P r fpt fwt) (seq 0 P) = Ok parts).
  { rewrite <- E. assert (HS : forall r, In r (seq 0 P) -> r < P) by (intros r H; apply in_seq in H; lia).
    revert HS. generalize (seq 0 P). induction l as [|r l IH]; intros HS; cbn [map_outcome]; auto.
    rewrite local_samples_part by (auto; apply HS; left; auto).
    rewrite IH by (intros; apply HS; right; auto). reflexivity. }
  exists parts. split; [auto|]. split; [auto|]. split.
  - assert (Q : forall l ps, map_outcome (fun r => my_part n P r (samples_read n dim fpt fwt)) l = Ok ps ->
       forall a, In a ps -> exists r, length a = load n P r).
    { induction l as [|r l IH]; cbn [map_outcome]; intros ps H a Ha.
      - injection H as <-. destruct Ha.
      - destruct (my_part n P r _) eqn:E1; try discriminate.
        destruct (map_outcome _ l) eqn:E2; try discriminate. injection H as <-.
        destruct Ha as [<-|Ha]; eauto. exists r. eapply my_part_length; eauto. }
    intros a b Ha Hb. destruct (Q _ _ E a Ha) as [r1 ->], (Q _ _ E b Hb) as [r2 ->].
    apply load_balanced; auto.
  - intros f. rewrite <- wsum_concat. apply wsum_perm; auto.
Qed.
Print Assumptions C38_samples_once.

(** If there is no weight file the weights are 1/n and sum to one. *)
Theorem C38_default_weights : forall n dim fpt, 0 < n ->
  wsum (fun _ => 1%R) (samples_read n dim fpt None) = 1%R.
Proof.
  intros n dim fpt Hn. unfold samples_read, read_wt.
  assert (G : forall (l : list (list R)) c, wsum (fun _ => 1%R) (combine l (repeat c (length l))) = (INR (length l) * c)%R).
  { induction l as [|x l IH]; intros c; [cbn; lra|].
    cbn [length repeat combine wsum fold_right]. fold (wsum (fun _ : list R => 1%R) (combine l (repeat c (length l)))).
    rewrite IH. rewrite S_INR. cbn [snd]. lra. }
  pose proof (G (read_pt 0%R n dim fpt) (/ INR n)%R) as H. rewrite read_pt_length in H. rewrite H.
  apply Rinv_r. apply not_0_INR. lia.
Qed.
Print Assumptions C38_default_weights.

Example C38_case : my_samples 0 (fun m => m) 5 2 3 1 (Some [1; 2; 3; 4; 5; 6; 7; 8; 9; 10]) (Some [11; 12; 13; 14; 15])
  = Ok [([3; 4], 12); ([9; 10], 15)].
Proof. reflexivity. Qed.

(* ------------------------------------------------------------------ *)
(** ** C49: sample files *)

(** A point file with at least n*dim numbers and a weight file with at least n
    numbers are read as written, whatever follows. *)
Theorem C49_complete_files_partial : forall (pts : list (list R)) dim wts rest rest',
  Forall (fun p => length p = dim) pts -> length wts = length pts ->
  samples_read (length pts) dim (Some (concat pts ++ rest)) (Some (wts ++ rest')) = combine pts wts.
Proof.
  intros pts dim wts rest rest' F L. unfold samples_read, read_pt, read_wt.
  rewrite read_points_full with (dim := dim) by (auto; apply repeat_length).
  rewrite read_point_full by (rewrite repeat_length; auto). reflexivity.
Qed.
Print Assumptions C49_complete_files_partial.

Example C49_case : samples_read 2 1 (Some [1; 2; 9]%R) (Some [3; 4]%R) = [([1], 3); ([2], 4)]%R.
Proof. reflexivity. Qed.

(** A point file that is too short is not rejected: the missing points silently
    repeat the last complete components, a missing point file gives points of
    dimension zero, and missing weights are zero. *)
Theorem C49_short_file_refuted :
  samples_read 3 2 (Some [1; 2; 3]%R) (Some [5; 6]%R)
  = [([1; 2], 5); ([3; 2], 6); ([3; 2], 0)]%R
  /\ samples_read 1 2 None (Some [5]%R) = [([], 5)]%R.
Proof. split; reflexivity. Qed.
Print Assumptions C49_short_file_refuted.
