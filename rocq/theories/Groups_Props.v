(** Properties C16 and C17: element groups and boundary groups. *)
From Coq Require Import List Arith ZArith Bool Lia Permutation Sorted ZifyBool ZifyNat.
From Verif Require Import Outcome Groups_Model Groups_Proofs.
Import ListNotations.

(** What a user means by "workset size ws": at most ws elements per group, -1
    (or any other negative number) for no limit. *)
Definition within (ws : Z) (len : nat) : Prop := (ws > 0 -> Z.of_nat len <= ws)%Z.

Definition is_int (ws : Z) : Prop := (- 2 ^ 31 <= ws < 2 ^ 31)%Z.

Lemma elem_per_group_pos ws n : is_int ws -> (ws <> 0)%Z -> 0 < n -> 0 < elem_per_group ws n <= n
  /\ within ws (elem_per_group ws n).
Proof.
  unfold is_int, elem_per_group, within. intros Hi Hz Hn.
  destruct (Z.eqb_spec ws (-1)) as [->|H]; [split; [lia|]; intros; lia|].
  assert (0 < ws mod 2 ^ 64)%Z.
  { destruct (Z_lt_le_dec ws 0).
    - rewrite <- (Z_mod_plus_full ws 1 (2 ^ 64)). rewrite Z.mod_small by lia. lia.
    - rewrite Z.mod_small by lia. lia. }
  split; [lia|]. intros Hp. rewrite Z.mod_small by lia. lia.
Qed.

Lemma first_largest_sorted gs g0 r : StronglySorted by_size gs -> gs = g0 :: r ->
  forall g, In g gs -> length g <= length g0.
Proof.
  intros S -> g [<-|Hg]; auto. inversion S as [|? ? S' F]; subst.
  rewrite Forall_forall in F. apply F in Hg. exact Hg.
Qed.

(** ** C16 *)

(** Default (sequential) partitioning: the groups are consecutive, cover every
    element once and in order, respect the workset size, are not empty, and the
    first group is the largest. *)
Theorem C16_sequential : forall ws n bgs fuel, is_int ws -> (ws <> 0)%Z -> 0 < n -> n <= fuel ->
  exists gs, element_groups fuel Sequential ws n bgs = Some (Ok gs)
    /\ concat gs = seq 0 n
    /\ (forall g, In g gs -> 0 < length g /\ within ws (length g))
    /\ (forall g0 r, gs = g0 :: r -> forall g, In g gs -> length g <= length g0).
Proof.
  intros ws n bgs fuel Hi Hz Hn Hf. destruct (elem_per_group_pos ws n Hi Hz Hn) as [[K1 K2] K3].
  unfold element_groups.
  destruct (ranges_ok _ K1 fuel 0 n) as (r & -> & C & S & F); [lia|]. rewrite Nat.sub_0_r in C.
  exists r. destruct r as [|g r]; [cbn in C; destruct n; [lia|discriminate]|].
  split; [reflexivity|]. split; [auto|]. split; [|auto].
  intros g' Hg. destruct (S g' Hg). split; auto. unfold within in *. intros. lia.
Qed.
Print Assumptions C16_sequential.

(** Elements lie in the same boundary groups. *)
Definition same_boundary (bgs : list (list nat)) (x y : nat) : Prop :=
  forall b, In b bgs -> (In x b <-> In y b).

(** Subgrid-preserving partitioning, provided the ids in the boundary groups are
    element numbers of this block: the groups cover every element exactly once,
    respect the workset size, are not empty, have equal boundary membership, and
    come in decreasing size. *)
Theorem C16_subgrid_partial : forall ws n bgs fuel, is_int ws -> (ws <> 0)%Z -> 0 < n -> n <= fuel ->
  bgs <> [] -> (forall b e, In b bgs -> In e b -> e < n) ->
  exists gs, element_groups fuel Subgrid_preserving ws n bgs = Some (Ok gs)
    /\ Permutation (concat gs) (seq 0 n)
    /\ (forall g, In g gs -> 0 < length g /\ within ws (length g)
          /\ forall x y, In x g -> In y g -> same_boundary bgs x y)
    /\ StronglySorted by_size gs
    /\ (forall g0 r, gs = g0 :: r -> forall g, In g gs -> length g <= length g0).
Proof.
  intros ws n bgs fuel Hi Hz Hn Hf Hne Hin.
  destruct (elem_per_group_pos ws n Hi Hz Hn) as [[K1 K2] K3].
  unfold element_groups. destruct bgs as [|b0 bgs0] eqn:Eb; [congruence|]. rewrite <- Eb in *. clear Eb b0 bgs0.
  destruct (onbndry_ok n bgs Hin) as (cols & -> & Hr).
  destruct (subgrid_ok cols _ n K1 fuel (repeat false n) 0) as (gs & E & Nd & Ix & Sz).
  - apply repeat_length.
  - unfold cnt. clear. induction n; cbn; auto.
  - lia.
  - intros i j _ _ _ H. rewrite nth_repeat in H. discriminate.
  - rewrite E. destruct (reorder_ok (length gs - 1) gs ltac:(lia)) as [P S].
    assert (PC : Permutation (concat (reorder (length gs - 1) gs)) (seq 0 n)).
    { apply NoDup_Permutation; [|apply seq_NoDup|].
      - eapply Permutation_NoDup; [|exact Nd]. symmetry. clear -P. induction P; cbn; auto.
        + apply Permutation_app_head; auto.
        + rewrite !app_assoc. apply Permutation_app_tail, Permutation_app_comm.
        + etransitivity; eauto.
      - intros x. rewrite in_seq. split.
        + intros H. apply in_concat in H as (g & Hg & Hx). apply (Permutation_in _ P) in Hg.
          assert (In x (concat gs)) as H by (apply in_concat; eauto). apply Ix in H. lia.
        + intros [_ H]. cbn in H. assert (In x (concat gs)) as Hc by (apply Ix; rewrite nth_repeat; auto).
          apply in_concat in Hc as (g & Hg & Hx). apply in_concat. exists g. split; auto.
          apply (Permutation_in _ (Permutation_sym P)); auto. }
    exists (reorder (length gs - 1) gs).
    destruct (reorder (length gs - 1) gs) as [|g1 r1] eqn:Er.
    { cbn in PC. apply Permutation_nil in PC. destruct n; [lia|discriminate]. }
    rewrite <- Er in *. split; [rewrite Er; reflexivity|]. split; [auto|]. split; [|split; [auto|]].
    + intros g Hg. apply (Permutation_in _ P) in Hg as Hg'. destruct (Sz g Hg') as [B R].
      split; [lia|]. split; [unfold within in *; intros; lia|].
      assert (Bn : forall x, In x g -> x < n).
      { intros x Hx. assert (In x (concat gs)) as H by (apply in_concat; eauto). apply Ix in H. lia. }
      intros x y Hx Hy. unfold same_boundary. apply Hr; auto.
    + intros g0 r Eg. eapply first_largest_sorted; eauto.
Qed.
Print Assumptions C16_subgrid_partial.

(** Without boundary groups, subgrid-preserving is sequential. *)
Theorem C16_subgrid_interior : forall fuel ws n,
  element_groups fuel Subgrid_preserving ws n [] = element_groups fuel Sequential ws n [].
Proof. reflexivity. Qed.
Print Assumptions C16_subgrid_interior.

(** The ids stored in boundary groups are numbers on the process, not on the
    block (line 209 against line 316): as soon as one of them is not smaller than
    the number of elements of the block, the flags are written out of range. *)
Theorem C16_multiblock_refuted : forall fuel ws n bgs b e,
  In b bgs -> In e b -> n <= e -> element_groups fuel Subgrid_preserving ws n bgs = Some UB.
Proof.
  intros fuel ws n bgs b e Hb He Hn. unfold element_groups.
  assert (M : forall ids col, length col = n -> (exists e, In e ids /\ n <= e) -> mark col ids = UB).
  { clear. induction ids as [|x ids IH]; intros col L (e & H & Hn); [destruct H|]. cbn [mark]. unfold upd_ub.
    destruct (Nat.ltb_spec x (length col)); [|reflexivity]. cbn [obind]. apply IH.
    - rewrite upd_length. auto.
    - destruct H as [<-|H]; [lia|eauto]. }
  assert (Q : onbndry n bgs = UB).
  { unfold onbndry. revert Hb. induction bgs as [|b' bgs IH]; intros Hb; [destruct Hb|].
    destruct Hb as [->|Hb]; cbn [map_outcome].
    - rewrite M; [reflexivity|apply repeat_length|eauto].
    - assert (NE : forall ids col, mark col ids <> Exn).
      { clear. induction ids as [|x ids IH]; intros col; cbn [mark]; [discriminate|]. unfold upd_ub.
        destruct (x <? length col); cbn [obind]; [auto|discriminate]. }
      destruct (mark (repeat false n) b') eqn:Em; auto; [|exfalso; eapply NE; eauto].
      rewrite IH; auto. }
  destruct bgs as [|b0 bgs]; [destruct Hb|]. rewrite Q. reflexivity.
Qed.
Print Assumptions C16_multiblock_refuted.

(** Workset size 0 is accepted and never terminates. *)
Theorem C16_zero_refuted : forall fuel n bgs, 0 < n -> element_groups fuel Sequential 0 n bgs = None.
Proof.
  intros fuel n bgs Hn. unfold element_groups.
  replace (elem_per_group 0 n) with 0 by (unfold elem_per_group; cbn; lia).
  rewrite ranges_diverge; auto.
Qed.
Print Assumptions C16_zero_refuted.

(** The other documented partitionings access the first of no groups. *)
Theorem C16_other_modes_refuted : forall fuel ws n bgs m,
  m <> Sequential -> m <> Subgrid_preserving -> element_groups fuel m ws n bgs = Some UB.
Proof. intros fuel ws n bgs [] H1 H2; try congruence; reflexivity. Qed.
Print Assumptions C16_other_modes_refuted.

Example C16_case : element_groups 9 Sequential 4 9 [] = Some (Ok [[0; 1; 2; 3]; [4; 5; 6; 7]; [8]])
  /\ element_groups 9 Sequential (-1) 3 [] = Some (Ok [[0; 1; 2]]).
Proof. split; reflexivity. Qed.
Example C16_subgrid_case :
  element_groups 9 Subgrid_preserving 2 7 [[0; 3]; [3; 6]; [1]]
  = Some (Ok [[2; 4]; [1]; [0]; [3]; [5]; [6]]).
Proof. vm_compute. reflexivity. Qed.

(** ** C17 *)

(** For every side set, given as a list of (element, local side) pairs, and every
    positive group size: the loop ends, the groups taken together list every pair
    exactly as often as the side set does (once, for a side set without
    repetitions), each group has one local side id, is not empty, and respects
    the size limit. *)
Theorem C17_boundary_groups : forall k (sides : list (nat * nat)) fuel, 0 < k -> length sides <= fuel ->
  exists gs, boundary_groups fuel k sides = Some gs
    /\ Permutation (concat (map (fun g => map (fun e => (e, snd g)) (fst g)) gs)) sides
    /\ (forall g, In g gs -> 0 < length (fst g) <= k).
Proof. intros k sides fuel Hk Hf. exact (boundary_groups_ok k fuel sides Hk Hf). Qed.
Print Assumptions C17_boundary_groups.

(** With group size 0 (workset size 0) and at least one side the loop never ends. *)
Theorem C17_zero_refuted : forall fuel e s rest, boundary_groups fuel 0 ((e, s) :: rest) = None.
Proof.
  intros fuel e s rest. unfold boundary_groups.
  destruct (unique_sides_ok (map snd ((e, s) :: rest))) as [_ U].
  assert (In s (unique_sides (map snd ((e, s) :: rest)))) as Hs by (apply U; left; auto).
  assert (Q : side_groups fuel 0 ((e, s) :: rest) s = None).
  { unfold side_groups. rewrite ranges_diverge; auto. unfold positions. cbn [map snd length seq filter nth].
    rewrite Nat.eqb_refl. cbn. lia. }
  revert Hs. generalize (unique_sides (map snd ((e, s) :: rest))).
  induction l as [|u us IH]; intros H; [destruct H|].
  destruct H as [->|H]; cbn [map concat_opt].
  - rewrite Q. auto.
  - destruct (side_groups fuel 0 ((e, s) :: rest) u); auto. rewrite IH; auto.
Qed.
Print Assumptions C17_zero_refuted.

Example C17_case : boundary_groups 5 2 [(7, 1); (8, 0); (9, 1); (3, 1); (7, 0)]
  = Some [([7; 9], 1); ([3], 1); ([8; 7], 0)].
Proof. reflexivity. Qed.
