From Coq Require Import List Arith ZArith Bool Reals Lia Lra Permutation.
From Verif Require Import Geom_Model Geom_Spec Subgrid_Model Subgrid_Spec Sub2_Model.
From Verif Require Import Subgrid_Proofs Subgrid_Props.
Import ListNotations.
Local Open Scope nat_scope.

(** ** The refinement is that of the first implementation *)
Definition bits (m : smap) : list bool := map (fun x => (0 <? fst x)%Z) m.
Definition forget (st : sub) : sub2 :=
  {| snodes2 := snodes st; sconn2 := sconn st; smaps2 := map bits (smaps st) |}.

Lemma bits_nth : forall m j, nth j (bits m) false = (0 <? fst (nth j m (0, 0)%Z))%Z.
Proof. induction m as [|a m IH]; intros [|j]; cbn; auto. Qed.
Lemma bits_clear : forall m zs, bits (clear m zs) = clear2 (bits m) zs.
Proof.
  intros m zs. unfold clear, clear2.
  replace (List.length (bits m)) with (List.length m) by (unfold bits; rewrite map_length; reflexivity).
  unfold bits at 1. rewrite map_map. apply map_ext. intros j. rewrite bits_nth.
  destruct (existsb (Nat.eqb j) zs); reflexivity.
Qed.
Lemma forget_maps : forall l e, nth e (map bits l) [] = bits (nth e l []).
Proof. intros. apply (map_nth bits l []). Qed.
Lemma forget_cell : forall T st e, forget (refine_cell T st e) = refine_cell2 T (forget st) e.
Proof.
  intros T st e. unfold refine_cell, refine_cell2. cbn [forget snodes2 sconn2 smaps2].
  destruct (place_all _ _ _) as [n idx]. unfold forget. cbn [snodes sconn smaps]. f_equal.
  rewrite map_app, map_map, forget_maps. f_equal. apply map_ext. intros zs. apply bits_clear.
Qed.
Lemma forget_fold : forall T l st, forget (fold_left (refine_cell T) l st) = fold_left (refine_cell2 T) l (forget st).
Proof. intros T l. induction l as [|e l IH]; intros st; [reflexivity|]. cbn [fold_left]. rewrite IH, forget_cell. reflexivity. Qed.
Lemma forget_all : forall T st, forget (refine_all T st) = refine_all2 T (forget st).
Proof.
  intros T st. unfold refine_all, refine_all2. cbn [forget sconn2].
  rewrite <- forget_fold. unfold forget. cbn [snodes sconn smaps snodes2 sconn2 smaps2]. f_equal.
  symmetry. generalize (smaps (fold_left (refine_cell T) (seq 0 (List.length (sconn st))) st)).
  generalize (List.length (sconn st)). induction n as [|n IH]; intros [|a l]; try reflexivity. cbn. apply IH.
Qed.
Lemma forget_refine : forall T r st, forget (refine T r st) = refine2 T r (forget st).
Proof. intros T r. induction r as [|r IH]; intros st; [reflexivity|]. cbn [refine refine2]. rewrite IH, forget_all. reflexivity. Qed.
Lemma forget_start : forall ns k, forget (start ns k) = start2 ns k.
Proof.
  intros. unfold forget, start, start2. cbn. f_equal. f_equal. unfold bits. rewrite map_map. cbn.
  generalize 0. induction k as [|k IH]; intros s; [reflexivity|]. cbn. rewrite IH. reflexivity.
Qed.

(** ** What a group must be *)
(** Cell c of coarse element m has number m * n + c (getPhysicalNodes).  Its side s is a side of the coarse
    element iff all nodes of the side lie on side s of the reference element. *)
Definition on_coarse (s : shape) (ns : list node) (conn : list (list nat)) (c j : nat) : Prop :=
  forall k, In k (side_nodes s j) -> on_side s j (nth (nth k (nth c conn []) 0) ns []).

Lemma side_group_in : forall st M s x, In x (side_group2 st M s) <->
  exists m c, m < M /\ c < List.length (smaps2 st) /\ x = m * List.length (smaps2 st) + c /\
              nth s (nth c (smaps2 st) []) false = true.
Proof.
  intros. unfold side_group2. rewrite in_flat_map. split.
  - intros (m & Im & Ix). apply in_seq in Im. apply in_flat_map in Ix. destruct Ix as (c & Ic & Ix).
    apply in_seq in Ic. destruct (nth s (nth c (smaps2 st) []) false) eqn:E; [|destruct Ix].
    destruct Ix as [<- | []]. exists m, c. repeat split; auto; lia.
  - intros (m & c & Hm & Hc & -> & E). exists m. split; [apply in_seq; lia|]. apply in_flat_map. exists c.
    split; [apply in_seq; lia|]. rewrite E. left. reflexivity.
Qed.
Lemma side_group_app : forall st M N s, exists rest,
  side_group2 st (M + N) s = (side_group2 st M s ++ rest)%list /\
  (forall x, In x rest -> M * List.length (smaps2 st) <= x).
Proof.
  intros. unfold side_group2. rewrite seq_app, flat_map_app. eexists. split; [reflexivity|].
  intros x Ix. apply in_flat_map in Ix. destruct Ix as (m & Im & Ix). apply in_seq in Im.
  apply in_flat_map in Ix. destruct Ix as (c & Ic & Ix).
  destruct (nth s (nth c (smaps2 st) []) false); [|destruct Ix]. destruct Ix as [<- | []]. nia.
Qed.
Lemma side_group_row_nodup : forall (b : nat -> bool) base n s0,
  NoDup (flat_map (fun c => if b c then [base + c] else []) (seq s0 n)).
Proof.
  intros b base. induction n as [|n IH]; intros s0; cbn; [constructor|].
  destruct (b s0); [|apply IH]. cbn. constructor; [|apply IH].
  intros I. apply in_flat_map in I. destruct I as (c & Ic & Ix). apply in_seq in Ic.
  destruct (b c); [|destruct Ix]. destruct Ix as [E|[]]. lia.
Qed.
Lemma side_group_nodup : forall st M s, NoDup (side_group2 st M s).
Proof.
  intros st M s. induction M as [|M IH]; [constructor|].
  unfold side_group2 in *. rewrite seq_S, flat_map_app. cbn [flat_map Nat.add]. rewrite app_nil_r.
  assert (G : forall (l1 l2 : list nat), NoDup l1 -> NoDup l2 -> (forall x, In x l1 -> ~ In x l2) -> NoDup (l1 ++ l2)).
  { intros l1 l2 N1 N2 D. induction l1 as [|x l1 IHl]; cbn; auto. inversion N1; subst. constructor.
    - rewrite in_app_iff. intros [I|I]; [auto|]. eapply D; [left; reflexivity|exact I].
    - apply IHl; auto. intros y Hy. apply D. right; exact Hy. }
  apply G; [exact IH| |].
  - apply (side_group_row_nodup (fun c => nth s (nth c (smaps2 st) []) false)).
  - intros x Ix Iy. fold (side_group2 st M s) in Ix. apply side_group_in in Ix. destruct Ix as (m & c & Hm & Hc & -> & _).
    apply in_flat_map in Iy. destruct Iy as (c' & Ic & Iy). apply in_seq in Ic.
    destruct (nth s (nth c' (smaps2 st) []) false); [|destruct Iy]. destruct Iy as [E|[]]. nia.
Qed.

Definition good_groups (s : shape) (nsides : nat) (st : sub2) (M : nat) : Prop :=
  List.length (boundary_groups2 st M) = nsides /\
  forall j, j < nsides ->
    let g := nth j (boundary_groups2 st M) [] in
    NoDup g /\
    forall m c, m < M -> c < List.length (sconn2 st) ->
      (In (m * List.length (sconn2 st) + c) g <-> on_coarse s (snodes2 st) (sconn2 st) c j).

Lemma groups_good : forall (s : shape) nsides (st : sub) M,
  List.length (smaps st) = List.length (sconn st) ->
  (sconn st <> []) ->
  (forall e, e < List.length (sconn st) -> List.length (nth e (smaps st) []) = nsides) ->
  (forall e j, e < List.length (sconn st) -> j < nsides ->
    nth j (nth e (smaps st) []) (0, 0)%Z = (1, Z.of_nat j)%Z /\
      (forall k, In k (side_nodes s j) -> on_side s j (nth (nth k (nth e (sconn st) []) 0) (snodes st) [])) \/
    nth j (nth e (smaps st) []) (0, 0)%Z = (0, 0)%Z /\
      (forall k, In k (side_nodes s j) -> ~ on_side s j (nth (nth k (nth e (sconn st) []) 0) (snodes st) []))) ->
  (forall j, j < nsides -> side_nodes s j <> []) ->
  good_groups s nsides (forget st) M.
Proof.
  intros s nsides st M LE NE LS MK SN.
  assert (L0 : List.length (nth 0 (smaps2 (forget st)) []) = nsides).
  { cbn [forget smaps2]. rewrite forget_maps. unfold bits. rewrite map_length. apply LS.
    destruct (sconn st); [congruence|cbn; lia]. }
  split; [unfold boundary_groups2; rewrite map_length, seq_length; exact L0|].
  intros j Hj g. assert (E : g = side_group2 (forget st) M j).
  { unfold g, boundary_groups2. rewrite L0.
    rewrite (nth_indep _ [] (side_group2 (forget st) M 0)) by (rewrite map_length, seq_length; exact Hj).
    rewrite (map_nth (side_group2 (forget st) M)), seq_nth by exact Hj. reflexivity. }
  rewrite E. split; [apply side_group_nodup|].
  intros m c Hm Hc. cbn [forget sconn2 snodes2] in *. rewrite side_group_in.
  assert (LL : List.length (smaps2 (forget st)) = List.length (sconn st)).
  { cbn [forget smaps2]. rewrite map_length. exact LE. }
  rewrite LL. split.
  - intros (m' & c' & Hm' & Hc' & EQ & B).
    assert (c = c').
    { assert (m = m').
      { assert (D1 : m = (m * List.length (sconn st) + c) / List.length (sconn st)) by (apply Nat.div_unique with c; lia).
        assert (D2 : m' = (m' * List.length (sconn st) + c') / List.length (sconn st)) by (apply Nat.div_unique with c'; lia).
        rewrite D1, D2, EQ. reflexivity. }
      subst m'. lia. }
    subst c'.
    cbn [forget smaps2] in B. rewrite forget_maps, bits_nth in B.
    destruct (MK c j Hc Hj) as [[_ H]|[Z0 _]]; [exact H|]. rewrite Z0 in B. discriminate.
  - intros H. exists m, c. repeat split; auto. cbn [forget smaps2]. rewrite forget_maps, bits_nth.
    destruct (MK c j Hc Hj) as [[Z1 _]|[_ N]]; [rewrite Z1; reflexivity|].
    exfalso. specialize (SN j Hj). destruct (side_nodes s j) as [|k ks] eqn:ES; [congruence|].
    apply (N k); [left; reflexivity|]. apply H. rewrite ES. left. reflexivity.
Qed.

Lemma Forall2_len : forall {A B} (R : A -> B -> Prop) l m, Forall2 R l m -> List.length l = List.length m.
Proof. intros A B R l m F. induction F; cbn; congruence. Qed.
Lemma mesh_lengths : forall s r st os nsides, uniform_mesh s r st os -> marked_sides s r st os ->
  List.length (sides s) = nsides ->
  List.length (smaps st) = List.length (sconn st) /\
  (forall e, e < List.length (sconn st) -> List.length (nth e (smaps st) []) = nsides).
Proof.
  intros s r st os nsides (P & _ & F) MS LS.
  assert (E1 : List.length (smaps st) = List.length os) by (eapply Forall2_len; exact MS).
  assert (E2 : List.length (sconn st) = List.length os) by (eapply Forall2_len; exact F).
  split; [congruence|]. intros e He. rewrite <- LS.
  assert (He' : e < List.length (smaps st)) by congruence.
  unfold marked_sides in MS. revert MS He'. generalize (smaps st). clear. intros l MS. revert e.
  induction MS as [|m a l' os' [L _] MS IH]; intros e He; [cbn in He; lia|].
  destruct e as [|e]; [exact L|]. cbn. apply IH. cbn in He. lia.
Qed.
Lemma mesh_nonempty : forall s r st os, uniform_mesh s r st os -> sdim s = 2 \/ sdim s = 3 -> sconn st <> [].
Proof.
  intros s r st os (P & _ & F) D E. rewrite E in F. inversion F; subst.
  apply Permutation_nil in P.
  assert (N : 2 ^ r <> 0) by (apply Nat.pow_nonzero; lia).
  destruct (2 ^ r) as [|q]; [lia|].
  destruct D as [D|D]; rewrite D in P; cbn in P; discriminate.
Qed.

(** C331: after any number of refinements the group of side s of any set of coarse elements holds exactly the
    cells whose side s lies on side s of their coarse element, each once. *)
Theorem C331_quads : forall r M, (2 ^ r * (1 / 1000000) <= 2)%R ->
  good_groups square 4 (refine2 quad_table r (start2 (ref_nodes square) 4)) M.
Proof.
  intros r M Sp. rewrite <- forget_start, <- forget_refine.
  destruct (C140_quads r Sp) as (os & U & MS).
  destruct (mesh_lengths _ _ _ _ 4 U MS eq_refl) as [L1 L2].
  apply groups_good; auto.
  - eapply mesh_nonempty; [exact U|left; reflexivity].
  - intros e j He Hj. exact (C140_quad_sides r Sp e j He Hj).
  - intros j Hj. destruct j as [|[|[|[|j]]]]; try (cbn; discriminate). lia.
Qed.
Theorem C331_hexes : forall r M, (2 ^ r * (1 / 1000000) <= 2)%R ->
  good_groups cube 6 (refine2 hex_table r (start2 (ref_nodes cube) 6)) M.
Proof.
  intros r M Sp. rewrite <- forget_start, <- forget_refine.
  destruct (C140_hexes r Sp) as (os & U & MS).
  destruct (mesh_lengths _ _ _ _ 6 U MS eq_refl) as [L1 L2].
  apply groups_good; auto.
  - eapply mesh_nonempty; [exact U|right; reflexivity].
  - intros e j He Hj. exact (C140_hex_sides r Sp e j He Hj).
  - intros j Hj. destruct j as [|[|[|[|[|[|j]]]]]]; try (cbn; discriminate). lia.
Qed.
Print Assumptions C331_quads.
Print Assumptions C331_hexes.

(** one refinement of a quadrilateral, two coarse elements *)
Example C331_case :
  boundary_groups2 {| snodes2 := []; sconn2 := [[0]; [1]; [2]; [3]];
     smaps2 := map (clear2 (repeat true 4)) (cleared quad_table) |} 2
  = [[0; 1; 4; 5]; [1; 2; 5; 6]; [2; 3; 6; 7]; [0; 3; 4; 7]].
Proof. reflexivity. Qed.

(** ** C332: unknowns and coarse unknowns of a boundary group *)
Lemma firstn_lids : forall {L} (f : nat -> L) d l rest,
  map (fun e => nth e (map f (l ++ rest)) d) (seq 0 (List.length l)) = map f l.
Proof.
  intros L f d l rest. rewrite map_app.
  assert (G : forall (a b : list L), map (fun e => nth e (a ++ b) d) (seq 0 (List.length a)) = a).
  { induction a as [|x a IH]; intros b; [reflexivity|]. cbn. f_equal. rewrite <- seq_shift, map_map. apply IH. }
  pose proof (G (map f l) (map f rest)) as H. rewrite map_length in H. exact H.
Qed.
Theorem C332_unknowns : forall {L} (lids : nat -> L) d st num0 numMacro s, numMacro <= num0 ->
  let g := new_group lids d st num0 numMacro s in
  bg_elems g = side_group2 st numMacro s /\ bg_side g = s /\ bg_lids g = map lids (bg_elems g).
Proof.
  intros L lids d st num0 numMacro s H. unfold new_group.
  replace num0 with (numMacro + (num0 - numMacro)) by lia.
  destruct (side_group_app st numMacro (num0 - numMacro) s) as (rest & E & _).
  cbn [first_group bg_elems bg_side bg_lids]. rewrite E.
  destruct (List.length (side_group2 st numMacro s) =? _) eqn:C; cbn [bg_elems bg_side bg_lids].
  - apply Nat.eqb_eq in C. rewrite app_length in C. destruct rest; [|cbn in C; lia].
    rewrite app_nil_r. auto.
  - split; [reflexivity|]. split; [reflexivity|]. apply firstn_lids.
Qed.
Print Assumptions C332_unknowns.

(** The volume elements of a set have the unknowns of the same elements of the first set. *)
Lemma new_lids_nth : forall {L} (lids : nat -> L) st num0 numMacro e d d',
  e < numMacro * List.length (sconn2 st) ->
  nth e (new_lids lids d st num0 numMacro) d' = (if e <? num0 * List.length (sconn2 st) then lids e else d).
Proof.
  intros L lids st num0 numMacro e d d' H. unfold new_lids.
  set (mx := num0 * List.length (sconn2 st)) in *.
  assert (G : forall x, nth e (map lids (seq 0 mx)) x = if e <? mx then lids e else x).
  { intros x. destruct (Nat.ltb_spec e mx).
    - rewrite (nth_indep _ x (lids 0)) by (rewrite map_length, seq_length; assumption).
      rewrite map_nth, seq_nth by assumption. reflexivity.
    - apply nth_overflow. rewrite map_length, seq_length. assumption. }
  destruct (_ =? _) eqn:C.
  - apply Nat.eqb_eq in C. rewrite G. destruct (Nat.ltb_spec e mx); [reflexivity|lia].
  - set (F := fun e => nth e (map lids (seq 0 mx)) d).
    rewrite (nth_indep _ d' (F 0)) by (rewrite map_length, seq_length; exact H).
    rewrite (map_nth F), seq_nth by exact H. unfold F. cbn [Nat.add]. apply G.
Qed.
Theorem C332_elements : forall {L} (lids : nat -> L) st num0 numMacro e d d', numMacro <= num0 ->
  e < numMacro * List.length (sconn2 st) ->
  nth e (new_lids lids d st num0 numMacro) d' = lids e.
Proof.
  intros. rewrite new_lids_nth by assumption.
  destruct (Nat.ltb_spec e (num0 * List.length (sconn2 st))); [reflexivity|nia].
Qed.
Print Assumptions C332_elements.

Lemma macro_ids_nth : forall n M m c, 0 < M -> c < n -> m < M ->
  nth (m * n + c) (macro_ids (M * n) M) 0 = m.
Proof.
  intros n M m c HM Hc Hm. unfold macro_ids. rewrite (Nat.mul_comm M n), Nat.div_mul by lia.
  assert (G : forall M s, m < M -> nth (m * n + c) (flat_map (fun i => repeat i n) (seq s M)) 0 = s + m).
  { clear -Hc. induction m as [|m IH]; intros M s Hm; (destruct M as [|M]; [lia|]); cbn [seq flat_map].
    - rewrite app_nth1 by (rewrite repeat_length; lia). cbn.
      rewrite Nat.add_0_r. clear -Hc. revert c Hc. induction n as [|n IH]; intros c Hc; [lia|].
      destruct c; cbn; [reflexivity|]. apply IH. lia.
    - rewrite app_nth2 by (rewrite repeat_length; nia). rewrite repeat_length.
      replace (S m * n + c - n) with (m * n + c) by nia. rewrite IH by lia. lia. }
  rewrite (G M 0 Hm). lia.
Qed.
(** The coarse unknowns attached to a member of a group are those of its coarse element. *)
Theorem C332_coarse : forall {L M} (lids : nat -> L) d (macro : nat -> M) dm st num0 numMacro s i m c,
  numMacro <= num0 -> List.length (smaps2 st) = List.length (sconn2 st) ->
  let g := new_group lids d st num0 numMacro s in
  nth_error (bg_elems g) i = Some (m * List.length (sconn2 st) + c) -> m < numMacro -> c < List.length (sconn2 st) ->
  nth i (aux_lids macro (macro_ids (numMacro * List.length (sconn2 st)) numMacro) g) dm = macro m.
Proof.
  intros L M lids d macro dm st num0 numMacro s i m c HN HL g Hi Hm Hc. unfold aux_lids.
  assert (Li : i < List.length (bg_elems g)) by (apply nth_error_Some; congruence).
  set (F := fun e => macro (nth e (macro_ids (numMacro * List.length (sconn2 st)) numMacro) 0)).
  rewrite (nth_indep _ dm (F 0)) by (rewrite map_length; exact Li). rewrite (map_nth F).
  rewrite (nth_error_nth _ _ 0 Hi). unfold F. rewrite macro_ids_nth by lia. reflexivity.
Qed.
Print Assumptions C332_coarse.

(** ** C333: sets of any size *)
Theorem C333_larger_partial : forall {L} (lids : nat -> L) st num0 numMacro e d d',
  e < numMacro * List.length (sconn2 st) ->
  nth e (new_lids lids d st num0 numMacro) d' = (if e <? num0 * List.length (sconn2 st) then lids e else d).
Proof. intros. apply new_lids_nth. assumption. Qed.
Print Assumptions C333_larger_partial.
(** a set larger than the first reads beyond the end of the unknowns of the first *)
Theorem C333_larger_refuted : exists (lids : nat -> option nat) st num0 numMacro,
  0 < num0 /\ sconn2 st <> [] /\
  (exists e, e < numMacro * List.length (sconn2 st) /\ nth e (new_lids lids None st num0 numMacro) None <> lids e) /\
  (exists s, let g := new_group lids None st num0 numMacro s in bg_lids g <> map lids (bg_elems g)).
Proof.
  exists (fun e => Some e), {| snodes2 := []; sconn2 := [[0]]; smaps2 := [[true]] |}, 1, 2.
  split; [lia|]. split; [discriminate|]. split.
  - exists 1. split; [cbn; lia|]. cbn. discriminate.
  - exists 0. cbn. discriminate.
Qed.
Print Assumptions C333_larger_refuted.
