(** Properties C355 - C356: setup with and without the memory purge. *)
From Coq Require Import List Arith Bool Lia.
From Verif Require Import Outcome Purge_Model.
Import ListNotations.

(** A discretization is complete if every block has its elements, every element
    its unknowns for every set, and every unknown its global number. *)
Definition complete (d : dstate) (nblocks nsets : nat) : Prop :=
  dmesh d = true /\ length (my_elements d) = nblocks /\
  length (dof_lids d) = nsets /\ length (dof_os d) = nsets /\
  forall s b e, s < nsets -> In b (my_elements d) -> In e b ->
    e < length (nth s (dof_lids d) []) /\
    e < length (orients d) /\
    forall l, In l (nth e (nth s (dof_lids d) []) []) -> l < length (nth s (dof_os d) []).

(** The lists of global unknowns a user expects: block by block, element by
    element, in order. *)
Definition gids_spec (d : dstate) (s e : nat) : list nat :=
  map (fun l => nth l (nth s (dof_os d) []) 0) (nth e (nth s (dof_lids d) []) []).

Lemma map_outcome_ext {A B} (f g : A -> outcome B) l :
  (forall x, In x l -> f x = g x) -> map_outcome f l = map_outcome g l.
Proof.
  induction l as [|x l IH]; intros H; cbn [map_outcome]; auto.
  rewrite (H x) by (left; auto). rewrite IH; auto. intros; apply H; right; auto.
Qed.

Lemma get_gids_ok d nb ns s b e : complete d nb ns -> s < ns -> In b (my_elements d) -> In e b ->
  get_gids d s e = Ok (gids_spec d s e).
Proof.
  intros (_ & _ & L1 & L2 & H) Hs Hb He. destruct (H s b e Hs Hb He) as (E1 & _ & E2).
  unfold get_gids. rewrite (at_ok _ s []) by lia. rewrite (at_ok _ s []) by lia.
  rewrite (at_ok _ e []) by auto.
  apply map_outcome_ok. intros l I. apply at_ok. auto.
Qed.

(** ** C355: without the purge setup and output find all their data *)
Theorem C355_setup : forall c d nblocks nsets, purge c = false -> complete d nblocks nsets ->
  setup_linalg c (driver_purge c d) nblocks nsets =
    Ok (map (fun s => if fully_explicit c && matrix_free c then []
                      else map (fun b => map (gids_spec d s) b) (my_elements d)) (seq 0 nsets)) /\
  write_elements c (driver_purge c d) nblocks =
    Ok (if write_solution c then my_elements d else []).
Proof.
  intros c d nb ns P C. unfold driver_purge. rewrite P.
  pose proof C as (M & LB & _).
  assert (SB : forall {X} (f : list nat -> X), map (fun i => f (nth i (my_elements d) [])) (seq 0 nb) = map f (my_elements d)).
  { intros X f. rewrite <- LB. clear. induction (my_elements d) as [|x l IH]; cbn [length seq map nth]; auto.
    rewrite <- seq_shift, map_map. rewrite <- IH. reflexivity. }
  split.
  - unfold setup_linalg. apply map_outcome_ok. intros s I. apply in_seq in I.
    unfold setup_set, num_phase. rewrite M. unfold allocate_matrices.
    destruct (fully_explicit c && matrix_free c); cbn [negb]; auto.
    rewrite <- SB. apply map_outcome_ok. intros b Ib. apply in_seq in Ib.
    unfold block_gids. rewrite (at_ok _ b []) by lia.
    apply map_outcome_ok. intros e Ie. unfold num_phase. rewrite M.
    eapply get_gids_ok; eauto; [lia|]. apply nth_In. lia.
  - unfold write_elements. destruct (write_solution c); auto.
    replace (my_elements d) with (map (fun x : list nat => x) (my_elements d)) at 2 by apply map_id.
    rewrite <- SB. apply map_outcome_ok. intros b Ib. apply in_seq in Ib. apply at_ok. lia.
Qed.
(** and every element its orientation. *)
Theorem C355_orientation : forall c d nblocks nsets b e, purge c = false -> complete d nblocks nsets -> 0 < nsets ->
  In b (my_elements d) -> In e b -> orientation_of (driver_purge c d) e = Ok (nth e (orients d) 0).
Proof.
  intros c d nb ns b e P (_ & _ & _ & _ & H) N I J. unfold driver_purge. rewrite P.
  destruct (H 0 b e N I J) as (_ & L & _). unfold orientation_of.
  destruct (Nat.ltb_spec e (length (orients d))); [|lia]. apply at_ok; auto.
Qed.

Definition two_elems : dstate :=
  mkDstate true [[0; 1]] [[[0; 1]; [1; 2]]] [[5; 6; 7]] [3; 4].
Definition plain : pcfg := mkPcfg false true false false false 1.
Lemma two_elems_complete : complete two_elems 1 1.
Proof.
  repeat split; try reflexivity.
  - assert (s = 0) by lia; subst. destruct H0 as [<-|[]]. destruct H1 as [<-|[<-|[]]]; cbn; lia.
  - destruct H0 as [<-|[]]. destruct H1 as [<-|[<-|[]]]; cbn; lia.
  - assert (s = 0) by lia; subst. destruct H0 as [<-|[]].
    destruct H1 as [<-|[<-|[]]]; cbn; intuition lia.
Qed.
Example C355_case : run plain two_elems 1 1 = Ok ([[[[5; 6]; [6; 7]]]], [[0; 1]]).
Proof. reflexivity. Qed.

(** ** C356: the purge changes nothing but the memory used *)

(** With the purge the run gets past the setup exactly when the mesh is kept
    for an optimization movie alone and no matrix is used; it never does
    otherwise. *)
Theorem C356_purge_partial : forall c d nblocks nsets,
  purge c = true -> complete d nblocks nsets -> 0 < nblocks -> 0 < nsets ->
  (run c d nblocks nsets = run (mkPcfg false (write_solution c) (opt_movie c) (fully_explicit c) (matrix_free c) (nprocs c)) d nblocks nsets
   <-> (opt_movie c = true /\ write_solution c = false /\ fully_explicit c = true /\ matrix_free c = true)).
Proof.
  intros c d nb ns P C B N. destruct c as [p w m f x np]. cbn [purge] in P. subst p.
  cbn [write_solution opt_movie fully_explicit matrix_free nprocs].
  destruct (C355_setup (mkPcfg false w m f x np) d nb ns eq_refl C) as [S W].
  unfold run at 2. rewrite S, W. clear S W.
  cbn [write_solution opt_movie fully_explicit matrix_free nprocs].
  destruct nb as [|nb]; [lia|]. destruct ns as [|ns]; [lia|].
  pose proof C as (M & _).
  unfold run, driver_purge, setup_linalg, write_elements, setup_set, num_phase, allocate_matrices.
  cbn [purge write_solution opt_movie fully_explicit matrix_free nprocs dmesh my_elements]. rewrite M.
  destruct (f && x) eqn:FX; cbn [negb andb].
  - apply andb_true_iff in FX. destruct FX as [-> ->].
    destruct w, m; cbn [orb].
    + rewrite (map_outcome_ok _ (fun _ => [])) by reflexivity.
      cbn. split; [discriminate|intros (_ & ? & _); discriminate].
    + rewrite (map_outcome_ok _ (fun _ => [])) by reflexivity.
      cbn. split; [discriminate|intros (? & _); discriminate].
    + rewrite (map_outcome_ok _ (fun _ => [])) by reflexivity.
      split; auto.
    + cbn. split; [discriminate|intros (? & _); discriminate].
  - split.
    + destruct (w || m); cbn; discriminate.
    + intros (_ & _ & -> & ->). discriminate.
Qed.
(** The default settings with the purge switched on: the setup reads freed
    data.  An orientation asked for afterwards is that of no element. *)
Theorem C356_purge_refuted :
  run (mkPcfg true false false false false 1) two_elems 1 1 = UB /\
  run (mkPcfg true true false false false 1) two_elems 1 1 = UB /\
  orientation_of (driver_purge (mkPcfg true true false false false 1) two_elems) 1 = Ok 0 /\
  orientation_of (driver_purge plain two_elems) 1 = Ok 4.
Proof. repeat split. Qed.
Example C356_case : run (mkPcfg true false true true true 1) two_elems 1 1 = Ok ([[]], []).
Proof. reflexivity. Qed.

Print Assumptions C355_setup.
Print Assumptions C355_orientation.
Print Assumptions C356_purge_partial.
Print Assumptions C356_purge_refuted.
