(** Properties of the combined subgrid mesh. *)
From Coq Require Import List Arith Lia.
From Verif Require Import CombMesh_Model.
Import ListNotations.

(** Specification: where the elements of a patch are. *)
Definition patch_ok {P} (p : patch P) : Prop := forall row n, In row (snd p) -> In n row -> n < length (fst p).
Definition patch_coords {P} (p : patch P) : list (list (option P)) := map (map (nth_error (fst p))) (snd p).

Lemma combine_coords : forall P (ps : list (patch P)) before, (forall p, In p ps -> patch_ok p) ->
  map (map (nth_error (before ++ fst (f_combine (length before) ps)))) (snd (f_combine (length before) ps))
  = flat_map patch_coords ps.
Proof.
  induction ps as [|[nodes conn] r IH]; intros before H; [reflexivity|]. cbn [f_combine flat_map].
  specialize (IH (before ++ nodes) (fun p Hp => H p (or_intror Hp))). rewrite app_length in IH.
  destruct (f_combine (length before + length nodes) r) as [n' c']. cbn [fst snd] in IH |- *.
  rewrite <- app_assoc in IH. rewrite map_app, IH. f_equal.
  unfold patch_coords. cbn [fst snd]. rewrite map_map. apply map_ext_in. intros row Hr. rewrite map_map. apply map_ext_in. intros n Hn.
  assert (L : n < length nodes) by (apply (H (nodes, conn) (or_introl eq_refl) row n Hr Hn)).
  rewrite nth_error_app2 by lia. replace (n + length before - length before) with n by lia.
  apply nth_error_app1. exact L.
Qed.
Lemma mesh_one : forall P (p : patch P), f_coords (f_mesh [p]) = patch_coords p.
Proof.
  intros P [nodes conn]. unfold f_coords, f_mesh, patch_coords. cbn. rewrite !app_nil_r, map_map. apply map_ext. intros row.
  rewrite map_map. apply map_ext. intros n. rewrite Nat.add_1_r. reflexivity.
Qed.
(** C311 The combined mesh has the nodes of all the patches and, in order, their elements where they
    are in their own patch. *)
Theorem C311_combined_mesh_is_the_union : forall P (ps : list (patch P)), (forall p, In p ps -> patch_ok p) ->
  let m := f_mesh [f_combine 0 ps] in
  fst m = flat_map fst ps
  /\ f_coords m = flat_map patch_coords ps
  /\ (forall row, In row (f_coords m) -> ~ In None row).
Proof.
  intros P ps H m.
  assert (N : forall k, fst (f_combine k ps) = flat_map fst ps).
  { clear. induction ps as [|[nodes conn] r IH]; intros k; [reflexivity|]. cbn. specialize (IH (k + length nodes)).
    destruct (f_combine (k + length nodes) r). cbn in *. rewrite IH. reflexivity. }
  assert (C : f_coords m = flat_map patch_coords ps).
  { unfold m. rewrite mesh_one. exact (combine_coords P ps [] H). }
  split; [|split; [exact C|]].
  - unfold m, f_mesh. cbn. rewrite app_nil_r. apply N.
  - rewrite C. intros row Hr K. apply in_flat_map in Hr. destruct Hr as (p & Hp & Hr). unfold patch_coords in Hr.
    apply in_map_iff in Hr. destruct Hr as (r0 & <- & Hr0). apply in_map_iff in K. destruct K as (n & E & Hn).
    apply nth_error_None in E. specialize (H p Hp r0 n Hr0 Hn). lia.
Qed.
Print Assumptions C311_combined_mesh_is_the_union.
Definition line (x : nat) : patch nat := ([x; x + 1; x + 2], [[0; 1]; [1; 2]]).
Example C311_case : (forall p, In p [line 0; line 10] -> patch_ok p)
  /\ f_coords (f_mesh [f_combine 0 [line 0; line 10]]) = [[Some 0; Some 1]; [Some 1; Some 2]; [Some 10; Some 11]; [Some 11; Some 12]].
Proof.
  split; [|reflexivity]. intros p [<- | [<- | []]] row n; cbn; intros [<- | [<- | []]]; cbn; lia.
Qed.

(** C312 A mesh built from several patches has the elements of every patch. *)
Theorem C312_several_patches_partial : forall P (p : patch P) (ps : list (patch P)),
  patch_ok p -> (forall q, In q ps -> patch_ok q) ->
  (forall q, In q (p :: ps) -> length (snd q) = length (fst q)) ->
  f_coords (f_mesh (p :: ps)) = flat_map patch_coords (p :: ps).
Proof.
  intros P p ps Hp Hps He.
  assert (A : forall (qs : list (patch P)) before, (forall q, In q qs -> patch_ok q) -> (forall q, In q qs -> length (snd q) = length (fst q)) ->
    map (map (fun id => match id with O => None | S k => nth_error (before ++ flat_map fst qs) k end)) (f_elems (S (length before)) qs) = flat_map patch_coords qs).
  { induction qs as [|[nodes conn] r IH]; intros before H E; [reflexivity|]. cbn [f_elems flat_map fst].
    rewrite map_app. specialize (IH (before ++ nodes) (fun q Hq => H q (or_intror Hq)) (fun q Hq => E q (or_intror Hq))).
    assert (L : length conn = length nodes) by (apply (E (nodes, conn) (or_introl eq_refl))).
    rewrite app_length, <- L in IH. rewrite <- app_assoc in IH. rewrite Nat.add_succ_l. rewrite IH. f_equal.
    unfold patch_coords. cbn [fst snd]. rewrite map_map. apply map_ext_in. intros row Hr. rewrite map_map. apply map_ext_in. intros n Hn.
    assert (Ln : n < length nodes) by (apply (H (nodes, conn) (or_introl eq_refl) row n Hr Hn)).
    replace (n + S (length before)) with (S (n + length before)) by lia.
    rewrite nth_error_app2 by lia. replace (n + length before - length before) with n by lia. apply nth_error_app1. exact Ln. }
  apply (A (p :: ps) []); [|exact He]. intros q [<- | Hq]; [exact Hp|apply Hps, Hq].
Qed.
Print Assumptions C312_several_patches_partial.
Theorem C312_several_patches_refuted : exists ps : list (patch nat), (forall p, In p ps -> patch_ok p)
  /\ f_coords (f_mesh ps) <> flat_map patch_coords ps
  /\ nth_error (f_coords (f_mesh ps)) 2 = Some [Some 2; Some 10].
Proof.
  exists [line 0; line 10]. split; [apply C311_case|]. split; [discriminate|reflexivity].
Qed.
Print Assumptions C312_several_patches_refuted.
Example C312_case : let ring x : patch nat := ([x; x + 1; x + 2], [[0; 1]; [1; 2]; [2; 0]]) in
  forall q, In q [ring 0; ring 7] -> patch_ok q /\ length (snd q) = length (fst q).
Proof. intros ring q [<- | [<- | []]]; split; try reflexivity; intros row n; cbn; intros [<- | [<- | [<- | []]]]; cbn; lia. Qed.
