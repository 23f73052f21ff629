(** Grid arithmetic for the structured meshes. *)
From Coq Require Import List Arith ZArith Bool Reals Lia Lra.
From Verif Require Import Outcome Mesh_Model.
Import ListNotations.

Lemma radix w a b a' b' : a < w -> a' < w -> b * w + a = b' * w + a' -> a = a' /\ b = b'.
Proof.
  intros A A' H. destruct (Nat.div_mod_unique w b b' a a' A A'); [lia|auto].
Qed.

Lemma radix_lt w h a b : a < w -> b < h -> b * w + a < h * w.
Proof. nia. Qed.

Lemma radix_split w h n : n < h * w -> exists a b, a < w /\ b < h /\ n = b * w + a.
Proof.
  intros H. assert (w <> 0) by (intros ->; lia).
  exists (n mod w), (n / w). split; [apply Nat.mod_upper_bound; auto|].
  split; [apply Nat.div_lt_upper_bound; lia|]. pose proof (Nat.div_mod n w H0). lia.
Qed.

(* ------------------------------------------------------------------ *)
Lemma flat_map_uniform_nth {A} (f : nat -> list A) w :
  (forall j, length (f j) = w) -> forall h s j i x,
  j < h -> nth_error (f (s + j)) i = Some x ->
  nth_error (flat_map f (seq s h)) (j * w + i) = Some x.
Proof.
  intros HL h. induction h as [|h IH]; intros s j i x Hj Hx; [lia|]. cbn [seq flat_map].
  assert (i < w) by (rewrite <- (HL (s + j)); apply nth_error_Some; congruence).
  destruct j as [|j].
  - rewrite Nat.add_0_r in Hx. cbn [Nat.mul]. rewrite nth_error_app1 by (rewrite HL; auto). exact Hx.
  - rewrite nth_error_app2 by (rewrite HL; lia). rewrite HL.
    replace (S j * w + i - w) with (j * w + i) by lia. apply IH; [lia|].
    replace (S s + j) with (s + S j) by lia. exact Hx.
Qed.

Lemma flat_map_uniform_length {A} (f : nat -> list A) w :
  (forall j, length (f j) = w) -> forall h s, length (flat_map f (seq s h)) = h * w.
Proof.
  intros HL h. induction h as [|h IH]; intros s; cbn [seq flat_map]; auto.
  rewrite app_length, HL, IH. lia.
Qed.

Lemma row_length {A} w (f : nat -> A) s : length (map f (seq s w)) = w.
Proof. rewrite map_length, seq_length. auto. Qed.

Lemma nth_error_seq s n i : i < n -> nth_error (seq s n) i = Some (s + i).
Proof.
  revert s i; induction n as [|n IH]; intros s [|i] H; cbn; try lia.
  - f_equal; lia.
  - rewrite IH by lia. f_equal; lia.
Qed.

Lemma grid2_nth {A} w h (f : nat -> nat -> A) i j : i < w -> j < h ->
  nth_error (grid2 w h f) (j * w + i) = Some (f i j).
Proof.
  intros Hi Hj. unfold grid2. apply flat_map_uniform_nth; auto using row_length.
  rewrite nth_error_map, nth_error_seq by auto. reflexivity.
Qed.
Lemma grid2_length {A} w h (f : nat -> nat -> A) : length (grid2 w h f) = h * w.
Proof. unfold grid2. apply flat_map_uniform_length. intros; apply row_length. Qed.

Lemma grid2_inv {A} w h (f : nat -> nat -> A) n x :
  nth_error (grid2 w h f) n = Some x -> exists i j, i < w /\ j < h /\ n = j * w + i /\ x = f i j.
Proof.
  intros H. assert (L : n < h * w) by (rewrite <- (grid2_length w h f); apply nth_error_Some; congruence).
  destruct (radix_split _ _ _ L) as (i & j & Hi & Hj & ->). rewrite grid2_nth in H by auto.
  injection H as <-. exists i, j. auto.
Qed.

Lemma grid3_nth {A} w h d (f : nat -> nat -> nat -> A) i j k : i < w -> j < h -> k < d ->
  nth_error (grid3 w h d f) (k * (w * h) + (j * w + i)) = Some (f i j k).
Proof.
  intros Hi Hj Hk. unfold grid3. apply flat_map_uniform_nth; auto.
  - intros. rewrite grid2_length. lia.
  - cbn [plus]. apply (grid2_nth w h (fun i j => f i j k)); auto.
Qed.
Lemma grid3_length {A} w h d (f : nat -> nat -> nat -> A) : length (grid3 w h d f) = d * (w * h).
Proof. unfold grid3. apply flat_map_uniform_length. intros. rewrite grid2_length. lia. Qed.
Lemma grid3_inv {A} w h d (f : nat -> nat -> nat -> A) n x :
  nth_error (grid3 w h d f) n = Some x ->
  exists i j k, i < w /\ j < h /\ k < d /\ n = k * (w * h) + (j * w + i) /\ x = f i j k.
Proof.
  intros H. assert (L : n < d * (w * h)) by (rewrite <- (grid3_length w h d f); apply nth_error_Some; congruence).
  destruct (radix_split _ _ _ L) as (m & k & Hm & Hk & ->).
  rewrite (Nat.mul_comm w h) in Hm.
  destruct (radix_split _ _ _ Hm) as (i & j & Hi & Hj & ->). rewrite grid3_nth in H by auto.
  injection H as <-. exists i, j, k. auto.
Qed.

Lemma grid2_in {A} w h (f : nat -> nat -> A) x :
  In x (grid2 w h f) <-> exists i j, i < w /\ j < h /\ x = f i j.
Proof.
  split.
  - intros H. apply In_nth_error in H. destruct H as [n H]. apply grid2_inv in H.
    destruct H as (i & j & ? & ? & _ & ->). eauto.
  - intros (i & j & Hi & Hj & ->). eapply nth_error_In. apply grid2_nth; eauto.
Qed.

Lemma grid2_nodup {A} w h (f : nat -> nat -> A) :
  (forall i j i' j', i < w -> j < h -> i' < w -> j' < h -> f i j = f i' j' -> i = i' /\ j = j') ->
  NoDup (grid2 w h f).
Proof.
  intros H. apply NoDup_nth_error. intros n m Hn E.
  destruct (nth_error (grid2 w h f) n) as [x|] eqn:N; [|apply nth_error_None in N; lia].
  symmetry in E. apply grid2_inv in N, E.
  destruct N as (i & j & Hi & Hj & -> & ->). destruct E as (i' & j' & Hi' & Hj' & -> & E).
  apply H in E; auto. destruct E as [-> ->]. reflexivity.
Qed.

Lemma map_seq_nodup {A} (f : nat -> A) n :
  (forall i i', i < n -> i' < n -> f i = f i' -> i = i') -> NoDup (map f (seq 0 n)).
Proof.
  intros H. apply NoDup_nth_error. intros a b Ha E. rewrite row_length in Ha.
  rewrite !nth_error_map in E. rewrite nth_error_seq in E by auto. cbn [option_map plus] in E.
  destruct (nth_error (seq 0 n) b) as [y|] eqn:Y; [|discriminate].
  assert (b < n) by (rewrite <- (seq_length n 0); apply nth_error_Some; congruence).
  rewrite nth_error_seq in Y by auto. injection Y as <-. injection E as E. apply H; auto.
Qed.

(* ------------------------------------------------------------------ *)
(** ** Two dimensions *)
Section Two.
  Context (nx ny : nat).
  Notation nid a b := (b * (nx + 1) + a).

  Definition row2 (i j : nat) : list nat :=
    [ j * (nx + 1) + i; j * (nx + 1) + (i + 1);
      (j + 1) * (nx + 1) + (i + 1); (j + 1) * (nx + 1) + i ].

  Lemma nid_inj a b a' b' : a <= nx -> a' <= nx -> nid a b = nid a' b' -> a = a' /\ b = b'.
  Proof. intros. apply (radix (nx + 1)); lia. Qed.

  Lemma in_row2 i j a b : i < nx -> a <= nx ->
    (In (nid a b) (row2 i j) <-> (i <= a <= i + 1) /\ (j <= b <= j + 1)).
  Proof.
    intros Hi Ha. unfold row2. cbn [In]. split.
    - intros [E|[E|[E|[E|[]]]]]; apply nid_inj in E; lia.
    - intros [Ka Kb].
      assert (a = i \/ a = i + 1) as [->| ->] by lia; assert (b = j \/ b = j + 1) as [->| ->] by lia; tauto.
  Qed.

  Lemma row2_inv i j n : i < nx -> j < ny -> In n (row2 i j) ->
    exists a b, a <= nx /\ b <= ny /\ n = nid a b /\ (i <= a <= i + 1) /\ (j <= b <= j + 1).
  Proof.
    intros Hi Hj [<-|[<-|[<-|[<-|[]]]]]; eexists; eexists; (split; [|split; [|split; [reflexivity|]]]); lia.
  Qed.

  (** Edge keys: direction (true = along x), lower left end. *)
  Definition eid2 (k : bool * nat * nat) : nat :=
    let '(d, a, b) := k in b * (2 * nx + 1) + (if d then a else nx + a).
  Definition key_ok2 (k : bool * nat * nat) : Prop :=
    let '(d, a, b) := k in if d then a < nx /\ b <= ny else a <= nx /\ b < ny.
  Definition ekey2 (i j s : nat) : bool * nat * nat :=
    match s with 0 => (true, i, j) | 1 => (false, i + 1, j) | 2 => (true, i, j + 1) | _ => (false, i, j) end.
  Definition ends2 (k : bool * nat * nat) : nat * nat :=
    let '(d, a, b) := k in (nid a b, if d then nid (a + 1) b else nid a (b + 1)).

  Lemma eid2_inj k k' : key_ok2 k -> key_ok2 k' -> eid2 k = eid2 k' -> k = k'.
  Proof.
    destruct k as [[d a] b], k' as [[d' a'] b']. unfold key_ok2, eid2. intros K K' E.
    destruct d, d'; apply (radix (2 * nx + 1)) in E; try lia; destruct E as [E1 E2]; try lia;
      repeat f_equal; lia.
  Qed.

  Lemma ends2_inj k k' : key_ok2 k -> key_ok2 k' ->
    (forall n, (n = fst (ends2 k) \/ n = snd (ends2 k)) <-> (n = fst (ends2 k') \/ n = snd (ends2 k'))) -> k = k'.
  Proof.
    destruct k as [[d a] b], k' as [[d' a'] b']. unfold key_ok2, ends2. cbn [fst snd]. intros K K' E.
    assert (K1 : a <= nx) by (destruct d; lia). assert (K1' : a' <= nx) by (destruct d'; lia).
    pose proof (proj1 (E _) (or_introl eq_refl)) as E1.
    pose proof (proj1 (E _) (or_intror eq_refl)) as E2.
    pose proof (proj2 (E _) (or_introl eq_refl)) as E3. clear E.
    destruct d, d'; destruct E1 as [E1|E1]; apply nid_inj in E1; try lia;
      destruct E2 as [E2|E2]; apply nid_inj in E2; try lia;
      destruct E3 as [E3|E3]; apply nid_inj in E3; try lia; repeat f_equal; lia.
  Qed.

  Lemma key_ok2_cell i j s : i < nx -> j < ny -> key_ok2 (ekey2 i j s).
  Proof. intros. destruct s as [|[|[|s]]]; cbn; lia. Qed.

  Lemma key2_used k : 0 < nx -> 0 < ny -> key_ok2 k -> exists i j s, i < nx /\ j < ny /\ s < 4 /\ ekey2 i j s = k.
  Proof.
    destruct k as [[[|] a] b]; cbn; intros Hx Hy K.
    - destruct b as [|b]; [exists a, 0, 0; cbn; repeat split; lia|].
      exists a, b, 2. cbn. repeat split; try lia. f_equal; lia.
    - destruct a as [|a]; [exists 0, b, 3; cbn; repeat split; lia|].
      exists a, b, 1. cbn. repeat split; try lia. repeat f_equal; lia.
  Qed.

  Lemma eid2_lt k : key_ok2 k -> eid2 k < num_edges2 nx ny.
  Proof.
    destruct k as [[[|] a] b]; cbn [key_ok2 eid2]; unfold num_edges2; intros [A B].
    - assert (b * (2 * nx + 1) <= ny * (2 * nx + 1)) by (apply Nat.mul_le_mono_r; auto). nia.
    - assert (b * (2 * nx + 1) + (2 * nx + 1) <= ny * (2 * nx + 1)) by nia. nia.
  Qed.

  Lemma eid2_surj e : e < num_edges2 nx ny -> exists k, key_ok2 k /\ eid2 k = e.
  Proof.
    unfold num_edges2. intros H.
    assert (H' : e < (ny + 1) * (2 * nx + 1)) by nia.
    destruct (radix_split _ _ _ H') as (t & b & Ht & Hb & ->).
    destruct (lt_dec t nx).
    - exists (true, t, b). cbn. split; lia.
    - exists (false, t - nx, b). cbn [key_ok2 eid2]. split; [|lia]. split; [lia|].
      destruct (Nat.eq_dec b ny) as [->|]; [|lia]. nia.
  Qed.
End Two.
