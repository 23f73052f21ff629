(** Property C35 (brick connectivity) and C36 for the brick. *)
From Coq Require Import List Arith ZArith Bool Reals Lia Lra.
From Verif Require Import Outcome Mesh_Model Mesh_Proofs Mesh_Props.
Import ListNotations.

Section Three.
  Context (nx ny nz : nat).
  Notation nxy := ((nx + 1) * (ny + 1)).
  Notation nid a b c := (c * nxy + b * (nx + 1) + a).

  Definition row3 (i j k : nat) : list nat :=
    [ nid i j k; nid (i + 1) j k; nid (i + 1) (j + 1) k; nid i (j + 1) k;
      nid i j (k + 1); nid (i + 1) j (k + 1); nid (i + 1) (j + 1) (k + 1); nid i (j + 1) (k + 1) ].

  Lemma nid3_inj a b c a' b' c' : a <= nx -> a' <= nx -> b <= ny -> b' <= ny ->
    nid a b c = nid a' b' c' -> a = a' /\ b = b' /\ c = c'.
  Proof.
    intros A A' B B' E.
    assert (L : b * (nx + 1) + a < (ny + 1) * (nx + 1)) by (apply radix_lt; lia).
    assert (L' : b' * (nx + 1) + a' < (ny + 1) * (nx + 1)) by (apply radix_lt; lia).
    destruct (radix nxy (b * (nx + 1) + a) c (b' * (nx + 1) + a') c') as [E1 ->]; [lia|lia|lia|].
    apply radix in E1; lia.
  Qed.

  Lemma in_row3 i j k a b c : i < nx -> j < ny -> a <= nx -> b <= ny ->
    (In (nid a b c) (row3 i j k) <-> (i <= a <= i + 1) /\ (j <= b <= j + 1) /\ (k <= c <= k + 1)).
  Proof.
    intros Hi Hj Ha Hb. unfold row3. cbn [In]. split.
    - intros E. repeat (destruct E as [E|E]; [apply nid3_inj in E; lia|]). contradiction.
    - intros (Ka & Kb & Kc).
      assert (a = i \/ a = i + 1) as [->| ->] by lia; assert (b = j \/ b = j + 1) as [->| ->] by lia;
      assert (c = k \/ c = k + 1) as [->| ->] by lia; tauto.
  Qed.

  Lemma row3_inv i j k n : i < nx -> j < ny -> k < nz -> In n (row3 i j k) ->
    exists a b c, a <= nx /\ b <= ny /\ c <= nz /\ n = nid a b c /\
      (i <= a <= i + 1) /\ (j <= b <= j + 1) /\ (k <= c <= k + 1).
  Proof.
    intros Hi Hj Hk E. unfold row3 in E. cbn [In] in E.
    repeat (destruct E as [<-|E]; [do 3 eexists; (split; [|split; [|split; [|split; [reflexivity|]]]]); lia|]).
    contradiction.
  Qed.

  Lemma cell3_inv c row : nth_error (cell_to_node3 nx ny nz) c = Some row ->
    exists i j k, i < nx /\ j < ny /\ k < nz /\ c = k * (nx * ny) + (j * nx + i) /\ row = row3 i j k.
  Proof. intros E. unfold cell_to_node3 in E. apply grid3_inv in E. exact E. Qed.
  Lemma cell3_at i j k : i < nx -> j < ny -> k < nz ->
    nth_error (cell_to_node3 nx ny nz) (k * (nx * ny) + (j * nx + i)) = Some (row3 i j k).
  Proof. intros. unfold cell_to_node3. rewrite grid3_nth by auto. reflexivity. Qed.

  Lemma cell3_inj i j k i' j' k' : i < nx -> i' < nx -> j < ny -> j' < ny ->
    k * (nx * ny) + (j * nx + i) = k' * (nx * ny) + (j' * nx + i') -> i = i' /\ j = j' /\ k = k'.
  Proof.
    intros A A' B B' E.
    assert (L : j * nx + i < ny * nx) by (apply radix_lt; lia).
    assert (L' : j' * nx + i' < ny * nx) by (apply radix_lt; lia).
    destruct (radix (nx * ny) (j * nx + i) k (j' * nx + i') k') as [E1 ->]; [lia|lia|lia|].
    apply radix in E1; lia.
  Qed.

  (** Edges *)
  Definition key3 := ((bool * nat * nat + nat * nat) * nat)%type.
  Notation exy := (num_edges2 nx ny).
  Notation exyz := ((nx + 1) * ny + (ny + 1) * nx + (nx + 1) * (ny + 1)).
  Definition eid3 (k : key3) : nat :=
    match k with
    | (inl k2, c) => c * exyz + eid2 nx k2
    | (inr (a, b), c) => c * exyz + exy + (b * (nx + 1) + a)
    end.
  Definition key_ok3 (k : key3) : Prop :=
    match k with
    | (inl k2, c) => key_ok2 nx ny k2 /\ c <= nz
    | (inr (a, b), c) => a <= nx /\ b <= ny /\ c < nz
    end.
  Definition ekey3 (i j k s : nat) : key3 :=
    match s with
    | 0 | 1 | 2 | 3 => (inl (ekey2 i j s), k)
    | 4 | 5 | 6 | 7 => (inl (ekey2 i j (s - 4)), k + 1)
    | 8 => (inr (i, j), k) | 9 => (inr (i + 1, j), k)
    | 10 => (inr (i + 1, j + 1), k) | _ => (inr (i, j + 1), k)
    end.
  Definition ends3 (k : key3) : nat * nat :=
    match k with
    | (inl (d, a, b), c) => (nid a b c, if d then nid (a + 1) b c else nid a (b + 1) c)
    | (inr (a, b), c) => (nid a b c, nid a b (c + 1))
    end.

  Lemma eid3_inj k k' : key_ok3 k -> key_ok3 k' -> eid3 k = eid3 k' -> k = k'.
  Proof.
    destruct k as [[k2|[a b]] c], k' as [[k2'|[a' b']] c']; cbn [key_ok3 eid3]; intros K K' E.
    - destruct K as [K C], K' as [K' C'].
      pose proof (eid2_lt _ _ _ K) as L. pose proof (eid2_lt _ _ _ K') as L'. unfold num_edges2 in L, L'.
      apply (radix exyz) in E; [|lia..]. destruct E as [E ->]. apply (eid2_inj nx ny) in E; auto. congruence.
    - destruct K as [K C]. pose proof (eid2_lt _ _ _ K) as L. unfold num_edges2 in L, E.
      assert (b' * (nx + 1) + a' < (ny + 1) * (nx + 1)) by (apply radix_lt; lia).
      destruct (radix exyz (eid2 nx k2) c ((nx + 1) * ny + (ny + 1) * nx + (b' * (nx + 1) + a')) c'); lia.
    - destruct K' as [K' C']. pose proof (eid2_lt _ _ _ K') as L. unfold num_edges2 in L, E.
      assert (b * (nx + 1) + a < (ny + 1) * (nx + 1)) by (apply radix_lt; lia).
      destruct (radix exyz (eid2 nx k2') c' ((nx + 1) * ny + (ny + 1) * nx + (b * (nx + 1) + a)) c); lia.
    - unfold num_edges2 in E. assert (b * (nx + 1) + a < (ny + 1) * (nx + 1)) by (apply radix_lt; lia).
      assert (b' * (nx + 1) + a' < (ny + 1) * (nx + 1)) by (apply radix_lt; lia).
      destruct (radix exyz ((nx + 1) * ny + (ny + 1) * nx + (b * (nx + 1) + a)) c
                  ((nx + 1) * ny + (ny + 1) * nx + (b' * (nx + 1) + a')) c') as [E1 ->]; [lia..|].
      assert (E' : b * (nx + 1) + a = b' * (nx + 1) + a') by lia. apply radix in E'; [|lia..].
      destruct E' as [-> ->]. reflexivity.
  Qed.

  Lemma ends3_inj k k' : key_ok3 k -> key_ok3 k' ->
    (forall n, (n = fst (ends3 k) \/ n = snd (ends3 k)) <-> (n = fst (ends3 k') \/ n = snd (ends3 k'))) -> k = k'.
  Proof.
    intros K K' E.
    pose proof (proj1 (E _) (or_introl eq_refl)) as E1.
    pose proof (proj1 (E _) (or_intror eq_refl)) as E2.
    pose proof (proj2 (E _) (or_introl eq_refl)) as E3. clear E.
    destruct k as [[[[[|] a] b]|[a b]] c], k' as [[[[[|] a'] b']|[a' b']] c'];
      cbn [key_ok3 key_ok2 ends3 fst snd] in *;
      destruct E1 as [E1|E1]; apply nid3_inj in E1; try lia;
      destruct E2 as [E2|E2]; apply nid3_inj in E2; try lia;
      destruct E3 as [E3|E3]; apply nid3_inj in E3; try lia;
      destruct E1 as (? & ? & ?), E2 as (? & ? & ?), E3 as (? & ? & ?); subst; try lia;
      repeat f_equal; lia.
  Qed.

  Lemma key_ok3_cell i j k s : i < nx -> j < ny -> k < nz -> s < 12 -> key_ok3 (ekey3 i j k s).
  Proof.
    intros Hi Hj Hk Hs. assert (K := fun s => key_ok2_cell nx ny i j s Hi Hj).
    do 12 (destruct s as [|s]; [cbn [ekey3 key_ok3]; try (split; [apply K|lia]); lia|]). lia.
  Qed.

  Lemma key3_used k : 0 < nx -> 0 < ny -> 0 < nz -> key_ok3 k ->
    exists i j c s, i < nx /\ j < ny /\ c < nz /\ s < 12 /\ ekey3 i j c s = k.
  Proof.
    intros Hx Hy Hz. destruct k as [[k2|[a b]] c]; cbn [key_ok3].
    - intros [K C]. destruct (key2_used nx ny k2 Hx Hy K) as (i & j & s & Hi & Hj & Hs & <-).
      destruct c as [|c].
      + exists i, j, 0, s. repeat split; try lia. destruct s as [|[|[|[|s]]]]; try lia; reflexivity.
      + exists i, j, c, (4 + s). repeat split; try lia.
        destruct s as [|[|[|[|s]]]]; try lia; cbn [ekey3 Nat.add Nat.sub]; f_equal; lia.
    - intros (A & B & C).
      destruct (Nat.eq_dec a nx) as [->|Na], (Nat.eq_dec b ny) as [->|Nb].
      + exists (nx - 1), (ny - 1), c, 10. repeat split; try lia. cbn. repeat f_equal; lia.
      + exists (nx - 1), b, c, 9. repeat split; try lia. cbn. repeat f_equal; lia.
      + exists a, (ny - 1), c, 11. repeat split; try lia. cbn. repeat f_equal; lia.
      + exists a, b, c, 8. repeat split; lia.
  Qed.

  Lemma eid3_lt k : key_ok3 k -> eid3 k < num_edges3 nx ny nz.
  Proof.
    unfold num_edges3. destruct k as [[k2|[a b]] c]; cbn [key_ok3 eid3].
    - intros [K C]. pose proof (eid2_lt _ _ _ K) as L. unfold num_edges2 in L.
      assert (c * exyz <= nz * exyz) by (apply Nat.mul_le_mono_r; auto). lia.
    - intros (A & B & C). assert (b * (nx + 1) + a < (ny + 1) * (nx + 1)) by (apply radix_lt; lia).
      assert ((c + 1) * exyz <= nz * exyz) by (apply Nat.mul_le_mono_r; lia). unfold num_edges2. lia.
  Qed.

  Lemma eid3_surj e : e < num_edges3 nx ny nz -> exists k, key_ok3 k /\ eid3 k = e.
  Proof.
    unfold num_edges3. intros H.
    assert (H' : e < (nz + 1) * exyz) by lia.
    destruct (radix_split _ _ _ H') as (t & c & Ht & Hc & ->).
    destruct (lt_dec t exy) as [L|L].
    - destruct (eid2_surj nx ny t L) as (k2 & K & <-). exists (inl k2, c). cbn. split; [split; [auto|lia]|lia].
    - unfold num_edges2 in L.
      assert (T : t - ((nx + 1) * ny + (ny + 1) * nx) < (ny + 1) * (nx + 1)) by lia.
      destruct (radix_split _ _ _ T) as (a & b & Ha & Hb & E). exists (inr (a, b), c).
      cbn [key_ok3 eid3]. unfold num_edges2. split; [|lia]. split; [lia|]. split; [lia|].
      destruct (Nat.eq_dec c nz) as [->|]; [|lia]. nia.
  Qed.
End Three.

(* ------------------------------------------------------------------ *)
(** ** C35 *)

Lemma nodes3_at W D H X0 Y0 Z0 nx ny nz a b c : a <= nx -> b <= ny -> c <= nz ->
  nth_error (nodes3 W D H X0 Y0 Z0 nx ny nz) (c * ((nx + 1) * (ny + 1)) + b * (nx + 1) + a)
  = Some (line X0 W nx a, line Y0 D ny b, line Z0 H nz c).
Proof.
  intros. unfold nodes3. rewrite <- Nat.add_assoc. rewrite grid3_nth by lia. reflexivity.
Qed.
Lemma nodes3_inv W D H X0 Y0 Z0 nx ny nz n p : nth_error (nodes3 W D H X0 Y0 Z0 nx ny nz) n = Some p ->
  exists a b c, a <= nx /\ b <= ny /\ c <= nz /\ n = c * ((nx + 1) * (ny + 1)) + b * (nx + 1) + a
    /\ p = (line X0 W nx a, line Y0 D ny b, line Z0 H nz c).
Proof.
  intros E. unfold nodes3 in E. apply grid3_inv in E. destruct E as (a & b & c & A & B & C & -> & ->).
  exists a, b, c. repeat split; lia || reflexivity.
Qed.

(** Cells are numbered x fastest, z slowest; the eight nodes are the corners: bottom
    counter-clockwise, then top counter-clockwise. *)
Theorem C35_geometry W D H X0 Y0 Z0 nx ny nz i j k : i < nx -> j < ny -> k < nz ->
  let x := line X0 W nx in let y := line Y0 D ny in let z := line Z0 H nz in
  length (cell_to_node3 nx ny nz) = nx * ny * nz
  /\ length (nodes3 W D H X0 Y0 Z0 nx ny nz) = (nx + 1) * (ny + 1) * (nz + 1)
  /\ exists row, nth_error (cell_to_node3 nx ny nz) (k * (nx * ny) + (j * nx + i)) = Some row
     /\ map (nth_error (nodes3 W D H X0 Y0 Z0 nx ny nz)) row
        = map Some [ (x i, y j, z k); (x (i+1), y j, z k); (x (i+1), y (j+1), z k); (x i, y (j+1), z k);
                     (x i, y j, z (k+1)); (x (i+1), y j, z (k+1)); (x (i+1), y (j+1), z (k+1)); (x i, y (j+1), z (k+1)) ].
Proof.
  intros Hi Hj Hk x y z. split; [unfold cell_to_node3; rewrite grid3_length; lia|].
  split; [unfold nodes3; rewrite grid3_length; lia|].
  exists (row3 nx ny i j k). split; [apply cell3_at; auto|].
  unfold row3. cbn [map]. rewrite !nodes3_at by lia. reflexivity.
Qed.
Print Assumptions C35_geometry.

Theorem C35_nodes W D H X0 Y0 Z0 nx ny nz : (0 < W)%R -> (0 < D)%R -> (0 < H)%R ->
  0 < nx -> 0 < ny -> 0 < nz ->
  NoDup (nodes3 W D H X0 Y0 Z0 nx ny nz)
  /\ (forall c row, nth_error (cell_to_node3 nx ny nz) c = Some row -> length row = 8 /\ NoDup row)
  /\ (forall n, n < (nx + 1) * (ny + 1) * (nz + 1) <->
        exists c row, nth_error (cell_to_node3 nx ny nz) c = Some row /\ In n row).
Proof.
  intros HW HD HH Hx Hy Hz. split; [|split].
  - apply NoDup_nth_error. intros n m Hn E.
    destruct (nth_error (nodes3 W D H X0 Y0 Z0 nx ny nz) n) as [p|] eqn:N; [|apply nth_error_None in N; lia].
    symmetry in E. apply nodes3_inv in N, E.
    destruct N as (a & b & c & A & B & C & -> & ->). destruct E as (a' & b' & c' & A' & B' & C' & -> & E).
    injection E as E1 E2 E3. apply line_inj in E1, E2, E3; auto.
  - intros c row E. apply cell3_inv in E. destruct E as (i & j & k & Hi & Hj & Hk & -> & ->). split; [reflexivity|].
    unfold row3. repeat (apply NoDup_cons; [cbn [In]; intros K;
      repeat (destruct K as [K|K]; [apply nid3_inj in K; lia|]); exact K|]). apply NoDup_nil.
  - intros n. split.
    + intros L. rewrite Nat.mul_comm in L. destruct (radix_split _ _ _ L) as (m & c & M & C & ->).
      rewrite (Nat.mul_comm (nx + 1) (ny + 1)) in M. destruct (radix_split _ _ _ M) as (a & b & A & B & ->).
      pose (i := if a =? nx then a - 1 else a). pose (j := if b =? ny then b - 1 else b).
      pose (k := if c =? nz then c - 1 else c).
      assert (Hi : i < nx /\ i <= a <= i + 1) by (unfold i; destruct (Nat.eqb_spec a nx); lia).
      assert (Hj : j < ny /\ j <= b <= j + 1) by (unfold j; destruct (Nat.eqb_spec b ny); lia).
      assert (Hk : k < nz /\ k <= c <= k + 1) by (unfold k; destruct (Nat.eqb_spec c nz); lia).
      exists (k * (nx * ny) + (j * nx + i)), (row3 nx ny i j k). split; [apply cell3_at; tauto|].
      rewrite Nat.add_assoc. apply in_row3; lia.
    + intros (c & row & E & K). apply cell3_inv in E. destruct E as (i & j & k & Hi & Hj & Hk & -> & ->).
      eapply row3_inv in K; eauto. destruct K as (a & b & d & A & B & C & -> & _).
      assert (b * (nx + 1) + a < (ny + 1) * (nx + 1)) by (apply radix_lt; lia).
      rewrite (Nat.mul_comm _ (nz + 1)), <- Nat.add_assoc. apply radix_lt; lia.
Qed.
Print Assumptions C35_nodes.

(** Conforming: a node belongs to a cell exactly when its point lies in the closed box
    of the cell.  (So two cells share exactly the nodes of their common face, edge or
    corner.) *)
Theorem C35_conforming W D H X0 Y0 Z0 nx ny nz c row n px py pz :
  (0 < W)%R -> (0 < D)%R -> (0 < H)%R ->
  nth_error (cell_to_node3 nx ny nz) c = Some row ->
  nth_error (nodes3 W D H X0 Y0 Z0 nx ny nz) n = Some (px, py, pz) ->
  exists x0 y0 z0 x1 y1 z1,
    nth_error (nodes3 W D H X0 Y0 Z0 nx ny nz) (nth 0 row 0) = Some (x0, y0, z0)
    /\ nth_error (nodes3 W D H X0 Y0 Z0 nx ny nz) (nth 6 row 0) = Some (x1, y1, z1)
    /\ (x0 < x1)%R /\ (y0 < y1)%R /\ (z0 < z1)%R
    /\ (In n row <-> (x0 <= px <= x1)%R /\ (y0 <= py <= y1)%R /\ (z0 <= pz <= z1)%R).
Proof.
  intros HW HD HH E N. apply cell3_inv in E. destruct E as (i & j & k & Hi & Hj & Hk & -> & ->).
  apply nodes3_inv in N. destruct N as (a & b & d & A & B & C & -> & N). injection N as -> -> ->.
  exists (line X0 W nx i), (line Y0 D ny j), (line Z0 H nz k),
    (line X0 W nx (i + 1)), (line Y0 D ny (j + 1)), (line Z0 H nz (k + 1)).
  cbn [nth row3]. rewrite !nodes3_at by lia. split; [reflexivity|]. split; [reflexivity|].
  assert (S1 : forall lo len n k, (0 < len)%R -> 0 < n -> (line lo len n k < line lo len n (k + 1))%R).
  { intros lo len n t Hl Hn. apply Rnot_le_lt. intros K. apply line_le in K; auto. lia. }
  split; [apply S1; auto; lia|]. split; [apply S1; auto; lia|]. split; [apply S1; auto; lia|].
  rewrite in_row3 by lia. rewrite !line_le by (auto; lia). tauto.
Qed.
Print Assumptions C35_conforming.

(** The edges of a hexahedron by its corners. *)
Definition hex_edges : list (nat * nat) :=
  [(0,1);(1,2);(2,3);(3,0);(4,5);(5,6);(6,7);(7,4);(0,4);(1,5);(2,6);(3,7)].
Definition edge_ends3 (row : list nat) (s : nat) : nat * nat :=
  let '(u, v) := nth s hex_edges (0, 0) in (nth u row 0, nth v row 0).

Lemma edge_ends3_key nx ny i j k s : s < 12 ->
  edge_ends3 (row3 nx ny i j k) s = ends3 nx ny (ekey3 i j k s)
  \/ edge_ends3 (row3 nx ny i j k) s = (snd (ends3 nx ny (ekey3 i j k s)), fst (ends3 nx ny (ekey3 i j k s))).
Proof. intros H. do 12 (destruct s as [|s]; [cbn -[Nat.add Nat.mul]; auto|]). lia. Qed.

Theorem C35_edges nx ny nz : 0 < nx -> 0 < ny -> 0 < nz ->
  (forall c c' s s' row row' er er', s < 12 -> s' < 12 ->
     nth_error (cell_to_node3 nx ny nz) c = Some row -> nth_error (cell_to_node3 nx ny nz) c' = Some row' ->
     nth_error (cell_to_edge3 nx ny nz) c = Some er -> nth_error (cell_to_edge3 nx ny nz) c' = Some er' ->
     (nth s er 0 = nth s' er' 0 <->
      forall n, (n = fst (edge_ends3 row s) \/ n = snd (edge_ends3 row s))
            <-> (n = fst (edge_ends3 row' s') \/ n = snd (edge_ends3 row' s'))))
  /\ (forall e, e < num_edges3 nx ny nz <->
        exists c er s, nth_error (cell_to_edge3 nx ny nz) c = Some er /\ s < 12 /\ nth s er 0 = e).
Proof.
  intros Hx Hy Hz.
  assert (EK : forall c er, nth_error (cell_to_edge3 nx ny nz) c = Some er ->
     exists i j k, i < nx /\ j < ny /\ k < nz /\ c = k * (nx * ny) + (j * nx + i)
       /\ forall s, s < 12 -> nth s er 0 = eid3 nx ny (ekey3 i j k s)).
  { intros c er E. unfold cell_to_edge3 in E. apply grid3_inv in E.
    destruct E as (i & j & k & Hi & Hj & Hk & -> & ->). exists i, j, k. repeat (split; auto).
    intros s Hs. do 12 (destruct s as [|s]; [cbn [nth eid3 ekey3 ekey2 eid2 Nat.sub]; unfold num_edges2; lia|]). lia. }
  split.
  - intros c c' s s' row row' er er' Hs Hs' R R' E E'.
    apply cell3_inv in R, R'. destruct R as (i & j & k & Hi & Hj & Hk & -> & ->).
    destruct R' as (i' & j' & k' & Hi' & Hj' & Hk' & -> & ->).
    apply EK in E, E'. destruct E as (a & b & d & A & B & C & P & ->); auto.
    destruct E' as (a' & b' & d' & A' & B' & C' & P' & ->); auto.
    apply cell3_inj in P; auto. apply cell3_inj in P'; auto.
    destruct P as (<- & <- & <-). destruct P' as (<- & <- & <-). clear A B C A' B' C'.
    assert (K := key_ok3_cell nx ny nz i j k s Hi Hj Hk Hs). assert (K' := key_ok3_cell nx ny nz i' j' k' s' Hi' Hj' Hk' Hs').
    assert (X : forall i j k s n, s < 12 ->
       (n = fst (edge_ends3 (row3 nx ny i j k) s) \/ n = snd (edge_ends3 (row3 nx ny i j k) s)) <->
       (n = fst (ends3 nx ny (ekey3 i j k s)) \/ n = snd (ends3 nx ny (ekey3 i j k s)))).
    { intros i0 j0 k0 s0 n Hs0. destruct (edge_ends3_key nx ny i0 j0 k0 s0 Hs0) as [->| ->]; cbn [fst snd]; tauto. }
    split.
    + intros EE. apply (eid3_inj nx ny nz) in EE; auto. intros n. rewrite !X by auto. rewrite EE. tauto.
    + intros EE. f_equal. apply (ends3_inj nx ny nz); auto. intros n. rewrite <- !X by auto. apply EE.
  - intros e. split.
    + intros L. apply eid3_surj in L. destruct L as (key & Kk & <-).
      destruct (key3_used nx ny nz key Hx Hy Hz Kk) as (i & j & k & s & Hi & Hj & Hk & Hs & <-).
      destruct (nth_error (cell_to_edge3 nx ny nz) (k * (nx * ny) + (j * nx + i))) as [er|] eqn:E.
      2:{ unfold cell_to_edge3 in E. rewrite grid3_nth in E by auto. discriminate. }
      exists (k * (nx * ny) + (j * nx + i)), er, s. split; auto. split; auto.
      apply EK in E. destruct E as (i' & j' & k' & A & B & C & P & ->); auto.
      apply cell3_inj in P; auto. destruct P as (<- & <- & <-). reflexivity.
    + intros (c & er & s & E & Hs & <-). apply EK in E.
      destruct E as (i & j & k & Hi & Hj & Hk & -> & ->); auto. apply eid3_lt. apply key_ok3_cell; auto.
Qed.
Print Assumptions C35_edges.

Example C35_case : nth_error (cell_to_node3 2 2 2) 7 = Some [13; 14; 17; 16; 22; 23; 26; 25].
Proof. reflexivity. Qed.

(* ------------------------------------------------------------------ *)
(** ** C36: side sets of the brick *)

Definition hex_faces : list (list nat) :=
  [[0;1;5;4]; [1;2;6;5]; [2;3;7;6]; [0;4;7;3]; [0;3;2;1]; [4;5;6;7]].
Definition face_nodes (row : list nat) (s : nat) : list nat := map (fun u => nth u row 0) (nth s hex_faces []).

Theorem C36_brick nx ny nz s : 0 < nx -> 0 < ny -> 0 < nz -> s < 6 ->
  NoDup (nth s (side_sets3 nx ny nz) [])
  /\ (forall c, In c (nth s (side_sets3 nx ny nz) []) <->
       exists row, nth_error (cell_to_node3 nx ny nz) c = Some row
         /\ forall c' row', nth_error (cell_to_node3 nx ny nz) c' = Some row' ->
              (forall n, In n (face_nodes row s) -> In n row') -> c' = c).
Proof.
  intros Hx Hy Hz Hs.
  set (f s := match s with
     | 0 => fun i j : nat => i + nx * ny * j | 1 => fun i j => (i + 1) * nx - 1 + nx * ny * j
     | 2 => fun i j => nx * (ny - 1) + i + nx * ny * j | 3 => fun i j => i * nx + nx * ny * j
     | 4 => fun i j => i + nx * j | _ => fun i j => i + nx * j + nx * ny * (nz - 1) end).
  set (w s := match s with 0 | 2 | 4 | 5 => nx | _ => ny end).
  set (h s := match s with 0 | 1 | 2 | 3 => nz | _ => ny end).
  assert (D : nth s (side_sets3 nx ny nz) [] = grid2 (w s) (h s) (f s)).
  { do 6 (destruct s as [|s]; [reflexivity|]). lia. }
  (* each entry is a cell of the boundary layer *)
  set (ci (s a b : nat) := match s with 1 => nx - 1 | 3 => 0 | _ => a end : nat).
  set (cj (s a b : nat) := match s with 0 => 0 | 2 => ny - 1 | 4 | 5 => b | _ => a end : nat).
  set (ck (s a b : nat) := match s with 4 => 0 | 5 => nz - 1 | _ => b end : nat).
  assert (P : forall a b, a < w s -> b < h s ->
     f s a b = ck s a b * (nx * ny) + (cj s a b * nx + ci s a b)
     /\ ci s a b < nx /\ cj s a b < ny /\ ck s a b < nz).
  { intros a b Ha Hb. do 6 (destruct s as [|s]; [unfold f, w, h, ci, cj, ck in *; (split; [nia|lia])|]). lia. }
  rewrite D. split.
  - apply grid2_nodup. intros a b a' b' Ha Hb Ha' Hb' E.
    destruct (P a b Ha Hb) as (Q & Q1 & Q2 & Q3). destruct (P a' b' Ha' Hb') as (Q' & Q1' & Q2' & Q3').
    rewrite Q, Q' in E. apply cell3_inj in E; auto. clear P D Q Q'.
    do 6 (destruct s as [|s]; [unfold w, h, ci, cj, ck in *; lia|]). lia.
  - intros c.
    assert (L : In c (grid2 (w s) (h s) (f s)) <-> exists i j k, i < nx /\ j < ny /\ k < nz /\
        c = k * (nx * ny) + (j * nx + i) /\
        match s with 0 => j = 0 | 1 => i = nx - 1 | 2 => j = ny - 1 | 3 => i = 0 | 4 => k = 0 | _ => k = nz - 1 end).
    { rewrite grid2_in. split.
      - intros (a & b & Ha & Hb & ->). destruct (P a b Ha Hb) as (Q & Q1 & Q2 & Q3).
        exists (ci s a b), (cj s a b), (ck s a b). repeat (split; auto).
        clear P D Q. do 6 (destruct s as [|s]; [unfold ci, cj, ck; reflexivity|]). lia.
      - intros (i & j & k & Hi & Hj & Hk & -> & K).
        set (a := match s with 0 | 2 | 4 | 5 => i | _ => j end).
        set (b := match s with 0 | 1 | 2 | 3 => k | _ => j end).
        assert (A : a < w s /\ b < h s /\ ci s a b = i /\ cj s a b = j /\ ck s a b = k).
        { clear P D. do 6 (destruct s as [|s]; [unfold w, h, ci, cj, ck, a, b; lia|]). lia. }
        destruct A as (A & B & C1 & C2 & C3). exists a, b. split; auto. split; auto.
        destruct (P a b A B) as (Q & _). rewrite Q, C1, C2, C3. reflexivity. }
    rewrite L. clear L P D w h f ci cj ck. split.
    + intros (i & j & k & Hi & Hj & Hk & -> & K). exists (row3 nx ny i j k). split; [apply cell3_at; auto|].
      intros c' row' E' A. apply cell3_inv in E'. destruct E' as (i' & j' & k' & Hi' & Hj' & Hk' & -> & ->).
      assert (i' = i /\ j' = j /\ k' = k) as (-> & -> & ->); [|reflexivity].
      unfold face_nodes in A.
      destruct s as [|[|[|[|[|[|s]]]]]]; [..|lia];
        cbn [nth hex_faces map row3 In] in A;
        (match type of A with forall n, ?a = n \/ ?b = n \/ ?c = n \/ ?d = n \/ False -> _ =>
           pose proof (A a ltac:(auto)) as A1; pose proof (A b ltac:(auto)) as A2;
           pose proof (A c ltac:(auto)) as A3; pose proof (A d ltac:(auto)) as A4 end); clear A;
        (apply in_row3 in A1; [|lia..]); (apply in_row3 in A2; [|lia..]);
        (apply in_row3 in A3; [|lia..]); (apply in_row3 in A4; [|lia..]); lia.
    + intros (row & E & U). apply cell3_inv in E. destruct E as (i & j & k & Hi & Hj & Hk & -> & ->).
      exists i, j, k. repeat (split; [auto|]).
      assert (N : forall i' j' k', i' < nx -> j' < ny -> k' < nz ->
        (forall n, In n (face_nodes (row3 nx ny i j k) s) -> In n (row3 nx ny i' j' k')) -> i' = i /\ j' = j /\ k' = k).
      { intros i' j' k' Hi' Hj' Hk' A. apply (U _ _ (cell3_at nx ny nz i' j' k' Hi' Hj' Hk')) in A.
        apply cell3_inj in A; auto. }
      clear U. unfold face_nodes in N.
      destruct s as [|[|[|[|[|[|s]]]]]]; [..|lia]; cbn [nth hex_faces map row3 In] in N.
      * destruct (Nat.eq_dec j 0) as [|X]; [auto|exfalso].
        assert (j - 1 = j); [|lia]. apply (N i (j - 1) k); first [lia|intros n [<-|[<-|[<-|[<-|[]]]]]; apply in_row3; lia].
      * destruct (Nat.eq_dec i (nx - 1)) as [|X]; [auto|exfalso].
        assert (i + 1 = i); [|lia]. apply (N (i + 1) j k); first [lia|intros n [<-|[<-|[<-|[<-|[]]]]]; apply in_row3; lia].
      * destruct (Nat.eq_dec j (ny - 1)) as [|X]; [auto|exfalso].
        assert (j + 1 = j); [|lia]. apply (N i (j + 1) k); first [lia|intros n [<-|[<-|[<-|[<-|[]]]]]; apply in_row3; lia].
      * destruct (Nat.eq_dec i 0) as [|X]; [auto|exfalso].
        assert (i - 1 = i); [|lia]. apply (N (i - 1) j k); first [lia|intros n [<-|[<-|[<-|[<-|[]]]]]; apply in_row3; lia].
      * destruct (Nat.eq_dec k 0) as [|X]; [auto|exfalso].
        assert (k - 1 = k); [|lia]. apply (N i j (k - 1)); first [lia|intros n [<-|[<-|[<-|[<-|[]]]]]; apply in_row3; lia].
      * destruct (Nat.eq_dec k (nz - 1)) as [|X]; [auto|exfalso].
        assert (k + 1 = k); [|lia]. apply (N i j (k + 1)); first [lia|intros n [<-|[<-|[<-|[<-|[]]]]]; apply in_row3; lia].
Qed.
Print Assumptions C36_brick.

Example C36_brick_case : side_sets3 2 2 2 =
  [[0;1;4;5]; [1;3;5;7]; [2;3;6;7]; [0;2;4;6]; [0;1;2;3]; [4;5;6;7]].
Proof. reflexivity. Qed.
