(** C259-C267: face bases. *)
From Coq Require Import Bool Arith Reals Lra Lia List.
From Verif Require Import Mass_Model BProj_Model BProj_Proofs Init_Props HFace_Model.
Import ListNotations.
Local Open Scope R_scope.
Local Notation length := List.length.

(** *** Specification *)
(** What Intrepid2's line and triangle bases provide. *)
Definition lagrange_line (n : nat) (f : nat -> R -> R) (x : nat -> R) : Prop :=
  (forall i j, (i < n)%nat -> (j < n)%nat -> f i (x j) = if Nat.eqb i j then 1 else 0) /\
  (forall s, sm (seq 0 n) (fun i => f i s) = 1).
(** The sides of the reference cells (numbered as in the shards topologies), the distance
    to them and the coordinates along them. *)
Definition quad_off (e : nat) (p : hpt) : R :=
  match e with O => p 1%nat + 1 | 1%nat => p 0%nat - 1 | 2%nat => p 1%nat - 1 | _ => p 0%nat + 1 end.
Definition quad_along (e : nat) (p : hpt) : R := match e with O => p 0%nat | 1%nat => p 1%nat | 2%nat => p 0%nat | _ => p 1%nat end.
Definition tri_off (e : nat) (p : hpt) : R :=
  match e with O => p 1%nat | 1%nat => p 0%nat + p 1%nat - 1 | _ => p 0%nat end.
Definition tri_along (e : nat) (p : hpt) : R := match e with O => p 0%nat | 1%nat => p 0%nat | _ => p 1%nat end.
Definition hex_off (e : nat) (p : hpt) : R :=
  match e with O => p 1%nat + 1 | 1%nat => p 0%nat - 1 | 2%nat => p 1%nat - 1 | 3%nat => p 0%nat + 1
  | 4%nat => p 2%nat + 1 | _ => p 2%nat - 1 end.
Definition hex_along (e : nat) (p : hpt) : R * R :=
  match e with O | 2%nat => (p 0%nat, p 2%nat) | 1%nat | 3%nat => (p 1%nat, p 2%nat) | _ => (p 0%nat, p 1%nat) end.
Definition tet_off (e : nat) (p : hpt) : R :=
  match e with O => p 1%nat | 1%nat => p 0%nat + p 1%nat + p 2%nat - 1 | 2%nat => p 0%nat | _ => p 2%nat end.
Definition on (off : nat -> hpt -> R) (e : nat) (p : hpt) : Prop := off e p = 0.
Definition away (off : nat -> hpt -> R) (e : nat) (p : hpt) : Prop := / 10 ^ 12 <= Rabs (off e p).
(** inside the reference triangle *)
Definition in_tri (p : hpt) : Prop := 0 <= p 0%nat /\ 0 <= p 1%nat /\ p 0%nat + p 1%nat <= 1.
(** the function tagged j on side e *)
Definition tagged (tags : list h_tag) (dim e j n idx : nat) : Prop := nth_error tags idx = Some (dim, e, j, n).

(** *** Blocks *)
Definition blocks {A} (n : nat) (fs : list (nat -> A)) : list A := flat_map (fun f => map f (seq 0 n)) fs.
Lemma nth_error_seq_map {A} (f : nat -> A) n j : (j < n)%nat -> nth_error (map f (seq 0 n)) j = Some (f j).
Proof.
  intros J. rewrite (nth_error_nth' _ (f 0%nat)) by (rewrite map_length, seq_length; exact J).
  rewrite map_nth, seq_nth by exact J. reflexivity.
Qed.
Lemma blocks_nth {A} n (fs : list (nat -> A)) : forall b f j, nth_error fs b = Some f -> (j < n)%nat ->
  nth_error (blocks n fs) (b * n + j) = Some (f j).
Proof.
  induction fs as [|g fs IH]; intros [|b] f j H J; try discriminate; cbn [blocks flat_map nth_error] in *.
  - injection H as ->. rewrite nth_error_app1 by (rewrite map_length, seq_length; lia). apply nth_error_seq_map; exact J.
  - rewrite nth_error_app2 by (rewrite map_length, seq_length; lia). rewrite map_length, seq_length.
    replace (S b * n + j - n)%nat with (b * n + j)%nat by lia. apply IH; auto.
Qed.
Lemma blocks_inv {A} n (fs : list (nat -> A)) : forall idx a, nth_error (blocks n fs) idx = Some a ->
  exists b f j, nth_error fs b = Some f /\ (j < n)%nat /\ idx = (b * n + j)%nat /\ a = f j.
Proof.
  induction fs as [|g fs IH]; intros idx a H; cbn [blocks flat_map] in H; [destruct idx; discriminate|].
  destruct (lt_dec idx n) as [L|L].
  - rewrite nth_error_app1 in H by (rewrite map_length, seq_length; lia). rewrite nth_error_seq_map in H by exact L.
    injection H as <-. exists 0%nat, g, idx. cbn. auto.
  - rewrite nth_error_app2 in H by (rewrite map_length, seq_length; lia). rewrite map_length, seq_length in H.
    destruct (IH _ _ H) as [b [f [j [F [J [E V]]]]]]. exists (S b), f, j. cbn [nth_error]. repeat split; auto. lia.
Qed.
Lemma blocks_len {A} n (fs : list (nat -> A)) : length (blocks n fs) = (length fs * n)%nat.
Proof. induction fs as [|g fs IH]; cbn [blocks flat_map length Nat.mul]; auto. rewrite app_length, map_length, seq_length. unfold blocks in IH. rewrite IH. auto. Qed.
Lemma sm_blocks {A} n (fs : list (nat -> A)) g : sm (blocks n fs) g = sm fs (fun f => sm (seq 0 n) (fun j => g (f j))).
Proof.
  induction fs as [|f fs IH]; cbn [blocks flat_map]; auto. rewrite sm_app. unfold blocks in IH. rewrite IH, sm_cons. f_equal. rewrite sm_map. reflexivity.
Qed.
Lemma sm_nth {A} (l : list A) d g : sm (seq 0 (length l)) (fun i => g (nth i l d)) = sm l g.
Proof.
  induction l as [|a l IH]; cbn [length seq]; [reflexivity|]. rewrite !sm_cons. cbn [nth]. f_equal. rewrite <- IH.
  rewrite <- seq_shift, sm_map. apply sm_ext. reflexivity.
Qed.
Lemma grid_map {A} (f : nat -> nat -> A) n : forall k, flat_map (fun j => map (f j) (seq 0 n)) (seq 0 k) =
  map (fun m => f (m / n)%nat (m mod n)) (seq 0 (k * n)).
Proof.
  destruct (Nat.eq_dec n 0) as [->|N].
  - intros k. rewrite Nat.mul_0_r. cbn [seq map]. induction (seq 0 k); auto.
  - induction k as [|k IH]; [reflexivity|]. rewrite seq_S, flat_map_app, IH. cbn [flat_map]. rewrite app_nil_r.
    replace (S k * n)%nat with (k * n + n)%nat by lia. rewrite seq_app, map_app. f_equal. cbn [Nat.add].
    clear IH.
    assert (E : seq (k * n) n = map (fun m => (k * n + m)%nat) (seq 0 n)).
    { generalize (k * n)%nat. clear. intros a. induction n as [|n IH]; auto. rewrite !seq_S, map_app, IH. cbn. reflexivity. }
    rewrite E, map_map. apply map_ext_in. intros m M. apply in_seq in M.
    rewrite (Nat.add_comm (k * n) m). rewrite Nat.div_add, Nat.mod_add by exact N. rewrite Nat.div_small, Nat.mod_small by lia. reflexivity.
Qed.

(** *** The tables as blocks *)
Lemma near0 a : a = 0 -> hnear a = true.
Proof. intros ->. unfold hnear. rewrite Rabs_R0. destruct (Rlt_dec _ _) as [|H]; auto. exfalso. apply H. apply Rinv_0_lt_compat. apply pow_lt. lra. Qed.
Lemma near_far a : / 10 ^ 12 <= Rabs a -> hnear a = false.
Proof. intros H. unfold hnear. destruct (Rlt_dec _ _); auto. exfalso. lra. Qed.
Lemma one_batch serial pts idx k : (k < length pts)%nat ->
  h_values serial 1 pts idx k = nth 0 (nth idx (serial [nth k pts horig]) []) 0.
Proof.
  intros K. unfold h_values. rewrite Nat.mod_1_r, Nat.div_1_r, Nat.mul_1_r. do 3 f_equal.
  revert k K. induction pts as [|p pts IH]; intros k K; cbn [length] in K; [lia|]. destruct k as [|k]; cbn [skipn nth]; [destruct pts; reflexivity|]. apply IH. lia.
Qed.
Definition qval (L : hline) (e : nat) (p : hpt) (j : nat) : R := if hnear (quad_off e p) then hl_fun L j (quad_along e p) else 0.
Definition tval (L : hline) (e : nat) (p : hpt) (j : nat) : R := if hnear (tri_off e p) then hl_fun L j (tri_along e p) else 0.
Definition hval (L : hline) (e : nat) (p : hpt) (m : nat) : R :=
  if hnear (hex_off e p) then
    match e with
    | 1%nat => hl_fun L (m / hl_card L)%nat (fst (hex_along e p)) * hl_fun L (m mod hl_card L) (snd (hex_along e p))
    | _ => hl_fun L (m mod hl_card L) (fst (hex_along e p)) * hl_fun L (m / hl_card L)%nat (snd (hex_along e p))
    end else 0.
Definition face_fun (T : htri) (i : nat) (x y : R) : R := sm (seq 0 (ht_card T)) (fun k => ht_vinv T k i * ht_phi T k x y).
Definition teval (T : htri) (e : nat) (p : hpt) (i : nat) : R := if hnear (tet_off e p) then face_fun T i (p 0%nat) (p 1%nat) else 0.
Lemma tags_blocks dim n sides : h_tags dim n sides = blocks n (map (fun e j => (dim, e, j, n)) sides).
Proof. unfold h_tags, blocks. induction sides as [|e l IH]; cbn; auto. rewrite IH. auto. Qed.
Lemma quad_blocks L p : h_quad_serial L [p] = blocks (hl_card L) (map (fun e j => [qval L e p j]) [3; 0; 1; 2]%nat).
Proof. unfold h_quad_serial, blocks, h_side, qval. cbn [map flat_map hd quad_off quad_along]. rewrite app_nil_r. reflexivity. Qed.
Lemma tri_blocks L p : h_tri_serial L [p] = blocks (hl_card L) (map (fun e j => [tval L e p j]) [2; 0; 1]%nat).
Proof. unfold h_tri_serial, blocks, h_side, tval. cbn [map flat_map hd tri_off tri_along]. rewrite app_nil_r, !Rminus_0_r. reflexivity. Qed.
Lemma tet_blocks T p : h_tet_serial T [p] = blocks (ht_card T) (map (fun e j => [teval T e p j]) [0; 1; 2; 3]%nat).
Proof. unfold h_tet_serial, blocks, h_tface, teval. cbn [map flat_map hd tet_off]. rewrite app_nil_r, !Rminus_0_r. reflexivity. Qed.
Lemma hex_blocks L p : h_hex_serial L [p] = blocks (hl_card L * hl_card L) (map (fun e j => [hval L e p j]) [3; 0; 1; 2; 4; 5]%nat).
Proof.
  unfold h_hex_serial, blocks, h_face, hval. cbn [map flat_map hd hex_off hex_along fst snd]. rewrite app_nil_r.
  rewrite !(grid_map (fun j i => [if hnear _ then _ else 0]) (hl_card L) (hl_card L)). reflexivity.
Qed.
Lemma hex_tags_blocks L : h_hex_tags L = blocks (hl_card L * hl_card L) (map (fun e m => (2, e, m, hl_card L * hl_card L)%nat) [3; 0; 1; 2; 4; 5]%nat).
Proof.
  unfold h_hex_tags, blocks. cbn [map flat_map]. rewrite !(grid_map (fun j i => (2, _, (j * hl_card L + i)%nat, (hl_card L * hl_card L)%nat)%nat) (hl_card L) (hl_card L)).
  assert (E : forall e : nat, map (fun m => (2%nat, e, (m / hl_card L * hl_card L + m mod hl_card L)%nat, (hl_card L * hl_card L)%nat)) (seq 0 (hl_card L * hl_card L))
    = map (fun m => (2%nat, e, m, (hl_card L * hl_card L)%nat)) (seq 0 (hl_card L * hl_card L))).
  { intros e. apply map_ext_in. intros m M. apply in_seq in M. do 2 f_equal. destruct (Nat.eq_dec (hl_card L) 0) as [Z|Z]; [rewrite Z in M; cbn in M; lia|].
    f_equal. rewrite (Nat.div_mod m (hl_card L) Z) at 3. lia. }
  rewrite !E. reflexivity.
Qed.
Lemma tag_inv dim n sides d e j n' idx : tagged (h_tags dim n sides) d e j n' idx ->
  exists b, nth_error sides b = Some e /\ (j < n)%nat /\ idx = (b * n + j)%nat /\ d = dim /\ n' = n.
Proof.
  unfold tagged. rewrite tags_blocks. intros H. apply blocks_inv in H. destruct H as [b [f [j' [F [J [E V]]]]]].
  rewrite nth_error_map in F. destruct (nth_error sides b) as [e'|] eqn:Es; [|discriminate]. injection F as <-. injection V as -> -> -> ->. exists b. auto.
Qed.
Lemma hex_tag_inv L d e m n' idx : tagged (h_hex_tags L) d e m n' idx ->
  exists b, nth_error [3; 0; 1; 2; 4; 5]%nat b = Some e /\ (m < hl_card L * hl_card L)%nat /\ idx = (b * (hl_card L * hl_card L) + m)%nat /\ d = 2%nat /\ n' = (hl_card L * hl_card L)%nat.
Proof.
  unfold tagged. rewrite hex_tags_blocks. intros H. apply blocks_inv in H. destruct H as [b [f [j' [F [J [E V]]]]]].
  rewrite nth_error_map in F. destruct (nth_error _ b) as [e'|] eqn:Es; [|discriminate]. injection F as <-. injection V as -> -> -> ->. exists b. auto.
Qed.
Lemma block_value {A} n (v : nat -> nat -> A) sides b e j d : nth_error sides b = Some e -> (j < n)%nat ->
  nth (b * n + j) (blocks n (map (fun e j => v e j) sides)) d = v e j.
Proof. intros B J. apply nth_error_nth. rewrite (blocks_nth n _ b (fun j => v e j) j); auto. rewrite nth_error_map, B. reflexivity. Qed.
Lemma quad_value L pts k e j idx d n' : (k < length pts)%nat -> tagged (h_quad_tags L) d e j n' idx ->
  h_values (h_quad_serial L) 1 pts idx k = qval L e (nth k pts horig) j.
Proof. intros K H. destruct (tag_inv _ _ _ _ _ _ _ _ H) as [b [B [J [-> _]]]]. rewrite one_batch, quad_blocks by exact K. rewrite (block_value _ (fun e j => [qval L e (nth k pts horig) j]) _ b e); auto. Qed.
Lemma tri_value L pts k e j idx d n' : (k < length pts)%nat -> tagged (h_tri_tags L) d e j n' idx ->
  h_values (h_tri_serial L) 1 pts idx k = tval L e (nth k pts horig) j.
Proof. intros K H. destruct (tag_inv _ _ _ _ _ _ _ _ H) as [b [B [J [-> _]]]]. rewrite one_batch, tri_blocks by exact K. rewrite (block_value _ (fun e j => [tval L e (nth k pts horig) j]) _ b e); auto. Qed.
Lemma tet_value T pts k e j idx d n' : (k < length pts)%nat -> tagged (h_tet_tags T) d e j n' idx ->
  h_values (h_tet_serial T) 1 pts idx k = teval T e (nth k pts horig) j.
Proof. intros K H. destruct (tag_inv _ _ _ _ _ _ _ _ H) as [b [B [J [-> _]]]]. rewrite one_batch, tet_blocks by exact K. rewrite (block_value _ (fun e j => [teval T e (nth k pts horig) j]) _ b e); auto. Qed.
Lemma hex_value L pts k e j idx d n' : (k < length pts)%nat -> tagged (h_hex_tags L) d e j n' idx ->
  h_values (h_hex_serial L) 1 pts idx k = hval L e (nth k pts horig) j.
Proof. intros K H. destruct (hex_tag_inv _ _ _ _ _ _ H) as [b [B [J [-> _]]]]. rewrite one_batch, hex_blocks by exact K. rewrite (block_value _ (fun e j => [hval L e (nth k pts horig) j]) _ b e); auto. Qed.
Lemma sum_blocks serial pts k n (v : nat -> nat -> R) sides : (k < length pts)%nat ->
  serial [nth k pts horig] = blocks n (map (fun e j => [v e j]) sides) ->
  sm (seq 0 (length sides * n)) (fun idx => h_values serial 1 pts idx k) = sm sides (fun e => sm (seq 0 n) (v e)).
Proof.
  intros K E. erewrite sm_ext by (intros; rewrite one_batch by exact K; rewrite E; reflexivity).
  assert (LL : (length sides * n)%nat = length (blocks n (map (fun e j => [v e j]) sides))) by (rewrite blocks_len, map_length; reflexivity).
  rewrite LL, (sm_nth _ [] (fun r => nth 0 r 0)), sm_blocks, sm_map. reflexivity.
Qed.
Lemma exists_tag dim n sides e j : In e sides -> (j < n)%nat -> exists idx, tagged (h_tags dim n sides) dim e j n idx.
Proof.
  intros I J. apply In_nth_error in I. destruct I as [b B]. exists (b * n + j)%nat. unfold tagged. rewrite tags_blocks.
  rewrite (blocks_nth n _ b (fun j => (dim, e, j, n)) j); auto. rewrite nth_error_map, B. reflexivity.
Qed.
Lemma nth_error_NoDup {A} (l : list A) : NoDup l -> forall i j a, nth_error l i = Some a -> nth_error l j = Some a -> i = j.
Proof. intros N i j a Hi Hj. rewrite NoDup_nth_error in N. apply N; [apply nth_error_Some; congruence|congruence]. Qed.
Lemma unique_tag dim n sides d e j n' idx idx' : NoDup sides -> tagged (h_tags dim n sides) d e j n' idx -> tagged (h_tags dim n sides) d e j n' idx' -> idx = idx'.
Proof.
  intros N H H'. destruct (tag_inv _ _ _ _ _ _ _ _ H) as [b [B [J [-> _]]]]. destruct (tag_inv _ _ _ _ _ _ _ _ H') as [b' [B' [_ [-> _]]]].
  rewrite (nth_error_NoDup _ N _ _ _ B B'). reflexivity.
Qed.

(** *** C259: quadrilaterals *)
(** the function tagged j on side e is line function j along the side and zero away from it *)
Theorem C259_trace L pts k e j idx d n' : (k < length pts)%nat -> tagged (h_quad_tags L) d e j n' idx ->
  (on quad_off e (nth k pts horig) -> h_values (h_quad_serial L) 1 pts idx k = hl_fun L j (quad_along e (nth k pts horig))) /\
  (away quad_off e (nth k pts horig) -> h_values (h_quad_serial L) 1 pts idx k = 0).
Proof.
  intros K H. rewrite (quad_value _ _ _ _ _ _ _ _ K H). unfold qval, on, away. split; intros O; [rewrite near0 by exact O|rewrite near_far by exact O]; reflexivity.
Qed.
(** every side has its own n functions, one for each index *)
Theorem C259_tags L e j : (e < 4)%nat -> (j < hl_card L)%nat -> exists idx, tagged (h_quad_tags L) 1 e j (hl_card L) idx /\
  forall idx', tagged (h_quad_tags L) 1 e j (hl_card L) idx' -> idx' = idx.
Proof.
  intros E J. destruct (exists_tag 1 (hl_card L) [3; 0; 1; 2]%nat e j) as [idx H]; [cbn; lia|exact J|]. exists idx. split; auto.
  intros idx' H'. refine (unique_tag _ _ _ _ _ _ _ _ _ _ H' H). repeat constructor; cbn; lia.
Qed.
(** its nodes lie on its side, and it is one at its own node and zero at the others of the side *)
Theorem C259_nodal L e j j' idx idx' d n' d' n'' : lagrange_line (hl_card L) (hl_fun L) (hl_node L) ->
  tagged (h_quad_tags L) d e j n' idx -> tagged (h_quad_tags L) d' e j' n'' idx' ->
  on quad_off e (nth idx' (h_quad_coords L) horig) /\
  h_values (h_quad_serial L) 1 (h_quad_coords L) idx idx' = if Nat.eqb j j' then 1 else 0.
Proof.
  intros [D _] H H'. destruct (tag_inv _ _ _ _ _ _ _ _ H) as [_ [_ [J _]]]. destruct (tag_inv _ _ _ _ _ _ _ _ H') as [b [B [J' [E' _]]]].
  set (c := fun e j => match e with O => hpt2 (hl_node L j) (-1) | 1%nat => hpt2 1 (hl_node L j) | 2%nat => hpt2 (hl_node L j) 1 | _ => hpt2 (-1) (hl_node L j) end : hpt).
  assert (C : h_quad_coords L = blocks (hl_card L) (map (fun e j => c e j) [3; 0; 1; 2]%nat)) by (unfold h_quad_coords, blocks, c; cbn [map flat_map]; rewrite app_nil_r; reflexivity).
  assert (K : (idx' < length (h_quad_coords L))%nat).
  { rewrite C, blocks_len, map_length. assert (nth_error [3; 0; 1; 2]%nat b <> None) by congruence. apply nth_error_Some in H0. cbn [length] in *. rewrite E'. nia. }
  assert (N : nth idx' (h_quad_coords L) horig = c e j').
  { rewrite C, E'. exact (block_value (hl_card L) c [3; 0; 1; 2]%nat b e j' horig B J'). }
  assert (O : on quad_off e (nth idx' (h_quad_coords L) horig)).
  { rewrite N. unfold on, c, quad_off. destruct e as [|[|[|e]]]; cbn; lra. }
  split; [exact O|]. rewrite (proj1 (C259_trace L _ _ _ _ _ _ _ K H) O), N, <- (D j j' J J').
  f_equal. unfold c, quad_along. destruct e as [|[|[|e]]]; reflexivity.
Qed.
(** on each side, away from the others, the functions add up to one *)
Theorem C259_unity L pts k e : lagrange_line (hl_card L) (hl_fun L) (hl_node L) -> (k < length pts)%nat -> (e < 4)%nat ->
  on quad_off e (nth k pts horig) -> (forall e', (e' < 4)%nat -> e' <> e -> away quad_off e' (nth k pts horig)) ->
  sm (seq 0 (4 * hl_card L)) (fun idx => h_values (h_quad_serial L) 1 pts idx k) = 1.
Proof.
  intros [_ U] K E O F. set (p := nth k pts horig) in *.
  change 4%nat with (length [3; 0; 1; 2]%nat). rewrite (sum_blocks _ pts k (hl_card L) (fun e j => qval L e p j)) by (try exact K; apply quad_blocks).
  assert (V : forall e', (e' < 4)%nat -> sm (seq 0 (hl_card L)) (qval L e' p) = if Nat.eqb e' e then 1 else 0).
  { intros e' E'. destruct (Nat.eqb_spec e' e) as [->|Ne].
    - rewrite <- (U (quad_along e p)). apply sm_ext. intros. unfold qval. rewrite near0 by exact O. reflexivity.
    - apply sm_zero. intros. unfold qval. rewrite near_far by (apply F; auto). reflexivity. }
  rewrite !sm_cons, sm_nil, !V by lia. destruct e as [|[|[|[|e]]]]; cbn [Nat.eqb]; try lra. lia.
Qed.
(** the linear line basis of Intrepid2 (order 1, nodes -1 and 1) and the constant one *)
Definition lin1 : hline := {| hl_card := 2; hl_fun := fun j s => match j with O => (1 - s) / 2 | _ => (1 + s) / 2 end;
  hl_node := fun j => match j with O => -1 | _ => 1 end |}.
Definition lin0 : hline := {| hl_card := 1; hl_fun := fun _ _ => 1; hl_node := fun _ => 0 |}.
Lemma lin1_ok : lagrange_line (hl_card lin1) (hl_fun lin1) (hl_node lin1).
Proof.
  split.
  - intros [|[|i]] [|[|j]] I J; cbn in *; try lia; lra.
  - intros s. cbn [hl_card lin1 seq]. rewrite !sm_cons, sm_nil. cbn. lra.
Qed.
Lemma lin0_ok : lagrange_line (hl_card lin0) (hl_fun lin0) (hl_node lin0).
Proof. split; [intros [|i] [|j] I J; cbn in *; try lia; lra|]. intros s. cbn [hl_card lin0 seq]. rewrite sm_cons, sm_nil. cbn. lra. Qed.
Lemma far1 a : 1 <= Rabs a -> / 10 ^ 12 <= Rabs a.
Proof. intros. apply Rle_trans with (/ 1); [apply Rinv_le_contravar; [lra|]; apply Rle_trans with (1 ^ 12); [rewrite pow1; lra|apply pow_incr; lra]|lra]. Qed.
Lemma abs_ge a b : b <= a \/ b <= - a -> b <= Rabs a.
Proof. intros [H|H]; [eapply Rle_trans; [exact H|apply Rle_abs]|rewrite <- Rabs_Ropp; eapply Rle_trans; [exact H|apply Rle_abs]]. Qed.
Example C259_case : let pts := [hpt2 1 0; hpt2 0 (-1)] in
  tagged (h_quad_tags lin1) 1 1 0 2 4 /\ on quad_off 1 (nth 0 pts horig) /\
  (forall e', (e' < 4)%nat -> e' <> 1%nat -> away quad_off e' (nth 0 pts horig)) /\
  h_values (h_quad_serial lin1) 1 pts 4 0 = 1 / 2 /\ h_values (h_quad_serial lin1) 1 pts 4 1 = 0 /\
  sm (seq 0 8) (fun idx => h_values (h_quad_serial lin1) 1 pts idx 0) = 1.
Proof.
  intros pts. assert (T : tagged (h_quad_tags lin1) 1 1 0 2 4) by reflexivity.
  assert (O : on quad_off 1 (nth 0 pts horig)) by (unfold on; cbn; lra).
  assert (F : forall e', (e' < 4)%nat -> e' <> 1%nat -> away quad_off e' (nth 0 pts horig)).
  { intros [|[|[|[|e']]]] L N; try lia; unfold away; apply far1, abs_ge; cbn; lra. }
  split; [exact T|split; [exact O|split; [exact F|]]]. split; [|split].
  - rewrite (proj1 (C259_trace lin1 pts 0 1 0 4 1 2 ltac:(cbn; lia) T) O). cbn. lra.
  - apply (proj2 (C259_trace lin1 pts 1 1 0 4 1 2 ltac:(cbn; lia) T)). unfold away. apply far1, abs_ge. cbn. lra.
  - apply (C259_unity lin1 pts 0 1); auto; [exact lin1_ok|cbn; lia].
Qed.

(** *** C260: two elements sharing a side (quadrilaterals, triangles) *)
(** Both elements number the functions of the shared side alike (requireOrientation is false), so
    the j-th function of the side must be the same function of the points of the side. *)
Definition agree (sA sB : list hpt -> list (list R)) (tA tB : list h_tag) (dim eA eB n : nat) (gA gB : R -> hpt) (s : R) : Prop :=
  forall j iA iB, (j < n)%nat -> tagged tA dim eA j n iA -> tagged tB dim eB j n iB -> h_values sA 1 [gA s] iA 0 = h_values sB 1 [gB s] iB 0.
Theorem C260_quad_partial L eA eB gA gB s : on quad_off eA (gA s) -> on quad_off eB (gB s) -> quad_along eA (gA s) = quad_along eB (gB s) ->
  agree (h_quad_serial L) (h_quad_serial L) (h_quad_tags L) (h_quad_tags L) 1 eA eB (hl_card L) gA gB s.
Proof.
  intros OA OB S j iA iB J TA TB. rewrite (proj1 (C259_trace L [gA s] 0 eA j iA _ _ ltac:(cbn; lia) TA) OA), (proj1 (C259_trace L [gB s] 0 eB j iB _ _ ltac:(cbn; lia) TB) OB).
  cbn [nth]. rewrite S. reflexivity.
Qed.
(** the second element turned by half a turn: the right sides of both coincide, run through in opposite directions *)
Theorem C260_quad_refuted : exists L gA gB s, lagrange_line (hl_card L) (hl_fun L) (hl_node L) /\ -1 <= s <= 1 /\
  on quad_off 1 (gA s) /\ on quad_off 1 (gB s) /\ quad_along 1 (gB s) = - quad_along 1 (gA s) /\
  ~ agree (h_quad_serial L) (h_quad_serial L) (h_quad_tags L) (h_quad_tags L) 1 1 1 (hl_card L) gA gB s.
Proof.
  exists lin1, (fun s => hpt2 1 s), (fun s => hpt2 1 (- s)), 1. split; [exact lin1_ok|]. split; [lra|].
  assert (OA : on quad_off 1 (hpt2 1 1)) by (unfold on; cbn; lra). assert (OB : on quad_off 1 (hpt2 1 (-(1)))) by (unfold on; cbn; lra).
  split; [exact OA|split; [exact OB|split; [cbn; lra|]]]. intros A.
  assert (T : tagged (h_quad_tags lin1) 1 1 0 2 4) by reflexivity.
  specialize (A 0%nat 4%nat 4%nat ltac:(cbn; lia) T T). cbv beta in A.
  rewrite (proj1 (C259_trace lin1 [hpt2 1 1] 0 1 0 4 1 2 ltac:(cbn; lia) T) OA), (proj1 (C259_trace lin1 [hpt2 1 (-(1))] 0 1 0 4 1 2 ltac:(cbn; lia) T) OB) in A.
  cbn in A. lra.
Qed.

(** *** C264: triangles *)
Theorem C264_trace L pts k e j idx d n' : (k < length pts)%nat -> tagged (h_tri_tags L) d e j n' idx ->
  (on tri_off e (nth k pts horig) -> h_values (h_tri_serial L) 1 pts idx k = hl_fun L j (tri_along e (nth k pts horig))) /\
  (away tri_off e (nth k pts horig) -> h_values (h_tri_serial L) 1 pts idx k = 0).
Proof.
  intros K H. rewrite (tri_value _ _ _ _ _ _ _ _ K H). unfold tval, on, away. split; intros O; [rewrite near0 by exact O|rewrite near_far by exact O]; reflexivity.
Qed.
Theorem C264_tags L e j : (e < 3)%nat -> (j < hl_card L)%nat -> exists idx, tagged (h_tri_tags L) 1 e j (hl_card L) idx /\
  forall idx', tagged (h_tri_tags L) 1 e j (hl_card L) idx' -> idx' = idx.
Proof.
  intros E J. destruct (exists_tag 1 (hl_card L) [2; 0; 1]%nat e j) as [idx H]; [cbn; lia|exact J|]. exists idx. split; auto.
  intros idx' H'. refine (unique_tag _ _ _ _ _ _ _ _ _ _ H' H). repeat constructor; cbn; lia.
Qed.
Theorem C264_unity L pts k e : lagrange_line (hl_card L) (hl_fun L) (hl_node L) -> (k < length pts)%nat -> (e < 3)%nat ->
  on tri_off e (nth k pts horig) -> (forall e', (e' < 3)%nat -> e' <> e -> away tri_off e' (nth k pts horig)) ->
  sm (seq 0 (3 * hl_card L)) (fun idx => h_values (h_tri_serial L) 1 pts idx k) = 1.
Proof.
  intros [_ U] K E O F. set (p := nth k pts horig) in *.
  change 3%nat with (length [2; 0; 1]%nat). rewrite (sum_blocks _ pts k (hl_card L) (fun e j => tval L e p j)) by (try exact K; apply tri_blocks).
  assert (V : forall e', (e' < 3)%nat -> sm (seq 0 (hl_card L)) (tval L e' p) = if Nat.eqb e' e then 1 else 0).
  { intros e' E'. destruct (Nat.eqb_spec e' e) as [->|Ne].
    - rewrite <- (U (tri_along e p)). apply sm_ext. intros. unfold tval. rewrite near0 by exact O. reflexivity.
    - apply sm_zero. intros. unfold tval. rewrite near_far by (apply F; auto). reflexivity. }
  rewrite !sm_cons, sm_nil, !V by lia. destruct e as [|[|[|e]]]; cbn [Nat.eqb]; try lra. lia.
Qed.
Lemma far_third a : 1 / 3 <= Rabs a -> / 10 ^ 12 <= Rabs a.
Proof. intros. apply Rle_trans with (/ 3); [|lra]. apply Rinv_le_contravar; [lra|]. apply Rle_trans with (3 ^ 12); [|apply pow_incr; lra]. cbn. lra. Qed.
Example C264_case : let pts := [hpt2 (1/3) (2/3)] in
  tagged (h_tri_tags lin1) 1 1 1 2 5 /\ on tri_off 1 (nth 0 pts horig) /\ (forall e', (e' < 3)%nat -> e' <> 1%nat -> away tri_off e' (nth 0 pts horig)) /\
  h_values (h_tri_serial lin1) 1 pts 5 0 = 2 / 3 /\ sm (seq 0 6) (fun idx => h_values (h_tri_serial lin1) 1 pts idx 0) = 1.
Proof.
  intros pts. assert (T : tagged (h_tri_tags lin1) 1 1 1 2 5) by reflexivity. assert (O : on tri_off 1 (nth 0 pts horig)) by (unfold on; cbn; lra).
  assert (F : forall e', (e' < 3)%nat -> e' <> 1%nat -> away tri_off e' (nth 0 pts horig)).
  { intros [|[|[|e']]] L N; try lia; unfold away; apply far_third, abs_ge; cbn; lra. }
  split; [exact T|split; [exact O|split; [exact F|split]]].
  - rewrite (proj1 (C264_trace lin1 pts 0 1 1 5 1 2 ltac:(cbn; lia) T) O). cbn. lra.
  - apply (C264_unity lin1 pts 0 1 lin1_ok); auto.
Qed.
Theorem C260_tri_partial L eA eB gA gB s : on tri_off eA (gA s) -> on tri_off eB (gB s) -> tri_along eA (gA s) = tri_along eB (gB s) ->
  agree (h_tri_serial L) (h_tri_serial L) (h_tri_tags L) (h_tri_tags L) 1 eA eB (hl_card L) gA gB s.
Proof.
  intros OA OB S j iA iB J TA TB. rewrite (proj1 (C264_trace L [gA s] 0 eA j iA _ _ ltac:(cbn; lia) TA) OA), (proj1 (C264_trace L [gB s] 0 eB j iB _ _ ltac:(cbn; lia) TB) OB).
  cbn [nth]. rewrite S. reflexivity.
Qed.
(** A square cut along its diagonal: the slanted sides of both triangles coincide, with x for one being 1-x for
    the other.  The functions of one are not those of the other in any order. *)
Theorem C260_tri_refuted : exists L, lagrange_line (hl_card L) (hl_fun L) (hl_node L) /\
  forall j j' iA iB, (j < hl_card L)%nat -> (j' < hl_card L)%nat -> tagged (h_tri_tags L) 1 1 j (hl_card L) iA -> tagged (h_tri_tags L) 1 1 j' (hl_card L) iB ->
  exists s, 0 <= s <= 1 /\ on tri_off 1 (hpt2 s (1 - s)) /\ on tri_off 1 (hpt2 (1 - s) s) /\
    h_values (h_tri_serial L) 1 [hpt2 s (1 - s)] iA 0 <> h_values (h_tri_serial L) 1 [hpt2 (1 - s) s] iB 0.
Proof.
  exists lin1. split; [exact lin1_ok|]. intros j j' iA iB J J' TA TB.
  assert (E : forall s, h_values (h_tri_serial lin1) 1 [hpt2 s (1 - s)] iA 0 = hl_fun lin1 j s /\ h_values (h_tri_serial lin1) 1 [hpt2 (1 - s) s] iB 0 = hl_fun lin1 j' (1 - s)).
  { intros s. split.
    - rewrite (proj1 (C264_trace lin1 [hpt2 s (1 - s)] 0 1 j iA _ _ ltac:(cbn; lia) TA)); [reflexivity|unfold on; cbn; lra].
    - rewrite (proj1 (C264_trace lin1 [hpt2 (1 - s) s] 0 1 j' iB _ _ ltac:(cbn; lia) TB)); [reflexivity|unfold on; cbn; lra]. }
  exists 0. destruct (E 0) as [E1 E2]. rewrite E1, E2. split; [lra|]. split; [unfold on; cbn; lra|split; [unfold on; cbn; lra|]].
  cbn in J, J'. destruct j as [|[|j]]; [| |lia]; (destruct j' as [|[|j']]; [| |lia]); cbn; lra.
Qed.

(** *** C265: the nodes of the triangle's functions *)
Lemma tri_coords L b e j : nth_error [2; 0; 1]%nat b = Some e -> (j < hl_card L)%nat ->
  nth (b * hl_card L + j) (h_tri_coords L) horig = match e with O => hpt2 (hl_node L j) 0 | 1%nat => hpt2 (hl_node L j) (1 - hl_node L j) | _ => hpt2 0 (hl_node L j) end.
Proof.
  intros B J. set (c := fun e j => match e with O => hpt2 (hl_node L j) 0 | 1%nat => hpt2 (hl_node L j) (1 - hl_node L j) | _ => hpt2 0 (hl_node L j) end : hpt).
  assert (C : h_tri_coords L = blocks (hl_card L) (map (fun e j => c e j) [2; 0; 1]%nat)) by (unfold h_tri_coords, blocks, c; cbn [map flat_map]; rewrite app_nil_r; reflexivity).
  rewrite C. exact (block_value (hl_card L) c [2; 0; 1]%nat b e j horig B J).
Qed.
(** they are nodes of the functions, and in the triangle as far as the nodes of the line are not negative *)
Theorem C265_nodes_partial L e j j' idx idx' d n' d' n'' : lagrange_line (hl_card L) (hl_fun L) (hl_node L) ->
  tagged (h_tri_tags L) d e j n' idx -> tagged (h_tri_tags L) d' e j' n'' idx' ->
  h_values (h_tri_serial L) 1 (h_tri_coords L) idx idx' = (if Nat.eqb j j' then 1 else 0) /\
  (0 <= hl_node L j' <= 1 -> in_tri (nth idx' (h_tri_coords L) horig)).
Proof.
  intros [D _] H H'. destruct (tag_inv _ _ _ _ _ _ _ _ H) as [_ [_ [J _]]]. destruct (tag_inv _ _ _ _ _ _ _ _ H') as [b [B [J' [E' _]]]].
  pose proof (tri_coords L b e j' B J') as N. rewrite <- E' in N.
  assert (K : (idx' < length (h_tri_coords L))%nat).
  { unfold h_tri_coords. rewrite !app_length, !map_length, seq_length. assert (H0 : nth_error [2; 0; 1]%nat b <> None) by congruence. apply nth_error_Some in H0. cbn [length] in *. rewrite E'. nia. }
  assert (O : on tri_off e (nth idx' (h_tri_coords L) horig)) by (rewrite N; unfold on, tri_off; destruct e as [|[|e]]; cbn; lra).
  split.
  - rewrite (proj1 (C264_trace L _ _ _ _ _ _ _ K H) O), N, <- (D j j' J J'). f_equal. destruct e as [|[|e]]; reflexivity.
  - rewrite N. intros R. unfold in_tri. destruct e as [|[|e]]; cbn; lra.
Qed.
(** the first node of every side lies outside the triangle *)
Theorem C265_nodes_refuted L : (0 < hl_card L)%nat -> hl_node L 0 = -1 -> forall e, (e < 3)%nat ->
  exists idx, tagged (h_tri_tags L) 1 e 0 (hl_card L) idx /\ ~ in_tri (nth idx (h_tri_coords L) horig).
Proof.
  intros C N e E. destruct (C264_tags L e 0 E C) as [idx [T _]]. exists idx. split; auto.
  destruct (tag_inv _ _ _ _ _ _ _ _ T) as [b [B [J [-> _]]]]. rewrite (tri_coords L b e 0 B J), N. unfold in_tri. destruct e as [|[|e]]; cbn; lra.
Qed.
Example C265_case : (0 < hl_card lin1)%nat /\ hl_node lin1 0 = -1.
Proof. split; [cbn; lia|reflexivity]. Qed.

(** *** C261: hexahedra *)
Lemma sm_grid n (g : nat -> nat -> R) : forall k, sm (seq 0 (k * n)) (fun m => g (m / n)%nat (m mod n)) = sm (seq 0 k) (fun j => sm (seq 0 n) (g j)).
Proof.
  intros k. pose proof (f_equal (fun l => sm l (fun x : R => x)) (grid_map g n k)) as E. cbv beta in E.
  rewrite sm_map, sm_flat in E. rewrite <- E. apply sm_ext. intros. rewrite sm_map. reflexivity.
Qed.
(** the number, on face e, of the product of function i of the first and function j of the second coordinate *)
Definition product_index (n e i j : nat) : nat := if Nat.eqb e 1 then (i * n + j)%nat else (j * n + i)%nat.
Lemma split_index n i j : (i < n)%nat -> ((j * n + i) / n = j /\ (j * n + i) mod n = i)%nat.
Proof.
  intros I. assert (N : n <> 0%nat) by lia. rewrite (Nat.add_comm (j * n) i), Nat.div_add, Nat.mod_add, Nat.div_small, Nat.mod_small by lia. auto.
Qed.
Theorem C261_trace L pts k e i j idx d n' : (k < length pts)%nat -> (i < hl_card L)%nat -> (j < hl_card L)%nat ->
  tagged (h_hex_tags L) d e (product_index (hl_card L) e i j) n' idx ->
  (on hex_off e (nth k pts horig) -> h_values (h_hex_serial L) 1 pts idx k =
     hl_fun L i (fst (hex_along e (nth k pts horig))) * hl_fun L j (snd (hex_along e (nth k pts horig)))) /\
  (away hex_off e (nth k pts horig) -> h_values (h_hex_serial L) 1 pts idx k = 0).
Proof.
  intros K I J H. rewrite (hex_value _ _ _ _ _ _ _ _ K H). unfold hval, on, away, product_index. split; intros O; [rewrite near0 by exact O|rewrite near_far by exact O; reflexivity].
  destruct (split_index (hl_card L) i j I) as [E1 E2]. destruct (split_index (hl_card L) j i J) as [E3 E4].
  destruct e as [|[|e]]; cbn [Nat.eqb]; rewrite ?E1, ?E2, ?E3, ?E4; reflexivity.
Qed.
(** every face has its n x n products, each once *)
Theorem C261_tags L e i j : (e < 6)%nat -> (i < hl_card L)%nat -> (j < hl_card L)%nat -> exists idx,
  tagged (h_hex_tags L) 2 e (product_index (hl_card L) e i j) (hl_card L * hl_card L) idx /\
  forall idx', tagged (h_hex_tags L) 2 e (product_index (hl_card L) e i j) (hl_card L * hl_card L) idx' -> idx' = idx.
Proof.
  intros E I J. set (n := hl_card L) in *. assert (M : (product_index n e i j < n * n)%nat) by (unfold product_index; destruct (Nat.eqb e 1); nia).
  assert (In e [3; 0; 1; 2; 4; 5]%nat) as B by (cbn; lia). apply In_nth_error in B. destruct B as [b B].
  assert (ND : NoDup [3; 0; 1; 2; 4; 5]%nat) by (repeat constructor; cbn; lia).
  exists (b * (n * n) + product_index n e i j)%nat. split.
  - unfold tagged. rewrite hex_tags_blocks. fold n. rewrite (blocks_nth (n * n) _ b (fun m => (2, e, m, n * n)%nat)); auto. rewrite nth_error_map, B. reflexivity.
  - intros idx' H. destruct (hex_tag_inv _ _ _ _ _ _ H) as [b' [B' [_ [-> _]]]]. rewrite (nth_error_NoDup _ ND _ _ _ B' B). reflexivity.
Qed.
Theorem C261_unity L pts k e : lagrange_line (hl_card L) (hl_fun L) (hl_node L) -> (k < length pts)%nat -> (e < 6)%nat ->
  on hex_off e (nth k pts horig) -> (forall e', (e' < 6)%nat -> e' <> e -> away hex_off e' (nth k pts horig)) ->
  sm (seq 0 (6 * (hl_card L * hl_card L))) (fun idx => h_values (h_hex_serial L) 1 pts idx k) = 1.
Proof.
  intros [_ U] K E O F. set (p := nth k pts horig) in *. set (n := hl_card L) in *.
  change 6%nat with (length [3; 0; 1; 2; 4; 5]%nat). rewrite (sum_blocks _ pts k (n * n) (fun e j => hval L e p j)) by (try exact K; apply hex_blocks).
  assert (V : forall e', (e' < 6)%nat -> sm (seq 0 (n * n)) (hval L e' p) = if Nat.eqb e' e then 1 else 0).
  { intros e' E'. destruct (Nat.eqb_spec e' e) as [->|Ne].
    - set (g := fun j i => match e with 1%nat => hl_fun L j (fst (hex_along e p)) * hl_fun L i (snd (hex_along e p)) | _ => hl_fun L i (fst (hex_along e p)) * hl_fun L j (snd (hex_along e p)) end).
      transitivity (sm (seq 0 (n * n)) (fun m => g (m / n)%nat (m mod n))).
      { apply sm_ext. intros. unfold hval. rewrite near0 by exact O. reflexivity. }
      rewrite (sm_grid n g). unfold g. destruct (Nat.eq_dec e 1) as [->|N1].
      + erewrite sm_ext by (intros; rewrite sm_scal, U, Rmult_1_r; reflexivity). apply U.
      + erewrite sm_ext; [apply (U (snd (hex_along e p)))|]. intros j _. transitivity (sm (seq 0 n) (fun i => hl_fun L j (snd (hex_along e p)) * hl_fun L i (fst (hex_along e p)))).
        { apply sm_ext. intros. destruct e as [|[|e]]; [|congruence|]; apply Rmult_comm. }
        rewrite sm_scal. unfold n. rewrite U. ring.
    - apply sm_zero. intros. unfold hval. rewrite near_far by (apply F; auto). reflexivity. }
  rewrite !sm_cons, sm_nil, !V by lia. destruct e as [|[|[|[|[|[|e]]]]]]; cbn [Nat.eqb]; try lra. lia.
Qed.
Example C261_case : let pts := [hpt3 0 (1/3) (-1)] in
  tagged (h_hex_tags lin1) 2 4 (product_index 2 4 1 0) 4 17 /\ on hex_off 4 (nth 0 pts horig) /\
  (forall e', (e' < 6)%nat -> e' <> 4%nat -> away hex_off e' (nth 0 pts horig)) /\
  h_values (h_hex_serial lin1) 1 pts 17 0 = 1 / 6 /\ sm (seq 0 24) (fun idx => h_values (h_hex_serial lin1) 1 pts idx 0) = 1.
Proof.
  intros pts. assert (T : tagged (h_hex_tags lin1) 2 4 (product_index 2 4 1 0) 4 17) by reflexivity.
  assert (O : on hex_off 4 (nth 0 pts horig)) by (unfold on; cbn; lra).
  assert (F : forall e', (e' < 6)%nat -> e' <> 4%nat -> away hex_off e' (nth 0 pts horig)).
  { intros [|[|[|[|[|[|e']]]]]] L N; try lia; unfold away; apply far_third, abs_ge; cbn; lra. }
  split; [exact T|split; [exact O|split; [exact F|split]]].
  - rewrite (proj1 (C261_trace lin1 pts 0 4 1 0 17 2 4 ltac:(cbn; lia) ltac:(cbn; lia) ltac:(cbn; lia) T) O). cbn. lra.
  - apply (C261_unity lin1 pts 0 4 lin1_ok); auto; lia.
Qed.

(** *** C262: two hexahedra sharing a face *)
Theorem C262_faces_partial L eA eB gA gB s : (eA = 1 <-> eB = 1)%nat -> on hex_off eA (gA s) -> on hex_off eB (gB s) ->
  hex_along eA (gA s) = hex_along eB (gB s) ->
  agree (h_hex_serial L) (h_hex_serial L) (h_hex_tags L) (h_hex_tags L) 2 eA eB (hl_card L * hl_card L) gA gB s.
Proof.
  intros E OA OB S m iA iB J TA TB. rewrite (hex_value L [gA s] 0 _ _ _ _ _ ltac:(cbn; lia) TA), (hex_value L [gB s] 0 _ _ _ _ _ ltac:(cbn; lia) TB).
  cbn [nth]. unfold hval. rewrite !near0 by assumption. rewrite S. destruct eA as [|[|eA]], eB as [|[|eB]]; try reflexivity; exfalso; lia.
Qed.
(** neighbours in the first direction: the right face of one is the left face of the other *)
Theorem C262_faces_refuted : exists L gA gB s, lagrange_line (hl_card L) (hl_fun L) (hl_node L) /\ on hex_off 1 (gA s) /\ on hex_off 3 (gB s) /\
  hex_along 1 (gA s) = hex_along 3 (gB s) /\
  ~ agree (h_hex_serial L) (h_hex_serial L) (h_hex_tags L) (h_hex_tags L) 2 1 3 (hl_card L * hl_card L) gA gB s.
Proof.
  exists lin1, (fun s => hpt3 1 s (- s)), (fun s => hpt3 (-1) s (- s)), 1. split; [exact lin1_ok|].
  assert (OA : on hex_off 1 (hpt3 1 1 (-(1)))) by (unfold on; cbn; lra). assert (OB : on hex_off 3 (hpt3 (-1) 1 (-(1)))) by (unfold on; cbn; lra).
  split; [exact OA|split; [exact OB|split; [reflexivity|]]]. intros A.
  assert (TA : tagged (h_hex_tags lin1) 2 1 1 4 9) by reflexivity. assert (TB : tagged (h_hex_tags lin1) 2 3 1 4 1) by reflexivity.
  specialize (A 1%nat 9%nat 1%nat ltac:(cbn; lia) TA TB). cbv beta in A.
  rewrite (proj1 (C261_trace lin1 [hpt3 1 1 (-(1))] 0 1 0 1 9 2 4 ltac:(cbn; lia) ltac:(cbn; lia) ltac:(cbn; lia) TA) OA) in A.
  rewrite (proj1 (C261_trace lin1 [hpt3 (-1) 1 (-(1))] 0 3 1 0 1 2 4 ltac:(cbn; lia) ltac:(cbn; lia) ltac:(cbn; lia) TB) OB) in A.
  cbn in A. lra.
Qed.

(** *** C263: the nodes of the hexahedron's functions *)
Lemma grid_blocks L f : h_grid L f = map (fun m => f (hl_node L (m / hl_card L)%nat) (hl_node L (m mod hl_card L))) (seq 0 (hl_card L * hl_card L)).
Proof. unfold h_grid. apply (grid_map (fun j i => f (hl_node L j) (hl_node L i))). Qed.
Definition hex_node (e : nat) (a b : R) : hpt :=
  match e with O => hpt3 a (-1) b | 1%nat => hpt3 1 a b | 2%nat => hpt3 a 1 b | 3%nat => hpt3 (-1) a b | 4%nat => hpt3 a b (-1) | _ => hpt3 a b 1 end.
Lemma hex_coords L b e m : nth_error [3; 0; 1; 2; 4; 5]%nat b = Some e -> (m < hl_card L * hl_card L)%nat ->
  nth (b * (hl_card L * hl_card L) + m) (h_hex_coords L) horig = hex_node e (hl_node L (m / hl_card L)%nat) (hl_node L (m mod hl_card L)).
Proof.
  intros B M. set (c := fun e m => hex_node e (hl_node L (m / hl_card L)%nat) (hl_node L (m mod hl_card L)) : hpt).
  assert (C : h_hex_coords L = blocks (hl_card L * hl_card L) (map (fun e j => c e j) [3; 0; 1; 2; 4; 5]%nat)).
  { unfold h_hex_coords, blocks, c. rewrite !grid_blocks. cbn [map flat_map hex_node]. rewrite app_nil_r. reflexivity. }
  rewrite C. exact (block_value (hl_card L * hl_card L) c [3; 0; 1; 2; 4; 5]%nat b e m horig B M).
Qed.
(** The nodes lie on their faces.  The functions of the right face are one at their own node and zero at the
    others of the face; those of the other faces are one at the node with the two indices exchanged. *)
Theorem C263_nodes_partial L e m m' idx idx' d n' d' n'' : lagrange_line (hl_card L) (hl_fun L) (hl_node L) ->
  tagged (h_hex_tags L) d e m n' idx -> tagged (h_hex_tags L) d' e m' n'' idx' ->
  on hex_off e (nth idx' (h_hex_coords L) horig) /\
  h_values (h_hex_serial L) 1 (h_hex_coords L) idx idx' =
    if Nat.eqb m (if Nat.eqb e 1 then m' else (m' mod hl_card L * hl_card L + m' / hl_card L)%nat) then 1 else 0.
Proof.
  intros [D _] H H'. destruct (hex_tag_inv _ _ _ _ _ _ H) as [b0 [B0 [J _]]]. destruct (hex_tag_inv _ _ _ _ _ _ H') as [b [B [J' [E' _]]]].
  pose proof (hex_coords L b e m' B J') as N. rewrite <- E' in N. set (n := hl_card L) in *.
  assert (Z : n <> 0%nat) by (intros Z; rewrite Z in J; cbn in J; lia).
  assert (Le : (e < 6)%nat) by (apply nth_error_In in B; cbn in B; lia).
  assert (K : (idx' < length (h_hex_coords L))%nat).
  { unfold h_hex_coords. rewrite !app_length, !grid_blocks, !map_length, !seq_length. fold n. assert (H0 : nth_error [3; 0; 1; 2; 4; 5]%nat b <> None) by congruence. apply nth_error_Some in H0. cbn [length] in *. rewrite E'. nia. }
  assert (O : on hex_off e (nth idx' (h_hex_coords L) horig)).
  { rewrite N. unfold on, hex_off, hex_node. destruct e as [|[|[|[|[|[|e]]]]]]; cbn; lra. }
  split; [exact O|]. rewrite (hex_value _ _ _ _ _ _ _ _ K H). unfold hval. rewrite near0 by exact O. rewrite N. fold n.
  assert (Q1 : (m / n < n)%nat) by (apply Nat.div_lt_upper_bound; auto). assert (Q2 : (m' / n < n)%nat) by (apply Nat.div_lt_upper_bound; auto).
  assert (R1 : (m mod n < n)%nat) by (apply Nat.mod_upper_bound; auto). assert (R2 : (m' mod n < n)%nat) by (apply Nat.mod_upper_bound; auto).
  pose proof (Nat.div_mod m n Z) as M1. pose proof (Nat.div_mod m' n Z) as M2.
  assert (Same : forall u v, hl_fun L (m / n)%nat (hl_node L (m' / n)%nat) = u -> hl_fun L (m mod n) (hl_node L (m' mod n)) = v -> u * v = if Nat.eqb m m' then 1 else 0).
  { intros u v <- <-. rewrite !D by assumption. destruct (Nat.eqb_spec (m / n) (m' / n)) as [A|A], (Nat.eqb_spec (m mod n) (m' mod n)) as [A'|A'], (Nat.eqb_spec m m') as [A''|A'']; try lra; exfalso; congruence. }
  assert (Swap : forall u v, hl_fun L (m mod n) (hl_node L (m' / n)%nat) = u -> hl_fun L (m / n)%nat (hl_node L (m' mod n)) = v -> u * v = if Nat.eqb m (m' mod n * n + m' / n) then 1 else 0).
  { intros u v <- <-. rewrite !D by assumption. destruct (split_index n (m' / n) (m' mod n) Q2) as [S1 S2].
    destruct (Nat.eqb_spec (m mod n) (m' / n)) as [A|A], (Nat.eqb_spec (m / n) (m' mod n)) as [A'|A'], (Nat.eqb_spec m (m' mod n * n + m' / n)) as [A''|A'']; try lra; exfalso.
    - apply A''. rewrite M1, A, A'. lia.
    - rewrite A'' in A'. congruence.
    - rewrite A'' in A. congruence.
    - rewrite A'' in A. congruence. }
  destruct e as [|[|[|[|[|[|e]]]]]]; try (exfalso; lia); cbn [Nat.eqb]; unfold hex_node, hex_along; cbn [fst snd hpt3]; first [apply Same; reflexivity|apply Swap; reflexivity].
Qed.
Theorem C263_nodes_refuted : exists L e idx, lagrange_line (hl_card L) (hl_fun L) (hl_node L) /\ tagged (h_hex_tags L) 2 e 1 4 idx /\
  h_values (h_hex_serial L) 1 (h_hex_coords L) idx idx = 0.
Proof.
  exists lin1, 3%nat, 1%nat. split; [exact lin1_ok|]. assert (T : tagged (h_hex_tags lin1) 2 3 1 4 1) by reflexivity. split; [exact T|].
  rewrite (proj2 (C263_nodes_partial lin1 3 1 1 1 1 2 4 2 4 lin1_ok T T)). reflexivity.
Qed.

(** *** C266, C267: tetrahedra *)
(** triangle functions: one at their own node, zero at the others, adding up to one *)
Definition lagrange_tri (n : nat) (f : nat -> R -> R -> R) (x : nat -> R * R) : Prop :=
  (forall i j, (i < n)%nat -> (j < n)%nat -> f i (fst (x j)) (snd (x j)) = if Nat.eqb i j then 1 else 0) /\
  (forall a b, sm (seq 0 n) (fun i => f i a b) = 1).
Theorem C266_trace T pts k e j idx d n' : (k < length pts)%nat -> tagged (h_tet_tags T) d e j n' idx ->
  (on tet_off e (nth k pts horig) -> h_values (h_tet_serial T) 1 pts idx k = face_fun T j (nth k pts horig 0%nat) (nth k pts horig 1%nat)) /\
  (away tet_off e (nth k pts horig) -> h_values (h_tet_serial T) 1 pts idx k = 0).
Proof.
  intros K H. rewrite (tet_value _ _ _ _ _ _ _ _ K H). unfold teval, on, away. split; intros O; [rewrite near0 by exact O|rewrite near_far by exact O]; reflexivity.
Qed.
Theorem C266_tags T e j : (e < 4)%nat -> (j < ht_card T)%nat -> exists idx, tagged (h_tet_tags T) 2 e j (ht_card T) idx /\
  forall idx', tagged (h_tet_tags T) 2 e j (ht_card T) idx' -> idx' = idx.
Proof.
  intros E J. destruct (exists_tag 2 (ht_card T) [0; 1; 2; 3]%nat e j) as [idx H]; [cbn; lia|exact J|]. exists idx. split; auto.
  intros idx' H'. refine (unique_tag _ _ _ _ _ _ _ _ _ _ H' H). repeat constructor; cbn; lia.
Qed.
Theorem C266_unity T pts k e : lagrange_tri (ht_card T) (face_fun T) (ht_node T) -> (k < length pts)%nat -> (e < 4)%nat ->
  on tet_off e (nth k pts horig) -> (forall e', (e' < 4)%nat -> e' <> e -> away tet_off e' (nth k pts horig)) ->
  sm (seq 0 (4 * ht_card T)) (fun idx => h_values (h_tet_serial T) 1 pts idx k) = 1.
Proof.
  intros [_ U] K E O F. set (p := nth k pts horig) in *.
  change 4%nat with (length [0; 1; 2; 3]%nat). rewrite (sum_blocks _ pts k (ht_card T) (fun e j => teval T e p j)) by (try exact K; apply tet_blocks).
  assert (V : forall e', (e' < 4)%nat -> sm (seq 0 (ht_card T)) (teval T e' p) = if Nat.eqb e' e then 1 else 0).
  { intros e' E'. destruct (Nat.eqb_spec e' e) as [->|Ne].
    - rewrite <- (U (p 0%nat) (p 1%nat)). apply sm_ext. intros. unfold teval. rewrite near0 by exact O. reflexivity.
    - apply sm_zero. intros. unfold teval. rewrite near_far by (apply F; auto). reflexivity. }
  rewrite !sm_cons, sm_nil, !V by lia. destruct e as [|[|[|[|e]]]]; cbn [Nat.eqb]; try lra. lia.
Qed.
(** the linear functions 1-x-y, x, y of the triangle, as orthogonal functions 1, x, y times an inverse Vandermonde matrix *)
Definition ptri : htri := {| ht_card := 3; ht_phi := fun k x y => match k with O => 1 | 1%nat => x | _ => y end;
  ht_vinv := fun k i => match k, i with O, O => 1 | S O, O => -1 | S (S O), O => -1 | S O, S O => 1 | S (S O), S (S O) => 1 | _, _ => 0 end;
  ht_node := fun j => match j with O => (0, 0) | 1%nat => (1, 0) | _ => (0, 1) end |}.
Lemma ptri_fun j x y : (j < 3)%nat -> face_fun ptri j x y = match j with O => 1 - x - y | 1%nat => x | _ => y end.
Proof. intros J. unfold face_fun. cbn [ht_card ptri seq]. rewrite !sm_cons, sm_nil. destruct j as [|[|[|j]]]; cbn; try lra. lia. Qed.
Lemma ptri_ok : lagrange_tri (ht_card ptri) (face_fun ptri) (ht_node ptri).
Proof.
  split.
  - intros i j I J. cbn [ht_card ptri] in I, J. rewrite ptri_fun by exact I. destruct i as [|[|[|i]]], j as [|[|[|j]]]; try lia; cbn; lra.
  - intros a b. cbn [ht_card ptri seq]. rewrite !sm_cons, sm_nil, !ptri_fun by lia. lra.
Qed.
Example C266_case : let pts := [hpt3 (1/3) (1/3) (1/3)] in
  tagged (h_tet_tags ptri) 2 1 2 3 5 /\ on tet_off 1 (nth 0 pts horig) /\ (forall e', (e' < 4)%nat -> e' <> 1%nat -> away tet_off e' (nth 0 pts horig)) /\
  h_values (h_tet_serial ptri) 1 pts 5 0 = 1 / 3 /\ sm (seq 0 12) (fun idx => h_values (h_tet_serial ptri) 1 pts idx 0) = 1.
Proof.
  intros pts. assert (T : tagged (h_tet_tags ptri) 2 1 2 3 5) by reflexivity. assert (O : on tet_off 1 (nth 0 pts horig)) by (unfold on; cbn; lra).
  assert (F : forall e', (e' < 4)%nat -> e' <> 1%nat -> away tet_off e' (nth 0 pts horig)).
  { intros [|[|[|[|e']]]] L N; try lia; unfold away; apply far_third, abs_ge; cbn; lra. }
  split; [exact T|split; [exact O|split; [exact F|split]]].
  - rewrite (proj1 (C266_trace ptri pts 0 1 2 5 2 3 ltac:(cbn; lia) T) O). rewrite ptri_fun by lia. reflexivity.
  - apply (C266_unity ptri pts 0 1 ptri_ok); auto.
Qed.
(** on the faces z=0 and x+y+z=1 the nodes are nodes of the functions *)
Theorem C267_nodes_partial T e j j' idx idx' d n' d' n'' : lagrange_tri (ht_card T) (face_fun T) (ht_node T) -> e = 1%nat \/ e = 3%nat ->
  tagged (h_tet_tags T) d e j n' idx -> tagged (h_tet_tags T) d' e j' n'' idx' ->
  on tet_off e (nth idx' (h_tet_coords T) horig) /\
  h_values (h_tet_serial T) 1 (h_tet_coords T) idx idx' = if Nat.eqb j j' then 1 else 0.
Proof.
  intros [D _] He H H'. destruct (tag_inv _ _ _ _ _ _ _ _ H) as [_ [_ [J _]]]. destruct (tag_inv _ _ _ _ _ _ _ _ H') as [b [B [J' [E' _]]]].
  set (c := fun e j => let a := fst (ht_node T j) in let b := snd (ht_node T j) in match e with O => hpt3 a 0 b | 1%nat => hpt3 a b (1 - a - b) | 2%nat => hpt3 0 a b | _ => hpt3 a b 0 end : hpt).
  assert (C : h_tet_coords T = blocks (ht_card T) (map (fun e j => c e j) [0; 1; 2; 3]%nat)) by (unfold h_tet_coords, blocks, c; cbn [map flat_map]; cbv zeta; rewrite app_nil_r; reflexivity).
  assert (K : (idx' < length (h_tet_coords T))%nat).
  { rewrite C, blocks_len, map_length. assert (H0 : nth_error [0; 1; 2; 3]%nat b <> None) by congruence. apply nth_error_Some in H0. cbn [length] in *. rewrite E'. nia. }
  assert (N : nth idx' (h_tet_coords T) horig = c e j') by (rewrite C, E'; exact (block_value (ht_card T) c [0; 1; 2; 3]%nat b e j' horig B J')).
  assert (O : on tet_off e (nth idx' (h_tet_coords T) horig)) by (rewrite N; unfold on, c, tet_off; destruct He as [-> | ->]; cbn; lra).
  split; [exact O|]. rewrite (proj1 (C266_trace T _ _ _ _ _ _ _ K H) O), N, <- (D j j' J J'). unfold c. destruct He as [-> | ->]; reflexivity.
Qed.
(** on the face y=0 the third linear function is zero everywhere, so it is not one at its node, and the three
    functions do not determine a trace *)
Theorem C267_nodes_refuted : exists T idx, lagrange_tri (ht_card T) (face_fun T) (ht_node T) /\ tagged (h_tet_tags T) 2 0 2 (ht_card T) idx /\
  on tet_off 0 (nth idx (h_tet_coords T) horig) /\
  forall p, on tet_off 0 p -> h_values (h_tet_serial T) 1 [p] idx 0 = 0.
Proof.
  exists ptri, 2%nat. split; [exact ptri_ok|]. assert (H : tagged (h_tet_tags ptri) 2 0 2 3 2) by reflexivity. split; [exact H|]. split; [unfold on; cbn; lra|].
  intros p O. rewrite (proj1 (C266_trace ptri [p] 0 0 2 2 2 3 ltac:(cbn; lia) H) O). rewrite ptri_fun by lia. exact O.
Qed.
(** on the faces y=0 and x=0 every function is constant in one direction of the face *)
Theorem C267_flat_refuted T j idx d n' : (tagged (h_tet_tags T) d 0 j n' idx -> forall x z z', h_values (h_tet_serial T) 1 [hpt3 x 0 z] idx 0 = h_values (h_tet_serial T) 1 [hpt3 x 0 z'] idx 0) /\
  (tagged (h_tet_tags T) d 2 j n' idx -> forall y z z', h_values (h_tet_serial T) 1 [hpt3 0 y z] idx 0 = h_values (h_tet_serial T) 1 [hpt3 0 y z'] idx 0).
Proof.
  split; intros H a z z'.
  - rewrite !(fun p O => proj1 (C266_trace T [p] 0 0 j idx d n' ltac:(cbn; lia) H) O); [reflexivity|unfold on; cbn; lra|unfold on; cbn; lra].
  - rewrite !(fun p O => proj1 (C266_trace T [p] 0 2 j idx d n' ltac:(cbn; lia) H) O); [reflexivity|unfold on; cbn; lra|unfold on; cbn; lra].
Qed.

Print Assumptions C259_trace.
Print Assumptions C259_tags.
Print Assumptions C259_nodal.
Print Assumptions C259_unity.
Print Assumptions C260_quad_partial.
Print Assumptions C260_quad_refuted.
Print Assumptions C264_trace.
Print Assumptions C264_tags.
Print Assumptions C264_unity.
Print Assumptions C260_tri_partial.
Print Assumptions C260_tri_refuted.
Print Assumptions C265_nodes_partial.
Print Assumptions C265_nodes_refuted.
Print Assumptions C261_trace.
Print Assumptions C261_tags.
Print Assumptions C261_unity.
Print Assumptions C262_faces_partial.
Print Assumptions C262_faces_refuted.
Print Assumptions C263_nodes_partial.
Print Assumptions C263_nodes_refuted.
Print Assumptions C266_trace.
Print Assumptions C266_tags.
Print Assumptions C266_unity.
Print Assumptions C267_nodes_partial.
Print Assumptions C267_nodes_refuted.
Print Assumptions C267_flat_refuted.
