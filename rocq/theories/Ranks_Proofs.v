(** Lemmas on rank splitting and sample distribution. *)
From Coq Require Import List Arith Bool Lia Permutation ZArith ZifyBool ZifyNat.
From Verif Require Import Outcome Ranks_Model.
Import ListNotations.
Ltac Zify.zify_post_hook ::= Z.div_mod_to_equations.

Lemma filter_none {A} (f : A -> bool) l : (forall x, In x l -> f x = false) -> filter f l = [].
Proof. induction l as [|x l IH]; intros H; simpl; auto. rewrite (H x) by (left; auto). apply IH. intros; apply H; right; auto. Qed.
Lemma filter_all {A} (f : A -> bool) l : (forall x, In x l -> f x = true) -> filter f l = l.
Proof. induction l as [|x l IH]; intros H; simpl; auto. rewrite (H x) by (left; auto). f_equal. apply IH. intros; apply H; right; auto. Qed.

Lemma block_filter M b k : 0 < M ->
  filter (fun q => q / M =? b) (seq 0 (k * M)) = if b <? k then seq (b * M) M else [].
Proof.
  intros HM. induction k as [|k IH]; [reflexivity|].
  replace (S k * M) with (k * M + M) by lia. rewrite seq_app, filter_app, IH. cbn [plus].
  destruct (Nat.eq_dec b k) as [->|Hb].
  - rewrite Nat.ltb_irrefl. replace (k <? S k) with true by (symmetry; apply Nat.ltb_lt; lia).
    cbn [app]. apply filter_all. intros q Hq. apply in_seq in Hq. apply Nat.eqb_eq.
    symmetry; apply Nat.div_unique with (q - k * M); nia.
  - rewrite (filter_none _ (seq (k * M) M)).
    + rewrite app_nil_r. destruct (Nat.ltb_spec b k), (Nat.ltb_spec b (S k)); auto; lia.
    + intros q Hq. apply in_seq in Hq. apply Nat.eqb_neq. intros E. apply Hb. rewrite <- E.
      symmetry. apply Nat.div_unique with (q - k * M); nia.
Qed.

Lemma position_seq n : forall a r, a <= r < a + n -> position r (seq a n) = Some (r - a).
Proof.
  induction n as [|n IH]; intros a r H; [lia|]. cbn [seq position].
  destruct (Nat.eqb_spec a r) as [->|Hn]; [f_equal; lia|].
  rewrite IH by lia. f_equal. lia.
Qed.

Lemma position_in r l k : position r l = Some k -> In r l.
Proof.
  revert k; induction l as [|x l IH]; cbn [position]; intros k H; [discriminate|].
  destruct (Nat.eqb_spec x r); [left; auto|]. destruct (position r l); [right; eauto|discriminate].
Qed.
Lemma in_position r l : In r l -> exists k, position r l = Some k.
Proof.
  induction l as [|x l IH]; cbn [position]; intros H; [destruct H|].
  destruct (Nat.eqb_spec x r); eauto. destruct H as [H|H]; [congruence|].
  destruct (IH H) as [k ->]; eauto.
Qed.

Lemma nodupb_ok l : nodupb l = true <-> NoDup l.
Proof.
  induction l as [|x l IH]; cbn [nodupb]; [split; auto using NoDup_nil|].
  rewrite andb_true_iff, negb_true_iff, IH. split.
  - intros [H1 H2]. constructor; auto. intros Hin.
    assert (existsb (Nat.eqb x) l = true) by (apply existsb_exists; exists x; rewrite Nat.eqb_refl; auto). congruence.
  - intros H. inversion H; subst. split; auto.
    destruct (existsb (Nat.eqb x) l) eqn:E; auto. apply existsb_exists in E as (y & Hy & He).
    apply Nat.eqb_eq in He. subst. contradiction.
Qed.

Definition stride (c M n : nat) : list nat := map (fun i => c + i * M) (seq 0 n).

Lemma stride_nodup c M n : 0 < M -> NoDup (stride c M n).
Proof.
  intros HM. apply FinFun.Injective_map_NoDup; [|apply seq_NoDup].
  intros i j H. nia.
Qed.
Lemma stride_in c M n q : In q (stride c M n) <-> exists i, i < n /\ q = c + i * M.
Proof.
  unfold stride. rewrite in_map_iff. split.
  - intros (i & E & H). apply in_seq in H. exists i. split; [lia|auto].
  - intros (i & H & E). exists i. split; auto. apply in_seq. lia.
Qed.

(** The exact result when the group size divides the number of ranks. *)
Lemma split_comm_ok k M r : 0 < M -> r < k * M ->
  split_comm (k * M) M k r = Ok (seq (r / M * M) M, stride (r mod M) M k).
Proof.
  intros HM Hr. unfold split_comm.
  replace (M =? 0) with false by (symmetry; apply Nat.eqb_neq; lia).
  unfold comm_split. rewrite block_filter by auto.
  assert (Hb : r / M < k) by (apply Nat.div_lt_upper_bound; lia).
  replace (r / M <? k) with true by (symmetry; apply Nat.ltb_lt; auto).
  pose proof (Nat.div_mod r M ltac:(lia)) as D. pose proof (Nat.mod_upper_bound r M ltac:(lia)) as B.
  rewrite position_seq by nia.
  replace (r - r / M * M) with (r mod M) by nia.
  replace (k =? 0) with false by (symmetry; apply Nat.eqb_neq; nia).
  fold (stride (r mod M) M k). unfold group_incl.
  replace (forallb _ (stride (r mod M) M k)) with true.
  2:{ symmetry. apply forallb_forall. intros q Hq. apply stride_in in Hq as (i & Hi & ->).
      apply Nat.ltb_lt. nia. }
  rewrite (proj2 (nodupb_ok _)) by (apply stride_nodup; auto). cbn [andb obind].
  destruct (in_position r (stride (r mod M) M k)) as [p ->]; auto.
  apply stride_in. exists (r / M). split; auto. nia.
Qed.

(** With [M = N] (one linear algebra group): the call is valid exactly for one
    sampling group per rank. *)
Lemma split_comm_whole N g r : 0 < N -> r < N ->
  (exists x, split_comm N N g r = Ok x) <-> g = 1.
Proof.
  intros HN Hr. split.
  - intros [x H]. unfold split_comm in H.
    replace (N =? 0) with false in H by (symmetry; apply Nat.eqb_neq; lia).
    unfold comm_split in H.
    pose proof (block_filter N (r / N) 1 HN) as B. rewrite Nat.mul_1_l in B. rewrite B in H.
    rewrite Nat.div_small in H by auto. cbn [Nat.ltb Nat.leb Nat.mul] in H.
    rewrite position_seq in H by lia. rewrite Nat.sub_0_r in H.
    destruct g as [|[|g]]; auto; [discriminate|]. exfalso.
    cbn [Nat.eqb] in H. fold (stride r N (S (S g))) in H. unfold group_incl in H.
    destruct (forallb (fun g0 => g0 <? N) (stride r N (S (S g)))) eqn:E; [|discriminate].
    rewrite forallb_forall in E. specialize (E (r + 1 * N)).
    assert (I : In (r + 1 * N) (stride r N (S (S g)))) by (apply stride_in; exists 1; split; lia).
    apply E in I. apply Nat.ltb_lt in I. lia.
  - intros ->. pose proof (split_comm_ok 1 N r HN) as H. rewrite Nat.mul_1_l in H. eauto.
Qed.

Lemma split_SOL_divides k M r : 0 < M -> r < k * M ->
  split_SOL (k * M) M r = Ok (seq (r / M * M) M, stride (r mod M) M k).
Proof.
  intros HM Hr. unfold split_SOL.
  replace (M =? 0) with false by (symmetry; apply Nat.eqb_neq; lia).
  rewrite Nat.mod_mul, Nat.eqb_refl, Nat.div_mul by lia. apply split_comm_ok; auto.
Qed.

Lemma split_SOL_valid_iff N numLA : 0 < N -> 0 < numLA ->
  ((forall r, r < N -> exists g, split_SOL N numLA r = Ok g)
   <-> N mod numLA = 0 \/ N / numLA = 1).
Proof.
  intros HN HM. split.
  - intros H. destruct (Nat.eq_dec (N mod numLA) 0) as [E|E]; auto. right.
    destruct (H 0 HN) as [g Hg]. unfold split_SOL in Hg.
    replace (numLA =? 0) with false in Hg by (symmetry; apply Nat.eqb_neq; lia).
    replace (N mod numLA =? 0) with false in Hg by (symmetry; apply Nat.eqb_neq; auto).
    apply (split_comm_whole N (N / numLA) 0); eauto.
  - intros H r Hr. destruct (Nat.eq_dec (N mod numLA) 0) as [E|E].
    + pose proof (Nat.div_mod N numLA ltac:(lia)) as D. rewrite E in D.
      assert (EN : exists k, N = k * numLA) by (exists (N / numLA); lia).
      destruct EN as [k ->].
      eexists. apply split_SOL_divides; auto.
    + destruct H as [H|H]; [contradiction|]. unfold split_SOL.
      replace (numLA =? 0) with false by (symmetry; apply Nat.eqb_neq; lia).
      replace (N mod numLA =? 0) with false by (symmetry; apply Nat.eqb_neq; auto).
      apply split_comm_whole; auto.
Qed.

(** ** The main communicator of a multiscale split *)
Lemma fill_main_ok k : 0 < k -> forall m a n,
  fill_main k (seq (a * k) (m * k)) a (map (fun i => i * k) (seq 0 a) ++ repeat 0 (m + n))
  = Ok (map (fun i => i * k) (seq 0 (a + m)) ++ repeat 0 n).
Proof.
  intros Hk m. induction m as [|m IH]; intros a n.
  - cbn [Nat.mul seq fill_main plus]. rewrite Nat.add_0_r. reflexivity.
  - replace (S m * k) with (1 + (k - 1) + m * k) by nia. rewrite !seq_app. rewrite <- app_assoc. cbn [seq app fill_main].
    rewrite Nat.mod_mul by lia. cbn [Nat.eqb].
    rewrite app_length, map_length, seq_length, repeat_length.
    replace (a <? a + (S m + n)) with true by (symmetry; apply Nat.ltb_lt; lia).
    assert (L : length (map (fun i => i * k) (seq 0 a)) = a) by (rewrite map_length, seq_length; auto).
    rewrite firstn_app, L, Nat.sub_diag. rewrite firstn_all2 by lia. cbn [firstn].
    rewrite app_nil_r. rewrite skipn_app, L. rewrite skipn_all2 by lia.
    replace (S a - a) with 1 by lia. cbn [plus repeat skipn app].
    assert (Q : forall c b pr g, (forall x, b <= x < b + c -> x mod k <> 0) -> forall rest,
        fill_main k (seq b c ++ rest) pr g = fill_main k rest pr g).
    { induction c as [|c IHc]; intros b pr g Hx rest; cbn [seq app fill_main]; auto.
      destruct (Nat.eqb_spec (b mod k) 0) as [E|_]; [exfalso; apply (Hx b); lia|].
      apply IHc. intros x Hx'. apply Hx. lia. }
    rewrite Q.
    2:{ intros x Hx. assert (x = a * k + (x - a * k)) as -> by lia.
        rewrite Nat.add_comm, Nat.mod_add by lia. rewrite Nat.mod_small by lia. lia. }
    replace (a * k + S (k - 1)) with (S a * k) by nia.
    replace (map (fun i => i * k) (seq 0 a) ++ a * k :: repeat 0 (m + n))
      with (map (fun i => i * k) (seq 0 (S a)) ++ repeat 0 (m + n)).
    2:{ rewrite seq_S, map_app, <- app_assoc. reflexivity. }
    rewrite IH. do 3 f_equal.
    change (a :: seq (S a) m) with (seq (0 + a) (S m)). rewrite <- seq_app. f_equal; lia.
Qed.

Lemma main_ranks_ok k M : 0 < k -> 0 < M ->
  main_ranks (k * M) M = Ok (stride 0 k M).
Proof.
  intros Hk HM. unfold main_ranks.
  replace (M =? 0) with false by (symmetry; apply Nat.eqb_neq; lia).
  rewrite Nat.mod_mul, Nat.eqb_refl, Nat.div_mul by lia.
  replace (k =? 0) with false by (symmetry; apply Nat.eqb_neq; lia).
  pose proof (fill_main_ok k Hk M 0 0) as F. cbn [seq map app plus Nat.mul] in F.
  rewrite Nat.add_0_r, (Nat.mul_comm M k) in F. rewrite F. cbn [obind repeat].
  rewrite app_nil_r. change (map (fun i => i * k) (seq 0 M)) with (stride 0 k M).
  unfold group_incl.
  replace (forallb _ (stride 0 k M)) with true.
  2:{ symmetry. apply forallb_forall. intros q Hq. apply stride_in in Hq as (i & Hi & ->).
      apply Nat.ltb_lt. nia. }
  rewrite (proj2 (nodupb_ok _)) by (apply stride_nodup; auto). reflexivity.
Qed.

Lemma main_ranks_reset N M : 0 < N -> 0 < M -> N mod M <> 0 ->
  main_ranks N M = Ok (seq 0 N).
Proof.
  intros HN HM H. unfold main_ranks.
  replace (M =? 0) with false by (symmetry; apply Nat.eqb_neq; lia).
  replace (N mod M =? 0) with false by (symmetry; apply Nat.eqb_neq; auto).
  rewrite Nat.div_same by lia. cbn [Nat.eqb].
  pose proof (main_ranks_ok 1 N ltac:(lia) HN) as E. unfold main_ranks in E.
  rewrite Nat.mul_1_l in E.
  replace (N =? 0) with false in E by (symmetry; apply Nat.eqb_neq; lia).
  rewrite Nat.mod_same, Nat.eqb_refl, Nat.div_same in E by lia. cbn [Nat.eqb] in E. rewrite E.
  f_equal. unfold stride. erewrite map_ext; [apply map_id|]. intros; lia.
Qed.

(* ------------------------------------------------------------------ *)
(** ** Samples *)

Definition load (n P r : nat) : nat := if r <? n mod P then S (n / P) else n / P.

Lemma load_index n P r i : 0 < P -> r < P -> (i < load n P r <-> i * P + r < n).
Proof.
  intros HP Hr. unfold load.
  pose proof (Nat.div_mod n P ltac:(lia)) as D. pose proof (Nat.mod_upper_bound n P ltac:(lia)) as B.
  destruct (Nat.ltb_spec r (n mod P)); split; intro Hi; nia.
Qed.

Lemma my_part_ok {A} n P r (v : list A) d : 0 < P -> r < P -> length v = n ->
  my_part n P r v = Ok (map (fun i => nth (i * P + r) v d) (seq 0 (load n P r))).
Proof.
  intros HP Hr L. unfold my_part.
  replace (P =? 0) with false by (symmetry; apply Nat.eqb_neq; lia).
  fold (load n P r). apply map_outcome_ok. intros i Hi. apply in_seq in Hi.
  apply at_ok. rewrite L. apply load_index; auto. lia.
Qed.

(** The index set: rank by rank, each index below n exactly once. *)
Definition all_idx (n P : nat) : list nat :=
  concat (map (fun r => map (fun i => i * P + r) (seq 0 (load n P r))) (seq 0 P)).

Lemma all_idx_perm n P : 0 < P -> Permutation (all_idx n P) (seq 0 n).
Proof.
  intros HP. apply NoDup_Permutation.
  - unfold all_idx.
    assert (G : forall l, NoDup l -> (forall r, In r l -> r < P) ->
       NoDup (concat (map (fun r => map (fun i => i * P + r) (seq 0 (load n P r))) l))).
    { induction l as [|r l IH]; intros Hd Hl; cbn [map concat]; [constructor|].
      inversion Hd as [|? ? Hr Hd']; subst.
      assert (NoDup (map (fun i => i * P + r) (seq 0 (load n P r)))) as N1.
      { apply FinFun.Injective_map_NoDup; [|apply seq_NoDup]. intros i j H; nia. }
      assert (NoDup (concat (map (fun r => map (fun i => i * P + r) (seq 0 (load n P r))) l))) as N2.
      { apply IH; auto. intros; apply Hl; right; auto. }
      assert (forall x, In x (map (fun i => i * P + r) (seq 0 (load n P r))) ->
         ~ In x (concat (map (fun r => map (fun i => i * P + r) (seq 0 (load n P r))) l))) as N3.
      { intros x Hx Hc. apply in_map_iff in Hx as (i & <- & _).
        apply in_concat in Hc as (w & Hw & Hc). apply in_map_iff in Hw as (r' & <- & Hr').
        apply in_map_iff in Hc as (j & Hj & _).
        assert (r < P) by (apply Hl; left; auto). assert (r' < P) by (apply Hl; right; auto).
        assert (r = r'); [|subst; contradiction].
        assert ((i * P + r) mod P = (j * P + r') mod P) as E by congruence.
        rewrite (Nat.add_comm (i * P)), (Nat.add_comm (j * P)), !Nat.mod_add in E by lia.
        rewrite !Nat.mod_small in E by auto. auto. }
      clear -N1 N2 N3. induction N1 as [|x l0 Hx N1 IH]; cbn [app]; auto.
      constructor.
      - rewrite in_app_iff. intros [H|H]; [contradiction|]. apply (N3 x); [left|]; auto.
      - apply IH. intros y Hy. apply N3. right; auto. }
    apply G; [apply seq_NoDup|]. intros r Hr. apply in_seq in Hr. lia.
  - apply seq_NoDup.
  - intros x. unfold all_idx. rewrite in_concat. split.
    + intros (w & Hw & Hx). apply in_map_iff in Hw as (r & <- & Hr).
      apply in_map_iff in Hx as (i & <- & Hi). apply in_seq in Hr, Hi.
      apply in_seq. split; [lia|]. cbn. apply load_index; auto; lia.
    + intros Hx. apply in_seq in Hx.
      exists (map (fun i => i * P + x mod P) (seq 0 (load n P (x mod P)))). split.
      * apply in_map_iff. exists (x mod P). split; auto. apply in_seq.
        pose proof (Nat.mod_upper_bound x P ltac:(lia)). lia.
      * apply in_map_iff. exists (x / P). pose proof (Nat.div_mod x P ltac:(lia)) as D.
        rewrite (Nat.mul_comm (x / P)), <- D.
        split; [reflexivity|]. apply in_seq. split; [apply Nat.le_0_l|]. cbn. apply load_index; auto.
        -- apply Nat.mod_upper_bound; lia.
        -- rewrite (Nat.mul_comm (x / P)), <- D. lia.
Qed.

Lemma map_nth_seq {A} (v : list A) d : map (fun i => nth i v d) (seq 0 (length v)) = v.
Proof.
  apply nth_ext with (d := d) (d' := d).
  - rewrite map_length, seq_length. auto.
  - intros k Hk. rewrite map_length, seq_length in Hk.
    rewrite nth_indep with (d' := nth 0 v d) by (rewrite map_length, seq_length; auto).
    change (nth 0 v d) with ((fun i => nth i v d) 0). rewrite map_nth.
    rewrite seq_nth by auto. reflexivity.
Qed.

Lemma my_part_all {A} n P (v : list A) : 0 < P -> length v = n ->
  exists parts, map_outcome (fun r => my_part n P r v) (seq 0 P) = Ok parts
    /\ Permutation (concat parts) v.
Proof.
  intros HP L. destruct v as [|d v'] eqn:Ev.
  - exists (map (fun _ => []) (seq 0 P)). split.
    + apply map_outcome_ok. intros r Hr. apply in_seq in Hr. cbn in L. subst n.
      unfold my_part. replace (P =? 0) with false by (symmetry; apply Nat.eqb_neq; lia).
      rewrite Nat.div_0_l, Nat.mod_0_l by lia. reflexivity.
    + replace (concat (map (fun _ : nat => (@nil A)) (seq 0 P))) with (@nil A); auto.
      induction (seq 0 P); auto.
  - rewrite <- Ev in *.
    exists (map (fun r => map (fun i => nth (i * P + r) v d) (seq 0 (load n P r))) (seq 0 P)).
    split.
    + apply map_outcome_ok. intros r Hr. apply in_seq in Hr. apply my_part_ok; auto. lia.
    + transitivity (map (fun i => nth i v d) (seq 0 n)).
      2:{ rewrite <- L, map_nth_seq. apply Permutation_refl. }
      rewrite <- (all_idx_perm n P HP). unfold all_idx. rewrite concat_map, map_map.
      erewrite map_ext; [apply Permutation_refl|]. intros r. cbn. rewrite map_map. reflexivity.
Qed.

Lemma load_balanced n P r r' : 0 < P -> load n P r <= S (load n P r').
Proof. intros HP. unfold load. destruct (r <? n mod P), (r' <? n mod P); lia. Qed.

Lemma my_part_length {A} n P r (v w : list A) : my_part n P r v = Ok w -> length w = load n P r.
Proof.
  unfold my_part. destruct (P =? 0) ; [discriminate|]. fold (load n P r).
  rewrite <- (seq_length (load n P r) 0) at 2. generalize (seq 0 (load n P r)) as l. 
  intros l. revert w. induction l as [|i l IH]; cbn [map_outcome]; intros w H.
  - injection H as <-; auto.
  - destruct (at_ v (i * P + r)); try discriminate.
    destruct (map_outcome _ l) eqn:E; try discriminate. injection H as <-. cbn. f_equal. apply IH; auto.
Qed.

(** Pairing the two distributed arrays is distributing the pairs. *)
Lemma my_part_combine {A B} n P r (v : list A) (u : list B) : 0 < P -> r < P ->
  length v = n -> length u = n ->
  exists p q, my_part n P r v = Ok p /\ my_part n P r u = Ok q
    /\ my_part n P r (combine v u) = Ok (combine p q).
Proof.
  intros HP Hr L1 L2. destruct v as [|d v'] eqn:Ev.
  - destruct u; [|simpl in *; lia]. cbn in L1. subst n. exists [], []. cbn [combine].
    unfold my_part. replace (P =? 0) with false by (symmetry; apply Nat.eqb_neq; lia).
    rewrite Nat.div_0_l, Nat.mod_0_l by lia. repeat split; reflexivity.
  - destruct u as [|e u'] eqn:Eu; [simpl in *; lia|]. rewrite <- Ev in *. rewrite <- Eu in *.
    assert (L3 : length (combine v u) = n) by (rewrite combine_length; lia).
    rewrite (my_part_ok n P r v d), (my_part_ok n P r u e), (my_part_ok n P r (combine v u) (d, e)) by auto.
    do 2 eexists. split; [reflexivity|split; [reflexivity|]]. f_equal.
    induction (seq 0 (load n P r)) as [|i l IH]; cbn [map combine]; auto.
    rewrite IH. f_equal. rewrite <- combine_nth by lia. reflexivity.
Qed.

(** ** Reading the files *)
Lemma read_point_full {A} (point : list A) : forall c st, length c = length point ->
  read_point point (c ++ st) = (c, st).
Proof.
  induction point as [|x p IH]; intros c st L; destruct c as [|y c]; simpl in *; try discriminate; auto.
  rewrite IH by lia. reflexivity.
Qed.

Lemma read_points_full {A} dim (pts : list (list A)) : forall point rest,
  length point = dim -> Forall (fun p => length p = dim) pts ->
  read_points (length pts) point (concat pts ++ rest) = pts.
Proof.
  induction pts as [|p pts IH]; intros point rest L F; cbn [length read_points concat app]; auto.
  inversion F; subst. rewrite <- app_assoc, read_point_full by lia. f_equal. apply IH; auto.
Qed.

Lemma read_point_length {A} (point : list A) : forall st, length (fst (read_point point st)) = length point.
Proof.
  induction point as [|x p IH]; intros st; cbn [read_point]; auto.
  destruct (extract x st) as [y st1]. specialize (IH st1). destruct (read_point p st1). cbn in *. lia.
Qed.

Lemma read_points_length {A} n : forall (point : list A) st, length (read_points n point st) = n.
Proof.
  induction n as [|n IH]; intros point st; cbn [read_points]; auto.
  destruct (read_point point st). cbn. f_equal. apply IH.
Qed.

Lemma read_pt_length {A} (zero : A) n dim f : length (read_pt zero n dim f) = n.
Proof. destruct f; cbn; [apply read_points_length|apply repeat_length]. Qed.
Lemma read_wt_length {A} (zero : A) iv n f : length (read_wt zero iv n f) = n.
Proof. destruct f; cbn; [rewrite read_point_length|]; apply repeat_length. Qed.
