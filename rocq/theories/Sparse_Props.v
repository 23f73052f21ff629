(** Property C13: sparse compression of local matrices loses only negligible entries. *)
From Coq Require Import Bool Arith Lia List Reals Lra.
From Verif Require Import Sparse_Model.
Import ListNotations.
Local Open Scope R_scope.

Ltac rs := unfold rsum in *; cbn [app map filter fold_right] in *.

Lemma rsum_app l m : rsum (l ++ m) = rsum l + rsum m.
Proof. induction l as [|a l IH]; rs; [ring|rewrite IH; ring]. Qed.

Lemma rsum_map_add {A} (f g : A -> R) l :
  rsum (map (fun x => f x + g x) l) = rsum (map f l) + rsum (map g l).
Proof. induction l as [|a l IH]; rs; [ring|rewrite IH; ring]. Qed.

Lemma rsum_map_scal {A} (c : R) (f : A -> R) l :
  rsum (map (fun x => c * f x) l) = c * rsum (map f l).
Proof. induction l as [|a l IH]; rs; [ring|rewrite IH; ring]. Qed.

Lemma rsum_abs {A} (f : A -> R) l : Rabs (rsum (map f l)) <= rsum (map (fun x => Rabs (f x)) l).
Proof.
  induction l as [|a l IH]; rs; [rewrite Rabs_R0; lra|].
  eapply Rle_trans; [apply Rabs_triang|]. lra.
Qed.

Lemma rsum_le {A} (f g : A -> R) l : (forall x, In x l -> f x <= g x) ->
  rsum (map f l) <= rsum (map g l).
Proof.
  induction l as [|a l IH]; intros H; rs; [lra|].
  assert (f a <= g a) by (apply H; left; auto).
  assert (fold_right Rplus 0 (map f l) <= fold_right Rplus 0 (map g l)) by (apply IH; intros; apply H; right; auto). lra.
Qed.

Section S.
Variables (ne nr nc : nat) (D : nat -> nat -> nat -> R).
Notation mx := (maxval ne nr nc D).

(** *** The largest absolute value *)

Definition is_sup (m : R) : Prop :=
  (forall e i j, (e < ne)%nat -> (i < nr)%nat -> (j < nc)%nat -> Rabs (D e i j) <= m) /\
  (m = 0 \/ exists e i j, (e < ne)%nat /\ (i < nr)%nat /\ (j < nc)%nat /\ Rabs (D e i j) = m) /\ 0 <= m.

Lemma fold3_ub (l1 l2 l3 : list nat) :
  let g j m e i := if Rlt_dec m (Rabs (D e i j)) then Rabs (D e i j) else m in
  forall m0, let r := fold_left (fun m e => fold_left (fun m i => fold_left (fun m j => g j m e i) l3 m) l2 m) l1 m0 in
  m0 <= r /\ (forall e i j, In e l1 -> In i l2 -> In j l3 -> Rabs (D e i j) <= r) /\
  (r = m0 \/ exists e i j, In e l1 /\ In i l2 /\ In j l3 /\ Rabs (D e i j) = r).
Proof.
  intros g.
  assert (G3 : forall e i l m, let r := fold_left (fun m j => g j m e i) l m in
    m <= r /\ (forall j, In j l -> Rabs (D e i j) <= r) /\ (r = m \/ exists j, In j l /\ Rabs (D e i j) = r)).
  { intros e i. induction l as [|j l IH]; intros m; cbn.
    - split; [lra|]. split; [tauto|auto].
    - destruct (IH (g j m e i)) as (A1 & A2 & A3).
      assert (B : m <= g j m e i /\ Rabs (D e i j) <= g j m e i /\ (g j m e i = m \/ g j m e i = Rabs (D e i j))).
      { unfold g. destruct (Rlt_dec m (Rabs (D e i j))); repeat split; auto; lra. }
      destruct B as (B1 & B2 & B3). split; [lra|]. split.
      + intros j' [<-|Hj]; auto. lra.
      + destruct A3 as [A3|(j' & Hj & E)]; [|right; eauto].
        destruct B3 as [B3|B3]; [left; congruence|]. right. exists j. split; auto. congruence. }
  assert (G2 : forall e l m, let r := fold_left (fun m i => fold_left (fun m j => g j m e i) l3 m) l m in
    m <= r /\ (forall i j, In i l -> In j l3 -> Rabs (D e i j) <= r) /\
    (r = m \/ exists i j, In i l /\ In j l3 /\ Rabs (D e i j) = r)).
  { intros e. induction l as [|i l IH]; intros m; cbn.
    - split; [lra|]. split; [tauto|auto].
    - destruct (G3 e i l3 m) as (B1 & B2 & B3).
      destruct (IH (fold_left (fun m j => g j m e i) l3 m)) as (A1 & A2 & A3).
      split; [lra|]. split.
      + intros i' j [<-|Hi] Hj; auto. specialize (B2 j Hj). lra.
      + destruct A3 as [A3|(i' & j & Hi & Hj & E)]; [|right; exists i', j; auto].
        destruct B3 as [B3|(j & Hj & E)]; [left; congruence|].
        right. exists i, j. split; auto. split; auto. congruence. }
  induction l1 as [|e l IH]; intros m; cbn.
  - split; [lra|]. split; [tauto|auto].
  - destruct (G2 e l2 m) as (B1 & B2 & B3).
    destruct (IH (fold_left (fun m i => fold_left (fun m j => g j m e i) l3 m) l2 m)) as (A1 & A2 & A3).
    split; [lra|]. split.
    + intros e' i j [<-|He] Hi Hj; auto. specialize (B2 i j Hi Hj). lra.
    + destruct A3 as [A3|(e' & i & j & He & Hi & Hj & E)]; [|right; exists e', i, j; auto].
      destruct B3 as [B3|(i & j & Hi & Hj & E)]; [left; congruence|].
      right. exists e, i, j. split; auto. split; auto. split; auto. congruence.
Qed.

Lemma maxval_sup : is_sup mx.
Proof.
  destruct (fold3_ub (seq 0 ne) (seq 0 nr) (seq 0 nc) 0) as (A1 & A2 & A3).
  change (fold_left _ (seq 0 ne) 0) with mx in A1, A2, A3. split; [|split; auto].
  - intros e i j He Hi Hj. apply A2; apply in_seq; lia.
  - destruct A3 as [A3|(e & i & j & He & Hi & Hj & E)]; auto.
    right. exists e, i, j. apply in_seq in He, Hi, Hj. repeat split; auto; lia.
Qed.

Variable tol : R.
Notation ent := (entries ne nr nc D tol).

Lemma keep_spec a : keep ne nr nc D tol a = true <-> mx <> 0 /\ tol * mx < Rabs a.
Proof.
  unfold keep. destruct maxval_sup as (_ & _ & P).
  destruct (Req_EM_T mx 0) as [Z|Z]; [split; [discriminate|tauto]|].
  assert (0 < mx) by lra.
  destruct (Rlt_dec tol (Rabs a / mx)) as [L|L]; split; intros H0; auto; try discriminate.
  - split; auto. apply Rmult_lt_compat_r with (r := mx) in L; auto.
    unfold Rdiv in L. rewrite Rmult_assoc, Rinv_l in L by auto. lra.
  - destruct H0 as [_ H0]. exfalso. apply L. apply Rmult_lt_reg_r with mx; auto.
    unfold Rdiv. rewrite Rmult_assoc, Rinv_l by auto. lra.
Qed.

(** *** What is stored *)

(** For all tables and tolerances, on a build where host and device share memory: the
    retained entries of a row are exactly those above tol*max, with their values
    unchanged, in increasing column order. *)
Theorem C13_kept e i : (e < ne)%nat -> (i < nr)%nat ->
  (forall k, (k < nnz ne nr nc D tol true e i)%nat ->
     (columns ne nr nc D tol e i k < nc)%nat /\
     values ne nr nc D tol e i k = D e i (columns ne nr nc D tol e i k) /\
     tol * mx < Rabs (D e i (columns ne nr nc D tol e i k))) /\
  (forall k k', (k < k' < nnz ne nr nc D tol true e i)%nat ->
     (columns ne nr nc D tol e i k < columns ne nr nc D tol e i k')%nat) /\
  (forall j, (j < nc)%nat -> mx <> 0 -> tol * mx < Rabs (D e i j) ->
     exists k, (k < nnz ne nr nc D tol true e i)%nat /\ columns ne nr nc D tol e i k = j).
Proof.
  intros He Hi. unfold nnz.
  set (js := filter (fun j => keep ne nr nc D tol (D e i j)) (seq 0 nc)).
  assert (EN : ent e i = map (fun j => (j, D e i j)) js) by reflexivity.
  assert (EL : length (ent e i) = length js) by (rewrite EN, map_length; auto).
  assert (EC : forall k, columns ne nr nc D tol e i k = nth k js 0%nat).
  { intros k. unfold columns. rewrite EN, map_map. cbn [fst]. rewrite map_id. auto. }
  assert (EV : forall k, (k < length js)%nat -> values ne nr nc D tol e i k = D e i (nth k js 0%nat)).
  { intros k Hk. unfold values. rewrite EN, map_map. cbn [snd].
    rewrite nth_indep with (d' := D e i 0%nat) by (rewrite map_length; auto). apply map_nth. }
  assert (SJ : forall a b l, (forall x, In x l -> (a <= x)%nat) ->
     (forall k k', (k < k' < length l)%nat -> (nth k l 0 < nth k' l 0)%nat) -> (b < a)%nat ->
     forall k k', (k < k' < length (b :: l))%nat -> (nth k (b :: l) 0 < nth k' (b :: l) 0)%nat).
  { intros a b l Ha HS Hb [|k] [|k'] Hk; cbn in *; try lia.
    - assert (a <= nth k' l 0)%nat by (apply Ha, nth_In; lia). lia.
    - apply HS. lia. }
  assert (SO : forall n a, let l := filter (fun j => keep ne nr nc D tol (D e i j)) (seq a n) in
     (forall x, In x l -> (a <= x)%nat) /\
     forall k k', (k < k' < length l)%nat -> (nth k l 0 < nth k' l 0)%nat).
  { induction n as [|n IH]; intros a; cbn -[keep].
    - split; [tauto|]. intros; lia.
    - destruct (IH (S a)) as [I1 I2].
      assert (I1' : forall x, In x (filter (fun j => keep ne nr nc D tol (D e i j)) (seq (S a) n)) -> (a <= x)%nat)
        by (intros x Hx; specialize (I1 x Hx); lia).
      destruct (keep ne nr nc D tol (D e i a)).
      + split.
        * intros x [<-|Hx]; auto.
        * apply SJ with (a := S a); auto.
      + split; auto. }
  split; [|split].
  - intros k Hk. rewrite EL in Hk. rewrite EC, EV by auto.
    assert (X : In (nth k js 0%nat) js) by (apply nth_In; auto).
    apply filter_In in X as [X1 X2]. apply in_seq in X1. apply keep_spec in X2.
    split; [lia|]. split; auto. tauto.
  - intros k k' Hk. rewrite EL in Hk. rewrite !EC. apply (SO nc 0%nat). auto.
  - intros j Hj Hm Ha.
    assert (X : In j js) by (apply filter_In; split; [apply in_seq; lia|apply keep_spec; auto]).
    apply In_nth with (d := 0%nat) in X as (k & Hk & E). exists k. rewrite EL, EC. auto.
Qed.

(** *** Products *)

Lemma sparse_row_filter e i x :
  sparse_row ne nr nc D tol true e i x =
  rsum (map (fun j => D e i j * x j) (filter (fun j => keep ne nr nc D tol (D e i j)) (seq 0 nc))).
Proof.
  unfold sparse_row, nnz, values, columns, entries.
  set (js := filter _ (seq 0 nc)). rewrite map_length.
  rewrite !map_map. cbn [fst snd]. rewrite map_id.
  assert (G : forall l : list nat, map (fun k => nth k (map (fun j => D e i j) l) 0 * x (nth k l 0%nat)) (seq 0 (length l))
    = map (fun j => D e i j * x j) l).
  { induction l as [|j l IH]; auto. cbn [length seq map nth]. f_equal.
    rewrite <- IH, <- seq_shift, map_map. apply map_ext. intros k. reflexivity. }
  rewrite G. reflexivity.
Qed.

Lemma filter_split {A} (p : A -> bool) (f : A -> R) l :
  rsum (map f l) = rsum (map f (filter p l)) + rsum (map (fun x => if p x then 0 else f x) l).
Proof.
  induction l as [|a l IH]; rs; [ring|]. destruct (p a); rs; rewrite IH; ring.
Qed.

(** The error of the compressed product is at most tol*max*sum|x|. *)
Theorem C13_product_error e i x : 0 <= tol -> (e < ne)%nat -> (i < nr)%nat ->
  Rabs (dense_row nc D e i x - sparse_row ne nr nc D tol true e i x) <=
  tol * mx * rsum (map (fun j => Rabs (x j)) (seq 0 nc)).
Proof.
  intros Ht He Hi. rewrite sparse_row_filter. unfold dense_row.
  rewrite (filter_split (fun j => keep ne nr nc D tol (D e i j)) (fun j => D e i j * x j)).
  match goal with |- Rabs (?a + ?b - ?a) <= _ => replace (a + b - a) with b by ring end.
  eapply Rle_trans; [apply rsum_abs|]. rewrite <- rsum_map_scal. apply rsum_le.
  intros j Hj. apply in_seq in Hj.
  destruct maxval_sup as (U & _ & P).
  destruct (keep ne nr nc D tol (D e i j)) eqn:K.
  - rewrite Rabs_R0. apply Rmult_le_pos; [apply Rmult_le_pos; auto|apply Rabs_pos].
  - rewrite Rabs_mult. apply Rmult_le_compat_r; [apply Rabs_pos|].
    destruct (Req_dec mx 0) as [Z|Z].
    + specialize (U e i j He Hi ltac:(lia)). rewrite Z in U |- *. lra.
    + apply Rnot_lt_le. intros L. assert (keep ne nr nc D tol (D e i j) = true) by (apply keep_spec; auto).
      congruence.
Qed.

End S.

(** With tolerance zero the product is exact. *)
Theorem C13_exact ne nr nc D e i x : (e < ne)%nat -> (i < nr)%nat ->
  sparse_row ne nr nc D 0 true e i x = dense_row nc D e i x.
Proof.
  intros He Hi. pose proof (C13_product_error ne nr nc D 0 e i x ltac:(lra) He Hi) as H.
  rewrite !Rmult_0_l in H. pose proof (Rabs_pos (dense_row nc D e i x - sparse_row ne nr nc D 0 true e i x)).
  assert (Z : Rabs (dense_row nc D e i x - sparse_row ne nr nc D 0 true e i x) = 0) by lra.
  destruct (Req_dec (dense_row nc D e i x - sparse_row ne nr nc D 0 true e i x) 0) as [E|E]; [lra|].
  apply Rabs_no_R0 in E. contradiction.
Qed.

(** [size] counts the retained entries. *)
Theorem C13_size ne nr nc D tol :
  size ne nr nc D tol true =
  list_sum (map (fun e => list_sum (map (fun i =>
    length (filter (fun j => keep ne nr nc D tol (D e i j)) (seq 0 nc))) (seq 0 nr))) (seq 0 ne)).
Proof. unfold size, nnz, entries. do 2 (f_equal; apply map_ext; intros ?). rewrite map_length. auto. Qed.

(** *** Local column numbers *)
Section Local.
Variables (ne nr nc : nat) (D : nat -> nat -> nat -> R) (tol : R) (sm : bool).

Lemma find_last_pos_spec c off cur :
  (In c off -> nth (find_last_pos c off cur) off 0%nat = c /\ (find_last_pos c off cur < length off)%nat) /\
  (~ In c off -> find_last_pos c off cur = cur).
Proof.
  unfold find_last_pos.
  assert (G : forall n, (n <= length off)%nat ->
    let r := fold_left (fun cur j => if (nth j off 0 =? c)%nat then j else cur) (seq 0 n) cur in
    ((exists j, (j < n)%nat /\ nth j off 0%nat = c) -> nth r off 0%nat = c /\ (r < n)%nat) /\
    ((forall j, (j < n)%nat -> nth j off 0%nat <> c) -> r = cur)).
  { induction n as [|n IH]; intros Hn.
    - split; [intros (j & Hj & _); lia|auto].
    - rewrite seq_S, fold_left_app. cbn [fold_left plus].
      destruct (IH ltac:(lia)) as [I1 I2]. destruct (Nat.eqb_spec (nth n off 0%nat) c) as [E|E].
      + split; [intros _; split; [auto|lia]|]. intros H. exfalso. apply (H n); auto.
      + split.
        * intros (j & Hj & Ej). destruct (Nat.eq_dec j n) as [->|]; [contradiction|].
          destruct I1 as [I1 I1']; [exists j; split; [lia|auto]|]. split; auto; lia.
        * intros H. apply I2. intros; apply H; lia. }
  destruct (G (length off) (le_n _)) as [G1 G2]. split.
  - intros H. apply In_nth with (d := 0%nat) in H as (j & Hj & E). apply G1. eauto.
  - intros H. apply G2. intros j Hj E. apply H. rewrite <- E. apply nth_In. auto.
Qed.

Lemma NoDup_app_r {A} (l m : list A) : NoDup (l ++ m) -> NoDup m.
Proof. induction l; cbn; auto. inversion 1; auto. Qed.

(** If row and column belong to the same variable (and positions are not shared
    between variables), the local column number leads back to the column. *)
Theorem C13_local_columns offs e row k off :
  NoDup (concat offs) -> In off offs -> In row off -> (k < nnz ne nr nc D tol sm e row)%nat ->
  In (columns ne nr nc D tol e row k) off ->
  nth (local_columns ne nr nc D tol sm offs e row k) off 0%nat = columns ne nr nc D tol e row k /\
  (local_columns ne nr nc D tol sm offs e row k < length off)%nat.
Proof.
  intros ND HO HR HK HC. unfold local_columns.
  set (c := columns ne nr nc D tol e row k) in *.
  assert (KB : (k <? nnz ne nr nc D tol sm e row)%nat = true) by (apply Nat.ltb_lt; auto). rewrite KB.
  set (inner := fun (off : list nat) (cur : nat) =>
    fold_left (fun cur r => if (r =? row)%nat && true then find_last_pos c off cur else cur) off cur).
  change (fold_left _ offs 0%nat) with (fold_left (fun cur off => inner off cur) offs 0%nat).
  assert (SKIP : forall o cur, ~ In row o -> inner o cur = cur).
  { intros o cur HN. unfold inner. generalize o at 1 as full. intros full. revert cur.
    induction o as [|r o IH]; intros cur; cbn; auto.
    destruct (Nat.eqb_spec r row) as [E|E]; [destruct HN; left; auto|]. cbn. apply IH.
    intros H; apply HN; right; auto. }
  assert (HIT : forall cur, nth (inner off cur) off 0%nat = c /\ (inner off cur < length off)%nat).
  { unfold inner.
    assert (G : forall l cur, In row l \/ (nth cur off 0%nat = c /\ (cur < length off)%nat) ->
       let r := fold_left (fun cur r => if (r =? row)%nat && true then find_last_pos c off cur else cur) l cur in
       nth r off 0%nat = c /\ (r < length off)%nat).
    { induction l as [|r l IH]; intros cur H.
      - destruct H as [[]|H]; exact H.
      - cbn [fold_left]. destruct (Nat.eqb_spec r row) as [E|E]; cbn [andb].
        + apply IH. right. apply (proj1 (find_last_pos_spec c off cur)). auto.
        + apply IH. destruct H as [[H|H]|H]; auto. congruence. }
    intros cur. apply G. auto. }
  assert (AFTER : forall l cur, (forall o, In o l -> ~ In row o) ->
     fold_left (fun cur off => inner off cur) l cur = cur).
  { induction l as [|o l IH]; intros cur H; cbn; auto. rewrite SKIP by (apply H; left; auto).
    apply IH. intros; apply H; right; auto. }
  apply in_split in HO as (l1 & l2 & ->).
  rewrite fold_left_app. cbn [fold_left]. rewrite AFTER with (l := l2); auto.
  intros o Ho Hr. rewrite concat_app in ND. apply NoDup_app_r in ND. cbn in ND.
  clear - ND HR Ho Hr. induction off as [|a off IH]; [destruct HR|].
  cbn in ND. inversion ND as [|? ? N1 N2]; subst. destruct HR as [->|HR]; auto.
  apply N1. apply in_or_app. right. apply in_concat. exists o. auto.
Qed.
End Local.

Print Assumptions C13_kept.
Print Assumptions C13_product_error.
Print Assumptions C13_exact.
Print Assumptions C13_local_columns.

(** A 2x2 matrix with one negligible entry. *)
Definition D22 (e i j : nat) : R :=
  match i, j with 0%nat, 0%nat => 2 | 0%nat, _ => 1/100 | _, 0%nat => -1 | _, _ => 1 end.
Lemma max22 : maxval 1 2 2 D22 = 2.
Proof.
  pose proof (maxval_sup 1 2 2 D22) as S0. unfold is_sup in S0. destruct S0 as (U & A & P).
  assert (2 <= maxval 1 2 2 D22).
  { pose proof (U 0%nat 0%nat 0%nat ltac:(lia) ltac:(lia) ltac:(lia)) as H. cbn [D22] in H. rewrite Rabs_right in H; lra. }
  destruct A as [A|(e & i & j & He & Hi & Hj & E)]; [lra|].
  destruct i as [|[|]]; try lia; destruct j as [|[|]]; try lia; cbn [D22] in E; revert E;
    unfold Rabs; destruct (Rcase_abs _); lra.
Qed.
Example C13_example : nnz 1 2 2 D22 (1/10) true 0 0 = 1%nat /\ values 1 2 2 D22 (1/10) 0 0 0 = 2
  /\ nnz 1 2 2 D22 (1/10) true 0 1 = 2%nat.
Proof.
  assert (K : forall a, Rabs a <= 2/10 -> keep 1 2 2 D22 (1/10) a = false).
  { intros a H. destruct (keep 1 2 2 D22 (1/10) a) eqn:E; auto. apply keep_spec in E. rewrite max22 in E. lra. }
  assert (K' : forall a, 2/10 < Rabs a -> keep 1 2 2 D22 (1/10) a = true).
  { intros a H. apply keep_spec. rewrite max22. lra. }
  unfold nnz, values, entries. cbn [seq filter D22].
  rewrite (K' 2), (K (1/100)), (K' (-1)), (K' 1); [cbn; auto| | | |]; unfold Rabs; destruct (Rcase_abs _); lra.
Qed.

(** With separate device memory the number of entries per row stays zero, so every
    product is zero: deep_copy is called with its arguments exchanged. *)
Theorem C13_separate_memory_refuted :
  exists D x, dense_row 2 D 0 0 x <> 0 /\ sparse_row 1 2 2 D 0 false 0 0 x = 0.
Proof.
  exists D22, (fun _ => 1). split; [unfold dense_row; cbn; lra|reflexivity].
Qed.
Print Assumptions C13_separate_memory_refuted.
