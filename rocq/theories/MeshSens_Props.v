(** C361, C362: sensors kept in the element fields of the mesh file. *)
From Coq Require Import Bool Arith Lia ZArith QArith String DecimalString Decimal List.
From Verif Require Import MeshSens_Model.
Import ListNotations.
Local Open Scope string_scope.
Local Open Scope list_scope.
Local Open Scope nat_scope.

(** *** Specification *)

(** The file has the value [v] for element [i] in the field [name]. *)
Definition says (fs : list field) (name : string) (i : nat) (v : Q) : Prop := exists vs, In (name, vs) fs /\ nth_error vs i = Some v.
Definition distinct (fs : list field) : Prop := NoDup (map fst fs).
(** The field with the coordinate of sensor number [k] (from 1): "sensor_3_Loc_y". *)
Definition field_of (k : nat) (axis : string) : string :=
  ("sensor_" ++ NilEmpty.string_of_uint (Nat.to_uint k) ++ "_Loc_" ++ axis)%string.
(** Sensor [j] (from 0) of element [i] of the file: field [counter] has the number of sensors. *)
Definition recorded (dim : nat) (counter resp : string) (fs : list field) (i j : nat) (s : sensor) : Prop :=
  (exists c, says fs counter i (inject_Z (Z.of_nat c)) /\ j < c) /\
  Forall2 (fun axis x => says fs (field_of (j + 1) axis) i x) (firstn dim ["x"; "y"; "z"]) (point s) /\
  says fs resp i (datum s) /\ owner s = (i, 0).
(** A file with [n] elements: whole numbers of sensors, and all the fields they need. *)
Definition complete (dim : nat) (counter resp : string) (fs : list field) (n : nat) : Prop :=
  distinct fs /\ forall i, i < n -> exists c, says fs counter i (inject_Z (Z.of_nat c)) /\
    forall j, j < c -> (forall axis, In axis (firstn dim ["x"; "y"; "z"]) -> exists x, says fs (field_of (j + 1) axis) i x) /\ exists d, says fs resp i d.

(** *** Lists *)

Lemma mapM_in {A B} (f : A -> option B) : forall l r, mapM f l = Some r -> forall y, In y r <-> exists x, In x l /\ f x = Some y.
Proof.
  induction l as [|x l IH]; intros r; cbn [mapM]; [injection 1 as <-; intros; split; [intros []|intros (? & [] & _)]|].
  destruct (f x) as [z|] eqn:E; cbn [bind]; [|discriminate]. destruct (mapM f l) as [t|]; [|discriminate]. injection 1 as <-. intro y. cbn [In]. rewrite (IH t eq_refl). split.
  - intros [->|(u & U & F)]; [exists x; auto|exists u; auto].
  - intros (u & [->|U] & F); [left; congruence|right; eauto].
Qed.
Lemma mapM_some {A B} (f : A -> option B) : forall l, (forall x, In x l -> exists y, f x = Some y) -> exists r, mapM f l = Some r.
Proof.
  induction l as [|x l IH]; intro H; cbn [mapM]; [eauto|]. destruct (H x (or_introl eq_refl)) as [y ->]. destruct IH as [r ->]; [intros; apply H; right; auto|]. cbn. eauto.
Qed.
Lemma mapM_each {A B} (f : A -> option B) x : forall l r, mapM f l = Some r -> In x l -> exists y, f x = Some y.
Proof.
  induction l as [|z l IH]; intros r; cbn [mapM]; [intros _ []|]. destruct (f z) as [y|] eqn:E; cbn [bind]; [|discriminate]. destruct (mapM f l) as [t|]; [|discriminate].
  intros _ [->|I]; eauto.
Qed.
Lemma mapM_length {A B} (f : A -> option B) : forall l r, mapM f l = Some r -> length r = length l.
Proof.
  induction l as [|x l IH]; intros r; cbn [mapM]; [injection 1 as <-; auto|]. destruct (f x); cbn [bind]; [|discriminate]. destruct (mapM f l) as [t|]; [|discriminate].
  injection 1 as <-. cbn. f_equal. auto.
Qed.
Lemma mapM_forall2 {A B} (f : A -> option B) : forall l r, mapM f l = Some r <-> Forall2 (fun x y => f x = Some y) l r.
Proof.
  induction l as [|x l IH]; intros r; cbn [mapM].
  - split; [injection 1 as <-; constructor|inversion 1; auto].
  - destruct (f x) as [z|] eqn:E; cbn [bind].
    + split.
      * destruct (mapM f l) as [t|] eqn:M; [|discriminate]. injection 1 as <-. constructor; auto. apply IH. auto.
      * inversion 1; subst. rewrite E in H2. injection H2 as ->. apply IH in H4. rewrite H4. reflexivity.
    + split; [discriminate|]. inversion 1; subst. congruence.
Qed.
Lemma says_value fs name i v : distinct fs -> value_named fs name i = Some v <-> says fs name i v.
Proof.
  unfold value_named, value, says. induction fs as [|[m vs] fs IH]; intro D.
  - cbn. split; [discriminate|intros (? & [] & _)].
  - inversion D as [|a b X Y]; subst. cbn [find_index fst]. destruct (String.eqb_spec m name) as [->|N]; cbn [nth_error].
    + cbn [bind snd]. split; [intro; exists vs; split; [left|]; auto|]. intros (ws & [E|E] & W); [congruence|]. destruct X. apply in_map_iff. exists (name, ws). auto.
    + rewrite (IH Y). split; intros (ws & E & W); exists ws; split; auto; [right; auto|]. destruct E as [E|E]; [congruence|auto].
Qed.
Lemma Forall2_iff {A B} (P Q : A -> B -> Prop) : (forall a b, P a b <-> Q a b) -> forall l r, Forall2 P l r <-> Forall2 Q l r.
Proof. intros H l r. split; induction 1; constructor; auto; apply H; auto. Qed.
Lemma located j axis : location j axis = field_of (j + 1) axis.
Proof. rewrite Nat.add_1_r. reflexivity. Qed.
Lemma sensor_at_iff dim resp fs i j s : distinct fs -> sensor_at dim resp fs i j = Some s <->
  Forall2 (fun axis x => says fs (field_of (j + 1) axis) i x) (firstn dim ["x"; "y"; "z"]) (point s) /\ says fs resp i (datum s) /\ owner s = (i, 0).
Proof.
  intro D. unfold sensor_at. rewrite <- (says_value _ _ _ _ D), <- (Forall2_iff (fun axis x => value_named fs (location j axis) i = Some x)) by (intros; rewrite <- located; apply says_value; auto).
  rewrite <- mapM_forall2. split.
  - destruct (mapM _ _) as [p|]; cbn [bind]; [|discriminate]. destruct (value_named fs resp i); cbn [bind]; [|discriminate]. injection 1 as <-. cbn. auto.
  - intros (-> & -> & O). cbn [bind]. destruct s. cbn in *. congruence.
Qed.
Lemma trunc_nat c : Z.to_nat (trunc (inject_Z (Z.of_nat c))) = c.
Proof. unfold trunc, inject_Z. cbn [Qnum Qden]. rewrite Z.quot_1_r. apply Nat2Z.id. Qed.
Lemma first_named (fs : list field) counter vs rest i : fs = (counter, vs) :: rest -> value fs 0 i = value_named fs counter i.
Proof. intros ->. unfold value_named. cbn [find_index fst]. rewrite String.eqb_refl. reflexivity. Qed.
Lemma totals dim resp fs block : forall l cs ls, mapM (fun i => option_map trunc (value fs block i)) l = Some cs -> mapM (in_group dim resp fs block) l = Some ls ->
  Forall (fun c => 0 <= c)%Z cs -> Z.of_nat (length (concat ls)) = fold_right Z.add 0%Z cs.
Proof.
  induction l as [|i l IH]; intros cs ls; cbn [mapM].
  - injection 1 as <-. injection 1 as <-. reflexivity.
  - unfold in_group at 1. destruct (value fs block i) as [c|]; cbn [bind option_map]; [|discriminate].
    destruct (mapM (fun _ => _) l) as [cs'|]; [|discriminate]. injection 1 as <-.
    destruct (mapM (sensor_at dim resp fs i) _) as [ss|] eqn:S; cbn [bind]; [|discriminate]. destruct (mapM (in_group dim resp fs block) l) as [ls'|]; [|discriminate].
    injection 1 as <-. intro F. inversion F; subst. cbn [concat fold_right]. rewrite app_length, (mapM_length _ _ _ S), seq_length. rewrite Nat2Z.inj_add, (IH cs' ls' eq_refl eq_refl H2), Z2Nat.id by auto. reflexivity.
Qed.

(** *** C361 *)

Section File.
Variables (dim : nat) (counter resp : string) (fs : list field) (vs : list Q) (rest : list field) (groups : nat).
Hypothesis first : fs = (counter, vs) :: rest.
Hypothesis whole : complete dim counter resp fs groups.
Lemma count_at i : i < groups -> exists c, says fs counter i (inject_Z (Z.of_nat c)) /\ value fs 0 i = Some (inject_Z (Z.of_nat c)) /\
  forall j, j < c -> (forall axis, In axis (firstn dim ["x"; "y"; "z"]) -> exists x, says fs (field_of (j + 1) axis) i x) /\ exists d, says fs resp i d.
Proof.
  intro I. destruct whole as [D W]. destruct (W i I) as (c & C & X). exists c. split; auto. split; auto.
  rewrite (first_named fs counter vs rest i first). apply says_value; auto.
Qed.
Lemma all_groups : exists cs ls, mapM (fun i => option_map trunc (value fs 0 i)) (seq 0 groups) = Some cs /\ Forall (fun c => 0 <= c)%Z cs /\
  mapM (in_group dim resp fs 0) (seq 0 groups) = Some ls.
Proof.
  destruct (mapM_some (fun i => option_map trunc (value fs 0 i)) (seq 0 groups)) as [cs C].
  { intros i I. apply in_seq in I. destruct (count_at i ltac:(lia)) as (c & _ & -> & _). cbn. eauto. }
  destruct (mapM_some (in_group dim resp fs 0) (seq 0 groups)) as [ls L].
  { intros i I. apply in_seq in I. destruct (count_at i ltac:(lia)) as (c & _ & V & X). unfold in_group. rewrite V. cbn [bind]. rewrite trunc_nat. apply mapM_some.
    intros j J. apply in_seq in J. destruct (X j ltac:(lia)) as [Y [d Z]]. destruct whole as [D _]. unfold sensor_at.
    destruct (mapM_some (fun axis => value_named fs (location j axis) i) (firstn dim ["x"; "y"; "z"])) as [p ->].
    - intros axis A. destruct (Y axis A) as [x S]. exists x. rewrite located. apply says_value; auto.
    - cbn [bind]. apply says_value in Z; auto. rewrite Z. cbn. eauto. }
  exists cs, ls. repeat split; auto. apply Forall_forall. intros z Z. apply (proj1 (mapM_in _ _ _ C z)) in Z. destruct Z as (i & I & E). apply in_seq in I.
  destruct (count_at i ltac:(lia)) as (c & _ & V & _). rewrite V in E. cbn [option_map] in E. injection E as <-. unfold trunc, inject_Z. cbn [Qnum Qden]. rewrite Z.quot_1_r. lia.
Qed.
(** The import succeeds, and the sensors are those recorded for the first [groups] elements. *)
Theorem C362_first_elements_partial : exists l, import dim resp fs 0 groups = Some l /\
  forall s, In s l <-> exists i j, i < groups /\ recorded dim counter resp fs i j s.
Proof.
  destruct all_groups as (cs & ls & C & P & L). destruct whole as [D W].
  assert (X : forall s, In s (concat ls) <-> exists i j, i < groups /\ recorded dim counter resp fs i j s).
  { intro s. rewrite in_concat. split.
    - intros (g & G & S). apply (proj1 (mapM_in _ _ _ L g)) in G. destruct G as (i & I & E). apply in_seq in I. unfold in_group in E.
      destruct (count_at i ltac:(lia)) as (c & Cc & V & _). rewrite V in E. cbn [bind] in E. rewrite trunc_nat in E. apply (proj1 (mapM_in _ _ _ E s)) in S.
      destruct S as (j & J & S). apply in_seq in J. exists i, j. split; [lia|]. split; [exists c; split; auto; lia|]. apply sensor_at_iff; auto.
    - intros (i & j & I & (c & Cc & J) & S). destruct (count_at i I) as (c' & Cc' & V & _).
      assert (c' = c) as ->. { apply says_value in Cc, Cc'; auto. rewrite Cc in Cc'. injection Cc' as E. lia. }
      apply (sensor_at_iff dim resp fs i j s D) in S. destruct (mapM_some (sensor_at dim resp fs i) (seq 0 c)) as [g G].
      { intros k K. apply in_seq in K. assert (Y : exists g, in_group dim resp fs 0 i = Some g).
        { apply (mapM_each _ i _ _ L). apply in_seq. lia. }
        destruct Y as [g Y]. unfold in_group in Y. rewrite V in Y. cbn [bind] in Y. rewrite trunc_nat in Y. apply (mapM_each _ k _ _ Y). apply in_seq. lia. }
      exists g. split.
      + apply (mapM_in _ _ _ L g). exists i. split; [apply in_seq; lia|]. unfold in_group. rewrite V. cbn [bind]. rewrite trunc_nat. exact G.
      + apply (mapM_in _ _ _ G s). exists j. split; [apply in_seq; lia|]. exact S. }
  pose proof (totals _ _ _ _ _ _ _ C L P) as T. unfold import. rewrite C. cbn [bind]. destruct (Z.ltb_spec 0 (fold_right Z.add 0%Z cs)) as [Z|Z].
  - rewrite L. cbn [bind]. rewrite T, Z.leb_refl. exists (concat ls). auto.
  - exists []. split; auto. intro s. rewrite <- X. assert (concat ls = []) as -> by (apply length_zero_iff_nil; lia). tauto.
Qed.
(** If every group is one element, these are all the sensors of the file. *)
Theorem C361_all : length vs = groups -> exists l, import dim resp fs 0 groups = Some l /\ forall s, In s l <-> exists i j, recorded dim counter resp fs i j s.
Proof.
  intro E. destruct C362_first_elements_partial as (l & I & H). exists l. split; auto. intro s. rewrite H. split; [intros (i & j & _ & R); eauto|].
  intros (i & j & R). exists i, j. split; auto. destruct R as ((c & C & _) & _). destruct whole as [D _]. apply says_value in C; auto.
  rewrite <- (first_named fs counter vs rest i first), first in C. cbn in C. rewrite <- E. apply nth_error_Some. congruence.
Qed.
(** As many as the file counts. *)
Theorem C361_number (c : nat -> nat) l : (forall i, i < groups -> says fs counter i (inject_Z (Z.of_nat (c i)))) -> import dim resp fs 0 groups = Some l ->
  length l = list_sum (map c (seq 0 groups)).
Proof.
  intros H I. destruct all_groups as (cs & ls & C & P & L). destruct whole as [D _]. pose proof (totals _ _ _ _ _ _ _ C L P) as T.
  assert (Z : cs = map (fun i => Z.of_nat (c i)) (seq 0 groups)).
  { assert (V : forall i, In i (seq 0 groups) -> value fs 0 i = Some (inject_Z (Z.of_nat (c i)))).
    { intros i J. apply in_seq in J. rewrite (first_named fs counter vs rest i first). apply says_value; auto. apply H. lia. }
    clear - C V. revert cs C V. generalize (seq 0 groups). induction l as [|i l IH]; intros cs; cbn [mapM].
    - injection 1 as <-. reflexivity.
    - intros C V. rewrite (V i (or_introl eq_refl)) in C. cbn [option_map bind] in C. destruct (mapM _ l) as [t|]; [|discriminate]. injection C as <-. cbn [map]. f_equal.
      + unfold trunc, inject_Z. cbn [Qnum Qden]. apply Z.quot_1_r.
      + apply IH; auto. intros. apply V. right. auto. }
  assert (S : fold_right Z.add 0%Z cs = Z.of_nat (list_sum (map c (seq 0 groups)))).
  { rewrite Z. clear. generalize (seq 0 groups). induction l as [|i l IH]; [reflexivity|]. cbn [map fold_right list_sum]. rewrite IH. change (fold_right Nat.add 0 (map c l)) with (list_sum (map c l)). lia. }
  unfold import in I. rewrite C in I. cbn [bind] in I. destruct (Z.ltb_spec 0 (fold_right Z.add 0%Z cs)) as [X|X].
  - rewrite L in I. cbn [bind] in I. rewrite T, Z.leb_refl in I. injection I as <-. lia.
  - injection I as <-. cbn [length]. lia.
Qed.
End File.
Definition file : list field :=
  [("sensors", [0; 2]%Q); ("sensor_1_Loc_x", [9; 1]%Q); ("sensor_2_Loc_x", [9; 3]%Q); ("T", [9; 5]%Q)].
Example C361_example : complete 1 "sensors" "T" file 2 /\
  import 1 "T" file 0 2 = Some [{| point := [1%Q]; datum := 5; owner := (1, 0) |}; {| point := [3%Q]; datum := 5; owner := (1, 0) |}].
Proof.
  split; [|reflexivity]. split.
  - unfold distinct, file. cbn. repeat constructor; cbn; intuition discriminate.
  - intros i I. assert (i = 0 \/ i = 1) as [-> | ->] by lia.
    + exists 0. split; [exists [0; 2]%Q; split; [left|]; reflexivity|lia].
    + exists 2. split; [exists [0; 2]%Q; split; [left|]; reflexivity|]. intros j J. assert (j = 0 \/ j = 1) as [-> | ->] by lia; (split; [intros axis [<-|[]]|]).
      * exists 1%Q, [9; 1]%Q. split; [cbn; auto|reflexivity].
      * exists 5%Q, [9; 5]%Q. split; [cbn; auto|reflexivity].
      * exists 3%Q, [9; 3]%Q. split; [cbn; auto 6|reflexivity].
      * exists 5%Q, [9; 5]%Q. split; [cbn; auto|reflexivity].
Qed.

(** *** C362 *)

(** The claim: the sensors of the file are imported however its [n] elements are put in groups, and
    whatever the number of the block. *)
Definition imports_all (block n groups : nat) : Prop :=
  forall dim counter resp vs rest l, length vs = n -> complete dim counter resp ((counter, vs) :: rest) n ->
    import dim resp ((counter, vs) :: rest) block groups = Some l ->
    forall s, In s l <-> exists i j, recorded dim counter resp ((counter, vs) :: rest) i j s.
Lemma one_recorded : recorded 1 "sensors" "T" file 1 0 {| point := [1%Q]; datum := 5; owner := (1, 0) |}.
Proof.
  split; [exists 2; split; [exists [0; 2]%Q; split; [left|]; reflexivity|lia]|]. split; [|split; [exists [9; 5]%Q; split; [cbn; auto|reflexivity]|reflexivity]].
  constructor; [|constructor]. exists [9; 1]%Q. split; [cbn; auto|reflexivity].
Qed.
(** Two elements in one group: the sensors of the second are lost. *)
Theorem C362_groups_refuted : ~ imports_all 0 2 1.
Proof.
  intro H. apply (proj2 (H 1 "sensors" "T" [0; 2]%Q (tl file) [] eq_refl (proj1 C361_example) eq_refl {| point := [1%Q]; datum := 5; owner := (1, 0) |})).
  exists 1, 0. exact one_recorded.
Qed.
(** On the second block the second field of the file is taken for the number of sensors. *)
Theorem C362_block_refuted : ~ imports_all 1 2 2.
Proof.
  intro H. specialize (H 0 "sensors" "T" [0; 1]%Q [("T", [0; 0]%Q)] []).
  assert (C : complete 0 "sensors" "T" [("sensors", [0; 1]%Q); ("T", [0; 0]%Q)] 2).
  { split; [unfold distinct; cbn; repeat constructor; cbn; intuition discriminate|]. intros i I. assert (i = 0 \/ i = 1) as [-> | ->] by lia.
    - exists 0. split; [exists [0; 1]%Q; split; [left|]; reflexivity|lia].
    - exists 1. split; [exists [0; 1]%Q; split; [left|]; reflexivity|]. intros j J. split; [intros axis []|]. exists 0%Q, [0; 0]%Q. split; [cbn; auto|reflexivity]. }
  apply (proj2 (H eq_refl C eq_refl {| point := []; datum := 0%Q; owner := (1, 0) |})). exists 1, 0.
  split; [exists 1; split; [exists [0; 1]%Q; split; [left|]; reflexivity|lia]|]. split; [constructor|]. split; [|reflexivity]. exists [0; 0]%Q. split; [cbn; auto|reflexivity].
Qed.
(** All the sensors of an element have the same datum. *)
Theorem C362_same_data_refuted dim resp fs i j k s t : sensor_at dim resp fs i j = Some s -> sensor_at dim resp fs i k = Some t -> datum s = datum t.
Proof.
  unfold sensor_at. destruct (mapM _ _); cbn [bind]; [|discriminate]. destruct (value_named fs resp i); cbn [bind]; [|discriminate]. injection 1 as <-.
  destruct (mapM _ _); cbn [bind]; [|discriminate]. injection 1 as <-. reflexivity.
Qed.

Print Assumptions C361_all.
Print Assumptions C361_number.
Print Assumptions C362_first_elements_partial.
Print Assumptions C362_groups_refuted.
Print Assumptions C362_block_refuted.
Print Assumptions C362_same_data_refuted.
