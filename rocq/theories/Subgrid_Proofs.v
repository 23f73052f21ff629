(** Lemmas about refined meshes. *)
From Coq Require Import List Arith ZArith Bool Reals Lia Lra Permutation.
From Verif Require Import Subgrid_Model Subgrid_Spec.
Import ListNotations.
Open Scope R_scope.

(** ** Lattice points *)
Section Lattice.
Variables (lo w tol : R) (d : nat).
Hypothesis w_pos : 0 < w.
Hypothesis tol_pos : 0 < tol.

Notation pos := (at_level lo w).

Lemma pow2_pos : forall r, 0 < 2 ^ r.
Proof. intros r. apply pow_lt. lra. Qed.

Lemma pos_length : forall r z, length (pos r z) = length z.
Proof. intros r z. apply map_length. Qed.
Lemma pos_nth : forall r z j, (j < length z)%nat -> nth j (pos r z) 0 = lo + w * IZR (nth j z 0%Z) / 2 ^ r.
Proof.
  intros r z j L. unfold at_level.
  rewrite (nth_indep _ 0 ((fun k => lo + w * IZR k / 2 ^ r) 0%Z)) by (rewrite map_length; exact L).
  apply (map_nth (fun k => lo + w * IZR k / 2 ^ r)).
Qed.
Lemma pos_inj : forall r z z', pos r z = pos r z' -> z = z'.
Proof.
  intros r z. induction z as [|x z IH]; intros [|y z'] E; try discriminate; [reflexivity|].
  cbn in E. injection E as E1 E2. f_equal; [|apply IH; exact E2].
  apply eq_IZR. pose proof (pow2_pos r) as P.
  assert (Q : w * IZR x / 2 ^ r = w * IZR y / 2 ^ r) by lra.
  apply (f_equal (fun v => v * 2 ^ r / w)) in Q.
  replace (w * IZR x / 2 ^ r * 2 ^ r / w) with (IZR x) in Q by (field; lra).
  replace (w * IZR y / 2 ^ r * 2 ^ r / w) with (IZR y) in Q by (field; lra). exact Q.
Qed.
Lemma pos_double : forall r z, pos r z = pos (S r) (map (Z.mul 2) z).
Proof.
  intros r z. unfold at_level. rewrite map_map. apply map_ext. intros k.
  rewrite mult_IZR. cbn [pow]. pose proof (pow2_pos r). field. lra.
Qed.

Lemma fold_plus_start : forall l a, fold_left Rplus l a = a + fold_left Rplus l 0.
Proof.
  induction l as [|x l IH]; intros a; cbn; [lra|]. rewrite IH, (IH (0 + x)). lra.
Qed.
Lemma fold_nonneg : forall l, (forall x, In x l -> 0 <= x) -> 0 <= fold_left Rplus l 0.
Proof.
  induction l as [|x l IH]; intros H; cbn; [lra|]. rewrite fold_plus_start.
  pose proof (H x (or_introl eq_refl)). assert (0 <= fold_left Rplus l 0) by (apply IH; intros; apply H; right; assumption). lra.
Qed.
Lemma fold_ge : forall l x, (forall y, In y l -> 0 <= y) -> In x l -> x <= fold_left Rplus l 0.
Proof.
  induction l as [|a l IH]; intros x H I; [destruct I|]. cbn. rewrite fold_plus_start.
  assert (0 <= fold_left Rplus l 0) by (apply fold_nonneg; intros; apply H; right; assumption).
  pose proof (H a (or_introl eq_refl)).
  destruct I as [->|I]; [lra|]. pose proof (IH x (fun y Y => H y (or_intror Y)) I). lra.
Qed.
Lemma sq_nonneg : forall a p x, In x (map (fun j => (nth j a 0 - nth j p 0) * (nth j a 0 - nth j p 0)) (seq 0 (List.length p))) -> 0 <= x.
Proof. intros a p x I. apply in_map_iff in I. destruct I as [j [<- _]]. apply Rle_0_sqr. Qed.

Lemma sqdist_self : forall p, sqdist p p = 0.
Proof.
  intros p. unfold sqdist. assert (forall l, fold_left Rplus (map (fun j => (nth j p 0 - nth j p 0) * (nth j p 0 - nth j p 0)) l) 0 = 0) as H.
  { induction l as [|a l IH]; [reflexivity|]. cbn. rewrite fold_plus_start, IH. ring. }
  apply H.
Qed.
Lemma differ_at : forall z z' : list Z, length z = length z' -> z <> z' ->
  exists j, (j < length z')%nat /\ nth j z 0%Z <> nth j z' 0%Z.
Proof.
  induction z as [|x z IH]; intros [|y z'] L N; try discriminate; [congruence|].
  destruct (Z.eq_dec x y) as [->|D].
  - destruct (IH z') as [j [J1 J2]]; [cbn in L; lia|congruence|]. exists (S j). split; [cbn; lia|exact J2].
  - exists 0%nat. split; [cbn; lia|exact D].
Qed.
Lemma sqdist_far : forall r z z', length z = length z' -> z <> z' ->
  (w / 2 ^ r) * (w / 2 ^ r) <= sqdist (pos r z) (pos r z').
Proof.
  intros r z z' L N. destruct (differ_at z z' L N) as [j [J1 J2]].
  eapply Rle_trans; [|apply fold_ge; [apply sq_nonneg|apply in_map_iff; exists j; split; [reflexivity|]]].
  2:{ rewrite pos_length. apply in_seq. lia. }
  rewrite !pos_nth by lia. set (a := nth j z 0%Z) in *. set (b := nth j z' 0%Z) in *.
  pose proof (pow2_pos r) as P.
  replace (lo + w * IZR a / 2 ^ r - (lo + w * IZR b / 2 ^ r)) with (w / 2 ^ r * IZR (a - b)) by (rewrite minus_IZR; field; lra).
  replace (w / 2 ^ r * IZR (a - b) * (w / 2 ^ r * IZR (a - b)))
    with (w / 2 ^ r * (w / 2 ^ r) * (IZR ((a - b) * (a - b)))) by (rewrite mult_IZR; ring).
  assert (1 <= IZR ((a - b) * (a - b))).
  { apply IZR_le. assert ((a - b <> 0)%Z) by lia. nia. }
  assert (0 <= w / 2 ^ r * (w / 2 ^ r)) by apply Rle_0_sqr. nra.
Qed.
(** Lattice points that are close are equal. *)
Lemma close_spec : forall r z z', 2 ^ r * tol <= w -> length z = length z' ->
  close tol (pos r z') (pos r z) = true <-> z = z'.
Proof.
  intros r z z' T L. unfold close. destruct (Rlt_dec _ _) as [D|D]; split; intros E; try reflexivity; try discriminate.
  - destruct (list_eq_dec Z.eq_dec z z') as [e|N]; [exact e|exfalso].
    pose proof (sqdist_far r z z' L N) as F.
    assert (0 <= w / 2 ^ r) by (apply Rlt_le, Rdiv_lt_0_compat; [exact w_pos|apply pow2_pos]).
    apply sqrt_le_1_alt in F. rewrite sqrt_square in F by assumption.
    assert (tol <= w / 2 ^ r); [|lra]. pose proof (pow2_pos r).
    apply (Rmult_le_reg_l (2 ^ r)); [assumption|]. replace (2 ^ r * (w / 2 ^ r)) with w by (field; lra). exact T.
  - subst z'. rewrite sqdist_self, sqrt_0 in D. lra.
Qed.

(** ** Finding or adding a node *)
Definition lattice (r : nat) (B : Z) (nodes : list node) : Prop :=
  NoDup nodes /\ forall p, In p nodes -> exists z, length z = d /\ p = pos r z /\ Forall (fun k => 0 <= k <= B)%Z z.
Definition prefix (a b : list node) : Prop := exists c, b = (a ++ c)%list.
Lemma prefix_refl : forall a, prefix a a. Proof. intros a. exists []. symmetry. apply app_nil_r. Qed.
Lemma prefix_trans : forall a b c, prefix a b -> prefix b c -> prefix a c.
Proof. intros a b c [x ->] [y ->]. exists (x ++ y)%list. symmetry. apply app_assoc. Qed.
Lemma prefix_nth : forall a b i p, prefix a b -> nth_error a i = Some p -> nth_error b i = Some p.
Proof.
  intros a b i p [c ->] H. rewrite nth_error_app1; [exact H|]. apply nth_error_Some. congruence.
Qed.

Lemma find_some : forall p l i k, find_from tol p l i = Some k ->
  exists j, k = (i + j)%nat /\ exists a, nth_error l j = Some a /\ close tol p a = true.
Proof.
  intros p l. induction l as [|a l IH]; intros i k H; cbn in H; [discriminate|].
  destruct (close tol p a) eqn:C.
  - injection H as <-. exists 0%nat. split; [lia|]. exists a. split; [reflexivity|exact C].
  - destruct (IH (S i) k H) as [j [-> [b [B1 B2]]]]. exists (S j). split; [lia|]. exists b. split; assumption.
Qed.
Lemma find_none : forall p l i, find_from tol p l i = None -> forall a, In a l -> close tol p a = false.
Proof.
  intros p l. induction l as [|a l IH]; intros i H b I; [destruct I|]. cbn in H.
  destruct (close tol p a) eqn:C; [discriminate|]. destruct I as [<-|I]; [exact C|]. eapply IH; eassumption.
Qed.

Lemma place_spec : forall r B nodes z, 2 ^ r * tol <= w -> length z = d -> Forall (fun k => 0 <= k <= B)%Z z ->
  lattice r B nodes ->
  let '(n, i) := place tol nodes (pos r z) in
  lattice r B n /\ prefix nodes n /\ nth_error n i = Some (pos r z).
Proof.
  intros r B nodes z T L F [ND IN]. unfold place. destruct (find_from _ _ _ _) as [i|] eqn:E.
  - destruct (find_some _ _ _ _ E) as [j [-> [a [A1 A2]]]]. cbn [Nat.add].
    destruct (IN a (nth_error_In _ _ A1)) as [za [L1 [-> _]]].
    apply (close_spec r za z T) in A2; [|congruence]. subst za.
    split; [split; assumption|]. split; [apply prefix_refl|exact A1].
  - pose proof (find_none _ _ _ E) as NC.
    assert (NI : ~ In (pos r z) nodes).
    { intros I. pose proof (NC _ I) as C. rewrite (proj2 (close_spec r z z T eq_refl) eq_refl) in C. discriminate. }
    split; [|split].
    + split.
      * apply NoDup_Add with (a := pos r z) (l := nodes); [|split; assumption].
        clear. induction nodes; cbn; constructor; assumption.
      * intros p I. apply in_app_or in I. destruct I as [I|[<-|[]]]; [apply IN; exact I|].
        exists z. repeat split; assumption.
    + exists [pos r z]. reflexivity.
    + rewrite nth_error_app2, Nat.sub_diag by lia. reflexivity.
Qed.
Lemma place_all_spec : forall r B zs nodes, 2 ^ r * tol <= w ->
  (forall z, In z zs -> length z = d /\ Forall (fun k => 0 <= k <= B)%Z z) ->
  lattice r B nodes ->
  let '(n, idx) := place_all tol nodes (map (pos r) zs) in
  lattice r B n /\ prefix nodes n /\ length idx = length zs /\
  forall m, (m < length zs)%nat -> nth_error n (nth m idx 0%nat) = Some (pos r (nth m zs [])).
Proof.
  intros r B zs. induction zs as [|z zs IH]; intros nodes T H La.
  - cbn. split; [exact La|]. split; [apply prefix_refl|]. split; [reflexivity|]. intros m M. lia.
  - cbn [map place_all].
    destruct (H z (or_introl eq_refl)) as [Lz Fz].
    pose proof (place_spec r B nodes z T Lz Fz La) as P.
    destruct (place tol nodes (pos r z)) as [n1 i]. destruct P as [La1 [P1 N1]].
    pose proof (IH n1 T (fun z I => H z (or_intror I)) La1) as Q.
    destruct (place_all tol n1 (map (pos r) zs)) as [n2 is]. destruct Q as [La2 [P2 [Ln Q]]].
    split; [exact La2|]. split; [eapply prefix_trans; eassumption|]. split; [cbn; lia|].
    intros [|m] M; cbn [nth].
    + eapply prefix_nth; eassumption.
    + apply Q. cbn in M. lia.
Qed.
End Lattice.

(** ** Averages *)
(** Cells are described by their lattice points; the average of points S in
    the next level. *)
Definition vsum (d : nat) (D : list (list Z)) (S : list nat) : list Z :=
  map (fun j => fold_left Z.add (map (fun k => nth j (nth k D []) 0%Z) S) 0%Z) (seq 0 d).
Definition vavg (d : nat) (D : list (list Z)) (S : list nat) : list Z :=
  map (fun x => (2 * x / Z.of_nat (length S))%Z) (vsum d D S).
Definition divides (d : nat) (D : list (list Z)) (S : list nat) : Prop :=
  Forall (fun x => (Z.of_nat (length S) * (2 * x / Z.of_nat (length S)))%Z = (2 * x)%Z) (vsum d D S).
Definition described (lo w : R) (r : nat) (nodes : list node) (c : list nat) (D : list (list Z)) : Prop :=
  length c = length D /\
  forall j, (j < length D)%nat -> nth_error nodes (nth j c 0%nat) = Some (at_level lo w r (nth j D [])).

Lemma fold_zadd_start : forall l a, fold_left Z.add l a = (a + fold_left Z.add l 0)%Z.
Proof. induction l as [|x l IH]; intros a; cbn [fold_left]; [lia|]. rewrite IH, (IH (0 + x)%Z). lia. Qed.
Lemma fold_affine : forall lo w' (f : nat -> Z) S,
  fold_left Rplus (map (fun k => lo + w' * IZR (f k)) S) 0
  = INR (length S) * lo + w' * IZR (fold_left Z.add (map f S) 0%Z).
Proof.
  intros lo w' f S. induction S as [|a S IH]; [cbn; ring|].
  cbn [map fold_left length]. rewrite fold_plus_start, IH, (fold_zadd_start _ (0 + f a)%Z), !plus_IZR, S_INR. ring.
Qed.
Lemma vsum_length : forall d D S, length (vsum d D S) = d.
Proof. intros. unfold vsum. rewrite map_length. apply seq_length. Qed.

Lemma average_spec : forall lo w d r nodes c D S, (0 < d)%nat -> S <> [] -> D <> [] ->
  described lo w r nodes c D ->
  Forall (fun z => length z = d) D -> Forall (fun k => (k < length D)%nat) S -> divides d D S ->
  average nodes c S = at_level lo w (Datatypes.S r) (vavg d D S).
Proof.
  intros lo w d r nodes c D S Pd NS ND [Lc H] FL FS DV.
  assert (NP : forall k, (k < length D)%nat -> nth (nth k c 0%nat) nodes [] = at_level lo w r (nth k D [])).
  { intros k K. apply nth_error_nth. apply H. exact K. }
  assert (LD : (0 < length D)%nat) by (destruct D; [congruence|cbn; lia]).
  rewrite Forall_forall in FL, FS.
  unfold average. rewrite (NP 0%nat LD), pos_length.
  assert (LN : forall k, (k < length D)%nat -> length (nth k D []) = d) by (intros k K; apply FL, nth_In; exact K).
  rewrite (LN 0%nat LD).
  unfold at_level, vavg, vsum. rewrite !map_map. apply map_ext_in. intros j J. apply in_seq in J.
  assert (EQ : map (fun k => nth j (nth (nth k c 0%nat) nodes []) 0) S
             = map (fun k => lo + w / 2 ^ r * IZR (nth j (nth k D []) 0%Z)) S).
  { apply map_ext_in. intros k K. pose proof (FS k K) as K'. rewrite (NP k K'), (pos_nth lo w).
    - unfold Rdiv. ring.
    - rewrite (LN k K'). lia. }
  rewrite EQ, (fold_affine lo (w / 2 ^ r) (fun k => nth j (nth k D []) 0%Z)).
  set (x := fold_left Z.add _ _).
  unfold divides in DV. rewrite Forall_forall in DV.
  assert (IX : In x (vsum d D S)).
  { unfold vsum. apply in_map_iff. exists j. split; [reflexivity|apply in_seq; lia]. }
  pose proof (DV x IX) as E. set (n := Z.of_nat (length S)) in *. set (q := (2 * x / n)%Z) in *.
  apply (f_equal IZR) in E. rewrite !mult_IZR in E.
  assert (Nn : IZR n = INR (length S)) by (unfold n; symmetry; apply INR_IZR_INZ).
  rewrite Nn in E.
  assert (N0 : INR (length S) <> 0) by (apply not_0_INR; destruct S; [congruence|cbn; lia]).
  pose proof (pow2_pos r). cbn [pow].
  apply (Rmult_eq_reg_l (INR (length S))); [|exact N0].
  replace (INR (length S) * (lo + w * IZR q / (2 * 2 ^ r)))
    with (INR (length S) * lo + w * (INR (length S) * IZR q) / (2 * 2 ^ r)) by (field; lra).
  rewrite E. field. split; [lra|exact N0].
Qed.
Lemma vavg_box : forall d D S B, S <> [] -> (0 <= B)%Z ->
  Forall (fun z => length z = d /\ Forall (fun k => 0 <= k <= B)%Z z) D -> Forall (fun k => (k < length D)%nat) S ->
  length (vavg d D S) = d /\ Forall (fun k => 0 <= k <= 2 * B)%Z (vavg d D S).
Proof.
  intros d D S B NS PB F FS. split; [unfold vavg; rewrite map_length; apply vsum_length|].
  rewrite Forall_forall in *. intros k I. unfold vavg, vsum in I. rewrite map_map in I.
  apply in_map_iff in I. destruct I as [j [<- J]]. apply in_seq in J.
  assert (SB : forall l, (forall k, In k l -> In k S) ->
     (0 <= fold_left Z.add (map (fun k => nth j (nth k D []) 0%Z) l) 0 <= B * Z.of_nat (length l))%Z).
  { induction l as [|a l IH]; intros H; [cbn; lia|]. cbn [map fold_left length].
    rewrite fold_zadd_start.
    pose proof (IH (fun k I => H k (or_intror I))).
    pose proof (FS a (H a (or_introl eq_refl))) as Ka.
    destruct (F (nth a D []) (nth_In _ _ Ka)) as [La Fa]. rewrite Forall_forall in Fa.
    assert (Lj : (j < length (nth a D []))%nat) by lia.
    pose proof (Fa (nth j (nth a D []) 0%Z) (nth_In _ _ Lj)). lia. }
  pose proof (SB S (fun k I => I)) as Q. set (x := fold_left Z.add _ _) in *.
  assert (0 < Z.of_nat (length S))%Z by (destruct S; [congruence|cbn [length]; lia]).
  split; [apply Z.div_pos; lia|]. apply Z.div_le_upper_bound; lia.
Qed.

(** ** One round of refinement *)
Definition src_vec (d : nat) (T : table) (D : list (list Z)) (s : src) : list Z :=
  match s with Old k => map (Z.mul 2) (nth k D []) | New m => vavg d D (nth m (points T) []) end.
Definition split_cell (d : nat) (T : table) (D : list (list Z)) : list (list (list Z)) :=
  map (map (src_vec d T D)) (children T).
(** Table entries are in range. *)
Definition table_wf (T : table) (nv : nat) : Prop :=
  Forall (fun S => S <> [] /\ Forall (fun k => (k < nv)%nat) S) (points T) /\
  Forall (Forall (fun s => match s with Old k => (k < nv)%nat | New m => (m < length (points T))%nat end)) (children T).
Definition cell_ok (d nv : nat) (T : table) (B : Z) (D : list (list Z)) : Prop :=
  length D = nv /\ Forall (fun z => length z = d /\ Forall (fun k => 0 <= k <= B)%Z z) D /\
  Forall (divides d D) (points T).

Lemma flat_map_ext_in_ : forall {A C} (f g : A -> list C) l, (forall x, In x l -> f x = g x) -> flat_map f l = flat_map g l.
Proof.
  intros A C f g l. induction l as [|x l IH]; intros H; [reflexivity|]. cbn.
  rewrite (H x (or_introl eq_refl)), IH; [reflexivity|]. intros y I. apply H. right. exact I.
Qed.

Lemma Forall2_length_ : forall {A C} (R : A -> C -> Prop) a b, Forall2 R a b -> length a = length b.
Proof. intros A C R a b F. induction F; cbn; congruence. Qed.

Section Round.
Variables (lo w : R) (d nv r : nat) (T : table) (B : Z).
Hypothesis w_pos : 0 < w.
Hypothesis t_pos : 0 < tol_ T.
Hypothesis d_pos : (0 < d)%nat.
Hypothesis nv_pos : (0 < nv)%nat.
Hypothesis TW : table_wf T nv.
Hypothesis sep : 2 ^ (S r) * tol_ T <= w.
Hypothesis B_pos : (0 <= B)%Z.

Lemma described_mono : forall r nodes nodes' c D, prefix nodes nodes' ->
  described lo w r nodes c D -> described lo w r nodes' c D.
Proof. intros r' nodes nodes' c D P [L H]. split; [exact L|]. intros j J. eapply prefix_nth; [exact P|apply H; exact J]. Qed.

Lemma refine_cell_spec : forall st e D,
  lattice lo w d (S r) (2 * B) (snodes st) ->
  described lo w r (snodes st) (nth e (sconn st) []) D -> cell_ok d nv T B D ->
  let st' := refine_cell T st e in
  lattice lo w d (S r) (2 * B) (snodes st') /\ prefix (snodes st) (snodes st') /\
  smaps st' = (smaps st ++ map (clear (nth e (smaps st) [])) (cleared T))%list /\
  exists new, sconn st' = (sconn st ++ new)%list /\
    Forall2 (described lo w (S r) (snodes st')) new (split_cell d T D).
Proof.
  intros st e D La DE [Ln [Bx DV]] st'. set (c := nth e (sconn st) []) in *.
  destruct TW as [TP TC]. rewrite Forall_forall in TP, TC.
  assert (ND : D <> []) by (destruct D; [cbn in Ln; lia|discriminate]).
  assert (FL : Forall (fun z => length z = d) D).
  { eapply Forall_impl; [|exact Bx]. intros z [L _]. exact L. }
  assert (AV : map (average (snodes st) c) (points T) = map (at_level lo w (S r)) (map (vavg d D) (points T))).
  { rewrite map_map. apply map_ext_in. intros P I. destruct (TP P I) as [N F]. rewrite <- Ln in F.
    apply (average_spec lo w d r (snodes st) c D P d_pos N ND DE FL F).
    rewrite Forall_forall in DV. apply DV. exact I. }
  pose proof (place_all_spec lo w (tol_ T) d w_pos t_pos (S r) (2 * B) (map (vavg d D) (points T)) (snodes st) sep) as PA.
  unfold st', refine_cell. fold c. rewrite AV.
  destruct (place_all _ _ _) as [n idx].
  destruct PA as [La' [Pf [Li PN]]].
  { intros z I. apply in_map_iff in I. destruct I as [P [<- I]]. destruct (TP P I) as [N F]. rewrite <- Ln in F.
    apply vavg_box; assumption. }
  { exact La. }
  cbn [snodes sconn smaps]. split; [exact La'|]. split; [exact Pf|]. split; [reflexivity|].
  eexists. split; [reflexivity|].
  unfold split_cell. destruct DE as [Lc DE].
  assert (G : forall l, (forall ch, In ch l -> In ch (children T)) ->
     Forall2 (described lo w (S r) n) (map (map (child_node c idx)) l) (map (map (src_vec d T D)) l)).
  { induction l as [|ch l IH]; intros I; cbn [map]; constructor; [|apply IH; intros; apply I; right; assumption].
    pose proof (TC ch (I ch (or_introl eq_refl))) as C. rewrite Forall_forall in C.
    split; [rewrite !map_length; reflexivity|]. intros j J. rewrite map_length in J.
    rewrite (nth_indep _ 0%nat (child_node c idx (Old 0))) by (rewrite map_length; exact J).
    rewrite (nth_indep _ [] (src_vec d T D (Old 0))) by (rewrite map_length; exact J).
    rewrite !map_nth. pose proof (C (nth j ch (Old 0)) (nth_In _ _ J)) as CJ.
    destruct (nth j ch (Old 0)) as [k|m]; cbn [child_node src_vec].
    - rewrite <- pos_double. apply (prefix_nth (snodes st)); [exact Pf|]. apply DE. lia.
    - rewrite PN by (rewrite map_length; exact CJ).
      rewrite (nth_indep _ [] (vavg d D [])) by (rewrite map_length; exact CJ). rewrite map_nth. reflexivity. }
  apply G. intros ch I. exact I.
Qed.

Lemma Forall2_app_ : forall {A C} (R : A -> C -> Prop) a b c e,
  Forall2 R a b -> Forall2 R c e -> Forall2 R (a ++ c) (b ++ e).
Proof. intros. apply Forall2_app; assumption. Qed.
Lemma Forall2_mono : forall {A C} (R Q : A -> C -> Prop) a b, (forall x y, R x y -> Q x y) -> Forall2 R a b -> Forall2 Q a b.
Proof. intros A C R Q a b H F. induction F; constructor; auto. Qed.

Lemma fold_spec : forall rest pre st Ds,
  lattice lo w d (S r) (2 * B) (snodes st) ->
  (forall e c, nth_error (pre ++ rest) e = Some c -> nth_error (sconn st) e = Some c) ->
  length (smaps st) = length (sconn st) ->
  Forall2 (described lo w r (snodes st)) rest Ds ->
  Forall (cell_ok d nv T B) Ds -> length (children T) = length (cleared T) ->
  let st' := fold_left (refine_cell T) (seq (length pre) (length rest)) st in
  lattice lo w d (S r) (2 * B) (snodes st') /\ prefix (snodes st) (snodes st') /\
  length (smaps st') = length (sconn st') /\
  (exists new, sconn st' = (sconn st ++ new)%list /\
     Forall2 (described lo w (S r) (snodes st')) new (flat_map (split_cell d T) Ds)) /\
  smaps st' = (smaps st ++ flat_map (fun e => map (clear (nth e (smaps st) [])) (cleared T)) (seq (length pre) (length rest)))%list.
Proof.
  induction rest as [|c rest IH]; intros pre st Ds La NE LM F2 OK LC; cbn [length seq fold_left].
  - inversion F2; subst. cbn zeta. split; [exact La|]. split; [apply prefix_refl|]. split; [exact LM|].
    split; [exists []; split; [symmetry; apply app_nil_r|constructor]|]. cbn. symmetry. apply app_nil_r.
  - inversion F2 as [|c0 D rest0 Ds0 H1 H2 E1 E2]; subst. inversion OK as [|D1 Ds1 OK1 OK2 E1]; subst.
    assert (NC : nth_error (sconn st) (length pre) = Some c).
    { apply NE. rewrite nth_error_app2, Nat.sub_diag by lia. reflexivity. }
    pose proof (refine_cell_spec st (length pre) D La) as RC.
    rewrite (nth_error_nth _ _ [] NC) in RC. specialize (RC H1 OK1). cbv zeta in RC.
    set (st1 := refine_cell T st (length pre)) in *. destruct RC as [La1 [P1 [M1 [new1 [C1 F1]]]]].
    specialize (IH (pre ++ [c])%list st1 Ds0 La1).
    rewrite app_length in IH. cbn [length] in IH. replace (length pre + 1)%nat with (S (length pre)) in IH by lia.
    destruct IH as [La2 [P2 [LM2 [[new2 [C2 F3]] M2]]]].
    + intros e x E. rewrite <- app_assoc in E. cbn in E. rewrite C1. rewrite nth_error_app1.
      * apply NE. exact E.
      * apply nth_error_Some. rewrite (NE e x E). discriminate.
    + rewrite M1, C1, !app_length, map_length.
      assert (length new1 = length (cleared T)).
      { rewrite <- LC. apply Forall2_length_ in F1. unfold split_cell in F1. rewrite map_length in F1. exact F1. }
      lia.
    + eapply Forall2_mono; [|exact H2]. intros x y. apply described_mono. exact P1.
    + exact OK2.
    + exact LC.
    + split; [exact La2|]. split; [eapply prefix_trans; eassumption|]. split; [exact LM2|]. split.
      * exists (new1 ++ new2)%list. split; [rewrite C2, C1, app_assoc; reflexivity|].
        cbn [flat_map]. apply Forall2_app_; [|exact F3].
        eapply Forall2_mono; [|exact F1]. intros x y. apply described_mono. exact P2.
      * rewrite M2, M1. cbn [flat_map]. rewrite <- app_assoc. f_equal. f_equal.
        assert (LP : (length pre + S (length rest) <= length (smaps st))%nat).
        { rewrite LM. assert (H : nth_error (sconn st) (length pre + length rest) <> None).
          { destruct (nth_error (pre ++ c :: rest) (length pre + length rest)) as [y|] eqn:Y.
            - rewrite (NE _ _ Y). discriminate.
            - apply nth_error_None in Y. rewrite app_length in Y. cbn in Y. lia. }
          apply nth_error_Some in H. lia. }
        apply flat_map_ext_in_. intros e I. apply in_seq in I.
        rewrite app_nth1 by lia. reflexivity.
Qed.

Definition inv (r : nat) (B : Z) (st : sub) (Ds : list (list (list Z))) : Prop :=
  lattice lo w d r B (snodes st) /\ Forall2 (described lo w r (snodes st)) (sconn st) Ds /\
  length (smaps st) = length (sconn st).

Lemma lattice_up : forall nodes, lattice lo w d r B nodes -> lattice lo w d (S r) (2 * B) nodes.
Proof.
  intros nodes [ND H]. split; [exact ND|]. intros p I. destruct (H p I) as [z [L [-> F]]].
  exists (map (Z.mul 2) z). split; [rewrite map_length; exact L|]. split; [apply pos_double|].
  rewrite Forall_forall in *. intros k K. apply in_map_iff in K. destruct K as [k' [<- K]]. pose proof (F k' K). lia.
Qed.
Lemma map_nth_seq : forall {A C} (f : A -> C) (l : list A) a, map (fun e => f (nth e l a)) (seq 0 (length l)) = map f l.
Proof.
  intros A C f l a. induction l as [|x l IH]; [reflexivity|]. cbn [length seq map nth]. f_equal.
  rewrite <- IH, <- seq_shift, map_map. apply map_ext. intros e. reflexivity.
Qed.
Lemma flat_map_nth_seq : forall {A C} (f : A -> list C) (l : list A) a, flat_map (fun e => f (nth e l a)) (seq 0 (length l)) = flat_map f l.
Proof. intros A C f l a. rewrite !flat_map_concat_map. f_equal. apply map_nth_seq. Qed.

Lemma refine_all_spec : forall st Ds, inv r B st Ds -> Forall (cell_ok d nv T B) Ds ->
  length (children T) = length (cleared T) ->
  inv (S r) (2 * B) (refine_all T st) (flat_map (split_cell d T) Ds) /\
  smaps (refine_all T st) = flat_map (fun m => map (clear m) (cleared T)) (smaps st).
Proof.
  intros st Ds [La [F2 LM]] OK LC.
  pose proof (fold_spec (sconn st) [] st Ds (lattice_up _ La)) as F. cbn [length app] in F.
  specialize (F (fun e c E => E) LM F2 OK LC). cbv zeta in F.
  unfold refine_all. set (st' := fold_left _ _ _) in *.
  destruct F as [La' [P [LM' [[new [C N]] M]]]].
  assert (SC : skipn (length (sconn st)) (sconn st') = new).
  { rewrite C, skipn_app, skipn_all, Nat.sub_diag. reflexivity. }
  assert (SM : skipn (length (sconn st)) (smaps st') = flat_map (fun m => map (clear m) (cleared T)) (smaps st)).
  { rewrite M, <- LM, skipn_app, skipn_all, Nat.sub_diag. cbn [app skipn].
    apply (flat_map_nth_seq (fun m => map (clear m) (cleared T))). }
  split; [|exact SM]. split; [exact La'|]. cbn [snodes sconn smaps]. rewrite SC. split; [exact N|].
  rewrite <- SC, !skipn_length, LM'. reflexivity.
Qed.
End Round.

(** ** Squares and cubes *)
Lemma in_grid : forall d n z, In z (grid d n) <-> length z = d /\ Forall (fun k => 0 <= k < Z.of_nat n)%Z z.
Proof.
  induction d as [|d IH]; intros n z; cbn [grid].
  - split; [intros [<-|[]]; split; [reflexivity|constructor]|].
    intros [L _]. destruct z; [left; reflexivity|discriminate].
  - rewrite in_flat_map. split.
    + intros [k [K I]]. apply in_map_iff in I. destruct I as [y [<- I]]. apply IH in I. destruct I as [L F].
      apply in_seq in K. split; [cbn; congruence|constructor; [lia|exact F]].
    + intros [L F]. destruct z as [|k z]; [discriminate|]. inversion F; subst.
      exists (Z.to_nat k). split; [apply in_seq; lia|]. apply in_map_iff. exists z. rewrite Z2Nat.id by lia.
      split; [reflexivity|]. apply IH. split; [cbn in L; congruence|assumption].
Qed.
Lemma NoDup_flat_map : forall {A C} (f : A -> list C) (l : list A), NoDup l -> (forall x, In x l -> NoDup (f x)) ->
  (forall x y c, In x l -> In y l -> In c (f x) -> In c (f y) -> x = y) -> NoDup (flat_map f l).
Proof.
  intros A C f l N. induction N as [|x l NI N IH]; intros H1 H2; [constructor|]. cbn.
  assert (G : forall a b : list C, NoDup a -> NoDup b -> (forall c, In c a -> In c b -> False) -> NoDup (a ++ b)).
  { induction a as [|c a IHa]; intros b Na Nb D; [exact Nb|]. inversion Na; subst. cbn. constructor.
    - intros I. apply in_app_or in I. destruct I as [I|I]; [auto|]. apply (D c); [left; reflexivity|exact I].
    - apply IHa; auto. intros e I1 I2. apply (D e); [right|]; assumption. }
  apply G.
  - apply H1. left. reflexivity.
  - apply IH; [intros; apply H1; right; assumption|].
    intros a b c I1 I2. apply H2; right; assumption.
  - intros c I1 I2. apply in_flat_map in I2. destruct I2 as [y [Y1 Y2]].
    assert (x = y) by (apply (H2 x y c); [left; reflexivity|right; exact Y1|exact I1|exact Y2]).
    subst y. contradiction.
Qed.
Lemma NoDup_map_inj : forall {A C} (f : A -> C) l, (forall x y, In x l -> In y l -> f x = f y -> x = y) -> NoDup l -> NoDup (map f l).
Proof.
  intros A C f l H N. induction N as [|x l NI N IH]; [constructor|]. cbn. constructor.
  - intros I. apply in_map_iff in I. destruct I as [y [E I]].
    assert (y = x) by (apply H; [right; exact I|left; reflexivity|exact E]). subst. contradiction.
  - apply IH. intros a b I1 I2. apply H; right; assumption.
Qed.
Lemma NoDup_grid : forall d n, NoDup (grid d n).
Proof.
  induction d as [|d IH]; intros n; cbn [grid]; [constructor; [intros []|constructor]|].
  apply NoDup_flat_map.
  - apply seq_NoDup.
  - intros x _. apply NoDup_map_inj; [|apply IH]. intros a b _ _ E. congruence.
  - intros x y c _ _ I1 I2. apply in_map_iff in I1. apply in_map_iff in I2.
    destruct I1 as [u [<- _]]. destruct I2 as [v [E _]]. injection E as E _. lia.
Qed.
Lemma vadd_length : forall a b, length a = length b -> length (vadd a b) = length b.
Proof. induction a as [|x a IH]; intros [|y b] L; try discriminate; [reflexivity|]. cbn in *. rewrite IH; lia. Qed.
Lemma vadd_nth : forall a b j, length a = length b -> nth j (vadd a b) 0%Z = (nth j a 0 + nth j b 0)%Z.
Proof.
  induction a as [|x a IH]; intros [|y b] [|j] L; try discriminate; try reflexivity. cbn in *. apply IH. lia.
Qed.

Definition cell (s : shape) (a : list Z) : list (list Z) := map (vadd a) (corners s).
Definition kids (s : shape) (a : list Z) : list (list Z) := map (vadd (map (Z.mul 2) a)) (corners s).
Fixpoint origins (s : shape) (r : nat) : list (list Z) :=
  match r with O => [repeat 0%Z (sdim s)] | S r => flat_map (kids s) (origins s r) end.
Definition touched (r : nat) (a : list Z) (sd : nat * bool) : bool :=
  (nth (fst sd) a 0 =? (if snd sd then 2 ^ Z.of_nat r - 1 else 0))%Z.
Definition marks (s : shape) (r : nat) (a : list Z) : smap :=
  map (fun j => if touched r a (nth j (sides s) (0%nat, false)) then (1, Z.of_nat j)%Z else (0, 0)%Z)
      (seq 0 (length (sides s))).

(** What the tables have to satisfy. *)
Record good (s : shape) (T : table) : Prop := {
  g_dim : (0 < sdim s)%nat;
  g_tol : 0 < tol_ T;
  g_wf : table_wf T (length (corners s));
  g_len : length (children T) = length (cleared T);
  g_cor : forall o, In o (corners s) <-> In o (grid (sdim s) 2);
  g_nd : NoDup (corners s);
  g_split : forall a, length a = sdim s -> split_cell (sdim s) T (cell s a) = map (cell s) (kids s a);
  g_div : forall a, length a = sdim s -> Forall (divides (sdim s) (cell s a)) (points T);
  g_side : Forall (fun sd => (fst sd < sdim s)%nat) (sides s);
  g_clear : Forall2 (fun o z => forall j, (j < length (sides s))%nat ->
      let sd := nth j (sides s) (0%nat, false) in
      existsb (Nat.eqb j) z = negb (nth (fst sd) o 0 =? (if snd sd then 1 else 0))%Z) (corners s) (cleared T)
}.

Section Shape.
Variables (s : shape) (T : table).
Hypothesis G : good s T.
Let d := sdim s.

Lemma corner_bit : forall o j, In o (corners s) -> (j < d)%nat -> nth j o 0%Z = 0%Z \/ nth j o 0%Z = 1%Z.
Proof.
  intros o j I J. apply (g_cor s T G), in_grid in I. destruct I as [L F]. rewrite Forall_forall in F.
  assert (J' : (j < length o)%nat) by (fold d in L; lia).
  pose proof (F _ (nth_In _ 0%Z J')) as H. cbn in H. lia.
Qed.
Lemma corner_length : forall o, In o (corners s) -> length o = d.
Proof. intros o I. apply (g_cor s T G), in_grid in I. destruct I as [L _]. exact L. Qed.
Lemma double_length : forall a, length (map (Z.mul 2) a) = length a.
Proof. intros a. apply map_length. Qed.
Lemma double_nth : forall a j, nth j (map (Z.mul 2) a) 0%Z = (2 * nth j a 0)%Z.
Proof. intros a j. apply (map_nth (Z.mul 2) a 0%Z j). Qed.
Lemma vec_eq : forall a b : list Z, length a = length b -> (forall j, (j < length a)%nat -> nth j a 0%Z = nth j b 0%Z) -> a = b.
Proof. intros a b L H. apply (nth_ext a b 0%Z 0%Z L H). Qed.
Lemma kid_unique : forall a b o p, length a = d -> length b = d -> In o (corners s) -> In p (corners s) ->
  vadd (map (Z.mul 2) a) o = vadd (map (Z.mul 2) b) p -> a = b /\ o = p.
Proof.
  intros a b o p La Lb Io Ip E. pose proof (corner_length o Io) as Lo. pose proof (corner_length p Ip) as Lp.
  assert (K : forall j, (j < d)%nat -> nth j a 0%Z = nth j b 0%Z /\ nth j o 0%Z = nth j p 0%Z).
  { intros j J. apply (f_equal (fun v => nth j v 0%Z)) in E.
    rewrite !vadd_nth, !double_nth in E by (rewrite double_length; congruence).
    destruct (corner_bit o j Io J); destruct (corner_bit p j Ip J); lia. }
  split; apply vec_eq; try congruence; intros j J; apply K; lia.
Qed.
Lemma origins_spec : forall r a, In a (origins s r) <-> In a (grid d (2 ^ r)).
Proof.
  induction r as [|r IH]; intros a.
  - cbn [origins Nat.pow]. rewrite in_grid. fold d. split.
    + intros [<-|[]]. split; [apply repeat_length|]. rewrite Forall_forall. intros k K.
      apply repeat_spec in K. subst k. cbn. lia.
    + intros [L F]. left. rewrite Forall_forall in F. symmetry. apply vec_eq; [rewrite repeat_length; exact L|].
      intros j J. rewrite nth_repeat. pose proof (F _ (nth_In _ 0%Z J)) as H. cbn in H. lia.
  - cbn [origins]. rewrite in_flat_map, in_grid. split.
    + intros [b [Ib Ia]]. apply IH, in_grid in Ib. destruct Ib as [Lb Fb]. unfold kids in Ia.
      apply in_map_iff in Ia. destruct Ia as [o [<- Io]]. pose proof (corner_length o Io) as Lo.
      assert (LL : length (map (Z.mul 2) b) = length o) by (rewrite double_length; congruence).
      split; [rewrite vadd_length; congruence|]. rewrite Forall_forall in *. intros k K.
      apply (In_nth _ _ 0%Z) in K. destruct K as [j [J <-]]. rewrite vadd_length in J by exact LL.
      rewrite vadd_nth, double_nth by exact LL.
      assert (Jb : (j < length b)%nat) by lia. pose proof (Fb _ (nth_In _ 0%Z Jb)) as H.
      assert (Jd : (j < d)%nat) by lia. pose proof (corner_bit o j Io Jd) as C.
      cbn [Nat.pow]. rewrite Nat2Z.inj_mul. cbn [Z.of_nat Pos.of_succ_nat Pos.succ]. lia.
    + intros [L F]. exists (map (fun k => k / 2)%Z a). rewrite Forall_forall in F. split.
      * apply IH, in_grid. split; [rewrite map_length; exact L|]. rewrite Forall_forall. intros k K.
        apply in_map_iff in K. destruct K as [x [<- X]]. pose proof (F x X) as H. cbn [Nat.pow] in H.
        rewrite Nat2Z.inj_mul in H. cbn [Z.of_nat Pos.of_succ_nat Pos.succ] in H.
        split; [apply Z.div_pos; lia|apply Z.div_lt_upper_bound; lia].
      * unfold kids. apply in_map_iff. exists (map (fun k => k mod 2)%Z a). split.
        -- apply vec_eq; [rewrite vadd_length; rewrite !map_length; reflexivity|].
           intros j J. rewrite vadd_nth, double_nth by (rewrite !map_length; reflexivity).
           rewrite (map_nth (fun k => k / 2)%Z a 0%Z j : nth j (map (fun k => k / 2)%Z a) 0%Z = _).
           rewrite (map_nth (fun k => k mod 2)%Z a 0%Z j : nth j (map (fun k => k mod 2)%Z a) 0%Z = _).
           symmetry. apply Z.div_mod. lia.
        -- apply (g_cor s T G), in_grid. split; [rewrite map_length; exact L|]. rewrite Forall_forall.
           intros k K. apply in_map_iff in K. destruct K as [x [<- _]]. apply Z.mod_pos_bound. cbn. lia.
Qed.
Lemma origins_length : forall r a, In a (origins s r) -> length a = d.
Proof. intros r a I. apply origins_spec, in_grid in I. destruct I as [L _]. exact L. Qed.
Lemma origins_nodup : forall r, NoDup (origins s r).
Proof.
  induction r as [|r IH]; [constructor; [intros []|constructor]|]. cbn [origins]. apply NoDup_flat_map; [exact IH| |].
  - intros a Ia. unfold kids. apply NoDup_map_inj; [|apply (g_nd s T G)].
    intros o p Io Ip E. pose proof (origins_length r a Ia) as L.
    destruct (kid_unique a a o p L L Io Ip E) as [_ H]. exact H.
  - intros a b c Ia Ib Ca Cb. unfold kids in Ca, Cb. apply in_map_iff in Ca. apply in_map_iff in Cb.
    destruct Ca as [o [<- Io]]. destruct Cb as [p [E Ip]].
    destruct (kid_unique b a p o (origins_length r b Ib) (origins_length r a Ia) Ip Io E) as [H _]. congruence.
Qed.
Lemma origins_perm : forall r, Permutation (origins s r) (grid d (2 ^ r)).
Proof. intros r. apply NoDup_Permutation; [apply origins_nodup|apply NoDup_grid|apply origins_spec]. Qed.

Lemma pow2_nat : forall r, Z.of_nat (2 ^ r) = (2 ^ Z.of_nat r)%Z.
Proof. intros r. rewrite Nat2Z.inj_pow. reflexivity. Qed.
Lemma cell_cell_ok : forall r a, In a (origins s r) -> cell_ok d (length (corners s)) T (2 ^ Z.of_nat r) (cell s a).
Proof.
  intros r a I. pose proof (origins_length r a I) as L. apply origins_spec, in_grid in I. destruct I as [_ F].
  rewrite Forall_forall in F. rewrite pow2_nat in F.
  split; [apply map_length|]. split; [|apply (g_div s T G); exact L].
  unfold cell. rewrite Forall_forall. intros z Z. apply in_map_iff in Z. destruct Z as [o [<- Io]].
  pose proof (corner_length o Io) as Lo. assert (LL : length a = length o) by congruence.
  split; [rewrite vadd_length; congruence|]. rewrite Forall_forall. intros k K.
  apply (In_nth _ _ 0%Z) in K. destruct K as [j [J <-]]. rewrite vadd_length in J by exact LL.
  rewrite vadd_nth by exact LL.
  assert (Ja : (j < length a)%nat) by lia. pose proof (F _ (nth_In _ 0%Z Ja)) as H.
  assert (Jd : (j < d)%nat) by lia. pose proof (corner_bit o j Io Jd). lia.
Qed.
Lemma touched_kid : forall r a o sd, In a (origins s r) -> In o (corners s) -> (fst sd < d)%nat ->
  touched (S r) (vadd (map (Z.mul 2) a) o) sd
  = (touched r a sd && (nth (fst sd) o 0 =? (if snd sd then 1 else 0))%Z)%bool.
Proof.
  intros r a o [ax b] Ia Io A. cbn [fst snd] in *. unfold touched. cbn [fst snd].
  pose proof (origins_length r a Ia) as L. pose proof (corner_length o Io) as Lo.
  rewrite vadd_nth, double_nth by (rewrite double_length; congruence).
  pose proof (corner_bit o ax Io A) as C.
  apply origins_spec, in_grid in Ia. destruct Ia as [_ F]. rewrite Forall_forall, pow2_nat in F.
  assert (Ja : (ax < length a)%nat) by lia. pose proof (F _ (nth_In _ 0%Z Ja)) as H.
  rewrite Nat2Z.inj_succ, Z.pow_succ_r by lia.
  apply eq_true_iff_eq. rewrite andb_true_iff, !Z.eqb_eq. destruct b; lia.
Qed.
Lemma marks_kid : forall r a, In a (origins s r) ->
  map (clear (marks s r a)) (cleared T) = map (marks s (S r)) (kids s a).
Proof.
  intros r a Ia. unfold kids. rewrite map_map. pose proof (g_clear s T G) as C.
  assert (K : forall cs zs, (forall o, In o cs -> In o (corners s)) ->
     Forall2 (fun o z => forall j, (j < length (sides s))%nat ->
      let sd := nth j (sides s) (0%nat, false) in
      existsb (Nat.eqb j) z = negb (nth (fst sd) o 0 =? (if snd sd then 1 else 0))%Z) cs zs ->
     map (clear (marks s r a)) zs = map (fun x => marks s (S r) (vadd (map (Z.mul 2) a) x)) cs).
  { intros cs zs I F. induction F as [|o z cs zs H F IH]; [reflexivity|]. cbn [map].
    rewrite IH by (intros x X; apply I; right; exact X). f_equal.
    pose proof (I o (or_introl eq_refl)) as Io.
    unfold clear. unfold marks at 2. rewrite map_length, seq_length. unfold marks. apply map_ext_in. intros j J. apply in_seq in J.
    assert (Js : (j < length (sides s))%nat) by lia.
    rewrite (H j Js). set (sd := nth j (sides s) (0%nat, false)).
    assert (A : (fst sd < d)%nat).
    { pose proof (g_side s T G) as Q. rewrite Forall_forall in Q. apply Q. apply nth_In. exact Js. }
    rewrite (touched_kid r a o sd Ia Io A).
    rewrite (nth_indep _ (0, 0)%Z ((fun j => if touched r a (nth j (sides s) (0%nat, false)) then (1, Z.of_nat j)%Z else (0, 0)%Z) 0%nat))
      by (rewrite map_length, seq_length; exact Js).
    rewrite (map_nth (fun j => if touched r a (nth j (sides s) (0%nat, false)) then (1, Z.of_nat j)%Z else (0, 0)%Z)), seq_nth by exact Js.
    cbn [Nat.add]. fold sd. destruct (touched r a sd); destruct (nth (fst sd) o 0 =? _)%Z; reflexivity. }
  apply K; [intros o I; exact I|exact C].
Qed.

Definition state (r : nat) (st : sub) : Prop :=
  inv (-1) 2 d r (2 ^ Z.of_nat r) st (map (cell s) (origins s r)) /\ smaps st = map (marks s r) (origins s r).

Lemma state_step : forall r st, 2 ^ (S r) * tol_ T <= 2 -> state r st -> state (S r) (refine_all T st).
Proof.
  intros r st Sp [I M].
  assert (P2 : 0 < 2) by lra.
  assert (NV : (0 < length (corners s))%nat).
  { pose proof (g_cor s T G (repeat 0%Z d)) as C. destruct (corners s) as [|x l]; [|cbn; lia]. exfalso.
    apply C. apply in_grid. split; [apply repeat_length|]. rewrite Forall_forall. intros k K. apply repeat_spec in K. subst. cbn. lia. }
  assert (PB : (0 <= 2 ^ Z.of_nat r)%Z) by (apply Z.pow_nonneg; lia).
  assert (OK : Forall (cell_ok d (length (corners s)) T (2 ^ Z.of_nat r)) (map (cell s) (origins s r))).
  { rewrite Forall_forall. intros D H. apply in_map_iff in H. destruct H as [a [<- H]]. apply cell_cell_ok. exact H. }
  destruct (refine_all_spec (-1) 2 d (length (corners s)) r T (2 ^ Z.of_nat r) P2 (g_tol s T G) (g_dim s T G) NV (g_wf s T G) Sp PB st _ I OK (g_len s T G)) as [I' M'].
  split.
  - replace (2 ^ Z.of_nat (S r))%Z with (2 * 2 ^ Z.of_nat r)%Z by (rewrite Nat2Z.inj_succ, Z.pow_succ_r; lia).
    replace (map (cell s) (origins s (S r))) with (flat_map (split_cell d T) (map (cell s) (origins s r))); [exact I'|].
    cbn [origins]. rewrite !flat_map_concat_map, concat_map, !map_map. f_equal. apply map_ext_in. intros a Ia.
    apply (g_split s T G). apply (origins_length r). exact Ia.
  - rewrite M', M. cbn [origins]. rewrite !flat_map_concat_map, concat_map, !map_map. f_equal. apply map_ext_in. intros a Ia.
    apply marks_kid. exact Ia.
Qed.
Lemma state_refine : forall n r st, 2 ^ (r + n) * tol_ T <= 2 -> state r st -> state (r + n) (refine T n st).
Proof.
  induction n as [|n IH]; intros r st Sp H; [rewrite Nat.add_0_r; exact H|].
  cbn [refine]. replace (r + S n)%nat with (S r + n)%nat in * by lia. apply IH; [exact Sp|]. apply state_step; [|exact H].
  eapply Rle_trans; [|exact Sp]. apply Rmult_le_compat_r; [apply Rlt_le, (g_tol s T G)|]. apply Rle_pow; [lra|lia].
Qed.
Lemma state_nodes : forall r st, state r st ->
  Permutation (snodes st) (map (at_level (-1) 2 r) (grid d (2 ^ r + 1))).
Proof.
  intros r st [[[ND Bx] [F2 _]] _]. assert (P2 : 0 < 2) by lra.
  apply NoDup_Permutation; [exact ND| |].
  { apply NoDup_map_inj; [|apply NoDup_grid]. intros x y _ _ E. eapply (pos_inj (-1) 2); [lra|exact E]. }
  intros p. split.
  - intros I. destruct (Bx p I) as [z [L [-> F]]]. apply in_map, in_grid. split; [exact L|].
    rewrite Forall_forall in *. intros k K. pose proof (F k K). rewrite Nat2Z.inj_add, pow2_nat. cbn [Z.of_nat Pos.of_succ_nat]. lia.
  - intros I. apply in_map_iff in I. destruct I as [z [<- I]]. apply in_grid in I. destruct I as [L F].
    rewrite Forall_forall, Nat2Z.inj_add, pow2_nat in F. cbn [Z.of_nat Pos.of_succ_nat] in F.
    assert (P1 : (1 <= 2 ^ Z.of_nat r)%Z) by (pose proof (Z.pow_pos_nonneg 2 (Z.of_nat r)); lia).
    set (N := (2 ^ Z.of_nat r)%Z) in *.
    set (a := map (fun k => Z.min k (N - 1)) z). set (o := map (fun k => k - Z.min k (N - 1))%Z z).
    assert (La : length a = d) by (unfold a; rewrite map_length; exact L).
    assert (Lo : length o = d) by (unfold o; rewrite map_length; exact L).
    assert (Ia : In a (origins s r)).
    { apply origins_spec, in_grid. split; [exact La|]. rewrite pow2_nat. fold N. rewrite Forall_forall. intros k K.
      apply in_map_iff in K. destruct K as [x [<- X]]. pose proof (F x X). lia. }
    assert (Io : In o (corners s)).
    { apply (g_cor s T G), in_grid. split; [exact Lo|]. rewrite Forall_forall. intros k K.
      apply in_map_iff in K. destruct K as [x [<- X]]. pose proof (F x X). cbn. lia. }
    assert (E : z = vadd a o).
    { apply vec_eq; [rewrite vadd_length; congruence|]. intros j J. rewrite vadd_nth by congruence. unfold a, o.
      rewrite (nth_indep (map (fun k => Z.min k (N - 1)) z) 0%Z ((fun k => Z.min k (N - 1)) 0%Z)) by (rewrite map_length; exact J).
      rewrite (nth_indep (map (fun k => k - Z.min k (N - 1))%Z z) 0%Z ((fun k => k - Z.min k (N - 1))%Z 0%Z)) by (rewrite map_length; exact J).
      rewrite (map_nth (fun k => Z.min k (N - 1))), (map_nth (fun k => k - Z.min k (N - 1))%Z). lia. }
    apply (In_nth _ _ []) in Io. destruct Io as [m [Lm Em]].
    assert (Q : exists c, described (-1) 2 r (snodes st) c (cell s a)).
    { clear - F2 Ia. remember (map (cell s) (origins s r)) as Ds.
      assert (J : In (cell s a) Ds) by (subst; apply in_map; exact Ia). clear HeqDs Ia.
      induction F2 as [|c D cs Ds H F IH]; [destruct J|]. destruct J as [->|I]; [exists c; exact H|apply IH; exact I]. }
    destruct Q as [c [_ Q]]. unfold cell in Q. specialize (Q m). rewrite map_length in Q. specialize (Q Lm).
    apply nth_error_In in Q. rewrite E, <- Em.
    rewrite (nth_indep _ [] (vadd a [])) in Q by (rewrite map_length; exact Lm). rewrite map_nth in Q. exact Q.
Qed.
End Shape.

(** ** The two tables *)
Ltac coords := repeat match goal with |- _ :: _ = _ :: _ => f_equal end;
  try reflexivity; try lia; try (Z.to_euclidean_division_equations; lia).
Lemma good_square : good square quad_table.
Proof.
  constructor.
  - cbn. lia.
  - cbn. lra.
  - split; repeat constructor; cbn; try lia; discriminate.
  - reflexivity.
  - intros o. cbn. intuition congruence.
  - repeat constructor; cbn; intuition discriminate.
  - intros [|x [|y [|]]] L; try discriminate. cbv -[Z.add Z.mul Z.div]. coords.
  - intros [|x [|y [|]]] L; try discriminate. unfold divides. cbv -[Z.add Z.mul Z.div]. repeat constructor; Z.to_euclidean_division_equations; lia.
  - repeat constructor; cbn; lia.
  - repeat constructor; cbn [length sides square]; intros [|[|[|[|j]]]] J; try reflexivity; lia.
Qed.
Lemma good_cube : good cube hex_table.
Proof.
  constructor.
  - cbn. lia.
  - cbn. lra.
  - split; repeat constructor; cbn; try lia; discriminate.
  - reflexivity.
  - intros o. cbn. intuition congruence.
  - repeat constructor; cbn; intuition discriminate.
  - intros [|x [|y [|z [|]]]] L; try discriminate. cbv -[Z.add Z.mul Z.div]. coords.
  - intros [|x [|y [|z [|]]]] L; try discriminate. unfold divides. cbv -[Z.add Z.mul Z.div]. repeat constructor; Z.to_euclidean_division_equations; lia.
  - repeat constructor; cbn; lia.
  - repeat constructor; cbn [length sides cube]; intros [|[|[|[|[|[|j]]]]]] J; try reflexivity; lia.
Qed.
