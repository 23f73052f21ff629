(** C334, C335, C336: the coarse basis functions seen by the boundary cells of the subgrid. *)
From Coq Require Import List Arith ZArith Bool Lia Reals Lra Permutation.
From Verif Require Import Subgrid_Model Subgrid_Spec Subgrid_Props Sub2_Model Sub2_Props MBasis_Model.
Import ListNotations.
Local Open Scope R_scope.

(** What is wanted: place [i] of the group holds, for fine element [e] of coarse element [m], the functions of [m],
    with the orientation of [m], at the reference coordinates in [m] of the points of [e]. *)
Definition own_basis {O Q Pt} (bas : Pt -> nat -> R) (orient : O -> (nat -> R) -> nat -> R)
    (mid : nat -> nat) (ip : nat -> Q -> Pt) (inv : nat -> Pt -> Pt) (mo : nat -> O) (g : list nat) (t : list (Q -> nat -> R)) : Prop :=
  forall i e q dof, nth_error g i = Some e -> nth i t (fun _ _ => 0) q dof = orient (mo (mid e)) (bas (inv (mid e) (ip e q))) dof.

(** *** Groups made of blocks of equal size *)
Lemma blocks_nth {A B} (F : nat -> A -> B) cs : forall M s i x,
  nth_error (flat_map (fun m => map (F m) cs) (seq s M)) i = Some x ->
  exists m n c, (i = m * List.length cs + n)%nat /\ (n < List.length cs)%nat /\ nth_error cs n = Some c /\ x = F (s + m)%nat c /\ (m < M)%nat.
Proof.
  induction M as [|M IH]; intros s i x H; [destruct i; discriminate|]. cbn [seq flat_map] in H.
  destruct (Nat.lt_ge_cases i (List.length cs)) as [L|L].
  - rewrite nth_error_app1 in H by (rewrite map_length; exact L). rewrite nth_error_map in H.
    destruct (nth_error cs i) as [c|] eqn:E; [|discriminate]. cbn in H. injection H as <-.
    exists 0%nat, i, c. rewrite Nat.add_0_r. repeat split; auto; lia.
  - rewrite nth_error_app2 in H by (rewrite map_length; exact L). rewrite map_length in H.
    destruct (IH _ _ _ H) as (m & n & c & Ei & Hn & Ec & Ex & Hm).
    exists (S m), n, c. repeat split; auto; try lia. rewrite Ex. f_equal. lia.
Qed.
Lemma blocks_length {A B} (F : nat -> A -> B) cs : forall M s,
  List.length (flat_map (fun m => map (F m) cs) (seq s M)) = (M * List.length cs)%nat.
Proof. induction M as [|M IH]; intros s; [reflexivity|]. cbn [seq flat_map]. rewrite app_length, map_length, IH. lia. Qed.
Lemma blocks_first {A B} (F : nat -> A -> B) cs M n c d : (0 < M)%nat -> nth_error cs n = Some c ->
  nth n (flat_map (fun m => map (F m) cs) (seq 0 M)) d = F 0%nat c.
Proof.
  intros H E. destruct M as [|M]; [lia|]. cbn [seq flat_map].
  assert (n < List.length cs)%nat by (apply nth_error_Some; congruence).
  rewrite app_nth1 by (rewrite map_length; assumption). apply nth_error_nth. rewrite nth_error_map, E. reflexivity.
Qed.
Lemma filter_all {A} (f : A -> bool) l : (forall x, In x l -> f x = true) -> filter f l = l.
Proof. induction l as [|a l IH]; intros H; [reflexivity|]. cbn. rewrite H by (left; reflexivity). f_equal. apply IH. intros; apply H; right; assumption. Qed.
Lemma filter_none {A} (f : A -> bool) l : (forall x, In x l -> f x = false) -> filter f l = [].
Proof. induction l as [|a l IH]; intros H; [reflexivity|]. cbn. rewrite H by (left; reflexivity). apply IH. intros; apply H; right; assumption. Qed.
Lemma blocks_count N cs M : (0 < M)%nat -> (forall c, In c cs -> c < N)%nat ->
  List.length (filter (fun e => (e / N =? 0)%nat) (flat_map (fun m => map (fun c => m * N + c)%nat cs) (seq 0 M))) = List.length cs.
Proof.
  intros H C. destruct M as [|M]; [lia|]. cbn [seq flat_map]. rewrite filter_app, app_length.
  rewrite filter_all, filter_none, map_length; [cbn; lia| |].
  - intros x X. apply in_flat_map in X. destruct X as (m & Hm & X). apply in_seq in Hm. apply in_map_iff in X. destruct X as (c & <- & X).
    specialize (C c X). apply Nat.eqb_neq. rewrite Nat.div_add_l by lia. lia.
  - intros x X. apply in_map_iff in X. destruct X as (c & <- & X). specialize (C c X). apply Nat.eqb_eq. cbn. apply Nat.div_small. exact C.
Qed.
(** The table of a set in which every coarse element contributes the cells [cs]. *)
Lemma blocks_own {O Q Pt} (bas : Pt -> nat -> R) (orient : O -> (nat -> R) -> nat -> R) (ip : nat -> Q -> Pt) inv mo N cs M :
  (0 < M)%nat -> cs <> [] -> (forall c, In c cs -> c < N)%nat ->
  (forall m c q, (m < M)%nat -> In c cs -> inv m (ip (m * N + c)%nat q) = inv 0%nat (ip c q)) ->
  let g := flat_map (fun m => map (fun c => m * N + c)%nat cs) (seq 0 M) in
  exists t, aux_first bas orient (fun e => e / N)%nat ip (inv 0%nat) mo g = Some t /\ List.length t = List.length g /\
            own_basis bas orient (fun e => e / N)%nat ip inv mo g t.
Proof.
  intros HM Hc C E g. unfold aux_first. pose proof (blocks_count N cs M HM C) as K. fold g in K. rewrite K.
  assert (L : (0 < List.length cs)%nat) by (destruct cs; [congruence|cbn; lia]).
  pose proof (blocks_length (fun m c => m * N + c)%nat cs M 0) as LG. change (List.length g = (M * List.length cs)%nat) in LG.
  destruct (List.length cs) as [|k'] eqn:Ek; [lia|]. rewrite <- Ek in *. clear L.
  eexists. split; [reflexivity|]. split; [rewrite map_length, seq_length; reflexivity|].
  intros i e q dof H. assert (Hi : (i < List.length g)%nat) by (apply nth_error_Some; congruence).
  match goal with |- nth i (map ?f _) _ q dof = _ => set (F := f) end.
  rewrite (nth_indep _ _ (F 0%nat)) by (rewrite map_length, seq_length; exact Hi). rewrite (map_nth F), seq_nth by exact Hi. cbn [Nat.add]. unfold F.
  rewrite LG, Nat.div_mul by lia. rewrite LG in Hi. destruct (Nat.ltb_spec i (M * List.length cs)); [|lia].
  destruct (blocks_nth (fun m c => m * N + c)%nat cs M 0 i e H) as (m & n & c & Ei & Hn & Ec & Ex & Hm).
  assert (Q1 : (i / List.length cs = m)%nat) by (symmetry; apply (Nat.div_unique i (List.length cs) m n); [exact Hn|lia]).
  assert (Q2 : (i mod List.length cs = n)%nat) by (symmetry; apply (Nat.mod_unique i (List.length cs) m n); [exact Hn|lia]).
  rewrite Q1, Q2. unfold g. rewrite (blocks_first (fun m c => m * N + c)%nat cs M n c 0%nat HM Ec). cbn [Nat.mul Nat.add] in *.
  assert (Ic : In c cs) by (eapply nth_error_In; exact Ec). pose proof (C c Ic) as Hc'.
  assert (D : (e / N = m)%nat) by (rewrite Ex; rewrite Nat.div_add_l by lia; rewrite Nat.div_small by exact Hc'; lia).
  rewrite D, Ex. cbn beta. rewrite E by assumption. reflexivity.
Qed.

(** *** C334: the first set *)
Definition marked (st : sub2) (s : nat) : list nat := filter (fun c => nth s (nth c (smaps2 st) []) false) (seq 0 (List.length (smaps2 st))).
Lemma side_group_blocks st M s :
  side_group2 st M s = flat_map (fun m => map (fun c => m * List.length (smaps2 st) + c)%nat (marked st s)) (seq 0 M).
Proof.
  unfold side_group2, marked. apply flat_map_ext. intros m. generalize (seq 0 (List.length (smaps2 st))).
  induction l as [|c l IH]; [reflexivity|]. cbn [flat_map filter]. destruct (nth s (nth c (smaps2 st) []) false); cbn [map app]; rewrite IH; reflexivity.
Qed.

(** A bilinear map restricted to a rectangle is the bilinear map of the images of its corners. *)
Lemma qmap_rectangle P x0 x1 y0 y1 (C : nat -> R * R) y :
  C 0%nat = (x0, y0) -> C 1%nat = (x1, y0) -> C 2%nat = (x1, y1) -> C 3%nat = (x0, y1) ->
  qmap (fun k => qmap P (C k)) y = qmap P (qmap C y).
Proof.
  intros E0 E1 E2 E3. destruct y as [s t]. unfold qmap. rewrite E0, E1, E2, E3. cbn [fst snd]. f_equal; field.
Qed.
Definition in_square (x : R * R) : Prop := -1 <= fst x <= 1 /\ -1 <= snd x <= 1.
Lemma grid2_in : forall n a, In a (grid 2 n) -> exists i j, a = [Z.of_nat i; Z.of_nat j] /\ (i < n)%nat /\ (j < n)%nat.
Proof.
  intros n a H. cbn [grid] in H. apply in_flat_map in H. destruct H as (i & Hi & H). apply in_map_iff in H. destruct H as (b & <- & H).
  apply in_flat_map in H. destruct H as (j & Hj & H). apply in_map_iff in H. destruct H as (b' & <- & H). destruct H as [<-|[]].
  apply in_seq in Hi, Hj. exists i, j. repeat split; lia.
Qed.
Lemma level_bounds r i : (i <= 2 ^ r)%nat -> -1 <= -1 + 2 * IZR (Z.of_nat i) / 2 ^ r <= 1.
Proof.
  intros H. assert (P : 0 < 2 ^ r) by (apply pow_lt; lra).
  assert (U : IZR (Z.of_nat i) <= 2 ^ r). { rewrite <- INR_IZR_INZ. replace (2 ^ r) with (INR (2 ^ r)) by (rewrite pow_INR; reflexivity). apply le_INR. exact H. }
  assert (L : 0 <= IZR (Z.of_nat i)) by (apply IZR_le; lia). unfold Rdiv. 
  assert (I : 0 < / 2 ^ r) by (apply Rinv_0_lt_compat; exact P).
  assert (E : IZR (Z.of_nat i) * / 2 ^ r <= 1). { apply (Rmult_le_reg_r (2 ^ r)); [exact P|]. rewrite Rmult_assoc, Rinv_l by lra. lra. }
  assert (0 <= IZR (Z.of_nat i) * / 2 ^ r) by (apply Rmult_le_pos; lra). rewrite Rmult_assoc. lra.
Qed.
(** The fine cells are rectangles inside the reference square. *)
Lemma cell_rectangle r c : (2 ^ r * (1 / 1000000) <= 2)%R ->
  let st := refine2 quad_table r (start2 (ref_nodes square) 4) in
  (c < List.length (sconn2 st))%nat ->
  exists x0 x1 y0 y1, -1 <= x0 <= 1 /\ -1 <= x1 <= 1 /\ -1 <= y0 <= 1 /\ -1 <= y1 <= 1 /\
    ref_corner st c 0 = (x0, y0) /\ ref_corner st c 1 = (x1, y0) /\ ref_corner st c 2 = (x1, y1) /\ ref_corner st c 3 = (x0, y1).
Proof.
  intros Sp. cbv zeta. rewrite <- forget_start, <- forget_refine. destruct (C140_quads r Sp) as (os & (P & _ & F) & _).
  set (st := refine quad_table r (start (ref_nodes square) 4)) in *. cbn [forget sconn2]. intros Hc.
  assert (G : forall (l : list (list nat)) (m : list (list Z)) c, Forall2 (fun c a => List.length c = List.length (corners square) /\
     forall j, (j < List.length (corners square))%nat ->
       nth_error (snodes st) (nth j c 0%nat) = Some (at_level (-1) 2 r (vadd a (nth j (corners square) [])))) l m -> (c < List.length l)%nat ->
     exists a, In a m /\ forall j, (j < 4)%nat -> nth_error (snodes st) (nth j (nth c l []) 0%nat) = Some (at_level (-1) 2 r (vadd a (nth j (corners square) [])))).
  { intros l m c' F'. revert c'. induction F' as [|x a l m [_ Hx] F' IH]; intros c' L; [cbn in L; lia|].
    destruct c' as [|c']; [exists a; split; [left; reflexivity|intros j J; apply Hx; exact J]|].
    cbn in L. destruct (IH c' ltac:(lia)) as (b & Ib & Hb). exists b. split; [right; exact Ib|exact Hb]. }
  destruct (G _ _ c F Hc) as (a & Ia & Ha). apply (Permutation_in _ P) in Ia. destruct (grid2_in _ _ Ia) as (i & j & -> & Hi & Hj).
  exists (-1 + 2 * IZR (Z.of_nat i) / 2 ^ r), (-1 + 2 * IZR (Z.of_nat (i + 1)) / 2 ^ r), (-1 + 2 * IZR (Z.of_nat j) / 2 ^ r), (-1 + 2 * IZR (Z.of_nat (j + 1)) / 2 ^ r).
  do 4 (split; [apply level_bounds; lia|]). unfold ref_corner. cbn [forget sconn2 snodes2].
  pose proof (Ha 0%nat ltac:(lia)) as H0. pose proof (Ha 1%nat ltac:(lia)) as H1. pose proof (Ha 2%nat ltac:(lia)) as H2. pose proof (Ha 3%nat ltac:(lia)) as H3.
  rewrite (nth_error_nth _ _ _ H0), (nth_error_nth _ _ _ H1), (nth_error_nth _ _ _ H2), (nth_error_nth _ _ _ H3).
  cbn [square corners nth vadd at_level map]. rewrite !Nat2Z.inj_add, !Z.add_0_r. repeat split.
Qed.
Lemma square_convex C y x0 x1 y0 y1 : in_square y -> -1 <= x0 <= 1 -> -1 <= x1 <= 1 -> -1 <= y0 <= 1 -> -1 <= y1 <= 1 ->
  C 0%nat = (x0, y0) -> C 1%nat = (x1, y0) -> C 2%nat = (x1, y1) -> C 3%nat = (x0, y1) -> in_square (qmap C y).
Proof.
  intros [Hs Ht] A B D E E0 E1 E2 E3. destruct y as [s t]. unfold in_square, qmap. rewrite E0, E1, E2, E3. cbn [fst snd] in *.
  replace ((1 - s) * (1 - t) / 4 * x0 + (1 + s) * (1 - t) / 4 * x1 + (1 + s) * (1 + t) / 4 * x1 + (1 - s) * (1 + t) / 4 * x0) with ((1 - s) / 2 * x0 + (1 + s) / 2 * x1) by field.
  replace ((1 - s) * (1 - t) / 4 * y0 + (1 + s) * (1 - t) / 4 * y0 + (1 + s) * (1 + t) / 4 * y1 + (1 - s) * (1 + t) / 4 * y1) with ((1 - t) / 2 * y0 + (1 + t) / 2 * y1) by field.
  repeat split; nra.
Qed.

Lemma grid2_mem n i j : (i < n)%nat -> (j < n)%nat -> In [Z.of_nat i; Z.of_nat j] (grid 2 n).
Proof.
  intros Hi Hj. cbn [grid]. apply in_flat_map. exists i. split; [apply in_seq; lia|]. apply in_map_iff. exists [Z.of_nat j]. split; [reflexivity|].
  apply in_flat_map. exists j. split; [apply in_seq; lia|]. apply in_map_iff. exists []. split; [reflexivity|left; reflexivity].
Qed.
(** Every side of the coarse element is touched by a fine cell. *)
Lemma side_touched r s : (2 ^ r * (1 / 1000000) <= 2)%R -> (s < 4)%nat ->
  marked (refine2 quad_table r (start2 (ref_nodes square) 4)) s <> [].
Proof.
  intros Sp Hs. rewrite <- forget_start, <- forget_refine. destruct (C140_quads r Sp) as (os & (P & _ & _) & MS).
  set (st := refine quad_table r (start (ref_nodes square) 4)) in *.
  assert (N0 : (2 ^ r <> 0)%nat) by (apply Nat.pow_nonzero; lia).
  assert (A : exists a, In a os /\ touches r a (nth s (sides square) (0%nat, false))).
  { exists [Z.of_nat (if (s =? 1)%nat then 2 ^ r - 1 else 0); Z.of_nat (if (s =? 2)%nat then 2 ^ r - 1 else 0)]. split.
    - apply (Permutation_in _ (Permutation_sym P)). cbn [sdim square]. apply grid2_mem; [destruct (s =? 1)%nat|destruct (s =? 2)%nat]; lia.
    - destruct s as [|[|[|[|s]]]]; [| | | |lia]; unfold touches; cbn -[Z.of_nat Nat.pow Z.pow]; try reflexivity;
        rewrite Nat2Z.inj_sub by lia; rewrite Nat2Z.inj_pow; reflexivity. }
  destruct A as (a & Ia & T).
  assert (G : forall (l : list smap) (m : list (list Z)), Forall2 (fun m a => List.length m = List.length (sides square) /\
     forall j, (j < List.length (sides square))%nat ->
       let sd := nth j (sides square) (0%nat, false) in
       (touches r a sd -> nth j m (0, 0)%Z = (1, Z.of_nat j)%Z) /\
       (~ touches r a sd -> nth j m (0, 0)%Z = (0, 0)%Z)) l m -> In a m -> exists c, (c < List.length l)%nat /\ nth s (nth c l []) (0, 0)%Z = (1, Z.of_nat s)%Z).
  { intros l m F. induction F as [|x b l m [_ Hx] F IH]; [intros []|]. intros [->|I].
    - exists 0%nat. split; [cbn; lia|]. apply Hx; [exact Hs|exact T].
    - destruct (IH I) as (c & Hc & E). exists (S c). split; [cbn; lia|exact E]. }
  destruct (G _ _ MS Ia) as (c & Hc & E). intros Z0.
  assert (I : In c (marked (forget st) s)).
  { apply filter_In. cbn [forget smaps2]. rewrite map_length. split; [apply in_seq; lia|]. rewrite forget_maps, bits_nth, E. reflexivity. }
  rewrite Z0 in I. destruct I.
Qed.

(** C334: in the first set, for any refinement and any coarse quadrilaterals, every boundary cell sees the functions of
    its own coarse element, at its own points, in its own orientation. *)
Theorem C334_first {O Q} (bas : R * R -> nat -> R) (orient : O -> (nat -> R) -> nat -> R) (pts : Q -> R * R) (mo : nat -> O)
    (Ps : nat -> nat -> R * R) (inv : nat -> R * R -> R * R) r M s :
  (2 ^ r * (1 / 1000000) <= 2)%R ->
  (forall q, in_square (pts q)) ->
  (forall m x, in_square x -> inv m (qmap (Ps m) x) = x) ->
  (0 < M)%nat -> (s < 4)%nat ->
  let st := refine2 quad_table r (start2 (ref_nodes square) 4) in
  let ip e q := fine_ip st Ps e (pts q) in
  let mid e := (e / List.length (sconn2 st))%nat in
  let g := side_group2 st M s in
  exists t, aux_first bas orient mid ip (inv 0%nat) mo g = Some t /\ List.length t = List.length g /\ own_basis bas orient mid ip inv mo g t.
Proof.
  intros Sp Hq Hinv HM Hs st ip mid g.
  assert (LS : List.length (smaps2 st) = List.length (sconn2 st)).
  { unfold st. rewrite <- forget_start, <- forget_refine. destruct (C140_quads r Sp) as (os & U & MS).
    destruct (mesh_lengths _ _ _ _ 4 U MS eq_refl) as [L1 _]. cbn [forget smaps2 sconn2]. rewrite map_length. exact L1. }
  unfold g. rewrite side_group_blocks. rewrite LS.
  assert (CB : forall c, In c (marked st s) -> (c < List.length (sconn2 st))%nat).
  { intros c H. apply filter_In in H. destruct H as [H _]. apply in_seq in H. lia. }
  apply blocks_own; auto.
  - exact (side_touched r s Sp Hs).
  - intros m c q Hm Ic. specialize (CB c Ic).
    assert (PT : forall m, inv m (ip (m * List.length (sconn2 st) + c)%nat q) = qmap (ref_corner st c) (pts q)).
    { intros m'. unfold ip, fine_ip.
      rewrite Nat.div_add_l by lia. rewrite Nat.div_small, Nat.add_0_r by exact CB.
      rewrite (Nat.add_comm (m' * _)), Nat.mod_add, Nat.mod_small by lia.
      destruct (cell_rectangle r c Sp CB) as (x0 & x1 & y0 & y1 & B1 & B2 & B3 & B4 & E0 & E1 & E2 & E3). fold st in E0, E1, E2, E3.
      unfold phys_corner. rewrite (qmap_rectangle (Ps m') x0 x1 y0 y1 (ref_corner st c)) by assumption.
      apply Hinv. apply (square_convex _ _ x0 x1 y0 y1); auto. }
    rewrite (PT m). symmetry. exact (PT 0%nat).
Qed.
Print Assumptions C334_first.

(** coarse elements that are translates of the reference square, refined once *)
Example C334_case : (2 ^ 1 * (1 / 1000000) <= 2)%R /\
  let Ps m k := let (x, y) := ref_corner (start2 (ref_nodes square) 4) 0 k in (x + 2 * INR m, y) in
  forall m x, in_square x -> (fst (qmap (Ps m) x) - 2 * INR m, snd (qmap (Ps m) x)) = x.
Proof. split; [lra|]. intros Ps m [x y] _. unfold Ps, ref_corner, start2, ref_nodes, qmap. cbn. f_equal; field. Qed.

(** *** C335: the sets after the first *)
Lemma sets_shared {Q} (first : option (list (Q -> nat -> R))) n : aux_sets first n = repeat first n.
Proof.
  induction n as [|n IH]; [reflexivity|]. cbn [aux_sets]. rewrite IH. destruct n as [|n]; [reflexivity|]. cbn [repeat nth].
  cbn [app]. f_equal. clear IH. induction n as [|n IH]; [reflexivity|]. cbn [repeat app]. f_equal. exact IH.
Qed.
Lemma own_prefix {O Q Pt} (bas : Pt -> nat -> R) (orient : O -> (nat -> R) -> nat -> R) mid (ip ip' : nat -> Q -> Pt) inv inv' (mo mo' : nat -> O) g g' rest t :
  g = (g' ++ rest)%list -> (forall e, In e g' -> mo (mid e) = mo' (mid e)) ->
  (forall e q, In e g' -> inv (mid e) (ip e q) = inv' (mid e) (ip' e q)) ->
  own_basis bas orient mid ip inv mo g t -> own_basis bas orient mid ip' inv' mo' g' t.
Proof.
  intros -> Hm Hp W i e q dof E. assert (I : In e g') by (eapply nth_error_In; exact E).
  rewrite <- (Hm e I), <- (Hp e q I). apply W. rewrite nth_error_app1; [exact E|]. apply nth_error_Some. congruence.
Qed.
Lemma local_points {Q} (pts : Q -> R * R) Ps inv r M s e q :
  (2 ^ r * (1 / 1000000) <= 2)%R -> (forall q, in_square (pts q)) -> (forall m x, in_square x -> inv m (qmap (Ps m) x) = x) ->
  let st := refine2 quad_table r (start2 (ref_nodes square) 4) in
  let N := List.length (sconn2 st) in
  In e (side_group2 st M s) -> inv (e / N)%nat (fine_ip st Ps e (pts q)) = qmap (ref_corner st (e mod N)) (pts q).
Proof.
  intros Sp Hq Hinv st N I.
  assert (N0 : N <> 0%nat).
  { intros E. apply side_group_in in I. destruct I as (m & c & _ & Hc & _).
    assert (LS : List.length (smaps2 st) = List.length (sconn2 st)).
    { unfold st. rewrite <- forget_start, <- forget_refine. destruct (C140_quads r Sp) as (os & U & MS).
      destruct (mesh_lengths _ _ _ _ 4 U MS eq_refl) as [L1 _]. cbn [forget smaps2 sconn2]. rewrite map_length. exact L1. }
    fold N in LS. lia. }
  assert (CB : (e mod N < N)%nat) by (apply Nat.mod_upper_bound; exact N0).
  unfold fine_ip. fold N. destruct (cell_rectangle r (e mod N) Sp CB) as (x0 & x1 & y0 & y1 & B1 & B2 & B3 & B4 & E0 & E1 & E2 & E3). fold st in E0, E1, E2, E3.
  unfold phys_corner. rewrite (qmap_rectangle _ x0 x1 y0 y1 (ref_corner st (e mod N))) by assumption.
  apply Hinv. apply (square_convex _ _ x0 x1 y0 y1); auto.
Qed.
(** A later set of at most as many coarse elements is right where its orientations are those of the first set. *)
Theorem C335_later_partial {O Q} (bas : R * R -> nat -> R) (orient : O -> (nat -> R) -> nat -> R) (pts : Q -> R * R)
    (mo : nat -> nat -> O) (Ps : nat -> nat -> nat -> R * R) (inv : nat -> nat -> R * R -> R * R) r (M : nat -> nat) s nsets k :
  (2 ^ r * (1 / 1000000) <= 2)%R -> (forall q, in_square (pts q)) ->
  (forall k m x, in_square x -> inv k m (qmap (Ps k m) x) = x) ->
  (0 < M 0)%nat -> (s < 4)%nat -> (k < nsets)%nat -> (M k <= M 0)%nat ->
  (forall m, (m < M k)%nat -> mo k m = mo 0%nat m) ->
  let st := refine2 quad_table r (start2 (ref_nodes square) 4) in
  let ip k e q := fine_ip st (Ps k) e (pts q) in
  let mid e := (e / List.length (sconn2 st))%nat in
  exists t, nth k (aux_sets (aux_first bas orient mid (ip 0%nat) (inv 0%nat 0%nat) (mo 0%nat) (side_group2 st (M 0%nat) s)) nsets) None = Some t /\
    own_basis bas orient mid (ip k) (inv k) (mo k) (side_group2 st (M k) s) t.
Proof.
  intros Sp Hq Hinv H0 Hs Hk HM Ho st ip mid.
  destruct (C334_first bas orient pts (mo 0%nat) (Ps 0%nat) (inv 0%nat) r (M 0%nat) s Sp Hq (Hinv 0%nat) H0 Hs) as (t & E & _ & W).
  exists t. rewrite sets_shared. split.
  - rewrite <- E. clear - Hk. revert k Hk. induction nsets as [|n IH]; intros k Hk; [lia|]. destruct k; [reflexivity|]. apply IH. lia.
  - destruct (side_group_app st (M k) (M 0%nat - M k) s) as (rest & Er & _). replace (M k + (M 0%nat - M k))%nat with (M 0%nat) in Er by lia.
    assert (LS : List.length (smaps2 st) = List.length (sconn2 st)).
    { unfold st. rewrite <- forget_start, <- forget_refine. destruct (C140_quads r Sp) as (os & U & MS).
      destruct (mesh_lengths _ _ _ _ 4 U MS eq_refl) as [L1 _]. cbn [forget smaps2 sconn2]. rewrite map_length. exact L1. }
    eapply own_prefix; [exact Er| | |exact W].
    + intros e I. symmetry. apply Ho. apply side_group_in in I. destruct I as (m & c & Hm & Hc & -> & _). rewrite LS in Hc |- *. unfold mid.
      rewrite Nat.div_add_l by lia. rewrite Nat.div_small by exact Hc. lia.
    + intros e q I. pose proof (local_points pts (Ps k) (inv k) r (M k) s e q Sp Hq (Hinv k) I) as L1.
      assert (I0 : In e (side_group2 st (M 0%nat) s)) by (rewrite Er; apply in_or_app; left; exact I).
      pose proof (local_points pts (Ps 0%nat) (inv 0%nat) r (M 0%nat) s e q Sp Hq (Hinv 0%nat) I0) as L0.
      etransitivity; [exact L0|symmetry; exact L1].
Qed.
Print Assumptions C335_later_partial.
(** One coarse element per set, the same square with another orientation of its side: the functions of the second set are
    those of the first orientation. *)
Theorem C335_later_refuted :
  let orient (o : bool) (v : nat -> R) (dof : nat) := if o then - v dof else v dof in
  let st := start2 (ref_nodes square) 4 in
  let corner k := ref_corner st 0 k in
  let ip e (_ : unit) := fine_ip st (fun _ => corner) e (0, -1) in
  let inv (x : R * R) := x in
  let mo (k m : nat) := (k =? 1)%nat in
  (forall x, in_square x -> inv (qmap corner x) = x) /\
  exists t, nth 1 (aux_sets (aux_first (fun _ _ => 1) orient (fun e => e / 1)%nat ip inv (mo 0%nat) (side_group2 st 1 0)) 2) None = Some t /\
    ~ own_basis (fun _ _ => 1) orient (fun e => e / 1)%nat ip (fun _ => inv) (mo 1%nat) (side_group2 st 1 0) t.
Proof.
  intros orient st corner ip inv mo. split.
  - intros [x y] _. unfold inv, corner, ref_corner, st, start2, ref_nodes, qmap. cbn. f_equal; field.
  - eexists. split; [reflexivity|]. intros W. specialize (W 0%nat 0%nat tt 0%nat eq_refl). cbn in W. lra.
Qed.
Print Assumptions C335_later_refuted.

(** *** C336: sets with different conditions (first implementation) *)
(** The side information of fine element [c] of a set, N fine cells per coarse element. *)
Definition side_info (st : sub) (ns : nat) (macro : nat -> nat -> nat -> Z * Z) (c i j : nat) : Z * Z :=
  let N := List.length (sconn st) in
  match physical_side st ns macro (c / N) (c mod N) i j with Some x => x | None => (0, 0)%Z end.
Lemma filter_blocks (p : nat -> bool) N M : (forall m c, (m < M)%nat -> (c < N)%nat -> p (m * N + c)%nat = p c) ->
  filter p (seq 0 (M * N)) = flat_map (fun m => map (fun c => m * N + c)%nat (filter p (seq 0 N))) (seq 0 M).
Proof.
  induction M as [|M IH]; intros H; [reflexivity|]. rewrite seq_S, flat_map_app. cbn [flat_map Nat.add]. rewrite app_nil_r.
  rewrite <- IH by (intros; apply H; lia). replace (S M * N)%nat with (M * N + N)%nat by lia. rewrite seq_app, filter_app. f_equal.
  cbn [Nat.add]. assert (G : forall l, (forall c, In c l -> (c < N)%nat) -> filter p (map (fun c => M * N + c)%nat l) = map (fun c => M * N + c)%nat (filter p l)).
  { induction l as [|c l IHl]; intros L; [reflexivity|]. cbn [map filter]. rewrite H by (try apply L; cbn; auto; lia).
    rewrite IHl by (intros; apply L; right; assumption). destruct (p c); reflexivity. }
  rewrite <- G by (intros c I; apply in_seq in I; lia). f_equal. clear.
  replace (seq (M * N) N) with (map (fun c => M * N + c)%nat (seq 0 N)); [reflexivity|]. generalize (M * N)%nat. intros a.
  assert (G : forall n s, map (fun c => a + c)%nat (seq s n) = seq (a + s) n). { induction n as [|n IHn]; intros s; [reflexivity|]. cbn. rewrite IHn, Nat.add_succ_r. reflexivity. }
  rewrite G, Nat.add_0_r. reflexivity.
Qed.
Theorem C336_mixed_partial {O Q Pt} (bas : Pt -> nat -> R) (orient : O -> (nat -> R) -> nat -> R) (ip : nat -> Q -> Pt) inv mo st ns nv macro M s :
  let N := List.length (sconn st) in
  let g := side_group (M * N) nv (side_info st ns macro) s in
  (0 < M)%nat -> g <> [] ->
  (forall k i j, (k < M)%nat -> macro k i j = macro 0%nat i j) ->
  (forall m c q, (m < M)%nat -> (c < N)%nat -> inv m (ip (m * N + c)%nat q) = inv 0%nat (ip c q)) ->
  exists t, aux_first bas orient (fun e => e / N)%nat ip (inv 0%nat) mo g = Some t /\ own_basis bas orient (fun e => e / N)%nat ip inv mo g t.
Proof.
  intros N g HM Hg Hc Hp. unfold g, side_group in *. rewrite filter_blocks in *.
  - edestruct (blocks_own bas orient ip inv mo N) as (t & E & _ & W); [exact HM| | | |exists t; split; [exact E|exact W]].
    + intros E. apply Hg. rewrite E. clear. induction (seq 0 M); auto.
    + intros c I. apply filter_In in I. destruct I as [I _]. apply in_seq in I. lia.
    + intros m c q Hm I. apply Hp; [exact Hm|]. apply filter_In in I. destruct I as [I _]. apply in_seq in I. lia.
  - intros m c Hm Hcc. assert (E : forall i j, side_info st ns macro (m * N + c)%nat i j = side_info st ns macro c i j); [|clear - E; induction (seq 0 nv) as [|i l IH]; [reflexivity|]; cbn [existsb]; rewrite IH, E; reflexivity].
    intros i j. unfold side_info. fold N. rewrite Nat.div_add_l by lia. rewrite (Nat.div_small c N) by exact Hcc.
    replace ((m * N + c) mod N)%nat with (c mod N)%nat by (rewrite (Nat.add_comm (m * N) c), Nat.mod_add by lia; reflexivity). rewrite Nat.add_0_r.
    unfold physical_side. destruct (j <? _)%nat; [|reflexivity]. destruct (nth j _ _) as [mark idx].
    rewrite !(Hc m) by exact Hm. reflexivity.
  - intros m c Hm Hcc. assert (E : forall i j, side_info st ns macro (m * N + c)%nat i j = side_info st ns macro c i j); [|clear - E; induction (seq 0 nv) as [|i l IH]; [reflexivity|]; cbn [existsb]; rewrite IH, E; reflexivity].
    intros i j. unfold side_info. fold N. rewrite Nat.div_add_l by lia. rewrite (Nat.div_small c N) by exact Hcc.
    replace ((m * N + c) mod N)%nat with (c mod N)%nat by (rewrite (Nat.add_comm (m * N) c), Nat.mod_add by lia; reflexivity). rewrite Nat.add_0_r.
    unfold physical_side. destruct (j <? _)%nat; [|reflexivity]. destruct (nth j _ _) as [mark idx].
    rewrite !(Hc m) by exact Hm. reflexivity.
Qed.
Print Assumptions C336_mixed_partial.
(** Unrefined coarse elements; [cond k]: side 0 of coarse element [k] is on a Neumann boundary (kind 2), otherwise interior. *)
Definition mixed (cond : nat -> bool) (k i j : nat) : Z * Z := if cond k then (2, 3)%Z else (0, 0)%Z.
(** An interior first element: division by zero.  First and third element on the boundary: the third gets the orientation of
    the second. *)
Theorem C336_mixed_refuted :
  let st := start (ref_nodes square) 4 in
  (forall {O Q Pt} (bas : Pt -> nat -> R) (orient : O -> (nat -> R) -> nat -> R) (ip : nat -> Q -> Pt) inv mo,
     let g := side_group 2 1 (side_info st 4 (mixed (fun k => k =? 1)%nat)) (3%Z, 0%nat) in
     g = [1%nat] /\ aux_first bas orient (fun e => e / 1)%nat ip inv mo g = None) /\
  (let orient (o : bool) (v : nat -> R) (dof : nat) := if o then - v dof else v dof in
   let mo m := (m =? 2)%nat in
   let g := side_group 3 1 (side_info st 4 (mixed (fun k => negb (k =? 1)%nat))) (3%Z, 0%nat) in
   g = [0; 2]%nat /\
   exists t, aux_first (fun (_ : unit) _ => 1) orient (fun e => e / 1)%nat (fun _ (_ : unit) => tt) (fun x => x) mo g = Some t /\
     ~ own_basis (fun (_ : unit) _ => 1) orient (fun e => e / 1)%nat (fun _ (_ : unit) => tt) (fun _ x => x) mo g t).
Proof.
  intros st. split.
  - intros. split; reflexivity.
  - intros orient mo g. split; [reflexivity|]. eexists. split; [reflexivity|]. intros W. specialize (W 1%nat 2%nat tt 0%nat eq_refl). cbn in W. lra.
Qed.
Print Assumptions C336_mixed_refuted.
