(** Properties of the visualization output. *)
From Coq Require Import Bool String Reals List Arith Lia Lra.
From Verif Require Import Vis_Model.
Import ListNotations.
Local Open Scope R_scope.
Local Notation length := List.length.

(* ---------------------------------------------------------------- the loop *)

Lemma put_other : forall row elems pos out x k, ~ In x elems -> v_put row pos elems out x k = out x k.
Proof.
  induction elems as [|y r IH]; intros pos out x k H; cbn; [reflexivity|].
  rewrite IH by (intros K; apply H; right; exact K).
  destruct (Nat.eqb_spec x y) as [-> | _]; [exfalso; apply H; left; reflexivity|reflexivity].
Qed.
Lemma put_at : forall row elems pos out i x k, NoDup elems -> nth_error elems i = Some x ->
  v_put row pos elems out x k = row (pos + i)%nat k.
Proof.
  induction elems as [|y r IH]; intros pos out i x k N H; [destruct i; discriminate|].
  inversion N as [|? ? N1 N2]; subst. destruct i as [|i]; cbn in H |- *.
  - injection H as ->. rewrite put_other by exact N1. rewrite Nat.eqb_refl, Nat.add_0_r. reflexivity.
  - rewrite (IH (S pos) _ i x k N2 H). f_equal; lia.
Qed.
Lemma loop_other : forall step val gs d out x k, ~ In x (flat_map vg_elem gs) -> snd (v_loop step val gs d out) x k = out x k.
Proof.
  induction gs as [|g r IH]; intros d out x k H; cbn; [reflexivity|].
  cbn in H. rewrite IH by (intros K; apply H, in_or_app; right; exact K).
  apply put_other. intros K; apply H, in_or_app; left; exact K.
Qed.
Lemma nodup_app : forall A (l l' : list A), NoDup (l ++ l') -> NoDup l /\ NoDup l' /\ forall x, In x l -> ~ In x l'.
Proof.
  induction l as [|a l IH]; cbn; intros l' H; [repeat split; [constructor|exact H|tauto]|].
  inversion H as [|? ? H1 H2]; subst. destruct (IH l' H2) as (N1 & N2 & D). repeat split.
  - constructor; [intros K; apply H1, in_or_app; left; exact K|exact N1].
  - exact N2.
  - intros x [-> | K] L; [apply H1, in_or_app; right; exact L|exact (D x K L)].
Qed.
(** The value put for an element is computed from the data after the step of its own group. *)
Lemma loop_at : forall step val gs d out g n i x k,
  NoDup (flat_map vg_elem gs) -> nth_error gs n = Some g -> nth_error (vg_elem g) i = Some x ->
  exists d0, snd (v_loop step val gs d out) x k = val g (step g d0) i k
    /\ d0 = fold_left (fun d g => step g d) (firstn n gs) d.
Proof.
  induction gs as [|g0 r IH]; intros d out g n i x k N Hg Hi; [destruct n; discriminate|].
  cbn in N. destruct (nodup_app _ _ _ N) as (N1 & N2 & D).
  destruct n as [|n]; cbn in Hg |- *.
  - injection Hg as ->. exists d. split; [|reflexivity].
    rewrite loop_other by (apply D, (nth_error_In _ _ Hi)).
    rewrite (put_at _ _ 0 _ i x k N1 Hi). reflexivity.
  - apply (IH _ _ g n i x k N2 Hg Hi).
Qed.
Lemma pos_lt : forall (l : list nat) i x, nth_error l i = Some x -> (i <? length l)%nat = true.
Proof. intros l i x H. apply Nat.ltb_lt, nth_error_Some. rewrite H. discriminate. Qed.

(** C298 Values of unknowns: every element receives its own coefficients, whatever the grouping and
    whatever the shared buffers held; with the basis at the nodes it receives the field at its own
    nodes, which is the same when the basis is nodal. *)
Definition vis_placed (gs : list vgroup) (out : vbuf) (want : vgroup -> nat -> nat -> R) : Prop :=
  (forall g i x k, In g gs -> nth_error (vg_elem g) i = Some x -> out x k = want g i k)
  /\ (forall x k, (forall g, In g gs -> ~ In x (vg_elem g)) -> out x k = 0).
Lemma placed : forall step val gs d want, NoDup (flat_map vg_elem gs) ->
  (forall g d i k, (i < length (vg_elem g))%nat -> In g gs -> val g (step g d) i k = want g i k) ->
  vis_placed gs (snd (v_loop step val gs d v_zero)) want.
Proof.
  intros step val gs d want N H. split.
  - intros g i x k Hg Hi. destruct (In_nth_error _ _ Hg) as [n Hn].
    destruct (loop_at step val gs d v_zero g n i x k N Hn Hi) as (d0 & -> & _).
    apply H; [apply nth_error_Some; rewrite Hi; discriminate|exact Hg].
  - intros x k Hx. rewrite loop_other; [reflexivity|].
    intros K. apply in_flat_map in K. destruct K as (g & Hg & K). exact (Hx g Hg K).
Qed.
Lemma vsum_ext : forall A (f g : A -> R) l, (forall x, In x l -> f x = g x) -> v_sum (map f l) = v_sum (map g l).
Proof. intros A f g l H. f_equal. apply map_ext_in, H. Qed.
Lemma vsum_delta : forall u n a p, (a <= p < a + n)%nat ->
  v_sum (map (fun dof => u dof * (if Nat.eqb dof p then 1 else 0)) (seq a n)) = u p.
Proof.
  intros u. assert (Z : forall n a p, (p < a)%nat -> v_sum (map (fun dof => u dof * (if Nat.eqb dof p then 1 else 0)) (seq a n)) = 0).
  { induction n as [|n IH]; intros a p H; cbn [seq map v_sum fold_right]; [reflexivity|].
    unfold v_sum in IH. rewrite IH by lia. destruct (Nat.eqb_spec a p); [lia|ring]. }
  unfold v_sum in *. induction n as [|n IH]; intros a p H; [lia|]. cbn [seq map fold_right].
  destruct (Nat.eqb_spec a p) as [-> | Ne].
  - rewrite Z by lia. ring.
  - rewrite IH by lia. ring.
Qed.
Theorem C298_written_values_are_the_elements_own : forall vec pvec set gs d,
  NoDup (flat_map vg_elem gs) ->
  vis_placed gs (snd (v_write_sol vec set gs d)) (fun g i k => vec (vg_lid g set i k))
  /\ vis_placed gs (snd (v_write_par pvec gs d)) (fun g i k => pvec (vg_plid g i k))
  /\ (forall bn ndof,
        vis_placed gs (snd (v_write_nodes bn ndof vec set gs d))
          (fun g i pt => v_sum (map (fun dof => vec (vg_lid g set i dof) * bn g i dof pt) (seq 0 ndof)))
        /\ ((forall g i dof pt, bn g i dof pt = if Nat.eqb dof pt then 1 else 0) ->
            forall g i x pt, In g gs -> nth_error (vg_elem g) i = Some x -> (pt < ndof)%nat ->
              snd (v_write_nodes bn ndof vec set gs d) x pt = vec (vg_lid g set i pt))).
Proof.
  intros vec pvec set gs d N. split; [|split].
  - apply placed; [exact N|]. intros g d0 i k Hi _. cbn [v_gather_sol v_gather_par vd_sol vd_par vg_elem]. rewrite Nat.eqb_refl. cbn [andb].
    apply Nat.ltb_lt in Hi. rewrite Hi. reflexivity.
  - apply placed; [exact N|]. intros g d0 i k Hi _. cbn [v_gather_sol v_gather_par vd_sol vd_par vg_elem]. apply Nat.ltb_lt in Hi. rewrite Hi. reflexivity.
  - intros bn ndof.
    assert (P : vis_placed gs (snd (v_write_nodes bn ndof vec set gs d))
          (fun g i pt => v_sum (map (fun dof => vec (vg_lid g set i dof) * bn g i dof pt) (seq 0 ndof)))).
    { apply placed; [exact N|]. intros g d0 i k Hi _. apply vsum_ext. intros dof _. cbn [v_gather_sol v_gather_par vd_sol vd_par vg_elem]. rewrite Nat.eqb_refl. cbn [andb].
      apply Nat.ltb_lt in Hi. rewrite Hi. reflexivity. }
    split; [exact P|]. intros D g i x pt Hg Hi Hp. destruct P as [P _]. rewrite (P g i x pt Hg Hi).
    rewrite (vsum_ext _ _ (fun dof => vec (vg_lid g set i dof) * (if Nat.eqb dof pt then 1 else 0)))
      by (intros dof _; rewrite D; reflexivity).
    apply (vsum_delta (fun dof => vec (vg_lid g set i dof))). lia.
Qed.
Print Assumptions C298_written_values_are_the_elements_own.

(** Two groups of two and one elements of a line: nodes 0..3. *)
Definition ga : vgroup := {| vg_elem := [2; 0]%nat; vg_lid := fun s i k => if Nat.eqb i 0 then (2 + k)%nat else k; vg_plid := fun i k => if Nat.eqb i 0 then 2%nat else 0%nat; vg_wts := fun _ => [1; 1] |}.
Definition gb : vgroup := {| vg_elem := [1]%nat; vg_lid := fun s i k => (1 + k)%nat; vg_plid := fun i k => 1%nat; vg_wts := fun _ => [1; 1] |}.
Definition vjunk : vdata := {| vd_sol := fun _ _ _ => 77; vd_par := fun _ _ => 77 |}.
Example C298_case : NoDup (flat_map vg_elem [ga; gb])
  /\ map (fun e => map (snd (v_write_sol INR 0 [ga; gb] vjunk) e) [0; 1]%nat) [0; 1; 2]%nat = [[INR 0; INR 1]; [INR 1; INR 2]; [INR 2; INR 3]].
Proof. split; [cbn; repeat constructor; cbn; intuition congruence|reflexivity]. Qed.

(* ---------------------------------------------------------------- averages *)

Definition vmean (vals : list (R * R)) : R := v_sum (map (fun p => fst p * snd p) vals) / v_sum (map snd vals).
Lemma foldl_sum : forall A (f : A -> R) l a, fold_left (fun a p => a + f p) l a = a + v_sum (map f l).
Proof. induction l as [|x r IH]; intros a; cbn [fold_left map v_sum fold_right]; [ring|]. rewrite IH. unfold v_sum. ring. Qed.
Lemma vsum_scale : forall A (f : A -> R) c l, v_sum (map (fun x => f x * c) l) = v_sum (map f l) * c.
Proof. induction l as [|x r IH]; cbn [map v_sum fold_right]; [ring|]. unfold v_sum in IH. rewrite IH. ring. Qed.
Lemma vsum_add : forall A (f g : A -> R) l, v_sum (map (fun x => f x + g x) l) = v_sum (map f l) + v_sum (map g l).
Proof. induction l as [|x r IH]; cbn [map v_sum fold_right]; [ring|]. unfold v_sum in IH. rewrite IH. ring. Qed.
Lemma vsum_zero : forall A (l : list A), v_sum (map (fun _ => 0) l) = 0.
Proof. induction l as [|x r IH]; cbn [map v_sum fold_right]; [reflexivity|]. unfold v_sum in IH. rewrite IH. ring. Qed.
Lemma vsum_swap : forall A B (f : A -> B -> R) l l',
  v_sum (map (fun x => v_sum (map (f x) l')) l) = v_sum (map (fun y => v_sum (map (fun x => f x y) l)) l').
Proof.
  induction l as [|x r IH]; intros l'; cbn [map].
  - cbn. rewrite vsum_zero. reflexivity.
  - cbn [v_sum fold_right]. fold (v_sum (map (fun x0 => v_sum (map (f x0) l')) r)). rewrite IH, <- vsum_add. reflexivity.
Qed.
Lemma reduce_mean : forall vals, v_reduce VMean vals = vmean vals.
Proof.
  intros vals. cbn [v_reduce]. unfold vmean.
  rewrite (foldl_sum _ (fun p : R * R => snd p) vals 0), Rplus_0_l.
  rewrite (foldl_sum _ (fun p : R * R => fst p * snd p / v_sum (map (fun p => snd p) vals)) vals 0), Rplus_0_l.
  unfold Rdiv. rewrite vsum_scale. reflexivity.
Qed.
Lemma face_mean : forall vals, v_face_average vals = vmean vals.
Proof.
  intros vals. unfold v_face_average, vmean.
  rewrite (foldl_sum _ (fun p : R * R => snd p) vals 0), Rplus_0_l.
  rewrite (foldl_sum _ (fun p : R * R => fst p * snd p) vals 0), Rplus_0_l.
  change (map (fun p : R * R => snd p) vals) with (map snd vals). unfold Rdiv. ring.
Qed.
Lemma mean_const : forall c vals, v_sum (map snd vals) <> 0 -> (forall p, In p vals -> fst p = c) -> vmean vals = c.
Proof.
  intros c vals H K. unfold vmean.
  rewrite (vsum_ext _ _ (fun p : R * R => snd p * c)) by (intros p Hp; rewrite (K p Hp); ring).
  rewrite vsum_scale. field. exact H.
Qed.
Lemma mean_bound : forall lo hi vals, 0 < v_sum (map snd vals) -> (forall p, In p vals -> 0 <= snd p) ->
  (forall p, In p vals -> lo <= fst p <= hi) -> lo <= vmean vals <= hi.
Proof.
  intros lo hi vals P W B. unfold vmean.
  assert (S : lo * v_sum (map snd vals) <= v_sum (map (fun p => fst p * snd p) vals) <= hi * v_sum (map snd vals)).
  { clear P. induction vals as [|p r IH]; cbn [map v_sum fold_right]; [lra|].
    assert (I := IH (fun q Hq => W q (or_intror Hq)) (fun q Hq => B q (or_intror Hq))). unfold v_sum in I.
    specialize (W p (or_introl eq_refl)). specialize (B p (or_introl eq_refl)).
    assert (lo * snd p <= fst p * snd p <= hi * snd p) by (split; apply Rmult_le_compat_r; lra). lra. }
  split; apply (Rmult_le_reg_r (v_sum (map snd vals))); try exact P;
    unfold Rdiv; rewrite Rmult_assoc, Rinv_l, Rmult_1_r by lra; lra.
Qed.
(** The field of one element at the points, with the weights. *)
Definition vis_points (ndof : nat) (u : nat -> R) (b : nat -> nat -> R) (wts : list R) : list (R * R) :=
  map (fun pt => (v_sum (map (fun dof => u dof * b dof pt) (seq 0 ndof)), nth pt wts 0)) (seq 0 (length wts)).
Lemma points_wts : forall ndof u b wts, map snd (vis_points ndof u b wts) = wts.
Proof.
  intros. unfold vis_points. rewrite map_map. cbn [snd].
  induction wts as [|w r IH] using rev_ind; [reflexivity|].
  rewrite app_length, seq_app, map_app. cbn. f_equal.
  - rewrite <- IH at 2. apply map_ext_in. intros p Hp. apply in_seq in Hp. apply app_nth1. lia.
  - rewrite app_nth2, Nat.sub_diag by lia. reflexivity.
Qed.
Lemma average_mean : forall ndof u b wts, v_average ndof u b wts = vmean (vis_points ndof u b wts).
Proof.
  intros. unfold v_average, vmean. rewrite points_wts. f_equal.
  rewrite vsum_swap. unfold vis_points. rewrite map_map. cbn [fst snd]. apply vsum_ext. intros pt _.
  rewrite vsum_scale. reflexivity.
Qed.

(** C299 Cell values of vector and face unknowns, and cell fields reduced by "mean", are weighted
    means over the element (over its faces): a constant is reproduced, and with nonnegative
    weights the value lies between the bounds of the field. *)
Theorem C299_cell_averages_are_means :
  (forall ndof u b wts, v_average ndof u b wts
      = v_sum (map (fun p => fst p * snd p) (vis_points ndof u b wts)) / v_sum wts)
  /\ (forall vals, v_reduce VMean vals = v_sum (map (fun p => fst p * snd p) vals) / v_sum (map snd vals)
        /\ v_face_average vals = v_reduce VMean vals)
  /\ (forall c vals, v_sum (map snd vals) <> 0 -> (forall p, In p vals -> fst p = c) -> v_reduce VMean vals = c)
  /\ (forall lo hi vals, 0 < v_sum (map snd vals) -> (forall p, In p vals -> 0 <= snd p) ->
        (forall p, In p vals -> lo <= fst p <= hi) -> lo <= v_reduce VMean vals <= hi)
  /\ (forall c ndof u b wts, v_sum wts <> 0 ->
        (forall pt, (pt < length wts)%nat -> v_sum (map (fun dof => u dof * b dof pt) (seq 0 ndof)) = c) ->
        v_average ndof u b wts = c)
  /\ (forall lo hi ndof u b wts, 0 < v_sum wts -> (forall w, In w wts -> 0 <= w) ->
        (forall pt, (pt < length wts)%nat -> lo <= v_sum (map (fun dof => u dof * b dof pt) (seq 0 ndof)) <= hi) ->
        lo <= v_average ndof u b wts <= hi).
Proof.
  split; [|split; [|split; [|split; [|split]]]].
  - intros. rewrite average_mean. unfold vmean. rewrite points_wts. reflexivity.
  - intros. rewrite face_mean, reduce_mean. split; reflexivity.
  - intros. rewrite reduce_mean. apply mean_const; assumption.
  - intros. rewrite reduce_mean. apply mean_bound; assumption.
  - intros c ndof u b wts H K. rewrite average_mean. apply mean_const; [rewrite points_wts; exact H|].
    intros p Hp. unfold vis_points in Hp. apply in_map_iff in Hp. destruct Hp as (pt & <- & Hp). apply in_seq in Hp. cbn. apply K; lia.
  - intros lo hi ndof u b wts H W K. rewrite average_mean. apply mean_bound; [rewrite points_wts; exact H| |].
    + intros p Hp. apply W. rewrite <- (points_wts ndof u b wts). apply in_map, Hp.
    + intros p Hp. unfold vis_points in Hp. apply in_map_iff in Hp. destruct Hp as (pt & <- & Hp). apply in_seq in Hp. cbn. apply K; lia.
Qed.
Print Assumptions C299_cell_averages_are_means.
Example C299_case : v_average 2 (fun d => INR (S d)) (fun d pt => if Nat.eqb d pt then 1 else 0) [1; 3] = 7 / 4.
Proof. unfold v_average. cbn. field. Qed.

(* ---------------------------------------------------------------- functions of the solution *)

(** f does not look at the sets past 0, or at the parameters. *)
Definition only_set0 (f : vfun) : Prop := forall s s' p pt, (forall k, s 0%nat k = s' 0%nat k) -> f s p pt = f s' p pt.
Definition no_param (f : vfun) : Prop := forall s p p' pt, f s p pt = f s p' pt.
Definition pointwise (f : vfun) : Prop := forall s s' p p' pt, (forall i k, s i k = s' i k) -> (forall k, p k = p' k) -> f s p pt = f s' p' pt.
Lemma cell_ext : forall how f f' s p s' p' w, (forall pt, f s p pt = f' s' p' pt) -> v_cell_value how f s p w = v_cell_value how f' s' p' w.
Proof. intros. unfold v_cell_value. f_equal. f_equal. apply map_ext. assumption. Qed.

(** C300 A cell field of the first set and of the parameters, and a derived quantity of the first
    set, are computed on every element from its own values. *)
Theorem C300_cell_fields_use_the_elements_own_values : forall how f svec pvec gs d,
  NoDup (flat_map vg_elem gs) -> pointwise f -> only_set0 f ->
  vis_placed gs (snd (v_extra how f svec pvec gs d))
    (fun g i _ => v_reduce how (combine (map (f (fun s k => svec (vg_lid g 0 i k)) (fun k => pvec (vg_plid g i k))) (seq 0 (length (vg_wts g i)))) (vg_wts g i)))
  /\ (no_param f ->
      vis_placed gs (snd (v_derived how f svec gs d))
        (fun g i _ => v_reduce how (combine (map (f (fun s k => svec (vg_lid g 0 i k)) (fun k => pvec (vg_plid g i k))) (seq 0 (length (vg_wts g i)))) (vg_wts g i)))).
Proof.
  intros how f svec pvec gs d N Pf Sf. split.
  - apply placed; [exact N|]. intros g d0 i k Hi _. apply Nat.ltb_lt in Hi.
    fold (v_cell_value how f (fun s k => svec (vg_lid g 0 i k)) (fun k => pvec (vg_plid g i k)) (vg_wts g i)).
    apply cell_ext. intros pt. cbn [v_gather_sol v_gather_par vd_sol vd_par vg_elem].
    rewrite (Sf _ (fun s k => svec (vg_lid g 0 i k))) by (intros j; rewrite Hi; reflexivity).
    apply Pf; [reflexivity|]. intros j. rewrite Hi. reflexivity.
  - intros Nf. apply placed; [exact N|]. intros g d0 i k Hi _. apply Nat.ltb_lt in Hi.
    fold (v_cell_value how f (fun s k => svec (vg_lid g 0 i k)) (fun k => pvec (vg_plid g i k)) (vg_wts g i)).
    apply cell_ext. intros pt. cbn [v_gather_sol v_gather_par vd_sol vd_par vg_elem].
    rewrite (Sf _ (fun s k => svec (vg_lid g 0 i k))) by (intros j; rewrite Hi; reflexivity).
    apply Nf.
Qed.
Print Assumptions C300_cell_fields_use_the_elements_own_values.
Definition f_prod : vfun := fun s p pt => s 0%nat pt * p 0%nat.
Example C300_case : pointwise f_prod /\ only_set0 f_prod
  /\ snd (v_extra VMean f_prod INR INR [ga; gb] vjunk) 1%nat 0%nat = 3 / 2.
Proof.
  unfold f_prod. split; [|split].
  - intros s s' p p' pt H K. rewrite H, K. reflexivity.
  - intros s s' p pt H. rewrite H. reflexivity.
  - cbn. field.
Qed.

(** C301 Functions of a later set, and derived quantities that depend on a parameter, are computed
    from what the last group left in the shared buffer. *)
Definition f_set1 : vfun := fun s p pt => s 1%nat 0%nat.
Definition f_par : vfun := fun s p pt => p 0%nat.
Theorem C301_cell_fields_use_own_values_of_all_sets_refuted :
  exists gs x g i, NoDup (flat_map vg_elem gs) /\ In g gs /\ nth_error (vg_elem g) i = Some x
    /\ pointwise f_set1 /\ pointwise f_par
    (* the data after the fields of set 1 have been written, then after the parameters *)
    /\ (let d := fst (v_write_sol INR 1 gs vjunk) in
        snd (v_extra VMean f_set1 INR INR gs d) x 0%nat <> INR (vg_lid g 1 i 0))
    /\ (let d := fst (v_write_par INR gs vjunk) in
        snd (v_derived VMean f_par INR gs d) x 0%nat <> INR (vg_plid g i 0)).
Proof.
  exists [ga; gb], 2%nat, ga, 0%nat. unfold f_set1, f_par.
  split; [cbn; repeat constructor; cbn; intuition congruence|]. split; [left; reflexivity|]. split; [reflexivity|].
  split; [intros s s' p p' pt H K; apply H|]. split; [intros s s' p p' pt H K; apply K|].
  split; cbn; intros E.
  - assert (X : (1 * 1 / (1 + 1) + 1 * 1 / (1 + 1)) = 1) by field. lra.
  - assert (X : (1 * 1 / (1 + 1) + 1 * 1 / (1 + 1)) = 1) by field. lra.
Qed.
Print Assumptions C301_cell_fields_use_own_values_of_all_sets_refuted.
(** With one group the buffers hold its own values. *)
Theorem C301_one_group_partial : forall how f svec pvec g d, NoDup (vg_elem g) -> pointwise f ->
  (forall s i k, (i < length (vg_elem g))%nat -> vd_sol d (S s) i k = svec (vg_lid g (S s) i k)) ->
  (forall i k, (i < length (vg_elem g))%nat -> vd_par d i k = pvec (vg_plid g i k)) ->
  vis_placed [g] (snd (v_extra how f svec pvec [g] d))
      (fun g i _ => v_reduce how (combine (map (f (fun s k => svec (vg_lid g s i k)) (fun k => pvec (vg_plid g i k))) (seq 0 (length (vg_wts g i)))) (vg_wts g i)))
  /\ vis_placed [g] (snd (v_derived how f svec [g] d))
      (fun g i _ => v_reduce how (combine (map (f (fun s k => svec (vg_lid g s i k)) (fun k => pvec (vg_plid g i k))) (seq 0 (length (vg_wts g i)))) (vg_wts g i))).
Proof.
  intros how f svec pvec g d N Pf Hs Hp.
  assert (V : forall val step, (forall i k, (i < length (vg_elem g))%nat ->
      val g (step g d) i k = v_cell_value how f (fun s k => svec (vg_lid g s i k)) (fun k => pvec (vg_plid g i k)) (vg_wts g i)) ->
      vis_placed [g] (snd (v_loop step val [g] d v_zero)) (fun g i _ => v_cell_value how f (fun s k => svec (vg_lid g s i k)) (fun k => pvec (vg_plid g i k)) (vg_wts g i))).
  { intros val step H. split.
    - intros g' i x k [<- | []] Hi. cbn. rewrite (put_at _ _ 0 _ i x k N Hi). apply H. apply nth_error_Some. rewrite Hi. discriminate.
    - intros x k Hx. cbn. rewrite put_other; [reflexivity|]. apply Hx. left. reflexivity. }
  split; apply V; intros i k Hi; apply cell_ext; intros pt; cbn [v_gather_sol v_gather_par vd_sol vd_par vg_elem]; apply Pf.
  - intros s j. destruct s as [|s]; cbn [Nat.eqb andb]; [apply Nat.ltb_lt in Hi; rewrite Hi; reflexivity|]. apply (Hs s i j Hi).
  - intros j. apply Nat.ltb_lt in Hi. rewrite Hi. reflexivity.
  - intros s j. destruct s as [|s]; cbn [Nat.eqb andb]; [apply Nat.ltb_lt in Hi; rewrite Hi; reflexivity|]. apply (Hs s i j Hi).
  - intros j. apply (Hp i j Hi).
Qed.
Print Assumptions C301_one_group_partial.

(* ---------------------------------------------------------------- max and min *)

Lemma foldmax : forall vals a, let m := fold_left (fun a (p : R * R) => if Rlt_dec a (fst p) then fst p else a) vals a in
  a <= m /\ (forall p, In p vals -> fst p <= m) /\ (m = a \/ exists p, In p vals /\ m = fst p).
Proof.
  induction vals as [|p r IH]; intros a; cbn [fold_left]; [repeat split; [lra|intros p []|left; reflexivity]|].
  specialize (IH (if Rlt_dec a (fst p) then fst p else a)). cbn zeta in IH |- *.
  set (m := fold_left _ r _) in *. destruct IH as (I1 & I2 & I3).
  assert (A : a <= m /\ fst p <= m) by (destruct (Rlt_dec a (fst p)); lra).
  repeat split; [apply A| |].
  - intros q [<- | Hq]; [apply A|apply I2, Hq].
  - destruct I3 as [E | (q & Hq & E)]; [|right; exists q; split; [right; exact Hq|exact E]].
    destruct (Rlt_dec a (fst p)); [right; exists p; split; [left; reflexivity|exact E]|left; exact E].
Qed.
Lemma foldmin : forall vals a, let m := fold_left (fun a (p : R * R) => if Rlt_dec (fst p) a then fst p else a) vals a in
  m <= a /\ (forall p, In p vals -> m <= fst p) /\ (m = a \/ exists p, In p vals /\ m = fst p).
Proof.
  induction vals as [|p r IH]; intros a; cbn [fold_left]; [repeat split; [lra|intros p []|left; reflexivity]|].
  specialize (IH (if Rlt_dec (fst p) a then fst p else a)). cbn zeta in IH |- *.
  set (m := fold_left _ r _) in *. destruct IH as (I1 & I2 & I3).
  assert (A : m <= a /\ m <= fst p) by (destruct (Rlt_dec (fst p) a); lra).
  repeat split; [apply A| |].
  - intros q [<- | Hq]; [apply A|apply I2, Hq].
  - destruct I3 as [E | (q & Hq & E)]; [|right; exists q; split; [right; exact Hq|exact E]].
    destruct (Rlt_dec (fst p) a); [right; exists p; split; [left; reflexivity|exact E]|left; exact E].
Qed.
(** C302 "max" ("min") is the largest (smallest) value at the points. *)
Definition is_max (m : R) (vals : list (R * R)) : Prop := (forall p, In p vals -> fst p <= m) /\ exists p, In p vals /\ m = fst p.
Definition is_min (m : R) (vals : list (R * R)) : Prop := (forall p, In p vals -> m <= fst p) /\ exists p, In p vals /\ m = fst p.
Theorem C302_reductions_partial : forall vals,
  ((exists p, In p vals /\ 0 <= fst p) -> is_max (v_reduce VMax vals) vals)
  /\ ((exists p, In p vals /\ fst p <= 0) -> is_min (v_reduce VMin vals) vals).
Proof.
  intros vals. split; intros (p & Hp & P); cbn [v_reduce].
  - destruct (foldmax vals 0) as (A & B & C). split; [exact B|].
    destruct C as [E | C]; [|exact C]. exists p. split; [exact Hp|]. specialize (B p Hp). rewrite E in *. lra.
  - destruct (foldmin vals 0) as (A & B & C). split; [exact B|].
    destruct C as [E | C]; [|exact C]. exists p. split; [exact Hp|]. specialize (B p Hp). rewrite E in *. lra.
Qed.
Print Assumptions C302_reductions_partial.
Theorem C302_reductions_refuted : forall c vals, vals <> nil ->
  ((forall p, In p vals -> fst p = - Rabs c - 1) -> v_reduce VMax vals = 0 /\ ~ is_max (v_reduce VMax vals) vals)
  /\ ((forall p, In p vals -> fst p = Rabs c + 1) -> v_reduce VMin vals = 0 /\ ~ is_min (v_reduce VMin vals) vals).
Proof.
  intros c vals Ne. assert (Rc := Rabs_pos c). split; intros H; cbn [v_reduce].
  - destruct (foldmax vals 0) as (A & B & C). cbn zeta in *. set (m := fold_left _ vals 0) in *.
    assert (E : m = 0) by (destruct C as [E | (p & Hp & E)]; [exact E|rewrite (H p Hp) in E; lra]).
    split; [exact E|]. intros (_ & p & Hp & K). rewrite (H p Hp) in K. lra.
  - destruct (foldmin vals 0) as (A & B & C). cbn zeta in *. set (m := fold_left _ vals 0) in *.
    assert (E : m = 0) by (destruct C as [E | (p & Hp & E)]; [exact E|rewrite (H p Hp) in E; lra]).
    split; [exact E|]. intros (_ & p & Hp & K). rewrite (H p Hp) in K. lra.
Qed.
Print Assumptions C302_reductions_refuted.
Example C302_case : exists p, In p [(-2, 1); (3, 1)] /\ 0 <= fst p.
Proof. exists (3, 1). split; [right; left; reflexivity|cbn; lra]. Qed.

(* ---------------------------------------------------------------- parameters *)
Local Open Scope string_scope.

(** C303 A discretized parameter is written: nodal for HGRAD, cell for HVOL, components for HDIV and
    HCURL. *)
Definition vis_param_expected (dim : nat) (app : string) (name ty : string) : list (vkind * string) :=
  match ty with
  | "HGRAD" => [(Nodal, name ++ app)]
  | "HVOL" => [(Cell, name ++ app)]
  | "HDIV" | "HCURL" => map (fun c => (Cell, (name ++ app) ++ c)) (firstn (Nat.max 1 dim) ["x"; "y"; "z"])
  | _ => []
  end.
Lemma comps_expected : forall dim name, v_comps dim name = map (fun c => (Cell, name ++ c)) (firstn (Nat.max 1 dim) ["x"; "y"; "z"]).
Proof.
  intros dim name. unfold v_comps. destruct dim as [|[|[|dim]]]; cbn; try reflexivity.
  destruct dim; reflexivity.
Qed.
Theorem C303_parameters_written_partial : forall s app n name bnum ty,
  nth bnum (vs_types s) "" = ty -> In ty ["HGRAD"; "HVOL"; "HDIV"; "HCURL"] -> (ty = "HCURL" -> n = bnum) ->
  v_param_fields s app n (name, bnum) = vis_param_expected (vs_dim s) app name ty.
Proof.
  intros s app n name bnum ty T I H. unfold v_param_fields, v_ptype. cbn [fst snd]. rewrite T.
  cbn in I. destruct I as [<- | [<- | [<- | [<- | []]]]]; cbn -[v_comps]; try reflexivity; rewrite comps_expected; try reflexivity.
  specialize (H eq_refl). subst n. rewrite T. cbn. reflexivity.
Qed.
Print Assumptions C303_parameters_written_partial.
Theorem C303_parameters_written_refuted : exists s, forall app name,
  nth 1 (vs_types s) "" = "HCURL" /\ vs_params s = [("p", 1%nat)]
  /\ vis_param_expected (vs_dim s) app name "HCURL" <> []
  /\ v_param_fields s app 0 (name, 1%nat) = [].
Proof.
  exists {| vs_vars := [[("u", "HGRAD")]]; vs_params := [("p", 1%nat)]; vs_types := ["HGRAD"; "HCURL"];
    vs_extra := []; vs_cell := []; vs_derived := [[]]; vs_dim := 3; vs_hface := false; vs_groupnum := false;
    vs_database := false; vs_subgrid := false; vs_meshdata := false |}.
  intros app name. repeat split. cbn. discriminate.
Qed.
Print Assumptions C303_parameters_written_refuted.

(* ---------------------------------------------------------------- names *)

(** C304 Every field that is written has been declared.  Parameters are of the four types; every set
    has its list of derived quantities. *)
Definition vis_valid (s : vset) : Prop :=
  vs_vars s <> [] /\ length (vs_derived s) = length (vs_vars s)
  /\ forall p, In p (vs_params s) -> In (nth (snd p) (vs_types s) "") ["HGRAD"; "HVOL"; "HDIV"; "HCURL"].
Lemma number_in : forall A B (f : nat -> A -> list B) l n y, In y (v_number f n l) -> exists m a, In a l /\ In y (f m a).
Proof.
  induction l as [|a r IH]; intros n y H; [destruct H|]. cbn in H. apply in_app_or in H. destruct H as [H | H].
  - exists n, a. split; [left; reflexivity|exact H].
  - destruct (IH _ _ H) as (m & b & Hb & Hy). exists m, b. split; [right; exact Hb|exact Hy].
Qed.
Lemma combine_l : forall A B (l : list A) (l' : list B) a, length l' = length l -> In a l -> exists b, In (a, b) (combine l l').
Proof.
  induction l as [|x r IH]; intros l' a L H; [destruct H|]. destruct l' as [|y r']; [discriminate|].
  destruct H as [-> | H]; [exists y; left; reflexivity|]. destruct (IH r' a) as [b Hb]; [cbn in L; lia|exact H|].
  exists b. right. exact Hb.
Qed.
Lemma combine_r : forall A B (l : list A) (l' : list B) b, length l' = length l -> In b l' -> exists a, In (a, b) (combine l l').
Proof.
  induction l as [|x r IH]; intros l' b L H; [destruct l'; [destruct H|discriminate]|]. destruct l' as [|y r']; [destruct H|].
  destruct H as [-> | H]; [exists x; left; reflexivity|]. destruct (IH r' b) as [a Ha]; [cbn in L; lia|exact H|].
  exists a. right. exact Ha.
Qed.
Theorem C304_written_fields_are_declared_partial : forall s apps app,
  vis_valid s -> In app apps -> (vs_extra s = [] \/ app = "") ->
  forall y, In y (v_written s app) -> In y (v_declared s apps).
Proof.
  intros s apps app (Ne & L & Pt) Ha Hx y Hy. unfold v_declared. apply in_flat_map. exists app. split; [exact Ha|].
  unfold v_declared1.
  assert (Any : exists vd, In vd (combine (vs_vars s) (vs_derived s))).
  { destruct (vs_vars s) as [|v r]; [congruence|]. destruct (vs_derived s) as [|m r']; [discriminate|]. exists (v, m). left. reflexivity. }
  destruct Any as [vd0 Hvd0].
  assert (App0 : forall n, n ++ "" = n) by (induction n as [|c n IH]; cbn; [reflexivity|rewrite IH; reflexivity]).
  unfold v_written in Hy.
  repeat (apply in_app_or in Hy; destruct Hy as [Hy | Hy]).
  - apply in_flat_map in Hy. destruct Hy as (vars & Hv & Hy).
    destruct (combine_l _ _ _ _ vars L Hv) as [m Hm]. apply in_flat_map. exists (vars, m). split; [exact Hm|].
    apply in_or_app. left. cbn [fst]. apply in_flat_map in Hy. destruct Hy as ((n, t) & Hn & Hy). apply in_flat_map. exists (n, t).
    split; [exact Hn|].
    destruct (String.eqb t "HGRAD"); [exact Hy|]. destruct (String.eqb t "HVOL"); [exact Hy|].
    destruct (String.eqb_spec t "HFACE") as [-> | _].
    + cbn in Hy |- *. destruct (vs_hface s); [exact Hy|destruct Hy].
    + cbn [andb] in Hy. destruct (String.eqb t "HDIV" || String.eqb t "HCURL")%bool; [exact Hy|destruct Hy].
  - destruct (number_in _ _ _ _ _ _ Hy) as (n & p & Hp & Hq). apply in_flat_map. exists vd0. split; [exact Hvd0|].
    do 8 (apply in_or_app; right). apply in_flat_map. exists p. split; [exact Hp|].
    unfold v_param_fields in Hq. specialize (Pt p Hp). unfold v_ptype in *.
    destruct Pt as [E | [E | [E | [E | []]]]]; rewrite <- E in Hq |- *; cbn in Hq |- *; try exact Hq.
    destruct (String.eqb (nth n (vs_types s) "") "HCURL"); [exact Hq|destruct Hq].
  - apply in_flat_map. exists vd0. split; [exact Hvd0|]. apply in_or_app. right. apply in_or_app. left.
    destruct Hx as [E | ->]; [rewrite E in Hy; destruct Hy|].
    apply in_map_iff in Hy. destruct Hy as (n & <- & Hn). apply in_map_iff. exists n. rewrite App0. split; [reflexivity|exact Hn].
  - apply in_flat_map. exists vd0. split; [exact Hvd0|]. do 2 (apply in_or_app; right). apply in_or_app. left.
    apply in_map_iff in Hy. destruct Hy as (n & <- & Hn). apply in_flat_map. exists n. split; [exact Hn|left; reflexivity].
  - apply in_flat_map in Hy. destruct Hy as (m & Hm & Hy).
    destruct (combine_r _ _ _ _ m L Hm) as [v Hv]. apply in_flat_map. exists (v, m). split; [exact Hv|].
    do 3 (apply in_or_app; right). apply in_or_app. left. exact Hy.
  - apply in_flat_map. exists vd0. split; [exact Hvd0|]. do 4 (apply in_or_app; right). apply in_or_app. left. exact Hy.
  - apply in_flat_map. exists vd0. split; [exact Hvd0|]. do 6 (apply in_or_app; right). apply in_or_app. left. exact Hy.
  - apply in_flat_map. exists vd0. split; [exact Hvd0|]. do 7 (apply in_or_app; right). apply in_or_app. left. exact Hy.
  - apply in_flat_map. exists vd0. split; [exact Hvd0|]. do 5 (apply in_or_app; right). apply in_or_app. left. exact Hy.
Qed.
Print Assumptions C304_written_fields_are_declared_partial.
(** The samples of a UQ run with an extra field. *)
Definition s_uq : vset :=
  {| vs_vars := [[("u", "HGRAD"); ("B", "HDIV")]]; vs_params := [("k", 0%nat)]; vs_types := ["HGRAD"; "HDIV"];
     vs_extra := ["w"]; vs_cell := ["flux"]; vs_derived := [[["stress"]]]; vs_dim := 2; vs_hface := false; vs_groupnum := true;
     vs_database := false; vs_subgrid := false; vs_meshdata := false |}.
Theorem C304_written_fields_are_declared_refuted :
  vis_valid s_uq /\ In "_0" ["_0"; "_1"]
  /\ exists y, In y (v_written s_uq "_0") /\ ~ In y (v_declared s_uq ["_0"; "_1"]).
Proof.
  split; [|split; [left; reflexivity|]].
  - split; [discriminate|]. split; [reflexivity|]. intros p [<- | []]. left. reflexivity.
  - exists (Nodal, "w"). split.
    + cbn. intuition.
    + cbn. intros H. repeat (destruct H as [H | H]; [discriminate H|]). exact H.
Qed.
Print Assumptions C304_written_fields_are_declared_refuted.
Example C304_case : vis_valid s_uq /\ In "" [""] /\ In (Nodal, "w") (v_written s_uq "").
Proof.
  split; [split; [discriminate|split; [reflexivity|intros p [<- | []]; left; reflexivity]]|].
  split; [left; reflexivity|cbn; intuition].
Qed.

Local Open Scope R_scope.
(** C305 "Extra fields" hold the function at the nodes. *)
Theorem C305_extra_nodal_fields_refuted : forall f,
  (forall e k, v_extra_nodal f e k = f e k) <-> (forall e k, f e k = 0).
Proof. intros f. split; intros H e k; [rewrite <- H; reflexivity|rewrite H; reflexivity]. Qed.
Print Assumptions C305_extra_nodal_fields_refuted.

(* ---------------------------------------------------------------- optimization movie *)

(** C306 The parameters of the optimization movie are those of the element.  The overlapped vector
    starts with the owned entries. *)
Theorem C306_movie_partial : forall owned ghost plid card,
  (forall k, (k < card)%nat -> (plid k < length owned)%nat) ->
  v_movie owned plid card = v_final (owned ++ ghost) plid card.
Proof.
  intros owned ghost plid card H. unfold v_movie, v_final. apply map_ext_in. intros k Hk. apply in_seq in Hk.
  symmetry. apply nth_error_app1. apply H. lia.
Qed.
Print Assumptions C306_movie_partial.
Theorem C306_movie_refuted : forall owned ghost plid card k,
  (k < card)%nat -> (length owned <= plid k < length owned + length ghost)%nat ->
  nth_error (v_movie owned plid card) k = Some None
  /\ exists v, nth_error (v_final (owned ++ ghost) plid card) k = Some (Some v).
Proof.
  intros owned ghost plid card k Hk Hp. unfold v_movie, v_final.
  assert (S : forall f : nat -> option R, nth_error (map f (seq 0 card)) k = Some (f k)).
  { intros f. apply map_nth_error. rewrite nth_error_nth' with (d := 0%nat) by (rewrite seq_length; exact Hk).
    rewrite seq_nth by exact Hk. reflexivity. }
  rewrite !S. split.
  - f_equal. apply nth_error_None. lia.
  - destruct (nth_error (owned ++ ghost) (plid k)) as [v|] eqn:E; [exists v; reflexivity|].
    apply nth_error_None in E. rewrite app_length in E. lia.
Qed.
Print Assumptions C306_movie_refuted.
Example C306_case : (2 < 4)%nat /\ (length [1; 2] <= 2 < length [1; 2] + length [3])%nat.
Proof. cbn. lia. Qed.
