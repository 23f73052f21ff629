(** C171-C183: sensors. *)
From Coq Require Import Bool Arith Reals Lra Lia String Ascii List.
From Verif Require Import Mass_Model BProj_Model BProj_Proofs Sensor_Model.
Import ListNotations.
Local Open Scope R_scope.
Local Notation length := List.length.

(** *** Specification *)
(** x is a convex combination of the corners *)
Definition convex (dim : nat) (corners : list point) (x : point) : Prop :=
  exists w : nat -> R, (forall i, 0 <= w i) /\ sm (seq 0 (length corners)) w = 1 /\
    forall d, (d < dim)%nat -> x d = sm (seq 0 (length corners)) (fun i => w i * nth i corners (fun _ => 0) d).
(** the inclusion test accepts points of the hull of the corners only; coordinates are below 1e300 *)
Definition inclusion_ok (dim : nat) {E} (nodes : E -> list point) (inside : E -> point -> bool) : Prop :=
  (forall e x, inside e x = true -> convex dim (nodes e) x) /\
  (forall e c d, In c (nodes e) -> - 10 ^ 300 <= c d <= 10 ^ 300).

(** *** Lists *)
Lemma enum_in {A} (l : list A) : forall k p e, In (p, e) (combine (seq k (length l)) l) -> (k <= p)%nat /\ nth_error l (p - k) = Some e.
Proof.
  induction l as [|a l IH]; cbn; [contradiction|]. intros k p e [E|H].
  - injection E as <- <-. rewrite Nat.sub_diag. auto.
  - apply IH in H. destruct H as [L N]. split; [lia|]. replace (p - k)%nat with (Datatypes.S (p - Datatypes.S k)) by lia. auto.
Qed.
Lemma enum_has {A} (l : list A) : forall k e, In e l -> exists p, In (p, e) (combine (seq k (length l)) l).
Proof. induction l as [|a l IH]; cbn; [contradiction|]. intros k e [E|H]; [subst; eauto|]. destruct (IH (Datatypes.S k) e H) as [p P]. eauto. Qed.
Lemma fold_some {A B} (f : option B -> A -> option B) (good : B -> Prop) l :
  (forall acc a b, In a l -> f acc a = Some b -> acc = Some b \/ good b) -> forall acc b, fold_left f l acc = Some b -> acc = Some b \/ good b.
Proof.
  induction l as [|a l IH]; cbn; auto. intros H acc b F. destruct (IH (fun acc' a' b' I => H acc' a' b' (or_intror I)) _ _ F) as [G|G]; auto.
  destruct (H acc a b (or_introl eq_refl) G); auto.
Qed.
Lemma fold_hit {A B} (f : option B -> A -> option B) l : (forall acc a, In a l -> acc <> None -> f acc a <> None) ->
  forall acc, (acc <> None \/ exists a, In a l /\ forall acc', f acc' a <> None) -> fold_left f l acc <> None.
Proof.
  induction l as [|a l IH]; cbn; [intros _ acc [H|(a & [] & _)]; auto|]. intros K acc H. apply IH; [intros; apply K; auto|].
  destruct H as [H|(a' & [E|I] & H)]; [left; auto|subst; left; auto|right; eauto].
Qed.

(** *** C171: locating *)
Section Loc.
Context (dim : nat) (E : Type) (nodes : E -> list point) (inside : E -> point -> bool).
Hypothesis ok : inclusion_ok dim nodes inside.

Lemma min_le l d : forall m, fold_left (fun m (n : point) => Rmin m (n d)) l m <= m /\ forall c, In c l -> fold_left (fun m (n : point) => Rmin m (n d)) l m <= c d.
Proof.
  induction l as [|a l IH]; cbn [fold_left In]; intros m; [split; [lra|contradiction]|]. destruct (IH (Rmin m (a d))) as [H1 H2].
  pose proof (Rmin_l m (a d)). pose proof (Rmin_r m (a d)). split; [lra|]. intros c [<-|I]; [lra|auto].
Qed.
Lemma max_ge l d : forall m, m <= fold_left (fun m (n : point) => Rmax m (n d)) l m /\ forall c, In c l -> c d <= fold_left (fun m (n : point) => Rmax m (n d)) l m.
Proof.
  induction l as [|a l IH]; cbn [fold_left In]; intros m; [split; [lra|contradiction]|]. destruct (IH (Rmax m (a d))) as [H1 H2].
  pose proof (Rmax_l m (a d)). pose proof (Rmax_r m (a d)). split; [lra|]. intros c [<-|I]; [lra|auto].
Qed.
Lemma sm_le {A} (l : list A) f g : (forall x, In x l -> f x <= g x) -> sm l f <= sm l g.
Proof. intros H. apply Rminus_le. rewrite <- sm_sub. apply Ropp_le_cancel. rewrite Ropp_0. replace (- sm l (fun x => f x - g x)) with (sm l (fun x => -1 * (f x - g x))) by (rewrite sm_scal; ring). apply sm_nonneg. intros x I. specialize (H x I). lra. Qed.
(** the box test never drops a point of the hull, so it does not change the answer *)
Theorem C171_box e x : convex dim (nodes e) x -> in_box dim E nodes e x = true.
Proof.
  intros (w & W & W1 & X). unfold in_box. apply forallb_forall. intros d D. apply in_seq in D. unfold in_box_dir, box_min, box_max.
  destruct (min_le (nodes e) d (10 ^ 300)) as [_ Lo]. destruct (max_ge (nodes e) d (- 10 ^ 300)) as [_ Hi].
  set (lo := fold_left _ _ (10 ^ 300)) in *. set (hi := fold_left _ _ (- 10 ^ 300)) in *. clearbody lo hi.
  assert (B : lo <= x d <= hi).
  { rewrite X by lia. rewrite <- (Rmult_1_l lo), <- (Rmult_1_l hi), <- W1, <- !sm_scal_r. split; apply sm_le; intros i I; apply in_seq in I; apply Rmult_le_compat_l; auto; [apply Lo|apply Hi]; apply nth_In; lia. }
  unfold rltb. destruct (Rlt_dec (x d) _); [lra|]. destruct (Rlt_dec _ (x d)); [lra|auto].
Qed.

(** where a point is found, the element recorded contains it *)
Theorem C171_sound groups x g p : locate dim E nodes inside groups x = Some (g, p) ->
  exists es e, nth_error groups g = Some es /\ nth_error es p = Some e /\ inside e x = true.
Proof.
  intros L. unfold locate in L.
  apply fold_some with (good := fun '(g, p) => exists es e, nth_error groups g = Some es /\ nth_error es p = Some e /\ inside e x = true) in L; [destruct L as [H|H]; [discriminate|exact H]|].
  intros acc [g' es] [g0 p0] I F. destruct acc as [a|]; [auto|]. right. apply enum_in in I. destruct I as [_ N]. rewrite Nat.sub_0_r in N.
  unfold scan_group in F. apply fold_some with (good := fun '(g, p) => g = g' /\ exists e, nth_error es p = Some e /\ inside e x = true) in F; [destruct F as [H|[-> (e & H)]]; [discriminate|exists es, e; tauto]|].
  intros acc [p' e] [g1 p1] I F1. apply enum_in in I. destruct I as [_ N1]. rewrite Nat.sub_0_r in N1. destruct (in_box dim E nodes e x && inside e x) eqn:B; [|auto].
  apply andb_true_iff in B. injection F1 as <- <-. right. split; auto. exists e; tauto.
Qed.
(** a point is found exactly when one of the elements contains it *)
Theorem C171_complete groups x : locate dim E nodes inside groups x <> None <-> exists es e, In es groups /\ In e es /\ inside e x = true.
Proof.
  split.
  - intros H. destruct (locate dim E nodes inside groups x) as [[g p]|] eqn:L; [|congruence]. destruct (C171_sound _ _ _ _ L) as (es & e & N & N' & I).
    exists es, e. eauto using nth_error_In.
  - intros (es & e & I1 & I2 & C). unfold locate. apply fold_hit; [intros [a|] [g l] _; congruence|]. right. destruct (enum_has groups 0 es I1) as [g G]. exists (g, es). split; auto.
    intros [a|]; [congruence|]. unfold scan_group. apply fold_hit; [intros acc [p e'] _ A; destruct (_ && _); congruence|]. right. destruct (enum_has es 0 e I2) as [p P]. exists (p, e). split; auto.
    intros acc. rewrite (C171_box e x), C by (apply ok; auto). cbn. congruence.
Qed.

(** *** C172: the box is read in three directions *)
Theorem C172_partial groups x : dim = 3%nat -> locate_checked dim E nodes inside groups x = Some (locate dim E nodes inside groups x).
Proof. intros ->. reflexivity. Qed.
Theorem C172_refuted groups x : (dim < 3)%nat -> (exists es, In es groups /\ es <> []) -> locate_checked dim E nodes inside groups x = None.
Proof.
  intros D (es & I & N). unfold locate_checked. cbn [forallb]. replace (2 <? dim)%nat with false by (symmetry; apply Nat.ltb_ge; lia). rewrite !andb_false_r. cbn [orb].
  destruct (forallb _ groups) eqn:F; auto. rewrite forallb_forall in F. apply F in I. apply Nat.eqb_eq in I. destruct es; [congruence|discriminate].
Qed.

(** *** C173: one process owns each point *)
Implicit Type procs : list (list (list E)).
Let found procs r x := found_on dim E nodes inside procs r x.
Let keep procs r x := keeps dim E nodes inside true procs r (fun _ => x).
Lemma lowest_le procs xs r : (r < length procs)%nat -> (lowest dim E nodes inside procs xs <= flag dim E nodes inside procs r (xs r))%nat.
Proof.
  unfold lowest. generalize (length procs + 1)%nat as z. intros z H. assert (I : In r (seq 0 (length procs))) by (apply in_seq; lia). revert I. generalize (seq 0 (length procs)) as l.
  induction l as [|a l IH]; cbn; [contradiction|]. intros [<-|I]; [apply Nat.le_min_l|]. etransitivity; [apply Nat.le_min_r|auto].
Qed.
Lemma lowest_is procs xs : lowest dim E nodes inside procs xs = (length procs + 1)%nat \/ exists r, (r < length procs)%nat /\ found procs r (xs r) = true /\ lowest dim E nodes inside procs xs = r.
Proof.
  unfold lowest. assert (I : forall r, In r (seq 0 (length procs)) -> (r < length procs)%nat) by (intros r; rewrite in_seq; lia). revert I. generalize (seq 0 (length procs)) as l.
  induction l as [|a l IH]; cbn [fold_right In]; [auto|]. intros H. assert (A := H a (or_introl eq_refl)).
  destruct (Nat.min_spec (flag dim E nodes inside procs a (xs a)) (fold_right (fun r m => Nat.min (flag dim E nodes inside procs r (xs r)) m) (length procs + 1)%nat l)) as [[_ M]|[_ M]]; rewrite M; [|apply IH; auto].
  unfold flag, found. destruct (found_on dim E nodes inside procs a (xs a)) eqn:F; [right; exists a|left]; auto.
Qed.
Lemma keep_is procs r x : (r < length procs)%nat -> (keep procs r x = true <-> found procs r x = true /\ forall q, (q < r)%nat -> found procs q x = false).
Proof.
  intros R. unfold keep, keeps. cbn [andb]. destruct (Nat.eqb_spec r (lowest dim E nodes inside procs (fun _ => x))) as [L|L]; cbn [negb].
  - split; [|tauto]. intros F. split; auto. intros q Q. destruct (found procs q x) eqn:Fq; auto. pose proof (lowest_le procs (fun _ => x) q ltac:(lia)) as H. unfold flag in H. unfold found in Fq. rewrite Fq in H. lia.
  - split; [discriminate|]. intros [F N]. exfalso. pose proof (lowest_le procs (fun _ => x) r R) as H. unfold flag in H. unfold found in F, N. rewrite F in H.
    destruct (lowest_is procs (fun _ => x)) as [G|(q & Q & Fq & G)]; [lia|]. unfold found in Fq. rewrite N in Fq by lia. discriminate.
Qed.
Lemma first_found procs x : (exists r, (r < length procs)%nat /\ found procs r x = true) -> exists r, (r < length procs)%nat /\ keep procs r x = true.
Proof.
  intros (r & R & F). revert R F. induction r as [r IH] using lt_wf_ind. intros R F.
  destruct (forallb (fun q => negb (found procs q x)) (seq 0 r)) eqn:A.
  - exists r. split; auto. apply keep_is; auto. split; auto. intros q Q. rewrite forallb_forall in A. specialize (A q ltac:(apply in_seq; lia)). apply negb_true_iff; auto.
  - assert (B : exists q, (q < r)%nat /\ found procs q x = true).
    { clear -A. induction r as [|r IHr]; [discriminate|]. rewrite seq_S, forallb_app in A. cbn in A. rewrite andb_true_r in A. apply andb_false_iff in A. destruct A as [A|A].
      - destruct (IHr A) as (q & Q & F). exists q. split; auto. - exists r. split; auto. apply negb_false_iff; auto. }
    destruct B as (q & Q & Fq). apply (IH q); auto; lia.
Qed.
(** exactly one process keeps a point that lies in an element of some process, none any other *)
Theorem C173_owner procs x : (exists groups es e, In groups procs /\ In es groups /\ In e es /\ inside e x = true) ->
  exists r, (r < length procs)%nat /\ keep procs r x = true /\ forall q, (q < length procs)%nat -> keep procs q x = true -> q = r.
Proof.
  intros (groups & es & e & H0 & H1 & H2 & H3). destruct (first_found procs x) as (r & R & K).
  { destruct (In_nth _ _ [] H0) as (r & R & N). exists r. split; auto. unfold found, found_on. rewrite N. destruct (locate dim E nodes inside groups x) eqn:L; auto. exfalso. revert L. apply C171_complete. eauto. }
  exists r. split; auto. split; auto. intros q Q Kq. apply keep_is in K; auto. apply keep_is in Kq; auto. destruct K as [F N], Kq as [Fq Nq].
  destruct (Nat.lt_trichotomy q r) as [L|[L|L]]; auto; [rewrite N in Fq by auto|rewrite Nq in F by auto]; discriminate.
Qed.
Theorem C173_none procs x : (forall groups es e, In groups procs -> In es groups -> In e es -> inside e x = false) -> forall r, keep procs r x = false.
Proof.
  intros H r. unfold keep, keeps. cbn [andb]. destruct (negb _); auto. unfold found_on. destruct (locate _ _ _ _ (nth r procs []) x) eqn:L; auto. exfalso.
  assert (G : locate dim E nodes inside (nth r procs []) x <> None) by congruence. apply C171_complete in G. destruct G as (es & e & I1 & I2 & I3).
  destruct (Nat.lt_ge_cases r (length procs)) as [R|R]; [|rewrite nth_overflow in I1 by auto; contradiction]. rewrite (H (nth r procs []) es e) in I3; auto; [discriminate|]. apply nth_In; auto.
Qed.
End Loc.
Print Assumptions C171_sound.
Print Assumptions C171_complete.
Print Assumptions C171_box.
Print Assumptions C172_partial.
Print Assumptions C172_refuted.
Print Assumptions C173_owner.
Print Assumptions C173_none.

(** *** C174: what is written for a sensor *)
Lemma stored_split {A} found n ss (f : nat -> A) : (ss < n)%nat -> exists rest, stored found n f = (stored found ss f ++ (if found ss then [f ss] else []) ++ rest)%list.
Proof.
  intros L. unfold stored. replace n with (ss + Datatypes.S (n - ss - 1))%nat by lia. rewrite seq_app, flat_map_app. cbn [Nat.add seq flat_map]. eauto.
Qed.
Lemma stored_length {A} found n (f : nat -> A) : length (stored found n f) = sindex found n.
Proof. unfold stored, sindex. induction (seq 0 n) as [|a l IH]; cbn; auto. rewrite app_length, IH. destruct (found a); auto. Qed.
(** the place computed from the flags is where the sensor's entry was stored *)
Theorem C174_place {A} found n ss (f : nat -> A) d : (ss < n)%nat -> found ss = true -> nth (sindex found ss) (stored found n f) d = f ss.
Proof. intros L F. destruct (stored_split found n ss f L) as [rest ->]. rewrite F, app_nth2; rewrite stored_length; [|lia]. rewrite Nat.sub_diag. auto. Qed.

Section Table.
Context (dim : nat) (E : Type) (nodes : E -> list point) (inside : E -> point -> bool).
Hypothesis ok : inclusion_ok dim nodes inside.
Context (ndof ncomp : nat -> nat) (lid : E -> nat -> nat -> nat) (basis : E -> nat -> nat -> point -> nat -> R).
(** the solution on element e *)
Definition on_element (sol : nat -> R) (e : E) (x : point) (var d : nat) : R :=
  if le_lt_dec (ncomp var) d then 0 else sm (seq 0 (ndof var)) (fun i => sol (lid e var i) * basis e var i x d).
Lemma sensor_value_is sol e x var d : sensor_value E ndof ncomp lid basis sol e x var d = on_element sol e x var d.
Proof. unfold sensor_value, on_element. destruct (Nat.ltb_spec d (ncomp var)), (le_lt_dec (ncomp var) d); auto; lia. Qed.
Definition elements (procs : list (list (list E))) (e : E) : Prop := exists groups es, In groups procs /\ In es groups /\ In e es.
(** at x the solution is [u] on every element that contains x *)
Definition single procs sol x var d (u : R) : Prop := forall e, elements procs e -> inside e x = true -> on_element sol e x var d = u.

Let made procs sols n x := map (build dim E nodes inside ndof ncomp lid basis true procs sols (fun _ => n) (fun _ => x)) (seq 0 (length procs)).

Lemma rows_coords procs sols n x ss d : (ss < n)%nat -> (exists e, elements procs e /\ inside e (x ss) = true) -> sm (made procs sols n x) (fun p => row_coords p ss d) = x ss d.
Proof.
  intros L (e & (groups & es & H0 & H1 & H2) & H3). destruct (C173_owner dim E nodes inside ok procs (x ss)) as (r & R & K & U); [eauto 8|].
  unfold made. rewrite sm_map. rewrite (sm_ext _ _ (fun q => if (q =? r)%nat then x ss d else 0)).
  { apply (sm_single (length procs) r (fun _ => x ss d)); auto. }
  intros q Q. apply in_seq in Q. unfold row_coords. cbn [p_found p_pts build]. destruct (keeps dim E nodes inside true procs q (fun _ => x ss)) eqn:Kq.
  - rewrite (U q) by (auto; lia). rewrite Nat.eqb_refl. rewrite C174_place; auto.
  - destruct (Nat.eqb_spec q r); [subst; congruence|auto].
Qed.
Lemma rows_value procs sols n x ss field t u : (ss < n)%nat -> (exists e, elements procs e /\ inside e (x ss) = true) ->
  single procs (nth t sols (fun _ => 0)) (x ss) (field / dim) (field mod dim) u -> sm (made procs sols n x) (fun p => row_value p ss field t) = u.
Proof.
  intros L (e & (groups & es & H0 & H1 & H2) & H3) S1. destruct (C173_owner dim E nodes inside ok procs (x ss)) as (r & R & K & U); [eauto 8|].
  unfold made. rewrite sm_map. rewrite (sm_ext _ _ (fun q => if (q =? r)%nat then u else 0)).
  { apply (sm_single (length procs) r (fun _ => u)); auto. }
  intros q Q. apply in_seq in Q. unfold row_value. cbn [p_found p_val build]. destruct (keeps dim E nodes inside true procs q (fun _ => x ss)) eqn:Kq.
  - assert (q = r) by (apply U; auto; lia). subst q. rewrite Nat.eqb_refl. rewrite (C174_place (fun pt => keeps dim E nodes inside true procs r (fun _ => x pt))); auto.
    unfold keeps in K. destruct (_ && _); [discriminate|]. unfold found_on in K. destruct (locate dim E nodes inside (nth r procs []) (x ss)) as [[g p]|] eqn:Lo; [|discriminate].
    destruct (C171_sound _ _ _ _ _ _ _ _ Lo) as (es' & e' & N & N' & C). unfold owner_elem. cbn [fst snd]. rewrite (nth_error_nth _ _ _ N), N', sensor_value_is. apply S1; auto.
    exists (nth r procs []), es'. split; [apply nth_In; auto|]. split; eauto using nth_error_In.
  - destruct (Nat.eqb_spec q r); [subst; congruence|auto].
Qed.
Lemma rows_none procs sols n x ss : (forall e, elements procs e -> inside e (x ss) = false) -> forall p, In p (made procs sols n x) -> p_found p ss = false.
Proof. intros H p P. unfold made in P. apply in_map_iff in P. destruct P as (q & <- & Q). cbn [p_found build]. apply (C173_none dim E nodes inside ok). intros groups es e I1 I2 I3. apply H. exists groups, es. auto. Qed.
Lemma table_is procs sols n x T field : procs <> [] -> table dim (made procs sols n x) T field = Some (map (table_row dim (made procs sols n x) T field) (seq 0 n)).
Proof.
  intros N. assert (A : forallb (fun p => (p_n p =? n)%nat) (made procs sols n x) = true).
  { apply forallb_forall. intros p P. unfold made in P. apply in_map_iff in P. destruct P as (q & <- & Q). cbn. apply Nat.eqb_refl. }
  destruct procs as [|p procs]; [congruence|]. unfold table. set (m := made (p :: procs) sols n x) in *. assert (Z : exists p0 rest, m = p0 :: rest /\ p_n p0 = n) by (unfold m, made; cbn; eauto).
  destruct Z as (p0 & rest & Z & P). rewrite Z at 1. rewrite P, A. auto.
Qed.

(** Every file has one line for each sensor of the list, in its order: the coordinates and the
    values of the solution there. *)
Theorem C174_table procs sols n x field rows : table dim (made procs sols n x) (length sols) field = Some rows ->
  length rows = n /\ forall ss (u : nat -> R), (ss < n)%nat -> (exists e, elements procs e /\ inside e (x ss) = true) ->
    (forall t, (t < length sols)%nat -> single procs (nth t sols (fun _ => 0)) (x ss) (field / dim) (field mod dim) (u t)) ->
    nth ss rows [] = (map (x ss) (seq 0 dim) ++ map u (seq 0 (length sols)))%list.
Proof.
  intros H. destruct procs as [|p procs]; [discriminate|]. rewrite table_is in H by discriminate. injection H as <-. rewrite map_length, seq_length. split; auto.
  intros ss u L I S1. rewrite nth_indep with (d' := table_row dim (made (p :: procs) sols n x) (length sols) field 0) by (rewrite map_length, seq_length; auto). rewrite map_nth, seq_nth by auto. cbn [Nat.add].
  unfold table_row. f_equal; apply map_ext_in; intros k K; apply in_seq in K; [apply rows_coords; auto|apply rows_value; auto; apply S1; lia].
Qed.
(** It does not depend on how the elements are grouped and distributed. *)
Theorem C174_partition procs procs' sols n x field : procs <> [] -> procs' <> [] -> (forall e, elements procs e <-> elements procs' e) ->
  (forall ss t e e', (ss < n)%nat -> elements procs e -> elements procs e' -> inside e (x ss) = true -> inside e' (x ss) = true ->
     on_element (nth t sols (fun _ => 0)) e (x ss) (field / dim) (field mod dim) = on_element (nth t sols (fun _ => 0)) e' (x ss) (field / dim) (field mod dim)) ->
  table dim (made procs sols n x) (length sols) field = table dim (made procs' sols n x) (length sols) field.
Proof.
  intros N N' Q C. rewrite !table_is by auto. f_equal. apply map_ext_in. intros ss L. apply in_seq in L. unfold table_row.
  assert (D : (exists e, elements procs e /\ inside e (x ss) = true) \/ forall e, elements procs e -> inside e (x ss) = false).
  { destruct (existsb (fun e => inside e (x ss)) (concat (concat procs))) eqn:B.
    - left. apply existsb_exists in B. destruct B as (e & I & B). apply in_concat in I. destruct I as (es & I1 & I2). apply in_concat in I1. destruct I1 as (gr & I3 & I4). exists e. split; auto. exists gr, es. auto.
    - right. intros e (gr & es & I1 & I2 & I3). destruct (inside e (x ss)) eqn:I; auto. assert (A : existsb (fun e => inside e (x ss)) (concat (concat procs)) = true); [|congruence].
      apply existsb_exists. exists e. split; auto. apply in_concat. exists es. split; auto. apply in_concat. eauto. }
  destruct D as [(e & He & Hi)|D].
  - f_equal; apply map_ext_in; intros k K.
    + rewrite !rows_coords; auto; try lia; exists e; split; auto. apply Q; auto.
    + rewrite (rows_value procs sols n x ss field k (on_element (nth k sols (fun _ => 0)) e (x ss) (field / dim) (field mod dim))); [|lia|eauto|]; cycle 1.
      { intros e' H1 H2. apply C; auto; lia. }
      symmetry. apply rows_value; [lia|exists e; split; auto; apply Q; auto|]. intros e' H1 H2. apply C; auto; [lia|apply Q; auto].
  - assert (D' : forall e, elements procs' e -> inside e (x ss) = false) by (intros e He; apply D, Q; auto).
    f_equal; apply map_ext_in; intros k K; rewrite !sm_zero; auto; intros p P; unfold row_coords, row_value; first [rewrite (rows_none procs sols n x ss D p P)|rewrite (rows_none procs' sols n x ss D' p P)]; auto.
Qed.

(** *** C175: a sensor that no element contains has a line of zeros *)
Theorem C175_partial procs sols n x T field ss rows : (forall e, elements procs e -> inside e (x ss) = false) -> (ss < n)%nat ->
  table dim (made procs sols n x) T field = Some rows -> nth ss rows [] = repeat 0 (dim + T).
Proof.
  intros H L Ht. destruct procs as [|p procs]; [discriminate|]. rewrite table_is in Ht by discriminate. injection Ht as <-.
  rewrite nth_indep with (d' := table_row dim (made (p :: procs) sols n x) T field 0) by (rewrite map_length, seq_length; auto). rewrite map_nth, seq_nth by auto. cbn [Nat.add].
  unfold table_row. rewrite repeat_app. assert (Z : forall k (f : nat -> R), (forall i, f i = 0) -> forall j, map f (seq j k) = repeat 0 k).
  { induction k; cbn; auto. intros f Hf j. rewrite Hf, IHk; auto. }
  rewrite !Z; auto; intros k; apply sm_zero; intros q P; unfold row_coords, row_value; rewrite (rows_none _ sols n x ss H q P); auto.
Qed.
End Table.
Print Assumptions C174_place.
Print Assumptions C174_table.
Print Assumptions C174_partition.
Print Assumptions C175_partial.

(** *** A case: two elements [0,1] and [1,2] on a line, linear elements *)
Definition ends (e : bool) : R * R := if e then (1, 2) else (0, 1).
Definition seg_nodes (e : bool) : list point := [fun _ => fst (ends e); fun _ => snd (ends e)].
Definition seg_inside (e : bool) (x : point) : bool := if Rle_dec (fst (ends e)) (x 0%nat) then if Rle_dec (x 0%nat) (snd (ends e)) then true else false else false.
Definition seg_lid (e : bool) (var i : nat) : nat := if e then Datatypes.S i else i.
Definition seg_basis (e : bool) (var i : nat) (x : point) (d : nat) : R := match i with O => snd (ends e) - x 0%nat | _ => x 0%nat - fst (ends e) end.
Definition seg_build := build 1 bool seg_nodes seg_inside (fun _ => 2%nat) (fun _ => 1%nat) seg_lid seg_basis.
Lemma big : 2 <= 10 ^ 300.
Proof. replace 300%nat with (Datatypes.S 299) by reflexivity. rewrite <- tech_pow_Rmult. pose proof (pow_R1_Rle 10 299 ltac:(lra)). lra. Qed.
Lemma seg_ok : inclusion_ok 1 seg_nodes seg_inside.
Proof.
  split.
  - intros e x. unfold seg_inside. destruct (Rle_dec _ _) as [A|]; [|discriminate]. destruct (Rle_dec _ _) as [B|]; [|discriminate]. intros _.
    exists (fun i => match i with O => snd (ends e) - x 0%nat | 1%nat => x 0%nat - fst (ends e) | _ => 0 end). split; [|split].
    + intros [|[|i]]; lra. + destruct e; cbn; lra.
    + intros d D. replace d with 0%nat by lia. destruct e; cbn; lra.
  - intros e c d I. pose proof big. destruct e; cbn in I; destruct I as [<-|[<-|[]]]; cbn; lra.
Qed.
Definition at_ (v : R) : point := fun _ => v.
Lemma seg_in e v : fst (ends e) <= v <= snd (ends e) -> seg_inside e (at_ v) = true.
Proof. intros [A B]. unfold seg_inside, at_. destruct (Rle_dec _ _); [|contradiction]. destruct (Rle_dec _ _); [auto|contradiction]. Qed.
Lemma seg_out e v : v < fst (ends e) \/ snd (ends e) < v -> seg_inside e (at_ v) = false.
Proof. intros [A|A]; unfold seg_inside, at_; destruct (Rle_dec _ _); auto; destruct (Rle_dec _ _); auto; lra. Qed.
Definition two : list (list (list bool)) := [[[false]]; [[true]]].
Lemma two_all e : elements bool two e.
Proof. destruct e; [exists [[true]], [true]|exists [[false]], [false]]; cbn; auto. Qed.
(** The interface belongs to both processes; the file has the value of the nodal solution. *)
Example C174_case rows : let sols := [fun i => match i with O => 3 | 1%nat => 5 | _ => 11 end; fun i => INR i] in
  table 1 (map (seg_build true two sols (fun _ => 3%nat) (fun _ i => nth i [at_ 1; at_ (3/2); at_ (1/4)] (at_ 0))) (seq 0 2)) 2 0 = Some rows ->
  rows = [[1; 5; 1]; [3/2; 8; 3/2]; [1/4; 7/2; 1/4]].
Proof.
  intros sols H. set (x := fun i => nth i [at_ 1; at_ (3/2); at_ (1/4)] (at_ 0)).
  destruct (C174_table 1 bool seg_nodes seg_inside seg_ok (fun _ => 2%nat) (fun _ => 1%nat) seg_lid seg_basis two sols 3 x 0 rows H) as [L T].
  assert (S1 : forall v e t, (t < 2)%nat -> seg_inside e (at_ v) = true -> on_element bool (fun _ => 2%nat) (fun _ => 1%nat) seg_lid seg_basis (nth t sols (fun _ => 0)) e (at_ v) 0 0 =
     (if e then nth t sols (fun _ => 0) 1%nat * (2 - v) + nth t sols (fun _ => 0) 2%nat * (v - 1) else nth t sols (fun _ => 0) 0%nat * (1 - v) + nth t sols (fun _ => 0) 1%nat * v)).
  { intros v e t Ht I. unfold on_element. destruct (le_lt_dec 1 0); [lia|]. unfold sm, Sparse_Model.rsum, seg_lid, seg_basis, ends, at_, sols. destruct e; cbn [map seq fold_right fst snd]; ring. }
  destruct rows as [|r0 [|r1 [|r2 [|]]]]; try discriminate. f_equal; [|f_equal; [|f_equal]].
  - change r0 with (nth 0 [r0; r1; r2] []). rewrite (T 0%nat (fun t => nth t [5; 1] 0)); [reflexivity|lia|exists true; split; [apply two_all|apply seg_in; cbn; lra]|].
    intros t Ht e _ I. cbn in Ht. change (x 0%nat) with (at_ 1) in *. change (0 / 1)%nat with 0%nat; change (0 mod 1)%nat with 0%nat. rewrite (S1 1 e t) by auto. destruct t as [|[|]]; [| |lia]; destruct e; cbn [nth sols INR]; lra.
  - change r1 with (nth 1 [r0; r1; r2] []). rewrite (T 1%nat (fun t => nth t [8; 3/2] 0)); [reflexivity|lia|exists true; split; [apply two_all|apply seg_in; cbn; lra]|].
    intros t Ht e _ I. cbn in Ht. change (x 1%nat) with (at_ (3/2)) in *. change (0 / 1)%nat with 0%nat; change (0 mod 1)%nat with 0%nat. rewrite (S1 (3/2) e t) by auto. destruct e; [|rewrite seg_out in I by (cbn; lra); discriminate]. destruct t as [|[|]]; [| |lia]; cbn [nth sols INR]; lra.
  - change r2 with (nth 2 [r0; r1; r2] []). rewrite (T 2%nat (fun t => nth t [7/2; 1/4] 0)); [reflexivity|lia|exists false; split; [apply two_all|apply seg_in; cbn; lra]|].
    intros t Ht e _ I. cbn in Ht. change (x 2%nat) with (at_ (1/4)) in *. change (0 / 1)%nat with 0%nat; change (0 mod 1)%nat with 0%nat. rewrite (S1 (1/4) e t) by auto. destruct e; [rewrite seg_out in I by (cbn; lra); discriminate|]. destruct t as [|[|]]; [| |lia]; cbn [nth sols INR]; lra.
Qed.

(** *** C175: lines that do not describe a sensor *)
(** a sensor outside of the mesh: zeros also for the coordinates *)
Theorem C175_outside_refuted : exists procs sols n x rows, procs = two /\ n = 1%nat /\ x 0%nat = at_ 5 /\
  table 1 (map (seg_build true procs sols (fun _ => n) (fun _ => x)) (seq 0 (length procs))) (length sols) 0 = Some rows /\ nth 0 rows [] <> [] /\ nth 0 (nth 0 rows []) 0 <> x 0%nat 0%nat.
Proof.
  set (x := fun _ : nat => at_ 5). exists two, ([] : list (nat -> R)), 1%nat, x.
  pose proof (table_is 1 bool seg_nodes seg_inside (fun _ => 2%nat) (fun _ => 1%nat) seg_lid seg_basis two [] 1 x 0 0 ltac:(discriminate)) as Ht.
  eexists. split; [auto|]. split; [auto|]. split; [auto|]. split; [exact Ht|]. split; [cbn; discriminate|].
  rewrite (C175_partial 1 bool seg_nodes seg_inside seg_ok (fun _ => 2%nat) (fun _ => 1%nat) seg_lid seg_basis two [] 1 x 0 0 0 _) with (3 := Ht); [|intros e _; apply seg_out; destruct e; cbn; lra|lia].
  unfold x, at_. cbn. intros A. lra.
Qed.
Lemma seg_found procs r v e : In [e] (nth r procs []) -> fst (ends e) <= v <= snd (ends e) -> found_on 1 bool seg_nodes seg_inside procs r (at_ v) = true.
Proof.
  intros I B. unfold found_on. destruct (locate _ _ _ _ _ _) eqn:L; auto. exfalso. revert L. apply (C171_complete 1 bool seg_nodes seg_inside seg_ok). exists [e], e. cbn. auto using seg_in.
Qed.
Lemma seg_lost procs r v : (forall es e, In es (nth r procs []) -> In e es -> v < fst (ends e) \/ snd (ends e) < v) -> found_on 1 bool seg_nodes seg_inside procs r (at_ v) = false.
Proof.
  intros H. unfold found_on. destruct (locate _ _ _ _ _ _) eqn:L; auto. exfalso. assert (G : locate 1 bool seg_nodes seg_inside (nth r procs []) (at_ v) <> None) by congruence.
  apply (C171_complete 1 bool seg_nodes seg_inside seg_ok) in G. destruct G as (es & e & I1 & I2 & I3). rewrite seg_out in I3 by eauto. discriminate.
Qed.
(** sensors at quadrature points (processes have different lists and keep what they find): a
    line adds up the coordinates and values of different points *)
Theorem C175_quadrature_refuted : exists pts : nat -> nat -> point, pts 0%nat 0%nat = at_ (1/2) /\ pts 1%nat 0%nat = at_ (3/2) /\
  table 1 (map (seg_build false two [] (fun _ => 1%nat) pts) (seq 0 2)) 0 0 = Some [[2]].
Proof.
  set (pts := fun r _ : nat => match r with O => at_ (1/2) | _ => at_ (3/2) end). exists pts. split; [auto|]. split; [auto|].
  unfold table, table_row, seg_build. cbn [map seq forallb p_n build andb Nat.eqb app]. do 3 f_equal. unfold sm, Sparse_Model.rsum, row_coords. cbn [map fold_right p_found p_pts build]. unfold keeps, stored. cbn [andb seq flat_map pts].
  rewrite (seg_found two 0 (1/2) false), (seg_found two 1 (3/2) true) by (cbn; auto; lra). cbn. unfold at_. lra.
Qed.
(** and with different numbers of points the processes do not even take part in the same sums *)
Theorem C175_numbers_refuted : forall pts sols T field, table 1 (map (seg_build false two sols (fun r => Datatypes.S r) pts) (seq 0 2)) T field = None.
Proof. reflexivity. Qed.
(** sensors from an Exodus file: the files have no lines at all *)
Theorem C175_exodus_refuted dim (ps : list proc) T field : ps <> [] -> table dim (map exodus_proc ps) T field = Some [].
Proof.
  destruct ps as [|p ps]; [congruence|]. intros _. unfold table. cbn [map exodus_proc p_n]. replace (forallb _ _) with true; auto. symmetry. apply forallb_forall. intros q Q.
  destruct Q as [<-|Q]; auto. apply in_map_iff in Q. destruct Q as (q' & <- & _). auto.
Qed.
Print Assumptions C175_outside_refuted.
Print Assumptions C175_quadrature_refuted.
Print Assumptions C175_numbers_refuted.
Print Assumptions C175_exodus_refuted.

(** *** C176: HDF5 *)
(** one process that has all sensors: line s has the values of sensor s *)
Theorem C176_partial (p : proc) s field t : (forall pt, (pt < p_n p)%nat -> p_found p pt = true) -> length (p_val p) = p_n p -> (s < p_n p)%nat ->
  hdf5_line p s field t = Some (s, row_value p s field t).
Proof.
  intros F L S1. assert (I : sensor_ids p = seq 0 (p_n p)).
  { unfold sensor_ids, stored. assert (G : forall k n, (forall pt, (k <= pt < k + n)%nat -> p_found p pt = true) -> flat_map (fun pt => if p_found p pt then [pt] else []) (seq k n) = seq k n).
    { intros k n; revert k; induction n as [|n IH]; cbn; auto. intros k H. rewrite H, IH by (try intros; try apply H; lia). auto. } apply G. intros; apply F; lia. }
  assert (X : sindex (p_found p) s = s).
  { unfold sindex. assert (G : forall l, (forall q, In q l -> p_found p q = true) -> filter (p_found p) l = l) by (induction l as [|a l IH]; cbn; auto; intros H; rewrite H, IH; auto).
    rewrite G, seq_length; auto. intros q Q. apply in_seq in Q. apply F. lia. }
  unfold hdf5_line. rewrite I, (nth_error_nth' (seq 0 (p_n p)) 0%nat) by (rewrite seq_length; auto). rewrite seq_nth by auto. cbn [Nat.add].
  rewrite (nth_error_nth' (p_val p) (fun _ _ => 0)) by lia. unfold row_value. rewrite F by auto. rewrite X. auto.
Qed.
(** the second process has the second sensor only: its data is read beyond the end *)
Theorem C176_refuted : let p := seg_build true two [fun _ => 1] (fun _ => 2%nat) (fun _ i => nth i [at_ (1/2); at_ (3/2)] (at_ 0)) 1 in
  sensor_ids p = [1%nat] /\ length (p_val p) = 1%nat /\ hdf5_line p 0 0 0 = None.
Proof.
  set (x := fun i => nth i [at_ (1/2); at_ (3/2)] (at_ 0)). intros p.
  assert (K0 : keeps 1 bool seg_nodes seg_inside true two 1 (fun _ => x 0%nat) = false).
  { unfold keeps. destruct (_ && _); auto. apply seg_lost. intros es e [<-|[]] [<-|[]]. cbn. lra. }
  assert (K1 : keeps 1 bool seg_nodes seg_inside true two 1 (fun _ => x 1%nat) = true).
  { apply (keep_is 1 bool seg_nodes seg_inside two 1 (x 1%nat)); [cbn; lia|]. split; [apply (seg_found two 1 (3/2) true); cbn; auto; lra|]. intros q Q. replace q with 0%nat by lia. apply seg_lost. intros es e [<-|[]] [<-|[]]. cbn. lra. }
  assert (I : sensor_ids p = [1%nat]) by (unfold sensor_ids, stored, p, seg_build; cbn [p_found p_n build seq flat_map]; rewrite K0, K1; auto).
  assert (V : length (p_val p) = 1%nat) by (unfold p, seg_build; cbn [p_val build]; rewrite stored_length; unfold sindex; cbn [seq filter]; rewrite K0, K1; auto).
  split; auto. split; auto. unfold hdf5_line. rewrite I. cbn [nth_error]. destruct (p_val p) as [|v [|]]; try discriminate. auto.
Qed.
Print Assumptions C176_partial.
Print Assumptions C176_refuted.

(** *** C177: transforms *)
(** coefficient k of the discrete Fourier transform of s_0, s_1, ... with N frequencies *)
Definition fourier (N : nat) (series : list R) (k : nat) : R * R :=
  (sm (seq 0 (length series)) (fun t => nth t series 0 * cos (2 * PI * INR k * INR t / INR N)),
   - sm (seq 0 (length series)) (fun t => nth t series 0 * sin (2 * PI * INR k * INR t / INR N))).
Lemma turns m : cos (INR m * (-2 * PI)) = 1 /\ sin (INR m * (-2 * PI)) = 0.
Proof.
  induction m as [|m [C S0]]; [cbn [INR]; rewrite Rmult_0_l, cos_0, sin_0; auto|].
  rewrite S_INR. replace ((INR m + 1) * (-2 * PI)) with (INR m * (-2 * PI) - 2 * PI) by ring. rewrite cos_minus, sin_minus, C, S0, cos_2PI, sin_2PI. split; ring.
Qed.
(** every coefficient is N times the sum of the series *)
Theorem C177_partial N series k : dft N series k = (INR N * sm series (fun s => s), 0).
Proof.
  assert (Step : forall s acc, dft_step N s acc k = (fst (acc k) + INR N * s, snd (acc k))).
  { intros s acc. unfold dft_step. assert (G : forall l a, fold_left (fun a j => let freq := INR (k * j / N) * (-2 * PI) in (fst a + s * cos freq, snd a + s * sin freq)) l a = (fst a + INR (length l) * s, snd a)).
    { induction l as [|j l IH]; intros [u v]; cbn [fold_left length fst snd]; [f_equal; cbn [INR]; ring|]. rewrite IH. cbv zeta. destruct (turns (k * j / N)) as [-> ->]. cbn [fst snd]. rewrite S_INR. f_equal; ring. }
    rewrite G, seq_length. auto. }
  assert (G : forall series acc, fold_left (fun acc s => dft_step N s acc) series acc k = (fst (acc k) + INR N * sm series (fun s => s), snd (acc k))).
  { induction series0 as [|s l IH]; intros acc; cbn [fold_left]; [unfold sm; cbn; rewrite Rmult_0_r, Rplus_0_r; destruct (acc k); auto|]. rewrite IH, Step. cbn [fst snd]. f_equal. unfold sm, Sparse_Model.rsum. cbn. ring. }
  unfold dft. rewrite G. cbn [fst snd]. f_equal. ring.
Qed.
(** not the transform: already the coefficient of frequency 0 is N times too large *)
Theorem C177_refuted N series : (2 <= N)%nat -> sm series (fun s => s) <> 0 -> dft N series 0 <> fourier N series 0.
Proof.
  intros HN H D. rewrite C177_partial in D. apply (f_equal fst) in D. cbn [fst fourier] in D.
  rewrite (sm_ext _ _ (fun t => nth t series 0)) in D.
  2:{ intros t _. cbn [INR]. replace (2 * PI * 0 * INR t / INR N) with 0 by (unfold Rdiv; ring). rewrite cos_0. ring. }
  assert (Q : sm (seq 0 (length series)) (fun t => nth t series 0) = sm series (fun s => s)).
  { assert (M : forall l : list R, map (fun t => nth t l 0) (seq 0 (length l)) = l).
    { intros l. apply (nth_ext _ _ 0 0); [rewrite map_length, seq_length; auto|]. intros n Hn. rewrite map_length, seq_length in Hn.
      rewrite nth_indep with (d' := nth 0 l 0) by (rewrite map_length, seq_length; auto). rewrite (map_nth (fun t => nth t l 0)), seq_nth by auto. auto. }
    unfold sm. rewrite M, map_id. auto. }
  rewrite Q in D. assert (1 < INR N) by (apply (lt_INR 1); lia). apply H. apply Rmult_eq_reg_l with (INR N - 1); [|lra]. lra.
Qed.
(** and a constant series has all its coefficients large where all but the first should vanish *)
Theorem C177_constant_refuted : fourier 2 [1; 1] 1 = (0, 0) /\ dft 2 [1; 1] 1 = (4, 0).
Proof.
  split.
  - unfold fourier, sm, Sparse_Model.rsum. cbn [length seq map fold_right nth INR]. replace (2 * PI * 1 * 0 / (1 + 1)) with 0 by field. replace (2 * PI * 1 * 1 / (1 + 1)) with PI by field.
    rewrite cos_0, sin_0, cos_PI, sin_PI. f_equal; ring.
  - rewrite C177_partial. unfold sm, Sparse_Model.rsum. cbn. f_equal. ring.
Qed.
Print Assumptions C177_partial.
Print Assumptions C177_refuted.
Print Assumptions C177_constant_refuted.

(** *** C178: output of transforms *)
(** writing them reads the first entry of an empty list *)
Theorem C178_output_refuted N series : dft_output N series = None.
Proof. reflexivity. Qed.
(** the far field of a boundary element with two points: the field at the second sensor is
    not used, that of the first is used for both *)
Theorem C178_points_refuted Q (kernel : nat -> Q -> R -> R) (q1 q2 : Q) src : far_field Q kernel [[q1; q2]] 1 src 0 = kernel 0%nat q1 (src 0%nat) + kernel 0%nat q2 (src 0%nat).
Proof. unfold far_field, sm, Sparse_Model.rsum. cbn. ring. Qed.
(** With one point in each boundary group and one direction, each sensor is used with its own point. *)
Theorem C178_one_point_partial Q (kernel : nat -> Q -> R -> R) (qs : list Q) src :
  far_field Q kernel (map (fun q => [q]) qs) 1 src 0 =
  sm (seq 0 (length qs)) (fun g => match nth_error qs g with Some q => kernel 0%nat q (src g) | None => 0 end).
Proof.
  unfold far_field. rewrite map_length. unfold sm. f_equal. apply map_ext_in. intros g G. apply in_seq in G.
  destruct (nth_error qs g) as [q|] eqn:E; [|apply nth_error_None in E; lia].
  rewrite (nth_error_nth _ g [] (map_nth_error _ g qs E)). unfold Sparse_Model.rsum; cbn [map fold_right fold_left]. match goal with |- context [src ?k] => replace k with g by lia end. ring.
Qed.
Print Assumptions C178_one_point_partial.
(** With two directions and two points, the second direction takes sensors 1 and 3 for points 0
    and 1; there is no sensor 3. *)
Theorem C178_directions_refuted Q (kernel : nat -> Q -> R -> R) (q q' : Q) src :
  far_field Q kernel [[q]; [q']] 2 src 1 = kernel 1%nat q (src 1%nat) + kernel 1%nat q' (src 3%nat).
Proof. unfold far_field, sm, Sparse_Model.rsum. cbn. ring. Qed.
Print Assumptions C178_directions_refuted.
(** three of the four potentials are lost in the sum over the processes, also on one process *)
Theorem C178_reduce_refuted : exists a b c d, far_reduce [(a, b, c, d)] <> (a, b, c, d).
Proof. exists 0, 1, 0, 0. unfold far_reduce, sm, Sparse_Model.rsum. cbn. intros H. injection H as _ H. lra. Qed.
Print Assumptions C178_output_refuted.
Print Assumptions C178_points_refuted.
Print Assumptions C178_reduce_refuted.

(** *** C179: files for each process *)
Lemma app_len a b : String.length (a ++ b) = (String.length a + String.length b)%nat.
Proof. induction a; cbn; auto. Qed.
Lemma take_app a b : str_take (String.length a) (a ++ b) = a.
Proof. induction a as [|c a IH]; cbn; auto. rewrite IH. auto. Qed.
Lemma ends_app b : ends_dat (b ++ ".dat") = true.
Proof. unfold ends_dat. rewrite app_len. cbn [String.length]. rewrite Nat.add_sub. assert (H : substring (String.length b) 4 (b ++ ".dat") = ".dat"%string) by (induction b; cbn; auto). rewrite H. auto. Qed.
Theorem C179_partial rank b d : points_name rank (b ++ ".dat") = (b ++ "." ++ rank ++ ".dat")%string /\
  (String.length d = (String.length b + 1 + String.length rank)%nat -> data_name rank (b ++ ".dat") (d ++ ".dat") = (d ++ "." ++ rank ++ ".dat")%string).
Proof.
  assert (P : points_name rank (b ++ ".dat") = (b ++ "." ++ rank ++ ".dat")%string).
  { unfold points_name. rewrite ends_app, app_len. cbn [String.length]. rewrite Nat.add_sub, take_app. auto. }
  split; auto. intros L. unfold data_name. rewrite ends_app, P. assert (Q : String.length (b ++ "." ++ rank ++ ".dat") = (String.length d + 4)%nat) by (rewrite !app_len; cbn [String.length]; lia).
  rewrite Q, Nat.add_sub. rewrite take_app. auto.
Qed.
(** the data file is named from the length of the other file's name *)
Theorem C179_name_refuted : data_name "0" "p.dat" "d.dat" = "d.d.0.dat"%string.
Proof. reflexivity. Qed.
(** and a process loses the point of its list that it has found, when an earlier process has
    found its own, different, point at the same place of its list *)
Theorem C179_lost_refuted : let xs := fun r => match r with O => at_ (1/2) | _ => at_ (3/2) end in
  found_on 1 bool seg_nodes seg_inside two 1 (xs 1%nat) = true /\ keeps 1 bool seg_nodes seg_inside true two 1 xs = false.
Proof.
  intros xs. split; [apply (seg_found two 1 (3/2) true); cbn; auto; lra|]. unfold keeps. cbn [andb].
  destruct (Nat.eqb_spec 1 (lowest 1 bool seg_nodes seg_inside two xs)) as [H|]; [|auto]. exfalso.
  pose proof (lowest_le 1 bool seg_nodes seg_inside two xs 0 ltac:(cbn; lia)) as L. unfold flag in L. change (xs 0%nat) with (at_ (1/2)) in L. rewrite (seg_found two 0 (1/2) false) in L by (cbn; auto; lra). lia.
Qed.
Print Assumptions C179_partial.
Print Assumptions C179_name_refuted.
Print Assumptions C179_lost_refuted.

(** *** C180: grids *)
Lemma grid1_length n : forall x dx, length (grid1 x dx n) = n.
Proof. induction n; cbn; auto. Qed.
Lemma grid1_nth n : forall i x dx, (i < n)%nat -> nth i (grid1 x dx n) 0 = x + INR i * dx.
Proof. induction n as [|n IH]; intros [|i] x dx H; try lia; cbn [grid1 nth]; [cbn [INR]; ring|]. rewrite IH by lia. rewrite S_INR. ring. Qed.
Lemma flat_nth {A B} (f : A -> list B) m d d' : forall (l : list A) i k, (forall a, In a l -> length (f a) = m) -> (i < length l)%nat -> (k < m)%nat ->
  nth (i * m + k) (flat_map f l) d = nth k (f (nth i l d')) d.
Proof.
  induction l as [|a l IH]; intros i k H Hi Hk; cbn [length] in Hi; [lia|]. cbn [flat_map]. destruct i as [|i]; cbn [Nat.mul nth Nat.add].
  - rewrite app_nth1; [auto|rewrite H by (cbn; auto); auto].
  - rewrite app_nth2; rewrite H by (cbn; auto); [|lia]. replace (m + i * m + k - m)%nat with (i * m + k)%nat by lia. apply IH; auto; [intros; apply H; cbn; auto|lia].
Qed.
Lemma flat_len {A B} (f : A -> list B) m : forall l : list A, (forall a, In a l -> length (f a) = m) -> length (flat_map f l) = (length l * m)%nat.
Proof. induction l as [|a l IH]; cbn; auto. intros H. rewrite app_length, H, IH by auto. auto. Qed.
(** Nx*Ny*Nz sensors, the last coordinate fastest, at equal distances from the lower to the upper end *)
Theorem C180_grid lo hi N pts : grid_points 3 lo hi N = Some pts -> length pts = (N 0 * N 1 * N 2)%nat /\
  forall i j k, (i < N 0)%nat -> (j < N 1)%nat -> (k < N 2)%nat ->
  exists x y z, nth ((i * N 1 + j) * N 2 + k)%nat pts [] = [x; y; z] /\
    ((1 < N 0)%nat -> x = lo 0%nat + INR i / (INR (N 0%nat) - 1) * (hi 0%nat - lo 0%nat)) /\
    ((1 < N 1)%nat -> y = lo 1%nat + INR j / (INR (N 1%nat) - 1) * (hi 1%nat - lo 1%nat)) /\
    ((1 < N 2)%nat -> z = lo 2%nat + INR k / (INR (N 2%nat) - 1) * (hi 2%nat - lo 2%nat)) /\
    (i = 0%nat -> x = lo 0%nat) /\ (j = 0%nat -> y = lo 1%nat) /\ (k = 0%nat -> z = lo 2%nat).
Proof.
  set (g := fun d => grid1 (lo d) (spacing (lo d) (hi d) (N d)) (N d)). intros H.
  assert (P : pts = flat_map (fun x => flat_map (fun y => map (fun z => [x; y; z]) (g 2%nat)) (g 1%nat)) (g 0%nat)) by (injection H as <-; reflexivity). clear H. subst pts.
  assert (L1 : forall x y, length (map (fun z => [x; y; z]) (g 2%nat)) = N 2%nat) by (intros; rewrite map_length; apply grid1_length).
  assert (L2 : forall x, length (flat_map (fun y => map (fun z => [x; y; z]) (g 2%nat)) (g 1%nat)) = (N 1 * N 2)%nat).
  { intros x. rewrite (flat_len _ (N 2%nat)) by auto. unfold g at 1. rewrite grid1_length. auto. }
  split. { rewrite (flat_len _ (N 1 * N 2)%nat) by auto. unfold g at 1. rewrite grid1_length. lia. }
  intros i j k Hi Hj Hk.
  assert (V : forall d n, (n < N d)%nat -> nth n (g d) 0 = lo d + INR n * spacing (lo d) (hi d) (N d)) by (intros; apply grid1_nth; auto).
  exists (nth i (g 0%nat) 0), (nth j (g 1%nat) 0), (nth k (g 2%nat) 0). split.
  - replace ((i * N 1 + j) * N 2 + k)%nat with (i * (N 1 * N 2) + (j * N 2 + k))%nat by lia.
    rewrite (flat_nth _ (N 1 * N 2)%nat [] 0); [|auto|unfold g; rewrite grid1_length; auto|nia].
    rewrite (flat_nth _ (N 2%nat) [] 0); [|auto|unfold g; rewrite grid1_length; auto|auto].
    rewrite nth_indep with (d' := [nth i (g 0%nat) 0; nth j (g 1%nat) 0; 0]) by (rewrite L1; auto).
    rewrite (map_nth (fun z => [nth i (g 0%nat) 0; nth j (g 1%nat) 0; z])). auto.
  - rewrite !V by auto.
    assert (D : forall d n, (1 < N d)%nat -> lo d + INR n * spacing (lo d) (hi d) (N d) = lo d + INR n / (INR (N d) - 1) * (hi d - lo d)).
    { intros d n Hn. unfold spacing. apply Nat.ltb_lt in Hn. rewrite Hn. unfold Rdiv. ring. }
    repeat split; auto; intros ->; cbn [INR]; ring.
Qed.
Example C180_case : exists pts, grid_points 3 (fun _ => 0) (fun _ => 1) (fun d => match d with O => 2%nat | 1%nat => 1%nat | _ => 3%nat end) = Some pts /\ length pts = 6%nat.
Proof. eexists. split; reflexivity. Qed.
(** in one and two dimensions the request is refused *)
Theorem C180_refused dim lo hi N : dim <> 3%nat -> grid_points dim lo hi N = None.
Proof. intros H. unfold grid_points. destruct (Nat.eqb_spec dim 3); [contradiction|auto]. Qed.
Print Assumptions C180_grid.
Print Assumptions C180_refused.

(** *** C181: files *)
Theorem C181_points dim file : (forall l, In l file -> length l = dim) -> forall prev, import_points prev dim file = map (map Some) file.
Proof.
  induction file as [|l file IH]; intros H prev; cbn [import_points map]; auto. rewrite IH by (intros; apply H; cbn; auto). f_equal.
  assert (L : length l = dim) by (apply H; cbn; auto). unfold read_line. apply (nth_ext _ _ None None); [rewrite !map_length, seq_length; auto|]. intros n Hn. rewrite map_length, seq_length in Hn.
  rewrite nth_indep with (d' := (fun d => match nth_error l d with Some v => Some v | None => nth d prev None end) 0%nat) by (rewrite map_length, seq_length; auto).
  rewrite (map_nth (fun d => match nth_error l d with Some v => Some v | None => nth d prev None end)), seq_nth by auto. cbn [Nat.add].
  rewrite (nth_error_nth' l 0) by lia. rewrite nth_indep with (d' := Some 0) by (rewrite map_length; lia). rewrite (map_nth Some). auto.
Qed.
Lemma maxstates_all T values : values <> [] -> (forall l, In l values -> length l = T) -> maxstates values = T.
Proof.
  intros N H. unfold maxstates. destruct values as [|l values]; [congruence|]. cbn [fold_left]. rewrite (H l) by (cbn; auto). cbn [Nat.max].
  assert (G : forall v : list (list R), (forall l, In l v -> length l = T) -> fold_left (fun m l => Nat.max m (length l)) v T = T); [|apply G; intros; apply H; cbn; auto].
  induction v as [|a v IH]; cbn; auto. intros Hv. rewrite Hv, Nat.max_id by auto. apply IH; auto.
Qed.
(** the first line of the data file are the times, line s+1 the values of sensor s *)
Theorem C181_data dim file times series : (forall l, In l series -> length l = length times) -> length series = length file ->
  exists tm dat, import_sensors dim (Some file) (times :: series) = Some (length times, tm, dat) /\ (forall j, (j < length times)%nat -> nth_error times j = Some (tm j)) /\
    forall s j l, nth_error series s = Some l -> (j < length times)%nat -> nth_error l j = Some (dat s j).
Proof.
  intros H L. unfold import_sensors. cbn [length]. rewrite L, Nat.add_1_r, Nat.eqb_refl. rewrite (maxstates_all (length times)); [|discriminate|intros l [<-|I]; auto].
  do 2 eexists. split; [reflexivity|]. split.
  - intros j Hj. cbn. apply nth_error_nth'. auto.
  - intros s j l N Hj. rewrite Nat.add_1_r. cbn [import_data map nth]. assert (E : nth s (map (fun (l : list R) (j : nat) => nth j l 0) series) (fun _ => 0) = fun j => nth j l 0).
    { revert s N. clear. induction series as [|a series IH]; intros [|s] N; cbn in *; try discriminate; [injection N as ->; auto|auto]. }
    unfold import_data. rewrite E. apply nth_error_nth'. rewrite H; auto. eapply nth_error_In; eauto.
Qed.
(** a wrong number of lines is an error *)
Theorem C181_count dim file values : length values <> (length file + 1)%nat -> import_sensors dim (Some file) values = None.
Proof. intros H. unfold import_sensors. destruct (Nat.eqb_spec (length file + 1) (length values)); [congruence|auto]. Qed.
Example C181_case : exists tm dat, import_sensors 1 (Some [[0]; [1]]) [[0; 1/2]; [3; 4]; [5; 6]] = Some (2%nat, tm, dat) /\ tm 1%nat = 1/2 /\ dat 1%nat 0%nat = 5.
Proof. do 2 eexists. split; [reflexivity|]. split; reflexivity. Qed.
Print Assumptions C181_points.
Print Assumptions C181_data.
Print Assumptions C181_count.

(** *** C182: files that are not complete *)
(** a blank line repeats the previous sensor; before the first one the numbers are not set *)
Theorem C182_blank_refuted : import_points [] 2 [[1; 2]; []; [3; 4]] = [[Some 1; Some 2]; [Some 1; Some 2]; [Some 3; Some 4]] /\ import_points [] 2 [[]; [1; 2]] = [[None; None]; [Some 1; Some 2]].
Proof. split; reflexivity. Qed.
(** a short line of data is completed with measurements 0 *)
Theorem C182_short_refuted : exists tm dat, import_sensors 1 (Some [[0]]) [[0; 1]; [7]] = Some (2%nat, tm, dat) /\ dat 0%nat 1%nat = 0.
Proof. do 2 eexists. split; [reflexivity|reflexivity]. Qed.
(** without a points file there is a warning that this may be intended, and then an error *)
Theorem C182_missing_refuted dim values : import_sensors dim None values = None.
Proof. reflexivity. Qed.
Print Assumptions C182_blank_refuted.
Print Assumptions C182_short_refuted.
Print Assumptions C182_missing_refuted.

(** *** C183: bases at sensors *)
Lemma store_none (made : string -> bool) (types : list (string * nat)) l : fold_left (fun acc k => match acc with None => None | Some l =>
    let '(ty, card) := nth k types (EmptyString, 0%nat) in
    if made ty then match nth_error (map snd (filter (fun t => made (fst t)) types)) k with
      | Some c => if (c =? card)%nat then Some (l ++ [(k, c)])%list else None | None => None end else acc end) l (None : option (list (nat * nat))) = None.
Proof. induction l; cbn; auto. Qed.
(** bases of the types come first: each gets a view of its own size *)
Theorem C183_partial made good rest : (forall t, In t good -> made (fst t) = true) -> (forall t, In t rest -> made (fst t) = false) ->
  store_by made (good ++ rest) = Some (map (fun k => (k, snd (nth k good (EmptyString, 0%nat)))) (seq 0 (length good))).
Proof.
  intros G B. unfold store_by. assert (F : filter (fun t : string * nat => made (fst t)) (good ++ rest) = good).
  { rewrite filter_app. assert (F1 : filter (fun t => made (fst t)) good = good) by (clear -G; induction good as [|a l IH]; cbn; auto; rewrite G by (cbn; auto); rewrite IH by (intros; apply G; cbn; auto); auto).
    assert (F2 : filter (fun t => made (fst t)) rest = []) by (clear -B; induction rest as [|a l IH]; cbn; auto; rewrite B by (cbn; auto); apply IH; intros; apply B; cbn; auto). rewrite F1, F2, app_nil_r. auto. }
  rewrite F, app_length, seq_app, fold_left_app. cbv zeta.
  match goal with |- fold_left ?st _ _ = _ => set (step := st) end.
  assert (A : forall n, (n <= length good)%nat -> fold_left step (seq 0 n) (Some []) = Some (map (fun k => (k, snd (nth k good (EmptyString, 0%nat)))) (seq 0 n))).
  { induction n as [|n IH]; intros Hn; [reflexivity|]. rewrite seq_S, fold_left_app, IH, map_app by lia. cbn [fold_left Nat.add map]. unfold step. rewrite app_nth1 by lia.
    assert (I : In (nth n good (EmptyString, 0%nat)) good) by (apply nth_In; lia). apply G in I. destruct (nth n good (EmptyString, 0%nat)) as [ty card] eqn:E. cbn [fst snd] in *. rewrite I.
    rewrite (nth_error_nth' _ 0%nat) by (rewrite map_length; lia). assert (M : nth n (map snd good) 0%nat = card) by (change 0%nat with (snd (EmptyString, 0%nat)); rewrite (map_nth snd), E; auto). rewrite M, Nat.eqb_refl. auto. }
  rewrite A by lia. cbn [Nat.add].
  assert (C : forall l acc, (forall k, In k l -> (length good <= k < length good + length rest)%nat) -> fold_left step l (Some acc) = Some acc).
  { induction l as [|k l IH]; cbn [fold_left]; auto. intros acc H. assert (Hk := H k (or_introl eq_refl)). replace (step (Some acc) k) with (Some acc); [apply IH; intros; apply H; cbn; auto|].
    unfold step. rewrite app_nth2 by lia. assert (I : In (nth (k - length good) rest (EmptyString, 0%nat)) rest) by (apply nth_In; lia). apply B in I.
    destruct (nth (k - length good) rest (EmptyString, 0%nat)) as [ty card]. cbn [fst] in I. rewrite I. auto. }
  apply C. intros k K. apply in_seq in K. lia.
Qed.
(** a basis of another type before one of them: a view outside of the list is used *)
Theorem C183_refuted made l1 t l2 m rest : made (fst t) = false -> made (fst m) = true -> (forall t', In t' rest -> made (fst t') = false) ->
  store_by made (l1 ++ t :: l2 ++ m :: rest) = None.
Proof.
  intros Ht Hm Hr. set (types := (l1 ++ t :: l2 ++ m :: rest)%list). set (k := (length l1 + 1 + length l2)%nat).
  assert (K : nth k types (EmptyString, 0%nat) = m).
  { unfold types, k. rewrite app_nth2 by lia. replace (length l1 + 1 + length l2 - length l1)%nat with (Datatypes.S (length l2)) by lia. cbn [nth]. rewrite app_nth2, Nat.sub_diag by lia. auto. }
  assert (V : nth_error (map snd (filter (fun t => made (fst t)) types)) k = None).
  { apply nth_error_None. rewrite map_length. unfold types. rewrite filter_app. cbn [filter]. rewrite Ht, filter_app. cbn [filter]. rewrite Hm, !app_length. cbn [length].
    assert (F2 : filter (fun t => made (fst t)) rest = []) by (clear -Hr; induction rest as [|a l IH]; cbn; auto; rewrite Hr by (cbn; auto); apply IH; intros; apply Hr; cbn; auto). rewrite F2.
    assert (Le : forall l : list (string * nat), (length (filter (fun t => made (fst t)) l) <= length l)%nat) by (induction l as [|a l IH]; cbn; auto; destruct (made (fst a)); cbn; lia).
    pose proof (Le l1). pose proof (Le l2). cbn [length]. unfold k. lia. }
  unfold store_by. cbv zeta. replace (length types) with (k + (Datatypes.S (length rest)))%nat by (unfold types, k; rewrite app_length; cbn [length]; rewrite app_length; cbn [length]; lia).
  rewrite seq_app, fold_left_app. cbn [seq fold_left Nat.add]. destruct (fold_left _ (seq 0 k) (Some [])) as [acc|]; [|apply store_none].
  rewrite K, V. destruct m as [ty card]. cbn [fst] in Hm. rewrite Hm. apply store_none.
Qed.
Example C183_case : store_grads [("HGRAD", 4); ("HGRAD", 9); ("HVOL", 1)]%nat%string = Some [(0, 4); (1, 9)]%nat /\ store_grads [("HVOL", 1); ("HGRAD", 4)]%nat%string = None.
Proof. split; reflexivity. Qed.
Print Assumptions C183_partial.
Print Assumptions C183_refuted.
