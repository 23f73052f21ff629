(** Property C18: database compression is accurate and complete. *)
From Coq Require Import List Arith Bool Lia Reals Lra.
From Verif Require Import Database_Model Database_Proofs.
Import ListNotations.
Local Open Scope R_scope.

(* ------------------------------------------------------------------ *)
(** ** Specification of "matches within the tolerance" *)

Definition sub (v w : list R) : list R := map (fun p => fst p - snd p) (combine v w).
Definition norm (v : list R) : R := sqrt (fold_right (fun x s => x * x + s) 0 v).
Definition norm1 (v : list R) : R := fold_right (fun x s => Rabs x + s) 0 v.

(** Element [e] (with orientation text) is represented by [r] up to a relative
    tolerance: same orientation, measure, and Jacobian at each point. *)
Definition close_vol {S} (tol : R) (e r : S * element) : Prop :=
  fst e = fst r
  /\ Rabs (measure (snd e) - measure (snd r)) < tol * Rabs (measure (snd r))
  /\ forall p je jr, nth_error (jac (snd e)) p = Some je -> nth_error (jac (snd r)) p = Some jr ->
       norm (sub je jr) <= tol * norm je.

Definition close_bnd {S} (tol : R) (e r : S * element) : Prop :=
  fst e = fst r /\ side_id (snd e) = side_id (snd r) /\ side_num (snd e) = side_num (snd r)
  /\ Rabs (measure (snd e) - measure (snd r)) < tol * Rabs (measure (snd r))
  /\ norm1 (sub (concat (jac (snd e))) (concat (jac (snd r))))
       < tol * norm1 (concat (jac (snd r))).

(* ------------------------------------------------------------------ *)
(** ** Tests against the specification *)

Lemma Rltb_iff x y : Rltb x y = true <-> x < y.
Proof. unfold Rltb. destruct (Rlt_dec x y); split; auto; discriminate. Qed.
Lemma Rltb_false x y : Rltb x y = false <-> y <= x.
Proof. unfold Rltb. destruct (Rlt_dec x y); split; intros; auto; try discriminate; lra. Qed.
Lemma Reqb_iff x y : Reqb x y = true <-> x = y.
Proof. unfold Reqb. destruct (Req_EM_T x y); split; auto; discriminate. Qed.

Lemma rel_lt_iff a b tol : 0 < tol -> rel_lt a b tol = true <-> b <> 0 /\ Rabs a < tol * Rabs b.
Proof.
  intros Ht. unfold rel_lt. destruct (Reqb b 0) eqn:Eb.
  - apply Reqb_iff in Eb. split; [discriminate|]. intros [H _]; contradiction.
  - assert (Hb : b <> 0) by (intros ->; rewrite (proj2 (Reqb_iff 0 0) eq_refl) in Eb; discriminate).
    rewrite Rltb_iff. pose proof (Rabs_pos_lt b Hb) as P.
    unfold Rdiv. rewrite Rabs_mult, Rabs_inv.
    split; intros H.
    + split; auto. apply (Rmult_lt_compat_r _ _ _ P) in H. rewrite Rmult_assoc, Rinv_l, Rmult_1_r in H; lra.
    + destruct H as [_ H]. apply (Rmult_lt_reg_r (Rabs b)); auto. rewrite Rmult_assoc, Rinv_l, Rmult_1_r; lra.
Qed.

Lemma rel_lt_iff' a b tol : 0 < tol -> rel_lt (Rabs a) b tol = true <-> Rabs a < tol * Rabs b.
Proof.
  intros Ht. rewrite rel_lt_iff, Rabs_Rabsolu by auto. split; [tauto|]. intros H. split; auto.
  intros ->. rewrite Rabs_R0, Rmult_0_r in H. pose proof (Rabs_pos a). lra.
Qed.

Lemma fro_diff2_sub a : forall b, fro_diff2 a b = fold_right (fun x s => x * x + s) 0 (sub a b).
Proof. induction a as [|x a IH]; intros [|y b]; cbn; auto. rewrite IH. reflexivity. Qed.
Lemma fro2_fold a : fro2 a = fold_right (fun x s => x * x + s) 0 a.
Proof. induction a; cbn; congruence. Qed.
Lemma abs_diff_sub a : forall b, abs_diff a b = norm1 (sub a b).
Proof. induction a as [|x a IH]; intros [|y b]; cbn; auto. rewrite IH. reflexivity. Qed.
Lemma abs_sum_norm1 a : abs_sum a = norm1 a.
Proof. unfold norm1. induction a; cbn; congruence. Qed.

Lemma norm_nonneg v : 0 <= norm v.
Proof. apply sqrt_pos. Qed.

Lemma ratio_gt_iff a b tol : 0 <= a -> 0 <= b -> ratio_gt a b tol = false <-> a <= tol * b.
Proof.
  intros Ha Hb. unfold ratio_gt. destruct (Reqb b 0) eqn:Eb.
  - apply Reqb_iff in Eb. subst. rewrite Rltb_false, Rmult_0_r. reflexivity.
  - assert (P : 0 < b).
    { destruct (Req_EM_T b 0) as [->|N]; [|lra]. rewrite (proj2 (Reqb_iff 0 0) eq_refl) in Eb; discriminate. }
    rewrite Rltb_false. unfold Rdiv. split; intros H.
    + apply (Rmult_le_compat_r b) in H; [|lra]. rewrite Rmult_assoc, Rinv_l, Rmult_1_r in H; lra.
    + apply (Rmult_le_reg_r b); auto. rewrite Rmult_assoc, Rinv_l, Rmult_1_r; lra.
Qed.

Lemma ruled_out_false tol je : forall jr, ruled_out tol je jr = false <->
  forall p a b, nth_error je p = Some a -> nth_error jr p = Some b -> norm (sub a b) <= tol * norm a.
Proof.
  induction je as [|x je IH]; intros [|y jr]; cbn [ruled_out].
  - split; auto. intros _ [|p]; discriminate.
  - split; auto. intros _ [|p]; discriminate.
  - split; auto. intros _ [|p] ? ? _; discriminate.
  - assert (K : ratio_gt (sqrt (fro_diff2 x y)) (sqrt (fro2 x)) tol = false <-> norm (sub x y) <= tol * norm x).
    { rewrite ratio_gt_iff by apply sqrt_pos. rewrite (fro_diff2_sub x y), (fro2_fold x). reflexivity. }
    destruct (ratio_gt _ _ _) eqn:G.
    + split; [discriminate|]. intros H. apply K. apply (H 0%nat); reflexivity.
    + rewrite IH. split; intros H.
      * intros [|p] a b Ha Hb; cbn in Ha, Hb; [|eapply H; eauto]. injection Ha as <-. injection Hb as <-. tauto.
      * intros p a b Ha Hb. apply (H (S p)); auto.
Qed.

Lemma vol_matches_iff tol e r : 0 < tol ->
  vol_matches tol e r = true <-> close_vol tol (orient e, e) (orient r, r).
Proof.
  intros Ht. unfold vol_matches, close_vol. cbn [fst snd].
  rewrite !andb_true_iff, Nat.eqb_eq, negb_true_iff, rel_lt_iff', ruled_out_false by auto. tauto.
Qed.

Lemma norm1_nonneg v : 0 <= norm1 v.
Proof. unfold norm1. induction v; cbn; [lra|]. pose proof (Rabs_pos a). lra. Qed.

Lemma bnd_matches_iff tol e r : 0 < tol ->
  bnd_matches tol e r = true <-> close_bnd tol (orient e, e) (orient r, r).
Proof.
  intros Ht. unfold bnd_matches, close_bnd. cbn [fst snd].
  rewrite !andb_true_iff, !Nat.eqb_eq, rel_lt_iff' by auto.
  rewrite (abs_diff_sub (concat (jac e)) (concat (jac r))), (abs_sum_norm1 (concat (jac r))).
  rewrite <- (Rabs_pos_eq (norm1 (sub _ _))) at 1 by apply norm1_nonneg.
  rewrite rel_lt_iff', (Rabs_pos_eq (norm1 (concat _))), (Rabs_pos_eq (norm1 _)) by (auto; apply norm1_nonneg).
  tauto.
Qed.

(* ------------------------------------------------------------------ *)
(** ** Interning *)
Section InternFacts.
  Context {S : Type} (eqb : S -> S -> bool) (Heqb : forall a b, eqb a b = true <-> a = b).

  Lemma lookup_some s u : forall p i, lookup eqb s u p = Some i -> (p <= i)%nat /\ nth_error u (i - p) = Some s.
  Proof.
    induction u as [|x u IH]; intros p i H; cbn in H; [discriminate|].
    destruct (eqb s x) eqn:Ex.
    - injection H as <-. rewrite Nat.sub_diag. apply Heqb in Ex. subst. split; [lia|reflexivity].
    - apply IH in H. destruct H as [L N]. split; [lia|]. replace (i - p)%nat with (Datatypes.S (i - Datatypes.S p)) by lia. exact N.
  Qed.
  Lemma lookup_none s u : forall p, lookup eqb s u p = None -> ~ In s u.
  Proof.
    induction u as [|x u IH]; intros p H Hin; [destruct Hin|]. cbn in H.
    destruct (eqb s x) eqn:Ex; [discriminate|]. destruct Hin as [->|Hin].
    - rewrite (proj2 (Heqb s s) eq_refl) in Ex. discriminate.
    - eapply IH; eauto.
  Qed.

  Lemma intern1_spec u s u' i : intern1 eqb u s = (u', i) -> NoDup u ->
    NoDup u' /\ (exists t, u' = u ++ t) /\ nth_error u' i = Some s.
  Proof.
    unfold intern1. destruct (lookup eqb s u 0) as [j|] eqn:L; intros H HN; injection H as <- <-.
    - apply lookup_some in L. rewrite Nat.sub_0_r in L. split; auto. split; [exists []; rewrite app_nil_r; auto|tauto].
    - split; [|split; [eexists; reflexivity|]].
      + apply NoDup_Add with (a := s) (l := u).
        * rewrite <- (app_nil_r u) at 1. apply Add_app.
        * split; auto. eapply lookup_none; eauto.
      + rewrite nth_error_app2, Nat.sub_diag by lia. reflexivity.
  Qed.

  Definition tagged (u : list S) (x : S * element) (e : element) : Prop :=
    nth_error u (orient e) = Some (fst x) /\ e = set_orient (orient e) (snd x).

  Lemma tagged_mono u t x e : tagged u x e -> tagged (u ++ t) x e.
  Proof. intros [A B]. split; auto. apply nth_error_app_left; auto. Qed.

  Lemma intern_row_spec l : forall u u' es, intern_row eqb u l = (u', es) -> NoDup u ->
    NoDup u' /\ (exists t, u' = u ++ t) /\ Forall2 (tagged u') l es.
  Proof.
    induction l as [|[s e] l IH]; intros u u' es H HN; cbn [intern_row] in H.
    - injection H as <- <-. split; auto. split; [exists []; rewrite app_nil_r; auto|constructor].
    - destruct (intern1 eqb u s) as [u1 i] eqn:I. destruct (intern_row eqb u1 l) as [u2 es'] eqn:R.
      injection H as <- <-. apply intern1_spec in I; auto. destruct I as (N1 & (t1 & T1) & I1).
      apply IH in R; auto. destruct R as (N2 & (t2 & T2) & F).
      split; auto. split; [exists (t1 ++ t2); rewrite T2, T1, app_assoc; auto|].
      constructor; auto. rewrite T2. apply tagged_mono. split; [exact I1|reflexivity].
  Qed.

  Lemma intern_rows_spec g : forall u u' ess, intern_rows eqb u g = (u', ess) -> NoDup u ->
    NoDup u' /\ (exists t, u' = u ++ t) /\ Forall2 (Forall2 (tagged u')) g ess.
  Proof.
    induction g as [|l g IH]; intros u u' ess H HN; cbn [intern_rows] in H.
    - injection H as <- <-. split; auto. split; [exists []; rewrite app_nil_r; auto|constructor].
    - destruct (intern_row eqb u l) as [u1 es] eqn:I. destruct (intern_rows eqb u1 g) as [u2 ess'] eqn:R.
      injection H as <- <-. apply intern_row_spec in I; auto. destruct I as (N1 & (t1 & T1) & I1).
      apply IH in R; auto. destruct R as (N2 & (t2 & T2) & F).
      split; auto. split; [exists (t1 ++ t2); rewrite T2, T1, app_assoc; auto|].
      constructor; auto. rewrite T2. clear - I1. induction I1; constructor; auto. apply tagged_mono; auto.
  Qed.

  Lemma Forall2_nth_l {A B} (P : A -> B -> Prop) l m : Forall2 P l m -> forall i a, nth_error l i = Some a ->
    exists b, nth_error m i = Some b /\ P a b.
  Proof. induction 1; intros [|i] a Ha; cbn in *; try discriminate; eauto. injection Ha as <-; eauto. Qed.
  Lemma Forall2_nth_r {A B} (P : A -> B -> Prop) l m : Forall2 P l m -> forall i b, nth_error m i = Some b ->
    exists a, nth_error l i = Some a /\ P a b.
  Proof. induction 1; intros [|i] a Ha; cbn in *; try discriminate; eauto. injection Ha as <-; eauto. Qed.

  Lemma Forall2_length {A B} (P : A -> B -> Prop) l m : Forall2 P l m -> length l = length m.
  Proof. induction 1; cbn; auto. Qed.

  Lemma rows_at u g ess p x : Forall2 (Forall2 (tagged u)) g ess -> at2 g p = Some x ->
    exists e, at2 ess p = Some e /\ tagged u x e.
  Proof.
    unfold at2. intros F H. destruct (nth_error g (fst p)) as [row|] eqn:Er; [|discriminate].
    destruct (Forall2_nth_l _ _ _ F _ _ Er) as (er & -> & Fr). eapply Forall2_nth_l; eauto.
  Qed.
  Lemma rows_at_r u g ess p e : Forall2 (Forall2 (tagged u)) g ess -> at2 ess p = Some e ->
    exists x, at2 g p = Some x /\ tagged u x e.
  Proof.
    unfold at2. intros F H. destruct (nth_error ess (fst p)) as [row|] eqn:Er; [|discriminate].
    destruct (Forall2_nth_r _ _ _ F _ _ Er) as (er & -> & Fr). eapply Forall2_nth_r; eauto.
  Qed.
  Lemma rows_len u g ess k : Forall2 (Forall2 (tagged u)) g ess ->
    length (nth k ess []) = length (nth k g []).
  Proof.
    intros F. revert k. induction F as [|a b g ess Hab F IH]; intros [|k]; cbn; auto.
    symmetry. eapply Forall2_length; eauto.
  Qed.

  Lemma tagged_orient u x y e r : NoDup u -> tagged u x e -> tagged u y r ->
    (orient e = orient r <-> fst x = fst y).
  Proof.
    intros N [A1 _] [B1 _]. split; intros H; [congruence|].
    rewrite H, <- B1 in A1. eapply NoDup_nth_error; eauto. apply nth_error_Some. congruence.
  Qed.

  Definition same_but_orient (x : S * element) (e : element) : Prop := e = set_orient (orient e) (snd x).

  Lemma close_vol_tagged u tol x y e r : NoDup u -> tagged u x e -> tagged u y r ->
    (close_vol tol (orient e, e) (orient r, r) <-> close_vol tol x y).
  Proof.
    intros N Hx Hy. pose proof (tagged_orient _ _ _ _ _ N Hx Hy) as O.
    destruct Hx as [_ Hx], Hy as [_ Hy].
    unfold close_vol. cbn [fst snd]. rewrite O. rewrite Hx, Hy. cbn. tauto.
  Qed.
  Lemma close_bnd_tagged u tol x y e r : NoDup u -> tagged u x e -> tagged u y r ->
    (close_bnd tol (orient e, e) (orient r, r) <-> close_bnd tol x y).
  Proof.
    intros N Hx Hy. pose proof (tagged_orient _ _ _ _ _ N Hx Hy) as O.
    destruct Hx as [_ Hx], Hy as [_ Hy].
    unfold close_bnd. cbn [fst snd]. rewrite O. rewrite Hx, Hy. cbn. tauto.
  Qed.
End InternFacts.

(* ------------------------------------------------------------------ *)
(** ** The property *)

(** What a correct compression is.  [idx] is the table of indices given to the
    elements, [users] the list of stored representatives (as positions). *)
Record compressed {X} (close : X -> X -> Prop) (groups : list (list X))
    (idx : list (list nat)) (users : list (nat * nat)) : Prop := {
  (* one index per element *)
  c_shape : map (@length nat) idx = map (@length X) groups;
  (* it addresses a stored representative, an element that is close, directly *)
  c_rep : forall p e, at2 groups p = Some e -> exists i q r,
      at2 idx p = Some i /\ nth_error users i = Some q /\ at2 groups q = Some r
      /\ (close e r \/ q = p);
  (* representatives represent themselves *)
  c_self : forall i q, nth_error users i = Some q -> at2 idx q = Some i
}.
(** No representative is close to an earlier one. *)
Definition irredundant {X} (close : X -> X -> Prop) (groups : list (list X))
    (users : list (nat * nat)) (from : nat * nat -> Prop) : Prop :=
  forall i j qi qj ri rj, (i < j)%nat -> nth_error users i = Some qi -> nth_error users j = Some qj ->
    at2 groups qi = Some ri -> at2 groups qj = Some rj -> from qj -> ~ close rj ri.

Section Both.
  Context {S : Type} (eqb : S -> S -> bool) (Heqb : forall a b, eqb a b = true <-> a = b).

  Lemma transfer (matches : element -> element -> bool) (close : S * element -> S * element -> Prop) lim groups idx st :
    (forall u x y e r, NoDup u -> tagged u x e -> tagged u y r -> (matches e r = true <-> close x y)) ->
    identify matches lim 0 (snd (intern_rows eqb [] groups)) ([], []) = (idx, st) ->
    compressed close groups idx (snd st)
    /\ irredundant close groups (snd st) (fun q => lim <= length (nth (fst q) groups []))%nat
    /\ (forall p e i, at2 groups p = Some e -> (length (nth (fst p) groups []) < lim)%nat ->
          at2 idx p = Some i -> nth_error (snd st) i = Some p).
  Proof.
    intros HM H. destruct (intern_rows eqb [] groups) as [u ess] eqn:I. cbn [snd] in H.
    destruct st as [db users]. cbn [snd].
    apply intern_rows_spec in I; [|auto|constructor]. destruct I as (N & _ & F).
    apply identify_spec in H. destruct H as (H1 & H2 & H3 & H4 & H5).
    split; [split|split].
    - rewrite H1. clear - F. induction F; cbn; auto. f_equal; auto. symmetry. eapply Forall2_length; eauto.
    - intros p x Hx. destruct (rows_at _ _ _ _ _ F Hx) as (e & He & Te).
      destruct (H2 p e He) as (i & q & r & A & B & C & _ & D).
      destruct (rows_at_r _ _ _ _ _ F C) as (y & Hy & Ty).
      exists i, q, y. repeat (split; auto). destruct D as [D|D]; auto. left. eapply HM; eauto.
    - exact H3.
    - intros i j qi qj xi xj Hij Hi Hj Gi Gj Hl Hc.
      destruct (rows_at _ _ _ _ _ F Gi) as (ei & Ei & Ti). destruct (rows_at _ _ _ _ _ F Gj) as (ej & Ej & Tj).
      rewrite <- (rows_len _ _ _ _ F) in Hl.
      pose proof (H4 i j qi qj ei ej Hij Hi Hj Ei Ej Hl) as X.
      rewrite (proj2 (HM u xj xi ej ei N Tj Ti) Hc) in X. discriminate.
    - intros p x i Hx Hl Hi. destruct (rows_at _ _ _ _ _ F Hx) as (e & He & Te).
      rewrite <- (rows_len _ _ _ _ F) in Hl. eapply H5; eauto.
  Qed.

  (** C18, boundary database: accurate, complete, and irredundant. *)
  Theorem C18_boundary tol groups idx st : 0 < tol ->
    identify_boundary eqb tol groups = (idx, st) ->
    compressed (close_bnd tol) groups idx (snd st)
    /\ irredundant (close_bnd tol) groups (snd st) (fun _ => True).
  Proof.
    intros Ht H. apply (transfer _ (close_bnd tol)) in H.
    - destruct H as (A & B & _). split; auto. intros i j qi qj ri rj. intros. eapply B; eauto. cbv beta. lia.
    - intros u x y e r N Tx Ty. rewrite bnd_matches_iff by auto. eapply close_bnd_tagged; eauto.
  Qed.

  (** C18, volumetric database: accurate and complete for every input;
      irredundant as far as representatives taken from groups of at least ten
      elements are concerned (partial: see [C18_small_groups_refuted]). *)
  Theorem C18_volume_partial tol groups idx st : 0 < tol ->
    identify_volume eqb tol groups = (idx, st) ->
    compressed (close_vol tol) groups idx (snd st)
    /\ irredundant (close_vol tol) groups (snd st) (fun q => 10 <= length (nth (fst q) groups []))%nat.
  Proof.
    intros Ht H. apply (transfer _ (close_vol tol)) in H.
    - tauto.
    - intros u x y e r N Tx Ty. rewrite vol_matches_iff by auto. eapply close_vol_tagged; eauto.
  Qed.

  (** Elements of groups of fewer than ten elements are always represented by
      themselves (hence without any error). *)
  Theorem C18_small_groups_exact tol groups idx st p e i : 0 < tol ->
    identify_volume eqb tol groups = (idx, st) ->
    at2 groups p = Some e -> (length (nth (fst p) groups []) < 10)%nat ->
    at2 idx p = Some i -> nth_error (snd st) i = Some p.
  Proof.
    intros Ht H. apply (transfer _ (close_vol tol)) in H.
    - destruct H as (_ & _ & A). apply A.
    - intros u x y a r N Tx Ty. rewrite vol_matches_iff by auto. eapply close_vol_tagged; eauto.
  Qed.
End Both.
Print Assumptions C18_boundary.
Print Assumptions C18_volume_partial.
Print Assumptions C18_small_groups_exact.

(** Irredundancy fails for small groups: a group of two equal elements is stored
    twice, whatever the (positive) tolerance. *)
Definition unit_elem : nat * element :=
  (0%nat, {| orient := 0; side_id := 0; side_num := 0; measure := 1; jac := [[1;0;0;1]] |}).

Lemma unit_close tol : 0 < tol -> close_vol tol unit_elem unit_elem.
Proof.
  intros Ht. split; [reflexivity|]. cbn. split.
  - replace (1 - 1) with 0 by lra. rewrite Rabs_R0, Rabs_R1. lra.
  - intros [|[|p]] je jr A B; cbn in A, B; try discriminate. injection A as <-. injection B as <-.
    unfold norm, sub. cbn. replace (_ + _) with 0 by lra. rewrite sqrt_0.
    apply Rmult_le_pos; [lra|apply sqrt_pos].
Qed.

Theorem C18_small_groups_refuted :
  ~ (forall tol groups idx st, 0 < tol -> identify_volume Nat.eqb tol groups = (idx, st) ->
       irredundant (close_vol tol) groups (snd st) (fun _ => True)).
Proof.
  intros H.
  destruct (identify_volume Nat.eqb 1 [[unit_elem; unit_elem]]) as [idx st] eqn:E.
  assert (Hst : snd st = [(0,0);(0,1)]%nat).
  { pose proof (f_equal (fun x => snd (snd x)) E) as K. cbn [snd] in K. rewrite <- K.
    unfold identify_volume. cbn -[vol_matches]. destruct (vol_matches _ _ _); reflexivity. }
  specialize (H 1 _ _ _ Rlt_0_1 E). rewrite Hst in H.
  eapply (H 0%nat 1%nat); try reflexivity; auto. apply unit_close. lra.
Qed.
Print Assumptions C18_small_groups_refuted.

(** A case: two boundary sides equal up to the tolerance share a representative,
    a third one of twice the size does not. *)
Definition side (m : R) : nat * element :=
  (3%nat, {| orient := 0; side_id := 1; side_num := 2; measure := m; jac := [[m]] |}).
Example C18_case :
  fst (identify_boundary Nat.eqb (1/10) [[side 1; side (101/100)]; [side 2; side 1]])
  = [[0;0];[1;0]]%nat.
Proof.
  assert (M : forall e r (b : bool), (if b then close_bnd (1/10) (orient e, e) (orient r, r)
                             else ~ close_bnd (1/10) (orient e, e) (orient r, r)) ->
                bnd_matches (1/10) e r = b).
  { intros e r [|]; rewrite <- bnd_matches_iff by lra; [auto|]. apply not_true_is_false. }
  unfold identify_boundary. cbn -[bnd_matches].
  unfold place. cbn -[bnd_matches].
  rewrite (M _ _ true).
  2:{ unfold close_bnd, norm1, sub; cbn. rewrite !Rabs_pos_eq by lra. repeat split; auto; lra. }
  cbn -[bnd_matches].
  rewrite (M _ _ false).
  2:{ unfold close_bnd, norm1, sub; cbn. rewrite !Rabs_pos_eq by lra. intros (_ & _ & _ & H & _); lra. }
  cbn -[bnd_matches].
  rewrite (M _ _ true).
  2:{ unfold close_bnd, norm1, sub; cbn. rewrite Rminus_eq_0, Rabs_R0, Rabs_R1. repeat split; auto; lra. }
  reflexivity.
Qed.
