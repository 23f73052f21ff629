(** The round-by-round decomposition and the recursive one agree. *)
From Coq Require Import Ascii String Bool Arith Lia List.
From Verif Require Import Outcome Interp_Model Flat_Model.
Import ListNotations.

(** [Rep bs k t]: branch [k] of [bs], with everything below it, is the tree [t]. *)
Inductive Rep (bs : list branch) : nat -> tree -> Prop :=
| Rep_leaf : forall k b l, nth_error bs k = Some b -> b_done b = true ->
    b_leaf b = Some l -> Rep bs k (Leaf l)
| Rep_node : forall k b ts, nth_error bs k = Some b -> b_done b = true ->
    b_leaf b = None -> RepL bs (b_deps b) ts -> Rep bs k (Node ts)
with RepL (bs : list branch) : list (str * nat) -> list (str * tree) -> Prop :=
| RepL_nil : RepL bs [] []
| RepL_cons : forall op i t ds ts, Rep bs i t -> RepL bs ds ts ->
    RepL bs ((op, i) :: ds) ((op, t) :: ts).

Section Proofs.
Context (E : env).

(** As [Rep], where a branch not yet visited stands for its recursive decomposition
    with [rk k] rounds left. *)
Inductive Par (rk : nat -> nat) (bs : list branch) : nat -> tree -> Prop :=
| Par_leaf : forall k b l, nth_error bs k = Some b -> b_done b = true ->
    b_leaf b = Some l -> Par rk bs k (Leaf l)
| Par_node : forall k b ts, nth_error bs k = Some b -> b_done b = true ->
    b_leaf b = None -> ParL rk bs (b_deps b) ts -> Par rk bs k (Node ts)
| Par_todo : forall k b t, nth_error bs k = Some b -> b_done b = false ->
    decomp E (rk k) (b_text b) = Ok t -> Par rk bs k t
with ParL (rk : nat -> nat) (bs : list branch) : list (str * nat) -> list (str * tree) -> Prop :=
| ParL_nil : ParL rk bs [] []
| ParL_cons : forall op i t ds ts, Par rk bs i t -> ParL rk bs ds ts ->
    ParL rk bs ((op, i) :: ds) ((op, t) :: ts).

Scheme Par_mind := Minimality for Par Sort Prop
  with ParL_mind := Minimality for ParL Sort Prop.
Combined Scheme Par_ind2 from Par_mind, ParL_mind.

Lemma decomp_S n s :
  decomp E (S n) s =
  match decomp_step E s with
  | Ok (SLeaf l) => Ok (Leaf l)
  | Ok (SDeps d) =>
      match map_outcome
              (fun x => match decomp E n (snd x) with
                        | Ok t => Ok (fst x, t) | Exn => Exn | UB => UB end) d with
      | Ok ts => Ok (Node ts) | Exn => Exn | UB => UB end
  | Exn => Exn
  | UB => UB
  end.
Proof. reflexivity. Qed.

Lemma nth_set_same {A} (l : list A) k x : k < length l -> nth_error (set_nth l k x) k = Some x.
Proof. revert k; induction l as [|y l IH]; intros [|k] H; cbn in *; try lia; auto. apply IH; lia. Qed.

Lemma nth_set_other {A} (l : list A) k j x : j <> k -> nth_error (set_nth l k x) j = nth_error l j.
Proof. revert k j; induction l as [|y l IH]; intros [|k] [|j] H; cbn in *; auto; try lia. Qed.

Lemma len_set {A} (l : list A) k x : length (set_nth l k x) = length l.
Proof. revert k; induction l as [|y l IH]; intros [|k]; cbn; auto. Qed.

Lemma number_len d i : length (number d i) = length d.
Proof. revert i; induction d; intros i; cbn; auto. Qed.

(** Sub-decompositions of a branch being visited. *)
Definition sub n (d : list dep) :=
  map_outcome (fun x => match decomp E n (snd x) with
                        | Ok t => Ok (fst x, t) | Exn => Exn | UB => UB end) d.

Lemma sub_cons n x d ts :
  sub n (x :: d) = Ok ts ->
  exists t ts', decomp E n (snd x) = Ok t /\ sub n d = Ok ts' /\ ts = (fst x, t) :: ts'.
Proof.
  unfold sub; cbn [map_outcome]. intros H.
  destruct (decomp E n (snd x)) as [t| |]; try discriminate.
  match type of H with context [map_outcome ?f d] => destruct (map_outcome f d) as [ts'| |] end;
    try discriminate.
  injection H as <-. eauto.
Qed.

Section Visit.
Variables (bs bs' : list branch) (k : nat) (b : branch) (rk : nat -> nat).
Hypothesis Hb : nth_error bs k = Some b.
Hypothesis Hnd : b_done b = false.
Variable m : nat.
Hypothesis Hk : rk k = S m.
Hypothesis Hnew : forall i, length bs <= i -> rk i = m.
(** dependencies point to existing branches *)
Hypothesis Hrange : forall i c, nth_error bs i = Some c ->
  forall op j, In (op, j) (b_deps c) -> j < length bs.

Lemma k_lt : k < length bs.
Proof. apply nth_error_Some. congruence. Qed.

(* Case 1: the branch became a leaf. *)
Section LeafCase.
Variable l : leaf.
Hypothesis Hs : decomp_step E (b_text b) = Ok (SLeaf l).
Let nb := {| b_text := b_text b; b_done := true; b_leaf := Some l; b_deps := [] |}.

Lemma leaf_fwd : (forall j t, Par rk bs j t -> Par rk (set_nth bs k nb) j t) /\
  (forall ds ts, ParL rk bs ds ts -> ParL rk (set_nth bs k nb) ds ts).
Proof.
  apply Par_ind2.
  - intros j c l0 Hj Hd Hl. destruct (Nat.eq_dec j k) as [->|N].
    + congruence.
    + eapply Par_leaf; eauto. rewrite nth_set_other; auto.
  - intros j c ts Hj Hd Hl _ IH. destruct (Nat.eq_dec j k) as [->|N]; [congruence|].
    eapply Par_node; eauto. rewrite nth_set_other; auto.
  - intros j c t Hj Hd Ht. destruct (Nat.eq_dec j k) as [->|N].
    + assert (c = b) by congruence; subst c.
      rewrite Hk, decomp_S, Hs in Ht. injection Ht as <-.
      eapply Par_leaf; [apply nth_set_same, k_lt|reflexivity|reflexivity].
    + eapply Par_todo; eauto. rewrite nth_set_other; auto.
  - constructor.
  - intros; constructor; auto.
Qed.

Lemma leaf_bwd : (forall j t, Par rk (set_nth bs k nb) j t -> Par rk bs j t) /\
  (forall ds ts, ParL rk (set_nth bs k nb) ds ts -> ParL rk bs ds ts).
Proof.
  assert (P : Par rk bs k (Leaf l)).
  { eapply Par_todo; eauto. rewrite Hk, decomp_S, Hs. reflexivity. }
  assert (Q : nth_error (set_nth bs k nb) k = Some nb) by (apply nth_set_same, k_lt).
  apply Par_ind2.
  - intros j c l0 Hj Hd Hl. destruct (Nat.eq_dec j k) as [->|N].
    + rewrite Q in Hj. injection Hj as <-. cbn in Hl. injection Hl as <-. auto.
    + rewrite nth_set_other in Hj by auto. eapply Par_leaf; eauto.
  - intros j c ts Hj Hd Hl _ IH. destruct (Nat.eq_dec j k) as [->|N].
    + rewrite Q in Hj. injection Hj as <-. discriminate.
    + rewrite nth_set_other in Hj by auto. eapply Par_node; eauto.
  - intros j c t Hj Hd Ht. destruct (Nat.eq_dec j k) as [->|N].
    + rewrite Q in Hj. injection Hj as <-. discriminate.
    + rewrite nth_set_other in Hj by auto. eapply Par_todo; eauto.
  - constructor.
  - intros; constructor; auto.
Qed.
End LeafCase.

(* Case 2: the branch was split. *)
Section DepsCase.
Variable d : list dep.
Hypothesis Hs : decomp_step E (b_text b) = Ok (SDeps d).
Let nb := {| b_text := b_text b; b_done := true; b_leaf := None;
             b_deps := number d (length bs) |}.
Let bs2 := set_nth bs k nb ++ map (fun x => new_branch (snd x)) d.

Lemma bs2_old j : j < length bs -> j <> k -> nth_error bs2 j = nth_error bs j.
Proof.
  intros H N. unfold bs2. rewrite nth_error_app1 by (rewrite len_set; auto).
  apply nth_set_other; auto.
Qed.
Lemma bs2_k : nth_error bs2 k = Some nb.
Proof.
  unfold bs2. rewrite nth_error_app1 by (rewrite len_set; apply k_lt).
  apply nth_set_same, k_lt.
Qed.
Lemma bs2_new i x : nth_error d i = Some x ->
  nth_error bs2 (length bs + i) = Some (new_branch (snd x)).
Proof.
  intros H. unfold bs2. rewrite nth_error_app2; rewrite len_set; [|lia].
  replace (length bs + i - length bs) with i by lia.
  apply (map_nth_error (fun x : dep => new_branch (snd x))). exact H.
Qed.

Definition suffix (p : nat) (d' : list dep) : Prop :=
  forall i x, nth_error d' i = Some x -> nth_error d (p + i) = Some x.

Lemma suffix_cons p x d' : suffix p (x :: d') -> nth_error d p = Some x /\ suffix (S p) d'.
Proof.
  intros H. split.
  - specialize (H 0 x eq_refl). rewrite Nat.add_0_r in H. exact H.
  - intros i y Hy. specialize (H (S i) y Hy). rewrite <- H. f_equal. lia.
Qed.

Lemma new_fwd d' p ts : suffix p d' -> sub m d' = Ok ts ->
  ParL rk bs2 (number d' (length bs + p)) ts.
Proof.
  revert p ts; induction d' as [|x d' IH]; intros p ts Hd H.
  - cbn in H. injection H as <-. constructor.
  - apply sub_cons in H as (t & ts' & Ht & H & ->). cbn [number].
    apply suffix_cons in Hd as [Hx Hd]. constructor.
    + eapply Par_todo; [apply bs2_new, Hx| reflexivity|].
      rewrite Hnew by lia. exact Ht.
    + specialize (IH (S p) ts' Hd H).
      replace (length bs + S p) with (S (length bs + p)) in IH by lia. exact IH.
Qed.

Lemma new_bwd d' p ts : suffix p d' ->
  ParL rk bs2 (number d' (length bs + p)) ts -> sub m d' = Ok ts.
Proof.
  revert p ts; induction d' as [|x d' IH]; intros p ts Hd H.
  - cbn in H. inversion H; subst. reflexivity.
  - apply suffix_cons in Hd as [Hx Hd]. apply bs2_new in Hx.
    cbn [number] in H. inversion H as [|op i t ds ts' Pi Pl E1 E2]; subst.
    inversion Pi as [? c l Hc Hdn|? c ts2 Hc Hdn|? c t2 Hc Hdn Ht]; subst;
      rewrite Hx in Hc; injection Hc as <-; try discriminate.
    rewrite Hnew in Ht by lia. cbn in Ht.
    specialize (IH (S p) ts' Hd).
    replace (length bs + S p) with (S (length bs + p)) in IH by lia.
    unfold sub in *. cbn [map_outcome]. rewrite Ht, IH; auto.
Qed.

Lemma deps_fwd : (forall j t, Par rk bs j t -> Par rk bs2 j t) /\
  (forall ds ts, ParL rk bs ds ts -> ParL rk bs2 ds ts).
Proof.
  apply Par_ind2.
  - intros j c l0 Hj Hd Hl. destruct (Nat.eq_dec j k) as [->|N]; [congruence|].
    eapply Par_leaf; eauto. rewrite bs2_old; auto. apply nth_error_Some. congruence.
  - intros j c ts Hj Hd Hl _ IH. destruct (Nat.eq_dec j k) as [->|N]; [congruence|].
    eapply Par_node; eauto. rewrite bs2_old; auto. apply nth_error_Some. congruence.
  - intros j c t Hj Hd Ht. destruct (Nat.eq_dec j k) as [->|N].
    + assert (c = b) by congruence; subst c.
      rewrite Hk, decomp_S, Hs in Ht.
      change (match sub m d with Ok ts => Ok (Node ts) | Exn => Exn | UB => UB end = Ok t) in Ht.
      destruct (sub m d) as [ts| |] eqn:Es; try discriminate. injection Ht as <-.
      eapply Par_node; [apply bs2_k|reflexivity|reflexivity|]. cbn [b_deps nb].
      pose proof (new_fwd d 0 ts (fun i x H => H) Es) as P.
      rewrite Nat.add_0_r in P. exact P.
    + eapply Par_todo; eauto. rewrite bs2_old; auto. apply nth_error_Some. congruence.
  - constructor.
  - intros; constructor; auto.
Qed.

Lemma deps_bwd : (forall j t, Par rk bs2 j t -> j < length bs -> Par rk bs j t) /\
  (forall ds ts, ParL rk bs2 ds ts -> (forall op j, In (op, j) ds -> j < length bs) ->
     ParL rk bs ds ts).
Proof.
  apply Par_ind2.
  - intros j c l0 Hj Hd Hl Lt. destruct (Nat.eq_dec j k) as [->|N].
    + rewrite bs2_k in Hj. injection Hj as <-. discriminate.
    + rewrite bs2_old in Hj by auto. eapply Par_leaf; eauto.
  - intros j c ts Hj Hd Hl Pl IH Lt. destruct (Nat.eq_dec j k) as [->|N].
    + rewrite bs2_k in Hj. injection Hj as <-. cbn [b_deps nb] in Pl.
      eapply Par_todo; eauto. rewrite Hk, decomp_S, Hs.
      change (match sub m d with Ok ts => Ok (Node ts) | Exn => Exn | UB => UB end = Ok (Node ts)).
      rewrite (new_bwd d 0 ts (fun i x H => H)); auto. rewrite Nat.add_0_r. exact Pl.
    + rewrite bs2_old in Hj by auto. eapply Par_node; eauto.
  - intros j c t Hj Hd Ht Lt. destruct (Nat.eq_dec j k) as [->|N].
    + rewrite bs2_k in Hj. injection Hj as <-. discriminate.
    + rewrite bs2_old in Hj by auto. eapply Par_todo; eauto.
  - constructor.
  - intros op i t ds ts _ IH1 _ IH2 Hr. constructor.
    + apply IH1. eapply Hr. left; reflexivity.
    + apply IH2. intros; eapply Hr. right; eauto.
Qed.
End DepsCase.
End Visit.

(** Structural invariant of the branch vector: dependencies point forward and to
    existing branches; unvisited branches have none. *)
Definition Wf (bs : list branch) : Prop :=
  forall i c, nth_error bs i = Some c ->
    (b_done c = false -> b_deps c = [] /\ b_leaf c = None) /\
    (forall op j, In (op, j) (b_deps c) -> i < j < length bs).

(** Every branch stands for some tree. *)
Definition Good rk (bs : list branch) : Prop :=
  forall i, i < length bs -> exists t, Par rk bs i t.

Lemma number_in d i op j : In (op, j) (number d i) -> i <= j < i + length d.
Proof.
  revert i; induction d as [|x d IH]; intros i H; [destruct H|].
  cbn in *. destruct H as [H|H]; [injection H as _ <-; lia|].
  apply IH in H. lia.
Qed.

Lemma visit_spec bs k m rk bs' :
  Wf bs -> k < length bs ->
  (forall c, nth_error bs k = Some c -> b_done c = false -> rk k = S m) ->
  (forall i, length bs <= i -> rk i = m) ->
  visit E bs k = Ok bs' ->
  Wf bs' /\ length bs <= length bs' /\
  (forall j t, j < length bs -> (Par rk bs j t <-> Par rk bs' j t)) /\
  (Good rk bs -> Good rk bs') /\
  (exists c, nth_error bs' k = Some c /\ b_done c = true) /\
  (forall j c, j < length bs -> j <> k -> nth_error bs j = Some c -> nth_error bs' j = Some c).
Proof.
  intros W Lt Hk Hnew H. unfold visit in H.
  destruct (nth_error bs k) as [b|] eqn:Hb; [|discriminate].
  assert (Hrange : forall i c, nth_error bs i = Some c ->
            forall op j, In (op, j) (b_deps c) -> j < length bs).
  { intros i c Hc op j Hin. destruct (W i c Hc) as [_ Q]. apply Q in Hin. lia. }
  destruct (b_done b) eqn:Hd.
  { injection H as <-. split; [exact W|split; [lia|split; [tauto|split; [auto|split; eauto]]]]. }
  specialize (Hk b eq_refl Hd).
  destruct (decomp_step E (b_text b)) as [[l|d]| |] eqn:Hs; try discriminate.
  - injection H as <-.
    set (nb := {| b_text := b_text b; b_done := true; b_leaf := Some l; b_deps := [] |}).
    pose proof (leaf_fwd bs k b rk Hb Hd m Hk l Hs) as [F _].
    pose proof (leaf_bwd bs k b rk Hb Hd m Hk l Hs) as [B _].
    fold nb in F, B.
    assert (Q : nth_error (set_nth bs k nb) k = Some nb) by (apply nth_set_same; auto).
    split; [|split; [rewrite len_set; auto|split; [|split; [|split]]]].
    + intros i c Hc. rewrite len_set. destruct (Nat.eq_dec i k) as [->|N].
      * rewrite Q in Hc. injection Hc as <-. split; [discriminate|intros ? ? []].
      * rewrite nth_set_other in Hc by auto. apply (W i c Hc).
    + intros j t _. split; auto.
    + intros G i Hi. rewrite len_set in Hi. destruct (G i Hi) as [t Ht]. eauto.
    + eauto.
    + intros j c _ N Hc. rewrite nth_set_other; auto.
  - injection H as <-.
    set (nb := {| b_text := b_text b; b_done := true; b_leaf := None;
                  b_deps := number d (length bs) |}).
    set (bs2 := set_nth bs k nb ++ map (fun x => new_branch (snd x)) d).
    pose proof (deps_fwd bs k b rk Hb Hd m Hk Hnew d Hs) as [F _].
    pose proof (deps_bwd bs k b rk Hb Hd m Hk Hnew Hrange d Hs) as [B _].
    fold nb bs2 in F, B.
    assert (L2 : length bs2 = length bs + length d).
    { unfold bs2. rewrite app_length, len_set, map_length. reflexivity. }
    assert (Q : nth_error bs2 k = Some nb) by (apply (bs2_k bs k b Hb d)).
    assert (O : forall j, j < length bs -> j <> k -> nth_error bs2 j = nth_error bs j)
      by (intros; apply (bs2_old bs k b d); auto).
    assert (NW : forall i, length bs <= i -> i < length bs2 ->
              exists x, nth_error d (i - length bs) = Some x /\
                        nth_error bs2 i = Some (new_branch (snd x))).
    { intros i Hi1 Hi2. rewrite L2 in Hi2.
      destruct (nth_error d (i - length bs)) as [x|] eqn:Ex.
      - exists x; split; auto. assert (P : nth_error bs2 (length bs + (i - length bs)) = Some (new_branch (snd x)))
          by (eapply bs2_new; eauto).
        replace (length bs + (i - length bs)) with i in P by lia. exact P.
      - apply nth_error_None in Ex. lia. }
    split; [|split; [lia|split; [|split; [|split]]]].
    + intros i c Hc. assert (Hi : i < length bs2) by (apply nth_error_Some; congruence).
      destruct (Nat.lt_ge_cases i (length bs)) as [Hlt|Hge].
      * destruct (Nat.eq_dec i k) as [->|N].
        -- rewrite Q in Hc. injection Hc as <-. split; [discriminate|].
           intros op j Hin. apply number_in in Hin. lia.
        -- rewrite O in Hc by auto. destruct (W i c Hc) as [W1 W2]. split; auto.
           intros op j Hin. apply W2 in Hin. lia.
      * destruct (NW i Hge Hi) as (x & _ & Hx). rewrite Hx in Hc. injection Hc as <-.
        split; auto. intros ? ? [].
    + intros j t Hj. split; auto.
    + intros G i Hi. destruct (Nat.lt_ge_cases i (length bs)) as [Hlt|Hge].
      * destruct (G i Hlt) as [t Ht]. eauto.
      * destruct (NW i Hge Hi) as (x & Ex & Hx).
        destruct (G k Lt) as [t Ht].
        inversion Ht as [? c l0 Hc Hdn|? c ts2 Hc Hdn|? c t2 Hc Hdn Htd]; subst;
          rewrite Hb in Hc; injection Hc as <-; try congruence.
        rewrite Hk, decomp_S, Hs in Htd.
        change (match sub m d with Ok ts => Ok (Node ts) | Exn => Exn | UB => UB end = Ok t) in Htd.
        destruct (sub m d) as [ts| |] eqn:Es; try discriminate.
        assert (exists t, decomp E m (snd x) = Ok t) as [u Hu].
        { clear - Es Ex. revert ts Es. generalize dependent (i - length bs).
          induction d as [|y d IH]; intros [|n] Ex ts Es; try discriminate.
          - cbn in Ex. injection Ex as ->. apply sub_cons in Es as (t & ? & Ht & _). eauto.
          - cbn in Ex. apply sub_cons in Es as (t & ts' & _ & Es & _). eauto. }
        exists u. eapply Par_todo; [exact Hx|reflexivity|]. rewrite Hnew by auto. exact Hu.
    + eauto.
    + intros j c Hj N Hc. rewrite O; auto.
Qed.

(** A visit cannot fail when every branch stands for a tree. *)
Lemma visit_ok bs k m rk :
  Good rk bs -> k < length bs ->
  (forall c, nth_error bs k = Some c -> b_done c = false -> rk k = S m) ->
  exists bs', visit E bs k = Ok bs'.
Proof.
  intros G Lt Hk. unfold visit. destruct (G k Lt) as [t Ht].
  inversion Ht as [? c l0 Hc Hdn|? c ts2 Hc Hdn|? c t2 Hc Hdn Htd]; subst;
    rewrite Hc, Hdn; eauto.
  rewrite (Hk c Hc Hdn), decomp_S in Htd.
  destruct (decomp_step E (b_text c)) as [[l|d]| |]; try discriminate; eauto.
Qed.

Definition rkf (N m i : nat) : nat := if i <? N then S m else m.

Lemma visit_all_spec m N ks : forall bs bs' a,
  ks = seq a (N - a) -> a <= N ->
  Wf bs -> N <= length bs ->
  (forall j c, j < a -> nth_error bs j = Some c -> b_done c = true) ->
  visit_all E bs ks = Ok bs' ->
  Wf bs' /\ length bs <= length bs' /\
  (forall j t, j < length bs -> (Par (rkf N m) bs j t <-> Par (rkf N m) bs' j t)) /\
  (Good (rkf N m) bs -> Good (rkf N m) bs') /\
  (forall j c, j < N -> nth_error bs' j = Some c -> b_done c = true).
Proof.
  induction ks as [|k ks IH]; intros bs bs' a Ek Ha W HN Hdone H.
  - cbn in H. injection H as <-.
    assert (a = N) by (destruct (N - a) eqn:Q; [lia|discriminate]). subst.
    split; [exact W|split; [lia|split; [tauto|split; eauto]]].
  - destruct (N - a) as [|n] eqn:Q; [discriminate|]. cbn [seq] in Ek.
    injection Ek as -> Ek. cbn [visit_all] in H.
    destruct (visit E bs a) as [bs1| |] eqn:V; try discriminate.
    assert (La : a < length bs) by lia.
    destruct (visit_spec bs a m (rkf N m) bs1 W La) as (W1 & L1 & P1 & G1 & (c1 & D1 & D1') & K1); auto.
    { intros c _ _. unfold rkf. replace (a <? N) with true; auto.
      symmetry; apply Nat.ltb_lt; lia. }
    { intros i Hi. unfold rkf. replace (i <? N) with false; auto.
      symmetry; apply Nat.ltb_ge; lia. }
    destruct (IH bs1 bs' (S a)) as (W2 & L2 & P2 & G2 & D2); auto; try lia.
    { rewrite Ek. f_equal. lia. }
    { intros j c Hj Hc. destruct (Nat.eq_dec j a) as [->|Nj]; [congruence|].
      destruct (nth_error bs j) as [c'|] eqn:Ej.
      - pose proof (K1 j c' ltac:(lia) Nj Ej) as R. rewrite R in Hc. injection Hc as <-.
        apply (Hdone j c'); auto; lia.
      - apply nth_error_None in Ej. lia. }
    split; [auto|split; [lia|split; [|split; auto]]].
    intros j t Hj. rewrite P1 by auto. apply P2. lia.
Qed.

Lemma visit_all_ok m N ks : forall bs a,
  ks = seq a (N - a) -> a <= N ->
  Wf bs -> N <= length bs ->
  (forall j c, j < a -> nth_error bs j = Some c -> b_done c = true) ->
  Good (rkf N m) bs -> exists bs', visit_all E bs ks = Ok bs'.
Proof.
  induction ks as [|k ks IH]; intros bs a Ek Ha W HN Hdone G; [cbn; eauto|].
  destruct (N - a) as [|n] eqn:Q; [discriminate|]. cbn [seq] in Ek.
  injection Ek as -> Ek. cbn [visit_all].
  assert (La : a < length bs) by lia.
  assert (Ra : forall c, nth_error bs a = Some c -> b_done c = false -> rkf N m a = S m).
  { intros c _ _. unfold rkf. replace (a <? N) with true; auto.
    symmetry; apply Nat.ltb_lt; lia. }
  destruct (visit_ok bs a m (rkf N m) G La Ra) as [bs1 V]. rewrite V.
  destruct (visit_spec bs a m (rkf N m) bs1 W La) as (W1 & L1 & P1 & G1 & (c1 & D1 & D1') & K1); auto.
  { intros i Hi. unfold rkf. replace (i <? N) with false; auto.
    symmetry; apply Nat.ltb_ge; lia. }
  apply (IH bs1 (S a)); auto; try lia.
  { rewrite Ek. f_equal. lia. }
  { intros j c Hj Hc. destruct (Nat.eq_dec j a) as [->|Nj]; [congruence|].
    destruct (nth_error bs j) as [c'|] eqn:Ej.
    - pose proof (K1 j c' ltac:(lia) Nj Ej) as R. rewrite R in Hc. injection Hc as <-.
      apply (Hdone j c'); auto; lia.
    - apply nth_error_None in Ej. lia. }
Qed.

(** [Par] only looks at the rounds of unvisited branches. *)
Lemma Par_rk rk rk' bs :
  (forall i c, nth_error bs i = Some c -> b_done c = false -> rk i = rk' i) ->
  (forall j t, Par rk bs j t -> Par rk' bs j t) /\
  (forall ds ts, ParL rk bs ds ts -> ParL rk' bs ds ts).
Proof.
  intros H. apply Par_ind2.
  - intros; eapply Par_leaf; eauto.
  - intros; eapply Par_node; eauto.
  - intros; eapply Par_todo; eauto. erewrite <- H; eauto.
  - constructor.
  - intros; constructor; auto.
Qed.

Lemma Par_done rk bs : forallb b_done bs = true ->
  (forall j t, Par rk bs j t -> Rep bs j t) /\
  (forall ds ts, ParL rk bs ds ts -> RepL bs ds ts).
Proof.
  intros H. rewrite forallb_forall in H. apply Par_ind2.
  - intros; eapply Rep_leaf; eauto.
  - intros; eapply Rep_node; eauto.
  - intros k b t Hb Hd _. apply nth_error_In in Hb. apply H in Hb. congruence.
  - constructor.
  - intros; constructor; auto.
Qed.

Scheme Rep_mind := Minimality for Rep Sort Prop
  with RepL_mind := Minimality for RepL Sort Prop.
Combined Scheme Rep_ind2 from Rep_mind, RepL_mind.

Lemma Rep_Par rk bs :
  (forall j t, Rep bs j t -> Par rk bs j t) /\
  (forall ds ts, RepL bs ds ts -> ParL rk bs ds ts).
Proof.
  apply Rep_ind2.
  - intros; eapply Par_leaf; eauto.
  - intros; eapply Par_node; eauto.
  - constructor.
  - intros; constructor; auto.
Qed.

(** In a finished vector every branch is a tree. *)
Lemma done_rep bs : Wf bs -> forallb b_done bs = true ->
  forall n i, length bs - i <= n -> i < length bs -> exists t, Rep bs i t.
Proof.
  intros W H. rewrite forallb_forall in H.
  induction n as [|n IH]; intros i Hn Hi; [lia|].
  destruct (nth_error bs i) as [c|] eqn:Hc; [|apply nth_error_None in Hc; lia].
  assert (Hd : b_done c = true) by (apply H; eapply nth_error_In; eauto).
  destruct (b_leaf c) as [l|] eqn:Hl; [exists (Leaf l); eapply Rep_leaf; eauto|].
  destruct (W i c Hc) as [_ Hr].
  assert (exists ts, RepL bs (b_deps c) ts) as [ts Hts].
  { clear Hc Hd Hl. induction (b_deps c) as [|[op j] ds IHd].
    - exists []. constructor.
    - destruct (Hr op j) as [Hj1 Hj2]; [left; auto|].
      destruct (IH j) as [t Ht]; [lia|lia|].
      destruct IHd as [ts Hts]; [intros; eapply Hr; right; eauto|].
      exists ((op, t) :: ts). constructor; auto. }
  exists (Node ts). eapply Rep_node; eauto.
Qed.

Definition init_ok (bs : list branch) := Wf bs /\ 0 < length bs.

Lemma rounds_spec n : forall bs, Wf bs -> 0 < length bs ->
  (forall bs', rounds E n bs = Ok bs' -> exists t,
      Rep bs' 0 t /\ (forall i, i < length bs' -> exists u, Rep bs' i u) /\
      forallb b_done bs' = true /\ Wf bs' /\
      Par (fun _ => n) bs 0 t) /\
  (0 < n -> Good (fun _ => n) bs -> exists bs', rounds E n bs = Ok bs').
Proof.
  induction n as [|m IH]; intros bs W L; split; try discriminate; try lia.
  - intros bs' H. cbn [rounds] in H.
    destruct (round E bs) as [bs1| |] eqn:R; try discriminate. unfold round in R.
    destruct (visit_all_spec m (length bs) (seq 0 (length bs)) bs bs1 0)
      as (W1 & L1 & P1 & G1 & D1); auto; try lia;
      [f_equal; lia|].
    assert (X : forall j t, Par (rkf (length bs) m) bs j t -> Par (fun _ => S m) bs j t).
    { apply Par_rk. intros i c Hc _. unfold rkf.
      assert (i < length bs) by (apply nth_error_Some; congruence).
      replace (i <? length bs) with true; auto. symmetry; apply Nat.ltb_lt; auto. }
    unfold all_done in H. destruct (forallb b_done bs1) eqn:AD.
    + injection H as <-.
      assert (A : forall i, i < length bs1 -> exists u, Rep bs1 i u)
        by (intros i Hi; eapply done_rep; eauto).
      destruct (A 0) as [t Ht]; [lia|]. exists t.
      split; [auto|split; [auto|split; [auto|split; [exact W1|]]]].
      apply X. apply P1; [lia|]. apply Rep_Par; auto.
    + assert (L1' : 0 < length bs1) by lia.
      destruct (proj1 (IH bs1 W1 L1') bs' H) as (t & Ht & A & AD' & W' & P').
      exists t. split; [auto|split; [auto|split; [auto|split; [exact W'|]]]].
      apply X. apply P1; [lia|].
      revert P'. apply Par_rk. intros i c Hc Hd. unfold rkf.
      destruct (i <? length bs) eqn:Q; auto. apply Nat.ltb_lt in Q.
      rewrite (D1 i c Q Hc) in Hd. discriminate.
  - intros _ G. cbn [rounds].
    assert (G0 : Good (rkf (length bs) m) bs).
    { intros i Hi. destruct (G i Hi) as [t Ht]. exists t.
      revert Ht. apply Par_rk. intros j c Hc _. unfold rkf.
      assert (j < length bs) by (apply nth_error_Some; congruence).
      replace (j <? length bs) with true; auto. symmetry; apply Nat.ltb_lt; auto. }
    destruct (visit_all_ok m (length bs) (seq 0 (length bs)) bs 0) as [bs1 R]; auto; try lia;
      [f_equal; lia|].
    unfold round. rewrite R.
    destruct (visit_all_spec m (length bs) (seq 0 (length bs)) bs bs1 0)
      as (W1 & L1 & P1 & G1 & D1); auto; try lia;
      [f_equal; lia|].
    unfold all_done. destruct (forallb b_done bs1) eqn:AD; [eauto|].
    assert (GG : Good (fun _ => m) bs1).
    { intros i Hi. destruct (G1 G0 i Hi) as [t Ht]. exists t. revert Ht.
      apply Par_rk. intros j c Hc Hd. unfold rkf.
      destruct (j <? length bs) eqn:Q; auto. apply Nat.ltb_lt in Q.
      rewrite (D1 j c Q Hc) in Hd. discriminate. }
    destruct m as [|m].
    + exfalso. (* an unvisited branch with no rounds left cannot stand for a tree *)
      assert (exists i c, nth_error bs1 i = Some c /\ b_done c = false) as (i & c & Hc & Hd).
      { clear - AD. induction bs1 as [|x bs1 IHb]; [discriminate|]. cbn in AD.
        destruct (b_done x) eqn:Dx; [|exists 0, x; auto].
        destruct (IHb AD) as (i & c & A & B). exists (S i), c; auto. }
      destruct (GG i) as [t Ht]; [apply nth_error_Some; congruence|].
      inversion Ht as [? c' l0 Hc' Hdn|? c' ts2 Hc' Hdn|? c' t2 Hc' Hdn Htd]; subst;
        try congruence. cbn in Htd. discriminate.
    + assert (L1' : 0 < length bs1) by lia.
      apply (proj2 (IH bs1 W1 L1')); auto; lia.
Qed.

End Proofs.

(** The code's loop succeeds exactly when the recursive reading does, and then its
    first branch is the same tree. *)
Theorem flat_decompose_correct (E : env) (s : str) :
  (forall t, decompose E s = Ok t ->
     exists bs, flat_decompose E s = Ok bs /\ Rep bs 0 t) /\
  (forall bs, flat_decompose E s = Ok bs ->
     exists t, decompose E s = Ok t /\ Rep bs 0 t).
Proof.
  assert (W : Wf [new_branch s]).
  { intros [|i] c H; cbn in H; [injection H as <-|destruct i; discriminate].
    split; auto. intros ? ? []. }
  pose proof (rounds_spec E maxiter [new_branch s] W (Nat.lt_0_succ 0)) as [A B].
  assert (P0 : forall t, Par E (fun _ => maxiter) [new_branch s] 0 t <-> decompose E s = Ok t).
  { intros t; split.
    - intros H. inversion H as [? c l0 Hc Hdn|? c ts2 Hc Hdn|? c t2 Hc Hdn Htd]; subst;
        cbn in Hc; injection Hc as <-; try discriminate. exact Htd.
    - intros H. eapply Par_todo; [reflexivity|reflexivity|exact H]. }
  split.
  - intros t Ht. destruct B as [bs Hbs].
    + unfold maxiter; lia.
    + intros i Hi. cbn in Hi. assert (i = 0) by lia; subst. exists t. apply P0; auto.
    + exists bs. split; auto. destruct (A bs Hbs) as (u & Hu & _ & _ & _ & Pu).
      apply P0 in Pu. congruence.
  - intros bs Hbs. destruct (A bs Hbs) as (u & Hu & _ & _ & _ & Pu).
    exists u. split; auto. apply P0; auto.
Qed.
Print Assumptions flat_decompose_correct.

(** A finished decomposition is well formed: every dependency points forward. *)
Theorem flat_decompose_wf (E : env) (s : str) bs :
  flat_decompose E s = Ok bs ->
  0 < length bs /\ forallb b_done bs = true /\
  forall i c, nth_error bs i = Some c -> forall op j, In (op, j) (b_deps c) -> i < j < length bs.
Proof.
  intros H.
  assert (W : Wf [new_branch s]).
  { intros [|i] c Hc; cbn in Hc; [injection Hc as <-|destruct i; discriminate].
    split; auto. intros ? ? []. }
  destruct (rounds_spec E maxiter [new_branch s] W (Nat.lt_0_succ 0)) as [A _].
  destruct (A bs H) as (t & Ht & _ & D & W' & _). split; [|split; auto].
  - inversion Ht as [k b l Hb|k b ts Hb]; subst;
      (destruct bs; [discriminate|cbn; lia]).
  - intros i c Hc op j Hin. apply (W' i c Hc) in Hin. exact Hin.
Qed.
Print Assumptions flat_decompose_wf.

Example flat_example :
  match flat_decompose {| e_soln := [s_ "u"]; e_scal := [s_ "x"]; e_par := []; e_fun := [] |}
          (s_ "u*(x+2)") with
  | Ok bs => map b_deps bs = [[([], 1); (s_ "times", 2)]; []; [([], 3)];
                              [([], 4); (s_ "plus", 5)]; []; []]
  | _ => False
  end.
Proof. vm_compute. reflexivity. Qed.
