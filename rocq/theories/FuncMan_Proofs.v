(** Facts about the dependency walk: termination, exact detection of cycles, and the
    flags it computes. *)
From Coq Require Import Ascii String Bool Arith Lia List Relations.
From Verif Require Import Outcome Interp_Model Flat_Model Flat_Props FuncMan_Model.
Import ListNotations.

Lemma node_eqb_eq a b : node_eqb a b = true <-> a = b.
Proof.
  unfold node_eqb. rewrite andb_true_iff, !Nat.eqb_eq. destruct a, b; cbn.
  split; [intros [-> ->]; auto|intros H; injection H; auto].
Qed.

Lemma on_path n path : existsb (node_eqb n) path = true <-> In n path.
Proof.
  rewrite existsb_exists. split.
  - intros (m & Hm & E). apply node_eqb_eq in E. subst; auto.
  - intros H. exists n. split; auto. apply node_eqb_eq; auto.
Qed.

Section Walk.
Variable F : flat_forest.

Definition edge (n m : node) : Prop :=
  exists b, get_branch F n = Some b /\ In m (next n b).
Definition reach := clos_refl_trans_1n node edge.
Definition cyc (n : node) : Prop := exists m, edge n m /\ reach m n.
Definition closed : Prop := forall n m, edge n m -> get_branch F m <> None.

(** The loop over the calls of a branch, with [check f] abstracted. *)
Fixpoint loop (step : node -> flags -> option (outcome flags)) (ns : list node) (st : flags)
  : option (outcome flags) :=
  match ns with
  | [] => Some (Ok st)
  | m :: r => match step m st with Some (Ok st') => loop step r st' | o => o end
  end.

Lemma check_S f path n st :
  check (S f) F path n st =
  if existsb (node_eqb n) path then Some Exn
  else match get_branch F n with
       | None => Some UB
       | Some b => loop (check f F (n :: path)) (next n b) (own b st)
       end.
Proof.
  cbn [check]. destruct (existsb _ path); auto. destruct (get_branch F n) as [b|]; auto.
  generalize (own b st). induction (next n b) as [|m r IH]; intros s; auto.
  cbn [loop]. destruct (check f F (n :: path) m s) as [[s'| |]|]; auto.
Qed.

(* ---------------- termination ---------------- *)
Lemma get_in n : get_branch F n <> None <-> In n (all_nodes F).
Proof.
  unfold get_branch, all_nodes. rewrite in_flat_map. destruct n as [t b]. cbn [fst snd].
  split.
  - intros H. destruct (nth_error F t) as [bs|] eqn:E; [|tauto].
    assert (t < length F) by (apply nth_error_Some; congruence).
    exists t. split; [apply in_seq; lia|].
    rewrite (nth_error_nth F t [] E).
    apply in_map_iff. exists b; split; auto. apply in_seq.
    assert (b < length bs) by (apply nth_error_Some; auto). lia.
  - intros (t' & Ht & Hb). apply in_map_iff in Hb as (b' & Eq & Hb).
    injection Eq as -> ->. apply in_seq in Ht, Hb.
    destruct (nth_error F t) as [bs|] eqn:E; [|apply nth_error_None in E; lia].
    rewrite (nth_error_nth F t [] E) in Hb. apply nth_error_Some. lia.
Qed.

Lemma flat_map_ext_in {A B} (f g : A -> list B) l :
  (forall x, In x l -> f x = g x) -> flat_map f l = flat_map g l.
Proof.
  induction l as [|x l IH]; intros H; auto. cbn. rewrite H by (left; auto).
  rewrite IH; auto. intros; apply H; right; auto.
Qed.

Lemma all_nodes_len : length (all_nodes F) = size F.
Proof.
  unfold all_nodes, size. induction F as [|bs G IH] using rev_ind; auto.
  rewrite app_length. cbn [length]. rewrite seq_app, flat_map_app, app_length.
  rewrite map_app, list_sum_app. f_equal.
  - rewrite <- IH. apply (f_equal (@length node)). apply flat_map_ext_in. intros t Ht. apply in_seq in Ht.
    rewrite app_nth1 by lia. reflexivity.
  - cbn. rewrite app_nth2, Nat.sub_diag by lia. cbn.
    rewrite app_nil_r, map_length, seq_length. lia.
Qed.

Lemma check_total : forall f path n st,
  NoDup path -> (forall m, In m path -> get_branch F m <> None) ->
  size F < f + length path -> check f F path n st <> None.
Proof.
  induction f as [|f IH]; intros path n st ND HV Hf.
  - exfalso. rewrite <- all_nodes_len in Hf.
    assert (length path <= length (all_nodes F)); [|cbn in Hf; lia].
    apply NoDup_incl_length; auto. intros m Hm. apply get_in; auto.
  - rewrite check_S. destruct (existsb (node_eqb n) path) eqn:P; [discriminate|].
    destruct (get_branch F n) as [b|] eqn:G; [|discriminate].
    assert (N : ~ In n path) by (rewrite <- on_path, P; discriminate).
    generalize (own b st). induction (next n b) as [|m r IHr]; intros s; [discriminate|].
    cbn [loop]. destruct (check f F (n :: path) m s) as [[s'| |]|] eqn:C; auto; try discriminate.
    exfalso. revert C. apply IH.
    + constructor; auto.
    + intros m' [<-|Hm]; auto; congruence.
    + cbn [length]. lia.
Qed.

Lemma check_no_ub : closed -> forall f path n st,
  get_branch F n <> None -> check f F path n st <> Some UB.
Proof.
  intros HC. induction f as [|f IH]; intros path n st HV; [discriminate|].
  rewrite check_S. destruct (existsb _ path); [discriminate|].
  destruct (get_branch F n) as [b|] eqn:G; [|tauto].
  assert (HN : forall m, In m (next n b) -> get_branch F m <> None)
    by (intros m Hm; apply (HC n m); exists b; auto).
  revert HN. generalize (own b st).
  induction (next n b) as [|m r IHr]; intros s HN; [discriminate|].
  cbn [loop]. destruct (check f F (n :: path) m s) as [[s'| |]|] eqn:C; try discriminate.
  - apply IHr. intros; apply HN; right; auto.
  - exfalso. revert C. apply IH. apply HN; left; auto.
Qed.

(* ---------------- exactness ---------------- *)
Lemma loop_ok step ns st st' : loop step ns st = Some (Ok st') ->
  forall m, In m ns -> exists s s', step m s = Some (Ok s').
Proof.
  revert st; induction ns as [|x r IH]; intros st H m Hm; [destruct Hm|].
  cbn [loop] in H. destruct (step x st) as [[s| |]|] eqn:C; try discriminate.
  destruct Hm as [<-|Hm]; eauto.
Qed.

Lemma loop_exn step ns st : loop step ns st = Some Exn ->
  exists m s, In m ns /\ step m s = Some Exn.
Proof.
  revert st; induction ns as [|x r IH]; intros st H; [discriminate|].
  cbn [loop] in H. destruct (step x st) as [[s| |]|] eqn:C; try discriminate.
  - destruct (IH _ H) as (m & s' & Hm & E). exists m, s'; split; auto; right; auto.
  - exists x, st; split; auto; left; auto.
Qed.

Lemma reach_trans n m k : reach n m -> reach m k -> reach n k.
Proof.
  intros H1 H2. apply clos_rt_rt1n. apply rt_trans with m; apply clos_rt1n_rt; auto.
Qed.

Lemma check_exn_cycle : forall f path n st,
  check f F path n st = Some Exn ->
  exists m, reach n m /\ (In m path \/ cyc m).
Proof.
  induction f as [|f IH]; intros path n st H; [discriminate|].
  rewrite check_S in H. destruct (existsb (node_eqb n) path) eqn:P.
  - apply on_path in P. exists n; split; auto. apply rt1n_refl.
  - destruct (get_branch F n) as [b|] eqn:G; [|discriminate].
    apply loop_exn in H as (m & s & Hm & E).
    assert (Ed : edge n m) by (exists b; auto).
    destruct (IH _ _ _ E) as (k & Hk & [[<-|Hp]|Hc]).
    + exists n. split; [apply rt1n_refl|right; exists m; auto].
    + exists k; split; auto. eapply Relation_Operators.rt1n_trans; eauto.
    + exists k; split; auto. eapply Relation_Operators.rt1n_trans; eauto.
Qed.

Lemma check_ok_acyclic : forall f path n st st',
  check f F path n st = Some (Ok st') ->
  forall m, reach n m -> ~ In m path /\ ~ cyc m.
Proof.
  induction f as [|f IH]; intros path n st st' H; [discriminate|].
  rewrite check_S in H. destruct (existsb (node_eqb n) path) eqn:P; [discriminate|].
  assert (N : ~ In n path) by (rewrite <- on_path, P; discriminate).
  destruct (get_branch F n) as [b|] eqn:G; [|discriminate].
  assert (C : forall c, edge n c -> forall m, reach c m -> ~ In m (n :: path) /\ ~ cyc m).
  { intros c (b' & G' & Hc). rewrite G in G'. injection G' as <-.
    destruct (loop_ok _ _ _ _ H c Hc) as (s & s' & E). eapply IH; eauto. }
  intros m Hm. destruct Hm as [|c m Hc Hm].
  - split; auto. intros (c & Hc & Hr). destruct (C c Hc n Hr) as [A _]. apply A. left; auto.
  - destruct (C c Hc m Hm) as [A B]. split; auto. intros Hp; apply A; right; auto.
Qed.

(* ---------------- flags ---------------- *)
Definition has_leaf (n : node) (l : leaf) : Prop :=
  exists b, get_branch F n = Some b /\ b_leaf b = Some l /\ forall j, l <> LFun j.

Definition FlagsOf (n : node) (st st' : flags) : Prop :=
  (f_const st' = true <->
     f_const st = true /\ forall m l, reach n m -> has_leaf m l -> f_const (leaf_flags l) = true) /\
  (f_view st' = true <->
     f_view st = true \/ exists m l, reach n m /\ has_leaf m l /\ f_view (leaf_flags l) = true) /\
  (f_AD st' = true <->
     f_AD st = true \/ exists m l, reach n m /\ has_leaf m l /\ f_AD (leaf_flags l) = true).

(** Facts for a list of starting points. *)
Definition FlagsOfL (ns : list node) (st st' : flags) : Prop :=
  (f_const st' = true <->
     f_const st = true /\
     forall n m l, In n ns -> reach n m -> has_leaf m l -> f_const (leaf_flags l) = true) /\
  (f_view st' = true <->
     f_view st = true \/
     exists n m l, In n ns /\ reach n m /\ has_leaf m l /\ f_view (leaf_flags l) = true) /\
  (f_AD st' = true <->
     f_AD st = true \/
     exists n m l, In n ns /\ reach n m /\ has_leaf m l /\ f_AD (leaf_flags l) = true).

Lemma loop_flags step ns :
  (forall m s s', In m ns -> step m s = Some (Ok s') -> FlagsOf m s s') ->
  forall st st', loop step ns st = Some (Ok st') -> FlagsOfL ns st st'.
Proof.
  induction ns as [|x r IH]; intros HS st st' H; cbn [loop] in H.
  - injection H as <-. split; [|split].
    + split; [intros; split; auto; intros ? ? ? []|tauto].
    + split; [auto|intros [|(? & ? & ? & [] & _)]; auto].
    + split; [auto|intros [|(? & ? & ? & [] & _)]; auto].
  - destruct (step x st) as [[s| |]|] eqn:C; try discriminate.
    destruct (HS x st s (or_introl eq_refl) C) as (A1 & A2 & A3).
    destruct (IH (fun m s0 s' Hm => HS m s0 s' (or_intror Hm)) _ _ H) as (B1 & B2 & B3).
    split; [|split].
    + rewrite B1, A1. split.
      * intros [[Q1 Q2] Q3]. split; auto. intros n m l [<-|Hn]; eauto.
      * intros [Q1 Q2]. split; [split; auto|]; intros; eapply Q2; eauto;
          [left; reflexivity|right; eassumption].
    + rewrite B2, A2. split.
      * intros [[Q|(m & l & Q)]|(n & m & l & Hn & Q)]; auto; right;
          [exists x, m, l; split; [left|]; auto|exists n, m, l; split; [right|]; auto].
      * intros [Q|(n & m & l & [<-|Hn] & Q)]; [left; left; auto|left; right; eauto|right].
        exists n, m, l; auto.
    + rewrite B3, A3. split.
      * intros [[Q|(m & l & Q)]|(n & m & l & Hn & Q)]; auto; right;
          [exists x, m, l; split; [left|]; auto|exists n, m, l; split; [right|]; auto].
      * intros [Q|(n & m & l & [<-|Hn] & Q)]; [left; left; auto|left; right; eauto|right].
        exists n, m, l; auto.
Qed.

Lemma own_flags n b st : get_branch F n = Some b ->
  (f_const (own b st) = true <->
     f_const st = true /\ forall l, has_leaf n l -> f_const (leaf_flags l) = true) /\
  (f_view (own b st) = true <->
     f_view st = true \/ exists l, has_leaf n l /\ f_view (leaf_flags l) = true) /\
  (f_AD (own b st) = true <->
     f_AD st = true \/ exists l, has_leaf n l /\ f_AD (leaf_flags l) = true).
Proof.
  intros G.
  assert (U : forall l l', b_leaf b = Some l -> has_leaf n l' -> l' = l).
  { intros l l' E (b' & G' & E' & _). congruence. }
  unfold own. destruct (b_leaf b) as [l|] eqn:E.
  - assert (T : (exists j, l = LFun j) \/ (forall j, l <> LFun j))
      by (destruct l; first [right; discriminate | left; eauto]).
    destruct T as [[j ->]|T].
    + assert (X : forall l', ~ has_leaf n l').
      { intros l' (b' & G' & E' & Hj). apply (Hj j). congruence. }
      split; [|split]; (split; [auto|]); try tauto.
      * intros H; split; auto. intros l' Hl'. destruct (X _ Hl').
      * intros [H|(l' & Hl' & _)]; auto. destruct (X _ Hl').
      * intros [H|(l' & Hl' & _)]; auto. destruct (X _ Hl').
    + assert (HL : has_leaf n l) by (exists b; auto).
      replace (match l with LFun _ => st | _ => add_leaf l st end) with (add_leaf l st)
        by (destruct l; auto; exfalso; eapply T; eauto).
      unfold add_leaf. cbn [f_const f_view f_AD].
      split; [|split].
      * destruct (f_const (leaf_flags l)) eqn:Q.
        -- split; [|tauto]. intros H; split; auto. intros l' Hl'.
           rewrite (U l l' eq_refl Hl'). auto.
        -- split; [discriminate|]. intros [_ H]. rewrite (H l HL) in Q. discriminate.
      * destruct (f_view (leaf_flags l)) eqn:Q; split; auto.
        -- intros _. right; eauto.
        -- intros [H|(l' & Hl' & H)]; auto. rewrite (U l l' eq_refl Hl') in H. congruence.
      * destruct (f_AD (leaf_flags l)) eqn:Q; split; auto.
        -- intros _. right; eauto.
        -- intros [H|(l' & Hl' & H)]; auto. rewrite (U l l' eq_refl Hl') in H. congruence.
  - assert (X : forall l', ~ has_leaf n l').
    { intros l' (b' & G' & E' & Hj). congruence. }
    split; [|split]; (split; [auto|]); try tauto.
    * intros H; split; auto. intros l' Hl'. destruct (X _ Hl').
    * intros [H|(l' & Hl' & _)]; auto. destruct (X _ Hl').
    * intros [H|(l' & Hl' & _)]; auto. destruct (X _ Hl').
Qed.

Lemma reach_inv n m : reach n m -> n = m \/ exists c, edge n c /\ reach c m.
Proof. destruct 1; eauto. Qed.

Lemma check_flags : forall f path n st st',
  check f F path n st = Some (Ok st') -> FlagsOf n st st'.
Proof.
  induction f as [|f IH]; intros path n st st' H; [discriminate|].
  rewrite check_S in H. destruct (existsb (node_eqb n) path); [discriminate|].
  destruct (get_branch F n) as [b|] eqn:G; [|discriminate].
  destruct (loop_flags _ _ (fun m s s' _ => IH (n :: path) m s s') _ _ H) as (B1 & B2 & B3).
  destruct (own_flags n b st G) as (A1 & A2 & A3).
  assert (EN : forall c, In c (next n b) <-> edge n c).
  { intros c. split; [intros; exists b; auto|].
    intros (b' & G' & Hc). congruence. }
  split; [|split].
  - rewrite B1, A1. split.
    + intros [[Q1 Q2] Q3]. split; auto. intros m l Hm Hl.
      apply reach_inv in Hm as [<-|(c & Hc & Hm)]; [eauto|].
      apply (Q3 c m l); auto. apply EN; auto.
    + intros [Q1 Q2]. repeat split; auto.
      * intros l Hl. apply (Q2 n l); auto. apply rt1n_refl.
      * intros c m l Hc Hm Hl. apply (Q2 m l); auto. eapply Relation_Operators.rt1n_trans; eauto.
        apply EN; auto.
  - rewrite B2, A2. split.
    + intros [[Q|(l & Hl & Q)]|(c & m & l & Hc & Hm & Hl & Q)]; auto; right.
      * exists n, l; repeat split; auto. apply rt1n_refl.
      * exists m, l; repeat split; auto. eapply Relation_Operators.rt1n_trans; eauto. apply EN; auto.
    + intros [Q|(m & l & Hm & Hl & Q)]; [auto|].
      apply reach_inv in Hm as [<-|(c & Hc & Hm)]; [left; right; eauto|].
      right. exists c, m, l; repeat split; auto. apply EN; auto.
  - rewrite B3, A3. split.
    + intros [[Q|(l & Hl & Q)]|(c & m & l & Hc & Hm & Hl & Q)]; auto; right.
      * exists n, l; repeat split; auto. apply rt1n_refl.
      * exists m, l; repeat split; auto. eapply Relation_Operators.rt1n_trans; eauto. apply EN; auto.
    + intros [Q|(m & l & Hm & Hl & Q)]; [auto|].
      apply reach_inv in Hm as [<-|(c & Hc & Hm)]; [left; right; eauto|].
      right. exists c, m, l; repeat split; auto. apply EN; auto.
Qed.

(* ---------------- the whole forest ---------------- *)
Lemma check_all_spec ns : closed -> (forall n, In n ns -> get_branch F n <> None) ->
  (check_all F ns = Some Exn /\ exists n m, In n ns /\ reach n m /\ cyc m) \/
  (exists l, check_all F ns = Some (Ok l) /\
     Forall2 (fun n st => FlagsOf n flags0 st) ns l /\
     forall n m, In n ns -> reach n m -> ~ cyc m).
Proof.
  intros HC. induction ns as [|n r IH]; intros HV.
  - right. exists []. split; [reflexivity|]. split; [constructor|]. intros ? ? [].
  - cbn [check_all].
    destruct (check (S (size F)) F [] n flags0) as [[st| |]|] eqn:C.
    + destruct IH as [[E (k & m & Hk & Hm & Hc)]|(l & E & Fl & A)];
        [intros; apply HV; right; auto| |]; rewrite E.
      * left; split; auto. exists k, m; repeat split; auto. right; auto.
      * right. exists (st :: l). split; auto. split.
        -- constructor; auto. eapply check_flags; eauto.
        -- intros k m [<-|Hk] Hm; [|eauto]. apply (check_ok_acyclic _ _ _ _ _ C m Hm).
    + left. split; auto. destruct (check_exn_cycle _ _ _ _ C) as (m & Hm & [[]|Hc]).
      exists n, m; repeat split; auto. left; auto.
    + exfalso. revert C. apply check_no_ub; auto. apply HV; left; auto.
    + exfalso. revert C. apply check_total; [constructor|intros ? []|cbn [length]; lia].
Qed.

Lemma prepare_spec : closed ->
  (prepare F = Some Exn /\ exists m, get_branch F m <> None /\ cyc m) \/
  (exists l, prepare F = Some (Ok l) /\
     Forall2 (fun n st => FlagsOf n flags0 st) (all_nodes F) l /\ forall m, ~ cyc m).
Proof.
  intros HC. unfold prepare.
  destruct (check_all_spec (all_nodes F) HC (fun n H => proj2 (get_in n) H))
    as [[E (n & m & Hn & Hm & Hc)]|(l & E & Fl & A)].
  - left; split; auto. exists m; split; auto.
    destruct Hc as (c & (b & G & _) & _). congruence.
  - right. exists l; repeat split; auto. intros m Hc.
    assert (Hin : In m (all_nodes F)).
    { apply get_in. destruct Hc as (c & (b & G & _) & _). congruence. }
    apply (A m m Hin (rt1n_refl _ _ _) Hc).
Qed.

End Walk.

(* ------------------------------------------------------------------ *)
(** ** From branches to definitions *)

Fixpoint leaves (t : tree) : list leaf :=
  match t with
  | Leaf l => [l]
  | Node d => flat_map (fun x => leaves (snd x)) d
  end.

(** Definition [i] mentions definition [j]. *)
Definition Mentions (Ts : list tree) (i j : nat) : Prop :=
  exists T, nth_error Ts i = Some T /\ In (LFun j) (leaves T).

(** In-tree reachability. *)
Inductive inner (bs : list branch) : nat -> nat -> Prop :=
| inner_refl : forall k, inner bs k k
| inner_step : forall k m b op j, inner bs k m -> nth_error bs m = Some b ->
    b_leaf b = None -> In (op, j) (b_deps b) -> inner bs k j.

Lemma inner_head bs k b op j m :
  nth_error bs k = Some b -> b_leaf b = None -> In (op, j) (b_deps b) ->
  inner bs j m -> inner bs k m.
Proof.
  intros Hb Hl Hin H. induction H as [|m0 m b' op' j' H IH Hb' Hl' Hin'].
  - eapply inner_step; eauto. constructor.
  - eapply inner_step; [exact (IH Hin) | exact Hb' | exact Hl' | exact Hin'].
Qed.

Lemma inner_trans bs k m j : inner bs k m -> inner bs m j -> inner bs k j.
Proof.
  intros H1 H2. revert H1. induction H2 as [|m0 m b op j H IH Hb Hl Hin]; auto.
  intros H1. eapply inner_step; [apply IH, H1|exact Hb|exact Hl|exact Hin].
Qed.

Lemma rep_leaves bs :
  (forall k T, Rep bs k T -> forall l, In l (leaves T) ->
     exists m b, inner bs k m /\ nth_error bs m = Some b /\ b_leaf b = Some l) /\
  (forall ds ts, RepL bs ds ts -> forall l, In l (flat_map (fun x => leaves (snd x)) ts) ->
     exists op j m b, In (op, j) ds /\ inner bs j m /\ nth_error bs m = Some b /\ b_leaf b = Some l).
Proof.
  apply Rep_ind2.
  - intros k b l Hb Hd Hl l' [<-|[]]. exists k, b. repeat split; auto. constructor.
  - intros k b ts Hb Hd Hl _ IH l Hin.
    destruct (IH l Hin) as (op & j & m & b' & Hj & Hm & Hb' & Hl').
    exists m, b'. repeat split; auto. eapply inner_head; eauto.
  - intros l [].
  - intros op i t ds ts _ IH1 _ IH2 l Hin. cbn in Hin.
    apply in_app_or in Hin as [Hin|Hin].
    + destruct (IH1 l Hin) as (m & b & Hm & Hb & Hl).
      exists op, i, m, b; repeat split; auto. left; auto.
    + destruct (IH2 l Hin) as (op' & j & m & b & Hj & Q).
      exists op', j, m, b; split; auto. right; auto.
Qed.

Lemma repl_in bs ds ts : RepL bs ds ts -> forall op j, In (op, j) ds ->
  exists t, In (op, t) ts /\ Rep bs j t.
Proof.
  induction 1 as [|op0 i t ds ts Hr Hl IH]; intros op j Hin; [destruct Hin|].
  destruct Hin as [E|Hin].
  - injection E as <- <-. exists t; split; auto. left; auto.
  - destruct (IH op j Hin) as (u & Hu & Ru). exists u; split; auto. right; auto.
Qed.

Lemma inner_rep bs k T m : Rep bs k T -> inner bs k m ->
  exists U, Rep bs m U /\ incl (leaves U) (leaves T).
Proof.
  intros HR H. induction H as [k|k m b op j H IH Hb Hl Hin].
  - exists T; split; auto. intros x; auto.
  - destruct (IH HR) as (U & RU & IU).
    inversion RU as [? b' l Hb' Hd Hl'|? b' ts Hb' Hd Hl' RL]; subst; [congruence|].
    assert (b' = b) by congruence; subst b'.
    destruct (repl_in _ _ _ RL op j Hin) as (t & Ht & Rt).
    exists t; split; auto. intros x Hx. apply IU. cbn. apply in_flat_map.
    exists (op, t); auto.
Qed.

Lemma step_star {A} (R : A -> A -> Prop) i k j :
  R i k -> clos_refl_trans_1n A R k j -> clos_trans A R i j.
Proof.
  intros M H. revert i M. induction H as [k|k l j E H IH]; intros i M;
    [apply t_step; auto|].
  apply t_trans with k; [apply t_step; auto|]. apply IH; auto.
Qed.

Section Forest.
Variables (F : flat_forest) (Ts : list tree).
Hypothesis HR : Forall2 (fun bs T => Rep bs 0 T) F Ts.
Hypothesis HW : forall bs, In bs F -> forall i c, nth_error bs i = Some c ->
  forall op j, In (op, j) (b_deps c) -> i < j < length bs.
Hypothesis HF : forall t bs i c j, nth_error F t = Some bs -> nth_error bs i = Some c ->
  b_leaf c = Some (LFun j) -> j < length F.

Lemma rep_at i bs : nth_error F i = Some bs ->
  exists T, nth_error Ts i = Some T /\ Rep bs 0 T.
Proof.
  clear HW HF. revert i bs. induction HR as [|b T F' Ts' H1 H2 IH]; intros i bs H.
  - destruct i; discriminate.
  - destruct i as [|i]; cbn in *; [injection H as <-; eauto|]. apply IH; auto.
Qed.

Lemma rep_at' i T : nth_error Ts i = Some T ->
  exists bs, nth_error F i = Some bs /\ Rep bs 0 T.
Proof.
  clear HW HF. revert i T. induction HR as [|b T F' Ts' H1 H2 IH]; intros i U H.
  - destruct i; discriminate.
  - destruct i as [|i]; cbn in *; [injection H as <-; eauto|]. apply IH; auto.
Qed.

Lemma rep_pos bs k T : Rep bs k T -> k < length bs.
Proof. intros H; inversion H; subst; apply nth_error_Some; congruence. Qed.

Lemma forest_closed : closed F.
Proof.
  intros n m (b & G & Hin). unfold get_branch in *. destruct n as [t i]. cbn [fst snd] in *.
  destruct (nth_error F t) as [bs|] eqn:Et; [|discriminate].
  unfold next in Hin. destruct (b_leaf b) as [l|] eqn:El.
  - destruct l; try (exfalso; exact Hin).
    destruct Hin as [<-|[]]. cbn [fst snd].
    pose proof (HF _ _ _ _ _ Et G El) as Hj.
    destruct (nth_error F j) as [bs'|] eqn:Ej; [|apply nth_error_None in Ej; lia].
    destruct (rep_at j bs' Ej) as (T & _ & RT). apply rep_pos in RT.
    apply nth_error_Some. auto.
  - apply in_map_iff in Hin as ([op j] & <- & Hin). cbn [fst snd]. rewrite Et.
    apply nth_error_Some.
    apply (HW bs (nth_error_In _ _ Et) i b G) in Hin. lia.
Qed.

Lemma edge_inner t bs i b op j :
  nth_error F t = Some bs -> nth_error bs i = Some b -> b_leaf b = None ->
  In (op, j) (b_deps b) -> edge F (t, i) (t, j).
Proof.
  intros Et Hb Hl Hin. exists b. unfold get_branch, next. cbn [fst snd].
  rewrite Et, Hl. split; auto. apply in_map_iff. exists (op, j). auto.
Qed.

Lemma edge_fun t bs i b j :
  nth_error F t = Some bs -> nth_error bs i = Some b -> b_leaf b = Some (LFun j) ->
  edge F (t, i) (j, 0).
Proof.
  intros Et Hb Hl. exists b. unfold get_branch, next. cbn [fst snd].
  rewrite Et, Hl. split; auto. left; auto.
Qed.

Lemma reach_snoc n m k : reach F n m -> edge F m k -> reach F n k.
Proof.
  intros H E. eapply reach_trans; eauto. eapply Relation_Operators.rt1n_trans; eauto. apply rt1n_refl.
Qed.

Lemma inner_reach t bs k m : nth_error F t = Some bs -> inner bs k m ->
  reach F (t, k) (t, m).
Proof.
  intros Et. induction 1 as [|k m b op j H IH Hb Hl Hin]; [apply rt1n_refl|].
  eapply reach_snoc; eauto. eapply edge_inner; eauto.
Qed.

(** A mention is a path of branches of length at least one. *)
Lemma mention_path i j : Mentions Ts i j -> exists c, edge F (i, 0) c /\ reach F c (j, 0).
Proof.
  intros (T & HT & Hin). destruct (rep_at' i T HT) as (bs & Ebs & RT).
  destruct (proj1 (rep_leaves bs) 0 T RT _ Hin) as (m & b & Hm & Hb & Hl).
  pose proof (inner_reach i bs 0 m Ebs Hm) as R.
  pose proof (edge_fun i bs m b j Ebs Hb Hl) as E.
  apply reach_inv in R as [Eq|(c & Hc & R)].
  - injection Eq as <-. exists (j, 0). split; auto. apply rt1n_refl.
  - exists c; split; auto. eapply reach_snoc; eauto.
Qed.

Definition Depends := clos_trans nat (Mentions Ts).

Lemma depends_path i j : Depends i j -> exists c, edge F (i, 0) c /\ reach F c (j, 0).
Proof.
  induction 1 as [i j H|i k j _ IH1 _ IH2].
  - apply mention_path; auto.
  - destruct IH1 as (c & Hc & R1), IH2 as (d & Hd & R2).
    exists c; split; auto. eapply reach_trans; eauto. eapply Relation_Operators.rt1n_trans; eauto.
Qed.

(** Shape of a branch path. *)
Lemma reach_shape n m : reach F n m ->
  (fst n = fst m /\ forall bs, nth_error F (fst n) = Some bs -> inner bs (snd n) (snd m)) \/
  (exists bs b' c k, nth_error F (fst n) = Some bs /\ inner bs (snd n) b' /\
     nth_error bs b' = Some c /\ b_leaf c = Some (LFun k) /\
     clos_refl_trans nat (Mentions Ts) k (fst m) /\
     forall bs', nth_error F (fst m) = Some bs' -> inner bs' 0 (snd m)).
Proof.
  intros H. apply clos_rt1n_rt, clos_rt_rtn1 in H.
  induction H as [|y z E H IH].
  - left; split; auto. intros; constructor.
  - destruct E as (b & G & Hin). unfold get_branch in G.
    destruct (nth_error F (fst y)) as [bsy|] eqn:Ey; [|discriminate].
    unfold next in Hin. destruct (b_leaf b) as [l|] eqn:El.
    + destruct l; try (exfalso; exact Hin). destruct Hin as [<-|[]]. cbn [fst snd].
      right. destruct IH as [[Et IH]|(bs & b' & c & k & Q1 & Q2 & Q3 & Q4 & Q5 & Q6)].
      * exists bsy, (snd y), b, j. rewrite Et. repeat split; auto.
        -- apply IH. rewrite Et; auto.
        -- apply rt_refl.
        -- intros; constructor.
      * exists bs, b', c, k. repeat split; auto; [|intros; constructor].
        eapply rt_trans; eauto. apply rt_step.
        destruct (rep_at _ _ Ey) as (T & HT & RT). exists T; split; auto.
        destruct (inner_rep _ _ _ _ RT (Q6 _ eq_refl)) as (U & RU & IU). apply IU.
        inversion RU as [? b1 l1 Hb1 Hd1 Hl1|? b1 ts Hb1 Hd1 Hl1]; subst;
          rewrite G in Hb1; injection Hb1 as <-; [|congruence].
        left. congruence.
    + apply in_map_iff in Hin as ([op j] & <- & Hin). cbn [fst snd].
      destruct IH as [[Et IH]|(bs & b' & c & k & Q1 & Q2 & Q3 & Q4 & Q5 & Q6)].
      * left; split; auto. intros bs Hbs. eapply inner_step; [apply IH; auto| |exact El|exact Hin].
        rewrite Et in Hbs. congruence.
      * right. exists bs, b', c, k. repeat split; auto.
        intros bs' Hbs'. rewrite Ey in Hbs'. injection Hbs' as <-.
        eapply inner_step; [apply Q6; auto|exact G|exact El|exact Hin].
Qed.

Lemma inner_mono bs k m : In bs F -> inner bs k m -> k <= m.
Proof.
  intros Hbs. induction 1 as [|k m b op j H IH Hb Hl Hin]; auto.
  apply (HW bs Hbs m b Hb) in Hin. lia.
Qed.

Lemma cyc_depends m : cyc F m -> exists i, Depends i i.
Proof.
  intros (c & E & R).
  assert (Rm : reach F m m) by (eapply Relation_Operators.rt1n_trans; eauto).
  assert (Shape : exists k, (exists bs b' c0, nth_error F (fst m) = Some bs /\
       inner bs 0 b' /\ nth_error bs b' = Some c0 /\ b_leaf c0 = Some (LFun k)) /\
       clos_refl_trans nat (Mentions Ts) k (fst m)).
  { destruct E as (b & G & Hin). unfold get_branch in G.
    destruct (nth_error F (fst m)) as [bs|] eqn:Em; [|discriminate].
    unfold next in Hin. destruct (b_leaf b) as [l|] eqn:El.
    - destruct l; try (exfalso; exact Hin). destruct Hin as [<-|[]].
      exists j. destruct (reach_shape _ _ R) as [[Et Hi]|(bs' & b' & c0 & k & Q1 & Q2 & Q3 & Q4 & Q5 & Q6)].
      + cbn [fst snd] in *. split; [|rewrite <- Et; apply rt_refl].
        exists bs, (snd m), b. repeat split; auto. apply Hi. rewrite Et; auto.
      + cbn [fst snd] in *. split.
        * exists bs, (snd m), b. repeat split; auto.
        * eapply rt_trans; [|exact Q5]. apply rt_step.
          destruct (rep_at _ _ Q1) as (T & HT & RT). exists T; split; auto.
          destruct (inner_rep _ _ _ _ RT Q2) as (U & RU & IU). apply IU.
          inversion RU as [? b1 l1 Hb1 Hd1 Hl1|? b1 ts Hb1 Hd1 Hl1]; subst;
            rewrite Q3 in Hb1; injection Hb1 as <-; [|congruence].
          left. congruence.
    - apply in_map_iff in Hin as ([op j] & <- & Hin). cbn [fst snd] in *.
      pose proof (HW bs (nth_error_In _ _ Em) _ _ G op j Hin) as Hlt.
      destruct (reach_shape _ _ R) as [[Et Hi]|(bs' & b' & c0 & k & Q1 & Q2 & Q3 & Q4 & Q5 & Q6)].
      + cbn [fst snd] in *. specialize (Hi bs Em).
        apply inner_mono in Hi; [lia|eapply nth_error_In; eauto].
      + cbn [fst snd] in *. rewrite Em in Q1. injection Q1 as <-.
        exists k. split; auto. exists bs, b', c0. repeat split; auto.
        specialize (Q6 bs Em).
        assert (I2 : inner bs (snd m) b') by (eapply inner_head; eauto).
        eapply inner_trans; eauto. }
  destruct Shape as (k & (bs & b' & c0 & Em & Hi & Hc & Hl) & Hk).
  exists (fst m).
  assert (M : Mentions Ts (fst m) k).
  { destruct (rep_at _ _ Em) as (T & HT & RT). exists T; split; auto.
    destruct (inner_rep _ _ _ _ RT Hi) as (U & RU & IU). apply IU.
    inversion RU as [? b1 l1 Hb1 Hd1 Hl1|? b1 ts Hb1 Hd1 Hl1]; subst;
      rewrite Hc in Hb1; injection Hb1 as <-; [|congruence].
    left. congruence. }
  apply clos_rt_rt1n in Hk. unfold Depends. eapply step_star; eauto.
Qed.

Lemma depends_cyc i : Depends i i -> cyc F (i, 0).
Proof. intros H. exact (depends_path i i H). Qed.

End Forest.
