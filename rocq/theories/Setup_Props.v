(** C219-C221 (bases of variables and parameters), C222, C223 (lists of modules), C224, C225
    (functions of a block), C226, C227 (initial values), C228 (weights). *)
From Coq Require Import Bool Arith Lia ZArith QArith String Ascii List.
From Verif Require Import BCond_Model Settings_Model Settings_Props Setup_Model.
Import ListNotations.
Local Open Scope string_scope.
Local Open Scope nat_scope.
Local Notation length := List.length.

(** *** Lists without repetition *)

Lemma basis_eqb_ok a b : basis_eqb a b = true <-> a = b.
Proof.
  unfold basis_eqb. rewrite andb_true_iff, String.eqb_eq, Nat.eqb_eq. destruct a, b; cbn. split; [intros [-> ->]; auto|intros [= -> ->]; auto].
Qed.

Definition hits (k0 : nat) (u : list (string * nat)) (b : string * nat) : list nat :=
  map fst (filter (fun e => basis_eqb (snd e) b) (combine (seq k0 (length u)) u)).
Lemma hits_none b : forall u k0, ~ In b u -> hits k0 u b = [].
Proof.
  induction u as [|a u IH]; intros k0 N; [reflexivity|]. unfold hits. cbn [length seq combine filter map snd].
  destruct (basis_eqb a b) eqn:E; [apply basis_eqb_ok in E; subst; destruct N; left; auto|]. apply (IH (S k0)). intro. apply N. right. auto.
Qed.
Lemma hits_one b : forall u k0, NoDup u -> In b u -> exists k, hits k0 u b = [k0 + k] /\ nth_error u k = Some b.
Proof.
  induction u as [|a u IH]; intros k0 N H; [destruct H|]. inversion N as [|? ? N1 N2]; subst. unfold hits. cbn [length seq combine filter map snd].
  destruct (basis_eqb a b) eqn:E.
  - apply basis_eqb_ok in E. subst. exists 0. cbn [map fst]. rewrite Nat.add_0_r. split; [|reflexivity].
    f_equal. apply (hits_none b u (S k0) N1).
  - destruct H as [->|H]; [rewrite (proj2 (basis_eqb_ok b b) eq_refl) in E; discriminate|].
    destruct (IH (S k0) N2 H) as (k & H1 & H2). exists (S k). split; [|exact H2]. rewrite <- plus_n_Sm. exact H1.
Qed.
Lemma matches_none u b : ~ In b u -> matches u b = [].
Proof. apply hits_none. Qed.
Lemma matches_one u b : NoDup u -> In b u -> exists k, matches u b = [k] /\ nth_error u k = Some b.
Proof. intros N H. destruct (hits_one b u 0 N H) as (k & H1 & H2). exists k. auto. Qed.
Lemma in_dec_basis (b : string * nat) u : In b u \/ ~ In b u.
Proof. destruct (in_dec (fun x y : string * nat => ltac:(decide equality; [apply Nat.eq_dec|apply string_dec])) b u); auto. Qed.

Lemma nodup_snoc {A} (u : list A) b : NoDup u -> ~ In b u -> NoDup (u ++ [b]).
Proof. intros N H. apply (NoDup_Add (a := b) (l := u)); [|auto]. pose proof (Add_app b u []) as X. rewrite app_nil_r in X. exact X. Qed.
Lemma nth_snoc {A} (u : list A) k a x : nth_error u k = Some a -> nth_error (u ++ [x]) k = Some a.
Proof. intro H. rewrite nth_error_app1; auto. apply nth_error_Some. congruence. Qed.

Lemma forall2_impl {A B} (R S : A -> B -> Prop) l m : (forall a b, R a b -> S a b) -> Forall2 R l m -> Forall2 S l m.
Proof. intros H F. induction F; constructor; auto. Qed.

(** What the fold keeps: no repetition, every index points at the pair of its variable. *)
Definition good (st : list (string * nat) * list nat) (bs : list (string * nat)) : Prop :=
  NoDup (fst st) /\ Forall2 (fun k b => nth_error (fst st) k = Some b) (snd st) bs /\ (forall b, In b (fst st) -> In b bs).
Lemma good_step st bs b : good st bs -> good (uniq_step st b) (bs ++ [b]).
Proof.
  intros (N & F & I). unfold uniq_step. destruct (in_dec_basis b (fst st)) as [H|H].
  - destruct (matches_one _ _ N H) as (k & E & K). rewrite E. split; [exact N|split; cbn [fst snd]].
    + apply Forall2_app; [exact F|]. constructor; [exact K|constructor].
    + intros c C. apply in_or_app. left. auto.
  - rewrite (matches_none _ _ H). split; [|split]; cbn [fst snd].
    + apply nodup_snoc; auto.
    + apply Forall2_app.
      * eapply forall2_impl; [|exact F]. cbn. intros. apply nth_snoc. auto.
      * constructor; [|constructor]. rewrite nth_error_app2, Nat.sub_diag by lia. reflexivity.
    + intros c C. apply in_app_or in C. apply in_or_app. destruct C as [C|[<-|[]]]; [left; auto|right; left; auto].
Qed.
Lemma good_fold : forall l st bs, good st bs -> good (fold_left uniq_step l st) (bs ++ l).
Proof.
  induction l as [|b l IH]; intros st bs G; cbn [fold_left]; [rewrite app_nil_r; auto|].
  replace (bs ++ b :: l)%list with ((bs ++ [b]) ++ l)%list by (rewrite <- app_assoc; reflexivity). apply IH, good_step, G.
Qed.
Lemma good_all sets : good (unique_vars sets) (map pair_of (List.concat sets)).
Proof. apply (good_fold _ ([], []) []). split; [constructor|split; [constructor|intros b []]]. Qed.

Lemma params_keep : forall params u, NoDup u ->
  let w := fold_left add_param params u in
  NoDup w /\ (forall k b, nth_error u k = Some b -> nth_error w k = Some b) /\ (forall b, In b params -> In b w) /\
  (forall b, In b w -> In b u \/ In b params).
Proof.
  induction params as [|p params IH]; intros u N; cbn [fold_left].
  - repeat split; auto. intros b [].
  - unfold add_param at 2 4 6 8. destruct (in_dec_basis p u) as [H|H].
    + destruct (matches_one _ _ N H) as (k & E & _). rewrite E. destruct (IH u N) as (H1 & H2 & H3 & H4). repeat split; auto.
      * intros b [<-|B]; auto. apply In_nth_error in H. destruct H as [j J]. eapply nth_error_In, H2, J.
      * intros b B. destruct (H4 b B); auto. right. right. auto.
    + rewrite (matches_none _ _ H). destruct (IH (u ++ [p])%list (nodup_snoc u p N H)) as (H1 & H2 & H3 & H4). repeat split; auto.
      * intros k b B. apply H2, nth_snoc, B.
      * intros b [<-|B]; auto. apply (nth_error_In _ (length u)). apply H2. rewrite nth_error_app2, Nat.sub_diag by lia. reflexivity.
      * intros b B. destruct (H4 b B) as [B'|B']; [|right; right; auto]. apply in_app_or in B'. destruct B' as [B'|[<-|[]]]; auto. right. left. auto.
Qed.

(** The bases made by the discretization are the list itself. *)
Lemma done_all : forall u done, (forall b, In b u -> In b done) ->
  fold_left (fun done b => if existsb (fun d => basis_eqb d b) done then done else (done ++ [b])%list) u done = done.
Proof.
  induction u as [|b u IH]; intros done H; cbn [fold_left]; auto.
  replace (existsb (fun d => basis_eqb d b) done) with true; [apply IH; intros; apply H; right; auto|].
  symmetry. apply existsb_exists. exists b. split; [apply H; left; auto|apply basis_eqb_ok; auto].
Qed.
Lemma done_new : forall u done, NoDup (done ++ u) ->
  fold_left (fun done b => if existsb (fun d => basis_eqb d b) done then done else (done ++ [b])%list) u done = (done ++ u)%list.
Proof.
  induction u as [|b u IH]; intros done N; cbn [fold_left]; [rewrite app_nil_r; auto|].
  replace (existsb (fun d => basis_eqb d b) done) with false.
  - rewrite IH; rewrite <- app_assoc; [reflexivity|exact N].
  - symmetry. apply not_true_is_false. intro E. apply existsb_exists in E. destruct E as (d & D & E). apply basis_eqb_ok in E. subst.
    apply NoDup_remove_2 in N. apply N. apply in_or_app. auto.
Qed.
Lemma disc_bases_eq n u : 0 < n -> NoDup u -> disc_bases n u = u.
Proof.
  intros H N. unfold disc_bases. destruct n as [|n]; [lia|]. cbn [seq fold_left]. rewrite done_new by exact N. cbn [app].
  generalize (seq 1 n). intro l. induction l as [|a l IH]; cbn [fold_left]; auto. rewrite done_all by auto. exact IH.
Qed.

(** *** The index of a variable *)

Definition flat_scan (idx : list nat) (var : string) (index : nat) (prog : nat) (vs : list variable) : nat :=
  fold_left (fun index (jv : nat * variable) => if String.eqb (v_name (snd jv)) var then nth (fst jv) idx 0 else index)
            (combine (seq prog (length vs)) vs) index.
Lemma scan_shift idx var prog : forall vs k0 index,
  fold_left (fun index (jv : nat * variable) => if String.eqb (v_name (snd jv)) var then nth (fst jv + prog) idx 0 else index)
            (combine (seq k0 (length vs)) vs) index = flat_scan idx var index (k0 + prog) vs.
Proof. induction vs as [|v vs IH]; intros k0 index; [reflexivity|]. cbn [length seq combine fold_left fst snd]. rewrite IH. reflexivity. Qed.
Lemma flat_scan_app idx var : forall vs ws index prog,
  flat_scan idx var index prog (vs ++ ws) = flat_scan idx var (flat_scan idx var index prog vs) (prog + length vs) ws.
Proof.
  induction vs as [|v vs IH]; intros ws index prog; [cbn; rewrite Nat.add_0_r; reflexivity|].
  cbn [app length]. unfold flat_scan at 1 3. cbn [length seq combine fold_left]. fold (flat_scan idx var). rewrite <- plus_n_Sm.
  exact (IH ws _ (S prog)).
Qed.
Lemma index_flat idx var : forall sets index prog,
  fst (fold_left (fun (st : nat * nat) vs => (scan_set idx var (snd st) vs (fst st), (snd st + length vs)%nat)) sets (index, prog))
  = flat_scan idx var index prog (List.concat sets).
Proof.
  induction sets as [|vs sets IH]; intros index prog; [reflexivity|]. cbn [fold_left List.concat fst snd]. rewrite IH, flat_scan_app.
  unfold scan_set. rewrite scan_shift. reflexivity.
Qed.
(** The last variable of that name decides. *)
Lemma scan_found idx var (Q : nat -> Prop) : forall vs index prog,
  (forall j v, nth_error vs j = Some v -> v_name v = var -> Q (nth (prog + j) idx 0)) ->
  (Q index \/ exists v, In v vs /\ v_name v = var) -> Q (flat_scan idx var index prog vs).
Proof.
  induction vs as [|v vs IH]; intros index prog H E.
  - destruct E as [E|(v & [] & _)]. exact E.
  - unfold flat_scan. cbn [length seq combine fold_left fst snd]. apply (IH _ (S prog)).
    + intros j w J W. specialize (H (S j) w J W). rewrite <- plus_n_Sm in H. exact H.
    + destruct (String.eqb (v_name v) var) eqn:D.
      * apply String.eqb_eq in D. left. specialize (H 0 v eq_refl D). rewrite Nat.add_0_r in H. exact H.
      * destruct E as [E|(w & [<-|W] & X)]; [left; auto| |right; exists w; auto].
        apply String.eqb_neq in D. congruence.
Qed.

Lemma forall2_nth {A B} (R : A -> B -> Prop) l m : Forall2 R l m -> forall j b, nth_error m j = Some b -> exists a, nth_error l j = Some a /\ R a b.
Proof. induction 1; intros [|j] b' E; cbn in E; try discriminate; [injection E as <-; exists x; auto|]. apply IHForall2. exact E. Qed.

Section Index.
Variables (sets : list (list variable)) (params u : list (string * nat)) (idx : list nat).
Hypothesis HU : block_unique sets params = Some (u, idx).
Lemma unique_ok : NoDup u /\ Forall2 (fun k b => nth_error u k = Some b) idx (map pair_of (List.concat sets)) /\
  (forall b, In b params -> In b u) /\ (forall b, In b u -> In b (map pair_of (List.concat sets)) \/ In b params).
Proof.
  unfold block_unique in HU. destruct (List.concat sets) as [|v0 l] eqn:E0; [discriminate|]. rewrite <- E0 in *. clear E0.
  injection HU as <- <-. destruct (good_all sets) as (N & F & I). destruct (params_keep params _ N) as (H1 & H2 & H3 & H4).
  repeat split; auto.
  - eapply forall2_impl; [|exact F]. cbn. intros. apply H2. auto.
  - intros b B. destruct (H4 b B); auto.
Qed.
Lemma index_ok set v : In v (List.concat sets) ->
  (forall w, In w (List.concat sets) -> v_name w = v_name v -> pair_of w = pair_of v) ->
  nth_error u (get_unique_index sets idx set (v_name v)) = Some (pair_of v).
Proof.
  intros H A. destruct unique_ok as (N & F & _). unfold get_unique_index. rewrite index_flat.
  apply (scan_found idx (v_name v) (fun k => nth_error u k = Some (pair_of v))); [|right; exists v; auto].
  intros j w J W. assert (P : nth_error (map pair_of (List.concat sets)) j = Some (pair_of w)) by (apply map_nth_error; exact J).
  destruct (forall2_nth _ _ _ F _ _ P) as (k & K & R). cbn [plus]. rewrite (nth_error_nth idx j 0 K).
  rewrite R. f_equal. apply A; auto. eapply nth_error_In, J.
Qed.
End Index.

Lemma nodup_name (l : list variable) v w : NoDup (map v_name l) -> In v l -> In w l -> v_name w = v_name v -> w = v.
Proof.
  induction l as [|a l IH]; cbn; [tauto|]. intros N V W E. inversion N as [|? ? N1 N2]; subst.
  destruct V as [<-|V], W as [<-|W]; auto; exfalso; apply N1; [rewrite <- E|rewrite E]; apply in_map; auto.
Qed.

(** *** C219 *)

(** When no two variables of a block share a name, the basis that every variable uses is the one of
    its type and order. *)
Theorem C219_own_basis sets params u idx s vs v : block_unique sets params = Some (u, idx) ->
  NoDup (map v_name (List.concat sets)) -> nth_error sets s = Some vs -> In v vs ->
  nth_error (disc_bases (length sets) u) (get_unique_index sets idx s (v_name v)) = Some (v_type v, v_order v).
Proof.
  intros U N S V. assert (C : In v (List.concat sets)) by (apply in_concat; exists vs; split; auto; eapply nth_error_In, S).
  rewrite disc_bases_eq.
  - apply (index_ok sets params u idx U s v C). intros w W E. f_equal. eapply nodup_name; eauto.
  - destruct sets; [destruct s; discriminate|cbn; lia].
  - apply (unique_ok sets params u idx U).
Qed.
(** The bases of a block: each once, none that is not used by a variable or a parameter. *)
Theorem C219_bases sets params u idx : block_unique sets params = Some (u, idx) ->
  NoDup (disc_bases (length sets) u) /\
  (forall b, In b (disc_bases (length sets) u) <-> (exists v, In v (List.concat sets) /\ (v_type v, v_order v) = b) \/ In b params).
Proof.
  intro U. destruct (unique_ok _ _ _ _ U) as (N & F & P & I). rewrite disc_bases_eq; auto.
  - split; [exact N|]. intro b. split.
    + intro B. destruct (I b B) as [V|V]; [left|right; auto]. apply in_map_iff in V. destruct V as (v & E & V). exists v. auto.
    + intros [(v & V & E)|B]; [|auto]. assert (X : In b (map pair_of (List.concat sets))) by (apply in_map_iff; exists v; auto).
      apply In_nth_error in X. destruct X as [j J]. destruct (forall2_nth _ _ _ F _ _ J) as (k & _ & K). eapply nth_error_In, K.
  - unfold block_unique in U. destruct sets; [discriminate|cbn; lia].
Qed.
(** Discontinuous variables are those marked, and their type is the one before the mark. *)
Lemma contains_app p : forall s, contains p (s ++ p) = true.
Proof.
  induction s as [|c s IH]; [apply contains_refl|]. cbn [append contains]. rewrite IH. apply orb_true_r.
Qed.
Lemma length_app : forall s t, String.length (s ++ t) = String.length s + String.length t.
Proof. induction s; intros; cbn; auto. Qed.
Lemma substring_app : forall s t, substring 0 (String.length s) (s ++ t) = s.
Proof. induction s as [|c s IH]; intros t; cbn; [destruct t; reflexivity|]. rewrite IH. reflexivity. Qed.
Theorem C219_discontinuous order n t :
  let v := make_var order {| d_name := n; d_type := t ++ "-DG" |} in v_type v = t /\ v_dg v = true.
Proof.
  cbv zeta. unfold make_var. cbn [d_name d_type v_type v_dg]. rewrite contains_app. split; [|reflexivity].
  unfold drop3. rewrite length_app. cbn [String.length]. rewrite Nat.add_sub. apply substring_app.
Qed.
Theorem C219_continuous order n t : contains "-DG" t = false ->
  let v := make_var order {| d_name := n; d_type := t |} in v_type v = t /\ v_dg v = false.
Proof. intro H. cbv zeta. unfold make_var. cbn [d_name d_type v_type v_dg]. rewrite H. auto. Qed.

Definition var (n t : string) (o : nat) : variable := {| v_name := n; v_type := t; v_dg := false; v_order := o |}.
Example C219_example :
  let sets := [[var "T" "HGRAD" 1; var "p" "HVOL" 0]; [var "ux" "HGRAD" 2; var "c" "HGRAD" 1]] in
  NoDup (map v_name (List.concat sets)) /\
  block_unique sets [("HVOL", 1)] = Some ([("HGRAD", 1); ("HVOL", 0); ("HGRAD", 2); ("HVOL", 1)], [0; 1; 2; 0]) /\
  get_unique_index sets [0; 1; 2; 0] 1 "ux" = 2.
Proof. cbv zeta. split; [|split; reflexivity]. cbn. repeat constructor; cbn; intuition discriminate. Qed.

(** *** C220 *)

(** When a name is used more than once but always with the same type and order. *)
Theorem C220_partial sets params u idx s vs v : block_unique sets params = Some (u, idx) ->
  nth_error sets s = Some vs -> In v vs ->
  (forall w, In w (List.concat sets) -> v_name w = v_name v -> v_type w = v_type v /\ v_order w = v_order v) ->
  nth_error (disc_bases (length sets) u) (get_unique_index sets idx s (v_name v)) = Some (v_type v, v_order v).
Proof.
  intros U S V A. assert (C : In v (List.concat sets)) by (apply in_concat; exists vs; split; auto; eapply nth_error_In, S).
  rewrite disc_bases_eq.
  - apply (index_ok sets params u idx U s v C). intros w W E. destruct (A w W E) as [A1 A2]. unfold pair_of. congruence.
  - destruct sets; [destruct s; discriminate|cbn; lia].
  - apply (unique_ok sets params u idx U).
Qed.
(** The set asked for is not looked at: the last set that has the name answers for all. *)
Theorem C220_refuted : exists sets u idx s vs v, block_unique sets [] = Some (u, idx) /\
  (forall ws, In ws sets -> NoDup (map v_name ws)) /\ nth_error sets s = Some vs /\ In v vs /\
  nth_error (disc_bases (length sets) u) (get_unique_index sets idx s (v_name v)) <> Some (v_type v, v_order v).
Proof.
  exists [[var "c" "HGRAD" 2]; [var "c" "HGRAD" 1]], [("HGRAD", 2); ("HGRAD", 1)], [0; 1], 0, [var "c" "HGRAD" 2], (var "c" "HGRAD" 2).
  split; [reflexivity|split; [|split; [reflexivity|split; [left; reflexivity|vm_compute; discriminate]]]].
  intros ws [<-|[<-|[]]]; cbn; repeat constructor; cbn; intuition.
Qed.
Example C220_example : let sets := [[var "c" "HGRAD" 1]; [var "d" "HVOL" 0; var "c" "HGRAD" 1]] in
  block_unique sets [] = Some ([("HGRAD", 1); ("HVOL", 0)], [0; 1; 0]) /\ get_unique_index sets [0; 1; 0] 0 "c" = 0.
Proof. split; reflexivity. Qed.

(** *** C221 *)

Lemma usebasis_nth u : NoDup u -> forall params i p, (forall q, In q params -> In q u) -> nth_error params i = Some p ->
  exists k, nth_error (flat_map (matches u) params) i = Some k /\ nth_error u k = Some p.
Proof.
  intro N. induction params as [|q params IH]; intros i p H E; [destruct i; discriminate|].
  destruct (matches_one u q N (H q (or_introl eq_refl))) as (k & M & K). cbn [flat_map]. rewrite M. cbn [app].
  destruct i as [|i]; cbn in E |- *; [injection E as <-; exists k; auto|]. apply IH; auto. intros; apply H; right; auto.
Qed.
(** On every block whose bases begin with those of the first block, so in particular on the first. *)
Theorem C221_partial sets0 params u0 idx0 blocks rest b more i p : block_unique sets0 params = Some (u0, idx0) ->
  blocks = u0 :: rest -> In b blocks -> b = (u0 ++ more)%list -> nth_error params i = Some p ->
  exists k, nth_error (param_usebasis blocks params) i = Some k /\ nth_error b k = Some p.
Proof.
  intros U -> B -> E. destruct (unique_ok _ _ _ _ U) as (N & _ & P & _).
  destruct (usebasis_nth u0 N params i p P E) as (k & K1 & K2). exists k. split; [exact K1|].
  rewrite nth_error_app1; auto. apply nth_error_Some. congruence.
Qed.
(** The place in the first block's list is used on the other blocks too. *)
Theorem C221_refuted : exists sets0 sets1 params u0 i0 u1 i1 k p,
  block_unique sets0 params = Some (u0, i0) /\ block_unique sets1 params = Some (u1, i1) /\
  nth_error params 0 = Some p /\ nth_error (param_usebasis [u0; u1] params) 0 = Some k /\ nth_error u1 k <> Some p.
Proof.
  exists [[var "T" "HGRAD" 1]], [[var "T" "HGRAD" 2]], [("HGRAD", 1)], [("HGRAD", 1)], [0], [("HGRAD", 2); ("HGRAD", 1)], [0], 0, ("HGRAD", 1).
  repeat split; try reflexivity. vm_compute. discriminate.
Qed.
(** Even outside the list. *)
Theorem C221_outside_refuted : exists sets0 sets1 params u0 i0 u1 i1 k,
  block_unique sets0 params = Some (u0, i0) /\ block_unique sets1 params = Some (u1, i1) /\
  nth_error (param_usebasis [u0; u1] params) 0 = Some k /\ nth_error u1 k = None.
Proof.
  exists [[var "T" "HGRAD" 1; var "p" "HVOL" 0; var "u" "HDIV" 1]], [[var "T" "HGRAD" 1]], [("HVOL", 1)],
    [("HGRAD", 1); ("HVOL", 0); ("HDIV", 1); ("HVOL", 1)], [0; 1; 2], [("HGRAD", 1); ("HVOL", 1)], [0], 3.
  repeat split; reflexivity.
Qed.
Example C221_example : let u0 := [("HGRAD", 1); ("HVOL", 0)] in
  block_unique [[var "T" "HGRAD" 1]] [("HVOL", 0)] = Some (u0, [0]) /\ param_usebasis [u0; (u0 ++ [("HDIV", 1)])%list] [("HVOL", 0)] = [1].
Proof. split; reflexivity. Qed.

(** *** C222 *)

Fixpoint join (l : list string) : string :=
  match l with [] => "" | [s] => s | s :: r => s ++ ", " ++ join r end.

Lemma append_assoc : forall a b c : string, (a ++ b) ++ c = a ++ (b ++ c).
Proof. induction a; intros; cbn; [|rewrite IHa]; auto. Qed.
Lemma append_nil : forall a : string, a ++ "" = a.
Proof. induction a; cbn; [|rewrite IHa]; auto. Qed.

Lemma split_cons c r acc : (c = "," -> forall r', r <> String " " r')%char -> split_list acc (String c r) = split_list (acc ++ String c "") r.
Proof.
  intro H. cbn [split_list]. destruct c as [[] [] [] [] [] [] [] []]; try reflexivity.
  destruct r as [|d r]; [reflexivity|]. destruct d as [[] [] [] [] [] [] [] []]; try reflexivity.
  exfalso. apply (H eq_refl r). reflexivity.
Qed.
Lemma contains_tail p c s : contains p (String c s) = false -> contains p s = false.
Proof. cbn [contains]. intro H. apply orb_false_iff in H. tauto. Qed.
Lemma no_comma c r : contains ", " (String c r) = false -> (c = "," -> forall r', r <> String " " r')%char.
Proof. intros H -> r' ->. destruct r'; cbn in H; discriminate. Qed.
Lemma split_name : forall s acc, contains ", " s = false -> split_list acc s = [acc ++ s].
Proof.
  induction s as [|c s IH]; intros acc H; [cbn; rewrite append_nil; reflexivity|].
  rewrite split_cons by (apply no_comma; exact H). rewrite IH by (eapply contains_tail, H). rewrite append_assoc. reflexivity.
Qed.
Lemma split_first : forall s acc r, contains ", " s = false -> split_list acc (s ++ ", " ++ r) = (acc ++ s) :: split_list "" r.
Proof.
  induction s as [|c s IH]; intros acc r H; [cbn; rewrite append_nil; reflexivity|].
  change (String c s ++ ", " ++ r) with (String c (s ++ ", " ++ r)). rewrite split_cons.
  - rewrite IH by (eapply contains_tail, H). rewrite append_assoc. reflexivity.
  - intros C r'. pose proof (no_comma c s H C) as X. destruct s as [|d s]; cbn; [congruence|]. intro E. injection E as -> E. apply (X s). reflexivity.
Qed.
(** A list of names separated by a comma and a blank is read back name by name. *)
Theorem C222_names l : l <> [] -> Forall (fun s => contains ", " s = false) l -> breakup (join l) = l.
Proof.
  unfold breakup. induction l as [|s l IH]; intros H F; [congruence|]. inversion F as [|? ? F1 F2]; subst.
  destruct l as [|t l]; cbn [join].
  - apply (split_name s ""). exact F1.
  - rewrite (split_first s "" _ F1). cbn [append]. f_equal. apply IH; [discriminate|exact F2].
Qed.
(** Names of modules: the class made for each. *)
Definition names_class (n c : string) : Prop := exists al, In (al, c) module_table /\ In n al.
Lemma eqb_self n : String.eqb n n = true.
Proof. apply String.eqb_refl. Qed.
Theorem C222_import ns : Forall (fun n => exists c, names_class n c) ns -> Forall2 names_class ns (import ns).
Proof.
  induction 1 as [|n ns (c & al & T & A) F IH]; [constructor|]. unfold import in *. cbn [flat_map].
  assert (E : import_one n = [c]).
  { revert T. unfold module_table. cbn [In]. intro T.
    repeat (destruct T as [[= <- <-]|T]; [cbn [In] in A; repeat (destruct A as [<-|A]; [reflexivity|]); destruct A|]). destruct T. }
  rewrite E. cbn [app]. constructor; [exists al; auto|exact IH].
Qed.
(** No name stands for two classes. *)
Theorem C222_unambiguous n c c' : names_class n c -> names_class n c' -> c = c'.
Proof.
  intros H H'. assert (F : Forall2 names_class [n] (import [n])) by (apply C222_import; repeat constructor; exists c; auto).
  assert (G : forall d, names_class n d -> import [n] = [d]).
  { clear. intros d (al & T & A). unfold import. cbn [flat_map]. revert T. unfold module_table at 1. cbn [In]. intro T.
    repeat (destruct T as [[= <- <-]|T]; [cbn [In] in A; repeat (destruct A as [<-|A]; [reflexivity|]); destruct A|]). destruct T. }
  pose proof (G c H) as X. rewrite (G c' H') in X. congruence.
Qed.
Example C222_example : breakup "thermal, navier stokes, CDR" = ["thermal"; "navier stokes"; "CDR"] /\
  import ["thermal"; "navier stokes"; "CDR"] = ["thermal"; "navierstokes"; "cdr"].
Proof. split; reflexivity. Qed.

(** *** C223 *)

(** Reported when nothing is left at all: no name is known and no variables are added. *)
Theorem C223_partial vars_of order names params : Forall (fun n => forall c, ~ names_class n c) names ->
  block_unique [block_vars vars_of order (import names) []] params = None.
Proof.
  intro F. replace (import names) with (@nil string); [reflexivity|]. induction F as [|n ns H F IH]; [reflexivity|].
  unfold import in *. cbn [flat_map]. rewrite <- IH, app_nil_r. unfold import_one.
  assert (G : forall t, (forall al c, In (al, c) t -> In (al, c) module_table) ->
    flat_map (fun e : list string * string => if existsb (String.eqb n) (fst e) then [snd e] else []) t = []).
  { induction t as [|[al c] t IHt]; intro S; [reflexivity|]. cbn [flat_map fst snd]. destruct (existsb (String.eqb n) al) eqn:E.
    - exfalso. apply existsb_exists in E. destruct E as (m & M & E). apply String.eqb_eq in E. subst. apply (H c). exists al. split; auto. apply S. left. auto.
    - apply IHt. intros; apply S; right; auto. }
  symmetry. apply G. auto.
Qed.
(** A misspelt name beside a good one is passed over. *)
Theorem C223_refuted vars_of order d : vars_of "thermal" = [d] -> 
  let names := breakup "thermal, navier-stokes" in (exists n, In n names /\ forall c, ~ names_class n c) /\
  block_unique [block_vars vars_of order (import names) []] [] = block_unique [block_vars vars_of order (import ["thermal"]) []] [] /\
  block_unique [block_vars vars_of order (import names) []] [] <> None.
Proof.
  intros E names. split; [|split; [reflexivity|]].
  - exists "navier-stokes". split; [right; left; reflexivity|]. intros c (al & T & A). revert T. unfold module_table. cbn [In]. intro T.
    repeat (destruct T as [[= <- <-]|T]; [cbn [In] in A; repeat (destruct A as [A|A]; [discriminate|]); destruct A|]). destruct T.
  - change (import names) with ["thermal"]. unfold block_vars. cbn [flat_map]. rewrite E. cbn. discriminate.
Qed.
(** A comma without a blank joins two good names into one that is unknown. *)
Theorem C223_comma_refuted : breakup "thermal, stokes,cdr" = ["thermal"; "stokes,cdr"] /\ import (breakup "thermal, stokes,cdr") = ["thermal"].
Proof. split; reflexivity. Qed.
Example C223_example : Forall (fun n => forall c, ~ names_class n c) ["heat"].
Proof.
  repeat constructor. intros c (al & T & A). revert T. unfold module_table. cbn [In]. intro T.
  repeat (destruct T as [[= <- <-]|T]; [cbn [In] in A; repeat (destruct A as [A|A]; [discriminate|]); destruct A|]). destruct T.
Qed.
Example C223_refuted_example : (fun s : string => [{| d_name := "T"; d_type := "HGRAD" |}]) "thermal" = [{| d_name := "T"; d_type := "HGRAD" |}].
Proof. reflexivity. Qed.

(** *** C224 *)

(** A list given for the block: a sublist whose name has the block's name in it. *)
Definition for_block (l : plist) (b : string) (n : string) (sl : plist) : Prop := In (n, Node sl) l /\ contains b n = true.

Definition base_of (l acc : plist) : plist := fold_left (fun acc e => if is_leaf (snd e) then set_entry (fst e) (snd e) acc else acc) l acc.
Definition over (b : string) (l acc : plist) : plist :=
  fold_left (fun acc e => match snd e with Node sl => if contains b (fst e) then overlay acc sl else acc | Leaf _ => acc end) l acc.
Lemma block_functions_eq l b : block_functions l b = over b l (base_of l []).
Proof. reflexivity. Qed.
Lemma base_lookup k : forall l acc, NoDup (map fst l) ->
  lookup k (base_of l acc) = match lookup k l with Some (Leaf v) => Some (Leaf v) | _ => lookup k acc end.
Proof.
  induction l as [|[n a] l IH]; intros acc N; [reflexivity|]. unfold base_of. cbn [fold_left fst snd]. fold (base_of l).
  inversion N as [|? ? N1 N2]; subst. fold (base_of l (if is_leaf a then set_entry n a acc else acc)). rewrite IH by auto. cbn [lookup].
  destruct (string_dec n k) as [->|D].
  - rewrite lookup_none by auto. destruct a as [v|sl]; cbn [is_leaf]; auto. rewrite lookup_set. destruct (string_dec k k); congruence.
  - destruct (lookup k l) as [[v|sl]|]; auto; destruct a as [w|sl']; cbn [is_leaf]; auto; rewrite lookup_set; destruct (string_dec n k); congruence.
Qed.
Lemma over_none b k : forall l acc, (forall n sl, for_block l b n sl -> NoDup (map fst sl) /\ lookup k sl = None) -> lookup k (over b l acc) = lookup k acc.
Proof.
  induction l as [|[n a] l IH]; intros acc H; [reflexivity|]. unfold over. cbn [fold_left fst snd].
  match goal with |- lookup k (fold_left _ l ?x) = _ => change (lookup k (over b l x) = lookup k acc) end.
  rewrite IH.
  - destruct a as [v|sl]; auto. destruct (contains b n) eqn:E; auto. destruct (H n sl (conj (or_introl eq_refl) E)) as [N K].
    rewrite overlay_lookup, K by auto. reflexivity.
  - intros m sl [I E]. apply (H m sl). split; [right; auto|auto].
Qed.
Lemma over_app b l1 l2 acc : over b (l1 ++ l2)%list acc = over b l2 (over b l1 acc).
Proof. apply fold_left_app. Qed.

(** A function not given for the block is the general one, and there is none if it is nowhere. *)
Theorem C224_general l b k : NoDup (map fst l) -> (forall n sl, for_block l b n sl -> NoDup (map fst sl) /\ lookup k sl = None) ->
  lookup k (block_functions l b) = match lookup k l with Some (Leaf v) => Some (Leaf v) | _ => None end.
Proof. intros N H. rewrite block_functions_eq, over_none by exact H. apply base_lookup. exact N. Qed.
(** One given for the block replaces it; if there are several, the last one counts. *)
Theorem C224_own l l1 l2 b n sl k a : l = (l1 ++ (n, Node sl) :: l2)%list -> contains b n = true -> NoDup (map fst sl) -> lookup k sl = Some a ->
  (forall m tl, for_block l2 b m tl -> NoDup (map fst tl) /\ lookup k tl = None) ->
  lookup k (block_functions l b) = Some a.
Proof.
  intros -> C N K H. rewrite block_functions_eq. change ((n, Node sl) :: l2) with ([(n, Node sl)] ++ l2)%list. rewrite !over_app.
  rewrite over_none by exact H. unfold over at 1. cbn [fold_left fst snd]. rewrite C, overlay_lookup, K by exact N. reflexivity.
Qed.
Example C224_example : let l := [("source", Leaf (Str "1.0")); ("left, middle", Node [("source", Leaf (Str "x"))]); ("k", Leaf (Str "2.0"))] in
  lookup "source" (block_functions l "left") = Some (Leaf (Str "x")) /\ lookup "source" (block_functions l "middle") = Some (Leaf (Str "x")) /\
  lookup "source" (block_functions l "right") = Some (Leaf (Str "1.0")) /\ lookup "k" (block_functions l "left") = Some (Leaf (Str "2.0")).
Proof. repeat split; reflexivity. Qed.

(** *** C225 *)

(** A block has no function of another block, as long as no list for others has its name inside. *)
Theorem C225_partial l b k : NoDup (map fst l) -> exact_names l b -> is_sublist b l = false ->
  lookup k (block_functions l b) = match lookup k l with Some (Leaf v) => Some (Leaf v) | _ => None end.
Proof.
  intros N X S. apply C224_general; auto. intros n sl [I E]. exfalso. pose proof (X n sl I E) as ->.
  unfold is_sublist in S. rewrite (in_lookup _ _ _ N I) in S. discriminate.
Qed.
Theorem C225_refuted : exists l b b' k, NoDup (map fst l) /\ b <> b' /\ is_sublist b l = false /\ is_sublist b' l = true /\
  lookup k (block_functions l b) <> lookup k l.
Proof.
  exists [("source", Leaf (Str "1.0")); ("eblock-10", Node [("source", Leaf (Str "x"))])], "eblock-1", "eblock-10", "source".
  split; [|split; [|split; [|split]]]; try reflexivity; try (vm_compute; discriminate).
  cbn. repeat constructor; cbn; intuition discriminate.
Qed.
Example C225_example : let l := [("source", Leaf (Str "1.0")); ("left", Node [("source", Leaf (Str "x"))])] in
  NoDup (map fst l) /\ exact_names l "right" /\ is_sublist "right" l = false /\ lookup "source" (block_functions l "right") = Some (Leaf (Str "1.0")).
Proof.
  cbv zeta. split; [|split; [|split; reflexivity]].
  - cbn. repeat constructor; cbn; intuition discriminate.
  - intros n sl [[=]|[[= <- <-]|[]]]. cbn. discriminate.
Qed.

(** *** C226, C227 *)

Definition given (n : string) (x : bval) (l : list (string * bval)) : Prop :=
  exists l1 l2, l = (l1 ++ (n, x) :: l2)%list /\ ~ In n (map fst l1).
Lemma given_assoc n x l : given n x l -> assoc n l = Some x.
Proof.
  intros (l1 & l2 & -> & H). induction l1 as [|[m y] l1 IH]; cbn; [destruct (string_dec n n); congruence|].
  destruct (string_dec m n) as [->|D]; [destruct H; left; reflexivity|]. apply IH. intro. apply H. right. auto.
Qed.
Lemma absent_assoc {A} n (l : list (string * A)) : ~ In n (map fst l) -> assoc n l = None.
Proof. induction l as [|[m y] l IH]; cbn; intro H; auto. destruct (string_dec m n); [destruct H; auto|]. apply IH. tauto. Qed.

(** A formula is taken as it stands; a number with at most six decimals keeps its value; a variable
    without a value starts from zero. *)
Theorem C226_formula ic v t : given v (VStr t) ic -> initial_entry ic v = EText t.
Proof. intro H. unfold initial_entry. rewrite (given_assoc _ _ _ H). reflexivity. Qed.
Lemma round_whole z d : round_even (Qmake (z * Zpos d) d) = z.
Proof.
  unfold round_even. cbn [Qnum Qden]. rewrite Z.div_mul by lia.
  replace (2 * (z * Z.pos d - z * Z.pos d))%Z with 0%Z by lia. reflexivity.
Qed.
Theorem C226_number ic v q z : given v (VDbl q) ic -> q == inject_Z z / 1000000 -> exists r, initial_entry ic v = ENum r /\ r == q.
Proof.
  intros H E. unfold initial_entry. rewrite (given_assoc _ _ _ H). unfold to_string. eexists. split; [reflexivity|].
  rewrite Qred_correct.
  assert (R : round_even (q * 1000000) = z).
  { destruct q as [n d]. unfold Qeq in E. cbn in E. unfold Qmult. cbn [Qnum Qden].
    assert (Z : (n * 1000000 = z * Zpos d)%Z) by lia. change (1000000%Q) with (1000000 # 1). cbn [Qnum Qden]. rewrite Z, Pos.mul_1_r. apply round_whole. }
  rewrite R. symmetry. exact E.
Qed.
Theorem C226_absent ic v : ~ In v (map fst ic) -> initial_entry ic v = EText "0.0".
Proof. intro H. unfold initial_entry. rewrite absent_assoc by auto. reflexivity. Qed.
Example C226_example : let ic := [("p", VStr "sin(x)"); ("T", VDbl (5 # 4))] in
  given "T" (VDbl (5 # 4)) ic /\ (5 # 4) == inject_Z 1250000 / 1000000 /\ initial_entry ic "T" = ENum (5 # 4) /\ initial_entry ic "q" = EText "0.0".
Proof.
  cbv zeta. split; [|repeat split; reflexivity]. exists [("p", VStr "sin(x)")], []. split; [reflexivity|]. cbn. intuition discriminate.
Qed.
(** Every number: within half of the sixth decimal (BCond_Model.to_string), but not exactly,
    and a whole number written without a point is dropped. *)
Theorem C227_small_refuted : exists ic v q r, given v (VDbl q) ic /\ ~ q == 0 /\ initial_entry ic v = ENum r /\ r == 0.
Proof.
  exists [("c", VDbl (1 # 100000000))], "c", (1 # 100000000), 0%Q. split; [exists [], []; split; [reflexivity|tauto]|].
  split; [intro H; discriminate H|split; reflexivity].
Qed.
Theorem C227_integer_refuted ic v z : given v (VInt z) ic -> initial_entry ic v = EText "0.0".
Proof. intro H. unfold initial_entry. rewrite (given_assoc _ _ _ H). reflexivity. Qed.
Example C227_integer_example : given "T" (VInt 300) [("T", VInt 300)].
Proof. exists [], []. split; [reflexivity|tauto]. Qed.
Lemma round_near q : (-(1 # 2) <= inject_Z (round_even q) - q <= (1 # 2))%Q.
Proof.
  destruct q as [n d]. unfold round_even. cbn [Qnum Qden]. pose proof (Z.div_mod n (Zpos d) ltac:(lia)) as D.
  pose proof (Z.mod_pos_bound n (Zpos d) ltac:(lia)) as B. set (f := (n / Zpos d)%Z) in *.
  assert (X : forall g, (-(Zpos d) <= 2 * (g * Zpos d - n) <= Zpos d)%Z -> (-(1 # 2) <= inject_Z g - (n # d) <= (1 # 2))%Q).
  { intros g G. unfold inject_Z, Qminus, Qplus, Qopp, Qle. cbn [Qnum Qden]. rewrite ?Pos.mul_1_l, ?Pos2Z.inj_mul. split; nia. }
  destruct (Z.ltb_spec (2 * (n - f * Zpos d)) (Zpos d)); [apply X; nia|].
  destruct (Z.ltb_spec (Zpos d) (2 * (n - f * Zpos d))); [apply X; nia|]. destruct (Z.even f); apply X; nia.
Qed.
Theorem C227_partial ic v q : given v (VDbl q) ic -> exists r, initial_entry ic v = ENum r /\ (-(1 # 2000000) <= r - q <= (1 # 2000000))%Q.
Proof.
  intro H. unfold initial_entry. rewrite (given_assoc _ _ _ H). unfold to_string. eexists. split; [reflexivity|].
  rewrite Qred_correct. pose proof (round_near (q * 1000000)) as [A B]. set (z := inject_Z (round_even (q * 1000000))) in *.
  assert (E : (z / 1000000 - q == (z - q * 1000000) * (1 # 1000000))%Q) by field.
  rewrite E. split.
  - apply Qle_trans with (-(1 # 2) * (1 # 1000000))%Q; [discriminate|]. apply Qmult_le_compat_r; [exact A|discriminate].
  - apply Qle_trans with ((1 # 2) * (1 # 1000000))%Q; [|discriminate]. apply Qmult_le_compat_r; [exact B|discriminate].
Qed.

(** *** C228 *)

Theorem C228_partial w v : (forall q, given v (VDbl q) w -> weight w v = q) /\ (~ In v (map fst w) -> weight w v = 1%Q).
Proof. split; [intros q H; unfold weight; rewrite (given_assoc _ _ _ H)|intro H; unfold weight; rewrite absent_assoc by auto]; reflexivity. Qed.
(** A weight written as a whole number is passed over. *)
Theorem C228_refuted : exists w v z, given v (VInt z) w /\ ~ weight w v == inject_Z z.
Proof. exists [("p", VInt 100)], "p", 100%Z. split; [exists [], []; split; [reflexivity|tauto]|]. vm_compute. discriminate. Qed.
Example C228_example : weight [("p", VDbl (100 # 1))] "p" = (100 # 1) /\ weight [("p", VDbl (100 # 1))] "T" = 1%Q.
Proof. split; reflexivity. Qed.

Print Assumptions C219_own_basis.
Print Assumptions C219_bases.
Print Assumptions C219_discontinuous.
Print Assumptions C219_continuous.
Print Assumptions C220_partial.
Print Assumptions C220_refuted.
Print Assumptions C221_partial.
Print Assumptions C221_refuted.
Print Assumptions C221_outside_refuted.
Print Assumptions C222_names.
Print Assumptions C222_import.
Print Assumptions C222_unambiguous.
Print Assumptions C223_partial.
Print Assumptions C223_refuted.
Print Assumptions C223_comma_refuted.
Print Assumptions C224_general.
Print Assumptions C224_own.
Print Assumptions C225_partial.
Print Assumptions C225_refuted.
Print Assumptions C226_formula.
Print Assumptions C226_number.
Print Assumptions C226_absent.
Print Assumptions C227_small_refuted.
Print Assumptions C227_integer_refuted.
Print Assumptions C227_partial.
Print Assumptions C228_partial.
Print Assumptions C228_refuted.
