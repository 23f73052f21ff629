(** C319, C320 (responses of a realization), C321 (weighted norm), C322 (output after an
    optimization). *)
From Coq Require Import Bool Arith Lia Reals Lra List Permutation.
From Verif Require Import Respond_Model.
Import ListNotations.
Local Open Scope R_scope.

(** *** Arrays *)

Lemma array_fold (ws : list (nat * R)) (k : nat) : forall a : R, ~ In k (map fst ws) -> fold_left (fun a w => if Nat.eqb (fst w) k then snd w else a) ws a = a.
Proof.
  induction ws as [|w ws IH]; intros a H; [reflexivity|]. cbn [fold_left map In] in *. destruct (Nat.eqb_spec (fst w) k); [exfalso; apply H; auto|]. apply IH. tauto.
Qed.
Lemma array_out ws k : ~ In k (map fst ws) -> array_of ws k = 0.
Proof. intro H. unfold array_of. apply array_fold. exact H. Qed.
Lemma array_in : forall ws k v, NoDup (map fst ws) -> In (k, v) ws -> array_of ws k = v.
Proof.
  intros ws k v. unfold array_of. generalize 0. induction ws as [|w ws IH]; intros a N I; [destruct I|]. cbn [map] in N. apply NoDup_cons_iff in N as [N1 N2].
  cbn [fold_left]. destruct I as [->|I].
  - cbn [fst snd] in *. rewrite Nat.eqb_refl. apply array_fold. exact N1.
  - apply IH; auto.
Qed.

(** *** Positions *)

Definition size_of (o : resp_obj) : nat := match o with Sens f L _ => length f * L | Integ T _ => T | Control => 0 end.
Definition collected (o : resp_obj) : Prop := o <> Control.

Lemma ids_nodup f : NoDup (sensor_ids f).
Proof. apply NoDup_filter, seq_NoDup. Qed.
Lemma ids_in f s : In s (sensor_ids f) <-> (s < length f)%nat /\ nth s f false = true.
Proof. unfold sensor_ids. rewrite filter_In, in_seq. intuition lia. Qed.

Lemma writes_range off o k : In k (map fst (resp_writes off o)) -> (off <= k < off + size_of o)%nat.
Proof.
  destruct o as [f L v|T v|]; cbn [resp_writes size_of]; [| |intros []].
  - intro H. apply in_map_iff in H. destruct H as ((k', x) & E & H). cbn in E. subst k'. apply in_flat_map in H. destruct H as (i & I & H).
    apply in_map_iff in H. destruct H as (c & E & C). injection E as <- _. apply in_seq in C. apply in_seq in I.
    assert (J : In (nth i (sensor_ids f) 0%nat) (sensor_ids f)) by (apply nth_In; lia). apply ids_in in J. nia.
  - rewrite map_map. cbn [fst]. intro H. apply in_map_iff in H. destruct H as (t & <- & H). apply in_seq in H. lia.
Qed.
Lemma seq_map_nodup n (f : nat -> nat) : (forall a b, (a < n)%nat -> (b < n)%nat -> f a = f b -> a = b) -> NoDup (map f (seq 0 n)).
Proof.
  intro H. assert (G : forall l, NoDup l -> (forall x, In x l -> (x < n)%nat) -> NoDup (map f l)).
  { induction l as [|a l IH]; intros N B; [constructor|]. apply NoDup_cons_iff in N as [N1 N2]. cbn [map]. constructor; [|apply IH; auto; intros; apply B; right; auto].
    intro I. apply in_map_iff in I. destruct I as (b & E & I). assert (b = a) by (apply H; auto; apply B; [right|left]; auto). congruence. }
  apply G; [apply seq_NoDup|]. intros x I. apply in_seq in I. lia.
Qed.
Lemma nodup_app {A} (l1 l2 : list A) : NoDup l1 -> NoDup l2 -> (forall x, In x l1 -> In x l2 -> False) -> NoDup (l1 ++ l2).
Proof.
  induction l1 as [|a l1 IH]; intros A1 A2 D; [auto|]. apply NoDup_cons_iff in A1 as [N1 N2]. cbn [app]. constructor.
  - rewrite in_app_iff. intros [I|I]; [auto|]. eapply D; [left; reflexivity|exact I].
  - apply IH; auto. intros x X1 X2. eapply D; [right; exact X1|exact X2].
Qed.
Lemma flat_nodup {A B} (f : A -> list B) l : NoDup l -> (forall a, In a l -> NoDup (f a)) -> (forall a b x, In a l -> In b l -> In x (f a) -> In x (f b) -> a = b) -> NoDup (flat_map f l).
Proof.
  induction l as [|a l IH]; intros N F D; [constructor|]. apply NoDup_cons_iff in N as [N1 N2]. cbn [flat_map]. apply nodup_app.
  - apply F. left. auto.
  - apply IH; auto; [intros; apply F; right; auto|]. intros b c x Hb Hc X Y. eapply D; eauto; right; auto.
  - intros x X Y. apply in_flat_map in Y. destruct Y as (b & Hb & Y). assert (a = b) by (eapply D; eauto; [left|right]; auto). congruence.
Qed.
Lemma map_flat {A B C} (g : B -> C) (f : A -> list B) l : map g (flat_map f l) = flat_map (fun a => map g (f a)) l.
Proof. induction l as [|a l IH]; [reflexivity|]. cbn [flat_map]. rewrite map_app, IH. reflexivity. Qed.
Lemma writes_nodup off o : NoDup (map fst (resp_writes off o)).
Proof.
  destruct o as [f L v|T v|]; cbn [resp_writes]; [| |constructor].
  - rewrite map_flat. apply flat_nodup; [apply seq_NoDup| |].
    + intros i _. rewrite map_map. cbn [fst]. apply seq_map_nodup. intros; lia.
    + intros i j x I J X Y. rewrite map_map in X, Y. cbn [fst] in X, Y. apply in_map_iff in X. destruct X as (c & X & C). apply in_map_iff in Y. destruct Y as (d & Y & D).
      apply in_seq in C, D, I, J. assert (E : nth i (sensor_ids f) 0%nat = nth j (sensor_ids f) 0%nat) by nia.
      apply (proj1 (NoDup_nth (sensor_ids f) 0%nat) (ids_nodup f)); auto; lia.
  - rewrite map_map. cbn [fst]. apply seq_map_nodup. intros; lia.
Qed.

(** Offset of each objective. *)
Definition total (os : list resp_obj) : nat := list_sum (map size_of os).
Lemma fill_spec : forall os sizes j off, Forall collected os -> (forall i, (i < length os)%nat -> nth_error sizes (j + i) = Some (size_of (nth i os Control))) ->
  exists ws, resp_fill sizes j off os = Some ws /\ NoDup (map fst ws) /\ (forall k, In k (map fst ws) -> (off <= k < off + total os)%nat) /\
  (forall i kv, (i < length os)%nat -> In kv (resp_writes (off + total (firstn i os)) (nth i os Control)) -> In kv ws) /\
  (forall k, In k (map fst ws) -> exists i, (i < length os)%nat /\ In k (map fst (resp_writes (off + total (firstn i os)) (nth i os Control)))).
Proof.
  induction os as [|o os IH]; intros sizes j off C S.
  - exists []. repeat split; try constructor; cbn; try tauto; intros; lia.
  - inversion C; subst. cbn [resp_fill]. assert (S0 := S 0%nat ltac:(cbn; lia)). rewrite Nat.add_0_r in S0. cbn [nth] in S0. rewrite S0.
    destruct (IH sizes (Datatypes.S j) (off + size_of o)%nat) as (ws & E & N & R & I & K); [auto| |].
    { intros i Hi. specialize (S (Datatypes.S i)). cbn [length nth] in S. replace (Datatypes.S j + i)%nat with (j + Datatypes.S i)%nat by lia. apply S. lia. }
    rewrite E. cbn [option_map]. exists (resp_writes off o ++ ws). change (total (o :: os)) with (size_of o + total os)%nat. repeat split.
    + rewrite map_app. apply nodup_app; [apply writes_nodup|exact N|]. intros x X Y. apply writes_range in X. apply R in Y. lia.
    + rewrite map_app in H. apply in_app_iff in H. destruct H as [H|H]; [apply writes_range in H; lia|apply R in H; lia].
    + rewrite map_app in H. apply in_app_iff in H. destruct H as [H|H]; [apply writes_range in H; lia|apply R in H; lia].
    + intros i kv Hi H. apply in_app_iff. destruct i as [|i]; cbn [firstn nth] in H.
      * left. replace (off + total [])%nat with off in H by (cbn; lia). exact H.
      * right. apply (I i); [cbn in Hi; lia|]. change (total (o :: firstn i os)) with (size_of o + total (firstn i os))%nat in H. rewrite Nat.add_assoc in H. exact H.
    + intros k H. rewrite map_app in H. apply in_app_iff in H. destruct H as [H|H].
      * exists 0%nat. split; [cbn; lia|]. cbn [firstn nth]. replace (off + total [])%nat with off by (cbn; lia). exact H.
      * destruct (K k H) as (i & Hi & W). exists (Datatypes.S i). split; [cbn; lia|]. cbn [firstn nth]. change (total (o :: firstn i os)) with (size_of o + total (firstn i os))%nat. rewrite Nat.add_assoc. exact W.
Qed.
Lemma sizes_collected : forall os, Forall collected os -> resp_sizes os = map size_of os.
Proof. induction os as [|o os IH]; intro C; [reflexivity|]. inversion C as [|? ? C1 C2]; subst. destruct o; [| |exfalso; apply C1; reflexivity]; cbn [resp_sizes flat_map app map size_of]; fold (resp_sizes os); rewrite IH; auto. Qed.
Lemma firstn_total : forall os i j, (i < j)%nat -> (j < length os)%nat -> (total (firstn i os) + size_of (nth i os Control) <= total (firstn j os))%nat.
Proof.
  induction os as [|o os IH]; intros i j A B; cbn [length] in B; [lia|]. destruct j as [|j]; [lia|]. destruct i as [|i]; cbn [firstn nth].
  - change (total (o :: firstn j os)) with (size_of o + total (firstn j os))%nat. cbn. lia.
  - change (total (o :: firstn j os)) with (size_of o + total (firstn j os))%nat. change (total (o :: firstn i os)) with (size_of o + total (firstn i os))%nat. specialize (IH i j ltac:(lia) ltac:(lia)). lia.
Qed.

(** One process: what it puts at entry [k] of objective [i]. *)
Lemma local_spec os : Forall collected os -> exists a, resp_local os = Some a /\
  forall i k, (i < length os)%nat -> (k < size_of (nth i os Control))%nat ->
    (forall x, In ((total (firstn i os) + k)%nat, x) (resp_writes (total (firstn i os)) (nth i os Control)) -> a (total (firstn i os) + k)%nat = x) /\
    (~ In (total (firstn i os) + k)%nat (map fst (resp_writes (total (firstn i os)) (nth i os Control))) -> a (total (firstn i os) + k)%nat = 0).
Proof.
  intro C. destruct (fill_spec os (resp_sizes os) 0 0 C) as (ws & E & N & R & I & K).
  { intros i Hi. rewrite (sizes_collected os C). cbn [Nat.add]. rewrite nth_error_map, (nth_error_nth' os Control Hi). reflexivity. }
  unfold resp_local. destruct (Nat.ltb_spec 0 (list_sum (resp_sizes os))) as [G|G].
  2:{ exists (fun _ => 0). split; [reflexivity|]. intros i k Hi Hk. exfalso. rewrite (sizes_collected os C) in G. fold (total os) in G.
      assert (B : forall l n, In n l -> (n <= list_sum l)%nat) by (induction l as [|a l IHl]; intros n H; [destruct H|destruct H as [-> | H]; cbn; [lia|specialize (IHl n H); unfold list_sum in *; lia]]).
      specialize (B (map size_of os) (size_of (nth i os Control)) (in_map _ _ _ (nth_In os Control Hi))). unfold total in G. lia. }
  exists (array_of ws). rewrite E. split; [reflexivity|]. intros i k Hi Hk. split.
  - intros x H. apply array_in; auto. apply (I i); auto.
  - intro H. apply array_out. intro F. apply H. destruct (K _ F) as (j & Hj & W). cbn [Nat.add] in W. destruct (Nat.lt_trichotomy i j) as [L|[->|L]]; auto; exfalso.
    + apply writes_range in W. pose proof (firstn_total os i j L Hj). lia.
    + apply writes_range in W. pose proof (firstn_total os j i L Hi). lia.
Qed.

(** *** C319 *)

Fixpoint sum_over {A} (f : A -> R) (l : list A) : R := match l with [] => 0 | a :: l => f a + sum_over f l end.
(** Number of own sensors before sensor [s]. *)
Definition rank (f : list bool) (s : nat) : nat := length (filter (fun b => b) (firstn s f)).
(** What a process contributes to entry [c] of sensor [s], to time [t]. *)
Definition sensor_part (o : resp_obj) (s c : nat) : R := match o with Sens f _ v => if nth s f false then v (rank f s) c else 0 | _ => 0 end.
Definition integ_part (o : resp_obj) (t : nat) : R := match o with Integ _ v => v t | _ => 0 end.

Lemma filter_seq_shift (f : list bool) : forall n a, filter (fun s => nth s (false :: f) false) (seq (S a) n) = map S (filter (fun s => nth s f false) (seq a n)).
Proof. induction n as [|n IH]; intro a; [reflexivity|]. cbn [seq filter nth]. destruct (nth a f false); cbn [map]; rewrite IH; reflexivity. Qed.
Lemma ids_cons b f : sensor_ids (b :: f) = (if b then [0%nat] else []) ++ map S (sensor_ids f).
Proof.
  pose proof (filter_seq_shift f (length f) 0) as E.
  assert (X : filter (fun s => nth s (b :: f) false) (seq 1 (length f)) = map S (filter (fun s => nth s f false) (seq 0 (length f)))).
  { rewrite <- E. apply filter_ext_in. intros s H. apply in_seq in H. destruct s; [lia|reflexivity]. }
  change (sensor_ids (b :: f)) with (if b then 0%nat :: filter (fun s => nth s (b :: f) false) (seq 1 (length f)) else filter (fun s => nth s (b :: f) false) (seq 1 (length f))).
  rewrite X. destruct b; reflexivity.
Qed.
Lemma rank_id : forall f s, (s < length f)%nat -> nth s f false = true -> (rank f s < length (sensor_ids f))%nat /\ nth (rank f s) (sensor_ids f) 0%nat = s.
Proof.
  induction f as [|b f IH]; intros s L H; cbn [length] in L; [lia|]. rewrite ids_cons. destruct s as [|s].
  - cbn [nth] in H. subst b. unfold rank. cbn [firstn filter length app nth]. split; [lia|auto].
  - cbn [nth] in H. destruct (IH s ltac:(lia) H) as [A B]. unfold rank in *. cbn [firstn filter]. destruct b; cbn [length app nth]; rewrite map_length.
    + split; [lia|]. rewrite (nth_indep _ 0%nat (S 0)) by (rewrite map_length; lia). rewrite map_nth. congruence.
    + split; [lia|]. rewrite (nth_indep _ 0%nat (S 0)) by (rewrite map_length; lia). rewrite map_nth. congruence.
Qed.

Lemma local_sensor os a i f L v s c : Forall collected os -> resp_local os = Some a -> (i < length os)%nat -> nth i os Control = Sens f L v -> (s < length f)%nat -> (c < L)%nat ->
  a (total (firstn i os) + (s * L + c))%nat = sensor_part (nth i os Control) s c.
Proof.
  intros C E Hi O Hs Hc. destruct (local_spec os C) as (a' & E' & H). assert (a' = a) by congruence. subst a'.
  destruct (H i (s * L + c)%nat Hi) as [H1 H2]; [rewrite O; cbn [size_of]; nia|]. rewrite O in *. cbn [sensor_part]. destruct (nth s f false) eqn:F.
  - apply H1. cbn [resp_writes]. destruct (rank_id f s Hs F) as [A B]. apply in_flat_map. exists (rank f s). split; [apply in_seq; lia|].
    apply in_map_iff. exists c. split; [rewrite B; f_equal; lia|apply in_seq; lia].
  - apply H2. cbn [resp_writes]. intro I. apply in_map_iff in I. destruct I as ((k, x) & K & I). cbn in K. subst k. apply in_flat_map in I. destruct I as (j & J & I).
    apply in_map_iff in I. destruct I as (d & D & I). apply in_seq in I, J. injection D as D _.
    assert (M : In (nth j (sensor_ids f) 0%nat) (sensor_ids f)) by (apply nth_In; lia). apply ids_in in M.
    assert (nth j (sensor_ids f) 0%nat = s) by nia. destruct M as [_ M]. congruence.
Qed.
Lemma local_integ os a i T v t : Forall collected os -> resp_local os = Some a -> (i < length os)%nat -> nth i os Control = Integ T v -> (t < T)%nat ->
  a (total (firstn i os) + t)%nat = v t.
Proof.
  intros C E Hi O Ht. destruct (local_spec os C) as (a' & E' & H). assert (a' = a) by congruence. subst a'.
  destruct (H i t Hi) as [H1 _]; [rewrite O; exact Ht|]. apply H1. rewrite O. cbn [resp_writes]. apply in_map_iff. exists t. split; [reflexivity|apply in_seq; lia].
Qed.

(** Same objectives on all processes. *)
Definition alike (shape : list nat) (os : list resp_obj) : Prop := map size_of os = shape.
Lemma alike_total shape os i : alike shape os -> total (firstn i os) = list_sum (firstn i shape).
Proof. intros <-. unfold total. rewrite firstn_map. reflexivity. Qed.

Lemma collect_defined : forall procs, Forall (Forall collected) procs -> exists a, resp_collect procs = Some a /\
  forall k, a k = sum_over (fun p => match resp_local p with Some b => b k | None => 0 end) procs.
Proof.
  induction procs as [|p procs IH]; intro C; [exists (fun _ => 0); split; reflexivity|]. inversion C; subst. destruct (IH H2) as (b & E & S).
  destruct (local_spec p H1) as (a & L & _). cbn [resp_collect]. rewrite L, E. exists (fun k => a k + b k). split; [reflexivity|]. intro k. cbn [sum_over]. rewrite L, S. reflexivity.
Qed.
Lemma sum_ext {A} (f g : A -> R) l : (forall a, In a l -> f a = g a) -> sum_over f l = sum_over g l.
Proof. induction l as [|a l IH]; intro H; [reflexivity|]. cbn [sum_over]. rewrite H by (left; auto). rewrite IH; auto. intros; apply H; right; auto. Qed.
Lemma sum_one {A} (f : A -> R) l a : In a l -> NoDup l -> (forall b, In b l -> b <> a -> f b = 0) -> sum_over f l = f a.
Proof.
  induction l as [|b l IH]; intros I N Z; [destruct I|]. apply NoDup_cons_iff in N as [N1 N2]. cbn [sum_over]. destruct I as [->|I].
  - rewrite (sum_ext f (fun _ => 0)). { clear. induction l; cbn; lra. } intros c C. apply Z; [right; auto|]. intros ->. contradiction.
  - rewrite (Z b) by (try (left; reflexivity); intros ->; contradiction). rewrite IH; auto; [lra|]. intros; apply Z; auto. right; auto.
Qed.

(** Entry of sensor [s], value [c] of objective [i], at the place the offsets give: the sum over the
    processes of what they have for that sensor; with one owner, the owner's value. *)
Theorem C319_sensor procs shape i L s c n : Forall (Forall collected) procs -> Forall (alike shape) procs -> (i < length shape)%nat ->
  (forall p, In p procs -> exists f v, nth i p Control = Sens f L v /\ length f = n) -> (s < n)%nat -> (c < L)%nat ->
  exists a, resp_collect procs = Some a /\ a (list_sum (firstn i shape) + (s * L + c))%nat = sum_over (fun p => sensor_part (nth i p Control) s c) procs.
Proof.
  intros C A Hi O Hs Hc. destruct (collect_defined procs C) as (a & E & S). exists a. split; [exact E|]. rewrite S. apply sum_ext. intros p P.
  rewrite Forall_forall in C, A. destruct (O p P) as (f & v & N & F). destruct (local_spec p (C p P)) as (b & B & _). rewrite B.
  rewrite <- (alike_total shape p i (A p P)). eapply local_sensor; eauto; [|lia]. rewrite <- (A p P) in Hi. rewrite map_length in Hi. exact Hi.
Qed.
Theorem C319_owner procs shape i L s c n q f v : Forall (Forall collected) procs -> Forall (alike shape) procs -> (i < length shape)%nat ->
  (forall p, In p procs -> exists f v, nth i p Control = Sens f L v /\ length f = n) -> (s < n)%nat -> (c < L)%nat ->
  (q < length procs)%nat -> nth i (nth q procs []) Control = Sens f L v -> nth s f false = true ->
  (forall p g w, (p < length procs)%nat -> p <> q -> nth i (nth p procs []) Control = Sens g L w -> nth s g false = false) ->
  exists a, resp_collect procs = Some a /\ a (list_sum (firstn i shape) + (s * L + c))%nat = v (rank f s) c.
Proof.
  intros C A Hi O Hs Hc Hq N F U. destruct (C319_sensor procs shape i L s c n C A Hi O Hs Hc) as (a & E & S). exists a. split; [exact E|]. rewrite S.
  assert (X : sum_over (fun p => sensor_part (nth i p Control) s c) procs = sum_over (fun j => sensor_part (nth i (nth j procs []) Control) s c) (seq 0 (length procs))).
  { clear. induction procs as [|p procs IH]; [reflexivity|]. cbn [sum_over length seq nth]. rewrite IH. f_equal. rewrite <- seq_shift.
    generalize (seq 0 (length procs)). induction l as [|x l IHl]; [reflexivity|]. cbn [map sum_over nth]. rewrite IHl. reflexivity. }
  rewrite X. rewrite (sum_one _ _ q); [|apply in_seq; lia|apply seq_NoDup|].
  - rewrite N. cbn [sensor_part]. rewrite F. reflexivity.
  - intros p P D. apply in_seq in P. destruct (O (nth p procs [])) as (g & w & G & _); [apply nth_In; lia|]. rewrite G. cbn [sensor_part].
    rewrite (U p g w); auto. lia.
Qed.
(** An integrated response is the sum of the contributions of the processes. *)
Theorem C319_integrated procs shape i T t : Forall (Forall collected) procs -> Forall (alike shape) procs -> (i < length shape)%nat ->
  (forall p, In p procs -> exists v, nth i p Control = Integ T v) -> (t < T)%nat ->
  exists a, resp_collect procs = Some a /\ a (list_sum (firstn i shape) + t)%nat = sum_over (fun p => integ_part (nth i p Control) t) procs.
Proof.
  intros C A Hi O Ht. destruct (collect_defined procs C) as (a & E & S). exists a. split; [exact E|]. rewrite S. apply sum_ext. intros p P.
  rewrite Forall_forall in C, A. destruct (O p P) as (v & N). destruct (local_spec p (C p P)) as (b & B & _). rewrite B.
  rewrite <- (alike_total shape p i (A p P)). rewrite N. cbn [integ_part]. eapply local_integ; eauto. rewrite <- (A p P) in Hi. rewrite map_length in Hi. exact Hi.
Qed.
Print Assumptions C319_sensor.
Print Assumptions C319_owner.
Print Assumptions C319_integrated.

(** Two processes, an integrated response over one time and three sensors with two values each. *)
Example C319_case : let p := [Integ 1 (fun _ => 5); Sens [true; false; true] 2 (fun i c => if Nat.eqb i 1 then 7 else 1)] in
  let q := [Integ 1 (fun _ => 6); Sens [false; true; false] 2 (fun i c => 9)] in
  match resp_collect [p; q] with Some a => a 0%nat = 11 /\ a 5%nat = 7 /\ a 3%nat = 9 | None => False end.
Proof. cbn. repeat split; lra. Qed.

(** *** C320 *)

(** Nothing can be collected as soon as one objective is a control term: the sizes are read out of
    range. *)
Lemma fill_short : forall os sizes j off, (length sizes < j + length os)%nat -> (0 < length os)%nat -> resp_fill sizes j off os = None.
Proof.
  induction os as [|o os IH]; intros sizes j off H P; cbn [length] in *; [lia|]. cbn [resp_fill]. destruct (nth_error sizes j) eqn:E; [|reflexivity].
  destruct os as [|o' os]; [assert (j < length sizes)%nat by (apply nth_error_Some; congruence); cbn in H; lia|]. rewrite IH; [reflexivity|lia|cbn; lia].
Qed.
Theorem C320_refuted os : In Control os -> (0 < list_sum (resp_sizes os))%nat -> resp_local os = None.
Proof.
  intros I P. unfold resp_local. apply Nat.ltb_lt in P. rewrite P. clear P. rewrite fill_short; [reflexivity| |destruct os; [destruct I|cbn; lia]]. cbn [Nat.add].
  induction os as [|o os IH]; [destruct I|]. cbn [resp_sizes flat_map length]. fold (resp_sizes os). rewrite app_length.
  assert (G : forall l, (length (resp_sizes l) <= length l)%nat).
  { induction l as [|x l IHl]; [auto|]. cbn [resp_sizes flat_map length]. fold (resp_sizes l). rewrite app_length. destruct x; cbn [length]; lia. }
  destruct I as [->|I]; [cbn [length]; specialize (G os); lia|]. specialize (IH I). destruct o; cbn [length]; lia.
Qed.
Print Assumptions C320_refuted.
(** Without one the responses are collected. *)
Theorem C320_partial os : Forall collected os -> resp_local os <> None.
Proof. intro C. destruct (local_spec os C) as (a & E & _). congruence. Qed.
Print Assumptions C320_partial.
Example C320_case : resp_local [Control; Integ 1 (fun _ => 1)] = None.
Proof. reflexivity. Qed.

(** *** C321 *)

Definition scale (c : R) (sets : list (list (R * R))) : list (list (R * R)) := map (map (fun p => (fst p, c * snd p))) sets.
Lemma rsum_scale c l : rsum_list (map (Rmult c) l) = c * rsum_list l.
Proof. induction l as [|a l IH]; cbn [map rsum_list fold_right]; [lra|]. fold (rsum_list (map (Rmult c) l)) (rsum_list l). rewrite IH. lra. Qed.
Lemma rsum_nonneg l : (forall x, In x l -> 0 <= x) -> 0 <= rsum_list l.
Proof. induction l as [|a l IH]; intro H; cbn [rsum_list fold_right]; [lra|]. assert (0 <= a) by (apply H; left; auto). assert (0 <= rsum_list l) by (apply IH; intros; apply H; right; auto). unfold rsum_list in *. lra. Qed.
Lemma rsum_zero l : (forall x, In x l -> 0 <= x) -> rsum_list l = 0 -> forall x, In x l -> x = 0.
Proof.
  induction l as [|a l IH]; intros H E x I; [destruct I|]. cbn [rsum_list fold_right] in E. fold (rsum_list l) in E.
  assert (0 <= a) by (apply H; left; auto). assert (0 <= rsum_list l) by (apply rsum_nonneg; intros; apply H; right; auto).
  destruct I as [->|I]; [lra|]. apply IH; auto; [intros; apply H; right; auto|lra].
Qed.
Lemma weighted_scale c wu : weighted_set (map (fun p => (fst p, c * snd p)) wu) = c * c * weighted_set wu.
Proof.
  unfold weighted_set. rewrite map_map.
  rewrite (map_ext _ (fun p : R * R => (c * c) * (c * c) * Rsqr (fst p * snd p * snd p))) by (intros [w u]; unfold Rsqr; cbn; ring).
  rewrite <- (map_map (fun p : R * R => Rsqr (fst p * snd p * snd p)) (Rmult ((c * c) * (c * c)))), rsum_scale.
  rewrite sqrt_mult; [rewrite sqrt_square by nra; reflexivity|nra|]. apply rsum_nonneg. intros x I. apply in_map_iff in I. destruct I as (p & <- & _). unfold Rsqr. nra.
Qed.
(** Nonnegative, and zero exactly if every unknown with nonzero weight is zero. *)
Theorem C321_partial sets : 0 <= weighted_norm sets /\
  (weighted_norm sets = 0 <-> forall wu p, In wu sets -> In p wu -> fst p = 0 \/ snd p = 0).
Proof.
  assert (P : forall x, In x (map weighted_set sets) -> 0 <= x) by (intros x I; apply in_map_iff in I; destruct I as (wu & <- & _); apply sqrt_pos).
  assert (Q : forall wu x, In x (map (fun p : R * R => Rsqr (fst p * snd p * snd p)) wu) -> 0 <= x) by (intros wu x I; apply in_map_iff in I; destruct I as (p & <- & _); unfold Rsqr; nra).
  split; [apply rsum_nonneg; exact P|]. split.
  - intros E wu p W I. assert (Z : weighted_set wu = 0) by (apply (rsum_zero _ P E); apply in_map; exact W).
    apply sqrt_eq_0 in Z; [|apply rsum_nonneg, Q].
    assert (X : Rsqr (fst p * snd p * snd p) = 0) by (apply (rsum_zero _ (Q wu) Z); apply (in_map (fun p : R * R => Rsqr (fst p * snd p * snd p))); exact I). unfold Rsqr in X.
    apply Rmult_integral in X. destruct (Req_dec (fst p) 0) as [|N]; [left; auto|]. right. assert (X' : fst p * snd p * snd p = 0) by tauto.
    apply Rmult_integral in X' as [X'|X']; auto. apply Rmult_integral in X' as [X'|X']; [contradiction|auto].
  - intro H. unfold weighted_norm. assert (Z : forall x, In x (map weighted_set sets) -> x = 0).
    { intros x I. apply in_map_iff in I. destruct I as (wu & <- & W). unfold weighted_set. replace (rsum_list _) with 0; [apply sqrt_0|]. symmetry.
      assert (A : forall p, In p wu -> fst p = 0 \/ snd p = 0) by (intros; eapply H; eauto). clear - A. induction wu as [|p wu IH]; [reflexivity|]. cbn [map rsum_list fold_right].
      fold (rsum_list (map (fun p : R * R => Rsqr (fst p * snd p * snd p)) wu)). rewrite IH by (intros; apply A; right; auto).
      destruct (A p (or_introl eq_refl)) as [E|E]; rewrite E; unfold Rsqr; ring. }
    clear - Z. induction (map weighted_set sets) as [|a l IH]; [reflexivity|]. cbn [rsum_list fold_right]. fold (rsum_list l). rewrite (Z a (or_introl eq_refl)), IH; [lra|]. intros; apply Z; right; auto.
Qed.
Print Assumptions C321_partial.
Example C321_case : weighted_norm [[(1, 0); (0, 5)]] = 0.
Proof. apply C321_partial. intros wu p [<-|[]] [<-|[<-|[]]]; cbn; auto. Qed.
(** It grows with the square of the solution, so it is not a norm; a single unknown of weight 1 and
    value 2 has "norm" 4. *)
Theorem C321_refuted : (forall c sets, weighted_norm (scale c sets) = c * c * weighted_norm sets) /\ weighted_norm [[(1, 2)]] = 4 /\
  weighted_norm (scale 2 [[(1, 2)]]) <> Rabs 2 * weighted_norm [[(1, 2)]].
Proof.
  assert (H : forall c sets, weighted_norm (scale c sets) = c * c * weighted_norm sets).
  { intros c sets. unfold weighted_norm, scale. rewrite map_map. rewrite (map_ext _ (fun wu => c * c * weighted_set wu)) by (intro; apply weighted_scale).
    rewrite <- (map_map weighted_set (Rmult (c * c))). apply rsum_scale. }
  assert (F : weighted_norm [[(1, 2)]] = 4).
  { unfold weighted_norm, weighted_set. cbn [map rsum_list fold_right fst snd]. unfold Rsqr. rewrite Rplus_0_r, Rplus_0_r. replace (1 * 2 * 2 * (1 * 2 * 2)) with (4 * 4) by ring. apply sqrt_square. lra. }
  split; [exact H|]. split; [exact F|]. rewrite H, F. rewrite Rabs_right by lra. lra.
Qed.
Print Assumptions C321_refuted.

(** *** C322 *)

(** If the optimizer's last evaluation was at the point it returns, the solution written and the
    parameters saved are for that point (up to the tolerance of checkNewParams for a gradient). *)
Theorem C322_partial X is_new (cur : X) calls x :
  (oo_saved X (opt_finish X is_new cur (calls ++ [OValue X x]) x) = x /\ oo_solution_for X (opt_finish X is_new cur (calls ++ [OValue X x]) x) = x) /\
  (let s := oo_saved X (opt_finish X is_new cur (calls ++ [OGradient X x]) x) in s = x \/ is_new s x = false).
Proof.
  unfold opt_finish, opt_params. cbn [oo_saved oo_solution_for]. rewrite !fold_left_app. cbn [fold_left ocall_params]. split; [auto|].
  destruct (is_new (fold_left (ocall_params X is_new) calls cur) x) eqn:E; auto.
Qed.
Print Assumptions C322_partial.

(** A run that ends with a rejected trial: the optimizer returns the best point it evaluated, but
    the solution written and the parameters saved are those of the trial, with a larger
    objective. *)
Definition point (X : Type) (c : ocall X) : X := match c with OValue _ x => x | OGradient _ x => x end.
Theorem C322_refuted : exists (f : nat -> nat) (calls : list (ocall nat)) (x : nat),
  (exists c, In c calls /\ point nat c = x) /\ (forall c, In c calls -> (f x <= f (point nat c))%nat) /\
  let o := opt_finish nat (fun a b => negb (Nat.eqb a b)) 5%nat calls x in
  oo_final nat o = x /\ (f x < f (oo_solution_for nat o))%nat /\ oo_saved nat o <> x.
Proof.
  exists (fun x => x), [OValue nat 5; OGradient nat 5; OValue nat 3; OGradient nat 3; OValue nat 4]%nat, 3%nat. split; [exists (OValue nat 3%nat); cbn; auto|].
  split; [intros c [<-|[<-|[<-|[<-|[<-|[]]]]]]; cbn; lia|]. cbn. repeat split; lia.
Qed.
Print Assumptions C322_refuted.
