(** Properties C22 and C50: derivative capacity and worksets. *)
From Coq Require Import List ZArith Bool Lia ZifyBool.
From Verif Require Import Outcome AdType_Model.
Import ListNotations.
Local Open Scope Z_scope.

(** ** Specification: the number of derivatives needed on a block is at least the
    number of unknowns per element of every physics set, the number of active
    parameters and the number of parameter unknowns per element. *)
Definition needs (p : problem) (b : nat) (n : Z) : Prop :=
  (exists s, In s (p_sets p) /\ nth_error s b = Some n)
  \/ n = p_active p
  \/ (exists d, p_disc p = Some d /\ nth_error d b = Some n).

Definition shaped (nblocks : nat) (p : problem) : Prop :=
  Forall (fun s => length s = nblocks) (p_sets p)
  /\ (forall d, p_disc p = Some d -> length d = nblocks).

Lemma zip_max_length a : forall b, length (zip_max a b) = length a.
Proof. induction a as [|x a IH]; destruct b; cbn; auto. Qed.

Lemma zip_max_nth a : forall b i x y, nth_error a i = Some x -> nth_error b i = Some y ->
  exists z, nth_error (zip_max a b) i = Some z /\ z = Z.max x y.
Proof.
  induction a as [|u a IH]; intros b i x y H1 H2; destruct i; try discriminate; destruct b as [|v b]; try discriminate; cbn in *.
  - injection H1 as ->. injection H2 as ->. eexists. split; eauto. destruct (Z.gtb_spec y x); lia.
  - eauto.
Qed.

Lemma nth_some {A} (l : list A) i : (i < length l)%nat -> exists x, nth_error l i = Some x.
Proof. intros H. destruct (nth_error l i) eqn:E; eauto. apply nth_error_None in E. lia. Qed.

Lemma dof_req_ok maxd nb : forall sets req r, Forall (fun s => length s = nb) sets -> length req = nb ->
  dof_req maxd sets req = Ok r ->
  length r = nb
  /\ (forall b x, nth_error req b = Some x -> exists y, nth_error r b = Some y /\ x <= y)
  /\ (forall s b n, In s sets -> nth_error s b = Some n -> n <= maxd /\ exists y, nth_error r b = Some y /\ n <= y)
  /\ (Forall (fun x => 0 <= x) req -> Forall (fun x => 0 <= x) r)
  /\ (forall b y, nth_error r b = Some y -> nth_error req b = Some y \/ exists s, In s sets /\ nth_error s b = Some y).
Proof.
  induction sets as [|s sets IH]; intros req r F L H; cbn [dof_req] in H.
  - injection H as <-. repeat split; auto; try contradiction. intros b x Hx; exists x; split; auto; lia.
  - destruct (existsb (fun n => n >? maxd) s) eqn:Ex; [discriminate|].
    apply Forall_cons_iff in F as [Ls F'].
    destruct (IH (zip_max req s) r) as (A & B & C & D & E); auto; [rewrite zip_max_length; auto|].
    split; [auto|]. split; [|split; [|split]].
    + intros b x Hx. destruct (nth_some s b) as [y Hy].
      { rewrite Ls, <- L. apply nth_error_Some. congruence. }
      destruct (zip_max_nth _ _ _ _ _ Hx Hy) as (z & Hz & ->). destruct (B _ _ Hz) as (w & Hw & Hle).
      exists w. split; auto. lia.
    + intros s' b n [<-|Hin] Hn.
      * destruct (nth_some req b) as [x Hx].
        { rewrite L, <- Ls. apply nth_error_Some. congruence. }
        destruct (zip_max_nth _ _ _ _ _ Hx Hn) as (z & Hz & ->). destruct (B _ _ Hz) as (w & Hw & Hle).
        split; [|exists w; split; auto; lia].
        destruct (Z.gtb_spec n maxd) as [G|G]; auto.
        assert (existsb (fun n => n >? maxd) s = true); [|congruence].
        apply existsb_exists. exists n. split; [eapply nth_error_In; eauto|]. apply Z.gtb_lt; auto.
      * eapply C; eauto.
    + intros P. apply D. clear -P. revert s. induction P as [|x req Hx P IH]; intros [|y s]; cbn; auto.
      constructor; auto. destruct (Z.gtb_spec y x); lia.
    + intros b y Hy. destruct (E b y Hy) as [H'|(s' & Hs & Hs')].
      * assert (Lb : (b < length req)%nat).
        { rewrite <- (zip_max_length req s). apply nth_error_Some. congruence. }
        destruct (nth_some req b Lb) as [u Hu]. destruct (nth_some s b ltac:(lia)) as [v Hv].
        destruct (zip_max_nth _ _ _ _ _ Hu Hv) as (z & Hz & Ez).
        assert (y = z) by congruence. subst z. 
        destruct (Z.max_spec u v) as [[_ M]|[_ M]]; rewrite M in *; subst y; [right; exists s; split; [left|]; auto|left; auto].
      * right. exists s'. split; [right|]; auto.
Qed.

Lemma requirements_ok maxd nb p r : shaped nb p -> 0 <= p_active p -> requirements maxd nb p = Ok r ->
  length r = nb /\ Forall (fun x => 0 <= x) r
  /\ (forall b n, (b < nb)%nat -> needs p b n -> n <= maxd /\ exists y, nth_error r b = Some y /\ n <= y)
  /\ (forall b y, nth_error r b = Some y -> y = 0 \/ needs p b y).
Proof.
  intros [F Fd] Ha H. unfold requirements in H.
  destruct (dof_req maxd (p_sets p) (repeat 0 nb)) as [r1| |] eqn:E1; try discriminate. cbn [obind] in H.
  destruct (dof_req_ok maxd nb _ _ _ F (repeat_length _ _) E1) as (L1 & _ & N1 & P1 & Q1).
  assert (P1' : Forall (fun x => 0 <= x) r1).
  { apply P1. apply Forall_forall. intros x Hx. apply repeat_spec in Hx. lia. }
  unfold param_req in H. destruct (Z.gtb_spec (p_active p) maxd) as [|Hm]; [discriminate|]. cbn [obind] in H.
  set (r2 := map (fun r => if p_active p >? r then p_active p else r) r1) in *.
  assert (L2 : length r2 = nb) by (unfold r2; rewrite map_length; auto).
  assert (R2 : forall b x, nth_error r1 b = Some x -> nth_error r2 b = Some (Z.max x (p_active p))).
  { intros b x Hx. unfold r2. rewrite nth_error_map, Hx. cbn. f_equal. destruct (Z.gtb_spec (p_active p) x); lia. }
  assert (P2 : Forall (fun x => 0 <= x) r2).
  { unfold r2. apply Forall_map. eapply Forall_impl; [|exact P1']. cbn. intros x Hx. destruct (p_active p >? x); lia. }
  assert (N2 : forall b n, (b < nb)%nat -> (exists s, In s (p_sets p) /\ nth_error s b = Some n) \/ n = p_active p ->
     n <= maxd /\ exists y, nth_error r2 b = Some y /\ n <= y).
  { intros b n Hb [(s & Hs & Hn)| ->].
    - destruct (N1 s b n Hs Hn) as (A & y & Hy & Hle). split; auto. exists (Z.max y (p_active p)). split; auto. lia.
    - destruct (nth_some r1 b ltac:(lia)) as [y Hy]. split; auto. exists (Z.max y (p_active p)). split; auto. lia. }
  assert (Q2 : forall b y, nth_error r2 b = Some y -> y = 0 \/ needs p b y).
  { intros b y Hy. assert (Hb : (b < length r1)%nat).
    { rewrite L1, <- L2. apply nth_error_Some. congruence. }
    destruct (nth_some r1 b Hb) as [x Hx]. rewrite (R2 _ _ Hx) in Hy. injection Hy as Hy.
    destruct (Z.max_spec x (p_active p)) as [[_ M]|[_ M]]; rewrite M in Hy; subst y.
    - right. right. left. auto.
    - destruct (Q1 b x Hx) as [H'|H'].
      + left. apply nth_error_In, repeat_spec in H'. auto.
      + right. left. auto. }
  unfold disc_req in H. destruct (p_disc p) as [d|] eqn:Ed.
  2:{ injection H as <-. split; [auto|]. split; [auto|]. split; auto.
      intros b n Hb [Hn|[Hn|(d & Hd & _)]]; auto. congruence. }
  destruct (existsb (fun n => n >? maxd) d) eqn:Ex; [discriminate|]. injection H as <-.
  specialize (Fd d eq_refl).
  split; [rewrite zip_max_length; auto|]. split; [|split].
  - clear -P2. revert d. induction P2 as [|x r2 Hx P IH]; intros [|y d]; cbn; auto.
    constructor; auto. destruct (Z.gtb_spec y x); lia.
  - intros b n Hb Hn. destruct (nth_some d b ltac:(lia)) as [z Hz].
    destruct (nth_some r2 b ltac:(lia)) as [y Hy].
    destruct (zip_max_nth _ _ _ _ _ Hy Hz) as (w & Hw & ->).
    assert (G : z <= maxd).
    { destruct (Z.gtb_spec z maxd) as [G|G]; auto.
      assert (existsb (fun n => n >? maxd) d = true); [|congruence].
      apply existsb_exists. exists z. split; [eapply nth_error_In; eauto|]. apply Z.gtb_lt; auto. }
    destruct Hn as [Hn|[Hn|(d' & Hd & Hn)]].
    + destruct (N2 b n Hb (or_introl Hn)) as (A & y' & Hy' & Hle). split; auto.
      eexists; split; eauto. assert (y = y') by congruence. lia.
    + destruct (N2 b n Hb (or_intror Hn)) as (A & y' & Hy' & Hle). split; auto.
      eexists; split; eauto. assert (y = y') by congruence. lia.
    + assert (d = d') by congruence. subst d'. assert (z = n) by congruence. subst. split; auto.
      eexists; split; eauto. lia.
  - intros b y Hy. assert (Lb : (b < length r2)%nat).
    { rewrite <- (zip_max_length r2 d). apply nth_error_Some. congruence. }
    destruct (nth_some r2 b Lb) as [u Hu]. destruct (nth_some d b ltac:(lia)) as [v Hv].
    destruct (zip_max_nth _ _ _ _ _ Hu Hv) as (z & Hz & Ez).
    assert (y = z) by congruence. subst z. clear Hz.
    destruct (Z.max_spec u v) as [[_ M]|[_ M]]; rewrite M in *; subst y.
    + right. right. right. exists d. split; auto.
    + apply Q2; auto.
Qed.

Lemma fold_max_ge l : forall a, a <= fold_left Z.max l a /\ forall x, In x l -> x <= fold_left Z.max l a.
Proof.
  induction l as [|y l IH]; intros a; cbn [fold_left]; [split; [lia|contradiction]|].
  destruct (IH (Z.max a y)) as [A B]. split; [lia|]. intros x [<-|Hx]; auto. lia.
Qed.
Lemma fold_max_in l : forall a, fold_left Z.max l a = a \/ In (fold_left Z.max l a) l.
Proof.
  induction l as [|y l IH]; intros a; cbn [fold_left]; auto.
  destruct (IH (Z.max a y)) as [E|E]; [|right; right; auto].
  rewrite E. destruct (Z.max_spec a y) as [[_ M]|[_ M]]; rewrite M; [right; left|left]; auto.
Qed.

(** ** C22 *)

(** The types with a fixed number of derivatives (preferences.hpp). *)
Definition special_sizes : list Z := [2; 4; 8; 16; 18; 24; 32].

(** For every problem that passes the setup checks and every block, the type used
    for assembling the Jacobian on that block holds at least the number of
    derivatives needed for every physics set, for the active parameters and for
    the discretized parameters on that block. *)
Theorem C22_capacity : forall maxd nb p r ms autotune explicit b n,
  shaped nb p -> 0 <= p_active p -> requirements maxd nb p = Ok r ->
  (b < nb)%nat -> needs p b n ->
  forall ms_b, (ms_b = true -> existsb (fun x => x) ms = true) ->
  n <= capacity maxd (dispatch (select_type r ms autotune explicit) autotune ms_b).
Proof.
  intros maxd nb p r ms at_ ex b n Hs Ha Hr Hb Hn ms_b Hms.
  destruct (requirements_ok _ _ _ _ Hs Ha Hr) as (L & P & N & _).
  destruct (N b n Hb Hn) as (Hm & y & Hy & Hle). apply nth_error_In in Hy.
  destruct (fold_max_ge r 0) as [G0 G]. specialize (G y Hy).
  unfold capacity, dispatch, select_type. set (m := fold_left Z.max r 0) in *.
  destruct at_, ms_b, ex; cbn [andb negb]; try (cbn; lia).
  destruct (existsb (fun x => x) ms); [cbn; lia|].
  repeat match goal with |- context [if (m >? ?a) && (m <=? ?c) then _ else _] =>
    destruct (Z.gtb_spec m a); destruct (Z.leb_spec m c); cbn [andb]; try (cbn; lia) end.
Qed.
Print Assumptions C22_capacity.

(** A specialised type is used whenever one suffices for all blocks (and no
    option forces the general type), and then it is the smallest one; a problem
    with at least one unknown per element. *)
Theorem C22_smallest : forall maxd nb p r ms,
  shaped nb p -> 0 <= p_active p -> requirements maxd nb p = Ok r ->
  existsb (fun x => x) ms = false -> (exists b n, (b < nb)%nat /\ needs p b n /\ 0 < n) ->
  let t := select_type r ms true false in
  (forall c, In c special_sizes -> (forall b n, (b < nb)%nat -> needs p b n -> n <= c) -> In t special_sizes /\ t <= c)
  /\ ((forall c, In c special_sizes -> exists b n, (b < nb)%nat /\ needs p b n /\ c < n) -> t = -1).
Proof.
  intros maxd nb p r ms Hs Ha Hr Hms (b0 & n0 & Hb0 & Hn0 & Hpos) t.
  destruct (requirements_ok _ _ _ _ Hs Ha Hr) as (L & P & N & Q).
  assert (Ht : t = select_type r ms true false) by reflexivity. clearbody t.
  unfold select_type in Ht. rewrite Hms in Ht. cbn [negb] in Ht.
  set (m := fold_left Z.max r 0) in *.
  destruct (fold_max_ge r 0) as [G0 G]. fold m in G0, G.
  assert (Hm : 0 < m).
  { destruct (N b0 n0 Hb0 Hn0) as (_ & y & Hy & Hle). apply nth_error_In in Hy. specialize (G y Hy). lia. }
  assert (Hin : exists b, (b < nb)%nat /\ needs p b m).
  { destruct (fold_max_in r 0) as [E|E]; fold m in E; [lia|].
    apply In_nth_error in E as [b Eb]. exists b.
    split; [rewrite <- L; apply nth_error_Some; congruence|].
    destruct (Q b m Eb) as [|]; auto. lia. }
  destruct Hin as (bm & Hbm & Hnm).
  assert (T : (In t special_sizes /\ m <= t /\ (forall c, In c special_sizes -> m <= c -> t <= c)) \/ (t = -1 /\ 32 < m)).
  { clear -Ht Hm.
    repeat match type of Ht with context [if (m >? ?a) && (m <=? ?c) then _ else _] =>
      destruct (Z.gtb_spec m a); destruct (Z.leb_spec m c); cbn [andb] in Ht; try lia end;
    subst t; try (right; lia);
    (left; split; [cbn; tauto|]; split; [lia|]; cbn; intros c Hc Hmc; lia). }
  split.
  - intros c Hc Hall. pose proof (Hall bm m Hbm Hnm) as Hmc.
    destruct T as [(T1 & T2 & T3)|(T1 & T2)].
    + split; auto.
    + exfalso. cbn in Hc. lia.
  - intros Hno. destruct T as [(T1 & T2 & T3)|(T1 & T2)]; auto. exfalso.
    destruct (Hno t T1) as (b & n & Hb & Hn & Hlt).
    destruct (N b n Hb Hn) as (_ & y & Hy & Hle). apply nth_error_In in Hy. specialize (G y Hy). lia.
Qed.
Print Assumptions C22_smallest.

(** Problems that need more than the compiled-in maximum are rejected. *)
Theorem C22_too_large_rejected : forall maxd nb p b n,
  shaped nb p -> 0 <= p_active p -> (b < nb)%nat -> needs p b n -> maxd < n ->
  requirements maxd nb p = Exn.
Proof.
  intros maxd nb p b n Hs Ha Hb Hn Hlt.
  destruct (requirements maxd nb p) as [r| |] eqn:E; auto; exfalso.
  - destruct (requirements_ok _ _ _ _ Hs Ha E) as (_ & _ & N & _). destruct (N b n Hb Hn). lia.
  - unfold requirements in E.
    assert (D : forall sets req, dof_req maxd sets req <> UB).
    { induction sets; cbn; intros; [discriminate|]. destruct (existsb _ _); [discriminate|auto]. }
    destruct (dof_req maxd (p_sets p) (repeat 0 nb)) eqn:E1; try discriminate.
    + cbn [obind] in E. unfold param_req in E. destruct (_ >? _); [discriminate|]. cbn [obind] in E.
      unfold disc_req in E. destruct (p_disc p); [|discriminate]. destruct (existsb _ _); discriminate.
    + eapply D; eauto.
Qed.
Print Assumptions C22_too_large_rejected.

Example C22_case :
  let p := {| p_sets := [[4; 9]; [3; 12]]; p_active := 5; p_disc := Some [8; 8] |} in
  shaped 2 p /\ requirements 64 2 p = Ok [8; 12] /\ select_type [8; 12] [false; false] true false = 16
  /\ needs p 1 12 /\ requirements 10 2 p = Exn.
Proof.
  cbn zeta. split; [split; [repeat constructor|intros d [= <-]; reflexivity]|].
  split; [reflexivity|]. split; [reflexivity|]. split; [|reflexivity].
  left. exists [3; 12]. split; [right; left; reflexivity|reflexivity].
Qed.

(* ------------------------------------------------------------------ *)
(** ** C50: the workset used on a block is the workset made for that block *)

Definition workset_ready (w : wksets) (t : Z) (b : nat) : Prop :=
  nth_error (worksets_of w t) b = Some (Some b).

Lemma push_at_end v : push_at v (length v) = Ok (v ++ [Some (length v)]).
Proof.
  unfold push_at. replace (length v <? S (length v))%nat with true by (symmetry; apply Nat.ltb_lt; lia).
  rewrite Nat.eqb_refl. reflexivity.
Qed.

(** Type selected by [select_type] without "fully explicit". *)
Definition selectable (t : Z) (autotune : bool) (blocks : list (bool * bool)) : Prop :=
  (t = -1 \/ (In t special_sizes /\ autotune = true /\ forallb (fun x => negb (snd x)) blocks = true)).

Lemma select_selectable r autotune blocks :
  selectable (select_type r (map snd blocks) autotune false) autotune blocks.
Proof.
  unfold selectable, select_type. destruct autotune; [|left; reflexivity]. cbn [negb].
  destruct (existsb (fun b => b) (map snd blocks)) eqn:E; [left; reflexivity|].
  assert (F : forallb (fun x : bool * bool => negb (snd x)) blocks = true).
  { clear -E. induction blocks as [|[a c] bl IH]; cbn in *; auto. destruct c; cbn in *; [discriminate|auto]. }
  set (m := fold_left Z.max r 0).
  repeat match goal with |- context [if (m >? ?a) && (m <=? ?c) then _ else _] =>
    destruct ((m >? a) && (m <=? c)); [right; split; [cbn; tauto|split; auto]|] end.
  left. reflexivity.
Qed.

Lemma special_existsb t : In t special_sizes -> existsb (Z.eqb t) [2; 4; 8; 16; 18; 24; 32] = true /\ (t =? -1) = false.
Proof.
  intros H. split; [apply existsb_exists; exists t; split; auto; apply Z.eqb_refl|].
  apply Z.eqb_neq. cbn in H. lia.
Qed.

Lemma create_ready t autotune forward : forall blocks w b0,
  (forall all, selectable t autotune (all ++ blocks) -> length (worksets_of w t) = b0 ->
  exists w', create_from t autotune false forward w b0 blocks = Ok w'
    /\ (forall i x, nth_error (worksets_of w t) i = Some x -> nth_error (worksets_of w' t) i = Some x)
    /\ forall i ms, nth_error blocks i = Some (true, ms) -> workset_ready w' t (b0 + i)).
Proof.
  induction blocks as [|[hg ms] blocks IH]; intros w b0 all Hsel Hlen.
  - exists w. split; [reflexivity|]. split; auto. intros i m H; destruct i; discriminate.
  - cbn [create_from].
    assert (Hb : exists w1, create_block t autotune false forward w b0 hg ms = Ok w1
      /\ exists x, worksets_of w1 t = worksets_of w t ++ [x] /\ (hg = true -> x = Some b0)).
    { unfold create_block. cbn [andb negb].
      destruct Hsel as [->|(Hin & -> & Hf)].
      - cbn [existsb Z.eqb orb Pos.eqb]. unfold worksets_of in *. cbn [Z.eqb Pos.eqb] in *.
        destruct hg; cbn [andb negb orb].
        + cbn [obind]. subst b0. rewrite push_at_end. cbn [obind]. eexists. split; [reflexivity|]. eexists. split; [reflexivity|auto].
        + eexists. split; [reflexivity|]. eexists; split; [reflexivity|discriminate].
      - destruct (special_existsb t Hin) as [E1 E2]. rewrite E1, E2.
        assert (ms = false) as ->.
        { rewrite forallb_app in Hf. apply andb_prop in Hf as [_ Hf]. cbn in Hf. destruct ms; [discriminate|reflexivity]. }
        unfold worksets_of in *. rewrite E2 in *. destruct hg; cbn [andb negb orb].
        + subst b0. rewrite push_at_end. cbn [obind]. eexists. split; [reflexivity|]. eexists. split; [reflexivity|auto].
        + eexists. split; [reflexivity|]. eexists; split; [reflexivity|discriminate]. }
    destruct Hb as (w1 & E1 & x & Ex & Hx). rewrite E1. cbn [obind].
    assert (all ++ (hg, ms) :: blocks = (all ++ [(hg, ms)]) ++ blocks) as Eall by (rewrite <- app_assoc; auto).
    rewrite Eall in Hsel.
    destruct (IH w1 (S b0) _ Hsel) as (w' & E & Hk & Hr); [rewrite Ex, app_length; cbn; lia|].
    exists w'. split; auto. split.
    + intros i y Hy. apply Hk. rewrite Ex. rewrite nth_error_app1; auto. apply nth_error_Some. congruence.
    + intros [|i] m Hi; cbn in Hi.
      * injection Hi as -> ->. rewrite Nat.add_0_r. unfold workset_ready. apply Hk. rewrite Ex.
        rewrite nth_error_app2 by lia. rewrite Hlen, Nat.sub_diag. cbn. f_equal. auto.
      * replace (b0 + S i)%nat with (S b0 + i)%nat by lia. eauto.
Qed.

(** Without "fully explicit": creation never writes out of range and, on every
    block that has elements, assembly uses the workset made for that block. *)
Theorem C50_worksets_partial : forall r autotune forward (blocks : list (bool * bool)),
  let t := select_type r (map snd blocks) autotune false in
  exists w, create_worksets t autotune false forward blocks = Ok w
    /\ forall b ms, nth_error blocks b = Some (true, ms) -> workset_ready w (dispatch t autotune ms) b.
Proof.
  intros r autotune forward blocks t.
  pose proof (select_selectable r autotune blocks) as Hsel. fold t in Hsel.
  destruct (create_ready t autotune forward blocks {| w_AD := []; w_spec := [] |} 0 [] Hsel) as (w & E & _ & H).
  { unfold worksets_of. destruct (t =? -1); reflexivity. }
  exists w. split; [exact E|]. intros b ms Hb. specialize (H b ms Hb).
  assert (dispatch t autotune ms = t) as ->; auto.
  unfold dispatch. destruct Hsel as [->|(Hin & -> & Hf)].
  - destruct (autotune && negb ms); reflexivity.
  - destruct (special_existsb t Hin) as [-> _].
    assert (ms = false) as ->; [|reflexivity].
    rewrite forallb_forall in Hf. apply nth_error_In in Hb. apply Hf in Hb. cbn in Hb. destruct ms; [discriminate|reflexivity].
Qed.
Print Assumptions C50_worksets_partial.

Example C50_case :
  let bl := [(true, false); (false, false); (true, false)] in
  create_worksets (select_type [8; 12; 3] (map snd bl) true false) true false true bl
  = Ok {| w_AD := []; w_spec := [Some 0%nat; None; Some 2%nat] |}.
Proof. reflexivity. Qed.

(** "fully explicit" without automatic choice of the type, elements on every block:
    assembly uses the workset made for the block. *)
Theorem C50_explicit_partial : forall r forward (blocks : list (bool * bool)),
  (forall b x, nth_error blocks b = Some x -> fst x = true) ->
  let t := select_type r (map snd blocks) false true in
  exists w, create_worksets t false true forward blocks = Ok w
    /\ forall b ms, nth_error blocks b = Some (true, ms) -> workset_ready w (dispatch t false ms) b.
Proof.
  intros r forward blocks HG t. assert (t = 0) as -> by reflexivity.
  assert (G : forall bl w b0, (forall b x, nth_error bl b = Some x -> fst x = true) -> length (w_AD w) = b0 ->
    exists w', create_from 0 false true forward w b0 bl = Ok w'
      /\ (forall i x, nth_error (w_AD w) i = Some x -> nth_error (w_AD w') i = Some x)
      /\ forall i ms, nth_error bl i = Some (true, ms) -> nth_error (w_AD w') (b0 + i) = Some (Some (b0 + i)%nat)).
  { induction bl as [|[hg ms] bl IH]; intros w b0 H L.
    - exists w. split; [reflexivity|]. split; auto. intros i m X. destruct i; discriminate.
    - assert (hg = true) as -> by (apply (H 0%nat (hg, ms)); reflexivity). cbn [create_from]. unfold create_block.
      cbn [existsb Z.eqb orb negb]. rewrite andb_false_r. cbn [obind]. rewrite orb_true_r. subst b0. rewrite push_at_end. cbn [obind].
      destruct (IH {| w_AD := w_AD w ++ [Some (length (w_AD w))]; w_spec := w_spec w |} (S (length (w_AD w)))) as (w' & E & K & R).
      + intros b x X. apply (H (S b) x X).
      + cbn. rewrite app_length. cbn. lia.
      + exists w'. split; auto. cbn [w_AD] in K. split.
        * intros i x X. apply K. rewrite nth_error_app1; auto. apply nth_error_Some. congruence.
        * intros [|i] m X.
          -- rewrite Nat.add_0_r. apply K. rewrite nth_error_app2 by lia. rewrite Nat.sub_diag. reflexivity.
          -- replace (length (w_AD w) + S i)%nat with (S (length (w_AD w)) + i)%nat by lia. apply R with m. exact X. }
  destruct (G blocks {| w_AD := []; w_spec := [] |} 0%nat HG eq_refl) as (w & E & _ & R).
  exists w. split; [exact E|]. intros b ms Hb. unfold workset_ready, dispatch, worksets_of. cbn. apply (R b ms Hb).
Qed.
Print Assumptions C50_explicit_partial.

(** "fully explicit" with an analysis other than forward or dry-run: if an
    earlier block has no elements on this process, creation writes past the end
    of the vector of AD worksets.  With a forward analysis the same happens for
    a multiscale block that is not the first block. *)
Theorem C50_fully_explicit_refuted :
  let t := select_type [4; 4] [false; false] true true in
  create_worksets t true true false [(false, false); (true, false)] = UB
  /\ create_worksets t true true true [(true, false); (true, true)] = UB.
Proof. split; reflexivity. Qed.
Print Assumptions C50_fully_explicit_refuted.
