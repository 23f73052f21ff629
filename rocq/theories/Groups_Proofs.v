(** Lemmas on grouping. *)
From Coq Require Import List Arith ZArith Bool Lia Permutation Sorted ZifyBool ZifyNat.
From Verif Require Import Outcome Groups_Model.
Import ListNotations.

(** ** Consecutive ranges *)
Lemma ranges_ok k : 0 < k -> forall fuel prog total, total - prog <= fuel ->
  exists r, ranges fuel prog total k = Some r
    /\ concat r = seq prog (total - prog)
    /\ (forall g, In g r -> 0 < length g <= k)
    /\ (forall g0 r', r = g0 :: r' -> forall g, In g r -> length g <= length g0).
Proof.
  intros Hk. induction fuel as [|fuel IH]; intros prog total Hf.
  - exists []. cbn [ranges]. destruct (Nat.ltb_spec prog total); [lia|].
    replace (total - prog) with 0 by lia. repeat split; auto; try contradiction; try discriminate.
  - cbn [ranges]. destruct (Nat.ltb_spec prog total) as [Hlt|Hge].
    + set (cur := if total <? prog + k then total - prog else k).
      assert (Hc : 0 < cur <= k /\ cur <= total - prog).
      { unfold cur. destruct (Nat.ltb_spec total (prog + k)); lia. }
      destruct (IH (prog + cur) total) as (r & -> & C & S & F); [lia|].
      exists (seq prog cur :: r). split; [auto|]. split; [|split].
      * cbn [concat]. rewrite C, <- seq_app. f_equal. lia.
      * intros g [<-|Hg]; [rewrite seq_length; lia|auto].
      * intros g0 r' [= <- <-] g [<-|Hg]; auto. rewrite seq_length.
        (* a later group: only if cur = k *)
        unfold cur. destruct (Nat.ltb_spec total (prog + k)) as [Hb|Hb]; [|apply S; auto].
        exfalso. destruct r as [|g1 r1]; [destruct Hg|].
        assert (L : length (concat (g1 :: r1)) = total - (prog + cur)) by (rewrite C, seq_length; auto).
        pose proof (S g1 (or_introl eq_refl)) as Hg1. cbn [concat] in L. rewrite app_length in L.
        assert (cur = total - prog) by (unfold cur; destruct (Nat.ltb_spec total (prog + k)); lia). lia.
    + exists []. replace (total - prog) with 0 by lia. repeat split; auto; try contradiction; try discriminate.
Qed.

Lemma ranges_diverge fuel prog total : prog < total -> ranges fuel prog total 0 = None.
Proof.
  revert prog. induction fuel as [|fuel IH]; intros prog H; cbn [ranges]; destruct (Nat.ltb_spec prog total); try lia; auto.
  rewrite Nat.add_0_r. destruct (Nat.ltb_spec total prog); [lia|]. rewrite Nat.add_0_r, IH; auto.
Qed.

(** ** Unique local side ids *)
Lemma unique_fold ids : forall u, NoDup u ->
  let v := fold_left (fun u i => if existsb (fun x => x =? i) u then u else u ++ [i]) ids u in
  NoDup v /\ (forall x, In x v <-> In x u \/ In x ids).
Proof.
  induction ids as [|i ids IH]; intros u Hu; cbn [fold_left].
  - split; auto. intros x; split; [auto|intros [|[]]; auto].
  - destruct (existsb (fun x => x =? i) u) eqn:E.
    + destruct (IH u Hu) as [A B]. split; auto. intros x. rewrite B.
      apply existsb_exists in E as (y & Hy & Ey). apply Nat.eqb_eq in Ey. subst y.
      split; intros [H|H]; auto; [right; right; auto|destruct H as [<-|H]; auto].
    + assert (N : ~ In i u).
      { intros H. assert (existsb (fun x => x =? i) u = true); [|congruence].
        apply existsb_exists. exists i. split; auto. apply Nat.eqb_refl. }
      assert (Hu' : NoDup (u ++ [i])).
      { apply NoDup_remove_2 with (a := i) (l := u) (l' := []) || idtac.
        clear -Hu N. induction Hu as [|x u Hx Hu IH]; cbn; [constructor; [auto|constructor]|].
        constructor; [rewrite in_app_iff; intros [H|[H|[]]]; [auto|subst; apply N; left; auto]|].
        apply IH. intros H; apply N; right; auto. }
      destruct (IH _ Hu') as [A B]. split; auto. intros x. rewrite B, in_app_iff. cbn. tauto.
Qed.

Lemma unique_sides_ok ids : NoDup (unique_sides ids) /\ (forall x, In x (unique_sides ids) <-> In x ids).
Proof.
  unfold unique_sides. destruct ids as [|i0 ids]; [split; [constructor|tauto]|].
  destruct (unique_fold (i0 :: ids) [i0]) as [A B]; [constructor; [auto|constructor]|].
  split; auto. intros x. rewrite B. cbn. tauto.
Qed.

Lemma nth_positions ids s e : e < length (positions ids s) ->
  nth (nth e (positions ids s) 0) ids 0 = s /\ nth e (positions ids s) 0 < length ids.
Proof.
  intros H. pose proof (nth_In _ 0 H) as I. unfold positions in I at 2. apply filter_In in I as [I1 I2].
  apply in_seq in I1. apply Nat.eqb_eq in I2. split; [auto|lia].
Qed.

Lemma map_nth_seq' {A} (v : list A) d : map (fun i => nth i v d) (seq 0 (length v)) = v.
Proof.
  apply nth_ext with (d := d) (d' := d).
  - rewrite map_length, seq_length. auto.
  - intros k Hk. rewrite map_length, seq_length in Hk.
    rewrite nth_indep with (d' := nth 0 v d) by (rewrite map_length, seq_length; auto).
    change (nth 0 v d) with ((fun i => nth i v d) 0). rewrite map_nth.
    rewrite seq_nth by auto. reflexivity.
Qed.

Lemma nth_snd (sides : list (nat * nat)) e : nth e (map snd sides) 0 = snd (nth e sides (0, 0)).
Proof. change 0 with (snd (0, 0)) at 1. apply map_nth. Qed.

Definition flat (g : list nat * nat) : list (nat * nat) := map (fun e => (e, snd g)) (fst g).

Lemma positions_select (sides : list (nat * nat)) s :
  map (fun e => nth e sides (0, 0)) (positions (map snd sides) s)
  = filter (fun p => snd p =? s) sides.
Proof.
  unfold positions. rewrite map_length.
  transitivity (filter (fun p => snd p =? s) (map (fun i => nth i sides (0, 0)) (seq 0 (length sides)))).
  2:{ rewrite map_nth_seq'. reflexivity. }
  induction (seq 0 (length sides)) as [|e l IH]; cbn [filter map]; auto.
  rewrite nth_snd.
  destruct (snd (nth e sides (0, 0)) =? s); cbn [map]; rewrite IH; auto.
Qed.

Lemma side_groups_ok k fuel (sides : list (nat * nat)) s : 0 < k -> length sides <= fuel ->
  exists gs, side_groups fuel k sides s = Some gs
    /\ concat (map flat gs) = filter (fun p => snd p =? s) sides
    /\ (forall g, In g gs -> 0 < length (fst g) <= k /\ snd g = s).
Proof.
  intros Hk Hf. unfold side_groups. set (grp := positions (map snd sides) s).
  assert (Hlen : length grp <= length sides).
  { unfold grp. rewrite <- (map_length (fun e => nth e sides (0, 0))), positions_select.
    clear. induction sides as [|p l IH]; cbn; auto. destruct (snd p =? s); cbn; lia. }
  destruct (ranges_ok k Hk fuel 0 (length grp)) as (rs & -> & C & S & _); [lia|].
  eexists. split; [reflexivity|]. rewrite Nat.sub_0_r in C.
  assert (B : forall r, In r rs -> forall e, In e r -> e < length grp).
  { intros r Hr e He. assert (In e (concat rs)) as H by (apply in_concat; exists r; auto).
    rewrite C in H. apply in_seq in H. lia. }
  assert (Sd : forall r, In r rs -> last (map (fun e => snd (nth (nth e grp 0) sides (0, 0))) r) 0 = s).
  { intros r Hr. pose proof (S r Hr) as Sr. specialize (B r Hr).
    destruct (exists_last (l := r)) as (r1 & e & ->); [destruct r; [cbn in Sr; lia|discriminate]|].
    rewrite map_app. cbn [map]. rewrite last_last.
    destruct (nth_positions (map snd sides) s e) as [P1 P2]; [apply B; apply in_app_iff; right; left; auto|].
    fold grp in P1, P2. rewrite nth_snd in P1. exact P1. }
  split.
  - rewrite <- (positions_select sides s). fold grp.
    transitivity (map (fun e => nth e sides (0, 0)) (map (fun i => nth i grp 0) (seq 0 (length grp)))).
    2:{ rewrite map_nth_seq'. reflexivity. }
    rewrite <- C. rewrite concat_map, concat_map, !map_map.
    f_equal. apply map_ext_in. intros r Hr. unfold flat. cbn [fst snd]. rewrite Sd by auto.
    rewrite !map_map. apply map_ext_in. intros e He.
    destruct (nth_positions (map snd sides) s e) as [P1 P2]; [apply (B r Hr e He)|]. fold grp in P1, P2.
    rewrite nth_snd in P1. destruct (nth (nth e grp 0) sides (0, 0)); cbn in *. congruence.
  - intros g Hg. apply in_map_iff in Hg as (r & <- & Hr). cbn [fst snd]. rewrite map_length. split; [apply S|apply Sd]; auto.
Qed.

Lemma filter_partition_perm {A} (f : A -> nat) us (l : list A) :
  NoDup us -> (forall x, In x l -> In (f x) us) ->
  Permutation (concat (map (fun u => filter (fun x => f x =? u) l) us)) l.
Proof.
  revert us. induction l as [|x l IH]; intros us Hu Hin.
  - replace (concat (map (fun u => filter (fun x => f x =? u) []) us)) with (@nil A); auto.
    clear. induction us; auto.
  - assert (Ix : In (f x) us) by (apply Hin; left; auto).
    apply in_split in Ix as (u1 & u2 & Eu).
    assert (H1 : forall u, In u u1 \/ In u u2 -> (f x =? u) = false).
    { intros u Hu'. apply Nat.eqb_neq. intros E. rewrite Eu in Hu. apply NoDup_remove_2 in Hu. apply Hu.
      rewrite E. apply in_app_iff. tauto. }
    assert (IH' : Permutation (concat (map (fun u => filter (fun y => f y =? u) l) us)) l).
    { apply IH; auto. intros y Hy. apply Hin. right; auto. }
    rewrite Eu in *. rewrite map_app, concat_app in *. cbn [map concat] in *.
    assert (M : forall w, (forall u, In u w -> (f x =? u) = false) ->
       map (fun u => filter (fun y => f y =? u) (x :: l)) w = map (fun u => filter (fun y => f y =? u) l) w).
    { intros w Hw. apply map_ext_in. intros u Hu'. cbn [filter]. rewrite Hw; auto. }
    rewrite (M u1), (M u2) by (intros; apply H1; auto).
    cbn [filter]. rewrite Nat.eqb_refl. cbn [app].
    etransitivity; [symmetry; apply Permutation_middle|]. constructor. auto.
Qed.

Lemma boundary_groups_ok k fuel (sides : list (nat * nat)) : 0 < k -> length sides <= fuel ->
  exists gs, boundary_groups fuel k sides = Some gs
    /\ Permutation (concat (map flat gs)) sides
    /\ (forall g, In g gs -> 0 < length (fst g) <= k).
Proof.
  intros Hk Hf. unfold boundary_groups.
  destruct (unique_sides_ok (map snd sides)) as [Nu Iu].
  assert (Q : forall us, exists gs, concat_opt (map (side_groups fuel k sides) us) = Some gs
     /\ concat (map flat gs) = concat (map (fun u => filter (fun p => snd p =? u) sides) us)
     /\ (forall g, In g gs -> 0 < length (fst g) <= k)).
  { induction us as [|u us (gs & E & C & S)]; [exists []; repeat split; auto; contradiction|].
    destruct (side_groups_ok k fuel sides u Hk Hf) as (g1 & E1 & C1 & S1).
    exists (g1 ++ gs). cbn [map concat_opt concat]. rewrite E1, E. split; auto. split.
    - rewrite map_app, concat_app, C1, C. auto.
    - intros g Hg. apply in_app_iff in Hg as [Hg|Hg]; [apply S1|apply S]; auto. }
  destruct (Q (unique_sides (map snd sides))) as (gs & E & C & S).
  exists gs. split; auto. split; auto. rewrite C.
  apply filter_partition_perm; auto. intros x Hx. apply Iu. apply in_map; auto.
Qed.

(** ** Subgrid-preserving *)
Lemma beq_list_ok a : forall b, beq_list a b = true <-> a = b.
Proof.
  induction a as [|x a IH]; intros [|y b]; cbn; split; intros H; try discriminate; auto.
  - apply andb_prop in H as [H1 H2]. apply eqb_prop in H1. apply IH in H2. congruence.
  - injection H as -> ->. rewrite eqb_reflx. cbn. apply IH; auto.
Qed.

Lemma upd_length {A} (l : list A) : forall i x, length (upd l i x) = length l.
Proof. induction l as [|y l IH]; intros [|i] x; cbn; auto. Qed.
Lemma upd_nth {A} (l : list A) d : forall i x j, i < length l -> nth j (upd l i x) d = if j =? i then x else nth j l d.
Proof.
  induction l as [|y l IH]; intros i x j H; [cbn in H; lia|].
  destruct i, j; cbn in *; auto. apply IH. lia.
Qed.

Definition cnt (l : list bool) : nat := length (filter (fun b => b) l).

Lemma cnt_le l : cnt l <= length l.
Proof. unfold cnt. induction l as [|[] l IH]; cbn; lia. Qed.
Lemma cnt_upd l : forall i, i < length l -> nth i l false = false -> cnt (upd l i true) = S (cnt l).
Proof.
  unfold cnt. induction l as [|b l IH]; intros i H Hn; [cbn in H; lia|].
  destruct i; cbn in *; [subst; auto|]. destruct b; cbn; rewrite IH by (auto; lia); auto.
Qed.
Lemma cnt_full l : cnt l = length l -> forall i, i < length l -> nth i l false = true.
Proof.
  unfold cnt. induction l as [|b l IH]; cbn; intros H i Hi; [lia|].
  pose proof (cnt_le l) as P. unfold cnt in P. destruct b; cbn in H; [|lia]. destruct i; auto. apply IH; lia.
Qed.
Lemma first_unadded_ok l : cnt l < length l ->
  first_unadded l < length l /\ nth (first_unadded l) l false = false
  /\ forall i, i < first_unadded l -> nth i l false = true.
Proof.
  unfold cnt. induction l as [|b l IH]; cbn; intros H; [lia|].
  destruct b; cbn in *.
  - destruct IH as (A & B & C); [lia|]. split; [lia|]. split; auto. intros [|i] Hi; auto. apply C. lia.
  - split; [lia|]. split; auto. intros; lia.
Qed.

Definition setall (t : list nat) (added : list bool) : list bool :=
  fold_left (fun ad j => upd ad j true) t added.

Lemma setall_length t : forall ad, length (setall t ad) = length ad.
Proof. induction t as [|j t IH]; intros ad; cbn; auto. rewrite IH. apply upd_length. Qed.
Lemma setall_nth t : forall ad x, (forall j, In j t -> j < length ad) ->
  (nth x (setall t ad) false = true <-> nth x ad false = true \/ In x t).
Proof.
  induction t as [|j t IH]; intros ad x Ht; cbn [setall fold_left]; [cbn; tauto|].
  fold (setall t (upd ad j true)). rewrite IH by (intros i Hi; rewrite upd_length; apply Ht; right; auto).
  rewrite upd_nth by (apply Ht; left; auto). destruct (Nat.eqb_spec x j) as [->|N]; cbn.
  - tauto.
  - split; intros [H|H]; auto. destruct H; [congruence|auto].
Qed.
Lemma cnt_setall t : forall ad, NoDup t -> (forall j, In j t -> j < length ad /\ nth j ad false = false) ->
  cnt (setall t ad) = cnt ad + length t.
Proof.
  induction t as [|j t IH]; intros ad Hd Ht; cbn [setall fold_left length]; [lia|].
  fold (setall t (upd ad j true)). inversion Hd as [|? ? Hj Hd']; subst.
  destruct (Ht j (or_introl eq_refl)) as [B1 B2].
  rewrite IH; auto.
  - rewrite cnt_upd by auto. lia.
  - intros i Hi. rewrite upd_length. destruct (Ht i (or_intror Hi)) as [C1 C2]. split; auto.
    rewrite upd_nth by auto. destruct (Nat.eqb_spec i j); [subst; contradiction|auto].
Qed.

Lemma collect_closed cols k ref js : forall g ad num,
  collect cols k ref js g ad num =
  let t := firstn (k - length g) (filter (fun j => beq_list (row cols j) (row cols ref)) js) in
  (g ++ t, setall t ad, num + length t).
Proof.
  induction js as [|j js IH]; intros g ad num; cbn [collect filter].
  - rewrite firstn_nil. cbn. rewrite app_nil_r, Nat.add_0_r. auto.
  - destruct (beq_list (row cols j) (row cols ref)) eqn:E; cbn [andb].
    + destruct (Nat.ltb_spec (length g) k) as [H|H].
      * rewrite IH. rewrite app_length. cbn [length].
        replace (k - length g) with (S (k - (length g + 1))) by lia. cbn [firstn].
        cbn zeta. rewrite <- app_assoc. cbn [app length setall fold_left]. f_equal. lia.
      * replace (k - length g) with 0 by lia. cbn [firstn].
        rewrite IH. replace (k - length g) with 0 by lia. reflexivity.
    + apply IH.
Qed.

Lemma firstn_filter_seq (f : nat -> bool) m : forall l a i j,
  In j (firstn m (filter f (seq a l))) -> a <= i < j -> f i = true -> In i (firstn m (filter f (seq a l))).
Proof.
  revert m. intros m l. revert m. induction l as [|l IH]; intros m a i j Hj Hi Hf; cbn [seq filter] in *.
  - rewrite firstn_nil in Hj. destruct Hj.
  - destruct (f a) eqn:Ea.
    + destruct m; [destruct Hj|]. cbn [firstn] in *. destruct (Nat.eq_dec i a) as [->|N]; [left; auto|].
      right. destruct Hj as [Hj|Hj]; [lia|]. eapply IH; eauto. lia.
    + destruct (Nat.eq_dec i a) as [->|N]; [congruence|]. eapply IH; eauto. lia.
Qed.

Lemma firstn_in {A} m (l : list A) x : In x (firstn m l) -> In x l.
Proof. rewrite <- (firstn_skipn m l) at 2. rewrite in_app_iff. auto. Qed.
Lemma firstn_nodup {A} m (l : list A) : NoDup l -> NoDup (firstn m l).
Proof.
  intros H. rewrite <- (firstn_skipn m l) in H. revert H. generalize (firstn m l) (skipn m l). clear.
  induction l as [|x a IH]; intros b H; cbn in *; [constructor|]. inversion H; subst.
  constructor; [rewrite in_app_iff in *; tauto|]. eapply IH; eauto.
Qed.

Lemma subgrid_ok cols k n : 0 < k -> forall fuel added num,
  length added = n -> num = cnt added -> n - num <= fuel ->
  (forall i j, i < j -> j < n -> row cols i = row cols j -> nth j added false = true -> nth i added false = true) ->
  exists gs, subgrid_groups fuel cols k n added num = Some (Ok gs)
    /\ NoDup (concat gs)
    /\ (forall x, In x (concat gs) <-> x < n /\ nth x added false = false)
    /\ (forall g, In g gs -> 0 < length g <= k /\ forall x y, In x g -> In y g -> row cols x = row cols y).
Proof.
  intros Hk. induction fuel as [|fuel IH]; intros added num L Hnum Hf Hdc.
  - exists []. cbn [subgrid_groups]. pose proof (cnt_le added). destruct (Nat.ltb_spec num n); [lia|].
    split; auto. split; [constructor|]. split; [|contradiction]. intros x. split; [contradiction|].
    intros [Hx Hn]. rewrite cnt_full in Hn by lia. discriminate.
  - cbn [subgrid_groups]. pose proof (cnt_le added) as Hle. destruct (Nat.ltb_spec num n) as [Hlt|Hge].
    2:{ exists []. split; auto. split; [constructor|]. split; [|contradiction]. intros x. split; [contradiction|].
        intros [Hx Hn]. rewrite cnt_full in Hn by lia. discriminate. }
    destruct (first_unadded_ok added) as (R1 & R2 & R3); [lia|]. set (ref := first_unadded added) in *.
    unfold upd_ub. replace (ref <? length added) with true by (symmetry; apply Nat.ltb_lt; auto).
    rewrite collect_closed. cbn [length].
    set (f := fun j => beq_list (row cols j) (row cols ref)).
    set (t := firstn (k - 1) (filter f (seq (S ref) (n - S ref)))).
    cbv beta iota zeta.
    assert (T1 : forall j, In j t -> ref < j < n /\ row cols j = row cols ref).
    { intros j Hj. apply firstn_in in Hj. apply filter_In in Hj as [Hj1 Hj2]. apply in_seq in Hj1.
      apply beq_list_ok in Hj2. split; [lia|auto]. }
    assert (T2 : forall j, In j t -> nth j added false = false).
    { intros j Hj. destruct (T1 j Hj) as [B E]. destruct (nth j added false) eqn:Ej; auto.
      rewrite (Hdc ref j) in R2; try lia; auto. }
    assert (Tn : NoDup t) by (apply firstn_nodup, NoDup_filter, seq_NoDup).
    assert (TL : length t <= k - 1) by (unfold t; rewrite firstn_length; lia).
    assert (Lu : length (upd added ref true) = n) by (rewrite upd_length; auto).
    assert (Tu : forall j, In j t -> j < length (upd added ref true) /\ nth j (upd added ref true) false = false).
    { intros j Hj. split; [rewrite Lu; apply T1 in Hj; lia|]. rewrite upd_nth by auto.
      destruct (Nat.eqb_spec j ref); [apply T1 in Hj; lia|auto]. }
    assert (Nx : forall x, nth x (setall t (upd added ref true)) false = true <->
       nth x added false = true \/ x = ref \/ In x t).
    { intros x. rewrite setall_nth by (intros j Hj; apply Tu; auto). rewrite upd_nth by auto.
      destruct (Nat.eqb_spec x ref); subst; tauto. }
    destruct (IH (setall t (upd added ref true)) (S num + length t)) as (gs & E & Nd & Ix & Sz).
    + rewrite setall_length. auto.
    + rewrite cnt_setall by auto. rewrite cnt_upd by auto. lia.
    + lia.
    + intros i j Hij Hj Hr. rewrite !Nx. intros [H|[->|H]].
      * left. eapply Hdc; eauto.
      * left. apply R3. auto.
      * destruct (lt_eq_lt_dec i ref) as [[Hlt'|He]|Hgt]; [left; apply R3; auto|tauto|].
        right; right. unfold t in *. apply firstn_filter_seq with (j := j); try lia; auto.
        unfold f. apply beq_list_ok. rewrite Hr. apply T1 in H. apply H.
    + rewrite E. exists (([ref] ++ t) :: gs). split; [reflexivity|].
      cbn [concat]. split; [|split].
      * assert (D : forall x, In x ([ref] ++ t) -> ~ In x (concat gs)).
        { intros x Hx Hc. apply Ix in Hc as [_ Hc].
          assert (nth x (setall t (upd added ref true)) false = true) by (apply Nx; destruct Hx as [<-|Hx]; auto). congruence. }
        assert (N2 : NoDup ([ref] ++ t)) by (constructor; auto; intros H; apply T1 in H; lia).
        revert D N2 Nd. generalize ([ref] ++ t) (concat gs). clear.
        intros a b D Na Nb. induction Na as [|x a Hx Na IH]; cbn; auto.
        constructor; [rewrite in_app_iff; intros [H|H]; [auto|eapply D; [left; reflexivity|auto]]|].
        apply IH. intros y Hy. apply D. right; auto.
      * intros x. rewrite in_app_iff, Ix. cbn [app In].
        destruct (nth x (setall t (upd added ref true)) false) eqn:Ex.
        -- apply Nx in Ex. split.
           ++ intros [[<-|H]|[_ H]]; [split; [lia|auto]|split; [apply T1 in H; lia|auto]|discriminate].
           ++ intros [Hx Hn]. destruct Ex as [Ex|[->|Ex]]; auto. congruence.
        -- assert (nth x added false = true \/ x = ref \/ In x t -> False) as Hno.
           { intros H. apply Nx in H. congruence. }
           split.
           ++ intros [[<-|H]|[H _]]; [exfalso; auto|exfalso; auto|]. split; auto.
              destruct (nth x added false); auto. exfalso; auto.
           ++ intros [Hx Hn]. auto.
      * intros g [<-|Hg]; [|apply Sz; auto]. split; [rewrite app_length; cbn; lia|].
        assert (Hc : forall x, In x ([ref] ++ t) -> row cols x = row cols ref).
        { intros x [<-|Hx]; auto. apply T1; auto. }
        intros x y Hx Hy. rewrite (Hc x Hx), (Hc y Hy). auto.
Qed.

(** ** Reordering *)
Lemma scan_max_ok rest : forall i mx best,
  (scan_max rest i mx best = best /\ forall g, In g rest -> length g <= mx)
  \/ (exists d, scan_max rest i mx best = Some (i + d) /\ d < length rest
        /\ mx < length (nth d rest []) /\ forall g, In g rest -> length g <= length (nth d rest [])).
Proof.
  induction rest as [|g rest IH]; intros i mx best; cbn [scan_max]; [left; split; auto; contradiction|].
  destruct (Nat.ltb_spec mx (length g)) as [H|H].
  - right. destruct (IH (S i) (length g) (Some i)) as [[E A]|(d & E & D1 & D2 & D3)].
    + exists 0. rewrite E, Nat.add_0_r. cbn. split; [auto|]. split; [lia|]. split; [auto|].
      intros g' [<-|Hg]; auto.
    + exists (S d). rewrite E. cbn. split; [f_equal; lia|]. split; [lia|]. split; [lia|].
      intros g' [<-|Hg]; [lia|auto].
  - destruct (IH (S i) mx best) as [[E A]|(d & E & D1 & D2 & D3)].
    + left. split; auto. intros g' [<-|Hg]; auto.
    + right. exists (S d). rewrite E. cbn. split; [f_equal; lia|]. split; [lia|]. split; [lia|].
      intros g' [<-|Hg]; [lia|auto].
Qed.

Lemma upd_perm {A} (l : list A) d : forall i x, i < length l -> Permutation (nth i l d :: upd l i x) (x :: l).
Proof.
  induction l as [|y l IH]; intros i x H; [cbn in H; lia|].
  destruct i; cbn; [apply perm_swap|].
  etransitivity; [apply perm_swap|]. etransitivity; [apply perm_skip, IH; cbn in H; lia|]. apply perm_swap.
Qed.

Definition by_size (a b : list nat) : Prop := length b <= length a.

Lemma reorder_ok m : forall gs, length gs <= S m ->
  Permutation (reorder m gs) gs /\ StronglySorted by_size (reorder m gs).
Proof.
  induction m as [|m IH]; intros gs L.
  - destruct gs as [|g [|g' gs]]; cbn in *; try lia; (split; [auto|repeat constructor]).
  - destruct gs as [|g rest]; [cbn; split; [auto|constructor]|]. cbn [reorder].
    destruct (scan_max_ok rest 0 (length g) None) as [[E A]|(d & E & D1 & D2 & D3)]; rewrite E.
    + destruct (IH rest ltac:(cbn in L; lia)) as [P S]. split; [constructor; auto|].
      constructor; auto. apply Forall_forall. intros x Hx. apply A. eapply Permutation_in; eauto.
    + cbn [plus]. destruct (IH (upd rest d g)) as [P S]; [rewrite upd_length; cbn in L; lia|].
      split.
      * etransitivity; [apply perm_skip, P|]. apply upd_perm; auto.
      * constructor; auto. apply Forall_forall. intros x Hx. apply (Permutation_in _ P) in Hx.
        assert (In x (nth d rest [] :: upd rest d g)) as Hx' by (right; auto).
        apply (Permutation_in _ (upd_perm rest [] d g D1)) in Hx'.
        unfold by_size. destruct Hx' as [<-|Hx']; [lia|auto].
Qed.

Lemma mark_ok ids : forall col, (forall e, In e ids -> e < length col) ->
  exists c, mark col ids = Ok c /\ length c = length col
    /\ forall j, nth j c false = true <-> nth j col false = true \/ In j ids.
Proof.
  induction ids as [|e ids IH]; intros col H; cbn [mark].
  - exists col. repeat split; auto. intros [|[]]; auto.
  - unfold upd_ub. replace (e <? length col) with true by (symmetry; apply Nat.ltb_lt, H; left; auto).
    cbn [obind]. destruct (IH (upd col e true)) as (c & E & L & N).
    { intros x Hx. rewrite upd_length. apply H. right; auto. }
    exists c. rewrite E, L, upd_length. repeat split; auto.
    + intros Hj. apply N in Hj. rewrite upd_nth in Hj by (apply H; left; auto).
      destruct (Nat.eqb_spec j e); [subst; right; left; auto|]. cbn. tauto.
    + intros Hj. apply N. rewrite upd_nth by (apply H; left; auto).
      destruct (Nat.eqb_spec j e); [auto|]. cbn in Hj. destruct Hj as [|[]]; auto.
Qed.

Lemma onbndry_ok n bgs : (forall b e, In b bgs -> In e b -> e < n) ->
  exists cols, onbndry n bgs = Ok cols
    /\ forall i j, i < n -> j < n -> (row cols i = row cols j <-> forall b, In b bgs -> (In i b <-> In j b)).
Proof.
  induction bgs as [|b bgs IH]; intros H.
  - exists []. split; [reflexivity|]. intros i j _ _. split; [contradiction|reflexivity].
  - destruct IH as (cols & E & Hr); [intros; eapply H; [right|]; eauto|].
    destruct (mark_ok b (repeat false n)) as (c & Em & Lc & Nc).
    { intros e He. rewrite repeat_length. eapply H; [left; reflexivity|auto]. }
    exists (c :: cols). unfold onbndry in *. cbn [map_outcome]. rewrite Em, E. split; auto.
    assert (Nc' : forall j, nth j c false = true <-> In j b).
    { intros j. rewrite Nc. split; [|auto]. intros [Hj|]; auto. exfalso.
      destruct (Nat.ltb_spec j n); [rewrite nth_repeat in Hj; discriminate|].
      rewrite nth_overflow in Hj by (rewrite repeat_length; lia). discriminate. }
    intros i j Hi Hj. cbn [row map]. split.
    + intros Q. injection Q as Q1 Q2. intros b' [<-|Hb']; [rewrite <- !Nc', Q1; tauto|].
      apply Hr; auto.
    + intros Q. f_equal; [|apply Hr; auto; intros; apply Q; right; auto].
      specialize (Q b (or_introl eq_refl)). rewrite <- !Nc' in Q.
      destruct (nth i c false), (nth j c false); auto; destruct Q as [Q1 Q2]; [symmetry; auto|auto].
Qed.
