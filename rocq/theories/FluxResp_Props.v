(** Flux responses: C348-C350. *)
From Coq Require Import String Bool Arith Lia Reals Lra List.
From Verif Require Import BProj_Model BProj_Proofs FluxResp_Model.
Import ListNotations.
Local Open Scope R_scope.
Local Notation length := List.length.

(** *** Specification *)

(** The name is a piece of the text. *)
Definition piece (sides name : string) : Prop := exists a c, sides = (a ++ name ++ c)%string.

(** Weighted flux of a variable through the groups of a block with given names,
    where [sol] is the local solution used for a group. *)
Definition through {V L} (groups : list (bgroup V L)) (sel : string -> bool)
    (sol : bgroup V L -> L) (name : string) (v : nat) : R :=
  sm (filter (fun g => sel (bg_side g)) groups) (fun g =>
    sm (seq 0 (bg_elems g)) (fun e => sm (seq 0 (bg_pts g)) (fun p =>
      bg_iwt g e p * (bg_wt g name (sol g) e p * bg_flux g (sol g) v e p)))).

(** *** Lists *)
Lemma mapi_length {A B} (f : nat -> A -> B) l : length (mapi f l) = length l.
Proof. unfold mapi. rewrite map_length, combine_length, seq_length. lia. Qed.

Lemma combine_seq_nth {A} (l : list A) : forall k i d, (i < length l)%nat ->
  nth i (combine (seq k (length l)) l) (k, d) = ((k + i)%nat, nth i l d).
Proof.
  induction l as [|a l IH]; intros k i d H; cbn [length] in H; [lia|].
  cbn [length seq combine]. destruct i as [|i]; cbn [nth]; [f_equal; lia|].
  rewrite (nth_indep _ (k, d) (S k, d)) by (rewrite combine_length, seq_length; lia).
  rewrite IH by lia. f_equal. lia.
Qed.

Lemma mapi_nth (f : nat -> R -> R) l v d : (v < length l)%nat -> nth v (mapi f l) d = f v (nth v l 0).
Proof.
  intros H. unfold mapi.
  rewrite (nth_indep _ d (f (fst (0%nat, 0)) (snd (0%nat, 0)))) by (rewrite map_length, combine_length, seq_length; lia).
  rewrite (map_nth (fun ia => f (fst ia) (snd ia))), combine_seq_nth by exact H. reflexivity.
Qed.

Lemma index_meant sides name : meant sides name = true <-> piece sides name.
Proof.
  unfold meant, piece. split.
  - destruct (index 0 name sides) as [n|] eqn:E; [|discriminate]. intros _.
    apply index_correct1 in E.
    exists (substring 0 n sides), (substring (n + String.length name) (String.length sides) sides).
    assert (G : forall s n k, s = (substring 0 n s ++ substring n k s ++ substring (n + k) (String.length s) s)%string).
    { clear. assert (Z : forall s m, (String.length s <= m)%nat -> substring 0 m s = s).
      { induction s as [|c s IH]; intros [|m] H; cbn in *; try reflexivity; try lia. rewrite IH by lia. reflexivity. }
      assert (N0 : forall s, substring 0 0 s = EmptyString) by (intros []; reflexivity).
      assert (NM : forall n m, substring n m "" = EmptyString) by (intros [|n] [|m]; reflexivity).
      induction s as [|c s IH]; intros n k.
      - rewrite !NM. reflexivity.
      - destruct n as [|n].
        + rewrite N0. cbn [append Nat.add]. destruct k as [|k].
          * rewrite N0. cbn [append]. rewrite Z; auto.
          * cbn [substring append String.length]. f_equal.
            specialize (IH 0%nat k). rewrite N0 in IH. cbn [append Nat.add] in IH.
            assert (Y : forall t i a b, (String.length t <= a)%nat -> (String.length t <= b)%nat ->
                     substring i a t = substring i b t).
            { induction t as [|x t IHt]; intros i a b Ha Hb; [now rewrite !NM|].
              destruct i as [|i].
              - rewrite !Z; auto.
              - cbn [substring]. cbn [String.length] in Ha, Hb. apply IHt; lia. }
            rewrite IH at 1. f_equal. apply Y; lia.
        + cbn [substring append Nat.add String.length]. f_equal.
          rewrite (IH n k) at 1. f_equal. f_equal.
          assert (Y : forall t i a b, (String.length t <= a)%nat -> (String.length t <= b)%nat ->
                     substring i a t = substring i b t).
          { induction t as [|x t IHt]; intros i a b Ha Hb; [now rewrite !NM|].
            destruct i as [|i].
            - rewrite !Z; auto.
            - cbn [substring]. cbn [String.length] in Ha, Hb. apply IHt; lia. }
          apply Y; lia. }
    pose proof (G sides n (String.length name)) as H. rewrite E in H. exact H.
  - intros (a & c & ->). destruct (index 0 name (a ++ name ++ c)) eqn:E; [reflexivity|].
    destruct (string_dec name EmptyString) as [->|NE].
    + destruct (a ++ "" ++ c)%string; discriminate.
    + exfalso. apply (index_correct3 0 (String.length a) name _ E NE); [lia|].
      clear E NE. induction a as [|x a IH]; cbn [String.length append substring]; [|exact IH].
      induction name as [|y n IHn]; cbn [String.length append substring]; [destruct c; reflexivity|].
      rewrite IHn. reflexivity.
Qed.

(** *** Accumulation *)

(** Everything but the values of a response is unchanged. *)
Definition same_kind (f f' : fresp) : Prop :=
  fr_name f = fr_name f' /\ fr_sides f = fr_sides f' /\ fr_weight f = fr_weight f' /\
  fr_block f = fr_block f' /\ length (fr_vals f) = length (fr_vals f').

Lemma visit_kind {V L} sh b (g : bgroup V L) f : same_kind f (visit sh b g f).
Proof. unfold visit, same_kind. destruct (_ && _); cbn; rewrite ?mapi_length; repeat split. Qed.

Lemma sm_one {A} (a : A) f : sm [a] f = f a.
Proof. unfold sm, Sparse_Model.rsum. cbn. ring. Qed.

Definition vsum {V L} (sh : L) (gs : list (bgroup V L)) (f : fresp) (v : nat) : R :=
  through gs (meant (fr_sides f)) (wk_sol sh) (fr_name f) v.

Lemma visit_val {V L} sh b (g : bgroup V L) f v : (v < length (fr_vals f))%nat ->
  nth v (fr_vals (visit sh b g f)) 0 =
  nth v (fr_vals f) 0 + (if (fr_block f =? b)%nat then vsum sh [g] f v else 0).
Proof.
  intros H. unfold visit, vsum, through. cbn [filter].
  destruct (fr_block f =? b)%nat; cbn [andb]; [|ring].
  destruct (meant (fr_sides f) (bg_side g)); [|unfold sm; cbn; ring].
  cbn [fr_vals]. rewrite mapi_nth by exact H. f_equal.
  rewrite sm_one. unfold contribution. apply sm_ext. intros e _. apply sm_ext. intros p _. ring.
Qed.

Lemma through_cons {V L} (g : bgroup V L) gs sel sol name v :
  through (g :: gs) sel sol name v = through [g] sel sol name v + through gs sel sol name v.
Proof.
  unfold through. cbn [filter]. destruct (sel (bg_side g)); unfold sm, Sparse_Model.rsum; cbn [map fold_right]; ring.
Qed.

(** One block. *)
Lemma block_kind {V L} sh b (gs : list (bgroup V L)) : forall fs,
  Forall2 same_kind fs (fold_left (fun fs g => map (visit sh b g) fs) gs fs).
Proof.
  assert (K : forall (h : fresp -> fresp) fs, (forall f, same_kind f (h f)) -> Forall2 same_kind fs (map h fs)).
  { intros h fs Hh. induction fs; constructor; auto. }
  assert (T : forall a b c, Forall2 same_kind a b -> Forall2 same_kind b c -> Forall2 same_kind a c).
  { induction a; intros b' c H1 H2; inversion H1; subst; inversion H2; subst; constructor; eauto.
    unfold same_kind in *. intuition congruence. }
  induction gs as [|g gs IH]; intros fs; cbn [fold_left].
  - clear. induction fs; constructor; auto. repeat split.
  - eapply T; [|apply IH]. apply K. intros. apply visit_kind.
Qed.

Lemma vsum_kind {V L} sh (gs : list (bgroup V L)) f f' v : same_kind f f' -> vsum sh gs f v = vsum sh gs f' v.
Proof. intros (A & B & _). unfold vsum. now rewrite A, B. Qed.

Definition dummy : fresp := FR "" "" "" 0 [].

Lemma F2_nth fs fs' k : Forall2 same_kind fs fs' -> same_kind (nth k fs dummy) (nth k fs' dummy).
Proof.
  intros H. revert k. induction H; intros [|k]; cbn; auto; repeat split.
Qed.
Lemma F2_len fs fs' : Forall2 same_kind fs fs' -> length fs = length fs'.
Proof. induction 1; cbn; auto. Qed.

Lemma block_val {V L} sh b (gs : list (bgroup V L)) : forall fs k v,
  (v < length (fr_vals (nth k fs dummy)))%nat ->
  nth v (fr_vals (nth k (fold_left (fun fs g => map (visit sh b g) fs) gs fs) dummy)) 0 =
  nth v (fr_vals (nth k fs dummy)) 0 +
  (if (fr_block (nth k fs dummy) =? b)%nat then vsum sh gs (nth k fs dummy) v else 0).
Proof.
  induction gs as [|g gs IH]; intros fs k v H; cbn [fold_left].
  - unfold vsum, through, sm. cbn. destruct (_ =? _)%nat; ring.
  - assert (Hk : (k < length fs)%nat).
    { destruct (lt_dec k (length fs)); [assumption|]. rewrite nth_overflow in H by lia. cbn in H. lia. }
    assert (E : nth k (map (visit sh b g) fs) dummy = visit sh b g (nth k fs dummy)).
    { rewrite (nth_indep _ dummy (visit sh b g dummy)) by (rewrite map_length; exact Hk). apply map_nth. }
    destruct (visit_kind sh b g (nth k fs dummy)) as (N1 & N2 & N3 & N4 & N5).
    rewrite IH by (rewrite E, <- N5; exact H). rewrite E, visit_val by exact H.
    rewrite <- N4. rewrite <- (vsum_kind sh gs (nth k fs dummy) _ v (visit_kind _ _ _ _)).
    destruct (fr_block (nth k fs dummy) =? b)%nat; [|ring].
    unfold vsum. rewrite (through_cons g gs). ring.
Qed.

(** All blocks, starting with block [b0]. *)
Lemma blocks_val {V L} (sh : nat -> L) (gss : list (list (bgroup V L))) : forall b0 fs k v,
  (v < length (fr_vals (nth k fs dummy)))%nat ->
  let r := fold_left (fun fs bg => fold_left (fun fs g => map (visit (sh (fst bg)) (fst bg) g) fs) (snd bg) fs)
                     (combine (seq b0 (length gss)) gss) fs in
  Forall2 same_kind fs r /\
  nth v (fr_vals (nth k r dummy)) 0 = nth v (fr_vals (nth k fs dummy)) 0 +
    (let b := fr_block (nth k fs dummy) in
     if (b0 <=? b)%nat then vsum (sh b) (nth (b - b0) gss []) (nth k fs dummy) v else 0).
Proof.
  induction gss as [|gs gss IH]; intros b0 fs k v H; cbn [length seq combine fold_left fst snd]; cbv zeta.
  - split.
    + clear. induction fs; constructor; auto. repeat split.
    + destruct (b0 <=? _)%nat; [|ring].
      destruct (fr_block (nth k fs dummy) - b0)%nat; cbn [nth]; unfold vsum, through, sm; cbn; ring.
  - pose proof (block_kind (sh b0) b0 gs fs) as K.
    set (fs1 := fold_left (fun fs g => map (visit (sh b0) b0 g) fs) gs fs) in *.
    pose proof (F2_nth _ _ k K) as (N1 & N2 & N3 & N4 & N5).
    destruct (IH (S b0) fs1 k v ltac:(rewrite <- N5; exact H)) as (K2 & E). cbv zeta in E, K2.
    split.
    + assert (T : forall a b c, Forall2 same_kind a b -> Forall2 same_kind b c -> Forall2 same_kind a c).
      { induction a; intros b' c H1 H2; inversion H1; subst; inversion H2; subst; constructor; eauto.
        unfold same_kind in *. intuition congruence. }
      eapply T; [exact K|exact K2].
    + rewrite E. unfold fs1 at 1. rewrite block_val by exact H. rewrite <- N4.
      set (f := nth k fs dummy) in *.
      rewrite <- (vsum_kind _ _ f (nth k fs1 dummy) v (F2_nth _ _ k K)).
      destruct (Nat.leb_spec (S b0) (fr_block f)) as [L1|L1], (Nat.leb_spec b0 (fr_block f)) as [L2|L2],
        (Nat.eqb_spec (fr_block f) b0) as [E3|E3]; try lia; try ring.
      * replace (fr_block f - b0)%nat with (S (fr_block f - S b0)) by lia. cbn [nth]. ring.
      * rewrite E3. replace (b0 - b0)%nat with 0%nat by lia. cbn [nth]. ring.
Qed.

(** Value of response [f], variable [v], at one recorded time of one process. *)
Definition at_time {V L} (s : snap V L) (f : fresp) (v : nat) : R :=
  through (nth (fr_block f) (sn_groups s) []) (meant (fr_sides f))
          (wk_sol (sn_shared s (fr_block f))) (fr_name f) v.

Lemma compute_val {V L} (s : snap V L) fs k v : (v < length (fr_vals (nth k fs dummy)))%nat ->
  Forall2 same_kind fs (compute_flux s fs) /\
  nth v (fr_vals (nth k (compute_flux s fs) dummy)) 0 =
  nth v (fr_vals (nth k fs dummy)) 0 + at_time s (nth k fs dummy) v.
Proof.
  intros H. destruct (blocks_val (sn_shared s) (sn_groups s) 0 fs k v H) as (K & E). cbv zeta in K, E.
  split; [exact K|]. cbn [Nat.leb] in E. rewrite Nat.sub_0_r in E. exact E.
Qed.

Lemma run_val {V L} (ss : list (snap V L)) : forall fs k v, (v < length (fr_vals (nth k fs dummy)))%nat ->
  Forall2 same_kind fs (run_flux ss fs) /\
  nth v (fr_vals (nth k (run_flux ss fs) dummy)) 0 =
  nth v (fr_vals (nth k fs dummy)) 0 + sm ss (fun s => at_time s (nth k fs dummy) v).
Proof.
  induction ss as [|s ss IH]; intros fs k v H; cbn [run_flux fold_left].
  - split; [|unfold sm; cbn; ring]. clear. induction fs; constructor; auto. repeat split.
  - destruct (compute_val s fs k v H) as (K & E).
    pose proof (F2_nth _ _ k K) as SK. pose proof SK as (N1 & N2 & N3 & N4 & N5).
    destruct (IH (compute_flux s fs) k v ltac:(rewrite <- N5; exact H)) as (K2 & E2).
    split.
    + assert (T : forall a b c, Forall2 same_kind a b -> Forall2 same_kind b c -> Forall2 same_kind a c).
      { induction a; intros b' c H1 H2; inversion H1; subst; inversion H2; subst; constructor; eauto.
        unfold same_kind in *. intuition congruence. }
      eapply T; [exact K|exact K2].
    + unfold run_flux in E2. rewrite E2, E. unfold sm at 2. cbn [map]. unfold Sparse_Model.rsum. cbn [fold_right].
      fold (Sparse_Model.rsum (map (fun s0 => at_time s0 (nth k fs dummy) v) ss)).
      fold (sm ss (fun s0 => at_time s0 (nth k fs dummy) v)).
      rewrite (sm_ext ss (fun s0 => at_time s0 (nth k (compute_flux s fs) dummy) v) (fun s0 => at_time s0 (nth k fs dummy) v)).
      * ring.
      * intros s0 _. unfold at_time. now rewrite <- N1, <- N2, <- N4.
Qed.

(** *** C348 *)

(** A response value is the sum over processes, recorded times and groups of its
    block whose side name occurs in its side sets of the weighted flux of the
    solution in the workset.  The values are zero afterwards, so a second run
    does not see the first. *)
Theorem C348_sums {V L} (runs : list (list (snap V L))) fs k v :
  runs <> [] -> (k < length fs)%nat -> (v < length (fr_vals (nth k fs dummy)))%nat ->
  (forall f, In f fs -> forall x, In x (fr_vals f) -> x = 0) ->
  exists pos, nth_error (report_line (map (fun ss => run_flux ss fs) runs)) pos =
      Some (sm runs (fun ss => sm ss (fun s =>
        through (nth (fr_block (nth k fs dummy)) (sn_groups s) []) (meant (fr_sides (nth k fs dummy)))
                (wk_sol (sn_shared s (fr_block (nth k fs dummy)))) (fr_name (nth k fs dummy)) v))) /\
    pos = (fold_right Nat.add 0 (map (fun j => length (fr_vals (nth j fs dummy))) (seq 0 k)) + v)%nat.
Proof.
  intros NE Hk Hv Z. destruct runs as [|r0 runs]; [contradiction|]. clear NE.
  set (procs := map (fun ss => run_flux ss fs) (r0 :: runs)).
  assert (K : forall ss : list (snap V L), Forall2 same_kind fs (run_flux ss fs)).
  { intros ss. destruct (run_val ss fs k v Hv) as (A & _). exact A. }
  assert (RL : report_line procs =
    flat_map (fun k => map (fun v => sm procs (fun p => nth v (fr_vals (nth k p dummy)) 0))
      (seq 0 (length (fr_vals (nth k fs dummy))))) (seq 0 (length fs))).
  { unfold report_line, procs. cbn [map]. rewrite <- (F2_len _ _ (K r0)).
    apply flat_map_ext. intros j. fold dummy. destruct (F2_nth _ _ j (K r0)) as (_ & _ & _ & _ & N5).
    rewrite <- N5. reflexivity. }
  rewrite RL. eexists. split; [|reflexivity].
  assert (G : forall n s j w, (j < n)%nat -> (w < length (fr_vals (nth (s + j) fs dummy)))%nat ->
    nth_error (flat_map (fun k => map (fun v => sm procs (fun p => nth v (fr_vals (nth k p dummy)) 0))
      (seq 0 (length (fr_vals (nth k fs dummy))))) (seq s n))
      (fold_right Nat.add 0%nat (map (fun j => length (fr_vals (nth j fs dummy))) (seq s j)) + w) =
    Some (sm procs (fun p => nth w (fr_vals (nth (s + j) p dummy)) 0))).
  { clear. induction n as [|n IH]; intros s j w Hj Hw; [lia|]. cbn [seq flat_map].
    destruct j as [|j].
    - rewrite Nat.add_0_r in *. cbn [seq map fold_right Nat.add].
      rewrite nth_error_app1 by (rewrite map_length, seq_length; exact Hw).
      rewrite nth_error_map. rewrite (nth_error_nth' _ 0%nat) by (rewrite seq_length; exact Hw).
      rewrite seq_nth by exact Hw. reflexivity.
    - cbn [seq map fold_right]. rewrite nth_error_app2 by (rewrite map_length, seq_length; lia).
      rewrite map_length, seq_length.
      replace (length (fr_vals (nth s fs dummy)) + fold_right Nat.add 0 (map (fun j0 => length (fr_vals (nth j0 fs dummy))) (seq (S s) j)) + w -
               length (fr_vals (nth s fs dummy)))%nat
        with (fold_right Nat.add 0 (map (fun j0 => length (fr_vals (nth j0 fs dummy))) (seq (S s) j)) + w)%nat by lia.
      replace (s + S j)%nat with (S s + j)%nat by lia. apply IH; [lia|].
      replace (S s + j)%nat with (s + S j)%nat by lia. exact Hw. }
  rewrite (G (length fs) 0%nat k v Hk Hv). f_equal. cbn [Nat.add].
  unfold procs. rewrite sm_map. apply sm_ext. intros ss _.
  destruct (run_val ss fs k v Hv) as (_ & E). rewrite E.
  rewrite (Z (nth k fs dummy) (nth_In _ _ Hk) _ (nth_In _ _ Hv)).
  rewrite Rplus_0_l. reflexivity.
Qed.
Print Assumptions C348_sums.

Theorem C348_fresh lists fs : (forall f, In f (add_fluxes lists) -> forall x, In x (fr_vals f) -> x = 0) /\
  (forall f, In f (reset fs) -> forall x, In x (fr_vals f) -> x = 0) /\ Forall2 same_kind fs (reset fs).
Proof.
  split; [|split].
  - intros f Hf x Hx. unfold add_fluxes in Hf. apply in_flat_map in Hf as ((b & l) & _ & Hf).
    apply in_map_iff in Hf as (e & <- & _). cbn [new_resp fr_vals] in Hx. now apply repeat_spec in Hx.
  - intros f Hf x Hx. unfold reset in Hf. apply in_map_iff in Hf as (f' & <- & _). cbn [fr_vals] in Hx.
    apply in_map_iff in Hx as (y & <- & _). reflexivity.
  - unfold reset. induction fs as [|f fs IH]; constructor; [|exact IH].
    unfold same_kind. cbn. rewrite map_length. repeat split.
Qed.
Print Assumptions C348_fresh.

(** *** Cases *)
Definition grp (side : string) (own : option R) (a : R) : bgroup R R :=
  BG side (fun x => x * a) own (fun l _ _ _ => l) (fun _ _ _ _ => 1) (fun _ _ => 1) 1 1.
Definition two (own : R -> option R) : list (bgroup R R) := [grp "top" (own 1) 1; grp "top" (own 2) 2].
Definition top : fentry := FE "q" (Some "top"%string) None None.

Example C348_case : report_line (map (fun ss => run_flux ss (add_fluxes [[top]]))
   [[SN (fun _ => 5) [two (fun x => Some x)]]; [SN (fun _ => 5) [two (fun x => Some x)]]]) = [3 + 3].
Proof. unfold report_line. cbn. f_equal. unfold sm, Sparse_Model.rsum, contribution, sm, Sparse_Model.rsum. cbn. ring. Qed.

(** *** C349: which solution *)

(** Wanted: the flux of the recorded solution.  True when each boundary group
    keeps its own copy, gathered from it.  Missing: groups that share the buffer
    of their block (the default). *)
Theorem C349_current_partial {V L} (s : snap V L) (cur : V) f v :
  (forall g, In g (nth (fr_block f) (sn_groups s) []) -> bg_own g = Some (bg_gather g cur)) ->
  at_time s f v = through (nth (fr_block f) (sn_groups s) []) (meant (fr_sides f))
                          (fun g => bg_gather g cur) (fr_name f) v.
Proof.
  intros H. unfold at_time, through. apply sm_ext. intros g Hg. apply filter_In in Hg as (Hg & _).
  unfold wk_sol. rewrite (H g Hg). reflexivity.
Qed.
Print Assumptions C349_current_partial.

(** Groups that share the buffer all see the same local solution, that of the
    group gathered last: here 2 + 2 for a flux of 1 + 2; and the recorded
    solution has no effect on the response. *)
Theorem C349_current_refuted :
  exists (s : snap R R) (cur : R) f,
    (forall g, In g (nth (fr_block f) (sn_groups s) []) -> bg_own g = None) /\
    (exists g, In g (nth (fr_block f) (sn_groups s) []) /\ sn_shared s (fr_block f) = bg_gather g cur) /\
    at_time s f 0 = 4 /\
    through (nth (fr_block f) (sn_groups s) []) (meant (fr_sides f)) (fun g => bg_gather g cur) (fr_name f) 0 = 3.
Proof.
  exists (SN (fun _ => 2) [two (fun _ => None)]), 1, (new_resp 0 top). cbn [new_resp fr_block sn_groups nth two].
  split; [|split; [|split]].
  - intros g [<-|[<-|[]]]; reflexivity.
  - exists (grp "top" None 2). split; [right; left; reflexivity|]. cbn. ring.
  - unfold at_time, through, sm, Sparse_Model.rsum. cbn. ring.
  - unfold through, sm, Sparse_Model.rsum. cbn. ring.
Qed.
Print Assumptions C349_current_refuted.

(** *** C350: which sides *)

(** Wanted: the listed sides, and every side by default ("all").  Every side
    whose name is in the text counts.  Missing: that no other does, and the
    default. *)
Theorem C350_sides_partial sides name : meant sides name = true <-> piece sides name.
Proof. apply index_meant. Qed.
Print Assumptions C350_sides_partial.

(** By default a response sees only sides whose name is a piece of the word
    "all", so usual names give zero for all groups; and a response on "rightwall"
    also counts a side "right". *)
Theorem C350_sides_refuted :
  (forall V L (s : snap V L) e b v, fe_sides e = None ->
     (forall g, In g (nth b (sn_groups s) []) -> ~ In (bg_side g) [""; "a"; "l"; "al"; "ll"; "all"]%string) ->
     at_time s (new_resp b e) v = 0) /\
  ~ In "right"%string ["rightwall"%string] /\ meant "rightwall" "right" = true.
Proof.
  split; [|split].
  - intros V L s e b v E H. unfold at_time, through. cbn [new_resp fr_block fr_sides fr_name]. rewrite E. cbn [dflt].
    apply sm_zero. intros g Hg. apply filter_In in Hg as (Hg & M). exfalso. apply (H g Hg). clear - M.
    apply index_meant in M as (a & c & M).
    destruct a as [|x1 [|x2 [|x3 [|x4 a]]]]; cbn in M; inversion M as [M'];
      destruct (bg_side g) as [|y1 [|y2 [|y3 [|y4 n]]]]; cbn in *; try discriminate; try tauto;
      repeat match goal with H : String _ _ = String _ _ |- _ => inversion H; clear H; subst end; try tauto;
      try discriminate.
  - intros [H|[]]. discriminate H.
  - reflexivity.
Qed.
Print Assumptions C350_sides_refuted.
