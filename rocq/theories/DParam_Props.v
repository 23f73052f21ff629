(** Field parameters and parameter bounds: C337-C342. *)
From Coq Require Import QArith List Bool Arith ZArith Lia.
From Verif Require Import DParam_Model.
Import ListNotations.

(* ------------------------------------------------------------------ *)
(** ** Specification *)

(** Unknown [g] belongs to parameter [n] on process [r]. *)
Definition of_param (r : prank) (n : nat) (g : Z) : Prop :=
  exists b gids o, In b (pr_block r) /\ In gids (pb_elem b) /\
    In o (nth n (pb_off b) []) /\ nth_error gids o = Some g.

(** A numbering of the parameter unknowns: positions lie inside the element
    lists, no unknown belongs to two parameters, and a process's overlapped
    vector has just unknowns of its own elements. *)
Record numbering (np : nat) (rs : list prank) : Prop := Numbering {
  nb_off : forall r b gids n o, In r rs -> In b (pr_block r) ->
    In gids (pb_elem b) -> In o (nth n (pb_off b) []) ->
    (o < length gids)%nat;
  nb_sep : forall r r' n m g, In r rs -> In r' rs ->
    of_param r n g -> of_param r' m g -> n = m;
  nb_over : forall r g, In r rs -> In g (pr_over r) ->
    exists n, (n < np)%nat /\ of_param r n g }.

(* ------------------------------------------------------------------ *)
(** ** Lemmas on vectors *)

Lemma lookup_replace v g h x :
  lookup (replace_gid v h x) g =
  match lookup v g with
  | Some y => Some (if Z.eqb g h then x else y)
  | None => None
  end.
Proof.
  induction v as [|[k y] t IH]; cbn; [reflexivity|].
  destruct (Z.eqb_spec k h) as [->|Hk]; cbn.
  - destruct (Z.eqb_spec h g) as [->|Hg].
    + now rewrite Z.eqb_refl.
    + exact IH.
  - destruct (Z.eqb_spec k g) as [->|Hg].
    + destruct (Z.eqb_spec g h); [congruence|reflexivity].
    + exact IH.
Qed.

Lemma lookup_zero gids g :
  lookup (zero_vec gids) g = if in_dec Z.eq_dec g gids then Some 0%Q else None.
Proof.
  induction gids as [|k t IH]; [reflexivity|].
  change (lookup (zero_vec (k :: t)) g)
    with (if Z.eqb k g then Some 0%Q else lookup (zero_vec t) g).
  rewrite IH. clear IH.
  destruct (Z.eqb_spec k g) as [->|Hk];
    destruct (in_dec Z.eq_dec g t) as [H|H];
    destruct (in_dec Z.eq_dec g (_ :: t)) as [H'|H']; cbn in H'; try reflexivity;
    tauto.
Qed.

Lemma lookup_inner x g l v :
  lookup (fold_left (fun w h => replace_gid w h x) l v) g =
  match lookup v g with
  | Some y => Some (if in_dec Z.eq_dec g l then x else y)
  | None => None
  end.
Proof.
  revert v. induction l as [|h t IH]; intros v; cbn [fold_left].
  - cbn. destruct (lookup v g); reflexivity.
  - rewrite IH, lookup_replace. destruct (lookup v g) as [y|]; [|reflexivity].
    f_equal. destruct (in_dec Z.eq_dec g t) as [H|H];
      destruct (in_dec Z.eq_dec g (h :: t)) as [H'|H']; cbn in H'.
    + reflexivity.
    + tauto.
    + destruct (Z.eqb_spec g h); [reflexivity|]. destruct H'; congruence.
    + destruct (Z.eqb_spec g h); [subst; tauto|reflexivity].
Qed.

Lemma lookup_outer vals r g n ns v :
  (forall m, In m ns -> In g (dofs_OS r m) -> m = n) ->
  lookup (fold_left (fun v m =>
            fold_left (fun w h => replace_gid w h (nth m vals 0%Q))
                      (dofs_OS r m) v) ns v) g =
  match lookup v g with
  | Some y => Some (if in_dec Nat.eq_dec n ns then
                      if in_dec Z.eq_dec g (dofs_OS r n)
                      then nth n vals 0%Q else y
                    else y)
  | None => None
  end.
Proof.
  revert v. induction ns as [|m t IH]; intros v H; cbn [fold_left].
  - cbn. destruct (lookup v g); reflexivity.
  - rewrite IH by (intros; apply H; [right|]; assumption).
    rewrite lookup_inner. destruct (lookup v g) as [y|]; [|reflexivity].
    f_equal.
    destruct (in_dec Z.eq_dec g (dofs_OS r m)) as [Hm|Hm].
    + assert (m = n) as -> by (apply H; [now left|assumption]).
      destruct (in_dec Z.eq_dec g (dofs_OS r n)); [|contradiction].
      destruct (in_dec Nat.eq_dec n t), (in_dec Nat.eq_dec n (n :: t)) as [|N];
        try reflexivity; exfalso; apply N; now left.
    + destruct (in_dec Nat.eq_dec n t) as [Ht|Ht],
               (in_dec Nat.eq_dec n (m :: t)) as [N|N]; try reflexivity.
      * exfalso; apply N; now right.
      * destruct N as [-> | N]; [|contradiction].
        destruct (in_dec Z.eq_dec g (dofs_OS r n)); [contradiction|reflexivity].
Qed.

Lemma dofs_spec np rs r n g :
  numbering np rs -> In r rs ->
  In g (dofs_OS r n) <-> of_param r n g.
Proof.
  intros N Hr. unfold dofs_OS, of_param. split.
  - intros H. apply in_flat_map in H as (b & Hb & H).
    apply in_flat_map in H as (gids & Hg & H).
    apply in_map_iff in H as (o & E & Ho).
    exists b, gids, o. repeat split; auto.
    rewrite <- E. apply nth_error_nth'.
    exact (nb_off _ _ N r b gids n o Hr Hb Hg Ho).
  - intros (b & gids & o & Hb & Hg & Ho & E).
    apply in_flat_map. exists b. split; [assumption|].
    apply in_flat_map. exists gids. split; [assumption|].
    apply in_map_iff. exists o. split; [|assumption].
    now apply nth_error_nth.
Qed.

Lemma fill_lookup np rs vals r n g :
  numbering np rs -> np = length vals -> In r rs ->
  (exists r', In r' rs /\ of_param r' n g) ->
  lookup (fill_over vals r) g =
  if in_dec Z.eq_dec g (pr_over r) then Some (nth n vals 0%Q) else None.
Proof.
  intros N E Hr (r' & Hr' & Hn). unfold fill_over.
  rewrite (lookup_outer vals r g n).
  - rewrite lookup_zero.
    destruct (in_dec Z.eq_dec g (pr_over r)) as [Ho|]; [|reflexivity].
    f_equal. destruct (nb_over _ _ N r g Hr Ho) as (m & Lm & Hm).
    assert (m = n) as -> by exact (nb_sep _ _ N r r' m n g Hr Hr' Hm Hn).
    destruct (in_dec Nat.eq_dec n (seq 0 (length vals))) as [|C].
    + destruct (in_dec Z.eq_dec g (dofs_OS r n)) as [|C]; [reflexivity|].
      exfalso; apply C. now apply (dofs_spec np rs).
    + exfalso; apply C. apply in_seq. lia.
  - intros m _ Hm. apply (dofs_spec np rs r m g N Hr) in Hm.
    exact (nb_sep _ _ N r r' m n g Hr Hr' Hm Hn).
Qed.

Lemma export_const (over : list pvec) g x ord :
  (forall k, lookup (nth k over []) g = Some x \/ lookup (nth k over []) g = None) ->
  (exists k, In k ord /\ lookup (nth k over []) g = Some x) ->
  export_gid ord over g = x.
Proof.
  intros H (k & Hk & E). unfold export_gid.
  assert (G : forall l a, (a = x \/ In k l) ->
    fold_left (fun acc k => match lookup (nth k over []) g with
                            | Some x => x | None => acc end) l a = x).
  { induction l as [|j t IH]; intros a [Ha|Hl]; cbn [fold_left]; auto.
    - destruct Hl.
    - apply IH. left. destruct (H j) as [-> | ->]; auto.
    - apply IH. destruct Hl as [->|Hl]; [left|now right]. now rewrite E. }
  apply G. now right.
Qed.

Lemma export_fill np rs vals n g ord :
  numbering np rs -> np = length vals ->
  (exists r, In r rs /\ of_param r n g) ->
  (exists k r, In k ord /\ nth_error rs k = Some r /\ In g (pr_over r)) ->
  export_gid ord (map (fill_over vals) rs) g = nth n vals 0%Q.
Proof.
  intros N E Hn (k & r & Hk & Hr & Ho). apply export_const.
  - intros j. destruct (nth_error rs j) as [q|] eqn:Q.
    + rewrite (nth_error_nth (map (fill_over vals) rs) j [] (x := fill_over vals q))
        by now rewrite nth_error_map, Q.
      rewrite (fill_lookup np rs vals q n g N E (nth_error_In _ _ Q) Hn).
      destruct (in_dec _ _ _); auto.
    + right. rewrite nth_overflow; [reflexivity|].
      rewrite map_length. now apply nth_error_None.
  - exists k. split; [assumption|].
    rewrite (nth_error_nth (map (fill_over vals) rs) k [] (x := fill_over vals r))
      by now rewrite nth_error_map, Hr.
    rewrite (fill_lookup np rs vals r n g N E (nth_error_In _ _ Hr) Hn).
    destruct (in_dec _ _ _); [reflexivity|contradiction].
Qed.

(* ------------------------------------------------------------------ *)
(** ** C337: initial values and bounds of field parameters *)

(** The value a user set, or the documented default. *)
Definition user_value (o : option Q) (d v : Q) : Prop :=
  (forall x, o = Some x -> v = x) /\ (o = None -> v = d).

Theorem C337_field_values :
  forall (es : list fentry) (rs : list prank) (ord : list nat) (n : nat)
         (g : Z) (e : fentry) (dynamic : bool) (nsteps : nat),
    numbering (length es) rs ->
    nth_error es n = Some e ->
    (exists r, In r rs /\ of_param r n g) ->
    (exists k r, In k ord /\ nth_error rs k = Some r /\ In g (pr_over r)) ->
    let ps := map read_fparam es in
    length (initial_field false dynamic nsteps ps rs ord g)
      = (if dynamic then nsteps else 1%nat) /\
    (forall v, In v (initial_field false dynamic nsteps ps rs ord g) ->
               user_value (fe_init e) 1%Q v) /\
    user_value (fe_lower e) (-(1))%Q (lower_field ps rs ord g) /\
    user_value (fe_upper e) 1%Q (upper_field ps rs ord g).
Proof.
  intros es rs ord n g e dynamic nsteps N He Hn Hk ps.
  assert (UV : forall o d, user_value o d (get o d)).
  { intros [x|] d; split; cbn; congruence. }
  assert (K : forall sel : fparam -> Q,
    export_gid ord (map (fill_over (map sel ps)) rs) g = sel (read_fparam e)).
  { intros sel.
    rewrite (export_fill (length es) rs (map sel ps) n g ord N); auto.
    - apply nth_error_nth. unfold ps. rewrite !nth_error_map, He. reflexivity.
    - unfold ps. now rewrite !map_length. }
  repeat split.
  - unfold initial_field. now rewrite map_length, seq_length.
  - unfold initial_field in H. apply in_map_iff in H as (j & <- & _).
    rewrite K. apply (UV (fe_init e) 1%Q).
  - unfold initial_field in H. apply in_map_iff in H as (j & <- & _).
    rewrite K. apply (UV (fe_init e) 1%Q).
  - unfold lower_field. rewrite K. apply (UV (fe_lower e)).
  - unfold lower_field. rewrite K. apply (UV (fe_lower e)).
  - unfold upper_field. rewrite K. apply (UV (fe_upper e)).
  - unfold upper_field. rewrite K. apply (UV (fe_upper e)).
Qed.
Print Assumptions C337_field_values.

(** An element in a volume group (where it is known by its place in its block)
    and in a boundary group (where it is known by its number on the process)
    gets the same parameter unknowns, its own. *)
Theorem C337_groups :
  forall (lids : list (list nat)) (geid veids beids : list nat)
         (c d p : nat) (row : list nat),
    nth_error lids p = Some row ->
    (exists i, nth_error veids c = Some i /\ nth_error geid i = Some p) ->
    nth_error beids d = Some p ->
    nth_error (vol_lids lids geid veids) c = Some row /\
    nth_error (bnd_lids lids beids) d = Some row.
Proof.
  intros lids geid veids beids c d p row Hp (i & Hi & Hg) Hd.
  unfold vol_lids, bnd_lids. rewrite !nth_error_map, Hi, Hd. cbn.
  rewrite (nth_error_nth _ _ 0%nat Hg), (nth_error_nth _ _ [] Hp). auto.
Qed.
Print Assumptions C337_groups.

(** Two processes, two parameters (one with two unknowns per element), one
    shared unknown of each. *)
Definition ex_block (es : list (list Z)) : pblock := PB [[0;2]%nat;[1]%nat] es.
Definition ex_ranks : list prank :=
  [ PR [ex_block [[10;20;11]%Z]] [10;20;11]%Z;
    PR [ex_block [[11;20;12]%Z]; ex_block [[12;21;13]%Z]] [12;20;11;21;13]%Z ].

Ltac split_in :=
  repeat match goal with
         | H : _ \/ _ |- _ => destruct H
         | H : False |- _ => destruct H
         end; try subst.

Example C337_case_numbering : numbering 2 ex_ranks.
Proof.
  assert (A : forall r n g, In r ex_ranks -> of_param r n g ->
    (n = 0%nat /\ (10 <= g <= 13)%Z) \/ (n = 1%nat /\ (20 <= g <= 21)%Z)).
  { intros r n g Hr (b & gids & o & Hb & Hg & Ho & E).
    cbn in Hr; split_in; cbn in Hb; split_in; cbn in Hg, Ho; split_in;
      destruct n as [|[|[|n]]]; cbn in Ho; split_in; cbn in E; inversion E; lia. }
  split.
  - intros r b gids n o Hr Hb Hg Ho.
    cbn in Hr; split_in; cbn in Hb; split_in; cbn in Hg, Ho; split_in;
      destruct n as [|[|[|n]]]; cbn in Ho; split_in; cbn; lia.
  - intros r r' n m g Hr Hr' H H'.
    destruct (A r n g Hr H), (A r' m g Hr' H'); lia.
  - intros r g Hr Hg.
    assert (F : forall n b gids o, In b (pr_block r) -> In gids (pb_elem b) ->
       In o (nth n (pb_off b) []) -> nth_error gids o = Some g ->
       (n < 2)%nat -> exists n, (n < 2)%nat /\ of_param r n g).
    { intros n b gids o H1 H2 H3 H4 H5. exists n. split; [exact H5|].
      exists b, gids, o. auto. }
    assert (G : forall n o es gids, In (ex_block es) (pr_block r) ->
       In gids es -> In o (nth n [[0;2]%nat;[1]%nat] []) ->
       nth_error gids o = Some g -> (n < 2)%nat ->
       exists n, (n < 2)%nat /\ of_param r n g).
    { intros n o es gids H1 H2 H3 H4 H5.
      exact (F n (ex_block es) gids o H1 H2 H3 H4 H5). }
    clear F A. cbn in Hr; split_in; cbn in Hg; split_in.
    + apply (G 0%nat 0%nat [[10;20;11]%Z] [10;20;11]%Z); cbn; auto.
    + apply (G 1%nat 1%nat [[10;20;11]%Z] [10;20;11]%Z); cbn; auto.
    + apply (G 0%nat 2%nat [[10;20;11]%Z] [10;20;11]%Z); cbn; auto.
    + apply (G 0%nat 2%nat [[11;20;12]%Z] [11;20;12]%Z); cbn; auto.
    + apply (G 1%nat 1%nat [[11;20;12]%Z] [11;20;12]%Z); cbn; auto.
    + apply (G 0%nat 0%nat [[11;20;12]%Z] [11;20;12]%Z); cbn; auto.
    + apply (G 1%nat 1%nat [[12;21;13]%Z] [12;21;13]%Z); cbn; auto.
    + apply (G 0%nat 2%nat [[12;21;13]%Z] [12;21;13]%Z); cbn; auto.
Qed.

Example C337_case :
  let ps := map read_fparam
              [FE (Some 3) None (Some 9) None; FE None (Some 2) None None]%Q in
  map (initial_field false true 2 ps ex_ranks [1;0]%nat) [11;20;21]%Z
    = [[3;3];[1;1];[1;1]]%Q /\
  map (lower_field ps ex_ranks [0;1]%nat) [11;20]%Z = [-(1);2]%Q /\
  map (upper_field ps ex_ranks [0;1]%nat) [13;21]%Z = [9;1]%Q.
Proof. vm_compute. auto. Qed.

(* ------------------------------------------------------------------ *)
(** ** C338: stochastic field parameters *)

(** With one field parameter each unknown of the process gets its mean,
    variance and range. *)
Theorem C338_stochastic_partial :
  forall (p : fparam) (r : prank),
    length (stoch_entries [p] r) = length (pr_over r) /\
    forall q, In q (stoch_entries [p] r) ->
      q = (p_init p, p_var p, p_lower p, p_upper p).
Proof.
  intros p r. unfold stoch_entries. split; [apply map_length|].
  intros q H. apply in_map_iff in H as (g & <- & _). reflexivity.
Qed.
Print Assumptions C338_stochastic_partial.

(** With two, the unknowns of the second are sampled as the first; and the
    processes together have more entries than there are unknowns. *)
Theorem C338_stochastic_refuted :
  exists (ps : list fparam) (rs : list prank) (r : prank) (g : Z) (i : nat),
    numbering (length ps) rs /\ In r rs /\
    nth_error (pr_over r) i = Some g /\ of_param r 1 g /\
    (exists q p, nth_error (stoch_entries ps r) i = Some q /\
       nth_error ps 1 = Some p /\
       q <> (p_init p, p_var p, p_lower p, p_upper p)) /\
    (length (nodup Z.eq_dec (flat_map pr_over rs))
       < length (flat_map (stoch_entries ps) rs))%nat.
Proof.
  exists [FP 1 0 2 1; FP 5 4 6 1]%Q, ex_ranks, (nth 0 ex_ranks (PR [] [])),
    20%Z, 1%nat.
  split; [exact C337_case_numbering|]. split; [now left|].
  split; [reflexivity|]. split.
  - exists (ex_block [[10;20;11]%Z]), [10;20;11]%Z, 1%nat. cbn. tauto.
  - split.
    + exists (1,1,0,2)%Q, (FP 5 4 6 1)%Q. split; [reflexivity|]. split; [reflexivity|]. intros C. discriminate C.
    + vm_compute. lia.
Qed.
Print Assumptions C338_stochastic_refuted.

(** A custom initial guess is announced but nothing provides one: every
    unknown starts from zero. *)
Theorem C338_custom_refuted :
  exists (ps : list fparam) (rs : list prank) (ord : list nat) (g : Z),
    numbering (length ps) rs /\ (exists r, In r rs /\ of_param r 0 g) /\
    (forall p, In p ps -> ~ (p_init p == 0)%Q /\ (0 < p_lower p)%Q) /\
    initial_field true false 1 ps rs ord g = [0%Q].
Proof.
  exists [FP 3 2 4 1; FP 3 2 4 1]%Q, ex_ranks, [0;1]%nat, 10%Z.
  split; [exact C337_case_numbering|]. split.
  - exists (nth 0 ex_ranks (PR [] [])). split; [now left|].
    exists (ex_block [[10;20;11]%Z]), [10;20;11]%Z, 0%nat. cbn. tauto.
  - split; [|reflexivity].
    intros p [<-|[<-|[]]]; (split; [intros C; discriminate C|reflexivity]).
Qed.
Print Assumptions C338_custom_refuted.

(* ------------------------------------------------------------------ *)
(** ** C339-C341: bounds of active scalars *)

(** The pairs of a file with two numbers on each line, with or without a
    newline at its end. *)
Inductive well_formed : list bline -> list (Q * Q) -> Prop :=
| wf_end : well_formed [] []
| wf_nl : well_formed [BEmpty] []
| wf_line a b ls ps : well_formed ls ps ->
    well_formed (BPair a b :: ls) ((a, b) :: ps).

Lemma set_nth_app {A : Type} (l : list A) h t x :
  set_nth (l ++ h :: t) (length l) x = Some (l ++ x :: t).
Proof. induction l as [|y l IH]; cbn; [reflexivity|]. now rewrite IH. Qed.

Definition rnd2 (fl : Q -> Q) (p : Q * Q) : Q * Q := (fl (fst p), fl (snd p)).

Lemma read_wf fl ls ps :
  well_formed ls ps -> forall done rest ab,
  (length ps <= length rest)%nat ->
  read_bounds fl ls (length done) ab (done ++ rest) =
  Some (done ++ map (rnd2 fl) ps ++ skipn (length ps) rest).
Proof.
  induction 1 as [| |a b ls ps W IH]; intros done rest ab L.
  - reflexivity.
  - reflexivity.
  - destruct rest as [|r rest]; cbn in L; [lia|].
    cbn [read_bounds scan]. rewrite set_nth_app.
    specialize (IH (done ++ [(fl a, fl b)]) rest (Some (fl a), Some (fl b))).
    rewrite app_length in IH. cbn [length] in IH.
    rewrite Nat.add_1_r, <- !app_assoc in IH. cbn [app] in IH.
    rewrite IH by lia. reflexivity.
Qed.

(** Each active entry has a file with one line per component. *)
Inductive with_files : list sentry -> list (Q * Q) -> Prop :=
| wfs_nil : with_files [] []
| wfs_skip e es bs : se_active e = false -> with_files es bs ->
    with_files (e :: es) bs
| wfs_file e es bs ls ps : se_active e = true -> se_file e = Some ls ->
    well_formed ls ps -> length ps = length (se_vals e) ->
    with_files es bs -> with_files (e :: es) (ps ++ bs).

Theorem C339_active_bounds :
  forall (fl : Q -> Q) (es : list sentry) (bs : list (Q * Q)),
    with_files es bs ->
    length bs = length (active_vals es) /\
    active_bounds fl es = Some (map (fun p => (fl (fst p), fl (snd p))) bs).
Proof.
  intros fl es bs H.
  induction H as [|e es bs A H [L IH]|e es bs ls ps A F W E H [L IH]].
  - auto.
  - unfold active_vals in *. cbn [flat_map]. rewrite A. split; [exact L|].
    cbn [active_bounds]. unfold entry_bounds. now rewrite IH, A.
  - unfold active_vals in *. cbn [flat_map]. rewrite A, !app_length.
    split; [lia|].
    cbn [active_bounds]. unfold entry_bounds. rewrite A, F, IH.
    pose proof (read_wf fl ls ps W [] (map (fun _ => (0%Q, 0%Q)) (se_vals e))
                 (None, None)) as R.
    cbn [length app] in R. rewrite R by (rewrite map_length; lia).
    rewrite skipn_all2 by (rewrite map_length; lia).
    now rewrite app_nil_r, map_app.
Qed.
Print Assumptions C339_active_bounds.

Example C339_case :
  with_files
    [SE true [1;2]%Q (Some [BPair 0 5; BPair (-(1)) 3; BEmpty]%Q);
     SE false [7]%Q None; SE true [4]%Q (Some [BPair 2 8]%Q)]
    [(0,5);(-(1),3);(2,8)]%Q.
Proof.
  apply (wfs_file _ _ [(2,8)%Q] [BPair 0 5; BPair (-(1)) 3; BEmpty]%Q
           [(0,5);(-(1),3)]%Q); auto.
  - repeat constructor.
  - apply wfs_skip; [reflexivity|].
    apply (wfs_file _ _ [] [BPair 2 8]%Q [(2,8)]%Q); auto; repeat constructor.
Qed.

(** Reading bounds never changes how many there are, so that those of the
    other parameters stay in place. *)
Lemma set_nth_length {A : Type} (l l' : list A) i x :
  set_nth l i x = Some l' -> length l' = length l.
Proof.
  revert i l'. induction l as [|h t IH]; intros [|i] l' E; cbn in E; try easy.
  - now inversion E.
  - destruct (set_nth t i x) eqn:S; inversion E. cbn. f_equal. eapply IH; eauto.
Qed.

Lemma read_length fl ls : forall i ab bs bs',
  read_bounds fl ls i ab bs = Some bs' -> length bs' = length bs.
Proof.
  induction ls as [|l t IH]; intros i ab bs bs' E; cbn [read_bounds] in E.
  - now inversion E.
  - destruct l as [|a b|a|]; [now apply IH in E| | | ];
      destruct (scan fl _ ab) as [[x|] [y|]]; try discriminate;
      destruct (set_nth bs i _) as [bs''|] eqn:S; try discriminate;
      apply IH in E; apply set_nth_length in S; congruence.
Qed.

Theorem C340_nofile_partial :
  forall (fl : Q -> Q) (es : list sentry) (bs : list (Q * Q)),
    active_bounds fl es = Some bs ->
    length bs = length (active_vals es).
Proof.
  intros fl. induction es as [|e es IH]; intros bs E; cbn [active_bounds] in E.
  - now inversion E.
  - destruct (entry_bounds fl e) as [b|] eqn:B; [|discriminate].
    destruct (active_bounds fl es) as [r|]; [|discriminate].
    specialize (IH r eq_refl). unfold active_vals in *. cbn [flat_map].
    inversion E; subst bs. clear E. unfold entry_bounds in B.
    destruct (se_active e); [|exact IH].
    rewrite !app_length, IH. f_equal.
    destruct (se_file e).
    + apply read_length in B. now rewrite map_length in B.
    + inversion B. now rewrite map_length.
Qed.
Print Assumptions C340_nofile_partial.

(** An active parameter that names no bounds is bounded by zero on both
    sides: a bounded run moves its value to zero. *)
Theorem C340_nofile_refuted :
  exists (e : sentry) (v : Q) (b : Q * Q) (y : ovec),
    se_active e = true /\ se_file e = None /\ se_vals e = [v] /\
    ~ (v == 0)%Q /\
    active_bounds (fun x => x) [e] = Some [b] /\
    bounded_start 1 [1%Q] [0%Q] [2%Q] 1 (se_vals e) [fst b] [snd b] = Some y /\
    ov_f y = [[1%Q]] /\ ov_s y = [[0%Q]].
Proof.
  exists (SE true [5%Q] None), 5%Q, (0,0)%Q, (OV [[1%Q]] [[0%Q]]).
  repeat split. discriminate.
Qed.
Print Assumptions C340_nofile_refuted.

(** A file with fewer lines than components bounds the first components. *)
Theorem C341_lines_partial :
  forall (fl : Q -> Q) (e : sentry) (ls : list bline) (ps : list (Q * Q)),
    se_active e = true -> se_file e = Some ls -> well_formed ls ps ->
    (length ps <= length (se_vals e))%nat ->
    exists bs, entry_bounds fl e = Some bs /\
      length bs = length (se_vals e) /\
      (forall i p, nth_error ps i = Some p ->
         nth_error bs i = Some (fl (fst p), fl (snd p))).
Proof.
  intros fl e ls ps A F W L. unfold entry_bounds. rewrite A, F.
  pose proof (read_wf fl ls ps W [] (map (fun _ => (0%Q, 0%Q)) (se_vals e))
               (None, None)) as R.
  cbn [length app] in R. rewrite map_length in R. rewrite R by lia.
  eexists. split; [reflexivity|]. split.
  - rewrite app_length, map_length, skipn_length, map_length. lia.
  - intros i p Hp. rewrite nth_error_app1.
    + rewrite nth_error_map, Hp. reflexivity.
    + rewrite map_length. apply nth_error_Some. congruence.
Qed.
Print Assumptions C341_lines_partial.

(** A line without numbers is not skipped: the component of that line gets the
    bounds of the line before, and the last line is written past the end. *)
Theorem C341_lines_refuted :
  exists (n : nat) (e : sentry) (ls : list bline),
    se_file e = Some ls /\ se_active e = true /\ length (se_vals e) = n /\
    length (filter (fun l => match l with BPair _ _ => true | _ => false end) ls)
      = n /\
    entry_bounds (fun x => x) e = None /\
    (exists bs, entry_bounds (fun x => x)
       (SE true (se_vals e ++ [0%Q]) (se_file e)) = Some bs /\
       nth_error bs 1 = nth_error bs 0).
Proof.
  exists 2%nat, (SE true [1;1]%Q (Some [BPair 0 2; BNone; BPair 3 4; BEmpty]%Q)),
    [BPair 0 2; BNone; BPair 3 4; BEmpty]%Q.
  repeat split. eexists. split; reflexivity.
Qed.
Print Assumptions C341_lines_refuted.
(** A line with one number, whatever the numbers, sets the lower bound of its
    component alone and gives it the upper bound of the line before. *)
Theorem C341_one_number_refuted :
  forall (fl : Q -> Q) (v w a b c : Q),
    entry_bounds fl (SE true [v; w] (Some [BPair a b; BOne c; BEmpty])) =
      Some [(fl a, fl b); (fl c, fl b)].
Proof. reflexivity. Qed.
Print Assumptions C341_one_number_refuted.

(* ------------------------------------------------------------------ *)
(** ** C342: optimization within bounds *)

Lemma zip2_length op x y : length (zip2 op x y) = length x.
Proof. revert y; induction x as [|a x IH]; intros [|b y]; cbn; auto. Qed.

Lemma zip2_nth op x y i d : (i < length x)%nat -> (i < length y)%nat ->
  nth i (zip2 op x y) d = op (nth i x d) (nth i y d).
Proof.
  revert y i. induction x as [|a x IH]; intros [|b y] [|i] H G; cbn in *;
    try lia; auto. apply IH; lia.
Qed.

Lemma clamp (a l u : Q) : (l <= u)%Q ->
  (l <= qmin (qmax a l) u)%Q /\ (qmin (qmax a l) u <= u)%Q /\
  ((l <= a)%Q -> (a <= u)%Q -> (qmin (qmax a l) u == a)%Q).
Proof.
  intros H. unfold qmin, qmax.
  destruct (Qle_bool a l) eqn:A.
  - apply Qle_bool_iff in A. assert (Qle_bool l u = true) as ->
      by now apply Qle_bool_iff.
    repeat split; auto; try apply Qle_refl. intros. now apply Qle_antisym.
  - assert (N : (l < a)%Q).
    { apply Qnot_le_lt. intros C. apply Qle_bool_iff in C. congruence. }
    destruct (Qle_bool a u) eqn:B.
    + apply Qle_bool_iff in B. apply Qlt_le_weak in N.
      repeat split; auto; intros; reflexivity.
    + assert (M : (u < a)%Q).
      { apply Qnot_le_lt. intros C. apply Qle_bool_iff in C. congruence. }
      repeat split; auto; try apply Qle_refl.
      intros _ C. exfalso. apply (Qlt_irrefl a). now apply Qle_lt_trans with u.
Qed.

(** Componentwise: [y] lies between [lo] and [up], and is [x] where [x]
    already did. *)
Definition clamped (x lo up y : list Q) : Prop :=
  length y = length x /\
  forall i, (i < length x)%nat ->
    (nth i lo 0 <= nth i y 0)%Q /\ (nth i y 0 <= nth i up 0)%Q /\
    ((nth i lo 0 <= nth i x 0)%Q -> (nth i x 0 <= nth i up 0)%Q ->
     (nth i y 0 == nth i x 0)%Q).

Definition ordered (x lo up : list Q) : Prop :=
  length lo = length x /\ length up = length x /\
  forall i, (i < length x)%nat -> (nth i lo 0 <= nth i up 0)%Q.

Lemma zip_clamped x lo up : ordered x lo up ->
  clamped x lo up (zip2 qmin (zip2 qmax x lo) up).
Proof.
  intros (L & U & O). split; [now rewrite !zip2_length|]. intros i Hi.
  rewrite zip2_nth by (rewrite ?zip2_length; lia).
  rewrite zip2_nth by lia. apply clamp. now apply O.
Qed.

(** Missing: parameters that vary in time, and problems with active scalars
    only. *)
Theorem C342_bounded_partial :
  forall (f flo fup s slo sup : list Q),
    f <> [] -> ordered f flo fup -> ordered s slo sup ->
    exists y, bounded_start 1 f flo fup 1 s slo sup = Some y /\
      (exists fy, ov_f y = [fy] /\ clamped f flo fup fy) /\
      (s = [] /\ ov_s y = [] \/
       exists sy, ov_s y = [sy] /\ clamped s slo sup sy).
Proof.
  intros f flo fup s slo sup Nf Of Os. unfold bounded_start, bound_vec.
  assert (B : forall l, length l = length f -> bound_field l = Some l).
  { intros [|a l] E; [destruct f; [congruence|discriminate]|reflexivity]. }
  rewrite (B flo) by apply Of. rewrite (B fup) by apply Of.
  unfold project, current_vec. destruct f as [|a f]; [congruence|].
  cbn [repeat]. destruct s as [|b s].
  - eexists. split; [reflexivity|]. split; [|now left].
    eexists. split; [reflexivity|]. now apply zip_clamped.
  - eexists. split; [reflexivity|]. split.
    + eexists. split; [reflexivity|]. now apply zip_clamped.
    + right. eexists. split; [reflexivity|]. now apply zip_clamped.
Qed.
Print Assumptions C342_bounded_partial.

Example C342_case :
  ordered [5;1]%Q [0;0]%Q [2;2]%Q /\
  bounded_start 1 [5;1]%Q [0;0]%Q [2;2]%Q 1 [-(3)]%Q [-(1)]%Q [1]%Q
    = Some (OV [[2;1]] [[-(1)]])%Q.
Proof.
  split; [|reflexivity]. split; [reflexivity|]. split; [reflexivity|].
  intros [|[|i]] H; cbn in *; try discriminate; lia.
Qed.

(** Without field parameters the bounds cannot be built, however good the
    scalar bounds are; with parameters varying in time the second step reads
    bounds that do not exist. *)
Theorem C342_bounded_refuted :
  (forall steps s slo sup, ordered s slo sup ->
     bounded_start 0 [] [] [] steps s slo sup = None) /\
  (forall f flo fup s slo sup steps,
     f <> [] -> ordered f flo fup -> ordered s slo sup -> (2 <= steps)%nat ->
     bounded_start steps f flo fup 1 s slo sup = None /\
     (s <> [] -> bounded_start 1 f flo fup steps s slo sup = None)).
Proof.
  split.
  - intros. reflexivity.
  - intros f flo fup s slo sup steps Nf Of Os Hs.
    destruct steps as [|[|k]]; try lia.
    unfold bounded_start, bound_vec.
    assert (B : forall l, length l = length f -> bound_field l = Some l).
    { intros [|a l] E; [destruct f; [congruence|discriminate]|reflexivity]. }
    rewrite (B flo) by apply Of. rewrite (B fup) by apply Of.
    unfold project, current_vec. destruct f as [|a f]; [congruence|].
    split; [reflexivity|]. intros Ns. destruct s as [|b s]; [congruence|].
    reflexivity.
Qed.
Print Assumptions C342_bounded_refuted.
