(** Properties C268-C278 of the multiscale manager (MSMan_Model.v). *)
From Coq Require Import String Bool Arith ZArith Reals List Lia Lra.
From Verif Require Init_Props.
From Verif Require Import Mass_Model BProj_Model MSMan_Model.
Import ListNotations.
Local Open Scope R_scope.
Local Notation length := List.length.

(* ------------------------------------------------------------------ specification *)

(** Number of indices below n satisfying P. *)
Fixpoint cnt (n : nat) (P : nat -> bool) : nat :=
  match n with O => O | S n' => (cnt n' P + if P n' then 1 else 0)%nat end.
(** Number of points (e,p) of a group where a usage is at least one. *)
Fixpoint support (ne np : nat) (u : nat -> nat -> R) : nat :=
  match ne with
  | O => O
  | S e => (support e np u + cnt np (fun p => if Rle_dec 1 (u e p) then true else false))%nat
  end.
(** The number of points model s of the list can claim in a group of block b. *)
Definition claims (ms : list sgmodel) (b : nat) (u : nat -> nat -> nat -> R) (ne np s : nat) : nat :=
  match nth_error ms s with
  | Some m => if Nat.eqb (sg_block m) b then support ne np (u s) else 0%nat
  | None => 0%nat
  end.

(** The Euclidean length of a residual, the distance of two of the same
    length, and "res is within tol of prev, relative to res". *)
Fixpoint total (n : nat) (f : nat -> R) : R :=
  match n with O => 0 | S n => total n f + f n end.
Definition len2 (r : list R) : R := sqrt (total (length r) (fun i => (nth i r 0) ^ 2)).
Definition gap (a b : list R) : R :=
  sqrt (total (Nat.min (length a) (length b)) (fun i => (nth i a 0 - nth i b 0) ^ 2)).
Definition within (tol : R) (prev res : list R) : Prop :=
  0 < len2 res /\ gap res prev < tol * len2 res.
Lemma total_first n f : total (S n) f = f 0%nat + total n (fun i => f (S i)).
Proof. induction n; [cbn; ring|]. change (total (S (S n)) f) with (total (S n) f + f (S n)). rewrite IHn. cbn. ring. Qed.
Lemma norm_len2 r : ms_norm r = len2 r.
Proof.
  unfold ms_norm, len2. f_equal. induction r as [|x r IH]; [reflexivity|].
  change (length (x :: r)) with (S (length r)). rewrite total_first. cbn [fold_right nth]. rewrite IH. ring.
Qed.
Lemma diff_gap a b : ms_norm (ms_diff a b) = gap a b.
Proof.
  unfold ms_norm, gap. f_equal. revert b. induction a as [|x a IH]; intros [|y b]; try reflexivity.
  change (Nat.min (length (x :: a)) (length (y :: b))) with (S (Nat.min (length a) (length b))).
  rewrite total_first. cbn [fold_right nth ms_diff]. rewrite IH. ring.
Qed.

(* ------------------------------------------------------------------ voting *)

Lemma cnt_filter : forall n P, cnt n P = length (filter P (seq 0 n)).
Proof.
  induction n; intros P; [reflexivity|].
  rewrite seq_S, filter_app, app_length. cbn [cnt Nat.add filter]. rewrite IHn.
  destruct (P n); cbn; lia.
Qed.
Lemma filter_map_len {A B} (f : A -> B) (P : B -> bool) l :
  length (filter P (map f l)) = length (filter (fun a => P (f a)) l).
Proof. induction l; cbn; [reflexivity|]. destruct (P (f a)); cbn; lia. Qed.
Lemma list_prod_app {A B} (l1 l2 : list A) (k : list B) :
  list_prod (l1 ++ l2) k = (list_prod l1 k ++ list_prod l2 k)%list.
Proof. induction l1; cbn; [reflexivity|]. rewrite IHl1, app_assoc. reflexivity. Qed.
Lemma support_filter : forall ne np u,
  support ne np u =
  length (filter (fun ep => if Rle_dec 1 (u (fst ep) (snd ep)) then true else false) (list_prod (seq 0 ne) (seq 0 np))).
Proof.
  induction ne; intros; [reflexivity|].
  rewrite seq_S, list_prod_app, filter_app, app_length. cbn [support Nat.add list_prod]. rewrite IHne, app_nil_r.
  rewrite filter_map_len, cnt_filter. reflexivity.
Qed.

Lemma scan_inv : forall votes i mx w pre,
  length pre = i ->
  (forall j, (j < i)%nat -> (nth j pre 0 <= mx)%Z) ->
  (i = 0%nat /\ (mx < 0)%Z \/ (w < i)%nat /\ nth w pre 0%Z = mx /\ forall j, (w < j < i)%nat -> (nth j pre 0 < mx)%Z) ->
  Forall (fun v => (0 <= v)%Z) votes ->
  let all := (pre ++ votes)%list in
  let r := ms_scan votes i mx w in
  all <> nil ->
  (r < length all)%nat /\ (forall j, (j < length all)%nat -> (nth j all 0 <= nth r all 0)%Z) /\
  (forall j, (r < j < length all)%nat -> (nth j all 0 < nth r all 0)%Z).
Proof.
  induction votes as [|v r IH]; intros i mx w pre Hl Hle Hw HF all res Hne; subst all res.
  - rewrite app_nil_r in *. cbn [ms_scan].
    destruct Hw as [[Hi _]|[Hw [Hn Hlt]]].
    + destruct pre; [contradiction|cbn in Hl; lia].
    + rewrite Hn, Hl. split; [lia|]. split; intros j Hj; [apply Hle|apply Hlt]; lia.
  - cbn [ms_scan]. inversion HF; subst.
    assert (Hsplit : forall x, (pre ++ v :: r)%list = ((pre ++ [v]) ++ x)%list -> x = r -> True) by auto.
    destruct (Z.leb_spec mx v).
    + pose proof (IH (S (length pre)) v (length pre) (pre ++ [v])%list) as K. cbv zeta in K.
      rewrite <- app_assoc in K. cbn [app] in K. apply K; auto.
      * rewrite app_length; cbn; lia.
      * intros j Hj. destruct (Nat.eq_dec j (length pre)).
        -- subst. rewrite app_nth2, Nat.sub_diag by lia. cbn. lia.
        -- rewrite app_nth1 by lia. specialize (Hle j). lia.
      * right. split; [lia|]. split.
        -- rewrite app_nth2, Nat.sub_diag by lia. reflexivity.
        -- intros j Hj. lia.
    + pose proof (IH (S (length pre)) mx w (pre ++ [v])%list) as K. cbv zeta in K.
      rewrite <- app_assoc in K. cbn [app] in K. apply K; auto.
      * rewrite app_length; cbn; lia.
      * intros j Hj. destruct (Nat.eq_dec j (length pre)).
        -- subst. rewrite app_nth2, Nat.sub_diag by lia. cbn. lia.
        -- rewrite app_nth1 by lia. apply Hle. lia.
      * destruct Hw as [[? ?]|[Hw [Hn Hlt]]]; [lia|].
        right. split; [lia|]. split.
        -- rewrite app_nth1 by lia. exact Hn.
        -- intros j Hj. destruct (Nat.eq_dec j (length pre)).
           ++ subst. rewrite app_nth2, Nat.sub_diag by lia. cbn. lia.
           ++ rewrite app_nth1 by lia. apply Hlt. lia.
Qed.
Lemma nth_seq_map {A} (f : nat -> A) n k d : (k < n)%nat -> nth k (map f (seq 0 n)) d = f k.
Proof.
  intros H. rewrite nth_indep with (d' := f 0%nat) by (rewrite map_length, seq_length; exact H).
  rewrite map_nth, seq_nth by exact H. reflexivity.
Qed.

Lemma votes_claims ms b u ne np s : (s < length ms)%nat ->
  nth s (ms_votes ms b u ne np) 0%Z = Z.of_nat (claims ms b u ne np s).
Proof.
  intros Hs. unfold ms_votes, claims.
  rewrite nth_seq_map by exact Hs.
  destruct (nth_error ms s); [|reflexivity]. destruct (Nat.eqb (sg_block s0) b); [|reflexivity].
  rewrite support_filter. reflexivity.
Qed.
Lemma votes_len ms b u ne np : length (ms_votes ms b u ne np) = length ms.
Proof. unfold ms_votes. rewrite map_length, seq_length. reflexivity. Qed.

Lemma winner_claims ms b u ne np : ms <> nil ->
  let w := ms_winner (ms_votes ms b u ne np) in
  (w < length ms)%nat /\
  (forall s, (s < length ms)%nat -> (claims ms b u ne np s <= claims ms b u ne np w)%nat) /\
  (forall s, (w < s < length ms)%nat -> (claims ms b u ne np s < claims ms b u ne np w)%nat).
Proof.
  intros Hne w.
  pose proof (scan_inv (ms_votes ms b u ne np) 0 (-1)%Z 0 nil) as K. cbv zeta in K. cbn [app] in K.
  rewrite votes_len in K.
  destruct K as [K1 [K2 K3]].
  - reflexivity.
  - lia.
  - left. lia.
  - apply Forall_forall. intros v Hv. unfold ms_votes in Hv. apply in_map_iff in Hv.
    destruct Hv as [s [<- _]]. destruct (nth_error ms s); [|lia]. destruct (Nat.eqb _ _); lia.
  - intros E. apply (f_equal (@List.length Z)) in E. rewrite votes_len in E. destruct ms; [contradiction|discriminate].
  - fold (ms_winner (ms_votes ms b u ne np)) in *. fold w in K1, K2, K3. split; [exact K1|].
    split; intros s Hs.
    + specialize (K2 s Hs). rewrite !votes_claims in K2 by lia. lia.
    + specialize (K3 s Hs). rewrite !votes_claims in K3 by lia. lia.
Qed.

(** C268: the model given to a group is one with the most points of usage at least one among the
    models of its block, the last one if there are several. *)
Theorem C268_winner : forall ms sizes np usage b g,
  (b < length sizes)%nat -> (g < length (nth b sizes nil))%nat ->
  (exists m, In m ms /\ sg_block m = b) ->
  let w := nth g (nth b (ms_identify ms sizes np usage) nil) 0%nat in
  let c := claims ms b (usage b g) (nth g (nth b sizes nil) 0%nat) np in
  (w < length ms)%nat /\
  (forall s, (s < length ms)%nat -> (c s <= c w)%nat) /\
  (forall s, (w < s < length ms)%nat -> (c s < c w)%nat).
Proof.
  intros ms sizes np usage b g Hb Hg [m [Hm Hmb]] w c.
  assert (Hu : ms_uses ms b = true).
  { unfold ms_uses. apply existsb_exists. exists m. split; [exact Hm|]. apply Nat.eqb_eq. exact Hmb. }
  assert (Hw : w = ms_winner (ms_votes ms b (usage b g) (nth g (nth b sizes nil) 0%nat) np)).
  { unfold w, ms_identify. rewrite nth_seq_map by exact Hb. rewrite Hu, nth_seq_map by exact Hg. reflexivity. }
  rewrite Hw. apply winner_claims. intros E. subst ms. destruct Hm.
Qed.
Print Assumptions C268_winner.

(** C268: and it belongs to the block of the group as soon as some model of the block claims a point. *)
Theorem C268_block : forall ms sizes np usage b g,
  (b < length sizes)%nat -> (g < length (nth b sizes nil))%nat ->
  (exists s m e p, nth_error ms s = Some m /\ sg_block m = b /\ (e < nth g (nth b sizes nil) 0%nat)%nat /\ (p < np)%nat /\
     1 <= usage b g s e p) ->
  exists m, nth_error ms (nth g (nth b (ms_identify ms sizes np usage) nil) 0%nat) = Some m /\ sg_block m = b.
Proof.
  intros ms sizes np usage b g Hb Hg [s [m [e [p [Hs [Hmb [He [Hp Hu]]]]]]]].
  destruct (C268_winner ms sizes np usage b g Hb Hg) as [K1 [K2 _]].
  { exists m. split; [|exact Hmb]. eapply nth_error_In. exact Hs. }
  assert (Hsl : (s < length ms)%nat) by (apply nth_error_Some; congruence).
  specialize (K2 s Hsl). set (w := nth g (nth b (ms_identify ms sizes np usage) nil) 0%nat) in *.
  set (ne := nth g (nth b sizes nil) 0%nat) in *.
  assert (Hpos : (0 < claims ms b (usage b g) ne np s)%nat).
  { unfold claims. rewrite Hs, Hmb, Nat.eqb_refl, support_filter.
    assert (I : In (e, p) (filter (fun ep => if Rle_dec 1 (usage b g s (fst ep) (snd ep)) then true else false)
                             (list_prod (seq 0 ne) (seq 0 np)))).
    { apply filter_In. split.
      - apply in_prod; apply in_seq; lia.
      - cbn. destruct (Rle_dec 1 (usage b g s e p)); [reflexivity|contradiction]. }
    destruct (filter _ _); [destruct I|cbn; lia]. }
  assert (Hw : (0 < claims ms b (usage b g) ne np w)%nat) by lia.
  unfold claims in Hw. destruct (nth_error ms w) as [mw|]; [|lia].
  destruct (Nat.eqb_spec (sg_block mw) b); [|lia]. exists mw. auto.
Qed.
Print Assumptions C268_block.

Local Open Scope string_scope.
Definition two_models : list sgmodel :=
  [{| sg_kind := "DtN2"; sg_block := 0; sg_usage := 1 |}; {| sg_kind := "DtN2"; sg_block := 0; sg_usage := 1 |}].
Example ex_C268 : exists m, nth_error two_models
  (nth 0 (nth 0 (ms_identify two_models [[2%nat]] 1 (fun _ _ s _ _ => INR s)) nil) 0%nat) = Some m /\ sg_block m = 0%nat.
Proof.
  apply C268_block; cbn; try lia. exists 1%nat, {| sg_kind := "DtN2"; sg_block := 0; sg_usage := 1 |}, 0%nat, 0%nat.
  repeat split; try lia. cbn. lra.
Qed.

(** C269: a group is always given a model of its own block — so when some point is claimed. *)
Theorem C269_claimed_partial : forall ms sizes np usage b g,
  (b < length sizes)%nat -> (g < length (nth b sizes nil))%nat ->
  (exists s m e p, nth_error ms s = Some m /\ sg_block m = b /\ (e < nth g (nth b sizes nil) 0%nat)%nat /\ (p < np)%nat /\
     1 <= usage b g s e p) ->
  exists m, nth_error ms (nth g (nth b (ms_identify ms sizes np usage) nil) 0%nat) = Some m /\ sg_block m = b.
Proof. exact C268_block. Qed.
Print Assumptions C269_claimed_partial.

Definition mk_deck (t b : string) : sgdeck := {| sd_type := t; sd_block := b; sd_usage := None |}.
(** Three blocks, one model for each, no usage given: the group of the second block is given the
    model of the third. *)
Theorem C269_refuted : exists ms,
  ms_construct ["left"; "mid"; "right"] 1000 [mk_deck "DtN2" "left"; mk_deck "DtN2" "mid"; mk_deck "DtN2" "right"] = Some ms /\
  map sg_block ms = [0%nat; 1%nat; 2%nat] /\
  let w := ms_identify ms [[1%nat]; [1%nat]; [1%nat]] 1
             (fun _ _ s _ _ => match nth_error ms s with Some m => sg_usage m | None => 0 end) in
  nth 0 (nth 1 w nil) 9%nat = 2%nat.
Proof.
  eexists. split; [reflexivity|]. split; [reflexivity|].
  cbn. destruct (Rle_dec 1 0); [lra|]. reflexivity.
Qed.
Print Assumptions C269_refuted.
Local Close Scope string_scope.

(* ------------------------------------------------------------------ initialize *)

Definition settled (g : sggrp) (k n : nat) : sggrp :=
  {| gr_block := gr_block g; gr_ne := gr_ne g; gr_idx := k; gr_user := n |}.

Lemma init_groups : forall ms cost gs w n my,
  Forall (fun g => ms_uses ms (gr_block g) = true) gs -> length w = length gs ->
  let '(gs', n', _) := ms_init ms cost gs w n my in
  n' = (n + length gs)%nat /\ map gr_user gs' = seq n (length gs) /\ map gr_idx gs' = w /\
  map gr_block gs' = map gr_block gs /\ map gr_ne gs' = map gr_ne gs.
Proof.
  intros ms cost gs. induction gs as [|g r IH]; intros w n my HF Hw.
  - destruct w; [|discriminate]. cbn. repeat split; lia.
  - inversion HF as [|? ? H1 H2]; subst. destruct w as [|k w]; [discriminate|]. cbn [ms_init]. rewrite H1. cbn [hd tl].
    specialize (IH w (S n) (cost k * INR (gr_ne g)) H2 ltac:(cbn in Hw; lia)).
    destruct (ms_init ms cost r w (S n) (cost k * INR (gr_ne g))) as [[r' n'] my'].
    destruct IH as [E1 [E2 [E3 [E4 E5]]]]. cbn [map gr_user gr_idx gr_block gr_ne length seq].
    rewrite E2, E3, E4, E5. repeat split; lia.
Qed.

Lemma ms_set_len : forall l u, length (ms_set l u) = length l.
Proof. induction l; destruct u; cbn; auto. Qed.
Lemma ms_set_nth : forall l u v, nth v (ms_set l u) false = if Nat.eqb u v && Nat.ltb u (length l) then true else nth v l false.
Proof.
  induction l; intros u v.
  - cbn. rewrite andb_false_r. destruct u; reflexivity.
  - destruct u, v; cbn; try reflexivity.
    rewrite IHl. reflexivity.
Qed.
Lemma active_iff : forall gs n s u, (u < n)%nat ->
  nth u (ms_active gs n s) false = true <-> exists g, In g gs /\ gr_idx g = s /\ gr_user g = u.
Proof.
  intros gs n s u Hu. unfold ms_active.
  assert (G : forall l a, length a = n ->
    nth u (fold_left (fun a g => if Nat.eqb (gr_idx g) s then ms_set a (gr_user g) else a) l a) false = true <->
    nth u a false = true \/ exists g, In g l /\ gr_idx g = s /\ gr_user g = u).
  { induction l as [|g r IH]; intros a Ha; cbn [fold_left].
    - split; [auto|]. intros [H|[g [[] _]]]. exact H.
    - destruct (Nat.eqb_spec (gr_idx g) s) as [Ei|Ei].
      + rewrite IH by (rewrite ms_set_len; exact Ha). rewrite ms_set_nth, Ha.
        destruct (Nat.eqb_spec (gr_user g) u) as [Eu|Eu].
        * assert (Hlt : Nat.ltb (gr_user g) n = true) by (apply Nat.ltb_lt; lia). rewrite Hlt. cbn.
          split; intros; [|auto]. right. exists g. cbn; auto.
        * cbn. split; intros [H|[h [H1 H2]]]; auto.
          -- right. exists h. cbn; auto.
          -- destruct H1 as [<-|H1]; [tauto|]. right. exists h. auto.
      + rewrite IH by exact Ha. split; intros [H|[h [H1 H2]]]; auto.
        * right. exists h. cbn; auto.
        * destruct H1 as [<-|H1]; [tauto|]. right. exists h. auto. }
  rewrite G by apply repeat_length. split.
  - intros [H|H]; [|exact H]. exfalso. assert (E : nth u (repeat false n) false = false) by (clear; revert u; induction n; destruct u; cbn; auto).
    congruence.
  - auto.
Qed.

(** C270: when every block has a subgrid model, initialisation numbers the groups consecutively,
    gives each the model selected for it, and each group is active in exactly that model. *)
Theorem C270_initialize : forall ms cost gs w,
  Forall (fun g => exists m, In m ms /\ sg_block m = gr_block g) gs -> length w = length gs ->
  let '(gs', n, _) := ms_init ms cost gs w 0 0 in
  n = length gs /\
  forall i, (i < length gs)%nat ->
    (exists g', nth_error gs' i = Some g' /\ gr_user g' = i /\ gr_idx g' = nth i w 0%nat) /\
    forall s, nth i (ms_active gs' n s) false = true <-> nth i w 0%nat = s.
Proof.
  intros ms cost gs w HF Hw.
  assert (HU : Forall (fun g => ms_uses ms (gr_block g) = true) gs).
  { eapply Forall_impl; [|exact HF]. intros g [m [H1 H2]]. unfold ms_uses. apply existsb_exists.
    exists m. split; [exact H1|]. apply Nat.eqb_eq. exact H2. }
  pose proof (init_groups ms cost gs w 0 0 HU Hw) as K.
  destruct (ms_init ms cost gs w 0 0) as [[gs' n] my].
  destruct K as [E1 [E2 [E3 [E4 E5]]]]. cbn in E1. subst n. split; [reflexivity|].
  intros i Hi.
  assert (Hlen : length gs' = length gs) by (rewrite <- (map_length gr_user), E2, seq_length; reflexivity).
  assert (N : exists g', nth_error gs' i = Some g' /\ gr_user g' = i /\ gr_idx g' = nth i w 0%nat).
  { destruct (nth_error gs' i) as [g'|] eqn:Eg.
    2:{ apply nth_error_None in Eg. lia. }
    exists g'. split; [reflexivity|]. split.
    - pose proof (map_nth_error gr_user i gs' Eg) as M. rewrite E2 in M.
      apply (nth_error_nth _ _ 0%nat) in M. rewrite seq_nth in M by lia. cbn in M. lia.
    - pose proof (map_nth_error gr_idx i gs' Eg) as M. rewrite E3 in M.
      apply (nth_error_nth _ _ 0%nat) in M. congruence. }
  split; [exact N|]. intros s. rewrite active_iff by exact Hi. split.
  - intros [g [Hg [Hs Hu]]]. apply In_nth_error in Hg. destruct Hg as [k Hk].
    pose proof (map_nth_error gr_user k gs' Hk) as M. rewrite E2 in M.
    assert (Hkl : (k < length gs)%nat) by (rewrite <- Hlen; apply nth_error_Some; congruence).
    apply (nth_error_nth _ _ 0%nat) in M. rewrite seq_nth in M by exact Hkl. cbn in M.
    assert (k = i) by lia. subst k. destruct N as [g' [N1 [N2 N3]]]. congruence.
  - intros Es. destruct N as [g' [N1 [N2 N3]]]. exists g'. split; [eapply nth_error_In; exact N1|]. split; congruence.
Qed.
Print Assumptions C270_initialize.

Definition grp0 (b ne : nat) : sggrp := {| gr_block := b; gr_ne := ne; gr_idx := 0; gr_user := 0 |}.
Example ex_C270 :
  Forall (fun g => exists m, In m two_models /\ sg_block m = gr_block g) [grp0 0 2; grp0 0 1] /\
  length [1%nat; 0%nat] = length [grp0 0 2; grp0 0 1] /\
  map gr_user (fst (fst (ms_init two_models (fun _ => 1) [grp0 0 2; grp0 0 1] [1%nat; 0%nat] 0 0))) = [0%nat; 1%nat].
Proof.
  split; [|split; reflexivity].
  repeat constructor; (eexists; split; [left; reflexivity|reflexivity]).
Qed.

(** C271: a block without subgrid model is assembled with its own physics and leaves the subgrid
    models alone — so when the input has no subgrid models at all. *)
Theorem C271_no_subgrid_partial : forall g, ms_dispatch false g = None.
Proof. reflexivity. Qed.
Print Assumptions C271_no_subgrid_partial.
(** With a "Subgrid" list every block takes the multiscale branch, with whatever the index of the
    group was before (initialize does not set it). *)
Theorem C271_dispatch_refuted : forall junk user,
  let gs := [grp0 0 1; {| gr_block := 1; gr_ne := 1; gr_idx := junk; gr_user := user |}] in
  ms_uses two_models 1 = false /\
  forall g, nth_error (fst (fst (ms_init two_models (fun _ => 1) gs [0%nat] 0 0))) 1 = Some g ->
    ms_dispatch true g = Some junk.
Proof.
  intros junk user gs. split; [reflexivity|]. intros g Hg. cbn in Hg. inversion Hg; subst. reflexivity.
Qed.
Print Assumptions C271_dispatch_refuted.
(** That index can also activate a second model for a user of another block. *)
Theorem C271_active_refuted : exists junk user,
  let gs := [grp0 0 1; {| gr_block := 1; gr_ne := 1; gr_idx := junk; gr_user := user |}] in
  let '(gs', n, _) := ms_init two_models (fun _ => 1) gs [0%nat] 0 0 in
  n = 1%nat /\ nth 0 (ms_active gs' n 0) false = true /\ nth 0 (ms_active gs' n 1) false = true.
Proof. exists 1%nat, 0%nat. cbn. auto. Qed.
Print Assumptions C271_active_refuted.

(** C272: the cost reported is the sum of the costs of the groups, the load balancing factor the
    largest cost over the smallest — the sum holds in update (which starts from one). *)
Theorem C272_update_partial : forall cost gs,
  ms_update_cost cost gs = 1 + sm gs (fun g => cost (gr_idx g) * INR (gr_ne g)).
Proof.
  intros cost gs. unfold ms_update_cost.
  assert (G : forall l a, fold_left (fun a g => a + cost (gr_idx g) * INR (gr_ne g)) l a =
                          a + sm l (fun g => cost (gr_idx g) * INR (gr_ne g))).
  { induction l as [|g r IH]; intros a; cbn [fold_left].
    - rewrite Init_Props.sm_nil. ring.
    - rewrite IH, Init_Props.sm_cons. ring. }
  apply G.
Qed.
Print Assumptions C272_update_partial.
(** Initialisation reports the cost of the last group alone. *)
Theorem C272_initial_refuted : forall ms cost g1 g2 w1 w2,
  ms_uses ms (gr_block g1) = true -> ms_uses ms (gr_block g2) = true ->
  0 < cost w1 -> (0 < gr_ne g1)%nat ->
  let '(_, _, my) := ms_init ms cost [g1; g2] [w1; w2] 0 0 in
  my <> cost w1 * INR (gr_ne g1) + cost w2 * INR (gr_ne g2).
Proof.
  intros ms cost g1 g2 w1 w2 H1 H2 Hc Hn. cbn. rewrite H1, H2. cbn.
  assert (0 < INR (gr_ne g1)) by (apply lt_0_INR; exact Hn).
  pose proof (Rmult_lt_0_compat _ _ Hc H). lra.
Qed.
Print Assumptions C272_initial_refuted.
(** The factor printed is zero whatever the costs. *)
Theorem C272_balance_refuted : forall costs,
  costs <> nil -> Forall (fun c => 0 < c) costs ->
  ms_balance costs = 0 /\
  1 <= fold_right Rmax (hd 0 costs) costs / fold_right Rmin (hd 0 costs) costs.
Proof.
  intros costs Hne HF. split.
  - unfold ms_balance, Rdiv. ring.
  - destruct costs as [|c0 r]; [contradiction|]. cbn [hd].
    assert (K : forall l d, Forall (fun c => 0 < c) l -> 0 < d ->
       0 < fold_right Rmin d l /\ fold_right Rmin d l <= d /\ d <= fold_right Rmax d l).
    { induction l; intros d HFl Hd; cbn.
      - repeat split; lra.
      - inversion HFl; subst. destruct (IHl d H2 Hd) as [A [B C]].
        pose proof (Rmin_r a (fold_right Rmin d l)). pose proof (Rmax_r a (fold_right Rmax d l)).
        split; [apply Rmin_glb_lt; assumption|]. split; lra. }
    inversion HF; subst. destruct (K (c0 :: r) c0 HF H1) as [A [B C]].
    apply Rmult_le_reg_r with (fold_right Rmin c0 (c0 :: r)); [exact A|].
    unfold Rdiv. rewrite Rmult_assoc, Rinv_l by lra. lra.
Qed.
Print Assumptions C272_balance_refuted.
Example ex_C272 : [2; 3] <> nil /\ Forall (fun c => 0 < c) [2; 3].
Proof. split; [discriminate|]. repeat constructor; lra. Qed.

(* ------------------------------------------------------------------ update *)

Lemma update_spec : forall P gs st w,
  NoDup (map gr_user gs) -> length w = length gs ->
  let '(st', gs') := ms_update P st gs w in
  length gs' = length gs /\
  (forall m u, ~ In u (map gr_user gs) -> st_prev st' m u = st_prev st m u) /\
  (forall i g, nth_error gs i = Some g ->
     let k := nth i w 0%nat in
     nth_error gs' i = Some (settled g k (gr_user g)) /\
     (forall m, m <> k -> st_prev st' m (gr_user g) = st_prev st m (gr_user g)) /\
     (k = gr_idx g -> st_prev st' k (gr_user g) = st_prev st k (gr_user g)) /\
     (k <> gr_idx g -> st_prev st' k (gr_user g) = pj_solve P k (pj_map P k (gr_idx g) (st_prev st (gr_idx g) (gr_user g))))).
Proof.
  intros P gs. induction gs as [|g r IH]; intros st w HN Hw.
  - cbn. repeat split; auto; destruct i; discriminate.
  - destruct w as [|k w]; [discriminate|]. cbn [ms_update hd tl].
    inversion HN as [|? ? HN1 HN2]; subst.
    destruct (ms_switch P st g k) as [st1 g1] eqn:Es.
    specialize (IH st1 w HN2 ltac:(cbn in Hw; lia)).
    destruct (ms_update P st1 r w) as [st2 r1].
    destruct IH as [L [IO IG]].
    assert (S1 : forall m u, u <> gr_user g -> st_prev st1 m u = st_prev st m u).
    { intros m u Hu. unfold ms_switch in Es. destruct (Nat.eqb k (gr_idx g)); inversion Es; subst; [reflexivity|].
      cbn. destruct (Nat.eqb_spec u (gr_user g)); [contradiction|]. rewrite andb_false_r. reflexivity. }
    split; [cbn; lia|]. split.
    + intros m u Hu. rewrite IO by (intros K; apply Hu; right; exact K). apply S1. intros K. apply Hu. left. auto.
    + intros i g0 Hi. destruct i as [|i].
      * cbn [nth_error] in Hi. inversion Hi; subst g0. cbn [nth nth_error].
        rewrite !(IO _ (gr_user g) HN1).
        unfold ms_switch in Es. destruct (Nat.eqb_spec k (gr_idx g)) as [E|E]; inversion Es; subst; cbn.
        -- repeat split; try (intros; rewrite IO by exact HN1; reflexivity); tauto.
        -- split; [reflexivity|]. split; [|split].
           ++ intros m Hm. rewrite (IO _ _ HN1). cbn. destruct (Nat.eqb_spec m k); [contradiction|]. reflexivity.
           ++ tauto.
           ++ intros _. rewrite !Nat.eqb_refl. cbn. reflexivity.
      * cbn [nth_error] in Hi. cbn [nth nth_error].
        assert (Hu : gr_user g0 <> gr_user g).
        { intros K. apply HN1. rewrite <- K. apply in_map. eapply nth_error_In. exact Hi. }
        destruct (IG i g0 Hi) as [A [B [C D]]]. cbv zeta in *. split; [exact A|].
        split; [|split].
        -- intros m Hm. rewrite B by exact Hm. apply S1. exact Hu.
        -- intros E. rewrite C by exact E. apply S1. exact Hu.
        -- intros E. rewrite D by exact E. rewrite S1 by exact Hu. reflexivity.
Qed.

Lemma update_time : forall P gs st w t, (forall m, st_time st m = t) ->
  forall m, st_time (fst (ms_update P st gs w)) m = t.
Proof.
  intros P gs. induction gs as [|g r IH]; intros st w t Ht m; [apply Ht|].
  cbn [ms_update]. destruct (ms_switch P st g (hd 0%nat w)) as [st1 g1] eqn:Es.
  specialize (IH st1 (tl w) t). destruct (ms_update P st1 r (tl w)) as [st2 r1]. cbn [fst] in *. apply IH.
  intros m'. unfold ms_switch in Es. destruct (Nat.eqb _ _); inversion Es; subst; [apply Ht|].
  cbn. destruct (Nat.eqb m' (hd 0%nat w)); apply Ht.
Qed.

(** C273: reassigning models gives every group the model selected for it and makes it active in
    that model only; a group whose model changes starts from the projection of the previous
    solution of its old model, every other previous solution stays what it was. *)
Theorem C273_update : forall P st gs w n,
  (forall k b, pj_map P k k (pj_solve P k b) = b) ->
  NoDup (map gr_user gs) -> Forall (fun g => (gr_user g < n)%nat) gs -> length w = length gs ->
  let '(st', gs') := ms_update P st gs w in
  forall i g, nth_error gs i = Some g ->
    let k := nth i w 0%nat in
    let u := gr_user g in
    (exists g', nth_error gs' i = Some g' /\ gr_idx g' = k /\ gr_user g' = u /\ gr_ne g' = gr_ne g) /\
    (k <> gr_idx g -> pj_map P k k (st_prev st' k u) = pj_map P k (gr_idx g) (st_prev st (gr_idx g) u)) /\
    (forall m, m <> k \/ k = gr_idx g -> st_prev st' m u = st_prev st m u) /\
    (forall s, nth u (ms_active gs' n s) false = true <-> k = s).
Proof.
  intros P st gs w n HS HN HL Hw. pose proof (update_spec P gs st w HN Hw) as K.
  destruct (ms_update P st gs w) as [st' gs']. destruct K as [L [IO IG]].
  intros i g Hi k u. destruct (IG i g Hi) as [A [B [C D]]]. fold k u in A, B, C, D.
  split; [|split; [|split]].
  - exists (settled g k u). auto.
  - intros E. rewrite D by exact E. apply HS.
  - intros m [Hm|Hm]; [apply B; exact Hm|]. destruct (Nat.eq_dec m k) as [->|Em]; [apply C; exact Hm|apply B; exact Em].
  - intros s. rewrite active_iff.
    2:{ rewrite Forall_forall in HL. apply HL. eapply nth_error_In. exact Hi. }
    split.
    + intros [h [Hh [Hs Hu]]]. apply In_nth_error in Hh. destruct Hh as [j Hj].
      assert (Hjl : (j < length gs)%nat) by (rewrite <- L; apply nth_error_Some; congruence).
      destruct (nth_error gs j) as [g2|] eqn:Eg2; [|apply nth_error_None in Eg2; lia].
      destruct (IG j g2 Eg2) as [A2 _]. rewrite A2 in Hj. inversion Hj; subst h. cbn in Hs, Hu.
      assert (j = i).
      { apply (proj1 (NoDup_nth (map gr_user gs) 0%nat) HN).
        - rewrite map_length. exact Hjl.
        - rewrite map_length. apply nth_error_Some. congruence.
        - rewrite (nth_error_nth _ _ 0%nat (map_nth_error gr_user j gs Eg2)),
                  (nth_error_nth _ _ 0%nat (map_nth_error gr_user i gs Hi)). exact Hu. }
      subst j. exact Hs.
    + intros E. exists (settled g k u). split; [eapply nth_error_In; exact A|]. split; [exact E|reflexivity].
Qed.
Print Assumptions C273_update.

(** C273: the models keep a common previous time. *)
Theorem C273_time : forall P st gs w t, (forall m, st_time st m = t) ->
  forall m, st_time (fst (ms_update P st gs w)) m = t.
Proof. exact (fun P st gs => update_time P gs st). Qed.
Print Assumptions C273_time.

(** Halving from model 0 to model 1 and doubling back. *)
Definition ex_proj : sgproj :=
  {| pj_map := fun i j v => if Nat.eqb i j then v else map (fun x => x / 2) v; pj_solve := fun _ b => b |}.
Example ex_C273 : (forall k b, pj_map ex_proj k k (pj_solve ex_proj k b) = b) /\
  NoDup (map gr_user [settled (grp0 0 1) 0 0; settled (grp0 0 1) 0 1]) /\
  st_prev (fst (ms_update ex_proj {| st_prev := fun _ _ => [4]; st_time := fun _ => 0 |}
     [settled (grp0 0 1) 0 0; settled (grp0 0 1) 0 1] [0%nat; 1%nat])) 1 1 = [4 / 2].
Proof.
  split; [|split].
  - intros k b. cbn. rewrite Nat.eqb_refl. reflexivity.
  - repeat constructor; cbn; intuition lia.
  - reflexivity.
Qed.

(* ------------------------------------------------------------------ hierarchical selection *)

Lemma norm_nonneg r : 0 <= ms_norm r.
Proof. apply sqrt_pos. Qed.
Lemma close_within prev res tol : ms_close prev res tol = true <-> within tol prev res.
Proof.
  unfold ms_close, within. rewrite <- norm_len2, <- diff_gap. pose proof (norm_nonneg res) as Hn. destruct (Req_EM_T (ms_norm res) 0) as [E|E].
  - split; [discriminate|]. lra.
  - assert (Hp : 0 < ms_norm res) by lra.
    assert (Hq : ms_norm (ms_diff res prev) / ms_norm res * ms_norm res = ms_norm (ms_diff res prev)).
    { unfold Rdiv. rewrite Rmult_assoc, Rinv_l by exact E. ring. }
    destruct (Rlt_dec _ tol) as [H|H]; split; intros K; try reflexivity; try discriminate.
    + split; [exact Hp|]. rewrite <- Hq. apply Rmult_lt_compat_r; assumption.
    + exfalso. apply H. apply Rmult_lt_reg_r with (ms_norm res); [exact Hp|]. rewrite Hq. tauto.
Qed.
Lemma hier_loop : forall n solve tol fuel c prev,
  (1 <= c)%nat -> (c < n)%nat -> (n <= fuel + c)%nat -> prev = solve (c - 1)%nat ->
  let '(m, r) := ms_hier_loop n solve tol fuel c prev in
  (c <= m < n)%nat /\ r = solve m /\ (m = (n - 1)%nat \/ within tol (solve (m - 1)%nat) (solve m)) /\
  forall k, (c <= k < m)%nat -> ~ within tol (solve (k - 1)%nat) (solve k).
Proof.
  intros n solve tol fuel. induction fuel as [|f IH]; intros c prev H1 Hc Hf Hp.
  - lia.
  - cbn [ms_hier_loop]. destruct (Nat.eqb_spec c (n - 1)) as [E|E].
    + repeat split; try lia.
    + destruct (ms_close prev (solve c) tol) eqn:Ec.
      * repeat split; try lia. right. subst prev. apply close_within. exact Ec.
      * specialize (IH (S c) (solve c) ltac:(lia) ltac:(lia) ltac:(lia)).
        rewrite Nat.sub_succ, Nat.sub_0_r in IH. specialize (IH eq_refl).
        destruct (ms_hier_loop n solve tol f (S c) (solve c)) as [m r].
        destruct IH as [A [B [C D]]]. split; [lia|]. split; [exact B|]. split; [exact C|].
        intros k Hk. destruct (Nat.eq_dec k c) as [->|Ek].
        -- intros K. subst prev. apply close_within in K. congruence.
        -- apply D. lia.
Qed.

(** C274: the hierarchical selection stops at the first model, after the coarsest, whose residual
    differs from that of the model before by less than the tolerance relative to its own norm, or at
    the last model; the residual returned is that of the model chosen, alone. *)
Theorem C274_hierarchical : forall n solve tol old, (1 < n)%nat ->
  let '(m, r) := ms_hier n solve tol old in
  (1 <= m < n)%nat /\ r = solve m /\
  (m = (n - 1)%nat \/ within tol (solve (m - 1)%nat) (solve m)) /\
  forall k, (1 <= k < m)%nat -> ~ within tol (solve (k - 1)%nat) (solve k).
Proof.
  intros n solve tol old Hn. unfold ms_hier. rewrite (proj2 (Nat.ltb_lt 1 n) Hn).
  apply hier_loop; auto; lia.
Qed.
Print Assumptions C274_hierarchical.
Theorem C274_single : forall solve tol old, ms_hier 1 solve tol old = (old, solve 0%nat).
Proof. reflexivity. Qed.
Print Assumptions C274_single.

(** Three models with residuals 4, 2, 2: the second change is zero, but the loop stops at the last
    model anyway; with 2, 2, 4 it stops at model 1. *)
Example ex_C274 : fst (ms_hier 3 (fun m => [nth m [2; 2; 4] 0]) 1 0%nat) = 1%nat.
Proof.
  unfold ms_hier, ms_hier_loop. cbn [Nat.ltb Nat.leb nth Nat.eqb Nat.sub].
  assert (W : ms_close [2] [2] 1 = true).
  { apply close_within. unfold within. rewrite <- norm_len2, <- diff_gap. unfold ms_norm. cbn. replace (2 * 2 + 0) with (2 * 2) by ring.
    replace ((2 - 2) * (2 - 2) + 0) with 0 by ring. rewrite sqrt_square, sqrt_0 by lra. lra. }
  rewrite W. reflexivity.
Qed.

(* ------------------------------------------------------------------ ML selection *)

(** An element's residual is accurate: its error is below the absolute tolerance or, relative to
    the reference, below the relative one. *)
Definition accurate (abstol reltol : R) (ref res : list R) : Prop :=
  gap res ref < abstol \/
  (0 < len2 ref /\ gap res ref < reltol * len2 ref).

Lemma label_spec res ref abstol reltol :
  (ms_label res ref abstol reltol = 1 \/ ms_label res ref abstol reltol = 0) /\
  (ms_label res ref abstol reltol = 1 <-> accurate abstol reltol ref res).
Proof.
  unfold ms_label, accurate. rewrite <- norm_len2, <- diff_gap. cbv zeta. pose proof (norm_nonneg ref) as Hn.
  destruct (Rlt_dec _ abstol) as [H|H]; [split; [auto|tauto]|].
  destruct (Req_EM_T (ms_norm ref) 0) as [E|E].
  - split; [auto|]. split; [intros K; lra|]. intros [K|[K _]]; [contradiction|lra].
  - assert (Hp : 0 < ms_norm ref) by lra.
    assert (Hq : ms_norm (ms_diff res ref) / ms_norm ref * ms_norm ref = ms_norm (ms_diff res ref)).
    { unfold Rdiv. rewrite Rmult_assoc, Rinv_l by exact E. ring. }
    destruct (Rlt_dec _ reltol) as [K|K]; (split; [auto|]); split; intros L; try reflexivity.
    + right. split; [exact Hp|]. rewrite <- Hq. apply Rmult_lt_compat_r; assumption.
    + lra.
    + exfalso. destruct L as [L|[_ L]]; [contradiction|]. apply K.
      apply Rmult_lt_reg_r with (ms_norm ref); [exact Hp|]. rewrite Hq. exact L.
Qed.

(** One evaluation while training: rows, inputs and residual rows of every model. *)
Definition sgcall := (nat * (nat -> list R) * (nat -> nat -> list R))%type.
Definition train_all (n : nat) (abstol reltol : R) (calls : list sgcall) (t : sgtrain) : sgtrain :=
  fold_left (fun t c => fst (ms_train n (fst (fst c)) (snd (fst c)) (snd c) abstol reltol t)) calls t.

Lemma train_in : forall n a r calls t m, (m < n)%nat ->
  tr_in (train_all n a r calls t) m = (tr_in t m ++ flat_map (fun c : sgcall => map (snd (fst c)) (seq 0 (fst (fst c)))) calls)%list.
Proof.
  intros n a r calls. induction calls as [|c l IH]; intros t m Hm; cbn [train_all fold_left flat_map].
  - rewrite app_nil_r. reflexivity.
  - fold (train_all n a r l (fst (ms_train n (fst (fst c)) (snd (fst c)) (snd c) a r t))).
    rewrite IH by exact Hm. cbn [ms_train fst tr_in]. rewrite (proj2 (Nat.ltb_lt m n) Hm), app_assoc. reflexivity.
Qed.
Lemma train_out : forall n a r calls t m, (m < n - 1)%nat ->
  tr_out (train_all n a r calls t) m =
  (tr_out t m ++ flat_map (fun c : sgcall => map (fun e => ms_label (snd c m e) (snd c (n - 1)%nat e) a r) (seq 0 (fst (fst c)))) calls)%list.
Proof.
  intros n a r calls. induction calls as [|c l IH]; intros t m Hm; cbn [train_all fold_left flat_map].
  - rewrite app_nil_r. reflexivity.
  - fold (train_all n a r l (fst (ms_train n (fst (fst c)) (snd (fst c)) (snd c) a r t))).
    rewrite IH by exact Hm. cbn [ms_train fst tr_out]. rewrite (proj2 (Nat.ltb_lt m (n - 1)) Hm), app_assoc. reflexivity.
Qed.
Lemma combine_map2 {A B C} (f : A -> B) (g : A -> C) l : combine (map f l) (map g l) = map (fun x => (f x, g x)) l.
Proof. induction l; cbn; [reflexivity|]. rewrite IHl. reflexivity. Qed.
Lemma combine_app2 {A B} (a1 : list A) (b1 : list B) a2 b2 : length a1 = length b1 ->
  combine (a1 ++ a2) (b1 ++ b2) = (combine a1 b1 ++ combine a2 b2)%list.
Proof. revert b1. induction a1; destruct b1; cbn; intros H; try discriminate; [reflexivity|]. rewrite IHa1 by lia. reflexivity. Qed.

Definition no_data : sgtrain := {| tr_in := fun _ => nil; tr_out := fun _ => nil |}.

(** C275: whatever the evaluations made while training, the data kept for each model but the last
    pairs every input row with the label of that very element: one if the model's residual is
    accurate with respect to the last model, zero otherwise. *)
Theorem C275_training : forall n abstol reltol calls m, (m < n - 1)%nat ->
  let t := train_all n abstol reltol calls no_data in
  length (tr_in t m) = length (tr_out t m) /\
  forall x y, In (x, y) (combine (tr_in t m) (tr_out t m)) ->
    exists nw inp solve e, In (nw, inp, solve) calls /\ (e < nw)%nat /\ x = inp e /\
      (y = 1 /\ accurate abstol reltol (solve (n - 1)%nat e) (solve m e) \/
       y = 0 /\ ~ accurate abstol reltol (solve (n - 1)%nat e) (solve m e)).
Proof.
  intros n a r calls m Hm t. unfold t. rewrite train_in, train_out by lia. cbn [tr_in tr_out no_data app].
  set (F := fun c : sgcall => map (snd (fst c)) (seq 0 (fst (fst c)))).
  set (G := fun c : sgcall => map (fun e => ms_label (snd c m e) (snd c (n - 1)%nat e) a r) (seq 0 (fst (fst c)))).
  assert (FG : forall c, length (F c) = length (G c)) by (intros c; unfold F, G; rewrite !map_length; reflexivity).
  split.
  - clear - FG. induction calls; cbn; [reflexivity|]. rewrite !app_length, FG, IHcalls. reflexivity.
  - induction calls as [|c l IH]; intros x y; [intros []|].
    cbn [flat_map]. rewrite combine_app2 by apply FG. intros H. apply in_app_or in H. destruct H as [H|H].
    + unfold F, G in H. rewrite combine_map2 in H. apply in_map_iff in H. destruct H as [e [E He]].
      inversion E; subst. apply in_seq in He. destruct c as [[nw inp] solve]. cbn [fst snd] in *.
      exists nw, inp, solve, e. split; [left; reflexivity|]. split; [lia|]. split; [reflexivity|].
      destruct (label_spec (solve m e) (solve (n - 1)%nat e) a r) as [[L|L] S]; rewrite L in *; [left|right]; (split; [reflexivity|]).
      * apply S. reflexivity.
      * intros K. apply S in K. lra.
    + destruct (IH x y H) as [nw [inp [solve [e [K1 K2]]]]]. exists nw, inp, solve, e. split; [right; exact K1|exact K2].
Qed.
Print Assumptions C275_training.
(** C275: and the residual the macro model gets while training is that of the last model. *)
Theorem C275_residual : forall n nw inp solve abstol reltol t e,
  snd (ms_train n nw inp solve abstol reltol t) e = solve (n - 1)%nat e.
Proof. reflexivity. Qed.
Print Assumptions C275_residual.
Example ex_C275 : tr_in (train_all 2 1 1 [(2%nat, (fun e => [INR e]), fun m _ => [INR m])] no_data) 0 = [[0]; [1]].
Proof. reflexivity. Qed.

(** Group gi is given the first model all of whose predictions for the elements of that group are
    positive, the last model if there is none; the predictions are read by row, row k of the input
    file being element (snd k) of group (fst k). *)
Definition approves (groups : list (nat * nat)) (gi : nat) (pred : list Z) : Prop :=
  forall k e, nth_error (ms_rows groups) k = Some (gi, e) -> (e < fst (nth gi groups (0%nat, 0%nat)))%nat -> (1 <= nth k pred 0)%Z.
Definition chosen_ok (groups : list (nat * nat)) (preds : list (list Z)) (gi w : nat) : Prop :=
  (forall j p, (j < w)%nat -> nth_error preds j = Some p -> ~ approves groups gi p) /\
  (w = length preds \/ exists p, nth_error preds w = Some p /\ approves groups gi p).

Lemma first_spec : forall preds prog ne k,
  let w := ms_first preds prog ne k in
  (k <= w)%nat /\
  (forall j p, (k + j < w)%nat -> nth_error preds j = Some p -> ms_ok p prog ne = false) /\
  (w = (k + length preds)%nat \/ exists p, nth_error preds (w - k) = Some p /\ ms_ok p prog ne = true).
Proof.
  induction preds as [|p r IH]; intros prog ne k; cbn [ms_first].
  - cbv zeta. split; [lia|]. split; [intros j p H; lia|]. left. cbn. lia.
  - cbv zeta. destruct (ms_ok p prog ne) eqn:E.
    + split; [lia|]. split; [intros; lia|]. right. exists p. rewrite Nat.sub_diag. auto.
    + destruct (IH prog ne (S k)) as [A [B C]]. cbv zeta in *. split; [lia|]. split.
      * intros j q Hj Hq. destruct j as [|j]; [cbn in Hq; congruence|]. apply (B j q); [lia|exact Hq].
      * destruct C as [C|[q [C1 C2]]]; [left; cbn; lia|]. right. exists q. split; [|exact C2].
        replace (ms_first r prog ne (S k) - k)%nat with (S (ms_first r prog ne (S k) - S k)) by lia. exact C1.
Qed.
Fixpoint start (groups : list (nat * nat)) (gi : nat) : nat :=
  match gi, groups with S g, (ne, _) :: r => (ne + start r g)%nat | _, _ => 0%nat end.
Lemma predict_nth : forall preds groups prog gi, (gi < length groups)%nat ->
  nth gi (ms_predict preds groups prog) 0%nat =
  ms_first preds (prog + start groups gi) (fst (nth gi groups (0%nat, 0%nat))) 0.
Proof.
  intros preds groups. induction groups as [|[ne nw] r IH]; intros prog gi H; [cbn in H; lia|].
  destruct gi as [|gi]; cbn [ms_predict nth start fst].
  - rewrite Nat.add_0_r. reflexivity.
  - rewrite IH by (cbn in H; lia). f_equal. lia.
Qed.
Fixpoint wide (groups : list (nat * nat)) (gi : nat) : nat :=
  match gi, groups with S g, (_, nw) :: r => (nw + wide r g)%nat | _, _ => 0%nat end.
Lemma flat_shift : forall (groups : list (nat * nat)) off,
  let F := fun off' gs => flat_map (fun gi => map (fun e => ((off' + gi)%nat, e)) (seq 0 (snd (nth gi gs (0%nat, 0%nat))))) (seq 0 (length gs)) in
  forall k gi e, nth_error (F off groups) k = Some ((off + gi)%nat, e) <->
    (gi < length groups)%nat /\ (e < snd (nth gi groups (0%nat, 0%nat)))%nat /\ k = (wide groups gi + e)%nat.
Proof.
  induction groups as [|[ne nw] r IH]; intros off F k gi e.
  - unfold F. cbn. split; [destruct k; discriminate|lia].
  - unfold F. cbn [length seq flat_map nth snd].
    match goal with |- context [flat_map ?f (seq 1 (length r))] =>
      assert (E : flat_map f (seq 1 (length r)) =
                flat_map (fun x => map (fun e0 => ((S off + x)%nat, e0)) (seq 0 (snd (nth x r (0%nat, 0%nat))))) (seq 0 (length r)))
    end.
    { rewrite <- seq_shift, !flat_map_concat_map, map_map. f_equal. apply map_ext. intros x. cbn [nth].
      replace (off + S x)%nat with (S off + x)%nat by lia. reflexivity. }
    rewrite E. clear E.
    assert (Hlen : length (map (fun e0 => ((off + 0)%nat, e0)) (seq 0 nw)) = nw) by (rewrite map_length, seq_length; reflexivity).
    destruct (Nat.lt_ge_cases k nw) as [Hk|Hk].
    + rewrite nth_error_app1 by (rewrite Hlen; exact Hk).
      rewrite (map_nth_error _ _ _ (d := k)).
      2:{ rewrite (nth_error_nth' _ 0%nat) by (rewrite seq_length; exact Hk). rewrite seq_nth by exact Hk. reflexivity. }
      split.
      * intros K. assert (gi = 0%nat /\ e = k) as [-> ->] by (inversion K; lia). cbn. lia.
      * intros [K1 [K2 K3]]. destruct gi as [|gi]; cbn in K2, K3; [|lia]. subst. reflexivity.
    + rewrite nth_error_app2 by (rewrite Hlen; exact Hk). rewrite Hlen.
      destruct gi as [|gi].
      * cbn [nth snd wide]. split; [|lia]. intros K. apply nth_error_In in K. apply in_flat_map in K.
        destruct K as [x [_ K]]. apply in_map_iff in K. destruct K as [z [K _]]. inversion K. lia.
      * replace (off + S gi)%nat with (S off + gi)%nat by lia.
        rewrite (IH (S off)). cbn [nth wide]. split; intros [A [B C]]; repeat split; try exact B; lia.
Qed.
Lemma rows_spec groups k gi e : nth_error (ms_rows groups) k = Some (gi, e) <->
    (gi < length groups)%nat /\ (e < snd (nth gi groups (0%nat, 0%nat)))%nat /\ k = (wide groups gi + e)%nat.
Proof. exact (flat_shift groups 0 k gi e). Qed.
Lemma start_wide : forall groups gi, Forall (fun g => fst g = snd g) groups -> start groups gi = wide groups gi.
Proof.
  induction groups as [|[ne nw] r IH]; intros gi H; destruct gi; cbn; try reflexivity.
  inversion H; subst. cbn in *. rewrite IH by assumption. lia.
Qed.

(** C276: the model chosen by prediction — right when all groups are as large as the workset. *)
Theorem C276_full_partial : forall preds groups gi,
  Forall (fun g => fst g = snd g) groups -> (gi < length groups)%nat ->
  chosen_ok groups preds gi (nth gi (ms_predict preds groups 0) 0%nat).
Proof.
  intros preds groups gi HF Hg. rewrite predict_nth by exact Hg. cbn [Nat.add].
  set (ne := fst (nth gi groups (0%nat, 0%nat))).
  assert (Hne : ne = snd (nth gi groups (0%nat, 0%nat))).
  { unfold ne. rewrite Forall_forall in HF. apply HF. apply nth_In. exact Hg. }
  assert (OK : forall p, ms_ok p (start groups gi) ne = true <-> approves groups gi p).
  { intros p. unfold ms_ok, approves. rewrite forallb_forall, (start_wide _ _ HF). fold ne. split.
    - intros H k e Hk He. apply rows_spec in Hk. destruct Hk as [_ [_ ->]]. apply Z.leb_le. apply H. apply in_seq. lia.
    - intros H e He. apply in_seq in He. apply Z.leb_le. apply (H _ e); [|lia]. apply rows_spec. repeat split; try exact Hg; lia. }
  destruct (first_spec preds (start groups gi) ne 0) as [_ [B C]]. cbv zeta in *. split.
  - intros j p Hj Hp K. apply OK in K. rewrite (B j p) in K; [discriminate|exact Hj|exact Hp].
  - destruct C as [C|[p [C1 C2]]]; [left; exact C|]. right. rewrite Nat.sub_0_r in C1. exists p. split; [exact C1|]. apply OK. exact C2.
Qed.
Print Assumptions C276_full_partial.
(** Two blocks of one element with worksets of two: the second group is judged by the stale row of
    the first, and is given the coarse model although its own element is predicted to need the fine
    one. *)
Theorem C276_refuted : exists preds groups gi,
  (gi < length groups)%nat /\ (forall p, In p preds -> length p = length (ms_rows groups)) /\
  ~ chosen_ok groups preds gi (nth gi (ms_predict preds groups 0) 0%nat).
Proof.
  exists [[1; 1; 0; 1]%Z], [(1, 2); (1, 2)]%nat, 1%nat. split; [cbn; lia|]. split.
  - intros p [<-|[]]. reflexivity.
  - cbn. intros [_ [H|[p [H K]]]]; [discriminate|]. cbn in H. inversion H; subst.
    specialize (K 2%nat 0%nat eq_refl). cbn in K. lia.
Qed.
Print Assumptions C276_refuted.

(* ------------------------------------------------------------------ training phase *)

(** C277: once machine-learned models are available the evaluation uses the model they select —
    so when they are trained in the run: the first maxs updates train, the next one builds the
    models, all later ones predict, and from then on the model of the group is used. *)
Theorem C277_trained_partial : forall maxs k,
  let p := Nat.iter k (ms_phase maxs) (ms_phase0 false) in
  ((k <= maxs)%nat -> ph_train p = true /\ ms_predicts maxs p = false) /\
  ((maxs < k)%nat -> ms_predicts maxs p = true /\ forall nl n idx, ms_used p nl n idx = idx).
Proof.
  intros maxs k.
  assert (A : forall k, (k <= maxs)%nat -> Nat.iter k (ms_phase maxs) (ms_phase0 false) = {| ph_train := true; ph_steps := k; ph_have := false |}).
  { induction k0; intros H; [reflexivity|]. cbn [Nat.iter nat_rect]. change (nat_rect _ ?a (fun _ => ?f) k0) with (Nat.iter k0 f a).
    unfold Nat.iter in *. rewrite IHk0 by lia. unfold ms_phase. cbn [ph_steps ph_train ph_have].
    rewrite (proj2 (Nat.ltb_lt k0 maxs)) by lia. reflexivity. }
  assert (B : forall k, (maxs < k)%nat -> Nat.iter k (ms_phase maxs) (ms_phase0 false) = {| ph_train := false; ph_steps := maxs; ph_have := true |}).
  { induction k0; intros H; [lia|]. unfold Nat.iter in *. cbn [nat_rect].
    destruct (Nat.eq_dec k0 maxs) as [->|E].
    - rewrite A by lia. unfold ms_phase. cbn [ph_steps ph_train ph_have]. rewrite Nat.ltb_irrefl. reflexivity.
    - rewrite IHk0 by lia. unfold ms_phase. cbn [ph_steps ph_train ph_have]. rewrite Nat.ltb_irrefl. reflexivity. }
  intros p. split; intros H; subst p; [rewrite A by exact H|rewrite B by exact H].
  - split; [reflexivity|]. unfold ms_predicts. cbn. apply andb_false_r.
  - unfold ms_predicts. cbn [ph_steps ph_have]. rewrite Nat.ltb_irrefl. split; reflexivity.
Qed.
Print Assumptions C277_trained_partial.
(** With "have ML models" the training flag is never cleared: after every update, the evaluations
    past the first nonlinear iteration use the last model whatever was selected. *)
Theorem C277_pretrained_refuted : forall maxs k nl n idx, (0 < nl)%nat ->
  let p := Nat.iter k (ms_phase maxs) (ms_phase0 true) in
  ((maxs <= k)%nat -> ms_predicts maxs p = true) /\ ms_used p nl n idx = (n - 1)%nat.
Proof.
  intros maxs k nl n idx Hnl.
  assert (A : exists s, Nat.iter k (ms_phase maxs) (ms_phase0 true) = {| ph_train := true; ph_steps := s; ph_have := true |} /\
                        s = Nat.min k maxs).
  { induction k; [exists 0%nat; split; reflexivity|]. destruct IHk as [s [E Es]]. unfold Nat.iter in *. cbn [nat_rect]. rewrite E.
    unfold ms_phase. cbn [ph_steps ph_train ph_have]. destruct (Nat.ltb_spec s maxs).
    - exists (S s). split; [reflexivity|lia].
    - exists s. split; [reflexivity|lia]. }
  destruct A as [s [E Es]]. intros p. subst p. rewrite E. split.
  - intros H. unfold ms_predicts. cbn [ph_steps ph_have]. destruct (Nat.ltb_spec s maxs); [lia|reflexivity].
  - unfold ms_used. cbn [ph_train]. rewrite (proj2 (Nat.ltb_lt 0 nl) Hnl). reflexivity.
Qed.
Print Assumptions C277_pretrained_refuted.

(* ------------------------------------------------------------------ constructor *)

Lemma lookup_found blocks nm i : NoDup blocks -> nth_error blocks i = Some nm -> ms_lookup blocks nm = i.
Proof.
  intros HN Hi. unfold ms_lookup.
  assert (Hl : (i < length blocks)%nat) by (apply nth_error_Some; congruence).
  assert (G : forall l a, (forall m, In m l -> (m < length blocks)%nat) ->
     fold_left (fun acc m => if String.eqb (nth m blocks ""%string) nm then m else acc) l a = if existsb (Nat.eqb i) l then i else a).
  { induction l as [|m l IH]; intros a H; [reflexivity|]. cbn [fold_left existsb].
    rewrite IH by (intros m' Hm'; apply H; right; exact Hm').
    destruct (String.eqb_spec (nth m blocks ""%string) nm) as [E|E].
    - assert (m = i).
      { apply (proj1 (NoDup_nth blocks ""%string) HN); [apply H; left; reflexivity|exact Hl|].
        rewrite E. symmetry. apply nth_error_nth. exact Hi. }
      subst m. rewrite Nat.eqb_refl. cbn. destruct (existsb _ l); reflexivity.
    - destruct (Nat.eqb_spec i m) as [->|Em]; [|reflexivity].
      exfalso. apply E. apply nth_error_nth. exact Hi. }
  rewrite G by (intros m Hm; apply in_seq in Hm; lia).
  assert (X : existsb (Nat.eqb i) (seq 0 (length blocks)) = true).
  { apply existsb_exists. exists i. split; [apply in_seq; lia|apply Nat.eqb_refl]. }
  rewrite X. reflexivity.
Qed.

Definition implemented (t : string) : Prop := t = "DtN"%string \/ t = "DtN2"%string.
Definition built (blocks : list string) (j : nat) (d : sgdeck) (m : sgmodel) : Prop :=
  sg_kind m = sd_type d /\ nth_error blocks (sg_block m) = Some (sd_block d) /\
  sg_usage m = match sd_usage d with Some u => u | None => if Nat.eqb j 0 then 1 else 0 end.

Lemma setlast_app l m b u : ms_setlast (l ++ [m])%list b u = Some (l ++ [{| sg_kind := sg_kind m; sg_block := b; sg_usage := u |}])%list.
Proof. unfold ms_setlast. rewrite rev_app_distr. cbn. rewrite rev_involutive. reflexivity. Qed.

(** C278: each sublist of "Subgrid" makes one model of the type, block and usage it asks for — so
    when the types are implemented and the block names exist. *)
Theorem C278_construct_partial : forall blocks limit decks,
  NoDup blocks -> (length decks <= limit)%nat ->
  Forall (fun d => implemented (sd_type d) /\ In (sd_block d) blocks) decks ->
  exists ms, ms_construct blocks limit decks = Some ms /\ length ms = length decks /\
    forall j d, nth_error decks j = Some d -> exists m, nth_error ms j = Some m /\ built blocks j d m.
Proof.
  intros blocks limit decks HN HL HF. unfold ms_construct. rewrite firstn_all2 by exact HL.
  assert (G : forall ds off l, Forall (fun d => implemented (sd_type d) /\ In (sd_block d) blocks) ds -> length l = off ->
    exists ms, fold_left (ms_step blocks) (combine (seq off (length ds)) ds) (Some l) = Some (l ++ ms)%list /\ length ms = length ds /\
      forall j d, nth_error ds j = Some d -> exists m, nth_error ms j = Some m /\ built blocks (off + j) d m).
  { induction ds as [|d r IH]; intros off l HD Hl.
    - exists nil. rewrite app_nil_r. repeat split. intros j d H. destruct j; discriminate.
    - inversion HD as [|? ? [Hi Hb] HD']; subst. cbn [length seq combine fold_left].
      apply In_nth_error in Hb. destruct Hb as [bi Hbi].
      assert (Hs : (String.eqb (sd_type d) "DtN" || String.eqb (sd_type d) "DtN2")%bool = true)
        by (destruct Hi as [->| ->]; reflexivity).
      cbn [ms_step fst snd]. rewrite Hs, setlast_app, (lookup_found _ _ _ HN Hbi). cbn [sg_kind].
      set (m0 := {| sg_kind := sd_type d; sg_block := bi; sg_usage := _ |}).
      destruct (IH (S (length l)) (l ++ [m0])%list HD') as [ms [E [L K]]].
      { rewrite app_length. cbn. lia. }
      exists (m0 :: ms). rewrite E, <- app_assoc. split; [reflexivity|]. split; [cbn; lia|].
      intros j d0 Hj. destruct j as [|j]; cbn [nth_error] in *.
      + inversion Hj; subst d0. exists m0. split; [reflexivity|]. rewrite Nat.add_0_r. unfold built, m0. cbn. auto.
      + destruct (K j d0 Hj) as [m [K1 K2]]. exists m. split; [exact K1|]. replace (length l + S j)%nat with (S (length l) + j)%nat by lia. exact K2. }
  destruct (G decks 0%nat nil HF eq_refl) as [ms [E [L K]]]. exists ms. cbn [app Nat.add] in *. auto.
Qed.
Print Assumptions C278_construct_partial.
Example ex_C278 : exists ms, ms_construct ["a"; "b"]%string 1000 [mk_deck "DtN" "b"; mk_deck "DtN2" "a"] = Some ms /\
  map sg_block ms = [1%nat; 0%nat].
Proof. eexists. split; reflexivity. Qed.

(** A block name that is not in the mesh silently means the first block. *)
Theorem C278_block_refuted : forall nm blocks, ~ In nm blocks -> ms_lookup blocks nm = 0%nat.
Proof.
  intros nm blocks H. unfold ms_lookup.
  assert (G : forall l a, (forall m, In m l -> (m < length blocks)%nat) ->
     fold_left (fun acc m => if String.eqb (nth m blocks ""%string) nm then m else acc) l a = a).
  { induction l as [|m l IH]; intros a Hl; [reflexivity|]. cbn [fold_left].
    destruct (String.eqb_spec (nth m blocks ""%string) nm) as [E|E].
    - exfalso. apply H. rewrite <- E. apply nth_In. apply Hl. left. reflexivity.
    - apply IH. intros m' Hm'. apply Hl. right. exact Hm'. }
  apply G. intros m Hm. apply in_seq in Hm. lia.
Qed.
Print Assumptions C278_block_refuted.
(** A model of the type "Explicit FEM" is not made, but its block and usage overwrite those of the
    model before; as the first model it is an access outside the vector. *)
Theorem C278_type_refuted :
  (exists ms, ms_construct ["a"; "b"]%string 1000 [mk_deck "DtN2" "a"; mk_deck "Explicit FEM" "b"] = Some ms /\
     length ms = 1%nat /\ map sg_block ms = [1%nat] /\ map sg_usage ms = [0]) /\
  ms_construct ["a"; "b"]%string 1000 [mk_deck "Explicit FEM" "b"] = None.
Proof. split; [|reflexivity]. eexists. repeat split; reflexivity. Qed.
Print Assumptions C278_type_refuted.
