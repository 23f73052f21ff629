(** C42, C43: the gradient of an objective is computed from the forward solution for its own
    parameters. *)
From Coq Require Import Bool Arith Lia Reals Lra List.
From Verif Require Import Sparse_Model Sparse_Props Mass_Model Mass_Props OptVec_Model OptVec_Props Objective_Model.
Import ListNotations.
Local Open Scope R_scope.

(** *** Specification *)

(** Weighted distance of two vectors of entries. *)
Definition wnorm (w u : list R) : R := sqrt (inner w u u).
Definition minus (u v : list R) : list R := pw Rminus u v.
Definition mass_of (q : pset) : list R := weights (current q) (current q).
Definition values (q : pset) : list R := entries (current q).
(** Equal to the relative tolerance of the code, 1e-12. *)
Definition close_to (q : pset) (x : ovec) : Prop :=
  wnorm (mass_of q) (minus (values q) (entries x)) <= / 10 ^ 12 * wnorm (mass_of q) (values q).

(** A vector of the optimizer has the parts and flags of the parameters. *)
Definition fits (q : pset) (x : ovec) : Prop :=
  same_shape (current q) x /\ hfld x = hfld (current q) /\ hscl x = hscl (current q).
Definition proper (q : pset) : Prop := wf (current q).

(** *** Update *)

Lemma somes_spec ss : forall l, Forall2 same_part (map Some ss) l -> exists ss', somes l = Some ss' /\ l = map Some ss' /\ map (@length R) ss' = map (@length R) ss.
Proof.
  induction ss as [|s ss IH]; intros l H; inversion H as [|? [t|] ? l' P F]; subst; try (cbn in P; contradiction).
  - exists []. auto.
  - destruct (IH l' F) as (ss' & E & -> & L). exists (t :: ss'). cbn in *. rewrite E. cbn. repeat split; auto. rewrite L, P. auto.
Qed.

Lemma lens_fields fs gs : Forall2 (fun f g : list R => length f = length g) fs gs <-> map (@length R) fs = map (@length R) gs.
Proof.
  split; [induction 1; cbn; congruence|]. revert gs. induction fs as [|f fs IH]; intros [|g gs] H; try discriminate; constructor; cbn in H; injection H; auto.
Qed.
Lemma lens_parts ss tt : Forall2 same_part (map Some ss) (map Some tt) <-> map (@length R) ss = map (@length R) tt.
Proof.
  split.
  - revert tt. induction ss as [|s ss IH]; intros [|t tt] H; inversion H; subst; auto. cbn. f_equal; auto.
  - revert tt. induction ss as [|s ss IH]; intros [|t tt] H; try discriminate; constructor; cbn in *; injection H; auto.
Qed.

(** Parameters with the same parts and the same mass. *)
Definition kin (q q' : pset) : Prop :=
  map (@length R) (q_f q) = map (@length R) (q_f q') /\ map (@length R) (q_s q) = map (@length R) (q_s q') /\ q_diag q = q_diag q' /\ q_mass q = q_mass q'.
Lemma kin_refl q : kin q q. Proof. repeat split. Qed.
Lemma kin_trans a b c : kin a b -> kin b c -> kin a c.
Proof. intros (A & B & C & D) (E & F & G & H). repeat split; congruence. Qed.
Lemma kin_alike q q' : kin q q' -> alike (current q) (current q').
Proof.
  intros (A & B & C & D). split.
  - split; cbn; [apply lens_fields|apply lens_parts]; auto.
  - repeat split; cbn; auto; apply (f_equal (@length _)) in A, B; rewrite !map_length in *; congruence.
Qed.
Lemma kin_fits q q' x : kin q q' -> fits q x -> fits q' x.
Proof.
  intros K (S & H1 & H2). pose proof (kin_alike _ _ K) as [A M]. split; [eapply shape_trans; [apply shape_sym|]; eauto|].
  destruct M as (M1 & M2 & _). split; congruence.
Qed.
Lemma alike_wf v x : alike v x -> wf x -> wf v.
Proof.
  intros [[S1 S2] (m1 & m2 & m3 & m4 & m5 & m6)] W. split.
  - intros d Hd. rewrite m5 in Hd. pose proof (proj1 W d Hd) as W1. clear - S1 W1. revert W1. induction S1; intros W1; constructor; inversion W1; subst; auto. congruence.
  - intros H1 H2. rewrite m5 in H1. rewrite m6 in H2. rewrite (proj2 W H1 H2) in S1. inversion S1. auto.
Qed.
Lemma kin_proper q q' : kin q q' -> proper q' -> proper q.
Proof. intros K. apply alike_wf, kin_alike. auto. Qed.
Lemma kin_mass q q' : kin q q' -> mass_of q = mass_of q'.
Proof. intros K. apply weights_meta; [apply kin_alike; auto|reflexivity]. Qed.

Lemma parts_some ss : parts (map Some ss) = concat ss.
Proof. induction ss; auto. cbn. f_equal. exact IHss. Qed.

Lemma update_spec q x : fits q x -> exists q', update q x = Some q' /\ values q' = entries x /\ kin q' q.
Proof.
  intros (S & H1 & H2). unfold update. rewrite (same_compat _ _ S). destruct S as [S1 S2]. cbn [current make_current flds scls hfld hscl] in *.
  destruct (somes_spec _ _ S2) as (ss' & E & E' & L).
  assert (LF : map (@length R) (flds x) = map (@length R) (q_f q)) by (symmetry; apply lens_fields; auto).
  rewrite H1, H2. destruct (Nat.eqb_spec (length (q_s q)) 0) as [Z|Z]; cbn [negb].
  - assert (Z' : q_s q = []) by (destruct (q_s q); auto; discriminate).
    eexists. split; [reflexivity|]. split; [|].
    + unfold values, entries. cbn. rewrite parts_some. rewrite Z' in *. rewrite E'. destruct ss'; [|discriminate]. cbn. f_equal.
      destruct (Nat.eqb_spec (length (q_f q)) 0) as [Y|Y]; cbn [negb]; auto. destruct (q_f q); [|discriminate]. destruct (flds x); [auto|discriminate].
    + repeat split; cbn; auto. destruct (Nat.eqb_spec (length (q_f q)) 0); cbn [negb]; auto.
  - rewrite E. eexists. split; [reflexivity|]. split; [|].
    + unfold values, entries. cbn. rewrite E', parts_some, parts_some. f_equal.
      destruct (Nat.eqb_spec (length (q_f q)) 0) as [Y|Y]; cbn [negb]; auto. destruct (q_f q); [|discriminate]. destruct (flds x); [auto|discriminate].
    + repeat split; cbn; auto. destruct (Nat.eqb_spec (length (q_f q)) 0); cbn [negb]; auto.
Qed.

(** *** The test for new parameters *)

Definition same_core (v x : ovec) : Prop := isdual v = isdual x /\ dscale v = dscale x /\ diag v = diag x /\ fmass v = fmass x.

Lemma core_weights v x : Forall2 (fun f g : list R => length f = length g) (flds v) (flds x) -> length (parts (scls v)) = length (parts (scls x)) -> same_core v x -> weights v v = weights x x.
Proof.
  intros A B (M3 & M4 & M5 & _). unfold weights. rewrite B. f_equal. unfold fweights. rewrite M3, M4, M5.
  induction A as [|f g fs gs L _ IH]; auto. cbn. rewrite IH, L. reflexivity.
Qed.
Lemma core_wf v x : Forall2 (fun f g : list R => length f = length g) (flds v) (flds x) -> same_core v x -> wf x -> wf v.
Proof.
  intros S1 (m3 & m4 & m5 & m6) W. split.
  - intros d Hd. rewrite m5 in Hd. pose proof (proj1 W d Hd) as W1. clear - S1 W1. revert W1. induction S1; intros W1; constructor; inversion W1; subst; auto. congruence.
  - intros H1 H2. rewrite m5 in H1. rewrite m6 in H2. rewrite (proj2 W H1 H2) in S1. inversion S1. auto.
Qed.

Lemma shape_flds v x : same_shape v x -> Forall2 (fun f g : list R => length f = length g) (flds v) (flds x).
Proof. intros [A _]. auto. Qed.
Lemma shape_parts v x : same_shape v x -> length (parts (scls v)) = length (parts (scls x)).
Proof. intros [_ B]. destruct (zips_entries Rplus _ _ B) as (_ & L & _). auto. Qed.
Lemma meta_core v x : same_meta v x -> same_core v x.
Proof. intros (a & b & c & d & e & f). repeat split; auto. Qed.
Lemma core_trans a b c : same_core a b -> same_core b c -> same_core a c.
Proof. intros (A & B & C & D) (E & F & G & H). repeat split; congruence. Qed.

(** A field-only vector: replace the scalar parts by one null part. *)
Definition nulled (x : ovec) : ovec := with_data x (flds x) [None].
Lemma binary_nulled h v x : scls v = [None] -> scls x = [] -> binary h v x = binary h v (nulled x).
Proof. intros E F. unfold binary, compat. rewrite E, F. reflexivity. Qed.

Lemma pw_minus a b c : length a = length b -> length b = length c ->
  pw (fun u0 b0 => u0 + -1 * b0) (pw (fun _ b0 => b0) a b) c = pw Rminus b c.
Proof.
  intros H K. apply list_eq; rewrite !pw_length; [lia|]. intros i Hi. rewrite pw_nth by (rewrite pw_length; lia). rewrite !pw_nth by lia. ring.
Qed.

Lemma diff_spec q x : fits q x -> proper q -> exists d0 d1 d, clone (current q) = Some d0 /\ oset (zero d0) (current q) = Some d1 /\ axpy (-1) d1 x = Some d /\
  entries d = minus (values q) (entries x) /\ weights d d = mass_of q /\ wf d.
Proof.
  intros (S & H1 & H2) W.
  assert (G : exists d0 x' c', clone (current q) = Some d0 /\ same_shape d0 c' /\ same_shape c' x' /\ same_core d0 (current q) /\
     entries x' = entries x /\ entries c' = values q /\ Forall2 (fun f g : list R => length f = length g) (flds d0) (flds (current q)) /\ length (parts (scls d0)) = length (parts (scls (current q))) /\
     oset (zero d0) (current q) = oset (zero d0) c' /\ (forall d1, scls d1 = scls (zero d0) \/ same_shape d1 d0 -> axpy (-1) d1 x = axpy (-1) d1 x')).
  { unfold clone. destruct (hscl (current q)) eqn:HS; cbn [negb].
    - assert (SH : same_shape (zero (current q)) (current q)) by (destruct (C39_unary (fun _ => 0) (current q)) as (_ & A & _); exact A).
      assert (Y : exists d0, (if negb (hfld (current q)) then Some (make_scalar (map (option_map (map (fun _ => 0))) (scls (current q))) (diag (current q)) (fmass (current q)))
         else make_both (map (map (fun _ => 0)) (flds (current q))) (map (option_map (map (fun _ => 0))) (scls (current q))) (diag (current q)) (fmass (current q))) = Some d0 /\ same_shape d0 (current q) /\ same_core d0 (current q)).
      { destruct (hfld (current q)) eqn:HF; cbn [negb].
        - cbn in HS. destruct (q_s q) as [|s ss] eqn:QS; [discriminate|]. cbn [current make_current scls flds diag fmass map option_map make_both]. rewrite QS. cbn [map option_map].
          eexists. split; [reflexivity|]. split; [|repeat split].
          destruct SH as [SH1 SH2]. unfold zero, unary, with_data, current, make_current in SH1, SH2. cbn [flds scls] in SH1, SH2. rewrite QS in SH2. split; cbn [flds scls current make_current]; [exact SH1|]. rewrite QS. exact SH2.
        - eexists. split; [reflexivity|]. split; [|repeat split]. destruct SH as [SH1 SH2]. split; cbn [flds scls make_scalar].
          + cbn in HF. cbn. destruct (q_f q); [constructor|discriminate].
          + exact SH2. }
      destruct Y as (d0 & E0 & S0 & C0). exists d0, x, (current q).
      split; [exact E0|]. split; [exact S0|]. split; [exact S|]. split; [exact C0|]. split; [reflexivity|]. split; [reflexivity|].
      split; [apply S0|]. split; [apply shape_parts; auto|]. split; auto.
    - cbn in HS. assert (Q : q_s q = []) by (destruct (q_s q); auto; discriminate).
      assert (SX : scls x = []) by (destruct S as [_ S2]; cbn in S2; rewrite Q in S2; inversion S2; auto).
      assert (SC : scls (current q) = []) by (cbn; rewrite Q; auto).
      eexists _, (nulled x), (nulled (current q)). split; [reflexivity|].
      assert (F0 : Forall2 (fun f g : list R => length f = length g) (map (map (fun _ => 0)) (flds (current q))) (flds (current q))).
      { destruct (C39_unary (fun _ => 0) (current q)) as (_ & A & _). apply A. }
      split; [split; [exact F0|repeat constructor]|].
      split; [split; [apply S|repeat constructor]|].
      split; [repeat split|].
      split; [unfold entries; cbn; rewrite SX; reflexivity|].
      split; [unfold values, entries; cbn; rewrite Q; reflexivity|].
      split; [exact F0|]. split; [rewrite SC; reflexivity|].
      split; [apply binary_nulled; auto|].
      intros d1 [D|D]; (apply binary_nulled; auto).
      destruct D as [_ D]. cbn in D. inversion D as [|[?|] ? ? ? P D']; subst; [cbn in P; contradiction|]. inversion D'. auto. }
  destruct G as (d0 & x' & c' & E0 & S0 & S1 & C0 & EX & EC & F0 & P0 & R1 & R2).
  destruct (C39_unary (fun _ => 0) d0) as (_ & SZ & MZ). change (unary (fun _ => 0) d0) with (zero d0) in SZ, MZ.
  destruct (C39_binary (fun _ b => b) (zero d0) c' (shape_trans _ _ _ SZ S0)) as (d1 & E1 & D1 & SH1 & M1).
  pose proof (shape_trans _ _ _ SH1 SZ) as SH1'.
  destruct (C39_binary (fun u b => u + -1 * b) d1 x' (shape_trans _ _ _ SH1' (shape_trans _ _ _ S0 S1))) as (d & E2 & D2 & SH2 & M2).
  exists d0, d1, d. split; auto. split; [unfold oset in *; rewrite R1; auto|].
  split; [rewrite R2 by (right; auto); exact E2|].
  pose proof (shape_trans _ _ _ SH2 SH1') as SH2'.
  pose proof (core_trans _ _ _ (meta_core _ _ M2) (core_trans _ _ _ (meta_core _ _ M1) (core_trans _ _ _ (meta_core _ _ MZ) C0))) as CD.
  assert (FD : Forall2 (fun f g : list R => length f = length g) (flds d) (flds (current q))).
  { apply lens_fields. transitivity (map (@length R) (flds d0)); [apply lens_fields, shape_flds; auto|apply lens_fields; auto]. }
  split; [|split].
  - rewrite D2, D1, EX, EC. apply pw_minus.
    + rewrite <- EC. apply same_entries_length. eapply shape_trans; eauto.
    + rewrite <- EC, <- EX. apply same_entries_length. auto.
  - apply core_weights; auto. rewrite (shape_parts _ _ SH2'), P0. auto.
  - eapply core_wf; eauto.
Qed.

Lemma is_new_spec q x : fits q x -> proper q -> exists b, is_new q x = Some b /\ (b = false <-> close_to q x).
Proof.
  intros F W. destruct (diff_spec q x F W) as (d0 & d1 & d & E0 & E1 & E2 & ED & WD & WFD).
  unfold is_new. rewrite E0. cbn [bind]. rewrite E1. cbn [bind]. rewrite E2. cbn [bind].
  unfold norm. rewrite (proj1 (C39_dot d d (shape_refl d) WFD)), (proj1 (C39_dot _ _ (shape_refl (current q)) W)). cbn [bind].
  rewrite ED, WD. change (entries (current q)) with (values q). change (weights (current q) (current q)) with (mass_of q).
  eexists. split; [reflexivity|]. unfold close_to, wnorm, rltb, reltol. set (a := sqrt (inner _ (minus _ _) _)). set (b := sqrt (inner _ (values q) _)).
  pose proof (sqrt_pos (inner (mass_of q) (minus (values q) (entries x)) (minus (values q) (entries x)))) as PA. fold a in PA.
  pose proof (sqrt_pos (inner (mass_of q) (values q) (values q))) as PB. fold b in PB.
  destruct (Req_EM_T b 0) as [Z|Z].
  - rewrite Z. rewrite Rmult_0_r. destruct (Rlt_dec 0 a); split; intros; try discriminate; auto; lra.
  - assert (0 < b) by lra. destruct (Rlt_dec (/ 10 ^ 12) (a / b)) as [L|L]; split; intros K; try discriminate; auto.
    + apply (Rmult_lt_compat_r b) in L; auto. unfold Rdiv in L. rewrite Rmult_assoc, Rinv_l in L by auto. lra.
    + apply Rnot_lt_le in L. apply (Rmult_le_compat_r b) in L; [|lra]. unfold Rdiv in L. rewrite Rmult_assoc, Rinv_l in L by auto. lra.
Qed.

Lemma equal_close q x : values q = entries x -> close_to q x.
Proof.
  intros E. unfold close_to, wnorm. replace (inner (mass_of q) (minus (values q) (entries x)) _) with 0.
  - rewrite sqrt_0. apply Rmult_le_pos; [|apply sqrt_pos]. left. apply Rinv_0_lt_compat. apply pow_lt. lra.
  - unfold inner. symmetry. apply rsum_zero. intros i Hi. unfold minus in *. rewrite pw_length in Hi. apply in_seq in Hi.
    rewrite pw_nth by lia. rewrite E. ring.
Qed.

(** The entries of close parameters. *)
Theorem C43_close_entries q x i : fits q x -> proper q -> positive (current q) -> close_to q x -> (i < length (values q))%nat ->
  nth i (mass_of q) 0 * (nth i (values q) 0 - nth i (entries x) 0) ^ 2 <= (/ 10 ^ 12) ^ 2 * inner (mass_of q) (values q) (values q) /\ 0 < nth i (mass_of q) 0.
Proof.
  intros (S & _) W P C Hi. pose proof (weights_pos (current q) (current q) P) as WP. fold (mass_of q) in WP.
  destruct (C39_dot _ _ (shape_refl (current q)) W) as [_ L]. fold (mass_of q) in L. fold (values q) in L.
  assert (PI : 0 < nth i (mass_of q) 0) by (rewrite Forall_forall in WP; apply WP, nth_In; lia).
  split; auto. unfold close_to, wnorm in C. set (e := minus (values q) (entries x)) in *.
  assert (LE : length e = length (values q)) by apply pw_length.
  destruct (inner_pos (mass_of q) e WP ltac:(lia)) as [I1 _]. destruct (inner_pos (mass_of q) (values q) WP L) as [I2 _].
  assert (Q : inner (mass_of q) e e <= (/ 10 ^ 12) ^ 2 * inner (mass_of q) (values q) (values q)).
  { rewrite <- (sqrt_def _ I1), <- (sqrt_def _ I2). pose proof (sqrt_pos (inner (mass_of q) e e)).
    pose proof (Rmult_le_compat _ _ _ _ H H C C) as X. lra. }
  eapply Rle_trans; [|exact Q].
  assert (T : forall w u, Forall (fun a => 0 < a) w -> length w = length u -> forall k, (k < length u)%nat -> nth k w 0 * nth k u 0 * nth k u 0 <= inner w u u).
  { clear. induction w as [|a w IH]; intros [|b u] F L k Hk; try discriminate; cbn in Hk; [lia|]. inversion F; subst. cbn in L. injection L as L. rewrite inner_cons.
    destruct (inner_pos w u H2 L) as [J _]. destruct k as [|k]; cbn [nth]; [lra|].
    specialize (IH u H2 L k ltac:(lia)). assert (0 <= a * b * b) by (replace (a * b * b) with (a * (b * b)) by ring; apply Rmult_le_pos; [lra|apply Rle_0_sqr]). lra. }
  specialize (T (mass_of q) e WP ltac:(lia) i ltac:(lia)). unfold e, minus in T. rewrite pw_nth in T by auto. fold e in T. unfold e, minus. cbn [pow]. lra.
Qed.
Print Assumptions C43_close_entries.

(** *** C43: deterministic objective *)

Section Det.
Context {St : Type}.
Variable fwd : pset -> St.

Definition arg (c : call) : ovec := match c with Value x => x | Gradient x => x end.

(** What a call must return: the adjoint of gradient(x) uses parameters close to x and the
    forward solution for exactly these parameters. *)
Definition right (c : call) (o : option (pset * option St)) : Prop :=
  match c, o with
  | Value _, None => True
  | Gradient x, Some (q, st) => close_to q x /\ st = Some (fwd q)
  | _, _ => False
  end.
(** The same, or no forward solution at all. *)
Definition right_or_unsolved (c : call) (o : option (pset * option St)) : Prop :=
  match c, o with
  | Value _, None => True
  | Gradient x, Some (q, st) => close_to q x /\ (st = Some (fwd q) \/ st = None)
  | _, _ => False
  end.

Lemma C43_step c s : fits (cur s) (arg c) -> proper (cur s) ->
  (stored s = None \/ stored s = Some (fwd (cur s))) ->
  exists s' o, exec fwd c s = Some (s', o) /\ kin (cur s') (cur s) /\ right_or_unsolved c o /\
    (stored s' = Some (fwd (cur s')) \/ (stored s = None /\ stored s' = None)) /\
    (stored s <> None -> right c o) /\ (forall x, c = Value x -> stored s' <> None).
Proof.
  intros F W I.
  assert (V : forall x, fits (cur s) x -> exists q, value fwd x s = Some {| cur := q; stored := Some (fwd q) |} /\ values q = entries x /\ kin q (cur s)).
  { intros x Fx. destruct (update_spec _ _ Fx) as (q & E & D & K). exists q. unfold value. rewrite E. auto. }
  destruct c as [x|x]; cbn [arg exec] in *.
  - destruct (V x F) as (q & E & D & K). rewrite E. cbn [bind]. eexists _, _. split; [reflexivity|]. cbn. repeat split; auto; try apply K; discriminate.
  - destruct (is_new_spec _ _ F W) as (b & EB & HB). unfold gradient. rewrite EB. cbn [bind]. destruct b.
    + destruct (V x F) as (q & E & D & K). rewrite E. cbn [bind fst snd cur stored]. eexists _, _. split; [reflexivity|]. split; auto.
      pose proof (equal_close q x D) as CL. cbn [right right_or_unsolved stored cur]. repeat split; auto; try discriminate.
    + cbn [bind fst snd]. eexists _, _. split; [reflexivity|]. split; [apply kin_refl|]. cbn [right right_or_unsolved].
      pose proof (proj1 HB eq_refl) as CL. repeat split; auto; try discriminate.
      * tauto.
      * destruct I; auto.
      * destruct I; [contradiction|auto].
Qed.

(** Every sequence of calls. *)
Theorem C43_history cs : forall s, (forall c, In c cs -> fits (cur s) (arg c)) -> proper (cur s) ->
  (stored s = None \/ stored s = Some (fwd (cur s))) ->
  exists s' os, run fwd cs s = Some (s', os) /\ Forall2 right_or_unsolved cs os /\ (stored s <> None -> Forall2 right cs os).
Proof.
  induction cs as [|c cs IH]; intros s F W I.
  - exists s, []. repeat split; auto; constructor.
  - destruct (C43_step c s (F c (or_introl eq_refl)) W I) as (s1 & o & E & K & R & I1 & R' & _).
    destruct (IH s1) as (s' & os & E' & FO & FR).
    + intros d Hd. eapply kin_fits; [|apply F; right; auto]. destruct K as (a & b & c' & d'). repeat split; auto.
    + eapply kin_proper; eauto.
    + tauto.
    + exists s', (o :: os). cbn [run]. rewrite E. cbn [bind fst snd]. rewrite E'. cbn [bind fst snd]. split; auto. split; [constructor; auto|].
      intros N. constructor; auto. apply FR. destruct I1 as [->|[]]; [discriminate|contradiction].
Qed.

(** Once the objective has been evaluated, every gradient is right. *)
Theorem C43_after_value x cs s : fits (cur s) x -> (forall c, In c cs -> fits (cur s) (arg c)) -> proper (cur s) ->
  (stored s = None \/ stored s = Some (fwd (cur s))) ->
  exists s' os, run fwd (Value x :: cs) s = Some (s', None :: os) /\ Forall2 right cs os.
Proof.
  intros Fx F W I. destruct (C43_step (Value x) s Fx W I) as (s1 & o & E & K & R & I1 & R' & N).
  destruct (C43_history cs s1) as (s' & os & E' & FO & FR).
  - intros d Hd. eapply kin_fits; [|apply F; auto]. destruct K as (a & b & c' & d'). repeat split; auto.
  - eapply kin_proper; eauto.
  - tauto.
  - exists s', os. cbn [run]. rewrite E. cbn [bind fst snd]. rewrite E'. cbn [bind fst snd].
    destruct o as [[]|]; [cbn in R; contradiction|]. split; auto. apply FR. apply (N x eq_refl).
Qed.

(** A gradient at the initial parameters before any evaluation uses no forward solution. *)
Theorem C43_first_gradient_refuted : exists q s' os, let s := {| cur := q; stored := None |} in
  proper q /\ fits q (current q) /\ run fwd [Gradient (current q)] s = Some (s', os) /\ os = [Some (q, None)].
Proof.
  set (q := {| q_f := []; q_s := [[1]]; q_diag := None; q_mass := false |}).
  assert (W : proper q) by (split; [discriminate|reflexivity]).
  assert (F : fits q (current q)) by (split; [apply shape_refl|auto]).
  destruct (is_new_spec q (current q) F W) as (b & E & HB).
  assert (b = false) by (apply HB; apply equal_close; reflexivity). subst b.
  exists q. eexists _, _. cbn zeta. split; auto. split; auto. cbn [run exec]. unfold gradient. cbn [cur]. rewrite E. cbn. split; reflexivity.
Qed.
End Det.
Print Assumptions C43_step.
Print Assumptions C43_history.
Print Assumptions C43_after_value.
Print Assumptions C43_first_gradient_refuted.

Example C43_hypotheses_met :
  let q := {| q_f := [[1; 2]]; q_s := [[3]]; q_diag := Some [2; 5]; q_mass := true |} in
  let x := make_current [[0; 1]] [[4]] (Some [2; 5]) true in
  fits q x /\ proper q /\ positive (current q) /\ ~ close_to q x.
Proof.
  cbn zeta. split; [split; [split; repeat constructor|auto]|].
  split; [split; [intros d [= <-]; repeat constructor|discriminate]|].
  split; [split; [cbn; lra|intros d [= <-]; repeat constructor; lra]|].
  unfold close_to, wnorm.
  match goal with |- ~ sqrt ?A <= _ * sqrt ?B => replace A with 8 by (cbv -[IZR Rplus Rmult Rminus Ropp]; ring); replace B with 31 by (cbv -[IZR Rplus Rmult Rminus Ropp]; ring) end.
  intros H. assert (S8 : 1 < sqrt 8) by (rewrite <- sqrt_1; apply sqrt_lt_1; lra).
  assert (S31 : sqrt 31 < 6) by (replace 6 with (sqrt 36) by (replace 36 with (6 * 6) by ring; apply sqrt_square; lra); apply sqrt_lt_1; lra).
  assert (T : / 10 ^ 12 < / 10) by (apply Rinv_lt_contravar; [apply Rmult_lt_0_compat; [|apply pow_lt]; lra|cbn; lra]).
  assert (/ 10 ^ 12 * sqrt 31 <= / 10 * sqrt 31) by (apply Rmult_le_compat_r; [apply sqrt_pos|lra]). lra.
Qed.

(** *** C42: stochastic objective *)

Section Sto.
Context {St : Type}.
Variable fwd : pset -> list R -> St.
Variable zero_st : St.
Variable samples : list (list R).

(** Samples are distinguishable. *)
Definition separated : Prop := forall i j p p', nth_error samples i = Some p -> nth_error samples j = Some p' -> i <> j -> / 10 ^ 14 <= dist2 p p'.

Lemma dist2_refl p : dist2 p p = 0.
Proof. unfold dist2. apply rsum_zero. intros. ring. Qed.

Lemma identify_spec : separated -> forall j p, nth_error samples j = Some p -> identify samples 0 p = Some j.
Proof.
  intros SEP. 
  assert (G : forall l k j p, nth_error l j = Some p -> (forall i p', (i < j)%nat -> nth_error l i = Some p' -> / 10 ^ 14 <= dist2 p' p) -> identify l k p = Some (k + j)%nat).
  { induction l as [|a l IH]; intros k j p H K; [destruct j; discriminate|]. cbn [identify]. unfold rltb. destruct j as [|j].
    - cbn in H. injection H as ->. rewrite dist2_refl. destruct (Rlt_dec 0 (/ 10 ^ 14)) as [|N]; [f_equal; lia|].
      exfalso. apply N. apply Rinv_0_lt_compat, pow_lt. lra.
    - destruct (Rlt_dec (dist2 a p) (/ 10 ^ 14)) as [L|L].
      + specialize (K 0%nat a ltac:(lia) eq_refl). lra.
      + rewrite (IH (S k) j p H); [f_equal; lia|]. intros i p' Hi Hp. apply (K (S i) p'); [lia|auto]. }
  intros j p H. rewrite (G samples 0%nat j p H); auto. intros i p' Hi Hp. eapply SEP; eauto. lia.
Qed.

Lemma set_at_nth {A} i (a : A) l j : nth_error (set_at i a l) j = if (j =? i)%nat then (if (i <? length l)%nat then Some a else None) else nth_error l j.
Proof.
  revert i j. induction l as [|b l IH]; intros [|i] [|j]; cbn [set_at nth_error length]; auto.
  - destruct (S j =? S i)%nat; auto.
  - rewrite IH. reflexivity.
Qed.
Lemma set_at_length {A} i (a : A) l : length (set_at i a l) = length l.
Proof. revert i. induction l; intros [|i]; cbn; auto. Qed.

Lemma kin_values q q' : kin q q' -> values q = values q' -> q = q'.
Proof.
  intros K E. destruct (kin_alike _ _ K) as [S M]. pose proof (C39_extensional _ _ S M E) as C.
  unfold current, make_current in C. injection C as C1 C2 _ _ C5 C6. destruct q as [f s d m], q' as [f' s' d' m']. cbn in *.
  assert (X : forall a b : list (list R), map Some a = map Some b -> a = b) by (induction a as [|u a IH]; intros [|w b] H; try discriminate; auto; cbn in H; injection H as -> H; f_equal; auto).
  rewrite (X _ _ C2). congruence.
Qed.

(** Calls at one point [x]; a sample is evaluated before its gradient is asked. *)
Fixpoint in_order (x : ovec) (cs : list scall) (j : nat) (done : list nat) : Prop :=
  match cs with
  | [] => True
  | SSample p :: cs => exists j', nth_error samples j' = Some p /\ in_order x cs j' done
  | SValue y :: cs => y = x /\ in_order x cs j (j :: done)
  | SGradient y :: cs => y = x /\ In j done /\ in_order x cs j done
  end.

(** The gradient for sample [p] at [x]: parameters [q], the sample and its forward solution. *)
Fixpoint rights (q : pset) (cs : list scall) (p : list R) (os : list (option (pset * list R * option St))) : Prop :=
  match cs, os with
  | [], [] => True
  | SSample p' :: cs, None :: os => rights q cs p' os
  | SValue _ :: cs, None :: os => rights q cs p os
  | SGradient _ :: cs, Some o :: os => o = (q, p, Some (fwd q p)) /\ rights q cs p os
  | _, _ => False
  end.

Definition cache_ok (c : option (list St)) : Prop := forall l, c = Some l -> length l = length samples.

Lemma sto_step x q : fits q x -> proper q -> values q = entries x -> separated -> forall cs s j p done,
  nth_error samples j = Some p -> sample s = p -> kin (scur s) q -> cache_ok (cache s) ->
  (done <> [] -> scur s = q) ->
  (forall i p', In i done -> nth_error samples i = Some p' -> exists l, cache s = Some l /\ nth_error l i = Some (fwd q p')) ->
  in_order x cs j done ->
  exists s' os, srun fwd zero_st samples cs s = Some (s', os) /\ rights q cs p os.
Proof.
  intros F W VX SEP. induction cs as [|c cs IH]; intros s j p done HJ HP K CO HD HC HO.
  - exists s, []. cbn. auto.
  - destruct c as [p'|y|y]; cbn [in_order] in HO; cbn [srun sexec].
    + destruct HO as (j' & HJ' & HO). cbn [bind fst snd].
      destruct (IH (set_parameter p' s) j' p' done HJ' eq_refl K CO HD HC HO) as (s' & os & E & R).
      rewrite E. cbn [bind fst snd]. eexists _, _. split; [reflexivity|]. exact R.
    + destruct HO as (-> & HO). unfold svalue.
      assert (FX : fits (scur s) x) by (eapply kin_fits; [|exact F]; destruct K as (a & b & c & d); repeat split; auto).
      destruct (update_spec _ _ FX) as (q' & E & D & K'). rewrite E. cbn [bind].
      assert (EQ : q' = q) by (apply kin_values; [eapply kin_trans; eauto|congruence]). subst q'.
      rewrite HP, (identify_spec SEP j p HJ). cbn [bind fst snd].
      set (s1 := {| scur := q; sample := p; cache := _; sstored := _ |}).
      destruct (IH s1 j p (j :: done) HJ eq_refl (kin_refl q)) as (s' & os & E' & R); auto.
      * intros l [= <-]. rewrite set_at_length. destruct (cache s) as [l|] eqn:CS; [apply CO; auto|apply repeat_length].
      * intros i p' [<-|Hi] Hp.
        -- eexists. split; [reflexivity|]. rewrite set_at_nth, Nat.eqb_refl. assert (LJ : (j < length samples)%nat) by (apply nth_error_Some; congruence).
           destruct (Nat.ltb_spec j (length (match cache s with Some l => l | None => repeat zero_st (length samples) end))) as [L|L]; [congruence|].
           destruct (cache s) as [l|] eqn:CS; [rewrite (CO l eq_refl) in L; lia|rewrite repeat_length in L; lia].
        -- destruct (HC i p' Hi Hp) as (l & CS & N). eexists. split; [reflexivity|]. rewrite CS. rewrite set_at_nth. destruct (Nat.eqb_spec i j) as [->|]; auto.
           assert (LJ : (j < length samples)%nat) by (apply nth_error_Some; congruence). rewrite (CO l CS). destruct (Nat.ltb_spec j (length samples)); [congruence|lia].
      * rewrite E'. cbn [bind fst snd]. eexists _, _. split; [reflexivity|]. exact R.
    + destruct HO as (-> & HI & HO). assert (SC : scur s = q) by (apply HD; intros ->; destruct HI).
      unfold sgradient. rewrite SC. destruct (is_new_spec q x F W) as (b & EB & HB). rewrite EB. cbn [bind].
      assert (b = false) by (apply HB, equal_close; auto). subst b.
      rewrite HP, (identify_spec SEP j p HJ). cbn [bind].
      destruct (HC j p HI HJ) as (l & CS & N). unfold set_state. rewrite CS. cbn [bind]. rewrite N. cbn [bind fst snd scur sample sstored].
      set (s1 := {| scur := _; sample := _; cache := _; sstored := _ |}).
      destruct (IH s1 j p done HJ HP) as (s' & os & E' & R); auto.
      * cbn. rewrite <- CS. auto.
      * cbn. rewrite <- CS. auto.
      * rewrite E'. cbn [bind fst snd]. eexists _, _. split; [reflexivity|]. cbn [rights]. rewrite SC, HP. auto.
Qed.

(** From every state (so after every history): a sequence of calls at one point in which
    each sample is evaluated before its gradient is asked gives right gradients. *)
Theorem C42_in_order x cs s j : fits (scur s) x -> proper (scur s) -> separated -> cache_ok (cache s) ->
  nth_error samples j = Some (sample s) -> in_order x cs j [] ->
  exists q s' os, values q = entries x /\ kin q (scur s) /\ srun fwd zero_st samples cs s = Some (s', os) /\ rights q cs (sample s) os.
Proof.
  intros F W SEP CO HJ HO. destruct (update_spec _ _ F) as (q & E & D & K).
  assert (K' : kin (scur s) q) by (destruct K as (a & b & c & d); repeat split; auto).
  destruct (sto_step x q) with (cs := cs) (s := s) (j := j) (p := sample s) (done := @nil nat) as (s' & os & E' & R); auto.
  - eapply kin_fits; eauto.
  - eapply kin_proper; eauto.
  - intros C. contradiction.
  - intros i p' [].
  - exists q, s', os. auto.
Qed.

(** Every state reached from a state with a well-sized cache has one. *)
Theorem C42_cache_kept cs : forall s s' os, cache_ok (cache s) -> srun fwd zero_st samples cs s = Some (s', os) -> cache_ok (cache s').
Proof.
  assert (V : forall x s s', cache_ok (cache s) -> svalue fwd zero_st samples x s = Some s' -> cache_ok (cache s')).
  { intros x s s' CO E. unfold svalue in E. destruct (update (scur s) x); [|discriminate]. cbn [bind] in E. destruct (identify _ _ _); [|discriminate]. cbn [bind] in E.
    injection E as <-. intros l [= <-]. rewrite set_at_length. destruct (cache s) as [l|] eqn:CS; [apply CO; auto|apply repeat_length]. }
  induction cs as [|c cs IH]; intros s s' os CO E; cbn [srun] in E.
  - injection E as <- <-. auto.
  - destruct (sexec fwd zero_st samples c s) as [[s1 o]|] eqn:E1; [|discriminate]. cbn [bind fst snd] in E.
    destruct (srun fwd zero_st samples cs s1) as [[s2 os']|] eqn:E2; [|discriminate]. cbn [bind fst snd] in E. injection E as <- <-.
    apply (IH s1 s2 os'); auto. destruct c as [p|x|x]; cbn [sexec] in E1.
    + injection E1 as <- <-. auto.
    + destruct (svalue _ _ _ x s) as [s3|] eqn:E3; [|discriminate]. cbn in E1. injection E1 as <- <-. eapply V; eauto.
    + unfold sgradient in E1. destruct (is_new _ _) as [b|]; [|discriminate]. cbn [bind] in E1. destruct (identify _ _ _) as [i|]; [|discriminate]. cbn [bind] in E1. destruct b.
      * destruct (svalue _ _ _ x s) as [s3|] eqn:E3; [|discriminate]. cbn in E1. injection E1 as <- <-. eapply V; eauto.
      * unfold set_state in E1. destruct (cache s) as [l|] eqn:CS; [|discriminate]. cbn [bind] in E1. destruct (nth_error l i); [|discriminate]. cbn in E1. injection E1 as <- <-. intros l' E'. cbn in E'. injection E' as <-. apply CO. auto.
Qed.
End Sto.
Print Assumptions C42_in_order.
Print Assumptions C42_cache_kept.

(** Witnesses: two samples, one scalar parameter; a forward solution is the pair of the
    parameters and the sample for which it was computed. *)
Definition q1 : pset := {| q_f := []; q_s := [[1]]; q_diag := None; q_mass := false |}.
Definition q2 : pset := {| q_f := []; q_s := [[2]]; q_diag := None; q_mass := false |}.
Definition two : list (list R) := [[0]; [1]].
Definition fwd0 (q : pset) (p : list R) : option (pset * list R) := Some (q, p).

Lemma two_separated : separated two.
Proof.
  assert (T : / 10 ^ 14 < 1) by (rewrite <- (Rinv_1); apply Rinv_lt_contravar; [rewrite Rmult_1_l; apply pow_lt; lra|cbn; lra]).
  intros i j p p' H H' N.
  assert (D : forall a b, (a - b) ^ 2 = 1 -> / 10 ^ 14 <= dist2 [a] [b]) by (intros a b E; unfold dist2; cbn [length seq map nth]; unfold rsum; cbn [fold_right]; rewrite E; lra).
  destruct i as [|[|i]], j as [|[|j]]; cbn in H, H'; try (destruct i; discriminate); try (destruct j; discriminate); try congruence; try lia;
    injection H as <-; injection H' as <-; apply D; ring.
Qed.

Lemma prop1 q : q_diag q = None -> q_mass q = false -> proper q.
Proof. intros A B. split; cbn; intros; congruence. Qed.

Lemma not_close12 : ~ close_to q1 (current q2).
Proof.
  unfold close_to, wnorm.
  match goal with |- ~ sqrt ?A <= _ * sqrt ?B => replace A with 1 by (cbv -[IZR Rplus Rmult Rminus Ropp]; ring); replace B with 1 by (cbv -[IZR Rplus Rmult Rminus Ropp]; ring) end.
  rewrite sqrt_1. assert (T : / 10 ^ 12 < 1) by (rewrite <- (Rinv_1); apply Rinv_lt_contravar; [rewrite Rmult_1_l; apply pow_lt; lra|cbn; lra]). lra.
Qed.
Lemma new12 : is_new q1 (current q2) = Some true.
Proof.
  destruct (is_new_spec q1 (current q2)) as (b & E & H); [split; [split; repeat constructor|auto]|apply prop1; auto|].
  rewrite E. destruct b; auto. exfalso. apply not_close12. apply H. auto.
Qed.
Lemma new22 q : q = q1 \/ q = q2 -> is_new q (current q) = Some false.
Proof.
  intros HQ. destruct (is_new_spec q (current q)) as (b & E & H); [split; [apply shape_refl|auto]|apply prop1; destruct HQ as [->| ->]; auto|].
  rewrite E. f_equal. apply H. apply equal_close. reflexivity.
Qed.
Lemma ident0 : identify two 0 [0] = Some 0%nat. Proof. apply identify_spec; [apply two_separated|reflexivity]. Qed.
Lemma ident1 : identify two 0 [1] = Some 1%nat. Proof. apply identify_spec; [apply two_separated|reflexivity]. Qed.

Definition near : list (list R) := [[0]; [/ 10 ^ 8]].
Ltac walk I :=
  repeat progress (cbn [srun sexec bind fst snd scur sample cache sstored cache_state set_at repeat length two near nth_error];
    unfold svalue, sgradient, set_parameter, set_state;
    change (update q1 (current q1)) with (Some q1); change (update q1 (current q2)) with (Some q2);
    rewrite ?ident0, ?ident1, ?new12, ?(new22 q1) by auto; rewrite ?(new22 q2) by auto; I).

(** Both samples evaluated at [q1]; gradients at [q2] for both samples.  The second is
    computed from the forward solution for [q1]: the parameters are new only for the first
    sample.  (Finite-difference Hessian-vector products of ROL ask for gradients in this
    way, with no evaluation at the shifted point.) *)
Theorem C42_second_sample_refuted : exists s' o,
  srun fwd0 None two [SSample [0]; SValue (current q1); SSample [1]; SValue (current q1);
                      SSample [0]; SGradient (current q2); SSample [1]; SGradient (current q2)]
    {| scur := q1; sample := [0]; cache := None; sstored := None |} = Some (s', o) /\
  nth 7 o None = Some (q2, [1], Some (fwd0 q1 [1])) /\ fwd0 q1 [1] <> fwd0 q2 [1].
Proof.
  eexists _, _. split.
  - walk idtac. reflexivity.
  - split; [reflexivity|]. unfold fwd0, q1, q2. intros H. injection H. lra.
Qed.
Print Assumptions C42_second_sample_refuted.

(** A sample that was never evaluated: the adjoint uses a zero solution, or the cache is read
    out of range. *)
Theorem C42_unevaluated_refuted :
  (exists s' o, srun fwd0 None two [SSample [0]; SValue (current q1); SSample [1]; SGradient (current q1)]
    {| scur := q1; sample := [0]; cache := None; sstored := None |} = Some (s', o) /\ nth 3 o None = Some (q1, [1], Some None)) /\
  srun fwd0 None two [SGradient (current q1)] {| scur := q1; sample := [0]; cache := None; sstored := None |} = None.
Proof.
  split.
  - eexists _, _. split.
    + walk idtac. reflexivity.
    + reflexivity.
  - walk idtac. reflexivity.
Qed.
Print Assumptions C42_unevaluated_refuted.

(** Samples (here [near]) closer than 1e-7 share one place: the gradient for the first uses the solution
    of the second. *)
Theorem C42_close_samples_refuted : exists s' o,
  srun fwd0 None near [SSample [0]; SValue (current q1); SSample [/ 10 ^ 8]; SValue (current q1); SSample [0]; SGradient (current q1)]
    {| scur := q1; sample := [0]; cache := None; sstored := None |} = Some (s', o) /\
  nth 5 o None = Some (q1, [0], Some (fwd0 q1 [/ 10 ^ 8])).
Proof.
  assert (I : forall a, a = 0 \/ a = / 10 ^ 8 -> identify near 0 [a] = Some 0%nat).
  { intros a Ha. cbn [identify near]. unfold rltb. destruct (Rlt_dec (dist2 [0] [a]) (/ 10 ^ 14)) as [|N]; auto. exfalso. apply N.
    unfold dist2. cbn [length seq map nth]. unfold rsum. cbn [fold_right]. destruct Ha as [-> | ->].
    - replace ((0 - 0) ^ 2 + 0) with 0 by ring. apply Rinv_0_lt_compat, pow_lt. lra.
    - replace ((0 - / 10 ^ 8) ^ 2 + 0) with (/ 10 ^ 16). + apply Rinv_lt_contravar; [apply Rmult_lt_0_compat; apply pow_lt; lra|apply Rlt_pow; [lra|lia]].
      + replace 16%nat with (8 * 2)%nat by reflexivity. rewrite pow_mult. replace ((0 - / 10 ^ 8) ^ 2) with ((/ 10 ^ 8) ^ 2) by ring. rewrite pow_inv. ring. }
  eexists _, _. split.
  - walk ltac:(rewrite ?(I 0), ?(I (/ 10 ^ 8)) by auto). reflexivity.
  - reflexivity.
Qed.
Print Assumptions C42_close_samples_refuted.

Example C42_hypotheses_met : separated two /\ fits q1 (current q2) /\ proper q1 /\
  in_order two (current q2) [SSample [0]; SValue (current q2); SSample [1]; SValue (current q2); SGradient (current q2); SSample [0]; SGradient (current q2)] 0 [].
Proof.
  split; [apply two_separated|]. split; [split; [split; repeat constructor|auto]|]. split; [apply prop1; auto|].
  cbn [in_order]. exists 0%nat. split; [reflexivity|]. split; [reflexivity|]. exists 1%nat. split; [reflexivity|]. split; [reflexivity|].
  split; [reflexivity|]. split; [left; reflexivity|]. exists 0%nat. split; [reflexivity|]. split; [reflexivity|]. split; [right; left; reflexivity|exact I].
Qed.
