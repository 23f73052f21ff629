(** C248, C249 (electromagnetic waves with a control), C250-C252 (bianisotropic media). *)
From Coq Require Import Bool Arith Lia Reals Lra Ascii String List.
From Verif Require Import Sparse_Model Sparse_Props Mass_Model Mass_Props BProj_Model BProj_Proofs Phys_Model Phys_Spec Phys_Proofs Phys_Tac Maxwell_Model Maxwell_Props Maxwell2_Model.
Import ListNotations.
Local Open Scope R_scope.

(** *** C248: the control is a magnetization M *)
Definition control (w : wks) (d k : nat) : R := fn w ("control current " ++ axis d)%string k.
Definition ampere_m (w : wks) (d k : nat) : R := control w d k - Bf w d k / fn w "mu" k.
Lemma mc_rows s stage W : em W -> permits (vw W) -> include_E s = true -> include_B s = true ->
  forall n i, (i < nbas (vw W) (usebasis (vw W) n))%nat ->
  (is_var (vw W) n "B" -> residual (mc_volume s stage W) (offs (vw W) n i) =
     bweak W (usebasis (vw W) n) i (fun d k => Bt (vw W) d k + if (useLeapFrog s && negb (stage =? 0)%nat)%bool then 0 else curlE (vw W) d k)) /\
  (is_var (vw W) n "E" -> residual (mc_volume s stage W) (offs (vw W) n i) =
     if (useLeapFrog s && negb (stage =? 1)%nat)%bool then 0 else
     vweak W (usebasis (vw W) n) i (fun d k => scale (vw W) k * ampere_a (vw W) d k) (fun d k => scale (vw W) k * ampere_m (vw W) d k)) /\
  (forall v, is_var (vw W) n v -> v <> "E"%string -> v <> "B"%string -> residual (mc_volume s stage W) (offs (vw W) n i) = 0).
Proof.
  intros EM P IE IB n i Hi. pose proof EM as (Wf & _ & VE & VB). destruct (nth_var _ _ VE) as [e He]. destruct (nth_var _ _ VB) as [b Hb].
  unfold mc_volume. rewrite IE, IB. unfold mx_B, mc_E. rewrite (var_num_is _ e _ 0 Wf He), (var_num_is _ b _ 0 Wf Hb). cbv zeta.
  rewrite residual_at, at_row_app.
  assert (forall x y : list (nat * R), (if (negb (useLeapFrog s) || (stage =? 1)%nat)%bool then x else y) = if (useLeapFrog s && negb (stage =? 1)%nat)%bool then y else x) as X1
    by (intros; destruct (useLeapFrog s), (stage =? 1)%nat; reflexivity).
  assert (forall x y : R, (if (negb (useLeapFrog s) || (stage =? 0)%nat)%bool then x else y) = if (useLeapFrog s && negb (stage =? 0)%nat)%bool then y else x) as X0
    by (intros; destruct (useLeapFrog s), (stage =? 0)%nat; reflexivity).
  rewrite X1. set (c1 := (useLeapFrog s && negb (stage =? 1)%nat)%bool).
  split; [| split].
  - intros Hn. pose proof (is_var_uniq _ n b _ Wf Hn Hb); subst n.
    destruct (em_dims W EM) as [D | D]; rewrite D; cbn [Nat.eqb]; rewrite at_row_if, at_row_nil; rows Wf Hi;
      (destruct c1; rewrite ?Rplus_0_r; unfold bweak, integral; apply sm_ext; intros k _;
       rewrite ?(sumr_2 _ _ D), ?(sumr_3 _ _ D); vnames; rewrite ?D; cbn [Nat.eqb append]; rewrite ?X0; ring).
  - intros Hn. pose proof (is_var_uniq _ n e _ Wf Hn He); subst n.
    destruct (em_dims W EM) as [D | D]; rewrite D; cbn [Nat.eqb]; rewrite at_row_if, at_row_nil; rows Wf Hi;
      (destruct c1; [reflexivity |]; unfold vweak, integral; apply sm_ext; intros k K; apply in_seq in K; destruct (P k ltac:(lia)) as [P1 P2];
       rewrite ?(sumr_2 _ _ D), ?(sumr_3 _ _ D), ?(sumd_2 _ _ D), ?(sumd_3 _ _ D); unfold ampere_a, ampere_m, control, scale; vnames; rewrite ?D; cbn [Nat.eqb append];
       field; auto).
  - intros v Hn NE NB. assert (n <> e) by (intros ->; apply NE, (is_var_inj _ _ _ _ Hn He)). assert (n <> b) by (intros ->; apply NB, (is_var_inj _ _ _ _ Hn Hb)).
    destruct (em_dims W EM) as [D | D]; rewrite D; cbn [Nat.eqb]; rewrite at_row_if, at_row_nil; rows Wf Hi; destruct c1; ring.
Qed.
(** eps n^2 E_t + sigma E + J - curl (B / mu - M) = 0, for a uniform permittivity; and nothing
    outside the rows of E and B. *)
Theorem C248_control W eps stage : em W -> permits (vw W) ->
  (dim (vw W) = 3%nat -> eps <> 0 /\ uniform (vw W) "epsilon" eps) ->
  (forall n i, is_var (vw W) n "E" -> (i < nbas (vw W) (usebasis (vw W) n))%nat ->
     (if (dim (vw W) =? 2)%nat then 1 else eps) * residual (mc_volume full stage W) (offs (vw W) n i) =
     vweak W (usebasis (vw W) n) i (ampere_a (vw W)) (ampere_m (vw W))) /\
  (forall n i, is_var (vw W) n "B" -> (i < nbas (vw W) (usebasis (vw W) n))%nat ->
     residual (mc_volume full stage W) (offs (vw W) n i) = bweak W (usebasis (vw W) n) i (fun d k => Bt (vw W) d k + curlE (vw W) d k)) /\
  only_rows (vw W) (residual (mc_volume full stage W)) ["E"; "B"]%string.
Proof.
  intros EM P U. split; [| split].
  - intros n i N I. destruct (mc_rows full stage W EM P eq_refl eq_refl n i I) as [_ [H _]]. rewrite (H N). cbn [useLeapFrog full mx_new andb].
    unfold vweak. rewrite <- integral_scal. apply integral_ext. intros k K. unfold scale, sumr.
    destruct (em_dims W EM) as [D | D]; rewrite D; cbn [Nat.eqb].
    + rewrite Rmult_1_l. f_equal; apply sm_ext; intros; ring.
    + destruct (U D) as [U1 U2]. rewrite (U2 k K), Rmult_plus_distr_l, <- sumd_scal, <- sm_scal. f_equal; apply sm_ext; intros; field; exact U1.
  - intros n i N I. destruct (mc_rows full stage W EM P eq_refl eq_refl n i I) as [H _]. rewrite (H N). reflexivity.
  - intros n v i N V I. destruct (mc_rows full stage W EM P eq_refl eq_refl n i I) as [_ [_ H]]. apply (H v N); intros ->; apply V; cbn; auto.
Qed.
Print Assumptions C248_control.
(** Leap frog as without a control. *)
Theorem C248_leapfrog W n i : em W -> permits (vw W) -> (i < nbas (vw W) (usebasis (vw W) n))%nat ->
  (is_var (vw W) n "B" ->
     residual (mc_volume leap 0 W) (offs (vw W) n i) = residual (mc_volume full 0 W) (offs (vw W) n i) /\
     residual (mc_volume leap 1 W) (offs (vw W) n i) = bweak W (usebasis (vw W) n) i (Bt (vw W))) /\
  (is_var (vw W) n "E" ->
     residual (mc_volume leap 0 W) (offs (vw W) n i) = 0 /\
     residual (mc_volume leap 1 W) (offs (vw W) n i) = residual (mc_volume full 1 W) (offs (vw W) n i)).
Proof.
  intros EM P I. pose proof (fun s st => mc_rows s st W EM P) as H. split; intros N; split.
  - destruct (H leap 0%nat eq_refl eq_refl n i I) as [A _]. destruct (H full 0%nat eq_refl eq_refl n i I) as [B _]. rewrite (A N), (B N). reflexivity.
  - destruct (H leap 1%nat eq_refl eq_refl n i I) as [A _]. rewrite (A N). apply integral_ext. intros k K. apply sm_ext. intros d _. cbn. ring.
  - destruct (H leap 0%nat eq_refl eq_refl n i I) as [_ [A _]]. rewrite (A N). reflexivity.
  - destruct (H leap 1%nat eq_refl eq_refl n i I) as [_ [A _]]. destruct (H full 1%nat eq_refl eq_refl n i I) as [_ [B _]]. rewrite (A N), (B N). reflexivity.
Qed.
Print Assumptions C248_leapfrog.

(** *** C249: absorbing sides of the control problem take energy out *)
Definition absorbs (W : vwks) (z : R) : Prop := forall e b ce, is_var (vw W) e "E" -> is_var (vw W) b "B" -> bcs (vw W) b = "Neumann"%string ->
  (forall k, (k < npts (vw W))%nat -> forall d, (d < dim (vw W))%nat ->
     Ef (vw W) d k = sm (seq 0 (nbas (vw W) (usebasis (vw W) e))) (fun i => ce i * vbas W (usebasis (vw W) e) i k d)) ->
  tested (vw W) (residual (mc_boundary W)) e ce =
  z * integral (vw W) (fun k => sumd (vw W) (fun d => (Ef (vw W) d k - En (vw W) k * normal (vw W) d k) * (Ef (vw W) d k - En (vw W) k * normal (vw W) d k))).
Theorem C249_absorbing_partial W : em W -> dim (vw W) = 3%nat -> unit_normal (vw W) ->
  absorbs W (56 / 10000) /\
  (forall b, is_var (vw W) b "B" -> bcs (vw W) b <> "Neumann"%string -> mc_boundary W = []) /\
  only_rows (vw W) (residual (mc_boundary W)) ["E"%string].
Proof.
  intros EM D U. pose proof EM as (Wf & _ & VE & VB). destruct (nth_var _ _ VB) as [b Hb]. destruct (nth_var _ _ VE) as [e He].
  unfold absorbs, mc_boundary. rewrite (var_num_is _ b _ 0 Wf Hb), (var_num_is _ e _ 0 Wf He), D. cbn [Nat.eqb]. cbv zeta.
  split; [| split].
  - intros n m ce Hn Hm N X. pose proof (is_var_uniq _ n e _ Wf Hn He). pose proof (is_var_uniq _ m b _ Wf Hm Hb). subst n m.
    rewrite N, String.eqb_refl.
    rewrite (tested_v W e ce (Ef (vw W)) (fun d k => sm (seq 0 (nbas (vw W) (usebasis (vw W) e))) (fun i => ce i * vcurl W (usebasis (vw W) e) i k d))
      (fun d k => 56 / 10000 * (Ef (vw W) d k - En (vw W) k * normal (vw W) d k)) (fun _ _ => 0)).
    + rewrite <- integral_scal. apply integral_ext. intros k K. unfold En. rewrite ?(sumr_3 _ _ D). pose proof (U k K) as Uk. rewrite !(sumd_3 _ _ D) in *.
      set (nx := normal (vw W) 0 k) in *. set (ny := normal (vw W) 1 k) in *. set (nz := normal (vw W) 2 k) in *.
      assert (nx * nx = 1 - ny * ny - nz * nz) as S by lra. field [S].
    + intros k K. split; intros d Hd; [apply X; [exact K | lia] | reflexivity].
    + intros i Hi. rewrite residual_at. rows Wf Hi. unfold vweak, integral. apply sm_ext. intros k K. apply in_seq in K. pose proof (U k ltac:(lia)) as Uk.
      unfold En. rewrite (sumr_3 _ _ D). rewrite !(sumd_3 _ _ D) in *. unfold normal, Ef, bracket, axis in *. cbn [append] in *.
      set (nx := fld (vw W) "n[x]" k) in *. set (ny := fld (vw W) "n[y]" k) in *. set (nz := fld (vw W) "n[z]" k) in *.
      assert (nx * nx = 1 - ny * ny - nz * nz) as S by lra. field [S].
  - intros n Hn N. pose proof (is_var_uniq _ n b _ Wf Hn Hb); subst n. destruct (String.eqb_spec (bcs (vw W) b) "Neumann"); [contradiction | reflexivity].
  - intros n v i Hn Nv Hi. assert (n <> e) by (intros ->; apply Nv; left; symmetry; apply (is_var_inj _ _ _ _ Hn He)).
    rewrite residual_at. destruct (String.eqb _ _); [| reflexivity]. rows Wf Hi. reflexivity.
Qed.
Print Assumptions C249_absorbing_partial.
(** In two dimensions they do nothing. *)
Theorem C249_absorbing_refuted : exists W, em W /\ dim (vw W) = 2%nat /\ unit_normal (vw W) /\ forall z, absorbs W z -> z = 0.
Proof.
  set (W := block 2 (fun s _ => if String.eqb s "n[x]" then 1 else if String.eqb s "E[y]" then 1 else if String.eqb s "E[x]" then 1 else 0) (fun _ _ => 1) "Neumann" unit unit).
  assert (em W) as EM by (apply block_em; auto). exists W. split; [exact EM |]. split; [reflexivity |]. split.
  - intros k _. unfold sumd, normal, sm, rsum. cbn. lra.
  - intros z H. specialize (H 0%nat 1%nat (fun _ => 1) eq_refl eq_refl eq_refl).
    change (mc_boundary W) with (@nil (nat * R)) in H.
    unfold tested in H. rewrite sm_zero in H by (intros; unfold residual; cbn; ring).
    unfold integral, sumd, En, normal, Ef, sm, rsum in H. cbn in H. unfold sm, rsum in H. cbn in H. 
    unfold unit in H. assert (z * 2 = 0).
    { rewrite H; [lra |]. intros k K d Hd. cbn. destruct k as [| [| k]]; try lia; destruct d as [| [| d]]; try lia; cbn; lra. }
    lra.
Qed.
Print Assumptions C249_absorbing_refuted.

(** *** C250: bianisotropic media, 1/c B_t + curl E = 0 with c = 1 / sqrt (mu0 eps0) *)
Definition vac (w : wks) (k : nat) : R := sqrt (fn w "mu0" k * fn w "epsilon0" k).
Definition positive (w : wks) : Prop := forall k, (k < npts w)%nat -> 0 < fn w "mu0" k * fn w "epsilon0" k.
Definition knows (reg names : list string) : Prop := forall n, In n names -> In n reg.
Lemma found_spec reg names : found reg names = true <-> knows reg names.
Proof.
  unfold found, knows. rewrite forallb_forall. split; intros H n I.
  - specialize (H n I). apply existsb_exists in H. destruct H as (m & M & E). apply String.eqb_eq in E. congruence.
  - apply existsb_exists. exists n. split; [apply H, I | apply String.eqb_refl].
Qed.
Lemma slow x : 0 < x -> 1 / (1 / sqrt x) = sqrt x.
Proof. intros H. pose proof (sqrt_lt_R0 x H). field. lra. Qed.
Theorem C250_faraday reg W lf stage r : em W -> dim (vw W) = 3%nat -> positive (vw W) ->
  bi_volume reg (mx_new (Some "B"%string) lf) stage W = Some r ->
  (forall n i, is_var (vw W) n "B" -> (i < nbas (vw W) (usebasis (vw W) n))%nat ->
     residual r (offs (vw W) n i) =
     bweak W (usebasis (vw W) n) i (fun d k => vac (vw W) k * Bt (vw W) d k + (if (lf && negb (stage =? 0)%nat)%bool then 0 else curlE (vw W) d k))) /\
  only_rows (vw W) (residual r) ["B"%string].
Proof.
  intros EM D P H. pose proof EM as (Wf & _ & _ & VB). destruct (nth_var _ _ VB) as [b Hb].
  unfold bi_volume in H. cbn [mx_new include_B include_E has_char Ascii.eqb Bool.eqb orb] in H. cbn in H.
  destruct (_ && _)%bool in H; [| discriminate]. injection H as <-. rewrite app_nil_r.
  unfold bi_B. rewrite (var_num_is _ b _ 0 Wf Hb). cbv zeta. split.
  - intros n i Hn Hi. pose proof (is_var_uniq _ n b _ Wf Hn Hb); subst n. rewrite residual_at. rows Wf Hi.
    unfold bweak, integral. apply sm_ext. intros k K. apply in_seq in K. rewrite (sumr_3 _ _ D). vnames. rewrite D. cbn [Nat.eqb append useLeapFrog mx_new].
    rewrite slow by (apply P; lia). unfold vac.
    destruct lf, (stage =? 0)%nat; cbn [negb orb andb]; ring.
  - intros n v i Hn Nv Hi. assert (n <> b) by (intros ->; apply Nv; left; symmetry; apply (is_var_inj _ _ _ _ Hn Hb)).
    rewrite residual_at. rows Wf Hi. reflexivity.
Qed.
Print Assumptions C250_faraday.
(** It can be assembled with the functions of the module. *)
Example C250_runs lf stage W : exists r, bi_volume bi_defined (mx_new (Some "B"%string) lf) stage W = Some r.
Proof. eexists. reflexivity. Qed.

(** *** C251: the media are those given *)
Definition tensor (w : wks) (n : string) (a b k : nat) : R := fn w (n ++ "_" ++ axis a ++ axis b)%string k.
Definition apply (w : wks) (n : string) (v : nat -> nat -> R) (d k : nat) : R := sumd w (fun j => tensor w n d j k * v j k).
(** (eps - xi mu^-1 zeta) E_t / c + xi mu^-1 B_t / c + eta0 (sigma E + J) *)
Definition bi_a (w : wks) (d k : nat) : R :=
  vac w k * (apply w "epsr" (Et w) d k - apply w "xir" (apply w "invmur" (apply w "zetar" (Et w))) d k + apply w "xir" (apply w "invmur" (Bt w)) d k)
  + fn w "eta0" k * (apply w "sigma" (Ef w) d k + current w d k).
(** mu^-1 (zeta E - B) *)
Definition bi_c (w : wks) (d k : nat) : R := apply w "invmur" (fun j k => apply w "zetar" (Ef w) j k - Bf w j k) d k.
Definition media (reg : list string) (W : vwks) : Prop := exists r, bi_volume reg (mx_new (Some "E"%string) false) 0 W = Some r /\
  (forall n i, is_var (vw W) n "E" -> (i < nbas (vw W) (usebasis (vw W) n))%nat ->
     residual r (offs (vw W) n i) = vweak W (usebasis (vw W) n) i (bi_a (vw W)) (bi_c (vw W))) /\
  only_rows (vw W) (residual r) ["E"%string].
Definition C251_media : Prop := forall reg W, em W -> dim (vw W) = 3%nat -> positive (vw W) -> knows reg bi_defined -> media reg W.

(** Where functions of the names asked for exist and have the values of those meant. *)
Definition agrees (w : wks) : Prop := forall k, (k < npts w)%nat -> forall a b, (a < 3)%nat -> (b < 3)%nat ->
  tensor w "invepsr" a b k = tensor w "epsr" a b k /\ tensor w "mur" a b k = tensor w "invmur" a b k /\
  tensor w "epsr" 2 1 k = tensor w "epsr" 1 2 k /\ tensor w "xir" 1 0 k = tensor w "xir" 1 2 k /\ tensor w "zetar" 1 0 k = tensor w "zetar" 1 2 k.
Theorem C251_media_partial reg W : em W -> dim (vw W) = 3%nat -> positive (vw W) ->
  knows reg (bi_defined ++ nine "invepsr" ++ nine "mur") -> agrees (vw W) -> media reg W.
Proof.
  intros EM D P K A. pose proof EM as (Wf & _ & VE & _). destruct (nth_var _ _ VE) as [e He].
  assert (F : found reg bi_read = true).
  { apply found_spec. intros n I. apply K. revert n I. apply found_spec. vm_compute. reflexivity. }
  unfold media, bi_volume. cbn [mx_new include_B include_E].
  replace (has_char "B"%char "E") with false by reflexivity. replace (has_char "E"%char "E") with true by reflexivity. rewrite F.
  eexists. split; [reflexivity |]. cbn [app].
  unfold bi_E. rewrite (var_num_is _ e _ 0 Wf He). cbn [useLeapFrog mx_new negb orb]. cbv zeta. split.
  - intros n i Hn Hi. pose proof (is_var_uniq _ n e _ Wf Hn He); subst n. rewrite residual_at. rows Wf Hi.
    unfold vweak, integral. apply sm_ext. intros k Kk. apply in_seq in Kk.
    assert (Ak := A k ltac:(lia)).
    rewrite (sumr_3 _ _ D), (sumd_3 _ _ D). unfold mat3, epsr_read, invmur_read, xir_read, zetar_read, sigma_read. cbn [nth].
    unfold bi_a, bi_c, apply. rewrite !(sumd_3 _ _ D). 
    pose proof (Ak 0 0 ltac:(lia) ltac:(lia))%nat as A00. pose proof (Ak 0 1 ltac:(lia) ltac:(lia))%nat as A01. pose proof (Ak 0 2 ltac:(lia) ltac:(lia))%nat as A02.
    pose proof (Ak 1 0 ltac:(lia) ltac:(lia))%nat as A10. pose proof (Ak 1 1 ltac:(lia) ltac:(lia))%nat as A11. pose proof (Ak 1 2 ltac:(lia) ltac:(lia))%nat as A12.
    pose proof (Ak 2 0 ltac:(lia) ltac:(lia))%nat as A20. pose proof (Ak 2 1 ltac:(lia) ltac:(lia))%nat as A21. pose proof (Ak 2 2 ltac:(lia) ltac:(lia))%nat as A22.
    clear Ak. unfold tensor, axis in *. cbn [append] in *.
    destruct A00 as (E00 & M00 & EZ & XI & ZE), A01 as (E01 & M01 & _), A02 as (E02 & M02 & _), A10 as (E10 & M10 & _), A11 as (E11 & M11 & _),
      A12 as (E12 & M12 & _), A20 as (E20 & M20 & _), A21 as (E21 & M21 & _), A22 as (E22 & M22 & _).
    rewrite E00, E01, E02, E10, E11, E12, E20, E22, M00, M01, M02, M10, M11, M12, M20, M21, M22, EZ, XI, ZE.
    rewrite slow by (rewrite Rmult_comm; apply P; lia). unfold vac. rewrite (Rmult_comm (fn (vw W) "epsilon0" k)).
    vnames. rewrite D. cbn [Nat.eqb append]. ring.
  - intros n v i Hn Nv Hi. assert (n <> e) by (intros ->; apply Nv; left; symmetry; apply (is_var_inj _ _ _ _ Hn He)).
    rewrite residual_at. rows Wf Hi. reflexivity.
Qed.
Print Assumptions C251_media_partial.

(** With the functions of the module alone there is no equation for E at all. *)
Theorem C251_missing s stage W : include_E s = true -> bi_volume bi_defined s stage W = None.
Proof.
  intros E. unfold bi_volume. rewrite E. replace (found bi_defined bi_read) with false by (vm_compute; reflexivity).
  destruct (include_B s); [destruct (found _ _) |]; reflexivity.
Qed.
Print Assumptions C251_missing.
Definition plain : vwks := block 3 (fun _ _ => 0) (fun _ _ => 1) "none" unit unit.
Theorem C251_media_refuted : ~ C251_media.
Proof.
  intros H. destruct (H bi_defined plain) as (r & R & _).
  - apply block_em; auto.
  - reflexivity.
  - intros k _. cbn. lra.
  - intros n I. exact I.
  - rewrite C251_missing in R by reflexivity. discriminate.
Qed.
Print Assumptions C251_media_refuted.
Example C251_case : em plain /\ positive (vw plain) /\ agrees (vw plain) /\ media (bi_defined ++ nine "invepsr" ++ nine "mur") plain.
Proof.
  assert (em plain) by (apply block_em; auto). assert (positive (vw plain)) by (intros k _; cbn; lra).
  assert (agrees (vw plain)) by (intros k _ a b _ _; repeat split).
  split; [assumption |]. split; [assumption |]. split; [assumption |]. apply C251_media_partial; auto. intros n I; exact I.
Qed.

(** *** C252: absorbing sides *)
Theorem C252_absorbing W : em W -> dim (vw W) = 3%nat -> unit_normal (vw W) ->
  (forall n i, is_var (vw W) n "B" -> (i < nbas (vw W) (usebasis (vw W) n))%nat ->
    residual (bi_boundary full W) (offs (vw W) n i) =
    if String.eqb (bcs (vw W) n) "Neumann" then 56 / 10000 * bweak W (usebasis (vw W) n) i (tangential (vw W)) else 0) /\
  only_rows (vw W) (residual (bi_boundary full W)) ["B"%string].
Proof.
  intros EM D U. destruct (C93_absorbing_partial W EM D U) as (A & B & C).
  replace (bi_boundary full W) with (mx_boundary full W) by (unfold bi_boundary, mx_boundary; rewrite D; reflexivity).
  split; [| exact C]. intros n i Hn Hi. destruct (String.eqb_spec (bcs (vw W) n) "Neumann") as [E | E]; [apply (A n i Hn E Hi) |].
  rewrite (B n Hn E). reflexivity.
Qed.
Print Assumptions C252_absorbing.
