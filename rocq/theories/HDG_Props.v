(** Hybridized shallow water: C116-C120. *)
From Coq Require Import Bool Arith Lia Reals Lra List String.
From Coquelicot Require Import Coquelicot.
From Verif Require Import Sparse_Model Sparse_Props Mass_Model BProj_Model BProj_Proofs Phys_Model Phys_Spec Phys_Proofs Phys_Tac
  HDG_Model HDG_Spec HDG_Proofs HDG_Eig.
Import ListNotations.
Local Open Scope R_scope.

(** loops over all equations *)
Lemma fill_all w m f n i : wf w -> (m <= List.length (varlist w))%nat -> (n < m)%nat -> (i < nbas w (usebasis w n))%nat ->
  at_row (offs w n i) (flat_map (fun e => fill w e e (f e)) (seq 0 m)) = sm (seq 0 (npts w)) (fun k => f n k i).
Proof.
  intros W M N I. unfold at_row. rewrite sm_flat.
  rewrite (sm_ext _ _ (fun e => if (e =? n)%nat then sm (seq 0 (npts w)) (fun k => f e k i) else 0)).
  - apply (sm_single m n (fun e => sm (seq 0 (npts w)) (fun k => f e k i)) N).
  - intros e E. apply in_seq in E. destruct (Nat.eqb_spec e n) as [-> | NE].
    + apply (fill_own w n (f n) n i W); [lia | exact I | reflexivity].
    + apply (fill_other w e (f e) n e i W); [lia | lia | exact I | congruence | reflexivity].
Qed.

(** The module alone in its block: the unknowns in the order the module lists them. *)
Definition sw_ready (W : wks) : Prop := wf W /\ (dim W = 1 \/ dim W = 2)%nat /\ varlist W = sw_names (dim W).
Theorem C116_order d : (d = 1 \/ d = 2)%nat -> sw_myvars d = sw_names d.
Proof. intros [-> | ->]; reflexivity. Qed.

Lemma H_0 W : sw_ready W -> H_num W = 0%nat.
Proof. intros [_ [[D | D] V]]; unfold H_num, var_num; rewrite V, D; reflexivity. Qed.
Lemma Hux_1 W : sw_ready W -> Hux_num W = 1%nat.
Proof. intros [_ [[D | D] V]]; unfold Hux_num, var_num; rewrite V, D; reflexivity. Qed.
Lemma Huy_2 W : sw_ready W -> dim W = 2%nat -> Huy_num W = 2%nat.
Proof. intros [_ [_ V]] D; unfold Huy_num, var_num; rewrite V, D; reflexivity. Qed.
Lemma sw_len W : sw_ready W -> List.length (varlist W) = (dim W + 1)%nat.
Proof. intros [_ [[D | D] V]]; rewrite V, D; reflexivity. Qed.
Lemma sw_pos W i n : sw_ready W -> (i <= dim W)%nat -> is_var W n (nth i (sw_names (dim W)) ""%string) -> n = i.
Proof.
  intros [A [B V]] I H. apply (is_var_uniq W n i _ A H). unfold is_var. rewrite V.
  destruct B as [D | D]; rewrite D in *; destruct i as [| [| [| i]]]; try lia; reflexivity.
Qed.

Lemma sw_fluxes_spec p W s k i e : sw_ready W -> (i <= dim W)%nat -> (e < dim W)%nat ->
  sw_fluxes p W s k i e = sw_F (grav p) (state (sw_names (dim W)) W (if s then "aux " else "")%string k) i e.
Proof.
  intros A I E. pose proof (H_0 W A) as N0. pose proof (Hux_1 W A) as N1. pose proof (Huy_2 W A) as N2.
  destruct A as [A [[D | D] V]]; unfold sw_fluxes; rewrite N0, N1, ?N2 by exact D; rewrite D in *.
  - destruct e; [| lia]. destruct i as [| [| i]]; [| | lia]; destruct s;
      unfold sw_F, state, sf, delta, assign, ofv, sw_names; cbn [fold_left fst snd Nat.eqb nth firstn Nat.add append]; unfold Rdiv; ring.
  - destruct e as [| [| e]]; [| | lia]; destruct i as [| [| [| i]]]; try lia; destruct s;
      unfold sw_F, state, sf, delta, assign, ofv, sw_names; cbn [fold_left fst snd Nat.eqb nth firstn Nat.add append]; unfold Rdiv; ring.
Qed.

(** ** C116 *)
Theorem C116_volume p W i : sw_ready W -> (i <= dim W)%nat ->
  let v := nth i (sw_names (dim W)) ""%string in
  equation W (residual (sw_volume p W)) v
    (fun k => fld W (v ++ "_t")%string k - fn W ("source " ++ v)%string k)
    (fun e k => - sw_F (grav p) (state (sw_names (dim W)) W "" k) i e).
Proof.
  intros A I v n j Hn Hj. rewrite residual_at. pose proof (sw_pos W i n A I Hn) as ->.
  unfold weak, integral. pose proof (fun k e => sw_fluxes_spec p W false k i e A I) as FX. cbn beta iota in FX.
  pose proof (sw_len W A) as LN. pose proof A as [A1 [[D | D] V]].
  - unfold sw_volume. rewrite D. rewrite D in FX. cbv iota.
    rewrite (fill_all W _ (fun iEqn pt dof => _) i j A1); [| lia | lia | exact Hj].
    apply sm_ext. intros k _. rewrite (sumd_1 W _ D), FX by lia.
    subst v. rewrite V, D in *. destruct i as [| [| i]]; [| | lia]; cbn [nth sw_names firstn Nat.add app append]; ring.
  - unfold sw_volume. rewrite D. rewrite D in FX. cbv iota.
    rewrite (fill_all W _ (fun iEqn pt dof => _) i j A1); [| lia | lia | exact Hj].
    apply sm_ext. intros k _. rewrite (sumd_2 W _ D), !FX by lia.
    subst v. rewrite V, D in *. destruct i as [| [| [| i]]]; [| | | lia]; cbn [nth sw_names firstn Nat.add app append]; ring.
Qed.
Print Assumptions C116_volume.

Definition sw_S (W : wks) (k : nat) := state (sw_names (dim W)) W "" k.
Definition sw_trace (W : wks) (k : nat) := state (sw_names (dim W)) W "aux " k.
Definition sw_far (W : wks) (k : nat) := farstate (sw_names (dim W)) W k.
Definition sw_G (p : swp) (W : wks) (k : nat) := normal_flux (dim W) (sw_F (grav p)) (nrm W k).

Lemma sw_numerical_spec p W k i : sw_ready W -> (i <= dim W)%nat ->
  sw_numerical p W k i = sw_G p W k (sw_trace W k) i + sw_stab p W k i.
Proof.
  intros A I. pose proof (fun e => sw_fluxes_spec p W true k i e A I) as FX. cbn beta iota in FX.
  unfold sw_numerical, sw_G, normal_flux, sw_trace. pose proof A as [_ [[D | D] _]]; rewrite D in *; cbv iota.
  - rewrite FX by lia. cbn [seq]. unfold sm. cbn [map rsum fold_right]. unfold nrm, normal, nx. cbn. ring.
  - rewrite !FX by lia. cbn [seq]. unfold sm. cbn [map rsum fold_right]. unfold nrm, normal, nx, ny. cbn. ring.
Qed.
Lemma sw_interface p W k i : sw_computeFlux p (interior W) k i = Some (sw_numerical p W k i).
Proof. reflexivity. Qed.
Lemma sw_dS_spec W a b c k i : sw_ready W -> (i <= dim W)%nat ->
  sw_dS W a b c k i = nth i [a; b; c] 0 - sw_trace W k i.
Proof.
  intros A I. pose proof (H_0 W A) as N0. pose proof (Hux_1 W A) as N1. pose proof (Huy_2 W A) as N2.
  unfold sw_dS, sw_trace. pose proof A as [_ [[D | D] _]]; rewrite N0, N1, ?N2 by exact D; rewrite D in *.
  - destruct i as [| [| i]]; [| | lia]; reflexivity.
  - destruct i as [| [| [| i]]]; [| | | lia]; reflexivity.
Qed.
Lemma sw_jump_spec W k i : sw_ready W -> (i <= dim W)%nat -> sw_jump W k i = minus (sw_S W k) (sw_trace W k) i.
Proof.
  intros A I. unfold sw_jump, minus. rewrite sw_dS_spec by assumption. f_equal. unfold sw_S, state.
  pose proof A as [_ [[D | D] _]]; rewrite D in *.
  - destruct i as [| [| i]]; [| | lia]; reflexivity.
  - destruct i as [| [| [| i]]]; [| | | lia]; reflexivity.
Qed.
Lemma sw_jumpinf_spec W k i : sw_ready W -> (i <= dim W)%nat ->
  sw_dS W (fn W ("Far-field " ++ "H" ++ " " ++ sidename W)%string k) (fn W ("Far-field " ++ "Hux" ++ " " ++ sidename W)%string k)
    (fn W ("Far-field " ++ "Huy" ++ " " ++ sidename W)%string k) k i = minus (sw_far W k) (sw_trace W k) i.
Proof.
  intros A I. unfold minus. rewrite sw_dS_spec by assumption. f_equal. unfold sw_far, farstate.
  pose proof A as [_ [[D | D] _]]; rewrite D in *.
  - destruct i as [| [| i]]; [| | lia]; reflexivity.
  - destruct i as [| [| [| i]]]; [| | | lia]; reflexivity.
Qed.

(** The element's side integral is that of the flux the skeleton is given on interfaces. *)
Theorem C116_boundary p W i phi : sw_ready W -> (i <= dim W)%nat ->
  (forall k, (k < npts W)%nat -> sw_computeFlux p (interior W) k i = Some (phi k)) ->
  equation W (residual (sw_boundary p W)) (nth i (sw_names (dim W)) ""%string) phi (fun _ _ => 0).
Proof.
  intros A I HP n j Hn Hj. rewrite residual_at. pose proof (sw_pos W i n A I Hn) as ->.
  unfold weak, integral. pose proof (sw_len W A) as LN. pose proof A as [A1 [DD V]].
  assert (sw_boundary p W = flat_map (fun e => fill W e e (fun pt dof => sw_numerical p W pt e * wt W pt * bas W (usebasis W e) dof pt)) (seq 0 (List.length (varlist W)))) as ->.
  { unfold sw_boundary. destruct DD as [D | D]; rewrite D; reflexivity. }
  rewrite (fill_all W _ (fun e pt dof => sw_numerical p W pt e * wt W pt * bas W (usebasis W e) dof pt) i j A1); [| lia | lia | exact Hj].
  apply sm_ext. intros k K. apply in_seq in K. rewrite sumd_zero by (intros; ring).
  assert (sw_numerical p W k i = phi k) as ->; [| ring].
  assert (k < npts W)%nat as K' by lia. specialize (HP k K'). rewrite sw_interface in HP. congruence.
Qed.
Print Assumptions C116_boundary.

(** Where the traces agree with the element's state, the flux is the physical one. *)
Theorem C116_consistent p W k : sw_ready W ->
  (forall i, (i <= dim W)%nat -> sw_S W k i = sw_trace W k i) ->
  forall i, (i <= dim W)%nat -> sw_computeFlux p (interior W) k i = Some (sw_G p W k (sw_S W k) i).
Proof.
  intros A E i I. rewrite sw_interface, sw_numerical_spec by assumption. f_equal.
  assert (forall j, (j <= dim W)%nat -> sw_jump W k j = 0) as Z.
  { intros j Hj. rewrite sw_jump_spec by assumption. unfold minus. rewrite E by exact Hj. ring. }
  assert (forall i, sw_stab p W k i = 0 \/ (dim W < i)%nat) as SZ.
  { intros j. destruct (le_lt_dec j (dim W)) as [Hj | Hj]; [left | right; exact Hj].
    unfold sw_stab. destruct (swroe p).
    - destruct (sw_eig p W k) as [[L lam] X]. unfold roe_term, matVec. rewrite (sw_len W A).
      apply sm_zero. intros m M. cut (sm (seq 0 (dim W + 1)) (fun j0 => L m j0 * sw_jump W k j0) = 0); [intros ->; ring |].
      apply sm_zero. intros q Q. apply in_seq in Q. rewrite Z by lia. ring.
    - unfold maxev_term. rewrite Z by exact Hj. ring. }
  destruct (SZ i) as [-> |]; [| lia]. rewrite Rplus_0_r. unfold sw_G, normal_flux. apply sm_ext. intros e He. apply in_seq in He.
  f_equal. unfold sw_F. destruct i as [| c]; rewrite ?E by lia; reflexivity.
Qed.
Print Assumptions C116_consistent.

(** Summed over an element, only sources and the flux through its sides change the totals. *)
Theorem C116_conservation p W B i phi : sw_ready W -> sw_ready B -> (i <= dim W)%nat -> (i <= dim B)%nat ->
  unity W (usebasis W i) -> unity B (usebasis B i) ->
  (forall k, (k < npts B)%nat -> sw_computeFlux p (interior B) k i = Some (phi k)) ->
  let v := nth i (sw_names (dim W)) ""%string in
  total W (residual (sw_volume p W)) i = integral W (fun k => fld W (v ++ "_t")%string k - fn W ("source " ++ v)%string k) /\
  total B (residual (sw_boundary p B)) i = integral B phi.
Proof.
  intros A AB I IB U UB HP v.
  assert (forall X, sw_ready X -> (i <= dim X)%nat -> is_var X i (nth i (sw_names (dim X)) ""%string)) as IV.
  { intros X [_ [DD V]] HI. unfold is_var. rewrite V. destruct DD as [D | D]; rewrite D in *; destruct i as [| [| [| i]]]; try lia; reflexivity. }
  split.
  - apply (total_weak W i _ (fun e k => - sw_F (grav p) (state (sw_names (dim W)) W "" k) i e) _ U).
    intros j Hj. apply (C116_volume p W i A I i j (IV W A I) Hj).
  - apply (total_weak B i phi (fun _ _ => 0) _ UB). intros j Hj. apply (C116_boundary p B i phi AB IB HP i j (IV B AB IB) Hj).
Qed.
Print Assumptions C116_conservation.

(** ** C117 *)
Lemma roe_is n L lam X J x i : eigenbasis n J X L lam -> roe_term n L lam X x i = mvec n (spread n X L lam Rabs) x i.
Proof.
  intros E. rewrite spread_vec. unfold roe_term, matVec, mvec at 1, dot. apply sm_ext. intros k _. unfold mvec, dot. ring.
Qed.
Lemma sm_agree n (f g x y : nat -> R) : (forall i, (i < n)%nat -> x i = y i) -> dot n f x = dot n f y.
Proof. intros H. apply dot_ext; [reflexivity | exact H]. Qed.
Lemma roe_ext n L lam X x y i : (forall j, (j < n)%nat -> x j = y j) -> roe_term n L lam X x i = roe_term n L lam X y i.
Proof.
  intros H. unfold roe_term, matVec. apply sm_ext. intros k _. f_equal. f_equal. apply sm_ext. intros j Hj. apply in_seq in Hj.
  rewrite H by lia. reflexivity.
Qed.
Lemma maxev_bound vn a : Rabs vn <= Rmax (Rabs (vn + a)) (Rabs (vn - a)).
Proof.
  apply Rmult_le_reg_l with 2; [lra |].
  replace (2 * Rabs vn) with (Rabs ((vn + a) + (vn - a))).
  - eapply Rle_trans; [apply Rabs_triang |]. pose proof (Rmax_l (Rabs (vn + a)) (Rabs (vn - a))). pose proof (Rmax_r (Rabs (vn + a)) (Rabs (vn - a))). lra.
  - replace (vn + a + (vn - a)) with (2 * vn) by ring. rewrite Rabs_mult, (Rabs_right 2) by lra. reflexivity.
Qed.
Lemma radius n J X Y lam vn a kp km : eigenbasis n J X Y lam ->
  (kp < n)%nat -> (km < n)%nat -> Rabs (lam kp) = Rabs (vn + a) -> Rabs (lam km) = Rabs (vn - a) ->
  (forall k, (k < n)%nat -> k = kp \/ k = km \/ Rabs (lam k) = Rabs vn) ->
  spectral_radius n J (Rmax (Rabs (vn + a)) (Rabs (vn - a))).
Proof.
  intros E KP KM EP EM H. split.
  - intros mu HM. destruct (eig_is_lam n J X Y lam E mu HM) as [k [K ->]].
    destruct (H k K) as [-> | [-> | ->]]; [rewrite EP; apply Rmax_l | rewrite EM; apply Rmax_r | apply maxev_bound].
  - unfold Rmax. destruct (Rle_dec (Rabs (vn + a)) (Rabs (vn - a))).
    + exists (lam km). split; [apply (lam_is_eig n J X Y lam E km KM) | exact EM].
    + exists (lam kp). split; [apply (lam_is_eig n J X Y lam E kp KP) | exact EP].
Qed.
Lemma mvec_scalar n l x i : (i < n)%nat -> mvec n (fun i j => l * delta i j) x i = x i * l.
Proof. intros I. unfold mvec. rewrite dot_scal, dot_delta_l by exact I. ring. Qed.
Lemma unit_abs n : n * n = 1 -> Rabs n = 1.
Proof. intros N. assert (n = 1 \/ n = -1) as [-> | ->]; [| apply Rabs_R1 | rewrite Rabs_left by lra; lra].
  assert ((n - 1) * (n + 1) = 0) as Q by lra. apply Rmult_integral in Q. destruct Q; [left | right]; lra. Qed.

(** The Jacobian of the normal flux at the trace with the decomposition the code uses. *)
Definition sw_scale (W : wks) (k : nat) : R := if Nat.eqb (dim W) 1 then nx W k else 1.
Lemma sw_decomposition p W k : sw_ready W -> 0 < grav p -> 0 < sw_trace W k 0%nat -> unit_normal W k ->
  exists J, jacobian (dim W + 1) (sw_G p W k) (sw_trace W k) J /\
    let '(L, lam, X) := sw_eig p W k in eigenbasis (dim W + 1) J X L (fun m => sw_scale W k * lam m).
Proof.
  intros A G P U. unfold sw_G, sw_scale, sw_eig. pose proof A as [_ [[D | D] _]].
  - unfold unit_normal in U. rewrite (sumd_1 W _ D) in U. unfold sw_trace in *. rewrite D in *. cbn [Nat.eqb Nat.add].
    eexists. split; [apply sw_jac1; lra |]. apply sw_basis1; assumption.
  - unfold unit_normal in U. rewrite (sumd_2 W _ D) in U. unfold sw_trace in *. rewrite D in *. cbn [Nat.eqb Nat.add].
    eexists. split; [apply sw_jac2; lra |].
    pose proof (sw_basis2 (grav p) (sf W true "H" k) (sf W true "Hux" k) (sf W true "Huy" k) (nx W k) (ny W k) G P U) as [B1 B2 B3].
    split; [exact B1 | exact B2 |]. intros i j Hi Hj. rewrite Rmult_1_l. apply B3; assumption.
Qed.

Theorem C117_stabilized p W k : sw_ready W -> 0 < grav p -> 0 < sw_trace W k 0%nat -> unit_normal W k ->
  exists J M, jacobian (dim W + 1) (sw_G p W k) (sw_trace W k) J /\
    (if swroe p then fun_of (dim W + 1) Rabs J M
     else exists l, spectral_radius (dim W + 1) J l /\ forall i j, M i j = l * delta i j) /\
    forall i, (i <= dim W)%nat -> sw_computeFlux p (interior W) k i =
      Some (sw_G p W k (sw_trace W k) i + mvec (dim W + 1) M (minus (sw_S W k) (sw_trace W k)) i).
Proof.
  intros A G P U. destruct (sw_decomposition p W k A G P U) as [J [HJ E]].
  assert (Rabs (sw_scale W k) = 1) as SC.
  { unfold sw_scale. pose proof A as [_ [[D | D] _]]; rewrite D; cbn [Nat.eqb]; [| apply Rabs_R1].
    apply unit_abs. unfold unit_normal in U. rewrite (sumd_1 W _ D) in U. exact U. }
  destruct (sw_eig p W k) as [[L lam] X] eqn:EQ. exists J. destruct (swroe p) eqn:RO.
  - exists (spread (dim W + 1) X L (fun m => sw_scale W k * lam m) Rabs). split; [exact HJ |]. split; [apply (spread_fun _ _ _ _ _ E) |].
    intros i I. rewrite sw_interface, sw_numerical_spec by assumption. f_equal. f_equal.
    unfold sw_stab. rewrite RO, EQ, (sw_len W A).
    rewrite (roe_ext _ _ _ _ _ (minus (sw_S W k) (sw_trace W k))) by (intros j Hj; apply sw_jump_spec; [exact A | lia]).
    rewrite <- (roe_is _ _ _ _ _ _ _ E). unfold roe_term, matVec. apply sm_ext. intros m _. rewrite Rabs_mult, SC, Rmult_1_l. reflexivity.
  - set (vn := nx W k * sf W true "Hux" k / sf W true "H" k + (if (1 <? dim W)%nat then ny W k * sf W true "Huy" k / sf W true "H" k else 0)).
    set (a := sqrt (sf W true "H" k * grav p)).
    exists (fun i j => Rmax (Rabs (vn + a)) (Rabs (vn - a)) * delta i j). split; [exact HJ |]. split.
    + eexists. split; [| reflexivity].
      assert (sf W true "H" k <> 0) as NZ by (apply Rgt_not_eq; unfold sw_trace, state in P; pose proof A as [_ [[D | D] _]]; rewrite D in P; exact P).
      pose proof A as [_ [[D | D] _]]; rewrite D in E; unfold sw_eig in EQ; rewrite D in EQ; cbn [Nat.add] in E |- *.
      * rewrite D. cbn [Nat.add]. unfold sw_scale in *. rewrite D in E, SC. cbn [Nat.eqb] in E, SC.
        unfold unit_normal in U. rewrite (sumd_1 W _ D) in U. change (nx W k * nx W k = 1) in U.
        unfold sw_eig1 in EQ. injection EQ as EL Elam EX.
        (* n (u - a), n (u + a) against n u + a, n u - a *)
        subst vn. rewrite D. cbn [Nat.ltb Nat.leb]. rewrite Rplus_0_r. fold a in Elam.
        assert (nx W k = 1 \/ nx W k = -1) as NN.
        { assert ((nx W k - 1) * (nx W k + 1) = 0) as Q by lra. apply Rmult_integral in Q. destruct Q; [left | right]; lra. }
        destruct NN as [N1 | N1].
        -- apply (radius _ _ _ _ _ _ _ 1 0 E); [lia | lia | | |]; subst lam; cbn; rewrite ?N1.
           ++ f_equal. unfold Rdiv. ring.
           ++ f_equal. unfold Rdiv. ring.
           ++ intros m M. lia.
        -- apply (radius _ _ _ _ _ _ _ 0 1 E); [lia | lia | | |]; subst lam; cbn; rewrite ?N1.
           ++ f_equal. unfold Rdiv. ring.
           ++ f_equal. unfold Rdiv. ring.
           ++ intros m M. lia.
      * rewrite D. cbn [Nat.add]. unfold sw_scale in *. rewrite D in E, SC. cbn [Nat.eqb] in E, SC.
        unfold sw_eig2 in EQ. injection EQ as EL Elam EX. fold a in Elam.
        subst vn. rewrite D. cbn [Nat.ltb Nat.leb].
        apply (radius _ _ _ _ _ _ _ 0 2 E); [lia | lia | | |]; subst lam; cbn.
        -- f_equal. field. exact NZ.
        -- f_equal. field. exact NZ.
        -- intros m M. destruct m as [| [| [| m]]]; [left; reflexivity | right; right | right; left; reflexivity | lia].
           cbn. f_equal. field. exact NZ.
    + intros i I. rewrite sw_interface, sw_numerical_spec by assumption. f_equal. f_equal.
      rewrite mvec_scalar by lia. unfold sw_stab. rewrite RO. fold vn a. unfold maxev_term. rewrite sw_jump_spec by assumption. reflexivity.
Qed.
Print Assumptions C117_stabilized.

(** ** C118, C119: far-field sides *)
Lemma far_is n L lam X J x y i : eigenbasis n J X L lam ->
  far_term n L lam X x y i = mvec n (spread n X L lam pos_part) x i - mvec n (spread n X L lam neg_part) y i.
Proof.
  intros E. rewrite !spread_vec. unfold far_term. f_equal; unfold matVec, mvec at 1, dot; apply sm_ext; intros k _; f_equal;
    rewrite Rmult_comm; f_equal; [apply pos_part_half | apply neg_part_half].
Qed.
Lemma far_ext n L lam X x x' y y' i : (forall j, (j < n)%nat -> x j = x' j) -> (forall j, (j < n)%nat -> y j = y' j) ->
  far_term n L lam X x y i = far_term n L lam X x' y' i.
Proof.
  intros H1 H2. unfold far_term, matVec. f_equal; apply sm_ext; intros k _; f_equal; f_equal; apply sm_ext; intros j Hj; apply in_seq in Hj;
    rewrite ?H1, ?H2 by lia; reflexivity.
Qed.

(** What a far-field side asks of the trace: the flux given to the skeleton vanishes exactly when
    every outgoing characteristic of the trace comes from inside and every incoming one from the
    far-field data. *)
Definition sw_far_condition (p : swp) (W : wks) (k : nat) : Prop :=
  exists J, jacobian (dim W + 1) (sw_G p W k) (sw_trace W k) J /\
    ((forall i, (i <= dim W)%nat -> sw_computeFlux p W k i = Some 0) <->
     (forall l mu, row_eig (dim W + 1) J l mu ->
        (0 < mu -> dot (dim W + 1) l (sw_S W k) = dot (dim W + 1) l (sw_trace W k)) /\
        (mu < 0 -> dot (dim W + 1) l (sw_far W k) = dot (dim W + 1) l (sw_trace W k)))).

Lemma far_condition p W k : sw_ready W -> 0 < grav p -> 0 < sw_trace W k 0%nat -> unit_normal W k ->
  bcs W 0%nat = "Far-field"%string -> sw_scale W k = 1 -> sw_far_condition p W k.
Proof.
  intros A G P U BC SC. destruct (sw_decomposition p W k A G P U) as [J [HJ E]]. exists J. split; [exact HJ |].
  destruct (sw_eig p W k) as [[L lam] X] eqn:EQ. rewrite SC in E.
  assert (eigenbasis (dim W + 1) J X L lam) as E1.
  { destruct E as [B1 B2 B3]. split; [exact B1 | exact B2 |]. intros i j Hi Hj. rewrite (B3 i j Hi Hj). ring. }
  pose proof (split_zero (dim W + 1) J _ _ (minus (sw_S W k) (sw_trace W k)) (minus (sw_far W k) (sw_trace W k))
               (spread_fun _ _ _ _ _ E1 pos_part) (spread_fun _ _ _ _ _ E1 neg_part)) as SZ.
  assert (forall i, (i <= dim W)%nat -> sw_computeFlux p W k i =
    Some (mvec (dim W + 1) (spread (dim W + 1) X L lam pos_part) (minus (sw_S W k) (sw_trace W k)) i
          - mvec (dim W + 1) (spread (dim W + 1) X L lam neg_part) (minus (sw_far W k) (sw_trace W k)) i)) as FX.
  { intros i I. unfold sw_computeFlux. rewrite (H_0 W A), BC. cbn [String.eqb Ascii.eqb Bool.eqb orb]. f_equal.
    unfold sw_bound. rewrite (H_0 W A), BC, EQ, (sw_len W A). rewrite String.eqb_refl.
    rewrite <- (far_is _ _ _ _ _ _ _ _ E1). apply far_ext; intros j Hj; [apply sw_jump_spec | apply sw_jumpinf_spec]; (exact A || lia). }
  split.
  - intros H. assert (forall l mu, row_eig (dim W + 1) J l mu -> (0 < mu -> dot (dim W + 1) l (minus (sw_S W k) (sw_trace W k)) = 0) /\
        (mu < 0 -> dot (dim W + 1) l (minus (sw_far W k) (sw_trace W k)) = 0)) as Q.
    { apply SZ. intros i I. assert (i <= dim W)%nat as I' by lia. specialize (H i I'). rewrite FX in H by exact I'. congruence. }
    intros l mu Hl. destruct (Q l mu Hl) as [Q1 Q2]. split; intros S; [specialize (Q1 S); rewrite dot_sub in Q1 | specialize (Q2 S); rewrite dot_sub in Q2]; lra.
  - intros H i I. rewrite FX by exact I. f_equal. apply SZ; [| lia]. intros l mu Hl. destruct (H l mu Hl) as [Q1 Q2].
    split; intros S; rewrite dot_sub; [rewrite (Q1 S) | rewrite (Q2 S)]; ring.
Qed.

Theorem C118_farfield p W k : sw_ready W -> dim W = 2%nat -> 0 < grav p -> 0 < sw_trace W k 0%nat -> unit_normal W k ->
  bcs W 0%nat = "Far-field"%string -> sw_far_condition p W k.
Proof. intros A D G P U BC. apply far_condition; try assumption. unfold sw_scale. rewrite D. reflexivity. Qed.
Print Assumptions C118_farfield.

(** One space dimension: right at ends whose normal points in the direction of x. *)
Theorem C119_right_end_partial p W k : sw_ready W -> dim W = 1%nat -> 0 < grav p -> 0 < sw_trace W k 0%nat ->
  normal W 0 k = 1 -> bcs W 0%nat = "Far-field"%string -> sw_far_condition p W k.
Proof.
  intros A D G P U BC. apply far_condition; try assumption.
  - unfold unit_normal. rewrite (sumd_1 W _ D), U. ring.
  - unfold sw_scale. rewrite D. exact U.
Qed.
Print Assumptions C119_right_end_partial.

(** ** C120: slip sides *)
Definition momentum (S : nat -> R) : nat -> R := fun c => S (1 + c)%nat.
Theorem C120_slip p W k : sw_ready W -> unit_normal W k -> bcs W 0%nat = "Slip"%string ->
  sw_S W k 0%nat <> 0 -> sw_trace W k 0%nat <> 0 ->
  (forall i, (i <= dim W)%nat -> sw_computeFlux p W k i = Some 0) <->
  (sw_trace W k 0%nat = sw_S W k 0%nat /\
   dot (dim W) (momentum (sw_trace W k)) (nrm W k) = 0 /\
   forall t, dot (dim W) t (nrm W k) = 0 -> dot (dim W) (momentum (sw_trace W k)) t = dot (dim W) (momentum (sw_S W k)) t).
Proof.
  intros A U BC NS NT.
  pose proof (H_0 W A) as N0. pose proof (Hux_1 W A) as N1. pose proof (Huy_2 W A) as N2.
  set (u := fun c => momentum (sw_S W k) c / sw_S W k 0%nat). set (v := fun c => momentum (sw_trace W k) c / sw_trace W k 0%nat).
  assert (forall i, (i <= dim W)%nat -> sw_computeFlux p W k i =
    Some (match i with 0%nat => sw_S W k 0%nat - sw_trace W k 0%nat
          | S c => u c - dot (dim W) u (nrm W k) * nrm W k c - v c end)) as FX.
  { intros i I. unfold sw_computeFlux. rewrite N0, BC. cbn [String.eqb Ascii.eqb Bool.eqb orb]. f_equal.
    unfold sw_bound. rewrite N0, BC. cbn [String.eqb Ascii.eqb Bool.eqb].
    subst u v. unfold momentum, sw_S, sw_trace, state, nrm, normal, nx, ny, sf. pose proof A as [_ [[D | D] _]]; rewrite N1, ?N2 by exact D; rewrite D in *.
    - destruct i as [| [| i]]; [| | lia]; cbn; [reflexivity |]. unfold dot, sm. cbn. unfold Rdiv. ring.
    - destruct i as [| [| [| i]]]; [| | | lia]; cbn; [reflexivity | |]; unfold dot, sm; cbn; unfold Rdiv; ring. }
  assert (dot (dim W) (nrm W k) (nrm W k) = 1) as N.
  { unfold unit_normal in U. rewrite <- U. reflexivity. }
  pose proof (tangential (dim W) (nrm W k) u v N) as T.
  assert (forall x y, dot (dim W) (fun c => x c / y) = fun t => dot (dim W) x t / y) as SC.
  { intros x y. apply FunctionalExtensionality.functional_extensionality. intros t. unfold Rdiv, dot. rewrite <- sm_scal_r. apply sm_ext. intros; ring. }
  split.
  - intros H. assert (sw_trace W k 0%nat = sw_S W k 0%nat) as E0.
    { specialize (H 0%nat ltac:(lia)). rewrite FX in H by lia. injection H. lra. }
    split; [exact E0 |]. destruct (proj1 T) as [T1 T2].
    { intros c C. assert (S c <= dim W)%nat as C' by lia. specialize (H (S c) C'). rewrite FX in H by exact C'. injection H. auto. }
    subst u v. rewrite SC in T1. split.
    + apply (Rmult_eq_reg_r (/ sw_trace W k 0%nat)); [rewrite Rmult_0_l; exact T1 | apply Rinv_neq_0_compat, NT].
    + intros t Ht. specialize (T2 t Ht). rewrite !SC, E0 in T2. unfold Rdiv in T2. apply Rmult_eq_reg_r in T2; [exact T2 | apply Rinv_neq_0_compat, NS].
  - intros [E0 [T1 T2]] i I. rewrite FX by exact I. f_equal. destruct i as [| c]; [rewrite E0; ring |].
    apply (proj2 T); [| lia]. subst u v. rewrite SC. split; [rewrite T1; unfold Rdiv; ring |].
    intros t Ht. rewrite !SC, E0. rewrite (T2 t Ht). reflexivity.
Qed.
Print Assumptions C120_slip.

Lemma jac_unique n G S J J' : jacobian n G S J -> jacobian n G S J' -> forall i j, (i < n)%nat -> (j < n)%nat -> J i j = J' i j.
Proof. intros A B i j Hi Hj. rewrite <- (is_derive_unique _ _ _ (A i j Hi Hj)). apply is_derive_unique, B; assumption. Qed.

(** A side of one element with constant fields. *)
Fixpoint lookup (l : list (string * R)) (s : string) : R :=
  match l with [] => 0 | (t, x) :: r => if String.eqb s t then x else lookup r s end.
Definition channel (d : nat) (l : list (string * R)) (bc : string) : wks :=
  {| dim := d; varlist := sw_names d; usebasis := fun _ => 0%nat; npts := 1; nbas := fun _ => 2%nat;
     offs := fun v i => (2 * v + i)%nat; wt := fun _ => 1; bas := fun _ _ _ => 1/2;
     bgr := fun _ i _ _ => if Nat.eqb i 0 then 1 else -1;
     fld := fun s _ => lookup l s; fn := fun s _ => lookup l s; hel := 1; bcs := fun _ => bc; sidename := "end"%string;
     isAdjoint := false; isTransient := true; deltat := 1 |}.
Lemma channel_ready d l bc : (d = 1 \/ d = 2)%nat -> sw_ready (channel d l bc).
Proof.
  intros D. split; [| split; [exact D | reflexivity]]. constructor.
  - cbn. lia.
  - destruct D as [-> | ->]; cbn; repeat constructor; cbn; intuition discriminate.
  - cbn. intros. lia.
Qed.

(** At an end whose normal points against x, the condition is that of the opposite normal: here
    it is met although the outgoing wave H - Hux of the trace (1) is not the one inside (3). *)
Definition left_end : wks := channel 1
  [("H", 2); ("Hux", -1); ("aux H", 1); ("aux Hux", 0); ("Far-field H end", 1); ("Far-field Hux end", 0); ("n[x]", -1)]%string "Far-field".
Theorem C119_left_end_refuted : exists p W k, sw_ready W /\ dim W = 1%nat /\ 0 < grav p /\ 0 < sw_trace W k 0%nat /\
  normal W 0 k = -1 /\ bcs W 0%nat = "Far-field"%string /\
  (forall i, (i <= dim W)%nat -> sw_computeFlux p W k i = Some 0) /\ ~ sw_far_condition p W k.
Proof.
  exists {| grav := 1; swroe := true |}, left_end, 0%nat.
  assert (sw_ready left_end) as A by (apply channel_ready; lia).
  split; [exact A |]. split; [reflexivity |]. split; [cbn; lra |]. split; [cbn; lra |]. split; [reflexivity |]. split; [reflexivity |].
  assert (forall i, (i <= 1)%nat -> sw_computeFlux {| grav := 1; swroe := true |} left_end 0 i = Some 0) as Z.
  { intros i I. assert (sqrt 1 = 1) as S1 by apply sqrt_1.
    assert (Rabs (0 / 1 - sqrt (1 * 1)) = 1) as A1 by (rewrite Rmult_1_l, S1, Rabs_left by lra; lra).
    assert (Rabs (0 / 1 + sqrt (1 * 1)) = 1) as A2 by (rewrite Rmult_1_l, S1, Rabs_right by lra; lra).
    destruct i as [| [| i]]; [| | lia]; unfold sw_computeFlux, sw_bound, sw_eig, sw_eig1, far_term, matVec, sm, ofm, ofv;
      cbn [dim left_end channel varlist sw_names firstn Nat.add List.length seq map rsum fold_right nth sf fld grav lookup
           String.eqb Ascii.eqb Bool.eqb append orb bcs fn sidename]; f_equal;
      cbn; rewrite ?A1, ?A2, ?Rmult_1_l, ?S1; lra. }
  split; [exact Z |]. intros [J [HJ [Q _]]]. specialize (Q Z).
  change (jacobian 2 (normal_flux 1 (sw_F 1) (nrm left_end 0)) (sw_trace left_end 0) J) in HJ.
  pose proof (sw_jac1 1 (nrm left_end 0) (sw_trace left_end 0)) as HJ'.
  assert (sw_trace left_end 0 0 <> 0) as NZ by (cbn; lra). specialize (HJ' NZ).
  pose proof (jac_unique _ _ _ _ _ HJ HJ') as EJ.
  destruct (Q (ofv [1; -1]) 1) as [Q1 _].
  - intros y. change (dim left_end + 1)%nat with 2%nat. unfold mvec, dot, sm. cbn [seq map rsum fold_right].
    rewrite !EJ by lia. cbn. field.
  - specialize (Q1 ltac:(lra)). unfold dot, sm in Q1. cbn in Q1. lra.
Qed.
Print Assumptions C119_left_end_refuted.

(** Examples: water moving obliquely through a side, in both stabilizations. *)
Definition oblique (bc : string) : wks := channel 2
  [("H", 5); ("Hux", 4); ("Huy", 8); ("aux H", 4); ("aux Hux", 4); ("aux Huy", 8); ("n[x]", 3/5); ("n[y]", 4/5);
   ("H_t", 1); ("Far-field H end", 4); ("Far-field Hux end", 4); ("Far-field Huy end", 8)]%string bc.
Example C116_ready : forall bc, sw_ready (oblique bc) /\ unity (oblique bc) 0.
Proof.
  intros bc. split; [apply channel_ready; lia |]. intros k K. split; [cbn; lra |]. intros d D. cbn. lra.
Qed.
Example C117_meets : forall bc, unit_normal (oblique bc) 0 /\ 0 < sw_trace (oblique bc) 0 0%nat.
Proof. intros bc. split; [unfold unit_normal, sumd, sm; cbn; lra | cbn; lra]. Qed.
Example C117_value : sw_computeFlux {| grav := 1; swroe := false |} (interior (oblique "Slip")) 0 0 = Some 13.
Proof.
  rewrite sw_interface. f_equal. unfold sw_numerical, sw_stab, maxev_term. cbn. unfold assign, ofv. cbn.
  rewrite Rmult_1_r. replace (sqrt 4) with 2.
  - rewrite Rmax_left; rewrite !Rabs_right by lra; lra.
  - replace 4 with (2 * 2) by ring. rewrite sqrt_square; lra.
Qed.
Example C118_meets : bcs (oblique "Far-field") 0%nat = "Far-field"%string /\ dim (oblique "Far-field") = 2%nat.
Proof. split; reflexivity. Qed.
Example C120_meets : bcs (oblique "Slip") 0%nat = "Slip"%string /\ sw_S (oblique "Slip") 0 0%nat <> 0 /\ sw_trace (oblique "Slip") 0 0%nat <> 0 /\
  sw_computeFlux {| grav := 1; swroe := false |} (oblique "Slip") 0 1%nat <> Some 0.
Proof.
  split; [reflexivity |]. split; [cbn; lra |]. split; [cbn; lra |]. cbn. unfold assign. cbn. intros E. injection E. lra.
Qed.
