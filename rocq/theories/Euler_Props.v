(** Hybridized Euler equations: C121-C126. *)
From Coq Require Import Bool Arith Lia Reals Lra List String.
From Coquelicot Require Import Coquelicot.
From Verif Require Import Sparse_Model Sparse_Props Mass_Model BProj_Model BProj_Proofs Phys_Model Phys_Spec Phys_Proofs Phys_Tac
  HDG_Model HDG_Spec HDG_Proofs HDG_Eig HDG_Eig3 HDG_Props.
Import ListNotations.
Local Open Scope R_scope.

(** The module alone in its block, its unknowns in any order. *)
Definition eu_ready (W : wks) : Prop := wf W /\ List.length (varlist W) = (dim W + 2)%nat /\
  forall i, (i < dim W + 2)%nat -> In (nth i (eu_names (dim W)) ""%string) (varlist W).
Definition eu_num (W : wks) (i : nat) : nat := var_num W (nth i (eu_names (dim W)) ""%string) 0.
Lemma eu_is W i : eu_ready W -> (i < dim W + 2)%nat -> is_var W (eu_num W i) (nth i (eu_names (dim W)) ""%string).
Proof.
  intros [A [_ H]] I. destruct (nth_var W _ (H i I)) as [n N]. unfold eu_num. rewrite (var_num_is W n _ 0 A N). exact N.
Qed.
Lemma eu_lt W i : eu_ready W -> (i < dim W + 2)%nat -> (eu_num W i < dim W + 2)%nat.
Proof. intros A I. pose proof (is_var_lt _ _ _ (eu_is W i A I)) as L. destruct A as [_ [E _]]. lia. Qed.
Lemma num_neq W a b v u : is_var W a v -> is_var W b u -> v <> u -> Nat.eqb a b = false.
Proof. intros A B N. apply Nat.eqb_neq. intros ->. apply N. eapply is_var_inj; eassumption. Qed.

Lemma eu_listed d W : wf W -> dim W = d -> varlist W = eu_myvars d -> eu_ready W.
Proof.
  intros A D V. split; [exact A |]. rewrite V, D. pose proof (wf_dim W A) as B. rewrite D in B.
  assert (d = 1 \/ d = 2 \/ d = 3)%nat as [-> | [-> | ->]] by lia; (split; [reflexivity |]); intros i I;
    repeat (destruct i as [| i]; [cbn; tauto |]); lia.
Qed.
Lemma eu_ordered d W : wf W -> dim W = d -> varlist W = eu_names d -> eu_ready W /\ forall i, (i < d + 2)%nat -> eu_num W i = i.
Proof.
  intros A D V. pose proof (wf_dim W A) as B. rewrite D in B. split.
  - split; [exact A |]. rewrite V, D. assert (d = 1 \/ d = 2 \/ d = 3)%nat as [-> | [-> | ->]] by lia; (split; [reflexivity |]); intros i I;
      repeat (destruct i as [| i]; [cbn; tauto |]); lia.
  - intros i I. unfold eu_num. apply var_num_is; [exact A |]. unfold is_var. rewrite V, D.
    assert (d = 1 \/ d = 2 \/ d = 3)%nat as [-> | [-> | ->]] by lia; repeat (destruct i as [| i]; [reflexivity |]); lia.
Qed.

Definition eu_S (W : wks) (k : nat) := state (eu_names (dim W)) W "" k.
Definition eu_trace (W : wks) (k : nat) := state (eu_names (dim W)) W "aux " k.
Definition eu_far (W : wks) (k : nat) := farstate (eu_names (dim W)) W k.
Definition eu_G (p : eup) (W : wks) (k : nat) := normal_flux (dim W) (eu_F (gam p) (dim W)) (nrm W k).

(** the numbers, and which differ *)
Ltac three W A := pose proof A as [?AW _]; destruct (dims W AW) as [D | [D | D]].
Ltac decide_nums W :=
  repeat match goal with
  | |- context [Nat.eqb ?a ?a] => rewrite (Nat.eqb_refl a)
  | V : is_var W ?a _, U : is_var W ?b _ |- context [Nat.eqb ?a ?b] => rewrite (num_neq W a b _ _ V U ltac:(discriminate))
  end.
Ltac numbers W A D :=
  let f i := (let H := fresh "V" in pose proof (eu_is W i A ltac:(lia)) as H; unfold eu_num in H; rewrite D in H; cbn [eu_names firstn app nth] in H) in
  match type of D with
  | _ = 1%nat => f 0%nat; f 1%nat; f 2%nat
  | _ = 2%nat => f 0%nat; f 1%nat; f 2%nat; f 3%nat
  | _ = 3%nat => f 0%nat; f 1%nat; f 2%nat; f 3%nat; f 4%nat
  end.
Ltac flat := unfold assign, ofv, eu_num, rho_num, rhoux_num, rhouy_num, rhouz_num, rhoE_num;
  repeat match goal with D : dim _ = _ |- _ => progress rewrite D end;
  cbn [fold_left fst snd eu_names firstn app nth Nat.ltb Nat.leb].

Lemma eu_p_spec p W s k : eu_ready W -> sf W s "rho" k <> 0 ->
  eu_p p W s k = pressure (gam p) (dim W) (state (eu_names (dim W)) W (if s then "aux " else "")%string k).
Proof.
  intros A NZ. three W A; unfold eu_p, pressure, state, sm; rewrite D; destruct s; unfold sf in *; cbn in *; field; exact NZ.
Qed.
Lemma eu_fluxes_spec p W s k i e : eu_ready W -> (i < dim W + 2)%nat -> (e < dim W)%nat -> ~ (dim W = 3 /\ i = 3)%nat ->
  sf W s "rho" k <> 0 ->
  eu_fluxes p W s k (eu_num W i) e = eu_F (gam p) (dim W) (state (eu_names (dim W)) W (if s then "aux " else "")%string k) i e.
Proof.
  intros A I E X NZ. pose proof (eu_p_spec p W s k A NZ) as P. unfold eu_fluxes, eu_F. rewrite P. clear P.
  set (pr := pressure _ _ _). clearbody pr.
  three W A; numbers W A D; rewrite D in *; cases_lt i I; try (exfalso; apply X; split; reflexivity); cases_lt e E; flat; decide_nums W;
    cbn [nth Nat.add Nat.sub]; unfold state, delta, sf; destruct s; cbn; unfold Rdiv; ring.
Qed.
Lemma eu_numerical_spec p W k i : eu_ready W -> (i < dim W + 2)%nat -> ~ (dim W = 3 /\ i = 3)%nat -> eu_trace W k 0%nat <> 0 ->
  eu_numerical p W k (eu_num W i) = eu_G p W k (eu_trace W k) i + eu_stab p W k (eu_num W i).
Proof.
  intros A I X NZ. assert (sf W true "rho" k <> 0) as NZ'.
  { unfold eu_trace, state in NZ. three W A; rewrite D in NZ; exact NZ. }
  pose proof (fun e E => eu_fluxes_spec p W true k i e A I E X NZ') as FX. cbv iota in FX.
  unfold eu_numerical, eu_G, normal_flux, eu_trace. three W A; rewrite D in *; cbv iota;
    rewrite !FX by lia; cbn [seq]; unfold sm; cbn [map rsum fold_right]; unfold nrm, normal, nx, ny, nz; cbn; ring.
Qed.
Lemma eu_interface p W k n : eu_computeFlux p (interior W) k n = Some (eu_numerical p W k n).
Proof. reflexivity. Qed.
Lemma eu_dS_spec W Sf k i : eu_ready W -> (i < dim W + 2)%nat ->
  eu_dS W Sf k (eu_num W i) = Sf (nth i (eu_names (dim W)) ""%string) - eu_trace W k i.
Proof.
  intros A I. unfold eu_dS, eu_trace, state. three W A; numbers W A D; rewrite D in *; cases_lt i I; flat; decide_nums W; reflexivity.
Qed.
Lemma eu_jump_spec W k i : eu_ready W -> (i < dim W + 2)%nat -> eu_jump W k (eu_num W i) = minus (eu_S W k) (eu_trace W k) i.
Proof. intros A I. unfold eu_jump, minus. rewrite eu_dS_spec by assumption. reflexivity. Qed.

Lemma eu_row_other p W n m v u j : wf W -> is_var W n v -> is_var W m u -> v <> u -> (j < nbas W (usebasis W n))%nat ->
  at_row (offs W n j) (eu_row p W u m) = 0.
Proof.
  intros A N M NE J. unfold eu_row.
  assert (n <> m) as NM by (intros ->; apply NE; eapply is_var_inj; eassumption).
  destruct (dims W A) as [D | [D | D]]; rewrite D; cbv iota; apply fill_other; auto; eapply is_var_lt; eassumption.
Qed.

(** ** C121 *)
Theorem C121_volume p W i : eu_ready W -> (i < dim W + 2)%nat -> ~ (dim W = 3 /\ i = 3)%nat ->
  (forall k, (k < npts W)%nat -> eu_S W k 0%nat <> 0) ->
  let v := nth i (eu_names (dim W)) ""%string in
  equation W (residual (eu_volume p W)) v
    (fun k => fld W (v ++ "_t")%string k - fn W ("source " ++ v)%string k)
    (fun e k => - eu_F (gam p) (dim W) (eu_S W k) i e).
Proof.
  intros A I X NZ v n j Hn Hj. rewrite residual_at.
  assert (n = eu_num W i) as -> by (destruct A as [A1 A2]; apply (is_var_uniq W n _ v A1 Hn), (eu_is W i (conj A1 A2) I)).
  pose proof A as [AW _]. unfold weak, integral.
  assert (forall k e, (k < npts W)%nat -> (e < dim W)%nat -> eu_fluxes p W false k (eu_num W i) e = eu_F (gam p) (dim W) (eu_S W k) i e) as FX.
  { intros k e K E. apply (eu_fluxes_spec p W false k i e A I E X). specialize (NZ k K).
    unfold eu_S, state in NZ. three W A; rewrite D in NZ; exact NZ. }
  assert (at_row (offs W (eu_num W i) j) (eu_volume p W) = at_row (offs W (eu_num W i) j) (eu_row p W v (eu_num W i))) as ->.
  { subst v. unfold eu_volume. clear FX NZ Hn.
    three W A; numbers W A D; rewrite D in *; cases_lt i I; unfold eu_num, rho_num, rhoux_num, rhouy_num, rhouz_num, rhoE_num in *;
      rewrite D in *; cbn [eu_names firstn app nth Nat.ltb Nat.leb] in *; rewrite ?at_row_app, ?at_row_nil;
      repeat match goal with N : is_var W ?n _, M : is_var W ?m _ |- context [at_row (offs W ?n j) (eu_row p W _ ?m)] =>
        rewrite (eu_row_other p W n m _ _ j AW N M ltac:(discriminate) Hj) end;
      rewrite ?Rplus_0_r, ?Rplus_0_l; reflexivity. }
  unfold eu_row. three W A; rewrite D in *; cbv iota.
  - rewrite (fill_own W _ _ (eu_num W i) j AW (is_var_lt _ _ _ Hn) Hj eq_refl). apply sm_ext. intros k K. apply in_seq in K.
    rewrite (sumd_1 W _ D), FX by lia. ring.
  - rewrite (fill_own W _ _ (eu_num W i) j AW (is_var_lt _ _ _ Hn) Hj eq_refl). apply sm_ext. intros k K. apply in_seq in K.
    rewrite (sumd_2 W _ D), !FX by lia. ring.
  - rewrite (fill_own W _ _ (eu_num W i) j AW (is_var_lt _ _ _ Hn) Hj eq_refl). apply sm_ext. intros k K. apply in_seq in K.
    rewrite (sumd_3 W _ D), !FX by lia. ring.
Qed.
Print Assumptions C121_volume.

Theorem C121_boundary p W i phi : eu_ready W -> (i < dim W + 2)%nat ->
  (forall k, (k < npts W)%nat -> eu_computeFlux p (interior W) k (eu_num W i) = Some (phi k)) ->
  equation W (residual (eu_boundary p W)) (nth i (eu_names (dim W)) ""%string) phi (fun _ _ => 0).
Proof.
  intros A I HP n j Hn Hj. rewrite residual_at.
  assert (n = eu_num W i) as -> by (destruct A as [A1 A2]; apply (is_var_uniq W n _ _ A1 Hn), (eu_is W i (conj A1 A2) I)).
  unfold weak, integral, eu_boundary. pose proof A as [A1 [LN _]].
  rewrite (fill_all W _ (fun e pt dof => eu_numerical p W pt e * wt W pt * bas W (usebasis W e) dof pt) (eu_num W i) j A1);
    [| lia | apply eu_lt; assumption | exact Hj].
  apply sm_ext. intros k K. apply in_seq in K. rewrite sumd_zero by (intros; ring).
  assert (eu_numerical p W k (eu_num W i) = phi k) as ->; [| ring].
  assert (k < npts W)%nat as K' by lia. specialize (HP k K'). rewrite eu_interface in HP. congruence.
Qed.
Print Assumptions C121_boundary.

(** every position is that of a component *)
Lemma eu_inv W n : eu_ready W -> (n < dim W + 2)%nat -> exists i, (i < dim W + 2)%nat /\ n = eu_num W i.
Proof.
  intros A N. pose proof A as [AW [LN HN]].
  assert (incl (varlist W) (eu_names (dim W))) as INC.
  { assert (List.length (eu_names (dim W)) = (dim W + 2)%nat) as LE by (destruct (dims W AW) as [D | [D | D]]; rewrite D; reflexivity).
    apply NoDup_length_incl.
    - destruct (dims W AW) as [D | [D | D]]; rewrite D; cbn; repeat constructor; cbn; intuition discriminate.
    - lia.
    - intros x X. apply (In_nth _ _ ""%string) in X. destruct X as [m [M <-]]. apply HN. lia. }
  destruct (nth_error (varlist W) n) as [x |] eqn:E; [| apply nth_error_None in E; lia].
  assert (In x (eu_names (dim W))) as X by (apply INC; eapply nth_error_In; eassumption).
  apply (In_nth _ _ ""%string) in X. destruct X as [i [I X]].
  assert (i < dim W + 2)%nat as I' by (destruct (dims W AW) as [D | [D | D]]; rewrite D in *; cbn in I; lia).
  exists i. split; [exact I' |]. apply (is_var_uniq W n _ x AW E). rewrite <- X. apply eu_is; assumption.
Qed.
Lemma eu_jump_zero W k n : eu_ready W -> (forall i, (i < dim W + 2)%nat -> eu_S W k i = eu_trace W k i) ->
  (n < dim W + 2)%nat -> eu_jump W k n = 0.
Proof.
  intros A E N. destruct (eu_inv W n A N) as [i [I ->]]. rewrite eu_jump_spec by assumption. unfold minus. rewrite E by exact I. ring.
Qed.

Theorem C121_consistent p W k : eu_ready W -> eu_S W k 0%nat <> 0 ->
  (forall i, (i < dim W + 2)%nat -> eu_S W k i = eu_trace W k i) ->
  forall i, (i < dim W + 2)%nat -> ~ (dim W = 3 /\ i = 3)%nat ->
    eu_computeFlux p (interior W) k (eu_num W i) = Some (eu_G p W k (eu_S W k) i).
Proof.
  intros A NZ E i I X. rewrite eu_interface, eu_numerical_spec; [| assumption | assumption | assumption | rewrite <- E by lia; exact NZ]. f_equal.
  assert (eu_stab p W k (eu_num W i) = 0) as ->.
  { unfold eu_stab. destruct (euroe p).
    - destruct (eu_eig p W k) as [[L lam] Xm]. unfold roe_term, matVec.
      apply sm_zero. intros m M. cut (sm (seq 0 (dim W + 2)) (fun j0 => L m j0 * eu_jump W k j0) = 0); [intros ->; ring |].
      apply sm_zero. intros q Q. apply in_seq in Q. rewrite eu_jump_zero by (assumption || lia). ring.
    - unfold maxev_term. rewrite eu_jump_zero by (assumption || apply eu_lt; assumption). ring. }
  rewrite Rplus_0_r. unfold eu_G, normal_flux. apply sm_ext. intros e He. apply in_seq in He. f_equal.
  unfold eu_F, pressure. rewrite !(E (dim W + 1)%nat), !(E (1 + e)%nat), !(E 0%nat), !(E i) by lia.
  rewrite (sm_ext _ _ (fun c => eu_S W k (1 + c)%nat * eu_S W k (1 + c)%nat)); [reflexivity |].
  intros c C. apply in_seq in C. rewrite (E (1 + c)%nat) by lia. reflexivity.
Qed.
Print Assumptions C121_consistent.

Theorem C121_conservation p W B i phi : eu_ready W -> eu_ready B -> (i < dim W + 2)%nat -> (i < dim B + 2)%nat ->
  unity W (usebasis W (eu_num W i)) -> unity B (usebasis B (eu_num B i)) ->
  (forall k, (k < npts B)%nat -> eu_computeFlux p (interior B) k (eu_num B i) = Some (phi k)) ->
  ~ (dim W = 3 /\ i = 3)%nat -> (forall k, (k < npts W)%nat -> eu_S W k 0%nat <> 0) ->
  let v := nth i (eu_names (dim W)) ""%string in
  total W (residual (eu_volume p W)) (eu_num W i) = integral W (fun k => fld W (v ++ "_t")%string k - fn W ("source " ++ v)%string k) /\
  total B (residual (eu_boundary p B)) (eu_num B i) = integral B phi.
Proof.
  intros A AB I IB U UB HP X NZ v. split.
  - apply (total_weak W _ _ (fun e k => - eu_F (gam p) (dim W) (eu_S W k) i e) _ U).
    intros j Hj. apply (C121_volume p W i A I X NZ _ j (eu_is W i A I) Hj).
  - apply (total_weak B _ phi (fun _ _ => 0) _ UB). intros j Hj. apply (C121_boundary p B i phi AB IB HP _ j (eu_is B i AB IB) Hj).
Qed.
Print Assumptions C121_conservation.

(** The sound speed does not depend on the reference state chosen. *)
Definition physical (p : eup) : Prop := 1 < gam p /\ 0 < URef p /\ 0 < RGas p /\ 0 < TRef p.
Lemma mach_pos p : physical p -> 0 < MRef p.
Proof.
  intros [G [U [RR T]]]. unfold MRef. apply Rdiv_lt_0_compat; [exact U |]. apply sqrt_lt_R0. apply Rmult_lt_0_compat; [apply Rmult_lt_0_compat; lra | lra].
Qed.
Lemma rho_trace W k : eu_ready W -> eu_trace W k 0%nat = sf W true "rho" k.
Proof. intros A. unfold eu_trace, state. three W A; rewrite D; reflexivity. Qed.
Theorem C121_sound_speed p W k : eu_ready W -> physical p -> 0 < eu_trace W k 0%nat -> 0 <= pressure (gam p) (dim W) (eu_trace W k) ->
  eu_a p W true k = sqrt (gam p * pressure (gam p) (dim W) (eu_trace W k) / eu_trace W k 0%nat).
Proof.
  intros A PH R0 PP. pose proof (mach_pos p PH) as M. rewrite (rho_trace W k A) in *. unfold eu_a, eu_T.
  rewrite (eu_p_spec p W true k A) by lra. fold (eu_trace W k). set (P := pressure _ _ _) in *. destruct PH as [G _].
  assert (0 <= gam p * P / sf W true "rho" k) as Q.
  { apply Rmult_le_pos; [apply Rmult_le_pos; lra | apply Rlt_le, Rinv_0_lt_compat, R0]. }
  replace (gam p * MRef p * MRef p * P / sf W true "rho" k) with ((MRef p * MRef p) * (gam p * P / sf W true "rho" k)) by (field; lra).
  rewrite sqrt_mult; [| apply Rmult_le_pos; lra | exact Q]. rewrite sqrt_square by lra. field. lra.
Qed.
Print Assumptions C121_sound_speed.

(** ** C122: in three dimensions the z-momentum has no flux *)
Definition duct (d : nat) (names : list string) (l : list (string * R)) (bc : string) : wks :=
  {| dim := d; varlist := names; usebasis := fun _ => 0%nat; npts := 1; nbas := fun _ => 2%nat;
     offs := fun v i => (2 * v + i)%nat; wt := fun _ => 1; bas := fun _ _ _ => 1/2;
     bgr := fun _ i _ _ => if Nat.eqb i 0 then 1 else -1;
     fld := fun s _ => lookup l s; fn := fun s _ => lookup l s; hel := 1; bcs := fun _ => bc; sidename := "end"%string;
     isAdjoint := false; isTransient := true; deltat := 1 |}.
Lemma duct_wf d names l bc : (1 <= d <= 3)%nat -> NoDup names -> wf (duct d names l bc).
Proof. intros D N. constructor; cbn; [lia | exact N | intros; lia]. Qed.
Lemma duct_ready d l bc : (1 <= d <= 3)%nat -> eu_ready (duct d (eu_myvars d) l bc).
Proof.
  intros D. apply (eu_listed d); [| reflexivity | reflexivity]. apply duct_wf; [exact D |].
  assert (d = 1 \/ d = 2 \/ d = 3)%nat as [-> | [-> | ->]] by lia; cbn; repeat constructor; cbn; intuition discriminate.
Qed.
Lemma duct_ordered d l bc : (1 <= d <= 3)%nat -> wf (duct d (eu_names d) l bc).
Proof.
  intros D. apply duct_wf; [exact D |].
  assert (d = 1 \/ d = 2 \/ d = 3)%nat as [-> | [-> | ->]] by lia; cbn; repeat constructor; cbn; intuition discriminate.
Qed.

Definition air (roe : bool) : eup := {| gam := 2; URef := 1; RGas := 1/2; TRef := 1; euroe := roe |}.
Lemma air_physical roe : physical (air roe).
Proof. unfold physical; cbn. lra. Qed.
Lemma air_mach roe : MRef (air roe) = 1.
Proof. unfold MRef. cbn. replace (2 * (1 / 2) * 1) with 1 by lra. rewrite sqrt_1. lra. Qed.

(** A gas at rest under pressure: its z-momentum feels nothing, neither inside an element nor on
    its sides. *)
Definition still : wks := duct 3 (eu_myvars 3) [("rho", 1); ("rhoE", 1); ("aux rho", 1); ("aux rhoE", 1); ("n[z]", 1)]%string "interface".
Theorem C122_z_momentum_refuted : exists p W i, eu_ready W /\ physical p /\ dim W = 3%nat /\ (i < dim W + 2)%nat /\
  (forall k, eu_S W k 0%nat <> 0) /\
  let v := nth i (eu_names (dim W)) ""%string in
  ~ equation W (residual (eu_volume p W)) v
      (fun k => fld W (v ++ "_t")%string k - fn W ("source " ++ v)%string k)
      (fun e k => - eu_F (gam p) (dim W) (eu_S W k) i e) /\
  exists k, unit_normal W k /\ (forall j, (j < dim W + 2)%nat -> eu_S W k j = eu_trace W k j) /\
    eu_computeFlux p (interior W) k (eu_num W i) <> Some (eu_G p W k (eu_S W k) i).
Proof.
  exists (air false), still, 3%nat. split; [apply duct_ready; lia |]. split; [apply air_physical |]. split; [reflexivity |].
  split; [cbn; lia |]. split; [intros k; cbn; lra |]. split.
  - intros H. specialize (H 4%nat 0%nat eq_refl). cbn in H. specialize (H ltac:(lia)).
    assert (pressure 2 3 (eu_S still 0) = 1) as PR by (unfold pressure, sm; cbn; lra).
    unfold residual, sm, weak, integral, sumd, sm in H. cbn in H. rewrite PR in H. lra.
  - exists 0%nat. split; [unfold unit_normal, sumd, sm; cbn; ring |]. split.
    + intros j J. cbn in J. cases_lt j J; reflexivity.
    + assert (pressure 2 3 (eu_S still 0) = 1) as PR by (unfold pressure, sm; cbn; lra).
      rewrite eu_interface. unfold eu_numerical, eu_stab, maxev_term, eu_G, normal_flux, sm. cbn. rewrite PR. intros H. injection H. lra.
Qed.
Print Assumptions C122_z_momentum_refuted.

(** ** C123: stabilization by the largest wave speed *)
(** One dimension, moving gas: the true left eigenvectors. *)
Definition eu_left1 (rhoux rho a gamma : R) : nat -> nat -> R :=
  let gm1 := gamma - 1 in let u := rhoux / rho in
  ofm [ [gm1*u*u/(4*a*a) + u/(2*a); - (gm1*u/(2*a*a)) - 1/(2*a); gm1/(2*a*a)];
        [1 - gm1*u*u/(2*a*a); gm1*u/(a*a); - (gm1/(a*a))];
        [gm1*u*u/(4*a*a) - u/(2*a); - (gm1*u/(2*a*a)) + 1/(2*a); gm1/(2*a*a)] ].
Lemma eu_true1 gamma a n S : 1 < gamma -> 0 < S 0%nat -> 0 < a -> a * a = gamma * pressure gamma 1 S / S 0%nat ->
  n 0%nat * n 0%nat = 1 ->
  let '(_, lam, X) := eu_eig1 (S 1%nat) (S 0%nat) a gamma in
  eigenbasis 3 (eu_J gamma 1 n S) X (eu_left1 (S 1%nat) (S 0%nat) a gamma) (fun k => n 0%nat * lam k).
Proof.
  intros G P A E N. apply energy in E; [| assumption | assumption]. unfold eu_eig1, eu_left1, eu_J, pressure.
  cbn [Nat.add seq map] in *. unfold sm in *. cbn [map rsum fold_right Nat.add] in *.
  split; intros i j Hi Hj; cases_lt i Hi; cases_lt j Hj; entry; rewrite ?E; field; repeat split; lra.
Qed.

Definition eu_scale (W : wks) (k : nat) : R := if Nat.eqb (dim W) 1 then nx W k else 1.
Lemma eu_speed p W k : eu_ready W -> physical p -> 0 < eu_trace W k 0%nat -> 0 < pressure (gam p) (dim W) (eu_trace W k) ->
  0 < eu_a p W true k /\ eu_a p W true k * eu_a p W true k = gam p * pressure (gam p) (dim W) (eu_trace W k) / eu_trace W k 0%nat.
Proof.
  intros A PH R0 PP. rewrite C121_sound_speed by (assumption || lra). pose proof PH as [G _].
  assert (0 < gam p * pressure (gam p) (dim W) (eu_trace W k) / eu_trace W k 0%nat) as Q
    by (apply Rdiv_lt_0_compat; [apply Rmult_lt_0_compat; lra | exact R0]).
  split; [apply sqrt_lt_R0, Q | apply sqrt_sqrt; lra].
Qed.
Lemma eu_true p W k : eu_ready W -> physical p -> 0 < eu_trace W k 0%nat -> 0 < pressure (gam p) (dim W) (eu_trace W k) -> unit_normal W k ->
  exists J, jacobian (dim W + 2) (eu_G p W k) (eu_trace W k) J /\
    exists Y, let '(L, lam, X) := eu_eig p W k in eigenbasis (dim W + 2) J X Y (fun m => eu_scale W k * lam m) /\
      ((2 <= dim W)%nat \/ eu_trace W k 1%nat = 0 -> Y = L).
Proof.
  intros A PH R0 PP U. destruct (eu_speed p W k A PH R0 PP) as [A0 AA]. pose proof PH as [G _].
  unfold eu_G, eu_scale, eu_eig, unit_normal in *. three W A.
  - rewrite (sumd_1 W _ D) in U. unfold eu_trace in *. rewrite D in *. cbn [Nat.eqb Nat.add].
    exists (eu_J (gam p) 1 (nrm W k) (state (eu_names 1) W "aux " k)). split; [apply eu_jac1; lra |].
    destruct (Req_dec (state (eu_names 1) W "aux " k 1) 0) as [Z | NZ].
    + eexists. split; [apply (eu_basis1 (gam p) (eu_a p W true k) (nrm W k) (state (eu_names 1) W "aux " k) G R0 A0 AA U Z) |]. reflexivity.
    + eexists. split; [apply (eu_true1 (gam p) (eu_a p W true k) (nrm W k) (state (eu_names 1) W "aux " k) G R0 A0 AA U) |]. intros [? | ?]; [lia | contradiction].
  - rewrite (sumd_2 W _ D) in U. unfold eu_trace in *. rewrite D in *. cbn [Nat.eqb Nat.add].
    eexists. split; [apply eu_jac2; lra |]. eexists.
    pose proof (eu_basis2 (gam p) (eu_a p W true k) (nrm W k) (state (eu_names 2) W "aux " k) G R0 A0 AA U) as [B1 B2 B3].
    split; [split; [exact B1 | exact B2 |] |].
    + intros i j Hi Hj. rewrite Rmult_1_l. apply B3; assumption.
    + reflexivity.
  - rewrite (sumd_3 W _ D) in U. unfold eu_trace in *. rewrite D in *. cbn [Nat.eqb Nat.add].
    eexists. split; [apply eu_jac3; lra |]. eexists.
    pose proof (eu_basis3 (gam p) (eu_a p W true k) (nrm W k) (state (eu_names 3) W "aux " k) G R0 A0 AA U) as [B1 B2 B3].
    split; [split; [exact B1 | exact B2 |] |].
    + intros i j Hi Hj. rewrite Rmult_1_l. apply B3; assumption.
    + reflexivity.
Qed.

Theorem C123_max_speed p W k : eu_ready W -> physical p -> euroe p = false ->
  0 < eu_trace W k 0%nat -> 0 < pressure (gam p) (dim W) (eu_trace W k) -> unit_normal W k ->
  exists J l, jacobian (dim W + 2) (eu_G p W k) (eu_trace W k) J /\ spectral_radius (dim W + 2) J l /\
    forall i, (i < dim W + 2)%nat -> ~ (dim W = 3 /\ i = 3)%nat ->
      eu_computeFlux p (interior W) k (eu_num W i) = Some (eu_G p W k (eu_trace W k) i + l * (eu_S W k i - eu_trace W k i)).
Proof.
  intros A PH RO R0 PP U. destruct (eu_true p W k A PH R0 PP U) as [J [HJ [Y E]]].
  exists J, (Rmax (Rabs (eu_vn W true k + eu_a p W true k)) (Rabs (eu_vn W true k - eu_a p W true k))).
  split; [exact HJ |]. split.
  - assert (sf W true "rho" k <> 0) as NZ by (rewrite <- rho_trace by exact A; lra).
    destruct (eu_eig p W k) as [[L lam] X] eqn:EQ. destruct E as [E _]. unfold eu_eig in EQ. unfold eu_vn, eu_scale in *. three W A; rewrite D in *; cbn [Nat.eqb Nat.ltb Nat.leb Nat.add] in *.
    + unfold unit_normal in U. rewrite (sumd_1 W _ D) in U. change (nx W k * nx W k = 1) in U.
      unfold eu_eig1 in EQ. injection EQ as _ Elam _. rewrite !Rplus_0_r.
      assert (nx W k = 1 \/ nx W k = -1) as NN.
      { assert ((nx W k - 1) * (nx W k + 1) = 0) as Q by lra. apply Rmult_integral in Q. destruct Q; [left | right]; lra. }
      destruct NN as [N1 | N1].
      * apply (radius _ _ _ _ _ _ _ 2 0 E); [lia | lia | | |]; subst lam; cbn; rewrite ?N1.
        -- f_equal. field. exact NZ.
        -- f_equal. field. exact NZ.
        -- intros m M. destruct m as [| [| [| m]]]; [right; left; reflexivity | right; right | left; reflexivity | lia]. cbn. f_equal. field. exact NZ.
      * apply (radius _ _ _ _ _ _ _ 0 2 E); [lia | lia | | |]; subst lam; cbn; rewrite ?N1.
        -- f_equal. field. exact NZ.
        -- f_equal. field. exact NZ.
        -- intros m M. destruct m as [| [| [| m]]]; [left; reflexivity | right; right | right; left; reflexivity | lia]. cbn. f_equal. field. exact NZ.
    + unfold eu_eig2 in EQ. injection EQ as _ Elam _. rewrite !Rplus_0_r.
      apply (radius _ _ _ _ _ _ _ 2 0 E); [lia | lia | | |]; subst lam; cbn.
      * f_equal. field. exact NZ.
      * f_equal. field. exact NZ.
      * intros m M. destruct m as [| [| [| [| m]]]]; [right; left; reflexivity | right; right | left; reflexivity | right; right | lia]; cbn; f_equal; field; exact NZ.
    + unfold eu_eig3 in EQ. injection EQ as _ Elam _.
      apply (radius _ _ _ _ _ _ _ 2 0 E); [lia | lia | | |]; subst lam; cbn.
      * f_equal. field. exact NZ.
      * f_equal. field. exact NZ.
      * intros m M. destruct m as [| [| [| [| [| m]]]]]; [right; left; reflexivity | right; right | left; reflexivity | right; right | right; right | lia]; cbn; f_equal; field; exact NZ.
  - intros i I X. rewrite eu_interface, eu_numerical_spec by (assumption || lra). f_equal. f_equal.
    unfold eu_stab. rewrite RO. unfold maxev_term. rewrite eu_jump_spec by assumption. unfold minus. ring.
Qed.
Print Assumptions C123_max_speed.

(** ** C124: stabilization by |J| *)
Definition eu_roe_flux (p : eup) (W : wks) (k : nat) : Prop :=
  exists J M, jacobian (dim W + 2) (eu_G p W k) (eu_trace W k) J /\ fun_of (dim W + 2) Rabs J M /\
    forall i, (i < dim W + 2)%nat -> ~ (dim W = 3 /\ i = 3)%nat ->
      eu_computeFlux p (interior W) k (eu_num W i) =
      Some (eu_G p W k (eu_trace W k) i + mvec (dim W + 2) M (minus (eu_S W k) (eu_trace W k)) i).
Lemma eu_scale_abs W k : eu_ready W -> unit_normal W k -> Rabs (eu_scale W k) = 1.
Proof.
  intros A U. unfold eu_scale. three W A; rewrite D; cbn [Nat.eqb]; [| apply Rabs_R1 | apply Rabs_R1].
  apply unit_abs. unfold unit_normal in U. rewrite (sumd_1 W _ D) in U. exact U.
Qed.
(** Unknowns in the order of the matrices, and in one dimension the gas at rest. *)
Theorem C124_ordered_partial p W k : wf W -> varlist W = eu_names (dim W) -> physical p -> euroe p = true ->
  0 < eu_trace W k 0%nat -> 0 < pressure (gam p) (dim W) (eu_trace W k) -> unit_normal W k ->
  (2 <= dim W)%nat \/ eu_trace W k 1%nat = 0 -> eu_roe_flux p W k.
Proof.
  intros AW V PH RO R0 PP U C. destruct (eu_ordered (dim W) W AW eq_refl V) as [A ID].
  destruct (eu_true p W k A PH R0 PP U) as [J [HJ [Y E]]]. pose proof (eu_scale_abs W k A U) as SC.
  destruct (eu_eig p W k) as [[L lam] X] eqn:EQ. destruct E as [E EY]. rewrite (EY C) in E. clear EY Y.
  exists J, (spread (dim W + 2) X L (fun m => eu_scale W k * lam m) Rabs). split; [exact HJ |]. split; [apply (spread_fun _ _ _ _ _ E) |].
  intros i I NX. rewrite eu_interface, eu_numerical_spec by (assumption || lra). f_equal. f_equal.
  unfold eu_stab. rewrite RO, EQ. rewrite (ID i I).
  rewrite (roe_ext _ _ _ _ _ (minus (eu_S W k) (eu_trace W k))) by (intros j Hj; rewrite <- (ID j Hj) at 1; apply eu_jump_spec; assumption).
  rewrite <- (roe_is _ _ _ _ _ _ _ E). unfold roe_term, matVec. apply sm_ext. intros m _. rewrite Rabs_mult, SC, Rmult_1_l. reflexivity.
Qed.
Print Assumptions C124_ordered_partial.

(** with the unknowns as the module itself lists them, a jump in energy alone is not damped *)
Definition hot : wks := duct 2 (eu_myvars 2)
  [("rho", 1); ("rhoE", 3/2); ("aux rho", 1); ("aux rhoE", 1/2); ("n[x]", 1);
   ("Far-field rho end", 1); ("Far-field rhoE end", 1/2)]%string "Far-field".
Lemma hot_speed roe : eu_a (air roe) hot true 0 = 1.
Proof.
  rewrite C121_sound_speed; [| apply duct_ready; lia | apply air_physical | cbn; lra | unfold pressure, sm; cbn; lra].
  assert (pressure 2 2 (eu_trace hot 0) = 1/2) as PR by (unfold pressure, sm; cbn; lra).
  cbn [gam air]. change (dim hot) with 2%nat. rewrite PR. cbn.
  replace (2 * (1 / 2) / 1) with 1 by lra. apply sqrt_1.
Qed.
Lemma hot_jac J : jacobian 4 (eu_G (air true) hot 0) (eu_trace hot 0) J -> row_eig 4 J (ofv [0; 1; 0; 1]) 1.
Proof.
  intros HJ. assert (eu_trace hot 0 0 <> 0) as NZ by (cbn; lra).
  pose proof (jac_unique _ _ _ _ _ HJ (eu_jac2 2 (nrm hot 0) (eu_trace hot 0) NZ)) as EJ.
  intros y. unfold mvec, dot, sm. cbn [seq map rsum fold_right]. rewrite !EJ by lia.
  unfold eu_J, pressure, sm, nrm, normal, delta, ofv. cbn. lra.
Qed.
Theorem C124_order_refuted : exists p W k, eu_ready W /\ dim W = 2%nat /\ varlist W = eu_myvars 2 /\ physical p /\ euroe p = true /\
  0 < eu_trace W k 0%nat /\ 0 < pressure (gam p) (dim W) (eu_trace W k) /\ unit_normal W k /\ ~ eu_roe_flux p W k.
Proof.
  exists (air true), hot, 0%nat. assert (eu_ready hot) as A by (apply duct_ready; lia).
  split; [exact A |]. split; [reflexivity |]. split; [reflexivity |]. split; [apply air_physical |]. split; [reflexivity |].
  split; [cbn; lra |]. split; [unfold pressure, sm; cbn; lra |]. split; [unfold unit_normal, sumd, sm; cbn; ring |].
  intros [J [M [HJ [HM FX]]]]. change (dim hot + 2)%nat with 4%nat in *.
  pose proof (fun_of_row 4 Rabs J M (ofv [0; 1; 0; 1]) 1 (minus (eu_S hot 0) (eu_trace hot 0)) HM (hot_jac J HJ)) as Q.
  assert (forall i, (i < 4)%nat -> mvec 4 M (minus (eu_S hot 0) (eu_trace hot 0)) i = 0) as Z.
  { intros i I. assert (~ (dim hot = 3 /\ i = 3)%nat) as NX by (intros [C _]; discriminate C).
    specialize (FX i I NX). rewrite eu_interface, eu_numerical_spec in FX; [| exact A | exact I | exact NX | cbn; lra].
    assert (eu_stab (air true) hot 0 (eu_num hot i) = 0) as SZ; [| rewrite SZ in FX; injection FX; lra].
    unfold eu_stab, eu_eig. cbn [euroe air dim hot duct]. rewrite hot_speed. unfold eu_eig2, roe_term, matVec, sm, ofv, ofm.
    cases_lt i I; cbn; rewrite ?Rmult_0_r, ?Rplus_0_r, ?Rabs_R0; cbv [Rdiv Rminus]; rewrite ?Rmult_0_l, ?Ropp_0, ?Rplus_0_l, ?Rplus_0_r, ?Rabs_R0; field. }
  unfold dot at 1, sm in Q. cbn [seq map rsum fold_right] in Q. rewrite !Z in Q by lia. rewrite Rabs_R1 in Q. unfold dot, sm, minus in Q. cbn in Q. lra.
Qed.
Print Assumptions C124_order_refuted.

(** one dimension, moving gas: the left eigenvectors are wrong *)
Definition pipe (S1 S2 : R) : wks := duct 1 (eu_myvars 1)
  [("rho", 1); ("rhoux", S1); ("rhoE", S2); ("aux rho", 1); ("aux rhoux", 1); ("aux rhoE", 1); ("n[x]", 1);
   ("Far-field rho end", 1); ("Far-field rhoux end", 1); ("Far-field rhoE end", 1)]%string "Far-field".
Lemma pipe_speed roe S1 S2 : eu_a (air roe) (pipe S1 S2) true 0 = 1.
Proof.
  rewrite C121_sound_speed; [| apply duct_ready; lia | apply air_physical | cbn; lra | unfold pressure, sm; cbn; lra].
  assert (pressure 2 1 (eu_trace (pipe S1 S2) 0) = 1/2) as PR by (unfold pressure, sm; cbn; lra).
  cbn [gam air]. change (dim (pipe S1 S2)) with 1%nat. rewrite PR. cbn.
  replace (2 * (1 / 2) / 1) with 1 by lra. apply sqrt_1.
Qed.
Lemma pipe_jac S1 S2 J : jacobian 3 (eu_G (air true) (pipe S1 S2) 0) (eu_trace (pipe S1 S2) 0) J -> row_eig 3 J (ofv [-1; 0; 2]) 2.
Proof.
  intros HJ. assert (eu_trace (pipe S1 S2) 0 0 <> 0) as NZ by (cbn; lra).
  pose proof (jac_unique _ _ _ _ _ HJ (eu_jac1 2 (nrm (pipe S1 S2) 0) (eu_trace (pipe S1 S2) 0) NZ)) as EJ.
  intros y. unfold mvec, dot, sm. cbn [seq map rsum fold_right]. rewrite !EJ by lia.
  unfold eu_J, pressure, sm, nrm, normal, delta, ofv. cbn. lra.
Qed.
Lemma abs_0 x : x = 0 -> Rabs x = 0. Proof. intros ->. apply Rabs_R0. Qed.
Lemma abs_pos x : 0 <= x -> Rabs x = x. Proof. apply Rabs_pos_eq. Qed.
Theorem C124_1d_refuted : exists p W k, eu_ready W /\ dim W = 1%nat /\ varlist W = eu_names 1 /\ physical p /\ euroe p = true /\
  0 < eu_trace W k 0%nat /\ 0 < pressure (gam p) (dim W) (eu_trace W k) /\ normal W 0 k = 1 /\ ~ eu_roe_flux p W k.
Proof.
  exists (air true), (pipe 2 1), 0%nat. assert (eu_ready (pipe 2 1)) as A by (apply duct_ready; lia).
  split; [exact A |]. split; [reflexivity |]. split; [reflexivity |]. split; [apply air_physical |]. split; [reflexivity |].
  split; [cbn; lra |]. split; [unfold pressure, sm; cbn; lra |]. split; [reflexivity |].
  intros [J [M [HJ [HM FX]]]]. change (dim (pipe 2 1) + 2)%nat with 3%nat in *.
  pose proof (fun_of_row 3 Rabs J M (ofv [-1; 0; 2]) 2 (minus (eu_S (pipe 2 1) 0) (eu_trace (pipe 2 1) 0)) HM (pipe_jac 2 1 J HJ)) as Q.
  assert (forall i, (i < 3)%nat -> mvec 3 M (minus (eu_S (pipe 2 1) 0) (eu_trace (pipe 2 1) 0)) i = ofv [0; -1; -2] i) as Z.
  { intros i I. assert (~ (dim (pipe 2 1) = 3 /\ i = 3)%nat) as NX by (intros [C _]; discriminate C).
    specialize (FX i I NX). rewrite eu_interface, eu_numerical_spec in FX; [| exact A | exact I | exact NX | cbn; lra].
    assert (eu_stab (air true) (pipe 2 1) 0 (eu_num (pipe 2 1) i) = ofv [0; -1; -2] i) as SZ; [| rewrite SZ in FX; injection FX; lra].
    unfold eu_stab, eu_eig. cbn [euroe air dim pipe duct]. rewrite pipe_speed. unfold eu_eig1, roe_term, matVec, sm, ofv, ofm.
    assert (Rabs (1 / 1 - 1) = 0) as A1 by (apply abs_0; lra).
    assert (Rabs (1 / 1) = 1) as A2 by (rewrite abs_pos; lra).
    assert (Rabs (1 / 1 + 1) = 2) as A3 by (rewrite abs_pos; lra).
    cases_lt i I; cbn; rewrite A1, A2, A3; lra. }
  unfold dot at 1, sm in Q. cbn [seq map rsum fold_right] in Q. rewrite !Z in Q by lia. rewrite (abs_pos 2) in Q by lra. unfold dot, sm, minus in Q. cbn in Q. lra.
Qed.
Print Assumptions C124_1d_refuted.

(** ** C125: far-field sides *)
Definition eu_far_condition (p : eup) (W : wks) (k : nat) : Prop :=
  exists J, jacobian (dim W + 2) (eu_G p W k) (eu_trace W k) J /\
    ((forall i, (i < dim W + 2)%nat -> eu_computeFlux p W k (eu_num W i) = Some 0) <->
     (forall l mu, row_eig (dim W + 2) J l mu ->
        (0 < mu -> dot (dim W + 2) l (eu_S W k) = dot (dim W + 2) l (eu_trace W k)) /\
        (mu < 0 -> dot (dim W + 2) l (eu_far W k) = dot (dim W + 2) l (eu_trace W k)))).
Theorem C125_ordered_partial p W k : wf W -> varlist W = eu_names (dim W) -> physical p ->
  0 < eu_trace W k 0%nat -> 0 < pressure (gam p) (dim W) (eu_trace W k) -> unit_normal W k ->
  (2 <= dim W)%nat \/ (eu_trace W k 1%nat = 0 /\ normal W 0 k = 1) ->
  bcs W 0%nat = "Far-field"%string -> eu_far_condition p W k.
Proof.
  intros AW V PH R0 PP U C BC. destruct (eu_ordered (dim W) W AW eq_refl V) as [A ID].
  destruct (eu_true p W k A PH R0 PP U) as [J [HJ [Y E]]]. exists J. split; [exact HJ |].
  destruct (eu_eig p W k) as [[L lam] X] eqn:EQ. destruct E as [E EY]. rewrite (EY ltac:(tauto)) in E. clear EY Y.
  assert (eu_scale W k = 1) as SC.
  { unfold eu_scale. destruct (Nat.eqb_spec (dim W) 1) as [D | D]; [| reflexivity]. destruct C as [C | [_ C]]; [lia | exact C]. }
  assert (eigenbasis (dim W + 2) J X L lam) as E1.
  { destruct E as [B1 B2 B3]. split; [exact B1 | exact B2 |]. intros i j Hi Hj. rewrite (B3 i j Hi Hj), SC. ring. }
  assert (rho_num W = 0%nat) as N0.
  { assert (0 < dim W + 2)%nat as Z by lia. pose proof (ID 0%nat Z) as Q. unfold eu_num in Q. three W A; rewrite D in Q; exact Q. }
  pose proof (split_zero (dim W + 2) J _ _ (minus (eu_S W k) (eu_trace W k)) (minus (eu_far W k) (eu_trace W k))
               (spread_fun _ _ _ _ _ E1 pos_part) (spread_fun _ _ _ _ _ E1 neg_part)) as SZ.
  assert (forall i, (i < dim W + 2)%nat -> eu_computeFlux p W k (eu_num W i) =
    Some (mvec (dim W + 2) (spread (dim W + 2) X L lam pos_part) (minus (eu_S W k) (eu_trace W k)) i
          - mvec (dim W + 2) (spread (dim W + 2) X L lam neg_part) (minus (eu_far W k) (eu_trace W k)) i)) as FX.
  { intros i I. unfold eu_computeFlux. rewrite N0, BC. cbn [String.eqb Ascii.eqb Bool.eqb orb]. f_equal.
    unfold eu_bound. rewrite N0, BC, EQ. rewrite String.eqb_refl. rewrite (ID i I).
    rewrite <- (far_is _ _ _ _ _ _ _ _ E1). apply far_ext; intros j Hj; rewrite <- (ID j Hj) at 1.
    - apply eu_jump_spec; assumption.
    - rewrite eu_dS_spec by assumption. reflexivity. }
  split.
  - intros H. assert (forall l mu, row_eig (dim W + 2) J l mu -> (0 < mu -> dot (dim W + 2) l (minus (eu_S W k) (eu_trace W k)) = 0) /\
        (mu < 0 -> dot (dim W + 2) l (minus (eu_far W k) (eu_trace W k)) = 0)) as Q.
    { apply SZ. intros i I. specialize (H i I). rewrite FX in H by exact I. congruence. }
    intros l mu Hl. destruct (Q l mu Hl) as [Q1 Q2]. split; intros S; [specialize (Q1 S); rewrite dot_sub in Q1 | specialize (Q2 S); rewrite dot_sub in Q2]; lra.
  - intros H i I. rewrite FX by exact I. f_equal. apply SZ; [| lia]. intros l mu Hl. destruct (H l mu Hl) as [Q1 Q2].
    split; intros S; rewrite dot_sub; [rewrite (Q1 S) | rewrite (Q2 S)]; ring.
Qed.
Print Assumptions C125_ordered_partial.

Theorem C125_order_refuted : exists p W k, eu_ready W /\ dim W = 2%nat /\ varlist W = eu_myvars 2 /\ physical p /\
  0 < eu_trace W k 0%nat /\ 0 < pressure (gam p) (dim W) (eu_trace W k) /\ unit_normal W k /\ bcs W 0%nat = "Far-field"%string /\
  (forall i, (i < dim W + 2)%nat -> eu_computeFlux p W k (eu_num W i) = Some 0) /\ ~ eu_far_condition p W k.
Proof.
  exists (air true), hot, 0%nat. assert (eu_ready hot) as A by (apply duct_ready; lia).
  split; [exact A |]. split; [reflexivity |]. split; [reflexivity |]. split; [apply air_physical |].
  split; [cbn; lra |]. split; [unfold pressure, sm; cbn; lra |]. split; [unfold unit_normal, sumd, sm; cbn; ring |]. split; [reflexivity |].
  assert (forall i, (i < dim hot + 2)%nat -> eu_computeFlux (air true) hot 0 (eu_num hot i) = Some 0) as Z.
  { intros i I. unfold eu_computeFlux. change (bcs hot (rho_num hot)) with "Far-field"%string. cbn [String.eqb Ascii.eqb Bool.eqb orb]. f_equal.
    unfold eu_bound. change (bcs hot (rho_num hot)) with "Far-field"%string. rewrite String.eqb_refl.
    unfold eu_eig. cbn [dim hot duct]. rewrite hot_speed. unfold eu_eig2, far_term, matVec, sm, ofv, ofm.
    change (dim hot) with 2%nat in I. cbn [Nat.add] in I.
    assert (Rabs (0 / 1 * 1 + 0 / 1 * 0 - 1) = 1) as A1 by (rewrite Rabs_left; lra).
    assert (Rabs (0 / 1 * 1 + 0 / 1 * 0) = 0) as A2 by (apply abs_0; lra).
    assert (Rabs (0 / 1 * 1 + 0 / 1 * 0 + 1) = 1) as A3 by (rewrite abs_pos; lra).
    cases_lt i I; cbn; rewrite A1, A2, A3; lra. }
  split; [exact Z |]. intros [J [HJ [Q _]]]. specialize (Q Z). change (dim hot + 2)%nat with 4%nat in *.
  destruct (Q (ofv [0; 1; 0; 1]) 1 (hot_jac J HJ)) as [Q1 _]. specialize (Q1 ltac:(lra)). unfold dot, sm in Q1. cbn in Q1. lra.
Qed.
Print Assumptions C125_order_refuted.
Theorem C125_1d_refuted : exists p W k, eu_ready W /\ dim W = 1%nat /\ varlist W = eu_names 1 /\ physical p /\
  0 < eu_trace W k 0%nat /\ 0 < pressure (gam p) (dim W) (eu_trace W k) /\ normal W 0 k = 1 /\ bcs W 0%nat = "Far-field"%string /\
  (forall i, (i < dim W + 2)%nat -> eu_computeFlux p W k (eu_num W i) = Some 0) /\ ~ eu_far_condition p W k.
Proof.
  exists (air true), (pipe 2 2), 0%nat. assert (eu_ready (pipe 2 2)) as A by (apply duct_ready; lia).
  split; [exact A |]. split; [reflexivity |]. split; [reflexivity |]. split; [apply air_physical |].
  split; [cbn; lra |]. split; [unfold pressure, sm; cbn; lra |]. split; [reflexivity |]. split; [reflexivity |].
  assert (forall i, (i < dim (pipe 2 2) + 2)%nat -> eu_computeFlux (air true) (pipe 2 2) 0 (eu_num (pipe 2 2) i) = Some 0) as Z.
  { intros i I. unfold eu_computeFlux. change (bcs (pipe 2 2) (rho_num (pipe 2 2))) with "Far-field"%string. cbn [String.eqb Ascii.eqb Bool.eqb orb]. f_equal.
    unfold eu_bound. change (bcs (pipe 2 2) (rho_num (pipe 2 2))) with "Far-field"%string. rewrite String.eqb_refl.
    unfold eu_eig. cbn [dim pipe duct]. rewrite pipe_speed. unfold eu_eig1, far_term, matVec, sm, ofv, ofm.
    change (dim (pipe 2 2)) with 1%nat in I. cbn [Nat.add] in I.
    assert (Rabs (1 / 1 - 1) = 0) as A1 by (apply abs_0; lra).
    assert (Rabs (1 / 1) = 1) as A2 by (rewrite abs_pos; lra).
    assert (Rabs (1 / 1 + 1) = 2) as A3 by (rewrite abs_pos; lra).
    cases_lt i I; cbn; rewrite A1, A2, A3; lra. }
  split; [exact Z |]. intros [J [HJ [Q _]]]. specialize (Q Z). change (dim (pipe 2 2) + 2)%nat with 3%nat in *.
  destruct (Q (ofv [-1; 0; 2]) 2 (pipe_jac 2 2 J HJ)) as [Q1 _]. specialize (Q1 ltac:(lra)). unfold dot, sm in Q1. cbn in Q1. lra.
Qed.
Print Assumptions C125_1d_refuted.

(** ** C126: slip sides *)
Lemma quotient d x y t : dot d (fun c => x c / y) t = dot d x t / y.
Proof. unfold Rdiv, dot. rewrite <- sm_scal_r. apply sm_ext. intros; ring. Qed.
Theorem C126_slip p W k : eu_ready W -> unit_normal W k -> bcs W (eu_num W 0) = "Slip"%string ->
  eu_S W k 0%nat <> 0 -> eu_trace W k 0%nat <> 0 ->
  (forall i, (i < dim W + 2)%nat -> eu_computeFlux p W k (eu_num W i) = Some 0) <->
  (eu_trace W k 0%nat = eu_S W k 0%nat /\ eu_trace W k (dim W + 1)%nat = eu_S W k (dim W + 1)%nat /\
   dot (dim W) (momentum (eu_trace W k)) (nrm W k) = 0 /\
   forall t, dot (dim W) t (nrm W k) = 0 -> dot (dim W) (momentum (eu_trace W k)) t = dot (dim W) (momentum (eu_S W k)) t).
Proof.
  intros A U BC NS NT.
  set (u := fun c => momentum (eu_S W k) c / eu_S W k 0%nat). set (v := fun c => momentum (eu_trace W k) c / eu_trace W k 0%nat).
  assert (bcs W (rho_num W) = "Slip"%string) as BC'.
  { exact BC. }
  assert (forall i, (i < dim W + 2)%nat -> eu_computeFlux p W k (eu_num W i) =
    Some (if (Nat.eqb i 0 || Nat.eqb i (dim W + 1))%bool then eu_S W k i - eu_trace W k i
          else u (i - 1)%nat - dot (dim W) u (nrm W k) * nrm W k (i - 1)%nat - v (i - 1)%nat)) as FX.
  { intros i I. unfold eu_computeFlux. rewrite BC'. cbn [String.eqb Ascii.eqb Bool.eqb orb]. f_equal.
    unfold eu_bound. rewrite BC'. cbn [String.eqb Ascii.eqb Bool.eqb].
    subst u v. unfold momentum, eu_S, eu_trace, state, nrm, normal, nx, ny, nz, sf, eu_vn.
    three W A; numbers W A D; rewrite D in *; cases_lt i I; flat; decide_nums W; cbn; try reflexivity;
      unfold dot, sm, nx, ny, nz, sf; cbn; unfold Rdiv; ring. }
  assert (dot (dim W) (nrm W k) (nrm W k) = 1) as N.
  { unfold unit_normal in U. rewrite <- U. reflexivity. }
  pose proof (tangential (dim W) (nrm W k) u v N) as T.
  assert (forall c, (c < dim W)%nat -> (Nat.eqb (1 + c) 0 || Nat.eqb (1 + c) (dim W + 1))%bool = false) as MID.
  { intros c C. rewrite !(proj2 (Nat.eqb_neq _ _)) by lia. reflexivity. }
  split.
  - intros H.
    assert (eu_trace W k 0%nat = eu_S W k 0%nat) as E0.
    { specialize (H 0%nat ltac:(lia)). rewrite FX in H by lia. cbn in H. injection H. lra. }
    assert (eu_trace W k (dim W + 1)%nat = eu_S W k (dim W + 1)%nat) as E1.
    { assert (dim W + 1 < dim W + 2)%nat as L by lia. specialize (H _ L). rewrite FX, Nat.eqb_refl, orb_true_r in H by exact L. injection H. lra. }
    split; [exact E0 |]. split; [exact E1 |]. destruct (proj1 T) as [T1 T2].
    { intros c C. assert (1 + c < dim W + 2)%nat as C' by lia. specialize (H _ C'). rewrite FX, MID in H by assumption.
      replace (1 + c - 1)%nat with c in H by lia. injection H. auto. }
    subst u v. rewrite quotient in T1. split.
    + apply (Rmult_eq_reg_r (/ eu_trace W k 0%nat)); [rewrite Rmult_0_l; exact T1 | apply Rinv_neq_0_compat, NT].
    + intros t Ht. specialize (T2 t Ht). rewrite !quotient, E0 in T2. unfold Rdiv in T2. apply Rmult_eq_reg_r in T2; [exact T2 | apply Rinv_neq_0_compat, NS].
  - intros [E0 [E1 [T1 T2]]] i I. rewrite FX by exact I. f_equal.
    destruct (Nat.eqb_spec i 0) as [-> | N0]; [cbn; rewrite E0; ring |].
    destruct (Nat.eqb_spec i (dim W + 1)) as [-> | N1]; [cbn; rewrite E1; ring |]. cbn [orb].
    apply (proj2 T); [| lia]. subst u v. split; [rewrite quotient, T1; unfold Rdiv; ring |].
    intros t Ht. rewrite !quotient, E0, (T2 t Ht). reflexivity.
Qed.
Print Assumptions C126_slip.

(** ** Cases *)
Example C121_meets : eu_ready still /\ (forall k, eu_S still k 0%nat <> 0).
Proof. split; [apply duct_ready; lia | intros; cbn; lra]. Qed.
(** gas at rest: only the pressure acts on the sides *)
Example C121_value : let W := duct 2 (eu_myvars 2) [("rho", 1); ("rhoE", 3); ("aux rho", 1); ("aux rhoE", 3); ("n[x]", 1)]%string "interface" in
  eu_computeFlux (air true) (interior W) 0 (eu_num W 1) = Some 3.
Proof.
  intros W. assert (eu_ready W) as A by (apply duct_ready; lia).
  rewrite (C121_consistent (air true) W 0 A); [| cbn; lra | | cbn; lia | intros [C _]; discriminate C].
  - f_equal. unfold eu_G, normal_flux, eu_F, pressure, sm. cbn. unfold pressure, sm, delta. cbn. lra.
  - intros i I. change (i < 4)%nat in I. cases_lt i I; reflexivity.
Qed.
Example C123_meets : eu_ready hot /\ physical (air false) /\ 0 < eu_trace hot 0 0%nat /\ 0 < pressure (gam (air false)) (dim hot) (eu_trace hot 0) /\ unit_normal hot 0.
Proof.
  split; [apply duct_ready; lia |]. split; [apply air_physical |]. split; [cbn; lra |]. split; [unfold pressure, sm; cbn; lra |].
  unfold unit_normal, sumd, sm; cbn; ring.
Qed.
(** the largest speed of [hot] is 1 *)
Example C123_value : eu_computeFlux (air false) (interior hot) 0 (eu_num hot 3) = Some 1.
Proof.
  rewrite eu_interface. unfold eu_numerical, eu_stab, maxev_term. cbn [dim hot duct euroe air]. rewrite hot_speed. cbn. f_equal.
  assert (eu_vn hot true 0 = 0) as V by (unfold eu_vn; cbn; lra). rewrite V.
  rewrite (Rabs_right (0 + 1)), (Rabs_left (0 - 1)) by lra. rewrite Rmax_left by lra. lra.
Qed.
Definition in_order : wks := duct 3 (eu_names 3) [("rho", 1); ("rhouz", 1); ("rhoE", 3); ("aux rho", 1); ("aux rhoE", 1/2); ("n[z]", 1);
  ("Far-field rho end", 1); ("Far-field rhoE end", 1)]%string "Far-field".
Example C124_meets : wf in_order /\ varlist in_order = eu_names (dim in_order) /\ physical (air true) /\
  0 < eu_trace in_order 0 0%nat /\ 0 < pressure 2 (dim in_order) (eu_trace in_order 0) /\ unit_normal in_order 0 /\
  (2 <= dim in_order)%nat /\ bcs in_order 0%nat = "Far-field"%string.
Proof.
  split; [apply duct_ordered; lia |]. split; [reflexivity |]. split; [apply air_physical |]. split; [cbn; lra |].
  split; [unfold pressure, sm; cbn; lra |]. split; [unfold unit_normal, sumd, sm; cbn; ring |]. split; [cbn; lia | reflexivity].
Qed.
Example C126_meets : let W := duct 2 (eu_myvars 2) [("rho", 2); ("rhoux", 1); ("rhouy", 3); ("rhoE", 9); ("aux rho", 2); ("aux rhouy", 3); ("aux rhoE", 9); ("n[x]", 1)]%string "Slip" in
  eu_ready W /\ unit_normal W 0 /\ forall i, (i < dim W + 2)%nat -> eu_computeFlux (air true) W 0 (eu_num W i) = Some 0.
Proof.
  intros W. assert (eu_ready W) as A by (apply duct_ready; lia).
  assert (unit_normal W 0) as U by (unfold unit_normal, sumd, sm; cbn; ring).
  split; [exact A |]. split; [exact U |]. apply (C126_slip (air true) W 0 A U); [reflexivity | cbn; lra | cbn; lra |].
  split; [reflexivity |]. split; [reflexivity |]. split; [unfold dot, sm; cbn; ring |].
  intros t T. unfold dot, sm in *. cbn in *. lra.
Qed.
