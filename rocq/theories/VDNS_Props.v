(** C241-C247: variable-density flow. *)
From Coq Require Import Bool Arith Lia Reals Lra List String.
From Verif Require Import Sparse_Model Sparse_Props Mass_Model Mass_Props BProj_Model BProj_Proofs Phys_Model Phys_Spec Phys_Proofs Init_Props VDNS_Model VDNS_Proofs.
Import ListNotations.
Local Open Scope R_scope.

(** *** C241 *)
Lemma vd_all s w : wf w -> vd_vars w ->
  (forall c, (c < dim w)%nat -> equation w (residual (vd_volume s w)) (vel c) (mom w c) (vd_F s w (penalty s w) c)) /\
  equation w (residual (vd_volume s w)) "T" (energy s w) (vd_TF s w) /\
  equation w (residual (vd_volume s w)) "pr" (mass s w) (vd_pF s w).
Proof.
  intros W V. destruct (dims w W) as [D | [D | D]].
  - destruct (vd_1 s w W V D) as (A & B & C). split; [| split; assumption].
    intros c Hc. replace c with 0%nat by lia. exact A.
  - destruct (vd_2 s w W V D) as (A & A1 & B & C). split; [| split; assumption].
    intros c Hc. destruct c as [| [| c]]; [exact A | exact A1 | lia].
  - destruct (vd_3 s w W V D) as (A & A1 & A2 & B & C). split; [| split; assumption].
    intros c Hc. destruct c as [| [| [| c]]]; [exact A | exact A1 | exact A2 | lia].
Qed.

Lemma vd_rows s w : wf w -> vd_vars w -> only_rows w (residual (vd_volume s w)) (vd_names w).
Proof.
  intros W (P & T & V) n v i Hn Hv Hi. rewrite residual_at. unfold vd_volume. cbv zeta. unfold vd_names in Hv.
  destruct (vars_get _ _ P) as (p & Hp). destruct (vars_get _ _ T) as (t & Ht).
  assert (n <> p) by (intros ->; apply Hv; pose proof (is_var_inj _ _ _ _ Hn Hp); subst; cbn; auto).
  assert (n <> t) by (intros ->; apply Hv; pose proof (is_var_inj _ _ _ _ Hn Ht); subst; cbn; auto).
  assert (X : forall c m, (c < dim w)%nat -> is_var w m (vel c) -> n <> m).
  { intros c m Hc Hm ->. apply Hv. pose proof (is_var_inj _ _ _ _ Hn Hm). subst.
    right. right. apply in_map. apply in_seq. lia. }
  destruct (dims w W) as [D | [D | D]]; rewrite D in *; cbn [Nat.eqb];
   try (destruct (vars_get _ _ (V 0%nat ltac:(lia))) as (x & Hx); pose proof (X 0%nat x ltac:(lia) Hx); change (vel 0) with "ux"%string in Hx);
   try (destruct (vars_get _ _ (V 1%nat ltac:(lia))) as (y & Hy); pose proof (X 1%nat y ltac:(lia) Hy); change (vel 1) with "uy"%string in Hy);
   try (destruct (vars_get _ _ (V 2%nat ltac:(lia))) as (z & Hz); pose proof (X 2%nat z ltac:(lia) Hz); change (vel 2) with "uz"%string in Hz);
   vnum W; hide; rewrite ?at_row_app, ?at_row_nil, ?at_row_if, ?at_row_nil;
   repeat match goal with |- context [at_row _ (fill w ?b ?m ?f)] =>
      rewrite (fill_other w b f n m i W (is_var_lt _ _ _ Hn) ltac:(lt_var) Hi ltac:(assumption) eq_refl) end;
   repeat (first [rewrite if_zero | rewrite Rplus_0_r | rewrite Rplus_0_l]); reflexivity.
Qed.

(** Momentum, energy and continuity of the variable-density equations, with or without
    streamline and pressure stabilization, in one to three dimensions. *)
Theorem C241_equations s w : wf w -> vd_vars w -> vdGRADDIV s = false ->
  (forall c, (c < dim w)%nat -> equation w (residual (vd_volume s w)) (vel c) (mom w c)
     (fun d k => stress w c d k + (if vdSUPG s then tau_m w k * strong_mom w c k * fn w "rho" k * fld w (vel d) k else 0))) /\
  equation w (residual (vd_volume s w)) "T" (energy s w) (vd_TF s w) /\
  equation w (residual (vd_volume s w)) "pr" (mass s w) (vd_pF s w) /\
  only_rows w (residual (vd_volume s w)) (vd_names w).
Proof.
  intros W V G. destruct (vd_all s w W V) as (A & B & C).
  split; [| split; [exact B | split; [exact C | apply vd_rows; assumption]]].
  intros c Hc n i Hn Hi. rewrite (A c Hc n i Hn Hi). apply integral_ext. intros k K. f_equal.
  apply sumd_ext. intros d _. unfold vd_F. rewrite G. ring.
Qed.
Print Assumptions C241_equations.

(** *** C242: the grad-div option adds the penalty (div v, h^2/tau (continuity residual)). *)
Definition C242_graddiv : Prop := forall s w, wf w -> vd_vars w ->
  forall c, (c < dim w)%nat -> equation w (residual (vd_volume s w)) (vel c) (mom w c) (vd_F s w (mass s w) c).

(** In one dimension it does; in two the divergence is du_x/dx + du_y/dx; in three there is
    no such term. *)
Theorem C242_graddiv_partial s w : wf w -> vd_vars w ->
  forall c, (c < dim w)%nat ->
  (dim w = 1%nat -> equation w (residual (vd_volume s w)) (vel c) (mom w c) (vd_F s w (mass s w) c)) /\
  (dim w = 2%nat -> equation w (residual (vd_volume s w)) (vel c) (mom w c)
     (vd_F s w (fun k => grad w "ux" 0 k + grad w "uy" 0 k - (material w "T" k / fld w "T" k - dp0dt s / p0 s)) c)) /\
  (dim w = 3%nat -> equation w (residual (vd_volume s w)) (vel c) (mom w c) (vd_F s w (fun _ => 0) c)).
Proof.
  intros W V c Hc. destruct (vd_all s w W V) as (A & _).
  assert (Q : forall pen, (forall k, (k < npts w)%nat -> penalty s w k = pen k) ->
    equation w (residual (vd_volume s w)) (vel c) (mom w c) (vd_F s w pen c)).
  { intros pen E n i Hn Hi. rewrite (A c Hc n i Hn Hi). apply integral_ext. intros k K. f_equal.
    apply sumd_ext. intros d _. unfold vd_F. rewrite (E k K). reflexivity. }
  split; [| split]; intros D; apply Q; intros k K; unfold penalty; rewrite D; cbn [Nat.eqb]; try reflexivity.
  unfold mass, div. rewrite (sumd_2 _ _ D). unfold vel, axis. cbn [append]. ring.
Qed.
Print Assumptions C242_graddiv_partial.

(** One element with two unknowns per variable. *)
Definition cell (n : nat) (f : string -> R) (g : string -> R) (b : string) : wks := {| dim := n;
  varlist := (["pr"; "T"] ++ map vel (seq 0 n))%list%string; usebasis := fun _ => 0%nat; npts := 1; nbas := fun _ => 2%nat;
  offs := fun v i => (2 * v + i)%nat; wt := fun _ => 1; bas := fun _ _ _ => 1 / 2;
  bgr := fun _ i _ _ => if (i =? 0)%nat then -1 else 1; fld := fun s _ => f s; fn := fun s _ => g s; hel := 1;
  bcs := fun _ => b; sidename := "s"%string; isAdjoint := false; isTransient := true; deltat := 1 |}.
Lemma cell_wf n f g b : (1 <= n <= 3)%nat -> wf (cell n f g b).
Proof.
  intros H. assert (n = 1 \/ n = 2 \/ n = 3)%nat as [-> | [-> | ->]] by lia;
  (split; [cbn; lia | cbn; repeat constructor; cbn; intuition discriminate | cbn; intros; lia]).
Qed.
Lemma cell_vars n f g b : (1 <= n <= 3)%nat -> vd_vars (cell n f g b).
Proof.
  intros H. split; [cbn; auto |]. split; [cbn; auto |]. intros d Hd.
  cbn [varlist cell]. apply in_or_app. right. apply in_map. apply in_seq. cbn in Hd. lia.
Qed.

Lemma vtau_pos w diff k : 0 < diff -> 0 < hel w -> 0 < deltat w -> 0 < vtau w diff k.
Proof.
  intros Hv Hh Hd. unfold vtau, vd_tau. cbv zeta. apply Rdiv_lt_0_compat; [lra |]. apply sqrt_lt_R0.
  assert (0 < 4 * diff / hel w / hel w) as A by (repeat apply Rdiv_lt_0_compat; lra).
  pose proof (Rmult_lt_0_compat _ _ A A). rewrite Rplus_assoc.
  apply Rplus_lt_le_0_compat; [assumption |]. apply Rplus_le_le_0_compat; apply Rle_0_sqr.
Qed.

Definition pushed : vd_set := {| vdSUPG := false; vdPSPG := false; vdGRADDIV := true; p0 := 1; dp0dt := 0 |}.
(** Uniform expansion in y. *)
Definition expanding : wks := cell 2 (fun s => if String.eqb s "grad(uy)[y]" then 1 else if String.eqb s "T" then 1 else 0) (fun _ => 1) "Neumann".
Theorem C242_graddiv_refuted : ~ C242_graddiv.
Proof.
  intros H.
  assert (W : wf expanding) by (apply cell_wf; lia). assert (V : vd_vars expanding) by (apply cell_vars; lia).
  pose proof (H pushed expanding W V 0%nat ltac:(cbn; lia) 2%nat 0%nat eq_refl ltac:(cbn; lia)) as E1.
  destruct (C242_graddiv_partial pushed expanding W V 0%nat ltac:(cbn; lia)) as (_ & E2 & _).
  rewrite (E2 eq_refl 2%nat 0%nat eq_refl ltac:(cbn; lia)) in E1.
  pose proof (vtau_pos expanding 1 0%nat ltac:(lra) ltac:(cbn; lra) ltac:(cbn; lra)) as T.
  revert E1. unfold weak, integral. change (npts expanding) with 1%nat. cbn [seq]. rewrite !sm_cons, !sm_nil.
  rewrite !(sumd_2 expanding _ eq_refl). unfold vd_F. unfold tau_m, mass, div, material, stress, mom.
  rewrite !(sumd_2 expanding _ eq_refl).
  change (fn expanding "mu" 0) with 1.
  set (t := vtau expanding 1 0) in *. cbn -[t]. rewrite ?Rmult_1_l. unfold Rdiv. intros E1.
  assert (I : 0 < / t) by (apply Rinv_0_lt_compat; exact T). unfold delta in E1. cbn in E1. lra.
Qed.
Print Assumptions C242_graddiv_refuted.

(** *** C243: where the momentum and energy residuals vanish the streamline and pressure
    stabilizations add nothing. *)
Definition unstab (s : vd_set) : vd_set :=
  {| vdSUPG := false; vdPSPG := false; vdGRADDIV := vdGRADDIV s; p0 := p0 s; dp0dt := dp0dt s |}.
Theorem C243_consistent s w : wf w -> vd_vars w ->
  (forall k c, (k < npts w)%nat -> (c < dim w)%nat -> strong_mom w c k = 0) ->
  (forall k, (k < npts w)%nat -> energy s w k = 0) ->
  forall n v i, is_var w n v -> (i < nbas w (usebasis w n))%nat ->
  residual (vd_volume s w) (offs w n i) = residual (vd_volume (unstab s) w) (offs w n i).
Proof.
  intros W V S E n v i Hn Hi.
  destruct (vd_all s w W V) as (A & B & C). destruct (vd_all (unstab s) w W V) as (A' & B' & C').
  destruct (in_dec string_dec v (vd_names w)) as [I | I].
  2:{ rewrite (vd_rows s w W V n v i), (vd_rows (unstab s) w W V n v i) by assumption. reflexivity. }
  cbn in I. destruct I as [<- | [<- | I]].
  - rewrite (C n i Hn Hi), (C' n i Hn Hi). apply integral_ext. intros k K. f_equal. apply sumd_ext. intros d Hd.
    unfold vd_pF. cbn. rewrite (S k d K Hd). destruct (vdPSPG s); ring.
  - rewrite (B n i Hn Hi), (B' n i Hn Hi). apply integral_ext. intros k K. f_equal. apply sumd_ext. intros d Hd.
    unfold vd_TF. cbn. rewrite (E k K). destruct (vdSUPG s); ring.
  - apply in_map_iff in I. destruct I as (c & <- & I). apply in_seq in I.
    rewrite (A c ltac:(lia) n i Hn Hi), (A' c ltac:(lia) n i Hn Hi). apply integral_ext. intros k K. f_equal.
    apply sumd_ext. intros d Hd. unfold vd_F. cbn. rewrite (S k c K ltac:(lia)).
    change (penalty (unstab s) w k) with (penalty s w k). destruct (vdSUPG s), (vdGRADDIV s); ring.
Qed.
Print Assumptions C243_consistent.

(** *** C244: given tractions and heat fluxes. *)
Theorem C244_boundary w : wf w -> vd_vars w ->
  (forall v n, v = "T"%string \/ (exists c, (c < dim w)%nat /\ v = vel c) -> is_var w n v ->
     equation w (residual (vd_boundary w)) v
     (fun k => if String.eqb (bcs w n) "Neumann" then - fn w ("Neumann " ++ v ++ " " ++ sidename w) k else 0) (fun _ _ => 0)) /\
  only_rows w (residual (vd_boundary w)) ("T"%string :: map vel (seq 0 (dim w))).
Proof.
  intros W (P & T & V). destruct (vars_get _ _ T) as (t & Ht).
  split.
  - intros v m Hv Hm n i Hn Hi. pose proof (is_var_uniq w n m _ W Hn Hm). subst m.
    rewrite residual_at. unfold vd_boundary. cbv zeta.
    destruct (dims w W) as [D | [D | D]]; rewrite D in *; cbn [Nat.eqb];
     try (destruct (vars_get _ _ (V 0%nat ltac:(lia))) as (x & Hx); change (vel 0) with "ux"%string in Hx);
     try (destruct (vars_get _ _ (V 1%nat ltac:(lia))) as (y & Hy); change (vel 1) with "uy"%string in Hy);
     try (destruct (vars_get _ _ (V 2%nat ltac:(lia))) as (z & Hz); change (vel 2) with "uz"%string in Hz);
     vnum W; hide;
     (destruct Hv as [-> | (c & Hc & ->)];
      [pose proof (is_var_uniq w n t _ W Hn Ht); subst n
      |destruct c as [| [| [| c]]]; try lia;
       [change (vel 0) with "ux"%string in *; pose proof (is_var_uniq w n x _ W Hn Hx); subst n
       |try (change (vel 1) with "uy"%string in *; pose proof (is_var_uniq w n y _ W Hn Hy); subst n) ..];
       try (change (vel 2) with "uz"%string in *; pose proof (is_var_uniq w n z _ W Hn Hz); subst n)]);
     rewrite ?at_row_if, ?at_row_app, ?at_row_nil, ?at_row_if, ?at_row_nil; rows W Hi;
     repeat (first [rewrite if_zero | rewrite Rplus_0_r | rewrite Rplus_0_l | rewrite sm_if | rewrite <- sm_add]);
     unfold weak, integral; apply sm_ext; intros k _; reveal; cbv beta zeta;
     rewrite ?sumd_zero by (intros; ring);
     match goal with |- context [String.eqb (bcs w ?a) ?b] => destruct (String.eqb (bcs w a) b) end; ring.
  - intros n v i Hn Hv Hi. rewrite residual_at. unfold vd_boundary. cbv zeta.
    assert (n <> t) by (intros ->; apply Hv; pose proof (is_var_inj _ _ _ _ Hn Ht); subst; cbn; auto).
    assert (X : forall c m, (c < dim w)%nat -> is_var w m (vel c) -> n <> m).
    { intros c m Hc Hm ->. apply Hv. pose proof (is_var_inj _ _ _ _ Hn Hm). subst.
      right. apply in_map. apply in_seq. lia. }
    destruct (dims w W) as [D | [D | D]]; rewrite D in *; cbn [Nat.eqb];
     try (destruct (vars_get _ _ (V 0%nat ltac:(lia))) as (x & Hx); pose proof (X 0%nat x ltac:(lia) Hx); change (vel 0) with "ux"%string in Hx);
     try (destruct (vars_get _ _ (V 1%nat ltac:(lia))) as (y & Hy); pose proof (X 1%nat y ltac:(lia) Hy); change (vel 1) with "uy"%string in Hy);
     try (destruct (vars_get _ _ (V 2%nat ltac:(lia))) as (z & Hz); pose proof (X 2%nat z ltac:(lia) Hz); change (vel 2) with "uz"%string in Hz);
     vnum W; hide; rewrite ?at_row_app, ?at_row_nil, ?at_row_if, ?at_row_nil;
     repeat match goal with |- context [at_row _ (fill w ?b ?m ?f)] =>
        rewrite (fill_other w b f n m i W (is_var_lt _ _ _ Hn) ltac:(lt_var) Hi ltac:(assumption) eq_refl) end;
     repeat (first [rewrite if_zero | rewrite Rplus_0_r | rewrite Rplus_0_l]); reflexivity.
Qed.
Print Assumptions C244_boundary.

(** *** C245: the stabilization time is at most the diffusive and the transient one. *)
Definition speed2 (w : wks) (k : nat) : R := sumd w (fun d => fld w (vel d) k * fld w (vel d) k).
Theorem C245_tau w diff k : wf w -> 0 < hel w -> 0 < deltat w -> 0 < diff -> 0 < fn w "rho" k ->
  0 < vtau w diff k /\
  vtau w diff k <= hel w * hel w / (4 * diff) /\
  (isTransient w = true -> vtau w diff k <= deltat w / (2 * fn w "rho" k)) /\
  (1 / 1000000000000 < speed2 w k -> vtau w diff k <= hel w / (2 * fn w "rho" k * sqrt (speed2 w k))).
Proof.
  intros W H T V Hr. split; [apply vtau_pos; assumption |].
  set (r := fn w "rho" k) in *.
  set (A := 4 * diff / hel w / hel w).
  set (B := 2 * r * (if Rlt_dec (1 / 1000000000000) (speed2 w k) then sqrt (speed2 w k) else speed2 w k) / hel w).
  set (C := (if isTransient w then 2 else 0) * r / deltat w).
  assert (vtau w diff k = 1 / sqrt (A * A + B * B + C * C)) as E.
  { unfold vtau, vd_tau, A, B, C, speed2. destruct (dims w W) as [D | [D | D]]; rewrite ?D; cbn [Nat.eqb Nat.leb];
      rewrite ?(sumd_1 _ _ D), ?(sumd_2 _ _ D), ?(sumd_3 _ _ D); cbv zeta; unfold vel, axis; cbn [append]; reflexivity. }
  assert (forall X, 0 < X -> X * X <= A * A + B * B + C * C -> vtau w diff k <= 1 / X) as Q.
  { intros X HX L. rewrite E. unfold Rdiv. rewrite !Rmult_1_l. apply Rinv_le_contravar; [exact HX |].
    rewrite <- (sqrt_square X) by lra. apply sqrt_le_1_alt. exact L. }
  assert (0 <= A * A) by apply Rle_0_sqr. assert (0 <= B * B) by apply Rle_0_sqr. assert (0 <= C * C) by apply Rle_0_sqr.
  assert (0 < A) as HA by (unfold A; repeat apply Rdiv_lt_0_compat; lra).
  split; [| split].
  - replace (hel w * hel w / (4 * diff)) with (1 / A) by (unfold A; field; lra). apply Q; lra.
  - intros Tr. assert (C = 2 * r / deltat w) as EC by (unfold C; rewrite Tr; reflexivity).
    assert (0 < C) by (rewrite EC; apply Rdiv_lt_0_compat; lra).
    replace (deltat w / (2 * r)) with (1 / C) by (rewrite EC; field; lra). apply Q; lra.
  - intros S. assert (B = 2 * r * sqrt (speed2 w k) / hel w) as EB.
    { unfold B. destruct (Rlt_dec _ _); [reflexivity | contradiction]. }
    assert (0 < sqrt (speed2 w k)) as HS by (apply sqrt_lt_R0; lra).
    assert (0 < B) by (rewrite EB; apply Rdiv_lt_0_compat; [apply Rmult_lt_0_compat; lra | lra]).
    replace (hel w / (2 * r * sqrt (speed2 w k))) with (1 / B) by (rewrite EB; field; lra). apply Q; lra.
Qed.
Print Assumptions C245_tau.

(** *** C246: background pressure of a closed system with in- and outflow:
    |V| dp0/dt + gamma p0 (flux of u) = (gamma-1) (heat flux + heating), stepped explicitly. *)
Definition C246_pressure : Prop := forall gamma vs bs dt p,
  sm vs v_wt <> 0 -> let '(pn, dp) := update_flow (iq_flow gamma vs bs) dt p in
  pn = p + dt * dp /\
  sm vs v_wt * dp + p * (gamma * sm bs (fun b => s_wt b * s_vel b)) =
  (gamma - 1) * (sm bs (fun b => s_wt b * s_heat b) + sm vs (fun v => v_wt v * v_Q v)).

(** The two boundary integrals are exchanged. *)
Theorem C246_pressure_partial gamma vs bs dt p :
  sm vs v_wt <> 0 -> let '(pn, dp) := update_flow (iq_flow gamma vs bs) dt p in
  pn = p + dt * dp /\
  sm vs v_wt * dp + p * ((gamma - 1) * sm bs (fun b => s_wt b * s_heat b)) =
  gamma * sm bs (fun b => s_wt b * s_vel b) + (gamma - 1) * sm vs (fun v => v_wt v * v_Q v).
Proof.
  intros N. unfold update_flow, iq_flow. cbn [nth]. split; [reflexivity |].
  rewrite (sm_ext vs (fun v => v_wt v * 1) v_wt) by (intros; ring).
  rewrite (sm_ext vs (fun v => v_wt v * (v_Q v * (gamma - 1))) (fun v => (gamma - 1) * (v_wt v * v_Q v))) by (intros; ring).
  rewrite (sm_ext bs (fun b => s_wt b * ((gamma - 1) * s_heat b)) (fun b => (gamma - 1) * (s_wt b * s_heat b))) by (intros; ring).
  rewrite (sm_ext bs (fun b => s_wt b * (gamma * s_vel b)) (fun b => gamma * (s_wt b * s_vel b))) by (intros; ring).
  rewrite !sm_scal. set (V := sm vs v_wt) in *. field. exact N.
Qed.
Print Assumptions C246_pressure_partial.

(** Gas blown into the domain should raise the pressure; it falls. *)
Theorem C246_pressure_refuted : ~ C246_pressure.
Proof.
  intros H.
  specialize (H 2 [{| v_wt := 1; v_T := 1; v_Q := 0 |}] [{| s_wt := 1; s_heat := 0; s_vel := -1 |}] 1 1).
  unfold update_flow, iq_flow in H. cbn [nth] in H. rewrite !sm_cons, !sm_nil in H. cbn [v_wt v_Q v_T s_wt s_heat s_vel] in H.
  destruct (H ltac:(lra)) as (_ & E). lra.
Qed.
Print Assumptions C246_pressure_refuted.

(** *** C247: in a closed system without flow through the boundary the mass of the ideal
    gas is preserved when the temperature changes. *)
Definition gas_mass (RGas p : R) (vs : list vpt) : R := sm vs (fun v => v_wt v * (p / (RGas * v_T v))).
Definition C247_mass : Prop := forall RGas p dt vs vs',
  RGas <> 0 -> (forall v, In v vs \/ In v vs' -> 0 < v_T v /\ 0 < v_wt v) -> vs' <> [] ->
  map v_wt vs = map v_wt vs' ->
  gas_mass RGas (fst (update_closed (iq_closed RGas p vs') dt p)) vs' = gas_mass RGas p vs.

(** The pressure never changes. *)
Theorem C247_mass_partial RGas p dt vs :
  RGas <> 0 -> (forall v, In v vs -> 0 < v_T v /\ 0 < v_wt v) -> vs <> [] ->
  update_closed (iq_closed RGas p vs) dt p = (p, 0).
Proof.
  intros N H E. unfold update_closed, iq_closed. cbn [nth].
  assert (P : 0 < sm vs (fun v => v_wt v * (1 / v_T v))).
  { destruct vs as [| v0 tl]; [contradiction |]. rewrite sm_cons.
    destruct (H v0 (or_introl eq_refl)) as (A & B).
    apply Rplus_lt_le_0_compat; [apply Rmult_lt_0_compat; [exact B | apply Rdiv_lt_0_compat; lra] |].
    apply sm_nonneg. intros v Hv. destruct (H v (or_intror Hv)) as (A' & B').
    apply Rlt_le, Rmult_lt_0_compat; [exact B' | apply Rdiv_lt_0_compat; lra]. }
  rewrite (sm_ext vs (fun v => v_wt v * (p / (RGas * v_T v) * RGas)) (fun v => p * (v_wt v * (1 / v_T v)))).
  - rewrite sm_scal. replace (p * sm vs (fun v => v_wt v * (1 / v_T v)) / sm vs (fun v => v_wt v * (1 / v_T v))) with p
      by (field; lra). f_equal. unfold Rdiv. ring.
  - intros v Hv. destruct (H v Hv) as (A & _). field. split; [lra | exact N].
Qed.
Print Assumptions C247_mass_partial.

Theorem C247_mass_refuted : ~ C247_mass.
Proof.
  intros H.
  specialize (H 1 1 1 [{| v_wt := 1; v_T := 1; v_Q := 0 |}] [{| v_wt := 1; v_T := 2; v_Q := 0 |}]).
  rewrite C247_mass_partial in H; [| lra | | discriminate].
  2:{ intros v [<- | []]. cbn. lra. }
  cbn [fst] in H. unfold gas_mass in H. rewrite !sm_cons, !sm_nil in H. cbn [v_wt v_T] in H.
  assert (X : 1 * (1 / (1 * 2)) + 0 = 1 * (1 / (1 * 1)) + 0).
  { apply H; [lra | | discriminate | reflexivity]. intros v [[<- | []] | [<- | []]]; cbn; lra. }
  lra.
Qed.
Print Assumptions C247_mass_refuted.

(** *** The hypotheses can be met: gas at rest heated at constant volume. *)
Example C241_heating : let w := cell 3 (fun s => if String.eqb s "T_t" then 2 else if String.eqb s "T" then 4 else 0) (fun _ => 1) "Neumann" in
  wf w /\ vd_vars w /\ vdGRADDIV (unstab pushed) = true /\
  mass {| vdSUPG := true; vdPSPG := true; vdGRADDIV := false; p0 := 2; dp0dt := 1 |} w 0 = 0 /\
  energy {| vdSUPG := true; vdPSPG := true; vdGRADDIV := false; p0 := 2; dp0dt := 1 |} w 0 = 0.
Proof.
  intros w. split; [apply cell_wf; lia |]. split; [apply cell_vars; lia |]. split; [reflexivity |].
  unfold mass, energy, material, div. rewrite !(sumd_3 w _ eq_refl). cbn. lra.
Qed.
