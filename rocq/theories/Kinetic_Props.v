(** C253 (species of a plasma), C254, C255 (collision potentials). *)
From Coq Require Import Bool Arith Lia Reals Lra String List.
From Verif Require Import Sparse_Model Sparse_Props Mass_Model Mass_Props BProj_Model BProj_Proofs Phys_Model Phys_Spec Phys_Proofs Phys_Tac Init_Props Kinetic_Model.
Import ListNotations.
Local Open Scope R_scope.

(** *** C253: every species and the electrons evolve under their sources *)
Definition species : list string := ["H"; "C"; "G"; "E"]%string.
Definition evolves (w : wks) (v : string) : Prop := equation w (residual (vfp_volume w)) v
  (fun k => fld w (v ++ "_t")%string k - fn w ("source_" ++ v)%string k) (fun _ _ => 0).
Definition C253_species : Prop := forall w, wf w -> (forall v, In v species -> In v (varlist w)) -> forall v, In v species -> evolves w v.
(** Carbon and gold do; the rows of the electrons are empty, and their source goes into the rows
    of helium, whose rate is counted twice. *)
Theorem C253_species_partial w h e : wf w -> (forall v, In v species -> In v (varlist w)) ->
  is_var w h "H" -> is_var w e "E" -> usebasis w e = usebasis w h ->
  evolves w "C" /\ evolves w "G" /\
  equation w (residual (vfp_volume w)) "E" (fun _ => 0) (fun _ _ => 0) /\
  equation w (residual (vfp_volume w)) "H" (fun k => 2 * fld w "H_t" k - fn w "source_H" k - fn w "source_E" k) (fun _ _ => 0) /\
  only_rows w (residual (vfp_volume w)) ["H"; "C"; "G"]%string.
Proof.
  intros W V Hh He U. unfold species in V.
  destruct (nth_var _ _ (V "C"%string ltac:(cbn; auto))) as [c Hc].
  destruct (nth_var _ _ (V "G"%string ltac:(cbn; auto))) as [g Hg].
  unfold evolves, vfp_volume. rewrite (var_num_is _ h _ 0 W Hh), (var_num_is _ c _ 0 W Hc), (var_num_is _ g _ 0 W Hg), (var_num_is _ e _ 0 W He). cbv zeta.
  assert (O : forall n i f, (n < List.length (varlist w))%nat -> (i < nbas w (usebasis w n))%nat -> n <> h -> at_row (offs w n i) (fill w e h f) = 0)
    by (intros n i f N I D; apply fill_other; auto; lt_var).
  repeat split.
  - intros n i Hn Hi. pose proof (is_var_uniq _ n c _ W Hn Hc); subst n. rewrite residual_at. rows W Hi. rewrite O, Rplus_0_r by first [differ | lt_var | assumption].
    unfold weak, integral. apply sm_ext. intros k _. rewrite sumd_zero by (intros; ring). cbn [append]. ring.
  - intros n i Hn Hi. pose proof (is_var_uniq _ n g _ W Hn Hg); subst n. rewrite residual_at. rows W Hi. rewrite O, Rplus_0_r by first [differ | lt_var | assumption].
    unfold weak, integral. apply sm_ext. intros k _. rewrite sumd_zero by (intros; ring). cbn [append]. ring.
  - intros n i Hn Hi. pose proof (is_var_uniq _ n e _ W Hn He); subst n. rewrite residual_at. rows W Hi. rewrite O by first [differ | lt_var | assumption].
    unfold weak. rewrite integral_zero; [reflexivity |]. intros k _. rewrite sumd_zero by (intros; ring). ring.
  - intros n i Hn Hi. pose proof (is_var_uniq _ n h _ W Hn Hh). subst n.
    rewrite residual_at. rewrite !at_row_app.
    rewrite (fill_own w h _ h i W ltac:(lt_var) Hi eq_refl).
    rewrite (fill_other w c _ h c i W ltac:(lt_var) ltac:(lt_var) Hi ltac:(differ) eq_refl), (fill_other w g _ h g i W ltac:(lt_var) ltac:(lt_var) Hi ltac:(differ) eq_refl).
    rewrite (fill_own w e _ h i W ltac:(lt_var) Hi U).
    rewrite !Rplus_0_l, <- sm_add. unfold weak, integral. apply sm_ext. intros k _. rewrite sumd_zero by (intros; ring). rewrite U. ring.
  - intros n v i Hn Nv Hi. rewrite residual_at, !at_row_app.
    assert (n <> h) by (intros ->; apply Nv; rewrite (is_var_inj _ _ _ _ Hn Hh); cbn; auto).
    assert (n <> c) by (intros ->; apply Nv; rewrite (is_var_inj _ _ _ _ Hn Hc); cbn; auto).
    assert (n <> g) by (intros ->; apply Nv; rewrite (is_var_inj _ _ _ _ Hn Hg); cbn; auto).
    rewrite (fill_other w h _ n h i W ltac:(lt_var) ltac:(lt_var) Hi ltac:(assumption) eq_refl), (fill_other w c _ n c i W ltac:(lt_var) ltac:(lt_var) Hi ltac:(assumption) eq_refl), (fill_other w g _ n g i W ltac:(lt_var) ltac:(lt_var) Hi ltac:(assumption) eq_refl).
    rewrite O by first [assumption | lt_var]. ring.
Qed.
Print Assumptions C253_species_partial.

(** One element with one unknown per variable and one point. *)
Definition point (vs : list string) (q : R) (f g : string -> R) : wks := {| dim := 2; varlist := vs; usebasis := fun _ => 0%nat; npts := 1; nbas := fun _ => 1%nat;
  offs := fun v _ => v; wt := fun _ => q; bas := fun _ _ _ => 1; bgr := fun _ _ _ _ => 1; fld := fun s _ => f s; fn := fun s _ => g s; hel := 1;
  bcs := fun _ => ""%string; sidename := "s"%string; isAdjoint := false; isTransient := true; deltat := 1 |}.
Lemma point_wf vs q f g : NoDup vs -> wf (point vs q f g).
Proof. intros N. split; [cbn; lia | exact N | cbn; intros; lia]. Qed.
Definition decaying : wks := point species 1 (fun _ => 1) (fun _ => 0).
Example C253_case : wf decaying /\ (forall v, In v species -> In v (varlist decaying)).
Proof. split; [apply point_wf; repeat constructor; cbn; intuition discriminate | auto]. Qed.
Theorem C253_species_refuted : ~ C253_species.
Proof.
  intros H. destruct C253_case as [W V]. pose proof (H decaying W V "E"%string ltac:(cbn; auto) 3%nat 0%nat eq_refl ltac:(cbn; lia)) as E.
  destruct (C253_species_partial decaying 0 3 W V eq_refl eq_refl eq_refl) as (_ & _ & Z & _).
  rewrite (Z 3%nat 0%nat eq_refl ltac:(cbn; lia)) in E.
  revert E. unfold weak, integral, sumd. change (npts decaying) with 1%nat. change (dim decaying) with 2%nat. cbn [seq]. rewrite !sm_cons, !sm_nil. cbn. lra.
Qed.
Print Assumptions C253_species_refuted.

(** *** C254: the potentials solve - laplace r = source in the plane of velocities *)
Definition rb_vars (s : rb_set) : list string :=
  ((if rbH s then ["rH_H"; "rH_C"; "rH_G"; "rH_E"] else []) ++ (if rbG s then ["rG_H"; "rG_C"; "rG_G"; "rG_E"] else []))%list%string.
Definition C254_poisson : Prop := forall s w, wf w -> dim w = 2%nat -> (forall v, In v (rb_vars s) -> In v (varlist w)) ->
  (forall v, In v (rb_vars s) -> equation w (residual (rb_volume s w)) v (fun k => - fn w ("source_" ++ v)%string k) (fun d k => grad w v d k)) /\
  only_rows w (residual (rb_volume s w)) (rb_vars s).
(** The quadrature weights are missing: the sum is over the points with weight one. *)
Definition unweighted (w : wks) : wks := {| dim := dim w; varlist := varlist w; usebasis := usebasis w; npts := npts w; nbas := nbas w; offs := offs w; wt := fun _ => 1;
  bas := bas w; bgr := bgr w; fld := fld w; fn := fn w; hel := hel w; bcs := bcs w; sidename := sidename w; isAdjoint := isAdjoint w; isTransient := isTransient w; deltat := deltat w |}.
Lemma rb_blocks s w : rb_volume s w = flat_map (rb_block w) (rb_vars s).
Proof. unfold rb_volume, rb_vars. destruct (rbH s), (rbG s); cbn [app flat_map]; rewrite ?app_nil_r, ?app_assoc; reflexivity. Qed.
Lemma rb_at w vs r : at_row r (flat_map (rb_block w) vs) = sm vs (fun v => at_row r (rb_block w v)).
Proof. induction vs as [| v vs IH]; [reflexivity |]. cbn [flat_map]. rewrite at_row_app, sm_cons, IH. reflexivity. Qed.
Lemma rb_nodup s : NoDup (rb_vars s).
Proof. unfold rb_vars. destruct (rbH s), (rbG s); cbn; repeat constructor; cbn; intuition discriminate. Qed.
Lemma rb_own w v n i : wf w -> dim w = 2%nat -> is_var w n v -> (i < nbas w (usebasis w n))%nat ->
  at_row (offs w n i) (rb_block w v) = weak (unweighted w) (usebasis w n) i (fun k => - fn w ("source_" ++ v)%string k) (fun d k => grad w v d k).
Proof.
  intros W D Hn Hi. unfold rb_block. rewrite (var_num_is _ n _ 0 W Hn). cbv zeta. rewrite (fill_own w n _ n i W ltac:(lt_var) Hi eq_refl).
  unfold weak, integral. cbn [npts wt unweighted]. apply sm_ext. intros k _. rewrite (sumd_2 (unweighted w) _ D).
  unfold grad, gradname, bracket, axis. cbn [append bas bgr unweighted]. ring.
Qed.
Lemma rb_other w v n m i : wf w -> is_var w m v -> (n < List.length (varlist w))%nat -> (i < nbas w (usebasis w n))%nat -> n <> m ->
  at_row (offs w n i) (rb_block w v) = 0.
Proof. intros W Hm N Hi D. unfold rb_block. rewrite (var_num_is _ m _ 0 W Hm). cbv zeta. apply fill_other; auto. lt_var. Qed.
Lemma sm_one {A} (l : list A) (f : A -> R) x : NoDup l -> In x l -> (forall y, In y l -> y <> x -> f y = 0) -> sm l f = f x.
Proof.
  induction l as [| a l IH]; intros N I Z; [destruct I |]. inversion N; subst. rewrite sm_cons. destruct I as [-> | I].
  - rewrite sm_zero; [ring |]. intros y Hy. apply Z; [right; exact Hy | intros ->; contradiction].
  - rewrite IH; [| assumption | exact I | intros y Hy; apply Z; right; exact Hy]. rewrite (Z a); [ring | left; reflexivity | intros ->; contradiction].
Qed.
Theorem C254_poisson_partial s w : wf w -> dim w = 2%nat -> (forall v, In v (rb_vars s) -> In v (varlist w)) ->
  (forall v n i, In v (rb_vars s) -> is_var w n v -> (i < nbas w (usebasis w n))%nat ->
     residual (rb_volume s w) (offs w n i) = weak (unweighted w) (usebasis w n) i (fun k => - fn w ("source_" ++ v)%string k) (fun d k => grad w v d k)) /\
  only_rows w (residual (rb_volume s w)) (rb_vars s).
Proof.
  intros W D V. split.
  - intros v n i I Hn Hi. rewrite residual_at, rb_blocks, rb_at.
    rewrite (sm_one (rb_vars s) _ v (rb_nodup s) I).
    + apply rb_own; assumption.
    + intros u U N. destruct (nth_var _ _ (V u U)) as [m Hm]. apply (rb_other w u n m i W Hm); [lt_var | exact Hi |].
      intros ->. apply N. exact (is_var_inj _ _ _ _ Hm Hn).
  - intros n v i Hn Nv Hi. rewrite residual_at, rb_blocks, rb_at. apply sm_zero. intros u U. destruct (nth_var _ _ (V u U)) as [m Hm].
    apply (rb_other w u n m i W Hm); [lt_var | exact Hi |]. intros ->. apply Nv. rewrite (is_var_inj _ _ _ _ Hn Hm). exact U.
Qed.
Print Assumptions C254_poisson_partial.
Definition both : rb_set := {| rbH := true; rbG := true |}.
Definition small : wks := point (rb_vars both) (1 / 2) (fun _ => 0) (fun _ => 1).
Example C254_case : wf small /\ dim small = 2%nat /\ (forall v, In v (rb_vars both) -> In v (varlist small)).
Proof. split; [apply point_wf, rb_nodup |]. split; [reflexivity | auto]. Qed.
Theorem C254_poisson_refuted : ~ C254_poisson.
Proof.
  intros H. destruct C254_case as (W & D & V). destruct (H both small W D V) as [E _].
  specialize (E "rH_H"%string ltac:(cbn; auto) 0%nat 0%nat eq_refl ltac:(cbn; lia)).
  destruct (C254_poisson_partial both small W D V) as [P _].
  rewrite (P "rH_H"%string 0%nat 0%nat ltac:(cbn; auto) eq_refl ltac:(cbn; lia)) in E.
  revert E. unfold weak, integral, sumd. change (npts (unweighted small)) with 1%nat. change (npts small) with 1%nat. change (dim small) with 2%nat. change (dim (unweighted small)) with 2%nat.
  cbn [seq]. rewrite !sm_cons, !sm_nil. unfold grad. cbn. lra.
Qed.
Print Assumptions C254_poisson_refuted.

(** *** C255: each source is the setting of its name, or its default *)
Definition source_of (l : list (string * string)) (n : string) : option string := option_map snd (find (fun p => String.eqb (fst p) n) l).
Definition default (v : string) : string := match v with
  | "rH_H" => "8.0*pi*H" | "rH_C" => "8.0*pi*C" | "rH_G" => "8.0*pi*G" | "rH_E" => "8.0*pi*E"
  | "rG_H" => "-1.0*rH_H" | "rG_C" => "-1.0*rH_C" | "rG_G" => "-1.0*rH_G" | "rG_E" => "-1.0*rH_E" | _ => "" end%string.
Definition C255_sources : Prop := forall s fs v, In v (rb_vars s) ->
  source_of (rb_functions s fs) ("source_" ++ v)%string = Some (match fs ("source_" ++ v)%string with Some e => e | None => default v end).
(** Without settings the defaults are used; "source_H_H" replaces the sources of all four
    potentials H, and "source_rH_..." those of the potentials G. *)
Theorem C255_sources_partial s fs v : In v (rb_vars s) ->
  source_of (rb_functions s fs) ("source_" ++ v)%string =
  Some (match fs (if in_dec string_dec v ["rH_H"; "rH_C"; "rH_G"; "rH_E"] then "source_H_H" else "source_rH" ++ substring 2 2 v)%string with Some e => e | None => default v end).
Proof.
  destruct s as [h g]. unfold rb_vars. cbn [rbH rbG]. intros I. apply in_app_or in I.
  destruct h, g; cbn in I; destruct I as [I | I]; try contradiction;
  repeat (destruct I as [<- | I]; [reflexivity |]); contradiction.
Qed.
Print Assumptions C255_sources_partial.
Theorem C255_sources_refuted : ~ C255_sources.
Proof.
  intros H. specialize (H both (fun n => if String.eqb n "source_rH_C" then Some "1.0"%string else None) "rH_C"%string ltac:(cbn; auto)).
  cbn in H. discriminate.
Qed.
Print Assumptions C255_sources_refuted.
