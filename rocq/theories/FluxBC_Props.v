(** Property C65: flux conditions. *)
From Coq Require Import Bool Arith Lia ZArith Reals Lra String List.
From Verif Require Import Sparse_Model AdType_Model BCond_Model BCond_Proofs BCond_Props FluxBC_Model.
Import ListNotations.
Local Open Scope string_scope.

(** The boundary term of a flux condition given by the text [t]. *)
Definition boundary_term (meaning : entry -> nat -> R) npts (wts : nat -> R) (basis : nat -> nat -> R) (t : string) (i : nat) : R :=
  (- rsum (map (fun k => meaning (EText t) k * wts k * basis i k) (seq 0 npts)))%R.

Lemma neg_sum (f : nat -> R) l : rsum (map (fun k => (- f k)%R) l) = (- rsum (map f l))%R.
Proof. induction l as [| a l IH]; unfold rsum in *; cbn [map fold_right] in *; [lra | rewrite IH; ring]. Qed.
Lemma not_small autotune t : (autotune = false \/ (t < 2)%Z \/ (32 < t)%Z) -> dispatch autotune t = EFull.
Proof.
  unfold dispatch. destruct autotune; [| reflexivity]. intros [H | H]; [discriminate |]. cbn [negb].
  replace (existsb _ _) with false; [reflexivity |]. symmetry. apply not_true_iff_false. intros E. apply existsb_exists in E.
  destruct E as (x & I & E). apply Z.eqb_eq in E. subst. cbn in I. lia.
Qed.

(** A residual computed alone, or with the largest derivative type, has the term of the flux
    condition that the settings give for the side. *)
Theorem C65_flux_partial : forall meaning npts wts basis user sides sets fm b var ty s side t et i,
  settings_ok sets -> register user sides sets = Some fm -> In b sets -> In (var, ty) (bvars b) ->
  In (var, s) (flx b) -> In side sides -> value_on s side (VStr t) ->
  (forall e, ~ In ("Flux " ++ var ++ " " ++ side, e) user) ->
  (et = EScalar \/ exists autotune n, et = dispatch autotune n /\ (autotune = false \/ (n < 2)%Z \/ (32 < n)%Z)) ->
  flux_term meaning npts wts basis et b fm var ty side i = Some (boundary_term meaning npts wts basis t i).
Proof.
  intros meaning npts wts basis user sides sets fm b var ty s side t et i OK R Ib Iv Is Iside Hv Nu Ht.
  assert (et = EScalar \/ et = EFull) as E.
  { destruct Ht as [-> | (a & n & -> & H)]; [left; reflexivity | right; apply not_small; exact H]. }
  assert (var_bc b ty var side = "Flux") as K.
  { rewrite var_bc_tests. cbv zeta. replace (tests b ty var side KFlux) with true; [reflexivity |]. symmetry.
    apply tests_asked; [apply OK; exact Ib |]. exists s, (VStr t). split; [exact Is |].
    destruct Hv as [H | [_ H]]; [left | right]; exact H. }
  pose proof (C62_text user sides sets fm KFlux b var s side t OK R Ib (ex_intro _ ty (or_introl Iv)) Is Iside Hv Nu) as V.
  cbn [prefix_name] in V. unfold flux_term. destruct E as [-> | ->]; rewrite K; destruct (string_dec "Flux" "Flux"); try contradiction;
    change (label "Flux" var side) with ("Flux" ++ " " ++ var ++ " " ++ side); rewrite V; f_equal; unfold boundary_term; rewrite <- neg_sum;
    f_equal; apply map_ext; intros; ring.
Qed.
Print Assumptions C65_flux_partial.
(** No term where there is no flux condition. *)
Theorem C65_none : forall meaning npts wts basis et b fm var ty side i, wf b -> ~ given (flx b) var side ->
  flux_term meaning npts wts basis et b fm var ty side i = Some 0%R.
Proof.
  intros meaning npts wts basis et b fm var ty side i W N. unfold flux_term. destruct et; try reflexivity;
  (destruct (string_dec (var_bc b ty var side) "Flux") as [E | _]; [| reflexivity]; exfalso; apply N;
   apply (C60_recorded b ty var side KFlux W); left; exact E).
Qed.

Definition ex65 : bset := {| dbc := []; nbc := []; fbc := []; sbc := []; flx := [("u", [("right", VStr "g")])]; weak := false;
  bvars := [("u", "HGRAD")]; points := [] |}.
Lemma ex65_ok : settings_ok [ex65].
Proof. apply (settings_ok_single _ "u" "HGRAD"); try reflexivity. apply wfb_wf. reflexivity. Qed.
Example C65_case : settings_ok [ex65] /\
  exists fm, register [] ["left"; "right"] [ex65] = Some fm /\
  map (fun side => flux_term (fun e k => match e with EText "g" => 3 | _ => 0 end)%R 2 (fun _ => (1 / 2)%R) (fun i k => if (i =? k)%nat then 1 else 0)%R
        (dispatch true 64) ex65 fm "u" "HGRAD" side 1) ["left"; "right"] = [Some 0; Some (-3 / 2)]%R.
Proof.
  split; [exact ex65_ok |]. eexists. split; [reflexivity |]. unfold flux_term. cbn. unfold rsum. cbn. do 3 f_equal. lra.
Qed.

(** With at most 32 unknowns per element, the type chosen for the derivatives is a small one,
    and the flux condition has no effect at all on the residual and the matrix. *)
Theorem C65_ignored_refuted : forall meaning npts wts basis b fm var ty side i req,
  req <> [] -> (forall r, In r req -> 0 < r <= 32)%Z ->
  flux_term meaning npts wts basis (dispatch true (select_type req [] true false)) b fm var ty side i = Some 0%R.
Proof.
  intros meaning npts wts basis b fm var ty side i req NE H.
  assert (0 < fold_left Z.max req 0 <= 32)%Z as M.
  { assert (forall l a, (0 <= a <= 32)%Z -> (forall r, In r l -> 0 < r <= 32)%Z -> (a <= fold_left Z.max l a <= 32)%Z) as F.
    { clear. induction l as [| r l IH]; intros a A H; cbn; [lia |]. pose proof (H r (or_introl eq_refl)).
      specialize (IH (Z.max a r) ltac:(lia) (fun x I => H x (or_intror I))). lia. }
    destruct req as [| r l]; [contradiction |]. cbn [fold_left]. pose proof (H r (or_introl eq_refl)).
    specialize (F l (Z.max 0 r) ltac:(lia) (fun x I => H x (or_intror I))). lia. }
  unfold select_type. cbn [existsb negb]. set (m := fold_left Z.max req 0%Z) in *.
  assert (exists n, dispatch true (if (m >? 0) && (m <=? 2) then 2
    else if (m >? 2) && (m <=? 4) then 4 else if (m >? 4) && (m <=? 8) then 8 else if (m >? 8) && (m <=? 16) then 16
    else if (m >? 16) && (m <=? 18) then 18 else if (m >? 18) && (m <=? 24) then 24
    else if (m >? 24) && (m <=? 32) then 32 else -1)%Z = ESmall n) as [n ->]; [| reflexivity].
  assert (forall lo, (lo < m)%Z -> (m >? lo)%Z = true) as T by (intros lo L; destruct (Z.gtb_spec m lo); [reflexivity | lia]).
  destruct (Z.leb_spec m 2); [rewrite T by lia; cbn; eexists; reflexivity |]. rewrite andb_false_r.
  destruct (Z.leb_spec m 4); [rewrite T by lia; cbn; eexists; reflexivity |]. rewrite andb_false_r.
  destruct (Z.leb_spec m 8); [rewrite T by lia; cbn; eexists; reflexivity |]. rewrite andb_false_r.
  destruct (Z.leb_spec m 16); [rewrite T by lia; cbn; eexists; reflexivity |]. rewrite andb_false_r.
  destruct (Z.leb_spec m 18); [rewrite T by lia; cbn; eexists; reflexivity |]. rewrite andb_false_r.
  destruct (Z.leb_spec m 24); [rewrite T by lia; cbn; eexists; reflexivity |]. rewrite andb_false_r.
  destruct (Z.leb_spec m 32); [rewrite T by lia; cbn; eexists; reflexivity | lia].
Qed.
Print Assumptions C65_ignored_refuted.
