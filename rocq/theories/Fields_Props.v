(** Properties of the solution fields of a workset: C94, C95, C96, C97. *)
From Coq Require Import Bool Arith Reals Lia Lra Ascii String List.
Import ListNotations.
From Verif Require Import Fields_Model Fields_Spec Fields_Proofs.
Local Open Scope R_scope.
Local Open Scope string_scope.

(** the state after a history *)
Definition after (dim : nat) (sets : list (list variable)) (params : list variable) (tr : bool) (e0 : loaded) (ops : list fop) : fstate :=
  fold_left fstep ops (new_state dim sets params tr e0).

(** C94: whatever elements were loaded, whatever was requested and however the workset moved
    between interiors and sides before, a request in the interior of the element loaded last gives
    the expansion of that element's coefficients. *)
Theorem C94_volume dim sets params tr e0 ops v s k u udot :
  NoDup (all_names sets params) -> Forall plain (all_names sets params) ->
  last_side false ops = false ->
  unknown sets params tr (last_load e0 ops) v u udot -> in_space v s -> volume_kind dim s k ->
  (1 <= nb (last_load e0 ops) (vbasis v))%nat ->
  exists d st', get (after dim sets params tr e0 ops) (name k (vname v)) = Some (d, st') /\
    forall pt, d pt = wanted (last_load e0 ops) (vbasis v) u udot k pt.
Proof.
  intros N P S U Sp K Hn. unfold after.
  destruct (history_good dim sets params tr ops _ (new_good dim sets params tr e0)) as (G & E & O).
  cbn in E, O. set (st := fold_left fstep ops _) in *. rewrite S in O. rewrite <- E in *.
  destruct (home_of _ _ _ _ _ _ _ U) as (ty & si & i & H & Hu & Hd).
  assert (Kv : kvalid k) by (destruct s, k; cbn in K |- *; tauto).
  rewrite Forall_forall in P.
  destruct (get_volume _ _ _ _ st (name k (vname v)) G O) as (d & st' & f & Eg & If & Ef & Ed).
  { apply in_map_iff. exists (new_field si ty i (name k (vname v))). split; [reflexivity|].
    apply create_iff. exists v, ty, si, i, (name k (vname v)). split; [exact H|]. split; [exact (volume_in _ _ _ _ Sp K)|reflexivity]. }
  exists d, st'. split; [exact Eg|]. intros pt. rewrite Ed.
  apply create_iff in If as (v' & ty' & s' & i' & ex & H' & Ie & ->). cbn in Ef. subst ex.
  destruct (volume_out _ _ _ _ Ie) as (k' & Kv' & En).
  destruct (name_inj _ _ _ _ (P _ (home_named _ _ _ _ _ _ H)) (P _ (home_named _ _ _ _ _ _ H')) Kv Kv' En) as [<- Ev].
  destruct (home_inj _ _ _ _ _ _ _ _ _ _ N H H' Ev) as (<- & <- & <- & <-).
  destruct (parse_name k (vname v) (P _ (home_named _ _ _ _ _ _ H)) Kv) as [Pd Pc].
  exact (eval_new _ _ _ _ _ _ _ _ _ _ _ _ _ G O H Hu Hd Hn Pd Pc pt).
Qed.
Print Assumptions C94_volume.

(** C94, not found: a request that no variable provides is never answered by another one's data. *)
Theorem C94_absent dim sets params tr e0 ops label :
  (forall v k, In v (concat sets ++ params)%list -> kvalid k -> label <> name k (vname v)) ->
  get (after dim sets params tr e0 ops) label = None.
Proof.
  intros A. unfold after.
  destruct (history_good dim sets params tr ops _ (new_good dim sets params tr e0)) as (G & _ & _).
  set (st := fold_left fstep ops _) in *.
  assert (M : forall fields, (forall bt v e, In e (fields dim bt v) -> exists k, kvalid k /\ e = name k v) ->
              ~ In label (map expression (create fields dim sets params))).
  { intros fields Fo I. apply in_map_iff in I as (f & Ef & If). apply create_iff in If as (v & ty & s & i & ex & H & Ie & ->).
    cbn in Ef. subst ex. destruct (Fo _ _ _ Ie) as (k & Kv & En). refine (A v k _ Kv En).
    apply in_app_iff. destruct H as [[_ (vs & B & C)]|(_ & _ & B)]; [left; apply in_concat; exists vs; split; eapply nth_error_In; eassumption|right; eapply nth_error_In, B]. }
  unfold get. destruct (on_side st).
  - rewrite get_in_none; [reflexivity|]. rewrite (attr_expr _ _ (g_side _ _ _ _ _ G)). apply M. intros; eapply side_out; eassumption.
  - rewrite get_in_none; [reflexivity|]. rewrite (attr_expr _ _ (g_vol _ _ _ _ _ G)). apply M. intros; eapply volume_out; eassumption.
Qed.
Print Assumptions C94_absent.

(** C96: the same on sides, for values, components and gradients. *)
Theorem C96_side dim sets params tr e0 ops v s k u udot :
  NoDup (all_names sets params) -> Forall plain (all_names sets params) ->
  last_side false ops = true ->
  unknown sets params tr (last_load e0 ops) v u udot -> in_space v s -> side_kind s k ->
  (1 <= nb (last_load e0 ops) (vbasis v))%nat ->
  exists d st', get (after dim sets params tr e0 ops) (name k (vname v)) = Some (d, st') /\
    forall pt, d pt = wanted_side (last_load e0 ops) (vbasis v) u k pt.
Proof.
  intros N P S U Sp K Hn. unfold after.
  destruct (history_good dim sets params tr ops _ (new_good dim sets params tr e0)) as (G & E & O).
  cbn in E, O. set (st := fold_left fstep ops _) in *. rewrite S in O. rewrite <- E in *.
  destruct (home_of _ _ _ _ _ _ _ U) as (ty & si & i & H & Hu & Hd).
  assert (Kv : kvalid k) by (destruct s, k; cbn in K |- *; tauto).
  assert (Ks : match k with Val | Comp _ | Grad _ => True | _ => False end) by (destruct s, k; cbn in K |- *; tauto).
  rewrite Forall_forall in P.
  destruct (get_side _ _ _ _ st (name k (vname v)) G O) as (d & st' & f & Eg & If & Ef & Ed).
  { apply in_map_iff. exists (new_field si ty i (name k (vname v))). split; [reflexivity|].
    apply create_iff. exists v, ty, si, i, (name k (vname v)). split; [exact H|]. split; [exact (side_in _ _ _ _ Sp K)|reflexivity]. }
  exists d, st'. split; [exact Eg|]. intros pt. rewrite Ed.
  apply create_iff in If as (v' & ty' & s' & i' & ex & H' & Ie & ->). cbn in Ef. subst ex.
  destruct (side_out _ _ _ _ Ie) as (k' & Kv' & En).
  destruct (name_inj _ _ _ _ (P _ (home_named _ _ _ _ _ _ H)) (P _ (home_named _ _ _ _ _ _ H')) Kv Kv' En) as [<- Ev].
  destruct (home_inj _ _ _ _ _ _ _ _ _ _ N H H' Ev) as (<- & <- & <- & <-).
  destruct (parse_name k (vname v) (P _ (home_named _ _ _ _ _ _ H)) Kv) as [Pd Pc].
  exact (eval_new_side _ _ _ _ _ _ _ _ _ _ _ _ G H Hu Hn Pd Pc Ks pt).
Qed.
Print Assumptions C96_side.

(** C95, full statement: a scalar variable is found under its own name, whatever the names are. *)
Definition C95_names : Prop := forall dim sets params tr e0 ops v s u udot,
  NoDup (all_names sets params) -> last_side false ops = false ->
  unknown sets params tr (last_load e0 ops) v u udot -> in_space v s -> volume_kind dim s Val ->
  (1 <= nb (last_load e0 ops) (vbasis v))%nat ->
  exists d st', get (after dim sets params tr e0 ops) (vname v) = Some (d, st') /\
    forall pt, d pt = wanted (last_load e0 ops) (vbasis v) u udot Val pt.

(** C95, part: it is if its own name is free of the reserved pieces; the others may be called anything. *)
Lemma val_plain k v v' : plain v -> kvalid k -> v = name k v' -> k = Val.
Proof.
  intros P Kv E. assert (three : forall d, (d < 3)%nat -> d = 0%nat \/ d = 1%nat \/ d = 2%nat) by (intros; lia).
  destruct k as [| |d|d|d| | |d]; [reflexivity| | | | | | |]; exfalso; cbn [kvalid] in Kv; cbn [name] in E.
  - apply (P "_t"); [cbn; tauto|]. exists v', "". exact E.
  - apply (P "grad"); [cbn; tauto|]. exists "", ("(" ++ v' ++ ")" ++ ax d). exact E.
  - destruct (three d Kv) as [->|[-> | ->]]; [apply (P "[x]")|apply (P "[y]")|apply (P "[z]")]; try (cbn; tauto); exists v', ""; exact E.
  - apply (P "_t"); [cbn; tauto|]. exists v', (ax d). exact E.
  - apply (P "div"); [cbn; tauto|]. exists "", ("(" ++ v' ++ ")"). exact E.
  - apply (P "curl"); [cbn; tauto|]. exists "", ("(" ++ v' ++ ")"). exact E.
  - apply (P "curl"); [cbn; tauto|]. exists "", ("(" ++ v' ++ ")" ++ ax d). exact E.
Qed.
Theorem C95_names_partial dim sets params tr e0 ops v s u udot :
  NoDup (all_names sets params) -> plain (vname v) -> last_side false ops = false ->
  unknown sets params tr (last_load e0 ops) v u udot -> in_space v s -> volume_kind dim s Val ->
  (1 <= nb (last_load e0 ops) (vbasis v))%nat ->
  exists d st', get (after dim sets params tr e0 ops) (vname v) = Some (d, st') /\
    forall pt, d pt = wanted (last_load e0 ops) (vbasis v) u udot Val pt.
Proof.
  intros N P S U Sp K Hn. unfold after.
  destruct (history_good dim sets params tr ops _ (new_good dim sets params tr e0)) as (G & E & O).
  cbn in E, O. set (st := fold_left fstep ops _) in *. rewrite S in O. rewrite <- E in *.
  destruct (home_of _ _ _ _ _ _ _ U) as (ty & si & i & H & Hu & Hd).
  destruct (get_volume _ _ _ _ st (vname v) G O) as (d & st' & f & Eg & If & Ef & Ed).
  { apply in_map_iff. exists (new_field si ty i (vname v)). split; [reflexivity|].
    apply create_iff. exists v, ty, si, i, (vname v). split; [exact H|]. split; [exact (volume_in _ _ _ _ Sp K)|reflexivity]. }
  exists d, st'. split; [exact Eg|]. intros pt. rewrite Ed.
  apply create_iff in If as (v' & ty' & s' & i' & ex & H' & Ie & ->). cbn in Ef. subst ex.
  destruct (volume_out _ _ _ _ Ie) as (k' & Kv' & En).
  pose proof (val_plain _ _ _ P Kv' En) as ->. cbn in En.
  destruct (home_inj _ _ _ _ _ _ _ _ _ _ N H H' En) as (<- & <- & <- & <-).
  destruct (parse_name Val (vname v) P I) as [Pd Pc].
  exact (eval_new _ _ _ _ _ _ _ _ _ _ _ _ _ G O H Hu Hd Hn Pd Pc pt).
Qed.
Print Assumptions C95_names_partial.

(** one basis function, equal to one, with gradient one *)
Definition unit_load (c : R) : loaded := {|
  sol_vals := fun _ _ _ => c; sol_dot_vals := fun _ _ _ => c + 1; pvals := fun _ _ => c;
  nb := fun _ => 1%nat; vdim := fun _ => 1%nat; gdim := fun _ => 1%nat; cdim := fun _ => 1%nat;
  basis := fun _ _ _ _ => 1; basis_grad := fun _ _ _ _ => 2; basis_curl := fun _ _ _ _ => 3; basis_div := fun _ _ _ => 1;
  basis_side := fun _ _ _ _ => 5; basis_grad_side := fun _ _ _ _ => 6 |}.
Definition scalar (v : string) : variable := {| vname := v; vbtype := "HGRAD"; vbasis := 0 |}.

(** A variable called heat_transfer is taken for a time derivative: zero in a steady problem. *)
Theorem C95_names_refuted : ~ C95_names.
Proof.
  intros A.
  destruct (A 2%nat [[scalar "heat_transfer"]] [] false (unit_load 7) [] (scalar "heat_transfer") HGRAD
              (sol_vals (unit_load 7) 0 0) (fun _ => 0)) as (d & st & E & D).
  - repeat constructor; cbn; tauto.
  - reflexivity.
  - left. exists 0%nat, 0%nat, [scalar "heat_transfer"]. repeat split.
  - exists "". reflexivity.
  - exact I.
  - cbn. lia.
  - cbv in E. injection E as <- _. specialize (D 0%nat). cbv -[Rmult Rplus IZR] in D. lra.
Qed.
Print Assumptions C95_names_refuted.

(** C97, full statement: with [dv i x] the divergence of basis function [i] at [x], [cu i x d] the
    components of its curl, [qp] the points of the interior and [sp] those of the side, requests
    on the side give divergence and curl there. *)
Definition describes (e : loaded) (b : nat) (dv : nat -> R -> R) (cu : nat -> R -> nat -> R) (qp : nat -> R) : Prop :=
  forall i pt, basis_div e b i pt = dv i (qp pt) /\ forall d, basis_curl e b i pt d = cu i (qp pt) d.
Definition side_request dim sets params tr e0 ops v k (u : nat -> R) (what : nat -> nat -> R) : Prop :=
  exists d st', get (after dim sets params tr e0 ops) (name k (vname v)) = Some (d, st') /\
    forall pt, d pt = expand (nb (last_load e0 ops) (vbasis v)) u (fun i => what i pt).
Definition C97_divergence : Prop := forall dim sets params tr e0 ops v u udot dv cu qp sp,
  NoDup (all_names sets params) -> Forall plain (all_names sets params) -> last_side false ops = true ->
  unknown sets params tr (last_load e0 ops) v u udot -> in_space v HDIV ->
  (1 <= nb (last_load e0 ops) (vbasis v))%nat -> describes (last_load e0 ops) (vbasis v) dv cu qp ->
  side_request dim sets params tr e0 ops v Div u (fun i pt => dv i (sp pt)).
Definition C97_curl : Prop := forall sets params tr e0 ops v u udot dv cu qp sp,
  NoDup (all_names sets params) -> Forall plain (all_names sets params) -> last_side false ops = true ->
  unknown sets params tr (last_load e0 ops) v u udot -> in_space v HCURL ->
  (1 <= nb (last_load e0 ops) (vbasis v))%nat -> describes (last_load e0 ops) (vbasis v) dv cu qp ->
  side_request 2 sets params tr e0 ops v Curl2 u (fun i pt => cu i (sp pt) 0%nat).

(** C97, part: the divergence is right where each basis function has the same divergence at the
    side's points as at the interior points of the same numbers (lowest order elements). *)
Theorem C97_divergence_partial dim sets params tr e0 ops v u udot dv cu qp sp :
  NoDup (all_names sets params) -> Forall plain (all_names sets params) -> last_side false ops = true ->
  unknown sets params tr (last_load e0 ops) v u udot -> in_space v HDIV ->
  (1 <= nb (last_load e0 ops) (vbasis v))%nat -> describes (last_load e0 ops) (vbasis v) dv cu qp ->
  (forall i pt, dv i (qp pt) = dv i (sp pt)) ->
  side_request dim sets params tr e0 ops v Div u (fun i pt => dv i (sp pt)).
Proof.
  intros N P S U Sp Hn De Hc. unfold side_request, after.
  destruct (history_good dim sets params tr ops _ (new_good dim sets params tr e0)) as (G & E & O).
  cbn in E, O. set (st := fold_left fstep ops _) in *. rewrite S in O. rewrite <- E in *.
  destruct (home_of _ _ _ _ _ _ _ U) as (ty & si & i & H & Hu & Hd).
  rewrite Forall_forall in P.
  destruct (get_side _ _ _ _ st (name Div (vname v)) G O) as (d & st' & f & Eg & If & Ef & Ed).
  { apply in_map_iff. exists (new_field si ty i (name Div (vname v))). split; [reflexivity|].
    apply create_iff. exists v, ty, si, i, (name Div (vname v)). split; [exact H|]. split; [|reflexivity].
    destruct Sp as [rest ->]. cbn. tauto. }
  exists d, st'. split; [exact Eg|]. intros pt. rewrite Ed.
  apply create_iff in If as (v' & ty' & s' & i' & ex & H' & Ie & ->). cbn [expression new_field] in Ef. subst ex.
  destruct (side_out _ _ _ _ Ie) as (k' & Kv' & En).
  destruct (name_inj Div k' _ _ (P _ (home_named _ _ _ _ _ _ H)) (P _ (home_named _ _ _ _ _ _ H')) I Kv' En) as [<- Ev].
  destruct (home_inj _ _ _ _ _ _ _ _ _ _ N H H' Ev) as (<- & <- & <- & <-).
  destruct (parse_name Div (vname v) (P _ (home_named _ _ _ _ _ _ H)) I) as [Pd Pc].
  destruct (home_basis _ _ _ _ _ _ H) as [T B]. destruct G as [G1 G2 G3 _ _ _ _].
  unfold eval_side, basis_of, coefs. cbn [vartype set_index var_index derivative_type component new_field].
  rewrite Pd, Pc, G1, G2, G3, B, Hu. cbn [kderiv].
  assert (F : forall c, dofsum (nb (env st) (vbasis v)) (fun j => c j * basis_div (env st) (vbasis v) j pt) =
              expand (nb (env st) (vbasis v)) c (fun j => dv j (sp pt))).
  { intros c. rewrite dofsum_upto by exact Hn. unfold expand. clear Hn. induction (nb (env st) (vbasis v)) as [|n IH]; cbn [upto]; [reflexivity|].
    rewrite IH, (proj1 (De n pt)), Hc. reflexivity. }
  destruct T as [-> | ->]; cbn; apply F.
Qed.
Print Assumptions C97_divergence_partial.

(** C97, part: components of a curl can at least be asked for on a side (their values are those of
    the refutation below). *)
Theorem C97_curl_found_partial dim sets params tr e0 ops v k u udot :
  last_side false ops = true -> unknown sets params tr (last_load e0 ops) v u udot -> in_space v HCURL ->
  (dim = 2%nat /\ k = Curl2) \/ (dim <> 2%nat /\ exists d, (d < 3)%nat /\ k = Curl d) ->
  exists d st', get (after dim sets params tr e0 ops) (name k (vname v)) = Some (d, st').
Proof.
  intros S U Sp K. unfold after.
  destruct (history_good dim sets params tr ops _ (new_good dim sets params tr e0)) as (G & E & O).
  cbn in E, O. set (st := fold_left fstep ops _) in *. rewrite S in O. rewrite <- E in *.
  destruct (home_of _ _ _ _ _ _ _ U) as (ty & si & i & H & Hu & Hd).
  destruct (get_side _ _ _ _ st (name k (vname v)) G O) as (d & st' & f & Eg & If & Ef & Ed).
  { apply in_map_iff. exists (new_field si ty i (name k (vname v))). split; [reflexivity|].
    apply create_iff. exists v, ty, si, i, (name k (vname v)). split; [exact H|]. split; [|reflexivity].
    destruct Sp as [rest ->]. unfold side_fields. cbn [label_of append starts Ascii.eqb Bool.eqb andb].
    assert (three : forall d, (d < 3)%nat -> d = 0%nat \/ d = 1%nat \/ d = 2%nat) by (intros; lia).
    destruct K as [[-> ->]|[Hd2 [d [Kd ->]]]]; [cbn; tauto|].
    apply Nat.eqb_neq in Hd2. rewrite Hd2. destruct (three d Kd) as [->|[-> | ->]]; cbn; tauto. }
  exists d, st'. exact Eg.
Qed.
Print Assumptions C97_curl_found_partial.

Definition vector (t v : string) : variable := {| vname := v; vbtype := t; vbasis := 0 |}.
Theorem C97_divergence_refuted : ~ C97_divergence.
Proof.
  intros A.
  destruct (A 2%nat [[vector "HDIV" "q"]] [] false (unit_load 7) [OnSide true] (vector "HDIV" "q")
              (sol_vals (unit_load 7) 0 0) (fun _ => 0) (fun _ x => x) (fun _ _ _ => 3) (fun _ => 1) (fun _ => 2)) as (d & st & E & D).
  - repeat constructor; cbn; tauto.
  - repeat constructor. intros p Hp Hq. apply contains_iff in Hq. cbn in Hp. intuition (subst; discriminate).
  - reflexivity.
  - left. exists 0%nat, 0%nat, [vector "HDIV" "q"]. repeat split.
  - exists "". reflexivity.
  - cbn. lia.
  - intros i pt. split; [reflexivity|]. intros c. reflexivity.
  - cbv -[Rmult Rplus IZR] in E. injection E as <- _. specialize (D 0%nat). cbv -[Rmult Rplus IZR] in D. lra.
Qed.
Print Assumptions C97_divergence_refuted.
Theorem C97_curl_refuted : ~ C97_curl.
Proof.
  intros A.
  destruct (A [[vector "HCURL" "E"]] [] false (unit_load 7) [OnSide true] (vector "HCURL" "E")
              (sol_vals (unit_load 7) 0 0) (fun _ => 0) (fun _ _ => 1) (fun _ _ _ => 3) (fun _ => 1) (fun _ => 2)) as (d & st & E & D).
  - repeat constructor; cbn; tauto.
  - repeat constructor. intros p Hp Hq. apply contains_iff in Hq. cbn in Hp. intuition (subst; discriminate).
  - reflexivity.
  - left. exists 0%nat, 0%nat, [vector "HCURL" "E"]. repeat split.
  - exists "". reflexivity.
  - cbn. lia.
  - intros i pt. split; [reflexivity|]. intros c. reflexivity.
  - cbv -[Rmult Rplus IZR] in E. injection E as <- _. specialize (D 0%nat). cbv -[Rmult Rplus IZR] in D. lra.
Qed.
Print Assumptions C97_curl_refuted.

(** Cases: two sets, a parameter, a history with two elements, a side and repeated requests. *)
Definition ex_sets := [[scalar "T"; vector "HDIV" "q"]; [vector "HCURL" "E"]].
Definition ex_params := [scalar "k"].
Definition ex_ops := [Get "T"; Get "grad(T)[x]"; OnSide true; Get "T"; Load (unit_load 3); Get "k"; OnSide false; Get "T_t"].
Example fields_plain : NoDup (all_names ex_sets ex_params) /\ Forall plain (all_names ex_sets ex_params).
Proof.
  split; [repeat constructor; cbn; intuition discriminate|].
  repeat constructor; intros p Hp Hq; apply contains_iff in Hq; cbn in Hp; intuition (subst; discriminate).
Qed.
Example fields_run : exists d st,
  get (after 2 ex_sets ex_params true (unit_load 7) ex_ops) "grad(T)[x]" = Some (d, st) /\ d 0%nat = 6.
Proof.
  destruct fields_plain as [N P].
  destruct (C94_volume 2 ex_sets ex_params true (unit_load 7) ex_ops (scalar "T") HGRAD (Grad 0)
              (sol_vals (unit_load 3) 0 0) (sol_dot_vals (unit_load 3) 0 0) N P eq_refl) as (d & st & E & D).
  - left. exists 0%nat, 0%nat, [scalar "T"; vector "HDIV" "q"]. repeat split.
  - exists "". reflexivity.
  - cbn. lia.
  - cbn. lia.
  - exists d, st. split; [exact E|]. rewrite D. cbn. ring.
Qed.
Example fields_run_side : exists d st,
  get (after 2 ex_sets ex_params true (unit_load 7) (ex_ops ++ [OnSide true])%list) "k" = Some (d, st) /\ d 0%nat = 15.
Proof.
  destruct fields_plain as [N P].
  destruct (C96_side 2 ex_sets ex_params true (unit_load 7) (ex_ops ++ [OnSide true])%list (scalar "k") HGRAD Val
              (pvals (unit_load 3) 0) (fun _ => 0) N P eq_refl) as (d & st & E & D).
  - right. exists 0%nat. repeat split.
  - exists "". reflexivity.
  - exact I.
  - cbn. lia.
  - exists d, st. split; [exact E|]. rewrite D. cbn. ring.
Qed.
Example side_div_run : side_request 2 [[vector "HDIV" "q"]] [] false (unit_load 7) [OnSide true] (vector "HDIV" "q") Div
  (sol_vals (unit_load 7) 0 0) (fun _ _ => 1).
Proof.
  apply (C97_divergence_partial 2 [[vector "HDIV" "q"]] [] false (unit_load 7) [OnSide true] (vector "HDIV" "q")
              (sol_vals (unit_load 7) 0 0) (fun _ => 0) (fun _ _ => 1) (fun _ _ _ => 3) (fun _ => 1) (fun _ => 2)).
  - repeat constructor; cbn; tauto.
  - repeat constructor. intros p Hp Hq. apply contains_iff in Hq. cbn in Hp. intuition (subst; discriminate).
  - reflexivity.
  - left. exists 0%nat, 0%nat, [vector "HDIV" "q"]. repeat split.
  - exists "". reflexivity.
  - cbn. lia.
  - intros i pt. split; [reflexivity|]. intros c. reflexivity.
  - reflexivity.
Qed.
Example name_run : exists d st,
  get (after 2 [[scalar "T"; scalar "T_t"; scalar "heat_transfer"]] [] false (unit_load 7) []) "T" = Some (d, st) /\ d 0%nat = 7.
Proof.
  destruct (C95_names_partial 2 [[scalar "T"; scalar "T_t"; scalar "heat_transfer"]] [] false (unit_load 7) [] (scalar "T") HGRAD
              (sol_vals (unit_load 7) 0 0) (fun _ => 0)) as (d & st & E & D).
  - repeat constructor; cbn; intuition discriminate.
  - intros p Hp Hq. apply contains_iff in Hq. cbn in Hp. intuition (subst; discriminate).
  - reflexivity.
  - left. exists 0%nat, 0%nat, [scalar "T"; scalar "T_t"; scalar "heat_transfer"]. repeat split.
  - exists "". reflexivity.
  - exact I.
  - cbn. lia.
  - exists d, st. split; [exact E|]. rewrite D. cbn. ring.
Qed.
