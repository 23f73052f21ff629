(** Properties of the boundary conditions: C60 (kind on a side), C61 (fixed unknowns),
    C62 (prescribed expressions), C64 (point conditions), C66 (constant data). *)
From Coq Require Import Bool Arith Lia ZArith QArith Qabs Ascii String List Sorting.Sorted.
From Verif Require Import BCond_Model BCond_Proofs.
Import ListNotations.
Local Open Scope nat_scope.
Local Open Scope string_scope.

(** *** Specification *)

(** The settings give a condition for a variable on a side. *)
Definition given (l : conds) (var side : string) : Prop :=
  exists s v, In (var, s) l /\ (In ("all boundaries", v) s \/ In (side, v) s).
Inductive kind := KDirichlet | KNeumann | KFarField | KSlip | KFlux.
Definition vector_type (ty : string) : Prop := exists r, ty = "HCURL" ++ r \/ ty = "HDIV" ++ r.
Definition asked (b : bset) (ty var side : string) (k : kind) : Prop :=
  match k with
  | KDirichlet => given (dbc b) var side \/
                  (vector_type ty /\ exists c, In c ["x"; "y"; "z"] /\ given (dbc b) (var ++ c) side)
  | KNeumann => given (nbc b) var side
  | KFarField => given (fbc b) var side
  | KSlip => given (sbc b) var side
  | KFlux => given (flx b) var side
  end.
Definition kind_name (weak : bool) (k : kind) : string :=
  match k with
  | KDirichlet => if weak then "weak Dirichlet" else "Dirichlet"
  | KNeumann => "Neumann" | KFarField => "Far-field" | KSlip => "Slip" | KFlux => "Flux"
  end.
Definition kind_code (weak : bool) (k : kind) : nat :=
  match k with KDirichlet => if weak then 4 else 1 | KNeumann => 2 | KFarField => 6 | KSlip => 7 | KFlux => 8 end.
(** The entries of a parameter list have different names. *)
Definition lists (b : bset) : list conds := [dbc b; nbc b; fbc b; sbc b; flx b].
Definition wf (b : bset) : Prop :=
  forall l, In l (lists b) -> NoDup (map fst l) /\ forall v s, In (v, s) l -> NoDup (map fst s).

(** Decision, for the examples. *)
Fixpoint nodupb (l : list string) : bool :=
  match l with [] => true | n :: l => negb (existsb (String.eqb n) l) && nodupb l end.
Definition wfb (b : bset) : bool :=
  forallb (fun l => nodupb (map fst l) && forallb (fun e => nodupb (map fst (snd e))) l) (lists b).
Lemma nodupb_spec l : nodupb l = true -> NoDup l.
Proof.
  induction l as [| n l IH]; cbn; [constructor |]. rewrite andb_true_iff, negb_true_iff. intros [H1 H2].
  constructor; [| auto]. intros I. apply not_true_iff_false in H1. apply H1. apply existsb_exists. exists n.
  split; [exact I | apply String.eqb_refl].
Qed.
Lemma wfb_wf b : wfb b = true -> wf b.
Proof.
  unfold wfb. rewrite forallb_forall. intros H l I. specialize (H l I). rewrite andb_true_iff, forallb_forall in H.
  destruct H as [H1 H2]. split; [apply nodupb_spec; exact H1 |]. intros v s J. apply nodupb_spec. apply (H2 (v, s) J).
Qed.

Lemma wf_list b l : wf b -> In l (lists b) -> NoDup (map fst l).
Proof. intros W I. apply (W l I). Qed.
Lemma asked_dir b ty var side : wf b -> (is_diri b ty var side = true <-> asked b ty var side KDirichlet).
Proof.
  intros W. unfold is_diri, asked, given. rewrite orb_true_iff, andb_true_iff, existsb_exists.
  pose proof (wf_list b (dbc b) W ltac:(cbn; auto)) as ND. rewrite (named_iff _ _ _ ND).
  assert (is_vector ty = true <-> vector_type ty) as ->.
  { unfold is_vector, vector_type. rewrite orb_true_iff, !prefix_iff.
    split; [intros [[r H] | [r H]]; exists r; auto | intros [r [H | H]]; [left | right]; exists r; exact H]. }
  split; (intros [H | [V (c & I & H)]]; [left; exact H | right; split; [exact V |]; exists c; split; [exact I |]]);
    apply (named_iff _ _ _ ND); exact H.
Qed.
Lemma named_asked b l var side : wf b -> In l (lists b) -> (named l var side = true <-> given l var side).
Proof. intros W I. apply named_iff. apply (wf_list b l W I). Qed.

(** Each of the five tests of the code decides [asked]. *)
Definition tests (b : bset) (ty var side : string) (k : kind) : bool :=
  match k with
  | KDirichlet => is_diri b ty var side
  | KNeumann => named (nbc b) var side | KFarField => named (fbc b) var side
  | KSlip => named (sbc b) var side | KFlux => named (flx b) var side
  end.
Lemma tests_asked b ty var side k : wf b -> (tests b ty var side k = true <-> asked b ty var side k).
Proof.
  intros W. destruct k; [apply asked_dir; exact W | | | |]; (apply (named_asked b); [exact W | cbn; auto 8]).
Qed.
Lemma tests_not b ty var side k : wf b -> ~ asked b ty var side k -> tests b ty var side k = false.
Proof. intros W N. apply not_true_iff_false. intros H. apply N. apply tests_asked; assumption. Qed.
Lemma var_bc_tests b ty var side : var_bc b ty var side =
  let t := tests b ty var side in
  if t KFlux then "Flux" else if t KSlip then "Slip" else if t KFarField then "Far-field" else
  if t KNeumann then "Neumann" else if t KDirichlet then (if weak b then "weak Dirichlet" else "Dirichlet") else "none".
Proof. reflexivity. Qed.
Lemma side_code_tests b ty var side : side_code b ty var side =
  let t := tests b ty var side in
  if t KDirichlet then (if weak b then 4 else 1) else if t KNeumann then 2 else if t KFarField then 6 else
  if t KSlip then 7 else if t KFlux then 8 else 0.
Proof. reflexivity. Qed.

(** *** C60: the kind of condition on a side *)

(** A side with one kind of condition has that kind, for the physics (name) and for the
    subgrid models (code). *)
Theorem C60_kind_partial : forall b ty var side k, wf b ->
  asked b ty var side k -> (forall k', asked b ty var side k' -> k' = k) ->
  var_bc b ty var side = kind_name (weak b) k /\ side_code b ty var side = kind_code (weak b) k.
Proof.
  intros b ty var side k W A U. rewrite var_bc_tests, side_code_tests. cbv zeta.
  assert (forall k', k' <> k -> tests b ty var side k' = false) as F.
  { intros k' N. apply tests_not; [exact W |]. intros A'. apply N. apply U. exact A'. }
  assert (tests b ty var side k = true) as T by (apply tests_asked; assumption).
  destruct k; rewrite ?T, ?(F KDirichlet), ?(F KNeumann), ?(F KFarField), ?(F KSlip), ?(F KFlux) by discriminate; auto.
Qed.
(** A side without a condition has none; the name recorded was asked for. *)
Theorem C60_none : forall b ty var side, wf b -> (forall k, ~ asked b ty var side k) ->
  var_bc b ty var side = "none" /\ side_code b ty var side = 0%nat.
Proof.
  intros b ty var side W N. rewrite var_bc_tests, side_code_tests. cbv zeta.
  rewrite !(fun k => tests_not b ty var side k W (N k)). auto.
Qed.
Theorem C60_recorded : forall b ty var side k, wf b ->
  var_bc b ty var side = kind_name (weak b) k \/ side_code b ty var side = kind_code (weak b) k -> asked b ty var side k.
Proof.
  intros b ty var side k W H. apply tests_asked; [exact W |]. rewrite var_bc_tests, side_code_tests in H. cbv zeta in H.
  destruct (tests b ty var side KDirichlet) eqn:E1, (tests b ty var side KNeumann) eqn:E2,
    (tests b ty var side KFarField) eqn:E3, (tests b ty var side KSlip) eqn:E4, (tests b ty var side KFlux) eqn:E5,
    (weak b), k; try assumption; destruct H as [H | H]; discriminate.
Qed.
Print Assumptions C60_recorded.

Definition ex_set (d n : conds) (w : bool) (vars : list (string * string)) : bset :=
  {| dbc := d; nbc := n; fbc := []; sbc := []; flx := []; weak := w; bvars := vars; points := [] |}.
Example C60_case :
  let b := ex_set [("u", [("left", VStr "1")])] [("u", [("right", VStr "2")])] false [("u", "HGRAD")] in
  map (var_bc b "HGRAD" "u") ["left"; "right"; "top"] = ["Dirichlet"; "Neumann"; "none"].
Proof. reflexivity. Qed.

(** Two kinds on a side: the physics sees the last, the subgrid models the first, and the
    unknowns stay fixed although no value is projected for them. *)
Theorem C60_two_kinds_refuted : exists b ty var side, wf b /\
  asked b ty var side KDirichlet /\ asked b ty var side KNeumann /\
  var_bc b ty var side = "Neumann" /\ side_code b ty var side = 1%nat /\
  var_dofs (fun e o => o) (fun j s => [s]) b [(side, [(0, 3)])]%nat 0 var ty = [3]%nat.
Proof.
  exists (ex_set [("u", [("all boundaries", VStr "0")])] [("u", [("left", VStr "1")])] false [("u", "HGRAD")]), "HGRAD", "u", "left".
  split; [apply wfb_wf; reflexivity |].
  split; [left; exists [("all boundaries", VStr "0")], (VStr "0"); cbn; auto |].
  split; [exists [("left", VStr "1")], (VStr "1"); cbn; auto |].
  repeat split.
Qed.
Print Assumptions C60_two_kinds_refuted.

(** *** C61: the fixed unknowns *)

(** The fixed unknowns of a variable are those on the sides with a Dirichlet condition,
    each listed once; with weak conditions there are none. *)
Theorem C61_fixed : forall lids closure b sides j var ty i, wf b ->
  (In i (var_dofs lids closure b sides j var ty) <->
   weak b = false /\ exists side els e k o, In (side, els) sides /\ asked b ty var side KDirichlet /\
     In (e, k) els /\ In o (closure j k) /\ i = lids e o).
Proof.
  intros lids closure b sides j var ty i W. unfold var_dofs. rewrite unique_in, sort_in, in_flat_map. split.
  - intros ([side els] & Is & Hi). cbn [fst snd] in Hi.
    destruct (is_diri b ty var side) eqn:D; cbn in Hi; [| contradiction].
    destruct (weak b); cbn in Hi; [contradiction |]. split; [reflexivity |].
    apply in_flat_map in Hi. destruct Hi as ([e k] & Ie & Hi). apply in_map_iff in Hi. destruct Hi as (o & <- & Io).
    exists side, els, e, k, o. repeat split; auto. apply asked_dir; assumption.
  - intros [Hw (side & els & e & k & o & Is & A & Ie & Io & ->)]. exists (side, els). split; [exact Is |].
    cbn [fst snd]. rewrite (proj2 (asked_dir b ty var side W) A), Hw. cbn.
    apply in_flat_map. exists (e, k). split; [exact Ie |]. apply in_map. exact Io.
Qed.
Theorem C61_once : forall lids closure b sides j var ty,
  StronglySorted lt (var_dofs lids closure b sides j var ty).
Proof. intros. apply unique_sorted, sort_sorted. Qed.

Lemma combine_seq_in {A} (l : list A) : forall s n a, In (n, a) (combine (seq s (List.length l)) l) <-> (s <= n)%nat /\ nth_error l (n - s) = Some a.
Proof.
  induction l as [| x l IH]; intros s n a; cbn [List.length seq combine In].
  - split; [contradiction | intros [_ H]; destruct (n - s)%nat; discriminate].
  - rewrite IH. split.
    + intros [E | [H1 H2]]; [injection E as -> ->; rewrite Nat.sub_diag; auto |].
      split; [lia |]. replace (n - s)%nat with (S (n - S s)) by lia. exact H2.
    + intros [H1 H2]. destruct (n - s)%nat as [| m] eqn:E; [left; injection H2 as ->; f_equal; lia |].
      right. split; [lia |]. replace (n - S s)%nat with m by lia. exact H2.
Qed.
(** An unknown is treated as fixed when it lies on such a side for some variable of some block. *)
Theorem C61_flag : forall lids closure blocks i,
  (forall b sides, In (b, sides) blocks -> wf b) ->
  (is_fixed (map (fun bs => block_dofs lids closure (fst bs) (snd bs)) blocks) i = true <->
   exists b sides j var ty side els e k o, In (b, sides) blocks /\ nth_error (bvars b) j = Some (var, ty) /\
     weak b = false /\ In (side, els) sides /\ asked b ty var side KDirichlet /\ In (e, k) els /\
     In o (closure j k) /\ i = lids e o).
Proof.
  intros lids closure blocks i W. unfold is_fixed. rewrite existsb_exists. split.
  - intros (l & Il & H). apply in_map_iff in Il. destruct Il as ([b sides] & <- & Ib). apply existsb_exists in H.
    destruct H as (d & Id & H). apply existsb_eqb in H. unfold block_dofs in Id. apply in_map_iff in Id.
    destruct Id as ([j [var ty]] & <- & Ij). cbn [fst snd] in *. apply combine_seq_in in Ij. rewrite Nat.sub_0_r in Ij.
    apply C61_fixed in H; [| eapply W; eassumption]. destruct H as [Hw (side & els & e & k & o & H)].
    exists b, sides, j, var, ty, side, els, e, k, o. tauto.
  - intros (b & sides & j & var & ty & side & els & e & k & o & Ib & Ij & Hw & H).
    exists (block_dofs lids closure b sides). split; [apply in_map_iff; exists (b, sides); auto |].
    apply existsb_exists. exists (var_dofs lids closure b sides j var ty). split.
    + unfold block_dofs. apply in_map_iff. exists (j, (var, ty)). split; [reflexivity |].
      apply combine_seq_in. rewrite Nat.sub_0_r. auto with arith.
    + apply existsb_eqb. apply C61_fixed; [eapply W; eassumption |]. split; [exact Hw |].
      exists side, els, e, k, o. exact H.
Qed.
Lemma set_imposed : forall V (zero : V) u proj fixed point i,
  let w := set_dirichlet zero u (map (fun d => (d, proj)) fixed) point in
  w i = if existsb (Nat.eqb i) point then zero else if existsb (existsb (Nat.eqb i)) fixed then proj i else u i.
Proof. intros V zero u proj fixed point i w. unfold w, set_dirichlet. rewrite <- set_fold_same. reflexivity. Qed.
(** An unknown on a side of its block that has a Dirichlet condition for its variable. *)
Definition on_dirichlet (lids : nat -> nat -> nat) (closure : nat -> nat -> list nat) (blocks : list (bset * side_table)) (i : nat) : Prop :=
  exists b sides j var ty side els e k o, In (b, sides) blocks /\ nth_error (bvars b) j = Some (var, ty) /\
     weak b = false /\ In (side, els) sides /\ asked b ty var side KDirichlet /\ In (e, k) els /\
     In o (closure j k) /\ i = lids e o.
(** With strong conditions, the solution has the projected values at the unknowns on
    Dirichlet sides, and is unchanged elsewhere. *)
Theorem C61_imposed : forall V (zero : V) lids closure blocks proj point u i,
  (forall b sides, In (b, sides) blocks -> wf b) -> ~ In i point ->
  let w := impose true zero lids closure blocks proj point u in
  (on_dirichlet lids closure blocks i -> w i = proj i) /\ (~ on_dirichlet lids closure blocks i -> w i = u i).
Proof.
  intros V zero lids closure blocks proj point u i W NP w.
  assert (existsb (Nat.eqb i) point = false) as P.
  { apply not_true_iff_false. rewrite existsb_eqb. exact NP. }
  assert (existsb (existsb (Nat.eqb i)) (flat_map (fun bs => block_dofs lids closure (fst bs) (snd bs)) blocks) =
          is_fixed (map (fun bs => block_dofs lids closure (fst bs) (snd bs)) blocks) i) as F.
  { clear. unfold is_fixed. induction blocks as [| b bl IH]; [reflexivity |]. cbn. rewrite existsb_app, IH. reflexivity. }
  split; intros H.
  - assert (have_dirichlet blocks = true) as HD.
    { destruct H as (b & sides & j & var & ty & side & els & e & k & o & Ib & Ij & _ & Is & A & _).
      unfold have_dirichlet. apply existsb_exists. exists (b, sides). split; [exact Ib |].
      apply existsb_exists. exists (var, ty). split; [eapply nth_error_In; exact Ij |].
      apply existsb_exists. exists (side, els). split; [exact Is |]. cbn [fst snd].
      apply (asked_dir b ty var side); [eapply W; exact Ib | exact A]. }
    unfold w, impose. rewrite HD. cbn [andb]. rewrite set_imposed, P, F. rewrite (proj2 (C61_flag lids closure blocks i W) H). reflexivity.
  - unfold w, impose. destruct (have_dirichlet blocks); [| reflexivity]. cbn [andb]. rewrite set_imposed, P, F.
    destruct (is_fixed _ i) eqn:E; [| reflexivity]. exfalso. apply H. apply (C61_flag lids closure blocks i W). exact E.
Qed.
Print Assumptions C61_flag.
Example C61_case :
  let b := ex_set [("u", [("left", VStr "1")])] [] false [("u", "HGRAD")] in
  var_dofs (fun e o => 2 * e + o)%nat (fun j s => [0; 2])%nat b [("left", [(1, 0); (2, 0)]); ("right", [(5, 1)])]%nat 0 "u" "HGRAD" = [2; 4; 6]%nat
  /\ map (impose true 0 (fun e o => 2 * e + o) (fun j s => [0; 2]) [(b, [("left", [(1, 0); (2, 0)]); ("right", [(5, 1)])])] (fun i => 10 * i) [6] (fun i => i))
         [2; 3; 4; 5; 6; 10] = [20; 3; 40; 5; 0; 10]%nat.
Proof. split; reflexivity. Qed.

(** *** C62: the prescribed expressions *)
Definition kconds (k : kind) (b : bset) : conds :=
  match k with KDirichlet => dbc b | KNeumann => nbc b | KFarField => fbc b | KSlip => sbc b | KFlux => flx b end.
Definition prefix_name (k : kind) : string :=
  match k with KDirichlet => "Dirichlet" | KNeumann => "Neumann" | KFarField => "Far-field" | KSlip => "Slip" | KFlux => "Flux" end.
(** The names under which conditions are looked up: variables, and components of vectors. *)
Definition owner (b : bset) (k : kind) (n : string) : Prop :=
  exists ty, In (n, ty) (bvars b) \/
    (k = KDirichlet /\ exists v c, In (v, ty) (bvars b) /\ vector_type ty /\ In c ["x"; "y"; "z"] /\ n = v ++ c).
(** The value that the settings give on a side. *)
Definition value_on (s : sub) (side : string) (v : bval) : Prop :=
  In ("all boundaries", v) s \/ ((forall w, ~ In ("all boundaries", w) s) /\ In (side, v) s).

Lemma prefix_blank k : blank_free (prefix_name k).
Proof. apply has_blank_spec. destruct k; reflexivity. Qed.
Lemma is_vector_iff ty : is_vector ty = true <-> vector_type ty.
Proof.
  unfold is_vector, vector_type. rewrite orb_true_iff, !prefix_iff.
  split; [intros [[r H] | [r H]]; exists r; auto | intros [r [H | H]]; [left | right]; exists r; exact H].
Qed.

Lemma reg_kind_in k kind get sides sets r : prefix_name k = kind -> k <> KDirichlet -> (forall b, get b = kconds k b) ->
  (forall b, In b sets -> wf b) -> reg_kind kind get sides sets = Some r ->
  forall e, In e r <-> exists b n s side t, In b sets /\ owner b k n /\ In (n, s) (kconds k b) /\
    use s sides side (VStr t) /\ e = (label (prefix_name k) n side, EText t).
Proof.
  intros Hk Nk Hg W H e. unfold reg_kind in H. rewrite (collect_in _ _ _ H).
  assert (forall b, In b sets -> NoDup (map fst (get b)) /\ forall v s, In (v, s) (get b) -> NoDup (map fst s)) as WG.
  { intros b Ib. rewrite Hg. apply (W b Ib). destruct k; cbn; auto 6. }
  split.
  - intros (b & x & Ib & E & Ie). rewrite (collect_in _ _ _ E) in Ie. destruct Ie as ([n ty] & y & Iv & Ey & Ie).
    cbn [fst] in Ey. destruct (WG b Ib) as [N1 N2]. rewrite (reg_str_in _ _ _ _ _ N1 N2 Ey) in Ie.
    destruct Ie as (s & side & t & Is & Hu & ->). exists b, n, s, side, t. rewrite <- Hg, Hk.
    split; [exact Ib |]. split; [exists ty; left; exact Iv |]. auto.
  - intros (b & n & s & side & t & Ib & [ty [Iv | [Ek _]]] & Is & Hu & ->); [| contradiction].
    assert (exists x, collect (fun v => reg_str kind (get b) sides (fst v)) (bvars b) = Some x) as [x Ex].
    { clear - H Ib. revert r H. induction sets as [| b' sets IH]; [contradiction |]. cbn. intros r H.
      destruct (collect (fun v => reg_str kind (get b') sides (fst v)) (bvars b')) as [x |] eqn:E; [| discriminate].
      destruct (collect _ sets) as [y |] eqn:E2; [| discriminate].
      destruct Ib as [-> | Ib]; [eauto | apply (IH Ib y); reflexivity]. }
    exists b, x. split; [exact Ib |]. split; [exact Ex |]. rewrite (collect_in _ _ _ Ex).
    assert (exists y, reg_str kind (get b) sides n = Some y) as [y Ey].
    { clear - Ex Iv. revert x Ex. induction (bvars b) as [| v' l IH]; [contradiction |]. cbn. intros x Ex.
      destruct (reg_str kind (get b) sides (fst v')) as [y |] eqn:E; [| discriminate].
      destruct (collect _ l) as [z |] eqn:E2; [| discriminate].
      destruct Iv as [-> | Iv]; [eauto | apply (IH Iv z); reflexivity]. }
    exists (n, ty), y. split; [exact Iv |]. split; [exact Ey |]. destruct (WG b Ib) as [N1 N2].
    rewrite (reg_str_in _ _ _ _ _ N1 N2 Ey). exists s, side, t. rewrite Hg, <- Hk. auto.
Qed.

Lemma reg_dirs_in sides sets : (forall b, In b sets -> wf b) ->
  forall e, In e (flat_map (fun b => flat_map (reg_dir_var b sides) (bvars b)) sets) ->
  exists b n side, In b sets /\ owner b KDirichlet n /\ fst e = label "Dirichlet" n side /\
    forall s w, In (n, s) (dbc b) -> use s sides side w -> dentry w (snd e).
Proof.
  intros W e H. apply in_flat_map in H. destruct H as (b & Ib & H). apply in_flat_map in H. destruct H as ([v ty] & Iv & H).
  destruct (W b Ib (dbc b) ltac:(cbn; auto)) as [N1 N2]. unfold reg_dir_var in H. cbn [fst snd] in H. apply in_app_iff in H.
  assert (forall n, owner b KDirichlet n -> In e (reg_dir (dbc b) sides n) ->
    exists b n side, In b sets /\ owner b KDirichlet n /\ fst e = label "Dirichlet" n side /\
    forall s w, In (n, s) (dbc b) -> use s sides side w -> dentry w (snd e)) as K.
  { intros n O I. destruct (reg_dir_in _ _ _ N1 N2 e I) as (side & en & -> & Hd). exists b, n, side. cbn [fst snd].
    split; [exact Ib |]. split; [exact O |]. split; [reflexivity |]. intros s w Is Hu. apply (Hd s Is w Hu). }
  destruct H as [H | H].
  - apply (K v); [exists ty; left; exact Iv | exact H].
  - destruct (is_vector ty) eqn:Ev; [| contradiction]. apply in_flat_map in H. destruct H as (c & Ic & H).
    apply (K (v ++ c)); [| exact H]. exists ty. right. split; [reflexivity |]. exists v, c. rewrite is_vector_iff in Ev. auto.
Qed.

Lemma expression_gen : forall user sides sets fm k b n s side v e,
  (forall b, In b sets -> wf b) ->
  (forall b k n, In b sets -> owner b k n -> blank_free n) ->
  (forall b b' k n, In b sets -> In b' sets -> owner b k n -> owner b' k n -> b = b') ->
  register user sides sets = Some fm ->
  In b sets -> owner b k n -> In (n, s) (kconds k b) -> In side sides -> value_on s side v ->
  match v with VStr t => e = EText t | VDbl q => e = to_string q | VInt _ => False end ->
  (k = KDirichlet \/ exists t, v = VStr t) ->
  (forall e, ~ In (prefix_name k ++ " " ++ n ++ " " ++ side, e) user) ->
  evaluate fm (prefix_name k ++ " " ++ n ++ " " ++ side) = Some e.
Proof.
  intros user sides sets fm k b n s side v e W BF UO R Ib On Is Iside Hv He Hk Nu.
  unfold register in R.
  destruct (reg_kind "Neumann" nbc sides sets) as [rn |] eqn:En; [| discriminate].
  destruct (reg_kind "Far-field" fbc sides sets) as [rf |] eqn:Ef; [| discriminate].
  destruct (reg_kind "Slip" sbc sides sets) as [rs |] eqn:Es; [| discriminate].
  destruct (reg_kind "Flux" flx sides sets) as [rx |] eqn:Ex; [| discriminate].
  injection R as <-. unfold evaluate. rewrite !add_fold. cbn [assoc].
  rewrite (proj2 (assoc_none _ user) Nu).
  assert (use s sides side v) as Hu by (destruct Hv as [H | H]; [left | right]; auto).
  pose proof (reg_kind_in KNeumann "Neumann" nbc sides sets rn eq_refl ltac:(discriminate) (fun _ => eq_refl) W En) as Qn.
  pose proof (reg_kind_in KFarField "Far-field" fbc sides sets rf eq_refl ltac:(discriminate) (fun _ => eq_refl) W Ef) as Qf.
  pose proof (reg_kind_in KSlip "Slip" sbc sides sets rs eq_refl ltac:(discriminate) (fun _ => eq_refl) W Es) as Qs.
  pose proof (reg_kind_in KFlux "Flux" flx sides sets rx eq_refl ltac:(discriminate) (fun _ => eq_refl) W Ex) as Qx.
  change (prefix_name k ++ " " ++ n ++ " " ++ side) with (label (prefix_name k) n side).
  apply assoc_all.
  - rewrite !in_app_iff. destruct k.
    + left. apply in_flat_map. exists b. split; [exact Ib |]. destruct On as [ty [Iv | [_ (v' & c & Iv & Vt & Ic & ->)]]].
      * apply in_flat_map. exists (n, ty). split; [exact Iv |]. unfold reg_dir_var. apply in_app_iff. left.
        destruct (W b Ib (dbc b) ltac:(cbn; auto)) as [N1 N2]; exact (reg_dir_has _ _ _ s side v e N1 (N2 _ _ Is) Is Hu He).
      * apply in_flat_map. exists (v', ty). split; [exact Iv |]. unfold reg_dir_var. apply in_app_iff. right.
        cbn [fst snd]. rewrite (proj2 (is_vector_iff ty) Vt). apply in_flat_map. exists c. split; [exact Ic |].
        destruct (W b Ib (dbc b) ltac:(cbn; auto)) as [N1 N2]; exact (reg_dir_has _ _ _ s side v e N1 (N2 _ _ Is) Is Hu He).
    + right; left. apply Qn. destruct Hk as [Hk | [t ->]]; [discriminate |]. cbn in He. subst e. exists b, n, s, side, t. auto.
    + right; right; left. apply Qf. destruct Hk as [Hk | [t ->]]; [discriminate |]. cbn in He. subst e. exists b, n, s, side, t. auto.
    + right; right; right; left. apply Qs. destruct Hk as [Hk | [t ->]]; [discriminate |]. cbn in He. subst e. exists b, n, s, side, t. auto.
    + right; right; right; right. apply Qx. destruct Hk as [Hk | [t ->]]; [discriminate |]. cbn in He. subst e. exists b, n, s, side, t. auto.
  - assert (forall k' e' r, (forall e, In e r <-> exists b n s side t, In b sets /\ owner b k' n /\ In (n, s) (kconds k' b) /\
              use s sides side (VStr t) /\ e = (label (prefix_name k') n side, EText t)) ->
            In (label (prefix_name k) n side, e') r -> e' = e) as K.
    { intros k' e' r Q I. apply Q in I. destruct I as (b' & n' & s' & side' & t' & Ib' & On' & Is' & Hu' & E).
      injection E as E ->. apply label_inj in E;
        [| apply prefix_blank | apply prefix_blank | exact (BF b k n Ib On) | exact (BF b' k' n' Ib' On')].
      destruct E as (Ek & <- & <-). assert (k' = k) as -> by (destruct k, k'; try reflexivity; discriminate).
      assert (b' = b) as -> by exact (UO b' b k n Ib' Ib On' On).
      assert (NoDup (map fst (kconds k b)) /\ forall v s, In (v, s) (kconds k b) -> NoDup (map fst s)) as [N1 N2]
        by (apply (W b Ib); destruct k; cbn; auto 6).
      pose proof (assoc_nodup _ _ _ N1 Is) as X1. pose proof (assoc_nodup _ _ _ N1 Is') as X2. rewrite X1 in X2.
      injection X2 as <-. enough (v = VStr t') as -> by (cbn in He; congruence). destruct Hu as [[Ha _] | [Hn Hs]], Hu' as [[Ha' _] | [Hn' Hs']].
      - pose proof (assoc_nodup _ _ _ (N2 _ _ Is) Ha) as Y1. pose proof (assoc_nodup _ _ _ (N2 _ _ Is) Ha') as Y2. congruence.
      - exfalso. apply (Hn' _ Ha).
      - exfalso. apply (Hn _ Ha').
      - pose proof (assoc_nodup _ _ _ (N2 _ _ Is) Hs) as Y1. pose proof (assoc_nodup _ _ _ (N2 _ _ Is) Hs') as Y2. congruence. }
    intros e' I. rewrite !in_app_iff in I. destruct I as [I | [I | [I | [I | I]]]].
    + destruct (reg_dirs_in sides sets W _ I) as (b' & n' & side' & Ib' & On' & E & Hd). cbn [fst snd] in E, Hd.
      apply (label_inj (prefix_name k) n side (prefix_name KDirichlet)) in E;
        [| apply prefix_blank | apply prefix_blank | exact (BF b k n Ib On) | exact (BF b' KDirichlet n' Ib' On')].
      destruct E as (Ek & <- & <-). assert (k = KDirichlet) as -> by (destruct k; try reflexivity; discriminate).
      assert (b' = b) as -> by exact (UO b' b KDirichlet n Ib' Ib On' On). specialize (Hd s v Is Hu). destruct v; cbn in *; congruence || contradiction.
    + apply (K _ _ _ Qn I).
    + apply (K _ _ _ Qf I).
    + apply (K _ _ _ Qs I).
    + apply (K _ _ _ Qx I).
Qed.

(** The settings of a block are well formed: names without blanks, and no variable (or
    component of one) in two physics sets. *)
Definition settings_ok (sets : list bset) : Prop :=
  (forall b, In b sets -> wf b) /\
  (forall b k n, In b sets -> owner b k n -> blank_free n) /\
  (forall b b' k n, In b sets -> In b' sets -> owner b k n -> owner b' k n -> b = b').

(** On a side, a condition is evaluated from the text given for it: under "all boundaries",
    or under the name of the side. *)
Theorem C62_text : forall user sides sets fm k b n s side t,
  settings_ok sets -> register user sides sets = Some fm ->
  In b sets -> owner b k n -> In (n, s) (kconds k b) -> In side sides -> value_on s side (VStr t) ->
  (forall e, ~ In (prefix_name k ++ " " ++ n ++ " " ++ side, e) user) ->
  evaluate fm (prefix_name k ++ " " ++ n ++ " " ++ side) = Some (EText t).
Proof.
  intros user sides sets fm k b n s side t (W & BF & UO) R Ib On Is Iside Hv Nu.
  apply (expression_gen user sides sets fm k b n s side (VStr t)); eauto.
Qed.
(** A number given as a Dirichlet condition is imposed up to half a unit of the sixth decimal. *)
Theorem C62_number_partial : forall user sides sets fm b n s side q,
  settings_ok sets -> register user sides sets = Some fm ->
  In b sets -> owner b KDirichlet n -> In (n, s) (dbc b) -> In side sides -> value_on s side (VDbl q) ->
  (forall e, ~ In ("Dirichlet " ++ n ++ " " ++ side, e) user) ->
  exists r, evaluate fm ("Dirichlet " ++ n ++ " " ++ side) = Some (ENum r) /\ (Qabs (r - q) <= 1 # 2000000)%Q.
Proof.
  intros user sides sets fm b n s side q (W & BF & UO) R Ib On Is Iside Hv Nu.
  destruct (to_string_close q) as (r & Er & Hr). exists r. split; [| exact Hr].
  apply (expression_gen user sides sets fm KDirichlet b n s side (VDbl q)); eauto.
Qed.
Print Assumptions C62_number_partial.

Lemma owner_single b n ty k m : bvars b = [(n, ty)] -> is_vector ty = false -> owner b k m -> m = n.
Proof.
  intros E V (ty' & [I | [_ (v & c & I & Vt & _)]]); rewrite E in I; destruct I as [I | []]; injection I as <- <-;
    [reflexivity |]. rewrite <- is_vector_iff in Vt. congruence.
Qed.
Lemma settings_ok_single b n ty : bvars b = [(n, ty)] -> is_vector ty = false -> has_blank n = false -> wf b -> settings_ok [b].
Proof.
  intros E V B W. split; [intros b' [<- | []]; exact W |]. split.
  - intros b' k m [<- | []] O. rewrite (owner_single _ _ _ _ _ E V O). apply has_blank_spec. exact B.
  - intros b1 b2 k m [<- | []] [<- | []] _ _. reflexivity.
Qed.
Definition ex62 (s : sub) : bset := ex_set [("u", s)] [] false [("u", "HGRAD")].
Example C62_case :
  let b := ex62 [("left", VStr "sin(y)"); ("right", VDbl (5 # 2))] in
  settings_ok [b] /\
  option_map (fun fm => map (evaluate fm) ["Dirichlet u left"; "Dirichlet u right"; "Dirichlet u top"]) (register [] ["left"; "right"; "top"] [b])
  = Some [Some (EText "sin(y)"); Some (ENum (5 # 2)); None].
Proof.
  split; [| reflexivity].
  apply (settings_ok_single _ "u" "HGRAD"); try reflexivity. apply wfb_wf. reflexivity.
Qed.

(** A small number is imposed as zero; a number is refused for the other conditions; an
    integer defines nothing; and a side named beside "all boundaries" is ignored. *)
Theorem C62_number_refuted : exists b q, settings_ok [b] /\ In ("u", [("left", VDbl q)]) (dbc b) /\ ~ (q == 0)%Q /\
  option_map (fun fm => evaluate fm "Dirichlet u left") (register [] ["left"] [b]) = Some (Some (ENum 0)).
Proof.
  exists (ex62 [("left", VDbl (1 # 10000000))]), (1 # 10000000)%Q. split.
  - apply (settings_ok_single _ "u" "HGRAD"); try reflexivity. apply wfb_wf. reflexivity.
  - split; [left; reflexivity |]. split; [discriminate | reflexivity].
Qed.
Theorem C62_flux_number_refuted : forall q user sides,
  register user sides [{| dbc := []; nbc := [("u", [("left", VDbl q)])]; fbc := []; sbc := []; flx := []; weak := false;
                          bvars := [("u", "HGRAD")]; points := [] |}] = None.
Proof. reflexivity. Qed.
Theorem C62_integer_refuted : forall z, exists b, settings_ok [b] /\ In ("u", [("left", VInt z)]) (dbc b) /\
  var_bc b "HGRAD" "u" "left" = "Dirichlet" /\
  option_map (fun fm => evaluate fm "Dirichlet u left") (register [] ["left"] [b]) = Some None.
Proof.
  intros z. exists (ex62 [("left", VInt z)]). split.
  - apply (settings_ok_single _ "u" "HGRAD"); try reflexivity. apply wfb_wf. reflexivity.
  - split; [left; reflexivity |]. split; reflexivity.
Qed.
Theorem C62_all_boundaries_refuted : exists b, settings_ok [b] /\
  In ("u", [("left", VStr "1"); ("all boundaries", VStr "0")]) (dbc b) /\
  option_map (fun fm => evaluate fm "Dirichlet u left") (register [] ["left"; "right"] [b]) = Some (Some (EText "0")).
Proof.
  exists (ex62 [("left", VStr "1"); ("all boundaries", VStr "0")]). split.
  - apply (settings_ok_single _ "u" "HGRAD"); try reflexivity. apply wfb_wf. reflexivity.
  - split; [left |]; reflexivity.
Qed.
(** A vector condition without its x component: the values cannot be found, although the
    unknowns are fixed. *)
Theorem C62_component_refuted : exists b, wf b /\ asked b "HCURL" "E" "left" KDirichlet /\
  var_bc b "HCURL" "E" "left" = "Dirichlet" /\
  option_map (fun fm => dirichlet_vector fm "E" "left") (register [] ["left"] [b]) = Some None.
Proof.
  exists (ex_set [("Ey", [("left", VStr "1")])] [] false [("E", "HCURL")]).
  split; [apply wfb_wf; reflexivity |]. split; [| split; reflexivity].
  right. split; [exists ""; left; reflexivity |]. exists "y". split; [cbn; auto |].
  exists [("left", VStr "1")], (VStr "1"). cbn. auto.
Qed.
Print Assumptions C62_component_refuted.

(** *** C66: constant data *)

(** With "scalar data", a variable whose conditions are all the same number is set to it. *)
Theorem C66_scalar_partial : forall b n s q, wf b -> In (n, s) (dbc b) -> s <> [] ->
  (forall m v, In (m, v) s -> v = VDbl q) -> scalar_value b n = Some q.
Proof.
  intros b n s q W Is Ne H. destruct (W (dbc b) ltac:(cbn; auto)) as [N1 N2].
  unfold scalar_value. rewrite (assoc_nodup _ _ _ N1 Is). destruct (assoc all_b s) as [v |] eqn:E.
  - apply assoc_in in E. rewrite (H _ _ E). reflexivity.
  - clear - Ne H. revert Ne. generalize 0%Q. induction s as [| [m v] s IH]; intros q0 Ne; [contradiction |].
    cbn. rewrite (H m v (or_introl eq_refl)). cbn. destruct s as [| p s]; [reflexivity |].
    apply IH; [| discriminate]. intros m' v' I. apply (H m' v'). right. exact I.
Qed.
(** Two sides with different numbers both get the last one; components are not looked at. *)
Theorem C66_scalar_refuted :
  (exists b, settings_ok [b] /\ In ("u", [("left", VDbl 1); ("right", VDbl 2)]) (dbc b) /\ scalar_value b "u" = Some 2%Q /\
    let fixed := var_dofs (fun e o => o) (fun j s => [s]) b [("left", [(0, 0)]); ("right", [(0, 1)])]%nat 0 "u" "HGRAD" in
    map (set_dirichlet 0%Q (fun _ => 7%Q) [(fixed, fun _ => 2%Q)] []) [0; 1; 2]%nat = [2; 2; 7]%Q) /\
  (exists b, wf b /\ asked b "HCURL" "E" "left" KDirichlet /\ In ("Ex", [("left", VDbl 1)]) (dbc b) /\ scalar_value b "E" = Some 0%Q).
Proof.
  split.
  - exists (ex62 [("left", VDbl 1); ("right", VDbl 2)]). split.
    + apply (settings_ok_single _ "u" "HGRAD"); try reflexivity. apply wfb_wf. reflexivity.
    + split; [left; reflexivity |]. split; reflexivity.
  - exists (ex_set [("Ex", [("left", VDbl 1)])] [] false [("E", "HCURL")]).
    split; [apply wfb_wf; reflexivity |]. split; [| split; [left |]; reflexivity].
    right. split; [exists ""; left; reflexivity |]. exists "x". split; [cbn; auto |].
    exists [("left", VDbl 1)], (VDbl 1). cbn. auto.
Qed.
Print Assumptions C66_scalar_refuted.
Example C66_case : scalar_value (ex62 [("left", VDbl (1 # 3)); ("right", VDbl (1 # 3))]) "u" = Some (1 # 3)%Q.
Proof. reflexivity. Qed.

(** *** C64: point conditions *)

(** Every process learns the point conditions of all processes for the unknowns it has,
    each once. *)
Theorem C64_exchange : forall locals owned d,
  (forall l z, In l locals -> In z l -> (0 <= z)%Z) -> (forall z, In z owned -> (0 <= z)%Z) ->
  (In d (final_points locals owned) <-> In d owned /\ exists l, In l locals /\ In d l).
Proof.
  intros locals owned d Hl Ho. unfold final_points.
  rewrite intersection_spec by apply zsort_sorted. rewrite !zsort_in. split.
  - intros [G O]. split; [exact O |]. apply gather_in in G; [exact G |]. specialize (Ho d O). lia.
  - intros [O G]. split; [| exact O]. apply gather_in; [| exact G]. specialize (Ho d O). lia.
Qed.
Theorem C64_exchange_once : forall locals owned, NoDup owned -> NoDup (final_points locals owned).
Proof. intros. apply intersection_nodup; [apply zsort_nodup; assumption | apply zsort_sorted | apply zsort_sorted]. Qed.


(** A node set is meant by a text that contains its name. *)
Lemma prefix_app_iff : forall p s, prefix p s = true <-> exists c, s = p ++ c.
Proof. exact prefix_iff. Qed.
Lemma index_contains : forall p s, contains s p = true <-> exists a c, s = a ++ p ++ c.
Proof.
  intros p s. unfold contains. split.
  - destruct (index 0 p s) as [m |] eqn:E; [intros _ | discriminate]. revert m E.
    induction s as [| x s IH]; intros m E.
    + destruct p; [| discriminate]. exists "", "". reflexivity.
    + cbn [index] in E. destruct (prefix p (String x s)) eqn:P.
      * apply prefix_iff in P. destruct P as [c ->]. exists "", c. reflexivity.
      * destruct (index 0 p s) as [m' |]; [| discriminate]. destruct (IH m' eq_refl) as (a & c & ->).
        exists (String x a), c. reflexivity.
  - intros (a & c & ->). assert (index 0 p (a ++ p ++ c) <> None) as H.
    { induction a as [| x a IH].
      - cbn [append]. destruct (p ++ c) as [| y r] eqn:E.
        + destruct p; [discriminate | discriminate].
        + cbn [index]. assert (prefix p (String y r) = true) as -> by (apply prefix_iff; exists c; symmetry; exact E).
          discriminate.
      - cbn [append index]. destruct (prefix p _); [discriminate |]. destruct (index 0 p (a ++ p ++ c)); [discriminate | contradiction]. }
    destruct (index 0 p (a ++ p ++ c)); [reflexivity | contradiction].
Qed.

(** The settings list a node set for a variable. *)
Definition mentions (b : bset) (var node : string) : Prop :=
  exists text a c, In (var, text) (points b) /\ text = a ++ node ++ c.
(** On a process with at most one element of each node set, the unknowns fixed are those of
    the variable at the nodes of the sets mentioned. *)
Theorem C64_nodes_partial : forall gids offs b nodes d,
  NoDup (map fst (points b)) -> (forall l, ~ In ("", l) nodes) ->
  (forall n l, In (n, l) nodes -> (List.length l <= 1)%nat) ->
  (In d (point_dofs gids offs b nodes) <->
   weak b = false /\ exists j var ty node e k, nth_error (bvars b) j = Some (var, ty) /\ mentions b var node /\
     In (node, [(e, k)]) nodes /\ d = nth_error (gids e) (offs j k)).
Proof.
  intros gids offs b nodes d ND NE H1. unfold point_dofs. rewrite in_flat_map. split.
  - intros ([j [var ty]] & Ij & H). cbn [fst snd] in H. apply combine_seq_in in Ij. rewrite Nat.sub_0_r in Ij.
    apply in_flat_map in H. destruct H as ([node l] & In_ & H). cbn [fst snd] in H.
    match type of H with context[contains ?t node && _] => destruct (contains t node) eqn:C; [| contradiction] end.
    destruct (weak b); [contradiction |]. cbn in H. split; [reflexivity |].
    pose proof (H1 _ _ In_) as L. destruct l as [| [e k] [| p l]]; cbn in L; [contradiction | | lia].
    cbn in H. destruct H as [<- | []]. exists j, var, ty, node, e, k. split; [apply Ij |]. split; [| auto].
    apply index_contains in C. destruct C as (a & c & C). destruct (assoc var (points b)) as [t |] eqn:E.
    + exists t, a, c. split; [apply assoc_in; exact E | exact C].
    + exfalso. destruct a; [| discriminate]. destruct node; [| discriminate]. apply (NE _ In_).
  - intros [Hw (j & var & ty & node & e & k & Ij & (text & a & c & It & ->) & In_ & ->)].
    exists (j, (var, ty)). split; [apply combine_seq_in; rewrite Nat.sub_0_r; auto with arith |]. cbn [fst snd].
    apply in_flat_map. exists (node, [(e, k)]). split; [exact In_ |]. cbn [fst snd]. rewrite (assoc_nodup _ _ _ ND It).
    rewrite (proj2 (index_contains node _)) by eauto. rewrite Hw. left. reflexivity.
Qed.
Print Assumptions C64_nodes_partial.
Definition ex64 (t : string) : bset :=
  {| dbc := []; nbc := []; fbc := []; sbc := []; flx := []; weak := false; bvars := [("p", "HGRAD"); ("q", "HGRAD")]; points := [("q", t)] |}.
Example C64_case :
  point_dofs (fun e => [Z.of_nat e; 10; 20; 30]%Z) (fun j k => j + 2 * k)%nat (ex64 "corner") [("corner", [(4, 1)]); ("mid", [(2, 0)])]%nat = [Some 30%Z]
  /\ final_points [[30]; [7; 12]; []]%Z [5; 12; 30; 31]%Z = [12; 30]%Z.
Proof. split; reflexivity. Qed.

(** With two elements on a process the second node gets an unknown of the first element. *)
Theorem C64_two_elements_refuted : exists gids offs b nodes e k d,
  In ("corners", [(0, 0); (e, k)]) nodes /\ mentions b "q" "corners" /\
  nth_error (gids e) (offs 1 k) = Some d /\ ~ In (Some d) (point_dofs gids offs b nodes).
Proof.
  exists (fun e => [100 * Z.of_nat e; 100 * Z.of_nat e + 1]%Z), (fun j k => j), (ex64 "corners"), [("corners", [(0, 0); (1, 0)])]%nat, 1%nat, 0%nat, 101%Z.
  split; [left; reflexivity |]. split; [exists "corners", "", ""; cbn; auto |]. split; [reflexivity |].
  cbn. intros [H | [H | []]]; discriminate.
Qed.
(** A name contained in another one is taken for it. *)
Theorem C64_names_refuted : exists b nodes, points b = [("q", "n10")] /\ map fst nodes = ["n1"; "n10"] /\
  forall gids offs, point_dofs gids offs b nodes = [nth_error (gids 0%nat) (offs 1%nat 0%nat); nth_error (gids 1%nat) (offs 1%nat 0%nat)].
Proof.
  exists (ex64 "n10"), [("n1", [(0, 0)]); ("n10", [(1, 0)])]%nat. split; [reflexivity |]. split; [reflexivity |]. intros. reflexivity.
Qed.
(** At a point condition the solution is zero, if some side of the mesh has a Dirichlet
    condition; otherwise the solution is left unchanged there. *)
Theorem C64_imposed_partial : forall V (zero : V) lids closure blocks proj point u i,
  (forall b sides, In (b, sides) blocks -> wf b) -> In i point ->
  (exists b sides var ty side els, In (b, sides) blocks /\ In (var, ty) (bvars b) /\ In (side, els) sides /\ asked b ty var side KDirichlet) ->
  impose true zero lids closure blocks proj point u i = zero.
Proof.
  intros V zero lids closure blocks proj point u i W Ip (b & sides & var & ty & side & els & Ib & Iv & Is & A).
  unfold impose. replace (have_dirichlet blocks) with true; cbn [andb].
  - rewrite set_imposed, (proj2 (existsb_eqb i point) Ip). reflexivity.
  - symmetry. unfold have_dirichlet. apply existsb_exists. exists (b, sides). split; [exact Ib |].
    apply existsb_exists. exists (var, ty). split; [exact Iv |]. apply existsb_exists. exists (side, els). split; [exact Is |].
    apply (asked_dir b ty var side); [eapply W; exact Ib | exact A].
Qed.
Theorem C64_unimposed_refuted : forall lids closure sides proj point (u : nat -> nat),
  impose true 0%nat lids closure [(ex64 "corner", sides)] proj point u = u.
Proof.
  intros. unfold impose. replace (have_dirichlet _) with false; [reflexivity |]. symmetry. apply not_true_iff_false. intros H.
  apply existsb_exists in H. destruct H as (bs & [<- | []] & H). apply existsb_exists in H. destruct H as (v & Iv & H).
  apply existsb_exists in H. destruct H as (sd & _ & H). destruct Iv as [<- | [<- | []]]; discriminate.
Qed.
Print Assumptions C64_imposed_partial.
