(** C108 (mixed form of Darcy flow), C109 (the pressure on a side), C110 (hybridized form),
    C111 (weak Galerkin form), C112 (permeability given as data). *)
From Coq Require Import Bool Arith Lia Reals Lra List String.
From Verif Require Import Sparse_Model Sparse_Props Mass_Model Mass_Props BProj_Model BProj_Proofs Phys_Model Phys_Spec Phys_Proofs Phys_Tac Darcy_Model.
Import ListNotations.
Local Open Scope R_scope.

(** *** Specification *)
(** Components of a vector field; the mixed form in one dimension has a scalar for u. *)
Definition vec (w : wks) (v : string) (d k : nat) : R := fld w (v ++ bracket d)%string k.
Definition uvec (w : wks) (d k : nat) : R := if (dim w =? 1)%nat then fld w "u" k else vec w "u" d k.
Definition divu (w : wks) (k : nat) : R := if (dim w =? 1)%nat then grad w "u" 0 k else fld w "div(u)" k.
Definition vdiv (W : dwks) (b i k : nat) : R := vd W b i k.
Definition mdiv (W : dwks) (b i k : nat) : R := if (dim (dw W) =? 1)%nat then bgr (dw W) b i k 0%nat else vd W b i k.
(** Tested with a vector function and its divergence, with a scalar, with a normal component. *)
Definition dweak (W : dwks) (D : dwks -> nat -> nat -> nat -> R) (b i : nat) (a : nat -> nat -> R) (c : nat -> R) : R :=
  integral (dw W) (fun k => sumd (dw W) (fun d => a d k * vb W b i k d) + c k * D W b i k).
Definition sweak (W : dwks) (b i : nat) (a : nat -> R) : R := integral (dw W) (fun k => a k * vb W b i k 0%nat).
Definition vn (W : dwks) (b i k : nat) : R := sumd (dw W) (fun d => vb W b i k d * normal (dw W) d k).
Definition nweak (W : dwks) (b i : nat) (a : nat -> R) : R := integral (dw W) (fun k => a k * vn W b i k).
Definition outflow (w : wks) (v : string) (k : nat) : R := sumd w (fun d => vec w v d k * normal w d k).
Definition has (w : wks) (vs : list string) : Prop := wf w /\ forall v, In v vs -> In v (varlist w).
(** The basis of a vector variable has as many components as there are directions. *)
Definition vectorial (W : dwks) (v : string) : Prop := forall n, is_var (dw W) n v -> bcomp W (usebasis (dw W) n) = dim (dw W).
Definition sunity (W : dwks) (n : nat) : Prop := forall k, (k < npts (dw W))%nat ->
  sm (seq 0 (nbas (dw W) (usebasis (dw W) n))) (fun i => vb W (usebasis (dw W) n) i k 0%nat) = 1.
(** Fields that are expansions in the bases. *)
Definition dexpands (W : dwks) (D : dwks -> nat -> nat -> nat -> R) (n : nat) (c : nat -> R) (val : nat -> nat -> R) (dv : nat -> R) : Prop :=
  forall k, (k < npts (dw W))%nat ->
  (forall d, (d < dim (dw W))%nat -> val d k = sm (seq 0 (nbas (dw W) (usebasis (dw W) n))) (fun i => c i * vb W (usebasis (dw W) n) i k d)) /\
  dv k = sm (seq 0 (nbas (dw W) (usebasis (dw W) n))) (fun i => c i * D W (usebasis (dw W) n) i k).
Definition sexpands (W : dwks) (n : nat) (c : nat -> R) (val : nat -> R) : Prop :=
  forall k, (k < npts (dw W))%nat -> val k = sm (seq 0 (nbas (dw W) (usebasis (dw W) n))) (fun i => c i * vb W (usebasis (dw W) n) i k 0%nat).
(** The same workset at another solution. *)
Definition at_fields (W : dwks) (f : string -> nat -> R) : dwks :=
  {| dw := let w := dw W in {| dim := dim w; varlist := varlist w; usebasis := usebasis w; npts := npts w; nbas := nbas w; offs := offs w; wt := wt w;
       bas := bas w; bgr := bgr w; fld := f; fn := fn w; hel := hel w; bcs := bcs w; sidename := sidename w; isAdjoint := isAdjoint w;
       isTransient := isTransient w; deltat := deltat w |}; vb := vb W; vd := vd W; bcomp := bcomp W |}.

(** *** Lemmas *)
Lemma tested_d W D n c val dv a q (res : nat -> R) : dexpands W D n c val dv ->
  (forall i, (i < nbas (dw W) (usebasis (dw W) n))%nat -> res (offs (dw W) n i) = dweak W D (usebasis (dw W) n) i a q) ->
  tested (dw W) res n c = integral (dw W) (fun k => sumd (dw W) (fun d => a d k * val d k) + q k * dv k).
Proof.
  intros X H. unfold tested. set (w := dw W) in *. set (b := usebasis w n) in *.
  rewrite (sm_ext _ _ (fun i => integral w (fun k => c i * (sumd w (fun d => a d k * vb W b i k d) + q k * D W b i k)))).
  2:{ intros i I. apply in_seq in I. rewrite H by lia. unfold dweak. fold w. rewrite integral_scal. reflexivity. }
  rewrite integral_sum. apply integral_ext. intros k K. destruct (X k K) as [X1 X2]. fold w b in X1, X2.
  rewrite (sm_ext _ _ (fun i => sumd w (fun d => a d k * (c i * vb W b i k d)) + q k * (c i * D W b i k))).
  - rewrite sm_add, sm_scal, X2. f_equal. rewrite sumd_swap. apply sumd_ext. intros d Hd. rewrite (X1 d Hd). apply sm_scal.
  - intros i _. rewrite Rmult_plus_distr_l, <- sumd_scal. f_equal; [apply sumd_ext; intros; ring | ring].
Qed.
Lemma tested_s W n c val a (res : nat -> R) : sexpands W n c val ->
  (forall i, (i < nbas (dw W) (usebasis (dw W) n))%nat -> res (offs (dw W) n i) = sweak W (usebasis (dw W) n) i a) ->
  tested (dw W) res n c = integral (dw W) (fun k => a k * val k).
Proof.
  intros X H. unfold tested. set (w := dw W) in *. set (b := usebasis w n) in *.
  rewrite (sm_ext _ _ (fun i => integral w (fun k => c i * (a k * vb W b i k 0%nat)))).
  2:{ intros i I. apply in_seq in I. rewrite H by lia. unfold sweak. fold w. rewrite integral_scal. reflexivity. }
  rewrite integral_sum. apply integral_ext. intros k K. rewrite (X k K). fold w b. rewrite <- sm_scal. apply sm_ext. intros; ring.
Qed.
Lemma tested_n W n c val dv D a (res : nat -> R) : dexpands W D n c val dv ->
  (forall i, (i < nbas (dw W) (usebasis (dw W) n))%nat -> res (offs (dw W) n i) = nweak W (usebasis (dw W) n) i a) ->
  tested (dw W) res n c = integral (dw W) (fun k => a k * sumd (dw W) (fun d => val d k * normal (dw W) d k)).
Proof.
  intros X H. unfold tested. set (w := dw W) in *. set (b := usebasis w n) in *.
  rewrite (sm_ext _ _ (fun i => integral w (fun k => c i * (a k * vn W b i k)))).
  2:{ intros i I. apply in_seq in I. rewrite H by lia. unfold nweak. fold w. rewrite integral_scal. reflexivity. }
  rewrite integral_sum. apply integral_ext. intros k K. destruct (X k K) as [X1 _]. fold w b in X1.
  rewrite (sumd_ext w _ (fun d => sm (seq 0 (nbas w b)) (fun i => c i * vb W b i k d * normal w d k)))
    by (intros d Hd; rewrite (X1 d Hd), <- sm_scal_r; reflexivity).
  rewrite <- sumd_swap, <- sm_scal. apply sm_ext. intros i _. unfold vn. fold w. rewrite <- !sumd_scal. apply sumd_ext. intros; ring.
Qed.
Lemma total_tested1 w res n : total w res n = tested w res n (fun _ => 1).
Proof. apply sm_ext. intros; ring. Qed.
Lemma sunity_expands W n : sunity W n -> sexpands W n (fun _ => 1) (fun _ => 1).
Proof. intros H k K. rewrite <- (H k K) at 1. apply sm_ext. intros; ring. Qed.
Lemma vdotn_vn W b i k : wf (dw W) -> bcomp W b = dim (dw W) -> vdotn W b i k = vn W b i k.
Proof.
  intros Wf E. unfold vdotn, vn. rewrite E.
  destruct (dims _ Wf) as [X | [X | X]]; rewrite X; cbn [Nat.ltb Nat.leb]; rewrite ?(sumd_1 _ _ X), ?(sumd_2 _ _ X), ?(sumd_3 _ _ X); names; ring.
Qed.
Lemma fieldn_outflow W b v k : wf (dw W) -> bcomp W b = dim (dw W) -> fieldn v W b k = outflow (dw W) v k.
Proof.
  intros Wf E. unfold fieldn, outflow, vec. rewrite E.
  destruct (dims _ Wf) as [X | [X | X]]; rewrite X; cbn [Nat.ltb Nat.leb]; rewrite ?(sumd_1 _ _ X), ?(sumd_2 _ _ X), ?(sumd_3 _ _ X); names; ring.
Qed.
Lemma has_in w vs v : has w vs -> In v vs -> exists n, is_var w n v.
Proof. intros [_ H] I. apply nth_var, H, I. Qed.

(** *** C108 *)
Section Mixed.
Variables (Kinv : nat -> nat -> R) (source : nat -> R).
Lemma pm_rows W : has (dw W) ["p"; "u"]%string -> forall n i, (i < nbas (dw W) (usebasis (dw W) n))%nat ->
  (is_var (dw W) n "u" -> residual (pm_volume Kinv source W) (offs (dw W) n i) =
     dweak W mdiv (usebasis (dw W) n) i (fun d k => Kinv d k / fn (dw W) "total_mobility" k * uvec (dw W) d k) (fun k => - fld (dw W) "p" k)) /\
  (is_var (dw W) n "p" -> residual (pm_volume Kinv source W) (offs (dw W) n i) =
     sweak W (usebasis (dw W) n) i (fun k => source k - divu (dw W) k)) /\
  (forall v, is_var (dw W) n v -> v <> "p"%string -> v <> "u"%string -> residual (pm_volume Kinv source W) (offs (dw W) n i) = 0).
Proof.
  intros HW n i Hi. pose proof HW as [Wf _]. destruct (has_in _ _ "p" HW ltac:(cbn; auto)) as [p Hp]. destruct (has_in _ _ "u" HW ltac:(cbn; auto)) as [u Hu].
  unfold pm_volume. rewrite (var_num_is _ p _ 0 Wf Hp), (var_num_is _ u _ 0 Wf Hu). cbv zeta. rewrite residual_at, at_row_app.
  split; [| split].
  - intros Hn. pose proof (is_var_uniq _ n u _ Wf Hn Hu); subst n.
    destruct (dims _ Wf) as [X | [X | X]]; rewrite X; cbn [Nat.eqb]; rows Wf Hi; unfold dweak, integral; apply sm_ext; intros k _;
      rewrite ?(sumd_1 _ _ X), ?(sumd_2 _ _ X), ?(sumd_3 _ _ X); unfold mdiv, uvec, vec; rewrite X; cbn [Nat.eqb]; names; unfold Rdiv; ring.
  - intros Hn. pose proof (is_var_uniq _ n p _ Wf Hn Hp); subst n.
    destruct (dims _ Wf) as [X | [X | X]]; rewrite X; cbn [Nat.eqb]; rows Wf Hi; unfold sweak, integral; apply sm_ext; intros k _;
      unfold divu; rewrite X; cbn [Nat.eqb]; names; ring.
  - intros v Hn NP NU. assert (n <> p) by (intros ->; apply NP, (is_var_inj _ _ _ _ Hn Hp)). assert (n <> u) by (intros ->; apply NU, (is_var_inj _ _ _ _ Hn Hu)).
    destruct (dims _ Wf) as [X | [X | X]]; rewrite X; cbn [Nat.eqb]; rows Wf Hi; ring.
Qed.
End Mixed.

(** K^-1 u / m + grad p = 0, tested with a vector function v: the gradient falls on v. *)
Theorem C108_velocity Kinv source W n i : has (dw W) ["p"; "u"]%string -> is_var (dw W) n "u" -> (i < nbas (dw W) (usebasis (dw W) n))%nat ->
  residual (pm_volume Kinv source W) (offs (dw W) n i) =
  dweak W mdiv (usebasis (dw W) n) i (fun d k => Kinv d k / fn (dw W) "total_mobility" k * uvec (dw W) d k) (fun k => - fld (dw W) "p" k).
Proof. intros H N I. apply (pm_rows Kinv source W H n i I), N. Qed.
Print Assumptions C108_velocity.
(** source - div u = 0 *)
Theorem C108_pressure Kinv source W n i : has (dw W) ["p"; "u"]%string -> is_var (dw W) n "p" -> (i < nbas (dw W) (usebasis (dw W) n))%nat ->
  residual (pm_volume Kinv source W) (offs (dw W) n i) = sweak W (usebasis (dw W) n) i (fun k => source k - divu (dw W) k).
Proof. intros H N I. apply (pm_rows Kinv source W H n i I), N. Qed.
Print Assumptions C108_pressure.
Theorem C108_only Kinv source W : has (dw W) ["p"; "u"]%string -> only_rows (dw W) (residual (pm_volume Kinv source W)) ["p"; "u"]%string.
Proof. intros H n v i N V I. apply (proj2 (proj2 (pm_rows Kinv source W H n i I)) v N); intros ->; apply V; cbn; auto. Qed.
Print Assumptions C108_only.
(** Where the equations hold, what leaves an element is what its source supplies. *)
Theorem C108_conserves Kinv source W n : has (dw W) ["p"; "u"]%string -> is_var (dw W) n "p" -> sunity W n ->
  total (dw W) (residual (pm_volume Kinv source W)) n = integral (dw W) source - integral (dw W) (divu (dw W)) /\
  ((forall i, (i < nbas (dw W) (usebasis (dw W) n))%nat -> residual (pm_volume Kinv source W) (offs (dw W) n i) = 0) ->
   integral (dw W) (divu (dw W)) = integral (dw W) source).
Proof.
  intros H N U.
  assert (total (dw W) (residual (pm_volume Kinv source W)) n = integral (dw W) source - integral (dw W) (divu (dw W))) as T.
  { rewrite total_tested1, (tested_s W n _ _ _ _ (sunity_expands W n U) (fun i I => C108_pressure Kinv source W n i H N I)).
    unfold Rminus. rewrite integral_opp, <- integral_add. apply integral_ext. intros; ring. }
  split; [exact T |]. intros Z. assert (total (dw W) (residual (pm_volume Kinv source W)) n = 0) as T0
    by (apply sm_zero; intros i I; apply in_seq in I; apply Z; lia). lra.
Qed.
Print Assumptions C108_conserves.
(** Without a source, the residual at one solution tested with another is the residual at the
    other tested with the first: the matrix is symmetric. *)
Theorem C108_symmetric Kinv W f g p u cp cu dp du : has (dw W) ["p"; "u"]%string -> is_var (dw W) p "p" -> is_var (dw W) u "u" ->
  let F := at_fields W f in let G := at_fields W g in
  sexpands W p cp (f "p"%string) -> dexpands W mdiv u cu (uvec (dw F)) (divu (dw F)) ->
  sexpands W p dp (g "p"%string) -> dexpands W mdiv u du (uvec (dw G)) (divu (dw G)) ->
  let rF := residual (pm_volume Kinv (fun _ => 0) F) in let rG := residual (pm_volume Kinv (fun _ => 0) G) in
  tested (dw W) rF u du + tested (dw W) rF p dp = tested (dw W) rG u cu + tested (dw W) rG p cp.
Proof.
  intros H P U F G XP XU YP YU rF rG.
  assert (has (dw F) ["p"; "u"]%string) as HF by (destruct H as [H1 H2]; split; [destruct H1; split; assumption | exact H2]).
  assert (has (dw G) ["p"; "u"]%string) as HG by (destruct H as [H1 H2]; split; [destruct H1; split; assumption | exact H2]).
  pose proof (tested_d F mdiv u du _ _ _ _ _ YU (fun i I => C108_velocity Kinv (fun _ => 0) F u i HF U I)) as A1.
  pose proof (tested_s F p dp _ _ _ YP (fun i I => C108_pressure Kinv (fun _ => 0) F p i HF P I)) as A2.
  pose proof (tested_d G mdiv u cu _ _ _ _ _ XU (fun i I => C108_velocity Kinv (fun _ => 0) G u i HG U I)) as B1.
  pose proof (tested_s G p cp _ _ _ XP (fun i I => C108_pressure Kinv (fun _ => 0) G p i HG P I)) as B2.
  change (tested (dw F)) with (tested (dw W)) in A1, A2. change (tested (dw G)) with (tested (dw W)) in B1, B2.
  unfold rF, rG. rewrite A1, A2, B1, B2. change (integral (dw F)) with (integral (dw W)). change (integral (dw G)) with (integral (dw W)).
  rewrite <- !integral_add. apply integral_ext. intros k _. cbn [at_fields dw fld fn].
  change (sumd (dw F)) with (sumd (dw W)). change (sumd (dw G)) with (sumd (dw W)).
  change (fn (dw F)) with (fn (dw W)). change (fn (dw G)) with (fn (dw W)).
  rewrite (sumd_ext (dw W) (fun d => Kinv d k / fn (dw W) "total_mobility" k * uvec (dw F) d k * uvec (dw G) d k)
    (fun d => Kinv d k / fn (dw W) "total_mobility" k * uvec (dw G) d k * uvec (dw F) d k)) by (intros; ring).
  unfold F, G in *. cbn [at_fields dw fld] in *. ring.
Qed.
Print Assumptions C108_symmetric.
(** Tested with the solution itself: the loss in the medium against the work of the source. *)
Theorem C108_energy Kinv source W p u cp cu : has (dw W) ["p"; "u"]%string -> is_var (dw W) p "p" -> is_var (dw W) u "u" ->
  sexpands W p cp (fld (dw W) "p") -> dexpands W mdiv u cu (uvec (dw W)) (divu (dw W)) ->
  let r := residual (pm_volume Kinv source W) in
  let loss := integral (dw W) (fun k => sumd (dw W) (fun d => Kinv d k / fn (dw W) "total_mobility" k * (uvec (dw W) d k * uvec (dw W) d k))) in
  tested (dw W) r u cu - tested (dw W) r p cp = loss - integral (dw W) (fun k => source k * fld (dw W) "p" k) /\
  ((forall k, (k < npts (dw W))%nat -> 0 <= wt (dw W) k /\ 0 < fn (dw W) "total_mobility" k /\ forall d, 0 <= Kinv d k) -> 0 <= loss).
Proof.
  intros H P U XP XU r loss. split.
  - unfold r. rewrite (tested_d W mdiv u cu _ _ _ _ _ XU (fun i I => C108_velocity Kinv source W u i H U I)),
      (tested_s W p cp _ _ _ XP (fun i I => C108_pressure Kinv source W p i H P I)).
    unfold loss, Rminus. rewrite !integral_opp, <- !integral_add. apply integral_ext. intros k _.
    rewrite (sumd_ext (dw W) (fun d => Kinv d k / fn (dw W) "total_mobility" k * (uvec (dw W) d k * uvec (dw W) d k))
      (fun d => Kinv d k / fn (dw W) "total_mobility" k * uvec (dw W) d k * uvec (dw W) d k)) by (intros; ring). ring.
  - intros Q. apply integral_nonneg. intros k K. destruct (Q k K) as (Q1 & Q2 & Q3). split; [exact Q1 |].
    apply sm_nonneg. intros d _. apply Rmult_le_pos; [| nra]. apply Rmult_le_pos; [apply Q3 | left; apply Rinv_0_lt_compat, Q2].
Qed.
Print Assumptions C108_energy.
(** What a coarse scale receives is the normal component. *)
Theorem C108_flux W k : wf (dw W) -> pm_flux W k = sumd (dw W) (fun d => uvec (dw W) d k * normal (dw W) d k).
Proof.
  intros Wf. unfold pm_flux, uvec, vec. destruct (dims _ Wf) as [X | [X | X]]; rewrite X; cbn [Nat.eqb];
    rewrite ?(sumd_1 _ _ X), ?(sumd_2 _ _ X), ?(sumd_3 _ _ X); names; ring.
Qed.
Print Assumptions C108_flux.

(** *** C109 *)
(** A pressure prescribed on a side (or that of a coarse scale): <p_D, v . n> with the functions
    v of the velocity. Shown when the number of the variable is the number of its basis. *)
Definition side_pressure (aux : string) (W : dwks) (n k : nat) : R :=
  if String.eqb (bcs (dw W) n) "Dirichlet" then fn (dw W) ("Dirichlet p " ++ sidename (dw W))%string k
  else if String.eqb (bcs (dw W) n) "interface" then fld (dw W) ("aux " ++ aux)%string k else 0.
Theorem C109_side_partial aux W p u : has (dw W) ["p"; "u"]%string -> vectorial W "u" -> is_var (dw W) p "p" -> is_var (dw W) u "u" -> usebasis (dw W) u = u ->
  (forall i, (i < nbas (dw W) (usebasis (dw W) u))%nat ->
     residual (pm_boundary aux W) (offs (dw W) u i) = nweak W (usebasis (dw W) u) i (side_pressure aux W p)) /\
  only_rows (dw W) (residual (pm_boundary aux W)) ["u"]%string.
Proof.
  intros H V P U E. pose proof H as [Wf _]. unfold pm_boundary. rewrite (var_num_is _ p _ 0 Wf P), (var_num_is _ u _ 0 Wf U). cbv zeta.
  assert (forall f, fill_n (dw W) (nbas (dw W) u) u f = fill (dw W) u u f) as FN by (intros f; unfold fill_n, fill; rewrite E; reflexivity).
  pose proof (V u U) as B. rewrite E in B. rewrite !FN. unfold side_pressure. split.
  - intros i Hi. rewrite residual_at, !at_row_if. unfold nweak, integral. rewrite E.
    destruct (String.eqb (bcs (dw W) p) "Dirichlet"); [| destruct (String.eqb (bcs (dw W) p) "interface")].
    + rows Wf Hi. apply sm_ext. intros k _. rewrite (vdotn_vn W u i k Wf B). ring.
    + rows Wf Hi. apply sm_ext. intros k _. rewrite (vdotn_vn W u i k Wf B). ring.
    + rewrite at_row_nil. symmetry. apply sm_zero. intros; ring.
  - intros n v i N NV Hi. rewrite residual_at, !at_row_if. assert (n <> u) by (intros ->; apply NV; left; apply (is_var_inj _ _ _ _ U N)).
    destruct (String.eqb (bcs (dw W) p) "Dirichlet"); [| destruct (String.eqb (bcs (dw W) p) "interface")]; rows Wf Hi; rewrite ?at_row_nil; reflexivity.
Qed.
Print Assumptions C109_side_partial.
(** Two variables that share a basis come before u: the prescribed pressure is tested with the
    functions of another variable. *)
Definition shared : dwks := {|
  dw := {| dim := 1; varlist := ["p"; "s"; "u"; "w"]%string; usebasis := fun v => (v - 1)%nat; npts := 1; nbas := fun _ => 1%nat;
    offs := fun v _ => v; wt := fun _ => 1; bas := fun _ _ _ => 0; bgr := fun _ _ _ _ => 0; fld := fun _ _ => 1; fn := fun _ _ => 1; hel := 1;
    bcs := fun _ => "Dirichlet"%string; sidename := "s"%string; isAdjoint := false; isTransient := false; deltat := 1 |};
  vb := fun b _ _ _ => INR b; vd := fun _ _ _ => 0; bcomp := fun _ => 1%nat |}.
Theorem C109_side_refuted : has (dw shared) ["p"; "u"]%string /\ vectorial shared "u" /\ is_var (dw shared) 0 "p" /\ is_var (dw shared) 2 "u" /\
  residual (pm_boundary "p" shared) (offs (dw shared) 2 0) <> nweak shared (usebasis (dw shared) 2) 0 (side_pressure "p" shared 0).
Proof.
  split; [split; [split; [cbn; lia | cbn; repeat constructor; cbn; intuition discriminate | cbn; intros; lia] | cbn; intuition congruence] |].
  split; [intros n _; reflexivity |]. split; [reflexivity |]. split; [reflexivity |].
  assert (residual (pm_boundary "p" shared) (offs (dw shared) 2 0) = 2) as -> by (cbn; unfold vdotn; cbn; ring).
  assert (nweak shared (usebasis (dw shared) 2) 0 (side_pressure "p" shared 0) = 1) as -> by (cbn; ring). lra.
Qed.
Print Assumptions C109_side_refuted.

(** *** C110 *)
Lemma hy_rows Kinv source W : has (dw W) ["p"; "u"]%string -> forall n i, (i < nbas (dw W) (usebasis (dw W) n))%nat ->
  (is_var (dw W) n "u" -> residual (hy_volume Kinv source W) (offs (dw W) n i) =
     dweak W vdiv (usebasis (dw W) n) i (fun d k => Kinv d k * vec (dw W) "u" d k) (fun k => - fld (dw W) "p" k)) /\
  (is_var (dw W) n "p" -> residual (hy_volume Kinv source W) (offs (dw W) n i) =
     sweak W (usebasis (dw W) n) i (fun k => source k - fld (dw W) "div(u)" k)) /\
  (forall v, is_var (dw W) n v -> v <> "p"%string -> v <> "u"%string -> residual (hy_volume Kinv source W) (offs (dw W) n i) = 0).
Proof.
  intros HW n i Hi. pose proof HW as [Wf _]. destruct (has_in _ _ "p" HW ltac:(cbn; auto)) as [p Hp]. destruct (has_in _ _ "u" HW ltac:(cbn; auto)) as [u Hu].
  unfold hy_volume. rewrite (var_num_is _ p _ 0 Wf Hp), (var_num_is _ u _ 0 Wf Hu). cbv zeta. rewrite residual_at.
  split; [| split].
  - intros Hn. pose proof (is_var_uniq _ n u _ Wf Hn Hu); subst n. rows Wf Hi. unfold dweak, integral. apply sm_ext; intros k _.
    destruct (dims _ Wf) as [X | [X | X]]; rewrite X; cbn [Nat.eqb];
      rewrite ?(sumd_1 _ _ X), ?(sumd_2 _ _ X), ?(sumd_3 _ _ X); unfold vdiv, vec; names; ring.
  - intros Hn. pose proof (is_var_uniq _ n p _ Wf Hn Hp); subst n. rows Wf Hi. unfold sweak, integral. apply sm_ext; intros k _. ring.
  - intros v Hn NP NU. assert (n <> p) by (intros ->; apply NP, (is_var_inj _ _ _ _ Hn Hp)). assert (n <> u) by (intros ->; apply NU, (is_var_inj _ _ _ _ Hn Hu)).
    rows Wf Hi. ring.
Qed.
(** Inside the elements as in the mixed form with mobility one. *)
Theorem C110_volume Kinv source W : has (dw W) ["p"; "u"]%string ->
  (forall n i, is_var (dw W) n "u" -> (i < nbas (dw W) (usebasis (dw W) n))%nat -> residual (hy_volume Kinv source W) (offs (dw W) n i) =
     dweak W vdiv (usebasis (dw W) n) i (fun d k => Kinv d k * vec (dw W) "u" d k) (fun k => - fld (dw W) "p" k)) /\
  (forall n i, is_var (dw W) n "p" -> (i < nbas (dw W) (usebasis (dw W) n))%nat -> residual (hy_volume Kinv source W) (offs (dw W) n i) =
     sweak W (usebasis (dw W) n) i (fun k => source k - fld (dw W) "div(u)" k)) /\
  only_rows (dw W) (residual (hy_volume Kinv source W)) ["p"; "u"]%string.
Proof.
  intros H. split; [| split].
  - intros n i N I. apply (hy_rows Kinv source W H n i I), N.
  - intros n i N I. apply (hy_rows Kinv source W H n i I), N.
  - intros n v i N V I. apply (proj2 (proj2 (hy_rows Kinv source W H n i I)) v N); intros ->; apply V; cbn; auto.
Qed.
Print Assumptions C110_volume.
(** A prescribed pressure on a side uses the velocity's own functions. *)
Theorem C110_side W p u : has (dw W) ["p"; "u"]%string -> vectorial W "u" -> is_var (dw W) p "p" -> is_var (dw W) u "u" ->
  (forall i, (i < nbas (dw W) (usebasis (dw W) u))%nat ->
     residual (hy_boundary W) (offs (dw W) u i) = nweak W (usebasis (dw W) u) i (side_pressure "p" W p)) /\
  only_rows (dw W) (residual (hy_boundary W)) ["u"]%string.
Proof.
  intros H V P U. pose proof H as [Wf _]. unfold hy_boundary. rewrite (var_num_is _ p _ 0 Wf P), (var_num_is _ u _ 0 Wf U). cbv zeta.
  pose proof (V u U) as B. unfold side_pressure. split.
  - intros i Hi. rewrite residual_at, !at_row_if. unfold nweak, integral.
    destruct (String.eqb (bcs (dw W) p) "Dirichlet"); [| destruct (String.eqb (bcs (dw W) p) "interface")].
    + rows Wf Hi. apply sm_ext. intros k _. rewrite (vdotn_vn W _ i k Wf B). ring.
    + rows Wf Hi. apply sm_ext. intros k _. rewrite (vdotn_vn W _ i k Wf B). cbn [append]. ring.
    + rewrite at_row_nil. symmetry. apply sm_zero. intros; ring.
  - intros n v i N NV Hi. rewrite residual_at, !at_row_if. assert (n <> u) by (intros ->; apply NV; left; apply (is_var_inj _ _ _ _ U N)).
    destruct (String.eqb (bcs (dw W) p) "Dirichlet"); [| destruct (String.eqb (bcs (dw W) p) "interface")]; rows Wf Hi; rewrite ?at_row_nil; reflexivity.
Qed.
Print Assumptions C110_side.
(** On the faces of an element: <lambda, v . n> and - <u . n, mu>. *)
Theorem C110_face W : has (dw W) ["u"; "lambda"]%string -> vectorial W "u" ->
  (forall n i, is_var (dw W) n "u" -> (i < nbas (dw W) (usebasis (dw W) n))%nat ->
     residual (hy_face W) (offs (dw W) n i) = nweak W (usebasis (dw W) n) i (fld (dw W) "lambda")) /\
  (forall n i, is_var (dw W) n "lambda" -> (i < nbas (dw W) (usebasis (dw W) n))%nat ->
     residual (hy_face W) (offs (dw W) n i) = sweak W (usebasis (dw W) n) i (fun k => - outflow (dw W) "u" k)) /\
  only_rows (dw W) (residual (hy_face W)) ["u"; "lambda"]%string.
Proof.
  intros H V. pose proof H as [Wf _]. destruct (has_in _ _ "u" H ltac:(cbn; auto)) as [u Hu]. destruct (has_in _ _ "lambda" H ltac:(cbn; auto)) as [l Hl].
  unfold hy_face. rewrite (var_num_is _ u _ 0 Wf Hu), (var_num_is _ l _ 0 Wf Hl). cbv zeta. pose proof (V u Hu) as B. split; [| split].
  - intros n i Hn Hi. pose proof (is_var_uniq _ n u _ Wf Hn Hu); subst n. rewrite residual_at. rows Wf Hi. unfold nweak, integral.
    apply sm_ext. intros k _. rewrite (vdotn_vn W _ i k Wf B). ring.
  - intros n i Hn Hi. pose proof (is_var_uniq _ n l _ Wf Hn Hl); subst n. rewrite residual_at. rows Wf Hi. unfold sweak, integral.
    apply sm_ext. intros k _. rewrite (fieldn_outflow W _ _ k Wf B). ring.
  - intros n v i Hn NV Hi. rewrite residual_at. assert (n <> u) by (intros ->; apply NV; left; apply (is_var_inj _ _ _ _ Hu Hn)).
    assert (n <> l) by (intros ->; apply NV; right; left; apply (is_var_inj _ _ _ _ Hl Hn)). rows Wf Hi. ring.
Qed.
Print Assumptions C110_face.
(** Two elements at one face, with the same points, weights and functions for lambda: where the
    two contributions to the equation of lambda cancel, the moments of the flux agree; pointwise
    if the functions of lambda determine a function at the points. *)
Definition separates (W : dwks) (b : nat) : Prop := forall g : nat -> R,
  (forall i, (i < nbas (dw W) b)%nat -> sweak W b i g = 0) -> forall k, (k < npts (dw W))%nat -> g k = 0.
Record meet (A B : dwks) (a b : nat) : Prop := {
  m_pts : npts (dw A) = npts (dw B); m_nb : nbas (dw A) (usebasis (dw A) a) = nbas (dw B) (usebasis (dw B) b);
  m_wt : forall k, (k < npts (dw A))%nat -> wt (dw A) k = wt (dw B) k;
  m_mu : forall i k, (i < nbas (dw A) (usebasis (dw A) a))%nat -> (k < npts (dw A))%nat -> vb A (usebasis (dw A) a) i k 0%nat = vb B (usebasis (dw B) b) i k 0%nat }.
Lemma meet_sweak A B a b g i : meet A B a b -> (i < nbas (dw A) (usebasis (dw A) a))%nat ->
  sweak A (usebasis (dw A) a) i g = sweak B (usebasis (dw B) b) i g.
Proof.
  intros [M1 M2 M3 M4] I. unfold sweak, integral. rewrite <- M1. apply sm_ext. intros k K. apply in_seq in K. rewrite M3, M4 by lia. reflexivity.
Qed.
Lemma sweak_add W b i f g : sweak W b i (fun k => f k + g k) = sweak W b i f + sweak W b i g.
Proof. unfold sweak. rewrite <- integral_add. apply integral_ext. intros; ring. Qed.
Theorem C110_continuous A B a b : has (dw A) ["u"; "lambda"]%string -> has (dw B) ["u"; "lambda"]%string -> vectorial A "u" -> vectorial B "u" ->
  is_var (dw A) a "lambda" -> is_var (dw B) b "lambda" -> meet A B a b ->
  (forall i, (i < nbas (dw A) (usebasis (dw A) a))%nat -> residual (hy_face A) (offs (dw A) a i) + residual (hy_face B) (offs (dw B) b i) = 0) ->
  (forall i, (i < nbas (dw A) (usebasis (dw A) a))%nat ->
     sweak A (usebasis (dw A) a) i (fun k => outflow (dw A) "u" k + outflow (dw B) "u" k) = 0) /\
  (separates A (usebasis (dw A) a) -> forall k, (k < npts (dw A))%nat -> outflow (dw A) "u" k = - outflow (dw B) "u" k).
Proof.
  intros HA HB VA VB Na Nb M Z.
  assert (forall i, (i < nbas (dw A) (usebasis (dw A) a))%nat ->
     sweak A (usebasis (dw A) a) i (fun k => outflow (dw A) "u" k + outflow (dw B) "u" k) = 0) as Q.
  { intros i I. pose proof (Z i I) as Zi. pose proof (m_nb _ _ _ _ M) as MN.
    rewrite (proj1 (proj2 (C110_face A HA VA)) a i Na I) in Zi.
    rewrite (proj1 (proj2 (C110_face B HB VB)) b i Nb ltac:(lia)) in Zi. rewrite <- (meet_sweak A B a b _ i M I) in Zi.
    rewrite <- sweak_add in Zi.
    replace (sweak A (usebasis (dw A) a) i (fun k => outflow (dw A) "u" k + outflow (dw B) "u" k))
      with (- sweak A (usebasis (dw A) a) i (fun k => - outflow (dw A) "u" k + - outflow (dw B) "u" k)); [lra |].
    unfold sweak. rewrite integral_opp. apply integral_ext. intros; ring. }
  split; [exact Q |]. intros S k K. pose proof (S _ Q k K). lra.
Qed.
Print Assumptions C110_continuous.
(** Tested with the solution, the terms on the faces cancel and only the loss and the work of
    the source remain. *)
Theorem C110_energy Kinv source W Fs p u cp cu cl : has (dw W) ["p"; "u"]%string -> is_var (dw W) p "p" -> is_var (dw W) u "u" ->
  sexpands W p cp (fld (dw W) "p") -> dexpands W vdiv u cu (vec (dw W) "u") (fld (dw W) "div(u)") ->
  (forall F, In F Fs -> has (dw F) ["u"; "lambda"]%string /\ vectorial F "u" /\ is_var (dw F) u "u" /\
     exists dv l, is_var (dw F) l "lambda" /\ sexpands F l (cl F l) (fld (dw F) "lambda") /\ dexpands F vdiv u cu (vec (dw F) "u") dv) ->
  let r := residual (hy_volume Kinv source W) in
  tested (dw W) r u cu - tested (dw W) r p cp
  + sm Fs (fun F => tested (dw F) (residual (hy_face F)) u cu
                    + tested (dw F) (residual (hy_face F)) (var_num (dw F) "lambda" 0) (cl F (var_num (dw F) "lambda" 0))) =
  integral (dw W) (fun k => sumd (dw W) (fun d => Kinv d k * (vec (dw W) "u" d k * vec (dw W) "u" d k)))
  - integral (dw W) (fun k => source k * fld (dw W) "p" k).
Proof.
  intros H P U XP XU XF r. rewrite (sm_zero Fs).
  - unfold r. rewrite (tested_d W vdiv u cu _ _ _ _ _ XU (fun i I => proj1 (C110_volume Kinv source W H) u i U I)),
      (tested_s W p cp _ _ _ XP (fun i I => proj1 (proj2 (C110_volume Kinv source W H)) p i P I)).
    unfold Rminus. rewrite Rplus_0_r, !integral_opp, <- !integral_add. apply integral_ext. intros k _.
    rewrite (sumd_ext (dw W) (fun d => Kinv d k * (vec (dw W) "u" d k * vec (dw W) "u" d k))
      (fun d => Kinv d k * vec (dw W) "u" d k * vec (dw W) "u" d k)) by (intros; ring). ring.
  - intros F I. destruct (XF F I) as (HF & VF & UF & dv & l & L & XL & XV). pose proof HF as [Wf _]. rewrite (var_num_is _ l _ 0 Wf L).
    rewrite (tested_n F u cu _ _ _ _ _ XV (fun i Hi => proj1 (C110_face F HF VF) u i UF Hi)),
      (tested_s F l _ _ _ _ XL (fun i Hi => proj1 (proj2 (C110_face F HF VF)) l i L Hi)).
    rewrite <- integral_add. apply integral_zero. intros k _. unfold outflow. ring.
Qed.
Print Assumptions C110_energy.
(** If lambda is the trace of the pressure and integration by parts holds for a test function,
    its equation says K^-1 u = - grad p. *)
Theorem C110_consistent Kinv source W Fs u i gp : has (dw W) ["p"; "u"]%string -> is_var (dw W) u "u" -> (i < nbas (dw W) (usebasis (dw W) u))%nat ->
  (forall F, In F Fs -> has (dw F) ["u"; "lambda"]%string /\ vectorial F "u" /\ is_var (dw F) u "u" /\ (i < nbas (dw F) (usebasis (dw F) u))%nat) ->
  integral (dw W) (fun k => fld (dw W) "p" k * vd W (usebasis (dw W) u) i k + sumd (dw W) (fun d => gp d k * vb W (usebasis (dw W) u) i k d)) =
    sm Fs (fun F => nweak F (usebasis (dw F) u) i (fld (dw F) "lambda")) ->
  residual (hy_volume Kinv source W) (offs (dw W) u i) + sm Fs (fun F => residual (hy_face F) (offs (dw F) u i)) =
  integral (dw W) (fun k => sumd (dw W) (fun d => (Kinv d k * vec (dw W) "u" d k + gp d k) * vb W (usebasis (dw W) u) i k d)).
Proof.
  intros H U I HF G. rewrite (proj1 (C110_volume Kinv source W H) u i U I).
  rewrite (sm_ext Fs _ (fun F => nweak F (usebasis (dw F) u) i (fld (dw F) "lambda"))).
  2:{ intros F J. destruct (HF F J) as (A & B & C & D). apply (proj1 (C110_face F A B) u i C D). }
  rewrite <- G. unfold dweak. rewrite <- integral_add. apply integral_ext. intros k _.
  rewrite (sumd_ext (dw W) (fun d => (Kinv d k * vec (dw W) "u" d k + gp d k) * vb W (usebasis (dw W) u) i k d)
    (fun d => Kinv d k * vec (dw W) "u" d k * vb W (usebasis (dw W) u) i k d + gp d k * vb W (usebasis (dw W) u) i k d)) by (intros; ring).
  rewrite sumd_add. unfold vdiv. ring.
Qed.
Print Assumptions C110_consistent.

(** *** C111 *)
Definition wgv : list string := ["pint"; "u"; "t"]%string.
Lemma wg_rows perm source W : has (dw W) wgv -> forall n i, (i < nbas (dw W) (usebasis (dw W) n))%nat ->
  (is_var (dw W) n "u" -> residual (wg_volume perm source W) (offs (dw W) n i) =
     dweak W vdiv (usebasis (dw W) n) i (vec (dw W) "u") (fld (dw W) "pint")) /\
  (is_var (dw W) n "t" -> residual (wg_volume perm source W) (offs (dw W) n i) =
     dweak W vdiv (usebasis (dw W) n) i (fun d k => perm k * vec (dw W) "u" d k + vec (dw W) "t" d k) (fun _ => 0)) /\
  (is_var (dw W) n "pint" -> residual (wg_volume perm source W) (offs (dw W) n i) =
     sweak W (usebasis (dw W) n) i (fun k => fld (dw W) "div(t)" k - source k)) /\
  (forall v, is_var (dw W) n v -> ~ In v wgv -> residual (wg_volume perm source W) (offs (dw W) n i) = 0).
Proof.
  intros HW n i Hi. pose proof HW as [Wf _]. destruct (has_in _ _ "pint" HW ltac:(cbn; auto)) as [p Hp].
  destruct (has_in _ _ "u" HW ltac:(cbn; auto)) as [u Hu]. destruct (has_in _ _ "t" HW ltac:(cbn; auto)) as [t Ht].
  unfold wg_volume. rewrite (var_num_is _ p _ 0 Wf Hp), (var_num_is _ u _ 0 Wf Hu), (var_num_is _ t _ 0 Wf Ht). cbv zeta. rewrite residual_at.
  split; [| split; [| split]].
  - intros Hn. pose proof (is_var_uniq _ n u _ Wf Hn Hu); subst n. rows Wf Hi. unfold dweak, integral. apply sm_ext; intros k _.
    destruct (dims _ Wf) as [X | [X | X]]; rewrite X; cbn [Nat.eqb];
      rewrite ?(sumd_1 _ _ X), ?(sumd_2 _ _ X), ?(sumd_3 _ _ X); unfold vdiv, vec; names; ring.
  - intros Hn. pose proof (is_var_uniq _ n t _ Wf Hn Ht); subst n. rows Wf Hi. unfold dweak, integral. apply sm_ext; intros k _.
    destruct (dims _ Wf) as [X | [X | X]]; rewrite X; cbn [Nat.eqb];
      rewrite ?(sumd_1 _ _ X), ?(sumd_2 _ _ X), ?(sumd_3 _ _ X); unfold vdiv, vec; names; ring.
  - intros Hn. pose proof (is_var_uniq _ n p _ Wf Hn Hp); subst n. rows Wf Hi. unfold sweak, integral. apply sm_ext; intros k _. ring.
  - intros v Hn NV. assert (n <> p) by (intros ->; apply NV; left; apply (is_var_inj _ _ _ _ Hp Hn)).
    assert (n <> u) by (intros ->; apply NV; right; left; apply (is_var_inj _ _ _ _ Hu Hn)).
    assert (n <> t) by (intros ->; apply NV; right; right; left; apply (is_var_inj _ _ _ _ Ht Hn)). rows Wf Hi. ring.
Qed.
(** u is the weak gradient of the pressure inside, t = - K u, div t = source. *)
Theorem C111_volume perm source W : has (dw W) wgv ->
  (forall n i, is_var (dw W) n "u" -> (i < nbas (dw W) (usebasis (dw W) n))%nat -> residual (wg_volume perm source W) (offs (dw W) n i) =
     dweak W vdiv (usebasis (dw W) n) i (vec (dw W) "u") (fld (dw W) "pint")) /\
  (forall n i, is_var (dw W) n "t" -> (i < nbas (dw W) (usebasis (dw W) n))%nat -> residual (wg_volume perm source W) (offs (dw W) n i) =
     dweak W vdiv (usebasis (dw W) n) i (fun d k => perm k * vec (dw W) "u" d k + vec (dw W) "t" d k) (fun _ => 0)) /\
  (forall n i, is_var (dw W) n "pint" -> (i < nbas (dw W) (usebasis (dw W) n))%nat -> residual (wg_volume perm source W) (offs (dw W) n i) =
     sweak W (usebasis (dw W) n) i (fun k => fld (dw W) "div(t)" k - source k)) /\
  only_rows (dw W) (residual (wg_volume perm source W)) wgv.
Proof.
  intros H. split; [| split; [| split]].
  - intros n i N I. apply (wg_rows perm source W H n i I), N.
  - intros n i N I. apply (wg_rows perm source W H n i I), N.
  - intros n i N I. apply (wg_rows perm source W H n i I), N.
  - intros n v i N V I. apply (proj2 (proj2 (proj2 (wg_rows perm source W H n i I))) v N V).
Qed.
Print Assumptions C111_volume.
(** On a face the trace pbndry completes the weak gradient and makes the flux t match. *)
Theorem C111_face W : has (dw W) ["u"; "pbndry"]%string -> vectorial W "u" ->
  (forall n i, is_var (dw W) n "u" -> (i < nbas (dw W) (usebasis (dw W) n))%nat ->
     residual (wg_face W) (offs (dw W) n i) = nweak W (usebasis (dw W) n) i (fun k => - fld (dw W) "pbndry" k)) /\
  (forall n i, is_var (dw W) n "pbndry" -> (i < nbas (dw W) (usebasis (dw W) n))%nat ->
     residual (wg_face W) (offs (dw W) n i) = sweak W (usebasis (dw W) n) i (fun k => - outflow (dw W) "t" k)) /\
  only_rows (dw W) (residual (wg_face W)) ["u"; "pbndry"]%string.
Proof.
  intros H V. pose proof H as [Wf _]. destruct (has_in _ _ "u" H ltac:(cbn; auto)) as [u Hu]. destruct (has_in _ _ "pbndry" H ltac:(cbn; auto)) as [l Hl].
  unfold wg_face. rewrite (var_num_is _ u _ 0 Wf Hu), (var_num_is _ l _ 0 Wf Hl). cbv zeta. pose proof (V u Hu) as B. split; [| split].
  - intros n i Hn Hi. pose proof (is_var_uniq _ n u _ Wf Hn Hu); subst n. rewrite residual_at. rows Wf Hi. unfold nweak, integral.
    apply sm_ext. intros k _. rewrite (vdotn_vn W _ i k Wf B). ring.
  - intros n i Hn Hi. pose proof (is_var_uniq _ n l _ Wf Hn Hl); subst n. rewrite residual_at. rows Wf Hi. unfold sweak, integral.
    apply sm_ext. intros k _. rewrite (fieldn_outflow W _ _ k Wf B). ring.
  - intros n v i Hn NV Hi. rewrite residual_at. assert (n <> u) by (intros ->; apply NV; left; apply (is_var_inj _ _ _ _ Hu Hn)).
    assert (n <> l) by (intros ->; apply NV; right; left; apply (is_var_inj _ _ _ _ Hl Hn)). rows Wf Hi. ring.
Qed.
Print Assumptions C111_face.
(** A pressure prescribed on a side stands where the trace would. *)
Definition trace_data (W : dwks) (n k : nat) : R :=
  if String.eqb (bcs (dw W) n) "Dirichlet" then fn (dw W) ("Dirichlet pbndry " ++ sidename (dw W))%string k
  else if String.eqb (bcs (dw W) n) "interface" then fld (dw W) "aux pbndry" k else 0.
Theorem C111_side W p u : has (dw W) ["pint"; "u"]%string -> vectorial W "u" -> is_var (dw W) p "pint" -> is_var (dw W) u "u" ->
  (forall i, (i < nbas (dw W) (usebasis (dw W) u))%nat ->
     residual (wg_boundary W) (offs (dw W) u i) = nweak W (usebasis (dw W) u) i (fun k => - trace_data W p k)) /\
  only_rows (dw W) (residual (wg_boundary W)) ["u"]%string.
Proof.
  intros H V P U. pose proof H as [Wf _]. unfold wg_boundary. rewrite (var_num_is _ p _ 0 Wf P), (var_num_is _ u _ 0 Wf U). cbv zeta.
  pose proof (V u U) as B. unfold trace_data. split.
  - intros i Hi. rewrite residual_at, !at_row_if. unfold nweak, integral.
    destruct (String.eqb (bcs (dw W) p) "Dirichlet"); [| destruct (String.eqb (bcs (dw W) p) "interface")].
    + rows Wf Hi. apply sm_ext. intros k _. rewrite (vdotn_vn W _ i k Wf B). ring.
    + rows Wf Hi. apply sm_ext. intros k _. rewrite (vdotn_vn W _ i k Wf B). ring.
    + rewrite at_row_nil. symmetry. apply sm_zero. intros; ring.
  - intros n v i N NV Hi. rewrite residual_at, !at_row_if. assert (n <> u) by (intros ->; apply NV; left; apply (is_var_inj _ _ _ _ U N)).
    destruct (String.eqb (bcs (dw W) p) "Dirichlet"); [| destruct (String.eqb (bcs (dw W) p) "interface")]; rows Wf Hi; rewrite ?at_row_nil; reflexivity.
Qed.
Print Assumptions C111_side.
(** Locally conservative. *)
Theorem C111_conserves perm source W n : has (dw W) wgv -> is_var (dw W) n "pint" -> sunity W n ->
  total (dw W) (residual (wg_volume perm source W)) n = integral (dw W) (fld (dw W) "div(t)") - integral (dw W) source.
Proof.
  intros H N U. rewrite total_tested1, (tested_s W n _ _ _ _ (sunity_expands W n U) (fun i I => proj1 (proj2 (proj2 (C111_volume perm source W H))) n i N I)).
  unfold Rminus. rewrite integral_opp, <- integral_add. apply integral_ext. intros; ring.
Qed.
Print Assumptions C111_conserves.
(** A constant pressure has weak gradient zero: the equation of u, volume and faces, reads
    (u, v) = 0 where the divergence theorem holds for v. *)
Theorem C111_constant perm source W Fs u i c : has (dw W) wgv -> is_var (dw W) u "u" -> (i < nbas (dw W) (usebasis (dw W) u))%nat ->
  (forall F, In F Fs -> has (dw F) ["u"; "pbndry"]%string /\ vectorial F "u" /\ is_var (dw F) u "u" /\ (i < nbas (dw F) (usebasis (dw F) u))%nat /\
     forall k, (k < npts (dw F))%nat -> fld (dw F) "pbndry" k = c) ->
  (forall k, (k < npts (dw W))%nat -> fld (dw W) "pint" k = c) ->
  integral (dw W) (vd W (usebasis (dw W) u) i) = sm Fs (fun F => nweak F (usebasis (dw F) u) i (fun _ => 1)) ->
  residual (wg_volume perm source W) (offs (dw W) u i) + sm Fs (fun F => residual (wg_face F) (offs (dw F) u i)) =
  integral (dw W) (fun k => sumd (dw W) (fun d => vec (dw W) "u" d k * vb W (usebasis (dw W) u) i k d)).
Proof.
  intros H U I HF PC G. rewrite (proj1 (C111_volume perm source W H) u i U I).
  rewrite (sm_ext Fs _ (fun F => - c * nweak F (usebasis (dw F) u) i (fun _ => 1))).
  2:{ intros F J. destruct (HF F J) as (A & B & C & D & E). rewrite (proj1 (C111_face F A B) u i C D). unfold nweak. rewrite <- integral_scal.
      apply integral_ext. intros k K. rewrite (E k K). ring. }
  rewrite sm_scal, <- G, <- integral_scal. unfold dweak. rewrite <- integral_add. apply integral_ext. intros k K. rewrite (PC k K). unfold vdiv. ring.
Qed.
Print Assumptions C111_constant.
(** The flux t of two elements agrees on their common face. *)
Theorem C111_continuous A B a b : has (dw A) ["u"; "pbndry"]%string -> has (dw B) ["u"; "pbndry"]%string -> vectorial A "u" -> vectorial B "u" ->
  is_var (dw A) a "pbndry" -> is_var (dw B) b "pbndry" -> meet A B a b ->
  (forall i, (i < nbas (dw A) (usebasis (dw A) a))%nat -> residual (wg_face A) (offs (dw A) a i) + residual (wg_face B) (offs (dw B) b i) = 0) ->
  separates A (usebasis (dw A) a) -> forall k, (k < npts (dw A))%nat -> outflow (dw A) "t" k = - outflow (dw B) "t" k.
Proof.
  intros HA HB VA VB Na Nb M Z S k K.
  assert (- outflow (dw A) "t" k + - outflow (dw B) "t" k = 0); [| lra].
  apply (S (fun k => - outflow (dw A) "t" k + - outflow (dw B) "t" k)); [| exact K]. intros i I. pose proof (Z i I) as Zi.
  pose proof (m_nb _ _ _ _ M) as MN.
  rewrite (proj1 (proj2 (C111_face A HA VA)) a i Na I) in Zi.
  rewrite (proj1 (proj2 (C111_face B HB VB)) b i Nb ltac:(lia)) in Zi. rewrite <- (meet_sweak A B a b _ i M I) in Zi.
  rewrite <- sweak_add in Zi. exact Zi.
Qed.
Print Assumptions C111_continuous.

(** *** C112 *)
(** A permeability given as a function means the same in the mixed and in the hybridized form;
    one given as data is inverted in the first (and is the factor of the gradient in the weak
    Galerkin form), used as its own inverse in the second. *)
Theorem C112_data_partial W d k : pm_Kinv None None W d k = hy_Kinv None W d k /\
  forall K, K <> 0 -> pm_Kinv (Some K) None W d k * wg_perm (Some K) W k = 1.
Proof. split; [reflexivity |]. intros K NZ. cbn. field. exact NZ. Qed.
Print Assumptions C112_data_partial.
Theorem C112_data_refuted : exists K, 0 < K /\ forall W d k, hy_Kinv (Some K) W d k <> pm_Kinv (Some K) None W d k.
Proof. exists 2. split; [lra |]. intros W d k. cbn. lra. Qed.
Print Assumptions C112_data_refuted.

(** *** The hypotheses can be met. *)
Definition drop (n : nat) (vs : list string) (f g : string -> nat -> R) : dwks := {|
  dw := {| dim := n; varlist := vs; usebasis := fun v => v; npts := 2; nbas := fun _ => 2%nat;
    offs := fun v i => (2 * v + i)%nat; wt := fun _ => 1; bas := fun _ _ _ => 0; bgr := fun _ i k _ => if (i =? k)%nat then 1 else 0;
    fld := f; fn := g; hel := 1;
    bcs := fun _ => "Dirichlet"%string; sidename := "s"%string; isAdjoint := false; isTransient := false; deltat := 1 |};
  vb := fun _ i k _ => if (i =? k)%nat then 1 else 0; vd := fun _ i k => if (i =? k)%nat then 1 else 0; bcomp := fun _ => n |}.
Lemma drop_has n vs us f g : (1 <= n <= 3)%nat -> NoDup vs -> (forall v, In v us -> In v vs) -> has (dw (drop n vs f g)) us.
Proof. intros N D H. split; [split; [exact N | exact D | cbn; intros; lia] | exact H]. Qed.
Lemma drop_nodup : NoDup ["p"; "u"; "lambda"; "pint"; "t"; "pbndry"]%string.
Proof. repeat constructor; cbn; intuition discriminate. Qed.
Definition dvs : list string := ["p"; "u"; "lambda"; "pint"; "t"; "pbndry"]%string.
Example C108_drop : let W := drop 2 dvs (fun _ _ => 1) (fun _ _ => 2) in
  has (dw W) ["p"; "u"]%string /\ sunity W 0 /\ sexpands W 0 (fun _ => 1) (fld (dw W) "p") /\
  dexpands W mdiv 1 (fun _ => 1) (uvec (dw W)) (divu (dw W)) /\
  residual (pm_volume (fun _ _ => 6) (fun _ => 5) W) 2 = 5 /\ residual (pm_volume (fun _ _ => 6) (fun _ => 5) W) 0 = 4.
Proof.
  assert (forall k, (k < 2)%nat -> k = 0%nat \/ k = 1%nat) as K2 by lia.
  split; [apply drop_has; [lia | exact drop_nodup | cbn; intuition congruence] |].
  split; [intros k K; destruct (K2 k K); subst; cbn; ring |]. split; [intros k K; destruct (K2 k K); subst; cbn; ring |].
  split; [intros k K; split; [intros d D |]; destruct (K2 k K); subst; cbn; ring |]. split; cbn; field.
Qed.
(** Two elements at a face, the flux of one arriving in the other. *)
Example C110_faces : let A := drop 1 dvs (fun s k => if String.eqb s "u[x]" then INR (S k) else 1) (fun _ _ => 1) in
  let B := drop 1 dvs (fun s k => if String.eqb s "u[x]" then INR (S k) else -1) (fun _ _ => 1) in
  has (dw A) ["u"; "lambda"]%string /\ vectorial A "u" /\ meet A B 2 2 /\ separates A 2 /\
  (forall i, (i < 2)%nat -> residual (hy_face A) (offs (dw A) 2 i) + residual (hy_face B) (offs (dw B) 2 i) = 0) /\
  residual (hy_face A) (offs (dw A) 2 1) = -2.
Proof.
  assert (forall k, (k < 2)%nat -> k = 0%nat \/ k = 1%nat) as K2 by lia. cbv zeta.
  split; [apply drop_has; [lia | exact drop_nodup | cbn; intuition congruence] |]. split; [intros n _; reflexivity |].
  split; [split; reflexivity |]. split; [| split; [| cbn; unfold fieldn; cbn; ring]].
  - intros g H k K. pose proof (H 0%nat ltac:(cbn; lia)) as H0. pose proof (H 1%nat ltac:(cbn; lia)) as H1. cbn in H0, H1.
    destruct (K2 k K); subst; lra.
  - intros i I. destruct (K2 i I); subst; cbn; unfold fieldn; cbn; ring.
Qed.
