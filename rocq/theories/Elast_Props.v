(** C74 (linear elasticity in the volume), C75 (boundary terms and flux), C76 (von Mises stress),
    C77 (thermal and pore pressure stress), C78 (mixed sides), C79 (reported stresses). *)
From Coq Require Import Bool Arith Lia Reals Lra List String.
From Verif Require Import Sparse_Model Sparse_Props Mass_Model Mass_Props BProj_Model BProj_Proofs Phys_Model Phys_Spec Phys_Proofs Elast_Model.
Import ListNotations.
Local Open Scope R_scope.

(** *** Specification *)
Definition dsp (d : nat) : string := ("d" ++ axis d)%string.
Definition delta (c d : nat) : R := if (c =? d)%nat then 1 else 0.
Definition strain (w : wks) (c d k : nat) : R := (grad w (dsp c) d k + grad w (dsp d) c k) / 2.
Definition div (w : wks) (k : nat) : R := sumd w (fun d => grad w (dsp d) d k).
Definition load (w : wks) (c k : nat) : R := fn w ("source " ++ dsp c)%string k.
(** First Lame parameter: that of an incompressible material in plane stress is twice the second. *)
Definition lame (s : le_set) (w : wks) (k : nat) : R :=
  if (incplanestress s && (dim w <=? 2)%nat)%bool then 2 * fn w "mu" k else fn w "lambda" k.
(** Elastic, thermal and pore pressure parts. *)
Definition elastic (s : le_set) (w : wks) (c d k : nat) : R :=
  lame s w k * sumd w (fun e => strain w e e k) * delta c d + 2 * fn w "mu" k * strain w c d k.
Definition thermal (s : le_set) (w : wks) (k : nat) : R :=
  if in_dec string_dec "T"%string (varlist w)
  then alpha_T s * (fld w "T" k - le_T_ambient s) * (3 * lame s w k + 2 * fn w "mu" k) else 0.
Definition pore (s : le_set) (w : wks) (k : nat) : R := if addBiot s then biot_alpha s * fld w "p" k else 0.
Definition hooke (s : le_set) (w : wks) (c d k : nat) : R := elastic s w c d k - (thermal s w k + pore s w k) * delta c d.

Definition solid_vars (w : wks) : Prop := forall d, (d < dim w)%nat -> In (dsp d) (varlist w).
Definition solid_names (w : wks) : list string := map dsp (seq 0 (dim w)).
(** The cases that work: Biot coupling in three dimensions, the incompressible plane stress
    option without temperature. *)
Definition supported (s : le_set) (w : wks) : Prop :=
  (addBiot s = true -> dim w = 3%nat) /\ (incplanestress s = true -> (dim w <= 2)%nat -> ~ In "T"%string (varlist w)).
(** No temperature and no pore pressure. *)
Definition mechanical (s : le_set) (w : wks) : Prop := addBiot s = false /\ ~ In "T"%string (varlist w).

(** *** Tactics *)
Ltac names := unfold grad, normal, load, dsp, gradname, bracket, axis; cbn [append].
Ltac names_in H := unfold grad, normal, load, dsp, gradname, bracket, axis in H; cbn [append] in H.
Lemma has_var_dec w v : has_var w v = if in_dec string_dec v (varlist w) then true else false.
Proof.
  destruct (in_dec string_dec v (varlist w)) as [I | I]; [apply has_var_spec; exact I |].
  destruct (has_var w v) eqn:E; [apply has_var_spec in E; contradiction | reflexivity].
Qed.
Ltac differ := let X := fresh in intros X; subst;
  match goal with A : is_var ?w ?n ?a, B : is_var ?w ?n ?b |- _ => pose proof (is_var_inj _ _ _ _ A B); (discriminate || congruence) end.
Ltac lt_var := eapply is_var_lt; eassumption.
Ltac rows W Hi :=
  rewrite ?at_row_app, ?at_row_nil;
  repeat match goal with
  | |- context [at_row (offs ?w ?n ?i) (fill ?w ?b ?m ?f)] =>
      first [ rewrite (fill_own w b f n i W ltac:(lt_var) Hi eq_refl)
            | rewrite (fill_other w b f n m i W ltac:(lt_var) ltac:(lt_var) Hi ltac:(differ) eq_refl) ]
  end;
  rewrite ?Rplus_0_r, ?Rplus_0_l.
Lemma mechanical_supported s w : mechanical s w -> supported s w.
Proof. intros [A B]. split; [congruence | intros _ _; exact B]. Qed.
Ltac comps c := destruct c as [| [| [| c]]]; [| | | try lia].

(** *** C74 *)
(** Hooke's law. *)
Theorem C74_stress s w c d k : wf w -> supported s w -> (c < dim w)%nat -> (d < dim w)%nat ->
  le_stress s w c d k = hooke s w c d k.
Proof.
  intros W [S1 S2] C D. unfold le_stress, hooke, elastic, thermal, pore, lame, strain, delta. rewrite has_var_dec. cbv zeta.
  destruct (addBiot s) eqn:B; [rewrite (S1 eq_refl) in * |].
  - cbn [Nat.eqb Nat.leb]. rewrite andb_false_r. rewrite (sumd_3 w _ (S1 eq_refl)).
    comps c; comps d; cbn [Nat.eqb]; names; destruct (in_dec _ _ _); field.
  - destruct (incplanestress s) eqn:P.
    + destruct (dims w W) as [E | [E | E]]; rewrite E in *; cbn [Nat.eqb Nat.leb andb]; rewrite ?(sumd_1 w _ E), ?(sumd_2 w _ E), ?(sumd_3 w _ E);
        comps c; try lia; comps d; try lia; cbn [Nat.eqb]; names; (destruct (in_dec _ _ _) as [I | I]; [try (exfalso; apply S2 in I; [contradiction | reflexivity | lia]) |]); field.
    + destruct (dims w W) as [E | [E | E]]; rewrite E in *; cbn [Nat.eqb Nat.leb andb]; rewrite ?(sumd_1 w _ E), ?(sumd_2 w _ E), ?(sumd_3 w _ E);
        comps c; try lia; comps d; try lia; cbn [Nat.eqb]; names; destruct (in_dec _ _ _) as [I | I]; field.
Qed.
Print Assumptions C74_stress.

Lemma solid_pos w c : solid_vars w -> (c < dim w)%nat -> exists n, is_var w n (dsp c).
Proof. intros V C. apply In_nth_error, V, C. Qed.
(** Each row of component c gets row c of the stress, from whatever computeStress left. *)
Lemma le_rows s w : wf w -> solid_vars w ->
  (forall c, (c < dim w)%nat -> equation w (residual (le_volume s w)) (dsp c) (fun k => - load w c k) (fun d k => le_stress s w c d k)) /\
  only_rows w (residual (le_volume s w)) (solid_names w).
Proof.
  intros W V. split.
  - intros c C n i Hn Hi. rewrite residual_at. unfold le_volume. cbv zeta.
    destruct (dims w W) as [D | [D | D]]; rewrite D in *; cbn [Nat.eqb];
      (destruct (solid_pos w 0 V ltac:(lia)) as [x Hx]); try (destruct (solid_pos w 1 V ltac:(lia)) as [y Hy]);
      try (destruct (solid_pos w 2 V ltac:(lia)) as [z Hz]); unfold dsp, axis in *; cbn [append] in *;
      repeat match goal with H : is_var w ?n ?s |- context [var_num w ?s 0] => rewrite (var_num_is w n s 0 W H) end;
      comps c; try lia;
      match goal with
      | Hn : is_var w n "dx" |- _ => pose proof (is_var_uniq w n x _ W Hn Hx)
      | Hn : is_var w n "dy" |- _ => pose proof (is_var_uniq w n y _ W Hn Hy)
      | Hn : is_var w n "dz" |- _ => pose proof (is_var_uniq w n z _ W Hn Hz)
      end; subst n; rows W Hi; unfold weak, integral; apply sm_ext; intros k _;
      rewrite ?(sumd_1 w _ D), ?(sumd_2 w _ D), ?(sumd_3 w _ D); names; ring.
  - intros n v i Hn Hv Hi. rewrite residual_at. unfold le_volume. cbv zeta. unfold solid_names in Hv.
    destruct (dims w W) as [D | [D | D]]; rewrite D in *; cbn [Nat.eqb];
      (destruct (solid_pos w 0 V ltac:(lia)) as [x Hx]); try (destruct (solid_pos w 1 V ltac:(lia)) as [y Hy]);
      try (destruct (solid_pos w 2 V ltac:(lia)) as [z Hz]); unfold dsp, axis in *; cbn [append] in *; cbn in Hv;
      repeat match goal with H : is_var w ?n ?s |- context [var_num w ?s 0] => rewrite (var_num_is w n s 0 W H) end;
      try (assert (n <> x) by (intros ->; apply Hv; pose proof (is_var_inj _ _ _ _ Hn Hx); subst; auto));
      try (assert (n <> y) by (intros ->; apply Hv; pose proof (is_var_inj _ _ _ _ Hn Hy); subst; auto));
      try (assert (n <> z) by (intros ->; apply Hv; pose proof (is_var_inj _ _ _ _ Hn Hz); subst; auto));
      rewrite ?at_row_app;
      repeat match goal with |- context [at_row _ (fill w ?b ?m ?f)] =>
        rewrite (fill_other w b f n m i W (is_var_lt _ _ _ Hn) ltac:(lt_var) Hi ltac:(assumption) eq_refl) end; ring.
Qed.

Lemma weak_ext w b i a F a' F' : (forall k, (k < npts w)%nat -> a k = a' k) ->
  (forall d k, (d < dim w)%nat -> (k < npts w)%nat -> F d k = F' d k) -> weak w b i a F = weak w b i a' F'.
Proof.
  intros A B. apply integral_ext. intros k K. rewrite (A k K). f_equal. apply sumd_ext. intros d D. rewrite (B d k D K). reflexivity.
Qed.
(** - div sigma = f, component by component; nothing else is touched. *)
Theorem C74_equations s w : wf w -> solid_vars w -> supported s w ->
  (forall c, (c < dim w)%nat -> equation w (residual (le_volume s w)) (dsp c) (fun k => - load w c k) (fun d k => hooke s w c d k)) /\
  only_rows w (residual (le_volume s w)) (solid_names w).
Proof.
  intros W V S. destruct (le_rows s w W V) as [A B]. split; [| exact B].
  intros c C n i Hn Hi. rewrite (A c C n i Hn Hi). apply weak_ext; [reflexivity |]. intros d k D _. apply C74_stress; assumption.
Qed.
Print Assumptions C74_equations.

(** The internal forces on the whole element balance the load. *)
Theorem C74_balance s w c n : wf w -> solid_vars w -> (c < dim w)%nat -> is_var w n (dsp c) -> unity w (usebasis w n) ->
  total w (residual (le_volume s w)) n = - integral w (load w c).
Proof.
  intros W V C Hn U. rewrite integral_opp. apply total_weak with (F := fun d k => le_stress s w c d k); [exact U |].
  intros i Hi. apply (le_rows s w W V); assumption.
Qed.
Print Assumptions C74_balance.

(** A rigid motion causes no stress. *)
Definition rigid (w : wks) : Prop := forall c d k, (c < dim w)%nat -> (d < dim w)%nat -> (k < npts w)%nat ->
  grad w (dsp c) d k = - grad w (dsp d) c k.
Lemma strain_rigid w c d k : rigid w -> (c < dim w)%nat -> (d < dim w)%nat -> (k < npts w)%nat -> strain w c d k = 0.
Proof. intros R C D K. unfold strain. rewrite (R c d k C D K). field. Qed.
Theorem C74_rigid_motion s w c n i : wf w -> solid_vars w -> mechanical s w -> rigid w -> (c < dim w)%nat -> is_var w n (dsp c) ->
  (i < nbas w (usebasis w n))%nat ->
  residual (le_volume s w) (offs w n i) = - integral w (fun k => load w c k * bas w (usebasis w n) i k).
Proof.
  intros W V M Rg C Hn Hi. destruct (C74_equations s w W V (mechanical_supported s w M)) as [E _]. rewrite (E c C n i Hn Hi).
  rewrite integral_opp. apply integral_ext. intros k K. rewrite sumd_zero; [ring |]. intros d D.
  unfold hooke, elastic, thermal, pore. destruct M as [B T]. rewrite B. destruct (in_dec _ _ _); [contradiction |].
  rewrite (strain_rigid w c d k Rg C D K), sumd_zero; [ring |]. intros e E'. apply strain_rigid; assumption.
Qed.
Print Assumptions C74_rigid_motion.

(** The internal work of a displacement: twice the strain energy. It is not negative for a
    stable material (mu and the bulk modulus not negative). *)
Definition energy (s : le_set) (w : wks) (k : nat) : R :=
  lame s w k * (sumd w (fun e => strain w e e k) * sumd w (fun e => strain w e e k))
  + 2 * fn w "mu" k * sumd w (fun c => sumd w (fun d => strain w c d k * strain w c d k)).
Theorem C74_energy s w num u : wf w -> solid_vars w -> mechanical s w ->
  (forall d, (d < dim w)%nat -> is_var w (num d) (dsp d) /\ expands w (num d) (dsp d) (u d)) ->
  sumd w (fun c => tested w (residual (le_volume s w)) (num c) (u c)) =
    integral w (fun k => energy s w k - sumd w (fun c => load w c k * fld w (dsp c) k)) /\
  ((forall k, (k < npts w)%nat -> 0 <= wt w k /\ 0 <= fn w "mu" k /\ 0 <= INR (dim w) * lame s w k + 2 * fn w "mu" k /\
      forall c, (c < dim w)%nat -> load w c k = 0) ->
   0 <= sumd w (fun c => tested w (residual (le_volume s w)) (num c) (u c))).
Proof.
  intros W V M X. destruct (C74_equations s w W V (mechanical_supported s w M)) as [E _].
  assert (sumd w (fun c => tested w (residual (le_volume s w)) (num c) (u c)) =
    integral w (fun k => energy s w k - sumd w (fun c => load w c k * fld w (dsp c) k))) as Q.
  { rewrite (sumd_ext w _ (fun c => integral w (fun k => - load w c k * fld w (dsp c) k + sumd w (fun d => hooke s w c d k * grad w (dsp c) d k)))).
    2:{ intros c C. destruct (X c C) as [Hn Y]. apply (tested_expands w (num c) (dsp c) (u c) _ _ _ Y). intros i Hi. apply (E c C); assumption. }
    unfold sumd at 1. rewrite integral_sum. apply integral_ext. intros k _.
    fold (sumd w (fun c => - load w c k * fld w (dsp c) k + sumd w (fun d => hooke s w c d k * grad w (dsp c) d k))).
    unfold energy, hooke, elastic, thermal, pore, delta, strain. destruct M as [B T]. rewrite B. destruct (in_dec _ _ _); [contradiction |].
    destruct (dims w W) as [D | [D | D]]; rewrite ?(sumd_1 _ _ D), ?(sumd_2 _ _ D), ?(sumd_3 _ _ D); cbn [Nat.eqb]; field. }
  split; [exact Q |]. intros P. rewrite Q. apply integral_nonneg. intros k K. destruct (P k K) as [P1 [P2 [P3 P4]]]. split; [exact P1 |].
  rewrite sumd_zero by (intros c C; rewrite (P4 c C); ring). rewrite Rminus_0_r. unfold energy. set (L := lame s w k) in *. set (m := fn w "mu" k) in *.
  destruct (dims w W) as [D | [D | D]]; rewrite D in P3; cbn [INR] in P3; rewrite ?(sumd_1 _ _ D), ?(sumd_2 _ _ D), ?(sumd_3 _ _ D).
  - pose proof (Rle_0_sqr (strain w 0 0 k)) as S0. unfold Rsqr in S0.
    pose proof (Rmult_le_pos _ _ S0 P3). lra.
  - set (a := strain w 0 0 k). set (b := strain w 1 1 k).
    pose proof (Rle_0_sqr (a + b)) as S0. pose proof (Rle_0_sqr (a - b)) as S1. pose proof (Rle_0_sqr (strain w 0 1 k)) as S2.
    pose proof (Rle_0_sqr (strain w 1 0 k)) as S3. unfold Rsqr in *.
    pose proof (Rmult_le_pos _ _ S0 P3). pose proof (Rmult_le_pos _ _ P2 S1). pose proof (Rmult_le_pos _ _ P2 S2). pose proof (Rmult_le_pos _ _ P2 S3).
    nra.
  - set (a := strain w 0 0 k). set (b := strain w 1 1 k). set (c := strain w 2 2 k).
    pose proof (Rle_0_sqr (a + b + c)) as S0. pose proof (Rle_0_sqr (a - b)) as S1. pose proof (Rle_0_sqr (b - c)) as S2. pose proof (Rle_0_sqr (c - a)) as S3.
    pose proof (Rle_0_sqr (strain w 0 1 k)) as O1. pose proof (Rle_0_sqr (strain w 1 0 k)) as O2. pose proof (Rle_0_sqr (strain w 0 2 k)) as O3.
    pose proof (Rle_0_sqr (strain w 2 0 k)) as O4. pose proof (Rle_0_sqr (strain w 1 2 k)) as O5. pose proof (Rle_0_sqr (strain w 2 1 k)) as O6. unfold Rsqr in *.
    apply (Rmult_le_pos _ _ P3) in S0. apply (Rmult_le_pos _ _ P2) in S1. apply (Rmult_le_pos _ _ P2) in S2. apply (Rmult_le_pos _ _ P2) in S3.
    apply (Rmult_le_pos _ _ P2) in O1. apply (Rmult_le_pos _ _ P2) in O2. apply (Rmult_le_pos _ _ P2) in O3.
    apply (Rmult_le_pos _ _ P2) in O4. apply (Rmult_le_pos _ _ P2) in O5. apply (Rmult_le_pos _ _ P2) in O6.
    lra.
Qed.
Print Assumptions C74_energy.

(** Reciprocity: the work of the internal forces of one displacement through another is
    symmetric, so the stiffness matrix is. *)
Definition with_fld (w : wks) (f : string -> nat -> R) : wks :=
  {| dim := dim w; varlist := varlist w; usebasis := usebasis w; npts := npts w; nbas := nbas w;
     offs := offs w; wt := wt w; bas := bas w; bgr := bgr w; fld := f; fn := fn w; hel := hel w;
     bcs := bcs w; sidename := sidename w; isAdjoint := isAdjoint w; isTransient := isTransient w; deltat := deltat w |}.
Lemma with_wf w f : wf w -> wf (with_fld w f).
Proof. intros [A B C]. split; assumption. Qed.
Definition is_disp (w : wks) (f : string -> nat -> R) (num : nat -> nat) (u : nat -> nat -> R) : Prop :=
  forall d, (d < dim w)%nat -> expands (with_fld w f) (num d) (dsp d) (u d).
Theorem C74_reciprocity s w num f g u v : wf w -> solid_vars w -> mechanical s w ->
  (forall c k, (c < dim w)%nat -> (k < npts w)%nat -> load w c k = 0) ->
  (forall d, (d < dim w)%nat -> is_var w (num d) (dsp d)) -> is_disp w f num u -> is_disp w g num v ->
  sumd w (fun c => tested w (residual (le_volume s (with_fld w f))) (num c) (v c)) =
  sumd w (fun c => tested w (residual (le_volume s (with_fld w g))) (num c) (u c)).
Proof.
  intros W V M L N Xf Xg.
  assert (forall f g v, is_disp w g num v -> sumd w (fun c => tested w (residual (le_volume s (with_fld w f))) (num c) (v c)) =
    integral w (fun k => sumd w (fun c => sumd w (fun d => hooke s (with_fld w f) c d k * grad (with_fld w g) (dsp c) d k)))) as Q.
  { clear f g u v Xf Xg. intros f g v Xg. destruct (C74_equations s (with_fld w f) (with_wf w f W) V (mechanical_supported s _ M)) as [E _].
    rewrite (sumd_ext w _ (fun c => integral w (fun k => sumd w (fun d => hooke s (with_fld w f) c d k * grad (with_fld w g) (dsp c) d k)))).
    - unfold sumd at 1. rewrite integral_sum. reflexivity.
    - intros c C. rewrite (tested_weak w _ (num c) (v c) (fun k => - load w c k) (fun d k => hooke s (with_fld w f) c d k) _ eq_refl).
      + apply integral_ext. intros k K. rewrite (L c k C K). rewrite Ropp_0, Rmult_0_l, Rplus_0_l. apply sumd_ext. intros d D.
        destruct (Xg c C k K) as [_ Y]. rewrite (Y d D). reflexivity.
      + intros i Hi. apply (E c C (num c) i); [apply N; exact C | exact Hi]. }
  rewrite (Q f g v Xg), (Q g f u Xf). apply integral_ext. intros k _.
  unfold hooke, elastic, thermal, pore, delta, strain. destruct M as [B T]. rewrite B. destruct (in_dec _ _ _) as [I | I]; [contradiction |].
  change (lame s (with_fld w f) k) with (lame s w k). change (lame s (with_fld w g) k) with (lame s w k).
  change (sumd (with_fld w f)) with (sumd w). change (sumd (with_fld w g)) with (sumd w).
  change (fn (with_fld w f)) with (fn w). change (fn (with_fld w g)) with (fn w).
  destruct (dims w W) as [D | [D | D]]; rewrite ?(sumd_1 _ _ D), ?(sumd_2 _ _ D), ?(sumd_3 _ _ D); cbn [Nat.eqb]; field.
Qed.
Print Assumptions C74_reciprocity.

(** Where Hooke's law fails: pore pressure in one dimension (none) and two (twice), with
    accesses outside the array; thermal stress under the incompressible plane stress option. *)
Definition bar (n : nat) (vars : list string) (f g : string -> R) (kind : nat -> string) : wks := {|
  dim := n; varlist := (firstn n ["dx"; "dy"; "dz"] ++ vars)%list%string; usebasis := fun _ => 0%nat; npts := 1; nbas := fun _ => 2%nat;
  offs := fun v i => (2 * v + i)%nat; wt := fun _ => 1; bas := fun _ _ _ => 1 / 2;
  bgr := fun _ i _ _ => if (i =? 0)%nat then -1 else 1;
  fld := fun s _ => f s; fn := fun s _ => g s; hel := 1; bcs := kind; sidename := "s"%string;
  isAdjoint := false; isTransient := false; deltat := 1 |}.
Lemma bar_wf n vars f g kind : (1 <= n <= 3)%nat -> NoDup (firstn n ["dx"; "dy"; "dz"] ++ vars)%list%string -> wf (bar n vars f g kind).
Proof. intros H N. split; [exact H | exact N | cbn; intros; lia]. Qed.
Lemma bar_vars n vars f g kind : (1 <= n <= 3)%nat -> solid_vars (bar n vars f g kind).
Proof.
  intros H d D. cbn in D. destruct n as [| [| [| [| n]]]]; try lia; destruct d as [| [| [| d]]]; try lia; cbn; auto.
Qed.
Ltac distinct := cbn; repeat constructor; cbn; intuition discriminate.
Definition biot : le_set := {| incplanestress := false; addBiot := true; le_form := 1; le_penalty := 10; biot_alpha := 1; le_T_ambient := 0; alpha_T := 1 |}.
Definition plane_stress : le_set := {| incplanestress := true; addBiot := false; le_form := 1; le_penalty := 10; biot_alpha := 0; le_T_ambient := 0; alpha_T := 1 |}.
Definition soft : le_set := {| incplanestress := false; addBiot := false; le_form := 1; le_penalty := 10; biot_alpha := 0; le_T_ambient := 0; alpha_T := 1 |}.
Theorem C77_biot_refuted : forall n, (1 <= n <= 2)%nat ->
  (exists w, wf w /\ solid_vars w /\ dim w = n /\ le_stress biot w 0 0 0 <> hooke biot w 0 0 0) /\
  exists i j, In (i, j) (le_biot_entries biot) /\ (n <= i)%nat.
Proof.
  intros n N. split.
  - exists (bar n ["p"%string] (fun s => if String.eqb s "p" then 1 else 0) (fun _ => 1) (fun _ => "Neumann"%string)).
    split; [apply bar_wf; [lia | destruct n as [| [| [| n]]]; try lia; distinct] |]. split; [apply bar_vars; lia |]. split; [reflexivity |].
    destruct n as [| [| [| n]]]; try lia; unfold le_stress, hooke, elastic, thermal, pore, strain, sumd, delta, lame, grad, sm, rsum; cbn; lra.
  - exists 2%nat, 2%nat. split; [cbn; auto | lia].
Qed.
Print Assumptions C77_biot_refuted.
Theorem C77_thermal_refuted : exists w, wf w /\ solid_vars w /\ In "T"%string (varlist w) /\
  le_stress plane_stress w 0 0 0 <> hooke plane_stress w 0 0 0.
Proof.
  exists (bar 2 ["T"%string] (fun s => if String.eqb s "T" then 1 else 0) (fun _ => 1) (fun _ => "Neumann"%string)).
  split; [apply bar_wf; [lia | distinct] |]. split; [apply bar_vars; lia |]. split; [cbn; auto |].
  unfold le_stress, hooke, elastic, thermal, pore, strain, sumd, delta, lame, grad, sm, rsum; cbn; lra.
Qed.
Print Assumptions C77_thermal_refuted.

(** *** C75 *)
(** Terms of a weakly imposed displacement g for component c: traction, penalty, and the
    traction of the test function through the mismatch. *)
Definition mismatch (w : wks) (g : nat -> nat -> R) (c k : nat) : R := fld w (dsp c) k - g c k.
Definition traction (S : nat -> nat -> R) (w : wks) (c k : nat) : R := sumd w (fun d => S c d * normal w d k).
Definition wd_a (s : le_set) (w : wks) (g : nat -> nat -> R) (c k : nat) : R :=
  le_penalty s * (fn w "lambda" k + 2 * fn w "mu" k) / hel w * mismatch w g c k
  - traction (fun c d => le_stress s w c d k) w c k.
Definition wd_F (s : le_set) (w : wks) (g : nat -> nat -> R) (c d k : nat) : R :=
  - le_form s * (fn w "lambda" k * delta c d * sumd w (fun e => mismatch w g e k * normal w e k)
     + fn w "mu" k * (mismatch w g c k * normal w d k + normal w c k * mismatch w g d k)).
Definition given (w : wks) (c : nat) : string := ("Dirichlet " ++ dsp c ++ " " ++ sidename w)%string.
Definition applied (w : wks) (c : nat) : string := ("Neumann " ++ dsp c ++ " " ++ sidename w)%string.
(** All components of the side are of one kind, with data g. *)
Definition clamped (w : wks) (g : nat -> nat -> R) : Prop :=
  (forall c n, (c < dim w)%nat -> is_var w n (dsp c) -> bcs w n = "weak Dirichlet"%string /\ g c = fn w (given w c)) \/
  (forall c n, (c < dim w)%nat -> is_var w n (dsp c) -> bcs w n = "interface"%string /\ g c = fld w ("aux " ++ dsp c)%string).

Lemma le_type_is w c n : wf w -> (c < dim w)%nat -> is_var w n (dsp c) -> le_type w c = bcs w n.
Proof.
  intros W C Hn. unfold dsp, axis in Hn. pose proof (wf_dim w W). comps c; cbn [append] in Hn; cbn [le_type].
  - rewrite (var_num_is w n _ 0 W Hn). reflexivity.
  - destruct (Nat.ltb_spec 1 (dim w)); [| lia]. rewrite (var_num_is w n _ 0 W Hn). reflexivity.
  - destruct (Nat.ltb_spec 2 (dim w)); [| lia]. rewrite (var_num_is w n _ 0 W Hn). reflexivity.
Qed.
Lemma le_comp_is c : le_comp c = dsp c.
Proof. destruct c as [| [| c]]; reflexivity. Qed.
(** The rows of component c see the loop of that component only. *)
Lemma fill_self_other w f n m i : wf w -> (n < List.length (varlist w))%nat -> (m < List.length (varlist w))%nat ->
  (i < nbas w (usebasis w n))%nat -> n <> m -> at_row (offs w n i) (fill w m m f) = 0.
Proof. intros. apply fill_other; auto. Qed.
Lemma side_other s u w c n v i : wf w -> solid_vars w -> (c < dim w)%nat -> is_var w n v -> v <> dsp c -> (i < nbas w (usebasis w n))%nat ->
  at_row (offs w n i) (le_side s u w c) = 0.
Proof.
  intros W V C Hn NE Hi. destruct (solid_pos w c V C) as [m Hm].
  assert (n <> m) as NM by (intros ->; apply NE; eapply is_var_inj; eassumption).
  pose proof (is_var_lt _ _ _ Hn). pose proof (is_var_lt _ _ _ Hm). pose proof (wf_dim w W).
  unfold le_side. cbv zeta. rewrite le_comp_is, (var_num_is w m _ 0 W Hm), !at_row_if, at_row_nil.
  unfold dsp, axis in Hm. comps c; cbn [append] in Hm; unfold le_wd_x, le_wd_y, le_wd_z; cbv zeta; rewrite ?(var_num_is w m _ 0 W Hm);
    rewrite !fill_self_other by assumption; repeat match goal with |- context [if ?b then _ else _] => destruct b end; reflexivity.
Qed.
Lemma boundary_row s u w c n i : wf w -> solid_vars w -> (c < dim w)%nat -> is_var w n (dsp c) -> (i < nbas w (usebasis w n))%nat ->
  residual (le_boundary s u w) (offs w n i) = if String.eqb (bcs w n) "Dirichlet" then 0 else at_row (offs w n i) (le_side s u w c).
Proof.
  intros W V C Hn Hi. rewrite residual_at. unfold le_boundary.
  assert (String.eqb (bcs w n) "Dirichlet" = true -> at_row (offs w n i) (le_side s u w c) = 0) as Z.
  { intros B. apply String.eqb_eq in B. unfold le_side. rewrite (le_type_is w c n W C Hn), B. reflexivity. }
  assert (forall c', (c' < dim w)%nat -> c <> c' -> at_row (offs w n i) (le_side s u w c') = 0) as O.
  { intros c' C' NE. apply (side_other s u w c' n (dsp c)); try assumption. pose proof (wf_dim w W).
    unfold dsp, axis. comps c; comps c'; cbn; congruence || lia. }
  assert (negb (String.eqb (le_type w 0) "Dirichlet") || negb (String.eqb (le_type w 1) "Dirichlet") || negb (String.eqb (le_type w 2) "Dirichlet") = false
    -> String.eqb (bcs w n) "Dirichlet" = true) as T.
  { intros T. rewrite <- (le_type_is w c n W C Hn). pose proof (wf_dim w W). apply orb_false_elim in T. destruct T as [T T2].
    apply orb_false_elim in T. destruct T as [T0 T1]. apply negb_false_iff in T0, T1, T2. comps c; assumption. }
  destruct (negb _ || negb _ || negb _)%bool.
  - transitivity (at_row (offs w n i) (le_side s u w c)).
    + destruct (dims w W) as [D | [D | D]]; rewrite D; cbn [Nat.eqb]; rewrite ?at_row_app; rewrite D in *;
        comps c; try lia; rewrite ?(O 0%nat), ?(O 1%nat), ?(O 2%nat) by lia; ring.
    + destruct (String.eqb (bcs w n) "Dirichlet") eqn:B; [apply Z; reflexivity | reflexivity].
  - rewrite (T eq_refl). apply at_row_nil.
Qed.

Lemma wd_row s w g c n i : wf w -> (c < dim w)%nat -> is_var w n (dsp c) -> (i < nbas w (usebasis w n))%nat ->
  at_row (offs w n i) ((match c with 0%nat => le_wd_x | 1%nat => le_wd_y | _ => le_wd_z end) s w (g 0%nat) (g 1%nat) (g 2%nat)) =
  weak w (usebasis w n) i (wd_a s w g c) (wd_F s w g c).
Proof.
  intros W C Hn Hi. pose proof (wf_dim w W). pose proof Hn as Hn'. unfold dsp, axis in Hn'. pose proof (is_var_lt _ _ _ Hn) as L.
  comps c; cbn [append] in Hn'; unfold le_wd_x, le_wd_y, le_wd_z; cbv zeta; rewrite (var_num_is w n _ 0 W Hn');
    rewrite (fill_own w n _ n i W L Hi eq_refl); unfold weak, integral; apply sm_ext; intros k _;
    unfold wd_a, wd_F, traction, mismatch, delta;
    destruct (dims w W) as [D | [D | D]]; rewrite D in C; try lia; rewrite ?D; cbn [Nat.eqb];
    rewrite ?(sumd_1 _ _ D), ?(sumd_2 _ _ D), ?(sumd_3 _ _ D); cbn [Nat.eqb]; names; unfold Rdiv; ring.
Qed.

Theorem C75_boundary_terms s u w c n i : wf w -> solid_vars w -> (c < dim w)%nat -> is_var w n (dsp c) -> (i < nbas w (usebasis w n))%nat ->
  (bcs w n = "Neumann"%string -> residual (le_boundary s u w) (offs w n i) =
     - integral w (fun k => fn w (applied w c) k * bas w (usebasis w n) i k)) /\
  (forall g, clamped w g -> residual (le_boundary s u w) (offs w n i) = weak w (usebasis w n) i (wd_a s w g c) (wd_F s w g c)) /\
  (bcs w n <> "Neumann"%string -> bcs w n <> "weak Dirichlet"%string -> bcs w n <> "interface"%string ->
     residual (le_boundary s u w) (offs w n i) = 0).
Proof.
  intros W V C Hn Hi. rewrite (boundary_row s u w c n i W V C Hn Hi).
  assert (forall g h, (forall e, (e < dim w)%nat -> g e = h e) -> weak w (usebasis w n) i (wd_a s w g c) (wd_F s w g c)
     = weak w (usebasis w n) i (wd_a s w h c) (wd_F s w h c)) as X.
  { intros g h E. apply weak_ext.
    - intros k _. unfold wd_a, mismatch. rewrite (E c C). reflexivity.
    - intros d k D _. unfold wd_F, mismatch. rewrite (E c C), (E d D). f_equal. f_equal. f_equal. apply sumd_ext. intros e Ee. rewrite (E e Ee). reflexivity. }
  unfold le_side. cbv zeta. rewrite le_comp_is, (var_num_is w n _ 0 W Hn). unfold le_source at 1.
  rewrite (le_type_is w c n W C Hn), le_comp_is. split; [| split].
  - intros B. rewrite B. cbn [String.eqb Ascii.eqb Bool.eqb]. rewrite (fill_own w n _ n i W (is_var_lt _ _ _ Hn) Hi eq_refl).
    rewrite integral_opp. unfold integral, applied. apply sm_ext. intros k _. ring.
  - intros g [G | G]; destruct (G c n C Hn) as [B _]; rewrite B; cbn [String.eqb Ascii.eqb Bool.eqb].
    + rewrite (wd_row s w (le_source u w) c n i W C Hn Hi). apply X. intros e E. destruct (solid_pos w e V E) as [m Hm].
      destruct (G e m E Hm) as [B' G']. unfold le_source. rewrite (le_type_is w e m W E Hm), B', le_comp_is. cbn [String.eqb Ascii.eqb Bool.eqb].
      symmetry. exact G'.
    + etransitivity; [apply (wd_row s w (fun e => fld w ("aux " ++ dsp e)%string) c n i W C Hn Hi) |]. apply X. intros e E. destruct (solid_pos w e V E) as [m Hm].
      destruct (G e m E Hm) as [_ G']. symmetry. exact G'.
  - intros B1 B2 B3. apply String.eqb_neq in B1, B2, B3. rewrite B1, B2, B3, at_row_nil. destruct (String.eqb (bcs w n) "Dirichlet"); reflexivity.
Qed.
Print Assumptions C75_boundary_terms.

(** Where the displacement has the given values only the traction is left. *)
Theorem C75_consistent s u w g c n i : wf w -> solid_vars w -> supported s w -> (c < dim w)%nat -> is_var w n (dsp c) -> (i < nbas w (usebasis w n))%nat ->
  clamped w g -> (forall e k, (e < dim w)%nat -> (k < npts w)%nat -> fld w (dsp e) k = g e k) ->
  residual (le_boundary s u w) (offs w n i) =
  - integral w (fun k => traction (fun a b => hooke s w a b k) w c k * bas w (usebasis w n) i k).
Proof.
  intros W V S C Hn Hi G E. destruct (C75_boundary_terms s u w c n i W V C Hn Hi) as [_ [B _]]. rewrite (B g G). rewrite integral_opp.
  apply integral_ext. intros k K. unfold wd_a, wd_F, mismatch. rewrite (E c k C K).
  rewrite (sumd_zero w (fun d => _ * bgr w (usebasis w n) i k d)).
  2:{ intros d D. rewrite (E d k D K). rewrite sumd_zero; [ring |]. intros e Ee. rewrite (E e k Ee K). ring. }
  replace (traction (fun c0 d : nat => le_stress s w c0 d k) w c k) with (traction (fun a b => hooke s w a b k) w c k); [ring |].
  apply sumd_ext. intros d D. rewrite C74_stress by assumption. reflexivity.
Qed.
Print Assumptions C75_consistent.

(** With form_param 1 and data zero the terms of the side are symmetric too (the material
    constants of the side terms are lambda and mu, so without the plane stress option). *)
Theorem C75_reciprocity s un w num f g u v : wf w -> solid_vars w -> mechanical s w -> incplanestress s = false -> le_form s = 1 ->
  (forall d, (d < dim w)%nat -> is_var w (num d) (dsp d) /\ bcs w (num d) = "weak Dirichlet"%string /\
     forall k, fn w (given w d) k = 0) ->
  (forall d k, f ("n" ++ bracket d)%string k = fld w ("n" ++ bracket d)%string k /\ g ("n" ++ bracket d)%string k = fld w ("n" ++ bracket d)%string k) ->
  is_disp w f num u -> is_disp w g num v ->
  sumd w (fun c => tested w (residual (le_boundary s un (with_fld w f))) (num c) (v c)) =
  sumd w (fun c => tested w (residual (le_boundary s un (with_fld w g))) (num c) (u c)).
Proof.
  intros W V M P F1 N Nn Xf Xg.
  assert (forall f g v, (forall d k, f ("n" ++ bracket d)%string k = fld w ("n" ++ bracket d)%string k) -> is_disp w g num v ->
    sumd w (fun c => tested w (residual (le_boundary s un (with_fld w f))) (num c) (v c)) =
    integral w (fun k => sumd w (fun c =>
      wd_a s (with_fld w f) (fun _ _ => 0) c k * fld (with_fld w g) (dsp c) k
      + sumd w (fun d => wd_F s (with_fld w f) (fun _ _ => 0) c d k * grad (with_fld w g) (dsp c) d k)))) as Q.
  { clear f g u v Xf Xg Nn. intros f g v Nf Xg.
    rewrite (sumd_ext w _ (fun c => integral w (fun k => wd_a s (with_fld w f) (fun _ _ => 0) c k * fld (with_fld w g) (dsp c) k
      + sumd w (fun d => wd_F s (with_fld w f) (fun _ _ => 0) c d k * grad (with_fld w g) (dsp c) d k)))).
    - unfold sumd at 1. rewrite integral_sum. reflexivity.
    - intros c C. set (z := fun e => fn (with_fld w f) (given (with_fld w f) e)).
      rewrite (tested_weak w _ (num c) (v c) (wd_a s (with_fld w f) (fun _ _ => 0) c) (fun d k => wd_F s (with_fld w f) (fun _ _ => 0) c d k) _ eq_refl).
      + apply integral_ext. intros k K. destruct (Xg c C k K) as [Y0 Y]. rewrite Y0. f_equal. apply sumd_ext. intros d D. rewrite (Y d D). reflexivity.
      + intros i Hi. destruct (N c C) as [Hn _].
        destruct (C75_boundary_terms s un (with_fld w f) c (num c) i (with_wf w f W) V C Hn Hi) as [_ [B _]].
        change (offs w (num c) i) with (offs (with_fld w f) (num c) i). rewrite (B z).
        * change (weak w) with (weak (with_fld w f)). apply weak_ext.
          -- intros k _. unfold wd_a, mismatch, z. change (fn (with_fld w f) (given (with_fld w f) c) k) with (fn w (given w c) k).
             rewrite (proj2 (proj2 (N c C))). reflexivity.
          -- intros d k D _. unfold wd_F, mismatch, z. change (fn (with_fld w f) (given (with_fld w f) c) k) with (fn w (given w c) k).
             change (fn (with_fld w f) (given (with_fld w f) d) k) with (fn w (given w d) k).
             rewrite (proj2 (proj2 (N c C))), (proj2 (proj2 (N d D))). f_equal. f_equal. f_equal. apply sumd_ext. intros e E.
             change (fn (with_fld w f) (given (with_fld w f) e) k) with (fn w (given w e) k). rewrite (proj2 (proj2 (N e E))). reflexivity.
        * left. intros e m E Hm. destruct (N e E) as [Hn' [B' _]]. rewrite (is_var_uniq w m (num e) (dsp e) W Hm Hn'). split; [exact B' | reflexivity]. }
  rewrite (Q f g v (fun d k => proj1 (Nn d k)) Xg), (Q g f u (fun d k => proj2 (Nn d k)) Xf). apply integral_ext. intros k _.
  set (nf := fun d => proj1 (Nn d k)). set (ng := fun d => proj2 (Nn d k)).
  assert (forall d, normal (with_fld w f) d k = normal w d k) as NF by exact nf.
  assert (forall d, normal (with_fld w g) d k = normal w d k) as NG by exact ng.
  assert (forall f c d, (c < dim w)%nat -> (d < dim w)%nat -> le_stress s (with_fld w f) c d k =
    fn w "lambda" k * sumd w (fun e => grad (with_fld w f) (dsp e) e k) * delta c d
    + fn w "mu" k * (grad (with_fld w f) (dsp c) d k + grad (with_fld w f) (dsp d) c k)) as ST.
  { intros h c d C D. rewrite (C74_stress s (with_fld w h) c d k (with_wf w h W) (mechanical_supported s _ M) C D).
    unfold hooke, elastic, thermal, pore, lame, strain. destruct M as [B T]. rewrite B, P. cbn [andb varlist with_fld fn dim].
    destruct (in_dec _ _ _) as [I | I]; [contradiction |]. change (sumd (with_fld w h)) with (sumd w).
    rewrite (sumd_ext w (fun e => (grad (with_fld w h) (dsp e) e k + grad (with_fld w h) (dsp e) e k) / 2) (fun e => grad (with_fld w h) (dsp e) e k)) by (intros; field).
    field. }
  unfold wd_a, wd_F, traction, mismatch. change (sumd (with_fld w f)) with (sumd w). change (sumd (with_fld w g)) with (sumd w).
  change (fn (with_fld w f)) with (fn w). change (fn (with_fld w g)) with (fn w). change (hel (with_fld w f)) with (hel w). change (hel (with_fld w g)) with (hel w).
  rewrite F1. set (a := le_penalty s * (fn w "lambda" k + 2 * fn w "mu" k) / hel w).
  destruct (dims w W) as [D | [D | D]]; rewrite ?(sumd_1 _ _ D), ?(sumd_2 _ _ D), ?(sumd_3 _ _ D); rewrite !ST by lia;
    rewrite ?(sumd_1 _ _ D), ?(sumd_2 _ _ D), ?(sumd_3 _ _ D), !NF, !NG; unfold delta; cbn [Nat.eqb]; ring.
Qed.
Print Assumptions C75_reciprocity.

(** A side that fixes one component weakly and loads the other: the load is taken for the
    displacement of that component, and an exact solution does not satisfy the equations. *)
Definition mixed : wks := bar 2 [] (fun s => if String.eqb s "n[x]" then 1 else 0) (fun s => if String.eqb s "lambda" then 1 else if String.eqb s "mu" then 1 else if String.eqb s "Neumann dy s" then 1 else 0)
  (fun n => if (n =? 0)%nat then "weak Dirichlet"%string else "Neumann"%string).
Theorem C78_mixed_refuted : exists s u w n i, wf w /\ solid_vars w /\ supported s w /\ is_var w n (dsp 0) /\ (i < nbas w (usebasis w n))%nat /\
  bcs w n = "weak Dirichlet"%string /\ (forall k, (k < npts w)%nat -> fld w (dsp 0) k = fn w (given w 0) k) /\
  residual (le_boundary s u w) (offs w n i) <> - integral w (fun k => traction (fun a b => hooke s w a b k) w 0 k * bas w (usebasis w n) i k).
Proof.
  exists soft, (fun _ => 0), mixed, 0%nat, 1%nat. split; [apply bar_wf; [lia | distinct] |]. split; [apply bar_vars; lia |].
  split; [split; [discriminate | discriminate] |]. split; [reflexivity |]. split; [cbn; lia |]. split; [reflexivity |]. split; [reflexivity |].
  rewrite residual_at. unfold integral, traction, hooke, elastic, thermal, pore, strain, sumd, delta, lame, grad, normal, sm, rsum, at_row, sm, rsum. cbn. unfold rsum, sm, pick, le_stress; cbn. lra.
Qed.
Print Assumptions C78_mixed_refuted.

(** The flux reported on a side with weakly imposed displacement balances the terms of the side. *)
Theorem C75_flux_balance s u old w g c n : wf w -> solid_vars w -> (c < dim w)%nat -> is_var w n (dsp c) -> clamped w g -> unity w (usebasis w n) ->
  total w (residual (le_boundary s u w)) n = - integral w (le_flux s u old w c).
Proof.
  intros W V C Hn G U. rewrite (total_weak w n (wd_a s w g c) (wd_F s w g c)); [| exact U |].
  2:{ intros i Hi. apply (C75_boundary_terms s u w c n i W V C Hn Hi). exact G. }
  rewrite integral_opp. apply integral_ext. intros k _. unfold wd_a, traction, mismatch, le_flux, le_flux_source. cbv zeta. rewrite (le_type_is w c n W C Hn), le_comp_is.
  assert (bcs w n = "weak Dirichlet"%string /\ g c k = fn w (given w c) k \/ bcs w n = "interface"%string /\ g c k = fld w ("aux " ++ dsp c)%string k) as [[B E] | [B E]].
  { destruct G as [G | G]; destruct (G c n C Hn) as [B E]; [left | right]; split; try assumption; rewrite E; reflexivity. }
  - rewrite B, E. cbn [String.eqb Ascii.eqb Bool.eqb andb orb]. unfold given. pose proof (wf_dim w W).
    destruct (dims w W) as [D | [D | D]]; rewrite D; cbn [Nat.eqb]; rewrite ?(sumd_1 _ _ D), ?(sumd_2 _ _ D), ?(sumd_3 _ _ D); names; unfold Rdiv; ring.
  - rewrite B, E. cbn [String.eqb Ascii.eqb Bool.eqb andb orb].
    destruct (dims w W) as [D | [D | D]]; rewrite D; cbn [Nat.eqb]; rewrite ?(sumd_1 _ _ D), ?(sumd_2 _ _ D), ?(sumd_3 _ _ D); names; unfold Rdiv; ring.
Qed.
Print Assumptions C75_flux_balance.
(** On a loaded side in one or two dimensions the load is taken for a displacement: the flux
    is not the traction. *)
Theorem C78_flux_refuted : exists s u old w n, wf w /\ solid_vars w /\ supported s w /\ is_var w n (dsp 0) /\ bcs w n = "Neumann"%string /\
  (forall k, (k < npts w)%nat -> traction (fun a b => hooke s w a b k) w 0 k = fn w (applied w 0) k) /\
  exists k, (k < npts w)%nat /\ le_flux s u old w 0 k <> fn w (applied w 0) k.
Proof.
  exists soft, (fun _ => 0), (fun _ => 0), (bar 1 [] (fun s => if String.eqb s "n[x]" then 1 else if String.eqb s "grad(dx)[x]" then 1 else 0)
    (fun s => if String.eqb s "lambda" then 1 else if String.eqb s "mu" then 1 else 3) (fun _ => "Neumann"%string)), 0%nat.
  split; [apply bar_wf; [lia | distinct] |]. split; [apply bar_vars; lia |]. split; [split; [discriminate | discriminate] |].
  split; [reflexivity |]. split; [reflexivity |]. split.
  - intros k _. unfold traction, hooke, elastic, thermal, pore, strain, sumd, delta, lame, grad, normal, sm, rsum. cbn. unfold rsum; cbn. lra.
  - exists 0%nat. split; [cbn; lia |]. unfold le_flux, le_flux_source, le_type, le_stress. cbn. lra.
Qed.
Print Assumptions C78_flux_refuted.

(** *** C76 *)
Definition trace (w : wks) (S : nat -> nat -> R) : R := sumd w (fun e => S e e).
(** The von Mises stress of a three-dimensional state S: the square is 3/2 of the square of the
    deviator (with the entries that computeStress sets equal taken once). *)
Definition deviator (S : nat -> nat -> R) (tr : R) (c d : nat) : R := S c d - tr / 3 * delta c d.
Definition sq3 (S : nat -> nat -> R) : R := sm [0; 1; 2]%nat (fun c => sm [0; 1; 2]%nat (fun d => S c d * S c d)).
Theorem C76_von_mises s w k : dim w = 3%nat -> supported s w -> wf w ->
  0 <= le_vm s w k /\
  le_vm s w k * le_vm s w k = 3 / 2 * sq3 (deviator (fun c d => hooke s w c d k) (trace w (fun c d => hooke s w c d k))).
Proof.
  intros D S W. unfold le_vm. rewrite D. cbn [Nat.eqb]. cbv zeta. split; [apply sqrt_pos |].
  rewrite sqrt_sqrt.
  - rewrite !(C74_stress s w) by (assumption || lia). unfold sq3, deviator, trace, sm, rsum. cbn [map fold_right].
    rewrite (sumd_3 w _ D). unfold delta. cbn [Nat.eqb].
    assert (forall c d, hooke s w c d k = hooke s w d c k) as Sy.
    { intros c d. unfold hooke, elastic, strain, delta. rewrite (Nat.eqb_sym c d), (Rplus_comm (grad w (dsp c) d k)). reflexivity. }
    rewrite (Sy 1%nat 0%nat), (Sy 2%nat 0%nat), (Sy 2%nat 1%nat). field.
  - assert (forall x, 0 <= x * x) as Q by (intros; apply Rle_0_sqr).
    apply Rplus_le_le_0_compat; (apply Rmult_le_pos; [lra |]); repeat apply Rplus_le_le_0_compat; apply Q.
Qed.
Print Assumptions C76_von_mises.
(** A uniform pressure does not show in it: no von Mises stress without deviator. *)
Theorem C76_hydrostatic s w k t : dim w = 3%nat -> supported s w -> wf w ->
  (forall c d, (c < 3)%nat -> (d < 3)%nat -> hooke s w c d k = t * delta c d) -> le_vm s w k = 0.
Proof.
  intros D S W H. destruct (C76_von_mises s w k D S W) as [P E]. apply Rsqr_0_uniq. unfold Rsqr. rewrite E.
  unfold sq3, deviator, trace, sm, rsum. cbn [map fold_right]. rewrite (sumd_3 w _ D), !H by lia. unfold delta. cbn [Nat.eqb]. field.
Qed.
Print Assumptions C76_hydrostatic.

(** In two dimensions the stress is that of plane strain, but the formula that of plane
    stress: the out-of-plane stress is left out. *)
Definition out_of_plane (s : le_set) (w : wks) (k : nat) (c d : nat) : R :=
  if (c <? 2)%nat && (d <? 2)%nat then hooke s w c d k else lame s w k * div w k * delta c d.
(** For a state without out-of-plane stress it is right. *)
Theorem C79_plane_stress_partial s w k : dim w = 2%nat -> supported s w -> wf w ->
  let S c d := if (c <? 2)%nat && (d <? 2)%nat then hooke s w c d k else 0 in
  0 <= le_vm s w k /\
  le_vm s w k * le_vm s w k = 3 / 2 * sq3 (deviator S (S 0%nat 0%nat + S 1%nat 1%nat + S 2%nat 2%nat)).
Proof.
  intros D SU W S. unfold le_vm. rewrite D. cbn [Nat.eqb]. cbv zeta. split; [apply sqrt_pos |].
  rewrite !(C74_stress s w) by (assumption || lia).
  rewrite sqrt_sqrt.
  - assert (forall c d, hooke s w c d k = hooke s w d c k) as Sy.
    { intros c d. unfold hooke, elastic, strain, delta. rewrite (Nat.eqb_sym c d), (Rplus_comm (grad w (dsp c) d k)). reflexivity. }
    unfold sq3, deviator, S, sm, rsum. cbn [map fold_right Nat.ltb Nat.leb andb]. unfold delta. cbn [Nat.eqb].
    rewrite (Sy 1%nat 0%nat). field.
  - set (a := hooke s w 0 0 k). set (b := hooke s w 1 1 k). set (c := hooke s w 0 1 k). nra.
Qed.
Print Assumptions C79_plane_stress_partial.
Theorem C79_plane_strain_refuted : exists s w k, wf w /\ solid_vars w /\ mechanical s w /\ dim w = 2%nat /\ incplanestress s = false /\
  le_vm s w k * le_vm s w k <>
  3 / 2 * sq3 (deviator (out_of_plane s w k) (hooke s w 0 0 k + hooke s w 1 1 k + lame s w k * div w k)).
Proof.
  exists soft, (bar 2 [] (fun s => if String.eqb s "grad(dx)[x]" then 1 else 0) (fun _ => 1) (fun _ => "Neumann"%string)), 0%nat.
  split; [apply bar_wf; [lia | distinct] |]. split; [apply bar_vars; lia |]. split; [split; [reflexivity | cbn; intuition discriminate] |].
  split; [reflexivity |]. split; [reflexivity |].
  unfold le_vm. cbn [dim bar Nat.eqb]. cbv zeta. rewrite sqrt_sqrt.
  - unfold le_stress, sq3, deviator, out_of_plane, hooke, elastic, thermal, pore, strain, div, lame, grad, sumd, delta, sm, rsum. cbn. lra.
  - unfold le_stress. cbn. lra.
Qed.
Print Assumptions C79_plane_strain_refuted.
(** The "MAG stress" is the norm of the stress when there is no shear ... *)
Theorem C79_magnitude_partial s w k : wf w -> supported s w ->
  (forall c d, (c < dim w)%nat -> (d < dim w)%nat -> c <> d -> hooke s w c d k = 0) ->
  le_mag s w k = sqrt (sumd w (fun c => sumd w (fun d => hooke s w c d k * hooke s w c d k))).
Proof.
  intros W S H. unfold le_mag. cbv zeta.
  destruct (dims w W) as [D | [D | D]]; rewrite D in *; cbn [Nat.eqb]; rewrite !C74_stress by (assumption || lia);
    rewrite ?(sumd_1 _ _ D), ?(sumd_2 _ _ D), ?(sumd_3 _ _ D), ?(sumd_1 _ _ D), ?(sumd_2 _ _ D), ?(sumd_3 _ _ D).
  - reflexivity.
  - rewrite (H 0%nat 1%nat), (H 1%nat 0%nat) by lia. f_equal. ring.
  - rewrite (H 0%nat 1%nat), (H 1%nat 0%nat), (H 0%nat 2%nat), (H 2%nat 0%nat), (H 1%nat 2%nat), (H 2%nat 1%nat) by lia. f_equal. ring.
Qed.
Print Assumptions C79_magnitude_partial.
(** ... but a state of pure shear has none. *)
Theorem C79_magnitude_refuted : exists s w k, wf w /\ solid_vars w /\ mechanical s w /\
  le_mag s w k <> sqrt (sumd w (fun c => sumd w (fun d => hooke s w c d k * hooke s w c d k))).
Proof.
  exists soft, (bar 2 [] (fun s => if String.eqb s "grad(dx)[y]" then 1 else 0) (fun _ => 1) (fun _ => "Neumann"%string)), 0%nat.
  split; [apply bar_wf; [lia | distinct] |]. split; [apply bar_vars; lia |]. split; [split; [reflexivity | cbn; intuition discriminate] |].
  unfold le_mag. cbn [dim bar Nat.eqb]. cbv zeta.
  match goal with |- sqrt ?a <> sqrt ?b => assert (a = 0) as A; [| assert (b = 2) as B; [| rewrite A, B, sqrt_0]] end.
  - unfold le_stress. cbn. ring.
  - unfold hooke, elastic, thermal, pore, strain, lame, grad, sumd, delta, sm, rsum. cbn. unfold sm, rsum. cbn. lra.
  - intros E. pose proof (sqrt_lt_R0 2 ltac:(lra)). lra.
Qed.
Print Assumptions C79_magnitude_refuted.

(** *** The hypotheses can be met: stretching a square, turning it, clamping it. *)
Example C74_square : let w := bar 2 [] (fun s => if String.eqb s "grad(dx)[x]" then 1 else 0) (fun _ => 1) (fun _ => "weak Dirichlet"%string) in
  wf w /\ solid_vars w /\ mechanical soft w /\ residual (le_volume soft w) (offs w 0 1) = 5 / 2 /\ residual (le_volume soft w) (offs w 1 0) = - 3 / 2.
Proof.
  intros w. assert (wf w) as W by (apply bar_wf; [lia | distinct]). assert (solid_vars w) as V by (apply bar_vars; lia).
  split; [exact W |]. split; [exact V |]. split; [split; [reflexivity | cbn; intuition discriminate] |].
  destruct (le_rows soft w W V) as [E _]. split.
  - rewrite (E 0%nat) by (reflexivity || (cbn; lia)). unfold weak, integral, sumd, sm, rsum, load. cbn. unfold sm, rsum, le_stress. cbn. lra.
  - rewrite (E 1%nat) by (reflexivity || (cbn; lia)). unfold weak, integral, sumd, sm, rsum, load. cbn. unfold sm, rsum, le_stress. cbn. lra.
Qed.
Example C74_turned : let w := bar 2 [] (fun s => if String.eqb s "grad(dx)[y]" then 1 else if String.eqb s "grad(dy)[x]" then -1 else 0) (fun _ => 1) (fun _ => "weak Dirichlet"%string) in
  wf w /\ solid_vars w /\ mechanical soft w /\ rigid w /\ clamped w (fun c => fn w (given w c)).
Proof.
  intros w. split; [apply bar_wf; [lia | distinct] |]. split; [apply bar_vars; lia |]. split; [split; [reflexivity | cbn; intuition discriminate] |]. split.
  - intros c d k C D _. cbn in C, D. comps c; try lia; comps d; try lia; cbn; lra.
  - left. intros c n _ _. split; reflexivity.
Qed.
