(** C90 (Maxwell equations), C91 (permittivity that varies in three dimensions),
    C92 (the magnetic flux stays free of sources), C93 (absorbing sides). *)
From Coq Require Import Bool Arith Lia Reals Lra Ascii String List.
From Verif Require Import Sparse_Model Sparse_Props Mass_Model Mass_Props BProj_Model BProj_Proofs Phys_Model Phys_Spec Phys_Proofs Phys_Tac Maxwell_Model.
Import ListNotations.
Local Open Scope R_scope.

(** *** Specification *)
(** In two dimensions B and the curl of E are scalars, in three vectors. *)
Definition rank (w : wks) : nat := if (dim w =? 2)%nat then 1%nat else 3%nat.
Definition comp (w : wks) (n : string) (d : nat) : string := if (dim w =? 2)%nat then n else (n ++ bracket d)%string.
Definition sumr (w : wks) (f : nat -> R) : R := sm (seq 0 (rank w)) f.
Definition Ef (w : wks) (d k : nat) : R := fld w ("E" ++ bracket d)%string k.
Definition Et (w : wks) (d k : nat) : R := fld w ("E_t" ++ bracket d)%string k.
Definition Bf (w : wks) (d k : nat) : R := fld w (comp w "B" d) k.
Definition Bt (w : wks) (d k : nat) : R := fld w (comp w "B_t" d) k.
Definition curlE (w : wks) (d k : nat) : R := fld w (comp w "curl(E)" d) k.
Definition current (w : wks) (d k : nat) : R := fn w ("current " ++ axis d)%string k.
(** Weak forms: tested with a vector function and its curl; with a function of B. *)
Definition vweak (W : vwks) (b i : nat) (a c : nat -> nat -> R) : R := integral (vw W) (fun k =>
  sumd (vw W) (fun d => a d k * vbas W b i k d) + sumr (vw W) (fun d => c d k * vcurl W b i k d)).
Definition bweak (W : vwks) (b i : nat) (a : nat -> nat -> R) : R := integral (vw W) (fun k =>
  sumr (vw W) (fun d => a d k * vbas W b i k d)).
(** eps n^2 E_t + sigma E + J - curl (B / mu) = 0 *)
Definition ampere_a (w : wks) (d k : nat) : R :=
  fn w "epsilon" k * (fn w "refractive index" k * fn w "refractive index" k) * Et w d k + fn w "sigma" k * Ef w d k + current w d k.
Definition ampere_c (w : wks) (d k : nat) : R := - (Bf w d k / fn w "mu" k).
Definition em (W : vwks) : Prop := wf (vw W) /\ (2 <= dim (vw W))%nat /\ In "E"%string (varlist (vw W)) /\ In "B"%string (varlist (vw W)).
Definition full : mx_set := mx_new None false.
Definition leap : mx_set := mx_new None true.
Definition uniform (w : wks) (n : string) (c : R) : Prop := forall k, (k < npts w)%nat -> fn w n k = c.

(** *** Tactics *)
Ltac vnames := unfold Ef, Et, Bf, Bt, curlE, current, comp, bracket, axis.
Lemma sumr_2 w f : dim w = 2%nat -> sumr w f = f 0%nat.
Proof. intros E. unfold sumr, rank, sm. rewrite E. cbn. ring. Qed.
Lemma sumr_3 w f : dim w = 3%nat -> sumr w f = f 0%nat + f 1%nat + f 2%nat.
Proof. intros E. unfold sumr, rank, sm. rewrite E. cbn. ring. Qed.
Lemma em_dims W : em W -> dim (vw W) = 2%nat \/ dim (vw W) = 3%nat.
Proof. intros (A & B & _). pose proof (wf_dim _ A). lia. Qed.

(** Rows of the two equations, with the factor in front of the test function in three
    dimensions. *)
Definition scale (w : wks) (k : nat) : R := if (dim w =? 2)%nat then 1 else / fn w "epsilon" k.
Definition permits (w : wks) : Prop := forall k, (k < npts w)%nat -> fn w "epsilon" k <> 0 /\ fn w "mu" k <> 0.
Lemma mx_rows s stage W : em W -> permits (vw W) -> include_E s = true -> include_B s = true ->
  forall n i, (i < nbas (vw W) (usebasis (vw W) n))%nat ->
  (is_var (vw W) n "B" -> residual (mx_volume s stage W) (offs (vw W) n i) =
     bweak W (usebasis (vw W) n) i (fun d k => Bt (vw W) d k + if (useLeapFrog s && negb (stage =? 0)%nat)%bool then 0 else curlE (vw W) d k)) /\
  (is_var (vw W) n "E" -> residual (mx_volume s stage W) (offs (vw W) n i) =
     if (useLeapFrog s && negb (stage =? 1)%nat)%bool then 0 else
     vweak W (usebasis (vw W) n) i (fun d k => scale (vw W) k * ampere_a (vw W) d k) (fun d k => scale (vw W) k * ampere_c (vw W) d k)) /\
  (forall v, is_var (vw W) n v -> v <> "E"%string -> v <> "B"%string -> residual (mx_volume s stage W) (offs (vw W) n i) = 0).
Proof.
  intros EM P IE IB n i Hi. pose proof EM as (Wf & _ & VE & VB). destruct (nth_var _ _ VE) as [e He]. destruct (nth_var _ _ VB) as [b Hb].
  unfold mx_volume. rewrite IE, IB. unfold mx_B, mx_E. rewrite (var_num_is _ e _ 0 Wf He), (var_num_is _ b _ 0 Wf Hb). cbv zeta.
  rewrite residual_at, at_row_app.
  assert (forall x y : list (nat * R), (if (negb (useLeapFrog s) || (stage =? 1)%nat)%bool then x else y) = if (useLeapFrog s && negb (stage =? 1)%nat)%bool then y else x) as X1
    by (intros; destruct (useLeapFrog s), (stage =? 1)%nat; reflexivity).
  assert (forall x y : R, (if (negb (useLeapFrog s) || (stage =? 0)%nat)%bool then x else y) = if (useLeapFrog s && negb (stage =? 0)%nat)%bool then y else x) as X0
    by (intros; destruct (useLeapFrog s), (stage =? 0)%nat; reflexivity).
  rewrite X1. set (c1 := (useLeapFrog s && negb (stage =? 1)%nat)%bool). 
  split; [| split].
  - intros Hn. pose proof (is_var_uniq _ n b _ Wf Hn Hb); subst n.
    destruct (em_dims W EM) as [D | D]; rewrite D; cbn [Nat.eqb]; rewrite at_row_if, at_row_nil; rows Wf Hi;
      (destruct c1; rewrite ?Rplus_0_r; unfold bweak, integral; apply sm_ext; intros k _;
       rewrite ?(sumr_2 _ _ D), ?(sumr_3 _ _ D); vnames; rewrite ?D; cbn [Nat.eqb append]; rewrite ?X0; ring).
  - intros Hn. pose proof (is_var_uniq _ n e _ Wf Hn He); subst n.
    destruct (em_dims W EM) as [D | D]; rewrite D; cbn [Nat.eqb]; rewrite at_row_if, at_row_nil; rows Wf Hi;
      (destruct c1; [reflexivity |]; unfold vweak, integral; apply sm_ext; intros k K; apply in_seq in K; destruct (P k ltac:(lia)) as [P1 P2];
       rewrite ?(sumr_2 _ _ D), ?(sumr_3 _ _ D), ?(sumd_2 _ _ D), ?(sumd_3 _ _ D); unfold ampere_a, ampere_c, scale; vnames; rewrite ?D; cbn [Nat.eqb append];
       field; auto).
  - intros v Hn NE NB. assert (n <> e) by (intros ->; apply NE, (is_var_inj _ _ _ _ Hn He)). assert (n <> b) by (intros ->; apply NB, (is_var_inj _ _ _ _ Hn Hb)).
    destruct (em_dims W EM) as [D | D]; rewrite D; cbn [Nat.eqb]; rewrite at_row_if, at_row_nil; rows Wf Hi; destruct c1; ring.
Qed.

(** *** C90 *)
(** B_t + curl E = 0 *)
Theorem C90_faraday W n i : em W -> permits (vw W) -> is_var (vw W) n "B" -> (i < nbas (vw W) (usebasis (vw W) n))%nat ->
  forall stage, residual (mx_volume full stage W) (offs (vw W) n i) =
  bweak W (usebasis (vw W) n) i (fun d k => Bt (vw W) d k + curlE (vw W) d k).
Proof. intros EM P N I stage. destruct (mx_rows full stage W EM P eq_refl eq_refl n i I) as [H _]. rewrite (H N). reflexivity. Qed.
Print Assumptions C90_faraday.

(** eps n^2 E_t + sigma E + J - curl (B / mu) = 0: as it stands in two dimensions, divided by a
    uniform permittivity in three. *)
Theorem C90_ampere W n i eps : em W -> permits (vw W) -> is_var (vw W) n "E" -> (i < nbas (vw W) (usebasis (vw W) n))%nat ->
  (dim (vw W) = 3%nat -> eps <> 0 /\ uniform (vw W) "epsilon" eps) ->
  forall stage, (if (dim (vw W) =? 2)%nat then 1 else eps) * residual (mx_volume full stage W) (offs (vw W) n i) =
  vweak W (usebasis (vw W) n) i (ampere_a (vw W)) (ampere_c (vw W)).
Proof.
  intros EM P N I U stage. destruct (mx_rows full stage W EM P eq_refl eq_refl n i I) as [_ [H _]]. rewrite (H N). cbn [useLeapFrog full mx_new andb].
  unfold vweak. rewrite <- integral_scal. apply integral_ext. intros k K. unfold scale, sumr.
  destruct (em_dims W EM) as [D | D]; rewrite D; cbn [Nat.eqb].
  - rewrite Rmult_1_l. f_equal; apply sm_ext; intros; ring.
  - destruct (U D) as [U1 U2]. rewrite (U2 k K), Rmult_plus_distr_l, <- sumd_scal, <- sm_scal. f_equal; apply sm_ext; intros; field; exact U1.
Qed.
Print Assumptions C90_ampere.

(** Other variables get nothing. *)
Theorem C90_only W stage s : em W -> permits (vw W) -> include_E s = true -> include_B s = true ->
  only_rows (vw W) (residual (mx_volume s stage W)) ["E"; "B"]%string.
Proof.
  intros EM P A B n v i N V I. destruct (mx_rows s stage W EM P A B n i I) as [_ [_ H]]. apply (H v N); intros ->; apply V; cbn; auto.
Qed.
Print Assumptions C90_only.

(** "active variables": an equation is assembled as without a selection if its letter occurs in
    the text, and not at all otherwise. *)
Lemma has_char_spec c s : has_char c s = true <-> In c (list_ascii_of_string s).
Proof.
  induction s as [| d s IH]; cbn [has_char list_ascii_of_string In]; [split; [discriminate | tauto] |].
  rewrite orb_true_iff, IH, Ascii.eqb_eq. intuition congruence.
Qed.
Lemma mx_B_other s stage W n v i : em W -> is_var (vw W) n v -> v <> "B"%string -> (i < nbas (vw W) (usebasis (vw W) n))%nat ->
  at_row (offs (vw W) n i) (mx_B s stage W) = 0.
Proof.
  intros EM N V I. pose proof EM as (Wf & _ & _ & VB). destruct (nth_var _ _ VB) as [b Hb].
  assert (n <> b) by (intros ->; apply V; eapply is_var_inj; eassumption).
  unfold mx_B. rewrite (var_num_is _ b _ 0 Wf Hb). cbv zeta.
  destruct (dim (vw W) =? 2)%nat; [| destruct (dim (vw W) =? 3)%nat; [| reflexivity]];
    apply fill_other; auto; eapply is_var_lt; eassumption.
Qed.
Lemma mx_E_other s stage W n v i : em W -> is_var (vw W) n v -> v <> "E"%string -> (i < nbas (vw W) (usebasis (vw W) n))%nat ->
  at_row (offs (vw W) n i) (mx_E s stage W) = 0.
Proof.
  intros EM N V I. pose proof EM as (Wf & _ & VE & _). destruct (nth_var _ _ VE) as [b Hb].
  assert (n <> b) by (intros ->; apply V; eapply is_var_inj; eassumption).
  unfold mx_E. rewrite (var_num_is _ b _ 0 Wf Hb). cbv zeta.
  match goal with |- context [if ?c then _ else []] => destruct c; [| reflexivity] end.
  destruct (dim (vw W) =? 2)%nat; [| destruct (dim (vw W) =? 3)%nat; [| reflexivity]];
    apply fill_other; auto; eapply is_var_lt; eassumption.
Qed.
Theorem C90_selected a lf stage W n i : em W -> (i < nbas (vw W) (usebasis (vw W) n))%nat ->
  (is_var (vw W) n "B" -> residual (mx_volume (mx_new (Some a) lf) stage W) (offs (vw W) n i) =
     if in_dec Ascii.ascii_dec "B"%char (list_ascii_of_string a) then residual (mx_volume (mx_new None lf) stage W) (offs (vw W) n i) else 0) /\
  (is_var (vw W) n "E" -> residual (mx_volume (mx_new (Some a) lf) stage W) (offs (vw W) n i) =
     if in_dec Ascii.ascii_dec "E"%char (list_ascii_of_string a) then residual (mx_volume (mx_new None lf) stage W) (offs (vw W) n i) else 0).
Proof.
  intros EM I. rewrite !residual_at.
  assert (forall c, has_char c a = if in_dec Ascii.ascii_dec c (list_ascii_of_string a) then true else false) as HC.
  { intros c. destruct (in_dec _ _ _) as [Y | Y]; [apply has_char_spec, Y |]. destruct (has_char c a) eqn:E; [| reflexivity]. apply has_char_spec in E. contradiction. }
  unfold mx_volume. cbn [mx_new include_E include_B]. rewrite !HC.
  split; intros N; rewrite !at_row_app.
  - assert (forall s, at_row (offs (vw W) n i) (mx_E s stage W) = 0) as Z by (intros s; eapply mx_E_other; [exact EM | exact N | discriminate | exact I]).
    destruct (in_dec Ascii.ascii_dec "E"%char _); destruct (in_dec Ascii.ascii_dec "B"%char _); rewrite ?at_row_nil, ?Z, ?Rplus_0_r; reflexivity.
  - assert (forall s, at_row (offs (vw W) n i) (mx_B s stage W) = 0) as Z by (intros s; eapply mx_B_other; [exact EM | exact N | discriminate | exact I]).
    destruct (in_dec Ascii.ascii_dec "E"%char _); destruct (in_dec Ascii.ascii_dec "B"%char _); rewrite ?at_row_nil, ?Z, ?Rplus_0_l; reflexivity.
Qed.
Print Assumptions C90_selected.

(** Leap frog: in the first stage B moves and E gets no equation, in the second B is held and E
    moves. *)
Theorem C90_leapfrog W n i : em W -> permits (vw W) -> (i < nbas (vw W) (usebasis (vw W) n))%nat ->
  (is_var (vw W) n "B" ->
     residual (mx_volume leap 0 W) (offs (vw W) n i) = residual (mx_volume full 0 W) (offs (vw W) n i) /\
     residual (mx_volume leap 1 W) (offs (vw W) n i) = bweak W (usebasis (vw W) n) i (Bt (vw W))) /\
  (is_var (vw W) n "E" ->
     residual (mx_volume leap 0 W) (offs (vw W) n i) = 0 /\
     residual (mx_volume leap 1 W) (offs (vw W) n i) = residual (mx_volume full 1 W) (offs (vw W) n i)).
Proof.
  intros EM P I. pose proof (fun s st => mx_rows s st W EM P) as H. split; intros N; split.
  - destruct (H leap 0%nat eq_refl eq_refl n i I) as [A _]. destruct (H full 0%nat eq_refl eq_refl n i I) as [B _]. rewrite (A N), (B N). reflexivity.
  - destruct (H leap 1%nat eq_refl eq_refl n i I) as [A _]. rewrite (A N). apply integral_ext. intros k K. apply sm_ext. intros d _. cbn. ring.
  - destruct (H leap 0%nat eq_refl eq_refl n i I) as [_ [A _]]. rewrite (A N). reflexivity.
  - destruct (H leap 1%nat eq_refl eq_refl n i I) as [_ [A _]]. destruct (H full 1%nat eq_refl eq_refl n i I) as [_ [B _]]. rewrite (A N), (B N). reflexivity.
Qed.
Print Assumptions C90_leapfrog.

(** Tested with the fields themselves the curl terms cancel: the energy changes by the
    resistive loss and the work of the current, and by nothing else. *)
Definition vexpands (W : vwks) (n : nat) (ce : nat -> R) (val : nat -> nat -> R) (curl : nat -> nat -> R) : Prop :=
  forall k, (k < npts (vw W))%nat ->
  (forall d, (d < dim (vw W))%nat -> val d k = sm (seq 0 (nbas (vw W) (usebasis (vw W) n))) (fun i => ce i * vbas W (usebasis (vw W) n) i k d)) /\
  (forall d, (d < rank (vw W))%nat -> curl d k = sm (seq 0 (nbas (vw W) (usebasis (vw W) n))) (fun i => ce i * vcurl W (usebasis (vw W) n) i k d)).
Definition bexpands (W : vwks) (n : nat) (cb : nat -> R) (val : nat -> nat -> R) : Prop :=
  forall k, (k < npts (vw W))%nat -> forall d, (d < rank (vw W))%nat ->
  val d k = sm (seq 0 (nbas (vw W) (usebasis (vw W) n))) (fun i => cb i * vbas W (usebasis (vw W) n) i k d).
Lemma sumr_ext w f g : (forall d, (d < rank w)%nat -> f d = g d) -> sumr w f = sumr w g.
Proof. intros H. apply sm_ext. intros d I. apply in_seq in I. apply H. lia. Qed.
Lemma tested_v W n c val curl a q (res : nat -> R) : vexpands W n c val curl ->
  (forall i, (i < nbas (vw W) (usebasis (vw W) n))%nat -> res (offs (vw W) n i) = vweak W (usebasis (vw W) n) i a q) ->
  tested (vw W) res n c = integral (vw W) (fun k => sumd (vw W) (fun d => a d k * val d k) + sumr (vw W) (fun d => q d k * curl d k)).
Proof.
  intros X H. unfold tested. set (w := vw W) in *. set (b := usebasis w n) in *.
  rewrite (sm_ext _ _ (fun i => integral w (fun k => c i * (sumd w (fun d => a d k * vbas W b i k d) + sumr w (fun d => q d k * vcurl W b i k d))))).
  2:{ intros i I. apply in_seq in I. rewrite H by lia. unfold vweak. fold w. rewrite integral_scal. reflexivity. }
  rewrite integral_sum. apply integral_ext. intros k K. destruct (X k K) as [X1 X2]. fold w b in X1, X2.
  rewrite (sm_ext _ _ (fun i => sumd w (fun d => a d k * (c i * vbas W b i k d)) + sumr w (fun d => q d k * (c i * vcurl W b i k d)))).
  - rewrite sm_add. f_equal.
    + rewrite sumd_swap. apply sumd_ext. intros d D. rewrite (X1 d D). apply sm_scal.
    + unfold sumr. rewrite sm_swap. apply sm_ext. intros d D. apply in_seq in D. rewrite (X2 d) by (unfold rank in *; lia). apply sm_scal.
  - intros i _. rewrite Rmult_plus_distr_l, <- sumd_scal. f_equal; [apply sumd_ext; intros; ring |].
    unfold sumr. rewrite <- sm_scal. apply sm_ext; intros; ring.
Qed.
Lemma tested_b W n c val a (res : nat -> R) : bexpands W n c val ->
  (forall i, (i < nbas (vw W) (usebasis (vw W) n))%nat -> res (offs (vw W) n i) = bweak W (usebasis (vw W) n) i a) ->
  tested (vw W) res n c = integral (vw W) (fun k => sumr (vw W) (fun d => a d k * val d k)).
Proof.
  intros X H. unfold tested. set (w := vw W) in *. set (b := usebasis w n) in *.
  rewrite (sm_ext _ _ (fun i => integral w (fun k => c i * (sumr w (fun d => a d k * vbas W b i k d))))).
  2:{ intros i I. apply in_seq in I. rewrite H by lia. unfold bweak. fold w. rewrite integral_scal. reflexivity. }
  rewrite integral_sum. apply integral_ext. intros k K.
  rewrite (sm_ext _ _ (fun i => sumr w (fun d => a d k * (c i * vbas W b i k d)))).
  - unfold sumr. rewrite sm_swap. apply sm_ext. intros d D. apply in_seq in D. rewrite (X k K d) by (unfold rank in *; fold w; lia). apply sm_scal.
  - intros i _. unfold sumr. rewrite <- sm_scal. apply sm_ext; intros; ring.
Qed.
Theorem C90_energy W e b ce cb eps mu stage : em W -> permits (vw W) -> is_var (vw W) e "E" -> is_var (vw W) b "B" ->
  vexpands W e ce (Ef (vw W)) (curlE (vw W)) -> bexpands W b cb (Bf (vw W)) -> mu <> 0 -> uniform (vw W) "mu" mu ->
  (dim (vw W) = 3%nat -> eps <> 0 /\ uniform (vw W) "epsilon" eps) ->
  (if (dim (vw W) =? 2)%nat then 1 else eps) * tested (vw W) (residual (mx_volume full stage W)) e ce
  + / mu * tested (vw W) (residual (mx_volume full stage W)) b cb =
  integral (vw W) (fun k =>
    sumd (vw W) (fun d => fn (vw W) "epsilon" k * (fn (vw W) "refractive index" k * fn (vw W) "refractive index" k) * Et (vw W) d k * Ef (vw W) d k
                          + fn (vw W) "sigma" k * (Ef (vw W) d k * Ef (vw W) d k) + current (vw W) d k * Ef (vw W) d k)
    + sumr (vw W) (fun d => Bt (vw W) d k * Bf (vw W) d k / mu)).
Proof.
  intros EM P He Hb XE XB M0 MU U.
  assert (forall z, z * tested (vw W) (residual (mx_volume full stage W)) e ce =
    tested (vw W) (fun r => z * residual (mx_volume full stage W) r) e ce) as Z
    by (intros z; unfold tested; rewrite <- sm_scal; apply sm_ext; intros; ring).
  rewrite Z, (tested_v W e ce _ _ (ampere_a (vw W)) (ampere_c (vw W)) _ XE)
    by (intros i I; apply (C90_ampere W e i eps EM P He I U)).
  rewrite (tested_b W b cb _ _ _ XB (fun i I => C90_faraday W b i EM P Hb I stage)).
  rewrite <- integral_scal, <- integral_add. apply integral_ext. intros k K. unfold ampere_a, ampere_c. rewrite (MU k K).
  destruct (em_dims W EM) as [D | D]; rewrite ?(sumd_2 _ _ D), ?(sumd_3 _ _ D), ?(sumr_2 _ _ D), ?(sumr_3 _ _ D); field; exact M0.
Qed.
Print Assumptions C90_energy.

(** *** The hypotheses can be met: one element with two functions for each field. *)
Definition block (n : nat) (f g : string -> nat -> R) (bc : string) (V C : nat -> nat -> R) : vwks := {|
  vw := {| dim := n; varlist := ["E"; "B"]%string; usebasis := fun v => v; npts := 2; nbas := fun _ => 2%nat;
    offs := fun v i => (2 * v + i)%nat; wt := fun _ => 1; bas := fun _ _ _ => 0; bgr := fun _ _ _ _ => 0; fld := f; fn := g; hel := 1;
    bcs := fun _ => bc; sidename := "s"%string; isAdjoint := false; isTransient := true; deltat := 1 |};
  vbas := fun _ i k _ => V i k; vcurl := fun _ i k _ => C i k |}.
Lemma block_em n f g bc V C : (n = 2%nat \/ n = 3%nat) -> em (block n f g bc V C).
Proof.
  intros N. split; [split; [cbn; lia | cbn; repeat constructor; cbn; intuition discriminate | cbn; intros; lia] |].
  split; [cbn; lia |]. cbn. auto.
Qed.
Definition unit (i k : nat) : R := if (i =? k)%nat then 1 else 0.
Example C90_block : let W := block 3 (fun _ _ => 1) (fun _ _ => 2) "Neumann" unit unit in
  em W /\ permits (vw W) /\ vexpands W 0 (fun _ => 1) (Ef (vw W)) (curlE (vw W)) /\ bexpands W 1 (fun _ => 1) (Bf (vw W)) /\
  residual (mx_volume full 0 W) 0 = 69 / 4.
Proof.
  intros W. assert (em W) as EM by (apply block_em; auto).
  assert (permits (vw W)) as P by (intros k _; cbn; lra). split; [exact EM |]. split; [exact P |]. split; [| split].
  - intros k K. cbn in K. split; intros d D; destruct k as [| [| k]]; try lia; unfold sm, rsum; cbn; lra.
  - intros k K d D. cbn in K. destruct k as [| [| k]]; try lia; unfold sm, rsum; cbn; lra.
  - pose proof (C90_ampere W 0 0 2 EM P eq_refl ltac:(cbn; lia) ltac:(intros _; split; [lra | intros k _; reflexivity]) 0) as H.
    cbn [dim vw W block Nat.eqb offs Nat.mul Nat.add] in H.
    match type of H with _ = ?r => assert (r = 69 / 2) as E end.
    { unfold vweak, integral, sumd, sumr, ampere_a, ampere_c, sm, rsum. cbn. unfold rsum. cbn. lra. }
    rewrite E in H. change (residual (mx_volume full 0 W) 0) with (residual (mx_volume full 0 W) (offs (vw W) 0 0)). cbn [W block vw offs Nat.mul Nat.add] in *. lra.
Qed.

(** *** C91: permittivity that varies *)
Definition ampere_stated (W : vwks) : Prop := exists z, z <> 0 /\ forall n i, is_var (vw W) n "E" -> (i < nbas (vw W) (usebasis (vw W) n))%nat ->
  z * residual (mx_volume full 0 W) (offs (vw W) n i) = vweak W (usebasis (vw W) n) i (ampere_a (vw W)) (ampere_c (vw W)).
Theorem C91_permittivity_partial W : em W -> permits (vw W) -> dim (vw W) = 2%nat -> ampere_stated W.
Proof.
  intros EM P D. exists 1. split; [lra |]. intros n i N I.
  pose proof (C90_ampere W n i 1 EM P N I ltac:(intros E; congruence) 0) as H. rewrite D in H. exact H.
Qed.
Print Assumptions C91_permittivity_partial.
(** In three dimensions the permittivity divides the flux inside the integral, where the test
    function is differentiated: no longer a multiple of the equation. *)
Theorem C91_permittivity_refuted : exists W, em W /\ permits (vw W) /\ dim (vw W) = 3%nat /\ ~ ampere_stated W.
Proof.
  set (W := block 3 (fun s _ => if String.eqb s "B[x]" then 1 else 0)
    (fun s k => if String.eqb s "epsilon" then INR (S k) else if String.eqb s "mu" then 1 else 0) "none" unit unit).
  assert (em W) as EM by (apply block_em; auto).
  assert (permits (vw W)) as P. { intros k _. cbn. split; [| lra]. change (INR (S k) <> 0). apply not_0_INR. lia. }
  exists W. split; [exact EM |]. split; [exact P |]. split; [reflexivity |]. intros [z [_ H]].
  pose proof (H 0%nat 0%nat eq_refl ltac:(cbn; lia)) as H0. pose proof (H 0%nat 1%nat eq_refl ltac:(cbn; lia)) as H1.
  destruct (mx_rows full 0 W EM P eq_refl eq_refl 0%nat 0%nat ltac:(cbn; lia)) as [_ [R0 _]].
  destruct (mx_rows full 0 W EM P eq_refl eq_refl 0%nat 1%nat ltac:(cbn; lia)) as [_ [R1 _]].
  rewrite (R0 eq_refl) in H0. rewrite (R1 eq_refl) in H1. cbn [useLeapFrog full mx_new andb] in H0, H1.
  unfold vweak, integral, sumd, sumr, scale, ampere_a, ampere_c, sm, rsum in H0, H1. cbn in H0, H1. unfold rsum in H0, H1. cbn in H0, H1.
  unfold unit in H0, H1. cbn in H0, H1. field_simplify in H0. field_simplify in H1. lra.
Qed.
Print Assumptions C91_permittivity_refuted.

(** *** C92: magnetic flux *)
(** A mesh: elements with the numbers of their unknowns of B; B_t and curl E have global
    coefficients t and c in the space of B. *)
Record melem := { mW : vwks; mB : nat; gid : nat -> nat }.
Definition on_mesh (m : melem) (x : nat -> R) (val : nat -> nat -> R) : Prop := bexpands (mW m) (mB m) (fun i => x (gid m i)) val.
Definition meshes (es : list melem) (t c : nat -> R) : Prop := forall m, In m es -> em (mW m) /\ permits (vw (mW m)) /\ is_var (vw (mW m)) (mB m) "B" /\
  on_mesh m t (Bt (vw (mW m))) /\ on_mesh m c (curlE (vw (mW m))) /\ forall k, (k < npts (vw (mW m)))%nat -> 0 < wt (vw (mW m)) k.
(** The assembled equation for B holds: tested with any global vector. *)
Definition faraday_holds (es : list melem) : Prop := forall x, sm es (fun m =>
  tested (vw (mW m)) (residual (mx_volume full 0 (mW m))) (mB m) (fun i => x (gid m i))) = 0.
(** Then B_t = - curl E at every point, not just on average. *)
Theorem C92_pointwise es t c : meshes es t c -> faraday_holds es ->
  forall m k d, In m es -> (k < npts (vw (mW m)))%nat -> (d < rank (vw (mW m)))%nat -> Bt (vw (mW m)) d k = - curlE (vw (mW m)) d k.
Proof.
  intros M F m k d I K D. specialize (F (fun g => t g + c g)).
  assert (forall m, In m es -> tested (vw (mW m)) (residual (mx_volume full 0 (mW m))) (mB m) (fun i => t (gid m i) + c (gid m i)) =
    integral (vw (mW m)) (fun k => sumr (vw (mW m)) (fun d => (Bt (vw (mW m)) d k + curlE (vw (mW m)) d k) * (Bt (vw (mW m)) d k + curlE (vw (mW m)) d k)))) as T.
  { intros x X. destruct (M x X) as (EM & P & V & T1 & T2 & _).
    apply (tested_b (mW x) (mB x) _ (fun d k => Bt (vw (mW x)) d k + curlE (vw (mW x)) d k) _ _).
    - intros k' K' d' D'. rewrite (T1 k' K' d' D'), (T2 k' K' d' D'), <- sm_add. apply sm_ext. intros; ring.
    - intros i Hi. apply C90_faraday; assumption. }
  rewrite (sm_ext _ _ (fun m => integral (vw (mW m)) (fun k => sumr (vw (mW m)) (fun d => (Bt (vw (mW m)) d k + curlE (vw (mW m)) d k) * (Bt (vw (mW m)) d k + curlE (vw (mW m)) d k))))) in F
    by (intros; apply T; assumption).
  assert (forall x, In x es -> forall k', (k' < npts (vw (mW x)))%nat ->
    0 <= sumr (vw (mW x)) (fun d => (Bt (vw (mW x)) d k' + curlE (vw (mW x)) d k') * (Bt (vw (mW x)) d k' + curlE (vw (mW x)) d k'))) as NN
    by (intros; apply sm_nonneg; intros; apply Rle_0_sqr).
  assert (integral (vw (mW m)) (fun k => sumr (vw (mW m)) (fun d => (Bt (vw (mW m)) d k + curlE (vw (mW m)) d k) * (Bt (vw (mW m)) d k + curlE (vw (mW m)) d k))) = 0) as Z.
  { apply (sm_nonneg_zero es) with (f := fun m => integral (vw (mW m)) (fun k => sumr (vw (mW m)) (fun d => (Bt (vw (mW m)) d k + curlE (vw (mW m)) d k) * (Bt (vw (mW m)) d k + curlE (vw (mW m)) d k)))); [| apply Req_le, F | exact I].
    intros x X. apply integral_nonneg. intros k' K'. split; [left; apply (M x X); exact K' | apply NN; assumption]. }
  assert (wt (vw (mW m)) k * sumr (vw (mW m)) (fun d => (Bt (vw (mW m)) d k + curlE (vw (mW m)) d k) * (Bt (vw (mW m)) d k + curlE (vw (mW m)) d k)) = 0) as Zk.
  { apply (sm_nonneg_zero (seq 0 (npts (vw (mW m))))) with (f := fun k => wt (vw (mW m)) k * sumr (vw (mW m)) (fun d => (Bt (vw (mW m)) d k + curlE (vw (mW m)) d k) * (Bt (vw (mW m)) d k + curlE (vw (mW m)) d k))); [| apply Req_le, Z | apply in_seq; lia].
    intros x X. apply in_seq in X. apply Rmult_le_pos; [left; apply (M m I); lia | apply NN; [exact I | lia]]. }
  apply Rmult_integral in Zk. destruct Zk as [Zk | Zk]; [pose proof (proj2 (proj2 (proj2 (proj2 (proj2 (M m I))))) k K); lra |].
  assert ((Bt (vw (mW m)) d k + curlE (vw (mW m)) d k) * (Bt (vw (mW m)) d k + curlE (vw (mW m)) d k) = 0) as Zd.
  { apply (sm_nonneg_zero (seq 0 (rank (vw (mW m))))) with (f := fun d => (Bt (vw (mW m)) d k + curlE (vw (mW m)) d k) * (Bt (vw (mW m)) d k + curlE (vw (mW m)) d k)); [| apply Req_le, Zk | apply in_seq; lia].
    intros x _. apply Rle_0_sqr. }
  apply Rmult_integral in Zd. lra.
Qed.
Print Assumptions C92_pointwise.
(** And so the divergence of B does not change: any linear measurement of B on an element that
    is zero on curls (the divergence at a point, the flux out of the element) has rate zero. *)
Theorem C92_flux es t c m L : meshes es t c -> faraday_holds es -> In m es ->
  (forall a b : nat -> nat -> R, (forall d k, (d < rank (vw (mW m)))%nat -> (k < npts (vw (mW m)))%nat -> a d k = - b d k) -> L a = - L b) ->
  L (curlE (vw (mW m))) = 0 -> L (Bt (vw (mW m))) = 0.
Proof.
  intros M F I A Z. rewrite (A _ (curlE (vw (mW m)))); [rewrite Z; ring |].
  intros d k D K. apply (C92_pointwise es t c M F m k d I K D).
Qed.
Print Assumptions C92_flux.
Example C92_one : let W := block 2 (fun s _ => if String.eqb s "B_t" then -1 else if String.eqb s "curl(E)" then 1 else 0) (fun _ _ => 1) "none" unit unit in
  let m := {| mW := W; mB := 1; gid := fun i => i |} in meshes [m] (fun _ => -1) (fun _ => 1) /\ faraday_holds [m].
Proof.
  intros W m. assert (em W) as EM by (apply block_em; auto). assert (permits (vw W)) as P by (intros k _; cbn; lra). split.
  - intros x [<- | []]. cbn [mW mB m]. split; [exact EM |]. split; [exact P |]. split; [reflexivity |].
    split; [| split; [| intros; cbn; lra]]; intros k K d D; cbn in K; destruct k as [| [| k]]; try lia; unfold sm, rsum; cbn; unfold unit; cbn; lra.
  - intros x. unfold sm, rsum. cbn [map fold_right mW mB m]. unfold tested. rewrite sm_zero; [ring |].
    intros i I. apply in_seq in I. rewrite (C90_faraday W 1 i EM P eq_refl ltac:(cbn in *; lia)).
    unfold bweak, integral. rewrite sm_zero; [ring |]. intros k _. unfold sumr, sm, rsum. cbn. lra.
Qed.

(** *** C93: absorbing sides *)
Definition En (w : wks) (k : nat) : R := sumd w (fun d => Ef w d k * normal w d k).
(** The tangential part of E (in two dimensions a scalar) enters the equation of B, with a
    fixed weight. *)
Definition tangential (w : wks) (d k : nat) : R :=
  if (dim w =? 2)%nat then normal w 0 k * Ef w 1 k - normal w 1 k * Ef w 0 k else Ef w d k - En w k * normal w d k.
Definition absorbing (W : vwks) (z : R) : Prop := forall n i, is_var (vw W) n "B" -> bcs (vw W) n = "Neumann"%string ->
  (i < nbas (vw W) (usebasis (vw W) n))%nat ->
  residual (mx_boundary full W) (offs (vw W) n i) = z * bweak W (usebasis (vw W) n) i (tangential (vw W)).
Definition unit_normal (w : wks) : Prop := forall k, (k < npts w)%nat -> sumd w (fun d => normal w d k * normal w d k) = 1.
Theorem C93_absorbing_partial W : em W -> dim (vw W) = 3%nat -> unit_normal (vw W) ->
  absorbing W (56 / 10000) /\
  (forall n, is_var (vw W) n "B" -> bcs (vw W) n <> "Neumann"%string -> mx_boundary full W = []) /\
  only_rows (vw W) (residual (mx_boundary full W)) ["B"%string].
Proof.
  intros EM D U. pose proof EM as (Wf & _ & _ & VB). destruct (nth_var _ _ VB) as [b Hb].
  unfold absorbing, mx_boundary. rewrite (var_num_is _ b _ 0 Wf Hb), D. cbn [Nat.eqb include_B full mx_new andb]. cbv zeta.
  split; [| split].
  - intros n i Hn N Hi. pose proof (is_var_uniq _ n b _ Wf Hn Hb); subst n. rewrite N, String.eqb_refl, residual_at. rows Wf Hi.
    unfold bweak. rewrite <- integral_scal. unfold integral, tangential. rewrite D. cbn [Nat.eqb]. apply sm_ext. intros k K. apply in_seq in K. pose proof (U k ltac:(lia)) as Uk.
    unfold En. rewrite (sumr_3 _ _ D). rewrite !(sumd_3 _ _ D) in *. unfold normal, Ef, bracket, axis in *. cbn [append] in *.
    set (nx := fld (vw W) "n[x]" k) in *. set (ny := fld (vw W) "n[y]" k) in *. set (nz := fld (vw W) "n[z]" k) in *.
    assert (nx * nx = 1 - ny * ny - nz * nz) as S by lra.
    field [S].
  - intros n Hn N. pose proof (is_var_uniq _ n b _ Wf Hn Hb); subst n. destruct (String.eqb_spec (bcs (vw W) b) "Neumann"); [contradiction | reflexivity].
  - intros n v i Hn Nv Hi. assert (n <> b) by (intros ->; apply Nv; left; symmetry; apply (is_var_inj _ _ _ _ Hn Hb)).
    rewrite residual_at. destruct (String.eqb _ _); [| reflexivity]. rows Wf Hi. reflexivity.
Qed.
Print Assumptions C93_absorbing_partial.
(** In two dimensions nothing is added. *)
Theorem C93_absorbing_refuted : exists W, em W /\ dim (vw W) = 2%nat /\ unit_normal (vw W) /\ forall z, absorbing W z -> z = 0.
Proof.
  set (W := block 2 (fun s _ => if String.eqb s "n[x]" then 1 else if String.eqb s "E[y]" then 1 else 0) (fun _ _ => 1) "Neumann" unit unit).
  assert (em W) as EM by (apply block_em; auto). exists W. split; [exact EM |]. split; [reflexivity |]. split.
  - intros k _. unfold sumd, normal, sm, rsum. cbn. lra.
  - intros z H. specialize (H 1%nat 0%nat eq_refl eq_refl ltac:(cbn; lia)).
    unfold bweak, integral, sumr, tangential, normal, Ef, sm, rsum in H. cbn in H. unfold rsum, unit in H. cbn in H. lra.
Qed.
Print Assumptions C93_absorbing_refuted.
Example C93_side : let W := block 3 (fun s _ => if String.eqb s "n[x]" then 1 else if String.eqb s "E[y]" then 1 else 0) (fun _ _ => 1) "Neumann" unit unit in
  em W /\ unit_normal (vw W).
Proof. intros W. split; [apply block_em; auto |]. intros k _. unfold sumd, normal, sm, rsum. cbn. lra. Qed.
