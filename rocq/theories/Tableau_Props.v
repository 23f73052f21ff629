(** Properties C23 (stage formulas), C24 (tableaux), C25 (BDF weights) and C53 (seeds). *)
From Coq Require Import Bool Arith Lia Reals Lra String List.
From Verif Require Import Sparse_Model Sparse_Props Mass_Props Tableau_Model.
Import ListNotations.
Local Open Scope R_scope.

Definition sumf (n : nat) (f : nat -> R) : R := rsum (map f (seq 0 n)).

Lemma sumf_S n f : sumf (S n) f = sumf n f + f n.
Proof. unfold sumf. rewrite seq_S, map_app, rsum_app. cbn. ring. Qed.
Lemma sumf_ext n f g : (forall i, (i < n)%nat -> f i = g i) -> sumf n f = sumf n g.
Proof. intros H. apply rsum_ext. intros i Hi. apply in_seq in Hi. apply H. lia. Qed.
Lemma sumf_scal n a f : sumf n (fun i => a * f i) = a * sumf n f.
Proof. apply rsum_map_scal. Qed.
Lemma sumf_add n f g : sumf n (fun i => f i + g i) = sumf n f + sumf n g.
Proof. apply rsum_map_add. Qed.

(** *** C24: order conditions, stated with matrix notation *)

Definition consistent (t : tab) : Prop :=
  length (tA t) = nst t /\ length (tc t) = nst t /\
  forall i, (i < nst t)%nat -> ci t i = sumf (nst t) (aij t i).
Definition lower (t : tab) : Prop := forall i j, (i < j)%nat -> aij t i j = 0.
Definition strictly_lower (t : tab) : Prop := forall i j, (i <= j)%nat -> aij t i j = 0.
Definition weights_nonzero (t : tab) : Prop := forall i, (i < nst t)%nat -> bi t i <> 0.

Definition order1 t := sumf (nst t) (bi t) = 1.
Definition order2 t := sumf (nst t) (fun i => bi t i * ci t i) = 1 / 2.
Definition order3 t :=
  sumf (nst t) (fun i => bi t i * (ci t i * ci t i)) = 1 / 3 /\
  sumf (nst t) (fun i => bi t i * sumf (nst t) (fun j => aij t i j * ci t j)) = 1 / 6.
Definition order4 t :=
  sumf (nst t) (fun i => bi t i * (ci t i * ci t i * ci t i)) = 1 / 4 /\
  sumf (nst t) (fun i => bi t i * ci t i * sumf (nst t) (fun j => aij t i j * ci t j)) = 1 / 8 /\
  sumf (nst t) (fun i => bi t i * sumf (nst t) (fun j => aij t i j * (ci t j * ci t j))) = 1 / 12 /\
  sumf (nst t) (fun i => bi t i * sumf (nst t) (fun j => aij t i j * sumf (nst t) (fun k => aij t j k * ci t k))) = 1 / 24.
Definition has_order (p : nat) (t : tab) : Prop :=
  consistent t /\ lower t /\ weights_nonzero t /\
  ((1 <= p)%nat -> order1 t) /\ ((2 <= p)%nat -> order2 t) /\ ((3 <= p)%nat -> order3 t) /\ ((4 <= p)%nat -> order4 t).

Lemma cases_lt (P : nat -> Prop) n : (forall i, In i (seq 0 n) -> P i) -> forall i, (i < n)%nat -> P i.
Proof. intros H i Hi. apply H. apply in_seq. lia. Qed.

Lemma lower_check t : length (tA t) = nst t -> (forall r, In r (tA t) -> length r = nst t) ->
  (forall i j, In i (seq 0 (nst t)) -> In j (seq 0 (nst t)) -> (i < j)%nat -> aij t i j = 0) -> lower t.
Proof.
  intros H1 H2 H3 i j Hij. unfold aij in *.
  destruct (Nat.lt_ge_cases i (nst t)) as [Hi|Hi].
  - destruct (Nat.lt_ge_cases j (nst t)) as [Hj|Hj].
    + apply H3; auto; apply in_seq; lia.
    + apply nth_overflow. rewrite H2; auto. apply nth_In. rewrite H1; auto.
  - rewrite (nth_overflow (tA t)) by lia. destruct j; auto.
Qed.

Ltac tabc := unfold consistent, order1, order2, order3, order4, sumf, aij, bi, ci, nst in *;
  cbn [tA tb tc bwe fwe cn ssprk33 rk44 dirk12 dirk22 dirk23 dirk33 dirk33_of leapfrog length seq nth map In rsum fold_right] in *.
Ltac ins := repeat match goal with
  | H : _ \/ _ |- _ => destruct H as [H|H]; [subst|] | H : False |- _ => destruct H
  | H : In _ (_ :: _) |- _ => cbn [In] in H | H : In _ [] |- _ => destruct H end.
Ltac ord num := let Hp := fresh in intros Hp; first [exfalso; lia | tabc; num | tabc; split; num | tabc; split; [|split; [|split]]; num].
Ltac order_tac num :=
  split; [|split; [|split; [|split; [|split; [|split]]]]];
  [ tabc; split; [reflexivity|]; split; [reflexivity|];
    intros i Hi; revert i Hi; apply cases_lt; intros i Hi; cbn [seq In] in Hi; ins; tabc; num
  | apply lower_check; [reflexivity| intros r Hr; tabc; ins; reflexivity
    | intros i j Hi Hj Hij; tabc; ins; try lia; tabc; num ]
  | intros i Hi; revert i Hi; apply cases_lt; intros i Hi; tabc; ins; tabc; (let X := fresh in intros X; num)
  | ord num | ord num | ord num | ord num ].

Lemma sqrt3 : sqrt 3 * sqrt 3 = 3.
Proof. apply sqrt_sqrt. lra. Qed.
Ltac numq := lra.

Theorem C24_bwe : has_order 1 bwe.  Proof. order_tac numq. Qed.
Theorem C24_fwe : has_order 1 fwe.  Proof. order_tac numq. Qed.
Theorem C24_cn : has_order 2 cn.    Proof. order_tac numq. Qed.
Theorem C24_ssprk33 : has_order 3 ssprk33.  Proof. order_tac numq. Qed.
Theorem C24_rk44 : has_order 4 rk44.  Proof. order_tac numq. Qed.
Theorem C24_dirk12 : has_order 2 dirk12.  Proof. order_tac numq. Qed.
Theorem C24_dirk22 : has_order 2 dirk22.  Proof. order_tac numq. Qed.
Ltac nums := pose proof sqrt3; nra.
Theorem C24_dirk23 : has_order 3 dirk23.
Proof. order_tac nums. Qed.

(** DIRK-3,3: with p a root of the cubic the order is three; the ten digits used by the
    code satisfy the conditions to 1e-11, but not exactly. *)
Theorem C24_dirk33_root p : p * p * p - 3 * (p * p) + 3 / 2 * p - 1 / 6 = 0 -> p <> 0 ->
  -3 * p * p / 2 + 4 * p - 1 / 4 <> 0 -> 3 * p * p / 2 - 5 * p + 5 / 4 <> 0 -> has_order 3 (dirk33_of p).
Proof.
  intros H N1 N2 N3.
  split; [|split; [|split; [|split; [|split; [|split]]]]].
  - tabc; split; [reflexivity|]; split; [reflexivity|].
    intros i Hi; revert i Hi; apply cases_lt; intros i Hi; cbn [seq In] in Hi; ins; tabc; lra.
  - apply lower_check; [reflexivity| intros r Hr; tabc; ins; reflexivity
    | intros i j Hi Hj Hij; tabc; ins; try lia; tabc; lra ].
  - intros i Hi; revert i Hi; apply cases_lt; intros i Hi; tabc; ins; tabc; auto.
  - intros _. tabc. lra.
  - intros _. tabc. nra.
  - intros _. tabc. 
    assert (E3 : p * p * p = 3 * (p * p) - 3 / 2 * p + 1 / 6) by lra.
    assert (E4 : p * p * p * p = 3 * (p * p * p) - 3 / 2 * (p * p) + 1 / 6 * p) by (rewrite E3; lra).
    split; nra.
  - intros X. lia.
Qed.

Theorem C24_dirk33_partial :
  consistent dirk33 /\ lower dirk33 /\ weights_nonzero dirk33 /\ order1 dirk33 /\
  Rabs (sumf 3 (fun i => bi dirk33 i * ci dirk33 i) - 1 / 2) < 1 / 100000000000 /\
  Rabs (sumf 3 (fun i => bi dirk33 i * (ci dirk33 i * ci dirk33 i)) - 1 / 3) < 1 / 100000000000 /\
  Rabs (sumf 3 (fun i => bi dirk33 i * sumf 3 (fun j => aij dirk33 i j * ci dirk33 j)) - 1 / 6) < 1 / 100000000000.
Proof.
  unfold dirk33, pdirk. split; [|split; [|split; [|split]]].
  - tabc; split; [reflexivity|]; split; [reflexivity|].
    intros i Hi; revert i Hi; apply cases_lt; intros i Hi; cbn [seq In] in Hi; ins; tabc; lra.
  - apply lower_check; [reflexivity| intros r Hr; tabc; ins; reflexivity
    | intros i j Hi Hj Hij; tabc; ins; try lia; tabc; lra ].
  - intros i Hi; revert i Hi; apply cases_lt; intros i Hi; tabc; ins; tabc; intros X; lra.
  - tabc. lra.
  - tabc. split; [|split]; apply Rabs_def1; lra.
Qed.

Theorem C24_dirk33_refuted : ~ order2 dirk33.
Proof. unfold dirk33, pdirk. intros H. tabc. lra. Qed.

(** The leap-frog table is not a consistent Runge-Kutta method. *)
Theorem C24_leapfrog_refuted : ~ order1 leapfrog /\ ci leapfrog 1 <> sumf (nst leapfrog) (aij leapfrog 1).
Proof. split; tabc; intros H; lra. Qed.

(** Names. *)
Definition advertised : list (string * nat) :=
  [("BWE", 1); ("DIRK-1,1", 1); ("FWE", 1); ("CN", 2); ("SSPRK-3,3", 3); ("RK-4,4", 4);
   ("DIRK-1,2", 2); ("DIRK-2,2", 2); ("DIRK-2,3", 3)]%nat%string.
Theorem C24_names name p custom : In (name, p) advertised ->
  exists t, tableau name custom = Some t /\ has_order p t.
Proof.
  unfold advertised. cbn [In]. intros H.
  repeat (destruct H as [H|H]; [injection H as <- <-; eexists; split; [reflexivity|]|]); [..|destruct H].
  - apply C24_bwe. - apply C24_bwe. - apply C24_fwe. - apply C24_cn. - apply C24_ssprk33. - apply C24_rk44.
  - apply C24_dirk12. - apply C24_dirk22. - apply C24_dirk23.
Qed.

(** *** Polynomials *)
Fixpoint peval (p : list R) (x : R) : R := match p with [] => 0 | a :: q => a + x * peval q x end.
Fixpoint pder (p : list R) (x : R) : R := match p with [] => 0 | a :: q => peval q x + x * pder q x end.

Lemma pder_derivative p x : derivable_pt_lim (peval p) x (pder p x).
Proof.
  induction p as [|a q IH]; [apply derivable_pt_lim_const|]. cbn [peval pder].
  replace (peval q x + x * pder q x) with (0 + (1 * peval q x + x * pder q x)) by ring.
  apply (derivable_pt_lim_plus (fun _ => a) (fun x => x * peval q x)); [apply derivable_pt_lim_const|].
  apply (derivable_pt_lim_mult (fun x => x) (peval q)); [apply derivable_pt_lim_id|exact IH].
Qed.

(** Methods of order p <= 4 integrate P' exactly for every polynomial P of degree <= p:
    with u' = P'(t) the step takes P(t) to P(t+dt). *)
Lemma moments t (c0 c1 c2 c3 : R) :
  sumf (nst t) (fun i => bi t i * (c0 + c1 * ci t i + c2 * (ci t i * ci t i) + c3 * (ci t i * ci t i * ci t i))) =
  c0 * sumf (nst t) (bi t) + c1 * sumf (nst t) (fun i => bi t i * ci t i)
  + c2 * sumf (nst t) (fun i => bi t i * (ci t i * ci t i)) + c3 * sumf (nst t) (fun i => bi t i * (ci t i * ci t i * ci t i)).
Proof. rewrite <- !sumf_scal, <- !sumf_add. apply sumf_ext. intros. ring. Qed.

Theorem C24_quadrature p t P x dt : has_order p t -> (p <= 4)%nat -> (length P <= S p)%nat ->
  peval P x + dt * sumf (nst t) (fun i => bi t i * pder P (x + ci t i * dt)) = peval P (x + dt).
Proof.
  intros (_ & _ & _ & O1 & O2 & O3 & O4) Hp HP.
  destruct P as [|a0 P]; [cbn [peval pder]; rewrite (sumf_ext _ _ (fun i => 0 * bi t i)) by (intros; ring); rewrite sumf_scal; ring|].
  destruct P as [|a1 P]; [cbn [peval pder]; rewrite (sumf_ext _ _ (fun i => 0 * bi t i)) by (intros; ring); rewrite sumf_scal; ring|].
  cbn [length] in HP. specialize (O1 ltac:(lia)). unfold order1 in O1.
  destruct P as [|a2 P].
  { rewrite (sumf_ext _ _ (fun i => a1 * bi t i)) by (intros; cbn [pder peval]; ring). rewrite sumf_scal, O1. cbn [peval]. ring. }
  cbn [length] in HP. specialize (O2 ltac:(lia)). unfold order2 in O2.
  destruct P as [|a3 P].
  { rewrite (sumf_ext _ _ (fun i => bi t i * ((a1 + 2 * a2 * x) + (2 * a2 * dt) * ci t i + 0 * (ci t i * ci t i) + 0 * (ci t i * ci t i * ci t i))))
      by (intros; cbn [pder peval]; ring).
    rewrite moments, O1, O2. cbn [peval]. field. }
  cbn [length] in HP. specialize (O3 ltac:(lia)). destruct O3 as [O3 _].
  destruct P as [|a4 P].
  { rewrite (sumf_ext _ _ (fun i => bi t i * ((a1 + 2 * a2 * x + 3 * a3 * x * x) + (2 * a2 * dt + 6 * a3 * x * dt) * ci t i + (3 * a3 * dt * dt) * (ci t i * ci t i) + 0 * (ci t i * ci t i * ci t i))))
      by (intros; cbn [pder peval]; ring).
    rewrite moments, O1, O2, O3. cbn [peval]. field. }
  cbn [length] in HP. specialize (O4 ltac:(lia)). destruct O4 as [O4 _].
  destruct P as [|a5 P]; [|cbn [length] in HP; lia].
  rewrite (sumf_ext _ _ (fun i => bi t i * ((a1 + 2 * a2 * x + 3 * a3 * x * x + 4 * a4 * x * x * x)
      + (2 * a2 * dt + 6 * a3 * x * dt + 12 * a4 * x * x * dt) * ci t i + (3 * a3 * dt * dt + 12 * a4 * x * dt * dt) * (ci t i * ci t i)
      + (4 * a4 * dt * dt * dt) * (ci t i * ci t i * ci t i))))
      by (intros; cbn [pder peval]; ring).
  rewrite moments, O1, O2, O3, O4. cbn [peval]. field.
Qed.

Print Assumptions C24_names.
Print Assumptions C24_dirk33_root.
Print Assumptions C24_dirk33_partial.
Print Assumptions C24_dirk33_refuted.
Print Assumptions C24_leapfrog_refuted.
Print Assumptions C24_quadrature.

(** *** C25 *)

(** The time derivative presented to the physics with BDF weights of order k = 1..6 and
    the one-stage tableau is the derivative of every polynomial of degree <= k. *)
Theorem C25_exact k P x dt : (1 <= k <= 6)%nat -> (length P <= S k)%nat -> dt <> 0 ->
  derivable_pt_lim (peval P) x
    (dot_of scalars bwe (bdf k) dt 0 (fun s => peval P (x - INR (S s) * dt)) (peval P x)).
Proof.
  intros Hk HP Hd.
  replace (dot_of scalars bwe (bdf k) dt 0 (fun s => peval P (x - INR (S s) * dt)) (peval P x)) with (pder P x); [apply pder_derivative|].
  unfold dot_of, bi. cbn [bwe tb nth].
  assert (HI : forall s, INR (S s) = INR s + 1) by (intros; apply S_INR).
  assert (I1 : INR 1 = 1) by reflexivity. assert (I2 : INR 2 = 2) by (rewrite HI, I1; ring).
  assert (I3 : INR 3 = 3) by (rewrite HI, I2; ring). assert (I4 : INR 4 = 4) by (rewrite HI, I3; ring).
  assert (I5 : INR 5 = 5) by (rewrite HI, I4; ring). assert (I6 : INR 6 = 6) by (rewrite HI, I5; ring).
  destruct P as [|a0 [|a1 [|a2 [|a3 [|a4 [|a5 [|a6 [|? ?]]]]]]]]; cbn [length] in HP;
  (destruct k as [|[|[|[|[|[|[|k]]]]]]]; try lia);
  unfold bdf; cbn [length seq fold_left nth scalars vadd vscal inj Nat.sub pder peval];
  rewrite ?I1, ?I2, ?I3, ?I4, ?I5, ?I6; field; auto.
Qed.
Print Assumptions C25_exact.

(** The weights of order k sum to zero, so a constant has derivative zero. *)
Theorem C25_constant k u dt : (1 <= k <= 6)%nat -> dt <> 0 ->
  dot_of scalars bwe (bdf k) dt 0 (fun _ => u) u = 0.
Proof.
  intros Hk Hd. unfold dot_of, bi. cbn [bwe tb nth].
  destruct k as [|[|[|[|[|[|[|k]]]]]]]; try lia;
  unfold bdf; cbn [length seq fold_left nth scalars vadd vscal inj Nat.sub]; field; auto.
Qed.
Print Assumptions C25_constant.

(** Orders outside 1..6 are not rejected: the weights are an empty array. *)
Theorem C25_order_refuted : exists k, ~ (1 <= k <= 6)%nat /\ bdf k = [] /\
  forall dt prev v, dot_of scalars bwe (bdf k) dt 0 prev v = 0.
Proof.
  exists 7%nat. split; [lia|]. split; auto. intros. unfold dot_of. cbn. ring.
Qed.
Print Assumptions C25_order_refuted.

(** *** C23 *)
(** A tableau that is accepted has as many rows, weights and nodes as stages; a custom one
    is taken as given, and rejected when the sizes differ. *)
Definition sized (t : tab) : Prop :=
  length (tA t) = nst t /\ length (tc t) = nst t /\ forall r, In r (tA t) -> length r = nst t.
Theorem C23_custom name custom : (forall t, tableau name custom = Some t -> sized t) /\
  (sized custom -> tableau "custom" custom = Some custom) /\ (~ sized custom -> tableau "custom" custom = None).
Proof.
  assert (forallb (fun r => Nat.eqb (length r) (length (tA custom))) (tA custom) && Nat.eqb (length (tb custom)) (length (tA custom))
     && Nat.eqb (length (tc custom)) (length (tA custom)) = true <-> sized custom) as G.
  { unfold sized, nst. rewrite !andb_true_iff, forallb_forall, !Nat.eqb_eq. split.
    - intros [[A B] C]. split; [|split]; try congruence. intros r Hr. apply A in Hr. apply Nat.eqb_eq in Hr. congruence.
    - intros (A & B & C). split; [split|]; try congruence. intros r Hr. apply Nat.eqb_eq. rewrite C by auto. auto. }
  split; [|split].
  - intros t H. unfold tableau in H.
    repeat match type of H with (if ?c then _ else _) = _ => destruct c eqn:?; [first [injection H as <-; apply G; assumption |
      injection H as <-; unfold sized, nst; cbn; (split; [reflexivity|]); (split; [reflexivity|]); intros r Hr; cbn in Hr;
        repeat (destruct Hr as [<-|Hr]; [reflexivity|]); destruct Hr | idtac]|] end; try discriminate.
    injection H as <-. apply G; reflexivity.
  - intros S. unfold tableau. cbn [String.eqb Ascii.eqb Bool.eqb orb]. apply G in S. rewrite S. reflexivity.
  - intros S. unfold tableau. cbn [String.eqb Ascii.eqb Bool.eqb orb].
    destruct (_ && _ && _) eqn:E; auto. exfalso. apply S, G. reflexivity.
Qed.
Print Assumptions C23_custom.
Section RK.
Variables (t : tab) (dt : R).
Hypothesis Hb : weights_nonzero t.
Hypothesis Hl : lower t.
Hypothesis Hdt : dt <> 0.

Lemma fold_sum {A} (f : A -> R) l a : fold_left (fun acc s => acc + f s) l a = a + rsum (map f l).
Proof. revert a. induction l as [|x l IH]; intros a; cbn [fold_left map]; [cbn; ring|]. rewrite IH. change (rsum (?a :: ?b)) with (a + rsum b). ring. Qed.

Lemma sumf_lower n s f : (s < n)%nat -> (forall j, (s < j)%nat -> f j = 0) -> sumf n f = sumf s f + f s.
Proof.
  intros Hs HZ. induction n as [|n IH]; [lia|]. rewrite sumf_S.
  destruct (Nat.eq_dec s n) as [->|N]; auto. rewrite IH by lia. rewrite (HZ n) by lia. ring.
Qed.

Lemma state_value s prev0 U : (s < nst t)%nat ->
  state_of scalars t s prev0 U (U s) = prev0 + sumf (nst t) (fun j => aij t s j / bi t j * (U j - prev0)).
Proof.
  intros Hs. unfold state_of. cbn [scalars vadd vscal vsub]. rewrite fold_sum.
  rewrite (sumf_lower (nst t) s).
  - unfold sumf. ring.
  - auto.
  - intros j Hj. rewrite Hl by auto. unfold Rdiv. ring.
Qed.

Lemma dot_value s prev v : (s < nst t)%nat ->
  dot_of scalars t (bdf 1) dt s prev v = (v - prev 0%nat) / (dt * bi t s).
Proof.
  intros Hs. unfold dot_of. cbn [bdf length Nat.sub seq fold_left nth scalars vadd vscal inj]. field. split; auto.
Qed.

(** For every tableau (lower triangular, nonzero weights), step and stage solutions U:
    with k_s the time derivative presented at stage s, the state presented at stage s
    is u_n + dt*sum_j a_sj k_j, and the update u_n + sum_s (U_s - u_n) used by the time
    loop is u_n + dt*sum_s b_s k_s. *)
Theorem C23_stages prev U :
  let k s := dot_of scalars t (bdf 1) dt s prev (U s) in
  (forall s, (s < nst t)%nat ->
     state_of scalars t s (prev 0%nat) U (U s) = prev 0%nat + dt * sumf (nst t) (fun j => aij t s j * k j)) /\
  prev 0%nat + sumf (nst t) (fun s => U s - prev 0%nat) = prev 0%nat + dt * sumf (nst t) (fun s => bi t s * k s).
Proof.
  cbn zeta. split.
  - intros s Hs. rewrite state_value by auto. f_equal. rewrite <- sumf_scal. apply sumf_ext. intros j Hj.
    rewrite dot_value by auto. pose proof (Hb j Hj). field. auto.
  - f_equal. rewrite <- sumf_scal. apply sumf_ext. intros s Hs. rewrite dot_value by auto.
    pose proof (Hb s Hs). field. auto.
Qed.

(** Any Runge-Kutta slopes arise from exactly one choice of stage solutions. *)
Theorem C23_all_methods prev k : exists U,
  (forall s, (s < nst t)%nat -> dot_of scalars t (bdf 1) dt s prev (U s) = k s) /\
  (forall U', (forall s, (s < nst t)%nat -> dot_of scalars t (bdf 1) dt s prev (U' s) = k s) ->
     forall s, (s < nst t)%nat -> U' s = U s).
Proof.
  exists (fun s => prev 0%nat + dt * bi t s * k s). split.
  - intros s Hs. rewrite dot_value by auto. pose proof (Hb s Hs). field. auto.
  - intros U' H s Hs. specialize (H s Hs). rewrite dot_value in H by auto. pose proof (Hb s Hs).
    rewrite <- H. field. auto.
Qed.
End RK.
Print Assumptions C23_stages.
Print Assumptions C23_all_methods.

Example C23_hypotheses_met : weights_nonzero rk44 /\ lower rk44 /\ weights_nonzero dirk23 /\ lower dirk23.
Proof. destruct C24_rk44 as (_ & L & W & _). destruct C24_dirk23 as (_ & L' & W' & _). auto. Qed.

(** *** C53: derivative seeds *)

Lemma dual_fold_state t stage prev0 stages v :
  fst (state_of duals t stage prev0 stages v) = state_of scalars t stage (fst prev0) (fun s => fst (stages s)) (fst v) /\
  snd (state_of duals t stage prev0 stages v) = state_of scalars t stage (snd prev0) (fun s => snd (stages s)) (snd v).
Proof.
  unfold state_of. cbn [duals scalars vadd vscal vsub].
  assert (G : forall l (a : R * R),
    fold_left (fun acc s => (fst acc + fst (aij t stage s / bi t s * fst (fst (stages s) - fst prev0, snd (stages s) - snd prev0),
         aij t stage s / bi t s * snd (fst (stages s) - fst prev0, snd (stages s) - snd prev0)),
       snd acc + snd (aij t stage s / bi t s * fst (fst (stages s) - fst prev0, snd (stages s) - snd prev0),
         aij t stage s / bi t s * snd (fst (stages s) - fst prev0, snd (stages s) - snd prev0)))) l a =
    (fold_left (fun acc s => acc + aij t stage s / bi t s * (fst (stages s) - fst prev0)) l (fst a),
     fold_left (fun acc s => acc + aij t stage s / bi t s * (snd (stages s) - snd prev0)) l (snd a))).
  { induction l as [|x l IH]; intros a; cbn [fold_left]; [destruct a; auto|]. rewrite IH. auto. }
  rewrite G. auto.
Qed.

Lemma dual_fold_dot t wts dt stage prev v :
  fst (dot_of duals t wts dt stage prev v) = dot_of scalars t wts dt stage (fun s => fst (prev s)) (fst v) /\
  snd (dot_of duals t wts dt stage prev v) = dot_of scalars t wts dt stage (fun s => snd (prev s)) (snd v).
Proof.
  unfold dot_of. cbn [duals scalars vadd vscal vsub inj].
  assert (G : forall l (a : R * R),
    fold_left (fun acc s => (fst acc + fst (nth s wts 0 * fst (prev (s-1)%nat), nth s wts 0 * snd (prev (s-1)%nat)),
       snd acc + snd (nth s wts 0 * fst (prev (s-1)%nat), nth s wts 0 * snd (prev (s-1)%nat)))) l a =
    (fold_left (fun acc s => acc + nth s wts 0 * fst (prev (s-1)%nat)) l (fst a),
     fold_left (fun acc s => acc + nth s wts 0 * snd (prev (s-1)%nat)) l (snd a))).
  { induction l as [|x l IH]; intros a; cbn [fold_left]; [destruct a; auto|]. rewrite IH. auto. }
  rewrite G. auto.
Qed.

(** state_of is linear *)
Lemma state_linear t stage p q U W v w h :
  state_of scalars t stage (p + h * q) (fun s => U s + h * W s) (v + h * w) =
  state_of scalars t stage p U v + h * state_of scalars t stage q W w.
Proof.
  unfold state_of. cbn [scalars vadd vscal vsub]. rewrite !fold_sum.
  assert (E : rsum (map (fun s => aij t stage s / bi t s * (U s + h * W s - (p + h * q))) (seq 0 stage)) =
    rsum (map (fun s => aij t stage s / bi t s * (U s - p)) (seq 0 stage)) +
    h * rsum (map (fun s => aij t stage s / bi t s * (W s - q)) (seq 0 stage))).
  { rewrite <- rsum_map_scal, <- rsum_map_add. apply rsum_ext. intros. ring. }
  rewrite E. ring.
Qed.
Lemma dot_linear t wts dt stage P Q v w h :
  dot_of scalars t wts dt stage (fun s => P s + h * Q s) (v + h * w) =
  dot_of scalars t wts dt stage P v + h * dot_of scalars t wts dt stage Q w.
Proof.
  unfold dot_of. cbn [scalars vadd vscal vsub inj]. rewrite !fold_sum.
  assert (E : rsum (map (fun s => nth s wts 0 * (P (s-1)%nat + h * Q (s-1)%nat)) (seq 1 (length wts - 1))) =
    rsum (map (fun s => nth s wts 0 * P (s-1)%nat) (seq 1 (length wts - 1))) +
    h * rsum (map (fun s => nth s wts 0 * Q (s-1)%nat) (seq 1 (length wts - 1)))).
  { rewrite <- rsum_map_scal, <- rsum_map_add. apply rsum_ext. intros. ring. }
  rewrite E. ring.
Qed.

(** The number to perturb by h for each kind of seed. *)
Definition bump (on : bool) (h x : R) : R := if on then x + h else x.

(** In every mode the derivative carried with the state and the time derivative is the
    exact rate of change with respect to the seeded quantity (previous solution [index]
    or stage solution), everything else fixed. *)
Theorem C53_seeds t wts dt stage seedwhat index prev stages v h :
  let p s := bump (Nat.eqb seedwhat 2 && Nat.eqb index s) h (prev s) in
  let U s := bump (Nat.eqb seedwhat 3 && Nat.eqb index s) h (stages s) in
  let w := bump (Nat.eqb seedwhat 1) h v in
  state_of scalars t stage (p 0%nat) U w =
    fst (seed_state t stage seedwhat index (prev 0%nat) stages v)
    + h * snd (seed_state t stage seedwhat index (prev 0%nat) stages v) /\
  dot_of scalars t wts dt stage p w =
    fst (seed_dot t wts dt stage seedwhat index prev v) + h * snd (seed_dot t wts dt stage seedwhat index prev v).
Proof.
  cbn zeta. unfold seed_state, seed_dot.
  pose proof (dual_fold_state t stage (seeded (Nat.eqb seedwhat 2 && Nat.eqb index 0) (prev 0%nat))
    (fun s => seeded (Nat.eqb seedwhat 3 && Nat.eqb index s) (stages s)) (seeded (Nat.eqb seedwhat 1) v)) as [-> ->].
  pose proof (dual_fold_dot t wts dt stage (fun s => seeded (Nat.eqb seedwhat 2 && Nat.eqb index s) (prev s))
    (seeded (Nat.eqb seedwhat 1) v)) as [-> ->].
  rewrite <- state_linear, <- dot_linear.
  assert (B : forall on x, bump on h x = fst (seeded on x) + h * snd (seeded on x)).
  { intros on x. unfold bump, seeded. destruct on; cbn; ring. }
  split.
  - rewrite !B. unfold state_of. cbn [scalars vadd vscal vsub]. rewrite !fold_sum. f_equal. f_equal.
    apply rsum_ext. intros s _. rewrite B. reflexivity.
  - rewrite !B. unfold dot_of. cbn [scalars vadd vscal vsub inj]. rewrite !fold_sum. f_equal. f_equal. f_equal.
    apply rsum_ext. intros s _. rewrite B. reflexivity.
Qed.
Print Assumptions C53_seeds.
