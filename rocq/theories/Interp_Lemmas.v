(** Scanner lemmas. *)
From Coq Require Import List Ascii String Bool ZArith Arith Lia.
From Verif Require Import Interp_Model Interp_Spec.
Import ListNotations.
Local Open Scope Z_scope.

Lemma aeq_refl a : aeq a a = true.
Proof. apply Ascii.eqb_refl. Qed.

Lemma aeq_true a b : aeq a b = true <-> a = b.
Proof. apply Ascii.eqb_eq. Qed.

Lemma aeq_false a b : aeq a b = false <-> a <> b.
Proof. apply Ascii.eqb_neq. Qed.

Lemma seq_str_true a : forall b, seq_str a b = true <-> a = b.
Proof.
  induction a as [|x a IH]; intros [|y b]; simpl; split; intro H; try discriminate; auto.
  - apply andb_true_iff in H as [H1 H2]. apply aeq_true in H1. apply IH in H2. congruence.
  - inversion H; subst. rewrite aeq_refl. simpl. apply IH. reflexivity.
Qed.

Lemma seq_str_refl a : seq_str a a = true.
Proof. apply seq_str_true. reflexivity. Qed.

Lemma seq_str_false a b : seq_str a b = false <-> a <> b.
Proof.
  split; intro H.
  - intro E. apply seq_str_true in E. congruence.
  - destruct (seq_str a b) eqn:K; auto. apply seq_str_true in K. contradiction.
Qed.

(** ** Balance *)
Lemma bal_app a b : bal (a ++ b) = bal a + bal b.
Proof. induction a as [|c a IH]; cbn [app bal]; lia. Qed.

Lemma pval_not_paren c : aeq c "("%char = false -> aeq c ")"%char = false -> pval c = 0.
Proof. unfold pval. intros -> ->. reflexivity. Qed.

Lemma app_split {A} (a b u v : list A) :
  a ++ b = u ++ v ->
  (exists w, a = u ++ w /\ v = w ++ b) \/ (exists w, u = a ++ w /\ b = w ++ v).
Proof.
  revert u. induction a as [|x a IH]; intros u H; simpl in *.
  - right. exists u. auto.
  - destruct u as [|y u].
    + left. exists (x :: a). auto.
    + simpl in H. inversion H; subst. destruct (IH _ H2) as [(w & -> & ->)|(w & -> & ->)].
      * left. exists w. auto.
      * right. exists w. auto.
Qed.

Lemma nested_nil : nested [].
Proof. split; auto. intros u v H. symmetry in H. apply app_eq_nil in H as [-> _]. simpl. lia. Qed.

Lemma nested_app a b : nested a -> nested b -> nested (a ++ b).
Proof.
  intros [Ha Pa] [Hb Pb]. split.
  - rewrite bal_app. lia.
  - intros u v H. destruct (app_split _ _ _ _ H) as [(w & E1 & E2)|(w & E1 & E2)].
    + eapply Pa; eauto.
    + subst u. rewrite bal_app. specialize (Pb _ _ E2). lia.
Qed.

Lemma nested_one c : pval c = 0 -> nested [c].
Proof.
  intros Hc. split; [simpl; lia|]. intros u v H. destruct u as [|x u]; simpl; [lia|].
  simpl in H. inversion H; subst. symmetry in H2. apply app_eq_nil in H2 as [-> _]. simpl. lia.
Qed.

Lemma nested_noparen s :
  ~ In "("%char s -> ~ In ")"%char s -> nested s.
Proof.
  induction s as [|c s IH]; intros H1 H2.
  - apply nested_nil.
  - change (c :: s) with ([c] ++ s). apply nested_app.
    + apply nested_one. apply pval_not_paren; apply aeq_false; intro; subst; simpl in *; tauto.
    + apply IH; simpl in *; tauto.
Qed.

Lemma nested_wrap s : nested s -> nested (wrap true s).
Proof.
  intros [H P]. unfold wrap. split.
  - rewrite !bal_app. change (bal ["("%char]) with 1. change (bal [")"%char]) with (-1). lia.
  - intros u v E. destruct u as [|c u]; simpl; [lia|].
    simpl in E. inversion E; subst. change (pval "("%char) with 1.
    destruct (app_split _ _ _ _ H2) as [(w & E1 & E2)|(w & E1 & E2)].
    + specialize (P _ _ E1). lia.
    + subst u. rewrite bal_app. destruct w as [|d w]; cbn [bal]; [lia|].
      simpl in E2. inversion E2; subst. symmetry in H3. apply app_eq_nil in H3 as [-> _].
      change (pval ")"%char) with (-1). cbn [bal]. lia.
Qed.

Lemma nested_wrapb b s : nested s -> nested (wrap b s).
Proof. destruct b; [apply nested_wrap | auto]. Qed.

(** ** Texts without characters of a class at depth zero.
    [free d P s]: starting at depth [d], no character of class [P] is met at
    depth zero. *)
Definition free (d : Z) (P : ascii -> bool) (s : str) : Prop :=
  forall u c v, s = u ++ c :: v -> d + bal u = 0 -> P c = false.

Lemma free_cons d P c s :
  free d P (c :: s) <-> (d = 0 -> P c = false) /\ free (d + pval c) P s.
Proof.
  split.
  - intros H. split.
    + intros Hd. apply (H [] c s); simpl; auto. lia.
    + intros u x v E B. apply (H (c :: u) x v); simpl; [congruence | lia].
  - intros [H1 H2] u x v E B. destruct u as [|y u]; simpl in *; inversion E; subst.
    + apply H1. lia.
    + eapply H2; eauto. lia.
Qed.

Lemma free_nil d P : free d P [].
Proof. intros u c v H. destruct u; discriminate. Qed.

Lemma free_app d P a b : free d P a -> free (d + bal a) P b -> free d P (a ++ b).
Proof.
  revert d. induction a as [|c a IH]; intros d Ha Hb; simpl in *.
  - rewrite Z.add_0_r in Hb. exact Hb.
  - apply free_cons in Ha as [H1 H2]. apply free_cons. split; auto.
    apply IH; auto. replace (d + pval c + bal a) with (d + (pval c + bal a)) by lia. auto.
Qed.

Lemma free_deep d P a : nested a -> 0 < d -> free d P a.
Proof.
  intros [_ N] Hd u c v E B. specialize (N u (c :: v) E). lia.
Qed.

Lemma free_wrap P a :
  P "("%char = false -> P ")"%char = false -> nested a -> free 0 P (wrap true a).
Proof.
  intros Po Pc N. unfold wrap. simpl app. apply free_cons. split; auto.
  change (0 + pval "("%char) with 1. apply free_app.
  - apply free_deep; auto; lia.
  - destruct N as [-> _]. apply free_cons. split; auto. apply free_nil.
Qed.

Lemma free_none d P s : (forall c, In c s -> P c = false) -> free d P s.
Proof. intros H u c v E _. apply H. subst. apply in_or_app. right. simpl. auto. Qed.

(** ** Counting loop *)
Lemma count_pm_free s : forall d n, free d is_pm s -> c_pm (count_loop s d n) = c_pm n.
Proof.
  induction s as [|c s IH]; intros d n F; simpl; auto.
  apply free_cons in F as [F1 F2].
  destruct (aeq c "("%char) eqn:E1; [apply aeq_true in E1; subst; apply IH; exact F2|].
  destruct (aeq c ")"%char) eqn:E2; [apply aeq_true in E2; subst; apply IH; exact F2|].
  rewrite pval_not_paren in F2 by auto. rewrite Z.add_0_r in F2.
  destruct (d =? 0) eqn:E3.
  - apply Z.eqb_eq in E3. rewrite IH by auto. simpl. rewrite F1; auto.
  - rewrite IH; auto.
Qed.

Lemma count_mdp_free s : forall d n, free d is_mdp s -> c_mdp (count_loop s d n) = c_mdp n.
Proof.
  induction s as [|c s IH]; intros d n F; simpl; auto.
  apply free_cons in F as [F1 F2].
  destruct (aeq c "("%char) eqn:E1; [apply aeq_true in E1; subst; apply IH; exact F2|].
  destruct (aeq c ")"%char) eqn:E2; [apply aeq_true in E2; subst; apply IH; exact F2|].
  rewrite pval_not_paren in F2 by auto. rewrite Z.add_0_r in F2.
  destruct (d =? 0) eqn:E3.
  - apply Z.eqb_eq in E3. rewrite IH by auto. simpl. rewrite F1; auto.
  - rewrite IH; auto.
Qed.

Lemma count_pow_free s : forall d n, free d is_pow s -> c_pow (count_loop s d n) = c_pow n.
Proof.
  induction s as [|c s IH]; intros d n F; simpl; auto.
  apply free_cons in F as [F1 F2].
  destruct (aeq c "("%char) eqn:E1; [apply aeq_true in E1; subst; apply IH; exact F2|].
  destruct (aeq c ")"%char) eqn:E2; [apply aeq_true in E2; subst; apply IH; exact F2|].
  rewrite pval_not_paren in F2 by auto. rewrite Z.add_0_r in F2.
  destruct (d =? 0) eqn:E3.
  - apply Z.eqb_eq in E3. rewrite IH by auto. simpl. rewrite F1; auto.
  - rewrite IH; auto.
Qed.

Lemma count_mono s : forall d n,
  (c_pm n <= c_pm (count_loop s d n) /\ c_mdp n <= c_mdp (count_loop s d n)
   /\ c_pow n <= c_pow (count_loop s d n))%nat.
Proof.
  induction s as [|c s IH]; intros d n; simpl; auto.
  repeat match goal with |- context [if ?b then _ else _] => destruct b end;
    try apply IH;
    match goal with |- context [count_loop s ?d ?m] => specialize (IH d m) end;
    simpl in *; lia.
Qed.

Lemma count_app a : forall d b n,
  count_loop (a ++ b) d n = count_loop b (d + bal a) (count_loop a d n).
Proof.
  induction a as [|c a IH]; intros d b n.
  - simpl. rewrite Z.add_0_r. reflexivity.
  - cbn [app count_loop bal].
    destruct (aeq c "("%char) eqn:E1.
    + apply aeq_true in E1; subst. rewrite IH. change (pval "("%char) with 1. f_equal; lia.
    + destruct (aeq c ")"%char) eqn:E2.
      * apply aeq_true in E2; subst. rewrite IH. change (pval ")"%char) with (-1). f_equal; lia.
      * rewrite pval_not_paren by auto.
        destruct (d =? 0); rewrite IH; f_equal; lia.
Qed.

(** A character of each class at depth zero is counted. *)
Lemma count_hit a c b :
  bal a = 0 -> aeq c "("%char = false -> aeq c ")"%char = false ->
  let n := count_loop (a ++ c :: b) 0 zero_counts in
  (is_pm c = true -> (0 < c_pm n)%nat) /\ (is_mdp c = true -> (0 < c_mdp n)%nat)
  /\ (is_pow c = true -> (0 < c_pow n)%nat).
Proof.
  intros Ha E1 E2. cbv zeta. rewrite count_app, Ha. cbn [count_loop]. rewrite E1, E2.
  change (0 + 0 =? 0) with true. cbv iota.
  set (m := {| c_pm := _ |}).
  pose proof (count_mono b (0 + 0) m) as (M1 & M2 & M3).
  repeat split; intros H; subst m; simpl in *; rewrite H in *; lia.
Qed.

(** ** Chunks: texts that a loop copies unchanged. *)
Definition noblank (s : str) : Prop :=
  forall c, In c s -> aeq c " "%char = false /\ aeq c "="%char = false.

Lemma noblank_cons c s :
  noblank (c :: s) <-> (aeq c " "%char = false /\ aeq c "="%char = false) /\ noblank s.
Proof.
  split.
  - intros H. split; [apply H; simpl; auto | intros x Hx; apply H; simpl; auto].
  - intros [H1 H2] x [<-|Hx]; auto.
Qed.

Lemma noblank_app a b : noblank a -> noblank b -> noblank (a ++ b).
Proof. intros Ha Hb c Hc. apply in_app_or in Hc as [H|H]; auto. Qed.

Lemma pm_chunk s : forall r d cur op acc,
  free d is_pm s -> noblank s ->
  pm_loop (s ++ r) d cur op acc = pm_loop r (d + bal s) (cur ++ s) op acc.
Proof.
  induction s as [|c s IH]; intros r d cur op acc F N.
  - simpl. rewrite Z.add_0_r, app_nil_r. reflexivity.
  - apply free_cons in F as [F1 F2]. apply noblank_cons in N as [[N1 N2] N3].
    cbn [app pm_loop bal]. rewrite N1, N2.
    assert (A : forall x : str, (cur ++ [c]) ++ x = cur ++ c :: x)
      by (intro; rewrite <- app_assoc; reflexivity).
    destruct (aeq c "("%char) eqn:E1;
      [apply aeq_true in E1; subst; rewrite IH by auto; rewrite A; f_equal; change (pval "("%char) with 1; change (pval ")"%char) with (-1); lia|].
    destruct (aeq c ")"%char) eqn:E2;
      [apply aeq_true in E2; subst; rewrite IH by auto; rewrite A; f_equal; change (pval "("%char) with 1; change (pval ")"%char) with (-1); lia|].
    rewrite pval_not_paren in F2 |- * by auto. rewrite Z.add_0_r in F2.
    destruct (d =? 0) eqn:E3; simpl.
    + apply Z.eqb_eq in E3. specialize (F1 E3). unfold is_pm in F1.
      apply orb_false_iff in F1 as [-> ->]. simpl. rewrite IH, A by auto. f_equal; lia.
    + rewrite IH, A by auto. f_equal; lia.
Qed.

Lemma mdp_chunk s : forall r d cur op acc,
  free d is_mdp s -> noblank s ->
  mdp_loop (s ++ r) d cur op acc = mdp_loop r (d + bal s) (cur ++ s) op acc.
Proof.
  induction s as [|c s IH]; intros r d cur op acc F N.
  - simpl. rewrite Z.add_0_r, app_nil_r. reflexivity.
  - apply free_cons in F as [F1 F2]. apply noblank_cons in N as [[N1 N2] N3].
    cbn [app mdp_loop bal]. rewrite N1.
    assert (A : forall x : str, (cur ++ [c]) ++ x = cur ++ c :: x)
      by (intro; rewrite <- app_assoc; reflexivity).
    destruct (aeq c "("%char) eqn:E1;
      [apply aeq_true in E1; subst; rewrite IH by auto; rewrite A; f_equal; change (pval "("%char) with 1; change (pval ")"%char) with (-1); lia|].
    destruct (aeq c ")"%char) eqn:E2;
      [apply aeq_true in E2; subst; rewrite IH by auto; rewrite A; f_equal; change (pval "("%char) with 1; change (pval ")"%char) with (-1); lia|].
    rewrite pval_not_paren in F2 |- * by auto. rewrite Z.add_0_r in F2.
    destruct (d =? 0) eqn:E3; simpl.
    + apply Z.eqb_eq in E3. specialize (F1 E3). unfold is_mdp in F1.
      apply orb_false_iff in F1 as [F1 F1d]. apply orb_false_iff in F1 as [F1 F1c].
      apply orb_false_iff in F1 as [F1a F1b].
      rewrite F1a, F1b, F1c, F1d. simpl. rewrite IH, A by auto. f_equal; lia.
    + rewrite IH, A by auto. f_equal; lia.
Qed.

Lemma pow_chunk s : forall r d cur op acc,
  free d is_pow s ->
  pow_loop (s ++ r) d cur op acc = pow_loop r (d + bal s) (cur ++ s) op acc.
Proof.
  induction s as [|c s IH]; intros r d cur op acc F.
  - simpl. rewrite Z.add_0_r, app_nil_r. reflexivity.
  - apply free_cons in F as [F1 F2].
    cbn [app pow_loop bal].
    assert (A : forall x : str, (cur ++ [c]) ++ x = cur ++ c :: x)
      by (intro; rewrite <- app_assoc; reflexivity).
    destruct (aeq c "("%char) eqn:E1;
      [apply aeq_true in E1; subst; rewrite IH by auto; rewrite A; f_equal; change (pval "("%char) with 1; change (pval ")"%char) with (-1); lia|].
    destruct (aeq c ")"%char) eqn:E2;
      [apply aeq_true in E2; subst; rewrite IH by auto; rewrite A; f_equal; change (pval "("%char) with 1; change (pval ")"%char) with (-1); lia|].
    rewrite pval_not_paren in F2 |- * by auto. rewrite Z.add_0_r in F2.
    destruct (d =? 0) eqn:E3; simpl.
    + apply Z.eqb_eq in E3. specialize (F1 E3). unfold is_pow in F1.
      rewrite F1. simpl. rewrite IH, A by auto. f_equal; lia.
    + rewrite IH, A by auto. f_equal; lia.
Qed.

(** ** isScalar *)
Definition numchar (c : ascii) : bool :=
  is_digit c || aeq c "."%char || is_e c || aeq c "+"%char || aeq c "-"%char.

Lemma scan_false s : forall p d e, isScalar_scan s p d e false = false.
Proof.
  induction s as [|c s IH]; intros; simpl; auto.
  repeat match goal with |- context [if ?b then _ else _] => destruct b end; auto.
  destruct p; auto. destruct (is_e a); auto.
Qed.

Lemma scan_prefix a b : forall p d e k,
  isScalar_scan (a ++ b) p d e k = true -> isScalar_scan a p d e k = true.
Proof.
  induction a as [|c a IH]; intros p d e k H; simpl in *.
  - destruct k; auto. rewrite scan_false in H. discriminate.
  - repeat match goal with |- context [if ?b then _ else _] => destruct b end;
      try (eapply IH; eassumption).
    destruct p; [destruct (is_e a0)|]; eapply IH; eassumption.
Qed.

Lemma isScalar_prefix a b : isScalar (a ++ b) = true -> isScalar a = true.
Proof. apply scan_prefix. Qed.

Lemma scan_numchar s : forall p d e k,
  isScalar_scan s p d e k = true -> forall c, In c s -> numchar c = true.
Proof.
  induction s as [|x s IH]; intros p d e k H c Hc; [destruct Hc|].
  simpl in H. unfold numchar.
  destruct Hc as [<-|Hc].
  - destruct (is_digit x); auto. destruct (aeq x "."%char); auto. destruct (is_e x); auto.
    destruct (aeq x "+"%char); auto. destruct (aeq x "-"%char); auto.
    simpl in H. rewrite scan_false in H. discriminate.
  - repeat match goal with H : context [if ?b then _ else _] |- _ => destruct b end;
      try (eapply IH; eassumption).
    all: destruct p; try (destruct (is_e a)); eapply IH; eassumption.
Qed.

Lemma isScalar_numchar s c : isScalar s = true -> In c s -> numchar c = true.
Proof. intros H. eapply scan_numchar. exact H. Qed.

(** A sign after a character other than e/E ends numberhood. *)
Lemma scan_sign a x c b : forall p d e k,
  is_pm c = true -> is_e x = false ->
  isScalar_scan (a ++ x :: c :: b) p d e k = false.
Proof.
  intros p d e k Hc Hx.
  assert (Hd : is_digit c = false /\ aeq c "."%char = false /\ is_e c = false).
  { unfold is_pm in Hc. apply orb_true_iff in Hc as [H|H]; apply aeq_true in H; subst c;
    repeat split; reflexivity. }
  destruct Hd as (D1 & D2 & D3).
  assert (Base : forall d e k, isScalar_scan (c :: b) (Some x) d e k = false).
  { intros. simpl. rewrite D1, D2, D3. unfold is_pm in Hc. rewrite Hc, Hx. apply scan_false. }
  revert p d e k. induction a as [|y a IH]; intros p d e k.
  - cbn [app]. remember (c :: b) as cb. simpl.
    repeat match goal with |- context [if ?b then _ else _] => destruct b end; auto.
    destruct p; auto. destruct (is_e a); auto.
  - cbn [app]. simpl.
    repeat match goal with |- context [if ?b then _ else _] => destruct b end; auto.
    destruct p; auto. destruct (is_e a0); auto.
Qed.

Lemma isScalar_sign a x c b :
  is_pm c = true -> is_e x = false -> isScalar (a ++ x :: c :: b) = false.
Proof. apply scan_sign. Qed.

(** Removing a first sign keeps numberhood. *)
Lemma scan_prev_none s : forall p d e k,
  isScalar_scan s (Some p) d e k = true -> isScalar_scan s None d e k = true.
Proof.
  destruct s as [|c s]; intros p d e k H; auto.
  simpl in *.
  repeat match goal with |- context [if ?b then _ else _] => destruct b end; auto.
  destruct (is_e p); auto. rewrite scan_false in H. discriminate.
Qed.

Lemma isScalar_tail_sign c s :
  is_pm c = true -> isScalar (c :: s) = true -> isScalar s = true.
Proof.
  intros Hc H. unfold isScalar in *. simpl in H.
  unfold is_pm in Hc. apply orb_true_iff in Hc.
  assert (D : is_digit c = false /\ aeq c "."%char = false /\ is_e c = false).
  { destruct Hc as [E|E]; apply aeq_true in E; subst c; repeat split; reflexivity. }
  destruct D as (D1 & D2 & D3). rewrite D1, D2, D3 in H.
  assert (Hc' : aeq c "+"%char || aeq c "-"%char = true) by (apply orb_true_iff; auto).
  rewrite Hc' in H. eapply scan_prev_none; eauto.
Qed.

(** ** Prefixes, last characters *)
Lemma drop_prefix_spec p : forall s r, drop_prefix p s = Some r <-> s = p ++ r.
Proof.
  induction p as [|x p IH]; intros s r; simpl.
  - split; intro H; congruence.
  - destruct s as [|y s].
    + split; intro H; discriminate.
    + destruct (aeq x y) eqn:E.
      * apply aeq_true in E; subst. rewrite IH. split; intro H; congruence.
      * apply aeq_false in E. split; intro H; congruence.
Qed.

Lemma starts_with_spec p : forall s, starts_with p s = true <-> exists r, s = p ++ r.
Proof.
  induction p as [|x p IH]; intros s; simpl.
  - split; eauto.
  - destruct s as [|y s].
    + split; [discriminate | intros [r H]; discriminate].
    + rewrite andb_true_iff, aeq_true, IH. split.
      * intros [-> [r ->]]. eauto.
      * intros [r H]. inversion H; subst. eauto.
Qed.

Lemma last_is_app c s x : last_is c (s ++ [x]) = aeq x c.
Proof.
  induction s as [|y s IH]; auto. simpl. rewrite IH.
  destruct (s ++ [x]) eqn:E; auto. apply app_eq_nil in E as [_ E]. discriminate.
Qed.

Lemma last_is_true c s : last_is c s = true -> exists a, s = a ++ [c].
Proof.
  intro H. destruct s as [|x s] using rev_ind; [discriminate|].
  rewrite last_is_app in H. apply aeq_true in H. subst. eauto.
Qed.

Lemma has_false c s : has c s = false <-> ~ In c s.
Proof.
  unfold has. split.
  - intros H Hin. assert (existsb (aeq c) s = true) as K.
    { apply existsb_exists. exists c. split; auto. apply aeq_refl. }
    congruence.
  - intros H. destruct (existsb (aeq c) s) eqn:E; auto.
    apply existsb_exists in E as (x & Hx & Ex). apply aeq_true in Ex. subst. contradiction.
Qed.

Lemma op_argument_spec op s u :
  op_argument op s = Some u <-> s = op ++ ["("%char] ++ u ++ [")"%char] /\ ~ In ")"%char u.
Proof.
  unfold op_argument. destruct (drop_prefix op s) as [r|] eqn:E.
  - apply drop_prefix_spec in E. subst s. destruct r as [|c r].
    + split; [discriminate|]. intros [H _]. apply app_inv_head in H. discriminate.
    + destruct (aeq c "("%char) eqn:Ec.
      * apply aeq_true in Ec. subst c. simpl.
        destruct (last_is ")"%char r) eqn:L.
        -- apply last_is_true in L as [a ->]. rewrite removelast_last. simpl.
           destruct (has ")"%char a) eqn:Hh; simpl.
           ++ split; [discriminate|]. intros [H1 H2].
              apply app_inv_head in H1. inversion H1 as [H3]. apply app_inj_tail in H3 as [-> _].
              apply has_false in H2. congruence.
           ++ apply has_false in Hh. split.
              ** intro H. inversion H; subst. auto.
              ** intros [H1 H2]. apply app_inv_head in H1. inversion H1 as [H3].
                 apply app_inj_tail in H3 as [-> _]. reflexivity.
        -- split; [discriminate|]. intros [H1 _]. apply app_inv_head in H1. inversion H1; subst.
           rewrite last_is_app in L. discriminate.
      * simpl. split; [discriminate|]. intros [H _]. apply app_inv_head in H. inversion H; subst.
        discriminate.
  - split; [discriminate|]. intros [H _].
    assert (drop_prefix op s = Some (["("%char] ++ u ++ [")"%char])) as K by (apply drop_prefix_spec; auto).
    congruence.
Qed.

Lemma find_op_some ops s f u :
  find_op ops s = Some (f, u) -> In f ops /\ op_argument f s = Some u.
Proof.
  induction ops as [|o ops IH]; simpl; [discriminate|].
  destruct (op_argument o s) eqn:E; intro H.
  - inversion H; subst. auto.
  - destruct (IH H). auto.
Qed.

Lemma find_op_none ops s :
  find_op ops s = None <-> forall f, In f ops -> op_argument f s = None.
Proof.
  induction ops as [|o ops IH]; simpl.
  - split; auto. intros _ f [].
  - destruct (op_argument o s) eqn:E; split; intro H.
    + discriminate.
    + specialize (H o (or_introl eq_refl)). congruence.
    + intros f [<-|Hf]; auto. apply IH; auto.
    + apply IH. intros f Hf. apply H. auto.
Qed.

Lemma break_at_spec c s a b :
  break_at c s = Some (a, b) <-> s = a ++ c :: b /\ ~ In c a.
Proof.
  revert a b. induction s as [|x s IH]; intros a b; simpl.
  - split; [discriminate|]. intros [H _]. destruct a; discriminate.
  - destruct (aeq x c) eqn:E.
    + apply aeq_true in E; subst. split; intro H.
      * inversion H; subst. simpl. auto.
      * destruct H as [H1 H2]. destruct a as [|y a]; simpl in *; inversion H1; subst; auto. tauto.
    + apply aeq_false in E. destruct (break_at c s) as [[a' b']|] eqn:K.
      * split; intro H.
        -- inversion H; subst. destruct (proj1 (IH a' b) eq_refl) as [-> H2]. simpl.
           split; auto. intros [?|?]; [congruence|contradiction].
        -- destruct H as [H1 H2]. destruct a as [|y a]; simpl in *; inversion H1; subst; [congruence|].
           assert (Some (a', b') = Some (a, b)) as Q by (apply IH; split; auto). inversion Q; reflexivity.
      * split; [discriminate|]. intros [H1 H2].
        destruct a as [|y a]; simpl in *; inversion H1; subst; [congruence|].
        assert (None = Some (a, b)) as Q by (apply IH; split; auto). discriminate.
Qed.

Lemma break_last_none c s : ~ In c s -> break_last c s = None.
Proof.
  induction s as [|x s IH]; simpl; auto. intro H.
  rewrite IH by tauto. destruct (aeq x c) eqn:E; auto. apply aeq_true in E. subst. tauto.
Qed.

Lemma break_last_app c a b : ~ In c b -> break_last c (a ++ c :: b) = Some (a, b).
Proof.
  intro H. induction a as [|x a IH]; simpl.
  - rewrite break_last_none by auto. rewrite aeq_refl. reflexivity.
  - rewrite IH. reflexivity.
Qed.
