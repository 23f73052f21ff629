(** Accepted definitions are properly nested, provided every operator recorded in
    the decomposition is one the evaluator knows. *)
From Coq Require Import List Ascii String Bool ZArith Arith Lia.
From Verif Require Import Interp_Model Interp_Spec Interp_Lemmas Interp_Proofs.
Import ListNotations.
Local Open Scope nat_scope.

(** Operators with an effect in functionManager_evaluate.hpp (lines 242-551 and
    the corresponding lines of the other tables). *)
Definition eval_ops : list str :=
  List.map s_ [""; "plus"; "minus"; "times"; "divide"; "power"; "lt"; "lte"; "gt"; "gte"]%string
  ++ known_ops.

Fixpoint ops_known (t : tree) : Prop :=
  match t with
  | Leaf _ => True
  | Node d => (fix all (l : list (str * tree)) : Prop :=
                 match l with
                 | [] => True
                 | x :: r => (In (fst x) eval_ops /\ ops_known (snd x)) /\ all r
                 end) d
  end.

Lemma ops_known_node d :
  ops_known (Node d) <-> Forall (fun x => In (fst x) eval_ops /\ ops_known (snd x)) d.
Proof.
  induction d as [|x d IH].
  - simpl. split; intro; [constructor|exact I].
  - change (ops_known (Node (x :: d))) with
      ((In (fst x) eval_ops /\ ops_known (snd x)) /\ ops_known (Node d)).
    rewrite IH. split.
    + intros [H1 H2]. constructor; auto.
    + intro H. inversion H; subst. auto.
Qed.

Lemma eval_ops_letters f : In f eval_ops -> forallb letter f = true.
Proof.
  intro H. unfold eval_ops in H. apply in_app_or in H as [H|H].
  - simpl in H. repeat (destruct H as [<-|H]; [reflexivity|]). destruct H.
  - apply known_ops_letters; auto.
Qed.

Lemma nested_insert a c b : pval c = 0%Z -> nested (a ++ b) <-> nested (a ++ c :: b).
Proof.
  intro Hc. split; intros [H1 H2]; split.
  - rewrite bal_app in *. cbn [bal]. lia.
  - intros u v E. destruct (app_split _ _ _ _ E) as [(w & E1 & E2)|(w & E1 & E2)].
    + apply (H2 u (w ++ b)). rewrite E1, <- app_assoc. reflexivity.
    + destruct w as [|x w].
      * rewrite app_nil_r in E1. subst. apply (H2 a b). reflexivity.
      * simpl in E2. inversion E2; subst.
        specialize (H2 (a ++ w) v). rewrite bal_app in *. cbn [bal].
        rewrite <- app_assoc in H2. specialize (H2 eq_refl). lia.
  - rewrite bal_app in *. cbn [bal] in *. lia.
  - intros u v E. destruct (app_split _ _ _ _ E) as [(w & E1 & E2)|(w & E1 & E2)].
    + apply (H2 u (w ++ c :: b)). rewrite E1, <- app_assoc. reflexivity.
    + specialize (H2 (a ++ c :: w) v). subst. rewrite bal_app in *. cbn [bal] in *.
      rewrite <- app_assoc in H2. specialize (H2 eq_refl). lia.
Qed.

Lemma snoc_app (cur : str) c r : (cur ++ [c]) ++ r = cur ++ c :: r.
Proof. rewrite <- app_assoc. reflexivity. Qed.

Definition all_nested (l : list dep) : Prop := Forall (fun d => nested (snd d)) l.

Lemma pm_nested s : forall d cur op acc res p,
  pm_loop s d cur op acc = (res, p) ->
  exists new, res = acc ++ new /\ (all_nested new -> nested (cur ++ s)).
Proof.
  induction s as [|c s IH]; intros d cur op acc res p H.
  - simpl in H. inversion H; subst. destruct cur as [|x cur]; simpl.
    + exists []. rewrite app_nil_r. split; auto. intros _. apply nested_nil.
    + eexists. split; [reflexivity|]. intro A. inversion A; subst. simpl in *.
      rewrite app_nil_r. auto.
  - cbn [pm_loop] in H.
    destruct (aeq c " "%char) eqn:E1.
    { apply aeq_true in E1; subst. apply IH in H as (new & -> & K). exists new. split; auto.
      intro A. apply nested_insert; auto. }
    destruct (aeq c "="%char) eqn:E2.
    { apply aeq_true in E2; subst. apply IH in H as (new & -> & K). exists new. split; auto.
      intro A. apply nested_insert; auto. }
    destruct (aeq c "("%char) eqn:E3.
    { apply IH in H as (new & -> & K). exists new. split; auto. intro A. rewrite <- snoc_app; auto. }
    destruct (aeq c ")"%char) eqn:E4.
    { apply IH in H as (new & -> & K). exists new. split; auto. intro A. rewrite <- snoc_app; auto. }
    assert (Pv : pval c = 0%Z) by (apply pval_not_paren; auto).
    destruct ((d =? 0)%Z && aeq c "+"%char && nonempty cur).
    { apply IH in H as (new & -> & K). exists ((op, cur) :: new). rewrite <- app_assoc. split; auto.
      intro A. inversion A; subst. apply nested_insert; auto. apply nested_app; auto. }
    destruct ((d =? 0)%Z && aeq c "-"%char && nonempty cur).
    { apply IH in H as (new & -> & K). exists ((op, cur) :: new). rewrite <- app_assoc. split; auto.
      intro A. inversion A; subst. apply nested_insert; auto. apply nested_app; auto. }
    apply IH in H as (new & -> & K). exists new. split; auto. intro A. rewrite <- snoc_app; auto.
Qed.

Lemma pow_nested s : forall d cur op acc res p,
  pow_loop s d cur op acc = (res, p) ->
  exists new, res = acc ++ new /\ (all_nested new -> nested (cur ++ s)).
Proof.
  induction s as [|c s IH]; intros d cur op acc res p H.
  - simpl in H. inversion H; subst.
    eexists. split; [reflexivity|]. intro A. inversion A; subst. simpl in *.
    rewrite app_nil_r. auto.
  - cbn [pow_loop] in H.
    destruct (aeq c "("%char) eqn:E3.
    { apply IH in H as (new & -> & K). exists new. split; auto. intro A. rewrite <- snoc_app; auto. }
    destruct (aeq c ")"%char) eqn:E4.
    { apply IH in H as (new & -> & K). exists new. split; auto. intro A. rewrite <- snoc_app; auto. }
    assert (Pv : pval c = 0%Z) by (apply pval_not_paren; auto).
    destruct ((d =? 0)%Z && aeq c "^"%char).
    { apply IH in H as (new & -> & K). exists ((op, cur) :: new). rewrite <- app_assoc. split; auto.
      intro A. inversion A; subst. apply nested_insert; auto. apply nested_app; auto. }
    apply IH in H as (new & -> & K). exists new. split; auto. intro A. rewrite <- snoc_app; auto.
Qed.

Lemma mdp_nested n : forall s d cur op acc res p, List.length s <= n ->
  mdp_loop s d cur op acc = (res, p) ->
  exists new, res = acc ++ new /\ (all_nested new -> nested (cur ++ s)).
Proof.
  induction n as [|n IH]; intros s d cur op acc res p L H.
  - destruct s; simpl in L; [|lia]. simpl in H. inversion H; subst.
    eexists. split; [reflexivity|]. intro A. inversion A; subst. simpl in *.
    rewrite app_nil_r. auto.
  - destruct s as [|c s].
    { simpl in H. inversion H; subst.
      eexists. split; [reflexivity|]. intro A. inversion A; subst. simpl in *.
      rewrite app_nil_r. auto. }
    simpl in L. assert (L' : List.length s <= n) by lia.
    cbn [mdp_loop] in H.
    destruct (aeq c " "%char) eqn:E1.
    { apply aeq_true in E1; subst. apply IH in H as (new & -> & K); auto. exists new. split; auto.
      intro A. apply nested_insert; auto. }
    destruct (aeq c "("%char) eqn:E3.
    { apply IH in H as (new & -> & K); auto. exists new. split; auto. intro A. rewrite <- snoc_app; auto. }
    destruct (aeq c ")"%char) eqn:E4.
    { apply IH in H as (new & -> & K); auto. exists new. split; auto. intro A. rewrite <- snoc_app; auto. }
    assert (Pv : pval c = 0%Z) by (apply pval_not_paren; auto).
    assert (Sep : forall nm, mdp_loop s d [] nm (acc ++ [(op, cur)]) = (res, p) ->
              exists new, res = acc ++ new /\ (all_nested new -> nested (cur ++ c :: s))).
    { intros nm Q. apply IH in Q as (new & -> & K); auto. exists ((op, cur) :: new).
      rewrite <- app_assoc. split; auto.
      intro A. inversion A; subst. apply nested_insert; auto. apply nested_app; auto. }
    assert (Sep2 : forall nm s', s = "="%char :: s' -> mdp_loop s' d [] nm (acc ++ [(op, cur)]) = (res, p) ->
              exists new, res = acc ++ new /\ (all_nested new -> nested (cur ++ c :: s))).
    { intros nm s' Es Q. subst s. simpl in L'. apply IH in Q as (new & -> & K); [|lia].
      exists ((op, cur) :: new).
      rewrite <- app_assoc. split; auto.
      intro A. inversion A; subst. apply nested_insert; auto. apply nested_insert; auto.
      apply nested_app; auto. }
    destruct ((d =? 0)%Z && aeq c "*"%char); [eapply Sep; eauto|].
    destruct ((d =? 0)%Z && aeq c "/"%char); [eapply Sep; eauto|].
    destruct ((d =? 0)%Z && aeq c "<"%char).
    { destruct s as [|x s']; [eapply Sep; eauto|]. destruct (aeq x "="%char) eqn:Ex.
      - apply aeq_true in Ex; subst. eapply Sep2; eauto.
      - eapply Sep; eauto. }
    destruct ((d =? 0)%Z && aeq c ">"%char).
    { destruct s as [|x s']; [eapply Sep; eauto|]. destruct (aeq x "="%char) eqn:Ex.
      - apply aeq_true in Ex; subst. eapply Sep2; eauto.
      - eapply Sep; eauto. }
    apply IH in H as (new & -> & K); auto. exists new. split; auto. intro A. rewrite <- snoc_app; auto.
Qed.

Definition ops_letters (l : list dep) : Prop := Forall (fun d => forallb letter (fst d) = true) l.

Lemma wrap_case_nested s : ops_letters (wrap_case s) -> all_nested (wrap_case s) ->
  wrap_case s <> [] -> nested s.
Proof.
  unfold wrap_case. destruct (first_is "("%char s && last_is ")"%char s) eqn:E.
  - apply andb_true_iff in E as [E1 E2]. intros _ A _. inversion A; subst. simpl in H1.
    apply last_is_true in E2 as [a ->]. destruct a as [|x a]; simpl in *.
    + discriminate.
    + apply aeq_true in E1. subst. rewrite removelast_last in H1.
      apply (nested_wrap a) in H1. exact H1.
  - destruct s as [|x r]; [intros _ _ K; contradiction|].
    destruct (break_at "("%char (removelast r)) as [[a b]|] eqn:B; [|intros _ _ K; contradiction].
    destruct (last_is ")"%char (x :: r)) eqn:L; [|intros _ _ K; contradiction].
    intros O A _. inversion A; subst. inversion O; subst. cbn [fst snd] in *.
    apply break_at_spec in B as [B _].
    apply last_is_true in L as [q L]. destruct q as [|y q].
    + simpl in L. inversion L; subst. destruct a; discriminate.
    + simpl in L. inversion L; subst. rewrite removelast_last in B. subst q.
      change (y :: (a ++ "("%char :: b) ++ [")"%char]) with ((y :: a ++ "("%char :: b) ++ [")"%char]).
      replace ((y :: a ++ "("%char :: b) ++ [")"%char]) with ((y :: a) ++ wrap true b).
      * apply nested_app; [apply letters_nested; auto | apply nested_wrap; auto].
      * unfold wrap. simpl. rewrite <- app_assoc. reflexivity.
Qed.

Lemma split_nested s d : split s = Ok d -> d <> [] -> ops_letters d -> all_nested d -> nested s.
Proof.
  intros H Hd O A.
  assert (Z : nested (zpre s) -> nested s).
  { unfold zpre. destruct (first_is "-"%char s); auto. intro K.
    apply (nested_insert [] "0"%char) in K; auto. simpl in K.
    apply (nested_insert [] "."%char) in K; auto. simpl in K.
    apply (nested_insert [] "0"%char) in K; auto. }
  apply Z. destruct (zpre s) as [|x [|y r]] eqn:Q.
  - apply nested_nil.
  - unfold split in H. change (if first_is "-"%char s then s_ "0.0" ++ s else s) with (zpre s) in H.
    cbv zeta in H. rewrite Q in H. inversion H; subst. inversion A; subst. auto.
  - rewrite (split_unfold s x y r Q) in H. cbv zeta in H. rewrite <- Q.
    destruct (0 <? c_pm _).
    { destruct (pm_loop (zpre s) 0 [] [] []) as [res p] eqn:L.
      apply pm_nested in L as (new & -> & K). simpl in *.
      apply K. destruct (0 <? p)%Z; [discriminate|]. destruct (p <? 0)%Z; [discriminate|].
      inversion H; subst. auto. }
    destruct (0 <? c_mdp _).
    { destruct (mdp_loop (zpre s) 0 [] [] []) as [res p] eqn:L.
      apply (mdp_nested (List.length (zpre s))) in L as (new & -> & K); auto. simpl in *.
      apply K. destruct (0 <? p)%Z; [discriminate|]. destruct (p <? 0)%Z; [discriminate|].
      inversion H; subst. auto. }
    destruct (0 <? c_pow _).
    { destruct (pow_loop (zpre s) 0 [] [] []) as [res p] eqn:L.
      apply pow_nested in L as (new & -> & K). simpl in *.
      apply K. destruct (0 <? p)%Z; [discriminate|]. destruct (p <? 0)%Z; [discriminate|].
      inversion H; subst. auto. }
    change (0 <? 0)%Z with false in H. cbv iota in H.
    inversion H; subst. apply wrap_case_nested; auto.
Qed.

Lemma isOperator_nested s d : isOperator s = Some (Ok d) -> all_nested d -> nested s.
Proof.
  unfold isOperator. destruct (find_op known_ops s) as [[f u]|] eqn:F; [|discriminate].
  intros H A. apply find_op_some in F as [Hf F]. apply op_argument_spec in F as [-> _].
  destruct (known_ops_letters _ Hf) as [Lf _].
  apply nested_app; [apply letters_nested; auto|]. apply (nested_wrap u).
  unfold op_deps in H. destruct u as [|c u]; [discriminate|].
  destruct (break_last ","%char (removelast (c :: u))) as [[a b]|] eqn:B.
  - inversion H; subst. inversion A; subst. inversion H3; subst. cbn [snd] in *.
    assert (R : c :: u = removelast (c :: u) ++ [last (c :: u) " "%char])
      by (apply app_removelast_last; discriminate).
    rewrite R.
    assert (Br : forall l a b, break_last ","%char l = Some (a, b) -> l = a ++ ","%char :: b).
    { clear. induction l as [|x l IH]; intros a b H; simpl in H; [discriminate|].
      destruct (break_last ","%char l) as [[a' b']|].
      - inversion H; subst. simpl. f_equal. apply IH. reflexivity.
      - destruct (aeq x ","%char) eqn:E; [|discriminate]. apply aeq_true in E.
        inversion H; subst. reflexivity. }
    apply Br in B. rewrite B. rewrite <- app_assoc. cbn [app].
    apply nested_insert; auto. apply nested_app; auto.
  - inversion H; subst. inversion A; subst. auto.
Qed.

Lemma param_match_nested s p : nested p -> param_match s p <> None -> nested s.
Proof.
  intros N H. unfold param_match in H.
  destruct (drop_prefix p s) as [r|] eqn:D; [|contradiction].
  apply drop_prefix_spec in D. subst s. apply nested_app; auto.
  assert (DG : forall c, is_digit c = true -> pval c = 0%Z).
  { intros c Hc. apply pval_not_paren; apply aeq_false; intro; subst; discriminate. }
  destruct r as [|a r]; [apply nested_nil|].
  destruct r as [|d1 r]; [contradiction|]. destruct r as [|d2 r]; [contradiction|].
  destruct r as [|d3 r].
  + destruct (aeq a "("%char) eqn:Ea; [|contradiction]. apply aeq_true in Ea; subst a.
    destruct (aeq d2 ")"%char) eqn:E2; [|contradiction]. apply aeq_true in E2; subst d2.
    simpl in H. destruct (is_digit d1) eqn:E1; [|contradiction].
    apply (nested_wrap [d1]). apply nested_one; auto.
  + destruct r as [|d4 r]; [|contradiction].
    destruct (aeq a "("%char) eqn:Ea; [|contradiction]. apply aeq_true in Ea; subst a.
    destruct (aeq d3 ")"%char) eqn:E2; [|contradiction]. apply aeq_true in E2; subst d3.
    simpl in H. destruct (is_digit d1) eqn:E1; [|contradiction].
    simpl in H. destruct (is_digit d2) eqn:E3; [|contradiction].
    apply (nested_wrap [d1; d2]). apply (nested_app [d1]); apply nested_one; auto.
Qed.

(** Names declared in the environment are properly nested (nothing else is asked). *)
Definition env_nested (E : env) : Prop :=
  forall s, In s (e_soln E) \/ In s (e_scal E) \/ In s (e_par E) \/ In s (e_fun E) -> nested s.

Lemma classify_nested E s x : env_nested E -> classify E s = Some x -> nested s.
Proof.
  intros HE H. unfold classify in H.
  destruct (find_first s (e_soln E) 0) eqn:F1; [apply HE; left; eapply find_first_in; eauto|].
  destruct (find_first s (e_scal E) 0) eqn:F2; [apply HE; right; left; eapply find_first_in; eauto|].
  destruct (find_last (param_match s) (e_par E) 0) eqn:F3.
  { apply find_last_in in F3 as (p0 & Hp & M).
    eapply param_match_nested; eauto. }
  destruct (find_last (fun p => param_match s (p ++ s_ "_t")) (e_par E) 0) eqn:F4.
  { apply find_last_in in F4 as (p0 & Hp & M).
    apply (param_match_nested s (p0 ++ s_ "_t")); auto. apply nested_app; [apply HE; auto|].
    apply nested_noparen; simpl; intros [K|[K|[]]]; discriminate. }
  destruct (find_last _ (e_fun E) 0) as [[j u]|] eqn:F5.
  { apply find_last_in in F5 as (p0 & Hp & M). destruct (seq_str s p0) eqn:Q; [|contradiction].
    apply seq_str_true in Q. subst. apply HE; auto. }
  destruct (isScalar s) eqn:S.
  { apply nested_noparen; intro K; apply (isScalar_numchar _ _ S) in K; discriminate. }
  destruct (find_first s known_vars 0) eqn:F6; [|discriminate].
  apply find_first_in in F6. unfold known_vars in F6. simpl in F6.
  repeat (destruct F6 as [<-|F6]; [apply nested_noparen; simpl; intuition discriminate|]).
  destruct F6.
Qed.

Lemma map_outcome_forall {A B} (f : A -> outcome B) l : forall ys,
  map_outcome f l = Ok ys -> Forall2 (fun x y => f x = Ok y) l ys.
Proof.
  induction l as [|x l IH]; intros ys H; simpl in H.
  - inversion H; subst. constructor.
  - destruct (f x) eqn:Q; try discriminate. destruct (map_outcome f l) eqn:Q2; try discriminate.
    inversion H; subst. constructor; auto.
Qed.

Lemma decomp_nested E n : forall s t, env_nested E ->
  decomp E n s = Ok t -> ops_known t -> nested s \/ may_be_bare s = true.
Proof.
  induction n as [|n IH]; intros s t HE H K; [discriminate|].
  cbn [decomp] in H. unfold decomp_step in H.
  destruct (classify E s) as [[l| |]|] eqn:CL; try discriminate.
  - left. eapply classify_nested; eauto.
  - assert (Sub : forall d ts,
      map_outcome (fun x => match decomp E n (snd x) with
                            | Ok t => Ok (fst x, t) | Exn => Exn | UB => UB end) d = Ok ts ->
      ops_known (Node ts) -> ops_letters d /\ all_nested d).
    { clear H K. intros d ts M Kn. apply map_outcome_forall in M. apply ops_known_node in Kn.
      induction M as [|x y l l' Hxy M IHM].
      - split; constructor.
      - inversion Kn as [|? ? [K1 K2] K3]; subst. destruct (IHM K3) as [I1 I2].
        destruct (decomp E n (snd x)) as [t0| |] eqn:Q; try discriminate.
        inversion Hxy; subst. simpl in *. split; constructor; auto.
        + apply eval_ops_letters; auto.
        + destruct (IH _ _ HE Q K2) as [N|B]; auto.
          unfold may_be_bare in B. apply existsb_exists in B as (z & Hz & Ez).
          apply seq_str_true in Ez. rewrite Ez. simpl in Hz.
          repeat (destruct Hz as [<-|Hz]; [apply nested_noparen; simpl; intuition discriminate|]).
          destruct Hz. }
    destruct (isOperator s) as [[d| |]|] eqn:OP; try discriminate.
    + match type of H with match ?m with _ => _ end = _ => destruct m as [ts| |] eqn:M; try discriminate end.
      inversion H; subst. destruct (Sub _ _ M K) as [_ A]. left. eapply isOperator_nested; eauto.
    + destruct (split s) as [d| |] eqn:SP; try discriminate.
      destruct d as [|x d].
      * destruct (may_be_bare s) eqn:B; auto. discriminate.
      * match type of H with match ?m with _ => _ end = _ => destruct m as [ts| |] eqn:M; try discriminate end.
        inversion H; subst. destruct (Sub _ _ M K) as [A1 A2]. left.
        eapply split_nested; eauto. discriminate.
Qed.

Lemma bare_nested s : may_be_bare s = true -> nested s.
Proof.
  intro B. unfold may_be_bare in B. apply existsb_exists in B as (z & Hz & Ez).
  apply seq_str_true in Ez. rewrite Ez. simpl in Hz.
  repeat (destruct Hz as [<-|Hz]; [apply nested_noparen; simpl; intuition discriminate|]).
  destruct Hz.
Qed.
