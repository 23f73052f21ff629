(** Definitions with blanks between their tokens. *)
From Coq Require Import List Ascii String Bool ZArith Arith Lia.
From Verif Require Import Interp_Model Interp_Spec Interp_Lemmas Interp_Proofs Interp_Nest.
Import ListNotations.
Local Open Scope nat_scope.

(** ** Specification: texts of an expression with blanks between tokens *)
Definition blanks (b : str) : Prop := forall c, In c b -> c = " "%char.

(** [spaced e s]: [s] is the minimal-parenthesis text of [e] with any number of
    blanks inserted between tokens (never inside a numeral or a name). *)
Inductive spaced : expr -> str -> Prop :=
| sp_num n b1 b2 : blanks b1 -> blanks b2 -> spaced (Num n) (b1 ++ n ++ b2)
| sp_var n b1 b2 : blanks b1 -> blanks b2 -> spaced (Var n) (b1 ++ n ++ b2)
| sp_par a t b1 b2 : blanks b1 -> blanks b2 -> spaced a t ->
    spaced (Par a) (b1 ++ ("("%char :: t ++ [")"%char]) ++ b2)
| sp_neg a t b1 : blanks b1 -> spaced (par 2 a) t -> spaced (Neg a) (b1 ++ "-"%char :: t)
| sp_bin o a b s1 s2 : spaced (par (blev o) a) s1 -> spaced (par (S (blev o)) b) s2 ->
    spaced (Bin o a b) (s1 ++ bsym o :: s2)
| sp_fn f a t b1 b2 b3 : blanks b1 -> blanks b2 -> blanks b3 -> spaced a t ->
    spaced (Fn f a) (b1 ++ ((f ++ b2) ++ "("%char :: t ++ [")"%char]) ++ b3)
| sp_fn2 f a b t1 t2 b1 b2 b3 : blanks b1 -> blanks b2 -> blanks b3 ->
    spaced a t1 -> spaced b t2 ->
    spaced (Fn2 f a b) (b1 ++ ((f ++ b2) ++ "("%char :: (t1 ++ ","%char :: t2) ++ [")"%char]) ++ b3).

(** All numerals are plain (no sign inside). *)
Fixpoint plain_all (e : expr) : Prop :=
  match e with
  | Num s => plain_num s = true
  | Var _ => True
  | Par a | Neg a | Fn _ a => plain_all a
  | Bin _ a b | Fn2 _ a b => plain_all a /\ plain_all b
  end.

(** ** Stripping *)
Definition strip (s : str) : str := filter (fun c => negb (aeq c " "%char)) s.

Lemma strip_app a b : strip (a ++ b) = strip a ++ strip b.
Proof. apply filter_app. Qed.

Lemma strip_blanks b : blanks b -> strip b = [].
Proof.
  induction b as [|c b IH]; intro H; auto.
  rewrite (H c) by (simpl; auto). simpl. apply IH. intros x Hx. apply H. simpl; auto.
Qed.

Lemma strip_noblank s : ~ In " "%char s -> strip s = s.
Proof.
  induction s as [|c s IH]; intro H; auto. simpl.
  assert (aeq c " "%char = false) by (apply aeq_false; intro; subst; simpl in H; tauto).
  rewrite H0. simpl. rewrite IH; auto. simpl in H; tauto.
Qed.

Lemma noblank_notin s : noblank s -> ~ In " "%char s.
Proof. intros H K. apply H in K as [K _]. discriminate. Qed.

Lemma bal_strip s : bal (strip s) = bal s.
Proof.
  induction s as [|c s IH]; auto. simpl strip. destruct (aeq c " "%char) eqn:Q; cbn [negb].
  - apply aeq_true in Q. subst. cbn [bal]. change (pval " "%char) with 0%Z. lia.
  - cbn [bal]. lia.
Qed.

Lemma free_strip P s : P " "%char = false -> forall d, free d P (strip s) -> free d P s.
Proof.
  intro HP. induction s as [|c s IH]; intros d H; [apply free_nil|].
  simpl strip in H. apply free_cons. destruct (aeq c " "%char) eqn:Q; cbn [negb] in H.
  - apply aeq_true in Q. subst. split; auto. change (pval " "%char) with 0%Z. rewrite Z.add_0_r. auto.
  - apply free_cons in H as [H1 H2]. auto.
Qed.

Lemma count_strip s : forall d n, count_loop (strip s) d n = count_loop s d n.
Proof.
  induction s as [|c s IH]; intros d n; auto.
  simpl strip. destruct (aeq c " "%char) eqn:Q; cbn [negb].
  - apply aeq_true in Q. subst. rewrite IH. destruct n. simpl. destruct (d =? 0)%Z; simpl; auto.
  - cbn [count_loop]. rewrite !IH. reflexivity.
Qed.

Lemma pm_strip s : forall d cur op acc, pm_loop (strip s) d cur op acc = pm_loop s d cur op acc.
Proof.
  induction s as [|c s IH]; intros d cur op acc; auto.
  simpl strip. destruct (aeq c " "%char) eqn:Q; cbn [negb].
  - cbn [pm_loop]. rewrite Q. apply IH.
  - cbn [pm_loop]. rewrite Q, !IH. reflexivity.
Qed.

Lemma mdp_strip s : ~ In "="%char s ->
  forall d cur op acc, mdp_loop (strip s) d cur op acc = mdp_loop s d cur op acc.
Proof.
  induction s as [|c s IH]; intros N d cur op acc; auto.
  assert (N' : ~ In "="%char s) by (intro; apply N; simpl; auto).
  specialize (IH N').
  simpl strip. destruct (aeq c " "%char) eqn:Q; cbn [negb].
  - cbn [mdp_loop]. rewrite Q. apply IH.
  - assert (Nx : forall (A : Type) (f g : str -> A), 
      match strip s with x :: s' => if aeq x "="%char then f s' else g (strip s) | [] => g (strip s) end
      = g (strip s)).
    { intros A f g. destruct (strip s) as [|x s'] eqn:S; auto.
      destruct (aeq x "="%char) eqn:X; auto. apply aeq_true in X. subst. exfalso.
      apply N'. assert (In "="%char (strip s)) by (rewrite S; simpl; auto).
      apply filter_In in H. tauto. }
    assert (Ny : forall (A : Type) (f g : str -> A), 
      match s with x :: s' => if aeq x "="%char then f s' else g s | [] => g s end
      = g s).
    { intros A f g. destruct s as [|x s'] eqn:S; auto.
      destruct (aeq x "="%char) eqn:X; auto. apply aeq_true in X. subst. exfalso.
      apply N'. simpl; auto. }
    cbn [mdp_loop]. rewrite Q.
    destruct (aeq c "("%char); auto. destruct (aeq c ")"%char); auto.
    destruct ((d =? 0)%Z && aeq c "*"%char); auto.
    destruct ((d =? 0)%Z && aeq c "/"%char); auto.
    destruct ((d =? 0)%Z && aeq c "<"%char).
    { rewrite (Nx _ (fun s' => mdp_loop s' d [] (s_ "lte") (acc ++ [(op, cur)]))
                    (fun s' => mdp_loop s' d [] (s_ "lt") (acc ++ [(op, cur)]))).
      rewrite (Ny _ (fun s' => mdp_loop s' d [] (s_ "lte") (acc ++ [(op, cur)]))
                    (fun s' => mdp_loop s' d [] (s_ "lt") (acc ++ [(op, cur)]))). apply IH. }
    destruct ((d =? 0)%Z && aeq c ">"%char).
    { rewrite (Nx _ (fun s' => mdp_loop s' d [] (s_ "gte") (acc ++ [(op, cur)]))
                    (fun s' => mdp_loop s' d [] (s_ "gt") (acc ++ [(op, cur)]))).
      rewrite (Ny _ (fun s' => mdp_loop s' d [] (s_ "gte") (acc ++ [(op, cur)]))
                    (fun s' => mdp_loop s' d [] (s_ "gt") (acc ++ [(op, cur)]))). apply IH. }
    apply IH.
Qed.

Lemma first_strip c s : c <> " "%char -> first_is c s = true -> first_is c (strip s) = true.
Proof.
  destruct s as [|x s]; simpl; auto. intros Hc H. apply aeq_true in H. subst.
  assert (aeq c " "%char = false) as -> by (apply aeq_false; auto). simpl. apply aeq_refl.
Qed.

Section WithEnv.
Variable E : env.

Lemma plain_par l e : plain_all e -> plain_all (par l e).
Proof. unfold par. destruct (lev e <? l); auto. Qed.

Lemma spaced_strip e s : wf E e -> spaced e s -> strip s = pr e.
Proof.
  intros W H. revert W.
  induction H; intro W; rewrite ?strip_app, ?(strip_blanks b1), ?(strip_blanks b2), ?(strip_blanks b3) by auto;
    rewrite ?app_nil_r; cbn [app].
  - apply strip_noblank. apply noblank_notin. apply (pr_noblank E (Num n)); auto.
  - apply strip_noblank. apply noblank_notin. apply (pr_noblank E (Var n)); auto.
  - simpl. rewrite strip_app, IHspaced by auto. reflexivity.
  - simpl. rewrite IHspaced by (apply wf_par; auto). rewrite pr_par. reflexivity.
  - destruct W as [W1 W2]. simpl.
    assert (aeq (bsym o) " "%char = false) as -> by (destruct o; reflexivity). cbn [negb].
    rewrite IHspaced1, IHspaced2 by (apply wf_par; auto). rewrite !pr_par. reflexivity.
  - rewrite ?strip_app, ?(strip_blanks b1), ?(strip_blanks b2) by auto. rewrite ?app_nil_r.
    destruct W as [W1 W2]. rewrite (strip_noblank f).
    + simpl. rewrite strip_app, IHspaced by auto. reflexivity.
    + apply noblank_notin, letters_noblank, known_ops_letters, unary_known; auto.
  - rewrite ?strip_app, ?(strip_blanks b1), ?(strip_blanks b2) by auto. rewrite ?app_nil_r.
    destruct W as (W1 & W2 & W3 & _). rewrite (strip_noblank f).
    + simpl. rewrite !strip_app. simpl. rewrite IHspaced1, IHspaced2 by auto. reflexivity.
    + apply noblank_notin, letters_noblank, known_ops_letters, fn2_known; auto.
Qed.

Lemma spaced_in e s c : wf E e -> spaced e s -> In c s -> c = " "%char \/ In c (pr e).
Proof.
  intros W H Hc. destruct (aeq c " "%char) eqn:Q; [left; apply aeq_true; auto|right].
  rewrite <- (spaced_strip e s W H). apply filter_In. rewrite Q. auto.
Qed.

Lemma spaced_free e s P : wf E e -> spaced e s -> P " "%char = false -> free 0 P (pr e) -> free 0 P s.
Proof. intros W H HP F. apply free_strip; auto. rewrite (spaced_strip e); auto. Qed.

Lemma spaced_nonempty e s : wf E e -> spaced e s -> s <> [].
Proof.
  intros W H K. apply (pr_nonempty E e W). rewrite <- (spaced_strip e s); auto. subst. reflexivity.
Qed.

(** ** Shapes of a split *)
Lemma split_flat s : 2 <= List.length s -> first_is "-"%char s = false ->
  free 0 is_pm s -> free 0 is_mdp s -> free 0 is_pow s -> split s = Ok (wrap_case s).
Proof.
  intros L F F1 F2 F3. destruct s as [|x [|y s]]; simpl in L; try lia.
  rewrite (split_unfold _ x y s) by (apply zpre_id; auto). cbv zeta.
  rewrite (zpre_id _ F). rewrite count_pm_free, count_mdp_free, count_pow_free by auto. reflexivity.
Qed.

Lemma wrap_case_last s c : aeq c ")"%char = false -> wrap_case (s ++ [c]) = [].
Proof.
  intro H. unfold wrap_case. rewrite last_is_app, H, andb_false_r.
  destruct (s ++ [c]) as [|x r] eqn:Q; auto.
  destruct (break_at "("%char (removelast r)) as [[a b]|]; auto.
Qed.

Lemma wrap_case_blank s : wrap_case (" "%char :: s) = []
  \/ exists f t, wrap_case (" "%char :: s) = [(" "%char :: f, t)].
Proof.
  unfold wrap_case. cbn [first_is]. change (aeq " "%char "("%char) with false. cbn [andb].
  destruct (break_at "("%char (removelast s)) as [[a b]|]; auto.
  destruct (last_is ")"%char (" "%char :: s)); eauto.
Qed.

Lemma wrap_case_fn f t : f <> [] -> ~ In "("%char f ->
  wrap_case (f ++ "("%char :: t ++ [")"%char]) = [(f, t)].
Proof.
  intros Hf Nf. destruct f as [|x f]; [contradiction|].
  unfold wrap_case.
  assert (Q : last_is ")"%char ((x :: f) ++ "("%char :: t ++ [")"%char]) = true).
  { rewrite app_comm_cons, app_assoc, last_is_app. reflexivity. }
  rewrite Q. cbn [app first_is].
  assert (aeq x "("%char = false) as ->.
  { apply aeq_false. intro; subst. apply Nf. simpl; auto. }
  cbn [andb].
  assert (R : removelast (f ++ "("%char :: t ++ [")"%char]) = f ++ "("%char :: t).
  { rewrite app_comm_cons, app_assoc, removelast_last. reflexivity. }
  rewrite R.
  assert (B : break_at "("%char (f ++ "("%char :: t) = Some (f, t)).
  { apply break_at_spec. split; auto. intro K. apply Nf. simpl; auto. }
  rewrite B. reflexivity.
Qed.

Lemma wrap_case_par t : wrap_case ("("%char :: t ++ [")"%char]) = [([], t)].
Proof.
  unfold wrap_case. rewrite app_comm_cons, last_is_app. simpl. rewrite removelast_last. reflexivity.
Qed.

Lemma not_op_last s c : aeq c ")"%char = false -> isOperator (s ++ [c]) = None.
Proof.
  intro H. unfold isOperator.
  destruct (find_op known_ops (s ++ [c])) as [[f u]|] eqn:F; auto.
  exfalso. apply find_op_some in F as [Hf F]. apply op_argument_spec in F as [F Hu].
  rewrite app_assoc in F. rewrite app_assoc in F. apply app_inj_tail in F as [_ F].
  subst. discriminate.
Qed.

Lemma not_op_blank f b t : forallb letter f = true -> blanks b -> b <> [] ->
  isOperator ((f ++ b) ++ t) = None.
Proof.
  intros Lf Hb Nb. unfold isOperator.
  destruct (find_op known_ops _) as [[g u]|] eqn:F; auto.
  exfalso. apply find_op_some in F as [Hg F]. apply op_argument_spec in F as [F Hu].
  destruct (known_ops_letters _ Hg) as [Lg _].
  destruct b as [|c b]; [contradiction|]. rewrite (Hb c) in F by (simpl; auto).
  rewrite <- app_assoc in F. cbn [app] in F.
  clear - Lf Lg F. revert g Lg F. induction f as [|x f IH]; intros [|y g] Lg F; simpl in *.
  - discriminate.
  - inversion F; subst. discriminate.
  - inversion F; subst. discriminate.
  - inversion F; subst. apply andb_true_iff in Lf as [_ Lf]. apply andb_true_iff in Lg as [_ Lg]. eauto.
Qed.

(** ** Sums with a leading minus behind blanks *)
Fixpoint sum_parts2 (e : expr) : list part :=
  match e with
  | Neg a => [([], Neg a)]
  | Bin BAdd a b => sum_parts2 a ++ [(s_ "plus", par 2 b)]
  | Bin BSub a b => sum_parts2 a ++ [(s_ "minus", par 2 b)]
  | _ => [([], par 1 e)]
  end.

Lemma pm_spine2 e : wf E e -> forall r, exists init o c,
  pm_loop (wt 1 e ++ r) 0 [] [] [] = pm_loop r 0 c o init
  /\ map ptext (sum_parts2 e) = init ++ [(o, c)] /\ c <> [].
Proof.
  assert (Base : forall e, wf E e -> 
            free 0 is_pm (wt 1 e) -> forall r, exists init o c,
            pm_loop (wt 1 e ++ r) 0 [] [] [] = pm_loop r 0 c o init
            /\ map ptext [([], par 1 e)] = init ++ [(o, c)] /\ c <> []).
  { intros e0 W Fr r. exists [], [], (wt 1 e0). 
    rewrite pm_chunk by (auto; apply (wt_noblank E); auto).
    destruct (wt_nested E 1 e0 W) as [-> _]. simpl. unfold ptext. simpl. rewrite pr_par.
    split; auto. split; auto. apply (wt_nonempty E); auto. }
  assert (Step : forall o a b (W : wf E a) (W2 : wf E b) nm, 
            (bsym o = "+"%char /\ nm = s_ "plus" \/ bsym o = "-"%char /\ nm = s_ "minus") ->
            blev o = 1 ->
            (forall r, exists init o c,
                pm_loop (wt 1 a ++ r) 0 [] [] [] = pm_loop r 0 c o init
                /\ map ptext (sum_parts2 a) = init ++ [(o, c)] /\ c <> []) ->
            forall r, exists init o' c,
                pm_loop (wt 1 (Bin o a b) ++ r) 0 [] [] [] = pm_loop r 0 c o' init
                /\ map ptext (sum_parts2 a ++ [(nm, par 2 b)]) = init ++ [(o', c)] /\ c <> []).
  { intros o a b Wa Wb nm Hn Hl IH r.
    assert (T : wt 1 (Bin o a b) = wt 1 a ++ [bsym o] ++ wt 2 b).
    { unfold wt at 1. simpl lev. rewrite Hl. simpl. rewrite Hl. reflexivity. }
    rewrite T. 
    rewrite <- app_assoc. destruct (IH (([bsym o] ++ wt 2 b) ++ r)) as (init & o' & c & H1 & H2 & H3).
    exists (init ++ [(o', c)]), nm, (wt 2 b). rewrite H1. cbn [app].
    rewrite (pm_sep (bsym o) nm) by auto.
    rewrite pm_chunk.
    - destruct (wt_nested E 2 b Wb) as [-> _]. simpl. split; auto. split.
      + rewrite map_last, H2. unfold ptext at 1. simpl. rewrite pr_par. reflexivity.
      + apply (wt_nonempty E); auto.
    - eapply wt_free_class; [apply class_pm | lia | eauto].
    - apply (wt_noblank E); auto. }
  assert (B2 : forall e, wf E e -> lev e <> 1 -> forall r, exists init o c,
            pm_loop (wt 1 e ++ r) 0 [] [] [] = pm_loop r 0 c o init
            /\ map ptext [([], par 1 e)] = init ++ [(o, c)] /\ c <> []).
  { intros e0 W L. apply Base; auto.
    - apply (wt_free E); auto. intro H. eapply pr_free; [apply class_pm | eauto | lia]. }
  induction e; intro W.
  - apply B2; auto. simpl. destruct (plain_num s); lia.
  - apply B2; simpl; auto.
  - apply B2; simpl; auto.
  - intros r. simpl in W. exists [], [], ("-"%char :: wt 2 e).
    assert (T : wt 1 (Neg e) = "-"%char :: wt 2 e) by reflexivity.
    rewrite T. cbn [app].
    change (pm_loop ("-"%char :: wt 2 e ++ r) 0 [] [] []) with (pm_loop (wt 2 e ++ r) 0 ["-"%char] [] []).
    rewrite pm_chunk.
    + destruct (wt_nested E 2 e W) as [-> _]. simpl. split; auto. split.
      * unfold ptext. simpl. reflexivity.
      * discriminate.
    + eapply wt_free_class; [apply class_pm | lia | eauto].
    + apply (wt_noblank E); auto.
  - simpl in W. destruct W as [W1 W2]. destruct o; simpl sum_parts2;
      try (apply B2; simpl; auto; fail).
    + apply Step; auto.
    + apply Step; auto.
  - apply B2; simpl; auto.
  - apply B2; simpl; auto.
Qed.

Definition summish (e : expr) : Prop :=
  (exists a, e = Neg a) \/ (exists o a b, e = Bin o a b /\ blev o = 1).

Lemma sum_hit e : wf E e -> summish e ->
  0 < c_pm (count_loop (pr e) 0 zero_counts) /\ 2 <= List.length (pr e).
Proof.
  intros W [[a ->]|(o & a & b & -> & H)].
  - split.
    + apply (count_hit [] "-"%char (wt 2 a)); reflexivity.
    + assert (N := wt_nonempty E 2 a W). change (pr (Neg a)) with ("-"%char :: wt 2 a).
      destruct (wt 2 a); [contradiction|]. simpl. lia.
  - destruct W as [W1 W2]. simpl pr. rewrite H. split.
    + apply (count_hit (wt 1 a) (bsym o) (wt 2 b)).
      * apply (wt_nested E); auto.
      * destruct o; try discriminate; reflexivity.
      * destruct o; try discriminate; reflexivity.
      * destruct o; try discriminate; reflexivity.
    + change (2 <= List.length (wt 1 a ++ [bsym o] ++ wt 2 b)). rewrite !app_length.
      assert (N1 := wt_nonempty E 1 a W1). destruct (wt 1 a); [contradiction|]. simpl. lia.
Qed.

Lemma strip_length s : List.length (strip s) <= List.length s.
Proof. induction s as [|c s IH]; auto. simpl. destruct (aeq c " "%char); simpl; lia. Qed.

Lemma split_spaced_sum e s : wf E e -> summish e -> spaced e s ->
  split s = Ok (map ptext (sum_parts e)) \/ split s = Ok (map ptext (sum_parts2 e)).
Proof.
  intros W S H. pose proof (spaced_strip e s W H) as Hs.
  destruct (sum_hit e W S) as [Hc Hl].
  assert (L : lev e = 1) by (destruct S as [[a ->]|(o & a & b & -> & K)]; auto).
  assert (T : wt 1 e = pr e) by (unfold wt; rewrite L; reflexivity).
  assert (Len : 2 <= List.length s) by (pose proof (strip_length s); rewrite Hs in *; lia).
  assert (Z : exists x y r, zpre s = x :: y :: r).
  { unfold zpre. destruct (first_is "-"%char s); [simpl; eauto|].
    destruct s as [|x [|y r]]; simpl in Len; try lia; eauto. }
  destruct Z as (x & y & r & Z). rewrite (split_unfold s x y r Z). cbv zeta.
  destruct (first_is "-"%char s) eqn:F.
  - left. assert (Zs : strip (zpre s) = zpre (pr e)).
    { unfold zpre. rewrite F, strip_app, Hs.
      rewrite <- Hs, (first_strip "-"%char s); auto. discriminate. }
    rewrite <- (count_strip (zpre s)), Zs.
    assert (Hc2 : (0 <? c_pm (count_loop (zpre (pr e)) 0 zero_counts)) = true).
    { apply Nat.ltb_lt. unfold zpre. destruct (first_is _ (pr e)); auto. }
    rewrite Hc2, <- pm_strip, Zs.
    destruct (pm_spine E e W []) as (init & o & c & H1 & H2 & H3).
    rewrite app_nil_r, T in H1. rewrite H1, pm_end by auto. rewrite H2. reflexivity.
  - right. rewrite (zpre_id _ F). rewrite <- (count_strip s), Hs.
    apply Nat.ltb_lt in Hc. rewrite Hc, <- pm_strip, Hs.
    destruct (pm_spine2 e W []) as (init & o & c & H1 & H2 & H3).
    rewrite app_nil_r, T in H1. rewrite H1, pm_end by auto. rewrite H2. reflexivity.
Qed.

Lemma first_spaced e s : wf E e -> 2 <= lev e -> spaced e s -> first_is "-"%char s = false.
Proof.
  intros W L H. apply not_true_is_false. intro K.
  apply (first_strip "-"%char) in K; [|discriminate]. rewrite (spaced_strip e s) in K by auto.
  rewrite (pr_first_minus E) in K; auto. discriminate.
Qed.

Lemma spaced_length e s o a b : wf E e -> e = Bin o a b -> spaced e s -> 2 <= List.length s.
Proof.
  intros W -> H. rewrite <- (strip_length s). rewrite (spaced_strip (Bin o a b) s) by auto.
  destruct W as [W1 W2]. simpl pr. rewrite !app_length. simpl.
  assert (N1 := wt_nonempty E (blev o) a W1). unfold wt in N1.
  destruct (wrap (lev a <? blev o) (pr a)); [contradiction|]. simpl. lia.
Qed.

Lemma split_spaced_prod o a b s : wf E (Bin o a b) -> blev o = 2 -> spaced (Bin o a b) s ->
  split s = Ok (map ptext (prod_parts (Bin o a b))).
Proof.
  intros W L H. pose proof (spaced_strip _ s W H) as Hs.
  pose proof (spaced_length _ s o a b W eq_refl H) as Len.
  assert (F : first_is "-"%char s = false) by (eapply first_spaced; eauto; simpl; lia).
  pose proof (split_prod E o a b W L) as SP.
  assert (N : ~ In "="%char s).
  { intro K. apply (spaced_in _ s _ W H) in K as [K|K]; [discriminate|].
    apply (pr_noblank E (Bin o a b)) in K as [_ K]; auto. discriminate. }
  destruct s as [|x [|y r]] eqn:Q; simpl in Len; try lia. rewrite <- Q in *.
  rewrite (split_unfold s x y r) by (rewrite zpre_id; auto). cbv zeta. rewrite (zpre_id _ F).
  assert (F' : first_is "-"%char (pr (Bin o a b)) = false) by (apply (pr_first_minus E); auto; simpl; lia).
  assert (Len' : exists x y r, zpre (pr (Bin o a b)) = x :: y :: r).
  { rewrite (zpre_id _ F'). destruct W as [W1 W2]. simpl pr. cbn [app]. apply two_chars.
    apply (wt_nonempty E (blev o) a); auto. }
  destruct Len' as (x' & y' & r' & Z'). rewrite (split_unfold _ x' y' r' Z') in SP.
  cbv zeta in SP. rewrite (zpre_id _ F'), <- Hs, count_strip in SP.
  rewrite pm_strip in SP. rewrite (mdp_strip s N) in SP.
  assert (Hp : c_pm (count_loop s 0 zero_counts) = 0).
  { rewrite count_pm_free; auto. eapply spaced_free; eauto.
    eapply pr_free; [apply class_pm | eauto | simpl; lia]. }
  assert (Hc : (0 < c_mdp (count_loop s 0 zero_counts))%nat).
  { rewrite <- count_strip, Hs. simpl pr. rewrite L. destruct W as [W1 W2].
    apply (count_hit (wt 2 a) (bsym o) (wt 3 b)).
    - apply (wt_nested E); auto.
    - destruct o; try discriminate; reflexivity.
    - destruct o; try discriminate; reflexivity.
    - destruct o; try discriminate; reflexivity. }
  rewrite Hp in *. apply Nat.ltb_lt in Hc. rewrite Hc in *. exact SP.
Qed.

(** ** Powers keep the blanks of their operands *)
Definition rel (d : dep) (p : part) : Prop := fst d = fst p /\ spaced (snd p) (snd d).

Lemma pow_spine_spaced e : wf E e -> forall s, spaced (par 3 e) s -> forall r, exists init o c,
  pow_loop (s ++ r) 0 [] [] [] = pow_loop r 0 c o init
  /\ Forall2 rel (init ++ [(o, c)]) (pow_parts e).
Proof.
  assert (B2 : forall e, wf E e -> lev e <> 3 -> forall s, spaced (par 3 e) s -> forall r, exists init o c,
            pow_loop (s ++ r) 0 [] [] [] = pow_loop r 0 c o init
            /\ Forall2 rel (init ++ [(o, c)]) [([], par 3 e)]).
  { intros e0 W L s H r. exists [], [], s.
    assert (W3 : wf E (par 3 e0)) by (apply wf_par; auto).
    rewrite pow_chunk.
    - rewrite <- bal_strip, (spaced_strip _ s W3 H).
      destruct (pr_nested E _ W3) as [-> _]. split; auto.
      constructor; [split; auto|constructor].
    - eapply spaced_free; eauto. rewrite pr_par.
      apply (wt_free E); auto. intro K. eapply pr_free; [apply class_pow | eauto | lia]. }
  induction e; intro W.
  - apply B2; auto. simpl. destruct (plain_num s); lia.
  - apply B2; simpl; auto.
  - apply B2; simpl; auto.
  - apply B2; simpl; auto.
  - destruct o; simpl pow_parts; try (apply B2; simpl; auto; fail).
    intros s H r. change (par 3 (Bin BPow e1 e2)) with (Bin BPow e1 e2) in H.
    simpl in W. destruct W as [W1 W2].
    inversion H as [| | | |o0 a0 b0 s1 s2 Ha Hb| |]; subst.
    rewrite <- app_assoc. cbn [app].
    destruct (IHe1 W1 s1 Ha ("^"%char :: s2 ++ r)) as (init & o' & c & H1 & H2).
    exists (init ++ [(o', c)]), (s_ "power"), s2.
    change (bsym BPow) with "^"%char. rewrite H1.
    change (pow_loop ("^"%char :: s2 ++ r) 0 c o' init) with
        (pow_loop (s2 ++ r) 0 [] (s_ "power") (init ++ [(o', c)])).
    assert (W4 : wf E (par 4 e2)) by (apply wf_par; auto).
    change (S (blev BPow)) with 4 in Hb.
    rewrite pow_chunk.
    + rewrite <- bal_strip, (spaced_strip _ s2 W4 Hb).
      destruct (pr_nested E _ W4) as [-> _]. split; auto.
      apply Forall2_app; auto. constructor; [split; auto|constructor].
    + eapply spaced_free; eauto. rewrite pr_par. eapply wt_free_class; [apply class_pow | | eauto]. lia.
  - apply B2; simpl; auto.
  - apply B2; simpl; auto.
Qed.

Lemma split_spaced_pow a b s : wf E (Bin BPow a b) -> spaced (Bin BPow a b) s ->
  exists d, split s = Ok d /\ Forall2 rel d (pow_parts (Bin BPow a b)).
Proof.
  intros W H. pose proof (spaced_strip _ s W H) as Hs.
  pose proof (spaced_length _ s _ a b W eq_refl H) as Len.
  assert (F : first_is "-"%char s = false) by (eapply first_spaced; eauto; simpl; lia).
  destruct s as [|x [|y r]] eqn:Q; simpl in Len; try lia. rewrite <- Q in *.
  rewrite (split_unfold s x y r) by (rewrite zpre_id; auto). cbv zeta. rewrite (zpre_id _ F).
  assert (Hp : c_pm (count_loop s 0 zero_counts) = 0).
  { rewrite count_pm_free; auto. eapply spaced_free; eauto.
    eapply pr_free; [apply class_pm | eauto | simpl; lia]. }
  assert (Hm : c_mdp (count_loop s 0 zero_counts) = 0).
  { rewrite count_mdp_free; auto. eapply spaced_free; eauto.
    eapply pr_free; [apply class_mdp | eauto | simpl; lia]. }
  rewrite Hp, Hm. simpl Nat.ltb at 1 2. cbv iota.
  assert (Hc : (0 < c_pow (count_loop s 0 zero_counts))%nat).
  { rewrite <- count_strip, Hs. destruct W as [W1 W2].
    apply (count_hit (wt 3 a) "^"%char (wt 4 b)); try reflexivity. apply (wt_nested E); auto. }
  apply Nat.ltb_lt in Hc. rewrite Hc.
  destruct (pow_spine_spaced (Bin BPow a b) W s H []) as (init & o & c & H1 & H2).
  rewrite app_nil_r in H1. rewrite H1. cbn [pow_loop]. exists (init ++ [(o, c)]). split; auto.
Qed.

(** ** Value *)
Section Value.
Context {V : Type} (O : ops V).
Variable num : str -> V.
Variable nv : str -> V.
Variable rho : leaf -> option V.
Variable stale : V.

Hypothesis rho_num : forall s, rho (LNum s) = Some (num s).
Hypothesis num_neg : forall s, plain_num s = true ->
  num ("-"%char :: s) = o_add O (num (s_ "0.0")) (o_neg O (num s)).

Notation D := (den O num nv).
Notation ev := (eval O rho stale).
Notation agr := (agree E nv rho).
Notation trees n := (map_outcome (fun x : str * str => match decomp E n (snd x) with
                        | Ok t => Ok (fst x, t) | Exn => Exn | UB => UB end)).

Lemma fold_spaced n
  (IH : forall e s t, wf E e -> plain_all e -> agr e -> spaced e s ->
        decomp E n s = Ok t -> ops_known t -> ev t = Some (D e)) :
  forall ds (l : list part) ts d,
  Forall2 rel ds l ->
  Forall (fun p => wf E (snd p) /\ plain_all (snd p) /\ agr (snd p)) l ->
  trees n ds = Ok ts -> ops_known (Node ts) ->
  fold_left (fun acc x =>
     match acc, ev (snd x) with
     | Some data, Some td => Some (apply_op O (fst x) data td)
     | _, _ => None
     end) ts (Some d) = Some (pfold O num nv l d).
Proof.
  induction ds as [|x ds IHd]; intros l ts d R F M K; inversion R as [|x0 p0 ds0 l0 Rxy R2]; subst; simpl in M.
  - inversion M; subst. reflexivity.
  - destruct (decomp E n (snd x)) as [t| |] eqn:Q; try discriminate.
    match type of M with match ?m with _ => _ end = _ => destruct m as [ts'| |] eqn:Q2; try discriminate end.
    inversion M; subst. destruct Rxy as [Rx Rs]. inversion F as [|? ? (W & P & A) F2]; subst.
    apply ops_known_node in K. inversion K as [|? ? [K1 K2] K3]; subst. simpl in K2.
    cbn [fold_left fst snd]. rewrite (IH (snd p0) (snd x) t); auto.
    rewrite (IHd l0 ts'); auto.
    + rewrite Rx. reflexivity.
    + apply ops_known_node; auto.
Qed.

Lemma bare_blank s : In " "%char s -> may_be_bare s = false.
Proof.
  intro H. apply not_true_is_false. intro B. unfold may_be_bare in B.
  apply existsb_exists in B as (z & Hz & Ez). apply seq_str_true in Ez. subst z. simpl in Hz.
  repeat (destruct Hz as [<-|Hz]; [simpl in H; intuition discriminate|]). destruct Hz.
Qed.

Lemma classify_blank s : env_ok E -> In " "%char s -> classify E s = None.
Proof.
  intros HE H. destruct (classify E s) eqn:Q; auto. exfalso.
  apply classify_atomlike in Q; auto. destruct Q as [Q|(Q & _)].
  - apply (isScalar_numchar _ _ Q) in H. discriminate.
  - apply Q in H. discriminate.
Qed.

Lemma op_blank_unknown f : In " "%char f -> ~ In f eval_ops.
Proof. intros H K. apply eval_ops_letters in K. apply (letters_in _ _ K) in H. discriminate. Qed.

Lemma blank_step n s t : env_ok E -> In " "%char s -> isOperator s = None ->
  decomp E (S n) s = Ok t ->
  exists d ts, split s = Ok d /\ d <> [] /\ trees n d = Ok ts /\ t = Node ts.
Proof.
  intros HE B OP H. cbn [decomp] in H. unfold decomp_step in H.
  rewrite classify_blank, OP in H by auto.
  destruct (split s) as [d| |] eqn:S; try discriminate.
  destruct d as [|x d].
  - rewrite bare_blank in H by auto. discriminate.
  - match type of H with match ?m with _ => _ end = _ => destruct m as [ts| |] eqn:M; try discriminate end.
    inversion H; subst. exists (x :: d), ts. repeat split; auto. discriminate.
Qed.

Lemma trees_ops n d ts : trees n d = Ok ts -> map fst ts = map fst d.
Proof.
  revert ts. induction d as [|x d IH]; intros ts H; simpl in H.
  - inversion H; subst. reflexivity.
  - destruct (decomp E n (snd x)); try discriminate.
    match type of H with match ?m with _ => _ end = _ => destruct m as [ts'| |] eqn:Q2; try discriminate end.
    inversion H; subst. simpl. rewrite (IH ts'); auto.
Qed.

Lemma blanks_rev b : blanks b -> b <> [] -> exists b', b = b' ++ [" "%char].
Proof.
  intros H N. destruct b as [|c b _] using rev_ind; [contradiction|].
  exists b. rewrite (H c); auto. apply in_or_app. simpl; auto.
Qed.

(** A text of level 4 with blanks around it. *)
Lemma outer_blank n e b1 core b2 t : env_ok E -> wf E e -> lev e = 4 ->
  spaced e (b1 ++ core ++ b2) -> blanks b1 -> blanks b2 -> b1 <> [] \/ b2 <> [] ->
  2 <= List.length (b1 ++ core ++ b2) ->
  decomp E (S n) (b1 ++ core ++ b2) = Ok t -> ops_known t -> False.
Proof.
  intros HE W L SPC B1 B2 NB Len H K. set (s := b1 ++ core ++ b2) in *.
  assert (Bl : In " "%char s).
  { unfold s. rewrite !in_app_iff. destruct NB as [N|N].
    - left. destruct b1; [contradiction|]. rewrite (B1 a) by (simpl; auto). simpl; auto.
    - right. right. destruct b2; [contradiction|]. rewrite (B2 a) by (simpl; auto). simpl; auto. }
  assert (SF : split s = Ok (wrap_case s)).
  { apply split_flat; auto.
    - eapply first_spaced; eauto. lia.
    - eapply spaced_free; eauto. eapply pr_free; [apply class_pm | eauto | lia].
    - eapply spaced_free; eauto. eapply pr_free; [apply class_mdp | eauto | lia].
    - eapply spaced_free; eauto. eapply pr_free; [apply class_pow | eauto | lia]. }
  destruct b2 as [|c2 b2'].
  - destruct b1 as [|c b1]; [destruct NB; contradiction|].
    assert (c = " "%char) by (apply B1; simpl; auto). subst c.
    assert (OP : isOperator s = None) by (apply not_op_first; reflexivity).
    destruct (blank_step n s t HE Bl OP H) as (d & ts & Sd & Nd & M & ->).
    rewrite SF in Sd. inversion Sd; subst d.
    destruct (wrap_case_blank (b1 ++ core ++ [])) as [Q|(f & u & Q)];
      change (" "%char :: b1 ++ core ++ []) with s in Q; rewrite Q in *.
    + contradiction.
    + apply trees_ops in M. apply ops_known_node in K. destruct ts as [|y ts]; [discriminate|].
      simpl in M. inversion M. inversion K as [|? ? [K1 _] _]; subst.
      apply (op_blank_unknown (fst y)); auto. rewrite H1. simpl; auto.
  - destruct (blanks_rev (c2 :: b2')) as [b' Hb']; auto; [discriminate|].
    assert (Es : s = (b1 ++ core ++ b') ++ [" "%char]).
    { unfold s. rewrite Hb', !app_assoc. reflexivity. }
    assert (OP : isOperator s = None) by (rewrite Es; apply not_op_last; reflexivity).
    destruct (blank_step n s t HE Bl OP H) as (d & ts & Sd & Nd & M & ->).
    rewrite SF in Sd. inversion Sd; subst d. apply Nd. rewrite Es. apply wrap_case_last. reflexivity.
Qed.

Lemma noblank_spaced e s : wf E e -> spaced e s -> ~ In " "%char s -> s = pr e.
Proof. intros W H N. rewrite <- (spaced_strip e s W H). symmetry. apply strip_noblank; auto. Qed.

Lemma parts2_den e d : pfold O num nv (sum_parts2 e) d = D e.
Proof.
  revert d. induction e; intro d0; try (unfold pfold; simpl sum_parts2; simpl fold_left; rewrite ?den_par; reflexivity).
  destruct o; try (unfold pfold; simpl sum_parts2; cbn [fold_left fst snd]; rewrite ?den_par; reflexivity);
   simpl sum_parts2; rewrite pfold_app, IHe1; unfold pfold; cbn [fold_left fst snd]; rewrite den_par; reflexivity.
Qed.

Lemma parts2_wf e : wf E e -> Forall (fun p => wf E (snd p)) (sum_parts2 e).
Proof.
  induction e; intro W; simpl sum_parts2; try (constructor; [apply (wf_par E 1); auto|constructor]).
  - constructor; auto.
  - destruct o; try (constructor; [apply (wf_par E 1); auto|constructor]);
    destruct W as [W1 W2]; apply Forall_app; (split; [auto|constructor; [apply wf_par; auto|constructor]]).
Qed.

Lemma parts2_vars e p : In p (sum_parts2 e) -> forall s, In s (vars (snd p)) -> In s (vars e).
Proof.
  induction e; simpl sum_parts2; intros H s' Hs;
    try (destruct H as [<-|[]]; cbn [snd] in Hs; try rewrite vars_par in Hs; exact Hs).
  destruct o; try (destruct H as [<-|[]]; cbn [snd] in Hs; try rewrite vars_par in Hs; exact Hs);
    (apply in_app_or in H as [H|[<-|[]]]; simpl vars; apply in_or_app;
     [left; eapply IHe1; eauto | right; cbn [snd] in Hs; rewrite vars_par in Hs; auto]).
Qed.

Lemma pow_parts_plain e : plain_all e -> Forall (fun p => plain_all (snd p)) (pow_parts e).
Proof.
  induction e; intro W; simpl pow_parts; try (constructor; [apply (plain_par 3); auto|constructor]).
  - destruct o; try (constructor; [apply (plain_par 3); auto|constructor]);
    destruct W as [W1 W2]; apply Forall_app; (split; [auto|constructor; [apply plain_par; auto|constructor]]).
Qed.

Theorem spaced_value n : forall e s t, env_ok E -> wf E e -> plain_all e -> agr e -> spaced e s ->
  decomp E n s = Ok t -> ops_known t -> ev t = Some (D e).
Proof.
  induction n as [|n IH]; intros e s t HE W P A SPC H K; [discriminate|].
  destruct (in_dec ascii_dec " "%char s) as [Bl|NB].
  2:{ rewrite (noblank_spaced e s W SPC NB) in H. eapply (decomp_value E O num nv rho stale); eauto. }
  assert (IH' : forall e s t, wf E e -> plain_all e -> agr e -> spaced e s ->
        decomp E n s = Ok t -> ops_known t -> ev t = Some (D e)) by (intros; eapply IH; eauto).
  assert (DV : forall e t, wf E e -> agr e -> decomp E n (pr e) = Ok t -> ev t = Some (D e)).
  { intros. eapply (decomp_value E O num nv rho stale); eauto. }
  (* operands taken over with their blanks *)
  assert (Fin : forall d l ts, Forall2 rel d l ->
      Forall (fun p => wf E (snd p) /\ plain_all (snd p) /\ agr (snd p)) l ->
      trees n d = Ok ts -> ops_known (Node ts) -> (forall x, pfold O num nv l x = D e) ->
      ev (Node ts) = Some (D e)).
  { intros d l ts R F M K' PF. cbn [eval].
    rewrite (fold_spaced n IH' d l ts stale R F M K'). rewrite PF. reflexivity. }
  (* operands taken over without blanks *)
  assert (Fin2 : forall l ts, Forall (fun p => wf E (snd p)) l -> (forall p, In p l -> agr (snd p)) ->
      trees n (map ptext l) = Ok ts -> (forall x, pfold O num nv l x = D e) ->
      ev (Node ts) = Some (D e)).
  { intros l ts F Ag M PF. cbn [eval].
    rewrite (fold_trees E O num nv rho stale n DV l ts stale F Ag M). rewrite PF. reflexivity. }
  assert (Sum : summish e -> isOperator s = None -> compound e -> ev t = Some (D e)).
  { intros S OP C. destruct (blank_step n s t HE Bl OP H) as (d & ts & Sd & Nd & M & ->).
    destruct (split_spaced_sum e s W S SPC) as [Q|Q]; rewrite Q in Sd; inversion Sd; subst d.
    - assert (Pe : sum_parts e = parts e).
      { destruct S as [[a ->]|(o & a & b & -> & Hl)]; auto. destruct o; try discriminate; auto. }
      rewrite Pe in *. apply (Fin2 (parts e)); auto.
      + apply parts_wf; auto.
      + intros p Hp v l Hv Hl. eapply A; eauto. eapply parts_vars; eauto.
      + intro x. eapply parts_den; eauto.
    - apply (Fin2 (sum_parts2 e)); auto.
      + apply parts2_wf; auto.
      + intros p Hp v l Hv Hl. eapply A; eauto. eapply parts2_vars; eauto.
      + intro x. apply parts2_den. }
  destruct SPC as [m b1 b2 B1 B2|m b1 b2 B1 B2|a u b1 b2 B1 B2 Sa|a u b1 B1 Sa
                  |o a b s1 s2 S1 S2|f a u b1 b2 b3 B1 B2 B3 Sa|f a b u1 u2 b1 b2 b3 B1 B2 B3 S1 S2].
  - (* numeral *) exfalso.
    assert (Nn : ~ In " "%char m) by (intro Q; destruct W as [W _]; apply (isScalar_numchar _ _ W) in Q; discriminate).
    assert (NB : b1 <> [] \/ b2 <> []).
    { destruct b1; [|left; discriminate]. destruct b2; [|right; discriminate].
      simpl in Bl. rewrite app_nil_r in Bl. contradiction. }
    assert (Nm : m <> []) by (apply (pr_nonempty E (Num m)); auto).
    eapply (outer_blank n (Num m) b1 m b2); eauto.
    + simpl in P |- *. rewrite P. reflexivity.
    + constructor; auto.
    + rewrite !app_length. destruct m; [contradiction|]. destruct NB as [N|N]; [destruct b1|destruct b2]; try contradiction; simpl; lia.
  - (* name *) exfalso.
    assert (Nn : ~ In " "%char m).
    { intro Q. destruct W as [(_ & W & _) _]. apply W in Q. discriminate. }
    assert (NB : b1 <> [] \/ b2 <> []).
    { destruct b1; [|left; discriminate]. destruct b2; [|right; discriminate].
      simpl in Bl. rewrite app_nil_r in Bl. contradiction. }
    assert (Nm : m <> []) by (apply (pr_nonempty E (Var m)); auto).
    eapply (outer_blank n (Var m) b1 m b2); eauto.
    + constructor; auto.
    + rewrite !app_length. destruct m; [contradiction|]. destruct NB as [N|N]; [destruct b1|destruct b2]; try contradiction; simpl; lia.
  - (* parentheses *)
    assert (D0 : (b1 <> [] \/ b2 <> []) \/ (b1 = [] /\ b2 = [])).
    { destruct b1; [|left; left; discriminate]. destruct b2; [|left; right; discriminate]. auto. }
    destruct D0 as [NB|[-> ->]].
    + exfalso. eapply (outer_blank n (Par a) b1 _ b2); eauto.
      * constructor; auto.
      * rewrite !app_length. simpl. rewrite app_length. simpl. lia.
    + cbn [app] in *. rewrite app_nil_r in *.
      assert (OP : isOperator ("("%char :: u ++ [")"%char]) = None) by (apply not_op_first; reflexivity).
      destruct (blank_step n _ t HE Bl OP H) as (d & ts & Sd & Nd & M & ->).
      assert (SPC : spaced (Par a) ("("%char :: u ++ [")"%char])).
      { pose proof (sp_par a u [] [] B1 B2 Sa) as Q. cbn [app] in Q. rewrite app_nil_r in Q. exact Q. }
      rewrite split_flat in Sd.
      * inversion Sd; subst d. rewrite wrap_case_par in M.
        apply (Fin [([], u)] [([], a)]); auto.
        constructor; [split; auto|constructor].
      * simpl. rewrite app_length. simpl. lia.
      * reflexivity.
      * eapply spaced_free; eauto. eapply pr_free; [apply class_pm | eauto | simpl; lia].
      * eapply spaced_free; eauto. eapply pr_free; [apply class_mdp | eauto | simpl; lia].
      * eapply spaced_free; eauto. eapply pr_free; [apply class_pow | eauto | simpl; lia].
  - (* leading minus *)
    apply Sum; [left; eauto | | exact I].
    destruct b1 as [|c b1]; [apply not_op_first; reflexivity|].
    rewrite (B1 c) by (simpl; auto). apply not_op_first; reflexivity.
  - (* binary operation *)
    assert (SPC : spaced (Bin o a b) (s1 ++ bsym o :: s2)) by (constructor; auto).
    assert (W' := W). destruct W' as [W1 W2].
    assert (OP : isOperator (s1 ++ bsym o :: s2) = None).
    { apply not_op_bin; try apply bsym_facts.
      - rewrite <- bal_strip, (spaced_strip (par (blev o) a)) by (auto; apply wf_par; auto).
        apply (pr_nested E). apply wf_par; auto.
      - eapply spaced_nonempty; [|eauto]. apply wf_par; auto. }
    assert (Prod : blev o = 2 -> parts (Bin o a b) = prod_parts (Bin o a b) -> ev t = Some (D (Bin o a b))).
    { intros L PP. destruct (blank_step n _ t HE Bl OP H) as (d & ts & Sd & Nd & M & ->).
      rewrite (split_spaced_prod o a b) in Sd by auto. rewrite <- PP in Sd.
      assert (d = map ptext (parts (Bin o a b))) by congruence. subst d.
      apply (Fin2 (parts (Bin o a b))); auto.
      + apply parts_wf; auto.
      + intros p Hp v l Hv Hl. eapply A; eauto. eapply parts_vars; eauto.
      + intro x. eapply parts_den; eauto. exact I. }
    destruct o.
    + apply Sum; auto; [|exact I]. right. exists BAdd, a, b. auto.
    + apply Sum; auto; [|exact I]. right. exists BSub, a, b. auto.
    + apply Prod; reflexivity.
    + apply Prod; reflexivity.
    + apply Prod; reflexivity.
    + apply Prod; reflexivity.
    + destruct (blank_step n _ t HE Bl OP H) as (d & ts & Sd & Nd & M & ->).
      destruct (split_spaced_pow a b _ W SPC) as (d' & Sd' & R). rewrite Sd in Sd'. inversion Sd'; subst d'.
      apply (Fin d (parts (Bin BPow a b))); auto.
      * pose proof (parts_wf E _ W) as F1. pose proof (pow_parts_plain _ P) as F2.
        change (parts (Bin BPow a b)) with (pow_parts (Bin BPow a b)) in *.
        rewrite Forall_forall in F1, F2 |- *. intros p Hp. repeat split; auto.
        intros v l Hv Hl. eapply A; eauto. eapply (parts_vars (Bin BPow a b)); eauto.
      * intro x. eapply parts_den; eauto. exact I.
  - (* function *)
    assert (Hf : In f known_ops) by (apply unary_known, W).
    destruct (known_ops_letters _ Hf) as [Lf Nf].
    assert (D0 : (b1 <> [] \/ b3 <> []) \/ (b1 = [] /\ b3 = [])).
    { destruct b1; [|left; left; discriminate]. destruct b3; [|left; right; discriminate]. auto. }
    destruct D0 as [NB|[-> ->]].
    + exfalso. eapply (outer_blank n (Fn f a) b1 _ b3); eauto.
      * constructor; auto.
      * rewrite !app_length. simpl. rewrite app_length. simpl. lia.
    + cbn [app] in *. rewrite app_nil_r in *.
      assert (SPC : spaced (Fn f a) ((f ++ b2) ++ "("%char :: u ++ [")"%char])).
      { pose proof (sp_fn f a u [] b2 [] B1 B2 B3 Sa) as Q. cbn [app] in Q. rewrite app_nil_r in Q. exact Q. }
      assert (SF : split ((f ++ b2) ++ "("%char :: u ++ [")"%char]) = Ok [(f ++ b2, u)]).
      { rewrite split_flat.
        - rewrite wrap_case_fn; auto.
          + destruct f; [contradiction|discriminate].
          + intro Q. apply in_app_or in Q as [Q|Q].
            * apply (letters_in _ _ Lf) in Q. discriminate.
            * apply B2 in Q. discriminate.
        - rewrite !app_length. simpl. rewrite !app_length. simpl. lia.
        - eapply first_spaced; eauto. simpl; lia.
        - eapply spaced_free; eauto. eapply pr_free; [apply class_pm | eauto | simpl; lia].
        - eapply spaced_free; eauto. eapply pr_free; [apply class_mdp | eauto | simpl; lia].
        - eapply spaced_free; eauto. eapply pr_free; [apply class_pow | eauto | simpl; lia]. }
      destruct b2 as [|c b2].
      * rewrite app_nil_r in *.
        assert (OPd : isOperator (f ++ "("%char :: u ++ [")"%char]) = None
                   \/ isOperator (f ++ "("%char :: u ++ [")"%char]) = Some (Ok [(f, u)])).
        { unfold isOperator.
          destruct (find_op known_ops _) as [[g v]|] eqn:F; auto. right.
          apply find_op_some in F as [Hg F]. apply op_argument_spec in F as [F Hu].
          destruct (known_ops_letters _ Hg) as [Lg _].
          apply op_split_unique in F as [<- F]; auto. apply app_inj_tail in F as [F _]. subst v.
          destruct W as [_ W]. rewrite op_deps_one; auto.
          - eapply spaced_nonempty; eauto.
          - intro Q. apply (spaced_in a u) in Q as [Q|Q]; auto; [discriminate|].
            revert Q. apply (pr_nocomma E); auto. intro Q. apply Hu.
            rewrite <- (spaced_strip a u) in Q by auto. apply filter_In in Q. tauto. }
        assert (Fin3 : forall ts, trees n [(f, u)] = Ok ts -> t = Node ts -> ev t = Some (D (Fn f a))).
        { intros ts M ->. apply (Fin [(f, u)] [(f, a)] ts); auto.
          - constructor; [split; auto|constructor].
          - constructor; [|constructor]. destruct W. repeat split; auto.
          - intro x. apply (parts_den E O num nv (Fn f a)); auto. exact I. }
        destruct OPd as [OP|OP].
        -- destruct (blank_step n _ t HE Bl OP H) as (d & ts & Sd & Nd & M & ->).
           rewrite SF in Sd. inversion Sd; subst d. eapply Fin3; eauto.
        -- cbn [decomp] in H. unfold decomp_step in H. rewrite classify_blank, OP in H by auto.
           match type of H with match ?m with _ => _ end = _ => destruct m as [ts| |] eqn:M; try discriminate end.
           assert (Q : t = Node ts) by congruence. clear H. rewrite <- M in Fin3. apply (Fin3 ts); auto.
      * exfalso. assert (OP : isOperator ((f ++ c :: b2) ++ "("%char :: u ++ [")"%char]) = None).
        { apply not_op_blank; auto. discriminate. }
        destruct (blank_step n _ t HE Bl OP H) as (d & ts & Sd & Nd & M & ->).
        rewrite SF in Sd. inversion Sd; subst d. apply trees_ops in M. apply ops_known_node in K.
        destruct ts as [|y ts]; [discriminate|]. simpl in M. inversion M.
        inversion K as [|? ? [K1 _] _]; subst. apply (op_blank_unknown (fst y)); auto.
        rewrite H1. apply in_or_app. right. simpl. left. apply B2. simpl; auto.
  - (* two-argument function *)
    assert (Hf : In f known_ops) by (apply fn2_known, W).
    destruct (known_ops_letters _ Hf) as [Lf Nf].
    assert (D0 : (b1 <> [] \/ b3 <> []) \/ (b1 = [] /\ b3 = [])).
    { destruct b1; [|left; left; discriminate]. destruct b3; [|left; right; discriminate]. auto. }
    destruct D0 as [NB|[-> ->]].
    + exfalso. eapply (outer_blank n (Fn2 f a b) b1 _ b3); eauto.
      * constructor; auto.
      * rewrite !app_length. simpl. rewrite app_length. simpl. lia.
    + cbn [app] in *. rewrite app_nil_r in *.
      assert (SPC : spaced (Fn2 f a b) ((f ++ b2) ++ "("%char :: (u1 ++ ","%char :: u2) ++ [")"%char])).
      { pose proof (sp_fn2 f a b u1 u2 [] b2 [] B1 B2 B3 S1 S2) as Q. cbn [app] in Q. rewrite app_nil_r in Q. exact Q. }
      destruct b2 as [|c b2].
      * rewrite app_nil_r in *.
        destruct W as (Wf & W1 & W2 & N1 & N2).
        assert (NP : forall e s, wf E e -> spaced e s -> ~ In ")"%char (pr e) -> ~ In ")"%char s).
        { intros e' s' We Se Ne Q. apply (spaced_in e' s') in Q as [Q|Q]; auto. discriminate. }
        assert (OP : isOperator (f ++ "("%char :: (u1 ++ ","%char :: u2) ++ [")"%char])
                     = Some (Ok [([], u1); (f, u2)])).
        { unfold isOperator.
          destruct (find_op known_ops _) as [[g v]|] eqn:F.
          - apply find_op_some in F as [Hg F]. apply op_argument_spec in F as [F Hu].
            destruct (known_ops_letters _ Hg) as [Lg _].
            apply op_split_unique in F as [<- F]; auto. apply app_inj_tail in F as [F _]. subst v.
            rewrite op_deps_two; auto.
            + eapply spaced_nonempty; eauto.
            + intro Q. apply (spaced_in b u2) in Q as [Q|Q]; auto; [discriminate|].
              revert Q. apply (pr_nocomma E); auto.
          - exfalso. apply (proj1 (find_op_none _ _)) with (f := f) in F; auto.
            assert (op_argument f (f ++ "("%char :: (u1 ++ ","%char :: u2) ++ [")"%char])
                    = Some (u1 ++ ","%char :: u2)) as Q.
            { apply op_argument_spec. split; [reflexivity|]. intro Q. apply in_app_or in Q as [Q|Q].
              - revert Q. apply (NP a); auto.
              - destruct Q as [Q|Q]; [discriminate|]. revert Q. apply (NP b); auto. }
            congruence. }
        cbn [decomp] in H. unfold decomp_step in H. rewrite classify_blank, OP in H by auto.
        match type of H with match ?m with _ => _ end = _ => destruct m as [ts| |] eqn:M; try discriminate end.
        inversion H; subst t.
        apply (Fin [([], u1); (f, u2)] [([], a); (f, b)] ts); auto.
        -- constructor; [split; auto|]. constructor; [split; auto|constructor].
        -- destruct P as [P1 P2]. constructor; [|constructor; [|constructor]].
           ++ repeat split; auto. intros v l Hv Hl. eapply A; eauto. simpl. apply in_or_app; auto.
           ++ repeat split; auto. intros v l Hv Hl. eapply A; eauto. simpl. apply in_or_app; auto.
        -- intro x. apply (parts_den E O num nv (Fn2 f a b)); simpl; auto.
      * exfalso. assert (OP : isOperator ((f ++ c :: b2) ++ "("%char :: (u1 ++ ","%char :: u2) ++ [")"%char]) = None).
        { apply not_op_blank; auto. discriminate. }
        destruct (blank_step n _ t HE Bl OP H) as (d & ts & Sd & Nd & M & ->).
        rewrite split_flat in Sd.
        -- inversion Sd; subst d. rewrite wrap_case_fn in M.
           ++ apply trees_ops in M. apply ops_known_node in K.
              destruct ts as [|y ts]; [discriminate|]. simpl in M. inversion M.
              inversion K as [|? ? [K1 _] _]; subst. apply (op_blank_unknown (fst y)); auto.
              rewrite H1. apply in_or_app. right. simpl. left. apply B2. simpl; auto.
           ++ destruct f; [contradiction|discriminate].
           ++ intro Q. apply in_app_or in Q as [Q|Q].
              ** apply (letters_in _ _ Lf) in Q. discriminate.
              ** apply B2 in Q. discriminate.
        -- rewrite app_length. simpl. rewrite !app_length. simpl. lia.
        -- eapply first_spaced; eauto. simpl; lia.
        -- eapply spaced_free; eauto. eapply pr_free; [apply class_pm | eauto | simpl; lia].
        -- eapply spaced_free; eauto. eapply pr_free; [apply class_mdp | eauto | simpl; lia].
        -- eapply spaced_free; eauto. eapply pr_free; [apply class_pow | eauto | simpl; lia].
Qed.

End Value.
End WithEnv.
