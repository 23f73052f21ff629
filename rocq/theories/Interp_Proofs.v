(** Decomposition and evaluation of printed expressions. *)
From Coq Require Import List Ascii String Bool ZArith Arith Lia.
From Verif Require Import Interp_Model Interp_Spec Interp_Lemmas.
Import ListNotations.
Local Open Scope nat_scope.

(** ** Function names are made of letters *)
Definition letter (c : ascii) : bool :=
  let n := nat_of_ascii c in (97 <=? n) && (n <=? 122).

Lemma letter_facts c : letter c = true ->
  aeq c "("%char = false /\ aeq c ")"%char = false /\ special c = false
  /\ aeq c "-"%char = false.
Proof.
  intro H. repeat split; try (apply aeq_false; intro; subst; discriminate).
  unfold special. apply not_true_is_false. intro K. apply existsb_exists in K as (x & Hx & Ex).
  apply aeq_true in Ex. subst x. simpl in Hx.
  repeat (destruct Hx as [<-|Hx]; [discriminate H|]). destruct Hx.
Qed.

Lemma known_ops_letters f : In f known_ops -> forallb letter f = true /\ f <> [].
Proof.
  intro H. unfold known_ops in H. simpl in H.
  repeat (destruct H as [<-|H]; [split; [reflexivity|discriminate]|]). destruct H.
Qed.

Lemma unary_known f : In f unary_ops -> In f known_ops.
Proof.
  intro H. unfold unary_ops in H. simpl in H. unfold known_ops. simpl.
  repeat (destruct H as [<-|H]; [tauto|]). destruct H.
Qed.

Lemma fn2_known f : In f fn2_names -> In f known_ops.
Proof.
  intro H. unfold fn2_names in H. simpl in H. unfold known_ops. simpl.
  repeat (destruct H as [<-|H]; [tauto|]). destruct H.
Qed.

Lemma letters_in f c : forallb letter f = true -> In c f -> letter c = true.
Proof. intro H. apply (proj1 (forallb_forall letter f) H). Qed.

Lemma letters_nested f : forallb letter f = true -> nested f.
Proof.
  intro H. apply nested_noparen; intro K; apply (letters_in _ _ H) in K; discriminate.
Qed.

(** ** Character facts *)
Lemma special_blank c : special c = false -> aeq c " "%char = false /\ aeq c "="%char = false.
Proof.
  intro H. split; apply aeq_false; intro; subst; discriminate.
Qed.

Lemma numchar_facts c : numchar c = true ->
  aeq c " "%char = false /\ aeq c "="%char = false /\ aeq c "("%char = false
  /\ aeq c ")"%char = false /\ aeq c ","%char = false
  /\ is_mdp c = false /\ is_pow c = false.
Proof.
  intro H. repeat split; try (apply aeq_false; intro; subst; discriminate).
  unfold is_mdp. repeat (apply orb_false_iff; split); apply aeq_false; intro; subst; discriminate.
Qed.

Lemma special_ops c : special c = false ->
  is_pm c = false /\ is_mdp c = false /\ is_pow c = false /\ aeq c ","%char = false.
Proof.
  intro H. repeat split.
  - apply orb_false_iff; split; apply aeq_false; intro; subst; discriminate.
  - unfold is_mdp. repeat (apply orb_false_iff; split); apply aeq_false; intro; subst; discriminate.
  - apply aeq_false; intro; subst; discriminate.
  - apply aeq_false; intro; subst; discriminate.
Qed.

Lemma plain_num_nopm s c : plain_num s = true -> In c s -> is_pm c = false.
Proof.
  unfold plain_num. intros H Hc. apply andb_true_iff in H as [H _].
  apply negb_true_iff in H. destruct (is_pm c) eqn:E; auto.
  assert (existsb (fun c => aeq c "+"%char || aeq c "-"%char) s = true) as K.
  { apply existsb_exists. exists c. auto. }
  congruence.
Qed.

(** ** The printed text *)
Definition wt (l : nat) (e : expr) : str := wrap (lev e <? l) (pr e).

Lemma bsym_facts o :
  aeq (bsym o) " "%char = false /\ aeq (bsym o) "="%char = false
  /\ aeq (bsym o) "("%char = false /\ aeq (bsym o) ")"%char = false
  /\ aeq (bsym o) ","%char = false
  /\ pval (bsym o) = 0%Z /\ letter (bsym o) = false /\ special (bsym o) = true.
Proof. destruct o; repeat split. Qed.

Section WithEnv.
Variable E : env.

Lemma pr_nested e : wf E e -> nested (pr e).
Proof.
  induction e; simpl; intro W.
  - destruct W as [W _]. apply nested_noparen; intro K;
      apply (isScalar_numchar _ _ W) in K; discriminate.
  - destruct W as [[N _] _]. exact N.
  - apply nested_wrap. auto.
  - change ("-"%char :: wrap (lev e <? 2) (pr e)) with (["-"%char] ++ wrap (lev e <? 2) (pr e)).
    apply nested_app; [apply nested_one; reflexivity | apply nested_wrapb; auto].
  - destruct W as [W1 W2]. apply nested_app; [apply nested_wrapb; auto|].
    apply (nested_app [bsym o]); [apply nested_one; apply bsym_facts | apply nested_wrapb; auto].
  - destruct W as [W1 W2]. apply nested_app; [|apply nested_wrap; auto].
    apply letters_nested, known_ops_letters, unary_known; auto.
  - destruct W as (W1 & W2 & W3 & _). apply nested_app.
    + apply letters_nested, known_ops_letters, fn2_known; auto.
    + apply nested_wrap. apply nested_app; auto.
      apply (nested_app [","%char]); auto. apply nested_one. reflexivity.
Qed.

Lemma wt_nested l e : wf E e -> nested (wt l e).
Proof. intro W. apply nested_wrapb, pr_nested, W. Qed.

Lemma noblank_one c : aeq c " "%char = false -> aeq c "="%char = false -> noblank [c].
Proof. intros H1 H2 x [<-|[]]; auto. Qed.

Lemma noblank_wrapb b s : noblank s -> noblank (wrap b s).
Proof.
  intro H. destruct b; auto. unfold wrap.
  apply noblank_app; [apply noblank_one; reflexivity|].
  apply noblank_app; [auto|apply noblank_one; reflexivity].
Qed.

Lemma letters_noblank f : forallb letter f = true -> noblank f.
Proof.
  intros H c Hc. apply (letters_in _ _ H) in Hc. apply letter_facts in Hc as (_ & _ & S & _).
  apply special_blank; auto.
Qed.

Lemma pr_noblank e : wf E e -> noblank (pr e).
Proof.
  induction e; simpl; intro W.
  - destruct W as [W _]. intros c Hc. apply (isScalar_numchar _ _ W) in Hc.
    apply numchar_facts in Hc. tauto.
  - destruct W as [(_ & N & _) _]. intros c Hc. apply special_blank; auto.
  - apply (noblank_wrapb true); auto.
  - change ("-"%char :: wrap (lev e <? 2) (pr e)) with (["-"%char] ++ wrap (lev e <? 2) (pr e)).
    apply noblank_app; [apply noblank_one; reflexivity | apply noblank_wrapb; auto].
  - destruct W as [W1 W2]. apply noblank_app; [apply noblank_wrapb; auto|].
    apply (noblank_app [bsym o]); [apply noblank_one; apply bsym_facts | apply noblank_wrapb; auto].
  - destruct W as [W1 W2]. apply noblank_app; [|apply (noblank_wrapb true); auto].
    apply letters_noblank, known_ops_letters, unary_known; auto.
  - destruct W as (W1 & W2 & W3 & _). apply noblank_app.
    + apply letters_noblank, known_ops_letters, fn2_known; auto.
    + apply (noblank_wrapb true). apply noblank_app; auto.
      apply (noblank_app [","%char]); auto. apply noblank_one; reflexivity.
Qed.

Lemma wt_noblank l e : wf E e -> noblank (wt l e).
Proof. intro W. apply noblank_wrapb, pr_noblank, W. Qed.

Lemma pr_nonempty e : wf E e -> pr e <> [].
Proof.
  destruct e; simpl; intro W; try discriminate.
  - destruct W as [_ W]. intros ->. discriminate.
  - destruct W as [(_ & _ & W & _) _]. intros ->. discriminate.
  - intro K. apply app_eq_nil in K as [_ K]. discriminate.
  - intro K. apply app_eq_nil in K as [_ K]. discriminate.
  - intro K. apply app_eq_nil in K as [_ K]. discriminate.
Qed.

Lemma wt_nonempty l e : wf E e -> wt l e <> [].
Proof. intro W. unfold wt, wrap. destruct (lev e <? l); [discriminate|]. apply pr_nonempty; auto. Qed.

Lemma wt_free P l e :
  P "("%char = false -> P ")"%char = false -> wf E e ->
  (l <= lev e -> free 0 P (pr e)) -> free 0 P (wt l e).
Proof.
  intros P1 P2 W H. unfold wt. destruct (lev e <? l) eqn:L.
  - apply free_wrap; auto. apply pr_nested; auto.
  - apply H. apply Nat.ltb_ge in L. auto.
Qed.

Lemma free_one d P c : P c = false -> free d P [c].
Proof. intro H. apply free_cons. split; auto. apply free_nil. Qed.

Lemma free0_app P a b : nested a -> free 0 P a -> free 0 P b -> free 0 P (a ++ b).
Proof. intros [B _] Fa Fb. apply free_app; auto. rewrite B. exact Fb. Qed.

Lemma letters_free P f :
  (forall c, letter c = true -> P c = false) -> forallb letter f = true -> free 0 P f.
Proof. intros HP H. apply free_none. intros c Hc. apply HP. eapply letters_in; eauto. Qed.

(** Class [P] of operator characters: binary symbols in [P] have level < k. *)
Definition class_at (k : nat) (P : ascii -> bool) : Prop :=
  P "("%char = false /\ P ")"%char = false /\ P ","%char = false
  /\ (forall c, special c = false -> P c = false)
  /\ (forall c, numchar c = true -> is_pm c = false -> P c = false)
  /\ (forall o, k <= blev o -> P (bsym o) = false) /\ 2 <= k <= 4.

Lemma pr_free k P e : class_at k P -> wf E e -> k <= lev e -> free 0 P (pr e).
Proof.
  intros C. destruct C as (C1 & C2 & C3 & C4 & C5 & C6 & C7).
  assert (CL : forall c, letter c = true -> P c = false)
    by (intros c Hc; apply C4; apply letter_facts in Hc; tauto).
  induction e; intros W L; simpl in *.
  - destruct W as [W _]. apply free_none. intros c Hc. apply C5.
    + eapply isScalar_numchar; eauto.
    + destruct (plain_num s) eqn:Pn; [|lia]. eapply plain_num_nopm; eauto.
  - destruct W as [(_ & N & _) _]. apply free_none. intros c Hc. apply C4; auto.
  - apply free_wrap; auto. apply pr_nested; auto.
  - lia.
  - destruct W as [W1 W2].
    assert (Fa : free 0 P (wt (blev o) e1)) by (apply wt_free; auto; intro; apply IHe1; auto; lia).
    assert (Fb : free 0 P (wt (S (blev o)) e2)) by (apply wt_free; auto; intro; apply IHe2; auto; lia).
    apply free0_app; [apply wt_nested; auto | exact Fa |].
    apply (free0_app P [bsym o]); [apply nested_one, bsym_facts | apply free_one; auto | exact Fb].
  - destruct W as [W1 W2].
    assert (Lf : forallb letter f = true) by (apply known_ops_letters, unary_known; auto).
    apply free0_app; [apply letters_nested; auto | apply letters_free; auto |].
    apply free_wrap; auto. apply pr_nested; auto.
  - destruct W as (W1 & W2 & W3 & _).
    assert (Lf : forallb letter f = true) by (apply known_ops_letters, fn2_known; auto).
    apply free0_app; [apply letters_nested; auto | apply letters_free; auto |].
    apply free_wrap; auto. apply nested_app; [apply pr_nested; auto|].
    apply (nested_app [","%char]); [apply nested_one; reflexivity | apply pr_nested; auto].
Qed.

Lemma class_pm : class_at 2 is_pm.
Proof.
  repeat split; auto; try lia.
  - intros c H. apply special_ops; auto.
  - intros o H. destruct o; simpl in *; auto; lia.
Qed.

Lemma class_mdp : class_at 3 is_mdp.
Proof.
  repeat split; auto; try lia.
  - intros c H. apply special_ops; auto.
  - intros c H _. apply numchar_facts in H. tauto.
  - intros o H. destruct o; simpl in *; auto; lia.
Qed.

Lemma class_pow : class_at 4 is_pow.
Proof.
  repeat split; auto; try lia.
  - intros c H. apply special_ops; auto.
  - intros c H _. apply numchar_facts in H. tauto.
  - intros o H. destruct o; simpl in *; auto; lia.
Qed.

Lemma wt_free_class k P l e : class_at k P -> k <= l -> wf E e -> free 0 P (wt l e).
Proof.
  intros C L W. assert (C' := C). destruct C' as (C1 & C2 & _). apply wt_free; auto.
  intro H. eapply pr_free; eauto. lia.
Qed.

(** ** First character *)
Lemma first_is_app c a b : a <> [] -> first_is c (a ++ b) = first_is c a.
Proof. destruct a; [contradiction|reflexivity]. Qed.

Lemma pr_first_minus e : wf E e -> 2 <= lev e -> first_is "-"%char (pr e) = false.
Proof.
  induction e; simpl; intros W L.
  - destruct (plain_num s) eqn:Pn; [|lia]. destruct s as [|c s]; auto.
    assert (is_pm c = false) by (eapply plain_num_nopm; eauto; simpl; auto).
    simpl. unfold is_pm in H. apply orb_false_iff in H. tauto.
  - destruct W as [(_ & N & _) _]. destruct s as [|c s]; auto. simpl.
    specialize (N c (or_introl eq_refl)). apply aeq_false. intro; subst; discriminate.
  - reflexivity.
  - lia.
  - destruct W as [W1 W2]. rewrite first_is_app by (apply (wt_nonempty (blev o)); auto).
    unfold wrap. destruct (lev e1 <? blev o) eqn:K; [reflexivity|].
    apply Nat.ltb_ge in K. apply IHe1; auto. lia.
  - destruct W as [W1 W2]. apply unary_known, known_ops_letters in W1 as [L1 L2].
    rewrite first_is_app by auto. destruct f as [|c f]; [contradiction|]. simpl.
    apply letter_facts. simpl in L1. apply andb_true_iff in L1. tauto.
  - destruct W as (W1 & W2). apply fn2_known, known_ops_letters in W1 as [L1 L2].
    rewrite first_is_app by auto. destruct f as [|c f]; [contradiction|]. simpl.
    apply letter_facts. simpl in L1. apply andb_true_iff in L1. tauto.
Qed.

Lemma wt_first_minus l e : wf E e -> 2 <= l -> first_is "-"%char (wt l e) = false.
Proof.
  intros W L. unfold wt, wrap. destruct (lev e <? l) eqn:K; [reflexivity|].
  apply Nat.ltb_ge in K. apply pr_first_minus; auto. lia.
Qed.

(** ** Parts *)
Definition par (l : nat) (e : expr) : expr := if lev e <? l then Par e else e.

Lemma pr_par l e : pr (par l e) = wt l e.
Proof. unfold par, wt. destruct (lev e <? l); reflexivity. Qed.

Lemma wf_par l e : wf E e -> wf E (par l e).
Proof. unfold par. destruct (lev e <? l); auto. Qed.

Lemma height_par l e : height (par l e) <= S (height e).
Proof. unfold par. destruct (lev e <? l); simpl; lia. Qed.

Lemma vars_par l e : vars (par l e) = vars e.
Proof. unfold par. destruct (lev e <? l); auto. Qed.

Definition part : Type := (str * expr)%type.
Definition ptext (p : part) : dep := (fst p, pr (snd p)).

Fixpoint sum_parts (e : expr) : list part :=
  match e with
  | Bin BAdd a b => sum_parts a ++ [(s_ "plus", par 2 b)]
  | Bin BSub a b => sum_parts a ++ [(s_ "minus", par 2 b)]
  | Neg a => [([], Num (s_ "0.0")); (s_ "minus", par 2 a)]
  | _ => [([], par 1 e)]
  end.

Definition mdp_name (o : bop) : str :=
  match o with
  | BMul => s_ "times" | BDiv => s_ "divide" | BLt => s_ "lt" | BGt => s_ "gt"
  | _ => []
  end.

Fixpoint prod_parts (e : expr) : list part :=
  match e with
  | Bin BMul a b => prod_parts a ++ [(s_ "times", par 3 b)]
  | Bin BDiv a b => prod_parts a ++ [(s_ "divide", par 3 b)]
  | Bin BLt a b => prod_parts a ++ [(s_ "lt", par 3 b)]
  | Bin BGt a b => prod_parts a ++ [(s_ "gt", par 3 b)]
  | _ => [([], par 2 e)]
  end.

Fixpoint pow_parts (e : expr) : list part :=
  match e with
  | Bin BPow a b => pow_parts a ++ [(s_ "power", par 4 b)]
  | _ => [([], par 3 e)]
  end.

Definition zpre (s : str) : str := if first_is "-"%char s then s_ "0.0" ++ s else s.

Lemma zpre_app a b : a <> [] -> zpre (a ++ b) = zpre a ++ b.
Proof.
  intro H. unfold zpre. rewrite first_is_app by auto. destruct (first_is "-"%char a); auto.
Qed.

Lemma map_last {A B} (f : A -> B) l x : map f (l ++ [x]) = map f l ++ [f x].
Proof. rewrite map_app. reflexivity. Qed.

Lemma nonempty_true s : s <> [] -> nonempty s = true.
Proof. destruct s; [contradiction | reflexivity]. Qed.

Lemma pm_sep c nm r cur op acc :
  (c = "+"%char /\ nm = s_ "plus") \/ (c = "-"%char /\ nm = s_ "minus") -> cur <> [] ->
  pm_loop (c :: r) 0 cur op acc = pm_loop r 0 [] nm (acc ++ [(op, cur)]).
Proof.
  intros H Hc. apply nonempty_true in Hc. destruct H as [[-> ->]|[-> ->]]; simpl; rewrite Hc; reflexivity.
Qed.

Lemma pm_spine e : wf E e -> forall r, exists init o c,
  pm_loop (zpre (wt 1 e) ++ r) 0 [] [] [] = pm_loop r 0 c o init
  /\ map ptext (sum_parts e) = init ++ [(o, c)] /\ c <> [].
Proof.
  assert (Base : forall e, wf E e -> first_is "-"%char (wt 1 e) = false ->
            free 0 is_pm (wt 1 e) -> forall r, exists init o c,
            pm_loop (zpre (wt 1 e) ++ r) 0 [] [] [] = pm_loop r 0 c o init
            /\ map ptext [([], par 1 e)] = init ++ [(o, c)] /\ c <> []).
  { intros e0 W F Fr r. exists [], [], (wt 1 e0). unfold zpre. rewrite F.
    rewrite pm_chunk by (auto; apply wt_noblank; auto).
    destruct (wt_nested 1 e0 W) as [-> _]. simpl. unfold ptext. simpl. rewrite pr_par.
    split; auto. split; auto. apply wt_nonempty; auto. }
  assert (Step : forall o a b (W : wf E a) (W2 : wf E b) nm, 
            (bsym o = "+"%char /\ nm = s_ "plus" \/ bsym o = "-"%char /\ nm = s_ "minus") ->
            blev o = 1 ->
            (forall r, exists init o c,
                pm_loop (zpre (wt 1 a) ++ r) 0 [] [] [] = pm_loop r 0 c o init
                /\ map ptext (sum_parts a) = init ++ [(o, c)] /\ c <> []) ->
            forall r, exists init o' c,
                pm_loop (zpre (wt 1 (Bin o a b)) ++ r) 0 [] [] [] = pm_loop r 0 c o' init
                /\ map ptext (sum_parts a ++ [(nm, par 2 b)]) = init ++ [(o', c)] /\ c <> []).
  { intros o a b Wa Wb nm Hn Hl IH r.
    assert (T : wt 1 (Bin o a b) = wt 1 a ++ [bsym o] ++ wt 2 b).
    { unfold wt at 1. simpl lev. rewrite Hl. simpl. rewrite Hl. reflexivity. }
    rewrite T. rewrite zpre_app by (apply wt_nonempty; auto).
    rewrite <- app_assoc. destruct (IH (([bsym o] ++ wt 2 b) ++ r)) as (init & o' & c & H1 & H2 & H3).
    exists (init ++ [(o', c)]), nm, (wt 2 b). rewrite H1. cbn [app].
    rewrite (pm_sep (bsym o) nm) by auto.
    rewrite pm_chunk.
    - destruct (wt_nested 2 b Wb) as [-> _]. simpl. split; auto. split.
      + rewrite map_last, H2. unfold ptext at 1. simpl. rewrite pr_par. reflexivity.
      + apply wt_nonempty; auto.
    - eapply wt_free_class; [apply class_pm | lia | auto].
    - apply wt_noblank; auto. }
  assert (B2 : forall e, wf E e -> lev e <> 1 -> forall r, exists init o c,
            pm_loop (zpre (wt 1 e) ++ r) 0 [] [] [] = pm_loop r 0 c o init
            /\ map ptext [([], par 1 e)] = init ++ [(o, c)] /\ c <> []).
  { intros e0 W L. apply Base; auto.
    - unfold wt, wrap. destruct (lev e0 <? 1) eqn:K; [reflexivity|].
      apply Nat.ltb_ge in K. apply pr_first_minus; auto. lia.
    - apply wt_free; auto. intro H. eapply pr_free; [apply class_pm | auto | lia]. }
  induction e; intro W.
  - apply B2; auto. simpl. destruct (plain_num s); lia.
  - apply B2; simpl; auto.
  - apply B2; simpl; auto.
  - intros r. simpl in W. exists [([], s_ "0.0")], (s_ "minus"), (wt 2 e).
    assert (T : zpre (wt 1 (Neg e)) = s_ "0.0" ++ ["-"%char] ++ wt 2 e) by reflexivity.
    rewrite T. rewrite <- !app_assoc. rewrite pm_chunk.
    + change (0 + bal (s_ "0.0"))%Z with 0%Z. cbn [app].
      rewrite (pm_sep "-"%char (s_ "minus")); [|auto|discriminate].
      rewrite pm_chunk.
      * destruct (wt_nested 2 e W) as [-> _]. simpl. split; auto. split.
        -- unfold ptext. simpl. rewrite pr_par. reflexivity.
        -- apply wt_nonempty; auto.
      * eapply wt_free_class; [apply class_pm | lia | auto].
      * apply wt_noblank; auto.
    + apply free_none. intros c Hc. simpl in Hc. repeat destruct Hc as [<-|Hc]; auto. destruct Hc.
    + intros c Hc. simpl in Hc. repeat destruct Hc as [<-|Hc]; auto. destruct Hc.
  - simpl in W. destruct W as [W1 W2]. destruct o; simpl sum_parts;
      try (apply B2; simpl; auto; fail).
    + apply Step; auto.
    + apply Step; auto.
  - apply B2; simpl; auto.
  - apply B2; simpl; auto.
Qed.

Lemma mdp_sep o r cur op acc :
  blev o = 2 -> first_is "="%char r = false ->
  mdp_loop (bsym o :: r) 0 cur op acc = mdp_loop r 0 [] (mdp_name o) (acc ++ [(op, cur)]).
Proof.
  intros H F. destruct o; try discriminate; simpl; auto;
    destruct r; auto; simpl in F; rewrite F; auto.
Qed.

Lemma noblank_first s : noblank s -> first_is "="%char s = false.
Proof. destruct s as [|c s]; auto. intro H. simpl. apply (H c). simpl. auto. Qed.

Lemma mdp_spine e : wf E e -> forall r, exists init o c,
  mdp_loop (wt 2 e ++ r) 0 [] [] [] = mdp_loop r 0 c o init
  /\ map ptext (prod_parts e) = init ++ [(o, c)] /\ c <> [].
Proof.
  assert (B2 : forall e, wf E e -> lev e <> 2 -> forall r, exists init o c,
            mdp_loop (wt 2 e ++ r) 0 [] [] [] = mdp_loop r 0 c o init
            /\ map ptext [([], par 2 e)] = init ++ [(o, c)] /\ c <> []).
  { intros e0 W L r. exists [], [], (wt 2 e0).
    rewrite mdp_chunk.
    - destruct (wt_nested 2 e0 W) as [-> _]. simpl. unfold ptext. simpl. rewrite pr_par.
      split; auto. split; auto. apply wt_nonempty; auto.
    - apply wt_free; auto. intro H. eapply pr_free; [apply class_mdp | auto | lia].
    - apply wt_noblank; auto. }
  assert (Step : forall o a b (W : wf E a) (W2 : wf E b), blev o = 2 ->
            (forall r, exists init o c,
                mdp_loop (wt 2 a ++ r) 0 [] [] [] = mdp_loop r 0 c o init
                /\ map ptext (prod_parts a) = init ++ [(o, c)] /\ c <> []) ->
            forall r, exists init o' c,
                mdp_loop (wt 2 (Bin o a b) ++ r) 0 [] [] [] = mdp_loop r 0 c o' init
                /\ map ptext (prod_parts a ++ [(mdp_name o, par 3 b)]) = init ++ [(o', c)] /\ c <> []).
  { intros o a b Wa Wb Hl IH r.
    assert (T : wt 2 (Bin o a b) = wt 2 a ++ [bsym o] ++ wt 3 b).
    { unfold wt at 1. simpl lev. rewrite Hl. simpl. rewrite Hl. reflexivity. }
    rewrite T.
    rewrite <- app_assoc. destruct (IH (([bsym o] ++ wt 3 b) ++ r)) as (init & o' & c & H1 & H2 & H3).
    exists (init ++ [(o', c)]), (mdp_name o), (wt 3 b). rewrite H1. cbn [app].
    rewrite mdp_sep; auto.
    2:{ rewrite first_is_app by (apply wt_nonempty; auto). apply noblank_first, wt_noblank; auto. }
    rewrite mdp_chunk.
    - destruct (wt_nested 3 b Wb) as [-> _]. simpl. split; auto. split.
      + rewrite map_last, H2. unfold ptext at 1. simpl. rewrite pr_par. reflexivity.
      + apply wt_nonempty; auto.
    - eapply wt_free_class; [apply class_mdp | lia | auto].
    - apply wt_noblank; auto. }
  induction e; intro W.
  - apply B2; auto. simpl. destruct (plain_num s); lia.
  - apply B2; simpl; auto.
  - apply B2; simpl; auto.
  - apply B2; simpl; auto.
  - simpl in W. destruct W as [W1 W2]. destruct o;
      try (apply (B2 (Bin _ e1 e2)); simpl; auto; fail).
    + exact (Step BMul e1 e2 W1 W2 eq_refl (IHe1 W1)).
    + exact (Step BDiv e1 e2 W1 W2 eq_refl (IHe1 W1)).
    + exact (Step BLt e1 e2 W1 W2 eq_refl (IHe1 W1)).
    + exact (Step BGt e1 e2 W1 W2 eq_refl (IHe1 W1)).
  - apply B2; simpl; auto.
  - apply B2; simpl; auto.
Qed.

Lemma pow_spine e : wf E e -> forall r, exists init o c,
  pow_loop (wt 3 e ++ r) 0 [] [] [] = pow_loop r 0 c o init
  /\ map ptext (pow_parts e) = init ++ [(o, c)] /\ c <> [].
Proof.
  assert (B2 : forall e, wf E e -> lev e <> 3 -> forall r, exists init o c,
            pow_loop (wt 3 e ++ r) 0 [] [] [] = pow_loop r 0 c o init
            /\ map ptext [([], par 3 e)] = init ++ [(o, c)] /\ c <> []).
  { intros e0 W L r. exists [], [], (wt 3 e0).
    rewrite pow_chunk.
    - destruct (wt_nested 3 e0 W) as [-> _]. simpl. unfold ptext. simpl. rewrite pr_par.
      split; auto. split; auto. apply wt_nonempty; auto.
    - apply wt_free; auto. intro H. eapply pr_free; [apply class_pow | auto | lia]. }
  induction e; intro W.
  - apply B2; auto. simpl. destruct (plain_num s); lia.
  - apply B2; simpl; auto.
  - apply B2; simpl; auto.
  - apply B2; simpl; auto.
  - simpl in W. destruct W as [W1 W2]. destruct o; simpl pow_parts;
      try (apply B2; simpl; auto; fail).
    intro r.
    assert (T : wt 3 (Bin BPow e1 e2) = wt 3 e1 ++ ["^"%char] ++ wt 4 e2) by reflexivity.
    rewrite T.
    rewrite <- app_assoc. destruct (IHe1 W1 ((["^"%char] ++ wt 4 e2) ++ r)) as (init & o' & c & H1 & H2 & H3).
    exists (init ++ [(o', c)]), (s_ "power"), (wt 4 e2). rewrite H1.
    change ((["^"%char] ++ wt 4 e2) ++ r) with ("^"%char :: (wt 4 e2 ++ r)).
    change (pow_loop ("^"%char :: wt 4 e2 ++ r) 0 c o' init) with
        (pow_loop (wt 4 e2 ++ r) 0 [] (s_ "power") (init ++ [(o', c)])).
    rewrite pow_chunk.
    + destruct (wt_nested 4 e2 W2) as [-> _]. simpl. split; auto. split.
      * rewrite map_last, H2. unfold ptext at 1. simpl. rewrite pr_par. reflexivity.
      * apply wt_nonempty; auto.
    + eapply wt_free_class; [apply class_pow | lia | auto].
  - apply B2; simpl; auto.
  - apply B2; simpl; auto.
Qed.

(** ** split on the printed text *)
Lemma pm_end c o init : c <> [] -> pm_loop [] 0 c o init = (init ++ [(o, c)], 0%Z).
Proof. intro H. simpl. rewrite nonempty_true by auto. reflexivity. Qed.

Lemma split_unfold s0 x y s : zpre s0 = x :: y :: s ->
  split s0 =
  let n := count_loop (zpre s0) 0 zero_counts in
      let '(deps, paren) :=
        if (0 <? c_pm n)%nat then pm_loop (zpre s0) 0 [] [] []
        else if (0 <? c_mdp n)%nat then mdp_loop (zpre s0) 0 [] [] []
        else if (0 <? c_pow n)%nat then pow_loop (zpre s0) 0 [] [] []
        else (wrap_case (zpre s0), 0%Z) in
      if (0 <? paren)%Z then Exn
      else if (paren <? 0)%Z then Exn
      else Ok deps.
Proof. intro H. unfold split. change (if first_is "-"%char s0 then s_ "0.0" ++ s0 else s0) with (zpre s0).
  cbv zeta. rewrite H. reflexivity. Qed.

Lemma two_chars (a : str) c (b : str) : a <> [] -> exists x y s, a ++ c :: b = x :: y :: s.
Proof.
  destruct a as [|x a]; [contradiction|]. intros _. destruct a as [|y a]; simpl; eauto.
Qed.

Lemma zpre_bal s : bal (zpre s) = bal s.
Proof.
  unfold zpre. destruct (first_is _ _); auto.
Qed.

Lemma zpre_nonempty s : s <> [] -> zpre s <> [].
Proof. unfold zpre. destruct (first_is _ _); [discriminate|auto]. Qed.

Lemma split_sum e : wf E e -> (exists a, e = Neg a) \/ (exists o a b, e = Bin o a b /\ blev o = 1) ->
  split (pr e) = Ok (map ptext (sum_parts e)).
Proof.
  intros W S.
  assert (L : lev e = 1) by (destruct S as [[a ->]|(o & a & b & -> & H)]; auto).
  assert (T : wt 1 e = pr e) by (unfold wt; rewrite L; reflexivity).
  assert (D : exists u c v, zpre (pr e) = u ++ c :: v /\ u <> [] /\ bal u = 0%Z /\ is_pm c = true).
  { destruct S as [[a ->]|(o & a & b & -> & H)].
    - exists (s_ "0.0"), "-"%char, (wt 2 a). repeat split; discriminate.
    - simpl pr. simpl in W. destruct W as [W1 W2]. rewrite H.
      rewrite zpre_app by (apply (wt_nonempty 1); auto).
      exists (zpre (wt 1 a)), (bsym o), (wt 2 b). split; [reflexivity|]. split.
      + apply zpre_nonempty, wt_nonempty; auto.
      + split; [rewrite zpre_bal; apply wt_nested; auto|]. destruct o; try discriminate; auto. }
  destruct D as (u & c & v & D1 & D2 & D3 & D4).
  destruct (two_chars u c v D2) as (x & y & s & D5).
  rewrite (split_unfold _ x y s) by congruence. cbv zeta.
  assert (Hc : (0 < c_pm (count_loop (zpre (pr e)) 0 zero_counts))%nat).
  { rewrite D1. apply count_hit; auto; apply aeq_false; intro; subst; discriminate. }
  apply Nat.ltb_lt in Hc. rewrite Hc.
  destruct (pm_spine e W []) as (init & o & cc & H1 & H2 & H3).
  rewrite app_nil_r, T in H1. rewrite H1, pm_end by auto. rewrite H2. reflexivity.
Qed.

Lemma zpre_id s : first_is "-"%char s = false -> zpre s = s.
Proof. unfold zpre. intros ->. reflexivity. Qed.

Lemma split_prod o a b : wf E (Bin o a b) -> blev o = 2 ->
  split (pr (Bin o a b)) = Ok (map ptext (prod_parts (Bin o a b))).
Proof.
  intros W L. set (e := Bin o a b) in *.
  assert (Z : zpre (pr e) = pr e) by (apply zpre_id, pr_first_minus; auto; unfold e; simpl; lia).
  assert (T : wt 2 e = pr e) by (unfold wt, e; simpl lev; rewrite L; reflexivity).
  assert (W' := W). simpl in W'. destruct W' as [W1 W2].
  assert (D1 : pr e = wt 2 a ++ bsym o :: wt 3 b) by (unfold e; simpl; rewrite L; reflexivity).
  destruct (two_chars (wt 2 a) (bsym o) (wt 3 b) (wt_nonempty _ _ W1)) as (x & y & s & D5).
  rewrite (split_unfold _ x y s) by congruence. cbv zeta. rewrite Z.
  assert (Hp : c_pm (count_loop (pr e) 0 zero_counts) = 0).
  { rewrite count_pm_free; auto. eapply pr_free; [apply class_pm | auto | unfold e; simpl; lia]. }
  rewrite Hp. simpl Nat.ltb at 1. cbv iota.
  assert (Hc : (0 < c_mdp (count_loop (pr e) 0 zero_counts))%nat).
  { rewrite D1. apply count_hit; try apply bsym_facts.
    - apply wt_nested; auto.
    - destruct o; try discriminate; reflexivity. }
  apply Nat.ltb_lt in Hc. rewrite Hc.
  destruct (mdp_spine e W []) as (init & o' & cc & H1 & H2 & H3).
  rewrite app_nil_r, T in H1. rewrite H1. simpl mdp_loop. rewrite H2. reflexivity.
Qed.

Lemma split_pow a b : wf E (Bin BPow a b) ->
  split (pr (Bin BPow a b)) = Ok (map ptext (pow_parts (Bin BPow a b))).
Proof.
  intros W. set (e := Bin BPow a b) in *.
  assert (Z : zpre (pr e) = pr e) by (apply zpre_id, pr_first_minus; auto; unfold e; simpl; lia).
  assert (T : wt 3 e = pr e) by reflexivity.
  assert (W' := W). simpl in W'. destruct W' as [W1 W2].
  assert (D1 : pr e = wt 3 a ++ "^"%char :: wt 4 b) by reflexivity.
  destruct (two_chars (wt 3 a) "^"%char (wt 4 b) (wt_nonempty _ _ W1)) as (x & y & s & D5).
  rewrite (split_unfold _ x y s) by congruence. cbv zeta. rewrite Z.
  assert (Hp : c_pm (count_loop (pr e) 0 zero_counts) = 0).
  { rewrite count_pm_free; auto. eapply pr_free; [apply class_pm | auto | unfold e; simpl; lia]. }
  assert (Hm : c_mdp (count_loop (pr e) 0 zero_counts) = 0).
  { rewrite count_mdp_free; auto. eapply pr_free; [apply class_mdp | auto | unfold e; simpl; lia]. }
  rewrite Hp, Hm. simpl Nat.ltb at 1 2. cbv iota.
  assert (Hc : (0 < c_pow (count_loop (pr e) 0 zero_counts))%nat).
  { rewrite D1. apply count_hit; try reflexivity.
    apply wt_nested; auto. }
  apply Nat.ltb_lt in Hc. rewrite Hc.
  destruct (pow_spine e W []) as (init & o' & cc & H1 & H2 & H3).
  rewrite app_nil_r, T in H1. rewrite H1. simpl pow_loop. rewrite H2. reflexivity.
Qed.

Lemma split_atomic e x y s : wf E e -> lev e = 4 -> pr e = x :: y :: s ->
  split (pr e) = Ok (wrap_case (pr e)).
Proof.
  intros W L D.
  assert (Z : zpre (pr e) = pr e) by (apply zpre_id, pr_first_minus; auto; lia).
  rewrite (split_unfold _ x y s) by congruence. cbv zeta. rewrite Z.
  rewrite count_pm_free, count_mdp_free, count_pow_free.
  - reflexivity.
  - eapply pr_free; [apply class_pow | auto | lia].
  - eapply pr_free; [apply class_mdp | auto | lia].
  - eapply pr_free; [apply class_pm | auto | lia].
Qed.

Lemma split_par a : wf E a -> split (pr (Par a)) = Ok [([], pr a)].
Proof.
  intro W.
  assert (P : exists y s, pr (Par a) = "("%char :: y :: s).
  { simpl. destruct (pr a); simpl; eauto. }
  destruct P as (y & s & P).
  rewrite (split_atomic (Par a) _ _ _ W eq_refl P). f_equal.
  change (pr (Par a)) with (("("%char :: pr a) ++ [")"%char]). unfold wrap_case.
  rewrite last_is_app. simpl. rewrite removelast_last. reflexivity.
Qed.

Lemma split_fn f a : In f known_ops -> wf E (Fn f a) -> split (pr (Fn f a)) = Ok [(f, pr a)].
Proof.
  intros Hf W. destruct (known_ops_letters _ Hf) as [Lf Nf].
  destruct f as [|x f]; [contradiction|].
  assert (P : exists y s, pr (Fn (x :: f) a) = x :: y :: s).
  { simpl. destruct f; simpl; eauto. }
  destruct P as (y & s & P).
  rewrite (split_atomic (Fn (x :: f) a) _ _ _ W eq_refl P). f_equal.
  change (pr (Fn (x :: f) a)) with (x :: f ++ wrap true (pr a)). unfold wrap_case.
  assert (Q : last_is ")"%char (x :: f ++ wrap true (pr a)) = true).
  { unfold wrap. change (x :: f ++ ["("%char] ++ pr a ++ [")"%char])
      with ((x :: f) ++ ["("%char] ++ pr a ++ [")"%char]).
    rewrite !app_assoc, last_is_app. reflexivity. }
  rewrite Q.
  assert (Fx : first_is "("%char (x :: f ++ wrap true (pr a)) = false).
  { simpl. apply letter_facts. simpl in Lf. apply andb_true_iff in Lf. tauto. }
  rewrite Fx. cbn [andb]. cbv iota.
  assert (R : removelast (f ++ wrap true (pr a)) = f ++ "("%char :: pr a).
  { unfold wrap. rewrite !app_assoc. rewrite removelast_last. rewrite <- app_assoc. reflexivity. }
  rewrite R.
  assert (B : break_at "("%char (f ++ "("%char :: pr a) = Some (f, pr a)).
  { apply break_at_spec. split; auto. intro K.
    assert (In "("%char (x :: f)) by (simpl; auto).
    apply (letters_in _ _ Lf) in H. discriminate. }
  rewrite B. reflexivity.
Qed.

(** ** isOperator on the printed text *)
Lemma op_split_unique f g (u v : str) :
  forallb letter f = true -> forallb letter g = true ->
  f ++ "("%char :: u = g ++ "("%char :: v -> f = g /\ u = v.
Proof.
  revert g. induction f as [|x f IH]; intros [|y g] Lf Lg H; simpl in *.
  - inversion H; auto.
  - inversion H; subst. discriminate.
  - inversion H; subst. discriminate.
  - inversion H; subst. apply andb_true_iff in Lf as [_ Lf]. apply andb_true_iff in Lg as [_ Lg].
    destruct (IH _ Lf Lg H2) as [-> ->]. auto.
Qed.

Lemma not_op_bin a c b :
  bal a = 0%Z -> b <> [] -> letter c = false -> aeq c "("%char = false ->
  isOperator (a ++ c :: b) = None.
Proof.
  intros Ha Hb Hc Hc2. unfold isOperator.
  destruct (find_op known_ops (a ++ c :: b)) as [[f u]|] eqn:F; auto.
  exfalso. apply find_op_some in F as [Hf F]. apply op_argument_spec in F as [F Hu].
  destruct (known_ops_letters _ Hf) as [Lf _].
  change (["("%char] ++ u ++ [")"%char]) with ("("%char :: u ++ [")"%char]) in F.
  destruct (app_split _ _ _ _ F) as [(w & E1 & E2)|(w & E1 & E2)].
  - (* a = f ++ w *)
    destruct w as [|d w]; simpl in E2; inversion E2; subst.
    + discriminate.
    + destruct b as [|b0 b] using rev_ind; [contradiction|].
      rewrite app_comm_cons, app_assoc in H1. apply app_inj_tail in H1 as [H1 _]. subst u.
      rewrite bal_app in Ha. destruct (letters_nested f Lf) as [Bf _].
      change (bal ("("%char :: w)) with (1 + bal w)%Z in Ha.
      assert (0 <= bal w)%Z.
      { assert (N : ~ In ")"%char w) by (intro; apply Hu, in_or_app; auto).
        clear - N. induction w as [|x w IH]; cbn [bal]; [lia|].
        assert (aeq x ")"%char = false) by (apply aeq_false; intro; subst; simpl in N; tauto).
        simpl in N. unfold pval. rewrite H. destruct (aeq x "("%char); try (apply IH; tauto); 
        assert (0 <= bal w)%Z by (apply IH; tauto); lia. }
      lia.
  - destruct w as [|d w]; simpl in E2; inversion E2; subst.
    + discriminate.
    + assert (In d (a ++ d :: w)) by (apply in_or_app; right; simpl; auto).
      apply (letters_in _ _ Lf) in H. congruence.
Qed.

Lemma not_op_first c s : letter c = false -> isOperator (c :: s) = None.
Proof.
  intro Hc. unfold isOperator.
  destruct (find_op known_ops (c :: s)) as [[f u]|] eqn:F; auto.
  exfalso. apply find_op_some in F as [Hf F]. apply op_argument_spec in F as [F Hu].
  destruct (known_ops_letters _ Hf) as [Lf Nf]. destruct f as [|x f]; [contradiction|].
  simpl in F. inversion F; subst. simpl in Lf. apply andb_true_iff in Lf as [Lf _]. congruence.
Qed.

(** A printed text without closing parenthesis has no comma. *)
Lemma pr_nocomma e : wf E e -> ~ In ")"%char (pr e) -> ~ In ","%char (pr e).
Proof.
  assert (T : forall b s, b = true -> In ")"%char (wrap b s)).
  { intros b s ->. unfold wrap. rewrite !in_app_iff. simpl. tauto. }
  induction e; cbn [pr wf]; intros W N K.
  - destruct W as [W _]. apply (isScalar_numchar _ _ W) in K. discriminate.
  - destruct W as [(_ & S & _) _]. apply S in K. discriminate.
  - apply N, T, eq_refl.
  - destruct K as [K|K]; [discriminate|]. destruct (lev e <? 2) eqn:L.
    + apply N. right. apply T, eq_refl.
    + apply IHe; auto. intro. apply N. right. exact H.
  - destruct W as [W1 W2]. rewrite !in_app_iff in K, N. destruct K as [K|[K|K]].
    + destruct (lev e1 <? blev o) eqn:L.
      * apply N. left. apply T, eq_refl.
      * apply IHe1; auto.
    + destruct K as [K|[]]. destruct o; discriminate.
    + destruct (lev e2 <? S (blev o)) eqn:L.
      * apply N. right. right. apply T, eq_refl.
      * apply IHe2; auto.
  - apply N. rewrite in_app_iff. right. apply T, eq_refl.
  - apply N. rewrite in_app_iff. right. apply T, eq_refl.
Qed.

Lemma op_deps_one f u : u <> [] -> ~ In ","%char u -> op_deps f u = Ok [(f, u)].
Proof.
  intros H N. unfold op_deps. destruct u as [|c u]; [contradiction|].
  rewrite break_last_none; auto.
  intro K. apply N.
  clear - K. set (l := c :: u) in *. clearbody l.
  induction l as [|x l IH]; auto. destruct l; simpl in *; [tauto|].
  destruct K as [K|K]; auto.
Qed.

Lemma op_deps_two f a b : b <> [] -> ~ In ","%char b ->
  op_deps f (a ++ ","%char :: b) = Ok [([], a); (f, b)].
Proof.
  intros H N. destruct b as [|z b] using rev_ind; [contradiction|]. clear IHb.
  unfold op_deps. destruct (a ++ ","%char :: b ++ [z]) as [|c0 u0] eqn:Q.
  - apply app_eq_nil in Q as [_ Q]. discriminate.
  - rewrite <- Q. rewrite app_comm_cons, app_assoc, removelast_last.
    rewrite break_last_app by (intro; apply N, in_or_app; auto).
    rewrite last_last. reflexivity.
Qed.

Lemma isOperator_fn f a : In f known_ops -> wf E (Fn f a) ->
  isOperator (pr (Fn f a)) = None \/ isOperator (pr (Fn f a)) = Some (Ok [(f, pr a)]).
Proof.
  intros Hf W. unfold isOperator.
  destruct (find_op known_ops (pr (Fn f a))) as [[g u]|] eqn:F; auto. right.
  apply find_op_some in F as [Hg F]. apply op_argument_spec in F as [F Hu].
  destruct (known_ops_letters _ Hf) as [Lf _]. destruct (known_ops_letters _ Hg) as [Lg _].
  simpl in F. unfold wrap in F.
  apply op_split_unique in F as [<- F]; auto. apply app_inj_tail in F as [F _]. subst u.
  destruct W as [_ W]. rewrite op_deps_one; auto.
  - apply pr_nonempty; auto.
  - apply pr_nocomma; auto.
Qed.

Lemma isOperator_fn2 f a b : In f known_ops -> wf E (Fn2 f a b) ->
  isOperator (pr (Fn2 f a b)) = Some (Ok [([], pr a); (f, pr b)]).
Proof.
  intros Hf W. unfold isOperator.
  destruct W as (W1 & W2 & W3 & W4 & W5).
  destruct (find_op known_ops (pr (Fn2 f a b))) as [[g u]|] eqn:F.
  - apply find_op_some in F as [Hg F]. apply op_argument_spec in F as [F Hu].
    destruct (known_ops_letters _ Hf) as [Lf _]. destruct (known_ops_letters _ Hg) as [Lg _].
    simpl in F. unfold wrap in F.
    apply op_split_unique in F as [<- F]; auto. apply app_inj_tail in F as [F _]. subst u.
    rewrite op_deps_two; auto.
    + apply pr_nonempty; auto.
    + apply pr_nocomma; auto.
  - exfalso. apply (proj1 (find_op_none _ _)) with (f := f) in F; auto.
    assert (op_argument f (pr (Fn2 f a b)) = Some (pr a ++ [","%char] ++ pr b)) as K.
    { apply op_argument_spec. split; [reflexivity|]. intro K. apply in_app_or in K as [K|K]; auto.
      destruct K as [K|K]; [discriminate|auto]. }
    congruence.
Qed.

(** ** Numbers among printed texts *)
Definition numlike (e : expr) : Prop :=
  (exists s, e = Num s) \/ (exists s, e = Neg (Num s) /\ plain_num s = true).

Lemma last_notin_e s : plain_num s = true -> is_e (last s "0"%char) = false.
Proof. unfold plain_num. intro H. apply andb_true_iff in H as [_ H]. apply negb_true_iff in H. auto. Qed.

Lemma isScalar_pr e : wf E e -> isScalar (pr e) = true -> numlike e.
Proof.
  induction e; intros W H.
  - left. eauto.
  - exfalso. simpl in *. destruct W as [(_ & _ & S & _) _]. congruence.
  - exfalso. simpl in H. assert (numchar "("%char = true) by (eapply isScalar_numchar; eauto; simpl; auto).
    discriminate.
  - simpl in W, H. apply isScalar_tail_sign in H; [|reflexivity].
    unfold wrap in H. destruct (lev e <? 2) eqn:L.
    + assert (numchar "("%char = true) by (eapply isScalar_numchar; eauto; simpl; auto). discriminate.
    + apply Nat.ltb_ge in L. destruct (IHe W H) as [[s ->]|(s & -> & _)].
      * right. exists s. split; auto. simpl in L. destruct (plain_num s); auto. lia.
      * simpl in L. lia.
  - exfalso. simpl in W, H. destruct W as [W1 W2].
    assert (Nc : numchar (bsym o) = true).
    { eapply isScalar_numchar; eauto. apply in_or_app. right. simpl. auto. }
    assert (Ho : blev o = 1) by (destruct o; auto; discriminate).
    assert (HA : isScalar (wrap (lev e1 <? blev o) (pr e1)) = true) by (eapply isScalar_prefix; eauto).
    rewrite Ho in *. unfold wrap in HA. destruct (lev e1 <? 1) eqn:L.
    + assert (numchar "("%char = true) by (eapply isScalar_numchar; eauto; simpl; auto). discriminate.
    + apply Nat.ltb_ge in L. unfold wrap in H at 1.
      assert (Pl : exists s0 s1, pr e1 = s0 ++ s1 /\ plain_num s1 = true /\ s1 <> []).
      { destruct (IHe1 W1 HA) as [[s ->]|(s & -> & Ps)].
        - exists [], s. simpl in L. destruct (plain_num s) eqn:Ps; [|lia]. repeat split; auto.
          apply (pr_nonempty (Num s)); auto.
        - exists ["-"%char], s. simpl. rewrite Ps. repeat split; auto.
          apply (pr_nonempty (Num s)); auto. }
      destruct Pl as (s0 & s1 & P1 & P2 & P3).
      destruct s1 as [|z s1] using rev_ind; [contradiction|]. clear IHs1.
      apply last_notin_e in P2. rewrite last_last in P2.
      rewrite P1 in H. rewrite <- app_assoc in H. cbn [app] in H.
      rewrite <- app_assoc in H. cbn [app] in H. rewrite app_assoc in H.
      rewrite isScalar_sign in H; auto; try discriminate.
      destruct o; try discriminate; reflexivity.
  - exfalso. simpl in H. assert (numchar "("%char = true).
    { eapply isScalar_numchar; eauto. apply in_or_app. right. simpl. auto. }
    discriminate.
  - exfalso. simpl in H. assert (numchar "("%char = true).
    { eapply isScalar_numchar; eauto. apply in_or_app. right. simpl. auto. }
    discriminate.
Qed.

(** ** Compound texts are not leaves *)
Definition atomlike (s : str) : Prop :=
  (forall c, In c s -> special c = false)
  /\ starts_with ["("%char] s = false
  /\ (forall f, In f known_ops -> starts_with (f ++ ["("%char]) s = false)
  /\ s <> [].

Lemma name_atomlike s : name_ok s -> atomlike s.
Proof.
  intros (_ & H1 & H2 & H3 & H4). repeat split; auto. intros ->. discriminate.
Qed.

Lemma find_first_in s l : forall j k, find_first s l j = Some k -> In s l.
Proof.
  induction l as [|x l IH]; intros j k H; simpl in *; [discriminate|].
  destruct (seq_str s x) eqn:Q; [apply seq_str_true in Q; auto | eauto].
Qed.

Lemma find_last_in {A} (g : str -> option A) l : forall j y,
  find_last g l j = Some y -> exists x, In x l /\ g x <> None.
Proof.
  induction l as [|x l IH]; intros j y H; simpl in *; [discriminate|].
  destruct (find_last g l (S j)) eqn:Q.
  - destruct (IH _ _ Q) as (z & Hz & Gz). eauto.
  - destruct (g x) eqn:G; [|discriminate]. exists x. split; auto. congruence.
Qed.

Lemma starts_with_app_paren f p d :
  forallb letter f = true -> starts_with (f ++ ["("%char]) p = false -> p <> f ->
  starts_with (f ++ ["("%char]) (p ++ "("%char :: d) = false.
Proof.
  intros Lf H Hne. apply not_true_is_false. intro K.
  apply starts_with_spec in K as [r K]. rewrite <- app_assoc in K. cbn [app] in K.
  destruct (app_split _ _ _ _ K) as [(w & E1 & E2)|(w & E1 & E2)].
  - destruct w as [|x w].
    + rewrite app_nil_r in E1. subst. contradiction.
    + simpl in E2. inversion E2; subst.
      apply not_true_iff_false in H. apply H. apply starts_with_spec. exists w.
      rewrite <- app_assoc. reflexivity.
  - destruct w as [|x w].
    + rewrite app_nil_r in E1. subst. contradiction.
    + simpl in E2. inversion E2; subst.
      assert (In "("%char (p ++ "("%char :: w)) by (apply in_or_app; right; simpl; auto).
      apply (letters_in _ _ Lf) in H0. discriminate.
Qed.

Lemma param_match_atomlike s p :
  atomlike p -> ~ In p known_ops -> param_match s p <> None -> atomlike s.
Proof.
  intros (A1 & A2 & A3 & A4) Np H. unfold param_match in H.
  destruct (drop_prefix p s) as [r|] eqn:D; [|contradiction].
  apply drop_prefix_spec in D. subst s.
  assert (Gen : forall d, (forall c, In c d -> special c = false) -> 
             atomlike (p ++ "("%char :: d)).
  { intros d Hd. repeat split.
    - intros c Hc. apply in_app_or in Hc as [Hc|Hc]; auto.
      destruct Hc as [<-|Hc]; auto.
    - destruct p; [contradiction|]. simpl in *. exact A2.
    - intros f Hf. apply starts_with_app_paren; auto.
      + apply known_ops_letters; auto.
      + intro; subst; contradiction.
    - destruct p; discriminate. }
  assert (SD : forall c, is_digit c = true -> special c = false).
  { intros c Hc. unfold special. apply not_true_is_false. intro K.
    apply existsb_exists in K as (x & Hx & Ex).
    apply aeq_true in Ex. subst x. simpl in Hx.
    repeat (destruct Hx as [<-|Hx]; [discriminate Hc|]). destruct Hx. }
  destruct r as [|a r].
  - rewrite app_nil_r. repeat split; auto.
  - destruct r as [|d1 r]; [contradiction|]. destruct r as [|d2 r]; [contradiction|].
    destruct r as [|d3 r].
    + destruct (aeq a "("%char) eqn:Ea; [|contradiction]. apply aeq_true in Ea; subst a.
      destruct (aeq d2 ")"%char) eqn:E2; [|contradiction]. apply aeq_true in E2; subst d2.
      simpl in H. destruct (is_digit d1) eqn:E1; [|contradiction].
      apply Gen. intros c [<-|[<-|[]]]; auto.
    + destruct r as [|d4 r]; [|contradiction].
      destruct (aeq a "("%char) eqn:Ea; [|contradiction]. apply aeq_true in Ea; subst a.
      destruct (aeq d3 ")"%char) eqn:E2; [|contradiction]. apply aeq_true in E2; subst d3.
      simpl in H. destruct (is_digit d1) eqn:E1; [|contradiction].
      simpl in H. destruct (is_digit d2) eqn:E3; [|contradiction].
      apply Gen. intros c [<-|[<-|[<-|[]]]]; auto.
Qed.

Lemma classify_atomlike s x :
  env_ok E -> classify E s = Some x -> isScalar s = true \/ atomlike s.
Proof.
  intros (O1 & O2 & O3 & O4) H. unfold classify in H.
  destruct (find_first s (e_soln E) 0) eqn:F1; [right; apply name_atomlike, O1; eapply find_first_in; eauto|].
  destruct (find_first s (e_scal E) 0) eqn:F2; [right; apply name_atomlike, O2; eapply find_first_in; eauto|].
  destruct (find_last (param_match s) (e_par E) 0) eqn:F3.
  { right. apply find_last_in in F3 as (p0 & Hp & M). destruct (O4 _ Hp) as [Q1 Q2].
    eapply param_match_atomlike; eauto. apply name_atomlike; auto. }
  destruct (find_last (fun p => param_match s (p ++ s_ "_t")) (e_par E) 0) eqn:F4.
  { right. apply find_last_in in F4 as (p0 & Hp & M). destruct (O4 _ Hp) as [Q1 Q2].
    apply (param_match_atomlike s (p0 ++ s_ "_t")); auto.
    - destruct (name_atomlike _ Q1) as (B1 & B2 & B3 & B4). repeat split.
      + intros c Hc. apply in_app_or in Hc as [Hc|Hc]; auto.
        simpl in Hc. destruct Hc as [<-|[<-|[]]]; auto.
      + destruct p0; [contradiction|]. simpl in *. exact B2.
      + intros f Hf. destruct (known_ops_letters _ Hf) as [Lf _].
        apply not_true_is_false. intro K. apply starts_with_spec in K as [r K].
        rewrite <- app_assoc in K. cbn [app] in K.
        destruct (app_split _ _ _ _ K) as [(w & E1 & E2)|(w & E1 & E2)].
        * destruct w as [|y w].
          -- rewrite app_nil_r in E1. subst. contradiction.
          -- simpl in E2. inversion E2; subst. specialize (B3 f Hf).
             apply not_true_iff_false in B3. apply B3. apply starts_with_spec. exists w.
             rewrite <- app_assoc. reflexivity.
        * (* f = p0 ++ w, "_t" = w ++ "(" :: r *)
          destruct w as [|y w]; [discriminate E2|].
          simpl in E2. inversion E2; subst.
          assert (In "_"%char (p0 ++ "_"%char :: w)) by (apply in_or_app; right; simpl; auto).
          apply (letters_in _ _ Lf) in H0. discriminate.
      + destruct p0; discriminate.
    - intro K. apply known_ops_letters in K as [K _].
      assert (In "_"%char (p0 ++ s_ "_t")) by (apply in_or_app; right; simpl; auto).
      apply (letters_in _ _ K) in H0. discriminate. }
  destruct (find_last _ (e_fun E) 0) as [[j u]|] eqn:F5.
  { right. apply find_last_in in F5 as (p0 & Hp & M). destruct (seq_str s p0) eqn:Q; [|contradiction].
    apply seq_str_true in Q. subst. apply name_atomlike, O3; auto. }
  destruct (isScalar s) eqn:S; auto.
  destruct (find_first s known_vars 0) eqn:F6; [|discriminate].
  right. apply find_first_in in F6. unfold known_vars in F6. simpl in F6.
  repeat (destruct F6 as [<-|F6];
    [repeat split; try discriminate; try reflexivity;
      [ intros c Hc; simpl in Hc; repeat (destruct Hc as [<-|Hc]; [reflexivity|]); destruct Hc
      | intros f Hf; unfold known_ops in Hf; simpl in Hf;
        repeat (destruct Hf as [<-|Hf]; [reflexivity|]); destruct Hf ] |]).
  destruct F6.
Qed.

Definition compound (e : expr) : Prop :=
  match e with Num _ | Var _ => False | _ => True end.

Lemma compound_not_atomlike e : wf E e -> compound e -> ~ atomlike (pr e).
Proof.
  intros W C (A1 & A2 & A3 & _). destruct e; simpl in *; try contradiction.
  - discriminate.
  - specialize (A1 "-"%char (or_introl eq_refl)). discriminate.
  - assert (special (bsym o) = false) by (apply A1, in_or_app; right; simpl; auto).
    destruct o; discriminate.
  - destruct W as [W _]. apply unary_known in W.
    specialize (A3 _ W). apply not_true_iff_false in A3. apply A3. apply starts_with_spec.
    unfold wrap. exists (pr e ++ [")"%char]). rewrite <- app_assoc. reflexivity.
  - destruct W as [W _]. apply fn2_known in W.
    specialize (A3 _ W). apply not_true_iff_false in A3. apply A3. apply starts_with_spec.
    exists ((pr e1 ++ ","%char :: pr e2) ++ [")"%char]).
    rewrite <- (app_assoc f). reflexivity.
Qed.

Lemma classify_compound e : env_ok E -> wf E e -> compound e -> ~ numlike e ->
  classify E (pr e) = None.
Proof.
  intros HE W C N. destruct (classify E (pr e)) eqn:Q; auto. exfalso.
  apply classify_atomlike in Q; auto. destruct Q as [Q|Q].
  - apply N, isScalar_pr; auto.
  - eapply compound_not_atomlike; eauto.
Qed.

Lemma param_match_num s p : isScalar s = true -> param_match s p <> None -> p = s.
Proof.
  intros Hs H. unfold param_match in H.
  destruct (drop_prefix p s) as [r|] eqn:D; [|contradiction].
  apply drop_prefix_spec in D. subst s.
  destruct r as [|a r]; [rewrite app_nil_r; auto|].
  destruct (aeq a "("%char) eqn:Q.
  - apply aeq_true in Q. subst a.
    assert (numchar "("%char = true).
    { eapply isScalar_numchar; eauto. apply in_or_app. right. simpl. auto. }
    discriminate.
  - exfalso. destruct r as [|? [|? [|? [|? ?]]]]; auto.
Qed.

Lemma classify_num s : env_ok E -> isScalar s = true -> mantissa_has_digit s = true ->
  classify E s = Some (Ok (LNum s)).
Proof.
  intros (O1 & O2 & O3 & O4) Hs Hm. unfold classify.
  assert (NO : ~ name_ok s) by (intros (_ & _ & K & _); congruence).
  destruct (find_first s (e_soln E) 0) eqn:F1; [exfalso; apply NO, O1; eapply find_first_in; eauto|].
  destruct (find_first s (e_scal E) 0) eqn:F2; [exfalso; apply NO, O2; eapply find_first_in; eauto|].
  destruct (find_last (param_match s) (e_par E) 0) eqn:F3.
  { exfalso. apply find_last_in in F3 as (p0 & Hp & M). apply param_match_num in M; auto. subst.
    apply NO, O4; auto. }
  destruct (find_last (fun p => param_match s (p ++ s_ "_t")) (e_par E) 0) eqn:F4.
  { exfalso. apply find_last_in in F4 as (p0 & Hp & M). apply param_match_num in M; auto. subst.
    assert (numchar "_"%char = true).
    { eapply isScalar_numchar; eauto. apply in_or_app. right. simpl. auto. }
    discriminate. }
  destruct (find_last _ (e_fun E) 0) as [[j u]|] eqn:F5.
  { exfalso. apply find_last_in in F5 as (p0 & Hp & M). destruct (seq_str s p0) eqn:Q; [|contradiction].
    apply seq_str_true in Q. subst. apply NO, O3; auto. }
  rewrite Hs, Hm. reflexivity.
Qed.

(** ** One step on the printed text *)
Definition parts (e : expr) : list part :=
  match e with
  | Num _ | Var _ => []
  | Par a => [([], a)]
  | Fn f a => [(f, a)]
  | Fn2 f a b => [([], a); (f, b)]
  | Neg _ => sum_parts e
  | Bin BAdd _ _ | Bin BSub _ _ => sum_parts e
  | Bin BPow _ _ => pow_parts e
  | Bin _ _ _ => prod_parts e
  end.

Lemma step_num s : env_ok E -> wf E (Num s) -> decomp_step E (pr (Num s)) = Ok (SLeaf (LNum s)).
Proof.
  intros HE [W1 W2]. unfold decomp_step. simpl. rewrite classify_num; auto.
Qed.

Lemma step_neg_num s : env_ok E -> wf E (Num s) -> isScalar (pr (Neg (Num s))) = true ->
  plain_num s = true ->
  decomp_step E (pr (Neg (Num s))) = Ok (SLeaf (LNum ("-"%char :: s))).
Proof.
  intros HE [W1 W2] H Pl. unfold decomp_step. simpl pr in *. rewrite Pl in *. simpl in *.
  rewrite classify_num; auto.
Qed.

Lemma neg_num_scalar s : isScalar s = true -> plain_num s = true ->
  isScalar ("-"%char :: s) = true.
Proof.
  intros H Pl. unfold isScalar in *. simpl.
  destruct s as [|c s]; auto.
  assert (is_pm c = false) by (eapply plain_num_nopm; eauto; simpl; auto).
  simpl in *. unfold is_pm in H0. rewrite H0 in *.
  destruct (is_digit c); auto.
Qed.

Lemma nonempty_deps (l : list part) : l <> [] ->
  match map ptext l with [] => if may_be_bare [] then Ok (SDeps []) else Exn
                       | d => Ok (SDeps d) end = Ok (SDeps (map ptext l)).
Proof. destruct l; [contradiction|reflexivity]. Qed.

Lemma sum_parts_nonempty e : sum_parts e <> [].
Proof.
  destruct e; simpl; try discriminate.
  destruct o; try discriminate; intro K; apply app_eq_nil in K as [_ K]; discriminate.
Qed.

Lemma prod_parts_nonempty e : prod_parts e <> [].
Proof.
  destruct e; simpl; try discriminate.
  destruct o; try discriminate; intro K; apply app_eq_nil in K as [_ K]; discriminate.
Qed.

Lemma pow_parts_nonempty e : pow_parts e <> [].
Proof.
  destruct e; simpl; try discriminate.
  destruct o; try discriminate; intro K; apply app_eq_nil in K as [_ K]; discriminate.
Qed.

Lemma step_split s l : classify E s = None -> isOperator s = None ->
  split s = Ok (map ptext l) -> l <> [] ->
  decomp_step E s = Ok (SDeps (map ptext l)).
Proof.
  intros H1 H2 H3 H4. unfold decomp_step. rewrite H1, H2, H3.
  destruct l; [contradiction|reflexivity].
Qed.

Lemma step_compound e : env_ok E -> wf E e -> compound e -> ~ numlike e ->
  decomp_step E (pr e) = Ok (SDeps (map ptext (parts e))).
Proof.
  intros HE W C N. pose proof (classify_compound e HE W C N) as CL.
  destruct e; simpl in C; try contradiction.
  - (* Par *) simpl parts. apply step_split; [exact CL | | |].
    + apply not_op_first. reflexivity.
    + apply split_par; auto.
    + discriminate.
  - (* Neg *) simpl parts. apply step_split; [exact CL | | |].
    + apply not_op_first. reflexivity.
    + apply split_sum; eauto.
    + discriminate.
  - (* Bin *)
    assert (OP : isOperator (pr (Bin o e1 e2)) = None).
    { simpl in W. destruct W as [W1 W2]. simpl pr. cbn [app].
      apply not_op_bin; try apply bsym_facts.
      - apply (wt_nested (blev o) e1); auto.
      - apply (wt_nonempty (S (blev o)) e2); auto. }
    destruct o; simpl parts; (apply step_split; [exact CL | exact OP | |]).
    all: try (apply split_sum; auto; right; eauto; fail).
    all: try (apply split_prod; auto; fail).
    all: try (apply split_pow; auto; fail).
    all: try apply (sum_parts_nonempty (Bin BAdd e1 e2)).
    all: try apply (sum_parts_nonempty (Bin BSub e1 e2)).
    all: try apply (prod_parts_nonempty (Bin BMul e1 e2)).
    all: try apply (prod_parts_nonempty (Bin BDiv e1 e2)).
    all: try apply (prod_parts_nonempty (Bin BLt e1 e2)).
    all: try apply (prod_parts_nonempty (Bin BGt e1 e2)).
    all: try apply (pow_parts_nonempty (Bin BPow e1 e2)).
  - (* Fn *) assert (Hf : In f known_ops) by (apply unary_known, W).
    destruct (isOperator_fn f e Hf W) as [OP|OP].
    + simpl parts. apply step_split; [exact CL | exact OP | |].
      * apply split_fn; auto.
      * discriminate.
    + unfold decomp_step. rewrite CL, OP. reflexivity.
  - (* Fn2 *) assert (Hf : In f known_ops) by (apply fn2_known, W).
    unfold decomp_step. rewrite CL, (isOperator_fn2 f e1 e2 Hf W). reflexivity.
Qed.

(** ** Parts: well-formedness, height, value *)
Lemma parts_wf e : wf E e -> Forall (fun p => wf E (snd p)) (parts e).
Proof.
  assert (S : forall e, wf E e -> Forall (fun p => wf E (snd p)) (sum_parts e)).
  { induction e0; intro W; simpl in *; try (constructor; [apply (wf_par 1); auto|constructor]).
    - constructor; [split; reflexivity | constructor; [apply wf_par; auto|constructor]].
    - destruct W as [W1 W2].
      destruct o; try (constructor; [apply (wf_par 1); simpl; auto|constructor]);
      apply Forall_app; split; auto; constructor; [apply wf_par; auto|constructor|apply wf_par; auto|constructor]. }
  assert (P : forall e, wf E e -> Forall (fun p => wf E (snd p)) (prod_parts e)).
  { induction e0; intro W; simpl in *; try (constructor; [apply (wf_par 2); auto|constructor]).
    destruct W as [W1 W2].
    destruct o; try (constructor; [apply (wf_par 2); simpl; auto|constructor]);
      apply Forall_app; split; auto; constructor; try constructor; apply wf_par; auto. }
  assert (Q : forall e, wf E e -> Forall (fun p => wf E (snd p)) (pow_parts e)).
  { induction e0; intro W; simpl in *; try (constructor; [apply (wf_par 3); auto|constructor]).
    destruct W as [W1 W2].
    destruct o; try (constructor; [apply (wf_par 3); simpl; auto|constructor]);
      apply Forall_app; split; auto; constructor; try constructor; apply wf_par; auto. }
  intro W. destruct e; simpl parts.
  - constructor.
  - constructor.
  - constructor; [exact W|constructor].
  - apply (S (Neg e)); auto.
  - destruct o; [apply (S (Bin BAdd e1 e2)) | apply (S (Bin BSub e1 e2))
                | apply (P (Bin BMul e1 e2)) | apply (P (Bin BDiv e1 e2))
                | apply (P (Bin BLt e1 e2)) | apply (P (Bin BGt e1 e2))
                | apply (Q (Bin BPow e1 e2))]; auto.
  - constructor; [apply W|constructor].
  - destruct W as (_ & W1 & W2 & _). constructor; auto.
Qed.

Lemma parts_height e : Forall (fun p => height (snd p) < height e) (parts e).
Proof.
  assert (HP : forall l e n, S (height e) < n -> height (par l e) < n).
  { intros l e0 n H. pose proof (height_par l e0). lia. }
  assert (S : forall e, Forall (fun p => height (snd p) <= S (height e)) (sum_parts e)
             /\ (forall o a b, e = Bin o a b -> blev o = 1 -> Forall (fun p => height (snd p) < height e) (sum_parts e))).
  { induction e0; (split; [|intros o' a' b' Q HQ; try discriminate]); simpl in *;
      try (constructor; [apply (height_par 1)|constructor]; fail).
    - constructor; [simpl; lia|]. constructor; [|constructor]. simpl. pose proof (height_par 2 e0). lia.
    - destruct o; try (constructor; [apply (height_par 1 (Bin _ e0_1 e0_2))|constructor]);
      (apply Forall_app; split;
       [eapply Forall_impl; [|apply IHe0_1]; simpl; intros; lia
       |constructor; [simpl; pose proof (height_par 2 e0_2); lia | constructor]]).
    - inversion Q; subst. destruct o'; try discriminate;
      (apply Forall_app; split;
       [eapply Forall_impl; [|apply IHe0_1]; simpl; intros; lia
       |constructor; [simpl; pose proof (height_par 2 b'); lia | constructor]]). }
  assert (P : forall e, Forall (fun p => height (snd p) <= 1 + (height e)) (prod_parts e)
             /\ (forall o a b, e = Bin o a b -> blev o = 2 -> Forall (fun p => height (snd p) < height e) (prod_parts e))).
  { induction e0; (split; [|intros o' a' b' Q HQ; try discriminate]); simpl in *;
      try (constructor; [apply (height_par 2)|constructor]; fail).
    - destruct o; try (constructor; [apply (height_par 2 (Bin _ e0_1 e0_2))|constructor]);
      (apply Forall_app; split;
       [eapply Forall_impl; [|apply IHe0_1]; simpl; intros; lia
       |constructor; [simpl; pose proof (height_par 3 e0_2); lia | constructor]]).
    - inversion Q; subst. destruct o'; try discriminate;
      (apply Forall_app; split;
       [eapply Forall_impl; [|apply IHe0_1]; simpl; intros; lia
       |constructor; [simpl; pose proof (height_par 3 b'); lia | constructor]]). }
  assert (W : forall e, Forall (fun p => height (snd p) <= 1 + (height e)) (pow_parts e)
             /\ (forall o a b, e = Bin o a b -> blev o = 3 -> Forall (fun p => height (snd p) < height e) (pow_parts e))).
  { induction e0; (split; [|intros o' a' b' Q HQ; try discriminate]); simpl in *;
      try (constructor; [apply (height_par 3)|constructor]; fail).
    - destruct o; try (constructor; [apply (height_par 3 (Bin _ e0_1 e0_2))|constructor]);
      (apply Forall_app; split;
       [eapply Forall_impl; [|apply IHe0_1]; simpl; intros; lia
       |constructor; [simpl; pose proof (height_par 4 e0_2); lia | constructor]]).
    - inversion Q; subst. destruct o'; try discriminate;
      (apply Forall_app; split;
       [eapply Forall_impl; [|apply IHe0_1]; simpl; intros; lia
       |constructor; [simpl; pose proof (height_par 4 b'); lia | constructor]]). }
  destruct e; simpl parts.
  - constructor.
  - constructor.
  - constructor; [simpl; lia|constructor].
  - constructor; [simpl; lia|]. constructor; [|constructor]. simpl. pose proof (height_par 2 e). lia.
  - destruct o; [apply (S (Bin BAdd e1 e2)) with (o := BAdd) (a := e1) (b := e2)
                | apply (S (Bin BSub e1 e2)) with (o := BSub) (a := e1) (b := e2)
                | apply (P (Bin BMul e1 e2)) with (o := BMul) (a := e1) (b := e2)
                | apply (P (Bin BDiv e1 e2)) with (o := BDiv) (a := e1) (b := e2)
                | apply (P (Bin BLt e1 e2)) with (o := BLt) (a := e1) (b := e2)
                | apply (P (Bin BGt e1 e2)) with (o := BGt) (a := e1) (b := e2)
                | apply (W (Bin BPow e1 e2)) with (o := BPow) (a := e1) (b := e2)]; auto.
  - constructor; [simpl; lia|constructor].
  - constructor; [simpl; lia|constructor; [simpl; lia|constructor]].
Qed.

Local Opaque par.
Lemma parts_vars e p : In p (parts e) -> forall s, In s (vars (snd p)) -> In s (vars e).
Proof.
  assert (S : forall e p, In p (sum_parts e) -> forall s, In s (vars (snd p)) -> In s (vars e)).
  { induction e0; intros q Hq s' Hs; simpl in *;
      try (destruct Hq as [<-|[]]; simpl in Hs; rewrite vars_par in Hs; exact Hs);
      try (destruct Hq as [<-|[]]; exact Hs; fail).
    - destruct Hq as [<-|[<-|[]]]; simpl in Hs; [destruct Hs|]. rewrite vars_par in Hs. auto.
    - destruct o; try (destruct Hq as [<-|[]]; simpl in Hs; rewrite vars_par in Hs; exact Hs);
      (apply in_app_or in Hq as [Hq|[<-|[]]]; apply in_or_app;
        [left; eauto | right; simpl in Hs; rewrite vars_par in Hs; auto]). }
  assert (P : forall e p, In p (prod_parts e) -> forall s, In s (vars (snd p)) -> In s (vars e)).
  { induction e0; intros q Hq s' Hs; simpl in *;
      try (destruct Hq as [<-|[]]; simpl in Hs; rewrite vars_par in Hs; exact Hs);
      try (destruct Hq as [<-|[]]; exact Hs; fail).
    - destruct o; try (destruct Hq as [<-|[]]; simpl in Hs; rewrite vars_par in Hs; exact Hs);
      (apply in_app_or in Hq as [Hq|[<-|[]]]; apply in_or_app;
        [left; eauto | right; simpl in Hs; rewrite vars_par in Hs; auto]). }
  assert (W : forall e p, In p (pow_parts e) -> forall s, In s (vars (snd p)) -> In s (vars e)).
  { induction e0; intros q Hq s' Hs; simpl in *;
      try (destruct Hq as [<-|[]]; simpl in Hs; rewrite vars_par in Hs; exact Hs);
      try (destruct Hq as [<-|[]]; exact Hs; fail).
    - destruct o; try (destruct Hq as [<-|[]]; simpl in Hs; rewrite vars_par in Hs; exact Hs);
      (apply in_app_or in Hq as [Hq|[<-|[]]]; apply in_or_app;
        [left; eauto | right; simpl in Hs; rewrite vars_par in Hs; auto]). }
  destruct e; simpl parts; intros Hp s' Hs.
  - destruct Hp.
  - destruct Hp.
  - destruct Hp as [<-|[]]. exact Hs.
  - apply (S (Neg e) p); auto.
  - destruct o; [apply (S (Bin BAdd e1 e2) p) | apply (S (Bin BSub e1 e2) p)
                | apply (P (Bin BMul e1 e2) p) | apply (P (Bin BDiv e1 e2) p)
                | apply (P (Bin BLt e1 e2) p) | apply (P (Bin BGt e1 e2) p)
                | apply (W (Bin BPow e1 e2) p)]; auto.
  - destruct Hp as [<-|[]]. exact Hs.
  - simpl. apply in_or_app. destruct Hp as [<-|[<-|[]]]; auto.
Qed.

Local Transparent par.

(** ** Success within the allowed number of rounds *)
Lemma map_outcome_ok {A B} (f : A -> outcome B) l :
  (forall x, In x l -> exists y, f x = Ok y) -> exists ys, map_outcome f l = Ok ys.
Proof.
  induction l as [|x l IH]; intro H; simpl; eauto.
  destruct (H x (or_introl eq_refl)) as [y ->].
  destruct IH as [ys ->]; eauto. intros z Hz. apply H. simpl. auto.
Qed.

Lemma decomp_succeeds n : forall e, env_ok E -> wf E e -> height e <= n ->
  exists t, decomp E n (pr e) = Ok t.
Proof.
  induction n as [|n IH]; intros e HE W H.
  - destruct e; simpl in H; lia.
  - simpl. destruct e as [s|s| | | | |] eqn:Ee.
    + rewrite step_num; eauto.
    + simpl in W. destruct W as [W [l Hl]]. unfold decomp_step. simpl pr. rewrite Hl. eauto.
    + rewrite step_compound; simpl; auto.
      2:{ intros [[s Q]|(s & Q & _)]; discriminate. }
      destruct (IH e0) as [t ->]; eauto. simpl in H. lia.
    + destruct (classify E (pr (Neg e0))) eqn:CL.
      * apply classify_atomlike in CL; auto. destruct CL as [CL|CL].
        -- destruct (isScalar_pr (Neg e0) W CL) as [[s Q]|(s & Q & Ps)]; [discriminate|].
           inversion Q; subst. rewrite step_neg_num; eauto.
        -- exfalso. eapply (compound_not_atomlike (Neg e0)); eauto. exact I.
      * assert (N : ~ numlike (Neg e0)).
        { intros [[s Q]|(s & Q & Ps)]; [discriminate|]. inversion Q; subst.
          simpl in W. destruct W as [W1 W2].
          assert (isScalar ("-"%char :: s) = true) by (apply neg_num_scalar; auto).
          simpl pr in CL. rewrite Ps in CL. simpl in CL.
          rewrite classify_num in CL; auto. discriminate. }
        rewrite step_compound; auto; [|exact I].
        edestruct @map_outcome_ok as [ys ->]; [|eauto].
        intros x Hx. apply in_map_iff in Hx as (p & <- & Hp).
        pose proof (parts_height (Neg e0)) as PH. rewrite Forall_forall in PH. specialize (PH _ Hp).
        pose proof (parts_wf (Neg e0) W) as PW. rewrite Forall_forall in PW. specialize (PW _ Hp).
        destruct (IH (snd p)) as [t Ht]; auto; [lia|]. simpl. rewrite Ht. eauto.
    + rewrite step_compound; simpl; auto.
      2:{ intros [[s Q]|(s & Q & _)]; discriminate. }
      edestruct @map_outcome_ok as [ys ->]; [|eauto].
      intros x Hx. apply in_map_iff in Hx as (p & <- & Hp).
      pose proof (parts_height (Bin o e0_1 e0_2)) as PH. rewrite Forall_forall in PH. specialize (PH _ Hp).
      pose proof (parts_wf (Bin o e0_1 e0_2) W) as PW. rewrite Forall_forall in PW. specialize (PW _ Hp).
      destruct (IH (snd p)) as [t Ht]; auto; [lia|]. simpl. rewrite Ht. eauto.
    + rewrite step_compound; simpl; auto.
      2:{ intros [[s Q]|(s & Q & _)]; discriminate. }
      destruct (IH e0) as [t ->]; eauto; [apply W | simpl in H; lia].
    + rewrite step_compound; simpl; auto.
      2:{ intros [[s Q]|(s & Q & _)]; discriminate. }
      destruct W as (_ & W1 & W2 & _). simpl in H.
      destruct (IH e0_1) as [t ->]; auto; [lia|]. destruct (IH e0_2) as [t2 ->]; eauto. lia.
Qed.

(** ** Value *)
Section Value.
Context {V : Type} (O : ops V).
Variable num : str -> V.
Variable nv : str -> V.
Variable rho : leaf -> option V.
Variable stale : V.

Hypothesis rho_num : forall s, rho (LNum s) = Some (num s).
Hypothesis num_neg : forall s, plain_num s = true ->
  num ("-"%char :: s) = o_add O (num (s_ "0.0")) (o_neg O (num s)).

Notation D := (den O num nv).
Notation ev := (eval O rho stale).

Lemma den_par l e : D (par l e) = D e.
Proof. unfold par. destruct (lev e <? l); reflexivity. Qed.

Definition pfold (l : list part) (d : V) : V :=
  fold_left (fun acc p => apply_op O (fst p) acc (D (snd p))) l d.

Lemma pfold_app l1 l2 d : pfold (l1 ++ l2) d = pfold l2 (pfold l1 d).
Proof. apply fold_left_app. Qed.

Local Opaque par.
Lemma parts_den e d : compound e -> wf E e -> pfold (parts e) d = D e.
Proof.
  assert (S : forall e d, pfold (sum_parts e) d = D e).
  { induction e0; intro d0; try (unfold pfold; simpl; try rewrite den_par; reflexivity).
    - destruct o; try (unfold pfold; simpl; rewrite den_par; reflexivity);
      simpl sum_parts; rewrite pfold_app, IHe0_1; unfold pfold; simpl; rewrite den_par; reflexivity. }
  assert (P : forall e d, pfold (prod_parts e) d = D e).
  { induction e0; intro d0; try (unfold pfold; simpl; try rewrite den_par; reflexivity).
    - destruct o; try (unfold pfold; simpl; rewrite den_par; reflexivity);
      simpl prod_parts; rewrite pfold_app, IHe0_1; unfold pfold; simpl; rewrite den_par; reflexivity. }
  assert (W : forall e d, pfold (pow_parts e) d = D e).
  { induction e0; intro d0; try (unfold pfold; simpl; try rewrite den_par; reflexivity).
    - destruct o; try (unfold pfold; simpl; rewrite den_par; reflexivity);
      simpl pow_parts; rewrite pfold_app, IHe0_1; unfold pfold; simpl; rewrite den_par; reflexivity. }
  intros C HW. destruct e; simpl in C; try contradiction.
  - reflexivity.
  - apply (S (Neg e)).
  - destruct o; [apply (S (Bin BAdd e1 e2)) | apply (S (Bin BSub e1 e2))
                | apply (P (Bin BMul e1 e2)) | apply (P (Bin BDiv e1 e2))
                | apply (P (Bin BLt e1 e2)) | apply (P (Bin BGt e1 e2))
                | apply (W (Bin BPow e1 e2))].
  - destruct HW as [Hf _]. unfold pfold. simpl. unfold unary_ops in Hf. simpl in Hf.
    repeat (destruct Hf as [<-|Hf]; [reflexivity|]). destruct Hf.
  - destruct HW as [Hf _]. unfold pfold. simpl. unfold fn2_names in Hf. simpl in Hf.
    repeat (destruct Hf as [<-|Hf]; [reflexivity|]). destruct Hf.
Qed.

Local Transparent par.

Definition agree (e : expr) : Prop :=
  forall s l, In s (vars e) -> classify E s = Some (Ok l) -> rho l = Some (nv s).

Lemma fold_trees n (IH : forall e t, wf E e -> agree e -> decomp E n (pr e) = Ok t -> ev t = Some (D e)) :
  forall (l : list part) ts d,
  Forall (fun p => wf E (snd p)) l -> (forall p, In p l -> agree (snd p)) ->
  map_outcome (fun x => match decomp E n (snd x) with
                        | Ok t => Ok (fst x, t) | Exn => Exn | UB => UB end)
              (map ptext l) = Ok ts ->
  fold_left (fun acc x =>
     match acc, ev (snd x) with
     | Some data, Some td => Some (apply_op O (fst x) data td)
     | _, _ => None
     end) ts (Some d) = Some (pfold l d).
Proof.
  induction l as [|p l IHl]; intros ts d Fw Fa H; simpl in H.
  - inversion H; subst. reflexivity.
  - destruct (decomp E n (pr (snd p))) as [t| |] eqn:Q; try discriminate.
    match type of H with match ?m with _ => _ end = _ => destruct m as [ts'| |] eqn:Q2; try discriminate end.
    inversion H; subst. simpl. inversion Fw; subst.
    rewrite (IH (snd p) t); auto.
    + apply IHl; auto. intros q Hq. apply Fa. simpl; auto.
    + apply Fa. simpl; auto.
Qed.

Lemma decomp_value n : forall e t, env_ok E -> wf E e -> agree e ->
  decomp E n (pr e) = Ok t -> ev t = Some (D e).
Proof.
  induction n as [|n IH]; intros e t HE W A H; [discriminate|].
  simpl in H.
  assert (Gen : compound e -> ~ numlike e -> ev t = Some (D e)).
  { intros C N. rewrite step_compound in H by auto.
    match type of H with match ?m with _ => _ end = _ => destruct m as [ts| |] eqn:Q; try discriminate end.
    inversion H; subst. simpl.
    rewrite (fold_trees n) with (l := parts e); auto.
    - rewrite parts_den; auto.
    - apply parts_wf; auto.
    - intros p Hp s l Hs Hl. eapply A; eauto. eapply parts_vars; eauto. }
  destruct e as [s|s| | | | |] eqn:Ee.
  - rewrite step_num in H by auto. inversion H; subst. simpl. apply rho_num.
  - simpl in W. destruct W as [W [l Hl]]. unfold decomp_step in H. simpl pr in H. rewrite Hl in H.
    inversion H; subst. simpl. apply (A s l); simpl; auto.
  - apply Gen; [exact I|]. intros [[s Q]|(s & Q & _)]; discriminate.
  - destruct e0 as [s| | | | | |];
      try (apply Gen; [exact I|]; intros [[s' Q]|(s' & Q & _)]; discriminate).
    destruct (plain_num s) eqn:Ps.
    + simpl in W. destruct W as [W1 W2].
      rewrite step_neg_num in H; auto.
      * inversion H; subst. simpl. rewrite rho_num, num_neg; auto.
      * split; auto.
      * simpl. rewrite Ps. simpl. apply neg_num_scalar; auto.
    + apply Gen; [exact I|]. intros [[s' Q]|(s' & Q & Q2)]; [discriminate|].
      inversion Q; subst. congruence.
  - apply Gen; [exact I|]. intros [[s Q]|(s & Q & _)]; discriminate.
  - apply Gen; [exact I|]. intros [[s Q]|(s & Q & _)]; discriminate.
  - apply Gen; [exact I|]. intros [[s Q]|(s & Q & _)]; discriminate.
Qed.

End Value.
End WithEnv.
