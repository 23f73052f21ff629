(** Properties C01-C06: function definitions given as text. *)
From Coq Require Import List Ascii String Bool ZArith QArith Arith Lia Reals Qreals Lra.
From Verif Require Import Interp_Model Interp_Spec Interp_Lemmas Interp_Proofs
  Interp_Nest Interp_Blank Interp_Names Number_Model Number_Spec Number_Proofs.
Import ListNotations.
Local Open Scope nat_scope.

(** ** Expressions a user may write: numerals are decimal numerals, names are
    declared in the environment. *)
Definition declared (E : env) (s : str) : Prop := exists l, means E s l.

(** The functions of one argument. *)
Definition fn1_names : list str :=
  map s_ ["sin"; "cos"; "exp"; "log"; "tan"; "abs"; "sqrt"; "sinh"; "cosh"]%string.

Fixpoint user_expr (E : env) (e : expr) : Prop :=
  match e with
  | Num s => exists n, numeral_ok n /\ s = pr_numeral n
  | Var s => name_ok s /\ declared E s
  | Par a | Neg a => user_expr E a
  | Bin _ a b => user_expr E a /\ user_expr E b
  | Fn f a => In f fn1_names /\ user_expr E a
  | Fn2 f a b => In f fn2_names /\ user_expr E a /\ user_expr E b
                 /\ ~ In ")"%char (pr a) /\ ~ In ")"%char (pr b)
  end.

Lemma mantissa_app a b : existsb is_e a = false -> 
  (existsb is_digit a = true \/ mantissa_has_digit b = true) -> mantissa_has_digit (a ++ b) = true.
Proof.
  induction a as [|c a IH]; simpl; intros He H.
  - destruct H; [discriminate|auto].
  - apply orb_false_iff in He as [He1 He2]. rewrite He1. destruct (is_digit c); auto.
Qed.

Lemma dchars d : digits_ok d -> existsb is_e (map dchar d) = false
  /\ (d <> [] -> existsb is_digit (map dchar d) = true).
Proof.
  intro H. induction H as [|x d Hx H [IH1 IH2]].
  - split; auto; contradiction.
  - destruct (dchar_table x Hx) as (A & _ & B & _). cbn [map existsb]. rewrite A, B. split; auto.
Qed.

Lemma numeral_mantissa n : numeral_ok n -> mantissa_has_digit (pr_numeral n) = true.
Proof.
  intros (Hw & Hf & Hne & He). unfold pr_numeral.
  apply mantissa_app; [destruct (n_sign n); reflexivity|]. right.
  destruct (dchars _ Hw) as [W1 W2].
  apply mantissa_app; auto. destruct Hne as [N|(d & f & N)].
  - left. auto.
  - right. rewrite N in *. cbn [app mantissa_has_digit]. change (is_digit "."%char) with false.
    change (is_e "."%char) with false. cbv iota.
    destruct (dchars _ Hf) as [F1 F2]. apply mantissa_app; auto. left. apply F2. discriminate.
Qed.

Lemma fn1_known f : In f fn1_names -> In f unary_ops.
Proof. unfold fn1_names, unary_ops. cbn. tauto. Qed.

Lemma user_wf E e : user_expr E e -> wf E e.
Proof.
  induction e; simpl; intro H.
  - destruct H as (n & Hn & ->). split; [apply numeral_scalar | apply numeral_mantissa]; auto.
  - destruct H as [H1 [l H2]]. split; auto. eapply means_classify; eauto.
  - auto.
  - auto.
  - tauto.
  - destruct H as [Hf H]. split; [exact (fn1_known f Hf)|auto].
  - tauto.
Qed.

(* ================================================================== *)
(** ** C01: the value of a definition is the value of the expression.

    For every arithmetic (doubles, AD types, reals: [O] is arbitrary), every
    user expression written with the minimal parentheses (or more), every
    environment: if the definition is accepted then its value is the denotation
    of the expression; and it is accepted when it is at most 100 levels deep. *)
Theorem C01_expression_value :
  forall (V : Type) (O : ops V) (E : env) (e : expr)
         (num nv : str -> V) (rho : leaf -> option V) (stale : V) (t : tree),
  env_ok E -> user_expr E e ->
  (forall s, rho (LNum s) = Some (num s)) ->
  (forall s, plain_num s = true -> num ("-"%char :: s) = o_add O (num (s_ "0.0")) (o_neg O (num s))) ->
  (forall s l, In s (vars e) -> refers E s l -> rho l = Some (nv s)) ->
  decompose E (pr e) = Ok t ->
  eval O rho stale t = Some (den O num nv e).
Proof.
  intros V O E e num nv rho stale t HE U H1 H2 H3 H4.
  exact (decomp_value E O num nv rho stale H1 H2 maxiter e t HE (user_wf E e U)
    (fun s l Hs Hc => H3 s l Hs (classify_refers E s l Hc)) H4).
Qed.

Theorem C01_expression_accepted :
  forall (E : env) (e : expr), env_ok E -> user_expr E e -> height e <= 100 ->
  exists t, decompose E (pr e) = Ok t.
Proof. intros E e HE U H. exact (decomp_succeeds E maxiter e HE (user_wf E e U) H). Qed.

Print Assumptions C01_expression_value.
Print Assumptions C01_expression_accepted.

(** Real instance: the standard value, with the usual unary minus. *)
Section RealInstance.
Local Open Scope R_scope.
Variable pw : R -> R -> R.

Definition Rfun (f : str) (x : R) : R :=
  if seq_str f (s_ "sin") then sin x else if seq_str f (s_ "cos") then cos x
  else if seq_str f (s_ "exp") then exp x else if seq_str f (s_ "log") then ln x
  else if seq_str f (s_ "tan") then tan x else if seq_str f (s_ "abs") then Rabs x
  else if seq_str f (s_ "sqrt") then sqrt x else if seq_str f (s_ "sinh") then sinh x
  else cosh x.

Definition Rgtb (x y : R) : bool := if Rgt_dec x y then true else false.
Definition Rgeb (x y : R) : bool := if Rge_dec x y then true else false.

Definition Rops : ops R :=
  {| o_zero := 0; o_add := Rplus; o_neg := Ropp; o_mul := Rmult; o_div := Rdiv;
     o_pow := pw; o_fun := Rfun; o_gt := Rgtb; o_ge := Rgeb; o_one := 1; o_half := / 2 |}.

Definition Rnum (s : str) : R := match stod s with Some q => Q2R q | None => 0 end.

Variable nv : str -> R.

(** The ordinary meaning of an expression over the reals. *)
Fixpoint Rmean (e : expr) : R :=
  match e with
  | Num s => Rnum s
  | Var s => nv s
  | Par a => Rmean a
  | Neg a => - Rmean a
  | Bin BAdd a b => Rmean a + Rmean b
  | Bin BSub a b => Rmean a - Rmean b
  | Bin BMul a b => Rmean a * Rmean b
  | Bin BDiv a b => Rmean a / Rmean b
  | Bin BPow a b => pw (Rmean a) (Rmean b)
  | Bin BLt a b => if Rlt_dec (Rmean a) (Rmean b) then 1 else 0
  | Bin BGt a b => if Rgt_dec (Rmean a) (Rmean b) then 1 else 0
  | Fn f a => Rfun f (Rmean a)
  | Fn2 f a b => if seq_str f (s_ "max") then Rmax (Rmean a) (Rmean b)
                 else if seq_str f (s_ "min") then Rmin (Rmean a) (Rmean b)
                 else (Rmean a + Rmean b) / 2
  end.

Lemma Rnum_zero : Rnum (s_ "0.0") = 0.
Proof. unfold Rnum. vm_compute stod. unfold Q2R. simpl. field. Qed.

Lemma Rnum_neg s : plain_num s = true -> Rnum ("-"%char :: s) = Rnum (s_ "0.0") + - Rnum s.
Proof.
  intro P. rewrite Rnum_zero, Rplus_0_l. unfold Rnum, stod.
  assert (take_sign ("-"%char :: s) = (true, s)) as -> by reflexivity.
  assert (take_sign s = (false, s)) as ->.
  { destruct s as [|c s]; auto. unfold take_sign.
    assert (is_pm c = false) as Q by (eapply plain_num_nopm; eauto; simpl; auto).
    unfold is_pm in Q. apply orb_false_iff in Q as [-> ->]. reflexivity. }
  destruct (take_digits s) as [ip s2]. destruct (take_frac s2) as [fp s3].
  destruct (ip ++ fp) as [|m l]; [lra|].
  rewrite <- Q2R_opp. apply Qeq_eqR. rewrite inject_Z_opp. ring.
Qed.

Lemma Rmean_den e : den Rops Rnum nv e = Rmean e.
Proof.
  induction e; cbn [den Rmean]; auto.
  - rewrite Rnum_zero, IHe. simpl. ring.
  - destruct o; simpl; rewrite IHe1, IHe2; auto; unfold Rgtb.
    + destruct (Rgt_dec (Rmean e2) (Rmean e1)), (Rlt_dec (Rmean e1) (Rmean e2)); auto; lra.
    + destruct (Rgt_dec (Rmean e1) (Rmean e2)); auto.
  - rewrite IHe. reflexivity.
  - rewrite IHe1, IHe2. unfold den_fn2. cbn [Rops o_gt o_add o_mul o_half]. unfold Rgtb, Rmax, Rmin.
    destruct (seq_str f (s_ "max")).
    { destruct (Rgt_dec (Rmean e2) (Rmean e1)), (Rle_dec (Rmean e1) (Rmean e2)); cbv iota; lra. }
    destruct (seq_str f (s_ "min")).
    { destruct (Rgt_dec (Rmean e1) (Rmean e2)), (Rle_dec (Rmean e1) (Rmean e2)); cbv iota; lra. }
    field.
Qed.
End RealInstance.

Theorem C01_real_value :
  forall (pw : R -> R -> R) (E : env) (e : expr) (nv : str -> R) (rho : leaf -> option R) (stale : R),
  env_ok E -> user_expr E e -> height e <= 100 ->
  (forall s, rho (LNum s) = Some (Rnum s)) ->
  (forall s l, In s (vars e) -> refers E s l -> rho l = Some (nv s)) ->
  exists t, decompose E (pr e) = Ok t /\ eval (Rops pw) rho stale t = Some (Rmean pw nv e).
Proof.
  intros pw E e nv rho stale HE U H H1 H2.
  destruct (C01_expression_accepted E e HE U H) as [t T]. exists t. split; auto.
  rewrite <- Rmean_den.
  apply (C01_expression_value R (Rops pw) E e Rnum nv rho stale t); auto.
  intros s P. exact (Rnum_neg s P).
Qed.
Print Assumptions C01_real_value.

(** A case: (x+2)*y-3 over -x^2*sin(x*y), with a field x, a scalar y. *)
Definition ex_env : env :=
  {| e_soln := [s_ "x"]; e_scal := [s_ "y"]; e_par := [s_ "p"]; e_fun := [] |}.

Lemma name_ok_simple s : (forall c, In c s -> special c = false) -> isScalar s = false ->
  ~ In "("%char s -> ~ In ")"%char s -> name_ok s.
Proof.
  intros H1 H2 H3 H4. split; [apply nested_noparen; auto|]. split; [auto|]. split; [auto|]. split.
  - apply not_true_is_false. intro K. apply starts_with_spec in K as [r K].
    apply H3. rewrite K. simpl. auto.
  - intros f Hf. apply not_true_is_false. intro K. apply starts_with_spec in K as [r K].
    apply H3. rewrite K. rewrite !in_app_iff. simpl. tauto.
Qed.

Ltac name_tac := apply name_ok_simple;
  [ intros c Hc; simpl in Hc; repeat (destruct Hc as [<-|Hc]; [reflexivity|]); destruct Hc
  | reflexivity
  | simpl; intuition discriminate
  | simpl; intuition discriminate ].

Lemma ex_env_ok : env_ok ex_env.
Proof.
  split; [|split; [|split]]; simpl; intros s H; try contradiction; destruct H as [<-|[]]; try name_tac.
  split; [name_tac|]. intro K. unfold known_ops in K. simpl in K. intuition discriminate.
Qed.

Definition num3 := {| n_sign := NoSign; n_whole := [3]; n_frac := None; n_exp := None |}.
Definition num25 := {| n_sign := NoSign; n_whole := [2]; n_frac := Some [5]; n_exp := None |}.

Lemma num3_ok : numeral_ok num3.
Proof. repeat split; try (repeat constructor; lia). left. discriminate. Qed.
Lemma num25_ok : numeral_ok num25.
Proof. repeat split; try (repeat constructor; lia). left. discriminate. Qed.

Definition X := Var (s_ "x").
Definition Y := Var (s_ "y").

(** "(x+2.5)*y-3" *)
Definition ex_expr : expr :=
  Bin BSub (Bin BMul (Bin BAdd X (Num (pr_numeral num25))) Y) (Num (pr_numeral num3)).

Example ex_text : pr ex_expr = s_ "(x+2.5)*y-3".
Proof. reflexivity. Qed.

Lemma ex_user : user_expr ex_env ex_expr.
Proof.
  assert (name_ok (s_ "x")) by name_tac. assert (name_ok (s_ "y")) by name_tac.
  assert (D1 : declared ex_env (s_ "x")) by (exists (LSoln 0); apply m_soln; reflexivity).
  assert (D2 : declared ex_env (s_ "y")) by (exists (LScal 0); apply m_scal; reflexivity).
  cbn [user_expr ex_expr X Y]. split; [split; [split; [auto|]|auto]|].
  - exists num25. split; [apply num25_ok|reflexivity].
  - exists num3. split; [apply num3_ok|reflexivity].
Qed.

Example C01_case : exists t, decompose ex_env (pr ex_expr) = Ok t.
Proof. apply C01_expression_accepted; [apply ex_env_ok | apply ex_user | vm_compute; lia]. Qed.

(** What a name of a definition refers to: exactly one thing, and the evaluated tree refers to it.
    [refers] orders the readings: solution fields, scalar fields, parameters (p, p(3), p(12)),
    their time derivatives (p_t), functions, numbers, t, pi and the coordinates. *)
Theorem C01_name_reference :
  forall (E : env) (s : str),
  (forall l, means E s l -> exists l', refers E s l' /\ decompose E s = Ok (Leaf l')) /\
  (forall l l', refers E s l -> refers E s l' -> l = l').
Proof.
  intros E s. split; [|apply refers_fun]. intros l M. destruct (means_classify E s l M) as [l' C].
  exists l'. split; [apply classify_refers; auto|]. unfold decompose, maxiter. cbn [decomp]. unfold decomp_step. rewrite C. reflexivity.
Qed.
Print Assumptions C01_name_reference.

(** Component 7 of parameter p, component 12 of its time derivative. *)
Example C01_reference_case :
  refers ex_env (s_ "p(7)") (LPar 0 7) /\ refers ex_env (s_ "p_t(12)") (LParDot 0 12) /\ refers ex_env (s_ "x") (LSoln 0)
  /\ decompose ex_env (s_ "p_t(12)") = Ok (Leaf (LParDot 0 12)).
Proof.
  split; [apply classify_refers; reflexivity|]. split; [apply classify_refers; reflexivity|].
  split; [apply classify_refers; reflexivity|reflexivity].
Qed.

(** "a<=b" and "a>=b" as a whole definition: 1 if the comparison holds, 0 otherwise.  The
    grammar of [expr] has the strict comparisons only, because the signs do not compose: see
    the next theorem. *)
Theorem C59_weak_comparison_partial :
  forall (V : Type) (O : ops V) (E : env) (a b : expr)
         (num nv : str -> V) (rho : leaf -> option V) (stale : V),
  env_ok E -> user_expr E a -> user_expr E b -> height a <= 98 -> height b <= 98 ->
  (forall s, rho (LNum s) = Some (num s)) ->
  (forall s, plain_num s = true -> num ("-"%char :: s) = o_add O (num (s_ "0.0")) (o_neg O (num s))) ->
  (forall s l, In s (vars a ++ vars b) -> refers E s l -> rho l = Some (nv s)) ->
  (exists t, decompose E (wt 2 a ++ s_ "<=" ++ wt 3 b) = Ok t /\
     eval O rho stale t = Some (if o_ge O (den O num nv b) (den O num nv a) then o_one O else o_zero O)) /\
  (exists t, decompose E (wt 2 a ++ s_ ">=" ++ wt 3 b) = Ok t /\
     eval O rho stale t = Some (if o_ge O (den O num nv a) (den O num nv b) then o_one O else o_zero O)).
Proof.
  intros V O E a b num nv rho stale HE Ua Ub Ha Hb H1 H2 H3.
  assert (A : forall s l, In s (vars a ++ vars b) -> classify E s = Some (Ok l) -> rho l = Some (nv s))
    by (intros s l Hs Hc; apply (H3 s l Hs), classify_refers; auto).
  split; [exact (cmp_value E O num nv rho stale false a b H1 H2 HE (user_wf E a Ua) (user_wf E b Ub) Ha Hb A)
         |exact (cmp_value E O num nv rho stale true a b H1 H2 HE (user_wf E a Ua) (user_wf E b Ub) Ha Hb A)].
Qed.
Print Assumptions C59_weak_comparison_partial.

(** ** C06: two-argument functions (arguments without closing parenthesis). *)
Theorem C06_two_arguments_partial :
  forall (V : Type) (O : ops V) (E : env) (f : str) (a b : expr)
         (num nv : str -> V) (rho : leaf -> option V) (stale : V),
  env_ok E -> In f fn2_names -> user_expr E a -> user_expr E b ->
  ~ In ")"%char (pr a) -> ~ In ")"%char (pr b) ->
  height a <= 99 -> height b <= 99 ->
  (forall s, rho (LNum s) = Some (num s)) ->
  (forall s, plain_num s = true -> num ("-"%char :: s) = o_add O (num (s_ "0.0")) (o_neg O (num s))) ->
  (forall s l, In s (vars a ++ vars b) -> refers E s l -> rho l = Some (nv s)) ->
  exists t, decompose E (f ++ s_ "(" ++ pr a ++ s_ "," ++ pr b ++ s_ ")") = Ok t
    /\ eval O rho stale t = Some (den_fn2 O f (den O num nv a) (den O num nv b)).
Proof.
  intros V O E f a b num nv rho stale HE Hf Ua Ub Na Nb Ha Hb H1 H2 H3.
  assert (U : user_expr E (Fn2 f a b)) by (simpl; auto).
  replace (f ++ s_ "(" ++ pr a ++ s_ "," ++ pr b ++ s_ ")") with (pr (Fn2 f a b)).
  2:{ simpl. unfold wrap. rewrite <- !app_assoc. reflexivity. }
  destruct (C01_expression_accepted E (Fn2 f a b) HE U) as [t T]; [simpl; lia|].
  exists t. split; auto.
  exact (C01_expression_value V O E (Fn2 f a b) num nv rho stale t HE U H1 H2 H3 T).
Qed.
Print Assumptions C06_two_arguments_partial.

(** Integer arithmetic for the witnesses below. *)
Definition Zops : ops Z :=
  {| o_zero := 0%Z; o_add := Z.add; o_neg := Z.opp; o_mul := Z.mul; o_div := Z.div;
     o_pow := Z.pow; o_fun := fun _ x => (x + 1)%Z; o_gt := Z.gtb; o_ge := Z.geb;
     o_one := 1%Z; o_half := 0%Z |}.

Definition Zrho (x y : Z) (l : leaf) : option Z :=
  match l with
  | LSoln _ => Some x
  | LScal _ => Some y
  | LNum s => match stod s with Some q => Some (Qnum (Qred q)) | None => None end
  | _ => Some 0%Z
  end.

(** "x<=y" at x = y = 2 is 1, but "(x<=y)+1" is 1 instead of 2: below a sum the equality sign is lost. *)
Theorem C59_weak_comparison_in_sum_refuted :
  (exists t, decompose ex_env (s_ "x<=y") = Ok t /\ eval Zops (Zrho 2 2) 0%Z t = Some 1%Z) /\
  (exists t, decompose ex_env (s_ "(x<=y)+1") = Ok t /\ eval Zops (Zrho 2 2) 0%Z t = Some 1%Z).
Proof. split; eexists; (split; [vm_compute; reflexivity|reflexivity]). Qed.
Print Assumptions C59_weak_comparison_in_sum_refuted.

(** A nested call as second argument: "max(x,sin(y))" is accepted; with sin
    replaced by +1, x = 3, y = 4, the value should be 5, but is 0. *)
Theorem C06_nested_call_refuted :
  exists t, decompose ex_env (s_ "max(x,sin(y))") = Ok t
    /\ eval Zops (Zrho 3 4) 0%Z t = Some 0%Z
    /\ den_fn2 Zops (s_ "max") 3%Z (o_fun Zops (s_ "sin") 4%Z) = 5%Z.
Proof. eexists. split; [vm_compute; reflexivity|]. split; reflexivity. Qed.
Print Assumptions C06_nested_call_refuted.

(* ================================================================== *)
(** ** C02: blanks. *)
Theorem C02_blanks_partial :
  forall (V : Type) (O : ops V) (E : env) (e : expr) (s : str)
         (num nv : str -> V) (rho : leaf -> option V) (stale : V) (t : tree),
  env_ok E -> user_expr E e -> plain_all e -> spaced e s ->
  (forall s, rho (LNum s) = Some (num s)) ->
  (forall s, plain_num s = true -> num ("-"%char :: s) = o_add O (num (s_ "0.0")) (o_neg O (num s))) ->
  (forall s l, In s (vars e) -> refers E s l -> rho l = Some (nv s)) ->
  decompose E s = Ok t -> ops_known t ->
  eval O rho stale t = Some (den O num nv e).
Proof.
  intros V O E e s num nv rho stale t HE U P S H1 H2 H3 H4 H5.
  exact (spaced_value E O num nv rho stale H1 H2 maxiter e s t HE (user_wf E e U) P
    (fun s l Hs Hc => H3 s l Hs (classify_refers E s l Hc)) S H4 H5).
Qed.
Print Assumptions C02_blanks_partial.

Lemma spc_num n b1 b2 s : blanks b1 -> blanks b2 -> s = b1 ++ n ++ b2 -> spaced (Num n) s.
Proof. intros; subst; constructor; auto. Qed.
Lemma spc_var n b1 b2 s : blanks b1 -> blanks b2 -> s = b1 ++ n ++ b2 -> spaced (Var n) s.
Proof. intros; subst; constructor; auto. Qed.
Ltac ops_tac := cbn [ops_known fst snd]; repeat split; unfold eval_ops, known_ops; simpl; tauto.
Ltac bl := intros c Hc; simpl in Hc; intuition auto.

(** " x + 2.5 * y" meets the hypotheses. *)
Example C02_case :
  exists t, spaced (Bin BAdd X (Bin BMul (Num (pr_numeral num25)) Y)) (s_ " x + 2.5 * y")
   /\ decompose ex_env (s_ " x + 2.5 * y") = Ok t /\ ops_known t
   /\ decompose ex_env (s_ "x+2.5*y") = Ok t.
Proof.
  eexists. split; [|split; [vm_compute; reflexivity|split; [|vm_compute; reflexivity]]].
  - apply (sp_bin BAdd X (Bin BMul (Num (pr_numeral num25)) Y) (s_ " x ") (s_ " 2.5 * y")).
    + apply (spc_var _ [" "%char] [" "%char]); try bl; reflexivity.
    + apply (sp_bin BMul (Num (pr_numeral num25)) Y (s_ " 2.5 ") (s_ " y")).
      * apply (spc_num _ [" "%char] [" "%char]); try bl; reflexivity.
      * apply (spc_var _ [" "%char] []); try bl; reflexivity.
  - ops_tac.
Qed.

(** A blank between a function name and its parenthesis changes the value
    silently: "sin (x)" is accepted, and evaluates to the previous content of
    the result storage, whatever x is. *)
Theorem C02_blank_before_parenthesis_refuted :
  exists t, spaced (Fn (s_ "sin") X) (s_ "sin (x)")
    /\ decompose ex_env (s_ "sin (x)") = Ok t
    /\ forall (V : Type) (O : ops V) rho stale v, rho (LSoln 0) = Some v ->
         eval O rho stale t = Some stale.
Proof.
  eexists. split; [|split; [vm_compute; reflexivity|]].
  - apply (sp_fn (s_ "sin") X (s_ "x") [] [" "%char] []); try bl.
    apply (spc_var _ [] []); try bl; reflexivity.
  - intros V O rho stale v H. simpl. rewrite H. reflexivity.
Qed.
Print Assumptions C02_blank_before_parenthesis_refuted.

(** Blanks around a numeral with signed exponent: " 1e-5" becomes 1 - 5. *)
Theorem C02_blank_before_exponent_refuted :
  exists t, decompose ex_env (s_ " 1e-5") = Ok t
    /\ eval Zops (Zrho 0 0) 0%Z t = Some (-4)%Z.
Proof. eexists. split; [vm_compute; reflexivity|]. reflexivity. Qed.
Print Assumptions C02_blank_before_exponent_refuted.

(* ================================================================== *)
(** ** C03: parentheses. *)
Theorem C03_accepted_is_nested_partial :
  forall (E : env) (s : str) (t : tree), env_nested E ->
  decompose E s = Ok t -> ops_known t -> nested s.
Proof.
  intros E s t HE H K. destruct (decomp_nested E maxiter s t HE H K) as [N|B]; auto.
  apply bare_nested; auto.
Qed.
Print Assumptions C03_accepted_is_nested_partial.

Example C03_case : env_nested ex_env /\ exists t, decompose ex_env (s_ "((x)+sin(y))*3") = Ok t /\ ops_known t.
Proof.
  split.
  - intros s H. apply nested_noparen; simpl in H;
    repeat (destruct H as [H|H]; try contradiction); subst; simpl; intuition discriminate.
  - eexists. split; [vm_compute; reflexivity|].
    ops_tac.
Qed.

(** Without the side condition on the operators: "x)(y)" has one opening and two
    closing parentheses and is accepted. *)
Theorem C03_unbalanced_accepted_refuted :
  exists t, decompose ex_env (s_ "x)(y)") = Ok t /\ bal (s_ "x)(y)") <> 0%Z.
Proof. eexists. split; [vm_compute; reflexivity|]. vm_compute. discriminate. Qed.
Print Assumptions C03_unbalanced_accepted_refuted.

(* ================================================================== *)
(** ** C04: numerals. *)
Theorem C04_numeral_value :
  forall (E : env) (n : numeral), env_ok E -> numeral_ok n ->
  decompose E (pr_numeral n) = Ok (Leaf (LNum (pr_numeral n)))
  /\ exists v, stod (pr_numeral n) = Some v /\ (v == value n)%Q.
Proof.
  intros E n HE Hn. split; [|exact (numeral_value n Hn)].
  unfold decompose, maxiter.
  change (decomp E (S 99) (pr (Num (pr_numeral n))) = Ok (Leaf (LNum (pr_numeral n)))).
  cbn [decomp]. rewrite step_num; auto. split; [apply numeral_scalar|apply numeral_mantissa]; auto.
Qed.
Print Assumptions C04_numeral_value.

(** Which texts are taken for numbers: those of [scalar_text] with a digit in front of the
    exponent mark, unless the text is declared as something else; a declared name wins.  Number
    texts without such a digit are refused, and every text taken for a number has a value. *)
Theorem C04_recognised :
  forall (E : env) (s : str),
  (decompose E s = Ok (Leaf (LNum s)) -> scalar_text s /\ has_value s /\ stod s <> None) /\
  (scalar_text s -> has_value s -> (forall l, means E s l -> l = LNum s) -> decompose E s = Ok (Leaf (LNum s))) /\
  (scalar_text s -> ~ has_value s -> (forall l, ~ means E s l) -> decompose E s = Exn).
Proof.
  intros E s. unfold decompose, maxiter. cbn [decomp]. unfold decomp_step. split; [|split].
  - intros H. assert (C : classify E s = Some (Ok (LNum s))).
    { destruct (classify E s) as [[l| |]|]; try discriminate; [congruence|]. exfalso.
      destruct (isOperator s) as [[d| |]|]; try discriminate.
      2: destruct (split s) as [[|d ds]| |]; try discriminate; [destruct (may_be_bare s); discriminate|].
      all: match type of H with match ?m with _ => _ end = _ => destruct m; discriminate end. }
    apply classify_means in C. inversion C; subst. split; auto. split; auto. intros K. apply stod_some in K; auto.
  - intros T HV U. destruct (means_classify E s (LNum s)) as [l' C]; [apply m_num; auto|]. rewrite C.
    apply classify_means in C. rewrite (U _ C). reflexivity.
  - intros T NV U. rewrite (classify_exn E s T NV U). reflexivity.
Qed.
Print Assumptions C04_recognised.

Example C04_recognised_case :
  scalar_text (s_ "12e-") /\ has_value (s_ "12e-") /\ ~ scalar_text (s_ "1.2.3") /\ ~ scalar_text (s_ "1-2") /\
  scalar_text (s_ ".e3") /\ ~ has_value (s_ ".e3") /\ decompose ex_env (s_ ".e3") = Exn.
Proof.
  rewrite <- !mantissa_iff, <- !isScalar_iff. vm_compute. intuition discriminate.
Qed.

(** -12.50E-03 = -1/80 *)
Example C04_case :
  let n := {| n_sign := Minus; n_whole := [1;2]; n_frac := Some [5;0]; n_exp := Some (true, Minus, [0;3]) |} in
  numeral_ok n /\ pr_numeral n = s_ "-12.50E-03" /\ (value n == (-1) # 80)%Q.
Proof.
  cbv zeta. split; [|split; reflexivity].
  repeat split; try (repeat constructor; lia); try discriminate. left. discriminate.
Qed.

(** In any product or sum the numeral keeps its value when it is plain or in
    parentheses: instance of C01 with [Num]; [lev] of a signed numeral is 0, so
    [pr] puts the parentheses.  Without them the text is read differently: *)
Theorem C04_scientific_in_product_refuted :
  exists t, decompose ex_env (s_ "1e-5*x") = Ok t
    /\ eval Zops (Zrho 3 0) 0%Z t = Some (1 - 5 * 3)%Z.
Proof. eexists. split; [vm_compute; reflexivity|]. reflexivity. Qed.
Print Assumptions C04_scientific_in_product_refuted.

(** Texts that are not numerals are taken for numbers: "1e5.2" reads as 1e5. *)
Theorem C04_not_a_numeral_refuted :
  decompose ex_env (s_ "1e5.2") = Ok (Leaf (LNum (s_ "1e5.2")))
  /\ (forall n, pr_numeral n = s_ "1e5.2" -> ~ numeral_ok n)
  /\ exists v, stod (s_ "1e5.2") = Some v /\ (v == 100000)%Q.
Proof.
  split; [vm_compute; reflexivity|]. split.
  - intros n P (Hw & Hf & Hne & He).
    assert (T : numeral_ok n) by (repeat split; auto).
    (* the character behind the exponent digits would have to be a digit *)
    unfold pr_numeral in P.
    destruct (n_sign n); [|discriminate P|discriminate P]. cbn [pr_sign app] in P.
    destruct (n_whole n) as [|d0 w].
    + destruct (n_frac n); cbn [map app] in P; [discriminate P|].
      destruct Hne as [K|(? & ? & K)]; [contradiction|discriminate].
    + cbn [map app] in P. inversion P as [[P0 P1]]. clear P.
      destruct w as [|d1 w].
      * destruct (n_frac n) as [f|]; cbn [map app] in P1; [discriminate P1|].
        destruct (n_exp n) as [[[cap sg] d]|]; [|discriminate P1].
        inversion P1 as [[P2 P3]]. destruct He as [He1 He2].
        destruct sg; [|discriminate P3|discriminate P3]. cbn [pr_sign app] in P3.
        destruct d as [|x1 d]; [discriminate P3|]. cbn [map] in P3. inversion P3 as [[P4 P5]].
        destruct d as [|x2 d]; [discriminate P5|]. cbn [map] in P5. inversion P5 as [[P6 P7]].
        inversion He1 as [|? ? Q1 He3]; subst. inversion He3 as [|? ? Q2 He4]; subst.
        destruct (dchar_table x2 Q2) as (D & _). rewrite P6 in D. discriminate D.
      * cbn [map app] in P1. inversion P1 as [[P2 P3]].
        inversion Hw as [|? ? Q1 Hw2]; subst. inversion Hw2 as [|? ? Q2 Hw3]; subst.
        destruct (dchar_table d1 Q2) as (D & _). rewrite P2 in D. discriminate D.
  - eexists. split; [vm_compute; reflexivity|]. reflexivity.
Qed.
Print Assumptions C04_not_a_numeral_refuted.

(* ================================================================== *)
(** ** C05: unknown names. *)
Lemma single_never E c : classify E [c] = None -> forall n, 
  decomp E n [c] = Exn \/ exists d, split [c] = Ok d /\ d <> [([], [c])].
Proof.
  intros H n. destruct (aeq c "-"%char) eqn:Q.
  - right. apply aeq_true in Q. subst. vm_compute. eexists. split; [reflexivity|discriminate].
  - left. assert (S : split [c] = Ok [([], [c])]).
    { unfold split. simpl. rewrite Q. reflexivity. }
    assert (OP : isOperator [c] = None).
    { unfold isOperator. destruct (find_op known_ops [c]) as [[f u]|] eqn:F; auto. exfalso.
      apply find_op_some in F as [Hf F]. apply op_argument_spec in F as [F _].
      apply (f_equal (@List.length ascii)) in F. rewrite !app_length in F. simpl in F. lia. }
    induction n as [|n IH]; auto. cbn [decomp]. unfold decomp_step. rewrite H, OP, S.
    cbn [map_outcome fst snd]. rewrite IH. reflexivity.
Qed.

(** A name that is declared nowhere is rejected with an exception; the components of the normal
    and tangent vectors are the only exception. *)
Definition punctuation : str := s_ "+-*/^<>=(), ".
Definition vector_parts : list str := map s_ ["n[x]"; "n[y]"; "n[z]"; "t[x]"; "t[y]"; "t[z]"]%string.
Lemma special_punct c : special c = true -> In c punctuation.
Proof. destruct c as [[] [] [] [] [] [] [] []]; vm_compute; intros H; try discriminate H; tauto. Qed.

Theorem C05_unknown_name_rejected_partial :
  forall (E : env) (s : str), s <> [] -> (forall c, In c s -> ~ In c punctuation) ->
  (forall l, ~ means E s l) -> ~ In s vector_parts ->
  decompose E s = Exn.
Proof.
  intros E s Ne Sp0 NM NV.
  assert (Sp : forall c, In c s -> special c = false).
  { intros c Hc. apply not_true_is_false. intros K. apply special_punct in K. apply (Sp0 c Hc K). }
  assert (N1 : ~ In "("%char s) by (intros K; apply (Sp0 _ K); cbn; tauto).
  assert (N2 : ~ In ")"%char s) by (intros K; apply (Sp0 _ K); cbn; tauto).
  assert (MB : may_be_bare s = false).
  { apply not_true_is_false. intros K. unfold may_be_bare in K. apply existsb_exists in K as (x & Hx & K).
    apply seq_str_true in K as ->. apply NV. exact Hx. }
  destruct (isScalar s) eqn:SC.
  { assert (CE : classify E s = Some Exn).
    { assert (T : scalar_text s) by (apply isScalar_iff; auto). apply classify_exn; auto.
      intros HV. apply (NM (LNum s)). apply m_num; auto. }
    unfold decompose, maxiter. cbn [decomp]. unfold decomp_step. rewrite CE. reflexivity. }
  assert (CL : classify E s = None).
  { apply classify_none; auto. intros T. apply isScalar_iff in T. congruence. }
  assert (NF : forall P, (forall c, P c = true -> special c = true) -> free 0 P s).
  { intros P HP. apply free_none. intros c Hc. apply Sp in Hc. destruct (P c) eqn:Q; auto.
    apply HP in Q. congruence. }
  assert (FM : first_is "-"%char s = false).
  { destruct s as [|c s]; auto. simpl. apply aeq_false. intro; subst.
    specialize (Sp "-"%char (or_introl eq_refl)). discriminate. }
  destruct s as [|x [|y r]]; [contradiction| |].
  - destruct (single_never E x CL maxiter) as [H|(d & H & K)]; auto.
    unfold split in H. rewrite FM in H. inversion H; subst. contradiction.
  - set (s := x :: y :: r) in *.
    assert (SF : split s = Ok (wrap_case s)).
    { apply split_flat; auto; try (apply NF; intros c Hc).
      - simpl. lia.
      - unfold is_pm in Hc. apply orb_true_iff in Hc as [Hc|Hc]; apply aeq_true in Hc; subst; reflexivity.
      - unfold is_mdp in Hc. repeat (apply orb_true_iff in Hc as [Hc|Hc]); apply aeq_true in Hc; subst; reflexivity.
      - unfold is_pow in Hc. apply aeq_true in Hc; subst; reflexivity. }
    assert (OP : isOperator s = None).
    { unfold isOperator. destruct (find_op known_ops s) as [[f u]|] eqn:F; auto. exfalso.
      apply find_op_some in F as [Hf F]. apply op_argument_spec in F as [F _].
      apply N1. rewrite F. rewrite !in_app_iff. simpl. auto. }
    assert (WC : wrap_case s = []).
    { unfold wrap_case.
      assert (last_is ")"%char s = false) as ->.
      { apply not_true_is_false. intro K. apply last_is_true in K as [a K].
        apply N2. rewrite K. apply in_or_app. simpl. auto. }
      rewrite andb_false_r. unfold s. destruct (break_at _ _) as [[a b]|]; reflexivity. }
    unfold decompose, maxiter. cbn [decomp]. unfold decomp_step. rewrite CL, OP, SF, WC, MB. reflexivity.
Qed.
Print Assumptions C05_unknown_name_rejected_partial.

Example C05_case : decompose ex_env (s_ "velocity+1") = Exn /\ decompose ex_env (s_ "q") = Exn.
Proof. split; vm_compute; reflexivity. Qed.

Lemma decomp_one E n s f u t : decomp_step E s = Ok (SDeps [(f, u)]) -> decomp E n u = Ok t ->
  decomp E (S n) s = Ok (Node [(f, t)]).
Proof. intros H1 H2. cbn [decomp]. rewrite H1. cbn [map_outcome fst snd]. rewrite H2. reflexivity. Qed.

(** An unknown function is not rejected: it is accepted for every argument, and
    the value is the previous content of the result storage (0 at first). *)
Theorem C05_unknown_function_refuted :
  forall (V : Type) (O : ops V) (E : env) (f : str) (a : expr)
         (num nv : str -> V) (rho : leaf -> option V) (stale : V),
  env_ok E -> user_expr E a -> height a <= 99 ->
  f <> [] -> forallb letter f = true -> ~ In f eval_ops -> ~ In f (e_par E) ->
  (forall p, In p (e_par E) -> f <> p ++ s_ "_t") ->
  (forall l, ~ means E (f ++ s_ "(" ++ pr a ++ s_ ")") l) ->
  (forall s, rho (LNum s) = Some (num s)) ->
  (forall s, plain_num s = true -> num ("-"%char :: s) = o_add O (num (s_ "0.0")) (o_neg O (num s))) ->
  (forall s l, In s (vars a) -> refers E s l -> rho l = Some (nv s)) ->
  exists t, decompose E (f ++ s_ "(" ++ pr a ++ s_ ")") = Ok t /\ eval O rho stale t = Some stale.
Proof.
  intros V O E f a num nv rho stale HE U Ha Nf Lf Nk Np Npt NM H1 H2 H3.
  assert (CL : classify E (f ++ s_ "(" ++ pr a ++ s_ ")") = None).
  { apply classify_none; auto. intros [K _]. specialize (K "("%char). cbn in K.
    rewrite in_app_iff in K. cbn in K. intuition discriminate. }
  pose proof (user_wf E a U) as W.
  destruct (decomp_succeeds E 99 a HE W Ha) as [t T].
  pose proof (decomp_value E O num nv rho stale H1 H2 99 a t HE W
    (fun s l Hs Hc => H3 s l Hs (classify_refers E s l Hc)) T) as Vt.
  exists (Node [(f, t)]).
  assert (OP : isOperator (f ++ s_ "(" ++ pr a ++ s_ ")") = None).
  { unfold isOperator. destruct (find_op known_ops _) as [[g u]|] eqn:F; auto. exfalso.
    apply find_op_some in F as [Hg F]. apply op_argument_spec in F as [F _].
    destruct (known_ops_letters _ Hg) as [Lg _].
    apply op_split_unique in F as [<- _]; auto. apply Nk. unfold eval_ops. apply in_or_app; auto. }
  assert (LE : lev (Fn f a) = 4) by reflexivity.
  assert (FR : forall P, (forall c, letter c = true -> P c = false) -> P "("%char = false -> P ")"%char = false ->
            free 0 P (f ++ s_ "(" ++ pr a ++ s_ ")")).
  { intros P H4 H5 H6. apply free0_app.
    - apply letters_nested; auto.
    - apply letters_free; auto.
    - apply (free_wrap P (pr a)); auto. apply (pr_nested E); auto. }
  assert (LT : forall c d, letter c = true -> letter d = false -> aeq c d = false).
  { intros c d A B. apply aeq_false. intro; subst. congruence. }
  assert (SF : split (f ++ s_ "(" ++ pr a ++ s_ ")") = Ok [(f, pr a)]).
  { rewrite split_flat.
    - f_equal. apply (wrap_case_fn f (pr a)); auto. intro K. apply (letters_in _ _ Lf) in K. discriminate.
    - destruct f; [contradiction|]. simpl. rewrite app_length. simpl. lia.
    - destruct f as [|c f]; [contradiction|]. simpl. simpl in Lf. apply andb_true_iff in Lf as [L1 _].
      apply LT; auto.
    - apply FR; auto. intros c Hc. unfold is_pm. rewrite !LT; auto.
    - apply FR; auto. intros c Hc. unfold is_mdp. rewrite !LT; auto.
    - apply FR; auto. intros c Hc. unfold is_pow. rewrite !LT; auto. }
  split.
  - unfold decompose, maxiter. apply (decomp_one E 99 _ f (pr a) t); auto.
    unfold decomp_step. rewrite CL, OP, SF. reflexivity.
  - cbn [eval fold_left fst snd]. rewrite Vt. f_equal.
    assert (Q : forall g, In g eval_ops -> seq_str f g = false).
    { intros g Hg. apply seq_str_false. intro; subst. contradiction. }
    unfold apply_op.
    assert (MU : mem f unary_ops = false).
    { apply not_true_is_false. intro K. unfold mem in K. apply existsb_exists in K as (g & Hg & K).
      rewrite Q in K; [discriminate|]. apply in_or_app. right. apply unary_known; auto. }
    assert (ME : mem f (List.map s_ ["emax"; "emin"; "emean"]%string) = false).
    { apply not_true_is_false. intro K. unfold mem in K. apply existsb_exists in K as (g & Hg & K).
      rewrite Q in K; [discriminate|]. apply in_or_app. right. unfold known_ops. simpl in *. tauto. }
    rewrite MU, ME. rewrite !Q; auto; unfold eval_ops; apply in_or_app;
      first [left; simpl; tauto | right; unfold known_ops; simpl; tauto].
Qed.
Print Assumptions C05_unknown_function_refuted.

Example C05_refuted_case : exists t, decompose ex_env (s_ "asin(x)+1") = Ok t
  /\ eval Zops (Zrho 7 0) 0%Z t = Some 1%Z.
Proof. eexists. split; [vm_compute; reflexivity|]. reflexivity. Qed.
