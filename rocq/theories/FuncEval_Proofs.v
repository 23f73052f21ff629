(** Lemmas for C10: the typed evaluator computes the untyped value. *)
From Coq Require Import Ascii String Bool Arith Lia List Relations.
From Verif Require Import Outcome Interp_Model Interp_Lemmas Flat_Model FuncMan_Model FuncMan_Proofs
  FuncEval_Model FuncEval_Spec.
Import ListNotations.

Lemma tree_ind2 (P : tree -> Prop) :
  (forall l, P (Leaf l)) ->
  (forall d, Forall (fun x => P (snd x)) d -> P (Node d)) ->
  forall t, P t.
Proof.
  intros H1 H2. fix IH 1. intros [l|d]; [apply H1|]. apply H2.
  induction d as [|x r IHr]; constructor; auto.
Defined.

Lemma seq_str_eq a b : seq_str a b = true -> a = b.
Proof. apply seq_str_true. Qed.

Section P.
Context {V : Type} (O : ops V).
Variables (near : V -> option nat) (dim1 : nat) (of_nat : nat -> V).
Variables (num : str -> V) (pi_ : V) (stale_sc : V) (stale_view : nat -> nat -> V).
Notation field := (nat -> nat -> V).
Notation operand := (operand (V:=V)).
Notation world := (world (V:=V)).

(** Laws of the arithmetic that the shortcuts of evaluateOpSToV rely on. *)
Hypothesis sqrt_zero : forall x, o_ge O (o_zero O) x = true -> o_gt O (o_zero O) x = false ->
  o_fun O (s_ "sqrt") x = o_zero O.
Hypothesis gt_ge : forall x y, o_gt O x y = true -> o_ge O x y = true.
Hypothesis near_pow : forall x t n, near t = Some n -> unrolled O n x = o_pow O x t.

Notation G := (guarded O).

Ltac ops_cases op :=
  repeat match goal with
  | |- context [if seq_str op ?s then _ else _] =>
      let E := fresh "E" in destruct (seq_str op s) eqn:E; [apply seq_str_eq in E; subst op|]
  end.

Lemma ptVV_spec op d t : is_reduction op = false -> ptVV O op d t = apply_op G op d t.
Proof.
  intros R. unfold ptVV, apply_op.
  ops_cases op; try reflexivity.
  unfold is_reduction in R. rewrite R.
  unfold mem, unary_ops, plain_funs. cbn [List.map existsb].
  repeat match goal with E : seq_str op ?s = false |- _ => rewrite E; clear E end.
  unfold G. cbn [o_fun guarded].
  destruct (seq_str op (s_ "sin")) eqn:Q0; [apply seq_str_eq in Q0; subst; reflexivity|].
  destruct (seq_str op (s_ "cos")) eqn:Q1; [apply seq_str_eq in Q1; subst; reflexivity|].
  destruct (seq_str op (s_ "exp")) eqn:Q2; [apply seq_str_eq in Q2; subst; reflexivity|].
  destruct (seq_str op (s_ "log")) eqn:Q3; [apply seq_str_eq in Q3; subst; reflexivity|].
  destruct (seq_str op (s_ "tan")) eqn:Q4; [apply seq_str_eq in Q4; subst; reflexivity|].
  destruct (seq_str op (s_ "sinh")) eqn:Q5; [apply seq_str_eq in Q5; subst; reflexivity|].
  destruct (seq_str op (s_ "cosh")) eqn:Q6; [apply seq_str_eq in Q6; subst; reflexivity|].
  reflexivity.
Qed.

Lemma ptSV_spec op d t : ptSV O near op d t = ptVV O op d t.
Proof.
  unfold ptSV, ptVV. ops_cases op; try reflexivity.
  - destruct (near t) as [n|] eqn:N; auto.
  - destruct (o_gt O (o_zero O) t) eqn:A.
    + rewrite (gt_ge _ _ A). reflexivity.
    + destruct (o_ge O (o_zero O) t) eqn:B; auto.
Qed.

Lemma row_const (v : V) : emax_row O dim1 (fun _ => v) = v /\ emin_row O dim1 (fun _ => v) = v.
Proof.
  unfold emax_row, emin_row. split.
  - induction (seq 0 dim1) as [|n l IH]; cbn [fold_left]; auto. destruct (o_gt O v v); auto.
  - induction (seq 0 dim1) as [|n l IH]; cbn [fold_left]; auto. destruct (o_gt O v v); auto.
Qed.

Lemma row_ext (r r' : nat -> V) : (forall n, r n = r' n) ->
  emax_row O dim1 r = emax_row O dim1 r' /\ emin_row O dim1 r = emin_row O dim1 r'.
Proof.
  intros H. unfold emax_row, emin_row. rewrite (H 0).
  assert (A : forall l v,
    fold_left (fun a n => if o_gt O (r n) (r' 0) then r n else a) l v =
    fold_left (fun a n => if o_gt O (r' n) (r' 0) then r' n else a) l v).
  { induction l as [|n l IH]; intros v; cbn [fold_left]; auto. rewrite (H n). auto. }
  assert (B : forall l v,
    fold_left (fun a n => if o_gt O (r' 0) (r n) then r n else a) l v =
    fold_left (fun a n => if o_gt O (r' 0) (r' n) then r' n else a) l v).
  { induction l as [|n l IH]; intros v; cbn [fold_left]; auto. rewrite (H n). auto. }
  rewrite A, B. auto.
Qed.

Definition feq (f g : field) : Prop := forall e p, f e p = g e p.

Definition den (o : operand) : field :=
  match o with OSc v => fun _ _ => v | OPar v => fun _ _ => v | OView f => f | OAD f => f end.

Definition oview (o : operand) : bool := match o with OSc _ => false | _ => true end.
Definition oAD (o : operand) : bool := match o with OAD _ | OPar _ => true | _ => false end.
Definition opar (o : operand) : bool := match o with OPar _ => true | _ => false end.

Lemma fop_ext op (f f' g g' : field) : feq f f' -> feq g g' -> feq (fop O dim1 op f g) (fop O dim1 op f' g').
Proof.
  intros Hf Hg e p. unfold fop.
  destruct (seq_str op (s_ "emax")); [apply row_ext; auto|].
  destruct (seq_str op (s_ "emin")); [apply row_ext; auto|]. rewrite Hf, Hg. reflexivity.
Qed.

Lemma fop_overwrite op (f f' g : field) : overwrites op = true -> feq (fop O dim1 op f g) (fop O dim1 op f' g).
Proof.
  intros H e p. unfold fop.
  destruct (seq_str op (s_ "emax")) eqn:E1; [reflexivity|].
  destruct (seq_str op (s_ "emin")) eqn:E2; [reflexivity|].
  unfold overwrites in H.
  destruct (seq_str op []) eqn:E3; [apply seq_str_eq in E3; subst; reflexivity|].
  destruct (mem op unary_ops) eqn:E4.
  - unfold mem in E4. apply existsb_exists in E4 as (z & Hz & Ez). apply seq_str_eq in Ez. subst z.
    unfold unary_ops in Hz. cbn [List.map In] in Hz.
    repeat (destruct Hz as [<-|Hz]; [reflexivity|]). destruct Hz.
  - cbn [orb] in H. unfold is_reduction, mem in H. cbn [List.map existsb] in H.
    rewrite E1, E2 in H. cbn [orb] in H. rewrite orb_false_r in H. apply seq_str_eq in H. subst. reflexivity.
Qed.

Lemma opVV_spec op (d t : field) : seq_str op (s_ "emean") = false ->
  feq (opVV O dim1 of_nat op d t) (fop O dim1 op d t).
Proof.
  intros NE e p. unfold opVV, fop.
  destruct (seq_str op (s_ "emax")) eqn:E1; [reflexivity|].
  destruct (seq_str op (s_ "emin")) eqn:E2; [reflexivity|]. rewrite NE.
  apply ptVV_spec. unfold is_reduction, mem. cbn [List.map existsb]. rewrite E1, E2, NE. reflexivity.
Qed.

Lemma opconst_spec op (d : field) (v : V) (pt : V -> V -> V) :
  seq_str op (s_ "emean") = false ->
  (forall a b, pt a b = ptVV O op a b) ->
  feq (if is_reduction op then fun _ _ => v else fun e p => pt (d e p) v) (fop O dim1 op d (fun _ _ => v)).
Proof.
  intros NE HP e p. unfold fop.
  unfold is_reduction, mem. cbn [List.map existsb]. rewrite NE.
  destruct (seq_str op (s_ "emax")) eqn:E1; [cbn; symmetry; apply row_const|].
  destruct (seq_str op (s_ "emin")) eqn:E2; [cbn; symmetry; apply row_const|]. cbn.
  rewrite HP. apply ptVV_spec. unfold is_reduction, mem. cbn [List.map existsb]. rewrite E1, E2, NE. reflexivity.
Qed.

Notation step := (step O near dim1 of_nat).

Lemma step_spec data op term :
  seq_str op (s_ "emean") = false ->
  opar data = false ->
  (oview term = true -> oview data = true) -> (oAD term = true -> oAD data = true) ->
  oview (step data op term) = oview data /\ oAD (step data op term) = oAD data /\
  opar (step data op term) = false /\
  feq (den (step data op term)) (fop O dim1 op (den data) (den term)).
Proof.
  intros NE NP HV HA.
  destruct data as [d|d|d|d]; try discriminate; destruct term as [t|t|t|t]; cbn in HV, HA;
    try (specialize (HV eq_refl)); try (specialize (HA eq_refl)); try discriminate;
    cbn [FuncEval_Model.step]; (split; [reflexivity|split; [reflexivity|split; [reflexivity|]]]);
    cbn [den].
  - intros e p. unfold opSS.
    pose proof (opconst_spec op (fun _ _ => d) t (ptSS O op) NE (fun a b => eq_refl) e p) as Q.
    cbn beta in Q. destruct (is_reduction op); exact Q.
  - unfold opSV. apply opconst_spec; auto. intros; apply ptSV_spec.
  - apply opVV_spec; auto.
  - unfold opSV. apply opconst_spec; auto. intros; apply ptSV_spec.
  - apply opVV_spec; auto.
  - apply opVV_spec; auto.
  - unfold opPV. apply opconst_spec; auto.
Qed.

Definition le_flags (a b : flags) : Prop :=
  (f_const b = true -> f_const a = true) /\ (f_view a = true -> f_view b = true) /\
  (f_AD a = true -> f_AD b = true).

Lemma le_refl a : le_flags a a. Proof. firstorder. Qed.
Lemma le_trans a b c : le_flags a b -> le_flags b c -> le_flags a c. Proof. unfold le_flags. intuition. Qed.

Lemma merge_0 g : merge flags0 g = g.
Proof. destruct g as [[] [] []]; reflexivity. Qed.
Lemma merge_assoc a b c : merge a (merge b c) = merge (merge a b) c.
Proof. destruct a as [[] [] []], b as [[] [] []], c as [[] [] []]; reflexivity. Qed.
Lemma merge_le a b : le_flags a (merge a b) /\ le_flags b (merge a b).
Proof. destruct a as [[] [] []], b as [[] [] []]; unfold le_flags; cbn; intuition congruence. Qed.
Lemma add_leaf_merge l st : add_leaf l st = merge st (leaf_flags l).
Proof. reflexivity. Qed.

Section Ctx.
Variable fl : nat -> option flags.

Notation ft := (fun acc (x : str * tree) => match acc with Some s => tflags fl (snd x) s | None => None end).

Lemma ft_none d : fold_left ft d None = None.
Proof. induction d; auto. Qed.

(** The flags of a tree started from [st] are those from scratch merged into [st]. *)
Lemma tflags_merge t : forall st g, tflags fl t st = Some g ->
  exists h, tflags fl t flags0 = Some h /\ g = merge st h.
Proof.
  induction t as [l|d IH] using tree_ind2; intros st g H.
  - destruct l; cbn [tflags] in *;
      try (injection H as <-; eexists; split; [reflexivity|]; rewrite !add_leaf_merge, merge_0; reflexivity).
    destruct (fl j) as [h|]; [|discriminate]. injection H as <-. rewrite merge_0. eauto.
  - cbn [tflags] in *.
    assert (Q : forall st0 st g, fold_left ft d (Some (merge st st0)) = Some g ->
       exists h, fold_left ft d (Some st0) = Some h /\ g = merge st h).
    { clear H st g. induction d as [|x r IHr]; intros st0 st g H.
      - cbn in *. injection H as <-. eauto.
      - inversion IH as [|? ? Hx Hr]; subst. cbn [fold_left] in *.
        destruct (tflags fl (snd x) (merge st st0)) as [g1|] eqn:E1; [|rewrite ft_none in H; discriminate].
        destruct (Hx _ _ E1) as (h & Hh & ->).
        destruct (tflags fl (snd x) st0) as [g2|] eqn:E2.
        + destruct (Hx _ _ E2) as (h2 & Hh2 & ->). rewrite Hh in Hh2. injection Hh2 as <-.
          rewrite <- merge_assoc in H. apply IHr; auto.
        + (* cannot be None *) exfalso.
          assert (S : forall s, tflags fl (snd x) s <> None).
          { intros s. clear - Hh. revert Hh. revert h s. generalize flags0.
            induction (snd x) as [l|d IH] using tree_ind2; intros s0 h s Hh.
            - destruct l; cbn in *; try congruence. destruct (fl j); congruence.
            - cbn [tflags] in *. revert s0 h s Hh. induction d as [|y r IHr]; intros s0 h s Hh; [cbn; congruence|].
              inversion IH as [|? ? Hy Hr]; subst. cbn [fold_left] in *.
              destruct (tflags fl (snd y) s0) as [a|] eqn:A; [|rewrite ft_none in Hh; discriminate].
              destruct (tflags fl (snd y) s) as [b|] eqn:B.
              + eapply IHr; eauto.
              + exfalso. eapply Hy; eauto. }
          apply (S st0 E2). }
    replace st with (merge st flags0) in H by (destruct st as [[] [] []]; reflexivity).
    apply Q in H. exact H.
Qed.

Variable fr : nat -> option operand.
Variable w : world.
Variable ff : nat -> option field.

Notation teval := (teval O near dim1 of_nat num pi_ stale_sc stale_view fl fr w).
Notation fe := (fe O dim1 num pi_ w ff).

(** What is known about the other definitions. *)
Definition related (j : nat) : Prop :=
  forall f, ff j = Some f ->
  exists g o, fl j = Some g /\ fr j = Some o /\ opar o = false /\
    oview o = f_view g /\ oAD o = f_AD g /\ feq (den o) f.

Definition result (t : tree) (f : field) : Prop :=
  exists g o, tflags fl t flags0 = Some g /\ teval t = Some o /\
    oview o = f_view g /\ oAD o = f_AD g /\ feq (den o) f /\
    (opar o = true -> bare_parameter t = true).

Notation tf := (fun acc (x : str * tree) =>
                       match acc, teval (snd x) with
                       | Some data, Some term => Some (step data (fst x) term)
                       | _, _ => None
                       end).
Notation sf := (fun acc (x : str * tree) =>
                   match acc, fe (snd x) with
                   | Some a, Some b => Some (fop O dim1 (fst x) a b)
                   | _, _ => None
                   end).

Lemma sf_none d : fold_left sf d None = None.
Proof. induction d as [|x r IH]; auto. Qed.

(** Folding the dependencies. *)
Lemma fold_result d : forall df f,
  Forall (fun x => forall f, fe (snd x) = Some f -> result (snd x) f) d ->
  forallb (fun x => negb (seq_str (fst x) (s_ "emean"))) d = true ->
  fold_left sf d (Some df) = Some f ->
  forall st, exists g, fold_left ft d (Some st) = Some g /\ le_flags st g /\
    ((f_AD st = true -> f_view st = true) -> f_AD g = true -> f_view g = true) /\
    forall gg data, le_flags g gg -> opar data = false ->
      oview data = f_view gg -> oAD data = f_AD gg ->
      (feq (den data) df \/ match d with [] => False | x :: _ => overwrites (fst x) = true end) ->
      exists o, fold_left tf d (Some data) = Some o /\ opar o = false /\
        oview o = f_view gg /\ oAD o = f_AD gg /\ feq (den o) f.
Proof.
  induction d as [|x r IH]; intros df f HF NE HS st.
  - cbn in HS. injection HS as <-. exists st. cbn. split; [auto|split; [apply le_refl|split; [auto|]]].
    intros gg data _ NP HV HA [Hd|[]]. exists data. auto.
  - inversion HF as [|? ? Hx Hr]; subst. cbn [fold_left] in HS.
    cbn [forallb] in NE. apply andb_true_iff in NE as [NE NEr]. apply negb_true_iff in NE.
    destruct (fe (snd x)) as [b|] eqn:Eb; [|rewrite sf_none in HS; discriminate].
    destruct (Hx b eq_refl) as (h & o & Hh & Ho & HoV & HoA & Hod & _).
    assert (Hst : tflags fl (snd x) st = Some (merge st h)).
    { destruct (tflags fl (snd x) st) as [g|] eqn:E.
      - destruct (tflags_merge _ _ _ E) as (h' & Hh' & ->). congruence.
      - exfalso. clear - Hh E. revert h st Hh E. generalize flags0.
        induction (snd x) as [l|d IH] using tree_ind2; intros s0 h s Hh E.
        + destruct l; cbn in *; try congruence. destruct (fl j); congruence.
        + cbn [tflags] in *. revert s0 h s Hh E. induction d as [|y r' IHr]; intros s0 h s Hh E; [cbn in *; congruence|].
          inversion IH as [|? ? Hy Hr]; subst. cbn [fold_left] in *.
          destruct (tflags fl (snd y) s0) as [a|] eqn:A; [|rewrite ft_none in Hh; discriminate].
          destruct (tflags fl (snd y) s) as [b|] eqn:B.
          * eapply IHr; eauto.
          * eapply Hy; eauto. }
    destruct (IH _ _ Hr NEr HS (merge st h)) as (g & Hg & Lg & Wg & Hgo).
    exists g. cbn [fold_left]. rewrite Hst. split; [auto|].
    destruct (merge_le st h) as [L1 L2].
    split; [eapply le_trans; eauto|]. split.
    { intros Ws. apply Wg. cbn. destruct (f_AD h) eqn:A; [|destruct (f_view h); auto].
      rewrite <- HoV. destruct o; cbn in *; congruence. }
    intros gg data Lgg NP HV HA HD.
    assert (LH : le_flags h gg) by (eapply le_trans; [eauto|eapply le_trans; eauto]).
    destruct LH as (_ & LV & LA).
    destruct (step_spec data (fst x) o NE NP) as (S1 & S2 & S3 & S4).
    { rewrite HV, HoV. auto. }
    { rewrite HA, HoA. auto. }
    rewrite Ho.
    destruct (Hgo gg (step data (fst x) o)) as (o' & Q1 & Q2 & Q3 & Q4 & Q5); auto; try congruence.
    + left. intros e p. rewrite S4. destruct HD as [HD|HD].
      * apply fop_ext; auto.
      * rewrite (fop_overwrite _ _ df _ HD e p). apply fop_ext; auto. intros ? ?; reflexivity.
    + exists o'. auto.
Qed.

Lemma tree_result t : forall f,
  clean t = true -> no_op (s_ "emean") t = true ->
  (forall j, In (LFun j) (leaves t) -> related j) ->
  fe t = Some f -> result t f.
Proof.
  induction t as [l|d IH] using tree_ind2; intros f HC NE HR HF.
  - destruct l; cbn in HF; try discriminate;
      try (injection HF as <-; eexists _, _; cbn; split; [reflexivity|split; [reflexivity|]];
           cbn; split; [reflexivity|split; [reflexivity|split; [intros ? ?; reflexivity|]]];
           cbn; congruence).
    destruct (HR j (or_introl eq_refl) _ HF) as (g & o & Hg & Ho & HP & HV & HA & HE).
    exists g. unfold result. cbn [tflags FuncEval_Model.teval]. rewrite Hg, Ho, merge_0.
    unfold copy.
    destruct o as [v|h|h|v]; cbn in HP, HV, HA; try discriminate; rewrite <- HV, <- HA; eexists;
      cbn; split; try reflexivity; split; try reflexivity; auto;
      split; auto; split; auto; split; auto; discriminate.
  - cbn [clean] in HC. apply andb_true_iff in HC as [HO HC]. cbn [no_op] in NE.
    rewrite forallb_forall in HC, NE.
    assert (A : Forall (fun x => forall f, fe (snd x) = Some f -> result (snd x) f) d).
    { rewrite Forall_forall in *. intros x Hx f' Hf'. apply IH; auto.
      - specialize (NE x Hx). apply andb_true_iff in NE. tauto.
      - intros j Hj. apply HR. cbn. apply in_flat_map. exists x; auto. }
    assert (B : forallb (fun x => negb (seq_str (fst x) (s_ "emean"))) d = true).
    { apply forallb_forall. intros x Hx. specialize (NE x Hx). apply andb_true_iff in NE. tauto. }
    cbn [FuncEval_Spec.fe] in HF.
    destruct (fold_result d _ _ A B HF flags0) as (g & Hg & _ & Wg & Ho).
    specialize (Wg ltac:(discriminate)).
    exists g. destruct (Ho g (start stale_sc stale_view g)) as (o & Q1 & Q2 & Q3 & Q4 & Q5).
    + apply le_refl.
    + unfold start. destruct (f_view g), (f_AD g); reflexivity.
    + unfold start. destruct (f_view g), (f_AD g); reflexivity.
    + unfold start. destruct (f_view g) eqn:E1, (f_AD g) eqn:E2; try reflexivity. specialize (Wg eq_refl). discriminate.
    + right. destruct d; [discriminate|auto].
    + exists o. cbn [tflags FuncEval_Model.teval] in *. rewrite Hg. split; auto.
      split; [exact Q1|]. split; auto. split; auto. split; auto. congruence.
Qed.
End Ctx.

(** Constants do not depend on the world. *)
Lemma const_world fl fr0 fr w0 w t : forall st g,
  tflags fl t st = Some g -> f_const g = true ->
  (forall j gj, In (LFun j) (leaves t) -> fl j = Some gj -> f_const gj = true -> fr0 j = fr j) ->
  f_const st = true /\
  teval O near dim1 of_nat num pi_ stale_sc stale_view fl fr0 w0 t =
  teval O near dim1 of_nat num pi_ stale_sc stale_view fl fr w t.
Proof.
  induction t as [l|d IH] using tree_ind2; intros st g H HC HJ.
  - destruct l; cbn in *; try (injection H as <-; cbn in HC; try discriminate; auto).
    destruct (fl j) as [h|] eqn:E; [|discriminate]. injection H as <-. cbn in HC.
    destruct (f_const h) eqn:C; [|discriminate]. split; auto.
    rewrite (HJ j h (or_introl eq_refl) E C). reflexivity.
  - cbn [tflags] in H. cbn [teval].
    assert (Q : forall d st, fold_left (fun acc (x : str * tree) => match acc with Some s => tflags fl (snd x) s | None => None end) d (Some st) = Some g ->
       Forall (fun x => forall st g, tflags fl (snd x) st = Some g -> f_const g = true ->
         f_const st = true /\
  teval O near dim1 of_nat num pi_ stale_sc stale_view fl fr0 w0 (snd x) =
  teval O near dim1 of_nat num pi_ stale_sc stale_view fl fr w (snd x)) d ->
       f_const st = true /\ forall o,
       fold_left (fun acc x =>
                       match acc, teval O near dim1 of_nat num pi_ stale_sc stale_view fl fr0 w0 (snd x) with
                       | Some data, Some term => Some (step data (fst x) term)
                       | _, _ => None
                       end) d o =
       fold_left (fun acc x =>
                       match acc, teval O near dim1 of_nat num pi_ stale_sc stale_view fl fr w (snd x) with
                       | Some data, Some term => Some (step data (fst x) term)
                       | _, _ => None
                       end) d o).
    { clear IH HJ H st d. induction d as [|x r IHr]; intros st H HF.
      - cbn in *. injection H as <-. auto.
      - inversion HF as [|? ? Hx Hr]; subst. cbn [fold_left] in *.
        destruct (tflags fl (snd x) st) as [g1|] eqn:E; [|rewrite ft_none in H; discriminate].
        destruct (IHr _ H Hr) as [C1 C2]. destruct (Hx _ _ E C1) as [C3 C4]. split; auto.
        intros o. rewrite C4. apply C2. }
    destruct (Q d st H) as [Q1 Q2].
    { rewrite Forall_forall in *. intros x Hx st' g' H' C'. apply (IH x Hx st' g' H' C').
      intros j gj Hj. apply HJ. cbn. apply in_flat_map. eauto. }
    split; auto. destruct (tflags fl (Node d) flags0); auto.
Qed.

Variable Ts : list tree.
Notation froot := (froot O near dim1 of_nat num pi_ stale_sc stale_view Ts).

Lemma const_froot w0 w n : forall j g, fflags Ts n j = Some g -> f_const g = true ->
  froot w0 n j = froot w n j.
Proof.
  induction n as [|n IH]; intros j g H C; [discriminate|].
  cbn [fflags] in H. cbn [FuncEval_Model.froot].
  destruct (nth_error Ts j) as [t|]; [|discriminate].
  eapply const_world; eauto.
Qed.

Definition good : Prop :=
  (forall t, In t Ts -> clean t = true /\ no_op (s_ "emean") t = true) /\
  (forall i j t, Mentions Ts i j -> nth_error Ts j = Some t -> bare_parameter t = false).

Lemma froot_result w : good -> forall n j f, ffield O dim1 num pi_ Ts w n j = Some f ->
  exists g o, fflags Ts n j = Some g /\ froot w n j = Some o /\
    oview o = f_view g /\ oAD o = f_AD g /\ feq (den o) f /\
    (opar o = true -> exists t, nth_error Ts j = Some t /\ bare_parameter t = true).
Proof.
  intros [HG HB]. induction n as [|n IH]; intros j f H; [discriminate|].
  cbn [ffield] in H. cbn [fflags FuncEval_Model.froot].
  destruct (nth_error Ts j) as [t|] eqn:E; [|discriminate].
  destruct (HG t (nth_error_In _ _ E)) as [C N].
  destruct (tree_result (fflags Ts n) (froot w n) w (ffield O dim1 num pi_ Ts w n) t f C N)
    as (g & o & Q1 & Q2 & Q3 & Q4 & Q5 & Q6); auto.
  - intros i Hi f' Hf'. destruct (IH i f' Hf') as (g & o & Q1 & Q2 & Q3 & Q4 & Q5 & Q6).
    exists g, o. split; auto. split; auto. split; auto.
    destruct (opar o) eqn:P; auto. destruct (Q6 eq_refl) as (t' & Ht' & Hb).
    rewrite (HB j i t') in Hb; auto. exists t; auto.
  - exists g, o. split; auto. split; auto. split; auto. split; auto. split; auto. eauto.
Qed.

Lemma vista_value w0 w n j f : good -> ffield O dim1 num pi_ Ts w n j = Some f ->
  exists v, vista O near dim1 of_nat num pi_ stale_sc stale_view Ts w0 w n j = Some v /\
    forall e p, v e p = f e p.
Proof.
  intros HG H. destruct (froot_result w HG n j f H) as (g & o & Q1 & Q2 & Q3 & Q4 & Q5 & Q6).
  unfold vista. rewrite Q1.
  assert (R : froot (if f_const g then w0 else w) n j = Some o).
  { destruct (f_const g) eqn:C; auto. rewrite (const_froot w0 w n j g); auto. }
  rewrite R. destruct o; eexists; split; try reflexivity; exact Q5.
Qed.

(** The untyped value exists when the definitions are acyclic. *)
Lemma fe_defined w ff t : (forall s, ~ In (LUnset s) (leaves t)) ->
  (forall j, In (LFun j) (leaves t) -> ff j <> None) -> fe O dim1 num pi_ w ff t <> None.
Proof.
  induction t as [l|d IH] using tree_ind2; intros HU HJ.
  - destruct l; cbn; try discriminate.
    + apply HJ. left; auto.
    + destruct (HU s). left; auto.
  - cbn [fe]. generalize (fun _ _ : nat => o_zero O) as z.
    assert (Q : Forall (fun x => fe O dim1 num pi_ w ff (snd x) <> None) d).
    { rewrite Forall_forall in *. intros x Hx. apply IH; auto.
      - intros s Hs. apply (HU s). cbn. apply in_flat_map. eauto.
      - intros j Hj. apply HJ. cbn. apply in_flat_map. eauto. }
    clear IH HU HJ. induction d as [|x r IHr]; intros z; cbn [fold_left]; [discriminate|].
    inversion Q; subst. destruct (fe O dim1 num pi_ w ff (snd x)) as [b|]; [|congruence]. apply IHr; auto.
Qed.

(** Out of depth: there is a chain of references of that length. *)
Inductive chain : nat -> list nat -> Prop :=
| chain_nil i : chain i []
| chain_cons i j l : Mentions Ts i j -> chain j l -> chain i (j :: l).

Definition in_range : Prop := forall i j, Mentions Ts i j -> j < length Ts.
Definition no_unset : Prop := forall t s, In t Ts -> ~ In (LUnset s) (leaves t).

Lemma ffield_none w : in_range -> no_unset ->
  forall n j, j < length Ts -> ffield O dim1 num pi_ Ts w n j = None ->
  exists l, chain j l /\ length l = n.
Proof.
  intros HR HU. induction n as [|n IH]; intros j Hj H; [exists []; split; constructor|].
  cbn [ffield] in H. destruct (nth_error Ts j) as [t|] eqn:E.
  2:{ apply nth_error_None in E. lia. }
  assert (D : exists i, In (LFun i) (leaves t) /\ ffield O dim1 num pi_ Ts w n i = None).
  { destruct (existsb (fun l => match l with LFun i => match ffield O dim1 num pi_ Ts w n i with None => true | _ => false end | _ => false end) (leaves t)) eqn:X.
    - apply existsb_exists in X as (l & Hl & Hx). destruct l; try discriminate. exists j0. split; auto.
      destruct (ffield O dim1 num pi_ Ts w n j0); congruence.
    - exfalso. revert H. apply fe_defined.
      + intros s. apply HU. eapply nth_error_In; eauto.
      + intros i Hi HN. assert (Y : existsb (fun l => match l with LFun i => match ffield O dim1 num pi_ Ts w n i with None => true | _ => false end | _ => false end) (leaves t) = true).
        { apply existsb_exists. exists (LFun i). split; auto. cbn. rewrite HN. auto. }
        congruence. }
  destruct D as (i & Hi & Hn).
  assert (M : Mentions Ts j i) by (exists t; auto).
  destruct (IH i (HR _ _ M) Hn) as (l & Hl & Ln).
  exists (i :: l). split; [constructor; auto|cbn; auto].
Qed.

Lemma chain_reach i l : chain i l -> forall x, In x l -> clos_trans nat (Mentions Ts) i x.
Proof.
  induction 1 as [|i j l M _ IH]; intros x Hx; [destruct Hx|].
  destruct Hx as [<-|Hx]; [apply t_step; auto|].
  eapply t_trans; [apply t_step; eauto|auto].
Qed.

Lemma chain_nodup i l : (forall i, ~ clos_trans nat (Mentions Ts) i i) -> chain i l -> NoDup (i :: l).
Proof.
  intros A. induction 1 as [|i j l M C IH]; [constructor; auto; constructor|].
  constructor; auto. intros Hi. apply (A i). eapply chain_reach; [|exact Hi]. constructor; auto.
Qed.

Lemma chain_range i l : in_range -> chain i l -> forall x, In x l -> x < length Ts.
Proof.
  intros HR. induction 1 as [|i j l M C IH]; intros x Hx; [destruct Hx|].
  destruct Hx as [<-|Hx]; eauto.
Qed.

Lemma ffield_total w j : in_range -> no_unset -> (forall i, ~ clos_trans nat (Mentions Ts) i i) ->
  j < length Ts -> forall n, length Ts <= n -> ffield O dim1 num pi_ Ts w n j <> None.
Proof.
  intros HR HU A Hj n Hn H. destruct (ffield_none w HR HU n j Hj H) as (l & C & L).
  pose proof (chain_nodup _ _ A C) as ND.
  assert (I : incl (j :: l) (seq 0 (length Ts))).
  { intros x [<-|Hx]; apply in_seq; split; try lia. cbn. eapply chain_range; eauto. }
  pose proof (NoDup_incl_length ND I) as Q. rewrite seq_length in Q. cbn in Q. lia.
Qed.

End P.
