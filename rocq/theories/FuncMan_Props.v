(** C08: circular definitions are always rejected, acyclic ones never. *)
From Coq Require Import Ascii String Bool Arith Lia List Relations.
From Verif Require Import Outcome Interp_Model Flat_Model Flat_Props FuncMan_Model
  FuncMan_Proofs.
Import ListNotations.

Lemma find_last_lt {A} (f : str -> option A) l j k a :
  find_last f l j = Some (k, a) -> j <= k < j + length l.
Proof.
  revert j; induction l as [|x l IH]; intros j H; [discriminate|]. cbn in H |- *.
  destruct (find_last f l (S j)) as [[k' a']|] eqn:E.
  - injection H as -> ->. apply IH in E. lia.
  - destruct (f x); [|discriminate]. injection H as -> ->. lia.
Qed.

Lemma classify_fun E s j : classify E s = Some (Ok (LFun j)) -> j < length (e_fun E).
Proof.
  unfold classify.
  destruct (find_first s (e_soln E) 0); [discriminate|].
  destruct (find_first s (e_scal E) 0); [discriminate|].
  destruct (find_last (param_match s) (e_par E) 0) as [[? ?]|]; [discriminate|].
  destruct (find_last (fun p => param_match s (p ++ s_ "_t")) (e_par E) 0) as [[? ?]|];
    [discriminate|].
  destruct (find_last (fun f => if seq_str s f then Some tt else None) (e_fun E) 0)
    as [[k a]|] eqn:F.
  - intros H; injection H as ->. apply find_last_lt in F. lia.
  - destruct (isScalar s); [destruct (mantissa_has_digit s); discriminate|].
    destruct (find_first s known_vars 0); [|discriminate].
    destruct (seq_str s (s_ "t")); [discriminate|].
    destruct (seq_str s (s_ "pi")); discriminate.
Qed.

Lemma decomp_fun E n : forall s T j,
  decomp E n s = Ok T -> In (LFun j) (leaves T) -> j < length (e_fun E).
Proof.
  induction n as [|n IH]; intros s T j H Hin; [discriminate|].
  rewrite decomp_S in H.
  destruct (decomp_step E s) as [[l|d]| |] eqn:D; try discriminate.
  - injection H as <-. cbn in Hin. destruct Hin as [->|[]].
    unfold decomp_step in D. destruct (classify E s) as [[l'| |]|] eqn:C; try discriminate.
    + injection D as ->. eapply classify_fun; eauto.
    + destruct (isOperator s) as [[?| |]|]; try discriminate.
      destruct (split s) as [[|]| |]; try discriminate.
      destruct (may_be_bare s); discriminate.
  - change (match sub E n d with Ok ts => Ok (Node ts) | Exn => Exn | UB => UB end = Ok T) in H.
    destruct (sub E n d) as [ts| |] eqn:S0; try discriminate. injection H as <-.
    cbn in Hin. clear D. revert ts S0 Hin.
    induction d as [|x d IHd]; intros ts S0 Hin.
    + cbn in S0. injection S0 as <-. destruct Hin.
    + apply sub_cons in S0 as (t & ts' & Ht & S0 & ->). cbn in Hin.
      apply in_app_or in Hin as [Hin|Hin]; eauto.
Qed.

(** Every leaf stored anywhere in a decomposed definition is in range. *)
Lemma flat_fun E s bs i c j : flat_decompose E s = Ok bs ->
  nth_error bs i = Some c -> b_leaf c = Some (LFun j) -> j < length (e_fun E).
Proof.
  intros H Hc Hl. unfold flat_decompose in H. revert H Hc.
  assert (G : forall n bs0, (forall i c j, nth_error bs0 i = Some c ->
                b_leaf c = Some (LFun j) -> j < length (e_fun E)) ->
              rounds E n bs0 = Ok bs -> nth_error bs i = Some c -> j < length (e_fun E)).
  { induction n as [|n IH]; intros bs0 I H Hc; [discriminate|]. cbn [rounds] in H.
    destruct (round E bs0) as [bs1| |] eqn:R; try discriminate.
    assert (I1 : forall i c j, nth_error bs1 i = Some c ->
                b_leaf c = Some (LFun j) -> j < length (e_fun E)).
    { unfold round in R. revert R. generalize (seq 0 (length bs0)) as ks. revert I.
      generalize bs0. clear - E. intros bs0 I ks. revert bs0 I.
      induction ks as [|k ks IHk]; intros bs0 I R; cbn [visit_all] in R.
      - injection R as <-. exact I.
      - destruct (visit E bs0 k) as [bs2| |] eqn:V; try discriminate.
        apply (IHk bs2); auto. clear IHk R. unfold visit in V.
        destruct (nth_error bs0 k) as [b|] eqn:Hb; [|discriminate].
        destruct (b_done b); [injection V as <-; exact I|].
        destruct (decomp_step E (b_text b)) as [[l|d]| |] eqn:D; try discriminate;
          injection V as <-.
        + intros i c j Hc Hl. destruct (Nat.eq_dec i k) as [->|N].
          * rewrite nth_set_same in Hc by (apply nth_error_Some; congruence).
            injection Hc as <-. cbn in Hl. injection Hl as ->.
            apply (decomp_fun E 1 (b_text b) (Leaf (LFun j))).
            -- rewrite decomp_S, D. reflexivity.
            -- left; auto.
          * rewrite nth_set_other in Hc by auto. eauto.
        + intros i c j Hc Hl.
          destruct (Nat.lt_ge_cases i (length bs0)) as [Hi|Hi].
          * rewrite nth_error_app1 in Hc by (rewrite len_set; auto).
            destruct (Nat.eq_dec i k) as [->|N].
            -- rewrite nth_set_same in Hc by (apply nth_error_Some; congruence).
               injection Hc as <-. discriminate.
            -- rewrite nth_set_other in Hc by auto. eauto.
          * rewrite nth_error_app2 in Hc by (rewrite len_set; auto).
            apply nth_error_In, in_map_iff in Hc as (x & <- & _). discriminate. }
    destruct (all_done bs1); [injection H as <-; eauto|eauto]. }
  apply (G maxiter). intros [|k] c' j' Hc'; cbn in Hc';
    [injection Hc' as <-; discriminate|destruct k; discriminate].
Qed.

Section Defs.
Variables (soln scal par : list str) (defs : list (str * str)) (Ts : list tree).
Let E := env_of soln scal par defs.
Hypothesis HD : Forall2 (fun d T => decompose E (snd d) = Ok T) defs Ts.

Lemma decompose_all_ok : exists F, decompose_all E defs = Ok F /\
  Forall2 (fun bs T => Rep bs 0 T) F Ts /\
  Forall2 (fun d bs => flat_decompose E (snd d) = Ok bs) defs F.
Proof.
  unfold decompose_all. revert HD. generalize E as E0. intros E0 HD0.
  induction HD0 as [|d T ds Ts' H1 H2 IH].
  - exists []. repeat split; constructor.
  - destruct IH as (F & EF & R & D).
    destruct (proj1 (flat_decompose_correct E0 (snd d)) T H1) as (bs & Hbs & RT).
    exists (bs :: F). cbn [map_outcome]. rewrite Hbs, EF. repeat split; constructor; auto.
Qed.

Lemma Forall2_nth {A B} (P : A -> B -> Prop) l m i y :
  Forall2 P l m -> nth_error m i = Some y -> exists x, nth_error l i = Some x /\ P x y.
Proof.
  intros H. revert i. induction H as [|a b l m Hab H IH]; intros [|i] Hy; try discriminate.
  - cbn in Hy. injection Hy as <-. exists a; auto.
  - apply (IH i Hy).
Qed.

Lemma Forall2_len {A B} (P : A -> B -> Prop) l m : Forall2 P l m -> length l = length m.
Proof. induction 1; cbn; auto. Qed.

Lemma main_spec :
  (decompose_functions soln scal par defs = Some Exn /\ exists i, Depends Ts i i) \/
  (exists F l, decompose_functions soln scal par defs = Some (Ok (F, l)) /\
     Forall2 (fun bs T => Rep bs 0 T) F Ts /\
     Forall2 (fun n st => FlagsOf F n flags0 st) (all_nodes F) l /\
     forall i, ~ Depends Ts i i).
Proof.
  destruct decompose_all_ok as (F & EF & R & D).
  assert (W : forall bs, In bs F -> forall i c, nth_error bs i = Some c ->
    forall op j, In (op, j) (b_deps c) -> i < j < length bs).
  { intros bs Hbs. apply In_nth_error in Hbs as [t Ht].
    destruct (Forall2_nth _ _ _ _ _ D Ht) as (d & _ & Hd).
    apply flat_decompose_wf in Hd. tauto. }
  assert (HF : forall t bs i c j, nth_error F t = Some bs -> nth_error bs i = Some c ->
    b_leaf c = Some (LFun j) -> j < length F).
  { intros t bs i c j Ht Hc Hl. destruct (Forall2_nth _ _ _ _ _ D Ht) as (d & _ & Hd).
    rewrite <- (Forall2_len _ _ _ D). pose proof (flat_fun _ _ _ _ _ _ Hd Hc Hl) as Q.
    unfold E, env_of in Q. cbn in Q. rewrite map_length in Q. exact Q. }
  pose proof (forest_closed F Ts R W HF) as HC.
  unfold decompose_functions. fold E. rewrite EF.
  destruct (prepare_spec F HC) as [[P (m & _ & Hm)]|(l & P & Fl & A)]; rewrite P.
  - left; split; auto. eapply cyc_depends; eauto.
  - right. exists F, l. repeat split; auto. intros i Hi.
    apply (A (i, 0)). eapply depends_cyc; eauto.
Qed.
End Defs.

(** For all sets of definitions that can be parsed: preparing them always ends, with
    the circularity exception exactly when some definition depends on itself through
    a chain of mentions, and normally otherwise (in particular for diamonds). *)
Theorem C08_circular (soln scal par : list str) (defs : list (str * str)) (Ts : list tree) :
  Forall2 (fun d T => decompose (env_of soln scal par defs) (snd d) = Ok T) defs Ts ->
  (decompose_functions soln scal par defs = Some Exn <->
     exists i, clos_trans nat (Mentions Ts) i i) /\
  ((~ exists i, clos_trans nat (Mentions Ts) i i) <->
     exists F l, decompose_functions soln scal par defs = Some (Ok (F, l))).
Proof.
  intros H. destruct (main_spec soln scal par defs Ts H) as [[P (i & Hi)]|(F & l & P & R & Fl & A)];
    rewrite P; split; split.
  - intros _. exists i; auto.
  - auto.
  - intros N. destruct N. exists i; auto.
  - intros (F & l & Q). discriminate.
  - discriminate.
  - intros (i & Hi). destruct (A i Hi).
  - intros _. eauto.
  - intros _ (i & Hi). destruct (A i Hi).
Qed.
Print Assumptions C08_circular.

(** The storage class derived for each branch: constant iff everything below it
    (through other definitions as well) is a number, an array iff some leaf below is
    a field or parameter, differentiable iff some leaf below is a solution field or a
    parameter. *)
Definition number_leaf (l : leaf) : Prop := (exists s, l = LNum s) \/ l = LPi.
Definition active_leaf (l : leaf) : Prop :=
  (exists i, l = LSoln i) \/ (exists p k, l = LPar p k) \/ (exists p k, l = LParDot p k).
Definition array_leaf (l : leaf) : Prop := active_leaf l \/ exists i, l = LScal i.
Lemma leaf_number l : f_const (leaf_flags l) = true <-> number_leaf l.
Proof. unfold number_leaf. destruct l; cbn; split; intros H; try discriminate; eauto; destruct H as [[? H]|H]; discriminate. Qed.
Lemma leaf_active l : f_AD (leaf_flags l) = true <-> active_leaf l.
Proof.
  unfold active_leaf. destruct l; cbn; split; intros H; try discriminate; eauto 6;
    destruct H as [[? H]|[(? & ? & H)|(? & ? & H)]]; discriminate.
Qed.
Lemma leaf_array l : f_view (leaf_flags l) = true <-> array_leaf l.
Proof.
  unfold array_leaf, active_leaf. destruct l; cbn; split; intros H; try discriminate; eauto 7;
    destruct H as [[[? H]|[(? & ? & H)|(? & ? & H)]]|[? H]]; discriminate.
Qed.
Theorem C08_storage_class (soln scal par : list str) defs Ts F l :
  Forall2 (fun d T => decompose (env_of soln scal par defs) (snd d) = Ok T) defs Ts ->
  decompose_functions soln scal par defs = Some (Ok (F, l)) ->
  Forall2 (fun bs T => Rep bs 0 T) F Ts /\
  Forall2 (fun n st =>
     (f_const st = true <-> forall m lf, reach F n m -> has_leaf F m lf -> number_leaf lf) /\
     (f_view st = true <-> exists m lf, reach F n m /\ has_leaf F m lf /\ array_leaf lf) /\
     (f_AD st = true <-> exists m lf, reach F n m /\ has_leaf F m lf /\ active_leaf lf))
    (all_nodes F) l.
Proof.
  intros H HE. destruct (main_spec soln scal par defs Ts H)
    as [[P _]|(F' & l' & P & R & Fl & _)]; rewrite P in HE; [discriminate|].
  injection HE as -> ->. split; auto.
  assert (G : forall ns ls, Forall2 (fun n st => FlagsOf F n flags0 st) ns ls ->
     Forall2 (fun n st =>
     (f_const st = true <-> forall m lf, reach F n m -> has_leaf F m lf -> number_leaf lf) /\
     (f_view st = true <-> exists m lf, reach F n m /\ has_leaf F m lf /\ array_leaf lf) /\
     (f_AD st = true <-> exists m lf, reach F n m /\ has_leaf F m lf /\ active_leaf lf)) ns ls).
  { induction 1 as [|n st ns ls (A1 & A2 & A3) _ IH]; constructor; auto.
    rewrite A1, A2, A3. cbn. split; [|split].
    - split; [intros [_ Q] m lf X Y; apply leaf_number; eauto | intros Q; split; auto; intros m lf X Y; apply leaf_number; eauto].
    - split; [intros [Q|(m & lf & X & Y & Z)]; [discriminate|]; exists m, lf; rewrite <- leaf_array; auto
             | intros (m & lf & X & Y & Z); right; exists m, lf; rewrite leaf_array; auto].
    - split; [intros [Q|(m & lf & X & Y & Z)]; [discriminate|]; exists m, lf; rewrite <- leaf_active; auto
             | intros (m & lf & X & Y & Z); right; exists m, lf; rewrite leaf_active; auto]. }
  apply G; auto.
Qed.
(** The names in a definition: a solution field before a scalar field before a parameter
    before another definition, each referred to by its position in its own list. *)
Definition position (s : str) (l : list str) (i : nat) : Prop :=
  nth_error l i = Some s /\ forall j, j < i -> nth_error l j <> Some s.
Lemma seq_str_iff a b : seq_str a b = true <-> a = b.
Proof.
  revert b. induction a as [|x a IH]; intros [|y b]; cbn; split; intros H; try discriminate; auto.
  - apply andb_prop in H as [H1 H2]. apply IH in H2. unfold aeq in H1. apply Ascii.eqb_eq in H1. congruence.
  - injection H as -> ->. apply andb_true_iff. split; [unfold aeq; apply Ascii.eqb_refl | apply IH; reflexivity].
Qed.
Lemma find_first_position s l i k : position s l i -> find_first s l k = Some (k + i).
Proof.
  revert i k. induction l as [|a l IH]; intros i k [H M]; [destruct i; discriminate|]. cbn [find_first].
  destruct i as [|i]; cbn in H.
  - injection H as ->. rewrite (proj2 (seq_str_iff s s) eq_refl). f_equal. lia.
  - assert (seq_str s a = false) as ->.
    { apply not_true_is_false. intros Q. apply seq_str_iff in Q. subst a. apply (M 0 ltac:(lia)). reflexivity. }
    rewrite (IH i (S k)); [f_equal; lia|]. split; auto. intros j Hj. apply (M (S j)). lia.
Qed.
Lemma find_first_none s l k : ~ In s l -> find_first s l k = None.
Proof.
  revert k. induction l as [|a l IH]; intros k H; auto. cbn [find_first].
  assert (seq_str s a = false) as ->.
  { apply not_true_is_false. intros Q. apply seq_str_iff in Q. subst a. apply H. left. reflexivity. }
  apply IH. intros X. apply H. right. auto.
Qed.
Theorem C08_names soln scal par defs s i :
  (position s soln i -> decompose (env_of soln scal par defs) s = Ok (Leaf (LSoln i))) /\
  (~ In s soln -> position s scal i -> decompose (env_of soln scal par defs) s = Ok (Leaf (LScal i))).
Proof.
  assert (forall l, classify (env_of soln scal par defs) s = Some (Ok l) -> decompose (env_of soln scal par defs) s = Ok (Leaf l)) as G.
  { intros l C. unfold decompose, maxiter. cbn [decomp]. unfold decomp_step. rewrite C. reflexivity. }
  split.
  - intros P. apply G. unfold classify. cbn [env_of e_soln]. rewrite (find_first_position s soln i 0 P). reflexivity.
  - intros N P. apply G. unfold classify. cbn [env_of e_soln e_scal]. rewrite find_first_none, (find_first_position s scal i 0 P) by auto. reflexivity.
Qed.
Print Assumptions C08_names.
Print Assumptions C08_storage_class.

(** Witnesses: a diamond is accepted, a three-cycle is not. *)
Definition dd (n e : string) : str * str := (s_ n, s_ e).
Example C08_diamond :
  exists F l, decompose_functions [s_ "u"] [s_ "x"] []
    [dd "top" "left+right"; dd "left" "base*2"; dd "right" "base+1"; dd "base" "u*x"]
    = Some (Ok (F, l)).
Proof. eexists _, _. vm_compute. reflexivity. Qed.
Example C08_three_cycle :
  decompose_functions [s_ "u"] [s_ "x"] []
    [dd "fa" "fb+u"; dd "fb" "2*fc"; dd "fc" "sin(fa)"; dd "fd" "u"] = Some Exn.
Proof. vm_compute. reflexivity. Qed.
Example C08_hypothesis_met :
  exists Ts, Forall2 (fun d T => decompose (env_of [s_ "u"] [s_ "x"] []
    [dd "fa" "fb+u"; dd "fb" "2*fc"; dd "fc" "sin(fa)"; dd "fd" "u"]) (snd d) = Ok T)
    [dd "fa" "fb+u"; dd "fb" "2*fc"; dd "fc" "sin(fa)"; dd "fd" "u"] Ts.
Proof.
  eexists. repeat (apply Forall2_cons; [vm_compute; reflexivity|]). apply Forall2_nil.
Qed.
