(** C07: the registry is a first-wins map from (location, name) to definitions.

    The specification below speaks about the history of registrations only; it does
    not use forests or trees. *)
From Coq Require Import Ascii String Bool Arith Lia List.
From Verif Require Import Outcome Interp_Model Interp_Lemmas FuncReg_Model.
Import ListNotations.

(* ------------------------------------------------------------------ *)
(** ** Specification *)
Section Spec.
Context {V : Type}.

Definition same (x : reg V) (n l : str) : Prop := r_name x = n /\ r_loc x = l.

(** [First h n l b]: the first registration of [n] at [l] in [h] had body [b]. *)
Inductive First (n l : str) (b : body V) : list (reg V) -> Prop :=
| First_here : forall x r, same x n l -> r_body x = b -> First n l b (x :: r)
| First_later : forall x r, ~ same x n l -> First n l b r -> First n l b (x :: r).

(** Names registered at [l], in order of first appearance. *)
Fixpoint names_at (l : str) (h : list (reg V)) (seen : list str) : list str :=
  match h with
  | [] => seen
  | x :: r =>
      if list_eq_dec ascii_dec (r_loc x) l then
        if in_dec (list_eq_dec ascii_dec) (r_name x) seen then names_at l r seen
        else names_at l r (seen ++ [r_name x])
      else names_at l r seen
  end.
End Spec.

(* ------------------------------------------------------------------ *)
(** ** Lemmas *)
Section Proofs.
Context {V : Type}.

(** Trees of the (unique) forest of a location. *)
Fixpoint trees_of (l : str) (fs : list (forest V)) : option (list (reg_tree V)) :=
  match fs with
  | [] => None
  | (loc, ts) :: r => if seq_str loc l then Some ts else trees_of l r
  end.

Definition names (ts : list (reg_tree V)) := map fst ts.

Lemma NoDup_snoc {A} (l : list A) a : NoDup l -> ~ In a l -> NoDup (l ++ [a]).
Proof.
  intros ND H. apply NoDup_rev in ND. rewrite <- (rev_involutive (l ++ [a])).
  apply NoDup_rev. rewrite rev_app_distr. cbn. constructor; auto.
  rewrite <- in_rev. auto.
Qed.

Lemma nth_error_names (ts : list (reg_tree V)) i n :
  nth_error (names ts) i = Some n -> exists b, nth_error ts i = Some (n, b).
Proof.
  revert i; induction ts as [|[a b] ts IH]; intros [|i] H; try discriminate; cbn in H.
  - injection H as ->. eexists; reflexivity.
  - apply IH in H. exact H.
Qed.

Lemma scan_none n ts j st :
  ~ In n (names ts) -> scan_trees n ts j st = st.
Proof.
  revert j st; induction ts as [|t ts IH]; intros j st H; auto.
  cbn [scan_trees]. cbn in H.
  assert (E : seq_str (fst t) n = false) by (apply seq_str_false; tauto).
  rewrite E. apply IH. tauto.
Qed.

Lemma scan_some n ts j st i :
  NoDup (names ts) -> nth_error (names ts) i = Some n ->
  scan_trees n ts j st = (true, j + i).
Proof.
  revert j st i; induction ts as [|t ts IH]; intros j st i ND H.
  - destruct i; discriminate.
  - cbn in ND. inversion ND; subst. cbn [scan_trees].
    destruct i as [|i]; cbn in H.
    + injection H as H. rewrite (proj2 (seq_str_true _ _) H).
      rewrite scan_none by (rewrite <- H; auto). f_equal; lia.
    + assert (E : seq_str (fst t) n = false).
      { apply seq_str_false. intros Eq. apply H2. rewrite Eq. eapply nth_error_In; eauto. }
      rewrite E. rewrite (IH (S j) st i) by auto. f_equal; lia.
Qed.

Lemma add_loop_other n (b : body V) l fs st l' :
  l' <> l -> trees_of l' (fst (add_loop n b l fs st)) = trees_of l' fs.
Proof.
  intros Hl. revert st; induction fs as [|[loc ts] fs IH]; intros st; auto.
  cbn [add_loop trees_of].
  destruct (seq_str loc l) eqn:El.
  - apply seq_str_true in El; subst loc.
    assert (E' : seq_str l l' = false) by (apply seq_str_false; congruence).
    destruct (fst (scan_trees n ts 0 st)).
    + specialize (IH (scan_trees n ts 0 st)).
      destruct (add_loop n b l fs _) as [r' st2]. cbn. rewrite E'. exact IH.
    + match goal with |- context [add_loop n b l fs ?s] => specialize (IH s) end.
      destruct (add_loop n b l fs _) as [r' st2]. cbn. rewrite E'. exact IH.
  - specialize (IH st). destruct (add_loop n b l fs st) as [r' st2]. cbn.
    destruct (seq_str loc l'); auto.
Qed.

Lemma add_loop_locs n (b : body V) l fs st :
  map fst (fst (add_loop n b l fs st)) = map fst fs.
Proof.
  revert st; induction fs as [|[loc ts] fs IH]; intros st; auto.
  cbn [add_loop map fst].
  destruct (seq_str loc l).
  - destruct (fst (scan_trees n ts 0 st)).
    + specialize (IH (scan_trees n ts 0 st)).
      destruct (add_loop n b l fs _) as [r' st2]. cbn. f_equal; exact IH.
    + match goal with |- context [add_loop n b l fs ?s] => specialize (IH s) end.
      destruct (add_loop n b l fs _) as [r' st2]. cbn. f_equal; exact IH.
  - specialize (IH st). destruct (add_loop n b l fs st) as [r' st2]. cbn.
    f_equal; exact IH.
Qed.

Lemma add_loop_absent n (b : body V) l fs st :
  ~ In l (map fst fs) -> add_loop n b l fs st = (fs, st).
Proof.
  revert st; induction fs as [|[loc ts] fs IH]; intros st H; auto.
  cbn in H. cbn [add_loop].
  assert (E : seq_str loc l = false) by (apply seq_str_false; tauto).
  rewrite E, IH by tauto. reflexivity.
Qed.

(** What one call does to the trees of its own location. *)
Lemma add_spec n (b : body V) l fs ts :
  NoDup (map fst fs) -> trees_of l fs = Some ts -> NoDup (names ts) ->
  let '(fs', i) := addFunction fs n b l in
  exists ts', trees_of l fs' = Some ts' /\ NoDup (names ts') /\
    nth_error (names ts') i = Some n /\
    (In n (names ts) -> ts' = ts) /\
    (~ In n (names ts) -> ts' = ts ++ [(n, b)]).
Proof.
  intros NDf Ht NDt. unfold addFunction.
  assert (G : exists ts', trees_of l (fst (add_loop n b l fs (false, 0))) = Some ts' /\
    NoDup (names ts') /\
    nth_error (names ts') (snd (snd (add_loop n b l fs (false, 0)))) = Some n /\
    (In n (names ts) -> ts' = ts) /\ (~ In n (names ts) -> ts' = ts ++ [(n, b)])).
  2:{ destruct (add_loop n b l fs (false, 0)) as [fs' st]. cbn in G. exact G. }
  induction fs as [|[loc us] fs IH]; [discriminate|].
  cbn [map fst] in NDf. inversion NDf; subst. cbn [trees_of] in Ht. cbn [add_loop].
  destruct (seq_str loc l) eqn:E.
  - apply seq_str_true in E; subst loc. injection Ht as ->.
    destruct (in_dec (list_eq_dec ascii_dec) n (names ts)) as [Hin|Hout].
    + destruct (In_nth_error _ _ Hin) as [i Hi].
      rewrite (scan_some n ts 0 _ i) by auto. cbn [fst].
      rewrite add_loop_absent by auto. cbn [fst snd trees_of].
      rewrite (proj2 (seq_str_true l l) eq_refl).
      exists ts; repeat split; auto. tauto.
    + rewrite scan_none by auto. cbn [fst].
      rewrite add_loop_absent by auto. cbn [fst snd trees_of].
      rewrite (proj2 (seq_str_true l l) eq_refl).
      exists (ts ++ [(n, b)]). unfold names. rewrite map_app. repeat split; auto.
      * cbn. apply NoDup_snoc; auto.
      * rewrite nth_error_app2; rewrite app_length; cbn; rewrite !map_length; [|lia].
        replace (length ts + 1 - 1 - length ts) with 0 by lia. reflexivity.
      * intros; contradiction.
  - specialize (IH H2 Ht).
    destruct (add_loop n b l fs (false, 0)) as [r' st2]. cbn in IH |- *. rewrite E.
    exact IH.
Qed.

(** Invariant after the history [h]. *)
Definition Inv (h : list (reg V)) (fs : list (forest V)) : Prop :=
  map fst fs = locations /\
  forall l, In l locations -> exists ts, trees_of l fs = Some ts /\ NoDup (names ts) /\
     names ts = names_at l h [] /\ (forall n b, In (n, b) ts <-> First n l b h).

Lemma locations_nodup : NoDup locations.
Proof. repeat (constructor; [cbn; intuition discriminate|]). constructor. Qed.

Lemma trees_of_In l (fs : list (forest V)) : In l (map fst fs) <-> trees_of l fs <> None.
Proof.
  induction fs as [|[loc ts] fs IH]; cbn; [split; intros H; tauto|].
  destruct (seq_str loc l) eqn:E.
  - apply seq_str_true in E. split; [discriminate|auto].
  - apply seq_str_false in E. rewrite <- IH. split; tauto.
Qed.

Lemma names_at_snoc l (h : list (reg V)) x seen :
  names_at l (h ++ [x]) seen =
  if list_eq_dec ascii_dec (r_loc x) l then
    if in_dec (list_eq_dec ascii_dec) (r_name x) (names_at l h seen)
    then names_at l h seen else names_at l h seen ++ [r_name x]
  else names_at l h seen.
Proof.
  revert seen; induction h as [|y h IH]; intros seen; cbn [app names_at]; auto.
  destruct (list_eq_dec ascii_dec (r_loc y) l); auto.
  destruct (in_dec (list_eq_dec ascii_dec) (r_name y) seen); auto.
Qed.

Lemma same_dec (x : reg V) n l : {same x n l} + {~ same x n l}.
Proof.
  unfold same.
  destruct (list_eq_dec ascii_dec (r_name x) n), (list_eq_dec ascii_dec (r_loc x) l);
  [left; auto|right; tauto..].
Qed.

Lemma First_app n l b (h k : list (reg V)) : First n l b h -> First n l b (h ++ k).
Proof. induction 1; cbn; [apply First_here | apply First_later]; auto. Qed.

Lemma First_snoc n l b (h : list (reg V)) x :
  First n l b (h ++ [x]) <->
  First n l b h \/
  ((forall y, In y h -> ~ same y n l) /\ same x n l /\ r_body x = b).
Proof.
  induction h as [|y h IH]; cbn [app].
  - split.
    + intros H; inversion H as [x' r S0 Eb|x' r S0 HF]; subst;
        [right; split; [intros y []|auto]|inversion HF].
    + intros [H|(_ & H & E)]; [inversion H|]. apply First_here; auto.
  - split.
    + intros H; inversion H as [x' r S0 Eb|x' r S0 H3]; subst.
      * left. apply First_here; auto.
      * apply IH in H3 as [H3|(A & B)]; [left; apply First_later; auto|].
        right; split; auto. intros z [->|Hz]; auto.
    + intros [H|(A & B)].
      * inversion H; subst; [apply First_here; auto|].
        apply First_later; auto. apply IH; auto.
      * apply First_later; [apply A; left; auto|]. apply IH. right; split; auto.
        intros z Hz; apply A; right; auto.
Qed.

Lemma First_exists n l (h : list (reg V)) :
  (exists y, In y h /\ same y n l) <-> exists b, First n l b h.
Proof.
  split.
  - induction h as [|y h IH]; intros (z & Hz & S0); [destruct Hz|].
    destruct (same_dec y n l) as [Y|Y].
    + exists (r_body y). apply First_here; auto.
    + destruct Hz as [->|Hz]; [contradiction|].
      destruct IH as [b Hb]; eauto. exists b. apply First_later; auto.
  - intros [b H]. induction H as [x r S0|x r S0 H IH].
    + exists x; split; auto; left; auto.
    + destruct IH as (y & Hy & Sy). exists y; split; auto; right; auto.
Qed.

Lemma First_fun n l b b' (h : list (reg V)) :
  First n l b h -> First n l b' h -> b = b'.
Proof.
  induction 1; intros H'; inversion H'; subst; auto; contradiction.
Qed.

Lemma inv_init : Inv [] (init_forests V).
Proof.
  split; [reflexivity|].
  intros l Hl.
  assert (E : trees_of l (init_forests V) = Some []).
  { unfold init_forests. revert Hl. generalize locations as ls.
    induction ls as [|a ls IH]; intros H; [destruct H|]. cbn.
    destruct (seq_str a l) eqn:Ea; auto. apply IH. destruct H; auto.
    subst. rewrite seq_str_refl in Ea. discriminate. }
  exists []. repeat split; auto; [constructor|intros []|intros H; inversion H].
Qed.

Lemma inv_step h fs x fs' i :
  Inv h fs -> addFunction fs (r_name x) (r_body x) (r_loc x) = (fs', i) ->
  Inv (h ++ [x]) fs' /\
  (In (r_loc x) locations ->
     nth_error (names_at (r_loc x) (h ++ [x]) []) i = Some (r_name x)) /\
  (~ In (r_loc x) locations -> fs' = fs /\ i = 0).
Proof.
  intros [Hl HI] E.
  assert (NDf : NoDup (map fst fs)) by (rewrite Hl; apply locations_nodup).
  assert (Hloc : map fst fs' = locations).
  { unfold addFunction in E.
    pose proof (add_loop_locs (r_name x) (r_body x) (r_loc x) fs (false, 0)) as L.
    destruct (add_loop _ _ _ fs _) as [a b]. injection E as <- <-. cbn in L.
    congruence. }
  destruct (in_dec (list_eq_dec ascii_dec) (r_loc x) locations) as [Hx|Hx].
  - destruct (HI _ Hx) as (ts & Ht & ND & Hn & Hf).
    pose proof (add_spec (r_name x) (r_body x) (r_loc x) fs ts NDf Ht ND) as S0.
    rewrite E in S0. destruct S0 as (ts' & Ht' & ND' & Hi & Hold & Hnew).
    assert (Nm : names ts' = names_at (r_loc x) (h ++ [x]) []).
    { rewrite names_at_snoc.
      destruct (list_eq_dec ascii_dec (r_loc x) (r_loc x)); [|congruence].
      rewrite <- Hn.
      destruct (in_dec (list_eq_dec ascii_dec) (r_name x) (names ts)) as [I|O].
      - rewrite Hold; auto.
      - rewrite Hnew by auto. unfold names. rewrite map_app. reflexivity. }
    assert (Key : forall n, In n (names ts) <-> exists y, In y h /\ same y n (r_loc x)).
    { intros n. rewrite First_exists. unfold names. rewrite in_map_iff. split.
      - intros ([a b] & Ea & Hin). cbn in Ea; subst. exists b. apply Hf; auto.
      - intros [b Hb]. exists (n, b). split; auto. apply Hf; auto. }
    split; [|split; [intros _; rewrite <- Nm; auto | tauto]].
    split; auto. intros l Hin.
    destruct (list_eq_dec ascii_dec l (r_loc x)) as [->|Ne].
    + exists ts'; repeat split; auto.
      * rewrite First_snoc.
        destruct (in_dec (list_eq_dec ascii_dec) (r_name x) (names ts)) as [I|O].
        -- rewrite Hold by auto. intros H; left; apply Hf; auto.
        -- rewrite Hnew by auto. rewrite in_app_iff. intros [H|[H|[]]].
           ++ left; apply Hf; auto.
           ++ injection H as <- <-. right. repeat split; auto.
              intros y Hy Sy. apply O. apply Key. eauto.
      * rewrite First_snoc. intros [H|(A & (B1 & B2) & C)].
        -- apply Hf in H.
           destruct (in_dec (list_eq_dec ascii_dec) (r_name x) (names ts)) as [I|O].
           ++ rewrite Hold; auto.
           ++ rewrite Hnew by auto. apply in_or_app; auto.
        -- subst. assert (O : ~ In (r_name x) (names ts)).
           { intros I. apply Key in I as (y & Hy & Sy). apply (A y); auto. }
           rewrite Hnew by auto. apply in_or_app; right; left; auto.
    + destruct (HI _ Hin) as (us & Hu & NDu & Hnu & Hfu).
      exists us. repeat split; auto.
      * unfold addFunction in E.
        pose proof (add_loop_other (r_name x) (r_body x) (r_loc x) fs (false, 0) l Ne) as L.
        destruct (add_loop _ _ _ fs _) as [a b]. injection E as <- <-. cbn in L.
        congruence.
      * rewrite names_at_snoc.
        destruct (list_eq_dec ascii_dec (r_loc x) l); [congruence|auto].
      * rewrite First_snoc. intros H; left; apply Hfu; auto.
      * rewrite First_snoc. intros [H|(_ & (_ & B) & _)]; [apply Hfu; auto|congruence].
  - assert (Ef : fs' = fs /\ i = 0).
    { unfold addFunction in E. rewrite add_loop_absent in E by (rewrite Hl; auto).
      injection E; auto. }
    destruct Ef as [-> ->]. split; [|tauto]. split; auto.
    intros l Hin. destruct (HI _ Hin) as (us & Hu & NDu & Hnu & Hfu).
    assert (Ne : r_loc x <> l) by (intros Q; apply Hx; rewrite Q; auto).
    exists us. repeat split; auto.
    + rewrite names_at_snoc. destruct (list_eq_dec ascii_dec (r_loc x) l); tauto.
    + rewrite First_snoc. intros H; left; apply Hfu; auto.
    + rewrite First_snoc. intros [H|(_ & (_ & B) & _)]; [apply Hfu; auto|congruence].
Qed.

Lemma names_at_prefix l (h k : list (reg V)) :
  exists e, names_at l (h ++ k) [] = names_at l h [] ++ e.
Proof.
  induction k as [|x k IH] using rev_ind.
  - exists []. rewrite !app_nil_r. reflexivity.
  - destruct IH as [e He]. rewrite app_assoc, names_at_snoc, He.
    destruct (list_eq_dec ascii_dec (r_loc x) l); [|eauto].
    match goal with |- context [in_dec ?d ?a ?b] => destruct (in_dec d a b) end; [eauto|]. exists (e ++ [r_name x]).
    rewrite app_assoc. reflexivity.
Qed.

Lemma run_inv h0 fs h fs' is :
  Inv h0 fs -> run_regs fs h = (fs', is) ->
  Inv (h0 ++ h) fs' /\ length is = length h /\
  forall k x, nth_error h k = Some x -> exists i, nth_error is k = Some i /\
    (In (r_loc x) locations ->
       nth_error (names_at (r_loc x) (h0 ++ h) []) i = Some (r_name x)) /\
    (~ In (r_loc x) locations -> i = 0).
Proof.
  revert h0 fs fs' is; induction h as [|x h IH]; intros h0 fs fs' is HI E;
    cbn [run_regs] in E.
  - injection E as <- <-. rewrite app_nil_r. repeat split; auto; try apply HI.
    intros k y Hk; destruct k; discriminate.
  - destruct (addFunction fs (r_name x) (r_body x) (r_loc x)) as [fs1 i] eqn:E1.
    destruct (run_regs fs1 h) as [fs2 is2] eqn:E2. injection E as <- <-.
    destruct (inv_step h0 fs x fs1 i HI E1) as (HI1 & Hi & Hi0).
    destruct (IH _ _ _ _ HI1 E2) as (HI2 & Len & Hk).
    rewrite <- app_assoc in HI2, Hk. cbn [app] in HI2, Hk.
    split; [auto|split; [cbn; auto|]].
    intros [|k] y Hy; cbn in Hy.
    + injection Hy as <-. exists i. split; [reflexivity|]. split.
      * intros Hin. specialize (Hi Hin).
        destruct (names_at_prefix (r_loc x) (h0 ++ [x]) h) as [e He].
        rewrite <- app_assoc in He. cbn [app] in He. rewrite He.
        rewrite nth_error_app1; auto. apply nth_error_Some. congruence.
      * intros Hout. apply Hi0 in Hout. tauto.
    + apply Hk; auto.
Qed.

Lemma find_tree_spec n (ts : list (reg_tree V)) j i b :
  NoDup (names ts) ->
  nth_error ts i = Some (n, b) -> find_tree n ts j = Some (j + i, b).
Proof.
  revert j i; induction ts as [|t ts IH]; intros j i ND H; [destruct i; discriminate|].
  cbn in ND; inversion ND; subst. cbn [find_tree].
  destruct i as [|i]; cbn in H.
  - injection H as ->. cbn. rewrite seq_str_refl. f_equal; f_equal; lia.
  - assert (E : seq_str n (fst t) = false).
    { apply seq_str_false. intros ->. apply H2. apply nth_error_In in H.
      apply (in_map fst) in H. exact H. }
    rewrite E, (IH (S j) i) by auto. f_equal; f_equal; lia.
Qed.

Lemma find_tree_none n (ts : list (reg_tree V)) j :
  ~ In n (names ts) -> find_tree n ts j = None.
Proof.
  revert j; induction ts as [|t ts IH]; intros j H; auto. cbn in H. cbn [find_tree].
  assert (E : seq_str n (fst t) = false) by (apply seq_str_false; intuition congruence).
  rewrite E. apply IH. tauto.
Qed.

Lemma lookup_trees n l (fs : list (forest V)) :
  lookup fs n l = match trees_of l fs with
                  | Some ts => match find_tree n ts 0 with Some x => Ok x | None => Exn end
                  | None => Exn
                  end.
Proof.
  induction fs as [|[loc ts] fs IH]; cbn; auto. destruct (seq_str loc l); auto.
Qed.

Lemma has_trees n l (fs : list (forest V)) : NoDup (map fst fs) ->
  hasFunction fs n l = true <->
  exists ts, trees_of l fs = Some ts /\ In n (names ts).
Proof.
  unfold hasFunction. intros ND. rewrite existsb_exists. split.
  - intros ([loc ts] & Hin & H). apply andb_true_iff in H as [H1 H2]. cbn in H1, H2.
    apply seq_str_true in H1; subst loc.
    apply existsb_exists in H2 as ([a b] & Hb & Ea). cbn in Ea.
    apply seq_str_true in Ea; subst a.
    exists ts. split; [|apply (in_map fst) in Hb; exact Hb].
    clear Hb. induction fs as [|[loc us] fs IH]; [destruct Hin|].
    cbn in ND; inversion ND; subst. cbn.
    destruct Hin as [E|Hin].
    + injection E as -> ->. rewrite seq_str_refl. auto.
    + assert (E : seq_str loc l = false).
      { apply seq_str_false. intros ->. apply H1. apply (in_map fst) in Hin. exact Hin. }
      rewrite E. apply IH; auto.
  - intros (ts & Ht & Hn). exists (l, ts). split.
    + clear Hn ND. induction fs as [|[loc us] fs IH]; [discriminate|]. cbn in Ht.
      destruct (seq_str loc l) eqn:E.
      * apply seq_str_true in E; subst. injection Ht as ->. left; auto.
      * right; auto.
    + cbn. rewrite seq_str_refl. cbn. apply existsb_exists.
      apply in_map_iff in Hn as (t & E & Hin). exists t. split; auto.
      rewrite E. apply seq_str_refl.
Qed.

(** Main facts about a run from a fresh manager. *)
Theorem registry_lookup h n l : In l locations ->
  let fs := fst (run_regs (init_forests V) h) in
  (forall b, First n l b h ->
     hasFunction fs n l = true /\
     exists i, lookup fs n l = Ok (i, b) /\ nth_error (names_at l h []) i = Some n) /\
  ((forall y, In y h -> ~ same y n l) -> hasFunction fs n l = false /\ lookup fs n l = Exn).
Proof.
  intros Hl fs. unfold fs. clear fs.
  destruct (run_regs (init_forests V) h) as [fs is] eqn:E. cbn [fst].
  destruct (run_inv [] _ _ _ _ inv_init E) as ((Hloc & HI) & _). cbn [app] in HI.
  destruct (HI l Hl) as (ts & Ht & ND & Hn & Hf).
  assert (NDf : NoDup (map fst fs)) by (rewrite Hloc; apply locations_nodup).
  split.
  - intros b Hb. apply Hf in Hb. split.
    + apply has_trees; auto. exists ts; split; auto. apply (in_map fst) in Hb. exact Hb.
    + destruct (In_nth_error _ _ Hb) as [i Hi]. exists i.
      rewrite lookup_trees, Ht, (find_tree_spec n ts 0 i b) by auto. split; auto.
      rewrite <- Hn. unfold names. rewrite nth_error_map, Hi. reflexivity.
  - intros Hno.
    assert (O : ~ In n (names ts)).
    { intros I. apply in_map_iff in I as ([a b] & Ea & Hin). cbn in Ea; subst.
      apply Hf in Hin.
      destruct (proj2 (First_exists n l h) (ex_intro _ b Hin)) as (y & Hy & Sy).
      apply (Hno y); auto. }
    split.
    + destruct (hasFunction fs n l) eqn:B; auto. apply has_trees in B; auto.
      destruct B as (us & Hu & I). congruence.
    + rewrite lookup_trees, Ht, find_tree_none by auto. reflexivity.
Qed.

Lemma classic_First (h : list (reg V)) n l :
  (exists b, First n l b h) \/ (forall y, In y h -> ~ same y n l).
Proof.
  induction h as [|x h IH]; [right; intros y []|].
  destruct (same_dec x n l) as [S0|S0].
  - left. exists (r_body x). apply First_here; auto.
  - destruct IH as [[b Hb]|Hno].
    + left. exists b. apply First_later; auto.
    + right. intros y [<-|Hy]; auto.
Qed.

Theorem registry_index h k x :
  nth_error h k = Some x ->
  let '(fs, is) := run_regs (init_forests V) h in
  exists i, nth_error is k = Some i /\
    (In (r_loc x) locations ->
       exists b, First (r_name x) (r_loc x) b h /\
                 lookup fs (r_name x) (r_loc x) = Ok (i, b)) /\
    (~ In (r_loc x) locations -> i = 0 /\ lookup fs (r_name x) (r_loc x) = Exn).
Proof.
  intros Hk. destruct (run_regs (init_forests V) h) as [fs is] eqn:E.
  destruct (run_inv [] _ _ _ _ inv_init E) as ((Hloc & HI) & _ & HX). cbn [app] in *.
  destruct (HX k x Hk) as (i & Hi & A & B). exists i. split; auto. split.
  - intros Hl. specialize (A Hl).
    destruct (HI _ Hl) as (ts & Ht & ND & Hn & Hf).
    rewrite <- Hn in A. destruct (nth_error_names _ _ _ A) as [b Ei]. exists b. split.
    + apply Hf. eapply nth_error_In; eauto.
    + rewrite lookup_trees, Ht, (find_tree_spec _ ts 0 i b) by auto. reflexivity.
  - intros Hl. split; auto. rewrite lookup_trees.
    destruct (trees_of (r_loc x) fs) eqn:Et; auto.
    exfalso. apply Hl. rewrite <- Hloc. apply trees_of_In. congruence.
Qed.

(** Registrations elsewhere do not matter. *)
Theorem registry_independent h n l : In l locations ->
  lookup (fst (run_regs (init_forests V) h)) n l =
  lookup (fst (run_regs (init_forests V)
            (filter (fun x => seq_str (r_loc x) l) h))) n l.
Proof.
  intros Hl. set (g := filter (fun x => seq_str (r_loc x) l) h).
  assert (N : forall seen, names_at l g seen = names_at l h seen).
  { unfold g. clear g. induction h as [|x h IH]; intros seen; auto. cbn [filter].
    destruct (seq_str (r_loc x) l) eqn:E; cbn [names_at].
    - apply seq_str_true in E.
      destruct (list_eq_dec ascii_dec (r_loc x) l); [|congruence].
      match goal with |- context [in_dec ?d ?a ?b] => destruct (in_dec d a b) end; apply IH.
    - apply seq_str_false in E.
      destruct (list_eq_dec ascii_dec (r_loc x) l); [congruence|]. apply IH. }
  assert (F : forall b, First n l b g <-> First n l b h).
  { unfold g. clear g N. intros b. induction h as [|x h IH]; [tauto|]. cbn [filter].
    destruct (seq_str (r_loc x) l) eqn:E.
    - split; intros H; inversion H; subst;
        [apply First_here|apply First_later; [|apply IH]|apply First_here
        |apply First_later; [|apply IH]]; auto.
    - apply seq_str_false in E. rewrite IH. split; intros H.
      + apply First_later; auto. intros [_ B]; auto.
      + inversion H as [x' r [A B] Eb|x' r S0 HF]; subst; [congruence|auto]. }
  destruct (registry_lookup h n l Hl) as [P1 P2].
  destruct (registry_lookup g n l Hl) as [Q1 Q2].
  destruct (classic_First h n l) as [[b Hb]|Hno].
  - destruct (P1 b Hb) as (_ & i & -> & Hi).
    destruct (Q1 b (proj2 (F b) Hb)) as (_ & j & -> & Hj).
    rewrite N in Hj.
    assert (NoDup (names_at l h [])).
    { destruct (run_regs (init_forests V) h) as [fs is] eqn:E.
      destruct (run_inv [] _ _ _ _ inv_init E) as ((_ & HI) & _).
      destruct (HI l Hl) as (ts & _ & ND & Hn & _). cbn in Hn. rewrite <- Hn. auto. }
    f_equal. f_equal. eapply NoDup_nth_error; eauto; [|congruence].
    apply nth_error_Some. congruence.
  - rewrite (proj2 (P2 Hno)). symmetry. apply Q2. intros y Hy. apply Hno.
    apply filter_In in Hy. tauto.
Qed.

End Proofs.

(* ------------------------------------------------------------------ *)
(** ** C07 *)

(** First definition wins, for every history: the definition found under a name at
    a location is that of the first registration there; names never registered at
    the location are not found. *)
Theorem C07_first_wins {V : Type} (h : list (reg V)) n l : In l locations ->
  let fs := fst (run_regs (init_forests V) h) in
  (forall b, First n l b h ->
     hasFunction fs n l = true /\
     exists i, lookup fs n l = Ok (i, b) /\ nth_error (names_at l h []) i = Some n) /\
  ((forall y, In y h -> ~ same y n l) -> hasFunction fs n l = false /\ lookup fs n l = Exn).
Proof. exact (registry_lookup h n l). Qed.
Print Assumptions C07_first_wins.

(** The index returned by any call of the history is the one under which the name is
    found at the end (so repeated registrations return the same index).  A call with
    a location that does not exist returns 0 and has no effect. *)
Theorem C07_index_stable {V : Type} (h : list (reg V)) k x :
  nth_error h k = Some x ->
  let '(fs, is) := run_regs (init_forests V) h in
  exists i, nth_error is k = Some i /\
    (In (r_loc x) locations ->
       exists b, First (r_name x) (r_loc x) b h /\
                 lookup fs (r_name x) (r_loc x) = Ok (i, b)) /\
    (~ In (r_loc x) locations -> i = 0 /\ lookup fs (r_name x) (r_loc x) = Exn).
Proof. exact (registry_index h k x). Qed.
Print Assumptions C07_index_stable.

(** Registrations at other locations have no influence. *)
Theorem C07_locations_independent {V : Type} (h : list (reg V)) n l : In l locations ->
  lookup (fst (run_regs (init_forests V) h)) n l =
  lookup (fst (run_regs (init_forests V)
            (filter (fun x => seq_str (r_loc x) l) h))) n l.
Proof. exact (registry_independent h n l). Qed.
Print Assumptions C07_locations_independent.

Definition rg (n e l : string) : reg nat :=
  {| r_name := s_ n; r_body := BText (s_ e); r_loc := s_ l |}.
Example C07_history :
  let h := [rg "f" "x" "ip"; rg "g" "y" "side ip"; rg "f" "2*x" "ip";
            rg "f" "z" "side ip"; rg "g" "1" "ip"; rg "q" "1" "nowhere"]%string in
  run_regs (init_forests nat) h =
  ([(s_ "ip", [(s_ "f", BText (s_ "x")); (s_ "g", BText (s_ "1"))]);
    (s_ "side ip", [(s_ "g", BText (s_ "y")); (s_ "f", BText (s_ "z"))]);
    (s_ "tensor ip", []); (s_ "point", [])], [0; 0; 0; 1; 1; 0]).
Proof. reflexivity. Qed.
