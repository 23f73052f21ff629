(** Proofs about BCond_Model.v. *)
From Coq Require Import Bool Arith Lia ZArith QArith Qabs Ascii String List Sorting.Sorted.
From Verif Require Import BCond_Model.
Import ListNotations.
Local Open Scope string_scope.

(** *** Association lists *)
Lemma assoc_in {A} n (l : list (string * A)) a : assoc n l = Some a -> In (n, a) l.
Proof.
  induction l as [| [m b] l IH]; cbn; [discriminate |].
  destruct (string_dec m n) as [-> |]; intros H; [injection H as ->; auto | auto].
Qed.
Lemma assoc_none {A} n (l : list (string * A)) : assoc n l = None <-> forall a, ~ In (n, a) l.
Proof.
  induction l as [| [m b] l IH]; cbn; [split; intros; auto |].
  destruct (string_dec m n) as [-> | N].
  - split; [discriminate | intros H; exfalso; apply (H b); auto].
  - rewrite IH. split; intros H a.
    + intros [E | I]; [injection E as <-; contradiction | apply (H a I)].
    + intros I. apply (H a). auto.
Qed.
Lemma assoc_nodup {A} n (l : list (string * A)) a : NoDup (map fst l) -> In (n, a) l -> assoc n l = Some a.
Proof.
  induction l as [| [m b] l IH]; cbn; [contradiction |].
  intros ND [E | I]; inversion ND as [| ? ? N1 N2]; subst.
  - injection E as -> ->. destruct (string_dec n n); [reflexivity | contradiction].
  - destruct (string_dec m n) as [-> |]; [| auto].
    exfalso. apply N1. apply (in_map fst) in I. exact I.
Qed.
Lemma is_param_iff n s : is_param n s = true <-> exists v, In (n, v) s.
Proof.
  unfold is_param. destruct (assoc n s) as [v |] eqn:E.
  - split; [intros _; exists v; apply assoc_in; exact E | auto].
  - split; [discriminate |]. intros [v I]. exfalso. apply (proj1 (assoc_none n s) E v I).
Qed.
Lemma named_iff l var side : NoDup (map fst l) ->
  (named l var side = true <-> exists s v, In (var, s) l /\ (In ("all boundaries", v) s \/ In (side, v) s)).
Proof.
  intros ND. unfold named, sublist. rewrite orb_true_iff, !is_param_iff.
  destruct (assoc var l) as [s |] eqn:E.
  - split.
    + intros [[v I] | [v I]]; exists s, v; (split; [apply assoc_in; exact E | auto]).
    + intros (s' & v & I & H). rewrite (assoc_nodup _ _ _ ND I) in E. injection E as ->.
      destruct H as [H | H]; [left | right]; exists v; exact H.
  - split; [intros [[v []] | [v []]] |].
    intros (s' & v & I & H). exfalso. apply (proj1 (assoc_none var l) E s' I).
Qed.
Lemma prefix_iff p s : prefix p s = true <-> exists r, s = p ++ r.
Proof.
  revert s. induction p as [| a p IH]; intros s; cbn.
  - split; [intros _; exists s; reflexivity | intros _; destruct s; reflexivity].
  - destruct s as [| b s]; cbn.
    + split; [discriminate | intros [r H]; discriminate].
    + destruct (Ascii.ascii_dec a b) as [-> | N].
      * rewrite IH. split; intros [r H]; exists r; [subst; reflexivity | injection H as ->; reflexivity].
      * split; [discriminate | intros [r H]; injection H as -> _; contradiction].
Qed.

(** *** Sorting *)
Lemma insert_in x y l : In y (insert x l) <-> y = x \/ In y l.
Proof.
  induction l as [| z l IH]; cbn; [intuition congruence |].
  destruct (x <=? z)%nat; cbn; [intuition congruence | rewrite IH; intuition congruence].
Qed.
Lemma sort_in y l : In y (sort l) <-> In y l.
Proof. induction l as [| x l IH]; cbn; [tauto |]. rewrite insert_in, IH. intuition congruence. Qed.
Lemma insert_sorted x l : StronglySorted le l -> StronglySorted le (insert x l).
Proof.
  induction 1 as [| z l S IH F]; cbn; [constructor; constructor |].
  destruct (Nat.leb_spec x z).
  - constructor; [constructor; assumption |]. constructor; [assumption |].
    rewrite Forall_forall in *. intros y I. specialize (F y I). lia.
  - constructor; [assumption |]. rewrite Forall_forall in *. intros y I.
    apply insert_in in I. destruct I as [-> | I]; [lia | apply F; exact I].
Qed.
Lemma sort_sorted l : StronglySorted le (sort l).
Proof. induction l; cbn; [constructor | apply insert_sorted; assumption]. Qed.
Lemma unique_in y l : In y (unique l) <-> In y l.
Proof.
  induction l as [| x l IH]; [tauto |]. cbn [unique]. destruct l as [| z l]; [tauto |].
  destruct (Nat.eqb_spec x z) as [-> | N].
  - rewrite IH. cbn. tauto.
  - cbn [In] in *. rewrite IH. tauto.
Qed.
Lemma unique_sorted l : StronglySorted le l -> StronglySorted lt (unique l).
Proof.
  induction 1 as [| x l S IH F]; [constructor |]. cbn [unique]. destruct l as [| z l]; [repeat constructor |].
  destruct (Nat.eqb_spec x z) as [-> | N]; [exact IH |].
  constructor; [exact IH |]. rewrite Forall_forall in *. intros y I. apply (proj1 (unique_in y (z :: l))) in I.
  pose proof (F z (or_introl eq_refl)). inversion S as [| ? ? S1 F1]; subst. rewrite Forall_forall in F1.
  destruct I as [<- | I]; [lia |]. specialize (F1 y I). lia.
Qed.

(** *** Rounding *)
Lemma round_even_close q : (Qabs.Qabs (inject_Z (round_even q) - q) <= 1 # 2)%Q.
Proof.
  unfold round_even. destruct q as [n d]. cbn [Qnum Qden].
  set (D := Zpos d). set (f := (n / D)%Z).
  assert (HD : (0 < D)%Z) by (unfold D; lia).
  pose proof (Z.div_mod n D ltac:(lia)) as E. pose proof (Z.mod_pos_bound n D HD) as B. fold f in E.
  assert (forall z, (Z.abs (2 * (z * D - n)) <= D)%Z -> (Qabs.Qabs (inject_Z z - (n # d)) <= 1 # 2)%Q) as K.
  { intros z H. apply Qabs.Qabs_Qle_condition. unfold Qle, Qminus, Qplus, Qopp, inject_Z. cbn. fold D. split; lia. }
  destruct (Z.ltb_spec (2 * (n - f * D)) D); [apply K; lia |].
  destruct (Z.ltb_spec D (2 * (n - f * D))); [apply K; nia |].
  destruct (Z.even f); apply K; nia.
Qed.
Lemma to_string_close q : exists r, to_string q = ENum r /\ (Qabs.Qabs (r - q) <= 1 # 2000000)%Q.
Proof.
  unfold to_string. eexists. split; [reflexivity |]. rewrite Qred_correct.
  pose proof (round_even_close (q * 1000000)) as H.
  setoid_replace (inject_Z (round_even (q * 1000000)) / 1000000 - q)%Q
    with ((inject_Z (round_even (q * 1000000)) - q * 1000000) * (1 # 1000000))%Q by (field; discriminate).
  rewrite Qabs.Qabs_Qmult. change (Qabs.Qabs (1 # 1000000)) with (1 # 1000000)%Q.
  apply Qle_trans with ((1 # 2) * (1 # 1000000))%Q; [| apply Qle_refl].
  apply Qmult_le_compat_r; [exact H | discriminate].
Qed.

(** *** Labels *)
Definition blank_free (s : string) : Prop := forall a b, s <> a ++ " " ++ b.
Lemma blank_split a b a' b' : blank_free a -> blank_free a' -> a ++ " " ++ b = a' ++ " " ++ b' -> a = a' /\ b = b'.
Proof.
  revert a'. induction a as [| c a IH]; intros a' Fa Fa' E.
  - destruct a' as [| c' a']; [injection E as ->; auto |].
    exfalso. injection E as <- _. apply (Fa' "" a'). reflexivity.
  - destruct a' as [| c' a'].
    + exfalso. injection E as -> _. apply (Fa "" a). reflexivity.
    + cbn in E. injection E as <- E. destruct (IH a') as [-> ->]; auto.
      * intros x y H. apply (Fa (String c x) y). cbn. rewrite H. reflexivity.
      * intros x y H. apply (Fa' (String c x) y). cbn. rewrite H. reflexivity.
Qed.
Lemma label_inj k v s k' v' s' : blank_free k -> blank_free k' -> blank_free v -> blank_free v' ->
  label k v s = label k' v' s' -> k = k' /\ v = v' /\ s = s'.
Proof.
  intros Hk Hk' Hv Hv' E. unfold label in E. apply blank_split in E; auto.
  destruct E as [-> E]. apply blank_split in E; [| assumption | assumption]. destruct E as [-> ->]. auto.
Qed.
(** Decision of [blank_free] for literals. *)
Fixpoint has_blank (s : string) : bool :=
  match s with "" => false | String c s => Ascii.eqb c " "%char || has_blank s end.
Lemma has_blank_spec s : has_blank s = false -> blank_free s.
Proof.
  induction s as [| c s IH]; intros H a b E.
  - destruct a; discriminate.
  - cbn in H. apply orb_false_iff in H. destruct H as [Hc H].
    destruct a as [| c' a]; injection E as -> E.
    + discriminate.
    + apply (IH H a b E).
Qed.

(** *** The function manager *)
Lemma assoc_app {A} n (l m : list (string * A)) :
  assoc n (l ++ m) = match assoc n l with Some a => Some a | None => assoc n m end.
Proof. induction l as [| [k a] l IH]; cbn; [reflexivity |]. destruct (string_dec k n); auto. Qed.
Lemma add_fold n es : forall fm,
  assoc n (fold_left add_fn es fm) = match assoc n fm with Some a => Some a | None => assoc n es end.
Proof.
  induction es as [| [m a] es IH]; intros fm; cbn [fold_left].
  - cbn. destruct (assoc n fm); reflexivity.
  - rewrite IH. unfold add_fn. cbn [fst]. destruct (assoc m fm) as [b |] eqn:Em.
    + cbn [assoc]. destruct (string_dec m n) as [-> |]; [rewrite Em; reflexivity | reflexivity].
    + rewrite assoc_app. cbn. destruct (assoc n fm); [reflexivity |]. destruct (string_dec m n); reflexivity.
Qed.
Lemma assoc_not_in {A} n (l : list (string * A)) : (forall m a, In (m, a) l -> m <> n) -> assoc n l = None.
Proof. intros H. apply assoc_none. intros a I. apply (H n a I). reflexivity. Qed.
Lemma assoc_all {A} n a (l : list (string * A)) : In (n, a) l -> (forall b, In (n, b) l -> b = a) -> assoc n l = Some a.
Proof.
  intros I H. destruct (assoc n l) as [b |] eqn:E.
  - f_equal. apply H. apply assoc_in. exact E.
  - exfalso. apply (proj1 (assoc_none n l) E a I).
Qed.

Lemma collect_in {A B} (f : A -> option (list B)) l r : collect f l = Some r ->
  forall y, In y r <-> exists a x, In a l /\ f a = Some x /\ In y x.
Proof.
  revert r. induction l as [| a l IH]; cbn; intros r H y.
  - injection H as <-. split; [contradiction | intros (? & ? & [] & _)].
  - destruct (f a) as [x |] eqn:Ea; [| discriminate]. destruct (collect f l) as [t |] eqn:El; [| discriminate].
    injection H as <-. rewrite in_app_iff, (IH t eq_refl). split.
    + intros [I | (a' & x' & I & E & J)]; [exists a, x; auto | exists a', x'; auto].
    + intros (a' & x' & [<- | I] & E & J); [left; congruence | right; exists a', x'; auto].
Qed.
Lemma texts_in kind var s r : texts kind var s = Some r ->
  forall y, In y r <-> exists n t, In (n, VStr t) s /\ y = (label kind var n, EText t).
Proof.
  revert r. induction s as [| [n v] s IH]; cbn; intros r H y.
  - injection H as <-. split; [contradiction | intros (? & ? & [] & _)].
  - destruct v as [t | |]; try discriminate. destruct (texts kind var s) as [r' |]; [| discriminate].
    injection H as <-. cbn [In]. rewrite (IH r' eq_refl). split.
    + intros [<- | (n' & t' & I & ->)]; [exists n, t; auto | exists n', t'; auto].
    + intros (n' & t' & [E | I] & ->); [injection E as -> ->; auto | right; exists n', t'; auto].
Qed.

(** What one variable registers for one kind. *)
Definition use (s : sub) (sides : list string) (side : string) (v : bval) : Prop :=
  (In ("all boundaries", v) s /\ In side sides) \/ ((forall w, ~ In ("all boundaries", w) s) /\ In (side, v) s).

Lemma reg_str_in kind l sides var r : NoDup (map fst l) -> (forall v s, In (v, s) l -> NoDup (map fst s)) ->
  reg_str kind l sides var = Some r ->
  forall y, In y r <-> exists s side t, In (var, s) l /\ use s sides side (VStr t) /\ y = (label kind var side, EText t).
Proof.
  intros ND NS H y. unfold reg_str, conds, sub, all_b in *. destruct (assoc var l) as [s |] eqn:E.
  - pose proof (assoc_in _ _ _ E) as I.
    assert (forall s', In (var, s') l -> s' = s) as U.
    { intros s' I'. rewrite (assoc_nodup _ _ _ ND I') in E. congruence. }
    destruct (assoc "all boundaries" s) as [[t | |] |] eqn:Ea; try discriminate.
    + injection H as <-. rewrite in_map_iff. pose proof (assoc_in _ _ _ Ea) as Ia. split.
      * intros (sd & <- & Is). exists s, sd, t. split; [exact I |]. split; [left; auto | reflexivity].
      * intros (s' & sd & t' & I' & Hu & ->). rewrite (U s' I') in Hu. destruct Hu as [[Ha Hs] | [Hn _]].
        -- exists sd. rewrite (assoc_nodup _ _ _ (NS _ _ I) Ha) in Ea. injection Ea as ->. auto.
        -- exfalso. apply (Hn _ Ia).
    + rewrite (texts_in _ _ _ _ H). pose proof (proj1 (assoc_none "all boundaries" s) Ea) as Na. split.
      * intros (n & t & It & ->). exists s, n, t. split; [exact I |]. split; [right; auto | reflexivity].
      * intros (s' & sd & t' & I' & Hu & ->). rewrite (U s' I') in Hu. destruct Hu as [[Ha _] | [_ Hs]].
        -- exfalso. apply (Na _ Ha).
        -- exists sd, t'. auto.
  - injection H as <-. split; [contradiction |]. intros (s & sd & t & I & _). exfalso. apply (proj1 (assoc_none var l) E s I).
Qed.

Definition dentry (v : bval) (e : entry) : Prop :=
  match v with VStr t => e = EText t | VDbl q => e = to_string q | VInt _ => True end.
Lemma reg_dir_in l sides var : NoDup (map fst l) -> (forall v s, In (v, s) l -> NoDup (map fst s)) ->
  forall y, In y (reg_dir l sides var) ->
  exists side e, y = (label "Dirichlet" var side, e) /\
    forall s, In (var, s) l -> forall v, use s sides side v -> dentry v e.
Proof.
  intros ND NS y H. unfold reg_dir, conds, sub, all_b in *. destruct (assoc var l) as [s |] eqn:E; [| contradiction].
  pose proof (assoc_in _ _ _ E) as I.
  assert (forall s', In (var, s') l -> s' = s) as U.
  { intros s' I'. rewrite (assoc_nodup _ _ _ ND I') in E. congruence. }
  assert ((forall w, In ("all boundaries", w) s -> exists z, w = VInt z) ->
          In y (flat_map (fun e => match snd e with
                              | VStr t => [(label "Dirichlet" var (fst e), EText t)]
                              | VDbl q => [(label "Dirichlet" var (fst e), to_string q)]
                              | VInt _ => [] end) s) ->
          exists side e, y = (label "Dirichlet" var side, e) /\
            forall s, In (var, s) l -> forall v, use s sides side v -> dentry v e) as K.
  { intros A J. apply in_flat_map in J. destruct J as ([n w] & Jn & Jy). cbn in Jy.
    destruct w as [t | q | z]; [| | contradiction]; (destruct Jy as [<- | []]);
      (eexists n, _; split; [reflexivity |]); intros s' I' v Hu; rewrite (U s' I') in Hu;
      (destruct Hu as [[Ha _] | [_ Hs]];
       [ destruct (A v Ha) as [z ->]; exact Logic.I
       | pose proof (assoc_nodup _ _ _ (NS _ _ I) Hs) as X1;
         pose proof (assoc_nodup _ _ _ (NS _ _ I) Jn) as X2; rewrite X1 in X2; injection X2 as ->; reflexivity ]). }
  destruct (assoc "all boundaries" s) as [[t | q | z] |] eqn:Ea.
  - apply in_map_iff in H. destruct H as (sd & <- & Is). exists sd, (EText t). split; [reflexivity |].
    intros s' I' v Hu. rewrite (U s' I') in Hu. destruct Hu as [[Ha _] | [Hn _]].
    + rewrite (assoc_nodup _ _ _ (NS _ _ I) Ha) in Ea. injection Ea as ->. reflexivity.
    + exfalso. apply (Hn _ (assoc_in _ _ _ Ea)).
  - apply in_map_iff in H. destruct H as (sd & <- & Is). exists sd, (to_string q). split; [reflexivity |].
    intros s' I' v Hu. rewrite (U s' I') in Hu. destruct Hu as [[Ha _] | [Hn _]].
    + rewrite (assoc_nodup _ _ _ (NS _ _ I) Ha) in Ea. injection Ea as ->. reflexivity.
    + exfalso. apply (Hn _ (assoc_in _ _ _ Ea)).
  - apply K; [| exact H]. intros w Iw. rewrite (assoc_nodup _ _ _ (NS _ _ I) Iw) in Ea. injection Ea as ->. eauto.
  - apply K; [| exact H]. intros w Iw. exfalso. apply (proj1 (assoc_none "all boundaries" s) Ea w Iw).
Qed.
Lemma reg_dir_has l sides var s side v e : NoDup (map fst l) -> NoDup (map fst s) -> In (var, s) l ->
  use s sides side v -> (match v with VStr t => e = EText t | VDbl q => e = to_string q | VInt _ => False end) ->
  In (label "Dirichlet" var side, e) (reg_dir l sides var).
Proof.
  intros ND NS I Hu He. unfold reg_dir, conds, sub, all_b in *. rewrite (assoc_nodup _ _ _ ND I).
  destruct Hu as [[Ha Is] | [Hn Is]].
  - rewrite (assoc_nodup _ _ _ NS Ha).
    destruct v as [t | q | z]; [| | contradiction]; subst e; apply in_map_iff; exists side; auto.
  - rewrite (proj2 (assoc_none "all boundaries" s) Hn).
    apply in_flat_map. exists (side, v). split; [exact Is |].
    destruct v as [t | q | z]; [| | contradiction]; subst e; left; reflexivity.
Qed.

(** *** Unknowns *)
Lemma existsb_eqb i l : existsb (Nat.eqb i) l = true <-> In i l.
Proof.
  rewrite existsb_exists. split; [intros (x & I & E); apply Nat.eqb_eq in E; subst; exact I |].
  intros I. exists i. split; [exact I | apply Nat.eqb_refl].
Qed.
Lemma set_fold_same {V} (v : nat -> V) i fixed : forall u,
  fold_left (fun u e => set_list u (fst e) (snd e)) (map (fun d => (d, v)) fixed) u i =
  if existsb (existsb (Nat.eqb i)) fixed then v i else u i.
Proof.
  induction fixed as [| d fixed IH]; intros u; cbn [map fold_left existsb]; [reflexivity |].
  rewrite IH. cbn [fst snd]. unfold set_list.
  destruct (existsb (Nat.eqb i) d); destruct (existsb _ fixed); reflexivity.
Qed.

(** *** Point conditions *)
Lemma zinsert_in x y l : In y (zinsert x l) <-> y = x \/ In y l.
Proof.
  induction l as [| z l IH]; cbn; [intuition congruence |].
  destruct (x <=? z)%Z; cbn; [intuition congruence | rewrite IH; intuition congruence].
Qed.
Lemma zsort_in y l : In y (zsort l) <-> In y l.
Proof. induction l as [| x l IH]; cbn; [tauto |]. rewrite zinsert_in, IH. intuition congruence. Qed.
Lemma zinsert_sorted x l : StronglySorted Z.le l -> StronglySorted Z.le (zinsert x l).
Proof.
  induction 1 as [| z l S IH F]; cbn; [constructor; constructor |].
  destruct (Z.leb_spec x z).
  - constructor; [constructor; assumption |]. constructor; [assumption |].
    rewrite Forall_forall in *. intros y I. specialize (F y I). lia.
  - constructor; [assumption |]. rewrite Forall_forall in *. intros y I.
    apply zinsert_in in I. destruct I as [-> | I]; [lia | apply F; exact I].
Qed.
Lemma zsort_sorted l : StronglySorted Z.le (zsort l).
Proof. induction l; cbn; [constructor | apply zinsert_sorted; assumption]. Qed.
Lemma zunique_in y l : In y (zunique l) <-> In y l.
Proof.
  induction l as [| x l IH]; [tauto |]. cbn [zunique]. destruct l as [| z l]; [tauto |].
  destruct (Z.eqb_spec x z) as [-> | N].
  - rewrite IH. cbn. tauto.
  - cbn [In] in *. rewrite IH. tauto.
Qed.
Lemma zinsert_nodup x l : ~ In x l -> NoDup l -> NoDup (zinsert x l).
Proof.
  induction l as [| y l IH]; cbn; intros N ND; [constructor; auto |].
  destruct (x <=? y)%Z; [constructor; auto |].
  inversion ND as [| ? ? N1 N2]; subst. constructor; [| apply IH; tauto].
  rewrite zinsert_in. intros [-> | I]; tauto.
Qed.
Lemma zsort_nodup l : NoDup l -> NoDup (zsort l).
Proof.
  induction 1 as [| x l N ND IH]; cbn; [constructor |]. apply zinsert_nodup; [rewrite zsort_in; exact N | exact IH].
Qed.
Lemma intersection_cons x a y b : intersection (x :: a) (y :: b) =
  if (x <? y)%Z then intersection a (y :: b) else if (y <? x)%Z then intersection (x :: a) b else x :: intersection a b.
Proof. reflexivity. Qed.
Lemma intersection_spec a : StronglySorted Z.le a -> forall b, StronglySorted Z.le b ->
  forall z, In z (intersection a b) <-> In z a /\ In z b.
Proof.
  induction 1 as [| x a Sa IHa Fa]; [cbn; tauto |]. induction 1 as [| y b Sb IHb Fb]; [cbn; tauto |].
  intros z. rewrite intersection_cons. rewrite Forall_forall in Fa, Fb.
  destruct (Z.ltb_spec x y).
  - rewrite (IHa (y :: b)) by (constructor; [assumption | apply Forall_forall; exact Fb]). split; [cbn; tauto |].
    intros [[<- | I] Hz]; [| tauto]. exfalso. destruct Hz as [-> | J]; [lia |]. specialize (Fb x J). lia.
  - destruct (Z.ltb_spec y x).
    + rewrite IHb. split; [cbn; tauto |]. intros [Hz [<- | J]]; [| tauto].
      exfalso. destruct Hz as [-> | I]; [lia |]. specialize (Fa y I). lia.
    + assert (x = y) as <- by lia. cbn [In]. rewrite (IHa b Sb). split.
      * intros [<- | [I J]]; auto.
      * intros [[<- | I] [E | J]]; auto.
Qed.
Lemma intersection_nodup a : forall b, NoDup b -> StronglySorted Z.le a -> StronglySorted Z.le b -> NoDup (intersection a b).
Proof.
  induction a as [| x a IHa]; [constructor |]. induction b as [| y b IHb]; intros ND Sa Sb; [constructor |].
  rewrite intersection_cons. inversion ND as [| ? ? N1 N2]; subst.
  inversion Sa as [| ? ? Sa1 Fa]; subst. inversion Sb as [| ? ? Sb1 Fb]; subst.
  destruct (Z.ltb_spec x y); [apply IHa; assumption |].
  destruct (Z.ltb_spec y x); [apply IHb; assumption |].
  assert (x = y) as <- by lia. constructor; [| apply IHa; assumption].
  rewrite (intersection_spec a Sa1 b Sb1). tauto.
Qed.
Lemma list_sum_ge (l : list Z) ls : In l ls -> (List.length l <= list_sum (map (@List.length Z) ls))%nat.
Proof. induction ls as [| m ls IH]; cbn; [contradiction |]. intros [-> | I]; [lia | specialize (IH I); unfold list_sum in IH; lia]. Qed.
Lemma gather_in locals z : z <> (-1)%Z -> (In z (gather locals) <-> exists l, In l locals /\ In z l).
Proof.
  intros Nz. unfold gather. rewrite in_flat_map. set (ls := map _ locals).
  assert (forall m, In m ls -> forall y, y <> (-1)%Z ->
    (In y (firstn (list_sum (map (@List.length Z) ls)) m ++ repeat (-1)%Z (list_sum (map (@List.length Z) ls) - List.length m))%list <-> In y m)) as K.
  { intros m Im y Ny. rewrite firstn_all2 by (apply list_sum_ge; exact Im). rewrite in_app_iff. split; [| auto].
    intros [I | I]; [exact I |]. apply repeat_spec in I. contradiction. }
  split.
  - intros (m & Im & Iz). rewrite K in Iz by assumption. unfold ls in Im. apply in_map_iff in Im.
    destruct Im as (l & <- & Il). exists l. split; [exact Il |]. rewrite zunique_in, zsort_in in Iz. exact Iz.
  - intros (l & Il & Iz). exists (zunique (zsort l)). assert (In (zunique (zsort l)) ls) as Im by (apply in_map_iff; eauto).
    split; [exact Im |]. rewrite K by assumption. rewrite zunique_in, zsort_in. exact Iz.
Qed.
