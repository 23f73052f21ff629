(** C39, C40: optimization vectors. *)
From Coq Require Import Bool Arith Lia Reals Lra List.
From Verif Require Import Sparse_Model Sparse_Props Mass_Props OptVec_Model.
Import ListNotations.
Local Open Scope R_scope.

(** *** Specification: a vector is the list of its entries *)

Definition parts (ss : list (option (list R))) : list R := flat_map (fun s => match s with Some l => l | None => [] end) ss.
Definition entries (v : ovec) : list R := concat (flds v) ++ parts (scls v).

(** Same numbers of parts of the same lengths. *)
Definition same_part (s t : option (list R)) : Prop :=
  match s, t with Some s, Some t => length s = length t | None, None => True | _, _ => False end.
Definition same_shape (v x : ovec) : Prop :=
  Forall2 (fun f g : list R => length f = length g) (flds v) (flds x) /\ Forall2 same_part (scls v) (scls x).
Definition same_meta (v x : ovec) : Prop :=
  hfld v = hfld x /\ hscl v = hscl x /\ isdual v = isdual x /\ dscale v = dscale x /\ diag v = diag x /\ fmass v = fmass x.

Definition pw (h : R -> R -> R) (u v : list R) : list R := map (fun i => h (nth i u 0) (nth i v 0)) (seq 0 (length u)).
Definition inner (w u v : list R) : R := rsum (map (fun i => nth i w 0 * nth i u 0 * nth i v 0) (seq 0 (length u))).

(** *** Lists *)

Lemma zip_length h u v : length u = length v -> length (zip h u v) = length u.
Proof. intros H. unfold zip. rewrite map_length, combine_length, H. lia. Qed.
Lemma zip_app h u v u' v' : length u = length u' -> zip h (u ++ v) (u' ++ v') = zip h u u' ++ zip h v v'.
Proof.
  revert u'. induction u as [|a u IH]; intros [|b u'] H; try discriminate; auto. cbn in H. injection H as H.
  unfold zip in *. cbn. f_equal. apply IH. auto.
Qed.
Lemma zip_pw h u v : length u = length v -> zip h u v = pw h u v.
Proof.
  revert v. induction u as [|a u IH]; intros [|b v] H; try discriminate; auto. cbn in H. injection H as H.
  unfold zip, pw in *. cbn [combine map length]. rewrite IH by auto. cbn [seq map fst snd nth]. f_equal.
  rewrite <- seq_shift, map_map. reflexivity.
Qed.

Lemma F2_len {A B} (P : A -> B -> Prop) l m : Forall2 P l m -> length l = length m.
Proof. induction 1; cbn; auto. Qed.

Lemma same_fcompat fs gs : Forall2 (fun f g : list R => length f = length g) fs gs -> fcompat fs gs = true.
Proof. induction 1; auto. cbn. rewrite H, Nat.eqb_refl. auto. Qed.
Lemma same_scompat ss ts : Forall2 same_part ss ts -> scompat ss ts = true.
Proof. induction 1 as [|[s|] [t|] ss ts S _ IH]; auto; cbn in *; try contradiction. rewrite S, Nat.eqb_refl. auto. Qed.
Lemma same_compat v x : same_shape v x -> compat v x = true.
Proof. intros [A B]. unfold compat. rewrite same_fcompat, same_scompat; auto. Qed.

Lemma zipf_entries h fs gs : Forall2 (fun f g : list R => length f = length g) fs gs ->
  concat (zipf h fs gs) = zip h (concat fs) (concat gs) /\ length (concat fs) = length (concat gs) /\
  Forall2 (fun f g : list R => length f = length g) (zipf h fs gs) fs.
Proof.
  induction 1 as [|f g fs gs E _ (IH1 & IH2 & IH3)]; [repeat split; constructor|]. cbn [zipf concat]. split; [|split].
  - rewrite IH1, zip_app; auto.
  - rewrite !app_length. lia.
  - constructor; auto. apply zip_length. auto.
Qed.
Lemma zips_entries h ss ts : Forall2 same_part ss ts ->
  parts (zips h ss ts) = zip h (parts ss) (parts ts) /\ length (parts ss) = length (parts ts) /\ Forall2 same_part (zips h ss ts) ss.
Proof.
  induction 1 as [|[s|] [t|] ss ts E _ (IH1 & IH2 & IH3)]; try (cbn in E; contradiction); [repeat split; constructor| |].
  - cbn in E. cbn [zips parts flat_map]. split; [|split].
    + change (flat_map _ ?l) with (parts l). rewrite IH1, zip_app; auto.
    + change (flat_map _ ?l) with (parts l). rewrite !app_length. unfold parts in *. lia.
    + constructor; auto. cbn. apply zip_length. auto.
  - cbn [zips parts flat_map tl app]. split; [|split]; auto.
Qed.

Lemma same_entries_length v x : same_shape v x -> length (entries v) = length (entries x).
Proof.
  intros [A B]. unfold entries. rewrite !app_length.
  destruct (zipf_entries Rplus _ _ A) as (_ & -> & _). destruct (zips_entries Rplus _ _ B) as (_ & -> & _). reflexivity.
Qed.

(** *** C39: the operations act entry by entry on compatible vectors *)

Theorem C39_binary h v x : same_shape v x -> exists r, binary h v x = Some r /\
  entries r = pw h (entries v) (entries x) /\ same_shape r v /\ same_meta r v.
Proof.
  intros S. pose proof (same_entries_length v x S) as L. destruct S as [A B]. unfold binary. rewrite same_compat by (split; auto).
  eexists. split; [reflexivity|]. destruct (zipf_entries h _ _ A) as (E1 & L1 & F1). destruct (zips_entries h _ _ B) as (E2 & L2 & F2).
  split; [|split; [split; auto|repeat split]].
  rewrite <- zip_pw by auto. unfold entries. cbn [flds scls with_data]. rewrite E1, E2, zip_app; auto.
Qed.
Print Assumptions C39_binary.

Lemma map_concat_map {A B} (f : A -> B) l : concat (map (map f) l) = map f (concat l).
Proof. induction l; auto. cbn. rewrite IHl, map_app. auto. Qed.

Theorem C39_unary h v : entries (unary h v) = map h (entries v) /\ same_shape (unary h v) v /\ same_meta (unary h v) v.
Proof.
  unfold entries, unary. cbn [flds scls with_data]. split; [|split; [split|repeat split]].
  - rewrite map_concat_map, map_app. f_equal. induction (scls v) as [|[s|] ss IH]; auto. cbn. rewrite map_app. f_equal. exact IH.
  - cbn. induction (flds v); constructor; auto. apply map_length.
  - cbn. induction (scls v) as [|[s|] ss IH]; constructor; auto; cbn; auto. apply map_length.
Qed.
Print Assumptions C39_unary.

(** What each operation puts in the entries. *)
Theorem C39_values v x a i : same_shape v x -> (i < length (entries v))%nat ->
  (exists r, oset v x = Some r /\ nth i (entries r) 0 = nth i (entries x) 0) /\
  (exists r, plus v x = Some r /\ nth i (entries r) 0 = nth i (entries v) 0 + nth i (entries x) 0) /\
  (exists r, axpy a v x = Some r /\ nth i (entries r) 0 = nth i (entries v) 0 + a * nth i (entries x) 0) /\
  nth i (entries (scale a v)) 0 = a * nth i (entries v) 0 /\
  nth i (entries (zero v)) 0 = 0 /\ nth i (entries (put_scalar a v)) 0 = a.
Proof.
  intros S I.
  assert (P : forall h, nth i (pw h (entries v) (entries x)) 0 = h (nth i (entries v) 0) (nth i (entries x) 0)).
  { intros h. unfold pw. rewrite (nth_indep _ 0 (h (nth 0 (entries v) 0) (nth 0 (entries x) 0))) by (rewrite map_length, seq_length; exact I).
    rewrite (map_nth (fun i => h (nth i (entries v) 0) (nth i (entries x) 0)) _ 0%nat), seq_nth by exact I. reflexivity. }
  assert (B : forall h, exists r, binary h v x = Some r /\ nth i (entries r) 0 = h (nth i (entries v) 0) (nth i (entries x) 0)).
  { intros h. destruct (C39_binary h v x S) as (r & E & D & _). exists r. split; [exact E|]. rewrite D. apply P. }
  assert (U : forall h, nth i (entries (unary h v)) 0 = h (nth i (entries v) 0)).
  { intros h. rewrite (proj1 (C39_unary h v)). rewrite (nth_indep _ 0 (h 0)) by (rewrite map_length; exact I). apply map_nth. }
  repeat split; first [apply B | apply U].
Qed.
Print Assumptions C39_values.

(** Vectors are determined by shape, entries and settings. *)
Lemma concat_inj (fs gs : list (list R)) : Forall2 (fun f g => length f = length g) fs gs -> concat fs = concat gs -> fs = gs.
Proof.
  induction 1 as [|f g fs gs E _ IH]; auto. cbn. intros H.
  assert (X : forall (a b c d : list R), length a = length c -> a ++ b = c ++ d -> a = c /\ b = d).
  { induction a as [|u a IHa]; intros b [|w c] d HL HE; try discriminate; auto. cbn in *. injection HL as HL. injection HE as -> HE.
    destruct (IHa b c d HL HE). subst. auto. }
  destruct (X _ _ _ _ E H) as [-> H2]. f_equal. auto.
Qed.
Lemma parts_inj ss ts : Forall2 same_part ss ts -> parts ss = parts ts -> ss = ts.
Proof.
  induction 1 as [|[s|] [t|] ss ts E _ IH]; try (cbn in E; contradiction); auto; unfold parts in *; cbn; intros H.
  - assert (X : forall (a b c d : list R), length a = length c -> a ++ b = c ++ d -> a = c /\ b = d).
    { induction a as [|u a IHa]; intros b [|w c] d HL HE; try discriminate; auto. cbn in *. injection HL as HL. injection HE as -> HE.
      destruct (IHa b c d HL HE). subst. auto. }
    destruct (X _ _ _ _ E H) as [-> H2]. f_equal. auto.
  - f_equal. auto.
Qed.

Theorem C39_extensional v x : same_shape v x -> same_meta v x -> entries v = entries x -> v = x.
Proof.
  intros [A B] (M1 & M2 & M3 & M4 & M5 & M6) E. unfold entries in E.
  destruct (zipf_entries Rplus _ _ A) as (_ & L1 & _). destruct (zips_entries Rplus _ _ B) as (_ & L2 & _).
  assert (X : forall (a b c d : list R), length a = length c -> a ++ b = c ++ d -> a = c /\ b = d).
  { induction a as [|u a IHa]; intros b [|w c] d HL HE; try discriminate; auto. cbn in *. injection HL as HL. injection HE as -> HE.
    destruct (IHa b c d HL HE). subst. auto. }
  destruct (X _ _ _ _ L1 E) as [E1 E2]. apply concat_inj in E1; auto. apply parts_inj in E2; auto.
  destruct v, x. cbn in *. subst. reflexivity.
Qed.
Print Assumptions C39_extensional.

Lemma shape_refl v : same_shape v v.
Proof.
  split.
  - induction (flds v); constructor; auto.
  - induction (scls v) as [|[s|] ss IH]; constructor; cbn; auto.
Qed.
Lemma shape_sym v x : same_shape v x -> same_shape x v.
Proof.
  intros [A B]. split.
  - clear B. induction A; constructor; auto.
  - clear A. induction B as [|[s|] [t|]]; constructor; cbn in *; auto.
Qed.
Lemma shape_trans u v x : same_shape u v -> same_shape v x -> same_shape u x.
Proof.
  intros [A B] [A' B']. split.
  - clear B B'. revert A'. generalize (flds x). induction A as [|f g fs gs E A IH]; intros l H; inversion H; subst; constructor; auto; congruence.
  - clear A A'. revert B'. generalize (scls x). induction B as [|[s|] [t|] fs gs E A IH]; intros l H; inversion H as [|? [u'|] ? ? ? ?]; subst; constructor; cbn in *; auto; try contradiction; congruence.
Qed.
Lemma meta_refl v : same_meta v v. Proof. repeat split. Qed.
Lemma meta_sym v x : same_meta v x -> same_meta x v.
Proof. intros (a & b & c & d & e & f). repeat split; congruence. Qed.
Lemma meta_trans u v x : same_meta u v -> same_meta v x -> same_meta u x.
Proof. intros (a & b & c & d & e & f) (a' & b' & c' & d' & e' & f'). repeat split; congruence. Qed.

Lemma pw_length h u v : length (pw h u v) = length u.
Proof. unfold pw. rewrite map_length, seq_length. auto. Qed.
Lemma pw_nth h u v i : (i < length u)%nat -> nth i (pw h u v) 0 = h (nth i u 0) (nth i v 0).
Proof. intros H. unfold pw. rewrite (nth_indep _ 0 (h (nth 0 u 0) (nth 0 v 0))) by (rewrite map_length, seq_length; auto). rewrite (map_nth (fun i => h (nth i u 0) (nth i v 0)) _ 0%nat), seq_nth by auto. reflexivity. Qed.
Lemma list_eq (u v : list R) : length u = length v -> (forall i, (i < length u)%nat -> nth i u 0 = nth i v 0) -> u = v.
Proof. intros H K. apply (nth_ext u v 0 0); auto. Qed.

(** Vector-space laws: a space of vectors of one shape and one kind. *)
Definition alike (v x : ovec) : Prop := same_shape v x /\ same_meta v x.
Lemma alike_refl v : alike v v. Proof. split; [apply shape_refl|apply meta_refl]. Qed.
Lemma alike_sym v x : alike v x -> alike x v.
Proof. intros [A B]. split; [apply shape_sym|apply meta_sym]; auto. Qed.
Lemma alike_trans u v x : alike u v -> alike v x -> alike u x.
Proof. intros [A B] [C D]. split; [eapply shape_trans|eapply meta_trans]; eauto. Qed.

Lemma binary_alike h v x : alike v x -> exists r, binary h v x = Some r /\ alike r v /\ entries r = pw h (entries v) (entries x).
Proof. intros [S _]. destruct (C39_binary h v x S) as (r & E & D & S' & M'). exists r. repeat split; auto; apply S' || apply M'. Qed.
Lemma unary_alike h v : alike (unary h v) v.
Proof. destruct (C39_unary h v) as (_ & S & M). split; auto. Qed.
Lemma unary_entries h v : entries (unary h v) = map h (entries v).
Proof. apply C39_unary. Qed.
Lemma alike_len v x : alike v x -> length (entries v) = length (entries x).
Proof. intros [S _]. apply same_entries_length. auto. Qed.
Lemma ext_eq v x : alike v x -> (forall i, (i < length (entries v))%nat -> nth i (entries v) 0 = nth i (entries x) 0) -> v = x.
Proof. intros [S M] H. apply C39_extensional; auto. apply list_eq; auto. apply same_entries_length. auto. Qed.
Lemma map_nth0 (h : R -> R) l i : (i < length l)%nat -> nth i (map h l) 0 = h (nth i l 0).
Proof. intros H. rewrite (nth_indep _ 0 (h 0)) by (rewrite map_length; auto). apply map_nth. Qed.

Theorem C39_laws u v x a b : alike u v -> alike v x ->
  (exists r, plus u v = Some r /\ plus v u = Some r) /\
  (exists r s t, plus u v = Some r /\ plus r x = Some s /\ plus v x = Some t /\ plus u t = Some s) /\
  plus u (zero v) = Some u /\
  plus u (scale (-1) u) = Some (zero u) /\
  (exists r, plus u v = Some r /\ plus (scale a u) (scale a v) = Some (scale a r)) /\
  plus (scale a u) (scale b u) = Some (scale (a + b) u) /\
  scale a (scale b u) = scale (a * b) u /\ scale 1 u = u /\
  axpy a u v = plus u (scale a v) /\
  oset u v = Some v.
Proof.
  intros HUV HVX. pose proof (alike_trans _ _ _ HUV HVX) as HUX.
  pose proof (alike_len _ _ HUV) as LUV. pose proof (alike_len _ _ HVX) as LVX.
  destruct (binary_alike Rplus u v HUV) as (r & Er & Ar & Dr).
  assert (U : forall h w, alike w u -> alike (unary h w) u) by (intros; eapply alike_trans; [apply unary_alike|auto]).
  split; [|split; [|split; [|split; [|split; [|split; [|split; [|split; [|split]]]]]]]].
  - destruct (binary_alike Rplus v u (alike_sym _ _ HUV)) as (r' & Er' & Ar' & Dr').
    exists r. split; auto. unfold plus. rewrite Er'. f_equal. apply ext_eq.
    + eapply alike_trans; [exact Ar'|]. eapply alike_trans; [apply alike_sym; exact HUV|apply alike_sym; auto].
    + intros i Hi. rewrite Dr', Dr in *. rewrite pw_length in Hi. rewrite !pw_nth by lia. ring.
  - destruct (binary_alike Rplus r x ltac:(eapply alike_trans; eauto)) as (s & Es & As & Ds).
    destruct (binary_alike Rplus v x HVX) as (t & Et & At & Dt).
    destruct (binary_alike Rplus u t ltac:(eapply alike_trans; [exact HUV|apply alike_sym; auto])) as (s' & Es' & As' & Ds').
    exists r, s, t. repeat split; auto. unfold plus. rewrite Es'. f_equal. apply ext_eq.
    + eapply alike_trans; [exact As'|]. apply alike_sym. eapply alike_trans; eauto.
    + intros i Hi. rewrite Ds', Ds in *. rewrite pw_length in Hi. rewrite pw_nth, Dt by auto. rewrite pw_nth by lia.
      rewrite Dr, !pw_nth by (try rewrite pw_length; lia). ring.
  - destruct (binary_alike Rplus u (zero v) ltac:(eapply alike_trans; [exact HUV|apply alike_sym, unary_alike])) as (s & Es & As & Ds).
    unfold plus. rewrite Es. f_equal. apply ext_eq; auto. intros i Hi. rewrite Ds in *. rewrite pw_length in Hi. rewrite pw_nth by auto.
    unfold zero. rewrite unary_entries, map_nth0 by lia. ring.
  - destruct (binary_alike Rplus u (scale (-1) u) ltac:(apply alike_sym, unary_alike)) as (s & Es & As & Ds).
    unfold plus. rewrite Es. f_equal. apply ext_eq.
    + eapply alike_trans; [exact As|apply alike_sym, unary_alike].
    + intros i Hi. rewrite Ds in *. rewrite pw_length in Hi. rewrite pw_nth by auto. unfold scale, zero. rewrite !unary_entries, !map_nth0 by lia. ring.
  - destruct (binary_alike Rplus (scale a u) (scale a v)) as (s & Es & As & Ds).
    { eapply alike_trans; [apply unary_alike|]. eapply alike_trans; [exact HUV|apply alike_sym, unary_alike]. }
    exists r. split; auto. unfold plus. rewrite Es. f_equal. apply ext_eq.
    + eapply alike_trans; [exact As|]. eapply alike_trans; [apply unary_alike|]. apply alike_sym. apply U. auto.
    + intros i Hi. rewrite Ds in *. unfold scale in *. rewrite pw_length, unary_entries, map_length in Hi.
      rewrite pw_nth by (rewrite unary_entries, map_length; auto). rewrite !unary_entries, !map_nth0 by (try rewrite Dr, pw_length; lia).
      rewrite Dr, pw_nth by auto. ring.
  - destruct (binary_alike Rplus (scale a u) (scale b u)) as (s & Es & As & Ds).
    { eapply alike_trans; [apply unary_alike|apply alike_sym, unary_alike]. }
    unfold plus. rewrite Es. f_equal. apply ext_eq.
    + eapply alike_trans; [exact As|]. eapply alike_trans; [apply unary_alike|apply alike_sym, unary_alike].
    + intros i Hi. rewrite Ds in *. unfold scale in *. rewrite pw_length, unary_entries, map_length in Hi.
      rewrite pw_nth by (rewrite unary_entries, map_length; auto). rewrite !unary_entries, !map_nth0 by lia. ring.
  - apply ext_eq.
    + eapply alike_trans; [apply unary_alike|]. eapply alike_trans; [apply unary_alike|apply alike_sym, unary_alike].
    + intros i Hi. unfold scale in *. rewrite !unary_entries, !map_length in *. rewrite !map_nth0 by (try rewrite map_length; lia). ring.
  - apply ext_eq; [apply unary_alike|]. intros i Hi. unfold scale in *. rewrite unary_entries, map_length in *. rewrite map_nth0 by lia. ring.
  - destruct (binary_alike (fun u0 b0 => u0 + a * b0) u v HUV) as (s & Es & As & Ds).
    destruct (binary_alike Rplus u (scale a v) ltac:(eapply alike_trans; [exact HUV|apply alike_sym, unary_alike])) as (t & Et & At & Dt).
    unfold axpy, plus. rewrite Es, Et. f_equal. apply ext_eq; [eapply alike_trans; [exact As|apply alike_sym; exact At]|].
    intros i Hi. rewrite Ds, Dt in *. rewrite pw_length in Hi. rewrite !pw_nth by auto. unfold scale. rewrite unary_entries, map_nth0 by lia. ring.
  - destruct (binary_alike (fun _ b0 => b0) u v HUV) as (s & Es & As & Ds). unfold oset. rewrite Es. f_equal.
    apply ext_eq; [eapply alike_trans; eauto|]. intros i Hi. rewrite Ds in *. rewrite pw_length in Hi. rewrite pw_nth by auto. reflexivity.
Qed.
Print Assumptions C39_laws.

(** *** Inner product *)

(** The weight of every entry: the diagonal mass (primal), its inverse (dual), one
    between a primal and a dual vector; scalar entries have weight one. *)
Definition fweights (v x : ovec) : list R :=
  flat_map (fun f : list R =>
    if xorb (isdual v) (isdual x) then repeat 1 (length f)
    else match diag v with
         | Some d => if isdual v then map Rinv d else d
         | None => repeat (if isdual v then / dscale v else dscale v) (length f)
         end) (flds v).
Definition weights (v x : ovec) : list R := fweights v x ++ repeat 1 (length (parts (scls v))).

Definition wf (v : ovec) : Prop :=
  (forall d, diag v = Some d -> Forall (fun f : list R => length f = length d) (flds v)) /\
  (diag v = None -> fmass v = true -> flds v = []).

Lemma inner_nil w : inner w [] [] = 0. Proof. reflexivity. Qed.
Lemma inner_cons w0 w a u b v : inner (w0 :: w) (a :: u) (b :: v) = w0 * a * b + inner w u v.
Proof. unfold inner. cbn [length seq map nth]. rewrite <- seq_shift, map_map. reflexivity. Qed.
Lemma inner_app w u v w' u' v' : length w = length u -> length u = length v -> inner (w ++ w') (u ++ u') (v ++ v') = inner w u v + inner w' u' v'.
Proof.
  revert u v. induction w as [|a w IH]; intros [|b u] [|c v] H1 H2; try discriminate.
  - cbn [app]. rewrite inner_nil. ring.
  - cbn [app]. cbn in H1, H2. rewrite !inner_cons, IH by lia. ring.
Qed.
Lemma inner_one u v : length u = length v -> inner (repeat 1 (length u)) u v = ldot u v.
Proof.
  unfold ldot, zip. revert v. induction u as [|a u IH]; intros [|b v] H; try discriminate; auto. cbn in H. injection H as H.
  cbn [repeat length]. rewrite inner_cons, IH by auto. unfold rsum. cbn [combine map fold_right fst snd]. ring.
Qed.
Lemma inner_const c u v : length u = length v -> inner (repeat c (length u)) u v = c * ldot u v.
Proof.
  unfold ldot, zip. revert v. induction u as [|a u IH]; intros [|b v] H; try discriminate; [cbn; ring|]. cbn in H. injection H as H.
  cbn [repeat length]. rewrite inner_cons, IH by auto. unfold rsum. cbn [combine map fold_right fst snd]. ring.
Qed.
Lemma inner_mult d u v : length u = length v -> length u = length d -> inner d u v = ldot u (zip Rmult v d).
Proof.
  unfold ldot, zip. revert v d. induction u as [|a u IH]; intros [|b v] [|w d] H K; try discriminate; auto. cbn in H, K. injection H as H. injection K as K.
  rewrite inner_cons, IH by auto. unfold rsum. cbn [combine map fold_right fst snd]. ring.
Qed.
Lemma inner_div d u v : length u = length v -> length u = length d -> inner (map Rinv d) u v = ldot u (zip Rdiv v d).
Proof.
  unfold ldot, zip. revert v d. induction u as [|a u IH]; intros [|b v] [|w d] H K; try discriminate; auto. cbn in H, K. injection H as H. injection K as K.
  cbn [map]. rewrite inner_cons, IH by auto. unfold rsum. cbn [combine map fold_right fst snd]. unfold Rdiv. ring.
Qed.

Lemma fsum_inner (wt : list R -> list R) (dt : list R -> list R -> R) fs gs :
  Forall2 (fun f g : list R => length f = length g) fs gs ->
  (forall f g, In f fs -> length f = length g -> length (wt f) = length f /\ inner (wt f) f g = dt f g) ->
  fsum dt fs gs = inner (flat_map wt fs) (concat fs) (concat gs) /\ length (flat_map wt fs) = length (concat fs).
Proof.
  induction 1 as [|f g fs gs E F IH]; intros H; [split; reflexivity|].
  destruct IH as [IH1 IH2]; [intros; apply H; cbn; auto|]. destruct (H f g (or_introl eq_refl) E) as [H1 H2].
  cbn [fsum flat_map concat]. split.
  - rewrite inner_app, H2, IH1 by auto. reflexivity.
  - rewrite !app_length. lia.
Qed.

Lemma fsum_scal c dt fs gs : c * fsum dt fs gs = fsum (fun f g => c * dt f g) fs gs.
Proof. revert gs. induction fs as [|f fs IH]; intros [|g gs]; cbn; try ring. rewrite <- IH. ring. Qed.

Lemma ssum_inner ss ts : Forall2 same_part ss ts -> ssum ss ts = ldot (parts ss) (parts ts).
Proof.
  induction 1 as [|[s|] [t|] ss ts E _ IH]; try (cbn in E; contradiction); auto.
  cbn [ssum]. rewrite IH. unfold parts. cbn [flat_map]. unfold ldot. rewrite zip_app, rsum_app by auto. reflexivity.
Qed.

Theorem C39_dot v x : same_shape v x -> wf v -> dot v x = Some (inner (weights v x) (entries v) (entries x)) /\ length (weights v x) = length (entries v).
Proof.
  intros S [W1 W2]. pose proof (same_compat v x S) as C. destruct S as [A B]. unfold dot. rewrite C.
  assert (F : field_dot v x = inner (fweights v x) (concat (flds v)) (concat (flds x)) /\ length (fweights v x) = length (concat (flds v))).
  { unfold field_dot, fweights. destruct (xorb (isdual v) (isdual x)).
    - apply (fsum_inner (fun f => repeat 1 (length f))); auto. intros f g _ E. split; [apply repeat_length|apply inner_one; auto].
    - destruct (diag v) as [d|] eqn:D.
      + apply (fsum_inner (fun _ => if isdual v then map Rinv d else d)); auto. intros f g Hf E.
        pose proof (W1 d eq_refl) as W. rewrite Forall_forall in W. specialize (W f Hf).
        destruct (isdual v); [rewrite map_length; split; [lia|apply inner_div; auto]|split; [lia|apply inner_mult; auto]].
      + destruct (fmass v) eqn:M.
        * rewrite (W2 eq_refl eq_refl) in *. inversion A; subst. split; reflexivity.
        * replace (if isdual v then 1 / dscale v else dscale v) with (if isdual v then / dscale v else dscale v) by (destruct (isdual v); auto; unfold Rdiv; ring).
          rewrite fsum_scal.
          apply (fsum_inner (fun f => repeat (if isdual v then / dscale v else dscale v) (length f))); auto.
          intros f g _ E. split; [apply repeat_length|apply inner_const; auto]. }
  destruct F as [F1 F2]. destruct (zipf_entries Rplus _ _ A) as (_ & L1 & _). destruct (zips_entries Rplus _ _ B) as (_ & L2 & _).
  split.
  - f_equal. unfold weights, entries. rewrite inner_app by auto. rewrite inner_one by auto. rewrite <- F1, ssum_inner by auto. reflexivity.
  - unfold weights, entries. rewrite !app_length, repeat_length. lia.
Qed.
Print Assumptions C39_dot.

Lemma fweights_meta v x y z : same_shape v x -> same_meta v x -> isdual y = isdual z -> fweights v y = fweights x z.
Proof.
  intros [A _] (_ & _ & M3 & M4 & M5 & _) E. unfold fweights. rewrite M3, M4, M5, E.
  induction A as [|f g fs gs L _ IH]; auto. cbn. rewrite IH, L. reflexivity.
Qed.
Lemma weights_meta v x y z : alike v x -> isdual y = isdual z -> weights v y = weights x z.
Proof.
  intros [S M] E. unfold weights. rewrite (fweights_meta v x y z) by auto. destruct S as [_ B].
  destruct (zips_entries Rplus _ _ B) as (_ & L2 & _). rewrite L2. reflexivity.
Qed.

Lemma inner_sym w u v : length u = length v -> inner w u v = inner w v u.
Proof. intros H. unfold inner. rewrite H. apply rsum_ext. intros. ring. Qed.

Theorem C39_dot_symmetric v x : alike v x -> wf v -> wf x -> dot v x = dot x v.
Proof.
  intros A W W'. destruct (C39_dot v x (proj1 A) W) as [-> _]. destruct (C39_dot x v (proj1 (alike_sym _ _ A)) W') as [-> _].
  f_equal. rewrite (weights_meta v x x v A) by (destruct A as [_ M]; destruct M as (_ & _ & M & _); congruence).
  apply inner_sym. apply alike_len. auto.
Qed.
Print Assumptions C39_dot_symmetric.

Theorem C39_dot_bilinear u v x a : alike u v -> alike v x -> wf u -> wf v ->
  exists r d1 d2, axpy a u v = Some r /\ dot u x = Some d1 /\ dot v x = Some d2 /\ dot r x = Some (d1 + a * d2).
Proof.
  intros HUV HVX WU WV. pose proof (alike_trans _ _ _ HUV HVX) as HUX.
  destruct (binary_alike (fun u0 b0 => u0 + a * b0) u v HUV) as (r & Er & Ar & Dr).
  assert (WR : wf r).
  { destruct Ar as [[S1 S2] (m1 & m2 & m3 & m4 & m5 & m6)]. split.
    - intros d Hd. rewrite m5 in Hd. pose proof (proj1 WU d Hd) as W. clear - S1 W. revert W. induction S1; intros W; constructor; inversion W; subst; auto. congruence.
    - intros H1 H2. rewrite m5 in H1. rewrite m6 in H2. rewrite (proj2 WU H1 H2) in S1. inversion S1. auto. }
  pose proof (alike_trans _ _ _ Ar HUX) as HRX.
  destruct (C39_dot u x (proj1 HUX) WU) as [E1 _]. destruct (C39_dot v x (proj1 HVX) WV) as [E2 _]. destruct (C39_dot r x (proj1 HRX) WR) as [E3 _].
  exists r. do 2 eexists. split; [exact Er|]. split; [exact E1|]. split; [exact E2|]. rewrite E3. f_equal.
  rewrite (weights_meta v u x x (alike_sym _ _ HUV) eq_refl), (weights_meta r u x x Ar eq_refl).
  unfold inner. rewrite Dr, pw_length. rewrite <- (alike_len _ _ HUV). rewrite <- rsum_map_scal, <- rsum_map_add. apply rsum_ext. intros i Hi. apply in_seq in Hi.
  rewrite pw_nth by lia. ring.
Qed.
Print Assumptions C39_dot_bilinear.

Definition positive (v : ovec) : Prop :=
  0 < dscale v /\ forall d, diag v = Some d -> Forall (fun a => 0 < a) d.

Lemma weights_pos v x : positive v -> Forall (fun a => 0 < a) (weights v x).
Proof.
  intros [P1 P2]. unfold weights. apply Forall_app. split.
  - unfold fweights. apply Forall_flat_map. apply Forall_forall. intros f _.
    assert (R1 : forall c n, 0 < c -> Forall (fun a => 0 < a) (repeat c n)) by (intros c n H; apply Forall_forall; intros y Hy; apply repeat_spec in Hy; subst; auto).
    destruct (xorb _ _); [apply R1; lra|]. destruct (diag v) as [d|] eqn:D.
    + specialize (P2 d eq_refl). destruct (isdual v); auto. clear - P2. induction P2; constructor; auto. apply Rinv_0_lt_compat. auto.
    + apply R1. destruct (isdual v); auto. apply Rinv_0_lt_compat. auto.
  - apply Forall_forall. intros y Hy. apply repeat_spec in Hy. subst. lra.
Qed.

Lemma inner_pos w u : Forall (fun a => 0 < a) w -> length w = length u -> 0 <= inner w u u /\ (inner w u u = 0 -> Forall (fun a => a = 0) u).
Proof.
  intros H. revert u. induction H as [|a w P H IH]; intros [|b u] L; try discriminate.
  - rewrite inner_nil. split; [lra|constructor].
  - cbn in L. injection L as L. destruct (IH u L) as [I1 I2]. rewrite inner_cons.
    assert (Q : 0 <= a * b * b) by (replace (a * b * b) with (a * (b * b)) by ring; apply Rmult_le_pos; [lra|apply Rle_0_sqr]).
    split; [lra|]. intros E. constructor; [|apply I2; lra].
    assert (Z : a * b * b = 0) by lra. apply Rmult_integral in Z as [Z|Z]; auto. apply Rmult_integral in Z as [Z|Z]; auto. lra.
Qed.

Theorem C39_dot_positive v : wf v -> positive v -> exists d, dot v v = Some d /\ 0 <= d /\ (d = 0 -> v = zero v).
Proof.
  intros W P. destruct (C39_dot v v (shape_refl v) W) as [E L]. eexists. split; [exact E|].
  destruct (inner_pos (weights v v) (entries v) (weights_pos v v P) L) as [I1 I2]. split; auto.
  intros Z. apply ext_eq; [apply alike_sym, unary_alike|]. intros i Hi. unfold zero. rewrite unary_entries, map_nth0 by auto.
  pose proof (I2 Z) as F. rewrite Forall_forall in F. apply F. apply nth_In. auto.
Qed.
Print Assumptions C39_dot_positive.

(** A full mass matrix without its diagonal: the fields do not count (lines 1071-1073). *)
Theorem C39_full_mass_refuted : exists v, fmass v = true /\ dot v v = Some 0 /\ entries v = [1].
Proof.
  exists {| flds := [[1]]; scls := []; hfld := true; hscl := false; isdual := false; dscale := 1; diag := None; fmass := true |}.
  repeat split. cbn. f_equal. ring.
Qed.
Print Assumptions C39_full_mass_refuted.

Example C39_hypotheses_met :
  let v := make_current [[1; 2]] [[3]] (Some [2; 5]) true in
  let x := make_current [[0; 1]] [[4]] (Some [2; 5]) true in
  alike v x /\ wf v /\ positive v /\ dot v x = Some 22.
Proof.
  cbn zeta. assert (A : alike (make_current [[1; 2]] [[3]] (Some [2; 5]) true) (make_current [[0; 1]] [[4]] (Some [2; 5]) true)).
  { split; [split; repeat constructor|repeat split]. }
  assert (W : wf (make_current [[1; 2]] [[3]] (Some [2; 5]) true)).
  { split; [intros d [= <-]; repeat constructor|discriminate]. }
  split; auto. split; auto. split.
  - split; [cbn; lra|intros d [= <-]; repeat constructor; lra].
  - destruct (C39_dot _ _ (proj1 A) W) as [-> _]. f_equal. cbv -[IZR Rplus Rmult]. ring.
Qed.

(** *** C40 *)

(** Vectors as the constructors make them: the flags agree with the parts. *)
Definition built (v : ovec) : Prop :=
  (hfld v = false -> flds v = []) /\ (hscl v = false -> parts (scls v) = []) /\
  (hfld v = true -> hscl v = true -> exists s ss, scls v = Some s :: ss).

Lemma current_built fs ss d m : built (make_current fs ss d m).
Proof.
  unfold built. cbn. split; [|split].
  - destruct fs; auto; discriminate.
  - destruct ss; auto; discriminate.
  - destruct ss as [|s ss]; [discriminate|]. eexists _, _. reflexivity.
Qed.

Lemma dual_entries v : built v -> exists d, dual v = Some d /\ flds d = flds v /\ parts (scls d) = parts (scls v) /\
  diag d = diag v /\ fmass d = fmass v /\ (hscl v = true -> scls d = scls v) /\ (hfld v = true -> hscl v = false -> scls d = [None]) /\ (hfld v = false -> scls d = scls v).
Proof.
  intros (B1 & B2 & B3). unfold dual. destruct (hfld v) eqn:F; cbn [negb].
  - destruct (hscl v) eqn:S; cbn [negb].
    + destruct (B3 eq_refl eq_refl) as (s & ss & E). rewrite E. cbn [make_both]. eexists. split; [reflexivity|]. cbn. repeat split; auto; discriminate.
    + eexists. split; [reflexivity|]. cbn. rewrite B2 by auto. repeat split; auto; discriminate.
  - eexists. split; [reflexivity|]. cbn. rewrite B1 by auto. repeat split; auto; discriminate.
Qed.

Lemma ssum_empty ss ts : Forall2 same_part ss ts -> parts ss = [] -> ssum ss ts = 0.
Proof. intros H E. rewrite ssum_inner, E by auto. reflexivity. Qed.

(** Without mass and scaling, the dual acts as the inner product, and the dual of the dual
    has the entries of the vector. *)
Theorem C40_dual v x : built v -> same_shape v x -> isdual v = false -> isdual x = false ->
  diag v = None -> fmass v = false -> dscale v = 1 ->
  exists d, dual v = Some d /\ oapply d x = dot v x /\ entries d = entries v.
Proof.
  intros B S I1 I2 D M C. destruct (dual_entries v B) as (d & E & F & P & _ & _ & Q1 & Q2 & Q3). exists d. split; auto.
  split; [|unfold entries; rewrite F, P; auto].
  pose proof (same_compat v x S) as CO. unfold oapply, dot. unfold compat in *. rewrite F. apply andb_prop in CO as [CO1 CO2]. rewrite CO1, CO2. cbn [andb].
  unfold field_dot. rewrite I1, I2, D, M, C. cbn [xorb]. rewrite Rmult_1_l.
  destruct (hscl v) eqn:S1; [rewrite Q1, CO2 by auto; reflexivity|].
  destruct (hfld v) eqn:F1; [|rewrite Q3, CO2 by auto; reflexivity].
  rewrite Q2 by auto. cbn [scompat ssum]. rewrite (ssum_empty (scls v)); [|apply S|apply B; auto]. reflexivity.
Qed.
Print Assumptions C40_dual.

(** The clone of a primal vector of unit scale, set to the vector, has the same inner
    products with every vector. *)
Lemma zipf_snd fs gs : Forall2 (fun f g : list R => length f = length g) fs gs -> zipf (fun _ b => b) fs gs = gs.
Proof.
  induction 1 as [|f g fs gs E _ IH]; auto. cbn. rewrite IH. f_equal. clear - E. revert g E.
  induction f as [|a f IH]; intros [|b g] E; try discriminate; auto. cbn in *. injection E as E. unfold zip in *. cbn. f_equal. auto.
Qed.
Lemma zips_snd ss ts : Forall2 same_part ss ts -> zips (fun _ b => b) ss ts = ts.
Proof.
  induction 1 as [|[s|] [t|] ss ts E _ IH]; try (cbn in E; contradiction); auto; cbn; rewrite IH; auto.
  do 2 f_equal. cbn in E. clear - E. revert t E.
  induction s as [|a f IH]; intros [|b g] E; try discriminate; auto. cbn in *. injection E as E. unfold zip in *. cbn. f_equal. auto.
Qed.

Theorem C40_clone v x : built v -> same_shape v x -> isdual v = false -> isdual x = false -> dscale v = 1 ->
  exists c r, clone v = Some c /\ oset c v = Some r /\ entries r = entries v /\ dot r x = dot v x.
Proof.
  intros B S I1 I2 C.
  pose proof (C39_unary (fun _ => 0) v) as (_ & SU & _). cbn [unary with_data] in SU.
  assert (S1 : Forall2 (fun f g : list R => length f = length g) (map (map (fun _ => 0)) (flds v)) (flds v)) by apply SU.
  assert (S2 : Forall2 same_part (map (option_map (map (fun _ => 0))) (scls v)) (scls v)) by apply SU.
  assert (X : exists c, clone v = Some c /\ flds c = map (map (fun _ => 0)) (flds v) /\ isdual c = false /\ dscale c = 1 /\ diag c = diag v /\ fmass c = fmass v /\
     (scls c = map (option_map (map (fun _ => 0))) (scls v) \/ (scls c = [None] /\ parts (scls v) = []))).
  { destruct B as (B1 & B2 & B3). unfold clone. destruct (hscl v) eqn:E1; cbn [negb].
    - destruct (hfld v) eqn:E2; cbn [negb].
      + destruct (B3 eq_refl eq_refl) as (s & ss & E). rewrite E. cbn [map option_map make_both]. eexists. split; [reflexivity|]. cbn. repeat split; auto.
      + eexists. split; [reflexivity|]. cbn. rewrite B1 by auto. repeat split; auto.
    - eexists. split; [reflexivity|]. cbn. repeat split; auto. }
  destruct X as (c & E & F & I & D & G & M & P). exists c.
  pose proof (same_compat v x S) as CO. unfold compat in CO. apply andb_prop in CO as [CO1 CO2].
  unfold oset, binary, compat. rewrite F, (same_fcompat _ _ S1), (zipf_snd _ _ S1). cbn [andb].
  assert (FD : forall ss, field_dot (with_data c (flds v) ss) x = field_dot v x).
  { intros ss. unfold field_dot. cbn. rewrite I, D, G, M, I1, I2, C. reflexivity. }
  destruct P as [P|[P PE]]; rewrite P.
  - rewrite (same_scompat _ _ S2), (zips_snd _ _ S2). eexists. split; auto. split; [reflexivity|]. split; [reflexivity|].
    unfold dot. rewrite FD. reflexivity.
  - cbn [scompat zips tl]. eexists. split; auto. split; [reflexivity|].
    split.
    + unfold entries. cbn. rewrite PE. reflexivity.
    + unfold dot, compat. rewrite FD. cbn [flds scls with_data]. rewrite CO1, CO2. cbn [scompat andb ssum].
      rewrite (ssum_empty (scls v)) by (auto; apply S). reflexivity.
Qed.
Print Assumptions C40_clone.

(** With a mass diagonal, as set for discretized parameters, the dual of a vector does not
    represent the inner product with it ... *)
Theorem C40_dual_refuted : exists v d, built v /\ wf v /\ positive v /\ isdual v = false /\ dscale v = 1 /\ dual v = Some d /\ oapply d v <> dot v v.
Proof.
  exists (make_current [[1]] [] (Some [2]) true). eexists. split; [apply current_built|].
  split; [split; [intros d [= <-]; repeat constructor|discriminate]|].
  split; [split; [cbn; lra|intros d [= <-]; repeat constructor; lra]|]. split; [reflexivity|]. split; [reflexivity|]. split; [reflexivity|].
  cbv -[IZR Rplus Rmult]. intros H. injection H as H. lra.
Qed.
Print Assumptions C40_dual_refuted.

(** ... and its norm as a dual vector is the primal one: the dual is not marked as such. *)
Theorem C40_dual_norm_refuted : exists v d, built v /\ isdual v = false /\ dual v = Some d /\ isdual d = false /\ dot d d = dot v v /\ oapply d v = Some 1 /\ dot v v = Some 2.
Proof.
  exists (make_current [[1]] [] (Some [2]) true). eexists. split; [apply current_built|]. split; [reflexivity|]. split; [reflexivity|]. split; [reflexivity|].
  cbv -[IZR Rplus Rmult]. split; [reflexivity|]. split; f_equal; ring.
Qed.
Print Assumptions C40_dual_norm_refuted.

(** A clone forgets the scale and the kind of the vector. *)
Theorem C40_clone_refuted : exists v c r, built v /\ clone v = Some c /\ oset c v = Some r /\ entries r = entries v /\
  dot r r <> dot v v /\ isdual v = true /\ isdual r = false.
Proof.
  exists {| flds := [[1]]; scls := []; hfld := true; hscl := false; isdual := true; dscale := 2; diag := None; fmass := false |}. do 2 eexists.
  split; [repeat split; cbn; intros; try discriminate; auto|]. split; [reflexivity|]. split; [reflexivity|]. split; [reflexivity|].
  split; [|split; reflexivity]. cbv -[IZR Rplus Rmult Rinv]. intros H. injection H as H. lra.
Qed.
Print Assumptions C40_clone_refuted.

Example C40_hypotheses_met : let v := make_current [] [[3; 4]] None false in
  built v /\ same_shape v v /\ exists d, dual v = Some d /\ oapply d v = Some 25.
Proof.
  cbn zeta. split; [apply current_built|]. split; [apply shape_refl|]. eexists. split; [reflexivity|]. cbv -[IZR Rplus Rmult]. f_equal. ring.
Qed.
