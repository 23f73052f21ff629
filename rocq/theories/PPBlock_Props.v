(** C359, C360: which postprocessing entries hold on which block. *)
From Coq Require Import Bool Lia ZArith String List.
From Verif Require Import Settings_Model PPBlock_Model.
Import ListNotations.
Local Open Scope string_scope.
Local Open Scope list_scope.

(** *** Specification *)

(** A list whose names are distinct, as in a ParameterList. *)
Definition distinct (l : plist) : Prop := NoDup (map fst l).
(** [b] is where the entries of a block are to be found: its own section of Postprocess, or
    Postprocess itself if it has none. *)
Definition section_of (pp : plist) (block : string) (b : plist) : Prop :=
  In (block, Node b) pp \/ (b = pp /\ forall x, ~ In (block, Node x) pp).
(** The entry [n: s] stands in list [kind] of [b]. *)
Definition states (b : plist) (kind n s : string) : Prop :=
  exists l, In (kind, Node l) b /\ distinct l /\ In (n, Leaf (Str s)) l.
Definition names_in (b : plist) (kind n : string) : Prop := exists s, states b kind n s.
(** The names of list [kind], in order. *)
Definition listed (b : plist) (kind : string) (ns : list string) : Prop :=
  (exists l, In (kind, Node l) b /\ ns = map fst l) \/ ((forall a, ~ In (kind, a) b) /\ ns = []).

(** *** Lists *)

Lemma lookup_in n : forall l a, lookup n l = Some a -> In (n, a) l.
Proof.
  induction l as [|[m b] l IH]; intros a; cbn [lookup]; [discriminate|]. destruct (string_dec m n) as [->|]; [injection 1 as ->; left; auto|]. intro. right. auto.
Qed.
Lemma in_lookup n a : forall l, distinct l -> In (n, a) l -> lookup n l = Some a.
Proof.
  unfold distinct. induction l as [|[m b] l IH]; intros D H; [destruct H|]. cbn [lookup]. inversion D as [|x y X Y]; subst. destruct H as [E|H].
  - injection E as -> ->. destruct (string_dec n n); congruence.
  - destruct (string_dec m n) as [->|]; [|auto]. destruct X. apply in_map_iff. exists (n, a). auto.
Qed.
Lemma lookup_none n : forall l, lookup n l = None -> forall a, ~ In (n, a) l.
Proof.
  induction l as [|[m b] l IH]; intros H a; [tauto|]. cbn [lookup] in H. destruct (string_dec m n); [discriminate|].
  intros [E|E]; [congruence|]. exact (IH H a E).
Qed.
Lemma lookup_set m n a : forall l, m <> n -> lookup m (set_entry n a l) = lookup m l.
Proof.
  induction l as [|[k b] l IH]; intro D; cbn [set_entry lookup].
  - destruct (string_dec n m); congruence.
  - destruct (string_dec k n) as [->|]; cbn [lookup]; destruct (string_dec _ m); auto; congruence.
Qed.
Lemma texts_names : forall l r, texts l = Some r -> map fst r = map fst l.
Proof.
  induction l as [|[n [[s|z]|x]] l IH]; intros r; cbn [texts]; try discriminate; [injection 1 as <-; auto|].
  destruct (texts l) as [t|]; [|discriminate]. injection 1 as <-. cbn. f_equal. auto.
Qed.
Lemma texts_in n s : forall l r, texts l = Some r -> In (n, Leaf (Str s)) l <-> In (n, s) r.
Proof.
  induction l as [|[m [[u|z]|x]] l IH]; intros r; cbn [texts]; try discriminate; [injection 1 as <-; tauto|].
  destruct (texts l) as [t|]; [|discriminate]. injection 1 as <-. cbn. rewrite (IH t eq_refl). split; intros [E|E]; auto; left; congruence.
Qed.
Lemma meaning_app p n : forall a b, meaning (a ++ b) p n = match meaning a p n with Some s => Some s | None => meaning b p n end.
Proof. induction a as [|[[p' n'] s] a IH]; intro b; cbn [app meaning]; auto. destruct (_ && _); auto. Qed.
Lemma meaning_absent p n : forall a, (forall s, ~ In (p, n, s) a) -> meaning a p n = None.
Proof.
  induction a as [|[[p' n'] s] a IH]; intro H; cbn [meaning]; auto. destruct (String.eqb_spec p' p) as [->|], (String.eqb_spec n' n) as [->|]; cbn [andb];
    try (apply IH; intros u U; apply (H u); right; exact U). destruct (H s). left. auto.
Qed.
Lemma meaning_place p n s : forall l, NoDup (map fst l) -> In (n, s) l -> meaning (at_place p l) p n = Some s.
Proof.
  induction l as [|[m u] l IH]; intros D H; [destruct H|]. cbn in *. inversion D; subst. rewrite String.eqb_refl. cbn [andb]. destruct (String.eqb_spec m n) as [->|N].
  - destruct H as [E|H]; [congruence|]. destruct H2. apply in_map_iff. exists (n, s). auto.
  - destruct H as [E|H]; [congruence|]. auto.
Qed.
Lemma meaning_both p n s : p = "ip" \/ p = "point" -> forall l, NoDup (map fst l) -> In (n, s) l -> meaning (at_both l) p n = Some s.
Proof.
  intros P. induction l as [|[m u] l IH]; intros D H; [destruct H|]. inversion D as [|x y X Y]; subst. cbn [at_both flat_map app meaning fst snd].
  assert (Z : (if String.eqb "ip" p && String.eqb m n then Some u else if String.eqb "point" p && String.eqb m n then Some u else meaning (at_both l) p n)
    = if String.eqb m n then Some u else meaning (at_both l) p n) by (destruct P as [-> | ->]; cbn; destruct (String.eqb m n); auto).
  unfold at_both in *. rewrite Z. destruct (String.eqb_spec m n) as [->|N].
  - destruct H as [E|H]; [congruence|]. destruct X. apply in_map_iff. exists (n, s). auto.
  - destruct H as [E|H]; [congruence|]. auto.
Qed.
Lemma in_place p q n s l : In (p, n, s) (at_place q l) <-> p = q /\ In (n, s) l.
Proof.
  unfold at_place. rewrite in_map_iff. split.
  - intros ([a b] & E & H). injection E as <- <- <-. auto.
  - intros [-> H]. exists (n, s). auto.
Qed.
Lemma settings_section pp block b : distinct pp -> section_of pp block b -> block_settings pp block = b.
Proof.
  intros D [H|[-> H]]; unfold block_settings.
  - rewrite (in_lookup _ _ _ D H). reflexivity.
  - destruct (lookup block pp) as [[v|x]|] eqn:E; auto. destruct (H x). apply lookup_in. exact E.
Qed.
Lemma sub_listed n b l : sub_list n b = Some l -> In (n, Node l) b \/ ((forall a, ~ In (n, a) b) /\ l = []).
Proof.
  unfold sub_list. destruct (lookup n b) as [[v|x]|] eqn:E; intro H; [discriminate|injection H as ->; left; apply lookup_in; exact E|].
  injection H as <-. right. split; auto. apply lookup_none. exact E.
Qed.
Lemma optional_stated n pp r m s : distinct pp -> optional_list n pp = Some r -> (forall l, In (n, Node l) pp -> distinct l) -> In (m, s) r -> states pp n m s.
Proof.
  intros D H X I. unfold optional_list in H. destruct (lookup n pp) as [[v|x]|] eqn:E; try (injection H as <-; destruct I; fail).
  exists x. pose proof (lookup_in _ _ _ E) as L. repeat split; auto. apply (texts_in m s x r H). exact I.
Qed.

(** *** C359 *)

Ltac parts H := unfold setup_block in H;
  repeat match type of H with
  | bind (bind ?a ?g) _ = Some _ => let e := fresh "e" in let E := fresh "E" in destruct a as [e|] eqn:E; cbn [bind] in H; [|discriminate H]
  | bind ?a _ = Some _ => let e := fresh "e" in let E := fresh "E" in destruct a as [e|] eqn:E; cbn [bind] in H; [|discriminate H]
  | context [let b := _ in _] => cbv zeta in H
  end; injection H as <-.

(** The fields of a block are those of its own section if it has one, else those of Postprocess. *)
Theorem C359_fields trues pp block b f : distinct pp -> section_of pp block b -> setup_block trues pp block = Some f ->
  listed b "Extra fields" (extra f) /\ listed b "Extra cell fields" (cell f).
Proof.
  intros D S H. parts H. rewrite (settings_section _ _ _ D S) in *. cbn [extra cell]. split.
  - match goal with L : sub_list "Extra fields" b = Some ?l, T : texts ?l = Some ?r |- listed _ _ (map fst ?r) =>
      rewrite (texts_names _ _ T); destruct (sub_listed _ _ _ L) as [X|[X ->]]; [left; eauto|right; auto] end.
  - match goal with L : sub_list "Extra cell fields" b = Some ?l, T : texts ?l = Some ?r |- listed _ _ (map fst ?r) =>
      rewrite (texts_names _ _ T); destruct (sub_listed _ _ _ L) as [X|[X ->]]; [left; eauto|right; auto] end.
Qed.
(** Objective functions, flux responses and integrated quantities come from the same place. *)
Theorem C359_handed pp block b n l : distinct pp -> section_of pp block b -> distinct b -> In (n, Node l) b -> handed pp block n = Some l.
Proof. intros D S B H. unfold handed, sub_list. rewrite (settings_section _ _ _ D S), (in_lookup _ _ _ B H). reflexivity. Qed.
(** Each extra field means, at the integration points, what its section says, unless its name is also
    that of a response, weight, target or true solution. *)
Theorem C359_own_text trues pp block b f n s : distinct pp -> section_of pp block b -> distinct b -> setup_block trues pp block = Some f ->
  (forall k l, In (k, Node l) pp -> distinct l) -> (forall l t p u, trues l = Some t -> ~ In (p, n, u) t) ->
  (forall k, In k ["Responses"; "Weights"; "Targets"] -> ~ names_in pp k n) ->
  states b "Extra fields" n s -> meaning (regs f) "ip" n = Some s /\ meaning (regs f) "point" n = Some s.
Proof.
  intros D S B H K T N (l & L & DL & I). parts H. rewrite (settings_section _ _ _ D S) in *. cbn [regs].
  match goal with X : sub_list "Extra fields" b = Some _ |- _ => unfold sub_list in X; rewrite (in_lookup _ _ _ B L) in X; injection X as <- end.
  match goal with X : texts l = Some ?r |- _ => pose proof (proj1 (texts_in n s _ _ X) I) as J; pose proof DL as DR; unfold distinct in DR; rewrite <- (texts_names _ _ X) in DR end.
  assert (Q : forall k r p, In k ["Responses"; "Weights"; "Targets"] -> optional_list k pp = Some r -> meaning (at_place "ip" r) p n = None).
  { intros k r p Kk R. apply meaning_absent. intros u U. apply in_place in U. destruct U as [_ U]. apply (N k Kk). exists u. exact (optional_stated _ _ _ _ _ D R (K k) U). }
  assert (Q' : forall p, meaning (at_place "ip" e ++ at_place "ip" e0 ++ at_place "ip" e1 ++ e3) p n = None).
  { intro p. rewrite !meaning_app. rewrite (Q "Responses" e p), (Q "Weights" e0 p), (Q "Targets" e1 p) by (cbn; auto). apply meaning_absent. intros u. eapply T. eauto. }
  assert (A : forall x, at_place "ip" e ++ at_place "ip" e0 ++ at_place "ip" e1 ++ e3 ++ x = (at_place "ip" e ++ at_place "ip" e0 ++ at_place "ip" e1 ++ e3) ++ x) by (intro; rewrite <- !app_assoc; reflexivity).
  rewrite A. split; rewrite meaning_app, Q', meaning_app; [rewrite (meaning_both "ip" n s ltac:(auto) _ DR J)|rewrite (meaning_both "point" n s ltac:(auto) _ DR J)]; reflexivity.
Qed.
(** Likewise an extra cell field, unless an extra field has its name. *)
Theorem C359_cell_text trues pp block b f n s : distinct pp -> section_of pp block b -> distinct b -> setup_block trues pp block = Some f ->
  (forall k l, In (k, Node l) pp -> distinct l) -> (forall k l, In (k, Node l) b -> distinct l) ->
  (forall l t p u, trues l = Some t -> ~ In (p, n, u) t) ->
  (forall k, In k ["Responses"; "Weights"; "Targets"] -> ~ names_in pp k n) -> ~ names_in b "Extra fields" n ->
  states b "Extra cell fields" n s -> meaning (regs f) "ip" n = Some s.
Proof.
  intros D S B H K KB T N NE (l & L & DL & I). parts H. rewrite (settings_section _ _ _ D S) in *. cbn [regs].
  match goal with X : sub_list "Extra cell fields" b = Some _ |- _ => unfold sub_list in X; rewrite (in_lookup _ _ _ B L) in X; injection X as <- end.
  match goal with X : texts l = Some ?r |- _ => pose proof (proj1 (texts_in n s _ _ X) I) as J; pose proof DL as DR; unfold distinct in DR; rewrite <- (texts_names _ _ X) in DR end.
  assert (Q : forall k r, In k ["Responses"; "Weights"; "Targets"] -> optional_list k pp = Some r -> meaning (at_place "ip" r) "ip" n = None).
  { intros k r Kk R. apply meaning_absent. intros u U. apply in_place in U. destruct U as [_ U]. apply (N k Kk). exists u. exact (optional_stated _ _ _ _ _ D R (K k) U). }
  rewrite !meaning_app. rewrite (Q "Responses" e), (Q "Weights" e0), (Q "Targets" e1) by (cbn; auto).
  rewrite (meaning_absent "ip" n e3) by (intros u; eapply T; eauto).
  match goal with X : sub_list "Extra fields" b = Some ?x, Y : texts ?x = Some ?y |- _ => rewrite (meaning_absent "ip" n (at_both y)) end.
  - apply meaning_place; auto.
  - intros u U. apply in_flat_map in U. destruct U as ([m v] & M & U). apply NE. exists u.
    assert (M' : In (n, u) e5) by (cbn in U; destruct U as [U|[U|[]]]; inversion U; subst; exact M).
    match goal with X : sub_list "Extra fields" b = Some ?x |- _ => destruct (sub_listed _ _ _ X) as [Z|[_ ->]] end.
    + exists e4. repeat split; auto. { eapply KB; eauto. } eapply texts_in; eauto.
    + match goal with Y : texts [] = Some _ |- _ => injection Y as <- end. destruct M'.
Qed.
(** The section of one block has no effect on another block. *)
Theorem C359_independent trues pp block other a :
  block <> other -> ~ In other ["Responses"; "Weights"; "Targets"; "True solutions"; "Extra fields"; "Extra cell fields"] ->
  setup_block trues (set_entry other a pp) block = setup_block trues pp block.
Proof.
  intros D N. assert (O : forall n, In n ["Responses"; "Weights"; "Targets"; "True solutions"; "Extra fields"; "Extra cell fields"] -> n <> other) by (intros n I ->; contradiction).
  assert (X : forall n, n <> other -> sub_list n (block_settings (set_entry other a pp) block) = sub_list n (block_settings pp block)).
  { intros n E. unfold block_settings. rewrite (lookup_set block other a pp D). destruct (lookup block pp) as [[v|x]|]; auto; unfold sub_list; rewrite (lookup_set n other a pp E); reflexivity. }
  unfold setup_block, optional_list. rewrite !lookup_set by (apply O; cbn; auto 8). cbv zeta. rewrite !X by (apply O; cbn; auto 8). reflexivity.
Qed.
Definition input : plist :=
  [("Weights", Node [("w", Leaf (Str "2.0"))]); ("Extra fields", Node [("speed", Leaf (Str "abs(u)"))]);
   ("left", Node [("Extra fields", Node [("heat", Leaf (Str "T*T")); ("w2", Leaf (Str "w"))]); ("Weights", Node [("w", Leaf (Str "7.0"))])])].
Example C359_example : distinct input /\ section_of input "left" [("Extra fields", Node [("heat", Leaf (Str "T*T")); ("w2", Leaf (Str "w"))]); ("Weights", Node [("w", Leaf (Str "7.0"))])] /\
  section_of input "right" input /\
  option_map extra (setup_block (fun _ => Some []) input "left") = Some ["heat"; "w2"] /\
  option_map extra (setup_block (fun _ => Some []) input "right") = Some ["speed"] /\
  option_map (fun f => meaning (regs f) "point" "heat") (setup_block (fun _ => Some []) input "left") = Some (Some "T*T").
Proof.
  repeat split.
  - unfold distinct, input. cbn. repeat constructor; cbn; intuition discriminate.
  - left. unfold input. cbn. auto.
  - right. split; auto. intros x X. unfold input in X. cbn in X. intuition discriminate.
Qed.

(** *** C360 *)

(** The claim: what a block's section says under [kind] holds on that block. *)
Definition honoured (kind place : string) : Prop :=
  forall pp block b f n s, distinct pp -> (forall k l, In (k, Node l) pp -> distinct l) -> In (block, Node b) pp ->
    setup_block (fun _ => Some []) pp block = Some f -> states b kind n s -> meaning (regs f) place n = Some s.
(** It does for the extra fields at points. *)
Theorem C360_point_partial : honoured "Extra fields" "point".
Proof.
  intros pp block b f n s D K S H (l & L & DL & I). assert (B : distinct b) by (eapply K; eauto). parts H. rewrite (settings_section pp block b D (or_introl S)) in *. cbn [regs].
  match goal with X : sub_list "Extra fields" b = Some _ |- _ => unfold sub_list in X; rewrite (in_lookup _ _ _ B L) in X; injection X as <- end.
  match goal with X : texts l = Some ?r |- _ => pose proof (proj1 (texts_in n s _ _ X) I) as J; pose proof DL as DR; unfold distinct in DR; rewrite <- (texts_names _ _ X) in DR end.
  assert (Q : forall r, meaning (at_place "ip" r) "point" n = None) by (intro r; apply meaning_absent; intros u U; apply in_place in U; destruct U; discriminate).
  rewrite !meaning_app, !Q. cbn [meaning]. rewrite (meaning_both "point" n s ltac:(auto) _ DR J). reflexivity.
Qed.
(** The weights of Postprocess hold on every block, with or without its own section. *)
Theorem C360_shared_partial trues pp block f n s : distinct pp -> (forall k l, In (k, Node l) pp -> distinct l) ->
  setup_block trues pp block = Some f -> states pp "Weights" n s -> ~ names_in pp "Responses" n -> meaning (regs f) "ip" n = Some s.
Proof.
  intros D K H (l & L & DL & I) N. parts H. cbn [regs].
  match goal with X : optional_list "Weights" pp = Some _ |- _ => unfold optional_list in X; rewrite (in_lookup _ _ _ D L) in X end.
  match goal with X : texts l = Some ?r |- _ => pose proof (proj1 (texts_in n s _ _ X) I) as J; pose proof DL as DR; unfold distinct in DR; rewrite <- (texts_names _ _ X) in DR end.
  rewrite meaning_app. rewrite (meaning_absent "ip" n (at_place "ip" e)).
  - rewrite meaning_app, (meaning_place "ip" n s _ DR J). reflexivity.
  - intros u U. apply in_place in U. destruct U as [_ U]. apply N. exists u. apply (optional_stated "Responses" pp e n u D); auto. intros. eapply K; eauto.
Qed.
(** But a weight, target or response in a block's section is passed over. *)
Theorem C360_ignored_refuted kind : In kind ["Responses"; "Weights"; "Targets"] -> ~ honoured kind "ip".
Proof.
  intros Kk H. specialize (H [("left", Node [(kind, Node [("w", Leaf (Str "7.0"))])])] "left" [(kind, Node [("w", Leaf (Str "7.0"))])]
    {| extra := []; cell := []; regs := [] |} "w" "7.0").
  assert (X : meaning (regs {| extra := []; cell := []; regs := [] |}) "ip" "w" = Some "7.0"); [|discriminate X].
  apply H.
  - unfold distinct. cbn. repeat constructor. cbn. tauto.
  - intros k l [E|[]]. injection E as <- <-. unfold distinct. cbn. repeat constructor. cbn. tauto.
  - left. reflexivity.
  - cbn in Kk. destruct Kk as [<- | [<- | [<- | []]]]; reflexivity.
  - exists [("w", Leaf (Str "7.0"))]. split; [left; auto|]. split; [|left; auto]. unfold distinct. cbn. repeat constructor. cbn. tauto.
Qed.
(** And an extra field of a block that has the name of a weight shows the weight. *)
Theorem C360_clash_refuted : ~ honoured "Extra fields" "ip".
Proof.
  intro H. specialize (H [("Weights", Node [("w", Leaf (Str "2.0"))]); ("left", Node [("Extra fields", Node [("w", Leaf (Str "T*T"))])])] "left"
    [("Extra fields", Node [("w", Leaf (Str "T*T"))])]
    {| extra := ["w"]; cell := []; regs := [("ip", "w", "2.0"); ("ip", "w", "T*T"); ("point", "w", "T*T")] |} "w" "T*T").
  assert (X : Some "2.0" = Some "T*T"); [|discriminate X]. apply H.
  - unfold distinct. cbn. repeat constructor; cbn; intuition discriminate.
  - intros k l [E|[E|[]]]; injection E as <- <-; unfold distinct; cbn; repeat constructor; cbn; tauto.
  - right. left. reflexivity.
  - reflexivity.
  - exists [("w", Leaf (Str "T*T"))]. split; [left; auto|]. split; [|left; auto]. unfold distinct. cbn. repeat constructor. cbn. tauto.
Qed.
Example C360_example : option_map (fun f => meaning (regs f) "ip" "w") (setup_block (fun _ => Some []) input "left") = Some (Some "2.0").
Proof. reflexivity. Qed.

Print Assumptions C359_fields.
Print Assumptions C359_handed.
Print Assumptions C359_own_text.
Print Assumptions C359_cell_text.
Print Assumptions C359_independent.
Print Assumptions C360_point_partial.
Print Assumptions C360_shared_partial.
Print Assumptions C360_ignored_refuted.
Print Assumptions C360_clash_refuted.
