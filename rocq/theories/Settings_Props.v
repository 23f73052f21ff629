(** C46 (block settings), C47 (options of a set), C48 (input files). *)
From Coq Require Import Bool Arith Lia ZArith String List.
From Verif Require Import Settings_Model.
Import ListNotations.
Local Open Scope string_scope.

Section NodeInd.
Variable P : node -> Prop.
Hypothesis HL : forall v, P (Leaf v).
Hypothesis HN : forall l, Forall (fun e => P (snd e)) l -> P (Node l).
Fixpoint node_ind' (a : node) : P a :=
  match a with
  | Leaf v => HL v
  | Node l => HN l ((fix all (l : list (string * node)) : Forall (fun e => P (snd e)) l :=
      match l with [] => Forall_nil _ | e :: l => Forall_cons e (node_ind' (snd e)) (all l) end) l)
  end.
End NodeInd.

Lemma lookup_set n m a l : lookup n (set_entry m a l) = if string_dec m n then Some a else lookup n l.
Proof.
  induction l as [|[k b] l IH]; cbn; [destruct (string_dec m n); auto|].
  destruct (string_dec k m) as [->|N]; cbn; [destruct (string_dec m n); auto|].
  rewrite IH. destruct (string_dec k n), (string_dec m n); congruence || auto.
Qed.

Lemma merge_list d l : merge_node d (Node l) =
  match d with None => option_map Node (set_parameters [] l) | Some (Node dl) => option_map Node (set_parameters dl l) | Some (Leaf _) => None end.
Proof.
  assert (G : forall l dl, (fix go (dl : plist) (l : list (string * node)) : option plist :=
      match l with [] => Some dl | (n, a) :: l => match merge_node (lookup n dl) a with Some r => go (set_entry n r dl) l | None => None end end) dl l = set_parameters dl l).
  { induction l0 as [|[n a] l0 IH]; intros dl; cbn [set_parameters]; auto; destruct (merge_node (lookup n dl) a); auto. }
  cbn [merge_node]. destruct d as [[v|dl]|]; auto; rewrite G; auto.
Qed.

(** Names are distinct at every level, as in a list read from a file. *)
Fixpoint distinct (a : node) : Prop :=
  match a with
  | Leaf _ => True
  | Node l => NoDup (map fst l) /\ (fix all (l : list (string * node)) := match l with [] => True | e :: l => distinct (snd e) /\ all l end) l
  end.
Lemma distinct_node l : distinct (Node l) <-> NoDup (map fst l) /\ Forall (fun e => distinct (snd e)) l.
Proof.
  cbn. assert (G : forall l, (fix all (l : list (string * node)) := match l with [] => True | e :: l => distinct (snd e) /\ all l end) l <-> Forall (fun e => distinct (snd e)) l).
  { induction l0; split; intros H; auto; [destruct H; constructor; auto; apply IHl0; auto|inversion H; subst; split; auto; apply IHl0; auto]. }
  rewrite G. tauto.
Qed.

Lemma lookup_none n l : ~ In n (map fst l) -> lookup n l = None.
Proof. induction l as [|[m a] l IH]; cbn; auto. intros H. destruct (string_dec m n); [subst; tauto|]. apply IH. tauto. Qed.
Lemma set_append n a l : ~ In n (map fst l) -> set_entry n a l = (l ++ [(n, a)])%list.
Proof. induction l as [|[m b] l IH]; cbn; auto. intros H. destruct (string_dec m n); [subst; tauto|]. rewrite IH by tauto. auto. Qed.

(** Copying into an empty place gives the list itself. *)
Lemma merge_fresh : forall a, distinct a -> merge_node None a = Some a.
Proof.
  induction a as [v|l IH] using node_ind'; intros D; [reflexivity|]. rewrite merge_list.
  apply distinct_node in D as [ND DA].
  assert (G : forall l2 l1, NoDup (map fst (l1 ++ l2)%list) -> Forall (fun e : string * node => merge_node None (snd e) = Some (snd e)) l2 -> set_parameters l1 l2 = Some (l1 ++ l2)%list).
  { induction l2 as [|[n a] l2 IH2]; intros l1 N F; [rewrite app_nil_r; auto|]. cbn [set_parameters]. inversion F; subst. cbn [snd] in *.
    assert (NI : ~ In n (map fst l1)).
    { rewrite map_app in N. cbn in N. apply NoDup_remove_2 in N. intros C. apply N. apply in_or_app. auto. }
    rewrite lookup_none, H1, set_append by auto. rewrite IH2; auto; rewrite <- app_assoc; auto. }
  rewrite (G l []); auto. clear G ND. induction IH as [|e l H _ IHl]; constructor; inversion DA; subst; auto.
Qed.

(** *** C48 *)

(** The sections of an input and what happens to one that is given nowhere; a section S may
    be put in a file named by the entry "S input file". *)
Definition documented : list (string * need) :=
  [("Mesh", Required); ("Physics", Required); ("Discretization", Required); ("Solver", Required); ("Analysis", Required);
   ("Postprocess", OrEmpty); ("Parameters", OrEmpty); ("Subgrid", Optional); ("Functions", Optional);
   ("Aux Physics", Optional); ("Aux Discretization", Optional)].
Definition input_file (s : string) : string := s ++ " input file".
Lemma sections_documented : sections = documented.
Proof. reflexivity. Qed.
Lemma file_key_input s : file_key s = input_file s.
Proof. reflexivity. Qed.

Section Files.
Variable files : string -> option plist.
Variable main : plist.

(** A section missing in the main file may be given by a file that contains it and nothing
    else; no section name is used for a plain value. *)
Definition tidy : Prop := forall s nd, In (s, nd) documented -> is_sublist s main = false ->
  lookup s main = None /\
  forall f c, lookup (input_file s) main = Some (Leaf (Str f)) -> files f = Some c -> exists l, c = [(s, Node l)] /\ distinct (Node l).

(** What a section must be; [None] means that the input must be rejected. *)
Definition wanted (s : string) (nd : need) : option (option node) :=
  match lookup s main with
  | Some a => Some (Some a)
  | None =>
    match lookup (input_file s) main with
    | Some (Leaf (Str f)) => match files f with Some c => Some (lookup s c) | None => None end
    | Some _ => None
    | None => match nd with Required => None | Optional => Some None | OrEmpty => Some (Some (Node [])) end
    end
  end.

Lemma keys_apart s nd s' nd' : In (s, nd) documented -> In (s', nd') documented -> input_file s <> s'.
Proof.
  intros H H'. cbn in H, H'. repeat (destruct H as [H|H]; [injection H as <- <-; repeat (destruct H' as [H'|H']; [injection H' as <- <-; discriminate|]); destruct H'|]); destruct H.
Qed.

Lemma step_spec (T : tidy) s nd settings : In (s, nd) documented -> lookup s settings = lookup s main -> lookup (input_file s) settings = lookup (input_file s) main ->
  match section_step files (is_sublist s main) s nd settings with
  | Some t => wanted s nd = Some (lookup s t) /\ forall n, n <> s -> lookup n t = lookup n settings
  | None => wanted s nd = None
  end.
Proof.
  intros HI HS HK. unfold section_step, wanted. rewrite file_key_input. destruct (is_sublist s main) eqn:SL.
  - unfold is_sublist in SL. destruct (lookup s main) as [a|] eqn:L; [|discriminate]. split; auto. congruence.
  - destruct (T s nd HI SL) as [L F]. rewrite L, HK. rewrite L in HS. destruct (lookup (input_file s) main) as [[[f|z]|l]|] eqn:K; auto.
    + destruct (files f) as [c|] eqn:FF; auto. destruct (F f c eq_refl FF) as (l & -> & D). cbn [set_parameters].
      rewrite HS, merge_fresh by auto. split; [|intros n N; rewrite lookup_set; destruct (string_dec s n); [congruence|auto]].
      rewrite lookup_set. destruct (string_dec s s); [|congruence]. cbn. destruct (string_dec s s); [auto|congruence].
    + destruct nd; auto; [split; auto; rewrite HS; auto|]. rewrite HS. split; [|intros n N; rewrite lookup_set; destruct (string_dec s n); [congruence|auto]].
      rewrite lookup_set. destruct (string_dec s s); [auto|congruence].
Qed.

Lemma run_spec (T : tidy) : forall ss settings, incl ss documented -> NoDup (map fst ss) ->
  (forall n, (In n (map fst ss) \/ exists s nd, In (s, nd) documented /\ n = input_file s) -> lookup n settings = lookup n main) ->
  match sections_run files main ss settings with
  | Some t => (forall s nd, In (s, nd) ss -> wanted s nd = Some (lookup s t)) /\ (forall n, ~ In n (map fst ss) -> lookup n t = lookup n settings)
  | None => exists s nd, In (s, nd) ss /\ wanted s nd = None
  end.
Proof.
  induction ss as [|[s nd] ss IH]; intros settings I ND H; cbn [sections_run].
  - split; [intros s nd []|auto].
  - cbn in ND. inversion ND as [|? ? N1 N2]; subst.
    assert (HI : In (s, nd) documented) by (apply I; cbn; auto).
    pose proof (step_spec T s nd settings HI (H s (or_introl (or_introl eq_refl))) (H (input_file s) (or_intror (ex_intro _ s (ex_intro _ nd (conj HI eq_refl)))))) as S.
    destruct (section_step files (is_sublist s main) s nd settings) as [t|] eqn:E.
    + destruct S as [W K].
      assert (H' : forall n, (In n (map fst ss) \/ exists s nd, In (s, nd) documented /\ n = input_file s) -> lookup n t = lookup n main).
      { intros n Hn. rewrite K; [apply H; destruct Hn; [left; cbn; auto|auto]|]. intros ->. destruct Hn as [Hn|(s' & nd' & Hn & En)]; [auto|]. symmetry in En. exact (keys_apart _ _ _ _ Hn HI En). }
      specialize (IH t (fun x Hx => I x (or_intror Hx)) N2 H').
      destruct (sections_run files main ss t) as [r|] eqn:R.
      * destruct IH as [A B]. split.
        -- intros s' nd' [[= <- <-]|Hs]; auto. rewrite (B s); auto.
        -- intros n Hn. cbn in Hn. rewrite B by tauto. apply K. intros ->. tauto.
      * destruct IH as (s' & nd' & A & B). exists s', nd'. split; auto. right. auto.
    + exists s, nd. split; auto. left. auto.
Qed.

(** For tidy input: a section of the main file is kept, another is the content of its file;
    everything else is untouched. *)
Theorem C48_effective t : tidy -> user_interface files main = Some t ->
  (forall s nd, In (s, nd) documented -> wanted s nd = Some (lookup s t)) /\
  (forall n, ~ In n (map fst documented) -> lookup n t = lookup n main).
Proof.
  intros T H. unfold user_interface in H. rewrite sections_documented in H.
  assert (ND : NoDup (map fst documented)) by (cbn; repeat constructor; cbn; intuition discriminate).
  pose proof (run_spec T documented main (incl_refl _) ND (fun n _ => eq_refl)) as R.
  destruct (sections_run files main documented main) as [r|]; [|discriminate]. destruct (Bool.eqb _ _); [|discriminate]. injection H as <-. exact R.
Qed.

Theorem C48_main_kept t s nd : tidy -> user_interface files main = Some t -> In (s, nd) documented -> is_sublist s main = true -> lookup s t = lookup s main.
Proof.
  intros T H I S. destruct (C48_effective t T H) as [A _]. specialize (A s nd I). unfold wanted in A. unfold is_sublist in S.
  destruct (lookup s main) as [a|]; [congruence|discriminate].
Qed.

(** Tidy input is accepted exactly when nothing is missing, and the two auxiliary documented
    are both in the main file or both not. *)
Theorem C48_accepts : tidy ->
  (exists t, user_interface files main = Some t) <->
  (forall s nd, In (s, nd) documented -> wanted s nd <> None) /\ is_sublist "Aux Discretization" main = is_sublist "Aux Physics" main.
Proof.
  intros T. unfold user_interface. rewrite sections_documented.
  assert (ND : NoDup (map fst documented)) by (cbn; repeat constructor; cbn; intuition discriminate).
  pose proof (run_spec T documented main (incl_refl _) ND (fun n _ => eq_refl)) as R.
  destruct (sections_run files main documented main) as [r|].
  - destruct R as [A _]. destruct (Bool.eqb_spec (is_sublist "Aux Discretization" main) (is_sublist "Aux Physics" main)) as [E|E].
    + split; [|eauto]. intros _. split; auto. intros s nd H. rewrite (A s nd H). discriminate.
    + split; [intros (t & [=])|intros [_ X]; congruence].
  - destruct R as (s & nd & I & W). split; [intros (t & [=])|intros [X _]; exfalso; exact (X s nd I W)].
Qed.

(** A missing required section is rejected, for every input. *)
Theorem C48_missing s : In (s, Required) documented -> is_sublist s main = false ->
  lookup (input_file s) main = None ->
  (forall f c, files f = Some c -> lookup (input_file s) c = None) -> user_interface files main = None.
Proof.
  intros I SL K FK.
  assert (SP : forall l dl t n, lookup n l = None -> lookup n dl = None -> set_parameters dl l = Some t -> lookup n t = None).
  { induction l as [|[m a] l IH]; intros dl t n H1 H2 E; cbn [set_parameters] in E; [injection E as <-; auto|].
    cbn in H1. destruct (string_dec m n) as [->|N]; [discriminate|]. destruct (merge_node (lookup m dl) a) as [r|]; [|discriminate].
    eapply IH; [exact H1| |exact E]. rewrite lookup_set. destruct (string_dec m n); [congruence|auto]. }
  assert (G : forall ss settings, incl ss documented -> In (s, Required) ss -> lookup (input_file s) settings = None -> sections_run files main ss settings = None).
  { induction ss as [|[s' nd] ss IH]; intros settings IN HI HK; [destruct HI|]. cbn [sections_run].
    destruct HI as [[= -> ->]|HI].
    - unfold section_step. rewrite file_key_input, SL, HK. reflexivity.
    - destruct (section_step files (is_sublist s' main) s' nd settings) as [t|] eqn:E; auto. apply IH; auto; [intros x Hx; apply IN; right; auto|].
      unfold section_step in E. rewrite file_key_input in E. destruct (is_sublist s' main); [injection E as <-; auto|].
      destruct (lookup (input_file s') settings) as [[[f|z]|l]|] eqn:L; try discriminate.
      + destruct (files f) as [c|] eqn:FF; [|discriminate]. eapply SP; [| |exact E]; eauto.
      + destruct nd; try discriminate; [injection E as <-; auto|].
        destruct (lookup s' settings) as [[v|l]|]; try discriminate; injection E as <-; auto. rewrite lookup_set.
        destruct (string_dec s' (input_file s)) as [X|]; auto. exfalso. symmetry in X. eapply (keys_apart s Required s' OrEmpty); auto. apply IN. left. auto. }
  unfold user_interface. rewrite sections_documented, G; auto. apply incl_refl.
Qed.
End Files.
Print Assumptions C48_effective.
Print Assumptions C48_main_kept.
Print Assumptions C48_accepts.
Print Assumptions C48_missing.

Definition five : plist :=
  [("Mesh", Node [("dimension", Leaf (Int 2))]); ("Discretization", Node []); ("Solver", Node []); ("Analysis", Node [])].
Definition phys : node := Node [("modules", Leaf (Str "thermal"))].

(** The hypotheses are met by an input whose physics comes from a file. *)
Example C48_example :
  let files f := if string_dec f "p.yaml" then Some [("Physics", phys)] else None in
  let main := (five ++ [("Physics input file", Leaf (Str "p.yaml"))])%list in
  tidy files main /\ exists t, user_interface files main = Some t /\ lookup "Physics" t = Some phys.
Proof.
  cbv zeta. split; [|eexists; split; [reflexivity|reflexivity]].
  intros s nd H. cbn in H. repeat (destruct H as [[= <- <-]|H]; [cbn; intros SL; try discriminate; (split; [reflexivity|intros f c E F; try discriminate])|]); [|destruct H].
  injection E as <-. cbn in F. injection F as <-. eexists. split; [reflexivity|]. cbn. repeat constructor; cbn; tauto.
Qed.

(** Without tidiness the claim is false: the file named for the mesh also changes the physics
    given in the main file. *)
Theorem C48_main_kept_refuted : exists files main t, NoDup (map fst main) /\ is_sublist "Physics" main = true /\
  user_interface files main = Some t /\ lookup "Physics" t <> lookup "Physics" main.
Proof.
  exists (fun f => if string_dec f "m.yaml" then Some [("Mesh", Node []); ("Physics", Node [("modules", Leaf (Str "porous"))])] else None).
  exists [("Mesh input file", Leaf (Str "m.yaml")); ("Physics", phys); ("Discretization", Node []); ("Solver", Node []); ("Analysis", Node [])].
  eexists. split; [|split; [|split]]; [|reflexivity|reflexivity|vm_compute; discriminate].
  cbn. repeat constructor; cbn; intuition discriminate.
Qed.

(** A required section that was read from the file of another one is still rejected. *)
Theorem C48_present_rejected : exists files main t,
  section_step files (is_sublist "Mesh" main) "Mesh" Required main = Some t /\ is_sublist "Physics" t = true /\ user_interface files main = None.
Proof.
  exists (fun f => if string_dec f "m.yaml" then Some [("Mesh", Node []); ("Physics", phys)] else None).
  exists [("Mesh input file", Leaf (Str "m.yaml")); ("Discretization", Node []); ("Solver", Node []); ("Analysis", Node [])].
  eexists. split; [|split]; reflexivity.
Qed.

(** An auxiliary section in the main file and the other in its own file are rejected. *)
Theorem C48_aux_rejected : exists files main, tidy files main /\ (forall s nd, In (s, nd) documented -> wanted files main s nd <> None) /\
  is_sublist "Aux Physics" main = true /\ wanted files main "Aux Discretization" Optional = Some (Some (Node [])) /\ user_interface files main = None.
Proof.
  exists (fun f => if string_dec f "a.yaml" then Some [("Aux Discretization", Node [])] else None).
  exists (five ++ [("Physics", phys); ("Aux Physics", phys); ("Aux Discretization input file", Leaf (Str "a.yaml"))])%list.
  split; [|split; [|split; [|split]]]; try reflexivity.
  - intros s nd H. cbn in H. repeat (destruct H as [[= <- <-]|H]; [cbn; intros SL; try discriminate; (split; [reflexivity|intros f c E F; try discriminate])|]); [|destruct H].
    injection E as <-. cbn in F. injection F as <-. eexists. split; [reflexivity|]. cbn. repeat constructor; cbn; tauto.
  - intros s nd H. cbn in H. repeat (destruct H as [[= <- <-]|H]; [cbv; discriminate|]). destruct H.
Qed.
Print Assumptions C48_main_kept_refuted.
Print Assumptions C48_present_rejected.
Print Assumptions C48_aux_rejected.

(** *** C46 *)

(** No sublist has a name that properly contains the block's. *)
Definition exact_names (l : plist) (b : string) : Prop :=
  forall n sl, In (n, Node sl) l -> contains b n = true -> n = b.

Lemma prefix_refl s : prefix s s = true.
Proof. induction s; cbn; auto. destruct (Ascii.ascii_dec a a); congruence. Qed.
Lemma contains_refl s : contains s s = true.
Proof. destruct s; [reflexivity|]. cbn [contains]. rewrite prefix_refl. reflexivity. Qed.

Lemma overlay_lookup k : forall l base, NoDup (map fst l) -> lookup k (overlay base l) = match lookup k l with Some a => Some a | None => lookup k base end.
Proof.
  unfold overlay. induction l as [|[n a] l IH]; intros base N; cbn [fold_left lookup]; auto.
  cbn in N. inversion N; subst. rewrite IH by auto. cbn [fst snd]. destruct (string_dec n k) as [->|D].
  - rewrite lookup_none by auto. rewrite lookup_set. destruct (string_dec k k); congruence.
  - destruct (lookup k l); auto. rewrite lookup_set. destruct (string_dec n k); congruence.
Qed.

Lemma lookup_in n a l : lookup n l = Some a -> In (n, a) l.
Proof. induction l as [|[m b] l IH]; cbn; [discriminate|]. destruct (string_dec m n) as [->|]; [intros [= ->]; auto|auto]. Qed.
Lemma in_lookup n a l : NoDup (map fst l) -> In (n, a) l -> lookup n l = Some a.
Proof.
  induction l as [|[m b] l IH]; cbn; [tauto|]. intros N [[= -> ->]|H]; [destruct (string_dec n n); congruence|].
  inversion N; subst. destruct (string_dec m n) as [->|]; auto. exfalso. apply H2. change n with (fst (n, a)). apply in_map. auto.
Qed.

(** The settings of a block: the general ones, replaced by those given under its name. *)
Theorem C46_block_settings l b k : NoDup (map fst l) -> exact_names l b ->
  (forall sl, lookup b l = Some (Node sl) -> NoDup (map fst sl)) ->
  lookup k (block_settings l b) =
    match lookup b l with
    | Some (Node sl) => match lookup k sl with Some a => Some a | None => lookup k l end
    | _ => lookup k l
    end.
Proof.
  intros N X W. unfold block_settings.
  set (f := fun acc (e : string * node) => match snd e with Node sl => if contains b (fst e) then overlay acc sl else acc | Leaf _ => acc end).
  assert (G : forall l2, (forall n sl, In (n, Node sl) l2 -> contains b n = true -> n = b) -> NoDup (map fst l2) ->
    (forall sl, lookup b l2 = Some (Node sl) -> NoDup (map fst sl)) -> forall base, lookup k (fold_left f l2 base) =
      match lookup b l2 with Some (Node sl) => match lookup k sl with Some a => Some a | None => lookup k base end | _ => lookup k base end).
  { induction l2 as [|[n a] l2 IH]; intros X2 N2 W2 base; [reflexivity|]. cbn [fold_left]. cbn in N2. inversion N2 as [|? ? M1 M2]; subst.
    assert (X3 : forall n sl, In (n, Node sl) l2 -> contains b n = true -> n = b) by (intros; eapply X2; eauto; right; eauto).
    cbn [lookup] in W2 |- *. destruct (string_dec n b) as [->|D].
    - rewrite IH; auto; [|intros sl; rewrite lookup_none by auto; discriminate]. rewrite lookup_none by auto.
      destruct a as [v|sl]; [reflexivity|]. unfold f. cbn [fst snd]. rewrite contains_refl. apply overlay_lookup. auto.
    - rewrite IH; auto. assert (E : f base (n, a) = base).
      { unfold f. cbn [fst snd]. destruct a as [v|sl]; auto. destruct (contains b n) eqn:C; auto. exfalso. apply D. eapply X2; eauto. left. auto. }
      rewrite E. reflexivity. }
  apply G; auto.
Qed.

(** A block that is not named has the general settings. *)
Corollary C46_unnamed l b k : NoDup (map fst l) -> exact_names l b -> is_sublist b l = false -> lookup k (block_settings l b) = lookup k l.
Proof.
  intros N X S. unfold is_sublist in S. rewrite C46_block_settings; auto; destruct (lookup b l) as [[v|sl]|]; auto; try discriminate.
Qed.

Example C46_example : let l := [("modules", Leaf (Str "thermal")); ("left", Node [("modules", Leaf (Str "porous"))])] in
  NoDup (map fst l) /\ exact_names l "left" /\ exact_names l "right" /\
  lookup "modules" (block_settings l "left") = Some (Leaf (Str "porous")) /\ lookup "modules" (block_settings l "right") = Some (Leaf (Str "thermal")).
Proof.
  cbv zeta. split; [|split; [|split; [|split]]]; try reflexivity.
  - cbn. repeat constructor; cbn; intuition discriminate.
  - intros n sl [[=]|[[= <- <-]|[]]]; auto.
  - intros n sl [[=]|[[= <- <-]|[]]]. cbn. discriminate.
Qed.

(** The names are compared as substrings: what is given for the block 10 is applied to the
    block 1 as well. *)
Theorem C46_refuted : exists l b b' k, NoDup (map fst l) /\ b <> b' /\ is_sublist b l = false /\ is_sublist b' l = true /\
  lookup k (block_settings l b) <> lookup k l.
Proof.
  exists [("modules", Leaf (Str "thermal")); ("eblock-10", Node [("modules", Leaf (Str "porous"))])], "eblock-1", "eblock-10", "modules".
  split; [|split; [|split; [|split]]]; try reflexivity; try (vm_compute; discriminate).
  cbn. repeat constructor; cbn; intuition discriminate.
Qed.

(** A list given for a block replaces the general list of that name as a whole. *)
Theorem C46_lists_replaced : exists l b, NoDup (map fst l) /\ exact_names l b /\
  match lookup "Dirichlet conditions" l, lookup "Dirichlet conditions" (block_settings l b) with
  | Some (Node g), Some (Node s) => lookup "T" g <> None /\ lookup "T" s = None
  | _, _ => False
  end.
Proof.
  exists [("Dirichlet conditions", Node [("T", Leaf (Int 0))]); ("left", Node [("Dirichlet conditions", Node [("p", Leaf (Int 1))])])], "left".
  split; [|split].
  - cbn. repeat constructor; cbn; intuition discriminate.
  - intros n sl [[= <- <-]|[[= <- <-]|[]]]; cbn; [discriminate|auto].
  - cbn. split; [discriminate|reflexivity].
Qed.
Print Assumptions C46_block_settings.
Print Assumptions C46_unnamed.
Print Assumptions C46_refuted.
Print Assumptions C46_lists_replaced.

(** *** C47 *)

(** The value given for the set, else the general one, else the default. *)
Definition pick (k : string) (setl general : plist) (d : node) : node :=
  match lookup k setl with Some a => a | None => match lookup k general with Some a => a | None => d end end.

Lemma get_str_spec n d l s : get_str n d l = Some s -> Leaf (Str s) = match lookup n l with Some a => a | None => Leaf (Str d) end.
Proof. unfold get_str. destruct (lookup n l) as [[[x|x]|x]|]; congruence. Qed.
Lemma get_int_spec n d l s : get_int n d l = Some s -> Leaf (Int s) = match lookup n l with Some a => a | None => Leaf (Int d) end.
Proof. unfold get_int. destruct (lookup n l) as [[[x|x]|x]|]; congruence. Qed.

Ltac step H := match type of H with bind ?o _ = Some _ => let E := fresh "E" in destruct o eqn:E; [cbn [bind] in H|discriminate] end.

(** Every option, with the default the documentation gives it: backward Euler of order one,
    and a start-up like the general scheme. *)
Lemma set_options_spec general setl o : set_options general setl = Some o ->
  let gt := pick kTab general general (Leaf (Str "BWE")) in let go := pick kBdf general general (Leaf (Int 1)) in
  Leaf (Str (b_tab o)) = pick kTab setl general (Leaf (Str "BWE")) /\
  Leaf (Int (b_bdf o)) = pick kBdf setl [] (Leaf (Int 1)) /\
  Leaf (Str (b_stab o)) = pick kSTab setl general gt /\
  Leaf (Int (b_sbdf o)) = pick kSBdf setl general go /\
  Leaf (Int (b_ssteps o)) = pick kSSteps setl general go.
Proof.
  unfold set_options. intros H. do 10 step H. destruct (_ && _); [|discriminate]. injection H as <-. cbn [b_tab b_bdf b_stab b_sbdf b_ssteps].
  repeat match goal with
  | E : get_str _ _ _ = Some _ |- _ => apply get_str_spec in E
  | E : get_int _ _ _ = Some _ |- _ => apply get_int_spec in E
  end.
  unfold pick. cbn [lookup].
  repeat split; (etransitivity; [eassumption|]); match goal with |- match ?a with _ => _ end = _ => destruct a; auto end;
  try (etransitivity; [eassumption|]; match goal with |- match ?a with _ => _ end = _ => destruct a; auto end);
  try (etransitivity; [eassumption|]; match goal with |- match ?a with _ => _ end = _ => destruct a; auto end).
Qed.

(** For the unnamed set: what its block gives, else the general value, else the default. *)
Theorem C47_default_set solver block o : NoDup (map fst solver) -> exact_names solver block ->
  (forall sl, lookup block solver = Some (Node sl) -> NoDup (map fst sl)) ->
  options_of solver "default" block = Some o ->
  let bl := match lookup block solver with Some (Node sl) => sl | _ => [] end in
  let gt := pick kTab [] solver (Leaf (Str "BWE")) in let go := pick kBdf [] solver (Leaf (Int 1)) in
  Leaf (Str (b_tab o)) = pick kTab bl solver (Leaf (Str "BWE")) /\
  Leaf (Int (b_bdf o)) = pick kBdf bl solver (Leaf (Int 1)) /\
  Leaf (Str (b_stab o)) = pick kSTab bl solver gt /\
  Leaf (Int (b_sbdf o)) = pick kSBdf bl solver go /\
  Leaf (Int (b_ssteps o)) = pick kSSteps bl solver go.
Proof.
  intros N X W H. unfold options_of in H. cbn [set_list bind] in H.
  unfold set_list in H. destruct (string_dec "default" "default"); [|congruence]. cbn [bind] in H.
  apply set_options_spec in H. cbv zeta in H |- *.
  assert (P : forall k d, pick k (block_settings solver block) solver d = pick k (match lookup block solver with Some (Node sl) => sl | _ => [] end) solver d).
  { intros k d. unfold pick. rewrite C46_block_settings by auto. destruct (lookup block solver) as [[v|sl]|]; cbn [lookup]; try (destruct (lookup k solver); reflexivity).
    destruct (lookup k sl); auto. destruct (lookup k solver); auto. }
  assert (P' : forall k d, pick k (block_settings solver block) [] d = pick k (match lookup block solver with Some (Node sl) => sl | _ => [] end) solver d).
  { intros k d. unfold pick. rewrite C46_block_settings by auto. destruct (lookup block solver) as [[v|sl]|]; cbn [lookup]; auto.
    destruct (lookup k sl); auto. }
  assert (P2 : forall k d, pick k solver solver d = pick k [] solver d) by (intros; unfold pick; cbn [lookup]; destruct (lookup k solver); auto).
  rewrite ?P, ?P2 in H. rewrite P' in H. exact H.
Qed.

(** For a named set, without settings for its block: every option but the order of the
    backward difference. *)
Theorem C47_named_set_partial solver set block sl o : set <> "default" -> lookup set solver = Some (Node sl) ->
  NoDup (map fst sl) -> exact_names sl block -> is_sublist block sl = false ->
  options_of solver set block = Some o ->
  let gt := pick kTab [] solver (Leaf (Str "BWE")) in let go := pick kBdf [] solver (Leaf (Int 1)) in
  Leaf (Str (b_tab o)) = pick kTab sl solver (Leaf (Str "BWE")) /\
  Leaf (Int (b_bdf o)) = pick kBdf sl [] (Leaf (Int 1)) /\
  Leaf (Str (b_stab o)) = pick kSTab sl solver gt /\
  Leaf (Int (b_sbdf o)) = pick kSBdf sl solver go /\
  Leaf (Int (b_ssteps o)) = pick kSSteps sl solver go.
Proof.
  intros ND L N X S H. unfold options_of, set_list in H. destruct (string_dec set "default"); [congruence|]. rewrite L in H. cbn [bind] in H.
  apply set_options_spec in H. cbv zeta in H |- *.
  assert (P : forall k g d, pick k (block_settings sl block) g d = pick k sl g d).
  { intros k g d. unfold pick. rewrite C46_unnamed by auto. reflexivity. }
  assert (P2 : forall k d, pick k solver solver d = pick k [] solver d) by (intros; unfold pick; cbn [lookup]; destruct (lookup k solver); auto).
  rewrite ?P, ?P2 in H. exact H.
Qed.

(** Accepted options are compatible: a multistep method goes with a one-stage implicit
    scheme or a tableau given by the user. *)
Theorem C47_compatible solver set block o : options_of solver set block = Some o ->
  ((b_bdf o <= 1)%Z \/ In (b_tab o) ["custom"; "BWE"; "DIRK-1,1"]) /\ ((b_sbdf o <= 1)%Z \/ In (b_stab o) ["custom"; "BWE"; "DIRK-1,1"]).
Proof.
  unfold options_of. intros H. step H. unfold set_options in H. do 10 step H.
  destruct (scheme_ok _ _ && scheme_ok _ _) eqn:C; [|discriminate]. injection H as <-. cbn [b_tab b_bdf b_stab b_sbdf].
  assert (G : forall t q, scheme_ok t q = true -> (q <= 1)%Z \/ In t ["custom"; "BWE"; "DIRK-1,1"]).
  { intros t q. unfold scheme_ok. rewrite !orb_true_iff, Z.leb_le, !String.eqb_eq. cbn. intuition. }
  apply andb_true_iff in C as [C1 C2]. split; apply G; auto.
Qed.
Example C47_incompatible : options_of [(kTab, Leaf (Str "RK-4,4")); (kBdf, Leaf (Int 2))] "default" "left" = None.
Proof. reflexivity. Qed.

(** The general order is not used for a named set. *)
Theorem C47_named_order_refuted : exists solver set sl block o, set <> "default" /\ lookup set solver = Some (Node sl) /\
  options_of solver set block = Some o /\ Leaf (Int (b_bdf o)) <> pick kBdf sl solver (Leaf (Int 1)).
Proof.
  exists [(kBdf, Leaf (Int 2)); ("flow", Node [])], "flow", [], "left". eexists.
  split; [discriminate|split; [reflexivity|split; [reflexivity|]]]. cbn. discriminate.
Qed.

Example C47_example : options_of [(kBdf, Leaf (Int 2)); ("left", Node [(kSBdf, Leaf (Int 1))])] "default" "left" =
  Some {| b_tab := "BWE"; b_bdf := 2; b_stab := "BWE"; b_sbdf := 1; b_ssteps := 2 |}.
Proof. reflexivity. Qed.
Example C47_example_named :
  options_of [(kTab, Leaf (Str "DIRK-1,2")); ("flow", Node [(kSSteps, Leaf (Int 3))])] "flow" "left" =
  Some {| b_tab := "DIRK-1,2"; b_bdf := 1; b_stab := "DIRK-1,2"; b_sbdf := 1; b_ssteps := 3 |}.
Proof. reflexivity. Qed.
Print Assumptions C47_default_set.
Print Assumptions C47_named_set_partial.
Print Assumptions C47_compatible.
Print Assumptions C47_named_order_refuted.
