From Coq Require Import Bool Arith Reals Lia Lra Ascii String List.
Import ListNotations.
From Verif Require Import Fields_Model Fields_Spec.
Local Open Scope R_scope.
Local Open Scope string_scope.

(** * Strings *)
Lemma sapp_assoc a b c : (a ++ b) ++ c = a ++ (b ++ c).
Proof. induction a; cbn; congruence. Qed.
Lemma slen_app a b : String.length (a ++ b) = (String.length a + String.length b)%nat.
Proof. induction a; cbn; congruence. Qed.
Lemma sapp_inj_r a : forall b s, a ++ s = b ++ s -> a = b.
Proof.
  induction a as [|c a IH]; intros [|d b] s H; [reflexivity| | |].
  - exfalso. apply (f_equal String.length) in H. cbn in H. rewrite slen_app in H. lia.
  - exfalso. apply (f_equal String.length) in H. cbn in H. rewrite slen_app in H. lia.
  - cbn in H. injection H as -> H. f_equal. exact (IH _ _ H).
Qed.
Lemma sapp_inj_l s : forall a b, s ++ a = s ++ b -> a = b.
Proof. induction s; cbn; intros a' b H; [exact H|]. injection H as H. apply IHs, H. Qed.

Lemma starts_iff p : forall s, starts p s = true <-> exists b, s = p ++ b.
Proof.
  induction p as [|c p IH]; intros s; cbn; [split; [exists s; reflexivity|reflexivity]|].
  destruct s as [|d s]; [split; [discriminate|intros [b H]; discriminate H]|].
  rewrite andb_true_iff, IH, Ascii.eqb_eq. split.
  - intros [-> [b ->]]. exists b. reflexivity.
  - intros [b H]. injection H as -> ->. split; [reflexivity|exists b; reflexivity].
Qed.
Lemma contains_iff p s : contains p s = true <-> piece p s.
Proof.
  induction s as [|c s IH]; cbn [contains]; rewrite orb_true_iff, starts_iff.
  - split.
    + intros [[b H]|H]; [|discriminate]. exists "", b. exact H.
    + intros (a & b & H). left. destruct a; [exists b; exact H|discriminate H].
  - rewrite IH. split.
    + intros [[b H]|(a & b & H)]; [exists "", b; exact H|exists (String c a), b; cbn; rewrite <- H; reflexivity].
    + intros (a & b & H). destruct a as [|x a]; [left; exists b; exact H|].
      right. cbn in H. injection H as _ H. exists a, b. exact H.
Qed.

Fixpoint smem (c : ascii) (s : string) : bool :=
  match s with EmptyString => false | String d r => (Ascii.eqb c d || smem c r)%bool end.
Definition stail (s : string) : string := match s with EmptyString => EmptyString | String _ r => r end.
Lemma starts_cut c b q : smem c q = false -> forall a, starts q (a ++ String c b) = starts q a.
Proof.
  induction q as [|d q IH]; cbn; [reflexivity|]. intros H [|x a]; cbn.
  - apply orb_false_iff in H as [H _]. rewrite Ascii.eqb_sym, H. reflexivity.
  - apply orb_false_iff in H as [_ H]. rewrite IH by exact H. reflexivity.
Qed.
Lemma contains_cut c b p : p <> "" -> smem c (stail p) = false -> forall a,
  contains p (a ++ String c b) = (contains p a || contains p (String c b))%bool.
Proof.
  intros Hp H. induction a as [|x a IH].
  - destruct p; [contradiction|]. reflexivity.
  - cbn [append contains]. rewrite IH, orb_assoc. f_equal. f_equal.
    destruct p as [|d p]; [contradiction|]. cbn in *. rewrite starts_cut by exact H. reflexivity.
Qed.

(** * Names *)
Lemma plain_not v p : plain v -> In p reserved -> contains p v = false.
Proof.
  intros H Hp. destruct (contains p v) eqn:E; [|reflexivity]. apply contains_iff in E. exfalso. exact (H p Hp E).
Qed.
Lemma phase_not v p : contains p v = false -> contains ("phase" ++ p) v = false.
Proof.
  intros H. destruct (contains ("phase" ++ p) v) eqn:E; [|reflexivity].
  apply contains_iff in E as (a & b & E). rewrite <- H. symmetry. apply contains_iff.
  exists (a ++ "phase"), b. rewrite E, !sapp_assoc. reflexivity.
Qed.
Definition patterns := ["[x]"; "[y]"; "[z]"; "[u]"; "[v]"; "[w]"; "grad"; "div"; "curl"; "phasegrad"; "phasediv"; "phasecurl"; "_t"].
Definition marks (e : string) : list bool := map (fun p => contains p e) patterns.
Definition kmarks (k : kind) : list bool := marks (name k "").
Definition kvalid (k : kind) : Prop :=
  match k with Grad d | Comp d | CompDt d | Curl d => (d < 3)%nat | _ => True end.

Lemma marks_name k v : plain v -> kvalid k -> marks (name k v) = kmarks k.
Proof.
  intros Hv Hk.
  assert (H : forall p, In p patterns -> contains p v = false).
  { intros p Hp.
    assert (R : forall q, In q reserved -> contains q v = false) by (intros q Hq; exact (plain_not _ _ Hv Hq)).
    cbn in Hp. repeat (destruct Hp as [<-|Hp]; [try (apply R; cbn; tauto)|]).
    - exact (phase_not v "grad" (R "grad" ltac:(cbn; tauto))).
    - exact (phase_not v "div" (R "div" ltac:(cbn; tauto))).
    - exact (phase_not v "curl" (R "curl" ltac:(cbn; tauto))).
    - contradiction. }
  assert (three : forall d, (d < 3)%nat -> d = 0%nat \/ d = 1%nat \/ d = 2%nat) by (intros; lia).
  assert (cut : forall p c b, In p patterns -> smem c (stail p) = false -> contains p (v ++ String c b) = contains p (String c b)).
  { intros p c b Hp Hc. rewrite contains_cut; [rewrite (H p Hp); reflexivity| |exact Hc].
    intros ->. cbn in Hp. intuition discriminate. }
  unfold kmarks, marks. apply map_ext_in. intros p Hp.
  destruct k as [| |d|d|d| | |d]; cbn [kvalid] in Hk; try (destruct (three d Hk) as [->|[-> | ->]]; clear Hk);
    unfold name, ax;
    match goal with
    | |- contains _ v = _ => rewrite (H p Hp); symmetry
    | _ => idtac
    end;
    cbn in Hp; repeat (destruct Hp as [<-|Hp]; [
      first [reflexivity
            | cbn [append]; rewrite cut by (first [reflexivity|cbn; tauto]); reflexivity
            | cbn [append]; cbn -[append contains]; 
              repeat (cbn [contains]; cbn [starts Ascii.eqb Bool.eqb andb orb]);
              repeat match goal with |- context [contains ?q (v ++ String ?c ?b)] => rewrite (cut q c b) by (first [reflexivity|cbn; tauto]) end; reflexivity
            ]|]); contradiction.
Qed.

Definition kderiv (k : kind) : string :=
  match k with Dt | CompDt _ => "time" | Grad _ => "grad" | Div => "div" | Curl2 | Curl _ => "curl" | _ => "" end.
Definition kcomp (k : kind) : nat :=
  match k with Grad d | Comp d | CompDt d | Curl d => d | _ => 0%nat end.
Lemma parse_name k v : plain v -> kvalid k ->
  parse_derivative (name k v) = kderiv k /\ parse_component (name k v) = kcomp k.
Proof.
  intros Hv Hk. pose proof (marks_name k v Hv Hk) as M.
  assert (three : forall d, (d < 3)%nat -> d = 0%nat \/ d = 1%nat \/ d = 2%nat) by (intros; lia).
  unfold kmarks, marks in M. set (e := name k v) in *. clearbody e.
  unfold patterns in M. cbn [map] in M.
  injection M as M1 M2 M3 M4 M5 M6 M7 M8 M9 M10 M11 M12 M13.
  unfold parse_derivative, parse_component. rewrite M1, M2, M3, M4, M5, M6, M7, M8, M9, M10, M11, M12, M13.
  destruct k as [| |d|d|d| | |d]; cbn [kvalid] in Hk; try (destruct (three d Hk) as [->|[-> | ->]]; clear Hk); split; reflexivity.
Qed.

Lemma name_inj k k' v v' : plain v -> plain v' -> kvalid k -> kvalid k' -> name k v = name k' v' -> k = k' /\ v = v'.
Proof.
  intros Hv Hv' Hk Hk' E.
  assert (K : k = k').
  { pose proof (marks_name k v Hv Hk) as M. rewrite E, (marks_name k' v' Hv' Hk') in M.
    assert (three : forall d, (d < 3)%nat -> d = 0%nat \/ d = 1%nat \/ d = 2%nat) by (intros; lia).
    clear - M Hk Hk' three.
    destruct k as [| |d|d|d| | |d]; cbn [kvalid] in Hk; try (destruct (three d Hk) as [->|[-> | ->]]; clear Hk);
      (destruct k' as [| |d'|d'|d'| | |d']; cbn [kvalid] in Hk'; try (destruct (three d' Hk') as [->|[-> | ->]]; clear Hk'));
      first [reflexivity | discriminate M]. }
  subst k'. split; [reflexivity|].
  destruct k as [| |d|d|d| | |d]; unfold name in E;
    try exact E; try (apply sapp_inj_r in E; exact E);
    apply sapp_inj_l, sapp_inj_r in E; exact E.
Qed.

(** * The lists of fields *)
Lemma starts_label s rest : starts (label_of s) (label_of s ++ rest) = true.
Proof. apply starts_iff. exists rest. reflexivity. Qed.

Lemma volume_in dim v s k : in_space v s -> volume_kind dim s k ->
  In (name k (vname v)) (volume_fields dim (vbtype v) (vname v)).
Proof.
  intros [rest ->] Hk. unfold volume_fields.
  assert (three : forall d, (d < 3)%nat -> d = 0%nat \/ d = 1%nat \/ d = 2%nat) by (intros; lia).
  destruct s; cbn [label_of append starts Ascii.eqb Bool.eqb andb];
    destruct k as [| |d|d|d| | |d]; cbn in Hk; try contradiction;
    try match type of Hk with _ /\ _ => destruct Hk as [Hd Hk] end;
    try (destruct (three d Hk) as [->|[-> | ->]]);
    try (subst dim); try (apply Nat.eqb_neq in Hd; rewrite Hd); cbn; try destruct (dim =? 2)%nat; cbn; tauto.
Qed.
Lemma side_in dim v s k : in_space v s -> side_kind s k ->
  In (name k (vname v)) (side_fields dim (vbtype v) (vname v)).
Proof.
  intros [rest ->] Hk. unfold side_fields.
  assert (three : forall d, (d < 3)%nat -> d = 0%nat \/ d = 1%nat \/ d = 2%nat) by (intros; lia).
  destruct s; cbn [label_of append starts Ascii.eqb Bool.eqb andb];
    destruct k as [| |d|d|d| | |d]; cbn in Hk; try contradiction;
    try (destruct (three d Hk) as [->|[-> | ->]]);
    cbn; tauto.
Qed.
Ltac findk k := exists k; split; [cbn; lia || exact I|reflexivity].
Lemma volume_out dim bt v e : In e (volume_fields dim bt v) -> exists k, kvalid k /\ e = name k v.
Proof.
  unfold volume_fields.
  repeat match goal with |- context [if starts ?a ?b then _ else _] => destruct (starts a b) end; cbn;
    try destruct (dim =? 2)%nat; cbn; intros H;
    repeat (destruct H as [<-|H]; [first
      [findk Val | findk Dt | findk (Grad 0) | findk (Grad 1) | findk (Grad 2) | findk (Comp 0) | findk (Comp 1) | findk (Comp 2)
      |findk (CompDt 0) | findk (CompDt 1) | findk (CompDt 2) | findk Div | findk Curl2 | findk (Curl 0) | findk (Curl 1) | findk (Curl 2)]|]);
    contradiction.
Qed.
Lemma side_out dim bt v e : In e (side_fields dim bt v) -> exists k, kvalid k /\ e = name k v.
Proof.
  unfold side_fields.
  repeat match goal with |- context [if starts ?a ?b then _ else _] => destruct (starts a b) end; cbn;
    try destruct (dim =? 2)%nat; cbn; intros H;
    repeat (destruct H as [<-|H]; [first
      [findk Val | findk (Grad 0) | findk (Grad 1) | findk (Grad 2) | findk (Comp 0) | findk (Comp 1) | findk (Comp 2)
      | findk Div | findk Curl2 | findk (Curl 0) | findk (Curl 1) | findk (Curl 2)]|]);
    contradiction.
Qed.

Lemma enum_iff {A} (l : list A) i x : In (i, x) (enum l) <-> nth_error l i = Some x.
Proof.
  unfold enum. enough (G : forall k, In (i, x) (combine (seq k (List.length l)) l) <-> (k <= i)%nat /\ nth_error l (i - k) = Some x).
  { rewrite G, Nat.sub_0_r. intuition lia. }
  induction l as [|y l IH]; intros k; cbn.
  - split; [tauto|]. intros [_ H]. destruct (i - k)%nat; discriminate.
  - rewrite IH. split.
    + intros [H|[H1 H2]].
      * injection H as -> ->. rewrite Nat.sub_diag. split; [lia|reflexivity].
      * split; [lia|]. replace (i - k)%nat with (S (i - S k)) by lia. exact H2.
    + intros [H1 H2]. destruct (Nat.eq_dec i k) as [->|D].
      * left. rewrite Nat.sub_diag in H2. cbn in H2. congruence.
      * right. replace (i - k)%nat with (S (i - S k)) in H2 by lia. split; [lia|exact H2].
Qed.

(** where a variable lives: in a set, or among the parameters *)
Definition at_home (sets : list (list variable)) (params : list variable) (v : variable) (ty : string) (s i : nat) : Prop :=
  (ty = "solution" /\ exists vs, nth_error sets s = Some vs /\ nth_error vs i = Some v) \/
  (ty = "param" /\ s = 0%nat /\ nth_error params i = Some v).
Lemma create_iff fields dim sets params f : In f (create fields dim sets params) <->
  exists v ty s i e, at_home sets params v ty s i /\ In e (fields dim (vbtype v) (vname v)) /\ f = new_field s ty i e.
Proof.
  unfold create. rewrite in_app_iff, !in_flat_map. split.
  - intros [([s vs] & H1 & H2)|([i v] & H1 & H2)].
    + apply enum_iff in H1. apply in_flat_map in H2 as ([i v] & H2 & H3). apply enum_iff in H2.
      apply in_map_iff in H3 as (e & <- & H3).
      exists v, "solution", s, i, e. split; [left; split; [reflexivity|exists vs; tauto]|tauto].
    + apply enum_iff in H1. apply in_map_iff in H2 as (e & <- & H2).
      exists v, "param", 0%nat, i, e. split; [right; tauto|tauto].
  - intros (v & ty & s & i & e & [[-> (vs & H1 & H2)]|(-> & -> & H1)] & H3 & ->).
    + left. exists (s, vs). split; [apply enum_iff, H1|]. apply in_flat_map. exists (i, v).
      split; [apply enum_iff, H2|]. apply in_map, H3.
    + right. exists (i, v). split; [apply enum_iff, H1|]. apply in_map, H3.
Qed.

(** with distinct names, a name determines the variable and its home *)
Lemma home_inj sets params v ty s i v' ty' s' i' : NoDup (all_names sets params) ->
  at_home sets params v ty s i -> at_home sets params v' ty' s' i' -> vname v = vname v' ->
  v = v' /\ ty = ty' /\ s = s' /\ i = i'.
Proof.
  intros N H H' E. unfold all_names in N. rewrite map_app in N.
  assert (inset : forall s i vs v, nth_error sets s = Some vs -> nth_error vs i = Some v -> In (vname v) (map vname (concat sets))).
  { intros s0 i0 vs0 v0 A B. apply in_map, in_concat. exists vs0. split; eapply nth_error_In; eassumption. }
  assert (app_disj : forall (a b : list string) x, NoDup (a ++ b)%list -> In x a -> In x b -> False).
  { induction a as [|y a IH]; cbn; [tauto|]. intros b x ND [->|Ha] Hb; inversion ND; subst.
    - apply H2. apply in_app_iff. tauto.
    - exact (IH _ _ H3 Ha Hb). }
  assert (app_l : forall (a b : list string), NoDup (a ++ b)%list -> NoDup a).
  { induction a as [|y a IH]; cbn; intros b ND; [constructor|]. inversion ND; subst. constructor; [|exact (IH _ H3)].
    intros C. apply H2, in_app_iff. tauto. }
  assert (app_r : forall (a b : list string), NoDup (a ++ b)%list -> NoDup b).
  { induction a as [|y a IH]; cbn; intros b ND; [exact ND|]. inversion ND; subst. exact (IH _ H3). }
  assert (pos : forall vs i j v v', NoDup (map vname vs) -> nth_error vs i = Some v -> nth_error vs j = Some v' -> vname v = vname v' -> i = j).
  { intros vs i0 j0 v0 v1 ND A B C. apply (proj1 (NoDup_nth_error (map vname vs)) ND).
    - rewrite map_length. apply nth_error_Some. rewrite A. discriminate.
    - rewrite (map_nth_error vname _ _ A), (map_nth_error vname _ _ B), C. reflexivity. }
  destruct H as [[-> (vs & A & B)]|(-> & -> & A)], H' as [[-> (vs' & A' & B')]|(-> & -> & A')].
  - pose proof (app_l _ _ N) as N1. clear N.
    assert (S : s = s' /\ i = i').
    { clear - N1 A B A' B' E app_disj app_l app_r pos. revert s s' A A'.
      induction sets as [|w sets IH]; intros [|s] [|s'] A A'; cbn in A, A'; try discriminate.
      - injection A as ->. injection A' as ->. cbn in N1. rewrite map_app in N1.
        split; [reflexivity|]. exact (pos _ _ _ _ _ (app_l _ _ N1) B B' E).
      - injection A as ->. exfalso. cbn in N1. rewrite map_app in N1.
        apply (app_disj _ _ (vname v) N1); [apply in_map; eapply nth_error_In; eassumption|].
        rewrite E. apply in_map, in_concat. exists vs'. split; eapply nth_error_In; eassumption.
      - injection A' as ->. exfalso. cbn in N1. rewrite map_app in N1.
        apply (app_disj _ _ (vname v') N1); [apply in_map; eapply nth_error_In; eassumption|].
        rewrite <- E. apply in_map, in_concat. exists vs. split; eapply nth_error_In; eassumption.
      - cbn in N1. rewrite map_app in N1. destruct (IH (app_r _ _ N1) _ _ A A') as [-> ->]. tauto. }
    destruct S as [-> ->]. rewrite A in A'. injection A' as ->. rewrite B in B'. injection B' as ->. tauto.
  - exfalso. apply (app_disj _ _ (vname v) N); [exact (inset _ _ _ _ A B)|]. rewrite E. apply in_map. eapply nth_error_In, A'.
  - exfalso. apply (app_disj _ _ (vname v') N); [exact (inset _ _ _ _ A' B')|]. rewrite <- E. apply in_map. eapply nth_error_In, A.
  - pose proof (pos _ _ _ _ _ (app_r _ _ N) A A' E) as ->. rewrite A in A'. injection A' as ->. tauto.
Qed.

(** * Histories *)
Definition same_attr (f g : sfield) : Prop :=
  expression f = expression g /\ vartype f = vartype g /\ set_index f = set_index g /\ var_index f = var_index g /\
  derivative_type f = derivative_type g /\ component f = component g.
Lemma same_attr_refl f : same_attr f f. Proof. repeat split. Qed.
Lemma same_attr_trans f g h : same_attr f g -> same_attr g h -> same_attr f h.
Proof. intros (A1 & A2 & A3 & A4 & A5 & A6) (B1 & B2 & B3 & B4 & B5 & B6). repeat split; congruence. Qed.

(** the value an evaluation gives *)
Definition blank (f : sfield) : sfield := set_data f (fun _ => 0) false.
(** [ev] evaluates a field without looking at its data, and leaves it alone where it does not apply *)
Definition evaluator (ev : sfield -> sfield) (go : sfield -> bool) : Prop :=
  (forall f, same_attr (ev f) f) /\
  (forall f g, same_attr f g -> go f = go g) /\
  (forall f, go f = true -> updated (ev f) = true /\ forall pt, data (ev f) pt = data (ev (blank f)) pt) /\
  (forall f, go f = false -> ev f = f).
Definition fresh (ev : sfield -> sfield) (go : sfield -> bool) (f : sfield) : Prop :=
  if go f then updated f = true -> forall pt, data f pt = data (ev (blank f)) pt
  else updated f = false /\ forall pt, data f pt = 0.

Lemma get_in_ok ev go label : evaluator ev go -> forall l, Forall (fresh ev go) l -> In label (map expression l) ->
  exists d l' f, get_in ev label l = Some (d, l') /\ Forall (fresh ev go) l' /\ Forall2 same_attr l' l /\
    In f l /\ expression f = label /\ forall pt, d pt = data (ev (blank f)) pt.
Proof.
  intros (E1 & E2 & E3 & E4). 
  assert (refl2 : forall l, Forall2 same_attr l l) by (induction l; constructor; [apply same_attr_refl|assumption]).
  induction l as [|f l IH]; cbn [map In get_in]; [tauto|]. intros HF HI.
  inversion HF as [|? ? Hf Hl]; subst.
  destruct (String.eqb_spec label (expression f)) as [->|N].
  - eexists _, _, f. split; [reflexivity|].
    assert (K : fresh ev go (if updated f then f else ev f) /\ same_attr (if updated f then f else ev f) f /\
                forall pt, data (if updated f then f else ev f) pt = data (ev (blank f)) pt).
    { destruct (updated f) eqn:U; unfold fresh in Hf.
      - destruct (go f) eqn:G.
        + split; [unfold fresh; rewrite G; exact Hf|]. split; [apply same_attr_refl|exact (Hf U)].
        + exfalso. destruct Hf as [Hf _]. congruence.
      - destruct (go f) eqn:G.
        + destruct (E3 f G) as [V W]. split; [|split; [apply E1|exact W]].
          unfold fresh. rewrite (E2 _ f (E1 f)), G. intros _ pt. rewrite W.
          destruct (E3 (ev f)) as [_ X]; [rewrite (E2 _ f (E1 f)); exact G|].
          (* the evaluation of a blank field depends on its attributes only *)
          enough (Y : blank (ev f) = blank f) by (rewrite Y; reflexivity).
          destruct (E1 f) as (A1 & A2 & A3 & A4 & A5 & A6). unfold blank, set_data. congruence.
        + rewrite (E4 f G). split; [unfold fresh; rewrite G; exact Hf|]. split; [apply same_attr_refl|].
          intros pt. rewrite (E4 (blank f)) by (rewrite (E2 _ f) by (repeat split); exact G). exact (proj2 Hf pt). }
    destruct K as (K1 & K2 & K3). split; [constructor; assumption|]. split; [constructor; [exact K2|apply refl2]|].
    split; [left; reflexivity|]. split; [reflexivity|exact K3].
  - destruct HI as [HI|HI]; [congruence|]. destruct (IH Hl HI) as (d & l' & g & -> & F1 & F2 & F3 & F4 & F5).
    exists d, (f :: l'), g. split; [reflexivity|]. split; [constructor; assumption|].
    split; [constructor; [apply same_attr_refl|exact F2]|]. split; [right; exact F3|]. tauto.
Qed.
Lemma get_in_none ev label l : ~ In label (map expression l) -> get_in ev label l = None.
Proof.
  induction l as [|f l IH]; cbn; [reflexivity|]. intros H. destruct (String.eqb_spec label (expression f)) as [E|_]; [exfalso; apply H; left; congruence|].
  rewrite IH by tauto. reflexivity.
Qed.

Definition go_volume (st : fstate) (f : sfield) : bool :=
  (negb (String.eqb (derivative_type f) "time" && (negb (f_transient st) || on_side st || String.eqb (vartype f) "param"))
                  && negb (String.eqb (vartype f) "aux"))%bool.
Lemma coefs_attr st f g : same_attr f g -> coefs st f = coefs st g /\ basis_of st f = basis_of st g.
Proof. intros (A1 & A2 & A3 & A4 & A5 & A6). unfold coefs, basis_of. rewrite A2, A3, A4, A5. tauto. Qed.
Lemma go_attr st f g : same_attr f g -> go_volume st f = go_volume st g.
Proof. intros (A1 & A2 & A3 & A4 & A5 & A6). unfold go_volume. rewrite A2, A5. reflexivity. Qed.
Lemma eval_volume_ok st : evaluator (eval_volume st) (go_volume st).
Proof.
  split; [|split; [|split]].
  - intros f. unfold eval_volume. destruct (_ && _)%bool; [|apply same_attr_refl].
    destruct (String.eqb (derivative_type f) "div"); [repeat split|].
    destruct (String.eqb (derivative_type f) "grad"), (String.eqb (derivative_type f) "curl"); cbn [fst snd];
      match goal with |- context [if (?a <=? ?b)%nat then _ else _] => destruct (a <=? b)%nat end; repeat split.
  - apply go_attr.
  - intros f G. change (go_volume st f = true) in G.
    unfold eval_volume. fold (go_volume st f). change (derivative_type (blank f)) with (derivative_type f).
    change (vartype (blank f)) with (vartype f). fold (go_volume st f). rewrite G.
    destruct (coefs_attr st (blank f) f) as [-> ->]; [repeat split|].
    change (component (blank f)) with (component f).
    destruct (String.eqb (derivative_type f) "div"); [split; reflexivity|].
    destruct (String.eqb (derivative_type f) "grad"), (String.eqb (derivative_type f) "curl"); cbn [fst snd];
      match goal with |- context [if (?a <=? ?b)%nat then _ else _] => destruct (a <=? b)%nat end; split; reflexivity.
  - intros f G. unfold eval_volume. fold (go_volume st f). rewrite G. reflexivity.
Qed.
Lemma eval_side_ok st : evaluator (eval_side st) (go_volume st).
Proof.
  split; [|split; [|split]].
  - intros f. unfold eval_side. destruct (_ && _)%bool; [|apply same_attr_refl].
    destruct (String.eqb (derivative_type f) "div"); [repeat split|].
    destruct (String.eqb (derivative_type f) "grad"); cbn [fst snd];
      match goal with |- context [if (?a <=? ?b)%nat then _ else _] => destruct (a <=? b)%nat end; repeat split.
  - apply go_attr.
  - intros f G. change (go_volume st f = true) in G.
    unfold eval_side. fold (go_volume st f). change (derivative_type (blank f)) with (derivative_type f).
    change (vartype (blank f)) with (vartype f). fold (go_volume st f). rewrite G.
    destruct (coefs_attr st (blank f) f) as [-> ->]; [repeat split|].
    change (component (blank f)) with (component f).
    destruct (String.eqb (derivative_type f) "div"); [split; reflexivity|].
    destruct (String.eqb (derivative_type f) "grad"); cbn [fst snd];
      match goal with |- context [if (?a <=? ?b)%nat then _ else _] => destruct (a <=? b)%nat end; split; reflexivity.
  - intros f G. unfold eval_side. fold (go_volume st f). rewrite G. reflexivity.
Qed.

(** the two views of a state: in the interior, on a side *)
Definition off (st : fstate) := set_side st false.
Definition onn (st : fstate) := set_side st true.
Record good (dim : nat) (sets : list (list variable)) (params : list variable) (tr : bool) (st : fstate) : Prop := {
  g_sets : f_sets st = sets; g_params : f_params st = params; g_tr : f_transient st = tr;
  g_vol : Forall2 same_attr (soln_fields st) (create volume_fields dim sets params);
  g_side : Forall2 same_attr (side_soln_fields st) (create side_fields dim sets params);
  g_fv : Forall (fresh (eval_volume (off st)) (go_volume (off st))) (soln_fields st);
  g_fs : Forall (fresh (eval_side (onn st)) (go_volume (onn st))) (side_soln_fields st) }.

Lemma attr_refl2 l : Forall2 same_attr l l.
Proof. induction l; constructor; [apply same_attr_refl|assumption]. Qed.
Lemma attr_trans2 a b c : Forall2 same_attr a b -> Forall2 same_attr b c -> Forall2 same_attr a c.
Proof.
  intros H. revert c. induction H; intros c HC; inversion HC; subst; constructor; [eapply same_attr_trans; eassumption|auto].
Qed.
Lemma attr_expr l l' : Forall2 same_attr l l' -> map expression l = map expression l'.
Proof. induction 1 as [|? ? ? ? H ? IH]; cbn; [reflexivity|]. rewrite IH. destruct H as [-> _]. reflexivity. Qed.
Lemma attr_in l l' f : Forall2 same_attr l l' -> In f l -> exists g, In g l' /\ same_attr f g.
Proof. induction 1 as [|x y ? ? H ? IH]; cbn; [tauto|]. intros [<-|I]; [exists y; tauto|]. destruct (IH I) as (g & ? & ?). exists g; tauto. Qed.

Lemma new_good dim sets params tr e : good dim sets params tr (new_state dim sets params tr e).
Proof.
  constructor; try reflexivity; try apply attr_refl2; apply Forall_forall; intros f Hf; cbn in Hf;
    apply create_iff in Hf as (v & ty & s & i & ex & _ & _ & ->); unfold fresh; destruct (go_volume _ _); cbn; try discriminate; tauto.
Qed.
Lemma get_good dim sets params tr st label : good dim sets params tr st ->
  (forall d st', get st label = Some (d, st') -> good dim sets params tr st' /\ on_side st' = on_side st /\ env st' = env st).
Proof.
  intros G d st' H. destruct G as [G1 G2 G3 G4 G5 G6 G7]. unfold get in H. destruct st as [fs fp ft os ev vl sl]. cbn in *.
  destruct os; cbn in H.
  - destruct (in_dec string_dec label (map expression sl)) as [I|I].
    + destruct (get_in_ok _ _ label (eval_side_ok (onn {| f_sets := fs; f_params := fp; f_transient := ft; on_side := true; env := ev; soln_fields := vl; side_soln_fields := sl |})) sl G7 I)
        as (d0 & l' & f & E & F1 & F2 & _).
      unfold onn, set_side in E. cbn in E. rewrite E in H. injection H as <- <-. split; [|split; reflexivity].
      constructor; cbn; try assumption. eapply attr_trans2; eassumption.
    + rewrite get_in_none in H by exact I. discriminate.
  - destruct (in_dec string_dec label (map expression vl)) as [I|I].
    + destruct (get_in_ok _ _ label (eval_volume_ok (off {| f_sets := fs; f_params := fp; f_transient := ft; on_side := false; env := ev; soln_fields := vl; side_soln_fields := sl |})) vl G6 I)
        as (d0 & l' & f & E & F1 & F2 & _).
      unfold off, set_side in E. cbn in E. rewrite E in H. injection H as <- <-. split; [|split; reflexivity].
      constructor; cbn; try assumption. eapply attr_trans2; eassumption.
    + rewrite get_in_none in H by exact I. discriminate.
Qed.

Lemma load_good dim sets params tr st e : good dim sets params tr st -> good dim sets params tr (load st e).
Proof.
  intros [G1 G2 G3 G4 G5 G6 G7]. destruct st as [fs fp ft os ev vl sl]. cbn in *.
  assert (A : forall l, Forall2 same_attr (map (fun f => set_data f (data f) false) l) l)
    by (induction l; cbn; constructor; [repeat split|assumption]).
  constructor; cbn; try assumption; try (eapply attr_trans2; [apply A|assumption]);
    apply Forall_forall; intros f Hf; apply in_map_iff in Hf as (g & <- & Hg);
    [rewrite Forall_forall in G6; specialize (G6 g Hg); clear - G6; rename G6 into G
    |rewrite Forall_forall in G7; specialize (G7 g Hg); clear - G7; rename G7 into G];
    unfold fresh in *;
    match goal with |- context [go_volume ?s ?x] => change (go_volume s x) with (go_volume s g) end;
    match type of G with context [go_volume ?s g] =>
      match goal with |- context [go_volume ?s' g] => change (go_volume s' g) with (go_volume s g) end; destruct (go_volume s g) end;
    cbn; try discriminate; tauto.
Qed.
Lemma step_good dim sets params tr st o : good dim sets params tr st -> good dim sets params tr (fstep st o) /\
  env (fstep st o) = last_load (env st) [o] /\ on_side (fstep st o) = last_side (on_side st) [o].
Proof.
  intros G. destruct o; cbn [fstep last_load last_side].
  - split; [apply load_good, G|]. split; reflexivity.
  - split; [|split; reflexivity]. destruct G as [G1 G2 G3 G4 G5 G6 G7]. constructor; assumption.
  - destruct (get st label) as [[d st']|] eqn:E; [|tauto]. destruct (get_good _ _ _ _ _ _ G _ _ E) as (? & ? & ?). tauto.
Qed.
Lemma history_good dim sets params tr ops : forall st, good dim sets params tr st ->
  good dim sets params tr (fold_left fstep ops st) /\
  env (fold_left fstep ops st) = last_load (env st) ops /\ on_side (fold_left fstep ops st) = last_side (on_side st) ops.
Proof.
  induction ops as [|o ops IH]; intros st G; [cbn; tauto|]. cbn [fold_left].
  destruct (step_good _ _ _ _ _ o G) as (G' & E & S). destruct (IH _ G') as (H1 & H2 & H3).
  split; [exact H1|]. rewrite H2, H3, E, S. destruct o; split; reflexivity.
Qed.

(** the answer to a request *)
Lemma get_volume dim sets params tr st label : good dim sets params tr st -> on_side st = false ->
  In label (map expression (create volume_fields dim sets params)) ->
  exists d st' f, get st label = Some (d, st') /\ In f (create volume_fields dim sets params) /\ expression f = label /\
    forall pt, d pt = data (eval_volume st f) pt.
Proof.
  intros [G1 G2 G3 G4 G5 G6 G7] O I. destruct st as [fs fp ft os ev vl sl]. cbn in *. subst os.
  rewrite <- (attr_expr _ _ G4) in I.
  destruct (get_in_ok _ _ label (eval_volume_ok (off {| f_sets := fs; f_params := fp; f_transient := ft; on_side := false; env := ev; soln_fields := vl; side_soln_fields := sl |})) vl G6 I)
    as (d & l' & f & E & F1 & F2 & F3 & F4 & F5).
  destruct (attr_in _ _ _ G4 F3) as (g & Hg & A). unfold get. cbn. unfold off, set_side in E. cbn in E. rewrite E.
  eexists _, _, g. split; [reflexivity|]. split; [exact Hg|]. split; [destruct A as [<- _]; exact F4|].
  intros pt. rewrite F5. assert (B : blank f = g); [|rewrite B; reflexivity].
  apply create_iff in Hg as (v & ty & s & i & ex & _ & _ & ->). destruct A as (A1 & A2 & A3 & A4 & A5 & A6).
  unfold blank, set_data, new_field in *. cbn in *. congruence.
Qed.
Lemma get_side dim sets params tr st label : good dim sets params tr st -> on_side st = true ->
  In label (map expression (create side_fields dim sets params)) ->
  exists d st' f, get st label = Some (d, st') /\ In f (create side_fields dim sets params) /\ expression f = label /\
    forall pt, d pt = data (eval_side st f) pt.
Proof.
  intros [G1 G2 G3 G4 G5 G6 G7] O I. destruct st as [fs fp ft os ev vl sl]. cbn in *. subst os.
  rewrite <- (attr_expr _ _ G5) in I.
  destruct (get_in_ok _ _ label (eval_side_ok (onn {| f_sets := fs; f_params := fp; f_transient := ft; on_side := true; env := ev; soln_fields := vl; side_soln_fields := sl |})) sl G7 I)
    as (d & l' & f & E & F1 & F2 & F3 & F4 & F5).
  destruct (attr_in _ _ _ G5 F3) as (g & Hg & A). unfold get. cbn. unfold onn, set_side in E. cbn in E. rewrite E.
  eexists _, _, g. split; [reflexivity|]. split; [exact Hg|]. split; [destruct A as [<- _]; exact F4|].
  intros pt. rewrite F5. assert (B : blank f = g); [|rewrite B; reflexivity].
  apply create_iff in Hg as (v & ty & s & i & ex & _ & _ & ->). destruct A as (A1 & A2 & A3 & A4 & A5 & A6).
  unfold blank, set_data, new_field in *. cbn in *. congruence.
Qed.

Lemma dofsum_upto n g : (1 <= n)%nat -> dofsum n g = upto n g.
Proof.
  intros H. unfold dofsum. destruct n as [|n]; [lia|]. clear H. replace (S n - 1)%nat with n by lia.
  induction n as [|n IH]; [cbn; ring|]. rewrite seq_S, fold_left_app, IH. cbn [fold_left upto]. reflexivity.
Qed.

Lemma home_of sets params tr e v u udot : unknown sets params tr e v u udot ->
  exists ty s i, at_home sets params v ty s i /\
    u = (if String.eqb ty "param" then pvals e i else sol_vals e s i) /\
    udot = (if (tr && negb (String.eqb ty "param"))%bool then sol_dot_vals e s i else fun _ => 0).
Proof.
  intros [(s & i & vs & A & B & -> & ->)|(i & A & -> & ->)].
  - exists "solution", s, i. split; [left; split; [reflexivity|exists vs; tauto]|]. cbn. rewrite andb_true_r. tauto.
  - exists "param", 0%nat, i. split; [right; tauto|]. cbn. rewrite andb_false_r. tauto.
Qed.
Lemma home_basis sets params v ty s i : at_home sets params v ty s i ->
  (ty = "solution" \/ ty = "param") /\
  (if String.eqb ty "param" then vbasis (nth i params dummy) else vbasis (nth i (nth s sets []) dummy)) = vbasis v.
Proof.
  intros [[-> (vs & A & B)]|(-> & -> & A)]; cbn.
  - split; [tauto|]. rewrite (nth_error_nth _ _ _ A), (nth_error_nth _ _ _ B). reflexivity.
  - split; [tauto|]. rewrite (nth_error_nth _ _ _ A). reflexivity.
Qed.
Lemma home_named sets params v ty s i : at_home sets params v ty s i -> In (vname v) (all_names sets params).
Proof.
  intros H. apply in_map, in_app_iff. destruct H as [[_ (vs & A & B)]|(_ & _ & A)].
  - left. apply in_concat. exists vs. split; eapply nth_error_In; eassumption.
  - right. eapply nth_error_In, A.
Qed.

Lemma part_leb n d r : (if (n <=? d)%nat then 0 else r) = part n d r.
Proof.
  unfold part. destruct (Nat.leb_spec n d), (Nat.ltb_spec d n); try lia; reflexivity.
Qed.
Lemma sum_zero n phi : upto n (fun i => 0 * phi i) = 0.
Proof. induction n as [|n IH]; cbn; [reflexivity|]. rewrite IH. ring. Qed.

(** evaluation of a new field, by its attributes *)
Lemma eval_new dim sets params tr st v ty s i k ex u udot :
  good dim sets params tr st -> on_side st = false -> at_home sets params v ty s i ->
  u = (if String.eqb ty "param" then pvals (env st) i else sol_vals (env st) s i) ->
  udot = (if (tr && negb (String.eqb ty "param"))%bool then sol_dot_vals (env st) s i else fun _ => 0) ->
  (1 <= nb (env st) (vbasis v))%nat ->
  parse_derivative ex = kderiv k -> parse_component ex = kcomp k ->
  forall pt, data (eval_volume st (new_field s ty i ex)) pt = wanted (env st) (vbasis v) u udot k pt.
Proof.
  intros [G1 G2 G3 _ _ _ _] O H -> -> Hn Pd Pc pt.
  destruct (home_basis _ _ _ _ _ _ H) as [T B].
  unfold eval_volume, basis_of, coefs. cbn [vartype set_index var_index derivative_type component new_field].
  rewrite Pd, Pc, G1, G2, G3, O, B.
  assert (D : forall n d (c : nat -> R) (phi : nat -> nat -> R), 
     data (if (n <=? d)%nat then set_data (new_field s ty i ex) (fun _ => 0) true
      else set_data (new_field s ty i ex) (fun p => dofsum (nb (env st) (vbasis v)) (fun j => c j * phi j p)) true) pt =
     part n d (expand (nb (env st) (vbasis v)) c (fun j => phi j pt))).
  { intros n d c phi. rewrite <- part_leb. destruct (n <=? d)%nat; cbn; [reflexivity|]. apply dofsum_upto, Hn. }
  assert (Z : forall n d (phi : nat -> R), part n d (expand (nb (env st) (vbasis v)) (fun _ => 0) phi) = 0).
  { intros n d phi. unfold part, expand. rewrite sum_zero. destruct (_ <? _)%nat; reflexivity. }
  destruct T as [-> | ->]; destruct k as [| |d|d|d| | |d]; destruct tr;
    cbn [kderiv kcomp String.eqb Ascii.eqb Bool.eqb negb andb orb wanted];
    try (rewrite D; reflexivity);
    try (cbn; rewrite Z; reflexivity);
    (cbn; apply dofsum_upto, Hn).
Qed.
Lemma eval_new_side dim sets params tr st v ty s i k ex u :
  good dim sets params tr st -> at_home sets params v ty s i ->
  u = (if String.eqb ty "param" then pvals (env st) i else sol_vals (env st) s i) ->
  (1 <= nb (env st) (vbasis v))%nat ->
  parse_derivative ex = kderiv k -> parse_component ex = kcomp k ->
  match k with Val | Comp _ | Grad _ => True | _ => False end ->
  forall pt, data (eval_side st (new_field s ty i ex)) pt = wanted_side (env st) (vbasis v) u k pt.
Proof.
  intros [G1 G2 G3 _ _ _ _] H -> Hn Pd Pc K pt.
  destruct (home_basis _ _ _ _ _ _ H) as [T B].
  unfold eval_side, basis_of, coefs. cbn [vartype set_index var_index derivative_type component new_field].
  rewrite Pd, Pc, G1, G2, B.
  assert (D : forall n d (c : nat -> R) (phi : nat -> nat -> R), 
     data (if (n <=? d)%nat then set_data (new_field s ty i ex) (fun _ => 0) true
      else set_data (new_field s ty i ex) (fun p => dofsum (nb (env st) (vbasis v)) (fun j => c j * phi j p)) true) pt =
     part n d (expand (nb (env st) (vbasis v)) c (fun j => phi j pt))).
  { intros n d c phi. rewrite <- part_leb. destruct (n <=? d)%nat; cbn; [reflexivity|]. apply dofsum_upto, Hn. }
  destruct T as [-> | ->]; destruct k as [| |d|d|d| | |d]; try contradiction;
    cbn [kderiv kcomp String.eqb Ascii.eqb Bool.eqb negb andb orb wanted_side]; rewrite D; reflexivity.
Qed.
