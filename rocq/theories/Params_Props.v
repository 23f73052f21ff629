(** C41: scalar parameters. *)
From Coq Require Import Bool Arith Lia String List.
From Verif Require Import Params_Model.
Import ListNotations.

Section Props.
Context {V : Type}.

(** *** Specification: for each time and class, a vector *)

(** A layout gives the class and the number of components of every parameter. *)
Definition layout := list (nat * nat).
Definition class_size (t : nat) (l : layout) : nat :=
  fold_right (fun e n => if fst e =? t then snd e + n else n) 0 l.

Definition has_layout (l : layout) (s : pman V) : Prop :=
  ptypes s = map fst l /\ Forall (fun ps => map (@length V) ps = map snd l) (pvals s).

(** *** One time *)

Lemma fill_spec t : forall l (ps : list (list V)) vec, map (@length V) ps = map snd l -> class_size t l <= length vec ->
  exists ps', fill t (map fst l) ps vec = Some ps' /\ map (@length V) ps' = map snd l /\
    collect t (map fst l) ps' = firstn (class_size t l) vec /\
    (forall t', t' <> t -> collect t' (map fst l) ps' = collect t' (map fst l) ps).
Proof.
  induction l as [|[ty n] l IH]; intros [|p ps] vec H L; try discriminate.
  - exists []. repeat split.
  - cbn in H. injection H as H1 H2. cbn [map fst snd class_size fold_right] in *. cbn [fill]. fold (class_size t l) in *.
    destruct (Nat.eqb_spec ty t) as [->|N].
    + destruct (Nat.ltb_spec (length vec) (length p)); [lia|].
      destruct (IH ps (skipn (length p) vec) H2) as (ps' & E & M & C & O); [rewrite skipn_length; lia|].
      rewrite E. cbn [option_map]. eexists. split; [reflexivity|]. split; [|split].
      * cbn. rewrite M, firstn_length. f_equal. lia.
      * cbn [collect]. rewrite Nat.eqb_refl, C, <- H1.
        replace (length p + class_size t l) with (length p + class_size t l) by auto.
        clear. revert vec. induction (length p) as [|k IH]; intros [|v vec]; auto; [cbn; rewrite firstn_nil; auto|]. cbn. f_equal. apply IH.
      * intros t' Ht. cbn [collect]. destruct (Nat.eqb_spec t t'); [congruence|]. rewrite O by auto. auto.
    + destruct (IH ps vec H2 L) as (ps' & E & M & C & O). rewrite E. cbn [option_map]. eexists. split; [reflexivity|]. split; [|split].
      * cbn. rewrite M, H1. auto.
      * cbn [collect]. destruct (Nat.eqb_spec ty t); [congruence|]. auto.
      * intros t' Ht. cbn [collect]. rewrite O by auto. auto.
Qed.

Lemma collect_length t : forall l (ps : list (list V)), map (@length V) ps = map snd l -> length (collect t (map fst l) ps) = class_size t l.
Proof.
  induction l as [|[ty n] l IH]; intros [|p ps] H; try discriminate; auto. cbn in H. injection H as H1 H2. cbn [map fst collect class_size fold_right].
  rewrite app_length, IH by auto. cbn [fst snd]. fold (class_size t l). destruct (ty =? t); cbn; lia.
Qed.

Lemma fill_length t : forall types (ps ps' : list (list V)) vec, fill t types ps vec = Some ps' -> map (@length V) ps' = map (@length V) ps.
Proof.
  induction types as [|ty types IH]; intros [|p ps] ps' vec H; cbn [fill] in H; try discriminate; try (injection H as <-; auto; fail).
  destruct (ty =? t).
  - destruct (Nat.ltb_spec (length vec) (length p)); [discriminate|]. destruct (fill t types ps (skipn (length p) vec)) as [q|] eqn:E; [|discriminate].
    injection H as <-. cbn. rewrite (IH _ _ _ E), firstn_length. f_equal. lia.
  - destruct (fill t types ps vec) as [q|] eqn:E; [|discriminate]. injection H as <-. cbn. rewrite (IH _ _ _ E). auto.
Qed.

(** *** Histories *)

Lemma set_nth_nth {A} i (a : A) l j : i < length l -> nth_error (set_nth i a l) j = if j =? i then Some a else nth_error l j.
Proof.
  revert i j. induction l as [|b l IH]; intros i j H; cbn in H; [lia|]. destruct i as [|i]; cbn [set_nth].
  - destruct j; reflexivity.
  - destruct j as [|j]; cbn; auto. rewrite IH by lia. reflexivity.
Qed.
Lemma set_nth_length {A} i (a : A) l : length (set_nth i a l) = length l.
Proof. revert i. induction l as [|b l IH]; intros [|i]; cbn; auto. Qed.

(** The vector of a class at a time. *)
Definition value (s : pman V) (i t : nat) : option (list V) := option_map (collect t (ptypes s)) (nth_error (pvals s) i).

Lemma layout_nth l s i ps : has_layout l s -> nth_error (pvals s) i = Some ps -> map (@length V) ps = map snd l.
Proof. intros [_ H] E. rewrite Forall_forall in H. apply H. eapply nth_error_In; eauto. Qed.

Lemma with_layout l s vs : has_layout l s -> Forall (fun ps => map (@length V) ps = map snd l) vs -> has_layout l (with_vals s vs).
Proof. intros [H _] F. split; auto. Qed.

Lemma update_at_spec l s i vec t : has_layout l s -> i < length (pvals s) -> length vec = class_size t l ->
  exists s', update_at i vec t s = Some s' /\ has_layout l s' /\ length (pvals s') = length (pvals s) /\
    value s' i t = Some vec /\ (forall j t', (j, t') <> (i, t) -> value s' j t' = value s j t').
Proof.
  intros HL Hi HV. destruct (nth_error (pvals s) i) as [ps|] eqn:E; [|apply nth_error_None in E; lia].
  pose proof (layout_nth l s i ps HL E) as M. destruct HL as [HT HF].
  destruct (fill_spec t l ps vec M) as (ps' & F & M' & C & O); [lia|].
  unfold update_at. rewrite E, HT, F. cbn [option_map]. eexists. split; [reflexivity|]. split; [|split; [|split]].
  - split; auto. cbn. apply Forall_forall. intros q Hq. apply In_nth_error in Hq as [j Hj]. rewrite set_nth_nth in Hj by auto.
    destruct (j =? i); [injection Hj as <-; auto|]. rewrite Forall_forall in HF. apply HF. eapply nth_error_In; eauto.
  - cbn. apply set_nth_length.
  - unfold value. cbn [pvals ptypes with_vals]. rewrite set_nth_nth, Nat.eqb_refl by auto. cbn [option_map]. rewrite HT, C, <- HV, firstn_all. auto.
  - intros j t' N. unfold value. cbn [pvals ptypes with_vals]. rewrite set_nth_nth by auto. destruct (Nat.eqb_spec j i) as [->|]; auto.
    rewrite E. cbn [option_map]. rewrite HT. f_equal. apply O. congruence.
Qed.

(** Operations of a user. *)
Inductive op := UpdInt (vec : list V) (t : nat) | UpdStr (vec : list V) (u : string) | UpdOpt (ss : list (list V)) | Time (i : nat).
Definition exec (o : op) (s : pman V) : option (pman V) :=
  match o with
  | UpdInt vec t => update_int vec t s
  | UpdStr vec u => update_str vec u s
  | UpdOpt ss => update_opt ss s
  | Time i => Some (set_time i s)
  end.
Fixpoint run (os : list op) (s : pman V) : option (pman V) :=
  match os with [] => Some s | o :: os => match exec o s with Some s' => run os s' | None => None end end.

(** Abstract state: a vector per time and class, and the current time index. *)
Definition astate := (nat -> nat -> option (list V)).
Definition put (a : astate) (i t : nat) (vec : list V) : astate :=
  fun j t' => if (j =? i) && (t' =? t) then Some vec else a j t'.
Definition good (l : layout) (nt : nat) (o : op) : Prop :=
  match o with
  | UpdInt vec t => length vec = class_size t l
  | UpdStr vec u => forall t, class_type u = Some t -> length vec = class_size t l
  | UpdOpt ss => length ss = nt /\ Forall (fun v => length v = class_size 1 l) ss
  | Time i => True
  end.
Definition aexec (dyn : bool) (nt : nat) (o : op) (st : astate * nat) : astate * nat :=
  let '(a, i) := st in
  match o with
  | UpdInt vec t => (put a 0 t vec, i)
  | UpdStr vec u => match class_type u with
      | Some t => let k := if dyn then i else 0 in (if k <? nt then put a k t vec else a, i)
      | None => (a, i)
      end
  | UpdOpt ss => ((fun j t => if t =? 1 then nth_error ss j else a j t), i)
  | Time k => (a, k)
  end.

Lemma fill_all_spec l : forall pvs ss, Forall (fun ps => map (@length V) ps = map snd l) pvs ->
  length ss = length pvs -> Forall (fun v => length v = class_size 1 l) ss ->
  exists pvs', fill_all (map fst l) pvs ss = Some pvs' /\ Forall (fun ps => map (@length V) ps = map snd l) pvs' /\ length pvs' = length pvs /\
    map (collect 1 (map fst l)) pvs' = ss /\ (forall t, t <> 1 -> map (collect t (map fst l)) pvs' = map (collect t (map fst l)) pvs).
Proof.
  induction pvs as [|ps pvs IH]; intros [|s ss] F L G; try discriminate.
  - exists []. repeat split. constructor.
  - inversion F; subst. inversion G; subst. destruct (fill_spec 1 l ps s) as (ps' & E & M & C & O); auto; [lia|].
    destruct (IH ss) as (pvs' & E' & M' & L' & C' & O'); auto.
    cbn [fill_all]. rewrite E, E'. eexists. split; [reflexivity|]. split; [constructor; auto|]. split; [cbn; auto|]. split.
    + cbn [map]. rewrite C, C'. f_equal. rewrite <- H3. apply firstn_all.
    + intros t Ht. cbn [map]. rewrite O, O' by auto. auto.
Qed.

Lemma nth_error_map' {A B} (f : A -> B) l i : nth_error (map f l) i = option_map f (nth_error l i).
Proof. revert i. induction l; intros [|i]; cbn; auto. Qed.

(** Every operation acts on the vectors of the classes as written, and on nothing else. *)
Theorem C41_step l o s a i nt : has_layout l s -> length (pvals s) = nt -> 1 <= nt -> good l nt o ->
  (forall j t, j < nt -> value s j t = a j t) -> tindex s = i ->
  exists s', exec o s = Some s' /\ has_layout l s' /\ length (pvals s') = nt /\ dynamic s' = dynamic s /\
    (forall j t, j < nt -> value s' j t = fst (aexec (dynamic s) nt o (a, i)) j t) /\ tindex s' = snd (aexec (dynamic s) nt o (a, i)).
Proof.
  intros HL HN H1 HG HA HI. destruct o as [vec t|vec u|ss|k]; cbn [exec aexec good fst snd] in *.
  - destruct (update_at_spec l s 0 vec t HL) as (s' & E & HL' & HN' & C & O); [lia|auto|].
    assert (E' : update_int vec t s = Some s').
    { unfold update_int. unfold update_at in E. destruct (pvals s) as [|ps rest] eqn:P; [cbn in HN; lia|]. cbn [nth_error set_nth] in E. auto. }
    exists s'. split; auto. split; auto. split; [lia|].
    assert (SS : dynamic s' = dynamic s /\ tindex s' = tindex s).
    { unfold update_at in E. destruct (nth_error (pvals s) 0); [|injection E as <-; auto]. destruct (fill _ _ _ _); [|discriminate]. cbn in E. injection E as <-. auto. }
    split; [apply SS|]. split; [|rewrite (proj2 SS); auto]. intros j t' Hj. unfold put.
    destruct (Nat.eqb_spec j 0) as [->|]; cbn [andb]; [destruct (Nat.eqb_spec t' t) as [->|]|]; auto; rewrite O by congruence; auto.
  - unfold update_str. destruct (class_type u) as [t|] eqn:U.
    + destruct (Nat.ltb_spec (if dynamic s then i else 0) nt) as [Hk|Hk]; cbn [fst snd].
      * destruct (update_at_spec l s (if dynamic s then i else 0) vec t HL) as (s' & E & HL' & HN' & C & O); [lia|apply HG; auto|].
        rewrite HI. exists s'. split; auto. split; auto. split; [lia|].
        assert (SS : dynamic s' = dynamic s /\ tindex s' = tindex s).
        { unfold update_at in E. destruct (nth_error (pvals s) _); [|injection E as <-; auto]. destruct (fill _ _ _ _); [|discriminate]. cbn in E. injection E as <-. auto. }
        split; [apply SS|]. split; [|rewrite (proj2 SS); auto]. intros j t' Hj. unfold put.
        destruct (Nat.eqb_spec j (if dynamic s then i else 0)) as [->|]; cbn [andb]; [destruct (Nat.eqb_spec t' t) as [->|]|]; auto; rewrite O by congruence; auto.
      * unfold update_at. rewrite HI. destruct (nth_error (pvals s) _) eqn:E.
        { assert (X : nth_error (pvals s) (if dynamic s then i else 0) <> None) by congruence. apply nth_error_Some in X. lia. }
        exists s. split; [auto|]. repeat split; auto; apply HL.
    + cbn [fst snd]. exists s. repeat split; auto; apply HL.
  - destruct HG as [G1 G2]. destruct HL as [HT HF]. destruct (fill_all_spec l (pvals s) ss) as (pvs' & E & F & L & C & O); auto; [lia|].
    unfold update_opt. rewrite HT, E. cbn [option_map]. eexists. split; [reflexivity|]. split; [split; auto|]. split; [cbn; lia|]. split; auto. split; auto.
    intros j t Hj. unfold value. cbn [pvals ptypes with_vals]. rewrite HT, <- nth_error_map'. destruct (Nat.eqb_spec t 1) as [->|N].
    + rewrite C. auto.
    + rewrite O by auto. rewrite nth_error_map', <- HT. apply HA. auto.
  - exists (set_time k s). repeat split; auto; apply HL.
Qed.

(** Hence for every history the parameters are those last written, class by class and time
    by time. *)
Theorem C41_history l os : forall s a i nt, has_layout l s -> length (pvals s) = nt -> 1 <= nt -> Forall (good l nt) os ->
  (forall j t, j < nt -> value s j t = a j t) -> tindex s = i ->
  exists s', run os s = Some s' /\ has_layout l s' /\ length (pvals s') = nt /\
    let st := fold_left (fun st o => aexec (dynamic s) nt o st) os (a, i) in
    (forall j t, j < nt -> value s' j t = fst st j t) /\ tindex s' = snd st.
Proof.
  induction os as [|o os IH]; intros s a i nt HL HN H1 HG HA HI; cbn [run fold_left].
  - exists s. repeat split; auto; apply HL.
  - inversion HG; subst. destruct (C41_step l o s a (tindex s) (length (pvals s)) HL eq_refl H1 H2 HA eq_refl) as (s1 & E & HL1 & HN1 & D1 & A1 & I1).
    rewrite E. destruct (aexec (dynamic s) (length (pvals s)) o (a, tindex s)) as [a' i'] eqn:AE. cbn [fst snd] in *.
    destruct (IH s1 a' i' (length (pvals s)) HL1 HN1 H1 H3 A1 I1) as (s' & E' & HL' & HN' & S'). exists s'. rewrite D1 in S'. auto.
Qed.

(** Reading the vectors back. *)
Theorem C41_read s t : get_int t s = map (fun ps => collect t (ptypes s) ps) (pvals s) /\
  (forall j, nth_error (get_int t s) j = value s j t) /\
  (forall u j, class_type u = Some t -> get_str_at u j s = value s j t).
Proof.
  split; [reflexivity|]. split; [intros j; unfold get_int, value; apply nth_error_map'|].
  intros u j U. unfold get_str_at, value. rewrite U. destruct (nth_error (pvals s) j); reflexivity.
Qed.

(** Writing one parameter by its name changes that parameter at the current time, no other. *)
Definition component (s : pman V) (j k : nat) : option (list V) := match nth_error (pvals s) j with Some ps => nth_error ps k | None => None end.
Lemma fill_name_spec n : forall names (ps : list (list V)) vec, length names = length ps -> NoDup names ->
  forall k p, nth_error names k = Some n -> nth_error ps k = Some p -> length vec = length p ->
  exists ps', fill_name n names ps vec = Some ps' /\ nth_error ps' k = Some vec /\ length ps' = length ps /\
    map (@length V) ps' = map (@length V) ps /\ forall k', k' <> k -> nth_error ps' k' = nth_error ps k'.
Proof.
  assert (Keep : forall names (ps : list (list V)) vec, ~ In n names -> fill_name n names ps vec = Some ps).
  { induction names as [|m names IH]; intros [|p ps] vec N; try reflexivity. cbn [fill_name]. destruct (string_dec m n) as [E|_]; [elim N; left; auto|].
    rewrite IH; [reflexivity|]. intros H. apply N. right. exact H. }
  induction names as [|m names IH]; intros [|p ps] vec L D k q K P Hl; try discriminate; try (destruct k; discriminate).
  cbn in L. injection L as L. inversion D; subst. cbn [fill_name]. destruct k as [|k]; cbn in K, P.
  - injection K as ->. injection P as ->. destruct (string_dec n n) as [_|C]; [|congruence].
    destruct (Nat.ltb_spec (length vec) (length q)); [lia|]. rewrite Keep by assumption. cbn [option_map].
    eexists. split; [reflexivity|]. cbn. rewrite <- Hl, firstn_all. repeat split; auto. intros [|k'] N; [congruence|reflexivity].
  - destruct (string_dec m n) as [->|_]; [elim H1; eapply nth_error_In; exact K|].
    destruct (IH ps vec L H2 k q K P Hl) as (ps' & E & A & B & M & C). rewrite E. cbn [option_map]. eexists. split; [reflexivity|]. cbn.
    repeat split; auto; [congruence|]. intros [|k'] N; [reflexivity|]. apply C. congruence.
Qed.
Theorem C41_named s n vec k p : let i := if dynamic s then tindex s else 0 in
  Forall (fun ps => length ps = length (pnames s)) (pvals s) -> NoDup (pnames s) -> nth_error (pnames s) k = Some n ->
  component s i k = Some p -> length vec = length p ->
  exists s', set_param vec n s = Some s' /\ component s' i k = Some vec /\
    (forall j k', (j, k') <> (i, k) -> component s' j k' = component s j k') /\
    pnames s' = pnames s /\ ptypes s' = ptypes s /\ bounds s' = bounds s /\ dynamic s' = dynamic s /\ tindex s' = tindex s.
Proof.
  intros i F D K P L. unfold set_param. fold i. unfold component in P. destruct (nth_error (pvals s) i) as [ps|] eqn:E; [|discriminate].
  assert (Hi : i < length (pvals s)) by (apply nth_error_Some; congruence).
  assert (LP : length ps = length (pnames s)) by (rewrite Forall_forall in F; apply F; eapply nth_error_In; exact E).
  destruct (fill_name_spec n (pnames s) ps vec (eq_sym LP) D k p K P L) as (ps' & G & A & B & M & C). rewrite G. cbn [option_map].
  eexists. split; [reflexivity|]. unfold component. cbn [pvals with_vals pnames ptypes dynamic tindex]. rewrite set_nth_nth, Nat.eqb_refl by exact Hi.
  split; [exact A|]. split; [|repeat split].
  intros j k' N. rewrite set_nth_nth by exact Hi. destruct (Nat.eqb_spec j i) as [->|]; [|reflexivity]. rewrite E. apply C. congruence.
Qed.

Theorem C41_round_trip l s ss : has_layout l s -> length ss = length (pvals s) -> Forall (fun v => length v = class_size 1 l) ss ->
  exists s', update_opt ss s = Some s' /\ get_int 1 s' = ss /\ forall t, t <> 1 -> get_int t s' = get_int t s.
Proof.
  intros [HT HF] L G. destruct (fill_all_spec l (pvals s) ss) as (pvs' & E & F & L' & C & O); auto.
  unfold update_opt. rewrite HT, E. cbn [option_map]. eexists. split; [reflexivity|]. unfold get_int. cbn [pvals ptypes with_vals]. rewrite HT. auto.
Qed.

(** Class by name, parameters without time dependence. *)
Theorem C41_round_trip_string l s vec u t : has_layout l s -> dynamic s = false -> length (pvals s) = 1 -> class_type u = Some t -> length vec = class_size t l ->
  exists s', update_str vec u s = Some s' /\ get_str u s' = vec /\ forall u' t', class_type u' = Some t' -> t' <> t -> get_str u' s' = get_str u' s.
Proof.
  intros HL HD HN HU HV. destruct (update_at_spec l s 0 vec t HL) as (s' & E & HL' & HN' & C & O); [lia|auto|].
  exists s'. unfold update_str. rewrite HU, HD. split; auto.
  assert (G : forall (s : pman V) u t, length (pvals s) = 1 -> class_type u = Some t -> Some (get_str u s) = value s 0 t).
  { clear. intros s u t HN HU. unfold get_str, value, get_int. rewrite HU. destruct (pvals s) as [|ps [|]]; try discriminate. cbn. rewrite app_nil_r. auto. }
  split.
  - pose proof (G s' u t ltac:(lia) HU) as X. rewrite C in X. congruence.
  - intros u' t' HU' N. pose proof (G s' u' t' ltac:(lia) HU') as X. pose proof (G s u' t' HN HU') as Y. rewrite O in X by congruence. congruence.
Qed.

(** Seeds: numbered in the order in which the active parameters are read. *)
Theorem C41_seeds l (ps : list (list V)) : map (@length V) ps = map snd l -> forall prog,
  collect 1 (map fst l) (seeds (map fst l) ps prog) = map Some (seq prog (class_size 1 l)) /\
  forall t, t <> 1 -> Forall (fun o => o = None) (collect t (map fst l) (seeds (map fst l) ps prog)).
Proof.
  revert ps. induction l as [|[ty n] l IH]; intros [|p ps] H prog; try discriminate; [split; [reflexivity|constructor]|].
  cbn in H. injection H as H1 H2. cbn [map fst snd seeds class_size fold_right]. fold (class_size 1 l). destruct (Nat.eqb_spec ty 1) as [->|N].
  - destruct (IH ps H2 (prog + length p)) as [A B]. cbn [collect]. rewrite Nat.eqb_refl. split.
    + rewrite A, <- H1, seq_app, map_app. reflexivity.
    + intros t Ht. destruct (Nat.eqb_spec 1 t); [congruence|]. apply B. auto.
  - destruct (IH ps H2 prog) as [A B]. cbn [collect]. destruct (Nat.eqb_spec ty 1); [congruence|]. split; auto.
    intros t Ht. apply Forall_app. split; [|apply B; auto]. destruct (ty =? t); [|constructor]. apply Forall_forall. intros o Ho. apply in_map_iff in Ho as (? & <- & _). auto.
Qed.

(** With derivative types as wide as the number of active parameters none is lost. *)
Theorem C41_all_seeded l (ps : list (list V)) width : map (@length V) ps = map snd l -> class_size 1 l <= width ->
  map (seeded width) (collect 1 (map fst l) (seeds (map fst l) ps 0)) = map Some (seq 0 (class_size 1 l)).
Proof.
  intros H W. rewrite (proj1 (C41_seeds l ps H 0)), map_map. apply map_ext_in. intros k Hk. apply in_seq in Hk. unfold seeded. destruct (Nat.ltb_spec k width); auto; lia.
Qed.

Lemma collect_index3 {A B C} t : forall types (ps : list (list A)) (qs : list (list B)) (rs : list (list C)),
  map (@length A) ps = map (@length B) qs -> map (@length A) ps = map (@length C) rs ->
  forall i j (x : A) (y : B) (z : C), nth_error types i = Some t ->
  (exists p, nth_error ps i = Some p /\ nth_error p j = Some x) -> (exists q, nth_error qs i = Some q /\ nth_error q j = Some y) ->
  (exists r, nth_error rs i = Some r /\ nth_error r j = Some z) ->
  exists k, nth_error (collect t types ps) k = Some x /\ nth_error (collect t types qs) k = Some y /\ nth_error (collect t types rs) k = Some z.
Proof.
  induction types as [|ty types IH]; intros [|p ps] [|q qs] [|r rs] H H' i j x y z HT (p' & P1 & P2) (q' & Q1 & Q2) (r' & R1 & R2);
    try (destruct i; discriminate); try discriminate.
  cbn in H, H'. injection H as H1 H2. injection H' as H1' H2'. cbn [collect]. destruct i as [|i]; cbn in HT, P1, Q1, R1.
  - injection HT as ->. injection P1 as ->. injection Q1 as ->. injection R1 as ->. rewrite Nat.eqb_refl. exists j.
    assert (J : j < length p') by (apply nth_error_Some; congruence).
    rewrite !nth_error_app1 by lia. auto.
  - destruct (IH ps qs rs H2 H2' i j x y z HT (ex_intro _ p' (conj P1 P2)) (ex_intro _ q' (conj Q1 Q2)) (ex_intro _ r' (conj R1 R2))) as (k & K1 & K2 & K3).
    exists (length (if ty =? t then p else []) + k).
    assert (E : length (if ty =? t then p else []) = length (if ty =? t then q else [])) by (destruct (ty =? t); auto).
    assert (E' : length (if ty =? t then p else []) = length (if ty =? t then r else [])) by (destruct (ty =? t); auto).
    rewrite !nth_error_app2 by lia.
    replace (length (if ty =? t then p else []) + k - length (if ty =? t then p else [])) with k by lia.
    replace (length (if ty =? t then p else []) + k - length (if ty =? t then q else [])) with k by lia.
    replace (length (if ty =? t then p else []) + k - length (if ty =? t then r else [])) with k by lia. auto.
Qed.
(** Bounds are in the same order: the bounds of the k-th component read are those of the
    same parameter and component. *)
Theorem C41_bounds l s i j p x lo up : has_layout l s -> map (@length V) (plower s) = map snd l -> map (@length V) (pupper s) = map snd l ->
  nth_error (ptypes s) i = Some 1 -> (exists ps, nth_error (pvals s) 0 = Some ps /\ nth_error ps i = Some p /\ nth_error p j = Some x) ->
  (exists q, nth_error (plower s) i = Some q /\ nth_error q j = Some lo) ->
  (exists q, nth_error (pupper s) i = Some q /\ nth_error q j = Some up) ->
  exists k v, value s 0 1 = Some v /\ nth_error v k = Some x /\ nth_error (fst (bounds s)) k = Some lo /\ nth_error (snd (bounds s)) k = Some up.
Proof.
  intros HL HB HB' HT (ps & P0 & P1 & P2) HQ HQ'. pose proof (layout_nth l s 0 ps HL P0) as M.
  destruct (collect_index3 1 (ptypes s) ps (plower s) (pupper s) ltac:(congruence) ltac:(congruence) i j x lo up HT (ex_intro _ p (conj P1 P2)) HQ HQ') as (k & K1 & K2 & K3).
  exists k, (collect 1 (ptypes s) ps). unfold value. rewrite P0. auto.
Qed.

(** Setup gives a layout when every usage is known: the class of each parameter is the one
    written, at every time the values are those given, there are as many times as steps when an
    active parameter depends on time, and the bounds are those given. *)
Theorem C41_setup es numsteps : Forall (fun e : entry V => usage_type (e_usage e) <> None) es ->
  let s := setup es numsteps in
  (exists l, has_layout l s /\ map snd l = map (fun e => length (e_vals e)) es) /\
  length (ptypes s) = length es /\
  (forall k e, nth_error es k = Some e ->
    nth_error (pnames s) k = Some (e_name e) /\
    (forall t, nth_error (ptypes s) k = Some t <-> nth_error ["inactive"; "active"; "stochastic"; "discrete"; "discretized"]%string t = Some (e_usage e)) /\
    (forall j, j < length (pvals s) -> component s j k = Some (e_vals e)) /\
    nth_error (plower s) k = Some (e_lo e) /\ nth_error (pupper s) k = Some (e_up e)) /\
  (dynamic s = true <-> exists e, In e es /\ e_usage e = "active"%string /\ e_dyn e = true) /\
  length (pvals s) = (if dynamic s then numsteps else 1) /\ tindex s = 0.
Proof.
  intros H s.
  assert (UT : forall u t, usage_type u = Some t <-> nth_error ["inactive"; "active"; "stochastic"; "discrete"; "discretized"]%string t = Some u).
  { intros u t. unfold usage_type. split.
    - repeat (destruct (string_dec _ _) as [->|?]; [intros E; injection E as <-; reflexivity|]). discriminate.
    - do 5 (destruct t as [|t]; [intros E; injection E as <-; reflexivity|]). destruct t; discriminate. }
  assert (PT : ptypes s = map (fun e => match usage_type (e_usage e) with Some t => t | None => 0 end) es).
  { cbn. clear s UT. induction H as [|e es He _ IH]; auto. cbn. rewrite IH. destruct (usage_type (e_usage e)); [auto|congruence]. }
  split; [|split; [|split; [|split; [|split]]]].
  - exists (map (fun e => (match usage_type (e_usage e) with Some t => t | None => 0 end, length (e_vals e))) es).
    split; [split|].
    + rewrite PT, map_map. reflexivity.
    + cbn. apply Forall_forall. intros ps Hp. apply repeat_spec in Hp. subst. rewrite !map_map. auto.
    + rewrite map_map. auto.
  - rewrite PT, map_length. reflexivity.
  - intros k e E. split; [cbn; rewrite nth_error_map', E; reflexivity|]. split; [|split; [|split]].
    + intros t. rewrite <- UT, PT, nth_error_map', E. cbn [option_map]. rewrite Forall_forall in H. specialize (H e (nth_error_In _ _ E)).
      destruct (usage_type (e_usage e)); [|congruence]. split; congruence.
    + intros j J. unfold component. destruct (nth_error (pvals s) j) as [ps|] eqn:F; [|apply nth_error_None in F; lia].
      apply nth_error_In in F. cbn in F. apply repeat_spec in F. subst ps. rewrite nth_error_map', E. reflexivity.
    + cbn. rewrite nth_error_map', E. reflexivity.
    + cbn. rewrite nth_error_map', E. reflexivity.
  - cbn. rewrite existsb_exists. split; intros (e & I & A); exists e; (split; [exact I|]).
    + destruct (usage_type (e_usage e)) as [[|[|?]]|] eqn:U; try discriminate. apply UT in U. cbn in U. split; congruence.
    + destruct A as [A1 A2]. rewrite A1. exact A2.
  - cbn. rewrite repeat_length. reflexivity.
  - reflexivity.
Qed.
End Props.
Print Assumptions C41_step.
Print Assumptions C41_history.
Print Assumptions C41_read.
Print Assumptions C41_named.
Print Assumptions C41_round_trip.
Print Assumptions C41_round_trip_string.
Print Assumptions C41_seeds.
Print Assumptions C41_all_seeded.
Print Assumptions C41_bounds.
Print Assumptions C41_setup.

Definition ent n u (v : list nat) d : entry nat := {| e_name := n; e_usage := u; e_vals := v; e_dyn := d; e_lo := map (fun _ => 0) v; e_up := map (fun _ => 9) v |}.

(** An unknown usage ("Active") is not rejected.  It shifts the classes of the parameters
    after it: "a" is now in the active class and the active parameter "b" in the stochastic
    one, and every update reads past the end of the list of classes. *)
Theorem C41_unknown_usage_refuted : let s := setup [ent "a" "Active" [1] false; ent "b" "active" [2] false; ent "c" "stochastic" [3] false] 1 in
  get_int 1 s = [[1]] /\ get_str "stochastic" s = [2] /\ update_opt [[7]] s = None /\ ~ exists l, has_layout l s.
Proof.
  cbn zeta. split; [reflexivity|]. split; [reflexivity|]. split; [reflexivity|].
  intros (l & H1 & H2). cbn in H1, H2. inversion H2 as [|? ? H3]. apply (f_equal (@length _)) in H1, H3. rewrite !map_length in H3. rewrite map_length in H1. cbn in *. congruence.
Qed.
Print Assumptions C41_unknown_usage_refuted.

(** Time-dependent parameters: the vector of a class is written at the current time index,
    but the reading by name returns the concatenation over all times. *)
Theorem C41_dynamic_refuted : exists (s s' : pman nat), s = setup [ent "a" "active" [1] true; ent "b" "stochastic" [2] false] 2 /\
  update_str [5] "stochastic" s = Some s' /\ get_str "stochastic" s' = [5; 2] /\ get_str_at "stochastic" 0 s' = Some [5].
Proof. do 2 eexists. split; [reflexivity|]. split; [reflexivity|]. split; reflexivity. Qed.
Print Assumptions C41_dynamic_refuted.

(** A vector that is too short is read past its end. *)
Theorem C41_short_refuted : update_str [5] "active" (setup [ent "a" "active" [1; 2] false] 1) = None.
Proof. reflexivity. Qed.
Print Assumptions C41_short_refuted.

Example C41_hypotheses_met : let s := setup [ent "a" "active" [1; 2] false; ent "b" "stochastic" [3] false; ent "c" "active" [4] false] 1 in
  has_layout [(1, 2); (2, 1); (1, 1)] s /\ class_size 1 [(1, 2); (2, 1); (1, 1)] = 3 /\
  exists s', run [UpdOpt [[7; 8; 9]]; UpdStr [5] "stochastic"] s = Some s' /\ get_int 1 s' = [[7; 8; 9]] /\ get_str "stochastic" s' = [5].
Proof. cbn zeta. split; [split; [reflexivity|repeat constructor]|]. split; [reflexivity|]. eexists. split; [reflexivity|]. split; reflexivity. Qed.
