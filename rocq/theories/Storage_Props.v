(** Properties C11 and C12: stored states are read back as written. *)
From Coq Require Import Bool Arith Lia List QArith Qabs Lqa.
From Verif Require Import Outcome Storage_Model.
Import ListNotations.
Local Close Scope Q_scope.

Section S.
Context {A : Type}.
Notation state := (state A).
Notation op := (op A).

(** Reference: values instead of handles.  [v_val h] is the content of handle [h],
    [v_log i] the (time, value) pairs stored to set [i] since the last reset. *)
Record ref := { v_val : nat -> option A; v_next : nat; v_log : nat -> list (Q * A) }.
Definition ref0 : ref := {| v_val := fun _ => None; v_next := 0; v_log := fun _ => [] |}.
Definition set_val (f : nat -> option A) (k : nat) (a : A) := fun i => if (i =? k)%nat then Some a else f i.

Definition rstep (o : op) (r : ref) : ref :=
  match o with
  | New a => {| v_val := set_val (v_val r) (v_next r) a; v_next := S (v_next r); v_log := v_log r |}
  | Write h a => {| v_val := set_val (v_val r) h a; v_next := v_next r; v_log := v_log r |}
  | Store h t i =>
      match v_val r h with
      | None => r
      | Some a => {| v_val := set_val (v_val r) (v_next r) a; v_next := S (v_next r);
                     v_log := fun k => if (k =? i)%nat then v_log r i ++ [(t, a)] else v_log r k |}
      end
  | Reset => {| v_val := v_val r; v_next := v_next r; v_log := fun _ => [] |}
  end.
Fixpoint rrun (l : list op) (r : ref) : ref := match l with [] => r | o :: l => rrun l (rstep o r) end.

(** Admissible use: sets are opened in order, and clients write only to their own
    vectors, not through a handle obtained from the storage. *)
Definition allowed (o : op) (s : state) : Prop :=
  match o with
  | Write h _ => h < fresh s /\ ~ In h (concat (data s))
  | Store _ _ i => i <= length (times s)
  | _ => True
  end.
Fixpoint admissible (l : list op) (s : state) : Prop :=
  match l with [] => True | o :: r => allowed o s /\ admissible r (exec o s) end.

Definition pairs (s : state) (i : nat) : list (Q * nat) :=
  combine (nth i (times s) []) (nth i (data s) []).

Record Inv (s : state) (r : ref) : Prop := {
  i_len : length (times s) = length (data s);
  i_row : forall i, length (nth i (times s) []) = length (nth i (data s) []);
  i_fresh : fresh s = v_next r;
  i_lt : forall h, In h (concat (data s)) -> h < fresh s;
  i_above : forall h, fresh s <= h -> heap s h = None;
  i_val : forall h, heap s h = v_val r h;
  i_log : forall i, Forall2 (fun p q => fst p = fst q /\ heap s (snd p) = Some (snd q))
                      (pairs s i) (v_log r i)
}.

Lemma push_at_len {B} i (x : B) l : length (push_at i x l) = length l.
Proof. revert i; induction l as [|y r IH]; intros [|i]; cbn; auto. Qed.

Lemma push_at_nth {B} i (x : B) l k : i < length l ->
  nth k (push_at i x l) [] = if (k =? i)%nat then nth i l [] ++ [x] else nth k l [].
Proof.
  revert i k; induction l as [|y r IH]; intros i k H; cbn in H; [lia|].
  destruct i as [|i], k as [|k]; cbn; auto. apply IH. lia.
Qed.

Lemma in_concat_nth (l : list (list nat)) h : In h (concat l) <-> exists i, In h (nth i l []).
Proof.
  split.
  - rewrite in_concat. intros (x & Hx & Hh). apply In_nth with (d := []) in Hx as (i & _ & <-). eauto.
  - intros (i & Hi). apply in_concat. exists (nth i l []). split; auto.
    destruct (lt_dec i (length l)); [apply nth_In; auto|]. rewrite nth_overflow in Hi by lia. destruct Hi.
Qed.

Lemma Forall2_weaken {X Y} (P Q : X -> Y -> Prop) l m :
  (forall x y, In x l -> P x y -> Q x y) -> Forall2 P l m -> Forall2 Q l m.
Proof. intros H F. induction F; constructor; [apply H; cbn; auto|apply IHF; intros; apply H; cbn; auto]. Qed.

Lemma in_pairs s i p : In p (pairs s i) -> In (snd p) (concat (data s)).
Proof.
  destruct p as [t h]. intros H. apply in_concat_nth. exists i. eapply in_combine_r; eauto.
Qed.

Lemma combine_snoc {X Y} (l : list X) (m : list Y) x y : length l = length m ->
  combine (l ++ [x]) (m ++ [y]) = combine l m ++ [(x, y)].
Proof.
  revert m; induction l as [|a l IH]; intros [|b m] H; cbn in *; try lia; auto. f_equal. apply IH. lia.
Qed.

Lemma inv_step o s r : Inv s r -> allowed o s -> Inv (exec o s) (rstep o r).
Proof.
  intros [HL HR HF HLt HA HV HG] AL. destruct o as [a|h a|h t i|]; cbn [exec rstep].
  - (* New *)
    constructor; cbn [heap fresh times data v_val v_next v_log new_vec]; auto.
    + intros h Hh. specialize (HLt h Hh). lia.
    + intros h Hh. unfold upd. destruct (Nat.eqb_spec h (fresh s)); [lia|]. apply HA. lia.
    + intros h. unfold upd, set_val. rewrite <- HF. destruct (h =? fresh s); auto.
    + intros k. refine (Forall2_weaken _ _ _ _ _ (HG k)). intros p q Hp [E1 E2]. split; auto.
      unfold upd. apply in_pairs in Hp. specialize (HLt _ Hp).
      destruct (Nat.eqb_spec (snd p) (fresh s)); [lia|auto].
  - (* Write *)
    destruct AL as [Hlt HN].
    constructor; cbn [heap fresh times data v_val v_next v_log write]; auto.
    + intros k Hk. unfold upd. destruct (Nat.eqb_spec k h); [lia|]. auto.
    + intros k. unfold upd, set_val. destruct (k =? h)%nat; auto.
    + intros k. refine (Forall2_weaken _ _ _ _ _ (HG k)). intros p q Hp [E1 E2]. split; auto.
      unfold upd. apply in_pairs in Hp. destruct (Nat.eqb_spec (snd p) h); [subst; contradiction|auto].
  - (* Store *)
    cbn in AL. unfold store. rewrite <- HV. destruct (heap s h) as [a|] eqn:E.
    2:{ constructor; auto. }
    assert (FR : forall p i, In p (pairs s i) -> snd p <> fresh s).
    { intros p k Hp. apply in_pairs in Hp. specialize (HLt _ Hp). lia. }
    assert (GEN : forall ts ds, length ts = length ds ->
      (forall k, nth k ts [] = if (k =? i)%nat then nth i (times s) [] ++ [t] else nth k (times s) []) ->
      (forall k, nth k ds [] = if (k =? i)%nat then nth i (data s) [] ++ [fresh s] else nth k (data s) []) ->
      Inv {| heap := upd (heap s) (fresh s) a; fresh := S (fresh s); times := ts; data := ds |}
          {| v_val := set_val (v_val r) (v_next r) a; v_next := S (v_next r);
             v_log := fun k => if (k =? i)%nat then v_log r i ++ [(t, a)] else v_log r k |}).
    { intros ts ds EL ET ED. constructor; cbn [heap fresh times data v_val v_next v_log]; auto.
      - intros k. rewrite ET, ED. destruct (k =? i)%nat; auto. rewrite !app_length, HR. auto.
      - intros k Hk. apply in_concat_nth in Hk as (j & Hj). rewrite ED in Hj.
        assert (D : In k (concat (data s)) \/ k = fresh s).
        { destruct (j =? i)%nat.
          - apply in_app_or in Hj as [Hj|[Hj|[]]]; auto. left. apply in_concat_nth; eauto.
          - left. apply in_concat_nth; eauto. }
        destruct D as [D|D]; [specialize (HLt _ D)|]; lia.
      - intros k Hk. unfold upd. destruct (Nat.eqb_spec k (fresh s)); [lia|]. apply HA. lia.
      - intros k. unfold upd, set_val. rewrite <- HF. destruct (k =? fresh s)%nat; auto.
      - intros k. unfold pairs. cbn [times data]. rewrite ET, ED.
        assert (W : forall k, Forall2 (fun p q => fst p = fst q /\ upd (heap s) (fresh s) a (snd p) = Some (snd q)) (pairs s k) (v_log r k)).
        { intros k'. refine (Forall2_weaken _ _ _ _ _ (HG k')). intros p q Hp [E1 E2]. split; auto.
          unfold upd. destruct (Nat.eqb_spec (snd p) (fresh s)); [exfalso; eapply FR; eauto|auto]. }
        destruct (Nat.eqb_spec k i) as [->|]; [|apply W].
        rewrite combine_snoc by apply HR. apply Forall2_app; [apply W|].
        constructor; [|constructor]. cbn. split; auto. unfold upd. rewrite Nat.eqb_refl. auto. }
    destruct (Nat.leb_spec (length (times s)) i) as [L|L].
    + assert (i = length (times s)) by lia. subst i. apply GEN.
      * rewrite !app_length, HL. auto.
      * intros k. destruct (Nat.eqb_spec k (length (times s))) as [->|N].
        -- rewrite app_nth2, Nat.sub_diag by lia. cbn. rewrite nth_overflow by lia. auto.
        -- destruct (lt_dec k (length (times s))); [apply app_nth1; auto|].
           rewrite !nth_overflow; auto; try rewrite app_length; cbn; lia.
      * intros k. destruct (Nat.eqb_spec k (length (times s))) as [->|N].
        -- rewrite HL, app_nth2, Nat.sub_diag by lia. cbn. rewrite nth_overflow by lia. auto.
        -- destruct (lt_dec k (length (data s))); [apply app_nth1; auto|].
           rewrite !nth_overflow; auto; try rewrite app_length; cbn; lia.
    + apply GEN.
      * rewrite !push_at_len. auto.
      * intros k. apply push_at_nth; auto.
      * intros k. apply push_at_nth. lia.
  - (* Reset *)
    assert (N1 : forall {B} (l : list (list B)) k, nth k (map (fun _ => @nil B) l) [] = []).
    { intros B l. induction l as [|y l IH]; intros [|k]; cbn; auto. }
    constructor; cbn [heap fresh times data v_val v_next v_log reset]; auto.
    + rewrite !map_length. auto.
    + intros k. rewrite !N1. auto.
    + intros k Hk. apply in_concat_nth in Hk as (j & Hj). rewrite N1 in Hj. destruct Hj.
    + intros k. unfold pairs. cbn [times data reset]. rewrite !N1. constructor.
Qed.

Lemma inv_run l : forall s r, Inv s r -> admissible l s -> Inv (run l s) (rrun l r).
Proof.
  induction l as [|o l IH]; intros s r HI HA; auto. destruct HA as [H1 H2]. cbn.
  apply IH; auto. apply inv_step; auto.
Qed.

Lemma inv_init : Inv init ref0.
Proof.
  constructor; cbn; auto; try (intros; destruct i; reflexivity); try tauto.
  intros i. unfold pairs. cbn. destruct i; constructor.
Qed.

(** Content behind a handle. *)
Definition content (s : state) (h : nat) : option A := heap s h.

Lemma Forall2_nth_l {X Y} (P : X -> Y -> Prop) l m i x :
  Forall2 P l m -> nth_error l i = Some x -> exists y, nth_error m i = Some y /\ P x y.
Proof.
  intros F. revert i. induction F as [|a b l m Hab F IH]; intros [|i] Hi; try discriminate.
  - cbn in Hi. injection Hi as <-. exists b. auto.
  - apply IH in Hi. auto.
Qed.
Lemma Forall2_leng {X Y} (P : X -> Y -> Prop) l m : Forall2 P l m -> length l = length m.
Proof. induction 1; cbn; auto. Qed.

Lemma nth_error_nth_nil {B} (l : list (list B)) i x : nth_error l i = Some x -> nth i l [] = x.
Proof. intros H. apply nth_error_nth; auto. Qed.

Lemma log_row s r i : Inv s r ->
  length (nth i (times s) []) = length (v_log r i) /\
  forall j q, nth_error (v_log r i) j = Some q ->
    exists h, nth_error (nth i (data s) []) j = Some h /\ nth_error (nth i (times s) []) j = Some (fst q)
      /\ heap s h = Some (snd q).
Proof.
  intros [HL HR HF HLt HA HV HG]. specialize (HG i). specialize (HR i). unfold pairs in HG.
  revert HG HR. generalize (nth i (times s) []) (nth i (data s) []) (v_log r i).
  intros l m n F E. pose proof (Forall2_leng _ _ _ F) as Q. rewrite combine_length in Q.
  split; [lia|]. clear Q. revert m n F E. induction l as [|t l IH]; intros [|h m] n F E; try discriminate;
    cbn in F; inversion F as [|p q P' Q' [F1 F2] F3]; subst; intros [|j] q' Hj; try discriminate.
  - cbn in Hj. injection Hj as <-. exists h. cbn in *. subst. auto.
  - cbn in Hj. cbn. eapply IH; eauto.
Qed.

(** For all histories of admissible use: extraction by index delivers exactly the
    values logged by the reference, and reports everything else as not found. *)
Theorem C11_index l i j : admissible l init ->
  match extract_index (run l init) j i with
  | Some h => exists t a, nth_error (v_log (rrun l ref0) i) j = Some (t, a) /\
                content (run l init) h = Some a
  | None => nth_error (v_log (rrun l ref0) i) j = None
  end.
Proof.
  intros H. pose proof (inv_run l init ref0 inv_init H) as I.
  destruct (log_row _ _ i I) as [E Q].
  unfold extract_index. destruct (nth_error (data (run l init)) i) as [d|] eqn:D.
  - apply nth_error_nth_nil in D. destruct (nth_error d j) as [h|] eqn:Dj.
    + destruct (nth_error (v_log (rrun l ref0) i) j) as [[t a]|] eqn:G.
      * destruct (Q j _ G) as (h' & H1 & H2 & H3). rewrite D in H1. rewrite Dj in H1. injection H1 as <-.
        exists t, a. auto.
      * exfalso. apply nth_error_None in G. rewrite <- E, (i_row _ _ I), D in G.
        apply nth_error_None in G. congruence.
    + apply nth_error_None. rewrite <- E, (i_row _ _ I), D. apply nth_error_None; auto.
  - apply nth_error_None in D. apply nth_error_None. rewrite <- E, (i_row _ _ I), nth_overflow by auto. cbn. lia.
Qed.

(** A set that has been opened since the last reset (or before it). *)
Definition opened (s : state) (i : nat) : Prop := i < length (times s).

(** The position found by the search loop is the last one matching. *)
Lemma last_match_spec (f : Q -> bool) l : forall j acc,
  (forall i t, nth_error l i = Some t -> f t = false) /\ last_match f l j acc = acc \/
  (exists i t, nth_error l i = Some t /\ f t = true /\ last_match f l j acc = Some (j + i) /\
     forall i' t', i < i' -> nth_error l i' = Some t' -> f t' = false).
Proof.
  induction l as [|t l IH]; intros j acc; cbn [last_match].
  - left. split; auto. intros [|i]; discriminate.
  - destruct (IH (S j) (if f t then Some j else acc)) as [[N E]|(i & t' & H1 & H2 & H3 & H4)].
    + destruct (f t) eqn:F.
      * right. exists 0, t. cbn. split; auto. split; auto. rewrite Nat.add_0_r. split; auto.
        intros [|i'] t' L H; [lia|]. cbn in H. eauto.
      * left. split; auto. intros [|i] t' H; cbn in H; [congruence|eauto].
    + right. exists (S i), t'. cbn. split; auto. split; auto. split; [rewrite H3; f_equal; lia|].
      intros [|i'] t'' L H; [lia|]. apply (H4 i' t''); auto. lia.
Qed.

(** Equality of times up to the tolerance: relative to the requested time, absolute
    at zero. *)
Definition same_time (tol t req : Q) : Prop :=
  if Qeq_bool req 0 then (Qabs (t - req) < tol)%Q else (Qabs (t - req) < tol * Qabs req)%Q.

Lemma close_spec tol t req : (0 <= req)%Q -> (close tol t req = true <-> same_time tol t req).
Proof.
  intros Hr. unfold close, same_time. destruct (Qeq_bool req 0) eqn:E; cbn [negb].
  - rewrite negb_true_iff, <- not_true_iff_false, Qle_bool_iff. split; [apply Qnot_le_lt|apply Qlt_not_le].
  - rewrite negb_true_iff, <- not_true_iff_false, Qle_bool_iff.
    assert (P : (0 < req)%Q).
    { apply Qeq_bool_neq in E. apply Qle_lteq in Hr as [?|C]; auto. exfalso. apply E. lra. }
    rewrite (Qabs_pos req) by lra.
    split; intros H.
    + apply Qnot_le_lt in H. apply (Qmult_lt_r _ _ req P) in H.
      setoid_replace (Qabs (t - req) / req * req)%Q with (Qabs (t - req)) in H by (field; lra). exact H.
    + apply Qlt_not_le. apply Qlt_shift_div_r; auto.
Qed.

(** For all histories and all requested times that are not negative: extraction by
    time finds something exactly if some state was stored at that time (up to the
    tolerance), and then delivers the last such state. *)
Theorem C12_time_partial l i tol req : admissible l init -> opened (run l init) i -> (0 <= req)%Q ->
  exists res, extract_time tol (run l init) i req = Ok res /\
  match res with
  | None => forall j t a, nth_error (v_log (rrun l ref0) i) j = Some (t, a) -> ~ same_time tol t req
  | Some (h, j) => exists t a, nth_error (v_log (rrun l ref0) i) j = Some (t, a) /\ same_time tol t req /\
      content (run l init) h = Some a /\
      forall j' t' a', j < j' -> nth_error (v_log (rrun l ref0) i) j' = Some (t', a') -> ~ same_time tol t' req
  end.
Proof.
  intros H HO Hr. pose proof (inv_run l init ref0 inv_init H) as I.
  destruct (log_row _ _ i I) as [E Q]. set (s := run l init) in *. set (r := rrun l ref0) in *.
  unfold extract_time. unfold opened in HO.
  destruct (nth_error (times s) i) as [ts|] eqn:ET.
  2:{ apply nth_error_None in ET. lia. }
  pose proof (nth_error_nth_nil _ _ _ ET) as ET'. rewrite ET' in *.
  assert (MATCH : forall j t a, nth_error (v_log r i) j = Some (t, a) -> nth_error ts j = Some t).
  { intros j t a Hj. destruct (Q j _ Hj) as (h & _ & X & _). exact X. }
  destruct (last_match_spec (fun t => close tol t req) ts 0 None) as [[N EQ]|(j & t & H1 & H2 & H3 & H4)].
  - rewrite EQ. exists None. split; auto. intros j t a Hj S. apply (close_spec tol t req Hr) in S.
    rewrite (N j t (MATCH _ _ _ Hj)) in S. discriminate.
  - rewrite H3. cbn [plus].
    assert (J : j < length (v_log r i)). { rewrite <- E. apply nth_error_Some. congruence. }
    destruct (nth_error (v_log r i) j) as [[t0 a]|] eqn:G; [|apply nth_error_None in G; lia].
    destruct (Q j _ G) as (h & D1 & D2 & D3). cbn in D2, D3. rewrite H1 in D2. injection D2 as <-.
    unfold get_handle.
    destruct (nth_error (data s) i) as [d|] eqn:ED.
    2:{ apply nth_error_None in ED. rewrite <- (i_len _ _ I) in ED. lia. }
    rewrite (nth_error_nth_nil _ _ _ ED) in D1. rewrite D1.
    exists (Some (h, j)). split; auto. exists t, a. split; auto. split; [apply close_spec; auto|].
    split; auto. intros j' t' a' L Hj' S. apply (close_spec tol t' req Hr) in S.
    rewrite (H4 j' t' L (MATCH _ _ _ Hj')) in S. discriminate.
Qed.

(** So a stored time that is separated from the later ones is read back. *)
Theorem C11_time_partial l i tol j t a : admissible l init -> (0 < tol)%Q -> (0 <= t)%Q ->
  opened (run l init) i ->
  nth_error (v_log (rrun l ref0) i) j = Some (t, a) ->
  (forall j' t' a', j < j' -> nth_error (v_log (rrun l ref0) i) j' = Some (t', a') -> ~ same_time tol t' t) ->
  exists h, extract_time tol (run l init) i t = Ok (Some (h, j)) /\ content (run l init) h = Some a.
Proof.
  intros H Ht Hp HO HJ SEP.
  destruct (C12_time_partial l i tol t H HO Hp) as (res & E & R).
  assert (SELF : same_time tol t t).
  { assert (Z0 : (Qabs (t - t) == 0)%Q).
    { rewrite Qabs_pos; lra. }
    unfold same_time. destruct (Qeq_bool t 0) eqn:Z; [lra|].
    apply Qeq_bool_neq in Z. rewrite (Qabs_pos t) by auto. rewrite Z0.
    apply Qmult_lt_0_compat; auto. apply Qle_lteq in Hp as [?|C]; auto. exfalso. apply Z. lra. }
  destruct res as [[h j']|].
  - destruct R as (t' & a' & R1 & R2 & R3 & R4).
    assert (j' = j).
    { destruct (Nat.lt_trichotomy j j') as [L|[L|L]]; auto.
      - exfalso. eapply SEP; eauto.
      - exfalso. eapply R4; eauto. }
    subst j'. rewrite HJ in R1. injection R1 as -> ->. exists h. auto.
  - exfalso. eapply R; eauto.
Qed.

(** The neighbours of a stored positive time. *)
Theorem C11_previous_partial l i tol j t a : admissible l init -> (0 < tol)%Q -> (0 < t)%Q ->
  opened (run l init) i ->
  nth_error (v_log (rrun l ref0) i) j = Some (t, a) ->
  (forall j' t' a', j < j' -> nth_error (v_log (rrun l ref0) i) j' = Some (t', a') -> ~ same_time tol t' t) ->
  exists h hn tp tn ap an,
    extract_previous tol (run l init) i t = Ok (Some (h, tp)) /\
    nth_error (v_log (rrun l ref0) i) (j - 1) = Some (tp, ap) /\ content (run l init) h = Some ap /\
    extract_next tol (run l init) i t = Ok (Some (hn, tn)) /\
    nth_error (v_log (rrun l ref0) i) (Nat.min (S j) (length (v_log (rrun l ref0) i) - 1)) = Some (tn, an) /\
    content (run l init) hn = Some an.
Proof.
  intros H Ht Hp HO HJ SEP.
  pose proof (inv_run l init ref0 inv_init H) as I.
  destruct (C11_time_partial l i tol j t a H Ht ltac:(lra) HO HJ SEP) as (h0 & E0 & _).
  destruct (log_row _ _ i I) as [E Q]. set (s := run l init) in *. set (r := rrun l ref0) in *.
  unfold extract_time in E0. unfold extract_previous, extract_next, neighbour.
  destruct (nth_error (times s) i) as [ts|] eqn:ET; [|discriminate].
  pose proof (nth_error_nth_nil _ _ _ ET) as ET'. rewrite ET' in *.
  assert (CL : forall x, close tol x t = close_rel tol x t).
  { intros x. unfold close, close_rel. destruct (Qeq_bool t 0) eqn:Z; auto.
    apply Qeq_bool_iff in Z. lra. }
  assert (LM : forall l k acc, last_match (fun x => close_rel tol x t) l k acc = last_match (fun x => close tol x t) l k acc).
  { induction l0 as [|x l0 IH]; intros; cbn; auto. rewrite IH, CL. auto. }
  rewrite !LM. destruct (last_match (fun x => close tol x t) ts 0 None) as [j'|]; [|discriminate].
  destruct (get_handle s i j') as [h1| |]; try discriminate. injection E0 as -> ->.
  assert (JL : j < length (v_log r i)) by (apply nth_error_Some; congruence).
  assert (GET : forall k, k < length (v_log r i) -> exists h x b,
    get_handle s i k = Ok h /\ nth_error ts k = Some x /\ nth_error (v_log r i) k = Some (x, b) /\ content s h = Some b).
  { intros k Hk. destruct (nth_error (v_log r i) k) as [[x b]|] eqn:G; [|apply nth_error_None in G; lia].
    destruct (Q k _ G) as (h & D1 & D2 & D3). cbn in D2, D3. exists h, x, b.
    split; [|auto]. unfold get_handle.
    destruct (nth_error (data s) i) as [d|] eqn:ED.
    - rewrite (nth_error_nth_nil _ _ _ ED) in D1. rewrite D1. auto.
    - apply nth_error_None in ED. rewrite <- (i_len _ _ I) in ED. unfold opened in HO. lia. }
  destruct (GET (j - 1) ltac:(lia)) as (hp & tp & ap & P1 & P2 & P3 & P4).
  assert (KN : (if (j <? length ts - 1)%nat then S j else j) = Nat.min (S j) (length (v_log r i) - 1)).
  { rewrite E. destruct (Nat.ltb_spec j (length (v_log r i) - 1)); lia. }
  destruct (GET (Nat.min (S j) (length (v_log r i) - 1)) ltac:(lia)) as (hn & tn & an & N1 & N2 & N3 & N4).
  exists hp, hn, tp, tn, ap, an. rewrite P1, P2, KN, N1, N2. auto 10.
Qed.

(** The last stored state. *)
Theorem C11_last l i : admissible l init -> v_log (rrun l ref0) i <> [] ->
  exists h t a, extract_last (run l init) i = Ok (h, t) /\ content (run l init) h = Some a /\
    nth_error (v_log (rrun l ref0) i) (length (v_log (rrun l ref0) i) - 1) = Some (t, a).
Proof.
  intros H NE. pose proof (inv_run l init ref0 inv_init H) as I.
  destruct (log_row _ _ i I) as [E Q]. set (s := run l init) in *. set (r := rrun l ref0) in *.
  assert (L : 0 < length (v_log r i)) by (destruct (v_log r i); [congruence|cbn; lia]).
  destruct (nth_error (v_log r i) (length (v_log r i) - 1)) as [[t a]|] eqn:G.
  2:{ apply nth_error_None in G. lia. }
  destruct (Q _ _ G) as (h & D1 & D2 & D3). cbn in D2, D3. exists h, t, a. split; [|auto].
  unfold extract_last, get_handle.
  assert (HT : i < length (times s)).
  { destruct (le_lt_dec (length (times s)) i); auto. rewrite nth_overflow in E by auto. cbn in E. lia. }
  destruct (nth_error (times s) i) as [ts|] eqn:ET; [|apply nth_error_None in ET; lia].
  destruct (nth_error (data s) i) as [d|] eqn:ED; [|apply nth_error_None in ED; rewrite <- (i_len _ _ I) in ED; lia].
  rewrite (nth_error_nth_nil _ _ _ ET) in *. rewrite (nth_error_nth_nil _ _ _ ED) in *.
  rewrite E. replace (length (v_log r i)) with (S (length (v_log r i) - 1)) at 1 by lia.
  replace (S (length (v_log r i) - 1) - 1) with (length (v_log r i) - 1) by lia.
  rewrite D1, D2. auto.
Qed.
End S.
Print Assumptions C11_index.
Print Assumptions C11_time_partial.
Print Assumptions C11_previous_partial.
Print Assumptions C11_last.
Print Assumptions C12_time_partial.

(** A history with two sets, a reset, and a mutation of the caller's vector. *)
Definition h1 : list (op nat) :=
  [New 10; Store 0 1%Q 0; Write 0 11; Store 0 2%Q 0; Store 0 1%Q 1; Write 0 99; Store 0 3%Q 0].
Example C11_history :
  admissible h1 init /\ v_log (rrun h1 ref0) 0 = [(1%Q, 10); (2%Q, 11); (3%Q, 99)] /\
  v_log (rrun h1 ref0) 1 = [(1%Q, 11)] /\ opened (run h1 init) 0 /\
  extract_time (1#100) (run h1 init) 0 2%Q = Ok (Some (2, 1)).
Proof.
  split; [cbn; intuition lia|]. split; [reflexivity|]. split; [reflexivity|]. split; [unfold opened; cbn; lia|].
  vm_compute. reflexivity.
Qed.

(** Negative times: any request below zero is "found" in any non-empty set, with the
    last state; here -5 is found among the times 1 and 2. *)
Theorem C12_negative_time_refuted :
  exists (l : list (op nat)), admissible l init /\ v_log (rrun l ref0) 0 = [(1%Q, 10); (2%Q, 20)] /\
    exists h, extract_time (1#100) (run l init) 0 (-5 # 1) = Ok (Some (h, 1)) /\
      content (run l init) h = Some 20.
Proof.
  exists [New 10; Store 0 1%Q 0; New 20; Store 2 2%Q 0]. split; [cbn; intuition lia|].
  split; [reflexivity|]. exists 3. vm_compute. auto.
Qed.

(** In general: below zero the last stored state is delivered for every request. *)
Theorem C12_negative_time_always {A} (l : list (op A)) i tol req : admissible l init -> (0 < tol)%Q -> (req < 0)%Q ->
  v_log (rrun l ref0) i <> [] ->
  exists h a t, extract_time tol (run l init) i req = Ok (Some (h, length (v_log (rrun l ref0) i) - 1)) /\
    content (run l init) h = Some a /\
    nth_error (v_log (rrun l ref0) i) (length (v_log (rrun l ref0) i) - 1) = Some (t, a).
Proof.
  intros H Ht Hr NE. destruct (C11_last l i H NE) as (h & t & a & E & C & N).
  pose proof (inv_run l init ref0 inv_init H) as I. destruct (log_row _ _ i I) as [EL _].
  exists h, a, t. split; [|auto].
  unfold extract_last in E. unfold extract_time.
  destruct (nth_error (times (run l init)) i) as [ts|] eqn:ET; [|discriminate].
  rewrite (nth_error_nth_nil _ _ _ ET) in EL. rewrite <- EL.
  destruct (last_match_spec (fun t => close tol t req) ts 0 None) as [[F _]|(j & t' & H1 & H2 & H3 & H4)].
  - exfalso. destruct ts as [|x ts]; [destruct (v_log (rrun l ref0) i); [congruence|discriminate]|].
    specialize (F 0 x eq_refl). revert F. unfold close.
    destruct (Qeq_bool req 0) eqn:Z; [apply Qeq_bool_iff in Z; lra|]. cbn [negb].
    intros F. apply negb_false_iff in F. apply Qle_bool_iff in F.
    assert (X : (Qabs (x - req) / req <= 0)%Q).
    { setoid_replace (Qabs (x - req) / req)%Q with (- (Qabs (x - req) / (- req)))%Q by (field; lra).
      assert (Y : (0 <= Qabs (x - req) / (- req))%Q).
      { apply Qle_shift_div_l; [lra|]. pose proof (Qabs_nonneg (x - req)). lra. }
      lra. }
    lra.
  - assert (j = length ts - 1).
    { assert (j < length ts) by (apply nth_error_Some; congruence).
      destruct (Nat.eq_dec j (length ts - 1)) as [|NEQ]; auto. exfalso.
      destruct (nth_error ts (length ts - 1)) as [y|] eqn:Y; [|apply nth_error_None in Y; lia].
      specialize (H4 (length ts - 1) y ltac:(lia) Y). revert H4. unfold close.
      destruct (Qeq_bool req 0) eqn:Z; [apply Qeq_bool_iff in Z; lra|]. cbn [negb].
      intros F. apply negb_false_iff in F. apply Qle_bool_iff in F.
      assert (Y' : (0 <= Qabs (y - req) / (- req))%Q).
      { apply Qle_shift_div_l; [lra|]. pose proof (Qabs_nonneg (y - req)). lra. }
      assert (X : (Qabs (y - req) / req == - (Qabs (y - req) / (- req)))%Q) by (field; lra).
      lra. }
    subst j. rewrite H3. cbn [plus].
    destruct (length ts) as [|n] eqn:LT; [discriminate|].
    destruct (get_handle (run l init) i n) as [h'| |] eqn:GH; try discriminate.
    replace (S n - 1) with n by lia. rewrite GH.
    destruct (nth_error ts n); [|discriminate]. injection E as -> ->. auto.
Qed.
Print Assumptions C12_negative_time_always.

(** Time zero is never found by extractPrevious/extractNext although it is stored. *)
Theorem C11_previous_of_zero_refuted :
  exists (l : list (op nat)), admissible l init /\ v_log (rrun l ref0) 0 = [(0%Q, 10)] /\
    extract_time (1#100) (run l init) 0 0%Q = Ok (Some (1, 0)) /\
    extract_previous (1#100) (run l init) 0 0%Q = Ok None.
Proof. exists [New 10; Store 0 0%Q 0]. cbn. intuition lia. Qed.

(** A handle obtained from the storage is not a copy: writing through it changes the
    stored state. *)
Theorem C11_extracted_alias_refuted :
  exists (l : list (op nat)) h, extract_index (run l init) 0 0 = Some h /\
    content (run l init) h = Some 10 /\
    content (run (l ++ [Write h 7]) init) h = Some 7 /\
    extract_index (run (l ++ [Write h 7]) init) 0 0 = Some h.
Proof. exists [New 10; Store 0 1%Q 0], 1. cbn. auto. Qed.

(** Opening set 2 first puts the state into set 0. *)
Theorem C11_gap_refuted :
  exists (l : list (op nat)), v_log (rrun l ref0) 2 = [(1%Q, 10)] /\
    extract_index (run l init) 0 2 = None /\ extract_index (run l init) 0 0 = Some 1.
Proof. exists [New 10; Store 0 1%Q 2]. cbn. auto. Qed.
