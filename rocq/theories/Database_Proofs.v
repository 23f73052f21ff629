(** Lemmas about the database search. *)
From Coq Require Import List Arith Bool Lia.
From Verif Require Import Database_Model.
Import ListNotations.

Section Search.
  Context {E : Type} (matches : E -> E -> bool).

  Notation find_from := (find_from matches).
  Notation place := (place matches).

  Lemma find_from_some e db p i :
    find_from e db p = Some i ->
    p <= i /\ exists r, nth_error db (i - p) = Some r /\ matches e r = true
    /\ forall j r', j < i - p -> nth_error db j = Some r' -> matches e r' = false.
  Proof.
    revert p; induction db as [|r db IH]; cbn [Database_Model.find_from]; intros p H; [discriminate|].
    destruct (matches e r) eqn:M.
    - injection H as <-. split; [lia|]. exists r. rewrite Nat.sub_diag. split; [reflexivity|].
      split; [auto|]. intros; lia.
    - apply IH in H. destruct H as (L & r' & N & Hm & Hf). split; [lia|]. exists r'.
      replace (i - p) with (S (i - S p)) by lia. split; [exact N|]. split; [auto|].
      intros [|j] r'' Hj Hn; cbn in Hn; [congruence|]. apply (Hf j); auto; lia.
  Qed.

  Lemma find_from_none e db p :
    find_from e db p = None -> forall r, In r db -> matches e r = false.
  Proof.
    revert p; induction db as [|r db IH]; cbn [Database_Model.find_from]; intros p H x Hx; [destruct Hx|].
    destruct (matches e r) eqn:M; [discriminate|]. destruct Hx as [->|Hx]; [auto|]. eapply IH; eauto.
  Qed.

  (** Flattened loop. *)
  Record item := { any : bool; pos : nat * nat; elt : E }.

  Fixpoint run (l : list item) (st : list E * list (nat * nat)) :=
    match l with
    | [] => ([], st)
    | it :: l' =>
        let '(i, st1) := place (any it) (pos it) (elt it) st in
        let '(is, st2) := run l' st1 in (i :: is, st2)
    end.

  Fixpoint items_of (any : bool) (g k : nat) (es : list E) : list item :=
    match es with
    | [] => []
    | e :: es' => {| any := any; pos := (g, k); elt := e |} :: items_of any g (S k) es'
    end.

  Lemma place_all_run a g es : forall k st,
    place_all matches a g k es st = run (items_of a g k es) st.
  Proof.
    induction es as [|e es IH]; intros k st; cbn [place_all items_of run any pos elt]; [reflexivity|].
    destruct (place a (g, k) e st) as [i st1]. rewrite IH. reflexivity.
  Qed.

  Lemma run_app l1 l2 st :
    run (l1 ++ l2) st = let '(is1, st1) := run l1 st in
                        let '(is2, st2) := run l2 st1 in (is1 ++ is2, st2).
  Proof.
    revert st; induction l1 as [|it l1 IH]; intros st; cbn [app run].
    - destruct (run l2 st); reflexivity.
    - destruct (place (any it) (pos it) (elt it) st) as [i st1]. rewrite IH.
      destruct (run l1 st1) as [is1 st2]. destruct (run l2 st2); reflexivity.
  Qed.

  Fixpoint all_items (lim g : nat) (groups : list (list E)) : list item :=
    match groups with
    | [] => []
    | es :: gs => items_of (length es <? lim) g 0 es ++ all_items lim (S g) gs
    end.

  Lemma items_of_length a g k es : length (items_of a g k es) = length es.
  Proof. revert k; induction es; intros k; cbn; auto. Qed.

  Lemma run_length l st is st' : run l st = (is, st') -> length is = length l.
  Proof.
    revert st is; induction l as [|it l IH]; intros st is H; cbn [run] in H.
    - injection H as <- <-; reflexivity.
    - destruct (place (any it) (pos it) (elt it) st) as [i st1].
      destruct (run l st1) as [is1 st2] eqn:R. injection H as <- <-. cbn. f_equal. eapply IH; eauto.
  Qed.

  Lemma identify_run lim groups : forall g st,
    let '(iss, st') := identify matches lim g groups st in
    run (all_items lim g groups) st = (concat iss, st')
    /\ map (@length nat) iss = map (@length E) groups.
  Proof.
    induction groups as [|es gs IH]; intros g st; cbn [identify all_items run concat map].
    - split; reflexivity.
    - rewrite place_all_run. destruct (run (items_of (length es <? lim) g 0 es) st) as [is st1] eqn:R.
      specialize (IH (S g) st1). destruct (identify matches lim (S g) gs st1) as [iss st2].
      destruct IH as [IH1 IH2]. rewrite run_app, R, IH1. cbn [concat map]. split; [reflexivity|].
      rewrite IH2. f_equal. apply run_length in R. rewrite items_of_length in R. exact R.
  Qed.

  (** Main invariant. *)
  Definition run_post (l : list item) (db : list E) (users : list (nat * nat))
      (is : list nat) (db' : list E) (users' : list (nat * nat)) : Prop :=
    exists ext : list item,
      db' = db ++ map elt ext /\ users' = users ++ map pos ext
      /\ length is = length l
      (* every stored representative is an element, and is assigned to itself *)
      /\ (forall m it, nth_error ext m = Some it -> exists k, nth_error l k = Some it
            /\ nth_error is k = Some (length db + m))
      (* every element gets a stored representative *)
      /\ (forall k it i, nth_error l k = Some it -> nth_error is k = Some i ->
            exists r u, nth_error db' i = Some r /\ nth_error users' i = Some u
              /\ (matches (elt it) r = true \/ (u = pos it /\ r = elt it)))
      (* representatives stored from large groups match no earlier one *)
      /\ (forall m it i r, nth_error ext m = Some it -> any it = false ->
            i < length db + m -> nth_error db' i = Some r -> matches (elt it) r = false)
      (* elements of small groups are all stored *)
      /\ (forall k it i, nth_error l k = Some it -> nth_error is k = Some i -> any it = true ->
            nth_error users' i = Some (pos it)).

  Lemma nth_error_app_left {A} (l l' : list A) i x :
    nth_error l i = Some x -> nth_error (l ++ l') i = Some x.
  Proof.
    intros H. rewrite nth_error_app1; auto. apply nth_error_Some. congruence.
  Qed.

  Lemma run_spec l : forall db users is st',
    length db = length users ->
    run l (db, users) = (is, st') ->
    run_post l db users is (fst st') (snd st').
  Proof.
    induction l as [|it l IH]; intros db users is st' HL H; cbn [run] in H.
    - injection H as <- <-. exists []. cbn [map fst snd]. rewrite !app_nil_r.
      repeat split; auto; intros [|?] ? *; discriminate.
    - destruct (place (any it) (pos it) (elt it) (db, users)) as [i st1] eqn:P.
      destruct (run l st1) as [is1 st2] eqn:R. injection H as <- <-.
      assert (C : (exists r, any it = false /\ st1 = (db, users) /\ nth_error db i = Some r
                    /\ matches (elt it) r = true)
               \/ (i = length db /\ st1 = (db ++ [elt it], users ++ [pos it])
                    /\ (any it = false -> forall r, In r db -> matches (elt it) r = false))).
      { unfold Database_Model.place in P. destruct (find_from (elt it) db 0) as [j|] eqn:F; destruct (any it) eqn:A;
          injection P as <- <-.
        - right. split; [auto|]. split; [auto|]. discriminate.
        - left. apply find_from_some in F. destruct F as (_ & r & N & M & _). rewrite Nat.sub_0_r in N.
          exists r. auto.
        - right. split; [auto|]. split; [auto|]. discriminate.
        - right. split; [auto|]. split; [auto|]. intros _ r Hr. eapply find_from_none; eauto. }
      destruct C as [(r & A & -> & N & M)|(-> & -> & NM)].
      + apply IH in R; [|auto]. destruct R as (ext & D & U & L & S1 & S2 & S3 & S4).
        exists ext. split; [auto|]. split; [auto|]. split; [cbn; f_equal; auto|].
        split; [|split; [|split]].
        * intros m x Hx. destruct (S1 m x Hx) as (k & K1 & K2). exists (S k). auto.
        * intros [|k] x i' Hx Hi; cbn in Hx, Hi; [|eapply S2; eauto].
          injection Hx as <-. injection Hi as <-. rewrite D, U.
          assert (i < length users) by (rewrite <- HL; apply nth_error_Some; congruence).
          destruct (nth_error users i) as [u|] eqn:Eu; [|apply nth_error_None in Eu; lia].
          exists r, u. split; [apply nth_error_app_left; auto|]. split; [apply nth_error_app_left; auto|]. auto.
        * exact S3.
        * intros [|k] x i' Hx Hi Ha; cbn in Hx, Hi; [injection Hx as <-; congruence|]. eapply S4; eauto.
      + apply IH in R; [|rewrite !app_length; cbn; lia].
        destruct R as (ext & D & U & L & S1 & S2 & S3 & S4).
        exists (it :: ext). cbn [map].
        assert (D' : fst st2 = db ++ elt it :: map elt ext) by (rewrite D, <- app_assoc; reflexivity).
        assert (U' : snd st2 = users ++ pos it :: map pos ext) by (rewrite U, <- app_assoc; reflexivity).
        split; [auto|]. split; [auto|].
        split; [cbn; f_equal; auto|].
        assert (Hd : nth_error (fst st2) (length db) = Some (elt it)).
        { rewrite D', nth_error_app2, Nat.sub_diag by lia. reflexivity. }
        assert (Hu : nth_error (snd st2) (length db) = Some (pos it)).
        { rewrite U', nth_error_app2, HL, Nat.sub_diag by lia. reflexivity. }
        split; [|split; [|split]].
        * intros [|m] x Hx; cbn in Hx.
          -- injection Hx as <-. exists 0. cbn. split; auto.
          -- destruct (S1 m x Hx) as (k & K1 & K2). exists (S k). split; [auto|]. cbn. rewrite K2.
             f_equal. rewrite app_length. cbn. lia.
        * intros [|k] x i' Hx Hi; cbn in Hx, Hi; [|eapply S2; eauto].
          injection Hx as <-. injection Hi as <-. exists (elt it), (pos it). auto.
        * intros [|m] x i' r Hx Ha Hi Hr; cbn in Hx.
          -- injection Hx as <-. apply NM; auto. rewrite D', nth_error_app1 in Hr by lia.
             eapply nth_error_In; eauto.
          -- eapply (S3 m x i' r); eauto. rewrite app_length. cbn. lia.
        * intros [|k] x i' Hx Hi Ha; cbn in Hx, Hi; [|eapply S4; eauto].
          injection Hx as <-. injection Hi as <-. exact Hu.
  Qed.

  (** Positions in the flattened loop. *)
  Definition at2 {A} (t : list (list A)) (p : nat * nat) : option A :=
    match nth_error t (fst p) with Some row => nth_error row (snd p) | None => None end.

  Lemma items_of_nth a g es : forall k0 k,
    nth_error (items_of a g k0 es) k =
    option_map (fun e => {| any := a; pos := (g, k0 + k); elt := e |}) (nth_error es k).
  Proof.
    induction es as [|e es IH]; intros k0 [|k]; cbn [items_of nth_error option_map]; auto.
    - rewrite Nat.add_0_r. reflexivity.
    - rewrite IH. destruct (nth_error es k); cbn; auto. do 3 f_equal. lia.
  Qed.

  (** A flat position and a (group, element) position correspond. *)
  Lemma flat_of_pos lim groups (iss : list (list nat)) : forall g0 g k e,
    map (@length nat) iss = map (@length E) groups ->
    at2 groups (g, k) = Some e ->
    exists n, nth_error (all_items lim g0 groups) n =
        Some {| any := length (nth g groups []) <? lim; pos := (g0 + g, k); elt := e |}
      /\ nth_error (concat iss) n = at2 iss (g, k).
  Proof.
    revert iss; induction groups as [|es gs IH]; intros iss g0 g k e HL Ha.
    - destruct g; discriminate.
    - destruct iss as [|is iss]; [discriminate|]. cbn [map] in HL. injection HL as HL1 HL2.
      destruct g as [|g]; unfold at2 in *; cbn [fst snd nth_error] in *.
      + assert (k < length es) by (apply nth_error_Some; congruence).
        exists k. cbn [all_items nth concat]. rewrite !nth_error_app1; [|lia|rewrite items_of_length; auto].
        rewrite items_of_nth, Ha. cbn. rewrite Nat.add_0_r. auto.
      + destruct (IH iss (S g0) g k e HL2 Ha) as (n & N1 & N2).
        exists (length es + n). cbn [all_items nth concat].
        rewrite !nth_error_app2; try rewrite items_of_length; try lia.
        rewrite HL1. replace (length es + n - length es) with n by lia. rewrite N1, N2.
        split; [|reflexivity]. do 3 f_equal. lia.
  Qed.

  Lemma pos_of_flat lim groups (iss : list (list nat)) : forall g0 n it,
    map (@length nat) iss = map (@length E) groups ->
    nth_error (all_items lim g0 groups) n = Some it ->
    exists g k, pos it = (g0 + g, k) /\ at2 groups (g, k) = Some (elt it)
      /\ any it = (length (nth g groups []) <? lim)
      /\ nth_error (concat iss) n = at2 iss (g, k).
  Proof.
    revert iss; induction groups as [|es gs IH]; intros iss g0 n it HL Hn.
    - destruct n; discriminate.
    - destruct iss as [|is iss]; [discriminate|]. cbn [map] in HL. injection HL as HL1 HL2.
      cbn [all_items] in Hn. destruct (lt_dec n (length es)).
      + rewrite nth_error_app1 in Hn by (rewrite items_of_length; auto).
        rewrite items_of_nth in Hn. destruct (nth_error es n) as [e|] eqn:En; [|discriminate].
        injection Hn as <-. exists 0, n. cbn. rewrite Nat.add_0_r. split; [auto|].
        unfold at2; cbn. split; [auto|]. split; [auto|]. rewrite nth_error_app1 by lia. reflexivity.
      + rewrite nth_error_app2 in Hn by (rewrite items_of_length; lia).
        rewrite items_of_length in Hn.
        destruct (IH iss (S g0) (n - length es) it HL2 Hn) as (g & k & P1 & P2 & P3 & P4).
        exists (S g), k. split; [rewrite P1; f_equal; lia|]. split; [exact P2|]. split; [exact P3|].
        cbn [concat]. rewrite nth_error_app2 by lia. rewrite HL1, P4. reflexivity.
  Qed.

  Theorem identify_spec lim groups idx db users :
    identify matches lim 0 groups ([], []) = (idx, (db, users)) ->
    map (@length nat) idx = map (@length E) groups
    /\ (forall p e, at2 groups p = Some e -> exists i q r,
          at2 idx p = Some i /\ nth_error users i = Some q /\ at2 groups q = Some r
          /\ nth_error db i = Some r /\ (matches e r = true \/ q = p))
    /\ (forall i q, nth_error users i = Some q -> at2 idx q = Some i)
    /\ (forall i j qi qj ri rj, i < j -> nth_error users i = Some qi -> nth_error users j = Some qj ->
          at2 groups qi = Some ri -> at2 groups qj = Some rj ->
          lim <= length (nth (fst qj) groups []) -> matches rj ri = false)
    /\ (forall p e i, at2 groups p = Some e -> length (nth (fst p) groups []) < lim ->
          at2 idx p = Some i -> nth_error users i = Some p).
  Proof.
    intros H. pose proof (identify_run lim groups 0 ([], [])) as R. rewrite H in R.
    destruct R as [R HL]. apply run_spec in R; [|reflexivity].
    destruct R as (ext & D & U & L & S1 & S2 & S3 & S4). cbn [fst snd app length] in *.
    assert (HE : forall i q, nth_error users i = Some q -> exists it, nth_error ext i = Some it /\ pos it = q
                   /\ nth_error db i = Some (elt it) /\ at2 groups q = Some (elt it)
                   /\ any it = (length (nth (fst q) groups []) <? lim) /\ at2 idx q = Some i).
    { intros i q Hq. rewrite U, nth_error_map in Hq. destruct (nth_error ext i) as [it|] eqn:Ei; [|discriminate].
      injection Hq as <-. exists it. split; [auto|]. split; [auto|].
      split; [rewrite D, nth_error_map, Ei; auto|].
      destruct (S1 i it Ei) as (n & N1 & N2).
      destruct (pos_of_flat lim groups idx 0 n it HL N1) as (g & k & P1 & P2 & P3 & P4).
      rewrite P1. cbn [plus fst]. split; [auto|]. split; [auto|]. rewrite <- P4. auto. }
    split; [exact HL|]. split; [|split; [|split]].
    - intros [g k] e He. destruct (flat_of_pos lim groups idx 0 g k e HL He) as (n & N1 & N2).
      assert (Hn : n < length (all_items lim 0 groups)) by (apply nth_error_Some; congruence).
      destruct (nth_error (concat idx) n) as [i|] eqn:Ei; [|apply nth_error_None in Ei; lia].
      destruct (S2 n _ i N1 Ei) as (r & u & R1 & R2 & R3). cbn [elt pos plus] in R3.
      destruct (HE i u R2) as (it & _ & _ & Hd & Hg & _ & _).
      exists i, u, r. split; [auto|]. split; [auto|]. split; [congruence|]. split; [auto|].
      destruct R3 as [|[-> ->]]; auto.
    - intros i q Hq. destruct (HE i q Hq) as (it & _ & _ & _ & _ & _ & X). exact X.
    - intros i j qi qj ri rj Hij Hi Hj Gi Gj Hl.
      destruct (HE i qi Hi) as (ii & _ & _ & Di & Gi' & _). destruct (HE j qj Hj) as (ij & Ej & _ & Dj & Gj' & Aj & _).
      assert (elt ij = rj) by congruence. subst rj.
      apply (S3 j ij i ri Ej); [rewrite Aj; apply Nat.ltb_ge; lia|auto|congruence].
    - intros [g k] e i He Hs Hi. destruct (flat_of_pos lim groups idx 0 g k e HL He) as (n & N1 & N2).
      rewrite Hi in N2. apply (S4 n _ i N1) in N2; [exact N2|]. apply Nat.ltb_lt. exact Hs.
  Qed.
End Search.
