(** Sums of optimization vectors over batches: C353-C354. *)
From Coq Require Import Bool Arith Lia Reals Lra List.
From Verif Require Import Outcome BProj_Model BProj_Proofs Ranks_Model Ranks_Props Batch_Model.
Import ListNotations.
Local Open Scope R_scope.
Local Notation length := List.length.

(** *** Specification *)

(** Entry [i] of column [c] of field part [t]; entry [i] of scalar part [t]. *)
Definition field_at (v : bvec) (t c i : nat) : R := nth i (nth c (nth t (bv_fields v) []) []) 0.
Definition scalar_at (v : bvec) (t i : nat) : R := nth i (nth t (bv_scalars v) []) 0.

(** Vectors of one space: same parts, columns and sizes. *)
Definition like (a b : bvec) : Prop :=
  map (map (@length R)) (bv_fields a) = map (map (@length R)) (bv_fields b) /\
  map (@length R) (bv_scalars a) = map (@length R) (bv_scalars b).

Lemma raw_nth len parts i : (forall p, In p parts -> length p = len) ->
  nth i (sum_raw len parts) 0 = sm parts (fun p => nth i p 0).
Proof.
  intros H. unfold sum_raw. destruct (lt_dec i len) as [L|L].
  - set (F := fun i => sm parts (fun p => nth i p 0)).
    rewrite (nth_indep _ 0 (F 0%nat)) by (rewrite map_length, seq_length; exact L).
    rewrite (map_nth F), seq_nth by exact L. reflexivity.
  - rewrite nth_overflow by (rewrite map_length, seq_length; lia). symmetry. apply sm_zero.
    intros p Hp. apply nth_overflow. rewrite (H p Hp). lia.
Qed.

Lemma like_col a b t c : like a b ->
  length (nth c (nth t (bv_fields a) []) []) = length (nth c (nth t (bv_fields b) []) []).
Proof.
  intros (H & _).
  rewrite <- (map_nth (@length R)). rewrite <- (map_nth (@length R)).
  rewrite <- (map_nth (map (@length R))). rewrite <- (map_nth (map (@length R))).
  cbn [map]. rewrite H. reflexivity.
Qed.
Lemma like_cols a b t : like a b ->
  length (nth t (bv_fields a) []) = length (nth t (bv_fields b) []).
Proof.
  intros (H & _).
  rewrite <- (map_length (@length R)). symmetry. rewrite <- (map_length (@length R)). symmetry.
  rewrite <- !(map_nth (map (@length R))). cbn [map]. rewrite H. reflexivity.
Qed.
Lemma like_sc a b t : like a b -> length (nth t (bv_scalars a) []) = length (nth t (bv_scalars b) []).
Proof. intros (_ & H). rewrite <- !(map_nth (@length R)). cbn [length]. rewrite H. reflexivity. Qed.
Lemma like_len a b : like a b -> length (bv_fields a) = length (bv_fields b) /\ length (bv_scalars a) = length (bv_scalars b).
Proof.
  intros (H & G). apply (f_equal (@length _)) in H, G. rewrite !map_length in H, G. auto.
Qed.

(** The call succeeds on vectors of one space; the first parts of the output are
    the sums over processes and the other parts keep their old values. *)
Theorem sum_all_spec ins inp out : In inp ins -> (forall p, In p ins -> like p inp) -> like out inp ->
  exists r, sum_all ins inp out = Some r /\
    (forall c i, bv_fields inp <> [] -> field_at r 0 c i = sm ins (fun p => field_at p 0 c i)) /\
    (forall i, bv_scalars inp <> [] -> scalar_at r 0 i = sm ins (fun p => scalar_at p 0 i)) /\
    (forall t c i, field_at r (S t) c i = field_at out (S t) c i) /\
    (forall t i, scalar_at r (S t) i = scalar_at out (S t) i) /\
    length (bv_fields r) = length (bv_fields out) /\ length (bv_scalars r) = length (bv_scalars out).
Proof.
  intros _ HL HO. destruct (like_len _ _ HO) as (LF & LS).
  assert (F : exists f, (match bv_fields inp, bv_fields out with
    | [], o => Some o
    | i0 :: _, o0 :: o =>
        match sum_field (map (fun p => first_of [] (bv_fields p)) ins) i0 o0 with
        | Some r => Some (r :: o) | None => None end
    | _ :: _, [] => None end) = Some f /\
    (forall c i, bv_fields inp <> [] -> nth i (nth c (nth 0 f []) []) 0 = sm ins (fun p => field_at p 0 c i)) /\
    (forall t c i, nth i (nth c (nth (S t) f []) []) 0 = field_at out (S t) c i) /\ length f = length (bv_fields out)).
  { pose proof (like_cols out inp 0 HO) as CC. pose proof (fun c => like_col out inp 0 c HO) as CL.
    pose proof (fun p (Hp : In p ins) c => like_col p inp 0 c (HL p Hp)) as PL.
    unfold field_at. destruct (bv_fields inp) as [|i0 it] eqn:EI, (bv_fields out) as [|o0 ot] eqn:EO; cbn [length] in LF; try lia.
    - exists []. repeat split; auto. congruence.
    - cbn [nth] in *.
      unfold sum_field. rewrite CC, Nat.eqb_refl. cbn [andb].
      assert (B : forallb (fun ab => (length (fst ab) =? length (snd ab))%nat) (combine i0 o0) = true).
      { apply forallb_forall. intros (x, y) Hxy. cbn [fst snd]. apply Nat.eqb_eq.
        apply (In_nth _ _ ([], [])) in Hxy as (c & Hc & E). rewrite combine_nth in E by lia. injection E as <- <-.
        symmetry. apply CL. }
      rewrite B. eexists. split; [reflexivity|]. split; [|split].
      + intros c i _. cbn [nth]. destruct (lt_dec c (length i0)) as [L|L].
        * set (G := fun c0 => sum_raw (length (nth c0 i0 [])) (map (fun p => nth c0 p []) (map (fun p => first_of [] (bv_fields p)) ins))).
          rewrite (nth_indep _ [] (G 0%nat)) by (rewrite map_length, seq_length; exact L).
          rewrite (map_nth G), seq_nth by exact L. unfold G. cbn [Nat.add]. rewrite map_map. rewrite raw_nth.
          -- rewrite sm_map. reflexivity.
          -- intros p Hp. apply in_map_iff in Hp as (q & <- & Hq). exact (PL q Hq c).
        * rewrite (nth_overflow _ []) by (rewrite map_length, seq_length; lia).
          rewrite (nth_overflow [] 0) by (cbn; lia). symmetry. apply sm_zero. intros p Hp.
          apply nth_overflow. rewrite (PL p Hp c). rewrite (nth_overflow i0) by lia. cbn. lia.
      + reflexivity.
      + reflexivity. }
  assert (S : exists s, (match bv_scalars inp, bv_scalars out with
    | [], o => Some o
    | i0 :: _, o0 :: o =>
        match sum_scalar (map (fun p => first_of [] (bv_scalars p)) ins) i0 o0 with
        | Some r => Some (r :: o) | None => None end
    | _ :: _, [] => None end) = Some s /\
    (forall i, bv_scalars inp <> [] -> nth i (nth 0 s []) 0 = sm ins (fun p => scalar_at p 0 i)) /\
    (forall t i, nth i (nth (S t) s []) 0 = scalar_at out (S t) i) /\ length s = length (bv_scalars out)).
  { pose proof (like_sc out inp 0 HO) as CC.
    pose proof (fun p (Hp : In p ins) => like_sc p inp 0 (HL p Hp)) as PL.
    unfold scalar_at. destruct (bv_scalars inp) as [|i0 it] eqn:EI, (bv_scalars out) as [|o0 ot] eqn:EO; cbn [length] in LS; try lia.
    - exists []. repeat split; auto. congruence.
    - cbn [nth] in *. unfold sum_scalar. rewrite CC, Nat.eqb_refl. eexists. split; [reflexivity|]. split; [|split].
      + intros i _. cbn [nth]. rewrite raw_nth.
        * rewrite sm_map. reflexivity.
        * intros p Hp. apply in_map_iff in Hp as (q & <- & Hq). exact (PL q Hq).
      + reflexivity.
      + reflexivity. }
  destruct F as (f & EF & F0 & F1 & F2), S as (s & ES & S0 & S1 & S2).
  exists (BV f s). unfold sum_all. rewrite EF, ES. unfold field_at at 1 3, scalar_at at 1 3. cbn [bv_fields bv_scalars].
  repeat split; auto.
Qed.

(** *** C353 *)

(** With at most one field and one scalar part, the output on every process is
    the sum of the inputs of all. *)
Theorem C353_sums ins inp out : In inp ins -> (forall p, In p ins -> like p inp) -> like out inp ->
  (length (bv_fields inp) <= 1)%nat -> (length (bv_scalars inp) <= 1)%nat ->
  exists r, sum_all ins inp out = Some r /\
    (forall t c i, field_at r t c i = sm ins (fun p => field_at p t c i)) /\
    (forall t i, scalar_at r t i = sm ins (fun p => scalar_at p t i)).
Proof.
  intros HI HL HO L1 L2. destruct (sum_all_spec ins inp out HI HL HO) as (r & E & A & B & _ & _ & LF & LS).
  destruct (like_len _ _ HO) as (OF & OS).
  assert (NF : forall (p : bvec) t c i, (length (bv_fields p) <= t)%nat -> field_at p t c i = 0).
  { intros p t c i H. unfold field_at. rewrite (nth_overflow (bv_fields p)) by exact H. destruct c, i; reflexivity. }
  assert (NS : forall (p : bvec) t i, (length (bv_scalars p) <= t)%nat -> scalar_at p t i = 0).
  { intros p t i H. unfold scalar_at. rewrite (nth_overflow (bv_scalars p)) by exact H. destruct i; reflexivity. }
  exists r. split; [exact E|]. split.
  - intros t c i. destruct (lt_dec t (length (bv_fields inp))) as [T|T].
    + assert (t = 0%nat) as -> by lia. apply A. intros C. rewrite C in T. cbn in T. lia.
    + rewrite NF by lia. symmetry. apply sm_zero. intros p Hp. apply NF. rewrite (proj1 (like_len _ _ (HL p Hp))). lia.
  - intros t i. destruct (lt_dec t (length (bv_scalars inp))) as [T|T].
    + assert (t = 0%nat) as -> by lia. apply B. intros C. rewrite C in T. cbn in T. lia.
    + rewrite NS by lia. symmetry. apply sm_zero. intros p Hp. apply NS. rewrite (proj2 (like_len _ _ (HL p Hp))). lia.
Qed.
Print Assumptions C353_sums.

(** The mean gradient of a stochastic objective: each process adds its samples
    times weights; the sum over processes is the weighted sum over all samples
    that were read, whatever the number of processes. *)
Theorem C353_mean n dim P fpt fwt parts (g : list R -> nat -> R) len :
  (0 < P)%nat ->
  map_outcome (fun r => local_samples n dim P r fpt fwt) (seq 0 P) = Ok parts ->
  let local (part : list (list R * R)) := BV [] [map (fun i => wsum (fun p => g p i) part) (seq 0 len)] in
  forall part out, In part parts -> like out (local part) ->
  exists r, sum_all (map local parts) (local part) out = Some r /\
    forall i, (i < len)%nat -> scalar_at r 0 i = wsum (fun p => g p i) (samples_read n dim fpt fwt).
Proof.
  intros HP E local part out Hp HO.
  assert (LK : forall p, In p (map local parts) -> like p (local part)).
  { intros p Hq. apply in_map_iff in Hq as (q & <- & _). split; [reflexivity|]. cbn. now rewrite !map_length. }
  destruct (C353_sums (map local parts) (local part) out (in_map _ _ _ Hp) LK HO) as (r & R & _ & S); [cbn; lia|cbn; lia|].
  exists r. split; [exact R|]. intros i Hi. rewrite S, sm_map.
  destruct (C38_samples_once n dim P fpt fwt HP) as (parts' & E' & _ & _ & W).
  rewrite E in E'. injection E' as <-. rewrite <- W. unfold sm, Sparse_Model.rsum. f_equal. apply map_ext.
  intros a. unfold local, scalar_at. cbn [bv_scalars nth].
  set (F := fun i => wsum (fun p => g p i) a).
  rewrite (nth_indep _ 0 (F 0%nat)) by (rewrite map_length, seq_length; exact Hi).
  rewrite (map_nth F), seq_nth by exact Hi. reflexivity.
Qed.
Print Assumptions C353_mean.

Example C353_case :
  let a := BV [[[1; 2]]] [[3]] in let b := BV [[[10; 20]]] [[30]] in
  like b a /\ exists r, sum_all [a; b] a b = Some r /\ field_at r 0 0 1 = 22 /\ scalar_at r 0 0 = 33.
Proof.
  cbv zeta. split; [split; reflexivity|]. eexists. split; [reflexivity|].
  unfold field_at, scalar_at, sm, Sparse_Model.rsum. cbn. split; ring.
Qed.

(** *** C354 *)

(** Wanted: the sum for time dependent parameters as well.  The first time step is
    summed.  Missing: the other time steps. *)
Theorem C354_dynamic_partial ins inp out : In inp ins -> (forall p, In p ins -> like p inp) -> like out inp ->
  exists r, sum_all ins inp out = Some r /\
    (forall c i, bv_fields inp <> [] -> field_at r 0 c i = sm ins (fun p => field_at p 0 c i)) /\
    (forall i, bv_scalars inp <> [] -> scalar_at r 0 i = sm ins (fun p => scalar_at p 0 i)).
Proof. intros A B C. destruct (sum_all_spec ins inp out A B C) as (r & E & F & G & _). exists r. auto. Qed.
Print Assumptions C354_dynamic_partial.

(** Later time steps of the output keep what they held before the call; the
    gradient of a time dependent parameter is not summed over processes. *)
Theorem C354_dynamic_refuted :
  (forall ins inp out r, In inp ins -> (forall p, In p ins -> like p inp) -> like out inp ->
     sum_all ins inp out = Some r ->
     forall t, (forall c i, field_at r (S t) c i = field_at out (S t) c i) /\
               (forall i, scalar_at r (S t) i = scalar_at out (S t) i)) /\
  (exists ins inp out r, In inp ins /\ (forall p, In p ins -> like p inp) /\ like out inp /\
     sum_all ins inp out = Some r /\ scalar_at r 1 0 <> sm ins (fun p => scalar_at p 1 0)).
Proof.
  split.
  - intros ins inp out r A B C E t. destruct (sum_all_spec ins inp out A B C) as (r' & E' & _ & _ & F & G & _).
    rewrite E in E'. injection E' as <-. auto.
  - exists [BV [] [[1]; [1]]; BV [] [[1]; [1]]], (BV [] [[1]; [1]]), (BV [] [[0]; [0]]). eexists.
    split; [now left|]. split; [intros p [<-|[<-|[]]]; split; reflexivity|]. split; [split; reflexivity|].
    split; [reflexivity|]. unfold scalar_at, sm, Sparse_Model.rsum. cbn. lra.
Qed.
Print Assumptions C354_dynamic_refuted.
