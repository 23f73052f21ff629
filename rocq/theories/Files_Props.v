(** Properties C279-C284 of the files written and recovered and of the choice of the analysis
    (Files_Model.v). *)
From Coq Require Import String Bool Arith ZArith Reals List Lia Lra.
From Flocq Require Import Core.
From Flocq Require Import Relative.
From Verif Require Import Files_Model.
Import ListNotations.
Local Open Scope R_scope.
Local Notation length := List.length.

(* ------------------------------------------------------------------ numbers *)

Lemma prec12 : Prec_gt_0 12. Proof. reflexivity. Qed.
Lemma prec53 : Prec_gt_0 53. Proof. reflexivity. Qed.

Lemma print_err x : Rabs (fl_print x - x) <= 5 / 10 ^ 12 * Rabs x.
Proof.
  pose proof (relative_error_N_FLX radix10 12 prec12 (fun z => negb (Z.even z)) x) as H.
  unfold fl_print. eapply Rle_trans; [exact H|]. apply Rmult_le_compat_r; [apply Rabs_pos|].
  cbn [bpow Z.add Z.opp Z.pos_sub Pos.sub]. cbn. lra.
Qed.
Lemma parse_err x : Rabs (fl_parse x - x) <= / 10 ^ 15 * Rabs x.
Proof.
  pose proof (relative_error_N_FLX radix2 53 prec53 (fun z => negb (Z.even z)) x) as H.
  unfold fl_parse. eapply Rle_trans; [exact H|]. apply Rmult_le_compat_r; [apply Rabs_pos|].
  cbn. lra.
Qed.
Lemma trip_err x : Rabs (fl_trip x - x) <= / 10 ^ 11 * Rabs x.
Proof.
  unfold fl_trip. set (y := fl_print x).
  pose proof (print_err x) as H1. fold y in H1. pose proof (parse_err y) as H2.
  assert (T1 : Rabs (fl_parse y - x) <= Rabs (fl_parse y - y) + Rabs (y - x)).
  { replace (fl_parse y - x) with ((fl_parse y - y) + (y - x)) by ring. apply Rabs_triang. }
  assert (T2 : Rabs y <= Rabs (y - x) + Rabs x).
  { replace y with ((y - x) + x) at 1 by ring. apply Rabs_triang. }
  pose proof (Rabs_pos x). pose proof (Rabs_pos (y - x)). cbn [pow] in *. lra.
Qed.

(* ------------------------------------------------------------------ parameter files *)

Lemma fput_same k v d : fput k v d k = Some v.
Proof. unfold fput. destruct (fkey_dec k k); [reflexivity|contradiction]. Qed.
Lemma fput_other k k' v d : k <> k' -> fput k v d k' = d k'.
Proof. intros H. unfold fput. destruct (fkey_dec k k'); [contradiction|reflexivity]. Qed.

Lemma write_other mk enc k : forall l t d, (forall i, mk i <> k) -> fl_write mk enc t l d k = d k.
Proof.
  induction l as [|v r IH]; intros t d H; cbn; [reflexivity|]. rewrite IH by exact H. apply fput_other. apply H.
Qed.
Lemma write_before mk enc (inj : forall i j, mk i = mk j -> i = j) : forall l t d i, (i < t)%nat ->
  fl_write mk enc t l d (mk i) = d (mk i).
Proof.
  induction l as [|v r IH]; intros t d i H; cbn; [reflexivity|]. rewrite IH by lia. apply fput_other.
  intros K. apply inj in K. lia.
Qed.
Lemma write_get mk enc (inj : forall i j, mk i = mk j -> i = j) : forall l t d i v,
  nth_error l i = Some v -> fl_write mk enc t l d (mk (t + i)%nat) = Some (enc v).
Proof.
  induction l as [|u r IH]; intros t d i v H; [destruct i; discriminate|].
  destruct i as [|i]; cbn [nth_error] in H.
  - inversion H; subst. cbn. rewrite Nat.add_0_r, write_before by (auto; lia). apply fput_same.
  - cbn. replace (t + S i)%nat with (S t + i)%nat by lia. apply IH. exact H.
Qed.
Lemma write_all_get mk enc (inj : forall i j, mk i = mk j -> i = j) l d i v :
  nth_error l i = Some v -> fl_write_all mk enc l d (mk i) = Some (enc v).
Proof.
  intros H. unfold fl_write_all. destruct l as [|u r]; [destruct i; discriminate|].
  destruct (fl_many (u :: r)) eqn:E.
  - apply (write_get mk enc inj (u :: r) 0 d i v H).
  - unfold fl_many in E. apply Nat.ltb_ge in E. cbn in E. destruct r; [|cbn in E; lia].
    destruct i as [|i]; cbn in H; [|destruct i; discriminate]. inversion H; subst. apply fput_same.
Qed.
Lemma write_all_other mk enc l d k : (forall i, mk i <> k) -> fl_write_all mk enc l d k = d k.
Proof.
  intros H. unfold fl_write_all. destruct l as [|u r]; [reflexivity|].
  destruct (fl_many (u :: r)); [apply write_other; exact H|]. apply fput_other. apply H.
Qed.
Lemma read_get mk dec : forall l t d, (forall i v, nth_error l i = Some v -> d (mk (t + i)%nat) = Some v) ->
  fl_read mk dec t (length l) d = Some (map dec l).
Proof.
  induction l as [|v r IH]; intros t d H; [reflexivity|]. cbn [length fl_read map].
  rewrite <- (Nat.add_0_r t) at 1. rewrite (H 0%nat v eq_refl). rewrite IH; [reflexivity|].
  intros i w Hi. specialize (H (S i) w Hi). replace (S t + i)%nat with (t + S i)%nat by lia. exact H.
Qed.

(** The vectors agree up to a relative error eps in every scalar; fields agree. *)
Definition agree (eps : R) (a b : fvec) : Prop :=
  fv_field a = fv_field b /\
  Forall2 (Forall2 (fun x y => Rabs (y - x) <= eps * Rabs x)) (fv_scalar a) (fv_scalar b).

Lemma read_written base v cur d :
  length (fv_scalar cur) = length (fv_scalar v) -> length (fv_field cur) = length (fv_field v) ->
  fl_read_opt base cur (fl_write_opt base v d) =
  Some {| fv_scalar := map (map fl_trip) (fv_scalar v); fv_field := fv_field v |}.
Proof.
  intros H1 H2. unfold fl_read_opt, fl_write_opt. rewrite H1, H2.
  assert (IS : forall i j, FScalar base i = FScalar base j -> i = j) by congruence.
  assert (IF : forall i j, FField base i = FField base j -> i = j) by congruence.
  set (d1 := fl_write_all (FScalar base) (map fl_print) (fv_scalar v) d).
  set (d2 := fl_write_all (FField base) (fun x => x) (fv_field v) d1).
  assert (RS : fl_read (FScalar base) (map fl_parse) 0 (length (fv_scalar v)) d2 = Some (map (map fl_trip) (fv_scalar v))).
  { rewrite <- (map_length (map fl_print) (fv_scalar v)).
    rewrite (read_get (FScalar base) (map fl_parse) (map (map fl_print) (fv_scalar v)) 0 d2).
    - rewrite map_map. f_equal. apply map_ext. intros l. rewrite map_map. reflexivity.
    - intros i w Hi. unfold d2. rewrite write_all_other by (intros k; discriminate). cbn [Nat.add].
      destruct (nth_error (fv_scalar v) i) as [u|] eqn:E.
      2:{ apply nth_error_None in E. assert (K : nth_error (map (map fl_print) (fv_scalar v)) i <> None) by congruence.
          apply nth_error_Some in K. rewrite map_length in K. lia. }
      rewrite (map_nth_error _ _ _ E) in Hi. inversion Hi; subst. apply write_all_get; assumption. }
  rewrite RS.
  rewrite (read_get (FField base) (fun x => x) (fv_field v) 0 d2).
  - rewrite map_id. reflexivity.
  - intros i w Hi. unfold d2. apply (write_all_get (FField base) (fun x => x)); assumption.
Qed.

(** C279: parameters written to files and read back, by a run with as many time steps, are the
    same fields and the same scalars up to one part in 10^11, whatever was on the disk before. *)
Theorem C279_round_trip : forall base v cur d,
  length (fv_scalar cur) = length (fv_scalar v) -> length (fv_field cur) = length (fv_field v) ->
  exists v', fl_read_opt base cur (fl_write_opt base v d) = Some v' /\ agree (/ 10 ^ 11) v v'.
Proof.
  intros base v cur d H1 H2. eexists. split; [apply read_written; assumption|].
  split; [reflexivity|]. cbn [fv_scalar]. clear. induction (fv_scalar v) as [|l r IH]; cbn [map]; constructor; [|exact IH].
  clear. induction l as [|x r IH]; cbn [map]; constructor; [|exact IH]. apply trip_err.
Qed.
Print Assumptions C279_round_trip.
(** C279: a file that is missing is an error, not a default. *)
Theorem C279_missing : forall base cur d t,
  (t < length (fv_scalar cur))%nat -> d (FScalar base t) = None -> fl_read_opt base cur d = None.
Proof.
  intros base cur d t Ht Hd. unfold fl_read_opt.
  assert (G : forall n s, (s <= t < s + n)%nat -> fl_read (FScalar base) (map fl_parse) s n d = None).
  { induction n; intros s H; [lia|]. cbn [fl_read]. destruct (Nat.eq_dec s t) as [->|E]; [rewrite Hd; reflexivity|].
    rewrite IHn by lia. destruct (d (FScalar base s)); reflexivity. }
  rewrite G by lia. reflexivity.
Qed.
Print Assumptions C279_missing.
Example ex_C279 : exists v', fl_read_opt "params" {| fv_scalar := [[0]; [0]]; fv_field := [] |}
   (fl_write_opt "params" {| fv_scalar := [[1 / 3; 2]; [5]]; fv_field := [] |} (fun _ => None)) = Some v' /\
   agree (/ 10 ^ 11) {| fv_scalar := [[1 / 3; 2]; [5]]; fv_field := [] |} v'.
Proof. apply C279_round_trip; reflexivity. Qed.

(** C280: the parameters read back are those written, to the last bit — when twelve digits are enough. *)
Theorem C280_short_partial : forall base v cur d,
  length (fv_scalar cur) = length (fv_scalar v) -> length (fv_field cur) = length (fv_field v) ->
  Forall (Forall (fun x => generic_format radix10 (FLX_exp 12) x /\ generic_format radix2 (FLX_exp 53) x)) (fv_scalar v) ->
  fl_read_opt base cur (fl_write_opt base v d) = Some v.
Proof.
  intros base v cur d H1 H2 HF. rewrite read_written by assumption. destruct v as [sc fi]. cbn [fv_scalar fv_field] in *.
  f_equal. f_equal. clear H1 H2. induction sc as [|l r IH]; [reflexivity|]. inversion HF; subst. cbn [map]. f_equal; [|apply IH; assumption].
  clear - H1. induction l as [|x l IH]; [reflexivity|]. inversion H1; subst. cbn [map]. f_equal; [|apply IH; assumption].
  destruct H2 as [A B]. unfold fl_trip, fl_print, fl_parse.
  rewrite (round_generic radix10 (FLX_exp 12) ZnearestE x A). apply round_generic; [apply valid_rnd_N|exact B].
Qed.
Print Assumptions C280_short_partial.

(** The double next to one. *)
Definition one_up : R := 1 + / 2 ^ 52.
Lemma one_up_double : generic_format radix2 (FLX_exp 53) one_up.
Proof.
  apply generic_format_FLX. exists (Float radix2 (2 ^ 52 + 1) (-52)).
  - unfold one_up, F2R. cbn. lra.
  - cbn. lia.
Qed.
Lemma one_up_print : fl_print one_up = 1.
Proof.
  unfold fl_print, round.
  assert (M : mag radix10 one_up = 1%Z :> Z).
  { apply mag_unique. unfold one_up. rewrite Rabs_pos_eq by (cbn [pow]; lra). cbn. lra. }
  assert (C : cexp radix10 (FLX_exp 12) one_up = (-11)%Z) by (unfold cexp; rewrite M; reflexivity).
  unfold scaled_mantissa. rewrite C.
  rewrite (Znearest_imp (fun z => negb (Z.even z)) _ (10 ^ 11)%Z).
  - unfold F2R. cbn. lra.
  - unfold one_up. cbn. apply Rabs_def1; lra.
Qed.
(** A parameter that is the double next to one comes back as one. *)
Theorem C280_refuted : exists base v cur d,
  Forall (Forall (fun x => generic_format radix2 (FLX_exp 53) x)) (fv_scalar v) /\
  length (fv_scalar cur) = length (fv_scalar v) /\ length (fv_field cur) = length (fv_field v) /\
  fl_read_opt base cur (fl_write_opt base v d) <> Some v.
Proof.
  exists "params"%string, {| fv_scalar := [[one_up]]; fv_field := [] |}, {| fv_scalar := [[0]]; fv_field := [] |}, (fun _ => None).
  split; [repeat constructor; apply one_up_double|]. split; [reflexivity|]. split; [reflexivity|].
  rewrite read_written by reflexivity. cbn [map fv_scalar fv_field]. unfold fl_trip. rewrite one_up_print.
  unfold fl_parse. rewrite round_generic.
  - intros K. inversion K. unfold one_up in *. cbn [pow] in *. lra.
  - apply valid_rnd_N.
  - apply generic_format_FLX. exists (Float radix2 1 0); [unfold F2R; cbn; lra|cbn; lia].
Qed.
Print Assumptions C280_refuted.

(* ------------------------------------------------------------------ state files *)

Lemma wsets_other base step k : forall l set d, (forall s, FState base s step <> k) -> fl_write_sets base step set l d k = d k.
Proof. induction l as [|v r IH]; intros set d H; cbn; [reflexivity|]. rewrite IH by exact H. apply fput_other. apply H. Qed.
Lemma wsets_before base step : forall l set d s, (s < set)%nat ->
  fl_write_sets base step set l d (FState base s step) = d (FState base s step).
Proof. induction l as [|v r IH]; intros set d s H; cbn; [reflexivity|]. rewrite IH by lia. apply fput_other. intros K. inversion K. lia. Qed.
Lemma wsets_get base step : forall l set d i v, nth_error l i = Some v ->
  fl_write_sets base step set l d (FState base (set + i) step) = Some v.
Proof.
  induction l as [|u r IH]; intros set d i v H; [destruct i; discriminate|]. destruct i as [|i]; cbn [nth_error] in H.
  - inversion H; subst. cbn. rewrite Nat.add_0_r, wsets_before by lia. apply fput_same.
  - cbn. replace (set + S i)%nat with (S set + i)%nat by lia. apply IH. exact H.
Qed.
Lemma wstates_before base : forall states step d set t, (t < step)%nat ->
  fl_write_states base step states d (FState base set t) = d (FState base set t).
Proof.
  induction states as [|s r IH]; intros step d set t H; cbn; [reflexivity|]. rewrite IH by lia. apply wsets_other.
  intros s' K. inversion K. lia.
Qed.
Lemma wstates_get base : forall states step d set t s v, nth_error states t = Some s -> nth_error s set = Some v ->
  fl_write_states base step states d (FState base set (step + t)) = Some v.
Proof.
  induction states as [|s0 r IH]; intros step d set t s v Ht Hs; [destruct t; discriminate|]. destruct t as [|t]; cbn [nth_error] in Ht.
  - inversion Ht; subst. cbn. rewrite Nat.add_0_r, wstates_before by lia. apply (wsets_get base step s 0 d set v Hs).
  - cbn. replace (step + S t)%nat with (S step + t)%nat by lia. apply (IH (S step) _ set t s v); assumption.
Qed.
Lemma wstates_after base : forall states step d set t, (step + length states <= t)%nat ->
  fl_write_states base step states d (FState base set t) = d (FState base set t).
Proof.
  induction states as [|s r IH]; intros step d set t H; cbn; [reflexivity|]. cbn in H. rewrite IH by lia. apply wsets_other.
  intros s' K. inversion K. lia.
Qed.

(** The states of one set, in order. *)
Definition of_set (set : nat) (states : list (list (list R))) : list (list R) := map (fun s => nth set s nil) states.

Lemma recover_set base nhist set states d :
  Forall (fun s => (set < length s)%nat) states -> (nhist <= length states)%nat ->
  fl_recover_set base nhist set (fl_write_states base 0 states d) = Some (firstn nhist (of_set set states)).
Proof.
  intros HF Hn. unfold fl_recover_set.
  assert (L : length (firstn nhist (of_set set states)) = nhist).
  { rewrite firstn_length. unfold of_set. rewrite map_length. lia. }
  rewrite <- L at 1. rewrite read_get.
  - rewrite map_id. reflexivity.
  - intros i v Hi. cbn [Nat.add].
    assert (Hil : (i < nhist)%nat) by (rewrite <- L; apply nth_error_Some; congruence).
    assert (E : nth_error (of_set set states) i = Some v).
    { rewrite <- (firstn_skipn nhist (of_set set states)). rewrite nth_error_app1 by (rewrite L; exact Hil). exact Hi. }
    unfold of_set in E. destruct (nth_error states i) as [s|] eqn:Es.
    2:{ apply nth_error_None in Es. lia. }
    rewrite (map_nth_error _ _ _ Es) in E. inversion E; subst.
    apply (wstates_get base states 0 d set i s); [exact Es|].
    apply nth_error_nth'. rewrite Forall_forall in HF. apply HF. eapply nth_error_In. exact Es.
Qed.
Lemma stamp_nth : forall l t dt i v, nth_error l i = Some v -> nth_error (fl_stamp t dt l) i = Some (t + INR i * dt, v).
Proof.
  induction l as [|u r IH]; intros t dt i v H; [destruct i; discriminate|]. destruct i as [|i]; cbn [nth_error fl_stamp] in *.
  - inversion H; subst. cbn. f_equal. f_equal. ring.
  - rewrite (IH (t + dt) dt i v H). f_equal. f_equal. rewrite S_INR. ring.
Qed.

(** C281: an adjoint run that recovers the forward states from files uses all the states of the
    forward run — so for a steady problem (one state, one file), or when the run has exactly as many
    states as the time integrator has history terms; every state it does recover is the one written,
    with its time. *)
Theorem C281_recovered_partial : forall base nhist set states d t0 dt,
  Forall (fun s => (set < length s)%nat) states -> (nhist <= length states)%nat ->
  exists l, fl_recover_set base nhist set (fl_write_states base 0 states d) = Some l /\
    (nhist = length states -> l = of_set set states) /\
    forall i, (i < nhist)%nat -> nth_error (fl_stamp t0 dt l) i = Some (t0 + INR i * dt, nth set (nth i states nil) nil).
Proof.
  intros base nhist set states d t0 dt HF Hn. eexists. split; [apply recover_set; assumption|].
  assert (L : length (of_set set states) = length states) by apply map_length.
  split.
  - intros ->. rewrite <- L. apply firstn_all.
  - intros i Hi. apply stamp_nth.
    assert (E : nth_error (of_set set states) i = Some (nth set (nth i states nil) nil)).
    { unfold of_set. rewrite (map_nth_error (fun s => nth set s nil) i states (d := nth i states nil)); [reflexivity|].
      apply nth_error_nth'. lia. }
    rewrite <- (firstn_skipn nhist (of_set set states)) in E. rewrite nth_error_app1 in E; [exact E|].
    rewrite firstn_length. lia.
Qed.
Print Assumptions C281_recovered_partial.
(** Any longer run: only the first states come back. *)
Theorem C281_refuted : forall base nhist set states d,
  Forall (fun s => (set < length s)%nat) states -> (nhist < length states)%nat ->
  exists l, fl_recover_set base nhist set (fl_write_states base 0 states d) = Some l /\
    length l = nhist /\ l <> of_set set states.
Proof.
  intros base nhist set states d HF Hn. eexists. split; [apply recover_set; [exact HF|lia]|].
  assert (L : length (firstn nhist (of_set set states)) = nhist).
  { rewrite firstn_length. unfold of_set. rewrite map_length. lia. }
  split; [exact L|]. intros K. apply (f_equal (@List.length (list R))) in K. rewrite L in K. unfold of_set in K. rewrite map_length in K. lia.
Qed.
Print Assumptions C281_refuted.
Example ex_C281 : Forall (fun s => (0 < length s)%nat) [[[1]]; [[2]]; [[3]]] /\ (1 < length [[[1]]; [[2]]; [[3]]])%nat.
Proof. split; [repeat constructor|]; cbn; lia. Qed.

(* ------------------------------------------------------------------ text files of solutions *)

Lemma text_final soln : soln <> nil ->
  Forall (fun v => length v = length (hd nil soln)) soln ->
  fl_recover_text (fl_text soln true) = map fl_trip (last soln nil).
Proof.
  intros Hne HF. unfold fl_recover_text, fl_text. rewrite map_map. cbn [hd].
  assert (L : length (last soln nil) = length (hd nil soln)).
  { rewrite Forall_forall in HF. apply HF. destruct soln as [|v r]; [contradiction|].
    clear. revert v. induction r as [|u r IH]; intros v; [left; reflexivity|].
    change (last (v :: u :: r) nil) with (last (u :: r) nil). right. apply IH. }
  rewrite <- L. generalize (last soln nil). intros l. clear.
  change (fun x => fl_parse (fl_print (nth x l 0))) with (fun x => fl_trip (nth x l 0)).
  rewrite <- (map_map (fun x => nth x l 0) fl_trip). f_equal.
  induction l as [|x l IH]; [reflexivity|]. cbn [length seq map nth]. f_equal.
  rewrite <- seq_shift, map_map. exact IH.
Qed.
(** C282: a solution written as text and recovered by a restart is the final one — if only the
    final one was written. *)
Theorem C282_final_partial : forall soln, soln <> nil ->
  Forall (fun v => length v = length (hd nil soln)) soln ->
  Forall2 (fun x y => Rabs (y - x) <= / 10 ^ 11 * Rabs x) (last soln nil) (fl_recover_text (fl_text soln true)).
Proof.
  intros soln H1 H2. rewrite text_final by assumption. generalize (last soln nil). intros l.
  induction l; cbn [map]; constructor; [apply trip_err|assumption].
Qed.
Print Assumptions C282_final_partial.
(** Otherwise it is the first one. *)
Theorem C282_refuted : exists soln, soln <> nil /\ Forall (fun v => length v = length (hd nil soln)) soln /\
  fl_recover_text (fl_text soln false) = hd nil soln /\
  ~ Forall2 (fun x y => Rabs (y - x) <= / 10 ^ 11 * Rabs x) (last soln nil) (fl_recover_text (fl_text soln false)).
Proof.
  assert (Z : fl_trip 0 = 0).
  { unfold fl_trip, fl_print, fl_parse. rewrite !round_0 by apply valid_rnd_N. reflexivity. }
  exists [[0]; [1]]. split; [discriminate|]. split; [repeat constructor|].
  assert (E : fl_recover_text (fl_text [[0]; [1]] false) = [0]).
  { unfold fl_recover_text, fl_text. cbn [hd length seq map last nth]. fold (fl_trip 0). rewrite Z. reflexivity. }
  split; [exact E|]. rewrite E. cbn [last]. intros K. inversion K; subst. rewrite Rabs_R1 in H2.
  replace (0 - 1) with (- (1)) in H2 by ring. rewrite Rabs_Ropp, Rabs_R1 in H2. cbn [pow] in H2. lra.
Qed.
Print Assumptions C282_refuted.
Lemma sub_whole : forall s n, (String.length s <= n)%nat -> substring 0 n s = s.
Proof.
  induction s; intros n H; [destruct n; reflexivity|]. destruct n; [cbn in H; lia|]. cbn. f_equal. apply IHs. cbn in H. lia.
Qed.
Lemma sub_prefix : forall a b, substring 0 (String.length a) (a ++ b) = a.
Proof. induction a; intros b; cbn; [destruct b; reflexivity|]. f_equal. apply IHa. Qed.
Lemma sub_suffix : forall a b n, (String.length b <= n)%nat -> substring (String.length a) n (a ++ b) = b.
Proof. induction a; intros b n H; cbn; [apply sub_whole; exact H|]. apply IHa. exact H. Qed.
Lemma len_app : forall a b, String.length (a ++ b) = (String.length a + String.length b)%nat.
Proof. induction a; intros b; cbn; [reflexivity|]. rewrite IHa. reflexivity. Qed.
(** C282: the file read by process r for "name.ext" is "name.r.ext" for any extension of a dot and
    three letters, which is how sampling runs name the files they write. *)
Theorem C282_name_partial : forall name ext rank, String.length ext = 4%nat -> name <> ""%string ->
  fl_recover_name (name ++ ext) rank = (name ++ "." ++ rank ++ ext)%string.
Proof.
  intros name ext rank He Hn. unfold fl_recover_name. cbv zeta. rewrite len_app, He.
  assert (0 < String.length name)%nat by (destruct name; [contradiction|cbn; lia]).
  replace (String.length name + 4 - 4)%nat with (String.length name) by lia.
  rewrite sub_prefix, sub_suffix by lia. reflexivity.
Qed.
Print Assumptions C282_name_partial.
Example ex_C282 : fl_recover_name "solution.3.dat" "0" = "solution.3.0.dat"%string.
Proof. reflexivity. Qed.

(* ------------------------------------------------------------------ choice of the analysis *)

(** a occurs, and only after some b *)
Definition only_after (P : faction -> Prop) (a : faction) (l : list faction) : Prop :=
  forall l1 l2, l = (l1 ++ a :: l2)%list -> exists b, In b l1 /\ P b.

Ltac split_if := repeat match goal with |- context [if ?b then _ else _] => destruct b end.

(** C283: parameters asked for from files are read before anything else, those asked to be written
    are written after everything else (if nothing failed), and no adjoint is solved without a forward
    state computed or read before it. *)
Theorem C283_order : forall kind recovery mode from_file to_file has_state writesens,
  let l := fl_run kind recovery mode from_file to_file has_state writesens in
  (from_file = true -> exists r, l = ReadParams :: r /\ ~ In ReadParams r) /\
  (from_file = false -> ~ In ReadParams l) /\
  (to_file = true -> ~ In Fail l -> exists r, l = (r ++ [WriteParams])%list /\ ~ In WriteParams r) /\
  (to_file = false -> ~ In WriteParams l) /\
  only_after (fun b => b = Forward \/ b = ReadState) Adjoint l.
Proof.
  intros kind recovery mode from_file to_file has_state writesens l.
  assert (A : exists a, fl_analysis kind recovery mode has_state writesens = a /\ ~ In ReadParams a /\ ~ In WriteParams a /\
     only_after (fun b => b = Forward \/ b = ReadState) Adjoint (fl_cut a) /\ True).
  { eexists. split; [reflexivity|]. unfold fl_analysis. split_if; cbn [app fl_cut In].
    all: split; [intuition discriminate|]; split; [intuition discriminate|]; split; [|exact I].
    all: intros l1 l2 E; repeat (destruct l1 as [|? l1]; cbn [app] in E; [try discriminate E; try (inversion E; fail)|]; injection E as ? E; subst).
    all: try (destruct l1; discriminate E).
    all: try (eexists; split; [left; reflexivity|tauto]). }
  destruct A as [a [Ea [A1 [A2 [A3 _]]]]]. unfold l, fl_run. rewrite Ea. clear Ea l.
  assert (C1 : forall x y, In x (fl_cut y) -> In x y).
  { intros x y. induction y as [|c y IH]; cbn; [tauto|]. destruct c; cbn; intuition auto. }
  assert (C2 : forall x y, ~ In Fail (fl_cut (x ++ y)) -> fl_cut (x ++ y) = (x ++ fl_cut y)%list).
  { induction x as [|c x IH]; intros y H; [reflexivity|]. destruct c; cbn in *; f_equal; try (apply IH; intuition auto); intuition auto. }
  set (w := if to_file then [WriteParams] else []).
  assert (W : forall y, In y w -> y = WriteParams) by (intros y; unfold w; destruct to_file; cbn; intuition auto).
  assert (Aw : forall l1 l2, fl_cut (a ++ w) = (l1 ++ Adjoint :: l2)%list -> exists b, In b l1 /\ (b = Forward \/ b = ReadState)).
  { assert (G : forall a', (forall l1 l2, fl_cut a' = (l1 ++ Adjoint :: l2)%list -> exists b, In b l1 /\ (b = Forward \/ b = ReadState)) ->
       forall l1 l2, fl_cut (a' ++ w) = (l1 ++ Adjoint :: l2)%list -> exists l2', fl_cut a' = (l1 ++ Adjoint :: l2')%list).
    { intros a' _. induction a' as [|c a' IH]; intros l1 l2 E.
      - cbn [app] in E. assert (In Adjoint w) by (apply C1; rewrite E; apply in_or_app; right; left; reflexivity). apply W in H. discriminate.
      - destruct l1 as [|b l1].
        + destruct c; cbn in E; try discriminate E. exists (fl_cut a'). reflexivity.
        + destruct c; cbn in E |- *; try (injection E as <- E; destruct (IH l1 l2 E) as [l2' ->]; exists l2'; reflexivity).
          injection E as <- E. destruct l1; discriminate. }
    intros l1 l2 E. destruct (G a A3 l1 l2 E) as [l2' E']. exact (A3 l1 l2' E'). }
  destruct from_file.
  - cbn [app fl_cut]. split; [|split; [|split; [|split]]].
    + intros _. exists (fl_cut (a ++ w)). split; [reflexivity|]. intros K. apply C1 in K. apply in_app_or in K.
      destruct K as [K|K]; [contradiction|]. apply W in K. discriminate.
    + discriminate.
    + intros -> H. exists (ReadParams :: a). rewrite C2.
      2:{ intros K. apply H. right. exact K. }
      split; [reflexivity|]. cbn. intuition discriminate.
    + intros ->. intros [K|K]; [discriminate|]. apply C1 in K. apply in_app_or in K. destruct K as [K|[]]. contradiction.
    + intros l1 l2 E. destruct l1 as [|b l1]; [discriminate|]. injection E as <- E. destruct (Aw l1 l2 E) as [b [B1 B2]].
      exists b. split; [right; exact B1|exact B2].
  - cbn [app]. split; [|split; [|split; [|split]]].
    + discriminate.
    + intros _ K. apply C1 in K. apply in_app_or in K. destruct K as [K|K]; [contradiction|]. apply W in K. discriminate.
    + intros -> H. exists a. rewrite C2 by exact H. split; [reflexivity|exact A2].
    + intros ->. intros K. apply C1 in K. apply in_app_or in K. destruct K as [K|[]]. contradiction.
    + exact Aw.
Qed.
Print Assumptions C283_order.
Example ex_C283 : fl_run "adjoint" "recompute" "" true true false true = [ReadParams; Forward; Adjoint; WriteGradient; WriteParams].
Proof. reflexivity. Qed.

(** A type of analysis, or a mode of a restart, that is not known is reported, and only these (and
    the dry run) are. *)
Theorem C283_reported : forall kind recovery mode from_file to_file has_state writesens,
  In Message (fl_run kind recovery mode from_file to_file has_state writesens) <->
  ~ In kind ["forward"; "adjoint"; "forward+adjoint"; "UQ"; "ROL"; "ROL2"; "ROLStoch"; "DCI"; "Scalable DCI"; "Scalable Bayes"; "restart"]%string
  \/ kind = "restart"%string /\ ~ In mode ["forward"; "ROL"; "ROL2"]%string.
Proof.
  intros kind recovery mode from_file to_file has_state writesens.
  destruct (in_dec string_dec kind ["forward"; "adjoint"; "forward+adjoint"; "UQ"; "ROL"; "ROL2"; "ROLStoch"; "DCI";
    "Scalable DCI"; "Scalable Bayes"; "restart"; "dry run"]%string) as [K|K].
  - assert (R : kind = "restart"%string \/ kind <> "restart"%string) by (destruct (string_dec kind "restart"); auto).
    destruct R as [-> | R].
    + destruct (in_dec string_dec mode ["forward"; "ROL"; "ROL2"]%string) as [M|M].
      * split; [|cbn [In]; tauto]. intros H. exfalso. revert H. cbn [In] in M. decompose [or] M; try contradiction; subst mode;
        destruct from_file, to_file, has_state; cbn; intros H; repeat (destruct H as [H|H]; [discriminate H|]); exact H.
      * split; [auto|]. intros _. unfold fl_run, fl_analysis. cbn [String.eqb Ascii.eqb Bool.eqb].
        rewrite (proj2 (String.eqb_neq mode "forward")), (proj2 (String.eqb_neq mode "ROL")), (proj2 (String.eqb_neq mode "ROL2"))
          by (intros ->; apply M; cbn; auto).
        destruct from_file, to_file, has_state; cbn; tauto.
    + assert (D : kind = "dry run"%string \/ kind <> "dry run"%string) by (destruct (string_dec kind "dry run"); auto).
      destruct D as [-> | D].
      * split.
        -- intros _. left. intros H. cbn [In] in H. repeat (destruct H as [H|H]; [discriminate H|]). exact H.
        -- intros _. destruct from_file, to_file; cbn; tauto.
      * split.
        -- intros H. exfalso. cbn [In] in K.
           repeat (destruct K as [K|K]; [subst kind|]); try contradiction; revert H.
           all: unfold fl_run, fl_analysis; cbn [String.eqb Ascii.eqb Bool.eqb]; split_if; cbn [app fl_cut In].
           all: intros H; repeat (destruct H as [H|H]; [discriminate H|]); exact H.
        -- intros [H|[H _]]; [exfalso|congruence]. cbn [In] in K.
           repeat (destruct K as [K|K]; [subst kind; apply H; cbn [In]; repeat (first [left; reflexivity|right])|]); try contradiction.
           all: congruence.
  - split.
    + intros _. left. intros I. apply K. cbn [In] in I |- *. tauto.
    + intros _. unfold fl_run, fl_analysis.
      repeat (rewrite (proj2 (String.eqb_neq kind _)) by (intros ->; apply K; cbn; tauto)).
      destruct from_file, to_file; cbn; tauto.
Qed.
Print Assumptions C283_reported.
(** Something is computed: the model is solved, sampled, inverted or optimised. *)
Definition computes (a : faction) : Prop := a = Forward \/ a = Sample \/ a = Invert \/ (exists k, a = Optimize k) \/ a = Adjoint.
(** C284: an analysis the input asks for is carried out — so for the types listed as tested. *)
Theorem C284_tested_partial : forall kind recovery mode from_file to_file has_state writesens,
  In kind ["forward"; "forward+adjoint"; "UQ"; "ROL"; "ROL2"; "ROLStoch"; "DCI"]%string \/
  kind = "adjoint"%string /\ (recovery = "file" \/ recovery = "recompute")%string ->
  exists a, In a (fl_run kind recovery mode from_file to_file has_state writesens) /\ computes a.
Proof.
  intros kind recovery mode from_file to_file has_state writesens H.
  assert (G : exists a, (a = Forward \/ a = Sample \/ a = Invert \/ a = Optimize 1 \/ a = Optimize 2 \/ a = Optimize 3 \/ a = Adjoint) /\
    In a (fl_run kind recovery mode from_file to_file has_state writesens)).
  { destruct H as [H|[-> [-> | ->]]].
    - cbn [In] in H. decompose [or] H; try contradiction; subst kind; destruct from_file;
        first [ exists Forward; split; [tauto|]; cbn; tauto
              | exists Sample; split; [tauto|]; cbn; tauto
              | exists Invert; split; [tauto|]; cbn; tauto
              | exists (Optimize 1); split; [tauto|]; cbn; tauto
              | exists (Optimize 2); split; [tauto|]; cbn; tauto
              | exists (Optimize 3); split; [tauto|]; cbn; tauto ].
    - exists Adjoint. split; [tauto|]. destruct from_file; cbn; auto.
    - exists Adjoint. split; [tauto|]. destruct from_file; cbn; auto. }
  destruct G as [a [Ha Hin]]. exists a. split; [exact Hin|]. unfold computes.
  decompose [or] Ha; subst; eauto 8.
Qed.
Print Assumptions C284_tested_partial.
(** A restart computes nothing in any of its modes, nor do the scalable inversions. *)
Theorem C284_refuted : forall kind recovery mode from_file to_file has_state writesens a,
  In kind ["restart"; "Scalable DCI"; "Scalable Bayes"]%string ->
  In a (fl_run kind recovery mode from_file to_file has_state writesens) -> ~ computes a.
Proof.
  intros kind recovery mode from_file to_file has_state writesens a Hk Ha [H|[H|[H|[[k H]|H]]]]; subst a.
  all: cbn [In] in Hk; decompose [or] Hk; try contradiction; subst kind; unfold fl_run, fl_analysis in Ha; cbn -[String.eqb] in Ha.
  all: revert Ha; cbn; split_if; cbn; intuition discriminate.
Qed.
Print Assumptions C284_refuted.
