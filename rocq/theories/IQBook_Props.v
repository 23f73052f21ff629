From Coq Require Import Bool Arith Lia Reals Lra String List.
From Verif Require Import VDNS_Model IQBook_Model.
Import ListNotations.
Local Open Scope string_scope.
Local Notation length := List.length.

(** ** Specification: the integral of a quantity's own integrand where it says *)
Definition own_integral (measure : string -> string -> R) (q : quantity) : R :=
  measure (q_integrand q) (q_place q).
Definition key (q : quantity) : string * string := (q_name q, q_place q).

Lemma starts_nth : forall mods s k m, nth_error mods k = Some m ->
  nth k (starts_from s mods) 0 = s + extent (firstn k mods).
Proof.
  induction mods as [|a r IH]; intros s k m H; destruct k; try discriminate; cbn in *.
  - lia.
  - rewrite (IH _ _ _ H). lia.
Qed.
Lemma extent_concat : forall mods, (forall m, In m mods -> reserves m = length (asks m)) ->
  extent mods = length (concat (map asks mods)).
Proof.
  induction mods as [|a r IH]; intros H; cbn; [reflexivity|].
  rewrite app_length, IH, (H a) by (cbn; auto; intros; apply H; cbn; auto). reflexivity.
Qed.
Lemma concat_nth : forall mods k m j q, nth_error mods k = Some m -> nth_error (asks m) j = Some q ->
  nth_error (concat (map asks mods)) (length (concat (map asks (firstn k mods))) + j) = Some q.
Proof.
  induction mods as [|a r IH]; intros k m j q H H'; destruct k; try discriminate; cbn in *.
  - inversion H; subst. rewrite nth_error_app1; [exact H'|]. apply nth_error_Some. congruence.
  - rewrite app_length, <- Nat.add_assoc, nth_error_app2 by lia.
    replace (length (asks a) + _ - length (asks a)) with (length (concat (map asks (firstn k r))) + j) by lia.
    eapply IH; eauto.
Qed.
Lemma firstn_In : forall A (l : list A) k x, In x (firstn k l) -> In x l.
Proof. induction l; intros [|k] x H; cbn in *; try tauto. destruct H; eauto. Qed.
Lemma first_own : forall qs q, NoDup (map key qs) -> In q qs ->
  first_integrand qs (q_name q) (q_place q) = Some (q_integrand q).
Proof.
  induction qs as [|a r IH]; intros q ND H; [destruct H|]. cbn in *. inversion ND; subst.
  destruct H as [-> | H].
  - rewrite !String.eqb_refl. reflexivity.
  - destruct (String.eqb (q_name a) (q_name q) && String.eqb (q_place a) (q_place q)) eqn:E; [|auto].
    apply andb_true_iff in E. destruct E as [E1 E2]. apply String.eqb_eq in E1, E2.
    exfalso. apply H2. apply in_map_iff. exists q. unfold key. rewrite E1, E2. auto.
Qed.
Lemma nth_error_nth_map : forall A (f : A -> R) l i x, nth_error l i = Some x -> nth i (map f l) 0%R = f x.
Proof. induction l; intros [|i] x H; try discriminate; cbn in *; [congruence|auto]. Qed.
Lemma host_nth : forall n vals i, (i < n)%nat -> nth i (host_sums n vals) 0%R = nth i vals 0%R.
Proof.
  intros. unfold host_sums. rewrite (nth_indep _ 0%R (nth 0 vals 0%R)) by (rewrite map_length, seq_length; auto).
  rewrite (map_nth (fun i => nth i vals 0%R)), seq_nth; auto.
Qed.

Lemma reads_own : forall measure mods user k m j q,
  (forall m, In m mods -> reserves m = length (asks m)) ->
  NoDup (map key (block_list mods user)) ->
  nth_error mods k = Some m -> nth_error (asks m) j = Some q -> place_ok (q_place q) = true ->
  module_reads measure mods user k j = own_integral measure q.
Proof.
  intros measure mods user k m j q HR ND Hk Hj HP. unfold module_reads.
  rewrite (starts_nth _ _ _ _ Hk). cbn [Nat.add].
  rewrite extent_concat by (intros; apply HR; eapply firstn_In; eauto).
  pose proof (concat_nth _ _ _ _ _ Hk Hj) as HC.
  assert (L : (length (concat (map asks (firstn k mods))) + j < extent mods)%nat).
  { rewrite extent_concat by auto. apply nth_error_Some. congruence. }
  rewrite host_nth by exact L. unfold values.
  assert (HB : nth_error (block_list mods user) (length (concat (map asks (firstn k mods))) + j) = Some q).
  { unfold block_list. rewrite nth_error_app1; auto. apply nth_error_Some. congruence. }
  rewrite (nth_error_nth_map _ _ _ _ _ HB). unfold value, own_integral. rewrite HP.
  rewrite first_own; auto. eapply nth_error_In; eauto.
Qed.

(** the quantities the modules of the code ask for are stored where they read them *)
Lemma reserved_asked : forall d t o f k, reserved t o f k = length (asked d t o f k).
Proof. intros d [] [] [] []; reflexivity. Qed.
Lemma asked_places : forall d t o f k q, In q (asked d t o f k) -> place_ok (q_place q) = true.
Proof.
  intros d t o f k q H. destruct k, t, o, f; cbn in H;
    repeat (destruct H as [<- | H]; [reflexivity|]); destruct H.
Qed.

Lemma NoDup_app_disj : forall (A : Type) (l1 l2 : list A),
  NoDup l1 -> NoDup l2 -> (forall x, In x l1 -> ~ In x l2) -> NoDup (l1 ++ l2).
Proof.
  intros A l1 l2 N1 N2 D. induction l1 as [|x l1 IHl]; cbn; auto. inversion N1; subst. constructor.
  - rewrite in_app_iff. intros [I|I]; [auto|]. eapply D; [left; reflexivity|exact I].
  - apply IHl; auto. intros y Hy. apply D. right; exact Hy.
Qed.

(** C327: whatever modules share a block, in whatever order, and whatever the user asks for under
    other names, the j-th quantity a module reads is the integral of the j-th integrand it asked for. *)
Theorem C327_own : forall measure d t o f (kinds : list kind) user k kd j q,
  let mods := map (the_module d t o f) kinds in
  NoDup (map key (block_list mods user)) ->
  nth_error kinds k = Some kd -> nth_error (asked d t o f kd) j = Some q ->
  module_reads measure mods user k j = own_integral measure q.
Proof.
  intros measure d t o f kinds user k kd j q mods ND Hk Hj.
  apply reads_own with (m := the_module d t o f kd); auto.
  - intros m Hm. apply in_map_iff in Hm. destruct Hm as (x & <- & _). apply reserved_asked.
  - unfold mods. rewrite nth_error_map, Hk. reflexivity.
  - eapply asked_places. eapply nth_error_In. exact Hj.
Qed.
Print Assumptions C327_own.
(** The fluxes asked for have one term for each space dimension: n.grad T and n.u. *)
Definition terms (d : nat) (f : string -> string) : string :=
  String.concat " + " (map f (firstn d ["x"; "y"; "z"]%string)).
Theorem C327_fluxes : forall d t o f, (1 <= d <= 3)%nat ->
  (t = true -> nth_error (asked d t o f Thermal) 2 =
     Some (mkq ("(" ++ terms d (fun c => "n[" ++ c ++ "]*grad(T)[" ++ c ++ "]") ++ ")") "thermal bnd heat flux" "boundary")%string) /\
  (o = false -> f = true -> nth_error (asked d t o f VDensity) 2 =
     Some (mkq ("(gamma-1.)*lambda*(" ++ terms d (fun c => "n[" ++ c ++ "]*grad(T)[" ++ c ++ "]") ++ ")")
               "VDNS bnd heat flux (scaled by gamma - 1)" "boundary")%string) /\
  (o = false -> f = true -> exists e, nth_error (asked d t o f VDensity) 3 = Some (mkq e "VDNS bnd vel flux (scaled by gamma)" "boundary")%string /\
     let v := terms d (fun c => "n[" ++ c ++ "]*u" ++ c)%string in
     e = ("gamma*" ++ (if Nat.eqb d 1 then v else "(" ++ v ++ ")"))%string).
Proof.
  intros d t o f H. assert (D : d = 1%nat \/ d = 2%nat \/ d = 3%nat) by lia.
  destruct D as [-> | [-> | ->]]; (split; [|split]).
  all: intros; subst; try reflexivity; eexists; split; reflexivity.
Qed.
Print Assumptions C327_fluxes.

(** The names of the modules do not clash: distinct kinds, and a user who avoids their names. *)
Theorem C327_no_clash : forall d t o f (kinds : list kind) user,
  NoDup kinds -> NoDup (map key user) ->
  (forall q kd q', In q user -> In kd kinds -> In q' (asked d t o f kd) -> key q <> key q') ->
  NoDup (map key (block_list (map (the_module d t o f) kinds) user)).
Proof.
  intros d t o f kinds user NK NU HU.
  assert (HD : forall k1 k2 q1 q2, In q1 (asked d t o f k1) -> In q2 (asked d t o f k2) -> key q1 = key q2 -> k1 = k2).
  { intros k1 k2 q1 q2 H1 H2 E.
    destruct k1, k2; try reflexivity; exfalso; destruct t, o, f; cbn in H1, H2; try tauto;
      repeat (destruct H1 as [<- | H1]; [ repeat (destruct H2 as [<- | H2]; [discriminate E|]); exact H2 |]); exact H1. }
  assert (HN : forall k, NoDup (map key (asked d t o f k))).
  { intros k. destruct k, t, o, f; cbn;
      repeat (constructor; [cbn; intros H; repeat (destruct H as [H|H]; [discriminate H|]); exact H|]); constructor. }
  assert (HC : forall ks, NoDup ks -> NoDup (map key (concat (map asks (map (the_module d t o f) ks))))).
  { induction ks as [|a r IH]; intros ND; cbn; [constructor|]. inversion ND; subst.
    rewrite map_app.
    apply NoDup_app_disj; auto. intros x Hx Hy. apply in_map_iff in Hx, Hy.
    destruct Hx as (q1 & E1 & I1), Hy as (q2 & E2 & I2).
    apply in_concat in I2. destruct I2 as (l & Il & Iq). rewrite map_map in Il. apply in_map_iff in Il.
    destruct Il as (k2 & <- & Ik). cbn in Iq.
    assert (a = k2) by (eapply HD; eauto; congruence). subst. contradiction. }
  unfold block_list. rewrite map_app.
  apply NoDup_app_disj; auto.
  intros x Hx Hy. apply in_map_iff in Hx, Hy. destruct Hx as (q1 & E1 & I1), Hy as (q2 & E2 & I2).
  apply in_concat in I1. destruct I1 as (l & Il & Iq). rewrite map_map in Il. apply in_map_iff in Il.
  destruct Il as (k2 & <- & Ik). cbn in Iq. eapply HU; eauto. congruence.
Qed.
Print Assumptions C327_no_clash.

Example C327_case :
  let meas (s p : string) := if String.eqb s "1./T" then 7%R else if String.eqb s "rho*RGas" then 5%R else 3%R in
  module_reads meas (map (the_module 2 true false false) [Thermal; VDensity]) [mkq "T" "mine" "volume"] 1 1 = 7%R /\
  module_reads meas (map (the_module 2 true false false) [Thermal; VDensity]) [mkq "T" "mine" "volume"] 1 0 = 5%R.
Proof. split; reflexivity. Qed.

(** ** C328: the value reported under a name is that of the first quantity with the name *)
Definition reported (measure : string -> string -> R) (mods : list pmodule) (user : list quantity) (i : nat) : R :=
  nth (length (concat (map asks mods)) + i) (values measure (block_list mods user)) 0%R.

Theorem C328_named_partial : forall measure mods user i q,
  nth_error user i = Some q -> place_ok (q_place q) = true ->
  exists q', In q' (block_list mods user) /\ key q' = key q /\
    (forall pre q'' post, block_list mods user = (pre ++ q'' :: post)%list -> key q'' = key q ->
       (forall x, In x pre -> key x <> key q) -> q'' = q') /\
    reported measure mods user i = own_integral measure q'.
Proof.
  intros measure mods user i q Hi HP. unfold reported, values.
  set (qs := block_list mods user).
  assert (HB : nth_error qs (length (concat (map asks mods)) + i) = Some q).
  { unfold qs, block_list. rewrite nth_error_app2 by lia.
    replace (_ + i - _) with i by lia. exact Hi. }
  rewrite (nth_error_nth_map _ _ _ _ _ HB). unfold value. rewrite HP.
  assert (F : forall l, In q l -> exists q', In q' l /\ key q' = key q /\
     first_integrand l (q_name q) (q_place q) = Some (q_integrand q') /\
     (forall pre q'' post, l = (pre ++ q'' :: post)%list -> key q'' = key q ->
        (forall x, In x pre -> key x <> key q) -> q'' = q')).
  { induction l as [|a r IH]; intros H; [destruct H|]. cbn.
    destruct (String.eqb (q_name a) (q_name q) && String.eqb (q_place a) (q_place q)) eqn:E.
    - apply andb_true_iff in E. destruct E as [E1 E2]. apply String.eqb_eq in E1, E2.
      assert (KA : key a = key q) by (unfold key; congruence).
      exists a. split; [auto|]. split; [exact KA|]. split; [reflexivity|].
      intros [|p pre] q'' post EQ K N; cbn in EQ; injection EQ as -> EQ; [reflexivity|].
      exfalso. apply (N p); [left; reflexivity|exact KA].
    - assert (KA : key a <> key q).
      { intros K. unfold key in K. injection K as K1 K2. rewrite K1, K2, !String.eqb_refl in E. discriminate. }
      destruct H as [-> | H]; [contradiction KA; reflexivity|].
      destruct (IH H) as (q' & I & K & Fi & U). exists q'. split; [auto|]. split; [exact K|]. split; [exact Fi|].
      intros [|p pre] q'' post EQ K' N; cbn in EQ; injection EQ as -> EQ; [contradiction|].
      apply (U pre q'' post); auto. intros x Hx. apply N. right; exact Hx. }
  destruct (F qs (nth_error_In _ _ HB)) as (q' & I & K & Fi & U).
  exists q'. split; [exact I|]. split; [exact K|]. split.
  - exact U.
  - rewrite Fi. unfold own_integral. unfold key in K. injection K as _ ->. reflexivity.
Qed.
Print Assumptions C328_named_partial.

Theorem C328_named_refuted : exists measure mods user i q,
  nth_error user i = Some q /\ NoDup (map key user) /\ place_ok (q_place q) = true /\
  reported measure mods user i <> own_integral measure q.
Proof.
  exists (fun s _ => if String.eqb s "T" then 1%R else 0%R), (map (the_module 1 true true false) [Thermal]),
    [mkq "T^2" "thermal vol total T" "volume"], 0, (mkq "T^2" "thermal vol total T" "volume").
  split; [reflexivity|]. split; [constructor; [intros []|constructor]|]. split; [reflexivity|].
  unfold reported, own_integral. cbn. lra.
Qed.
Print Assumptions C328_named_refuted.

(** ** C329: the pressure a step works with *)
Theorem C329_carried_partial : forall table dynamic upds k n s i seen s',
  nth_error (run table dynamic upds n k s) i = Some (seen, s') ->
  seen = (table (if dynamic then n + i else 0)%nat, table (if dynamic then n + i else 0)%nat) /\
  cur s' = fold_left (fun p u => u p) (upds (n + i)%nat) (table (if dynamic then n + i else 0)%nat).
Proof.
  induction k as [|k IH]; intros n s i seen s' H; [destruct i; discriminate|].
  cbn in H. destruct i as [|i].
  - injection H as <- <-. rewrite Nat.add_0_r. split; reflexivity.
  - cbn in H. apply IH in H. replace (n + S i) with (S n + i) by lia. exact H.
Qed.
Print Assumptions C329_carried_partial.

(** so the pressure computed after one step is not the one the next step works with *)
Theorem C329_carried_refuted : exists table dynamic upds s0 p1 s1 p2 s2,
  run table dynamic upds 0 2 s0 = [(p1, s1); (p2, s2)] /\ fst p2 <> cur s1 /\ snd p2 <> cur s1.
Proof.
  exists (fun _ => 1%R), false, (fun _ => [(fun p => fst (update_closed [3%R; 1%R] 1%R p))]), {| cur := 1; cur_ad := 1 |}.
  do 4 eexists. split; [reflexivity|]. cbn. split; lra.
Qed.
Print Assumptions C329_carried_refuted.

(** ** C330: one pressure for the domain *)
Definition closed_update (dt : R) (iq : R * R) : R -> R := fun p => fst (update_closed [fst iq; snd iq] dt p).
Definition total (l : list (R * R)) : R * R :=
  fold_right (fun a b => (fst a + fst b, snd a + snd b)%R) (0%R, 0%R) l.
(** spec: total mass (times R) over the integral of 1/T, over all blocks *)
Definition domain_pressure (iqs : list (R * R)) : R := (fst (total iqs) / snd (total iqs))%R.

Theorem C330_domain_partial : forall dt iqs b s,
  cur (record_blocks (map (closed_update dt) (iqs ++ [b])) s) = domain_pressure [b].
Proof.
  intros. unfold record_blocks. cbn [cur]. rewrite map_app, fold_left_app. cbn.
  unfold domain_pressure. cbn. f_equal; [lra|f_equal; lra].
Qed.
Print Assumptions C330_domain_partial.

Theorem C330_domain_refuted : exists dt iqs s, (0 < dt)%R /\ Forall (fun b => 0 < fst b /\ 0 < snd b)%R iqs /\
  cur (record_blocks (map (closed_update dt) iqs) s) <> domain_pressure iqs.
Proof.
  exists 1%R, [(1%R, 1%R); (3%R, 1%R)], {| cur := 1; cur_ad := 1 |}. split; [lra|]. split.
  - repeat constructor; cbn; lra.
  - unfold record_blocks, domain_pressure, closed_update, update_closed. cbn. lra.
Qed.
Print Assumptions C330_domain_refuted.

(** With a single block (or none but one that is closed) the domain's pressure is what is computed. *)
Example C330_single : forall dt s, cur (record_blocks (map (closed_update dt) [(6%R, 2%R)]) s) = 3%R.
Proof. intros. unfold record_blocks, closed_update, update_closed. cbn. lra. Qed.
