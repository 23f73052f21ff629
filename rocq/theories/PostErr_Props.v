(** Errors and integrated quantities: C104-C107. *)
From Coq Require Import Bool Arith Lia Reals Lra Ascii String List Permutation.
Import ListNotations.
From Verif Require Import Sparse_Model Mass_Model BProj_Model BProj_Proofs Fields_Model Fields_Spec Fields_Proofs Fields_Props.
From Verif Require Import PostErr_Model PostErr_Spec.
Local Open Scope R_scope.
Local Open Scope string_scope.

Lemma sm_perm {A} (l l' : list A) f : Permutation l l' -> sm l f = sm l' f.
Proof.
  assert (forall (x : A) l, sm (x :: l) f = f x + sm l f) as C by reflexivity.
  induction 1; rewrite ?C; [reflexivity|rewrite IHPermutation; reflexivity|ring|congruence].
Qed.
Lemma sm_groups {A} (ranks : list (list A)) f : sm ranks (fun gs => sm gs f) = sm (concat ranks) f.
Proof. rewrite <- (map_id ranks) at 2. rewrite <- flat_map_concat_map. symmetry. apply sm_flat. Qed.
Lemma sm_filter {A} (l : list A) (b : A -> bool) f : sm (filter b l) f = sm l (fun x => if b x then f x else 0).
Proof.
  induction l as [|x l IH]; [reflexivity|]. cbn [filter]. change (sm (x :: l) ?g) with (g x + sm l g). cbv beta. rewrite <- IH.
  destruct (b x); [reflexivity|ring].
Qed.

(** ** C104: an integrated quantity over a block is the integral, whoever holds the elements *)
Theorem C104_volume ranks es f : Permutation (mesh ranks) es -> volume_quantity ranks f = mesh_integral es f.
Proof.
  intros P. unfold volume_quantity, mesh_integral. rewrite <- (sm_perm _ _ _ P). unfold mesh. rewrite sm_groups, sm_flat. reflexivity.
Qed.
Print Assumptions C104_volume.
(** ... and over all of its boundary. *)
Theorem C104_all ranks f : boundary_quantity "all" ranks f = mesh_integral (flat_map belems (concat ranks)) f.
Proof.
  unfold boundary_quantity, mesh_integral. rewrite sm_groups, sm_flat. apply sm_ext. intros g _. rewrite orb_true_r. reflexivity.
Qed.
Print Assumptions C104_all.

(** ** C105: ... and over the sides that are named *)
Lemma listed_piece x l : In x l -> piece x (listed l).
Proof.
  induction l as [|y l IH]; intros I; [destruct I|]. destruct l as [|z l].
  - destruct I as [->|[]]. exists "", "". cbn [listed append]. clear. induction x; cbn; congruence.
  - change (listed (y :: z :: l)) with (y ++ ", " ++ listed (z :: l)). destruct I as [->|I].
    + exists "", (", " ++ listed (z :: l)). reflexivity.
    + destruct (IH I) as (a & b & E). rewrite E. exists (y ++ ", " ++ a), b.
      rewrite !sapp_assoc. reflexivity.
Qed.
(** When no other side's name is written inside the list. *)
Theorem C105_sides_partial asked ranks es f : listed asked <> "all" ->
  (forall g, In g (concat ranks) -> piece (sidename g) (listed asked) -> In (sidename g) asked) ->
  Permutation (sides_of asked ranks) es ->
  boundary_quantity (listed asked) ranks f = mesh_integral es f.
Proof.
  intros NA H P. unfold boundary_quantity, mesh_integral. rewrite <- (sm_perm _ _ _ P). unfold sides_of.
  rewrite sm_groups, sm_flat, sm_filter. apply sm_ext. intros g G.
  destruct (String.eqb_spec (listed asked) "all"); [contradiction|]. rewrite orb_false_r.
  destruct (in_dec string_dec (sidename g) asked) as [I|I].
  - rewrite (proj2 (contains_iff _ _) (listed_piece _ _ I)). reflexivity.
  - destruct (contains (sidename g) (listed asked)) eqn:E; [|reflexivity]. apply contains_iff in E. elim I. apply H; assumption.
Qed.
Print Assumptions C105_sides_partial.
Definition unit_cell : eelem := {| ept := 1; ewt := fun _ => 1; efaces := 1; fpt := fun _ => 1%nat; fwt := fun _ _ => 1 |}.
(** A side whose name is part of another's is integrated with it. *)
Theorem C105_sides_refuted : exists asked ranks f, listed asked <> "all" /\
  boundary_quantity (listed asked) ranks f <> mesh_integral (sides_of asked ranks) f.
Proof.
  exists ["topleft"], [[{| sidename := "top"; belems := [unit_cell] |}; {| sidename := "topleft"; belems := [unit_cell] |}]], (fun _ _ => 1).
  split; [discriminate|]. cbn. lra.
Qed.
Print Assumptions C105_sides_refuted.
Example sides_run : boundary_quantity (listed ["left"; "right"])
    [[{| sidename := "left"; belems := [unit_cell] |}]; [{| sidename := "top"; belems := [unit_cell] |}; {| sidename := "right"; belems := [unit_cell; unit_cell] |}]]
    (fun _ _ => 2) = 6.
Proof.
  rewrite (C105_sides_partial ["left"; "right"] _ [unit_cell; unit_cell; unit_cell]).
  - cbn. ring.
  - discriminate.
  - intros g [<-|[<-|[<-|[]]]] Q; cbn [sidename] in *; [left; reflexivity| |right; left; reflexivity].
    apply contains_iff in Q. discriminate.
  - cbn. reflexivity.
Qed.

(** ** C106: a reported error is the norm of the difference *)
Definition volume_norm (n : norm) : Prop := match n with NFace => False | _ => True end.
Lemma compared_kinds dim n v : (1 <= dim <= 3)%nat -> volume_norm n -> ~ (n = NCurl /\ dim = 2%nat) ->
  compared dim n v = map (fun k => name k v) (kinds dim n).
Proof.
  intros D V C. assert (dim = 1 \/ dim = 2 \/ dim = 3)%nat as [->|[-> | ->]] by lia; destruct n; try reflexivity; try destruct V.
  exfalso. apply C. split; reflexivity.
Qed.
Theorem C106_norm dim fd v n ranks es : (1 <= dim <= 3)%nat -> volume_norm n -> ~ (n = NCurl /\ dim = 2%nat) ->
  Permutation (parts ranks) es ->
  reported_error dim fd v n ranks = sqrt (mesh_integral es (distance2 fd v (kinds dim n))).
Proof.
  intros D V C P. unfold reported_error, mesh_integral. f_equal. rewrite <- (sm_perm _ _ _ P). unfold parts.
  rewrite sm_groups, sm_flat, sm_filter. apply sm_ext. intros g _.
  assert (group_error dim fd v n g = if active g then sm (compared dim n v) (fun nm => sm (eelems g) (fun e => sm (seq 0 (ept e)) (fun pt =>
          (sol fd nm e pt - tru fd nm e pt) * (sol fd nm e pt - tru fd nm e pt) * ewt e pt))) else 0) as -> by (destruct n; try reflexivity; destruct V).
  destruct (active g); [|reflexivity]. rewrite compared_kinds by assumption. rewrite sm_map, sm_swap. apply sm_ext. intros e _.
  rewrite sm_swap. apply sm_ext. intros x _. unfold distance2. rewrite <- sm_scal. apply sm_ext. intros k _. ring.
Qed.
Print Assumptions C106_norm.
(** It is zero exactly when the fields agree at every point. *)
Theorem C106_exact dim fd v n ranks : (1 <= dim <= 3)%nat -> volume_norm n -> ~ (n = NCurl /\ dim = 2%nat) ->
  (forall e x, In e (parts ranks) -> (x < ept e)%nat -> 0 < ewt e x) ->
  (reported_error dim fd v n ranks = 0 <->
   forall e x k, In e (parts ranks) -> (x < ept e)%nat -> In k (kinds dim n) -> sol fd (name k v) e x = tru fd (name k v) e x).
Proof.
  intros D V C W. rewrite (C106_norm dim fd v n ranks (parts ranks)) by (try assumption; reflexivity).
  assert (forall e x, 0 <= distance2 fd v (kinds dim n) e x) as P2 by (intros; apply sm_nonneg; intros; apply pow2_ge_0).
  assert (forall e x, In e (parts ranks) -> In x (seq 0 (ept e)) -> 0 <= ewt e x * distance2 fd v (kinds dim n) e x) as P1.
  { intros e x E X. apply in_seq in X. apply Rmult_le_pos; [apply Rlt_le, W; [exact E|lia]|apply P2]. }
  assert (forall e, In e (parts ranks) -> 0 <= sm (seq 0 (ept e)) (fun x => ewt e x * distance2 fd v (kinds dim n) e x)) as P0
    by (intros e E; apply sm_nonneg; intros x X; apply P1; assumption).
  split.
  - intros Z e x k E X K. apply sqrt_eq_0 in Z; [|apply sm_nonneg; exact P0].
    pose proof (sm_nonneg_zero _ _ P0 (Req_le _ _ Z) e E) as Ze. cbn beta in Ze.
    pose proof (sm_nonneg_zero _ _ (fun x => P1 e x E) (Req_le _ _ Ze) x ltac:(apply in_seq; lia)) as Zx. cbn beta in Zx.
    apply Rmult_integral in Zx as [Zx|Zx]; [specialize (W e x E X); lra|].
    pose proof (sm_nonneg_zero (kinds dim n) (fun k => (sol fd (name k v) e x - tru fd (name k v) e x) ^ 2) (fun k _ => pow2_ge_0 _) (Req_le _ _ Zx) k K) as Zk.
    cbn beta in Zk. apply Rmult_integral in Zk as [Zk|Zk]; [lra|]. rewrite Rmult_1_r in Zk. lra.
  - intros H. rewrite <- sqrt_0. f_equal. apply sm_zero. intros e E. apply sm_zero. intros x X. apply in_seq in X.
    unfold distance2. rewrite sm_zero; [ring|]. intros k K. rewrite (H e x k E ltac:(lia) K). ring.
Qed.
Print Assumptions C106_exact.
(** The face norm is zero exactly when the fields agree at every point of every face. *)
Theorem C106_face dim fd v ranks :
  (forall e f x, In e (mesh ranks) -> (f < efaces e)%nat -> (x < fpt e f)%nat -> 0 < fwt e f x) ->
  (reported_error dim fd v NFace ranks = 0 <->
   forall e f x, In e (mesh ranks) -> (f < efaces e)%nat -> (x < fpt e f)%nat -> fsol fd v e f x = ftru fd v e f x).
Proof.
  intros W.
  set (term := fun e f x => 1 / 2 / sm (seq 0 (fpt e f)) (fun pt => fwt e f pt) * (fsol fd v e f x - ftru fd v e f x) * (fsol fd v e f x - ftru fd v e f x) * fwt e f x).
  assert (reported_error dim fd v NFace ranks = sqrt (sm (mesh ranks) (fun e => sm (seq 0 (efaces e)) (fun f => sm (seq 0 (fpt e f)) (term e f))))) as ->.
  { unfold reported_error. f_equal. unfold mesh. rewrite sm_groups, sm_flat. reflexivity. }
  assert (forall e f x, In e (mesh ranks) -> (f < efaces e)%nat -> (x < fpt e f)%nat -> 0 < sm (seq 0 (fpt e f)) (fun pt => fwt e f pt)) as M.
  { intros e f x E F X. assert (0 <= sm (seq 0 (fpt e f)) (fun pt => fwt e f pt)) as N.
    { apply sm_nonneg. intros y Y. apply in_seq in Y. apply Rlt_le, W; try assumption; lia. }
    destruct (Rle_lt_or_eq_dec _ _ N) as [L|Z]; [exact L|]. exfalso.
    pose proof (sm_nonneg_zero (seq 0 (fpt e f)) (fun pt => fwt e f pt)) as Q.
    assert (fwt e f x = 0) as W0. { apply Q; [|lra|apply in_seq; lia]. intros y Y. apply in_seq in Y. apply Rlt_le, W; try assumption; lia. }
    specialize (W e f x E F X). lra. }
  assert (forall e f x, In e (mesh ranks) -> In f (seq 0 (efaces e)) -> In x (seq 0 (fpt e f)) -> 0 <= term e f x) as P.
  { intros e f x E F X. apply in_seq in F. apply in_seq in X. unfold term. rewrite (Rmult_assoc (1 / 2 / _)). apply Rmult_le_pos; [apply Rmult_le_pos|].
    - apply Rlt_le, Rdiv_lt_0_compat; [lra|]. apply (M e f x); try assumption; lia.
    - apply Rle_0_sqr.
    - apply Rlt_le, W; try assumption; lia. }
  assert (forall e f, In e (mesh ranks) -> In f (seq 0 (efaces e)) -> 0 <= sm (seq 0 (fpt e f)) (term e f)) as P1
    by (intros e f E F; apply sm_nonneg; intros x X; apply P; assumption).
  assert (forall e, In e (mesh ranks) -> 0 <= sm (seq 0 (efaces e)) (fun f => sm (seq 0 (fpt e f)) (term e f))) as P0
    by (intros e E; apply sm_nonneg; intros f F; apply P1; assumption).
  split.
  - intros Z e f x E F X. apply sqrt_eq_0 in Z; [|apply sm_nonneg; exact P0].
    pose proof (sm_nonneg_zero _ _ P0 (Req_le _ _ Z) e E) as Ze. cbn beta in Ze.
    pose proof (sm_nonneg_zero _ _ (fun f => P1 e f E) (Req_le _ _ Ze) f ltac:(apply in_seq; lia)) as Zf. cbn beta in Zf.
    pose proof (sm_nonneg_zero _ _ (fun x => P e f x E ltac:(apply in_seq; lia)) (Req_le _ _ Zf) x ltac:(apply in_seq; lia)) as Zx.
    unfold term in Zx. specialize (M e f x E F X). specialize (W e f x E F X).
    apply Rmult_integral in Zx as [Zx|Zx]; [|lra]. apply Rmult_integral in Zx as [Zx|Zx]; [|lra]. apply Rmult_integral in Zx as [Zx|Zx]; [|lra].
    exfalso. assert (0 < 1 / 2 / sm (seq 0 (fpt e f)) (fun pt => fwt e f pt)) by (apply Rdiv_lt_0_compat; lra). lra.
  - intros H. rewrite <- sqrt_0. f_equal. apply sm_zero. intros e E. apply sm_zero. intros f F. apply sm_zero. intros x X.
    apply in_seq in F. apply in_seq in X. unfold term. rewrite (H e f x E ltac:(lia) ltac:(lia)). ring.
Qed.
Print Assumptions C106_face.
Definition sample_fd : fielddata := {| sol := fun s _ _ => if String.eqb s "grad(T)[y]" then 3 else 1; tru := fun _ _ _ => 1;
  fsol := fun _ _ _ _ => 0; ftru := fun _ _ _ _ => 0 |}.
Example error_run : reported_error 2 sample_fd "T" NGrad [[{| active := true; eelems := [unit_cell] |}]; [{| active := false; eelems := [unit_cell] |}]] = 2.
Proof.
  rewrite (C106_norm 2 sample_fd "T" NGrad _ [unit_cell]); [| lia | exact I | intros [C _]; discriminate | reflexivity].
  replace (mesh_integral [unit_cell] _) with (2 * 2); [apply sqrt_square; lra|]. cbn. ring.
Qed.

(** ** C107: what an accepted request compares is there to be compared *)
Lemma add_some a b c r : add a b = Some c -> In r c -> (exists x, a = Some x /\ In r x) \/ (exists y, b = Some y /\ In r y).
Proof.
  destruct a as [x|], b as [y|]; cbn [add]; intros E I; try discriminate. injection E as <-. apply in_app_iff in I as [I|I]; [left|right]; eauto.
Qed.
(** a request and the space of its variable *)
Definition suits (s : space) (n : norm) : Prop :=
  match n with
  | NL2 => s = HGRAD \/ s = HVOL
  | NGrad => s = HGRAD
  | NFace => s = HGRAD \/ s = HFACE
  | NVector => s = HDIV \/ s = HCURL
  | NDiv => s = HDIV
  | NCurl => s = HCURL
  end.
Lemma starts_space v s : starts (label_of s) (vbtype v) = true -> in_space v s.
Proof. intros H. apply starts_iff in H. exact H. Qed.
Lemma requests_suit dim sols vars l : requests dim sols vars = Some l -> forall v n, In (v, n) l ->
  exists x s, In x vars /\ vname x = v /\ in_space x s /\ suits s n.
Proof.
  revert l. induction vars as [|x vars IH]; intros l E v n I; cbn [requests fold_right] in E.
  - injection E as <-. destruct I.
  - destruct (add_some _ _ _ _ E I) as [(a & Ea & Ia)|(b & Eb & Ib)].
    2:{ destruct (IH _ Eb v n Ib) as (y & s & A & B). exists y, s. split; [right; exact A|exact B]. }
    exists x. enough (exists s, v = vname x /\ in_space x s /\ suits s n) as (s & -> & B) by (exists s; split; [left; reflexivity|split; [reflexivity|exact B]]).
    unfold requests_of in Ea.
    repeat match goal with H : add _ _ = Some _, J : In (v, n) _ |- _ => destruct (add_some _ _ _ _ H J) as [(? & ? & ?)|(? & ? & ?)]; clear H; try clear J end;
    repeat match goal with H : (if ?b then _ else _) = Some _ |- _ => destruct b eqn:?; try discriminate H end;
    match goal with H : Some _ = Some ?y, J : In (v, n) ?y |- _ => injection H as <-; cbn [In] in J; try contradiction J; destruct J as [J|[]]; injection J as <- <- end;
    repeat match goal with H : (_ || _)%bool = true |- _ => apply orb_true_iff in H as [H|H] end;
    match goal with
    | H : starts "HGRAD" _ = true |- _ => exists HGRAD
    | H : starts "HVOL" _ = true |- _ => exists HVOL
    | H : starts "HDIV" _ = true |- _ => exists HDIV
    | H : starts "HCURL" _ = true |- _ => exists HCURL
    | H : starts "HFACE" _ = true |- _ => exists HFACE
    end; (split; [reflexivity|split; [apply starts_space; assumption|cbn; auto]]).
Qed.
Lemma suits_volume dim s n k : volume_norm n -> ~ (n = NCurl /\ dim = 2%nat) -> (1 <= dim <= 3)%nat -> suits s n -> In k (kinds dim n) -> volume_kind dim s k.
Proof.
  intros V C D S K. assert (dim = 1 \/ dim = 2 \/ dim = 3)%nat as [->|[-> | ->]] by lia; destruct n; cbn in V, S, K; try contradiction;
  repeat match goal with H : _ \/ _ |- _ => destruct H as [H|H] | H : False |- _ => destruct H end; subst; cbn; auto; try lia; try (exfalso; apply C; split; reflexivity).
Qed.
(** The fields of every accepted request exist in the workset and hold the solution, except the
    curl in two dimensions. *)
Theorem C107_fields_partial dim sets params tr e0 ops sols vars l v n :
  (1 <= dim <= 3)%nat -> NoDup (all_names sets params) -> Forall plain (all_names sets params) ->
  last_side false ops = false -> In vars sets -> (forall x, In x vars -> 1 <= nb (last_load e0 ops) (vbasis x))%nat ->
  requests dim sols vars = Some l -> In (v, n) l -> volume_norm n -> ~ (n = NCurl /\ dim = 2%nat) ->
  exists x, In x vars /\ vname x = v /\ forall k, In k (kinds dim n) ->
    exists u udot d st', unknown sets params tr (last_load e0 ops) x u udot /\
    get (after dim sets params tr e0 ops) (name k v) = Some (d, st') /\ forall pt, d pt = wanted (last_load e0 ops) (vbasis x) u udot k pt.
Proof.
  intros D N P S IV NB E I V C. destruct (requests_suit _ _ _ _ E v n I) as (x & s & X & <- & Sp & Su).
  exists x. split; [exact X|]. split; [reflexivity|]. intros k K.
  destruct (In_nth_error _ _ IV) as [si Hs]. destruct (In_nth_error _ _ X) as [i Hi].
  assert (exists u udot, unknown sets params tr (last_load e0 ops) x u udot) as (u & udot & U).
  { eexists. eexists. left. exists si, i, vars. split; [exact Hs|]. split; [exact Hi|]. split; reflexivity. }
  destruct (C94_volume dim sets params tr e0 ops x s k u udot N P S U Sp (suits_volume _ _ _ _ V C D Su K) (NB x X)) as (d & st' & G & W).
  exists u, udot, d, st'. split; [exact U|]. split; assumption.
Qed.
Print Assumptions C107_fields_partial.
(** In two dimensions the curl is asked for by a name nothing answers to. *)
Theorem C107_curl_refuted : exists sols vars l v, requests 2 sols vars = Some l /\ In (v, NCurl) l /\
  Forall plain (map vname vars) /\
  exists nm, In nm (compared 2 NCurl v) /\ forall tr e0 ops, get (after 2 [vars] [] tr e0 ops) nm = None.
Proof.
  exists ["curl(E)[x]"; "curl(E)[y]"], [vector "HCURL" "E"], [("E", NCurl)], "E". split; [reflexivity|]. split; [left; reflexivity|].
  assert (Pl : plain "E") by (intros p Hp Hq; apply contains_iff in Hq; cbn in Hp; intuition (subst; discriminate)).
  split; [repeat constructor; exact Pl|]. exists "curl(E)[x]". split; [left; reflexivity|].
  intros tr e0 ops. unfold after.
  destruct (history_good 2 [[vector "HCURL" "E"]] [] tr ops _ (new_good 2 [[vector "HCURL" "E"]] [] tr e0)) as ([_ _ _ GV GS _ _] & _ & _).
  set (st := fold_left fstep ops _) in *. unfold get. destruct (on_side st); rewrite get_in_none; try reflexivity.
  - rewrite (attr_expr _ _ GS). cbn. intuition discriminate.
  - rewrite (attr_expr _ _ GV). cbn. intuition discriminate.
Qed.
Print Assumptions C107_curl_refuted.
(** A true solution given for a variable, its gradient, its faces, its components, its divergence or
    its curl, is compared or refused. *)
Definition asks (sols : list string) (v : string) (n : norm) : Prop :=
  match n with
  | NL2 => In v sols
  | NGrad => exists a, In a ["[x]"; "[y]"; "[z]"] /\ In ("grad(" ++ v ++ ")" ++ a) sols
  | NFace => In (v ++ " face") sols
  | NVector => exists a, In a ["[x]"; "[y]"; "[z]"] /\ In (v ++ a) sols
  | NDiv => In ("div(" ++ v ++ ")") sols
  | NCurl => exists a, In a ["[x]"; "[y]"; "[z]"] /\ In ("curl(" ++ v ++ ")" ++ a) sols
  end.
Definition C107_compared : Prop := forall dim sols vars l x n,
  requests dim sols vars = Some l -> In x vars -> asks sols (vname x) n -> In (vname x, n) l.
Lemma given_in sols x : In x sols -> given sols x = true.
Proof. intros H. apply existsb_exists. exists x. split; [exact H|apply String.eqb_refl]. Qed.
Lemma add_in a b c r : add a b = Some c -> (forall x, a = Some x -> In r x) \/ (forall y, b = Some y -> In r y) -> In r c.
Proof.
  destruct a as [x|], b as [y|]; cbn [add]; intros E H; try discriminate. injection E as <-. apply in_app_iff.
  destruct H as [H|H]; [left|right]; apply H; reflexivity.
Qed.
Lemma some_in sols f : (exists a, In a ["[x]"; "[y]"; "[z]"] /\ In (f a) sols) -> some_axis sols f = true.
Proof. intros (a & A & H). apply existsb_exists. exists a. split; [exact A|]. apply given_in, H. Qed.
(** ... for values, when the variable is a scalar in the volume. *)
Theorem C107_compared_partial dim sols vars l x n :
  requests dim sols vars = Some l -> In x vars -> asks sols (vname x) n ->
  (n = NL2 -> in_space x HGRAD \/ in_space x HVOL) -> In (vname x, n) l.
Proof.
  intros E X A L. revert l E. induction vars as [|y vars IH]; intros l E; [destruct X|]. cbn [requests fold_right] in E.
  eapply add_in; [exact E|]. destruct X as [->|X]; [left|right; intros r Er; apply (IH X r Er)].
  clear E IH l. intros l E. unfold requests_of in E. cbv zeta in E. destruct n; cbn [asks] in A.
  - eapply add_in; [exact E|]. left. intros r Er. rewrite (given_in _ _ A) in Er.
    assert ((starts "HGRAD" (vbtype x) || starts "HVOL" (vbtype x))%bool = true) as T
      by (apply orb_true_iff; destruct (L eq_refl) as [S|S]; apply starts_iff in S; [left|right]; exact S).
    rewrite T in Er. injection Er as <-. left; reflexivity.
  - eapply add_in; [exact E|]. right. intros r Er. eapply add_in; [exact Er|]. left. intros r' Er'. rewrite (some_in _ _ A) in Er'.
 repeat match type of Er' with (if ?b then _ else _) = Some _ => destruct b; [|discriminate Er'] end. injection Er' as <-. left; reflexivity.
  - eapply add_in; [exact E|]. right. intros r Er. eapply add_in; [exact Er|]. right. intros r1 E1. eapply add_in; [exact E1|]. left.
    intros r' Er'. rewrite (given_in _ _ A) in Er'. repeat match type of Er' with (if ?b then _ else _) = Some _ => destruct b; [|discriminate Er'] end. injection Er' as <-. left; reflexivity.
  - eapply add_in; [exact E|]. right. intros r Er. eapply add_in; [exact Er|]. right. intros r1 E1. eapply add_in; [exact E1|]. right.
    intros r2 E2. eapply add_in; [exact E2|]. left. intros r' Er'. rewrite (some_in sols (fun a => (vname x ++ a)%string) A) in Er'.
 repeat match type of Er' with (if ?b then _ else _) = Some _ => destruct b; [|discriminate Er'] end. injection Er' as <-. left; reflexivity.
  - eapply add_in; [exact E|]. right. intros r Er. eapply add_in; [exact Er|]. right. intros r1 E1. eapply add_in; [exact E1|]. right.
    intros r2 E2. eapply add_in; [exact E2|]. right. intros r3 E3. eapply add_in; [exact E3|]. left. intros r' Er'. rewrite (given_in _ _ A) in Er'.
 repeat match type of Er' with (if ?b then _ else _) = Some _ => destruct b; [|discriminate Er'] end. injection Er' as <-. left; reflexivity.
  - eapply add_in; [exact E|]. right. intros r Er. eapply add_in; [exact Er|]. right. intros r1 E1. eapply add_in; [exact E1|]. right.
    intros r2 E2. eapply add_in; [exact E2|]. right. intros r3 E3. eapply add_in; [exact E3|]. right. intros r' Er'. rewrite (some_in _ _ A) in Er'.
 repeat match type of Er' with (if ?b then _ else _) = Some _ => destruct b; [|discriminate Er'] end. injection Er' as <-. left; reflexivity.
Qed.
Print Assumptions C107_compared_partial.
(** A value given for a variable on faces, or for a vector, is dropped without a word. *)
Theorem C107_compared_refuted : ~ C107_compared.
Proof.
  intros A. specialize (A 2%nat ["q"] [vector "HDIV" "q"] [] (vector "HDIV" "q") NL2 eq_refl (or_introl eq_refl)).
  destruct (A (or_introl eq_refl)).
Qed.
Print Assumptions C107_compared_refuted.
(** Requests that meet the hypotheses. *)
Example requests_run :
  requests 2 ["T"; "grad(T)[x]"; "grad(T)[y]"; "q[x]"; "q[y]"; "div(q)"; "T face"] [scalar "T"; vector "HDIV" "q"] =
    Some [("T", NL2); ("T", NGrad); ("T", NFace); ("q", NVector); ("q", NDiv)].
Proof. reflexivity. Qed.
Example requests_stop : requests 2 ["grad(T)[x]"] [scalar "T"] = None.
Proof. reflexivity. Qed.
