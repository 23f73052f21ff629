(** C318: what linear systems are solved with. *)
From Coq Require Import Bool Arith Lia List.
From Verif Require Import LinSolve_Model.
Import ListNotations.

Section Spec.
Variable M P V : Type.
Variable pat : M -> P.
Notation ctx := (solver_ctx M P).
Notation call := (call M V).
Notation solved := (solved M P V).
Arguments Solve {M V}. Arguments ResetAll {M V}. Arguments Direct {M P V}. Arguments Iterative {M P V}.

(** *** Specification on histories *)

Definition systems (h : list call) : list (M * V) := flat_map (fun c => match c with Solve J r => [(J, r)] | ResetAll => [] end) h.
Definition system_of (s : solved) : M * V := match s with Direct J _ r => (J, r) | Iterative J _ r => (J, r) end.

(** Matrix of the first system since the last reset, for each system. *)
Fixpoint firsts (first : option M) (h : list call) : list M :=
  match h with
  | [] => []
  | ResetAll :: h => firsts None h
  | Solve J _ :: h => match first with Some F => F :: firsts (Some F) h | None => J :: firsts (Some J) h end
  end.

(** Every system handed to the libraries has the matrix and the right-hand side of the call. *)
Theorem C318_system : forall h (c : ctx), map system_of (snd (calls M P V pat c h)) = systems h.
Proof.
  induction h as [|[J r|] h IH]; intro c; [reflexivity| |].
  - cbn [calls systems flat_map]. fold (systems h). destruct (linear_solver M P V pat c J r) as [c1 s] eqn:E.
    specialize (IH c1). destruct (calls M P V pat c1 h) as [c2 l]. cbn [snd map app] in *. rewrite IH. f_equal.
    unfold linear_solver, solve_direct, solve_iterative in E.
    destruct (use_direct M P c); [destruct (symb M P c)|destruct (use_prec M P c); [destruct (prec_type M P c); destruct (negb (reuse_prec M P c) || negb (have_prec M P c))|]];
      injection E as <- <-; reflexivity.
  - cbn [calls systems flat_map]. apply IH.
Qed.

Lemma options_kept (c : ctx) J r : let c1 := fst (linear_solver M P V pat c J r) in
  use_direct M P c1 = use_direct M P c /\ use_prec M P c1 = use_prec M P c /\ prec_type M P c1 = prec_type M P c /\ reuse_prec M P c1 = reuse_prec M P c.
Proof.
  unfold linear_solver, solve_direct, solve_iterative.
  destruct (use_direct M P c) eqn:D; [destruct (symb M P c)|destruct (use_prec M P c) eqn:U; [destruct (prec_type M P c) eqn:T; destruct (negb (reuse_prec M P c) || negb (have_prec M P c))|]];
    cbn [fst with_symb with_prec with_prec_dd use_direct use_prec prec_type reuse_prec]; auto.
Qed.

Lemma iterative_direct (c : ctx) J r : use_direct M P c = false -> linear_solver M P V pat c J r = solve_iterative M P V c J r.
Proof. unfold linear_solver. intros ->. reflexivity. Qed.

(** Without preconditioner none is used. *)
Theorem C318_none t reuse : forall h, Forall (fun s => match s with Iterative _ p _ => p = None | Direct _ _ _ => False end)
  (snd (calls M P V pat (new_ctx M P false false t reuse) h)).
Proof.
  intro h. assert (G : forall h (c : ctx), use_direct M P c = false -> use_prec M P c = false ->
    Forall (fun s => match s with Iterative _ p _ => p = None | Direct _ _ _ => False end) (snd (calls M P V pat c h))).
  { clear h. induction h as [|[J r|] h IH]; intros c D U; [constructor| |cbn [calls]; apply IH; auto].
    cbn [calls]. destruct (options_kept c J r) as (D1 & U1 & _). rewrite iterative_direct in * by auto. unfold solve_iterative in *. rewrite U in *. cbn [fst] in *.
    specialize (IH c D U). destruct (calls M P V pat c h). cbn [snd] in *. constructor; auto. }
  apply G; reflexivity.
Qed.

(** Preconditioners: with AMG, or without reuse, each is built from (or updated to) the matrix of
    its own system; with reuse the others come from the first system since the last reset,
    never from before it. *)
Definition own (t : ptype) (reuse : bool) : bool := match t with AMG => true | _ => negb reuse end.
Theorem C318_preconditioner t reuse : forall h, map (fun s => match s with Iterative _ p _ => p | Direct _ _ _ => None end)
    (snd (calls M P V pat (new_ctx M P false true t reuse) h)) =
  map Some (if own t reuse then map fst (systems h) else firsts None h).
Proof.
  intro h. assert (G : forall h (c : ctx) first, use_direct M P c = false -> use_prec M P c = true -> prec_type M P c = t -> reuse_prec M P c = reuse ->
    have_prec M P c = (match first with Some _ => true | None => false end) -> (t <> AMG -> prec_dd M P c = first) ->
    map (fun s => match s with Iterative _ p _ => p | Direct _ _ _ => None end) (snd (calls M P V pat c h)) =
    map Some (if own t reuse then map fst (systems h) else firsts first h)).
  { clear h. induction h as [|[J r|] h IH]; intros c first D U T R H K.
    - cbn [calls snd map systems flat_map firsts]. destruct (own t reuse); reflexivity.
    - cbn [calls systems flat_map]. fold (systems h). rewrite iterative_direct by auto. unfold solve_iterative. rewrite U, T, R, H.
      destruct t; cbn [own]; [| |].
      1,2: destruct reuse; cbn [negb orb]; [destruct first as [F|]; cbn [negb]|].
      1,4: rewrite (K ltac:(discriminate)); specialize (IH c (Some F) D U T R H (fun _ => K ltac:(discriminate)));
           destruct (calls M P V pat c h) as [c2 l]; cbn [snd map own negb] in *; rewrite IH; reflexivity.
      1,3: specialize (IH (with_prec_dd M P c J) (Some J) D U T R eq_refl (fun _ => eq_refl));
           destruct (calls M P V pat (with_prec_dd M P c J) h) as [c2 l]; cbn [snd map own negb] in *; rewrite IH; reflexivity.
      1,2: specialize (IH (with_prec_dd M P c J) (Some J) D U T R eq_refl (fun _ => eq_refl));
           destruct (calls M P V pat (with_prec_dd M P c J) h) as [c2 l]; cbn [snd map own negb app fst] in *; rewrite IH; reflexivity.
      destruct (negb reuse || negb match first with Some _ => true | None => false end);
        specialize (IH (with_prec M P c J) (Some J) D U T R eq_refl (fun X => False_ind _ (X eq_refl)));
        destruct (calls M P V pat (with_prec M P c J) h) as [c2 l]; cbn [snd map own negb app fst] in *; rewrite IH; reflexivity.
    - cbn [calls systems flat_map firsts]. apply (IH (ctx_reset M P c) None); auto. }
  apply G; reflexivity.
Qed.

(** A direct solve reuses the symbolic factorization of the pattern its matrix has, provided
    all matrices given to the solver have the pattern of the first. *)
Theorem C318_symbolic : forall h u t reuse p, (forall J r, In (Solve J r) h -> pat J = p) ->
  Forall (fun s => match s with Direct J q _ => q = pat J | Iterative _ _ _ => False end) (snd (calls M P V pat (new_ctx M P true u t reuse) h)).
Proof.
  intros h u t reuse p. assert (G : forall h (c : ctx), use_direct M P c = true -> (symb M P c = None \/ symb M P c = Some p) -> (forall J r, In (Solve J r) h -> pat J = p) ->
    Forall (fun s => match s with Direct J q _ => q = pat J | Iterative _ _ _ => False end) (snd (calls M P V pat c h))).
  { clear h. induction h as [|[J r|] h IH]; intros c D S H; [constructor| |cbn [calls]; apply IH; auto; intros; eapply H; right; eauto].
    cbn [calls]. assert (PJ : pat J = p) by (eapply H; left; reflexivity). unfold linear_solver, solve_direct. rewrite D. destruct S as [S|S]; rewrite S.
    - specialize (IH (with_symb M P c (pat J))). destruct (calls M P V pat (with_symb M P c (pat J)) h). cbn [snd] in *. constructor; auto. apply IH; auto.
      + right. cbn. congruence.
      + intros; eapply H; right; eauto.
    - specialize (IH c). destruct (calls M P V pat c h). cbn [snd] in *. constructor; [congruence|]. apply IH; auto. intros; eapply H; right; eauto. }
  intro H. apply G; auto.
Qed.
End Spec.
Print Assumptions C318_system.
Print Assumptions C318_none.
Print Assumptions C318_preconditioner.
Print Assumptions C318_symbolic.

(** Three systems, a reset, one more; matrices and patterns are numbers (pattern: parity). *)
Example C318_case :
  map (fun s => match s with Iterative _ _ _ _ p _ => p | _ => None end)
    (snd (calls nat nat nat (fun m => m mod 2) (new_ctx nat nat false true Ifpack true)
      [Solve _ _ 1 0; Solve _ _ 3 0; ResetAll _ _; Solve _ _ 5 0; Solve _ _ 7 0])) = [Some 1; Some 1; Some 5; Some 5] /\
  map (fun s => match s with Iterative _ _ _ _ p _ => p | _ => None end)
    (snd (calls nat nat nat (fun m => m mod 2) (new_ctx nat nat false true AMG true)
      [Solve _ _ 1 0; Solve _ _ 3 0; ResetAll _ _; Solve _ _ 5 0])) = [Some 1; Some 3; Some 5] /\
  snd (calls nat nat nat (fun m => m mod 2) (new_ctx nat nat true true AMG true)
      [Solve _ _ 1 7; Solve _ _ 3 8; ResetAll _ _; Solve _ _ 5 9]) = [Direct _ _ _ 1 1 7; Direct _ _ _ 3 1 8; Direct _ _ _ 5 1 9].
Proof. repeat split. Qed.
