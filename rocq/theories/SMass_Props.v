(** The database of local mass matrices: C345-C347. *)
From Coq Require Import Bool Arith Lia Reals Lra List.
From Verif Require Import BProj_Model BProj_Proofs SMass_Model.
Import ListNotations.
Local Open Scope R_scope.
Local Notation length := List.length.

(** *** Specification *)

(** Places of the variables: each has one per basis function, and no place is
    used twice. *)
Record places (vs : list mvar) : Prop := {
  pl_len : forall v, In v vs -> length (mv_off v) = mv_num v;
  pl_each : forall v, In v vs -> NoDup (mv_off v);
  pl_sep : forall n m v w p, nth_error vs n = Some v -> nth_error vs m = Some w ->
    In p (mv_off v) -> In p (mv_off w) -> n = m }.

(** Quadrature of the weighted product of basis functions i and j. *)
Definition product (v : mvar) (q : rule3) (i j : nat) : R :=
  mv_wt v * sm q (fun pw => snd pw * sm (seq 0 (mv_dim v)) (fun d =>
    mv_bas v i (fst pw) d * mv_bas v j (fst pw) d)).

(** *** Reading the table *)
Lemma entry_product v q i j : mass_entry v q i j = product v q i j.
Proof.
  unfold mass_entry, product. rewrite <- sm_scal. apply sm_ext. intros pw _.
  rewrite <- !sm_scal. apply sm_ext. intros d _. ring.
Qed.

Lemma read_set cs : forall m r c x, In (r, c, x) cs ->
  (forall y, In (r, c, y) cs -> y = x) ->
  fold_left (fun m c => set_at m (fst (fst c)) (snd (fst c)) (snd c)) cs m r c = x.
Proof.
  assert (G : forall cs m r c x, (forall y, In (r, c, y) cs -> y = x) ->
    (m r c = x \/ In (r, c, x) cs) ->
    fold_left (fun m c => set_at m (fst (fst c)) (snd (fst c)) (snd c)) cs m r c = x).
  { induction cs0 as [|[[r' c'] y] t IH]; intros m r c x U H; cbn [fold_left fst snd].
    - destruct H as [H|[]]. exact H.
    - apply IH; [intros z Hz; apply U; now right|]. unfold set_at.
      destruct (Nat.eqb_spec r r') as [->|], (Nat.eqb_spec c c') as [->|]; cbn [andb];
        try (left; apply U; now left);
        destruct H as [H|[H|H]]; try (left; exact H); try (right; exact H); congruence. }
  intros m r c x Hx U. apply G; auto.
Qed.

Lemma in_writes f v r c x : In (r, c, x) (var_writes f v) <->
  exists i j, (i < mv_num v)%nat /\ (j < mv_num v)%nat /\ r = off_of v i /\ c = off_of v j /\ x = f i j.
Proof.
  unfold var_writes. rewrite in_flat_map. split.
  - intros (i & Hi & H). apply in_map_iff in H as (j & E & Hj). injection E as <- <- <-.
    apply in_seq in Hi, Hj. exists i, j. repeat split; lia.
  - intros (i & j & Hi & Hj & -> & -> & ->). exists i. split; [apply in_seq; lia|].
    apply in_map_iff. exists j. split; [reflexivity|apply in_seq; lia].
Qed.

(** Values of a variable come from one function. *)
Lemma values_fun s det usual v cs : var_values s det usual v = Some cs ->
  exists f, (cs = [] /\ mv_type v = HFACE) \/
    (mv_type v <> HFACE /\ cs = var_writes f v /\
     ((ms_sparse s = true /\ mv_type v = HCURL /\
       exists q, new_rule (ms_lib s) (ms_dim s) (ms_order s) [Lobatto; Lobatto; Lobatto] = Some q /\
                 f = sparse_entry v [phys_rule det q]) \/
      ((ms_sparse s = false \/ mv_type v <> HCURL) /\ f = mass_entry v usual))).
Proof.
  unfold var_values. destruct (ms_sparse s), (mv_type v) eqn:T; cbn [qrules all_rules];
    try (intros E; inversion E; eexists (mass_entry v usual);
         solve [left; split; reflexivity
               |right; split; [discriminate|]; split; [reflexivity|];
                right; split; [first [left; reflexivity|right; discriminate]|reflexivity]]).
  destruct (new_rule _ _ _ _) as [q|] eqn:Q; [|discriminate]. intros E. inversion E.
  exists (sparse_entry v [phys_rule det q]). right. split; [discriminate|]. split; [reflexivity|].
  left. repeat split. exists q. auto.
Qed.

Lemma off_inj_v vs v i j : places vs -> In v vs -> (i < mv_num v)%nat -> (j < mv_num v)%nat ->
  off_of v i = off_of v j -> i = j.
Proof.
  intros P Hv Hi Hj E. pose proof (pl_each _ P v Hv) as N. rewrite (NoDup_nth _ 0%nat) in N.
  apply N; rewrite ?(pl_len _ P v Hv); auto.
Qed.

Lemma off_in_v vs v i : places vs -> In v vs -> (i < mv_num v)%nat -> In (off_of v i) (mv_off v).
Proof. intros P Hv Hi. apply nth_In. rewrite (pl_len _ P v Hv). exact Hi. Qed.

Lemma in_all s det usual vs : forall cs, all_values s det usual vs = Some cs ->
  forall c, In c cs <-> exists n v a, nth_error vs n = Some v /\ var_values s det usual v = Some a /\ In c a.
Proof.
  induction vs as [|v t IH]; intros cs E c; cbn [all_values] in E.
  - inversion E; subst. split; [intros []|]. intros ([|n] & v & a & H & _); discriminate.
  - destruct (var_values s det usual v) as [a|] eqn:V; [|discriminate].
    destruct (all_values s det usual t) as [b|]; [|discriminate]. inversion E; subst cs.
    rewrite in_app_iff, (IH b eq_refl c). split.
    + intros [H|(n & w & a' & H)]; [exists 0%nat, v, a; auto|exists (S n), w, a'; exact H].
    + intros ([|n] & w & a' & H1 & H2 & H3).
      * cbn in H1. inversion H1; subst w. left. congruence.
      * right. exists n, w, a'. auto.
Qed.

Lemma all_has s det usual vs cs n v : all_values s det usual vs = Some cs -> nth_error vs n = Some v ->
  exists a, var_values s det usual v = Some a.
Proof.
  revert cs n. induction vs as [|w t IH]; intros cs [|n] E H; cbn in *; try discriminate.
  - inversion H; subst w. destruct (var_values s det usual v); [eauto|discriminate].
  - destruct (var_values s det usual w); [|discriminate].
    destruct (all_values s det usual t) as [b|]; [|discriminate]. exact (IH b n eq_refl H).
Qed.

Lemma table_value s det usual vs M n v a f i j : places vs -> mass_table s det usual vs = Some M ->
  nth_error vs n = Some v -> var_values s det usual v = Some a -> a = var_writes f v ->
  (i < mv_num v)%nat -> (j < mv_num v)%nat -> M (off_of v i) (off_of v j) = f i j.
Proof.
  intros P T Hn V A Hi Hj. unfold mass_table in T.
  destruct (all_values s det usual vs) as [cs|] eqn:AV; [|discriminate]. inversion T; subst M. clear T.
  pose proof (nth_error_In _ _ Hn) as Hv.
  apply read_set.
  - apply (in_all _ _ _ _ _ AV). exists n, v, a. repeat split; auto. subst a. apply in_writes.
    exists i, j. auto.
  - intros y Hy. apply (in_all _ _ _ _ _ AV) in Hy as (m & w & b & Hm & Wb & Hy).
    pose proof (nth_error_In _ _ Hm) as Hw.
    destruct (values_fun _ _ _ _ _ Wb) as (g & [(-> & _)|(_ & -> & _)]); [destruct Hy|].
    apply in_writes in Hy as (i' & j' & Hi' & Hj' & E1 & E2 & ->).
    assert (m = n) as ->.
    { apply (pl_sep _ P m n w v (off_of v i)); auto.
      - rewrite E1. now apply (off_in_v vs).
      - now apply (off_in_v vs). }
    rewrite Hn in Hm. inversion Hm; subst w. clear Hm.
    assert (i' = i) as -> by (apply (off_inj_v vs v); auto).
    assert (j' = j) as -> by (apply (off_inj_v vs v); auto).
    rewrite V in Wb. inversion Wb as [Q]. rewrite A in Q.
    assert (In (off_of v i, off_of v j, f i j) (var_writes g v)) as I
      by (rewrite <- Q; apply in_writes; exists i, j; auto).
    apply in_writes in I as (i2 & j2 & Hi2 & Hj2 & F1 & F2 & ->).
    apply (off_inj_v vs v) in F1; trivial. apply (off_inj_v vs v) in F2; trivial. rewrite <- F1, <- F2. reflexivity.
Qed.

(** *** C345 *)

(** The entry of two basis functions of a variable is the quadrature of their
    product: with the tensor Lobatto rule for edge elements when the
    sparsifying quadrature is on (three dimensions), with the usual rule
    otherwise.  The table is symmetric there, and its form is nonnegative when
    weights are. *)
Theorem C345_entries s det usual vs M n v i j : places vs -> mass_table s det usual vs = Some M ->
  nth_error vs n = Some v -> mv_type v <> HFACE -> (i < mv_num v)%nat -> (j < mv_num v)%nat ->
  (ms_sparse s = true -> mv_type v = HCURL ->
     exists q, new_rule (ms_lib s) (ms_dim s) (ms_order s) [Lobatto; Lobatto; Lobatto] = Some q /\
       M (off_of v i) (off_of v j) = product v (phys_rule det q) i j) /\
  (ms_sparse s = false \/ mv_type v <> HCURL ->
     M (off_of v i) (off_of v j) = product v usual i j) /\
  M (off_of v i) (off_of v j) = M (off_of v j) (off_of v i).
Proof.
  intros P T Hn NF Hi Hj.
  assert (exists cs, all_values s det usual vs = Some cs) as (cs & AV).
  { unfold mass_table in T. destruct (all_values s det usual vs); [eauto|discriminate]. }
  destruct (all_has _ _ _ _ _ _ _ AV Hn) as (a & V).
  assert (SY : forall q, product v q i j = product v q j i).
  { intros q. unfold product. f_equal. apply sm_ext. intros pw _. f_equal. apply sm_ext. intros d _. ring. }
  destruct (values_fun _ _ _ _ _ V) as (f & [(_ & F)|(_ & A & [(S & C & q & Q & F)|(S & F)])]); [contradiction| |].
  - pose proof (table_value s det usual vs M n v a f i j P T Hn V A Hi Hj) as E.
    pose proof (table_value s det usual vs M n v a f j i P T Hn V A Hj Hi) as E'.
    subst f. cbn [sparse_entry fold_left] in E, E'. rewrite entry_product in E, E'.
    split; [|split].
    + intros _ _. exists q. auto.
    + intros [H|H]; congruence.
    + rewrite E, E'. apply SY.
  - pose proof (table_value s det usual vs M n v a f i j P T Hn V A Hi Hj) as E.
    pose proof (table_value s det usual vs M n v a f j i P T Hn V A Hj Hi) as E'.
    subst f. rewrite entry_product in E, E'. split; [|split].
    + intros S1 S2. destruct S; congruence.
    + auto.
    + rewrite E, E'. apply SY.
Qed.
Print Assumptions C345_entries.

Theorem C345_nonnegative s det usual vs M n v x : places vs -> mass_table s det usual vs = Some M ->
  nth_error vs n = Some v -> mv_type v <> HFACE -> 0 <= mv_wt v ->
  (forall pw, In pw usual -> 0 <= snd pw) -> (forall p, 0 <= det p) ->
  (forall l k pw, In pw (ms_lib s l k) -> 0 <= snd pw) ->
  0 <= sm (seq 0 (mv_num v)) (fun i => x i * sm (seq 0 (mv_num v)) (fun j => M (off_of v i) (off_of v j) * x j)).
Proof.
  intros P T Hn NF W HU HD HL.
  assert (exists q, (forall pw, In pw q -> 0 <= snd pw) /\
    forall i j, (i < mv_num v)%nat -> (j < mv_num v)%nat -> M (off_of v i) (off_of v j) = product v q i j) as (q & Hq & E).
  { assert (D : (ms_sparse s = true /\ mv_type v = HCURL) \/ (ms_sparse s = false \/ mv_type v <> HCURL)).
    { destruct (ms_sparse s), (mv_type v); auto; right; right; discriminate. }
    destruct D as [(S & C)|D].
    - destruct (new_rule (ms_lib s) (ms_dim s) (ms_order s) [Lobatto; Lobatto; Lobatto]) as [q|] eqn:Q.
      + exists (phys_rule det q). split.
        * intros pw Hpw. unfold phys_rule in Hpw. apply in_map_iff in Hpw as (pw' & <- & I). cbn [snd fst].
          apply Rmult_le_pos; [apply HD|]. unfold new_rule in Q. destruct (ms_dim s =? 3)%nat; [|discriminate].
          inversion Q; subst q. unfold tensor in I. apply in_flat_map in I as (a & Ha & I).
          apply in_flat_map in I as (b & Hb & I). apply in_map_iff in I as (c & <- & Hc). cbn [snd].
          apply HL in Ha, Hb, Hc. apply Rmult_le_pos; [apply Rmult_le_pos|]; auto.
        * intros i j Hi Hj. destruct (C345_entries s det usual vs M n v i j P T Hn NF Hi Hj) as (A & _).
          destruct (A S C) as (q' & Q' & R). congruence.
      + exists []. split; [intros ? []|]. intros i j Hi Hj.
        destruct (C345_entries s det usual vs M n v i j P T Hn NF Hi Hj) as (A & _).
        destruct (A S C) as (q' & Q' & _). congruence.
    - exists usual. split; [exact HU|]. intros i j Hi Hj.
      destruct (C345_entries s det usual vs M n v i j P T Hn NF Hi Hj) as (_ & A & _). auto. }
  set (F := fun (p : point) (d : nat) => sm (seq 0 (mv_num v)) (fun i => x i * mv_bas v i p d)).
  assert (sm (seq 0 (mv_num v)) (fun i => x i * sm (seq 0 (mv_num v)) (fun j => M (off_of v i) (off_of v j) * x j)) =
          mv_wt v * sm q (fun pw => snd pw * sm (seq 0 (mv_dim v)) (fun d => F (fst pw) d * F (fst pw) d))) as ->.
  { rewrite (sm_ext _ _ (fun i => sm (seq 0 (mv_num v)) (fun j => sm q (fun pw => sm (seq 0 (mv_dim v)) (fun d =>
        mv_wt v * (snd pw * ((x i * mv_bas v i (fst pw) d) * (x j * mv_bas v j (fst pw) d)))))))).
    2: { intros i Hi. apply in_seq in Hi. rewrite <- sm_scal. apply sm_ext. intros j Hj. apply in_seq in Hj.
         rewrite E by lia. unfold product. rewrite <- sm_scal, <- sm_scal_r, <- sm_scal. apply sm_ext. intros pw _.
         rewrite <- !sm_scal, <- sm_scal_r, <- sm_scal. apply sm_ext. intros d _. ring. }
    rewrite (sm_ext _ _ (fun i => sm q (fun pw => sm (seq 0 (mv_num v)) (fun j => sm (seq 0 (mv_dim v)) (fun d =>
        mv_wt v * (snd pw * ((x i * mv_bas v i (fst pw) d) * (x j * mv_bas v j (fst pw) d)))))))) by (intros; apply sm_swap).
    rewrite sm_swap, <- sm_scal. apply sm_ext. intros pw _.
    rewrite (sm_ext _ _ (fun i => sm (seq 0 (mv_dim v)) (fun d => sm (seq 0 (mv_num v)) (fun j =>
        mv_wt v * (snd pw * ((x i * mv_bas v i (fst pw) d) * (x j * mv_bas v j (fst pw) d))))))) by (intros; apply sm_swap).
    rewrite sm_swap, <- !sm_scal. apply sm_ext. intros d _. unfold F.
    rewrite (sm_ext _ _ (fun i => (x i * mv_bas v i (fst pw) d) *
        (mv_wt v * snd pw * sm (seq 0 (mv_num v)) (fun j => x j * mv_bas v j (fst pw) d)))).
    - rewrite sm_scal_r. ring.
    - intros i _. rewrite <- !sm_scal. apply sm_ext. intros j _. ring. }
  apply Rmult_le_pos; [exact W|]. apply sm_nonneg. intros pw Hpw. apply Rmult_le_pos; [auto|].
  apply sm_nonneg. intros d _. apply Rle_0_sqr.
Qed.
Print Assumptions C345_nonnegative.

(** *** C346: lowest order edge elements on a box *)

(** The two-point Lobatto rule, and Simpson's rule, which integrates products of
    two linear functions exactly. *)
Definition lobatto2 : line := [(-1, 1); (1, 1)].
Definition simpson : line := [(-1, 1/3); (0, 4/3); (1, 1/3)].

Definition hatf (b : nat) (t : R) : R := if (b =? 0)%nat then (1 - t) / 2 else (1 + t) / 2.

(** Edge 4 dir + 2 b + c runs in direction dir; its function is constant along
    it and linear in the two other directions.  [s dir] is the scale of the
    transformation to the box. *)
Definition edge_fun (s : nat -> R) (i : nat) (p : point) (d : nat) : R :=
  let '(x, y, z) := p in
  let b := ((i / 2) mod 2)%nat in let c := (i mod 2)%nat in
  if (d =? i / 4)%nat then
    s d * match d with
          | 0%nat => hatf b y * hatf c z
          | 1%nat => hatf b x * hatf c z
          | _ => hatf b x * hatf c y
          end
  else 0.
Definition box_var (s : nat -> R) (wt : R) : mvar :=
  {| mv_bas := edge_fun s; mv_num := 12; mv_dim := 3; mv_wt := wt; mv_type := HCURL; mv_off := seq 0 12 |}.

Lemma tensor_sum (f g h : R -> R) X Y Z :
  sm (tensor X Y Z) (fun pw => snd pw * (f (fst (fst (fst pw))) * g (snd (fst (fst pw))) * h (snd (fst pw)))) =
  sm X (fun a => snd a * f (fst a)) * sm Y (fun a => snd a * g (fst a)) * sm Z (fun a => snd a * h (fst a)).
Proof.
  unfold tensor. rewrite sm_flat.
  rewrite (sm_ext _ _ (fun a => (snd a * f (fst a)) * (sm Y (fun b => snd b * g (fst b)) * sm Z (fun c => snd c * h (fst c))))).
  - rewrite sm_scal_r. ring.
  - intros a _. rewrite sm_flat.
    rewrite (sm_ext _ _ (fun b => (snd b * g (fst b)) * (snd a * f (fst a) * sm Z (fun c => snd c * h (fst c))))).
    + rewrite sm_scal_r. ring.
    + intros b _. rewrite sm_map. rewrite <- !sm_scal. apply sm_ext. intros c _. cbn [fst snd]. ring.
Qed.

Definition line_int (L : line) (f : R -> R) : R := sm L (fun a => snd a * f (fst a)).

Lemma box_product s wt J L i j : (i < 12)%nat -> (j < 12)%nat ->
  product (box_var s wt) (phys_rule (fun _ => J) (tensor L L L)) i j =
  if (i / 4 =? j / 4)%nat then
    wt * J * (s (i / 4)%nat * s (i / 4)%nat) * (line_int L (fun _ => 1) *
      line_int L (fun t => hatf ((i / 2) mod 2) t * hatf ((j / 2) mod 2) t) *
      line_int L (fun t => hatf (i mod 2) t * hatf (j mod 2) t))
  else 0.
Proof.
  intros Hi Hj. unfold product, phys_rule. rewrite sm_map. cbn [fst snd mv_wt mv_dim mv_bas box_var].
  set (b := ((i / 2) mod 2)%nat). set (c := (i mod 2)%nat).
  set (b' := ((j / 2) mod 2)%nat). set (c' := (j mod 2)%nat).
  assert (Di : (i / 4 < 3)%nat) by (apply Nat.div_lt_upper_bound; lia).
  assert (Dj : (j / 4 < 3)%nat) by (apply Nat.div_lt_upper_bound; lia).
  assert (K : forall f g h : R -> R,
    (forall x y z, sm (seq 0 3) (fun d => edge_fun s i (x, y, z) d * edge_fun s j (x, y, z) d) = f x * g y * h z) ->
    wt * sm (tensor L L L) (fun a => J * snd a * sm (seq 0 3) (fun d => edge_fun s i (fst a) d * edge_fun s j (fst a) d)) =
    wt * J * (line_int L f * line_int L g * line_int L h)).
  { intros f g h E. unfold line_int. rewrite <- tensor_sum, <- !sm_scal. apply sm_ext.
    intros [[[x y] z] w] _. cbn [fst snd]. rewrite E. ring. }
  assert (Z : line_int L (fun _ => 0) = 0).
  { unfold line_int. apply sm_zero. intros. ring. }
  assert (SC : forall k f, line_int L (fun t => k * f t) = k * line_int L f).
  { intros k f. unfold line_int. rewrite <- sm_scal. apply sm_ext. intros. ring. }
  destruct (Nat.eqb_spec (i / 4) (j / 4)) as [E|E].
  - destruct (i / 4)%nat as [|[|[|?]]] eqn:D; [| | |lia].
    + rewrite (K (fun _ => s 0%nat * s 0%nat * 1) (fun t => hatf b t * hatf b' t) (fun t => hatf c t * hatf c' t)).
      * rewrite (SC (s 0%nat * s 0%nat) (fun _ => 1)). ring.
      * intros x y z. unfold sm, Sparse_Model.rsum. cbn [seq map]. unfold edge_fun. rewrite D, <- E. cbn [Nat.eqb]. fold b c b' c'.
        cbn [fold_right]. ring.
    + rewrite (K (fun t => hatf b t * hatf b' t) (fun _ => s 1%nat * s 1%nat * 1) (fun t => hatf c t * hatf c' t)).
      * rewrite (SC (s 1%nat * s 1%nat) (fun _ => 1)). ring.
      * intros x y z. unfold sm, Sparse_Model.rsum. cbn [seq map]. unfold edge_fun. rewrite D, <- E. cbn [Nat.eqb]. fold b c b' c'.
        cbn [fold_right]. ring.
    + rewrite (K (fun t => hatf b t * hatf b' t) (fun t => hatf c t * hatf c' t) (fun _ => s 2%nat * s 2%nat * 1)).
      * rewrite (SC (s 2%nat * s 2%nat) (fun _ => 1)). ring.
      * intros x y z. unfold sm, Sparse_Model.rsum. cbn [seq map]. unfold edge_fun. rewrite D, <- E. cbn [Nat.eqb]. fold b c b' c'.
        cbn [fold_right]. ring.
  - rewrite (K (fun _ => 0) (fun _ => 0) (fun _ => 0)); [rewrite Z; ring|].
    intros x y z. rewrite sm_zero; [ring|]. intros d _. unfold edge_fun.
    destruct (Nat.eqb_spec d (i / 4)) as [->|]; [|ring].
    destruct (Nat.eqb_spec (i / 4) (j / 4)); [contradiction|ring].
Qed.

Lemma lobatto_hat b b' : (b < 2)%nat -> (b' < 2)%nat ->
  line_int lobatto2 (fun t => hatf b t * hatf b' t) = if (b =? b')%nat then 1 else 0.
Proof.
  intros H H'. destruct b as [|[|b]], b' as [|[|b']]; try lia; unfold line_int, lobatto2, hatf, sm, Sparse_Model.rsum; cbn; lra.
Qed.
Lemma simpson_hat b b' : (b < 2)%nat -> (b' < 2)%nat ->
  line_int simpson (fun t => hatf b t * hatf b' t) = if (b =? b')%nat then 2/3 else 1/3.
Proof.
  intros H H'. destruct b as [|[|b]], b' as [|[|b']]; try lia; unfold line_int, simpson, hatf, sm, Sparse_Model.rsum; cbn; lra.
Qed.

(** With the two-point rule the sparsified mass of a box is diagonal, and each
    diagonal entry is the sum of the row of the exact mass matrix. *)
Theorem C346_box lib order s wt J usual M i j :
  lib Lobatto (order - 1)%nat = lobatto2 ->
  mass_table {| ms_sparse := true; ms_lib := lib; ms_dim := 3; ms_order := order |}
             (fun _ => J) usual [box_var s wt] = Some M ->
  (i < 12)%nat -> (j < 12)%nat ->
  M i j = if (i =? j)%nat then
            sm (seq 0 12) (fun k => product (box_var s wt) (phys_rule (fun _ => J) (tensor simpson simpson simpson)) i k)
          else 0.
Proof.
  intros HL T Hi Hj.
  assert (P : places [box_var s wt]).
  { split.
    - intros v [<-|[]]. reflexivity.
    - intros v [<-|[]]. apply seq_NoDup.
    - intros n m v w p H1 H2 _ _. destruct n as [|[|n]], m as [|[|m]]; cbn in H1, H2; try discriminate; reflexivity. }
  destruct (C345_entries _ _ _ _ _ 0 (box_var s wt) i j P T eq_refl ltac:(discriminate) Hi Hj) as (A & _).
  destruct (A eq_refl eq_refl) as (q & Q & E). cbn [ms_lib ms_dim ms_order] in Q.
  unfold new_rule in Q. cbn [Nat.eqb nth] in Q. rewrite HL in Q. assert (q = tensor lobatto2 lobatto2 lobatto2) as -> by congruence. clear Q A.
  assert (O : forall k, (k < 12)%nat -> off_of (box_var s wt) k = k).
  { intros k Hk. unfold off_of, box_var. cbn [mv_off]. rewrite seq_nth by exact Hk. reflexivity. }
  rewrite (O i Hi), (O j Hj) in E. rewrite E. clear E O T P M.
  rewrite (box_product s wt J lobatto2 i j Hi Hj).
  assert (B : forall a, (a mod 2 < 2)%nat) by (intros; apply Nat.mod_upper_bound; lia).
  rewrite !lobatto_hat by apply B.
  assert (L1 : line_int lobatto2 (fun _ => 1) = 2) by (unfold line_int, lobatto2, sm, Sparse_Model.rsum; cbn; lra).
  assert (S1 : line_int simpson (fun _ => 1) = 2) by (unfold line_int, simpson, sm, Sparse_Model.rsum; cbn; lra).
  rewrite L1.
  destruct (Nat.eqb_spec i j) as [->|N].
  - rewrite !Nat.eqb_refl.
    rewrite (sm_ext _ _ (fun k => if (j / 4 =? k / 4)%nat then
       wt * J * (s (j / 4)%nat * s (j / 4)%nat) * (2 * (if ((j / 2) mod 2 =? (k / 2) mod 2)%nat then 2/3 else 1/3) *
         (if (j mod 2 =? k mod 2)%nat then 2/3 else 1/3)) else 0)).
    + clear Hi. do 12 (destruct j as [|j]; [unfold sm, Sparse_Model.rsum; cbn -[Rmult Rdiv IZR]; cbn; lra|]). lia.
    + intros k Hk. apply in_seq in Hk. rewrite (box_product s wt J simpson j k Hj) by lia.
      rewrite !simpson_hat, S1 by apply B. reflexivity.
  - destruct (Nat.eqb_spec (i / 4) (j / 4)) as [E4|]; [|reflexivity].
    destruct (Nat.eqb_spec ((i / 2) mod 2) ((j / 2) mod 2)) as [E2|]; [|ring].
    destruct (Nat.eqb_spec (i mod 2) (j mod 2)) as [E1|]; [|ring].
    exfalso. apply N. clear - Hi Hj E4 E2 E1.
    do 12 (destruct i as [|i]; [do 12 (destruct j as [|j]; [try reflexivity; discriminate|]); lia|]). lia.
Qed.
Print Assumptions C346_box.

Definition lib2 (l : lrule) (_ : nat) : line := match l with Lobatto => lobatto2 | Gauss => [(0, 2)] end.
Example C346_case : lib2 Lobatto (2 - 1) = lobatto2 /\
  exists M, mass_table {| ms_sparse := true; ms_lib := lib2; ms_dim := 3; ms_order := 2 |}
             (fun _ => 1/8) [] [box_var (fun _ => 1) 3] = Some M.
Proof. split; [reflexivity|]. unfold mass_table. cbn -[var_writes]. eexists. reflexivity. Qed.

(** *** C347: where the sparsifying quadrature applies *)

(** In three dimensions the table exists and rules of reference volume eight give
    a constant function of norm one the volume of a hexahedron with constant
    Jacobian (eight times the determinant).  Missing: other dimensions and
    shapes. *)
Theorem C347_sparse_partial lib order v J usual :
  mv_type v = HCURL -> line_int (lib Lobatto (order - 1)%nat) (fun _ => 1) = 2 ->
  places [v] -> (0 < mv_num v)%nat -> mv_wt v = 1 ->
  (forall p, sm (seq 0 (mv_dim v)) (fun d => mv_bas v 0 p d * mv_bas v 0 p d) = 1) ->
  exists M, mass_table {| ms_sparse := true; ms_lib := lib; ms_dim := 3; ms_order := order |} (fun _ => J) usual [v] = Some M /\
    M (off_of v 0) (off_of v 0) = 8 * J.
Proof.
  intros T L P N W C.
  destruct (mass_table {| ms_sparse := true; ms_lib := lib; ms_dim := 3; ms_order := order |} (fun _ => J) usual [v]) as [M|] eqn:E.
  - exists M. split; [reflexivity|].
    destruct (C345_entries _ _ _ _ _ 0 v 0 0 P E eq_refl ltac:(congruence) N N) as (A & _).
    destruct (A eq_refl T) as (q & Q & ->). cbn [ms_lib ms_dim ms_order] in Q. unfold new_rule in Q. cbn [Nat.eqb nth] in Q.
    inversion Q; subst q. unfold product, phys_rule. rewrite W, sm_map, Rmult_1_l. cbn [fst snd].
    rewrite (sm_ext _ _ (fun pw => J * (snd pw * (1 * 1 * 1)))) by (intros; rewrite C; ring).
    rewrite sm_scal. rewrite (tensor_sum (fun _ => 1) (fun _ => 1) (fun _ => 1)).
    unfold line_int in L. rewrite L. ring.
  - exfalso. unfold mass_table, all_values, var_values in E. rewrite T in E. cbn in E. discriminate.
Qed.
Print Assumptions C347_sparse_partial.

(** In two dimensions there is no table: edge elements on triangles or
    quadrilaterals fail.  On a tetrahedron, of volume one sixth of its
    determinant, the rule of the cube is used: the mass is 48 times too large. *)
Theorem C347_sparse_refuted :
  (forall lib order v det usual vs, mv_type v = HCURL ->
     mass_table {| ms_sparse := true; ms_lib := lib; ms_dim := 2; ms_order := order |} det usual (v :: vs) = None) /\
  (exists lib order v usual, mv_type v = HCURL /\ places [v] /\
     (forall J, product v (phys_rule (fun _ => J) usual) 0 0 = J / 6) /\
     forall J, exists M,
       mass_table {| ms_sparse := true; ms_lib := lib; ms_dim := 3; ms_order := order |} (fun _ => J)
                  (phys_rule (fun _ => J) usual) [v] = Some M /\
       M (off_of v 0) (off_of v 0) = 48 * (J / 6)).
Proof.
  split.
  - intros lib order v det usual vs T. unfold mass_table, all_values, var_values. rewrite T. reflexivity.
  - pose (v := {| mv_bas := fun _ _ d => if (d =? 0)%nat then 1 else 0; mv_num := 1; mv_dim := 3; mv_wt := 1;
                  mv_type := HCURL; mv_off := [0%nat] |}).
    assert (P : places [v]).
    { split.
      - intros w [<-|[]]. reflexivity.
      - intros w [<-|[]]. repeat constructor. intros [].
      - intros n m a b p H1 H2 _ _. destruct n as [|[|n]], m as [|[|m]]; cbn in H1, H2; try discriminate; reflexivity. }
    exists lib2, 2%nat, v, [((1/4, 1/4, 1/4), 1/6)]. split; [reflexivity|]. split; [exact P|]. split.
    + intros J. unfold product, phys_rule, sm, Sparse_Model.rsum. cbn. field.
    + intros J. destruct (C347_sparse_partial lib2 2 v J (phys_rule (fun _ => J) [((1/4, 1/4, 1/4), 1/6)])) as (M & E & Q); auto.
      * unfold line_int, sm, Sparse_Model.rsum. cbn. lra.
      * intros p. unfold sm, Sparse_Model.rsum. cbn. lra.
      * exists M. split; [exact E|]. rewrite Q. field.
Qed.
Print Assumptions C347_sparse_refuted.
