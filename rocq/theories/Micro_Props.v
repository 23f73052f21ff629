(** Properties of random microstructures. *)
From Coq Require Import Reals List Arith Lia Lra.
From Verif Require Import Nearest_Model Nearest_Props Micro_Model.
Import ListNotations.
Local Open Scope R_scope.
Local Notation length := List.length.

Lemma mapi_nth : forall A B (f : nat -> A -> B) l s n, nth_error (m_mapi f s l) n = option_map (f (s + n)%nat) (nth_error l n).
Proof.
  induction l as [|a r IH]; intros s n; destruct n as [|n]; cbn; try reflexivity.
  - rewrite Nat.add_0_r. reflexivity.
  - rewrite IH. replace (S s + n)%nat with (s + S n)%nat by lia. reflexivity.
Qed.
Lemma mapi_length : forall A B (f : nat -> A -> B) l s, length (m_mapi f s l) = length l.
Proof. induction l as [|a r IH]; intros s; cbn; [reflexivity|rewrite IH; reflexivity]. Qed.
Lemma flat_length : forall A B (f : A -> list B) c l, (forall a, length (f a) = c) -> length (flat_map f l) = (length l * c)%nat.
Proof. induction l as [|a r IH]; intros H; cbn; [reflexivity|]. rewrite app_length, H, IH by exact H. lia. Qed.
Lemma app_nodup : forall A (l l' : list A), NoDup l -> NoDup l' -> (forall x, In x l -> ~ In x l') -> NoDup (l ++ l').
Proof.
  induction l as [|a l IH]; cbn; intros l' N N' D; [exact N'|]. inversion N as [|? ? H1 H2]; subst. constructor.
  - intros K. apply in_app_or in K. destruct K as [K | K]; [exact (H1 K)|exact (D a (or_introl eq_refl) K)].
  - apply IH; [exact H2|exact N'|]. intros x Hx. apply D. right. exact Hx.
Qed.
Lemma flat_nodup : forall A B (f : A -> list B) l, NoDup l -> (forall a, NoDup (f a)) ->
  (forall a a' x, In x (f a) -> In x (f a') -> a = a') -> NoDup (flat_map f l).
Proof.
  induction l as [|a r IH]; intros N H D; cbn; [constructor|]. inversion N as [|? ? H1 H2]; subst.
  apply app_nodup; [apply H|apply IH; assumption|]. intros x Hx K. apply in_flat_map in K. destruct K as (a' & Ha & K).
  rewrite (D a a' x Hx K) in H1. exact (H1 Ha).
Qed.
Lemma lattice_in : forall nx ny nz i j k, In (i, j, k) (m_lattice nx ny nz) <-> (i < nx /\ j < ny /\ k < nz)%nat.
Proof.
  intros. unfold m_lattice. split.
  - intros H. apply in_flat_map in H. destruct H as (a & Ha & H). apply in_flat_map in H. destruct H as (b & Hb & H).
    apply in_map_iff in H. destruct H as (c & E & Hc). injection E as -> -> ->.
    apply in_seq in Ha, Hb, Hc. lia.
  - intros (Hi & Hj & Hk). apply in_flat_map. exists i. split; [apply in_seq; lia|]. apply in_flat_map. exists j. split; [apply in_seq; lia|].
    apply in_map_iff. exists k. split; [reflexivity|apply in_seq; lia].
Qed.
Lemma lattice_nodup : forall nx ny nz, NoDup (m_lattice nx ny nz).
Proof.
  intros. unfold m_lattice. apply flat_nodup; [apply seq_NoDup| |].
  - intros i. apply flat_nodup; [apply seq_NoDup| |].
    + intros j. generalize (seq_NoDup nz 0). induction (seq 0 nz) as [|k r IH]; intros N; cbn; [constructor|].
      inversion N as [|? ? H1 H2]; subst. constructor; [|apply IH, H2]. intros K. apply in_map_iff in K. destruct K as (k' & E & K).
      injection E as ->. exact (H1 K).
    + intros j j' x H H'. apply in_map_iff in H, H'. destruct H as (k & <- & _). destruct H' as (k' & E & _). congruence.
  - intros i i' x H H'. apply in_flat_map in H, H'. destruct H as (j & _ & H). destruct H' as (j' & _ & H').
    apply in_map_iff in H, H'. destruct H as (k & <- & _). destruct H' as (k' & E & _). congruence.
Qed.

(** C307 Lattice seeds: as many as asked, inside the box, and any two of them are apart by half a
    spacing in some direction. *)
Definition micro_box (b : mbox) : Prop := b_x0 b < b_x1 b /\ b_y0 b < b_y1 b /\ b_z0 b < b_z1 b.
Definition micro_inside (b : mbox) (s : mpt) : Prop :=
  let '(x, y, z) := s in b_x0 b < x < b_x1 b /\ b_y0 b < y < b_y1 b /\ b_z0 b < z < b_z1 b.
Lemma line_in : forall lo hi n k p, lo < hi -> (k < n)%nat -> Rabs p <= 1 / 4 ->
  lo < m_line lo hi n k + p * m_spacing lo hi n < hi.
Proof.
  intros lo hi n k p H Hk Hp. unfold m_line, m_spacing.
  assert (N : 0 < INR (n + 1)) by (apply lt_0_INR; lia).
  set (d := (hi - lo) / INR (n + 1)).
  assert (D : 0 < d) by (unfold d; apply Rdiv_lt_0_compat; lra).
  assert (E : hi = lo + INR (n + 1) * d) by (unfold d; field; lra).
  assert (K0 : 1 <= INR (k + 1)) by (change 1 with (INR 1); apply le_INR; lia).
  assert (K1 : INR (k + 1) <= INR (n + 1) - 1).
  { replace (INR (n + 1) - 1) with (INR n) by (rewrite plus_INR; cbn; ring). apply le_INR; lia. }
  assert (P : - (1 / 4) <= p <= 1 / 4) by (split; [apply Rle_trans with (- Rabs p); [lra|]; generalize (Rle_abs (- p)); rewrite Rabs_Ropp; lra|generalize (Rle_abs p); lra]).
  assert (P1 : - (1 / 4) * d <= p * d <= 1 / 4 * d) by (split; apply Rmult_le_compat_r; lra).
  assert (P2 : 1 * d <= INR (k + 1) * d <= (INR (n + 1) - 1) * d) by (split; apply Rmult_le_compat_r; lra).
  clearbody d. subst hi. split; lra.
Qed.
Lemma line_apart : forall lo hi n k k' p p', lo < hi -> k <> k' -> Rabs p <= 1 / 4 -> Rabs p' <= 1 / 4 ->
  m_spacing lo hi n / 2 <= Rabs (m_line lo hi n k + p * m_spacing lo hi n - (m_line lo hi n k' + p' * m_spacing lo hi n)).
Proof.
  intros lo hi n k k' p p' H Hk Hp Hp'. unfold m_line.
  assert (N : 0 < INR (n + 1)) by (apply lt_0_INR; lia).
  assert (D : 0 < m_spacing lo hi n) by (unfold m_spacing; apply Rdiv_lt_0_compat; lra).
  set (d := m_spacing lo hi n) in *.
  replace (_ - _) with ((INR (k + 1) - INR (k' + 1) + (p - p')) * d) by ring.
  rewrite Rabs_mult, (Rabs_right d) by lra.
  assert (A : 1 / 2 <= Rabs (INR (k + 1) - INR (k' + 1) + (p - p'))).
  { assert (Q : Rabs (p - p') <= 1 / 2) by (unfold Rminus; eapply Rle_trans; [apply Rabs_triang|rewrite Rabs_Ropp; lra]).
    assert (I : 1 <= Rabs (INR (k + 1) - INR (k' + 1))).
    { destruct (Nat.lt_ge_cases k k').
      - rewrite Rabs_minus_sym, <- minus_INR by lia. rewrite Rabs_right by (apply Rle_ge, pos_INR). change 1 with (INR 1). apply le_INR. lia.
      - rewrite <- minus_INR by lia. rewrite Rabs_right by (apply Rle_ge, pos_INR). change 1 with (INR 1). apply le_INR. lia. }
    assert (T := Rabs_triang_inv (INR (k + 1) - INR (k' + 1)) (- (p - p'))). rewrite Rabs_Ropp in T.
    replace (INR (k + 1) - INR (k' + 1) - - (p - p')) with (INR (k + 1) - INR (k' + 1) + (p - p')) in T by ring. lra. }
  replace (d / 2) with (1 / 2 * d) by field. apply Rmult_le_compat_r; lra.
Qed.
Theorem C307_lattice_seeds : forall b nx ny nz draw, micro_box b -> (forall n, Rabs (draw n) <= 1 / 4) ->
  let l := m_fast b nx ny nz draw in
  length l = (nx * ny * nz)%nat
  /\ (forall s, In s l -> micro_inside b s)
  /\ (forall n m x y z x' y' z', n <> m -> nth_error l n = Some (x, y, z) -> nth_error l m = Some (x', y', z') ->
       (b_x1 b - b_x0 b) / INR (nx + 1) / 2 <= Rabs (x - x')
       \/ (b_y1 b - b_y0 b) / INR (ny + 1) / 2 <= Rabs (y - y')
       \/ (b_z1 b - b_z0 b) / INR (nz + 1) / 2 <= Rabs (z - z')).
Proof.
  intros b nx ny nz draw (Hx & Hy & Hz) Hd l. split; [|split].
  - unfold l, m_fast. rewrite mapi_length. unfold m_lattice.
    rewrite (flat_length _ _ _ (ny * nz)) by (intros i; rewrite (flat_length _ _ _ nz) by (intros j; rewrite map_length, seq_length; reflexivity); rewrite seq_length; reflexivity).
    rewrite seq_length. lia.
  - intros s Hs. destruct (In_nth_error _ _ Hs) as [n Hn]. unfold l, m_fast in Hn. rewrite mapi_nth in Hn.
    destruct (nth_error (m_lattice nx ny nz) n) as [[[i j] k]|] eqn:E; [|discriminate]. injection Hn as <-.
    apply nth_error_In, lattice_in in E. destruct E as (Ei & Ej & Ek).
    split; [|split]; apply line_in; auto.
  - intros n m x y z x' y' z' Hnm Hn Hm. unfold l, m_fast in Hn, Hm. rewrite mapi_nth in Hn, Hm.
    destruct (nth_error (m_lattice nx ny nz) n) as [[[i j] k]|] eqn:E; [|discriminate].
    destruct (nth_error (m_lattice nx ny nz) m) as [[[i' j'] k']|] eqn:E'; [|discriminate].
    injection Hn as <- <- <-. injection Hm as <- <- <-.
    assert (Ne : (i, j, k) <> (i', j', k')).
    { intros K. rewrite <- K in E'. apply Hnm. apply (NoDup_nth_error (m_lattice nx ny nz)); [apply lattice_nodup| |congruence].
      apply nth_error_Some. rewrite E. discriminate. }
    destruct (Nat.eq_dec i i') as [-> | Ni]; [|left; apply line_apart; auto].
    destruct (Nat.eq_dec j j') as [-> | Nj]; [|right; left; apply line_apart; auto].
    destruct (Nat.eq_dec k k') as [-> | Nk]; [|right; right; apply line_apart; auto].
    congruence.
Qed.
Print Assumptions C307_lattice_seeds.
(** Seed n is displaced by numbers 3n, 3n+1 and 3n+2 of the sequence, which no other seed uses. *)
Theorem C307_own_draws : forall b nx ny nz draw n x y z,
  nth_error (m_fast b nx ny nz draw) n = Some (x, y, z) ->
  exists i j k, (i < nx)%nat /\ (j < ny)%nat /\ (k < nz)%nat /\
    x = b_x0 b + (INR i + 1 + draw (3 * n)%nat) * ((b_x1 b - b_x0 b) / (INR nx + 1)) /\
    y = b_y0 b + (INR j + 1 + draw (3 * n + 1)%nat) * ((b_y1 b - b_y0 b) / (INR ny + 1)) /\
    z = b_z0 b + (INR k + 1 + draw (3 * n + 2)%nat) * ((b_z1 b - b_z0 b) / (INR nz + 1)).
Proof.
  intros b nx ny nz draw n x y z H. unfold m_fast in H. rewrite mapi_nth in H.
  destruct (nth_error (m_lattice nx ny nz) n) as [[[i j] k]|] eqn:E; [|discriminate].
  apply nth_error_In, lattice_in in E. destruct E as (Ei & Ej & Ek).
  injection H as <- <- <-. exists i, j, k. repeat split; auto.
  all: unfold m_line, m_spacing; cbn [Nat.add]; rewrite !plus_INR; change (INR 1) with 1; change (n + (n + (n + 0)))%nat with (3 * n)%nat; ring.
Qed.
Print Assumptions C307_own_draws.
Example C307_case : micro_box {| b_x0 := 0; b_x1 := 1; b_y0 := -1; b_y1 := 2; b_z0 := 0; b_z1 := 3 |}
  /\ (forall n, Rabs (if Nat.even n then 1 / 4 else - (1 / 8)) <= 1 / 4) /\ length (m_lattice 2 3 4) = 24%nat.
Proof.
  split; [|split; [|reflexivity]].
  - unfold micro_box. cbn. lra.
  - intros n. destruct (Nat.even n); [rewrite Rabs_right; lra|rewrite Rabs_Ropp, Rabs_right; lra].
Qed.

(** C308 Well spaced seeds: every seed is one of its candidates, and of these the one whose weighted
    distance to the earlier seeds is largest. *)
Definition wdist2 (w a b : mpt) : R :=
  let '(wx, wy, wz) := w in let '(ax, ay, az) := a in let '(bx, by_, bz) := b in
  wx * (ax - bx) ^ 2 + wy * (ay - by_) ^ 2 + wz * (az - bz) ^ 2.
Definition wpos (w : mpt) : Prop := let '(x, y, z) := w in 0 <= x /\ 0 <= y /\ 0 <= z /\ 0 < x + y + z.
Lemma near_spec : forall w seeds c a, let m := fold_left (fun m s => if Rlt_dec (m_dist w c s) m then m_dist w c s else m) seeds a in
  m <= a /\ (forall s, In s seeds -> m <= m_dist w c s) /\ (m = a \/ exists s, In s seeds /\ m = m_dist w c s).
Proof.
  induction seeds as [|s r IH]; intros c a; cbn [fold_left]; [repeat split; [lra|intros s []|left; reflexivity]|].
  specialize (IH c (if Rlt_dec (m_dist w c s) a then m_dist w c s else a)). cbn zeta in IH |- *.
  set (m := fold_left _ r _) in *. destruct IH as (I1 & I2 & I3).
  assert (A : m <= a /\ m <= m_dist w c s) by (destruct (Rlt_dec (m_dist w c s) a); lra).
  repeat split; [apply A| |].
  - intros q [<- | Hq]; [apply A|apply I2, Hq].
  - destruct I3 as [E | (q & Hq & E)]; [|right; exists q; split; [right; exact Hq|exact E]].
    destruct (Rlt_dec (m_dist w c s) a); [right; exists s; split; [left; reflexivity|exact E]|left; exact E].
Qed.
Lemma best_spec : forall w seeds cands k md best, let r := m_best w seeds k cands md best in
  (r = best /\ forall c, In c cands -> m_near w seeds c <= md)
  \/ (exists j c, r = (k + j)%nat /\ nth_error cands j = Some c /\ md < m_near w seeds c /\ forall c', In c' cands -> m_near w seeds c' <= m_near w seeds c).
Proof.
  induction cands as [|c r IH]; intros k md best; cbn [m_best]; [left; split; [reflexivity|intros c []]|].
  destruct (Rlt_dec md (m_near w seeds c)) as [L | L].
  - right. destruct (IH (S k) (m_near w seeds c) k) as [(E & A) | (j & c1 & E & N & M & A)].
    + exists 0%nat, c. split; [cbn zeta; rewrite E; lia|]. split; [reflexivity|]. split; [exact L|].
      intros c' [<- | H]; [lra|apply A, H].
    + exists (S j), c1. split; [cbn zeta; rewrite E; lia|]. split; [exact N|]. split; [lra|].
      intros c' [<- | H]; [lra|apply A, H].
  - destruct (IH (S k) md best) as [(E & A) | (j & c1 & E & N & M & A)].
    + left. split; [exact E|]. intros c' [<- | H]; [lra|apply A, H].
    + right. exists (S j), c1. split; [cbn zeta; rewrite E; lia|]. split; [exact N|]. split; [exact M|].
      intros c' [<- | H]; [lra|apply A, H].
Qed.
Lemma weights_scale : forall w, wpos w -> exists f, 0 < f /\ forall a b, m_dist (m_weights w) a b = f * wdist2 w a b.
Proof.
  intros [[x y] z] (Hx & Hy & Hz & Hp). exists (3 / sqrt (x * x + y * y + z * z)). split.
  - apply Rdiv_lt_0_compat; [lra|]. apply sqrt_lt_R0.
    assert (0 <= x * x /\ 0 <= y * y /\ 0 <= z * z) by (repeat split; apply Rle_0_sqr).
    destruct (Rlt_le_dec 0 x); [assert (0 < x * x) by (apply Rmult_lt_0_compat; lra); lra|].
    destruct (Rlt_le_dec 0 y); [assert (0 < y * y) by (apply Rmult_lt_0_compat; lra); lra|].
    assert (0 < z * z) by (apply Rmult_lt_0_compat; lra). lra.
  - intros [[ax ay] az] [[bx by_] bz]. unfold m_dist, m_weights, wdist2. ring.
Qed.
Lemma wdist_nonneg : forall w a b, wpos w -> 0 <= wdist2 w a b.
Proof.
  intros [[x y] z] [[ax ay] az] [[bx by_] bz] (Hx & Hy & Hz & _). unfold wdist2.
  assert (0 <= x * (ax - bx) ^ 2) by (apply Rmult_le_pos; [lra|apply pow2_ge_0]).
  assert (0 <= y * (ay - by_) ^ 2) by (apply Rmult_le_pos; [lra|apply pow2_ge_0]).
  assert (0 <= z * (az - bz) ^ 2) by (apply Rmult_le_pos; [lra|apply pow2_ge_0]). lra.
Qed.
Lemma spaced_length : forall w batch n, length (m_spaced w batch n) = n.
Proof. induction n as [|n IH]; cbn; [reflexivity|]. rewrite app_length, IH. cbn. lia. Qed.
Lemma spaced_prefix : forall w batch n p, (p < n)%nat ->
  nth_error (m_spaced w batch n) p = Some (m_pick (m_weights w) (m_spaced w batch p) (batch p))
  /\ firstn p (m_spaced w batch n) = m_spaced w batch p.
Proof.
  induction n as [|n IH]; intros p H; [lia|]. cbn [m_spaced].
  destruct (Nat.eq_dec p n) as [-> | Ne].
  - split.
    + rewrite nth_error_app2; rewrite spaced_length; [|lia]. rewrite Nat.sub_diag. reflexivity.
    + rewrite firstn_app, spaced_length, Nat.sub_diag. cbn. rewrite app_nil_r.
      rewrite firstn_all2; [reflexivity|rewrite spaced_length; lia].
  - destruct (IH p ltac:(lia)) as [A B]. split.
    + rewrite nth_error_app1; [exact A|rewrite spaced_length; lia].
    + rewrite firstn_app, spaced_length. replace (p - n)%nat with 0%nat by lia. cbn. rewrite app_nil_r. exact B.
Qed.
Theorem C308_well_spaced_seeds : forall w batch n, wpos w -> (forall p, batch p <> []) ->
  (forall p p' c c', In c (batch p) -> In c' (batch p') -> m_dist (m_weights w) c c' <= 10 ^ 200) ->
  let l := m_spaced w batch n in
  length l = n
  /\ forall p s, nth_error l p = Some s ->
       In s (batch p)
       /\ ((0 < p)%nat -> forall c, In c (batch p) ->
            exists e, In e (firstn p l) /\ forall e', In e' (firstn p l) -> wdist2 w c e <= wdist2 w s e').
Proof.
  intros w batch n Hw Hb Hbig l. split; [apply spaced_length|].
  assert (Mem : forall p q s, nth_error (m_spaced w batch q) p = Some s -> In s (batch p)).
  { intros p q s Hs. assert (Hp : (p < q)%nat) by (rewrite <- (spaced_length w batch q); apply nth_error_Some; rewrite Hs; discriminate).
    destruct (spaced_prefix w batch q p Hp) as [A _]. rewrite A in Hs. injection Hs as <-.
    unfold m_pick. apply nth_In.
    destruct (m_spaced w batch p) as [|e0 r]; [specialize (Hb p); destruct (batch p); [congruence|cbn; lia]|].
    destruct (best_spec (m_weights w) (e0 :: r) (batch p) 0 0 0) as [(E & _) | (j & c & E & N & _)]; cbn zeta in E; rewrite E.
    - specialize (Hb p). destruct (batch p); [congruence|cbn; lia].
    - apply nth_error_Some. cbn. rewrite N. discriminate. }
  intros p s Hs. split; [exact (Mem _ _ _ Hs)|]. intros Hp c Hc.
  assert (Hpn : (p < n)%nat) by (rewrite <- (spaced_length w batch n); apply nth_error_Some; fold l; rewrite Hs; discriminate).
  destruct (spaced_prefix w batch n p Hpn) as [A B]. fold l in A, B. rewrite B. rewrite A in Hs. injection Hs as <-.
  set (seeds := m_spaced w batch p) in *.
  assert (Ns : seeds <> []) by (intros K; apply (f_equal (@length mpt)) in K; unfold seeds in K; rewrite spaced_length in K; cbn in K; lia).
  destruct (weights_scale w Hw) as (f & Hf & Sc).
  assert (Seed : forall e, In e seeds -> exists q, In e (batch q)).
  { intros e He. destruct (In_nth_error _ _ He) as [q Hq]. exists q. exact (Mem _ _ _ Hq). }
  assert (Near : forall c, In c (batch p) -> exists e, In e seeds /\ m_near (m_weights w) seeds c = f * wdist2 w c e).
  { intros c0 Hc0. destruct (near_spec (m_weights w) seeds c0 m_big) as (I1 & I2 & I3). fold (m_near (m_weights w) seeds c0) in *. cbn zeta in *.
    destruct I3 as [E | (e & He & E)]; [|exists e; split; [exact He|rewrite <- Sc; exact E]].
    destruct seeds as [|e r] eqn:Es; [congruence|]. exists e. split; [left; reflexivity|]. rewrite <- Sc.
    specialize (I2 e (or_introl eq_refl)). destruct (Seed e (or_introl eq_refl)) as [q Hq]. specialize (Hbig p q c0 e Hc0 Hq).
    fold (m_near (m_weights w) (e :: r) c0) in I2. unfold m_big in *. lra. }
  destruct (Near c Hc) as (e & He & Ne). exists e. split; [exact He|]. intros e' He'.
  assert (Max : m_near (m_weights w) seeds c <= m_near (m_weights w) seeds (m_pick (m_weights w) seeds (batch p))).
  { unfold m_pick. destruct seeds as [|s0 r] eqn:Es; [congruence|]. rewrite <- Es in *.
    destruct (best_spec (m_weights w) seeds (batch p) 0 0 0) as [(E & All) | (j & c1 & E & N & _ & All)]; cbn zeta in E; rewrite E.
    - apply Rle_trans with 0; [apply All, Hc|].
      assert (In (nth 0 (batch p) m_origin) (batch p)) by (apply nth_In; specialize (Hb p); destruct (batch p); [congruence|cbn; lia]).
      destruct (Near _ H) as (e2 & _ & ->). apply Rmult_le_pos; [lra|apply wdist_nonneg, Hw].
    - cbn [plus]. rewrite (nth_error_nth _ _ m_origin N). apply All, Hc. }
  destruct (near_spec (m_weights w) seeds (m_pick (m_weights w) seeds (batch p)) m_big) as (_ & I2 & _).
  specialize (I2 e' He'). rewrite Sc in I2. fold (m_near (m_weights w) seeds (m_pick (m_weights w) seeds (batch p))) in I2.
  apply (Rmult_le_reg_l f); [exact Hf|]. rewrite <- Ne. lra.
Qed.
Print Assumptions C308_well_spaced_seeds.
Example C308_case : let batch := fun p : nat => [(INR (p mod 2), 0, 0); (1, 1, 1)] in
  wpos (3, 0, 0) /\ (forall p, batch p <> [])
  /\ (forall p p' c c', In c (batch p) -> In c' (batch p') -> m_dist (m_weights (3, 0, 0)) c c' <= 10 ^ 200).
Proof.
  cbn zeta. split; [unfold wpos; lra|]. split; [intros p; discriminate|]. intros p p' c c' H H'.
  assert (W : m_weights (3, 0, 0) = (3, 0, 0)).
  { unfold m_weights. replace (3 * 3 + 0 * 0 + 0 * 0) with (3 * 3) by ring. rewrite sqrt_square by lra. repeat f_equal; field. }
  assert (B : 3 <= 10 ^ 200) by (apply Rle_trans with (10 ^ 1); [lra|apply Rle_pow; [lra|lia]]).
  assert (I : forall q, 0 <= INR (q mod 2) <= 1).
  { intros q. split; [apply pos_INR|]. change 1 with (INR 1). apply le_INR. assert (q mod 2 < 2)%nat by (apply Nat.mod_upper_bound; lia). lia. }
  rewrite W. apply Rle_trans with 3; [|exact B]. assert (Ip := I p). assert (Ip' := I p').
  cbn [In] in H, H'. unfold m_dist.
  destruct H as [<- | [<- | []]]; destruct H' as [<- | [<- | []]]; nra.
Qed.

(** C309 Rotations drawn again: every element gets the rotation whose number is its seed, whatever
    the number of processes and the distribution of the elements; the rows are proper rotations. *)
Lemma fold_max_ge : forall l a, (a <= fold_left Nat.max l a)%nat /\ forall x, In x l -> (x <= fold_left Nat.max l a)%nat.
Proof.
  induction l as [|y r IH]; intros a; cbn; [split; [lia|intros x []]|]. destruct (IH (Nat.max a y)) as [A B].
  split; [lia|]. intros x [<- | H]; [lia|apply B, H].
Qed.
Lemma local_max_ge : forall l a, let m := fold_left (fun a s => if Nat.ltb a s then s else a) l a in
  (a <= m)%nat /\ forall x, In x l -> (x <= m)%nat.
Proof.
  induction l as [|y r IH]; intros a; cbn [fold_left]; [split; [cbn; lia|intros x []]|].
  destruct (IH (if Nat.ltb a y then y else a)) as [A B]. cbn zeta in *.
  assert (a <= (if Nat.ltb a y then y else a) /\ y <= (if Nat.ltb a y then y else a))%nat by (destruct (Nat.ltb_spec a y); lia).
  split; [lia|]. intros x [<- | H1]; [lia|apply B, H1].
Qed.
Lemma numseeds_gt : forall procs p s, In p procs -> In s p -> (s < m_numseeds procs)%nat.
Proof.
  intros procs p s Hp Hs. unfold m_numseeds.
  destruct (local_max_ge p 0) as [_ A]. specialize (A s Hs).
  destruct (fold_max_ge (map (fun p => fold_left (fun a s => if Nat.ltb a s then s else a) p 0%nat) procs) 0) as [_ B].
  specialize (B _ (in_map (fun p => fold_left (fun a s => if Nat.ltb a s then s else a) p 0%nat) procs p Hp)). cbn zeta in *. lia.
Qed.
Theorem C309_rotations_follow_the_seeds : forall normal procs seeds e s,
  nth_error seeds e = Some s -> (exists p, In p procs /\ In s p) ->
  m_update normal procs seeds e = Some (m_row normal s)
  /\ ((normal (4 * s), normal (4 * s + 1), normal (4 * s + 2), normal (4 * s + 3))%nat <> (0, 0, 0, 0) ->
      (forall i j, (i < 3)%nat -> (j < 3)%nat ->
         entry (m_row normal s) i 0 * entry (m_row normal s) j 0 + entry (m_row normal s) i 1 * entry (m_row normal s) j 1
         + entry (m_row normal s) i 2 * entry (m_row normal s) j 2 = if Nat.eqb i j then 1 else 0)
      /\ det3 (m_row normal s) = 1).
Proof.
  intros normal procs seeds e s He (p & Hp & Hs). split.
  - unfold m_update, m_element. rewrite He. unfold m_table.
    assert (L := numseeds_gt procs p s Hp Hs).
    apply map_nth_error. rewrite nth_error_nth' with (d := 0%nat) by (rewrite seq_length; exact L).
    rewrite seq_nth by exact L. reflexivity.
  - intros H. apply C57_rotation, H.
Qed.
Print Assumptions C309_rotations_follow_the_seeds.
Example C309_case : nth_error [3; 0]%nat 0 = Some 3%nat /\ exists p, In p [[1; 3]; [2]]%nat /\ In 3%nat p.
Proof. split; [reflexivity|]. exists [1; 3]%nat. split; [left; reflexivity|right; left; reflexivity]. Qed.

(** C310 After new rotations, the grains of a generated microstructure have their own rotations,
    on boundary elements too. *)
Theorem C310_grains_keep_own_rotations_partial : forall normal cnodes cnode e g,
  In cnode cnodes -> nth_error cnode e = Some g -> (forall c x, In c cnodes -> In x c -> (x < 100)%nat) ->
  m_update normal (map m_import_vol cnodes) (m_import_vol cnode) e = Some (m_row normal g).
Proof.
  intros normal cnodes cnode e g Hc He Hl.
  assert (G : (g < 100)%nat) by (apply (Hl cnode g Hc), (nth_error_In _ _ He)).
  assert (M : m_data_seed g = g) by (apply Nat.mod_small, G).
  assert (N : nth_error (m_import_vol cnode) e = Some g) by (unfold m_import_vol; rewrite (map_nth_error _ _ _ He), M; reflexivity).
  destruct (C309_rotations_follow_the_seeds normal (map m_import_vol cnodes) (m_import_vol cnode) e g N) as [E _]; [|exact E].
  exists (m_import_vol cnode). split; [apply in_map, Hc|apply (nth_error_In _ _ N)].
Qed.
Print Assumptions C310_grains_keep_own_rotations_partial.
Theorem C310_grains_keep_own_rotations_refuted :
  (exists cnode g h, nth_error cnode 0 = Some g /\ nth_error cnode 1 = Some h /\ g <> h
     /\ forall normal, m_update normal [m_import_vol cnode] (m_import_vol cnode) 0 = m_update normal [m_import_vol cnode] (m_import_vol cnode) 1
          /\ m_update normal [m_import_vol cnode] (m_import_vol cnode) 0 <> None)
  /\ (forall normal procs cnode e, m_update normal procs (m_import_bnd cnode) e = None).
Proof.
  split.
  - exists [3; 103]%nat, 3%nat, 103%nat. split; [reflexivity|]. split; [reflexivity|]. split; [discriminate|].
    intros normal. split; [reflexivity|discriminate].
  - intros normal procs cnode e. unfold m_update, m_element, m_import_bnd. destruct e; reflexivity.
Qed.
Print Assumptions C310_grains_keep_own_rotations_refuted.
