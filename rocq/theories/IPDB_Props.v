(** C323, C324 (integration points from the database), C325 (settings), C326 (side basis). *)
From Coq Require Import Bool Arith Lia Reals Lra List.
From Verif Require Import IPDB_Model.
Import ListNotations.
Local Open Scope R_scope.

Lemma same_pts_spec tol numip a b : same_pts tol numip a b = true <-> forall pt, (pt < numip)%nat -> Rabs (a pt - b pt) <= tol.
Proof.
  unfold same_pts. rewrite forallb_forall. split.
  - intros H pt L. specialize (H pt). rewrite in_seq in H. specialize (H ltac:(lia)). rewrite <- sqrt_Rsqr_abs. unfold Rsqr. destruct (Rlt_dec _ _); [discriminate|lra].
  - intros H pt I. apply in_seq in I. specialize (H pt ltac:(lia)). rewrite <- sqrt_Rsqr_abs in H. unfold Rsqr in H. destruct (Rlt_dec _ _); [lra|reflexivity].
Qed.

Definition dflt : coords := fun _ => 0.
Lemma find_spec tol numip a : forall db, match db_find tol numip a db with
  | Some k => (k < length db)%nat /\ same_pts tol numip a (nth k db dflt) = true
  | None => forall b, In b db -> same_pts tol numip a b = false end.
Proof.
  induction db as [|b db IH]; cbn [db_find]; [intros b []|]. destruct (same_pts tol numip a b) eqn:E; [cbn; split; [lia|exact E]|].
  destruct (db_find tol numip a db) as [k|]; cbn [option_map].
  - cbn [length nth]. split; [lia|tauto].
  - intros c [<-|I]; auto.
Qed.

(** *** C323 *)

(** The state after some elements: entries are the points of their first users. *)
Definition db_ok (gs : list (list coords)) (st : list (nat * nat) * list coords) : Prop := snd st = db_build gs (fst st).
Definition extends {A} (l l' : list A) : Prop := exists m, l' = l ++ m.
Lemma extends_refl {A} (l : list A) : extends l l.
Proof. exists []. rewrite app_nil_r. reflexivity. Qed.
Lemma extends_trans {A} (a b c : list A) : extends a b -> extends b c -> extends a c.
Proof. intros (m & ->) (n & ->). exists (m ++ n). rewrite app_assoc. reflexivity. Qed.
Lemma extends_nth {A} (l l' : list A) k d : extends l l' -> (k < length l)%nat -> nth k l' d = nth k l d /\ (k < length l')%nat.
Proof. intros (m & ->) L. rewrite app_nth1 by exact L. rewrite app_length. split; [reflexivity|lia]. Qed.
Lemma same_refl tol numip a : 0 <= tol -> same_pts tol numip a a = true.
Proof. intro T. apply same_pts_spec. intros. rewrite Rminus_diag_eq by reflexivity. rewrite Rabs_R0. exact T. Qed.

Definition entry_ok tol numip (db : list coords) (a : coords) (k : nat) : Prop := (k < length db)%nat /\ same_pts tol numip a (nth k db dflt) = true.
Lemma entry_extends tol numip db db' a k : extends db db' -> entry_ok tol numip db a k -> entry_ok tol numip db' a k.
Proof. intros E [L S]. destruct (extends_nth db db' k dflt E L) as [N L']. split; [exact L'|]. rewrite N. exact S. Qed.

Lemma elem_spec tol numip gs st grp e a : 0 <= tol -> db_ok gs st -> nth e (nth grp gs []) dflt = a ->
  let r := db_elem tol numip st grp e a in db_ok gs (fst r) /\ extends (snd st) (snd (fst r)) /\ entry_ok tol numip (snd (fst r)) a (snd r).
Proof.
  intros T K N. unfold db_elem. pose proof (find_spec tol numip a (snd st)) as F. destruct (db_find tol numip a (snd st)) as [k|]; cbv zeta; cbn [fst snd].
  - split; [exact K|]. split; [apply extends_refl|exact F].
  - split; [|split].
    + unfold db_ok in *. cbn [fst snd]. unfold db_build. rewrite map_app. f_equal; [exact K|]. cbn [map fst snd]. unfold dflt in N. rewrite N. reflexivity.
    + exists [a]. reflexivity.
    + assert (L : length (fst st) = length (snd st)) by (rewrite K; unfold db_build; rewrite map_length; reflexivity).
      split; [rewrite app_length; cbn; lia|]. rewrite L, nth_middle. apply same_refl. exact T.
Qed.
Lemma group_spec tol numip gs grp : 0 <= tol -> forall g e st, db_ok gs st -> (forall i, (i < length g)%nat -> nth (e + i) (nth grp gs []) dflt = nth i g dflt) ->
  let r := db_group tol numip st grp e g in db_ok gs (fst r) /\ extends (snd st) (snd (fst r)) /\ length (snd r) = length g /\
  (forall i, (i < length g)%nat -> entry_ok tol numip (snd (fst r)) (nth i g dflt) (nth i (snd r) 0%nat)).
Proof.
  intro T. induction g as [|a g IH]; intros e st K N.
  - cbn. repeat split; auto; [apply extends_refl|intros; lia|intros; lia].
  - cbn [db_group]. pose proof (elem_spec tol numip gs st grp e a T K) as E. destruct (db_elem tol numip st grp e a) as [st1 k].
    cbn [fst snd] in E. destruct E as (K1 & X1 & E1); [specialize (N 0%nat); rewrite Nat.add_0_r in N; apply N; cbn; lia|].
    specialize (IH (S e) st1 K1). destruct (db_group tol numip st1 grp (S e) g) as [st2 ks]. cbn [fst snd] in IH |- *. destruct IH as (K2 & X2 & L2 & E2).
    { intros i Hi. specialize (N (S i)). cbn [length nth] in N. replace (S e + i)%nat with (e + S i)%nat by lia. apply N. lia. }
    split; [exact K2|]. split; [eapply extends_trans; eauto|]. split; [cbn [length]; lia|]. intros [|i] Hi; cbn [nth].
    + eapply entry_extends; eauto.
    + apply E2. cbn in Hi. lia.
Qed.
Lemma groups_spec tol numip gs : 0 <= tol -> forall l grp st, db_ok gs st -> (forall j, (j < length l)%nat -> nth (grp + j) gs [] = nth j l []) ->
  let r := db_groups tol numip st grp l in db_ok gs (fst r) /\ extends (snd st) (snd (fst r)) /\
  (forall j i, (j < length l)%nat -> (i < length (nth j l []))%nat -> entry_ok tol numip (snd (fst r)) (nth i (nth j l []) dflt) (nth i (nth j (snd r) []) 0%nat)).
Proof.
  intro T. induction l as [|g l IH]; intros grp st K N.
  - cbn. repeat split; auto; [apply extends_refl| |]; intros; lia.
  - cbn [db_groups]. pose proof (group_spec tol numip gs grp T g 0 st K) as G. destruct (db_group tol numip st grp 0 g) as [st1 ks].
    cbn [fst snd] in G. destruct G as (K1 & X1 & L1 & E1).
    { intros i Hi. specialize (N 0%nat). rewrite Nat.add_0_r in N. cbn [nth length] in N. rewrite N by lia. reflexivity. }
    specialize (IH (S grp) st1 K1). destruct (db_groups tol numip st1 (S grp) l) as [st2 kss]. cbn [fst snd] in IH |- *. destruct IH as (K2 & X2 & E2).
    { intros j Hj. specialize (N (S j)). cbn [length nth] in N. replace (S grp + j)%nat with (grp + S j)%nat by lia. apply N. lia. }
    split; [exact K2|]. split; [eapply extends_trans; eauto|]. intros [|j] i Hj Hi; cbn [nth] in *.
    + eapply entry_extends; eauto.
    + apply E2; [cbn in Hj; lia|exact Hi].
Qed.

(** Every coordinate of every integration point read from the database is within the tolerance of
    the element's own. *)
Theorem C323_points tol numip gs grp e pt : 0 <= tol -> (grp < length gs)%nat -> (e < length (nth grp gs []))%nat -> (pt < numip)%nat ->
  Rabs (nth e (nth grp gs []) dflt pt - db_read tol numip gs grp e pt) <= tol.
Proof.
  intros T G E P. unfold db_read. destruct (groups_spec tol numip gs T gs 0 ([], [])) as (K & _ & H); [reflexivity|reflexivity|].
  destruct (H grp e G E) as [_ S]. cbv zeta. rewrite <- K. unfold dflt in *. apply (proj1 (same_pts_spec _ _ _ _) S). exact P.
Qed.
(** First users are elements of the groups. *)
Lemma group_users tol numip grp : forall g e st u, In u (fst (fst (db_group tol numip st grp e g))) -> In u (fst st) \/ (fst u = grp /\ e <= snd u < e + length g)%nat.
Proof.
  induction g as [|a g IH]; intros e st u I; [left; exact I|]. cbn [db_group] in I. destruct (db_elem tol numip st grp e a) as [st1 k] eqn:E.
  destruct (db_group tol numip st1 grp (S e) g) as [st2 ks] eqn:F. cbn [fst] in I. specialize (IH (S e) st1 u). rewrite F in IH. cbn [fst] in IH. destruct (IH I) as [J|J].
  - unfold db_elem in E. destruct (db_find tol numip a (snd st)); injection E as <- _; [left; exact J|]. cbn [fst] in J. apply in_app_iff in J as [J|[<-|[]]]; [left; exact J|]. right. cbn. lia.
  - right. cbn [length]. lia.
Qed.
Theorem C323_users tol numip gs u : In u (fst (fst (db_groups tol numip ([], []) 0 gs))) -> (fst u < length gs)%nat /\ (snd u < length (nth (fst u) gs []))%nat.
Proof.
  assert (G : forall l grp st u, In u (fst (fst (db_groups tol numip st grp l))) -> In u (fst st) \/ exists j, (j < length l)%nat /\ fst u = (grp + j)%nat /\ (snd u < length (nth j l []))%nat).
  { induction l as [|g l IH]; intros grp st v I; [left; exact I|]. cbn [db_groups] in I. destruct (db_group tol numip st grp 0 g) as [st1 ks] eqn:E.
    destruct (db_groups tol numip st1 (S grp) l) as [st2 kss] eqn:F. cbn [fst] in I. specialize (IH (S grp) st1 v). rewrite F in IH. cbn [fst] in IH. destruct (IH I) as [J|(j & A & B & C)].
    - pose proof (group_users tol numip grp g 0 st v) as H. rewrite E in H. cbn [fst] in H. destruct (H J) as [X|X]; [left; exact X|]. right. exists 0%nat. cbn [length nth]. lia.
    - right. exists (S j). cbn [length nth]. lia. }
  intro I. destruct (G gs 0%nat ([], []) u I) as [[]|(j & A & B & C)]. cbn [Nat.add] in B. rewrite B. auto.
Qed.
(** If elements that are not equal differ by more than the tolerance, the points are exact. *)
Theorem C323_exact tol numip gs grp e pt : 0 <= tol -> (grp < length gs)%nat -> (e < length (nth grp gs []))%nat -> (pt < numip)%nat ->
  (forall j i k, (j < length gs)%nat -> (i < length (nth j gs []))%nat -> (k < numip)%nat ->
     (forall q, (q < numip)%nat -> Rabs (nth e (nth grp gs []) dflt q - nth i (nth j gs []) dflt q) <= tol) -> nth e (nth grp gs []) dflt k = nth i (nth j gs []) dflt k) ->
  db_read tol numip gs grp e pt = nth e (nth grp gs []) dflt pt.
Proof.
  intros T G E P D. pose proof (C323_users tol numip gs) as U. unfold db_read. destruct (groups_spec tol numip gs T gs 0 ([], [])) as (K & _ & H); [reflexivity|reflexivity|].
  destruct (H grp e G E) as [L S]. cbv zeta. set (r := db_groups tol numip ([], []) 0 gs) in *. set (k := nth e (nth grp (snd r) []) 0%nat) in *.
  unfold db_ok in K. rewrite K in L, S. unfold db_build in *. rewrite map_length in L.
  assert (X : nth k (map (fun u => nth (snd u) (nth (fst u) gs []) (fun _ : nat => 0)) (fst (fst r))) dflt = nth (snd (nth k (fst (fst r)) (0, 0)%nat)) (nth (fst (nth k (fst (fst r)) (0, 0)%nat)) gs []) dflt).
  { set (F := fun u : nat * nat => nth (snd u) (nth (fst u) gs []) (fun _ : nat => 0)). rewrite (nth_indep _ dflt (F (0, 0)%nat)) by (rewrite map_length; exact L). rewrite (map_nth F). reflexivity. }
  unfold dflt in *. rewrite X in S |- *. destruct (U (nth k (fst (fst r)) (0, 0)%nat)) as [U1 U2]; [apply nth_In; exact L|]. symmetry. apply D; auto.
  apply same_pts_spec. exact S.
Qed.
Print Assumptions C323_points.
Print Assumptions C323_exact.
Print Assumptions C323_users.
Example C323_case : db_read (1 / 10) 1 [[fun _ => 0; fun _ => 1]; [fun _ => 0]] 1 0 0 = 0 /\ Rabs (1 - db_read (1 / 10) 1 [[fun _ => 0; fun _ => 1]; [fun _ => 0]] 0 1 0) <= 1 / 10.
Proof.
  split; [|apply (C323_points (1 / 10) 1 [[fun _ => 0; fun _ => 1]; [fun _ => 0]] 0 1 0); cbn; lra || lia].
  pose proof (C323_exact (1 / 10) 1 [[fun _ => 0; fun _ => 1]; [fun _ => 0]] 1 0 0) as H. cbn [nth] in H. rewrite H; [reflexivity|lra|cbn; lia|cbn; lia|lia|].
  intros j i k Hj Hi Hk. intro Q. specialize (Q 0%nat ltac:(lia)). unfold dflt in *. destruct j as [|[|j]]; cbn in *; [destruct i as [|[|i]]; cbn in *|destruct i as [|i]; cbn in *|]; try lia; try reflexivity.
  exfalso. revert Q. unfold Rabs. destruct (Rcase_abs _); lra.
Qed.

(** *** C324 *)

Lemma seq_app_inv : forall l1 l2 a n, l1 ++ l2 = seq a n -> l1 = seq a (length l1) /\ l2 = seq (a + length l1) (n - length l1) /\ (length l1 <= n)%nat.
Proof.
  induction l1 as [|x l1 IH]; intros l2 a n E.
  - cbn [app length seq] in *. rewrite Nat.add_0_r, Nat.sub_0_r. repeat split; auto. lia.
  - destruct n as [|n]; [discriminate|]. cbn [app seq] in E. injection E as -> E. destruct (IH l2 (S a) n E) as (A & B & C). cbn [length seq].
    repeat split; [f_equal; exact A| |lia]. rewrite B at 1. f_equal; lia.
Qed.
Lemma filter_lt_seq NX : forall n a, filter (fun el => Nat.ltb el NX) (seq a n) = seq a (Nat.min n (NX - a)).
Proof.
  induction n as [|n IH]; intro a; [reflexivity|]. cbn [seq filter]. destruct (Nat.ltb_spec a NX).
  - rewrite IH. replace (Nat.min (S n) (NX - a)) with (S (Nat.min n (NX - S a))) by lia. reflexivity.
  - rewrite IH. replace (Nat.min n (NX - S a)) with 0%nat by lia. replace (Nat.min (S n) (NX - a)) with 0%nat by lia. reflexivity.
Qed.
Lemma simple_x_spec NX : forall gs a n, concat gs = seq a n -> simple_x NX (Nat.min a NX) gs = seq a (Nat.min n (NX - a)).
Proof.
  induction gs as [|g gs IH]; intros a n E; cbn [concat simple_x] in *.
  - destruct n; [reflexivity|discriminate].
  - destruct (seq_app_inv g (concat gs) a n E) as (G & R & L). destruct (Nat.ltb_spec (Nat.min a NX) NX) as [H|H].
    + set (m := length g) in *. rewrite G. cbv zeta. rewrite filter_lt_seq, seq_length.
      replace (Nat.min a NX + Nat.min m (NX - a))%nat with (Nat.min (a + m) NX) by lia. rewrite (IH (a + m)%nat (n - m)%nat R).
      replace (Nat.min n (NX - a)) with (Nat.min m (NX - a) + Nat.min (n - m) (NX - (a + m)))%nat by lia. rewrite seq_app. destruct (Nat.le_gt_cases NX (a + m)).
      * replace (NX - (a + m))%nat with 0%nat by lia. rewrite Nat.min_0_r. reflexivity.
      * replace (Nat.min m (NX - a)) with m by lia. reflexivity.
    + replace (NX - a)%nat with 0%nat by lia. rewrite Nat.min_0_r. reflexivity.
Qed.

Lemma pass_spec NX : (0 < NX)%nat -> forall n a prog acc, (a <= prog * NX)%nat ->
  exists k, fold_left (fun s el => if Nat.eqb el (fst s * NX) then (S (fst s), snd s ++ [el]) else s) (seq a n) (prog, acc) = ((prog + k)%nat, acc ++ map (fun j => (j * NX)%nat) (seq prog k)) /\
  (a + n <= (prog + k) * NX)%nat /\ (forall j, (prog <= j < prog + k)%nat -> (j * NX < a + n)%nat) /\ ((prog * NX < a + n)%nat -> (0 < k)%nat).
Proof.
  intro P. induction n as [|n IH]; intros a prog acc H.
  - exists 0%nat. cbn [seq fold_left map]. rewrite app_nil_r, !Nat.add_0_r. repeat split; try lia.
  - cbn [seq fold_left fst snd]. destruct (Nat.eqb_spec a (prog * NX)) as [E|E].
    + destruct (IH (S a) (S prog) (acc ++ [a])) as (k & F & A & B & C); [cbn; lia|]. exists (S k). rewrite F. rewrite <- app_assoc. cbn [seq map app].
      repeat split; [f_equal; [lia|rewrite E; reflexivity]|lia| |lia]. intros j Hj. destruct (Nat.eq_dec j prog) as [->|]; [lia|]. specialize (B j). lia.
    + destruct (IH (S a) prog acc) as (k & F & A & B & C); [lia|]. exists k. rewrite F. repeat split; [lia| |lia]. intros j Hj. specialize (B j Hj). lia.
Qed.
Lemma last_seq : forall n a d, last (seq a (S n)) d = (a + n)%nat.
Proof. induction n as [|n IH]; intros a d; [cbn; lia|]. change (seq a (S (S n))) with (a :: seq (S a) (S n)). change (last (a :: seq (S a) (S n)) d) with (last (seq (S a) (S n)) d). rewrite IH. lia. Qed.

Lemma simple_y_spec NX NY : (0 < NX)%nat -> forall fuel gs a prog, concat gs = seq a (NX * NY - a) -> Forall (fun g => g <> []) gs -> (a <= prog * NX)%nat -> (prog <= NY)%nat -> (a <= NX * NY)%nat ->
  ((NY - prog) + length gs <= fuel)%nat -> simple_y fuel NX NY prog gs = Some (map (fun j => (j * NX)%nat) (seq prog (NY - prog))).
Proof.
  intro P. induction fuel as [|fuel IH]; intros gs a prog E N A Y S F.
  - destruct gs as [|g gs]; [|cbn in F; lia]. cbn [simple_y]. replace (NY - prog)%nat with 0%nat by (cbn in F; lia). reflexivity.
  - destruct gs as [|g gs].
    + cbn [concat] in E. assert (NX * NY - a = 0)%nat by (destruct (NX * NY - a)%nat; [reflexivity|discriminate]). replace (NY - prog)%nat with 0%nat by nia. reflexivity.
    + cbn [simple_y]. destruct (Nat.ltb_spec prog NY) as [L|L]; [|replace (NY - prog)%nat with 0%nat by lia; reflexivity].
      inversion N as [|? ? N1 N2]; subst. cbn [concat] in E. destruct (seq_app_inv g (concat gs) a _ E) as (G & R & M).
      destruct (length g) as [|m] eqn:Lg; [destruct g; [congruence|discriminate]|].
      assert (HD : hd 0%nat g = a) by (rewrite G; reflexivity). assert (LA : last g 0%nat = (a + m)%nat) by (rewrite G; apply last_seq). rewrite HD, LA.
      destruct (Nat.leb_spec a (prog * NX)) as [_|]; [|lia]. destruct (Nat.leb_spec (prog * NX) (a + m)) as [Q|Q]; cbn [andb].
      * unfold simple_y_pass. rewrite G at 1. destruct (pass_spec NX P (Datatypes.S m) a prog [] A) as (k & K & B & C & D). rewrite K. cbn [app].
        assert (0 < k)%nat by (apply D; lia). assert (prog + k <= NY)%nat by (specialize (C (prog + k - 1)%nat ltac:(lia)); nia).
        rewrite (IH (g :: gs) a (prog + k)%nat); [|cbn [concat]; exact E|constructor; auto|lia|lia|lia|cbn [length] in *; lia].
        cbn [option_map]. f_equal. replace (NY - prog)%nat with (k + (NY - (prog + k)))%nat by lia. rewrite seq_app, map_app. reflexivity.
      * rewrite (IH gs (a + Datatypes.S m)%nat prog); auto; try lia; [|cbn [length] in F; lia]. rewrite R. f_equal. lia.
Qed.

(** On the tensor grid of a simple mesh the x of an element depends on its column, the y on its row
    only; elements 0, 1, ... NX*NY-1 are distributed to groups in order. *)
Theorem C324_simple NX NY gs (X Y : nat -> coords) el pt : (0 < NX)%nat -> concat gs = seq 0 (NX * NY) -> Forall (fun g => g <> []) gs -> (el < NX * NY)%nat ->
  (forall a b, a mod NX = b mod NX -> X a = X b) -> (forall a b, (a / NX = b / NX)%nat -> Y a = Y b) ->
  simple_read_x NX gs X el pt = X el pt /\ exists fuel, simple_read_y fuel NX NY gs Y el pt = Some (Y el pt).
Proof.
  intros P C N L HX HY. assert (NY1 : (0 < NY)%nat) by nia. split.
  - unfold simple_read_x. pose proof (simple_x_spec NX gs 0 (NX * NY) C) as E. rewrite Nat.min_0_l, Nat.sub_0_r, Nat.min_r in E by nia. rewrite E.
    assert (M : (el mod NX < NX)%nat) by (apply Nat.mod_upper_bound; lia).
    rewrite (nth_indep _ (fun _ => 0) (X 0%nat)) by (rewrite map_length, seq_length; exact M). rewrite map_nth, seq_nth by exact M. cbn [Nat.add].
    rewrite (HX (el mod NX) el); [reflexivity|]. rewrite Nat.mod_mod by lia. reflexivity.
  - exists (NY + length gs)%nat. unfold simple_read_y. rewrite (simple_y_spec NX NY P _ gs 0 0); [|rewrite Nat.sub_0_r; exact C|exact N|lia|lia|lia|lia].
    cbn [option_map]. rewrite Nat.sub_0_r. assert (M : (el / NX < NY)%nat) by (apply Nat.div_lt_upper_bound; lia).
    rewrite map_map. rewrite (nth_indep _ (fun _ => 0) (Y (0 * NX)%nat)) by (rewrite map_length, seq_length; exact M).
    change (Y (0 * NX)%nat) with ((fun j => Y (j * NX)%nat) 0%nat). rewrite map_nth, seq_nth by exact M. cbn [Nat.add].
    rewrite (HY (el / NX * NX)%nat el); [reflexivity|]. apply Nat.div_mul. lia.
Qed.
Print Assumptions C324_simple.
(** 3 by 2 elements in groups of 4 and 2. *)
Example C324_case : simple_x 3 0 [[0; 1; 2; 3]; [4; 5]]%nat = [0; 1; 2]%nat /\ simple_y 4 3 2 0 [[0; 1; 2; 3]; [4; 5]]%nat = Some [0; 3]%nat /\
  simple_read_x 3 [[0; 1; 2; 3]; [4; 5]]%nat (fun el _ => INR (el mod 3)) 5 0 = 2.
Proof. repeat split. Qed.

(** *** C325 *)

(** With both databases switched on, and a general mesh or a simple mesh in two dimensions. *)
Theorem C325_partial s ids X grp e pt : 0 <= ips_tol s -> (grp < length ids)%nat -> (e < length (nth grp ids []))%nat -> (pt < ips_numip s)%nat -> ips_basis s = true ->
  (ips_simple s = true -> ips_dim s = 2%nat /\ (0 < ips_NX s)%nat /\ (exists NY, concat ids = seq 0 (ips_NX s * NY)) /\ Forall (fun g => g <> []) ids /\ (forall a b, a mod ips_NX s = b mod ips_NX s -> X a = X b)) ->
  exists v, ip_coord_x s ids X grp e pt = Some v /\ Rabs (X (nth e (nth grp ids []) 0%nat) pt - v) <= ips_tol s.
Proof.
  intros T G E P B S. unfold ip_coord_x. rewrite B. cbv zeta. assert (Z : Rabs 0 <= ips_tol s) by (rewrite Rabs_R0; exact T). destruct (ips_ip s).
  - destruct (ips_simple s).
    + destruct (S eq_refl) as (D & NX & (NY & C) & N & HX). rewrite D. cbn [Nat.eqb]. eexists. split; [reflexivity|].
      destruct (C324_simple (ips_NX s) NY ids X (fun _ _ => 0) (nth e (nth grp ids []) 0%nat) pt NX C N) as [H _]; auto.
      { assert (I : In (nth e (nth grp ids []) 0%nat) (concat ids)) by (apply in_concat; exists (nth grp ids []); split; apply nth_In; assumption). rewrite C in I. apply in_seq in I. lia. }
      rewrite H. rewrite Rminus_diag_eq by reflexivity. exact Z.
    + eexists. split; [reflexivity|].
      assert (M : nth grp (map (map X) ids) [] = map X (nth grp ids [])) by (change (@nil coords) with (map X []); apply map_nth).
      pose proof (C323_points (ips_tol s) (ips_numip s) (map (map X) ids) grp e pt T) as H. rewrite M in H. rewrite !map_length in H. specialize (H G E P).
      rewrite (nth_indep _ dflt (X 0%nat)) in H by (rewrite map_length; exact E). rewrite map_nth in H. exact H.
  - eexists. split; [reflexivity|]. rewrite Rminus_diag_eq by reflexivity. exact Z.
Qed.
Print Assumptions C325_partial.
Example C325_case : exists v, ip_coord_x {| ips_basis := true; ips_ip := true; ips_simple := false; ips_dim := 3; ips_tol := 1 / 10; ips_numip := 1; ips_NX := 1 |} [[0; 1]]%nat (fun el _ => INR el) 0 1 0 = Some v /\ Rabs (INR 1 - v) <= 1 / 10.
Proof. apply (C325_partial {| ips_basis := true; ips_ip := true; ips_simple := false; ips_dim := 3; ips_tol := 1 / 10; ips_numip := 1; ips_NX := 1 |} [[0; 1]]%nat (fun el _ => INR el) 0 1 0); cbn; try lra; try lia; try reflexivity; discriminate. Qed.
(** "use ip database" alone, or on a three-dimensional simple mesh: there are no points. *)
Theorem C325_refuted s ids X grp e pt : ips_ip s = true -> (ips_basis s = false \/ (ips_simple s = true /\ ips_dim s <> 2%nat)) -> ip_coord_x s ids X grp e pt = None.
Proof.
  intros I [B|[S D]]; unfold ip_coord_x; rewrite I.
  - rewrite B. reflexivity.
  - rewrite S. apply Nat.eqb_neq in D. rewrite D. destruct (ips_basis s); reflexivity.
Qed.
Print Assumptions C325_refuted.

(** *** C326 *)

(** Values: those of the representative. *)
Theorem C326_partial users k d : (k < length users)%nat -> sb_val (side_read users k) = sb_val (nth k users d).
Proof.
  intro L. unfold side_read, side_db. set (F := fun u => {| sb_val := sb_val u; sb_grad := fun _ _ _ => 0 |}). rewrite (nth_indep _ _ (F d)) by (rewrite map_length; exact L).
  rewrite (map_nth F). reflexivity.
Qed.
Print Assumptions C326_partial.
(** Gradients: zero, so every normal derivative on a boundary is zero, whatever the solution; here a
    linear field with slope 1. *)
Lemma sum_zero {A} (f : A -> R) l : (forall a, In a l -> f a = 0) -> fold_right Rplus 0 (map f l) = 0.
Proof. induction l as [|a l IH]; intro H; [reflexivity|]. cbn [map fold_right]. rewrite (H a (or_introl eq_refl)), IH; [lra|]. intros; apply H; right; auto. Qed.
Theorem C326_refuted : (forall users k ndof dim u n pt, normal_derivative (side_read users k) ndof dim u n pt = 0) /\
  exists b ndof dim u n pt, normal_derivative b ndof dim u n pt = 1.
Proof.
  split.
  - intros. unfold normal_derivative. apply sum_zero. intros dof _. rewrite sum_zero; [lra|]. intros d _.
    assert (Z : forall i j l, sb_grad (side_read users k) i j l = 0).
    { intros. unfold side_read. destruct (Nat.lt_ge_cases k (length users)) as [L|L].
      - unfold side_db. set (F := fun u => {| sb_val := sb_val u; sb_grad := fun _ _ _ => 0 |}). rewrite (nth_indep _ _ (F {| sb_val := fun _ _ => 0; sb_grad := fun _ _ _ => 0 |})) by (rewrite map_length; exact L). rewrite (map_nth F). reflexivity.
      - rewrite nth_overflow by (unfold side_db; rewrite map_length; exact L). reflexivity. }
    rewrite Z. lra.
  - exists {| sb_val := fun dof pt => INR dof; sb_grad := fun dof _ _ => if Nat.eqb dof 0 then -1 else 1 |}, 2%nat, 1%nat, (fun dof => INR dof), (fun _ => 1), 0%nat.
    unfold normal_derivative. cbn. lra.
Qed.
Print Assumptions C326_refuted.
