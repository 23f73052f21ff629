(** What a name or a numeral in a definition stands for, stated without the scanner, and the
    comparisons with two characters. *)
From Coq Require Import List Ascii String Bool ZArith QArith Arith Lia.
From Verif Require Import Interp_Model Interp_Spec Interp_Lemmas Interp_Proofs Number_Model Number_Spec Number_Proofs.
Import ListNotations.
Local Open Scope nat_scope.

(** *** Texts taken for numbers *)

Definition digit_chars : str := s_ "0123456789".
Definition e_chars : str := s_ "eE".
Definition sign_chars : str := s_ "+-".
Definition number_chars : str := digit_chars ++ s_ "." ++ e_chars ++ sign_chars.
Definition occ (P : list ascii) (s : str) : nat := List.length (filter (fun c => if in_dec ascii_dec c P then true else false) s).

(** Only number characters, at most one dot, at most one exponent mark, a sign only in front or
    right behind the exponent mark. *)
Definition scalar_text (s : str) : Prop :=
  (forall c, In c s -> In c number_chars) /\ occ (s_ ".") s <= 1 /\ occ e_chars s <= 1 /\
  (forall u c v, s = u ++ c :: v -> In c sign_chars -> u = [] \/ exists w x, u = w ++ [x] /\ In x e_chars).

Lemma is_digit_in c : is_digit c = true <-> In c digit_chars.
Proof.
  destruct c as [[] [] [] [] [] [] [] []]; vm_compute; split; intros H; try discriminate H; try tauto;
  try (repeat (destruct H as [H|H]; [discriminate H|]); destruct H).
Qed.
Lemma is_e_in c : is_e c = true <-> In c e_chars.
Proof.
  unfold is_e. rewrite orb_true_iff, !aeq_true. unfold e_chars. cbn. intuition.
Qed.
Lemma is_sign_in c : aeq c "+"%char || aeq c "-"%char = true <-> In c sign_chars.
Proof. rewrite orb_true_iff, !aeq_true. cbn. intuition. Qed.
Lemma dot_in c : aeq c "."%char = true <-> In c (s_ ".").
Proof. rewrite aeq_true. cbn. intuition. Qed.

Lemma occ_cons P c s : occ P (c :: s) = (if in_dec ascii_dec c P then 1 else 0) + occ P s.
Proof. unfold occ. cbn [filter]. destruct (in_dec ascii_dec c P); reflexivity. Qed.

Definition sign_ok (prev : option ascii) (s : str) : Prop :=
  forall u c v, s = u ++ c :: v -> In c sign_chars ->
    (u = [] /\ match prev with None => True | Some p => In p e_chars end) \/ exists w x, u = w ++ [x] /\ In x e_chars.

Lemma sign_ok_cons prev c s : sign_ok prev (c :: s) <->
  (In c sign_chars -> match prev with None => True | Some p => In p e_chars end) /\ sign_ok (Some c) s.
Proof.
  split.
  - intros H. split.
    + intros Hc. destruct (H [] c s eq_refl Hc) as [[_ X]|(w & x & X & _)]; auto. destruct w; discriminate.
    + intros u d v -> Hd. destruct (H (c :: u) d v eq_refl Hd) as [[X _]|(w & x & X & Y)]; [discriminate|].
      destruct w as [|y w]; injection X as <- ->; [left; auto|right; eauto].
  - intros [H1 H2] u d v E Hd. destruct u as [|x u]; injection E as <- ->; [left; split; [auto|exact (H1 Hd)]|].
    right. destruct (H2 u d v eq_refl Hd) as [[-> X]|(w & z & -> & X)]; [exists [], c; auto|exists (c :: w), z; auto].
Qed.

Lemma in_number c : In c number_chars <-> (is_digit c = true \/ aeq c "."%char = true \/ is_e c = true \/ aeq c "+"%char || aeq c "-"%char = true).
Proof. unfold number_chars. rewrite !in_app_iff, is_digit_in, dot_in, is_e_in, is_sign_in. tauto. Qed.

Lemma scan_spec s : forall prev nd ne, nd <= 1 -> ne <= 1 ->
  isScalar_scan s prev nd ne true = true <->
  (forall c, In c s -> In c number_chars) /\ nd + occ (s_ ".") s <= 1 /\ ne + occ e_chars s <= 1 /\ sign_ok prev s.
Proof.
  induction s as [|c s IH]; intros prev nd ne Hd He; cbn [isScalar_scan].
  - split; auto. intros _. cbn. split; [tauto|]. split; [lia|]. split; [lia|]. intros u c v E. destruct u; discriminate.
  - rewrite !occ_cons, sign_ok_cons.
    assert (A : (forall x, In x (c :: s) -> In x number_chars) <-> In c number_chars /\ (forall x, In x s -> In x number_chars)).
    { split; [intros H; split; intros; apply H; cbn; auto|intros [H1 H2] x [<-|Hx]; auto]. }
    rewrite A, in_number. clear A.
    destruct (is_digit c) eqn:D.
    { assert (~ In c (s_ ".")) by (intros X; cbn in X; destruct X as [<-|[]]; discriminate).
      assert (~ In c e_chars) by (intros X; apply is_e_in in X; apply is_digit_in in D; vm_compute in D; repeat (destruct D as [<-|D]; [discriminate X|]); destruct D).
      assert (~ In c sign_chars) by (intros X; cbn in X; repeat (destruct X as [<-|X]; [discriminate D|]); destruct X).
      destruct (in_dec ascii_dec c (s_ ".")), (in_dec ascii_dec c e_chars); try tauto. rewrite IH by auto. cbn [Nat.add]. intuition. }
    destruct (aeq c "."%char) eqn:P.
    { apply aeq_true in P as ->. destruct (in_dec ascii_dec "."%char (s_ ".")) as [_|N]; [|exfalso; apply N; cbn; auto].
      destruct (in_dec ascii_dec "."%char e_chars) as [N|_]; [cbn in N; intuition discriminate|].
      assert (~ In "."%char sign_chars) by (cbn; intuition discriminate).
      destruct (Nat.eqb_spec nd 0) as [->|Nz].
      - rewrite IH by lia. cbn [Nat.add]. intuition.
      - rewrite scan_false. split; [discriminate|]. intros (_ & X & _). lia. }
    destruct (is_e c) eqn:Ec.
    { assert (I := Ec). apply is_e_in in I. destruct (in_dec ascii_dec c e_chars) as [_|N]; [|tauto].
      destruct (in_dec ascii_dec c (s_ ".")) as [N|_]; [cbn in N; destruct N as [<-|[]]; discriminate|].
      assert (~ In c sign_chars) by (intros X; cbn in X; repeat (destruct X as [<-|X]; [discriminate Ec|]); destruct X).
      destruct (Nat.eqb_spec ne 0) as [->|Nz].
      - rewrite IH by lia. cbn [Nat.add]. intuition.
      - rewrite scan_false. split; [discriminate|]. intros (_ & _ & X & _). lia. }
    destruct (in_dec ascii_dec c (s_ ".")) as [N|_]; [apply dot_in in N; congruence|].
    destruct (in_dec ascii_dec c e_chars) as [N|_]; [apply is_e_in in N; congruence|].
    destruct (aeq c "+"%char || aeq c "-"%char) eqn:S.
    { assert (I := S). apply is_sign_in in I. destruct prev as [p|].
      - destruct (is_e p) eqn:Ep.
        + apply is_e_in in Ep. rewrite IH by auto. cbn [Nat.add]. intuition.
        + rewrite scan_false. split; [discriminate|]. intros (_ & _ & _ & X & _). apply X in I. apply is_e_in in I. congruence.
      - rewrite IH by auto. cbn [Nat.add]. intuition. }
    rewrite scan_false. split; [discriminate|]. intros ((X & _) & _). intuition discriminate.
Qed.

Lemma isScalar_iff s : isScalar s = true <-> scalar_text s.
Proof.
  unfold isScalar, scalar_text. rewrite scan_spec by lia. cbn [Nat.add].
  split; intros (A & B & C & D); (split; [auto|split; [auto|split; [auto|]]]); intros u c v E Hc; specialize (D u c v E Hc); intuition.
Qed.

(** A number has a digit in front of its exponent mark. *)
Definition has_value (s : str) : Prop := exists u c v, s = u ++ c :: v /\ In c digit_chars /\ forall x, In x u -> ~ In x e_chars.
Lemma mantissa_iff s : mantissa_has_digit s = true <-> has_value s.
Proof.
  induction s as [|c s IH]; cbn [mantissa_has_digit].
  - split; [discriminate|]. intros (u & c & v & E & _). destruct u; discriminate.
  - destruct (is_digit c) eqn:D.
    { split; auto. intros _. exists [], c, s. split; auto. split; [apply is_digit_in; auto|intros x []]. }
    destruct (is_e c) eqn:Ec.
    { split; [discriminate|]. intros (u & d & v & E & Hd & N). destruct u as [|x u]; injection E as <- ->.
      - apply is_digit_in in Hd. congruence.
      - exfalso. apply (N c); [cbn; auto|apply is_e_in; auto]. }
    rewrite IH. split; intros (u & d & v & E & Hd & N).
    + exists (c :: u), d, v. split; [rewrite E; auto|]. split; auto. intros x [<-|Hx]; auto. intros X. apply is_e_in in X. congruence.
    + destruct u as [|x u]; injection E as <- ->; [apply is_digit_in in Hd; congruence|]. exists u, d, v. split; auto. split; auto. intros x Hx. apply N. cbn. auto.
Qed.

(** std::stod finds a number exactly then. *)
Lemma stod_some s : scalar_text s -> stod s = None <-> ~ has_value s.
Proof.
  intros T. rewrite <- mantissa_iff. apply isScalar_iff in T.
  assert (SG : mantissa_has_digit (snd (take_sign s)) = mantissa_has_digit s /\ isScalar (snd (take_sign s)) = true).
  { destruct s as [|c s]; [auto|]. unfold take_sign.
    destruct (aeq c "-"%char) eqn:M; [apply aeq_true in M as ->; split; auto; apply (isScalar_tail_sign "-"%char s); auto|].
    destruct (aeq c "+"%char) eqn:P; [apply aeq_true in P as ->; split; auto; apply (isScalar_tail_sign "+"%char s); auto|]. auto. }
  assert (NS : forall c r, snd (take_sign s) = c :: r -> aeq c "+"%char || aeq c "-"%char = false).
  { intros c r E. destruct s as [|x s]; [discriminate|]. unfold take_sign in E, SG.
    assert (G : forall x, aeq x "+"%char || aeq x "-"%char = true -> isScalar (x :: s) = true -> s = c :: r -> aeq c "+"%char || aeq c "-"%char = false).
    { intros y Hy Sy ->. destruct (aeq c "+"%char || aeq c "-"%char) eqn:Q; auto.
      assert (F := isScalar_sign [] y c r); cbn [app] in F; rewrite F in Sy; [discriminate|exact Q|].
      apply orb_true_iff in Hy as [Hy|Hy]; apply aeq_true in Hy as ->; reflexivity. }
    destruct (aeq x "-"%char) eqn:M; [apply (G x); auto; rewrite M; apply orb_true_r|].
    destruct (aeq x "+"%char) eqn:P; [apply (G x); auto; rewrite P; auto|]. injection E as -> ->. rewrite M, P. auto. }
  unfold stod. destruct (take_sign s) as [neg s1]. cbn [snd] in *. destruct SG as [<- SS].
  assert (TD : forall t, fst (take_digits t) = [] \/ (fst (take_digits t) <> [] /\ mantissa_has_digit t = true)).
  { intros [|c t]; cbn; auto. destruct (is_digit c); auto. right. destruct (take_digits t). cbn. split; [discriminate|auto]. }
  assert (TN : forall t, fst (take_digits t) = [] -> snd (take_digits t) = t /\ (forall c r, t = c :: r -> is_digit c = false)).
  { intros [|c t]; cbn; [split; auto; discriminate|]. destruct (is_digit c) eqn:D; [destruct (take_digits t); discriminate|]. intros _. split; auto. intros ? ? [= <- <-]. auto. }
  destruct (take_digits s1) as [ip s2] eqn:T1. destruct (take_frac s2) as [fp s3] eqn:T2.
  destruct ip as [|d ip].
  - destruct (TN s1) as [E1 F1]; [rewrite T1; auto|]. rewrite T1 in E1. cbn in E1. subst s2.
    cbn [app]. destruct s1 as [|c t]; [cbn in T2; injection T2 as <- <-; cbn; intuition discriminate|].
    specialize (F1 c t eq_refl). specialize (NS c t eq_refl). cbn [mantissa_has_digit]. rewrite F1. unfold take_frac in T2.
    assert (NC : numchar c = true) by (eapply isScalar_numchar; [exact SS|cbn; auto]). unfold numchar in NC. rewrite F1 in NC.
    destruct (aeq c "."%char) eqn:P.
    + apply aeq_true in P as ->. change (is_e "."%char) with false. cbv iota.
      destruct fp as [|f fp].
      * split; auto. intros _ X. destruct (TN t) as [E2 F2]; [rewrite T2; auto|].
        destruct t as [|x t]; [discriminate|]. specialize (F2 x t eq_refl). cbn in X. rewrite F2 in X.
        destruct (is_e x) eqn:Q; [discriminate|].
        assert (NX : numchar x = true) by (eapply isScalar_numchar; [exact SS|cbn; auto]). unfold numchar in NX. rewrite F2, Q in NX. cbn in NX.
        destruct (aeq x "."%char) eqn:PX; [apply aeq_true in PX as ->; unfold isScalar in SS; cbn in SS; rewrite scan_false in SS; discriminate|].
        cbn in NX. assert (F := isScalar_sign [] "."%char x t); cbn [app] in F; rewrite F in SS; [discriminate|exact NX|reflexivity].
      * split; [discriminate|]. intros X. exfalso. apply X. destruct (TD t) as [Y|[_ Y]]; [rewrite T2 in Y; discriminate|auto].
    + injection T2 as <- <-. destruct (is_e c) eqn:Q; [split; auto; discriminate|]. exfalso.
      cbn in NC. rewrite orb_comm in NS. rewrite orb_comm in NC. congruence.
  - split; [discriminate|]. intros X. exfalso. apply X. destruct (TD s1) as [Y|[_ Y]]; [rewrite T1 in Y; discriminate|auto].
Qed.

(** *** What a name stands for *)

Definition digit_text (d : nat) : str := [dchar d].

(** Every reading of a name in an environment; component k of parameter number j may be written
    p (for component 0), p(d) or p(dd). *)
Inductive component (p : str) : str -> nat -> Prop :=
| comp_none : component p p 0
| comp_one d : d < 10 -> component p (p ++ s_ "(" ++ [dchar d] ++ s_ ")") d
| comp_two d1 d2 : d1 < 10 -> d2 < 10 -> component p (p ++ s_ "(" ++ [dchar d1; dchar d2] ++ s_ ")") (10 * d1 + d2).

Inductive means (E : env) (s : str) : leaf -> Prop :=
| m_soln j : nth_error (e_soln E) j = Some s -> means E s (LSoln j)
| m_scal j : nth_error (e_scal E) j = Some s -> means E s (LScal j)
| m_par j p k : nth_error (e_par E) j = Some p -> component p s k -> means E s (LPar j k)
| m_pardot j p k : nth_error (e_par E) j = Some p -> component (p ++ s_ "_t") s k -> means E s (LParDot j k)
| m_fun j : nth_error (e_fun E) j = Some s -> means E s (LFun j)
| m_num : scalar_text s -> has_value s -> means E s (LNum s)
| m_time : s = s_ "t" -> means E s LTime
| m_pi : s = s_ "pi" -> means E s LPi
| m_unset : In s (List.map s_ ["x"; "y"; "z"; "u"; "v"; "w"; "h"]%string) -> means E s (LUnset s).

Lemma digit_dchar c : is_digit c = true -> digit_val c < 10 /\ c = dchar (digit_val c).
Proof. intros H. apply is_digit_in in H. vm_compute in H. repeat (destruct H as [<-|H]; [vm_compute; split; [lia|reflexivity]|]). destruct H. Qed.
Lemma dchar_digit d : d < 10 -> is_digit (dchar d) = true /\ digit_val (dchar d) = d.
Proof. intros H. do 10 (destruct d as [|d]; [split; reflexivity|]). lia. Qed.

Lemma param_match_component s p k : param_match s p = Some k <-> component p s k.
Proof.
  unfold param_match. split.
  - destruct (drop_prefix p s) as [r|] eqn:D; [|discriminate]. apply drop_prefix_spec in D as ->.
    destruct r as [|a [|b [|c [|d [|]]]]]; try discriminate.
    + intros [= <-]. rewrite app_nil_r. constructor.
    + destruct (aeq a "("%char) eqn:A; [|discriminate]. destruct (aeq c ")"%char) eqn:C; [|discriminate]. destruct (is_digit b) eqn:B; [|discriminate].
      apply aeq_true in A as ->. apply aeq_true in C as ->. intros [= <-]. destruct (digit_dchar b B) as [L E]. rewrite E at 1. apply (comp_one p _ L).
    + destruct (aeq a "("%char) eqn:A; [|discriminate]. destruct (aeq d ")"%char) eqn:C; [|discriminate]. destruct (is_digit b) eqn:B; [|discriminate]. destruct (is_digit c) eqn:B2; [|discriminate].
      apply aeq_true in A as ->. apply aeq_true in C as ->. intros [= <-]. destruct (digit_dchar b B) as [L E]. destruct (digit_dchar c B2) as [L2 E2].
      rewrite E, E2 at 1. exact (comp_two p _ _ L L2).
  - intros H. inversion H as [|d L|d1 d2 L1 L2]; subst.
    + assert (D : drop_prefix s s = Some []) by (apply drop_prefix_spec; rewrite app_nil_r; auto). rewrite D. reflexivity.
    + assert (D : forall r, drop_prefix p (p ++ r) = Some r) by (intros; apply drop_prefix_spec; auto). rewrite D. cbn [s_ app list_ascii_of_string].
      destruct (dchar_digit _ L) as [-> ->]. reflexivity.
    + assert (D : forall r, drop_prefix p (p ++ r) = Some r) by (intros; apply drop_prefix_spec; auto). rewrite D. cbn [s_ app list_ascii_of_string].
      destruct (dchar_digit _ L1) as [-> ->]. destruct (dchar_digit _ L2) as [-> ->]. reflexivity.
Qed.

Lemma find_first_iff s l : forall j k, find_first s l j = Some k <-> (exists i, k = j + i /\ nth_error l i = Some s /\ forall i', i' < i -> nth_error l i' <> Some s).
Proof.
  induction l as [|x l IH]; intros j k; cbn [find_first].
  - split; [discriminate|]. intros (i & _ & X & _). destruct i; discriminate.
  - destruct (seq_str s x) eqn:Q.
    + apply seq_str_true in Q as ->. split.
      * intros [= <-]. exists 0. split; [lia|]. split; auto. lia.
      * intros (i & -> & A & B). destruct i as [|i]; [f_equal; lia|]. exfalso. apply (B 0); [lia|auto].
    + apply seq_str_false in Q. rewrite IH. split; intros (i & -> & A & B).
      * exists (S i). split; [lia|]. split; auto. intros [|i'] H; cbn; [congruence|apply B; lia].
      * destruct i as [|i]; [cbn in A; congruence|]. exists i. split; [lia|]. split; auto. intros i' H. apply (B (S i')). lia.
Qed.
Lemma find_first_none s l : forall j, find_first s l j = None <-> ~ In s l.
Proof.
  induction l as [|x l IH]; intros j; cbn; [tauto|]. destruct (seq_str s x) eqn:Q.
  - apply seq_str_true in Q as ->. split; [discriminate|tauto].
  - apply seq_str_false in Q. rewrite IH. split; [intros H [X|X]; congruence|tauto].
Qed.
Lemma find_last_iff {A} (f : str -> option A) l : forall j k a, find_last f l j = Some (k, a) ->
  exists i p, k = j + i /\ nth_error l i = Some p /\ f p = Some a /\ forall i' p', i < i' -> nth_error l i' = Some p' -> f p' = None.
Proof.
  induction l as [|x l IH]; intros j k a; cbn [find_last]; [discriminate|].
  destruct (find_last f l (S j)) as [y|] eqn:Q.
  - intros [= ->]. destruct (IH _ _ _ Q) as (i & p & -> & A1 & A2 & A3). exists (S i), p. split; [lia|]. split; auto. split; auto.
    intros [|i'] p' L; [lia|]. cbn. apply A3. lia.
  - destruct (f x) eqn:Fx; [|discriminate]. intros [= <- ->]. exists 0, x. split; [lia|]. split; auto. split; auto.
    intros [|i'] p' L; [lia|]. cbn. clear IH L. revert Q i' p'. generalize (S j). induction l as [|z l IHl]; intros jj Q i' p' H; [destruct i'; discriminate|].
    cbn in Q. destruct (find_last f l (S jj)) eqn:Q2; [discriminate|]. destruct (f z) eqn:Fz; [discriminate|].
    destruct i' as [|i']; cbn in H; [congruence|]. eapply (IHl (S jj)); eauto.
Qed.
Lemma find_last_none {A} (f : str -> option A) l : forall j, find_last f l j = None <-> forall p, In p l -> f p = None.
Proof.
  induction l as [|x l IH]; intros j; cbn [find_last]; [split; auto; intros _ p []|].
  destruct (find_last f l (S j)) as [y|] eqn:Q.
  - split; [discriminate|]. intros H. assert (X : forall p, In p l -> f p = None) by (intros p Hp; apply H; cbn; auto).
    apply (IH (S j)) in X. congruence.
  - rewrite (IH (S j)) in Q. destruct (f x) eqn:Fx; split; try discriminate.
    + intros H. rewrite (H x) in Fx; [discriminate|cbn; auto].
    + intros _ p [<-|Hp]; auto.
    + auto.
Qed.

(** Which reading wins: solution fields, scalar fields, parameters, their derivatives,
    functions, numbers, the rest; among fields the first of that name, among parameters and
    functions the last. *)
Definition rank (l : leaf) : nat :=
  match l with LSoln _ => 0 | LScal _ => 1 | LPar _ _ => 2 | LParDot _ _ => 3 | LFun _ => 4 | LNum _ => 5 | _ => 6 end.
Definition wins (l l' : leaf) : Prop :=
  rank l < rank l' \/
  match l, l' with
  | LSoln i, LSoln j | LScal i, LScal j => i <= j
  | LPar i _, LPar j _ | LParDot i _, LParDot j _ | LFun i, LFun j => j <= i
  | _, _ => rank l = rank l'
  end.
Definition refers (E : env) (s : str) (l : leaf) : Prop := means E s l /\ forall l', means E s l' -> wins l l'.

Lemma component_fun p s k k' : component p s k -> component p s k' -> k = k'.
Proof. intros A B. apply param_match_component in A, B. congruence. Qed.

(** The reading is unique. *)
Lemma refers_fun E s l l' : refers E s l -> refers E s l' -> l = l'.
Proof.
  intros [M W] [M' W']. specialize (W _ M'). specialize (W' _ M). unfold wins in *.
  assert (R : rank l = rank l') by (destruct l, l'; cbn in *; lia).
  destruct M, M'; cbn in *; try lia; try congruence; try (f_equal; lia).
  - assert (j = j0) as <- by lia. assert (p = p0) as <- by congruence. f_equal. eapply component_fun; eauto.
  - assert (j = j0) as <- by lia. assert (p = p0) as <- by congruence. f_equal. eapply component_fun; eauto.
  - subst; exfalso; clear W W'; repeat match goal with H : _ \/ _ |- _ => destruct H; try discriminate; try contradiction end.
  - subst; exfalso; clear W W'; repeat match goal with H : _ \/ _ |- _ => destruct H; try discriminate; try contradiction end.
  - subst; exfalso; clear W W'; repeat match goal with H : _ \/ _ |- _ => destruct H; try discriminate; try contradiction end.
  - subst; exfalso; clear W W'; repeat match goal with H : _ \/ _ |- _ => destruct H; try discriminate; try contradiction end.
Qed.

Lemma classify_refers E s l : classify E s = Some (Ok l) -> refers E s l.
Proof.
  unfold classify. intros C.
  assert (NE : forall (l : list str) j x, nth_error l j = Some x -> In x l) by (intros; eapply nth_error_In; eauto).
  destruct (find_first s (e_soln E) 0) as [j|] eqn:F1.
  { injection C as <-. apply find_first_iff in F1 as (i & -> & A & B). split; [apply m_soln; auto|].
    intros l' M. destruct M; cbn; unfold wins; cbn; try lia. right. destruct (Nat.le_gt_cases i j); auto. exfalso. eapply B; eauto. }
  apply find_first_none in F1.
  destruct (find_first s (e_scal E) 0) as [j|] eqn:F2.
  { injection C as <-. apply find_first_iff in F2 as (i & -> & A & B). split; [apply m_scal; auto|].
    intros l' M. destruct M; unfold wins; cbn; try lia; [exfalso; eauto|]. right. destruct (Nat.le_gt_cases i j); auto. exfalso. eapply B; eauto. }
  apply find_first_none in F2.
  destruct (find_last (param_match s) (e_par E) 0) as [[j k]|] eqn:F3.
  { injection C as <-. apply find_last_iff in F3 as (i & p & -> & A & B & L). split; [apply (m_par E s _ p k A); apply param_match_component; auto|].
    intros l' M. destruct M; unfold wins; cbn; try lia; try (exfalso; eauto; fail). right. destruct (Nat.le_gt_cases j i); auto. exfalso.
    apply param_match_component in H0. erewrite L in H0; eauto. discriminate. }
  assert (G3 := proj1 (find_last_none _ _ _) F3).
  assert (K3 : forall p k, In p (e_par E) -> ~ component p s k) by (intros p k Hp X; apply param_match_component in X; rewrite G3 in X; [discriminate|auto]).
  destruct (find_last (fun p => param_match s (p ++ s_ "_t")) (e_par E) 0) as [[j k]|] eqn:F4.
  { injection C as <-. apply find_last_iff in F4 as (i & p & -> & A & B & L). split; [apply (m_pardot E s _ p k A); apply param_match_component; auto|].
    intros l' M. destruct M; unfold wins; cbn; try lia; try (exfalso; eauto; fail); [exfalso; eapply K3; eauto|]. right. destruct (Nat.le_gt_cases j i); auto. exfalso.
    apply param_match_component in H0. erewrite L in H0; eauto. discriminate. }
  assert (G4 := proj1 (find_last_none _ _ _) F4).
  assert (K4 : forall p k, In p (e_par E) -> ~ component (p ++ s_ "_t") s k) by (intros p k Hp X; apply param_match_component in X; cbv beta in G4; rewrite G4 in X; [discriminate|auto]).
  destruct (find_last _ (e_fun E) 0) as [[j u]|] eqn:F5.
  { injection C as <-. apply find_last_iff in F5 as (i & p & -> & A & B & L). destruct (seq_str s p) eqn:Q; [|discriminate]. apply seq_str_true in Q as ->.
    split; [apply m_fun; auto|].
    intros l' M. destruct M; unfold wins; cbn; try lia; try (exfalso; eauto; fail); [exfalso; eapply K3; eauto|exfalso; eapply K4; eauto|]. right. destruct (Nat.le_gt_cases j i); auto. exfalso.
    specialize (L j p). rewrite seq_str_refl in L. discriminate L; auto. }
  assert (G5 := proj1 (find_last_none _ _ _) F5).
  assert (K5 : ~ In s (e_fun E)) by (intros X; apply G5 in X; rewrite seq_str_refl in X; discriminate).
  destruct (isScalar s) eqn:S.
  { destruct (mantissa_has_digit s) eqn:Md; [|discriminate]. injection C as <-. split; [apply m_num; [apply isScalar_iff|apply mantissa_iff]; auto|].
    intros l' M. destruct M; unfold wins; cbn; try lia; exfalso; eauto; [eapply K3; eauto|eapply K4; eauto]. }
  assert (KS : ~ scalar_text s) by (intros X; apply isScalar_iff in X; congruence).
  assert (G : rank l = 6 /\ means E s l).
  { destruct (find_first s known_vars 0) eqn:F6; [|discriminate].
    destruct (seq_str s (s_ "t")) eqn:T; [injection C as <-; split; auto; apply seq_str_true in T; apply m_time; auto|].
    destruct (seq_str s (s_ "pi")) eqn:P; [injection C as <-; split; auto; apply seq_str_true in P; apply m_pi; auto|].
    injection C as <-. split; auto. apply seq_str_false in T, P. apply m_unset. apply find_first_in in F6. cbn in F6 |- *.
    repeat (destruct F6 as [F6|F6]; [subst; tauto|]). destruct F6. }
  destruct G as [G ML]. split; auto.
  intros l' M. unfold wins. destruct M; try (exfalso; eauto; [eapply K3; eauto|eapply K4; eauto]; fail); try (exfalso; eauto; fail).
  - exfalso. eapply K3; eauto.
  - exfalso. eapply K4; eauto.
  - right. destruct l; cbn in G; try lia; auto.
  - right. destruct l; cbn in G; try lia; auto.
  - right. destruct l; cbn in G; try lia; auto.
Qed.

Lemma classify_means E s l : classify E s = Some (Ok l) -> means E s l.
Proof. intros H. apply (classify_refers E s l H). Qed.

(** A name that has a reading is taken as a leaf, one without is not. *)
Lemma means_classify E s l : means E s l -> exists l', classify E s = Some (Ok l').
Proof.
  intros M. unfold classify.
  assert (NE : forall (l : list str) j x, nth_error l j = Some x -> In x l) by (intros; eapply nth_error_In; eauto).
  destruct (find_first s (e_soln E) 0) as [j|] eqn:F1; [eauto|]. apply find_first_none in F1.
  destruct (find_first s (e_scal E) 0) as [j|] eqn:F2; [eauto|]. apply find_first_none in F2.
  destruct (find_last (param_match s) (e_par E) 0) as [[j k]|] eqn:F3; [eauto|].
  assert (G3 := proj1 (find_last_none _ _ _) F3).
  destruct (find_last (fun p => param_match s (p ++ s_ "_t")) (e_par E) 0) as [[j k]|] eqn:F4; [eauto|].
  assert (G4 := proj1 (find_last_none _ _ _) F4).
  destruct (find_last _ (e_fun E) 0) as [[j u]|] eqn:F5; [eauto|].
  assert (G5 := proj1 (find_last_none _ _ _) F5).
  destruct M; try (exfalso; eauto; fail).
  - exfalso. apply param_match_component in H0. rewrite G3 in H0; eauto. discriminate.
  - exfalso. apply param_match_component in H0. cbv beta in G4. rewrite G4 in H0; eauto. discriminate.
  - exfalso. apply NE in H. apply G5 in H. rewrite seq_str_refl in H. discriminate.
  - apply isScalar_iff in H. apply mantissa_iff in H0. rewrite H, H0. eauto.
  - subst. eexists. reflexivity.
  - subst. eexists. reflexivity.
  - cbn in H. repeat (destruct H as [<-|H]; [eexists; reflexivity|]). destruct H.
Qed.
Lemma classify_none E s : (forall l, ~ means E s l) -> ~ scalar_text s -> classify E s = None.
Proof.
  intros H NS. destruct (classify E s) as [[l| |]|] eqn:C; auto; exfalso; [apply (H l), classify_means; auto| |].
  all: unfold classify in C; destruct (find_first s (e_soln E) 0); [discriminate|]; destruct (find_first s (e_scal E) 0); [discriminate|];
    destruct (find_last (param_match s) (e_par E) 0) as [[]|]; [discriminate|]; destruct (find_last (fun p => param_match s (p ++ s_ "_t")) (e_par E) 0) as [[]|]; [discriminate|];
    destruct (find_last _ (e_fun E) 0) as [[]|]; [discriminate|]; (destruct (isScalar s) eqn:S; [apply NS, isScalar_iff; auto|]);
    destruct (find_first s known_vars 0); [|discriminate]; destruct (seq_str s (s_ "t")); [discriminate|]; destruct (seq_str s (s_ "pi")); discriminate.
Qed.

(** A text of number characters without a value is refused. *)
Lemma classify_exn E s : scalar_text s -> ~ has_value s -> (forall l, ~ means E s l) -> classify E s = Some Exn.
Proof.
  intros T NV H. destruct (classify E s) as [[l| |]|] eqn:C; auto; exfalso; [apply (H l), classify_means; auto| |].
  all: apply isScalar_iff in T; assert (M : mantissa_has_digit s = false) by (apply not_true_is_false; rewrite mantissa_iff; auto).
  all: unfold classify in C; destruct (find_first s (e_soln E) 0); [discriminate|]; destruct (find_first s (e_scal E) 0); [discriminate|];
    destruct (find_last (param_match s) (e_par E) 0) as [[]|]; [discriminate|]; destruct (find_last (fun p => param_match s (p ++ s_ "_t")) (e_par E) 0) as [[]|]; [discriminate|];
    destruct (find_last _ (e_fun E) 0) as [[]|]; [discriminate|]; rewrite T, M in C; discriminate.
Qed.

(** *** Comparisons of two characters *)

Definition cmp_text (ge : bool) : str := if ge then s_ ">=" else s_ "<=".
Definition cmp_pr (ge : bool) (a b : expr) : str := wt 2 a ++ cmp_text ge ++ wt 3 b.
Definition cmp_name (ge : bool) : str := if ge then s_ "gte" else s_ "lte".

Section Compare.
Variable E : env.

Lemma cmp_shape ge a b : exists c, cmp_pr ge a b = wt 2 a ++ c :: "="%char :: wt 3 b /\ is_mdp c = true /\ is_pm c = false /\ letter c = false
  /\ aeq c "("%char = false /\ aeq c ")"%char = false /\ special c = true /\ numchar c = false /\ pval c = 0%Z
  /\ forall cur op acc, mdp_loop (c :: "="%char :: wt 3 b) 0 cur op acc = mdp_loop (wt 3 b) 0 [] (cmp_name ge) (acc ++ [(op, cur)]).
Proof. destruct ge; eexists; (split; [reflexivity|]); repeat (split; [reflexivity|]); reflexivity. Qed.

Lemma split_cmp ge a b : wf E a -> wf E b ->
  split (cmp_pr ge a b) = Ok (map ptext (prod_parts a ++ [(cmp_name ge, par 3 b)])).
Proof.
  intros Wa Wb. destruct (cmp_shape ge a b) as (c & D1 & Cm & Cp & _ & Co & Cc & _ & _ & Cv & Lp).
  destruct (two_chars (wt 2 a) c ("="%char :: wt 3 b) (wt_nonempty E _ _ Wa)) as (x & y & s & D5).
  assert (NA : wt 2 a <> []) by (eapply wt_nonempty; eauto).
  assert (Z : zpre (cmp_pr ge a b) = cmp_pr ge a b).
  { apply zpre_id. rewrite D1. assert (M := wt_first_minus E 2 a Wa). destruct (wt 2 a); [congruence|]. apply M. lia. }
  rewrite (split_unfold _ x y s) by congruence. cbv zeta. rewrite Z.
  assert (Hp : c_pm (count_loop (cmp_pr ge a b) 0 zero_counts) = 0).
  { rewrite count_pm_free; auto. rewrite D1. apply free0_app; [eapply wt_nested; eauto|eapply wt_free_class; [apply class_pm|lia|eauto]|].
    apply free_cons. split; [auto|]. rewrite Cv. apply free_cons. split; [reflexivity|]. eapply wt_free_class; [apply class_pm|lia|eauto]. }
  rewrite Hp. simpl Nat.ltb at 1. cbv iota.
  assert (Hc : (0 < c_mdp (count_loop (cmp_pr ge a b) 0 zero_counts))%nat).
  { rewrite D1. apply count_hit; auto. eapply wt_nested; eauto. }
  apply Nat.ltb_lt in Hc. rewrite Hc, D1.
  destruct (mdp_spine E a Wa (c :: "="%char :: wt 3 b)) as (init & o' & cc & H1 & H2 & H3).
  rewrite H1, Lp. rewrite <- (app_nil_r (wt 3 b)), mdp_chunk.
  - simpl mdp_loop. rewrite (proj1 (wt_nested E 3 b Wb)). cbn [Z.add Z.ltb Z.compare].
    rewrite map_app, H2. unfold ptext at 1. cbn [map fst snd app]. rewrite pr_par. reflexivity.
  - eapply wt_free_class; [apply class_mdp|lia|eauto].
  - eapply wt_noblank; eauto.
Qed.

Lemma step_cmp ge a b : env_ok E -> wf E a -> wf E b ->
  decomp_step E (cmp_pr ge a b) = Ok (SDeps (map ptext (prod_parts a ++ [(cmp_name ge, par 3 b)]))).
Proof.
  intros HE Wa Wb. apply step_split.
  - destruct (classify E (cmp_pr ge a b)) as [x|] eqn:C; auto. exfalso.
    destruct (cmp_shape ge a b) as (c & D1 & _ & _ & _ & _ & _ & Cs & Cn & _).
    assert (I : In c (cmp_pr ge a b)) by (rewrite D1, in_app_iff; cbn; auto).
    apply classify_atomlike in C; auto. destruct C as [C|[C _]].
    + apply (isScalar_numchar _ c) in C; auto. congruence.
    + apply C in I. congruence.
  - destruct (cmp_shape ge a b) as (c & D1 & _ & _ & Cl & Co & _). rewrite D1. apply not_op_bin; auto; [apply (wt_nested E 2 a Wa)|discriminate].
  - apply split_cmp; auto.
  - intros X. apply app_eq_nil in X as [_ X]. discriminate.
Qed.

Lemma prod_parts_lt a b : parts (Bin BLt a b) = prod_parts a ++ [(s_ "lt", par 3 b)].
Proof. reflexivity. Qed.

Lemma cmp_parts ge a b (P : expr -> Prop) : Forall (fun p => P (snd p)) (parts (Bin BLt a b)) ->
  Forall (fun p => P (snd p)) (prod_parts a ++ [(cmp_name ge, par 3 b)]).
Proof. rewrite prod_parts_lt, !Forall_app. intros [A B]. split; auto. inversion B; subst. constructor; auto. Qed.

Lemma prod_den {V} (O : ops V) num nv e : forall d, pfold O num nv (prod_parts e) d = den O num nv e.
Proof.
  assert (G : forall l e, den O num nv (par l e) = den O num nv e) by (intros; apply den_par).
  induction e; intro d0; try (unfold pfold; cbn [prod_parts fold_left fst snd apply_op seq_str]; rewrite G; reflexivity).
  destruct o; try (unfold pfold; cbn [prod_parts fold_left fst snd apply_op seq_str]; rewrite G; reflexivity);
  cbn [prod_parts]; rewrite pfold_app, IHe1; unfold pfold; cbn [fold_left fst snd]; rewrite G; reflexivity.
Qed.

Lemma cmp_value {V} (O : ops V) num nv rho stale ge a b :
  (forall s, rho (LNum s) = Some (num s)) ->
  (forall s, plain_num s = true -> num ("-"%char :: s) = o_add O (num (s_ "0.0")) (o_neg O (num s))) ->
  env_ok E -> wf E a -> wf E b -> height a <= 98 -> height b <= 98 ->
  (forall s l, In s (vars a ++ vars b) -> classify E s = Some (Ok l) -> rho l = Some (nv s)) ->
  exists t, decompose E (cmp_pr ge a b) = Ok t /\
    eval O rho stale t = Some (if (if ge then o_ge O (den O num nv a) (den O num nv b) else o_ge O (den O num nv b) (den O num nv a)) then o_one O else o_zero O).
Proof.
  intros H1 H2 HE Wa Wb Ha Hb A.
  unfold decompose. assert (N : exists n, n = 99) by eauto. destruct N as [n N]. replace maxiter with (S n) by (subst; reflexivity). cbn [decomp]. rewrite step_cmp by auto.
  set (l := prod_parts a ++ [(cmp_name ge, par 3 b)]).
  assert (PW : Forall (fun p => wf E (snd p)) l) by (apply cmp_parts, (parts_wf E (Bin BLt a b)); cbn; auto).
  assert (PH : Forall (fun p => height (snd p) < height (Bin BLt a b)) l) by (apply (cmp_parts ge a b (fun e => height e < height (Bin BLt a b))), parts_height).
  assert (PV : Forall (fun p => forall s, In s (vars (snd p)) -> In s (vars a ++ vars b)) l).
  { apply (cmp_parts ge a b (fun e => forall s, In s (vars e) -> In s (vars a ++ vars b))). apply Forall_forall. intros p Hp. exact (parts_vars (Bin BLt a b) p Hp). }
  rewrite Forall_forall in PW, PH, PV.
  edestruct (@map_outcome_ok) as [ts T]; [|rewrite T].
  - intros x Hx. apply in_map_iff in Hx as (p & <- & Hp).
    destruct (decomp_succeeds E n (snd p)) as [t Ht]; auto; [specialize (PH _ Hp); cbn in PH; lia|]. simpl. rewrite Ht. eauto.
  - eexists. split; [reflexivity|]. cbn [eval].
    rewrite (fold_trees E O num nv rho stale n) with (l := l); auto.
    + unfold l. rewrite pfold_app, prod_den. unfold pfold. cbn [fold_left fst snd]. rewrite den_par. destruct ge; reflexivity.
    + intros e t W Ag D. eapply decomp_value; eauto.
    + apply Forall_forall. auto.
    + intros p Hp s l' Hs Hl. eapply A; eauto.
Qed.
End Compare.
