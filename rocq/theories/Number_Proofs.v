From Coq Require Import List Ascii String Bool ZArith QArith Qpower Qfield Arith Lia Lqa.
From Verif Require Import Interp_Model Interp_Lemmas Number_Model Number_Spec.
Import ListNotations.

Lemma dchar_table x : (x < 10)%nat ->
  is_digit (dchar x) = true /\ digit_val (dchar x) = x /\ is_e (dchar x) = false
  /\ aeq (dchar x) "."%char = false /\ aeq (dchar x) "+"%char = false /\ aeq (dchar x) "-"%char = false.
Proof.
  intro H. do 10 (destruct x as [|x]; [repeat split; reflexivity|]). lia.
Qed.

Local Opaque dchar.

Lemma take_digits_map d r : digits_ok d ->
  match r with c :: _ => is_digit c = false | [] => True end ->
  take_digits (map dchar d ++ r) = (d, r).
Proof.
  intros H R. induction H as [|x d Hx H IH]; simpl.
  - destruct r as [|c r]; simpl; auto. rewrite R. reflexivity.
  - destruct (dchar_table x Hx) as (-> & -> & _). rewrite IH. reflexivity.
Qed.

(** ** Recognition *)
Lemma scan_digits d : digits_ok d -> forall r p nd ne k, exists p',
  (p' = p \/ exists x, (x < 10)%nat /\ p' = Some (dchar x)) /\ (d <> [] -> p' <> p \/ True) /\
  isScalar_scan (map dchar d ++ r) p nd ne k = isScalar_scan r p' nd ne k.
Proof.
  intro H. induction H as [|x d Hx H IH]; intros r p nd ne k; simpl.
  - exists p. repeat split; auto.
  - destruct (dchar_table x Hx) as (E1 & _). rewrite E1.
    destruct (IH r (Some (dchar x)) nd ne k) as (p' & [-> | P] & _ & Q).
    + exists (Some (dchar x)). split; [right; eauto|]. split; auto.
    + exists p'. split; auto.
Qed.

Lemma numeral_scalar n : numeral_ok n -> isScalar (pr_numeral n) = true.
Proof.
  intros (Hw & Hf & Hne & He). unfold isScalar, pr_numeral.
  (* sign *)
  assert (S : forall r, (match r with c :: _ => is_pm c = false | [] => True end) ->
     isScalar_scan (pr_sign (n_sign n) ++ r) None 0 0 true
     = isScalar_scan r (match n_sign n with NoSign => None | Plus => Some "+"%char | Minus => Some "-"%char end) 0 0 true).
  { intros r _. destruct (n_sign n); reflexivity. }
  set (rest := map dchar (n_whole n) ++ _).
  assert (exists p, isScalar_scan (pr_sign (n_sign n) ++ rest) None 0 0 true = isScalar_scan rest p 0 0 true) as [p ->].
  { destruct (n_sign n); simpl; eauto. }
  unfold rest. clear S rest.
  destruct (scan_digits _ Hw (match n_frac n with Some f => "."%char :: map dchar f | None => [] end
    ++ match n_exp n with
     | Some (cap, s, d) => (if cap then "E"%char else "e"%char) :: pr_sign s ++ map dchar d
     | None => []
     end) p 0 0 true)%nat as (p1 & _ & _ & ->).
  assert (Ex : forall p nd, isScalar_scan (match n_exp n with
     | Some (cap, s, d) => (if cap then "E"%char else "e"%char) :: pr_sign s ++ map dchar d
     | None => []
     end) p nd 0 true = true).
  { intros p' nd. destruct (n_exp n) as [[[cap s] d]|]; auto. destruct He as [He1 He2].
    assert (K : forall q, isScalar_scan (map dchar d) (Some q) nd 1 true = true).
    { intro q. destruct (scan_digits d He1 [] (Some q) nd 1 true)%nat as (q' & _ & _ & Q).
      rewrite app_nil_r in Q. rewrite Q. reflexivity. }
    destruct cap, s; simpl; apply K. }
  destruct (n_frac n) as [f|].
  - cbn [app isScalar_scan]. change (is_digit "."%char) with false. change (aeq "."%char "."%char) with true. cbv iota.
    cbn [Nat.eqb]. cbv iota.
    destruct (scan_digits f Hf (match n_exp n with
     | Some (cap, s, d) => (if cap then "E"%char else "e"%char) :: pr_sign s ++ map dchar d
     | None => []
     end) (Some "."%char) (0 + 1) 0 true)%nat as (p2 & _ & _ & ->). apply Ex.
  - apply Ex.
Qed.

(** ** Value *)
Lemma dec_app a : forall b acc,
  fold_left (fun a x => (10 * a + Z.of_nat x)%Z) (a ++ b) acc
  = fold_left (fun a x => (10 * a + Z.of_nat x)%Z) b (fold_left (fun a x => (10 * a + Z.of_nat x)%Z) a acc).
Proof. intros. apply fold_left_app. Qed.

Lemma dec_acc d : forall acc,
  fold_left (fun a x => (10 * a + Z.of_nat x)%Z) d acc = (acc * 10 ^ Z.of_nat (List.length d) + whole d)%Z.
Proof.
  induction d as [|x d IH]; intro acc.
  - simpl. lia.
  - cbn [fold_left whole]. rewrite IH. cbn [List.length]. rewrite Nat2Z.inj_succ, Z.pow_succ_r by lia. ring.
Qed.

Lemma dec_whole d : dec d = whole d.
Proof. unfold dec. rewrite dec_acc. lia. Qed.

Lemma whole_app a b : whole (a ++ b) = (whole a * 10 ^ Z.of_nat (List.length b) + whole b)%Z.
Proof.
  induction a as [|x a IH]; cbn [app whole].
  - lia.
  - rewrite IH, app_length, Nat2Z.inj_add, Z.pow_add_r by lia. ring.
Qed.

Lemma pow10_nz z : ~ (Qpower 10 z == 0)%Q.
Proof. apply Qpower_not_0. discriminate. Qed.

Lemma frac_whole d : (frac d * Qpower 10 (Z.of_nat (List.length d)) == inject_Z (whole d))%Q.
Proof.
  induction d as [|x d IH].
  - reflexivity.
  - cbn [frac whole List.length]. rewrite Nat2Z.inj_succ. unfold Z.succ.
    rewrite Qpower_plus by discriminate. rewrite inject_Z_plus, inject_Z_mult.
    rewrite <- IH. rewrite Zpower_Qpower by lia.
    change (inject_Z 10) with 10%Q. change (Qpower 10 1) with 10%Q. field.
Qed.

Lemma numeral_value n : numeral_ok n ->
  exists v, stod (pr_numeral n) = Some v /\ (v == value n)%Q.
Proof.
  intros (Hw & Hf & Hne & He). unfold stod, pr_numeral.
  set (tail := match n_exp n with Some (cap, s, d) => _ | None => [] end).
  assert (Tail : match tail with c :: _ => is_digit c = false /\ aeq c "."%char = false | [] => True end).
  { unfold tail. destruct (n_exp n) as [[[cap s] d]|]; auto. destruct cap; split; reflexivity. }
  assert (Texp : take_exp tail = match n_exp n with Some (_, s, d) => (sgn s * whole d)%Z | None => 0%Z end).
  { unfold tail. destruct (n_exp n) as [[[cap s] d]|]; auto. destruct He as [He1 He2]. unfold take_exp.
    assert (is_e (if cap then "E"%char else "e"%char) = true) as -> by (destruct cap; reflexivity).
    assert (Sg : take_sign (pr_sign s ++ map dchar d) = (match s with Minus => true | _ => false end, map dchar d)).
    { destruct s; try reflexivity. simpl. destruct d as [|x d]; [contradiction|].
      inversion He1; subst. destruct (dchar_table x) as (_ & _ & _ & _ & E1 & E2); auto. simpl. rewrite E1, E2. reflexivity. }
    rewrite Sg. pose proof (take_digits_map d [] He1 I) as TD. rewrite app_nil_r in TD. rewrite TD.
    rewrite dec_whole. destruct s; unfold sgn; lia. }
  set (mid := map dchar (n_whole n) ++ _ ++ tail).
  assert (Sg : take_sign (pr_sign (n_sign n) ++ mid) = (match n_sign n with Minus => true | _ => false end, mid)).
  { destruct (n_sign n); try reflexivity. unfold mid. cbn [pr_sign app].
    destruct (n_whole n) as [|x d].
    - destruct Hne as [K|(d & f & K)]; [contradiction|]. rewrite K. reflexivity.
    - inversion Hw; subst. destruct (dchar_table x) as (_ & _ & _ & _ & E1 & E2); auto. simpl. rewrite E1, E2. reflexivity. }
  rewrite Sg. unfold mid.
  assert (TD : take_digits (map dchar (n_whole n) ++ match n_frac n with Some f => "."%char :: map dchar f | None => [] end ++ tail)
               = (n_whole n, match n_frac n with Some f => "."%char :: map dchar f | None => [] end ++ tail)).
  { apply take_digits_map; auto. destruct (n_frac n); simpl; auto. destruct tail; tauto. }
  rewrite TD. clear TD Sg mid. cbv beta iota.
  set (fl := match n_frac n with Some f => f | None => [] end).
  assert (FD : take_frac (match n_frac n with Some f => "."%char :: map dchar f | None => [] end ++ tail) = (fl, tail)).
  { unfold fl. destruct (n_frac n) as [f|].
    - cbn [app take_frac]. change (aeq "."%char "."%char) with true. cbv iota. apply take_digits_map; auto.
      destruct tail; tauto.
    - cbn [app]. unfold take_frac. destruct tail as [|c r]; auto. destruct Tail as [_ ->]. reflexivity. }
  rewrite FD.
  assert (NE : n_whole n ++ fl <> []).
  { destruct Hne as [K|(d & f & K)].
    - destruct (n_whole n); [contradiction|discriminate].
    - unfold fl. rewrite K. destruct (n_whole n); discriminate. }
  destruct (n_whole n ++ fl) as [|m0 m] eqn:M; [contradiction|]. rewrite <- M.
  eexists. split; [reflexivity|].
  rewrite Texp. unfold value.
  set (ex := match n_exp n with Some (_, s, d) => (sgn s * whole d)%Z | None => 0%Z end).
  assert (Fr : (match n_frac n with Some f => frac f | None => 0 end == frac fl)%Q).
  { unfold fl. destruct (n_frac n); reflexivity. }
  rewrite Fr, dec_whole, whole_app.
  unfold Z.sub. rewrite Qpower_plus by discriminate.
  assert (Sgn : (inject_Z (if match n_sign n with Minus => true | _ => false end
             then - (whole (n_whole n) * 10 ^ Z.of_nat (List.length fl) + whole fl)
             else whole (n_whole n) * 10 ^ Z.of_nat (List.length fl) + whole fl)
       == inject_Z (sgn (n_sign n)) *
          (inject_Z (whole (n_whole n)) * Qpower 10 (Z.of_nat (List.length fl)) + inject_Z (whole fl)))%Q).
  { rewrite <- (frac_whole fl).
    assert (X : (inject_Z (whole (n_whole n) * 10 ^ Z.of_nat (List.length fl) + whole fl) ==
       inject_Z (whole (n_whole n)) * 10 ^ Z.of_nat (List.length fl) +
       frac fl * 10 ^ Z.of_nat (List.length fl))%Q).
    { rewrite inject_Z_plus, inject_Z_mult, Zpower_Qpower by lia. rewrite (frac_whole fl). reflexivity. }
    destruct (n_sign n); cbn [sgn]; rewrite ?inject_Z_opp, X; try change (inject_Z 1) with 1%Q; try change (inject_Z (-1)) with (-(1))%Q; ring. }
  rewrite Sgn, <- (frac_whole fl).
  rewrite Qpower_opp. pose proof (pow10_nz (Z.of_nat (List.length fl))) as NZ.
  field. exact NZ.
Qed.

Lemma take_digits_app s : forall d r, take_digits s = (d, r) ->
  match r with c :: _ => is_digit c = false | [] => True end
  /\ (d = [] -> match s with c :: _ => is_digit c = false | [] => True end).
Proof.
  induction s as [|c s IH]; intros d r H; simpl in H.
  - inversion H; subst. split; auto.
  - destruct (is_digit c) eqn:D.
    + destruct (take_digits s) as [d' r'] eqn:T. inversion H; subst.
      destruct (IH _ _ eq_refl) as [A B]. split; auto. discriminate.
    + inversion H; subst. rewrite D. auto.
Qed.
