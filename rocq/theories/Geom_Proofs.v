(** Lemmas about the geometry model. *)
From Coq Require Import List Reals Lra Lia.
From Verif Require Import Geom_Model Geom_Spec.
Import ListNotations.
Open Scope R_scope.

Lemma qs_ext : forall {A} (r : list (A * R)) f g, (forall p, f p = g p) -> quad_sum r f = quad_sum r g.
Proof. intros A; induction r as [|[p w] r IH]; intros f g H; cbn; [reflexivity|]. rewrite H, (IH f g H). reflexivity. Qed.
Lemma qs_add : forall {A} (r : list (A * R)) f g, quad_sum r (fun p => f p + g p) = quad_sum r f + quad_sum r g.
Proof. intros A; induction r as [|[p w] r IH]; intros f g; cbn; [lra|]. rewrite IH. lra. Qed.
Lemma qs_scal : forall {A} (r : list (A * R)) c f, quad_sum r (fun p => c * f p) = c * quad_sum r f.
Proof. intros A; induction r as [|[p w] r IH]; intros c f; cbn; [lra|]. rewrite IH. lra. Qed.
Lemma qs_zero : forall {A} (r : list (A * R)), quad_sum r (fun _ => 0) = 0.
Proof. intros A; induction r as [|[p w] r IH]; cbn; [lra|]. rewrite IH. lra. Qed.

Lemma suml_qs : forall (r : rule) (g : pt * R -> R) f,
  (forall q, In q r -> g q = f (fst q) * snd q) -> suml r g = @quad_sum (nat -> R) r f.
Proof.
  induction r as [|[p w] r IH]; intros g f H; cbn; [reflexivity|].
  rewrite (H (p, w) (or_introl eq_refl)). cbn.
  rewrite (IH g f); [reflexivity|]. intros q I. apply H. right. exact I.
Qed.

Lemma suml_map : forall (r : rule) (g : pt * R -> R), suml (map g r) (fun w => w) = suml r g.
Proof. induction r as [|a r IH]; intros g; cbn; [reflexivity|]. rewrite IH. reflexivity. Qed.

Lemma measure_qs : forall c X r,
  measure c X r = @quad_sum (nat -> R) r (fun p => det (cdim c) (jac c X p)).
Proof.
  intros c X r. unfold measure, phys_wts. rewrite suml_map. apply suml_qs.
  intros q _. reflexivity.
Qed.

Ltac unf := cbv [jac phys sumn nn cdim shape dshape line2 quad4 tri3 hex8 qx qy hx hy hz mk det matvec
                 side_tangent side_pt side_u side_v rotate dot vecprod].

(** ** Norms *)

Lemma dot_rot : forall t, dot 2 (rotate t) (rotate t) = dot 2 t t.
Proof. intros t. unf. ring. Qed.
Lemma norm_rot : forall t, norm2 2 (rotate t) = norm2 2 t.
Proof. intros t. unfold norm2. rewrite dot_rot. reflexivity. Qed.

Lemma dot_nonneg : forall d a, 0 <= dot d a a.
Proof.
  intros d a. unfold dot. induction d as [|k IH]; cbn; [lra|].
  pose proof (Rle_0_sqr (a k)) as H. unfold Rsqr in H. lra.
Qed.
Lemma norm_sq : forall d a, norm2 d a * norm2 d a = dot d a a.
Proof. intros d a. apply sqrt_sqrt. apply dot_nonneg. Qed.

Lemma sumn_ext : forall n f g, (forall k, (k < n)%nat -> f k = g k) -> sumn n f = sumn n g.
Proof.
  induction n as [|n IH]; intros f g H; cbn; [reflexivity|].
  rewrite (IH f g); [|intros k L; apply H; lia]. rewrite H by lia. reflexivity.
Qed.
Lemma sumn_scal : forall n c f, sumn n (fun k => c * f k) = c * sumn n f.
Proof. induction n as [|n IH]; intros c f; cbn; [lra|]. rewrite IH. lra. Qed.
Lemma sumn_scal_r : forall n c f, sumn n (fun k => f k * c) = sumn n f * c.
Proof. induction n as [|n IH]; intros c f; cbn; [lra|]. rewrite IH. lra. Qed.
Lemma sumn_add : forall n f g, sumn n (fun k => f k + g k) = sumn n f + sumn n g.
Proof. induction n as [|n IH]; intros f g; cbn; [lra|]. rewrite IH. lra. Qed.
Lemma sumn_sumto : forall n f, sumn n f = sumto n f.
Proof. induction n as [|n IH]; intros f; cbn; [reflexivity|]. rewrite IH. reflexivity. Qed.

(** The weight times the unit normal is the unscaled normal times the
    reference weight. *)
Lemma wt_raw : forall c X s q, (cdim c = 2 \/ cdim c = 3)%nat ->
  side_wt c X s q = norm2 (cdim c) (side_raw c X s (fst q)) * snd q.
Proof.
  intros c X s q [D|D]; unfold side_wt, side_raw; rewrite D; [rewrite norm_rot|]; reflexivity.
Qed.
Lemma wt_n : forall c X s q d, (cdim c = 2 \/ cdim c = 3)%nat ->
  norm2 (cdim c) (side_raw c X s (fst q)) <> 0 ->
  side_wt c X s q * side_n c X s q d = side_raw c X s (fst q) d * snd q.
Proof.
  intros c X s q d D N. rewrite (wt_raw c X s q D). unfold side_n. field. exact N.
Qed.

Lemma raw_quad : forall X s p,
  side_raw quad4 X s p = rotate (side_tangent quad4 X s p).
Proof. reflexivity. Qed.
Lemma raw_tri : forall X s p,
  side_raw tri3 X s p = rotate (side_tangent tri3 X s p).
Proof. reflexivity. Qed.

Lemma tan_quad : forall X s p d, (s < 4)%nat ->
  side_tangent quad4 X s p d = (X (Nat.modulo (s + 1) 4) d - X s d) / 2.
Proof.
  intros X s p d L. destruct s as [|[|[|[|s]]]]; [| | | |lia];
    cbn [Nat.modulo Nat.divmod Nat.add fst snd Nat.sub]; unf; destruct d as [|[|d]]; field.
Qed.
Lemma tan_tri : forall X s p d, (s < 3)%nat ->
  side_tangent tri3 X s p d = (X (Nat.modulo (s + 1) 3) d - X s d) / 2.
Proof.
  intros X s p d L. destruct s as [|[|[|s]]]; [| | |lia];
    cbn [Nat.modulo Nat.divmod Nat.add fst snd Nat.sub]; unf; destruct d as [|[|d]]; field.
Qed.

Lemma pos_quad : forall X s q d, (s < 4)%nat ->
  side_x quad4 X s q d = (X s d + X (Nat.modulo (s + 1) 4) d) / 2
                         + fst q 0%nat * ((X (Nat.modulo (s + 1) 4) d - X s d) / 2).
Proof.
  intros X s q d L. unfold side_x. destruct s as [|[|[|[|s]]]]; [| | | |lia];
    cbn [Nat.modulo Nat.divmod Nat.add fst snd Nat.sub]; unf; field.
Qed.
Lemma pos_tri : forall X s q d, (s < 3)%nat ->
  side_x tri3 X s q d = (X s d + X (Nat.modulo (s + 1) 3) d) / 2
                         + fst q 0%nat * ((X (Nat.modulo (s + 1) 3) d - X s d) / 2).
Proof.
  intros X s q d L. unfold side_x. destruct s as [|[|[|s]]]; [| | |lia];
    cbn [Nat.modulo Nat.divmod Nat.add fst snd Nat.sub]; unf; field.
Qed.

Lemma exact_line_affine : forall r a b, exact_line r ->
  quad_sum r (fun p => a + b * p 0%nat) = 2 * a.
Proof.
  intros r a b [E0 E1].
  rewrite (qs_ext r _ (fun p => a * 1 + b * p 0%nat)) by (intros; ring).
  rewrite qs_add, (qs_scal r a (fun _ => 1)), (qs_scal r b (fun p => p 0%nat)), E0, E1. ring.
Qed.
Lemma exact_quad_affine : forall r a b c, exact_quad r ->
  quad_sum r (fun p => a + b * p 0%nat + c * p 1%nat) = 4 * a.
Proof.
  intros r a b c [E0 [E1 E2]].
  rewrite (qs_ext r _ (fun p => (a * 1 + b * p 0%nat) + c * p 1%nat)) by (intros; ring).
  rewrite qs_add, qs_add, (qs_scal r a (fun _ => 1)), (qs_scal r b (fun p => p 0%nat)), (qs_scal r c (fun p => p 1%nat)), E0, E1, E2. ring.
Qed.

(** ** Polynomials over the cube, with symbolic coefficients *)
Definition mono := (nat * nat * nat * R)%type.
Definition ev1 (m : mono) (p : pt) : R :=
  let '(a, b, c, k) := m in k * (p 0%nat ^ a * p 1%nat ^ b * p 2%nat ^ c).
Fixpoint ev (l : list mono) (p : pt) : R :=
  match l with [] => 0 | m :: t => ev1 m p + ev t p end.
Definition m1 (x y : mono) : mono :=
  let '(a, b, c, k) := x in let '(a', b', c', k') := y in
  ((a + a')%nat, (b + b')%nat, (c + c')%nat, k * k').
Definition pmul (x y : list mono) : list mono := flat_map (fun m => map (m1 m) y) x.
Definition popp (x : list mono) : list mono :=
  map (fun m => let '(a, b, c, k) := m in (a, b, c, - k)) x.
Definition low (m : mono) : bool :=
  let '(a, b, c, _) := m in (Nat.leb a 2 && Nat.leb b 2 && Nat.leb c 2)%bool.
Fixpoint mom (l : list mono) : R :=
  match l with
  | [] => 0
  | (a, b, c, k) :: t => k * (moment a * moment b * moment c) + mom t
  end.
Fixpoint mom2 (l : list mono) : R :=
  match l with
  | [] => 0
  | (a, b, _, k) :: t => k * (moment a * moment b) + mom2 t
  end.

Definition imoment (a : nat) : R := match a with 0%nat => 3 | 1%nat => 0 | _ => 1 end.
Fixpoint imom (l : list mono) : R :=
  match l with
  | [] => 0
  | (a, b, c, k) :: t => k * (imoment a * imoment b * imoment c) + imom t
  end.
Fixpoint imom2 (l : list mono) : R :=
  match l with
  | [] => 0
  | (a, b, _, k) :: t => k * (imoment a * imoment b) + imom2 t
  end.
Lemma moment_i : forall a, moment a = 2/3 * imoment a.
Proof. intros [|[|a]]; cbn; lra. Qed.
Lemma mom_imom : forall l, mom l = 8/27 * imom l.
Proof. induction l as [|[[[a b] c] k] l IH]; cbn [mom imom]; [ring|]. rewrite IH, !moment_i. field. Qed.
Lemma mom2_imom : forall l, mom2 l = 4/9 * imom2 l.
Proof. induction l as [|[[[a b] c] k] l IH]; cbn [mom2 imom2]; [ring|]. rewrite IH, !moment_i. field. Qed.

Lemma ev_app : forall x y p, ev (x ++ y) p = ev x p + ev y p.
Proof. induction x as [|m x IH]; intros y p; cbn; [lra|]. rewrite IH. lra. Qed.
Lemma ev_m1 : forall x y p, ev1 (m1 x y) p = ev1 x p * ev1 y p.
Proof.
  intros [[[a b] c] k] [[[a' b'] c'] k'] p. cbn. rewrite !pow_add. ring.
Qed.
Lemma ev_map_m1 : forall m y p, ev (map (m1 m) y) p = ev1 m p * ev y p.
Proof. intros m y p. induction y as [|n y IH]; cbn [map ev]; [ring|]. rewrite IH, ev_m1. ring. Qed.
Lemma ev_mul : forall x y p, ev (pmul x y) p = ev x p * ev y p.
Proof.
  intros x y p. unfold pmul. induction x as [|m x IH]; cbn [flat_map ev]; [ring|].
  rewrite ev_app, IH, ev_map_m1. ring.
Qed.
Lemma ev_opp : forall x p, ev (popp x) p = - ev x p.
Proof. intros x p. unfold popp. induction x as [|[[[a b] c] k] x IH]; cbn [map ev ev1]; [ring|]. rewrite IH. ring. Qed.

Lemma hex_integral : forall r l, exact_hex r -> forallb low l = true ->
  quad_sum r (ev l) = mom l.
Proof.
  intros r l E. induction l as [|[[[a b] c] k] l IH]; intros L; cbn [mom].
  - rewrite (qs_ext r _ (fun _ => 0)) by reflexivity. apply qs_zero.
  - cbn [forallb low] in L. apply Bool.andb_true_iff in L. destruct L as [L0 L].
    rewrite !Bool.andb_true_iff, !Nat.leb_le in L0. destruct L0 as [[La Lb] Lc].
    rewrite (qs_ext r _ (fun p => k * (p 0%nat ^ a * p 1%nat ^ b * p 2%nat ^ c) + ev l p)) by reflexivity.
    rewrite qs_add, (qs_scal r k), IH by exact L. rewrite (E a b c La Lb Lc). reflexivity.
Qed.
Lemma face_integral : forall r l, exact_face r -> forallb low l = true ->
  forallb (fun m => let '(_, _, c, _) := m in Nat.eqb c 0) l = true ->
  quad_sum r (ev l) = mom2 l.
Proof.
  intros r l E. induction l as [|[[[a b] c] k] l IH]; intros L Z; cbn [mom2].
  - rewrite (qs_ext r _ (fun _ => 0)) by reflexivity. apply qs_zero.
  - cbn [forallb low] in L, Z. apply Bool.andb_true_iff in L. destruct L as [L0 L].
    apply Bool.andb_true_iff in Z. destruct Z as [Z0 Z]. apply Nat.eqb_eq in Z0. subst c.
    rewrite !Bool.andb_true_iff, !Nat.leb_le in L0. destruct L0 as [[La Lb] _].
    rewrite (qs_ext r _ (fun p => k * (p 0%nat ^ a * p 1%nat ^ b) + ev l p))
      by (intros p; cbn [ev ev1]; cbn [pow]; ring).
    rewrite qs_add, (qs_scal r k), IH by assumption. rewrite (E a b La Lb). reflexivity.
Qed.

(** Monomial coefficients of the trilinear map. *)
Section Hex.
Variable X : nodes.
Definition co (sx sy sz : bool) (i : nat) : R :=
  let f (s : bool) (v : R) := if s then v else 1 in
  / 8 * (f sx (-1) * f sy (-1) * f sz (-1) * X 0%nat i + f sx 1 * f sy (-1) * f sz (-1) * X 1%nat i
       + f sx 1 * f sy 1 * f sz (-1) * X 2%nat i + f sx (-1) * f sy 1 * f sz (-1) * X 3%nat i
       + f sx (-1) * f sy (-1) * f sz 1 * X 4%nat i + f sx 1 * f sy (-1) * f sz 1 * X 5%nat i
       + f sx 1 * f sy 1 * f sz 1 * X 6%nat i + f sx (-1) * f sy 1 * f sz 1 * X 7%nat i).
Definition P (i : nat) : list mono :=
  [(0,0,0, co false false false i); (1,0,0, co true false false i); (0,1,0, co false true false i);
   (0,0,1, co false false true i); (1,1,0, co true true false i); (1,0,1, co true false true i);
   (0,1,1, co false true true i); (1,1,1, co true true true i)]%nat.
Definition Jp (i j : nat) : list mono :=
  match j with
  | 0%nat => [(0,0,0, co true false false i); (0,1,0, co true true false i);
              (0,0,1, co true false true i); (0,1,1, co true true true i)]%nat
  | 1%nat => [(0,0,0, co false true false i); (1,0,0, co true true false i);
              (0,0,1, co false true true i); (1,0,1, co true true true i)]%nat
  | _ => [(0,0,0, co false false true i); (1,0,0, co true false true i);
          (0,1,0, co false true true i); (1,1,0, co true true true i)]%nat
  end.
Lemma phys_P : forall p i, phys hex8 X p i = ev (P i) p.
Proof. intros p i. unf. cbv [P ev ev1 co pow]. field. Qed.
Lemma jac_P : forall p i j, jac hex8 X p i j = ev (Jp i j) p.
Proof.
  intros p i j. destruct j as [|[|j]]; unf; cbv [Jp ev ev1 co pow]; field.
Qed.
End Hex.

(** The same with abstract coefficients: K sx sy sz i. *)
Section Abstract.
Variable K : bool -> bool -> bool -> nat -> R.
Definition KP (i : nat) : list mono :=
  [(0,0,0, K false false false i); (1,0,0, K true false false i); (0,1,0, K false true false i);
   (0,0,1, K false false true i); (1,1,0, K true true false i); (1,0,1, K true false true i);
   (0,1,1, K false true true i); (1,1,1, K true true true i)]%nat.
Definition KJ (i j : nat) : list mono :=
  match j with
  | 0%nat => [(0,0,0, K true false false i); (0,1,0, K true true false i);
              (0,0,1, K true false true i); (0,1,1, K true true true i)]%nat
  | 1%nat => [(0,0,0, K false true false i); (1,0,0, K true true false i);
              (0,0,1, K false true true i); (1,0,1, K true true true i)]%nat
  | _ => [(0,0,0, K false false true i); (1,0,0, K true false true i);
          (0,1,0, K false true true i); (1,1,0, K true true true i)]%nat
  end.
Definition pdet : list mono :=
  pmul (KJ 0 0) (pmul (KJ 1 1) (KJ 2 2) ++ popp (pmul (KJ 1 2) (KJ 2 1)))
  ++ popp (pmul (KJ 0 1) (pmul (KJ 1 0) (KJ 2 2) ++ popp (pmul (KJ 1 2) (KJ 2 0))))
  ++ pmul (KJ 0 2) (pmul (KJ 1 0) (KJ 2 1) ++ popp (pmul (KJ 1 1) (KJ 2 0))).
Lemma pdet_low : forallb low pdet = true.
Proof. reflexivity. Qed.
Lemma ev_pdet : forall p, ev pdet p = det 3 (fun i j => ev (KJ i j) p).
Proof.
  intros p. unfold pdet. rewrite !ev_app, !ev_opp, !ev_mul, !ev_app, !ev_opp, !ev_mul.
  cbv [det]. ring.
Qed.

(** Substituting a face point into a polynomial of the cube: each of x, y, z
    becomes a signed parameter or a sign. *)
Inductive sub := U (s : R) | V (s : R) | C (s : R).
Definition subst1 (s : sub) (a : nat) : mono :=
  match s with
  | U s => (a, 0%nat, 0%nat, s ^ a)
  | V s => (0%nat, a, 0%nat, s ^ a)
  | C s => (0%nat, 0%nat, 0%nat, s ^ a)
  end.
Definition subm (sx sy sz : sub) (m : mono) : mono :=
  let '(a, b, c, k) := m in m1 (0, 0, 0, k)%nat (m1 (subst1 sx a) (m1 (subst1 sy b) (subst1 sz c))).
Definition psub (sx sy sz : sub) (l : list mono) := map (subm sx sy sz) l.
Definition sval (s : sub) (p : pt) : R :=
  match s with U s => s * p 0%nat | V s => s * p 1%nat | C s => s end.
Lemma ev_subst1 : forall s a p, ev1 (subst1 s a) p = sval s p ^ a.
Proof.
  intros [s|s|s] a p; cbn [subst1 ev1 sval]; rewrite ?Rpow_mult_distr; cbn [pow]; ring.
Qed.
Lemma ev_psub : forall sx sy sz l p,
  ev (psub sx sy sz l) p = ev l (mk (sval sx p) (sval sy p) (sval sz p)).
Proof.
  intros sx sy sz l p. unfold psub. induction l as [|[[[a b] c] k] l IH]; [reflexivity|].
  cbn [map ev]. rewrite IH. unfold subm. rewrite !ev_m1, !ev_subst1. cbn [ev1 mk]. cbn [pow]. ring.
Qed.

(** On each face: the substitution, the outward axis and its sign. *)
Definition fsub (s : nat) : sub * sub * sub :=
  match s with
  | 0%nat => (U 1, C (-1), V 1)
  | 1%nat => (C 1, U 1, V 1)
  | 2%nat => (U (-1), C 1, V 1)
  | 3%nat => (C (-1), V 1, U 1)
  | 4%nat => (V 1, U 1, C (-1))
  | _ => (U 1, V 1, C 1)
  end.
Definition fu (s : nat) : nat * R :=
  match s with 0%nat => (0%nat, 1) | 1%nat => (1%nat, 1) | 2%nat => (0%nat, -1)
             | 3%nat => (2%nat, 1) | 4%nat => (1%nat, 1) | _ => (0%nat, 1) end.
Definition fv (s : nat) : nat * R :=
  match s with 0%nat => (2%nat, 1) | 1%nat => (2%nat, 1) | 2%nat => (2%nat, 1)
             | 3%nat => (1%nat, 1) | 4%nat => (0%nat, 1) | _ => (1%nat, 1) end.
Definition onf (s : nat) (l : list mono) : list mono :=
  let '(a, b, c) := fsub s in psub a b c l.
Definition pscal (k : R) (l : list mono) := pmul [(0, 0, 0, k)%nat] l.
Definition ptan (w : nat * R) (s i : nat) : list mono := pscal (snd w) (onf s (KJ i (fst w))).
Definition pn (s i : nat) : list mono :=
  let u := ptan (fu s) s in let v := ptan (fv s) s in
  match i with
  | 0%nat => pmul (u 1%nat) (v 2%nat) ++ popp (pmul (u 2%nat) (v 1%nat))
  | 1%nat => pmul (u 2%nat) (v 0%nat) ++ popp (pmul (u 0%nat) (v 2%nat))
  | _ => pmul (u 0%nat) (v 1%nat) ++ popp (pmul (u 1%nat) (v 0%nat))
  end.
Definition pxn (s j i : nat) : list mono := pmul (onf s (KP j)) (pn s i).

Definition flat2 (l : list mono) : bool := forallb (fun m => let '(_, _, c, _) := m in Nat.eqb c 0) l.

Lemma pn_ok : forall s i, (s < 6)%nat -> (i < 3)%nat -> forallb low (pn s i) = true /\ flat2 (pn s i) = true.
Proof.
  intros s i Ls Li. destruct s as [|[|[|[|[|[|s]]]]]]; try lia;
  destruct i as [|[|[|i]]]; try lia; split; reflexivity.
Qed.
Lemma pxn_ok : forall s j i, (s < 6)%nat -> (j < 3)%nat -> (i < 3)%nat ->
  forallb low (pxn s j i) = true /\ flat2 (pxn s j i) = true.
Proof.
  intros s j i Ls Lj Li. destruct s as [|[|[|[|[|[|s]]]]]]; try lia;
  destruct j as [|[|[|j]]]; try lia; destruct i as [|[|[|i]]]; try lia; split; reflexivity.
Qed.

(** Integer multiples of the moments, so that the identities below are ring
    identities with integer coefficients. *)
Ltac expand := cbv [sumto imom2 imom pn pxn pdet ptan pscal onf psub subm subst1 fsub fu fv m1 pmul popp KP KJ
   flat_map map app fst snd imoment Nat.add pow].

Lemma iclosed_faces : forall i, (i < 3)%nat -> sumto 6 (fun s => imom2 (pn s i)) = 0.
Proof.
  intros i L. destruct i as [|[|[|i]]]; try lia; expand; ring.
Qed.
Lemma igauss0 : 3 * sumto 6 (fun s => imom2 (pxn s 0 0)) = 2 * imom pdet.
Proof. expand; ring. Qed.
Lemma igauss1 : 3 * sumto 6 (fun s => imom2 (pxn s 1 0)) = 0.
Proof. expand; ring. Qed.
Lemma igauss2 : 3 * sumto 6 (fun s => imom2 (pxn s 2 0)) = 0.
Proof. expand; ring. Qed.
End Abstract.

(** Renaming the coordinates cyclically gives the other components. *)
Definition rotK (K : bool -> bool -> bool -> nat -> R) : bool -> bool -> bool -> nat -> R :=
  fun a b c i => K a b c (match i with 0%nat => 1%nat | 1%nat => 2%nat | _ => 0%nat end).

Lemma rot_det : forall K, imom (pdet (rotK K)) = imom (pdet K).
Proof.
  intros K. cbv [imom pdet m1 pmul popp KJ flat_map map app imoment Nat.add rotK]. ring.
Qed.

Lemma igauss_faces : forall K j i, (j < 3)%nat -> (i < 3)%nat ->
  3 * sumto 6 (fun s => imom2 (pxn K s j i)) = if Nat.eqb i j then 2 * imom (pdet K) else 0.
Proof.
  intros K j i Lj Li.
  pose proof (rot_det K) as D1. pose proof (rot_det (rotK K)) as D2. rewrite D1 in D2.
  destruct i as [|[|[|i]]]; try lia.
  - destruct j as [|[|[|j]]]; try lia; [apply igauss0|apply igauss1|apply igauss2].
  - destruct j as [|[|[|j]]]; try lia.
    + exact (igauss2 (rotK K)).
    + cbn [Nat.eqb]. rewrite <- D1. exact (igauss0 (rotK K)).
    + exact (igauss1 (rotK K)).
  - destruct j as [|[|[|j]]]; try lia.
    + exact (igauss1 (rotK (rotK K))).
    + exact (igauss2 (rotK (rotK K))).
    + cbn [Nat.eqb]. rewrite <- D2. exact (igauss0 (rotK (rotK K))).
Qed.
Lemma closed_faces : forall K i, (i < 3)%nat -> sumto 6 (fun s => mom2 (pn K s i)) = 0.
Proof.
  intros K i L. transitivity (4/9 * sumto 6 (fun s => imom2 (pn K s i))).
  - cbn [sumto]. rewrite !mom2_imom. ring.
  - rewrite (iclosed_faces K i L). ring.
Qed.
Lemma gauss_faces : forall K j i, (j < 3)%nat -> (i < 3)%nat ->
  sumto 6 (fun s => mom2 (pxn K s j i)) = if Nat.eqb i j then mom (pdet K) else 0.
Proof.
  intros K j i Lj Li. pose proof (igauss_faces K j i Lj Li) as G.
  transitivity (4/9 * sumto 6 (fun s => imom2 (pxn K s j i))).
  - cbn [sumto]. rewrite !mom2_imom. ring.
  - destruct (Nat.eqb i j); [rewrite mom_imom|]; lra.
Qed.
