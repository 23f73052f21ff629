(** C256 (potentials at a fixed frequency), C257 (their rates), C258 (permeability and its
    inverse). *)
From Coq Require Import Bool Arith Lia Reals Lra String List.
From Verif Require Import Sparse_Model Sparse_Props Mass_Model Mass_Props BProj_Model BProj_Proofs Phys_Model Phys_Spec Phys_Proofs Phys_Tac Init_Props Kinetic_Props MaxFP_Model.
Import ListNotations.
Local Open Scope R_scope.

(** *** Complex numbers *)
Definition cx : Set := (R * R)%type.
Definition cadd (a b : cx) : cx := (fst a + fst b, snd a + snd b).
Definition csub (a b : cx) : cx := (fst a - fst b, snd a - snd b).
Definition cmul (a b : cx) : cx := (fst a * fst b - snd a * snd b, fst a * snd b + snd a * fst b).
Definition cscal (r : R) (a : cx) : cx := (r * fst a, r * snd a).
Definition csm {A} (l : list A) (f : A -> cx) : cx := (sm l (fun x => fst (f x)), sm l (fun x => snd (f x))).
Definition iu : cx := (0, 1).
Definition csumd (w : wks) (f : nat -> cx) : cx := csm (seq 0 (dim w)) f.

(** The potentials and their derivatives as complex fields *)
Definition field (w : wks) (r i : string) (k : nat) : cx := (fld w r k, fld w i k).
Definition dfield (w : wks) (r i : string) (e k : nat) : cx := (grad w r e k, grad w i e k).
Definition Ar (d : nat) : string := ("Ar" ++ axis d)%string.
Definition Ai (d : nat) : string := ("Ai" ++ axis d)%string.
Definition A (w : wks) (d k : nat) : cx := field w (Ar d) (Ai d) k.
Definition dA (w : wks) (d e k : nat) : cx := dfield w (Ar d) (Ai d) e k.
Definition phi (w : wks) (k : nat) : cx := field w "phir" "phii" k.
Definition dphi (w : wks) (e k : nat) : cx := dfield w "phir" "phii" e k.

(** The medium: frequency, permittivity, permeability and the inverse of the latter at a point *)
Record medium := { om : R; eps : nat -> cx; mu : nat -> cx; nu : nat -> cx }.
Definition fp_medium (s : fp_set) (w : wks) : medium := {| om := match freq s with Some o => o | None => 0 end;
  eps := fun k => fp_eps s (fld w "x" k) (if (2 <=? dim w)%nat then fld w "y" k else 0);
  mu := fun k => fp_mu s (fld w "x" k); nu := fun k => fp_invmu s (fld w "x" k) |}.

(** nu (curl A, curl v e_d) + nu (div A, d v/dx_d) - omega^2 eps A_d v - i omega eps (dphi/dx_d v + phi dv/dx_d) - J_d v *)
Definition vector_form (m : medium) (j : sources) (w : wks) (b i d k : nat) : cx :=
  let v := bas w b i k in let dv := bgr w b i k in
  csub (csub (csub (cmul (nu m k) (cadd (csumd w (fun e => cscal (dv e) (csub (dA w d e k) (dA w e d k)))) (cscal (dv d) (csumd w (fun e => dA w e e k)))))
                   (cscal (om m * om m * v) (cmul (eps m k) (A w d k))))
             (cmul iu (cscal (om m) (cmul (eps m k) (cadd (cscal v (dphi w d k)) (cscal (dv d) (phi w k)))))))
       (cscal v (cur j d k)).
(** eps (grad phi, grad v) - omega^2 eps^2 mu phi v - i omega eps (A . grad v + v div A) - rho v *)
Definition scalar_form (m : medium) (j : sources) (w : wks) (b i k : nat) : cx :=
  let v := bas w b i k in let dv := bgr w b i k in
  csub (csub (csub (cmul (eps m k) (csumd w (fun e => cscal (dv e) (dphi w e k))))
                   (cscal (om m * om m * v) (cmul (cmul (cmul (eps m k) (eps m k)) (mu m k)) (phi w k))))
             (cmul iu (cscal (om m) (cmul (eps m k) (csumd w (fun e => cadd (cscal (dv e) (A w e k)) (cscal v (dA w e e k))))))))
       (cscal v (chg j k)).
(** The complex test function attached to dof i is (1 + i) times the real one. *)
Definition one_i : cx := (1, 1).
Definition cintegral (w : wks) (f : nat -> cx) : cx := csm (seq 0 (npts w)) (fun k => cscal (wt w k) (f k)).
Definition rows_are (w : wks) (res : nat -> R) (vr vi : string) (f : nat -> nat -> nat -> cx) : Prop :=
  forall n m i, is_var w n vr -> is_var w m vi -> (i < nbas w (usebasis w n))%nat ->
    (res (offs w n i), res (offs w m i)) = cintegral w (fun k => cmul one_i (f (usebasis w n) i k)).

Definition fp_vars (d : nat) : list string := flat_map (fun e => [Ar e; Ai e]) (seq 0 d) ++ ["phir"; "phii"]%string.
(** All unknowns of the module use one basis, as it asks. *)
Definition same_basis (w : wks) : Prop := forall n m u v, is_var w n u -> is_var w m v -> In u (fp_vars (dim w)) -> In v (fp_vars (dim w)) -> usebasis w n = usebasis w m.
Record potentials (w : wks) : Prop := { po_wf : wf w; po_vars : forall v, In v (fp_vars (dim w)) -> In v (varlist w); po_basis : same_basis w }.
Definition harmonic (w : wks) : Prop := forall v k, In v (fp_vars (dim w)) -> (k < npts w)%nat -> fld w (v ++ "_t")%string k = 0.

(** *** C256 *)
Definition C256_potentials : Prop := forall s j w, potentials w -> harmonic w ->
  (forall d, (d < dim w)%nat -> rows_are w (residual (fp_volume s j w)) (Ar d) (Ai d) (fun b i k => vector_form (fp_medium s w) j w b i d k)) /\
  rows_are w (residual (fp_volume s j w)) "phir" "phii" (fun b i k => scalar_form (fp_medium s w) j w b i k) /\
  only_rows w (residual (fp_volume s j w)) (fp_vars (dim w)).

Definition fp_all (d : nat) : list (string * (vals -> tests -> coefs -> R)) :=
  ([("Arx", row_Axr); ("Aix", row_Axi); ("phir", row_phir); ("phii", row_phii)] ++
   (if (2 <=? d)%nat then [("Ary", row_Ayr); ("Aiy", row_Ayi)] else []) ++ (if (3 <=? d)%nat then [("Arz", row_Azr); ("Aiz", row_Azi)] else []))%list%string.
Lemma fp_steady_all s j w : fp_steady s j w = flat_map (fun q => fp_row s j w (fst q) (snd q)) (fp_all (dim w)).
Proof. unfold fp_steady, fp_all. destruct (2 <=? dim w)%nat, (3 <=? dim w)%nat; cbn [app flat_map fst snd]; rewrite ?app_nil_r, <- ?app_assoc; reflexivity. Qed.
Lemma fp_all_nodup d : NoDup (map fst (fp_all d)).
Proof. unfold fp_all. destruct (2 <=? d)%nat, (3 <=? d)%nat; cbn; repeat constructor; cbn; intuition discriminate. Qed.
Lemma fp_all_vars d q : (1 <= d <= 3)%nat -> In q (fp_all d) -> In (fst q) (fp_vars d).
Proof.
  intros D. assert (d = 1 \/ d = 2 \/ d = 3)%nat as [-> | [-> | ->]] by lia; cbn; intuition (subst; cbn; auto 10).
Qed.
Lemma at_flat {B} (f : B -> list (nat * R)) l r : at_row r (flat_map f l) = sm l (fun x => at_row r (f x)).
Proof. induction l as [| x l IH]; [reflexivity |]. cbn [flat_map]. rewrite at_row_app, sm_cons, IH. reflexivity. Qed.
Lemma fst_nodup {B} (l : list (string * B)) x y : NoDup (map fst l) -> In x l -> In y l -> fst x = fst y -> x = y.
Proof.
  induction l as [| a l IH]; intros N Ix Iy E; [destruct Ix |]. cbn in N. inversion N as [| ? ? N1 N2]; subst.
  destruct Ix as [-> | Ix], Iy as [-> | Iy]; auto; exfalso; apply N1; [rewrite E | rewrite <- E]; apply in_map; assumption.
Qed.
Lemma fp_dim w : potentials w -> (1 <= dim w <= 3)%nat.
Proof. intros P. apply (wf_dim w (po_wf w P)). Qed.
Lemma phir_in d : In "phir"%string (fp_vars d).
Proof. unfold fp_vars. apply in_or_app. right. cbn. auto. Qed.
Lemma phii_in d : In "phii"%string (fp_vars d).
Proof. unfold fp_vars. apply in_or_app. right. cbn. auto. Qed.
Lemma steady_own s j w n v r i : potentials w -> In (v, r) (fp_all (dim w)) -> is_var w n v -> (i < nbas w (usebasis w n))%nat ->
  at_row (offs w n i) (fp_steady s j w) = sm (seq 0 (npts w)) (fun k => r (gathered w k) (testing w (usebasis w n) (usebasis w n) i k) (coefficients s j w k)).
Proof.
  intros P I Hn Hi. rewrite fp_steady_all, at_flat. pose proof (po_wf w P) as W. pose proof (fp_dim w P) as D.
  destruct (nth_var _ _ (po_vars w P "phir" (phir_in _))) as [a Ha]. destruct (nth_var _ _ (po_vars w P "phii" (phii_in _))) as [c Hc].
  pose proof (fp_all_vars _ _ D I) as Iv. cbn [fst] in Iv.
  assert (usebasis w a = usebasis w n) as Ua by (apply (po_basis w P _ _ "phir"%string v Ha Hn (phir_in _) Iv)).
  assert (usebasis w c = usebasis w n) as Uc by (apply (po_basis w P _ _ "phii"%string v Hc Hn (phii_in _) Iv)).
  rewrite (sm_one _ _ (v, r)); [| apply (NoDup_map_inv fst), fp_all_nodup | exact I |].
  - cbn [fst snd]. unfold fp_row. rewrite (var_num_is _ a _ 0 W Ha), (var_num_is _ c _ 0 W Hc), (var_num_is _ n _ 0 W Hn). cbv zeta.
    rewrite (fill_own w a _ n i W ltac:(lt_var) Hi Ua). rewrite Ua, Uc. reflexivity.
  - intros [u q] Iu N. destruct (nth_var _ _ (po_vars w P u (fp_all_vars _ _ D Iu))) as [m Hm]. cbn [fst snd]. unfold fp_row.
    rewrite (var_num_is _ a _ 0 W Ha), (var_num_is _ m _ 0 W Hm). cbv zeta.
    apply fill_other; auto; try lt_var.
    + intros <-. apply N. apply (fst_nodup _ _ _ (fp_all_nodup _) Iu I). exact (is_var_inj _ _ _ _ Hm Hn).
    + apply (po_basis w P _ _ "phir"%string u Ha Hm (phir_in _) (fp_all_vars _ _ D Iu)).
Qed.
Lemma steady_other s j w n v i : potentials w -> is_var w n v -> ~ In v (fp_vars (dim w)) -> (i < nbas w (usebasis w n))%nat ->
  at_row (offs w n i) (fp_steady s j w) = 0.
Proof.
  intros P Hn Nv Hi. rewrite fp_steady_all, at_flat. pose proof (po_wf w P) as W. pose proof (fp_dim w P) as D.
  destruct (nth_var _ _ (po_vars w P "phir" (phir_in _))) as [a Ha].
  apply sm_zero. intros [u q] Iu. destruct (nth_var _ _ (po_vars w P u (fp_all_vars _ _ D Iu))) as [m Hm]. cbn [fst snd]. unfold fp_row.
  rewrite (var_num_is _ a _ 0 W Ha), (var_num_is _ m _ 0 W Hm). cbv zeta.
  apply fill_other; auto; try lt_var.
  - intros <-. apply Nv. rewrite (is_var_inj _ _ _ _ Hn Hm). exact (fp_all_vars _ _ D Iu).
  - apply (po_basis w P _ _ "phir"%string u Ha Hm (phir_in _) (fp_all_vars _ _ D Iu)).
Qed.
(** *** The algebra at one point: the code's local variables read as complex numbers *)
Definition gA (p : vals) (d : nat) : cx := match d with 0%nat => (Axr p, Axi p) | 1%nat => (Ayr p, Ayi p) | _ => (Azr p, Azi p) end.
Definition gdA (p : vals) (d e : nat) : cx := match d, e with
  | 0%nat, 0%nat => (dAxrdx p, dAxidx p) | 0%nat, 1%nat => (dAxrdy p, dAxidy p) | 0%nat, _ => (dAxrdz p, dAxidz p)
  | 1%nat, 0%nat => (dAyrdx p, dAyidx p) | 1%nat, 1%nat => (dAyrdy p, dAyidy p) | 1%nat, _ => (dAyrdz p, dAyidz p)
  | _, 0%nat => (dAzrdx p, dAzidx p) | _, 1%nat => (dAzrdy p, dAzidy p) | _, _ => (dAzrdz p, dAzidz p) end.
Definition gdphi (p : vals) (e : nat) : cx := match e with 0%nat => (dphirdx p, dphiidx p) | 1%nat => (dphirdy p, dphiidy p) | _ => (dphirdz p, dphiidz p) end.
Definition gJ (c : coefs) (d : nat) : cx := match d with 0%nat => (Jxr c, Jxi c) | 1%nat => (Jyr c, Jyi c) | _ => (Jzr c, Jzi c) end.
Definition gdv (t : tests) (e : nat) : R := match e with 0%nat => dvrdx t | 1%nat => dvrdy t | _ => dvrdz t end.
Definition csum3 (f : nat -> cx) : cx := cadd (cadd (f 0%nat) (f 1%nat)) (f 2%nat).
Definition VF (p : vals) (t : tests) (c : coefs) (d : nat) : cx :=
  csub (csub (csub (cmul (invmur c, invmui c) (cadd (csum3 (fun e => cscal (gdv t e) (csub (gdA p d e) (gdA p e d)))) (cscal (gdv t d) (csum3 (fun e => gdA p e e)))))
                   (cscal (omega c * omega c * vr t) (cmul (epsr c, epsi c) (gA p d))))
             (cmul iu (cscal (omega c) (cmul (epsr c, epsi c) (cadd (cscal (vr t) (gdphi p d)) (cscal (gdv t d) (phir p, phii p)))))))
       (cscal (vr t) (gJ c d)).
Definition SF (p : vals) (t : tests) (c : coefs) : cx :=
  csub (csub (csub (cmul (epsr c, epsi c) (csum3 (fun e => cscal (gdv t e) (gdphi p e))))
                   (cscal (omega c * omega c * vr t) (cmul (cmul (cmul (epsr c, epsi c) (epsr c, epsi c)) (mur c, mui c)) (phir p, phii p))))
             (cmul iu (cscal (omega c) (cmul (epsr c, epsi c) (csum3 (fun e => cadd (cscal (gdv t e) (gA p e)) (cscal (vr t) (gdA p e e))))))))
       (cscal (vr t) (chg {| cur := fun _ _ => (0, 0); chg := fun _ => (rhor c, rhoi c) |} 0%nat)).
Definition rows_of (d : nat) : (vals -> tests -> coefs -> R) * (vals -> tests -> coefs -> R) :=
  match d with 0%nat => (row_Axr, row_Axi) | 1%nat => (row_Ayr, row_Ayi) | _ => (row_Azr, row_Azi) end.
(** One real function in both parts *)
Definition real_test (t : tests) : Prop := vi t = vr t /\ dvidx t = dvrdx t /\ dvidy t = dvrdy t /\ dvidz t = dvrdz t.
Lemma split_fst n a b p q r : fst (cmul one_i (csub (csub (csub (cmul n (cadd a b)) p) q) r)) =
  fst (cmul one_i (cmul n a)) + fst (cmul one_i (cmul n b)) - fst (cmul one_i p) - fst (cmul one_i q) - fst (cmul one_i r).
Proof. unfold cmul, cadd, csub, one_i. cbn. ring. Qed.
Lemma split_snd n a b p q r : snd (cmul one_i (csub (csub (csub (cmul n (cadd a b)) p) q) r)) =
  snd (cmul one_i (cmul n a)) + snd (cmul one_i (cmul n b)) - snd (cmul one_i p) - snd (cmul one_i q) - snd (cmul one_i r).
Proof. unfold cmul, cadd, csub, one_i. cbn. ring. Qed.
Lemma split_fst' a p q r : fst (cmul one_i (csub (csub (csub a p) q) r)) = fst (cmul one_i a) - fst (cmul one_i p) - fst (cmul one_i q) - fst (cmul one_i r).
Proof. unfold cmul, csub, one_i. cbn. ring. Qed.
Lemma split_snd' a p q r : snd (cmul one_i (csub (csub (csub a p) q) r)) = snd (cmul one_i a) - snd (cmul one_i p) - snd (cmul one_i q) - snd (cmul one_i r).
Proof. unfold cmul, csub, one_i. cbn. ring. Qed.
Lemma eq5p a b c d e a' b' c' d' e' : a = a' -> b = b' -> c = c' -> d = - d' -> e = e' -> a + b - c + d - e = a' + b' - c' - d' - e'.
Proof. intros -> -> -> -> ->. ring. Qed.
Lemma eq5m a b c d e a' b' c' d' e' : a = a' -> b = b' -> c = c' -> d = d' -> e = e' -> a + b - c - d - e = a' + b' - c' - d' - e'.
Proof. intros -> -> -> -> ->. ring. Qed.
Lemma eq4p a c d e a' c' d' e' : a = a' -> c = c' -> d = - d' -> e = e' -> a - c + d - e = a' - c' - d' - e'.
Proof. intros -> -> -> ->. ring. Qed.
Lemma eq4m a c d e a' c' d' e' : a = a' -> c = c' -> d = d' -> e = e' -> a - c - d - e = a' - c' - d' - e'.
Proof. intros -> -> -> ->. ring. Qed.
Ltac alg := unfold csum3, cmul, cadd, csub, cscal, one_i, iu, gA, gdA, gdphi, gJ, gdv; cbn; ring.
Lemma VF_rows p t c d : real_test t -> (d < 3)%nat ->
  fst (rows_of d) p t c = fst (cmul one_i (VF p t c d)) /\ snd (rows_of d) p t c = snd (cmul one_i (VF p t c d)).
Proof.
  intros (T1 & T2 & T3 & T4) L. destruct t as [a b dax day daz dbx dby dbz]. cbn in T1, T2, T3, T4. subst.
  unfold VF. rewrite split_fst, split_snd. destruct p, c.
  assert (d = 0 \/ d = 1 \/ d = 2)%nat as [-> | [-> | ->]] by lia; unfold rows_of, row_Axr, row_Axi, row_Ayr, row_Ayi, row_Azr, row_Azi; split; cbn [fst snd];
    first [apply eq5p | apply eq5m]; alg.
Qed.
Lemma SF_rows p t c : real_test t -> row_phir p t c = fst (cmul one_i (SF p t c)) /\ row_phii p t c = snd (cmul one_i (SF p t c)).
Proof.
  intros (T1 & T2 & T3 & T4). destruct t as [a b dax day daz dbx dby dbz]. cbn in T1, T2, T3, T4. subst.
  unfold SF. rewrite split_fst', split_snd'. destruct p, c. unfold row_phir, row_phii. split; first [apply eq4p | apply eq4m]; alg.
Qed.
Lemma testing_real w b i k : real_test (testing w b b i k).
Proof. repeat split. Qed.
Lemma csumd_3 w f g : wf w -> (forall e, (e < dim w)%nat -> g e = f e) -> (forall e, (dim w <= e < 3)%nat -> g e = (0, 0)) -> csumd w f = csum3 g.
Proof.
  intros W F Z. unfold csumd, csm, csum3, cadd. pose proof (wf_dim w W) as D. destruct (dims w W) as [E | [E | E]]; rewrite E in *; cbn [seq]; rewrite !sm_cons, !sm_nil.
  - rewrite (Z 1%nat), (Z 2%nat), (F 0%nat) by lia. cbn [fst snd]. f_equal; ring.
  - rewrite (Z 2%nat), (F 0%nat), (F 1%nat) by lia. cbn [fst snd]. f_equal; ring.
  - rewrite (F 0%nat), (F 1%nat), (F 2%nat) by lia. cbn [fst snd]. f_equal; ring.
Qed.
(** What is gathered is what the spec reads. *)
Lemma gA_is w d k : (d < dim w)%nat -> (d < 3)%nat -> gA (gathered w k) d = A w d k.
Proof.
  intros L M. assert (d = 0 \/ d = 1 \/ d = 2)%nat as [-> | [-> | ->]] by lia; unfold gA, A, field, Ar, Ai, axis; cbn [append gathered Axr Axi Ayr Ayi Azr Azi];
    unfold fd; rewrite (proj2 (Nat.leb_le _ _)) by lia; reflexivity.
Qed.
Lemma gA_zero w d k : (dim w <= d < 3)%nat -> (1 <= dim w)%nat -> gA (gathered w k) d = (0, 0).
Proof.
  intros L M. assert (d = 1 \/ d = 2)%nat as [-> | ->] by lia; unfold gA; cbn [gathered Axr Axi Ayr Ayi Azr Azi]; unfold fd; rewrite (proj2 (Nat.leb_gt _ _)) by lia; reflexivity.
Qed.
Lemma gdA_is w d e k : (d < dim w)%nat -> (e < dim w)%nat -> (d < 3)%nat -> (e < 3)%nat -> gdA (gathered w k) d e = dA w d e k.
Proof.
  intros L L' M M'. assert (d = 0 \/ d = 1 \/ d = 2)%nat as [-> | [-> | ->]] by lia; assert (e = 0 \/ e = 1 \/ e = 2)%nat as [-> | [-> | ->]] by lia;
    unfold gdA, dA, dfield, Ar, Ai, grad, gradname, bracket, axis; cbn [append gathered dAxrdx dAxrdy dAxrdz dAxidx dAxidy dAxidz dAyrdx dAyrdy dAyrdz dAyidx dAyidy dAyidz dAzrdx dAzrdy dAzrdz dAzidx dAzidy dAzidz];
    unfold fd; rewrite (proj2 (Nat.leb_le _ _)) by lia; reflexivity.
Qed.
Lemma gdA_zero w d k : (dim w <= d < 3)%nat -> (1 <= dim w)%nat -> gdA (gathered w k) d d = (0, 0).
Proof.
  intros L M. assert (d = 1 \/ d = 2)%nat as [-> | ->] by lia; unfold gdA; cbn [gathered dAyrdy dAyidy dAzrdz dAzidz]; unfold fd; rewrite (proj2 (Nat.leb_gt _ _)) by lia; reflexivity.
Qed.
Lemma gdphi_is w e k : (e < dim w)%nat -> (e < 3)%nat -> gdphi (gathered w k) e = dphi w e k.
Proof.
  intros L M. assert (e = 0 \/ e = 1 \/ e = 2)%nat as [-> | [-> | ->]] by lia; unfold gdphi, dphi, dfield, grad, gradname, bracket, axis; cbn [append gathered dphirdx dphirdy dphirdz dphiidx dphiidy dphiidz];
    unfold fd; rewrite (proj2 (Nat.leb_le _ _)) by lia; reflexivity.
Qed.
Lemma gdv_is w b i e k : (e < dim w)%nat -> (e < 3)%nat -> gdv (testing w b b i k) e = bgr w b i k e.
Proof.
  intros L M. assert (e = 0 \/ e = 1 \/ e = 2)%nat as [-> | [-> | ->]] by lia; unfold gdv; cbn [testing dvrdx dvrdy dvrdz]; [reflexivity | |];
    rewrite (proj2 (Nat.leb_le _ _)) by lia; reflexivity.
Qed.
Lemma gdv_zero w b i e k : (dim w <= e < 3)%nat -> (1 <= dim w)%nat -> gdv (testing w b b i k) e = 0.
Proof. intros L M. assert (e = 1 \/ e = 2)%nat as [-> | ->] by lia; unfold gdv; cbn [testing dvrdy dvrdz]; rewrite (proj2 (Nat.leb_gt _ _)) by lia; reflexivity. Qed.
Lemma gJ_is s j w d k : (d < dim w)%nat -> (d < 3)%nat -> gJ (coefficients s j w k) d = cur j d k.
Proof.
  intros L M. assert (d = 0 \/ d = 1 \/ d = 2)%nat as [-> | [-> | ->]] by lia; unfold gJ, coefficients; cbv zeta; cbn [Jxr Jxi Jyr Jyi Jzr Jzi];
    [| rewrite (proj2 (Nat.leb_le _ _)) by lia .. ]; symmetry; apply surjective_pairing.
Qed.
Lemma cscal0 a : cscal 0 a = (0, 0).
Proof. unfold cscal. f_equal; ring. Qed.
Lemma cscal00 r : cscal r (0, 0) = (0, 0).
Proof. unfold cscal. cbn. f_equal; ring. Qed.
Lemma fd1 w n k : (1 <= dim w)%nat -> fd w 1 n k = fld w n k.
Proof. intros D. unfold fd. rewrite (proj2 (Nat.leb_le _ _)) by lia. reflexivity. Qed.
Lemma coef_medium s j w k : (1 <= dim w)%nat -> let c := coefficients s j w k in let m := fp_medium s w in
  omega c = om m /\ (epsr c, epsi c) = eps m k /\ (mur c, mui c) = mu m k /\ (invmur c, invmui c) = nu m k.
Proof.
  intros D. cbv zeta. unfold coefficients, fp_medium. cbv zeta. cbn [omega epsr epsi mur mui invmur invmui om eps mu nu]. rewrite fd1 by exact D.
  repeat split; try (symmetry; apply surjective_pairing).
Qed.
Lemma vector_point s j w b i d k : wf w -> (d < dim w)%nat -> VF (gathered w k) (testing w b b i k) (coefficients s j w k) d = vector_form (fp_medium s w) j w b i d k.
Proof.
  intros W L. pose proof (wf_dim w W) as D. destruct (coef_medium s j w k ltac:(lia)) as (O & Ee & M & N). unfold VF, vector_form. cbv zeta. rewrite O, Ee, N.
  rewrite gJ_is, gA_is, gdphi_is, gdv_is by lia. change (vr (testing w b b i k)) with (bas w b i k).
  rewrite (csumd_3 w _ (fun e => cscal (gdv (testing w b b i k) e) (csub (gdA (gathered w k) d e) (gdA (gathered w k) e d))) W);
    [| intros e He; rewrite gdv_is, !gdA_is by lia; reflexivity | intros e He; rewrite gdv_zero by lia; apply cscal0].
  rewrite (csumd_3 w (fun e => dA w e e k) (fun e => gdA (gathered w k) e e) W);
    [| intros e He; rewrite !gdA_is by lia; reflexivity | intros e He; apply gdA_zero; lia].
  unfold phi, field. cbn [gathered phir phii]. rewrite !fd1 by lia. reflexivity.
Qed.
Lemma scalar_point s j w b i k : wf w -> SF (gathered w k) (testing w b b i k) (coefficients s j w k) = scalar_form (fp_medium s w) j w b i k.
Proof.
  intros W. pose proof (wf_dim w W) as D. destruct (coef_medium s j w k ltac:(lia)) as (O & Ee & M & N). unfold SF, scalar_form. cbv zeta. rewrite O, Ee, M.
  change (vr (testing w b b i k)) with (bas w b i k).
  rewrite (csumd_3 w _ (fun e => cscal (gdv (testing w b b i k) e) (gdphi (gathered w k) e)) W);
    [| intros e He; rewrite gdv_is, gdphi_is by lia; reflexivity | intros e He; rewrite gdv_zero by lia; apply cscal0].
  rewrite (csumd_3 w _ (fun e => cadd (cscal (gdv (testing w b b i k) e) (gA (gathered w k) e)) (cscal (bas w b i k) (gdA (gathered w k) e e))) W);
    [| intros e He; rewrite gdv_is, gA_is, gdA_is by lia; reflexivity
     | intros e He; rewrite gdv_zero, gdA_zero by lia; rewrite cscal0, cscal00; unfold cadd; cbn; f_equal; ring].
  unfold phi, field. cbn [gathered phir phii chg]. rewrite !fd1 by lia.
  replace (rhor (coefficients s j w k), rhoi (coefficients s j w k)) with (chg j k) by (symmetry; unfold coefficients; cbv zeta; cbn [rhor rhoi]; symmetry; apply surjective_pairing).
  reflexivity.
Qed.

(** The rates vanish *)
Lemma rates_zero w r : potentials w -> harmonic w -> at_row r (fp_rates w) = 0.
Proof.
  intros P H. pose proof (fp_dim w P) as D. unfold fp_rates. cbv zeta. rewrite at_flat. apply sm_zero. intros k K. apply in_seq in K. rewrite at_flat. apply sm_zero. intros i _.
  assert (forall v, In v (fp_vars (dim w)) -> fld w (v ++ "_t")%string k = 0) as Z by (intros v Iv; apply H; [exact Iv | lia]).
  pose proof (Z "phir"%string (phir_in _)) as Z1. pose proof (Z "phii"%string (phii_in _)) as Z2. cbn [append] in Z1, Z2.
  assert (In "Arx"%string (fp_vars (dim w)) /\ In "Aix"%string (fp_vars (dim w))) as [I1 I2]
    by (destruct (dims w (po_wf w P)) as [E | [E | E]]; rewrite E; cbn; auto).
  pose proof (Z _ I1) as Z3. pose proof (Z _ I2) as Z4. cbn [append] in Z3, Z4.
  assert (forall a, at_row r [(a, 0)] = 0) as Zr by (intros a; unfold at_row, pick; rewrite sm_cons, sm_nil; cbn [fst snd]; repeat (match goal with |- context [if ?b then _ else _] => destruct b end); ring).
  rewrite !at_row_app, !at_row_if, !at_row_nil, Z1, Z2, Z3, Z4.
  assert (forall a x y, at_row r [(a, 0 * x - 0 * y); (S a, 0 * y + 0 * x)] = 0) as Zp.
  { intros a x y. change [(a, 0 * x - 0 * y); (S a, 0 * y + 0 * x)] with ([(a, 0 * x - 0 * y)] ++ [(S a, 0 * y + 0 * x)])%list. rewrite at_row_app.
    replace (0 * x - 0 * y) with 0 by ring. replace (0 * y + 0 * x) with 0 by ring. rewrite !Zr. ring. }
  rewrite !Zp. destruct (dims w (po_wf w P)) as [E | [E | E]]; rewrite E in Z |- *; cbn [Nat.leb].
  - ring.
  - pose proof (Z "Ary"%string ltac:(cbn; auto)) as Z5. pose proof (Z "Aiy"%string ltac:(cbn; auto)) as Z6. cbn [append] in Z5, Z6. rewrite Z5, Z6, Zp. ring.
  - pose proof (Z "Ary"%string ltac:(cbn; auto)) as Z5. pose proof (Z "Aiy"%string ltac:(cbn; auto)) as Z6. cbn [append] in Z5, Z6.
    pose proof (Z "Arz"%string ltac:(cbn; auto 10)) as Z7. pose proof (Z "Aiz"%string ltac:(cbn; auto 10)) as Z8. cbn [append] in Z7, Z8. rewrite Z5, Z6, Z7, Z8, !Zp. ring.
Qed.
Lemma rows_in d e : (d < e)%nat -> (e <= 3)%nat -> In (Ar d, fst (rows_of d)) (fp_all e) /\ In (Ai d, snd (rows_of d)) (fp_all e).
Proof.
  intros L M. assert (d = 0 \/ d = 1 \/ d = 2)%nat as [-> | [-> | ->]] by lia; unfold fp_all.
  - cbn. auto.
  - rewrite (proj2 (Nat.leb_le 2 e)) by lia. cbn. auto 10.
  - rewrite (proj2 (Nat.leb_le 2 e)), (proj2 (Nat.leb_le 3 e)) by lia. cbn. auto 12.
Qed.
Lemma phi_rows_in e : In ("phir"%string, row_phir) (fp_all e) /\ In ("phii"%string, row_phii) (fp_all e).
Proof. unfold fp_all. cbn. auto 10. Qed.
(** The rows are sums over the points without their weights. *)
Definition rows_sum (w : wks) (res : nat -> R) (vr vi : string) (f : nat -> nat -> nat -> cx) : Prop :=
  forall n m i, is_var w n vr -> is_var w m vi -> (i < nbas w (usebasis w n))%nat ->
    (res (offs w n i), res (offs w m i)) = csm (seq 0 (npts w)) (fun k => cmul one_i (f (usebasis w n) i k)).
Lemma steady_rows s j w : potentials w ->
  (forall d, (d < dim w)%nat -> rows_sum w (residual (fp_steady s j w)) (Ar d) (Ai d) (fun b i k => vector_form (fp_medium s w) j w b i d k)) /\
  rows_sum w (residual (fp_steady s j w)) "phir" "phii" (fun b i k => scalar_form (fp_medium s w) j w b i k).
Proof.
  intros P. pose proof (po_wf w P) as W. pose proof (fp_dim w P) as D. split.
  - intros d L n m i Hn Hm Hi. rewrite !residual_at. destruct (rows_in d (dim w) L ltac:(lia)) as [I1 I2].
    assert (usebasis w m = usebasis w n) as U by (apply (po_basis w P _ _ (Ai d) (Ar d) Hm Hn); [apply (fp_all_vars _ _ D I2) | apply (fp_all_vars _ _ D I1)]).
    rewrite (steady_own s j w n _ _ i P I1 Hn Hi), (steady_own s j w m _ _ i P I2 Hm ltac:(rewrite U; exact Hi)). rewrite U. unfold csm.
    f_equal; apply sm_ext; intros k _; rewrite <- vector_point by assumption; apply VF_rows; (apply testing_real || lia).
  - intros n m i Hn Hm Hi. rewrite !residual_at. destruct (phi_rows_in (dim w)) as [I1 I2].
    assert (usebasis w m = usebasis w n) as U by (apply (po_basis w P _ _ "phii"%string "phir"%string Hm Hn); [apply phii_in | apply phir_in]).
    rewrite (steady_own s j w n _ _ i P I1 Hn Hi), (steady_own s j w m _ _ i P I2 Hm ltac:(rewrite U; exact Hi)). rewrite U. unfold csm.
    f_equal; apply sm_ext; intros k _; rewrite <- scalar_point by assumption; apply SF_rows; apply testing_real.
Qed.
Lemma harmonic_residual s j w r : potentials w -> harmonic w -> residual (fp_volume s j w) r = residual (fp_steady s j w) r.
Proof. intros P H. rewrite !residual_at. unfold fp_volume. rewrite at_row_app, (rates_zero w r P H). ring. Qed.
Theorem C256_potentials_partial s j w : potentials w -> harmonic w ->
  (forall d, (d < dim w)%nat -> rows_sum w (residual (fp_volume s j w)) (Ar d) (Ai d) (fun b i k => vector_form (fp_medium s w) j w b i d k)) /\
  rows_sum w (residual (fp_volume s j w)) "phir" "phii" (fun b i k => scalar_form (fp_medium s w) j w b i k) /\
  only_rows w (residual (fp_volume s j w)) (fp_vars (dim w)).
Proof.
  intros P H. destruct (steady_rows s j w P) as [S1 S2]. split; [| split].
  - intros d L n m i Hn Hm Hi. rewrite !(harmonic_residual s j w _ P H). apply (S1 d L n m i Hn Hm Hi).
  - intros n m i Hn Hm Hi. rewrite !(harmonic_residual s j w _ P H). apply (S2 n m i Hn Hm Hi).
  - intros n v i Hn Nv Hi. rewrite (harmonic_residual s j w _ P H), residual_at. apply (steady_other s j w n v i P Hn Nv Hi).
Qed.
Print Assumptions C256_potentials_partial.
Definition half : wks := point (fp_vars 2) (1 / 2) (fun _ => 0) (fun _ => 0).
Definition charged : sources := {| cur := fun _ _ => (0, 0); chg := fun _ => (1, 0) |}.
Lemma point_potentials d vs q f : d = 2%nat -> NoDup vs -> (forall v, In v (fp_vars 2) -> In v vs) -> potentials (point vs q f (fun _ => 0)).
Proof. intros -> N V. split; [apply point_wf, N | exact V |]. intros ? ? ? ? _ _ _ _. reflexivity. Qed.
Lemma fp_vars_nodup : NoDup (fp_vars 2).
Proof. cbn. repeat constructor; cbn; intuition discriminate. Qed.
Lemma cmul00 a : cmul a (0, 0) = (0, 0).
Proof. unfold cmul. cbn [fst snd]. f_equal; ring. Qed.
Lemma csumd00 w f : (forall e, f e = (0, 0)) -> csumd w f = (0, 0).
Proof. intros Z. unfold csumd, csm. f_equal; apply sm_zero; intros e _; rewrite Z; reflexivity. Qed.
Lemma half_form s : scalar_form (fp_medium s half) charged half 0 0 0 = (- 1, 0).
Proof.
  unfold scalar_form. cbv zeta. change (phi half 0%nat) with (0, 0).
  rewrite !csumd00 by (intros e; change (dphi half e 0%nat) with (0, 0); change (A half e 0%nat) with (0, 0); change (dA half e e 0%nat) with (0, 0);
    rewrite !cscal00; unfold cadd; cbn [fst snd]; f_equal; ring).
  rewrite !cmul00, !cscal00, !cmul00. change (chg charged 0%nat) with (1, 0). change (bas half 0%nat 0%nat 0%nat) with 1. unfold csub, cscal. cbn [fst snd]. f_equal; ring.
Qed.
Example C256_case : potentials half /\ harmonic half /\ scalar_form (fp_medium {| test := 1; freq := Some 1 |} half) charged half 0 0 0 <> (0, 0).
Proof.
  split; [apply (point_potentials 2); [reflexivity | apply fp_vars_nodup | auto] | split; [intros v k _ _; reflexivity |]].
  rewrite half_form. intros E. injection E as E. lra.
Qed.
Theorem C256_potentials_refuted : ~ C256_potentials.
Proof.
  intros H. destruct C256_case as (P & Hh & _). destruct (H {| test := 0; freq := Some 1 |} charged half P Hh) as (_ & E & _).
  destruct (C256_potentials_partial {| test := 0; freq := Some 1 |} charged half P Hh) as (_ & F & _).
  specialize (E 4%nat 5%nat 0%nat eq_refl eq_refl ltac:(cbn; lia)). specialize (F 4%nat 5%nat 0%nat eq_refl eq_refl ltac:(cbn; lia)). rewrite F in E.
  revert E. unfold cintegral, csm. change (npts half) with 1%nat. change (usebasis half 4%nat) with 0%nat. cbn [seq]. rewrite !sm_cons, !sm_nil, half_form.
  unfold cmul, cscal, one_i. cbn. intros E. injection E as E1 E2. lra.
Qed.
Print Assumptions C256_potentials_refuted.

(** *** C257: in a transient run the rate of each unknown enters its own rows *)
Definition with_rate (w : wks) (r i : string) (f : nat -> nat -> nat -> cx) (b q k : nat) : cx :=
  cadd (cscal (bas w b q k) (field w (r ++ "_t")%string (i ++ "_t")%string k)) (f b q k).
Definition C257_rates : Prop := forall s j w, potentials w -> (forall k, wt w k = 1) ->
  (forall d, (d < dim w)%nat -> rows_are w (residual (fp_volume s j w)) (Ar d) (Ai d) (with_rate w (Ar d) (Ai d) (fun b i k => vector_form (fp_medium s w) j w b i d k))) /\
  rows_are w (residual (fp_volume s j w)) "phir" "phii" (with_rate w "phir" "phii" (fun b i k => scalar_form (fp_medium s w) j w b i k)).
(** The rates of all test functions go to the first rows of the element, in the order in which
    the module declares its unknowns; no other row gets any. *)
Definition rate_names (d : nat) : list (string * string) :=
  ([("Arx", "Aix"); ("phir", "phii")] ++ (if (2 <=? d)%nat then [("Ary", "Aiy")] else []) ++ (if (3 <=? d)%nat then [("Arz", "Aiz")] else []))%list%string.
Definition total_rate (w : wks) (q : string * string) : cx :=
  csm (seq 0 (npts w)) (fun k => csm (seq 0 (nbas w (usebasis w (var_num w "phir" 0)))) (fun i =>
    cmul one_i (cscal (bas w (usebasis w (var_num w "phir" 0)) i k) (field w (fst q ++ "_t")%string (snd q ++ "_t")%string k)))).
Lemma phir_phii w : potentials w -> usebasis w (var_num w "phii" 0) = usebasis w (var_num w "phir" 0).
Proof.
  intros P. pose proof (po_wf w P) as W.
  destruct (nth_var _ _ (po_vars w P "phir" (phir_in _))) as [a Ha]. destruct (nth_var _ _ (po_vars w P "phii" (phii_in _))) as [c Hc].
  rewrite (var_num_is _ a _ 0 W Ha), (var_num_is _ c _ 0 W Hc). apply (po_basis w P _ _ "phii"%string "phir"%string Hc Ha (phii_in _) (phir_in _)).
Qed.
Lemma pick_two r a x y : at_row r [(a, x); (S a, y)] = (if (r =? a)%nat then x else 0) + (if (r =? S a)%nat then y else 0).
Proof.
  unfold at_row, pick. rewrite !sm_cons, sm_nil. cbn [fst snd]. rewrite (Nat.eqb_sym r a), (Nat.eqb_sym r (S a)).
  repeat match goal with |- context [if ?b then _ else _] => destruct b end; ring.
Qed.
Lemma sm_if0 {B} (l : list B) (b : bool) f : sm l (fun x => if b then f x else 0) = if b then sm l f else 0.
Proof. destruct b; [reflexivity | apply sm_zero; reflexivity]. Qed.
Definition re (w : wks) (b : nat) (q : string * string) (k i : nat) : R := fld w (fst q ++ "_t")%string k * bas w b i k - fld w (snd q ++ "_t")%string k * bas w b i k.
Definition im (w : wks) (b : nat) (q : string * string) (k i : nat) : R := fld w (fst q ++ "_t")%string k * bas w b i k + fld w (snd q ++ "_t")%string k * bas w b i k.
Definition numbered (d : nat) : list (nat * (string * string)) := combine (seq 0 4) (rate_names d).
Lemma rates_point w b r k i : wf w ->
  at_row r ([(0%nat, fld w "Arx_t" k * bas w b i k - fld w "Aix_t" k * bas w b i k); (1%nat, fld w "Arx_t" k * bas w b i k + fld w "Aix_t" k * bas w b i k)] ++
            [(2%nat, fld w "phir_t" k * bas w b i k - fld w "phii_t" k * bas w b i k); (3%nat, fld w "phir_t" k * bas w b i k + fld w "phii_t" k * bas w b i k)] ++
            (if (2 <=? dim w)%nat then [(4%nat, fld w "Ary_t" k * bas w b i k - fld w "Aiy_t" k * bas w b i k); (5%nat, fld w "Ary_t" k * bas w b i k + fld w "Aiy_t" k * bas w b i k)] else []) ++
            (if (3 <=? dim w)%nat then [(6%nat, fld w "Arz_t" k * bas w b i k - fld w "Aiz_t" k * bas w b i k); (7%nat, fld w "Arz_t" k * bas w b i k + fld w "Aiz_t" k * bas w b i k)] else []))%list
  = sm (numbered (dim w)) (fun q => (if (r =? 2 * fst q)%nat then re w b (snd q) k i else 0) + (if (r =? S (2 * fst q))%nat then im w b (snd q) k i else 0)).
Proof.
  intros W. rewrite !at_row_app, !at_row_if, at_row_nil, !pick_two. unfold numbered, rate_names. unfold re, im.
  destruct (dims w W) as [E | [E | E]]; rewrite E; cbn [Nat.leb app combine seq]; rewrite !sm_cons, !sm_nil; cbn [fst snd Nat.mul Nat.add append]; ring.
Qed.
Theorem C257_rates_partial s j w r : potentials w ->
  residual (fp_volume s j w) r = residual (fp_steady s j w) r +
    sm (numbered (dim w)) (fun q => (if (r =? 2 * fst q)%nat then fst (total_rate w (snd q)) else 0) + (if (r =? S (2 * fst q))%nat then snd (total_rate w (snd q)) else 0)).
Proof.
  intros P. rewrite !residual_at. unfold fp_volume. rewrite at_row_app, Rplus_comm. f_equal. unfold fp_rates. cbv zeta. rewrite (phir_phii w P).
  unfold total_rate. set (b := usebasis w (var_num w "phir" 0)). rewrite at_flat.
  erewrite sm_ext; [| intros k _; rewrite at_flat; apply sm_ext; intros i _; apply (rates_point w b r k i (po_wf w P))].
  erewrite sm_ext; [| intros k _; apply sm_swap]. rewrite sm_swap. apply sm_ext. intros q _.
  erewrite sm_ext; [| intros k _; rewrite sm_add, !sm_if0; reflexivity]. rewrite sm_add, !sm_if0. unfold csm. cbn [fst snd].
  f_equal; [destruct (r =? 2 * fst q)%nat | destruct (r =? S (2 * fst q))%nat]; try reflexivity; apply sm_ext; intros k _; apply sm_ext; intros i _; unfold re, im, cmul, one_i, cscal, field; cbn [fst snd]; ring.
Qed.
Print Assumptions C257_rates_partial.
(** In particular a row beyond the first eight of the element gets no rate. *)
Corollary rates_lost s j w r : potentials w -> (8 <= r)%nat -> residual (fp_volume s j w) r = residual (fp_steady s j w) r.
Proof.
  intros P L. rewrite (C257_rates_partial s j w r P). rewrite sm_zero; [ring |]. intros [a q] I. apply in_combine_l in I. apply in_seq in I. cbn [fst snd].
  rewrite (proj2 (Nat.eqb_neq r (2 * a))), (proj2 (Nat.eqb_neq r (S (2 * a)))) by lia. ring.
Qed.
(** The scalar potential declared first, and only its rate not zero. *)
Definition swapped : list string := ["phir"; "phii"; "Arx"; "Aix"; "Ary"; "Aiy"]%string.
Definition growing : wks := point swapped 1 (fun v => if String.eqb v "phir_t" then 1 else 0) (fun _ => 0).
Definition quiet : sources := {| cur := fun _ _ => (0, 0); chg := fun _ => (0, 0) |}.
Example C257_case : potentials growing /\ (forall k, wt growing k = 1) /\ total_rate growing ("phir", "phii")%string = (1, 1).
Proof.
  split; [| split; [reflexivity |]].
  - apply (point_potentials 2); [reflexivity | unfold swapped; repeat constructor; cbn; intuition discriminate | cbn; intuition].
  - unfold total_rate, csm. change (npts growing) with 1%nat. change (nbas growing (usebasis growing (var_num growing "phir" 0))) with 1%nat. cbn [seq]. rewrite !sm_cons, !sm_nil.
    unfold cmul, one_i, cscal, field. cbn. f_equal; ring.
Qed.
Lemma growing_form s : scalar_form (fp_medium s growing) quiet growing 0 0 0 = (0, 0).
Proof.
  unfold scalar_form. cbv zeta. change (phi growing 0%nat) with (0, 0).
  rewrite !csumd00 by (intros e; change (dphi growing e 0%nat) with (0, 0); change (A growing e 0%nat) with (0, 0); change (dA growing e e 0%nat) with (0, 0);
    rewrite !cscal00; unfold cadd; cbn [fst snd]; f_equal; ring).
  rewrite !cmul00, !cscal00, !cmul00. change (chg quiet 0%nat) with (0, 0). rewrite ?cscal00. unfold csub. cbn [fst snd]. f_equal; ring.
Qed.
Theorem C257_rates_refuted : ~ C257_rates.
Proof.
  intros H. destruct C257_case as (P & W1 & T). destruct (H {| test := 0; freq := Some 1 |} quiet growing P W1) as (_ & E).
  specialize (E 0%nat 1%nat 0%nat eq_refl eq_refl ltac:(cbn; lia)). rewrite !(C257_rates_partial _ _ _ _ P) in E.
  destruct (steady_rows {| test := 0; freq := Some 1 |} quiet growing P) as [_ S]. specialize (S 0%nat 1%nat 0%nat eq_refl eq_refl ltac:(cbn; lia)).
  change (offs growing 0%nat 0%nat) with 0%nat in *. change (offs growing 1%nat 0%nat) with 1%nat in *.
  assert (total_rate growing ("Arx", "Aix")%string = (0, 0)) as T0.
  { unfold total_rate, csm. change (npts growing) with 1%nat. change (nbas growing (usebasis growing (var_num growing "phir" 0))) with 1%nat. cbn [seq]. rewrite !sm_cons, !sm_nil.
    unfold cmul, one_i, cscal, field. cbn. f_equal; ring. }
  change (usebasis growing 0%nat) with 0%nat in S, E. unfold csm in S. change (npts growing) with 1%nat in S. cbn [seq] in S. rewrite !sm_cons, !sm_nil, growing_form, cmul00 in S. injection S as S1 S2.
  rewrite S1 in E. apply (f_equal (@fst R R)) in E. cbn [fst] in E. change (numbered (dim growing)) with [(0%nat, ("Arx", "Aix")); (1%nat, ("phir", "phii")); (2%nat, ("Ary", "Aiy"))]%string in E.
  rewrite !sm_cons, !sm_nil in E. cbn [fst snd Nat.mul Nat.add Nat.eqb] in E. rewrite T0 in E. unfold cintegral, csm in E. cbn [fst] in E. change (npts growing) with 1%nat in E. cbn [seq] in E. rewrite !sm_cons, !sm_nil in E.
  unfold with_rate in E. rewrite growing_form in E. revert E. unfold cmul, cadd, cscal, one_i, field. cbn. lra.
Qed.
Print Assumptions C257_rates_refuted.

(** *** C258: the equations of the two potentials see one medium: what multiplies the curl is the
    inverse of the permeability, in every test setting and at every point *)
Theorem C258_inverse s w k : cmul (mu (fp_medium s w) k) (nu (fp_medium s w) k) = (1, 0).
Proof.
  unfold fp_medium. cbn [mu nu]. set (x := fld w "x" k). assert (x * x + 1 <> 0) as N by nra. unfold fp_mu, fp_invmu, cmul.
  destruct (test s) as [| [| [| [| n]]]]; cbn [fst snd]; f_equal; try lra; field; assumption.
Qed.
Print Assumptions C258_inverse.
Example C258_case : mu (fp_medium {| test := 2; freq := None |} half) 0 = (2, 1).
Proof. unfold fp_medium, fp_mu. cbn. f_equal; lra. Qed.
(** and the permittivity is never zero, so that the equation of the scalar potential is never
    empty. *)
Theorem C258_permittivity s w k : 0 < fst (eps (fp_medium s w) k) /\ 0 <= snd (eps (fp_medium s w) k).
Proof.
  unfold fp_medium. cbn [eps]. set (x := fld w "x" k). set (y := if (2 <=? dim w)%nat then _ else _). assert (0 < x * x + 1) by nra. unfold fp_eps.
  destruct (test s) as [| [| [| [| [| n]]]]]; try (cbn [fst snd]; split; lra). destruct (Rle_dec _ _); cbn [fst snd]; split; lra.
Qed.
Print Assumptions C258_permittivity.
