(** What hybridized conservation laws are, independently of the code: the physical fluxes, the
    Jacobian of the normal flux as a derivative, functions of a diagonalizable matrix. *)
From Coq Require Import Bool Arith Reals List String.
From Coquelicot Require Import Coquelicot.
From Verif Require Import BProj_Model Phys_Model Phys_Spec.
Import ListNotations.
Local Open Scope R_scope.

(** ** Matrices *)
Definition delta (i j : nat) : R := if Nat.eqb i j then 1 else 0.
Definition dot (n : nat) (l x : nat -> R) : R := sm (seq 0 n) (fun i => l i * x i).
Definition mvec (n : nat) (A : nat -> nat -> R) (x : nat -> R) : nat -> R := fun i => dot n (A i) x.
Definition mmul (n : nat) (A B : nat -> nat -> R) : nat -> nat -> R := fun i j => dot n (A i) (fun k => B k j).

(** The columns of X are a basis of eigenvectors of J, Y is the inverse of X. *)
Record eigenbasis (n : nat) (J X Y : nat -> nat -> R) (lam : nat -> R) : Prop := {
  eb_left : forall i j, (i < n)%nat -> (j < n)%nat -> mmul n Y X i j = delta i j;
  eb_right : forall i j, (i < n)%nat -> (j < n)%nat -> mmul n X Y i j = delta i j;
  eb_eig : forall i j, (i < n)%nat -> (j < n)%nat -> mmul n J X i j = X i j * lam j
}.
(** M = phi(J): same eigenvectors, eigenvalues phi(lambda). *)
Definition fun_of (n : nat) (phi : R -> R) (J M : nat -> nat -> R) : Prop :=
  exists X Y lam, eigenbasis n J X Y lam /\
    forall i j, (i < n)%nat -> (j < n)%nat -> M i j = sm (seq 0 n) (fun k => X i k * phi (lam k) * Y k j).
(** mu is an eigenvalue of J. *)
Definition eigenvalue (n : nat) (J : nat -> nat -> R) (mu : R) : Prop :=
  exists x, (exists i, (i < n)%nat /\ x i <> 0) /\ forall i, (i < n)%nat -> mvec n J x i = mu * x i.
(** l is the largest modulus of an eigenvalue of J. *)
Definition spectral_radius (n : nat) (J : nat -> nat -> R) (l : R) : Prop :=
  (forall mu, eigenvalue n J mu -> Rabs mu <= l) /\ exists mu, eigenvalue n J mu /\ Rabs mu = l.

(** J is the matrix of partial derivatives of G at S. *)
Definition jacobian (n : nat) (G : (nat -> R) -> nat -> R) (S : nat -> R) (J : nat -> nat -> R) : Prop :=
  forall i j, (i < n)%nat -> (j < n)%nat ->
    is_derive (fun t => G (fun k => S k + t * delta j k) i) 0 (J i j).

Definition pos_part (x : R) : R := Rmax x 0.
Definition neg_part (x : R) : R := Rmin x 0.

(** ** States and fluxes: component 0 is the density (or depth), 1..d the momentum *)
Definition state (names : list string) (w : wks) (pre : string) (k : nat) : nat -> R :=
  fun i => fld w (pre ++ nth i names "")%string k.
Definition farstate (names : list string) (w : wks) (k : nat) : nat -> R :=
  fun i => fn w ("Far-field " ++ nth i names "" ++ " " ++ sidename w)%string k.
Definition minus (x y : nat -> R) : nat -> R := fun i => x i - y i.
Definition nrm (w : wks) (k : nat) : nat -> R := fun d => normal w d k.
Definition unit_normal (w : wks) (k : nat) : Prop := sumd w (fun d => normal w d k * normal w d k) = 1.

Definition normal_flux (d : nat) (F : (nat -> R) -> nat -> nat -> R) (n : nat -> R) (S : nat -> R) (i : nat) : R :=
  sm (seq 0 d) (fun e => F S i e * n e).

(** Shallow water: depth H, discharge H u, hydrostatic pressure g H^2 / 2. *)
Definition sw_names (d : nat) : list string := firstn (d + 1) ["H"; "Hux"; "Huy"]%string.
Definition sw_F (g : R) (S : nat -> R) (i e : nat) : R :=
  match i with
  | 0%nat => S (1 + e)%nat
  | Datatypes.S c => S (1 + c)%nat * S (1 + e)%nat / S 0%nat + delta c e * (g * (S 0%nat * S 0%nat) / 2)
  end.

(** Ideal gas: density, momentum, and as last component the total energy. *)
Definition eu_names (d : nat) : list string := ("rho" :: firstn d ["rhoux"; "rhouy"; "rhouz"] ++ ["rhoE"])%string%list.
Definition pressure (gamma : R) (d : nat) (S : nat -> R) : R :=
  (gamma - 1) * (S (d + 1)%nat - sm (seq 0 d) (fun c => S (1 + c)%nat * S (1 + c)%nat) / (2 * S 0%nat)).
Definition eu_F (gamma : R) (d : nat) (S : nat -> R) (i e : nat) : R :=
  if Nat.eqb i 0 then S (1 + e)%nat
  else if Nat.eqb i (d + 1) then (S (d + 1)%nat + pressure gamma d S) * S (1 + e)%nat / S 0%nat
  else S i * S (1 + e)%nat / S 0%nat + delta (i - 1) e * pressure gamma d S.

(** The same side seen as one between elements. *)
Definition interior (w : wks) : wks :=
  {| dim := dim w; varlist := varlist w; usebasis := usebasis w; npts := npts w; nbas := nbas w; offs := offs w;
     wt := wt w; bas := bas w; bgr := bgr w; fld := fld w; fn := fn w; hel := hel w;
     bcs := fun _ => "interface"%string; sidename := sidename w; isAdjoint := isAdjoint w;
     isTransient := isTransient w; deltat := deltat w |}.
