(** Optimization vectors: src/optimization/MrHyDE_OptVector.hpp.
    Simplified: real arithmetic; the parts of a distributed vector are one list; a null
    pointer in the list of scalar parts is [None]; components are values (the sharing of
    data between copies is not represented); the operations of ROL::StdVector and
    ROL::TpetraMultiVector are entry by entry and reject different lengths. *)
From Coq Require Import Bool Arith Lia Reals Lra List.
From Verif Require Import Sparse_Model.
Import ListNotations.
Local Open Scope R_scope.

Record ovec := {
  flds : list (list R);            (* field_vec *)
  scls : list (option (list R));   (* scalar_vec *)
  hfld : bool; hscl : bool;        (* have_field, have_scalar *)
  isdual : bool; dscale : R;       (* isDual, dualityScale *)
  diag : option (list R);          (* diagParamMass *)
  fmass : bool                     (* have_mass *)
}.

(** xs_f[i] and xs_s[i] must exist and have the same length. *)
Fixpoint fcompat (fs gs : list (list R)) : bool :=
  match fs, gs with
  | [], _ => true
  | f :: fs, g :: gs => (length f =? length g)%nat && fcompat fs gs
  | _ :: _, [] => false
  end.
Fixpoint scompat (ss ts : list (option (list R))) : bool :=
  match ss, ts with
  | [], _ => true
  | None :: ss, ts => scompat ss (tl ts)
  | Some s :: ss, Some t :: ts => (length s =? length t)%nat && scompat ss ts
  | Some _ :: _, _ => false
  end.
Definition compat (v x : ovec) : bool := fcompat (flds v) (flds x) && scompat (scls v) (scls x).

Definition zip (h : R -> R -> R) (u v : list R) : list R := map (fun p => h (fst p) (snd p)) (combine u v).
Fixpoint zipf (h : R -> R -> R) (fs gs : list (list R)) : list (list R) :=
  match fs, gs with f :: fs, g :: gs => zip h f g :: zipf h fs gs | _, _ => [] end.
Fixpoint zips (h : R -> R -> R) (ss ts : list (option (list R))) : list (option (list R)) :=
  match ss, ts with
  | None :: ss, ts => None :: zips h ss (tl ts)
  | Some s :: ss, Some t :: ts => Some (zip h s t) :: zips h ss ts
  | _, _ => []
  end.

Definition with_data (v : ovec) fs ss : ovec :=
  {| flds := fs; scls := ss; hfld := hfld v; hscl := hscl v; isdual := isdual v; dscale := dscale v; diag := diag v; fmass := fmass v |}.
Definition binary (h : R -> R -> R) (v x : ovec) : option ovec :=
  if compat v x then Some (with_data v (zipf h (flds v) (flds x)) (zips h (scls v) (scls x))) else None.
Definition unary (h : R -> R) (v : ovec) : ovec :=
  with_data v (map (map h) (flds v)) (map (option_map (map h)) (scls v)).

(** Lines 862-1008. *)
Definition oset := binary (fun _ b => b).
Definition plus := binary Rplus.
Definition axpy (a : R) := binary (fun u b => u + a * b).
Definition scale (a : R) := unary (fun u => a * u).
Definition zero := unary (fun _ => 0).
Definition put_scalar (a : R) := unary (fun _ => a).

Definition ldot (u v : list R) : R := rsum (zip Rmult u v).
Fixpoint fsum (d : list R -> list R -> R) (fs gs : list (list R)) : R :=
  match fs, gs with f :: fs, g :: gs => d f g + fsum d fs gs | _, _ => 0 end.
Fixpoint ssum (ss ts : list (option (list R))) : R :=
  match ss, ts with
  | None :: ss, ts => ssum ss (tl ts)
  | Some s :: ss, Some t :: ts => ldot s t + ssum ss ts
  | _, _ => 0
  end.

(** dot, lines 1013-1095; the branch for a full mass matrix is empty. *)
Definition field_dot (v x : ovec) : R :=
  if xorb (isdual v) (isdual x) then fsum ldot (flds v) (flds x) else
  match diag v with
  | Some d => fsum (fun f g => ldot f (zip (if isdual v then Rdiv else Rmult) g d)) (flds v) (flds x)
  | None => if fmass v then 0
            else (if isdual v then 1 / dscale v else dscale v) * fsum ldot (flds v) (flds x)
  end.
Definition dot (v x : ovec) : option R :=
  if compat v x then Some (field_dot v x + ssum (scls v) (scls x)) else None.

(** norm, lines 1100-1103. *)
Definition norm (v : ovec) : option R := match dot v v with Some d => Some (sqrt d) | None => None end.

(** apply, lines 1177-1193. *)
Definition oapply (v x : ovec) : option R :=
  if compat v x then Some (fsum ldot (flds v) (flds x) + ssum (scls v) (scls x)) else None.

(** The constructors used by clone and dual (lines 448-495, 657-700, 803-840): primal with
    scale one; fields only gives one null scalar part; [junk] is the new memory. *)
Definition make_both fs ss d m : option ovec :=
  match ss with
  | Some s0 :: _ => Some {| flds := fs; scls := ss; hfld := negb (length fs =? 0)%nat; hscl := negb (length s0 =? 0)%nat;
                            isdual := false; dscale := 1; diag := d; fmass := m |}
  | _ => None
  end.
Definition make_field fs d m : ovec :=
  {| flds := fs; scls := [None]; hfld := true; hscl := false; isdual := false; dscale := 1; diag := d; fmass := m |}.
Definition make_scalar ss d m : ovec :=
  {| flds := []; scls := ss; hfld := false; hscl := true; isdual := false; dscale := 1; diag := d; fmass := m |}.

(** clone, lines 1108-1142: new memory, here zeros (Tpetra) and zeros (std::vector). *)
Definition clone (v : ovec) : option ovec :=
  let fs := map (map (fun _ => 0)) (flds v) in
  let ss := map (option_map (map (fun _ => 0))) (scls v) in
  if negb (hscl v) then Some (make_field fs (diag v) (fmass v))
  else if negb (hfld v) then Some (make_scalar ss (diag v) (fmass v))
  else make_both fs ss (diag v) (fmass v).

(** dual, lines 1147-1172: the entries of the vector itself. *)
Definition dual (v : ovec) : option ovec :=
  if negb (hfld v) then Some (make_scalar (scls v) (diag v) (fmass v))
  else if negb (hscl v) then Some (make_field (flds v) (diag v) (fmass v))
  else make_both (flds v) (scls v) (diag v) (fmass v).

(** getCurrentVector (parameterManager_access.hpp 147-171) with the constructor of lines
    60-128. *)
Definition make_current (fs : list (list R)) (ss : list (list R)) d m : ovec :=
  {| flds := fs; scls := map Some ss; hfld := negb (length fs =? 0)%nat; hscl := negb (length ss =? 0)%nat;
     isdual := false; dscale := 1; diag := d; fmass := m |}.
