(** The database of local mass matrices and its sparsifying quadrature.
    Files modelled (all in /repo/src):
    - managers/assembly/assemblyManager_database.hpp 738-925
      (buildVolumetricDatabase, tables of local masses);
    - interfaces/discretization/discretizationInterface_basis.hpp 1420-1560
      (evaluateBasisNewQuadrature: tensor rule, physical weights).
    The one-dimensional rules of the quadrature library are an argument
    (CubaturePolylib); the physical basis functions and the determinant of the
    Jacobian are functions of the reference point.  The sums "+=" over points
    start from a zero table and are written as sums. *)
From Coq Require Import Bool Arith List Reals.
From Verif Require Import BProj_Model.
Import ListNotations.
Local Open Scope R_scope.

Definition point : Type := (R * R * R)%type.
(** Points and weights. *)
Definition rule3 : Type := list (point * R).
Definition line : Type := list (R * R).

Inductive lrule := Gauss | Lobatto.
Inductive btype := HGRAD | HVOL | HDIV | HCURL | HFACE.

(** database.hpp 753-782: the rules tried for a basis. *)
Definition qrules (t : btype) : list (list lrule) :=
  match t with HCURL => [[Lobatto; Lobatto; Lobatto]] | _ => [] end.

(** basis.hpp 1487: CubatureTensor of three lines. *)
Definition tensor (x y z : line) : rule3 :=
  flat_map (fun a => flat_map (fun b => map (fun c =>
    ((fst a, fst b, fst c), snd a * snd b * snd c)) z) y) x.

(** basis.hpp 1453-1489: in one and two dimensions the rule stays a null
    pointer, which line 1490 dereferences.  The shape of the element is not
    looked at. *)
Definition new_rule (polylib : lrule -> nat -> line) (dim quadorder : nat)
    (q : list lrule) : option rule3 :=
  if (dim =? 3)%nat then
    let l k := polylib (nth k q Gauss) (quadorder - 1)%nat in
    Some (tensor (l 0%nat) (l 1%nat) (l 2%nat))
  else None.

(** basis.hpp 1494-1503: weights times determinant at the point. *)
Definition phys_rule (det : point -> R) (q : rule3) : rule3 :=
  map (fun pw => (fst pw, det (fst pw) * snd pw)) q.

(** One variable on one element: basis functions (i, point, component), number
    of them, components, mass weight, type, and offsets. *)
Record mvar := { mv_bas : nat -> point -> nat -> R; mv_num : nat; mv_dim : nat;
                 mv_wt : R; mv_type : btype; mv_off : list nat }.

(** database.hpp 841-851, and 905-916 with the usual rule. *)
Definition mass_entry (v : mvar) (q : rule3) (i j : nat) : R :=
  sm q (fun pw => sm (seq 0 (mv_dim v)) (fun d =>
    mv_bas v i (fst pw) d * mv_bas v j (fst pw) d * snd pw * mv_wt v)).

(** database.hpp 856-880: later rules replace an entry when they enlarge the
    diagonal or reduce the size off the diagonal. *)
Definition better (i j : nat) (old new : R) : R :=
  if (i =? j)%nat then (if Rlt_dec old new then new else old)
  else (if Rlt_dec (Rabs new) (Rabs old) then new else old).

Definition sparse_entry (v : mvar) (qs : list rule3) (i j : nat) : R :=
  match qs with
  | [] => 0
  | q :: t => fold_left (fun m q' => better i j m (mass_entry v q' i j)) t
                        (mass_entry v q i j)
  end.

Fixpoint all_rules (polylib : lrule -> nat -> line) (dim quadorder : nat)
    (det : point -> R) (ls : list (list lrule)) : option (list rule3) :=
  match ls with
  | [] => Some []
  | l :: t => match new_rule polylib dim quadorder l,
                    all_rules polylib dim quadorder det t with
              | Some q, Some r => Some (phys_rule det q :: r)
              | _, _ => None
              end
  end.

(** Settings of the table: "use sparsifying mass quadrature", one-dimensional
    rules, dimension, "quadrature" order. *)
Record mset := { ms_sparse : bool; ms_lib : lrule -> nat -> line;
                 ms_dim : nat; ms_order : nat }.

Definition set_at (m : nat -> nat -> R) (r c : nat) (x : R) : nat -> nat -> R :=
  fun i j => if ((i =? r) && (j =? c))%nat then x else m i j.

Definition off_of (v : mvar) (i : nat) : nat := nth i (mv_off v) 0%nat.

(** Values a variable writes, with their places (database.hpp 882-891, 905-916). *)
Definition var_writes (f : nat -> nat -> R) (v : mvar) : list (nat * nat * R) :=
  flat_map (fun i => map (fun j => (off_of v i, off_of v j, f i j))
                         (seq 0 (mv_num v))) (seq 0 (mv_num v)).

(** database.hpp 784 and 892-917: the values of a variable.  HFACE writes
    nothing in either branch. *)
Definition var_values (s : mset) (det : point -> R) (usual : rule3) (v : mvar)
    : option (list (nat * nat * R)) :=
  match (if ms_sparse s then qrules (mv_type v) else []) with
  | [] => match mv_type v with
          | HFACE => Some []
          | _ => Some (var_writes (mass_entry v usual) v)
          end
  | ls => match all_rules (ms_lib s) (ms_dim s) (ms_order s) det ls with
          | Some qs => Some (var_writes (sparse_entry v qs) v)
          | None => None
          end
  end.

Fixpoint all_values (s : mset) (det : point -> R) (usual : rule3) (vs : list mvar)
    : option (list (nat * nat * R)) :=
  match vs with
  | [] => Some []
  | v :: t => match var_values s det usual v, all_values s det usual t with
              | Some a, Some b => Some (a ++ b)
              | _, _ => None
              end
  end.

(** The local mass table of an element of the database. *)
Definition mass_table (s : mset) (det : point -> R) (usual : rule3)
    (vs : list mvar) : option (nat -> nat -> R) :=
  match all_values s det usual vs with
  | Some cs => Some (fold_left (fun m c => set_at m (fst (fst c)) (snd (fst c)) (snd c))
                               cs (fun _ _ => 0))
  | None => None
  end.
