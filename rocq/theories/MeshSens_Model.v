(** Sensors kept in the element fields of the mesh file.
    /repo/src/managers/postprocess/postprocessManager_sensors.hpp (importSensorsFromExodus, lines
    51-165) and the element fields of /repo/src/interfaces/mesh/meshInterface_exodus.hpp
    (readExodusData, lines 77-117).
    Simplified: the fields of the file are given, in order, with one value for each element of the
    block; numbers are rational; reading past the end of the fields or of a field, or writing past
    the end of the sensors, is [None]; one process. *)
From Coq Require Import Bool Arith ZArith QArith String DecimalString Decimal List.
Import ListNotations.
Local Open Scope string_scope.
Local Open Scope nat_scope.

Definition bind {A B} (o : option A) (f : A -> option B) : option B := match o with Some a => f a | None => None end.
Fixpoint mapM {A B} (f : A -> option B) (l : list A) : option (list B) :=
  match l with
  | [] => Some []
  | x :: r => bind (f x) (fun y => option_map (cons y) (mapM f r))
  end.

(** efield_names and efield_vals: readExodusData appends one of each for every field. *)
Definition field : Type := (string * list Q)%type.
Definition value (fs : list field) (ind i : nat) : option Q := bind (nth_error fs ind) (fun f => nth_error (snd f) i).
(** std::distance(begin, std::find(begin, end, name)) *)
Fixpoint find_index (name : string) (fs : list field) : nat :=
  match fs with [] => 0 | f :: r => if String.eqb (fst f) name then 0 else S (find_index name r) end.
Definition value_named (fs : list field) (name : string) (i : nat) : option Q := value fs (find_index name fs) i.
(** Lines 91-112: "sensor_" + number + "_Loc_x". *)
Definition location (j : nat) (axis : string) : string :=
  "sensor_" ++ NilEmpty.string_of_uint (Nat.to_uint (S j)) ++ "_Loc_" ++ axis.

Record sensor := { point : list Q; datum : Q; owner : nat * nat }.
(** Lines 87-121. *)
Definition sensor_at (dim : nat) (resp : string) (fs : list field) (i j : nat) : option sensor :=
  bind (mapM (fun axis => value_named fs (location j axis) i) (firstn dim ["x"; "y"; "z"])) (fun p =>
  bind (value_named fs resp i) (fun d => Some {| point := p; datum := d; owner := (i, 0) |})).
(** int n = efield_vals[block][i]: cut towards zero. *)
Definition trunc (q : Q) : Z := Z.quot (Qnum q) (Zpos (Qden q)).
Definition in_group (dim : nat) (resp : string) (fs : list field) (block i : nat) : option (list sensor) :=
  bind (value fs block i) (fun c => mapM (sensor_at dim resp fs i) (seq 0 (Z.to_nat (trunc c)))).
(** The loops run over the groups of the block (lines 62 and 82), not over its elements. *)
Definition import (dim : nat) (resp : string) (fs : list field) (block groups : nat) : option (list sensor) :=
  bind (mapM (fun i => option_map trunc (value fs block i)) (seq 0 groups)) (fun cs =>
  let found := fold_right Z.add 0%Z cs in
  if (0 <? found)%Z then
    bind (mapM (in_group dim resp fs block) (seq 0 groups)) (fun ls =>
      let l := concat ls in if (Z.of_nat (length l) <=? found)%Z then Some l else None)
  else Some []).
