(** Model of the grouping of elements and boundary sides:
    managers/assembly/assemblyManager_groups.hpp:55-468 (createGroups).

    Elements of a block are numbered 0..n-1 as in the code.  Loops that are not
    bounded by construction take fuel; running out of fuel is [None], different
    from every outcome.  Geometry, LIDs and storage flags are not modelled. *)
From Coq Require Import List Arith ZArith Bool.
From Verif Require Import Outcome.
Import ListNotations.

(** Lines 82-89: the workset size; [static_cast<size_t>] of an int. *)
Definition elem_per_group (ws : Z) (n : nat) : nat :=
  if (ws =? -1)%Z then n
  else Z.to_nat (Z.min (ws mod 2 ^ 64) (Z.of_nat n)).

(** Lines 268-286 (and 372-385, and the loop 194-258): consecutive index ranges. *)
Fixpoint ranges (fuel prog total k : nat) : option (list (list nat)) :=
  if prog <? total then
    match fuel with
    | 0 => None
    | S fuel' =>
        let cur := if total <? prog + k then total - prog else k in
        match ranges fuel' (prog + cur) total k with
        | Some r => Some (seq prog cur :: r)
        | None => None
        end
    end
  else Some [].

(** Lines 172-184. *)
Definition unique_sides (ids : list nat) : list nat :=
  match ids with
  | [] => []
  | i0 :: _ => fold_left (fun u i => if existsb (fun x => x =? i) u then u else u ++ [i]) ids [i0]
  end.

(** Lines 187-192: positions of the sides with a given local id. *)
Definition positions (ids : list nat) (s : nat) : list nat :=
  filter (fun e => nth e ids 0 =? s) (seq 0 (length ids)).

(** Lines 194-258 for one local side id: the boundary groups as (elements, local
    side id); [sides] lists (local element id, local side id) of the side set. *)
Definition side_groups (fuel k : nat) (sides : list (nat * nat)) (s : nat)
  : option (list (list nat * nat)) :=
  let group := positions (map snd sides) s in
  match ranges fuel 0 (length group) k with
  | None => None
  | Some rs =>
      Some (map (fun r =>
              (map (fun e => fst (nth (nth e group 0) sides (0, 0))) r,
               last (map (fun e => snd (nth (nth e group 0) sides (0, 0))) r) 0)) rs)
  end.

Fixpoint concat_opt {A} (l : list (option (list A))) : option (list A) :=
  match l with
  | [] => Some []
  | None :: _ => None
  | Some a :: l' => match concat_opt l' with Some r => Some (a ++ r) | None => None end
  end.

(** Lines 154-261 for one side set. *)
Definition boundary_groups (fuel k : nat) (sides : list (nat * nat)) : option (list (list nat * nat)) :=
  concat_opt (map (side_groups fuel k sides) (unique_sides (map snd sides))).

(* ------------------------------------------------------------------ *)
(** ** Subgrid-preserving partitioning, lines 304-369 *)

Fixpoint upd {A} (l : list A) (i : nat) (x : A) : list A :=
  match l, i with
  | [], _ => []
  | _ :: l', 0 => x :: l'
  | y :: l', S i' => y :: upd l' i' x
  end.

Definition upd_ub {A} (l : list A) (i : nat) (x : A) : outcome (list A) :=
  if i <? length l then Ok (upd l i x) else UB.

(** Lines 308-318: column [bc] of [onbndry]; element ids outside of the view are
    an out-of-range write. *)
Fixpoint mark (col : list bool) (ids : list nat) : outcome (list bool) :=
  match ids with
  | [] => Ok col
  | e :: ids' => obind (upd_ub col e true) (fun c => mark c ids')
  end.

Definition onbndry (n : nat) (bgs : list (list nat)) : outcome (list (list bool)) :=
  map_outcome (fun ids => mark (repeat false n) ids) bgs.

(** The row of element [j]: one flag per boundary group. *)
Definition row (cols : list (list bool)) (j : nat) : list bool :=
  map (fun c => nth j c false) cols.

Fixpoint beq_list (a b : list bool) : bool :=
  match a, b with
  | [], [] => true
  | x :: a', y :: b' => Bool.eqb x y && beq_list a' b'
  | _, _ => false
  end.

(** Lines 324-332: index of the first element not yet added (n if none). *)
Fixpoint first_unadded (added : list bool) : nat :=
  match added with
  | [] => 0
  | false :: _ => 0
  | true :: r => S (first_unadded r)
  end.

(** Lines 336-348; the flags of [j] are not consulted. *)
Fixpoint collect (cols : list (list bool)) (k refind : nat) (js : list nat)
    (newgroup : list nat) (added : list bool) (num : nat) : list nat * list bool * nat :=
  match js with
  | [] => (newgroup, added, num)
  | j :: js' =>
      if beq_list (row cols j) (row cols refind) && (length newgroup <? k) then
        collect cols k refind js' (newgroup ++ [j]) (upd added j true) (S num)
      else collect cols k refind js' newgroup added num
  end.

(** Lines 320-350. *)
Fixpoint subgrid_groups (fuel : nat) (cols : list (list bool)) (k n : nat)
    (added : list bool) (num : nat) : option (outcome (list (list nat))) :=
  if num <? n then
    match fuel with
    | 0 => None
    | S fuel' =>
        let refind := first_unadded added in
        match upd_ub added refind true with
        | Ok added1 =>
            let '(g, added2, num2) :=
              collect cols k refind (seq (S refind) (n - S refind)) [refind] added1 (S num) in
            match subgrid_groups fuel' cols k n added2 num2 with
            | Some (Ok r) => Some (Ok (g :: r))
            | x => x
            end
        | Exn => Some Exn
        | UB => Some UB
        end
    end
  else Some (Ok []).

(** Lines 356-365: offset in [rest] of the first strictly largest group, if it is
    larger than [mx]. *)
Fixpoint scan_max (rest : list (list nat)) (i mx : nat) (best : option nat) : option nat :=
  match rest with
  | [] => best
  | g :: rest' =>
      if mx <? length g then scan_max rest' (S i) (length g) (Some i)
      else scan_max rest' (S i) mx best
  end.

(** Lines 355-369: selection sort by swapping; positions before [grp] are not
    touched again.  The first argument is the number of positions left. *)
Fixpoint reorder (m : nat) (gs : list (list nat)) : list (list nat) :=
  match m, gs with
  | S m', g :: rest =>
      match scan_max rest 0 (length g) None with
      | Some i => nth i rest [] :: reorder m' (upd rest i g)
      | None => g :: reorder m' rest
      end
  | _, _ => gs
  end.

Inductive mode := Sequential | Subgrid_preserving | Random_ | Neighbor_avoiding | Other_mode.

(** Lines 268-390: the element groups of one block; [bgs] are the element ids of
    the boundary groups of the block. *)
Definition element_groups (fuel : nat) (m : mode) (ws : Z) (n : nat) (bgs : list (list nat))
  : option (outcome (list (list nat))) :=
  let k := elem_per_group ws n in
  let seq_groups := match ranges fuel 0 n k with Some r => Some (Ok r) | None => None end in
  let groups :=
    match m with
    | Sequential => seq_groups
    | Subgrid_preserving =>
        match bgs with
        | [] => seq_groups
        | _ =>
            match onbndry n bgs with
            | Ok cols =>
                match subgrid_groups fuel cols k n (repeat false n) 0 with
                | Some (Ok gs) => Some (Ok (reorder (length gs - 1) gs))
                | x => x
                end
            | Exn => Some Exn
            | UB => Some UB
            end
        end
    | _ => Some (Ok [])
    end in
  match groups with
  | Some (Ok []) => Some UB        (* line 390: elem_groups[0] *)
  | x => x
  end.
