(** Sampling and data-consistent inversion: src/managers/uq/uqManager.cpp and
    src/managers/analysis/analysisManager_solve.hpp (UQSolve, DCISolve).

    Simplified: real numbers; a value that is not a number is [None]; the random
    engine and its distributions are a record of functions; files, printing and
    the adjoint solve inside the loop are left out. *)
From Coq Require Import List Arith ZArith Bool Reals.
From Verif Require Params_Model.
Import ListNotations.
Open Scope R_scope.

(** std::default_random_engine with the three distributions.  A distribution
    object is made for each parameter and asked n times. *)
Record engine := {
  st : Type;
  seeded : Z -> st;
  units : nat -> st -> list R * st;      (* uniform_real_distribution(0,1) *)
  normals : nat -> st -> list R * st;    (* normal_distribution(0,1) *)
  ints : nat -> st -> list Z             (* uniform_int_distribution(1,1000000) *)
}.
Inductive kind := Uniform | Gaussian | Other.
Record dist := { kind_ : kind; mean_ : R; var_ : R; min_ : R; max_ : R }.

(** *** generateSamples, uqManager.cpp lines 53-84: one column per parameter;
    an unknown type leaves the zeros of the view *)
Definition column (E : engine) (p : dist) (n : nat) (s : st E) : list R * st E :=
  match kind_ p with
  | Uniform => let (us, s') := units E n s in (map (fun u => min_ p + (max_ p - min_ p) * u) us, s')
  | Gaussian => let (zs, s') := normals E n s in (map (fun z => mean_ p + sqrt (var_ p) * z) zs, s')
  | Other => (repeat 0 n, s)
  end.
Fixpoint columns (E : engine) (ps : list dist) (n : nat) (s : st E) : list (list R) :=
  match ps with
  | [] => []
  | p :: ps => let (c, s') := column E p n s in c :: columns E ps n s'
  end.
Definition rows (n : nat) (cs : list (list R)) : list (list R) :=
  map (fun k => map (fun c => nth k c 0) cs) (seq 0 n).
(** [file] holds the user defined samples *)
Definition samples (E : engine) (ps : list dist) (file : option (list (list R))) (n : nat) (seed : Z) : list (list R) :=
  match file with Some l => l | None => rows n (columns E ps n (seeded E seed)) end.

(** *** the second generateSamples, lines 108-137.  The views are passed by
    value and resized: the caller's views are unchanged.  Result: what the
    function fills, and what the caller sees. *)
Definition column2 (E : engine) (p : dist) (n : nat) (s : st E) : list R * st E :=
  match kind_ p with
  | Gaussian => let (zs, s') := normals E n s in (map (fun z => mean_ p + var_ p * z) zs, s')
  | _ => column E p n s
  end.
Fixpoint columns2 (E : engine) (ps : list dist) (n : nat) (s : st E) : list (list R) :=
  match ps with
  | [] => []
  | p :: ps => let (c, s') := column2 E p n s in c :: columns2 E ps n s'
  end.
Definition generate2 (E : engine) (ps : list dist) (n : nat) (seed : Z) (pts : list (list R)) (wts : list R)
    : (list (list R) * list R) * (list (list R) * list R) :=
  ((rows n (columns2 E ps n (seeded E seed)), repeat (1 / INR n) n), (pts, wts)).

(** *** UQSolve, analysisManager_solve.hpp lines 155-337 *)
Record uq := {
  u_samples : nat; u_max : nat; u_seed : Z;
  u_fd : bool; u_comp : nat; u_delta : R;
  u_file : option (list (list R))
}.
Definition num_samples (E : engine) (ps : list dist) (u : uq) : nat :=
  Nat.min (u_samples u) (List.length (samples E ps (u_file u) (u_max u) (u_seed u))).
Definition parameters (E : engine) (ps : list dist) (u : uq) (j : nat) : list R :=
  let pts := samples E ps (u_file u) (u_max u) (u_seed u) in
  map (fun i => let x := nth i (nth j pts []) 0 in
         if u_fd u && (u_comp u =? i)%nat then x + u_delta u else x) (seq 0 (List.length ps)).
(** sampleints(j), lines 256 and 261: None when out of range *)
Definition sample_int (E : engine) (u : uq) (j : nat) : option Z :=
  nth_error (ints E (u_max u) (seeded E (u_seed u))) j.
(** the loop of lines 217-300: params_->updateParams(currparams, 2), then the
    forward model with the parameters as they are; updateParams fails (None)
    when it would read outside the vector *)
Fixpoint sample_loop {Resp : Type} (E : engine) (ps : list dist) (u : uq)
    (forward : Params_Model.pman R -> Resp) (js : list nat) (s : Params_Model.pman R) : option (list Resp) :=
  match js with
  | [] => Some []
  | j :: js =>
    match (if (0 <? List.length ps)%nat then Params_Model.update_int (parameters E ps u j) 2 s else Some s) with
    | None => None
    | Some s' => option_map (cons (forward s')) (sample_loop E ps u forward js s')
    end
  end.
Definition uq_solve {Resp : Type} (E : engine) (ps : list dist) (u : uq) (forward : Params_Model.pman R -> Resp)
    (s : Params_Model.pman R) : option (list Resp) :=
  sample_loop E ps u forward (seq 0 (num_samples E ps u)) s.

(** *** computeStatistics, lines 143-186 *)
Definition mean (vs : list R) : R := fold_left Rplus vs 0 / INR (List.length vs).
Definition variance (vs : list R) : R :=
  fold_left Rplus (map (fun v => (v - mean vs) * (v - mean vs)) vs) 0 / INR (List.length vs).
Definition probability (vs : list R) (level : R) : R :=
  INR (List.length (filter (fun v => if Rle_dec v level then true else false) vs)) / INR (List.length vs).

(** *** computeVariance, lines 295-317: coordinate i of the points *)
Definition coord (pts : list (list R)) (i : nat) : list R := map (fun p => nth i p 0) pts.
Definition mean2 (vs : list R) : R := fold_left Rplus (map (fun v => v / INR (List.length vs)) vs) 0.
Definition variance2 (vs : list R) : R :=
  fold_left Rplus (map (fun v => (v - mean2 vs) * (v - mean2 vs) / (INR (List.length vs) - 1)) vs) 0.

(** *** KDE, lines 251-288. PI is the decimal constant of preferences.hpp. *)
Definition PIc : R := 3141592653589793238463 / 1000000000000000000000.
Definition bandwidth (seeds : list (list R)) (dim d : nat) : R :=
  106 / 100 * sqrt (variance2 (coord seeds d)) * Rpower (INR (List.length seeds)) (- 1 / (4 + INR dim)).
Definition kcoeff (sigma : R) : R := 1 / sqrt (2 * PIc * sigma * sigma).
Definition kernel (seeds : list (list R)) (dim : nat) (x s : list R) : R :=
  fold_left Rmult (map (fun d => let sg := bandwidth seeds dim d in let diff := nth d x 0 - nth d s 0 in
     kcoeff sg * exp (- 1 * diff * diff / (2 * sg * sg))) (seq 0 dim)) 1.
Definition kde_value (seeds : list (list R)) (dim : nat) (x : list R) : R :=
  fold_left Rplus (map (kernel seeds dim x) seeds) 0 / INR (List.length seeds).
(** Not a number with a single seed (division by N-1 = 0) or a bandwidth of
    zero in some direction (coefficient 1/0; the exponent is 0/0 at a seed). *)
Definition kde_defined (seeds : list (list R)) (dim : nat) : bool :=
  (1 <? List.length seeds)%nat &&
  forallb (fun d => if Req_EM_T (variance2 (coord seeds d)) 0 then false else true) (seq 0 dim).
Definition kde (seeds : list (list R)) (dim : nat) (x : list R) : option R :=
  if kde_defined seeds dim then Some (kde_value seeds dim x) else None.

(** *** rejectionSampling, lines 322-350; [us] are the draws *)
Definition bigger (C : R) (r : option R) : R :=
  match r with Some x => if Rlt_dec C (Rabs x) then Rabs x else C | None => C end.
Definition largest (rs : list (option R)) : R := fold_left bigger rs 0.
Definition accepts (C : R) (r : option R) (u : R) : bool :=
  match r with
  | Some x => if Req_EM_T C 0 then false else if Rle_dec u (Rabs x / C) then true else false
  | None => false
  end.
Definition rejection (rs : list (option R)) (us : list R) : list bool :=
  map (fun p => accepts (largest rs) (fst p) (snd p)) (combine rs us).

(** *** DCISolve, lines 1016-1200 *)
Inductive observed := ObsGauss (m v : R) | ObsUniform (a b : R) | ObsData (pts : list (list R)).
Definition obs_density (o : observed) (dim : nat) (y : list R) : option R :=
  match o with
  | ObsGauss m v => let diff := nth 0 y 0 - m in
      Some (1 / (sqrt (2 * PIc) * sqrt v) * exp (- 1 * diff * diff / (2 * v)))
  | ObsUniform a b => Some (if Rlt_dec a (nth 0 y 0) then if Rlt_dec (nth 0 y 0) b then 1 / (b - a) else 0 else 0)
  | ObsData pts => kde pts dim y
  end.
Definition ratio (o : observed) (pred : list (list R)) (dim : nat) (y : list R) : option R :=
  match obs_density o dim y, kde pred dim y with
  | Some a, Some b => Some (a / b)
  | _, _ => None
  end.
Definition dci (o : observed) (pred : list (list R)) (us : list R) : list bool :=
  let dim := List.length (nth 0 pred []) in
  rejection (map (ratio o pred dim) pred) us.
(** The responses accepted and their mean, lines 1126-1163; None: 0/0. *)
Definition accepted (pred : list (list R)) (acc : list bool) : list (list R) :=
  map fst (filter snd (combine pred acc)).
Definition accepted_mean (pred : list (list R)) (acc : list bool) (j : nat) : option R :=
  let a := accepted pred acc in
  match a with
  | [] => None
  | _ => Some (fold_left Rplus (coord a j) 0 * (1 / INR (List.length a)))
  end.
Definition accepted_variance (pred : list (list R)) (acc : list bool) (j : nat) : option R :=
  let a := accepted pred acc in
  match a, accepted_mean pred acc j with
  | _ :: _ :: _, Some m => Some (fold_left Rplus (map (fun v => (v - m) * (v - m) / (INR (List.length a) - 1)) (coord a j)) 0)
  | _, _ => None
  end.
