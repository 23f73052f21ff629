(** Model of the dual-weighted residual,
    /repo/src/managers/postprocess/postprocessManager_error_estimation.hpp
    computeDualWeightedResidual (lines 539-581), and of the vectors it exchanges,
    /repo/src/interfaces/linearAlgebraInterface_vector.hpp 51-66 (see LinAlg_Model).

    Simplified: the residual of assembleJacRes is given as the contributions each process has put in
    its copies; one physics set (the code takes set 0) and one column of the residual. *)
From Coq Require Import Reals List.
From Verif Require Import BProj_Model BProj_Proofs LinAlg_Model.
Import ListNotations.

(** Both vectors are brought to the owners with exportVectorFromOverlapped (lines 556 and 574), and
    the dot product adds over the processes the products of what they own (line 576). *)
Definition dwr (ps : list pmap) (res_over adj_over : vec) : R :=
  sm (seq 0 (length ps)) (fun p => sm (seq 0 (length (own (part ps p)))) (fun k =>
    (export_add ps res_over p k * export_add ps adj_over p k)%R)).
