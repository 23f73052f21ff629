(** Kinetic plasma modules: src/physics/vlasov_fokker_planck.cpp (the variants _0d2v and _1d2v
    assemble the same) and src/physics/rosenbluth_potential.cpp. *)
From Coq Require Import Bool Arith Reals String List.
From Verif Require Import Sparse_Model Mass_Model BProj_Model Phys_Model.
Import ListNotations.
Local Open Scope R_scope.
Local Open Scope string_scope.

(** VFP::volumeResidual, lines 122-326. Transport and collision terms are commented out. The
    last block, for the electrons, loops over the basis of E. *)
Definition vfp_volume (w : wks) : list (nat * R) :=
  let H := var_num w "H" 0 in let C := var_num w "C" 0 in let G := var_num w "G" 0 in let E := var_num w "E" 0 in
  (fill w H H (fun pt dof => (fld w "H_t" pt - fn w "source_H" pt) * wt w pt * bas w (usebasis w H) dof pt) ++
   fill w C C (fun pt dof => (fld w "C_t" pt - fn w "source_C" pt) * wt w pt * bas w (usebasis w C) dof pt) ++
   fill w G G (fun pt dof => (fld w "G_t" pt - fn w "source_G" pt) * wt w pt * bas w (usebasis w G) dof pt) ++
   fill w E H (fun pt dof => (fld w "H_t" pt - fn w "source_E" pt) * wt w pt * bas w (usebasis w E) dof pt))%list.

(** rosenbluth::rosenbluth, lines 13-34: options *)
Record rb_set := { rbH : bool; rbG : bool }.
(** rosenbluth::defineFunctions, lines 82-96: the settings are looked up under the given
    names; what is found defines the function. *)
Definition rb_functions (s : rb_set) (fs : string -> option string) : list (string * string) :=
  let get n d := match fs n with Some e => e | None => d end in
  ((if rbH s then
     [("source_rH_H", get "source_H_H" "8.0*pi*H"); ("source_rH_C", get "source_H_H" "8.0*pi*C");
      ("source_rH_G", get "source_H_H" "8.0*pi*G"); ("source_rH_E", get "source_H_H" "8.0*pi*E")] else []) ++
   (if rbG s then
     [("source_rG_H", get "source_rH_H" "-1.0*rH_H"); ("source_rG_C", get "source_rH_C" "-1.0*rH_C");
      ("source_rG_G", get "source_rH_G" "-1.0*rH_G"); ("source_rG_E", get "source_rH_E" "-1.0*rH_E")] else []))%list.

(** volumeResidual, lines 102-317: one such block per potential. *)
Definition rb_block (w : wks) (v : string) : list (nat * R) :=
  let n := var_num w v 0 in
  fill w n n (fun pt dof => -1 * fn w ("source_" ++ v) pt * bas w (usebasis w n) dof pt
    + fld w ("grad(" ++ v ++ ")[x]") pt * bgr w (usebasis w n) dof pt 0%nat + fld w ("grad(" ++ v ++ ")[y]") pt * bgr w (usebasis w n) dof pt 1%nat).
Definition rb_volume (s : rb_set) (w : wks) : list (nat * R) :=
  ((if rbH s then rb_block w "rH_H" ++ rb_block w "rH_C" ++ rb_block w "rH_G" ++ rb_block w "rH_E" else []) ++
   (if rbG s then rb_block w "rG_H" ++ rb_block w "rG_C" ++ rb_block w "rG_G" ++ rb_block w "rG_E" else []))%list.
