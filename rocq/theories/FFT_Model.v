(** Time histories of sensors in the frequency domain.
    Files modelled (all in /repo/src):
    - interfaces/fft/fftInterface.hpp 66-170 (compute);
    - managers/postprocess/postprocessManager_util.hpp 405-413 (its call).
    The transform of the FFTW library is its definition (forward, not
    normalised), over the real numbers. *)
From Coq Require Import Arith List Reals.
Import ListNotations.
Local Open Scope R_scope.

Definition sumn (n : nat) (f : nat -> R) : R := fold_right Rplus 0 (map f (seq 0 n)).

(** Angle of sample j and frequency k. *)
Definition angle (n j k : nat) : R := 2 * PI * (INR j * INR k) / INR n.

(** fftw_plan_dft_1d with FFTW_FORWARD: sum of x_j exp(-2 pi i j k / n), as real
    and imaginary parts, for complex input. *)
Definition dft (n : nat) (x : nat -> R * R) (k : nat) : R * R :=
  (sumn n (fun j => fst (x j) * cos (angle n j k) + snd (x j) * sin (angle n j k)),
   sumn n (fun j => snd (x j) * cos (angle n j k) - fst (x j) * sin (angle n j k))).

(** fftInterface.hpp 133-150: for each sensor and field, real input, and the
    real part of the output over the data. *)
Definition fft_compute (num_snaps : nat) (data : nat -> nat -> nat -> R) : nat -> nat -> nat -> R :=
  fun sens i k => fst (dft num_snaps (fun j => (data sens i j, 0)) k).
