(** What the two-dimensional FFT wrappers should compute: the orthonormal
    two-dimensional discrete Fourier transform as one double sum. *)
From Coq Require Import List Arith Reals.
From Coquelicot Require Import Coquelicot.
From Verif Require Import TensorModel BigSum.
Local Open Scope R_scope.

(** Coefficient of the latitude frequency k and the longitude frequency m. *)
Definition dft2 (h w : nat) (x : nat -> nat -> R) (k m : nat) : C :=
  let ang i j := 2 * PI * (INR i * INR k / INR h + INR j * INR m / INR w) in
  (rsum h (fun i => rsum w (fun j => x i j * cos (ang i j))) / sqrt (INR h * INR w),
   - rsum h (fun i => rsum w (fun j => x i j * sin (ang i j))) / sqrt (INR h * INR w)).

(** No longitude frequency at or above mmax. *)
Definition lon_limited (mmax h w : nat) (x : nat -> nat -> R) : Prop :=
  forall k m, (k < h)%nat -> (mmax <= m <= w / 2)%nat -> dft2 h w x k m = RtoC 0.

(** The latitude frequency that row r of a truncated spectrum of lmax rows should
    hold: the non-negative frequencies first, then the negative ones. *)
Definition row_freq (lmax h r : nat) : nat :=
  if (2 * r <? lmax + lmax mod 2)%nat then r else (h - lmax + r)%nat.
