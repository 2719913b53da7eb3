(** Independent specification of the scalar and vector transforms. *)
From Coq Require Import List Arith Lia Bool Reals.
From Coquelicot Require Import Coquelicot.
From Verif Require Import TensorModel BigSum FFTModel.
Import ListNotations.
Local Open Scope R_scope.

(** torch.roll(x, s, dims=-1) on a vector of length n. *)
Definition rollv {A} (n s : nat) (x : nat -> A) : nat -> A := fun j => x ((j + (n - s mod n)) mod n)%nat.
Definition roll_last {A} (s : nat) (x : tensor A) : tensor A :=
  let d := (ndim x - 1)%nat in
  mkT (shp x) (fun i => val x (upd d ((nth d i 0 + (dimsz x d - s mod dimsz x d)) mod dimsz x d)%nat i)).

(** exp(-2 pi i m s / n): the factor a rotation by [s] of [n] points applies to order [m]. *)
Definition phase (n s m : nat) : C := cis (- (2 * PI * INR s * INR m / INR n)).
Definition phase_last (n s : nat) (x : tensor C) : tensor C :=
  mkT (shp x) (fun i => Cmult (phase n s (nth (ndim x - 1) i 0%nat)) (val x i)).

(** a x + b y *)
Definition lin_r (a b : R) (x y : tensor R) : tensor R := mkT (shp x) (fun i => a * val x i + b * val y i).
Definition lin_c (a b : R) (x y : tensor C) : tensor C :=
  mkT (shp x) (fun i => Cplus (Cmult (RtoC a) (val x i)) (Cmult (RtoC b) (val y i))).

(** Longitudinal analysis: 2 pi / n sum_j f_j exp(-2 pi i j m / n), for m up to n/2;
    orders above have no bin and are zero. *)
Definition fourier (n : nat) (f : nat -> R) (m : nat) : C :=
  if (m <=? n / 2)%nat
  then Cmult (RtoC (2 * PI / INR n)) (csum n (fun j => Cmult (RtoC (f j)) (cis (- (2 * PI * INR j * INR m / INR n)))))
  else RtoC 0.
(** Longitudinal synthesis of the orders 0..sz-1: real part of the sum over positive
    and negative orders; the orders 0 and n/2 are their own mirror image. *)
Definition mirror (n m : nat) : R := if ((m =? 0) || (2 * m =? n))%nat%bool then 1 else 2.
Definition synth (n sz : nat) (c : nat -> C) (j : nat) : R :=
  rsum sz (fun m => if (m <=? n / 2)%nat then mirror n m * Re (Cmult (c m) (cis (2 * PI * INR j * INR m / INR n))) else 0).
