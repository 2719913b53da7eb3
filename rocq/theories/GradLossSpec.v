(** Independent specification of the losses on gradients. *)
From Coq Require Import List Arith Lia Bool Reals.
From Coquelicot Require Import Hierarchy Derive.
From Verif Require Import TensorModel BigSum.
Import ListNotations.
Local Open Scope R_scope.

(** A trigonometric polynomial of degree M. *)
Definition trig (M : nat) (a b : nat -> R) (t : R) : R :=
  rsum (S M) (fun m => a m * cos (INR m * t) + b m * sin (INR m * t)).
(** Samples f at n equispaced points of one period, the shortest wave of even n apart. *)
Definition interpolates (n M : nat) (a b : nat -> R) (d : R) (f : nat -> R) : Prop :=
  (2 * M < n)%nat /\ (Nat.odd n = true -> d = 0) /\
  forall l, (l < n)%nat -> f l = trig M a b (2 * PI * INR l / INR n) + d * (-1) ^ l.
(** g holds the derivatives, times c, of the trigonometric interpolant of f without its
    shortest wave. *)
Definition spectral_derivative (n : nat) (c : R) (f g : nat -> R) : Prop :=
  exists M a b d, interpolates n M a b d f /\
  forall l, (l < n)%nat -> is_derive (trig M a b) (2 * PI * INR l / INR n) (g l / c).
(** Cosine distance of the normals (-u, -v, 1) of two surfaces with gradients (u, v), (u', v'). *)
Definition cosine_distance (u v u' v' : R) : R :=
  1 - (u * u' + v * v' + 1) / (sqrt (u * u + v * v + 1) * sqrt (u' * u' + v' * v' + 1)).
(** gp, gt are the gradients of x: derivatives of the interpolants along rows and columns *)
Definition gradients (nlat nlon : nat) (lead : list nat) (x : tensor R) (gp gt : list nat -> nat -> nat -> R) : Prop :=
  forall i, valid lead i -> (forall k, (k < nlat)%nat -> spectral_derivative nlon 1 (fun j => val x (i ++ [k; j])) (gp i k)) /\
                            (forall j, (j < nlon)%nat -> spectral_derivative nlat 2 (fun k => val x (i ++ [k; j])) (fun k => gt i k j)).
