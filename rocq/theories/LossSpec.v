(** Independent specification of the spherical losses. *)
From Coq Require Import List Arith Lia Bool Reals.
From Verif Require Import TensorModel BigSum.
Import ListNotations.
Local Open Scope R_scope.

(** [F] summed over the valid indices of a shape, dimension by dimension, and averaged. *)
Fixpoint total (s : list nat) (F : list nat -> R) : R :=
  match s with [] => F [] | d :: s' => rsum d (fun k => total s' (fun i => F (k :: i))) end.
Fixpoint count (s : list nat) : nat := match s with [] => 1%nat | d :: s' => (d * count s')%nat end.
Definition average (s : list nat) (F : list nat -> R) : R := total s F / INR (count s).

(** The share of the sphere of a pixel in row k: the latitude weight over the sum of all of
    them and over the number of longitudes. *)
Definition area (w : nat -> R) (nlat nlon k : nat) : R := w k / (rsum nlat w * INR nlon).
Definition mean_on_sphere (w : nat -> R) (nlat nlon : nat) (F : nat -> nat -> R) : R :=
  rsum nlat (fun k => rsum nlon (fun j => area w nlat nlon k * F k j)).
(** The mean over the pixels a mask weighs. *)
Definition mean_on_mask (w : nat -> R) (nlat nlon : nat) (M F : nat -> nat -> R) : R :=
  rsum nlat (fun k => rsum nlon (fun j => w k * M k j * F k j)) / rsum nlat (fun k => rsum nlon (fun j => w k * M k j)).
