(** Independent specification of the random fields. *)
From Coq Require Import List Arith Lia Bool Reals.
From Coquelicot Require Import Coquelicot.
From Verif Require Import TensorModel BigSum GrfModel.
Import ListNotations.
Local Open Scope R_scope.

(** The documented covariance spectrum C_l = sigma^2 (l (l+1) / R^2 + tau^2)^(-alpha)
    (random_fields.py:44-48), and the amplitude used when none is given. *)
Definition matern (sigma tau radius alpha : R) (l : nat) : R :=
  sigma ^ 2 * Rpower (INR l * (INR l + 1) / radius ^ 2 + tau ^ 2) (- alpha).
(** The amplitude the noise of degree l and order m is scaled by: the root of the spectrum
    (with the sign of sigma), nothing for the constant mode and above the diagonal. *)
Definition amp (alpha tau s radius : R) (l m : nat) : R :=
  if ((1 <=? l) && (m <=? l))%nat%bool then s * Rpower (INR l * (INR l + 1) / radius ^ 2 + tau ^ 2) (- alpha / 2) else 0.
Definition default_sigma (alpha tau : R) (sigma : option R) (s : R) : Prop :=
  match sigma with Some v => s = v | None => 1 < alpha /\ s ^ 2 = Rpower tau (2 * alpha - 2) /\ 0 < s end.

(** Noise that is one at a single mode. *)
Definition unit_noise (shape : list nat) (z : C) (l m : nat) : tensor C :=
  mkT shape (fun i => if (nth (length shape - 2) i 0 =? l)%nat && (nth (length shape - 1) i 0 =? m)%nat then z else RtoC 0).
Definition value_at (o : option (tensor R)) (i : list nat) : R := match o with Some t => val t i | None => 0 end.
(** The variance of the sampled field at pixel (k, j): the noise has independent standard
    normal real and imaginary parts, so the variance of a linear function of it is the sum
    of the squared responses to the unit noises. *)
Definition variance (f : grf) (L M k j : nat) : R :=
  rsum L (fun l => rsum M (fun m =>
    value_at (grf_forward f (unit_noise [1; L; M]%nat (RtoC 1) l m)) [0; k; j]%nat ^ 2 +
    value_at (grf_forward f (unit_noise [1; L; M]%nat Ci l m)) [0; k; j]%nat ^ 2)).
