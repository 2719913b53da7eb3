(** What the users of the PDE dataset expect. *)
From Coq Require Import List Arith Reals.
From Verif Require Import BigSum.
Local Open Scope R_scope.

Definition total (h w : nat) (f : nat -> nat -> R) : R := rsum h (fun k => rsum w (fun j => f k j)).
(** A field with mean 0 and unbiased variance 1 over the grid points. *)
Definition standardised (h w : nat) (f : nat -> nat -> R) : Prop :=
  total h w f = 0 /\ total h w (fun k j => f k j ^ 2) = INR (h * w - 1).
(** [a] is [f] in the units given by an offset and a positive scale per channel. *)
Definition in_units (mean sd : nat -> R) (f a : nat -> nat -> nat -> R) (h w : nat) : Prop :=
  forall c k j, (c < 3)%nat -> (k < h)%nat -> (j < w)%nat -> f c k j = mean c + sd c * a c k j.

(** The zonal jet of Galewsky, Scott and Polvani: a bump function of the latitude between pi/7 and
    pi/2 - pi/7 whose largest value is 80 m/s. *)
Definition jet_south : R := PI / 7.
Definition jet_north : R := PI / 2 - PI / 7.
Definition jet_wind (lat : R) : R :=
  if Rle_dec lat jet_south then 0 else if Rle_dec jet_north lat then 0 else
  80 * exp (4 / (jet_north - jet_south) ^ 2 - 1 / ((lat - jet_south) * (jet_north - lat))).
(** The height of the bump that disturbs it, centred at the latitude pi/4 and the longitude pi. *)
Definition bump_height (hamp lat lon : R) : R :=
  hamp * cos lat * exp (- 9 * (lon - PI) ^ 2 - 15 * (PI / 4 - lat) ^ 2).
