(** Specification: points of the unit sphere. *)
From Coq Require Import Arith Reals.
Local Open Scope R_scope.

(** From geographic longitude and latitude in degrees *)
Definition on_map (p : R * R) : R * R * R :=
  let a := PI / 180 * fst p in let b := PI / 180 * snd p in (cos b * cos a, cos b * sin a, sin b).
(** Of the grid: colatitude theta, longitude 2 pi j / nlon *)
Definition on_grid (nlon : nat) (theta : R) (j : nat) : R * R * R :=
  let phi := 2 * PI * INR j / INR nlon in (sin theta * cos phi, sin theta * sin phi, cos theta).
