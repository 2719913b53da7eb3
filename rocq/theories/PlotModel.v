(** Where plot_sphere draws the entries of a field (torch_harmonics/plotting.py:150-174).

    The mesh handed to pcolormesh is modelled; projections, colours and decorations are not. *)
From Coq Require Import Arith Reals.
From Verif Require Import QuadModel.
Local Open Scope R_scope.

(** plotting.py:158-159 *)
Definition mesh_lon (nlon : nat) (lon : option (nat -> R)) : nat -> R :=
  match lon with Some l => l | None => linspace 0 (2 * PI) (nlon + 1) end.
(** plotting.py:160-161 *)
Definition mesh_lat (nlat : nat) (lat : option (nat -> R)) : nat -> R :=
  match lat with Some l => l | None => linspace (PI / 2.0) (- PI / 2.0) nlat end.
(** plotting.py:162-166, 174: longitude and latitude in degrees at which entry (k, j) of the data is drawn; np.meshgrid's default indexing
    puts the longitudes along the columns *)
Definition mesh (nlat nlon : nat) (lon lat : option (nat -> R)) (k j : nat) : R * R :=
  (mesh_lon nlon lon j * 180 / PI, mesh_lat nlat lat k * 180 / PI).
