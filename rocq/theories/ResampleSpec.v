(** Independent specification of interpolation on a latitude-longitude grid. *)
From Coq Require Import Arith Lia Reals.
From Verif Require Import TensorModel BigSum ResampleModel.
Local Open Scope R_scope.

(** Colatitudes of a grid: strictly increasing in [0, PI]; either both poles are
    grid points or none is. *)
Definition good_lats (n : nat) (xs : nat -> R) : Prop :=
  (1 <= n)%nat /\ (forall i j, (i < j)%nat -> (j < n)%nat -> xs i < xs j) /\
  0 <= xs 0%nat /\ xs (n - 1)%nat <= PI /\ (xs 0%nat = 0 <-> xs (n - 1)%nat = PI).

(** A field given by its values, with the two polar rows added: row 0 and row
    h + 1 hold the mean of the first and of the last row. *)
Definition mean_row (w : nat) (f : nat -> nat -> R) (a : nat) : R := rsum w (f a) / INR w.
Definition with_poles (h w : nat) (f : nat -> nat -> R) (a b : nat) : R :=
  if (a =? 0)%nat then mean_row w f 0 else if (a =? h + 1)%nat then mean_row w f (h - 1) else f (a - 1)%nat b.
Definition lats_with_poles (h : nat) (xs : nat -> R) (a : nat) : R :=
  if (a =? 0)%nat then 0 else if (a =? h + 1)%nat then PI else xs (a - 1)%nat.

(** [k] and [t] locate [v] in the sequence [xs] of length [n]: linear coordinates. *)
Definition located (n : nat) (xs : nat -> R) (v : R) (k : nat) (t : R) : Prop :=
  (k + 1 < n)%nat /\ 0 <= t <= 1 /\ xs k < xs (k + 1)%nat /\ v = xs k + t * (xs (k + 1)%nat - xs k).

(** Longitudes 2 pi b / n; [located_lon]: v lies a fraction [t] of a cell after
    longitude number [b], and [c] is the next longitude on the circle. *)
Definition lon (n b : nat) : R := 2 * PI * INR b / INR n.
Definition located_lon (n : nat) (v : R) (b c : nat) (t : R) : Prop :=
  (b < n)%nat /\ (c = (b + 1) mod n)%nat /\ 0 <= t < 1 /\ v = lon n b + t * (2 * PI / INR n).

(** ** Grids *)
From Verif Require Import TruncModel QuadModel.
(** The colatitudes the library uses for a grid. *)
Definition lats (gl : nat -> rule) (n : nat) (g : grid) : nat -> R :=
  match precompute_latitudes gl n g with Some q => rn q | None => fun _ => 0 end.
(** Grids covered.  For the two rules computed by iteration (numpy's leggauss, an
    external routine, and lobatto_weights) the order of the nodes is an assumption. *)
Definition supported (gl : nat -> rule) (n : nat) (g : grid) : Prop :=
  match g with
  | GEquiangular | GTrapezoidal => (2 <= n)%nat
  | GLegendreGauss => (1 <= n)%nat /\ (forall i, (i < n)%nat -> -1 < rn (gl n) i < 1) /\
      (forall i j, (i < j)%nat -> (j < n)%nat -> rn (gl n) i < rn (gl n) j)
  | GLobatto => (2 <= n)%nat /\ forall q, lobatto_default n (-1) 1 = Some q ->
      rn q 0%nat = -1 /\ rn q (n - 1)%nat = 1 /\ (forall i j, (i < j)%nat -> (j < n)%nat -> rn q i < rn q j)
  | GOther => False
  end.
Definition set_skip (b : bool) (r : resampler) : resampler :=
  mkRes (rs_mode r) (rs_nlat_in r) (rs_nlon_in r) (rs_nlat_out r) (rs_nlon_out r) (rs_expand r) b
        (rs_lat_idx r) (rs_lat_w r) (rs_lon_l r) (rs_lon_r r) (rs_lon_w r).
