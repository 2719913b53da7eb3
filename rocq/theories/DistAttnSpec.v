(** When a grid of ranks can run neighbourhood attention. *)
From Coq Require Import List Arith.
From Verif Require Import TensorModel PrimSpec AttnSpec.
Import ListNotations.

(** Every neighbour of an output point of polar rank p lies at most r rows above or below
    the input rows of that rank. *)
Definition radius_suffices (P : pattern) (Hi Wi Ho Wo Np r : nat) : Prop :=
  forall p y x pt, p < Np -> chunk_lo Ho Np p <= y < chunk_lo Ho Np p + chunk_len Ho Np p -> x < Wo -> In pt (nbrs P Hi Wi Wo y x) ->
    chunk_lo Hi Np p <= fst pt + r /\ fst pt < chunk_lo Hi Np p + chunk_len Hi Np p + r.
(** ... and no rank's shard is shorter than that. *)
Definition halo_fits (P : pattern) (Hi Wi Ho Wo Np : nat) : Prop :=
  exists r, radius_suffices P Hi Wi Ho Wo Np r /\ forall p, p < Np -> r <= chunk_len Hi Np p.
(** The longitudes of both grids are split in the same ratio. *)
Definition same_ratio (Wi Wo A : nat) : Prop :=
  forall a, a < A -> if Wi mod Wo =? 0 then chunk_len Wi A a = Wi / Wo * chunk_len Wo A a else chunk_len Wo A a = Wo / Wi * chunk_len Wi A a.
(** Every rank gets at least one row and column of both grids, the longitudes are split in the
    same ratio, and [ranks p] lists the members of the azimuth group of row p. *)
Record grid_ok (Hi Wi Ho Wo Np A : nat) (ranks : nat -> list nat) : Prop := {
  go_polar : 1 <= Np /\ Np <= Hi /\ Np <= Ho;
  go_azimuth : 1 <= A /\ A <= Wi /\ A <= Wo;
  go_ratio : same_ratio Wi Wo A;
  go_ranks : forall p, p < Np -> NoDup (ranks p) /\ length (ranks p) = A }.
