(** Filters split by input latitude. *)
From Coq Require Import List Arith Lia Bool Reals.
From Verif Require Import TensorModel BigSum PrimSpec DiscoModel DiscoSpec.
Import ListNotations.
Local Open Scope nat_scope.

(** The entries that read the latitudes of polar rank [p]. *)
Definition lat_slice (h w P p : nat) (es : list entry) : list entry :=
  filter (fun e => (chunk_lo h P p <=? col e / w) && (col e / w <? chunk_lo h P (S p))) es.
(** Every rank has at least two entries ... *)
Definition slices_filled (h w P : nat) (es : list entry) : Prop := forall p, p < P -> 2 <= length (lat_slice h w P p es).
(** ... and in every slice the last row of each kernel differs from the first row of
    the next. *)
Definition slices_separated (K h w P : nat) (es : list entry) : Prop := forall p, p < P -> kernels_separated K (lat_slice h w P p es).
