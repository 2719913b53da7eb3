(** The distributed transforms (torch_harmonics/distributed/distributed_sht.py)
    on a P x A process grid: rank (p, a) is rank p of its polar group (the ranks
    with the same a) and rank a of its azimuth group (the ranks with the same
    p).  A run of the whole grid is a function from the per-rank inputs to the
    per-rank outcomes; None = this rank raised (or a collective mismatched). *)
From Coq Require Import List Arith Lia Bool Reals.
From Coquelicot Require Import Coquelicot.
From Verif Require Import TensorModel BigSum FFTModel TruncModel LegendreModel QuadModel SHTModel PrimModel.
Import ListNotations.
Local Open Scope nat_scope.

Definition pfam (B : Type) := nat -> nat -> option B.
Definition pmap {B D} (f : B -> option D) (x : pfam B) : pfam D := fun p a => do v <- x p a; f v.

(** [if comm_size_azimuth > 1: x = distributed_transpose_azimuth(x, (d0, d1), sizes)];
    the sizes are a local value of the calling rank.  Simplification: a rank's
    view of the collective assumes that its peers passed the same sizes (they
    are computed from the constructor arguments and the common channel count). *)
Definition az_transpose {B} (debug : bool) (A d0 d1 : nat) (sizes : pfam (list nat)) (x : pfam (tensor B)) : pfam (tensor B) :=
  if 1 <? A then fun p a => do sz <- sizes p a; distributed_transpose debug A d0 d1 sz (fun a => x p a) a else x.
Definition po_transpose {B} (debug : bool) (P d0 d1 : nat) (sizes : pfam (list nat)) (x : pfam (tensor B)) : pfam (tensor B) :=
  if 1 <? P then fun p a => do sz <- sizes p a; distributed_transpose debug P d0 d1 sz (fun p => x p a) p else x.

(** Local object of rank (p, a): constructor arguments, split shapes and the
    local slice of the table. *)
Record dsht := mkDSHT { d_nlat : nat; d_nlon : nat; d_lmax : nat; d_mmax : nat;
  d_lat_shapes : list nat; d_lon_shapes : list nat; d_l_shapes : list nat; d_m_shapes : list nat;
  d_weights : tensor R }.

(** distributed_sht.py:116-167, 287-336 (split dim 0), 437-487, 600-650 (split
    dim 1): the serial constructor's table, the four split shapes, the slice of
    the table in m.  [s] is the serial object built from the same arguments. *)
Definition dist_init (sdim P A : nat) (s : sht) (p a : nat) : option dsht :=
  do lat <- compute_split_shapes (s_nlat s) P;
  do lon <- compute_split_shapes (s_nlon s) A;
  do ls <- compute_split_shapes (s_lmax s) P;
  do ms <- compute_split_shapes (s_mmax s) A;
  do _ <- nth_error lat p; do _ <- nth_error lon a; do _ <- nth_error ls p; do _ <- nth_error ms a;
  do ws <- split_tensor_along_dim (s_weights s) sdim A;
  do w <- nth_error ws a;
  Some (mkDSHT (s_nlat s) (s_nlon s) (s_lmax s) (s_mmax s) lat lon ls ms w).

Definition dist_real_sht_init gl P A nlat nlon lmax mmax g nm cs p a : option dsht :=
  do s <- real_sht_init gl nlat nlon lmax mmax g nm cs; dist_init 0 P A s p a.
Definition dist_inverse_sht_init gl P A nlat nlon lmax mmax g nm cs p a : option dsht :=
  do s <- inverse_sht_init gl nlat nlon lmax mmax g nm cs; dist_init 0 P A s p a.
Definition dist_vector_sht_init gl P A nlat nlon lmax mmax g nm cs p a : option dsht :=
  do s <- vector_sht_init gl nlat nlon lmax mmax g nm cs; dist_init 1 P A s p a.
Definition dist_inverse_vector_sht_init gl P A nlat nlon lmax mmax g nm cs p a : option dsht :=
  do s <- inverse_vector_sht_init gl nlat nlon lmax mmax g nm cs; dist_init 1 P A s p a.

(** Zip of two families. *)
Definition pzip {B D E} (f : B -> D -> option E) (x : pfam B) (y : pfam D) : pfam E :=
  fun p a => do u <- x p a; do v <- y p a; f u v.

(** The forward methods share one control flow; the scalar (172-222, 341-391) and
    vector (492-555, 655-711) classes differ in the number [tr] of trailing
    dimensions (2 or 3), the shape checks and the contraction.  After flattening,
    every tensor has rank 1 + tr: dims (-(tr+1), -2, -1) are (0, tr - 1, tr). *)

(** The values of the intermediate variables (autograd keeps what it needs of
    them for the backward pass); the last two fields are what the methods return
    before the padding is dropped.  [X] is the element type of the input, [Y] that
    of the output. *)
Record dsteps (X Y : Type) := mkSteps { st_flat : pfam (tensor X * list nat * nat); st_x1 : pfam (tensor X);
  st_x2 : pfam (tensor X); st_x3 : pfam (tensor C); st_x4 : pfam (tensor C); st_x5 : pfam (tensor C);
  st_x6 : pfam (tensor Y); st_x7 : pfam (tensor Y) }.
Arguments mkSteps {X Y}.
Arguments st_flat {X Y}.
Arguments st_x1 {X Y}.
Arguments st_x2 {X Y}.
Arguments st_x3 {X Y}.
Arguments st_x4 {X Y}.
Arguments st_x5 {X Y}.
Arguments st_x6 {X Y}.
Arguments st_x7 {X Y}.

(** distributed_sht.py:172-222 [DistributedRealSHT.forward] with tr = 2;
    492-555 [DistributedRealVectorSHT.forward] with tr = 3. *)
Definition dist_forward_steps (tr : nat) (check : nat -> nat -> nat -> tensor R -> option unit)
    (contract : dsht -> tensor C -> option (tensor C))
    (debug : bool) (P A : nat) (obj : pfam dsht) (x : pfam (tensor R)) : dsteps R C :=
  let flat : pfam (tensor R * list nat * nat) := fun p a =>
    do o <- obj p a; do t <- x p a;
    do _ <- check (nth p (d_lat_shapes o) 0) (nth a (d_lon_shapes o) 0) (tr + 1) t;
    flatten_and_pad_leading_dims 0%R t (Nat.max P A) tr in
  let x1 : pfam (tensor R) := pmap (fun f => Some (fst (fst f))) flat in
  let num_chans : pfam nat := pmap (fun t => Some (dimsz t 0)) x1 in
  let x2 := az_transpose debug A 0 tr (pmap (fun o => Some (d_lon_shapes o)) obj) x1 in
  let x3 := pzip (fun o t => Some (rfft_dim (d_mmax o) tr t)) obj x2 in
  let x4 := az_transpose debug A tr 0 (pmap (fun c => compute_split_shapes c A) num_chans) x3 in
  let x5 := po_transpose debug P 0 (tr - 1) (pmap (fun o => Some (d_lat_shapes o)) obj) x4 in
  let x6 := pzip contract obj x5 in
  let x7 := po_transpose debug P (tr - 1) 0 (pmap (fun c => compute_split_shapes c P) num_chans) x6 in
  mkSteps flat x1 x2 x3 x4 x5 x6 x7.
Definition dist_forward (tr : nat) (check : nat -> nat -> nat -> tensor R -> option unit)
    (contract : dsht -> tensor C -> option (tensor C))
    (debug : bool) (P A : nat) (obj : pfam dsht) (x : pfam (tensor R)) : pfam (tensor C) :=
  let st := dist_forward_steps tr check contract debug P A obj x in
  pzip (fun f t => unpad_and_unflatten_leading_dims t (snd (fst f)) (snd f)) (st_flat st) (st_x7 st).

(** distributed_sht.py:341-391 [DistributedInverseRealSHT.forward] with tr = 2;
    655-711 [DistributedInverseRealVectorSHT.forward] with tr = 3. *)
Definition dist_inverse_steps (tr : nat) (check : nat -> nat -> nat -> tensor C -> option unit)
    (contract : dsht -> tensor C -> option (tensor C))
    (debug : bool) (P A : nat) (obj : pfam dsht) (x : pfam (tensor C)) : dsteps C R :=
  let flat : pfam (tensor C * list nat * nat) := fun p a =>
    do o <- obj p a; do t <- x p a;
    do _ <- check (nth p (d_l_shapes o) 0) (nth a (d_m_shapes o) 0) (tr + 1) t;
    flatten_and_pad_leading_dims (RtoC 0) t (Nat.max P A) tr in
  let x1 : pfam (tensor C) := pmap (fun f => Some (fst (fst f))) flat in
  let num_chans : pfam nat := pmap (fun t => Some (dimsz t 0)) x1 in
  let x2 := po_transpose debug P 0 (tr - 1) (pmap (fun o => Some (d_l_shapes o)) obj) x1 in
  let x3 := pzip contract obj x2 in
  let x4 := po_transpose debug P (tr - 1) 0 (pmap (fun c => compute_split_shapes c P) num_chans) x3 in
  let x5 := az_transpose debug A 0 tr (pmap (fun o => Some (d_m_shapes o)) obj) x4 in
  let x6 := pzip (fun o t => Some (irfft_dim (d_nlon o) tr t)) obj x5 in
  let x7 := az_transpose debug A tr 0 (pmap (fun c => compute_split_shapes c A) num_chans) x6 in
  mkSteps flat x1 x2 x3 x4 x5 x6 x7.
Definition dist_inverse (tr : nat) (check : nat -> nat -> nat -> tensor C -> option unit)
    (contract : dsht -> tensor C -> option (tensor C))
    (debug : bool) (P A : nat) (obj : pfam dsht) (x : pfam (tensor C)) : pfam (tensor R) :=
  let st := dist_inverse_steps tr check contract debug P A obj x in
  pzip (fun f t => unpad_and_unflatten_leading_dims t (snd (fst f)) (snd f)) (st_flat st) (st_x7 st).

Definition scalar_contract (o : dsht) (t : tensor C) : option (tensor C) := legcontract (d_weights o) 1 2 t.
Definition vector_contract (o : dsht) (t : tensor C) : option (tensor C) :=
  veccontract (select0 0 (d_weights o)) (select0 1 (d_weights o)) 1 2 3 t.

Definition dist_real_sht := dist_forward 2 (fun a b k t => sht_check a b k t) scalar_contract.
Definition dist_inverse_sht := dist_inverse 2 (fun a b k t => sht_check a b k t) scalar_contract.
Definition dist_vector_sht := dist_forward 3 (fun a b k t => vec_check a b k t) vector_contract.
Definition dist_inverse_vector_sht := dist_inverse 3 (fun a b k t => vec_check a b k t) vector_contract.
