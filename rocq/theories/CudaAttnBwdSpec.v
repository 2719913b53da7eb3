(** What the device must offer for the attention backward pass in the self and downsampling direction. *)
From Coq Require Import Arith.
From Verif Require Import CudaDiscoModel CudaAttnSpec.
Local Open Scope nat_scope.
(** Shared elements per block.  Up to 16 * 512 key channels per head: a query and an output
    gradient per point, and with more than 32 threads per point an element per warp.  Above: two
    points, each with three sums over the keys as well. *)
Definition bwd_shared (Ck Cv : nat) : nat :=
  if Ck <=? 16 * 32 then 2 * (Ck + Cv) else if Ck <=? 16 * 512 then Ck + Cv + block_width Ck / 32 else 2 * (4 * Ck + Cv).
Definition bwd_points (Ck : nat) : nat := if Ck <=? 16 * 32 then 2 else if Ck <=? 16 * 512 then 1 else 2.
Definition bwd_fits (dev : device) (B nh Ck Cv Ho Wo : nat) : Prop :=
  blocks_for (Ho * Wo) (bwd_points Ck) <= d_gridx dev /\ B * nh <= d_gridy dev /\ bwd_shared Ck Cv <= d_shared dev.
