(** What a CUDA launch of the attention kernels is expected to do, and what it needs. *)
From Coq Require Import List Arith Lia Bool Reals.
From Verif Require Import TensorModel GpuModel GpuSpec CudaDiscoModel.
Import ListNotations.
Local Open Scope nat_scope.

(** Started on any output, whatever the registers and the shared arrays hold, every execution
    ends, without a fault or a deadlock, with the tensor T. *)
Definition overwrites (k : kernel) (s : list nat) (T : tensor R) : Prop :=
  forall rg sh out, settles k (start k rg sh out) (fun o => teq (tensor_of s o) T).

(** The number of threads for C channels per head, up to 16 * 1024 of them. *)
Definition block_width (C : nat) : nat :=
  if C <=? 16 * 32 then 32 else if C <=? 16 * 64 then 64 else if C <=? 16 * 128 then 128 else if C <=? 16 * 256 then 256 else if C <=? 16 * 512 then 512 else 1024.
(** Output points per block, shared elements: two points of 32 threads each and nothing but
    the channels, or one point and an element per warp. *)
Definition block_points (C : nat) : nat := if C <=? 16 * 32 then 2 else 1.
Definition fwd_shared (Ck Cv : nat) : nat := if Cv <=? 16 * 32 then 2 * Ck else Ck + block_width Cv / 32.
(** ceil (n / p) *)
Definition blocks_for (n p : nat) : nat := (n + p - 1) / p.
Definition fwd_fits (dev : device) (B nh Ck Cv Ho Wo : nat) : Prop :=
  blocks_for (Ho * Wo) (block_points Cv) <= d_gridx dev /\ B * nh <= d_gridy dev /\ fwd_shared Ck Cv <= d_shared dev.
