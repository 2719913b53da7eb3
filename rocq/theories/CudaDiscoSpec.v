(** What a CUDA launch of the DISCO kernels is expected to do. *)
From Coq Require Import List Arith Lia Bool Reals Sorted.
From Verif Require Import TensorModel DiscoModel DiscoSpec GpuModel GpuSpec CudaDiscoModel.
Import ListNotations.
Local Open Scope nat_scope.

(** Started on a zero output, whatever the registers and the shared arrays hold, every
    execution ends, without a fault or a deadlock, with the tensor T. *)
Definition computes (k : kernel) (s : list nat) (T : tensor R) : Prop :=
  forall rg sh, settles k (start k rg sh (fun _ => 0%R)) (fun out => teq (tensor_of s out) T).

(** The entries of one row of one kernel address image rows (of width w) in nondecreasing
    order. *)
Definition lats_sorted (w : nat) (es : list entry) : Prop := forall k t, Sorted le (map (fun e => col e / w) (at_key k t es)).

(** The number of threads per block for an output of width W. *)
Definition lanes (W : nat) : nat := if W <=? 64 * 32 then 64 else if W <=? 128 * 32 then 128 else if W <=? 256 * 32 then 256 else if W <=? 512 * 32 then 512 else 1024.
(** W rounded up to a multiple of n. *)
Definition round_up (n W : nat) : nat := (W + n - 1) / n * n.
(** The smallest number of elements a thread of the backward kernel handles. *)
Definition least_share (W : nat) : nat := if W <=? 64 * 32 then 1 else 17.
