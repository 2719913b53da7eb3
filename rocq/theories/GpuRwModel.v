(** Kernels that read arrays they also write.

    The machine of GpuModel reads its input from an array that never changes.  Here the input
    addresses from [base] on are the output array itself: a read sees what the output holds
    at that moment, whichever thread wrote it.  Everything else is GpuModel's. *)
From Coq Require Import List Arith Lia Bool Reals.
From Verif Require Import TensorModel GpuModel.
Import ListNotations.
Local Open Scope nat_scope.

Definition alias (base : nat) (k : kernel) (out : nat -> R) : kernel :=
  mkKernel (k_groups k) (k_threads k) (k_shared k) (k_insize k) (fun j => if j <? base then k_in k j else out (j - base)) (k_outsize k) (k_code k).
Definition rexec (base : nat) (k : kernel) (l : label) (s : state) : option state := exec (alias base k (s_out s)) l s.
