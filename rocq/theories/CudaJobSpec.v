(** What a sequence of kernels leaves behind, whatever the schedules, the registers and the
    shared memory each launch starts with; and what the devices must offer. *)
From Coq Require Import Arith Reals.
From Verif Require Import GpuModel GpuSpec CudaDiscoModel CudaAttnSpec CudaAttnUpModel.
Local Open Scope nat_scope.
Fixpoint job_settles {A} (j : job A) (Q : A -> Prop) : Prop :=
  match j with
  | JRun k init next => forall rg sh, settles k (start k rg sh init) (fun o => job_settles (next o) Q)
  | JEnd a => Q a
  end.
(** two points per block, of the input and of the output grid; one block row per image and
    head; [s] shared elements per point *)
Definition up_fits (dev : device) (B nh Hi Wi Ho Wo s : nat) : Prop :=
  blocks_for (Hi * Wi) 2 <= d_gridx dev /\ blocks_for (Ho * Wo) 2 <= d_gridx dev /\ B * nh <= d_gridy dev /\ 2 * s <= d_shared dev.
