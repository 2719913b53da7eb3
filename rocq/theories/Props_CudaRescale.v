(** C66: when the maximum of the scores grows during ring attention, the GPU kernels that
    rescale the running state leave every sum and every accumulated channel multiplied by
    exp(old - new), provided all threads of a cell run together; they do not in a block of
    several warps, nor when the threads of a warp may drift apart. *)
From Coq Require Import List Arith Lia Bool Reals Lra.
From Verif Require Import TensorModel GpuModel GpuSpec GpuRwModel GpuRwSpec CudaAttnModel CudaAttnSpec DistAttnModel CudaRescaleModel CudaRescaleSpec CudaRescaleProofs4 CudaRescaleProofs5.
Import ListNotations.
Local Open Scope nat_scope.

(** Long rows, forward and backward, up to 512 channels (one warp per cell in lockstep): every
    execution ends, without a fault, with the listed rows rescaled and nothing else changed. *)
Theorem C66_rescale_lockstep : forall bwd ninf B Ho Wo V C nl rows cur, 1 <= V -> C mod V = 0 -> 1 <= C -> nl <= length rows -> NoDup rows -> (forall r, In r rows -> r < Ho) -> C <= 16 * 32 ->
  exists k, rescale_launch bwd ninf B Ho Wo V C nl rows cur = Some k /\ forall ws out rg sh, 32 <= ws ->
  lsettles ws (B * Ho * Wo) k (start k rg sh out) (rescaled (B * Ho * Wo) C (copies bwd) (copies bwd) ninf (row_cells B Ho Wo (firstn nl rows)) (fun _ => True) cur out).
Proof. exact narrow_right. Qed.
Example C66_rescale_lockstep_hyps : 1 <= 4 /\ 64 mod 4 = 0 /\ 2 <= length [3; 0; 5] /\ NoDup [3; 0; 5] /\ (forall r, In r [3; 0; 5] -> r < 6) /\ 64 <= 16 * 32 /\ row_cells 2 6 8 (firstn 2 [3; 0; 5]) (1 * 6 * 8 + 3 * 8 + 7).
Proof.
  repeat split; cbn; try lia; try (repeat constructor; cbn; lia).
  exists 1, 3, 7. cbn. repeat split; lia.
Qed.
(** The same in the upsampling direction, for any number of channels and every cell. *)
Theorem C66_upsample_lockstep : forall ninf B Ho Wo nco cur ws out rg sh, 32 <= ws -> let k := up_rescale ninf B Ho Wo nco cur in
  lsettles ws (B * Ho * Wo) k (start k rg sh out) (rescaled (B * Ho * Wo) nco 1 1 ninf (fun c => c < B * Ho * Wo) (fun _ => True) cur out).
Proof. exact up_together. Qed.
(** What [rescaled] means for the state of a cell: the rescaling of the sequential kernel. *)
Theorem C66_same_as_sequential : forall cells n ninf cov cur out o c st m', rescaled cells n 1 1 ninf cov (fun _ => True) cur out o -> cov c -> holds cells n 1 ninf out c st -> cur c = as_num ninf m' ->
  (forall m, r_max st = Some m -> m <> ninf) -> (forall m, m' = Some m -> m <> ninf) -> (m' = None -> r_max st = None) -> holds cells n 1 ninf o c (rescale m' st).
Proof. exact rescaled_holds. Qed.
Example C66_same_as_sequential_hyps : exists out st, holds 1 1 1 (-1000) out 0 st /\ r_max st = Some 1%R /\ r_sum st = 2%R /\ r_acc st 0 = 3%R.
Proof.
  exists (fun a => match a with 0 => 1%R | 1 => 2%R | _ => 3%R end), (mkR 2 (Some 1%R) (fun _ => 3%R)).
  unfold holds, the_max, the_sum, the_acc. cbn. repeat split.
Qed.
(** More than 512 channels: a block of several warps per cell.  Even with each warp in
    lockstep some execution stores the new maximum but leaves channels of the second warp
    unscaled, for every state with a grown maximum and a nonzero entry there. *)
Theorem C66_wide_block_refuted : forall bwd ninf B Ho Wo V C nl rows cur out c j, V = 1 \/ V = 4 -> C mod V = 0 -> nl <= length rows -> NoDup rows -> (forall r, In r rows -> r < Ho) ->
  row_cells B Ho Wo (firstn nl rows) c -> j < copies bwd -> the_max out c <> cur c -> forall rg sh, 16 * 32 < C -> C <= max_chans bwd -> the_acc (B * Ho * Wo) C (copies bwd) out j c (32 * V) <> 0%R ->
  exists k, rescale_launch bwd ninf B Ho Wo V C nl rows cur = Some k /\
  may_end 32 (B * Ho * Wo) k (start k rg sh out) (fun o => (forall c, row_cells B Ho Wo (firstn nl rows) c -> the_max o c = cur c) /\ ~ rescaled (B * Ho * Wo) C (copies bwd) (copies bwd) ninf (row_cells B Ho Wo (firstn nl rows)) (fun _ => True) cur out o).
Proof. exact wide_refuted. Qed.
Example C66_wide_block_refuted_hyps : exists out cur : nat -> R, the_max out 7 <> cur 7 /\ the_acc (2 * 6 * 8) 1024 1 out 0 7 (32 * 4) <> 0%R /\ row_cells 2 6 8 (firstn 2 [3; 0; 5]) 7 /\ 16 * 32 < 1024 /\ 1024 <= max_chans false.
Proof. exists (fun _ => 1%R), (fun _ => 2%R). unfold the_max, the_acc. repeat split; try lra; try (cbn; lia). exists 0, 0, 7. cbn. repeat split; lia. Qed.
(** Up to 512 channels, when the threads of a warp may run in any order. *)
Theorem C66_free_threads_refuted : forall bwd ninf B Ho Wo V C nl rows cur out c j, V = 1 \/ V = 4 -> C mod V = 0 -> nl <= length rows -> NoDup rows -> (forall r, In r rows -> r < Ho) ->
  row_cells B Ho Wo (firstn nl rows) c -> j < copies bwd -> the_max out c <> cur c -> forall rg sh, V < C -> C <= 16 * 32 -> the_acc (B * Ho * Wo) C (copies bwd) out j c V <> 0%R ->
  exists k, rescale_launch bwd ninf B Ho Wo V C nl rows cur = Some k /\
  may_end 1 (B * Ho * Wo) k (start k rg sh out) (fun o => (forall c, row_cells B Ho Wo (firstn nl rows) c -> the_max o c = cur c) /\ ~ rescaled (B * Ho * Wo) C (copies bwd) (copies bwd) ninf (row_cells B Ho Wo (firstn nl rows)) (fun _ => True) cur out o).
Proof. exact free_refuted. Qed.
Theorem C66_upsample_free_threads_refuted : forall ninf B Ho Wo nco cur out c rg sh, c < B * Ho * Wo -> 2 <= nco -> the_max out c <> cur c -> the_acc (B * Ho * Wo) nco 1 out 0 c 1 <> 0%R -> let k := up_rescale ninf B Ho Wo nco cur in
  may_end 1 (B * Ho * Wo) k (start k rg sh out) (fun o => (forall c, c < B * Ho * Wo -> the_max o c = cur c) /\ ~ rescaled (B * Ho * Wo) nco 1 1 ninf (fun c => c < B * Ho * Wo) (fun _ => True) cur out o).
Proof. exact up_refuted. Qed.
Print Assumptions C66_rescale_lockstep.
Print Assumptions C66_upsample_lockstep.
Print Assumptions C66_same_as_sequential.
Print Assumptions C66_wide_block_refuted.
Print Assumptions C66_free_threads_refuted.
Print Assumptions C66_upsample_free_threads_refuted.
