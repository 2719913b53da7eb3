(** The CUDA kernels that rescale the running state of ring attention when the running maximum
    has grown: s2_attn_fwd_ring_rescale_k, s2_attn_fwd_ring_upsample_rescale_k,
    s2_attn_bwd_ring_pass1_rescale_k.

    The arrays they read and write are one array here: the running maxima, [ns] arrays with
    one number per cell, [nv] arrays with [n] channels per cell; [cells] is batch * nlat_out *
    nlon_out.  The constant input is qdotk_max_curr.  A group is the threads that work on one
    cell: a warp of a block with several rows of threads, or the block.  Minus infinity is
    the number [ninf]; exp(ninf - x) is 0.  The early return for equal maxima is a factor of
    one: the kernel then writes the values it has read. *)
From Coq Require Import List Arith Lia Bool Reals.
From Verif Require Import TensorModel GpuModel CudaWarpModel CudaAttnModel.
Import ListNotations.
Local Open Scope nat_scope.

(** if (old == new) return; expf(old - new) *)
Definition corr_of (ninf old new : R) : R := if Req_EM_T old new then 1%R else if Req_EM_T old ninf then 0%R else exp (old - new).

Section Rescale.
Variables (ninf : R) (cells n nv ns : nat).
(** where the arrays are *)
Definition max_at (c : nat) : nat := c.
Definition scal_at (i c : nat) : nat := (1 + i) * cells + c.
Definition vec_at (j c ch : nat) : nat := (1 + ns) * cells + (j * cells + c) * n + ch.
Definition state_size : nat := (1 + ns) * cells + nv * cells * n.
(** the address to read element [a] of the state *)
Definition rd (a : nat) : nat := cells + a.
Definition r_old : nat := 0.  Definition r_new : nat := 1.  Definition r_corr : nat := 2.
Definition r_sc (i : nat) : nat := 3 + i.
Definition r_loc (j ch : nat) : nat := 3 + ns + (j * n + ch).

(** attention_cuda_fwd_ring.cu:393-398, attention_cuda_bwd_ring.cu:437-442,
    attention_cuda_fwd_ring_upsample.cu:167-173 *)
Definition resc_head (c : nat) : list instr :=
  [IGet r_old (rd (max_at c)); IGet r_new c; ISet r_corr (fun r => corr_of ninf (r r_old) (r r_new))].
(** attention_cuda_fwd_ring.cu:400-413 (nv = ns = 1) and attention_cuda_bwd_ring.cu:444-466
    (nv = ns = 2); [chans]: the channels of the thread.  In the backward kernel the sums are
    read one after the other and scaled as they are read. *)
Definition long_code (chans : nat -> list nat) (c t : nat) : list instr :=
  let mine := list_prod (seq 0 nv) (chans t) in
  resc_head c ++
  flat_map (fun i => [IGet (r_sc i) (rd (scal_at i c)); ISet (r_sc i) (fun r => r r_corr * r (r_sc i))%R]) (seq 0 ns) ++
  map (fun x => IGet (r_loc (fst x) (snd x)) (rd (vec_at (fst x) c (snd x)))) mine ++
  map (fun x => ISet (r_loc (fst x) (snd x)) (fun r => r r_corr * r (r_loc (fst x) (snd x)))%R) mine ++
  map (fun x => IOut (vec_at (fst x) c (snd x)) (fun r => r (r_loc (fst x) (snd x)))) mine ++
  (if t =? 0 then IOut (max_at c) (fun r => r r_new) :: map (fun i => IOut (scal_at i c) (fun r => r (r_sc i))) (seq 0 ns) else []).
(** attention_cuda_fwd_ring_upsample.cu:175-182 (nv = ns = 1) *)
Definition up_code (chans : nat -> list nat) (c t : nat) : list instr :=
  resc_head c ++
  flat_map (fun ch => [IGet (r_sc 0) (rd (vec_at 0 c ch)); IOut (vec_at 0 c ch) (fun r => r (r_sc 0) * r r_corr)%R]) (chans t) ++
  (if t =? 0 then [IGet (r_sc 0) (rd (scal_at 0 c)); IOut (scal_at 0 c) (fun r => r (r_sc 0) * r r_corr)%R; IOut (max_at c) (fun r => r r_new)] else []).

(** one group for every (padded) cell of a grid; [key]: the cell of the group, if any *)
Definition resc_kernel (G nT : nat) (key : nat -> option (option nat)) (code : nat -> nat -> list instr) (cur : nat -> R) : kernel :=
  mkKernel G nT 0 (cells + state_size) cur state_size
    (fun g t => match key g with None => [] | Some None => [IFault] | Some (Some c) => code c t end).
End Rescale.

(** attention_cuda_fwd_ring.cu:375-386, attention_cuda_bwd_ring.cu:417-428: [nl] rows of the
    list [rows], BY rows of threads per block; blockIdx.y is the batch.  None: the thread
    returns; Some None: row_idx is too short. *)
Definition long_width (BY nl Wo : nat) : nat := div_up (nl * Wo) BY * BY.
Definition long_key (BY nl Ho Wo : nat) (rows : list nat) (g : nat) : option (option nat) :=
  let ctaid := g mod long_width BY nl Wo in let batch := g / long_width BY nl Wo in
  if nl * Wo <=? ctaid then None
  else Some (do ho <- nth_error rows (ctaid / Wo); Some (batch * Ho * Wo + ho * Wo + (ctaid - ctaid / Wo * Wo))).
(** attention_cuda_fwd_ring_upsample.cu:161-166, 254-256 (blocks of 32 x 2 threads) *)
Definition up_width (Ho Wo : nat) : nat := div_up (Ho * Wo) 2 * 2.
Definition up_rkey (Ho Wo g : nat) : option (option nat) :=
  let wid := g mod up_width Ho Wo in let batch := g / up_width Ho Wo in
  if Ho * Wo <=? wid then None else Some (Some (batch * Ho * Wo + wid)).

(** attention_cuda_fwd_ring.cu:624-682: the launch in the forward pass for [n] channels, in
    vectors of V numbers; BD threads per row with NLOC vectors each *)
Definition fwd_rescale (ninf : R) (B Ho Wo V nvec BD BY nloc nl : nat) (rows : list nat) (cur : nat -> R) : kernel :=
  let cells := B * Ho * Wo in
  resc_kernel cells (V * nvec) 1 1 (B * long_width BY nl Wo) BD (long_key BY nl Ho Wo rows)
    (long_code ninf cells (V * nvec) 1 1 (fun t => floats V (unrolled_chans BD nloc nvec t))) cur.
(** attention_cuda_bwd_ring.cu:713-768 *)
Definition bwd_rescale (ninf : R) (B Ho Wo V nvec BD BY nloc nl : nat) (rows : list nat) (cur : nat -> R) : kernel :=
  let cells := B * Ho * Wo in
  resc_kernel cells (V * nvec) 2 2 (B * long_width BY nl Wo) BD (long_key BY nl Ho Wo rows)
    (long_code ninf cells (V * nvec) 2 2 (fun t => floats V (unrolled_chans BD nloc nvec t))) cur.
(** attention_cuda_fwd_ring.cu:1000-1004, 1043, 1097-1103, 647 and attention_cuda_bwd_ring.cu:1127-1131,
    1191, 1229, 1266, 731: the width of the block, its rows and the length of the local arrays
    for [C] channels in vectors of V; 1024 threads at most forward, 512 backward *)
Definition fwd_rescale_launch (ninf : R) (B Ho Wo V C nl : nat) (rows : list nat) (cur : nat -> R) : option kernel :=
  let BD := pick_bdimx C in
  do _ <- guard (BD <=? 1024);
  Some (fwd_rescale ninf B Ho Wo V (C / V) BD (if BD =? 32 then 2 else 1) (div_up (C / V) BD) nl rows cur).
Definition bwd_rescale_launch (ninf : R) (B Ho Wo V C nl : nat) (rows : list nat) (cur : nat -> R) : option kernel :=
  let BD := pick_bdimx C in
  do _ <- guard (BD <=? 512);
  Some (bwd_rescale ninf B Ho Wo V (C / V) BD (if BD =? 32 then 2 else 1) (div_up (C / V) BD) nl rows cur).
(** the forward or the backward one *)
Definition rescale_launch (bwd : bool) : R -> nat -> nat -> nat -> nat -> nat -> nat -> list nat -> (nat -> R) -> option kernel := if bwd then bwd_rescale_launch else fwd_rescale_launch.
(** attention_cuda_fwd_ring_upsample.cu:276-278 *)
Definition up_rescale (ninf : R) (B Ho Wo nco : nat) (cur : nat -> R) : kernel :=
  let cells := B * Ho * Wo in
  resc_kernel cells nco 1 1 (B * up_width Ho Wo) 32 (up_rkey Ho Wo) (up_code ninf cells nco 1 (loop_chans 32 nco)) cur.
