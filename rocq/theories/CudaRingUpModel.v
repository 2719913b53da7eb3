(** The CUDA kernels of one ring step of the distributed neighbourhood attention in the
    upsampling direction (attention_cuda_fwd_ring_upsample.cu,
    attention_cuda_bwd_ring_upsample.cu), on the interleaving machine.

    As in CudaAttnUpModel: exact reals, checked accesses, a group is a warp, and the loop
    around atomicCAS is one atomic maximum.  Minus infinity is a number below all scores (see
    CudaRescaleModel).  Offsets do not overflow. *)
From Coq Require Import List Arith Lia Bool ZArith Reals.
From Verif Require Import TensorModel DistAttnModel AttnModel GpuModel CudaDiscoModel CudaWarpModel CudaAttnModel CudaAttnUpModel CudaRescaleModel.
Import ListNotations.
Local Open Scope nat_scope.

Section Ring.
(** H x W cells of the chunk, of which the first column is column lon_lo and the first row is
    row lat0 of the whole input; Ho x Wo output cells of this rank, WoG longitudes in total *)
Variables (B nci nco H W Ho Wo WoG ps lon_lo : nat) (lat0 : Z) (roff col : list nat).

(** attention_cuda_fwd_ring_upsample.cu:136-140, 214-218, attention_cuda_bwd_ring_upsample.cu:
    129-133, 210-214: the output cell of an entry, unless it is another rank's (continue) *)
Definition target (wi c : nat) : list (nat * nat) :=
  let ho := c / WoG in
  match up_local_wo Wo WoG ps (c - ho * WoG) (lon_lo + wi) with None => [] | Some wo => [(ho, wo)] end.
(** attention_cuda_fwd_ring_upsample.cu:113-128, 197-211, attention_cuda_bwd_ring_upsample.cu:
    104-116, 178-190: the chunk cell of group g and the row it walks; a group with an empty row
    returns before it touches any other array *)
Definition ring_group (body : nat -> nat -> nat -> list (nat * nat) -> list gstep) (g : nat) : list gstep :=
  let gx := div_up (H * W) 2 in
  let wid := g mod (gx * 2) in let batch := g / (gx * 2) in
  if H * W <=? wid then [] else
  let hi := wid / W in let wi := wid - hi * W in
  match row_of roff col hi with None => fault | Some [] => [] | Some row => body batch hi wi (flat_map (target wi) row) end.
(** the first channel of a cell of an array [B][h][w][nc] *)
Definition chan0 (nc h w batch cell : nat) : nat := batch * h * w * nc + cell * nc.
Definition out_at (p : nat * nat) : nat := fst p * Wo + snd p.
Definition in_at (hi wi : nat) : nat := hi * W + wi.
(** quad_weights[lat_halo_start + hi] *)
Definition get_w (pw : nat * nat) (hi : nat) : instr :=
  let i := (lat0 + Z.of_nat hi)%Z in if (i <? 0)%Z then IFault else get pw r_w (Z.to_nat i).
Notation cells := (B * Ho * Wo).
Notation qb batch p := (chan0 nci Ho Wo batch (out_at p)).
Notation kb batch hi wi := (chan0 nci H W batch (in_at hi wi)).
Notation vb batch hi wi := (chan0 nco H W batch (in_at hi wi)).
Notation at_out batch p := (bcell Ho Wo batch (out_at p)).

Section Max.
Variables (pk pq : nat * nat).
(** attention_cuda_fwd_ring_upsample.cu:134-149 *)
Definition rmax_entry (batch : nat) (p : nat * nat) : list gstep :=
  [Seg (up_dot r_dot 0 pq (qb batch p) nci)] ++ warp_sum (fun _ => true) r_dot ++
  [Seg (fun t => if t =? 0 then [add_out AMax (0, cells) (at_out batch p) (fun r => r r_dot)] else [])].
(** attention_cuda_fwd_ring_upsample.cu:107-151 [s2_attn_fwd_ring_upsample_max_k] *)
Definition rmax_body (batch hi wi : nat) (tg : list (nat * nat)) : list gstep :=
  [Seg (up_copy 0 pk (kb batch hi wi) nci)] ++ flat_map (rmax_entry batch) tg.
End Max.

Section Acc.
Variables (pk pv pq pw pm : nat * nat).
(** alpha_sum_buf and y_acc *)
Definition p_rsum : nat * nat := (0, cells).
Definition p_racc : nat * nat := (cells, cells * nco).
(** attention_cuda_fwd_ring_upsample.cu:212-232 *)
Definition racc_entry (batch : nat) (p : nat * nat) : list gstep :=
  [Seg (up_dot r_dot 0 pq (qb batch p) nci)] ++ warp_sum (fun _ => true) r_dot ++
  [Seg (fun t => [get pm r_max (at_out batch p); ISet r_alpha (fun r => exp (r r_dot - r r_max) * r r_w)%R] ++
     (if t =? 0 then [add_out AAdd p_rsum (at_out batch p) (fun r => r r_alpha)] else []) ++
     flat_map (fun c => [ILoad r_t (nci + c); add_out AAdd p_racc (chan0 nco Ho Wo batch (out_at p) + c) (fun r => r r_alpha * r r_t)%R]) (loop_chans 32 nco t))].
(** attention_cuda_fwd_ring_upsample.cu:183-234 [s2_attn_fwd_ring_upsample_acc_k] *)
Definition racc_body (batch hi wi : nat) (tg : list (nat * nat)) : list gstep :=
  [Seg (fun t => up_copy 0 pk (kb batch hi wi) nci t ++ up_copy nci pv (vb batch hi wi) nco t ++ [get_w pw hi])] ++
  flat_map (racc_entry batch) tg.
End Acc.

Section Stats.
Variables (pk pv pq pdy pw pm : nat * nat).
(** integral_buf, alpha_k_buf and alpha_kvw_buf *)
Definition p_rint : nat * nat := (0, cells).
Definition p_rk : nat * nat := (cells, cells * nci).
Definition p_rkvw : nat * nat := (cells + cells * nci, cells * nci).
(** attention_cuda_bwd_ring_upsample.cu:127-156 *)
Definition rstats_entry (batch : nat) (p : nat * nat) : list gstep :=
  [Seg (fun t => up_dot r_dot 0 pq (qb batch p) nci t ++ up_dot r_gd nci pdy (chan0 nco Ho Wo batch (out_at p)) nco t)] ++
  warp_sum (fun _ => true) r_dot ++ warp_sum (fun _ => true) r_gd ++
  [Seg (fun t => [get pm r_max (at_out batch p); ISet r_alpha (fun r => exp (r r_dot - r r_max) * r r_w)%R; ISet r_ag (fun r => r r_alpha * r r_gd)%R] ++
     (if t =? 0 then [add_out AAdd p_rint (at_out batch p) (fun r => r r_ag)] else []) ++
     flat_map (fun c => [ILoad r_t c; add_out AAdd p_rk (qb batch p + c) (fun r => r r_alpha * r r_t)%R;
                         ILoad r_t c; add_out AAdd p_rkvw (qb batch p + c) (fun r => r r_ag * r r_t)%R]) (loop_chans 32 nci t))].
(** attention_cuda_bwd_ring_upsample.cu:90-159 [s2_attn_bwd_ring_upsample_stats_k] *)
Definition rstats_body (batch hi wi : nat) (tg : list (nat * nat)) : list gstep :=
  [Seg (fun t => up_copy 0 pk (kb batch hi wi) nci t ++ up_copy nci pv (vb batch hi wi) nco t ++ [get_w pw hi])] ++
  flat_map (rstats_entry batch) tg.
End Stats.

Section Dkv.
Variables (pk pv pq pdy pw ps' pm pi : nat * nat) (ksize vsize : nat).
(** attention_cuda_bwd_ring_upsample.cu:208-233 *)
Definition rdkv_entry (batch : nat) (p : nat * nat) : list gstep :=
  let db := chan0 nco Ho Wo batch (out_at p) in
  [Seg (fun t => up_dot r_dot 0 pq (qb batch p) nci t ++ up_dot r_gd (sh_v nci) pdy db nco t)] ++
  warp_sum (fun _ => true) r_dot ++ warp_sum (fun _ => true) r_gd ++
  [Seg (fun t => [get pm r_max (at_out batch p); get ps' r_s (at_out batch p); ISet r_alpha (fun r => exp (r r_dot - r r_max) * r r_w / r r_s)%R;
                  get pi r_int (at_out batch p); ISet r_ag (fun r => (r r_gd - r r_int) * r r_alpha)%R] ++
     flat_map (fun c => [ILoad r_t (sh_dv nci nco + c); get pdy r_u (db + c); IStore (sh_dv nci nco + c) (fun r => r r_t + r r_alpha * r r_u)%R]) (loop_chans 32 nco t) ++
     flat_map (fun c => [ILoad r_t (sh_dk nci nco + c); get pq r_u (qb batch p + c); IStore (sh_dk nci nco + c) (fun r => r r_t + r r_ag * r r_u)%R]) (loop_chans 32 nci t))].
(** attention_cuda_bwd_ring_upsample.cu:163-238 [s2_attn_bwd_ring_upsample_dkv_k] *)
Definition rdkv_body (batch hi wi : nat) (tg : list (nat * nat)) : list gstep :=
  [Seg (fun t => flat_map (fun c => [get pk r_t (kb batch hi wi + c); IStore c (fun r => r r_t); IStore (sh_dk nci nco + c) (fun _ => 0%R)]) (loop_chans 32 nci t) ++
                 flat_map (fun c => [get pv r_t (vb batch hi wi + c); IStore (sh_v nci + c) (fun r => r r_t); IStore (sh_dv nci nco + c) (fun _ => 0%R)]) (loop_chans 32 nco t) ++ [get_w pw hi])] ++
  flat_map (rdkv_entry batch) tg ++
  [Seg (fun t => flat_map (fun c => [ILoad r_t (sh_dk nci nco + c); set_out (0, ksize) (kb batch hi wi + c) (fun r => r r_t)]) (loop_chans 32 nci t) ++
                 flat_map (fun c => [ILoad r_t (sh_dv nci nco + c); set_out (ksize, vsize) (vb batch hi wi + c) (fun r => r r_t)]) (loop_chans 32 nco t))].
End Dkv.

(** *** Launches.  Arrays: kx [B][H][W][nci], vx [B][H][W][nco], qy [B][Ho][Wo][nci],
    dy [B][Ho][Wo][nco], nq quadrature weights, and buffers of [B][Ho][Wo] cells. *)
Variables (nq : nat) (kA vA qA dA quadA : nat -> R).
Notation ksz := (B * H * W * nci).  Notation vsz := (B * H * W * nco).
Notation qsz := (cells * nci).  Notation dsz := (cells * nco).
Notation gin := (div_up (H * W) 2).  Notation gout := (div_up (Ho * Wo) 2).

(** attention_cuda_fwd_ring_upsample.cu:269-272 *)
Definition rmax_kernel : kernel :=
  let arr := [(ksz, kA); (qsz, qA)] in
  warp_kernel B (H * W) nci arr cells (ring_group (rmax_body (part arr 0) (part arr 1))).
(** attention_cuda_fwd_ring_upsample.cu:280-283; [m] is qdotk_max_buf *)
Definition racc_kernel (m : nat -> R) : kernel :=
  let arr := [(ksz, kA); (vsz, vA); (qsz, qA); (nq, quadA); (cells, m)] in
  warp_kernel B (H * W) (nci + nco) arr (cells + cells * nco)
    (ring_group (racc_body (part arr 0) (part arr 1) (part arr 2) (part arr 3) (part arr 4))).
(** attention_cuda_fwd_ring_upsample.cu:245-285 [launch_attn_fwd_ring_upsample_step]: the three
    launches; the second gets the new maxima, the third the committed ones *)
Definition ring_up_fwd (dev : device) (ninf : R) : option (kernel * ((nat -> R) -> kernel) * ((nat -> R) -> kernel)) :=
  do _ <- guard (launchable dev gin B (nci * 2) && launchable dev gout B 0 && launchable dev gin B ((nci + nco) * 2));
  Some (rmax_kernel, up_rescale ninf B Ho Wo nco, racc_kernel).
(** attention_cuda_bwd_ring_upsample.cu:242-309 [s2_attention_bwd_ring_step_upsample_pass1_cuda] *)
Definition ring_up_pass1 (dev : device) (m : nat -> R) : option kernel :=
  do _ <- guard (launchable dev gin B ((nci + nco) * 2));
  let arr := [(ksz, kA); (vsz, vA); (qsz, qA); (dsz, dA); (nq, quadA); (cells, m)] in
  Some (warp_kernel B (H * W) (nci + nco) arr (cells + 2 * (cells * nci))
    (ring_group (rstats_body (part arr 0) (part arr 1) (part arr 2) (part arr 3) (part arr 4) (part arr 5)))).
(** attention_cuda_bwd_ring_upsample.cu:311-386 [s2_attention_bwd_ring_step_upsample_pass2_cuda];
    [s], [m] and [i] are alpha_sum_buf, qdotk_max_buf and integral_norm_buf *)
Definition ring_up_pass2 (dev : device) (s m i : nat -> R) : option kernel :=
  do _ <- guard (launchable dev gin B ((2 * nci + 2 * nco) * 2));
  let arr := [(ksz, kA); (vsz, vA); (qsz, qA); (dsz, dA); (nq, quadA); (cells, s); (cells, m); (cells, i)] in
  Some (warp_kernel B (H * W) (2 * nci + 2 * nco) arr (ksz + vsz)
    (ring_group (rdkv_body (part arr 0) (part arr 1) (part arr 2) (part arr 3) (part arr 4) (part arr 5) (part arr 6) (part arr 7) ksz vsz))).
End Ring.
