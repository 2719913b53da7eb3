(** The CUDA kernels of neighbourhood attention, upsampling direction
    (attention_cuda_fwd_upsample.cu, attention_cuda_bwd_upsample.cu), and sequences of
    kernels on one stream.

    As in CudaAttnModel: exact reals, checked accesses, and a group is a warp (blocks of
    32 x 2 threads that use neither __syncthreads() nor each other's shared memory).  The
    loop around atomicCAS of atomicMaxf is one atomic maximum. *)
From Coq Require Import List Arith Lia Bool Reals.
From Verif Require Import TensorModel AttnModel GpuModel CudaDiscoModel CudaWarpModel CudaAttnModel.
Import ListNotations.
Local Open Scope nat_scope.

(** Kernels launched one after the other: the output array of a launch is initialised with
    [init], and what it holds after the launch is handed on. *)
Inductive job (A : Type) := JRun (k : kernel) (init : nat -> R) (next : (nat -> R) -> job A) | JEnd (a : A).
Arguments JRun {A}.  Arguments JEnd {A}.

(** Registers, in addition to those of CudaAttnModel *)
Definition r_gd := 9.  Definition r_ag := 10.  Definition r_s := 11.  Definition r_avw := 12.  Definition r_int := 13.

Section Up.
Variables (BH nh nci nco Hi Wi Ho Wo : nat) (roff col : list nat).

(** attention_cuda_fwd_upsample.cu:102-107 [scatter_wo],
    attention_cuda_bwd_upsample.cu:106-111 [bwd_scatter_wo] *)
Definition scatter_wo (wc wi : nat) : nat := let wo := wc + Wo / Wi * wi in if Wo <=? wo then wo - Wo else wo.
(** attention_cuda_fwd_upsample.cu:150-152, 207-209: the output cell of an entry *)
Definition out_cell (wi c : nat) : nat := let ho := c / Wo in ho * Wo + scatter_wo (c - ho * Wo) wi.
(** attention_cuda_fwd_upsample.cu:138-139, 152, 190-192, 210, 243: from where the channels of
    a cell of head [head] of batch element [batch] are counted; H x W cells *)
Definition cell_at (ld nc H W batch head cell : nat) : nat := batch * H * W * ld + head * nc + cell * ld.
Definition cell_in (hi wi : nat) : nat := hi * Wi + wi.
(** attention_cuda_fwd_upsample.cu:140, 193-195: the cells of the buffers *)
Definition bcell (bh cell : nat) : nat := bh * Ho * Wo + cell.

(** for (int chan = tidx; chan < n; chan += 32) { sh[chan] = vload(p, chan); } with sh at
    address [base] of the shared memory of the warp *)
Definition up_copy (base : nat) (p : nat * nat) (b n t : nat) : list instr :=
  flat_map (fun c => [get p r_t (b + c); IStore (base + c) (fun r => r r_t)]) (loop_chans 32 n t).
(** float d = 0.f; for (int chan = tidx; chan < n; chan += 32) { d += sh[chan] * vload(p, chan); } *)
Definition up_dot (rd base : nat) (p : nat * nat) (b n t : nat) : list instr :=
  ISet rd (fun _ => 0%R) :: flat_map (fun c => [ILoad r_t (base + c); get p r_u (b + c); ISet rd (fun r => r rd + r r_t * r r_u)%R]) (loop_chans 32 n t).

(** attention_cuda_fwd_upsample.cu:116-146, 169-203 and attention_cuda_bwd_upsample.cu:120-148,
    172-210, 279-321: the coarse cell of group g and the row it walks; [body] is the rest *)
Definition up_group (body : nat -> nat -> nat -> nat -> nat -> list nat -> list gstep) (g : nat) : list gstep :=
  let gx := div_up (Hi * Wi) 2 in
  let wid := g mod (gx * 2) in let bh := g / (gx * 2) in
  let batch := bh / nh in let head := bh - batch * nh in
  if Hi * Wi <=? wid then [] else
  let hi := wid / Wi in let wi := wid - hi * Wi in
  match row_of roff col hi with None => fault | Some row => body bh batch head hi wi row end.

Section Max.
Variables (pk pq : nat * nat).
(** attention_cuda_fwd_upsample.cu:149-157, attention_cuda_bwd_upsample.cu:150-160 *)
Definition max_entry (bh batch head wi c : nat) : list gstep :=
  let cell := out_cell wi c in
  [Seg (up_dot r_dot 0 pq (cell_at (nh * nci) nci Ho Wo batch head cell) nci)] ++ warp_sum (fun _ => true) r_dot ++
  [Seg (fun t => if t =? 0 then [add_out AMax (0, BH * Ho * Wo) (bcell bh cell) (fun r => r r_dot)] else [])].
(** attention_cuda_fwd_upsample.cu:109-159 [s2_attn_fwd_upsample_scatter_max_k],
    attention_cuda_bwd_upsample.cu:113-161 [s2_attn_bwd_upsample_scatter_max_k] *)
Definition max_body (bh batch head hi wi : nat) (row : list nat) : list gstep :=
  [Seg (up_copy 0 pk (cell_at (nh * nci) nci Hi Wi batch head (cell_in hi wi)) nci)] ++ flat_map (max_entry bh batch head wi) row.
End Max.

Section Acc.
Variables (pk pv pq pw pm : nat * nat).
Definition p_num : nat * nat := (0, BH * Ho * Wo * nco).
Definition p_den : nat * nat := (BH * Ho * Wo * nco, BH * Ho * Wo).
(** attention_cuda_fwd_upsample.cu:206-219 *)
Definition acc_entry (bh batch head wi c : nat) : list gstep :=
  let cell := out_cell wi c in
  [Seg (up_dot r_dot 0 pq (cell_at (nh * nci) nci Ho Wo batch head cell) nci)] ++ warp_sum (fun _ => true) r_dot ++
  [Seg (fun t => [get pm r_max (bcell bh cell); ISet r_alpha (fun r => exp (r r_dot - r r_max) * r r_w)%R] ++
     (if t =? 0 then [add_out AAdd p_den (bcell bh cell) (fun r => r r_alpha)] else []) ++
     flat_map (fun c => [ILoad r_t (nci + c); add_out AAdd p_num (bh * Ho * Wo * nco + cell * nco + c) (fun r => r r_alpha * r r_t)%R]) (loop_chans 32 nco t))].
(** attention_cuda_fwd_upsample.cu:161-221 [s2_attn_fwd_upsample_scatter_acc_k] *)
Definition acc_body (bh batch head hi wi : nat) (row : list nat) : list gstep :=
  [Seg (fun t => up_copy 0 pk (cell_at (nh * nci) nci Hi Wi batch head (cell_in hi wi)) nci t ++
                 up_copy nci pv (cell_at (nh * nco) nco Hi Wi batch head (cell_in hi wi)) nco t ++ [get pw r_w hi])] ++
  flat_map (acc_entry bh batch head wi) row.
End Acc.

(** attention_cuda_fwd_upsample.cu:223-245 [s2_attn_fwd_upsample_scatter_final_k] *)
Definition final_group (pn pd : nat * nat) (ysize g : nat) : list gstep :=
  let gx := div_up (Ho * Wo) 2 in
  let wid := g mod (gx * 2) in let bh := g / (gx * 2) in
  let batch := bh / nh in let head := bh - batch * nh in
  if Ho * Wo <=? wid then [] else
  [Seg (fun t => [get pd r_sum (bcell bh wid); ISet r_sum (fun r => 1 / r r_sum)%R] ++
     flat_map (fun c => [get pn r_t (bcell bh wid * nco + c); set_out (0, ysize) ((batch * Ho * Wo + wid) * (nh * nco) + head * nco + c) (fun r => r r_t * r r_sum)%R]) (loop_chans 32 nco t))].

Section Stats.
Variables (pk pv pq pdy pw pm : nat * nat).
Definition p_S : nat * nat := (0, BH * Ho * Wo).
Definition p_Avw : nat * nat := (BH * Ho * Wo, BH * Ho * Wo).
Definition p_Ak : nat * nat := (2 * (BH * Ho * Wo), BH * Ho * Wo * nci).
Definition p_Akvw : nat * nat := (2 * (BH * Ho * Wo) + BH * Ho * Wo * nci, BH * Ho * Wo * nci).
(** attention_cuda_bwd_upsample.cu:212-238 *)
Definition stats_entry (bh batch head wi c : nat) : list gstep :=
  let cell := out_cell wi c in
  [Seg (fun t => up_dot r_dot 0 pq (cell_at (nh * nci) nci Ho Wo batch head cell) nci t ++ up_dot r_gd nci pdy (cell_at (nh * nco) nco Ho Wo batch head cell) nco t)] ++
  warp_sum (fun _ => true) r_dot ++ warp_sum (fun _ => true) r_gd ++
  [Seg (fun t => [get pm r_max (bcell bh cell); ISet r_alpha (fun r => exp (r r_dot - r r_max) * r r_w)%R; ISet r_ag (fun r => r r_alpha * r r_gd)%R] ++
     (if t =? 0 then [add_out AAdd p_S (bcell bh cell) (fun r => r r_alpha); add_out AAdd p_Avw (bcell bh cell) (fun r => r r_ag)] else []) ++
     flat_map (fun c => [ILoad r_t c; add_out AAdd p_Ak (bh * Ho * Wo * nci + cell * nci + c) (fun r => r r_alpha * r r_t)%R;
                         ILoad r_t c; add_out AAdd p_Akvw (bh * Ho * Wo * nci + cell * nci + c) (fun r => r r_ag * r r_t)%R]) (loop_chans 32 nci t))].
(** attention_cuda_bwd_upsample.cu:163-239 [s2_attn_bwd_upsample_scatter_stats_k] *)
Definition stats_body (bh batch head hi wi : nat) (row : list nat) : list gstep :=
  [Seg (fun t => up_copy 0 pk (cell_at (nh * nci) nci Hi Wi batch head (cell_in hi wi)) nci t ++
                 up_copy nci pv (cell_at (nh * nco) nco Hi Wi batch head (cell_in hi wi)) nco t ++ [get pw r_w hi])] ++
  flat_map (stats_entry bh batch head wi) row.
End Stats.

(** attention_cuda_bwd_upsample.cu:241-268 [s2_attn_bwd_upsample_scatter_dq_k] *)
Definition dq_group (ps pa pak pakvw : nat * nat) (qsize g : nat) : list gstep :=
  let gx := div_up (Ho * Wo) 2 in
  let wid := g mod (gx * 2) in let bh := g / (gx * 2) in
  let batch := bh / nh in let head := bh - batch * nh in
  if Ho * Wo <=? wid then [] else
  [Seg (fun t => [get ps r_s (bcell bh wid); ISet r_sum (fun r => 1 / r r_s)%R; get pa r_avw (bcell bh wid)] ++
     flat_map (fun c => [get pakvw r_t (bcell bh wid * nci + c); get pak r_u (bcell bh wid * nci + c);
        set_out (0, qsize) ((batch * Ho * Wo + wid) * (nh * nci) + head * nci + c) (fun r => r r_sum * r r_sum * (r r_s * r r_t - r r_avw * r r_u))%R]) (loop_chans 32 nci t))].

Section Dkv.
Variables (pk pv pq pdy pw pm ps pa : nat * nat) (ksize vsize : nat).
(** attention_cuda_bwd_upsample.cu:279-283: where the parts of the shared memory start *)
Definition sh_v := nci.  Definition sh_dk := nci + nco.  Definition sh_dv := nci + nco + nci.
(** attention_cuda_bwd_upsample.cu:323-344 *)
Definition dkv_entry (bh batch head wi c : nat) : list gstep :=
  let cell := out_cell wi c in let qb := cell_at (nh * nci) nci Ho Wo batch head cell in let db := cell_at (nh * nco) nco Ho Wo batch head cell in
  [Seg (fun t => up_dot r_dot 0 pq qb nci t ++ up_dot r_gd sh_v pdy db nco t)] ++
  warp_sum (fun _ => true) r_dot ++ warp_sum (fun _ => true) r_gd ++
  [Seg (fun t => [get ps r_s (bcell bh cell); get pm r_max (bcell bh cell); ISet r_alpha (fun r => exp (r r_dot - r r_max) * r r_w / r r_s)%R;
                  get pa r_avw (bcell bh cell); ISet r_int (fun r => r r_avw / r r_s)%R; ISet r_ag (fun r => (r r_gd - r r_int) * r r_alpha)%R] ++
     flat_map (fun c => [ILoad r_t (sh_dv + c); get pdy r_u (db + c); IStore (sh_dv + c) (fun r => r r_t + r r_alpha * r r_u)%R]) (loop_chans 32 nco t) ++
     flat_map (fun c => [ILoad r_t (sh_dk + c); get pq r_u (qb + c); IStore (sh_dk + c) (fun r => r r_t + r r_ag * r r_u)%R]) (loop_chans 32 nci t))].
(** attention_cuda_bwd_upsample.cu:270-348 [s2_attn_bwd_upsample_scatter_dkv_k] *)
Definition dkv_body (bh batch head hi wi : nat) (row : list nat) : list gstep :=
  let kb := cell_at (nh * nci) nci Hi Wi batch head (cell_in hi wi) in let vb := cell_at (nh * nco) nco Hi Wi batch head (cell_in hi wi) in
  [Seg (fun t => flat_map (fun c => [get pk r_t (kb + c); IStore c (fun r => r r_t); IStore (sh_dk + c) (fun _ => 0%R)]) (loop_chans 32 nci t) ++
                 flat_map (fun c => [get pv r_t (vb + c); IStore (sh_v + c) (fun r => r r_t); IStore (sh_dv + c) (fun _ => 0%R)]) (loop_chans 32 nco t) ++ [get pw r_w hi])] ++
  flat_map (dkv_entry bh batch head wi) row ++
  [Seg (fun t => flat_map (fun c => [ILoad r_t (sh_dk + c); set_out (0, ksize) (kb + c) (fun r => r r_t)]) (loop_chans 32 nci t) ++
                 flat_map (fun c => [ILoad r_t (sh_dv + c); set_out (ksize, vsize) (vb + c) (fun r => r r_t)]) (loop_chans 32 nco t))].
End Dkv.
End Up.

(** A launch with one warp per cell of a grid of H x W cells *)
Definition warp_kernel (BH cells shared : nat) (arrays : list (nat * (nat -> R))) (outsize : nat) (prog : nat -> list gstep) : kernel :=
  mkKernel (BH * (div_up cells 2 * 2)) 32 shared (list_sum (map fst arrays)) (joined arrays) outsize (fun g => code_of (prog g)).

(** attention_cuda_fwd_upsample.cu:247-324 [launch_attn_fwd_upsample_scatter] and
    [s2_attn_fwd_upsample_dispatch]; [y0] is what the output holds before *)
Definition up_fwd_job (fmin : R) (y0 : nat -> R) (B nh Ck Cv Hi Wi Ho Wo : nat) (kw vw qw : tensor R) (quad : nat -> R) (col roff : list nat) : job (tensor R) :=
  let BH := B * nh in
  let kA := (prod_list (shp kw), flat kw) in let vA := (prod_list (shp vw), flat vw) in let qA := (prod_list (shp qw), flat qw) in
  let cells := BH * Ho * Wo in
  JRun (warp_kernel BH (Hi * Wi) Ck [kA; qA] cells (up_group nh Hi Wi roff col (max_body BH nh Ck Hi Wi Ho Wo (part [kA; qA] 0) (part [kA; qA] 1)))) (fun _ => fmin) (fun m =>
  let arr := [kA; vA; qA; (Hi, quad); (cells, m)] in
  JRun (warp_kernel BH (Hi * Wi) (Ck + Cv) arr (cells * Cv + cells)
         (up_group nh Hi Wi roff col (acc_body BH nh Ck Cv Hi Wi Ho Wo (part arr 0) (part arr 1) (part arr 2) (part arr 3) (part arr 4)))) (fun _ => 0%R) (fun o =>
  let arr := [(cells * Cv, o); (cells, fun i => o (cells * Cv + i))] in
  let ysize := B * Ho * Wo * (nh * Cv) in
  JRun (warp_kernel BH (Ho * Wo) 0 arr ysize (final_group nh Cv Ho Wo (part arr 0) (part arr 1) ysize)) y0 (fun y => JEnd (tensor_of [B; Ho; Wo; nh * Cv] y)))).

(** attention_cuda_bwd_upsample.cu:350-443 [launch_attn_bwd_upsample_scatter] and
    [s2_attn_bwd_upsample_dispatch]; the gradients are zeros before
    (attention_cuda_bwd.cu:923-931) *)
Definition up_bwd_job (fmin : R) (B nh Ck Cv Hi Wi Ho Wo : nat) (kw vw qw dyw : tensor R) (quad : nat -> R) (col roff : list nat) : job (tensor R * tensor R * tensor R) :=
  let BH := B * nh in
  let kA := (prod_list (shp kw), flat kw) in let vA := (prod_list (shp vw), flat vw) in let qA := (prod_list (shp qw), flat qw) in let dA := (prod_list (shp dyw), flat dyw) in
  let cells := BH * Ho * Wo in
  JRun (warp_kernel BH (Hi * Wi) Ck [kA; qA] cells (up_group nh Hi Wi roff col (max_body BH nh Ck Hi Wi Ho Wo (part [kA; qA] 0) (part [kA; qA] 1)))) (fun _ => fmin) (fun m =>
  let arr := [kA; vA; qA; dA; (Hi, quad); (cells, m)] in
  JRun (warp_kernel BH (Hi * Wi) (Ck + Cv) arr (2 * cells + 2 * (cells * Ck))
         (up_group nh Hi Wi roff col (stats_body BH nh Ck Cv Hi Wi Ho Wo (part arr 0) (part arr 1) (part arr 2) (part arr 3) (part arr 4) (part arr 5)))) (fun _ => 0%R) (fun o =>
  let oS := (cells, o) in let oA := (cells, fun i => o (cells + i)) in
  let arr := [oS; oA; (cells * Ck, fun i => o (2 * cells + i)); (cells * Ck, fun i => o (2 * cells + cells * Ck + i))] in
  let qsize := B * Ho * Wo * (nh * Ck) in
  JRun (warp_kernel BH (Ho * Wo) 0 arr qsize (dq_group nh Ck Ho Wo (part arr 0) (part arr 1) (part arr 2) (part arr 3) qsize)) (fun _ => 0%R) (fun dq =>
  let arr := [kA; vA; qA; dA; (Hi, quad); (cells, m); oS; oA] in
  let ksize := B * Hi * Wi * (nh * Ck) in let vsize := B * Hi * Wi * (nh * Cv) in
  JRun (warp_kernel BH (Hi * Wi) (2 * Ck + 2 * Cv) arr (ksize + vsize)
         (up_group nh Hi Wi roff col (dkv_body nh Ck Cv Hi Wi Ho Wo (part arr 0) (part arr 1) (part arr 2) (part arr 3) (part arr 4) (part arr 5) (part arr 6) (part arr 7) ksize vsize))) (fun _ => 0%R) (fun o' =>
  JEnd (tensor_of [B; Hi; Wi; nh * Ck] o', tensor_of [B; Hi; Wi; nh * Cv] (fun i => o' (ksize + i)), tensor_of [B; Ho; Wo; nh * Ck] dq))))).

(** attention_cuda_fwd.cu:538-633 [s2_attention_fwd_cuda], when nlon_in is not a multiple of
    nlon_out but divides it *)
Definition attn_cuda_fwd_up (dev : device) (fmin : R) (y0 : nat -> R) (kw vw qw : tensor R) (quad : nat -> R) (col roff : list nat)
  (nh nlon_in nlat_out nlon_out : nat) : option (job (tensor R)) :=
  do sh <- op_shapes nh kw vw qw nlon_in nlat_out nlon_out;
  do _ <- guard ((1 <=? nlon_in) && (1 <=? nlon_out) && negb (nlon_in mod nlon_out =? 0) && (nlon_out mod nlon_in =? 0));
  let B := a_B sh in let Hi := a_Hi sh in let Ck := a_Ck sh in let Cv := a_Cv sh in
  let gin := div_up (Hi * nlon_in) 2 in let gout := div_up (nlat_out * nlon_out) 2 in
  do _ <- guard (launchable dev gin (B * nh) (Ck * 2) && launchable dev gin (B * nh) ((Ck + Cv) * 2) && launchable dev gout (B * nh) 0);
  Some (up_fwd_job fmin y0 B nh Ck Cv Hi nlon_in nlat_out nlon_out kw vw qw quad col roff).

(** attention_cuda_bwd.cu:856-964 [s2_attention_bwd_dkvq_cuda], in the same direction *)
Definition attn_cuda_bwd_up (dev : device) (fmin : R) (kw vw qw dyw : tensor R) (quad : nat -> R) (col roff : list nat)
  (nh nlon_in nlat_out nlon_out : nat) : option (job (tensor R * tensor R * tensor R)) :=
  do sh <- op_shapes nh kw vw qw nlon_in nlat_out nlon_out;
  do _ <- guard (shape_eqb (shp dyw) [dimsz qw 0; nlat_out; nlon_out; dimsz vw 3]);
  do _ <- guard ((1 <=? nlon_in) && (1 <=? nlon_out) && negb (nlon_in mod nlon_out =? 0) && (nlon_out mod nlon_in =? 0));
  let B := a_B sh in let Hi := a_Hi sh in let Ck := a_Ck sh in let Cv := a_Cv sh in
  let gin := div_up (Hi * nlon_in) 2 in let gout := div_up (nlat_out * nlon_out) 2 in
  do _ <- guard (launchable dev gin (B * nh) (Ck * 2) && launchable dev gin (B * nh) ((Ck + Cv) * 2) && launchable dev gout (B * nh) 0 &&
                 launchable dev gin (B * nh) ((2 * Ck + 2 * Cv) * 2));
  Some (up_bwd_job fmin B nh Ck Cv Hi nlon_in nlat_out nlon_out kw vw qw dyw quad col roff).
