(** The CUDA kernels of neighbourhood attention, self and downsampling direction, backward
    (attention_cuda_bwd.cu).

    As in CudaAttnModel: exact reals, checked accesses, one input array, and a group is a
    warp for blocks of 32 x 2 threads and the block otherwise.  The output array holds the
    gradients of k, v and q, one after the other.  atomicAdd of a float4 is four atomic
    additions, as the CUDA programming guide says.  [old]: compiled for a compute capability
    below 9.0 (__CUDA_ARCH__ < 900). *)
From Coq Require Import List Arith Lia Bool Reals.
From Verif Require Import TensorModel AttnModel GpuModel CudaDiscoModel CudaWarpModel CudaAttnModel CudaAttnUpModel.
Import ListNotations.
Local Open Scope nat_scope.

(** Registers: alpha_sum_inv, and the elements for channel c of loc_k__, loc_vw_, loc_kvw *)
Definition r_inv := 11.
Definition r_lk (c : nat) := 14 + 3 * c.  Definition r_lvw (c : nat) := 15 + 3 * c.  Definition r_lkvw (c : nat) := 16 + 3 * c.

Section Bwd.
(** BD threads in x, BY in y; vectors of V numbers; nci and nco vectors per head *)
Variables (BD BY V nloc nh nci nco Hi Wi Ho Wo : nat) (as_in old : bool) (fmin : R).
Variables (pk pv pq pdy pw dk dv dq : nat * nat) (row_idx roff col : list nat).

(** the channels of a thread: of k and q (attention_cuda_bwd.cu:403-405, 461-467), and of v and dy
    (:407-413, 468-480) *)
Definition bin_chans (t : nat) : list nat := floats V (unrolled_chans BD nloc nci t).
Definition bout_chans (t : nat) : list nat := floats V (if as_in then unrolled_chans BD nloc nco t else loop_chans BD nco t).
(** attention_cuda_bwd.cu:149-157, 199-204: in the generic kernel *)
Definition bgin_chans (t : nat) : list nat := floats V (loop_chans 32 nci t).
Definition bgout_chans (t : nat) : list nat := floats V (loop_chans 32 nco t).
(** attention_cuda_bwd.cu:598-646, 280-306: the channels of the atomic additions, single numbers or
    the thread's own vectors *)
Definition atom_chans (n : nat) (mine : list nat) (t : nat) : list nat := if old then loop_chans BD (n * V) t else mine.
(** attention_cuda_bwd.cu:415-428, 159-166: the numbers in shared memory are read by other
    threads of the block or warp when vectors are split *)
Definition share : list gstep := if old && (V =? 4) then [Bar (fun t all => all t)] else [].
(** attention_cuda_bwd.cu:482-491, 206-207 *)
Definition bsum (r : nat) : list gstep := if BD =? 32 then warp_sum (fun _ => true) r else block_sum (BD / 32) (V * (nci + nco)) r.

(** the products of a thread with the values at address [base] of the shared memory *)
Definition dot_loop (rd base : nat) (p : nat * nat) (b : nat) (ch : list nat) : list instr :=
  ISet rd (fun _ => 0%R) :: flat_map (fun c => [ILoad r_t (base + c); get p r_u (b + c); ISet rd (fun r => r rd + r r_t * r r_u)%R]) ch.
(** attention_cuda_bwd.cu:458-491, 196-207, and again 550-583, 253-264: q.k and dy.v of an
    entry; [qs], [ds]: where q and dy are in the shared memory *)
Definition both_dots (qs ds kb vb : nat) (cin cout : nat -> list nat) : list gstep :=
  [Seg (fun t => dot_loop r_dot qs pk kb (cin t) ++ dot_loop r_gd ds pv vb (cout t))] ++ bsum r_dot ++ bsum r_gd.
(** attention_cuda_bwd.cu:493-500, 209-216 *)
Definition new_stats (hi : nat) : list instr :=
  [ISet r_new (fun r => Rmax (r r_max) (r r_dot));
   get pw r_w hi; ISet r_alpha (fun r => exp (r r_dot - r r_new) * r r_w)%R;
   ISet r_exp (fun r => exp (r r_max - r r_new)%R);
   ISet r_sum (fun r => r r_sum * r r_exp + r r_alpha)%R;
   ISet r_int (fun r => r r_int * r r_exp + r r_alpha * r r_gd)%R;
   ISet r_ag (fun r => r r_alpha * r r_gd)%R].
(** attention_cuda_bwd.cu:585-593, 266-275 *)
Definition entry_weight (hi : nat) : list instr :=
  [get pw r_w hi; ISet r_alpha (fun r => exp (r r_dot - r r_max) * r r_w)%R;
   ISet r_alpha (fun r => r r_alpha * r r_inv)%R; ISet r_ag (fun r => (r r_gd - r r_int) * r r_alpha)%R].
(** attention_cuda_bwd.cu:585-646, 266-306 *)
Definition add_grads (qs ds kb vb hi : nat) (cin cout : nat -> list nat) : gstep :=
  Seg (fun t => entry_weight hi ++
    flat_map (fun c => [ILoad r_t (qs + c); add_out AAdd dk (kb + c) (fun r => r r_ag * r r_t)%R]) (atom_chans nci (cin t) t) ++
    flat_map (fun c => [ILoad r_t (ds + c); add_out AAdd dv (vb + c) (fun r => r r_alpha * r r_t)%R]) (atom_chans nco (cout t) t)).

(** attention_cuda_bwd.cu:446-517: one entry, first pass *)
Definition spc_entry (batch head wo c : nat) : list gstep :=
  let '(hi, wip) := in_point Wi Wo wo c in
  let kb := at_point V (ldi nh nci) nci Hi Wi batch head hi wip in let vb := at_point V (ldo nh nco) nco Hi Wi batch head hi wip in
  both_dots (V * nco) 0 kb vb bin_chans bout_chans ++
  [Seg (fun t => new_stats hi ++
     flat_map (fun c => [get pk r_t (kb + c); ISet (r_lk c) (fun r => r r_exp * r (r_lk c) + r r_alpha * r r_t)%R;
                         ISet (r_lvw c) (fun r => r r_exp * r (r_lvw c) + r r_ag)%R;
                         ISet (r_lkvw c) (fun r => r r_exp * r (r_lkvw c) + r r_ag * r r_t)%R]) (bin_chans t) ++
     [ISet r_max (fun r => r r_new)])].
(** attention_cuda_bwd.cu:538-647, 242-307: one entry, second pass *)
Definition second_entry (qs ds : nat) (cin cout : nat -> list nat) (batch head wo c : nat) : list gstep :=
  let '(hi, wip) := in_point Wi Wo wo c in
  let kb := at_point V (ldi nh nci) nci Hi Wi batch head hi wip in let vb := at_point V (ldo nh nco) nco Hi Wi batch head hi wip in
  both_dots qs ds kb vb cin cout ++ [add_grads qs ds kb vb hi cin cout].
(** attention_cuda_bwd.cu:317-650 [s2_attn_bwd_special_vec_k] for one output point *)
Definition spc_body (batch head ho wo : nat) (row : list nat) : list gstep :=
  let qb := at_point V (ldi nh nci) nci Ho Wo batch head ho wo in let db := at_point V (ldo nh nco) nco Ho Wo batch head ho wo in
  [Seg (fun t => flat_map (fun c => [ISet (r_lk c) (fun _ => 0%R); ISet (r_lvw c) (fun _ => 0%R); ISet (r_lkvw c) (fun _ => 0%R)]) (floats V (all_chans BD nloc t)) ++
     flat_map (fun c => [get pq r_t (qb + c); IStore (V * nco + c) (fun r => r r_t)]) (bin_chans t) ++
     flat_map (fun c => [get pdy r_t (db + c); IStore (0 + c) (fun r => r r_t)]) (bout_chans t))] ++ share ++
  [Seg (fun t => [ISet r_sum (fun _ => 0%R); ISet r_max (fun _ => fmin); ISet r_int (fun _ => 0%R)])] ++
  flat_map (spc_entry batch head wo) row ++
  [Seg (fun t => [ISet r_inv (fun r => 1 / r r_sum)%R; ISet r_int (fun r => r r_int * r r_inv)%R] ++
     flat_map (fun c => [set_out dq (qb + c) (fun r => r r_inv * r r_inv * (r r_sum * r (r_lkvw c) - r (r_lvw c) * r (r_lk c)))%R]) (bin_chans t))] ++
  flat_map (second_entry (V * nco) 0 bin_chans bout_chans batch head wo) row.

(** attention_cuda_bwd.cu:101-109: where the parts of the shared memory start in the generic kernel *)
Definition s_vw := V * nci.  Definition s_kvw := V * nci + V * nci.  Definition s_dy := V * nci + V * nci + V * nci.
Definition s_qy := V * nci + V * nci + V * nci + V * nco.
(** attention_cuda_bwd.cu:184-227: one entry, first pass *)
Definition gen_entry (batch head wo c : nat) : list gstep :=
  let '(hi, wip) := in_point Wi Wo wo c in
  let kb := at_point V (ldi nh nci) nci Hi Wi batch head hi wip in let vb := at_point V (ldo nh nco) nco Hi Wi batch head hi wip in
  both_dots s_qy s_dy kb vb bgin_chans bgout_chans ++
  [Seg (fun t => new_stats hi ++
     flat_map (fun c => [get pk r_t (kb + c); ILoad r_u c; IStore c (fun r => r r_exp * r r_u + r r_alpha * r r_t)%R;
                         ILoad r_u (s_vw + c); IStore (s_vw + c) (fun r => r r_exp * r r_u + r r_ag)%R;
                         ILoad r_u (s_kvw + c); IStore (s_kvw + c) (fun r => r r_exp * r r_u + r r_ag * r r_t)%R]) (bgin_chans t) ++
     [ISet r_max (fun r => r r_new)])].
(** attention_cuda_bwd.cu:82-310 [s2_attn_bwd_generic_vec_k] for one output point *)
Definition gen_body (batch head ho wo : nat) (row : list nat) : list gstep :=
  let qb := at_point V (ldi nh nci) nci Ho Wo batch head ho wo in let db := at_point V (ldo nh nco) nco Ho Wo batch head ho wo in
  [Seg (fun t => flat_map (fun c => [IStore c (fun _ => 0%R); IStore (s_vw + c) (fun _ => 0%R); IStore (s_kvw + c) (fun _ => 0%R);
                                     get pq r_t (qb + c); IStore (s_qy + c) (fun r => r r_t)]) (bgin_chans t) ++
     flat_map (fun c => [get pdy r_t (db + c); IStore (s_dy + c) (fun r => r r_t)]) (bgout_chans t))] ++ share ++
  [Seg (fun t => [ISet r_sum (fun _ => 0%R); ISet r_max (fun _ => fmin); ISet r_int (fun _ => 0%R)])] ++
  flat_map (gen_entry batch head wo) row ++
  [Seg (fun t => [ISet r_inv (fun r => 1 / r r_sum)%R; ISet r_int (fun r => r r_int * r r_inv)%R] ++
     flat_map (fun c => [ILoad r_t (s_kvw + c); ILoad r_u (s_vw + c); ILoad r_w c;
                         set_out dq (qb + c) (fun r => r r_inv * r r_inv * (r r_sum * r r_t - r r_u * r r_w))%R]) (bgin_chans t))] ++
  flat_map (second_entry s_qy s_dy bgin_chans bgout_chans batch head wo) row.

(** attention_cuda_bwd.cu:344-371, 437-442, 114-129, 175-180: the output point of group g and its row *)
Definition bwd_group (body : nat -> nat -> nat -> nat -> list nat -> list gstep) (g : nat) : list gstep :=
  let gx := div_up (Ho * Wo) BY in
  let ctaid := g mod (gx * BY) in let bh := g / (gx * BY) in
  let batch := bh / nh in let head := bh - batch * nh in
  if Ho * Wo <=? ctaid then [] else
  let h := ctaid / Wo in let wo := ctaid - h * Wo in
  match nth_error row_idx h with
  | None => fault
  | Some ho => match row_of roff col ho with None => fault | Some row => body batch head ho wo row end
  end.
End Bwd.

(** attention_cuda_bwd.cu:778-852 [s2_attn_bwd_dispatch] (with 652-673 [launch_gen_attn_bwd],
    675-725 [launch_spc_attn_bwd], 727-771 [bwd_dispatch_bdimx]) and 856-956
    [s2_attention_bwd_dkvq_cuda], when nlon_in is a multiple of nlon_out.  [vec], [row_idx] as in
    [attn_cuda_fwd]; the gradients are zeros before (:923-931). *)
Definition attn_cuda_bwd (dev : device) (vec old : bool) (fmin : R) (row_idx : list nat) (kw vw qw dyw : tensor R) (quad : nat -> R) (col roff : list nat)
  (nh nlon_in nlat_out nlon_out : nat) : option (job (tensor R * tensor R * tensor R)) :=
  do sh <- op_shapes nh kw vw qw nlon_in nlat_out nlon_out;
  do _ <- guard (shape_eqb (shp dyw) [dimsz qw 0; nlat_out; nlon_out; dimsz vw 3]);
  do _ <- guard ((1 <=? nlon_out) && (nlon_in mod nlon_out =? 0));
  let B := a_B sh in let Hi := a_Hi sh in let Ck := a_Ck sh in let Cv := a_Cv sh in
  let V := vec_len vec Ck Cv in let nci := Ck / V in let nco := Cv / V in
  let arrays := [(prod_list (shp kw), flat kw); (prod_list (shp vw), flat vw); (prod_list (shp qw), flat qw); (prod_list (shp dyw), flat dyw); (Hi, quad)] in
  let insize := list_sum (map fst arrays) in
  let ks := B * Hi * nlon_in * (nh * Ck) in let vs := B * Hi * nlon_in * (nh * Cv) in let qs := B * nlat_out * nlon_out * (nh * Ck) in
  let result := fun o => JEnd (tensor_of [B; Hi; nlon_in; nh * Ck] o, tensor_of [B; Hi; nlon_in; nh * Cv] (fun i => o (ks + i)), tensor_of [B; nlat_out; nlon_out; nh * Ck] (fun i => o (ks + vs + i))) in
  let bdimx := pick_bdimx Ck in
  if bdimx <=? 512 then
    let nloc := div_up nci bdimx in
    do _ <- guard (nloc_ok bdimx V nloc);
    let BY := if bdimx =? 32 then 2 else 1 in
    let NW := if bdimx =? 32 then 0 else bdimx / 32 in
    let gx := div_up (nlat_out * nlon_out) BY in
    do _ <- guard (launchable dev gx (B * nh) (V * (nci + nco) * BY + NW));
    let as_in := (bdimx * (nloc - 1) <=? nco) && (nco <=? bdimx * nloc) in
    Some (JRun (mkKernel (B * nh * (gx * BY)) bdimx (V * (nci + nco) + NW) insize (joined arrays) (ks + vs + qs)
      (fun g => code_of (bwd_group BY nh nlat_out nlon_out row_idx roff col
         (spc_body bdimx V nloc nh nci nco Hi nlon_in nlat_out nlon_out as_in old fmin (part arrays 0) (part arrays 1) (part arrays 2) (part arrays 3) (part arrays 4) (0, ks) (ks, vs) (ks + vs, qs)) g)))
      (fun _ => 0%R) result)
  else
    let gx := div_up (nlat_out * nlon_out) 2 in
    do _ <- guard (launchable dev gx (B * nh) (V * (4 * nci + nco) * 2));
    Some (JRun (mkKernel (B * nh * (gx * 2)) 32 (V * (4 * nci + nco)) insize (joined arrays) (ks + vs + qs)
      (fun g => code_of (bwd_group 2 nh nlat_out nlon_out row_idx roff col
         (gen_body 32 V nh nci nco Hi nlon_in nlat_out nlon_out old fmin (part arrays 0) (part arrays 1) (part arrays 2) (part arrays 3) (part arrays 4) (0, ks) (ks, vs) (ks + vs, qs)) g)))
      (fun _ => 0%R) result).
