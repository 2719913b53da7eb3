(** The CUDA kernels of neighbourhood attention, self and downsampling direction, forward
    (attention_cuda_fwd.cu).

    Numbers are exact reals, so fp32, fp16 and bf16 storage coincide, and index arithmetic
    does not overflow.  A kernel reads one input array holding k, v, q and the quadrature
    weights; every access is checked against the part it belongs to.  For blocks of 32 x 2
    threads, which use neither __syncthreads() nor each other's shared memory, a group is a
    warp; for the wider blocks it is the block. *)
From Coq Require Import List Arith Lia Bool Reals.
From Verif Require Import TensorModel AttnModel GpuModel CudaDiscoModel CudaWarpModel.
Import ListNotations.
Local Open Scope nat_scope.

(** attention_cuda_utils.cu:388-396 [next_pow2] on 32 bits *)
Definition next_pow2 (x : nat) : nat := fold_left (fun x i => Nat.lor x (Nat.shiftr x i)) [1; 2; 4; 8; 16] (x - 1) + 1.
(** cudamacro.h [DIV_UP] *)
Definition div_up (a b : nat) : nat := (a + (b - 1)) / b.
(** the arrays of a launch, one after the other, and the part of each *)
Fixpoint joined (l : list (nat * (nat -> R))) (a : nat) : R :=
  match l with [] => 0%R | (n, f) :: l' => if a <? n then f a else joined l' (a - n) end.
Definition part (l : list (nat * (nat -> R))) (i : nat) : nat * nat := (list_sum (map fst (firstn i l)), nth i (map fst l) 0).
Definition fault : list gstep := [Seg (fun _ => [IFault])].

(** the entries of row [ho] of the neighbourhood matrix; reading outside of the arrays is a
    fault *)
Definition row_of (roff col : list nat) (ho : nat) : option (list nat) :=
  do rbeg <- nth_error roff ho;
  do rend <- nth_error roff (ho + 1);
  do _ <- guard ((rend <=? rbeg) || (rend <=? length col));
  Some (csr_row roff col ho).

(** Registers *)
Definition r_dot := 0.  Definition r_t := 1.  Definition r_u := 2.  Definition r_sum := 3.  Definition r_max := 4.
Definition r_alpha := 5.  Definition r_exp := 6.  Definition r_new := 7.  Definition r_w := 8.
(** the element for channel c of the local array *)
Definition r_loc (c : nat) := 9 + c.

Section Fwd.
(** BD threads in x, BY in y; vectors of V numbers; nci and nco vectors per head *)
Variables (BD BY V nloc nh nci nco Hi Wi Ho Wo : nat) (as_out : bool) (fmin : R).
Variables (pk pv pq pw : nat * nat) (ysize : nat) (row_idx roff col : list nat).

(** attention_cuda_fwd.cu:215-220, 101-103: leading dimensions *)
Definition ldi : nat := nh * nci.
Definition ldo : nat := nh * nco.
(** attention_cuda_fwd.cu:234-252, 283-284: the numbers from which the channels of a point
    of head [head] of batch element [batch] are counted, on a grid of H x W points *)
Definition at_point (ld nc H W batch head h w : nat) : nat := V * (batch * H * W * ld + head * nc + h * W * ld + w * ld).
(** attention_cuda_fwd.cu:276-281: the input point of an entry *)
Definition in_point (wo c : nat) : nat * nat :=
  let hi := c / Wi in let wi := c - hi * Wi in let wi_wo := wi + Wi / Wo * wo in (hi, wi_wo - wi_wo / Wi * Wi).
(** the channels of a thread: of q and k (:256-263, 288-300), and of v and y (:319-325) *)
Definition in_chans (t : nat) : list nat := floats V (if as_out then unrolled_chans BD nloc nci t else loop_chans BD nci t).
Definition out_chans (t : nat) : list nat := floats V (unrolled_chans BD nloc nco t).
Definition init_chans (t : nat) : list nat := floats V (all_chans BD nloc t).

(** attention_cuda_fwd.cu:309-314, 149-154: the running maximum *)
Definition new_max (hi : nat) : list instr :=
  [ISet r_new (fun r => Rmax (r r_max) (r r_dot));
   get pw r_w hi; ISet r_alpha (fun r => exp (r r_dot - r r_new) * r r_w)%R;
   ISet r_exp (fun r => exp (r r_max - r r_new)%R);
   ISet r_sum (fun r => r r_alpha + r r_sum * r r_exp)%R].

(** attention_cuda_fwd.cu:286-327: one entry *)
Definition special_entry (batch head wo c : nat) : list gstep :=
  let '(hi, wip) := in_point wo c in
  let kb := at_point ldi nci Hi Wi batch head hi wip in let vb := at_point ldo nco Hi Wi batch head hi wip in
  [Seg (fun t => ISet r_dot (fun _ => 0%R) :: flat_map (fun c => [ILoad r_t c; get pk r_u (kb + c); ISet r_dot (fun r => r r_dot + r r_t * r r_u)%R]) (in_chans t))] ++
  (if BD =? 32 then warp_sum (fun _ => true) r_dot else block_sum (BD / 32) (V * nci) r_dot) ++
  [Seg (fun t => new_max hi ++
     flat_map (fun c => [get pv r_t (vb + c); ISet (r_loc c) (fun r => r r_exp * r (r_loc c) + r r_alpha * r r_t)%R]) (out_chans t) ++
     [ISet r_max (fun r => r r_new)])].
(** attention_cuda_fwd.cu:184-336 [s2_attn_fwd_special_vec_k]: the program of group g.  The
    slice of the shared memory at threadIdx.y * nchan_in is the memory of the warp. *)
Definition special_group (g : nat) : list gstep :=
  let gx := div_up (Ho * Wo) BY in
  let ctaid := g mod (gx * BY) in let bh := g / (gx * BY) in
  let batch := bh / nh in let head := bh - batch * nh in
  if Ho * Wo <=? ctaid then [] else
  let h := ctaid / Wo in let wo := ctaid - h * Wo in
  match nth_error row_idx h with
  | None => fault
  | Some ho =>
      match row_of roff col ho with
      | None => fault
      | Some row =>
          let qb := at_point ldi nci Ho Wo batch head ho wo in let yb := at_point ldo nco Ho Wo batch head ho wo in
          [Seg (fun t => map (fun c => ISet (r_loc c) (fun _ => 0%R)) (init_chans t) ++
             flat_map (fun c => [get pq r_t (qb + c); IStore c (fun r => r r_t)]) (in_chans t) ++
             [ISet r_sum (fun _ => 0%R); ISet r_max (fun _ => fmin)])] ++
          flat_map (special_entry batch head wo) row ++
          [Seg (fun t => ISet r_sum (fun r => 1 / r r_sum)%R ::
             map (fun c => set_out (0, ysize) (yb + c) (fun r => r r_sum * r (r_loc c))%R) (out_chans t))]
      end
  end.

(** attention_cuda_fwd.cu:115, 136-138, 156-158, 163: the channels in the generic kernel *)
Definition gin_chans (t : nat) : list nat := floats V (loop_chans 32 nci t).
Definition gout_chans (t : nat) : list nat := floats V (loop_chans 32 nco t).
(** attention_cuda_fwd.cu:134-160 *)
Definition generic_entry (batch head qb wo c : nat) : list gstep :=
  let '(hi, wip) := in_point wo c in
  let kb := at_point ldi nci Hi Wi batch head hi wip in let vb := at_point ldo nco Hi Wi batch head hi wip in
  [Seg (fun t => ISet r_dot (fun _ => 0%R) :: flat_map (fun c => [get pq r_t (qb + c); get pk r_u (kb + c); ISet r_dot (fun r => r r_dot + r r_t * r r_u)%R]) (gin_chans t))] ++
  warp_sum (fun _ => true) r_dot ++
  [Seg (fun t => new_max hi ++
     flat_map (fun c => [ILoad r_u c; get pv r_t (vb + c); IStore c (fun r => r r_exp * r r_u + r r_alpha * r r_t)%R]) (gout_chans t) ++
     [ISet r_max (fun r => r r_new)])].
(** attention_cuda_fwd.cu:82-168 [s2_attn_fwd_generic_vec_k], blocks of 32 x 2 *)
Definition generic_group (g : nat) : list gstep :=
  let gx := div_up (Ho * Wo) 2 in
  let wid := g mod (gx * 2) in let bh := g / (gx * 2) in
  let batch := bh / nh in let head := bh - batch * nh in
  if Ho * Wo <=? wid then [] else
  let h := wid / Wo in let wo := wid - h * Wo in
  match nth_error row_idx h with
  | None => fault
  | Some ho =>
      match row_of roff col ho with
      | None => fault
      | Some row =>
          let qb := at_point ldi nci Ho Wo batch head ho wo in let yb := at_point ldo nco Ho Wo batch head ho wo in
          [Seg (fun t => map (fun c => IStore c (fun _ => 0%R)) (gout_chans t) ++ [ISet r_sum (fun _ => 0%R); ISet r_max (fun _ => fmin)])] ++
          flat_map (generic_entry batch head qb wo) row ++
          [Seg (fun t => ISet r_sum (fun r => 1 / r r_sum)%R ::
             flat_map (fun c => [ILoad r_u c; set_out (0, ysize) (yb + c) (fun r => r r_sum * r r_u)%R]) (gout_chans t))]
      end
  end.
End Fwd.

(** attention_cuda_fwd.cu:52, 515-527, 532-546: vectors of four when the storage is fp32, the
    pointers are aligned ([vec]) and the channels of k and v are multiples of four *)
Definition vec_len (vec : bool) (Ck Cv : nat) : nat := if vec && (Ck mod 4 =? 0) && (Cv mod 4 =? 0) then 4 else 1.
(** attention_cuda_fwd.cu:500-506 *)
Definition pick_bdimx (C : nat) : nat := next_pow2 (Nat.max (div_up C 16) 32).
(** attention_cuda_fwd.cu:425-478 [fwd_dispatch_bdimx] with 375-423 [launch_spc_attn_fwd]: the
    lengths for which an instance exists; MAX_LOC is 16 / V and MIN_LOC MAX_LOC / 2 + 1.
    With any other length nothing is launched and the output stays uninitialised: the model
    has no kernel then. *)
Definition nloc_ok (bdimx V nloc : nat) : bool := ((if bdimx =? 32 then 1 else 16 / V / 2 + 1) <=? nloc) && (nloc <=? 16 / V).

(** attention_cuda_fwd.cu:480-560 [s2_attn_fwd_dispatch] (with 332-358
    [launch_gen_attn_fwd]) and 580-680 [s2_attention_fwd_cuda], when nlon_in is a multiple of
    nlon_out.  [row_idx]: the output latitudes in the order of sortRows; the result is
    [tensor_of [B; Ho; Wo; nh Cv]] of the output, which is not initialised. *)
Definition attn_cuda_fwd (dev : device) (vec : bool) (fmin : R) (row_idx : list nat) (kw vw qw : tensor R) (quad : nat -> R) (col roff : list nat)
  (nh nlon_in nlat_out nlon_out : nat) : option kernel :=
  do sh <- op_shapes nh kw vw qw nlon_in nlat_out nlon_out;
  do _ <- guard ((1 <=? nlon_out) && (nlon_in mod nlon_out =? 0));
  let B := a_B sh in let Hi := a_Hi sh in let Ck := a_Ck sh in let Cv := a_Cv sh in
  let V := vec_len vec Ck Cv in let nci := Ck / V in let nco := Cv / V in
  let arrays := [(prod_list (shp kw), flat kw); (prod_list (shp vw), flat vw); (prod_list (shp qw), flat qw); (Hi, quad)] in
  let insize := list_sum (map fst arrays) in let ysize := B * nlat_out * nlon_out * (nh * Cv) in
  let bdimx := pick_bdimx Cv in
  if bdimx <=? 1024 then
    let nloc := div_up nco bdimx in
    do _ <- guard (nloc_ok bdimx V nloc);
    let BY := if bdimx =? 32 then 2 else 1 in
    let NW := if bdimx =? 32 then 0 else bdimx / 32 in
    let gx := div_up (nlat_out * nlon_out) BY in
    do _ <- guard (launchable dev gx (B * nh) (V * nci * BY + NW));
    let as_out := (bdimx * (nloc - 1) <=? nci) && (nci <=? bdimx * nloc) in
    Some (mkKernel (B * nh * (gx * BY)) bdimx (V * nci + NW) insize (joined arrays) ysize
           (fun g => code_of (special_group bdimx BY V nloc nh nci nco Hi nlon_in nlat_out nlon_out as_out fmin
                                (part arrays 0) (part arrays 1) (part arrays 2) (part arrays 3) ysize row_idx roff col g)))
  else
    let gx := div_up (nlat_out * nlon_out) 2 in
    do _ <- guard (launchable dev gx (B * nh) (V * nco * 2));
    Some (mkKernel (B * nh * (gx * 2)) 32 (V * nco) insize (joined arrays) ysize
           (fun g => code_of (generic_group V nh nci nco Hi nlon_in nlat_out nlon_out fmin
                                (part arrays 0) (part arrays 1) (part arrays 2) (part arrays 3) ysize row_idx roff col g))).
