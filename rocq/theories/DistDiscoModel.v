(** Distributed DISCO convolutions: torch_harmonics/distributed/distributed_convolution.py
    and kernels/distributed_convolution_kernels.py, on a P x A process grid (see
    DistSHTModel.v for the meaning of families). *)
From Coq Require Import List Arith Lia Bool Reals.
From Verif Require Import TensorModel BigSum PrimModel PrimAutogradModel DistSHTModel DiscoModel.
Import ListNotations.
Local Open Scope nat_scope.

(** distributed_convolution.py:68-122 [_split_distributed_convolution_tensor_s2].  With
    exactly one match, [squeeze] turns the index vector into a scalar; the index tensor
    then has rank one and both preprocess_psi (disco_helpers.cpp:55, val.size(0)) and
    the sparse constructor raise: [None]. *)
Definition split_psi (P p nlat_in nlon_in : nat) (es : list entry) : option (list entry) :=
  do split_shapes <- compute_split_shapes nlat_in P;
  let start_idx := sum_list (firstn p split_shapes) in
  let end_idx := sum_list (firstn (p + 1) split_shapes) in
  let sel := filter (fun e => (col e / nlon_in <? end_idx) && (start_idx <=? col e / nlon_in)) es in
  do _ <- guard (negb (length sel =? 1));
  Some (map (fun e => mkE (ker e) (row e) ((col e / nlon_in - start_idx) * nlon_in + col e mod nlon_in) (pv e)) sel).

(** distributed_convolution.py:196-347 [DistributedDiscreteContinuousConvS2.__init__]
    and [_build_local_psi]; [es] is the global filter (PsiModel.v), [opt] is
    optimized_kernel.  Not modelled: the kernel-packed copy for half precision. *)
Definition dist_conv_init (junk : nat -> entry) (opt : bool) (P A nlat_in nlon_in nlat_out nlon_out groups K : nat)
    (weight : tensor R) (bias : option (tensor R)) (es : list entry) : pfam disco_layer := fun p a =>
  do lat_in <- compute_split_shapes nlat_in P; do _ <- compute_split_shapes nlon_in A;
  do _ <- compute_split_shapes nlat_out P; do _ <- compute_split_shapes nlon_out A;
  let nlat_in_local := nth p lat_in 0 in
  do les <- split_psi P p nlat_in nlon_in es;
  if opt then
    do r <- preprocess_psi junk K nlat_out les;
    Some (mkD K nlat_in_local nlon_in nlat_out nlon_out groups weight bias (fst r) (snd r) les)
  else
    do _ <- get_psi K les nlat_in_local nlon_in nlat_out nlon_out;
    Some (mkD K nlat_in_local nlon_in nlat_out nlon_out groups weight bias [] [] les).

(** distributed_convolution_kernels.py:135-168: the contraction of a rank *)
Definition local_contraction (junk : nat -> R) (opt : bool) (o : disco_layer) (t : tensor R) : option (tensor R) :=
  if opt then disco_cpu_fwd junk (d_K o) (d_nlat_out o) (d_nlon_out o) (d_roff o) (d_es o) t
  else do psi <- get_psi (d_K o) (d_raw o) (d_nlat_in o) (d_nlon_in o) (d_nlat_out o) (d_nlon_out o);
       disco_torch psi (d_nlon_out o) t.
(** reduce_from_scatter_to_polar_region / azimuth (primitives.py:672-739) *)
Definition po_reduce_scatter (P d : nat) (x : pfam (tensor R)) : pfam (tensor R) := fun p a => rs_fwd P d (fun p => x p a) p.
Definition az_reduce_scatter (A d : nat) (x : pfam (tensor R)) : pfam (tensor R) := fun p a => rs_fwd A d (fun a => x p a) a.

(** distributed_convolution_kernels.py:99-192 [_distributed_disco_fwd_a2a] and the bias
    (distributed_convolution.py:437-439) *)
Definition dist_conv (junk : nat -> R) (opt debug : bool) (P A : nat) (d : pfam disco_layer) (x : pfam (tensor R)) : pfam (tensor R) :=
  let x1 := az_transpose debug A 1 3 (pmap (fun o => compute_split_shapes (d_nlon_in o) A) d) x in
  let x2 := pzip (local_contraction junk opt) d x1 in
  let x3 := po_reduce_scatter P 3 x2 in
  let x4 := az_transpose debug A 4 1 (pmap (fun t => compute_split_shapes (dimsz t 1) A) x) x3 in
  pzip (fun o t => do z <- weight_contract (d_groups o) (d_weight o) t; add_chan_bias (d_bias o) z) d x4.

(** distributed_convolution_kernels.py:266-347, steps 1 to 4 of the reordered schedule on
    azimuth rank [a].  The fused operator (disco_optimized.py:472-506) is the
    contraction followed by the weight contraction; it exists for CUDA only, the
    contraction is represented by the model of the CPU kernel. *)
Definition reordered_local (junk : nat -> R) (A a : nat) (o : disco_layer) (x : tensor R) : option (tensor R) :=
  let weight := d_weight o in let groups := d_groups o in
  let out_channels := dimsz weight 0 in let groupsize := dimsz weight 1 in
  let out_per_group := out_channels / groups in
  let in_channels := groups * groupsize in
  let local_in_channels := dimsz x 1 in
  do chan_start <- (if 1 <? A then do s <- compute_split_shapes in_channels A; Some (sum_list (firstn a s)) else Some 0);
  let chan_end := chan_start + local_in_channels in
  do _ <- guard (chan_end <=? in_channels);
  if groups =? 1 then
    do y <- disco_cpu_fwd junk (d_K o) (d_nlat_out o) (d_nlon_out o) (d_roff o) (d_es o) x;
    weight_contract 1 (narrow 1 chan_start local_in_channels weight) y
  else
    let group_lo := chan_start / groupsize in
    let group_hi := (chan_end + groupsize - 1) / groupsize in
    let n_local_groups := group_hi - group_lo in
    let out_channel_offset := group_lo * out_per_group in
    let x_padded :=
      if n_local_groups * groupsize =? local_in_channels then x
      else let pad_offset := chan_start - group_lo * groupsize in
           mkT (upd 1 (n_local_groups * groupsize) (shp x))
             (fun i => if (pad_offset <=? nth 1 i 0) && (nth 1 i 0 <? pad_offset + local_in_channels)
                       then val x (upd 1 (nth 1 i 0 - pad_offset) i) else 0%R) in
    do y <- disco_cpu_fwd junk (d_K o) (d_nlat_out o) (d_nlon_out o) (d_roff o) (d_es o) x_padded;
    do local_out <- weight_contract n_local_groups (narrow 0 (group_lo * out_per_group) (n_local_groups * out_per_group) weight) y;
    Some (mkT (upd 1 out_channels (shp local_out))
            (fun i => if (out_channel_offset <=? nth 1 i 0) && (nth 1 i 0 <? out_channel_offset + n_local_groups * out_per_group)
                      then val local_out (upd 1 (nth 1 i 0 - out_channel_offset) i) else 0%R)).
(** distributed_convolution_kernels.py:200-374 [_distributed_disco_fwd_a2a_reordered] and
    the bias *)
Definition dist_conv_reordered (junk : nat -> R) (debug : bool) (P A : nat) (d : pfam disco_layer) (x : pfam (tensor R)) : pfam (tensor R) :=
  let x1 := az_transpose debug A 1 3 (pmap (fun o => compute_split_shapes (d_nlon_in o) A) d) x in
  let x2 : pfam (tensor R) := fun p a => do o <- d p a; do t <- x1 p a; reordered_local junk A a o t in
  let x3 := po_reduce_scatter P 2 x2 in
  let x4 := if 1 <? A then az_reduce_scatter A 3 x3 else x3 in
  pzip (fun o t => add_chan_bias (d_bias o) t) d x4.

(** distributed_convolution.py:488-587 [DistributedDiscreteContinuousConvTransposeS2.__init__] *)
Definition dist_tconv_init (junk : nat -> entry) (opt : bool) (P A nlat_in nlon_in nlat_out nlon_out groups K : nat)
    (weight : tensor R) (bias : option (tensor R)) (es : list entry) : pfam disco_layer := fun p a =>
  do _ <- compute_split_shapes nlat_in P; do _ <- compute_split_shapes nlon_in A;
  do lat_out <- compute_split_shapes nlat_out P; do _ <- compute_split_shapes nlon_out A;
  let nlat_out_local := nth p lat_out 0 in
  do les <- split_psi P p nlat_out nlon_out es;
  if opt then
    do r <- preprocess_psi junk K nlat_in les;
    Some (mkD K nlat_in nlon_in nlat_out_local nlon_out groups weight bias (fst r) (snd r) les)
  else
    do _ <- get_psi_semi K les nlat_in nlon_in nlat_out_local nlon_out;
    Some (mkD K nlat_in nlon_in nlat_out_local nlon_out groups weight bias [] [] les).
Definition local_transposed (opt : bool) (o : disco_layer) (t : tensor R) : option (tensor R) :=
  if opt then disco_cpu_bwd (d_K o) (d_nlat_out o) (d_nlon_out o) (d_roff o) (d_es o) t
  else do psi <- get_psi_semi (d_K o) (d_raw o) (d_nlat_in o) (d_nlon_in o) (d_nlat_out o) (d_nlon_out o);
       disco_transpose_torch psi (d_nlon_out o) t.
(** distributed_convolution.py:596-632 [forward] *)
Definition dist_tconv (opt debug : bool) (P A : nat) (d : pfam disco_layer) (x : pfam (tensor R)) : pfam (tensor R) :=
  let x0 := pzip (fun o t => weight_expand (d_groups o) (d_weight o) t) d x in
  let x1 := az_transpose debug A 1 4 (pmap (fun o => compute_split_shapes (d_nlon_in o) A) d) x0 in
  let x2 : pfam (tensor R) := fun p a =>
    do o <- d p a; do sizes <- compute_split_shapes (d_nlat_in o) P; gfc_fwd debug P 3 (Some sizes) (fun p => x1 p a) p in
  let x3 := pzip (local_transposed opt) d x2 in
  let x4 := az_transpose debug A 3 1 (pmap (fun t => compute_split_shapes (dimsz t 1) A) x0) x3 in
  pzip (fun o t => add_chan_bias (d_bias o) t) d x4.
