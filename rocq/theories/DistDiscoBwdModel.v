(** The backward passes of the distributed DISCO convolutions: what autograd runs for
    torch_harmonics/distributed/distributed_convolution.py and
    kernels/distributed_convolution_kernels.py when the optimised kernels are used, on a
    P x A process grid.  [g] is the family of output gradients, one per rank; values the
    forward pass stored on the autograd context (shapes, the K-expanded tensor) are
    recomputed here from the forward input [x].  The gradients of torch.einsum, reshape,
    slicing and slice assignment are those of PyTorch: transposed contractions, reshape
    back, scatter into zeros and slicing.  Dtypes and .contiguous() are identities.  All
    gradients are requested. *)
From Coq Require Import List Arith Lia Bool Reals.
From Verif Require Import TensorModel BigSum PrimModel PrimAutogradModel DistSHTModel DiscoModel DiscoGradModel DistDiscoModel.
Import ListNotations.
Local Open Scope nat_scope.

(** ** Collectives *)
(** primitives.py:291-311: [x] is the forward input of the transposition (d0, d1) *)
Definition az_transpose_bwd (debug : bool) (A d0 d1 : nat) (x g : pfam (tensor R)) : pfam (tensor R) :=
  if 1 <? A then fun p a => do t <- x p a; distributed_transpose_bwd debug A d0 d1 (dimsz t d0) (fun a => g p a) a else g.
(** primitives.py:672-705, 706-739: the gradient of the fused reduction and scattering along [d] *)
Definition po_reduce_scatter_bwd (debug : bool) (P d : nat) (x g : pfam (tensor R)) : pfam (tensor R) :=
  fun p a => do t <- x p a; rs_bwd debug P d (dimsz t d) (fun p => g p a) p.
Definition az_reduce_scatter_bwd (debug : bool) (A d : nat) (x g : pfam (tensor R)) : pfam (tensor R) :=
  fun p a => do t <- x p a; rs_bwd debug A d (dimsz t d) (fun a => g p a) a.

(** ** Local gradients *)
(** the gradient of "bgckxy,gock->bgoxy" for the weight, "bgoxy,bgckxy->gock" *)
Definition contract_wgrad (groups K : nat) (w y g : tensor R) : option (tensor R) :=
  let Og := dimsz w 0 / groups in let Cg := dimsz w 1 in
  do _ <- guard ((ndim g =? 4) && (1 <=? groups) && (dimsz w 0 =? groups * Og) && (dimsz y 1 =? groups * Cg) &&
                 shape_eqb (shp g) [dimsz y 0; dimsz w 0; dimsz y 3; dimsz y 4]);
  Some (mkT [dimsz w 0; Cg; K]
    (fun i => let o := nth 0 i 0 in
       rsum (dimsz g 0) (fun b => rsum (dimsz g 2) (fun h => rsum (dimsz g 3) (fun v =>
         (val g [b; o; h; v] * val y [b; o / Og * Cg + nth 1 i 0; nth 2 i 0; h; v]%nat)%R))))).
(** the gradient of adding the bias (distributed_convolution.py:437-439, 629-630) *)
Definition bias_grad (g : tensor R) : tensor R :=
  mkT [dimsz g 1] (fun i => rsum (dimsz g 0) (fun b => rsum (dimsz g 2) (fun h => rsum (dimsz g 3) (fun v => val g [b; nth 0 i 0; h; v])))).
Definition dist_bias_grad (g : pfam (tensor R)) : pfam (tensor R) := pmap (fun t => Some (bias_grad t)) g.
(** the gradients of "bgcxy,gock->bgokxy" (convolution.py:989-995,
    distributed_convolution.py:598-604) for the input and for the weight *)
Definition expand_dgrad (groups : nat) (w e : tensor R) : option (tensor R) :=
  let Og := dimsz w 0 / groups in let Cg := dimsz w 1 in
  do _ <- guard ((ndim e =? 5) && (1 <=? groups) && (dimsz w 0 =? groups * Og) && (dimsz e 1 =? groups * Og) && (dimsz e 2 =? dimsz w 2));
  Some (mkT [dimsz e 0; groups * Cg; dimsz e 3; dimsz e 4]
    (fun i => let c := nth 1 i 0 in
       rsum Og (fun o => rsum (dimsz w 2) (fun k =>
         (val e [nth 0 i 0; c / Cg * Og + o; k; nth 2 i 0; nth 3 i 0]%nat * val w [c / Cg * Og + o; c mod Cg; k]%nat)%R)))).
Definition expand_wgrad (groups : nat) (w x e : tensor R) : option (tensor R) :=
  let Og := dimsz w 0 / groups in let Cg := dimsz w 1 in
  do _ <- guard ((ndim e =? 5) && (1 <=? groups) && (dimsz w 0 =? groups * Og) && (dimsz e 1 =? groups * Og) && (dimsz e 2 =? dimsz w 2) &&
                 shape_eqb (shp x) [dimsz e 0; groups * Cg; dimsz e 3; dimsz e 4]);
  Some (mkT [dimsz w 0; Cg; dimsz w 2]
    (fun i => let o := nth 0 i 0 in
       rsum (dimsz x 0) (fun b => rsum (dimsz x 2) (fun h => rsum (dimsz x 3) (fun v =>
         (val x [b; o / Og * Cg + nth 1 i 0; h; v]%nat * val e [b; o; nth 2 i 0; h; v]%nat)%R))))).

(** ** Standard schedule *)
(** distributed_convolution_kernels.py:133-179: the intermediate values of [dist_conv] with
    optimised kernels (up to and including the transposition back) *)
Definition conv_x1 (debug : bool) (A : nat) (d : pfam disco_layer) (x : pfam (tensor R)) : pfam (tensor R) :=
  az_transpose debug A 1 3 (pmap (fun o => compute_split_shapes (d_nlon_in o) A) d) x.
Definition conv_x2 (junk : nat -> R) (debug : bool) (A : nat) (d : pfam disco_layer) (x : pfam (tensor R)) : pfam (tensor R) :=
  pzip (local_contraction junk true) d (conv_x1 debug A d x).
Definition conv_x3 (junk : nat -> R) (debug : bool) (P A : nat) (d : pfam disco_layer) (x : pfam (tensor R)) : pfam (tensor R) :=
  po_reduce_scatter P 3 (conv_x2 junk debug A d x).
Definition conv_x4 (junk : nat -> R) (debug : bool) (P A : nat) (d : pfam disco_layer) (x : pfam (tensor R)) : pfam (tensor R) :=
  az_transpose debug A 4 1 (pmap (fun t => compute_split_shapes (dimsz t 1) A) x) (conv_x3 junk debug P A d x).
(** the gradient of distributed_convolution_kernels.py:133-192 for the input: einsum,
    transposition, reduce-scatter, contraction (disco_optimized.py:383-400; the grid of
    the gradient is that of the forward input, 374-379), transposition *)
Definition dist_conv_dgrad (junk : nat -> R) (debug : bool) (P A : nat) (d : pfam disco_layer) (x g : pfam (tensor R)) : pfam (tensor R) :=
  let g4 := pzip (fun o t => grad_expand (d_groups o) (d_weight o) t) d g in
  let g3 := az_transpose_bwd debug A 4 1 (conv_x3 junk debug P A d x) g4 in
  let g2 := po_reduce_scatter_bwd debug P 3 (conv_x2 junk debug A d x) g3 in
  let g1 : pfam (tensor R) := fun p a => do o <- d p a; do t <- conv_x1 debug A d x p a; do u <- g2 p a;
    contraction_bwd (d_K o) (d_roff o) (d_es o) (dimsz t 2) (dimsz t 3) u in
  az_transpose_bwd debug A 1 3 x g1.
(** ... and for the rank's copy of the weight.  The sum over the ranks is left to the
    caller (distributed_convolution_kernels.py:55-59). *)
Definition dist_conv_wgrad (junk : nat -> R) (debug : bool) (P A : nat) (d : pfam disco_layer) (x g : pfam (tensor R)) : pfam (tensor R) :=
  fun p a => do o <- d p a; do y <- conv_x4 junk debug P A d x p a; do t <- g p a;
    contract_wgrad (d_groups o) (d_K o) (d_weight o) y t.

(** ** Reordered schedule *)
(** distributed_convolution_kernels.py:264-298: the shard that the fused operator sees:
    number of groups, weight, padded input, offsets.  For one group nothing is padded and
    the slice of the weight is along its input channels. *)
Record reordered := mkRe { re_groups : nat; re_weight : tensor R; re_input : tensor R; re_pad : nat; re_chans : nat; re_out_off : nat; re_chan_start : nat; re_group_lo : nat }.
Definition reordered_prepare (A a : nat) (o : disco_layer) (x : tensor R) : option reordered :=
  let weight := d_weight o in let groups := d_groups o in
  let out_channels := dimsz weight 0 in let groupsize := dimsz weight 1 in
  let out_per_group := out_channels / groups in
  let in_channels := groups * groupsize in
  let local_in_channels := dimsz x 1 in
  do chan_start <- (if 1 <? A then do s <- compute_split_shapes in_channels A; Some (sum_list (firstn a s)) else Some 0);
  let chan_end := chan_start + local_in_channels in
  do _ <- guard (chan_end <=? in_channels);
  if groups =? 1 then Some (mkRe 1 (narrow 1 chan_start local_in_channels weight) x 0 local_in_channels 0 chan_start 0)
  else
    let group_lo := chan_start / groupsize in
    let group_hi := (chan_end + groupsize - 1) / groupsize in
    let n_local_groups := group_hi - group_lo in
    let pad_offset := chan_start - group_lo * groupsize in
    let x_padded :=
      if n_local_groups * groupsize =? local_in_channels then x
      else mkT (upd 1 (n_local_groups * groupsize) (shp x))
             (fun i => if (pad_offset <=? nth 1 i 0) && (nth 1 i 0 <? pad_offset + local_in_channels)
                       then val x (upd 1 (nth 1 i 0 - pad_offset) i) else 0%R) in
    Some (mkRe n_local_groups (narrow 0 (group_lo * out_per_group) (n_local_groups * out_per_group) weight) x_padded
            pad_offset local_in_channels (group_lo * out_per_group) chan_start group_lo).
(** the fused operator on that shard as a layer without bias; its backward pass
    (disco_optimized.py:568-622) is the one of the serial fused layer *)
Definition re_layer (o : disco_layer) (r : reordered) : disco_layer :=
  mkD (d_K o) (d_nlat_in o) (d_nlon_in o) (d_nlat_out o) (d_nlon_out o) (re_groups r) (re_weight r) None (d_roff o) (d_es o) (d_raw o).
(** distributed_convolution_kernels.py:353-359 backwards: the output channels of the rank *)
Definition re_out_grad (o : disco_layer) (r : reordered) (g : tensor R) : tensor R :=
  if d_groups o =? 1 then g else narrow 1 (re_out_off r) (re_groups r * (dimsz (d_weight o) 0 / d_groups o)) g.
(** 276-296 backwards: the gradient of the unpadded channels *)
Definition re_in_grad (o : disco_layer) (r : reordered) (t : tensor R) : tensor R :=
  if d_groups o =? 1 then t
  else if re_groups r * dimsz (d_weight o) 1 =? re_chans r then t else narrow 1 (re_pad r) (re_chans r) t.
(** 277, 298 backwards: the gradient of the slice, in zeros of the weight's shape *)
Definition re_weight_grad (o : disco_layer) (r : reordered) (t : tensor R) : tensor R :=
  if d_groups o =? 1
  then mkT (shp (d_weight o)) (fun i => if (re_chan_start r <=? nth 1 i 0) && (nth 1 i 0 <? re_chan_start r + re_chans r)
                                        then val t (upd 1 (nth 1 i 0 - re_chan_start r) i) else 0%R)
  else let off := re_out_off r in let n := re_groups r * (dimsz (d_weight o) 0 / d_groups o) in
       mkT (shp (d_weight o)) (fun i => if (off <=? nth 0 i 0) && (nth 0 i 0 <? off + n) then val t (upd 0 (nth 0 i 0 - off) i) else 0%R).
(** 361-365 backwards: the output gradient of all latitudes and longitudes, on every
    rank.  The shapes are those of the forward values. *)
Definition reordered_x2 (junk : nat -> R) (debug : bool) (A : nat) (d : pfam disco_layer) (x : pfam (tensor R)) : pfam (tensor R) :=
  fun p a => do o <- d p a; do t <- conv_x1 debug A d x p a; reordered_local junk A a o t.
Definition reordered_g2 (junk : nat -> R) (debug : bool) (P A : nat) (d : pfam disco_layer) (x g : pfam (tensor R)) : pfam (tensor R) :=
  let x2 := reordered_x2 junk debug A d x in
  let g3 := if 1 <? A then az_reduce_scatter_bwd debug A 3 (po_reduce_scatter P 2 x2) g else g in
  po_reduce_scatter_bwd debug P 2 x2 g3.
Definition dist_conv_reordered_dgrad (junk : nat -> R) (debug : bool) (P A : nat) (d : pfam disco_layer) (x g : pfam (tensor R)) : pfam (tensor R) :=
  let g1 : pfam (tensor R) := fun p a =>
    do o <- d p a; do t <- conv_x1 debug A d x p a; do u <- reordered_g2 junk debug P A d x g p a;
    do r <- reordered_prepare A a o t;
    do v <- conv_s2_dgrad (re_layer o r) (re_out_grad o r u);
    Some (re_in_grad o r v) in
  az_transpose_bwd debug A 1 3 x g1.
Definition dist_conv_reordered_wgrad (junk : nat -> R) (debug : bool) (P A : nat) (d : pfam disco_layer) (x g : pfam (tensor R)) : pfam (tensor R) :=
  fun p a =>
    do o <- d p a; do t <- conv_x1 debug A d x p a; do u <- reordered_g2 junk debug P A d x g p a;
    do r <- reordered_prepare A a o t;
    do v <- conv_s2_wgrad junk (re_layer o r) (re_input r) (re_out_grad o r u);
    Some (re_weight_grad o r v).

(** ** Transposed layer *)
(** The serial layer (convolution.py:989-1006): backward of the einsum after that of the
    transposed contraction (disco_optimized.py:430-447) *)
Definition conv_transpose_s2_dgrad (junk : nat -> R) (d : disco_layer) (g : tensor R) : option (tensor R) :=
  do e <- transpose_contraction_bwd junk (d_K d) (d_roff d) (d_es d) (d_nlat_in d) (d_nlon_in d) g;
  expand_dgrad (d_groups d) (d_weight d) e.
Definition conv_transpose_s2_wgrad (junk : nat -> R) (d : disco_layer) (x g : tensor R) : option (tensor R) :=
  do e <- transpose_contraction_bwd junk (d_K d) (d_roff d) (d_es d) (d_nlat_in d) (d_nlon_in d) g;
  expand_wgrad (d_groups d) (d_weight d) x e.
(** distributed_convolution.py:596-622: the intermediate values of [dist_tconv] *)
Definition tconv_x0 (d : pfam disco_layer) (x : pfam (tensor R)) : pfam (tensor R) :=
  pzip (fun o t => weight_expand (d_groups o) (d_weight o) t) d x.
Definition tconv_x1 (debug : bool) (A : nat) (d : pfam disco_layer) (x : pfam (tensor R)) : pfam (tensor R) :=
  az_transpose debug A 1 4 (pmap (fun o => compute_split_shapes (d_nlon_in o) A) d) (tconv_x0 d x).
Definition tconv_x2 (debug : bool) (P A : nat) (d : pfam disco_layer) (x : pfam (tensor R)) : pfam (tensor R) :=
  fun p a => do o <- d p a; do sizes <- compute_split_shapes (d_nlat_in o) P; gfc_fwd debug P 3 (Some sizes) (fun p => tconv_x1 debug A d x p a) p.
Definition tconv_x3 (debug : bool) (P A : nat) (d : pfam disco_layer) (x : pfam (tensor R)) : pfam (tensor R) :=
  pzip (local_transposed true) d (tconv_x2 debug P A d x).
(** the gradient of 596-627 for the K-expanded input: transposition, transposed
    contraction, gather (primitives.py:742-771: a reduce-scatter), transposition *)
Definition dist_tconv_g0 (junk : nat -> R) (debug : bool) (P A : nat) (d : pfam disco_layer) (x g : pfam (tensor R)) : pfam (tensor R) :=
  let g3 := az_transpose_bwd debug A 3 1 (tconv_x3 debug P A d x) g in
  let g2 : pfam (tensor R) := fun p a => do o <- d p a; do t <- tconv_x2 debug P A d x p a; do u <- g3 p a;
    transpose_contraction_bwd junk (d_K o) (d_roff o) (d_es o) (dimsz t 3) (dimsz t 4) u in
  let g1 : pfam (tensor R) := fun p a => gfc_bwd P 3 (fun p => g2 p a) p in
  az_transpose_bwd debug A 1 4 (tconv_x0 d x) g1.
Definition dist_tconv_dgrad (junk : nat -> R) (debug : bool) (P A : nat) (d : pfam disco_layer) (x g : pfam (tensor R)) : pfam (tensor R) :=
  pzip (fun o e => expand_dgrad (d_groups o) (d_weight o) e) d (dist_tconv_g0 junk debug P A d x g).
Definition dist_tconv_wgrad (junk : nat -> R) (debug : bool) (P A : nat) (d : pfam disco_layer) (x g : pfam (tensor R)) : pfam (tensor R) :=
  fun p a => do o <- d p a; do e <- dist_tconv_g0 junk debug P A d x g p a; do t <- x p a;
    expand_wgrad (d_groups o) (d_weight o) t e.
