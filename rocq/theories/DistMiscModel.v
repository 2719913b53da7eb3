(** Distributed quadrature, resampling and spectral convolution. *)
From Coq Require Import List Arith Lia Bool Reals.
From Coquelicot Require Import Coquelicot.
From Verif Require Import TensorModel BigSum FFTModel TruncModel LegendreModel QuadModel SHTModel PrimModel
  PrimAutogradModel ResampleModel SpectralConvModel DistSHTModel.
Import ListNotations.
Local Open Scope nat_scope.

(** reduce_from_polar_region / reduce_from_azimuth_region under
    [if comm_size > 1] (forward). *)
Definition po_reduce (P : nat) (x : pfam (tensor R)) : pfam (tensor R) :=
  if 1 <? P then fun p a => reduce_fwd P (fun p => x p a) p else x.
Definition az_reduce (A : nat) (x : pfam (tensor R)) : pfam (tensor R) :=
  if 1 <? A then fun p a => reduce_fwd A (fun a => x p a) a else x.

(** [if n > 1: t = split_tensor_along_dim(t, d, n)[r]] *)
Definition local_split {B} (n d r : nat) (t : tensor B) : option (tensor B) :=
  if 1 <? n then do l <- split_tensor_along_dim t d n; nth_error l r else Some t.

(** distributed_quadrature.py:76-129 [DistributedQuadratureS2.__init__]: same rules
    as the serial class without the trapezoidal one; the local weights. *)
Definition dist_quad_rule (gl : nat -> rule) (nlat : nat) (g : grid) : option rule :=
  match g with GTrapezoidal => None | _ => quadrature_s2_rule gl nlat g end.
Definition dist_quad_init (gl : nat -> rule) (P A nlat nlon : nat) (g : grid) (normalize : bool) : pfam (tensor R) :=
  fun p a =>
    do q <- dist_quad_rule gl nlat g;
    do _ <- compute_split_shapes nlat P; do _ <- compute_split_shapes nlon A;
    do w1 <- local_split P 2 p (quad_weight_tensor nlat nlon (rw q) normalize);
    local_split A 3 a w1.
(** distributed_quadrature.py:131-139 [forward] *)
Definition dist_quadrature (P A : nat) (w x : pfam (tensor R)) : pfam (tensor R) :=
  az_reduce A (po_reduce P (pzip integrate_last2 w x)).

(** distributed_resample.py:175-196 [_expand_poles].  The local count is an integer
    tensor reduced with the same collective; it is modelled as a real. *)
Definition row_sum_t (dh dw row : nat) (x : tensor R) : tensor R :=
  mkT (upd dw 1 (upd dh 1 (shp x))) (fun i => row_sum dh dw row x i).
Definition dist_expand_poles (A dh dw : nat) (x : pfam (tensor R)) : pfam (tensor R) :=
  let north := az_reduce A (pmap (fun t => Some (row_sum_t dh dw 0 t)) x) in
  let south := az_reduce A (pmap (fun t => Some (row_sum_t dh dw (dimsz t dh - 1) t)) x) in
  let count := az_reduce A (pmap (fun t => Some (mkT [1] (fun _ => INR (dimsz t dw)))) x) in
  fun p a =>
    do t <- x p a; do n <- north p a; do s <- south p a; do c <- count p a;
    let at_ := fun (r : tensor R) (i : list nat) => (val r (upd dw 0 (upd dh 0 i))%nat / val c [0%nat])%R in
    Some (expand_with dh (at_ n) (at_ s) t).

(** distributed_resample.py:213-249 [forward]; [r] is the object built by the
    (replicated) constructor, whose split shapes are recomputed here.  The dims
    -3, -2, -1 need a rank of at least 3. *)
Definition dist_resample (debug : bool) (P A : nat) (r : resampler) (x : pfam (tensor R)) : pfam (tensor R) :=
  if rs_skip r then x else
  fun p a =>
  do t <- x p a;
  do _ <- guard (3 <=? ndim t);
  do _ <- compute_split_shapes (rs_nlat_in r) P; do _ <- compute_split_shapes (rs_nlon_in r) A;
  do _ <- compute_split_shapes (rs_nlat_out r) P; do _ <- compute_split_shapes (rs_nlon_out r) A;
  let dc := ndim t - 3 in let dh := ndim t - 2 in let dw := ndim t - 1 in
  let nc : pfam nat := pmap (fun t => Some (dimsz t dc)) x in
  let x1 := po_transpose debug P dc dh (fun _ _ => compute_split_shapes (rs_nlat_in r) P) x in
  let x2 := if rs_expand r then dist_expand_poles A dh dw x1 else x1 in
  let x3 := pmap (upscale (rs_mode r) dh (rs_nlat_out r) (rs_lat_idx r) (fun i => (rs_lat_idx r i + 1)%Z) (rs_lat_w r)) x2 in
  let x4 := po_transpose debug P dh dc (pmap (fun c => compute_split_shapes c P) nc) x3 in
  let x5 := az_transpose debug A dc dw (fun _ _ => compute_split_shapes (rs_nlon_in r) A) x4 in
  let x6 := pmap (upscale (rs_mode r) dw (rs_nlon_out r) (rs_lon_l r) (rs_lon_r r) (rs_lon_w r)) x5 in
  az_transpose debug A dw dc (pmap (fun c => compute_split_shapes c A) nc) x6 p a.

(** distributed_spectral_convolution.py:196-228 [forward]; rank (p, a) holds the local
    transforms, weight, bias and quadrature weights.  copy_to_*_region is the
    identity in the forward direction. *)
Definition dist_spectral_conv (debug : bool) (P A : nat) (sh ish : pfam dsht) (groups cout : nat)
    (weight : pfam (tensor C)) (bias : option (pfam (tensor C))) (quad : pfam (tensor R)) (x : pfam (tensor R)) : pfam (tensor R) :=
  let y := dist_real_sht debug P A sh x in
  let y1 := match bias with
            | None => y
            | Some b => let q := dist_quadrature P A quad x in
                        fun p a => do qv <- q p a; do bv <- b p a; do yv <- y p a; add_bias qv bv yv
            end in
  let z := pzip (fun w t => contract_lwise groups cout w t) weight y1 in
  dist_inverse_sht debug P A ish z.
