(** Forward and backward pass of distributed attention on one rank with a GPU, in the self and
    downsampling direction (torch_harmonics/distributed/distributed_attention.py): the launches of
    each ring step (CudaRingModel, CudaRingBwdModel) and the tensor operations around them.

    As there, numbers are exact reals and [ninf] is the number that stands for minus infinity.  The
    buffers of a pass lie one after the other in one array, as CudaRingSpec and CudaRingBwdSpec
    describe.  Dtype casts are not modelled, and all three gradients are requested. *)
From Coq Require Import List Arith Bool ZArith Reals.
From Verif Require Import TensorModel BigSum AttnModel AttnLayerModel DistAttnModel DistAttnBwdModel GpuModel CudaDiscoModel CudaAttnModel CudaRescaleSpec CudaRingModel CudaRingBwdModel.
Import ListNotations.
Local Open Scope nat_scope.

Section Rank.
(** a device, whether vector loads are possible, whether the architecture is an old one; the layer
    object of a rank, its place in the grid, queries and output gradients in channels-last layout,
    the extents of the buffers and the split of the rows *)
Variables (dev : device) (vec old : bool) (ninf : R) (o : dattn) (p a : nat) (qn dyn : tensor R) (B Ck Cv n mx md : nat).
Let L := da_L o.
Let Ho := nth p (da_lat_out o) 0.
Let Wo := nth a (da_lon_out o) 0.
Let cells := B * Ho * Wo.
Let lat0 := (Z.of_nat (nth p (split_starts (da_lat_in o)) 0%nat) - Z.of_nat (da_r_lat o))%Z.
(** distributed_attention.py:150-170: the forward step on the chunk a rank visits *)
Definition fwd_launches (s : nat * (tensor R * tensor R)) : option (option (((nat -> R) -> kernel) * ((nat -> R) -> kernel) * ((nat -> R) -> kernel)) * option kernel) :=
  let k := fst (snd s) in let v := snd (snd s) in
  ring_fwd dev vec ninf B Ck Cv (dimsz k 1) (dimsz k 2) (na_Wi L) (na_Wi L / na_Wo L) (nth (fst s) (split_starts (da_lon_in o)) 0) lat0 Ho Wo (na_Hi L)
    (flat k) (flat v) (flat qn) (na_quad L) (da_row o) (da_roff o) (da_col o) n mx md.
(** distributed_attention.py:311-334: pass 1 of the backward step *)
Definition p1_launches (s : nat * (tensor R * tensor R)) : option (option (((nat -> R) -> kernel) * ((nat -> R) -> kernel) * ((nat -> R) -> kernel)) * option kernel) :=
  let k := fst (snd s) in let v := snd (snd s) in
  ring_pass1 dev vec ninf B Ck Cv (dimsz k 1) (dimsz k 2) (na_Wi L) (na_Wi L / na_Wo L) (nth (fst s) (split_starts (da_lon_in o)) 0) lat0 Ho Wo (na_Hi L)
    (flat k) (flat v) (flat qn) (flat dyn) (na_quad L) (da_row o) (da_roff o) (da_col o) n mx md.
(** distributed_attention.py:128-130, 293-297: torch.full(-inf) and torch.zeros *)
Definition empty_bufs : nat -> R := fun i => if i <? cells then ninf else 0%R.
(** distributed_attention.py:180: y_acc / alpha_sum, from the buffers [fo] of the forward pass *)
Definition y_of (fo : nat -> R) : fld := fun b h w x => let c := (b * Ho + h) * Wo + w in (the_acc cells Cv 1 fo 0 c x / the_sum cells fo 0 c)%R.
(** distributed_attention.py:346, 350: integral_buf * (1.0 / fwd_alpha_sum), with the buffers [bo] of pass 1 *)
Definition inorm_of (fo bo : nat -> R) : nat -> R := fun c => (the_sum cells bo 1 c * (1 / the_sum cells fo 0 c))%R.
(** distributed_attention.py:354-355 *)
Definition dq_of (fo bo : nat -> R) : fld := fun b h w x => let c := (b * Ho + h) * Wo + w in let s := the_sum cells fo 0 c in let i := (1 / s)%R in
  (i * i * (s * the_acc cells Ck 2 bo 1 c x - the_sum cells bo 1 c * the_acc cells Ck 2 bo 0 c x))%R.
(** distributed_attention.py:383-411: pass 2 of the backward step *)
Definition p2_launches (fo bo : nat -> R) (s : nat * (tensor R * tensor R)) : option (option kernel * option kernel) :=
  let k := fst (snd s) in let v := snd (snd s) in
  ring_pass2 dev vec old B Ck Cv (dimsz k 1) (dimsz k 2) (na_Wi L) (na_Wi L / na_Wo L) (nth (fst s) (split_starts (da_lon_in o)) 0) lat0 Ho Wo (na_Hi L)
    (flat k) (flat v) (flat qn) (flat dyn) (na_quad L) (da_row o) (da_roff o) (da_col o) n mx md (fun c => the_sum cells fo 0 c) (fun c => the_max fo c) (inorm_of fo bo).
(** distributed_attention.py:375-376, 413-416: the columns of each chunk are added into the gradients
    of all columns of the [H] rows of the halo; [gs] are the buffers dkw_chunk_cl [B][H][nlon_kx][Ck]
    and dvw_chunk_cl [B][H][nlon_kx][Cv] of each visit *)
Definition full_of (H : nat) (visits : list (nat * (tensor R * tensor R))) (gs : list (nat -> R)) : fld * fld :=
  fold_left (fun acc x => let s := fst (fst x) in let g := snd x in
      let lo := nth s (split_starts (da_lon_in o)) 0 in let w := nth s (da_lon_in o) 0 in
      (add_cols lo w (fun b h wl c => g (((b * H + h) * w + wl) * Ck + c)) (fst acc),
       add_cols lo w (fun b h wl c => g (B * H * w * Ck + (((b * H + h) * w + wl) * Cv + c))) (snd acc))) (combine visits gs) (fld0, fld0).
End Rank.
