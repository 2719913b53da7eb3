(** Forward and backward pass of distributed attention on one rank with a GPU, in the upsampling
    direction (torch_harmonics/distributed/distributed_attention.py): the launches of each ring step
    (CudaRingUpModel) and the tensor operations around them.

    As there, numbers are exact reals and [ninf] is the number that stands for minus infinity.  The
    buffers of a pass lie one after the other in one array, as CudaRingUpSpec describes.  Dtype casts
    are not modelled, and all three gradients are requested. *)
From Coq Require Import List Arith Bool ZArith Reals.
From Verif Require Import TensorModel BigSum AttnModel AttnLayerModel DistAttnModel DistAttnBwdModel GpuModel CudaDiscoModel CudaRescaleSpec CudaRingUpModel.
Import ListNotations.
Local Open Scope nat_scope.

Section Rank.
(** a device; the layer object of a rank, its place in the grid, queries and output gradients in
    channels-last layout, the extents of the buffers *)
Variables (dev : device) (ninf : R) (o : dattn) (p a : nat) (qn dyn : tensor R) (B Ck Cv : nat).
Let L := da_L o.
Let Ho := nth p (da_lat_out o) 0.
Let Wo := nth a (da_lon_out o) 0.
Let cells := B * Ho * Wo.
Let lat0 := (Z.of_nat (nth p (split_starts (da_lat_in o)) 0%nat) - Z.of_nat (da_r_lat o))%Z.
(** distributed_attention.py:534-551: the forward step on the chunk a rank visits; pscale_out is set in 1233 *)
Definition up_fwd_launches (s : nat * (tensor R * tensor R)) : option (kernel * ((nat -> R) -> kernel) * ((nat -> R) -> kernel)) :=
  let k := fst (snd s) in let v := snd (snd s) in
  ring_up_fwd B Ck Cv (dimsz k 1) (dimsz k 2) Ho Wo (na_Wo L) (na_Wo L / na_Wi L) (nth (fst s) (split_starts (da_lon_in o)) 0) lat0
    (da_roff o) (da_col o) (na_Hi L) (flat k) (flat v) (flat qn) (na_quad L) dev ninf.
(** distributed_attention.py:677-696: pass 1 of the backward step, with the saved maxima of the
    forward buffers [fo] *)
Definition up_p1_launches (fo : nat -> R) (s : nat * (tensor R * tensor R)) : option kernel :=
  let k := fst (snd s) in let v := snd (snd s) in
  ring_up_pass1 B Ck Cv (dimsz k 1) (dimsz k 2) Ho Wo (na_Wo L) (na_Wo L / na_Wi L) (nth (fst s) (split_starts (da_lon_in o)) 0) lat0
    (da_roff o) (da_col o) (na_Hi L) (flat k) (flat v) (flat qn) (flat dyn) (na_quad L) dev (fun c => the_max fo c).
(** distributed_attention.py:515-517: torch.zeros and torch.full(-inf) *)
Definition up_empty_bufs : nat -> R := fun i => if i <? cells then ninf else 0%R.
(** distributed_attention.py:561: y_acc / alpha_sum *)
Definition up_y_of (fo : nat -> R) : fld := fun b h w x => let c := (b * Ho + h) * Wo + w in (the_acc cells Cv 1 fo 0 c x / the_sum cells fo 0 c)%R.
(** distributed_attention.py:661-663: the buffers of pass 1, all zeros at first: integral_buf, then alpha_k_buf,
    then alpha_kvw_buf *)
Definition up_int (bo : nat -> R) (c : nat) : R := bo c.
Definition up_k (bo : nat -> R) (c x : nat) : R := bo (cells + (c * Ck + x)).
Definition up_kvw (bo : nat -> R) (c x : nat) : R := bo (cells + cells * Ck + (c * Ck + x)).
(** distributed_attention.py:707, 711: integral_buf * (1.0 / fwd_alpha_sum) *)
Definition up_inorm_of (fo bo : nat -> R) : nat -> R := fun c => (up_int bo c * (1 / the_sum cells fo 0 c))%R.
(** distributed_attention.py:715-716 *)
Definition up_dq_of (fo bo : nat -> R) : fld := fun b h w x => let c := (b * Ho + h) * Wo + w in let s := the_sum cells fo 0 c in let i := (1 / s)%R in
  (i * i * (s * up_kvw bo c x - up_int bo c * up_k bo c x))%R.
(** distributed_attention.py:742-765: pass 2 of the backward step *)
Definition up_p2_launches (fo bo : nat -> R) (s : nat * (tensor R * tensor R)) : option kernel :=
  let k := fst (snd s) in let v := snd (snd s) in
  ring_up_pass2 B Ck Cv (dimsz k 1) (dimsz k 2) Ho Wo (na_Wo L) (na_Wo L / na_Wi L) (nth (fst s) (split_starts (da_lon_in o)) 0) lat0
    (da_roff o) (da_col o) (na_Hi L) (flat k) (flat v) (flat qn) (flat dyn) (na_quad L) dev (fun c => the_sum cells fo 0 c) (fun c => the_max fo c) (up_inorm_of fo bo).
(** distributed_attention.py:732-733, 767-770: the columns of each chunk are added into the gradients of all columns
    of the [H] rows of the halo; [gs] are the buffers dkw_chunk_cl [B][H][nlon_kx][Ck] and dvw_chunk_cl
    [B][H][nlon_kx][Cv] of each visit *)
Definition up_full_of (H : nat) (visits : list (nat * (tensor R * tensor R))) (gs : list (nat -> R)) : fld * fld :=
  fold_left (fun acc x => let s := fst (fst x) in let g := snd x in
      let lo := nth s (split_starts (da_lon_in o)) 0 in let w := nth s (da_lon_in o) 0 in
      (add_cols lo w (fun b h wl c => g (((b * H + h) * w + wl) * Ck + c)) (fst acc),
       add_cols lo w (fun b h wl c => g (B * H * w * Ck + (((b * H + h) * w + wl) * Cv + c))) (snd acc))) (combine visits gs) (fld0, fld0).
End Rank.
