(** The backward pass of distributed neighbourhood attention
    (torch_harmonics/distributed/distributed_attention.py, the autograd functions
    [_RingNeighborhoodAttentionFn] and [_RingNeighborhoodAttentionUpsampleFn]) and the
    generic kernels it launches
    (attention/optimized/kernels_cuda/attention_cuda_bwd_ring.cu and
    attention_cuda_bwd_ring_upsample.cu).

    As in DistAttnModel numbers are exact reals, so the order of atomic updates does not
    matter and the CUDA threads are run one after the other; dtype casts and the kernels
    specialised for few channels and long rows are not modelled.  All three gradients are
    requested: ctx.needs_input_grad only decides which of them are computed. *)
From Coq Require Import List Arith Lia Bool ZArith Reals.
From Verif Require Import TensorModel BigSum DiscoModel PrimModel PrimAutogradModel DistSHTModel DistStateModel AttnModel AttnLayerModel DistAttnModel.
Import ListNotations.
Local Open Scope nat_scope.

(** alpha_sum, qdotk_max, integral, alpha_k and alpha_kvw of one output cell *)
Record bst := mkB { b_sum : R; b_max : option R; b_int : R; b_k : nat -> R; b_kvw : nat -> R }.
(** distributed_attention.py:293-297 (661-663): the initial buffers *)
Definition bst0 : bst := mkB 0 None 0 (fun _ => 0%R) (fun _ => 0%R).
Definition bbuf := nat -> nat -> nat -> bst.

(** attention_cuda_bwd_ring.cu:187-199: score, dy.v, quadrature weight, key *)
Definition bring_entry (s g w : R) (k : nat -> R) (st : bst) : bst :=
  let m := match b_max st with None => s | Some m => Rmax m s end in
  let alpha_inz := (exp (s - m) * w)%R in
  let corr := exp_diff (b_max st) m in
  mkB (b_sum st * corr + alpha_inz) (Some m) (b_int st * corr + alpha_inz * g)
    (fun c => (corr * b_k st c + alpha_inz * k c)%R) (fun c => (corr * b_kvw st c + alpha_inz * g * k c)%R).

Section Kernels.
(** as in DistAttnModel; [Cv] channels of v and of the output gradient [dy] *)
Variables (Ck Cv : nat) (quad : nat -> R) (roff col : list nat).
Variables (nlat_halo nlon_kx lon_lo_kx : nat) (lat_halo_start : Z) (Ho Wo : nat).
Variables (kx vx qy dy : fld).
(** adding into one cell of a chunk-shaped gradient buffer *)
Definition add_at (b h w : nat) (f : nat -> R) (acc : fld) : fld := fun b' h' w' c =>
  if (b' =? b) && (h' =? h) && (w' =? w) then (acc b' h' w' c + f c)%R else acc b' h' w' c.
Definition fld0 : fld := fun _ _ _ _ => 0%R.

Section Gather.
Variables (Wi ps : nat) (row_idx : list nat).
(** attention_cuda_bwd_ring.cu:159-171, 1381-1393: global latitude and cell of the chunk that
    an entry leads to, unless the entry is skipped *)
Definition chunk_hit (wo c : nat) : option (nat * nat * nat) :=
  let hi_global := c / Wi in
  let wip := (c mod Wi + ps * wo) mod Wi in
  if (wip <? lon_lo_kx) || (lon_lo_kx + nlon_kx <=? wip) then None else
  let hi_local := (Z.of_nat hi_global - lat_halo_start)%Z in
  if (hi_local <? 0)%Z || (Z.of_nat nlat_halo <=? hi_local)%Z then None else
  Some (hi_global, Z.to_nat hi_local, wip - lon_lo_kx).
(** attention_cuda_bwd_ring.cu:159-200: one entry *)
Definition bring_visit (b ho wo : nat) (st : bst) (c : nat) : bst :=
  match chunk_hit wo c with
  | None => st
  | Some (hg, hl, wl) => bring_entry (dot Ck (qy b ho wo) (kx b hl wl)) (dot Cv (dy b ho wo) (vx b hl wl)) (quad hg) (kx b hl wl) st
  end.
(** attention_cuda_bwd_ring.cu:78-213 [s2_attn_bwd_ring_pass1_generic_k]: one thread for
    each (batch, h, wo), working on row row_idx[h] *)
Definition bring_step (B : nat) (buf : bbuf) : bbuf :=
  fold_left (fun buf t => let '(b, h, wo) := t in let ho := nth h row_idx 0 in
      upd3 b ho wo (fold_left (bring_visit b ho wo) (csr_row roff col ho) (buf b ho wo)) buf)
    (cells3 Ho Wo B) buf.
(** attention_cuda_bwd_ring.cu:1381-1435: one entry of pass 2.  [sums], [maxs] are the saved
    alpha_sum and qdotk_max, [inorm] is integral_norm. *)
Definition dkv_visit (sums : nat -> nat -> nat -> R) (maxs : nat -> nat -> nat -> option R) (inorm : nat -> nat -> nat -> R)
    (b ho wo : nat) (acc : fld * fld) (c : nat) : fld * fld :=
  match chunk_hit wo c with
  | None => acc
  | Some (hg, hl, wl) =>
      let qdotk := dot Ck (qy b ho wo) (kx b hl wl) in let gdotv := dot Cv (dy b ho wo) (vx b hl wl) in
      let alpha_inz := (match maxs b ho wo with None => 0 | Some m => exp (qdotk - m) end * quad hg)%R in
      let alpha_mul := (alpha_inz * (1 / sums b ho wo))%R in
      let scale_dkx := ((gdotv - inorm b ho wo) * alpha_mul)%R in
      (add_at b hl wl (fun ch => scale_dkx * qy b ho wo ch)%R (fst acc), add_at b hl wl (fun ch => alpha_mul * dy b ho wo ch)%R (snd acc))
  end.
(** attention_cuda_bwd_ring.cu:1312-1437 [s2_attn_bwd_ring_pass2_generic_k] on zeroed
    buffers.  A saved maximum of -inf goes with a saved sum of 0, which the caller excludes. *)
Definition dkv_step (sums : nat -> nat -> nat -> R) (maxs : nat -> nat -> nat -> option R) (inorm : nat -> nat -> nat -> R) (B : nat) : fld * fld :=
  fold_left (fun acc t => let '(b, h, wo) := t in let ho := nth h row_idx 0 in
      fold_left (dkv_visit sums maxs inorm b ho wo) (csr_row roff col ho) acc)
    (cells3 Ho Wo B) (fld0, fld0).
End Gather.

Section Scatter.
Variables (WoG ps : nat).
(** attention_cuda_bwd_ring_upsample.cu:80-86 [bwd_ring_up_local_wo] is up_local_wo of
    DistAttnModel, and the loops 103-141, 178-223 make its chunk_trips. *)
Let trips := chunk_trips roff col nlat_halo nlon_kx lon_lo_kx Wo WoG ps.
Definition trip_alpha (maxs : nat -> nat -> nat -> option R) (b : nat) (t : (nat * nat) * (nat * nat)) : R :=
  (match maxs b (fst (snd t)) (snd (snd t)) with None => 0 | Some m => exp (trip_score Ck kx qy b t - m) end *
   quad (Z.to_nat (lat_halo_start + Z.of_nat (fst (fst t)))))%R.
Definition trip_gdotv (b : nat) (t : (nat * nat) * (nat * nat)) : R :=
  dot Cv (dy b (fst (snd t)) (snd (snd t))) (vx b (fst (fst t)) (snd (fst t))).
(** attention_cuda_bwd_ring_upsample.cu:90-159 [s2_attn_bwd_ring_upsample_stats_k] *)
Definition bring_step_up (maxs : nat -> nat -> nat -> option R) (B : nat) (buf : bbuf) : bbuf :=
  fun b => if b <? B then
    fold_left (fun (buf : nat -> nat -> bst) t h w => if (h =? fst (snd t)) && (w =? snd (snd t)) then
        let st := buf h w in let alpha := trip_alpha maxs b t in let ag := (alpha * trip_gdotv b t)%R in
        let k := kx b (fst (fst t)) (snd (fst t)) in
        mkB (b_sum st) (b_max st) (b_int st + ag) (fun c => b_k st c + alpha * k c)%R (fun c => b_kvw st c + ag * k c)%R
      else buf h w) trips (buf b)
  else buf b.
(** attention_cuda_bwd_ring_upsample.cu:163-240 [s2_attn_bwd_ring_upsample_dkv_k] on zeroed
    buffers: the accumulators of one chunk cell are written when its row is done *)
Definition dkv_cell_up (sums : nat -> nat -> nat -> R) (maxs : nat -> nat -> nat -> option R) (inorm : nat -> nat -> nat -> R)
    (b hi wi : nat) : (nat -> R) * (nat -> R) :=
  fold_left (fun acc c => match up_local_wo Wo WoG ps (c mod WoG) (lon_lo_kx + wi) with
      | None => acc
      | Some wo => let ho := c / WoG in let t := ((hi, wi), (ho, wo)) in
          let alpha_norm := (trip_alpha maxs b t / sums b ho wo)%R in
          let scale_dk := ((trip_gdotv b t - inorm b ho wo) * alpha_norm)%R in
          (fun ch => fst acc ch + scale_dk * qy b ho wo ch, fun ch => snd acc ch + alpha_norm * dy b ho wo ch)%R
      end) (csr_row roff col hi) (fun _ => 0%R, fun _ => 0%R).
Definition dkv_step_up (sums : nat -> nat -> nat -> R) (maxs : nat -> nat -> nat -> option R) (inorm : nat -> nat -> nat -> R) (B : nat) : fld * fld :=
  let upd (pick : (nat -> R) * (nat -> R) -> nat -> R) := fun b h w ch =>
    if (b <? B) && (h <? nlat_halo) && (w <? nlon_kx) then pick (dkv_cell_up sums maxs inorm b h w) ch else 0%R in
  (upd fst, upd snd).
End Scatter.
End Kernels.

(** ** The backward passes on one rank *)

(** distributed_attention.py:293-339 (661-702): pass 1 over the visited chunks.  [sv] are the
    saved forward buffers; only the scatter direction uses them here. *)
Definition bwd_state (o : dattn) (p a : nat) (visits : list (nat * (tensor R * tensor R))) (qn dyn : tensor R) (sv : rbuf) (B : nat) : bbuf :=
  let L := da_L o in
  let Ho := nth p (da_lat_out o) 0 in let Wo := nth a (da_lon_out o) 0 in
  let start := (Z.of_nat (nth p (split_starts (da_lat_in o)) 0%nat) - Z.of_nat (da_r_lat o))%Z in
  fold_left (fun buf s =>
      let lon_lo := nth (fst s) (split_starts (da_lon_in o)) 0 in let kc := fst (snd s) in let vc := snd (snd s) in
      if da_up o
      then bring_step_up (dimsz qn 3) (dimsz vc 3) (na_quad L) (da_roff o) (da_col o) (dimsz kc 1) (dimsz kc 2) lon_lo start Wo
             (hwc kc) (hwc vc) (hwc qn) (hwc dyn) (na_Wo L) (na_Wo L / na_Wi L) (fun b h w => r_max (sv b h w)) B buf
      else bring_step (dimsz qn 3) (dimsz vc 3) (na_quad L) (da_roff o) (da_col o) (dimsz kc 1) (dimsz kc 2) lon_lo start Ho Wo
             (hwc kc) (hwc vc) (hwc qn) (hwc dyn) (na_Wi L) (na_Wi L / na_Wo L) (da_row o) B buf) visits (fun _ _ _ => bst0).
(** distributed_attention.py:413-416 (767-770): full[:, :, lo : lo + n, :].add_(chunk) *)
Definition add_cols (lo n : nat) (chunk full : fld) : fld := fun b h w c =>
  if (lo <=? w) && (w <? lo + n) then (full b h w c + chunk b h (w - lo)%nat c)%R else full b h w c.
(** distributed_attention.py:370-424 (727-778): pass 2 over the visited chunks *)
Definition bwd_full (o : dattn) (p a : nat) (visits : list (nat * (tensor R * tensor R))) (qn dyn : tensor R) (sv : rbuf)
    (inorm : nat -> nat -> nat -> R) (B : nat) : fld * fld :=
  let L := da_L o in
  let Ho := nth p (da_lat_out o) 0 in let Wo := nth a (da_lon_out o) 0 in
  let start := (Z.of_nat (nth p (split_starts (da_lat_in o)) 0%nat) - Z.of_nat (da_r_lat o))%Z in
  let sums := fun b h w => r_sum (sv b h w) in let maxs := fun b h w => r_max (sv b h w) in
  fold_left (fun acc s =>
      let lon_lo := nth (fst s) (split_starts (da_lon_in o)) 0 in let kc := fst (snd s) in let vc := snd (snd s) in
      let nlon_kx := nth (fst s) (da_lon_in o) 0 in
      let dc := if da_up o
        then dkv_step_up (dimsz qn 3) (dimsz vc 3) (na_quad L) (da_roff o) (da_col o) (dimsz kc 1) (dimsz kc 2) lon_lo start Wo
               (hwc kc) (hwc vc) (hwc qn) (hwc dyn) (na_Wo L) (na_Wo L / na_Wi L) sums maxs inorm B
        else dkv_step (dimsz qn 3) (dimsz vc 3) (na_quad L) (da_roff o) (da_col o) (dimsz kc 1) (dimsz kc 2) lon_lo start Ho Wo
               (hwc kc) (hwc vc) (hwc qn) (hwc dyn) (na_Wi L) (na_Wi L / na_Wo L) (da_row o) sums maxs inorm B in
      (add_cols lon_lo nlon_kx (fst dc) (fst acc), add_cols lon_lo nlon_kx (snd dc) (snd acc))) visits (fld0, fld0).

(** distributed_attention.py:235-424 (611-778) on one rank: the rank's contributions to the
    gradients of all columns of its halo rows (channels last), and the gradient of its
    queries.  [own] is the rank's own chunk; the saved sums are those of the forward pass, and
    a sum of 0 would give inf or nan. *)
Definition ring_bwd_local (o : dattn) (p a : nat) (visits : list (nat * (tensor R * tensor R))) (own : tensor R * tensor R) (q dy : tensor R)
    : option (tensor R * tensor R * tensor R) :=
  let B := dimsz q 0 in let Ho := nth p (da_lat_out o) 0 in let Wo := nth a (da_lon_out o) 0 in
  let Ck := dimsz (fst own) 3 in let Cv := dimsz (snd own) 3 in let H_halo := dimsz (fst own) 1 in
  do _ <- guard (shape_eqb (shp dy) [B; Cv; Ho; Wo]);
  do qn <- to_nhwc q; do dyn <- to_nhwc dy;
  let sv := ring_state o p a visits qn B in
  do _ <- guard (forallb (fun t => let '(b, h, w) := t in nz (r_sum (sv b h w))) (cells3 Ho Wo B));
  let st := bwd_state o p a visits qn dyn sv B in
  let inorm := fun b h w => (b_int (st b h w) * (1 / r_sum (sv b h w)))%R in
  let dq := fun b h w c => let i := (1 / r_sum (sv b h w))%R in
     (i * i * (r_sum (sv b h w) * b_kvw (st b h w) c - b_int (st b h w) * b_k (st b h w) c))%R in
  let full := bwd_full o p a visits qn dyn sv inorm B in
  let W_total := sum_list (da_lon_in o) in
  do dqt <- to_nchw (mk_hwc B Ho Wo Ck dq);
  Some (mk_hwc B H_halo W_total Ck (fst full), mk_hwc B H_halo W_total Cv (snd full), dqt).

(** ** All ranks *)

(** distributed_attention.py:426-446 (780-798): the sum over the azimuth group, and the own
    columns of it in channels-first layout *)
Definition bwd_own (ranks : nat -> list nat) (obj : pfam dattn) (full : pfam (tensor R)) : pfam (tensor R) := fun p a =>
  do o <- obj p a;
  do t <- rreduce (length (ranks p)) (fun a => full p a) a;
  to_nchw (narrow 2 (nth a (split_starts (da_lon_in o)) 0) (nth a (da_lon_in o) 0) t).
(** the backward of the halo exchange in distributed_attention.py:1214-1219 (primitives.py:1022-1139
    [_PolarHaloExchangeFn], see PrimAutogradModel) *)
Definition dist_halo_bwd (P : nat) (obj : pfam dattn) (dx : pfam (tensor R)) : pfam (tensor R) := fun p a =>
  do o <- obj p a;
  if (0 <? da_r_lat o) && (1 <? P) then halo_bwd P (da_r_lat o) (fun p => nth p (da_lat_in o) 0) (fun p => dx p a) p else dx p a.
(** distributed_attention.py:1210-1281, as a function of the projected keys, values and
    queries with the heads folded into the batch ([proj], see dist_proj) *)
Definition dist_op (P : nat) (ranks : nat -> list nat) (obj : pfam dattn) (proj : pfam (tensor R * tensor R * tensor R)) : pfam (tensor R) := fun p a =>
  do o <- obj p a; do x <- proj p a;
  do visits <- dist_visits ranks (dist_chunk P obj proj) p a o;
  ring_output o p a visits (snd x).
(** its backward pass: from the output gradient [dy] to the gradients of keys, values and
    queries *)
Definition dist_op_local (P : nat) (ranks : nat -> list nat) (obj : pfam dattn) (proj : pfam (tensor R * tensor R * tensor R)) (dy : pfam (tensor R))
    : pfam (tensor R * tensor R * tensor R) := fun p a =>
  do o <- obj p a; do x <- proj p a; do g <- dy p a;
  do own <- dist_chunk P obj proj p a;
  do visits <- dist_visits ranks (dist_chunk P obj proj) p a o;
  ring_bwd_local o p a visits own (snd x) g.
Definition dist_op_bwd (P : nat) (ranks : nat -> list nat) (obj : pfam dattn) (proj : pfam (tensor R * tensor R * tensor R)) (dy : pfam (tensor R))
    : pfam (tensor R) * pfam (tensor R) * pfam (tensor R) :=
  let loc := dist_op_local P ranks obj proj dy in
  (dist_halo_bwd P obj (bwd_own ranks obj (pmap (fun x => Some (fst (fst x))) loc)),
   dist_halo_bwd P obj (bwd_own ranks obj (pmap (fun x => Some (snd (fst x))) loc)),
   pmap (fun x => Some (snd x)) loc).
