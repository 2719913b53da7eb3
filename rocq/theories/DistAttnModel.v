(** Distributed neighbourhood attention (torch_harmonics/distributed/distributed_attention.py)
    and the generic ring kernels it launches
    (attention/optimized/kernels_cuda/attention_cuda_fwd_ring.cu and
    attention_cuda_fwd_ring_upsample.cu).

    Numbers are exact reals, so the order of atomic updates does not matter and the
    CUDA threads are run one after the other.  The kernels specialised for few
    channels and long rows compute the same quantities in another order and are not
    modelled.  -inf is [None]. *)
From Coq Require Import List Arith Lia Bool ZArith Reals.
From Verif Require Import TensorModel BigSum DiscoModel PrimModel PrimAutogradModel DistSHTModel DistStateModel AttnModel AttnLayerModel.
Import ListNotations.
Local Open Scope nat_scope.

(** ** Ring kernels *)

(** alpha_sum, qdotk_max and y_acc of one output cell *)
Record rst := mkR { r_sum : R; r_max : option R; r_acc : nat -> R }.
(** distributed_attention.py:128-130: the initial buffers *)
Definition rst0 : rst := mkR 0 None (fun _ => 0%R).
(** expf(m - m') *)
Definition exp_diff (m : option R) (m' : R) : R := match m with None => 0%R | Some m => exp (m - m') end.
(** attention_cuda_fwd_ring.cu:158-166 *)
Definition ring_entry (s w : R) (v : nat -> R) (st : rst) : rst :=
  let m := match r_max st with None => s | Some m => Rmax m s end in
  let a := (exp (s - m) * w)%R in
  let exp_save := exp_diff (r_max st) m in
  mkR (a + r_sum st * exp_save) (Some m) (fun c => (exp_save * r_acc st c + a * v c)%R).

(** buffers [batch][nlat_out][nlon_out] *)
Definition rbuf := nat -> nat -> nat -> rst.
Definition upd3 {S : Type} (b h w : nat) (s : S) (buf : nat -> nat -> nat -> S) : nat -> nat -> nat -> S :=
  fun b' h' w' => if (b' =? b) && (h' =? h) && (w' =? w) then s else buf b' h' w'.

Section Kernels.
(** channels of q/k, quadrature weights by global input latitude, the local sparsity
    pattern, the chunk (NHWC, nlat_halo rows and nlon_kx columns) with its global
    offsets, the local queries and the local output grid *)
Variables (Ck : nat) (quad : nat -> R) (roff col : list nat).
Variables (nlat_halo nlon_kx lon_lo_kx : nat) (lat_halo_start : Z) (Ho Wo : nat).
Variables (kx vx qy : fld).

Section Gather.
Variables (Wi ps : nat) (row_idx : list nat).
(** attention_cuda_fwd_ring.cu:129-167: one entry *)
Definition ring_visit (b ho wo : nat) (st : rst) (c : nat) : rst :=
  let hi_global := c / Wi in
  let wip := (c mod Wi + ps * wo) mod Wi in
  if (wip <? lon_lo_kx) || (lon_lo_kx + nlon_kx <=? wip) then st else
  let hi_local := (Z.of_nat hi_global - lat_halo_start)%Z in
  if (hi_local <? 0)%Z || (Z.of_nat nlat_halo <=? hi_local)%Z then st else
  let hl := Z.to_nat hi_local in let wl := wip - lon_lo_kx in
  ring_entry (dot Ck (qy b ho wo) (kx b hl wl)) (quad hi_global) (vx b hl wl) st.
(** attention_cuda_fwd_ring.cu:66-175 [s2_attn_fwd_ring_generic_k]: one thread for each
    (batch, h, wo), working on row row_idx[h] *)
Definition ring_step (B : nat) (buf : rbuf) : rbuf :=
  fold_left (fun buf t => let '(b, h, wo) := t in let ho := nth h row_idx 0 in
      upd3 b ho wo (fold_left (ring_visit b ho wo) (csr_row roff col ho) (buf b ho wo)) buf)
    (cells3 Ho Wo B) buf.
End Gather.

Section Scatter.
Variables (WoG ps : nat).
(** attention_cuda_fwd_ring_upsample.cu:99-105 [ring_up_local_wo]; None is -1 *)
Definition up_local_wo (wo_shifted wi_global : nat) : option nat :=
  let w := wo_shifted + ps * wi_global in
  let w := if WoG <=? w then w - WoG else w in
  if w <? Wo then Some w else None.
(** the visits of the per-cell loops (117-149, 203-233): chunk cell (hi, wi_local) and
    local output cell *)
Definition chunk_trips : list ((nat * nat) * (nat * nat)) :=
  flat_map (fun hi => flat_map (fun wi => flat_map (fun c =>
      match up_local_wo (c mod WoG) (lon_lo_kx + wi) with None => [] | Some wo => [((hi, wi), (c / WoG, wo))] end)
    (csr_row roff col hi)) (seq 0 nlon_kx)) (seq 0 nlat_halo).
Definition trip_score (b : nat) (t : (nat * nat) * (nat * nat)) : R :=
  dot Ck (qy b (fst (snd t)) (snd (snd t))) (kx b (fst (fst t)) (snd (fst t))).
(** 107-151: phase 1, on a copy of the running maxima *)
Definition step_max (b : nat) (m : nat -> nat -> option R) : nat -> nat -> option R :=
  fold_left (fun m t h w => if (h =? fst (snd t)) && (w =? snd (snd t)) then omax (m h w) (trip_score b t) else m h w) chunk_trips m.
(** 153-181: phase 2, one cell *)
Definition rescale (m' : option R) (st : rst) : rst :=
  match m' with
  | None => st
  | Some m' => match r_max st with
      | Some m => if Req_EM_T m m' then st else mkR (r_sum st * exp (m - m')) (Some m') (fun c => (r_acc st c * exp (m - m'))%R)
      | None => mkR (r_sum st * 0) (Some m') (fun c => (r_acc st c * 0)%R)
      end
  end.
(** 183-240: phase 3 *)
Definition step_acc (b : nat) (buf : nat -> nat -> rst) : nat -> nat -> rst :=
  fold_left (fun (buf : nat -> nat -> rst) t h w => if (h =? fst (snd t)) && (w =? snd (snd t)) then
      let st := buf h w in
      let alpha := (match r_max st with None => 0 | Some m => exp (trip_score b t - m) end * quad (Z.to_nat (lat_halo_start + Z.of_nat (fst (fst t)))))%R in
      mkR (r_sum st + alpha) (r_max st) (fun c => (r_acc st c + alpha * vx b (fst (fst t)) (snd (fst t)) c)%R)
    else buf h w) chunk_trips buf.
(** 245-287 [launch_attn_fwd_ring_upsample_step] *)
Definition ring_step_up (B : nat) (buf : rbuf) : rbuf :=
  fun b => if b <? B then
     let m := step_max b (fun h w => r_max (buf b h w)) in
     step_acc b (fun h w => if (h <? Ho) && (w <? Wo) then rescale (m h w) (buf b h w) else buf b h w)
   else buf b.
End Scatter.
End Kernels.

(** ** The constructor *)

(** distributed_attention.py:926-930: list(accumulate([0] + shapes[:-1])) *)
Fixpoint accumulate (acc : nat) (l : list nat) : list nat :=
  match l with [] => [] | x :: l' => (acc + x) :: accumulate (acc + x) l' end.
Definition split_starts (shapes : list nat) : list nat := accumulate 0 (0 :: removelast shapes).

(** attention.py:339: the direction *)
Definition na_upsample (Wi Wo : nat) : bool := (Wo mod Wi =? 0) && negb (Wi mod Wo =? 0).

(** distributed_attention.py:895-924: every rank must have the same ratio of local widths *)
Definition uniform_split (up : bool) (Wi Wo : nat) (lon_in lon_out : list nat) : bool :=
  forallb (fun x => if up then snd x =? Wo / Wi * fst x else fst x =? Wi / Wo * snd x) (combine lon_in lon_out).

(** min and max of a non-empty tensor *)
Definition lmin (l : list nat) : nat := match l with [] => 0 | x :: r => fold_left Nat.min r x end.
Definition lmax (l : list nat) : nat := match l with [] => 0 | x :: r => fold_left Nat.max r x end.
(** distributed_attention.py:1045-1051, 1091-1097: the reach of the input rows [hi] beyond
    the rows [lat_in_lo, lat_in_hi); natural subtraction is max(0, a - b) *)
Definition reach (lat_in_lo lat_in_hi : nat) (hi : list nat) (r : nat) : nat :=
  if length hi =? 0 then r else Nat.max r (Nat.max (lat_in_lo - lmin hi) (lmax hi - (lat_in_hi - 1))).

Section Init.
Variables (P : nat) (Wi Wo Hi : nat) (lat_in lat_out : list nat).
Let in_lo r := nth r (split_starts lat_in) 0.
Let in_hi r := in_lo r + nth r lat_in 0.
Let out_lo r := nth r (split_starts lat_out) 0.
Let out_hi r := out_lo r + nth r lat_out 0.
Variables (roff col : list nat).

(** distributed_attention.py:1020-1053 [_compute_r_lat] *)
Definition compute_r_lat : nat :=
  if P =? 1 then 0 else if length col =? 0 then 0 else
  fold_left (fun r rank =>
      let start := nth (out_lo rank) roff 0 in let stop := nth (out_hi rank) roff 0 in
      if start =? stop then r else reach (in_lo rank) (in_hi rank) (map (fun c => c / Wi) (DiscoModel.slice col start stop)) r)
    (seq 0 P) 0.
(** distributed_attention.py:963-1006 [_build_local_psi]: offsets and columns *)
Definition local_psi (p lon_lo : nat) : list nat * list nat :=
  let lat_lo := out_lo p in let lat_hi := out_hi p in
  let roff_local := map (fun o => o - nth lat_lo roff 0) (DiscoModel.slice roff lat_lo (lat_hi + 1)) in
  let col_local := DiscoModel.slice col (nth lat_lo roff 0) (nth lat_hi roff 0) in
  (roff_local, map (fun c => c / Wi * Wi + (c mod Wi + Wi / Wo * lon_lo) mod Wi) col_local).
(** nnz_per_row = roff[1:] - roff[:-1] *)
Definition row_lengths (roff : list nat) : list nat := map (fun x => snd x - fst x) (combine roff (tl roff)).
(** repeat_interleave(arange(nlat_in), nnz_per_row), with the columns alongside *)
Definition hi_of_nz : list nat := flat_map (fun x => repeat (fst x) (snd x)) (combine (seq 0 Hi) (row_lengths roff)).
(** distributed_attention.py:1059-1099 [_compute_r_lat_upsample] *)
Definition compute_r_lat_up : nat :=
  if P =? 1 then 0 else if length col =? 0 then 0 else
  fold_left (fun r rank =>
      reach (in_lo rank) (in_hi rank)
        (map fst (filter (fun x => (out_lo rank <=? snd x / Wo) && (snd x / Wo <? out_hi rank)) (combine hi_of_nz col))) r)
    (seq 0 P) 0.
(** distributed_attention.py:1101-1155 [_build_local_psi_upsample] *)
Definition local_psi_up (p lon_lo r_lat : nat) : list nat * list nat :=
  let nlat_halo := nth p lat_in 0 + 2 * r_lat in
  let lat_halo_start := (Z.of_nat (in_lo p) - Z.of_nat r_lat)%Z in
  let sel := filter (fun x => let hi_local := (Z.of_nat (fst x) - lat_halo_start)%Z in
                (out_lo p <=? snd x / Wo) && (snd x / Wo <? out_hi p) && (0 <=? hi_local)%Z && (hi_local <? Z.of_nat nlat_halo)%Z)
              (combine hi_of_nz col) in
  let hi_sel := map (fun x => Z.to_nat (Z.of_nat (fst x) - lat_halo_start)) sel in
  let col_local := map (fun x => (snd x / Wo - out_lo p) * Wo + Z.to_nat ((Z.of_nat (snd x mod Wo) - Z.of_nat lon_lo) mod Z.of_nat Wo)) sel in
  let counts := map (fun h => count_occ Nat.eq_dec hi_sel h) (seq 0 nlat_halo) in
  (0 :: accumulate 0 counts, col_local).
End Init.

(** What a rank's constructor leaves behind (841-959); [da_L] is the serial layer the base
    class builds. *)
Record dattn := mkDA { da_L : nalayer; da_up : bool;
  da_lat_in : list nat; da_lon_in : list nat; da_lat_out : list nat; da_lon_out : list nat;
  da_r_lat : nat; da_roff : list nat; da_col : list nat; da_row : list nat }.
(** distributed_attention.py:841-959 [DistributedNeighborhoodAttentionS2.__init__] on rank
    (p, a).  [argsort] is torch.argsort(-, descending=True), whose order of equal entries
    torch leaves open.  The availability of the optimised kernels is assumed. *)
Definition dist_na_init (argsort : list nat -> list nat) (P A : nat) (L : nalayer) (p a : nat) : option dattn :=
  do lat_in <- compute_split_shapes (na_Hi L) P;
  do lon_in <- compute_split_shapes (na_Wi L) A;
  do lat_out <- compute_split_shapes (na_Ho L) P;
  do lon_out <- compute_split_shapes (na_Wo L) A;
  do _ <- guard ((1 <=? na_Wi L) && (1 <=? na_Wo L));
  let up := na_upsample (na_Wi L) (na_Wo L) in
  do _ <- guard (uniform_split up (na_Wi L) (na_Wo L) lon_in lon_out);
  let lon_lo := nth a (split_starts lon_out) 0 in
  if up then
    let r := compute_r_lat_up P (na_Wo L) (na_Hi L) lat_in lat_out (na_roff L) (na_col L) in
    let '(roff, col) := local_psi_up (na_Wo L) (na_Hi L) lat_in lat_out (na_roff L) (na_col L) p lon_lo r in
    Some (mkDA L up lat_in lon_in lat_out lon_out r roff col [])
  else
    let '(roff, col) := local_psi (na_Wi L) (na_Wo L) lat_out (na_roff L) (na_col L) p lon_lo in
    Some (mkDA L up lat_in lon_in lat_out lon_out
      (compute_r_lat P (na_Wi L) lat_in lat_out (na_roff L) (na_col L)) roff col (argsort (row_lengths roff))).

(** ** The forward pass *)

(** distributed_attention.py:1186-1197: QK normalisation on channels-first tensors *)
Definition qk_norm_cf (eps : R) (w : option (tensor R)) (nh : nat) (t : tensor R) : option (tensor R) :=
  match w with
  | None => Some t
  | Some w =>
    let B := dimsz t 0 in let C := dimsz t 1 in let H := dimsz t 2 in let W := dimsz t 3 in
    do _ <- guard ((1 <=? nh) && (1 <=? B * H * W));
    do a <- reshape [B; nh; C / nh; H; W] t;
    do a <- rms_norm eps w (permute [0; 1; 3; 4; 2] a);
    reshape [B; C; H; W] (permute [0; 1; 4; 2; 3] a)
  end.
(** distributed_attention.py:1202-1208: t.reshape(B * num_heads, -1, H, W) *)
Definition fold_batch (nh : nat) (t : tensor R) : option (tensor R) :=
  let B := dimsz t 0 in let H := dimsz t 2 in let W := dimsz t 3 in
  do _ <- guard ((1 <=? nh) && (1 <=? B * H * W));
  reshape [B * nh; dimsz t 1 / nh; H; W] t.
(** distributed_attention.py:1171-1208: projections, normalisation, scaling, head folding *)
Definition dist_project (eps : R) (o : dattn) (p a : nat) (query key value : tensor R) : option (tensor R * tensor R * tensor R) :=
  let L := da_L o in
  do _ <- guard (extent query (nth p (da_lat_out o) 0) (nth a (da_lon_out o) 0) &&
                 extent key (nth p (da_lat_in o) 0) (nth a (da_lon_in o) 0) &&
                 extent value (nth p (da_lat_in o) 0) (nth a (da_lon_in o) 0));
  do k <- conv1x1 (na_k L) (na_kb L) key; do v <- conv1x1 (na_v L) (na_vb L) value; do q <- conv1x1 (na_q L) (na_qb L) query;
  do q <- qk_norm_cf eps (na_qn L) (na_nh L) q; do k <- qk_norm_cf eps (na_kn L) (na_nh L) k;
  let q := map_t (fun x => x * na_scale L)%R q in
  do k <- fold_batch (na_nh L) k; do v <- fold_batch (na_nh L) v; do q <- fold_batch (na_nh L) q;
  Some (k, v, q).
(** distributed_attention.py:1210-1219: the halo exchange over the polar group, if any.  The
    radius is a local value; a rank's view assumes that its peers use the same one. *)
Definition dist_halo (P : nat) (obj : pfam dattn) (x : pfam (tensor R)) : pfam (tensor R) :=
  fun p a => do o <- obj p a;
    if (0 <? da_r_lat o) && (1 <? P) then halo_fwd P (da_r_lat o) (fun p => x p a) p else x p a.
(** distributed_attention.py:128-170 (and 515-551): alpha_sum, qdotk_max and y_acc after the
    ring steps over the visited chunks, for queries [qn] in channels-last layout *)
Definition ring_state (o : dattn) (p a : nat) (visits : list (nat * (tensor R * tensor R))) (qn : tensor R) (B : nat) : rbuf :=
  let L := da_L o in
  let Ho := nth p (da_lat_out o) 0 in let Wo := nth a (da_lon_out o) 0 in
  let start := (Z.of_nat (nth p (split_starts (da_lat_in o)) 0%nat) - Z.of_nat (da_r_lat o))%Z in
  fold_left (fun buf sv =>
      let lon_lo := nth (fst sv) (split_starts (da_lon_in o)) 0 in let kc := fst (snd sv) in let vc := snd (snd sv) in
      if da_up o
      then ring_step_up (dimsz qn 3) (na_quad L) (da_roff o) (da_col o) (dimsz kc 1) (dimsz kc 2) lon_lo start Ho Wo (hwc kc) (hwc vc) (hwc qn)
             (na_Wo L) (na_Wo L / na_Wi L) B buf
      else ring_step (dimsz qn 3) (na_quad L) (da_roff o) (da_col o) (dimsz kc 1) (dimsz kc 2) lon_lo start Ho Wo (hwc kc) (hwc vc) (hwc qn)
             (na_Wi L) (na_Wi L / na_Wo L) (da_row o) B buf) visits (fun _ _ _ => rst0).
(** distributed_attention.py:128-181 (and 515-562): the state and its normalisation *)
Definition ring_output (o : dattn) (p a : nat) (visits : list (nat * (tensor R * tensor R))) (q : tensor R) : option (tensor R) :=
  let B := dimsz q 0 in let Ho := nth p (da_lat_out o) 0 in let Wo := nth a (da_lon_out o) 0 in
  let Cv := match visits with (_, (_, v)) :: _ => dimsz v 3 | [] => 0 end in
  do qn <- to_nhwc q;
  let buf := ring_state o p a visits qn B in
  do _ <- guard (forallb (fun t => let '(b, h, w) := t in nz (r_sum (buf b h w))) (cells3 Ho Wo B));
  to_nchw (mk_hwc B Ho Wo Cv (fun b h w c => r_acc (buf b h w) c / r_sum (buf b h w))%R).
(** distributed_attention.py:1159-1208 on every rank *)
Definition dist_proj (eps : R) (obj : pfam dattn) (query key value : pfam (tensor R)) : pfam (tensor R * tensor R * tensor R) := fun p a =>
  do o <- obj p a; do q <- query p a; do k <- key p a; do v <- value p a; dist_project eps o p a q k v.
(** distributed_attention.py:1210-1222, 137-138: the padded keys and values of every rank, in
    the channels-last layout that travels around the ring *)
Definition dist_chunk (P : nat) (obj : pfam dattn) (proj : pfam (tensor R * tensor R * tensor R)) : pfam (tensor R * tensor R) :=
  pzip (fun k v => do k <- to_nhwc k; do v <- to_nhwc v; Some (k, v))
    (dist_halo P obj (pmap (fun x => Some (fst (fst x))) proj)) (dist_halo P obj (pmap (fun x => Some (snd (fst x))) proj)).
(** distributed_attention.py:141-176: the chunks rank (p, a) works on, in order *)
Definition dist_visits (ranks : nat -> list nat) (chunk : pfam (tensor R * tensor R)) (p a : nat) (o : dattn) : option (list (nat * (tensor R * tensor R))) :=
  ring (fun c : tensor R * tensor R => dimsz (fst c) 2) (ranks p) (da_lon_in o) (fun a => chunk p a) a.
(** distributed_attention.py:1159-1290 [DistributedNeighborhoodAttentionS2.forward].
    [ranks p] are the global ranks of the azimuth group of row p. *)
Definition dist_na_forward (eps : R) (P : nat) (ranks : nat -> list nat) (obj : pfam dattn)
    (query : pfam (tensor R)) (key value : option (pfam (tensor R))) : pfam (tensor R) :=
  let key := match key with None => query | Some k => k end in
  let value := match value with None => query | Some v => v end in
  let proj := dist_proj eps obj query key value in
  fun p a =>
    do o <- obj p a; do x <- proj p a;
    do visits <- dist_visits ranks (dist_chunk P obj proj) p a o;
    do out <- ring_output o p a visits (snd x);
    let nh := na_nh (da_L o) in
    do out <- reshape [dimsz out 0 / nh; nh * dimsz out 1; dimsz out 2; dimsz out 3] out;
    conv1x1 (na_p (da_L o)) (na_pb (da_L o)) out.
