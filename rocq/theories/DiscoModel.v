(** Discrete-continuous (DISCO) convolutions: the sparse filter, its preprocessing,
    the reference and the CPU kernels, and the layers' forward and backward passes.

    Arrays are functions of the position; what lies outside is never observed
    (accesses that would leave the arrays make the model return [None]).  Numbers
    are exact reals: dtype conversions are identities. *)
From Coq Require Import List Arith Lia Bool Reals.
From Verif Require Import TensorModel BigSum.
Import ListNotations.
Local Open Scope nat_scope.

(** One nonzero of psi: psi_idx[0], psi_idx[1], psi_idx[2] and psi_vals
    (convolution.py:366-375, 583-587).  The four parallel arrays of the code always
    move together. *)
Record entry := mkE { ker : nat; row : nat; col : nat; pv : R }.

Definition aset {A} (i : nat) (v : A) (a : nat -> A) : nat -> A := fun j => if j =? i then v else a j.

(** ** preprocess_psi *)

(** disco_helpers.h:42-45: the histogram of the kernel indices *)
Definition psi_hist (es : list entry) : nat -> nat :=
  fold_left (fun a e => aset (ker e) (S (a (ker e))) a) es (fun _ => 0).
(** disco_helpers.h:47-53: exclusive prefix sums, in place *)
Definition psi_offsets (K : nat) (a : nat -> nat) : nat -> nat :=
  snd (fold_left (fun (st : nat * (nat -> nat)) i => let '(prev, a) := st in (a i, aset i (prev + a (i - 1)) a))
                 (seq 1 (K - 1)) (a 0, aset 0 0 a)).
(** disco_helpers.h:55-76: scatter into freshly allocated (hence arbitrary) arrays
    [junk], advancing the offset of the kernel, and copy back *)
Definition psi_scatter (junk : nat -> entry) (off : nat -> nat) (es : list entry) : nat -> entry :=
  snd (fold_left (fun (st : (nat -> nat) * (nat -> entry)) e => let '(off, out) := st in
                    (aset (ker e) (S (off (ker e))) off, aset (off (ker e)) e out)) es (off, junk)).
Definition psi_sort (junk : nat -> entry) (K : nat) (es : list entry) : list entry :=
  map (psi_scatter junk (psi_offsets K (psi_hist es)) es) (seq 0 (length es)).
(** disco_helpers.h:83-97: row offsets.  [exit] is [None]. *)
Definition psi_row_offsets (K Ho : nat) (es : list entry) : option (list nat) :=
  let r := fun i => match nth_error es i with Some e => row e | None => 0 end in
  do st <- fold_left (fun (st : option (nat * (nat -> nat))) i =>
             do s <- st; let '(nrows, roff) := s in
             if r (i - 1) =? r i then Some (nrows, roff)
             else if Ho * K <? S nrows then None
             else Some (S nrows, aset nrows i roff))
           (seq 1 (length es - 1)) (Some (1, fun _ => 0));
  let '(nrows, roff) := st in
  Some (map (aset nrows (length es) roff) (seq 0 (nrows + 1))).
(** disco_helpers.h:37-100 [preprocess_psi_kernel] and disco_helpers.cpp:35-82
    [preprocess_psi]: offsets and the entries as left in place.  A kernel index
    outside [0, K) would write outside Koff. *)
Definition preprocess_psi (junk : nat -> entry) (K Ho : nat) (es : list entry) : option (list nat * list entry) :=
  do _ <- guard (forallb (fun e => ker e <? K) es && (1 <=? K));
  let s := psi_sort junk K es in
  do roff <- psi_row_offsets K Ho s;
  Some (roff, s).

(** disco_helpers.h:102-139 [pack_psi_dense_kernel] and disco_helpers.cpp:84-144
    [pack_psi_dense] with nbr_pad = 0 (as called, convolution.py:608-618): idx, val,
    count as functions of (k, ho, nbr), and the padded width.  Reading ker_h[soff]
    beyond the entries (nnz = 0) is [None]. *)
Record packed := mkPacked { pk_pad : nat; pk_hi : nat -> nat -> nat -> nat; pk_wi : nat -> nat -> nat -> nat;
  pk_val : nat -> nat -> nat -> R; pk_count : nat -> nat -> nat }.
Definition set3 {A} (k h : nat) (f : nat -> A) (n : nat) (a : nat -> nat -> nat -> A) : nat -> nat -> nat -> A :=
  fun k' h' j => if (k' =? k) && (h' =? h) && (j <? n) then f j else a k' h' j.
Definition set2 {A} (k h : nat) (v : A) (a : nat -> nat -> A) : nat -> nat -> A :=
  fun k' h' => if (k' =? k) && (h' =? h) then v else a k' h'.
Definition e_at (es : list entry) (i : nat) : entry := nth i es (mkE 0 0 0 0%R).
Definition pack_row (Wi : nat) (roff : list nat) (es : list entry) (st : option packed) (i : nat) : option packed :=
  do p <- st;
  let soff := nth i roff 0 in let eoff := nth (i + 1) roff 0 in
  do e0 <- nth_error es soff;
  let cnt := eoff - soff in
  do _ <- guard (cnt <=? pk_pad p);
  Some (mkPacked (pk_pad p)
    (set3 (ker e0) (row e0) (fun j => col (e_at es (soff + j)) / Wi) cnt (pk_hi p))
    (set3 (ker e0) (row e0) (fun j => col (e_at es (soff + j)) mod Wi) cnt (pk_wi p))
    (set3 (ker e0) (row e0) (fun j => pv (e_at es (soff + j))) cnt (pk_val p))
    (set2 (ker e0) (row e0) cnt (pk_count p))).
Definition pack_psi_dense (K Ho Wi : nat) (roff : list nat) (es : list entry) : option packed :=
  do _ <- guard ((0 <? K) && (0 <? Ho) && (0 <? Wi) && (length roff - 1 <=? K * Ho));
  let pad := fold_left (fun m i => Nat.max m (nth (i + 1) roff 0 - nth i roff 0)) (seq 0 (length roff - 1)) 0 in
  fold_left (pack_row Wi roff es) (seq 0 (length roff - 1))
    (Some (mkPacked pad (fun _ _ _ => 0) (fun _ _ _ => 0) (fun _ _ _ => 0%R) (fun _ _ => 0))).

(** disco_optimized.py:61-109 [_maybe_kpack_psi]: one index list per output row
    shared by all kernels, values with the kernel index last, padded with zeros to
    a multiple of [n_align]; [None] when the supports differ. *)
Record kpacked := mkKP { kp_K : nat; kp_hi : nat -> nat -> nat; kp_wi : nat -> nat -> nat; kp_val : nat -> nat -> nat -> R; kp_count : nat -> nat }.
Definition forall_below (n : nat) (p : nat -> bool) : bool := forallb p (seq 0 n).
Definition maybe_kpack (n_align K Ho : nat) (p : packed) : option kpacked :=
  let same := forall_below K (fun k => forall_below Ho (fun h => (pk_count p k h =? pk_count p 0 h) &&
     forall_below (pk_pad p) (fun j => (pk_hi p k h j =? pk_hi p 0 h j) && (pk_wi p k h j =? pk_wi p 0 h j)))) in
  if (K <=? 1) || same
  then Some (mkKP ((K + n_align - 1) / n_align * n_align) (pk_hi p 0) (pk_wi p 0)
                  (fun h j k => if k <? K then pk_val p k h j else 0%R) (pk_count p 0))
  else None.

(** ** CPU kernels *)

(** Every index in range: the kernels use raw pointers. *)
Definition psi_in_range (K Ho N : nat) (es : list entry) : bool :=
  forallb (fun e => (ker e <? K) && (row e <? Ho) && (col e <? N)) es.

(** disco_cpu_fwd.h:106-124: one run [soff, eoff) of entries for one (b, c) plane
    [inp]; [sh] is the doubled row buffer, whatever it holds on entry. *)
Record fwd_st := mkF { f_prev : option nat; f_sh : nat -> R; f_tmp : nat -> R }.
Definition fwd_entry (Wi Wo pscale : nat) (inp : nat -> nat -> R) (st : fwd_st) (e : entry) : fwd_st :=
  let wi := col e mod Wi in let hi := col e / Wi in
  let sh := match f_prev st with
            | Some h => if h =? hi then f_sh st else fun j => if j <? Wi then inp hi j else if j <? 2 * Wi then inp hi (j - Wi) else f_sh st j
            | None => fun j => if j <? Wi then inp hi j else if j <? 2 * Wi then inp hi (j - Wi) else f_sh st j
            end in
  mkF (Some hi) sh (fun wo => if wo <? Wo then (f_tmp st wo + pv e * sh (wi + pscale * wo)%nat)%R else f_tmp st wo).
Definition slice {A} (es : list A) (soff eoff : nat) : list A := firstn (eoff - soff) (skipn soff es).
(** disco_cpu_fwd.h:89-133: the loop over the runs; the output row is overwritten.
    Threads take different (b, c, row): the model runs the rows in order. *)
Definition fwd_row (Wi Wo pscale : nat) (roff : list nat) (es : list entry) (inp : nat -> nat -> R)
  (st : option ((nat -> R) * (nat -> nat -> nat -> R))) (r : nat) : option ((nat -> R) * (nat -> nat -> nat -> R)) :=
  do s <- st; let '(sh, out) := s in
  let soff := nth r roff 0 in let eoff := nth (r + 1) roff 0 in
  do e0 <- nth_error es soff;
  let f := fold_left (fwd_entry Wi Wo pscale inp) (slice es soff eoff) (mkF None sh (fun _ => 0%R)) in
  Some (f_sh f, fun k t w => if (k =? ker e0) && (t =? row e0) && (w <? Wo) then f_tmp f w else out k t w).
Definition fwd_plane (Wi Wo pscale : nat) (roff : list nat) (es : list entry) (junk : nat -> R) (inp : nat -> nat -> R)
  : option (nat -> nat -> nat -> R) :=
  do s <- fold_left (fwd_row Wi Wo pscale roff es inp) (seq 0 (length roff - 1)) (Some (junk, fun _ _ _ => 0%R));
  Some (snd s).
(** disco_cpu_fwd.h:136-170 (dispatch on pscale = Wi / Wo) and disco_cpu_fwd.cpp:36-76
    [disco_cpu_fwd] *)
Definition disco_cpu_fwd (junk : nat -> R) (K Ho Wo : nat) (roff : list nat) (es : list entry) (inp : tensor R) : option (tensor R) :=
  do _ <- guard (ndim inp =? 4);
  let B := dimsz inp 0 in let C := dimsz inp 1 in let Hi := dimsz inp 2 in let Wi := dimsz inp 3 in
  do _ <- guard ((1 <=? Wo) && (Wi mod Wo =? 0) && psi_in_range K Ho (Hi * Wi) es);
  do planes <- mapM (fun n => fwd_plane Wi Wo (Wi / Wo) roff es junk (fun h w => val inp [n / C; n mod C; h; w])) (seq 0 (B * C));
  Some (mkT [B; C; K; Ho; Wo]
    (fun i => nth (nth 0 i 0 * C + nth 1 i 0) planes (fun _ _ _ => 0%R) (nth 2 i 0) (nth 3 i 0) (nth 4 i 0))).

(** disco_cpu_bwd.h:132-141, 158-167: flush the lanes into output row [ho] *)
Definition flush_step (Wi pscale ho : nat) (st : (nat -> R) * (nat -> nat -> R)) (i : nat) : (nat -> R) * (nat -> nat -> R) :=
  let '(sh, out) := st in
  let idx := i / pscale in let lane := i mod pscale in let off := lane * (2 * Wi) in
  (aset (off + Wi + idx) 0%R (aset (off + idx) 0%R sh),
   aset ho (aset (idx * pscale + lane) (out ho (idx * pscale + lane)%nat + (sh (off + idx)%nat + sh (off + Wi + idx)%nat))%R (out ho)) out).
Definition flush (Wi pscale ho : nat) (st : (nat -> R) * (nat -> nat -> R)) : (nat -> R) * (nat -> nat -> R) :=
  fold_left (flush_step Wi pscale ho) (seq 0 (Wi * pscale)) st.
(** disco_cpu_bwd.h:116-153: one entry of a run whose input row is [inp_row] *)
Record bwd_st := mkB { b_prev : option nat; b_sh : nat -> R; b_out : nat -> nat -> R }.
Definition bwd_entry (Wi Wo pscale : nat) (inp_row : nat -> R) (st : bwd_st) (e : entry) : bwd_st :=
  let wo := col e mod Wo in let ho := col e / Wo in
  let st := match b_prev st with
            | Some h => if h =? ho then st
                        else let '(sh, out) := flush Wi pscale h (b_sh st, b_out st) in mkB (Some ho) sh out
            | None => mkB (Some ho) (b_sh st) (b_out st)
            end in
  let base := wo mod pscale * (2 * Wi) + wo / pscale in
  mkB (b_prev st) (fun j => if (base <=? j) && (j <? base + Wi) then (b_sh st j + pv e * inp_row (j - base)%nat)%R else b_sh st j) (b_out st).
(** disco_cpu_bwd.h:103-154: the loop over the runs of one plane; [ho_prev] persists
    across runs *)
Definition bwd_row (Wi Wo pscale : nat) (roff : list nat) (es : list entry) (inp : nat -> nat -> nat -> R) (st : option bwd_st) (r : nat) : option bwd_st :=
  do s <- st;
  let soff := nth r roff 0 in let eoff := nth (r + 1) roff 0 in
  do e0 <- nth_error es soff;
  Some (fold_left (bwd_entry Wi Wo pscale (inp (ker e0) (row e0))) (slice es soff eoff) s).
(** One plane, starting from the lane buffer the thread's previous plane left. *)
Definition bwd_plane (Wi Wo pscale : nat) (roff : list nat) (es : list entry) (inp : nat -> nat -> nat -> R) (sh : nat -> R)
  : option ((nat -> R) * (nat -> nat -> R)) :=
  do s <- fold_left (bwd_row Wi Wo pscale roff es inp) (seq 0 (length roff - 1)) (Some (mkB None sh (fun _ _ => 0%R)));
  Some (match b_prev s with Some h => flush Wi pscale h (b_sh s, b_out s) | None => (b_sh s, b_out s) end).
(** disco_cpu_bwd.h:92-171: the planes one thread processes, sharing the buffer *)
Fixpoint bwd_planes (Wi Wo pscale : nat) (roff : list nat) (es : list entry) (planes : list (nat -> nat -> nat -> R)) (sh : nat -> R)
  : option (list (nat -> nat -> R)) :=
  match planes with
  | [] => Some []
  | p :: rest => do r <- bwd_plane Wi Wo pscale roff es p sh;
                 do outs <- bwd_planes Wi Wo pscale roff es rest (fst r);
                 Some (snd r :: outs)
  end.
(** disco_cpu_bwd.h:174-208 and disco_cpu_bwd.cpp:36-76 [disco_cpu_bwd]; one thread. *)
Definition disco_cpu_bwd (K Ho Wo : nat) (roff : list nat) (es : list entry) (inp : tensor R) : option (tensor R) :=
  do _ <- guard (ndim inp =? 5);
  let B := dimsz inp 0 in let C := dimsz inp 1 in let Hi := dimsz inp 3 in let Wi := dimsz inp 4 in
  do _ <- guard ((1 <=? Wi) && (Wo mod Wi =? 0) && psi_in_range (dimsz inp 2) Hi (Ho * Wo) es);
  do outs <- bwd_planes Wi Wo (Wo / Wi) roff es
    (map (fun n k h w => val inp [n / C; n mod C; k; h; w]) (seq 0 (B * C))) (fun _ => 0%R);
  Some (mkT [B; C; Ho; Wo] (fun i => nth (nth 0 i 0 * C + nth 1 i 0) outs (fun _ _ => 0%R) (nth 2 i 0) (nth 3 i 0))).

(** ** Reference (torch) kernels *)

(** A coalesced torch sparse tensor: duplicates are summed. *)
Record sparse := mkS { sp_k : nat; sp_h : nat; sp_n : nat; sp_at : nat -> nat -> nat -> R }.
Definition coalesce (k h n : nat) (es : list entry) : sparse :=
  mkS k h n (fun a b c => rlsum (fun e => if (ker e =? a) && (row e =? b) && (col e =? c) then pv e else 0%R) es).
(** _disco_utils.py:47-79 [_get_psi].  Index validity is not checked by the code:
    out of range indices are [None]. *)
Definition get_psi (K : nat) (es : list entry) (nlat_in nlon_in nlat_out nlon_out : nat) : option sparse :=
  do _ <- guard (psi_in_range K nlat_out (nlat_in * nlon_in) es);
  Some (coalesce K nlat_out (nlat_in * nlon_in) es).
Definition semi_transpose (nlon_out : nat) (e : entry) : entry :=
  mkE (ker e) (col e / nlon_out) (row e * nlon_out + (nlon_out - 1 - col e mod nlon_out)) (pv e).
Definition get_psi_semi (K : nat) (es : list entry) (nlat_in nlon_in nlat_out nlon_out : nat) : option sparse :=
  do _ <- guard ((1 <=? nlon_out) && psi_in_range K nlat_out (nlat_in * nlon_out) (map (semi_transpose nlon_out) es));
  Some (coalesce K nlat_out (nlat_in * nlon_out) (map (semi_transpose nlon_out) es)).

(** torch.bmm(psi, x.reshape(K, h * w, -1)) with x[k, h, w, n] *)
Definition psi_bmm (psi : sparse) (w : nat) (x : nat -> nat -> nat -> nat -> R) : nat -> nat -> nat -> R :=
  fun k t n => rsum (sp_n psi) (fun c => (sp_at psi k t c * x k (c / w)%nat (c mod w)%nat n)%R).
(** torch.roll(x, -s, dims=2) *)
Definition roll2 (w s : nat) (x : nat -> nat -> nat -> nat -> R) : nat -> nat -> nat -> nat -> R :=
  fun k h j n => x k h ((j + s) mod w) n.
(** disco_torch.py:49-90 [_disco_s2_contraction_torch] *)
Definition disco_torch (psi : sparse) (nlon_out : nat) (x : tensor R) : option (tensor R) :=
  do _ <- guard (ndim x =? 4);
  let B := dimsz x 0 in let C := dimsz x 1 in let nlat_in := dimsz x 2 in let nlon_in := dimsz x 3 in
  do _ <- guard ((sp_n psi =? nlat_in * nlon_in) && (1 <=? nlon_out) && (nlon_in mod nlon_out =? 0) && (sp_h psi <=? nlon_in));
  let pscale := nlon_in / nlon_out in
  let x0 := fun _ h w n => val x [n / C; n mod C; h; w] in
  let y := snd (fold_left (fun (st : (nat -> nat -> nat -> nat -> R) * (nat -> nat -> nat -> nat -> R)) pout =>
                  let '(x, y) := st in (roll2 nlon_in pscale x, aset pout (psi_bmm psi nlon_in x) y))
                (seq 0 nlon_out) (x0, fun _ _ _ _ => 0%R)) in
  Some (mkT [B; C; sp_k psi; sp_h psi; nlon_out]
    (fun i => y (nth 4 i 0) (nth 2 i 0) (nth 3 i 0) (nth 0 i 0 * C + nth 1 i 0))).
(** disco_torch.py:94-141 [_disco_s2_transpose_contraction_torch].  The strided
    assignment of line 112 raises unless the number of slots, ceil(nlon_out /
    pscale), is nlon_in. *)
Definition disco_transpose_torch (psi : sparse) (nlon_out : nat) (x : tensor R) : option (tensor R) :=
  do _ <- guard (ndim x =? 5);
  let B := dimsz x 0 in let C := dimsz x 1 in let nlat_in := dimsz x 3 in let nlon_in := dimsz x 4 in
  do _ <- guard ((1 <=? nlon_out) && (sp_n psi mod nlon_out =? 0) && (1 <=? nlon_in) && (nlon_in <=? nlon_out) && (dimsz x 2 =? sp_k psi));
  let pscale := nlon_out / nlon_in in
  do _ <- guard (((nlon_out + pscale - 1) / pscale =? nlon_in) && (sp_n psi =? nlat_in * nlon_out));
  let x_ext := fun k h w n => if w mod pscale =? 0 then val x [n / C; n mod C; k; h; w / pscale] else 0%R in
  let y := snd (fold_left (fun (st : (nat -> nat -> nat -> nat -> R) * (nat -> nat -> nat -> nat -> R)) pout =>
                  let '(x, y) := st in let x := roll2 nlon_out 1 x in (x, aset pout (psi_bmm psi nlon_out x) y))
                (seq 0 nlon_out) (x_ext, fun _ _ _ _ => 0%R)) in
  Some (mkT [B; C; sp_h psi; nlon_out]
    (fun i => rsum (sp_k psi) (fun k => y (nth 3 i 0) k (nth 2 i 0) (nth 0 i 0 * C + nth 1 i 0)))).

(** ** The layers *)

(** The grouped weight contraction "bgckxy,gock->bgoxy" of convolution.py:832-839,
    with the reshapes around it; weight has shape [out_channels, groupsize, K]. *)
Definition weight_contract (groups : nat) (weight x : tensor R) : option (tensor R) :=
  do _ <- guard ((ndim x =? 5) && (ndim weight =? 3));
  let Og := dimsz weight 0 / groups in let Cg := dimsz weight 1 in
  do _ <- guard ((1 <=? groups) && (dimsz weight 0 =? groups * Og) && (dimsz x 1 =? groups * Cg) && (dimsz weight 2 =? dimsz x 2));
  Some (mkT [dimsz x 0; dimsz weight 0; dimsz x 3; dimsz x 4]
    (fun i => let o := nth 1 i 0 in
       rsum Cg (fun c => rsum (dimsz weight 2) (fun k => (val x [nth 0 i 0; o / Og * Cg + c; k; nth 2 i 0; nth 3 i 0]%nat * val weight [o; c; k])%R)))).
(** The transposed layer's "bgcxy,gock->bgokxy" (convolution.py:989-995) *)
Definition weight_expand (groups : nat) (weight x : tensor R) : option (tensor R) :=
  do _ <- guard ((ndim x =? 4) && (ndim weight =? 3));
  let Og := dimsz weight 0 / groups in let Cg := dimsz weight 1 in
  do _ <- guard ((1 <=? groups) && (dimsz weight 0 =? groups * Og) && (dimsz x 1 =? groups * Cg));
  Some (mkT [dimsz x 0; dimsz weight 0; dimsz weight 2; dimsz x 2; dimsz x 3]
    (fun i => let o := nth 1 i 0 in
       rsum Cg (fun c => (val x [nth 0 i 0; o / Og * Cg + c; nth 3 i 0; nth 4 i 0]%nat * val weight [o; c; nth 2 i 0]%nat)%R))).
(** convolution.py:841-842: out + bias.reshape(1, -1, 1, 1) *)
Definition add_chan_bias (bias : option (tensor R)) (x : tensor R) : option (tensor R) :=
  match bias with
  | None => Some x
  | Some b => do _ <- guard (shape_eqb (shp b) [dimsz x 1]);
              Some (mkT (shp x) (fun i => (val x i + val b [nth 1 i 0]%nat)%R))
  end.

(** The optimised contraction on the preprocessed filter (disco_optimized.py:294-315)
    and its transpose (318-339) *)
Record disco_layer := mkD { d_K : nat; d_nlat_in : nat; d_nlon_in : nat; d_nlat_out : nat; d_nlon_out : nat;
  d_groups : nat; d_weight : tensor R; d_bias : option (tensor R); d_roff : list nat; d_es : list entry; d_raw : list entry }.
(** DiscreteContinuousConvS2 forward (convolution.py:680-844), optimised CPU path.
    The fused op (disco_optimized.py:472-506) and the save-x op (690-732) compute
    the same forward expression. *)
Definition conv_s2_opt (junk : nat -> R) (d : disco_layer) (x : tensor R) : option (tensor R) :=
  do y <- disco_cpu_fwd junk (d_K d) (d_nlat_out d) (d_nlon_out d) (d_roff d) (d_es d) x;
  do z <- weight_contract (d_groups d) (d_weight d) y;
  add_chan_bias (d_bias d) z.
(** ... and the path without compiled kernels *)
Definition conv_s2_torch (d : disco_layer) (x : tensor R) : option (tensor R) :=
  do psi <- get_psi (d_K d) (d_raw d) (d_nlat_in d) (d_nlon_in d) (d_nlat_out d) (d_nlon_out d);
  do y <- disco_torch psi (d_nlon_out d) x;
  do z <- weight_contract (d_groups d) (d_weight d) y;
  add_chan_bias (d_bias d) z.
(** DiscreteContinuousConvTransposeS2 forward (convolution.py:974-1007) *)
Definition conv_transpose_s2_opt (d : disco_layer) (x : tensor R) : option (tensor R) :=
  do y <- weight_expand (d_groups d) (d_weight d) x;
  do z <- disco_cpu_bwd (d_K d) (d_nlat_out d) (d_nlon_out d) (d_roff d) (d_es d) y;
  add_chan_bias (d_bias d) z.
Definition conv_transpose_s2_torch (d : disco_layer) (x : tensor R) : option (tensor R) :=
  do y <- weight_expand (d_groups d) (d_weight d) x;
  do psi <- get_psi_semi (d_K d) (d_raw d) (d_nlat_in d) (d_nlon_in d) (d_nlat_out d) (d_nlon_out d);
  do z <- disco_transpose_torch psi (d_nlon_out d) y;
  add_chan_bias (d_bias d) z.
(** Constructor part shared by both layers (convolution.py:558-560, 591-593, 920-922,
    952-954): divisibility of the longitudes and preprocessing of the filter.  The
    filter itself is a parameter here (see the filter model). *)
Definition conv_s2_init (junk : nat -> entry) (nlat_in nlon_in nlat_out nlon_out groups : nat) (K : nat) (weight : tensor R) (bias : option (tensor R))
  (es : list entry) : option disco_layer :=
  do _ <- guard ((1 <=? nlon_out) && (nlon_in mod nlon_out =? 0));
  do p <- preprocess_psi junk K nlat_out es;
  Some (mkD K nlat_in nlon_in nlat_out nlon_out groups weight bias (fst p) (snd p) es).
Definition conv_transpose_s2_init (junk : nat -> entry) (nlat_in nlon_in nlat_out nlon_out groups : nat) (K : nat) (weight : tensor R) (bias : option (tensor R))
  (es : list entry) : option disco_layer :=
  do _ <- guard ((1 <=? nlon_in) && (nlon_out mod nlon_in =? 0));
  do p <- preprocess_psi junk K nlat_in es;
  Some (mkD K nlat_in nlon_in nlat_out nlon_out groups weight bias (fst p) (snd p) es).
