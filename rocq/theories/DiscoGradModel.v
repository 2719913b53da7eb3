(** The layers' backward passes (disco_optimized.py) and the per-kernel split of the
    filter they use.  Dtype conversions, .contiguous() and autocast are identities. *)
From Coq Require Import List Arith Lia Bool Reals.
From Verif Require Import TensorModel BigSum DiscoModel.
Import ListNotations.
Local Open Scope nat_scope.

(** disco_optimized.py:148-203 [_build_kernel_split_csr].  Inner loop: the rows whose
    first entry belongs to kernel [k]; their entries get kernel index 0. *)
Definition zero_ker (e : entry) : entry := mkE 0 (row e) (col e) (pv e).
Definition split_row (roff : list nat) (es : list entry) (k : nat) (st : list nat * list entry) (r : nat) : list nat * list entry :=
  let '(roff_k, acc) := st in
  let start := nth r roff 0 in let stop := nth (r + 1) roff 0 in
  if start =? stop then st
  else if ker (e_at es start) =? k
       then (roff_k ++ [last roff_k 0 + (stop - start)], acc ++ map zero_ker (slice es start stop))
       else st.
Definition split_kernel (roff : list nat) (es : list entry) (k : nat) : list nat * list entry :=
  fold_left (split_row roff es k) (seq 0 (length roff - 1)) ([0], []).
(** The concatenated arrays, and split_nnz_off: row offsets and entry offsets. *)
Record split_csr := mkSplit { sc_roff : list nat; sc_rowoff : list nat; sc_nnzoff : list nat; sc_es : list entry }.
Definition split_step (roff : list nat) (es : list entry) (s : split_csr) (k : nat) : split_csr :=
  let '(roff_k, es_k) := split_kernel roff es k in
  mkSplit (sc_roff s ++ roff_k) (sc_rowoff s ++ [last (sc_rowoff s) 0 + length roff_k])
          (sc_nnzoff s ++ [last (sc_nnzoff s) 0 + length es_k]) (sc_es s ++ es_k).
Definition build_split_csr (roff : list nat) (es : list entry) (K : nat) : split_csr :=
  fold_left (split_step roff es) (seq 0 K) (mkSplit [] [0] [0] []).

(** disco_optimized.py:128-145 [_use_spatial_first_dgrad] as called by the backward
    passes, where the split arrays are always available *)
Definition use_spatial_first (Og Cg K : nat) : bool := negb ((K <=? 1) || (Cg <? Og * 2)).

(** "bgoxy,gock->bgckxy" and the reshape (disco_optimized.py:607-608, 773-774) *)
Definition grad_expand (groups : nat) (weight g : tensor R) : option (tensor R) :=
  do _ <- guard ((ndim g =? 4) && (ndim weight =? 3));
  let Og := dimsz weight 0 / groups in let Cg := dimsz weight 1 in
  do _ <- guard ((1 <=? groups) && (dimsz weight 0 =? groups * Og) && (dimsz g 1 =? groups * Og));
  Some (mkT [dimsz g 0; groups * Cg; dimsz weight 2; dimsz g 2; dimsz g 3]
    (fun i => let c := nth 1 i 0 in
       rsum Og (fun o => (val g [nth 0 i 0; c / Cg * Og + o; nth 3 i 0; nth 4 i 0]%nat * val weight [c / Cg * Og + o; c mod Cg; nth 2 i 0]%nat)%R))).
(** disco_optimized.py:604-611, 772-775: the weight-first input gradient *)
Definition weight_first_dgrad (d : disco_layer) (g : tensor R) : option (tensor R) :=
  do e <- grad_expand (d_groups d) (d_weight d) g;
  disco_cpu_bwd (d_K d) (d_nlat_in d) (d_nlon_in d) (d_roff d) (d_es d) e.
(** disco_optimized.py:206-262 [_disco_s2_fused_conv_spatial_first_dgrad] *)
Definition spatial_part (s : split_csr) (nlat_in nlon_in : nat) (small : tensor R) (k : nat) : option (tensor R) :=
  let roff_k := slice (sc_roff s) (nth k (sc_rowoff s) 0) (nth (k + 1) (sc_rowoff s) 0) in
  let es_k := slice (sc_es s) (nth k (sc_nnzoff s) 0) (nth (k + 1) (sc_nnzoff s) 0) in
  if length roff_k <=? 1 then Some (const_t 0%R [dimsz small 0; dimsz small 1; nlat_in; nlon_in])
  else disco_cpu_bwd 1 nlat_in nlon_in roff_k es_k small.
Definition spatial_first_dgrad (d : disco_layer) (g : tensor R) : option (tensor R) :=
  do _ <- guard ((ndim g =? 4) && (ndim (d_weight d) =? 3));
  let w := d_weight d in let Og := dimsz w 0 / d_groups d in let Cg := dimsz w 1 in
  do _ <- guard ((1 <=? d_groups d) && (dimsz w 0 =? d_groups d * Og) && (dimsz g 1 =? d_groups d * Og));
  let s := build_split_csr (d_roff d) (d_es d) (d_K d) in
  let small := mkT [dimsz g 0; dimsz g 1; 1; dimsz g 2; dimsz g 3] (fun i => val g [nth 0 i 0; nth 1 i 0; nth 3 i 0; nth 4 i 0]%nat) in
  do parts <- mapM (spatial_part s (d_nlat_in d) (d_nlon_in d) small) (seq 0 (d_K d));
  Some (mkT [dimsz g 0; d_groups d * Cg; d_nlat_in d; d_nlon_in d]
    (fun i => let c := nth 1 i 0 in
       rsum Og (fun o => rsum (d_K d) (fun k =>
         (val (nth k parts (const_t 0%R [])) [nth 0 i 0; c / Cg * Og + o; nth 2 i 0; nth 3 i 0]%nat * val w [c / Cg * Og + o; c mod Cg; k]%nat)%R)))).
(** disco_optimized.py:586-612, 754-776: the input gradient of the fused and of the
    save-x layer *)
Definition conv_s2_dgrad (d : disco_layer) (g : tensor R) : option (tensor R) :=
  if use_spatial_first (dimsz (d_weight d) 0 / d_groups d) (dimsz (d_weight d) 1) (d_K d)
  then spatial_first_dgrad d g else weight_first_dgrad d g.
(** disco_optimized.py:614-620, 778-780: "bgoxy,bgckxy->gock", as a gradient for the
    weight of shape [out_channels, groupsize, K].  The fused layer recomputes the
    contraction, the save-x layer kept it: the same expression. *)
Definition conv_s2_wgrad (junk : nat -> R) (d : disco_layer) (x g : tensor R) : option (tensor R) :=
  do y <- disco_cpu_fwd junk (d_K d) (d_nlat_out d) (d_nlon_out d) (d_roff d) (d_es d) x;
  let w := d_weight d in let Og := dimsz w 0 / d_groups d in let Cg := dimsz w 1 in
  do _ <- guard ((ndim g =? 4) && (1 <=? d_groups d) && (dimsz w 0 =? d_groups d * Og) && (dimsz y 1 =? d_groups d * Cg) &&
                 shape_eqb (shp g) [dimsz y 0; dimsz w 0; dimsz y 3; dimsz y 4]);
  Some (mkT [dimsz w 0; Cg; d_K d]
    (fun i => let o := nth 0 i 0 in
       rsum (dimsz g 0) (fun b => rsum (dimsz g 2) (fun h => rsum (dimsz g 3) (fun v =>
         (val g [b; o; h; v] * val y [b; o / Og * Cg + nth 1 i 0; nth 2 i 0; h; v]%nat)%R))))).
(** Unfused layers: the gradient of the contraction is the transposed contraction
    (disco_optimized.py:383-400) and conversely (430-447). *)
Definition contraction_bwd (K : nat) (roff : list nat) (es : list entry) (nlat_in nlon_in : nat) (g : tensor R) : option (tensor R) :=
  disco_cpu_bwd K nlat_in nlon_in roff es g.
Definition transpose_contraction_bwd (junk : nat -> R) (K : nat) (roff : list nat) (es : list entry) (nlat_in nlon_in : nat) (g : tensor R) : option (tensor R) :=
  disco_cpu_fwd junk K nlat_in nlon_in roff es g.
