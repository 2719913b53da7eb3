(** C64: the helper kernels of the CUDA attention - the layout conversions, the sort of the rows by their
    length and the split into long and short rows. *)
From Coq Require Import List Arith Lia Bool Reals Lra ZArith Permutation Sorted.
From Verif Require Import TensorModel TensorProofs DistSpectralProofs GpuModel GpuSpec CudaDiscoModel CudaAttnModel CudaAttnSpec CudaAttnUpModel CudaAttnBwdModel CudaJobSpec CudaUtilsModel CudaUtilsSpec CudaUtilsProofs AttnModel AttnLayerProofs AttnPropProofs AttnExProofs AttnOpProofs Props_CudaAttn Props_CudaAttnBwd.
From Verif Require Import AttnSpec.
Import ListNotations.
Local Open Scope nat_scope.

(** The conversion kernels move every element to its place and write every element of the
    uninitialised result, whatever the order of the threads and the number of warps per tile; the result is that of the CPU operator. *)
Theorem C64_to_nhwc : forall dev ptxv x k B C H W, shp x = [B; C; H; W] -> permute_to_nhwc_cuda dev ptxv x = Some k ->
  exists y, to_nhwc x = Some y /\ shp y = [B; H; W; C] /\ (forall b h w c, val y [b; h; w; c] = val x [b; c; h; w]) /\ overwrites k [B; H; W; C] y.
Proof.
  intros dev ptxv x k B C H W Sx E. destruct (nhwc_fills dev ptxv x k B C H W Sx E) as (y & Ey & F). destruct (to_nhwc_val x B C H W Sx) as (y' & Ey' & Sy & Vy). rewrite Ey in Ey'. injection Ey' as <-. eauto.
Qed.
Theorem C64_to_nchw : forall dev ptxv x k B C H W, shp x = [B; H; W; C] -> permute_to_nchw_cuda dev ptxv x = Some k ->
  exists y, to_nchw x = Some y /\ shp y = [B; C; H; W] /\ (forall b c h w, val y [b; c; h; w] = val x [b; h; w; c]) /\ overwrites k [B; C; H; W] y.
Proof.
  intros dev ptxv x k B C H W Sx E. destruct (nchw_fills dev ptxv x k B C H W Sx E) as (y & Ey & F). destruct (to_nchw_val x B C H W Sx) as (y' & Ey' & Sy & Vy). rewrite Ey in Ey'. injection Ey' as <-. exists y. split; [exact Ey|]. split; [exact Sy|]. split; [|exact F]. intros; apply Vy.
Qed.
(** There and back: whatever the first kernel leaves is converted back to the tensor one started with. *)
Theorem C64_round_trip : forall dev ptxv x k B C H W, shp x = [B; C; H; W] -> permute_to_nhwc_cuda dev ptxv x = Some k ->
  forall rg sh out, settles k (start k rg sh out) (fun o => forall k', permute_to_nchw_cuda dev ptxv (tensor_of [B; H; W; C] o) = Some k' -> overwrites k' [B; C; H; W] x).
Proof.
  intros dev ptxv x k B C H W Sx E rg sh out. destruct (C64_to_nhwc dev ptxv x k B C H W Sx E) as (y & Ey & Sy & Vy & F). eapply WarpKernelProofs.settles_impl; [apply F|]. intros o Ho k' E'.
  destruct (C64_to_nchw dev ptxv (tensor_of [B; H; W; C] o) k' B C H W eq_refl E') as (z & Ez & Sz & Vz & F'). intros rg' sh' out'. eapply WarpKernelProofs.settles_impl; [apply F'|]. intros o' Ho'. eapply teq_trans; [exact Ho'|].
  split; [now rewrite Sz|]. intros i Hi. rewrite Sz in Hi. apply valid4_elim in Hi. destruct Hi as (b & c & h & w & -> & Hb & Hc & Hh & Hw). rewrite Vz. rewrite <- Vy. destruct Ho as [_ Ho]. apply Ho. cbn [tensor_of shp]. now apply valid4_intro.
Qed.
(** When they can be launched *)
Theorem C64_to_nhwc_launches : forall dev ptxv x B C H W, shp x = [B; C; H; W] -> ((exists k, permute_to_nhwc_cuda dev ptxv x = Some k) <-> converts dev B C H W C W).
Proof. exact nhwc_launches. Qed.
Theorem C64_to_nchw_launches : forall dev ptxv x B C H W, shp x = [B; H; W; C] -> ((exists k, permute_to_nchw_cuda dev ptxv x = Some k) <-> converts dev B C H W W C).
Proof. exact nchw_launches. Qed.
(** Finding: neither an empty tensor nor one with 65536 or more latitude rings in the batch is converted, on any
    GPU; the CPU operators convert both. *)
Theorem C64_conversion_refuted : forall dev ptxv x y B C H W, shp x = [B; C; H; W] -> shp y = [B; H; W; C] -> B * C * H * W = 0 \/ 64 * 1024 <= B * H ->
  permute_to_nhwc_cuda dev ptxv x = None /\ permute_to_nchw_cuda dev ptxv y = None /\ (exists x', to_nhwc x = Some x') /\ (exists y', to_nchw y = Some y').
Proof.
  intros dev ptxv x y B C H W Sx Sy Hz. assert (N : forall f s, ~ converts dev B C H W f s).
  { intros f s (H1 & H2 & H3 & H4 & _ & _ & H5 & _). destruct Hz as [Hz|Hz]; [|lia]. assert (1 <= B * C) by nia. assert (1 <= B * C * H) by nia. nia. }
  split; [|split; [|split]].
  - destruct (permute_to_nhwc_cuda dev ptxv x) as [k|] eqn:E; [|reflexivity]. exfalso. apply (N C W). apply (nhwc_launches dev ptxv x B C H W Sx). eauto.
  - destruct (permute_to_nchw_cuda dev ptxv y) as [k|] eqn:E; [|reflexivity]. exfalso. apply (N W C). apply (nchw_launches dev ptxv y B C H W Sy). eauto.
  - destruct (to_nhwc_val x B C H W Sx) as (x' & E & _). eauto.
  - destruct (to_nchw_val y B C H W Sy) as (y' & E & _). eauto.
Qed.

(** The kernel in front of the sort writes the numbers of the rows and their lengths. *)
Theorem C64_row_lengths : forall dev n roff k, length roff = n + 1 -> set_rlen_rids dev n roff = Some k ->
  forall rg sh out, settles k (start k rg sh out) (fun o => forall i, i < n -> o i = INR i /\ o (n + i) = (INR (nth (i + 1) roff 0%nat) - INR (nth i roff 0%nat))%R).
Proof. exact rids_settle. Qed.
(** The sorted rows: every row once, by decreasing length, and there is only one such order - so the rows of
    every call with these offsets come in the same order. *)
Theorem C64_rows_sorted : forall n roff, row_order n (row_len roff) (sort_rows n roff) /\ (forall idx, row_order n (row_len roff) idx -> idx = sort_rows n roff).
Proof.
  intros n roff. assert (S := sort_rows_order n roff). split; [exact S|]. intros idx [P Q]. destruct S as [P' Q']. eapply order_unique; eauto. transitivity (seq 0 n); [exact P|now apply Permutation_sym].
Qed.
(** With the rows in this order the forward and the backward pass compute the attention and its gradients: no
    assumption about the order is left. *)
Theorem C64_forward_sorted : forall B nh Ck Cv Hi Wi Ho Wo fmin kw vw qw quad P dev vec k, attn_ok B nh Ck Cv Hi Wi Ho Wo quad P kw vw qw -> Wi mod Wo = 0 -> 1 <= Cv ->
  attn_cuda_fwd dev vec fmin (sort_rows Ho (offsets 0 P)) kw vw qw quad (columns P) (offsets 0 P) nh Wi Ho Wo = Some k ->
  overwrites k [B; Ho; Wo; nh * Cv] (attn_spec nh Ck Cv quad (nbrs P Hi Wi Wo) Ho Wo kw vw qw).
Proof. intros. eapply C60_forward; try eassumption. apply sort_rows_perm. Qed.
Theorem C64_backward_sorted : forall op B nh Ck Cv Hi Wi Ho Wo fmin kw vw qw dyw quad P dev vec old j, library_op op -> attn_ok B nh Ck Cv Hi Wi Ho Wo quad P kw vw qw -> Wi mod Wo = 0 -> shp dyw = [B; Ho; Wo; nh * Cv] -> 1 <= Ck ->
  attn_cuda_bwd dev vec old fmin (sort_rows Ho (offsets 0 P)) kw vw qw dyw quad (columns P) (offsets 0 P) nh Wi Ho Wo = Some j ->
  job_settles j (fun g => grads_of op B nh Ck Cv Hi Wi Ho Wo quad P kw vw qw dyw (fst (fst g)) (snd (fst g)) (snd g)).
Proof. intros. eapply C63_backward; try eassumption. apply sort_rows_perm. Qed.

(** Rows by decreasing length are split in the same way on the host and on the device: the rows with at least
    max (1024, thres (longest row)) entries, the others, and the longest row of each kind. *)
Theorem C64_split : forall thres idx roff n, length idx = n -> StronglySorted (fun a b => row_len roff b <= row_len roff a) idx ->
  splits (row_len roff) idx (Nat.max (16 * 64) (thres (longest (row_len roff) idx))) (split_cpu thres idx roff n) /\ split_cuda thres idx roff n = split_cpu thres idx roff n.
Proof. intros thres idx roff n E S. exact (split_both thres idx roff n (eq_sym E) S). Qed.
Theorem C64_split_sorted : forall thres roff n, splits (row_len roff) (sort_rows n roff) (Nat.max (16 * 64) (thres (longest (row_len roff) (seq 0 n)))) (split_cuda thres (sort_rows n roff) roff n).
Proof.
  intros thres roff n. destruct (C64_rows_sorted n roff) as [[P S] _]. destruct (C64_split thres (sort_rows n roff) roff n) as [A E].
  - rewrite (Permutation_length P). apply seq_length.
  - now apply by_length_falling.
  - rewrite E. rewrite <- (longest_perm (row_len roff) _ _ P). exact A.
Qed.
(** Finding: the two versions are said to mirror each other exactly; on rows in another order they do
    not.  The device counts the long rows of a whole block of 1024. *)
Theorem C64_unsorted_split_refuted : exists idx roff, Permutation idx (seq 0 3) /\ forall thres, thres (longest (row_len roff) idx) <= 16 * 64 ->
  fst (fst (split_cpu thres idx roff 3)) = 1 /\ fst (fst (split_cuda thres idx roff 3)) = 2.
Proof.
  exists [0; 1; 2], [0; 16 * 80; 16 * 80 + 5; 16 * 80 + 5 + 16 * 80]. split; [reflexivity|]. intros thres H.
  assert (E : longest (row_len [0; 16 * 80; 16 * 80 + 5; 16 * 80 + 5 + 16 * 80]) [0; 1; 2] = 16 * 80) by reflexivity. rewrite E in H.
  assert (M : min_long thres (row_len [0; 16 * 80; 16 * 80 + 5; 16 * 80 + 5 + 16 * 80] (nth 0 [0; 1; 2] 0)) = 16 * 64).
  { unfold min_long. change (row_len [0; 16 * 80; 16 * 80 + 5; 16 * 80 + 5 + 16 * 80] (nth 0 [0; 1; 2] 0)) with (16 * 80). change split_min_len with (16 * 64). apply Nat.max_l. exact H. }
  unfold split_cpu, split_cuda. cbn [Nat.eqb]. rewrite M. split; vm_compute; reflexivity.
Qed.

Definition conv_dev : device := mkDev 64 8 8.
Definition conv_x : tensor R := mkT [2; 33; 3; 40] (fun i => INR (ravel [2; 33; 3; 40] i)).
Example convert_case : exists k, permute_to_nhwc_cuda conv_dev 90 conv_x = Some k /\ k_groups k = 24 /\ k_threads k = 1024 /\ overwrites k [2; 3; 40; 33] (mkT [2; 3; 40; 33] (fun i => val conv_x [nth 0 i 0; nth 3 i 0; nth 1 i 0; nth 2 i 0])).
Proof.
  destruct (proj2 (C64_to_nhwc_launches conv_dev 90 conv_x 2 33 3 40 eq_refl)) as (k & Ek). { unfold converts, conv_dev. cbn [d_gridx]. repeat split; try lia. }
  exists k. split; [exact Ek|]. destruct (C64_to_nhwc conv_dev 90 conv_x k 2 33 3 40 eq_refl Ek) as (y & _ & Sy & Vy & F). split; [|split].
  - unfold permute_to_nhwc_cuda in Ek. cbn [conv_x ndim shp length Nat.eqb guard bindo] in Ek. destruct (_ && _); [|discriminate]. injection Ek as <-. reflexivity.
  - unfold permute_to_nhwc_cuda in Ek. cbn [conv_x ndim shp length Nat.eqb guard bindo] in Ek. destruct (_ && _); [|discriminate]. injection Ek as <-. reflexivity.
  - intros rg sh out. eapply WarpKernelProofs.settles_impl; [apply F|]. intros o Ho. eapply teq_trans; [exact Ho|]. split; [exact Sy|]. intros i Hi. rewrite Sy in Hi. apply valid4_elim in Hi. destruct Hi as (b & h & w & c & -> & _). rewrite Vy. reflexivity.
Qed.
Example sort_case : sort_rows 4 [0; 3; 8; 11; 12] = [1; 0; 2; 3].
Proof. reflexivity. Qed.
Example lengths_case : exists k, set_rlen_rids conv_dev 4 [0; 3; 8; 11; 12] = Some k /\ k_groups k = 1.
Proof. eexists. split; reflexivity. Qed.

Print Assumptions C64_to_nhwc.
Print Assumptions C64_to_nchw.
Print Assumptions C64_round_trip.
Print Assumptions C64_to_nhwc_launches.
Print Assumptions C64_to_nchw_launches.
Print Assumptions C64_conversion_refuted.
Print Assumptions C64_row_lengths.
Print Assumptions C64_rows_sorted.
Print Assumptions C64_forward_sorted.
Print Assumptions C64_backward_sorted.
Print Assumptions C64_split.
Print Assumptions C64_split_sorted.
Print Assumptions C64_unsorted_split_refuted.
