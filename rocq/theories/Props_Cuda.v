(** C59: the CUDA kernels of the DISCO convolution compute the same sums as the CPU kernels,
    whatever the order in which the threads of the grid run. *)
From Coq Require Import List Arith Lia Bool Reals Lra Permutation Sorted.
From Verif Require Import TensorModel TensorProofs BigSum QuadModel FilterModel PsiModel DiscoModel DiscoSpec DiscoTensorProofs DiscoExProofs PrimSpec DistDiscoSpec
  GpuModel GpuSpec CudaDiscoModel CudaDiscoSpec CudaFwdProofs2 CudaBwdProofs2 CudaSortProofs.
Import ListNotations.
Local Open Scope nat_scope.

(** Every execution of the launched forward kernel ends with the defining sums, for all
    initial registers and shared arrays - if the entries come in the order of the input
    rows, and otherwise none ends properly. *)
Theorem C59_forward : forall dev junk K Ho Wo es roff es' (x : tensor R) B C Hi Wi k,
  1 <= K -> psi_wf K Ho (Hi * Wi) es -> rows_sorted es -> kernels_separated K es -> es <> [] ->
  preprocess_psi junk K Ho es = Some (roff, es') -> shp x = [B; C; Hi; Wi] ->
  disco_cuda_fwd dev K Ho Wo roff es' x = Some k ->
  (lats_sorted Wi es -> computes k [B; C; K; Ho; Wo] (tensor_disco K Ho Wo es x)) /\ (~ lats_sorted Wi es -> forall rg sh out Q, ~ settles k (start k rg sh out) Q).
Proof. exact cuda_fwd_iff. Qed.
(** The backward kernel, which adds to the output with atomics from all blocks. *)
Theorem C59_backward : forall dev junk K Ho Wo es roff es' (y : tensor R) B C Hi Wi k,
  1 <= K -> psi_wf K Hi (Ho * Wo) es -> rows_sorted es -> kernels_separated K es -> es <> [] ->
  preprocess_psi junk K Hi es = Some (roff, es') -> shp y = [B; C; K; Hi; Wi] ->
  disco_cuda_bwd dev K Ho Wo roff es' y = Some k ->
  (lats_sorted Wo es -> computes k [B; C; Ho; Wo] (tensor_disco_adjoint Ho Wo es y)) /\ (~ lats_sorted Wo es -> forall rg sh out Q, ~ settles k (start k rg sh out) Q).
Proof. exact cuda_bwd_iff. Qed.
(** The library's filters come in that order, from every basis; so do the slices of the
    distributed layers. *)
Theorem C59_filters_ordered : forall jn jz ks b fb gl Hi Wi Ho Wo gi go cut mode es, get_filter_basis jn jz ks b = Some fb ->
  (conv_psi gl Hi Wi Ho Wo fb gi go cut mode = Some es -> lats_sorted Wi es) /\ (tconv_psi gl Hi Wi Ho Wo fb gi go cut mode = Some es -> lats_sorted Wo es).
Proof. intros. split; intros; [eapply conv_lats_sorted|eapply tconv_lats_sorted]; eauto. Qed.
Theorem C59_slices_ordered : forall h w P p es, 1 <= w -> lats_sorted w es ->
  lats_sorted w (map (fun e => mkE (ker e) (row e) ((col e / w - chunk_lo h P p) * w + col e mod w) (pv e)) (lat_slice h w P p es)).
Proof. exact slice_lats_sorted. Qed.
(** The device computes what the CPU computes. *)
Theorem C59_forward_as_cpu : forall dev junk junk' K Ho Wo es roff es' (x : tensor R) B C Hi Wi k y,
  1 <= K -> psi_wf K Ho (Hi * Wi) es -> rows_sorted es -> kernels_separated K es -> es <> [] -> lats_sorted Wi es ->
  preprocess_psi junk K Ho es = Some (roff, es') -> shp x = [B; C; Hi; Wi] ->
  disco_cuda_fwd dev K Ho Wo roff es' x = Some k -> disco_cpu_fwd junk' K Ho Wo roff es' x = Some y -> computes k [B; C; K; Ho; Wo] y.
Proof. exact cuda_fwd_cpu. Qed.
Theorem C59_backward_as_cpu : forall dev junk K Ho Wo es roff es' (y : tensor R) B C Hi Wi k x,
  1 <= K -> psi_wf K Hi (Ho * Wo) es -> rows_sorted es -> kernels_separated K es -> es <> [] -> lats_sorted Wo es ->
  preprocess_psi junk K Hi es = Some (roff, es') -> shp y = [B; C; K; Hi; Wi] ->
  disco_cuda_bwd dev K Ho Wo roff es' y = Some k -> disco_cpu_bwd K Ho Wo roff es' y = Some x -> computes k [B; C; Ho; Wo] x.
Proof. exact cuda_bwd_cpu. Qed.
(** When a launch is possible.  Shared memory is counted in elements. *)
Theorem C59_forward_launches : forall dev K Ho Wo roff es (x : tensor R) B C Hi Wi, shp x = [B; C; Hi; Wi] -> 1 <= Wo ->
  ((exists k, disco_cuda_fwd dev K Ho Wo roff es x = Some k) <->
   Wi mod Wo = 0 /\ Wo <= 1024 * 32 /\ 1 <= length roff - 1 <= d_gridx dev /\ 1 <= B * C <= d_gridy dev /\
   2 * Wi + Wi / Wo * (round_up (lanes Wo) Wo - Wo) <= d_shared dev).
Proof. exact cuda_fwd_launches. Qed.
Theorem C59_backward_launches : forall dev K Ho Wo roff es (y : tensor R) B C Hi Wi, shp y = [B; C; K; Hi; Wi] -> 1 <= Wi -> 1 <= Wo ->
  ((exists k, disco_cuda_bwd dev K Ho Wo roff es y = Some k) <->
   Wo mod Wi = 0 /\ Wo <= 1024 * 32 /\ 1 <= length roff - 1 <= d_gridx dev /\ 1 <= B * C <= d_gridy dev /\
   2 * Nat.max (lanes Wo * least_share Wo) (round_up (lanes Wo) Wi) * (Wo / Wi) <= d_shared dev).
Proof. exact cuda_bwd_launches. Qed.
(** Finding: the device rejects what the CPU accepts - the batch times the channels must fit
    the second grid dimension, in both directions. *)
Theorem C59_large_batch_refuted : forall dev K Ho Wo roff es (x y : tensor R) B C Hi Wi, 1 <= Wi -> 1 <= Wo -> d_gridy dev < B * C ->
  (shp x = [B; C; Hi; Wi] -> disco_cuda_fwd dev K Ho Wo roff es x = None) /\ (shp y = [B; C; K; Hi; Wi] -> disco_cuda_bwd dev K Ho Wo roff es y = None).
Proof.
  intros dev K Ho Wo roff es x y B C Hi Wi HWi HWo H. split; intros S.
  - destruct (disco_cuda_fwd dev K Ho Wo roff es x) eqn:E; [|reflexivity]. destruct (proj1 (C59_forward_launches dev K Ho Wo roff es x B C Hi Wi S HWo)) as (_ & _ & _ & X & _); [eauto|lia].
  - destruct (disco_cuda_bwd dev K Ho Wo roff es y) eqn:E; [|reflexivity]. destruct (proj1 (C59_backward_launches dev K Ho Wo roff es y B C Hi Wi S HWi HWo)) as (_ & _ & _ & X & _); [eauto|lia].
Qed.
(** Finding: with s shared elements per block a grid of more than s / 2 longitudes cannot be
    convolved; the gradient needs as much. *)
Theorem C59_fine_grid_refuted : forall dev K Ho Wo roff es (x y : tensor R) B C Hi Wi, 1 <= Wi -> 1 <= Wo ->
  (d_shared dev < 2 * Wi -> shp x = [B; C; Hi; Wi] -> disco_cuda_fwd dev K Ho Wo roff es x = None) /\ (d_shared dev < 2 * Wo -> shp y = [B; C; K; Hi; Wi] -> disco_cuda_bwd dev K Ho Wo roff es y = None).
Proof. exact cuda_fine. Qed.

(** hypotheses are met: two kernels, 2 x 4 points in, 2 x 2 out, on a device with 300
    shared elements *)
Definition small_dev : device := mkDev 300 8 8.
Lemma ex_lats : lats_sorted 4 ex_es.
Proof. intros k t. destruct k as [|[|k]], t as [|[|t]]; cbn; repeat (constructor; try lia). Qed.
Example cuda_case : forall (x y : tensor R), shp x = [2; 3; 2; 4] -> shp y = [2; 3; 2; 2; 2] -> exists roff es' k k', preprocess_psi (fun _ => mkE 0 0 0 0) 2 2 ex_es = Some (roff, es') /\
  disco_cuda_fwd small_dev 2 2 2 roff es' x = Some k /\ computes k [2; 3; 2; 2; 2] (tensor_disco 2 2 2 ex_es x) /\
  disco_cuda_bwd small_dev 2 2 4 roff es' y = Some k' /\ computes k' [2; 3; 2; 4] (tensor_disco_adjoint 2 4 ex_es y) /\ k_groups k = 24 /\ k_threads k = 64.
Proof.
  intros x y Sx Sy. assert (Wf : psi_wf 2 2 (2 * 4) ex_es) by (intros e [<-|[<-|[<-|[<-|[<-|[]]]]]]; cbn; lia).
  destruct (preprocess_psi (fun _ => mkE 0 0 0 0) 2 2 ex_es) as [[roff es']|] eqn:PP; [|discriminate]. assert (Lr : length roff = 5) by (vm_compute in PP; injection PP as <- _; reflexivity).
  destruct (proj2 (C59_forward_launches small_dev 2 2 2 roff es' x 2 3 2 4 Sx ltac:(lia))) as (k & Ek). { rewrite Lr. cbn [small_dev d_shared d_gridx d_gridy]. split; [reflexivity|]. split; [lia|]. split; [lia|]. split; [lia|]. apply Nat.leb_le. reflexivity. }
  destruct (proj2 (C59_backward_launches small_dev 2 2 4 roff es' y 2 3 2 2 Sy ltac:(lia) ltac:(lia))) as (k' & Ek'). { rewrite Lr. cbn [small_dev d_shared d_gridx d_gridy]. split; [reflexivity|]. split; [lia|]. split; [lia|]. split; [lia|]. apply Nat.leb_le. reflexivity. }
  exists roff, es', k, k'. split; [reflexivity|]. split; [exact Ek|]. split; [refine (proj1 (C59_forward small_dev _ 2 2 2 ex_es roff es' x 2 3 2 4 k ltac:(lia) Wf ex_rows ex_sep ltac:(discriminate) PP Sx Ek) ex_lats)|]. split; [exact Ek'|]. split; [refine (proj1 (C59_backward small_dev _ 2 2 4 ex_es roff es' y 2 3 2 2 k' ltac:(lia) Wf ex_rows ex_sep ltac:(discriminate) PP Sy Ek') ex_lats)|].
  unfold disco_cuda_fwd in Ek. unfold ndim, dimsz in Ek. rewrite Sx, Lr in Ek. cbn in Ek. injection Ek as <-. split; reflexivity.
Qed.
(** ... and an order of the entries with which the kernel never ends properly *)
Example cuda_unsorted : ~ lats_sorted 4 [mkE 0 0 5 1; mkE 0 0 1 2; mkE 0 1 0 1].
Proof. intros H. specialize (H 0 0). cbn in H. inversion H as [|? ? H1 H2]; subst. inversion H2; subst. lia. Qed.

Print Assumptions C59_forward.
Print Assumptions C59_backward.
Print Assumptions C59_filters_ordered.
Print Assumptions C59_slices_ordered.
Print Assumptions C59_forward_as_cpu.
Print Assumptions C59_backward_as_cpu.
Print Assumptions C59_forward_launches.
Print Assumptions C59_backward_launches.
Print Assumptions C59_large_batch_refuted.
Print Assumptions C59_fine_grid_refuted.
