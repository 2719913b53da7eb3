(** C60: the CUDA kernels of the neighborhood attention compute the weighted softmax averages,
    whatever the order in which the threads of the grid run. *)
From Coq Require Import List Arith Lia Bool Reals Lra Permutation.
From Verif Require Import TensorModel TensorProofs AttnModel GpuModel GpuSpec CudaDiscoModel CudaAttnModel CudaAttnSpec CudaAttnLaunchProofs AttnOpProofs AttnOpValProofs AttnLayerProofs AttnPropProofs AttnExProofs.
From Verif Require Import AttnSpec.
Import ListNotations.
Local Open Scope nat_scope.

(** Every execution of the launched kernel, the generic one or an instance of the special
    one, vectorised or not, overwrites an arbitrary output with the attention - for all
    initial registers and shared arrays, and for every order of the output rows. *)
Theorem C60_forward : forall B nh Ck Cv Hi Wi Ho Wo fmin kw vw qw quad P row_idx dev vec k, attn_ok B nh Ck Cv Hi Wi Ho Wo quad P kw vw qw -> Wi mod Wo = 0 ->
  Permutation row_idx (seq 0 Ho) -> 1 <= Cv -> attn_cuda_fwd dev vec fmin row_idx kw vw qw quad (columns P) (offsets 0 P) nh Wi Ho Wo = Some k ->
  overwrites k [B; Ho; Wo; nh * Cv] (attn_spec nh Ck Cv quad (nbrs P Hi Wi Wo) Ho Wo kw vw qw).
Proof. intros B nh Ck Cv Hi Wi Ho Wo fmin kw vw qw quad P row_idx dev vec k Hok Hd Hp. exact (fwd_computes B nh Ck Cv Hi Wi Ho Wo fmin kw vw qw quad P row_idx dev vec Hok Hd Hp k). Qed.
(** The device computes what the reference and the CPU operators compute. *)
Theorem C60_forward_as_library : forall op B nh Ck Cv Hi Wi Ho Wo fmin kw vw qw quad P row_idx dev vec k y, library_op op -> attn_ok B nh Ck Cv Hi Wi Ho Wo quad P kw vw qw -> Wi mod Wo = 0 ->
  Permutation row_idx (seq 0 Ho) -> 1 <= Cv -> attn_cuda_fwd dev vec fmin row_idx kw vw qw quad (columns P) (offsets 0 P) nh Wi Ho Wo = Some k ->
  op kw vw qw quad (columns P) (offsets 0 P) nh Wi Ho Wo = Some y -> overwrites k [B; Ho; Wo; nh * Cv] y.
Proof.
  intros op B nh Ck Cv Hi Wi Ho Wo fmin kw vw qw quad P row_idx dev vec k y L Hok Hd Hp H1 E Ey rg sh out.
  destruct (fin_spec op B nh Ck Cv Hi Wi Ho Wo quad P kw vw qw L Hok) as (y' & Ey' & T). rewrite Ey in Ey'. injection Ey' as <-.
  destruct (C60_forward B nh Ck Cv Hi Wi Ho Wo fmin kw vw qw quad P row_idx dev vec k Hok Hd Hp H1 E rg sh out) as (n & S). exists n. intros j u p. destruct (S j u p) as [S1 S2]. split; [exact S1|].
  intros F. destruct (S2 F) as [S3 S4]. split; [exact S3|]. eapply teq_trans; [exact S4|apply teq_sym, T].
Qed.
(** When a launch is possible: up to 16384 value channels per head a special kernel is
    always found, and the grid and its shared memory (in elements) decide. *)
Theorem C60_forward_launches : forall B nh Ck Cv Hi Wi Ho Wo fmin kw vw qw quad P row_idx dev vec, attn_ok B nh Ck Cv Hi Wi Ho Wo quad P kw vw qw -> Wi mod Wo = 0 -> 1 <= Cv -> Cv <= 16 * 1024 ->
  ((exists k, attn_cuda_fwd dev vec fmin row_idx kw vw qw quad (columns P) (offsets 0 P) nh Wi Ho Wo = Some k) <-> fwd_fits dev B nh Ck Cv Ho Wo).
Proof. intros B nh Ck Cv Hi Wi Ho Wo fmin kw vw qw quad P row_idx dev vec Hok Hd. exact (fwd_launches B nh Ck Cv Hi Wi Ho Wo fmin kw vw qw quad P row_idx dev vec Hok Hd). Qed.
Theorem C60_forward_launches_generic : forall B nh Ck Cv Hi Wi Ho Wo fmin kw vw qw quad P row_idx dev vec, attn_ok B nh Ck Cv Hi Wi Ho Wo quad P kw vw qw -> Wi mod Wo = 0 -> 16 * 1024 < Cv ->
  ((exists k, attn_cuda_fwd dev vec fmin row_idx kw vw qw quad (columns P) (offsets 0 P) nh Wi Ho Wo = Some k) <-> blocks_for (Ho * Wo) 2 <= d_gridx dev /\ B * nh <= d_gridy dev /\ 2 * Cv <= d_shared dev).
Proof. intros B nh Ck Cv Hi Wi Ho Wo fmin kw vw qw quad P row_idx dev vec Hok Hd. exact (fwd_launches_large B nh Ck Cv Hi Wi Ho Wo fmin kw vw qw quad P row_idx dev vec Hok Hd). Qed.
(** Finding: the generic kernel, the fallback for many channels, needs twice the value
    channels in shared memory; with the 48 KB that a launch gets by default (it does not ask
    for more) it cannot be launched for any number of channels it is selected for, while the
    CPU and reference operators have a result. *)
Theorem C60_generic_kernel_refuted : forall op B nh Ck Cv Hi Wi Ho Wo fmin kw vw qw quad P row_idx dev vec, library_op op -> attn_ok B nh Ck Cv Hi Wi Ho Wo quad P kw vw qw -> Wi mod Wo = 0 -> 16 * 1024 < Cv ->
  d_shared dev <= 12 * 1024 -> attn_cuda_fwd dev vec fmin row_idx kw vw qw quad (columns P) (offsets 0 P) nh Wi Ho Wo = None /\ exists y, op kw vw qw quad (columns P) (offsets 0 P) nh Wi Ho Wo = Some y.
Proof.
  intros op B nh Ck Cv Hi Wi Ho Wo fmin kw vw qw quad P row_idx dev vec L Hok Hd H1 H2. split.
  - destruct (attn_cuda_fwd dev vec fmin row_idx kw vw qw quad (columns P) (offsets 0 P) nh Wi Ho Wo) as [k|] eqn:E; [|reflexivity]. exfalso.
    destruct (proj1 (C60_forward_launches_generic B nh Ck Cv Hi Wi Ho Wo fmin kw vw qw quad P row_idx dev vec Hok Hd H1) (ex_intro _ k E)) as (_ & _ & G). lia.
  - destruct (fin_spec op B nh Ck Cv Hi Wi Ho Wo quad P kw vw qw L Hok) as (y & Ey & _). now exists y.
Qed.
(** Finding: the device rejects what the CPU accepts - the batch times the heads must fit the
    second grid dimension. *)
Theorem C60_large_batch_refuted : forall op B nh Ck Cv Hi Wi Ho Wo fmin kw vw qw quad P row_idx dev vec, library_op op -> attn_ok B nh Ck Cv Hi Wi Ho Wo quad P kw vw qw -> Wi mod Wo = 0 -> 1 <= Cv -> d_gridy dev < B * nh ->
  attn_cuda_fwd dev vec fmin row_idx kw vw qw quad (columns P) (offsets 0 P) nh Wi Ho Wo = None /\ exists y, op kw vw qw quad (columns P) (offsets 0 P) nh Wi Ho Wo = Some y.
Proof.
  intros op B nh Ck Cv Hi Wi Ho Wo fmin kw vw qw quad P row_idx dev vec L Hok Hd H1 H2. split.
  - destruct (attn_cuda_fwd dev vec fmin row_idx kw vw qw quad (columns P) (offsets 0 P) nh Wi Ho Wo) as [k|] eqn:E; [|reflexivity]. exfalso.
    destruct (Nat.le_gt_cases Cv (16 * 1024)) as [G|G].
    + destruct (proj1 (C60_forward_launches B nh Ck Cv Hi Wi Ho Wo fmin kw vw qw quad P row_idx dev vec Hok Hd H1 G) (ex_intro _ k E)) as (_ & G' & _). lia.
    + destruct (proj1 (C60_forward_launches_generic B nh Ck Cv Hi Wi Ho Wo fmin kw vw qw quad P row_idx dev vec Hok Hd G) (ex_intro _ k E)) as (_ & G' & _). lia.
  - destruct (fin_spec op B nh Ck Cv Hi Wi Ho Wo quad P kw vw qw L Hok) as (y & Ey & _). now exists y.
Qed.

Definition attn_dev : device := mkDev 64 8 8.
Example cuda_attn_case : exists k, attn_cuda_fwd attn_dev true (-1000) [1; 0] (ex_t [1; 2; 4; 2]) (ex_t [1; 2; 4; 4]) (ex_t [1; 2; 2; 2]) ex_quad (columns ex_P) (offsets 0 ex_P) 2 4 2 2 = Some k /\
  k_groups k = 8 /\ k_threads k = 32 /\ overwrites k [1; 2; 2; 4] (attn_spec 2 1 2 ex_quad (nbrs ex_P 2 4 2) 2 2 (ex_t [1; 2; 4; 2]) (ex_t [1; 2; 4; 4]) (ex_t [1; 2; 2; 2])).
Proof.
  destruct (proj2 (C60_forward_launches 1 2 1 2 2 4 2 2 (-1000) _ _ _ _ _ [1; 0] attn_dev true ex_gather_ok eq_refl ltac:(lia) ltac:(lia))) as (k & Ek).
  { unfold fwd_fits. split; [apply Nat.leb_le; reflexivity|split; apply Nat.leb_le; reflexivity]. }
  exists k. split; [exact Ek|]. split; [|split].
  - cbv [attn_cuda_fwd op_shapes ex_t shp dimsz nth] in Ek. vm_compute in Ek. injection Ek as <-. reflexivity.
  - vm_compute in Ek. injection Ek as <-. reflexivity.
  - refine (C60_forward 1 2 1 2 2 4 2 2 (-1000) _ _ _ _ ex_P [1; 0] attn_dev true k ex_gather_ok eq_refl _ ltac:(lia) Ek). cbn. apply perm_swap.
Qed.

Print Assumptions C60_forward.
Print Assumptions C60_forward_as_library.
Print Assumptions C60_forward_launches.
Print Assumptions C60_forward_launches_generic.
Print Assumptions C60_generic_kernel_refuted.
Print Assumptions C60_large_batch_refuted.
