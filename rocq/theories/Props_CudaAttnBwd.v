(** C63: the CUDA kernels of the neighborhood attention in the self and downsampling direction
    compute the gradient, whatever the order in which the threads run. *)
From Coq Require Import List Arith Lia Bool Reals Lra Permutation.
From Verif Require Import TensorModel TensorProofs AttnModel GpuModel GpuSpec CudaDiscoModel CudaAttnModel CudaAttnSpec CudaAttnUpModel CudaAttnBwdModel CudaAttnBwdSpec CudaJobSpec CudaAttnUpLaunchProofs CudaAttnBwdLaunchProofs AttnOpProofs AttnOpValProofs AttnLayerProofs AttnPropProofs AttnExProofs Props_CudaAttn.
From Verif Require Import AttnSpec.
Import ListNotations.
Local Open Scope nat_scope.

(** Every execution of the launched kernel - the generic one or an instance of the special one,
    with vectors or without, for an old or a new architecture - ends with the derivative of the
    forward pass of any of the library's operators: for all registers and shared arrays, and
    for every order of the output rows. *)
Theorem C63_backward : forall op B nh Ck Cv Hi Wi Ho Wo fmin kw vw qw dyw quad P row_idx dev vec old j, library_op op -> attn_ok B nh Ck Cv Hi Wi Ho Wo quad P kw vw qw -> Wi mod Wo = 0 -> shp dyw = [B; Ho; Wo; nh * Cv] ->
  Permutation row_idx (seq 0 Ho) -> 1 <= Ck -> attn_cuda_bwd dev vec old fmin row_idx kw vw qw dyw quad (columns P) (offsets 0 P) nh Wi Ho Wo = Some j ->
  job_settles j (fun g => grads_of op B nh Ck Cv Hi Wi Ho Wo quad P kw vw qw dyw (fst (fst g)) (snd (fst g)) (snd g)).
Proof.
  intros op B nh Ck Cv Hi Wi Ho Wo fmin kw vw qw dyw quad P row_idx dev vec old j L Hok Hd Sd Hp H1 E. eapply job_impl; [|exact (bwd_computes B nh Ck Cv Hi Wi Ho Wo old fmin kw vw qw dyw quad P row_idx dev vec Hok Sd Hd j H1 Hp E)].
  intros g (G1 & G2 & G3). now apply grads_final.
Qed.
(** The device leaves the gradients the reference and the CPU compute. *)
Theorem C63_backward_as_library : forall B nh Ck Cv Hi Wi Ho Wo fmin kw vw qw dyw quad P row_idx dev vec old j m0, attn_ok B nh Ck Cv Hi Wi Ho Wo quad P kw vw qw -> Wi mod Wo = 0 -> shp dyw = [B; Ho; Wo; nh * Cv] ->
  Permutation row_idx (seq 0 Ho) -> 1 <= Ck -> attn_cuda_bwd dev vec old fmin row_idx kw vw qw dyw quad (columns P) (offsets 0 P) nh Wi Ho Wo = Some j ->
  exists dk dv dq dk' dv' dq', attn_bwd_torch kw vw qw dyw quad (columns P) (offsets 0 P) nh Wi Ho Wo = Some (dk, dv, dq) /\ attn_bwd_cpu m0 kw vw qw dyw quad (columns P) (offsets 0 P) nh Wi Ho Wo = Some (dk', dv', dq') /\
  job_settles j (fun g => teq (fst (fst g)) dk /\ teq (snd (fst g)) dv /\ teq (snd g) dq /\ teq (fst (fst g)) dk' /\ teq (snd (fst g)) dv' /\ teq (snd g) dq').
Proof.
  intros B nh Ck Cv Hi Wi Ho Wo fmin kw vw qw dyw quad P row_idx dev vec old j m0 OK Hd Sd Hp H1 E.
  destruct (attn_bwd_torch_val B nh Ck Cv Hi Wi Ho Wo quad P kw vw qw OK dyw Sd) as (dk & dv & dq & E1 & Tk & Tv & Tq).
  destruct (attn_bwd_cpu_val B nh Ck Cv Hi Wi Ho Wo quad P kw vw qw OK dyw Sd m0) as (dk' & dv' & dq' & E2 & Tk' & Tv' & Tq').
  exists dk, dv, dq, dk', dv', dq'. split; [exact E1|]. split; [exact E2|]. eapply job_impl; [|exact (bwd_computes B nh Ck Cv Hi Wi Ho Wo old fmin kw vw qw dyw quad P row_idx dev vec OK Sd Hd j H1 Hp E)].
  intros g (G1 & G2 & G3). repeat split; eapply teq_trans; eauto using teq_sym; now apply teq_sym.
Qed.
(** When the launch is possible; without key channels it is not. *)
Theorem C63_backward_launches : forall B nh Ck Cv Hi Wi Ho Wo fmin kw vw qw dyw quad P row_idx dev vec old, attn_ok B nh Ck Cv Hi Wi Ho Wo quad P kw vw qw -> Wi mod Wo = 0 -> shp dyw = [B; Ho; Wo; nh * Cv] ->
  ((exists j, attn_cuda_bwd dev vec old fmin row_idx kw vw qw dyw quad (columns P) (offsets 0 P) nh Wi Ho Wo = Some j) <-> 1 <= Ck /\ bwd_fits dev B nh Ck Cv Ho Wo).
Proof.
  intros B nh Ck Cv Hi Wi Ho Wo fmin kw vw qw dyw quad P row_idx dev vec old Hok Hd Sd. destruct (Nat.eq_dec Ck 0) as [E0|E0].
  - assert (E := bwd_no_channels B nh Ck Cv Hi Wi Ho Wo old fmin kw vw qw dyw quad P row_idx dev vec Hok Sd Hd E0). rewrite E. split; [intros [j Ej]; discriminate|lia].
  - assert (H1 : 1 <= Ck) by lia. rewrite (bwd_launches B nh Ck Cv Hi Wi Ho Wo old fmin kw vw qw dyw quad P row_idx dev vec Hok Sd Hd H1). tauto.
Qed.
(** Finding: when the forward kernel fits the shared memory and the backward kernel does not, the
    attention can be evaluated on the device but not trained. *)
Theorem C63_forward_without_backward_refuted : forall B nh Ck Cv Hi Wi Ho Wo fmin kw vw qw dyw quad P row_idx dev vec old, attn_ok B nh Ck Cv Hi Wi Ho Wo quad P kw vw qw -> Wi mod Wo = 0 -> shp dyw = [B; Ho; Wo; nh * Cv] ->
  1 <= Cv -> Cv <= 16 * 1024 -> fwd_fits dev B nh Ck Cv Ho Wo -> d_shared dev < bwd_shared Ck Cv ->
  (exists k, attn_cuda_fwd dev vec fmin row_idx kw vw qw quad (columns P) (offsets 0 P) nh Wi Ho Wo = Some k) /\ attn_cuda_bwd dev vec old fmin row_idx kw vw qw dyw quad (columns P) (offsets 0 P) nh Wi Ho Wo = None.
Proof.
  intros B nh Ck Cv Hi Wi Ho Wo fmin kw vw qw dyw quad P row_idx dev vec old Hok Hd Sd H1 H2 F L. split; [now apply (C60_forward_launches B nh Ck Cv Hi Wi Ho Wo)|].
  destruct (attn_cuda_bwd dev vec old fmin row_idx kw vw qw dyw quad (columns P) (offsets 0 P) nh Wi Ho Wo) as [j|] eqn:E; [|reflexivity]. exfalso.
  destruct (proj1 (C63_backward_launches B nh Ck Cv Hi Wi Ho Wo fmin kw vw qw dyw quad P row_idx dev vec old Hok Hd Sd) (ex_intro _ j E)) as (_ & _ & _ & G). lia.
Qed.
(** Finding: the generic kernel, selected for more than 8192 key channels per head, needs more
    than 256 KB of shared memory, so on a device with less (all, so far) it cannot be launched
    for any number of channels it is selected for. *)
Theorem C63_generic_kernel_refuted : forall B nh Ck Cv Hi Wi Ho Wo fmin kw vw qw dyw quad P row_idx dev vec old, attn_ok B nh Ck Cv Hi Wi Ho Wo quad P kw vw qw -> Wi mod Wo = 0 -> shp dyw = [B; Ho; Wo; nh * Cv] ->
  16 * 512 < Ck -> d_shared dev <= 64 * 1024 -> attn_cuda_bwd dev vec old fmin row_idx kw vw qw dyw quad (columns P) (offsets 0 P) nh Wi Ho Wo = None /\
  exists dk dv dq, attn_bwd_torch kw vw qw dyw quad (columns P) (offsets 0 P) nh Wi Ho Wo = Some (dk, dv, dq).
Proof.
  intros B nh Ck Cv Hi Wi Ho Wo fmin kw vw qw dyw quad P row_idx dev vec old Hok Hd Sd H1 H2. split.
  - destruct (attn_cuda_bwd dev vec old fmin row_idx kw vw qw dyw quad (columns P) (offsets 0 P) nh Wi Ho Wo) as [j|] eqn:E; [|reflexivity]. exfalso.
    destruct (proj1 (C63_backward_launches B nh Ck Cv Hi Wi Ho Wo fmin kw vw qw dyw quad P row_idx dev vec old Hok Hd Sd) (ex_intro _ j E)) as (_ & _ & _ & G). unfold bwd_shared in G. rewrite !(proj2 (Nat.leb_gt _ _)) in G by lia. lia.
  - destruct (attn_bwd_torch_val B nh Ck Cv Hi Wi Ho Wo quad P kw vw qw Hok dyw Sd) as (dk & dv & dq & E & _). now exists dk, dv, dq.
Qed.

Definition bwd_dev : device := mkDev 12 64 8.
Definition bwd_dev2 : device := mkDev 4 64 8.
Example cuda_attn_bwd_case : forall vec old, exists j, attn_cuda_bwd bwd_dev vec old (-1000) [1; 0] (ex_t [1; 2; 4; 2]) (ex_t [1; 2; 4; 4]) (ex_t [1; 2; 2; 2]) (ex_t [1; 2; 2; 4]) ex_quad (columns ex_P) (offsets 0 ex_P) 2 4 2 2 = Some j /\
  job_settles j (fun g => grads_of attn_torch 1 2 1 2 2 4 2 2 ex_quad ex_P (ex_t [1; 2; 4; 2]) (ex_t [1; 2; 4; 4]) (ex_t [1; 2; 2; 2]) (ex_t [1; 2; 2; 4]) (fst (fst g)) (snd (fst g)) (snd g)).
Proof.
  intros vec old. destruct (proj2 (C63_backward_launches 1 2 1 2 2 4 2 2 (-1000) _ _ _ (ex_t [1; 2; 2; 4]) _ _ [1; 0] bwd_dev vec old ex_gather_ok eq_refl eq_refl)) as (j & Ej).
  { repeat split; apply Nat.leb_le; reflexivity. }
  exists j. split; [exact Ej|]. refine (C63_backward attn_torch 1 2 1 2 2 4 2 2 (-1000) _ _ _ (ex_t [1; 2; 2; 4]) _ ex_P [1; 0] bwd_dev vec old j (or_introl eq_refl) ex_gather_ok eq_refl eq_refl _ (le_n 1) Ej). cbn. apply perm_swap.
Qed.
Example cuda_attn_bwd_refuted_case : fwd_fits bwd_dev2 1 2 1 2 2 2 /\ d_shared bwd_dev2 < bwd_shared 1 2.
Proof. repeat split; apply Nat.leb_le; reflexivity. Qed.
(** 48 KB, 9000 key and value channels per head: the forward pass fits, the backward pass does not *)
Example cuda_attn_bwd_48k : forall gx gy, 1 <= gx -> 4 <= gy -> let C := 9 * 1000 in fwd_fits (mkDev (12 * 1024) gx gy) 1 4 C C 1 1 /\ d_shared (mkDev (12 * 1024) gx gy) < bwd_shared C C.
Proof.
  intros gx gy H1 H2 C. assert (HC : 16 * 512 < C /\ C <= 12 * 1000) by (unfold C; split; [apply Nat.ltb_lt|apply Nat.leb_le]; reflexivity). clearbody C. unfold fwd_fits, fwd_shared, bwd_shared, block_points, block_width, blocks_for. cbn [d_gridx d_gridy d_shared]. rewrite !(proj2 (Nat.leb_gt _ _)) by lia.
  change (1024 / 32) with 32. split; [split; [exact H1|split; [exact H2|lia]]|lia].
Qed.

Print Assumptions C63_backward.
Print Assumptions C63_backward_as_library.
Print Assumptions C63_backward_launches.
Print Assumptions C63_forward_without_backward_refuted.
Print Assumptions C63_generic_kernel_refuted.
