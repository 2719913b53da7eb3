(** C61, C62: the CUDA kernels of the neighborhood attention in the upsampling direction, forward
    and backward, compute the attention and its gradient, whatever the order in which the threads run. *)
From Coq Require Import List Arith Lia Bool Reals Lra Permutation.
From Verif Require Import TensorModel TensorProofs AttnModel GpuModel GpuSpec CudaDiscoModel CudaAttnSpec CudaAttnUpModel CudaJobSpec CudaAttnUpLaunchProofs AttnOpProofs AttnOpValProofs AttnLayerProofs AttnPropProofs AttnExProofs.
From Verif Require Import AttnSpec.
Import ListNotations.
Local Open Scope nat_scope.

(** Every execution of the three launches ends with the attention, for all registers and shared
    arrays, and whatever the output held. *)
Theorem C61_forward : forall B nh Ck Cv Hi Wi Ho Wo fmin y0 kw vw qw quad P dev j, attn_ok B nh Ck Cv Hi Wi Ho Wo quad P kw vw qw -> Wi mod Wo <> 0 ->
  attn_cuda_fwd_up dev fmin y0 kw vw qw quad (columns P) (offsets 0 P) nh Wi Ho Wo = Some j ->
  job_settles j (fun y => teq y (attn_spec nh Ck Cv quad (nbrs P Hi Wi Wo) Ho Wo kw vw qw)).
Proof. intros B nh Ck Cv Hi Wi Ho Wo fmin y0 kw vw qw quad P dev j Hok Hd. exact (fwd_up_computes B nh Ck Cv Hi Wi Ho Wo fmin kw vw qw quad P dev Hok Hd y0 j). Qed.
(** The device computes what the reference and the CPU operators compute. *)
Theorem C61_forward_as_library : forall op B nh Ck Cv Hi Wi Ho Wo fmin y0 kw vw qw quad P dev j y, library_op op -> attn_ok B nh Ck Cv Hi Wi Ho Wo quad P kw vw qw -> Wi mod Wo <> 0 ->
  attn_cuda_fwd_up dev fmin y0 kw vw qw quad (columns P) (offsets 0 P) nh Wi Ho Wo = Some j ->
  op kw vw qw quad (columns P) (offsets 0 P) nh Wi Ho Wo = Some y -> job_settles j (fun r => teq r y).
Proof.
  intros op B nh Ck Cv Hi Wi Ho Wo fmin y0 kw vw qw quad P dev j y L Hok Hd E Ey.
  destruct (fin_spec op B nh Ck Cv Hi Wi Ho Wo quad P kw vw qw L Hok) as (y1 & Ey1 & T). rewrite Ey in Ey1. injection Ey1 as <-.
  eapply job_impl; [|exact (C61_forward B nh Ck Cv Hi Wi Ho Wo fmin y0 kw vw qw quad P dev j Hok Hd E)]. intros r Hr. eapply teq_trans; [exact Hr|]. apply teq_sym. exact T.
Qed.
(** The first launch leaves the largest score of every output point (or the initial value, the
    lowest number of the type, should all scores be below it), so that no exponent is positive. *)
Theorem C61_maximum : forall B nh Ck Cv Hi Wi Ho Wo fmin y0 kw vw qw quad P dev j, attn_ok B nh Ck Cv Hi Wi Ho Wo quad P kw vw qw -> Wi mod Wo <> 0 ->
  attn_cuda_fwd_up dev fmin y0 kw vw qw quad (columns P) (offsets 0 P) nh Wi Ho Wo = Some j ->
  exists k next, j = JRun k (fun _ => fmin) next /\ forall rg sh, settles k (start k rg sh (fun _ => fmin)) (fun m =>
    forall b n ho wo, b < B -> n < nh -> ho < Ho -> wo < Wo -> let x := m (((b * nh + n) * Ho + ho) * Wo + wo) in let s := score Ck (head kw Ck b n) (head qw Ck b n) ho wo in
      (forall p, In p (nbrs P Hi Wi Wo ho wo) -> (s p <= x)%R) /\ (x = fmin \/ exists p, In p (nbrs P Hi Wi Wo ho wo) /\ x = s p)).
Proof. intros B nh Ck Cv Hi Wi Ho Wo fmin y0 kw vw qw quad P dev j Hok Hd. exact (fwd_up_maxima B nh Ck Cv Hi Wi Ho Wo fmin kw vw qw quad P dev Hok Hd y0 j). Qed.
(** When the launches are possible: two keys and two values in shared memory. *)
Theorem C61_forward_launches : forall B nh Ck Cv Hi Wi Ho Wo fmin y0 kw vw qw quad P dev, attn_ok B nh Ck Cv Hi Wi Ho Wo quad P kw vw qw -> Wi mod Wo <> 0 ->
  ((exists j, attn_cuda_fwd_up dev fmin y0 kw vw qw quad (columns P) (offsets 0 P) nh Wi Ho Wo = Some j) <-> up_fits dev B nh Hi Wi Ho Wo (Ck + Cv)).
Proof. intros B nh Ck Cv Hi Wi Ho Wo fmin y0 kw vw qw quad P dev Hok Hd. exact (fwd_up_launches B nh Ck Cv Hi Wi Ho Wo fmin kw vw qw quad P dev Hok Hd y0). Qed.
(** Every execution of the four launches of the backward pass ends with the derivative of the
    forward pass of any of the library's operators. *)
Theorem C62_backward : forall op B nh Ck Cv Hi Wi Ho Wo fmin kw vw qw dyw quad P dev j, library_op op -> attn_ok B nh Ck Cv Hi Wi Ho Wo quad P kw vw qw -> Wi mod Wo <> 0 -> shp dyw = [B; Ho; Wo; nh * Cv] ->
  attn_cuda_bwd_up dev fmin kw vw qw dyw quad (columns P) (offsets 0 P) nh Wi Ho Wo = Some j ->
  job_settles j (fun g => grads_of op B nh Ck Cv Hi Wi Ho Wo quad P kw vw qw dyw (fst (fst g)) (snd (fst g)) (snd g)).
Proof.
  intros op B nh Ck Cv Hi Wi Ho Wo fmin kw vw qw dyw quad P dev j L Hok Hd Sd E. eapply job_impl; [|exact (bwd_up_computes B nh Ck Cv Hi Wi Ho Wo fmin kw vw qw quad P dev Hok Hd dyw j Sd E)].
  intros g (G1 & G2 & G3). now apply grads_final.
Qed.
(** The device leaves the gradients the reference and the CPU compute. *)
Theorem C62_backward_as_library : forall B nh Ck Cv Hi Wi Ho Wo fmin kw vw qw dyw quad P dev j m0, attn_ok B nh Ck Cv Hi Wi Ho Wo quad P kw vw qw -> Wi mod Wo <> 0 -> shp dyw = [B; Ho; Wo; nh * Cv] ->
  attn_cuda_bwd_up dev fmin kw vw qw dyw quad (columns P) (offsets 0 P) nh Wi Ho Wo = Some j ->
  exists dk dv dq dk' dv' dq', attn_bwd_torch kw vw qw dyw quad (columns P) (offsets 0 P) nh Wi Ho Wo = Some (dk, dv, dq) /\ attn_bwd_cpu m0 kw vw qw dyw quad (columns P) (offsets 0 P) nh Wi Ho Wo = Some (dk', dv', dq') /\
  job_settles j (fun g => teq (fst (fst g)) dk /\ teq (snd (fst g)) dv /\ teq (snd g) dq /\ teq (fst (fst g)) dk' /\ teq (snd (fst g)) dv' /\ teq (snd g) dq').
Proof.
  intros B nh Ck Cv Hi Wi Ho Wo fmin kw vw qw dyw quad P dev j m0 OK Hd Sd E.
  destruct (attn_bwd_torch_val B nh Ck Cv Hi Wi Ho Wo quad P kw vw qw OK dyw Sd) as (dk & dv & dq & E1 & Tk & Tv & Tq).
  destruct (attn_bwd_cpu_val B nh Ck Cv Hi Wi Ho Wo quad P kw vw qw OK dyw Sd m0) as (dk' & dv' & dq' & E2 & Tk' & Tv' & Tq').
  exists dk, dv, dq, dk', dv', dq'. split; [exact E1|]. split; [exact E2|]. eapply job_impl; [|exact (bwd_up_computes B nh Ck Cv Hi Wi Ho Wo fmin kw vw qw quad P dev OK Hd dyw j Sd E)].
  intros g (G1 & G2 & G3). repeat split; eapply teq_trans; eauto using teq_sym; now apply teq_sym.
Qed.
(** Twice as much shared memory as the forward pass. *)
Theorem C62_backward_launches : forall B nh Ck Cv Hi Wi Ho Wo fmin kw vw qw dyw quad P dev, attn_ok B nh Ck Cv Hi Wi Ho Wo quad P kw vw qw -> Wi mod Wo <> 0 -> shp dyw = [B; Ho; Wo; nh * Cv] ->
  ((exists j, attn_cuda_bwd_up dev fmin kw vw qw dyw quad (columns P) (offsets 0 P) nh Wi Ho Wo = Some j) <-> up_fits dev B nh Hi Wi Ho Wo (2 * Ck + 2 * Cv)).
Proof. intros B nh Ck Cv Hi Wi Ho Wo fmin kw vw qw dyw quad P dev Hok Hd. exact (bwd_up_launches B nh Ck Cv Hi Wi Ho Wo fmin kw vw qw quad P dev Hok Hd dyw). Qed.
(** Finding: there are channel counts whose forward pass can be launched while the backward
    pass of the same layer cannot. *)
Theorem C62_forward_without_backward_refuted : forall B nh Ck Cv Hi Wi Ho Wo fmin y0 kw vw qw dyw quad P dev, attn_ok B nh Ck Cv Hi Wi Ho Wo quad P kw vw qw -> Wi mod Wo <> 0 -> shp dyw = [B; Ho; Wo; nh * Cv] ->
  up_fits dev B nh Hi Wi Ho Wo (Ck + Cv) -> d_shared dev < 4 * (Ck + Cv) ->
  (exists j, attn_cuda_fwd_up dev fmin y0 kw vw qw quad (columns P) (offsets 0 P) nh Wi Ho Wo = Some j) /\ attn_cuda_bwd_up dev fmin kw vw qw dyw quad (columns P) (offsets 0 P) nh Wi Ho Wo = None.
Proof.
  intros B nh Ck Cv Hi Wi Ho Wo fmin y0 kw vw qw dyw quad P dev Hok Hd Sd F L. split; [now apply (C61_forward_launches B nh Ck Cv Hi Wi Ho Wo)|].
  destruct (attn_cuda_bwd_up dev fmin kw vw qw dyw quad (columns P) (offsets 0 P) nh Wi Ho Wo) as [j|] eqn:E; [|reflexivity]. exfalso.
  destruct (proj1 (C62_backward_launches B nh Ck Cv Hi Wi Ho Wo fmin kw vw qw dyw quad P dev Hok Hd Sd) (ex_intro _ j E)) as (_ & _ & _ & G). lia.
Qed.

Definition up_dev : device := mkDev 12 64 8.
Definition up_dev2 : device := mkDev 6 64 8.
Example cuda_attn_up_case : exists j, attn_cuda_fwd_up up_dev (-1000) (fun _ => 7%R) (ex_t [1; 2; 2; 2]) (ex_t [1; 2; 2; 4]) (ex_t [1; 2; 4; 2]) ex_quad (columns ex_P2) (offsets 0 ex_P2) 2 2 2 4 = Some j /\
  job_settles j (fun y => teq y (attn_spec 2 1 2 ex_quad (nbrs ex_P2 2 2 4) 2 4 (ex_t [1; 2; 2; 2]) (ex_t [1; 2; 2; 4]) (ex_t [1; 2; 4; 2]))).
Proof.
  destruct (proj2 (C61_forward_launches 1 2 1 2 2 2 2 4 (-1000) (fun _ => 7%R) _ _ _ _ _ up_dev ex_up_ok ltac:(discriminate))) as (j & Ej).
  { repeat split; apply Nat.leb_le; reflexivity. }
  exists j. split; [exact Ej|]. exact (C61_forward 1 2 1 2 2 2 2 4 (-1000) (fun _ => 7%R) _ _ _ _ ex_P2 up_dev j ex_up_ok ltac:(discriminate) Ej).
Qed.
Example cuda_attn_up_bwd_case : exists j, attn_cuda_bwd_up up_dev (-1000) (ex_t [1; 2; 2; 2]) (ex_t [1; 2; 2; 4]) (ex_t [1; 2; 4; 2]) (ex_t [1; 2; 4; 4]) ex_quad (columns ex_P2) (offsets 0 ex_P2) 2 2 2 4 = Some j /\
  job_settles j (fun g => grads_of attn_torch 1 2 1 2 2 2 2 4 ex_quad ex_P2 (ex_t [1; 2; 2; 2]) (ex_t [1; 2; 2; 4]) (ex_t [1; 2; 4; 2]) (ex_t [1; 2; 4; 4]) (fst (fst g)) (snd (fst g)) (snd g)).
Proof.
  destruct (proj2 (C62_backward_launches 1 2 1 2 2 2 2 4 (-1000) _ _ _ (ex_t [1; 2; 4; 4]) _ _ up_dev ex_up_ok ltac:(discriminate) eq_refl)) as (j & Ej).
  { repeat split; apply Nat.leb_le; reflexivity. }
  exists j. split; [exact Ej|]. exact (C62_backward attn_torch 1 2 1 2 2 2 2 4 (-1000) _ _ _ (ex_t [1; 2; 4; 4]) _ ex_P2 up_dev j (or_introl eq_refl) ex_up_ok ltac:(discriminate) eq_refl Ej).
Qed.
Example cuda_attn_up_refuted_case : up_fits up_dev2 1 2 2 2 2 4 (1 + 2) /\ d_shared up_dev2 < 4 * (1 + 2).
Proof. repeat split; apply Nat.leb_le; reflexivity. Qed.

Print Assumptions C61_forward.
Print Assumptions C61_forward_as_library.
Print Assumptions C61_maximum.
Print Assumptions C61_forward_launches.
Print Assumptions C62_backward.
Print Assumptions C62_backward_as_library.
Print Assumptions C62_backward_launches.
Print Assumptions C62_forward_without_backward_refuted.
