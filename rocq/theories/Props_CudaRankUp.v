(** C72: the forward and the backward pass of distributed attention on GPU ranks, in the upsampling direction, end
    under every schedule with the blocks of the serial result and of the serial gradients. *)
From Coq Require Import List Arith Lia Bool ZArith Reals Lra Permutation Sorted.
From Verif Require Import TensorModel BigSum DistSHTModel DistStateModel PrimSpec DistSHTProofs AttnModel AttnLayerModel AttnLayerSpec AttnLayerProofs AttnExProofs DistAttnModel DistAttnSpec DistAttnBwdModel DistAttnBwdSpec DistAttnProofs5 CudaRingUpSpec CudaRankSpec CudaRankProofs3 CudaRankUpModel CudaRankUpSpec CudaRankUpProofs CudaRankUpProofs2 AttnSpec.
Import ListNotations.
Local Open Scope nat_scope.

(** Forward: from the blocks of keys, values and queries every rank's ring steps (three launches each), run one after
    the other on empty buffers, leave y_acc / alpha_sum equal to its block of the serial attention.  The rescaling
    kernel needs its warps in lockstep, as in C67. *)
Theorem C72_forward : forall argsort L B Ck Cv nh Hi Wi Ho Wo quad P Np A ranks,
  (forall l, Permutation (argsort l) (seq 0 (length l))) -> grid_ok Hi Wi Ho Wo Np A ranks -> halo_fits P Hi Wi Ho Wo Np -> na_upsample Wi Wo = true ->
  forall kw vw qw kf vf qf, attn_ok B nh Ck Cv Hi Wi Ho Wo quad P kw vw qw ->
  holds2 Np A kf (block Np A (folded_heads nh Ck kw)) -> holds2 Np A vf (block Np A (folded_heads nh Cv vw)) -> holds2 Np A qf (block Np A (folded_heads nh Ck qw)) ->
  let obj := dist_na_init argsort Np A (na_layer L Hi Wi Ho Wo nh quad P) in let proj := triples kf vf qf in
  exists y, attn_torch kw vw qw quad (columns P) (offsets 0 P) nh Wi Ho Wo = Some y /\
  forall p a, p < Np -> a < A -> exists o x visits qn, obj p a = Some o /\ proj p a = Some x /\ dist_visits ranks (dist_chunk Np obj proj) p a o = Some visits /\ to_nhwc (snd x) = Some qn /\
  let len := chunk_len Ho Np p in let wid := chunk_len Wo A a in
  forall ws dev ninf, 32 <= ws ->
  (forall s, In s visits -> scores_above ninf (B * nh) (chunk_len Hi Np p + 2 * da_r_lat o) (chunk_len Wi A (fst s)) len wid Ck (hwc (fst (snd s))) (hwc qn)) ->
  (forall s, In s visits -> up_fwd_launches dev ninf o p a qn (B * nh) Ck Cv s <> None) ->
  up_round_ends ws (B * nh * len * wid) (up_fwd_launches dev ninf o p a qn (B * nh) Ck Cv) visits (up_empty_bufs ninf o p a (B * nh))
    (fun fo => same4 (B * nh) len wid Cv (up_y_of o p a (B * nh) Cv fo) (cf (block Np A (folded_heads nh Cv y) p a))).
Proof. exact gpu_up_forward. Qed.
(** Backward: the forward steps, then all steps of the first pass on zeros with the maxima the forward pass left, then
    those of the second, each on zeroed gradients.  The gradient of the queries is the rank's block of the serial one.
    The gradients of the keys and values, added up over the chunks, are what the rank hands to the exchange, which is
    C71_exchange in both directions. *)
Theorem C72_backward : forall argsort L B Ck Cv nh Hi Wi Ho Wo quad P Np A ranks,
  (forall l, Permutation (argsort l) (seq 0 (length l))) -> grid_ok Hi Wi Ho Wo Np A ranks -> halo_fits P Hi Wi Ho Wo Np -> na_upsample Wi Wo = true ->
  forall kw vw qw kf vf qf, attn_ok B nh Ck Cv Hi Wi Ho Wo quad P kw vw qw ->
  holds2 Np A kf (block Np A (folded_heads nh Ck kw)) -> holds2 Np A vf (block Np A (folded_heads nh Cv vw)) -> holds2 Np A qf (block Np A (folded_heads nh Ck qw)) ->
  forall dyw dyf, shp dyw = [B; Ho; Wo; nh * Cv] -> holds2 Np A dyf (block Np A (folded_heads nh Cv dyw)) ->
  let obj := dist_na_init argsort Np A (na_layer L Hi Wi Ho Wo nh quad P) in let proj := triples kf vf qf in
  exists dk dv dq, attn_bwd_torch kw vw qw dyw quad (columns P) (offsets 0 P) nh Wi Ho Wo = Some (dk, dv, dq) /\
  forall p a, p < Np -> a < A -> exists o x visits qn g dyn dkl dvl dql, obj p a = Some o /\ proj p a = Some x /\ dist_visits ranks (dist_chunk Np obj proj) p a o = Some visits /\ to_nhwc (snd x) = Some qn /\
  dyf p a = Some g /\ to_nhwc g = Some dyn /\ dist_op_local Np ranks obj proj dyf p a = Some (dkl, dvl, dql) /\
  let len := chunk_len Ho Np p in let wid := chunk_len Wo A a in let H := chunk_len Hi Np p + 2 * da_r_lat o in
  forall ws dev ninf, 32 <= ws ->
  (forall s, In s visits -> scores_above ninf (B * nh) H (chunk_len Wi A (fst s)) len wid Ck (hwc (fst (snd s))) (hwc qn)) ->
  (forall s, In s visits -> up_fwd_launches dev ninf o p a qn (B * nh) Ck Cv s <> None) ->
  (forall fo s, In s visits -> up_p1_launches dev o p a qn dyn (B * nh) Ck Cv fo s <> None) ->
  (forall fo bo s, In s visits -> up_p2_launches dev o p a qn dyn (B * nh) Ck Cv fo bo s <> None) ->
  up_round_ends ws (B * nh * len * wid) (up_fwd_launches dev ninf o p a qn (B * nh) Ck Cv) visits (up_empty_bufs ninf o p a (B * nh)) (fun fo =>
  chain_ends (up_p1_launches dev o p a qn dyn (B * nh) Ck Cv fo) visits (fun _ => 0%R) (fun bo =>
  up_each_ends (up_p2_launches dev o p a qn dyn (B * nh) Ck Cv fo bo) visits (fun gs =>
    let f := up_full_of o (B * nh) Ck Cv H visits gs in
    teq dkl (mk_hwc (B * nh) H Wi Ck (fst f)) /\ teq dvl (mk_hwc (B * nh) H Wi Cv (snd f)) /\
    same4 (B * nh) len wid Ck (up_dq_of o p a (B * nh) Ck fo bo) (cf (block Np A (folded_heads nh Ck dq) p a))))).
Proof. exact gpu_up_backward. Qed.
(** 2 x 2 ranks with two heads, upsampling from 2x2 to 2x4; everything launches *)
Example C72_case : na_upsample 2 4 = true /\ (forall l, Permutation (down l) (seq 0 (length l))) /\
  attn_ok 1 2 1 2 2 2 2 4 ex_quad ex_P2 (ex_t [1; 2; 2; 2]) (ex_t [1; 2; 2; 4]) (ex_t [1; 2; 4; 2]) /\ grid_ok 2 2 2 4 2 2 ex_ranks /\ halo_fits ex_P2 2 2 2 4 2 /\ shp (ex_t [1; 2; 4; 4]) = [1; 2; 4; 2 * 2].
Proof. exact (conj eq_refl (conj (fun l => proj1 (down_ok l)) (conj ex_up_ok (conj ex_up_grid (conj ex_up_fits eq_refl))))). Qed.
Example C72_launches : exists o, ex_up_obj 0 1 = Some o /\ da_col o <> [] /\
  forall ninf qn dyn fo bo s, shp (fst (snd s)) = [2; 1 + 2 * da_r_lat o; 1; 1] -> up_fwd_launches ex_up_dev ninf o 0 1 qn 2 1 2 s <> None /\ up_p1_launches ex_up_dev o 0 1 qn dyn 2 1 2 fo s <> None /\ up_p2_launches ex_up_dev o 0 1 qn dyn 2 1 2 fo bo s <> None.
Proof. exact ex_up_launch. Qed.
Print Assumptions C72_forward.
Print Assumptions C72_backward.
