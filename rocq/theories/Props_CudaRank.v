(** C71: the forward and the backward pass of distributed attention on GPU ranks, in the self and downsampling
    direction, end under every schedule with the blocks of the serial result and of the serial gradients. *)
From Coq Require Import List Arith Lia Bool ZArith Reals Lra Permutation Sorted.
From Verif Require Import TensorModel BigSum DistSHTModel DistStateModel PrimSpec DistSHTProofs AttnModel AttnLayerModel AttnLayerSpec AttnLayerProofs AttnExProofs DistAttnModel DistAttnSpec DistAttnBwdModel DistAttnBwdSpec DistAttnProofs5 CudaUtilsModel CudaAttnSpec CudaRingUpSpec CudaRingBwdSpec CudaRingBwdProofs5 CudaRankModel CudaRankSpec CudaRankProofs CudaRankProofs2 CudaRankProofs3 AttnSpec.
Import ListNotations.
Local Open Scope nat_scope.

(** Forward: from the blocks of keys, values and queries every rank's ring steps, launched one after the other on empty
    buffers, leave y_acc / alpha_sum equal to its block of the serial attention.  With long rows the channels have to
    fit one warp (or the block runs in lockstep), as in C66. *)
Theorem C71_forward : forall argsort L B Ck Cv nh Hi Wi Ho Wo quad P Np A ranks,
  (forall l, Permutation (argsort l) (seq 0 (length l)) /\ StronglySorted (fun x y => nth y l 0 <= nth x l 0) (argsort l)) -> grid_ok Hi Wi Ho Wo Np A ranks -> halo_fits P Hi Wi Ho Wo Np -> Wi mod Wo = 0 ->
  forall kw vw qw kf vf qf, attn_ok B nh Ck Cv Hi Wi Ho Wo quad P kw vw qw ->
  holds2 Np A kf (block Np A (folded_heads nh Ck kw)) -> holds2 Np A vf (block Np A (folded_heads nh Cv vw)) -> holds2 Np A qf (block Np A (folded_heads nh Ck qw)) ->
  let obj := dist_na_init argsort Np A (na_layer L Hi Wi Ho Wo nh quad P) in let proj := triples kf vf qf in
  exists y, attn_torch kw vw qw quad (columns P) (offsets 0 P) nh Wi Ho Wo = Some y /\
  forall p a, p < Np -> a < A -> exists o x visits qn, obj p a = Some o /\ proj p a = Some x /\ dist_visits ranks (dist_chunk Np obj proj) p a o = Some visits /\ to_nhwc (snd x) = Some qn /\
  let len := chunk_len Ho Np p in let wid := chunk_len Wo A a in
  forall ws dev vec ninf thres n mx md, 1 <= Cv -> Cv <= 16 * 1024 -> split_cpu thres (da_row o) (da_roff o) len = (n, mx, md) -> n = 0 \/ block_width Cv <= ws ->
  (forall s, In s visits -> scores_above ninf (B * nh) (chunk_len Hi Np p + 2 * da_r_lat o) (chunk_len Wi A (fst s)) len wid Ck (hwc (fst (snd s))) (hwc qn)) ->
  (forall s, In s visits -> fwd_launches dev vec ninf o p a qn (B * nh) Ck Cv n mx md s <> None) ->
  round_ends ws (B * nh * len * wid) (fwd_launches dev vec ninf o p a qn (B * nh) Ck Cv n mx md) visits (empty_bufs ninf o p a (B * nh))
    (fun fo => same4 (B * nh) len wid Cv (y_of o p a (B * nh) Cv fo) (cf (block Np A (folded_heads nh Cv y) p a))).
Proof. exact gpu_forward. Qed.
(** Backward: the forward steps, then all steps of the first pass on empty buffers, then those of the second, each on
    zeroed gradients.  The gradient of the queries is the rank's block of the serial one.  The gradients of the keys and
    values, added up over the chunks, are what the rank hands to the exchange of C55. *)
Theorem C71_backward : forall argsort L B Ck Cv nh Hi Wi Ho Wo quad P Np A ranks,
  (forall l, Permutation (argsort l) (seq 0 (length l)) /\ StronglySorted (fun x y => nth y l 0 <= nth x l 0) (argsort l)) -> grid_ok Hi Wi Ho Wo Np A ranks -> halo_fits P Hi Wi Ho Wo Np -> Wi mod Wo = 0 ->
  forall kw vw qw kf vf qf, attn_ok B nh Ck Cv Hi Wi Ho Wo quad P kw vw qw ->
  holds2 Np A kf (block Np A (folded_heads nh Ck kw)) -> holds2 Np A vf (block Np A (folded_heads nh Cv vw)) -> holds2 Np A qf (block Np A (folded_heads nh Ck qw)) ->
  forall dyw dyf, shp dyw = [B; Ho; Wo; nh * Cv] -> holds2 Np A dyf (block Np A (folded_heads nh Cv dyw)) ->
  let obj := dist_na_init argsort Np A (na_layer L Hi Wi Ho Wo nh quad P) in let proj := triples kf vf qf in
  exists dk dv dq, attn_bwd_torch kw vw qw dyw quad (columns P) (offsets 0 P) nh Wi Ho Wo = Some (dk, dv, dq) /\
  forall p a, p < Np -> a < A -> exists o x visits qn g dyn dkl dvl dql, obj p a = Some o /\ proj p a = Some x /\ dist_visits ranks (dist_chunk Np obj proj) p a o = Some visits /\ to_nhwc (snd x) = Some qn /\
  dyf p a = Some g /\ to_nhwc g = Some dyn /\ dist_op_local Np ranks obj proj dyf p a = Some (dkl, dvl, dql) /\
  let len := chunk_len Ho Np p in let wid := chunk_len Wo A a in let H := chunk_len Hi Np p + 2 * da_r_lat o in
  forall ws dev vec old ninf thres n mx md, 1 <= Cv -> Cv <= 16 * 1024 -> split_cpu thres (da_row o) (da_roff o) len = (n, mx, md) -> n = 0 \/ (block_width Cv <= ws /\ block_width Ck <= ws) ->
  (forall s, In s visits -> scores_above ninf (B * nh) H (chunk_len Wi A (fst s)) len wid Ck (hwc (fst (snd s))) (hwc qn)) ->
  (forall s, In s visits -> fwd_launches dev vec ninf o p a qn (B * nh) Ck Cv n mx md s <> None) ->
  (forall s, In s visits -> p1_launches dev vec ninf o p a qn dyn (B * nh) Ck Cv n mx md s <> None) ->
  (forall fo bo s, In s visits -> p2_launches dev vec old o p a qn dyn (B * nh) Ck Cv n mx md fo bo s <> None) ->
  round_ends ws (B * nh * len * wid) (fwd_launches dev vec ninf o p a qn (B * nh) Ck Cv n mx md) visits (empty_bufs ninf o p a (B * nh)) (fun fo =>
  round_ends ws (B * nh * len * wid) (p1_launches dev vec ninf o p a qn dyn (B * nh) Ck Cv n mx md) visits (empty_bufs ninf o p a (B * nh)) (fun bo =>
  each_ends (p2_launches dev vec old o p a qn dyn (B * nh) Ck Cv n mx md fo bo) visits (fun gs =>
    let f := full_of o (B * nh) Ck Cv H visits gs in
    teq dkl (mk_hwc (B * nh) H Wi Ck (fst f)) /\ teq dvl (mk_hwc (B * nh) H Wi Cv (snd f)) /\
    same4 (B * nh) len wid Ck (dq_of o p a (B * nh) Ck fo bo) (cf (block Np A (folded_heads nh Ck dq) p a))))).
Proof. exact gpu_backward. Qed.
(** The exchange: from tensors equal to those of C71_backward the sum over the azimuth group, the own columns and the
    halo rows sent back are each rank's blocks of the serial gradients of keys and values. *)
Theorem C71_exchange : forall argsort L B Ck Cv nh Hi Wi Ho Wo quad P Np A ranks,
  (forall l, Permutation (argsort l) (seq 0 (length l)) /\ StronglySorted (fun x y => nth y l 0 <= nth x l 0) (argsort l)) -> grid_ok Hi Wi Ho Wo Np A ranks -> halo_fits P Hi Wi Ho Wo Np ->
  forall kw vw qw kf vf qf, attn_ok B nh Ck Cv Hi Wi Ho Wo quad P kw vw qw ->
  holds2 Np A kf (block Np A (folded_heads nh Ck kw)) -> holds2 Np A vf (block Np A (folded_heads nh Cv vw)) -> holds2 Np A qf (block Np A (folded_heads nh Ck qw)) ->
  forall dyw dyf, shp dyw = [B; Ho; Wo; nh * Cv] -> holds2 Np A dyf (block Np A (folded_heads nh Cv dyw)) ->
  let obj := dist_na_init argsort Np A (na_layer L Hi Wi Ho Wo nh quad P) in let proj := triples kf vf qf in
  forall Gk Gv, (forall p a, p < Np -> a < A -> exists dkl dvl dql tk tv, dist_op_local Np ranks obj proj dyf p a = Some (dkl, dvl, dql) /\ Gk p a = Some tk /\ Gv p a = Some tv /\ teq dkl tk /\ teq dvl tv) ->
  exists dk dv dq, attn_bwd_torch kw vw qw dyw quad (columns P) (offsets 0 P) nh Wi Ho Wo = Some (dk, dv, dq) /\
  holds2 Np A (dist_halo_bwd Np obj (bwd_own ranks obj Gk)) (block Np A (folded_heads nh Ck dk)) /\ holds2 Np A (dist_halo_bwd Np obj (bwd_own ranks obj Gv)) (block Np A (folded_heads nh Cv dv)).
Proof. intros. eapply gpu_exchange; eauto. Qed.
(** Some number lies below all scores, whatever the keys and queries are. *)
Theorem C71_some_minus_infinity : forall B H W Ho Wo C kf qf, exists ninf, scores_above ninf B H W Ho Wo C kf qf.
Proof. exact some_below. Qed.
(** 2 x 2 ranks with two heads, downsampling from 2x4 to 2x2; everything launches, with short rows and with a long one *)
Example C71_case : (forall l, Permutation (down l) (seq 0 (length l)) /\ StronglySorted (fun x y => nth y l 0 <= nth x l 0) (down l)) /\
  attn_ok 1 2 1 2 2 4 2 2 ex_quad ex_P (ex_t [1; 2; 4; 2]) (ex_t [1; 2; 4; 4]) (ex_t [1; 2; 2; 2]) /\ grid_ok 2 4 2 2 2 2 ex_ranks /\ halo_fits ex_P 2 4 2 2 2 /\ 4 mod 2 = 0 /\ shp (ex_t [1; 2; 2; 4]) = [1; 2; 2; 2 * 2].
Proof. exact (conj down_ok (conj ex_gather_ok (conj ex_grid (conj ex_fits (conj eq_refl eq_refl))))). Qed.
Example C71_launches : exists o, ex_obj 0 1 = Some o /\ (forall t, In t [2; 512] -> split_cpu (fun _ => t) (da_row o) (da_roff o) 1 = (0, 0, 3)) /\
  forall n mx md, (n, mx, md) = (1, 3, 0) \/ (n, mx, md) = (0, 0, 3) ->
  forall vec old ninf qn dyn fo bo s, fwd_launches odd_dev vec ninf o 0 1 qn 2 1 2 n mx md s <> None /\ p1_launches odd_dev vec ninf o 0 1 qn dyn 2 1 2 n mx md s <> None /\ p2_launches odd_dev vec old o 0 1 qn dyn 2 1 2 n mx md fo bo s <> None.
Proof. exact ex_launch. Qed.
Print Assumptions C71_forward.
Print Assumptions C71_backward.
Print Assumptions C71_exchange.
Print Assumptions C71_some_minus_infinity.
