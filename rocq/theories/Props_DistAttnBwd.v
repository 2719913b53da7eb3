(** C55: gradients of neighbourhood attention on a grid of ranks. *)
From Coq Require Import List Arith Lia Bool ZArith Reals Permutation.
From Coquelicot Require Import Coquelicot.
From Verif Require Import TensorModel PrimModel PrimSpec DistSHTModel DistSHTProofs AttnModel AttnLayerModel AttnSpec AttnLayerSpec AttnLayerProofs AttnExProofs
  DistStateModel DistAttnModel DistAttnSpec DistAttnProofs5 DistAttnBwdModel DistAttnBwdSpec DistAttnBwdProofs4.
Import ListNotations.
Local Open Scope nat_scope.

(** every rank ends up with its block of the serial gradients of keys, values and queries *)
Theorem C55_equals_serial : forall argsort L B Ck Cv nh Hi Wi Ho Wo quad P Np A ranks,
  (forall l, Permutation (argsort l) (seq 0 (length l))) -> grid_ok Hi Wi Ho Wo Np A ranks -> halo_fits P Hi Wi Ho Wo Np ->
  forall kw vw qw dyw kf vf qf dyf, attn_ok B nh Ck Cv Hi Wi Ho Wo quad P kw vw qw -> shp dyw = [B; Ho; Wo; nh * Cv] ->
  holds2 Np A kf (block Np A (folded_heads nh Ck kw)) -> holds2 Np A vf (block Np A (folded_heads nh Cv vw)) -> holds2 Np A qf (block Np A (folded_heads nh Ck qw)) ->
  holds2 Np A dyf (block Np A (folded_heads nh Cv dyw)) ->
  exists dk dv dq, attn_bwd_torch kw vw qw dyw quad (columns P) (offsets 0 P) nh Wi Ho Wo = Some (dk, dv, dq) /\
  let g := dist_op_bwd Np ranks (dist_na_init argsort Np A (na_layer L Hi Wi Ho Wo nh quad P)) (triples kf vf qf) dyf in
  holds2 Np A (fst (fst g)) (block Np A (folded_heads nh Ck dk)) /\ holds2 Np A (snd (fst g)) (block Np A (folded_heads nh Cv dv)) /\
  holds2 Np A (snd g) (block Np A (folded_heads nh Ck dq)).
Proof.
  intros argsort L B Ck Cv nh Hi Wi Ho Wo quad P Np A ranks HArg HG HF kw vw qw dyw kf vf qf dyf OK Sd Hk Hv Hq Hd.
  destruct (op_bwd argsort L B Ck Cv nh Hi Wi Ho Wo quad P Np A ranks HArg HG HF kw vw qw kf vf qf OK Hk Hv Hq dyw dyf Sd Hd) as (dk & dv & dq & E & _ & G). exists dk, dv, dq. split; [exact E|exact G].
Qed.
(** the forward operation it is the backward pass of *)
Theorem C55_forward : forall argsort L B Ck Cv nh Hi Wi Ho Wo quad P Np A ranks,
  (forall l, Permutation (argsort l) (seq 0 (length l))) -> grid_ok Hi Wi Ho Wo Np A ranks -> halo_fits P Hi Wi Ho Wo Np ->
  forall kw vw qw kf vf qf, attn_ok B nh Ck Cv Hi Wi Ho Wo quad P kw vw qw ->
  holds2 Np A kf (block Np A (folded_heads nh Ck kw)) -> holds2 Np A vf (block Np A (folded_heads nh Cv vw)) -> holds2 Np A qf (block Np A (folded_heads nh Ck qw)) ->
  exists y, attn_torch kw vw qw quad (columns P) (offsets 0 P) nh Wi Ho Wo = Some y /\
  holds2 Np A (dist_op Np ranks (dist_na_init argsort Np A (na_layer L Hi Wi Ho Wo nh quad P)) (triples kf vf qf)) (block Np A (folded_heads nh Cv y)).
Proof.
  intros argsort L B Ck Cv nh Hi Wi Ho Wo quad P Np A ranks HArg HG HF kw vw qw kf vf qf OK Hk Hv Hq.
  destruct (op_fwd argsort L B Ck Cv nh Hi Wi Ho Wo quad P Np A ranks HArg HG HF kw vw qw kf vf qf OK Hk Hv Hq) as (y & E & _ & G). exists y. auto.
Qed.
(** the same gradients as directional derivatives of the distributed forward pass, with the
    inner product summed over all ranks *)
Theorem C55_gradients : forall argsort L B Ck Cv nh Hi Wi Ho Wo quad P Np A ranks,
  (forall l, Permutation (argsort l) (seq 0 (length l))) -> grid_ok Hi Wi Ho Wo Np A ranks -> halo_fits P Hi Wi Ho Wo Np ->
  forall kw vw qw dyw, attn_ok B nh Ck Cv Hi Wi Ho Wo quad P kw vw qw -> shp dyw = [B; Ho; Wo; nh * Cv] ->
  let obj := dist_na_init argsort Np A (na_layer L Hi Wi Ho Wo nh quad P) in
  let inputs := fun k v q => triples (given (block Np A (folded_heads nh Ck k))) (given (block Np A (folded_heads nh Cv v))) (given (block Np A (folded_heads nh Ck q))) in
  let g := dist_op_bwd Np ranks obj (inputs kw vw qw) (given (block Np A (folded_heads nh Cv dyw))) in
  exists dk dv dq, (forall p a, p < Np -> a < A -> fst (fst g) p a = Some (dk p a) /\ snd (fst g) p a = Some (dv p a) /\ snd g p a = Some (dq p a)) /\
  forall k' v' q', shp k' = shp kw -> shp v' = shp vw -> shp q' = shp qw -> exists yt,
    (forall t p a, p < Np -> a < A -> dist_op Np ranks obj (inputs (along kw k' t) (along vw v' t) (along qw q' t)) p a = Some (yt t p a)) /\
    is_derive (fun t => rank_dot Np A (block Np A (folded_heads nh Cv dyw)) (yt t)) 0%R
      (rank_dot Np A dk (block Np A (folded_heads nh Ck k')) + rank_dot Np A dv (block Np A (folded_heads nh Cv v')) + rank_dot Np A dq (block Np A (folded_heads nh Ck q')))%R.
Proof. exact dist_gradients. Qed.
(** the layer's forward pass is this operation between its projections *)
Theorem C55_layer : forall eps P ranks obj qf kf vf p a, dist_na_forward eps P ranks obj qf (Some kf) (Some vf) p a =
  (do o <- obj p a; do out <- dist_op P ranks obj (dist_proj eps obj qf kf vf) p a;
   do out <- reshape [dimsz out 0 / na_nh (da_L o); na_nh (da_L o) * dimsz out 1; dimsz out 2; dimsz out 3] out; conv1x1 (na_p (da_L o)) (na_pb (da_L o)) out).
Proof. exact forward_op. Qed.

Print Assumptions C55_equals_serial.
Print Assumptions C55_forward.
Print Assumptions C55_gradients.
Print Assumptions C55_layer.

(** 2 x 2 ranks with two heads: downsampling from 2x4 to 2x2, and upsampling back *)
Example C55_gather_case : attn_ok 1 2 1 2 2 4 2 2 ex_quad ex_P (ex_t [1; 2; 4; 2]) (ex_t [1; 2; 4; 4]) (ex_t [1; 2; 2; 2]) /\
  grid_ok 2 4 2 2 2 2 ex_ranks /\ halo_fits ex_P 2 4 2 2 2 /\ shp (ex_t [1; 2; 2; 4]) = [1; 2; 2; 2 * 2].
Proof. exact (conj ex_gather_ok (conj ex_grid (conj ex_fits eq_refl))). Qed.
Example C55_scatter_case : attn_ok 1 2 1 2 2 2 2 4 ex_quad ex_P2 (ex_t [1; 2; 2; 2]) (ex_t [1; 2; 2; 4]) (ex_t [1; 2; 4; 2]) /\
  grid_ok 2 2 2 4 2 2 ex_ranks /\ halo_fits ex_P2 2 2 2 4 2 /\ shp (ex_t [1; 2; 4; 4]) = [1; 2; 4; 2 * 2].
Proof. exact (conj ex_up_ok (conj ex_up_grid (conj ex_up_fits eq_refl))). Qed.
