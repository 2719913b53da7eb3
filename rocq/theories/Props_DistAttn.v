(** C18: neighbourhood attention on a grid of ranks. *)
From Coq Require Import List Arith Lia Bool ZArith Reals Permutation.
From Verif Require Import TensorModel PrimModel PrimSpec DistSHTModel DistSHTProofs AttnModel AttnLayerModel AttnSpec AttnLayerSpec AttnLayerProofs AttnExProofs
  DistStateModel DistAttnModel DistAttnSpec DistAttnProofs5.
Import ListNotations.
Local Open Scope nat_scope.

(** every rank ends up with its block of the serial layer's output, in both directions *)
Theorem C18_equals_serial : forall argsort eps L B Ci Ck Cv nh Co Hi Wi Ho Wo quad P Np A ranks,
  weights_ok L Ci Ck Cv nh Co -> (forall l, Permutation (argsort l) (seq 0 (length l))) -> grid_ok Hi Wi Ho Wo Np A ranks ->
  forall k v q kf vf qf, na_ok B Ci nh Ck Cv Hi Wi Ho Wo quad P k v q ->
  holds2 Np A kf (fun p a => shard 2 Np p (shard 3 A a k)) -> holds2 Np A vf (fun p a => shard 2 Np p (shard 3 A a v)) -> holds2 Np A qf (fun p a => shard 2 Np p (shard 3 A a q)) ->
  forall op, library_op op -> halo_fits P Hi Wi Ho Wo Np ->
  exists y, na_forward op eps (na_layer L Hi Wi Ho Wo nh quad P) q (Some k) (Some v) = Some y /\
    holds2 Np A (dist_na_forward eps Np ranks (dist_na_init argsort Np A (na_layer L Hi Wi Ho Wo nh quad P)) qf (Some kf) (Some vf)) (fun p a => shard 2 Np p (shard 3 A a y)).
Proof. exact dist_equals_serial. Qed.
(** self-attention: keys and values default to the queries *)
Theorem C18_self_attention : forall argsort eps L B Ci Ck Cv nh Co Hi Wi Ho Wo quad P Np A ranks,
  weights_ok L Ci Ck Cv nh Co -> (forall l, Permutation (argsort l) (seq 0 (length l))) -> grid_ok Hi Wi Ho Wo Np A ranks ->
  forall q qf op, na_ok B Ci nh Ck Cv Hi Wi Ho Wo quad P q q q -> holds2 Np A qf (fun p a => shard 2 Np p (shard 3 A a q)) ->
  library_op op -> halo_fits P Hi Wi Ho Wo Np ->
  exists y, na_forward op eps (na_layer L Hi Wi Ho Wo nh quad P) q None None = Some y /\
    holds2 Np A (dist_na_forward eps Np ranks (dist_na_init argsort Np A (na_layer L Hi Wi Ho Wo nh quad P)) qf None None) (fun p a => shard 2 Np p (shard 3 A a y)).
Proof. exact dist_self. Qed.
(** the pass completes on every rank exactly if no shard is shorter than the neighbourhoods'
    reach across it *)
Theorem C18_runs_iff_halo_fits : forall argsort eps L B Ci Ck Cv nh Co Hi Wi Ho Wo quad P Np A ranks,
  weights_ok L Ci Ck Cv nh Co -> (forall l, Permutation (argsort l) (seq 0 (length l))) -> grid_ok Hi Wi Ho Wo Np A ranks ->
  forall k v q kf vf qf, na_ok B Ci nh Ck Cv Hi Wi Ho Wo quad P k v q ->
  holds2 Np A kf (fun p a => shard 2 Np p (shard 3 A a k)) -> holds2 Np A vf (fun p a => shard 2 Np p (shard 3 A a v)) -> holds2 Np A qf (fun p a => shard 2 Np p (shard 3 A a q)) ->
  (forall p a, p < Np -> a < A -> exists y, dist_na_forward eps Np ranks (dist_na_init argsort Np A (na_layer L Hi Wi Ho Wo nh quad P)) qf (Some kf) (Some vf) p a = Some y)
    <-> halo_fits P Hi Wi Ho Wo Np.
Proof. exact runs_iff_fits. Qed.
(** the halo radius every rank computes is the least sufficient one *)
Theorem C18_radius_exact : forall argsort L B Ci Ck Cv nh Hi Wi Ho Wo quad P Np A ranks,
  (forall l, Permutation (argsort l) (seq 0 (length l))) -> grid_ok Hi Wi Ho Wo Np A ranks ->
  forall k v q p a o, na_ok B Ci nh Ck Cv Hi Wi Ho Wo quad P k v q -> p < Np -> a < A -> dist_na_init argsort Np A (na_layer L Hi Wi Ho Wo nh quad P) p a = Some o ->
  radius_suffices P Hi Wi Ho Wo Np (da_r_lat o) /\ forall R, radius_suffices P Hi Wi Ho Wo Np R -> da_r_lat o <= R.
Proof. exact radius_exact. Qed.
(** the constructor accepts exactly the splits with one ratio of widths on all ranks *)
Theorem C18_constructor_decides : forall argsort P A L p a, 1 <= P -> P <= na_Hi L -> P <= na_Ho L -> 1 <= A -> A <= na_Wi L -> A <= na_Wo L ->
  (na_Wi L mod na_Wo L = 0 \/ na_Wo L mod na_Wi L = 0) ->
  (exists o, dist_na_init argsort P A L p a = Some o) <-> same_ratio (na_Wi L) (na_Wo L) A.
Proof. exact init_iff. Qed.
(** widths divisible by the number of azimuth ranks qualify; merely dividing each other is not enough *)
Theorem C18_even_splits : forall Wi Wo A, 1 <= A -> 1 <= Wi -> 1 <= Wo -> Wi mod A = 0 -> Wo mod A = 0 -> (Wi mod Wo = 0 \/ Wo mod Wi = 0) -> same_ratio Wi Wo A.
Proof. exact even_split_ok. Qed.
Theorem C18_uneven_split_refuted : exists Wi Wo A, 1 <= A /\ A <= Wo /\ Wi mod Wo = 0 /\ ~ same_ratio Wi Wo A.
Proof. exists 12, 4, 3. split; [lia|]. split; [lia|]. split; [reflexivity|]. exact ex_uneven. Qed.
(** the kernels may work on the visited chunks in any order *)
Theorem C18_any_order : forall argsort eps L B Ci Ck Cv nh Co Hi Wi Ho Wo quad P Np A ranks,
  weights_ok L Ci Ck Cv nh Co -> (forall l, Permutation (argsort l) (seq 0 (length l))) -> grid_ok Hi Wi Ho Wo Np A ranks ->
  forall k v q kf vf qf, na_ok B Ci nh Ck Cv Hi Wi Ho Wo quad P k v q ->
  holds2 Np A kf (fun p a => shard 2 Np p (shard 3 A a k)) -> holds2 Np A vf (fun p a => shard 2 Np p (shard 3 A a v)) -> holds2 Np A qf (fun p a => shard 2 Np p (shard 3 A a q)) ->
  let obj := dist_na_init argsort Np A (na_layer L Hi Wi Ho Wo nh quad P) in
  forall p a o x visits visits', halo_fits P Hi Wi Ho Wo Np -> p < Np -> a < A -> obj p a = Some o -> dist_proj eps obj qf kf vf p a = Some x ->
  dist_visits ranks (dist_chunk Np obj (dist_proj eps obj qf kf vf)) p a o = Some visits -> Permutation visits visits' ->
  exists out out', ring_output o p a visits (snd x) = Some out /\ ring_output o p a visits' (snd x) = Some out' /\ teq out' out.
Proof. exact any_order. Qed.

Print Assumptions C18_equals_serial.
Print Assumptions C18_self_attention.
Print Assumptions C18_runs_iff_halo_fits.
Print Assumptions C18_radius_exact.
Print Assumptions C18_constructor_decides.
Print Assumptions C18_even_splits.
Print Assumptions C18_uneven_split_refuted.
Print Assumptions C18_any_order.

(** 2 x 2 ranks, downsampling from 2x4 to 2x2 with two heads; one halo row on one-row shards *)
Example C18_gather_case : weights_ok ex_W 3 1 2 2 5 /\ na_ok 1 3 2 1 2 2 4 2 2 ex_quad ex_P (ex_t [1;3;2;4]) (ex_t [1;3;2;4]) (ex_t [1;3;2;2]) /\
  grid_ok 2 4 2 2 2 2 ex_ranks /\ halo_fits ex_P 2 4 2 2 2.
Proof. exact (conj ex_W_ok (conj ex_na_ok (conj ex_grid ex_fits))). Qed.
Example C18_scatter_case : na_ok 1 3 2 1 2 2 2 2 4 ex_quad ex_P2 (ex_t [1;3;2;2]) (ex_t [1;3;2;2]) (ex_t [1;3;2;4]) /\
  grid_ok 2 2 2 4 2 2 ex_ranks /\ halo_fits ex_P2 2 2 2 4 2.
Proof. exact (conj ex_up_na_ok (conj ex_up_grid ex_up_fits)). Qed.
Example C18_shards : holds2 2 2 (fun p a => Some (shard 2 2 p (shard 3 2 a (ex_t [1;3;2;4])))) (fun p a => shard 2 2 p (shard 3 2 a (ex_t [1;3;2;4]))).
Proof. intros p a _ _. eexists. split; [reflexivity|]. split; reflexivity. Qed.
Example C18_wide_case : ~ halo_fits [[0; 1; 2]; [1]; [2]] 3 1 3 1 3.
Proof. exact ex_wide. Qed.
