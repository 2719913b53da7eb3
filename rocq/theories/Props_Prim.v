(** Property theorems C01-C10: distributed primitives, registry, ring. *)
From Coq Require Import List Arith Lia Bool Reals Lra ZArith Permutation.
From Verif Require Import TensorModel TensorProofs PrimModel PrimSpec PrimProofs PrimProofs2 BigSum
  PrimAutogradModel AdjointProofs HaloProofs DistStateModel DistStateProofs.
From Verif Require Import PrimPropProofs.
Import ListNotations.

(** A concrete global tensor and its shards, used by the examples. *)
Definition exX : tensor R := mkT [2; 5; 7] (fun i => INR (ravel [2; 5; 7] i)).
Lemma ex_shards : forall d, holds 3 (fun r => Some (shard d 3 r exX)) (fun r => shard d 3 r exX).
Proof. intros d r Hr. apply returns_Some; auto. Qed.

(** C01 *)
Theorem C01_raises_iff : forall size n, compute_split_shapes size n = None <-> size < n \/ n = 0.
Proof. exact css_none_iff. Qed.
Print Assumptions C01_raises_iff.
Theorem C01_balanced : forall size n l, compute_split_shapes size n = Some l ->
  length l = n /\ fold_right Nat.add 0 l = size /\ (forall k, In k l -> 1 <= k) /\
  (forall i j, i <= j -> j < n -> nth j l 0 <= nth i l 0 /\ nth i l 0 <= nth j l 0 + 1).
Proof. exact css_balanced. Qed.
Print Assumptions C01_balanced.
Example C01_ex : compute_split_shapes 128 3 = Some [43; 43; 42]. Proof. reflexivity. Qed.

(** C02 *)
Theorem C02_split : forall A n d (x : tensor A) (y : fam (tensor A)),
  1 <= n -> d < ndim x -> n <= dimsz x d -> holds n y (fun _ => x) ->
  holds n (split_ n d y) (fun r => shard d n r x).
Proof. exact split_holds. Qed.
Print Assumptions C02_split.
Theorem C02_split_gather : forall A debug n d (given : bool) (x : tensor A) (y : fam (tensor A)),
  1 <= n -> d < ndim x -> n <= dimsz x d -> holds n y (fun _ => x) ->
  holds n (gather_ debug n d (if given then compute_split_shapes (dimsz x d) n else None) (split_ n d y)) (fun _ => x).
Proof. exact split_gather_id. Qed.
Print Assumptions C02_split_gather.
Theorem C02_gather_split : forall A debug n d (given : bool) (x : tensor A) (y : fam (tensor A)),
  1 <= n -> d < ndim x -> n <= dimsz x d -> holds n y (fun r => shard d n r x) ->
  holds n (split_ n d (gather_ debug n d (if given then compute_split_shapes (dimsz x d) n else None) y))
    (fun r => shard d n r x).
Proof. exact gather_split_id. Qed.
Print Assumptions C02_gather_split.
(** Gathering works for any announced split, not only the balanced one. *)
Theorem C02_gather_any : forall A debug n d sizes (given : bool) (x : tensor A) (y : fam (tensor A)),
  1 <= n -> d < ndim x -> length sizes = n -> sum_list sizes = dimsz x d ->
  holds n y (fun r => shard_by sizes d r x) ->
  holds n (gather_ debug n d (if given then Some sizes else None) y) (fun _ => x).
Proof. exact gather_by. Qed.
Print Assumptions C02_gather_any.
Example C02_ex : holds 3 (gather_ true 3 2 (Some [3; 2; 2]) (split_ 3 2 (fun _ => Some exX))) (fun _ => exX).
Proof.
  apply (C02_split_gather R true 3 2 true exX (fun _ => Some exX)); try (simpl; lia).
  unfold ndim; simpl; lia. unfold dimsz; simpl; lia. intros r Hr; apply returns_Some; auto.
Qed.

(** C03 *)
Theorem C03_transpose : forall A debug n dim0 dim1 sizes (x : tensor A) (y : fam (tensor A)),
  1 <= n -> dim0 <> dim1 -> dim0 < ndim x -> dim1 < ndim x ->
  n <= dimsz x dim0 -> length sizes = n -> sum_list sizes = dimsz x dim1 ->
  holds n y (fun r => shard_by sizes dim1 r x) ->
  holds n (distributed_transpose debug n dim0 dim1 sizes y) (fun r => shard dim0 n r x).
Proof. exact distributed_transpose_by. Qed.
Print Assumptions C03_transpose.
Theorem C03_transpose_back : forall A debug n dim0 dim1 s1 s0 (x : tensor A) (y : fam (tensor A)),
  1 <= n -> dim0 <> dim1 -> dim0 < ndim x -> dim1 < ndim x ->
  compute_split_shapes (dimsz x dim1) n = Some s1 -> compute_split_shapes (dimsz x dim0) n = Some s0 ->
  holds n y (fun r => shard dim1 n r x) ->
  holds n (distributed_transpose debug n dim1 dim0 s0 (distributed_transpose debug n dim0 dim1 s1 y))
    (fun r => shard dim1 n r x).
Proof. exact transpose_back. Qed.
Print Assumptions C03_transpose_back.
Example C03_ex : holds 3 (distributed_transpose true 3 1 2 [3; 2; 2] (fun r => Some (shard 2 3 r exX))) (fun r => shard 1 3 r exX).
Proof.
  apply (distributed_transpose_balanced R true 3 1 2 [3; 2; 2] exX); unfold ndim, dimsz; simpl; auto; try lia.
  apply ex_shards.
Qed.

(** C04 *)
Theorem C04_transpose_adjoint : forall debug n d0 d1 (s : list nat) sizes (x go : nat -> tensor R),
  1 <= n -> d0 <> d1 -> d0 < length s -> d1 < length s ->
  n <= nth d0 s 0 -> compute_split_shapes (nth d1 s 0) n = Some sizes ->
  (forall r, r < n -> shp (x r) = upd d1 (chunk_len (nth d1 s 0) n r) s) ->
  (forall r, r < n -> shp (go r) = upd d0 (chunk_len (nth d0 s 0) n r) s) ->
  exists y dx,
    outs n (distributed_transpose debug n d0 d1 sizes (fun r => Some (x r))) y /\
    outs n (distributed_transpose_bwd debug n d0 d1 (dimsz (x 0) d0) (fun r => Some (go r))) dx /\
    (forall r, r < n -> shp (y r) = shp (go r) /\ shp (dx r) = shp (x r)) /\
    rsum n (fun r => dot (y r) (go r)) = rsum n (fun r => dot (x r) (dx r)).
Proof. exact transpose_adjoint. Qed.
Print Assumptions C04_transpose_adjoint.
Example C04_ex : exists y dx,
    outs 3 (distributed_transpose true 3 1 2 [3; 2; 2] (fun r => Some (shard 2 3 r exX))) y /\
    outs 3 (distributed_transpose_bwd true 3 1 2 5 (fun r => Some (shard 1 3 r exX))) dx /\
    rsum 3 (fun r => dot (y r) (shard 1 3 r exX)) = rsum 3 (fun r => dot (shard 2 3 r exX) (dx r)).
Proof.
  destruct (C04_transpose_adjoint true 3 1 2 [2;5;7] [3;2;2] (fun r => shard 2 3 r exX) (fun r => shard 1 3 r exX))
    as (y & dx & H1 & H2 & _ & H3); simpl; auto; try lia. exists y, dx; auto.
Qed.

(** C05 *)
Theorem C05_roundtrip : forall A (zero : A) (t : tensor A) mn tr, tr <= ndim t ->
  exists p, flatten_and_pad_leading_dims zero t mn tr =
      Some (p, firstn (ndim t - tr) (shp t), prod_list (firstn (ndim t - tr) (shp t))) /\
    returns (unpad_and_unflatten_leading_dims p (firstn (ndim t - tr) (shp t)) (prod_list (firstn (ndim t - tr) (shp t)))) t /\
    mn <= dimsz p 0 /\ skipn 1 (shp p) = skipn (ndim t - tr) (shp t) /\
    (forall k j, valid (shp p) (k :: j) -> prod_list (firstn (ndim t - tr) (shp t)) <= k -> val p (k :: j) = zero).
Proof. exact pad_roundtrip. Qed.
Print Assumptions C05_roundtrip.
Example C05_ex : 2 <= ndim exX. Proof. unfold ndim; simpl; lia. Qed.

(** C06 *)
Theorem C06_reduce_scatter : forall n d (x : fam (tensor R)) (u : nat -> tensor R),
  1 <= n -> d < ndim (u 0) -> n <= dimsz (u 0) d ->
  (forall r, r < n -> shp (u r) = shp (u 0)) -> holds n x u ->
  holds n (rs_fwd n d x) (fun r => shard d n r (mkT (shp (u 0)) (fun i => rsum n (fun s => val (u s) i)))).
Proof. exact rs_sum. Qed.
Print Assumptions C06_reduce_scatter.
Theorem C06_equals_reduce_then_split : forall n d (x : fam (tensor R)) (u : nat -> tensor R),
  1 <= n -> d < ndim (u 0) -> n <= dimsz (u 0) d ->
  (forall r, r < n -> shp (u r) = shp (u 0)) -> holds n x u ->
  exists g, holds n (rs_fwd n d x) g /\ holds n (split_ n d (reduce_fwd n x)) g.
Proof. exact rs_eq_reduce_split. Qed.
Print Assumptions C06_equals_reduce_then_split.
Example C06_ex : holds 3 (rs_fwd 3 2 (fun _ => Some exX)) (fun r => shard 2 3 r (mkT [2;5;7] (fun i => rsum 3 (fun _ => val exX i)))).
Proof.
  apply (C06_reduce_scatter 3 2 (fun _ => Some exX) (fun _ => exX)); unfold ndim, dimsz; simpl; auto; try lia.
  intros r Hr; apply returns_Some; auto.
Qed.

(** C07 *)
Theorem C07_copy : forall n (x : tensor R) (go : nat -> tensor R),
  1 <= n -> (forall r, r < n -> shp (go r) = shp x) ->
  exists y dx, outs n (copy_fwd n (fun _ => Some x)) y /\ outs n (copy_bwd n (fun r => Some (go r))) dx /\
    forall r, r < n -> shp (dx r) = shp x /\ rsum n (fun s => dot (y s) (go s)) = dot x (dx r).
Proof. exact copy_adjoint. Qed.
Print Assumptions C07_copy.
Theorem C07_reduce : forall n (x : nat -> tensor R) (g : tensor R),
  1 <= n -> (forall r, r < n -> shp (x r) = shp g) ->
  exists y dx, outs n (reduce_fwd n (fun r => Some (x r))) y /\ outs n (reduce_bwd n (fun r => Some g)) dx /\
    forall r, r < n -> shp (y r) = shp g /\ dot (y r) g = rsum n (fun s => dot (x s) (dx s)).
Proof. exact reduce_adjoint. Qed.
Print Assumptions C07_reduce.
Theorem C07_scatter : forall debug n d (x : tensor R) (go : nat -> tensor R),
  1 <= n -> d < ndim x -> n <= dimsz x d ->
  (forall r, r < n -> shp (go r) = upd d (chunk_len (dimsz x d) n r) (shp x)) ->
  exists y dx, outs n (scatter_fwd n d (fun _ => Some x)) y /\
    outs n (scatter_bwd debug n d (dimsz x d) (fun r => Some (go r))) dx /\
    forall r, r < n -> shp (dx r) = shp x /\ rsum n (fun s => dot (y s) (go s)) = dot x (dx r).
Proof. exact scatter_adjoint. Qed.
Print Assumptions C07_scatter.
Theorem C07_gather : forall debug n d given (s : list nat) (x : nat -> tensor R) (g : tensor R),
  1 <= n -> d < length s -> n <= nth d s 0 -> shp g = s ->
  (forall r, r < n -> shp (x r) = upd d (chunk_len (nth d s 0) n r) s) ->
  exists y dx,
    outs n (gather_fwd debug n d (if given : bool then compute_split_shapes (nth d s 0) n else None) (fun r => Some (x r))) y /\
    outs n (gather_bwd n d (fun _ => Some g)) dx /\
    forall r, r < n -> shp (y r) = s /\ shp (dx r) = shp (x r) /\ dot (y r) g = rsum n (fun q => dot (x q) (dx q)).
Proof. exact gather_adjoint. Qed.
Print Assumptions C07_gather.
Theorem C07_reduce_scatter : forall debug n d (s : list nat) (x go : nat -> tensor R),
  1 <= n -> d < length s -> n <= nth d s 0 ->
  (forall r, r < n -> shp (x r) = s) ->
  (forall r, r < n -> shp (go r) = upd d (chunk_len (nth d s 0) n r) s) ->
  exists y dx, outs n (rs_fwd n d (fun r => Some (x r))) y /\
    outs n (rs_bwd debug n d (nth d s 0) (fun r => Some (go r))) dx /\
    (forall r, r < n -> shp (y r) = shp (go r) /\ shp (dx r) = s) /\
    rsum n (fun r => dot (y r) (go r)) = rsum n (fun r => dot (x r) (dx r)).
Proof. exact rs_adjoint. Qed.
Print Assumptions C07_reduce_scatter.
Theorem C07_gather_from_copy : forall debug n d given (s : list nat) (x go : nat -> tensor R),
  1 <= n -> d < length s -> n <= nth d s 0 ->
  (forall r, r < n -> shp (go r) = s) ->
  (forall r, r < n -> shp (x r) = upd d (chunk_len (nth d s 0) n r) s) ->
  exists y dx,
    outs n (gfc_fwd debug n d (if given : bool then compute_split_shapes (nth d s 0) n else None) (fun r => Some (x r))) y /\
    outs n (gfc_bwd n d (fun r => Some (go r))) dx /\
    (forall r, r < n -> shp (y r) = s /\ shp (dx r) = shp (x r)) /\
    rsum n (fun r => dot (y r) (go r)) = rsum n (fun r => dot (x r) (dx r)).
Proof. exact gfc_adjoint. Qed.
Print Assumptions C07_gather_from_copy.
Example C07_ex : forall r, r < 3 -> shp (shard 2 3 r exX) = upd 2 (chunk_len (nth 2 [2;5;7] 0) 3 r) [2;5;7].
Proof. reflexivity. Qed.

(** C08 *)
Theorem C08_halo_forward : forall n rl (X : tensor R) (x : fam (tensor R)),
  1 <= n -> ndim X = 4 -> n <= dimsz X 2 -> 1 <= rl ->
  (forall r, r < n -> rl <= chunk_len (dimsz X 2) n r) ->
  holds n x (fun r => shard 2 n r X) ->
  holds n (halo_fwd n rl x)
    (fun r => narrow 2 (chunk_lo (dimsz X 2) n r) (rl + chunk_len (dimsz X 2) n r + rl) (zero_pad 0%R 2 rl X)).
Proof. exact halo_forward. Qed.
Print Assumptions C08_halo_forward.
Theorem C08_halo_adjoint : forall n rl s len (x go : nat -> tensor R), length s = 4 -> 1 <= rl ->
  (forall r, r < n -> rl <= len r) ->
  (forall r, r < n -> shp (x r) = upd 2 (len r) s) ->
  (forall r, r < n -> shp (go r) = upd 2 (rl + len r + rl) s) ->
  exists y dx, outs n (halo_fwd n rl (fun r => Some (x r))) y /\
    outs n (halo_bwd n rl len (fun r => Some (go r))) dx /\
    (forall r, r < n -> shp (y r) = shp (go r) /\ shp (dx r) = shp (x r)) /\
    rsum n (fun r => dot (y r) (go r)) = rsum n (fun r => dot (x r) (dx r)).
Proof. exact halo_adjoint. Qed.
Print Assumptions C08_halo_adjoint.
(** The exchange does not work for r_lat = 0 (Python's x[-0:] is the whole
    shard) nor for a halo wider than the neighbour's shard. *)
Theorem C08_halo_zero_refuted : forall n (x : nat -> tensor R) r, 0 < r -> r < n ->
  ndim (x (r - 1)) = 4 -> ndim (x r) = 4 -> 0 < dimsz (x (r - 1)) 2 ->
  halo_fwd n 0 (fun q => Some (x q)) r = None.
Proof. exact halo_zero_fails. Qed.
Print Assumptions C08_halo_zero_refuted.
Theorem C08_halo_too_wide_refuted : forall n rl (x : nat -> tensor R) r, 0 < r -> r < n -> 1 <= rl ->
  ndim (x (r - 1)) = 4 -> ndim (x r) = 4 -> dimsz (x (r - 1)) 2 < rl ->
  halo_fwd n rl (fun q => Some (x q)) r = None.
Proof. exact halo_too_wide_fails. Qed.
Print Assumptions C08_halo_too_wide_refuted.
Definition exH : tensor R := mkT [1; 2; 7; 3] (fun i => INR (ravel [1; 2; 7; 3] i)).
Example C08_ex : holds 3 (halo_fwd 3 2 (fun r => Some (shard 2 3 r exH)))
   (fun r => narrow 2 (chunk_lo 7 3 r) (2 + chunk_len 7 3 r + 2) (zero_pad 0%R 2 2 exH)).
Proof.
  apply (C08_halo_forward 3 2 exH); unfold ndim, dimsz; simpl; auto; try lia.
  - intros r Hr. destruct r as [|[|[|]]]; try lia; vm_compute; lia.
  - intros r Hr. apply returns_Some; auto.
Qed.

(** C09 *)
Theorem C09_neighbors : forall ranks r me, NoDup ranks -> nth_error ranks r = Some me ->
  exists p q, get_group_neighbors ranks me = Some (p, q) /\
    nth_error ranks ((r + length ranks - 1) mod length ranks) = Some p /\
    nth_error ranks ((r + 1) mod length ranks) = Some q.
Proof. exact neighbors_spec. Qed.
Print Assumptions C09_neighbors.
Theorem C09_ring_schedule : forall B (width : B -> nat) ranks widths (c : nat -> B), NoDup ranks ->
  length widths = length ranks -> (forall r, r < length ranks -> nth_error widths r = Some (width (c r))) ->
  forall r, r < length ranks ->
  ring width ranks widths (fun q => Some (c q)) r =
    Some (map (fun s => ((r + s) mod length ranks, c ((r + s) mod length ranks))) (seq 0 (length ranks))).
Proof. exact ring_spec. Qed.
Print Assumptions C09_ring_schedule.
Theorem C09_ring_visits_once : forall B (width : B -> nat) ranks widths (c : nat -> B), NoDup ranks ->
  length widths = length ranks -> (forall r, r < length ranks -> nth_error widths r = Some (width (c r))) ->
  forall r, r < length ranks -> exists l,
  ring width ranks widths (fun q => Some (c q)) r = Some l /\
  Permutation l (map (fun q => (q, c q)) (seq 0 (length ranks))).
Proof. exact ring_visits_once. Qed.
Print Assumptions C09_ring_visits_once.
Example C09_ex : ring (fun c : nat => c) [4; 7; 2] [3; 3; 2] (fun q => nth_error [3; 3; 2] q) 1 = Some [(1, 3); (2, 2); (0, 3)].
Proof. reflexivity. Qed.

(** C10 *)
Theorem C10_last_call_decides : forall h, fst (run h reg0) = false ->
  let s := snd (run h reg0) in
  match rev h with
  | [] => is_initialized s = false /\ polar s = None /\ azimuth s = None
  | CInit p a :: _ => is_initialized s = true /\ polar s = p /\ azimuth s = a
  | CFinalize :: _ => is_initialized s = false /\ polar s = None /\ azimuth s = None
  end.
Proof. exact registry_last_call. Qed.
Print Assumptions C10_last_call_decides.
Theorem C10_sizes_after_finalize : forall h me, fst (run (h ++ [CFinalize]) reg0) = false ->
  let s := snd (run (h ++ [CFinalize]) reg0) in
  is_initialized s = false /\ polar_group_size me s = 1%Z /\ azimuth_group_size me s = 1%Z /\
  polar_group_rank me s = 0%Z /\ azimuth_group_rank me s = 0%Z.
Proof. exact sizes_after_finalize. Qed.
Print Assumptions C10_sizes_after_finalize.
Theorem C10_sizes_after_init : forall h me p a i j,
  nth_error (granks p) i = Some me -> nth_error (granks a) j = Some me -> NoDup (granks p) -> NoDup (granks a) ->
  let s := snd (run (h ++ [CInit (Some p) (Some a)]) reg0) in
  is_initialized s = true /\ polar_group_size me s = Z.of_nat (length (granks p)) /\
  azimuth_group_size me s = Z.of_nat (length (granks a)) /\
  polar_group_rank me s = Z.of_nat i /\ azimuth_group_rank me s = Z.of_nat j.
Proof. exact sizes_after_init. Qed.
Print Assumptions C10_sizes_after_init.
Theorem C10_finalize_raises_iff : forall s, fst (finalize s) = true <->
  inited s = true /\
  ((exists g, polar s = Some g /\ In (gid g) (destroyed s)) \/
   (exists g, azimuth s = Some g /\ In (gid g) (destroyed s)) \/
   (exists g g', polar s = Some g /\ azimuth s = Some g' /\ gid g = gid g')).
Proof. exact finalize_raises_iff. Qed.
Print Assumptions C10_finalize_raises_iff.
Theorem C10_finalize_uninit_noop : forall h, fst (run h reg0) = false ->
  is_initialized (snd (run h reg0)) = false -> finalize (snd (run h reg0)) = (false, snd (run h reg0)).
Proof. exact finalize_uninit_noop. Qed.
Print Assumptions C10_finalize_uninit_noop.
(** Every group handed to an init whose matching finalize returned normally is destroyed. *)
Theorem C10_finalize_destroys : forall h p a, fst (run (h ++ [CInit (Some p) (Some a); CFinalize]) reg0) = false ->
  let s := snd (run (h ++ [CInit (Some p) (Some a); CFinalize]) reg0) in
  In (gid p) (destroyed s) /\ In (gid a) (destroyed s).
Proof. exact finalize_destroys. Qed.
Print Assumptions C10_finalize_destroys.
(** Finding: a second init without finalize loses the first pair of groups: they are never destroyed. *)
Theorem C10_reinit_leaks_refuted : exists h p a,
  In (CInit (Some p) (Some a)) h /\ fst (run h reg0) = false /\ is_initialized (snd (run h reg0)) = false /\
  ~ In (gid p) (destroyed (snd (run h reg0))).
Proof. exact reinit_leaks. Qed.
Print Assumptions C10_reinit_leaks_refuted.
Example C10_ex : fst (run [CInit (Some (mkG 1 [0;2])) (Some (mkG 2 [0;1])); CFinalize; CFinalize] reg0) = false.
Proof. reflexivity. Qed.
