(** Corollaries used by Props_Prim. *)
From Coq Require Import List Arith Lia Bool Reals Lra ZArith Permutation.
From Verif Require Import TensorModel TensorProofs PrimModel PrimSpec PrimProofs PrimProofs2 BigSum
  PrimAutogradModel AdjointProofs HaloProofs DistStateModel DistStateProofs.
Import ListNotations.

Lemma css_none_iff : forall size n, compute_split_shapes size n = None <-> size < n \/ n = 0.
Proof.
  intros. unfold compute_split_shapes. destruct (Nat.leb_spec n size); simpl.
  - destruct (Nat.eqb_spec n 0); simpl; split; auto; try discriminate; lia.
  - split; auto.
Qed.
Lemma css_balanced : forall size n l, compute_split_shapes size n = Some l ->
  length l = n /\ fold_right Nat.add 0 l = size /\ (forall k, In k l -> 1 <= k) /\
  (forall i j, i <= j -> j < n -> nth j l 0 <= nth i l 0 /\ nth i l 0 <= nth j l 0 + 1).
Proof.
  intros size n l H. destruct (css_inv _ _ _ H) as (Hn & Hs & ->).
  split. apply bal_length; auto. split. apply bal_sum; auto. split.
  - intros k Hk. apply In_nth with (d := 0) in Hk. destruct Hk as (r & Hr & <-). rewrite bal_length in Hr by auto.
    rewrite bal_nth by auto. assert (1 <= size / n). { apply Nat.div_le_lower_bound; lia. } lia.
  - intros i j Hij Hj. rewrite !bal_nth by lia.
    destruct (Nat.ltb_spec i (size mod n)); destruct (Nat.ltb_spec j (size mod n)); lia.
Qed.

Lemma split_gather_id : forall A debug n d (given : bool) (x : tensor A) (y : fam (tensor A)),
  1 <= n -> d < ndim x -> n <= dimsz x d -> holds n y (fun _ => x) ->
  holds n (gather_ debug n d (if given then compute_split_shapes (dimsz x d) n else None) (split_ n d y)) (fun _ => x).
Proof.
  intros A debug n d given x y Hn Hd Hs Hy. rewrite css_some by auto.
  apply (gather_by A debug n d (bal (dimsz x d) n) given x); auto using bal_length, bal_sum.
  intros r Hr. rewrite <- shard_bal by auto. apply split_holds; auto.
Qed.
Lemma gather_split_id : forall A debug n d (given : bool) (x : tensor A) (y : fam (tensor A)),
  1 <= n -> d < ndim x -> n <= dimsz x d -> holds n y (fun r => shard d n r x) ->
  holds n (split_ n d (gather_ debug n d (if given then compute_split_shapes (dimsz x d) n else None) y))
    (fun r => shard d n r x).
Proof.
  intros A debug n d given x y Hn Hd Hs Hy. apply split_holds; auto. rewrite css_some by auto.
  apply (gather_by A debug n d (bal (dimsz x d) n) given x); auto using bal_length, bal_sum.
  intros r Hr. rewrite <- shard_bal by auto. apply Hy; auto.
Qed.
Lemma transpose_back : forall A debug n dim0 dim1 s1 s0 (x : tensor A) (y : fam (tensor A)),
  1 <= n -> dim0 <> dim1 -> dim0 < ndim x -> dim1 < ndim x ->
  compute_split_shapes (dimsz x dim1) n = Some s1 -> compute_split_shapes (dimsz x dim0) n = Some s0 ->
  holds n y (fun r => shard dim1 n r x) ->
  holds n (distributed_transpose debug n dim1 dim0 s0 (distributed_transpose debug n dim0 dim1 s1 y))
    (fun r => shard dim1 n r x).
Proof.
  intros A debug n dim0 dim1 s1 s0 x y Hn Hne H0 H1 E1 E0 Hy.
  destruct (css_inv _ _ _ E1) as (_ & L1 & _). destruct (css_inv _ _ _ E0) as (_ & L0 & _).
  apply distributed_transpose_balanced; auto. apply distributed_transpose_balanced; auto.
Qed.
Lemma pad_roundtrip : forall A (zero : A) (t : tensor A) mn tr, tr <= ndim t ->
  exists p, flatten_and_pad_leading_dims zero t mn tr =
      Some (p, firstn (ndim t - tr) (shp t), prod_list (firstn (ndim t - tr) (shp t))) /\
    returns (unpad_and_unflatten_leading_dims p (firstn (ndim t - tr) (shp t)) (prod_list (firstn (ndim t - tr) (shp t)))) t /\
    mn <= dimsz p 0 /\ skipn 1 (shp p) = skipn (ndim t - tr) (shp t) /\
    (forall k j, valid (shp p) (k :: j) -> prod_list (firstn (ndim t - tr) (shp t)) <= k -> val p (k :: j) = zero).
Proof.
  intros A zero t mn tr H. destruct (flatten_pad_spec A zero t mn tr H) as (p & E & Es & Ev).
  exists p. split; auto. split. eapply flatten_unflatten; eauto. split.
  unfold dimsz. rewrite Es. simpl. lia. split. rewrite Es; auto.
  intros k j Hk Hge. rewrite Ev by auto. destruct (Nat.ltb_spec k (prod_list (firstn (ndim t - tr) (shp t)))); auto; lia.
Qed.

Lemma tsum_rsum : forall n u, teq (tsum 0%R Rplus n u) (mkT (shp (u 0)) (fun i => rsum n (fun s => val (u s) i))).
Proof. intros. split; auto. intros i Hi. simpl. apply fsum_rsum. Qed.
Lemma rs_sum : forall n d (x : fam (tensor R)) (u : nat -> tensor R),
  1 <= n -> d < ndim (u 0) -> n <= dimsz (u 0) d ->
  (forall r, r < n -> shp (u r) = shp (u 0)) -> holds n x u ->
  holds n (rs_fwd n d x) (fun r => shard d n r (mkT (shp (u 0)) (fun i => rsum n (fun s => val (u s) i)))).
Proof.
  intros n d x u Hn Hd Hs Hsh Hx r Hr. eapply returns_teq.
  apply (reduce_scatter_holds 0%R Rplus Rplus_0_r n d x u); auto.
  apply shard_proper; auto. apply tsum_rsum.
Qed.
Lemma rs_eq_reduce_split : forall n d (x : fam (tensor R)) (u : nat -> tensor R),
  1 <= n -> d < ndim (u 0) -> n <= dimsz (u 0) d ->
  (forall r, r < n -> shp (u r) = shp (u 0)) -> holds n x u ->
  exists g, holds n (rs_fwd n d x) g /\ holds n (split_ n d (reduce_fwd n x)) g.
Proof.
  intros n d x u Hn Hd Hs Hsh Hx. exists (fun r => shard d n r (tsum 0%R Rplus n u)). split.
  - apply (reduce_scatter_holds 0%R Rplus Rplus_0_r n d x u); auto.
  - apply split_holds; auto. apply (reduce_holds 0%R Rplus Rplus_0_r); auto.
Qed.

Lemma sizes_after_finalize : forall h me, fst (run (h ++ [CFinalize]) reg0) = false ->
  let s := snd (run (h ++ [CFinalize]) reg0) in
  is_initialized s = false /\ polar_group_size me s = 1%Z /\ azimuth_group_size me s = 1%Z /\
  polar_group_rank me s = 0%Z /\ azimuth_group_rank me s = 0%Z.
Proof.
  intros h me H. pose proof (registry_last_call _ H) as L. rewrite rev_app_distr in L. simpl in L.
  destruct L as (A & B & C). cbv zeta. unfold polar_group_size, azimuth_group_size, polar_group_rank, azimuth_group_rank.
  rewrite B, C. auto.
Qed.
Lemma sizes_after_init : forall h me p a i j,
  nth_error (granks p) i = Some me -> nth_error (granks a) j = Some me -> NoDup (granks p) -> NoDup (granks a) ->
  let s := snd (run (h ++ [CInit (Some p) (Some a)]) reg0) in
  is_initialized s = true /\ polar_group_size me s = Z.of_nat (length (granks p)) /\
  azimuth_group_size me s = Z.of_nat (length (granks a)) /\
  polar_group_rank me s = Z.of_nat i /\ azimuth_group_rank me s = Z.of_nat j.
Proof.
  intros h me p a i j Hi Hj Np Na. cbv zeta. rewrite run_app. destruct (run h reg0) as [e s1]. simpl.
  unfold polar_group_size, azimuth_group_size, polar_group_rank, azimuth_group_rank, world_size, group_rank; simpl.
  rewrite (index_of_nth _ _ _ Np Hi), (index_of_nth _ _ _ Na Hj). auto.
Qed.
Lemma finalize_destroys : forall h p a, fst (run (h ++ [CInit (Some p) (Some a); CFinalize]) reg0) = false ->
  let s := snd (run (h ++ [CInit (Some p) (Some a); CFinalize]) reg0) in
  In (gid p) (destroyed s) /\ In (gid a) (destroyed s).
Proof.
  intros h p a. cbv zeta. rewrite run_app. destruct (run h reg0) as [e s1]. unfold run, exec, init, finalize, destroy.
  cbn [inited polar azimuth destroyed].
  destruct (existsb (Nat.eqb (gid p)) (destroyed s1)); cbn [fst snd]; intros H.
  { rewrite ?orb_true_r in H; simpl in H; rewrite ?orb_true_r in H; discriminate. }
  destruct (existsb (Nat.eqb (gid a)) (gid p :: destroyed s1)); simpl in *.
  { rewrite ?orb_true_r in H; discriminate. } auto.
Qed.
Lemma reinit_leaks : exists h p a,
  In (CInit (Some p) (Some a)) h /\ fst (run h reg0) = false /\ is_initialized (snd (run h reg0)) = false /\
  ~ In (gid p) (destroyed (snd (run h reg0))).
Proof.
  exists [CInit (Some (mkG 1 [0])) (Some (mkG 2 [0])); CInit (Some (mkG 3 [0])) (Some (mkG 4 [0])); CFinalize], (mkG 1 [0]), (mkG 2 [0]).
  simpl. repeat split; auto. intros H. repeat (destruct H as [H|H]; try discriminate). auto.
Qed.
