(** Inner products of real tensors and adjointness of the autograd pairs. *)
From Coq Require Import List Arith Lia Bool Reals Lra.
From Verif Require Import TensorModel TensorProofs PrimModel PrimSpec PrimProofs PrimProofs2
  PrimAutogradModel BigSum.
Import ListNotations.
Local Open Scope R_scope.

Lemma isum_ext : forall s f g, (forall i, valid s i -> f i = g i) -> isum s f = isum s g.
Proof.
  induction s; simpl; intros f g H. apply H, valid_nil.
  apply bsum_ext. intros k Hk. apply IHs. intros i Hi. apply H. now apply valid_cons.
Qed.
Lemma isum_plus : forall s f g, isum s (fun i => f i + g i) = isum s f + isum s g.
Proof.
  induction s; simpl; intros; auto.
  rewrite <- (bsum_plus RT). apply bsum_ext; intros; apply IHs.
Qed.
Lemma isum_zero : forall s, isum s (fun _ => 0) = 0.
Proof. induction s; simpl; auto. apply (bsum_zero' RT). intros; apply IHs. Qed.
Lemma isum_scal : forall s c f, isum s (fun i => c * f i) = c * isum s f.
Proof.
  induction s; simpl; intros; auto. rewrite <- (bsum_scal_l RT).
  apply bsum_ext; intros; apply IHs.
Qed.
Lemma isum_rsum : forall s n f, isum s (fun i => rsum n (fun k => f k i)) = rsum n (fun k => isum s (f k)).
Proof.
  induction n; simpl; intros. apply isum_zero. rewrite isum_plus, IHn. auto.
Qed.

(** Extract one dimension. *)
Lemma isum_dim : forall s d f, (d < length s)%nat ->
  isum s f = rsum (nth d s 0%nat) (fun k => isum (upd d 1 s) (fun i => f (upd d k i))).
Proof.
  induction s; simpl; intros d f Hd. lia.
  destruct d; simpl.
  - apply bsum_ext. intros k Hk. rewrite Rplus_0_l. reflexivity.
  - rewrite <- (bsum_swap RT). apply bsum_ext. intros k Hk.
    rewrite (IHs d) by lia. reflexivity.
Qed.

Lemma isum_dim_other : forall s d c f g, (d < length s)%nat ->
  (forall i, valid (upd d 1 s) i -> f i = g i) -> isum (upd d 1 (upd d c s)) f = isum (upd d 1 s) g.
Proof. intros. rewrite upd_upd_same. apply isum_ext; auto. Qed.

(** Splitting a range into consecutive chunks. *)
Lemma rsum_chunks : forall l f,
  rsum (sum_list l) f = rsum (length l) (fun r => rsum (nth r l 0%nat) (fun j => f (sum_list (firstn r l) + j)%nat)).
Proof.
  induction l as [|a l IH]; intros f. reflexivity.
  simpl sum_list. rewrite (bsum_split RT). simpl length. rewrite (bsum_S_l RT). simpl nth at 1. simpl firstn at 1.
  f_equal. rewrite IH. apply bsum_ext. intros r Hr. simpl nth. apply bsum_ext. intros j Hj.
  f_equal. simpl firstn. simpl sum_list. lia.
Qed.

Lemma dot_proper : forall t t' u u', teq t t' -> teq u u' -> shp t = shp u -> dot t u = dot t' u'.
Proof.
  intros t t' u u' [H1 H2] [H3 H4] H. unfold dot. rewrite <- H1. apply isum_ext.
  intros i Hi. rewrite H2, H4 by (auto; rewrite <- H; auto). auto.
Qed.

Lemma dot_comm : forall t u, shp t = shp u -> dot t u = dot u t.
Proof. intros. unfold dot. rewrite <- H. apply isum_ext; intros; ring. Qed.

(** Inner product as a sum over blocks. *)
Lemma dot_shards_by : forall l d x y, (d < ndim x)%nat -> shp x = shp y -> sum_list l = dimsz x d ->
  dot x y = rsum (length l) (fun r => dot (shard_by l d r x) (shard_by l d r y)).
Proof.
  intros l d x y Hd Hs Hl. unfold dot. rewrite (isum_dim _ d) by auto.
  unfold dimsz in Hl. rewrite <- Hl. rewrite rsum_chunks.
  apply bsum_ext. intros r Hr. unfold shard_by. cbn [shp narrow].
  rewrite (isum_dim _ d) by (rewrite upd_length; auto). rewrite nth_upd_same by auto.
  apply bsum_ext. intros j Hj. rewrite upd_upd_same. apply isum_ext. intros i Hi.
  apply valid_len in Hi. rewrite upd_length in Hi. unfold ndim in Hd.
  cbn [val narrow]. rewrite nth_upd_same by lia. rewrite upd_upd_same.
  now rewrite (Nat.add_comm j).
Qed.

Lemma dot_shards : forall n d x y, (1 <= n)%nat -> (d < ndim x)%nat -> shp x = shp y ->
  dot x y = rsum n (fun r => dot (shard d n r x) (shard d n r y)).
Proof.
  intros n d x y Hn Hd Hs. rewrite (dot_shards_by (bal (dimsz x d) n) d); auto using bal_sum.
  rewrite bal_length by auto. apply bsum_ext. intros r Hr. rewrite !shard_bal by auto.
  unfold dimsz. rewrite <- Hs. auto.
Qed.

(** Gluing a family of blocks into a global tensor. *)
Fixpoint locate (l : list nat) (k : nat) : nat * nat :=
  match l with
  | [] => (0, k)%nat
  | a :: l' => if (k <? a)%nat then (0, k)%nat else let (r, j) := locate l' (k - a) in (S r, j)
  end.
Lemma locate_spec : forall l r j, (r < length l)%nat -> (j < nth r l 0)%nat ->
  locate l (sum_list (firstn r l) + j) = (r, j).
Proof.
  induction l; simpl; intros r j Hr Hj. lia.
  destruct r; simpl.
  - now rewrite (proj2 (Nat.ltb_lt _ _) Hj).
  - destruct (Nat.ltb_spec (a + sum_list (firstn r l) + j) a). lia.
    replace (a + sum_list (firstn r l) + j - a)%nat with (sum_list (firstn r l) + j)%nat by lia.
    rewrite IHl by (auto; lia). auto.
Qed.
Definition glue {A} (l : list nat) (d : nat) (s : list nat) (x : nat -> tensor A) : tensor A :=
  mkT s (fun i => let (r, j) := locate l (nth d i 0%nat) in val (x r) (upd d j i)).
Lemma glue_shard : forall A l d s (x : nat -> tensor A) r, (d < length s)%nat -> (r < length l)%nat ->
  shp (x r) = upd d (nth r l 0%nat) s -> teq (shard_by l d r (glue l d s x)) (x r).
Proof.
  intros A l d s x r Hd Hr Hs. split; cbn [shp narrow shard_by glue]. auto.
  intros i Hi. cbn [val shard_by narrow glue].
  pose proof (valid_len _ _ Hi) as Hl. rewrite upd_length in Hl.
  rewrite nth_upd_same by lia. rewrite Nat.add_comm. rewrite locate_spec; auto.
  - rewrite upd_upd_same. rewrite upd_nth_id by lia. auto.
  - eapply valid_upd_bound; eauto.
Qed.
Lemma glue_balanced : forall A n d s (x : nat -> tensor A) r, (1 <= n)%nat -> (d < length s)%nat -> (r < n)%nat ->
  shp (x r) = upd d (chunk_len (nth d s 0%nat) n r) s ->
  teq (shard d n r (glue (bal (nth d s 0%nat) n) d s x)) (x r).
Proof.
  intros. rewrite shard_bal by auto. unfold dimsz. cbn [shp glue]. apply glue_shard; auto.
  rewrite bal_length; auto. rewrite chunk_len_nth; auto.
Qed.

Lemma holds_outs : forall n f (g : nat -> tensor R), holds n f g ->
  exists y, outs n f y /\ forall r, (r < n)%nat -> teq (y r) (g r).
Proof.
  intros n f g H. destruct (holds_get _ _ _ _ H) as (u & Hu).
  exists u; split; intros r Hr; apply Hu; auto.
Qed.

(** ** transpose *)
Theorem transpose_adjoint : forall debug n d0 d1 (s : list nat) sizes (x go : nat -> tensor R),
  (1 <= n)%nat -> d0 <> d1 -> (d0 < length s)%nat -> (d1 < length s)%nat ->
  (n <= nth d0 s 0)%nat -> compute_split_shapes (nth d1 s 0%nat) n = Some sizes ->
  (forall r, (r < n)%nat -> shp (x r) = upd d1 (chunk_len (nth d1 s 0%nat) n r) s) ->
  (forall r, (r < n)%nat -> shp (go r) = upd d0 (chunk_len (nth d0 s 0%nat) n r) s) ->
  exists y dx,
    outs n (distributed_transpose debug n d0 d1 sizes (fun r => Some (x r))) y /\
    outs n (distributed_transpose_bwd debug n d0 d1 (dimsz (x 0%nat) d0) (fun r => Some (go r))) dx /\
    (forall r, (r < n)%nat -> shp (y r) = shp (go r) /\ shp (dx r) = shp (x r)) /\
    rsum n (fun r => dot (y r) (go r)) = rsum n (fun r => dot (x r) (dx r)).
Proof.
  intros debug n d0 d1 s sizes x go Hn Hne H0 H1 Hs0 Hc Hx Hgo.
  pose proof (css_inv _ _ _ Hc) as (_ & Hs1 & _).
  set (X := glue (bal (nth d1 s 0%nat) n) d1 s x). set (G := glue (bal (nth d0 s 0%nat) n) d0 s go).
  assert (HX : forall r, (r < n)%nat -> teq (shard d1 n r X) (x r)) by (intros; apply glue_balanced; auto).
  assert (HG : forall r, (r < n)%nat -> teq (shard d0 n r G) (go r)) by (intros; apply glue_balanced; auto).
  destruct (holds_outs n (distributed_transpose debug n d0 d1 sizes (fun r => Some (x r))) (fun r => shard d0 n r X)) as (y & Hy & Hy').
  { eapply distributed_transpose_balanced; eauto.
    intros r Hr. apply returns_Some, teq_sym. auto. }
  assert (Hd0 : dimsz (x 0%nat) d0 = nth d0 s 0%nat).
  { unfold dimsz. rewrite Hx by lia. now rewrite nth_upd_other by auto. }
  destruct (holds_outs n (distributed_transpose_bwd debug n d0 d1 (dimsz (x 0%nat) d0) (fun r => Some (go r))) (fun r => shard d1 n r G)) as (dx & Hdx & Hdx').
  { intros r Hr. unfold distributed_transpose_bwd. rewrite Hd0, css_some by auto. cbn [bindo].
    apply (distributed_transpose_balanced R debug n d1 d0 (bal (nth d0 s 0%nat) n) G (fun r => Some (go r))); auto.
    - apply css_some; auto.
    - intros q Hq. apply returns_Some, teq_sym. auto. }
  exists y, dx. split; auto. split; auto.
  assert (Hsh : forall r, (r < n)%nat -> shp (y r) = shp (go r) /\ shp (dx r) = shp (x r)).
  { intros r Hr. split.
    - rewrite (teq_shp _ _ _ (Hy' r Hr)). rewrite Hgo by auto. reflexivity.
    - rewrite (teq_shp _ _ _ (Hdx' r Hr)). rewrite Hx by auto. reflexivity. }
  split; auto.
  transitivity (dot X G).
  - rewrite (dot_shards n d0 X G); auto. apply bsum_ext. intros r Hr.
    apply dot_proper; auto using teq_sym. apply Hsh; auto.
  - rewrite (dot_shards n d1 X G); auto. apply bsum_ext. intros r Hr.
    apply dot_proper; auto using teq_sym.
Qed.

(** ** the other pairs *)
Lemma fsum_rsum : forall n f, fsum 0 Rplus n f = rsum n f.
Proof.
  intros. unfold fsum. rewrite <- (lsum_seq RT). unfold lsum_.
  generalize (seq 0 n). induction l; simpl; auto. now rewrite IHl.
Qed.

Lemma dot_tsum_r : forall n t (u : nat -> tensor R), (1 <= n)%nat -> shp t = shp (u 0%nat) ->
  dot t (tsum 0 Rplus n u) = rsum n (fun r => dot t (u r)).
Proof.
  intros n t u Hn Hs. unfold dot. rewrite <- isum_rsum. apply isum_ext. intros i Hi.
  unfold tsum; cbn [val]. rewrite fsum_rsum. now rewrite <- (bsum_scal_l RT).
Qed.
Lemma dot_tsum_l : forall n t (u : nat -> tensor R), (1 <= n)%nat ->
  (forall r, (r < n)%nat -> shp (u r) = shp (u 0%nat)) ->
  dot (tsum 0 Rplus n u) t = rsum n (fun r => dot (u r) t).
Proof.
  intros n t u Hn Hs. unfold dot. cbn [shp tsum].
  rewrite (bsum_ext n (fun r => isum (shp (u r)) (fun i => val (u r) i * val t i))
    (fun r => isum (shp (u 0%nat)) (fun i => val (u r) i * val t i))).
  2:{ intros r Hr. now rewrite Hs. }
  rewrite <- isum_rsum. apply isum_ext. intros i Hi.
  unfold tsum; cbn [val]. rewrite fsum_rsum. now rewrite <- (bsum_scal_r RT).
Qed.

(** copy: one logical input, one output gradient per rank. *)
Theorem copy_adjoint : forall n (x : tensor R) (go : nat -> tensor R),
  (1 <= n)%nat -> (forall r, (r < n)%nat -> shp (go r) = shp x) ->
  exists y dx, outs n (copy_fwd n (fun _ => Some x)) y /\ outs n (copy_bwd n (fun r => Some (go r))) dx /\
    forall r, (r < n)%nat -> shp (dx r) = shp x /\ rsum n (fun s => dot (y s) (go s)) = dot x (dx r).
Proof.
  intros n x go Hn Hs. exists (fun _ => x).
  destruct (holds_outs n (copy_bwd n (fun r => Some (go r))) (fun _ => tsum 0 Rplus n go)) as (dx & H1 & H2).
  { apply reduce_holds; auto using Rplus_0_r. intros r Hr. rewrite !Hs by lia; auto.
    intros r Hr; apply returns_Some; auto. }
  exists dx. split. intros r Hr; reflexivity. split; auto. intros r Hr.
  assert (shp (dx r) = shp x). { rewrite (teq_shp _ _ _ (H2 r Hr)). simpl. apply Hs; lia. }
  split; auto.
  rewrite (dot_proper x x (dx r) (tsum 0 Rplus n go)); auto.
  rewrite dot_tsum_r; auto. symmetry; apply Hs; lia.
Qed.

(** reduce: one input per rank, one logical output whose gradient is replicated. *)
Theorem reduce_adjoint : forall n (x : nat -> tensor R) (g : tensor R),
  (1 <= n)%nat -> (forall r, (r < n)%nat -> shp (x r) = shp g) ->
  exists y dx, outs n (reduce_fwd n (fun r => Some (x r))) y /\ outs n (reduce_bwd n (fun r => Some g)) dx /\
    forall r, (r < n)%nat -> shp (y r) = shp g /\ dot (y r) g = rsum n (fun s => dot (x s) (dx s)).
Proof.
  intros n x g Hn Hs.
  destruct (holds_outs n (reduce_fwd n (fun r => Some (x r))) (fun _ => tsum 0 Rplus n x)) as (y & H1 & H2).
  { apply reduce_holds; auto using Rplus_0_r. intros r Hr. rewrite !Hs by lia; auto.
    intros r Hr; apply returns_Some; auto. }
  exists y, (fun _ => g). split; auto. split. intros r Hr; reflexivity. intros r Hr.
  assert (shp (y r) = shp g). { rewrite (teq_shp _ _ _ (H2 r Hr)). simpl. apply Hs; lia. }
  split; auto. rewrite (dot_proper (y r) (tsum 0 Rplus n x) g g); auto.
  apply dot_tsum_l; auto. intros q Hq. rewrite !Hs by lia; auto.
Qed.

(** scatter: replicated input, one output shard (and gradient) per rank. *)
Theorem scatter_adjoint : forall debug n d (x : tensor R) (go : nat -> tensor R),
  (1 <= n)%nat -> (d < ndim x)%nat -> (n <= dimsz x d)%nat ->
  (forall r, (r < n)%nat -> shp (go r) = upd d (chunk_len (dimsz x d) n r) (shp x)) ->
  exists y dx, outs n (scatter_fwd n d (fun _ => Some x)) y /\
    outs n (scatter_bwd debug n d (dimsz x d) (fun r => Some (go r))) dx /\
    forall r, (r < n)%nat -> shp (dx r) = shp x /\ rsum n (fun s => dot (y s) (go s)) = dot x (dx r).
Proof.
  intros debug n d x go Hn Hd Hsz Hs. unfold ndim in Hd.
  set (G := glue (bal (nth d (shp x) 0%nat) n) d (shp x) go).
  assert (HG : forall r, (r < n)%nat -> teq (shard d n r G) (go r)) by (intros; apply glue_balanced; auto).
  destruct (holds_outs n (scatter_fwd n d (fun _ => Some x)) (fun r => shard d n r x)) as (y & Hy & Hy').
  { apply split_holds; auto. intros r Hr; apply returns_Some; auto. }
  destruct (holds_outs n (scatter_bwd debug n d (dimsz x d) (fun r => Some (go r))) (fun r => G)) as (dx & Hdx & Hdx').
  { intros r Hr. unfold scatter_bwd. rewrite css_some by auto. cbn [bindo].
    apply (gather_by R debug n d (bal (dimsz x d) n) true G); auto using bal_length, bal_sum.
    intros q Hq. apply returns_Some. apply teq_sym.
    replace (dimsz x d) with (dimsz G d) by reflexivity. rewrite <- shard_bal by auto. apply HG; auto. }
  exists y, dx. split; auto. split; auto. intros r Hr.
  assert (Hsh : shp (dx r) = shp x) by (rewrite (teq_shp _ _ _ (Hdx' r Hr)); reflexivity).
  split; auto.
  rewrite (dot_proper x x (dx r) G); auto. rewrite (dot_shards n d x G); auto.
  apply bsum_ext. intros q Hq. apply dot_proper; auto using teq_sym.
  rewrite (teq_shp _ _ _ (Hy' q Hq)). rewrite Hs by auto. reflexivity.
Qed.

(** gather: one shard per rank, replicated output with replicated gradient. *)
Theorem gather_adjoint : forall debug n d given (s : list nat) (x : nat -> tensor R) (g : tensor R),
  (1 <= n)%nat -> (d < length s)%nat -> (n <= nth d s 0)%nat -> shp g = s ->
  (forall r, (r < n)%nat -> shp (x r) = upd d (chunk_len (nth d s 0%nat) n r) s) ->
  exists y dx,
    outs n (gather_fwd debug n d (if given : bool then compute_split_shapes (nth d s 0%nat) n else None) (fun r => Some (x r))) y /\
    outs n (gather_bwd n d (fun _ => Some g)) dx /\
    forall r, (r < n)%nat -> shp (y r) = s /\ shp (dx r) = shp (x r) /\ dot (y r) g = rsum n (fun q => dot (x q) (dx q)).
Proof.
  intros debug n d given s x g Hn Hd Hsz Hg Hs.
  set (X := glue (bal (nth d s 0%nat) n) d s x).
  assert (HX : forall r, (r < n)%nat -> teq (shard d n r X) (x r)) by (intros; apply glue_balanced; auto).
  destruct (holds_outs n (gather_fwd debug n d (if given : bool then compute_split_shapes (nth d s 0%nat) n else None) (fun r => Some (x r))) (fun r => X)) as (y & Hy & Hy').
  { unfold gather_fwd. rewrite css_some by auto.
    apply (gather_by R debug n d (bal (nth d s 0%nat) n) given X); auto using bal_length, bal_sum.
    intros q Hq. apply returns_Some. apply teq_sym.
    replace (nth d s 0%nat) with (dimsz X d) by reflexivity. rewrite <- shard_bal by auto. apply HX; auto. }
  destruct (holds_outs n (gather_bwd n d (fun _ => Some g)) (fun r => shard d n r g)) as (dx & Hdx & Hdx').
  { apply split_holds; auto; unfold ndim, dimsz; rewrite ?Hg; auto. intros r Hr; apply returns_Some; auto. }
  exists y, dx. split; auto. split; auto. intros r Hr.
  assert (Hsh : shp (y r) = s) by (rewrite (teq_shp _ _ _ (Hy' r Hr)); reflexivity).
  assert (Hsh2 : forall q, (q < n)%nat -> shp (dx q) = shp (x q)).
  { intros q Hq. rewrite (teq_shp _ _ _ (Hdx' q Hq)), Hs by auto. unfold shard, dimsz. cbn [shp narrow]. now rewrite Hg. }
  split; auto. split; auto. rewrite (dot_proper (y r) X g g); auto; [|congruence].
  rewrite (dot_shards n d X g); auto. apply bsum_ext. intros q Hq. apply dot_proper; auto using teq_sym.
  rewrite (teq_shp _ _ _ (HX q Hq)), <- Hsh2 by auto. apply (teq_shp _ _ _ (Hdx' q Hq)).
Qed.

(** reduce-scatter: one full tensor per rank, one shard of the sum per rank. *)
Theorem rs_adjoint : forall debug n d (s : list nat) (x go : nat -> tensor R),
  (1 <= n)%nat -> (d < length s)%nat -> (n <= nth d s 0)%nat ->
  (forall r, (r < n)%nat -> shp (x r) = s) ->
  (forall r, (r < n)%nat -> shp (go r) = upd d (chunk_len (nth d s 0%nat) n r) s) ->
  exists y dx, outs n (rs_fwd n d (fun r => Some (x r))) y /\
    outs n (rs_bwd debug n d (nth d s 0%nat) (fun r => Some (go r))) dx /\
    (forall r, (r < n)%nat -> shp (y r) = shp (go r) /\ shp (dx r) = s) /\
    rsum n (fun r => dot (y r) (go r)) = rsum n (fun r => dot (x r) (dx r)).
Proof.
  intros debug n d s x go Hn Hd Hsz Hx Hs.
  set (G := glue (bal (nth d s 0%nat) n) d s go).
  assert (HG : forall r, (r < n)%nat -> teq (shard d n r G) (go r)) by (intros; apply glue_balanced; auto).
  destruct (holds_outs n (rs_fwd n d (fun r => Some (x r))) (fun r => shard d n r (tsum 0 Rplus n x))) as (y & Hy & Hy').
  { apply reduce_scatter_holds; auto using Rplus_0_r; unfold ndim, dimsz; rewrite ?Hx by lia; auto.
    intros r Hr; apply returns_Some; auto. }
  destruct (holds_outs n (rs_bwd debug n d (nth d s 0%nat) (fun r => Some (go r))) (fun r => G)) as (dx & Hdx & Hdx').
  { intros r Hr. unfold rs_bwd. rewrite css_some by auto. cbn [bindo].
    apply (gather_by R debug n d (bal (nth d s 0%nat) n) true G); auto using bal_length, bal_sum.
    intros q Hq. apply returns_Some. apply teq_sym.
    replace (nth d s 0%nat) with (dimsz G d) by reflexivity. rewrite <- shard_bal by auto. apply HG; auto. }
  assert (HS0 : shp (tsum 0 Rplus n x) = s) by (simpl; apply Hx; lia).
  exists y, dx. split; auto. split; auto.
  assert (Hsh : forall r, (r < n)%nat -> shp (y r) = shp (go r) /\ shp (dx r) = s).
  { intros r Hr. split.
    - rewrite (teq_shp _ _ _ (Hy' r Hr)). rewrite Hs by auto. unfold shard, dimsz. cbn [shp narrow]. rewrite HS0. auto.
    - rewrite (teq_shp _ _ _ (Hdx' r Hr)). reflexivity. }
  split; auto. transitivity (dot (tsum 0 Rplus n x) G).
  - rewrite (dot_shards n d _ G); auto. 2: unfold ndim; rewrite HS0; auto.
    apply bsum_ext. intros r Hr. apply dot_proper; auto using teq_sym. apply Hsh; auto.
  - rewrite dot_tsum_l; auto. 2: intros r Hr; rewrite !Hx by lia; auto.
    apply bsum_ext. intros r Hr. apply dot_proper; auto using teq_sym.
Qed.

(** gather-from-copy: shards in, replicated output with rank-dependent gradients. *)
Theorem gfc_adjoint : forall debug n d given (s : list nat) (x go : nat -> tensor R),
  (1 <= n)%nat -> (d < length s)%nat -> (n <= nth d s 0)%nat ->
  (forall r, (r < n)%nat -> shp (go r) = s) ->
  (forall r, (r < n)%nat -> shp (x r) = upd d (chunk_len (nth d s 0%nat) n r) s) ->
  exists y dx,
    outs n (gfc_fwd debug n d (if given : bool then compute_split_shapes (nth d s 0%nat) n else None) (fun r => Some (x r))) y /\
    outs n (gfc_bwd n d (fun r => Some (go r))) dx /\
    (forall r, (r < n)%nat -> shp (y r) = s /\ shp (dx r) = shp (x r)) /\
    rsum n (fun r => dot (y r) (go r)) = rsum n (fun r => dot (x r) (dx r)).
Proof.
  intros debug n d given s x go Hn Hd Hsz Hg Hs.
  set (X := glue (bal (nth d s 0%nat) n) d s x).
  assert (HX : forall r, (r < n)%nat -> teq (shard d n r X) (x r)) by (intros; apply glue_balanced; auto).
  destruct (holds_outs n (gfc_fwd debug n d (if given : bool then compute_split_shapes (nth d s 0%nat) n else None) (fun r => Some (x r))) (fun r => X)) as (y & Hy & Hy').
  { unfold gfc_fwd. rewrite css_some by auto.
    apply (gather_by R debug n d (bal (nth d s 0%nat) n) given X); auto using bal_length, bal_sum.
    intros q Hq. apply returns_Some. apply teq_sym.
    replace (nth d s 0%nat) with (dimsz X d) by reflexivity. rewrite <- shard_bal by auto. apply HX; auto. }
  destruct (holds_outs n (gfc_bwd n d (fun r => Some (go r))) (fun r => shard d n r (tsum 0 Rplus n go))) as (dx & Hdx & Hdx').
  { apply reduce_scatter_holds; auto using Rplus_0_r; unfold ndim, dimsz; rewrite ?Hg by lia; auto.
    intros r Hr; apply returns_Some; auto. }
  assert (HS0 : shp (tsum 0 Rplus n go) = s) by (simpl; apply Hg; lia).
  exists y, dx. split; auto. split; auto.
  assert (Hsh : forall r, (r < n)%nat -> shp (y r) = s /\ shp (dx r) = shp (x r)).
  { intros r Hr. split.
    - rewrite (teq_shp _ _ _ (Hy' r Hr)). reflexivity.
    - rewrite (teq_shp _ _ _ (Hdx' r Hr)). rewrite Hs by auto. unfold shard, dimsz. cbn [shp narrow]. rewrite HS0. auto. }
  split; auto. transitivity (dot X (tsum 0 Rplus n go)).
  - rewrite dot_tsum_r; auto.
    apply bsum_ext. intros r Hr. apply dot_proper; auto using teq_sym. rewrite Hg by auto. apply Hsh; auto.
  - rewrite (dot_shards n d X); auto.
    apply bsum_ext. intros r Hr. apply dot_proper; auto using teq_sym.
    rewrite (teq_shp _ _ _ (HX r Hr)). rewrite <- (teq_shp _ _ _ (Hdx' r Hr)). symmetry; apply Hsh; auto.
Qed.
