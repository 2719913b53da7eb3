(** Proofs about the distributed primitives. *)
From Coq Require Import List Arith Lia Bool ZArith.
From Verif Require Import TensorModel TensorProofs PrimModel PrimSpec.
Import ListNotations.

Lemma returns_Some : forall A (t u : tensor A), teq t u -> returns (Some t) u.
Proof. intros; exists t; auto. Qed.
Lemma returns_teq : forall A o (t u : tensor A), returns o t -> teq t u -> returns o u.
Proof. intros A o t u (v & -> & Hv) H. exists v; split; auto. eapply teq_trans; eauto. Qed.

(** ** split shapes *)
Lemma sum_list_app : forall l l', sum_list (l ++ l') = sum_list l + sum_list l'.
Proof. induction l; simpl; intros; auto. rewrite IHl; lia. Qed.
Lemma sum_list_repeat : forall k n, sum_list (repeat k n) = n * k.
Proof. induction n; simpl; auto. Qed.

Definition bal (size n : nat) : list nat :=
  repeat (size / n + 1) (size mod n) ++ repeat (size / n) (n - size mod n).

Lemma css_some : forall size n, 1 <= n -> n <= size -> compute_split_shapes size n = Some (bal size n).
Proof.
  intros size n H1 H2. unfold compute_split_shapes.
  rewrite (proj2 (Nat.leb_le _ _) H2). simpl.
  destruct (Nat.eqb_spec n 0); [lia|]. reflexivity.
Qed.
Lemma css_none : forall size n, size < n -> compute_split_shapes size n = None.
Proof.
  intros size n H. unfold compute_split_shapes.
  destruct (Nat.leb_spec n size); [lia|]. reflexivity.
Qed.
Lemma css_inv : forall size n l, compute_split_shapes size n = Some l -> 1 <= n /\ n <= size /\ l = bal size n.
Proof.
  intros size n l H.
  destruct (le_lt_dec n size) as [H2|H2]; [|rewrite css_none in H by auto; discriminate].
  destruct n; [unfold compute_split_shapes in H; simpl in H; discriminate|].
  rewrite css_some in H by lia. inversion H. repeat split; auto; lia.
Qed.

Lemma bal_length : forall size n, 1 <= n -> length (bal size n) = n.
Proof.
  intros. unfold bal. rewrite app_length, !repeat_length.
  assert (size mod n < n) by (apply Nat.mod_upper_bound; lia). lia.
Qed.
Lemma bal_sum : forall size n, 1 <= n -> sum_list (bal size n) = size.
Proof.
  intros. unfold bal. rewrite sum_list_app, !sum_list_repeat.
  assert (size mod n < n) by (apply Nat.mod_upper_bound; lia).
  pose proof (Nat.div_mod size n). nia.
Qed.
Lemma nth_repeat_lt : forall A (a d : A) n k, k < n -> nth k (repeat a n) d = a.
Proof. induction n; destruct k; simpl; intros; auto; try lia. apply IHn; lia. Qed.
Lemma bal_nth : forall size n r, 1 <= n -> r < n ->
  nth r (bal size n) 0 = size / n + (if r <? size mod n then 1 else 0).
Proof.
  intros size n r Hn Hr. unfold bal.
  assert (size mod n < n) by (apply Nat.mod_upper_bound; lia).
  destruct (Nat.ltb_spec r (size mod n)).
  - rewrite app_nth1 by (rewrite repeat_length; auto). now rewrite nth_repeat_lt.
  - rewrite app_nth2 by (rewrite repeat_length; auto). rewrite repeat_length.
    rewrite nth_repeat_lt by lia. lia.
Qed.

Lemma chunk_len_nth : forall size n r, 1 <= n -> r < n -> nth r (bal size n) 0 = chunk_len size n r.
Proof.
  intros size n r Hn Hr. rewrite bal_nth by auto. unfold chunk_len, chunk_lo.
  generalize (size / n) (size mod n); intros q m.
  destruct (Nat.ltb_spec r m); nia.
Qed.

Lemma firstn_S_nth : forall (l : list nat) r, r < length l -> sum_list (firstn (S r) l) = sum_list (firstn r l) + nth r l 0.
Proof.
  induction l; simpl; intros; try lia. destruct r; simpl. lia.
  change (match l with [] => [] | a0 :: l0 => a0 :: firstn r l0 end) with (firstn (S r) l).
  rewrite IHl by lia. lia.
Qed.

Lemma chunk_lo_mono : forall size n r, chunk_lo size n r <= chunk_lo size n (S r).
Proof. intros; unfold chunk_lo; lia. Qed.

Lemma chunk_lo_sum : forall size n r, 1 <= n -> r <= n -> sum_list (firstn r (bal size n)) = chunk_lo size n r.
Proof.
  induction r; intros Hn Hr.
  - reflexivity.
  - rewrite firstn_S_nth by (rewrite bal_length; lia).
    rewrite IHr by lia. rewrite chunk_len_nth by lia. unfold chunk_len.
    pose proof (chunk_lo_mono size n r). lia.
Qed.

Lemma chunk_lo_total : forall size n, 1 <= n -> chunk_lo size n n = size.
Proof.
  intros. unfold chunk_lo. assert (size mod n < n) by (apply Nat.mod_upper_bound; lia).
  pose proof (Nat.div_mod size n). nia.
Qed.

Lemma chunk_lo_mono_le : forall size n r s, r <= s -> chunk_lo size n r <= chunk_lo size n s.
Proof. intros size n r s H; induction H; auto. pose proof (chunk_lo_mono size n m). lia. Qed.

Lemma chunk_bound : forall size n r, 1 <= n -> r < n -> chunk_lo size n r + chunk_len size n r <= size.
Proof.
  intros size n r Hn Hr. unfold chunk_len. pose proof (chunk_lo_mono size n r).
  pose proof (chunk_lo_mono_le size n (S r) n Hr). rewrite (chunk_lo_total size n Hn) in *. lia.
Qed.

Lemma chunk_len_pos : forall size n r, 1 <= n -> n <= size -> r < n -> 0 < chunk_len size n r.
Proof.
  intros size n r Hn Hs Hr. rewrite <- chunk_len_nth by auto. rewrite bal_nth by auto.
  assert (0 < size / n) by (apply Nat.div_str_pos; lia). lia.
Qed.

Lemma shard_bal : forall A d n r (t : tensor A), 1 <= n -> r < n ->
  shard d n r t = shard_by (bal (dimsz t d) n) d r t.
Proof.
  intros. unfold shard, shard_by. rewrite chunk_lo_sum by lia. now rewrite chunk_len_nth by lia.
Qed.

(** ** splitting *)
Lemma split_from_map : forall A d (t : tensor A) l off,
  split_from d off l t =
  map (fun s => narrow d (off + sum_list (firstn s l)) (nth s l 0) t) (seq 0 (length l)).
Proof.
  intros A d t l. induction l as [|n l IH]; intros off; simpl; auto.
  f_equal. now rewrite Nat.add_0_r.
  rewrite IH. rewrite <- seq_shift, map_map. apply map_ext. intros s. simpl. f_equal. lia.
Qed.

Lemma split_from_shards : forall A d (t : tensor A) l,
  split_from d 0 l t = map (fun s => shard_by l d s t) (seq 0 (length l)).
Proof. intros. now rewrite split_from_map. Qed.

Lemma split_tensor_spec : forall A (t : tensor A) d n,
  d < ndim t -> 1 <= n -> n <= dimsz t d ->
  split_tensor_along_dim t d n = Some (map (fun s => shard d n s t) (seq 0 n)).
Proof.
  intros A t d n Hd Hn Hs. unfold split_tensor_along_dim.
  rewrite (proj2 (Nat.ltb_lt _ _) Hd), (proj2 (Nat.leb_le _ _) Hs). simpl.
  rewrite css_some by auto. simpl. rewrite torch_split_spec; auto using bal_sum.
  rewrite split_from_shards, bal_length by auto. f_equal.
  apply map_ext_in. intros s Hin. apply in_seq in Hin. rewrite shard_bal by lia. auto.
Qed.

Lemma nth_error_map_seq : forall B (f : nat -> B) n r, r < n -> nth_error (map f (seq 0 n)) r = Some (f r).
Proof.
  intros. rewrite nth_error_map. rewrite (nth_error_nth' _ 0) by (rewrite seq_length; auto).
  rewrite seq_nth by auto. reflexivity.
Qed.

Lemma shard_by_proper : forall A l d r (t u : tensor A),
  teq t u -> r < length l -> sum_list l <= dimsz t d -> teq (shard_by l d r t) (shard_by l d r u).
Proof.
  intros. unfold shard_by. apply narrow_proper; auto.
  assert (forall k, k <= length l -> sum_list (firstn k l) <= sum_list l).
  { intros k Hk. rewrite <- (firstn_skipn k l) at 2. rewrite sum_list_app. lia. }
  specialize (H2 (S r)). rewrite firstn_S_nth in H2 by auto. lia.
Qed.

Lemma shard_proper : forall A d n r (t u : tensor A), 1 <= n -> r < n ->
  teq t u -> teq (shard d n r t) (shard d n r u).
Proof.
  intros. unfold shard. rewrite (teq_dimsz _ _ _ d H1). rewrite <- (teq_dimsz _ _ _ d H1).
  apply narrow_proper; auto. apply chunk_bound; auto.
Qed.

(** Gathering the blocks restores the tensor. *)
Lemma torch_cat_shards : forall A d (t : tensor A) l,
  d < ndim t -> l <> [] -> sum_list l = dimsz t d ->
  returns (torch_cat d (map (fun s => shard_by l d s t) (seq 0 (length l)))) t.
Proof.
  intros A d t l Hd Hl Hs. rewrite <- split_from_shards.
  destruct (torch_cat_split_from A d t l 0 Hd Hl) as (u & Hu & Ht).
  exists u; split; auto. eapply teq_trans; eauto. rewrite Hs. apply narrow_all; auto.
Qed.

Lemma Forall2_map_seq : forall B C (P : B -> C -> Prop) (f : nat -> B) (g : nat -> C) n k,
  (forall s, k <= s < k + n -> P (f s) (g s)) -> Forall2 P (map f (seq k n)) (map g (seq k n)).
Proof.
  induction n; simpl; intros k H; constructor. apply H; lia. apply IHn. intros; apply H; lia.
Qed.

Lemma torch_cat_returns : forall A d (ts us : list (tensor A)) t,
  Forall2 teq ts us -> returns (torch_cat d us) t -> returns (torch_cat d ts) t.
Proof.
  intros A d ts us t HF (u & Hu & Ht).
  assert (HF' : Forall2 teq us ts).
  { clear - HF. induction HF; constructor; auto using teq_sym. }
  destruct (torch_cat_proper _ _ _ _ _ HF' Hu) as (v & Hv & Huv).
  exists v; split; auto. apply teq_trans with u; [apply teq_sym|]; auto.
Qed.

(** ** collectives *)
Lemma forallb_seq : forall f n, (forall r, r < n -> f r = true) -> forallb f (seq 0 n) = true.
Proof. intros f n H. apply forallb_forall. intros x Hx. apply in_seq in Hx. apply H; lia. Qed.

Lemma all_to_all_spec : forall A n (send : fam (list (tensor A))) recv (T : nat -> nat -> tensor A) shs,
  (forall s, s < n -> send s = Some (map (T s) (seq 0 n))) ->
  (forall r, r < n -> recv r = Some (map (fun s => shs r s) (seq 0 n))) ->
  (forall s r, s < n -> r < n -> shp (T s r) = shs r s) ->
  forall r, r < n -> all_to_all n send recv r = Some (map (fun s => T s r) (seq 0 n)).
Proof.
  intros A n send recv T shs Hs Hr Hsh r Hrn. unfold all_to_all.
  assert (a2a_ok n send recv = true) as ->.
  { unfold a2a_ok. apply forallb_seq; intros s Hsn. apply forallb_seq; intros q Hq.
    rewrite Hs, Hr by auto. rewrite !map_length, !seq_length, Nat.eqb_refl. simpl.
    rewrite !nth_error_map_seq by auto. apply shape_eqb_true. auto. }
  simpl. apply mapM_Some. intros s Hin. apply in_seq in Hin.
  rewrite Hs by lia. simpl. now rewrite nth_error_map_seq.
Qed.

Lemma all_gather_int_spec : forall n (x : fam nat) f,
  (forall s, s < n -> x s = Some (f s)) -> forall r, all_gather_int n x r = Some (map f (seq 0 n)).
Proof.
  intros. unfold all_gather_int. apply mapM_Some. intros s Hs; apply in_seq in Hs; apply H; lia.
Qed.

Lemma check_shapes_refl : forall l, check_shapes l l = true.
Proof. induction l; unfold check_shapes in *; simpl; auto. now rewrite Nat.eqb_refl. Qed.

Lemma map_nth_seq : forall (l : list nat), map (fun s => nth s l 0) (seq 0 (length l)) = l.
Proof.
  induction l; simpl; auto. f_equal. rewrite <- seq_shift, map_map. simpl. auto.
Qed.

(** A family of shards as seen by the program: each rank holds a tensor equal to
    its block. *)

Lemma holds_get : forall A n (x : fam (tensor A)) g, holds n x g ->
  exists u : nat -> tensor A, forall r, r < n -> x r = Some (u r) /\ teq (u r) (g r).
Proof.
  intros A n x g H.
  exists (fun r => match x r with Some t => t | None => g r end).
  intros r Hr. destruct (H r Hr) as (t & -> & Ht). auto.
Qed.

(** ** the distributed transpose, for an arbitrary partition of dim1 *)
Theorem distributed_transpose_by : forall A debug n dim0 dim1 sizes (x : tensor A) (y : fam (tensor A)),
  1 <= n -> dim0 <> dim1 -> dim0 < ndim x -> dim1 < ndim x ->
  n <= dimsz x dim0 -> length sizes = n -> sum_list sizes = dimsz x dim1 ->
  holds n y (fun r => shard_by sizes dim1 r x) ->
  holds n (distributed_transpose debug n dim0 dim1 sizes y) (fun r => shard dim0 n r x).
Proof.
  intros A debug n dim0 dim1 sizes x y Hn Hne H0 H1 Hsz Hlen Hsum Hy.
  destruct (holds_get _ _ _ _ Hy) as (u & Hu). clear Hy.
  intros r Hr. unfold distributed_transpose, transpose_.
  destruct (Nat.eqb_spec n 1) as [->|Hn1].
  - (* single rank *)
    assert (r = 0) by lia; subst r. destruct (Hu 0 Hr) as (-> & Ht). simpl.
    destruct sizes as [|n0 [|]]; simpl in Hlen; try discriminate. simpl in Hsum.
    assert (teq (u 0) x).
    { eapply teq_trans; eauto. unfold shard_by. simpl.
      replace n0 with (dimsz x dim1) by lia. apply narrow_all; auto. }
    assert (dim1 <? ndim (u 0) = true) as ->.
    { apply Nat.ltb_lt. now rewrite (teq_ndim _ _ _ H). }
    apply returns_Some. eapply teq_trans; eauto. apply teq_sym.
    unfold shard, chunk_len, chunk_lo. rewrite Nat.div_1_r, Nat.mod_1_r. simpl.
    rewrite !Nat.add_0_r, Nat.sub_0_r. apply narrow_all; auto.
  - assert (Hsh : forall s, s < n -> shp (u s) = upd dim1 (nth s sizes 0) (shp x)).
    { intros s Hs. destruct (Hu s Hs) as (_ & Ht). rewrite (teq_shp _ _ _ Ht). reflexivity. }
    assert (Hd0 : forall s, s < n -> dimsz (u s) dim0 = dimsz x dim0).
    { intros s Hs. unfold dimsz. rewrite Hsh by auto. now rewrite nth_upd_other by auto. }
    assert (Hd1 : forall s, s < n -> dimsz (u s) dim1 = nth s sizes 0).
    { intros s Hs. unfold dimsz. rewrite Hsh by auto. now rewrite nth_upd_same by auto. }
    assert (Hnd : forall s, s < n -> ndim (u s) = ndim x).
    { intros s Hs. unfold ndim. rewrite Hsh by auto. now rewrite upd_length. }
    set (pre := fun r => if debug then transpose_debug_pre n dim1 sizes y r else Some tt).
    assert (Hpre : forall s, pre s = Some tt).
    { intros s. unfold pre. destruct debug; auto. unfold transpose_debug_pre.
      rewrite (all_gather_int_spec n _ (fun s => nth s sizes 0)).
      2:{ intros q Hq. destruct (Hu q Hq) as (-> & _). simpl. now rewrite Hd1. }
      simpl. rewrite <- Hlen, map_nth_seq, check_shapes_refl. reflexivity. }
    set (T := fun s r => shard dim0 n r (u s)).
    set (x_send := fun r0 => do _ <- pre r0; do t <- y r0; split_tensor_along_dim t dim0 n).
    assert (Hsend : forall s, s < n -> x_send s = Some (map (T s) (seq 0 n))).
    { intros s Hs. unfold x_send. rewrite Hpre. simpl. destruct (Hu s Hs) as (-> & _). simpl.
      rewrite split_tensor_spec; auto. rewrite Hnd; auto. rewrite Hd0; auto. }
    set (shs := fun r s => upd dim0 (chunk_len (dimsz x dim0) n r) (upd dim1 (nth s sizes 0) (shp x))).
    assert (Hshape : forall s r, s < n -> r < n -> shp (T s r) = shs r s).
    { intros s q Hs Hq. unfold T, shard, shs. simpl. rewrite Hd0 by auto. now rewrite Hsh. }
    rewrite (all_to_all_spec _ n x_send _ T shs); auto.
    2:{ intros q Hq. pose proof (Hsend q Hq) as Eq. unfold x_send, pre in Eq. rewrite Eq. simpl.
        rewrite nth_error_map_seq by auto. simpl.
        f_equal. transitivity (map (fun s => shs q s) (seq 0 (length sizes))); [|now rewrite Hlen].
        rewrite <- (map_nth_seq sizes) at 1. rewrite map_map.
        apply map_ext. intros s.
        change (upd dim1 (nth s sizes 0) (shp (T q q)) = shs q s). rewrite Hshape by auto. unfold shs.
        rewrite upd_comm by auto. now rewrite upd_upd_same. }
    cbn [bindo].
    assert (Hpost : (if debug then transpose_debug_post n dim0 y x_send r else Some tt) = Some tt).
    { destruct debug; auto. unfold transpose_debug_post.
      destruct (Hu r Hr) as (-> & _). simpl. rewrite Hsend by auto. simpl.
      rewrite (all_gather_int_spec n _ (fun s => chunk_len (dimsz x dim0) n s)).
      2:{ intros q Hq. rewrite Hsend by auto. simpl. rewrite nth_error_map_seq by auto. simpl.
          f_equal. change (nth dim0 (shp (T q q)) 0 = chunk_len (dimsz x dim0) n q).
          rewrite Hshape by auto. unfold shs.
          rewrite nth_upd_same; auto. rewrite upd_length; auto. }
      cbn [bindo].
      assert (E : map (fun u0 => dimsz u0 dim0) (map (T r) (seq 0 n)) = map (fun s => chunk_len (dimsz x dim0) n s) (seq 0 n)).
      { rewrite map_map. apply map_ext_in. intros s Hin. apply in_seq in Hin.
        unfold dimsz at 1. rewrite Hshape by (auto; lia). unfold shs.
        rewrite nth_upd_same; auto. rewrite upd_length; auto. }
      rewrite E, check_shapes_refl. cbn [bindo guard].
      rewrite Hd0 by auto.
      assert (E2 : map (fun s => chunk_len (dimsz x dim0) n s) (seq 0 n) = bal (dimsz x dim0) n).
      { rewrite <- (map_nth_seq (bal (dimsz x dim0) n)). rewrite bal_length by auto.
        apply map_ext_in. intros s Hin; apply in_seq in Hin. now rewrite chunk_len_nth by lia. }
      rewrite E2, bal_sum by auto. now rewrite Nat.eqb_refl. }
    unfold x_send in Hpost. unfold pre in Hpost. rewrite Hpost. cbn [bindo].
    (* concatenate *)
    apply torch_cat_returns with (us := map (fun s => shard_by sizes dim1 s (shard dim0 n r x)) (seq 0 n)).
    + apply Forall2_map_seq. intros s Hs. unfold T, shard.
      rewrite Hd0 by lia. destruct (Hu s) as (_ & Ht); [lia|].
      eapply teq_trans. apply narrow_proper. exact Ht.
      { rewrite (teq_dimsz _ _ _ dim0 Ht). unfold shard_by. rewrite dimsz_narrow_other by auto.
        apply chunk_bound; auto. }
      unfold shard_by. apply narrow_comm; auto.
    + rewrite <- Hlen at 1. apply torch_cat_shards.
      * unfold shard. now rewrite ndim_narrow.
      * intros ->. simpl in Hlen. lia.
      * unfold shard. rewrite dimsz_narrow_other; auto.
Qed.

(** Balanced partition of dim1 (the case used by every module). *)
Theorem distributed_transpose_balanced : forall A debug n dim0 dim1 sizes (x : tensor A) (y : fam (tensor A)),
  1 <= n -> dim0 <> dim1 -> dim0 < ndim x -> dim1 < ndim x ->
  n <= dimsz x dim0 -> 
  compute_split_shapes (dimsz x dim1) n = Some sizes ->
  holds n y (fun r => shard dim1 n r x) ->
  holds n (distributed_transpose debug n dim0 dim1 sizes y) (fun r => shard dim0 n r x).
Proof.
  intros A debug n dim0 dim1 sizes x y Hn Hne H0 H1 Hsz Hc Hy.
  apply css_inv in Hc. destruct Hc as (_ & Hs & ->).
  apply distributed_transpose_by; auto using bal_length, bal_sum.
  intros r Hr. rewrite <- shard_bal by auto. auto.
Qed.
