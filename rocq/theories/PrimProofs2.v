(** Proofs about gather, split, reduce, reduce-scatter and leading-dimension
    padding. *)
From Coq Require Import List Arith Lia Bool.
From Verif Require Import TensorModel TensorProofs PrimModel PrimSpec PrimProofs.
Import ListNotations.

Lemma shard_one : forall A d (x : tensor A), d < ndim x -> teq (shard d 1 0 x) x.
Proof.
  intros. unfold shard, chunk_len, chunk_lo. rewrite Nat.div_1_r, Nat.mod_1_r. simpl.
  rewrite !Nat.add_0_r, Nat.sub_0_r. apply narrow_all; auto.
Qed.

Lemma shard_by_one : forall A d k (x : tensor A), d < ndim x -> k = dimsz x d -> teq (shard_by [k] d 0 x) x.
Proof. intros; subst. unfold shard_by; simpl. apply narrow_all; auto. Qed.

(** ** split *)
Theorem split_holds : forall A n d (x : tensor A) (y : fam (tensor A)),
  1 <= n -> d < ndim x -> n <= dimsz x d ->
  holds n y (fun _ => x) -> holds n (split_ n d y) (fun r => shard d n r x).
Proof.
  intros A n d x y Hn Hd Hs Hy r Hr. unfold split_.
  destruct (Hy r Hr) as (t & Et & Ht).
  destruct (Nat.eqb_spec n 1) as [->|Hn1].
  - assert (r = 0) by lia; subst. rewrite Et. apply returns_Some.
    eapply teq_trans; eauto. apply teq_sym, shard_one; auto.
  - rewrite Et. simpl. rewrite split_tensor_spec; auto.
    + simpl. rewrite nth_error_map_seq by auto. apply returns_Some. apply shard_proper; auto.
    + rewrite (teq_ndim _ _ _ Ht); auto.
    + rewrite (teq_dimsz _ _ _ d Ht); auto.
Qed.

(** ** gather *)
Lemma all_gather_spec : forall A n (x : fam (tensor A)) recv (u : nat -> tensor A) shs,
  (forall s, s < n -> x s = Some (u s)) ->
  (forall r, r < n -> recv r = Some (map (fun s => shs r s) (seq 0 n))) ->
  (forall s r, s < n -> r < n -> shp (u s) = shs r s) ->
  forall r, r < n -> all_gather n x recv r = Some (map u (seq 0 n)).
Proof.
  intros A n x recv u shs Hx Hr Hsh r Hrn. unfold all_gather.
  assert (all_gather_ok n x recv = true) as ->.
  { unfold all_gather_ok. apply forallb_seq; intros q Hq. apply forallb_seq; intros s Hs.
    rewrite Hx, Hr by auto. rewrite map_length, seq_length, Nat.eqb_refl. simpl.
    rewrite nth_error_map_seq by auto. apply shape_eqb_true. auto. }
  simpl. apply mapM_Some. intros s Hin; apply in_seq in Hin; apply Hx; lia.
Qed.

Theorem gather_by : forall A debug n d sizes (given : bool) (x : tensor A) (y : fam (tensor A)),
  1 <= n -> d < ndim x -> length sizes = n -> sum_list sizes = dimsz x d ->
  holds n y (fun r => shard_by sizes d r x) ->
  holds n (gather_ debug n d (if given then Some sizes else None) y) (fun _ => x).
Proof.
  intros A debug n d sizes given x y Hn Hd Hlen Hsum Hy.
  destruct (holds_get _ _ _ _ Hy) as (u & Hu). clear Hy.
  intros r Hr. unfold gather_.
  destruct (Nat.eqb_spec n 1) as [->|Hn1].
  - assert (r = 0) by lia; subst r. destruct (Hu 0 Hr) as (-> & Ht). apply returns_Some.
    eapply teq_trans; eauto. destruct sizes as [|k [|]]; simpl in Hlen; try discriminate.
    apply shard_by_one; auto. simpl in Hsum. lia.
  - assert (Hsh : forall s, s < n -> shp (u s) = upd d (nth s sizes 0) (shp x)).
    { intros s Hs. destruct (Hu s Hs) as (_ & Ht). rewrite (teq_shp _ _ _ Ht). reflexivity. }
    assert (Hd1 : forall s, s < n -> dimsz (u s) d = nth s sizes 0).
    { intros s Hs. unfold dimsz. rewrite Hsh by auto. now rewrite nth_upd_same by auto. }
    assert (Hnd : forall s, s < n -> ndim (u s) = ndim x).
    { intros s Hs. unfold ndim. rewrite Hsh by auto. now rewrite upd_length. }
    assert (Hg : forall q, all_gather_int n (fun s => do t <- y s; Some (dimsz t d)) q = Some sizes).
    { intros q. rewrite (all_gather_int_spec n _ (fun s => nth s sizes 0)).
      - rewrite <- Hlen. now rewrite map_nth_seq.
      - intros s Hs. destruct (Hu s Hs) as (-> & _). simpl. now rewrite Hd1. }
    erewrite all_gather_spec with (u := u) (shs := fun r s => upd d (nth s sizes 0) (shp x)); auto.
    2:{ intros s Hs; apply Hu; auto. }
    2:{ intros q Hq. destruct (Hu q Hq) as (-> & _). cbn [bindo].
        assert (guard match (if given then Some sizes else None) with Some l => length l =? n | None => true end = Some tt) as ->.
        { destruct given; auto. rewrite Hlen, Nat.eqb_refl; auto. }
        cbn [bindo]. rewrite Hnd by auto. rewrite (proj2 (Nat.ltb_lt _ _) Hd). cbn [bindo guard].
        assert (E : (match debug, (if given then Some sizes else None) with
                | true, Some l => do g <- all_gather_int n (fun s => do t <- y s; Some (dimsz t d)) q; guard (check_shapes g l)
                | _, _ => Some tt end) = Some tt).
        { destruct debug, given; auto. rewrite Hg. simpl. now rewrite check_shapes_refl. }
        rewrite E. cbn [bindo].
        assert ((match (if given then Some sizes else None) with
                 | Some l => Some l
                 | None => all_gather_int n (fun s => do t <- y s; Some (dimsz t d)) q end) = Some sizes) as ->.
        { destruct given; auto. }
        cbn [bindo]. f_equal.
        transitivity (map (fun s => upd d (nth s sizes 0) (shp x)) (seq 0 (length sizes))); [|now rewrite Hlen].
        rewrite <- (map_nth_seq sizes) at 1. rewrite map_map. apply map_ext. intros s.
        rewrite Hsh by auto. now rewrite upd_upd_same. }
    cbn [bindo].
    apply torch_cat_returns with (us := map (fun s => shard_by sizes d s x) (seq 0 n)).
    + apply Forall2_map_seq. intros s Hs. apply Hu. lia.
    + rewrite <- Hlen. apply torch_cat_shards; auto. intros ->. simpl in Hlen; lia.
Qed.

(** ** reductions *)
Section Red.
Context {A : Type} (zero : A) (add : A -> A -> A).
Hypothesis add_0_r : forall a, add a zero = a.

(** Specification: elementwise sum over the ranks of a family. *)
Definition fsum (n : nat) (f : nat -> A) : A := fold_right add zero (map f (seq 0 n)).
Definition tsum (n : nat) (g : nat -> tensor A) : tensor A :=
  mkT (shp (g 0)) (fun i => fsum n (fun s => val (g s) i)).

Lemma fsum_ext : forall n f g, (forall s, s < n -> f s = g s) -> fsum n f = fsum n g.
Proof.
  intros. unfold fsum. f_equal. apply map_ext_in. intros s Hs; apply in_seq in Hs; apply H; lia.
Qed.

Lemma fsum_1 : forall f, fsum 1 f = f 0.
Proof. intros. unfold fsum. simpl. apply add_0_r. Qed.

Lemma sum_tensors_spec : forall n (u : nat -> tensor A) s,
  1 <= n -> (forall r, r < n -> shp (u r) = s) ->
  exists t, sum_tensors zero add (map u (seq 0 n)) = Some t /\ shp t = s /\
            forall i, val t i = fsum n (fun r => val (u r) i).
Proof.
  intros n u s Hn Hs. destruct n; [lia|]. unfold sum_tensors. cbn [seq map]. cbv iota.
  change (u 0 :: map u (seq 1 n)) with (map u (seq 0 (S n))).
  match goal with |- context [if ?b then _ else _] => assert (b = true) as -> end.
  { apply forallb_forall. intros t Ht. apply shape_eqb_true. rewrite Hs by lia.
    apply in_map_iff in Ht. destruct Ht as (r & <- & Hr). apply in_seq in Hr. rewrite Hs by lia. auto. }
  rewrite Hs by lia. eexists; split; [reflexivity|]. split; auto. intros i. cbn [val]. unfold fsum. now rewrite map_map.
Qed.

Theorem reduce_holds : forall n (y : fam (tensor A)) (u : nat -> tensor A),
  1 <= n -> (forall r, r < n -> shp (u r) = shp (u 0)) -> holds n y u ->
  holds n (reduce_ zero add n y) (fun _ => tsum n u).
Proof.
  intros n y u Hn Hsh Hy. destruct (holds_get _ _ _ _ Hy) as (v & Hv). intros r Hr. unfold reduce_.
  destruct (Nat.eqb_spec n 1) as [->|Hn1].
  - assert (r = 0) by lia; subst r. destruct (Hv 0 Hr) as (-> & Ht). apply returns_Some.
    destruct Ht as [H1 H2]. split; auto. intros i Hi. simpl. rewrite fsum_1. auto.
  - unfold all_reduce. rewrite (mapM_Some _ _ _ v).
    2:{ intros s Hs; apply in_seq in Hs; apply Hv; lia. }
    cbn [bindo]. destruct (sum_tensors_spec n v (shp (u 0))) as (t & -> & Es & Ev); auto.
    { intros s Hs. destruct (Hv s Hs) as (_ & Ht). rewrite (teq_shp _ _ _ Ht). auto. }
    apply returns_Some. split; auto. simpl. intros i Hi. rewrite Ev. apply fsum_ext. intros s Hs.
    destruct (Hv s Hs) as (_ & [H1 H2]). apply H2. rewrite H1, Hsh, <- Es; auto.
Qed.

Lemma reduce_scatter_coll_spec : forall n (x : fam (list (tensor A))) (T : nat -> nat -> tensor A) sh,
  1 <= n -> (forall s, s < n -> x s = Some (map (T s) (seq 0 n))) ->
  (forall s r, s < n -> r < n -> shp (T s r) = sh) ->
  forall r, r < n -> exists t, reduce_scatter_coll zero add n x r = Some t /\ shp t = sh /\
    forall i, val t i = fsum n (fun s => val (T s r) i).
Proof.
  intros n x T sh Hn Hx Hsh r Hr. unfold reduce_scatter_coll.
  assert (rs_ok n x = true) as ->.
  { unfold rs_ok. rewrite Hx by lia. destruct n as [|n']; [lia|]. remember (seq 0 (S n')) as l eqn:El.
    assert (exists l', map (T 0) l = T 0 0 :: l') as (l' & ->) by (subst l; simpl; eauto). cbv iota. rewrite El.
    apply forallb_seq. intros s Hs. rewrite Hx by auto. rewrite map_length, El, seq_length, Nat.eqb_refl.
    rewrite andb_true_l. apply forallb_forall. intros t Ht. apply in_map_iff in Ht.
    destruct Ht as (q & <- & Hq). apply in_seq in Hq. apply shape_eqb_true. rewrite !Hsh by lia. auto. }
  cbn [bindo guard]. rewrite (mapM_Some _ _ _ (fun s => T s r)).
  2:{ intros s Hs; apply in_seq in Hs. rewrite Hx by lia. simpl. apply nth_error_map_seq; auto. }
  cbn [bindo]. apply (sum_tensors_spec n (fun s => T s r)); auto.
Qed.

Lemma max_list_bal : forall size n, 1 <= n -> n <= size ->
  max_list (bal size n) = nth 0 (bal size n) 0 /\ forall r, r < n -> nth r (bal size n) 0 <= max_list (bal size n).
Proof.
  intros size n Hn Hs.
  assert (Hmax : forall l k, k < length l -> nth k l 0 <= max_list l).
  { induction l; simpl; intros; try lia. destruct k; try lia. specialize (IHl k). lia. }
  assert (Hin : forall l b, (forall k, k < length l -> nth k l 0 <= b) -> max_list l <= b).
  { induction l; simpl; intros b Hb; try lia. pose proof (Hb 0 ltac:(lia)). simpl in H.
    assert (max_list l <= b). apply IHl. intros k Hk. apply (Hb (S k)). lia. lia. }
  split.
  - apply Nat.le_antisymm.
    + apply Hin. rewrite bal_length by auto. intros k Hk. rewrite !bal_nth by lia.
      destruct (Nat.ltb_spec k (size mod n)), (Nat.ltb_spec 0 (size mod n)); lia.
    + apply Hmax. rewrite bal_length; lia.
  - intros r Hr. apply Hmax. now rewrite bal_length.
Qed.

Lemma min_list_le : forall l k, k < length l -> min_list l <= nth k l 0.
Proof.
  destruct l as [|a l]; simpl; intros; try lia.
  assert (fold_right Nat.min a l <= a /\ forall k, k < length l -> fold_right Nat.min a l <= nth k l 0).
  { clear. induction l; simpl; split; intros; try lia. destruct IHl as [I1 I2].
    destruct k; try lia. specialize (I2 k). lia. }
  destruct k; destruct H0; auto. apply H1; lia.
Qed.

Lemma pad_chunk_spec : forall d mx (c : tensor A), d < ndim c -> dimsz c d <= mx ->
  exists p, pad_chunk zero d mx c = Some p /\ shp p = upd d mx (shp c) /\
    forall i, valid (shp p) i -> val p i = if nth d i 0 <? dimsz c d then val c i else zero.
Proof.
  intros d mx c Hd Hle. unfold pad_chunk. unfold ndim in Hd.
  destruct (Nat.ltb_spec (dimsz c d) mx).
  - cbn [torch_cat]. unfold ndim, const_t. cbn [shp]. rewrite !upd_length.
    rewrite (proj2 (Nat.ltb_lt _ _) Hd). cbn [shp]. rewrite !upd_upd_same.
    rewrite (proj2 (shape_eqb_true _ _) eq_refl). simpl andb. cbv iota.
    eexists; split; [reflexivity|]. unfold cat2. simpl. split.
    + unfold dimsz at 2. simpl. rewrite nth_upd_same by auto. f_equal. lia.
    + intros i Hi. reflexivity.
  - eexists; split; [reflexivity|]. assert (dimsz c d = mx) by lia. split.
    + unfold dimsz in H0. subst mx. now rewrite upd_nth_id.
    + intros i Hi. pose proof (valid_nth _ _ d Hi Hd). unfold dimsz.
      now rewrite (proj2 (Nat.ltb_lt _ _) H1).
Qed.

Theorem reduce_scatter_holds : forall n d (y : fam (tensor A)) (u : nat -> tensor A),
  1 <= n -> d < ndim (u 0) -> n <= dimsz (u 0) d ->
  (forall r, r < n -> shp (u r) = shp (u 0)) -> holds n y u ->
  holds n (reduce_scatter_ zero add n d y) (fun r => shard d n r (tsum n u)).
Proof.
  intros n d y u Hn Hd Hs Hsh Hy. destruct (holds_get _ _ _ _ Hy) as (v & Hv). clear Hy.
  assert (Hvs : forall s, s < n -> shp (v s) = shp (u 0)).
  { intros s Hs'. destruct (Hv s Hs') as (_ & Ht). rewrite (teq_shp _ _ _ Ht). auto. }
  intros r Hr. unfold reduce_scatter_.
  destruct (Nat.eqb_spec n 1) as [->|Hn1].
  - assert (r = 0) by lia; subst r. destruct (Hv 0 Hr) as (-> & Ht). apply returns_Some.
    eapply teq_trans. 2: apply teq_sym, shard_one; auto.
    destruct Ht as [H1 H2]. split; auto. intros i Hi. simpl. rewrite fsum_1. auto.
  - destruct (Hv r Hr) as (Er & Htr). rewrite Er. cbn [bindo].
    set (sz := dimsz (u 0) d).
    assert (Hsz : forall s, s < n -> dimsz (v s) d = sz).
    { intros s Hs'. unfold dimsz, sz. now rewrite Hvs. }
    assert (Hnd : forall s, s < n -> ndim (v s) = ndim (u 0)).
    { intros s Hs'. unfold ndim. now rewrite Hvs. }
    rewrite Hsz by auto. rewrite css_some by auto. cbn [bindo].
    rewrite (nth_error_nth' (bal sz n) 0) by (rewrite bal_length; auto). cbn [bindo].
    set (T := fun s r => shard d n r (v s)).
    assert (Hin : forall s, s < n -> (do t <- y s; split_tensor_along_dim t d n) = Some (map (T s) (seq 0 n))).
    { intros s Hs'. destruct (Hv s Hs') as (-> & _). simpl. rewrite split_tensor_spec; auto.
      rewrite Hnd; auto. rewrite Hsz; auto. }
    assert (HTs : forall s q, s < n -> q < n -> shp (T s q) = upd d (chunk_len sz n q) (shp (u 0))).
    { intros s q Hs' Hq. unfold T, shard. simpl. rewrite Hsz by auto. now rewrite Hvs. }
    destruct (max_list_bal sz n Hn Hs) as [Hmax0 Hmax].
    set (mx := max_list (bal sz n)) in *.
    assert (Hclen : chunk_len sz n r <= mx) by (rewrite <- chunk_len_nth by auto; auto).
    assert (Hval : forall s q i, s < n -> q < n -> valid (upd d (chunk_len sz n q) (shp (u 0))) i ->
              val (T s q) i = val (u s) (upd d (nth d i 0 + chunk_lo sz n q) i)).
    { intros s q i Hs' Hq Hi. unfold T, shard. simpl. rewrite Hsz by auto.
      destruct (Hv s Hs') as (_ & [H1 H2]). apply H2. rewrite Hvs by auto.
      eapply valid_upd; eauto. pose proof (valid_upd_bound _ _ _ _ Hd Hi).
      pose proof (chunk_bound sz n q Hn Hq). unfold sz, dimsz in *. lia. }
    destruct (Nat.eqb_spec (min_list (bal sz n)) mx) as [Heven|Hodd].
    + assert (Hall : forall q, q < n -> chunk_len sz n q = mx).
      { intros q Hq. rewrite <- chunk_len_nth by auto. apply Nat.le_antisymm; auto.
        rewrite <- Heven. apply min_list_le. now rewrite bal_length. }
      destruct (reduce_scatter_coll_spec n (fun r => do t <- y r; split_tensor_along_dim t d n) T (upd d mx (shp (u 0)))) with (r := r) as (t & Et & Est & Evt); auto.
      { intros s q Hs' Hq. rewrite HTs by auto. now rewrite Hall. }
      rewrite Et. apply returns_Some. split; simpl.
      * rewrite Est. unfold dimsz; simpl. fold (dimsz (u 0) d). fold sz. now rewrite Hall.
      * intros i Hi. unfold dimsz; simpl. fold (dimsz (u 0) d). fold sz. rewrite Evt.
        apply fsum_ext. intros s Hs'. apply Hval; auto. rewrite Hall by auto. now rewrite <- Est.
    + set (Pf := fun s q => match pad_chunk zero d mx (T s q) with Some p => p | None => T s q end).
      assert (HP : forall s q, s < n -> q < n ->
         pad_chunk zero d mx (T s q) = Some (Pf s q) /\ shp (Pf s q) = upd d mx (shp (u 0)) /\
         forall i, valid (upd d mx (shp (u 0))) i -> val (Pf s q) i = if nth d i 0 <? chunk_len sz n q then val (T s q) i else zero).
      { intros s q Hs' Hq.
        destruct (pad_chunk_spec d mx (T s q)) as (p & Ep & Esh & Ev).
        - unfold ndim. rewrite HTs by auto. rewrite upd_length. auto.
        - unfold dimsz. rewrite HTs by auto. rewrite nth_upd_same by auto. rewrite <- chunk_len_nth by auto; auto.
        - unfold Pf. rewrite Ep. rewrite HTs in Esh by auto. rewrite upd_upd_same in Esh.
          split; auto. split; auto. intros i Hi. rewrite Ev by (rewrite Esh; auto).
          unfold dimsz. rewrite HTs by auto. rewrite nth_upd_same by auto. auto. }
      destruct (reduce_scatter_coll_spec n (fun s => do l <- (do t <- y s; split_tensor_along_dim t d n); mapM (pad_chunk zero d mx) l) Pf (upd d mx (shp (u 0)))) with (r := r) as (t & Et & Est & Evt); auto.
      { intros s Hs'. rewrite Hin by auto. cbn [bindo].
          clear - HP Hs'.
          assert (forall l, (forall q, In q l -> q < n) -> mapM (pad_chunk zero d mx) (map (T s) l) = Some (map (Pf s) l)).
          { induction l; simpl; intros; auto. destruct (HP s a) as (-> & _); auto. simpl.
            rewrite IHl; auto. }
          apply H. intros q Hq; apply in_seq in Hq; lia. }
      { intros s q Hs' Hq. apply HP; auto. }
      rewrite Et. cbn [bindo].
      assert (Hgoal : teq (narrow d 0 (chunk_len sz n r) t) (shard d n r (tsum n u))).
      { split; simpl.
        - rewrite Est, upd_upd_same. reflexivity.
        - intros i Hi. rewrite Est, upd_upd_same in Hi. rewrite Evt. unfold dimsz; simpl. fold (dimsz (u 0) d). fold sz.
          apply fsum_ext. intros s Hs'. rewrite Nat.add_0_r.
          pose proof (valid_len _ _ Hi) as Hl. rewrite upd_length in Hl.
          rewrite upd_nth_id by (unfold ndim in *; lia).
          pose proof (valid_upd_bound _ _ _ _ Hd Hi) as Hb.
          destruct (HP s r Hs' Hr) as (_ & _ & Ev). rewrite Ev.
          + rewrite (proj2 (Nat.ltb_lt _ _) Hb). apply Hval; auto.
          + apply valid_upd_iff; auto. apply valid_upd_iff in Hi; auto. destruct Hi as (? & ? & ?).
            repeat split; auto. lia. }
      rewrite chunk_len_nth by auto.
      destruct (Nat.ltb_spec (chunk_len sz n r) mx).
      * apply returns_Some. auto.
      * apply returns_Some. eapply teq_trans. 2: apply Hgoal.
        assert (chunk_len sz n r = mx) as -> by lia. apply teq_sym.
        replace mx with (dimsz t d).
        -- apply narrow_all. unfold ndim. rewrite Est. now rewrite upd_length.
        -- unfold dimsz; rewrite Est. now rewrite nth_upd_same.
Qed.
End Red.

(** ** leading-dimension flattening and padding *)
Lemma firstn_skipn_valid : forall s i k, valid s i -> k <= length s ->
  valid (firstn k s) (firstn k i) /\ valid (skipn k s) (skipn k i).
Proof.
  intros s i k H Hk. pose proof (valid_len _ _ H) as Hl.
  apply valid_app. rewrite !firstn_length; lia. now rewrite !firstn_skipn.
Qed.

Lemma flatten_pad_spec : forall A (zero : A) (t : tensor A) mn tr,
  tr <= ndim t ->
  exists p, flatten_and_pad_leading_dims zero t mn tr =
      Some (p, firstn (ndim t - tr) (shp t), prod_list (firstn (ndim t - tr) (shp t))) /\
    shp p = Nat.max mn (prod_list (firstn (ndim t - tr) (shp t))) :: skipn (ndim t - tr) (shp t) /\
    forall k j, valid (shp p) (k :: j) ->
      val p (k :: j) = if k <? prod_list (firstn (ndim t - tr) (shp t))
                       then val t (unravel (firstn (ndim t - tr) (shp t)) k ++ j) else zero.
Proof.
  intros A zero t mn tr Htr. unfold flatten_and_pad_leading_dims.
  set (k0 := ndim t - tr). set (lead := firstn k0 (shp t)). set (trail := skipn k0 (shp t)).
  unfold flatten_lead. cbv zeta. fold lead. fold trail. unfold dimsz at 1 2 3. simpl nth.
  destruct (Nat.ltb_spec (prod_list lead) mn) as [Hlt|Hge].
  - cbn [torch_cat]. unfold ndim. simpl shp. simpl length. cbn [Nat.ltb Nat.leb].
    simpl tl. simpl upd. rewrite (proj2 (shape_eqb_true _ _) eq_refl). simpl andb. cbv iota. cbn [bindo].
    eexists; split; [unfold dimsz; simpl; reflexivity|]. unfold cat2. simpl.
    unfold dimsz; simpl. split. f_equal; lia.
    intros k j Hk. reflexivity.
  - eexists; split; [reflexivity|]. simpl. split. f_equal; lia.
    intros k j Hk. apply valid_cons in Hk. destruct Hk. 
    now rewrite (proj2 (Nat.ltb_lt _ _) H).
Qed.

(** Round trip. *)
Theorem flatten_unflatten : forall A (zero : A) (t : tensor A) mn tr p lead sz,
  tr <= ndim t -> 
  flatten_and_pad_leading_dims zero t mn tr = Some (p, lead, sz) ->
  returns (unpad_and_unflatten_leading_dims p lead sz) t.
Proof.
  intros A zero t mn tr p lead sz Htr H.
  destruct (flatten_pad_spec A zero t mn tr Htr) as (p' & E & Esh & Ev).
  rewrite E in H. inversion H; subst p' lead sz. clear H E.
  set (k0 := ndim t - tr) in *. set (lead := firstn k0 (shp t)) in *.
  assert (Hk0 : k0 <= length (shp t)) by (unfold k0, ndim; lia).
  assert (Hll : length lead = k0) by (unfold lead; rewrite firstn_length; lia).
  unfold unpad_and_unflatten_leading_dims, torch_unflatten_lead.
  assert (Hd : dimsz p 0 = Nat.max mn (prod_list lead)) by (unfold dimsz; now rewrite Esh).
  rewrite Hd. rewrite (proj2 (Nat.leb_le _ _)) by lia. cbn [bindo guard].
  assert (dimsz (narrow 0 0 (prod_list lead) p) 0 = prod_list lead) as ->.
  { unfold dimsz; simpl. rewrite Esh. reflexivity. }
  rewrite Nat.eqb_refl. apply returns_Some. split; simpl.
  - rewrite Esh. simpl. apply firstn_skipn.
  - rewrite Esh. simpl. unfold lead at 1. rewrite firstn_skipn. intros i Hi.
    rewrite Nat.add_0_r.
    destruct (firstn_skipn_valid _ _ k0 Hi Hk0) as [V1 V2]. fold lead in V1.
    rewrite Hll. rewrite Ev.
    + pose proof (ravel_lt _ _ V1) as Hlt. rewrite (proj2 (Nat.ltb_lt _ _) Hlt).
      rewrite unravel_ravel by auto. now rewrite firstn_skipn.
    + rewrite Esh. apply valid_cons. split; auto. pose proof (ravel_lt _ _ V1). lia.
Qed.
