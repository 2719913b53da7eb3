(** Distributed quadrature and resampling = serial. *)
From Coq Require Import List Arith Lia Bool Reals ZArith Lra.
From Coquelicot Require Import Coquelicot.
From Verif Require Import TensorModel TensorProofs BigSum FFTModel TruncModel LegendreModel QuadModel SHTModel
  PrimModel PrimSpec PrimProofs PrimProofs2 PrimAutogradModel AdjointProofs ResampleModel SpectralConvModel
  DistSHTModel DistSHTProofs DistSHTProofs2 DistSHTProofs3 DistMiscModel.
Import ListNotations.
Local Open Scope nat_scope.

(** ** Reductions on the grid *)
Lemma po_reduce_ok : forall P A (x : pfam (tensor R)) (u : nat -> nat -> tensor R),
  1 <= P -> (forall p a, p < P -> a < A -> shp (u p a) = shp (u 0 a)) -> holds2 P A x u ->
  holds2 P A (po_reduce P x) (fun _ a => tsum 0%R Rplus P (fun p => u p a)).
Proof.
  intros P A x u HP Hs Hx p a Hp Ha. unfold po_reduce.
  assert (H : holds P (fun p => x p a) (fun p => u p a)) by (intros r Hr; apply Hx; auto).
  destruct (Nat.ltb_spec 1 P).
  - apply (reduce_holds 0%R Rplus Rplus_0_r P _ (fun p => u p a)); auto.
  - assert (P = 1) by lia; subst P. assert (p = 0) by lia; subst p.
    eapply returns_teq. apply (H 0); auto. split; simpl; auto. intros i Hi. unfold fsum; simpl. lra.
Qed.
Lemma az_reduce_ok : forall P A (x : pfam (tensor R)) (u : nat -> nat -> tensor R),
  1 <= A -> (forall p a, p < P -> a < A -> shp (u p a) = shp (u p 0)) -> holds2 P A x u ->
  holds2 P A (az_reduce A x) (fun p _ => tsum 0%R Rplus A (fun a => u p a)).
Proof.
  intros P A x u HP Hs Hx p a Hp Ha. unfold az_reduce.
  assert (H : holds A (fun a => x p a) (fun a => u p a)) by (intros r Hr; apply Hx; auto).
  destruct (Nat.ltb_spec 1 A).
  - apply (reduce_holds 0%R Rplus Rplus_0_r A _ (fun a => u p a)); auto.
  - assert (A = 1) by lia; subst A. assert (a = 0) by lia; subst a.
    eapply returns_teq. apply (H 0); auto. split; simpl; auto. intros i Hi. unfold fsum; simpl. lra.
Qed.

(** Sum over balanced chunks. *)
Lemma rsum_balanced : forall n size f, 1 <= n -> n <= size ->
  rsum size f = rsum n (fun r => rsum (chunk_len size n r) (fun j => f (chunk_lo size n r + j))).
Proof.
  intros n size f H1 H2. transitivity (rsum (sum_list (bal size n)) f). now rewrite bal_sum.
  rewrite rsum_chunks, bal_length by auto. apply bsum_ext. intros r Hr.
  rewrite <- (chunk_len_nth size n r) by auto. apply bsum_ext. intros j Hj. f_equal. f_equal.
  apply chunk_lo_sum; auto; lia.
Qed.

Lemma local_split_ok : forall B n d r (t : tensor B), d < ndim t -> 1 <= n -> n <= dimsz t d -> r < n ->
  returns (local_split n d r t) (shard d n r t).
Proof.
  intros B n d r t Hd Hn Hs Hr. unfold local_split. destruct (Nat.ltb_spec 1 n).
  - rewrite split_tensor_spec by auto. cbn [bindo]. rewrite nth_error_map_seq by auto. apply returns_Some, teq_refl.
  - assert (n = 1) by lia; subst n. assert (r = 0) by lia; subst r. apply returns_Some, teq_sym, shard_one; auto.
Qed.

Definition part_int (k : nat) (lead : list nat) (q X : tensor R) (olo olen wlo wlen : nat) : tensor R :=
  mkT (repeat 1 (2 - k) ++ lead)
   (fun i => rsum olen (fun h => rsum wlen (fun w =>
      val X (skipn (2 - k) i ++ [olo + h; wlo + w]%nat) * val q [0; 0; olo + h; wlo + w]%nat)%R)).

Lemma skipn_valid_lead : forall k lead i, length lead = k -> valid (repeat 1 (2 - k) ++ lead) i ->
  valid lead (skipn (2 - k) i).
Proof.
  intros k lead i Hk Hi.
  assert (L : 2 - k <= length (repeat 1 (2 - k) ++ lead)) by (rewrite app_length, repeat_length; lia).
  destruct (firstn_skipn_valid _ _ _ Hi L) as [_ V].
  rewrite skipn_app, repeat_length, Nat.sub_diag in V. simpl in V.
  rewrite skipn_all2 in V by (rewrite repeat_length; lia). auto.
Qed.

Lemma integrate_shard : forall lead H W P A p a (q X qs xs : tensor R),
  shp X = lead ++ [H; W] -> shp q = [1; 1; H; W] -> 1 <= P -> 1 <= A -> p < P -> a < A ->
  teq qs (shard 3 A a (shard 2 P p q)) -> teq xs (shard (length lead) P p (shard (length lead + 1) A a X)) ->
  returns (integrate_last2 qs xs)
    (part_int (length lead) lead q X (chunk_lo H P p) (chunk_len H P p) (chunk_lo W A a) (chunk_len W A a)).
Proof.
  intros lead H W P A p a q X qs xs HX Hq HP HA Hp Ha Tq Tx. set (k := length lead) in *.
  assert (Sx : shp xs = lead ++ [chunk_len H P p; chunk_len W A a]).
  { rewrite (teq_shp _ _ _ Tx). unfold shard, narrow, dimsz; cbn [shp]. rewrite HX.
    unfold k. rewrite Nat.add_1_r, nth_pre1, upd_pre1, nth_pre0, upd_pre0. auto. }
  assert (Sq : shp qs = [1; 1; chunk_len H P p; chunk_len W A a]).
  { rewrite (teq_shp _ _ _ Tq). unfold shard, narrow, dimsz; cbn [shp]. rewrite Hq. reflexivity. }
  unfold integrate_last2, ndim, dimsz. rewrite Sx, Sq, app_length. simpl length. fold k.
  replace (k + 2 - 2) with (k + 0) by lia. rewrite (proj2 (Nat.leb_le _ _)) by lia.
  replace (k + 0 + 1) with (k + 1) by lia. unfold k. rewrite !nth_app_r. simpl nth.
  rewrite (proj2 (shape_eqb_true _ _)) by reflexivity. cbn [andb].
  apply returns_Some. unfold part_int. fold k.
  replace (k + 0) with k by lia.
  replace (firstn k (lead ++ [chunk_len H P p; chunk_len W A a])) with lead
    by (unfold k; rewrite firstn_app, firstn_all, Nat.sub_diag; simpl; now rewrite app_nil_r).
  split; cbn [shp val]; auto. intros i Hi.
  pose proof (skipn_valid_lead k lead i eq_refl Hi) as V.
  set (i0 := skipn (2 - k) i) in *. pose proof (valid_len _ _ V) as L.
  apply bsum_ext. intros h Hh. apply bsum_ext. intros w Hw. f_equal.
  - destruct Tx as [_ Tx]. rewrite Tx.
    2:{ rewrite Sx. apply valid_app; auto. split; auto. split; auto. intros d Hd. destruct d as [|[|]]; simpl in *; auto; lia. }
    unfold shard, narrow, dimsz. cbn [val shp]. rewrite HX. fold k in L.
    rewrite Nat.add_1_r. fold k. rewrite <- L. rewrite nth_pre0, upd_pre0, nth_pre1, upd_pre1. rewrite L. unfold k.
    rewrite nth_pre1, upd_pre1, nth_pre0. f_equal. f_equal. f_equal. lia. f_equal. lia.
  - destruct Tq as [_ Tq]. rewrite Tq.
    2:{ rewrite Sq. split; auto. intros d Hd. destruct d as [|[|[|[|]]]]; simpl in *; lia. }
    unfold shard, narrow, dimsz. cbn [val shp upd nth]. rewrite Hq. cbn [nth upd].
    f_equal. f_equal. f_equal. f_equal. lia. f_equal. lia.
Qed.

Theorem dist_quadrature_ok : forall gl P A nlat nlon g normalize q lead X x w,
  1 <= P -> 1 <= A -> P <= nlat -> A <= nlon -> g <> GTrapezoidal -> quadrature_s2_rule gl nlat g = Some q ->
  shp X = lead ++ [nlat; nlon] ->
  (forall p a, p < P -> a < A -> w p a = dist_quad_init gl P A nlat nlon g normalize p a) ->
  holds2 P A x (fun p a => shard (length lead) P p (shard (length lead + 1) A a X)) ->
  exists Y, quadrature_s2 gl nlat nlon g normalize X = Some Y /\
    holds2 P A (dist_quadrature P A w x) (fun _ _ => Y).
Proof.
  intros gl P A nlat nlon g normalize q lead X x w HP HA H1 H2 Hg Hq HX Hw Hx.
  set (qt := quad_weight_tensor nlat nlon (rw q) normalize). set (k := length lead).
  set (u := fun p a => part_int k lead qt X (chunk_lo nlat P p) (chunk_len nlat P p) (chunk_lo nlon A a) (chunk_len nlon A a)).
  assert (Hl : holds2 P A (pzip integrate_last2 w x) u).
  { intros p a Hp Ha. unfold pzip. rewrite Hw by auto. unfold dist_quad_init.
    assert (dist_quad_rule gl nlat g = Some q) as -> by (unfold dist_quad_rule; destruct g; auto; congruence).
    cbn [bindo]. rewrite !css_some by auto. cbn [bindo]. fold qt.
    destruct (local_split_ok R P 2 p qt) as (w1 & -> & T1); try (cbn; lia). cbn [bindo].
    destruct (local_split_ok R A 3 a w1) as (w2 & -> & T2); auto.
    { unfold ndim. rewrite (teq_shp _ _ _ T1). unfold shard, narrow; cbn [shp]. rewrite upd_length. simpl; lia. }
    { rewrite (teq_dimsz _ _ _ 3 T1), dimsz_shard_other by lia. cbn. lia. }
    cbn [bindo]. destruct (Hx p a Hp Ha) as (t & -> & Tt). cbn [bindo].
    apply (integrate_shard lead nlat nlon P A p a qt X); auto.
    eapply teq_trans; [exact T2|]. apply shard_proper; auto. }
  assert (SI : exists Y, quadrature_s2 gl nlat nlon g normalize X = Some Y /\ teq Y (part_int k lead qt X 0 nlat 0 nlon)).
  { unfold quadrature_s2. rewrite Hq. fold qt.
    destruct (integrate_shard lead nlat nlon 1 1 0 0 qt X qt X) as (Y & E & T); auto.
    - apply teq_sym. eapply teq_trans. apply shard_one; rewrite ndim_shard; cbn; lia. apply shard_one; cbn; lia.
    - apply teq_sym. eapply teq_trans. apply shard_one; rewrite ndim_shard; unfold ndim; rewrite HX, app_length; simpl; lia.
      apply shard_one. unfold ndim; rewrite HX, app_length; simpl; lia.
    - exists Y. split; auto. fold k in T.
      assert (Z : forall s, chunk_lo s 1 0 = 0 /\ chunk_len s 1 0 = s).
      { intros s. unfold chunk_len, chunk_lo. rewrite Nat.div_1_r, Nat.mod_1_r. simpl. lia. }
      destruct (Z nlat) as [Z1 Z2], (Z nlon) as [Z3 Z4]. rewrite Z1, Z2, Z3, Z4 in T. exact T. }
  destruct SI as (Y & EY & TY). exists Y. split; auto. unfold dist_quadrature.
  eapply holds2_teq.
  { apply (az_reduce_ok P A _ (fun _ a => tsum 0%R Rplus P (fun p => u p a))); auto.
    apply (po_reduce_ok P A _ u); auto. }
  intros p a Hp Ha. eapply teq_trans; [|apply teq_sym; exact TY]. split; auto.
  intros i Hi. cbn [val tsum shp u part_int]. rewrite fsum_rsum.
  transitivity (rsum A (fun a => rsum P (fun p => val (u p a) i))).
  { apply bsum_ext. intros; apply fsum_rsum. }
  cbn [val u part_int]. rewrite (bsum_swap RT).
  rewrite (rsum_balanced P nlat) by auto. apply bsum_ext. intros p' Hp'.
  rewrite (bsum_swap RT). apply bsum_ext. intros h Hh.
  rewrite (rsum_balanced A nlon) by auto. apply bsum_ext. intros a' Ha'. reflexivity.
Qed.
