(** Distributed DISCO layers = shards of the serial ones. *)
From Coq Require Import List Arith Lia Bool Reals Lra Permutation Sorted.
From Verif Require Import TensorModel TensorProofs BigSum PrimModel PrimSpec PrimProofs PrimProofs2 PrimAutogradModel PrimPropProofs DistSHTModel DistSHTProofs DistSHTProofs2 DistMiscProofs DistSpectralProofs
  DiscoModel DiscoSpec DiscoTensorProofs DiscoLayerProofs DiscoRunProofs DistDiscoModel DistDiscoSpec.
Import ListNotations.
Local Open Scope nat_scope.

Definition local_entry (lo w : nat) (e : entry) : entry := mkE (ker e) (row e) ((col e / w - lo) * w + col e mod w) (pv e).

Lemma split_psi_spec : forall P p h w es, 1 <= P -> P <= h -> p < P -> 2 <= length (lat_slice h w P p es) ->
  split_psi P p h w es = Some (map (local_entry (chunk_lo h P p) w) (lat_slice h w P p es)).
Proof.
  intros P p h w es HP Hh Hp L. unfold split_psi. rewrite css_some by auto. cbn [bindo]. rewrite !chunk_lo_sum by lia.
  replace (p + 1) with (S p) by lia.
  assert (F : filter (fun e => (col e / w <? chunk_lo h P (S p)) && (chunk_lo h P p <=? col e / w)) es = lat_slice h w P p es).
  { unfold lat_slice. apply filter_ext. intros e. apply andb_comm. }
  rewrite F. destruct (Nat.eqb_spec (length (lat_slice h w P p es)) 1); [lia|]. reflexivity.
Qed.

Lemma in_slice : forall h w P p es e, In e (lat_slice h w P p es) <-> In e es /\ chunk_lo h P p <= col e / w < chunk_lo h P (S p).
Proof. intros. unfold lat_slice. rewrite filter_In, andb_true_iff, Nat.leb_le, Nat.ltb_lt. tauto. Qed.

Lemma slice_wf : forall K Ho h w P p es, 1 <= w -> psi_wf K Ho (h * w) es -> psi_wf K Ho (chunk_len h P p * w) (map (local_entry (chunk_lo h P p) w) (lat_slice h w P p es)).
Proof.
  intros K Ho h w P p es Hw W e He. apply in_map_iff in He. destruct He as (e0 & <- & He). apply in_slice in He. destruct He as (He & L). destruct (W e0 He) as (A & B & C).
  cbn [ker row col local_entry]. split; [auto|split; [auto|]]. unfold chunk_len. pose proof (Nat.mod_upper_bound (col e0) w ltac:(lia)). nia.
Qed.

Lemma sorted_filter : forall (f : entry -> bool) l, StronglySorted le (map row l) -> StronglySorted le (map row (filter f l)).
Proof.
  induction l as [|e l IH]; cbn; intros S; [constructor|]. inversion S; subst. destruct (f e); cbn; auto. constructor; auto.
  rewrite Forall_forall in *. intros x Hx. apply in_map_iff in Hx. destruct Hx as (y & <- & Hy). apply filter_In in Hy. apply H2. apply in_map. tauto.
Qed.
Lemma filter_comm : forall A (f g : A -> bool) l, filter f (filter g l) = filter g (filter f l).
Proof. induction l as [|a l IH]; cbn; auto. destruct (g a) eqn:G, (f a) eqn:F; cbn; rewrite ?G, ?F, IH; auto. Qed.
Lemma filter_map_local : forall lo w k l, filter (fun e => ker e =? k) (map (local_entry lo w) l) = map (local_entry lo w) (filter (fun e => ker e =? k) l).
Proof. induction l as [|e l IH]; cbn; auto. destruct (ker e =? k); cbn; now rewrite IH. Qed.
Lemma slice_sorted : forall h w P p es, rows_sorted es -> rows_sorted (map (local_entry (chunk_lo h P p) w) (lat_slice h w P p es)).
Proof.
  intros h w P p es S k. apply StronglySorted_Sorted. rewrite filter_map_local, map_map. cbn [row local_entry]. unfold lat_slice. rewrite filter_comm.
  apply sorted_filter. apply Sorted_StronglySorted; [intros x y z; lia|apply S].
Qed.
Lemma map_app_inv_one : forall A B (f : A -> B) l a b, map f l = a ++ [b] -> exists a' b', l = a' ++ [b'] /\ map f a' = a /\ f b' = b.
Proof.
  intros A B f l a b H. apply map_eq_app in H. destruct H as (l1 & l2 & -> & <- & H). destruct l2 as [|x [|]]; try discriminate. injection H as <-. eauto.
Qed.
Lemma slice_separated : forall K lo w l, kernels_separated K l -> kernels_separated K (map (local_entry lo w) l).
Proof.
  intros K lo w l S k k' e e' a b Hk Hm H1 H2. rewrite filter_map_local in H1, H2. apply map_app_inv_one in H1. destruct H1 as (a0 & e0 & H1 & _ & <-).
  destruct (filter (fun e => ker e =? k') l) as [|e1 b1] eqn:E2; [discriminate|]. cbn in H2. injection H2 as <- _. cbn [row local_entry]. apply (S k k' e0 e1 a0 b1); auto.
  intros j Hj. specialize (Hm j Hj). rewrite filter_map_local in Hm. destruct (filter (fun e => ker e =? j) l); [reflexivity|discriminate].
Qed.

(** ** Sums *)
Lemma local_disco : forall w ps lo l f k t q, 1 <= w -> (forall e, In e l -> lo <= col e / w) ->
  disco_sum w ps (map (local_entry lo w) l) (fun h j => f (h + lo) j) k t q = disco_sum w ps l f k t q.
Proof.
  intros w ps lo l f k t q Hw L. unfold disco_sum. rewrite lsum_map. apply lsum_ext. intros e He. cbn [ker row col pv local_entry]. specialize (L e He).
  pose proof (Nat.mod_upper_bound (col e) w ltac:(lia)). rewrite Nat.div_add_l, (Nat.div_small (col e mod w)) by lia.
  rewrite (Nat.add_comm (_ * w)), Nat.mod_add, Nat.mod_mod by lia. replace (col e / w - lo + 0 + lo) with (col e / w) by lia. reflexivity.
Qed.
Lemma chunk_owner : forall size n i, 1 <= n -> i < size -> exists r, r < n /\ chunk_lo size n r <= i < chunk_lo size n (S r) /\ forall s, s < n -> chunk_lo size n s <= i < chunk_lo size n (S s) -> s = r.
Proof.
  intros size n i Hn Hi. assert (E : exists r, r < n /\ chunk_lo size n r <= i < chunk_lo size n (S r)).
  { assert (T : i < chunk_lo size n n) by (rewrite chunk_lo_total; auto). clear Hi. assert (Z : chunk_lo size n 0 <= i) by (unfold chunk_lo; cbn; lia).
    assert (G : forall m, i < chunk_lo size n m -> exists r, r < m /\ chunk_lo size n r <= i < chunk_lo size n (S r)).
    { induction m; intros L; [lia|]. destruct (Nat.lt_ge_cases i (chunk_lo size n m)) as [C|C]; [destruct (IHm C) as (r & ? & ?); exists r; split; [lia|auto]|exists m; split; [lia|auto]]. }
    apply G; auto. }
  destruct E as (r & Hr & B). exists r. split; auto. split; auto. intros s Hs B'.
  destruct (Nat.lt_trichotomy s r) as [L|[L|L]]; auto.
  - pose proof (chunk_lo_mono_le size n (S s) r ltac:(lia)). lia.
  - pose proof (chunk_lo_mono_le size n (S r) s ltac:(lia)). lia.
Qed.
Lemma rsum_chunks_one : forall size n i (v : R), 1 <= n -> i < size ->
  rsum n (fun r => if (chunk_lo size n r <=? i) && (i <? chunk_lo size n (S r)) then v else 0%R) = v.
Proof.
  intros size n i v Hn Hi. destruct (chunk_owner size n i Hn Hi) as (r & Hr & B & U). rewrite (rsum_ext n _ (fun s => if s =? r then v else 0%R)).
  - apply (bsum_delta RT n r v Hr).
  - intros s Hs. destruct (Nat.eqb_spec s r) as [->|N].
    + destruct (Nat.leb_spec (chunk_lo size n r) i); [|lia]. destruct (Nat.ltb_spec i (chunk_lo size n (S r))); [reflexivity|lia].
    + destruct (Nat.leb_spec (chunk_lo size n s) i); [|reflexivity]. destruct (Nat.ltb_spec i (chunk_lo size n (S s))); [|reflexivity]. elim N. apply U; auto.
Qed.
Lemma sum_slices_gen : forall h w P es (g : entry -> R), 1 <= w -> 1 <= P -> (forall e, In e es -> col e < h * w) ->
  rsum P (fun p => rlsum g (lat_slice h w P p es)) = rlsum g es.
Proof.
  intros h w P es g Hw HP C. induction es as [|e es IH]; [cbn; apply (bsum_zero RT)|].
  assert (Ce : col e / w < h) by (apply Nat.div_lt_upper_bound; [lia|]; rewrite Nat.mul_comm; apply C; now left).
  change (rlsum g (e :: es)) with (g e + rlsum g es)%R. rewrite <- (IH ltac:(intros; apply C; now right)). clear IH.
  transitivity (rsum P (fun p => ((if (chunk_lo h P p <=? col e / w) && (col e / w <? chunk_lo h P (S p)) then g e else 0) + rlsum g (lat_slice h w P p es))%R)).
  - apply rsum_ext. intros p Hp. unfold lat_slice at 1. cbn [filter]. fold (lat_slice h w P p es).
    destruct ((chunk_lo h P p <=? col e / w) && (col e / w <? chunk_lo h P (S p))); [reflexivity|]. now rewrite Rplus_0_l.
  - rewrite (bsum_plus RT). f_equal. apply rsum_chunks_one; auto.
Qed.
Lemma sum_slices : forall h w P es ps f k t q, 1 <= w -> 1 <= P -> (forall e, In e es -> col e < h * w) ->
  rsum P (fun p => disco_sum w ps (lat_slice h w P p es) f k t q) = disco_sum w ps es f k t q.
Proof. intros. apply (sum_slices_gen h w P es); auto. Qed.

(** ** Shards of rank-4 and rank-5 tensors *)
Lemma shard4 : forall (X : tensor R) a b c d k n r, shp X = [a; b; c; d] ->
  shp (shard k n r X) = upd k (chunk_len (nth k [a; b; c; d] 0) n r) [a; b; c; d].
Proof. intros. unfold shard, narrow, dimsz. cbn [shp]. now rewrite H. Qed.
Lemma shard5 : forall (X : tensor R) a b c d e k n r, shp X = [a; b; c; d; e] ->
  shp (shard k n r X) = upd k (chunk_len (nth k [a; b; c; d; e] 0) n r) [a; b; c; d; e].
Proof. intros. unfold shard, narrow, dimsz. cbn [shp]. now rewrite H. Qed.
Lemma shard_val : forall (X : tensor R) k n r i, val (shard k n r X) i = val X (upd k (nth k i 0 + chunk_lo (dimsz X k) n r) i).
Proof. reflexivity. Qed.

Section Conv.
Context (P A hi wi ho wo G Og Cg K B : nat) (weight : tensor R) (bias : option (tensor R)) (es : list entry).
Context (HP : 1 <= P) (HA : 1 <= A) (HPi : P <= hi) (HAi : A <= wi) (HPo : P <= ho) (HAo : A <= wo) (HAC : A <= G * Cg).
Context (HG : 1 <= G) (Hwi : 1 <= wi) (Hwo : 1 <= wo) (Sw : shp weight = [G * Og; Cg; K]) (Bo : bias_ok bias (G * Og)) (Hes : forall e, In e es -> col e < hi * wi).
Context (X : tensor R) (SX : shp X = [B; G * Cg; hi; wi]).
Let les (p : nat) : list entry := map (local_entry (chunk_lo hi P p) wi) (lat_slice hi wi P p es).

(** the contraction of a latitude shard, as a function of the whole field *)
Definition part (p : nat) : tensor R :=
  mkT [B; G * Cg; K; ho; wo] (fun i => disco_sum wi (wi / wo) (lat_slice hi wi P p es) (fun h w => val X [nth 0 i 0; nth 1 i 0; h; w]) (nth 2 i 0) (nth 3 i 0) (nth 4 i 0)).
Lemma part_local : forall p a, p < P -> a < A -> teq (tensor_disco K ho wo (les p) (shard 1 A a (shard 2 P p X))) (shard 1 A a (part p)).
Proof.
  intros p a Hp Ha. assert (S2 : shp (shard 2 P p X) = [B; G * Cg; chunk_len hi P p; wi]) by (rewrite (shard4 X B (G * Cg) hi wi); auto).
  assert (S1 : shp (shard 1 A a (shard 2 P p X)) = [B; chunk_len (G * Cg) A a; chunk_len hi P p; wi]) by (rewrite (shard4 _ _ _ _ _ _ _ _ S2); auto).
  split.
  - unfold tensor_disco. cbn [shp]. unfold dimsz. rewrite S1. reflexivity.
  - intros i Vi. unfold tensor_disco in *. cbn [shp val] in *. unfold dimsz in *. rewrite S1 in *. cbn [nth] in *. destruct (valid5 _ _ _ _ _ _ Vi) as (b & c & k & t & q & -> & Hb & Hc & Hk & Ht & Hq).
    unfold shard at 3, narrow at 1. cbn [val upd nth part shp dimsz].
    transitivity (disco_sum wi (wi / wo) (les p) (fun h w => (fun h w => val X [b; c + chunk_lo (G * Cg) A a; h; w]) (h + chunk_lo hi P p) w) k t q).
    + unfold disco_sum. apply lsum_ext. intros e _. destruct (_ && _); [|reflexivity]. f_equal. rewrite shard_val. cbn [upd nth]. rewrite shard_val. cbn [upd nth]. unfold dimsz. rewrite S2, SX. reflexivity.
    + unfold les. apply (local_disco wi (wi / wo) (chunk_lo hi P p) (lat_slice hi wi P p es) (fun h w => val X [b; c + chunk_lo (G * Cg) A a; h; w])); auto. intros e He. apply in_slice in He. tauto.
Qed.
Definition whole : tensor R := tensor_disco K ho wo es X.
Lemma whole_shp : shp whole = [B; G * Cg; K; ho; wo].
Proof. unfold whole, tensor_disco, dimsz. cbn [shp]. rewrite SX. reflexivity. Qed.
Lemma parts_whole : forall a, a < A -> teq (mkT (shp (shard 1 A a (part 0))) (fun i => rsum P (fun p => val (shard 1 A a (part p)) i))) (shard 1 A a whole).
Proof.
  intros a Ha. split.
  - cbn [shp]. rewrite (shard5 _ _ _ _ _ _ _ _ _ whole_shp). reflexivity.
  - intros i Vi. cbn [shp] in Vi. unfold shard, narrow, part, dimsz in Vi. cbn in Vi. destruct (valid5 _ _ _ _ _ _ Vi) as (b & c & k & t & q & -> & Hb & Hc & Hk & Ht & Hq). cbn [val].
    rewrite shard_val. unfold dimsz. rewrite whole_shp. unfold whole, tensor_disco. cbn [val upd nth]. unfold dimsz. rewrite SX. cbn [nth].
    rewrite <- (sum_slices hi wi P es) by auto. apply rsum_ext. intros p Hp. reflexivity.
Qed.

(** contraction with the weights of a spatial shard *)
Lemma contract_part : forall p a t, p < P -> a < A -> teq t (shard 4 A a (shard 3 P p whole)) ->
  returns (do z <- weight_contract G weight t; add_chan_bias bias z) (shard 2 P p (shard 3 A a (conv_spec K Og Cg ho wo es weight bias X))).
Proof.
  intros p a t Hp Ha [TS TV]. assert (W3 : shp (shard 3 P p whole) = [B; G * Cg; K; chunk_len ho P p; wo]) by (rewrite (shard5 _ _ _ _ _ _ _ _ _ whole_shp); auto).
  assert (W4 : shp (shard 4 A a (shard 3 P p whole)) = [B; G * Cg; K; chunk_len ho P p; chunk_len wo A a]) by (rewrite (shard5 _ _ _ _ _ _ _ _ _ W3); auto).
  assert (St : shp t = [B; G * Cg; K; chunk_len ho P p; chunk_len wo A a]) by (rewrite TS; auto). clear W4.
  destruct (shape5 _ _ _ _ _ _ St) as (N5 & E0 & E1 & E2 & E3 & E4).
  assert (Wd : ndim weight = 3 /\ dimsz weight 0 = G * Og /\ dimsz weight 1 = Cg /\ dimsz weight 2 = K) by (unfold ndim, dimsz; rewrite Sw; auto). destruct Wd as (N3 & W0 & W1 & W2).
  assert (SC : shp (conv_spec K Og Cg ho wo es weight bias X) = [B; G * Og; ho; wo]) by (unfold conv_spec; cbn [shp]; rewrite W0; unfold dimsz; rewrite SX; reflexivity).
  assert (SC3 : shp (shard 3 A a (conv_spec K Og Cg ho wo es weight bias X)) = [B; G * Og; ho; chunk_len wo A a]) by (rewrite (shard4 _ _ _ _ _ _ _ _ SC); auto).
  assert (V : forall b o t0 q, b < B -> o < G * Og -> t0 < chunk_len ho P p -> q < chunk_len wo A a ->
     (rsum Cg (fun c => rsum K (fun k => val t [b; o / Og * Cg + c; k; t0; q]%nat * val weight [o; c; k])) + bias_at bias o =
     val (shard 2 P p (shard 3 A a (conv_spec K Og Cg ho wo es weight bias X))) [b; o; t0; q])%R).
  { intros b o t0 q Hb Ho' Ht Hq. rewrite shard_val. cbn [upd nth]. rewrite shard_val. unfold dimsz. rewrite SC3, SC. cbn [upd nth]. unfold conv_spec. cbn [val nth]. unfold conv_value. f_equal.
    apply rsum_ext. intros c Hc. apply rsum_ext. intros k Hk. f_equal. rewrite TV by (rewrite St; apply valid5_intro; auto; eapply group_idx; eauto).
    rewrite shard_val. cbn [upd nth]. rewrite shard_val. unfold dimsz. rewrite W3, whole_shp. cbn [upd nth]. unfold whole, tensor_disco. cbn [val nth]. reflexivity. }
  unfold weight_contract. rewrite N5, N3, W0, W1, W2, E0, E1, E2, E3, E4, div_mul_l by auto. cbn [Nat.eqb andb guard bindo].
  rewrite !Nat.eqb_refl. destruct (Nat.leb_spec 1 G); [|lia]. cbn [andb guard bindo].
  assert (SS : shp (shard 2 P p (shard 3 A a (conv_spec K Og Cg ho wo es weight bias X))) = [B; G * Og; chunk_len ho P p; chunk_len wo A a]) by (rewrite (shard4 _ _ _ _ _ _ _ _ SC3); auto).
  destruct bias as [bt|]; cbn [add_chan_bias].
  - cbn in Bo. rewrite Bo. unfold dimsz at 1. cbn [shp nth]. rewrite (proj2 (shape_eqb_true _ _) eq_refl). cbn [guard bindo].
    apply returns_Some. split; [cbn [shp]; now rewrite SS|]. intros i Vi. cbn [shp] in Vi. destruct (valid4 _ _ _ _ _ Vi) as (b & o & t0 & q & -> & Hb & Ho' & Ht & Hq). cbn [val nth]. apply V; auto.
  - apply returns_Some. split; [cbn [shp]; now rewrite SS|]. intros i Vi. cbn [shp] in Vi. destruct (valid4 _ _ _ _ _ Vi) as (b & o & t0 & q & -> & Hb & Ho' & Ht & Hq). cbn [val nth]. rewrite <- V by auto. cbn [bias_at]. ring.
Qed.

(** The standard schedule, for ranks whose contraction is right. *)
Definition rank_ok (junk : nat -> R) (opt : bool) (d : pfam disco_layer) : Prop := forall p a, p < P -> a < A ->
  exists o, d p a = Some o /\ d_nlon_in o = wi /\ d_groups o = G /\ d_weight o = weight /\ d_bias o = bias /\
    forall C t, shp t = [B; C; chunk_len hi P p; wi] -> exists y, local_contraction junk opt o t = Some y /\ teq y (tensor_disco K ho wo (les p) t).
Context (x : pfam (tensor R)) (Hx : holds2 P A x (fun p a => shard 2 P p (shard 3 A a X))).

Lemma tensor_disco_proper : forall hl p C t u, p < P -> shp t = [B; C; hl; wi] -> (forall e, In e (les p) -> col e < hl * wi) -> teq t u -> teq (tensor_disco K ho wo (les p) t) (tensor_disco K ho wo (les p) u).
Proof.
  intros hl p C t u Hp St Hc [TS TV]. assert (Su : shp u = [B; C; hl; wi]) by congruence. split; [unfold tensor_disco, dimsz; cbn [shp]; now rewrite TS|]. intros i Vi. unfold tensor_disco in *. cbn [shp val] in *. unfold dimsz in *. rewrite St, Su in *. cbn [nth] in *.
  destruct (valid5 _ _ _ _ _ _ Vi) as (b & c & k & t0 & q & -> & Hb & Hc' & Hk & Ht & Hq). cbn [nth]. apply (disco_sum_ext _ _ _ _ _ _ _ _ hl); auto.
  intros h w Hh Hw. apply TV. rewrite ?St. apply valid4_intro; auto.
Qed.
Lemma x1_ok : forall debug d junk opt, rank_ok junk opt d -> holds2 P A (az_transpose debug A 1 3 (pmap (fun o => compute_split_shapes (d_nlon_in o) A) d) x) (fun p a => shard 1 A a (shard 2 P p X)).
Proof.
  intros debug d junk opt RK. apply az_transpose_ok; auto.
  - intros p Hp. assert (S2 : shp (shard 2 P p X) = [B; G * Cg; chunk_len hi P p; wi]) by (rewrite (shard4 X B (G * Cg) hi wi); auto). unfold ndim, dimsz. rewrite S2. cbn [length nth].
    split; [lia|]. split; [lia|]. split; [auto|]. intros a Ha _. destruct (RK p a Hp Ha) as (o & E & Ew & _). exists (bal wi A). unfold pmap. rewrite E. cbn [bindo]. rewrite Ew, css_some by auto. auto.
  - eapply holds2_teq; [exact Hx|]. intros p a Hp Ha. apply shard_comm; auto.
Qed.
Lemma les_col : forall p e, In e (les p) -> col e < chunk_len hi P p * wi.
Proof.
  intros p e He. unfold les in He. apply in_map_iff in He. destruct He as (e0 & <- & He). apply in_slice in He. destruct He as (He & L). cbn [col local_entry]. unfold chunk_len. pose proof (Nat.mod_upper_bound (col e0) wi ltac:(lia)). nia.
Qed.
Theorem dist_conv_ok : forall junk opt debug d, rank_ok junk opt d ->
  holds2 P A (dist_conv junk opt debug P A d x) (fun p a => shard 2 P p (shard 3 A a (conv_spec K Og Cg ho wo es weight bias X))).
Proof.
  intros junk opt debug d RK. pose proof (x1_ok debug d junk opt RK) as H1. unfold dist_conv. set (x1 := az_transpose debug A 1 3 _ x) in *.
  assert (H2 : holds2 P A (pzip (local_contraction junk opt) d x1) (fun p a => shard 1 A a (part p))).
  { intros p a Hp Ha. destruct (RK p a Hp Ha) as (o & E & _ & _ & _ & _ & C). destruct (H1 p a Hp Ha) as (t & Et & Tt). unfold pzip. rewrite E, Et. cbn [bindo].
    assert (S2 : shp (shard 2 P p X) = [B; G * Cg; chunk_len hi P p; wi]) by (rewrite (shard4 X B (G * Cg) hi wi); auto).
    assert (St : shp t = [B; chunk_len (G * Cg) A a; chunk_len hi P p; wi]) by (rewrite (teq_shp _ _ _ Tt), (shard4 _ _ _ _ _ _ _ _ S2); auto).
    destruct (C _ t St) as (y & Ey & Ty). exists y. split; auto. eapply teq_trans; [exact Ty|]. eapply teq_trans; [|apply part_local; auto].
    eapply tensor_disco_proper; eauto. apply les_col. }
  set (x2 := pzip (local_contraction junk opt) d x1) in *. clearbody x2 x1.
  assert (H3 : holds2 P A (po_reduce_scatter P 3 x2) (fun p a => shard 1 A a (shard 3 P p whole))).
  { intros p a Hp Ha. unfold po_reduce_scatter. assert (S0 : forall r, shp (shard 1 A a (part r)) = [B; chunk_len (G * Cg) A a; K; ho; wo]) by reflexivity.
    eapply returns_teq; [apply (rs_sum P 3 (fun p => x2 p a) (fun p => shard 1 A a (part p)))|].
    - exact HP.
    - cbn; lia.
    - unfold dimsz. now rewrite S0.
    - intros r Hr. now rewrite !S0.
    - intros r Hr. apply H2; auto.
    - exact Hp.
    - apply teq_trans with (shard 3 P p (shard 1 A a whole)); [|apply shard_comm; auto]. apply shard_proper; auto; try (cbn; lia). apply parts_whole; auto. }
  set (x3 := po_reduce_scatter P 3 x2) in *. clearbody x3.
  assert (H4 : holds2 P A (az_transpose debug A 4 1 (pmap (fun t => compute_split_shapes (dimsz t 1) A) x) x3) (fun p a => shard 4 A a (shard 3 P p whole))).
  { apply az_transpose_ok; auto. intros p Hp. unfold ndim. unfold dimsz. rewrite (shard5 _ _ _ _ _ _ _ _ _ whole_shp). cbn [length nth upd]. split; [lia|]. split; [lia|]. split; [auto|].
    intros a Ha _. exists (bal (G * Cg) A). unfold pmap. destruct (Hx p a Hp Ha) as (t & -> & Tt). cbn [bindo]. rewrite (teq_shp _ _ _ Tt).
    assert (S3 : shp (shard 3 A a X) = [B; G * Cg; hi; chunk_len wi A a]) by (rewrite (shard4 X B (G * Cg) hi wi); auto). rewrite (shard4 _ _ _ _ _ _ _ _ S3). cbn [upd nth]. rewrite css_some by auto. auto. }
  set (x4 := az_transpose debug A 4 1 _ x3) in *. clearbody x4.
  intros p a Hp Ha. destruct (RK p a Hp Ha) as (o & E & _ & Eg & Ew & Eb & _). destruct (H4 p a Hp Ha) as (t & Et & Tt).
  unfold pzip. rewrite E, Et. cbn [bindo]. rewrite Eg, Ew, Eb. apply contract_part; auto.
Qed.
End Conv.
