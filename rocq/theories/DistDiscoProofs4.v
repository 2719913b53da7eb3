(** The distributed transposed DISCO convolution. *)
From Coq Require Import List Arith Lia Bool Reals Lra.
From Verif Require Import TensorModel TensorProofs BigSum PrimModel PrimSpec PrimProofs PrimProofs2 PrimAutogradModel PrimPropProofs DistSHTModel DistSHTProofs DistSHTProofs2 DistMiscProofs DistSpectralProofs
  DiscoModel DiscoSpec DiscoTensorProofs DiscoLayerProofs DiscoTransposeProofs DiscoRunProofs DistDiscoModel DistDiscoSpec DistDiscoProofs DistDiscoProofs2 DistDiscoProofs3.
Import ListNotations.
Local Open Scope nat_scope.

Lemma local_adjoint : forall w ps n h P p es g t j, 1 <= w -> 1 <= P -> p < P -> t < chunk_len h P p ->
  disco_adjoint_sum w ps n (map (local_entry (chunk_lo h P p) w) (lat_slice h w P p es)) g t j = disco_adjoint_sum w ps n es g (t + chunk_lo h P p) j.
Proof.
  intros w ps n h P p es g t j Hw HP Hp Ht. unfold disco_adjoint_sum. rewrite lsum_map. unfold lat_slice. rewrite (lsum_filter RT). apply lsum_ext. intros e _.
  cbn [ker row col pv local_entry]. pose proof (Nat.mod_upper_bound (col e) w ltac:(lia)). rewrite Nat.div_add_l, (Nat.div_small (col e mod w)) by lia.
  rewrite (Nat.add_comm (_ * w)), Nat.mod_add, Nat.mod_mod by lia. unfold chunk_len in Ht.
  destruct (Nat.leb_spec (chunk_lo h P p) (col e / w)); [destruct (Nat.ltb_spec (col e / w) (chunk_lo h P (S p)))|]; cbn [andb].
  - replace (col e / w - chunk_lo h P p + 0 =? t) with (col e / w =? t + chunk_lo h P p); [reflexivity|]. destruct (Nat.eqb_spec (col e / w) (t + chunk_lo h P p)), (Nat.eqb_spec (col e / w - chunk_lo h P p + 0) t); auto; lia.
  - destruct (Nat.eqb_spec (col e / w) (t + chunk_lo h P p)); [lia|reflexivity].
  - destruct (Nat.eqb_spec (col e / w) (t + chunk_lo h P p)); [lia|reflexivity].
Qed.

Lemma adjoint_sum_ext : forall K H N w ps n es f g h j, psi_wf K H N es -> (forall k t q, k < K -> t < H -> q < n -> f k t q = g k t q) ->
  disco_adjoint_sum w ps n es f h j = disco_adjoint_sum w ps n es g h j.
Proof.
  intros K H N w ps n es f g h j W E. unfold disco_adjoint_sum. apply lsum_ext. intros e He. destruct (W e He) as (? & ? & _). destruct (_ =? h); [|reflexivity]. f_equal. apply rsum_ext. intros q Hq. rewrite E by auto. reflexivity.
Qed.

Section TConv.
Context (P A hi wi ho wo G Og Cg K B : nat) (weight : tensor R) (bias : option (tensor R)) (es : list entry).
Context (HP : 1 <= P) (HA : 1 <= A) (HPi : P <= hi) (HAi : A <= wi) (HPo : P <= ho) (HAo : A <= wo) (HAC : A <= G * Og).
Context (HG : 1 <= G) (Hwi : 1 <= wi) (Hwo : 1 <= wo) (Sw : shp weight = [G * Og; Cg; K]) (Bo : bias_ok bias (G * Og)) (Wf : psi_wf K hi (ho * wo) es).
Context (X : tensor R) (SX : shp X = [B; G * Cg; hi; wi]).
Let les (p : nat) : list entry := map (local_entry (chunk_lo ho P p) wo) (lat_slice ho wo P p es).

Definition expanded : tensor R := mkT [B; G * Og; K; hi; wi] (fun i => rsum Cg (fun c => Rmult (val X [nth 0 i 0; nth 1 i 0 / Og * Cg + c; nth 3 i 0; nth 4 i 0]) (val weight [nth 1 i 0; c; nth 2 i 0]))).
Definition adjointed : tensor R := tensor_disco_adjoint ho wo es expanded.
Lemma adjointed_shp : shp adjointed = [B; G * Og; ho; wo].
Proof. reflexivity. Qed.

Definition trank_ok (opt : bool) (d : pfam disco_layer) : Prop := forall p a, p < P -> a < A ->
  exists o, d p a = Some o /\ d_nlat_in o = hi /\ d_nlon_in o = wi /\ d_groups o = G /\ d_weight o = weight /\ d_bias o = bias /\
    forall C t, shp t = [B; C; K; hi; wi] -> exists y, local_transposed opt o t = Some y /\ teq y (tensor_disco_adjoint (chunk_len ho P p) wo (les p) t).
Context (x : pfam (tensor R)) (Hx : holds2 P A x (fun p a => shard 2 P p (shard 3 A a X))).

Lemma expand_shard : forall p a t, p < P -> a < A -> teq t (shard 2 P p (shard 3 A a X)) -> returns (weight_expand G weight t) (shard 3 P p (shard 4 A a expanded)).
Proof.
  intros p a t Hp Ha [TS TV].
  assert (S3 : shp (shard 3 A a X) = [B; G * Cg; hi; chunk_len wi A a]) by (rewrite (shard4 X B (G * Cg) hi wi); auto).
  assert (St : shp t = [B; G * Cg; chunk_len hi P p; chunk_len wi A a]) by (rewrite TS, (shard4 _ _ _ _ _ _ _ _ S3); auto).
  destruct (expand_value G Og Cg K B (chunk_len hi P p) (chunk_len wi A a) weight t) as (y & Ey & Sy & Vy); auto. rewrite Ey. apply returns_Some. split; [rewrite Sy; reflexivity|].
  intros i Vi. rewrite Sy in Vi. destruct (valid5 _ _ _ _ _ _ Vi) as (b & o & k & t0 & q & -> & Hb & Ho' & Hk & Ht & Hq). rewrite Vy. rewrite !shard_val. cbn [upd nth]. unfold expanded. cbn [val nth].
  apply rsum_ext. intros c Hc. f_equal. rewrite TV by (rewrite St; apply valid4_intro; auto; eapply group_idx; eauto). rewrite !shard_val. cbn [upd nth]. unfold dimsz at 1. rewrite S3. unfold dimsz. rewrite SX. reflexivity.
Qed.
Lemma adjoint_shard : forall p a t, p < P -> a < A -> teq t (shard 1 A a expanded) -> teq (tensor_disco_adjoint (chunk_len ho P p) wo (les p) t) (shard 1 A a (shard 2 P p adjointed)).
Proof.
  intros p a t Hp Ha [TS TV]. assert (St : shp t = [B; chunk_len (G * Og) A a; K; hi; wi]) by (rewrite TS; reflexivity). split; [unfold tensor_disco_adjoint, dimsz; cbn [shp]; rewrite St; reflexivity|].
  intros i Vi. unfold tensor_disco_adjoint in *. cbn [shp val] in *. unfold dimsz in *. rewrite St in *. cbn [nth] in *. destruct (valid4 _ _ _ _ _ Vi) as (b & o & h & j & -> & Hb & Ho' & Hh & Hj). cbn [nth].
  rewrite !shard_val. cbn [upd nth]. unfold adjointed, tensor_disco_adjoint. cbn [val nth]. change (dimsz expanded 4) with wi. unfold les. rewrite local_adjoint by auto.
  eapply adjoint_sum_ext; [exact Wf|]. intros k t0 q Hk Ht Hq. rewrite TV by (rewrite ?St; apply valid5_intro; auto). reflexivity.
Qed.
Lemma tbias_shard : forall p a z, p < P -> a < A -> teq z (shard 2 P p (shard 3 A a adjointed)) ->
  returns (add_chan_bias bias z) (shard 2 P p (shard 3 A a (tconv_spec Og Cg ho wo es weight bias X))).
Proof.
  intros p a z Hp Ha [TS TV].
  assert (Sz : shp z = [B; G * Og; chunk_len ho P p; chunk_len wo A a]) by (rewrite TS; reflexivity).
  assert (SS : shp (shard 2 P p (shard 3 A a (tconv_spec Og Cg ho wo es weight bias X))) = [B; G * Og; chunk_len ho P p; chunk_len wo A a]).
  { unfold tconv_spec, shard, narrow, dimsz. cbn [shp]. rewrite SX, Sw. reflexivity. }
  assert (V : forall b o t q, val (shard 2 P p (shard 3 A a (tconv_spec Og Cg ho wo es weight bias X))) [b; o; t; q] = (val (shard 2 P p (shard 3 A a adjointed)) [b; o; t; q] + bias_at bias o)%R).
  { intros. rewrite !shard_val. cbn [upd nth]. unfold adjointed, tconv_spec, tconv_value, tensor_disco_adjoint, expanded. cbn [val nth]. unfold dimsz. rewrite SX. reflexivity. }
  destruct bias as [bt|]; cbn [add_chan_bias].
  - cbn in Bo. unfold dimsz. rewrite Sz, Bo. cbn [nth]. rewrite (proj2 (shape_eqb_true _ _) eq_refl). cbn [guard bindo]. apply returns_Some. split; [cbn [shp]; now rewrite SS|].
    intros i Vi. cbn [shp] in Vi. assert (Vi' := Vi). destruct (valid4 _ _ _ _ _ Vi) as (b & o & t & q & -> & _). cbn [val nth]. rewrite V, TV by (rewrite Sz; auto). reflexivity.
  - apply returns_Some. split; [now rewrite SS|]. intros i Vi. assert (Vi' := Vi). rewrite Sz in Vi. destruct (valid4 _ _ _ _ _ Vi) as (b & o & t & q & -> & _). rewrite V, TV by auto. cbn [bias_at]. ring.
Qed.
Theorem dist_tconv_ok : forall opt debug d, trank_ok opt d ->
  holds2 P A (dist_tconv opt debug P A d x) (fun p a => shard 2 P p (shard 3 A a (tconv_spec Og Cg ho wo es weight bias X))).
Proof.
  intros opt debug d RK. unfold dist_tconv. set (x0 := pzip _ d x).
  assert (H0 : holds2 P A x0 (fun p a => shard 4 A a (shard 3 P p expanded))).
  { intros p a Hp Ha. destruct (RK p a Hp Ha) as (o & E & _ & _ & Eg & Ew & _). destruct (Hx p a Hp Ha) as (t & Et & Tt). unfold x0, pzip. rewrite E, Et. cbn [bindo]. rewrite Eg, Ew.
    eapply returns_teq; [apply expand_shard; eauto|]. apply shard_comm; auto. }
  clearbody x0.
  assert (H1 : holds2 P A (az_transpose debug A 1 4 (pmap (fun o => compute_split_shapes (d_nlon_in o) A) d) x0) (fun p a => shard 1 A a (shard 3 P p expanded))).
  { apply az_transpose_ok; auto. intros p Hp. change (ndim (shard 3 P p expanded)) with 5. change (dimsz (shard 3 P p expanded) 1) with (G * Og). change (dimsz (shard 3 P p expanded) 4) with wi.
    split; [lia|]. split; [lia|]. split; [auto|]. intros a Ha _. destruct (RK p a Hp Ha) as (o & E & _ & El & _). exists (bal wi A). unfold pmap. rewrite E. cbn [bindo]. rewrite El, css_some by auto. auto. }
  set (x1 := az_transpose debug A 1 4 _ x0) in *. clearbody x1.
  set (x2 := (fun p a => do o <- d p a; do sizes <- compute_split_shapes (d_nlat_in o) P; gfc_fwd debug P 3 (Some sizes) (fun p => x1 p a) p) : pfam (tensor R)).
  assert (H2 : holds2 P A x2 (fun p a => shard 1 A a expanded)).
  { intros p a Hp Ha. destruct (RK p a Hp Ha) as (o & E & Eh & _). unfold x2. rewrite E. cbn [bindo]. rewrite Eh, css_some by auto. cbn [bindo]. unfold gfc_fwd.
    apply (gather_by R debug P 3 (bal hi P) true (shard 1 A a expanded) (fun p => x1 p a)); auto.
    - cbn; lia.
    - apply bal_length; auto.
    - rewrite bal_sum; auto.
    - intros r Hr. eapply returns_teq; [apply H1; auto|]. eapply teq_trans; [apply shard_comm; auto|]. rewrite (shard_bal _ 3 P r (shard 1 A a expanded)) by auto. apply teq_refl. }
  clearbody x2.
  assert (H3 : holds2 P A (pzip (local_transposed opt) d x2) (fun p a => shard 1 A a (shard 2 P p adjointed))).
  { intros p a Hp Ha. destruct (RK p a Hp Ha) as (o & E & _ & _ & _ & _ & _ & C). destruct (H2 p a Hp Ha) as (t & Et & Tt). unfold pzip. rewrite E, Et. cbn [bindo].
    destruct (C (chunk_len (G * Og) A a) t) as (y & Ey & Ty); [rewrite (teq_shp _ _ _ Tt); reflexivity|]. exists y. split; auto. eapply teq_trans; [exact Ty|]. apply adjoint_shard; auto. }
  set (x3 := pzip (local_transposed opt) d x2) in *. clearbody x3.
  assert (H4 : holds2 P A (az_transpose debug A 3 1 (pmap (fun t => compute_split_shapes (dimsz t 1) A) x0) x3) (fun p a => shard 3 A a (shard 2 P p adjointed))).
  { apply az_transpose_ok; auto. intros p Hp. change (ndim (shard 2 P p adjointed)) with 4. change (dimsz (shard 2 P p adjointed) 1) with (G * Og). change (dimsz (shard 2 P p adjointed) 3) with wo.
    split; [lia|]. split; [lia|]. split; [auto|]. intros a Ha _. exists (bal (G * Og) A). unfold pmap. destruct (H0 p a Hp Ha) as (t & -> & Tt). cbn [bindo].
    rewrite (teq_dimsz _ _ _ 1 Tt). change (dimsz (shard 4 A a (shard 3 P p expanded)) 1) with (G * Og). rewrite css_some by auto. auto. }
  set (x4 := az_transpose debug A 3 1 _ x3) in *. clearbody x4.
  intros p a Hp Ha. destruct (RK p a Hp Ha) as (o & E & _ & _ & _ & _ & Eb & _). destruct (H4 p a Hp Ha) as (t & Et & Tt). unfold pzip. rewrite E, Et. cbn [bindo]. rewrite Eb. apply tbias_shard; auto.
  eapply teq_trans; [exact Tt|]. apply shard_comm; auto.
Qed.
End TConv.

Lemma trank_works : forall junk opt P A hi wi ho wo G Og Cg K B weight bias es,
  layer_ok K ho wo hi wi G Og Cg weight bias es -> slices_filled ho wo P es -> (opt = true -> slices_separated K ho wo P es) ->
  1 <= P <= hi -> P <= ho -> 1 <= A <= wi -> A <= wo ->
  trank_ok P A hi wi ho wo G K B weight bias es opt (dist_tconv_init junk opt P A hi wi ho wo G K weight bias es).
Proof.
  intros junk opt P A hi wi ho wo G Og Cg K B weight bias es L F S HP HPo HA HAo p a Hp Ha. destruct L.
  unfold dist_tconv_init. rewrite !css_some by lia. cbn [bindo]. rewrite chunk_len_nth by lia. rewrite (split_psi_spec P p ho wo es) by (auto; lia). cbn [bindo].
  set (les := map (local_entry (chunk_lo ho P p) wo) (lat_slice ho wo P p es)).
  assert (W : psi_wf K hi (chunk_len ho P p * wo) les) by (apply slice_wf; auto).
  assert (N : les <> []). { intros E. pose proof (F p Hp) as L. unfold les in E. apply map_eq_nil in E. rewrite E in L. cbn in L. lia. }
  destruct opt.
  - destruct (preprocess_psi junk K hi les) as [[roff es']|] eqn:PP; [|rewrite (preprocess_spec junk K hi (chunk_len ho P p * wo) les) in PP by (auto; apply slice_sorted; auto); discriminate].
    cbn [bindo fst snd]. eexists. split; [reflexivity|]. cbn [d_nlat_in d_nlon_in d_groups d_weight d_bias]. do 5 (split; [reflexivity|]). intros C t St.
    unfold local_transposed. cbn [d_K d_nlat_out d_nlon_out d_roff d_es]. eapply (cpu_bwd_spec junk (chunk_len ho P p) wo les roff es' t B C K hi wi); eauto.
    + apply slice_sorted; auto.
    + apply slice_separated. apply S; auto.
  - destruct (torch_transpose_spec K (chunk_len ho P p) wo les (mkT [0; 0; K; hi; wi] (fun _ => 0%R)) 0 0 hi wi) as (psi & _ & E1 & _); auto. rewrite E1. cbn [bindo].
    eexists. split; [reflexivity|]. cbn [d_nlat_in d_nlon_in d_groups d_weight d_bias]. do 5 (split; [reflexivity|]). intros C t St.
    unfold local_transposed. cbn [d_K d_nlat_in d_nlon_in d_nlat_out d_nlon_out d_raw]. destruct (torch_transpose_spec K (chunk_len ho P p) wo les t B C hi wi) as (psi' & y & E2 & Ey & Ty); auto.
    rewrite E2. cbn [bindo]. eauto.
Qed.
Theorem dist_tconv_serial : forall junk debug P A hi wi ho wo G Og Cg K B weight bias es s (X : tensor R) x,
  layer_ok K ho wo hi wi G Og Cg weight bias es -> conv_transpose_s2_init junk hi wi ho wo G K weight bias es = Some s ->
  slices_filled ho wo P es -> slices_separated K ho wo P es ->
  1 <= P <= hi -> P <= ho -> 1 <= A <= wi -> A <= wo -> A <= G * Og ->
  shp X = [B; G * Cg; hi; wi] -> holds2 P A x (fun p a => shard 2 P p (shard 3 A a X)) ->
  exists Y, conv_transpose_s2_opt s X = Some Y /\
    holds2 P A (dist_tconv true debug P A (dist_tconv_init junk true P A hi wi ho wo G K weight bias es) x) (fun p a => shard 2 P p (shard 3 A a Y)).
Proof.
  intros junk debug P A hi wi ho wo G Og Cg K B weight bias es s X x L I F S HP HPo HA HAo HAC SX Hx.
  destruct (tconv_opt_spec junk hi wi ho wo G Og Cg K weight bias es s X B L I SX) as (Y & EY & TY). exists Y. split; auto.
  destruct L. eapply holds2_teq; [eapply (dist_tconv_ok P A hi wi ho wo G Og Cg K B weight bias es); eauto; try lia|].
  - eapply trank_works; eauto. econstructor; eauto.
  - intros p a Hp Ha. cbn beta. apply shard_proper; try lia. apply shard_proper; try lia. apply teq_sym; auto.
Qed.
Theorem dist_tconv_torch_serial : forall junk debug P A hi wi ho wo G Og Cg K B weight bias es s (X : tensor R) x,
  layer_ok K ho wo hi wi G Og Cg weight bias es -> conv_transpose_s2_init junk hi wi ho wo G K weight bias es = Some s ->
  slices_filled ho wo P es ->
  1 <= P <= hi -> P <= ho -> 1 <= A <= wi -> A <= wo -> A <= G * Og ->
  shp X = [B; G * Cg; hi; wi] -> holds2 P A x (fun p a => shard 2 P p (shard 3 A a X)) ->
  exists Y, conv_transpose_s2_torch s X = Some Y /\
    holds2 P A (dist_tconv false debug P A (dist_tconv_init junk false P A hi wi ho wo G K weight bias es) x) (fun p a => shard 2 P p (shard 3 A a Y)).
Proof.
  intros junk debug P A hi wi ho wo G Og Cg K B weight bias es s X x L I F HP HPo HA HAo HAC SX Hx.
  destruct (tconv_torch_spec junk hi wi ho wo G Og Cg K weight bias es s X B L I SX) as (Y & EY & TY). exists Y. split; auto.
  destruct L. eapply holds2_teq; [eapply (dist_tconv_ok P A hi wi ho wo G Og Cg K B weight bias es); eauto; try lia|].
  - eapply trank_works; eauto; [econstructor; eauto|discriminate].
  - intros p a Hp Ha. cbn beta. apply shard_proper; try lia. apply shard_proper; try lia. apply teq_sym; auto.
Qed.
