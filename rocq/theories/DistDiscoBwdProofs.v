(** Gradients of the distributed DISCO convolution, standard schedule. *)
From Coq Require Import List Arith Lia Bool Reals Lra.
From Verif Require Import TensorModel TensorProofs BigSum PrimModel PrimSpec PrimProofs PrimProofs2 PrimAutogradModel AdjointProofs PrimPropProofs DistSHTModel DistSHTProofs DistSHTProofs2 DistMiscProofs DistSpectralProofs
  DiscoModel DiscoSpec DiscoTensorProofs DiscoLayerProofs DiscoTransposeProofs DiscoRunProofs DiscoGradModel DiscoGradProofs DistDiscoModel DistDiscoSpec DistDiscoProofs DistDiscoProofs2 DistDiscoProofs3 DistDiscoProofs4 DistDiscoBwdModel.
Import ListNotations.
Local Open Scope nat_scope.

(** ** Collectives *)
Lemma az_transpose_bwd_ok : forall debug P A d0 d1 (x g : pfam (tensor R)) (T : nat -> tensor R), 1 <= A -> d0 <> d1 ->
  (forall p, p < P -> d0 < ndim (T p) /\ d1 < ndim (T p) /\ A <= dimsz (T p) d0 /\ A <= dimsz (T p) d1 /\
     forall a, a < A -> exists t, x p a = Some t /\ dimsz t d0 = dimsz (T p) d0) ->
  holds2 P A g (fun p a => shard d0 A a (T p)) -> holds2 P A (az_transpose_bwd debug A d0 d1 x g) (fun p a => shard d1 A a (T p)).
Proof.
  intros debug P A d0 d1 x g T HA Hne HT Hg.
  assert (E : forall p a, az_transpose_bwd debug A d0 d1 x g p a = az_transpose debug A d1 d0 (pmap (fun t => compute_split_shapes (dimsz t d0) A) x) g p a).
  { intros p a. unfold az_transpose_bwd, az_transpose. destruct (1 <? A); [|reflexivity]. unfold pmap, distributed_transpose_bwd. destruct (x p a) as [t|]; reflexivity. }
  assert (Q : holds2 P A (az_transpose debug A d1 d0 (pmap (fun t => compute_split_shapes (dimsz t d0) A) x) g) (fun p a => shard d1 A a (T p))).
  { apply az_transpose_ok; auto. intros p Hp. destruct (HT p Hp) as (H0 & H1 & H2 & H3 & H4). split; auto. split; auto. split; auto.
    intros a Ha _. destruct (H4 a Ha) as (t & Et & Dt). unfold pmap. rewrite Et. cbn [bindo]. rewrite Dt, css_some by auto. eauto. }
  intros p a Hp Ha. rewrite E. apply Q; auto.
Qed.
Lemma rs_bwd_ok : forall debug n d (T : tensor R) (g : fam (tensor R)), 1 <= n -> d < ndim T -> n <= dimsz T d ->
  holds n g (fun r => shard d n r T) -> holds n (rs_bwd debug n d (dimsz T d) g) (fun _ => T).
Proof.
  intros debug n d T g Hn Hd Hs Hg r Hr. unfold rs_bwd. rewrite css_some by auto. cbn [bindo].
  apply (gather_by R debug n d (bal (dimsz T d) n) true T g); auto.
  - apply bal_length; auto.
  - apply bal_sum; auto.
  - intros s Hs'. eapply returns_teq; [apply Hg; auto|]. rewrite (shard_bal _ d n s T) by auto. apply teq_refl.
Qed.
Lemma po_rs_bwd_ok : forall debug P A d (x g : pfam (tensor R)) (T : nat -> tensor R), 1 <= P ->
  (forall a, a < A -> d < ndim (T a) /\ P <= dimsz (T a) d /\ forall p, p < P -> exists t, x p a = Some t /\ dimsz t d = dimsz (T a) d) ->
  holds2 P A g (fun p a => shard d P p (T a)) -> holds2 P A (po_reduce_scatter_bwd debug P d x g) (fun p a => T a).
Proof.
  intros debug P A d x g T HP HT Hg p a Hp Ha. destruct (HT a Ha) as (H0 & H1 & H2). destruct (H2 p Hp) as (t & Et & Dt).
  unfold po_reduce_scatter_bwd. rewrite Et. cbn [bindo]. rewrite Dt. apply (rs_bwd_ok debug P d (T a) (fun p => g p a)); auto. intros r Hr. apply Hg; auto.
Qed.
Lemma az_rs_bwd_ok : forall debug P A d (x g : pfam (tensor R)) (T : nat -> tensor R), 1 <= A ->
  (forall p, p < P -> d < ndim (T p) /\ A <= dimsz (T p) d /\ forall a, a < A -> exists t, x p a = Some t /\ dimsz t d = dimsz (T p) d) ->
  holds2 P A g (fun p a => shard d A a (T p)) -> holds2 P A (az_reduce_scatter_bwd debug A d x g) (fun p a => T p).
Proof.
  intros debug P A d x g T HP HT Hg p a Hp Ha. destruct (HT p Hp) as (H0 & H1 & H2). destruct (H2 a Ha) as (t & Et & Dt).
  unfold az_reduce_scatter_bwd. rewrite Et. cbn [bindo]. rewrite Dt. apply (rs_bwd_ok debug A d (T p) (fun a => g p a)); auto. intros r Hr. apply Hg; auto.
Qed.
Lemma holds2_dim : forall P A (x : pfam (tensor R)) T d, holds2 P A x T -> forall p a, p < P -> a < A -> exists t, x p a = Some t /\ dimsz t d = dimsz (T p a) d.
Proof. intros P A x T d H p a Hp Ha. destruct (H p a Hp Ha) as (t & E & Tt). exists t. split; auto. apply teq_dimsz; auto. Qed.

Lemma grad_expand_swap : forall G Og Cg K B h w (weight g : tensor R), 1 <= G -> shp weight = [G * Og; Cg; K] -> shp g = [B; G * Og; h; w] ->
  grad_expand G weight g = weight_expand G (swap_weight G Og Cg K weight) g.
Proof.
  intros G Og Cg K B h w weight g HG Sw Sg. unfold grad_expand, weight_expand, ndim, dimsz. cbn [swap_weight shp]. rewrite Sw, Sg. cbn [length nth Nat.eqb andb guard bindo].
  rewrite !div_mul_l, !Nat.eqb_refl by auto. destruct (Nat.leb_spec 1 G); [|lia]. reflexivity.
Qed.

(** ** Intermediate values of the forward pass *)
Section Fwd.
Context (P A hi wi ho wo G Og Cg K B : nat) (weight : tensor R) (bias : option (tensor R)) (es : list entry).
Context (HP : 1 <= P) (HA : 1 <= A) (HPi : P <= hi) (HAi : A <= wi) (HPo : P <= ho) (HAo : A <= wo) (HAC : A <= G * Cg).
Context (HG : 1 <= G) (Hwi : 1 <= wi) (Hwo : 1 <= wo) (Sw : shp weight = [G * Og; Cg; K]) (Hes : forall e, In e es -> col e < hi * wi).
Context (X : tensor R) (SX : shp X = [B; G * Cg; hi; wi]).
Context (x : pfam (tensor R)) (Hx : holds2 P A x (fun p a => shard 2 P p (shard 3 A a X))).
Context (junk : nat -> R) (debug : bool) (d : pfam disco_layer) (RK : rank_ok P A hi wi ho wo G K B weight bias es junk true d).
Lemma conv_x1_ok : holds2 P A (conv_x1 debug A d x) (fun p a => shard 1 A a (shard 2 P p X)).
Proof. exact (x1_ok P A hi wi ho wo G Cg K B weight bias es HP HA HPi HAi HPo HAo HAC HG Hwi Hwo X SX x Hx debug d junk true RK). Qed.
Lemma conv_x2_ok : holds2 P A (conv_x2 junk debug A d x) (fun p a => shard 1 A a (part P hi wi ho wo G Cg K B es X p)).
Proof.
  intros p a Hp Ha. destruct (RK p a Hp Ha) as (o & E & _ & _ & _ & _ & C). destruct (conv_x1_ok p a Hp Ha) as (t & Et & Tt). unfold conv_x2, pzip. rewrite E, Et. cbn [bindo].
  assert (S2 : shp (shard 2 P p X) = [B; G * Cg; chunk_len hi P p; wi]) by (rewrite (shard4 X B (G * Cg) hi wi); auto).
  assert (St : shp t = [B; chunk_len (G * Cg) A a; chunk_len hi P p; wi]) by (rewrite (teq_shp _ _ _ Tt), (shard4 _ _ _ _ _ _ _ _ S2); auto).
  destruct (C _ t St) as (y & Ey & Ty). exists y. split; auto. eapply teq_trans; [exact Ty|]. eapply teq_trans; [|eapply (part_local P A hi wi ho wo G Cg K B es); eauto].
  eapply (tensor_disco_proper P hi wi ho wo K B es); eauto. eapply (les_col P A hi wi ho wo G Cg es); eauto.
Qed.
Lemma conv_x3_ok : holds2 P A (conv_x3 junk debug P A d x) (fun p a => shard 1 A a (shard 3 P p (whole ho wo K es X))).
Proof.
  intros p a Hp Ha. unfold conv_x3, po_reduce_scatter. set (part := part P hi wi ho wo G Cg K B es X).
  assert (S0 : forall r, shp (shard 1 A a (part r)) = [B; chunk_len (G * Cg) A a; K; ho; wo]) by reflexivity.
  eapply returns_teq; [apply (rs_sum P 3 (fun p => conv_x2 junk debug A d x p a) (fun p => shard 1 A a (part p)))|].
  - exact HP.
  - cbn; lia.
  - unfold dimsz. now rewrite S0.
  - intros r Hr. now rewrite !S0.
  - intros r Hr. apply conv_x2_ok; auto.
  - exact Hp.
  - apply teq_trans with (shard 3 P p (shard 1 A a (whole ho wo K es X))); [|apply shard_comm; auto]. apply shard_proper; auto; try (cbn; lia). eapply (parts_whole P A hi wi ho wo G Cg K B es); eauto.
Qed.
Lemma conv_x4_ok : holds2 P A (conv_x4 junk debug P A d x) (fun p a => shard 4 A a (shard 3 P p (whole ho wo K es X))).
Proof.
  assert (WS : shp (whole ho wo K es X) = [B; G * Cg; K; ho; wo]) by (eapply (whole_shp hi wi ho wo G Cg K B es); eauto).
  unfold conv_x4. apply az_transpose_ok; auto; [|apply conv_x3_ok]. intros p Hp. unfold ndim, dimsz. rewrite (shard5 _ _ _ _ _ _ _ _ _ WS). cbn [length nth upd]. split; [lia|]. split; [lia|]. split; [auto|].
  intros a Ha _. exists (bal (G * Cg) A). unfold pmap. destruct (Hx p a Hp Ha) as (t & -> & Tt). cbn [bindo]. rewrite (teq_shp _ _ _ Tt).
  assert (S3 : shp (shard 3 A a X) = [B; G * Cg; hi; chunk_len wi A a]) by (rewrite (shard4 X B (G * Cg) hi wi); auto). rewrite (shard4 _ _ _ _ _ _ _ _ S3). cbn [upd nth]. rewrite css_some by auto. auto.
Qed.
End Fwd.

Lemma vld3 : forall b h w i, valid [b; h; w] i -> exists a k j, i = [a; k; j] /\ a < b /\ k < h /\ j < w.
Proof.
  intros b h w i V. pose proof (valid_len _ _ V) as L. destruct i as [|a [|k [|j [|]]]]; try discriminate. apply valid_cons in V. destruct V as [V1 V]. apply valid_cons in V. destruct V as [V2 V]. apply valid_cons in V. exists a, k, j. tauto.
Qed.
Lemma sum_grid : forall P A h w (f : nat -> nat -> R), 1 <= P -> 1 <= A ->
  rsum P (fun p => rsum A (fun a => rsum (chunk_len h P p) (fun t => rsum (chunk_len w A a) (fun q => f (t + chunk_lo h P p) (q + chunk_lo w A a))))) = rsum h (fun t => rsum w (fun q => f t q)).
Proof.
  intros P A h w f HP HA.
  assert (CH : forall s n (F : nat -> R), 1 <= n -> rsum n (fun r => rsum (chunk_len s n r) (fun i => F (i + chunk_lo s n r))) = rsum s F).
  { intros s n F Hn. transitivity (rsum (sum_list (bal s n)) F); [|now rewrite bal_sum]. rewrite rsum_chunks, bal_length by auto. apply rsum_ext. intros r Hr. rewrite chunk_len_nth, chunk_lo_sum by lia. apply rsum_ext. intros i _. f_equal. lia. }
  rewrite <- (CH h P (fun t => rsum w (fun q => f t q)) HP). apply rsum_ext. intros p Hp. rewrite rsum_swap. apply rsum_ext. intros t Ht. apply (CH w A (fun q => f (t + chunk_lo h P p) q) HA).
Qed.

(** ** Backward pass of the standard schedule *)
Section Bwd.
Context (P A hi wi ho wo G Og Cg K B : nat) (weight : tensor R) (bias : option (tensor R)) (es : list entry).
Context (HP : 1 <= P) (HA : 1 <= A) (HPi : P <= hi) (HAi : A <= wi) (HPo : P <= ho) (HAo : A <= wo) (HAC : A <= G * Cg).
Context (HG : 1 <= G) (Hwi : 1 <= wi) (Hwo : 1 <= wo) (Sw : shp weight = [G * Og; Cg; K]) (Wf : psi_wf K ho (hi * wi) es).
Context (X : tensor R) (SX : shp X = [B; G * Cg; hi; wi]).
Context (x : pfam (tensor R)) (Hx : holds2 P A x (fun p a => shard 2 P p (shard 3 A a X))).
Context (Y : tensor R) (SY : shp Y = [B; G * Og; ho; wo]) (g : pfam (tensor R)) (Hg : holds2 P A g (fun p a => shard 2 P p (shard 3 A a Y))).
Context (junk : nat -> R) (debug : bool) (d : pfam disco_layer) (RK : rank_ok P A hi wi ho wo G K B weight bias es junk true d).
Let les (p : nat) : list entry := map (local_entry (chunk_lo hi P p) wi) (lat_slice hi wi P p es).
(** the transposed contraction of every rank is right *)
Definition rank_bwd_ok : Prop := forall p a, p < P -> a < A -> exists o, d p a = Some o /\ d_K o = K /\
  forall C t, shp t = [B; C; K; ho; wo] -> exists y, disco_cpu_bwd (d_K o) (chunk_len hi P p) wi (d_roff o) (d_es o) t = Some y /\ teq y (tensor_disco_adjoint (chunk_len hi P p) wi (les p) t).
Context (RB : rank_bwd_ok).
Let sw := swap_weight G Og Cg K weight.
Let E := expanded ho wo G Cg Og K B sw Y.
Lemma col_lt : forall e, In e es -> col e < hi * wi.
Proof. intros e He. apply (Wf e He). Qed.

Lemma shard_Y : forall p a, shp (shard 2 P p (shard 3 A a Y)) = [B; G * Og; chunk_len ho P p; chunk_len wo A a].
Proof. intros. rewrite (shard4 (shard 3 A a Y) B (G * Og) ho (chunk_len wo A a)); auto. rewrite (shard4 Y B (G * Og) ho wo); auto. Qed.
Theorem dist_conv_dgrad_ok : holds2 P A (dist_conv_dgrad junk debug P A d x g) (fun p a => shard 2 P p (shard 3 A a (dgrad_at hi wi wo G Og Cg K weight es B Y))).
Proof.
  unfold dist_conv_dgrad. set (g4 := pzip _ d g).
  assert (H4 : holds2 P A g4 (fun p a => shard 4 A a (shard 3 P p E))).
  { intros p a Hp Ha. destruct (RK p a Hp Ha) as (o & Eo & _ & Eg & Ew & _). destruct (Hg p a Hp Ha) as (t & Et & Tt). unfold g4, pzip. rewrite Eo, Et. cbn [bindo]. rewrite Eg, Ew.
    rewrite (grad_expand_swap G Og Cg K B (chunk_len ho P p) (chunk_len wo A a)) by (auto; rewrite (teq_shp _ _ _ Tt); apply shard_Y).
    eapply returns_teq; [eapply (expand_shard P A ho wo G Cg Og K B sw); eauto|]. apply shard_comm; auto. }
  clearbody g4.
  assert (H3 : holds2 P A (az_transpose_bwd debug A 4 1 (conv_x3 junk debug P A d x) g4) (fun p a => shard 1 A a (shard 3 P p E))).
  { apply az_transpose_bwd_ok; auto. intros p Hp. change (ndim (shard 3 P p E)) with 5. change (dimsz (shard 3 P p E) 4) with wo. change (dimsz (shard 3 P p E) 1) with (G * Cg).
    split; [lia|]. split; [lia|]. split; [auto|]. split; [auto|]. intros a Ha.
    pose proof (conv_x3_ok P A hi wi ho wo G Cg K B weight bias es HP HA HPi HAi HPo HAo HAC HG Hwi Hwo col_lt X SX x Hx junk debug d RK) as Q.
    destruct (holds2_dim _ _ _ _ 4 Q p a Hp Ha) as (t & Et & Dt). exists t. split; [auto|]. rewrite Dt. reflexivity. }
  set (g3 := az_transpose_bwd debug A 4 1 _ g4) in *. clearbody g3.
  assert (H2 : holds2 P A (po_reduce_scatter_bwd debug P 3 (conv_x2 junk debug A d x) g3) (fun p a => shard 1 A a E)).
  { apply (po_rs_bwd_ok debug P A 3 _ g3 (fun a => shard 1 A a E)); auto.
    - intros a Ha. split; [cbn; lia|]. change (dimsz (shard 1 A a E) 3) with ho. split; [auto|]. intros p Hp.
      pose proof (conv_x2_ok P A hi wi ho wo G Cg K B weight bias es HP HA HPi HAi HPo HAo HAC HG Hwi Hwo X SX x Hx junk debug d RK) as Q.
      destruct (holds2_dim _ _ _ _ 3 Q p a Hp Ha) as (t & Et & Dt). exists t. split; auto.
    - eapply holds2_teq; [exact H3|]. intros p a Hp Ha. apply shard_comm; auto. }
  set (g2 := po_reduce_scatter_bwd debug P 3 _ g3) in *. clearbody g2.
  set (g1 := (fun p a => do o <- d p a; do t <- conv_x1 debug A d x p a; do u <- g2 p a; contraction_bwd (d_K o) (d_roff o) (d_es o) (dimsz t 2) (dimsz t 3) u) : pfam (tensor R)).
  pose proof (conv_x1_ok P A hi wi ho wo G Cg K B weight bias es HP HA HPi HAi HPo HAo HAC HG Hwi Hwo X SX x Hx junk debug d RK) as Q1.
  set (V := adjointed ho wo hi wi G Cg Og K B sw es Y).
  assert (H1 : holds2 P A g1 (fun p a => shard 1 A a (shard 2 P p V))).
  { intros p a Hp Ha. destruct (RB p a Hp Ha) as (o & Eo & Ek & C). destruct (Q1 p a Hp Ha) as (t & Et & Tt). destruct (H2 p a Hp Ha) as (u & Eu & Tu).
    unfold g1. rewrite Eo, Et, Eu. cbn [bindo]. unfold contraction_bwd.
    assert (S2 : shp (shard 2 P p X) = [B; G * Cg; chunk_len hi P p; wi]) by (rewrite (shard4 X B (G * Cg) hi wi); auto).
    assert (St : shp t = [B; chunk_len (G * Cg) A a; chunk_len hi P p; wi]) by (rewrite (teq_shp _ _ _ Tt), (shard4 _ _ _ _ _ _ _ _ S2); auto).
    unfold dimsz. rewrite St. cbn [nth]. destruct (C (chunk_len (G * Cg) A a) u) as (y & Ey & Ty); [rewrite (teq_shp _ _ _ Tu); reflexivity|].
    exists y. split; auto. eapply teq_trans; [exact Ty|]. eapply (adjoint_shard P A ho wo hi wi G Cg Og K B sw es); eauto. }
  clearbody g1.
  assert (H0 : holds2 P A (az_transpose_bwd debug A 1 3 x g1) (fun p a => shard 3 A a (shard 2 P p V))).
  { apply az_transpose_bwd_ok; auto. intros p Hp. change (ndim (shard 2 P p V)) with 4. change (dimsz (shard 2 P p V) 3) with wi. change (dimsz (shard 2 P p V) 1) with (G * Cg).
    split; [lia|]. split; [lia|]. split; [auto|]. split; [auto|]. intros a Ha. destruct (holds2_dim _ _ _ _ 1 Hx p a Hp Ha) as (t & Et & Dt). exists t. split; auto. rewrite Dt.
    unfold shard, narrow, dimsz. cbn [shp]. rewrite SX. reflexivity. }
  eapply holds2_teq; [exact H0|]. intros p a Hp Ha. eapply teq_trans; [apply shard_comm; auto|]. apply shard_proper; [auto|auto|]. apply shard_proper; [auto|auto|].
  split; [reflexivity|]. intros i Vi. unfold V, adjointed, tensor_disco_adjoint, dgrad_at, dgrad_value. cbn [val]. reflexivity.
Qed.

(** the rank's weight gradient *)
Definition wpart (p a : nat) : tensor R := mkT [G * Og; Cg; K] (fun i =>
  rsum B (fun b => rsum (chunk_len ho P p) (fun t => rsum (chunk_len wo A a) (fun q =>
    Rmult (val Y [b; nth 0 i 0; t + chunk_lo ho P p; q + chunk_lo wo A a]) (disco_sum wi (wi / wo) es (fun h w => val X [b; nth 0 i 0 / Og * Cg + nth 1 i 0; h; w]) (nth 2 i 0) (t + chunk_lo ho P p) (q + chunk_lo wo A a)))))).
Theorem dist_conv_wgrad_ok : holds2 P A (dist_conv_wgrad junk debug P A d x g) wpart.
Proof.
  intros p a Hp Ha. destruct (RK p a Hp Ha) as (o & Eo & _ & Eg & Ew & _). destruct (RB p a Hp Ha) as (o' & Eo' & Ek & _). assert (o' = o) by congruence. subst o'.
  destruct (conv_x4_ok P A hi wi ho wo G Cg K B weight bias es HP HA HPi HAi HPo HAo HAC HG Hwi Hwo col_lt X SX x Hx junk debug d RK p a Hp Ha) as (y & Ey & Ty).
  destruct (Hg p a Hp Ha) as (t & Et & Tt). unfold dist_conv_wgrad. rewrite Eo, Ey, Et. cbn [bindo]. rewrite Eg, Ew, Ek.
  assert (WS : shp (whole ho wo K es X) = [B; G * Cg; K; ho; wo]) by (eapply (whole_shp hi wi ho wo G Cg K B es); eauto).
  assert (W3 : shp (shard 3 P p (whole ho wo K es X)) = [B; G * Cg; K; chunk_len ho P p; wo]) by (rewrite (shard5 _ _ _ _ _ _ _ _ _ WS); auto).
  assert (Sy : shp y = [B; G * Cg; K; chunk_len ho P p; chunk_len wo A a]) by (rewrite (teq_shp _ _ _ Ty), (shard5 _ _ _ _ _ _ _ _ _ W3); auto).
  assert (St : shp t = [B; G * Og; chunk_len ho P p; chunk_len wo A a]) by (rewrite (teq_shp _ _ _ Tt); apply shard_Y).
  unfold contract_wgrad, ndim, dimsz. rewrite Sy, St, Sw. cbn [length nth]. rewrite div_mul_l by auto.
  assert (SE : shape_eqb [B; G * Og; chunk_len ho P p; chunk_len wo A a] [B; G * Og; chunk_len ho P p; chunk_len wo A a] = true) by (apply shape_eqb_true; reflexivity).
  rewrite SE, !Nat.eqb_refl. destruct (Nat.leb_spec 1 G); [|lia]. cbn [Nat.eqb andb guard bindo].
  apply returns_Some. split; [reflexivity|]. intros i Vi. cbn [shp] in Vi. apply vld3 in Vi. destruct Vi as (o1 & c & k & -> & Ho & Hc & Hk). cbn [val nth wpart].
  apply rsum_ext; intros b Hb. apply rsum_ext; intros h Hh. apply rsum_ext; intros v Hv. f_equal.
  - rewrite (proj2 Tt) by (rewrite St; apply valid4_intro; auto). rewrite !shard_val. cbn [upd nth]. unfold dimsz, shard, narrow. cbn [shp]. rewrite SY. reflexivity.
  - rewrite (proj2 Ty) by (rewrite Sy; apply valid5_intro; auto; eapply group_idx; eauto). rewrite !shard_val. cbn [upd nth]. unfold dimsz. rewrite W3, WS. cbn [nth]. unfold whole, tensor_disco. cbn [val nth]. unfold dimsz. rewrite SX. reflexivity.
Qed.
End Bwd.
