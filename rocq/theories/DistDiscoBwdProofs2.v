(** Gradients of the distributed DISCO convolution, standard schedule: shards of the
    serial gradients. *)
From Coq Require Import List Arith Lia Bool Reals Lra.
From Verif Require Import TensorModel TensorProofs BigSum PrimModel PrimSpec PrimProofs PrimProofs2 PrimAutogradModel AdjointProofs PrimPropProofs DistSHTModel DistSHTProofs DistSHTProofs2 DistMiscProofs DistSpectralProofs
  DiscoModel DiscoSpec DiscoTensorProofs DiscoLayerProofs DiscoTransposeProofs DiscoRunProofs DiscoGradModel DiscoGradProofs DistDiscoModel DistDiscoSpec DistDiscoProofs DistDiscoProofs2 DistDiscoProofs3 DistDiscoProofs4 DistDiscoBwdModel DistDiscoBwdSpec DistDiscoBwdProofs.
Import ListNotations.
Local Open Scope nat_scope.

Lemma grid_total_of : forall P A f (U : nat -> nat -> tensor R) T, holds2 P A f U -> (forall p a, p < P -> a < A -> shp (U p a) = shp T) ->
  (forall i, valid (shp T) i -> rsum P (fun p => rsum A (fun a => val (U p a) i)) = val T i) -> grid_total P A f T.
Proof.
  intros P A f U T H S V. exists (fun p a => match f p a with Some t => t | None => U p a end). split.
  - intros p a Hp Ha. destruct (H p a Hp Ha) as (t & -> & Tt). split; auto. rewrite (teq_shp _ _ _ Tt). auto.
  - intros i Vi. rewrite <- (V i Vi). apply rsum_ext. intros p Hp. apply rsum_ext. intros a Ha. destruct (H p a Hp Ha) as (t & -> & Tt). apply (proj2 Tt). rewrite (teq_shp _ _ _ Tt), S by auto. auto.
Qed.

Lemma rank_bwd_works : forall junk P A hi wi ho wo G Og Cg K B weight bias es,
  layer_ok K hi wi ho wo G Og Cg weight bias es -> slices_filled hi wi P es -> slices_separated K hi wi P es ->
  1 <= P <= hi -> P <= ho -> 1 <= A <= wi -> A <= wo ->
  rank_bwd_ok P A hi wi ho wo K B es (dist_conv_init junk true P A hi wi ho wo G K weight bias es).
Proof.
  intros junk P A hi wi ho wo G Og Cg K B weight bias es L F S HP HPo HA HAo p a Hp Ha.
  destruct (rank_init junk true P A hi wi ho wo G Og Cg K weight bias es p a) as (roff & es' & E & PP); auto. rewrite E. eexists. split; [reflexivity|]. cbn [d_K d_roff d_es]. split; [reflexivity|].
  intros C t St. destruct L. set (les := map (local_entry (chunk_lo hi P p) wi) (lat_slice hi wi P p es)) in *.
  eapply (cpu_bwd_spec junk (chunk_len hi P p) wi les roff es' t B C K ho wo); eauto.
  - apply slice_wf; auto.
  - apply slice_sorted; auto.
  - apply slice_separated. apply S; auto.
  - intros E0. pose proof (F p Hp) as L. unfold les in E0. apply map_eq_nil in E0. rewrite E0 in L. cbn in L. lia.
Qed.

(** the bias gradient of a rank *)
Lemma bias_grad_total : forall P A B C h w (Y : tensor R) g, 1 <= P -> 1 <= A -> shp Y = [B; C; h; w] -> holds2 P A g (fun p a => shard 2 P p (shard 3 A a Y)) ->
  grid_total P A (dist_bias_grad g) (bias_grad Y).
Proof.
  intros P A B C h w Y g HP HA SY Hg.
  assert (SS : forall p a, shp (shard 2 P p (shard 3 A a Y)) = [B; C; chunk_len h P p; chunk_len w A a]).
  { intros. assert (S3 : shp (shard 3 A a Y) = [B; C; h; chunk_len w A a]) by (rewrite (shard4 Y B C h w); auto). rewrite (shard4 _ _ _ _ _ _ _ _ S3); auto. }
  eapply (grid_total_of _ _ _ (fun p a => mkT [C] (fun i => rsum B (fun b => rsum (chunk_len h P p) (fun t => rsum (chunk_len w A a) (fun q => val Y [b; nth 0 i 0; t + chunk_lo h P p; q + chunk_lo w A a])))))).
  - intros p a Hp Ha. destruct (Hg p a Hp Ha) as (t & Et & Tt). unfold dist_bias_grad, pmap. rewrite Et. cbn [bindo]. apply returns_Some.
    assert (St : shp t = [B; C; chunk_len h P p; chunk_len w A a]) by (rewrite (teq_shp _ _ _ Tt); apply SS).
    unfold bias_grad, dimsz. rewrite St. cbn [nth]. split; [reflexivity|]. intros i Vi. cbn [shp] in Vi. cbn [val].
    assert (Hi : nth 0 i 0 < C) by (pose proof (valid_len _ _ Vi) as Li; destruct i as [|c [|]]; try discriminate; apply valid_cons in Vi; cbn; tauto).
    apply rsum_ext; intros b Hb. apply rsum_ext; intros t0 Ht. apply rsum_ext; intros q Hq. rewrite (proj2 Tt) by (rewrite St; apply valid4_intro; auto). rewrite !shard_val. cbn [upd nth]. unfold dimsz, shard, narrow. cbn [shp]. rewrite SY. reflexivity.
  - intros p a Hp Ha. unfold bias_grad, dimsz. cbn [shp]. rewrite SY. reflexivity.
  - intros i _. unfold bias_grad, dimsz. cbn [val]. rewrite SY. cbn [nth].
    rewrite (rsum_ext P _ (fun p => rsum B (fun b => rsum A (fun a => rsum (chunk_len h P p) (fun t => rsum (chunk_len w A a) (fun q => val Y [b; nth 0 i 0; t + chunk_lo h P p; q + chunk_lo w A a])))))) by (intros; apply rsum_swap).
    rewrite rsum_swap. apply rsum_ext. intros b Hb. apply (sum_grid P A h w (fun t q => val Y [b; nth 0 i 0; t; q])); auto.
Qed.

Theorem dist_conv_bwd_serial : forall junk junk' junk'' debug P A hi wi ho wo G Og Cg K B weight bias es s (X Y : tensor R) x g,
  layer_ok K hi wi ho wo G Og Cg weight bias es -> conv_s2_init junk hi wi ho wo G K weight bias es = Some s ->
  slices_filled hi wi P es -> slices_separated K hi wi P es ->
  1 <= P <= hi -> P <= ho -> 1 <= A <= wi -> A <= wo -> A <= G * Cg ->
  shp X = [B; G * Cg; hi; wi] -> shp Y = [B; G * Og; ho; wo] ->
  holds2 P A x (fun p a => shard 2 P p (shard 3 A a X)) -> holds2 P A g (fun p a => shard 2 P p (shard 3 A a Y)) ->
  let d := dist_conv_init junk true P A hi wi ho wo G K weight bias es in
  exists V W, conv_s2_dgrad s Y = Some V /\ conv_s2_wgrad junk'' s X Y = Some W /\
    holds2 P A (dist_conv_dgrad junk' debug P A d x g) (fun p a => shard 2 P p (shard 3 A a V)) /\
    grid_total P A (dist_conv_wgrad junk' debug P A d x g) W /\ grid_total P A (dist_bias_grad g) (bias_grad Y).
Proof.
  intros junk junk' junk'' debug P A hi wi ho wo G Og Cg K B weight bias es s X Y x g L I F S HP HPo HA HAo HAC SX SY Hx Hg d.
  destruct (conv_dgrad_spec junk hi wi ho wo G Og Cg K weight bias es s L I Y B SY) as (V & EV & TV).
  destruct (conv_wgrad_value junk junk'' hi wi ho wo G Og Cg K weight bias es s X Y B L I SX SY) as (W & EW & SW & VW).
  exists V, W. split; auto. split; auto.
  assert (RK : rank_ok P A hi wi ho wo G K B weight bias es junk' true d) by (unfold d; eapply rank_works; eauto; discriminate).
  assert (RB : rank_bwd_ok P A hi wi ho wo K B es d) by (unfold d; eapply rank_bwd_works; eauto).
  clearbody d. destruct L. split; [|split].
  - eapply holds2_teq; [eapply (dist_conv_dgrad_ok P A hi wi ho wo G Og Cg K B weight bias es); eauto; lia|].
    intros p a Hp Ha. cbn beta. apply shard_proper; try lia. apply shard_proper; try lia. apply teq_sym; auto.
  - eapply (grid_total_of P A _ (wpart P A wi ho wo G Og Cg K B es X Y)).
    + eapply (dist_conv_wgrad_ok P A hi wi ho wo G Og Cg K B weight bias es); eauto; lia.
    + intros. rewrite SW. reflexivity.
    + intros i Vi. rewrite SW in Vi. apply vld3 in Vi. destruct Vi as (o & c & k & -> & Ho & Hc & Hk). rewrite VW by auto. cbn [val nth wpart].
      set (f := fun b t q => Rmult (val Y [b; o; t; q]) (disco_sum wi (wi / wo) es (fun h w => val X [b; o / Og * Cg + c; h; w]) k t q)).
      change (rsum P (fun p => rsum A (fun a => rsum B (fun b => rsum (chunk_len ho P p) (fun t => rsum (chunk_len wo A a) (fun q => f b (t + chunk_lo ho P p) (q + chunk_lo wo A a)))))) = rsum B (fun b => rsum ho (fun t => rsum wo (fun q => f b t q)))).
      rewrite (rsum_ext P _ (fun p => rsum B (fun b => rsum A (fun a => rsum (chunk_len ho P p) (fun t => rsum (chunk_len wo A a) (fun q => f b (t + chunk_lo ho P p) (q + chunk_lo wo A a))))))) by (intros; apply rsum_swap).
      rewrite rsum_swap. apply rsum_ext. intros b Hb. apply (sum_grid P A ho wo (f b)); lia.
  - eapply (bias_grad_total P A B (G * Og) ho wo); eauto; lia.
Qed.
