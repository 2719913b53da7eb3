(** Adjointness, gradients of the layers and rotation equivariance. *)
From Coq Require Import List Arith Lia Bool Reals Lra Permutation Sorted.
From Verif Require Import TensorModel TensorProofs BigSum DistSpectralProofs SHTSpec DiscoModel DiscoGradModel DiscoSpec DiscoSortProofs DiscoRunProofs DiscoKernelProofs DiscoTensorProofs.
Import ListNotations.
Local Open Scope R_scope.

Lemma rsum_ext : forall n (f g : nat -> R), (forall i, (i < n)%nat -> f i = g i) -> rsum n f = rsum n g.
Proof. intros. apply bsum_ext; auto. Qed.
Lemma rsum_swap : forall n m (f : nat -> nat -> R), rsum n (fun i => rsum m (fun j => f i j)) = rsum m (fun j => rsum n (fun i => f i j)).
Proof. intros. apply (bsum_swap RT). Qed.
Lemma rsum_if : forall n (b : bool) (f : nat -> R), rsum n (fun i => if b then f i else 0) = if b then rsum n f else 0.
Proof. intros. destruct b; [reflexivity|apply (bsum_zero RT)]. Qed.

(** ** Adjoint *)
Lemma adjoint_plane : forall K Ho Hi Wi ps Wo es f g, psi_wf K Ho (Hi * Wi) es -> (1 <= Wi)%nat ->
  rsum K (fun k => rsum Ho (fun t => rsum Wo (fun q => disco_sum Wi ps es f k t q * g k t q))) =
  rsum Hi (fun h => rsum Wi (fun j => f h j * disco_adjoint_sum Wi ps Wo es g h j)).
Proof.
  intros K Ho Hi Wi ps Wo es f g W HWi.
  set (T := fun e => pv e * rsum Wo (fun q => f (col e / Wi)%nat ((col e mod Wi + ps * q) mod Wi)%nat * g (ker e) (row e) q)).
  transitivity (rlsum T es).
  - transitivity (rsum K (fun k => rlsum (fun e => if (k =? ker e)%nat then T e else 0) es)).
    + apply rsum_ext. intros k Hk.
      transitivity (rsum Ho (fun t => rlsum (fun e => if (t =? row e)%nat then if (k =? ker e)%nat then T e else 0 else 0) es)).
      * apply rsum_ext. intros t Ht. unfold disco_sum.
        rewrite (rsum_ext Wo _ (fun q => rlsum (fun e => (if ((ker e =? k) && (row e =? t))%nat%bool
            then pv e * f (col e / Wi)%nat ((col e mod Wi + ps * q) mod Wi)%nat else 0) * g k t q) es)) by (intros; rewrite (lsum_scal_r RT); reflexivity).
        rewrite <- (lsum_bsum_swap RT). apply lsum_ext. intros e He. rewrite (Nat.eqb_sym k), (Nat.eqb_sym t).
        destruct (Nat.eqb_spec (ker e) k), (Nat.eqb_spec (row e) t); cbn [andb]; try (apply (bsum_zero' RT); intros; ring).
        subst. unfold T. rewrite <- (bsum_scal_l RT). apply rsum_ext. intros. ring.
      * rewrite <- (lsum_bsum_swap RT). apply lsum_ext. intros e He. apply (bsum_delta_f RT Ho (row e) (fun _ => if (k =? ker e)%nat then T e else 0)). apply (W e He).
    + rewrite <- (lsum_bsum_swap RT). apply lsum_ext. intros e He. apply (bsum_delta_f RT K (ker e) (fun _ => T e)). apply (W e He).
  - symmetry.
    transitivity (rsum Hi (fun h => rlsum (fun e => if (h =? col e / Wi)%nat then T e else 0) es)).
    + apply rsum_ext. intros h Hh. unfold disco_adjoint_sum.
      rewrite (rsum_ext Wi _ (fun j => rlsum (fun e => f h j * (if (col e / Wi =? h)%nat
                  then pv e * rsum Wo (fun q => if ((col e mod Wi + ps * q) mod Wi =? j)%nat then g (ker e) (row e) q else 0) else 0)) es))
        by (intros; rewrite (lsum_scal_l RT); reflexivity).
      rewrite <- (lsum_bsum_swap RT). apply lsum_ext. intros e He. rewrite (Nat.eqb_sym h).
      destruct (Nat.eqb_spec (col e / Wi) h); [|apply (bsum_zero' RT); intros; ring].
      subst h. unfold T.
      rewrite (rsum_ext Wi _ (fun j => rsum Wo (fun q => if (j =? (col e mod Wi + ps * q) mod Wi)%nat then pv e * (f (col e / Wi)%nat j * g (ker e) (row e) q) else 0))).
      2:{ intros j Hj. rewrite <- (bsum_scal_l RT), <- (bsum_scal_l RT). apply rsum_ext. intros q Hq. rewrite (Nat.eqb_sym j). destruct (_ =? j)%nat; ring. }
      rewrite rsum_swap, <- (bsum_scal_l RT). apply rsum_ext. intros q Hq.
      apply (bsum_delta_f RT Wi _ (fun j => pv e * (f (col e / Wi)%nat j * g (ker e) (row e) q))). apply Nat.mod_upper_bound. lia.
    + rewrite <- (lsum_bsum_swap RT). apply lsum_ext. intros e He. apply (bsum_delta_f RT Hi _ (fun _ => T e)).
      apply Nat.div_lt_upper_bound; [lia|]. destruct (W e He) as (_ & _ & ?). lia.
Qed.

Lemma disco_adjoint : forall K Ho Wo Hi Wi es (x y : tensor R) B C,
  psi_wf K Ho (Hi * Wi) es -> (1 <= Wi)%nat -> shp x = [B; C; Hi; Wi] -> shp y = [B; C; K; Ho; Wo] ->
  inner5 (tensor_disco K Ho Wo es x) y = inner4 x (tensor_disco_adjoint Hi Wi es y).
Proof.
  intros K Ho Wo Hi Wi es x y B C W HWi Sx Sy.
  destruct (shape4 _ _ _ _ _ Sx) as (_ & D0 & D1 & D2 & D3). destruct (shape5 _ _ _ _ _ _ Sy) as (_ & E0 & E1 & E2 & E3 & E4).
  unfold inner5, inner4, tensor_disco, tensor_disco_adjoint, dimsz. cbn [shp nth val]. rewrite Sx, Sy. cbn [nth].
  apply rsum_ext. intros b Hb. apply rsum_ext. intros c Hc.
  apply (adjoint_plane K Ho Hi Wi (Wi / Wo) Wo es (fun h w => val x [b; c; h; w]) (fun k t q => val y [b; c; k; t; q])); auto.
Qed.

(** ** Layers *)
Lemma div_mul_l : forall G Og, (1 <= G)%nat -> (G * Og / G = Og)%nat.
Proof. intros. rewrite Nat.mul_comm. apply Nat.div_mul. lia. Qed.

Lemma group_idx : forall G Og Cg o c, (o < G * Og)%nat -> (c < Cg)%nat -> (o / Og * Cg + c < G * Cg)%nat.
Proof. intros. assert (o / Og < G)%nat by (apply Nat.div_lt_upper_bound; nia). nia. Qed.

Lemma contract_bias : forall G Og Cg K B Ho Wo Wi es weight bias x y,
  (1 <= G)%nat -> shp weight = [G * Og; Cg; K]%nat -> bias_ok bias (G * Og) -> shp y = [B; G * Cg; K; Ho; Wo]%nat -> dimsz x 0 = B -> dimsz x 1 = (G * Cg)%nat -> dimsz x 3 = Wi ->
  teq y (tensor_disco K Ho Wo es x) ->
  exists z, (do z <- weight_contract G weight y; add_chan_bias bias z) = Some z /\ teq z (conv_spec K Og Cg Ho Wo es weight bias x).
Proof.
  intros G Og Cg K B Ho Wo Wi es weight bias x y HG Sw Bo Sy D0 D1 D3 [TS TV].
  destruct (shape5 _ _ _ _ _ _ Sy) as (N5 & E0 & E1 & E2 & E3 & E4).
  assert (Wd : ndim weight = 3%nat /\ dimsz weight 0 = (G * Og)%nat /\ dimsz weight 1 = Cg /\ dimsz weight 2 = K) by (unfold ndim, dimsz; rewrite Sw; auto).
  destruct Wd as (N3 & W0 & W1 & W2).
  unfold weight_contract. rewrite N5, N3, W0, W1, W2, E0, E1, E2, E3, E4, div_mul_l by auto. cbn [Nat.eqb andb guard bindo].
  rewrite !Nat.eqb_refl. destruct (Nat.leb_spec 1 G); [|lia]. cbn [andb guard bindo].
  assert (V : forall b o t q, (b < B)%nat -> (o < G * Og)%nat -> (t < Ho)%nat -> (q < Wo)%nat ->
     rsum Cg (fun c => rsum K (fun k => val y [b; o / Og * Cg + c; k; t; q]%nat * val weight [o; c; k])) + bias_at bias o =
     conv_value K Og Cg Wi Wo es weight bias x b o t q).
  { intros b o t q Hb Ho' Ht Hq. unfold conv_value. f_equal. apply rsum_ext. intros c Hc. apply rsum_ext. intros k Hk. f_equal.
    rewrite TV by (rewrite Sy; apply valid5_intro; auto; eapply group_idx; eauto).
    unfold tensor_disco. cbn [val nth]. rewrite D3. reflexivity. }
  destruct bias as [bt|]; cbn [add_chan_bias].
  - cbn in Bo. rewrite Bo. unfold dimsz at 1. cbn [shp nth].
    assert (SE : shape_eqb [(G * Og)%nat] [(G * Og)%nat] = true) by (apply shape_eqb_true; reflexivity). rewrite SE. cbn [guard bindo].
    eexists. split; [reflexivity|]. split; [unfold conv_spec; cbn [shp]; rewrite D0, W0; reflexivity|].
    intros i Vi. cbn [shp] in Vi. destruct (valid4 _ _ _ _ _ Vi) as (b & o & t & q & -> & Hb & Ho' & Ht & Hq).
    unfold conv_spec. cbn [val nth]. rewrite D3. apply V; auto.
  - eexists. split; [reflexivity|]. split; [unfold conv_spec; cbn [shp]; rewrite D0, W0; reflexivity|].
    intros i Vi. cbn [shp] in Vi. destruct (valid4 _ _ _ _ _ Vi) as (b & o & t & q & -> & Hb & Ho' & Ht & Hq).
    unfold conv_spec. cbn [val nth]. rewrite D3. rewrite <- V by auto. cbn [bias_at]. ring.
Qed.

Lemma conv_init_inv : forall junk hi wi ho wo G K weight bias es d, conv_s2_init junk hi wi ho wo G K weight bias es = Some d ->
  exists roff es', preprocess_psi junk K ho es = Some (roff, es') /\ d = mkD K hi wi ho wo G weight bias roff es' es.
Proof.
  intros junk hi wi ho wo G K weight bias es d H. unfold conv_s2_init in H.
  destruct (guard _); [cbn [bindo] in H|discriminate]. destruct (preprocess_psi junk K ho es) as [[roff es']|]; [|discriminate].
  cbn in H. injection H as <-. eauto.
Qed.
Lemma conv_init_ok : forall junk hi wi ho wo G Og Cg K weight bias es, layer_ok K hi wi ho wo G Og Cg weight bias es ->
  exists d, conv_s2_init junk hi wi ho wo G K weight bias es = Some d.
Proof.
  intros. destruct H. unfold conv_s2_init. rewrite lo_div. destruct (Nat.leb_spec 1 wo); [|lia]. cbn [Nat.eqb andb guard bindo].
  rewrite (preprocess_spec junk K ho (hi * wi) es) by auto. cbn. eauto.
Qed.

Lemma conv_opt_spec : forall junk junk' hi wi ho wo G Og Cg K weight bias es d (x : tensor R) B,
  layer_ok K hi wi ho wo G Og Cg weight bias es -> conv_s2_init junk hi wi ho wo G K weight bias es = Some d ->
  shp x = [B; G * Cg; hi; wi]%nat ->
  exists z, conv_s2_opt junk' d x = Some z /\ teq z (conv_spec K Og Cg ho wo es weight bias x).
Proof.
  intros junk junk' hi wi ho wo G Og Cg K weight bias es d x B L I Sx. destruct L.
  destruct (conv_init_inv _ _ _ _ _ _ _ _ _ _ _ I) as (roff & es' & PP & ->).
  destruct (cpu_fwd_spec junk junk' K ho wo es roff es' x B (G * Cg) hi wi) as (y & E & T); auto.
  unfold conv_s2_opt. cbn [d_K d_nlat_out d_nlon_out d_roff d_es d_groups d_weight d_bias]. rewrite E. cbn [bindo].
  destruct (shape4 _ _ _ _ _ Sx) as (_ & D0 & D1 & D2 & D3).
  apply (contract_bias G Og Cg K B ho wo wi es weight bias x y); auto.
  destruct T as [TS _]. rewrite TS. unfold tensor_disco. cbn [shp]. rewrite D0, D1. reflexivity.
Qed.
Lemma conv_torch_spec : forall junk hi wi ho wo G Og Cg K weight bias es d (x : tensor R) B,
  layer_ok K hi wi ho wo G Og Cg weight bias es -> conv_s2_init junk hi wi ho wo G K weight bias es = Some d ->
  shp x = [B; G * Cg; hi; wi]%nat -> (ho <= wi)%nat ->
  exists z, conv_s2_torch d x = Some z /\ teq z (conv_spec K Og Cg ho wo es weight bias x).
Proof.
  intros junk hi wi ho wo G Og Cg K weight bias es d x B L I Sx HH. destruct L.
  destruct (conv_init_inv _ _ _ _ _ _ _ _ _ _ _ I) as (roff & es' & PP & ->).
  unfold conv_s2_torch. cbn [d_K d_nlat_out d_nlon_out d_nlat_in d_nlon_in d_raw d_groups d_weight d_bias].
  unfold get_psi. rewrite (in_range_true _ _ _ _ lo_wf). cbn [guard bindo].
  destruct (torch_fwd_spec K ho wo es x B (G * Cg) hi wi) as (y & E & T); auto.
  rewrite E. cbn [bindo]. destruct (shape4 _ _ _ _ _ Sx) as (_ & D0 & D1 & D2 & D3).
  apply (contract_bias G Og Cg K B ho wo wi es weight bias x y); auto.
  destruct T as [TS _]. rewrite TS. unfold tensor_disco. cbn [shp]. rewrite D0, D1. reflexivity.
Qed.
