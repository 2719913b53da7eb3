(** The transposed DISCO layer and rotation equivariance. *)
From Coq Require Import List Arith Lia Bool Reals Lra Permutation Sorted.
From Verif Require Import TensorModel TensorProofs BigSum DistSpectralProofs SHTSpec SHTValueProofs DiscoModel DiscoGradModel DiscoSpec DiscoSortProofs DiscoRunProofs DiscoKernelProofs DiscoTensorProofs DiscoLayerProofs DiscoGradProofs.
Import ListNotations.
Local Open Scope R_scope.

Lemma tconv_init_inv : forall junk hi wi ho wo G K weight bias es d, conv_transpose_s2_init junk hi wi ho wo G K weight bias es = Some d ->
  exists roff es', preprocess_psi junk K hi es = Some (roff, es') /\ d = mkD K hi wi ho wo G weight bias roff es' es.
Proof.
  intros junk hi wi ho wo G K weight bias es d H. unfold conv_transpose_s2_init in H.
  destruct (guard _); [cbn [bindo] in H|discriminate]. destruct (preprocess_psi junk K hi es) as [[roff es']|]; [|discriminate].
  cbn in H. injection H as <-. eauto.
Qed.
Lemma tconv_init_ok : forall junk hi wi ho wo G Og Cg K weight bias es, layer_ok K ho wo hi wi G Og Cg weight bias es ->
  exists d, conv_transpose_s2_init junk hi wi ho wo G K weight bias es = Some d.
Proof.
  intros. destruct H. unfold conv_transpose_s2_init. rewrite lo_div. destruct (Nat.leb_spec 1 wi); [|lia]. cbn [Nat.eqb andb guard bindo].
  rewrite (preprocess_spec junk K hi (ho * wo) es) by auto. cbn. eauto.
Qed.

Lemma expand_value : forall G Og Cg K B hi wi (weight x : tensor R), (1 <= G)%nat -> shp weight = [G * Og; Cg; K]%nat -> shp x = [B; G * Cg; hi; wi]%nat ->
  exists y, weight_expand G weight x = Some y /\ shp y = [B; G * Og; K; hi; wi]%nat /\
    forall b o k t q, val y [b; o; k; t; q] = rsum Cg (fun c => val x [b; o / Og * Cg + c; t; q]%nat * val weight [o; c; k]).
Proof.
  intros G Og Cg K B hi wi weight x HG Sw Sx. destruct (shape4 _ _ _ _ _ Sx) as (N4 & D0 & D1 & D2 & D3). destruct (weight_dims _ _ _ _ Sw) as (N3 & W0 & W1 & W2).
  unfold weight_expand. rewrite N4, N3, W0, W1, W2, D0, D1, D2, D3, div_mul_l by auto. rewrite !Nat.eqb_refl.
  destruct (Nat.leb_spec 1 G); [|lia]. cbn [Nat.eqb andb guard bindo].
  eexists. split; [reflexivity|]. split; [reflexivity|]. intros. reflexivity.
Qed.

Lemma adjoint_bias : forall G Og Cg B hi wi ho wo es (weight : tensor R) bias (x y z : tensor R) K, shp weight = [G * Og; Cg; K]%nat -> bias_ok bias (G * Og) -> shp x = [B; G * Cg; hi; wi]%nat ->
  shp y = [B; G * Og; K; hi; wi]%nat ->
  (forall b o k t q, val y [b; o; k; t; q] = rsum Cg (fun c => val x [b; o / Og * Cg + c; t; q]%nat * val weight [o; c; k])) ->
  teq z (tensor_disco_adjoint ho wo es y) ->
  exists r, add_chan_bias bias z = Some r /\ teq r (tconv_spec Og Cg ho wo es weight bias x).
Proof.
  intros G Og Cg B hi wi ho wo es weight bias x y z K Sw Bo Sx Sy Vy [TS TV].
  destruct (shape4 _ _ _ _ _ Sx) as (N4 & D0 & D1 & D2 & D3). destruct (weight_dims _ _ _ _ Sw) as (N3 & W0 & W1 & W2).
  destruct (shape5 _ _ _ _ _ _ Sy) as (_ & F0 & F1 & F2 & F3 & F4).
  assert (Sz : shp z = [B; G * Og; ho; wo]%nat) by (rewrite TS; unfold tensor_disco_adjoint; cbn [shp]; rewrite F0, F1; reflexivity).
  assert (V : forall b o h j, (b < B)%nat -> (o < G * Og)%nat -> (h < ho)%nat -> (j < wo)%nat ->
    val z [b; o; h; j] + bias_at bias o = tconv_value Og Cg wi wo es weight bias x b o h j).
  { intros b o h j Hb Ho Hh Hj. rewrite TV by (rewrite Sz; apply valid4_intro; auto).
    unfold tconv_value, tensor_disco_adjoint, disco_adjoint_sum. cbn [val nth]. rewrite F4. f_equal.
    apply lsum_ext. intros e _. destruct (_ =? h)%nat; [|reflexivity]. f_equal. apply rsum_ext. intros q _. rewrite Vy. reflexivity. }
  destruct bias as [bt|]; cbn [add_chan_bias].
  - cbn in Bo. rewrite Bo. unfold dimsz at 1. rewrite Sz. cbn [nth].
    assert (SE : shape_eqb [(G * Og)%nat] [(G * Og)%nat] = true) by (apply shape_eqb_true; reflexivity). rewrite SE. cbn [guard bindo].
    eexists. split; [reflexivity|]. split; [unfold tconv_spec; cbn [shp]; rewrite D0, W0; reflexivity|].
    intros i Vi. cbn [shp] in Vi. destruct (valid4 _ _ _ _ _ Vi) as (b & o & t & q & -> & Hb & Ho' & Ht & Hq).
    unfold tconv_spec. cbn [val nth]. rewrite D3. apply V; auto.
  - eexists. split; [reflexivity|]. split; [unfold tconv_spec; cbn [shp]; rewrite D0, W0, Sz; reflexivity|].
    intros i Vi. rewrite Sz in Vi. destruct (valid4 _ _ _ _ _ Vi) as (b & o & t & q & -> & Hb & Ho' & Ht & Hq).
    unfold tconv_spec. cbn [val nth]. rewrite D3. rewrite <- V by auto. cbn [bias_at]. ring.
Qed.

Lemma tconv_opt_spec : forall junk hi wi ho wo G Og Cg K weight bias es d (x : tensor R) B,
  layer_ok K ho wo hi wi G Og Cg weight bias es -> conv_transpose_s2_init junk hi wi ho wo G K weight bias es = Some d ->
  shp x = [B; G * Cg; hi; wi]%nat ->
  exists z, conv_transpose_s2_opt d x = Some z /\ teq z (tconv_spec Og Cg ho wo es weight bias x).
Proof.
  intros junk hi wi ho wo G Og Cg K weight bias es d x B L I Sx. destruct L.
  destruct (tconv_init_inv _ _ _ _ _ _ _ _ _ _ _ I) as (roff & es' & PP & ->).
  unfold conv_transpose_s2_opt. cbn [d_K d_nlat_out d_nlon_out d_roff d_es d_groups d_weight d_bias].
  destruct (expand_value G Og Cg K B hi wi weight x) as (y & Ey & Sy & Vy); auto. rewrite Ey. cbn [bindo].
  destruct (cpu_bwd_spec junk ho wo es roff es' y B (G * Og) K hi wi) as (z & E & T); auto. rewrite E. cbn [bindo].
  eapply adjoint_bias; eauto.
Qed.
Lemma tconv_torch_spec : forall junk hi wi ho wo G Og Cg K weight bias es d (x : tensor R) B,
  layer_ok K ho wo hi wi G Og Cg weight bias es -> conv_transpose_s2_init junk hi wi ho wo G K weight bias es = Some d ->
  shp x = [B; G * Cg; hi; wi]%nat ->
  exists z, conv_transpose_s2_torch d x = Some z /\ teq z (tconv_spec Og Cg ho wo es weight bias x).
Proof.
  intros junk hi wi ho wo G Og Cg K weight bias es d x B L I Sx. destruct L.
  destruct (tconv_init_inv _ _ _ _ _ _ _ _ _ _ _ I) as (roff & es' & PP & ->).
  unfold conv_transpose_s2_torch. cbn [d_K d_nlat_out d_nlon_out d_nlat_in d_nlon_in d_raw d_groups d_weight d_bias].
  destruct (expand_value G Og Cg K B hi wi weight x) as (y & Ey & Sy & Vy); auto. rewrite Ey. cbn [bindo].
  destruct (torch_transpose_spec K ho wo es y B (G * Og) hi wi) as (psi & z & E1 & E & T); auto. rewrite E1. cbn [bindo]. rewrite E. cbn [bindo].
  eapply adjoint_bias; eauto.
Qed.

(** The bias-free transposed layer with exchanged channels is the adjoint of the
    convolution layer. *)
Lemma layers_adjoint : forall junk junk' junk'' hi wi ho wo G Og Cg K weight es d dt (x y : tensor R) B,
  layer_ok K hi wi ho wo G Og Cg weight None es ->
  conv_s2_init junk hi wi ho wo G K weight None es = Some d ->
  conv_transpose_s2_init junk' ho wo hi wi G K (swap_weight G Og Cg K weight) None es = Some dt ->
  shp x = [B; G * Cg; hi; wi]%nat -> shp y = [B; G * Og; ho; wo]%nat ->
  exists z v, conv_s2_opt junk'' d x = Some z /\ conv_transpose_s2_opt dt y = Some v /\ inner4 z y = inner4 x v.
Proof.
  intros junk junk' junk'' hi wi ho wo G Og Cg K weight es d dt x y B L I It Sx Sy.
  assert (Lt : layer_ok K hi wi ho wo G Cg Og (swap_weight G Og Cg K weight) None es) by (destruct L; split; auto).
  destruct (conv_opt_spec junk junk'' hi wi ho wo G Og Cg K weight None es d x B L I Sx) as (z & Ez & Tz).
  destruct (tconv_opt_spec junk' ho wo hi wi G Cg Og K (swap_weight G Og Cg K weight) None es dt y B Lt It Sy) as (v & Ev & Tv).
  exists z, v. split; [exact Ez|]. split; [exact Ev|].
  destruct (shape4 _ _ _ _ _ Sy) as (_ & D0 & D1 & D2 & D3).
  assert (Sv : shp v = [B; G * Cg; hi; wi]%nat) by (destruct Tv as [S _]; rewrite S; unfold tconv_spec, swap_weight; cbn [shp]; rewrite D0; reflexivity).
  rewrite (inner4_teq_l _ _ _ Tz) by (destruct Tz as [S _]; unfold ndim; rewrite S; reflexivity).
  rewrite (conv_diff hi wi ho wo G Og Cg K weight None es L B) by auto.
  rewrite (inner4_teq_r x v (dgrad_at hi wi wo G Og Cg K weight es B y)).
  - assert (Z : forall c, rsum B (fun b => rsum (G * Og) (fun o => rsum ho (fun t => rsum wo (fun q => bias_at None o * val y [b; o; t; q])))) + c = c).
    { intros c. rewrite (bsum_zero' RT); [ring|]. intros b _. apply (bsum_zero' RT); intros o _. apply (bsum_zero' RT); intros t _. apply (bsum_zero' RT); intros q _. cbn. ring. }
    rewrite Rplus_comm, Z. reflexivity.
  - eapply teq_trans; [exact Tv|]. split; [unfold tconv_spec, swap_weight; cbn [shp]; rewrite D0; reflexivity|].
    intros i V. unfold tconv_spec, swap_weight in V. cbn [shp] in V. unfold dimsz in V at 2. cbn [shp nth] in V.
    destruct (valid4 _ _ _ _ _ V) as (b & c & h & j & -> & _). cbn [tconv_spec dgrad_at val nth]. rewrite D3.
    unfold tconv_value, dgrad_value. cbn [bias_at swap_weight val nth]. rewrite Rplus_0_r. reflexivity.
  - congruence.
  - unfold ndim. rewrite Sx. reflexivity.
Qed.

(** ** Rotations *)
Lemma mod_eq_shift : forall w a b k l, w <> 0%nat -> (a + k * w = b + l * w)%nat -> (a mod w = b mod w)%nat.
Proof. intros. rewrite <- (Nat.mod_add a k w), <- (Nat.mod_add b l w) by auto. congruence. Qed.

Lemma roll_index : forall ps n c q s, (1 <= ps)%nat -> (1 <= n)%nat ->
  (((c + ps * q) mod (ps * n) + (ps * n - (ps * s) mod (ps * n))) mod (ps * n) =
   (c + ps * ((q + (n - s mod n)) mod n)) mod (ps * n))%nat.
Proof.
  intros ps n c q s Hp Hn. assert (Hw : (ps * n <> 0)%nat) by nia.
  set (w := (ps * n)%nat) in *.
  pose proof (Nat.div_mod (c + ps * q) w Hw) as E1.
  assert (E2 : ((ps * s) mod w = ps * (s mod n))%nat) by (unfold w; rewrite Nat.mul_mod_distr_l by lia; reflexivity).
  rewrite E2. assert (S1 := Nat.mod_upper_bound s n ltac:(lia)).
  pose proof (Nat.div_mod (q + (n - s mod n)) n ltac:(lia)) as E3.
  set (a := ((c + ps * q) / w)%nat) in *. set (X := ((c + ps * q) mod w)%nat) in *.
  set (dd := ((q + (n - s mod n)) / n)%nat) in *. set (q' := ((q + (n - s mod n)) mod n)%nat) in *. set (sm := (s mod n)%nat) in *.
  apply (mod_eq_shift w _ _ a dd Hw).
  assert (E4 : (ps * q + ps * n = ps * sm + ps * (n * dd) + ps * q')%nat).
  { assert (E0 : (q + n = sm + n * dd + q')%nat) by lia. rewrite <- !Nat.mul_add_distr_l. rewrite E0. reflexivity. }
  assert (E5 : (ps * sm <= w)%nat) by (unfold w; apply Nat.mul_le_mono_l; lia).
  assert (E6 : (dd * w = ps * (n * dd))%nat) by (unfold w; ring).
  rewrite E6. assert (E7 : (a * w = w * a)%nat) by ring. rewrite E7. fold w in E4. lia.
Qed.
Lemma rollv_inj : forall n s i j, (i < n)%nat -> (j < n)%nat -> ((i + (n - s mod n)) mod n = (j + (n - s mod n)) mod n)%nat -> i = j.
Proof.
  intros n s i j Hi Hj E. assert (S := Nat.mod_upper_bound s n ltac:(lia)).
  pose proof (Nat.div_mod (i + (n - s mod n)) n ltac:(lia)) as A. pose proof (Nat.div_mod (j + (n - s mod n)) n ltac:(lia)) as B.
  rewrite E in A. set (t := (s mod n)%nat) in *. set (r := ((j + (n - t)) mod n)%nat) in *.
  set (u := ((i + (n - t)) / n)%nat) in *. set (v := ((j + (n - t)) / n)%nat) in *.
  apply (Nat.div_mod_unique n v u i j Hi Hj). lia.
Qed.

Lemma disco_sum_roll : forall ps n s es f k t q, (1 <= ps)%nat -> (1 <= n)%nat ->
  disco_sum (ps * n) ps es (fun h => rollv (ps * n) (ps * s) (f h)) k t q = rollv n s (disco_sum (ps * n) ps es f k t) q.
Proof.
  intros. unfold rollv, disco_sum. apply lsum_ext. intros e _. destruct (_ && _)%bool; [|reflexivity]. rewrite roll_index by auto. reflexivity.
Qed.
Lemma disco_adjoint_roll : forall ps n s es g h j, (1 <= ps)%nat -> (1 <= n)%nat -> (j < ps * n)%nat ->
  disco_adjoint_sum (ps * n) ps n es (fun k t => rollv n s (g k t)) h j = rollv (ps * n) (ps * s) (disco_adjoint_sum (ps * n) ps n es g h) j.
Proof.
  intros ps n s es g h j Hp Hn Hj. unfold rollv, disco_adjoint_sum. apply lsum_ext. intros e _. destruct (_ =? h)%nat; [|reflexivity]. f_equal.
  symmetry. rewrite <- (bsum_rot RT n (n - s mod n)). symmetry. apply rsum_ext. intros q Hq. cbv beta. rewrite <- roll_index by auto.
  set (m := ((col e mod (ps * n) + ps * q) mod (ps * n))%nat).
  assert (Hm : (m < ps * n)%nat) by (apply Nat.mod_upper_bound; nia).
  destruct (Nat.eqb_spec m j) as [->|N].
  - rewrite Nat.eqb_refl. reflexivity.
  - destruct (Nat.eqb_spec ((m + (ps * n - (ps * s) mod (ps * n))) mod (ps * n)) ((j + (ps * n - (ps * s) mod (ps * n))) mod (ps * n))) as [E|]; [|reflexivity].
    apply rollv_inj in E; auto. contradiction.
Qed.

Lemma roll4 : forall (x : tensor R) B C H W s b c h j, shp x = [B; C; H; W] -> val (roll_last s x) [b; c; h; j] = rollv W s (fun j => val x [b; c; h; j]) j.
Proof. intros. apply (roll_last_value _ x [B; C] H W s [b; c] h j); auto. Qed.

Lemma conv_roll : forall K Og Cg Ho ps n es weight bias (x : tensor R) B C Hi s, (1 <= ps)%nat -> (1 <= n)%nat -> shp x = [B; C; Hi; ps * n]%nat ->
  teq (conv_spec K Og Cg Ho n es weight bias (roll_last (ps * s) x)) (roll_last s (conv_spec K Og Cg Ho n es weight bias x)).
Proof.
  intros K Og Cg Ho ps n es weight bias x B C Hi s Hp Hn Sx.
  destruct (shape4 _ _ _ _ _ Sx) as (_ & D0 & D1 & D2 & D3).
  assert (E : (ps * n / n = ps)%nat) by (apply Nat.div_mul; lia).
  split; [reflexivity|]. intros i V. unfold conv_spec in V at 1. cbn [shp] in V.
  destruct (valid4 _ _ _ _ _ V) as (b & o & t & q & -> & Hb & Ho' & Ht & Hq).
  rewrite (roll4 _ (dimsz x 0) (dimsz weight 0) Ho n) by reflexivity.
  cbn [conv_spec val nth]. unfold rollv at 1. change (dimsz (roll_last (ps * s) x) 3) with (dimsz x 3). rewrite D3.
  unfold conv_value. rewrite E. f_equal. apply rsum_ext. intros c _. apply rsum_ext. intros k _. f_equal.
  transitivity (disco_sum (ps * n) ps es (fun h => rollv (ps * n) (ps * s) (fun w => val x [b; o / Og * Cg + c; h; w]%nat)) k t q).
  - unfold disco_sum. apply lsum_ext. intros e _. destruct (_ && _)%bool; [|reflexivity]. rewrite (roll4 x B C Hi (ps * n)) by auto. reflexivity.
  - rewrite disco_sum_roll by auto. reflexivity.
Qed.
Lemma tconv_roll : forall Og Cg Ho ps n es weight bias (x : tensor R) B C Hi s, (1 <= ps)%nat -> (1 <= n)%nat -> shp x = [B; C; Hi; n]%nat ->
  teq (tconv_spec Og Cg Ho (ps * n) es weight bias (roll_last s x)) (roll_last (ps * s) (tconv_spec Og Cg Ho (ps * n) es weight bias x)).
Proof.
  intros Og Cg Ho ps n es weight bias x B C Hi s Hp Hn Sx.
  destruct (shape4 _ _ _ _ _ Sx) as (_ & D0 & D1 & D2 & D3).
  assert (E : (ps * n / n = ps)%nat) by (apply Nat.div_mul; lia).
  split; [reflexivity|]. intros i V. unfold tconv_spec in V at 1. cbn [shp] in V.
  destruct (valid4 _ _ _ _ _ V) as (b & o & h & j & -> & Hb & Ho' & Hh & Hj).
  rewrite (roll4 _ (dimsz x 0) (dimsz weight 0) Ho (ps * n)) by reflexivity.
  cbn [tconv_spec val nth]. unfold rollv at 1. change (dimsz (roll_last s x) 3) with (dimsz x 3). rewrite D3.
  unfold tconv_value. rewrite E. f_equal.
  transitivity (disco_adjoint_sum (ps * n) ps n es (fun k t => rollv n s (fun q => rsum Cg (fun c => val x [b; o / Og * Cg + c; t; q]%nat * val weight [o; c; k]))) h j).
  - unfold disco_adjoint_sum. apply lsum_ext. intros e _. destruct (_ =? h)%nat; [|reflexivity]. f_equal. apply rsum_ext. intros q _.
    destruct (_ =? j)%nat; [|reflexivity]. unfold rollv. apply rsum_ext. intros c _. rewrite (roll4 x B C Hi n) by auto. reflexivity.
  - rewrite disco_adjoint_roll by auto. reflexivity.
Qed.
Lemma roll_teq : forall (x y : tensor R) B C H W s, shp x = [B; C; H; W] -> (1 <= W)%nat -> teq x y -> teq (roll_last s x) (roll_last s y).
Proof.
  intros x y B C H W s Sx HW [TS TV]. split; [exact TS|]. intros i V. cbn [shp roll_last] in V. rewrite Sx in V.
  destruct (valid4 _ _ _ _ _ V) as (b & c & h & j & -> & ?&?&?&?).
  rewrite (roll4 x B C H W), (roll4 y B C H W) by congruence. unfold rollv. apply TV. rewrite Sx. apply valid4_intro; auto. apply Nat.mod_upper_bound. lia.
Qed.

Lemma layer_ps : forall wi wo, (1 <= wo)%nat -> (1 <= wi)%nat -> (wi mod wo = 0)%nat -> exists ps, (wi = ps * wo /\ wi / wo = ps /\ 1 <= ps)%nat.
Proof. intros wi wo H1 H2 H3. exists (wi / wo)%nat. assert (E := mod0_mul wi wo H1 H3). split; [exact E|]. split; [reflexivity|]. nia. Qed.
Lemma conv_opt_roll : forall junk junk' hi wi ho wo G Og Cg K weight bias es d (x : tensor R) B s,
  layer_ok K hi wi ho wo G Og Cg weight bias es -> conv_s2_init junk hi wi ho wo G K weight bias es = Some d -> shp x = [B; G * Cg; hi; wi]%nat ->
  exists z z', conv_s2_opt junk' d x = Some z /\ conv_s2_opt junk' d (roll_last (wi / wo * s) x) = Some z' /\ teq z' (roll_last s z).
Proof.
  intros junk junk' hi wi ho wo G Og Cg K weight bias es d x B s L I Sx.
  destruct (conv_opt_spec junk junk' hi wi ho wo G Og Cg K weight bias es d x B L I Sx) as (z & Ez & Tz).
  destruct (conv_opt_spec junk junk' hi wi ho wo G Og Cg K weight bias es d (roll_last (wi / wo * s) x) B L I Sx) as (z' & Ez' & Tz').
  exists z, z'. split; [exact Ez|]. split; [exact Ez'|]. eapply teq_trans; [exact Tz'|].
  assert (Sw := lo_weight _ _ _ _ _ _ _ _ _ _ _ L). destruct L. destruct (layer_ps wi wo) as (ps & E1 & E2 & E3); auto. rewrite E2. subst wi.
  eapply teq_trans; [eapply conv_roll; eauto|]. eapply roll_teq; [reflexivity|auto|]. apply teq_sym. exact Tz.
Qed.
Lemma conv_torch_roll : forall junk hi wi ho wo G Og Cg K weight bias es d (x : tensor R) B s,
  layer_ok K hi wi ho wo G Og Cg weight bias es -> conv_s2_init junk hi wi ho wo G K weight bias es = Some d -> shp x = [B; G * Cg; hi; wi]%nat -> (ho <= wi)%nat ->
  exists z z', conv_s2_torch d x = Some z /\ conv_s2_torch d (roll_last (wi / wo * s) x) = Some z' /\ teq z' (roll_last s z).
Proof.
  intros junk hi wi ho wo G Og Cg K weight bias es d x B s L I Sx HH.
  destruct (conv_torch_spec junk hi wi ho wo G Og Cg K weight bias es d x B L I Sx HH) as (z & Ez & Tz).
  destruct (conv_torch_spec junk hi wi ho wo G Og Cg K weight bias es d (roll_last (wi / wo * s) x) B L I Sx HH) as (z' & Ez' & Tz').
  exists z, z'. split; [exact Ez|]. split; [exact Ez'|]. eapply teq_trans; [exact Tz'|].
  destruct L. destruct (layer_ps wi wo) as (ps & E1 & E2 & E3); auto. rewrite E2. subst wi.
  eapply teq_trans; [eapply conv_roll; eauto|]. eapply roll_teq; [reflexivity|auto|]. apply teq_sym. exact Tz.
Qed.
Lemma tconv_opt_roll : forall junk hi wi ho wo G Og Cg K weight bias es d (x : tensor R) B s,
  layer_ok K ho wo hi wi G Og Cg weight bias es -> conv_transpose_s2_init junk hi wi ho wo G K weight bias es = Some d -> shp x = [B; G * Cg; hi; wi]%nat ->
  exists z z', conv_transpose_s2_opt d x = Some z /\ conv_transpose_s2_opt d (roll_last s x) = Some z' /\ teq z' (roll_last (wo / wi * s) z).
Proof.
  intros junk hi wi ho wo G Og Cg K weight bias es d x B s L I Sx.
  destruct (tconv_opt_spec junk hi wi ho wo G Og Cg K weight bias es d x B L I Sx) as (z & Ez & Tz).
  destruct (tconv_opt_spec junk hi wi ho wo G Og Cg K weight bias es d (roll_last s x) B L I Sx) as (z' & Ez' & Tz').
  exists z, z'. split; [exact Ez|]. split; [exact Ez'|]. eapply teq_trans; [exact Tz'|].
  destruct L. destruct (layer_ps wo wi) as (ps & E1 & E2 & E3); auto. rewrite E2. subst wo.
  eapply teq_trans; [eapply tconv_roll; eauto|]. eapply roll_teq; [reflexivity|auto|]. apply teq_sym. exact Tz.
Qed.
Lemma tconv_torch_roll : forall junk hi wi ho wo G Og Cg K weight bias es d (x : tensor R) B s,
  layer_ok K ho wo hi wi G Og Cg weight bias es -> conv_transpose_s2_init junk hi wi ho wo G K weight bias es = Some d -> shp x = [B; G * Cg; hi; wi]%nat ->
  exists z z', conv_transpose_s2_torch d x = Some z /\ conv_transpose_s2_torch d (roll_last s x) = Some z' /\ teq z' (roll_last (wo / wi * s) z).
Proof.
  intros junk hi wi ho wo G Og Cg K weight bias es d x B s L I Sx.
  destruct (tconv_torch_spec junk hi wi ho wo G Og Cg K weight bias es d x B L I Sx) as (z & Ez & Tz).
  destruct (tconv_torch_spec junk hi wi ho wo G Og Cg K weight bias es d (roll_last s x) B L I Sx) as (z' & Ez' & Tz').
  exists z, z'. split; [exact Ez|]. split; [exact Ez'|]. eapply teq_trans; [exact Tz'|].
  destruct L. destruct (layer_ps wo wi) as (ps & E1 & E2 & E3); auto. rewrite E2. subst wo.
  eapply teq_trans; [eapply tconv_roll; eauto|]. eapply roll_teq; [reflexivity|auto|]. apply teq_sym. exact Tz.
Qed.
(** The layers' two paths agree *)
Lemma conv_paths_agree : forall junk junk' hi wi ho wo G Og Cg K weight bias es d (x : tensor R) B,
  layer_ok K hi wi ho wo G Og Cg weight bias es -> conv_s2_init junk hi wi ho wo G K weight bias es = Some d -> shp x = [B; G * Cg; hi; wi]%nat -> (ho <= wi)%nat ->
  exists z z', conv_s2_opt junk' d x = Some z /\ conv_s2_torch d x = Some z' /\ teq z z'.
Proof.
  intros. destruct (conv_opt_spec junk junk' hi wi ho wo G Og Cg K weight bias es d x B) as (z & Ez & Tz); auto.
  destruct (conv_torch_spec junk hi wi ho wo G Og Cg K weight bias es d x B) as (z' & Ez' & Tz'); auto.
  exists z, z'. split; [exact Ez|]. split; [exact Ez'|]. eapply teq_trans; [exact Tz|]. apply teq_sym. exact Tz'.
Qed.
Lemma tconv_paths_agree : forall junk hi wi ho wo G Og Cg K weight bias es d (x : tensor R) B,
  layer_ok K ho wo hi wi G Og Cg weight bias es -> conv_transpose_s2_init junk hi wi ho wo G K weight bias es = Some d -> shp x = [B; G * Cg; hi; wi]%nat ->
  exists z z', conv_transpose_s2_opt d x = Some z /\ conv_transpose_s2_torch d x = Some z' /\ teq z z'.
Proof.
  intros. destruct (tconv_opt_spec junk hi wi ho wo G Og Cg K weight bias es d x B) as (z & Ez & Tz); auto.
  destruct (tconv_torch_spec junk hi wi ho wo G Og Cg K weight bias es d x B) as (z' & Ez' & Tz'); auto.
  exists z, z'. split; [exact Ez|]. split; [exact Ez'|]. eapply teq_trans; [exact Tz|]. apply teq_sym. exact Tz'.
Qed.
(** the two gradient paths agree *)
Lemma dgrad_paths_agree : forall junk hi wi ho wo G Og Cg K weight bias es d (g : tensor R) B,
  layer_ok K hi wi ho wo G Og Cg weight bias es -> conv_s2_init junk hi wi ho wo G K weight bias es = Some d -> shp g = [B; G * Og; ho; wo]%nat ->
  exists v v', weight_first_dgrad d g = Some v /\ spatial_first_dgrad d g = Some v' /\ teq v v'.
Proof.
  intros. destruct (weight_first_spec junk hi wi ho wo G Og Cg K weight bias es d H H0 g B) as (z & Ez & Tz); auto.
  destruct (spatial_first_spec junk hi wi ho wo G Og Cg K weight bias es d H H0 g B) as (z' & Ez' & Tz'); auto.
  exists z, z'. split; [exact Ez|]. split; [exact Ez'|]. eapply teq_trans; [exact Tz|]. apply teq_sym. exact Tz'.
Qed.
(** contraction adjointness for what the kernels return *)
Lemma contraction_adjoint : forall junk junk' K Hi Wi Ho Wo es roff es' (x y : tensor R) B C,
  (1 <= K)%nat -> psi_wf K Ho (Hi * Wi) es -> rows_sorted es -> kernels_separated K es -> es <> [] ->
  preprocess_psi junk K Ho es = Some (roff, es') -> shp x = [B; C; Hi; Wi] -> shp y = [B; C; K; Ho; Wo] ->
  (1 <= Wi)%nat -> (1 <= Wo)%nat -> (Wi mod Wo = 0)%nat ->
  exists u v, disco_cpu_fwd junk' K Ho Wo roff es' x = Some u /\ disco_cpu_bwd K Hi Wi roff es' y = Some v /\ inner5 u y = inner4 x v.
Proof.
  intros junk junk' K Hi Wi Ho Wo es roff es' x y B C HK W RS SP NE PP Sx Sy HWi HWo HM.
  destruct (cpu_fwd_spec junk junk' K Ho Wo es roff es' x B C Hi Wi) as (u & Eu & Tu); auto.
  destruct (cpu_bwd_spec junk Hi Wi es roff es' y B C K Ho Wo) as (v & Ev & Tv); auto.
  exists u, v. split; [exact Eu|]. split; [exact Ev|].
  rewrite (inner4_teq_r x v _ Tv).
  - rewrite <- (disco_adjoint K Ho Wo Hi Wi es x y B C) by auto.
    destruct Tu as [TS TV]. unfold inner5, dimsz. rewrite <- TS.
    assert (Su : shp u = [B; C; K; Ho; Wo]). { rewrite TS. unfold tensor_disco, dimsz. rewrite Sx. reflexivity. }
    rewrite Su. cbn [nth]. repeat (apply rsum_ext; intros). f_equal. apply TV. rewrite Su. apply valid5_intro; auto.
  - destruct Tv as [TS _]. rewrite TS. unfold tensor_disco_adjoint, dimsz. rewrite Sx, Sy. reflexivity.
  - unfold ndim. rewrite Sx. reflexivity.
Qed.
