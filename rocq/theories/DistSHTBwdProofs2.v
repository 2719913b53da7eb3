(** The four transforms: gradients, serial and distributed. *)
From Coq Require Import List Arith Lia Bool Reals.
From Coquelicot Require Import Coquelicot.
From Verif Require Import TensorModel TensorProofs BigSum FFTModel TruncModel LegendreModel QuadModel SHTModel
  PrimModel PrimSpec PrimProofs PrimProofs2 DistSHTModel DistSHTProofs DistSHTProofs2 DistSHTProofs3 DistSHTProofs4
  SHTGradModel SHTGradSpec SHTGradProofs DistSHTBwdModel DistSHTBwdProofs.
Import ListNotations.
Local Open Scope nat_scope.

(** ** Tables *)
Lemma legcontract_ext : forall (v w : tensor R) dk dm x, shp v = shp w -> (forall m l k, val v [m; l; k] = val w [m; l; k]) ->
  legcontract v dk dm x = legcontract w dk dm x.
Proof.
  intros v w dk dm x Hs Hv. unfold legcontract, einsum_ok, ndim, dimsz. rewrite Hs.
  match goal with |- (if ?b then _ else _) = _ => destruct b; [|reflexivity] end. f_equal. unfold along. f_equal.
  apply FunctionalExtensionality.functional_extensionality. intros i. f_equal; apply bsum_ext; intros; now rewrite Hv.
Qed.
Lemma vecK_ext : forall (v w : tensor R) dc dk dm x, shp v = shp w -> (forall c m l k, val v [c; m; l; k] = val w [c; m; l; k]) ->
  vecK v dc dk dm x = vecK w dc dk dm x.
Proof.
  intros v w dc dk dm x Hs Hv. unfold vecK, dimsz. rewrite Hs. f_equal.
  apply FunctionalExtensionality.functional_extensionality. intros i. apply vcell_ext. intros k _. rewrite !Hv. auto.
Qed.

Lemma scalar_contract_bwd_ok : forall P A w Lin Lout M N Z p a o t,
  shp w = [M; Lin; Lout] -> shp Z = [N; Lin; M] ->
  1 <= P -> 1 <= A -> p < P -> a < A -> A <= M ->
  d_weights o = shard 0 A a w ->
  teq t (shard 0 P p (shard 2 A a Z)) ->
  returns (scalar_contract_bwd o t) (shard 0 P p (shard 2 A a (legK (swap12 w) 1 2 Z))).
Proof.
  intros P A w Lin Lout M N Z p a o t Hw HZ HP HA Hp Ha HM Ho Ht.
  unfold scalar_contract_bwd, legcontract_bwd. rewrite Ho.
  rewrite (legcontract_ext (swap12 (shard 0 A a w)) (shard 0 A a (swap12 w))).
  - apply (scalar_contract_ok P A (swap12 w) Lin Lout M N Z p a
      (mkDSHT (d_nlat o) (d_nlon o) (d_lmax o) (d_mmax o) (d_lat_shapes o) (d_lon_shapes o) (d_l_shapes o) (d_m_shapes o) (shard 0 A a (swap12 w))) t); auto.
    unfold swap12, dimsz. cbn [shp]. now rewrite Hw.
  - unfold swap12, shard, narrow, dimsz. cbn [shp]. rewrite Hw. reflexivity.
  - intros m l k. reflexivity.
Qed.
Lemma vector_contract_bwd_ok : forall P A w Lin Lout M N Z p a o t,
  shp w = [2; M; Lin; Lout] -> shp Z = [N; 2; Lin; M] ->
  1 <= P -> 1 <= A -> p < P -> a < A -> A <= M ->
  d_weights o = shard 1 A a w ->
  teq t (shard 0 P p (shard 3 A a Z)) ->
  returns (vector_contract_bwd o t) (shard 0 P p (shard 3 A a (vecK (vswap w) 1 2 3 Z))).
Proof.
  intros P A w Lin Lout M N Z p a o t Hw HZ HP HA Hp Ha HM Ho Ht.
  assert (SV : shp (vswap w) = [2; M; Lout; Lin]) by (unfold vswap, dimsz; cbn [shp]; now rewrite Hw).
  assert (T2 : dimsz t 2 = Lin) by (rewrite (teq_dimsz _ _ _ 2 Ht), !dimsz_shard_other by lia; unfold dimsz; now rewrite HZ).
  assert (T3 : dimsz t 3 = chunk_len M A a).
  { rewrite (teq_dimsz _ _ _ 3 Ht), dimsz_shard_other by lia. unfold shard, narrow, dimsz. cbn [shp]. now rewrite HZ. }
  unfold vector_contract_bwd. rewrite Ho. rewrite veccontract_bwd_eq.
  2:{ rewrite ndim_shard. unfold ndim. now rewrite Hw. }
  2:{ rewrite T3. unfold shard, narrow, dimsz. cbn [shp]. now rewrite Hw. }
  2:{ rewrite T2, dimsz_shard_other by lia. unfold dimsz. now rewrite Hw. }
  rewrite (vecK_ext (vswap (shard 1 A a w)) (shard 1 A a (vswap w))).
  - pose proof (vector_contract_ok P A (vswap w) Lin Lout M N Z p a
      (mkDSHT (d_nlat o) (d_nlon o) (d_lmax o) (d_mmax o) (d_lat_shapes o) (d_lon_shapes o) (d_l_shapes o) (d_m_shapes o) (shard 1 A a (vswap w))) t SV HZ HP HA Hp Ha HM eq_refl Ht) as Q.
    unfold vector_contract in Q. cbn [d_weights] in Q.
    assert (E : veccontract (select0 0 (shard 1 A a (vswap w))) (select0 1 (shard 1 A a (vswap w))) 1 2 3 t = Some (vecK (shard 1 A a (vswap w)) 1 2 3 t)).
    { apply veccontract_eq.
      - rewrite ndim_shard. unfold ndim. now rewrite SV.
      - rewrite T3. unfold shard, narrow, dimsz. cbn [shp]. now rewrite SV.
      - rewrite T2, dimsz_shard_other by lia. unfold dimsz. now rewrite SV. }
    rewrite E in Q. exact Q.
  - unfold vswap, shard, narrow, dimsz. cbn [shp]. rewrite Hw. reflexivity.
  - intros c m l k. reflexivity.
Qed.

(** ** RealSHT *)
Definition gD_real (s : sht) (k : nat) (G : tensor C) : tensor R :=
  rfft_dim_bwd (s_mmax s) (s_nlon s) (k + 1) (legK (swap12 (s_weights s)) (k + 0) (k + 1) G).
Lemma real_sht_bwd_eq : forall s lead G, table_ok s (s_lmax s) (s_nlat s) -> shp G = lead ++ [s_lmax s; s_mmax s] ->
  real_sht_bwd s G = Some (gD_real s (length lead) G) /\ shp (gD_real s (length lead) G) = lead ++ [s_nlat s; s_nlon s].
Proof.
  intros s lead G Hw HG. unfold table_ok in Hw. set (k := length lead).
  assert (ND : ndim G = k + 2) by (unfold ndim; rewrite HG, app_length; reflexivity).
  split.
  - unfold real_sht_bwd, legcontract_bwd. rewrite ND. replace (k + 2 - 2) with (k + 0) by lia. replace (k + 2 - 1) with (k + 1) by lia.
    rewrite legcontract_eq. reflexivity.
    unfold einsum_ok, swap12, ndim, dimsz. cbn [shp]. rewrite Hw, HG. unfold k. rewrite !nth_app_r. simpl. now rewrite !Nat.eqb_refl.
  - unfold gD_real, rfft_dim_bwd, legK. cbn [shp along]. rewrite HG. unfold k. rewrite !upd_app_r. cbn [upd].
    unfold swap12, dimsz. cbn [shp nth]. now rewrite Hw.
Qed.
Theorem real_sht_adjoint : forall s lead G, table_ok s (s_lmax s) (s_nlat s) -> 1 <= s_nlon s -> shp G = lead ++ [s_lmax s; s_mmax s] ->
  exists D, real_sht_bwd s G = Some D /\ shp D = lead ++ [s_nlat s; s_nlon s] /\
    forall X, shp X = lead ++ [s_nlat s; s_nlon s] -> exists Y, real_sht s X = Some Y /\ shp Y = shp G /\ cdot Y G = dot X D.
Proof.
  intros s lead G Hw Hn HG. destruct (real_sht_bwd_eq s lead G Hw HG) as (E & SD). exists (gD_real s (length lead) G). split; auto. split; auto.
  intros X HX. unfold table_ok in Hw. set (k := length lead) in *.
  assert (W0 : dimsz (s_weights s) 0 = s_mmax s) by (unfold dimsz; now rewrite Hw).
  assert (W1 : dimsz (s_weights s) 1 = s_lmax s) by (unfold dimsz; now rewrite Hw).
  assert (W2 : dimsz (s_weights s) 2 = s_nlat s) by (unfold dimsz; now rewrite Hw).
  assert (ND : ndim X = k + 2) by (unfold ndim; rewrite HX, app_length; reflexivity).
  assert (SF : shp (rfft_dim (s_mmax s) (k + 1) X) = lead ++ [s_nlat s; s_mmax s]).
  { rewrite rfft_dim_eq. cbn [shp along]. rewrite HX. unfold k. now rewrite upd_app_r. }
  exists (legK (s_weights s) (k + 0) (k + 1) (rfft_dim (s_mmax s) (k + 1) X)). split; [|split].
  - unfold real_sht. rewrite (sht_check_ok _ lead) by (auto; lia). cbn [bindo]. rewrite ND.
    replace (k + 2 - 2) with (k + 0) by lia. replace (k + 2 - 1) with (k + 1) by lia.
    apply legcontract_eq. unfold einsum_ok. rewrite W0, W2. unfold ndim, dimsz. rewrite Hw, SF.
    unfold k. rewrite !nth_app_r. simpl. now rewrite !Nat.eqb_refl.
  - unfold legK. cbn [shp along]. rewrite SF, W1, HG. unfold k. now rewrite upd_app_r.
  - rewrite legK_adjoint.
    + unfold gD_real. apply rfft_dim_adjoint; auto; [lia|unfold dimsz; rewrite HX; unfold k; now rewrite nth_app_r|].
      unfold legK. cbn [shp along]. rewrite HG, HX. unfold k. rewrite !upd_app_r. cbn [upd].
      unfold swap12, dimsz. cbn [shp nth]. now rewrite Hw.
    + lia.
    + unfold ndim. rewrite SF, app_length. simpl. fold k. lia.
    + rewrite W2. unfold dimsz. rewrite SF. unfold k. now rewrite nth_app_r.
    + rewrite W1, SF, HG. unfold k. now rewrite upd_app_r.
Qed.
Theorem dist_real_sht_bwd_ok : forall P A s debug lead X G x g obj,
  1 <= P -> 1 <= A -> table_ok s (s_lmax s) (s_nlat s) ->
  P <= s_nlat s -> A <= s_nlon s -> P <= s_lmax s -> A <= s_mmax s ->
  lead <> [] -> shp X = lead ++ [s_nlat s; s_nlon s] -> shp G = lead ++ [s_lmax s; s_mmax s] ->
  (forall p a, p < P -> a < A -> obj p a = dist_init 0 P A s p a) ->
  holds2 P A x (fun p a => shard (length lead) P p (shard (length lead + 1) A a X)) ->
  holds2 P A g (fun p a => shard (length lead) P p (shard (length lead + 1) A a G)) ->
  holds2 P A (dist_real_sht_bwd debug P A obj x g) (fun p a => shard (length lead) P p (shard (length lead + 1) A a (gD_real s (length lead) G))).
Proof.
  intros P A s debug lead X G x g obj HP HA Hw H1 H2 H3 H4 Hl HX HG Hobj Hx Hg.
  assert (Hll : 1 <= length lead) by (destruct lead; simpl; [congruence|lia]).
  unfold table_ok in Hw.
  assert (W0 : dimsz (s_weights s) 0 = s_mmax s) by (unfold dimsz; now rewrite Hw).
  assert (W1 : dimsz (s_weights s) 1 = s_lmax s) by (unfold dimsz; now rewrite Hw).
  assert (W2 : dimsz (s_weights s) 2 = s_nlat s) by (unfold dimsz; now rewrite Hw).
  set (k := length lead).
  set (G1 := padflat (RtoC 0) lead [s_lmax s; s_mmax s] (Nat.max P A) G).
  assert (FG : flat_of lead [s_lmax s; s_mmax s] G G1) by now apply padflat_flat.
  apply (flat_legK lead (swap12 (s_weights s))) in FG; [|change (dimsz (swap12 (s_weights s)) 2) with (dimsz (s_weights s) 1); lia].
  change (dimsz (swap12 (s_weights s)) 1) with (dimsz (s_weights s) 2) in FG. rewrite W2 in FG.
  apply (flat_rfft_bwd lead [] (s_mmax s) (s_nlon s)) in FG. cbn [app length] in FG. fold k in FG.
  assert (OK : obj_ok P A s obj).
  { intros p a Hp Ha. rewrite Hobj, dist_init_ok by (auto; unfold ndim; rewrite Hw; simpl; lia).
    eexists. split; [reflexivity|]. cbn. repeat split; apply css_some; auto. }
  eapply (holds2_teq _ _ _ _ (fun p a => shard (k + 0) P p (shard (k + 1) A a (gD_real s k G)))).
  2: intros; rewrite Nat.add_0_r; apply teq_refl.
  apply (dist_forward_bwd_ok P A HP HA lead [] s obj debug OK H1 H2 H3 H4 scalar_contract scalar_contract_bwd _
           (legK (s_weights s) 1 2) (legK (swap12 (s_weights s)) 1 2) x g X G (gD_real s k G)); auto; cbn [length].
  - rewrite Nat.add_0_r. auto.
  - rewrite Nat.add_0_r. auto.
  - intros p a t Hp Ha Ht. apply (sht_check_ok _ lead); auto. simpl. lia.
  - intros N Z HN HZ. split.
    + unfold legK. cbn [shp along]. rewrite HZ, W1. reflexivity.
    + intros p a o t Hp Ha Ho Ht.
      rewrite Hobj, dist_init_ok in Ho by (auto; unfold ndim; rewrite Hw; simpl; lia). inversion Ho.
      eapply scalar_contract_ok; eauto.
  - intros N Z HN HZ. split.
    + unfold legK. cbn [shp along]. rewrite HZ. change (dimsz (swap12 (s_weights s)) 1) with (dimsz (s_weights s) 2). rewrite W2. reflexivity.
    + intros p a o t Hp Ha Ho Ht.
      rewrite Hobj, dist_init_ok in Ho by (auto; unfold ndim; rewrite Hw; simpl; lia). inversion Ho.
      eapply scalar_contract_bwd_ok; eauto.
Qed.

(** ** InverseRealSHT *)
Definition gD_inv (s : sht) (k : nat) (G : tensor R) : tensor C :=
  legK (swap12 (s_weights s)) (k + 0) (k + 1) (irfft_dim_bwd (s_nlon s) (s_mmax s) (k + 1) G).
Lemma inverse_sht_bwd_eq : forall s lead G, table_ok s (s_nlat s) (s_lmax s) -> shp G = lead ++ [s_nlat s; s_nlon s] ->
  inverse_sht_bwd s G = Some (gD_inv s (length lead) G) /\ shp (gD_inv s (length lead) G) = lead ++ [s_lmax s; s_mmax s].
Proof.
  intros s lead G Hw HG. unfold table_ok in Hw. set (k := length lead).
  assert (ND : ndim G = k + 2) by (unfold ndim; rewrite HG, app_length; reflexivity).
  assert (SI : shp (irfft_dim_bwd (s_nlon s) (s_mmax s) (k + 1) G) = lead ++ [s_nlat s; s_mmax s]).
  { unfold irfft_dim_bwd. cbn [shp along]. rewrite HG. unfold k. now rewrite upd_app_r. }
  split.
  - unfold inverse_sht_bwd, legcontract_bwd. rewrite ND. replace (k + 2 - 2) with (k + 0) by lia. replace (k + 2 - 1) with (k + 1) by lia.
    rewrite legcontract_eq. reflexivity.
    unfold einsum_ok, swap12, ndim, dimsz. cbn [shp]. rewrite Hw, SI. unfold k. rewrite !nth_app_r. simpl. now rewrite !Nat.eqb_refl.
  - unfold gD_inv, legK. cbn [shp along]. rewrite SI. unfold k. rewrite !upd_app_r. cbn [upd].
    unfold swap12, dimsz. cbn [shp nth]. now rewrite Hw.
Qed.
Theorem inverse_sht_adjoint : forall s lead G, table_ok s (s_nlat s) (s_lmax s) -> 1 <= s_nlon s -> shp G = lead ++ [s_nlat s; s_nlon s] ->
  exists D, inverse_sht_bwd s G = Some D /\ shp D = lead ++ [s_lmax s; s_mmax s] /\
    forall X, shp X = lead ++ [s_lmax s; s_mmax s] -> exists Y, inverse_sht s X = Some Y /\ shp Y = shp G /\ dot Y G = cdot X D.
Proof.
  intros s lead G Hw Hn HG. destruct (inverse_sht_bwd_eq s lead G Hw HG) as (E & SD). exists (gD_inv s (length lead) G). split; auto. split; auto.
  intros X HX. unfold table_ok in Hw. set (k := length lead) in *.
  assert (W0 : dimsz (s_weights s) 0 = s_mmax s) by (unfold dimsz; now rewrite Hw).
  assert (W1 : dimsz (s_weights s) 1 = s_nlat s) by (unfold dimsz; now rewrite Hw).
  assert (W2 : dimsz (s_weights s) 2 = s_lmax s) by (unfold dimsz; now rewrite Hw).
  assert (ND : ndim X = k + 2) by (unfold ndim; rewrite HX, app_length; reflexivity).
  assert (SF : shp (legK (s_weights s) (k + 0) (k + 1) X) = lead ++ [s_nlat s; s_mmax s]).
  { unfold legK. cbn [shp along]. rewrite HX, W1. unfold k. now rewrite upd_app_r. }
  exists (irfft_dim (s_nlon s) (k + 1) (legK (s_weights s) (k + 0) (k + 1) X)). split; [|split].
  - unfold inverse_sht. rewrite (sht_check_ok _ lead) by (auto; lia). cbn [bindo]. rewrite ND.
    replace (k + 2 - 2) with (k + 0) by lia. replace (k + 2 - 1) with (k + 1) by lia.
    rewrite legcontract_eq. reflexivity. unfold einsum_ok. rewrite W0, W2. unfold ndim, dimsz. rewrite Hw, HX.
    unfold k. rewrite !nth_app_r. simpl. now rewrite !Nat.eqb_refl.
  - unfold irfft_dim. cbn [shp along]. rewrite SF, HG. unfold k. now rewrite upd_app_r.
  - rewrite (irfft_dim_adjoint (s_mmax s)).
    + unfold gD_inv. apply legK_adjoint; [lia|lia|rewrite W2; unfold dimsz; rewrite HX; unfold k; now rewrite nth_app_r|].
      unfold irfft_dim_bwd. cbn [shp along]. rewrite HG, HX, W1. unfold k. now rewrite !upd_app_r.
    + auto.
    + unfold ndim. rewrite SF, app_length. simpl. fold k. lia.
    + unfold dimsz. rewrite SF. unfold k. now rewrite nth_app_r.
    + rewrite SF, HG. unfold k. now rewrite upd_app_r.
Qed.
Theorem dist_inverse_sht_bwd_ok : forall P A s debug lead X G x g obj,
  1 <= P -> 1 <= A -> table_ok s (s_nlat s) (s_lmax s) ->
  P <= s_nlat s -> A <= s_nlon s -> P <= s_lmax s -> A <= s_mmax s ->
  lead <> [] -> shp X = lead ++ [s_lmax s; s_mmax s] -> shp G = lead ++ [s_nlat s; s_nlon s] ->
  (forall p a, p < P -> a < A -> obj p a = dist_init 0 P A s p a) ->
  holds2 P A x (fun p a => shard (length lead) P p (shard (length lead + 1) A a X)) ->
  holds2 P A g (fun p a => shard (length lead) P p (shard (length lead + 1) A a G)) ->
  holds2 P A (dist_inverse_sht_bwd debug P A obj x g) (fun p a => shard (length lead) P p (shard (length lead + 1) A a (gD_inv s (length lead) G))).
Proof.
  intros P A s debug lead X G x g obj HP HA Hw H1 H2 H3 H4 Hl HX HG Hobj Hx Hg.
  assert (Hll : 1 <= length lead) by (destruct lead; simpl; [congruence|lia]).
  unfold table_ok in Hw.
  assert (W0 : dimsz (s_weights s) 0 = s_mmax s) by (unfold dimsz; now rewrite Hw).
  assert (W1 : dimsz (s_weights s) 1 = s_nlat s) by (unfold dimsz; now rewrite Hw).
  assert (W2 : dimsz (s_weights s) 2 = s_lmax s) by (unfold dimsz; now rewrite Hw).
  set (k := length lead).
  set (G1 := padflat 0%R lead [s_nlat s; s_nlon s] (Nat.max P A) G).
  assert (FG : flat_of lead [s_nlat s; s_nlon s] G G1) by now apply padflat_flat.
  apply (flat_irfft_bwd lead [] (s_mmax s) (s_nlon s)) in FG. cbn [app length] in FG. fold k in FG.
  apply (flat_legK lead (swap12 (s_weights s))) in FG; [|change (dimsz (swap12 (s_weights s)) 2) with (dimsz (s_weights s) 1); lia].
  change (dimsz (swap12 (s_weights s)) 1) with (dimsz (s_weights s) 2) in FG. rewrite W2 in FG. fold k in FG.
  assert (OK : obj_ok P A s obj).
  { intros p a Hp Ha. rewrite Hobj, dist_init_ok by (auto; unfold ndim; rewrite Hw; simpl; lia).
    eexists. split; [reflexivity|]. cbn. repeat split; apply css_some; auto. }
  eapply (holds2_teq _ _ _ _ (fun p a => shard (k + 0) P p (shard (k + 1) A a (gD_inv s k G)))).
  2: intros; rewrite Nat.add_0_r; apply teq_refl.
  apply (dist_inverse_bwd_ok P A HP HA lead [] s obj debug OK H1 H2 H3 H4 scalar_contract scalar_contract_bwd _
           (legK (s_weights s) 1 2) (legK (swap12 (s_weights s)) 1 2) x g X G (gD_inv s k G)); auto; cbn [length].
  - rewrite Nat.add_0_r. auto.
  - rewrite Nat.add_0_r. auto.
  - intros p a t Hp Ha Ht. apply (sht_check_ok _ lead); auto. simpl. lia.
  - intros N Z HN HZ. split.
    + unfold legK. cbn [shp along]. rewrite HZ, W1. reflexivity.
    + intros p a o t Hp Ha Ho Ht.
      rewrite Hobj, dist_init_ok in Ho by (auto; unfold ndim; rewrite Hw; simpl; lia). inversion Ho.
      eapply scalar_contract_ok; eauto.
  - intros N Z HN HZ. split.
    + unfold legK. cbn [shp along]. rewrite HZ. change (dimsz (swap12 (s_weights s)) 1) with (dimsz (s_weights s) 2). rewrite W2. reflexivity.
    + intros p a o t Hp Ha Ho Ht.
      rewrite Hobj, dist_init_ok in Ho by (auto; unfold ndim; rewrite Hw; simpl; lia). inversion Ho.
      eapply scalar_contract_bwd_ok; eauto.
Qed.

(** ** RealVectorSHT *)
Definition gD_vec (s : sht) (k : nat) (G : tensor C) : tensor R :=
  rfft_dim_bwd (s_mmax s) (s_nlon s) (k + 2) (vecK (vswap (s_weights s)) (k + 0) (k + 1) (k + 2) G).
Lemma vector_sht_bwd_eq : forall s lead G, vtable_ok s (s_lmax s) (s_nlat s) -> shp G = lead ++ [2; s_lmax s; s_mmax s] ->
  vector_sht_bwd s G = Some (gD_vec s (length lead) G) /\ shp (gD_vec s (length lead) G) = lead ++ [2; s_nlat s; s_nlon s].
Proof.
  intros s lead G Hw HG. unfold vtable_ok in Hw. set (k := length lead).
  assert (ND : ndim G = k + 3) by (unfold ndim; rewrite HG, app_length; reflexivity).
  split.
  - unfold vector_sht_bwd. rewrite ND. replace (k + 3 - 3) with (k + 0) by lia. replace (k + 3 - 2) with (k + 1) by lia. replace (k + 3 - 1) with (k + 2) by lia.
    rewrite veccontract_bwd_eq. reflexivity.
    all: unfold ndim, dimsz; rewrite ?Hw, ?HG; unfold k; rewrite ?nth_app_r; try reflexivity.
  - unfold gD_vec, rfft_dim_bwd, vecK. cbn [shp along vecK]. rewrite HG. unfold k. rewrite !upd_app_r. cbn [upd].
    unfold vswap, dimsz. cbn [shp nth]. now rewrite Hw.
Qed.
Theorem vector_sht_adjoint : forall s lead G, vtable_ok s (s_lmax s) (s_nlat s) -> 1 <= s_nlon s -> shp G = lead ++ [2; s_lmax s; s_mmax s] ->
  exists D, vector_sht_bwd s G = Some D /\ shp D = lead ++ [2; s_nlat s; s_nlon s] /\
    forall X, shp X = lead ++ [2; s_nlat s; s_nlon s] -> exists Y, vector_sht s X = Some Y /\ shp Y = shp G /\ cdot Y G = dot X D.
Proof.
  intros s lead G Hw Hn HG. destruct (vector_sht_bwd_eq s lead G Hw HG) as (E & SD). exists (gD_vec s (length lead) G). split; auto. split; auto.
  intros X HX. unfold vtable_ok in Hw. set (k := length lead) in *.
  assert (W0 : dimsz (s_weights s) 1 = s_mmax s) by (unfold dimsz; now rewrite Hw).
  assert (W1 : dimsz (s_weights s) 2 = s_lmax s) by (unfold dimsz; now rewrite Hw).
  assert (W2 : dimsz (s_weights s) 3 = s_nlat s) by (unfold dimsz; now rewrite Hw).
  assert (ND : ndim X = k + 3) by (unfold ndim; rewrite HX, app_length; reflexivity).
  assert (SF : shp (rfft_dim (s_mmax s) (k + 2) X) = lead ++ [2; s_nlat s; s_mmax s]).
  { rewrite rfft_dim_eq. cbn [shp along vecK]. rewrite HX. unfold k. now rewrite upd_app_r. }
  exists (vecK (s_weights s) (k + 0) (k + 1) (k + 2) (rfft_dim (s_mmax s) (k + 2) X)). split; [|split].
  - unfold vector_sht. rewrite (vec_check_ok _ lead) by (auto; lia). cbn [bindo]. rewrite ND.
    replace (k + 3 - 3) with (k + 0) by lia. replace (k + 3 - 2) with (k + 1) by lia. replace (k + 3 - 1) with (k + 2) by lia.
    apply veccontract_eq; unfold ndim, dimsz; rewrite ?Hw, ?SF; auto; unfold k; now rewrite nth_app_r.
  - unfold vecK. cbn [shp along vecK]. rewrite SF, W1, HG. unfold k. now rewrite upd_app_r.
  - rewrite vecK_adjoint.
    + unfold gD_vec. apply rfft_dim_adjoint; auto; [lia|unfold dimsz; rewrite HX; unfold k; now rewrite nth_app_r|].
      unfold vecK. cbn [shp along vecK]. rewrite HG, HX. unfold k. rewrite !upd_app_r. cbn [upd].
      unfold vswap, dimsz. cbn [shp nth]. now rewrite Hw.
    + lia.
    + lia.
    + lia.
    + unfold ndim. rewrite SF, app_length. simpl. fold k. lia.
    + unfold ndim. rewrite SF, app_length. simpl. fold k. lia.
    + unfold dimsz. rewrite SF. unfold k. now rewrite nth_app_r.
    + rewrite W2. unfold dimsz. rewrite SF. unfold k. now rewrite nth_app_r.
    + rewrite W1, SF, HG. unfold k. now rewrite upd_app_r.
Qed.
Theorem dist_vector_sht_bwd_ok : forall P A s debug lead X G x g obj,
  1 <= P -> 1 <= A -> vtable_ok s (s_lmax s) (s_nlat s) ->
  P <= s_nlat s -> A <= s_nlon s -> P <= s_lmax s -> A <= s_mmax s ->
  lead <> [] -> shp X = lead ++ [2; s_nlat s; s_nlon s] -> shp G = lead ++ [2; s_lmax s; s_mmax s] ->
  (forall p a, p < P -> a < A -> obj p a = dist_init 1 P A s p a) ->
  holds2 P A x (fun p a => shard (length lead + 1) P p (shard (length lead + 2) A a X)) ->
  holds2 P A g (fun p a => shard (length lead + 1) P p (shard (length lead + 2) A a G)) ->
  holds2 P A (dist_vector_sht_bwd debug P A obj x g) (fun p a => shard (length lead + 1) P p (shard (length lead + 2) A a (gD_vec s (length lead) G))).
Proof.
  intros P A s debug lead X G x g obj HP HA Hw H1 H2 H3 H4 Hl HX HG Hobj Hx Hg.
  assert (Hll : 1 <= length lead) by (destruct lead; simpl; [congruence|lia]).
  unfold vtable_ok in Hw.
  assert (W0 : dimsz (s_weights s) 1 = s_mmax s) by (unfold dimsz; now rewrite Hw).
  assert (W1 : dimsz (s_weights s) 2 = s_lmax s) by (unfold dimsz; now rewrite Hw).
  assert (W2 : dimsz (s_weights s) 3 = s_nlat s) by (unfold dimsz; now rewrite Hw).
  set (k := length lead).
  set (G1 := padflat (RtoC 0) lead [2; s_lmax s; s_mmax s] (Nat.max P A) G).
  assert (FG : flat_of lead [2; s_lmax s; s_mmax s] G G1) by now apply padflat_flat.
  apply (flat_vecK lead (vswap (s_weights s))) in FG; [|change (dimsz (vswap (s_weights s)) 3) with (dimsz (s_weights s) 2); lia].
  change (dimsz (vswap (s_weights s)) 2) with (dimsz (s_weights s) 3) in FG. rewrite W2 in FG.
  apply (flat_rfft_bwd lead [2] (s_mmax s) (s_nlon s)) in FG. cbn [app length] in FG. fold k in FG.
  assert (OK : obj_ok P A s obj).
  { intros p a Hp Ha. rewrite Hobj, dist_init_ok by (auto; unfold ndim; rewrite Hw; simpl; lia).
    eexists. split; [reflexivity|]. cbn. repeat split; apply css_some; auto. }
  apply (dist_forward_bwd_ok P A HP HA lead [2] s obj debug OK H1 H2 H3 H4 vector_contract vector_contract_bwd _
           (vecK (s_weights s) 1 2 3) (vecK (vswap (s_weights s)) 1 2 3) x g X G (gD_vec s k G)); auto; cbn [length].
  - intros p a t Hp Ha Ht. apply (vec_check_ok _ lead); auto. simpl. lia.
  - intros N Z HN HZ. split.
    + unfold vecK. cbn [shp along vecK]. rewrite HZ, W1. reflexivity.
    + intros p a o t Hp Ha Ho Ht.
      rewrite Hobj, dist_init_ok in Ho by (auto; unfold ndim; rewrite Hw; simpl; lia). inversion Ho.
      eapply vector_contract_ok; eauto.
  - intros N Z HN HZ. split.
    + unfold vecK. cbn [shp along vecK]. rewrite HZ. change (dimsz (vswap (s_weights s)) 2) with (dimsz (s_weights s) 3). rewrite W2. reflexivity.
    + intros p a o t Hp Ha Ho Ht.
      rewrite Hobj, dist_init_ok in Ho by (auto; unfold ndim; rewrite Hw; simpl; lia). inversion Ho.
      eapply vector_contract_bwd_ok; eauto.
Qed.

(** ** InverseRealVectorSHT *)
Definition gD_ivec (s : sht) (k : nat) (G : tensor R) : tensor C :=
  vecK (vswap (s_weights s)) (k + 0) (k + 1) (k + 2) (irfft_dim_bwd (s_nlon s) (s_mmax s) (k + 2) G).
Lemma inverse_vector_sht_bwd_eq : forall s lead G, vtable_ok s (s_nlat s) (s_lmax s) -> shp G = lead ++ [2; s_nlat s; s_nlon s] ->
  inverse_vector_sht_bwd s G = Some (gD_ivec s (length lead) G) /\ shp (gD_ivec s (length lead) G) = lead ++ [2; s_lmax s; s_mmax s].
Proof.
  intros s lead G Hw HG. unfold vtable_ok in Hw. set (k := length lead).
  assert (ND : ndim G = k + 3) by (unfold ndim; rewrite HG, app_length; reflexivity).
  assert (SI : shp (irfft_dim_bwd (s_nlon s) (s_mmax s) (k + 2) G) = lead ++ [2; s_nlat s; s_mmax s]).
  { unfold irfft_dim_bwd. cbn [shp along vecK]. rewrite HG. unfold k. now rewrite upd_app_r. }
  split.
  - unfold inverse_vector_sht_bwd. rewrite ND. replace (k + 3 - 3) with (k + 0) by lia. replace (k + 3 - 2) with (k + 1) by lia. replace (k + 3 - 1) with (k + 2) by lia.
    rewrite veccontract_bwd_eq. reflexivity.
    all: unfold ndim, dimsz; rewrite ?Hw, ?SI; unfold k; rewrite ?nth_app_r; try reflexivity.
  - fold k. unfold gD_ivec, vecK. cbn [shp]. rewrite SI. unfold k. rewrite !upd_app_r. cbn [upd].
    unfold vswap, dimsz. cbn [shp nth]. now rewrite Hw.
Qed.
Theorem inverse_vector_sht_adjoint : forall s lead G, vtable_ok s (s_nlat s) (s_lmax s) -> 1 <= s_nlon s -> shp G = lead ++ [2; s_nlat s; s_nlon s] ->
  exists D, inverse_vector_sht_bwd s G = Some D /\ shp D = lead ++ [2; s_lmax s; s_mmax s] /\
    forall X, shp X = lead ++ [2; s_lmax s; s_mmax s] -> exists Y, inverse_vector_sht s X = Some Y /\ shp Y = shp G /\ dot Y G = cdot X D.
Proof.
  intros s lead G Hw Hn HG. destruct (inverse_vector_sht_bwd_eq s lead G Hw HG) as (E & SD). exists (gD_ivec s (length lead) G). split; auto. split; auto.
  intros X HX. unfold vtable_ok in Hw. set (k := length lead) in *.
  assert (W0 : dimsz (s_weights s) 1 = s_mmax s) by (unfold dimsz; now rewrite Hw).
  assert (W1 : dimsz (s_weights s) 2 = s_nlat s) by (unfold dimsz; now rewrite Hw).
  assert (W2 : dimsz (s_weights s) 3 = s_lmax s) by (unfold dimsz; now rewrite Hw).
  assert (ND : ndim X = k + 3) by (unfold ndim; rewrite HX, app_length; reflexivity).
  assert (SF : shp (vecK (s_weights s) (k + 0) (k + 1) (k + 2) X) = lead ++ [2; s_nlat s; s_mmax s]).
  { unfold vecK. cbn [shp along vecK]. rewrite HX, W1. unfold k. now rewrite upd_app_r. }
  exists (irfft_dim (s_nlon s) (k + 2) (vecK (s_weights s) (k + 0) (k + 1) (k + 2) X)). split; [|split].
  - unfold inverse_vector_sht. rewrite (vec_check_ok _ lead) by (auto; lia). cbn [bindo]. rewrite ND.
    replace (k + 3 - 3) with (k + 0) by lia. replace (k + 3 - 2) with (k + 1) by lia. replace (k + 3 - 1) with (k + 2) by lia.
    rewrite veccontract_eq. reflexivity. all: unfold ndim, dimsz; rewrite ?Hw, ?HX; auto; unfold k; rewrite ?nth_app_r; try reflexivity.
  - fold k. unfold irfft_dim. cbn [shp along]. rewrite SF, HG. unfold k. now rewrite upd_app_r.
  - fold k. rewrite (irfft_dim_adjoint (s_mmax s)).
    + unfold gD_ivec. apply vecK_adjoint; [lia|lia|lia|lia|lia|unfold dimsz; rewrite HX; unfold k; now rewrite nth_app_r|rewrite W2; unfold dimsz; rewrite HX; unfold k; now rewrite nth_app_r|].
      unfold irfft_dim_bwd. cbn [shp along vecK]. rewrite HG, HX, W1. unfold k. now rewrite !upd_app_r.
    + auto.
    + unfold ndim. rewrite SF, app_length. simpl. fold k. lia.
    + unfold dimsz. rewrite SF. unfold k. now rewrite nth_app_r.
    + rewrite SF, HG. unfold k. now rewrite upd_app_r.
Qed.
Theorem dist_inverse_vector_sht_bwd_ok : forall P A s debug lead X G x g obj,
  1 <= P -> 1 <= A -> vtable_ok s (s_nlat s) (s_lmax s) ->
  P <= s_nlat s -> A <= s_nlon s -> P <= s_lmax s -> A <= s_mmax s ->
  lead <> [] -> shp X = lead ++ [2; s_lmax s; s_mmax s] -> shp G = lead ++ [2; s_nlat s; s_nlon s] ->
  (forall p a, p < P -> a < A -> obj p a = dist_init 1 P A s p a) ->
  holds2 P A x (fun p a => shard (length lead + 1) P p (shard (length lead + 2) A a X)) ->
  holds2 P A g (fun p a => shard (length lead + 1) P p (shard (length lead + 2) A a G)) ->
  holds2 P A (dist_inverse_vector_sht_bwd debug P A obj x g) (fun p a => shard (length lead + 1) P p (shard (length lead + 2) A a (gD_ivec s (length lead) G))).
Proof.
  intros P A s debug lead X G x g obj HP HA Hw H1 H2 H3 H4 Hl HX HG Hobj Hx Hg.
  assert (Hll : 1 <= length lead) by (destruct lead; simpl; [congruence|lia]).
  unfold vtable_ok in Hw.
  assert (W0 : dimsz (s_weights s) 1 = s_mmax s) by (unfold dimsz; now rewrite Hw).
  assert (W1 : dimsz (s_weights s) 2 = s_nlat s) by (unfold dimsz; now rewrite Hw).
  assert (W2 : dimsz (s_weights s) 3 = s_lmax s) by (unfold dimsz; now rewrite Hw).
  set (k := length lead).
  set (G1 := padflat 0%R lead [2; s_nlat s; s_nlon s] (Nat.max P A) G).
  assert (FG : flat_of lead [2; s_nlat s; s_nlon s] G G1) by now apply padflat_flat.
  apply (flat_irfft_bwd lead [2] (s_mmax s) (s_nlon s)) in FG. cbn [app length] in FG. fold k in FG.
  apply (flat_vecK lead (vswap (s_weights s))) in FG; [|change (dimsz (vswap (s_weights s)) 3) with (dimsz (s_weights s) 2); lia].
  change (dimsz (vswap (s_weights s)) 2) with (dimsz (s_weights s) 3) in FG. rewrite W2 in FG. fold k in FG.
  assert (OK : obj_ok P A s obj).
  { intros p a Hp Ha. rewrite Hobj, dist_init_ok by (auto; unfold ndim; rewrite Hw; simpl; lia).
    eexists. split; [reflexivity|]. cbn. repeat split; apply css_some; auto. }
  apply (dist_inverse_bwd_ok P A HP HA lead [2] s obj debug OK H1 H2 H3 H4 vector_contract vector_contract_bwd _
           (vecK (s_weights s) 1 2 3) (vecK (vswap (s_weights s)) 1 2 3) x g X G (gD_ivec s k G)); auto; cbn [length].
  - intros p a t Hp Ha Ht. apply (vec_check_ok _ lead); auto. simpl. lia.
  - intros N Z HN HZ. split.
    + unfold vecK. cbn [shp along vecK]. rewrite HZ, W1. reflexivity.
    + intros p a o t Hp Ha Ho Ht.
      rewrite Hobj, dist_init_ok in Ho by (auto; unfold ndim; rewrite Hw; simpl; lia). inversion Ho.
      eapply vector_contract_ok; eauto.
  - intros N Z HN HZ. split.
    + unfold vecK. cbn [shp along vecK]. rewrite HZ. change (dimsz (vswap (s_weights s)) 2) with (dimsz (s_weights s) 3). rewrite W2. reflexivity.
    + intros p a o t Hp Ha Ho Ht.
      rewrite Hobj, dist_init_ok in Ho by (auto; unfold ndim; rewrite Hw; simpl; lia). inversion Ho.
      eapply vector_contract_bwd_ok; eauto.
Qed.
