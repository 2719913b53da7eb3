(** The distributed attention layer computes the shards of the serial one. *)
From Coq Require Import List Arith Lia Bool ZArith Reals Lra Permutation.
From Verif Require Import TensorModel TensorProofs BigSum DiscoModel PrimModel PrimAutogradModel PrimSpec PrimProofs HaloProofs DistSHTModel DistSHTProofs DistSpectralProofs DiscoTensorProofs DistDiscoProofs
  AttnModel AttnLayerModel AttnSpec AttnLayerSpec AttnCoreProofs AttnKernelProofs AttnOpProofs AttnOpValProofs AttnUpProofs AttnLayerProofs
  DistStateModel DistStateProofs DistAttnModel DistAttnProofs DistAttnProofs2 DistAttnProofs3.
Import ListNotations.
Local Open Scope nat_scope.

Lemma affine_at : forall W b Ci (f g : field) n y x n' y' x' o, (forall c, c < Ci -> f n y x c = g n' y' x' c) -> affine W b Ci f n y x o = affine W b Ci g n' y' x' o.
Proof. intros. unfold affine. f_equal. apply bsum_ext. intros c Hc. rewrite H by auto. reflexivity. Qed.
Lemma normed_at : forall eps w C nh (f g : field) n y x n' y' x' d, d < nh * C -> (forall c, c < nh * C -> f n y x c = g n' y' x' c) ->
  normed eps w C f n y x d = normed eps w C g n' y' x' d.
Proof.
  intros eps w C nh f g n y x n' y' x' d Hd E. destruct w as [w|]; [|apply E; auto]. unfold normed. rewrite E by auto. f_equal. f_equal. f_equal. f_equal. f_equal.
  apply bsum_ext. intros c Hc. destruct (split_head d nh C Hd) as (L1 & _). rewrite E by nia. reflexivity.
Qed.

(** ** Channels-first normalisation and head folding *)
Lemma qk_norm_cf_val : forall eps w t B H V C nh, 1 <= nh -> 1 <= B * H * V -> bias_shape w C -> shp t = [B; nh * C; H; V] ->
  exists r, qk_norm_cf eps w nh t = Some r /\ shp r = [B; nh * C; H; V] /\
  forall n y x d, n < B -> y < H -> x < V -> d < nh * C -> cf r n y x d = normed eps w C (cf t) n y x d.
Proof.
  intros eps w t B H V C nh Hn HB Sw St. unfold qk_norm_cf. destruct w as [w|].
  2:{ exists t. split; [reflexivity|]. split; [exact St|]. reflexivity. }
  cbn in Sw. destruct (shape4 _ _ _ _ _ St) as (_ & -> & -> & -> & ->). cbv zeta.
  rewrite (proj2 (Nat.leb_le _ _) Hn), (proj2 (Nat.leb_le _ _) HB). cbn [andb guard bindo].
  replace (nh * C / nh) with C by (rewrite Nat.mul_comm, Nat.div_mul; lia).
  destruct (reshape_val _ [B; nh; C; H; V] t) as (a & -> & Sa & Va). { rewrite St. cbn [prod_list fold_right]. ring. }
  cbn [bindo]. unfold rms_norm. unfold ndim at 1 2 3. unfold dimsz at 1 2. rewrite Sw.
  assert (Sp : shp (permute [0; 1; 3; 4; 2] a) = [B; nh; H; V; C]) by (unfold permute, dimsz; rewrite Sa; reflexivity).
  rewrite Sp. cbn [length nth Nat.sub Nat.leb Nat.eqb andb]. rewrite Nat.eqb_refl. cbn [guard bindo]. unfold dimsz. rewrite Sw. cbn [nth].
  set (r1 := mkT [B; nh; H; V; C] _). set (r2 := permute [0; 1; 4; 2; 3] r1).
  assert (S2 : shp r2 = [B; nh; C; H; V]) by reflexivity.
  destruct (reshape_val _ [B; nh * C; H; V] r2) as (r & -> & Sr & Vr). { rewrite S2. cbn [prod_list fold_right]. ring. }
  exists r. split; [reflexivity|]. split; [exact Sr|]. intros n y x d Hb Hy Hx Hd. unfold cf at 1.
  destruct (split_head d nh C Hd) as (L1 & L2 & E). rewrite (Vr _ [n; d / C; d mod C; y; x]).
  - assert (VA : forall c, c < C -> val a [n; d / C; c; y; x] = val t [n; d / C * C + c; y; x]).
    { intros c Hc. apply Va. { rewrite St. apply valid4_intro; auto. nia. } rewrite St. cbn [ravel prod_list fold_right]. ring. }
    unfold r2, permute. cbn [val length seq map index_of Nat.eqb nth]. unfold r1. cbn [val last removelast app].
    unfold permute. cbn [val length seq map index_of Nat.eqb nth]. unfold normed, cf.
    rewrite VA, E by auto. unfold Rdiv at 2. f_equal. f_equal. f_equal. f_equal. f_equal. f_equal. apply bsum_ext. intros c Hc. rewrite VA by auto. reflexivity.
  - rewrite S2. apply valid5_intro; auto.
  - rewrite S2. cbn [ravel prod_list fold_right]. rewrite <- E at 1. ring.
Qed.
Lemma fold_batch_val : forall t B H V C nh, 1 <= nh -> 1 <= B * H * V -> shp t = [B; nh * C; H; V] ->
  exists r, fold_batch nh t = Some r /\ shp r = [B * nh; C; H; V] /\
  forall m y x c, m < B * nh -> y < H -> x < V -> c < C -> cf r m y x c = cf t (m / nh) y x (m mod nh * C + c).
Proof.
  intros t B H V C nh Hn HB St. unfold fold_batch. destruct (shape4 _ _ _ _ _ St) as (_ & -> & -> & -> & ->). cbv zeta.
  rewrite (proj2 (Nat.leb_le _ _) Hn), (proj2 (Nat.leb_le _ _) HB). cbn [andb guard bindo].
  replace (nh * C / nh) with C by (rewrite Nat.mul_comm, Nat.div_mul; lia).
  destruct (reshape_val _ [B * nh; C; H; V] t) as (r & -> & Sr & Vr). { rewrite St. cbn [prod_list fold_right]. ring. }
  exists r. split; [reflexivity|]. split; [exact Sr|]. intros m y x c Hm Hy Hx Hc. unfold cf.
  assert (M : m = m / nh * nh + m mod nh) by (rewrite Nat.mul_comm; apply Nat.div_mod; lia).
  assert (M1 : m / nh < B) by (apply Nat.div_lt_upper_bound; lia). assert (M2 : m mod nh < nh) by (apply Nat.mod_upper_bound; lia).
  apply Vr.
  - rewrite St. apply valid4_intro; auto. nia.
  - rewrite St. cbn [ravel prod_list fold_right]. rewrite M at 1. ring.
Qed.

Section Layer.
Variables (argsort : list nat -> list nat) (eps : R) (L : weights) (B Ci Ck Cv nh Co Hi Wi Ho Wo : nat) (quad : nat -> R) (P : pattern) (k v q : tensor R).
Variables (Np A : nat) (ranks : nat -> list nat) (kf vf qf : pfam (tensor R)).
Let SL := na_layer L Hi Wi Ho Wo nh quad P.
Let obj := dist_na_init argsort Np A SL.

Hypothesis HW : weights_ok L Ci Ck Cv nh Co.
Hypothesis HN : na_ok B Ci nh Ck Cv Hi Wi Ho Wo quad P k v q.
Hypothesis HArg : forall l, Permutation (argsort l) (seq 0 (length l)).
Hypothesis (HNp : 1 <= Np) (HNi : Np <= Hi) (HNo : Np <= Ho) (HA : 1 <= A) (HAi : A <= Wi) (HAo : A <= Wo).
Hypothesis HS : forall a, a < A -> if Wi mod Wo =? 0 then chunk_len Wi A a = Wi / Wo * chunk_len Wo A a else chunk_len Wo A a = Wo / Wi * chunk_len Wi A a.
Hypothesis HR : forall p, p < Np -> NoDup (ranks p) /\ length (ranks p) = A.
Hypothesis HH : forall p a o, p < Np -> a < A -> obj p a = Some o -> da_r_lat o <= chunk_len Hi Np p.
Hypothesis Hk : holds2 Np A kf (fun p a => shard 2 Np p (shard 3 A a k)).
Hypothesis Hv : holds2 Np A vf (fun p a => shard 2 Np p (shard 3 A a v)).
Hypothesis Hq : holds2 Np A qf (fun p a => shard 2 Np p (shard 3 A a q)).

Let up := na_upsample Wi Wo.
Let rl := if up then compute_r_lat_up Np Wo Hi (bal Hi Np) (bal Ho Np) (offsets 0 P) (columns P)
          else compute_r_lat Np Wi (bal Hi Np) (bal Ho Np) (offsets 0 P) (columns P).
Let psi p a := if up then local_psi_up Wo Hi (bal Hi Np) (bal Ho Np) (offsets 0 P) (columns P) p (chunk_lo Wo A a) rl
               else local_psi Wi Wo (bal Ho Np) (offsets 0 P) (columns P) p (chunk_lo Wo A a).

Lemma up_iff : up = negb (Wi mod Wo =? 0).
Proof.
  destruct HN as [_ _ _ _ HWi HWo _ _ _ Hd _ _ _]. unfold up, na_upsample. destruct (Nat.eqb_spec (Wi mod Wo) 0); cbn [negb]; [apply andb_false_r|].
  rewrite andb_true_r. apply Nat.eqb_eq. tauto.
Qed.
Lemma init_some : forall p a, p < Np -> a < A -> exists row, obj p a =
  Some (mkDA SL up (bal Hi Np) (bal Wi A) (bal Ho Np) (bal Wo A) rl (fst (psi p a)) (snd (psi p a)) row) /\
  (up = false -> Permutation row (seq 0 (chunk_len Ho Np p))).
Proof.
  intros p a Hp Ha. pose proof up_iff as UI. destruct HN as [_ _ _ _ HWi HWo _ _ _ Hd HP _ _]. unfold obj, dist_na_init, SL, na_layer. cbn [na_Hi na_Wi na_Ho na_Wo na_roff na_col].
  rewrite !css_some by lia. cbn [bindo]. rewrite (proj2 (Nat.leb_le _ _) HWi), (proj2 (Nat.leb_le _ _) HWo). cbn [andb guard bindo].
  fold up. fold SL.
  assert (U : uniform_split up Wi Wo (bal Wi A) (bal Wo A) = true).
  { unfold uniform_split. apply forallb_forall. intros x Hx. apply (In_nth _ _ (0, 0)) in Hx. destruct Hx as (i & Hi' & <-).
    rewrite combine_length, !bal_length, Nat.min_id in Hi' by auto.
    rewrite combine_nth by (rewrite !bal_length by auto; reflexivity). cbn [fst snd]. rewrite !chunk_len_nth by auto. specialize (HS i Hi').
    rewrite UI. destruct (Wi mod Wo =? 0); cbn [negb]; apply Nat.eqb_eq; exact HS. }
  rewrite U. cbn [guard bindo]. rewrite starts_bal by auto. unfold psi, rl. destruct up eqn:EU.
  - destruct (local_psi_up _ _ _ _ _ _ _ _ _) as (x, y). eexists. split; [reflexivity|]. discriminate.
  - destruct (local_psi _ _ _ _ _ _ _) as (x, y) eqn:EP. eexists. split; [reflexivity|]. intros _.
    assert (LR : length (row_lengths x) = chunk_len Ho Np p); [|rewrite <- LR; apply HArg].
    unfold row_lengths. rewrite map_length, combine_length.
    assert (LX : length x = chunk_len Ho Np p + 1).
    { apply (f_equal fst) in EP. cbn [fst] in EP. rewrite <- EP. unfold local_psi. cbn [fst]. rewrite map_length, starts_bal, chunk_len_nth by auto.
      assert (LP : length P = Ho). { rewrite UI in *. destruct (Wi mod Wo =? 0); [exact (proj1 HP)|discriminate]. }
      rewrite slice_len; [lia|]. rewrite offsets_length. pose proof (chunk_bound Ho Np p HNp Hp). lia. }
    rewrite LX. destruct x; cbn [tl length] in *; lia.
Qed.

(** the folded global fields *)
Definition KF (m y x c : nat) : R := normed eps (w_kn L) Ck (affine (w_k L) (w_kb L) Ci (of_cfirst k)) (m / nh) y x (m mod nh * Ck + c).
Definition VF (m y x c : nat) : R := affine (w_v L) (w_vb L) Ci (of_cfirst v) (m / nh) y x (m mod nh * Cv + c).
Definition QF (m y x c : nat) : R := (normed eps (w_qn L) Ck (affine (w_q L) (w_qb L) Ci (of_cfirst q)) (m / nh)%nat y x (m mod nh * Ck + c)%nat * w_scale L)%R.

Lemma shard_cf : forall (t X : tensor R) B0 C0 H0 W0 p a, shp X = [B0; C0; H0; W0] -> teq t (shard 2 Np p (shard 3 A a X)) ->
  shp t = [B0; C0; chunk_len H0 Np p; chunk_len W0 A a] /\
  forall b y x c, b < B0 -> c < C0 -> y < chunk_len H0 Np p -> x < chunk_len W0 A a -> cf t b y x c = cf X b (chunk_lo H0 Np p + y) (chunk_lo W0 A a + x) c.
Proof.
  intros t X B0 C0 H0 W0 p a SX (TS & TV).
  assert (S3 : shp (shard 3 A a X) = [B0; C0; H0; chunk_len W0 A a]) by (unfold shard, narrow, dimsz; cbn [shp]; rewrite SX; reflexivity).
  assert (S2 : shp (shard 2 Np p (shard 3 A a X)) = [B0; C0; chunk_len H0 Np p; chunk_len W0 A a]) by (unfold shard at 1, narrow, dimsz; cbn [shp]; rewrite S3; reflexivity).
  split; [rewrite TS; exact S2|]. intros b y x c Hb Hc Hy Hx. unfold cf. rewrite TV by (rewrite TS, S2; apply valid4_intro; auto).
  rewrite shard_val. cbn [upd nth]. rewrite shard_val. cbn [upd nth]. unfold dimsz. rewrite S3, SX. cbn [nth]. f_equal. f_equal. f_equal. f_equal; [lia|]. f_equal. lia.
Qed.
Lemma cf_shard : forall (t X : tensor R) B0 C0 H0 W0 p a, shp X = [B0; C0; H0; W0] -> shp t = [B0; C0; chunk_len H0 Np p; chunk_len W0 A a] ->
  (forall b y x c, b < B0 -> c < C0 -> y < chunk_len H0 Np p -> x < chunk_len W0 A a -> cf t b y x c = cf X b (chunk_lo H0 Np p + y) (chunk_lo W0 A a + x) c) ->
  teq t (shard 2 Np p (shard 3 A a X)).
Proof.
  intros t X B0 C0 H0 W0 p a SX St HV.
  assert (S3 : shp (shard 3 A a X) = [B0; C0; H0; chunk_len W0 A a]) by (unfold shard, narrow, dimsz; cbn [shp]; rewrite SX; reflexivity).
  assert (S2 : shp (shard 2 Np p (shard 3 A a X)) = [B0; C0; chunk_len H0 Np p; chunk_len W0 A a]) by (unfold shard at 1, narrow, dimsz; cbn [shp]; rewrite S3; reflexivity).
  split; [rewrite S2; exact St|]. intros i Vi. rewrite St in Vi. destruct (valid4 _ _ _ _ _ Vi) as (b & c & y & x & -> & Hb & Hc & Hy & Hx).
  specialize (HV b y x c Hb Hc Hy Hx). unfold cf in HV. rewrite HV.
  rewrite shard_val. cbn [upd nth]. rewrite shard_val. cbn [upd nth]. unfold dimsz. rewrite S3, SX. cbn [nth]. f_equal. f_equal. f_equal. f_equal; [lia|]. f_equal. lia.
Qed.

Lemma fold_index : forall m, m < B * nh -> 1 <= nh -> m / nh < B /\ m mod nh < nh.
Proof. intros m Hm Hn. split; [apply Nat.div_lt_upper_bound; lia|apply Nat.mod_upper_bound; lia]. Qed.

Let proj : pfam (tensor R * tensor R * tensor R) := fun p a =>
    do o <- obj p a; do q <- qf p a; do k <- kf p a; do v <- vf p a; dist_project eps o p a q k v.
Lemma proj_some : forall p a, p < Np -> a < A -> exists kt vt qt, proj p a = Some (kt, vt, qt) /\
  teq kt (shard 2 Np p (shard 3 A a (mk_cf (B * nh) Ck Hi Wi KF))) /\ teq vt (shard 2 Np p (shard 3 A a (mk_cf (B * nh) Cv Hi Wi VF))) /\
  teq qt (shard 2 Np p (shard 3 A a (mk_cf (B * nh) Ck Ho Wo QF))).
Proof.
  intros p a Hp Ha. unfold proj. destruct (init_some p a Hp Ha) as (row & -> & _). cbn [bindo].
  destruct (Hq p a Hp Ha) as (q0 & -> & Tq). destruct (Hk p a Hp Ha) as (k0 & -> & Tk). destruct (Hv p a Hp Ha) as (v0 & -> & Tv). cbn [bindo].
  destruct HN as [HB Hn HHi HHo HWi HWo Sk Sv Sq _ _ _ _]. destruct HW as [Wq Wk Wv Wp Bq Bk Bv Bp Nq Nk].
  destruct (shard_cf _ _ _ _ _ _ p a Sq Tq) as (Sq0 & Vq0). destruct (shard_cf _ _ _ _ _ _ p a Sk Tk) as (Sk0 & Vk0). destruct (shard_cf _ _ _ _ _ _ p a Sv Tv) as (Sv0 & Vv0).
  pose proof (chunk_len_pos Hi Np p HNp HNi Hp) as L1. pose proof (chunk_len_pos Ho Np p HNp HNo Hp) as L2.
  pose proof (chunk_len_pos Wi A a HA HAi Ha) as L3. pose proof (chunk_len_pos Wo A a HA HAo Ha) as L4.
  set (hi := chunk_len Hi Np p) in *. set (ho := chunk_len Ho Np p) in *. set (wi := chunk_len Wi A a) in *. set (wo := chunk_len Wo A a) in *.
  assert (PI : 1 <= B * hi * wi) by (pose proof (Nat.mul_le_mono 1 B 1 hi); pose proof (Nat.mul_le_mono 1 (B * hi) 1 wi); lia).
  assert (PO : 1 <= B * ho * wo) by (pose proof (Nat.mul_le_mono 1 B 1 ho); pose proof (Nat.mul_le_mono 1 (B * ho) 1 wo); lia).
  unfold dist_project. cbn [da_L da_lat_in da_lat_out da_lon_in da_lon_out]. rewrite !chunk_len_nth by auto. fold hi ho wi wo.
  unfold extent. destruct (shape4 _ _ _ _ _ Sq0) as (-> & _ & _ & -> & ->). destruct (shape4 _ _ _ _ _ Sk0) as (-> & _ & _ & -> & ->). destruct (shape4 _ _ _ _ _ Sv0) as (-> & _ & _ & -> & ->).
  rewrite !Nat.eqb_refl. cbn [andb guard bindo].
  unfold SL, na_layer. cbn [na_nh na_q na_k na_v na_qb na_kb na_vb na_qn na_kn na_scale].
  destruct (conv1x1_val (w_k L) (w_kb L) k0 B hi wi Ci (nh * Ck)) as (k1 & -> & Sk1 & Vk1); auto.
  destruct (conv1x1_val (w_v L) (w_vb L) v0 B hi wi Ci (nh * Cv)) as (v1 & -> & Sv1 & Vv1); auto.
  destruct (conv1x1_val (w_q L) (w_qb L) q0 B ho wo Ci (nh * Ck)) as (q1 & -> & Sq1 & Vq1); auto. cbn [bindo].
  destruct (qk_norm_cf_val eps (w_qn L) q1 B ho wo Ck nh) as (q2 & -> & Sq2 & Vq2); auto.
  destruct (qk_norm_cf_val eps (w_kn L) k1 B hi wi Ck nh) as (k2 & -> & Sk2 & Vk2); auto. cbn [bindo].
  set (q3 := map_t (fun x => (x * w_scale L)%R) q2). assert (Sq3 : shp q3 = [B; nh * Ck; ho; wo]) by exact Sq2.
  destruct (fold_batch_val k2 B hi wi Ck nh) as (k3 & -> & Sk3 & Vk3); auto.
  destruct (fold_batch_val v1 B hi wi Cv nh) as (v3 & -> & Sv3 & Vv3); auto.
  destruct (fold_batch_val q3 B ho wo Ck nh) as (q4 & -> & Sq4 & Vq4); auto. cbn [bindo].
  exists k3, v3, q4. split; [reflexivity|]. split; [|split].
  - apply (cf_shard _ _ (B * nh) Ck Hi Wi); auto. intros m y x c Hm Hc Hy Hx. fold hi wi in Hy, Hx. destruct (fold_index m Hm Hn) as (M1 & M2).
    rewrite Vk3, Vk2 by (auto; nia). unfold cf at 2. unfold mk_cf. cbn [val nth]. unfold KF. apply (normed_at _ _ _ nh); [nia|]. intros d Hd.
    rewrite Vk1 by auto. apply affine_at. intros e He. rewrite Vk0 by auto. reflexivity.
  - apply (cf_shard _ _ (B * nh) Cv Hi Wi); auto. intros m y x c Hm Hc Hy Hx. fold hi wi in Hy, Hx. destruct (fold_index m Hm Hn) as (M1 & M2).
    rewrite Vv3 by auto. unfold cf at 2. unfold mk_cf. cbn [val nth]. unfold VF.
    rewrite Vv1 by (auto; nia). apply affine_at. intros e He. rewrite Vv0 by auto. reflexivity.
  - apply (cf_shard _ _ (B * nh) Ck Ho Wo); auto. intros m y x c Hm Hc Hy Hx. fold ho wo in Hy, Hx. destruct (fold_index m Hm Hn) as (M1 & M2).
    rewrite Vq4 by auto. change (cf q3 (m / nh) y x (m mod nh * Ck + c)) with (cf q2 (m / nh)%nat y x (m mod nh * Ck + c)%nat * w_scale L)%R.
    rewrite Vq2 by (auto; nia). unfold cf at 2. unfold mk_cf. cbn [val nth]. unfold QF. f_equal. apply (normed_at _ _ _ nh); [nia|]. intros d Hd.
    rewrite Vq1 by auto. apply affine_at. intros e He. rewrite Vq0 by auto. reflexivity.
Qed.

(** the halo'd chunks *)
Lemma halo_some : forall (x : pfam (tensor R)) C F, holds2 Np A x (fun p a => shard 2 Np p (shard 3 A a (mk_cf (B * nh) C Hi Wi F))) ->
  forall p a, p < Np -> a < A -> exists t, dist_halo Np obj x p a = Some t /\ shp t = [B * nh; C; chunk_len Hi Np p + 2 * rl; chunk_len Wi A a] /\
  forall b c hl wl, b < B * nh -> c < C -> hl < chunk_len Hi Np p + 2 * rl -> wl < chunk_len Wi A a -> rl <= chunk_lo Hi Np p + hl -> chunk_lo Hi Np p + hl < rl + Hi ->
    cf t b hl wl c = F b (chunk_lo Hi Np p + hl - rl) (chunk_lo Wi A a + wl) c.
Proof.
  intros x C F HX p a Hp Ha. unfold dist_halo. destruct (init_some p a Hp Ha) as (row & EO & _). rewrite EO. cbn [bindo da_r_lat].
  set (G := mk_cf (B * nh) C Hi Wi F) in *. assert (SG : shp G = [B * nh; C; Hi; Wi]) by reflexivity.
  destruct (Nat.ltb_spec 0 rl) as [R1|R1]; cbn [andb].
  - destruct (Nat.ltb_spec 1 Np) as [N1|N1].
    + set (X := shard 3 A a G).
      assert (SX : shp X = [B * nh; C; Hi; chunk_len Wi A a]) by reflexivity.
      assert (D2 : dimsz X 2 = Hi) by reflexivity.
      pose proof (halo_forward Np rl X (fun p => x p a) HNp eq_refl) as Q. rewrite D2 in Q. 
      destruct (Q HNi R1) with (r := p) as (t & E & TS & TV).
      * intros p' Hp'. destruct (init_some p' a Hp' Ha) as (row' & EO' & _). pose proof (HH p' a _ Hp' Ha EO') as Q'. exact Q'.
      * intros p' Hp'. apply HX; auto.
      * exact Hp.
      * exists t. rewrite E. split; [reflexivity|].
        assert (ST : shp t = [B * nh; C; chunk_len Hi Np p + 2 * rl; chunk_len Wi A a]).
        { rewrite TS. unfold narrow, zero_pad. cbn [shp]. rewrite SX. cbn [upd]. f_equal. f_equal. f_equal. lia. }
        split; [exact ST|]. intros b c hl wl Hb Hc Hhl Hwl V1 V2. unfold cf. rewrite TV by (rewrite ST; apply valid4_intro; auto).
        unfold narrow, zero_pad. cbn [val upd nth]. rewrite D2. replace (hl + chunk_lo Hi Np p) with (chunk_lo Hi Np p + hl) by lia.
        rewrite (proj2 (Nat.leb_le _ _) V1), (proj2 (Nat.ltb_lt _ _) V2). cbn [andb]. unfold X. rewrite shard_val. unfold dimsz. cbn [shp G mk_cf val upd nth]. f_equal. lia.
    + exfalso. assert (Np = 1) by lia. unfold rl, compute_r_lat_up, compute_r_lat in R1. rewrite H in R1. cbn [Nat.eqb] in R1. destruct up; lia.
  - assert (R0 : rl = 0) by lia. rewrite R0. destruct (HX p a Hp Ha) as (t & E & T). exists t. split; [exact E|].
    destruct (shard_cf t G _ _ _ _ p a SG T) as (ST & VT). rewrite Nat.mul_0_r, Nat.add_0_r. split; [exact ST|].
    intros b c hl wl Hb Hc Hhl Hwl _ _. rewrite VT by auto. rewrite Nat.sub_0_r. reflexivity.
Qed.
Let kh := dist_halo Np obj (pmap (fun x => Some (fst (fst x))) proj).
Let vh := dist_halo Np obj (pmap (fun x => Some (snd (fst x))) proj).
Let chunk : pfam (tensor R * tensor R) := pzip (fun k v => do k <- to_nhwc k; do v <- to_nhwc v; Some (k, v)) kh vh.
Lemma chunk_some : forall p a, p < Np -> a < A -> exists kc vc, chunk p a = Some (kc, vc) /\
  shp kc = [B * nh; chunk_len Hi Np p + 2 * rl; chunk_len Wi A a; Ck] /\ shp vc = [B * nh; chunk_len Hi Np p + 2 * rl; chunk_len Wi A a; Cv] /\
  forall b hl wl d, b < B * nh -> hl < chunk_len Hi Np p + 2 * rl -> wl < chunk_len Wi A a -> rl <= chunk_lo Hi Np p + hl -> chunk_lo Hi Np p + hl < rl + Hi ->
    (d < Ck -> hwc kc b hl wl d = KF b (chunk_lo Hi Np p + hl - rl) (chunk_lo Wi A a + wl) d) /\
    (d < Cv -> hwc vc b hl wl d = VF b (chunk_lo Hi Np p + hl - rl) (chunk_lo Wi A a + wl) d).
Proof.
  intros p a Hp Ha. unfold chunk, pzip, kh, vh.
  destruct (halo_some (pmap (fun x => Some (fst (fst x))) proj) Ck KF) with (p := p) (a := a) as (kt & -> & Sk & Vk); auto.
  { intros p' a' Hp' Ha'. destruct (proj_some p' a' Hp' Ha') as (k0 & v0 & q0 & E & T & _). unfold pmap. rewrite E. exists k0. split; auto. }
  destruct (halo_some (pmap (fun x => Some (snd (fst x))) proj) Cv VF) with (p := p) (a := a) as (vt & -> & Sv & Vv); auto.
  { intros p' a' Hp' Ha'. destruct (proj_some p' a' Hp' Ha') as (k0 & v0 & q0 & E & _ & T & _). unfold pmap. rewrite E. exists v0. split; auto. }
  cbn [bindo]. destruct (to_nhwc_val _ _ _ _ _ Sk) as (kc & -> & Skc & Vkc). destruct (to_nhwc_val _ _ _ _ _ Sv) as (vc & -> & Svc & Vvc). cbn [bindo].
  exists kc, vc. split; [reflexivity|]. split; [exact Skc|]. split; [exact Svc|]. intros b hl wl d Hb Hhl Hwl V1 V2. rewrite Vkc, Vvc. split; intros; [apply Vk|apply Vv]; auto.
Qed.

(** a shard shorter than the radius: the receives of the neighbouring ranks do not match *)
Lemma halo_short : forall n rl (x : fam (tensor R)) r q t u, x r = Some t -> x q = Some u -> ndim t = 4 -> ndim u = 4 -> 1 <= rl -> dimsz u 2 < rl ->
  (0 < r /\ q = r - 1 \/ r < n - 1 /\ q = r + 1) -> halo_fwd n rl x r = None.
Proof.
  intros n r0 x r q' t u E1 E2 D1 D2 R1 R2 Q. unfold halo_fwd. rewrite E1. cbn [bindo]. rewrite D1. cbn [Nat.eqb guard bindo]. unfold ndim, dimsz in *.
  assert (SB : forall lo l, l < r0 -> shp (narrow 2 lo l u) <> shp (const_t 0%R (upd 2 r0 (shp t)))).
  { intros lo l Hl. cbn [shp narrow const_t]. intros E. apply (f_equal (fun l => nth 2 l 0)) in E. rewrite !nth_upd_same in E by lia. lia. }
  destruct Q as [(Q & ->)|(Q & ->)].
  - rewrite (proj2 (Nat.ltb_lt _ _) Q), E2. cbn [bindo]. unfold slice_last. destruct (Nat.eqb_spec r0 0); [lia|]. rewrite recv_into_bad; [reflexivity|]. apply SB. unfold dimsz. lia.
  - destruct (if 0 <? r then _ else _); [|reflexivity]. cbn [bindo]. rewrite (proj2 (Nat.ltb_lt _ _) Q), E2. cbn [bindo]. unfold slice_to. rewrite recv_into_bad; [reflexivity|]. apply SB. unfold dimsz. lia.
Qed.
Lemma short_shard_fails : forall p p' a, p < Np -> p' < Np -> a < A -> (p' = p + 1 \/ p = p' + 1) -> chunk_len Hi Np p < rl ->
  dist_na_forward eps Np ranks obj qf (Some kf) (Some vf) p' a = None.
Proof.
  intros p p' a Hp Hp' Ha Hn Hs. destruct (init_some p' a Hp' Ha) as (row & EO & _).
  destruct (proj_some p a Hp Ha) as (k0 & v0 & q0 & EP & T & _). destruct (proj_some p' a Hp' Ha) as (k1 & v1 & q1 & EP' & T' & _).
  assert (CN : chunk p' a = None).
  { unfold chunk, pzip, kh, dist_halo. rewrite EO. cbn [bindo da_r_lat].
    assert (R1 : 1 <= rl) by lia. assert (N1 : 1 < Np) by lia. rewrite (proj2 (Nat.ltb_lt 0 rl) R1), (proj2 (Nat.ltb_lt 1 Np) N1). cbn [andb].
    destruct (shard_cf k0 (mk_cf (B * nh) Ck Hi Wi KF) _ _ _ _ p a eq_refl T) as (S0 & _). destruct (shard_cf k1 (mk_cf (B * nh) Ck Hi Wi KF) _ _ _ _ p' a eq_refl T') as (S1 & _).
    rewrite (halo_short Np rl _ p' p k1 k0); auto.
    - unfold pmap. rewrite EP'. reflexivity.
    - unfold pmap. rewrite EP. reflexivity.
    - unfold ndim. rewrite S1. reflexivity.
    - unfold ndim. rewrite S0. reflexivity.
    - unfold dimsz. rewrite S0. exact Hs.
    - lia. }
  assert (EF : dist_na_forward eps Np ranks obj qf (Some kf) (Some vf) p' a =
    (do o <- obj p' a; do x <- proj p' a;
     do visits <- ring (fun c : tensor R * tensor R => dimsz (fst c) 2) (ranks p') (da_lon_in o) (fun a => chunk p' a) a;
     do out <- ring_output o p' a visits (snd x);
     do out <- reshape [dimsz out 0 / na_nh (da_L o); na_nh (da_L o) * dimsz out 1; dimsz out 2; dimsz out 3] out;
     conv1x1 (na_p (da_L o)) (na_pb (da_L o)) out)) by reflexivity.
  rewrite EF, EO, EP'. cbn [bindo]. unfold ring. destruct (HR p' Hp') as (_ & LR).
  destruct (length (ranks p')) eqn:EA; [lia|]. cbn [ring_loop]. rewrite CN. reflexivity.
Qed.

Lemma fold_left_map : forall S X Y (f : S -> Y -> S) (g : X -> Y) l s, fold_left f (map g l) s = fold_left (fun s x => f s (g x)) l s.
Proof. intros S X Y f g l. induction l; intros s; cbn [map fold_left]; auto. Qed.

(** the ring and the normalisation *)
Lemma ring_some : forall p a visits', p < Np -> a < A -> exists o x visits, obj p a = Some o /\ proj p a = Some x /\
  ring (fun c : tensor R * tensor R => dimsz (fst c) 2) (ranks p) (da_lon_in o) (fun a => chunk p a) a = Some visits /\
  (Permutation visits visits' -> exists out, ring_output o p a visits' (snd x) = Some out /\ da_L o = SL /\
  shp out = [B * nh; Cv; chunk_len Ho Np p; chunk_len Wo A a] /\
  forall m y x c, m < B * nh -> y < chunk_len Ho Np p -> x < chunk_len Wo A a -> c < Cv ->
    cf out m y x c = attn_at Ck quad (nbrs P Hi Wi Wo (chunk_lo Ho Np p + y) (chunk_lo Wo A a + x)) (KF m) (VF m) (QF m) (chunk_lo Ho Np p + y) (chunk_lo Wo A a + x) c).
Proof.
  intros p a visits' Hp Ha. destruct (init_some p a Hp Ha) as (row & EO & HRow). destruct (proj_some p a Hp Ha) as (kt & vt & qt & EP & _ & _ & Tq).
  destruct (HR p Hp) as (ND & LR).
  set (dflt := (mk_cf 0 0 0 0 KF, mk_cf 0 0 0 0 KF)). set (c := fun s => match chunk p s with Some x => x | None => dflt end).
  assert (CS : forall s, s < A -> chunk p s = Some (c s) /\ shp (fst (c s)) = [B * nh; chunk_len Hi Np p + 2 * rl; chunk_len Wi A s; Ck] /\
     shp (snd (c s)) = [B * nh; chunk_len Hi Np p + 2 * rl; chunk_len Wi A s; Cv] /\
     forall b hl wl d, b < B * nh -> hl < chunk_len Hi Np p + 2 * rl -> wl < chunk_len Wi A s -> rl <= chunk_lo Hi Np p + hl -> chunk_lo Hi Np p + hl < rl + Hi ->
    (d < Ck -> hwc (fst (c s)) b hl wl d = KF b (chunk_lo Hi Np p + hl - rl) (chunk_lo Wi A s + wl) d) /\
    (d < Cv -> hwc (snd (c s)) b hl wl d = VF b (chunk_lo Hi Np p + hl - rl) (chunk_lo Wi A s + wl) d)).
  { intros s Hs. destruct (chunk_some p s Hp Hs) as (kc & vc & E & S1 & S2 & V). unfold c. rewrite E. cbn [fst snd]. auto. }
  exists (mkDA SL up (bal Hi Np) (bal Wi A) (bal Ho Np) (bal Wo A) rl (fst (psi p a)) (snd (psi p a)) row), (kt, vt, qt).
  cbn [da_lon_in da_L snd].
  set (order0 := map (fun s => (a + s) mod A) (seq 0 A)).
  assert (OP0 : Permutation order0 (seq 0 A)) by (apply rot_perm; auto).
  exists (map (fun s => (s, c s)) order0).
  assert (ER : ring (fun c : tensor R * tensor R => dimsz (fst c) 2) (ranks p) (bal Wi A) (fun a => chunk p a) a = Some (map (fun s => (s, c s)) order0)).
  { unfold ring. rewrite (ring_loop_spec _ (fun c : tensor R * tensor R => dimsz (fst c) 2) (ranks p) (bal Wi A) c) with (step := 0); auto.
    - rewrite LR. unfold order0. rewrite map_map. reflexivity.
    - rewrite bal_length by auto. lia.
    - intros s Hs. rewrite LR in Hs. destruct (CS s Hs) as (_ & S1 & _). unfold dimsz. rewrite S1. cbn [nth].
      rewrite (nth_error_nth' _ 0) by (rewrite bal_length by auto; exact Hs). rewrite chunk_len_nth by auto. reflexivity.
    - intros s Hs. rewrite LR in *. rewrite Nat.add_0_r, Nat.mod_small by auto. apply CS. auto.
    - rewrite LR. exact Ha. }
  split; [exact EO|]. split; [exact EP|]. split; [exact ER|]. intros PV. apply Permutation_sym, Permutation_map_inv in PV. destruct PV as (order & -> & PO).
  assert (OP : Permutation order (seq 0 A)) by (eapply perm_trans; [apply Permutation_sym; exact PO|exact OP0]).
  assert (OB : forall s, In s order -> s < A) by (intros s Hs; apply (Permutation_in _ OP) in Hs; apply in_seq in Hs; lia).
  destruct (shard_cf qt (mk_cf (B * nh) Ck Ho Wo QF) _ _ _ _ p a eq_refl Tq) as (Sq & Vq).
  destruct HN as [HB Hn HHi HHo HWi HWo Sk Sv Sq' Hd HP Hqd Hne].
  destruct (to_nhwc_val _ _ _ _ _ Sq) as (qn & EQ & Sqn & Vqn).
  unfold ring_output, ring_state. cbn [da_L da_lat_in da_lat_out da_lon_in da_lon_out da_r_lat da_roff da_col da_row da_up]. rewrite EQ. cbn [bindo].
  assert (D0 : dimsz qt 0 = B * nh) by (unfold dimsz; rewrite Sq; reflexivity). assert (D3 : dimsz qn 3 = Ck) by (unfold dimsz; rewrite Sqn; reflexivity).
  rewrite D0, D3, !chunk_len_nth, (starts_bal Hi Np p) by auto. change (na_quad SL) with quad. change (na_Wo SL) with Wo. change (na_Wi SL) with Wi.
  assert (ECv : match map (fun s => (s, c s)) order with (_, (_, v)) :: _ => dimsz v 3 | [] => 0 end = Cv).
  { destruct order as [|s l]; [apply Permutation_length in OP; rewrite seq_length in OP; cbn in OP; lia|]. cbn [map].
    destruct (CS s (OB s (or_introl eq_refl))) as (_ & _ & S2 & _). destruct (c s) as (k1, v1). cbn [snd] in S2. unfold dimsz. rewrite S2. reflexivity. }
  rewrite ECv. cbn [bindo]. rewrite fold_left_map. cbn [fst snd].
  set (step := fun (s : nat) (buf : rbuf) => if up
     then ring_step_up Ck quad (fst (psi p a)) (snd (psi p a)) (chunk_len Hi Np p + 2 * rl) (chunk_len Wi A s) (chunk_lo Wi A s) (Z.of_nat (chunk_lo Hi Np p) - Z.of_nat rl)
            (chunk_len Ho Np p) (chunk_len Wo A a) (hwc (fst (c s))) (hwc (snd (c s))) (hwc qn) Wo (Wo / Wi) (B * nh) buf
     else ring_step Ck quad (fst (psi p a)) (snd (psi p a)) (chunk_len Hi Np p + 2 * rl) (chunk_len Wi A s) (chunk_lo Wi A s) (Z.of_nat (chunk_lo Hi Np p) - Z.of_nat rl)
            (chunk_len Ho Np p) (chunk_len Wo A a) (hwc (fst (c s))) (hwc (snd (c s))) (hwc qn) Wi (Wi / Wo) row (B * nh) buf).
  match goal with |- context [fold_left ?f order ?b0] => set (buf := fold_left f order b0) end.
  assert (EB : buf = fold_left (fun buf s => step s buf) order (fun _ _ _ => rst0)).
  { unfold buf. assert (G : forall l b0, (forall s, In s l -> s < A) -> fold_left (fun (s : rbuf) (x : nat) => if up
      then ring_step_up Ck quad (fst (psi p a)) (snd (psi p a)) (dimsz (fst (c x)) 1) (dimsz (fst (c x)) 2) (nth x (split_starts (bal Wi A)) 0)
             (Z.of_nat (chunk_lo Hi Np p) - Z.of_nat rl) (chunk_len Ho Np p) (chunk_len Wo A a) (hwc (fst (c x))) (hwc (snd (c x))) (hwc qn) Wo (Wo / Wi) (B * nh) s
      else ring_step Ck quad (fst (psi p a)) (snd (psi p a)) (dimsz (fst (c x)) 1) (dimsz (fst (c x)) 2) (nth x (split_starts (bal Wi A)) 0)
             (Z.of_nat (chunk_lo Hi Np p) - Z.of_nat rl) (chunk_len Ho Np p) (chunk_len Wo A a) (hwc (fst (c x))) (hwc (snd (c x))) (hwc qn) Wi (Wi / Wo) row (B * nh) s) l b0 =
      fold_left (fun buf s => step s buf) l b0); [|apply (G order _ OB)].
    induction l as [|s l IH]; intros b0 Hl; [reflexivity|]. cbn [fold_left]. rewrite IH by (intros; apply Hl; right; auto). f_equal.
    destruct (CS s (Hl s (or_introl eq_refl))) as (_ & S1 & _). unfold dimsz. rewrite S1. cbn [nth]. rewrite starts_bal by (auto; apply Hl; left; auto). reflexivity. }
  assert (ST : forall m y x, m < B * nh -> y < chunk_len Ho Np p -> x < chunk_len Wo A a ->
     let NB := nbrs P Hi Wi Wo (chunk_lo Ho Np p + y) (chunk_lo Wo A a + x) in
     let w := wt Ck quad KF QF m (chunk_lo Ho Np p + y) (chunk_lo Wo A a + x) in
     stands Cv (buf m y x) (rlsum w NB) (fun d => rlsum (fun pt => w pt * VF m (fst pt) (snd pt) d)%R NB)).
  { intros m y x Hm Hy Hx NB w. rewrite EB.
    assert (HB' : forall pt, In pt NB -> fst pt < Hi /\ snd pt < Wi).
    { unfold NB, nbrs. intros pt Hpt. destruct (Wi mod Wo =? 0); [eapply rotated_in; eauto|eapply scatter_in; eauto]. }
    assert (QV : forall b y x d, b < B * nh -> y < chunk_len Ho Np p -> x < chunk_len Wo A a -> d < Ck -> hwc qn b y x d = QF b (chunk_lo Ho Np p + y) (chunk_lo Wo A a + x) d).
    { intros. rewrite Vqn, Vq by auto. reflexivity. }
    assert (KV : forall s b hl wl d, s < A -> b < B * nh -> hl < chunk_len Hi Np p + 2 * rl -> wl < chunk_len Wi A s -> rl <= chunk_lo Hi Np p + hl -> chunk_lo Hi Np p + hl < rl + Hi ->
      (d < Ck -> hwc (fst (c s)) b hl wl d = KF b (chunk_lo Hi Np p + hl - rl) (chunk_lo Wi A s + wl) d) /\
      (d < Cv -> hwc (snd (c s)) b hl wl d = VF b (chunk_lo Hi Np p + hl - rl) (chunk_lo Wi A s + wl) d)).
    { intros s b hl wl d Hs. destruct (CS s Hs) as (_ & _ & _ & V). apply V. }
    pose proof up_iff as UI.
    assert (PS : forall f, rlsum (fun s => part Wi A s f NB) order = rlsum f NB) by (intros; apply parts_whole; auto; intros pt Hpt; apply HB'; auto).
    eapply stands_ext; [| |apply (visits_stand Cv step m y x (fun s => part Wi A s w NB) (fun s d => part Wi A s (fun pt => w pt * VF m (fst pt) (snd pt) d)%R NB) order (fun _ _ _ => rst0) 0%R (fun _ => 0%R))].
    - rewrite PS. ring.
    - intros d _. cbn beta. rewrite (PS (fun pt => w pt * VF m (fst pt) (snd pt) d)%R). ring.
    - intros s b0 D N Hs S. specialize (OB s Hs). unfold NB, nbrs. destruct (Wi mod Wo =? 0) eqn:EW; cbn [negb] in UI.
      { assert (EL : rl = compute_r_lat Np Wi (bal Hi Np) (bal Ho Np) (offsets 0 P) (columns P)) by (unfold rl; rewrite UI; reflexivity).
        unfold step, psi. rewrite UI.
        apply (gather_visit Ck Cv quad P Hi Wi Ho Wo Np A p a (B * nh) rl) with (kg := KF) (vg := VF) (qg := QF) (kx := fun s => hwc (fst (c s))) (vx := fun s => hwc (snd (c s))); auto. }
      { assert (EL : rl = compute_r_lat_up Np Wo Hi (bal Hi Np) (bal Ho Np) (offsets 0 P) (columns P)) by (unfold rl; rewrite UI; reflexivity).
        pose proof (proj1 (Nat.eqb_neq _ _) EW) as NE. assert (HU : Wo mod Wi = 0) by (destruct Hd; [contradiction|assumption]).
        unfold step, psi. rewrite UI.
        apply (scatter_visit Ck Cv quad P Hi Wi Ho Wo Np A p a (B * nh) rl) with (kg := KF) (vg := VF) (qg := QF) (kx := fun s => hwc (fst (c s))) (vx := fun s => hwc (snd (c s))); auto. }
    - apply stands_init. }
  assert (FIN : forall m y x, m < B * nh -> y < chunk_len Ho Np p -> x < chunk_len Wo A a -> r_sum (buf m y x) <> 0%R /\
     forall d, d < Cv -> (r_acc (buf m y x) d / r_sum (buf m y x))%R =
       attn_at Ck quad (nbrs P Hi Wi Wo (chunk_lo Ho Np p + y) (chunk_lo Wo A a + x)) (KF m) (VF m) (QF m) (chunk_lo Ho Np p + y) (chunk_lo Wo A a + x) d).
  { intros m y x Hm Hy Hx. pose proof (ST m y x Hm Hy Hx) as S. cbv zeta in S.
    pose proof (chunk_bound Ho Np p HNp Hp). pose proof (chunk_bound Wo A a HA Ha).
    destruct (stands_final _ _ _ _ S) as (F1 & F2).
    { apply Rgt_not_eq. apply (softmax_den_pos _ (score Ck (KF m) (QF m) (chunk_lo Ho Np p + y) (chunk_lo Wo A a + x)) (fun pt => quad (fst pt))).
      - intros pt Hpt. apply Hqd. unfold nbrs in Hpt. destruct (Wi mod Wo =? 0); [eapply rotated_in; eauto|eapply scatter_in; eauto].
      - apply Hne; lia. }
    split; [exact F1|]. intros d Hd'. rewrite F2 by auto. reflexivity. }
  rewrite guard_true.
  2:{ apply forallb_forall. intros ((m, y), x) Hc. apply cells3_in in Hc. destruct Hc as (H1 & H2 & H3). apply nz_true. apply FIN; auto. }
  cbn [bindo]. match goal with |- context [to_nchw ?t] => destruct (to_nchw_val t (B * nh) Cv (chunk_len Ho Np p) (chunk_len Wo A a) eq_refl) as (out & EOut & Sout & Vout) end.
  exists out. split; [exact EOut|]. split; [reflexivity|]. split; [exact Sout|].
  intros m y x d Hm Hy Hx Hd'. rewrite Vout. unfold hwc, mk_hwc. cbn [val nth]. apply FIN; auto.
Qed.

Theorem dist_na_forward_spec : holds2 Np A (dist_na_forward eps Np ranks obj qf (Some kf) (Some vf))
  (fun p a => shard 2 Np p (shard 3 A a (layer_spec eps L Ci Ck Cv nh B Co Ho Wo quad (nbrs P Hi Wi Wo) k v q))).
Proof.
  intros p a Hp Ha. destruct (ring_some p a [] Hp Ha) as (o & x & visits & EO & EP & EV & _).
  destruct (ring_some p a visits Hp Ha) as (o' & x' & visits' & EO' & EP' & EV' & HF). rewrite EO in EO'. injection EO' as <-. rewrite EP in EP'. injection EP' as <-. rewrite EV in EV'. injection EV' as <-.
  destruct (HF (Permutation_refl _)) as (out & EOut & EL & So & Vo).
  assert (EF : dist_na_forward eps Np ranks obj qf (Some kf) (Some vf) p a =
    (do o <- obj p a; do x <- proj p a;
     do visits <- ring (fun c : tensor R * tensor R => dimsz (fst c) 2) (ranks p) (da_lon_in o) (fun a => chunk p a) a;
     do out <- ring_output o p a visits (snd x);
     do out <- reshape [dimsz out 0 / na_nh (da_L o); na_nh (da_L o) * dimsz out 1; dimsz out 2; dimsz out 3] out;
     conv1x1 (na_p (da_L o)) (na_pb (da_L o)) out)) by reflexivity.
  rewrite EF. clear EF.
  rewrite EO, EP. cbn [bindo]. rewrite EV. cbn [bindo]. rewrite EOut. cbn [bindo]. rewrite EL. change (na_nh SL) with nh. change (na_p SL) with (w_p L). change (na_pb SL) with (w_pb L).
  destruct HN as [HB Hn HHi HHo HWi HWo Sk Sv Sq' Hd HP Hqd Hne]. destruct HW as [Wq Wk Wv Wp Bq Bk Bv Bp Nq Nk].
  destruct (shape4 _ _ _ _ _ So) as (_ & -> & -> & -> & ->). rewrite Nat.div_mul by lia.
  destruct (reshape_val _ [B; nh * Cv; chunk_len Ho Np p; chunk_len Wo A a] out) as (out2 & -> & S2 & V2). { rewrite So. cbn [prod_list fold_right]. ring. }
  cbn [bindo]. destruct (conv1x1_val (w_p L) (w_pb L) out2 B (chunk_len Ho Np p) (chunk_len Wo A a) (nh * Cv) Co) as (y & -> & Sy & Vy); auto.
  exists y. split; [reflexivity|]. apply (cf_shard _ _ B Co Ho Wo); auto. intros b h w c Hb Hc Hh Hw. rewrite Vy by auto.
  unfold cf at 2. unfold layer_spec. cbn [val nth]. unfold layer_field. apply affine_at. intros d Hdd.
  destruct (split_head d nh Cv Hdd) as (L1 & L2 & E). unfold cf. rewrite (V2 _ [b * nh + d / Cv; d mod Cv; h; w]).
  - change (val out [b * nh + d / Cv; d mod Cv; h; w]) with (cf out (b * nh + d / Cv) h w (d mod Cv)). rewrite Vo by (auto; nia).
    unfold multihead. cbv zeta.
    assert (E1 : (b * nh + d / Cv) / nh = b) by (rewrite Nat.div_add_l, Nat.div_small by lia; lia).
    assert (E2 : (b * nh + d / Cv) mod nh = d / Cv) by (rewrite Nat.add_comm, Nat.mod_add, Nat.mod_small by lia; reflexivity).
    unfold KF, VF, QF. rewrite E1, E2. reflexivity.
  - rewrite So. apply valid4_intro; auto. nia.
  - rewrite So. cbn [ravel prod_list fold_right]. rewrite <- E at 1. ring.
Qed.

Theorem ring_any_order : forall p a o x visits visits', p < Np -> a < A -> obj p a = Some o -> dist_proj eps obj qf kf vf p a = Some x ->
  dist_visits ranks (dist_chunk Np obj (dist_proj eps obj qf kf vf)) p a o = Some visits -> Permutation visits visits' ->
  exists out out', ring_output o p a visits (snd x) = Some out /\ ring_output o p a visits' (snd x) = Some out' /\ teq out' out.
Proof.
  intros p a o x visits visits' Hp Ha EO EX EV HP.
  destruct (ring_some p a visits Hp Ha) as (o1 & x1 & w1 & EO1 & EX1 & EV1 & H1). destruct (ring_some p a visits' Hp Ha) as (o2 & x2 & w2 & EO2 & EX2 & EV2 & H2).
  rewrite EO in EO1, EO2. injection EO1 as <-. injection EO2 as <-. change (proj p a) with (dist_proj eps obj qf kf vf p a) in EX1, EX2. rewrite EX in EX1, EX2. injection EX1 as <-. injection EX2 as <-.
  change (dist_visits ranks (dist_chunk Np obj (dist_proj eps obj qf kf vf)) p a o) with (ring (fun c : tensor R * tensor R => dimsz (fst c) 2) (ranks p) (da_lon_in o) (fun a => chunk p a) a) in EV.
  rewrite EV in EV1, EV2. injection EV1 as <-. injection EV2 as <-.
  destruct (H1 (Permutation_refl _)) as (out & E1 & _ & S1 & V1). destruct (H2 HP) as (out' & E2 & _ & S2 & V2). exists out, out'. split; [exact E1|]. split; [exact E2|].
  split; [congruence|]. intros i Vi. rewrite S2 in Vi. destruct (valid4 _ _ _ _ _ Vi) as (b & c & y & w & -> & Hb & Hc & Hy & Hx). specialize (V1 b y w c Hb Hy Hx Hc). specialize (V2 b y w c Hb Hy Hx Hc).
  unfold cf in V1, V2. rewrite V2. symmetry. exact V1.
Qed.
End Layer.
