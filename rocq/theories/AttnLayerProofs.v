(** The attention layers compute their specification. *)
From Coq Require Import List Arith Lia Bool Reals Lra.
From Coquelicot Require Import Coquelicot.
From Verif Require Import TensorModel TensorProofs BigSum DistSpectralProofs DiscoTensorProofs
  AttnModel AttnLayerModel AttnSpec AttnLayerSpec AttnCoreProofs AttnGradProofs AttnOpProofs AttnOpValProofs.
Import ListNotations.
Local Open Scope nat_scope.

Lemma bias_ok_shape : forall b n, bias_shape b n -> bias_ok b n = true.
Proof. intros [b|] n H; [|reflexivity]. cbn. rewrite H. apply (proj2 (shape_eqb_true _ _) eq_refl). Qed.
Lemma linear_val : forall W b t B H V Ci Co, shp W = [Co; Ci; 1; 1] -> bias_shape b Co -> shp t = [B; H; V; Ci] ->
  exists r, linear W b t = Some r /\ shp r = [B; H; V; Co] /\
  forall n y x o, n < B -> y < H -> x < V -> o < Co -> hwc r n y x o = affine W b Ci (hwc t) n y x o.
Proof.
  intros W b t B H V Ci Co SW Sb St. unfold linear.
  assert (D0 : dimsz W 0 = Co) by (unfold dimsz; rewrite SW; reflexivity).
  assert (ND : ndim W = 4) by (unfold ndim; rewrite SW; reflexivity). rewrite ND, D0.
  replace (prod_list (tl (shp W))) with Ci by (rewrite SW; cbn [tl prod_list fold_right]; lia).
  destruct (reshape_val _ [Co; Ci] W) as (W2 & -> & S2 & V2). { rewrite SW. cbn [prod_list fold_right]. ring. }
  cbn [bindo]. destruct (shape4 _ _ _ _ _ St) as (-> & -> & -> & -> & ->). unfold dimsz. rewrite S2. cbn [nth].
  rewrite !Nat.eqb_refl, (bias_ok_shape b Co Sb). cbn [Nat.leb andb guard bindo]. eexists. split; [reflexivity|]. split; [reflexivity|].
  intros n y x o Hn Hy Hx Ho. unfold hwc at 1, affine. cbn [val nth]. f_equal. apply rsum_ext'. intros c Hc.
  rewrite (V2 _ [o; c; 0; 0]).
  - unfold hwc. ring.
  - rewrite SW. apply valid4_intro; lia.
  - rewrite SW. cbn [ravel prod_list fold_right]. ring.
Qed.
Lemma conv1x1_val : forall W b t B H V Ci Co, shp W = [Co; Ci; 1; 1] -> bias_shape b Co -> shp t = [B; Ci; H; V] ->
  exists r, conv1x1 W b t = Some r /\ shp r = [B; Co; H; V] /\
  forall n y x o, n < B -> y < H -> x < V -> o < Co -> cf r n y x o = affine W b Ci (cf t) n y x o.
Proof.
  intros W b t B H V Ci Co SW Sb St. unfold conv1x1.
  assert (D0 : dimsz W 0 = Co) by (unfold dimsz; rewrite SW; reflexivity). rewrite D0, SW.
  destruct (shape4 _ _ _ _ _ St) as (-> & -> & -> & -> & ->).
  rewrite (proj2 (shape_eqb_true _ _) eq_refl), (bias_ok_shape b Co Sb). cbn [andb Nat.eqb guard bindo]. eexists. split; [reflexivity|]. split; [reflexivity|].
  intros n y x o Hn Hy Hx Ho. unfold cf at 1, affine. cbn [val nth]. f_equal. apply rsum_ext'. intros c Hc. unfold cf. ring.
Qed.
Lemma affine_ext : forall W b Ci f g n y x o, (forall c, c < Ci -> f n y x c = g n y x c) -> affine W b Ci f n y x o = affine W b Ci g n y x o.
Proof. intros. unfold affine. f_equal. apply rsum_ext'. intros c Hc. rewrite H by auto. reflexivity. Qed.
Lemma normed_ext : forall eps w C nh f g n y x d, d < nh * C -> (forall c, c < nh * C -> f n y x c = g n y x c) -> normed eps w C f n y x d = normed eps w C g n y x d.
Proof.
  intros eps w C nh f g n y x d Hd E. destruct w as [w|]; [|apply E; auto]. unfold normed. rewrite E by auto. f_equal. f_equal. f_equal. f_equal. f_equal.
  apply rsum_ext'. intros c Hc. destruct (split_head d nh C Hd) as (L1 & _). rewrite E by nia. reflexivity.
Qed.
Lemma qk_norm_val : forall eps w t B H V C nh, 1 <= nh -> bias_shape w C -> shp t = [B; H; V; nh * C] ->
  exists r, qk_norm eps w nh t = Some r /\ shp r = [B; H; V; nh * C] /\
  forall n y x d, n < B -> y < H -> x < V -> d < nh * C -> hwc r n y x d = normed eps w C (hwc t) n y x d.
Proof.
  intros eps w t B H V C nh Hn Sw St. unfold qk_norm. destruct w as [w|].
  2:{ exists t. split; [reflexivity|]. split; [exact St|]. reflexivity. }
  cbn in Sw. destruct (shape4 _ _ _ _ _ St) as (_ & -> & -> & -> & ->). cbv zeta.
  replace (nh * C / nh) with C by (rewrite Nat.mul_comm, Nat.div_mul; lia).
  destruct (reshape_val _ [B; H; V; nh; C] t) as (a & -> & Sa & Va). { rewrite St. cbn [prod_list fold_right]. ring. }
  cbn [bindo]. unfold rms_norm. unfold ndim, dimsz. rewrite Sw, Sa. cbn [length nth Nat.sub Nat.leb Nat.eqb andb]. rewrite Nat.eqb_refl. cbn [guard bindo].
  set (r1 := mkT [B; H; V; nh; C] _).
  destruct (reshape_val _ [B; H; V; nh * C] r1) as (r & -> & Sr & Vr). { cbn [r1 shp prod_list fold_right]. ring. }
  exists r. split; [reflexivity|]. split; [exact Sr|]. intros n y x d Hb Hy Hx Hd. unfold hwc at 1.
  destruct (split_head d nh C Hd) as (L1 & L2 & E). rewrite (Vr _ [n; y; x; d / C; d mod C]).
  - cbn [r1 val last removelast app]. unfold normed, hwc.
    assert (VA : forall c, c < C -> val a [n; y; x; d / C; c] = val t [n; y; x; d / C * C + c]).
    { intros c Hc. apply Va. { rewrite St. apply valid4_intro; auto. nia. } rewrite St. cbn [ravel prod_list fold_right]. ring. }
    rewrite VA, E by auto. unfold Rdiv at 2. f_equal. f_equal. f_equal. f_equal. f_equal. f_equal. apply rsum_ext'. intros c Hc. rewrite VA by auto. reflexivity.
  - cbn [r1 shp]. apply valid5_intro; auto.
  - cbn [r1 shp ravel prod_list fold_right]. rewrite <- E at 1. ring.
Qed.
Lemma to_nhwc_val : forall t B C H W, shp t = [B; C; H; W] ->
  exists r, to_nhwc t = Some r /\ shp r = [B; H; W; C] /\ forall n y x c, hwc r n y x c = cf t n y x c.
Proof.
  intros t B C H W S. unfold to_nhwc. destruct (shape4 _ _ _ _ _ S) as (-> & D0 & D1 & D2 & D3). cbn [Nat.eqb guard bindo]. eexists. split; [reflexivity|].
  split; [unfold permute; cbn [shp map]; rewrite D0, D1, D2, D3; reflexivity|]. intros. reflexivity.
Qed.
Lemma to_nchw_val : forall t B C H W, shp t = [B; H; W; C] ->
  exists r, to_nchw t = Some r /\ shp r = [B; C; H; W] /\ forall n y x c, cf r n y x c = hwc t n y x c.
Proof.
  intros t B C H W S. unfold to_nchw. destruct (shape4 _ _ _ _ _ S) as (-> & D0 & D1 & D2 & D3). cbn [Nat.eqb guard bindo]. eexists. split; [reflexivity|].
  split; [unfold permute; cbn [shp map]; rewrite D0, D1, D2, D3; reflexivity|]. intros. reflexivity.
Qed.
Lemma multihead_ext : forall Ck Cv quad N Hi Wi Ho Wo nh k v q k' v' q' n y x d, nin Hi Wi (N y x) -> y < Ho -> x < Wo -> d < nh * Cv ->
  (forall h w c, h < Hi -> w < Wi -> c < nh * Ck -> k n h w c = k' n h w c) ->
  (forall h w c, h < Hi -> w < Wi -> c < nh * Cv -> v n h w c = v' n h w c) ->
  (forall h w c, h < Ho -> w < Wo -> c < nh * Ck -> q n h w c = q' n h w c) ->
  multihead Ck Cv quad N k v q n y x d = multihead Ck Cv quad N k' v' q' n y x d.
Proof.
  intros Ck Cv quad N Hi Wi Ho Wo nh k v q k' v' q' n y x d HN Hy Hx Hd Ek Ev Eq. destruct (split_head d nh Cv Hd) as (L1 & L2 & _).
  unfold multihead. cbv zeta. apply (attn_at_ext Ck Cv quad (N y x) Hi Wi Ho Wo); auto; intros.
  - apply Ek; auto. nia.
  - apply Ev; auto. nia.
  - apply Eq; auto. nia.
Qed.

(** a layer with these weights and this pattern *)
Definition na_layer (L : weights) (Hi Wi Ho Wo nh : nat) (quad : nat -> R) (P : pattern) : nalayer :=
  mkNA Hi Wi Ho Wo nh (w_q L) (w_k L) (w_v L) (w_p L) (w_qb L) (w_kb L) (w_vb L) (w_pb L) (w_qn L) (w_kn L) (w_scale L) quad (columns P) (offsets 0 P).
(** the conditions on inputs and grids *)
Record na_ok (B Ci nh Ck Cv Hi Wi Ho Wo : nat) (quad : nat -> R) (P : pattern) (k v q : tensor R) : Prop := mkNaOk {
  nk_B : 1 <= B; nk_nh : 1 <= nh; nk_Hi : 1 <= Hi; nk_Ho : 1 <= Ho; nk_Wi : 1 <= Wi; nk_Wo : 1 <= Wo;
  nk_k : shp k = [B; Ci; Hi; Wi]; nk_v : shp v = [B; Ci; Hi; Wi]; nk_q : shp q = [B; Ci; Ho; Wo];
  nk_div : Wi mod Wo = 0 \/ Wo mod Wi = 0;
  nk_P : if Wi mod Wo =? 0 then pattern_ok P Ho (Hi * Wi) else pattern_ok P Hi (Ho * Wo);
  nk_quad : forall h, h < Hi -> (0 < quad h)%R;
  nk_ne : forall ho wo, ho < Ho -> wo < Wo -> nbrs P Hi Wi Wo ho wo <> [] }.
Definition op_correct (op : handle) : Prop := forall B nh Ck Cv Hi Wi Ho Wo quad P kw vw qw, attn_ok B nh Ck Cv Hi Wi Ho Wo quad P kw vw qw ->
  exists y, op kw vw qw quad (columns P) (offsets 0 P) nh Wi Ho Wo = Some y /\ teq y (attn_spec nh Ck Cv quad (nbrs P Hi Wi Wo) Ho Wo kw vw qw).
Lemma torch_correct : op_correct attn_torch.
Proof. intros B nh Ck Cv Hi Wi Ho Wo quad P kw vw qw OK. eapply attn_torch_spec. exact OK. Qed.
Lemma cpu_correct : forall m0 BS junk, 1 <= BS -> op_correct (attn_cpu m0 BS junk).
Proof. intros m0 BS junk HBS B nh Ck Cv Hi Wi Ho Wo quad P kw vw qw OK. eapply attn_cpu_spec; eauto. Qed.

Theorem na_forward_spec : forall op eps L B Ci Ck Cv nh Co Hi Wi Ho Wo quad P k v q, op_correct op -> weights_ok L Ci Ck Cv nh Co ->
  na_ok B Ci nh Ck Cv Hi Wi Ho Wo quad P k v q ->
  exists y, na_forward op eps (na_layer L Hi Wi Ho Wo nh quad P) q (Some k) (Some v) = Some y /\
    teq y (layer_spec eps L Ci Ck Cv nh B Co Ho Wo quad (nbrs P Hi Wi Wo) k v q).
Proof.
  intros op eps L B Ci Ck Cv nh Co Hi Wi Ho Wo quad P k v q Hop WO [HB Hn HHi HHo HWi HWo Sk Sv Sq Hd HP Hq Hne].
  destruct WO as [Wq Wk Wv Wp Bq Bk Bv Bp Nq Nk]. unfold na_forward, na_layer.
  cbn [na_Hi na_Wi na_Ho na_Wo na_nh na_q na_k na_v na_p na_qb na_kb na_vb na_pb na_qn na_kn na_scale na_quad na_col na_roff]. unfold extent.
  destruct (shape4 _ _ _ _ _ Sq) as (-> & _ & _ & -> & ->). destruct (shape4 _ _ _ _ _ Sk) as (-> & _ & _ & -> & ->). destruct (shape4 _ _ _ _ _ Sv) as (-> & _ & _ & -> & ->).
  rewrite !Nat.eqb_refl. cbn [andb guard bindo].
  destruct (to_nhwc_val q B Ci Ho Wo Sq) as (q1 & -> & Sq1 & Vq1). destruct (to_nhwc_val k B Ci Hi Wi Sk) as (k1 & -> & Sk1 & Vk1).
  destruct (to_nhwc_val v B Ci Hi Wi Sv) as (v1 & -> & Sv1 & Vv1). cbn [bindo].
  destruct (linear_val (w_q L) (w_qb L) q1 B Ho Wo Ci (nh * Ck)) as (q2 & -> & Sq2 & Vq2); auto.
  destruct (linear_val (w_k L) (w_kb L) k1 B Hi Wi Ci (nh * Ck)) as (k2 & -> & Sk2 & Vk2); auto.
  destruct (linear_val (w_v L) (w_vb L) v1 B Hi Wi Ci (nh * Cv)) as (v2 & -> & Sv2 & Vv2); auto. cbn [bindo].
  destruct (qk_norm_val eps (w_qn L) q2 B Ho Wo Ck nh) as (q3 & -> & Sq3 & Vq3); auto.
  destruct (qk_norm_val eps (w_kn L) k2 B Hi Wi Ck nh) as (k3 & -> & Sk3 & Vk3); auto. cbn [bindo].
  set (q4 := map_t (fun x => (x * w_scale L)%R) q3).
  assert (OK : attn_ok B nh Ck Cv Hi Wi Ho Wo quad P k3 v2 q4) by (constructor; auto).
  destruct (Hop _ _ _ _ _ _ _ _ _ _ _ _ _ OK) as (o1 & -> & So1 & Vo1). cbn [bindo].
  assert (D0 : dimsz q4 0 = B) by (unfold dimsz; cbn [q4 map_t shp]; rewrite Sq3; reflexivity).
  unfold attn_spec in So1. cbn [shp] in So1. rewrite D0 in So1.
  destruct (linear_val (w_p L) (w_pb L) o1 B Ho Wo (nh * Cv) Co) as (o2 & -> & So2 & Vo2); auto. cbn [bindo].
  destruct (to_nchw_val o2 B Co Ho Wo So2) as (y & -> & Sy & Vy). exists y. split; [reflexivity|]. split; [exact Sy|].
  intros i Vi. rewrite Sy in Vi. destruct (valid4 _ _ _ _ _ Vi) as (b & o & h & x & -> & Hb & Ho' & Hh & Hx).
  change (val y [b; o; h; x]) with (cf y b h x o). rewrite Vy, Vo2 by auto. unfold layer_spec. cbn [val nth]. unfold layer_field.
  apply affine_ext. intros d Hdd. unfold hwc. rewrite Vo1 by (rewrite So1; apply valid4_intro; auto). unfold attn_spec, attn_packed. cbn [val nth].
  change (multihead Ck Cv quad (nbrs P Hi Wi Wo) (hwc k3) (hwc v2) (hwc q4) b h x d =
    multihead Ck Cv quad (nbrs P Hi Wi Wo) (normed eps (w_kn L) Ck (affine (w_k L) (w_kb L) Ci (of_cfirst k))) (affine (w_v L) (w_vb L) Ci (of_cfirst v))
      (fun n y x c => (normed eps (w_qn L) Ck (affine (w_q L) (w_qb L) Ci (of_cfirst q)) n y x c * w_scale L)%R) b h x d).
  apply (multihead_ext Ck Cv quad (nbrs P Hi Wi Wo) Hi Wi Ho Wo nh); auto.
  - apply (op_nin B nh Ck Cv Hi Wi Ho Wo quad P k3 v2 q4 OK); auto.
  - intros. rewrite Vk3 by auto. apply (normed_ext eps (w_kn L) Ck nh); auto. intros. rewrite Vk2 by auto. apply affine_ext. intros. rewrite Vk1. reflexivity.
  - intros. rewrite Vv2 by auto. apply affine_ext. intros. rewrite Vv1. reflexivity.
  - intros. change (hwc q4 b h0 w c) with (hwc q3 b h0 w c * w_scale L)%R. rewrite Vq3 by auto. f_equal.
    apply (normed_ext eps (w_qn L) Ck nh); auto. intros. rewrite Vq2 by auto. apply affine_ext. intros. rewrite Vq1. reflexivity.
Qed.
(** omitted key and value mean self-attention *)
Lemma na_forward_self : forall op eps L q, na_forward op eps L q None None = na_forward op eps L q (Some q) (Some q).
Proof. reflexivity. Qed.
