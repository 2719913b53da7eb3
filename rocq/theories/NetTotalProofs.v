(** When the constructors of the layers and of the example networks succeed. *)
From Coq Require Import String List Arith Lia Bool Reals ZArith Lra.
From Coquelicot Require Import Coquelicot.
From Verif Require FilterApiProofs ResampleProofs PsiExProofs DiscoLayerProofs.
From Verif Require Import TensorModel TensorProofs BigSum TruncModel QuadModel FFTModel SHTModel SHTSpec ResampleModel ResampleSpec FilterModel FilterSpec FilterProofs DiscoModel DiscoSpec PsiModel PsiSpec PsiProofs PsiUseProofs PsiAttnProofs
  AttnModel AttnLayerModel NetModel NetModels NetSpec NetReadyProofs NetReachProofs.
Import ListNotations.
Local Open Scope list_scope.
Local Open Scope nat_scope.

(** every output latitude has an input point within the radius *)
Definition reaches_all (gl : nat -> rule) (gi go : gspec) (c : R) : Prop :=
  forall qi qo, precompute_latitudes gl (g_nlat gi) (g_type gi) = Some qi -> precompute_latitudes gl (g_nlat go) (g_type go) = Some qo ->
  forall t, t < g_nlat go -> reached (g_nlat gi) (g_nlon gi) (rn qi) (rn qo) ((1 + 1 / 1000) * c)%R t.
Lemma all_self : forall gl g w t c, 1 <= g_nlon g -> (0 < c)%R -> reaches_all gl (mkG (g_nlat g) (g_nlon g) t) (mkG (g_nlat g) w t) c.
Proof. intros gl g w t c HW Hc qi qo Ei Eo u Hu. cbn [g_nlat g_nlon g_type] in *. rewrite Ei in Eo. injection Eo as <-. apply reached_self; auto; lra. Qed.
Lemma all_spaced : forall gl gi go c, 2 <= g_nlat gi -> 1 <= g_nlon gi -> g_type gi = GEquiangular -> supported gl (g_nlat go) (g_type go) -> (0 < c)%R -> (PI / (2 * INR (g_nlat gi - 1)) <= c)%R -> reaches_all gl gi go c.
Proof.
  intros gl gi go c HI HW Ti So Hc Hb qi qo Ei Eo t Ht. rewrite Ti in Ei. destruct (ResampleProofs.lats_equiangular gl _ HI) as (q & E & GI & Li). rewrite Ei in E. injection E as <-.
  assert (RO : (0 <= rn qo t <= PI)%R). { destruct (ResampleProofs.supported_good gl _ _ So) as (q' & Eq' & El & GO). rewrite Eo in Eq'. injection Eq' as <-. rewrite <- El in GO. eapply good_range; eauto. }
  assert (RI : forall i, i < g_nlat gi -> (0 <= rn qi i <= PI)%R) by (intros i Hi; eapply good_range; eauto).
  destruct (nearest (g_nlat gi - 1) (rn qo t)) as (i & Hi & D); [lia|auto|]. apply reached_meridian with i; auto; try lia. { apply RI. lia. } rewrite Li by lia. lra.
Qed.
Lemma all_ends : forall gl gi go c, 1 <= g_nlat go -> reaches_all gl gi go c -> reaches gl gi go c.
Proof. intros gl gi go c H A qi qo Ei Eo. split; apply A; auto; lia. Qed.

(** ** Filters *)
Lemma basis_total : forall jn jz ks b, full_kernel ks b -> exists fb m, get_filter_basis jn jz ks b = Some fb /\ fb_mask fb = Some m /\ mask_ok fb /\
  forall H W r phi rc, (exists i j, i < H /\ j < W /\ (r i j <= rc)%R) -> fb_support fb H W r phi rc <> None.
Proof.
  intros jn jz ks b F. destruct b; cbn [full_kernel] in F; try (destruct ks as [|[|? [|? [|]]]]; contradiction).
  - destruct ks as [|[|k0 l]]; try contradiction. destruct (FilterApiProofs.zk_api jn jz (KList (k0 :: l)) k0 (or_intror (ex_intro _ l eq_refl))) as (fb & E & SZ & _ & M & _ & NO). eexists _, _. split; [exact E|]. split; [exact M|]. split.
    + intros m Em. rewrite M in Em. injection Em as <-. rewrite map_length. auto.
    + intros H W r phi rc (i & j & Hi & Hj & L) N. apply NO in N. destruct N as [N|N]; [lia|]. specialize (N i j Hi Hj). lra.
  - destruct ks as [|[|k0 [|k1 [|]]]]; try contradiction. cbn [get_filter_basis]. destruct (hm_basis (KList [k0; k1]) false) as [fb|] eqn:E; [|discriminate]. destruct (hm_basis_of _ k0 k1 _ _ (or_introl eq_refl) E) as (nm & _ & _ & _ & MO).
    unfold hm_basis in E. cbn [hm_init bindo] in E. injection E as <-. assert (M : exists m, hm_mask k0 k1 = Some m). { unfold hm_mask. replace (1 <=? hm_size k0 k1) with true by (symmetry; apply Nat.leb_le; unfold hm_size; nia). cbn [guard bindo]. eauto. }
    destruct M as (m & Em). eexists _, m. split; [reflexivity|]. cbn [fb_mask fb_support]. split; [auto|]. split; [exact MO|]. discriminate.
Qed.

(** ** Layers *)
Section Total.
Variables (E : env) (S : state).
Notation sup g := (supported (e_gl E) (g_nlat g) (g_type g)).
Lemma psi_total : forall gi go fb f m c tr mode, sup gi -> sup go -> 1 <= g_nlon gi -> 1 <= g_nlat go -> (0 < c)%R -> basis_of fb f -> fb_mask fb = Some m -> mask_ok fb -> mode <> NUnknown ->
  (forall H W r phi rc, (exists i j, i < H /\ j < W /\ (r i j <= rc)%R) -> fb_support fb H W r phi rc <> None) -> reaches_all (e_gl E) gi go c ->
  exists r, precompute_psi (e_gl E) (g_nlat gi) (g_nlon gi) (g_nlat go) (g_nlon go) fb (g_type gi) (g_type go) c tr mode true = Some r.
Proof.
  intros gi go fb f m c tr mode Si So HW HO Hc B M MO NU FS RA. destruct (ResampleProofs.supported_good _ _ _ Si) as (qi & Ei & _). destruct (ResampleProofs.supported_good _ _ _ So) as (qo & Eo & _).
  eapply PsiExProofs.pre_total; eauto. intros t r phi rc Ht -> Hr. apply FS. destruct (RA qi qo Ei Eo t Ht) as (i & j & Hi & Hj & L). exists i, j. rewrite Hr. auto.
Qed.
Lemma disco_total : forall name ix cin cout gi go ks b groups bias c, cutoff_basis b -> full_kernel ks b -> sup gi -> sup go -> 1 <= g_nlon gi -> 1 <= g_nlon go -> g_nlon gi mod g_nlon go = 0 -> 2 <= g_nlat go ->
  (0 < c)%R -> reaches_all (e_gl E) gi go c -> 1 <= groups -> cin mod groups = 0 -> cout mod groups = 0 -> 1 <= cin -> exists l, disco E S name ix cin cout gi go ks b groups bias c = Some l.
Proof.
  intros name ix cin cout gi go ks b groups bias c CB FK Si So HW HW' HD HO Hc RA G1 G2 G3 G4. unfold disco.
  destruct (basis_total (e_jn E) (e_zeros E) ks b FK) as (fb & m & Ef & M & MO & FS). destruct (filter_has_fun _ _ _ _ _ CB Ef) as (f & Bf). destruct (full_basis _ _ _ _ _ FK Ef) as (BF & SZ). rewrite Ef. cbn [bindo].
  assert (G5 : 1 <= cin / groups). { apply Nat.div_le_lower_bound; [lia|]. apply Nat.mod_divides in G2; [|lia]. destruct G2 as (k & ->). destruct k; nia. }
  rewrite G2, G3, (proj2 (Nat.leb_le 1 groups) G1), (proj2 (Nat.leb_le 1 _) G5). cbn [Nat.eqb andb guard bindo].
  destruct (psi_total gi go fb f m c false NNodal) as (r & Er); auto; [lia|discriminate|].
  assert (X : conv_psi (e_gl E) (g_nlat gi) (g_nlon gi) (g_nlat go) (g_nlon go) fb (g_type gi) (g_type go) (Some c) NNodal = Some (fst r)).
  { unfold conv_psi. rewrite HD, (proj2 (Nat.leb_le 1 _) HW'). cbn [Nat.eqb andb guard bindo default_cutoff]. rewrite (proj2 (ResampleProofs.Rltb_true 0 c)) by auto. cbn [guard bindo]. rewrite Er. reflexivity. }
  rewrite X. cbn [bindo]. destruct (conv_built _ _ _ _ _ _ f _ _ _ _ _ Bf X HW) as (c' & qi & qo & es0 & roff & _ & Ec & _ & _ & _ & _ & _ & BU). rewrite (Ec _ eq_refl) in BU. clear Ec c'.
  pose proof (RA qi qo ltac:(apply BU) ltac:(apply BU) (g_nlat go - 1) ltac:(lia)) as R1.
  destruct (built_separated _ _ _ _ _ _ _ _ _ _ _ _ _ _ _ _ _ _ BU BF HO (RA qi qo ltac:(apply BU) ltac:(apply BU) 0 ltac:(lia)) R1) as (X1 & X2). destruct (built_wf _ _ _ _ _ _ _ _ _ _ _ _ _ _ _ _ _ _ BU) as (WF & RS).
  destruct (DiscoLayerProofs.conv_init_ok (e_junk E) (g_nlat gi) (g_nlon gi) (g_nlat go) (g_nlon go) groups (cout / groups) (cin / groups) (fb_size fb)
    (mkT [cout; cin / groups; fb_size fb] (st_r S (sub name ".weight") ix)) (if bias then Some (mkT [cout] (st_r S (sub name ".bias") ix)) else None) (fst r)) as (d & ->); [|cbn [bindo]; eauto].
  constructor; auto. - cbn [shp]. rewrite mul_div_mod0 by auto. reflexivity. - destruct bias; cbn; auto. rewrite mul_div_mod0 by auto. reflexivity.
Qed.
Lemma tdisco_total : forall name ix cin cout gi go ks b groups bias c, cutoff_basis b -> full_kernel ks b -> sup gi -> sup go -> 1 <= g_nlon gi -> 1 <= g_nlon go -> g_nlon go mod g_nlon gi = 0 -> 2 <= g_nlat gi ->
  (0 < c)%R -> reaches_all (e_gl E) go gi c -> 1 <= groups -> cin mod groups = 0 -> cout mod groups = 0 -> 1 <= cin -> exists l, tdisco E S name ix cin cout gi go ks b groups bias c = Some l.
Proof.
  intros name ix cin cout gi go ks b groups bias c CB FK Si So HW HW' HD HO Hc RA G1 G2 G3 G4. unfold tdisco.
  destruct (basis_total (e_jn E) (e_zeros E) ks b FK) as (fb & m & Ef & M & MO & FS). destruct (filter_has_fun _ _ _ _ _ CB Ef) as (f & Bf). destruct (full_basis _ _ _ _ _ FK Ef) as (BF & SZ). rewrite Ef. cbn [bindo].
  assert (G5 : 1 <= cin / groups). { apply Nat.div_le_lower_bound; [lia|]. apply Nat.mod_divides in G2; [|lia]. destruct G2 as (k & ->). destruct k; nia. }
  rewrite G2, G3, (proj2 (Nat.leb_le 1 groups) G1), (proj2 (Nat.leb_le 1 _) G5). cbn [Nat.eqb andb guard bindo].
  destruct (psi_total go gi fb f m c true NNodal) as (r & Er); auto; [lia|discriminate|].
  assert (X : tconv_psi (e_gl E) (g_nlat gi) (g_nlon gi) (g_nlat go) (g_nlon go) fb (g_type gi) (g_type go) (Some c) NNodal = Some (fst r)).
  { unfold tconv_psi. rewrite HD, (proj2 (Nat.leb_le 1 _) HW). cbn [Nat.eqb andb guard bindo default_cutoff]. rewrite (proj2 (ResampleProofs.Rltb_true 0 c)) by auto. cbn [guard bindo]. rewrite Er. reflexivity. }
  rewrite X. cbn [bindo]. destruct (tconv_built _ _ _ _ _ _ f _ _ _ _ _ Bf X HW') as (c' & qi & qo & es0 & roff & _ & Ec & _ & _ & _ & _ & BU). rewrite (Ec _ eq_refl) in BU. clear Ec c'.
  pose proof (RA qo qi ltac:(apply BU) ltac:(apply BU) (g_nlat gi - 1) ltac:(lia)) as R1.
  destruct (built_separated _ _ _ _ _ _ _ _ _ _ _ _ _ _ _ _ _ _ BU BF HO (RA qo qi ltac:(apply BU) ltac:(apply BU) 0 ltac:(lia)) R1) as (X1 & X2). destruct (built_wf _ _ _ _ _ _ _ _ _ _ _ _ _ _ _ _ _ _ BU) as (WF & RS).
  assert (PR : exists p, preprocess_psi (e_junk E) (fb_size fb) (g_nlat gi) (fst r) = Some p).
  { destruct (DiscoLayerProofs.conv_init_ok (e_junk E) (g_nlat go) (g_nlon go) (g_nlat gi) (g_nlon gi) groups (cout / groups) (cin / groups) (fb_size fb)
      (mkT [cout; cin / groups; fb_size fb] (st_r S (sub name ".weight") ix)) (if bias then Some (mkT [cout] (st_r S (sub name ".bias") ix)) else None) (fst r)) as (d & Ed).
    { constructor; auto. - cbn [shp]. rewrite mul_div_mod0 by auto. reflexivity. - destruct bias; cbn; auto. rewrite mul_div_mod0 by auto. reflexivity. }
    destruct (DiscoLayerProofs.conv_init_inv _ _ _ _ _ _ _ _ _ _ _ Ed) as (ro & es' & P & _). eauto. }
  destruct PR as (p & Ep). unfold conv_transpose_s2_init. rewrite HD, (proj2 (Nat.leb_le 1 _) HW), Ep. cbn [Nat.eqb andb guard bindo]. eauto.
Qed.
Lemma resampling_total : forall gi go mode, grid_ok (e_gl E) gi -> grid_ok (e_gl E) go -> mode <> MUnknown -> exists l, resampling E gi go mode = Some l.
Proof.
  intros gi go mode [A1 A2 A3 _] [B1 B2 B3 _] H. unfold resampling. destruct (ResampleProofs.init_ok (e_gl E) (g_nlat gi) (g_nlon gi) (g_nlat go) (g_nlon go) (g_type gi) (g_type go) mode) as (r & -> & _); auto; try lia. cbn [bindo]. eauto.
Qed.
Lemma rule_total : forall g, transformable g -> sup g -> exists q, sht_rule (e_gl E) (g_nlat g) (g_type g) = Some q.
Proof.
  intros g T Hs. unfold transformable in T. destruct (ResampleProofs.supported_good _ _ _ Hs) as (q & Eq & _). unfold precompute_latitudes in Eq. destruct (g_type g); cbn [supported sht_rule] in *; try congruence; try contradiction.
  all: bind Eq q' Eq'; eauto.
Qed.
Lemma truncate_total : forall g lm mm q, sht_rule (e_gl E) (g_nlat g) (g_type g) = Some q -> 2 <= g_nlat g -> exists p, truncate_sht (g_nlat g) (g_nlon g) lm mm (g_type g) = Some p.
Proof.
  intros g lm mm q Hq H2. unfold truncate_sht. assert (D : exists d, default_lmax (g_type g) (g_nlat g) = Some d).
  { destruct (g_type g); cbn [sht_rule default_lmax] in *; try discriminate; try (replace (g_nlat g =? 0) with false by (symmetry; apply Nat.eqb_neq; lia)); eexists; reflexivity. }
  destruct D as (d & D). destruct lm as [[|k]|]; rewrite ?D; eauto.
Qed.
Lemma sht_total : forall g lm mm, transformable g -> sup g -> 2 <= g_nlat g -> exists t, sht_of E g lm mm = Some t.
Proof. intros g lm mm T Hs H2. destruct (rule_total g T Hs) as (q & Hq). unfold sht_of, real_sht_init. rewrite Hq. cbn [bindo]. destruct (truncate_total g lm mm q Hq H2) as ((l, m) & ->). cbn [bindo]. eauto. Qed.
Lemma isht_total : forall g lm mm, transformable g -> sup g -> 2 <= g_nlat g -> exists t, isht_of E g lm mm = Some t.
Proof. intros g lm mm T Hs H2. destruct (rule_total g T Hs) as (q & Hq). unfold isht_of, inverse_sht_init. rewrite Hq. cbn [bindo]. destruct (truncate_total g lm mm q Hq H2) as ((l, m) & ->). cbn [bindo]. eauto. Qed.
Lemma nattn_total : forall name ix c g heads bias cut, grid_ok (e_gl E) g -> 1 <= heads -> c mod heads = 0 -> 1 <= c -> (0 < cut)%R -> exists l, nattn E S name ix c c g g heads bias cut = Some l.
Proof.
  intros name ix c g heads bias cut [A1 A2 A3 _] Hh Hm Hc Hcut. unfold nattn, na_checks. rewrite Nat.mod_same by lia. rewrite Hm, (proj2 (Nat.leb_le 1 heads) Hh), (proj2 (Nat.leb_le 1 c) Hc), (proj2 (Nat.leb_le 1 (g_nlon g))) by lia. cbn [Nat.eqb orb andb guard bindo].
  assert (P : exists p, na_pattern (e_gl E) (g_nlat g) (g_nlon g) (g_nlat g) (g_nlon g) (g_type g) (g_type g) (Some cut) = Some p).
  { unfold na_pattern, na_upsample. rewrite Nat.mod_same by lia. rewrite (proj2 (Nat.leb_le 1 (g_nlon g))) by lia. cbn [Nat.eqb negb orb andb guard bindo default_cutoff]. rewrite (proj2 (ResampleProofs.Rltb_true 0 cut)) by auto. cbn [guard bindo].
    destruct (ResampleProofs.supported_good _ _ _ A3) as (q & Eq & _). rewrite Eq. cbn [bindo]. destruct (zk_basis (KInt 1)) as [fb|] eqn:Ef; [|discriminate]. cbn [bindo].
    destruct (FilterApiProofs.zk_api (fun _ _ => 0%R) (fun _ _ => []) (KInt 1) 1 (or_introl eq_refl)) as (fb' & E' & SZ & _ & M & _ & NO). cbn [get_filter_basis] in E'. rewrite Ef in E'. injection E' as <-.
    destruct (zk_basis_of (KInt 1) 1 fb (or_introl eq_refl) ltac:(cbn [INR]; lra) Ef) as (B & _ & MO & _).
    destruct (psi_total g g fb (zk_fun 1) _ cut false NNone A3 A3 ltac:(lia) ltac:(lia) Hcut B M MO ltac:(discriminate)) as (r & ->); [| |cbn [bindo]; eauto].
    - intros H W r phi rc (i & j & Hi & Hj & L) N. apply NO in N. destruct N as [N|N]; [discriminate|]. specialize (N i j Hi Hj). lra.
    - destruct g as [x y z]. apply (all_self (e_gl E) (mkG x y z) y z cut); auto. cbn in *. lia. }
  destruct P as (p & ->). cbn [bindo]. eauto.
Qed.
Lemma gattn_total : forall name ix c g heads bias, grid_ok (e_gl E) g -> 1 <= heads -> c mod heads = 0 -> 1 <= c -> exists l, gattn E S name ix c c g g heads bias = Some l.
Proof.
  intros name ix c g heads bias [A1 A2 A3 _] Hh Hm Hc. unfold gattn. rewrite Nat.mod_same by lia. rewrite Hm, (proj2 (Nat.leb_le 1 heads) Hh), (proj2 (Nat.leb_le 1 c) Hc), (proj2 (Nat.leb_le 1 (g_nlon g))) by lia. cbn [Nat.eqb andb guard bindo].
  destruct (ResampleProofs.supported_good _ _ _ A3) as (q & -> & _). cbn [bindo]. eauto.
Qed.
Lemma attention_total : forall name ix c g heads nb bias cut, grid_ok (e_gl E) g -> 1 <= heads -> c mod heads = 0 -> 1 <= c -> (forall x, cut = Some x -> (0 < x)%R) -> exists l, self_attention E S name ix c c g g heads nb bias cut = Some l.
Proof.
  intros name ix c g heads nb bias cut G Hh Hm Hc Hx. unfold self_attention. destruct nb; [|apply gattn_total; auto]. destruct cut as [x|]; cbn [bindo].
  - apply nattn_total; auto.
  - destruct G as [A1 A2 A3 A4]. replace (g_nlat g =? 1) with false by (symmetry; apply Nat.eqb_neq; lia). cbn [negb guard bindo]. apply nattn_total; auto. { constructor; auto. }
    pose proof PI_RGT_0. assert (0 < INR (g_nlat g) - 1)%R. { apply (le_INR 2) in A1. cbn in A1. lra. } apply Rdiv_lt_0_compat; auto. apply Rmult_lt_0_compat; auto. apply Rdiv_lt_0_compat; [lra|]. apply sqrt_lt_R0. auto.
Qed.
Lemma cutoff_total : forall h ks b, 2 <= h -> full_kernel ks b -> exists c, cutoff_radius h ks b = Some c.
Proof.
  intros h ks b Hh F. destruct b; cbn [full_kernel] in F; try (destruct ks as [|[|? [|? [|]]]]; contradiction); destruct ks as [|[|k0 l]]; try contradiction; unfold cutoff_radius; cbn [cutoff_factor bindo];
    replace (h =? 1) with false by (symmetry; apply Nat.eqb_neq; lia); cbn [negb guard bindo]; eauto.
Qed.
Lemma full_cutoff : forall ks b, full_kernel ks b -> cutoff_basis b.
Proof. intros ks b F. unfold cutoff_basis. destruct b; cbn [full_kernel] in F; auto; try (destruct ks as [|[|? [|? [|]]]]; contradiction). Qed.
Lemma act_total : forall a, a <> ActUnknown -> exists f, act_fun a = Some f.
Proof. intros [] H; try congruence; cbn; eauto. Qed.
End Total.
