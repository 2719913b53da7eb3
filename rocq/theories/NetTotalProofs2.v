(** The constructors of the example networks succeed on the configurations of NetSpec. *)
From Coq Require Import String List Arith Lia Bool Reals ZArith Lra.
From Coquelicot Require Import Coquelicot.
From Verif Require ResampleProofs PsiExProofs.
From Verif Require Import TensorModel TensorProofs BigSum TruncModel QuadModel FFTModel SHTModel SHTSpec ResampleModel ResampleSpec FilterModel FilterSpec DiscoModel DiscoSpec PsiModel PsiSpec PsiProofs
  AttnModel AttnLayerModel NetModel NetModels NetSpec NetReadyProofs NetReachProofs NetTotalProofs.
Import ListNotations.
Local Open Scope list_scope.
Local Open Scope nat_scope.

Section Total.
Variables (E : env) (S : state).
Notation gk := (grid_ok (e_gl E)).
Lemma mapM_some : forall (A B : Type) (f : A -> option B) l, (forall a, In a l -> exists b, f a = Some b) -> exists bs, mapM f l = Some bs.
Proof. intros A B f l H. apply PsiExProofs.mapM_total. intros a Ha N. destruct (H a Ha) as (b & Hb). congruence. Qed.
Lemma int_total : forall r, (0 <= r)%R -> exists n, py_int r = Some n.
Proof. intros r H. unfold py_int. rewrite (proj2 (ResampleProofs.Rleb_true 0 r)) by auto. cbn [guard bindo]. eauto. Qed.
Lemma modes_total : forall g fr, modes_kept g fr -> exists n, net_modes g fr = Some n.
Proof. intros g fr H. unfold net_modes. apply int_total. unfold modes_kept in H. replace (g_nlon g / 2 + 1 - 1) with (g_nlon g / 2) by lia. lra. Qed.
Lemma inner_total : forall g s t, 1 <= s -> 1 <= g_nlat g -> inner_grid (g_nlat g) (g_nlon g) s t = Some (internal g s t).
Proof. intros g s t H1 H2. unfold inner_grid. rewrite (proj2 (Nat.leb_le _ _) H1), (proj2 (Nat.leb_le _ _) H2). reflexivity. Qed.
Lemma pos_total : forall g d p, table_pos p -> exists ls, pos_layers E S g d p = Some ls.
Proof. intros g d p (H1 & H2). destruct p; try congruence; unfold pos_layers; cbn [bindo]; eauto. Qed.
Lemma block_norm_total : forall ix g c k, k <> NormUnknown -> exists ls, block_norm S ix g c k = Some ls.
Proof. intros ix g c k H. destruct k; try congruence; cbn; eauto. Qed.
Lemma attn_norm_total : forall name ix c k, k <> NormUnknown -> exists ls, attn_norm S name ix c k = Some ls.
Proof. intros name ix c k H. destruct k; try congruence; cbn; eauto. Qed.
Lemma mlp_total : forall ix ci co ratio a (use : bool), (0 <= ratio)%R -> exists ms, (if use then do hid <- py_int (INR ci * ratio)%R; Some (mlp S "blocks.{}.mlp" ix ci hid co a false) else Some []) = Some ms.
Proof.
  intros ix ci co ratio a use H. destruct use; [|eauto]. destruct (int_total (INR ci * ratio)%R) as (n & ->). { apply Rmult_le_pos; auto. apply pos_INR. } cbn [bindo]. eauto.
Qed.
Lemma conv_total : forall f i d w bias, 1 <= d -> exists c, sconvx_init f i d d OpDriscollHealy w bias = Some c.
Proof. intros f i d w bias H. unfold sconvx_init. cbn [sconvx_shape bindo]. rewrite (proj2 (Nat.leb_le _ _) H). cbn [guard bindo]. eauto. Qed.
Lemma sblock_total : forall ix f i d ratio a norm um bias, 1 <= d -> (0 <= ratio)%R -> norm <> NormUnknown -> exists b, sblock_init S ix f i d d ratio a norm SkipNone SkipIdentity um bias = Some b.
Proof.
  intros ix f i d ratio a norm um bias Hd Hr Hn. unfold sblock_init. destruct (conv_total f i d (st_c S "blocks.{}.global_conv.weight" ix) (if bias then Some (st_r S "blocks.{}.global_conv.bias" ix) else None) Hd) as (c & ->). cbn [bindo].
  destruct (block_norm_total ix (tr_g i) d norm Hn) as (ls & ->). destruct (mlp_total ix d d ratio a um Hr) as (ms & Hm). unfold skip_layers. rewrite Nat.eqb_refl. cbn [bindo]. rewrite Hm. cbn [bindo guard]. eauto.
Qed.
Theorem sfno_total : forall A, sfno_ok (e_gl E) A -> exists n, sfno_init E S A = Some n.
Proof.
  intros A [Gi Gn Ti Tn Sc Mo Ra Ac No Po In Em]. unfold sfno_init. destruct (act_total _ Ac) as (a & ->). cbn [bindo]. rewrite inner_total by (auto; destruct Gi; lia). cbn [bindo]. fold (sfno_inner A).
  destruct (pos_total (sa_img A) (sa_embed A) _ Po) as (ps & ->). cbn [bindo]. rewrite (proj2 (Nat.leb_le _ _) In). cbn [guard bindo]. destruct (modes_total _ _ Mo) as (md & ->). cbn [bindo].
  destruct (sht_total E (sa_img A) (Some md) (Some md)) as (dn & ->); auto; try apply Gi. cbn [bindo]. destruct (isht_total E (sa_img A) (Some md) (Some md)) as (up0 & ->); auto; try apply Gi. cbn [bindo].
  destruct (sht_total E (sfno_inner A) (Some md) (Some md)) as (tr & ->); auto; try apply Gn. cbn [bindo]. destruct (isht_total E (sfno_inner A) (Some md) (Some md)) as (it & ->); auto; try apply Gn. cbn [bindo].
  edestruct (mapM_some nat sblock) as (bs0 & ->); [|cbn [bindo]; rewrite (proj2 (Nat.leb_le _ _) Em); cbn [guard bindo]; eauto].
  intros i _. apply sblock_total; auto.
Qed.

(** ** Convolutions *)
Lemma gap_le : forall h k, 2 <= h -> h <= k -> (PI / (2 * INR (k - 1)) <= PI / (2 * INR (h - 1)))%R.
Proof.
  intros h k H1 H2. pose proof PI_RGT_0. assert (0 < INR (h - 1))%R by (apply lt_0_INR; lia). assert (INR (h - 1) <= INR (k - 1))%R by (apply le_INR; lia). unfold Rdiv. apply Rmult_le_compat_l; [lra|]. apply Rinv_le_contravar; lra.
Qed.
Lemma reach_of : forall gi go ks b h c, 2 <= h -> cutoff_radius h ks b = Some c -> gk gi -> gk go -> g_type gi = GEquiangular -> h <= g_nlat gi -> (0 < c)%R /\ reaches_all (e_gl E) gi go c.
Proof.
  intros gi go ks b h c Hh Hc Gi Go Ti Hl. destruct (cutoff_bound _ _ _ _ Hh Hc) as (P & Q). split; auto. apply all_spaced; auto; try apply Gi; try apply Go. { destruct Gi; lia. } eapply Rle_trans; [|exact Q]. apply gap_le; auto.
Qed.
Lemma conv_down : forall name ix ci co gi go ks b groups bias h c, full_kernel ks b -> gk gi -> gk go -> g_type gi = GEquiangular -> 2 <= h -> h <= g_nlat gi -> cutoff_radius h ks b = Some c -> g_nlon gi mod g_nlon go = 0 ->
  1 <= groups -> ci mod groups = 0 -> co mod groups = 0 -> 1 <= ci -> exists l, disco E S name ix ci co gi go ks b groups bias c = Some l.
Proof.
  intros name ix ci co gi go ks b groups bias h c FK Gi Go Ti Hh Hl Hc Hm G1 G2 G3 Hi. destruct (reach_of gi go ks b h c) as (P & RA); auto. apply disco_total; auto; try apply Gi; try apply Go. eapply full_cutoff; eauto. destruct Gi; lia. destruct Go; lia.
Qed.
Lemma conv_up : forall name ix ci co gi go ks b groups bias h c, full_kernel ks b -> gk gi -> gk go -> g_type go = GEquiangular -> 2 <= h -> h <= g_nlat go -> cutoff_radius h ks b = Some c -> g_nlon go mod g_nlon gi = 0 ->
  1 <= groups -> ci mod groups = 0 -> co mod groups = 0 -> 1 <= ci -> exists l, tdisco E S name ix ci co gi go ks b groups bias c = Some l.
Proof.
  intros name ix ci co gi go ks b groups bias h c FK Gi Go Ti Hh Hl Hc Hm G1 G2 G3 Hi. destruct (reach_of go gi ks b h c) as (P & RA); auto. apply tdisco_total; auto; try apply Gi; try apply Go. eapply full_cutoff; eauto. destruct Gi; lia. destruct Go; lia.
Qed.
Lemma conv_self : forall name ix ci co g ks b groups bias c, full_kernel ks b -> gk g -> (0 < c)%R -> 1 <= groups -> ci mod groups = 0 -> co mod groups = 0 -> 1 <= ci -> exists l, disco E S name ix ci co g g ks b groups bias c = Some l.
Proof.
  intros name ix ci co g ks b groups bias c FK G P G1 G2 G3 Hi. assert (W : 1 <= g_nlon g) by (destruct G; lia). apply disco_total; auto; try apply G. eapply full_cutoff; eauto. apply Nat.mod_same; lia. destruct g as [x y z]. apply (all_self (e_gl E) (mkG x y z) y z c); auto.
Qed.
Lemma encoder_total : forall gi go ci co ks b, full_kernel ks b -> gk gi -> gk go -> g_type gi = GEquiangular -> g_nlon gi mod g_nlon go = 0 -> 1 <= ci -> exists ls, encoder E S gi go ci co ks b = Some ls.
Proof.
  intros gi go ci co ks b FK Gi Go Ti Hm Hi. unfold encoder. assert (H2 : 2 <= g_nlat gi) by apply Gi. destruct (cutoff_total (g_nlat gi) ks b H2 FK) as (c & Hc). rewrite Hc. cbn [bindo].
  destruct (conv_down "encoder.conv" [] ci co gi go ks b 1 false (g_nlat gi) c) as (l & ->); auto using Nat.mod_1_r. cbn [bindo]. eauto.
Qed.
Lemma decoder_total : forall gi go ci co ks b up, full_kernel ks b -> gk gi -> gk go -> (up = true -> transformable gi /\ transformable go) -> 1 <= ci -> exists ls, decoder E S gi go ci co ks b up = Some ls.
Proof.
  intros gi go ci co ks b up FK Gi Go T Hi. unfold decoder. assert (H2 : 2 <= g_nlat gi) by apply Gi. destruct (cutoff_total (g_nlat gi) ks b H2 FK) as (c & Hc). destruct (cutoff_bound _ _ _ _ H2 Hc) as (P & _).
  assert (U : exists u, (if up then do s <- sht_of E gi None None; do i <- isht_of E go (Some (s_lmax (tr_s s))) (Some (s_mmax (tr_s s))); Some (LSht gi go (tr_s s) (tr_s i)) else resampling E gi go MBilinear) = Some u).
  { destruct up. - destruct (T eq_refl) as (T1 & T2). destruct (sht_total E gi None None) as (s & ->); auto; try apply Gi. cbn [bindo]. edestruct (isht_total E go) as (i & ->); auto; try apply Go. cbn [bindo]. eauto.
    - apply resampling_total; auto. discriminate. }
  destruct U as (u & ->). cbn [bindo]. rewrite Hc. cbn [bindo]. destruct (conv_self "decoder.conv" [] ci co go ks b 1 false c) as (l & ->); auto using Nat.mod_1_r. cbn [bindo]. eauto.
Qed.
Lemma sht_grid : forall g lm mm t, sht_of E g lm mm = Some t -> tr_g t = g.
Proof. intros g lm mm t H. unfold sht_of in H. bind H s0 Hs. injection H as <-. reflexivity. Qed.
Lemma isht_grid : forall g lm mm t, isht_of E g lm mm = Some t -> tr_g t = g.
Proof. intros g lm mm t H. unfold isht_of in H. bind H s0 Hs. injection H as <-. reflexivity. Qed.
Lemma lblock_total : forall ix f i g d glob ratio a norm um ks b bias, tr_g f = g -> tr_g i = g -> gk g -> full_kernel ks b -> 1 <= d -> (0 <= ratio)%R -> norm <> NormUnknown ->
  exists r, lblock_init E S ix f i d d glob ratio a norm SkipNone SkipIdentity um ks b bias = Some r.
Proof.
  intros ix f i g d glob ratio a norm um ks b bias Tf Ti G FK Hd Hr Hn. unfold lblock_init. rewrite Tf, Ti. assert (H2 : 2 <= g_nlat g) by apply G. destruct (cutoff_total (g_nlat g) ks b H2 FK) as (c & Hc). destruct (cutoff_bound _ _ _ _ H2 Hc) as (P & _).
  assert (U : exists u, (if glob then do c <- sconvx_init f i d d OpDriscollHealy (st_c S "blocks.{}.global_conv.weight" ix) (if bias then Some (st_r S "blocks.{}.global_conv.bias" ix) else None); Some (LSpec c)
           else do c <- cutoff_radius (g_nlat g) ks b; disco E S "blocks.{}.local_conv" ix d d g g ks b 1 bias (2 * c)%R) = Some u).
  { destruct glob. - edestruct (conv_total f i d) as (u & ->); auto. cbn [bindo]. eauto. - rewrite Hc. cbn [bindo]. apply conv_self; auto using Nat.mod_1_r. lra. }
  destruct U as (u & ->). cbn [bindo]. destruct (block_norm_total ix g d norm Hn) as (ls & ->). destruct (mlp_total ix d d ratio a um Hr) as (ms & Hm). unfold skip_layers. rewrite Nat.eqb_refl. cbn [bindo]. rewrite Hm. cbn [bindo guard]. eauto.
Qed.
Theorem lsno_total : forall A, lsno_ok (e_gl E) A -> exists n, lsno_init E S A = Some n.
Proof.
  intros A [Gi Gn Ti Tn Wd Ek Ks Fr Sc Mo Ra Ac No Po Re In Em]. unfold lsno_init. destruct (act_total _ Ac) as (a & ->). cbn [bindo]. rewrite inner_total by (auto; destruct Gi; lia). cbn [bindo]. fold (lsno_inner A).
  destruct (pos_total (lsno_inner A) (la_embed A) _ Po) as (ps & ->). cbn [bindo]. destruct (encoder_total (la_img A) (lsno_inner A) (la_in A) (la_embed A) (la_eks A) (la_basis A)) as (en & ->); auto. cbn [bindo].
  destruct (modes_total _ _ Mo) as (md & ->). cbn [bindo].
  destruct (sht_total E (lsno_inner A) (Some md) (Some md)) as (tr & Htr); auto; try apply Gn. rewrite Htr. cbn [bindo]. destruct (isht_total E (lsno_inner A) (Some md) (Some md)) as (it & Hit); auto; try apply Gn. rewrite Hit. cbn [bindo].
  edestruct (mapM_some nat lblock) as (bs0 & ->).
  { intros i _. cbv beta. rewrite (proj2 (Nat.leb_le _ _) Fr). cbn [guard bindo]. eapply lblock_total with (g := lsno_inner A); auto. eapply sht_grid; eauto. eapply isht_grid; eauto. }
  cbn [bindo]. destruct (decoder_total (lsno_inner A) (la_img A) (la_embed A) (la_out A) (la_eks A) (la_basis A) (la_upsht A)) as (de & ->); auto. { intros _. split; auto. unfold transformable. rewrite Ti. discriminate. } cbn [bindo]. eauto.
Qed.
Lemma ablock_total : forall ix g d heads ratio a norm um bias nb cut, gk g -> 1 <= heads -> d mod heads = 0 -> 1 <= d -> (forall c, cut = Some c -> (0 < c)%R) -> (0 <= ratio)%R -> norm <> NormUnknown ->
  exists r, ablock_init E S ix g g d d heads ratio a norm um bias nb cut = Some r.
Proof.
  intros ix g d heads ratio a norm um bias nb cut G H1 H2 H3 H4 Hr Hn. unfold ablock_init. destruct (attn_norm_total "blocks.{}.norm0" ix d norm Hn) as (n0 & ->). destruct (attn_norm_total "blocks.{}.norm1" ix d norm Hn) as (n1 & ->). cbn [bindo].
  destruct (attention_total E S "blocks.{}.self_attn" ix d g heads nb bias cut) as (t & ->); auto. cbn [bindo]. destruct (mlp_total ix d d ratio a um Hr) as (ms & ->). cbn [bindo]. eauto.
Qed.
Theorem strans_total : forall A, strans_ok (e_gl E) A -> exists n, strans_init E S A = Some n.
Proof.
  intros A [Gi Gn Ti Tn Wd Ek Hh Hd Hc Sc Ra Ac No Po Re In Em]. unfold strans_init. destruct (act_total _ Ac) as (a & ->). cbn [bindo]. rewrite inner_total by (auto; destruct Gi; lia). cbn [bindo]. fold (strans_inner A).
  destruct (pos_total (strans_inner A) (ta_embed A) _ Po) as (ps & ->). cbn [bindo]. destruct (encoder_total (ta_img A) (strans_inner A) (ta_in A) (ta_embed A) (ta_eks A) (ta_basis A)) as (en & ->); auto. cbn [bindo].
  edestruct (mapM_some nat ablock) as (bs0 & ->). { intros i _. apply ablock_total; auto. }
  cbn [bindo]. destruct (decoder_total (strans_inner A) (ta_img A) (ta_embed A) (ta_out A) (ta_eks A) (ta_basis A) (ta_upsht A)) as (de & ->); auto. { intros U. split; auto. unfold transformable. rewrite Ti. discriminate. } cbn [bindo]. eauto.
Qed.
End Total.
