(** Kinds of the constructed pieces: every constructor yields layers that fit together. *)
From Coq Require Import String List Arith Lia Bool Reals ZArith Lra.
From Coquelicot Require Import Coquelicot.
From Verif Require Import TensorModel TensorProofs BigSum TruncModel QuadModel FFTModel SHTModel SHTSpec SHTValueProofs ResampleModel FilterModel DiscoModel PsiModel PsiProofs AttnModel AttnLayerModel
  NetModel NetModels NetSpec NetParProofs NetLayerProofs NetLayerProofs2 NetLayerProofs4 NetReadyProofs NetReachProofs.
Import ListNotations.
Local Open Scope list_scope.
Local Open Scope nat_scope.

Section Kind.
Variables (E : env) (S : state) (strict : bool) (nn : nat) (Q : Prop).
Notation fits := (seqrun (fit strict)).
(** usable grids whose number of longitudes is a multiple of nn *)
Definition gok (g : gspec) : Prop := grid_ok (e_gl E) g /\ g_nlon g mod nn = 0.
(** [Q]: conditions under which the filters meet what the compiled kernels rely on *)
Definition good (l : layer) : Prop := widths nn l /\ (filter_ready l -> ready E l) /\ (Q -> filter_ready l).
Lemma gok_w : forall g, gok g -> 1 <= g_nlon g. Proof. intros g [[_ W _ _] _]. lia. Qed.
Lemma good_plain : forall l, widths nn l = True -> ready E l = True -> filter_ready l = True -> good l. Proof. intros l H1 H2 H3. split; [rewrite H1; exact I|]. split; [rewrite H2; intros _; exact I|rewrite H3; intros _; exact I]. Qed.
Lemma good_ready : forall l, widths nn l -> ready E l -> filter_ready l = True -> good l. Proof. intros l H1 H2 H3. split; [auto|]. split; [auto|rewrite H3; intros _; exact I]. Qed.
Lemma same_type_refl : forall g, same_type g g = true. Proof. destruct g; reflexivity. Qed.
Lemma same_grid_refl : forall g, same_grid strict g g = true.
Proof. intros. unfold same_grid. rewrite !Nat.eqb_refl, same_type_refl. destruct strict; reflexivity. Qed.
Lemma kadd_refl : forall t, kadd strict t t = Some t.
Proof. intros. unfold kadd. rewrite Nat.eqb_refl, same_grid_refl. reflexivity. Qed.
Lemma vec_mk : forall c f, vec_of c (mkT [c] f) = true. Proof. intros. unfold vec_of. apply shape_eqb_refl. Qed.
Lemma fits_app : forall l1 l2 t, fits (l1 ++ l2) t = bindo (fits l1 t) (fits l2).
Proof. induction l1; intros; cbn [app seqrun bindo]. reflexivity. destruct (fit strict a t); cbn [bindo]; auto. Qed.

(** ** Pointwise layers *)
Lemma conv1_kind : forall name ix ci co b g, fit strict (conv1 S name ix ci co b) (mkK ci g) = Some (mkK co g).
Proof. intros. unfold conv1. cbn [fit k_ch k_g dimsz shp nth]. rewrite shape_eqb_refl. destruct b; cbn [ovec_of]; rewrite ?vec_mk; reflexivity. Qed.
Lemma conv1_good : forall name ix ci co b, good (conv1 S name ix ci co b). Proof. intros. apply good_plain; reflexivity. Qed.
Lemma act_good : forall a, good (LAct a). Proof. intros. apply good_plain; reflexivity. Qed.
Lemma batch_kind : forall name ix c g, fit strict (batch S name ix c) (mkK c g) = Some (mkK c g).
Proof. intros. unfold batch. cbn [fit k_ch]. rewrite !vec_mk. reflexivity. Qed.
Lemma batch_good : forall name ix c, good (batch S name ix c). Proof. intros. apply good_plain; reflexivity. Qed.
Lemma chan_kind : forall name ix c g, fit strict (chan S name ix c) (mkK c g) = Some (mkK c g).
Proof. intros. unfold chan. cbn [fit k_ch]. rewrite !vec_mk. reflexivity. Qed.
Lemma chan_good : forall name ix c, good (chan S name ix c). Proof. intros. apply good_plain; reflexivity. Qed.
Lemma grid_many : forall g, gok g -> g_nlat g * g_nlon g =? 1 = false.
Proof. intros g [[A B0 _ _] _]. apply Nat.eqb_neq. nia. Qed.
Lemma inst_kind : forall name ix c g, gok g -> fit strict (inst S name ix c) (mkK c g) = Some (mkK c g).
Proof. intros name ix c g G. unfold inst. cbn [fit k_ch k_g]. rewrite !vec_mk, (grid_many _ G). reflexivity. Qed.
Lemma mlp_kind : forall name ix c hid a b g, fits (mlp S name ix c hid c a b) (mkK c g) = Some (mkK c g).
Proof.
  intros. unfold mlp. cbn [seqrun]. rewrite conv1_kind. cbn [bindo fit]. rewrite conv1_kind. cbn [bindo]. destruct (c =? 0); reflexivity.
Qed.
Lemma mlp_good : forall name ix c hid a b, List.Forall good (mlp S name ix c hid c a b).
Proof. intros. unfold mlp. repeat (constructor; [apply good_plain; reflexivity|]); constructor. Qed.
Lemma block_norm_kind : forall ix go c nk ls, gok go -> block_norm S ix go c nk = Some ls -> List.Forall good ls /\ fits ls (mkK c go) = Some (mkK c go).
Proof.
  intros ix go c nk ls G H. destruct nk; cbn [block_norm] in H; try discriminate; injection H as <-.
  - split; [repeat (constructor; [apply good_plain; reflexivity|]); constructor|]. cbn [seqrun fit k_g shp]. rewrite !shape_eqb_refl. reflexivity.
  - split; [repeat (constructor; [apply good_plain; reflexivity|]); constructor|]. cbn [seqrun]. rewrite inst_kind by auto. reflexivity.
  - split; [constructor|reflexivity].
Qed.
Lemma attn_norm_kind : forall name ix c g nk ls, gok g -> attn_norm S name ix c nk = Some ls -> List.Forall good ls /\ fits ls (mkK c g) = Some (mkK c g).
Proof.
  intros name ix c g nk ls G H. destruct nk; cbn [attn_norm] in H; try discriminate; injection H as <-.
  - split; [repeat (constructor; [apply good_plain; reflexivity|]); constructor|]. cbn [seqrun fit k_ch]. rewrite !vec_mk. reflexivity.
  - split; [repeat (constructor; [apply good_plain; reflexivity|]); constructor|]. cbn [seqrun]. rewrite inst_kind by auto. reflexivity.
  - split; [constructor|reflexivity].
Qed.
Lemma pos_kind : forall g c p ls, gok g -> pos_layers E S g c p = Some ls -> List.Forall good ls /\ fits ls (mkK c g) = Some (mkK c g).
Proof.
  intros g c p ls G0 H. pose proof (gok_w _ G0) as GW.
  assert (P : forall e, shp e = [1; c; g_nlat g; g_nlon g] \/ shp e = [1; c; g_nlat g; 1] -> List.Forall good [LPos e] /\ fits [LPos e] (mkK c g) = Some (mkK c g)).
  { intros e He. split; [repeat (constructor; [apply good_plain; reflexivity|]); constructor|]. cbn [seqrun fit k_ch k_g]. destruct He as [-> | ->]; rewrite ?shape_eqb_refl, ?orb_true_r; reflexivity. }
  destruct p; cbn [pos_layers] in H; try discriminate.
  - injection H as <-. apply P. auto.
  - bind H e He. injection H as <-. apply P. left. unfold spectral_embedding in He. bind He s Hs. bind He fr Hf. bind He e0 He0. bind He u Hu. injection He as <-. cbn [shp].
    destruct (isht_of_ready _ _ _ _ _ Hs) as ((_ & E1 & E2 & W) & _). unfold emb_freq in Hf. bind Hf u2 Hu2. injection Hf as <-.
    match type of He0 with inverse_sht _ ?f = _ => destruct (inverse_sht_value (tr_s s) [1; c] f) as (y & Ey & Sy & _) end; auto. { rewrite E2. auto. }
    rewrite Ey in He0. injection He0 as <-. rewrite Sy, E1, E2. reflexivity.
  - injection H as <-. apply P. auto.
  - injection H as <-. apply P. auto.
  - injection H as <-. split; [constructor|reflexivity].
Qed.

(** ** Convolutions, resampling, transforms, attention *)
Lemma disco_kind : forall name ix ci co gi go ks b groups bias h cut cut' l g, cutoff_radius h ks b = Some cut -> disco E S name ix ci co gi go ks b groups bias cut' = Some l ->
  1 <= g_nlon gi -> g_nlon gi mod nn = 0 -> g_nlon go mod nn = 0 -> (Q -> 2 <= g_nlat go /\ full_kernel ks b /\ reaches (e_gl E) gi go cut') -> same_grid strict gi g = true -> good l /\ fit strict l (mkK ci g) = Some (mkK co go).
Proof.
  intros name ix ci co gi go ks b groups bias h cut cut' l g Hc H HW Wi Wo HQ SG. destruct (disco_ready _ _ _ _ _ _ _ _ _ _ _ _ _ _ (cutoff_radius_basis _ _ _ _ Hc) H) as (d & -> & E1 & E2 & R0 & FR).
  split; [split; [cbn [widths]; auto|split; [intros F; apply R0; auto|intros q; destruct (HQ q) as (X1 & X2 & X3); apply FR; auto]]|]. cbn [fit k_ch k_g]. rewrite SG, E1, E2, Nat.eqb_refl. reflexivity.
Qed.
Lemma tdisco_kind : forall name ix ci co gi go ks b groups bias h cut cut' l g, cutoff_radius h ks b = Some cut -> tdisco E S name ix ci co gi go ks b groups bias cut' = Some l ->
  1 <= g_nlon go -> g_nlon gi mod nn = 0 -> g_nlon go mod nn = 0 -> (Q -> 2 <= g_nlat gi /\ full_kernel ks b /\ reaches (e_gl E) go gi cut') -> same_grid strict gi g = true -> good l /\ fit strict l (mkK ci g) = Some (mkK co go).
Proof.
  intros name ix ci co gi go ks b groups bias h cut cut' l g Hc H HW Wi Wo HQ SG. destruct (tdisco_ready _ _ _ _ _ _ _ _ _ _ _ _ _ _ (cutoff_radius_basis _ _ _ _ Hc) H) as (d & -> & E1 & E2 & R0 & FR).
  split; [split; [cbn [widths]; auto|split; [intros F; apply R0; auto|intros q; destruct (HQ q) as (X1 & X2 & X3); apply FR; auto]]|]. cbn [fit k_ch k_g]. rewrite SG, E1, E2, Nat.eqb_refl. reflexivity.
Qed.
Lemma resampling_kind : forall gi go mode l c, gok gi -> gok go -> resampling E gi go mode = Some l -> good l /\ fit strict l (mkK c gi) = Some (mkK c go).
Proof.
  intros gi go mode l c Gi Go H. destruct (resampling_ready _ _ _ _ _ (proj1 Gi) (proj1 Go) H) as (r & -> & R0). split; [apply good_ready; [split; [apply Gi|apply Go]|exact R0|reflexivity]|]. cbn [fit k_ch k_g]. rewrite same_grid_refl. reflexivity.
Qed.
Lemma attention_kind : forall name ix ci co g heads nb bias cut l, gok g -> self_attention E S name ix ci co g g heads nb bias cut = Some l -> good l /\ fit strict l (mkK ci g) = Some (mkK co g).
Proof.
  intros name ix ci co g heads nb bias cut l G H. unfold self_attention in H. destruct nb.
  - bind H c0 Hc. destruct (nattn_ready _ _ _ _ _ _ _ _ _ _ _ _ (proj1 G) eq_refl eq_refl H) as (A & -> & E1 & E2 & R0). split; [apply good_ready; [split; apply G|exact R0|reflexivity]|]. cbn [fit k_ch k_g]. rewrite same_grid_refl, E1, E2, Nat.eqb_refl. reflexivity.
  - destruct (gattn_ready _ _ _ _ _ _ _ _ _ _ _ (proj1 G) eq_refl eq_refl H) as (A & -> & E1 & E2 & R0). split; [apply good_ready; [split; apply G|exact R0|reflexivity]|]. cbn [fit k_ch k_g]. rewrite same_grid_refl, E1, E2, Nat.eqb_refl. reflexivity.
Qed.
Lemma gok_h : forall g, gok g -> 2 <= g_nlat g. Proof. intros g [[H _ _ _] _]. exact H. Qed.
Lemma self_reach : forall g ks b h c, gok g -> full_kernel ks b -> 2 <= h -> cutoff_radius h ks b = Some c -> 2 <= g_nlat g /\ full_kernel ks b /\ reaches (e_gl E) g g c.
Proof. intros g ks b h c G F Hh Hc. split; [apply gok_h; auto|]. split; [auto|]. destruct (cutoff_bound _ _ _ _ Hh Hc). destruct g as [x y z]. apply (reaches_self (e_gl E) (mkG x y z) y z); auto. apply (gok_h _ G). apply (gok_w _ G). Qed.
Lemma pole_reach : forall gi go ks b h c, gok gi -> gok go -> g_type gi = GEquiangular -> g_type go = GEquiangular -> full_kernel ks b -> 2 <= h -> cutoff_radius h ks b = Some c -> 2 <= g_nlat go /\ full_kernel ks b /\ reaches (e_gl E) gi go c.
Proof. intros gi go ks b h c Gi Go Ti To F Hh Hc. split; [apply gok_h; auto|]. split; [auto|]. destruct (cutoff_bound _ _ _ _ Hh Hc). apply reaches_equi; auto using gok_h, gok_w. Qed.
Lemma encoder_kind : forall gi go ci co ks b ls, gok gi -> gok go -> (Q -> g_type gi = GEquiangular /\ full_kernel ks b) -> encoder E S gi go ci co ks b = Some ls -> List.Forall good ls /\ fits ls (mkK ci gi) = Some (mkK co go).
Proof.
  intros gi go ci co ks b ls G0 G1 HQ H. pose proof (gok_w _ G0) as GW. unfold encoder in H. bind H c Hc. bind H l Hl. injection H as <-.
  destruct (disco_kind _ _ _ _ _ _ _ _ _ _ _ _ _ _ gi Hc Hl GW (proj2 G0) (proj2 G1)) as (A & F).
  { intros q. destruct (HQ q) as (T0 & FK). split; [apply gok_h; auto|]. split; [auto|]. destruct (cutoff_bound _ _ _ _ (gok_h _ G0) Hc). apply reaches_spaced; auto using gok_h. { pose proof (gok_h _ G1). lia. } apply G1. } { apply same_grid_refl. }
  split; [constructor; [exact A|constructor]|]. cbn [seqrun]. rewrite F. reflexivity.
Qed.
Lemma decoder_kind : forall gi go ci co ks b up ls, gok gi -> gok go -> (Q -> full_kernel ks b) -> decoder E S gi go ci co ks b up = Some ls -> List.Forall good ls /\ fits ls (mkK ci gi) = Some (mkK co go).
Proof.
  intros gi go ci co ks b up ls Gi Go HQ H. unfold decoder in H. bind H u Hu. bind H c Hc. bind H l Hl. injection H as <-.
  pose proof (gok_w _ Go) as W.
  assert (U : good u /\ fit strict u (mkK ci gi) = Some (mkK ci go)).
  { destruct up; [|eapply resampling_kind; eauto]. bind Hu s Hs. bind Hu i Hi. injection Hu as <-. destruct (sht_of_ready _ _ _ _ _ Hs) as (A & TA). destruct (isht_of_ready _ _ _ _ _ Hi) as (B0 & TB).
    destruct (truncate_default _ _ _ _ _ (gk_h _ _ (proj1 Gi)) TA) as (E1 & E2). rewrite <- E1 in *. destruct (truncate_modes _ _ _ _ _ _ E2 TB) as (E3 & E4).
    split. { apply good_ready; [split; [apply Gi|apply Go]| |reflexivity]. apply pair_ready; auto; lia. } cbn [fit k_ch k_g]. rewrite same_grid_refl. reflexivity. }
  destruct U as (U1 & U2). destruct (disco_kind _ _ _ _ _ _ _ _ _ _ _ _ _ _ go Hc Hl W (proj2 Go) (proj2 Go) (fun q => self_reach _ _ _ _ _ Go (HQ q) (gok_h _ Gi) Hc) (same_grid_refl _)) as (A & F).
  split; [constructor; [exact U1|constructor; [exact A|constructor]]|]. cbn [seqrun]. rewrite U2. cbn [bindo]. rewrite F. reflexivity.
Qed.

(** ** Blocks *)
Notation fadd := (add_skip (fit strict) (kadd strict)).
Lemma identity_skip : forall name ix ci co e ls y r, skip_layers S name ix ci co e SkipIdentity = Some ls -> List.Forall good (oflat ls) /\ fadd ls y r = kadd strict y r.
Proof. intros name ix ci co e ls y r H. cbn [skip_layers] in H. bind H u Hu. injection H as <-. split; [constructor|reflexivity]. Qed.
Lemma no_skip : forall name ix ci co e ls y r, skip_layers S name ix ci co e SkipNone = Some ls -> List.Forall good (oflat ls) /\ fadd ls y r = Some y.
Proof. intros name ix ci co e ls y r H. injection H as <-. split; [constructor|reflexivity]. Qed.
Lemma block_mlp : forall ix c ratio a (use : bool) ms g, (if use then do hid <- py_int (INR c * ratio)%R; Some (mlp S "blocks.{}.mlp" ix c hid c a false) else Some []) = Some ms ->
  List.Forall good ms /\ fits ms (mkK c g) = Some (mkK c g).
Proof.
  intros ix c ratio a use ms g H. destruct use.
  - bind H hid Hh. injection H as <-. split; [apply mlp_good|apply mlp_kind].
  - injection H as <-. split; [constructor|reflexivity].
Qed.
Lemma sblock_kind : forall ix f i d ratio a norm um bias b gi go, tr_for true gi f -> tr_for false go i -> s_lmax (tr_s f) = s_lmax (tr_s i) -> s_mmax (tr_s f) = s_mmax (tr_s i) ->
  gok gi -> gok go -> (same_shape gi go = true -> same_grid strict go gi = true) -> sblock_init S ix f i d d ratio a norm SkipNone SkipIdentity um bias = Some b ->
  List.Forall good (sblock_layers b) /\ sblock_forward (fit strict) (kadd strict) b (mkK d gi) = Some (mkK d go).
Proof.
  intros ix f i d ratio a norm um bias b gi go Hf Hi El Em Gi Go SH H. pose proof (gok_w _ Go) as W. unfold sblock_init in H. bind H c Hc. bind H sk1 H1. bind H n0 Hn. bind H m Hm. bind H sk2 H2. injection H as <-.
  destruct (sconvx_ready _ _ _ _ _ _ _ _ _ Hf Hi El Em W Hc) as (RC & G1 & G2 & D0 & D1). assert (Eg : tr_g i = go) by apply Hi. rewrite Eg in Hn.
  destruct (block_norm_kind _ _ _ _ _ Go Hn) as (Ng & Nf). destruct (block_mlp _ _ _ _ _ _ go Hm) as (Mg & Mf).
  split.
  - unfold sblock_layers. cbn [sb_conv sb_norm sb_inner sb_mlp sb_outer]. assert (Wc : g_nlon (sx_gi c) mod nn = 0 /\ g_nlon (sx_go c) mod nn = 0) by (rewrite G1, G2; split; [apply Gi|apply Go]). constructor; [apply good_ready; [exact Wc|exact RC|reflexivity]|]. constructor; [apply good_ready; [exact Wc|exact RC|reflexivity]|]. apply List.Forall_app; split; [auto|]. apply List.Forall_app; split. { exact (proj1 (no_skip _ _ _ _ _ _ (mkK d go) (mkK d go) H1)). }
    apply List.Forall_app; split; [auto|]. exact (proj1 (identity_skip _ _ _ _ _ _ (mkK d go) (mkK d go) H2)).
  - unfold sblock_forward. cbn [sb_conv sb_norm sb_inner sb_mlp sb_outer]. cbn [fit k_ch k_g]. rewrite G1, G2, D0, D1, Nat.eqb_refl, same_grid_refl. cbn [andb guard bindo].
    rewrite Nf. cbn [bindo]. rewrite (proj2 (no_skip _ _ _ _ _ _ _ _ H1)). cbn [bindo]. rewrite Mf. cbn [bindo]. rewrite (proj2 (identity_skip _ _ _ _ _ _ _ _ H2)).
    unfold kadd. destruct (same_shape gi go) eqn:SS; cbn [k_ch k_g]. rewrite Nat.eqb_refl, SH by auto. reflexivity. rewrite Nat.eqb_refl, same_grid_refl. reflexivity.
Qed.
Lemma lblock_kind : forall ix f i d glob ratio a norm um ks bt bias b g, tr_for true g f -> tr_for false g i -> s_lmax (tr_s f) = s_lmax (tr_s i) -> s_mmax (tr_s f) = s_mmax (tr_s i) ->
  gok g -> (Q -> full_kernel ks bt) -> lblock_init E S ix f i d d glob ratio a norm SkipNone SkipIdentity um ks bt bias = Some b ->
  List.Forall good (lblock_layers b) /\ lblock_forward (fit strict) (kadd strict) b (mkK d g) = Some (mkK d g).
Proof.
  intros ix f i d glob ratio a norm um ks bt bias b g Hf Hi El Em Go HQ H. pose proof (gok_w _ Go) as W. unfold lblock_init in H. bind H c Hc. bind H sk1 H1. bind H n0 Hn. bind H m Hm. bind H sk2 H2. injection H as <-.
  assert (Eg : tr_g i = g) by apply Hi. assert (Eg' : tr_g f = g) by apply Hf. rewrite Eg in Hn, Hc. rewrite Eg' in Hc.
  assert (C0 : good c /\ fit strict c (mkK d g) = Some (mkK d g)).
  { destruct glob.
    - bind Hc c0 Hc0. injection Hc as <-. destruct (sconvx_ready _ _ _ _ _ _ _ _ _ Hf Hi El Em W Hc0) as (RC & G1 & G2 & D0 & D1). split; [apply good_ready; [cbn [widths]; rewrite G1, G2; split; apply Go|exact RC|reflexivity]|].
      cbn [fit k_ch k_g]. rewrite G1, G2, D0, D1, Nat.eqb_refl, same_grid_refl. reflexivity.
    - bind Hc c0 Hc0. eapply disco_kind; eauto; try apply Go; [|apply same_grid_refl]. intros q. split; [apply gok_h; auto|]. split; [auto|]. destruct (cutoff_bound _ _ _ _ (gok_h _ Go) Hc0). destruct g as [x y z]. apply (reaches_self (e_gl E) (mkG x y z) y z); auto. apply (gok_h _ Go). lra. }
  destruct C0 as (Cg & Cf). destruct (block_norm_kind _ _ _ _ _ Go Hn) as (Ng & Nf). destruct (block_mlp _ _ _ _ _ _ g Hm) as (Mg & Mf).
  split.
  - unfold lblock_layers. cbn [lb_conv lb_norm lb_inner lb_mlp lb_outer]. constructor; [auto|]. apply List.Forall_app; split; [auto|]. apply List.Forall_app; split. { exact (proj1 (no_skip _ _ _ _ _ _ (mkK d g) (mkK d g) H1)). }
    apply List.Forall_app; split; [auto|]. exact (proj1 (identity_skip _ _ _ _ _ _ (mkK d g) (mkK d g) H2)).
  - unfold lblock_forward. cbn [lb_conv lb_norm lb_inner lb_mlp lb_outer]. rewrite Cf. cbn [bindo].
    rewrite Nf. cbn [bindo]. rewrite (proj2 (no_skip _ _ _ _ _ _ _ _ H1)). cbn [bindo]. rewrite Mf. cbn [bindo]. rewrite (proj2 (identity_skip _ _ _ _ _ _ _ _ H2)). apply kadd_refl.
Qed.
Lemma ablock_kind : forall ix g d heads ratio a norm um bias nb cut b, gok g -> ablock_init E S ix g g d d heads ratio a norm um bias nb cut = Some b ->
  List.Forall good (ablock_layers b) /\ ablock_forward (fit strict) (kadd strict) b (mkK d g) = Some (mkK d g).
Proof.
  intros ix g d heads ratio a norm um bias nb cut b G H. unfold ablock_init in H. bind H n0 H0. bind H n1 H1. bind H at0 Ha. bind H m Hm. injection H as <-.
  destruct (attn_norm_kind _ _ _ _ _ _ G H0) as (A0 & A1). destruct (attn_norm_kind _ _ _ _ _ _ G H1) as (B0 & B1). destruct (attention_kind _ _ _ _ _ _ _ _ _ _ G Ha) as (C0 & C1). destruct (block_mlp _ _ _ _ _ _ g Hm) as (D0 & D1).
  split.
  - unfold ablock_layers. cbn [ab_norm0 ab_attn ab_norm1 ab_mlp]. apply List.Forall_app; split; [auto|]. constructor; [auto|]. apply List.Forall_app; split; auto.
  - unfold ablock_forward. cbn [ab_norm0 ab_attn ab_norm1 ab_mlp]. rewrite A1. cbn [bindo]. rewrite C1. cbn [bindo]. rewrite kadd_refl. cbn [bindo]. rewrite B1. cbn [bindo]. rewrite D1. cbn [bindo]. apply kadd_refl.
Qed.

(** a loop whose i-th step takes kind i to kind i + 1 *)
Lemma foldM_kinds : forall (B0 : Type) (f : nat -> option B0) (lay : B0 -> list layer) (fwd : B0 -> ftype -> option ftype) (K : nat -> ftype) m a bs,
  (forall i b, a <= i < a + m -> f i = Some b -> List.Forall good (lay b) /\ fwd b (K i) = Some (K (i + 1))) -> mapM f (seq a m) = Some bs ->
  List.Forall good (flat_map lay bs) /\ foldM fwd bs (K a) = Some (K (a + m)).
Proof.
  intros B0 f lay fwd K. induction m; intros a bs F M; cbn [seq mapM] in M.
  - injection M as <-. rewrite Nat.add_0_r. split; [constructor|reflexivity].
  - bind M b Hb. bind M bs' Hbs. injection M as <-. destruct (F a b) as (G1 & F1); [lia|auto|]. destruct (IHm (Datatypes.S a) bs') as (G2 & F2); auto. { intros. apply F; [lia|auto]. }
    split. { cbn [flat_map]. apply List.Forall_app; auto. } cbn [foldM]. rewrite F1. cbn [bindo]. replace (a + 1) with (Datatypes.S a) by lia. rewrite F2. f_equal. f_equal. lia.
Qed.
End Kind.
