(** What the constructors of the layers establish. *)
From Coq Require Import String List Arith Lia Bool Reals ZArith Lra.
From Coquelicot Require Import Coquelicot.
From Verif Require ResampleProofs FilterApiProofs.
From Verif Require Import TensorModel TensorProofs BigSum TruncModel QuadModel FFTModel SHTModel SHTSpec SHTValueProofs ResampleModel ResampleSpec FilterModel FilterSpec FilterProofs DiscoModel DiscoSpec PsiModel PsiSpec PsiProofs PsiUseProofs PsiAttnProofs
  AttnModel AttnSpec AttnLayerModel AttnLayerSpec AttnLayerProofs AttnGlobalProofs NetModel NetModels NetSpec NetParProofs NetLayerProofs NetLayerProofs2 NetLayerProofs4.
Import ListNotations.
Local Open Scope list_scope.
Local Open Scope nat_scope.

Local Lemma some_inj : forall (A : Type) (a b : A), Some a = Some b -> a = b. Proof. congruence. Qed.

(** ** Filter bases *)
Lemma listed_represents : forall K H W r phi rc (c : nat -> R -> R -> bool) (v : nat -> R -> R -> R), (forall k x y, c k x y = true -> (x <= rc)%R) ->
  represents (with_vals (argwhere K H W (fun k i j => c k (r i j) (phi i j))) (fun k i j => v k (r i j) (phi i j))) K H W r phi rc (fun k x y => if c k x y then v k x y else 0%R).
Proof.
  intros K H W r phi rc c v Hc. split; [rewrite fst_with_vals; apply NoDup_argwhere|]. split.
  - intros k i j x Hx. unfold with_vals in Hx. apply in_map_iff in Hx. destruct Hx as (((k', i'), j') & E & Hx). injection E as <- <- <- <-.
    apply in_argwhere in Hx. destruct Hx as ((A & B0 & D) & Ec). split; [auto|]. split; [auto|]. split; [auto|]. split; [eapply Hc; eauto|]. cbv beta. rewrite Ec. reflexivity.
  - intros k i j A B0 D _ N. rewrite fst_with_vals in N. destruct (c k (r i j) (phi i j)) eqn:Ec; [|reflexivity]. destruct N. apply in_argwhere. auto.
Qed.
Definition cutoff_basis (b : btype) : Prop := b = BPiecewise \/ b = BMorlet \/ b = BZernike.
Lemma cutoff_radius_basis : forall h ks b c, cutoff_radius h ks b = Some c -> cutoff_basis b.
Proof. intros h ks b c E. unfold cutoff_radius in E. unfold cutoff_basis. destruct ks as [|[|k r]]; try discriminate. destruct b; cbn in E; try discriminate; auto. Qed.
Lemma filter_has_fun : forall jn jz ks b fb, cutoff_basis b -> get_filter_basis jn jz ks b = Some fb -> exists f, basis_of fb f.
Proof.
  intros jn jz ks b fb [-> | [-> | ->]] E; cbn [get_filter_basis] in E.
  - unfold pl_basis in E. destruct (pl_init ks) as [[nr nphi]|] eqn:I; [|discriminate]. cbn [bindo] in E.
    destruct nphi as [|p].
    + injection E as <-. exists (fun rc k x y => if Rleb (Rabs (x - pl_ir_iso nr rc k)) (pl_dr nr rc) && Rleb x rc then (1 - Rabs (x - pl_ir_iso nr rc k) / pl_dr nr rc)%R else 0%R).
      intros H W r phi rc s Hrc _ Es. cbn [fb_support fb_size] in *. injection Es as <-. unfold pl_support. change (1 <? 0) with false. cbv iota. unfold pl_iso. cbv zeta.
      apply (listed_represents _ _ _ _ _ _ (fun k x _ => Rleb (Rabs (x - pl_ir_iso nr rc k)) (pl_dr nr rc) && Rleb x rc) (fun k x _ => (1 - Rabs (x - pl_ir_iso nr rc k) / pl_dr nr rc)%R)).
      intros k x _ Ec. apply andb_prop in Ec. apply ResampleProofs.Rleb_true. apply Ec.
    + destruct (pl_basis_of ks nr (Datatypes.S p) fb) as (A & _); [| lia | |eexists; exact A].
      * unfold pl_init in I. destruct ks as [a|[|a [|a2 [|]]]]; try discriminate; injection I; intros; subst; unfold FilterApiProofs.pl_shape; auto.
      * unfold pl_basis. rewrite I. exact E.
  - unfold hm_basis in E. destruct (hm_init ks) as [[k0 k1]|] eqn:I; [|discriminate]. destruct (hm_basis_of ks k0 k1 false fb) as (nm & _ & A & _); [| |eexists; exact A].
    + unfold hm_init in I. destruct ks as [a|[|a [|a2 [|]]]]; try discriminate; injection I; intros; subst; auto.
    + unfold hm_basis. rewrite I. exact E.
  - unfold zk_basis in E. destruct (zk_init ks) as [N|]; [|discriminate]. cbn [bindo] in E. injection E as <-.
    exists (fun rc k x y => if Rleb x rc then (zk_poly (x / rc) y (zk_n N k) (zk_l N k) / zk_norm (zk_n N k) (zk_l N k))%R else 0%R).
    intros H W r phi rc s Hrc _ Es. cbn [fb_support fb_size] in *. unfold zk_support in Es. destruct (guard _); [|discriminate]. cbn [bindo] in Es. injection Es as <-.
    apply (listed_represents _ _ _ _ _ _ (fun k x _ => Rleb x rc) (fun k x y => (zk_poly (x / rc) y (zk_n N k) (zk_l N k) / zk_norm (zk_n N k) (zk_l N k))%R)).
    intros k x _ Ec. apply ResampleProofs.Rleb_true. exact Ec.
Qed.

Lemma full_basis : forall jn jz ks b fb, full_kernel ks b -> get_filter_basis jn jz ks b = Some fb -> basis_full fb /\ 1 <= fb_size fb.
Proof.
  intros jn jz ks b fb F E. destruct b; cbn [full_kernel] in F; try (destruct ks as [|[|? [|? [|]]]]; contradiction).
  - destruct ks as [|[|k0 l]]; try contradiction. cbn [get_filter_basis] in E. unfold zk_basis in E. cbn [zk_init bindo] in E. injection E as <-. cbn [fb_size]. split.
    + intros H W r phi rc s Hs k i j Hk Hh Hw D. cbn [fb_support fb_size] in *. unfold zk_support in Hs. apply bindo_some in Hs. destruct Hs as (u & _ & Hs). injection Hs as <-. rewrite fst_with_vals. apply in_argwhere. split; auto. now apply ResampleProofs.Rleb_true.
    + unfold zk_size. apply Nat.div_le_lower_bound; nia.
  - destruct ks as [|[|k0 [|k1 [|]]]]; try contradiction. cbn [get_filter_basis] in E. destruct (hm_basis_of _ k0 k1 _ _ (or_introl eq_refl) E) as (nm & _ & _ & A & _). split; [exact A|].
    unfold hm_basis in E. cbn in E. injection E as <-. cbn [fb_size]. unfold hm_size. nia.
Qed.

(** ** Convolutions *)
Lemma mul_div_mod0 : forall a b, 1 <= b -> a mod b = 0 -> b * (a / b) = a.
Proof. intros a b Hb H. pose proof (Nat.div_mod a b ltac:(lia)). lia. Qed.
Lemma entry_size : forall K H N es, psi_wf K H N es -> es <> [] -> 1 <= K.
Proof. intros K H N [|e es] WF Z; [congruence|]. destruct (WF e (or_introl eq_refl)). lia. Qed.
Ltac bind E x Hx := apply bindo_some in E; destruct E as (x & Hx & E).
Lemma disco_ready : forall E S name ix cin cout gi go ks b groups bias cutoff l, cutoff_basis b -> disco E S name ix cin cout gi go ks b groups bias cutoff = Some l ->
  exists d, l = LDisco gi go d /\ d_groups d * dimsz (d_weight d) 1 = cin /\ dimsz (d_weight d) 0 = cout /\ (1 <= g_nlon gi -> filter_ready l -> disco_built gi go d) /\
  (1 <= g_nlon gi -> 2 <= g_nlat go -> full_kernel ks b -> reaches (e_gl E) gi go cutoff -> filter_ready l).
Proof.
  intros E S name ix cin cout gi go ks b groups bias cutoff l Cb H. unfold disco in H. bind H fb Hf. bind H u G. apply PsiProofs.guard_some in G.
  apply andb_prop in G. destruct G as (G & G4). apply andb_prop in G. destruct G as (G & G3). apply andb_prop in G. destruct G as (G1 & G2). apply Nat.leb_le in G1, G4. apply Nat.eqb_eq in G2, G3.
  bind H es He. bind H d Hd. injection H as <-. exists d. split; [reflexivity|].
  assert (ID : d_groups d = groups /\ d_weight d = mkT [cout; cin / groups; fb_size fb] (st_r S (sub name ".weight") ix) /\ d_raw d = es /\ d_K d = fb_size fb).
  { unfold conv_s2_init in Hd. destruct (guard _); [|discriminate]. cbn [bindo] in Hd. destruct (preprocess_psi _ _ _ _); [|discriminate]. cbn [bindo] in Hd. injection Hd as <-. auto. }
  destruct ID as (I1 & I2 & I3 & I4). rewrite I1, I2. unfold dimsz. cbn [shp nth]. split; [apply mul_div_mod0; auto|]. split; [reflexivity|].
  split; cycle 1.
  { intros HW H2 FK RE. cbn [filter_ready]. rewrite I3, I4. destruct (full_basis _ _ _ _ _ FK Hf) as (BF & SZ). destruct (filter_has_fun _ _ _ _ _ Cb Hf) as (f & Bf).
    destruct (conv_built _ _ _ _ _ _ f _ _ _ _ _ Bf He HW) as (c & qi & qo & es0 & roff & _ & Ec & _ & _ & _ & _ & _ & BU). rewrite (Ec _ eq_refl) in BU.
    destruct (RE qi qo) as (R1 & R2); [apply BU|apply BU|]. destruct (built_separated _ _ _ _ _ _ _ _ _ _ _ _ _ _ _ _ _ _ BU BF H2 R1 R2) as (X1 & X2). auto. }
  intros HW FR. cbn [filter_ready] in FR. rewrite I3, I4 in FR. destruct FR as (SP & NE). destruct (filter_has_fun _ _ _ _ _ Cb Hf) as (f & Bf).
  destruct (conv_built _ _ _ _ _ _ f _ _ _ _ _ Bf He HW) as (c & qi & qo & es0 & roff & _ & _ & _ & _ & HWo & HD & _ & BU).
  destruct (built_wf _ _ _ _ _ _ _ _ _ _ _ _ _ _ _ _ _ _ BU) as (WF & RS).
  exists (fb_size fb), groups, (cout / groups), (cin / groups), (mkT [cout; cin / groups; fb_size fb] (st_r S (sub name ".weight") ix)), (if bias then Some (mkT [cout] (st_r S (sub name ".bias") ix)) else None), es, (e_junk E).
  split; [|exact Hd]. constructor; auto.
  - eapply entry_size; eauto.
  - cbn [shp]. rewrite mul_div_mod0 by auto. reflexivity.
  - destruct bias; cbn; auto. rewrite mul_div_mod0 by auto. reflexivity.
Qed.
Lemma tdisco_ready : forall E S name ix cin cout gi go ks b groups bias cutoff l, cutoff_basis b -> tdisco E S name ix cin cout gi go ks b groups bias cutoff = Some l ->
  exists d, l = LTDisco gi go d /\ d_groups d * dimsz (d_weight d) 1 = cin /\ dimsz (d_weight d) 0 = cout /\ (1 <= g_nlon go -> filter_ready l -> tdisco_built gi go d) /\
  (1 <= g_nlon go -> 2 <= g_nlat gi -> full_kernel ks b -> reaches (e_gl E) go gi cutoff -> filter_ready l).
Proof.
  intros E S name ix cin cout gi go ks b groups bias cutoff l Cb H. unfold tdisco in H. bind H fb Hf. bind H u G. apply PsiProofs.guard_some in G.
  apply andb_prop in G. destruct G as (G & G4). apply andb_prop in G. destruct G as (G & G3). apply andb_prop in G. destruct G as (G1 & G2). apply Nat.leb_le in G1, G4. apply Nat.eqb_eq in G2, G3.
  bind H es He. bind H d Hd. injection H as <-. exists d. split; [reflexivity|].
  assert (ID : d_groups d = groups /\ d_weight d = mkT [cout; cin / groups; fb_size fb] (st_r S (sub name ".weight") ix) /\ d_raw d = es /\ d_K d = fb_size fb).
  { unfold conv_transpose_s2_init in Hd. destruct (guard _); [|discriminate]. cbn [bindo] in Hd. destruct (preprocess_psi _ _ _ _); [|discriminate]. cbn [bindo] in Hd. injection Hd as <-. auto. }
  destruct ID as (I1 & I2 & I3 & I4). rewrite I1, I2. unfold dimsz. cbn [shp nth]. split; [apply mul_div_mod0; auto|]. split; [reflexivity|].
  split; cycle 1.
  { intros HW H2 FK RE. cbn [filter_ready]. rewrite I3, I4. destruct (full_basis _ _ _ _ _ FK Hf) as (BF & SZ). destruct (filter_has_fun _ _ _ _ _ Cb Hf) as (f & Bf).
    destruct (tconv_built _ _ _ _ _ _ f _ _ _ _ _ Bf He HW) as (c & qi & qo & es0 & roff & _ & Ec & _ & _ & _ & _ & BU). rewrite (Ec _ eq_refl) in BU.
    destruct (RE qo qi) as (R1 & R2); [apply BU|apply BU|]. destruct (built_separated _ _ _ _ _ _ _ _ _ _ _ _ _ _ _ _ _ _ BU BF H2 R1 R2) as (X1 & X2). auto. }
  intros HW FR. cbn [filter_ready] in FR. rewrite I3, I4 in FR. destruct FR as (SP & NE). destruct (filter_has_fun _ _ _ _ _ Cb Hf) as (f & Bf).
  destruct (tconv_built _ _ _ _ _ _ f _ _ _ _ _ Bf He HW) as (c & qi & qo & es0 & roff & _ & _ & _ & HWi & _ & HD & BU).
  destruct (built_wf _ _ _ _ _ _ _ _ _ _ _ _ _ _ _ _ _ _ BU) as (WF & RS).
  exists (fb_size fb), groups, (cout / groups), (cin / groups), (mkT [cout; cin / groups; fb_size fb] (st_r S (sub name ".weight") ix)), (if bias then Some (mkT [cout] (st_r S (sub name ".bias") ix)) else None), es, (e_junk E).
  split; [|exact Hd]. constructor; auto.
  - eapply entry_size; eauto.
  - cbn [shp]. rewrite mul_div_mod0 by auto. reflexivity.
  - destruct bias; cbn; auto. rewrite mul_div_mod0 by auto. reflexivity.
Qed.

(** ** Resampling and transforms *)
Lemma resampling_ready : forall E gi go mode l, grid_ok (e_gl E) gi -> grid_ok (e_gl E) go -> resampling E gi go mode = Some l -> exists r, l = LResample gi go r /\ resample_built (e_gl E) gi go r.
Proof.
  intros E gi go mode l [A1 A2 A3 _] [B1 B2 B3 _] H. unfold resampling in H. bind H r Hr. injection H as <-. exists r. split; [reflexivity|]. exists mode. repeat (split; [solve [auto | lia]|]).
  split; [|exact Hr]. intros ->. discriminate.
Qed.
Definition tr_for (forward : bool) (g : gspec) (t : transform) : Prop :=
  tr_g t = g /\ s_nlat (tr_s t) = g_nlat g /\ s_nlon (tr_s t) = g_nlon g /\
  if forward then wshape (tr_s t) (s_mmax (tr_s t)) (s_lmax (tr_s t)) (s_nlat (tr_s t)) else wshape (tr_s t) (s_mmax (tr_s t)) (s_nlat (tr_s t)) (s_lmax (tr_s t)).
Lemma sht_of_ready : forall E g lm mm t, sht_of E g lm mm = Some t -> tr_for true g t /\ truncate_sht (g_nlat g) (g_nlon g) lm mm (g_type g) = Some (s_lmax (tr_s t), s_mmax (tr_s t)).
Proof.
  intros E g lm mm t H. unfold sht_of in H. bind H s Hs. injection H as <-. cbn [tr_s tr_g]. pose proof (init_weights _ _ _ _ _ _ _ _ _ Hs) as W. unfold real_sht_init in Hs.
  bind Hs q Hq. bind Hs lmm Ht. destruct lmm as (l, m). injection Hs as <-. unfold tr_for. cbn in *. auto.
Qed.
Lemma isht_of_ready : forall E g lm mm t, isht_of E g lm mm = Some t -> tr_for false g t /\ truncate_sht (g_nlat g) (g_nlon g) lm mm (g_type g) = Some (s_lmax (tr_s t), s_mmax (tr_s t)).
Proof.
  intros E g lm mm t H. unfold isht_of in H. bind H s Hs. injection H as <-. cbn [tr_s tr_g]. pose proof (inv_init_weights _ _ _ _ _ _ _ _ _ Hs) as W. unfold inverse_sht_init in Hs.
  bind Hs q Hq. bind Hs lmm Ht. destruct lmm as (l, m). injection Hs as <-. unfold tr_for. cbn in *. auto.
Qed.
Lemma truncate_modes : forall h w md g l m, 1 <= md -> truncate_sht h w (Some md) (Some md) g = Some (l, m) -> l = md /\ m = md.
Proof. intros h w [|md] g l m H T; [lia|]. cbn in T. rewrite Nat.min_id in T. injection T as <- <-. auto. Qed.
Lemma truncate_default : forall h w g l m, 2 <= h -> truncate_sht h w None None g = Some (l, m) -> l = m /\ 1 <= l.
Proof.
  intros h w g l m H T. unfold truncate_sht, or_default, default_mmax in T. destruct (default_lmax g h) as [d|] eqn:D; [|discriminate]. injection T as <- <-. split; [reflexivity|].
  assert (1 <= (h + 1) / 2) by (apply Nat.div_le_lower_bound; lia).
  assert (1 <= d) by (destruct g; cbn [default_lmax] in D; try discriminate; try (destruct (h =? 0); [discriminate|]); apply some_inj in D; subst d; lia).
  apply Nat.min_glb; lia.
Qed.
Lemma pair_ready : forall gi go s i, tr_for true gi s -> tr_for false go i -> s_lmax (tr_s s) = s_lmax (tr_s i) -> s_mmax (tr_s s) = s_mmax (tr_s i) -> 1 <= g_nlon go -> tr_ready gi go (tr_s s) (tr_s i).
Proof. intros gi go s i (A & A1 & A2 & A3) (B0 & B1 & B2 & B3) El Em HW. constructor; auto. Qed.
Lemma sconvx_ready : forall gi go f i cin cout w bias c, tr_for true gi f -> tr_for false go i -> s_lmax (tr_s f) = s_lmax (tr_s i) -> s_mmax (tr_s f) = s_mmax (tr_s i) -> 1 <= g_nlon go ->
  sconvx_init f i cin cout OpDriscollHealy w bias = Some c -> sc_ready c /\ sx_gi c = gi /\ sx_go c = go /\ dimsz (sx_w c) 0 = cout /\ dimsz (sx_w c) 1 = cin.
Proof.
  intros gi go f i cin cout w bias c Hf Hi El Em HW H. pose proof (pair_ready _ _ _ _ Hf Hi El Em HW) as TR. destruct Hf as (A & _). destruct Hi as (B0 & _).
  unfold sconvx_init in H. bind H s Hs. cbn in Hs. injection Hs as <-. bind H u Hu. injection H as <-. cbn. split; [|auto]. constructor; cbn; auto. { rewrite A, B0. exact TR. } destruct bias; cbn; auto.
Qed.

(** ** Attention *)
Lemma nattn_ready : forall E S name ix cin cout gi go heads bias cutoff l, grid_ok (e_gl E) gi -> g_nlat gi = g_nlat go -> g_nlon gi = g_nlon go -> nattn E S name ix cin cout gi go heads bias cutoff = Some l ->
  exists A, l = LNAttn gi go A /\ dimsz (na_q A) 1 = cin /\ dimsz (na_p A) 0 = cout /\ exists L Ci Ck Cv nh Co quad P, na_built gi go A L Ci Ck Cv nh Co quad P.
Proof.
  intros E S name ix cin cout gi go heads bias cutoff l [GH GW GS GQ] E1 E2 H. unfold nattn in H. bind H u G. apply PsiProofs.guard_some in G.
  apply andb_prop in G. destruct G as (G & Hco). apply andb_prop in G. destruct G as (G & Hci). unfold na_checks in G. apply andb_prop in G. destruct G as (G & G1). apply andb_prop in G. destruct G as (G & G2). apply andb_prop in G. destruct G as (G & G3).
  apply Nat.leb_le in G3, Hci, Hco. apply Nat.eqb_eq in G1, G2. bind H p Hp. destruct p as ((quad, cols), roff). cbn [fst snd] in H. injection H as <-.
  destruct (na_neighbours _ _ _ _ _ _ _ _ _ _ _ Hp) as (c & qi & qo & P & Hc & _ & _ & Eqi & Eqo & -> & -> & HWi & HWo & _ & HP & HQ & _ & NE).
  assert (M : g_nlon gi mod g_nlon go = 0) by (rewrite E2; apply Nat.mod_same; lia). rewrite M in HP. cbn [Nat.eqb] in HP.
  eexists. split; [reflexivity|]. cbn [na_q na_p]. split; [reflexivity|]. split; [reflexivity|].
  pose (bb := fun s n => if bias then Some (mkT [n] (st_r S (sub name s) ix)) else None).
  exists (mkW (mkT [cin; cin; 1; 1] (st_r S (sub name ".q_weights") ix)) (mkT [cin; cin; 1; 1] (st_r S (sub name ".k_weights") ix))
    (mkT [cout; cin; 1; 1] (st_r S (sub name ".v_weights") ix)) (mkT [cout; cout; 1; 1] (st_r S (sub name ".proj_weights") ix))
    (bb ".q_bias"%string cin) (bb ".k_bias"%string cin) (bb ".v_bias"%string cout) (bb ".proj_bias"%string cout) None None (na_scale_of None cin heads)),
    cin, (cin / heads), (cout / heads), heads, cout, quad, P.
  constructor; auto; try lia.
  - constructor; cbn [w_q w_k w_v w_p w_qb w_kb w_vb w_pb w_qn w_kn]; cbn [shp]; rewrite ?mul_div_mod0 by auto; auto; unfold bb; destruct bias; cbn; auto.
  - intros h Hh. rewrite HQ. pose proof (GQ _ Eqi h Hh). pose proof PI_RGT_0. apply Rdiv_lt_0_compat; [nra|]. apply lt_0_INR. lia.
Qed.
Lemma gattn_ready : forall E S name ix cin cout gi go heads bias l, grid_ok (e_gl E) gi -> g_nlat gi = g_nlat go -> g_nlon gi = g_nlon go -> gattn E S name ix cin cout gi go heads bias = Some l ->
  exists A, l = LGAttn gi go A /\ dimsz (ga_q A) 1 = cin /\ dimsz (ga_p A) 0 = cout /\ exists L sc Ci Ck Cv nh Co quad, ga_built gi go A L sc Ci Ck Cv nh Co quad.
Proof.
  intros E S name ix cin cout gi go heads bias l [GH GW GS GQ] E1 E2 H. unfold gattn in H. bind H u G. apply PsiProofs.guard_some in G.
  apply andb_prop in G. destruct G as (G & Hco). apply andb_prop in G. destruct G as (G & Hci). apply andb_prop in G. destruct G as (G & G1). apply andb_prop in G. destruct G as (G & G2). apply andb_prop in G. destruct G as (G & G3).
  apply Nat.leb_le in G3, Hci, Hco. apply Nat.eqb_eq in G1, G2. bind H q Hq. injection H as <-.
  eexists. split; [reflexivity|]. cbn [ga_q ga_p]. split; [reflexivity|]. split; [reflexivity|].
  pose (bb := fun s n => if bias then Some (mkT [n] (st_r S (sub name s) ix)) else None).
  exists (mkW (mkT [cin; cin; 1; 1] (st_r S (sub name ".q_weights") ix)) (mkT [cin; cin; 1; 1] (st_r S (sub name ".k_weights") ix))
    (mkT [cout; cin; 1; 1] (st_r S (sub name ".v_weights") ix)) (mkT [cout; cout; 1; 1] (st_r S (sub name ".proj_weights") ix))
    (bb ".q_bias"%string cin) (bb ".k_bias"%string cin) (bb ".v_bias"%string cout) (bb ".proj_bias"%string cout) None None (na_scale_of None cin heads)), None,
    cin, (cin / heads), (cout / heads), heads, cout, (fun i => 2 * PI * rw q i / INR (g_nlon gi))%R.
  constructor; auto; try lia.
  - constructor; cbn [w_q w_k w_v w_p w_qb w_kb w_vb w_pb w_qn w_kn]; cbn [shp]; rewrite ?mul_div_mod0 by auto; auto; unfold bb; destruct bias; cbn; auto.
  - cbn [w_scale]. rewrite mul_div_mod0 by auto. reflexivity.
  - intros h Hh. pose proof (GQ _ Hq h Hh). pose proof PI_RGT_0. apply Rdiv_lt_0_compat; [nra|]. apply lt_0_INR. lia.
Qed.

(** ** Any layer built by these constructors commutes with rotations *)
Definition ready (E : env) (l : layer) : Prop :=
  match l with
  | LDisco gi go d => disco_built gi go d | LTDisco gi go d => tdisco_built gi go d | LResample gi go r => resample_built (e_gl E) gi go r
  | LSht gi go s i => tr_ready gi go s i | LSpec c | LSpecRes c => sc_ready c
  | LNAttn gi go A => exists L Ci Ck Cv nh Co quad P, na_built gi go A L Ci Ck Cv nh Co quad P
  | LGAttn gi go A => exists L sc Ci Ck Cv nh Co quad, ga_built gi go A L sc Ci Ck Cv nh Co quad
  | _ => True
  end.
Theorem ready_sound : forall n k B E l, 1 <= n -> 1 <= B -> op_correct (e_op E) -> ready E l -> widths n l -> k = 0 \/ zonal l -> sound n k B E l.
Proof.
  intros n k B E l Hn HB Hop R0 W Z. destruct l; cbn [ready] in R0.
  - apply conv1_sound.
  - apply act_sound.
  - apply batch_sound.
  - apply inst_sound.
  - apply chan_sound.
  - apply plane_sound. exact Z.
  - apply pos_sound. exact Z.
  - apply ldisco_sound; auto.
  - apply ltdisco_sound; auto.
  - apply resample_sound; auto.
  - apply lsht_sound; auto.
  - apply lspec_sound; auto.
  - apply lspecres_sound; auto.
  - apply nattn_sound; auto.
  - apply gattn_sound; auto.
Qed.
