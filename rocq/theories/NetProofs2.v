(** The example networks on the configurations of NetSpec. *)
From Coq Require Import String List Arith Lia Bool Reals ZArith Lra.
From Coquelicot Require Import Coquelicot.
From Verif Require Import TensorModel TensorProofs BigSum TruncModel QuadModel FFTModel SHTModel SHTSpec ResampleModel FilterModel DiscoModel PsiModel PsiProofs AttnModel AttnSpec AttnLayerModel AttnLayerSpec AttnLayerProofs
  NetModel NetModels NetSpec NetParProofs NetReadyProofs NetReachProofs NetKindProofs NetKindProofs2 NetKindProofs3 NetProofs NetTotalProofs NetTotalProofs2 NetTotalProofs3.
Import ListNotations.
Local Open Scope list_scope.
Local Open Scope nat_scope.

(** ** Layers without dependence on the longitude *)
Section Zonal.
Variables (E : env) (S : state).
Notation all := (List.Forall zonal).
Lemma disco_zonal : forall name ix ci co gi go ks b gr bias c l, disco E S name ix ci co gi go ks b gr bias c = Some l -> zonal l.
Proof. intros. unfold disco in H. bind H v1 H1. bind H v2 H2. bind H v3 H3. bind H v4 H4. injection H as <-. exact I. Qed.
Lemma tdisco_zonal : forall name ix ci co gi go ks b gr bias c l, tdisco E S name ix ci co gi go ks b gr bias c = Some l -> zonal l.
Proof. intros. unfold tdisco in H. bind H v1 H1. bind H v2 H2. bind H v3 H3. bind H v4 H4. injection H as <-. exact I. Qed.
Lemma resampling_zonal : forall gi go m l, resampling E gi go m = Some l -> zonal l.
Proof. intros. unfold resampling in H. bind H v1 H1. injection H as <-. exact I. Qed.
Lemma attention_zonal : forall name ix ci co gi go h nb bias c l, self_attention E S name ix ci co gi go h nb bias c = Some l -> zonal l.
Proof.
  intros. unfold self_attention in H. destruct nb. - bind H v1 H1. unfold nattn in H. bind H v2 H2. bind H v3 H3. injection H as <-. exact I. - unfold gattn in H. bind H v2 H2. bind H v3 H3. injection H as <-. exact I.
Qed.
Lemma encoder_zonal : forall gi go ci co ks b ls, encoder E S gi go ci co ks b = Some ls -> all ls.
Proof. intros. unfold encoder in H. bind H v1 H1. bind H v2 H2. injection H as <-. constructor; [eapply disco_zonal; eauto|constructor]. Qed.
Lemma decoder_zonal : forall gi go ci co ks b u ls, decoder E S gi go ci co ks b u = Some ls -> all ls.
Proof.
  intros. unfold decoder in H. bind H v0 H0. bind H v1 H1. bind H v2 H2. injection H as <-. constructor; [|constructor; [eapply disco_zonal; eauto|constructor]].
  destruct u. - bind H0 v3 H3. bind H0 v4 H4. injection H0 as <-. exact I. - eapply resampling_zonal; eauto.
Qed.
Lemma pos_zonal : forall g d p ls, zonal_pos p -> pos_layers E S g d p = Some ls -> all ls.
Proof. intros g d p ls [-> | ->] H; injection H as <-; [constructor|]. constructor; [|constructor]. intros b c y x x' H1 H2. cbn in H1, H2. replace x' with x by lia. reflexivity. Qed.
Lemma block_norm_zonal : forall ix g c k ls, k <> NormLayer -> block_norm S ix g c k = Some ls -> all ls.
Proof. intros ix g c k ls N H. destruct k; try congruence; try discriminate; injection H as <-; repeat constructor. Qed.
Lemma attn_norm_zonal : forall name ix c k ls, attn_norm S name ix c k = Some ls -> all ls.
Proof. intros name ix c k ls H. destruct k; try discriminate; injection H as <-; repeat constructor. Qed.
Lemma skip_zonal : forall name ix ci co e k o, skip_layers S name ix ci co e k = Some o -> all (oflat o).
Proof. intros name ix ci co e k o H. destruct k; cbn in H; try discriminate; try (injection H as <-; repeat constructor). bind H u Hu. injection H as <-. constructor. Qed.
Lemma mlp_zonal : forall ix ci co ratio a (use : bool) ms, (if use then do hid <- py_int (INR ci * ratio)%R; Some (mlp S "blocks.{}.mlp" ix ci hid co a false) else Some []) = Some ms -> all ms.
Proof. intros ix ci co ratio a use ms H. destruct use; [|injection H as <-; constructor]. bind H h Hh. injection H as <-. unfold mlp. repeat constructor. Qed.
Lemma sblock_zonal : forall ix f i ci co ratio a nk k1 k2 um bias b, nk <> NormLayer -> sblock_init S ix f i ci co ratio a nk k1 k2 um bias = Some b -> all (sblock_layers b).
Proof.
  intros ix f i ci co ratio a nk k1 k2 um bias b N H. unfold sblock_init in H. bind H v1 H1. bind H v2 H2. bind H v3 H3. bind H v4 H4. bind H v5 H5. injection H as <-. unfold sblock_layers. cbn [sb_conv sb_norm sb_inner sb_mlp sb_outer].
  repeat (apply List.Forall_app; split). - repeat constructor. - eapply block_norm_zonal; eauto. - eapply skip_zonal; eauto. - eapply mlp_zonal; eauto. - eapply skip_zonal; eauto.
Qed.
Lemma lblock_zonal : forall ix f i ci co gb ratio a nk k1 k2 um ks bt bias b, nk <> NormLayer -> lblock_init E S ix f i ci co gb ratio a nk k1 k2 um ks bt bias = Some b -> all (lblock_layers b).
Proof.
  intros ix f i ci co gb ratio a nk k1 k2 um ks bt bias b N H. unfold lblock_init in H. bind H v1 H1. bind H v2 H2. bind H v3 H3. bind H v4 H4. bind H v5 H5. injection H as <-. unfold lblock_layers. cbn [lb_conv lb_norm lb_inner lb_mlp lb_outer].
  repeat (apply List.Forall_app; split). - constructor; [|constructor]. destruct gb. + bind H1 c Hc. injection H1 as <-. exact I. + bind H1 c Hc. eapply disco_zonal; eauto. - eapply block_norm_zonal; eauto. - eapply skip_zonal; eauto. - eapply mlp_zonal; eauto. - eapply skip_zonal; eauto.
Qed.
Lemma ablock_zonal : forall ix gi go ci co h ratio a nk um bias nb cut b, ablock_init E S ix gi go ci co h ratio a nk um bias nb cut = Some b -> all (ablock_layers b).
Proof.
  intros ix gi go ci co h ratio a nk um bias nb cut b H. unfold ablock_init in H. bind H v1 H1. bind H v2 H2. bind H v3 H3. bind H v4 H4. injection H as <-. unfold ablock_layers. cbn [ab_norm0 ab_attn ab_norm1 ab_mlp].
  repeat (apply List.Forall_app; split). - eapply attn_norm_zonal; eauto. - constructor; [|constructor]. eapply attention_zonal; eauto. - eapply attn_norm_zonal; eauto. - eapply mlp_zonal; eauto.
Qed.
Lemma down_convs_zonal : forall ix gi gt ci co ks b a n i ls, down_convs E S ix gi gt ci co ks b a i n = Some ls -> all ls.
Proof.
  intros ix gi gt ci co ks b a. induction n; intros i ls H; cbn [down_convs] in H. { injection H as <-. constructor. } bind H v1 H1. bind H v2 H2. bind H v3 H3. injection H as <-. constructor; [eapply disco_zonal; eauto|]. constructor; [exact I|]. constructor; [exact I|eauto].
Qed.
Lemma conv_list_zonal : forall (c : bool) name ix ci co, all (if c then [conv1 S name ix ci co true] else []).
Proof. intros []; repeat constructor. Qed.
Lemma dblock_zonal : forall ix gi go ci co nrep ks b a ts m d, dblock_init E S ix gi go ci co nrep ks b a ts m = Some d -> all (dblock_layers d).
Proof.
  intros ix gi go ci co nrep ks b a ts m d H. unfold dblock_init in H. bind H v1 H1. bind H v2 H2. injection H as <-. unfold dblock_layers. cbn [db_skip db_fwd db_down]. repeat (apply List.Forall_app; split). - apply conv_list_zonal. - eapply down_convs_zonal; eauto.
  - constructor; [|constructor]. destruct m. + bind H2 c Hc. eapply disco_zonal; eauto. + eapply resampling_zonal; eauto.
Qed.
Lemma ublock_zonal : forall ix gi go ci co ks b a ts m u, ublock_init E S ix gi go ci co ks b a ts m = Some u -> all (ublock_layers u).
Proof.
  intros ix gi go ci co ks b a ts m u H. unfold ublock_init in H. bind H v1 H1. bind H v2 H2. bind H v3 H3. injection H as <-. unfold ublock_layers. cbn [ub_skip ub_fwd ub_up]. repeat (apply List.Forall_app; split). - apply conv_list_zonal.
  - constructor; [eapply disco_zonal; eauto|repeat constructor].
  - destruct (negb (same_shape gi go)). + destruct m. * bind H1 c Hc. bind H1 t Ht. bind H1 l Hl. injection H1 as <-. constructor; [eapply tdisco_zonal; eauto|]. do 2 (constructor; [exact I|]). constructor; [eapply disco_zonal; eauto|constructor].
      * bind H1 r Hr. injection H1 as <-. constructor; [eapply resampling_zonal; eauto|constructor].
    + bind H1 c Hc. bind H1 l Hl. injection H1 as <-. constructor; [eapply disco_zonal; eauto|constructor].
Qed.
Lemma wblock_zonal : forall ix g c h ks b a nb bias cut w, wblock_init E S ix g c h ks b a nb bias cut = Some w -> all (wblock_layers w).
Proof.
  intros ix g c h ks b a nb bias cut w H. unfold wblock_init in H. bind H v1 H1. bind H v2 H2. bind H v3 H3. injection H as <-. unfold wblock_layers. cbn [wb_norm wb_attn wb_fnorm wb_in wb_conv wb_act wb_out].
  constructor; [exact I|]. constructor; [eapply attention_zonal; eauto|]. do 2 (constructor; [exact I|]). constructor; [eapply disco_zonal; eauto|]. repeat constructor.
Qed.
Lemma mapM_layers : forall (X Y : Type) (f : X -> option Y) (lay : Y -> list layer) l r, (forall x y, In x l -> f x = Some y -> all (lay y)) -> mapM f l = Some r -> all (flat_map lay r).
Proof.
  intros X Y f lay. induction l; intros r H M; cbn [mapM] in M. { injection M as <-. constructor. } bind M y Hy. bind M r' Hr. injection M as <-. cbn [flat_map]. apply List.Forall_app. split. - eapply H; eauto. left; auto. - apply IHl; auto. intros x y0 Hx. apply H. right; auto.
Qed.
Lemma tblock_zonal : forall ix gi go ci co nrep h ks b a nb bias cut t, tblock_init E S ix gi go ci co nrep h ks b a nb bias cut = Some t -> all (tblock_layers t).
Proof.
  intros ix gi go ci co nrep h ks b a nb bias cut t H. unfold tblock_init in H. bind H v1 H1. bind H v2 H2. bind H v3 H3. injection H as <-. unfold tblock_layers. cbn [tb_merge tb_reps tb_norm]. repeat (apply List.Forall_app; split).
  - constructor; [eapply disco_zonal; eauto|repeat constructor]. - eapply mapM_layers; [|eassumption]. intros j w _ Hw. eapply wblock_zonal; exact Hw. - repeat constructor.
Qed.
Lemma upsampling_zonal : forall ix gi go ci co ks b m ls, upsampling E S ix gi go ci co ks b m = Some ls -> all ls.
Proof.
  intros ix gi go ci co ks b m ls H. unfold upsampling in H. bind H v1 H1. injection H as <-. constructor; [exact I|]. constructor; [|constructor]. destruct m; try discriminate. - bind H1 c Hc. eapply tdisco_zonal; eauto. - eapply resampling_zonal; eauto.
Qed.

Theorem sfno_zonal : forall A n, sfno_init E S A = Some n -> zonal_pos (sa_pos A) -> sa_norm A <> NormLayer -> all (sfno_layers n).
Proof.
  intros A n H P N. unfold sfno_init in H. bind H a Ha. bind H inner Hin. bind H ps Hp. bind H u Hu. bind H md Hmd. bind H dn Hdn. bind H up0 Hup. bind H tr Htr. bind H it Hit. bind H bs0 Hbs. bind H u' Hu'. injection H as <-.
  unfold sfno_layers. cbn [sf_enc sf_pos sf_blocks sf_dec sf_res]. repeat (apply List.Forall_app; split). - repeat constructor. - eapply pos_zonal; eauto. - eapply mapM_layers; [|eassumption]. intros i b _ Hb. eapply sblock_zonal; [|exact Hb]; auto. - repeat constructor.
  - destruct (sa_residual A); cbn [oflat]; [|constructor]. destruct (sa_in A =? sa_out A); repeat constructor.
Qed.
Theorem lsno_zonal : forall A n, lsno_init E S A = Some n -> zonal_pos (la_pos A) -> la_norm A <> NormLayer -> all (lsno_layers n).
Proof.
  intros A n H P N. unfold lsno_init in H. bind H a Ha. bind H inner Hin. bind H ps Hp. bind H en Hen. bind H md Hmd. bind H tr Htr. bind H it Hit. bind H bs0 Hbs. bind H de Hde. injection H as <-.
  unfold lsno_layers. cbn [ls_enc ls_pos ls_blocks ls_dec]. repeat (apply List.Forall_app; split). - eapply encoder_zonal; eauto. - eapply pos_zonal; eauto. - eapply mapM_layers; [|eassumption]. intros i b _ Hb. cbv beta in Hb. bind Hb v Hv. eapply lblock_zonal; eauto. - eapply decoder_zonal; eauto.
Qed.
Theorem strans_zonal : forall A n, strans_init E S A = Some n -> zonal_pos (ta_pos A) -> all (strans_layers n).
Proof.
  intros A n H P. unfold strans_init in H. bind H a Ha. bind H inner Hin. bind H ps Hp. bind H en Hen. bind H bs0 Hbs. bind H de Hde. injection H as <-.
  unfold strans_layers. cbn [st_enc st_pos st_blocks st_dec]. repeat (apply List.Forall_app; split). - eapply encoder_zonal; eauto. - eapply pos_zonal; eauto. - eapply mapM_layers; [|eassumption]. intros i b _ Hb. eapply ablock_zonal; exact Hb. - eapply decoder_zonal; eauto.
Qed.
Lemma dblocks_zonal : forall A a dims i gi ci ds, dblocks_init E S A a i gi ci dims = Some ds -> all (flat_map dblock_layers ds).
Proof.
  intros A a. induction dims as [|(c, n) dims IH]; intros i gi ci ds H; cbn [dblocks_init] in H. { injection H as <-. constructor. } bind H b Hb. bind H r Hr. injection H as <-. cbn [flat_map]. apply List.Forall_app. split; [eapply dblock_zonal; eauto|eauto].
Qed.
Theorem unet_zonal : forall A n, unet_init E S A = Some n -> all (unet_layers n).
Proof.
  intros A n H. unfold unet_init in H. bind H u Hu. bind H a Ha. bind H ds Hd. bind H us Hus. injection H as <-. unfold unet_layers. cbn [un_d un_u un_head]. repeat (apply List.Forall_app; split). - eapply dblocks_zonal; eauto.
  - unfold ublocks_init in Hus. bind Hus us' Hus'. injection Hus as <-. eapply mapM_layers; [|eassumption]. intros (i, b) y _ Hy. eapply ublock_zonal; exact Hy. - repeat constructor.
Qed.
Lemma tblocks_zonal : forall A a dims i gi ci ts, tblocks_init E S A a i gi ci dims = Some ts -> all (flat_map tblock_layers ts).
Proof.
  intros A a. induction dims as [|((c, h), n) dims IH]; intros i gi ci ds H; cbn [tblocks_init] in H. { injection H as <-. constructor. } bind H b Hb. bind H r Hr. injection H as <-. cbn [flat_map]. apply List.Forall_app. split; [eapply tblock_zonal; eauto|eauto].
Qed.
Theorem seg_zonal : forall A n, seg_init E S A = Some n -> all (seg_layers n).
Proof.
  intros A n H. unfold seg_init in H. bind H u Hu. bind H a Ha. bind H ts Ht. bind H us Hus. injection H as <-. unfold seg_layers. cbn [sg_blocks sg_ups sg_head]. repeat (apply List.Forall_app; split). - eapply tblocks_zonal; eauto.
  - rewrite <- (map_id us), <- flat_map_concat_map. eapply mapM_layers; [|eassumption]. intros (i, (b, c)) y _ Hy. eapply upsampling_zonal; exact Hy. - repeat constructor.
Qed.
End Zonal.

(** ** The networks *)
Section Net.
Variables (E : env) (B : nat).
Hypothesis HB : 1 <= B.
Hypothesis Hop : op_correct (e_op E).
Lemma gok1 : forall g, grid_ok (e_gl E) g -> gok E 1 g. Proof. intros g G. split; [auto|apply Nat.mod_1_r]. Qed.
Lemma all_gok1 : forall l, List.Forall (grid_ok (e_gl E)) l -> List.Forall (gok E 1) l. Proof. intros l F. eapply Forall_impl; [|exact F]. apply gok1. Qed.
Lemma good_filters : forall n ls, List.Forall (good E n True) ls -> List.Forall filter_ready ls.
Proof. intros n ls F. eapply Forall_impl; [|exact F]. intros l (_ & _ & G). auto. Qed.
Lemma rotates_maps : forall f ls ci g co, rotates B f ls ci g co g 1 0 -> maps_images f B ci co g.
Proof. intros f ls ci g co H x Hx. destruct (H (or_introl eq_refl) x Hx) as (y & _ & H1 & _ & H2 & _). eauto. Qed.
Lemma rotates_commutes : forall f ls ci g co n k, List.Forall zonal ls -> rotates B f ls ci g co g n k -> commutes f B ci g n k.
Proof. intros f ls ci g co n k Z H x Hx. destruct (H (or_intror Z) x Hx) as (y & y' & H1 & H2 & _ & H3). eauto. Qed.

Theorem sfno_works : forall S A, sfno_ok (e_gl E) A -> exists nt, sfno_init E S A = Some nt /\ maps_images (sfno_run E nt) B (sa_in A) (sa_out A) (sa_img A) /\
  (forall n k, 1 <= n -> g_nlon (sa_img A) mod n = 0 -> g_nlon (sfno_inner A) mod n = 0 -> zonal_pos (sa_pos A) -> sa_norm A <> NormLayer -> commutes (sfno_run E nt) B (sa_in A) (sa_img A) n k).
Proof.
  intros S A OK. destruct (sfno_total E S A OK) as (nt & H). exists nt. split; [auto|]. destruct OK as [Gi Gn Ti Tn Sc Mo Ra Ac No Po In Em].
  destruct (sfno_built E S false 1 True A nt H (gok1 _ Gi) (gok1 _ Gn) Mo ltac:(discriminate)) as (GD & _). apply good_filters in GD. split.
  - eapply rotates_maps. apply (sfno_rotates E B HB Hop S A nt 1 0); auto using gok1.
  - intros n k Hn H1 H2 P N. eapply rotates_commutes; [eapply sfno_zonal; eauto|]. apply (sfno_rotates E B HB Hop S A nt n k); auto; split; auto.
Qed.
Theorem lsno_works : forall S A, lsno_ok (e_gl E) A -> exists nt, lsno_init E S A = Some nt /\ maps_images (lsno_run E nt) B (la_in A) (la_out A) (la_img A) /\
  (forall n k, 1 <= n -> g_nlon (la_img A) mod n = 0 -> g_nlon (lsno_inner A) mod n = 0 -> zonal_pos (la_pos A) -> la_norm A <> NormLayer -> commutes (lsno_run E nt) B (la_in A) (la_img A) n k).
Proof.
  intros S A OK. destruct (lsno_total E S A OK) as (nt & H). exists nt. split; [auto|]. destruct OK as [Gi Gn Ti Tn Wd Ek Ks Fr Sc Mo Ra Ac No Po Re In Em].
  destruct (lsno_built E S false 1 True A nt H (gok1 _ Gi) (gok1 _ Gn) Mo Re ltac:(auto)) as (GD & _). apply good_filters in GD. split.
  - eapply rotates_maps. apply (lsno_rotates E B HB Hop S A nt 1 0); auto using gok1.
  - intros n k Hn H1 H2 P N. eapply rotates_commutes; [eapply lsno_zonal; eauto|]. apply (lsno_rotates E B HB Hop S A nt n k); auto; split; auto.
Qed.
Theorem strans_works : forall S A, strans_ok (e_gl E) A -> exists nt, strans_init E S A = Some nt /\ maps_images (strans_run E nt) B (ta_in A) (ta_out A) (ta_img A) /\
  (forall n k, 1 <= n -> g_nlon (ta_img A) mod n = 0 -> g_nlon (strans_inner A) mod n = 0 -> zonal_pos (ta_pos A) -> commutes (strans_run E nt) B (ta_in A) (ta_img A) n k).
Proof.
  intros S A OK. destruct (strans_total E S A OK) as (nt & H). exists nt. split; [auto|]. destruct OK as [Gi Gn Ti Tn Wd Ek Hh Hd Hc Sc Ra Ac No Po Re In Em].
  destruct (strans_built E S false 1 True A nt H (gok1 _ Gi) (gok1 _ Gn) Re ltac:(auto)) as (GD & _). apply good_filters in GD. split.
  - eapply rotates_maps. apply (strans_rotates E B HB Hop S A nt 1 0); auto using gok1.
  - intros n k Hn H1 H2 P. eapply rotates_commutes; [eapply strans_zonal; eauto|]. apply (strans_rotates E B HB Hop S A nt n k); auto; split; auto.
Qed.
Lemma both : forall n l, List.Forall (grid_ok (e_gl E)) l -> List.Forall (fun g => g_nlon g mod n = 0) l -> List.Forall (gok E n) l.
Proof. intros n l F1 F2. apply Forall_forall. intros g Hg. split. exact (proj1 (Forall_forall _ _) F1 g Hg). exact (proj1 (Forall_forall _ _) F2 g Hg). Qed.
Theorem unet_works : forall S A, unet_ok (e_gl E) A -> exists nt, unet_init E S A = Some nt /\ maps_images (unet_run E nt) B (ua_in A) (ua_out A) (ua_img A) /\
  (forall n k, 1 <= n -> List.Forall (fun g => g_nlon g mod n = 0) (unet_levels A) -> commutes (unet_run E nt) B (ua_in A) (ua_img A) n k).
Proof.
  intros S A OK. destruct (unet_total E S A OK) as (nt & H). exists nt. split; [auto|]. destruct OK as [G Tg Ti N FK Le So Di De Sc Ac In Dn Up].
  destruct (unet_built E S false 1 True A nt H (all_gok1 _ G) De ltac:(discriminate) ltac:(auto)) as (GD & _). apply good_filters in GD. split.
  - eapply rotates_maps. apply (unet_rotates E B HB Hop S A nt 1 0); auto using all_gok1.
  - intros n k Hn H1. eapply rotates_commutes; [eapply unet_zonal; eauto|]. apply (unet_rotates E B HB Hop S A nt n k); auto. apply both; auto.
Qed.
Theorem seg_works : forall S A, seg_ok (e_gl E) A -> exists nt, seg_init E S A = Some nt /\ maps_images (seg_run E nt) B (ga_in A) (ga_out A) (ga_img A) /\
  (forall n k, 1 <= n -> List.Forall (fun g => g_nlon g mod n = 0) (seg_levels A) -> commutes (seg_run E nt) B (ga_in A) (ga_img A) n k).
Proof.
  intros S A OK. destruct (seg_total E S A OK) as (nt & H). exists nt. split; [auto|]. destruct OK as [G Tg Ti N FK Le Lh So Di Cu Sc Ac In Up].
  destruct (seg_built E S false 1 True A nt H (all_gok1 _ G) So ltac:(auto)) as (GD & _). apply good_filters in GD. split.
  - eapply rotates_maps. apply (seg_rotates E B HB Hop S A nt 1 0); auto using all_gok1.
  - intros n k Hn H1. eapply rotates_commutes; [eapply seg_zonal; eauto|]. apply (seg_rotates E B HB Hop S A nt n k); auto. apply both; auto.
Qed.
End Net.
