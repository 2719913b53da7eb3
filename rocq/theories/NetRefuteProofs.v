(** Where the example networks do not behave as expected. *)
From Coq Require Import String List Arith Lia Bool Reals ZArith Lra.
From Coquelicot Require Import Coquelicot.
From Verif Require LossProofs.
From Verif Require Import TensorModel TensorProofs BigSum TruncModel QuadModel FFTModel SHTModel SHTSpec ResampleModel ResampleSpec FilterModel DiscoModel PsiModel PsiProofs AttnModel AttnSpec AttnLayerModel AttnLayerSpec AttnLayerProofs
  NetModel NetModels NetSpec NetParProofs NetReadyProofs NetReachProofs NetKindProofs NetKindProofs2 NetKindProofs3 NetProofs NetTotalProofs NetTotalProofs2 NetTotalProofs3 NetProofs2.
Import ListNotations.
Local Open Scope list_scope.
Local Open Scope nat_scope.

Lemma equi_ok : forall gl h w, 2 <= h -> 2 <= w -> grid_ok gl (mkG h w GEquiangular).
Proof. intros gl h w H1 H2. constructor; cbn [g_nlat g_nlon g_type]; auto. intros q Eq i Hi. eapply LossProofs.lat_weights_positive; eauto; discriminate. Qed.

(** ** Layers used on grids they were not built for *)
Lemma type_neq : forall a b, a <> b -> same_type a b = false. Proof. intros [] [] H; try reflexivity; congruence. Qed.
Theorem unet_grid_mismatch : forall E S A n d ds, unet_init E S A = Some n -> ua_depths A = Datatypes.S d :: ds -> g_type (ua_img A) <> ua_gint A -> unet_kind true n (mkK (ua_in A) (ua_img A)) = None.
Proof.
  intros E S A n d ds H D T. unfold unet_init in H. bind H u0 G0. bind H a Ha. bind H dbs Hd. bind H us Hu. injection H as <-. rewrite D in *. apply PsiProofs.guard_some in G0. destruct (ua_dims A) as [|c cs] eqn:ED; [discriminate|].
  cbn [List.combine dblocks_init] in Hd. bind Hd b Hb. bind Hd r Hr. injection Hd as <-. unfold dblock_init in Hb. bind Hb fw Hfw. bind Hb dn Hdn. injection Hb as <-. cbn [down_convs] in Hfw. bind Hfw cr Hcr. bind Hfw l Hl. bind Hfw rr Hrr. injection Hfw as <-.
  unfold unet_kind, unet_forward. cbn [un_d features]. unfold dblock_forward at 1. cbn [db_skip db_fwd db_down seqrun].
  assert (F : fit true l (mkK (ua_in A) (ua_img A)) = None).
  { unfold disco in Hl. bind Hl v1 H1. bind Hl v2 H2. bind Hl v3 H3. bind Hl v4 H4. injection Hl as <-. cbn [fit k_g k_ch]. unfold same_grid. cbn [g_type half]. rewrite type_neq by congruence. cbn [negb orb]. rewrite !andb_false_r. reflexivity. }
  rewrite F. cbn [bindo]. destruct (seqrun _ _ _); reflexivity.
Qed.
Definition keeps (l : layer) : Prop := match l with LConv1 _ _ | LAct _ | LBatch _ _ _ _ _ | LInst _ _ _ | LChan _ _ _ _ | LPlane _ _ _ | LPos _ => True | _ => False end.
Lemma keeps_grid : forall ls t t', List.Forall keeps ls -> seqrun (fit true) ls t = Some t' -> k_g t' = k_g t.
Proof.
  induction ls as [|l ls IH]; intros t t' K H; cbn [seqrun] in H. { injection H as <-. auto. } apply Forall_cons_iff in K. destruct K as (K & K'). bind H t1 H1. rewrite (IH _ _ K' H). destruct l; cbn in K; try contradiction; cbn [fit] in H1; try (bind H1 u Hu); injection H1 as <-; reflexivity.
Qed.
Theorem sfno_grid_mismatch : forall E S A n, sfno_init E S A = Some n -> 2 <= sa_layers A -> same_shape (sa_img A) (sfno_inner A) = true -> g_type (sa_img A) <> sa_gint A -> sfno_kind true n (mkK (sa_in A) (sa_img A)) = None.
Proof.
  intros E S A n H L SH T. unfold sfno_init in H. bind H a Ha. bind H inner Hin. bind H ps Hp. bind H u Hu. bind H md Hmd. bind H dn Hdn. bind H up0 Hup. bind H tr Htr. bind H it Hit. bind H bs0 Hbs. bind H u' Hu'. injection H as <-.
  apply inner_grid_eq in Hin. change (inner = sfno_inner A) in Hin. subst inner.
  assert (PK : List.Forall keeps ps). { unfold pos_layers in Hp. destruct (sa_pos A); try discriminate; try (injection Hp as <-; repeat constructor). bind Hp e He. injection Hp as <-. repeat constructor. }
  unfold sfno_kind, sfno_forward. cbn [sf_enc sf_pos sf_blocks sf_dec sf_res]. cbn [seqrun]. rewrite conv1_kind. cbn [bindo]. destruct (seqrun (fit true) ps _) as [t|] eqn:Et; [|reflexivity]. apply keeps_grid in Et; auto. cbn [k_g] in Et. cbn [bindo].
  destruct (sa_layers A) as [|[|m]] eqn:EL; [lia|lia|]. cbn [seq mapM] in Hbs. bind Hbs b Hb. bind Hbs r Hr. injection Hbs as <-. cbn [foldM]. replace (0 =? Datatypes.S (Datatypes.S m) - 1) with false in Hb by (symmetry; apply Nat.eqb_neq; lia). cbn [Nat.eqb] in Hb.
  assert (F : sblock_forward (fit true) (kadd true) b t = None); [|rewrite F; reflexivity].
  unfold sblock_init in Hb. bind Hb v1 H1. bind Hb v2 H2. bind Hb v3 H3. bind Hb v4 H4. bind Hb v5 H5. injection Hb as <-. unfold sblock_forward. cbn [sb_conv sb_norm sb_inner sb_mlp sb_outer].
  unfold sconvx_init in H1. bind H1 w0 Hw0. bind H1 w1 Hw1. injection H1 as <-. rewrite (sht_grid _ _ _ _ _ Hdn), (isht_grid _ _ _ _ _ Hit) in *. cbn [skip_layers] in H2. injection H2 as <-. cbn [skip_layers] in H5. bind H5 w2 Hw2. injection H5 as <-.
  cbn [fit sx_gi sx_go sx_w]. rewrite SH. match goal with |- context [guard ?c] => destruct c end; cbn [guard bindo]; [|reflexivity]. cbn [bindo add_skip seqrun].
  destruct (seqrun (fit true) v3 _) as [y|] eqn:Ey; [|reflexivity]. cbn [bindo]. apply keeps_grid in Ey; [|destruct (sa_norm A); try discriminate; injection H3 as <-; repeat constructor]. cbn [k_g] in Ey.
  destruct (seqrun (fit true) v4 _) as [z|] eqn:Ez; [|reflexivity]. cbn [bindo]. apply keeps_grid in Ez; [|destruct (sa_mlp A); [bind H4 w3 Hw3|]; injection H4 as <-; repeat constructor].
  unfold kadd, same_grid. rewrite Ez, Ey, Et. cbn [sfno_inner internal g_type]. rewrite type_neq by congruence. cbn [negb orb]. rewrite !andb_false_r. reflexivity.
Qed.

(** ** residual_prediction with different numbers of channels *)
Definition lsno_plain (A : lsno_args) : lsno_args := mkLsnoA (la_img A) (la_gint A) (la_scale A) (la_in A) (la_out A) (la_embed A) (la_layers A) (la_act A) (la_ks A) (la_eks A) (la_basis A) (la_mlp A) (la_ratio A) (la_norm A) (la_freq A) (la_frac A) false (la_pos A) (la_upsht A) (la_bias A).
Lemma badd4 : forall B c d h w (x y : tensor R), shp x = [B; c; h; w] -> shp y = [B; d; h; w] ->
  match badd x y with Some z => (c = d \/ d = 1 \/ c = 1) /\ shp z = [B; if (c =? d) || (d =? 1) then c else d; h; w] | None => c <> d /\ c <> 1 /\ d <> 1 end.
Proof.
  intros B c d h w x y Hx Hy. unfold badd. rewrite Hx, Hy. cbn [bshape bindo]. rewrite !Nat.eqb_refl. cbn [bindo]. destruct (Nat.eqb_spec c d); cbn [bindo orb]. { auto. } destruct (Nat.eqb_spec c 1), (Nat.eqb_spec d 1); cbn [bindo]; subst; try congruence; auto.
Qed.
Theorem lsno_residual : forall E B S A, 1 <= B -> op_correct (e_op E) -> lsno_ok (e_gl E) (lsno_plain A) -> la_residual A = true -> exists nt, lsno_init E S A = Some nt /\
  forall x, shp x = kshape_of B (mkK (la_in A) (la_img A)) ->
  match lsno_run E nt x with
  | Some y => shp y = kshape_of B (mkK (if (la_out A =? la_in A) || (la_in A =? 1) then la_out A else la_in A) (la_img A)) /\ (la_out A = la_in A \/ la_in A = 1 \/ la_out A = 1)
  | None => la_out A <> la_in A /\ la_out A <> 1 /\ la_in A <> 1
  end.
Proof.
  intros E B S A HB Hop OK HR. destruct (lsno_works E B HB Hop S _ OK) as (n0 & H0 & M & _). exists (mkLsno (ls_enc n0) (ls_pos n0) (ls_blocks n0) (ls_dec n0) true). split.
  - unfold lsno_init in *. cbn [lsno_plain la_img la_gint la_scale la_in la_out la_embed la_layers la_act la_ks la_eks la_basis la_mlp la_ratio la_norm la_freq la_frac la_residual la_pos la_upsht la_bias] in H0.
    bind H0 a Ha. bind H0 inner Hin. bind H0 ps Hp. bind H0 en Hen. bind H0 md Hmd. bind H0 tr Htr. bind H0 it Hit. bind H0 bs0 Hbs. bind H0 de Hde. injection H0 as <-. rewrite Ha. cbn [bindo]. rewrite Hin. cbn [bindo]. rewrite Hp. cbn [bindo]. rewrite Hen. cbn [bindo]. rewrite Hmd. cbn [bindo]. rewrite Htr. cbn [bindo]. rewrite Hit. cbn [bindo]. rewrite Hbs. cbn [bindo]. rewrite Hde. cbn [bindo]. rewrite HR. reflexivity.
  - intros x Hx. destruct (M x Hx) as (y & Hy & Sy). assert (R0 : ls_res n0 = false). { unfold lsno_init in H0. bind H0 a Ha. bind H0 inner Hin. bind H0 ps Hp. bind H0 en Hen. bind H0 md Hmd. bind H0 tr Htr. bind H0 it Hit. bind H0 bs0 Hbs. bind H0 de Hde. injection H0 as <-. reflexivity. }
    assert (RN : lsno_run E (mkLsno (ls_enc n0) (ls_pos n0) (ls_blocks n0) (ls_dec n0) true) x = badd y x).
    { unfold lsno_run, lsno_forward in *. cbn [ls_enc ls_pos ls_blocks ls_dec ls_res]. rewrite R0 in Hy. destruct (seqrun _ (ls_enc n0) x) as [y1|]; [|discriminate]. cbn [bindo] in *. destruct (seqrun _ (ls_pos n0) y1) as [y2|]; [|discriminate]. cbn [bindo] in *.
      destruct (foldM _ _ y2) as [y3|]; [|discriminate]. cbn [bindo] in *. destruct (seqrun _ (ls_dec n0) y3) as [y4|]; [|discriminate]. cbn [bindo] in *. injection Hy as ->. reflexivity. }
    rewrite RN. pose proof (badd4 _ _ _ _ _ _ _ Sy Hx) as Q. cbn [k_ch k_g lsno_plain la_out la_in] in Q. destruct (badd y x); [|exact Q]. destruct Q as (Q1 & Q2). split; [exact Q2|tauto].
Qed.

(** ** Embeddings and norms that depend on the longitude *)
Definition sfno_small (pos : posembed) (norm : normkind) (layers : nat) : sfno_args := mkSfnoA (mkG 4 8 GEquiangular) GEquiangular 2 1 1 1 layers ActRelu false 0%R norm 1%R false pos false.
Lemma sfno_small_ok : forall gl pos norm layers, table_pos pos -> norm <> NormUnknown -> sfno_ok gl (sfno_small pos norm layers).
Proof.
  intros gl pos norm layers P N. constructor; cbn [sfno_small sfno_inner internal sa_img sa_gint sa_scale sa_in sa_out sa_embed sa_layers sa_act sa_mlp sa_ratio sa_norm sa_frac sa_residual sa_pos sa_bias g_nlat g_nlon]; auto; try lra; try discriminate.
  - apply equi_ok; lia.
  - apply equi_ok; cbn; lia.
  - unfold modes_kept. cbn [g_nlat g_nlon]. match goal with |- (_ <= INR ?a * _)%R => change a with 2 end. cbn [INR]. lra.
Qed.
(** the encoder is 0, the decoder the identity and the embedding grows with the longitude *)
Definition bare_state : state := mkSt (fun name _ j => if String.eqb name "decoder.0.weight" then 1%R else if String.eqb name "pos_embed.position_embeddings" then INR (nth 3 j 0) else 0%R) (fun _ _ _ => RtoC 0).
Lemma bare_run : forall E pos e, table_pos pos -> pos_layers E bare_state (mkG 4 8 GEquiangular) 1 pos = Some [LPos e] -> shp e = [1; 1; 4; 8] -> val e [0; 0; 0; 0] <> val e [0; 0; 0; 1] ->
  exists nt, sfno_init E bare_state (sfno_small pos NormNone 0) = Some nt /\ ~ commutes (sfno_run E nt) 1 1 (mkG 4 8 GEquiangular) 8 7.
Proof.
  intros E pos e P HP He Hv. destruct (sfno_total E bare_state _ (sfno_small_ok (e_gl E) pos NormNone 0 P ltac:(discriminate))) as (nt & H). exists nt. split; [auto|]. intros C0.
  unfold sfno_init in H. cbn [sfno_small sa_img sa_gint sa_scale sa_in sa_out sa_embed sa_layers sa_act sa_mlp sa_ratio sa_norm sa_frac sa_residual sa_pos sa_bias] in H. bind H a Ha. bind H inner Hin. bind H ps Hp. bind H u Hu. bind H md Hmd. bind H dn Hdn. bind H up0 Hup. bind H tr Htr. bind H it Hit. bind H bs0 Hbs. bind H u' Hu'. injection H as <-.
  rewrite HP in Hp. injection Hp as <-. cbn [seq mapM] in Hbs. injection Hbs as <-.
  assert (R0 : forall x, shp x = [1; 1; 4; 8] -> exists y, sfno_run E (mkSfno [conv1 bare_state "encoder.0" [] 1 1 false] [LPos e] [] [conv1 bare_state "decoder.0" [] 1 1 false] None) x = Some y /\ shp y = [1; 1; 4; 8] /\ forall j, j < 8 -> val y [0; 0; 0; j] = val e [0; 0; 0; j]).
  { intros x Hx. unfold sfno_run, sfno_forward. cbn [sf_enc sf_pos sf_blocks sf_dec sf_res]. cbn [seqrun run foldM bindo add_skip]. unfold conv1 at 1. cbn [run]. unfold conv1x1 at 1, ndim, dimsz. rewrite Hx. cbn [length nth shp Nat.eqb shape_eqb andb bias_ok guard bindo].
    unfold badd. cbn [shp]. rewrite He. cbn [bshape bindo Nat.eqb]. unfold conv1. cbn [run]. unfold conv1x1, ndim, dimsz. cbn [length nth shp Nat.eqb shape_eqb andb bias_ok guard bindo].
    eexists. split; [reflexivity|]. cbn [shp val]. split; [reflexivity|]. intros j Hj. cbn [nth bidx Nat.eqb bias_at rsum bare_state st_r]. cbn. ring. }
  specialize (C0 (mkT [1; 1; 4; 8] (fun _ => 0%R)) eq_refl). destruct C0 as (y & y' & Y1 & Y2 & T).
  destruct (R0 (mkT [1; 1; 4; 8] (fun _ => 0%R)) eq_refl) as (z & Z1 & Z2 & Z3). destruct (R0 (turn 8 7 (mkT [1; 1; 4; 8] (fun _ => 0%R))) eq_refl) as (z' & Z1' & Z2' & Z3').
  assert (Some y = Some z) by congruence. assert (Some y' = Some z') by congruence. injection H as ->. injection H0 as ->. apply Hv. rewrite <- (Z3' 0), <- (Z3 1) by lia. destruct T as (_ & T). rewrite (T [0; 0; 0; 0]).
  - unfold turn, roll_last, dimsz, ndim. rewrite Z2. reflexivity.
  - rewrite Z2'. split; [reflexivity|]. intros d Hd. cbn in Hd. destruct d as [|[|[|[|]]]]; cbn; lia.
Qed.
Theorem sequence_breaks : forall E, exists nt, sfno_init E bare_state (sfno_small PosSequence NormNone 0) = Some nt /\ ~ commutes (sfno_run E nt) 1 1 (mkG 4 8 GEquiangular) 8 7.
Proof.
  intros E. eapply (bare_run E PosSequence); [split; discriminate|reflexivity|reflexivity|]. change (sin (INR 0 / Rpower 10000 (2 * INR 0 / INR 1)) <> sin (INR 1 / Rpower 10000 (2 * INR 0 / INR 1)))%R.
  assert (Z : Rpower 10000 (2 * INR 0 / INR 1) = 1%R) by (replace (2 * INR 0 / INR 1)%R with 0%R by (cbn [INR]; field); apply Rpower_O; lra). rewrite Z. cbn [INR]. replace (0 / 1)%R with 0%R by field. replace (1 / 1)%R with 1%R by field. rewrite sin_0. pose proof PI2_1. pose proof (sin_gt_0 1 ltac:(lra) ltac:(lra)). lra.
Qed.
Theorem latlon_breaks : forall E, exists nt, sfno_init E bare_state (sfno_small PosLearnLatLon NormNone 0) = Some nt /\ ~ commutes (sfno_run E nt) 1 1 (mkG 4 8 GEquiangular) 8 7.
Proof. intros E. eapply (bare_run E PosLearnLatLon); [split; discriminate|reflexivity|reflexivity|]. cbn. lra. Qed.
Theorem plane_breaks : forall E, exists S l, block_norm S [0] (mkG 4 8 GEquiangular) 1 NormLayer = Some [l] /\ ~ commutes (run E l) 1 1 (mkG 4 8 GEquiangular) 8 7.
Proof.
  intros E. exists (mkSt (fun name _ j => if String.eqb name "blocks.{}.norm.bias" then INR (nth 1 j 0) else 0%R) (fun _ _ _ => RtoC 0)). eexists. split; [reflexivity|]. intros C0.
  specialize (C0 (mkT [1; 1; 4; 8] (fun _ => 0%R)) eq_refl). destruct C0 as (y & y' & Y1 & Y2 & _ & T). cbn [run] in Y1, Y2. unfold plane_norm in Y1, Y2. bind Y1 u1 H1. bind Y2 u2 H2. injection Y1 as <-. injection Y2 as <-.
  specialize (T [0; 0; 0; 0]). assert (V : valid [1; 1; 4; 8] [0; 0; 0; 0]). { split; [reflexivity|]. intros d Hd. cbn in Hd. destruct d as [|[|[|[|]]]]; cbn; lia. } specialize (T V). unfold turn, roll_last, dimsz, ndim in T.
  cbn [shp length nth upd] in T. cbn [val nth st_r String.eqb] in T. cbn in T. lra.
Qed.

(** ** Small configurations of the other networks *)
Definition lsno_small : lsno_args := mkLsnoA (mkG 4 8 GEquiangular) GEquiangular 2 2 2 2 3 ActGelu (KList [2; 2]) (KList [3; 2]) BMorlet true 2%R NormInstance 2 1%R true PosLearnLat false true.
Lemma lsno_small_ok : forall gl, lsno_ok gl lsno_small.
Proof.
  intros gl. constructor; try (cbn; lra); try (cbn; lia); try discriminate; try reflexivity; try (split; discriminate).
  - apply equi_ok; cbn; lia. - apply equi_ok; cbn; lia.
  - unfold modes_kept. match goal with |- (_ <= INR ?a * ?b)%R => change a with 2; change b with 1%R end. cbn [INR]. lra.
Qed.
Definition strans_small : strans_args := mkStransA (mkG 4 8 GEquiangular) GEquiangular 2 2 3 4 2 ActRelu (KList [2]) BZernike 2 true 2%R NormLayer false PosNone true true false None.
Lemma strans_small_ok : forall gl, strans_ok gl strans_small.
Proof.
  intros gl. constructor; try (cbn; lra); try (cbn; lia); try discriminate; try reflexivity; try (split; discriminate).
  - apply equi_ok; cbn; lia. - apply equi_ok; cbn; lia.
Qed.
Definition unet_small : unet_args := mkUnetA (mkG 8 16 GEquiangular) GEquiangular 3 2 [4; 6] [1; 2] 2 ActRelu (KList [2; 2]) BMorlet true SConv SConv.
Lemma unet_small_ok : forall gl, unet_ok gl unet_small.
Proof.
  intros gl. constructor; try (cbn; lra); try (cbn; lia); try discriminate; try reflexivity.
  - cbn. repeat (constructor; [apply equi_ok; cbn; lia|]). constructor.
  all: repeat (constructor; [lia|]); constructor.
Qed.
Definition seg_small : seg_args := mkSegA (mkG 8 16 GEquiangular) GEquiangular 3 2 [4; 6] [2; 3] [1; 2] 2 ActGelu (KList [2; 2]) BMorlet true None UConv true.
Lemma seg_small_ok : forall gl, seg_ok gl seg_small.
Proof.
  intros gl. constructor; try (cbn; lra); try (cbn; lia); try discriminate; try reflexivity.
  - cbn. repeat (constructor; [apply equi_ok; cbn; lia|]). constructor.
  all: cbn; repeat (constructor; [cbn; lia|]); constructor.
Qed.
