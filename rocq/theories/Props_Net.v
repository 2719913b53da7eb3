(** C57, C58: the example networks (SFNO, LSNO, spherical transformer, U-Net, Segformer). *)
From Coq Require Import String List Arith Lia Bool Reals ZArith Lra.
From Coquelicot Require Import Coquelicot.
From Verif Require Import TensorModel TensorProofs BigSum TruncModel QuadModel FFTModel SHTModel SHTSpec ResampleModel FilterModel DiscoModel PsiModel AttnModel AttnLayerModel AttnLayerSpec AttnLayerProofs
  NetModel NetModels NetSpec NetProofs2 NetProofs3 NetRefuteProofs.
Import ListNotations.
Local Open Scope list_scope.
Local Open Scope nat_scope.

(** ** C57: rotations about the polar axis *)

(** For whatever parameters, each of the five networks can be built on the configurations of
    NetSpec and the built network commutes with rotations by k/n of a turn whenever every
    number of longitudes involved is a multiple of n. *)
Theorem C57_sfno : forall E B S A, 1 <= B -> op_correct (e_op E) -> sfno_ok (e_gl E) A -> exists nt, sfno_init E S A = Some nt /\
  (forall n k, 1 <= n -> g_nlon (sa_img A) mod n = 0 -> g_nlon (sfno_inner A) mod n = 0 -> zonal_pos (sa_pos A) -> sa_norm A <> NormLayer -> commutes (sfno_run E nt) B (sa_in A) (sa_img A) n k).
Proof. intros E B S A HB Hop H. destruct (sfno_works E B HB Hop S A H) as (nt & H1 & _ & H2). eauto. Qed.
Theorem C57_lsno : forall E B S A, 1 <= B -> op_correct (e_op E) -> lsno_ok (e_gl E) A -> exists nt, lsno_init E S A = Some nt /\
  (forall n k, 1 <= n -> g_nlon (la_img A) mod n = 0 -> g_nlon (lsno_inner A) mod n = 0 -> zonal_pos (la_pos A) -> la_norm A <> NormLayer -> commutes (lsno_run E nt) B (la_in A) (la_img A) n k).
Proof. intros E B S A HB Hop H. destruct (lsno_works E B HB Hop S A H) as (nt & H1 & _ & H2). eauto. Qed.
Theorem C57_transformer : forall E B S A, 1 <= B -> op_correct (e_op E) -> strans_ok (e_gl E) A -> exists nt, strans_init E S A = Some nt /\
  (forall n k, 1 <= n -> g_nlon (ta_img A) mod n = 0 -> g_nlon (strans_inner A) mod n = 0 -> zonal_pos (ta_pos A) -> commutes (strans_run E nt) B (ta_in A) (ta_img A) n k).
Proof. intros E B S A HB Hop H. destruct (strans_works E B HB Hop S A H) as (nt & H1 & _ & H2). eauto. Qed.
Theorem C57_unet : forall E B S A, 1 <= B -> op_correct (e_op E) -> unet_ok (e_gl E) A -> exists nt, unet_init E S A = Some nt /\
  (forall n k, 1 <= n -> List.Forall (fun g => g_nlon g mod n = 0) (unet_levels A) -> commutes (unet_run E nt) B (ua_in A) (ua_img A) n k).
Proof. intros E B S A HB Hop H. destruct (unet_works E B HB Hop S A H) as (nt & H1 & _ & H2). eauto. Qed.
Theorem C57_segformer : forall E B S A, 1 <= B -> op_correct (e_op E) -> seg_ok (e_gl E) A -> exists nt, seg_init E S A = Some nt /\
  (forall n k, 1 <= n -> List.Forall (fun g => g_nlon g mod n = 0) (seg_levels A) -> commutes (seg_run E nt) B (ga_in A) (ga_img A) n k).
Proof. intros E B S A HB Hop H. destruct (seg_works E B HB Hop S A H) as (nt & H1 & _ & H2). eauto. Qed.

(** Any network that could be built, with any grid types, filter basis and embedding: it maps
    images to images and commutes with rotations if no parameter depends on the longitude. *)
Theorem C57_sfno_built : forall E B, 1 <= B -> op_correct (e_op E) -> forall S A nt, sfno_init E S A = Some nt -> grid_ok (e_gl E) (sa_img A) -> grid_ok (e_gl E) (sfno_inner A) -> modes_kept (sfno_inner A) (sa_frac A) ->
  acts B (sfno_run E nt) (sfno_layers nt) [sa_img A; sfno_inner A] (sa_in A) (sa_out A) (sa_img A).
Proof. exact sfno_any. Qed.
Theorem C57_lsno_built : forall E B, 1 <= B -> op_correct (e_op E) -> forall S A nt, lsno_init E S A = Some nt -> grid_ok (e_gl E) (la_img A) -> grid_ok (e_gl E) (lsno_inner A) -> modes_kept (lsno_inner A) (la_frac A) ->
  (la_residual A = true -> la_in A = la_out A) -> List.Forall filter_ready (lsno_layers nt) -> acts B (lsno_run E nt) (lsno_layers nt) [la_img A; lsno_inner A] (la_in A) (la_out A) (la_img A).
Proof. exact lsno_any. Qed.
Theorem C57_transformer_built : forall E B, 1 <= B -> op_correct (e_op E) -> forall S A nt, strans_init E S A = Some nt -> grid_ok (e_gl E) (ta_img A) -> grid_ok (e_gl E) (strans_inner A) ->
  (ta_residual A = true -> ta_in A = ta_out A) -> List.Forall filter_ready (strans_layers nt) -> acts B (strans_run E nt) (strans_layers nt) [ta_img A; strans_inner A] (ta_in A) (ta_out A) (ta_img A).
Proof. exact strans_any. Qed.
Theorem C57_unet_built : forall E B, 1 <= B -> op_correct (e_op E) -> forall S A nt, unet_init E S A = Some nt -> List.Forall (grid_ok (e_gl E)) (unet_levels A) -> List.Forall (fun d => 1 <= d) (ua_depths A) ->
  List.Forall filter_ready (unet_layers nt) -> acts B (unet_run E nt) (unet_layers nt) (unet_levels A) (ua_in A) (ua_out A) (ua_img A).
Proof. exact unet_any. Qed.
Theorem C57_segformer_built : forall E B, 1 <= B -> op_correct (e_op E) -> forall S A nt, seg_init E S A = Some nt -> List.Forall (grid_ok (e_gl E)) (seg_levels A) -> ga_dims A <> [] ->
  List.Forall filter_ready (seg_layers nt) -> acts B (seg_run E nt) (seg_layers nt) (seg_levels A) (ga_in A) (ga_out A) (ga_img A).
Proof. exact seg_any. Qed.

(** Resampling and both kinds of attention on their own *)
Theorem C57_resampling : forall E B, 1 <= B -> op_correct (e_op E) -> forall gi go mode l c n k, grid_ok (e_gl E) gi -> grid_ok (e_gl E) go -> resampling E gi go mode = Some l -> 1 <= n ->
  g_nlon gi mod n = 0 -> g_nlon go mod n = 0 -> commutes (run E l) B c gi n k.
Proof. exact resampling_commutes. Qed.
Theorem C57_attention : forall E B, 1 <= B -> op_correct (e_op E) -> forall S name ix ci co g heads nb bias cut l n k, grid_ok (e_gl E) g -> self_attention E S name ix ci co g g heads nb bias cut = Some l -> 1 <= n ->
  g_nlon g mod n = 0 -> commutes (run E l) B ci g n k.
Proof. exact attention_commutes. Qed.

(** Embeddings that depend on the longitude break it, as does the norm with one factor per
    pixel. *)
Theorem C57_sequence_refuted : forall E, exists S nt, sfno_init E S (sfno_small PosSequence NormNone 0) = Some nt /\ ~ commutes (sfno_run E nt) 1 1 (mkG 4 8 GEquiangular) 8 7.
Proof. intros E. exists bare_state. apply sequence_breaks. Qed.
Theorem C57_latlon_refuted : forall E, exists S nt, sfno_init E S (sfno_small PosLearnLatLon NormNone 0) = Some nt /\ ~ commutes (sfno_run E nt) 1 1 (mkG 4 8 GEquiangular) 8 7.
Proof. intros E. exists bare_state. apply latlon_breaks. Qed.
Theorem C57_layer_norm_refuted : forall E, exists S l, block_norm S [0] (mkG 4 8 GEquiangular) 1 NormLayer = Some [l] /\ ~ commutes (run E l) 1 1 (mkG 4 8 GEquiangular) 8 7.
Proof. exact plane_breaks. Qed.

(** configurations that meet the conditions *)
Example C57_sfno_example : forall gl, sfno_ok gl (sfno_small PosLearnLat NormInstance 3). Proof. intros. apply sfno_small_ok; [split|]; discriminate. Qed.
Example C57_lsno_example : forall gl, lsno_ok gl lsno_small. Proof. exact lsno_small_ok. Qed.
Example C57_transformer_example : forall gl, strans_ok gl strans_small. Proof. exact strans_small_ok. Qed.
Example C57_unet_example : forall gl, unet_ok gl unet_small /\ List.Forall (fun g => g_nlon g mod 4 = 0) (unet_levels unet_small).
Proof. intros. split; [apply unet_small_ok|]. repeat constructor. Qed.
Example C57_segformer_example : forall gl, seg_ok gl seg_small. Proof. exact seg_small_ok. Qed.

(** ** C58: configurations, shapes and grids *)

(** The constructors accept the configurations of NetSpec, and the networks accept every
    batch of images with the configured channels and return the configured channels on the
    image grid. *)
Theorem C58_sfno : forall E B S A, 1 <= B -> op_correct (e_op E) -> sfno_ok (e_gl E) A -> exists nt, sfno_init E S A = Some nt /\ maps_images (sfno_run E nt) B (sa_in A) (sa_out A) (sa_img A).
Proof. intros E B S A HB Hop H. destruct (sfno_works E B HB Hop S A H) as (nt & H1 & H2 & _). eauto. Qed.
Theorem C58_lsno : forall E B S A, 1 <= B -> op_correct (e_op E) -> lsno_ok (e_gl E) A -> exists nt, lsno_init E S A = Some nt /\ maps_images (lsno_run E nt) B (la_in A) (la_out A) (la_img A).
Proof. intros E B S A HB Hop H. destruct (lsno_works E B HB Hop S A H) as (nt & H1 & H2 & _). eauto. Qed.
Theorem C58_transformer : forall E B S A, 1 <= B -> op_correct (e_op E) -> strans_ok (e_gl E) A -> exists nt, strans_init E S A = Some nt /\ maps_images (strans_run E nt) B (ta_in A) (ta_out A) (ta_img A).
Proof. intros E B S A HB Hop H. destruct (strans_works E B HB Hop S A H) as (nt & H1 & H2 & _). eauto. Qed.
Theorem C58_unet : forall E B S A, 1 <= B -> op_correct (e_op E) -> unet_ok (e_gl E) A -> exists nt, unet_init E S A = Some nt /\ maps_images (unet_run E nt) B (ua_in A) (ua_out A) (ua_img A).
Proof. intros E B S A HB Hop H. destruct (unet_works E B HB Hop S A H) as (nt & H1 & H2 & _). eauto. Qed.
Theorem C58_segformer : forall E B S A, 1 <= B -> op_correct (e_op E) -> seg_ok (e_gl E) A -> exists nt, seg_init E S A = Some nt /\ maps_images (seg_run E nt) B (ga_in A) (ga_out A) (ga_img A).
Proof. intros E B S A HB Hop H. destruct (seg_works E B HB Hop S A H) as (nt & H1 & H2 & _). eauto. Qed.

(** Every layer is applied to fields sampled on the grid, of the type, it was built for, and
    only fields sampled on one grid are added or concatenated. *)
Theorem C58_sfno_grids : forall E S A n, sfno_init E S A = Some n -> grid_ok (e_gl E) (sa_img A) -> grid_ok (e_gl E) (sfno_inner A) -> modes_kept (sfno_inner A) (sa_frac A) ->
  sa_layers A <= 1 \/ same_shape (sa_img A) (sfno_inner A) = false \/ g_type (sa_img A) = sa_gint A -> sfno_kind true n (mkK (sa_in A) (sa_img A)) = Some (mkK (sa_out A) (sa_img A)).
Proof. exact sfno_strict. Qed.
Theorem C58_lsno_grids : forall E S A n, lsno_init E S A = Some n -> grid_ok (e_gl E) (la_img A) -> grid_ok (e_gl E) (lsno_inner A) -> modes_kept (lsno_inner A) (la_frac A) -> (la_residual A = true -> la_in A = la_out A) ->
  lsno_kind true n (mkK (la_in A) (la_img A)) = Some (mkK (la_out A) (la_img A)).
Proof. exact lsno_strict. Qed.
Theorem C58_transformer_grids : forall E S A n, strans_init E S A = Some n -> grid_ok (e_gl E) (ta_img A) -> grid_ok (e_gl E) (strans_inner A) -> (ta_residual A = true -> ta_in A = ta_out A) ->
  strans_kind true n (mkK (ta_in A) (ta_img A)) = Some (mkK (ta_out A) (ta_img A)).
Proof. exact strans_strict. Qed.
Theorem C58_unet_grids : forall E S A n, unet_init E S A = Some n -> List.Forall (grid_ok (e_gl E)) (unet_levels A) -> List.Forall (fun d => 1 <= d) (ua_depths A) -> g_type (ua_img A) = ua_gint A ->
  unet_kind true n (mkK (ua_in A) (ua_img A)) = Some (mkK (ua_out A) (ua_img A)).
Proof. exact unet_strict. Qed.
Theorem C58_segformer_grids : forall E S A n, seg_init E S A = Some n -> List.Forall (grid_ok (e_gl E)) (seg_levels A) -> ga_dims A <> [] -> seg_kind true n (mkK (ga_in A) (ga_img A)) = Some (mkK (ga_out A) (ga_img A)).
Proof. exact seg_strict. Qed.
(** This fails for the U-Net whenever grid differs from grid_internal (the defaults differ) ... *)
Theorem C58_unet_grids_refuted : forall E S A n d ds, unet_init E S A = Some n -> ua_depths A = Datatypes.S d :: ds -> g_type (ua_img A) <> ua_gint A -> unet_kind true n (mkK (ua_in A) (ua_img A)) = None.
Proof. exact unet_grid_mismatch. Qed.
(** ... and for the SFNO with scale_factor 1, whose residual is then not moved between the grids. *)
Theorem C58_sfno_grids_refuted : forall E S A n, sfno_init E S A = Some n -> 2 <= sa_layers A -> same_shape (sa_img A) (sfno_inner A) = true -> g_type (sa_img A) <> sa_gint A -> sfno_kind true n (mkK (sa_in A) (sa_img A)) = None.
Proof. exact sfno_grid_mismatch. Qed.
(** With residual_prediction and different numbers of channels the LSNO raises on every
    batch, or broadcasts: with one output channel the result has the input's channels. *)
Theorem C58_lsno_residual_refuted : forall E B S A, 1 <= B -> op_correct (e_op E) -> lsno_ok (e_gl E) (lsno_plain A) -> la_residual A = true -> exists nt, lsno_init E S A = Some nt /\
  forall x, shp x = kshape_of B (mkK (la_in A) (la_img A)) ->
  match lsno_run E nt x with
  | Some y => shp y = kshape_of B (mkK (if (la_out A =? la_in A) || (la_in A =? 1) then la_out A else la_in A) (la_img A)) /\ (la_out A = la_in A \/ la_in A = 1 \/ la_out A = 1)
  | None => la_out A <> la_in A /\ la_out A <> 1 /\ la_in A <> 1
  end.
Proof. exact lsno_residual. Qed.
Example C58_sfno_example : forall gl, sfno_ok gl (sfno_small PosSequence NormLayer 4). Proof. intros. apply sfno_small_ok; [split|]; discriminate. Qed.
(** the constructed small U-Net, on a batch *)
Example C58_unet_example : forall E S, op_correct (e_op E) -> exists nt, unet_init E S unet_small = Some nt /\ unet_kind true nt (mkK 3 (mkG 8 16 GEquiangular)) = Some (mkK 2 (mkG 8 16 GEquiangular)).
Proof.
  intros E S Hop. destruct (C58_unet E 1 S unet_small (le_n 1) Hop (unet_small_ok (e_gl E))) as (nt & H & _). exists nt. split; [auto|]. apply (C58_unet_grids E S unet_small nt H); [apply unet_small_ok|apply (uo_depths (e_gl E)), unet_small_ok|reflexivity].
Qed.

Print Assumptions C57_sfno.
Print Assumptions C57_lsno.
Print Assumptions C57_transformer.
Print Assumptions C57_unet.
Print Assumptions C57_segformer.
Print Assumptions C57_sfno_built.
Print Assumptions C57_lsno_built.
Print Assumptions C57_transformer_built.
Print Assumptions C57_unet_built.
Print Assumptions C57_segformer_built.
Print Assumptions C57_resampling.
Print Assumptions C57_attention.
Print Assumptions C57_sequence_refuted.
Print Assumptions C57_latlon_refuted.
Print Assumptions C57_layer_norm_refuted.
Print Assumptions C58_sfno.
Print Assumptions C58_lsno.
Print Assumptions C58_transformer.
Print Assumptions C58_unet.
Print Assumptions C58_segformer.
Print Assumptions C58_sfno_grids.
Print Assumptions C58_lsno_grids.
Print Assumptions C58_transformer_grids.
Print Assumptions C58_unet_grids.
Print Assumptions C58_segformer_grids.
Print Assumptions C58_unet_grids_refuted.
Print Assumptions C58_sfno_grids_refuted.
Print Assumptions C58_lsno_residual_refuted.
