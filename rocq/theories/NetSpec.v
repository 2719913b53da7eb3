(** What the example networks are expected to do, stated through the kinds of fields that
    flow through them. *)
From Coq Require Import String List Arith Lia Bool Reals ZArith.
From Coquelicot Require Import Coquelicot.
From Verif Require Import TensorModel BigSum FFTModel TruncModel LegendreModel QuadModel SHTModel SHTSpec FilterModel DiscoModel DiscoSpec PsiModel PsiSpec ResampleModel ResampleSpec AttnModel AttnLayerModel NetModel NetModels.
Import ListNotations.
Local Open Scope list_scope.
Local Open Scope nat_scope.

(** ** Kinds of fields *)

(** A kind: a number of channels and the grid on which the samples lie. *)
Record ftype := mkK { k_ch : nat; k_g : gspec }.
(** the shape of a batch of B such fields *)
Definition kshape_of (B : nat) (t : ftype) : list nat := [B; k_ch t; g_nlat (k_g t); g_nlon (k_g t)].
Definition same_type (g h : grid) : bool :=
  match g, h with
  | GLegendreGauss, GLegendreGauss | GLobatto, GLobatto | GEquiangular, GEquiangular | GTrapezoidal, GTrapezoidal | GOther, GOther => true
  | _, _ => false
  end.
(** Equal grids: sizes, and with [strict] also the type of the latitudes. *)
Definition same_grid (strict : bool) (g h : gspec) : bool :=
  (g_nlat g =? g_nlat h) && (g_nlon g =? g_nlon h) && (negb strict || same_type (g_type g) (g_type h)).

Definition vec_of (n : nat) (t : tensor R) : bool := shape_eqb (shp t) [n].
Definition ovec_of (n : nat) (t : option (tensor R)) : bool := match t with None => true | Some t => vec_of n t end.
(** The kind a layer produces from a given kind, if it may be applied to it: the samples
    must lie on the grid the layer was built for. *)
Definition fit (strict : bool) (l : layer) (t : ftype) : option ftype :=
  let c := k_ch t in let g := k_g t in
  match l with
  | LConv1 w b => do _ <- guard (shape_eqb (shp w) [dimsz w 0; c; 1; 1] && ovec_of (dimsz w 0) b); Some (mkK (dimsz w 0) g)
  | LAct _ => Some t
  | LBatch _ m v w b => do _ <- guard (vec_of c m && vec_of c v && vec_of c w && vec_of c b); Some t
  | LInst _ w b => do _ <- guard (vec_of c w && vec_of c b && negb (g_nlat g * g_nlon g =? 1)); Some t
  | LChan _ _ w b => do _ <- guard (vec_of c w && vec_of c b); Some t
  | LPlane _ w b => do _ <- guard (shape_eqb (shp w) [g_nlat g; g_nlon g] && shape_eqb (shp b) [g_nlat g; g_nlon g]); Some t
  | LPos e => do _ <- guard (shape_eqb (shp e) [1; c; g_nlat g; g_nlon g] || shape_eqb (shp e) [1; c; g_nlat g; 1]); Some t
  | LDisco gi go d | LTDisco gi go d => do _ <- guard (same_grid strict gi g && (c =? d_groups d * dimsz (d_weight d) 1)); Some (mkK (dimsz (d_weight d) 0) go)
  | LResample gi go _ | LSht gi go _ _ => do _ <- guard (same_grid strict gi g); Some (mkK c go)
  | LSpec s => do _ <- guard (same_grid strict (sx_gi s) g && (c =? dimsz (sx_w s) 1)); Some (mkK (dimsz (sx_w s) 0) (sx_go s))
  | LSpecRes s => do _ <- guard (same_grid strict (sx_gi s) g && (c =? dimsz (sx_w s) 1)); Some (if same_shape (sx_gi s) (sx_go s) then t else mkK c (sx_go s))
  | LNAttn gi go L => do _ <- guard (same_grid strict gi g && same_grid strict go g && (c =? dimsz (na_q L) 1)); Some (mkK (dimsz (na_p L) 0) go)
  | LGAttn gi go L => do _ <- guard (same_grid strict gi g && same_grid strict go g && (c =? dimsz (ga_q L) 1)); Some (mkK (dimsz (ga_p L) 0) go)
  end.
(** Fields are added point by point. *)
Definition kadd (strict : bool) (a b : ftype) : option ftype :=
  do _ <- guard ((k_ch a =? k_ch b) && same_grid strict (k_g a) (k_g b)); Some a.
(** Concatenation along the channels. *)
Definition kcat (strict : bool) (l : list ftype) : option ftype :=
  match l with
  | [] => None
  | a :: l' => do _ <- guard (forallb (fun b => same_grid strict (k_g a) (k_g b)) l'); Some (mkK (sum_list (map k_ch l)) (k_g a))
  end.
(** The five networks on kinds. *)
Definition sfno_kind (strict : bool) (n : sfno) : ftype -> option ftype := sfno_forward (fit strict) (kadd strict) n.
Definition lsno_kind (strict : bool) (n : lsno) : ftype -> option ftype := lsno_forward (fit strict) (kadd strict) n.
Definition strans_kind (strict : bool) (n : strans) : ftype -> option ftype := strans_forward (fit strict) (kadd strict) n.
Definition unet_kind (strict : bool) (n : unet) : ftype -> option ftype := unet_forward (fit strict) (kadd strict) (kcat strict) n.
Definition seg_kind (strict : bool) (n : seg) : ftype -> option ftype := seg_forward (fit strict) (kadd strict) (kcat strict) n.

(** ** Rotations *)

(** Rotation about the polar axis by k/n of a full turn, on a grid whose number of
    longitudes is a multiple of n. *)
Definition turn (n k : nat) (x : tensor R) : tensor R := roll_last (k * (dimsz x (ndim x - 1) / n)) x.

(** ** The layers of a network *)
Definition oflat (o : option (list layer)) : list layer := match o with None => [] | Some l => l end.
Definition sblock_layers (b : sblock) : list layer := [LSpec (sb_conv b); LSpecRes (sb_conv b)] ++ sb_norm b ++ oflat (sb_inner b) ++ sb_mlp b ++ oflat (sb_outer b).
Definition lblock_layers (b : lblock) : list layer := [lb_conv b] ++ lb_norm b ++ oflat (lb_inner b) ++ lb_mlp b ++ oflat (lb_outer b).
Definition ablock_layers (b : ablock) : list layer := ab_norm0 b ++ [ab_attn b] ++ ab_norm1 b ++ ab_mlp b.
Definition dblock_layers (b : dblock) : list layer := db_skip b ++ db_fwd b ++ [db_down b].
Definition ublock_layers (b : ublock) : list layer := ub_skip b ++ ub_fwd b ++ ub_up b.
Definition wblock_layers (b : wblock) : list layer := [wb_norm b; wb_attn b; wb_fnorm b; wb_in b; wb_conv b; LAct (wb_act b); wb_out b].
Definition tblock_layers (b : tblock) : list layer := tb_merge b ++ flat_map wblock_layers (tb_reps b) ++ [tb_norm b].
Definition sfno_layers (n : sfno) : list layer := sf_enc n ++ sf_pos n ++ flat_map sblock_layers (sf_blocks n) ++ sf_dec n ++ oflat (sf_res n).
Definition lsno_layers (n : lsno) : list layer := ls_enc n ++ ls_pos n ++ flat_map lblock_layers (ls_blocks n) ++ ls_dec n.
Definition strans_layers (n : strans) : list layer := st_enc n ++ st_pos n ++ flat_map ablock_layers (st_blocks n) ++ st_dec n.
Definition unet_layers (n : unet) : list layer := flat_map dblock_layers (un_d n) ++ flat_map ublock_layers (un_u n) ++ un_head n.
Definition seg_layers (n : seg) : list layer := flat_map tblock_layers (sg_blocks n) ++ concat (sg_ups n) ++ sg_head n.

(** What the compiled preprocessing of a convolution's filter relies on (see C34). *)
Definition filter_ready (l : layer) : Prop :=
  match l with LDisco _ _ d | LTDisco _ _ d => kernels_separated (d_K d) (d_raw d) /\ d_raw d <> [] | _ => True end.
(** Parameters that do not depend on the longitude. *)
Definition zonal (l : layer) : Prop :=
  match l with
  | LPos e => forall b c y x x', x < dimsz e 3 -> x' < dimsz e 3 -> val e [b; c; y; x] = val e [b; c; y; x']
  | LPlane _ w b => (forall y x x', x < dimsz w 1 -> x' < dimsz w 1 -> val w [y; x] = val w [y; x'] /\ val b [y; x] = val b [y; x'])
  | _ => True
  end.
(** The numbers of longitudes on both sides of a layer are multiples of n. *)
Definition widths (n : nat) (l : layer) : Prop :=
  match l with
  | LDisco gi go _ | LTDisco gi go _ | LResample gi go _ | LSht gi go _ _ | LNAttn gi go _ | LGAttn gi go _ => g_nlon gi mod n = 0 /\ g_nlon go mod n = 0
  | LSpec s | LSpecRes s => g_nlon (sx_gi s) mod n = 0 /\ g_nlon (sx_go s) mod n = 0
  | _ => True
  end.

(** ** Conditions on grids *)

(** A grid on which the transforms, resamplings and attention layers are defined: at least
    two latitudes and longitudes, known latitudes in order (see ResampleSpec.supported) and
    positive quadrature weights. *)
Record grid_ok (gl : nat -> rule) (g : gspec) : Prop := mkGok {
  gk_h : 2 <= g_nlat g; gk_w : 2 <= g_nlon g; gk_s : supported gl (g_nlat g) (g_type g);
  gk_q : forall q, precompute_latitudes gl (g_nlat g) (g_type g) = Some q -> forall i, i < g_nlat g -> (0 < rw q i)%R }.

(** The grids of the successive levels of the U-Net and the Segformer. *)
Fixpoint levels (scale : nat) (gt : grid) (g : gspec) (n : nat) : list gspec :=
  g :: match n with 0 => [] | S n' => levels scale gt (mkG (g_nlat g / scale) (g_nlon g / scale) gt) n' end.

(** The internal grid of the operators: ((nlat - 1) // scale + 1, nlon // scale). *)
Definition internal (img : gspec) (scale : nat) (gt : grid) : gspec := mkG ((g_nlat img - 1) / scale + 1) (g_nlon img / scale) gt.
(** At least one mode is kept: hard_thresholding_fraction is not too small. *)
Definition modes_kept (g : gspec) (frac : R) : Prop := (1 <= INR (Nat.min (g_nlat g) (g_nlon g / 2)) * frac)%R.

(** The first and the last output latitude have an input point within the radius. *)
Definition reaches (gl : nat -> rule) (gi go : gspec) (c : R) : Prop :=
  forall qi qo, precompute_latitudes gl (g_nlat gi) (g_type gi) = Some qi -> precompute_latitudes gl (g_nlat go) (g_type go) = Some qo ->
  reached (g_nlat gi) (g_nlon gi) (rn qi) (rn qo) ((1 + 1 / 1000) * c)%R 0 /\ reached (g_nlat gi) (g_nlon gi) (rn qi) (rn qo) ((1 + 1 / 1000) * c)%R (g_nlat go - 1).
(** kernel_shape and filter_basis_type of a basis all of whose functions live on the whole
    disc: harmonic ("morlet") or Zernike, with at least one function. *)
Definition full_kernel (ks : kshape) (b : btype) : Prop :=
  match b, ks with
  | BMorlet, KList [k0; k1] => 1 <= k0 /\ 1 <= k1
  | BZernike, KList (k0 :: _) => 1 <= k0
  | _, _ => False
  end.

(** ** Configurations the networks are meant for *)
Definition sfno_inner (A : sfno_args) : gspec := internal (sa_img A) (sa_scale A) (sa_gint A).
Definition lsno_inner (A : lsno_args) : gspec := internal (la_img A) (la_scale A) (la_gint A).
Definition strans_inner (A : strans_args) : gspec := internal (ta_img A) (ta_scale A) (ta_gint A).
Definition unet_levels (A : unet_args) : list gspec := levels (ua_scale A) (ua_gint A) (ua_img A) (length (ua_dims A)).
Definition seg_levels (A : seg_args) : list gspec := levels (ga_scale_factor A) (ga_gint A) (ga_img A) (length (ga_dims A)).
(** the spherical harmonic transforms have no trapezoidal rule *)
Definition transformable (g : gspec) : Prop := g_type g <> GTrapezoidal.
(** a learnt or sinusoidal table, or none *)
Definition table_pos (p : posembed) : Prop := p <> PosSpectral /\ p <> PosUnknown.
(** the number of longitudes of each level is a multiple of that of the next *)
Fixpoint nested (scale w n : nat) : Prop := match n with 0 => True | S n' => w mod (w / scale) = 0 /\ nested scale (w / scale) n' end.

Record sfno_ok (gl : nat -> rule) (A : sfno_args) : Prop := mkSfnoOk {
  so_img : grid_ok gl (sa_img A); so_inner : grid_ok gl (sfno_inner A); so_timg : transformable (sa_img A); so_tinner : transformable (sfno_inner A);
  so_scale : 1 <= sa_scale A; so_modes : modes_kept (sfno_inner A) (sa_frac A); so_ratio : (0 <= sa_ratio A)%R; so_act : sa_act A <> ActUnknown; so_norm : sa_norm A <> NormUnknown;
  so_pos : table_pos (sa_pos A); so_in : 1 <= sa_in A; so_embed : 1 <= sa_embed A }.
Record lsno_ok (gl : nat -> rule) (A : lsno_args) : Prop := mkLsnoOk {
  lo_img : grid_ok gl (la_img A); lo_inner : grid_ok gl (lsno_inner A); lo_timg : g_type (la_img A) = GEquiangular; lo_tinner : transformable (lsno_inner A);
  lo_width : g_nlon (la_img A) mod g_nlon (lsno_inner A) = 0; lo_eks : full_kernel (la_eks A) (la_basis A); lo_ks : full_kernel (la_ks A) (la_basis A); lo_freq : 1 <= la_freq A;
  lo_scale : 1 <= la_scale A; lo_modes : modes_kept (lsno_inner A) (la_frac A); lo_ratio : (0 <= la_ratio A)%R; lo_act : la_act A <> ActUnknown; lo_norm : la_norm A <> NormUnknown;
  lo_pos : table_pos (la_pos A); lo_res : la_residual A = true -> la_in A = la_out A; lo_in : 1 <= la_in A; lo_embed : 1 <= la_embed A }.
Record strans_ok (gl : nat -> rule) (A : strans_args) : Prop := mkStransOk {
  to_img : grid_ok gl (ta_img A); to_inner : grid_ok gl (strans_inner A); to_timg : g_type (ta_img A) = GEquiangular; to_tinner : ta_upsht A = true -> transformable (strans_inner A);
  to_width : g_nlon (ta_img A) mod g_nlon (strans_inner A) = 0; to_eks : full_kernel (ta_eks A) (ta_basis A); to_heads : 1 <= ta_heads A; to_dim : ta_embed A mod ta_heads A = 0;
  to_cut : forall c, ta_cutoff A = Some c -> (0 < c)%R;
  to_scale : 1 <= ta_scale A; to_ratio : (0 <= ta_ratio A)%R; to_act : ta_act A <> ActUnknown; to_norm : ta_norm A <> NormUnknown;
  to_pos : table_pos (ta_pos A); to_res : ta_residual A = true -> ta_in A = ta_out A; to_in : 1 <= ta_in A; to_embed : 1 <= ta_embed A }.
Record unet_ok (gl : nat -> rule) (A : unet_args) : Prop := mkUnetOk {
  uo_grids : List.Forall (grid_ok gl) (unet_levels A); uo_timg : g_type (ua_img A) = GEquiangular; uo_tint : ua_gint A = GEquiangular; uo_widths : nested (ua_scale A) (g_nlon (ua_img A)) (length (ua_dims A));
  uo_ks : full_kernel (ua_ks A) (ua_basis A); uo_len : length (ua_depths A) = length (ua_dims A); uo_some : ua_dims A <> []; uo_dims : List.Forall (fun d => 1 <= d) (ua_dims A); uo_depths : List.Forall (fun d => 1 <= d) (ua_depths A);
  uo_scale : 1 <= ua_scale A; uo_act : ua_act A <> ActUnknown; uo_in : 1 <= ua_in A; uo_down : ua_down A <> SResample MUnknown; uo_up : ua_up A <> SResample MUnknown }.
Record seg_ok (gl : nat -> rule) (A : seg_args) : Prop := mkSegOk {
  go_grids : List.Forall (grid_ok gl) (seg_levels A); go_timg : g_type (ga_img A) = GEquiangular; go_tint : ga_gint A = GEquiangular; go_widths : nested (ga_scale_factor A) (g_nlon (ga_img A)) (length (ga_dims A));
  go_ks : full_kernel (ga_ks A) (ga_basis A); go_len : length (ga_depths A) = length (ga_dims A); go_hlen : length (ga_headsl A) = length (ga_dims A); go_some : ga_dims A <> [];
  go_dims : List.Forall (fun p => 1 <= fst p /\ 1 <= snd p /\ fst p mod snd p = 0) (List.combine (ga_dims A) (ga_headsl A)); go_cut : forall c, ga_cutoff A = Some c -> (0 < c)%R;
  go_scale : 1 <= ga_scale_factor A; go_act : ga_act A <> ActUnknown; go_in : 1 <= ga_in A; go_up : ga_up A <> UUnknown }.

(** ** What is expected of a network *)

(** For every batch of images it was configured for the network returns a field with the
    configured number of channels on the image grid, and turning the images by k/n of a full
    turn about the polar axis turns the result in the same way. *)
Definition maps_images (f : tensor R -> option (tensor R)) (B ci co : nat) (g : gspec) : Prop :=
  forall x, shp x = kshape_of B (mkK ci g) -> exists y, f x = Some y /\ shp y = kshape_of B (mkK co g).
Definition commutes (f : tensor R -> option (tensor R)) (B ci : nat) (g : gspec) (n k : nat) : Prop :=
  forall x, shp x = kshape_of B (mkK ci g) -> exists y y', f x = Some y /\ f (turn n k x) = Some y' /\ teq y' (turn n k y).
(** Embeddings without dependence on the longitude. *)
Definition zonal_pos (p : posembed) : Prop := p = PosNone \/ p = PosLearnLat.
(** The network maps images to images, and commutes with rotations if no parameter depends
    on the longitude. *)
Definition acts (B : nat) (f : tensor R -> option (tensor R)) (ls : list layer) (gs : list gspec) (ci co : nat) (g : gspec) : Prop :=
  maps_images f B ci co g /\ forall n k, 1 <= n -> List.Forall (fun g => g_nlon g mod n = 0) gs -> List.Forall zonal ls -> commutes f B ci g n k.
