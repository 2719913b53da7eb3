(** The example networks (torch_harmonics/examples/models/): constructors and forward
    passes in evaluation mode.  Drop rates have no effect in evaluation mode and are left
    out of the arguments; see NetModel for what else is not modelled. *)
From Coq Require Import String List Arith Lia Bool Reals ZArith.
From Coquelicot Require Import Coquelicot.
From Verif Require Import TensorModel BigSum FFTModel TruncModel LegendreModel QuadModel SHTModel FilterModel DiscoModel PsiModel ResampleModel AttnModel AttnLayerModel NetModel.
Import ListNotations.
Local Open Scope list_scope.
Local Open Scope nat_scope.

(** ** Shared pieces *)

(** sfno.py:292-293, lsno.py:522-523, s2transformer.py:500-501; division by zero raises.
    No image has 0 latitudes: the transforms and convolutions refuse it. *)
Definition inner_grid (h w scale : nat) (gt : grid) : option gspec :=
  do _ <- guard ((1 <=? scale) && (1 <=? h)); Some (mkG ((h - 1) / scale + 1) (w / scale) gt).
(** sfno.py:335-339, lsno.py:557-561: int(min(h, (w // 2 + 1) - 1) * fraction) *)
Definition net_modes (g : gspec) (frac : R) : option nat :=
  py_int (INR (Nat.min (g_nlat g) (g_nlon g / 2 + 1 - 1)) * frac)%R.
(** encoders and decoders of lsno.py:80-204 and s2transformer.py:80-204 *)
Definition encoder (E : env) (S : state) (gi go : gspec) (cin cout : nat) (ks : kshape) (b : btype) : option (list layer) :=
  do c <- cutoff_radius (g_nlat gi) ks b;
  do l <- disco E S "encoder.conv" [] cin cout gi go ks b 1 false c; Some [l].
Definition decoder (E : env) (S : state) (gi go : gspec) (cin cout : nat) (ks : kshape) (b : btype) (upsample_sht : bool) : option (list layer) :=
  do up <- (if upsample_sht
            then do s <- sht_of E gi None None; do i <- isht_of E go (Some (s_lmax (tr_s s))) (Some (s_mmax (tr_s s))); Some (LSht gi go (tr_s s) (tr_s i))
            else resampling E gi go MBilinear);
  do c <- cutoff_radius (g_nlat gi) ks b;
  do l <- disco E S "decoder.conv" [] cin cout go go ks b 1 false c; Some [up; l].

(** ** Blocks *)

(** SphericalFourierNeuralOperatorBlock (sfno.py:79-151) *)
Record sblock := mkSB { sb_conv : sconvx; sb_norm : list layer; sb_inner : option (list layer); sb_mlp : list layer; sb_outer : option (list layer) }.
Definition sblock_init (S : state) (ix : list nat) (f i : transform) (cin cout : nat) (ratio : R) (a : R -> R) (norm : normkind) (inner outer : skipkind) (use_mlp bias : bool) : option sblock :=
  do c <- sconvx_init f i cin cout OpDriscollHealy (st_c S "blocks.{}.global_conv.weight" ix) (if bias then Some (st_r S "blocks.{}.global_conv.bias" ix) else None);
  do sk1 <- skip_layers S "blocks.{}.inner_skip" ix cin cout (cin =? cout) inner;
  do n <- block_norm S ix (tr_g i) cout norm;
  do m <- (if use_mlp then do hid <- py_int (INR cout * ratio)%R; Some (mlp S "blocks.{}.mlp" ix cout hid cin a false) else Some []);
  do sk2 <- skip_layers S "blocks.{}.outer_skip" ix cin cin (cin =? cout) outer;
  Some (mkSB c n sk1 m sk2).
(** SphericalNeuralOperatorBlock (lsno.py:252-351): a local or a global convolution *)
Record lblock := mkLB { lb_conv : layer; lb_norm : list layer; lb_inner : option (list layer); lb_mlp : list layer; lb_outer : option (list layer) }.
Definition lblock_init (E : env) (S : state) (ix : list nat) (f i : transform) (cin cout : nat) (global : bool) (ratio : R) (a : R -> R) (norm : normkind) (inner outer : skipkind)
  (use_mlp : bool) (ks : kshape) (b : btype) (bias : bool) : option lblock :=
  do c <- (if global
           then do c <- sconvx_init f i cin cout OpDriscollHealy (st_c S "blocks.{}.global_conv.weight" ix) (if bias then Some (st_r S "blocks.{}.global_conv.bias" ix) else None); Some (LSpec c)
           else do c <- cutoff_radius (g_nlat (tr_g f)) ks b; disco E S "blocks.{}.local_conv" ix cin cout (tr_g f) (tr_g i) ks b 1 bias (2 * c)%R);
  do sk1 <- skip_layers S "blocks.{}.inner_skip" ix cin cout (cin =? cout) inner;
  do n <- block_norm S ix (tr_g i) cout norm;
  do m <- (if use_mlp then do hid <- py_int (INR cout * ratio)%R; Some (mlp S "blocks.{}.mlp" ix cout hid cin a false) else Some []);
  do sk2 <- skip_layers S "blocks.{}.outer_skip" ix cin cin (cin =? cout) outer;
  Some (mkLB c n sk1 m sk2).
(** attention layer of s2transformer.py:282-310 and s2segformer.py:288-306: the
    neighbourhood's radius defaults to 7 / sqrt(pi) * pi / (nlat - 1) *)
Definition self_attention (E : env) (S : state) (name : string) (ix : list nat) (cin cout : nat) (gi go : gspec) (heads : nat) (neighborhood bias : bool) (cutoff : option R) : option layer :=
  if neighborhood
  then do c <- (match cutoff with Some c => Some c | None => do _ <- guard (negb (g_nlat gi =? 1)); Some (7 / sqrt PI * PI / (INR (g_nlat gi) - 1))%R end);
       nattn E S name ix cin cout gi go heads bias c
  else gattn E S name ix cin cout gi go heads bias.
(** SphericalAttentionBlock (s2transformer.py:250-331) *)
Record ablock := mkAB { ab_norm0 : list layer; ab_attn : layer; ab_norm1 : list layer; ab_mlp : list layer }.
Definition ablock_init (E : env) (S : state) (ix : list nat) (gi go : gspec) (cin cout heads : nat) (ratio : R) (a : R -> R) (norm : normkind) (use_mlp bias neighborhood : bool) (cutoff : option R) : option ablock :=
  do n0 <- attn_norm S "blocks.{}.norm0" ix cin norm;
  do n1 <- attn_norm S "blocks.{}.norm1" ix cout norm;
  do at_ <- self_attention E S "blocks.{}.self_attn" ix cin cout gi go heads neighborhood bias cutoff;
  do m <- (if use_mlp then do hid <- py_int (INR cout * ratio)%R; Some (mlp S "blocks.{}.mlp" ix cout hid cout a false) else Some []);
  Some (mkAB n0 at_ n1 m).

(** DownsamplingBlock (s2unet.py:89-186); shapes, channels and grids are kept as attributes *)
Record dblock := mkDB { db_in : gspec; db_out : gspec; db_cin : nat; db_cout : nat; db_skip : list layer; db_fwd : list layer; db_down : layer }.
(** the resampling mode of a mode string that is not "conv" *)
Inductive smode := SConv | SResample (m : rmode).
(** s2unet.py:114-143: nrep times convolution, batch norm, activation; every convolution is
    built with grid_out for both of its grids *)
Fixpoint down_convs (E : env) (S : state) (ix : list nat) (gi : gspec) (gt_out : grid) (cin cout : nat) (ks : kshape) (b : btype) (a : R -> R) (i n : nat) : option (list layer) :=
  match n with
  | 0 => Some []
  | Datatypes.S n' =>
      do c <- cutoff_radius (g_nlat gi) ks b;
      let g := mkG (g_nlat gi) (g_nlon gi) gt_out in
      do l <- disco E S "dblocks.{}.fwd.{}" (ix ++ [i]) (if i =? 0 then cin else cout) cout g g ks b 1 false c;
      do r <- down_convs E S ix gi gt_out cin cout ks b a (i + 1) n';
      Some (l :: batch S "dblocks.{}.fwd.{}.norm" (ix ++ [i]) cout :: LAct a :: r)
  end.
Definition dblock_init (E : env) (S : state) (ix : list nat) (gi go : gspec) (cin cout nrep : nat) (ks : kshape) (b : btype) (a : R -> R) (transform_skip : bool) (mode : smode) : option dblock :=
  do f <- down_convs E S ix gi (g_type go) cin cout ks b a 0 nrep;
  do d <- (match mode with
           | SConv => do c <- cutoff_radius (g_nlat go) ks b; disco E S "dblocks.{}.downsample" ix cout cout gi go ks b 1 false c
           | SResample m => resampling E gi go m
           end);
  Some (mkDB gi go cin cout (if transform_skip || negb (cin =? cout) then [conv1 S "dblocks.{}.transform_skip" ix cin cout true] else []) f d).
(** UpsamplingBlock (s2unet.py:255-381), nrep = 1 as in its only use *)
Record ublock := mkUB { ub_skip : list layer; ub_fwd : list layer; ub_up : list layer }.
Definition same_shape (g h : gspec) : bool := (g_nlat g =? g_nlat h) && (g_nlon g =? g_nlon h).
Definition ublock_init (E : env) (S : state) (ix : list nat) (gi go : gspec) (cin cout : nat) (ks : kshape) (b : btype) (a : R -> R) (transform_skip : bool) (mode : smode) : option ublock :=
  do u <- (if negb (same_shape gi go)
           then match mode with
                | SConv =>
                    do c <- cutoff_radius (g_nlat gi) ks b;
                    do t <- tdisco E S "ublocks.{}.upsample.0" ix cout cout gi go ks b 1 false c;
                    do l <- disco E S "ublocks.{}.upsample.3" ix cout cout (mkG (g_nlat go) (g_nlon go) (g_type gi)) go ks b 1 false c;
                    Some [t; batch S "ublocks.{}.upsample.1" ix cout; LAct a; l]
                | SResample m => do r <- resampling E gi go m; Some [r]
                end
           else do c <- cutoff_radius (g_nlat gi) ks b;
                do l <- disco E S "ublocks.{}.upsample" ix cout cout gi (mkG (g_nlat gi) (g_nlon gi) (g_type go)) ks b 1 false c; Some [l]);
  do c <- cutoff_radius (g_nlat gi) ks b;
  do l <- disco E S "ublocks.{}.fwd.0" ix cin cout gi gi ks b 1 false c;
  Some (mkUB (if transform_skip || negb (cin =? cout) then [conv1 S "ublocks.{}.transform_skip" ix cin cout true] else [])
             [l; batch S "ublocks.{}.fwd.1" ix cout; LAct a] u).

(** AttentionWrapper (s2segformer.py:282-312) with pre_norm, and MixFFN (167-216) without MLP *)
Record wblock := mkWB { wb_norm : layer; wb_attn : layer; wb_fnorm : layer; wb_in : layer; wb_conv : layer; wb_act : R -> R; wb_out : layer }.
Definition wblock_init (E : env) (S : state) (ix : list nat) (g : gspec) (c heads : nat) (ks : kshape) (b : btype) (a : R -> R) (neighborhood bias : bool) (cutoff : option R) : option wblock :=
  do at_ <- self_attention E S "blocks.{}.fwd.{}.att" ix c c g g heads neighborhood bias cutoff;
  do cut <- cutoff_radius (g_nlat g) ks b;
  do l <- disco E S "blocks.{}.fwd.{}.conv" ix c c g g ks b c false cut;
  Some (mkWB (chan S "blocks.{}.fwd.{}.norm" ix c) at_ (chan S "blocks.{}.ffn.{}.norm" ix c) (conv1 S "blocks.{}.ffn.{}.mlp_in" ix c c true) l a (conv1 S "blocks.{}.ffn.{}.mlp_out" ix c c true)).
(** TransformerBlock (s2segformer.py:383-468): OverlapPatchMerging (78-110), then nrep
    attention and feed-forward pairs, then a norm *)
Record tblock := mkTB { tb_out : gspec; tb_merge : list layer; tb_reps : list wblock; tb_norm : layer }.
Definition tblock_init (E : env) (S : state) (ix : list nat) (gi go : gspec) (cin cout nrep heads : nat) (ks : kshape) (b : btype) (a : R -> R) (neighborhood bias : bool) (cutoff : option R) : option tblock :=
  do c <- cutoff_radius (g_nlat go) ks b;
  do l <- disco E S "blocks.{}.fwd.0.conv" ix cin cout gi go ks b 1 false c;
  do ws <- mapM (fun j => wblock_init E S (ix ++ [j]) go cout heads ks b a neighborhood bias cutoff) (seq 0 nrep);
  Some (mkTB go [l; chan S "blocks.{}.fwd.0.norm" ix cout] ws (chan S "blocks.{}.norm" ix cout)).
(** Upsampling (s2segformer.py:525-568) without MLP *)
Inductive umethod := UConv | UBilinear | UUnknown.
Definition upsampling (E : env) (S : state) (ix : list nat) (gi go : gspec) (cin cout : nat) (ks : kshape) (b : btype) (m : umethod) : option (list layer) :=
  do u <- (match m with
           | UConv => do c <- cutoff_radius (g_nlat gi) ks b; tdisco E S "upsamplers.{}.upsample" ix cout cout gi go ks b 1 false c
           | UBilinear => resampling E gi go MBilinear
           | UUnknown => None
           end);
  Some [conv1 S "upsamplers.{}.mlp" ix cin cout true; u].

(** ** Networks *)

(** SphericalFourierNeuralOperator (sfno.py:239-394) *)
Record sfno_args := mkSfnoA { sa_img : gspec; sa_gint : grid; sa_scale : nat; sa_in : nat; sa_out : nat; sa_embed : nat; sa_layers : nat; sa_act : act;
  sa_mlp : bool; sa_ratio : R; sa_norm : normkind; sa_frac : R; sa_residual : bool; sa_pos : posembed; sa_bias : bool }.
Record sfno := mkSfno { sf_enc : list layer; sf_pos : list layer; sf_blocks : list sblock; sf_dec : list layer; sf_res : option (list layer) }.
Definition sfno_init (E : env) (S : state) (A : sfno_args) : option sfno :=
  let img := sa_img A in let d := sa_embed A in
  do a <- act_fun (sa_act A);
  do inner <- inner_grid (g_nlat img) (g_nlon img) (sa_scale A) (sa_gint A);
  do pos <- pos_layers E S img d (sa_pos A);
  do _ <- guard (1 <=? sa_in A);
  do md <- net_modes inner (sa_frac A);
  do down <- sht_of E img (Some md) (Some md); do up <- isht_of E img (Some md) (Some md);
  do tr <- sht_of E inner (Some md) (Some md); do itr <- isht_of E inner (Some md) (Some md);
  do bs <- mapM (fun i => sblock_init S [i] (if i =? 0 then down else tr) (if i =? sa_layers A - 1 then up else itr) d d (sa_ratio A) a (sa_norm A) SkipNone SkipIdentity (sa_mlp A) (sa_bias A)) (seq 0 (sa_layers A));
  do _ <- guard (1 <=? d);
  Some (mkSfno [conv1 S "encoder.0" [] (sa_in A) d (sa_bias A)] pos bs [conv1 S "decoder.0" [] d (sa_out A) (sa_bias A)]
    (if sa_residual A then Some (if sa_in A =? sa_out A then [] else [conv1 S "residual_projection" [] (sa_in A) (sa_out A) false]) else None)).

(** LocalSphericalNeuralOperator (lsno.py:453-586); the block frequency is a divisor *)
Record lsno_args := mkLsnoA { la_img : gspec; la_gint : grid; la_scale : nat; la_in : nat; la_out : nat; la_embed : nat; la_layers : nat; la_act : act;
  la_ks : kshape; la_eks : kshape; la_basis : btype; la_mlp : bool; la_ratio : R; la_norm : normkind; la_freq : nat; la_frac : R; la_residual : bool; la_pos : posembed;
  la_upsht : bool; la_bias : bool }.
Record lsno := mkLsno { ls_enc : list layer; ls_pos : list layer; ls_blocks : list lblock; ls_dec : list layer; ls_res : bool }.
Definition lsno_init (E : env) (S : state) (A : lsno_args) : option lsno :=
  let img := la_img A in let d := la_embed A in
  do a <- act_fun (la_act A);
  do inner <- inner_grid (g_nlat img) (g_nlon img) (la_scale A) (la_gint A);
  do pos <- pos_layers E S inner d (la_pos A);
  do enc <- encoder E S img inner (la_in A) d (la_eks A) (la_basis A);
  do md <- net_modes inner (la_frac A);
  do tr <- sht_of E inner (Some md) (Some md); do itr <- isht_of E inner (Some md) (Some md);
  do bs <- mapM (fun i => do _ <- guard (1 <=? la_freq A);
             lblock_init E S [i] tr itr d d (i mod la_freq A =? la_freq A - 1) (la_ratio A) a (la_norm A) SkipNone SkipIdentity (la_mlp A) (la_ks A) (la_basis A) (la_bias A)) (seq 0 (la_layers A));
  do dec <- decoder E S inner img d (la_out A) (la_eks A) (la_basis A) (la_upsht A);
  Some (mkLsno enc pos bs dec (la_residual A)).

(** SphericalTransformer (s2transformer.py:434-559); its hard_thresholding_fraction is not used *)
Record strans_args := mkStransA { ta_img : gspec; ta_gint : grid; ta_scale : nat; ta_in : nat; ta_out : nat; ta_embed : nat; ta_layers : nat; ta_act : act;
  ta_eks : kshape; ta_basis : btype; ta_heads : nat; ta_mlp : bool; ta_ratio : R; ta_norm : normkind; ta_residual : bool; ta_pos : posembed; ta_upsht : bool;
  ta_neigh : bool; ta_bias : bool; ta_cutoff : option R }.
Record strans := mkStrans { st_enc : list layer; st_pos : list layer; st_blocks : list ablock; st_dec : list layer; st_res : bool }.
Definition strans_init (E : env) (S : state) (A : strans_args) : option strans :=
  let img := ta_img A in let d := ta_embed A in
  do a <- act_fun (ta_act A);
  do inner <- inner_grid (g_nlat img) (g_nlon img) (ta_scale A) (ta_gint A);
  do pos <- pos_layers E S inner d (ta_pos A);
  do enc <- encoder E S img inner (ta_in A) d (ta_eks A) (ta_basis A);
  do bs <- mapM (fun i => ablock_init E S [i] inner inner d d (ta_heads A) (ta_ratio A) a (ta_norm A) (ta_mlp A) (ta_bias A) (ta_neigh A) (ta_cutoff A)) (seq 0 (ta_layers A));
  do dec <- decoder E S inner img d (ta_out A) (ta_eks A) (ta_basis A) (ta_upsht A);
  Some (mkStrans enc pos bs dec (ta_residual A)).

(** SphericalUNet (s2unet.py:459-572) *)
Record unet_args := mkUnetA { ua_img : gspec; ua_gint : grid; ua_in : nat; ua_out : nat; ua_dims : list nat; ua_depths : list nat; ua_scale : nat; ua_act : act;
  ua_ks : kshape; ua_basis : btype; ua_skip : bool; ua_down : smode; ua_up : smode }.
Record unet := mkUnet { un_d : list dblock; un_u : list ublock; un_head : list layer }.
(** shape // scale_factor at each level; division by zero raises *)
Definition half (scale : nat) (g : gspec) (gt : grid) : gspec := mkG (g_nlat g / scale) (g_nlon g / scale) gt.
(** 499-527 *)
Fixpoint dblocks_init (E : env) (S : state) (A : unet_args) (a : R -> R) (i : nat) (gi : gspec) (cin : nat) (dims : list (nat * nat)) : option (list dblock) :=
  match dims with
  | [] => Some []
  | (c, n) :: dims' =>
      let go := half (ua_scale A) gi (ua_gint A) in
      do b <- dblock_init E S [i] gi go cin c n (ua_ks A) (ua_basis A) a (ua_skip A) (ua_down A);
      do r <- dblocks_init E S A a (i + 1) go c dims';
      Some (b :: r)
  end.
(** 530-562: from the deepest block up *)
Definition ublocks_init (E : env) (S : state) (A : unet_args) (a : R -> R) (ds : list dblock) : option (list ublock) :=
  let n := length ds in
  do us <- mapM (fun p => let '(i, b) := p in
      let cin := if i =? n - 1 then db_cout b else 2 * db_cout b in
      let cout := if i =? 0 then hd 0 (ua_dims A) else db_cin b in
      ublock_init E S [i] (db_out b) (db_in b) cin cout (ua_ks A) (ua_basis A) a (ua_skip A) (ua_up A)) (rev (List.combine (seq 0 n) ds));
  Some us.
Definition unet_init (E : env) (S : state) (A : unet_args) : option unet :=
  do _ <- guard ((length (ua_depths A) =? length (ua_dims A)) && (1 <=? length (ua_dims A)) && (1 <=? ua_scale A));
  do a <- act_fun (ua_act A);
  do ds <- dblocks_init E S A a 0 (ua_img A) (ua_in A) (List.combine (ua_dims A) (ua_depths A));
  do us <- ublocks_init E S A a ds;
  Some (mkUnet ds us [conv1 S "head" [] (hd 0 (ua_dims A)) (ua_out A) true]).

(** SphericalSegformer (s2segformer.py:646-761) *)
Record seg_args := mkSegA { ga_img : gspec; ga_gint : grid; ga_in : nat; ga_out : nat; ga_dims : list nat; ga_headsl : list nat; ga_depths : list nat; ga_scale_factor : nat; ga_act : act;
  ga_ks : kshape; ga_basis : btype; ga_neigh : bool; ga_cutoff : option R; ga_up : umethod; ga_bias : bool }.
Record seg := mkSeg { sg_blocks : list tblock; sg_ups : list (list layer); sg_head : list layer }.
Fixpoint tblocks_init (E : env) (S : state) (A : seg_args) (a : R -> R) (i : nat) (gi : gspec) (cin : nat) (dims : list (nat * nat * nat)) : option (list tblock) :=
  match dims with
  | [] => Some []
  | (c, h, n) :: dims' =>
      let go := half (ga_scale_factor A) gi (ga_gint A) in
      do b <- tblock_init E S [i] gi go cin c n h (ga_ks A) (ga_basis A) a (ga_neigh A) (ga_bias A) (ga_cutoff A);
      do r <- tblocks_init E S A a (i + 1) go c dims';
      Some (b :: r)
  end.
Definition seg_init (E : env) (S : state) (A : seg_args) : option seg :=
  do _ <- guard ((length (ga_headsl A) =? length (ga_dims A)) && (length (ga_depths A) =? length (ga_dims A)) && (1 <=? ga_scale_factor A));
  do a <- act_fun (ga_act A);
  do bs <- tblocks_init E S A a 0 (ga_img A) (ga_in A) (List.combine (List.combine (ga_dims A) (ga_headsl A)) (ga_depths A));
  do us <- mapM (fun p => let '(i, (b, c)) := p in upsampling E S [i] (tb_out b) (ga_img A) c c (ga_ks A) (ga_basis A) (ga_up A)) (List.combine (seq 0 (length bs)) (List.combine bs (ga_dims A)));
  Some (mkSeg bs us [conv1 S "segmentation_head" [] (sum_list (ga_dims A)) (ga_out A) true]).

(** ** Forward passes *)
Section Forward.
Context {X : Type} (runX : layer -> X -> option X) (addX : X -> X -> option X) (catX : list X -> option X).
Let sq := seqrun runX.
Let sk := add_skip runX addX.

(** for blk in self.blocks: x = blk(x) *)
Fixpoint foldM {B : Type} (f : B -> X -> option X) (bs : list B) (x : X) : option X :=
  match bs with [] => Some x | b :: bs' => do y <- f b x; foldM f bs' y end.

(** sfno.py:154-171 *)
Definition sblock_forward (b : sblock) (x : X) : option X :=
  do y <- runX (LSpec (sb_conv b)) x; do r <- runX (LSpecRes (sb_conv b)) x;
  do y <- sq (sb_norm b) y; do y <- sk (sb_inner b) y r;
  do y <- sq (sb_mlp b) y; sk (sb_outer b) y r.
(** lsno.py:354-376; of the global convolution only the first result is used *)
Definition lblock_forward (b : lblock) (x : X) : option X :=
  do y <- runX (lb_conv b) x;
  do y <- sq (lb_norm b) y; do y <- sk (lb_inner b) y x;
  do y <- sq (lb_mlp b) y; sk (lb_outer b) y x.
(** s2transformer.py:333-362 *)
Definition ablock_forward (b : ablock) (x : X) : option X :=
  do y <- sq (ab_norm0 b) x; do y <- runX (ab_attn b) y; do y <- addX y x;
  do z <- sq (ab_norm1 b) y; do z <- sq (ab_mlp b) z; addX z y.
(** s2unet.py:195-211, 389-401 *)
Definition dblock_forward (b : dblock) (x : X) : option X :=
  do r <- sq (db_skip b) x; do y <- sq (db_fwd b) x; do y <- addX r y; runX (db_down b) y.
Definition ublock_forward (b : ublock) (x : X) : option X :=
  do r <- sq (ub_skip b) x; do y <- sq (ub_fwd b) x; do y <- addX r y; sq (ub_up b) y.
(** s2segformer.py:319-335, 228-248 *)
Definition wblock_forward (b : wblock) (x : X) : option X :=
  do y <- runX (wb_norm b) x; do y <- runX (wb_attn b) y; do x1 <- addX x y;
  do y <- runX (wb_fnorm b) x1; do y <- runX (wb_in b) y; do y <- runX (wb_conv b) y; do y <- runX (LAct (wb_act b)) y; do y <- runX (wb_out b) y;
  addX x1 y.
(** s2segformer.py:475-483 *)
Definition tblock_forward (b : tblock) (x : X) : option X :=
  do y <- sq (tb_merge b) x; do y <- foldM wblock_forward (tb_reps b) y; runX (tb_norm b) y.

(** sfno.py:400-429 *)
Definition sfno_forward (n : sfno) (x : X) : option X :=
  do y <- sq (sf_enc n) x; do y <- sq (sf_pos n) y; do y <- foldM sblock_forward (sf_blocks n) y; do y <- sq (sf_dec n) y;
  sk (sf_res n) y x.
(** lsno.py:592-617 *)
Definition lsno_forward (n : lsno) (x : X) : option X :=
  do y <- sq (ls_enc n) x; do y <- sq (ls_pos n) y; do y <- foldM lblock_forward (ls_blocks n) y; do y <- sq (ls_dec n) y;
  if ls_res n then addX y x else Some y.
(** s2transformer.py:565-591 *)
Definition strans_forward (n : strans) (x : X) : option X :=
  do y <- sq (st_enc n) x; do y <- sq (st_pos n) y; do y <- foldM ablock_forward (st_blocks n) y; do y <- sq (st_dec n) y;
  if st_res n then addX y x else Some y.
(** the features after each block *)
Fixpoint features {B : Type} (f : B -> X -> option X) (bs : list B) (x : X) : option (list X) :=
  match bs with [] => Some [] | b :: bs' => do y <- f b x; do ys <- features f bs' y; Some (y :: ys) end.
(** s2unet.py:584-605; [zip] stops at the shorter list *)
Fixpoint up_path (us : list ublock) (fs : list X) (u : X) : option X :=
  match us, fs with
  | b :: us', f :: fs' => do c <- catX [f; u]; do v <- ublock_forward b c; up_path us' fs' v
  | _, _ => Some u
  end.
Definition unet_forward (n : unet) (x : X) : option X :=
  do fs <- features dblock_forward (un_d n) x;
  match rev fs, un_u n with
  | f0 :: fs', b0 :: us' => do u <- ublock_forward b0 f0; do u <- up_path us' fs' u; sq (un_head n) u
  | _, _ => None
  end.
(** s2segformer.py:773-795 *)
Fixpoint upsample_all (us : list (list layer)) (fs : list X) : option (list X) :=
  match us, fs with
  | u :: us', f :: fs' => do y <- sq u f; do ys <- upsample_all us' fs'; Some (y :: ys)
  | _, _ => Some []
  end.
Definition seg_forward (n : seg) (x : X) : option X :=
  do fs <- features tblock_forward (sg_blocks n) x;
  do us <- upsample_all (sg_ups n) fs;
  do c <- catX us; sq (sg_head n) c.
End Forward.

(** With tensors: the code. *)
Definition sfno_run (E : env) (n : sfno) : tensor R -> option (tensor R) := sfno_forward (run E) badd n.
Definition lsno_run (E : env) (n : lsno) : tensor R -> option (tensor R) := lsno_forward (run E) badd n.
Definition strans_run (E : env) (n : strans) : tensor R -> option (tensor R) := strans_forward (run E) badd n.
Definition unet_run (E : env) (n : unet) : tensor R -> option (tensor R) := unet_forward (run E) badd (torch_cat 1) n.
Definition seg_run (E : env) (n : seg) : tensor R -> option (tensor R) := seg_forward (run E) badd (torch_cat 1) n.
