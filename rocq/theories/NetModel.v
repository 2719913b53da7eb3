(** The building blocks of the example networks
    (torch_harmonics/examples/models/_layers.py and the torch.nn modules those use),
    in evaluation mode, over exact reals.

    Evaluation mode: nn.Dropout, nn.Dropout2d and DropPath (_layers.py:129, 158-160) are
    the identity and are left out.  Casts (x.float(), .to(dtype)) and autocast regions are
    not modelled.  The parameters of a network are arbitrary (its state dictionary); their
    shapes are those the constructors allocate, their initialisation is not modelled. *)
From Coq Require Import String List Arith Lia Bool Reals ZArith.
From Coquelicot Require Import Coquelicot.
From Verif Require Import TensorModel BigSum FFTModel TruncModel LegendreModel QuadModel SHTModel FilterModel DiscoModel PsiModel ResampleModel AttnModel AttnLayerModel.
Import ListNotations.
Local Open Scope list_scope.
Local Open Scope nat_scope.

(** A grid: numbers of latitudes and longitudes, and the type of the latitudes. *)
Record gspec := mkG { g_nlat : nat; g_nlon : nat; g_type : grid }.

(** The state dictionary: values of the real and complex parameters and buffers by name
    (with "{}" for the positions of the given indices) and multi-index. *)
Record state := mkSt { st_r : string -> list nat -> list nat -> R; st_c : string -> list nat -> list nat -> C }.

(** the name of a parameter of a submodule *)
Definition sub (name s : string) : string := String.append name s.

(** What the code takes from outside: numpy's leggauss, the Bessel functions and zeros of
    scipy, the contents of uninitialised memory in the compiled kernels, the attention
    handle and torch's epsilon for rms_norm. *)
Record env := mkEnv { e_gl : nat -> rule; e_jn : nat -> R -> R; e_zeros : nat -> nat -> list R;
  e_junk : nat -> entry; e_junkr : nat -> R; e_op : handle; e_eps : R }.

(** ** torch operations *)

(** a + b for tensors of equal rank, with broadcasting of dimensions of size 1 *)
Fixpoint bshape (s t : list nat) : option (list nat) :=
  match s, t with
  | [], [] => Some []
  | a :: s', b :: t' => do r <- bshape s' t';
      if a =? b then Some (a :: r) else if a =? 1 then Some (b :: r) else if b =? 1 then Some (a :: r) else None
  | _, _ => None
  end.
Fixpoint bidx (s i : list nat) : list nat :=
  match s, i with a :: s', k :: i' => (if a =? 1 then 0 else k) :: bidx s' i' | _, _ => [] end.
Definition badd (a b : tensor R) : option (tensor R) :=
  do s <- bshape (shp a) (shp b);
  Some (mkT s (fun i => val a (bidx (shp a) i) + val b (bidx (shp b) i))%R).

(** nn.LayerNorm over the last dimension, with affine parameters *)
Definition mean_n (n : nat) (f : nat -> R) : R := (rsum n f / INR n)%R.
Definition var_n (n : nat) (f : nat -> R) : R := (rsum n (fun k => (f k - mean_n n f) * (f k - mean_n n f)) / INR n)%R.
Definition layer_norm (eps : R) (w b t : tensor R) : option (tensor R) :=
  do _ <- guard ((ndim w =? 1) && (1 <=? ndim t) && (dimsz t (ndim t - 1) =? dimsz w 0) && shape_eqb (shp b) (shp w));
  Some (mkT (shp t) (fun i =>
    let f := fun c => val t (removelast i ++ [c]) in let n := dimsz w 0 in
    ((val t i - mean_n n f) / sqrt (var_n n f + eps) * val w [last i 0%nat] + val b [last i 0%nat])%R)).
(** layer norm over the channels of a rank-4 channels-first tensor: [tp] = true moves the
    channels with transpose(-3, -1) (LayerNorm, _layers.py:365-374), false with
    permute(0, 2, 3, 1) (s2segformer.py:127-129) *)
Definition chan_norm (tp : bool) (eps : R) (w b t : tensor R) : option (tensor R) :=
  do _ <- guard (ndim t =? 4);
  if tp then do y <- layer_norm eps w b (permute [0; 3; 2; 1] t); Some (permute [0; 3; 2; 1] y)
  else do y <- layer_norm eps w b (permute [0; 2; 3; 1] t); Some (permute [0; 3; 1; 2] y).
(** nn.LayerNorm((nlat, nlon)): over the last two dimensions of a rank-4 tensor *)
Definition mean_p (h w : nat) (f : nat -> nat -> R) : R := (rsum h (fun y => rsum w (fun x => f y x)) / INR (h * w))%R.
Definition var_p (h w : nat) (f : nat -> nat -> R) : R := mean_p h w (fun y x => (f y x - mean_p h w f) * (f y x - mean_p h w f))%R.
Definition plane_norm (eps : R) (w b t : tensor R) : option (tensor R) :=
  do _ <- guard ((ndim t =? 4) && shape_eqb (shp w) [dimsz t 2; dimsz t 3] && shape_eqb (shp b) (shp w));
  Some (mkT (shp t) (fun i =>
    let f := fun y x => val t [nth 0 i 0; nth 1 i 0; y; x] in let h := dimsz t 2 in let n := dimsz t 3 in
    ((val t i - mean_p h n f) / sqrt (var_p h n f + eps) * val w [nth 2 i 0%nat; nth 3 i 0%nat] + val b [nth 2 i 0%nat; nth 3 i 0%nat])%R)).
(** nn.InstanceNorm2d(affine=True, track_running_stats=False): statistics of the instance
    also in evaluation mode; torch refuses a single spatial element *)
Definition instance_norm (eps : R) (w b t : tensor R) : option (tensor R) :=
  do _ <- guard ((ndim t =? 4) && shape_eqb (shp w) [dimsz t 1] && shape_eqb (shp b) (shp w) && negb (dimsz t 2 * dimsz t 3 =? 1));
  Some (mkT (shp t) (fun i =>
    let f := fun y x => val t [nth 0 i 0; nth 1 i 0; y; x] in let h := dimsz t 2 in let n := dimsz t 3 in
    ((val t i - mean_p h n f) / sqrt (var_p h n f + eps) * val w [nth 1 i 0%nat] + val b [nth 1 i 0%nat])%R)).
(** nn.BatchNorm2d in evaluation mode: running statistics *)
Definition batch_norm (eps : R) (mean var w b t : tensor R) : option (tensor R) :=
  do _ <- guard ((ndim t =? 4) && shape_eqb (shp w) [dimsz t 1] && shape_eqb (shp b) (shp w) && shape_eqb (shp mean) (shp w) && shape_eqb (shp var) (shp w));
  Some (mkT (shp t) (fun i => let c := [nth 1 i 0] in
    ((val t i - val mean c) / sqrt (val var c + eps) * val w c + val b c)%R)).

(** the activation functions of the models (e.g. sfno.py:281-289) *)
Inductive act := ActRelu | ActGelu | ActIdentity | ActUnknown.
Definition relu (x : R) : R := Rmax 0 x.
Definition gelu (x : R) : R := (x * (/ 2 + RInt (fun t => exp (- (t * t) / 2) / sqrt (2 * PI)) 0 x))%R.
Definition act_fun (a : act) : option (R -> R) :=
  match a with ActRelu => Some relu | ActGelu => Some gelu | ActIdentity => Some (fun x => x) | ActUnknown => None end.

(** ** SpectralConvS2 of the examples (_layers.py:377-457) *)
Inductive optype := OpDiagonal | OpBlockDiagonal | OpDriscollHealy | OpUnknown.
Record sconvx := mkSX { sx_gi : gspec; sx_go : gspec; sx_f : sht; sx_i : sht; sx_op : optype; sx_w : tensor C; sx_b : option (tensor R) }.
(** a transform together with the grid it was built for (its nlat, nlon, grid attributes) *)
Record transform := mkTr { tr_g : gspec; tr_s : sht }.
(** _layers.py:403-435; modes_lat and modes_lon are those of the inverse transform *)
Definition sconvx_shape (op : optype) (cin cout l m : nat) : option (list nat) :=
  match op with
  | OpDiagonal => Some [cout; cin; l; m] | OpBlockDiagonal => Some [cout; cin; l; m; m]
  | OpDriscollHealy => Some [cout; cin; l] | OpUnknown => None
  end.
Definition sconvx_init (f i : transform) (cin cout : nat) (op : optype) (w : list nat -> C) (bias : option (list nat -> R)) : option sconvx :=
  do s <- sconvx_shape op cin cout (s_lmax (tr_s i)) (s_mmax (tr_s i));
  do _ <- guard (1 <=? cin);
  Some (mkSX (tr_g f) (tr_g i) (tr_s f) (tr_s i) op (mkT s w) (match bias with None => None | Some b => Some (mkT [1; cout; 1; 1] b) end)).
(** _layers.py:412 *)
Definition scale_residual (c : sconvx) : bool :=
  negb (s_nlat (sx_f c) =? s_nlat (sx_i c)) || negb (s_nlon (sx_f c) =? s_nlon (sx_i c)).
(** _layers.py:449: the three einsums; equal sizes are required (torch would also
    broadcast a dimension of size 1) *)
Definition spec_contract (op : optype) (w x : tensor C) : option (tensor C) :=
  let B := dimsz x 0 in let ci := dimsz x 1 in let l := dimsz x 2 in let m := dimsz x 3 in let co := dimsz w 0 in
  do _ <- guard (ndim x =? 4);
  match op with
  | OpDriscollHealy =>
      do _ <- guard (shape_eqb (shp w) [co; ci; l]);
      Some (mkT [B; co; l; m] (fun j => csum ci (fun c => Cmult (val x [nth 0 j 0; c; nth 2 j 0; nth 3 j 0]) (val w [nth 1 j 0; c; nth 2 j 0]))))
  | OpDiagonal =>
      do _ <- guard (shape_eqb (shp w) [co; ci; l; m]);
      Some (mkT [B; co; l; m] (fun j => csum ci (fun c => Cmult (val x [nth 0 j 0; c; nth 2 j 0; nth 3 j 0]) (val w [nth 1 j 0; c; nth 2 j 0; nth 3 j 0]))))
  | OpBlockDiagonal =>
      let n := dimsz w 3 in
      do _ <- guard (shape_eqb (shp w) [co; ci; l; n; m]);
      Some (mkT [B; co; l; n] (fun j => csum ci (fun c => csum m (fun k => Cmult (val x [nth 0 j 0; c; nth 2 j 0; k]) (val w [nth 1 j 0; c; nth 2 j 0; nth 3 j 0; k])))))
  | OpUnknown => None
  end.
(** _layers.py:437-457: the convolved field and the residual *)
Definition sconvx_forward (c : sconvx) (x : tensor R) : option (tensor R * tensor R) :=
  do s <- real_sht (sx_f c) x;
  do r <- (if scale_residual c then inverse_sht (sx_i c) s else Some x);
  do z <- spec_contract (sx_op c) (sx_w c) s;
  do y <- inverse_sht (sx_i c) z;
  do y <- match sx_b c with None => Some y | Some b => badd y b end;
  Some (y, r).

(** ** Layers *)
Inductive layer :=
| LConv1 (w : tensor R) (b : option (tensor R))        (* nn.Conv2d with a 1x1 kernel *)
| LAct (f : R -> R)
| LBatch (eps : R) (mean var w b : tensor R)
| LInst (eps : R) (w b : tensor R)
| LChan (tp : bool) (eps : R) (w b : tensor R)
| LPlane (eps : R) (w b : tensor R)
| LPos (e : tensor R)                                   (* PositionEmbedding.forward, _layers.py:484-486 *)
| LDisco (gi go : gspec) (d : disco_layer)              (* DiscreteContinuousConvS2 *)
| LTDisco (gi go : gspec) (d : disco_layer)             (* DiscreteContinuousConvTransposeS2 *)
| LResample (gi go : gspec) (r : resampler)             (* ResampleS2 *)
| LSht (gi go : gspec) (s i : sht)                      (* nn.Sequential(RealSHT, InverseRealSHT) *)
| LSpec (c : sconvx)                                    (* first result of SpectralConvS2 *)
| LSpecRes (c : sconvx)                                 (* second result of SpectralConvS2 *)
| LNAttn (gi go : gspec) (L : nalayer)                  (* NeighborhoodAttentionS2, self-attention *)
| LGAttn (gi go : gspec) (L : galayer).                 (* AttentionS2, self-attention *)

Definition run (E : env) (l : layer) (x : tensor R) : option (tensor R) :=
  match l with
  | LConv1 w b => conv1x1 w b x
  | LAct f => Some (map_t f x)
  | LBatch eps m v w b => batch_norm eps m v w b x
  | LInst eps w b => instance_norm eps w b x
  | LChan tp eps w b => chan_norm tp eps w b x
  | LPlane eps w b => plane_norm eps w b x
  | LPos e => badd x e
  | LDisco _ _ d => conv_s2_opt (e_junkr E) d x
  | LTDisco _ _ d => conv_transpose_s2_opt d x
  | LResample _ _ r => resample r x
  | LSht _ _ s i => do c <- real_sht s x; inverse_sht i c
  | LSpec c => do p <- sconvx_forward c x; Some (fst p)
  | LSpecRes c => do p <- sconvx_forward c x; Some (snd p)
  | LNAttn _ _ L => na_forward (e_op E) (e_eps E) L x None None
  | LGAttn _ _ L => ga_forward (e_eps E) L x None None
  end.

(** ** Constructors of layers *)

(** nn.Conv2d(cin, cout, 1, bias) *)
Definition conv1 (S : state) (name : string) (ix : list nat) (cin cout : nat) (bias : bool) : layer :=
  LConv1 (mkT [cout; cin; 1; 1] (st_r S (sub name ".weight") ix)) (if bias then Some (mkT [cout] (st_r S (sub name ".bias") ix)) else None).
(** int() of a non-negative product; negative numbers of features are refused by torch *)
Definition py_int (r : R) : option nat := do _ <- guard (Rleb 0 r); Some (Z.to_nat (Int_part r)).
(** MLP (_layers.py:231-272); [hidden or in_features] *)
Definition mlp (S : state) (name : string) (ix : list nat) (cin hidden cout : nat) (f : R -> R) (output_bias : bool) : list layer :=
  let cout := if cout =? 0 then cin else cout in
  let hidden := if hidden =? 0 then cin else hidden in
  [conv1 S (sub name ".fwd.0") ix cin hidden true; LAct f; conv1 S (sub name ".fwd.2") ix hidden cout output_bias].

(** theta_cutoff of the examples (lsno.py:43-46 and its copies in s2transformer.py,
    s2unet.py, s2segformer.py): kernel_shape is subscripted, the dictionary has three keys *)
Definition cutoff_factor (b : btype) : option R :=
  match b with BPiecewise | BMorlet => Some (/ 2)%R | BZernike => Some (sqrt 2) | _ => None end.
Definition cutoff_radius (nlat : nat) (ks : kshape) (b : btype) : option R :=
  match ks with
  | KList (k :: _) => do f <- cutoff_factor b; do _ <- guard (negb (nlat =? 1)); Some ((INR k + 1) * f * PI / (INR nlat - 1))%R
  | _ => None
  end.
(** DiscreteContinuousConvS2 (disco/convolution.py:420-455, 534-600) with the default
    basis_norm_mode "nodal".  sqrt(1 / groupsize) raises for groupsize 0. *)
Definition disco (E : env) (S : state) (name : string) (ix : list nat) (cin cout : nat) (gi go : gspec) (ks : kshape) (b : btype) (groups : nat) (bias : bool) (cutoff : R) : option layer :=
  do fb <- get_filter_basis (e_jn E) (e_zeros E) ks b;
  do _ <- guard ((1 <=? groups) && (cin mod groups =? 0) && (cout mod groups =? 0) && (1 <=? cin / groups));
  do es <- conv_psi (e_gl E) (g_nlat gi) (g_nlon gi) (g_nlat go) (g_nlon go) fb (g_type gi) (g_type go) (Some cutoff) NNodal;
  do d <- conv_s2_init (e_junk E) (g_nlat gi) (g_nlon gi) (g_nlat go) (g_nlon go) groups (fb_size fb)
            (mkT [cout; cin / groups; fb_size fb] (st_r S (sub name ".weight") ix)) (if bias then Some (mkT [cout] (st_r S (sub name ".bias") ix)) else None) es;
  Some (LDisco gi go d).
(** DiscreteContinuousConvTransposeS2 (disco/convolution.py:420-455, 900-960) *)
Definition tdisco (E : env) (S : state) (name : string) (ix : list nat) (cin cout : nat) (gi go : gspec) (ks : kshape) (b : btype) (groups : nat) (bias : bool) (cutoff : R) : option layer :=
  do fb <- get_filter_basis (e_jn E) (e_zeros E) ks b;
  do _ <- guard ((1 <=? groups) && (cin mod groups =? 0) && (cout mod groups =? 0) && (1 <=? cin / groups));
  do es <- tconv_psi (e_gl E) (g_nlat gi) (g_nlon gi) (g_nlat go) (g_nlon go) fb (g_type gi) (g_type go) (Some cutoff) NNodal;
  do d <- conv_transpose_s2_init (e_junk E) (g_nlat gi) (g_nlon gi) (g_nlat go) (g_nlon go) groups (fb_size fb)
            (mkT [cout; cin / groups; fb_size fb] (st_r S (sub name ".weight") ix)) (if bias then Some (mkT [cout] (st_r S (sub name ".bias") ix)) else None) es;
  Some (LTDisco gi go d).
(** ResampleS2 (resample.py:100-179) *)
Definition resampling (E : env) (gi go : gspec) (mode : rmode) : option layer :=
  do r <- resample_init (e_gl E) (g_nlat gi) (g_nlon gi) (g_nlat go) (g_nlon go) (g_type gi) (g_type go) mode;
  Some (LResample gi go r).
(** RealSHT( *shape, lmax, mmax, grid) and InverseRealSHT with default norm and phase *)
Definition sht_of (E : env) (g : gspec) (lmax mmax : option nat) : option transform :=
  do s <- real_sht_init (e_gl E) (g_nlat g) (g_nlon g) lmax mmax (g_type g) Ortho true; Some (mkTr g s).
Definition isht_of (E : env) (g : gspec) (lmax mmax : option nat) : option transform :=
  do s <- inverse_sht_init (e_gl E) (g_nlat g) (g_nlon g) lmax mmax (g_type g) Ortho true; Some (mkTr g s).
(** NeighborhoodAttentionS2 (attention/attention.py:314-451) with k_channels None, scale
    None, no query/key normalisation *)
Definition nattn (E : env) (S : state) (name : string) (ix : list nat) (cin cout : nat) (gi go : gspec) (heads : nat) (bias : bool) (cutoff : R) : option layer :=
  do _ <- guard (na_checks (g_nlon gi) (g_nlon go) heads cin cout && (1 <=? cin) && (1 <=? cout));
  do p <- na_pattern (e_gl E) (g_nlat gi) (g_nlon gi) (g_nlat go) (g_nlon go) (g_type gi) (g_type go) (Some cutoff);
  let b s n := if bias then Some (mkT [n] (st_r S (sub name s) ix)) else None in
  Some (LNAttn gi go (mkNA (g_nlat gi) (g_nlon gi) (g_nlat go) (g_nlon go) heads
    (mkT [cin; cin; 1; 1] (st_r S (sub name ".q_weights") ix)) (mkT [cin; cin; 1; 1] (st_r S (sub name ".k_weights") ix))
    (mkT [cout; cin; 1; 1] (st_r S (sub name ".v_weights") ix)) (mkT [cout; cout; 1; 1] (st_r S (sub name ".proj_weights") ix))
    (b ".q_bias"%string cin) (b ".k_bias"%string cin) (b ".v_bias"%string cout) (b ".proj_bias"%string cout) None None
    (na_scale_of None cin heads) (fst (fst p)) (snd (fst p)) (snd p))).
(** AttentionS2 (attention/attention.py:97-169), likewise *)
Definition gattn (E : env) (S : state) (name : string) (ix : list nat) (cin cout : nat) (gi go : gspec) (heads : nat) (bias : bool) : option layer :=
  do _ <- guard ((1 <=? g_nlon go) && (g_nlon gi mod g_nlon go =? 0) && (1 <=? heads) && (cin mod heads =? 0) && (cout mod heads =? 0) && (1 <=? cin) && (1 <=? cout));
  do q <- precompute_latitudes (e_gl E) (g_nlat gi) (g_type gi);
  let b s n := if bias then Some (mkT [n] (st_r S (sub name s) ix)) else None in
  Some (LGAttn gi go (mkGA (g_nlat gi) (g_nlon gi) (g_nlat go) (g_nlon go) heads
    (mkT [cin; cin; 1; 1] (st_r S (sub name ".q_weights") ix)) (mkT [cin; cin; 1; 1] (st_r S (sub name ".k_weights") ix))
    (mkT [cout; cin; 1; 1] (st_r S (sub name ".v_weights") ix)) (mkT [cout; cout; 1; 1] (st_r S (sub name ".proj_weights") ix))
    (b ".q_bias"%string cin) (b ".k_bias"%string cin) (b ".v_bias"%string cout) (b ".proj_bias"%string cout) None None
    None (fun i => 2 * PI * rw q i / INR (g_nlon gi))%R)).

(** ** Position embeddings *)
Inductive posembed := PosSequence | PosSpectral | PosLearnLat | PosLearnLatLon | PosNone | PosUnknown.
(** SequencePositionEmbedding (_layers.py:506-518) *)
Definition sequence_embedding (h w chans : nat) : tensor R :=
  mkT [1; chans; h; w] (fun i => let k := nth 1 i 0 in
    let p := (INR (nth 2 i 0%nat * w + nth 3 i 0%nat) / Rpower 10000 (2 * INR k / INR chans))%R in
    if k mod 2 =? 0 then sin p else cos p).
(** SpectralPositionEmbedding (_layers.py:539-565): channel i carries degree l = floor(sqrt i)
    and order m = i - l^2 - l.  Assignments out of range raise; a channel whose maximum is 0
    becomes NaN (None here). *)
Definition emb_l (i : nat) : nat := Nat.sqrt i.
Definition emb_m (i : nat) : Z := (Z.of_nat i - Z.of_nat (emb_l i * emb_l i) - Z.of_nat (emb_l i))%Z.
Definition emb_freq (chans lmax mmax : nat) : option (tensor C) :=
  do _ <- guard (forallb (fun i => (emb_l i <? lmax) && (Z.abs_nat (emb_m i) <? mmax)) (seq 0 chans));
  Some (mkT [1; chans; lmax; mmax] (fun j => let i := nth 1 j 0 in
    if (nth 2 j 0 =? emb_l i) && (nth 3 j 0 =? Z.abs_nat (emb_m i)) then (if (emb_m i <? 0)%Z then Ci else RtoC 1) else RtoC 0)).
(** torch.amax(t.abs(), dim=(-1, -2)) of channel i of a tensor [1; chans; h; w] *)
Definition chan_amax (h w : nat) (t : tensor R) (i : nat) : R :=
  fold_right Rmax 0%R (flat_map (fun y => map (fun x => Rabs (val t [0; i; y; x])) (seq 0 w)) (seq 0 h)).
Definition spectral_embedding (E : env) (g : gspec) (chans : nat) : option (tensor R) :=
  do s <- isht_of E g None None;
  do f <- emb_freq chans (s_lmax (tr_s s)) (s_mmax (tr_s s));
  do e <- inverse_sht (tr_s s) f;
  do _ <- guard (forallb (fun i => Rltb 0 (chan_amax (g_nlat g) (g_nlon g) e i)) (seq 0 chans));
  Some (mkT (shp e) (fun j => val e j / chan_amax (g_nlat g) (g_nlon g) e (nth 1 j 0%nat))%R).
(** the selection in the models (sfno.py:299-310, lsno.py:529-540, s2transformer.py:507-518) *)
Definition pos_layers (E : env) (S : state) (g : gspec) (chans : nat) (p : posembed) : option (list layer) :=
  match p with
  | PosSequence => Some [LPos (sequence_embedding (g_nlat g) (g_nlon g) chans)]
  | PosSpectral => do e <- spectral_embedding E g chans; Some [LPos e]
  | PosLearnLat => Some [LPos (mkT [1; chans; g_nlat g; 1] (st_r S "pos_embed.position_embeddings" []))]
  | PosLearnLatLon => Some [LPos (mkT [1; chans; g_nlat g; g_nlon g] (st_r S "pos_embed.position_embeddings" []))]
  | PosNone => Some []
  | PosUnknown => None
  end.

(** ** Normalisation layers *)
Inductive normkind := NormLayer | NormInstance | NormNone | NormUnknown.
Definition eps6 : R := (/ 10 ^ 6)%R.
Definition eps5 : R := (/ 10 ^ 5)%R.
Definition inst (S : state) (name : string) (ix : list nat) (c : nat) : layer :=
  LInst eps6 (mkT [c] (st_r S (sub name ".weight") ix)) (mkT [c] (st_r S (sub name ".bias") ix)).
Definition batch (S : state) (name : string) (ix : list nat) (c : nat) : layer :=
  LBatch eps5 (mkT [c] (st_r S (sub name ".running_mean") ix)) (mkT [c] (st_r S (sub name ".running_var") ix))
    (mkT [c] (st_r S (sub name ".weight") ix)) (mkT [c] (st_r S (sub name ".bias") ix)).
(** nn.LayerNorm((c), eps=1e-5) between two permutations *)
Definition chan (S : state) (name : string) (ix : list nat) (c : nat) : layer :=
  LChan false eps5 (mkT [c] (st_r S (sub name ".weight") ix)) (mkT [c] (st_r S (sub name ".bias") ix)).
(** sfno.py:115-123, lsno.py:308-316: [go] is the grid of the inverse transform *)
Definition block_norm (S : state) (ix : list nat) (go : gspec) (c : nat) (k : normkind) : option (list layer) :=
  match k with
  | NormLayer => let s := [g_nlat go; g_nlon go] in
      Some [LPlane eps6 (mkT s (st_r S "blocks.{}.norm.weight" ix)) (mkT s (st_r S "blocks.{}.norm.bias" ix))]
  | NormInstance => Some [inst S "blocks.{}.norm" ix c]
  | NormNone => Some []
  | NormUnknown => None
  end.
(** s2transformer.py:268-279: the wrapper of _layers.py:365-374 (whose eps is 1e-6 whatever
    its argument) *)
Definition attn_norm (S : state) (name : string) (ix : list nat) (c : nat) (k : normkind) : option (list layer) :=
  match k with
  | NormLayer => Some [LChan true eps6 (mkT [c] (st_r S (sub name ".norm.weight") ix)) (mkT [c] (st_r S (sub name ".norm.bias") ix))]
  | NormInstance => Some [inst S name ix c]
  | NormNone => Some []
  | NormUnknown => None
  end.
Inductive skipkind := SkipLinear | SkipIdentity | SkipNone | SkipUnknown.
(** sfno.py:101-112, 137-148 and lsno.py:295-306, 337-348 *)
Definition skip_layers (S : state) (name : string) (ix : list nat) (cin cout : nat) (equal : bool) (k : skipkind) : option (option (list layer)) :=
  match k with
  | SkipLinear => Some (Some [conv1 S name ix cin cout true])
  | SkipIdentity => do _ <- guard equal; Some (Some [])
  | SkipNone => Some None
  | SkipUnknown => None
  end.

(** ** Forward passes of the blocks, over any carrier of fields

    [X] is the type of the values that flow through a network, with the three operations
    the forward methods use.  With tensors this is the code; other carriers are used to
    state what the layers are applied to. *)
Section Forward.
Context {X : Type} (runX : layer -> X -> option X) (addX : X -> X -> option X) (catX : list X -> option X).
(** nn.Sequential; nn.Identity is the empty list *)
Fixpoint seqrun (ls : list layer) (x : X) : option X :=
  match ls with [] => Some x | l :: ls' => do y <- runX l x; seqrun ls' y end.
(** if hasattr(self, "skip"): x = x + self.skip(residual) *)
Definition add_skip (sk : option (list layer)) (x res : X) : option X :=
  match sk with None => Some x | Some ls => do r <- seqrun ls res; addX x r end.
End Forward.
