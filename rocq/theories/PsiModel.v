(** The precomputed DISCO filter tensor psi: geometry and normalisation
    (torch_harmonics/disco/convolution.py) over exact reals. *)
From Coq Require Import List Arith ZArith Bool Reals.
From Verif Require Import TensorModel BigSum ResampleModel TruncModel QuadModel DiscoModel FilterModel.
Import ListNotations.
Local Open Scope R_scope.

(** ** _normalize_convolution_tensor_s2, 69-232 *)

(** 139-152 names; the two deprecated aliases *)
Inductive nmode := NNodal | NModal | NMean | NSupport | NGeometric | NNone | NIndividual | NAreaRatio | NUnknown.
Definition nresolve (m : nmode) : nmode := match m with NIndividual => NNodal | NAreaRatio => NGeometric | _ => m end.

Section Normalize.
(** in_shape, out_shape, kernel_size; quad_weights with nq entries; theta_cutoff;
    transpose_normalization, merge_quadrature, isotropic_mask, eps *)
Variables (nlat_in nlon_in nlat_out nlon_out K nq : nat) (quad : nat -> R) (cutoff : R) (tr merge : bool) (mask : option (list bool)) (eps : R).
(** 154-167 *)
Definition n_olat (e : entry) : nat := if tr then (col e / nlon_in)%nat else row e.
Definition n_ilat (e : entry) : nat := if tr then row e else (col e / nlon_in)%nat.
Definition n_nlat : nat := if tr then nlat_in else nlat_out.
(** 169-174 *)
Definition n_q (e : entry) : R := quad (n_ilat e).
Definition n_gid (e : entry) : nat := (ker e * n_nlat + n_olat e)%nat.
(** zeros(n_groups).scatter_add_(0, gid, f) *)
Definition scatter_add (f : entry -> R) (es : list entry) : nat -> R :=
  fold_left (fun a e => aset (n_gid e) (a (n_gid e) + f e) a) es (fun _ => 0).
(** 176-179 *)
Definition n_support (es : list entry) : nat -> R := scatter_add n_q es.
(** 181-196; iso[0] = True without a mask *)
Definition n_iso (k : nat) : bool := match mask with Some m => nth k m false | None => (k =? 0)%nat end.
Definition n_bias (mode : nmode) (es : list entry) : nat -> R :=
  match mode with
  | NModal =>
      let num := scatter_add (fun e => pv e * n_q e * b2r (negb (n_iso (ker e)))) es in
      fun g => if Rltb eps (Rabs (n_support es g)) then num g / Rmax (n_support es g) eps else 0
  | _ => fun _ => 0
  end.
(** 198-202 *)
Definition n_scale (mode : nmode) (es : list entry) : nat -> R :=
  scatter_add (fun e => Rabs (pv e - n_bias mode es (n_gid e)) * n_q e) es.
(** mean(dim=1) of the (K, nlat) view *)
Definition n_mean (a : nat -> R) (k : nat) : R := rsum n_nlat (fun t => a (k * n_nlat + t)%nat) / INR n_nlat.
(** 204-224 *)
Definition n_value (mode : nmode) (es : list entry) (e : entry) : option R :=
  match mode with
  | NNodal | NModal => Some ((pv e - n_bias mode es (n_gid e)) / Rmax (n_scale mode es (n_gid e)) eps)
  | NMean => Some ((pv e - n_mean (n_bias mode es) (ker e)) / Rmax (n_mean (n_scale mode es) (ker e)) eps)
  | NSupport => Some (pv e / Rmax (n_support es (n_gid e)) eps)
  | NGeometric => Some (pv e / Rmax ((1 - cos cutoff) / 2 / 2) eps)
  | NNone => Some (pv e)
  | _ => None
  end.
(** the index checks of indexing and scatter_add_; a mask that is too short is only
    read in modal mode *)
Definition n_checks (mode : nmode) (es : list entry) : bool :=
  forallb (fun e => (n_gid e <? K * n_nlat)%nat && (n_ilat e <? nq)%nat && (ker e <? K)%nat &&
    match mode, mask with NModal, Some m => (ker e <? length m)%nat | _, _ => true end) es &&
  match mode, mask with NModal, None => (1 <=? K)%nat | _, _ => true end.
(** 226-232 *)
Definition n_merge (e : entry) (v : R) : R :=
  let v := if merge then v * n_q e else v in
  if tr && merge then v / (INR nlon_out / INR nlon_in) else v.
Definition normalize_psi (mode : nmode) (es : list entry) : option (list R) :=
  let mode := nresolve mode in
  do _ <- guard (n_checks mode es);
  do _ <- guard (match mode with NUnknown => false | _ => true end);
  mapM (fun e => do v <- n_value mode es e; Some (n_merge e v)) es.
End Normalize.

(** ** _precompute_convolution_tensor_s2, 235-393 *)

(** torch.arctan2 *)
Definition atan2 (y x : R) : R :=
  if Rltb 0 x then atan (y / x)
  else if Rltb x 0 then (if Rleb 0 y then atan (y / x) + PI else atan (y / x) - PI)
  else if Rltb 0 y then PI / 2 else if Rltb y 0 then - (PI / 2) else 0.
Section Geometry.
(** lats_in, lons_in and the output latitude *)
Variables (gamma beta lat_out : R).
Let alpha := - lat_out.
(** 345-347 *)
Definition g_x : R := cos alpha * cos beta * sin gamma + cos gamma * sin alpha.
Definition g_y : R := sin beta * sin gamma.
Definition g_z : R := - cos beta * sin alpha * sin gamma + cos alpha * cos gamma.
(** 351-354 *)
Definition g_norm : R := sqrt (g_x * g_x + g_y * g_y + g_z * g_z).
(** 357-359 *)
Definition g_theta : R := acos (g_z / g_norm).
Definition g_phi : R := let p := atan2 (g_y / g_norm) (g_x / g_norm) in if Rltb p 0 then p + 2 * PI else p.
End Geometry.

(** 338-370: one output latitude *)
Definition psi_row (fb : fbasis) (nlat_in nlon_in : nat) (lats_in lats_out : nat -> R) (cutoff_eff : R) (t : nat) : option (list entry) :=
  do s <- fb_support fb nlat_in nlon_in
            (fun i j => g_theta (lats_in i) (precompute_longitudes nlon_in j) (lats_out t))
            (fun i j => g_phi (lats_in i) (precompute_longitudes nlon_in j) (lats_out t)) cutoff_eff;
  Some (map (fun e => let '((k, i, j), v) := e in mkE k t (i * nlon_in + j) v) s).
(** 335-337, 370: row offsets *)
Fixpoint psi_roff (o : nat) (rows : list (list entry)) : list nat :=
  o :: match rows with [] => [] | r :: rows' => psi_roff (o + length r) rows' end.
Definition set_val (e : entry) (v : R) : entry := mkE (ker e) (row e) (col e) v.
(** theta_eps = 1e-3 and eps = 1e-9 are the defaults and never overridden.
    torch.cat of no tensors (nlat_out = 0) raises, as does precompute_latitudes. *)
Definition precompute_psi (gl : nat -> rule) (nlat_in nlon_in nlat_out nlon_out : nat) (fb : fbasis) (grid_in grid_out : grid)
  (cutoff : R) (tr : bool) (mode : nmode) (merge : bool) : option (list entry * list nat) :=
  do qi <- precompute_latitudes gl nlat_in grid_in;
  do qo <- precompute_latitudes gl nlat_out grid_out;
  let quad := fun i => (if tr then rw qo i else rw qi i) / INR nlon_in / 2 in
  let cutoff_eff := (1 + 1 / 1000) * cutoff in
  do rows <- mapM (psi_row fb nlat_in nlon_in (rn qi) (rn qo) cutoff_eff) (seq 0 nlat_out);
  do _ <- guard (1 <=? nlat_out)%nat;
  do m <- fb_mask fb;
  let es := concat rows in
  do vs <- normalize_psi nlat_in nlon_in nlat_out nlon_out (fb_size fb) (if tr then nlat_out else nlat_in) quad cutoff tr merge (Some m) (/ 10 ^ 9) mode es;
  Some (map (fun p => set_val (fst p) (snd p)) (List.combine es vs), psi_roff 0 rows).

(** ** Constructors *)

(** convolution.py:558-587 (DiscreteContinuousConvS2) and 920-950 (the transposed
    layer, which exchanges the grids): the filter handed to preprocess_psi.
    theta_cutoff None stands for pi / (nlat - 1) of the output (transposed: input)
    grid; a division by zero raises. *)
Definition default_cutoff (nlat : nat) (c : option R) : option R :=
  match c with
  | Some c => Some c
  | None => do _ <- guard (negb (nlat =? 1)%nat); Some (PI / (INR nlat - 1))
  end.
Definition conv_psi (gl : nat -> rule) (nlat_in nlon_in nlat_out nlon_out : nat) (fb : fbasis) (grid_in grid_out : grid)
  (cutoff : option R) (mode : nmode) : option (list entry) :=
  do _ <- guard ((1 <=? nlon_out)%nat && (nlon_in mod nlon_out =? 0)%nat);
  do c <- default_cutoff nlat_out cutoff;
  do _ <- guard (Rltb 0 c);
  do r <- precompute_psi gl nlat_in nlon_in nlat_out nlon_out fb grid_in grid_out c false mode true;
  Some (fst r).
Definition tconv_psi (gl : nat -> rule) (nlat_in nlon_in nlat_out nlon_out : nat) (fb : fbasis) (grid_in grid_out : grid)
  (cutoff : option R) (mode : nmode) : option (list entry) :=
  do _ <- guard ((1 <=? nlon_in)%nat && (nlon_out mod nlon_in =? 0)%nat);
  do c <- default_cutoff nlat_in cutoff;
  do _ <- guard (Rltb 0 c);
  do r <- precompute_psi gl nlat_out nlon_out nlat_in nlon_in fb grid_out grid_in c true mode true;
  Some (fst r).

(** attention.py:332-409 (NeighborhoodAttentionS2): direction, cutoff, weights and
    pattern (col_idx, roff_idx).  Of the channel checks see AttnLayerModel. *)
Definition na_upsample (nlon_in nlon_out : nat) : bool := ((nlon_out mod nlon_in =? 0) && negb (nlon_in mod nlon_out =? 0))%nat.
Definition na_pattern (gl : nat -> rule) (nlat_in nlon_in nlat_out nlon_out : nat) (grid_in grid_out : grid) (cutoff : option R)
  : option ((nat -> R) * list nat * list nat) :=
  do _ <- guard ((1 <=? nlon_in) && (1 <=? nlon_out))%nat;
  let up := na_upsample nlon_in nlon_out in
  do _ <- guard ((nlon_in mod nlon_out =? 0)%nat || up);
  do c <- default_cutoff (if up then nlat_in else nlat_out) cutoff;
  do _ <- guard (Rltb 0 c);
  do q <- precompute_latitudes gl nlat_in grid_in;
  let quad := fun i => 2 * PI * rw q i / INR nlon_in in
  do fb <- zk_basis (KInt 1);
  do r <- (if up then precompute_psi gl nlat_out nlon_out nlat_in nlon_in fb grid_out grid_in c true NNone true
           else precompute_psi gl nlat_in nlon_in nlat_out nlon_out fb grid_in grid_out c false NNone true);
  Some (quad, map col (fst r), snd r).
