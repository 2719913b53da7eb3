(** Resampling (torch_harmonics/resample.py) over exact reals. *)
From Coq Require Import List Arith Lia Bool Reals ZArith.
From Coquelicot Require Import Coquelicot.
From Verif Require Import TensorModel BigSum FFTModel TruncModel QuadModel.
Import ListNotations.
Local Open Scope R_scope.

Inductive rmode := MBilinear | MSpherical | MUnknown.

(** Boolean comparisons on reals. *)
Definition Rleb (x y : R) : bool := if Rle_dec x y then true else false.
Definition Rltb (x y : R) : bool := if Rlt_dec x y then true else false.
Definition Reqb (x y : R) : bool := if Req_EM_T x y then true else false.

(** Python/torch index [z] into a dimension of size [n]: negative indices count
    from the end, out of range raises. *)
Definition pyidx_ok (n : nat) (z : Z) : bool := ((- Z.of_nat n <=? z) && (z <? Z.of_nat n))%Z.
Definition pyidx (n : nat) (z : Z) : nat := Z.to_nat (if (z <? 0)%Z then z + Z.of_nat n else z)%Z.

(** torch.searchsorted(xs, v, side="right") for a sorted sequence of n values:
    the number of entries <= v. *)
Definition searchsorted_right (n : nat) (xs : nat -> R) (v : R) : nat :=
  length (filter (fun i => Rleb (xs i) v) (seq 0 n)).

Record resampler := mkRes { rs_mode : rmode; rs_nlat_in : nat; rs_nlon_in : nat; rs_nlat_out : nat; rs_nlon_out : nat;
  rs_expand : bool; rs_skip : bool;
  rs_lat_idx : nat -> Z; rs_lat_w : nat -> R; rs_lon_l : nat -> Z; rs_lon_r : nat -> Z; rs_lon_w : nat -> R }.

(** resample.py:143: does some output latitude lie outside the input range? *)
Definition need_expand (n_in n_out : nat) (lats_in lats_out : nat -> R) : bool :=
  existsb (fun i => Rltb (lats_in (n_in - 1)%nat) (lats_out i)) (seq 0 n_out)
  || existsb (fun i => Rltb (lats_out i) (lats_in 0%nat)) (seq 0 n_out).
(** 144-147: input latitudes with the poles added *)
Definition lats_ext (n_in : nat) (lats_in : nat -> R) (i : nat) : R :=
  if (i =? 0)%nat then 0 else if (i =? n_in + 1)%nat then PI else lats_in (i - 1)%nat.
(** 149-152: [n] is the number of (possibly extended) input latitudes *)
Definition lat_index (n : nat) (xs : nat -> R) (v : R) : Z :=
  let z := (Z.of_nat (searchsorted_right n xs v) - 1)%Z in
  if Reqb v (xs (n - 1)%nat) then (z - 1)%Z else z.
(** 158: the two indexing operations raise when out of range *)
Definition lat_weight_ok (n : nat) (xs : nat -> R) (v : R) : bool :=
  pyidx_ok n (lat_index n xs v) && pyidx_ok (n - 1) (lat_index n xs v).
Definition lat_weight (n : nat) (xs : nat -> R) (v : R) : R :=
  let z := lat_index n xs v in
  let j := pyidx (n - 1) z in
  (v - xs (pyidx n z)) / (xs (j + 1)%nat - xs j).
(** 166-167 *)
Definition lon_left (n : nat) (xs : nat -> R) (v : R) : Z := (Z.of_nat (searchsorted_right n xs v) - 1)%Z.
Definition lon_right (n : nat) (xs : nat -> R) (v : R) : Z :=
  if Rleb (xs (n - 1)%nat) v then 0%Z else (lon_left n xs v + 1)%Z.
(** 170-172.  Division by zero (nlon_in = 1) gives inf/nan in the code; the
    model's [lon_weight_ok] marks it. *)
Definition lon_diff (n : nat) (xs : nat -> R) (v : R) : R :=
  let d := xs (pyidx n (lon_right n xs v)) - xs (pyidx n (lon_left n xs v)) in
  if Rltb d 0 then d + 2 * PI else d.
Definition lon_weight_ok (n : nat) (xs : nat -> R) (v : R) : bool :=
  pyidx_ok n (lon_right n xs v) && pyidx_ok n (lon_left n xs v) && negb (Reqb (lon_diff n xs v) 0).
Definition lon_weight (n : nat) (xs : nat -> R) (v : R) : R :=
  (v - xs (pyidx n (lon_left n xs v))) / lon_diff n xs v.

Definition grid_eqb (g h : grid) : bool :=
  match g, h with
  | GLegendreGauss, GLegendreGauss | GLobatto, GLobatto | GEquiangular, GEquiangular | GTrapezoidal, GTrapezoidal => true
  | _, _ => false
  end.

(** resample.py:110-179 [ResampleS2.__init__] (and distributed_resample.py:76-155,
    which repeats it).  None = some step raised or produced a non-finite weight. *)
Definition resample_init (gl : nat -> rule) (nlat_in nlon_in nlat_out nlon_out : nat) (g_in g_out : grid) (mode : rmode) : option resampler :=
  match mode with
  | MUnknown => None
  | _ =>
    do qi <- precompute_latitudes gl nlat_in g_in;
    do qo <- precompute_latitudes gl nlat_out g_out;
    let ex := need_expand nlat_in nlat_out (rn qi) (rn qo) in
    let n := if ex then (nlat_in + 2)%nat else nlat_in in
    let xs := if ex then lats_ext nlat_in (rn qi) else rn qi in
    let lons_in := precompute_longitudes nlon_in in
    let lons_out := precompute_longitudes nlon_out in
    if (nlon_in =? 0)%nat || (nlon_out =? 0)%nat then None else
    if forallb (fun i => lat_weight_ok n xs (rn qo i)) (seq 0 nlat_out)
       && forallb (fun j => lon_weight_ok nlon_in lons_in (lons_out j)) (seq 0 nlon_out)
    then Some (mkRes mode nlat_in nlon_in nlat_out nlon_out ex
                ((nlon_in =? nlon_out)%nat && (nlat_in =? nlat_out)%nat && grid_eqb g_in g_out)
                (fun i => lat_index n xs (rn qo i)) (fun i => lat_weight n xs (rn qo i))
                (fun j => lon_left nlon_in lons_in (lons_out j)) (fun j => lon_right nlon_in lons_in (lons_out j))
                (fun j => lon_weight nlon_in lons_in (lons_out j)))
    else None
  end.

(** x[..., idx, ...] along dimension d *)
Definition index_dim {A} (d n : nat) (idx : nat -> Z) (t : tensor A) : option (tensor A) :=
  if forallb (fun j => pyidx_ok (dimsz t d) (idx j)) (seq 0 n)
  then Some (mkT (upd d n (shp t)) (fun i => val t (upd d (pyidx (dimsz t d) (idx (nth d i 0%nat))) i)))
  else None.

(** The interpolation formula: torch.lerp for bilinear (188), 190-194 for spherical. *)
Definition slerp_start (w om : R) : R := if Rltb (/ 10 ^ 4) (sin om) then sin ((1 - w) * om) / sin om else 1 - w.
Definition slerp_end (w om : R) : R := if Rltb (/ 10 ^ 4) (sin om) then sin (w * om) / sin om else w.
Definition combine (mode : rmode) (a b w : R) : R :=
  match mode with
  | MBilinear => a + w * (b - a)
  | _ => slerp_start w (b - a) * a + slerp_end w (b - a) * b
  end.

(** 184-196 [_upscale_longitudes], 207-219 [_upscale_latitudes]: both combine two
    indexed copies along one dimension. *)
Definition upscale (mode : rmode) (d n : nat) (il ir : nat -> Z) (w : nat -> R) (x : tensor R) : option (tensor R) :=
  do a <- index_dim d n il x;
  do b <- index_dim d n ir x;
  Some (mkT (shp a) (fun i => combine mode (val a i) (val b i) (w (nth d i 0%nat)))).

(** 198-205 [_expand_poles] with latitude dim [dh] and longitude dim [dw] *)
Definition expand_with (dh : nat) (north south : list nat -> R) (x : tensor R) : tensor R :=
  let h := dimsz x dh in
  mkT (upd dh (h + 2) (shp x))
      (fun i => let r := nth dh i 0%nat in
                if (r =? 0)%nat then north i else if (r =? h + 1)%nat then south i
                else val x (upd dh (r - 1) i)).
Definition row_sum (dh dw row : nat) (x : tensor R) (i : list nat) : R :=
  rsum (dimsz x dw) (fun j => val x (upd dw j (upd dh row i))).
Definition expand_poles (dh dw : nat) (x : tensor R) : tensor R :=
  expand_with dh (fun i => row_sum dh dw 0 x i / INR (dimsz x dw))
                 (fun i => row_sum dh dw (dimsz x dh - 1) x i / INR (dimsz x dw)) x.

(** 221-247 [ResampleS2.forward] *)
Definition resample (r : resampler) (x : tensor R) : option (tensor R) :=
  if rs_skip r then Some x else
  let dh := (ndim x - 2)%nat in let dw := (ndim x - 1)%nat in
  do _ <- guard (2 <=? ndim x)%nat;
  let x1 := if rs_expand r then expand_poles dh dw x else x in
  do x2 <- upscale (rs_mode r) dh (rs_nlat_out r) (rs_lat_idx r) (fun i => (rs_lat_idx r i + 1)%Z) (rs_lat_w r) x1;
  upscale (rs_mode r) dw (rs_nlon_out r) (rs_lon_l r) (rs_lon_r r) (rs_lon_w r) x2.
