(** Quadrature-weighted losses of the examples (torch_harmonics/examples/losses.py). *)
From Coq Require Import List Arith Lia Bool Reals.
From Verif Require Import TensorModel BigSum TruncModel QuadModel.
Import ListNotations.
Local Open Scope R_scope.

(** ** torch operations the losses use *)

(** Broadcasting of two shapes, aligned at the last dimension. *)
Definition bdim (a b : nat) : option nat :=
  if (a =? b)%nat then Some a else if (a =? 1)%nat then Some b else if (b =? 1)%nat then Some a else None.
Fixpoint bshape_r (s t : list nat) : option (list nat) :=
  match s, t with
  | [], _ => Some t
  | _, [] => Some s
  | a :: s', b :: t' => do d <- bdim a b; do r <- bshape_r s' t'; Some (d :: r)
  end.
Definition bshape (s t : list nat) : option (list nat) := do r <- bshape_r (rev s) (rev t); Some (rev r).
(** The element of an operand of shape [s] that index [i] of the result reads. *)
Fixpoint bidx_r (s i : list nat) : list nat :=
  match s, i with d :: s', k :: i' => (if (d =? 1)%nat then 0%nat else k) :: bidx_r s' i' | _, _ => [] end.
Definition bidx (s i : list nat) : list nat := rev (bidx_r (rev s) (rev i)).
Definition bmap2 {A B D} (f : A -> B -> D) (x : tensor A) (y : tensor B) : option (tensor D) :=
  do s <- bshape (shp x) (shp y);
  Some (mkT s (fun i => f (val x (bidx (shp x) i)) (val y (bidx (shp y) i)))).

(** All valid multi-indices of a shape. *)
Fixpoint indices (s : list nat) : list (list nat) :=
  match s with [] => [[]] | d :: s' => flat_map (fun k => map (cons k) (indices s')) (seq 0 d) end.

(** torch.sum(x, dim=(-2, -1)) *)
Definition sum_last2 (x : tensor R) : option (tensor R) :=
  do _ <- guard (2 <=? ndim x)%nat;
  Some (mkT (firstn (ndim x - 2) (shp x))
    (fun i => rsum (dimsz x (ndim x - 2)) (fun a => rsum (dimsz x (ndim x - 1)) (fun b => val x (i ++ [a; b]))))).
(** torch.mean over all elements; of no elements it is nan (None). *)
Definition mean_all (x : tensor R) : option R :=
  let l := indices (shp x) in
  if (length l =? 0)%nat then None else Some (rlsum (val x) l / INR (length l)).
(** Elementwise division.  A zero divisor gives nan or inf, which every later operation of
    these losses hands on to the result: None. *)
Definition tdiv (x y : tensor R) : option (tensor R) :=
  if forallb (fun i => if Req_EM_T (val y i) 0 then false else true) (indices (shp y)) then bmap2 Rdiv x y else None.
(** torch.sqrt; nan (None) on a negative element. *)
Definition tsqrt (x : tensor R) : option (tensor R) :=
  if forallb (fun i => if Rle_dec 0 (val x i) then true else false) (indices (shp x)) then Some (map_t sqrt x) else None.

(** ** losses.py *)

(** losses.py:43-55 [get_quadrature_weights].  nlon = 0 or weights of total 0 give inf or nan
    (None); the cast to float32 is not modelled. *)
Definition get_quadrature_weights (gl : nat -> rule) (nlat nlon : nat) (g : grid) (tile normalized : bool) : option (tensor R) :=
  do lat <- precompute_latitudes gl nlat g;
  do _ <- guard (1 <=? nlon)%nat;
  let q := mkT [nlat; 1%nat] (fun i => rw lat (nth 0 i 0%nat) * 2 * PI / INR nlon) in
  do q <- (if normalized then
             let t := rlsum (val q) (indices (shp q)) in
             if Req_EM_T t 0 then None else Some (map_t (fun v => v / t / INR nlon) q)
           else Some q);
  Some (if tile then mkT [nlat; nlon] (fun i => val q [nth 0 i 0; 0]%nat) else q).

(** losses.py:248-253 [SphericalLossBase._integrate_sphere] with the buffer [q]; a boolean
    mask is one of zeros and ones. *)
Definition integrate_sphere (q u : tensor R) (mask : option (tensor R)) : option (tensor R) :=
  match mask with
  | None => do p <- bmap2 Rmult u q; sum_last2 p
  | Some m =>
      do mu <- bmap2 Rmult m u; do p <- bmap2 Rmult mu q; do num <- sum_last2 p;
      do mq <- bmap2 Rmult m q; do den <- sum_last2 mq;
      tdiv num den
  end.

(** losses.py:277-300 [SphericalLossBase.forward] *)
Definition spherical_loss (term : tensor R -> tensor R -> option (tensor R)) (hook : tensor R -> option (tensor R))
    (q prd tar : tensor R) (mask : option (tensor R)) : option R :=
  do t <- term prd tar;
  do l <- integrate_sphere q t mask;
  do h <- hook l;
  mean_all h.

(** losses.py:237-246 [SphericalLossBase.__init__]: weights not tiled. *)
Definition loss_weights (gl : nat -> rule) (nlat nlon : nat) (g : grid) (normalized : bool) : option (tensor R) :=
  get_quadrature_weights gl nlat nlon g false normalized.
(** losses.py:303-305 [SquaredL2LossS2], 308-310 [L1LossS2], 313-315 [L2LossS2] *)
Definition squared_l2_loss (q prd tar : tensor R) (mask : option (tensor R)) : option R :=
  spherical_loss (bmap2 (fun p t => (p - t) ^ 2)) Some q prd tar mask.
Definition l1_loss (q prd tar : tensor R) (mask : option (tensor R)) : option R :=
  spherical_loss (bmap2 (fun p t => Rabs (p - t))) Some q prd tar mask.
Definition l2_loss (q prd tar : tensor R) (mask : option (tensor R)) : option R :=
  spherical_loss (bmap2 (fun p t => (p - t) ^ 2)) tsqrt q prd tar mask.
