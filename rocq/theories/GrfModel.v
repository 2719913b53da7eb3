(** Gaussian random fields (torch_harmonics/random_fields.py). *)
From Coq Require Import List Arith Lia Bool Reals.
From Coquelicot Require Import Coquelicot.
From Verif Require Import TensorModel BigSum TruncModel LegendreModel QuadModel SHTModel.
Import ListNotations.
Local Open Scope R_scope.

(** random_fields.py:95-98: the default amplitude.  [alpha <= 1.0] raises.  Powers are
    real powers of positive numbers ([Rpower]); the theorems assume tau > 0. *)
Definition grf_sigma (alpha tau : R) (sigma : option R) : option R :=
  match sigma with
  | None => if Rle_dec alpha 1 then None else Some (Rpower tau (0.5 * (2 * alpha - 2.0)))
  | Some s => Some s
  end.

(** random_fields.py:107-111: degrees down the rows, repeated over the orders; tril keeps
    the entries with order <= degree; the constant mode is set to zero; one leading
    dimension of size 1. *)
Definition grf_sqrt_eig (lmax mmax : nat) (alpha tau sigma radius : R) : tensor R :=
  let deg := mkT [lmax; mmax] (fun i => let j := INR (nth 0 i 0%nat) in j * (j + 1)) in
  let pow := map_t (fun e => sigma * Rpower (e / radius ^ 2 + tau ^ 2) (- alpha / 2)) deg in
  let tri := mkT (shp pow) (fun i => if (nth 1 i 0 <=? nth 0 i 0)%nat then val pow i else 0) in
  let set := mkT (shp tri) (fun i => if (nth 0 i 0 =? 0)%nat && (nth 1 i 0 =? 0)%nat then 0 else val tri i) in
  mkT (1%nat :: shp set) (fun i => val set (tl i)).

(** random_fields.py:88-121 [GaussianRandomFieldS2.__init__].  norm="backward" is none of
    the named normalisations: legendre.py:85 treats every string other than "ortho" like
    "four-pi" (and 103 singles out "schmidt").  The sampler buffers (mean, var) and the
    dtype are not modelled. *)
Record grf := mkGRF { g_isht : sht; g_sqrt_eig : tensor R }.
Definition grf_init (gl : nat -> rule) (nlat : nat) (alpha tau : R) (sigma : option R) (radius : R) (g : grid) : option grf :=
  do sig <- grf_sigma alpha tau sigma;
  do t <- inverse_sht_init gl nlat (2 * nlat) None None g FourPi true;
  Some (mkGRF t (grf_sqrt_eig (s_lmax t) (s_mmax t) alpha tau sig radius)).

(** Product with a tensor of shape [1, a, b] (random_fields.py:133): modelled for noise of
    shape (..., a, b) with at least three dimensions; other broadcasts are not modelled. *)
Definition mul_modes (e : tensor R) (x : tensor C) : option (tensor C) :=
  do _ <- guard ((3 <=? ndim x)%nat && shape_eqb (shp e) [1; dimsz x (ndim x - 2); dimsz x (ndim x - 1)]%nat);
  Some (mkT (shp x) (fun i => Cmult (val x i) (RtoC (val e [0; nth (ndim x - 2) i 0; nth (ndim x - 1) i 0]%nat)))).

(** random_fields.py:123-135 [forward] with the noise given; sampling it (126-130, which
    yields shape (N, lmax, mmax)) is external. *)
Definition grf_noise_shape (f : grf) (N : nat) : list nat := [N; s_lmax (g_isht f); s_mmax (g_isht f)].
Definition grf_forward (f : grf) (xi : tensor C) : option (tensor R) :=
  do c <- mul_modes (g_sqrt_eig f) xi;
  inverse_sht (g_isht f) c.
