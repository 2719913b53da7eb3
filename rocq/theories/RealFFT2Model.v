(** The two-dimensional FFT wrappers of the example models
    (torch_harmonics/examples/models/_layers.py:275-338) on exact reals.

    A field of h rows and w columns is a function of (row, column) of which only
    the entries below h and w are used.  A spectrum is the list of its rows; a row
    is a function of the longitude bin, and the number of bins is kept beside the
    list.  Leading (batch, channel) dimensions are not modelled: both wrappers act
    on the last two dimensions only. *)
From Coq Require Import List Arith Lia Bool Reals.
From Coquelicot Require Import Coquelicot.
From Verif Require Import TensorModel BigSum FFTModel.
Import ListNotations.
Local Open Scope R_scope.

(** torch.fft.fft / torch.fft.ifft along one dimension of length n, by their
    defining sums. *)
Definition torch_fft (nm : fftnorm) (n : nat) (x : nat -> C) (k : nat) : C :=
  Cmult (RtoC (fwd_scale nm n)) (csum n (fun i => Cmult (x i) (cis (- (2 * PI * INR i * INR k / INR n))))).
Definition torch_ifft (nm : fftnorm) (n : nat) (x : nat -> C) (i : nat) : C :=
  Cmult (RtoC (inv_scale nm n)) (csum n (fun k => Cmult (x k) (cis (2 * PI * INR i * INR k / INR n)))).

(** torch.fft.rfft2(x, dim=(-2,-1), norm): the real transform of the last
    dimension, then the complex transform of the last but one. *)
Definition torch_rfft2 (nm : fftnorm) (h w : nat) (x : nat -> nat -> R) : list (nat -> C) :=
  map (fun k m => torch_fft nm h (fun i => torch_rfft nm w (x i) m) k) (seq 0 h).

(** torch.fft.irfft2(x, dim=(-2,-1), s=(nlat,nlon), norm): rows are cut or
    zero-padded at the end to nlat, transformed back, and every row goes through
    the complex-to-real transform to nlon points; [cols] bins are given. *)
Definition torch_irfft2 (nm : fftnorm) (nlat nlon : nat) (cols : nat) (y : list (nat -> C)) (i j : nat) : R :=
  torch_irfft nm cols nlon (fun m => torch_ifft nm nlat (fun k => nth k y (fun _ => RtoC 0) m) i) j.

(** Python's [a or b] for an optional integer: None and 0 are false. *)
Definition or_default (a : option nat) (b : nat) : nat :=
  match a with Some (S n) => S n | _ => b end.

(** The attributes set by both constructors (_layers.py:294-300, 328-334). *)
Record fft2 := mkfft2 { f_nlat : nat; f_nlon : nat; f_lmax : nat; f_mmax : nat }.
Definition fft2_init (nlat nlon : nat) (lmax mmax : option nat) : fft2 :=
  mkfft2 nlat nlon (or_default lmax nlat) (or_default mmax (nlon / 2 + 1)).

(** y[..., -k :, :] along the rows: the last k rows; for k = 0 the slice is
    y[0:], all rows, and for k above the number of rows also all of them. *)
Definition neg_tail {A} (k : nat) (l : list A) : list A :=
  if (k =? 0)%nat then l else skipn (length l - k) l.

(** RealFFT2.forward (_layers.py:302-306) on a field of h rows and w columns:
    the number of longitude bins and the rows.  math.ceil(lmax / 2) is
    (lmax + 1) / 2 and math.floor(lmax / 2) is lmax / 2 in natural numbers. *)
Definition realfft2 (o : fft2) (h w : nat) (x : nat -> nat -> R) : nat * list (nat -> C) :=
  let y := torch_rfft2 NOrtho h w x in
  (Nat.min (f_mmax o) (torch_rfft_size w), firstn ((f_lmax o + 1) / 2) y ++ neg_tail (f_lmax o / 2) y).

(** InverseRealFFT2.forward (_layers.py:336-338). *)
Definition inverse_realfft2 (o : fft2) (y : nat * list (nat -> C)) : nat -> nat -> R :=
  torch_irfft2 NOrtho (f_nlat o) (f_nlon o) (fst y) (snd y).
