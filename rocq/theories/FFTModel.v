(** Real FFT wrappers (torch_harmonics/fft.py) on vectors of exact reals.

    torch.fft is modelled by the defining sums of the discrete Fourier
    transform.  A vector of length n is a function on indices of which only the
    values below n are used. *)
From Coq Require Import List Arith Lia Bool Reals.
From Coquelicot Require Import Coquelicot.
From Verif Require Import TensorModel BigSum.
Import ListNotations.
Local Open Scope R_scope.

(** exp(i t) *)
Definition cis (t : R) : C := (cos t, sin t).

(** The [norm] keyword of torch.fft. *)
Inductive fftnorm := NBackward | NForward | NOrtho.
Definition fwd_scale (nm : fftnorm) (n : nat) : R :=
  match nm with NBackward => 1 | NForward => / INR n | NOrtho => / sqrt (INR n) end.
Definition inv_scale (nm : fftnorm) (n : nat) : R :=
  match nm with NBackward => / INR n | NForward => 1 | NOrtho => / sqrt (INR n) end.

(** torch.fft.rfft(x): bins 0..n/2 of sum_j x_j exp(-2 pi i j k / n). *)
Definition torch_rfft_size (n : nat) : nat := (n / 2 + 1)%nat.
Definition torch_rfft (nm : fftnorm) (n : nat) (x : nat -> R) (k : nat) : C :=
  Cmult (RtoC (fwd_scale nm n))
    (csum n (fun j => Cmult (RtoC (x j)) (cis (- (2 * PI * INR j * INR k / INR n))))).

(** torch.fft.irfft(x, n): [sz] is the number of bins given; bins from n/2+1 on
    are dropped, missing bins are zero; the remaining spectrum is the Hermitian
    extension; the result is real. *)
Definition hermitian (sz n : nat) (x : nat -> C) (k : nat) : C :=
  let g := fun k => if (k <? sz)%nat then x k else RtoC 0 in
  if (k <=? n / 2)%nat then g k else Cconj (g (n - k)%nat).
Definition torch_irfft (nm : fftnorm) (sz n : nat) (x : nat -> C) (j : nat) : R :=
  inv_scale nm n *
  Re (csum n (fun k => Cmult (hermitian sz n x k) (cis (2 * PI * INR j * INR k / INR n)))).

(** fft.py:41-49 [_pad_dim_right] on the transformed dimension: zeros from [sz] on. *)
Definition pad_dim_right (sz : nat) (x : nat -> C) : nat -> C :=
  fun k => if (k <? sz)%nat then x k else RtoC 0.

(** fft.py:52-68 [rfft] along one dimension of length [n]; returns the number of
    bins and the bins.  The keyword "n" (a ValueError) is not a parameter here. *)
Definition rfft (nm : fftnorm) (nmodes : option nat) (n : nat) (x : nat -> R) : nat * (nat -> C) :=
  let sz := torch_rfft_size n in
  let y := torch_rfft nm n x in
  match nmodes with
  | None => (sz, y)
  | Some q => if (sz <? q)%nat then (q, pad_dim_right sz y)
              else if (q <? sz)%nat then (q, y)
              else (sz, y)
  end.

(** fft.py:71-96 [irfft] along one dimension holding [sz] bins: zero the
    imaginary part of the DC bin and, for even n, of the Nyquist bin if it is
    present, then torch.fft.irfft. *)
Definition imag_scale (sz n : nat) (k : nat) : R :=
  let s := if (k =? 0)%nat then 0 else 1 in
  if ((n mod 2 =? 0)%nat && (n / 2 <? sz)%nat)%bool then (if (k =? n / 2)%nat then 0 else s) else s.
Definition irfft_n (n : option nat) (sz : nat) : nat :=
  match n with Some n => n | None => (2 * (sz - 1))%nat end.
Definition irfft_with (backend : nat -> nat -> (nat -> C) -> nat -> R) (n : option nat) (sz : nat) (x : nat -> C) : nat -> R :=
  let n := irfft_n n sz in
  backend sz n (fun k => (Re (x k), Im (x k) * imag_scale sz n k)).
(** The wrapper around torch.fft.irfft as modelled above; [irfft_with] leaves the
    backend open because the wrapper exists to make the result independent of it
    (fft.py:72-75, 80-84). *)
Definition irfft (nm : fftnorm) (n : option nat) (sz : nat) (x : nat -> C) : nat -> R := irfft_with (torch_irfft nm) n sz x.
