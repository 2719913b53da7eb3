(** What autograd computes for the four transforms of torch_harmonics/sht.py and the FFT
    wrappers of torch_harmonics/fft.py: the gradient of a real loss with respect to the
    input, from the gradient [g] with respect to the output.  The gradient with respect to
    a complex tensor is PyTorch's, dL/dRe + i dL/dIm.  The tables are buffers and have no
    gradient.  The gradients of torch.einsum, torch.complex, .real, .imag, slicing, stack
    and multiplication by a constant are those of PyTorch.  Exact reals. *)
From Coq Require Import List Arith Lia Bool Reals.
From Coquelicot Require Import Coquelicot.
From Verif Require Import TensorModel BigSum FFTModel TruncModel LegendreModel QuadModel SHTModel.
Import ListNotations.
Local Open Scope R_scope.

(** The gradient of torch.fft.rfft for an input of length [n] (PyTorch: the n/2+1 bins are
    filled up with zeros to n and transformed by the complex FFT of the opposite sign with
    the scale of the forward transform; the real part is kept). *)
Definition torch_rfft_bwd (nm : fftnorm) (n : nat) (g : nat -> C) (j : nat) : R :=
  Re (Cmult (RtoC (fwd_scale nm n))
    (csum n (fun k => Cmult (if (k <? torch_rfft_size n)%nat then g k else RtoC 0) (cis (2 * PI * INR j * INR k / INR n))))).
(** The gradient of torch.fft.irfft(x, n) for [sz] bins (PyTorch: the real FFT of the
    gradient with the scale of the inverse transform, the bins 1 .. n - (n/2+1) doubled;
    bins that were dropped get zero, bins that were filled in are dropped). *)
Definition torch_irfft_bwd (nm : fftnorm) (sz n : nat) (g : nat -> R) (k : nat) : C :=
  let onesided := torch_rfft_size n in
  let r := Cmult (RtoC (inv_scale nm n)) (csum n (fun j => Cmult (RtoC (g j)) (cis (- (2 * PI * INR j * INR k / INR n))))) in
  if (k <? onesided)%nat then
    (if ((1 <=? k) && (k <=? n - onesided))%nat%bool then Cmult (RtoC 2) r else r)
  else RtoC 0.

(** fft.py:52-68 [rfft] with nmodes: the gradient of the zero padding is a slice, that of
    narrow is zero outside of the slice. *)
Definition rfft_bwd (nm : fftnorm) (nmodes n : nat) (g : nat -> C) : nat -> R :=
  let sz := torch_rfft_size n in
  if (sz <? nmodes)%nat then torch_rfft_bwd nm n g
  else if (nmodes <? sz)%nat then torch_rfft_bwd nm n (fun k => if (k <? nmodes)%nat then g k else RtoC 0)
  else torch_rfft_bwd nm n g.
(** fft.py:71-96 [irfft] with n given: torch.complex(x.real, x.imag * imag_scale) passes the
    imaginary part of the gradient on, scaled. *)
Definition irfft_bwd (nm : fftnorm) (n sz : nat) (g : nat -> R) (k : nat) : C :=
  let h := torch_irfft_bwd nm sz n g k in (Re h, Im h * imag_scale sz n k).

(** The gradient of 2 pi rfft(x, nmodes=mmax, dim=d, norm="forward") for nlon longitudes
    (sht.py:171, 477) *)
Definition rfft_dim_bwd (mmax nlon d : nat) (g : tensor C) : tensor R :=
  along d nlon (fun i v => rfft_bwd NForward mmax nlon (fun k => Cmult (RtoC (2 * PI)) (v k)) (nth d i 0%nat)) g.
(** The gradient of irfft(x, n=nlon, dim=d, norm="forward") for mmax bins (sht.py:340, 647) *)
Definition irfft_dim_bwd (nlon mmax d : nat) (g : tensor R) : tensor C :=
  along d mmax (fun i v => irfft_bwd NForward nlon mmax v (nth d i 0%nat)) g.

(** The gradient of the contraction with w[m, l, k] over k (sht.py:175-186, 325-337):
    "...lm,mlk->...mk" on real and imaginary part. *)
Definition swap12 (w : tensor R) : tensor R :=
  mkT [dimsz w 0; dimsz w 2; dimsz w 1] (fun i => val w [nth 0 i 0; nth 2 i 0; nth 1 i 0]%nat).
Definition legcontract_bwd (w : tensor R) (dk dm : nat) (g : tensor C) : option (tensor C) :=
  legcontract (swap12 w) dk dm g.
(** The gradient of the vector contraction (sht.py:479-495, 628-646): every einsum passes
    the gradient of the sum it occurs in back through the transposed table; x.real and
    x.imag of both components occur twice each. *)
Definition veccontract_bwd (w0 w1 : tensor R) (dc dk dm : nat) (g : tensor C) : option (tensor C) :=
  if einsum_ok (swap12 w0) dk dm g && einsum_ok (swap12 w1) dk dm g && (dimsz w0 2 =? dimsz w1 2)%nat then
    let at_ := fun (c : nat) (i : list nat) (l : nat) => val g (upd dc c (upd dk l i)) in
    let es := fun (w : tensor R) (part : C -> R) (c : nat) (i : list nat) =>
      rsum (dimsz w 1) (fun l => part (at_ c i l) * val w [nth dm i 0; l; nth dk i 0]%nat) in
    Some (mkT (upd dk (dimsz w0 2) (shp g))
      (fun i => if (nth dc i 0 =? 0)%nat
                then (es w0 Re 0%nat i + es w1 Im 1%nat i, es w0 Im 0%nat i - es w1 Re 1%nat i)
                else (es w1 Im 0%nat i - es w0 Re 1%nat i, - es w1 Re 0%nat i - es w0 Im 1%nat i)))
  else None.

(** The backward passes of RealSHT (sht.py:151-186), InverseRealSHT (306-342),
    RealVectorSHT (454-495) and InverseRealVectorSHT (606-649). *)
Definition real_sht_bwd (s : sht) (g : tensor C) : option (tensor R) :=
  do h <- legcontract_bwd (s_weights s) (ndim g - 2) (ndim g - 1) g;
  Some (rfft_dim_bwd (s_mmax s) (s_nlon s) (ndim g - 1) h).
Definition inverse_sht_bwd (s : sht) (g : tensor R) : option (tensor C) :=
  legcontract_bwd (s_weights s) (ndim g - 2) (ndim g - 1) (irfft_dim_bwd (s_nlon s) (s_mmax s) (ndim g - 1) g).
Definition vector_sht_bwd (s : sht) (g : tensor C) : option (tensor R) :=
  do h <- veccontract_bwd (select0 0 (s_weights s)) (select0 1 (s_weights s)) (ndim g - 3) (ndim g - 2) (ndim g - 1) g;
  Some (rfft_dim_bwd (s_mmax s) (s_nlon s) (ndim g - 1) h).
Definition inverse_vector_sht_bwd (s : sht) (g : tensor R) : option (tensor C) :=
  veccontract_bwd (select0 0 (s_weights s)) (select0 1 (s_weights s)) (ndim g - 3) (ndim g - 2) (ndim g - 1)
    (irfft_dim_bwd (s_nlon s) (s_mmax s) (ndim g - 1) g).
