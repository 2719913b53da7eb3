(** C73: the two-dimensional FFT wrappers RealFFT2 / InverseRealFFT2. *)
From Coq Require Import List Arith Lia Bool Reals Lra.
From Coquelicot Require Import Coquelicot.
From Verif Require Import TensorModel BigSum FFTModel RealFFT2Model RealFFT2Spec RealFFT2Proofs.
Import ListNotations.
Local Open Scope R_scope.

(** With all latitude frequencies kept, the inverse gives back every real field
    that has no longitude frequency among those cut by mmax. *)
Theorem C73_round_trip_limited : forall nlat nlon lmax mmax lmax' mmax' x,
  (1 <= nlat)%nat -> (1 <= nlon)%nat -> (1 <= mmax)%nat ->
  lmax = None \/ lmax = Some 0%nat \/ lmax = Some nlat ->
  lon_limited mmax nlat nlon x ->
  forall i j, (i < nlat)%nat -> (j < nlon)%nat ->
  inverse_realfft2 (fft2_init nlat nlon lmax' mmax') (realfft2 (fft2_init nlat nlon lmax (Some mmax)) nlat nlon x) i j = x i j.
Proof.
  intros nlat nlon lmax mmax lmax' mmax' x Hh Hw Hm Hl Lim. apply realfft2_round_trip; auto.
  - destruct Hl as [-> | [-> | ->]]; auto. destruct nlat; auto.
  - destruct mmax; [lia|exact Lim].
Qed.
Print Assumptions C73_round_trip_limited.

(** With the default arguments it gives back every real field. *)
Theorem C73_round_trip : forall nlat nlon lmax mmax lmax' mmax' x,
  (1 <= nlat)%nat -> (1 <= nlon)%nat ->
  lmax = None \/ lmax = Some 0%nat \/ lmax = Some nlat ->
  mmax = None \/ mmax = Some 0%nat \/ (exists q, mmax = Some q /\ (nlon / 2 + 1 <= q)%nat) ->
  forall i j, (i < nlat)%nat -> (j < nlon)%nat ->
  inverse_realfft2 (fft2_init nlat nlon lmax' mmax') (realfft2 (fft2_init nlat nlon lmax mmax) nlat nlon x) i j = x i j.
Proof.
  intros nlat nlon lmax mmax lmax' mmax' x Hh Hw Hl Hm. apply realfft2_round_trip; auto.
  - destruct Hl as [-> | [-> | ->]]; auto. destruct nlat; auto.
  - destruct Hm as [-> | [-> | (q & -> & Hq)]]; intros k m _ Hm; [| |destruct q]; cbn [or_default] in Hm; lia.
Qed.
Print Assumptions C73_round_trip.

(** The truncated spectrum: extents, and which coefficient every entry holds. *)
Theorem C73_entries : forall nlat nlon lmax mmax x,
  (1 <= nlon)%nat -> (2 <= lmax <= nlat)%nat -> (1 <= mmax <= nlon / 2 + 1)%nat ->
  let y := realfft2 (fft2_init nlat nlon (Some lmax) (Some mmax)) nlat nlon x in
  fst y = mmax /\ length (snd y) = lmax /\
  forall r m d, (r < lmax)%nat -> (m < mmax)%nat -> nth r (snd y) d m = dft2 nlat nlon x (row_freq lmax nlat r) m.
Proof. exact realfft2_entries. Qed.
Print Assumptions C73_entries.

(** Refuted: lmax = 1 should give one row, but the slice [-0:] keeps all rows. *)
Theorem C73_lmax_one_refuted : forall nlat nlon mmax x, (1 <= nlat)%nat ->
  length (snd (realfft2 (fft2_init nlat nlon (Some 1%nat) mmax) nlat nlon x)) = (nlat + 1)%nat.
Proof. exact realfft2_lmax_one. Qed.
Print Assumptions C73_lmax_one_refuted.

(** Refuted: a field all of whose frequencies are kept by lmax < nlat is not given
    back, since the inverse pads behind the negative frequencies and so places
    them at the wrong index. *)
Theorem C73_truncation_refuted : exists nlat nlon lmax x i j,
  (2 <= lmax < nlat)%nat /\ (1 <= nlon)%nat /\ (i < nlat)%nat /\ (j < nlon)%nat /\
  (forall k, (k < nlat)%nat -> (forall r, (r < lmax)%nat -> row_freq lmax nlat r <> k) ->
     forall m, (m <= nlon / 2)%nat -> dft2 nlat nlon x k m = RtoC 0) /\
  inverse_realfft2 (fft2_init nlat nlon (Some lmax) None) (realfft2 (fft2_init nlat nlon (Some lmax) None) nlat nlon x) i j <> x i j.
Proof.
  exists 4%nat, 1%nat, 3%nat, cos_field, 1%nat, 0%nat. destruct realfft2_truncation as (A & B & C).
  repeat split; try lia. exact A. rewrite B, C. lra.
Qed.
Print Assumptions C73_truncation_refuted.

(** The hypothesis of the limited round trip on a field that is not constant and
    where bins are really cut: it grows with the latitude, mmax = 1. *)
Example C73_case : lon_limited 1 5 8 (fun i _ => INR i) /\ (1 < 8 / 2 + 1)%nat.
Proof. split. apply (zonal_limited 5 8 INR); lia. simpl; lia. Qed.

(** Five rows out of nine: the frequencies 0, 1, 2, -2, -1. *)
Example C73_rows : map (row_freq 5 9) (seq 0 5) = [0; 1; 2; 7; 8]%nat.
Proof. reflexivity. Qed.
