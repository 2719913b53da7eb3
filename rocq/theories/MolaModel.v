(** The elevation map of torch_harmonics/utils.py:49-103 [load_mola_elevation]: the cached
    download and the bilinear resizing.

    The decoder of the image file is an argument; it returns height, width and the grey values
    of the pixels, or None if it raises.  F.interpolate is torch's bilinear interpolation with
    align_corners=False, in exact arithmetic. *)
From Coq Require Import List Arith Reals.
From Verif Require Import TensorModel SHTModel.
Import ListNotations.
Local Open Scope R_scope.

(** torch's area_pixel_compute_source_index: max ((d + 1/2) * n / out - 1/2, 0), as the fraction
    source / (2 out); nat subtraction is the maximum with 0 *)
Definition source (n out d : nat) : nat := ((2 * d + 1) * n - out)%nat.
Definition low (n out d : nat) : nat := (source n out d / (2 * out))%nat.
Definition high (n out d : nat) : nat := let i := low n out d in if (i <? n - 1)%nat then (i + 1)%nat else i.
Definition frac (n out d : nat) : R := INR (source n out d mod (2 * out)) / INR (2 * out).
(** upsample_bilinear2d *)
Definition resize1 (n out : nat) (f : nat -> R) (d : nat) : R :=
  (1 - frac n out d) * f (low n out d) + frac n out d * f (high n out d).
Definition resize (h w nlat nlon : nat) (f : nat -> nat -> R) (k j : nat) : R :=
  resize1 h nlat (fun i => resize1 w nlon (f i) j) k.

Definition byte := nat.
Definition image := (nat * nat * (nat -> nat -> nat))%type.
(** What the network and the disk do during one call: urlopen raises; resp.read() raises;
    the process ends after n bytes have reached the file; all goes well. *)
Inductive transfer := NoConnection | ReadFails | WriteStops (b : list byte) (n : nat) | Complete (b : list byte).
Inductive result (A : Type) := Returned (a : A) | Raised.
Arguments Returned {A} a. Arguments Raised {A}.

Section Load.
Variable decode : list byte -> option image.
(** utils.py:79-85: the cached file is used if there is one; open(path, "wb") creates the file before the
    response is read *)
Definition fetch (cache : option (list byte)) (t : transfer) : option (list byte) * result image :=
  let opened b := match decode b with Some im => Returned im | None => Raised end in
  match cache with
  | Some b => (cache, opened b)
  | None =>
    match t with
    | NoConnection => (None, Raised)
    | ReadFails => (Some [], Raised)
    | WriteStops b n => (Some (firstn n b), Raised)
    | Complete b => (Some b, opened b)
    end
  end.
(** utils.py:87-103: grey values / 255, resized only if both sizes are given *)
Definition elevation (im : image) (nlat nlon : option nat) : tensor R :=
  let '(h, w, p) := im in
  let f := fun i j => INR (p i j) / 255 in
  match nlat, nlon with
  | Some a, Some b => mkT [a; b] (fun i => resize h w a b f (nth 0 i 0%nat) (nth 1 i 0%nat))
  | _, _ => mkT [h; w] (fun i => f (nth 0 i 0%nat) (nth 1 i 0%nat))
  end.
Definition load (cache : option (list byte)) (t : transfer) (nlat nlon : option nat) : option (list byte) * result (tensor R) :=
  let (c, r) := fetch cache t in
  (c, match r with
      | Raised => Raised
      | Returned im =>
        match nlat, nlon with
        | Some O, Some _ | Some _, Some O => Raised
        | _, _ => Returned (elevation im nlat nlon)
        end
      end).
(** Several calls, one after the other, with the cache file each leaves *)
Fixpoint loads (cache : option (list byte)) (ts : list transfer) : option (list byte) :=
  match ts with [] => cache | t :: r => loads (fst (fetch cache t)) r end.
End Load.
