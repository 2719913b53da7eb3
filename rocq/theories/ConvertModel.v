(** Moving and converting layers: Module.to, half, float, double, cuda, cpu on the DISCO convolution and on the harmonic transforms
    (torch_harmonics/disco/convolution.py:565-678, 826-830, torch_harmonics/disco/kernels_torch/disco_torch.py:49-90,
    torch_harmonics/sht.py:146, 179, 301, 332).

    Registered floating-point buffers are moved and rounded by Module._apply, plain attributes are not.  A device is None for the
    CPU and Some k for the k-th GPU.  Rounding is to the nearest, ties to even, with gradual underflow and without overflow. *)
From Coq Require Import List Arith ZArith Reals.
From Flocq Require Import Core.
From Verif Require Import MixedPrecModel.
Import ListNotations.

(** Least exponent and precision of torch's types *)
Definition emin (t : dtype) : Z := match t with F16 => -24 | BF16 => -133 | F32 => -149 | F64 => -1074 end.
Definition prec (t : dtype) : Z := match t with F16 => 11 | BF16 => 8 | F32 => 24 | F64 => 53 end.
(** Tensor.to (dtype) on one element *)
Definition rnd (t : dtype) (x : R) : R := round radix2 (FLT_exp (emin t) (prec t)) ZnearestE x.

Definition place := option nat.
Section Layer.
(** _kpacked_supported_on_device *)
Variable supported : nat -> bool.
(** convolution.py: _kpacked_device_supported_for_tensor *)
Definition supported_for (d : place) : bool := match d with Some k => supported k | None => false end.

(** [b_vals]: the buffer psi_vals (of a transform: weights or pct); [b_plain]: the attribute psi, made from it in the constructor if the
    optimized kernels are not used; [b_flag]: kpacked_device_supported *)
Record blayer := mkb { b_dev : place; b_vals : nat -> R; b_pdev : place; b_plain : nat -> R; b_flag : bool }.
(** convolution.py:556, 571-661, on the CPU *)
Definition construct (v : nat -> R) : blayer := mkb None v None v false.

Inductive move := ToDevice (d : place) | ToType (t : dtype).
(** torch.nn.Module._apply *)
Definition super_apply (m : move) (l : blayer) : blayer :=
  match m with
  | ToDevice d => mkb d (b_vals l) (b_pdev l) (b_plain l) (b_flag l)
  | ToType t => mkb (b_dev l) (fun i => rnd t (b_vals l i)) (b_pdev l) (b_plain l) (b_flag l)
  end.
(** convolution.py:669-678 [_apply] with [_refresh_kpacked_device_supported] *)
Definition apply_move (l : blayer) (m : move) : blayer :=
  let l := super_apply m l in mkb (b_dev l) (b_vals l) (b_pdev l) (b_plain l) (supported_for (b_dev l)).
Definition moves (l : blayer) (ms : list move) : blayer := fold_left apply_move ms l.

Definition place_eqb (a b : place) : bool :=
  match a, b with None, None => true | Some i, Some j => i =? j | _, _ => false end.
(** The filter values with which an input of type [t] on the device [d] is multiplied; None: an error, tensors on two devices.
    disco_optimized.py:498 vals.to(cdtype), not the K-packed path; sht.py:179 weights.to(x_re.dtype) *)
Definition filter_buffer (l : blayer) (d : place) (t : dtype) : option (nat -> R) :=
  if place_eqb d (b_dev l) then Some (fun i => rnd (compute_dtype t) (b_vals l i)) else None.
(** convolution.py:830, disco_torch.py:58, 74: psi.to(x.device), psi.to(dtype=cdtype) *)
Definition filter_plain (l : blayer) (d : place) (t : dtype) : option (nat -> R) :=
  Some (fun i => rnd (compute_dtype t) (b_plain l i)).
End Layer.
