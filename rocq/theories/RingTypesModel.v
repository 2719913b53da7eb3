(** Element types in the attention layers, serial and distributed, on the GPU
    (torch_harmonics/attention/attention.py:490-575, torch_harmonics/distributed/distributed_attention.py:1160-1300,
    torch_harmonics/distributed/_amp_utils.py), and how the kernels read the memory they are handed.

    A tensor is reduced to its element type.  None is a raised error.  The type that rms_norm returns
    under autocast is an argument.  A scale that is a float or a tensor without dimensions does not
    promote; one with dimensions does.  Shapes are in MixedPrecModel. *)
From Coq Require Import List Arith Bool.
From Verif Require Import MixedPrecModel.
Import ListNotations.

Definition size (t : dtype) : nat := match t with F16 | BF16 => 2 | F32 => 4 | F64 => 8 end.

(** What a kernel gets that takes n elements of type [t] for elements of type [u]. *)
Inductive access := Right | Wrong | Outside.
Definition read_as (n : nat) (t u : dtype) : access :=
  if dt_eqb t u then Right else if n * size u <=? n * size t then Wrong else Outside.
Definition worse (a b : access) : access :=
  match a, b with Outside, _ | _, Outside => Outside | Wrong, _ | _, Wrong => Wrong | _, _ => Right end.

(** attention.py:300-470: the weights and biases have one type, the quadrature weights are a float32 buffer (365-366),
    the scale is kept as it is given (425-428) *)
Record alayer := mkal { a_dt : dtype; a_quad : dtype; a_qknorm : bool; a_scale : option dtype }.
Definition make (qknorm : bool) (scale : option dtype) : alayer := mkal F32 F32 qknorm scale.
(** torch.nn.Module.to (dtype), half (), double (): parameters and floating-point buffers are converted, other attributes are not *)
Definition convert (t : dtype) (l : alayer) : alayer := mkal t t (a_qknorm l) (a_scale l).

(** the element type under autocast of an operand of a product *)
Definition ac_dt (ac : autocast) (t : dtype) : dtype := m_dt (ac_cast ac (mk [] t)).
(** F.linear and conv2d: one type after autocast's conversion *)
Definition project (ac : autocast) (l : alayer) (x : dtype) : option dtype :=
  guard (dt_eqb (ac_dt ac x) (ac_dt ac (a_dt l))) (Some (ac_dt ac x)).

Section Forward.
Variable rms : dtype -> dtype -> dtype.
(** F.rms_norm; without autocast input and weight have the layer's type *)
Definition qk_norm (ac : autocast) (l : alayer) (t : dtype) : dtype :=
  if a_qknorm l then match ac with Some a => rms a t | None => t end else t.
(** attention.py:525-551, distributed_attention.py:1178-1200: the types of key, value and query *)
Definition qkv (ac : autocast) (l : alayer) (xk xv xq : dtype) : option (dtype * dtype * dtype) :=
  bind (project ac l xk) (fun k =>
  bind (project ac l xv) (fun v =>
  bind (project ac l xq) (fun q =>
  let q := qk_norm ac l q in
  Some (qk_norm ac l k, v, match a_scale l with Some s => promote q s | None => q end)))).
(** _amp_utils.py:118-121 [_cast_to_autocast_dtype] *)
Definition cast (ac : autocast) (t : dtype) : dtype := match ac with Some a => a | None => t end.

(** attention_cuda_fwd.cu:539-632 and attention_cuda_bwd.cu:871-955 read k, v (and dy) as q's type after checking it, and the quadrature
    weights as float (attention_cuda_fwd.cu:494) unchecked; [n], [m] and [nlat] are the numbers of elements. *)
Definition serial_kernel (k v q quad : dtype) (n m nlat : nat) : option access :=
  guard (dt_eqb k q && dt_eqb v q) (Some (worse (worse (read_as n k q) (read_as m v q)) (read_as nlat quad F32))).
(** attention_cpu_fwd.cpp:126: the accessor raises on another type *)
Definition serial_cpu_kernel (k v q quad : dtype) : option access :=
  guard (dt_eqb k q && dt_eqb v q && dt_eqb quad F32) (Some Right).
(** attention_cuda_fwd_ring.cu:1147-1193, attention_cuda_fwd_ring_upsample.cu:286-345: no check of types *)
Definition ring_kernel (k v q quad : dtype) (n m nlat : nat) : access :=
  worse (worse (read_as n k q) (read_as m v q)) (read_as nlat quad F32).
(** attention_cuda_bwd_ring.cu:2014-2125, attention_cuda_bwd_ring_upsample.cu:242-383: dy is read as q's type as well *)
Definition ring_bwd_kernel (k v q dy quad : dtype) (n m p nlat : nat) : access :=
  worse (ring_kernel k v q quad n m nlat) (read_as p dy q).

(** attention.py:490-575 on the GPU, optimized/attention_optimized.py:305-322 *)
Definition serial_forward (ac : autocast) (l : alayer) (xk xv xq : dtype) (n m nlat : nat) : option (access * dtype) :=
  bind (qkv ac l xk xv xq) (fun p => let '(k, v, q) := p in
  bind (serial_kernel (cast ac k) (cast ac v) (cast ac q) (a_quad l) n m nlat) (fun r =>
  bind (project ac l (cast ac q)) (fun y => Some (r, y)))).
Definition serial_cpu_forward (ac : autocast) (l : alayer) (xk xv xq : dtype) : option (access * dtype) :=
  bind (qkv ac l xk xv xq) (fun p => let '(k, v, q) := p in
  bind (serial_cpu_kernel (cast ac k) (cast ac v) (cast ac q) (a_quad l)) (fun r =>
  bind (project ac l (cast ac q)) (fun y => Some (r, y)))).
(** distributed_attention.py:1160-1300, forward of the ring functions 92-187, 482-568: the result is cast to the type of k *)
Definition ring_forward (ac : autocast) (l : alayer) (xk xv xq : dtype) (n m nlat : nat) : option (access * dtype) :=
  bind (qkv ac l xk xv xq) (fun p => let '(k, v, q) := p in
  let y := cast ac k in
  bind (project ac l y) (fun z => Some (ring_kernel (cast ac k) (cast ac v) (cast ac q) (a_quad l) n m nlat, z))).
(** Backward of the ring functions (234-460, 610-812): the gradient of the function's output arrives in its type; the gradients of k, v and
    q are cast to their types; the backward of [cast] returns the types before it. *)
Definition ring_backward (ac : autocast) (l : alayer) (xk xv xq : dtype) (n m p nlat : nat) : option (access * (dtype * dtype * dtype)) :=
  bind (qkv ac l xk xv xq) (fun t => let '(k, v, q) := t in
  Some (ring_bwd_kernel (cast ac k) (cast ac v) (cast ac q) (cast ac k) (a_quad l) n m p nlat, (k, v, q))).
End Forward.

(** ** _amp_utils.py:73-93 [_custom_setup_context] with torch.amp.custom_fwd and custom_bwd *)
(** torch.get_autocast_dtype and torch.is_autocast_enabled: the type is kept while autocast is off *)
Record acstate := mkac { s_dtype : dtype; s_enabled : bool }.
Definition active (s : acstate) : autocast := if s_enabled s then Some (s_dtype s) else None.
(** The attributes on ctx that custom_bwd looks for *)
Definition context := option (dtype * bool).
Definition custom_setup_context (s : acstate) (c : context) : context := Some (s_dtype s, s_enabled s).
(** torch.amp.custom_fwd alone: args[0] is an input and not ctx *)
Definition custom_fwd_only (s : acstate) (c : context) : context := c.
(** torch.amp.custom_bwd: autocast(enabled=ctx._fwd_used_autocast, dtype=ctx._dtype); an AttributeError without them *)
Definition custom_bwd (ambient : acstate) (c : context) : option acstate :=
  match c with Some (d, e) => Some (mkac d e) | None => None end.
