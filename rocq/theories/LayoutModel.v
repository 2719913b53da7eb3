(** Tensors in memory: strides, views, copies and the layout conversions of the attention
    (torch_harmonics/attention/_layout.py:118-184, torch_harmonics/utils.py:103-121).

    A tensor is a storage, an offset, a shape and strides; a memory maps storages and addresses to
    elements.  Only storages below [next] exist.  Strides are natural numbers, as torch's are.
    Errors are None. *)
From Coq Require Import List Arith Bool.
Import ListNotations.

Section Layout.
Variable A : Type.
Record mem := mkmem { next : nat; cells : nat -> nat -> A }.
Record ten := mkten { st : nat; off : nat; sh : list nat; str : list nat }.

Fixpoint dot (s i : list nat) : nat := match s, i with a :: s, b :: i => a * b + dot s i | _, _ => 0 end.
Definition addr (t : ten) (i : list nat) : nat := off t + dot (str t) i.
Definition elem (m : mem) (t : ten) (i : list nat) : A := cells m (st t) (addr t i).

Fixpoint numel (s : list nat) : nat := match s with [] => 1 | n :: r => n * numel r end.
(** The strides of a new tensor *)
Fixpoint packed (s : list nat) : list nat := match s with [] => [] | n :: r => numel r :: packed r end.
Fixpoint unflat (s : list nat) (a : nat) : list nat := match s with [] => [] | n :: r => a / numel r :: unflat r (a mod numel r) end.

(** c10's compute_contiguous: from the last dimension on, dimensions of size 1 are skipped; an empty tensor is contiguous *)
Fixpoint contig (s t : list nat) : option nat :=
  match s, t with
  | [], _ => Some 1
  | n :: r, a :: q =>
    match contig r q with
    | Some z => if n =? 1 then Some z else if a =? z then Some (z * n) else None
    | None => None
    end
  | _, [] => None
  end.
Definition is_contiguous (t : ten) : bool := (numel (sh t) =? 0) || match contig (sh t) (str t) with Some _ => true | None => false end.

(** A new storage that holds the elements of [t] in row-major order *)
Definition fill (m : mem) (f : nat -> A) : mem := mkmem (S (next m)) (fun s a => if s =? next m then f a else cells m s a).
Definition copy (m : mem) (t : ten) : mem * ten :=
  (fill m (fun a => elem m t (unflat (sh t) a)), mkten (next m) 0 (sh t) (packed (sh t))).
(** torch.Tensor.contiguous *)
Definition contiguous (m : mem) (t : ten) : mem * ten := if is_contiguous t then (m, t) else copy m t.
(** torch.Tensor.clone of a contiguous tensor: the strides are preserved *)
Definition clone (m : mem) (t : ten) : mem * ten :=
  (fill m (fun a => elem m t (unflat (sh t) a)), mkten (next m) 0 (sh t) (str t)).
Definition permute (d : list nat) (t : ten) : ten :=
  mkten (st t) (off t) (map (fun k => nth k (sh t) 0) d) (map (fun k => nth k (str t) 0) d).

(** _layout.py:118-133 [_permuted_copy] *)
Definition permuted_copy (m : mem) (d : list nat) (t : ten) : mem * ten :=
  let view := permute d t in
  if is_contiguous view then clone m view else contiguous m view.
(** What _permuted_copy's comment warns of *)
Definition naive_permuted (m : mem) (d : list nat) (t : ten) : mem * ten := contiguous m (permute d t).

(** A kernel that takes data_ptr () and counts in row-major order, after TORCH_CHECK(x.is_contiguous()) *)
Definition pointer (m : mem) (t : ten) : option (nat -> A) :=
  if is_contiguous t then Some (fun a => cells m (st t) (off t + a)) else None.
(** attention_cuda_utils.cu:206-220 and attention_cpu_permute.cpp:55-76; the tiled transposition itself is in CudaUtilsModel *)
Definition kernel_nhwc (m : mem) (t : ten) : option (mem * ten) :=
  match sh t, pointer m t with
  | [B; C; H; W], Some p =>
    Some (fill m (fun a => let b := a / (H * W * C) in let r := a mod (H * W * C) in let hw := r / C in let c := r mod C in
            p (b * (C * H * W) + c * (H * W) + hw)),
          mkten (next m) 0 [B; H; W; C] (packed [B; H; W; C]))
  | _, _ => None
  end.
Definition kernel_nchw (m : mem) (t : ten) : option (mem * ten) :=
  match sh t, pointer m t with
  | [B; H; W; C], Some p =>
    Some (fill m (fun a => let b := a / (C * (H * W)) in let r := a mod (C * (H * W)) in let c := r / (H * W) in let hw := r mod (H * W) in
            p (b * (H * W * C) + hw * C + c)),
          mkten (next m) 0 [B; C; H; W] (packed [B; C; H; W]))
  | _, _ => None
  end.
(** _layout.py:136-159 [to_nhwc] and 162-184 [to_nchw]; [optimized] says whether the extension is built *)
Definition to_nhwc (optimized : bool) (m : mem) (t : ten) : option (mem * ten) :=
  if length (sh t) =? 4 then
    if optimized then let (m', t') := contiguous m t in kernel_nhwc m' t' else Some (permuted_copy m [0; 2; 3; 1] t)
  else None.
Definition to_nchw (optimized : bool) (m : mem) (t : ten) : option (mem * ten) :=
  if length (sh t) =? 4 then
    if optimized then let (m', t') := contiguous m t in kernel_nchw m' t' else Some (permuted_copy m [0; 3; 1; 2] t)
  else None.
(** _layout.py:91-95 *)
Definition backward_to_nhwc (m : mem) (g : ten) : option (mem * ten) := let (m', g') := contiguous m g in kernel_nchw m' g'.
Definition backward_to_nchw (m : mem) (g : ten) : option (mem * ten) := let (m', g') := contiguous m g in kernel_nhwc m' g'.
(** utils.py:103-121 [_EnsureContiguous] *)
Definition ensure_contiguous (m : mem) (t : ten) : mem * ten := contiguous m t.
Definition ensure_contiguous_backward (m : mem) (g : ten) : mem * ten := contiguous m g.

(** x[i] = v *)
Definition write (m : mem) (t : ten) (i : list nat) (v : A) : mem :=
  mkmem (next m) (fun s a => if (s =? st t) && (a =? addr t i) then v else cells m s a).
End Layout.
