(** Model of torch_harmonics/distributed/primitives.py.

    SPMD programs are modelled on the family of all ranks of one process group:
    a family is a function [rank -> option tensor]; [None] means that the rank
    raised an exception (or is stuck in a collective whose peers raised or
    posted buffers of a different shape).  Only ranks below the group size are
    meaningful.  dtype casts (use_fp32, autocast) are identities here. *)
From Coq Require Import List Arith Lia Bool.
From Verif Require Import TensorModel.
Import ListNotations.

(** ** Local helpers *)

(** primitives.py:41-64 [get_group_neighbors].  [ranks] is
    dist.get_process_group_ranks(group), [me] the caller's global rank.
    list.index raises when [me] is not a member. *)
Fixpoint index_of (me : nat) (ranks : list nat) : option nat :=
  match ranks with
  | [] => None
  | r :: rs => if r =? me then Some 0 else option_map S (index_of me rs)
  end.
Definition get_group_neighbors (ranks : list nat) (me : nat) : option (nat * nat) :=
  let group_size := length ranks in
  do i <- index_of me ranks;
  (* (i - 1) % n in Python is (i + n - 1) mod n on naturals *)
  do prev <- nth_error ranks ((i + group_size - 1) mod group_size);
  do next <- nth_error ranks ((i + 1) mod group_size);
  Some (prev, next).

(** primitives.py:67-70 [_check_shapes] (zip stops at the shorter list). *)
Definition check_shapes (gathered expected : list nat) : bool :=
  forallb (fun p => fst p =? snd p) (combine gathered expected).

(** primitives.py:74-117 [compute_split_shapes].  divmod by zero raises. *)
Definition compute_split_shapes (size num_chunks : nat) : option (list nat) :=
  do _ <- guard (num_chunks <=? size);
  do _ <- guard (negb (num_chunks =? 0));
  let base := size / num_chunks in
  let remainder := size mod num_chunks in
  Some (repeat (base + 1) remainder ++ repeat base (num_chunks - remainder)).

Section Generic.
Context {A : Type}.

(** primitives.py:120-166 [split_tensor_along_dim] (for dim >= 0; the callers'
    negative dims are normalised to ndim + dim in this model). *)
Definition split_tensor_along_dim (t : tensor A) (dim num_chunks : nat) : option (list (tensor A)) :=
  do _ <- guard (dim <? ndim t);
  do _ <- guard (num_chunks <=? dimsz t dim);
  do sections <- compute_split_shapes (dimsz t dim) num_chunks;
  torch_split t sections dim.

(** primitives.py:169-213 [flatten_and_pad_leading_dims]; [zero] is the zero of
    the dtype.  Returns (tensor, lead_shape, lead_size). *)
Definition flatten_and_pad_leading_dims (zero : A) (t : tensor A) (min_leading_size num_trailing_dims : nat)
  : option (tensor A * list nat * nat) :=
  let k := ndim t - num_trailing_dims in
  let lead_shape := firstn k (shp t) in
  let t1 := flatten_lead k t in
  let lead_size := dimsz t1 0 in
  if lead_size <? min_leading_size then
    let zeros := const_t zero ((min_leading_size - lead_size) :: tl (shp t1)) in
    do t2 <- torch_cat 0 [t1; zeros]; Some (t2, lead_shape, lead_size)
  else Some (t1, lead_shape, lead_size).

(** primitives.py:216-224 [unpad_and_unflatten_leading_dims]; narrow raises when
    the requested slice does not fit. *)
Definition unpad_and_unflatten_leading_dims (t : tensor A) (lead_shape : list nat) (lead_size : nat)
  : option (tensor A) :=
  do _ <- guard (lead_size <=? dimsz t 0);
  torch_unflatten_lead lead_shape (narrow 0 0 lead_size t).

(** ** Collectives (torch.distributed), as functions on rank families *)
Definition fam (B : Type) := nat -> option B.

(** dist.all_to_all(x_recv, x_send): rank r receives from rank s the r-th
    tensor that s sends; every posted receive buffer must have the shape of the
    tensor that arrives in it. *)
Definition a2a_ok (n : nat) (send : fam (list (tensor A))) (recv : fam (list (list nat))) : bool :=
  forallb (fun s => forallb (fun r =>
    match send s, recv r with
    | Some ts, Some shs =>
        (length ts =? n) && (length shs =? n) &&
        match nth_error ts r, nth_error shs s with
        | Some t, Some sh => shape_eqb (shp t) sh
        | _, _ => false
        end
    | _, _ => false
    end) (seq 0 n)) (seq 0 n).
Definition all_to_all (n : nat) (send : fam (list (tensor A))) (recv : fam (list (list nat)))
  : fam (list (tensor A)) :=
  fun r => do _ <- guard (a2a_ok n send recv);
           mapM (fun s => do ts <- send s; nth_error ts r) (seq 0 n).

(** dist.all_gather(recv_list, x): every rank receives every rank's tensor. *)
Definition all_gather_ok (n : nat) (x : fam (tensor A)) (recv : fam (list (list nat))) : bool :=
  forallb (fun r => forallb (fun s =>
    match x s, recv r with
    | Some t, Some shs =>
        (length shs =? n) && match nth_error shs s with Some sh => shape_eqb (shp t) sh | None => false end
    | _, _ => false
    end) (seq 0 n)) (seq 0 n).
Definition all_gather (n : nat) (x : fam (tensor A)) (recv : fam (list (list nat))) : fam (list (tensor A)) :=
  fun r => do _ <- guard (all_gather_ok n x recv); mapM x (seq 0 n).

(** dist.all_gather of one integer per rank. *)
Definition all_gather_int (n : nat) (x : fam nat) : fam (list nat) := fun r => mapM x (seq 0 n).

Section Reductions.
Variables (zero : A) (add : A -> A -> A).

(** Elementwise sum of a non-empty list of tensors of equal shape. *)
Definition sum_tensors (ts : list (tensor A)) : option (tensor A) :=
  match ts with
  | [] => None
  | t :: _ =>
      if forallb (fun u => shape_eqb (shp t) (shp u)) ts
      then Some (mkT (shp t) (fun i => fold_right add zero (map (fun u => val u i) ts)))
      else None
  end.

(** dist.all_reduce (sum): all ranks post equally shaped tensors. *)
Definition all_reduce (n : nat) (x : fam (tensor A)) : fam (tensor A) :=
  fun r => do ts <- mapM x (seq 0 n); sum_tensors ts.

(** dist.reduce_scatter(output, input_list): rank r receives the sum over ranks
    of the r-th list entry; all entries of all ranks must have the same shape. *)
Definition rs_ok (n : nat) (x : fam (list (tensor A))) : bool :=
  match x 0 with
  | Some (t0 :: _) =>
      forallb (fun s => match x s with
                        | Some ts => (length ts =? n) && forallb (fun t => shape_eqb (shp t0) (shp t)) ts
                        | None => false end) (seq 0 n)
  | _ => false
  end.
Definition reduce_scatter_coll (n : nat) (x : fam (list (tensor A))) : fam (tensor A) :=
  fun r => do _ <- guard (rs_ok n x);
           do ts <- mapM (fun s => do l <- x s; nth_error l r) (seq 0 n);
           sum_tensors ts.

(** ** The library's primitives *)

(** primitives.py:351-369 [_reduce] (casts are identities). *)
Definition reduce_ (n : nat) (x : fam (tensor A)) : fam (tensor A) :=
  if n =? 1 then x else all_reduce n x.

(** primitives.py:441-503 [_reduce_scatter]. *)
Definition pad_chunk (dim max_chunk : nat) (c : tensor A) : option (tensor A) :=
  if dimsz c dim <? max_chunk
  then torch_cat dim [c; const_t zero (upd dim (max_chunk - dimsz c dim) (shp c))]
  else Some c.
Definition max_list (l : list nat) : nat := fold_right Nat.max 0 l.
Definition min_list (l : list nat) : nat := match l with [] => 0 | a :: r => fold_right Nat.min a r end.
Definition reduce_scatter_ (n dim : nat) (x : fam (tensor A)) : fam (tensor A) :=
  if n =? 1 then x else
  let input_list : fam (list (tensor A)) := fun r => do t <- x r; split_tensor_along_dim t dim n in
  fun r =>
    do t <- x r;
    do orig_shapes <- compute_split_shapes (dimsz t dim) n;
    let max_chunk := max_list orig_shapes in
    do my_chunk <- nth_error orig_shapes r;
    let is_even := min_list orig_shapes =? max_chunk in
    if is_even then reduce_scatter_coll n input_list r
    else
      let padded : fam (list (tensor A)) := fun s => do l <- input_list s; mapM (pad_chunk dim max_chunk) l in
      do output <- reduce_scatter_coll n padded r;
      if my_chunk <? max_chunk then Some (narrow dim 0 my_chunk output) else Some output.

End Reductions.

(** primitives.py:227-275 [_transpose].  [sizes] is dim1_split_sizes, [debug]
    is verify_shapes.  Returns the list of received tensors. *)
Definition transpose_debug_pre (n dim1 : nat) (sizes : list nat) (x : fam (tensor A)) (r : nat) : option unit :=
  do gathered <- all_gather_int n (fun s => do t <- x s; Some (dimsz t dim1)) r;
  guard (check_shapes gathered sizes).
Definition transpose_debug_post (n dim0 : nat) (x : fam (tensor A)) (x_send : fam (list (tensor A))) (r : nat) : option unit :=
  do t <- x r;
  do ts <- x_send r;
  do gathered <- all_gather_int n (fun s => do ts <- x_send s; do own <- nth_error ts s; Some (dimsz own dim0)) r;
  do _ <- guard (check_shapes gathered (map (fun u => dimsz u dim0) ts));
  guard (sum_list gathered =? dimsz t dim0).
Definition transpose_ (debug : bool) (n dim0 dim1 : nat) (sizes : list nat) (x : fam (tensor A)) : fam (list (tensor A)) :=
  if n =? 1 then fun r => do t <- x r; Some [t]
  else
    let x_send : fam (list (tensor A)) := fun r =>
      do _ <- (if debug then transpose_debug_pre n dim1 sizes x r else Some tt);
      do t <- x r; split_tensor_along_dim t dim0 n in
    let x_recv : fam (list (list nat)) := fun r =>
      do ts <- x_send r;
      do own <- nth_error ts r;
      Some (map (fun dim1_len => upd dim1 dim1_len (shp own)) sizes) in
    fun r =>
      do res <- all_to_all n x_send x_recv r;
      do _ <- (if debug then transpose_debug_post n dim0 x x_send r else Some tt);
      Some res.

(** primitives.py:278-289 / 314-325 forward of the transpose autograd functions
    ([_DistributeTransposeAzimuth], [_DistributeTransposePolar]); the branch
    "group not registered" is the branch n = 1 of the callers. *)
Definition distributed_transpose (debug : bool) (n dim0 dim1 : nat) (sizes : list nat) (x : fam (tensor A)) : fam (tensor A) :=
  fun r => do xs <- transpose_ debug n dim0 dim1 sizes x r; torch_cat dim1 xs.

(** primitives.py:291-311 / 327-347: setup_context stores the balanced split
    sizes of dim0; backward transposes back with them.  [x_dim0] is
    x.shape[dims[0]] of the forward input. *)
Definition distributed_transpose_bwd (debug : bool) (n dim0 dim1 x_dim0 : nat) (go : fam (tensor A)) : fam (tensor A) :=
  fun r => do dim0_split_sizes <- compute_split_shapes x_dim0 n;
           distributed_transpose debug n dim1 dim0 dim0_split_sizes go r.

(** primitives.py:372-385 [_split] *)
Definition split_ (n dim : nat) (x : fam (tensor A)) : fam (tensor A) :=
  if n =? 1 then x
  else fun r => do t <- x r; do l <- split_tensor_along_dim t dim n; nth_error l r.

(** primitives.py:388-438 [_gather]; [shapes] is the optional list of sizes. *)
Definition gather_ (debug : bool) (n dim : nat) (shapes : option (list nat)) (x : fam (tensor A)) : fam (tensor A) :=
  if n =? 1 then x
  else
    let sizes : fam nat := fun s => do t <- x s; Some (dimsz t dim) in
    let recv : fam (list (list nat)) := fun r =>
      do t <- x r;
      do _ <- guard (match shapes with Some l => length l =? n | None => true end);
      do _ <- guard (dim <? ndim t);
      do _ <- (match debug, shapes with
               | true, Some l => do g <- all_gather_int n sizes r; guard (check_shapes g l)
               | _, _ => Some tt end);
      do l <- (match shapes with Some l => Some l | None => all_gather_int n sizes r end);
      Some (map (fun len => upd dim len (shp t)) l) in
    fun r => do input_list <- all_gather n x recv r; torch_cat dim input_list.

End Generic.
