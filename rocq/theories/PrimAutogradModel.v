(** Model of the autograd functions of torch_harmonics/distributed/primitives.py
    (lines 506-771) and of the halo exchange (1022-1163), over real elements.
    [n] is the size of the process group; the code's test "group registered" is
    the test [n = 1] inside the primitives here (an unregistered group has size
    1), except for the halo exchange where it is a separate flag. *)
From Coq Require Import List Arith Lia Bool Reals.
From Verif Require Import TensorModel PrimModel.
Import ListNotations.

Definition rreduce := reduce_ 0%R Rplus.
Definition rreduce_scatter := reduce_scatter_ 0%R Rplus.

(** 506-553 [_CopyToPolarRegion], [_CopyToAzimuthRegion] *)
Definition copy_fwd (n : nat) (x : fam (tensor R)) : fam (tensor R) := x.
Definition copy_bwd (n : nat) (go : fam (tensor R)) : fam (tensor R) := rreduce n go.

(** 556-584 [_ScatterToPolarRegion]; [x_dim] is input_.shape[dim_] *)
Definition scatter_fwd (n d : nat) (x : fam (tensor R)) : fam (tensor R) := split_ n d x.
Definition scatter_bwd (debug : bool) (n d x_dim : nat) (go : fam (tensor R)) : fam (tensor R) :=
  fun r => do split_shapes <- compute_split_shapes x_dim n; gather_ debug n d (Some split_shapes) go r.

(** 587-613 [_GatherFromPolarRegion] *)
Definition gather_fwd (debug : bool) (n d : nat) (shapes : option (list nat)) (x : fam (tensor R)) := gather_ debug n d shapes x.
Definition gather_bwd (n d : nat) (go : fam (tensor R)) := split_ n d go.

(** 616-669 [_ReduceFromPolarRegion], [_ReduceFromAzimuthRegion] *)
Definition reduce_fwd (n : nat) (x : fam (tensor R)) := rreduce n x.
Definition reduce_bwd (n : nat) (go : fam (tensor R)) := go.

(** 672-739 [_ReduceFromScatterToPolarRegion], [...AzimuthRegion] *)
Definition rs_fwd (n d : nat) (x : fam (tensor R)) := rreduce_scatter n d x.
Definition rs_bwd (debug : bool) (n d x_dim : nat) (go : fam (tensor R)) : fam (tensor R) :=
  fun r => do split_shapes <- compute_split_shapes x_dim n; gather_ debug n d (Some split_shapes) go r.

(** 742-771 [_GatherFromCopyToPolarRegion] *)
Definition gfc_fwd (debug : bool) (n d : nat) (shapes : option (list nat)) (x : fam (tensor R)) := gather_ debug n d shapes x.
Definition gfc_bwd (n d : nat) (go : fam (tensor R)) := rreduce_scatter n d go.

(** ** Halo exchange *)
(** Python slices along dimension [d]: x[:r] and x[-r:] (note that -0: is the
    whole tensor). *)
Definition slice_to {A} (d r : nat) (t : tensor A) : tensor A := narrow d 0 (Nat.min r (dimsz t d)) t.
Definition slice_last {A} (d r : nat) (t : tensor A) : tensor A :=
  if r =? 0 then t else narrow d (dimsz t d - r) (dimsz t d - (dimsz t d - r)) t.
(** x[lo:hi] for lo, hi >= 0, and x[lo:]. *)
Definition slice {A} (d lo hi : nat) (t : tensor A) : tensor A :=
  let hi' := Nat.min hi (dimsz t d) in let lo' := Nat.min lo hi' in narrow d lo' (hi' - lo') t.
Definition slice_from {A} (d lo : nat) (t : tensor A) : tensor A := slice d lo (dimsz t d) t.

(** Point-to-point receive: the buffer has shape [sh]; the message must match. *)
Definition recv_into (sh : list nat) (msg : option (tensor R)) : option (tensor R) :=
  do m <- msg; do _ <- guard (shape_eqb (shp m) sh); Some m.

(** 1036-1071 forward, for 4-d tensors, dim 2 is latitude.  [n] = group_size. *)
Definition halo_fwd (n r_lat : nat) (x : fam (tensor R)) : fam (tensor R) :=
  let send_top : fam (tensor R) := fun r => do t <- x r; Some (slice_to 2 r_lat t) in
  let send_bot : fam (tensor R) := fun r => do t <- x r; Some (slice_last 2 r_lat t) in
  fun r =>
    do t <- x r;
    do _ <- guard (ndim t =? 4);
    let zero_buf := const_t 0%R (upd 2 r_lat (shp t)) in
    do recv_top <- (if 0 <? r then recv_into (shp zero_buf) (send_bot (r - 1)) else Some zero_buf);
    do recv_bot <- (if r <? n - 1 then recv_into (shp zero_buf) (send_top (r + 1)) else Some zero_buf);
    torch_cat 2 [recv_top; t; recv_bot].

(** 1086-1139 backward; [h r] is ctx.H on rank r. *)
Definition add_to_rows {A} (add : A -> A -> A) (d lo : nat) (t u : tensor A) : tensor A :=
  (* t[lo : lo+size(u)] += u *)
  mkT (shp t) (fun i => if (lo <=? nth d i 0) && (nth d i 0 <? lo + dimsz u d)
                        then add (val t i) (val u (upd d (nth d i 0 - lo) i)) else val t i).
Definition halo_bwd (n r_lat : nat) (h : nat -> nat) (dout : fam (tensor R)) : fam (tensor R) :=
  let to_prev : fam (tensor R) := fun r => do t <- dout r; Some (slice 2 0 r_lat t) in
  let to_next : fam (tensor R) := fun r => do t <- dout r; Some (slice_from 2 (r_lat + h r) t) in
  fun r =>
    do t <- dout r;
    do _ <- guard (ndim t =? 4);
    let dx := slice 2 r_lat (r_lat + h r) t in
    let buf := upd 2 r_lat (shp t) in
    do dx1 <- (if 0 <? r then
                 do m <- recv_into buf (to_next (r - 1));
                 (* dx[:r_lat] + recv: shapes must agree *)
                 do _ <- guard (r_lat <=? dimsz dx 2); Some (add_to_rows Rplus 2 0 dx m)
               else Some dx);
    if r <? n - 1 then
      do m <- recv_into buf (to_prev (r + 1));
      do _ <- guard (r_lat <=? dimsz dx 2); Some (add_to_rows Rplus 2 (dimsz dx 2 - r_lat) dx1 m)
    else Some dx1.
