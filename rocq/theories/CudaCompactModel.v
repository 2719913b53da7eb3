(** attention_cuda_utils.cuh:356-404: how the threads that found a neighbour share out the places of
    the list in shared memory.  The warp exchanges and the barriers of [__compact] order its phases,
    so each phase is a function of the one before; a mask is a number, as in the code. *)
From Coq Require Import List Arith NArith Bool.
Import ListNotations.
Local Open Scope nat_scope.

(** __ballot_sync: bit l is set if the predicate of lane l holds *)
Definition ballot (pred : nat -> bool) : N := fold_left (fun m l => if pred l then N.setbit m (N.of_nat l) else m) (seq 0 32) 0%N.
(** __popc *)
Definition popc (m : N) : nat := length (filter (fun l => N.testbit m (N.of_nat l)) (seq 0 32)).
(** attention_cuda_utils.cuh:356-361 [__lanemask_lt]: the bits below the lane's *)
Definition lanemask_lt (lane : nat) : N := N.ones (N.of_nat lane).
(** attention_cuda_utils.cuh:363-368 [__warp_compact]: the index and the returned count *)
Definition warp_compact (pred : nat -> bool) (lane : nat) : nat * nat := let mask := ballot pred in (popc (N.land mask (lanemask_lt lane)), popc mask).
(** attention_cuda_utils.cuh:390-394: the loop over i = 1, 2, 4, ... below NWARP; lane l receives from lane l - i.  As many turns as warps are enough. *)
Fixpoint shfl_scan (turns nwarp i : nat) (val : nat -> nat) : nat -> nat :=
  match turns with
  | 0 => val
  | S k => if i <? nwarp then shfl_scan k nwarp (i * 2) (fun lid => if i <=? lid then val lid + val (lid - i) else val lid) else val
  end.
(** attention_cuda_utils.cuh:370-404 [__compact] of thread t of a block of BDIM_X threads, or of lane t of a warp when BDIM_X = 32; the index and the returned count *)
Definition compact (BDIM_X : nat) (pred : nat -> bool) (t : nat) : nat * nat :=
  if 32 <? BDIM_X then
    let nwarp := BDIM_X / 32 in let wid := t / 32 in
    let warp w lane := warp_compact (fun l => pred (w * 32 + l)) lane in
    let sh w := snd (warp w 0) in
    let val := shfl_scan nwarp nwarp 1 (fun lid => if (0 <? lid) && (lid <? nwarp) then sh (lid - 1) else 0) in
    (fst (warp wid (t mod 32)) + val wid, length (filter pred (seq 0 BDIM_X)))
  else warp_compact pred t.
