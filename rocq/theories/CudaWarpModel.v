(** Sums over the threads of a warp and of a block, and the loops over channels, as the CUDA
    attention kernels use them (attention_cuda_utils.cuh).

    Numbers are exact reals.  A vector type (float4) is V consecutive numbers: a pointer to
    it advanced by n points V n numbers further, and the components of a vector accumulator
    are added as they come, not at the end (__vred). *)
From Coq Require Import List Arith Lia Bool Reals.
From Verif Require Import TensorModel GpuModel.
Import ListNotations.
Local Open Scope nat_scope.

(** attention_cuda_utils.cuh:241-248 [__warp_sum] of register r, in the warps [who] *)
Definition warp_sum (who : nat -> bool) (r : nat) : list gstep :=
  map (fun i => Shf who (fun t all => put r (all t r + all (Nat.lxor t i) r)%R (all t))) [16; 8; 4; 2; 1].
(** attention_cuda_utils.cuh:302-335 [__block_sum] with NW warps; the array sh starts at
    address sc of the shared memory *)
Definition block_sum (NW sc r : nat) : list gstep :=
  warp_sum (fun _ => true) r ++
  (if 1 <? NW then
     [Seg (fun t => if t mod warp_size =? 0 then [IStore (sc + t / warp_size) (fun rg => rg r)] else []);
      Bar (fun t all => all t);
      Seg (fun t => if t / warp_size =? 0 then (if t mod warp_size <? NW then [ILoad r (sc + t mod warp_size)] else [ISet r (fun _ => 0%R)]) else [])] ++
     warp_sum (fun w => w =? 0) r ++
     [Shf (fun w => w =? 0) (fun t all => all t);
      Seg (fun t => if (t / warp_size =? 0) && (t mod warp_size =? 0) then [IStore sc (fun rg => rg r)] else []);
      Bar (fun t all => all t);
      Seg (fun t => [ILoad r sc]);
      Bar (fun t all => all t)]
   else []).

(** the numbers in the vectors [us] *)
Definition floats (V : nat) (us : list nat) : list nat := flat_map (fun u => map (fun j => V * u + j) (seq 0 V)) us.
(** for (int chan = tidx; chan < n; chan += BD) *)
Definition loop_chans (BD n t : nat) : list nat := strided n t n BD.
(** for (int i = 0; i < NLOC - 1; i++) { ... i * BD + tidx ... } if ((NLOC - 1) * BD + tidx < n) { ... } *)
Definition unrolled_chans (BD nloc n t : nat) : list nat :=
  map (fun i => i * BD + t) (seq 0 (nloc - 1)) ++ (if (nloc - 1) * BD + t <? n then [(nloc - 1) * BD + t] else []).
(** for (int i = 0; i < NLOC; i++) *)
Definition all_chans (BD nloc t : nat) : list nat := map (fun i => i * BD + t) (seq 0 nloc).

(** Input and output arrays are parts (start, size) of one array; an access outside its part
    is a fault. *)
Definition get (p : nat * nat) (r i : nat) : instr := if i <? snd p then IGet r (fst p + i) else IFault.
Definition set_out (p : nat * nat) (i : nat) (f : (nat -> R) -> R) : instr := if i <? snd p then IOut (fst p + i) f else IFault.
Definition add_out (o : aop) (p : nat * nat) (i : nat) (f : (nat -> R) -> R) : instr := if i <? snd p then IAtom o (fst p + i) f else IFault.
