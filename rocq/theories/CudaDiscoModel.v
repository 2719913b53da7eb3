(** The CUDA kernels of the DISCO contraction and of its transpose
    (disco_cuda_fwd.cu, disco_cuda_bwd.cu, disco_cuda.cuh).

    Numbers are exact reals, so the storage and the compute type coincide, and 32-bit index
    arithmetic does not overflow.  The template parameter PSCALE repeats the argument pscale
    (disco_cuda_fwd.cu:164-170) and is dropped. *)
From Coq Require Import List Arith Lia Bool Reals.
From Verif Require Import TensorModel DiscoModel GpuModel.
Import ListNotations.
Local Open Scope nat_scope.

(** What limits a launch: shared elements per block without opting in to more, and the
    number of blocks along x and y. *)
Record device := mkDev { d_shared : nat; d_gridx : nat; d_gridy : nat }.

(** col_prev, h_prev, w_prev: the first entry of the current image row (of width w) *)
Record cprev := mkP { p_col : nat; p_h : nat; p_w : nat }.
Definition at_col (w : nat) (c : nat) : cprev := mkP c (c / w) (c mod w).
(** disco_cuda_fwd.cu:95, disco_cuda_bwd.cu:103: the test for a new row *)
Definition new_row (w : nat) (p : cprev) (e : entry) : bool := p_col p - p_w p + w <=? col e.
Definition next_prev (w : nat) (p : cprev) (e : entry) : cprev := if new_row w p e then at_col w (col e) else p.

(** ** Forward *)
(** Register i of a thread is __reg[i]; register E (= ELXTH) holds the temporary. *)
Section Fwd.
Variables (BD E Hi Wi K Ho Wo ps : nat).

(** disco_cuda_fwd.cu:76-80, 102-106: copy row h of the plane at [ibase] *)
Definition load_row (ibase h tid : nat) : list instr :=
  flat_map (fun i => [IGet E (ibase + h * Wi + i); IStore i (fun r => r E); IStore (Wi + i) (fun r => r E)]) (strided Wi tid Wi BD).
(** disco_cuda_fwd.cu:110-140: w = w_prev + (col - col_prev) may be negative; an access in
    front of the array is a fault *)
Definition fwd_acc (p : cprev) (e : entry) (tid : nat) : list instr :=
  flat_map (fun i => let pp := i * BD + tid in
    if p_w p + col e + ps * pp <? p_col p then [IFault]
    else [ILoad E (p_w p + col e + ps * pp - p_col p); ISet i (fun r => r i + pv e * r E)%R]) (seq 0 E).
(** disco_cuda_fwd.cu:85-141: the loop over the entries *)
Fixpoint fwd_loop (ibase : nat) (p : cprev) (l : list entry) (tid : nat) : list instr :=
  match l with
  | [] => []
  | e :: l => let p' := next_prev Wi p e in
      (if new_row Wi p e then barrier tid :: load_row ibase (p_h p') tid ++ [barrier tid] else []) ++
      fwd_acc p' e tid ++ fwd_loop ibase p' l tid
  end.
(** disco_cuda_fwd.cu:143-150; pp increases with i, so the break skips exactly pp >= Wo *)
Definition fwd_store (obase tid : nat) : list instr :=
  flat_map (fun i => let pp := i * BD + tid in if Wo <=? pp then [] else [IOut (obase + pp) (fun r => r i)]) (seq 0 E).
(** disco_cuda_fwd.cu:41-153 [disco_fwd_d], thread tid of block (bidx, bidy) *)
Definition fwd_thread (roff : list nat) (es : list entry) (bidx bidy tid : nat) : list instr :=
  let soff := nth bidx roff 0 in let eoff := nth (bidx + 1) roff 0 in
  match nth_error es soff with
  | None => [IFault]
  | Some e0 =>
      let ibase := bidy * Hi * Wi in
      let obase := bidy * K * Ho * Wo + ker e0 * Ho * Wo + row e0 * Wo in
      let p := at_col Wi (col e0) in
      map (fun i => ISet i (fun _ => 0%R)) (seq 0 E) ++ load_row ibase (p_h p) tid ++ [barrier tid] ++
      fwd_loop ibase p (slice es soff eoff) tid ++ fwd_store obase tid
  end.
End Fwd.

(** disco_cuda.cuh:46 *)
Definition elxth_max : nat := 32.
(** disco_cuda_fwd.cu:252-306, disco_cuda_bwd.cu:251-305: threads and elements per thread to
    start from, by the width of the output; beyond the widest the process exits. *)
Definition pick_config (W : nat) : option (nat * nat) :=
  if W <=? 64 * elxth_max then Some (64, 1)
  else if W <=? 128 * elxth_max then Some (128, elxth_max / 2 + 1)
  else if W <=? 256 * elxth_max then Some (256, elxth_max / 2 + 1)
  else if W <=? 512 * elxth_max then Some (512, elxth_max / 2 + 1)
  else if W <=? 1024 * elxth_max then Some (1024, elxth_max / 2 + 1)
  else None.
(** disco_cuda_fwd.cu:183-184, 208-214, disco_cuda_bwd.cu:180-181, 204-207 [launch_kernel]:
    the recursion over ELXTH.  Beyond ELXTH_MAX the code launches nothing and the caller
    returns zeros; the model has no kernel then. *)
Fixpoint find_elxth (fuel nth e W : nat) : option nat :=
  match fuel with
  | 0 => None
  | S f => if e <=? elxth_max then if W <=? nth * e then Some e else find_elxth f nth (S e) W else None
  end.
(** The launch check (disco_cuda_fwd.cu:308): an empty or too large grid or too much shared
    memory raises. *)
Definition launchable (dev : device) (gx gy shared : nat) : bool :=
  (1 <=? gx) && (gx <=? d_gridx dev) && (1 <=? gy) && (gy <=? d_gridy dev) && (shared <=? d_shared dev).

(** Tensors are contiguous (CHECK_CUDA_INPUT_TENSOR). *)
Definition flat (x : tensor R) (a : nat) : R := val x (unravel (shp x) a).
Definition tensor_of (s : list nat) (out : nat -> R) : tensor R := mkT s (fun i => out (ravel s i)).

(** disco_cuda_fwd.cu:175-311 [disco_cuda_fwd]: the kernel that is launched; the result is
    [tensor_of [B; C; K; Ho; Wo]] of its output, zero at the start.  Wo = 0 divides by
    zero.  Block (bidx, bidy) of the grid (nrows, B C) is group bidy * nrows + bidx. *)
Definition disco_cuda_fwd (dev : device) (K Ho Wo : nat) (roff : list nat) (es : list entry) (inp : tensor R) : option kernel :=
  do _ <- guard (ndim inp =? 4);
  let B := dimsz inp 0 in let C := dimsz inp 1 in let Hi := dimsz inp 2 in let Wi := dimsz inp 3 in
  let nrows := length roff - 1 in
  do _ <- guard ((1 <=? Wo) && (Wi mod Wo =? 0));
  do c <- pick_config Wo;
  do E <- find_elxth (S elxth_max) (fst c) (snd c) Wo;
  let ps := Wi / Wo in
  let shared := Wi * 2 + ps * (fst c * E - Wo) in
  do _ <- guard (launchable dev nrows (B * C) shared);
  Some (mkKernel (B * C * nrows) (fst c) shared (B * C * Hi * Wi) (flat inp) (B * C * K * Ho * Wo)
          (fun g tid => fwd_thread (fst c) E Hi Wi K Ho Wo ps roff es (g mod nrows) (g / nrows) tid)).

(** ** Backward *)
(** Registers 0 .. E-1 hold the input row, E and E+1 the temporaries.  [Wi] is the width of
    the input of this kernel, i.e. of the smaller grid. *)
Section Bwd.
Variables (BD E Hi Wi K Ho Wo ps : nat).
(** __sh[i][j] *)
Definition cell (i j : nat) : nat := i * (BD * E * 2) + j.

(** disco_cuda_bwd.cu:71-75 *)
Definition bwd_regs (ibase tid : nat) : list instr :=
  map (fun i => if i * BD + tid <? Wi then IGet i (ibase + (i * BD + tid)) else ISet i (fun _ => 0%R)) (seq 0 E).
(** disco_cuda_bwd.cu:81-84 *)
Definition bwd_zero (tid : nat) : list instr :=
  flat_map (fun i => map (fun j => IStore (cell i (j + tid)) (fun _ => 0%R)) (strided (2 * BD * E) 0 (2 * BD * E) BD)) (seq 0 ps).
(** disco_cuda_bwd.cu:105-115, 141-148: add the lanes to output row h; [clear] also resets them *)
Definition bwd_flush (clear : bool) (obase h tid : nat) : list instr :=
  flat_map (fun i => flat_map (fun j =>
    [ILoad E (cell i j); ILoad (S E) (cell i (Wi + j)); IAtom AAdd (obase + (h * Wo + j * ps + i)) (fun r => r E + r (S E))%R] ++
    (if clear then [IStore (cell i j) (fun _ => 0%R); IStore (cell i (Wi + j)) (fun _ => 0%R)] else []))
    (strided Wi tid Wi BD)) (seq 0 ps).
(** disco_cuda_bwd.cu:123-132: w = w_prev + (col - col_prev); C++ division truncates, so a
    negative w gives the cell -(|w| mod ps) * 2 BD E - |w| / ps + pp *)
Definition bwd_acc (p : cprev) (e : entry) (tid : nat) : list instr :=
  flat_map (fun i => let pp := i * BD + tid in
    let add := fun a => [ILoad E a; IStore a (fun r => r E + pv e * r i)%R] in
    if p_w p + col e <? p_col p
    then let m := p_col p - (p_w p + col e) in let off := cell (m mod ps) (m / ps) in
         if pp <? off then [IFault] else add (pp - off)
    else let w := p_w p + col e - p_col p in add (cell (w mod ps) (w / ps + pp))) (seq 0 E).
(** disco_cuda_bwd.cu:93-137 *)
Fixpoint bwd_loop (obase : nat) (p : cprev) (l : list entry) (tid : nat) : list instr :=
  match l with
  | [] => []
  | e :: l => let p' := next_prev Wo p e in
      (if new_row Wo p e then barrier tid :: bwd_flush true obase (p_h p) tid ++ [barrier tid] else []) ++
      bwd_acc p' e tid ++ [barrier tid] ++ bwd_loop obase p' l tid
  end.
(** h_prev after the loop *)
Definition last_prev (p : cprev) (l : list entry) : cprev := fold_left (next_prev Wo) l p.
(** disco_cuda_bwd.cu:41-150 [disco_bwd_d] *)
Definition bwd_thread (roff : list nat) (es : list entry) (bidx bidy tid : nat) : list instr :=
  let soff := nth bidx roff 0 in let eoff := nth (bidx + 1) roff 0 in
  match nth_error es soff with
  | None => [IFault]
  | Some e0 =>
      let ibase := bidy * K * Hi * Wi + ker e0 * Hi * Wi + row e0 * Wi in
      let obase := bidy * Ho * Wo in
      let p := at_col Wo (col e0) in
      bwd_regs ibase tid ++ bwd_zero tid ++ [barrier tid] ++ bwd_loop obase p (slice es soff eoff) tid ++ [barrier tid] ++
      bwd_flush false obase (p_h (last_prev p (slice es soff eoff))) tid
  end.
End Bwd.

(** disco_cuda_bwd.cu:212-313 [disco_cuda_bwd]: as above; result [B; C; Ho; Wo].  The
    configuration is picked by Wo (line 251), the elements per thread by Wi (line 181). *)
Definition disco_cuda_bwd (dev : device) (K Ho Wo : nat) (roff : list nat) (es : list entry) (inp : tensor R) : option kernel :=
  do _ <- guard (ndim inp =? 5);
  let B := dimsz inp 0 in let C := dimsz inp 1 in let Hi := dimsz inp 3 in let Wi := dimsz inp 4 in
  let nrows := length roff - 1 in
  do _ <- guard ((1 <=? Wi) && (Wo mod Wi =? 0));
  do c <- pick_config Wo;
  do E <- find_elxth (S elxth_max) (fst c) (snd c) Wi;
  let ps := Wo / Wi in
  let shared := 2 * (fst c * E) * ps in
  do _ <- guard (launchable dev nrows (B * C) shared);
  Some (mkKernel (B * C * nrows) (fst c) shared (B * C * dimsz inp 2 * Hi * Wi) (flat inp) (B * C * Ho * Wo)
          (fun g tid => bwd_thread (fst c) E Hi Wi K Ho Wo ps roff es (g mod nrows) (g / nrows) tid)).
